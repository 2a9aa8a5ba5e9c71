(** * sdd/mem/hash_table.hh: intrusive hash table with chaining

    Elements live in a memory [mem]: a partial map from addresses to cells, a cell being the data and
    the hook (pointer to the next element of the bucket).  Dereferencing an address without cell, or
    accessing an inexistent bucket, is undefined behaviour ([HUB]).  Loops along a chain carry a number
    of steps ([HFuel] when exhausted); theorems exclude both outcomes. *)

From Coq Require Import List Bool NArith Arith Lia Permutation.
From Verif Require Import Base Pow2.
Import ListNotations.

Definition ptr : Type := N.
Inductive herr : Type := HUB | HFuel | HAssert.

(** Write one slot of an array. *)
Fixpoint replace {A : Type} (i : nat) (v : A) (l : list A) : list A :=
  match l, i with
  | [], _ => []
  | _ :: r, O => v :: r
  | x :: r, S j => x :: replace j v r
  end.

(** size_t arithmetic. *)
Definition u64 (n : N) : N := (n mod 2 ^ 64)%N.

Lemma exists_last_or_nil : forall A (l : list A), l = [] \/ exists l' q, l = l' ++ [q].
Proof.
  intros A l. destruct l as [|a l]; [auto|right]. destruct (exists_last (l := a :: l)) as (l' & q & E); [discriminate|].
  eauto.
Qed.

Section HashTable.
  Context {D K : Type}.
  Variable key : D -> K.
  Variable keq : K -> K -> bool.                  (* operator== *)
  Variable hash : K -> N.                         (* std::hash *)

  (** A cell: the data and its intrusive_member_hook (30-35). *)
  Record cell : Type := { c_data : D; c_next : option ptr }.
  Definition mem : Type := ptr -> option cell.
  Definition upd (m : mem) (p : ptr) (c : option cell) : mem := fun q => if N.eqb q p then c else m q.
  Definition dat (m : mem) (p : ptr) : option D := option_map c_data (m p).
  Definition deref (m : mem) (p : ptr) : res herr cell :=
    match m p with
    | Some c => Ok c
    | None => Err HUB
    end.

  (** nb_buckets_, size_, buckets_, nb_rehash_ (55-66).  The load factor is in [max_load]. *)
  Record table : Type := { nb : N; size_ : N; bks : list (option ptr); nb_rehash : N }.

  (** hash & (nb_buckets - 1), in size_t arithmetic. *)
  Definition pos (k : K) (n : N) : N := N.land (hash k) (u64 (n + (2 ^ 64 - 1))).
  Definition bucket (b : list (option ptr)) (i : N) : res herr (option ptr) :=
    match nth_error b (N.to_nat i) with
    | Some c => Ok c
    | None => Err HUB
    end.

  (** Constructor, 70-78. *)
  Definition make_table (size : N) : table :=
    let n := next_power_of_2_64 size in
    {| nb := n; size_ := 0; bks := repeat None (N.to_nat n); nb_rehash := 0 |}.

  (** The search loop of insert_check (92-99) and insert_impl (286-293). *)
  Fixpoint find_loop (fuel : nat) (m : mem) (k : K) (cur : option ptr) : res herr (option ptr) :=
    match cur with
    | None => Ok None
    | Some p =>
        match fuel with
        | O => Err HFuel
        | S f => rbind (deref m p) (fun c =>
            if keq k (key (c_data c)) then Ok (Some p) else find_loop f m k (c_next c))
        end
    end.

  (** insert_check, 80-102: the element found, and the bucket for insert_commit. *)
  Definition insert_check (m : mem) (t : table) (k : K) : res herr (option ptr * N) :=
    let i := pos k (nb t) in
    rbind (bucket (bks t) i) (fun cur =>
    rbind (find_loop (N.to_nat (size_ t)) m k cur) (fun r => Ok (r, i))).

  (** The loop of insert_commit, 115-119: previous when current becomes null. *)
  Fixpoint last_loop (fuel : nat) (m : mem) (prev cur : option ptr) : res herr (option ptr) :=
    match cur with
    | None => Ok prev
    | Some p =>
        match fuel with
        | O => Err HFuel
        | S f => rbind (deref m p) (fun c => last_loop f m cur (c_next c))
        end
    end.
  (** p->hook.next = n. *)
  Definition set_next (m : mem) (p : ptr) (n : option ptr) : res herr mem :=
    rbind (deref m p) (fun c => Ok (upd m p (Some {| c_data := c_data c; c_next := n |}))).

  (** insert_commit, 104-132. *)
  Definition insert_commit (m : mem) (t : table) (x : ptr) (i : N) : res herr (mem * table) :=
    rbind (bucket (bks t) i) (fun cur =>
    rbind (last_loop (N.to_nat (size_ t)) m None cur) (fun prev =>
    match prev with
    | Some q =>
        rbind (set_next m q (Some x)) (fun m' =>
        Ok (m', {| nb := nb t; size_ := size_ t + 1; bks := bks t; nb_rehash := nb_rehash t |}))
    | None =>
        Ok (m, {| nb := nb t; size_ := size_ t + 1; bks := replace (N.to_nat i) (Some x) (bks t);
                  nb_rehash := nb_rehash t |})
    end)).

  (** insert_impl, 278-301, on (buckets, size_). *)
  Definition insert_impl (m : mem) (b : list (option ptr)) (n sz : N) (x : ptr)
      : res herr (mem * list (option ptr) * N * (ptr * bool)) :=
    rbind (deref m x) (fun cx =>
    let i := pos (key (c_data cx)) n in
    rbind (bucket b i) (fun cur =>
    rbind (find_loop (N.to_nat sz) m (key (c_data cx)) cur) (fun r =>
    match r with
    | Some p => Ok (m, b, sz, (p, false))
    | None =>
        rbind (set_next m x cur) (fun m' =>
        Ok (m', replace (N.to_nat i) (Some x) b, (sz + 1)%N, (x, true)))
    end))).

  (** The loop of rehash on one bucket, 262-268. *)
  Fixpoint rehash_bucket (fuel : nat) (n : N) (cur : option ptr) (st : mem * list (option ptr) * N)
      : res herr (mem * list (option ptr) * N) :=
    match cur with
    | None => Ok st
    | Some p =>
        match fuel with
        | O => Err HFuel
        | S f =>
            let '(m, b, sz) := st in
            rbind (deref m p) (fun c =>
            rbind (set_next m p None) (fun m1 =>
            rbind (insert_impl m1 b n sz p) (fun r =>
            rehash_bucket f n (c_next c) (fst r))))
        end
    end.
  Fixpoint rehash_loop (fuel : nat) (n : N) (old : list (option ptr)) (st : mem * list (option ptr) * N)
      : res herr (mem * list (option ptr) * N) :=
    match old with
    | [] => Ok st
    | cur :: r => rbind (rehash_bucket fuel n cur st) (fun st' => rehash_loop fuel n r st')
    end.
  (** load_factor() >= max_load_factor_ (251).  Sizes and powers of two below 2^53 are represented
      exactly by doubles and the quotient by a power of two is exact: [num / den] is max_load_factor_. *)
  Definition overloaded (num den : N) (t : table) : bool := (num * nb t <=? den * size_ t)%N.
  (** rehash, 249-275. *)
  Definition rehash (num den : N) (m : mem) (t : table) : res herr (mem * table) :=
    if overloaded num den t then
      let n := u64 (nb t * 2) in
      rbind (rehash_loop (N.to_nat (size_ t)) n (bks t) (m, repeat None (N.to_nat n), 0%N)) (fun st =>
      let '(m', b, sz) := st in
      Ok (m', {| nb := n; size_ := sz; bks := b; nb_rehash := nb_rehash t + 1 |}))
    else Ok (m, t).
  (** insert, 135-141; the default load factor 0.75 (70). *)
  Definition insert (m : mem) (t : table) (x : ptr) : res herr (mem * table * (ptr * bool)) :=
    rbind (insert_impl m (bks t) (nb t) (size_ t) x) (fun r =>
    let '(m1, b, sz, ret) := r in
    rbind (rehash 3 4 m1 {| nb := nb t; size_ := sz; bks := b; nb_rehash := nb_rehash t |}) (fun st =>
    Ok (fst st, snd st, ret))).

  (** The loop of erase, 166-184. *)
  Fixpoint erase_loop (fuel : nat) (m : mem) (b : list (option ptr)) (i : N) (k : K) (prev cur : option ptr)
      : res herr (mem * list (option ptr)) :=
    match cur with
    | None => Err HAssert                                     (* 185: element not found *)
    | Some p =>
        match fuel with
        | O => Err HFuel
        | S f => rbind (deref m p) (fun c =>
            if keq k (key (c_data c)) then
              match prev with
              | None => Ok (m, replace (N.to_nat i) (c_next c) b)
              | Some q => rbind (set_next m q (c_next c)) (fun m' => Ok (m', b))
              end
            else erase_loop f m b i k cur (c_next c))
        end
    end.
  (** erase, 160-186. *)
  Definition erase (m : mem) (t : table) (x : ptr) : res herr (mem * table) :=
    rbind (deref m x) (fun cx =>
    let i := pos (key (c_data cx)) (nb t) in
    rbind (bucket (bks t) i) (fun cur =>
    rbind (erase_loop (N.to_nat (size_ t)) m (bks t) i (key (c_data cx)) None cur) (fun r =>
    Ok (fst r, {| nb := nb t; size_ := size_ t - 1; bks := snd r; nb_rehash := nb_rehash t |})))).

  (** clear_and_dispose, 189-205.  [dispose p] acts on a state of which [mem_of] is the memory; the next
      element is read before. *)
  Section Clear.
    Context {S : Type}.
    Variable mem_of : S -> mem.
    Variable dispose : ptr -> S -> res herr S.
    Fixpoint clear_bucket (fuel : nat) (cur : option ptr) (s : S) : res herr S :=
      match cur with
      | None => Ok s
      | Some p =>
          match fuel with
          | O => Err HFuel
          | Datatypes.S f =>
              rbind (deref (mem_of s) p) (fun c =>
              rbind (dispose p s) (fun s' => clear_bucket f (c_next c) s'))
          end
      end.
    Fixpoint clear_loop (fuel : nat) (b : list (option ptr)) (s : S) : res herr S :=
      match b with
      | [] => Ok s
      | cur :: r => rbind (clear_bucket fuel cur s) (fun s' => clear_loop fuel r s')
      end.
    Definition clear_and_dispose (t : table) (s : S) : res herr (S * table) :=
      rbind (clear_loop (N.to_nat (size_ t)) (bks t) s) (fun s' =>
      Ok (s', {| nb := nb t; size_ := 0; bks := repeat None (length (bks t)); nb_rehash := nb_rehash t |})).
  End Clear.

  (** Length of a chain; collisions(), 224-245: (collisions, alone, empty). *)
  Fixpoint chain_length (fuel : nat) (m : mem) (cur : option ptr) : res herr nat :=
    match cur with
    | None => Ok 0
    | Some p =>
        match fuel with
        | O => Err HFuel
        | S f => rbind (deref m p) (fun c => rbind (chain_length f m (c_next c)) (fun n => Ok (S n)))
        end
    end.
  Fixpoint collisions_loop (fuel : nat) (m : mem) (b : list (option ptr)) (acc : N * N * N) : res herr (N * N * N) :=
    match b with
    | [] => Ok acc
    | cur :: r =>
        rbind (chain_length fuel m cur) (fun n =>
        let '(col, alone, empty) := acc in
        collisions_loop fuel m r
          (match n with
           | O => (col, alone, empty + 1)
           | S O => (col, alone + 1, empty)
           | _ => (col + 1, alone, empty)
           end)%N)
    end.
  Definition collisions (m : mem) (t : table) : res herr (N * N * N) :=
    collisions_loop (N.to_nat (size_ t)) m (bks t) (0, 0, 0)%N.

  (** ** Representation invariant *)

  Hypothesis keq_spec : forall a b, keq a b = true <-> a = b.

  Fixpoint chain (m : mem) (cur : option ptr) (l : list ptr) : Prop :=
    match l with
    | [] => cur = None
    | p :: r => cur = Some p /\ exists c, m p = Some c /\ chain m (c_next c) r
    end.

  (** [repr m n b sz bs]: the [n] buckets [b] hold the chains [bs]. *)
  Record repr (m : mem) (n : N) (b : list (option ptr)) (sz : N) (bs : list (list ptr)) : Prop := {
    r_pow : exists e, (n = 2 ^ e /\ e < 64)%N;
    r_len : length b = N.to_nat n;
    r_chain : Forall2 (chain m) b bs;
    r_nodup : NoDup (concat bs);
    r_size : sz = N.of_nat (length (concat bs));
    r_pos : forall i l p d, nth_error bs i = Some l -> In p l -> dat m p = Some d ->
            N.to_nat (pos (key d) n) = i;
    r_keys : forall p q d e, In p (concat bs) -> In q (concat bs) -> dat m p = Some d -> dat m q = Some e ->
             key d = key e -> p = q
  }.

  Lemma pos_lt : forall k n, (exists e, n = 2 ^ e /\ e < 64)%N -> N.to_nat (pos k n) < N.to_nat n.
  Proof.
    intros k n (e & -> & He). unfold pos, u64.
    assert (P : (0 < 2 ^ e)%N) by (apply N.neq_0_lt_0, N.pow_nonzero; lia).
    assert (Q : (2 ^ e < 2 ^ 64)%N) by (apply N.pow_lt_mono_r; lia).
    replace (2 ^ e + (2 ^ 64 - 1))%N with (2 ^ e - 1 + 1 * 2 ^ 64)%N by lia.
    rewrite N.mod_add by lia. rewrite N.mod_small by lia.
    rewrite <- N.pred_sub, <- N.ones_equiv, N.land_ones.
    pose proof (N.mod_lt (hash k) (2 ^ e)). lia.
  Qed.

  (** *** Chains *)

  Lemma chain_ext : forall m m' l cur, (forall p, In p l -> m' p = m p) -> chain m cur l -> chain m' cur l.
  Proof.
    intros m m' l. induction l as [|p l IH]; intros cur H C; cbn [chain] in *; auto.
    destruct C as (-> & c & Hc & C). split; auto. exists c. rewrite H by (simpl; auto). split; auto.
    apply IH; auto. intros q Hq. apply H. now right.
  Qed.
  Lemma upd_same : forall m p c, upd m p c p = c.
  Proof. intros. unfold upd. now rewrite N.eqb_refl. Qed.
  Lemma upd_other : forall m p c q, q <> p -> upd m p c q = m q.
  Proof. intros m p c q H. unfold upd. apply N.eqb_neq in H. now rewrite H. Qed.
  Lemma chain_upd : forall m p c l cur, ~ In p l -> chain m cur l -> chain (upd m p c) cur l.
  Proof. intros m p c l cur H. apply chain_ext. intros q Hq. apply upd_other. congruence. Qed.
  Lemma chain_dat : forall m l cur p, chain m cur l -> In p l -> exists d, dat m p = Some d.
  Proof.
    intros m l. induction l as [|q l IH]; intros cur p C []; cbn [chain] in C;
      destruct C as (-> & c & Hc & C).
    - subst q. exists (c_data c). unfold dat. now rewrite Hc.
    - eapply IH; eauto.
  Qed.

  Definition has_key (m : mem) (k : K) (p : ptr) : bool :=
    match dat m p with
    | Some d => keq k (key d)
    | None => false
    end.
  Lemma has_key_spec : forall m k p, has_key m k p = true <-> exists d, dat m p = Some d /\ key d = k.
  Proof.
    intros m k p. unfold has_key. destruct (dat m p) as [d|].
    - rewrite keq_spec. split.
      + intros ->. eauto.
      + intros (e & E & <-). congruence.
    - split; [discriminate|]. intros (e & E & _). discriminate.
  Qed.

  Lemma find_ok : forall m k l fuel cur, chain m cur l -> length l <= fuel ->
    find_loop fuel m k cur = Ok (find (has_key m k) l).
  Proof.
    intros m k l. induction l as [|p l IH]; intros fuel cur C L; cbn [chain] in C.
    - subst cur. destruct fuel; reflexivity.
    - destruct C as (-> & c & Hc & C). destruct fuel as [|f]; [simpl in L; lia|].
      cbn [find_loop find]. unfold deref. rewrite Hc. cbn [rbind].
      unfold has_key at 1, dat. rewrite Hc. cbn [option_map].
      destruct (keq k (key (c_data c))); auto. apply IH; auto. simpl in L. lia.
  Qed.

  Lemma last_ok : forall m l fuel prev cur, chain m cur l -> length l <= fuel ->
    last_loop fuel m prev cur = Ok (last (map Some l) prev).
  Proof.
    intros m l. induction l as [|p l IH]; intros fuel prev cur C L; cbn [chain] in C.
    - subst cur. destruct fuel; reflexivity.
    - destruct C as (-> & c & Hc & C). destruct fuel as [|f]; [simpl in L; lia|].
      cbn [last_loop]. unfold deref. rewrite Hc. cbn [rbind]. rewrite IH; auto; [|simpl in L; lia].
      f_equal. destruct l as [|q l]; [reflexivity|]. cbn [map last]. clear.
      revert q. induction l as [|r l IH]; intros q; [reflexivity|]. cbn [map last] in *. apply IH.
  Qed.

  (** Appending [x] after the last element. *)
  Lemma chain_append : forall m x cx l q cq cur,
    m x = Some cx -> c_next cx = None -> ~ In x (l ++ [q]) -> NoDup (l ++ [q]) ->
    m q = Some cq -> chain m cur (l ++ [q]) ->
    chain (upd m q (Some {| c_data := c_data cq; c_next := Some x |})) cur (l ++ [q] ++ [x]).
  Proof.
    intros m x cx l. induction l as [|p l IH]; intros q cq cur Hx Hn Hi Hd Hq C; cbn [app chain] in *.
    - destruct C as (-> & c & Hc & C). split; auto. eexists. rewrite upd_same. split; [reflexivity|].
      cbn [c_next]. split; auto. exists cx. rewrite upd_other by (intros ->; simpl in Hi; tauto). auto.
    - destruct C as (-> & c & Hc & C). split; auto. exists c. inversion Hd as [|? ? Hp Hd']; subst. split.
      + rewrite upd_other; auto. intros ->. apply Hp. apply in_app_iff. simpl. auto.
      + apply (IH q cq); auto. simpl in Hi. tauto.
  Qed.

  (** Unlinking [p] after [q]. *)
  Lemma chain_unlink : forall m l1 q p l2 cq cp cur,
    NoDup (l1 ++ q :: p :: l2) -> m q = Some cq -> m p = Some cp -> chain m cur (l1 ++ q :: p :: l2) ->
    chain (upd m q (Some {| c_data := c_data cq; c_next := c_next cp |})) cur (l1 ++ q :: l2).
  Proof.
    intros m l1. induction l1 as [|r l1 IH]; intros q p l2 cq cp cur Hd Hq Hp C; cbn [app chain] in *.
    - destruct C as (-> & c & Hc & E & c' & Hc' & C). split; auto. eexists. rewrite upd_same. split; [reflexivity|].
      cbn [c_next]. assert (c' = cp) by congruence. subst c'. apply chain_upd; auto.
      inversion Hd; subst. simpl in *. tauto.
    - destruct C as (-> & c & Hc & C). split; auto. exists c. inversion Hd as [|? ? Hr Hd']; subst. split.
      + rewrite upd_other; auto. intros ->. apply Hr. apply in_app_iff. simpl. auto.
      + apply (IH q p l2 cq cp); auto.
  Qed.

  Lemma dat_set_next : forall m p c n q, m p = Some c ->
    dat (upd m p (Some {| c_data := c_data c; c_next := n |})) q = dat m q.
  Proof.
    intros m p c n q H. unfold dat. destruct (N.eq_dec q p) as [->|Hne].
    - now rewrite upd_same, H.
    - now rewrite upd_other.
  Qed.
  Lemma set_next_ok : forall m p c n, m p = Some c ->
    set_next m p n = Ok (upd m p (Some {| c_data := c_data c; c_next := n |})).
  Proof. intros m p c n H. unfold set_next, deref. now rewrite H. Qed.

  (** *** Buckets *)

  Lemma replace_app : forall A (l1 : list A) x l2 v, replace (length l1) v (l1 ++ x :: l2) = l1 ++ v :: l2.
  Proof. intros A l1. induction l1 as [|a l1 IH]; intros; cbn [length app replace]; [reflexivity|]. now rewrite IH. Qed.
  Lemma replace_length : forall A (l : list A) i v, length (replace i v l) = length l.
  Proof. intros A l. induction l as [|a l IH]; intros [|i] v; simpl; auto. Qed.

  Lemma focus : forall m n b sz bs k, repr m n b sz bs ->
    exists k1 cur k2 b1 l b2, b = k1 ++ cur :: k2 /\ bs = b1 ++ l :: b2 /\
      length k1 = N.to_nat (pos k n) /\ length b1 = N.to_nat (pos k n) /\
      Forall2 (chain m) k1 b1 /\ chain m cur l /\ Forall2 (chain m) k2 b2 /\
      bucket b (pos k n) = Ok cur.
  Proof.
    intros m n b sz bs k R. pose proof (pos_lt k n (r_pow _ _ _ _ _ R)) as Hp.
    rewrite <- (r_len _ _ _ _ _ R) in Hp.
    destruct (nth_error b (N.to_nat (pos k n))) as [cur|] eqn:E; [|apply nth_error_None in E; lia].
    destruct (nth_error_split _ _ E) as (k1 & k2 & Eb & L1).
    pose proof (r_chain _ _ _ _ _ R) as F. rewrite Eb in F.
    apply Forall2_app_inv_l in F. destruct F as (b1 & b' & F1 & F2 & Ebs).
    inversion F2 as [|? l ? b2 C F3]; subst. 
    exists k1, cur, k2, b1, l, b2. repeat (split; auto).
    - rewrite <- L1. clear - F1. induction F1; simpl; auto.
    - unfold bucket. now rewrite E.
  Qed.

  Lemma chain_len_le : forall bs (l : list ptr), In l bs -> length l <= length (concat bs).
  Proof.
    intros bs l. induction bs as [|a bs IH]; intros []; cbn [concat]; rewrite app_length.
    - subst. lia.
    - specialize (IH H). lia.
  Qed.

  (** In the bucket of a key, or nowhere. *)
  Lemma key_in_bucket : forall m n b sz bs b1 l b2 k, repr m n b sz bs -> bs = b1 ++ l :: b2 ->
    length b1 = N.to_nat (pos k n) -> forall p d, In p (concat bs) -> dat m p = Some d -> key d = k -> In p l.
  Proof.
    intros m n b sz bs b1 l b2 k R E L p d Hp Hd Hk.
    apply in_concat in Hp. destruct Hp as (l' & Hl' & Hp). apply In_nth_error in Hl'. destruct Hl' as (i & Hi).
    pose proof (r_pos _ _ _ _ _ R i l' p d Hi Hp Hd) as Hpos. rewrite Hk in Hpos.
    rewrite <- Hpos, <- L, E in Hi. rewrite nth_error_app2 in Hi by lia.
    rewrite Nat.sub_diag in Hi. cbn in Hi. congruence.
  Qed.

  Definition present (m : mem) (els : list ptr) (k : K) (p : ptr) : Prop :=
    In p els /\ exists d, dat m p = Some d /\ key d = k.

  (** Result of a search in the table. *)
  Lemma search_ok : forall m n b sz bs k, repr m n b sz bs ->
    exists cur r, bucket b (pos k n) = Ok cur /\ find_loop (N.to_nat sz) m k cur = Ok r /\
    match r with
    | Some p => present m (concat bs) k p
    | None => forall p, ~ present m (concat bs) k p
    end.
  Proof.
    intros m n b sz bs k R.
    destruct (focus m n b sz bs k R) as (k1 & cur & k2 & b1 & l & b2 & Eb & Ebs & L1 & L2 & F1 & C & F2 & B).
    exists cur, (find (has_key m k) l). split; auto. split.
    - apply find_ok; auto. rewrite (r_size _ _ _ _ _ R), Nnat.Nat2N.id. apply chain_len_le.
      rewrite Ebs. apply in_app_iff. simpl. auto.
    - destruct (find (has_key m k) l) as [p|] eqn:E.
      + apply find_some in E. destruct E as [Hp Hk]. apply has_key_spec in Hk. split; auto.
        apply in_concat. exists l. split; auto. rewrite Ebs. apply in_app_iff. simpl. auto.
      + intros p (Hp & d & Hd & Hk).
        pose proof (key_in_bucket m n b sz bs b1 l b2 k R Ebs L2 p d Hp Hd Hk) as Hin.
        apply (find_none _ _ E) in Hin. assert (has_key m k p = true); [|congruence].
        apply has_key_spec. eauto.
  Qed.

  Lemma present_unique : forall m n b sz bs k p q, repr m n b sz bs ->
    present m (concat bs) k p -> present m (concat bs) k q -> p = q.
  Proof.
    intros m n b sz bs k p q R (H1 & d & Hd & Kd) (H2 & e & He & Ke).
    eapply (r_keys _ _ _ _ _ R); eauto. congruence.
  Qed.

  (** *** Adding an element to the bucket of its key *)

  Lemma repr_add : forall m m' n k1 cur' k2 b1 l b2 l' b sz x d,
    repr m n b sz (b1 ++ l :: b2) ->
    (forall p, dat m' p = dat m p) ->
    length k1 = length b1 -> length k1 + S (length k2) = length b ->
    Forall2 (chain m') k1 b1 -> chain m' cur' l' -> Forall2 (chain m') k2 b2 ->
    Permutation l' (x :: l) -> ~ In x (concat (b1 ++ l :: b2)) ->
    dat m x = Some d -> length b1 = N.to_nat (pos (key d) n) ->
    (forall p, ~ present m (concat (b1 ++ l :: b2)) (key d) p) ->
    repr m' n (k1 ++ cur' :: k2) (sz + 1) (b1 ++ l' :: b2) /\
    Permutation (concat (b1 ++ l' :: b2)) (x :: concat (b1 ++ l :: b2)).
  Proof.
    intros m m' n k1 cur' k2 b1 l b2 l' b sz x d R Hdat Hk12 Hlen F1 C F2 HP Hx Hd Hpos Hnew.
    assert (P : Permutation (concat (b1 ++ l' :: b2)) (x :: concat (b1 ++ l :: b2))).
    { rewrite !concat_app. cbn [concat]. rewrite HP. cbn [app].
      symmetry. apply Permutation_middle. }
    split; auto. constructor.
    - apply (r_pow _ _ _ _ _ R).
    - rewrite app_length. cbn [length]. rewrite Hlen. apply (r_len _ _ _ _ _ R).
    - apply Forall2_app; auto.
    - rewrite P. constructor; auto. apply (r_nodup _ _ _ _ _ R).
    - rewrite (Permutation_length P), (r_size _ _ _ _ _ R). cbn [length]. lia.
    - intros i l0 p e Hi Hp He. rewrite Hdat in He.
      destruct (Nat.eq_dec i (length b1)) as [->|Hne].
      + rewrite nth_error_app2, Nat.sub_diag in Hi by lia. cbn in Hi. injection Hi as <-.
        apply (Permutation_in _ HP) in Hp. destruct Hp as [<-|Hp].
        * assert (e = d) by congruence. now subst.
        * apply (r_pos _ _ _ _ _ R (length b1) l p e); auto.
          rewrite nth_error_app2, Nat.sub_diag by lia. reflexivity.
      + apply (r_pos _ _ _ _ _ R i l0 p e); auto.
        destruct (Nat.lt_ge_cases i (length b1)).
        * rewrite nth_error_app1 in * by auto. auto.
        * rewrite nth_error_app2 in * by lia. destruct (i - length b1) as [|j] eqn:Ej; [lia|]. exact Hi.
    - intros p q d1 d2 Hp Hq Hd1 Hd2 Hk. rewrite Hdat in Hd1, Hd2.
      apply (Permutation_in _ P) in Hp. apply (Permutation_in _ P) in Hq.
      destruct Hp as [<-|Hp], Hq as [<-|Hq]; auto.
      + exfalso. apply (Hnew q). split; auto. exists d2. split; auto. congruence.
      + exfalso. apply (Hnew p). split; auto. exists d1. split; auto. congruence.
      + eapply (r_keys _ _ _ _ _ R); eauto.
  Qed.

  Lemma forall2_upd : forall m p c k b, ~ In p (concat b) -> Forall2 (chain m) k b -> Forall2 (chain (upd m p c)) k b.
  Proof.
    intros m p c k b Hp F. induction F as [|cur l k b C F IH]; constructor.
    - apply chain_upd; auto. intros H. apply Hp. cbn [concat]. apply in_app_iff. auto.
    - apply IH. intros H. apply Hp. cbn [concat]. apply in_app_iff. auto.
  Qed.

  Lemma nodup_app_inv : forall A (l1 l2 : list A) x, NoDup (l1 ++ l2) -> In x l1 -> ~ In x l2.
  Proof.
    intros A l1. induction l1 as [|a l1 IH]; intros l2 x H H1; [destruct H1|].
    cbn [app] in H. inversion H as [|? ? Ha H']; subst. destruct H1 as [->|H1].
    - intros H2. apply Ha. apply in_app_iff. auto.
    - apply IH; auto.
  Qed.
  Lemma NoDup_app_remove_l : forall A (l1 l2 : list A), NoDup (l1 ++ l2) -> NoDup l2.
  Proof. intros A l1 l2. induction l1 as [|a l1 IH]; simpl; auto. intros H. inversion H; auto. Qed.
  Lemma NoDup_app_remove_r : forall A (l1 l2 : list A), NoDup (l1 ++ l2) -> NoDup l1.
  Proof.
    intros A l1 l2. induction l1 as [|a l1 IH]; simpl; [constructor|]. intros H. inversion H as [|? ? Ha H']; subst.
    constructor; auto. intros C. apply Ha. apply in_app_iff. auto.
  Qed.
  Lemma in_other_buckets : forall (b1 : list (list ptr)) l b2 p, NoDup (concat (b1 ++ l :: b2)) -> In p l ->
    ~ In p (concat b1) /\ ~ In p (concat b2).
  Proof.
    intros b1 l b2 p H Hp. rewrite concat_app in H. cbn [concat] in H. split.
    - intros H1. apply (nodup_app_inv _ _ _ p H H1). apply in_app_iff. auto.
    - intros H2. apply NoDup_app_remove_l in H. apply (nodup_app_inv _ _ _ p H Hp). auto.
  Qed.
  Lemma nodup_bucket : forall (b1 : list (list ptr)) l b2, NoDup (concat (b1 ++ l :: b2)) -> NoDup l.
  Proof.
    intros b1 l b2 H. rewrite concat_app in H. cbn [concat] in H. apply NoDup_app_remove_l in H.
    apply NoDup_app_remove_r in H. auto.
  Qed.

  (** insert_impl. *)
  Lemma insert_impl_ok : forall m n b sz bs x cx, repr m n b sz bs -> m x = Some cx -> ~ In x (concat bs) ->
    exists m' b' sz' ret bs', insert_impl m b n sz x = Ok (m', b', sz', ret) /\ repr m' n b' sz' bs' /\
    (forall p, dat m' p = dat m p) /\
    (forall p, p <> x -> ~ In p (concat bs) -> m' p = m p) /\
    ((exists p, present m (concat bs) (key (c_data cx)) p /\ ret = (p, false) /\ m' = m /\ b' = b /\ sz' = sz /\ bs' = bs)
     \/ ((forall p, ~ present m (concat bs) (key (c_data cx)) p) /\ ret = (x, true) /\
         (forall p, p <> x -> m' p = m p) /\ sz' = (sz + 1)%N /\ Permutation (concat bs') (x :: concat bs))).
  Proof.
    intros m n b sz bs x cx R Hx Hn. unfold insert_impl, deref. rewrite Hx. cbn [rbind].
    set (k := key (c_data cx)).
    destruct (search_ok m n b sz bs k R) as (cur & r & B & F & HF).
    rewrite B. cbn [rbind]. rewrite F. cbn [rbind]. destruct r as [p|].
    - exists m, b, sz, (p, false), bs. split; auto. split; auto. split; auto. split; auto.
      left. exists p. auto 10.
    - rewrite (set_next_ok _ _ _ _ Hx). cbn [rbind].
      destruct (focus m n b sz bs k R) as (k1 & cur' & k2 & b1 & l & b2 & Eb & Ebs & L1 & L2 & F1 & C & F2 & B').
      assert (cur' = cur) by congruence. subst cur'.
      set (m' := upd m x _).
      assert (Hl : ~ In x (concat b1) /\ ~ In x l /\ ~ In x (concat b2)).
      { rewrite Ebs, concat_app in Hn. cbn [concat] in Hn. rewrite !in_app_iff in Hn. tauto. }
      destruct (repr_add m m' n k1 (Some x) k2 b1 l b2 (x :: l) b sz x (c_data cx)) as [R' P].
      + now rewrite <- Ebs.
      + intros p. now apply dat_set_next.
      + congruence.
      + rewrite Eb, app_length. reflexivity.
      + apply forall2_upd; tauto.
      + cbn [chain]. split; auto. eexists. unfold m'. rewrite upd_same. split; [reflexivity|].
        cbn [c_next]. apply chain_upd; tauto.
      + apply forall2_upd; tauto.
      + reflexivity.
      + now rewrite <- Ebs.
      + unfold dat. now rewrite Hx.
      + exact L2.
      + rewrite <- Ebs. exact HF.
      + exists m', (k1 ++ Some x :: k2), (sz + 1)%N, (x, true), (b1 ++ (x :: l) :: b2).
        split; [|split; [exact R'|split; [|split]]].
        * unfold k in *. rewrite Eb, <- L1, replace_app. reflexivity.
        * intros p. now apply dat_set_next.
        * intros p Hp _. now apply upd_other.
        * right. split; auto. split; auto. split; [intros p Hp; now apply upd_other|]. split; auto.
          rewrite Ebs. exact P.
  Qed.

  Lemma repr_empty : forall m n, (exists e, n = 2 ^ e /\ e < 64)%N ->
    repr m n (repeat None (N.to_nat n)) 0 (repeat [] (N.to_nat n)).
  Proof.
    intros m n Hn. assert (E : forall i, concat (repeat (@nil ptr) i) = []) by (induction i; simpl; auto).
    constructor; auto.
    - now rewrite repeat_length.
    - induction (N.to_nat n); simpl; constructor; simpl; auto.
    - rewrite E. constructor.
    - now rewrite E.
    - intros i l p d Hi Hp. apply nth_error_In, repeat_spec in Hi. subst l. destruct Hp.
    - rewrite E. intros p q d e [].
  Qed.

  (** *** rehash *)

  Lemma set_next_chain : forall m p c n l cur, m p = Some c -> ~ In p l -> chain m cur l ->
    chain (upd m p (Some {| c_data := c_data c; c_next := n |})) cur l.
  Proof. intros. now apply chain_upd. Qed.

  Lemma repr_upd : forall m n b sz bs p c x, repr m n b sz bs -> m p = Some c -> ~ In p (concat bs) ->
    repr (upd m p (Some {| c_data := c_data c; c_next := x |})) n b sz bs.
  Proof.
    intros m n b sz bs p c x R Hp Hi. destruct R. constructor; auto.
    - apply forall2_upd; auto.
    - intros i l q d. rewrite dat_set_next by auto. apply r_pos0.
    - intros q r d e. rewrite !dat_set_next by auto. apply r_keys0.
  Qed.

  (** Elements still to be moved have keys that are not in the new buckets. *)
  Definition fresh_keys (m : mem) (todo els : list ptr) : Prop :=
    forall p q d e, In p (todo ++ els) -> In q (todo ++ els) -> dat m p = Some d -> dat m q = Some e -> key d = key e -> p = q.

  Lemma rehash_bucket_ok : forall n rest l cur fuel m b sz bs,
    repr m n b sz bs -> chain m cur l -> length l <= fuel ->
    NoDup (l ++ rest ++ concat bs) -> fresh_keys m (l ++ rest) (concat bs) ->
    exists m' b' sz' bs', rehash_bucket fuel n cur (m, b, sz) = Ok (m', b', sz') /\ repr m' n b' sz' bs' /\
    (forall p, dat m' p = dat m p) /\ (forall p, ~ In p l -> m' p = m p) /\
    Permutation (concat bs') (l ++ concat bs).
  Proof.
    intros n rest l. induction l as [|p l IH]; intros cur fuel m b sz bs R C L ND FK; cbn [chain] in C.
    - subst cur. exists m, b, sz, bs. split; [destruct fuel; reflexivity|]. auto.
    - destruct C as (-> & c & Hc & C). destruct fuel as [|f]; [simpl in L; lia|].
      cbn [rehash_bucket]. unfold deref. rewrite Hc. cbn [rbind]. rewrite (set_next_ok _ _ _ _ Hc). cbn [rbind].
      set (m1 := upd m p _).
      cbn [app] in ND. inversion ND as [|? ? Np ND']; subst.
      assert (Hpb : ~ In p (concat bs)) by (intros H; apply Np; rewrite !in_app_iff; auto).
      assert (Hpl : ~ In p l) by (intros H; apply Np; rewrite !in_app_iff; auto).
      assert (R1 : repr m1 n b sz bs) by (apply repr_upd; auto).
      assert (D1 : forall q, dat m1 q = dat m q) by (intros q; now apply dat_set_next).
      destruct (insert_impl_ok m1 n b sz bs p {| c_data := c_data c; c_next := None |} R1)
        as (m2 & b2 & sz2 & ret & bs2 & E & R2 & D2 & M2 & Cases); auto.
      { unfold m1. apply upd_same. }
      rewrite E. cbn [rbind fst].
      destruct Cases as [(q & (Hq & d & Hd & Hk) & _)|(_ & Eret & M2' & Esz & P2)].
      + exfalso. cbn [c_data] in Hk. rewrite D1 in Hd. assert (q = p); [|subst; auto].
        apply (FK q p d (c_data c)); auto.
        * rewrite !in_app_iff. auto.
        * simpl. auto.
        * unfold dat. now rewrite Hc.
      + assert (Cl : chain m2 (c_next c) l).
        { apply (chain_ext m); auto. intros q Hq.
          assert (q <> p) by congruence.
          rewrite M2' by auto. unfold m1. now apply upd_other. }
        destruct (IH (c_next c) f m2 b2 sz2 bs2) as (m3 & b3 & sz3 & bs3 & E3 & R3 & D3 & M3 & P3); auto.
        * simpl in L. lia.
        * rewrite P2. rewrite app_assoc. apply (Permutation_NoDup (Permutation_middle _ _ _)).
          rewrite <- app_assoc. constructor; auto.
        * intros q1 q2 d1 d2 H1 H2 Hd1 Hd2. rewrite D2, D1 in Hd1, Hd2.
          assert (I : forall q, In q ((l ++ rest) ++ concat bs2) -> In q (((p :: l) ++ rest) ++ concat bs)).
          { intros q Hq. apply in_app_iff in Hq. destruct Hq as [Hq|Hq].
            - apply in_app_iff. left. simpl. auto.
            - apply (Permutation_in _ P2) in Hq. destruct Hq as [<-|Hq]; [simpl; auto|].
              apply in_app_iff. auto. }
          apply (FK q1 q2 d1 d2); auto.
        * exists m3, b3, sz3, bs3. split; auto. split; auto. split; [|split].
          -- intros q. now rewrite D3, D2, D1.
          -- intros q Hq. simpl in Hq. rewrite M3 by tauto. rewrite M2' by (intros ->; tauto).
             unfold m1. apply upd_other. intros ->. tauto.
          -- rewrite P3, P2. cbn [app]. symmetry. apply Permutation_middle.
  Qed.

  Lemma rehash_loop_ok : forall n fuel old obs m b sz bs,
    repr m n b sz bs -> Forall2 (chain m) old obs -> (forall l, In l obs -> length l <= fuel) ->
    NoDup (concat obs ++ concat bs) -> fresh_keys m (concat obs) (concat bs) ->
    exists m' b' sz' bs', rehash_loop fuel n old (m, b, sz) = Ok (m', b', sz') /\ repr m' n b' sz' bs' /\
    (forall p, dat m' p = dat m p) /\ (forall p, ~ In p (concat obs) -> m' p = m p) /\
    Permutation (concat bs') (concat obs ++ concat bs).
  Proof.
    intros n fuel old. induction old as [|cur old IH]; intros obs m b sz bs R F L ND FK.
    - inversion F; subst. exists m, b, sz, bs. simpl. auto 6.
    - inversion F as [|? l ? obs' C F' E1 E2]; subst. cbn [rehash_loop concat] in *.
      rewrite <- app_assoc in ND.
      destruct (rehash_bucket_ok n (concat obs') l cur fuel m b sz bs R C) as (m1 & b1 & sz1 & bs1 & E1 & R1 & D1 & M1 & P1); auto.
      { apply L. simpl. auto. }
      rewrite E1. cbn [rbind].
      destruct (IH obs' m1 b1 sz1 bs1) as (m2 & b2 & sz2 & bs2 & E2 & R2 & D2 & M2 & P2); auto.
      + clear - F' M1 ND. assert (H : forall p, In p (concat obs') -> m1 p = m p).
        { intros p Hp. apply M1. intros Hl. apply (nodup_app_inv _ _ _ p ND Hl). apply in_app_iff. auto. }
        clear ND M1. induction F' as [|c l' o o' C' F' IH]; constructor.
        * apply (chain_ext m); auto. intros p Hp. apply H. cbn [concat]. apply in_app_iff. auto.
        * apply IH. intros p Hp. apply H. cbn [concat]. apply in_app_iff. auto.
      + intros l' Hl'. apply L. simpl. auto.
      + rewrite P1. apply (Permutation_NoDup (l := l ++ concat obs' ++ concat bs)); auto.
        rewrite Permutation_app_swap_app. reflexivity.
      + intros q1 q2 d1 d2 H1 H2 Hd1 Hd2. rewrite D1 in Hd1, Hd2.
        assert (I : forall q, In q (concat obs' ++ concat bs1) -> In q ((l ++ concat obs') ++ concat bs)).
        { intros q Hq. apply in_app_iff in Hq. destruct Hq as [Hq|Hq].
          - rewrite !in_app_iff. auto.
          - apply (Permutation_in _ P1) in Hq. rewrite !in_app_iff in *. tauto. }
        apply (FK q1 q2 d1 d2); auto.
      + exists m2, b2, sz2, bs2. split; auto. split; auto. split; [|split].
        * intros p. now rewrite D2, D1.
        * intros p Hp. rewrite in_app_iff in Hp. rewrite M2 by tauto. apply M1. tauto.
        * rewrite P2, P1. rewrite <- app_assoc. rewrite Permutation_app_swap_app. reflexivity.
  Qed.

  (** The table [t] holds the elements [els]. *)
  Definition table_ok (m : mem) (t : table) (els : list ptr) : Prop :=
    exists bs, repr m (nb t) (bks t) (size_ t) bs /\ Permutation els (concat bs).

  Lemma rehash_ok : forall num den m t els, table_ok m t els -> (0 < num)%N -> (nb t < 2 ^ 63)%N ->
    exists m' t', rehash num den m t = Ok (m', t') /\ table_ok m' t' els /\
    (forall p, dat m' p = dat m p) /\ (forall p, ~ In p els -> m' p = m p) /\
    (nb t' = nb t \/ nb t' = (2 * nb t)%N).
  Proof.
    intros num den m t els (bs & R & P) Hn Hb. unfold rehash. destruct (overloaded num den t).
    - destruct (r_pow _ _ _ _ _ R) as (e & He & Hlt).
      assert (He' : (e < 63)%N) by (rewrite He in Hb; apply N.pow_lt_mono_r_iff in Hb; lia).
      assert (En : u64 (nb t * 2) = (2 ^ (e + 1))%N).
      { unfold u64. rewrite He, N.pow_add_r. change (2 ^ 1)%N with 2%N. apply N.mod_small.
        assert (2 ^ e < 2 ^ 63)%N by (apply N.pow_lt_mono_r; lia).
        change (2 ^ 64)%N with (2 ^ 63 * 2)%N. lia. }
      set (n := u64 (nb t * 2)) in *.
      assert (Pn : exists e, (n = 2 ^ e /\ e < 64)%N) by (exists (e + 1)%N; split; [auto|lia]).
      assert (EC : concat (repeat (@nil ptr) (N.to_nat n)) = []).
      { induction (N.to_nat n); simpl; auto. }
      destruct (rehash_loop_ok n (N.to_nat (size_ t)) (bks t) bs m (repeat None (N.to_nat n)) 0
                  (repeat [] (N.to_nat n))) as (m' & b' & sz' & bs' & E & R' & D' & M' & P').
      + now apply repr_empty.
      + apply (r_chain _ _ _ _ _ R).
      + intros l Hl. rewrite (r_size _ _ _ _ _ R), Nnat.Nat2N.id. now apply chain_len_le.
      + rewrite EC, app_nil_r. apply (r_nodup _ _ _ _ _ R).
      + rewrite EC. intros p q d1 d2. rewrite app_nil_r. apply (r_keys _ _ _ _ _ R).
      + rewrite E. cbn [rbind]. eexists m', _. split; [reflexivity|]. split; [|split; [|split]]; auto.
        * exists bs'. split; auto. rewrite P', EC, app_nil_r. exact P.
        * intros p Hp. apply M'. intros H. apply Hp. eapply Permutation_in; [symmetry; exact P|auto].
        * right. cbn [nb]. rewrite En, He, N.pow_add_r. change (2 ^ 1)%N with 2%N. lia.
    - exists m, t. split; auto. split; [exists bs; auto|]. auto.
  Qed.

  (** insert. *)
  Lemma insert_ok : forall m t els x cx, table_ok m t els -> (nb t < 2 ^ 63)%N -> m x = Some cx -> ~ In x els ->
    exists m' t' r isnew, insert m t x = Ok (m', t', (r, isnew)) /\
    (forall p, dat m' p = dat m p) /\ (forall p, ~ In p (x :: els) -> m' p = m p) /\
    if isnew then r = x /\ (forall p, ~ present m els (key (c_data cx)) p) /\ table_ok m' t' (x :: els)
    else present m els (key (c_data cx)) r /\ table_ok m' t' els.
  Proof.
    intros m t els x cx (bs & R & P) Hb Hx Hn.
    destruct (insert_impl_ok m (nb t) (bks t) (size_ t) bs x cx R Hx) as (m1 & b1 & sz1 & ret & bs1 & E & R1 & D1 & M1 & Cases).
    { intros H. apply Hn. eapply Permutation_in; [symmetry; exact P|auto]. }
    unfold insert. rewrite E. cbn [rbind].
    set (t1 := {| nb := nb t; size_ := sz1; bks := b1; nb_rehash := nb_rehash t |}).
    assert (IP : forall k p, present m (concat bs) k p <-> present m els k p).
    { intros k p. unfold present. split; intros [H1 H2]; split; auto.
      - eapply Permutation_in; [symmetry; exact P|auto].
      - eapply Permutation_in; [exact P|auto]. }
    destruct Cases as [(p & Hp & -> & -> & -> & -> & ->)|(Hnew & -> & M1' & -> & P1)].
    - destruct (rehash_ok 3 4 m t1 els) as (m2 & t2 & E2 & T2 & D2 & M2 & _); [exists bs; auto|lia|exact Hb|].
      rewrite E2. cbn [rbind fst snd]. exists m2, t2, p, false. split; auto. split; auto. split.
      + intros q Hq. apply M2. simpl in Hq. tauto.
      + split; auto. now apply IP.
    - destruct (rehash_ok 3 4 m1 t1 (x :: els)) as (m2 & t2 & E2 & T2 & D2 & M2 & _); [|lia|exact Hb|].
      { exists bs1. split; auto. rewrite P1. now constructor. }
      rewrite E2. cbn [rbind fst snd]. exists m2, t2, x, true. split; auto. split; [|split].
      + intros q. now rewrite D2, D1.
      + intros q Hq. rewrite M2 by auto. apply M1'. simpl in Hq. intros ->. tauto.
      + split; auto. split; auto. intros p Hp. apply (Hnew p). now apply IP.
  Qed.

  (** insert_check. *)
  Lemma insert_check_ok : forall m t els k, table_ok m t els ->
    exists r, insert_check m t k = Ok (r, pos k (nb t)) /\
    match r with
    | Some p => present m els k p
    | None => forall p, ~ present m els k p
    end.
  Proof.
    intros m t els k (bs & R & P). unfold insert_check.
    destruct (search_ok m _ _ _ _ k R) as (cur & r & B & F & H). rewrite B. cbn [rbind]. rewrite F. cbn [rbind].
    exists r. split; auto. unfold present in *.
    destruct r as [p|].
    - destruct H as [H1 H2]. split; auto. eapply Permutation_in; [symmetry; exact P|auto].
    - intros p [H1 H2]. apply (H p). split; auto. eapply Permutation_in; [exact P|auto].
  Qed.

  (** insert_commit, in the bucket computed by insert_check. *)
  Lemma insert_commit_ok : forall m t els x cx, table_ok m t els -> m x = Some cx -> c_next cx = None ->
    ~ In x els -> (forall p, ~ present m els (key (c_data cx)) p) ->
    exists m' t', insert_commit m t x (pos (key (c_data cx)) (nb t)) = Ok (m', t') /\
    table_ok m' t' (x :: els) /\ (forall p, dat m' p = dat m p) /\ (forall p, ~ In p els -> m' p = m p) /\
    nb t' = nb t /\ size_ t' = (size_ t + 1)%N.
  Proof.
    intros m t els x cx (bs & R & P) Hx Hnx Hn Hnew.
    set (k := key (c_data cx)) in *.
    destruct (focus m _ _ _ _ k R) as (k1 & cur & k2 & b1 & l & b2 & Eb & Ebs & L1 & L2 & F1 & C & F2 & B).
    assert (Hl : length l <= N.to_nat (size_ t)).
    { rewrite (r_size _ _ _ _ _ R), Nnat.Nat2N.id. apply chain_len_le. rewrite Ebs. apply in_app_iff. simpl. auto. }
    unfold insert_commit. rewrite B. cbn [rbind]. rewrite (last_ok m l _ None cur C Hl). cbn [rbind].
    assert (Hnb : ~ In x (concat bs)) by (intros H; apply Hn; eapply Permutation_in; [symmetry; exact P|auto]).
    assert (Hnew' : forall p, ~ present m (concat (b1 ++ l :: b2)) k p).
    { intros p [H1 H2]. apply (Hnew p). split; auto. rewrite <- Ebs in H1. eapply Permutation_in; [symmetry; exact P|auto]. }
    assert (Hdx : dat m x = Some (c_data cx)) by (unfold dat; now rewrite Hx).
    assert (Hlb : length k1 + S (length k2) = length (bks t)) by (rewrite Eb, app_length; reflexivity).
    pose proof (r_nodup _ _ _ _ _ R) as ND.
    destruct (exists_last_or_nil _ l) as [->|(l' & q & ->)].
    - cbn [map last].
      destruct (repr_add m m (nb t) k1 (Some x) k2 b1 [] b2 [x] (bks t) (size_ t) x (c_data cx)) as [R' P']; auto.
      + now rewrite <- Ebs.
      + congruence.
      + cbn [chain]. split; auto. exists cx. auto.
      + now rewrite <- Ebs.
      + eexists m, _. split; [rewrite Eb, <- L1, replace_app; reflexivity|]. cbn [nb size_].
        split; auto. exists (b1 ++ [x] :: b2). cbn [nb bks size_]. split; auto. rewrite P', <- Ebs. now constructor.
    - rewrite map_app. cbn [map]. rewrite last_last.
      assert (Hq : exists cq, m q = Some cq).
      { destruct (chain_dat m _ _ q C) as (d & Hd); [apply in_app_iff; simpl; auto|].
        unfold dat in Hd. destruct (m q) as [cq|]; [eauto|discriminate]. }
      destruct Hq as (cq & Hq). rewrite (set_next_ok _ _ _ _ Hq). cbn [rbind].
      set (m' := upd m q _).
      assert (Hql : In q (l' ++ [q])) by (apply in_app_iff; simpl; auto).
      rewrite Ebs in ND. destruct (in_other_buckets _ _ _ q ND Hql) as [O1 O2].
      destruct (repr_add m m' (nb t) k1 cur k2 b1 (l' ++ [q]) b2 (l' ++ [q] ++ [x]) (bks t) (size_ t) x (c_data cx)) as [R' P']; auto.
      + now rewrite <- Ebs.
      + intros p. now apply dat_set_next.
      + congruence.
      + now apply forall2_upd.
      + apply (chain_append m x cx); auto.
        * intros H. apply Hnb. rewrite Ebs, concat_app. cbn [concat]. rewrite !in_app_iff in *. tauto.
        * apply (nodup_bucket _ _ _ ND).
      + now apply forall2_upd.
      + rewrite app_assoc. symmetry. apply Permutation_cons_append.
      + now rewrite <- Ebs.
      + eexists m', _. split; [reflexivity|]. cbn [nb size_]. split; [|split; [|split]]; auto.
        * exists (b1 ++ (l' ++ [q] ++ [x]) :: b2). cbn [nb bks size_]. rewrite Eb. split; auto.
          rewrite P', <- Ebs. now constructor.
        * intros p. now apply dat_set_next.
        * intros p Hp. apply upd_other. intros ->. apply Hp. eapply Permutation_in; [symmetry; exact P|].
          rewrite Ebs, concat_app. cbn [concat]. rewrite !in_app_iff in *. tauto.
  Qed.

  (** *** erase *)

  Lemma repr_remove : forall m m' n k1 cur' k2 b1 l b2 l' b sz x,
    repr m n b sz (b1 ++ l :: b2) ->
    (forall p, dat m' p = dat m p) ->
    length k1 + S (length k2) = length b ->
    Forall2 (chain m') k1 b1 -> chain m' cur' l' -> Forall2 (chain m') k2 b2 ->
    Permutation l (x :: l') ->
    repr m' n (k1 ++ cur' :: k2) (sz - 1) (b1 ++ l' :: b2) /\
    Permutation (concat (b1 ++ l :: b2)) (x :: concat (b1 ++ l' :: b2)).
  Proof.
    intros m m' n k1 cur' k2 b1 l b2 l' b sz x R Hdat Hlen F1 C F2 HP.
    assert (P : Permutation (concat (b1 ++ l :: b2)) (x :: concat (b1 ++ l' :: b2))).
    { rewrite !concat_app. cbn [concat]. rewrite HP. cbn [app].
      symmetry. apply Permutation_middle. }
    split; auto. pose proof (r_nodup _ _ _ _ _ R) as ND.
    apply (Permutation_NoDup P) in ND. inversion ND as [|? ? Hx ND']; subst. constructor.
    - apply (r_pow _ _ _ _ _ R).
    - rewrite app_length. cbn [length]. rewrite Hlen. apply (r_len _ _ _ _ _ R).
    - apply Forall2_app; auto.
    - auto.
    - rewrite (r_size _ _ _ _ _ R), (Permutation_length P). cbn [length]. lia.
    - intros i l0 p e Hi Hp He. rewrite Hdat in He.
      destruct (Nat.eq_dec i (length b1)) as [->|Hne].
      + rewrite nth_error_app2, Nat.sub_diag in Hi by lia. cbn in Hi. injection Hi as <-.
        apply (r_pos _ _ _ _ _ R (length b1) l p e); auto.
        * rewrite nth_error_app2, Nat.sub_diag by lia. reflexivity.
        * eapply Permutation_in; [symmetry; exact HP|]. now right.
      + apply (r_pos _ _ _ _ _ R i l0 p e); auto.
        destruct (Nat.lt_ge_cases i (length b1)).
        * rewrite nth_error_app1 in * by auto. auto.
        * rewrite nth_error_app2 in * by lia. destruct (i - length b1) as [|j] eqn:Ej; [lia|]. exact Hi.
    - intros p q d1 d2 Hp Hq Hd1 Hd2 Hk. rewrite Hdat in Hd1, Hd2.
      eapply (r_keys _ _ _ _ _ R); eauto; (eapply Permutation_in; [symmetry; exact P|now right]).
  Qed.

  (** The loop finds the first element with the key; [l1] was skipped. *)
  Lemma erase_loop_ok : forall m b i k p cp l2 l fuel l1 prev cur,
    chain m cur (l ++ p :: l2) -> length (l ++ p :: l2) <= fuel ->
    (forall q, In q l -> has_key m k q = false) -> m p = Some cp -> key (c_data cp) = k ->
    prev = last (map Some l1) None ->
    erase_loop fuel m b i k prev cur =
      match last (map Some (l1 ++ l)) None with
      | None => Ok (m, replace (N.to_nat i) (c_next cp) b)
      | Some q => rbind (set_next m q (c_next cp)) (fun m' => Ok (m', b))
      end.
  Proof.
    intros m b i k p cp l2 l. induction l as [|q l IH]; intros fuel l1 prev cur C L Hk Hp Hkp ->.
    - cbn [app chain] in *. destruct C as (-> & c & Hc & C). assert (c = cp) by congruence. subst c.
      destruct fuel as [|f]; [simpl in L; lia|]. cbn [erase_loop]. unfold deref. rewrite Hp. cbn [rbind].
      rewrite (proj2 (keq_spec _ _)) by auto. rewrite app_nil_r. reflexivity.
    - cbn [app chain] in C. destruct C as (-> & c & Hc & C).
      destruct fuel as [|f]; [simpl in L; lia|]. cbn [erase_loop]. unfold deref. rewrite Hc. cbn [rbind].
      assert (E : keq k (key (c_data c)) = false).
      { specialize (Hk q (or_introl eq_refl)). unfold has_key, dat in Hk. now rewrite Hc in Hk. }
      rewrite E. rewrite (IH f (l1 ++ [q]) (Some q) (c_next c)); auto.
      + now rewrite <- app_assoc.
      + simpl in L. lia.
      + intros r Hr. apply Hk. now right.
      + rewrite map_app. cbn [map]. now rewrite last_last.
  Qed.

  Lemma erase_ok : forall m t els x cx, table_ok m t (x :: els) -> m x = Some cx ->
    exists m' t', erase m t x = Ok (m', t') /\ table_ok m' t' els /\ (forall p, dat m' p = dat m p) /\
    (forall p, ~ In p els -> m' p = m p) /\ nb t' = nb t /\ size_ t' = (size_ t - 1)%N.
  Proof.
    intros m t els x cx (bs & R & P) Hx. set (k := key (c_data cx)).
    destruct (focus m _ _ _ _ k R) as (k1 & cur & k2 & b1 & l & b2 & Eb & Ebs & L1 & L2 & F1 & C & F2 & B).
    assert (Hdx : dat m x = Some (c_data cx)) by (unfold dat; now rewrite Hx).
    assert (Hxb : In x (concat bs)) by (eapply Permutation_in; [exact P|now left]).
    pose proof (key_in_bucket m _ _ _ bs b1 l b2 k R Ebs L2 x _ Hxb Hdx eq_refl) as Hxl.
    apply in_split in Hxl. destruct Hxl as (l1 & l2 & El).
    pose proof (r_nodup _ _ _ _ _ R) as ND. rewrite Ebs in ND.
    pose proof (nodup_bucket _ _ _ ND) as NDl. rewrite El in NDl.
    assert (Hl : length l <= N.to_nat (size_ t)).
    { rewrite (r_size _ _ _ _ _ R), Nnat.Nat2N.id. apply chain_len_le. rewrite Ebs. apply in_app_iff. simpl. auto. }
    unfold erase, deref. rewrite Hx. cbn [rbind]. fold k. rewrite B. cbn [rbind].
    rewrite El in C, Hl.
    rewrite (erase_loop_ok m (bks t) (pos k (nb t)) k x cx l2 l1 _ [] None cur C Hl); auto.
    2: { intros q Hq. apply not_true_iff_false. intros Hkq. apply has_key_spec in Hkq.
         destruct Hkq as (d & Hd & Hkd).
         assert (q = x).
         { apply (r_keys _ _ _ _ _ R q x d (c_data cx)); auto. rewrite Ebs, concat_app. cbn [concat].
           rewrite El, !in_app_iff. auto. }
         subst q. apply NoDup_remove_2 in NDl. apply NDl. apply in_app_iff. auto. }
    cbn [app].
    assert (Hlb : length k1 + S (length k2) = length (bks t)) by (rewrite Eb, app_length; reflexivity).
    assert (PF : forall bs', Permutation (concat (b1 ++ l :: b2)) (x :: concat bs') -> Permutation els (concat bs')).
    { intros bs' H. rewrite Ebs in P. rewrite H in P. now apply Permutation_cons_inv in P. }
    assert (HPl : Permutation l (x :: l1 ++ l2)) by (rewrite El; symmetry; apply Permutation_middle).
    destruct (exists_last_or_nil _ l1) as [->|(l1' & q & ->)].
    - cbn [map last rbind fst snd]. cbn [app chain] in C. destruct C as (-> & c & Hc & C).
      assert (c = cx) by congruence. subst c.
      destruct (repr_remove m m (nb t) k1 (c_next cx) k2 b1 l b2 l2 (bks t) (size_ t) x) as [R' P']; auto.
      + now rewrite <- Ebs.
      + eexists m, _. split; [rewrite Eb, <- L1, replace_app; reflexivity|]. cbn [nb size_]. split; auto.
        exists (b1 ++ l2 :: b2). cbn [nb bks size_]. split; auto.
    - rewrite map_app. cbn [map]. rewrite last_last.
      assert (Hq : exists cq, m q = Some cq).
      { destruct (chain_dat m _ _ q C) as (d & Hd); [rewrite !in_app_iff; simpl; auto|].
        unfold dat in Hd. destruct (m q) as [cq|]; [eauto|discriminate]. }
      destruct Hq as (cq & Hq). rewrite (set_next_ok _ _ _ _ Hq). cbn [rbind fst snd].
      set (m' := upd m q _).
      assert (Hql : In q l) by (rewrite El, !in_app_iff; simpl; auto).
      destruct (in_other_buckets _ _ _ q ND Hql) as [O1 O2].
      rewrite <- app_assoc in C, NDl. cbn [app] in C, NDl.
      destruct (repr_remove m m' (nb t) k1 cur k2 b1 l b2 (l1' ++ q :: l2) (bks t) (size_ t) x) as [R' P']; auto.
      + now rewrite <- Ebs.
      + intros p. now apply dat_set_next.
      + now apply forall2_upd.
      + apply (chain_unlink m l1' q x l2); auto.
      + now apply forall2_upd.
      + rewrite HPl, <- app_assoc. reflexivity.
      + eexists m', _. split; [reflexivity|]. cbn [nb size_]. split; [|split; [|split]]; auto.
        * exists (b1 ++ (l1' ++ q :: l2) :: b2). cbn [nb bks size_]. rewrite Eb. split; auto.
        * intros p. now apply dat_set_next.
        * intros p Hp. apply upd_other. intros ->. apply Hp. 
          eapply Permutation_in; [symmetry; apply (PF _ P')|]. rewrite concat_app. cbn [concat].
          rewrite !in_app_iff. simpl. auto.
  Qed.

  (** *** clear_and_dispose *)

  Section ClearProofs.
    Context {S : Type}.
    Variable mem_of : S -> mem.
    Variable dispose : ptr -> S -> res herr S.
    (** Disposing of [p] succeeds under [I] and does not change other cells. *)
    Variable I : list ptr -> S -> Prop.
    Hypothesis dispose_ok : forall p l s, I (p :: l) s -> NoDup (p :: l) ->
      exists s', dispose p s = Ok s' /\ I l s' /\ forall q, In q l -> mem_of s' q = mem_of s q.

    Lemma clear_bucket_ok : forall rest l fuel cur s, chain (mem_of s) cur l -> length l <= fuel ->
      NoDup (l ++ rest) -> I (l ++ rest) s ->
      exists s', clear_bucket mem_of dispose fuel cur s = Ok s' /\ I rest s' /\
                 forall q, In q rest -> mem_of s' q = mem_of s q.
    Proof.
      intros rest l. induction l as [|p l IH]; intros fuel cur s C L ND HI; cbn [chain app] in *.
      - subst cur. exists s. destruct fuel; auto.
      - destruct C as (-> & c & Hc & C). destruct fuel as [|f]; [simpl in L; lia|].
        cbn [clear_bucket]. unfold deref. rewrite Hc. cbn [rbind].
        destruct (dispose_ok p (l ++ rest) s HI ND) as (s1 & E1 & I1 & M1). rewrite E1. cbn [rbind].
        inversion ND as [|? ? _ ND']; subst.
        destruct (IH f (c_next c) s1) as (s2 & E2 & I2 & M2); auto.
        + apply (chain_ext (mem_of s)); auto. intros q Hq. apply M1. apply in_app_iff. auto.
        + simpl in L. lia.
        + exists s2. split; auto. split; auto. intros q Hq. rewrite M2 by auto. apply M1. apply in_app_iff. auto.
    Qed.
    Lemma clear_loop_ok : forall fuel b bs s, Forall2 (chain (mem_of s)) b bs ->
      (forall l, In l bs -> length l <= fuel) -> NoDup (concat bs) -> I (concat bs) s ->
      exists s', clear_loop mem_of dispose fuel b s = Ok s' /\ I [] s'.
    Proof.
      intros fuel b. induction b as [|cur b IH]; intros bs s F L ND HI; inversion F as [|? l ? bs' C F' E1 E2]; subst.
      - exists s. auto.
      - cbn [clear_loop concat] in *.
        destruct (clear_bucket_ok (concat bs') l fuel cur s C) as (s1 & E1 & I1 & M1); auto.
        { apply L. simpl. auto. }
        rewrite E1. cbn [rbind]. apply (IH bs' s1); auto.
        + clear - F' M1. induction F' as [|c l' o o' C' F' IH]; constructor.
          * apply (chain_ext (mem_of s)); auto. intros p Hp. apply M1. cbn [concat]. apply in_app_iff. auto.
          * apply IH. intros p Hp. apply M1. cbn [concat]. apply in_app_iff. auto.
        + intros l' Hl'. apply L. simpl. auto.
        + eapply NoDup_app_remove_l; eauto.
    Qed.
    Lemma clear_ok : forall t els s, table_ok (mem_of s) t els -> (forall l, Permutation els l -> I l s) ->
      exists s' t', clear_and_dispose mem_of dispose t s = Ok (s', t') /\ I [] s' /\
                    table_ok (mem_of s') t' [] /\ nb t' = nb t /\ size_ t' = 0%N.
    Proof.
      intros t els s (bs & R & P) HI. unfold clear_and_dispose.
      destruct (clear_loop_ok (N.to_nat (size_ t)) (bks t) bs s) as (s' & E & I').
      - apply (r_chain _ _ _ _ _ R).
      - intros l Hl. rewrite (r_size _ _ _ _ _ R), Nnat.Nat2N.id. now apply chain_len_le.
      - apply (r_nodup _ _ _ _ _ R).
      - now apply HI.
      - rewrite E. cbn [rbind]. eexists s', _. split; [reflexivity|]. split; auto. split; [|auto].
        exists (repeat [] (N.to_nat (nb t))). cbn [nb bks size_]. rewrite (r_len _ _ _ _ _ R). split.
        + apply repr_empty. apply (r_pow _ _ _ _ _ R).
        + assert (EC : concat (repeat (@nil ptr) (N.to_nat (nb t))) = []) by (induction (N.to_nat (nb t)); simpl; auto).
          rewrite EC. constructor.
    Qed.
  End ClearProofs.

  (** *** collisions *)

  Lemma chain_length_ok : forall m l fuel cur, chain m cur l -> length l <= fuel ->
    chain_length fuel m cur = Ok (length l).
  Proof.
    intros m l. induction l as [|p l IH]; intros fuel cur C L; cbn [chain] in C.
    - subst cur. destruct fuel; reflexivity.
    - destruct C as (-> & c & Hc & C). destruct fuel as [|f]; [simpl in L; lia|].
      cbn [chain_length]. unfold deref. rewrite Hc. cbn [rbind]. rewrite (IH f); auto. simpl in L. lia.
  Qed.
  Definition nb_with (f : nat -> bool) (bs : list (list ptr)) : N := N.of_nat (length (filter (fun l => f (length l)) bs)).
  Lemma collisions_ok : forall m t els, table_ok m t els ->
    exists bs, repr m (nb t) (bks t) (size_ t) bs /\ Permutation els (concat bs) /\
    collisions m t = Ok (nb_with (fun n => 1 <? n) bs, nb_with (fun n => n =? 1) bs, nb_with (fun n => n =? 0) bs).
  Proof.
    intros m t els (bs & R & P). exists bs. split; auto. split; auto. unfold collisions.
    assert (G : forall fuel b bs c a e, Forall2 (chain m) b bs -> (forall l, In l bs -> length l <= fuel) ->
      collisions_loop fuel m b (c, a, e) =
      Ok (c + nb_with (fun n => 1 <? n)%nat bs, a + nb_with (fun n => n =? 1)%nat bs, e + nb_with (fun n => n =? 0)%nat bs)%N).
    { clear. intros fuel b. induction b as [|cur b IH]; intros bs c a e F L; inversion F as [|? l ? bs' C F' E1 E2]; subst.
      - cbn [collisions_loop]. unfold nb_with. cbn [filter length]. now rewrite !N.add_0_r.
      - cbn [collisions_loop]. rewrite (chain_length_ok m l fuel cur C) by (apply L; simpl; auto). cbn [rbind].
        assert (L' : forall l, In l bs' -> length l <= fuel) by (intros l' Hl'; apply L; simpl; auto).
        unfold nb_with. cbn [filter]. destruct (length l) as [|[|n]];
          [change (1 <? 0) with false; change (0 =? 1) with false; change (0 =? 0) with true
          |change (1 <? 1) with false; change (1 =? 1) with true; change (1 =? 0) with false
          |change (1 <? S (S n)) with true; change (S (S n) =? 1) with false; change (S (S n) =? 0) with false];
          rewrite (IH bs' _ _ _ F' L'); unfold nb_with; cbn [length];
          (apply f_equal; apply f_equal2; [apply f_equal2|]; lia). }
    rewrite (G _ _ bs); [reflexivity|apply (r_chain _ _ _ _ _ R)|].
    intros l Hl. rewrite (r_size _ _ _ _ _ R), Nnat.Nat2N.id. now apply chain_len_le.
  Qed.

  (** *** Size and number of buckets *)

  Lemma table_size : forall m t els, table_ok m t els -> size_ t = N.of_nat (length els).
  Proof. intros m t els (bs & R & P). rewrite (r_size _ _ _ _ _ R). now rewrite (Permutation_length P). Qed.
  Lemma table_nodup : forall m t els, table_ok m t els -> NoDup els.
  Proof. intros m t els (bs & R & P). symmetry in P. apply (Permutation_NoDup P), (r_nodup _ _ _ _ _ R). Qed.
  Lemma table_dat : forall m t els p, table_ok m t els -> In p els -> exists d, dat m p = Some d.
  Proof.
    intros m t els p (bs & R & P) Hp. apply (Permutation_in _ P) in Hp. apply in_concat in Hp.
    destruct Hp as (l & Hl & Hp). pose proof (r_chain _ _ _ _ _ R) as F. clear - F Hl Hp.
    induction F as [|cur l' b bs C F IH]; [destruct Hl|]. destruct Hl as [->|Hl]; auto.
    eapply chain_dat; eauto.
  Qed.
  Lemma table_keys : forall m t els p q d e, table_ok m t els -> In p els -> In q els ->
    dat m p = Some d -> dat m q = Some e -> key d = key e -> p = q.
  Proof.
    intros m t els p q d e (bs & R & P) Hp Hq. apply (r_keys _ _ _ _ _ R); eapply Permutation_in; eauto.
  Qed.
  Lemma table_perm : forall m t els els', table_ok m t els -> Permutation els els' -> table_ok m t els'.
  Proof. intros m t els els' (bs & R & P) HP. exists bs. split; auto. now rewrite <- HP. Qed.
  Lemma table_ext : forall m m' t els, table_ok m t els -> (forall p, In p els -> m' p = m p) -> table_ok m' t els.
  Proof.
    intros m m' t els (bs & R & P) H.
    assert (H' : forall p, In p (concat bs) -> m' p = m p).
    { intros p Hp. apply H. eapply Permutation_in; [symmetry; exact P|auto]. }
    assert (Hd : forall p, In p (concat bs) -> dat m' p = dat m p) by (intros p Hp; unfold dat; now rewrite H').
    exists bs. split; auto. destruct R. constructor; auto.
    - clear - r_chain0 H'. induction r_chain0 as [|cur l b bs C F IH]; constructor.
      + apply (chain_ext m); auto. intros p Hp. apply H'. cbn [concat]. apply in_app_iff. auto.
      + apply IH. intros p Hp. apply H'. cbn [concat]. apply in_app_iff. auto.
    - intros i l p d Hi Hp. rewrite Hd; [now apply (r_pos0 i l)|]. apply in_concat. exists l. split; auto.
      eapply nth_error_In; eauto.
    - intros p q d e Hp Hq. rewrite !Hd by auto. now apply r_keys0.
  Qed.

  (** The number of buckets stays below 2^63 as long as there are fewer than 2^60 elements. *)
  Lemma insert_nb : forall m t els x cx m' t' ret, table_ok m t els -> (nb t < 2 ^ 63)%N -> m x = Some cx ->
    ~ In x els -> (size_ t + 1 < 2 ^ 60)%N -> insert m t x = Ok (m', t', ret) -> (nb t' < 2 ^ 63)%N.
  Proof.
    intros m t els x cx m' t' ret (bs & R & P) Hb Hx Hn Hs E. unfold insert in E.
    destruct (insert_impl_ok m (nb t) (bks t) (size_ t) bs x cx R Hx) as (m1 & b1 & sz1 & ret1 & bs1 & E1 & R1 & D1 & M1 & Cases).
    { intros H. apply Hn. eapply Permutation_in; [symmetry; exact P|auto]. }
    rewrite E1 in E. cbn [rbind] in E. set (t1 := {| nb := nb t; size_ := sz1; bks := b1; nb_rehash := nb_rehash t |}) in *.
    assert (Hsz : (sz1 < 2 ^ 60)%N).
    { destruct Cases as [(p & _ & _ & _ & _ & -> & _)|(_ & _ & _ & -> & _)]; lia. }
    destruct (rehash_ok 3 4 m1 t1 (concat bs1)) as (m2 & t2 & E2 & T2 & D2 & M2 & NB); [exists bs1; auto|lia|exact Hb|].
    rewrite E2 in E. cbn [rbind fst snd] in E. injection E as <- <- <-.
    destruct NB as [->|NB]; [exact Hb|]. rewrite NB. cbn [nb t1].
    unfold rehash in E2. destruct (overloaded 3 4 t1) eqn:Eo.
    - unfold overloaded in Eo. apply N.leb_le in Eo. cbn [nb size_ t1] in Eo.
      change (2 ^ 63)%N with (8 * 2 ^ 60)%N. lia.
    - injection E2 as <- <-. cbn [nb t1] in NB. rewrite <- NB. exact Hb.
  Qed.

  Lemma make_table_ok : forall m size, (1 <= size)%N -> (size <= 2 ^ 63)%N -> table_ok m (make_table size) [].
  Proof.
    intros m size H1 H2. destruct (np64_spec size H1 H2) as (e & E & He & _).
    exists (repeat [] (N.to_nat (nb (make_table size)))). unfold make_table. cbn [nb bks size_]. split.
    - apply repr_empty. eauto.
    - assert (EC : concat (repeat (@nil ptr) (N.to_nat (next_power_of_2_64 size))) = []) by (induction (N.to_nat (next_power_of_2_64 size)); simpl; auto).
      rewrite EC. constructor.
  Qed.
End HashTable.
