(** * Evaluations through the caches

    Any sequence of evaluations and of clear(), on any number of caches. *)

From Coq Require Import List Bool NArith Arith Lia Permutation.
From Verif Require Import Base Pow2 HashTable Cached Cache CacheProofs.
Import ListNotations.

(** ** A least recently used cache, without memory nor hash table: the entries, oldest first *)

Section LruSpec.
  Context {Op K R : Type}.
  Variable key : Op -> K.
  Variable keq : K -> K -> bool.
  Record lru_cache : Type := {
    entries : list (Op * R); capacity : N; l_hits : N; l_misses : N; l_filtered : N; l_discarded : N;
    l_calls : N                                       (* number of calls of operator() *)
  }.
  Definition l_empty (n : N) : lru_cache :=
    {| entries := []; capacity := n; l_hits := 0; l_misses := 0; l_filtered := 0; l_discarded := 0; l_calls := 0 |}.
  Definition l_call (c : lru_cache) : lru_cache :=
    {| entries := entries c; capacity := capacity c; l_hits := l_hits c; l_misses := l_misses c;
       l_filtered := l_filtered c; l_discarded := l_discarded c; l_calls := l_calls c + 1 |}.
  Definition is_op (op : Op) (e : Op * R) : bool := keq (key op) (key (fst e)).
  Definition l_filter (c : lru_cache) : lru_cache :=
    {| entries := entries c; capacity := capacity c; l_hits := l_hits c; l_misses := l_misses c;
       l_filtered := l_filtered c + 1; l_discarded := l_discarded c; l_calls := l_calls c |}.
  (** An operation found becomes the most recent one. *)
  Definition l_find (op : Op) (c : lru_cache) : option R * lru_cache :=
    match find (is_op op) (entries c) with
    | Some e =>
        (Some (snd e),
         {| entries := filter (fun x => negb (is_op op x)) (entries c) ++ [e]; capacity := capacity c;
            l_hits := l_hits c + 1; l_misses := l_misses c; l_filtered := l_filtered c;
            l_discarded := l_discarded c; l_calls := l_calls c |})
    | None =>
        (None,
         {| entries := entries c; capacity := capacity c; l_hits := l_hits c; l_misses := l_misses c + 1;
            l_filtered := l_filtered c; l_discarded := l_discarded c; l_calls := l_calls c |})
    end.
  (** A new result: the oldest entry leaves if the cache is full.  Storing an operation twice is an error. *)
  Definition l_store (op : Op) (r : R) (c : lru_cache) : res herr lru_cache :=
    if existsb (is_op op) (entries c) then Err HAssert
    else if N.eqb (N.of_nat (length (entries c))) (capacity c) then
      Ok {| entries := tl (entries c) ++ [(op, r)]; capacity := capacity c; l_hits := l_hits c; l_misses := l_misses c;
            l_filtered := l_filtered c; l_discarded := l_discarded c + 1; l_calls := l_calls c |}
    else
      Ok {| entries := entries c ++ [(op, r)]; capacity := capacity c; l_hits := l_hits c; l_misses := l_misses c;
            l_filtered := l_filtered c; l_discarded := l_discarded c; l_calls := l_calls c |}.

  Variable kind : Op -> nat.
  Definition lru_caches : Type := nat -> lru_cache.
  Definition l_set (s : lru_caches) (i : nat) (c : lru_cache) : lru_caches := fun j => if Nat.eqb j i then c else s j.
  Definition l_note_filtered (op : Op) (s : lru_caches) : lru_caches :=
    l_set s (kind op) (l_filter (l_call (s (kind op)))).
  Definition l_find_op (op : Op) (s : lru_caches) : res herr (option R * N * lru_caches) :=
    let r := l_find op (l_call (s (kind op))) in Ok (fst r, 0%N, l_set s (kind op) (snd r)).
  Definition l_store_op (op : Op) (r : R) (b : N) (s : lru_caches) : res herr lru_caches :=
    rbind (l_store op r (s (kind op))) (fun c => Ok (l_set s (kind op) c)).
End LruSpec.
Arguments lru_cache : clear implicits.
Arguments lru_caches : clear implicits.

(** ** A generic simulation between two stores *)

Section Simulation.
  Context {Op R E H S A : Type}.
  Variable body : Op -> prog Op R E R.
  Variable accept : Op -> bool.
  Variable filt : Op -> S -> S.
  Variable fnd : Op -> S -> res H (option R * N * S).
  Variable sto : Op -> R -> N -> S -> res H S.
  Variable filt' : Op -> A -> A.
  Variable fnd' : Op -> A -> res H (option R * N * A).
  Variable sto' : Op -> R -> N -> A -> res H A.
  Variable rel : S -> A -> Prop.
  Variable cd : Op -> N.
  Hypothesis filt_sim : forall op s a, rel s a -> rel (filt op s) (filt' op a).
  Hypothesis fnd_sim : forall op s a, rel s a ->
    exists r s' a' b, fnd op s = Ok (r, cd op, s') /\ fnd' op a = Ok (r, b, a') /\ rel s' a'.
  Hypothesis sto_sim : forall op r b s a a', rel s a -> sto' op r b a = Ok a' ->
    exists s', sto op r (cd op) s = Ok s' /\ rel s' a'.

  Definition no_fault {T : Type} (r : res (cerr E H) T) : Prop := forall h, r <> Err (CFault h).

  Lemma exec_sim : forall T (h : Op -> S -> res (cerr E H) R * S) (h' : Op -> A -> res (cerr E H) R * A),
    (forall op s a r a', rel s a -> h' op a = (r, a') -> no_fault r -> exists s', h op s = (r, s') /\ rel s' a') ->
    forall (p : prog Op R E T) s a r a', rel s a -> exec h' p a = (r, a') -> no_fault r ->
    exists s', exec h p s = (r, s') /\ rel s' a'.
  Proof.
    intros T h h' Hh p. induction p as [x|e|op k IH]; intros s a r a' Rl Ex NF; cbn [exec] in *.
    - injection Ex as <- <-. eauto.
    - injection Ex as <- <-. eauto.
    - destruct (h' op a) as [[v|e] a1] eqn:E1.
      + destruct (Hh op s a (Ok v) a1 Rl E1) as (s1 & -> & R1); [intros f; discriminate|]. eapply IH; eauto.
      + injection Ex as <- <-. destruct (Hh op s a (Err e) a1 Rl E1) as (s1 & -> & R1).
        * intros f X. injection X as ->. now apply (NF f).
        * eauto.
  Qed.
  Lemma lookup_sim : forall fuel op s a r a', rel s a -> lookup body accept filt' fnd' sto' fuel op a = (r, a') ->
    no_fault r -> exists s', lookup body accept filt fnd sto fuel op s = (r, s') /\ rel s' a'.
  Proof.
    induction fuel as [|n IH]; intros op s a r a' Rl E1 NF; cbn [lookup] in *.
    - injection E1 as <- <-. eauto.
    - destruct (accept op).
      + destruct (fnd_sim op s a Rl) as (o & s1 & a1 & b & F1 & F2 & R1). rewrite F1. rewrite F2 in E1.
        destruct o as [v|]; [injection E1 as <- <-; eauto|].
        destruct (exec (lookup body accept filt' fnd' sto' n) (body op) a1) as [[v|e] a2] eqn:E2.
        * destruct (exec_sim _ _ _ IH (body op) s1 a1 (Ok v) a2 R1 E2) as (s2 & -> & R2); [intros f; discriminate|].
          destruct (sto' op v b a2) as [a3|h] eqn:E3.
          -- injection E1 as <- <-. destruct (sto_sim op v b s2 a2 a3 R2 E3) as (s3 & -> & R3). eauto.
          -- injection E1 as <- <-. now destruct (NF h).
        * injection E1 as <- <-. destruct (exec_sim _ _ _ IH (body op) s1 a1 (Err e) a2 R1 E2 NF) as (s2 & -> & R2). eauto.
      + eapply (exec_sim _ _ _ IH (body op)); eauto.
  Qed.
End Simulation.

Section Theorems.
  Context {Op K R E : Type}.
  Variable efuel : E.
  Hypothesis efuel_dec : forall e : E, {e = efuel} + {e <> efuel}.
  Variable body : Op -> prog Op R E R.
  Variable key : Op -> K.
  Variable keq : K -> K -> bool.
  Variable hash : K -> N.
  Hypothesis keq_spec : forall a b, keq a b = true <-> a = b.
  Variable kind : Op -> nat.
  Variable accept : Op -> bool.
  (** Operations that compare equal have the same result; [good] is any condition that evaluations preserve. *)
  Variable good : Op -> Prop.
  Hypothesis good_calls : forall n op op', good op -> calls (peval efuel body n) (body op) op' -> good op'.
  Hypothesis same_eval : forall a b, kind a = kind b -> key a = key b -> good a -> good b ->
    forall n, peval efuel body n a = peval efuel body n b.

  Notation peval := (peval efuel body).
  Notation ekey := (ekey (R := R) key).
  Notation look := (lookup (H := herr) body accept (note_filtered kind) (find_op key keq hash kind) (store_op key keq hash kind)).

  (** Caches of the given sizes. *)
  Definition new_caches (sizes : nat -> N) (s : caches Op R) : Prop := forall i, make_cache (sizes i) = Ok (s i).

  (** ** Histories *)

  Inductive cop : Type :=
  | CRun (p : prog Op R E R)
  | CClear (i : nat).
  Fixpoint run_history (fuel : nat) (h : list cop) (s : caches Op R)
      : list (res (cerr E herr) (option R)) * caches Op R :=
    match h with
    | [] => ([], s)
    | CRun p :: h' =>
        let '(r, s') := exec (look fuel) p s in
        let '(rs, s'') := run_history fuel h' s' in
        (match r with Ok v => Ok (Some v) | Err e => Err e end :: rs, s'')
    | CClear i :: h' =>
        match clear_op i s with
        | Ok s' => let '(rs, s'') := run_history fuel h' s' in (Ok None :: rs, s'')
        | Err f => ([Err (CFault f)], s)
        end
    end.
  (** Without caches. *)
  Definition expected (fuel : nat) (o : cop) : res (cerr E herr) (option R) :=
    match o with
    | CRun p => match interp (peval fuel) p with Ok v => Ok (Some v) | Err e => Err (CThrow e) end
    | CClear _ => Ok None
    end.
  Definition legal_cop (fuel : nat) (o : cop) : Prop :=
    match o with
    | CRun p => interp (peval fuel) p <> Err efuel /\ forall op, calls (peval fuel) p op -> good op
    | CClear _ => True
    end.

  (** ** The concrete caches *)

  Definition val (i : nat) (op : Op) (r : R) : Prop :=
    kind op = i /\ good op /\ accept op = true /\ exists n, peval n op = Ok r.
  Variable sizes : nat -> N.
  Definition NB (i : nat) : N := next_power_of_2_64 (sizes i).
  Definition inv (s : caches Op R) : Prop := forall i, nb (tab (s i)) = NB i /\
    max_size (s i) = max_load (NB i) /\ exists els fl, cache_ok key hash (val i) (s i) els fl.
  Definition has (s : caches Op R) (o : Op) : Prop :=
    exists p d, dat (cmem (s (kind o))) p = Some d /\ e_op d = o.
  Definition cd (op : Op) : N := pos hash (key op) (NB (kind op)).
  Definition same (a b : Op) : Prop := kind a = kind b /\ key a = key b.

  Lemma set_same : forall (s : caches Op R) i c, set_cache s i c i = c.
  Proof. intros. unfold set_cache. now rewrite Nat.eqb_refl. Qed.
  Lemma set_other : forall (s : caches Op R) i c j, j <> i -> set_cache s i c j = s j.
  Proof. intros s i c j H. unfold set_cache. apply Nat.eqb_neq in H. now rewrite H. Qed.

  Lemma inv_set : forall s i c, inv s -> nb (tab c) = NB i -> max_size c = max_load (NB i) ->
    (exists els fl, cache_ok key hash (val i) c els fl) -> inv (set_cache s i c).
  Proof.
    intros s i c I H1 H2 H3 j. destruct (Nat.eq_dec j i) as [->|Hn].
    - rewrite set_same. auto.
    - rewrite set_other by auto. apply I.
  Qed.
  Lemma has_set : forall s i c, (forall p, dat (cmem c) p = dat (cmem (s i)) p) ->
    forall o, has (set_cache s i c) o <-> has s o.
  Proof.
    intros s i c H o. unfold has. destruct (Nat.eq_dec (kind o) i) as [->|Hn].
    - rewrite set_same. split; intros (p & d & H1 & H2); exists p, d; rewrite H in *; auto.
    - rewrite set_other by auto. tauto.
  Qed.

  Lemma in_els : forall P (c : cache Op R) els fl p d, cache_ok key hash P c els fl -> dat (cmem c) p = Some d -> In p els.
  Proof.
    intros P c els fl p d I H. unfold dat in H. destruct (cmem c p) as [ce|] eqn:X; [|discriminate].
    now apply (k_only _ _ _ _ _ _ I p ce).
  Qed.

  Lemma c_filtered_ok : forall op s, inv s -> inv (note_filtered kind op s) /\
    (forall o, has (note_filtered kind op s) o <-> has s o).
  Proof.
    intros op s I. unfold note_filtered. destruct (I (kind op)) as (H1 & H2 & els & fl & H3). split.
    - apply inv_set; auto. exists els, fl. destruct H3. split; auto.
    - apply has_set. auto.
  Qed.
  (** Is an operation stored in [c]? *)
  Lemma stored_dec : forall i (c : cache Op R) els fl op, cache_ok key hash (val i) c els fl ->
    (exists p d, In p els /\ dat (cmem c) p = Some d /\ key (e_op d) = key op) \/
    (forall p d, In p els -> dat (cmem c) p = Some d -> key (e_op d) <> key op).
  Proof.
    intros i c els fl op I.
    destruct (find (fun p => match dat (cmem c) p with Some d => keq (key op) (key (e_op d)) | None => false end) els)
      as [p|] eqn:F.
    - left. apply find_some in F. destruct F as [F1 F2]. destruct (dat (cmem c) p) as [d|] eqn:D; [|discriminate].
      apply keq_spec in F2. exists p, d. auto.
    - right. intros p d Hp Hd Hk. pose proof (find_none _ _ F p Hp) as N1. cbv beta in N1. rewrite Hd in N1.
      assert (keq (key op) (key (e_op d)) = true) by (now apply keq_spec). congruence.
  Qed.

  Lemma c_find_ok : forall op s, inv s -> good op -> accept op = true ->
    exists r s', find_op key keq hash kind op s = Ok (r, cd op, s') /\
    inv s' /\ (forall o, has s' o <-> has s o) /\
    match r with
    | Some v => stored same has s op /\ exists n, peval n op = Ok v
    | None => ~ stored same has s op
    end.
  Proof.
    intros op s I G Ac. destruct (I (kind op)) as (H1 & H2 & els & fl & H3). unfold find_op, cd.
    destruct (stored_dec _ _ _ _ op H3) as [(p & d & Hp & Hd & Hk)|Hno].
    - destruct (find_some_ok key keq hash keq_spec _ _ _ _ op p d H3 Hp Hd Hk) as (c' & E1 & I1 & M1 & T1 & X1 & _).
      rewrite E1. cbn [rbind fst snd]. rewrite H1. exists (Some (e_res d)). eexists. split; [reflexivity|]. split; [|split].
      + apply inv_set; auto; try congruence. eauto.
      + apply has_set. intros q. now rewrite M1.
      + destruct (k_val _ _ _ _ _ _ H3 p d Hp Hd) as (V1 & V2 & V3 & n & V4). split.
        * exists (e_op d). split.
          -- exists p, d. rewrite V1. auto.
          -- split; auto.
        * exists n. rewrite <- V4. apply same_eval; auto.
    - destruct (find_none_ok key keq hash keq_spec _ _ _ _ op H3 Hno) as [E1 I1].
      rewrite E1. cbn [rbind fst snd]. rewrite H1. exists None. eexists. split; [reflexivity|]. split; [|split].
      + apply inv_set; auto. eauto.
      + apply has_set. auto.
      + intros (o & (p & d & Hd & Ho) & Hs1 & Hs2). rewrite Hs1 in Hd. subst o.
        apply (Hno p d); auto. eapply in_els; eauto.
  Qed.
  Lemma c_store_ok : forall op v n s, inv s -> good op -> accept op = true -> ~ stored same has s op ->
    peval n op = Ok v ->
    exists s', store_op key keq hash kind op v (cd op) s = Ok s' /\ inv s' /\ (forall o, has s' o -> has s o \/ o = op).
  Proof.
    intros op v n s I G Ac Hs Ev. destruct (I (kind op)) as (H1 & H2 & els & fl & H3). unfold store_op, cd. rewrite <- H1.
    destruct (store_ok key keq hash keq_spec (val (kind op)) (s (kind op)) els fl op v H3) as (c' & els' & fl' & p & E1 & I1 & N1 & X1 & D1 & D2).
    - repeat split; eauto.
    - intros q d Hq Hd Hk. apply Hs. destruct (k_val _ _ _ _ _ _ H3 q d Hq Hd) as (V1 & _).
      exists (e_op d). split; [|split; auto]. exists q, d. rewrite V1. auto.
    - rewrite E1. cbn [rbind]. eexists. split; [reflexivity|]. split.
      + apply inv_set; auto; try congruence. eauto.
      + intros o (q & d & Hd & Ho). destruct (Nat.eq_dec (kind o) (kind op)) as [Ek|Hn].
        * rewrite Ek, set_same in Hd. destruct (N.eq_dec q p) as [->|Hq].
          -- right. destruct D1 as (d' & Hd' & Ho' & _). congruence.
          -- left. exists q, d. rewrite Ek. auto.
        * left. exists q, d. rewrite set_other in Hd by auto. auto.
  Qed.
  Lemma c_has_good : forall s o, inv s -> has s o -> good o.
  Proof.
    intros s o I (p & d & Hd & Ho). destruct (I (kind o)) as (H1 & H2 & els & fl & H3).
    destruct (k_val _ _ _ _ _ _ H3 p d) as (_ & V & _); [eapply in_els; eauto|auto|]. congruence.
  Qed.
  Lemma same_sym : forall a b, same a b -> same b a.
  Proof. intros a b [H1 H2]. split; congruence. Qed.

  Lemma run_correct : forall n fuel p s, n <= fuel -> inv s -> (forall op, calls (peval n) p op -> good op) ->
    interp (peval n) p <> Err efuel ->
    exists s', exec (look fuel) p s = (lift (interp (peval n) p), s') /\ inv s'.
  Proof.
    intros n fuel p s Hf I G T.
    assert (SE : forall a b, same a b -> good a -> good b -> forall n, peval n a = peval n b).
    { intros a b [H1 H2]. now apply same_eval. }
    pose proof (lookup_ok efuel efuel_dec body accept (note_filtered kind) (find_op key keq hash kind)
      (store_op key keq hash kind) same good good_calls SE inv has c_filtered_ok cd c_find_ok c_store_ok c_has_good n) as L.
    destruct (exec_correct efuel body accept (note_filtered kind) (find_op key keq hash kind)
      (store_op key keq hash kind) good inv has n fuel L Hf p s I G T) as (s' & E1 & I1 & _). eauto.
  Qed.

  Lemma clear_inv : forall i s, inv s -> exists s', clear_op i s = Ok s' /\ inv s'.
  Proof.
    intros i s I. destruct (I i) as (H1 & H2 & els & fl & H3).
    destruct (clear_ok key hash _ _ _ _ H3) as (c' & fl' & E1 & I1 & N1 & X1 & _). unfold clear_op. rewrite E1. cbn [rbind].
    eexists. split; [reflexivity|]. apply inv_set; auto; try congruence. eauto.
  Qed.

  Hypothesis sizes_ok : forall i, (2 <= sizes i <= 2 ^ 63)%N.
  Lemma new_inv : forall s, new_caches sizes s -> inv s.
  Proof.
    intros s H i. destruct (sizes_ok i) as [H1 H2].
    destruct (make_cache_ok key hash (val i) (sizes i) H1 H2) as (c & E1 & I1 & N1 & X1 & _).
    rewrite (H i) in E1. injection E1 as ->. split; auto. split; [exact X1|]. eauto.
  Qed.
  Lemma new_exists : exists s : caches Op R, new_caches sizes s.
  Proof.
    exists (fun i => match make_cache (sizes i) with Ok c => c | Err _ =>
      {| tab := make_table 0; cmem := fun _ => None; lru := []; fresh := 0; free := None; links := fun _ => None;
         max_size := 0; hits := 0; misses := 0; filtered := 0; discarded := 0 |} end).
    intros i. destruct (sizes_ok i) as [H1 H2].
    destruct (make_cache_ok key hash (val i) (sizes i) H1 H2) as (c & E1 & _). now rewrite E1.
  Qed.

  Lemma history_ok : forall fuel h s, inv s -> Forall (legal_cop fuel) h ->
    exists s', run_history fuel h s = (map (expected fuel) h, s') /\ inv s'.
  Proof.
    intros fuel h. induction h as [|o h IH]; intros s I L; inversion L as [|? ? L1 L2]; subst; cbn [run_history map expected].
    - eauto.
    - destruct o as [p|i]; cbn [legal_cop expected] in *.
      + destruct L1 as [T G]. destruct (run_correct fuel fuel p s (le_n _) I G T) as (s1 & E1 & I1). rewrite E1.
        destruct (IH s1 I1 L2) as (s2 & E2 & I2). rewrite E2. exists s2. split; auto.
        destruct (interp (peval fuel) p); reflexivity.
      + destruct (clear_inv i s I) as (s1 & E1 & I1). rewrite E1.
        destruct (IH s1 I1 L2) as (s2 & E2 & I2). rewrite E2. eauto.
  Qed.

  (** ** The least recently used cache *)

  Notation llook := (lookup (H := herr) body accept (l_note_filtered kind) (l_find_op key keq kind) (l_store_op key keq kind)).
  Definition linv (a : lru_caches Op R) : Prop := forall i,
    (1 <= capacity (a i))%N /\ (N.of_nat (length (entries (a i))) <= capacity (a i))%N /\
    (l_hits (a i) + l_misses (a i) + l_filtered (a i) = l_calls (a i))%N /\
    NoDup (map (fun e => key (fst e)) (entries (a i))) /\
    (forall op r, In (op, r) (entries (a i)) -> val i op r).
  Definition lhas (a : lru_caches Op R) (o : Op) : Prop := exists r, In (o, r) (entries (a (kind o))).

  Lemma lset_same : forall (s : lru_caches Op R) i c, l_set s i c i = c.
  Proof. intros. unfold l_set. now rewrite Nat.eqb_refl. Qed.
  Lemma lset_other : forall (s : lru_caches Op R) i c j, j <> i -> l_set s i c j = s j.
  Proof. intros s i c j H. unfold l_set. apply Nat.eqb_neq in H. now rewrite H. Qed.
  Lemma is_op_spec : forall op (e : Op * R), is_op key keq op e = true <-> key (fst e) = key op.
  Proof. intros op e. unfold is_op. rewrite keq_spec. split; auto. Qed.
  Lemma l_filter_perm : forall (l : list (Op * R)) op e, NoDup (map (fun e => key (fst e)) l) -> In e l -> key (fst e) = key op ->
    Permutation l (filter (fun x => negb (is_op key keq op x)) l ++ [e]).
  Proof.
    intros l op e ND H Hk. rewrite Permutation_app_comm. cbn [app].
    induction l as [|x l IH]; [contradiction|]. cbn [filter map] in *. inversion ND as [|? ? N1 N2]; subst.
    destruct (is_op key keq op x) eqn:X; cbn [negb].
    - apply is_op_spec in X. destruct H as [->|H].
      + constructor. replace (filter _ l) with l; auto. symmetry.
        clear - N1 X keq_spec. induction l as [|y l IH]; [reflexivity|]. cbn [filter map] in *.
        destruct (is_op key keq op y) eqn:Y; cbn [negb].
        * apply is_op_spec in Y. exfalso. apply N1. left. congruence.
        * rewrite IH; auto. intros H. apply N1. now right.
      + exfalso. apply N1. apply in_map_iff. exists e. split; auto. congruence.
    - destruct H as [->|H].
      + assert (is_op key keq op e = true) by (now apply is_op_spec). congruence.
      + rewrite (IH N2 H) at 1. constructor.
  Qed.
  Lemma l_find_perm : forall op (c : lru_cache Op R), NoDup (map (fun e => key (fst e)) (entries c)) ->
    Permutation (entries (snd (l_find key keq op c))) (entries c).
  Proof.
    intros op c ND. unfold l_find. destruct (find (is_op key keq op) (entries c)) as [e|] eqn:F; cbn [snd entries]; auto.
    apply find_some in F. destruct F as [F1 F2]. symmetry. apply l_filter_perm; auto. now apply is_op_spec.
  Qed.
  Lemma linv_set : forall a i c, linv a -> (1 <= capacity c)%N -> (N.of_nat (length (entries c)) <= capacity c)%N ->
    (l_hits c + l_misses c + l_filtered c = l_calls c)%N -> NoDup (map (fun e => key (fst e)) (entries c)) ->
    (forall op r, In (op, r) (entries c) -> val i op r) -> linv (l_set a i c).
  Proof.
    intros a i c I H1 H2 H3 H4 H5 j. destruct (Nat.eq_dec j i) as [->|Hn].
    - rewrite lset_same. auto.
    - rewrite lset_other by auto. apply I.
  Qed.
  Lemma lhas_set : forall a i c, (forall e, In e (entries c) <-> In e (entries (a i))) ->
    forall o, lhas (l_set a i c) o <-> lhas a o.
  Proof.
    intros a i c H o. unfold lhas. destruct (Nat.eq_dec (kind o) i) as [->|Hn].
    - rewrite lset_same. split; intros (r & Hr); exists r; now apply H.
    - rewrite lset_other by auto. tauto.
  Qed.
  Lemma l_filtered_ok : forall op a, linv a -> linv (l_note_filtered kind op a) /\
    (forall o, lhas (l_note_filtered kind op a) o <-> lhas a o).
  Proof.
    intros op a I. unfold l_note_filtered. destruct (I (kind op)) as (H1 & H2 & H3 & H4 & H5). split.
    - apply linv_set; cbn; auto. lia.
    - apply lhas_set. cbn. tauto.
  Qed.
  Lemma l_find_ok : forall op a, linv a -> good op -> accept op = true ->
    exists r a', l_find_op key keq kind op a = Ok (r, 0%N, a') /\
    linv a' /\ (forall o, lhas a' o <-> lhas a o) /\
    match r with
    | Some v => stored same lhas a op /\ exists n, peval n op = Ok v
    | None => ~ stored same lhas a op
    end.
  Proof.
    intros op a I G Ac. destruct (I (kind op)) as (H1 & H2 & H3 & H4 & H5). unfold l_find_op.
    pose proof (l_find_perm op (l_call (a (kind op))) H4) as PF. cbn [l_call entries] in PF.
    eexists _, _. split; [reflexivity|]. split; [|split].
    - apply linv_set; auto.
      + unfold l_find. destruct (find _ _); cbn; auto.
      + rewrite (Permutation_length PF). unfold l_find. destruct (find _ _); cbn; auto.
      + unfold l_find. destruct (find _ _); cbn; lia.
      + eapply Permutation_NoDup; [apply Permutation_map; symmetry; exact PF|auto].
      + intros o r Ho. apply H5. eapply Permutation_in; eauto.
    - apply lhas_set. intros e. split; apply Permutation_in; [auto|now symmetry].
    - unfold l_find. cbn [l_call entries]. destruct (find (is_op key keq op) (entries (a (kind op)))) as [[o v]|] eqn:F; cbn [fst snd].
      + apply find_some in F. destruct F as [F1 F2]. apply is_op_spec in F2. cbn [fst] in F2.
        destruct (H5 o v F1) as (V1 & V2 & V3 & n & V4). split.
        * exists o. split; [|split; auto]. exists v. now rewrite V1.
        * exists n. rewrite <- V4. apply same_eval; auto.
      + intros (o & (v & Hv) & Hs1 & Hs2). rewrite Hs1 in Hv. pose proof (find_none _ _ F _ Hv) as X.
        assert (is_op key keq op (o, v) = true) by (now apply is_op_spec). congruence.
  Qed.
  Lemma tl_nodup : forall A (l : list A), NoDup l -> NoDup (tl l).
  Proof. intros A l H. destruct l; auto. now inversion H. Qed.
  Lemma map_tl : forall A B (f : A -> B) l, map f (tl l) = tl (map f l).
  Proof. now destruct l. Qed.
  Lemma in_tl : forall A (l : list A) x, In x (tl l) -> In x l.
  Proof. intros A [|y l] x H; [auto|now right]. Qed.
  Lemma l_store_ok : forall op v n a, linv a -> good op -> accept op = true -> ~ stored same lhas a op ->
    peval n op = Ok v ->
    exists a', l_store_op key keq kind op v 0 a = Ok a' /\ linv a' /\ (forall o, lhas a' o -> lhas a o \/ o = op).
  Proof.
    intros op v n a I G Ac Hs Ev. destruct (I (kind op)) as (H1 & H2 & H3 & H4 & H5). unfold l_store_op, l_store.
    destruct (existsb (is_op key keq op) (entries (a (kind op)))) eqn:X.
    { exfalso. apply existsb_exists in X. destruct X as ([o r] & X1 & X2). apply is_op_spec in X2. cbn [fst] in X2.
      apply Hs. exists o. destruct (H5 o r X1) as (V1 & _). split; [|split; auto]. exists r. now rewrite V1. }
    assert (Hnk : forall e, In e (entries (a (kind op))) -> key (fst e) <> key op).
    { intros e He Hk. assert (Y : existsb (is_op key keq op) (entries (a (kind op))) = true).
      - apply existsb_exists. exists e. split; auto. now apply is_op_spec.
      - congruence. }
    assert (Hv : val (kind op) op v) by (repeat split; eauto).
    assert (HK : forall l : list (Op * R), NoDup (map (fun e => key (fst e)) l) -> (forall e, In e l -> In e (entries (a (kind op)))) ->
      NoDup (map (fun e => key (fst e)) (l ++ [(op, v)]))).
    { intros l ND Hl. rewrite map_app. cbn [map fst]. eapply Permutation_NoDup; [apply Permutation_app_comm|]. cbn [app].
      constructor; auto. intros Hin. apply in_map_iff in Hin. destruct Hin as (e & He1 & He2). now apply (Hnk e); auto. }
    assert (HH : forall l c, entries c = l ++ [(op, v)] -> (forall e, In e l -> In e (entries (a (kind op)))) ->
      forall o, lhas (l_set a (kind op) c) o -> lhas a o \/ o = op).
    { intros l c Hc Hl o (r & Hr). destruct (Nat.eq_dec (kind o) (kind op)) as [Ek|Hn].
      - rewrite Ek, lset_same, Hc in Hr. apply in_app_iff in Hr. destruct Hr as [Hr|[Hr|[]]].
        + left. exists r. rewrite Ek. auto.
        + right. congruence.
      - rewrite lset_other in Hr by auto. left. exists r. auto. }
    destruct (N.eqb_spec (N.of_nat (length (entries (a (kind op))))) (capacity (a (kind op)))) as [Ef|Ef]; cbn [rbind];
      eexists; (split; [reflexivity|]); (split; [apply linv_set; cbn [entries capacity l_hits l_misses l_filtered l_calls]; auto|]).
    - rewrite app_length. cbn [length]. destruct (entries (a (kind op))); cbn [tl length] in *; lia.
    - apply HK; [|apply in_tl]. rewrite map_tl. now apply tl_nodup.
    - intros o r Ho. apply in_app_iff in Ho. destruct Ho as [Ho|[Ho|[]]]; [apply H5, in_tl, Ho|]. injection Ho as <- <-. auto.
    - eapply HH; [reflexivity|]. apply in_tl.
    - rewrite app_length. cbn [length]. lia.
    - intros o r Ho. apply in_app_iff in Ho. destruct Ho as [Ho|[Ho|[]]]; [auto|]. injection Ho as <- <-. auto.
    - eapply HH; [reflexivity|]. auto.
  Qed.
  Lemma l_has_good : forall a o, linv a -> lhas a o -> good o.
  Proof. intros a o I (r & Hr). destruct (I (kind o)) as (_ & _ & _ & _ & H). now destruct (H o r Hr) as (_ & V & _). Qed.

  Lemma l_run_correct : forall n fuel p a, n <= fuel -> linv a -> (forall op, calls (peval n) p op -> good op) ->
    interp (peval n) p <> Err efuel ->
    exists a', exec (llook fuel) p a = (lift (interp (peval n) p), a') /\ linv a'.
  Proof.
    intros n fuel p a Hf I G T.
    assert (SE : forall a b, same a b -> good a -> good b -> forall n, peval n a = peval n b).
    { intros x b [H1 H2]. now apply same_eval. }
    pose proof (lookup_ok efuel efuel_dec body accept (l_note_filtered kind) (l_find_op key keq kind)
      (l_store_op key keq kind) same good good_calls SE linv lhas l_filtered_ok (fun _ => 0%N) l_find_ok l_store_ok l_has_good n) as L.
    destruct (exec_correct efuel body accept (l_note_filtered kind) (l_find_op key keq kind)
      (l_store_op key keq kind) good linv lhas n fuel L Hf p a I G T) as (a' & E1 & I1 & _). eauto.
  Qed.

  (** *** The concrete cache behaves as the least recently used cache, if clear() is not used *)

  Definition entry_of (c : cache Op R) (x : N * ptr) (e : Op * R) : Prop :=
    dat (cmem c) (snd x) = Some {| e_op := fst e; e_res := snd e; e_cit := fst x |}.
  Definition rel1 (c : cache Op R) (l : lru_cache Op R) : Prop :=
    (exists els fl, cache_ok key hash (fun _ _ => True) c els fl /\ Permutation (map snd (lru c)) els) /\
    Forall2 (entry_of c) (lru c) (entries l) /\ max_size c = capacity l /\
    hits c = l_hits l /\ misses c = l_misses l /\ filtered c = l_filtered l /\ discarded c = l_discarded l.
  Definition rel (s : caches Op R) (a : lru_caches Op R) : Prop := forall i, nb (tab (s i)) = NB i /\ rel1 (s i) (a i).

  Lemma rel_set : forall s a i c l, rel s a -> nb (tab c) = NB i -> rel1 c l -> rel (set_cache s i c) (l_set a i l).
  Proof.
    intros s a i c l Rl H1 H2 j. destruct (Nat.eq_dec j i) as [->|Hn].
    - rewrite set_same, lset_same. auto.
    - rewrite set_other, lset_other by auto. apply Rl.
  Qed.
  Lemma filt_sim : forall op s a, rel s a -> rel (note_filtered kind op s) (l_note_filtered kind op a).
  Proof.
    intros op s a Rl. unfold note_filtered, l_note_filtered. destruct (Rl (kind op)) as (H1 & (els & fl & H2 & H3) & H4 & H5 & H6 & H7 & H8 & H9).
    apply rel_set; auto. split; [|cbn; repeat split; auto; congruence].
    exists els, fl. split; auto. destruct H2. split; auto.
  Qed.

  Lemma forall2_find : forall (c : cache Op R) (f : Op -> bool) l es, Forall2 (entry_of c) l es ->
    match find (fun e => f (fst e)) es with
    | Some e => exists x, In x l /\ entry_of c x e /\ f (fst e) = true
    | None => forall x d, In x l -> dat (cmem c) (snd x) = Some d -> f (e_op d) = false
    end.
  Proof.
    intros c f l es F. induction F as [|x e l es Hx F IH]; cbn [find].
    - intros x d [].
    - destruct (f (fst e)) eqn:Fe.
      + exists x. split; [now left|auto].
      + destruct (find (fun e => f (fst e)) es) as [e'|].
        * destruct IH as (y & Y1 & Y2). exists y. split; [now right|auto].
        * intros y d [->|Hy] Hd; [|now apply (IH y)]. unfold entry_of in Hx. rewrite Hx in Hd. injection Hd as <-. exact Fe.
  Qed.
  Lemma in_lru_els : forall (c : cache Op R) els p, Permutation (map snd (lru c)) els -> (In p els <-> exists i, In (i, p) (lru c)).
  Proof.
    intros c els p H. split.
    - intros Hp. eapply Permutation_in in Hp; [|symmetry; exact H]. apply in_map_iff in Hp.
      destruct Hp as ([i q] & E1 & Hp). cbn in E1. subst q. eauto.
    - intros (i & Hi). eapply Permutation_in; [exact H|]. apply in_map_iff. now exists (i, p).
  Qed.
  Lemma forall2_filter : forall (c : cache Op R) f g l es, Forall2 (entry_of c) l es ->
    (forall x e, In x l -> entry_of c x e -> f x = g e) -> Forall2 (entry_of c) (filter f l) (filter g es).
  Proof.
    intros c f g l es F. induction F as [|x e l es Hx F IH]; intros H; cbn [filter]; auto.
    rewrite (H x e) by (simpl; auto). destruct (g e); [constructor; auto|]; apply IH; intros; apply H; simpl; auto.
  Qed.
  Lemma forall2_ext : forall (c c' : cache Op R) l es, Forall2 (entry_of c) l es ->
    (forall x, In x l -> dat (cmem c') (snd x) = dat (cmem c) (snd x)) -> Forall2 (entry_of c') l es.
  Proof.
    intros c c' l es F. induction F as [|x e l es Hx F IH]; intros H; constructor.
    - unfold entry_of in *. rewrite H by (simpl; auto). exact Hx.
    - apply IH. intros; apply H; simpl; auto.
  Qed.

  Lemma fnd_sim : forall op s a, rel s a -> exists r s' a' b,
    find_op key keq hash kind op s = Ok (r, cd op, s') /\ l_find_op key keq kind op a = Ok (r, b, a') /\ rel s' a'.
  Proof.
    intros op s a Rl. unfold find_op, l_find_op, cd.
    destruct (Rl (kind op)) as (H1 & (els & fl & H2 & H3) & H4 & H5 & H6 & H7 & H8 & H9).
    set (c := s (kind op)) in *. set (l := a (kind op)) in *.
    pose proof (forall2_find c (fun o => keq (key op) (key o)) _ _ H4) as F.
    unfold l_find. cbn [l_call entries]. cbv beta in F.
    change (find (fun e => keq (key op) (key (fst e))) (entries l)) with (find (is_op key keq op) (entries l)) in F.
    destruct (find (is_op key keq op) (entries l)) as [e|] eqn:Fe.
    - destruct F as ([id p] & F1 & F2 & F3). apply keq_spec in F3. unfold entry_of in F2. cbn [fst snd] in F2.
      assert (Hp : In p els) by (apply (in_lru_els c els p H3); eauto).
      assert (Hk : key (e_op {| e_op := fst e; e_res := snd e; e_cit := id |}) = key op) by (now symmetry).
      destruct (find_some_ok key keq hash keq_spec _ _ _ _ op p _ H2 Hp F2 Hk)
        as (c' & E1 & I1 & M1 & T1 & X1 & L1 & S1 & S2 & S3 & S4).
      rewrite E1. cbn [rbind fst snd]. rewrite H1. exists (Some (snd e)). do 3 eexists.
      split; [reflexivity|]. split; [reflexivity|]. apply rel_set; auto; [congruence|].
      cbn [e_cit] in L1.
      pose proof (k_ids _ _ _ _ _ _ H2) as ND.
      split; [|split].
      + exists els, fl. split; auto. rewrite L1. 
        rewrite <- (Permutation_map snd (filter_perm (lru c) id p ND F1)). exact H3.
      + rewrite L1. cbn [entries].
        apply Forall2_app.
        * apply (forall2_ext c); [|intros; now rewrite M1]. apply (forall2_filter c); auto.
          intros [i q] [o v] Hx He. unfold entry_of in He. cbn [fst snd] in *. f_equal.
          unfold is_op. cbn [fst].
          destruct (N.eqb_spec i id) as [->|Hn].
          -- assert (q = p).
             { clear - ND Hx F1. induction (lru c) as [|[j r] l0 IH]; [contradiction|]. cbn [map fst] in ND. inversion ND as [|? ? N1 N2]; subst.
               destruct Hx as [Hx|Hx], F1 as [F1|F1]; try congruence; try (apply IH; auto).
               - exfalso. apply N1. injection Hx as -> ->. apply in_map_iff. now exists (id, p).
               - exfalso. apply N1. injection F1 as -> ->. apply in_map_iff. now exists (id, q). }
             subst q. rewrite F2 in He. injection He as <- _. symmetry. apply keq_spec. auto.
          -- symmetry. apply not_true_iff_false. intros Hk'. apply keq_spec in Hk'. apply Hn.
             assert (Hq : In q els) by (apply (in_lru_els c els q H3); eauto).
             assert (q = p).
             { eapply (table_keys ekey hash _ _ els q p _ _ (k_table _ _ _ _ _ _ H2) Hq Hp He F2).
               unfold Cache.ekey. cbn [e_op]. congruence. }
             subst q. rewrite F2 in He. now injection He.
        * constructor; auto. unfold entry_of. cbn [fst snd]. now rewrite M1.
      + cbn [capacity l_hits l_misses l_filtered l_discarded l_call]. repeat split; congruence.
    - assert (Hno : forall p d, In p els -> dat (cmem c) p = Some d -> key (e_op d) <> key op).
      { intros p d Hp Hd Hk. apply (in_lru_els c els p H3) in Hp. destruct Hp as (i & Hp).
        pose proof (F (i, p) d Hp Hd) as X. assert (keq (key op) (key (e_op d)) = true) by (now apply keq_spec). congruence. }
      destruct (find_none_ok key keq hash keq_spec _ _ _ _ op H2 Hno) as [E1 I1].
      rewrite E1. cbn [rbind fst snd]. rewrite H1. exists None. do 3 eexists. split; [reflexivity|]. split; [reflexivity|].
      apply rel_set; auto. split; [eauto|]. cbn. repeat split; auto; congruence.
  Qed.

  Lemma sto_sim : forall op r b s a a', rel s a -> l_store_op key keq kind op r b a = Ok a' ->
    exists s', store_op key keq hash kind op r (cd op) s = Ok s' /\ rel s' a'.
  Proof.
    intros op r b s a a' Rl E1. unfold l_store_op in E1. unfold store_op, cd.
    destruct (Rl (kind op)) as (H1 & (els & fl & H2 & H3) & H4 & H5 & H6 & H7 & H8 & H9).
    set (c := s (kind op)) in *. set (l := a (kind op)) in *.
    unfold l_store in E1. destruct (existsb (is_op key keq op) (entries l)) eqn:X; [discriminate|].
    assert (Hno : forall p d, In p els -> dat (cmem c) p = Some d -> key (e_op d) <> key op).
    { intros p d Hp Hd Hk. apply (in_lru_els c els p H3) in Hp. destruct Hp as (i & Hp).
      pose proof (forall2_find c (fun o => keq (key op) (key o)) _ _ H4) as F.
      destruct (find (fun e => keq (key op) (key (fst e))) (entries l)) as [e|] eqn:Fe.
      - apply find_some in Fe. destruct Fe as [Fe1 Fe2].
        assert (existsb (is_op key keq op) (entries l) = true) by (apply existsb_exists; eauto). congruence.
      - pose proof (F (i, p) d Hp Hd) as Y. assert (keq (key op) (key (e_op d)) = true) by (now apply keq_spec). congruence. }
    assert (Hlen : length (entries l) = length els).
    { rewrite <- (Permutation_length H3), map_length. clear - H4. induction H4; simpl; congruence. }
    pose proof (ok_size key hash _ _ _ _ H2) as Hsz.
    rewrite <- H1. rewrite store_push.
    rewrite Hlen, <- Hsz, <- H5 in E1.
    destruct (full_iff key hash _ _ _ _ H2) as [HF1 HF2].
    pose proof (ok_nodup key hash _ _ _ _ H2) as NDs.
    destruct (N.eqb (size_ (tab c)) (max_size c)) eqn:Ef.
    - assert (fl = []) by auto. subst fl.
      destruct (evict_ok key keq hash keq_spec _ c els H2) as (id & p & rest & els' & c1 & El & PE & E2 & I1 & L1 & D1 & M1 & N1 & X1 & S1 & S2 & S3 & S4).
      rewrite E2. cbn [rbind]. rewrite <- N1.
      assert (Hnp : ~ In p els').
      { pose proof (ok_nodup key hash _ _ _ _ I1) as ND. intros Hp. apply (nodup_app_inv _ _ _ p ND Hp). now left. }
      destruct (push_ok key hash (fun _ _ => True) c1 els' p [] op r I1 I) as (c2 & E3 & I2 & L2 & D2 & D2' & N2 & X2 & T1 & T2 & T3 & T4).
      { intros q d Hq Hd. apply (Hno q d).
        - eapply Permutation_in; [symmetry; exact PE|now right].
        - rewrite <- D1; auto. intros ->. contradiction. }
      rewrite E3. cbn [rbind] in *. injection E1 as <-. eexists. split; [reflexivity|].
      rewrite El in H3, H4. cbn [map snd] in H3. inversion H4 as [|x e l0 es Hx HF Q1 Q2]; subst.
      assert (PR : Permutation (map snd (lru c1)) els').
      { apply (Permutation_cons_inv (a := p)). rewrite <- PE. exact H3. }
      assert (Hr : forall x, In x (lru c1) -> snd x <> p).
      { intros x Hx' Hq. apply Hnp. rewrite <- Hq. eapply Permutation_in; [exact PR|]. apply in_map_iff. eauto. }
      apply rel_set; auto; [congruence|]. split; [|split].
      + exists (p :: els'), []. split; auto. rewrite L2, map_app. cbn [map snd]. rewrite PR.
        rewrite Permutation_app_comm. reflexivity.
      + rewrite L2. cbn [entries]. cbn [tl]. apply Forall2_app.
        * apply (forall2_ext c); auto. intros x Hx'. rewrite D2', D1; auto.
        * constructor; auto.
      + cbn [capacity l_hits l_misses l_filtered l_discarded]. repeat split; congruence.
    - destruct fl as [|p fl]; [now specialize (HF2 eq_refl)|]. cbn [rbind] in *. injection E1 as <-.
      destruct (push_ok key hash (fun _ _ => True) c els p fl op r H2 I Hno) as (c2 & E2 & I2 & L2 & D2 & D2' & N2 & X2 & T1 & T2 & T3 & T4).
      rewrite E2. eexists. split; [reflexivity|].
      assert (Hr : forall x, In x (lru c) -> snd x <> p).
      { intros x Hx' Hq. apply (nodup_app_inv _ els (p :: fl) p NDs); [|now left]. rewrite <- Hq.
        eapply Permutation_in; [exact H3|]. apply in_map_iff. eauto. }
      apply rel_set; auto; [congruence|]. split; [|split].
      + exists (p :: els), fl. split; auto. rewrite L2, map_app. cbn [map snd]. rewrite H3.
        rewrite Permutation_app_comm. reflexivity.
      + rewrite L2. cbn [entries]. apply Forall2_app.
        * apply (forall2_ext c); auto.
        * constructor; auto.
      + cbn [capacity l_hits l_misses l_filtered l_discarded]. repeat split; congruence.
  Qed.

  Lemma run_sim : forall fuel p s a, rel s a -> linv a -> (forall op, calls (peval fuel) p op -> good op) ->
    interp (peval fuel) p <> Err efuel ->
    exists s' a', exec (look fuel) p s = (lift (interp (peval fuel) p), s') /\
      exec (llook fuel) p a = (lift (interp (peval fuel) p), a') /\ rel s' a' /\ linv a'.
  Proof.
    intros fuel p s a Rl I G T. destruct (l_run_correct fuel fuel p a (le_n _) I G T) as (a' & E1 & I1).
    destruct (exec_sim (E := E) rel R (look fuel) (llook fuel)) with (p := p) (s := s) (a := a) (r := lift (H := herr) (interp (peval fuel) p)) (a' := a')
      as (s' & E2 & R2); auto.
    - intros op s0 a0 r0 a0'. apply lookup_sim with (cd := cd).
      + exact filt_sim.
      + exact fnd_sim.
      + exact sto_sim.
    - intros h. destruct (interp (peval fuel) p); discriminate.
    - exists s', a'. auto.
  Qed.

  (** Contents of a cache, oldest entry first. *)
  Definition contents (c : cache Op R) : list (Op * R) :=
    flat_map (fun x => match dat (cmem c) (snd x) with Some d => [(e_op d, e_res d)] | None => [] end) (lru c).
  Lemma rel_contents : forall c l, rel1 c l -> contents c = entries l.
  Proof.
    intros c l (_ & F & _). unfold contents. induction F as [|x e lr es Hx F IH]; [reflexivity|].
    cbn [flat_map]. unfold entry_of in Hx. rewrite Hx, IH. cbn. now destruct e.
  Qed.

  Fixpoint run_progs (h : list (prog Op R E R)) (fuel : nat) (s : caches Op R) : caches Op R :=
    match h with
    | [] => s
    | p :: h' => run_progs h' fuel (snd (exec (look fuel) p s))
    end.
  Fixpoint lru_progs (h : list (prog Op R E R)) (fuel : nat) (a : lru_caches Op R) : lru_caches Op R :=
    match h with
    | [] => a
    | p :: h' => lru_progs h' fuel (snd (exec (llook fuel) p a))
    end.
  Lemma progs_sim : forall fuel h s a, rel s a -> linv a -> Forall (fun p => legal_cop fuel (CRun p)) h ->
    rel (run_progs h fuel s) (lru_progs h fuel a) /\ linv (lru_progs h fuel a).
  Proof.
    intros fuel h. induction h as [|p h IH]; intros s a Rl I L; cbn [run_progs lru_progs]; auto.
    inversion L as [|? ? [L1 L1'] L2]; subst.
    destruct (run_sim fuel p s a Rl I L1' L1) as (s' & a' & E1 & E2 & R' & I'). rewrite E1, E2. cbn [snd]. now apply IH.
  Qed.
  Lemma new_rel : forall s, new_caches sizes s -> rel s (fun i => l_empty (max_load (NB i))) /\ linv (fun i => l_empty (max_load (NB i))).
  Proof.
    intros s H. split; intros i; destruct (sizes_ok i) as [H1 H2];
      destruct (make_cache_ok key hash (fun (_ : Op) (_ : R) => True) (sizes i) H1 H2) as (c & E1 & I1 & N1 & X1 & M1 & L1 & S1 & S2 & S3 & S4).
    - rewrite (H i) in E1. injection E1 as ->. split; auto. split; [|split].
      + eexists _, _. split; [exact I1|]. rewrite L1. constructor.
      + rewrite L1. constructor.
      + cbn. auto.
    - cbn. split; [|repeat split; try lia; try constructor; contradiction].
      pose proof (k_pos _ _ _ _ _ _ I1) as Hp. rewrite X1 in Hp. exact Hp.
  Qed.
End Theorems.
