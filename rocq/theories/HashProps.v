(** * Properties of the hash table and of next_power_of_2 (C25, C27) *)

From Coq Require Import List Bool NArith Arith Lia Permutation.
From Verif Require Import Base Pow2 HashTable.
Import ListNotations.

(** ** C27: sdd/util/next_power.hh *)

(** The least power of two not below its argument, for every argument from 1 to 2^63. *)
Theorem C27_least_power : forall n, (1 <= n <= 2 ^ 63)%N ->
  exists e, next_power_of_2_64 n = (2 ^ e)%N /\ (n <= 2 ^ e)%N /\ forall f, (n <= 2 ^ f)%N -> (2 ^ e <= 2 ^ f)%N.
Proof.
  intros n [H1 H2]. destruct (np64_spec n H1 H2) as (e & E & _ & L & M). exists e. auto.
Qed.
Print Assumptions C27_least_power.

(** The remaining arguments of 64 bits: no power of two is representable above 2^63, and the result is 0. *)
Theorem C27_zero : next_power_of_2_64 0 = 0%N.
Proof. exact np64_zero. Qed.
Print Assumptions C27_zero.
Theorem C27_above : forall n, (2 ^ 63 < n < 2 ^ 64)%N -> next_power_of_2_64 n = 0%N.
Proof. intros n [H1 H2]. now apply np64_big. Qed.
Print Assumptions C27_above.

(** The version for 32-bit integers. *)
Theorem C27_32_bits : forall n,
  ((1 <= n <= 2 ^ 31)%N -> exists e, next_power_of_2_32 n = (2 ^ e)%N /\ (n <= 2 ^ e)%N /\
    forall f, (n <= 2 ^ f)%N -> (2 ^ e <= 2 ^ f)%N) /\
  (n = 0%N \/ (2 ^ 31 < n < 2 ^ 32)%N -> next_power_of_2_32 n = 0%N).
Proof.
  intros n. split.
  - intros [H1 H2]. destruct (np32_spec n H1 H2) as (e & A & _ & B & C). eauto.
  - intros [->|[H1 H2]]; [exact np32_zero|now apply np32_big].
Qed.
Print Assumptions C27_32_bits.
Example C27_example : next_power_of_2_64 100 = 128%N /\ next_power_of_2_64 (2 ^ 40 + 1) = (2 ^ 41)%N.
Proof. split; vm_compute; reflexivity. Qed.

(** ** C25: a hash table is a set of elements *)

Section Histories.
  Context {D K : Type}.
  Variable key : D -> K.
  Variable keq : K -> K -> bool.
  Variable hash : K -> N.
  Hypothesis keq_spec : forall a b, keq a b = true <-> a = b.

  (** What a client does: create an element at an address and insert it (a rejected one is destroyed), search,
      erase and destroy an element, remove everything, ask for the size. *)
  Inductive hop : Type :=
  | HInsert (p : ptr) (d : D)
  | HSearch (k : K)
  | HErase (p : ptr)
  | HClear
  | HSize.
  Inductive hret : Type :=
  | RInsert (p : ptr) (inserted : bool)
  | RSearch (p : option ptr)
  | RNone
  | RSize (n : N).

  (** The reference: a list of elements. *)
  Definition ref : Type := list (ptr * D).
  Definition ref_find (l : ref) (k : K) : option ptr :=
    option_map fst (find (fun x => keq k (key (snd x))) l).
  Definition ref_step (o : hop) (l : ref) : ref * hret :=
    match o with
    | HInsert p d =>
        match ref_find l (key d) with
        | Some q => (l, RInsert q false)
        | None => ((p, d) :: l, RInsert p true)
        end
    | HSearch k => (l, RSearch (ref_find l k))
    | HErase p => (filter (fun x => negb (N.eqb (fst x) p)) l, RNone)
    | HClear => ([], RNone)
    | HSize => (l, RSize (N.of_nat (length l)))
    end.
  (** Correct uses: a new element does not occupy the address of a live one; only elements of the table are
      erased. *)
  Definition legal (o : hop) (l : ref) : Prop :=
    match o with
    | HInsert p _ => ~ In p (map fst l) /\ (N.of_nat (length l) + 1 < 2 ^ 60)%N
    | HErase p => In p (map fst l)
    | _ => True
    end.
  Fixpoint legal_history (h : list hop) (l : ref) : Prop :=
    match h with
    | [] => True
    | o :: h' => legal o l /\ legal_history h' (fst (ref_step o l))
    end.
  Fixpoint ref_run (h : list hop) (l : ref) : list hret :=
    match h with
    | [] => []
    | o :: h' => snd (ref_step o l) :: ref_run h' (fst (ref_step o l))
    end.

  (** The same with the hash table. *)
  Definition hstate : Type := (@mem D * table)%type.
  Definition h_step (o : hop) (s : hstate) : res herr (hstate * hret) :=
    let '(m, t) := s in
    match o with
    | HInsert p d =>
        rbind (insert key keq hash (upd m p (Some {| c_data := d; c_next := None |})) t p) (fun r =>
        let '(m', t', (q, isnew)) := r in
        Ok ((if isnew then m' else upd m' p None, t'), RInsert q isnew))
    | HSearch k => rbind (insert_check key keq hash m t k) (fun r => Ok (s, RSearch (fst r)))
    | HErase p =>
        rbind (erase key keq hash m t p) (fun r => Ok ((upd (fst r) p None, snd r), RNone))
    | HClear =>
        rbind (clear_and_dispose (fun m => m) (fun p m => rbind (deref m p) (fun _ => Ok (upd m p None))) t m) (fun r =>
        Ok (r, RNone))
    | HSize => Ok (s, RSize (size_ t))
    end.
  Fixpoint h_run (h : list hop) (s : hstate) : res herr (list hret * hstate) :=
    match h with
    | [] => Ok ([], s)
    | o :: h' => rbind (h_step o s) (fun r => rbind (h_run h' (fst r)) (fun r' => Ok (snd r :: fst r', snd r')))
    end.

  (** *** Simulation *)

  Definition sim (s : hstate) (l : ref) : Prop :=
    table_ok key hash (fst s) (snd s) (map fst l) /\ (nb (snd s) < 2 ^ 63)%N /\
    forall p d, In (p, d) l -> dat (fst s) p = Some d.

  Lemma sim_find : forall s l k, sim s l ->
    match ref_find l k with
    | Some p => present key (fst s) (map fst l) k p
    | None => forall p, ~ present key (fst s) (map fst l) k p
    end.
  Proof.
    intros [m t] l k (T & _ & Dt). cbn [fst snd] in *. unfold ref_find.
    destruct (find (fun x => keq k (key (snd x))) l) as [[p d]|] eqn:F; cbn [option_map fst].
    - apply find_some in F. destruct F as [F1 F2]. cbn [snd] in F2. apply keq_spec in F2. split.
      + apply in_map_iff. now exists (p, d).
      + exists d. split; auto.
    - intros p [H1 (d & H2 & H3)]. apply in_map_iff in H1. destruct H1 as ([q e] & E1 & H1). cbn [fst] in E1. subst q.
      pose proof (Dt p e H1) as E. assert (d = e) by congruence. subst e.
      pose proof (find_none _ _ F _ H1) as N. cbn [snd] in N.
      assert (keq k (key d) = true) by (apply keq_spec; auto). congruence.
  Qed.
  Lemma present_unique' : forall s l k p q, sim s l -> present key (fst s) (map fst l) k p ->
    present key (fst s) (map fst l) k q -> p = q.
  Proof.
    intros s l k p q (T & _) [P1 (d & D1 & K1)] [Q1 (e & D2 & K2)].
    eapply (table_keys key hash (fst s) (snd s) (map fst l)); eauto. congruence.
  Qed.
  Lemma nodup_filter_fst : forall (l : ref) p d, NoDup (map fst l) -> In (p, d) l ->
    Permutation (map fst l) (p :: map fst (filter (fun x => negb (N.eqb (fst x) p)) l)).
  Proof.
    intros l p d. induction l as [|[q e] l IH]; intros ND []; cbn [map fst filter] in *.
    - injection H as -> ->. rewrite N.eqb_refl. cbn [negb]. constructor.
      inversion ND as [|? ? N1 N2]; subst. replace (filter _ l) with l; auto.
      symmetry. clear - N1. induction l as [|[a b] l IH]; [reflexivity|]. cbn [filter fst].
      assert (E : N.eqb a p = false).
      { apply N.eqb_neq. intros ->. apply N1. now left. }
      rewrite E. cbn [negb]. rewrite IH; auto. intros H. apply N1. now right.
    - inversion ND as [|? ? N1 N2]; subst.
      assert (E : N.eqb q p = false).
      { apply N.eqb_neq. intros ->. apply N1. apply in_map_iff. now exists (p, d). }
      rewrite E. cbn [negb map fst]. rewrite (IH N2 H) at 1. constructor.
  Qed.

  Lemma step_sim : forall o s l, sim s l -> legal o l ->
    exists s', h_step o s = Ok (s', snd (ref_step o l)) /\ sim s' (fst (ref_step o l)).
  Proof.
    intros o [m t] l S L. pose proof S as (T & Hb & Dt). cbn [fst snd] in *.
    pose proof (table_size key hash m t _ T) as Hsz. rewrite map_length in Hsz.
    destruct o as [p d|k|p| |]; cbn [legal] in L; cbn [h_step ref_step].
    - destruct L as [Hp Hn]. set (m1 := upd m p (Some {| c_data := d; c_next := None |})).
      assert (Hm1 : m1 p = Some {| c_data := d; c_next := None |}) by apply upd_same.
      assert (T1 : table_ok key hash m1 t (map fst l)).
      { apply (table_ext key hash m); auto. intros q Hq. apply upd_other. congruence. }
      assert (S1 : sim (m1, t) l).
      { split; [exact T1|]. split; [exact Hb|]. cbn [fst]. intros q e Hq. rewrite <- (Dt q e Hq). unfold dat, m1.
        rewrite upd_other; auto. intros ->. apply Hp. apply in_map_iff. now exists (p, e). }
      destruct (insert_ok key keq hash keq_spec m1 t (map fst l) p _ T1 Hb Hm1 Hp)
        as (m2 & t2 & r & isnew & E & D2 & M2 & C).
      rewrite E. cbn [rbind c_data] in *.
      assert (Hb2 : (nb t2 < 2 ^ 63)%N).
      { eapply (insert_nb key keq hash keq_spec m1 t (map fst l) p); eauto. lia. }
      pose proof (sim_find _ _ (key d) S1) as F. cbn [fst] in F.
      destruct isnew; [destruct C as (-> & C & T2)|destruct C as [C T2]].
      + destruct (ref_find l (key d)) as [q|]; [now destruct (C q)|].
        exists (m2, t2). split; [reflexivity|]. cbn [fst snd]. split; [exact T2|]. split; [exact Hb2|].
        cbn [fst]. intros q e [Hq|Hq].
        * injection Hq as <- <-. rewrite D2. unfold dat. now rewrite Hm1.
        * rewrite D2. destruct S1 as (_ & _ & S1). now apply S1.
      + destruct (ref_find l (key d)) as [q|]; [|now destruct (F r)].
        assert (q = r) by (eapply (present_unique' (m1, t)); eauto). subst q.
        eexists. split; [reflexivity|]. cbn [fst snd]. split; [|split; [exact Hb2|]].
        * cbn [fst snd]. apply (table_ext key hash m2); auto. intros q Hq. apply upd_other. congruence.
        * cbn [fst]. intros q e Hq. unfold dat. rewrite upd_other.
          -- fold (dat m2 q). rewrite D2. destruct S1 as (_ & _ & S1). now apply S1.
          -- intros ->. apply Hp. apply in_map_iff. now exists (p, e).
    - destruct (insert_check_ok key keq hash keq_spec m t (map fst l) k T) as (r & E & C).
      rewrite E. cbn [rbind fst]. exists (m, t). split; [|exact S]. cbn [snd]. do 3 f_equal.
      pose proof (sim_find _ _ k S) as F. cbn [fst] in F.
      destruct (ref_find l k) as [q|], r as [r|]; auto.
      + f_equal. eapply (present_unique' (m, t)); eauto.
      + now destruct (C q).
      + now destruct (F r).
    - apply in_map_iff in L. destruct L as ([q d] & Eq & Hp). cbn [fst] in Eq. subst q.
      pose proof (Dt p d Hp) as Hd.
      assert (Hc : exists c, m p = Some c).
      { unfold dat in Hd. destruct (m p) as [c|]; [eauto|discriminate]. }
      destruct Hc as (c & Hc).
      pose proof (table_nodup key hash m t _ T) as ND.
      pose proof (nodup_filter_fst l p d ND Hp) as PL.
      pose proof (table_perm key hash m t _ _ T PL) as T'.
      destruct (erase_ok key keq hash keq_spec m t _ p c T' Hc) as (m2 & t2 & E & T2 & D2 & M2 & N2 & _).
      rewrite E. cbn [rbind fst snd]. eexists. split; [reflexivity|].
      assert (Hpf : forall q, In q (map fst (filter (fun x => negb (N.eqb (fst x) p)) l)) -> q <> p).
      { intros q Hq. apply in_map_iff in Hq. destruct Hq as (x & <- & Hx). apply filter_In in Hx.
        destruct Hx as [_ Hx]. apply negb_true_iff, N.eqb_neq in Hx. exact Hx. }
      split; [|split]; cbn [fst snd].
      + apply (table_ext key hash m2); auto. intros q Hq. apply upd_other. now apply Hpf.
      + now rewrite N2.
      + intros q e Hq. unfold dat. rewrite upd_other.
        * fold (dat m2 q). rewrite D2. apply Dt. apply filter_In in Hq. tauto.
        * apply Hpf. apply in_map_iff. now exists (q, e).
    - set (I := fun (els : list ptr) (m' : @mem D) => forall p, In p els -> exists c, m' p = Some c).
      destruct (clear_ok key hash (fun m' : @mem D => m') (fun p m' => rbind (deref m' p) (fun _ => Ok (upd m' p None))) I)
        with (t := t) (els := map fst l) (s := m) as (m2 & t2 & E & _ & T2 & N2 & _); auto.
      + intros p els m' HI ND. destruct (HI p) as (c & Hc); [now left|]. unfold deref. rewrite Hc. cbn [rbind].
        eexists. split; [reflexivity|]. inversion ND as [|? ? N1 N2]; subst. split.
        * intros q Hq. destruct (HI q) as (c' & Hc'); [now right|]. exists c'. rewrite upd_other; auto. congruence.
        * intros q Hq. apply upd_other. congruence.
      + intros els P p Hp. destruct (table_dat key hash m t (map fst l) p T) as (d & Hd).
        { eapply Permutation_in; [symmetry; exact P|auto]. }
        unfold dat in Hd. destruct (m p); [eauto|discriminate].
      + rewrite E. cbn [rbind]. exists (m2, t2). split; [reflexivity|]. cbn [fst snd map]. split; [exact T2|].
        split; [cbn [snd]; now rewrite N2|]. intros p d [].
    - exists (m, t). split; [|exact S]. cbn [snd]. now rewrite Hsz.
  Qed.

  Definition empty_mem : @mem D := fun _ => None.
  Lemma run_sim : forall h s l, sim s l -> legal_history h l ->
    exists s' l', h_run h s = Ok (ref_run h l, s') /\ sim s' l'.
  Proof.
    induction h as [|o h IH]; intros s l S L; cbn [h_run ref_run legal_history] in *.
    - eauto.
    - destruct L as [L1 L2]. destruct (step_sim o s l S L1) as (s1 & E1 & S1). rewrite E1. cbn [rbind fst snd].
      destruct (IH s1 _ S1 L2) as (s2 & l2 & E2 & S2). rewrite E2. cbn [rbind fst snd]. eauto.
  Qed.
  Lemma sim_start : forall size, (1 <= size)%N -> (size <= 2 ^ 62)%N -> sim (empty_mem, make_table size) [].
  Proof.
    intros size H1 H2. assert (H3 : (size <= 2 ^ 63)%N) by lia. split; [|split].
    - cbn [fst snd map]. now apply make_table_ok.
    - cbn [snd]. unfold make_table. cbn [nb]. destruct (np64_spec size H1 H3) as (e & -> & He & _ & M).
      specialize (M 62%N H2). lia.
    - intros p d [].
  Qed.

  (** Every history of correct uses, from any initial size, any hash function: the answers are those of a set, none
      is a fault. *)
  Theorem C25_set : forall size h, (1 <= size <= 2 ^ 62)%N -> legal_history h [] ->
    exists s, h_run h (empty_mem, make_table size) = Ok (ref_run h [], s).
  Proof.
    intros size h [H1 H2] L. destruct (run_sim h _ [] (sim_start size H1 H2) L) as (s & l & E & _). eauto.
  Qed.

  (** The statistics partition the buckets. *)
  Theorem C25_collisions : forall size h rs s, (1 <= size <= 2 ^ 62)%N -> legal_history h [] ->
    h_run h (empty_mem, make_table size) = Ok (rs, s) ->
    exists c a e, collisions (fst s) (snd s) = Ok (c, a, e) /\ (c + a + e = nb (snd s))%N /\
                  (a + 2 * c <= size_ (snd s))%N.
  Proof.
    intros size h rs s [H1 H2] L E. destruct (run_sim h _ [] (sim_start size H1 H2) L) as (s' & l & E' & (T & _)).
    rewrite E in E'. injection E' as -> ->.
    destruct (collisions_ok key hash (fst s') (snd s') (map fst l) T) as (bs & R & P & EC). rewrite EC. 
    do 3 eexists. split; [reflexivity|]. 
    assert (Len : length bs = N.to_nat (nb (snd s'))).
    { rewrite <- (r_len _ _ _ _ _ _ _ R). pose proof (r_chain _ _ _ _ _ _ _ R) as F. clear - F.
      induction F; simpl; congruence. }
    rewrite (r_size _ _ _ _ _ _ _ R). unfold nb_with. split.
    - transitivity (N.of_nat (length bs)); [|lia]. clear. induction bs as [|l bs IH]; [reflexivity|]. cbn [filter].
      destruct (length l) as [|[|n]]; cbn [Nat.ltb Nat.leb Nat.eqb length] in *; lia.
    - clear. induction bs as [|l bs IH]; [reflexivity|]. cbn [filter concat]. rewrite app_length.
      destruct (length l) as [|[|n]]; cbn [Nat.ltb Nat.leb Nat.eqb length] in *; lia.
  Qed.
End Histories.
Print Assumptions C25_set.
Print Assumptions C25_collisions.

(** A history that meets the hypotheses: a constant hash, collisions, a duplicate, a rehash, erasures. *)
Example C25_example :
  let h := [HInsert 1 10; HInsert 2 20; HInsert 3 10; HInsert 4 30; HSearch 20; HErase 2; HSearch 20; HSize]%N in
  legal_history (D := N) (fun d => d) N.eqb h [] /\
  ref_run (fun d => d) N.eqb h [] =
  [RInsert 1 true; RInsert 2 true; RInsert 1 false; RInsert 4 true; RSearch (Some 2); RNone; RSearch None; RSize 2]%N.
Proof.
  cbn [legal_history ref_run ref_step legal map fst snd]. repeat split; try reflexivity; try (vm_compute; tauto);
    vm_compute; intros H; repeat (destruct H as [H|H]; [discriminate|]); contradiction.
Qed.
