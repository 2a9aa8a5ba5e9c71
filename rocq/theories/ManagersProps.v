(** * Managers: the properties (C47). *)

From Coq Require Import List Arith Bool Lia.
Import ListNotations.
From Verif Require Import Managers.

(** init throws exactly when a manager of this configuration is alive, after every history of
    initialisations, copies and destructions of managers of any configurations; a call that
    throws changes nothing. *)
Theorem C47_init_throws : forall T l c,
  init T c (m_run T l) = None <-> manager_alive c (m_run T l).
Proof.
  intros T l c. destruct (winv_run T l) as [ND FR CN NU AL PT].
  unfold init. rewrite NU.
  destruct (g_internal (m_run T l) c) as [m|] eqn:E.
  - split; [|auto]. intros _. destruct (PT _ _ E) as [n H]. exists m, n. exact H.
  - split; [discriminate|]. intros (m & n & H). destruct (AL _ _ _ H). congruence.
Qed.

Theorem C47_throw_changes_nothing : forall T l c,
  manager_alive c (m_run T l) -> m_run T (l ++ [MInit c]) = m_run T l.
Proof.
  intros T l c H. rewrite m_run_snoc. cbn. apply C47_init_throws in H. now rewrite H.
Qed.

(** At most one manager of each configuration is alive. *)
Theorem C47_one_manager : forall T l c m1 n1 m2 n2,
  In (m1, (c, n1)) (alive (m_run T l)) -> In (m2, (c, n2)) (alive (m_run T l)) ->
  m1 = m2 /\ n1 = n2.
Proof.
  intros T l c m1 n1 m2 n2 H1 H2. pose proof (winv_run T l) as I.
  destruct (wi_alive _ I _ _ _ H1) as [E1 _].
  destruct (wi_alive _ I _ _ _ H2) as [E2 _].
  assert (m1 = m2) as -> by congruence. split; auto.
  pose proof (NoDup_key _ _ _ _ (wi_nodup _ I) H1 H2). congruence.
Qed.

(** A manager lives until its last copy is destroyed: with [n] copies, [k < n] destructions leave
    it alive with [n - k] copies. *)
Theorem C47_last_copy : forall T l m c n,
  In (m, (c, n)) (alive (m_run T l)) ->
  (forall k, k < n -> In (m, (c, n - k)) (alive (m_run T (l ++ repeat (MDrop m) k))))
  /\ ~ manager_alive c (m_run T (l ++ repeat (MDrop m) n)).
Proof.
  intros T l m c n H.
  assert (forall k, k < n -> In (m, (c, n - k)) (alive (m_run T (l ++ repeat (MDrop m) k)))) as A.
  { induction k as [|k IH]; intros L.
    - cbn. rewrite app_nil_r, Nat.sub_0_r. exact H.
    - specialize (IH ltac:(lia)).
      replace (repeat (@MDrop m) (S k)) with (repeat (MDrop m) k ++ [MDrop m])
        by (rewrite <- repeat_cons; reflexivity).
      rewrite app_assoc, m_run_snoc. cbn [m_step].
      pose proof (winv_run T (l ++ repeat (MDrop m) k)) as I.
      revert IH I. generalize (m_run T (l ++ repeat (MDrop m) k)) as w. intros w IH I.
      unfold drop. destruct (lookup m (alive w)) as [[c' n']|] eqn:E.
      + pose proof (lookup_In _ _ _ E) as E'.
        pose proof (NoDup_key _ _ _ _ (wi_nodup _ I) IH E') as [= <- <-].
        destruct (n - k <=? 1) eqn:L1; [apply Nat.leb_le in L1; lia|].
        cbn. apply update_In; [apply (wi_nodup _ I)|eapply in_keys; eauto|].
        left. split; auto. do 2 f_equal. lia.
      + now apply (lookup_None _ (c, n - k)) in E. }
  split; [exact A|].
  pose proof (wi_count _ (winv_run T l) _ _ _ H) as P.
  replace n with (S (pred n)) by lia.
  replace (repeat (@MDrop m) (S (pred n))) with (repeat (MDrop m) (pred n) ++ [MDrop m])
    by (rewrite <- repeat_cons; reflexivity).
  specialize (A (pred n) ltac:(lia)). replace (n - pred n) with 1 in A by lia.
  rewrite app_assoc, m_run_snoc. cbn [m_step].
  pose proof (winv_run T (l ++ repeat (MDrop m) (pred n))) as I.
  pose proof (winv_step T (MDrop m) _ I) as I'. cbn [m_step] in I'.
  revert A I I'. generalize (m_run T (l ++ repeat (MDrop m) (pred n))) as w. intros w A I I'.
  intros (m' & n' & H').
  destruct (wi_alive _ I' _ _ _ H') as [G _]. revert G.
  unfold drop. destruct (lookup m (alive w)) as [[c' k]|] eqn:E.
  - pose proof (lookup_In _ _ _ E) as E'.
    pose proof (NoDup_key _ _ _ _ (wi_nodup _ I) A E') as [= <- <-].
    cbn. rewrite set_same. discriminate.
  - now apply (lookup_None _ (c, 1)) in E.
Qed.

(** The diagrams and homomorphisms of a live manager are isolated from the other configurations,
    whatever the program does. *)
Theorem C47_diagrams_isolated : forall T l m c n,
  In (m, (c, n)) (alive (m_run T l)) ->
  g_internal (m_run T l) c = Some m /\ h_internal (m_run T l) c = Some m.
Proof. intros T l m c n H. exact (wi_alive _ (winv_run T l) _ _ _ H). Qed.

(** Nothing designates a destroyed manager: the global pointers and the deletion handlers all lead to
    managers that are alive. *)
Theorem C47_nothing_dangles : forall T l m c v,
  (g_internal (m_run T l) c = Some m \/ h_internal (m_run T l) c = Some m ->
     exists n, In (m, (c, n)) (alive (m_run T l)))
  /\ (g_values (m_run T l) v = Some m \/ h_values (m_run T l) v = Some m ->
     exists c n, In (m, (c, n)) (alive (m_run T l)) /\ values_of T c = v).
Proof.
  intros T l m c v. destruct (sinv_run T l) as [A B C _]. split; intros [H|H]; eauto.
  exact (wi_ptr _ (winv_run T l) _ _ H).
Qed.

(** In particular, when no manager of a configuration is alive, its pointers and handlers are those of
    a program that never called init. *)
Theorem C47_destroyed_clean : forall T l c,
  ~ manager_alive c (m_run T l) -> g_internal (m_run T l) c = None /\ h_internal (m_run T l) c = None.
Proof.
  intros T l c H. split.
  - destruct (g_internal (m_run T l) c) as [m|] eqn:E; auto. exfalso. apply H.
    destruct (C47_nothing_dangles T l m c 0) as [A _]. destruct (A (or_introl E)). red. eauto.
  - destruct (h_internal (m_run T l) c) as [m|] eqn:E; auto. exfalso. apply H.
    destruct (C47_nothing_dangles T l m c 0) as [A _]. destruct (A (or_intror E)). red. eauto.
Qed.

(** The full claim, [forall T l m c n, In (m, (c, n)) (alive (m_run T l)) -> serves T m c
    (m_run T l)], is false: see [C47_isolation_refuted]. It holds if a stateful type of values is
    never shared by the configurations of two live managers. *)
Theorem C47_isolation_partial : forall T l m c n,
  apart_history T l -> In (m, (c, n)) (alive (m_run T l)) -> serves T m c (m_run T l).
Proof.
  intros T l m c n A H. destruct (C47_diagrams_isolated _ _ _ _ _ H) as [H1 H2].
  split; [exact H1|]. split; [exact H2|]. intros ST. exact (vinv_run T l A _ _ _ H ST).
Qed.

(** In particular when configurations do not share stateful types of values at all. *)
Theorem C47_isolation_distinct_partial : forall T l m c n,
  (forall c1 c2, stateful T (values_of T c1) = true ->
                 values_of T c1 = values_of T c2 -> c1 = c2) ->
  In (m, (c, n)) (alive (m_run T l)) -> serves T m c (m_run T l).
Proof.
  intros T l m c n INJ H. apply (C47_isolation_partial T l m c n); [|exact H].
  clear H. induction l as [|o l IH] using rev_ind; [constructor|].
  constructor; [exact IH|]. destruct o as [c0|m0|m0]; cbn; auto.
  intros ST c' NE EQ. exfalso. apply NE. symmetry. apply INJ; auto.
Qed.

(** The configurations of sdd/conf/default_configurations.hh:85-108: conf0 uses bitset<64>
    (stateless), conf1 and conf2 both use flat_set<unsigned int> (stateful). *)
Definition default_types : types :=
  {| values_of := fun c => match c with 0 => 0 | _ => 1 end;
     stateful := fun v => match v with 0 => false | _ => true end |}.

(** With conf1 and conf2: creating a manager of conf2 redirects the values of the live manager of
    conf1, and destroying it leaves conf1 with no values manager at all. Neither call throws. *)
Theorem C47_isolation_refuted :
  let w1 := m_run default_types [MInit 1] in
  let w2 := m_run default_types [MInit 1; MInit 2] in
  let w3 := m_run default_types [MInit 1; MInit 2; MDrop 1] in
  serves default_types 0 1 w1
  /\ (In (0, (1, 1)) (alive w2) /\ ~ serves default_types 0 1 w2
      /\ g_values w2 (values_of default_types 1) = Some 1
      /\ h_values w2 (values_of default_types 1) = Some 1)
  /\ (In (0, (1, 1)) (alive w3) /\ ~ serves default_types 0 1 w3
      /\ g_values w3 (values_of default_types 1) = None
      /\ h_values w3 (values_of default_types 1) = None).
Proof.
  cbn. unfold serves. cbn. repeat split; auto; intros (_ & _ & H); destruct (H eq_refl); discriminate.
Qed.

(** Non-vacuity: a history of conf0 and conf1, with copies, re-initialisation after destruction
    and a refused call, that keeps the types of values apart. *)
Example C47_ex_history :
  let l := [MInit 1; MInit 0; MCopy 0; MInit 1; MDrop 0; MDrop 0; MInit 2; MDrop 1; MInit 0] in
  apart_history default_types l
  /\ alive (m_run default_types l) = [(3, (0, 1)); (2, (2, 1))]
  /\ serves default_types 2 2 (m_run default_types l).
Proof.
  split; [|split; [reflexivity|]].
  - assert (forall c w, (forall m c' n, In (m, (c', n)) (alive w) ->
              c' <> c -> values_of default_types c' = values_of default_types c -> False) ->
            apart default_types (MInit c) w) as A.
    { intros c w H ST c' NE EQ (m & n & HI). exact (H m c' n HI NE EQ). }
    Ltac peel := match goal with |- apart_history _ ?l =>
                   let l' := eval cbv in (removelast l) in
                   let o := eval cbv in (last l (MInit 0)) in
                   change l with (l' ++ [o]) at 1; apply ap_snoc end.
    repeat (peel; [|cbn [apart]; try exact I; apply A; intros m c' n HI NE EQ; cbn in HI;
                    repeat (destruct HI as [HI|HI]; [injection HI as <- <- <-; cbn in EQ; congruence|]);
                    try exact HI]).
    constructor.
  - unfold serves. cbn. auto.
Qed.

Print Assumptions C47_init_throws.
Print Assumptions C47_throw_changes_nothing.
Print Assumptions C47_one_manager.
Print Assumptions C47_last_copy.
Print Assumptions C47_diagrams_isolated.
Print Assumptions C47_nothing_dangles.
Print Assumptions C47_destroyed_clean.
Print Assumptions C47_isolation_partial.
Print Assumptions C47_isolation_distinct_partial.
Print Assumptions C47_isolation_refuted.
