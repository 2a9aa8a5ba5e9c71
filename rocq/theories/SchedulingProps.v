(** * C77 and C78: the example program examples/scheduling

    The specification is at the beginning of SchedulingProofs.v ([rule], [program_rule], [possible]) and below
    ([feasible_scheduling]); it speaks of tasks, cores and times only. The program is in Scheduling.v. *)

From Coq Require Import List Bool NArith Arith Lia Relations Permutation.
From Verif Require Import Base SortedSets Values Sdd SddFacts Orders OrdersProofs OrdersMore OrdersSdd DDModel Spec.
From Verif Require Import DDTheorems FlatSet Concrete Count CountProps OrdersProps Hom HomFacts HomEval HomTyped HomInd HomConcrete HomCode Rows HomMaps.
From Verif Require Import Scheduling SchedulingProofs.
Import ListNotations.

(** ** Specification *)

(** A scheduling that can be executed: the tasks are run on existing cores, between their release and their deadline,
    a core runs one task at a time, and a task that is on the core of a task it depends on starts after it. *)
Record feasible_scheduling (tm : task_model) (cores : nat) (st : state) : Prop := {
  in_bounds : forall t, (t < N.of_nat (task_number tm))%N -> exists c s, place st t = Some (c, s) /\ (c < N.of_nat cores)%N
    /\ (release (task_of tm t) <= s)%N /\ (s + wcet (task_of tm t) <= deadline (task_of tm t))%N;
  one_at_a_time : forall t u c s s', (t < N.of_nat (task_number tm))%N -> (u < N.of_nat (task_number tm))%N -> t <> u ->
    place st t = Some (c, s) -> place st u = Some (c, s') ->
    (s + wcet (task_of tm t) <= s')%N \/ (s' + wcet (task_of tm u) <= s)%N;
  same_core : forall t u c s s', (t < N.of_nat (task_number tm))%N -> In u (dependencies_of tm t) ->
    place st t = Some (c, s) -> place st u = Some (c, s') -> (s' + wcet (task_of tm u) <= s)%N
}.

(** A task starts after the tasks it depends on, whatever the cores. *)
Definition dependencies_respected (tm : task_model) (st : state) : Prop := forall t u c s d s',
  (t < N.of_nat (task_number tm))%N -> In u (dependencies_of tm t) ->
  place st t = Some (c, s) -> place st u = Some (d, s') -> (s' + wcet (task_of tm u) <= s)%N.

Lemma closure_map {A} (R R' : A -> A -> Prop) a b : (forall x y, R x y -> R' x y) -> clos_refl_trans _ R a b -> clos_refl_trans _ R' a b.
Proof. intros H C. induction C; [apply rt_step; auto|apply rt_refl|eapply rt_trans; eauto]. Qed.

Lemma program_rule_rule tm cores st st' : program_rule tm cores st st' -> rule tm cores st st'.
Proof. intros (t & c & Ht & Hc & Rd & It & Sc). exists t, c. repeat split; auto; try apply Rd; try apply Sc. apply It. lia. Qed.

Lemma one_core_rule tm st st' : rule tm 1 st st' -> program_rule tm 1 st st'.
Proof.
  intros (t & c & Ht & Hc & Rd & It & Sc). exists t, c. split; [auto|]. split; [auto|]. split; [auto|]. split; [|auto].
  intros d Hd. assert (E : d = c) by lia. now rewrite E.
Qed.

(** What the rules keep true. *)
Record running (tm : task_model) (cores : nat) (st : state) : Prop := {
  run_place : forall t c s, (t < N.of_nat (task_number tm))%N -> place st t = Some (c, s) -> (c < N.of_nat cores)%N
    /\ (release (task_of tm t) <= s)%N /\ (s + wcet (task_of tm t) <= deadline (task_of tm t))%N
    /\ (s + wcet (task_of tm t) <= clock st c)%N;
  run_one : forall t u c s s', (t < N.of_nat (task_number tm))%N -> (u < N.of_nat (task_number tm))%N -> t <> u ->
    place st t = Some (c, s) -> place st u = Some (c, s') ->
    (s + wcet (task_of tm t) <= s')%N \/ (s' + wcet (task_of tm u) <= s)%N;
  run_deps : forall t u c s s', (t < N.of_nat (task_number tm))%N -> In u (dependencies_of tm t) ->
    place st t = Some (c, s) -> place st u = Some (c, s') -> (s' + wcet (task_of tm u) <= s)%N;
  run_order : forall t u, (t < N.of_nat (task_number tm))%N -> In u (dependencies_of tm t) -> place st t <> None -> place st u <> None
}.

Lemma rule_running tm cores st st' : (forall t u, (t < N.of_nat (task_number tm))%N -> In u (dependencies_of tm t) -> (u < N.of_nat (task_number tm))%N) ->
  running tm cores st -> rule tm cores st st' -> running tm cores st'.
Proof.
  intros Kd [R1 R2 R3 R4] (t & c & Ht & Hc & (Rt & Rd) & It & S1 & S2 & S3 & S4). unfold in_time, stop, start in *.
  assert (Old : forall u d s, (u < N.of_nat (task_number tm))%N -> place st u = Some (d, s) -> u <> t /\ place st' u = Some (d, s)).
  { intros u d s Hu E. assert (D : u <> t) by congruence. split; [auto|]. now rewrite S3. }
  assert (New : forall u d s, place st' u = Some (d, s) -> u = t /\ d = c /\ s = N.max (clock st c) (release (task_of tm t)) \/ u <> t /\ place st u = Some (d, s)).
  { intros u d s E. destruct (N.eq_dec u t) as [->|D]; [left|right; split; [auto|now rewrite <- S3]]. rewrite S1 in E.
    split; [auto|]. split; congruence. }
  assert (Clk : forall d, (clock st d <= clock st' d)%N).
  { intros d. destruct (N.eq_dec d c) as [->|D]; [rewrite S2|rewrite S4 by auto]; lia. }
  split.
  - intros u d s Hu E. destruct (New u d s E) as [(-> & -> & ->)|(D & E')].
    + split; [auto|]. rewrite S2. lia.
    + destruct (R1 u d s Hu E') as (A1 & A2 & A3 & A4). specialize (Clk d). lia.
  - intros u w d s s' Hu Hw D Eu Ew. destruct (New u d s Eu) as [(Xu & Xd & Xs)|(Du & Eu')]; destruct (New w _ s' Ew) as [(Yu & Yd & Ys)|(Dw & Ew')]; subst.
    + contradiction.
    + right. destruct (R1 w _ _ Hw Ew') as (_ & _ & _ & A4). lia.
    + left. destruct (R1 u _ _ Hu Eu') as (_ & _ & _ & A4). lia.
    + apply (R2 u w d s s'); auto.
  - intros u w d s s' Hu Hw Eu Ew. assert (Hw' : (w < N.of_nat (task_number tm))%N) by now apply (Kd u).
    destruct (New u d s Eu) as [(Xu & Xd & Xs)|(Du & Eu')]; destruct (New w _ s' Ew) as [(Yu & Yd & Ys)|(Dw & Ew')]; subst.
    + exfalso. now apply (Rd t Hw).
    + destruct (R1 w _ _ Hw' Ew') as (_ & _ & _ & A4). lia.
    + exfalso. apply (R4 u t Hu Hw); [congruence|auto].
    + apply (R3 u w d s s'); auto.
  - intros u w Hu Hw Pu Pw. assert (Dw : w <> t) by (intros ->; congruence). rewrite S3 in Pw by auto.
    destruct (N.eq_dec u t) as [->|Du]; [now apply (Rd w)|]. rewrite S3 in Pu by auto. now apply (R4 u w).
Qed.

Lemma nothing_running tm cores : running tm cores nothing.
Proof. split; cbn; try discriminate. intros. congruence. Qed.

Lemma possible_running tm cores st : (forall t u, (t < N.of_nat (task_number tm))%N -> In u (dependencies_of tm t) -> (u < N.of_nat (task_number tm))%N) ->
  clos_refl_trans _ (rule tm cores) nothing st -> running tm cores st.
Proof.
  intros Kd R. apply clos_rt_rtn1 in R. induction R as [|a b Rl _ IH]; [apply nothing_running|]. now apply (rule_running tm cores a).
Qed.

Lemma possible_feasible tm cores st : (forall t u, (t < N.of_nat (task_number tm))%N -> In u (dependencies_of tm t) -> (u < N.of_nat (task_number tm))%N) ->
  possible tm (rule tm cores) st -> feasible_scheduling tm cores st.
Proof.
  intros Kd [R Co]. destruct (possible_running tm cores st Kd R) as [R1 R2 R3 _]. split; auto.
  intros t Ht. destruct (place st t) as [[c s]|] eqn:E; [|destruct (Co t Ht E)]. exists c, s.
  destruct (R1 t c s Ht E) as (A1 & A2 & A3 & _). auto.
Qed.

Section SchedulingProps.
  Variable tm : task_model.
  Variable plt : fset arc_ltb -> fset arc_ltb -> bool.
  Hypothesis SP : strict_total plt.
  Notation VI := (flat_set_values arc_ltb arc_ltb_strict plt).
  Notation VL := (flat_set_laws arc_ltb arc_ltb_strict plt SP).
  Variable PF : platform VI.
  Hypothesis PO : platform_ok PF.
  Variable HP : hplatform (fset arc_ltb) N sfun sind.
  Hypothesis HPO : hplatform_ok HP.
  Notation sched_runs := (sched_runs tm plt PF HP).
  Notation sched_init := (sched_init tm plt PF HP).
  Notation n := (N.of_nat (task_number tm)).

  (** The variables of the tasks are in any order. *)
  Variable task_order : list N.
  Variable cores : nat.
  Hypothesis Po : Permutation task_order (all_tasks tm).
  Hypothesis W : fits32 tm cores.
  Notation has final st := (contains (VI := VI) final (row (state_row task_order cores st)) = true).

  (** The program ends and prints a number. *)
  Theorem C77_ends : 0 < task_number tm -> 0 < cores -> exists final printed, sched_runs task_order cores final (Some printed).
  Proof.
    intros Hn Hk. destruct (sched_main tm plt SP PF PO HP HPO task_order cores Po W Hk Hn) as (o & m0 & h & f & E & y & z & Ey & Ez & Fz & _).
    destruct (C14_size VI VL PF PO z (fits_built VI VL PF PO _ z Fz)) as (l & _ & _ & El).
    exists z, (N.of_nat (length l)), o, m0, h, f, y. auto.
  Qed.

  (** Without tasks, or without cores, it throws std::invalid_argument. *)
  Theorem C77_nothing_to_do : task_number tm = 0 \/ cores = 0 -> sched_init task_order cores = Err (SHom CInvalid).
  Proof.
    intros H. destruct (Nat.eq_dec (task_number tm) 0) as [E|E].
    - apply no_tasks; auto.
    - apply no_cores; auto; lia.
  Qed.

  Lemma runs_main final printed : 0 < task_number tm -> 0 < cores -> sched_runs task_order cores final printed ->
    printed = size VI PF final /\ built VI PF final /\
    forall p, contains (VI := VI) final p = true <-> exists st, possible tm (program_rule tm cores) st /\ p = row (state_row task_order cores st).
  Proof.
    intros Hn Hk (o & m0 & h & f & s & E & Ey & Ez & Es).
    destruct (sched_main tm plt SP PF PO HP HPO task_order cores Po W Hk Hn) as (o' & m0' & h' & f' & E' & y & z & Ey' & Ez' & Fz & Hz).
    rewrite E in E'. injection E' as <- <- <- <-.
    assert (s = y) by exact (evals_fun VI PF N sfun sind _ _ _ _ _ _ Ey Ey'). subst s.
    assert (final = z) by exact (evals_fun VI PF N sfun sind _ _ _ _ _ _ Ez Ez'). subst final.
    split; [auto|]. split; [exact (fits_built VI VL PF PO _ z Fz)|]. intros p. split.
    - intros C. destruct (rows_of VI PF _ _ _ Fz C) as (c & -> & _). apply Hz in C. destruct C as (st & Ps & ->). eauto.
    - intros (st & Ps & ->). apply Hz. eauto.
  Qed.

  (** The result: exactly the schedulings that the rules of the program allow. With the rules of the problem ([rule])
      instead, it is false: see [C77_complete_refuted]. *)
  Theorem C77_exact_partial final printed : 0 < task_number tm -> 0 < cores -> sched_runs task_order cores final printed ->
    forall p, contains (VI := VI) final p = true <-> exists st, possible tm (program_rule tm cores) st /\ p = row (state_row task_order cores st).
  Proof. intros Hn Hk R. apply (runs_main final printed Hn Hk R). Qed.

  (** All that it finds is allowed by the rules, and can be executed. *)
  Theorem C77_sound final printed p : 0 < task_number tm -> 0 < cores -> sched_runs task_order cores final printed ->
    contains (VI := VI) final p = true -> exists st, p = row (state_row task_order cores st) /\ possible tm (rule tm cores) st
      /\ feasible_scheduling tm cores st.
  Proof.
    intros Hn Hk R C. apply (C77_exact_partial final printed Hn Hk R) in C. destruct C as (st & [Rs Co] & ->). exists st. split; [auto|].
    assert (P : possible tm (rule tm cores) st) by (split; [exact (closure_map _ _ _ _ (program_rule_rule tm cores) Rs)|auto]).
    split; [auto|]. apply possible_feasible; auto. exact (known_deps W).
  Qed.

  (** The number that it prints is the number of the schedulings that it finds. *)
  Theorem C77_count final printed : 0 < task_number tm -> 0 < cores -> sched_runs task_order cores final printed ->
    exists l : list (list arc), NoDup l /\ printed = Some (N.of_nat (length l)) /\
      forall r, In r l <-> exists st, possible tm (program_rule tm cores) st /\ r = state_row task_order cores st.
  Proof.
    intros Hn Hk R. destruct (runs_main final printed Hn Hk R) as (-> & B & C).
    destruct (C14_size VI VL PF PO final B) as (l & ND & Hl & El).
    assert (X : exists l', l = map (@row arc) l').
    { assert (Y : forall p, In p l -> exists r, p = row r).
      { intros p Hp. apply Hl, C in Hp. destruct Hp as (st & _ & ->). eauto. }
      clear - Y. induction l as [|p l IH]; [exists []; auto|]. destruct IH as (l' & ->); [intros q Hq; apply Y; now right|].
      destruct (Y p (or_introl eq_refl)) as (r & ->). exists (r :: l'). auto. }
    destruct X as (l' & ->). exists l'. split; [exact (NoDup_map_inv _ _ ND)|]. split; [rewrite El; now rewrite map_length|].
    intros r. assert (Z : In r l' <-> In (row r) (map (@row arc) l')).
    { rewrite in_map_iff. split; [eauto|]. intros (q & E & Hq). apply row_inj in E. now subst. }
    rewrite Z. rewrite (Hl (row r)), C. split; intros (st & Ps & E); exists st; (split; [auto|]); [now apply row_inj in E|now rewrite E].
  Qed.
End SchedulingProps.

Print Assumptions C77_ends.
Print Assumptions C77_nothing_to_do.
Print Assumptions C77_exact_partial.
Print Assumptions C77_sound.
Print Assumptions C77_count.

(** With one core, it finds all the schedulings that the rules allow, and the dependencies are respected. *)
Theorem C77_one_core tm plt (SP : strict_total plt) (PF : platform (flat_set_values arc_ltb arc_ltb_strict plt)) (PO : platform_ok PF)
  HP (HPO : hplatform_ok HP) task_order final printed : Permutation task_order (all_tasks tm) -> fits32 tm 1 -> 0 < task_number tm ->
  sched_runs tm plt PF HP task_order 1 final printed ->
  forall p, contains (VI := flat_set_values arc_ltb arc_ltb_strict plt) final p = true <->
    exists st, possible tm (rule tm 1) st /\ dependencies_respected tm st /\ p = row (state_row task_order 1 st).
Proof.
  intros Po W Hn R p. rewrite (C77_exact_partial tm plt SP PF PO HP HPO task_order 1 Po W final printed Hn ltac:(lia) R p). split.
  - intros (st & [Rs Co] & ->). assert (P : possible tm (rule tm 1) st) by (split; [exact (closure_map _ _ _ _ (program_rule_rule tm 1) Rs)|auto]).
    exists st. split; [auto|]. split; [|auto]. destruct (possible_feasible tm 1 st (known_deps W) P) as [B _ S1].
    intros t u c s d s' Ht Hu Et Eu. apply (S1 t u c s s'); auto. assert (Hu' := known_deps W t u Ht Hu).
    destruct (B t Ht) as (c1 & s1 & E1 & L1 & _), (B u Hu') as (c2 & s2 & E2 & L2 & _).
    assert (c1 = c) by congruence. assert (c2 = d) by congruence. assert (E : c = d) by lia. now rewrite E.
  - intros (st & [Rs Co] & _ & ->). exists st. split; [|auto]. split; [exact (closure_map _ _ _ _ (one_core_rule tm) Rs)|auto].
Qed.

(** ** The other claims are false *)

(** Three tasks, each one depends on the previous one, and two cores. *)
Definition chain3 : task_model := {| tasks := [
  ({| release := 0; wcet := 1; deadline := 1 |}, []);
  ({| release := 0; wcet := 5; deadline := 5 |}, [0%N]);
  ({| release := 0; wcet := 1; deadline := 2 |}, [1%N]) ] |}.

Definition chain3_state : state := {|
  place := fun t => if (t =? 0)%N then Some (0, 0)%N else if (t =? 1)%N then Some (1, 0)%N else if (t =? 2)%N then Some (0, 1)%N else None;
  clock := fun c => if (c =? 0)%N then 2%N else if (c =? 1)%N then 5%N else 0%N |}.

Lemma below3 t : (t < N.of_nat 3)%N -> t = 0%N \/ t = 1%N \/ t = 2%N.
Proof. lia. Qed.
Lemma below2 t : (t < N.of_nat 2)%N -> t = 0%N \/ t = 1%N.
Proof. lia. Qed.

Lemma chain3_fits : fits32 chain3 2.
Proof.
  split; [vm_compute; discriminate|vm_compute; discriminate|intros t u Ht Hu|intros t Ht|intros t u Ht Hu].
  - change (task_number chain3) with 3 in *. apply below3 in Ht. destruct Ht as [->|[->| ->]]; cbn in Hu; [destruct Hu|..];
      (destruct Hu as [<-|[]]; lia).
  - apply below3 in Ht. destruct Ht as [->|[->| ->]]; vm_compute; auto.
  - apply below3 in Ht. apply below3 in Hu. destruct Ht as [->|[->| ->]], Hu as [->|[->| ->]]; vm_compute; auto.
Qed.

Lemma chain3_possible : possible chain3 (rule chain3 2) chain3_state.
Proof.
  split.
  - set (s1 := {| place := fun t => if (t =? 0)%N then Some (0, 0)%N else None; clock := fun c => if (c =? 0)%N then 1%N else 0%N |}).
    set (s2 := {| place := fun t => if (t =? 0)%N then Some (0, 0)%N else if (t =? 1)%N then Some (1, 0)%N else None;
                  clock := fun c => if (c =? 0)%N then 1%N else if (c =? 1)%N then 5%N else 0%N |}).
    apply rt_trans with s1; [|apply rt_trans with s2]; apply rt_step.
    + exists 0%N, 0%N. split; [cbn; lia|]. split; [lia|]. split; [split; [reflexivity|intros u []]|]. split; [vm_compute; discriminate|].
      split; [reflexivity|]. split; [reflexivity|]. split; intros d D; cbn; destruct (N.eqb_spec d 0); auto; contradiction.
    + exists 1%N, 1%N. split; [cbn; lia|]. split; [lia|]. split; [split; [reflexivity|intros u [<-|[]]; discriminate]|].
      split; [vm_compute; discriminate|]. split; [reflexivity|]. split; [reflexivity|].
      split; intros d D; cbn; destruct (N.eqb_spec d 0); auto; destruct (N.eqb_spec d 1); auto; contradiction.
    + exists 2%N, 0%N. split; [cbn; lia|]. split; [lia|]. split; [split; [reflexivity|intros u [<-|[]]; discriminate]|].
      split; [vm_compute; discriminate|]. split; [reflexivity|]. split; [reflexivity|]. split; intros d D; cbn.
      * destruct (N.eqb_spec d 0); auto. destruct (N.eqb_spec d 1); auto. destruct (N.eqb_spec d 2); auto; contradiction.
      * destruct (N.eqb_spec d 0); auto; contradiction.
  - intros t Ht. apply below3 in Ht. destruct Ht as [->|[->| ->]]; discriminate.
Qed.

(** The program does not schedule the last task. *)
Lemma chain3_stuck st : clos_refl_trans _ (program_rule chain3 2) nothing st -> place st 2%N = None /\
  (place st 0%N = None /\ place st 1%N = None /\ clock st 0%N = 0%N /\ clock st 1%N = 0%N
   \/ place st 1%N = None /\ place st 0%N <> None /\ clock st 0%N = 1%N /\ clock st 1%N = 0%N
   \/ place st 1%N = None /\ place st 0%N <> None /\ clock st 0%N = 0%N /\ clock st 1%N = 1%N
   \/ place st 1%N <> None /\ place st 0%N <> None /\ clock st 0%N = 5%N /\ clock st 1%N = 1%N).
Proof.
  intros R. apply clos_rt_rtn1 in R. induction R as [|a b Rl _ IH]; [cbn; auto 10|].
  destruct Rl as (t & c & Ht & Hc & (Rt & Rd) & It & S1 & S2 & S3 & S4). unfold in_time, stop, start in *.
  change (task_number chain3) with 3 in Ht. apply below3 in Ht. apply below2 in Hc.
  pose proof (It 0%N ltac:(lia)) as I0. assert (Ic := It c ltac:(lia)). clear It.
  destruct Ht as [->|[->| ->]].
  - change (dependencies_of chain3 0%N) with (@nil N) in Rd. change (task_of chain3 0%N) with {| release := 0; wcet := 1; deadline := 1 |} in *.
    cbn [release wcet deadline] in *. rewrite (S3 1%N) by discriminate. rewrite (S3 2%N) by discriminate.
    destruct IH as (P2 & [IH|[IH|[IH|IH]]]); destruct IH as (P1 & P0 & C0 & C1); try congruence. split; [auto|].
    destruct Hc as [->| ->].
    + right. left. rewrite S1, S2, (S4 1%N) by discriminate. rewrite C0. repeat split; auto; discriminate.
    + right. right. left. rewrite S1, S2, (S4 0%N) by discriminate. rewrite C1. repeat split; auto; discriminate.
  - change (dependencies_of chain3 1%N) with [0%N] in Rd. change (task_of chain3 1%N) with {| release := 0; wcet := 5; deadline := 5 |} in *.
    cbn [release wcet deadline] in *. rewrite (S3 0%N) by discriminate. rewrite (S3 2%N) by discriminate. specialize (Rd 0%N (or_introl eq_refl)).
    destruct IH as (P2 & [IH|[IH|[IH|IH]]]); destruct IH as (P1 & P0 & C0 & C1); try congruence; try lia.
    split; [auto|]. destruct Hc as [->| ->].
    + right. right. right. rewrite S1, S2, (S4 1%N) by discriminate. rewrite C0. repeat split; auto; discriminate.
    + lia.
  - change (dependencies_of chain3 2%N) with [1%N] in Rd. change (task_of chain3 2%N) with {| release := 0; wcet := 1; deadline := 2 |} in *.
    cbn [release wcet deadline] in *. specialize (Rd 1%N (or_introl eq_refl)).
    destruct IH as (P2 & [IH|[IH|[IH|IH]]]); destruct IH as (P1 & P0 & C0 & C1); try congruence; lia.
Qed.

(** On a correct model, where a scheduling is possible, the program prints 0. *)
Theorem C77_complete_refuted : exists tm cores task_order st, fits32 tm cores /\ Permutation task_order (all_tasks tm)
  /\ 0 < task_number tm /\ 0 < cores /\ possible tm (rule tm cores) st /\
  forall plt (SP : strict_total plt) (PF : platform (flat_set_values arc_ltb arc_ltb_strict plt)) (PO : platform_ok PF)
    HP (HPO : hplatform_ok HP) final printed, sched_runs tm plt PF HP task_order cores final printed -> printed = Some 0%N.
Proof.
  exists chain3, 2, (all_tasks chain3), chain3_state. split; [exact chain3_fits|]. split; [auto|]. split; [cbn; lia|]. split; [lia|].
  split; [exact chain3_possible|]. intros plt SP PF PO HP HPO final printed R.
  destruct (C77_count chain3 plt SP PF PO HP HPO (all_tasks chain3) 2 (Permutation_refl _) chain3_fits final printed ltac:(cbn; lia) ltac:(lia) R)
    as (l & _ & -> & Hl).
  destruct l as [|r l]; [reflexivity|]. destruct (proj1 (Hl r) (or_introl eq_refl)) as (st & [Rs Co] & _).
  destruct (chain3_stuck st Rs) as [P2 _]. destruct (Co 2%N ltac:(cbn; lia) P2).
Qed.
Print Assumptions C77_complete_refuted.

(** Two tasks, the second one depends on the first one, and two cores. *)
Definition chain2 : task_model := {| tasks := [
  ({| release := 0; wcet := 1; deadline := 1 |}, []);
  ({| release := 0; wcet := 1; deadline := 2 |}, [0%N]) ] |}.
Definition chain2_state : state := {|
  place := fun t => if (t =? 0)%N then Some (0, 0)%N else if (t =? 1)%N then Some (1, 0)%N else None;
  clock := fun c => if (c =? 0)%N then 1%N else if (c =? 1)%N then 1%N else 0%N |}.

Lemma chain2_fits : fits32 chain2 2.
Proof.
  split; [vm_compute; discriminate|vm_compute; discriminate|intros t u Ht Hu|intros t Ht|intros t u Ht Hu].
  - change (task_number chain2) with 2 in *. apply below2 in Ht. destruct Ht as [->| ->]; cbn in Hu; [destruct Hu|];
      (destruct Hu as [<-|[]]; lia).
  - apply below2 in Ht. destruct Ht as [->| ->]; vm_compute; auto.
  - apply below2 in Ht. apply below2 in Hu. destruct Ht as [->| ->], Hu as [->| ->]; vm_compute; auto.
Qed.

Lemma chain2_possible : possible chain2 (program_rule chain2 2) chain2_state.
Proof.
  split.
  - set (s1 := {| place := fun t => if (t =? 0)%N then Some (0, 0)%N else None; clock := fun c => if (c =? 0)%N then 1%N else 0%N |}).
    apply rt_trans with s1; apply rt_step.
    + exists 0%N, 0%N. split; [cbn; lia|]. split; [lia|]. split; [split; [reflexivity|intros u []]|].
      split; [intros d Hd; assert (d = 0%N) as -> by lia; vm_compute; discriminate|].
      split; [reflexivity|]. split; [reflexivity|]. split; intros d D; cbn; destruct (N.eqb_spec d 0); auto; contradiction.
    + exists 1%N, 1%N. split; [cbn; lia|]. split; [lia|]. split; [split; [reflexivity|intros u [<-|[]]; discriminate]|].
      split; [intros d Hd; assert (d = 0%N \/ d = 1%N) as [->| ->] by lia; vm_compute; discriminate|].
      split; [reflexivity|]. split; [reflexivity|].
      split; intros d D; cbn; destruct (N.eqb_spec d 0); auto; destruct (N.eqb_spec d 1); auto; contradiction.
  - intros t Ht. apply below2 in Ht. destruct Ht as [->| ->]; discriminate.
Qed.

(** The program finds schedulings where a task starts before the end of a task that it depends on. *)
Theorem C77_dependencies_refuted : exists tm cores task_order st, fits32 tm cores /\ Permutation task_order (all_tasks tm)
  /\ 0 < task_number tm /\ 0 < cores /\ ~ dependencies_respected tm st /\
  forall plt (SP : strict_total plt) (PF : platform (flat_set_values arc_ltb arc_ltb_strict plt)) (PO : platform_ok PF)
    HP (HPO : hplatform_ok HP) final printed, sched_runs tm plt PF HP task_order cores final printed ->
    contains (VI := flat_set_values arc_ltb arc_ltb_strict plt) final (row (state_row task_order cores st)) = true.
Proof.
  exists chain2, 2, (all_tasks chain2), chain2_state. split; [exact chain2_fits|]. split; [auto|]. split; [cbn; lia|]. split; [lia|].
  split.
  - intros D. specialize (D 1%N 0%N 1%N 0%N 0%N 0%N ltac:(cbn; lia) (or_introl eq_refl) eq_refl eq_refl). vm_compute in D. now apply D.
  - intros plt SP PF PO HP HPO final printed R.
    apply (C77_exact_partial chain2 plt SP PF PO HP HPO (all_tasks chain2) 2 (Permutation_refl _) chain2_fits final printed ltac:(cbn; lia) ltac:(lia) R).
    exists chain2_state. split; [exact chain2_possible|auto].
Qed.
Print Assumptions C77_dependencies_refuted.

(** ** C78: the order of the tasks, TaskModel::build_order *)

(** [u] is before [t] in [l]. *)
Definition before {A} (u t : A) (l : list A) : Prop := exists a b c, l = a ++ u :: b ++ t :: c.

(** Every task is once in the order. *)
Definition all_once (tm : task_model) (l : list N) : Prop :=
  NoDup l /\ forall t, In t l <-> (t < N.of_nat (task_number tm))%N.

(** "Create a task order, according to their dependencies". *)
Definition topological (tm : task_model) (l : list N) : Prop :=
  forall t u, (t < N.of_nat (task_number tm))%N -> In u (dependencies_of tm t) -> before u t l.

Section BuildOrderProofs.
  Variable tm : task_model.
  Variable it : list N -> list N.
  Hypothesis it_perm : forall l, Permutation (it l) l.
  Notation release_tasks := (release_tasks tm).
  Notation order_loop := (order_loop tm it).

  Lemma release_perm : forall l free f k, release_tasks free l = (f, k) -> Permutation (f ++ k) (free ++ l)
    /\ (forall t, In t free -> In t f)
    /\ (forall t, In t k -> In t l)
    /\ (forall t, In t f -> In t free \/ In t l /\ forall u, In u (dependencies_of tm t) -> ~ In u free).
  Proof.
    induction l as [|t l IH]; intros free f k E; cbn [Scheduling.release_tasks] in E.
    - injection E as <- <-. repeat split; auto.
    - destruct (existsb (fun u => existsb (N.eqb u) free) (dependencies_of tm t)) eqn:B.
      + destruct (release_tasks free l) as [f' k'] eqn:E'. injection E as <- <-.
        destruct (IH free f' k' E') as (P & A1 & A2 & A3). split; [|split; [auto|split]].
        * rewrite <- !Permutation_middle. now constructor.
        * intros u [->|Hu]; cbn; auto.
        * intros u Hu. destruct (A3 u Hu) as [X|[X Y]]; [auto|right]. split; [now right|auto].
      + destruct (IH (t :: free) f k E) as (P & A1 & A2 & A3). split; [|split; [|split]].
        * rewrite P. cbn. apply Permutation_middle.
        * intros u Hu. apply A1. now right.
        * intros u Hu. right. auto.
        * intros u Hu. destruct (A3 u Hu) as [[<-|X]|[X Y]].
          -- right. split; [now left|]. intros w Hw Fw. apply not_true_iff_false in B. apply B. apply existsb_exists.
             exists w. split; [auto|]. apply existsb_exists. exists w. split; [auto|]. apply N.eqb_refl.
          -- auto.
          -- right. split; [now right|]. intros w Hw Fw. apply (Y w Hw). now right.
  Qed.

  Lemma remove_perm x : forall l : list N, NoDup l -> In x l -> Permutation (x :: remove N.eq_dec x l) l.
  Proof.
    induction l as [|y l IH]; intros ND Hx; [destruct Hx|]. inversion ND as [|y' l' Ny Nl]. subst. cbn [remove].
    destruct (N.eq_dec x y) as [->|D].
    - now rewrite notin_remove.
    - destruct Hx as [->|Hx]; [contradiction|]. rewrite perm_swap. constructor. auto.
  Qed.

  Lemma release_some t l f k : release_tasks [] (t :: l) = (f, k) -> In t f.
  Proof.
    intros E. cbn [Scheduling.release_tasks] in E. assert (B : existsb (fun u : N => existsb (N.eqb u) []) (dependencies_of tm t) = false).
    { induction (dependencies_of tm t); auto. }
    rewrite B in E. apply release_perm in E. apply E. now left.
  Qed.

  Lemma order_loop_perm : forall fuel free dep, NoDup (free ++ dep) -> (free = [] -> dep = []) -> length (free ++ dep) < fuel ->
    exists rv, order_loop true fuel free dep = Ok rv /\ Permutation rv (free ++ dep).
  Proof.
    induction fuel as [|fuel IH]; intros free dep ND Hf L; [lia|]. cbn [Scheduling.order_loop].
    pose proof (it_perm free) as Pf. destruct (it free) as [|next r] eqn:Ef.
    - apply Permutation_nil in Pf. subst free. rewrite (Hf eq_refl). exists []. auto.
    - assert (Hn : In next free) by (eapply Permutation_in; [exact Pf|now left]).
      assert (NDf : NoDup free).
      { clear - ND. induction free; [constructor|]. inversion ND. subst. constructor; [|auto]. rewrite in_app_iff in H1. auto. }
      pose proof (remove_perm next free NDf Hn) as Pn. set (free1 := remove N.eq_dec next free) in *.
      destruct (release_tasks free1 (it dep)) as [f k] eqn:E. pose proof (release_perm _ _ _ _ E) as (P & A1 & A2 & A3).
      assert (PP : Permutation (next :: f ++ k) (free ++ dep)).
      { rewrite P, (it_perm dep). exact (Permutation_app_tail dep Pn). }
      assert (ND' : NoDup (next :: f ++ k)) by (apply (Permutation_NoDup (Permutation_sym PP) ND)). inversion ND' as [|x y Nx Ny]. subst.
      destruct (IH f k Ny) as (rv & Er & Pr).
      + intros ->. destruct free1 as [|x y] eqn:E1; [|destruct (A1 x); now left]. destruct (it dep) as [|x y] eqn:E2.
        * cbn in E. injection E. auto.
        * apply release_some in E. destruct E.
      + apply Permutation_length in PP. cbn in PP. lia.
      + rewrite Er. cbn. exists (next :: rv). split; [auto|]. rewrite Pr. exact PP.
  Qed.

  Lemma order_loop_before : forall fuel free dep rv, NoDup (free ++ dep) -> order_loop true fuel free dep = Ok rv ->
    (forall t u, In t free -> In u (dependencies_of tm t) -> ~ In u (free ++ dep)) ->
    (forall t u, In t dep -> In u (dependencies_of tm t) -> ~ In u dep) ->
    forall t u, In t rv -> In u (dependencies_of tm t) -> In u (free ++ dep) -> before u t rv.
  Proof.
    induction fuel as [|fuel IH]; intros free dep rv ND E H1 H2 t u Ht Hu Fu; cbn [Scheduling.order_loop] in E; [discriminate|].
    pose proof (it_perm free) as Pf. destruct (it free) as [|next r] eqn:Ef.
    - injection E as <-. destruct Ht.
    - assert (Hn : In next free) by (eapply Permutation_in; [exact Pf|now left]).
      assert (NDf : NoDup free).
      { clear - ND. induction free; [constructor|]. inversion ND. subst. constructor; [|auto]. rewrite in_app_iff in H1. auto. }
      pose proof (remove_perm next free NDf Hn) as Pn. set (free1 := remove N.eq_dec next free) in *.
      destruct (release_tasks free1 (it dep)) as [f k] eqn:El. pose proof (release_perm _ _ _ _ El) as (P & A1 & A2 & A3).
      assert (PP : Permutation (next :: f ++ k) (free ++ dep)).
      { rewrite P, (it_perm dep). exact (Permutation_app_tail dep Pn). }
      assert (ND' : NoDup (next :: f ++ k)) by (apply (Permutation_NoDup (Permutation_sym PP) ND)). inversion ND' as [|x y Nx Ny]. subst.
      destruct (order_loop true fuel f k) as [rv'|] eqn:Er; cbn [rbind] in E; [|discriminate]. injection E as <-.
      assert (Id : forall w, In w (it dep) -> In w dep) by (intros w; apply Permutation_in, it_perm).
      assert (I1 : forall w, In w free1 -> In w free) by (intros w Hw; apply (Permutation_in w Pn); now right).
      assert (Back : forall w, In w (f ++ k) -> In w (free1 ++ dep)).
      { intros w Hw. apply (Permutation_in w P) in Hw. rewrite in_app_iff in *. destruct Hw; auto. }
      destruct Ht as [<-|Ht].
      + destruct (H1 next u Hn Hu Fu).
      + apply (Permutation_in u (Permutation_sym PP)) in Fu. destruct Fu as [<-|Fu].
        * apply in_split in Ht. destruct Ht as (b & c & ->). exists [], b, c. reflexivity.
        * assert (B : before u t rv').
          { apply (IH f k rv' Ny Er); auto.
            - intros t' u' Ht' Hu' Fu'. destruct (A3 t' Ht') as [X|[X Y]].
              + apply (H1 t' u' (I1 _ X) Hu'). apply Back in Fu'. rewrite in_app_iff in *. destruct Fu'; auto.
              + apply Back, in_app_iff in Fu'. destruct Fu' as [Fu'|Fu']; [now apply (Y u')|]. apply (H2 t' u'); auto.
            - intros t' u' Ht' Hu' Fu'. apply (H2 t' u'); auto. }
          destruct B as (a & b & c & ->). exists (next :: a), b, c. reflexivity.
  Qed.

  Lemma partition_perm {A} (p : A -> bool) : forall l, Permutation (filter (fun x => negb (p x)) l ++ filter p l) l.
  Proof.
    induction l as [|x l IH]; [constructor|]. cbn [filter]. destruct (p x); cbn [negb].
    - rewrite <- Permutation_middle. now constructor.
    - cbn. now constructor.
  Qed.

  Lemma all_tasks_in t : In t (all_tasks tm) <-> (t < N.of_nat (task_number tm))%N.
  Proof.
    unfold all_tasks. rewrite in_map_iff. split.
    - intros (i & <- & Hi). apply in_seq in Hi. lia.
    - intros H. exists (N.to_nat t). split; [apply N2Nat.id|]. apply in_seq. lia.
  Qed.
  Lemma all_tasks_nodup : NoDup (all_tasks tm).
  Proof. apply FinFun.Injective_map_NoDup; [intros a b; lia|apply seq_NoDup]. Qed.
  Lemma all_tasks_length : length (all_tasks tm) = task_number tm.
  Proof. unfold all_tasks. now rewrite map_length, seq_length. Qed.

  Lemma no_deps t : has_deps tm t = false <-> dependencies_of tm t = [].
  Proof. unfold has_deps. destruct (dependencies_of tm t); split; auto; discriminate. Qed.

  Notation free0 := (filter (fun t => negb (has_deps tm t)) (all_tasks tm)).
  Notation dep0 := (filter (has_deps tm) (all_tasks tm)).

  (** The order is built by reading the elements of erased iterators, as soon as there is one. *)
  Theorem C78_erased : (exists t, (t < N.of_nat (task_number tm))%N /\ dependencies_of tm t = []) ->
    build_order tm it false = Err TReadErased.
  Proof.
    intros (t & Ht & Dt). unfold build_order. cbn [Scheduling.order_loop]. pose proof (it_perm free0) as P.
    destruct (it free0) as [|x r]; [|reflexivity]. apply Permutation_nil in P.
    assert (X : In t free0) by (apply filter_In; split; [now apply all_tasks_in|]; apply no_deps in Dt; now rewrite Dt).
    rewrite P in X. destruct X.
  Qed.

  (** If the elements can be read: it ends, and if there is a task without dependencies, every task is once in the
      order. *)
  Theorem C78_all_once_partial : (exists t, (t < N.of_nat (task_number tm))%N /\ dependencies_of tm t = []) ->
    exists l, build_order tm it true = Ok l /\ all_once tm l.
  Proof.
    intros (t & Ht & Dt). unfold build_order. pose proof (partition_perm (has_deps tm) (all_tasks tm)) as P.
    destruct (order_loop_perm (S (task_number tm)) free0 dep0) as (rv & E & Pr).
    - apply (Permutation_NoDup (Permutation_sym P) all_tasks_nodup).
    - intros X. assert (Y : In t free0) by (apply filter_In; split; [now apply all_tasks_in|]; apply no_deps in Dt; now rewrite Dt).
      rewrite X in Y. destruct Y.
    - apply Permutation_length in P. rewrite P, all_tasks_length. lia.
    - exists rv. split; [auto|]. assert (Q : Permutation rv (all_tasks tm)) by now rewrite Pr. split.
      + apply (Permutation_NoDup (Permutation_sym Q) all_tasks_nodup).
      + intros u. rewrite <- all_tasks_in. split; apply Permutation_in; auto. now symmetry.
  Qed.

  (** If there is none, the order is empty. *)
  Theorem C78_cycle : (forall t, (t < N.of_nat (task_number tm))%N -> dependencies_of tm t <> []) ->
    forall lenient, build_order tm it lenient = Ok [].
  Proof.
    intros H lenient. unfold build_order. cbn [Scheduling.order_loop]. assert (X : free0 = []).
    { destruct free0 as [|x r] eqn:X; [auto|]. assert (Y : In x free0) by (rewrite X; now left). apply filter_In in Y. destruct Y as [Y Z].
      apply all_tasks_in in Y. apply negb_true_iff, no_deps in Z. destruct (H x Y Z). }
    rewrite X. pose proof (it_perm []) as P. apply Permutation_sym, Permutation_nil in P. now rewrite P.
  Qed.

  (** If the dependencies have no dependencies, the order respects them. *)
  Theorem C78_topological_partial l : (forall t u, (t < N.of_nat (task_number tm))%N -> In u (dependencies_of tm t) ->
      (u < N.of_nat (task_number tm))%N /\ dependencies_of tm u = []) ->
    build_order tm it true = Ok l -> topological tm l.
  Proof.
    intros H E t u Ht Hu. pose proof (partition_perm (has_deps tm) (all_tasks tm)) as P.
    destruct (H t u Ht Hu) as [Lu Du]. destruct C78_all_once_partial as (l' & E' & _ & A); [eauto|].
    rewrite E in E'. injection E' as <-.
    apply (order_loop_before (S (task_number tm)) free0 dep0 l (Permutation_NoDup (Permutation_sym P) all_tasks_nodup) E).
    - intros t' u' Ht' Hu'. apply filter_In in Ht'. destruct Ht' as [_ Z]. apply negb_true_iff, no_deps in Z. rewrite Z in Hu'. destruct Hu'.
    - intros t' u' Ht' Hu' Fu'. apply filter_In in Ht', Fu'. destruct Ht' as [Ht' _], Fu' as [_ Fu']. apply all_tasks_in in Ht'.
      destruct (H t' u' Ht' Hu') as [_ D]. apply no_deps in D. congruence.
    - now apply A.
    - auto.
    - apply (Permutation_in u (Permutation_sym P)). now apply all_tasks_in.
  Qed.
End BuildOrderProofs.
Print Assumptions C78_erased.
Print Assumptions C78_all_once_partial.
Print Assumptions C78_cycle.
Print Assumptions C78_topological_partial.

(** In general it does not: the second task is after the third one, that depends on it. *)
Theorem C78_topological_refuted : exists tm it l, (forall l, Permutation (it l) l) /\
  (exists good, all_once tm good /\ topological tm good) /\ build_order tm it true = Ok l /\ ~ topological tm l.
Proof.
  exists chain3, (@rev N), [0; 2; 1]%N. split; [intros l; symmetry; apply Permutation_rev|]. split; [|split; [vm_compute; reflexivity|]].
  - exists [0; 1; 2]%N. split.
    + split; [repeat constructor; cbn; lia|]. intros t. change (task_number chain3) with 3. cbn [In]. split; lia.
    + intros t u Ht Hu. apply below3 in Ht. destruct Ht as [->|[->| ->]]; cbn in Hu; [destruct Hu|..]; destruct Hu as [<-|[]].
      * exists [], [], [2%N]. reflexivity.
      * exists [0%N], [], []. reflexivity.
  - intros T. destruct (T 2%N 1%N ltac:(cbn; lia) (or_introl eq_refl)) as (a & b & c & E).
    destruct a as [|? [|? [|? a]]]; cbn in E; try discriminate; injection E as E; destruct b; discriminate || (destruct a; discriminate).
Qed.
Print Assumptions C78_topological_refuted.

(** ** Example: a platform *)

Definition enc_arc : arc -> list N := enc_pair enc_N enc_N.
Definition arcs_lt : fset arc_ltb -> fset arc_ltb -> bool := code_lt arc_ltb enc_arc.
Definition enc_sfun (f : sfun) : list N :=
  match f with
  | FilterConstant c k => 0%N :: enc_pair enc_arc enc_N (c, if k then 1%N else 0%N)
  | FilterConstraints t => 1%N :: enc_N t
  | ScheduleTau t c tau => 2%N :: enc_pair enc_N enc_arc (t, (c, tau))
  end.
Definition enc_sind (i : sind) : list N := match i with Schedule t c => enc_arc (t, c) end.

Lemma pc_arc : pcode enc_arc.
Proof. apply pc_pair; apply pc_N. Qed.
Lemma pc_sfun : pcode enc_sfun.
Proof.
  intros [c k|t|t c tau] [c' k'|t'|t' c' tau'] r r' E; cbn [enc_sfun app] in E; try discriminate; apply cons_tail in E.
  - apply (pc_pair enc_arc enc_N pc_arc pc_N) in E. destruct E as [E ->]. injection E as -> E. split; [|auto]. destruct k, k'; auto; discriminate.
  - apply pc_N in E. destruct E as [-> ->]. auto.
  - apply (pc_pair enc_N enc_arc pc_N pc_arc) in E. destruct E as [E ->]. injection E as -> -> ->. auto.
Qed.
Lemma pc_sind : pcode enc_sind.
Proof.
  intros [t c] [t' c'] r r' E. cbn [enc_sind] in E. apply pc_arc in E. destruct E as [E ->]. injection E as -> ->. auto.
Qed.

Notation AS := (flat_set_values arc_ltb arc_ltb_strict arcs_lt).
Definition s_pf : platform AS := code_platform AS (code_set arc_ltb enc_arc).
Definition s_hp : hplatform (fset arc_ltb) N sfun sind := code_hplatform (code_set arc_ltb enc_arc) enc_N enc_sfun enc_sind.
Lemma arcs_lt_strict : strict_total arcs_lt.
Proof. exact (code_lt_strict arc_ltb enc_arc pc_arc). Qed.
Lemma s_pf_ok : platform_ok s_pf.
Proof. apply code_platform_ok. apply pcode_set, pc_arc. Qed.
Lemma s_hp_ok : hplatform_ok s_hp.
Proof. apply code_hplatform_ok; [apply pcode_set, pc_arc|apply pc_N|exact pc_sfun|exact pc_sind]. Qed.

(** The numbers that the program prints. *)
Definition prints (tm : task_model) (task_order : list N) (cores : nat) (n : nat) : option N :=
  match sched_init tm arcs_lt s_pf s_hp task_order cores with
  | Ok (o, m0, h, f) =>
    match happly AS s_pf N sfun sind (sched_user tm arcs_lt) n n o h m0 with
    | Ok s => match happly AS s_pf N sfun sind (sched_user tm arcs_lt) n n o f s with
      | Ok final => size AS s_pf final
      | Err _ => None end
    | Err _ => None end
  | Err _ => None end.
Lemma prints_runs tm task_order cores n p : prints tm task_order cores n = Some p ->
  exists final, sched_runs tm arcs_lt s_pf s_hp task_order cores final (Some p).
Proof.
  unfold prints. destruct (sched_init tm arcs_lt s_pf s_hp task_order cores) as [[[[o m0] h] f]|] eqn:E1; [|discriminate].
  destruct (happly AS s_pf N sfun sind (sched_user tm arcs_lt) n n o h m0) as [s|] eqn:E2; [|discriminate].
  destruct (happly AS s_pf N sfun sind (sched_user tm arcs_lt) n n o f s) as [final|] eqn:E3; [|discriminate].
  intros E4. exists final, o, m0, h, f, s. split; [auto|]. split; [exists n, n; auto|]. split; [exists n, n; auto|auto].
Qed.

(** Three independent tasks, the last one is released late. *)
Definition free3 : task_model := {| tasks := [
  ({| release := 0; wcet := 2; deadline := 4 |}, []);
  ({| release := 1; wcet := 2; deadline := 4 |}, []);
  ({| release := 3; wcet := 1; deadline := 5 |}, []) ] |}.
Lemma free3_fits : fits32 free3 2.
Proof.
  split; [vm_compute; discriminate|vm_compute; discriminate|intros t u Ht Hu|intros t Ht|intros t u Ht Hu].
  - apply below3 in Ht. destruct Ht as [->|[->| ->]]; destruct Hu.
  - apply below3 in Ht. destruct Ht as [->|[->| ->]]; vm_compute; auto.
  - apply below3 in Ht. apply below3 in Hu. destruct Ht as [->|[->| ->]], Hu as [->|[->| ->]]; vm_compute; auto.
Qed.

(** The hypotheses of the theorems hold of runs of the program. *)
Example C77_ex :
  (exists final, sched_runs free3 arcs_lt s_pf s_hp [2; 0; 1]%N 2 final (Some 8%N)) /\
  (exists final, sched_runs chain2 arcs_lt s_pf s_hp [0; 1]%N 1 final (Some 1%N)) /\
  (exists final, sched_runs chain2 arcs_lt s_pf s_hp [1; 0]%N 2 final (Some 4%N)) /\
  (exists final, sched_runs chain3 arcs_lt s_pf s_hp [0; 1; 2]%N 2 final (Some 0%N)).
Proof. repeat split; apply prints_runs with 60; vm_compute; reflexivity. Qed.

(** The orders of the tasks. *)
Example C78_ex : build_order chain3 (fun l => l) true = Ok [0; 1; 2]%N /\ build_order free3 (@rev N) true = Ok [2; 1; 0]%N
  /\ build_order chain2 (@rev N) true = Ok [0; 1]%N /\ build_order chain2 (@rev N) false = Err TReadErased.
Proof. repeat split; vm_compute; reflexivity. Qed.
