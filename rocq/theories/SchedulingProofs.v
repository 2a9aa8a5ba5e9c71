(** * The example program examples/scheduling: proofs *)

From Coq Require Import List Bool NArith Arith Lia Relations Permutation.
From Verif Require Import Base SortedSets Values Sdd SddFacts Orders OrdersProofs OrdersMore OrdersSdd DDModel Spec.
From Verif Require Import DDTheorems FlatSet Count CountProps OrdersProps Hom HomFacts HomEval HomTyped HomEqns HomRewrite Rows HomMaps Scheduling.
Import ListNotations.

(** ** Specification *)

(** What is known while the tasks are scheduled one after the other: the core and the start of the tasks that are
    scheduled, and when the cores are free. *)
Record state : Type := { place : N -> option (N * N); clock : N -> N }.

Section Spec.
  Variable tm : task_model.
  Notation task_of := (task_of tm).

  (** If [t] is scheduled on [c], it starts as soon as the core is free and the task is released. *)
  Definition start (st : state) (t c : N) : N := N.max (clock st c) (release (task_of t)).
  Definition stop (st : state) (t c : N) : N := (start st t c + wcet (task_of t))%N.
  Definition in_time (st : state) (t c : N) : Prop := (stop st t c <= deadline (task_of t))%N.

  (** A task that is not scheduled and whose dependencies are. *)
  Definition is_ready (st : state) (t : N) : Prop :=
    place st t = None /\ forall u, In u (dependencies_of tm t) -> place st u <> None.

  (** [t] is scheduled on [c]. *)
  Definition scheduled (t c : N) (st st' : state) : Prop :=
    place st' t = Some (c, start st t c) /\ clock st' c = stop st t c
    /\ (forall u, u <> t -> place st' u = place st u) /\ (forall d, d <> c -> clock st' d = clock st d).

  (** The rules: any ready task can be scheduled on any core where it meets its deadline. *)
  Definition rule (cores : nat) (st st' : state) : Prop := exists t c,
    (t < N.of_nat (task_number tm))%N /\ (c < N.of_nat cores)%N /\ is_ready st t /\ in_time st t c /\ scheduled t c st st'.

  (** What the program does: the task must also meet its deadline on all the cores before [c]. *)
  Definition program_rule (cores : nat) (st st' : state) : Prop := exists t c,
    (t < N.of_nat (task_number tm))%N /\ (c < N.of_nat cores)%N /\ is_ready st t /\ (forall d, (d <= c)%N -> in_time st t d)
    /\ scheduled t c st st'.

  Definition nothing : state := {| place := fun _ => None; clock := fun _ => 0%N |}.
  Definition complete (st : state) : Prop := forall t, (t < N.of_nat (task_number tm))%N -> place st t <> None.

  (** The schedulings of all the tasks. *)
  Definition possible (rules : state -> state -> Prop) (st : state) : Prop :=
    clos_refl_trans _ rules nothing st /\ complete st.

  (** The assignment of the variables: the times of the cores, from the last one to the first one, then the tasks. *)
  Definition state_row (task_order : list N) (cores : nat) (st : state) : list arc :=
    map (fun c => (0%N, clock st (N.of_nat c))) (rev (seq 0 cores))
    ++ map (fun t => match place st t with Some a => a | None => epsilon end) task_order.

  (** What the program supposes: identifiers that fit 31 bits, times that fit 32 bits, dependencies that are tasks. *)
  Record fits32 (cores : nat) : Prop := {
    few_tasks : (N.of_nat (task_number tm) <= 2 ^ 31)%N;
    few_cores : (N.of_nat cores <= 2 ^ 31)%N;
    known_deps : forall t u, (t < N.of_nat (task_number tm))%N -> In u (dependencies_of tm t) -> (u < N.of_nat (task_number tm))%N;
    short_release : forall t, (t < N.of_nat (task_number tm))%N -> (release (task_of t) + wcet (task_of t) < 2 ^ 32)%N;
    short_deadline : forall t u, (t < N.of_nat (task_number tm))%N -> (u < N.of_nat (task_number tm))%N ->
      (deadline (task_of t) + wcet (task_of u) < 2 ^ 32)%N
  }.
End Spec.
Arguments few_tasks {tm cores}.
Arguments few_cores {tm cores}.
Arguments known_deps {tm cores}.
Arguments short_release {tm cores}.
Arguments short_deadline {tm cores}.

(** ** Identifiers *)

Lemma bit31_low t : (t < 2 ^ 31)%N -> N.testbit t 31 = false.
Proof.
  intros H. destruct (N.eq_dec t 0) as [->|Nz]; [apply N.bits_0|]. apply N.bits_above_log2. apply N.log2_lt_pow2; [lia|exact H].
Qed.

Lemma core_id_add c : (c < 2 ^ 31)%N -> core_id c = (c + 2 ^ 31)%N.
Proof.
  intros H. unfold core_id. assert (L : N.land c (2 ^ 31) = 0%N).
  { apply N.bits_inj. intros i. rewrite N.land_spec, N.pow2_bits_eqb, N.bits_0. destruct (N.eqb_spec 31 i) as [<-|]; [|apply andb_false_r].
    now rewrite bit31_low. }
  now rewrite N.add_nocarry_lxor, N.lxor_lor.
Qed.

Lemma core_bit c : N.testbit (core_id c) 31 = true.
Proof. unfold core_id. rewrite N.lor_spec. rewrite N.pow2_bits_true. apply orb_true_r. Qed.

Lemma core_id_inj c d : (c < 2 ^ 31)%N -> (d < 2 ^ 31)%N -> core_id c = core_id d -> c = d.
Proof. intros A B E. rewrite !core_id_add in E by auto. lia. Qed.

(** ** The orders *)

Section Reads.
  Notation order := (order N).

  (** [o] is the part of a flat order with the identifiers [ids]. *)
  Fixpoint reads (o : order) (ids : list N) : Prop :=
    match ids with
    | [] => o_empty o = true
    | u :: r => o_identifier o = Some (user_id u) /\
      exists o', olevel N o (LFlat (N.of_nat (length r))) o' /\ reads o' r /\ o_map o' = o_map o /\ o_nodes o' = o_nodes o
    end.

  Lemma sees_chain : forall ids o p, sees o (b_of_list ids) p [] -> reads o ids.
  Proof.
    induction ids as [|u ids IH]; intros o p H; cbn [reads].
    - now rewrite (sees_empty _ _ _ _ _ H).
    - rewrite b_of_list_cons in H. pose proof (sees_head _ _ _ _ _ _ _ H) as Hh.
      destruct (sees_next _ _ _ _ _ _ _ H) as (o' & N1 & S1 & M1 & D1).
      destruct (sees_nested _ _ _ _ _ _ _ H) as (on & N2 & S2 & _).
      split; [unfold o_identifier; now rewrite Hh|]. exists o'. split; [|split; [eapply IH; exact S1|auto]].
      split; [|split; [auto|]].
      + unfold o_variable. rewrite Hh. cbn. now rewrite length_of_list.
      + exists on. split; [auto|]. now rewrite (sees_empty _ _ _ _ _ S2).
  Qed.

  Lemma reads_shape : forall ids o, reads o ids -> oshape N o (flat_shape (length ids)).
  Proof.
    induction ids as [|u ids IH]; intros o H; cbn [reads] in H; [now constructor|].
    destruct H as (_ & o' & L & R & _). cbn [length flat_shape].
    change (SFlat (N.of_nat (length ids)) (flat_shape (length ids))) with (under (LFlat (N.of_nat (length ids))) (flat_shape (length ids))).
    apply (oshape_level N o _ o' _ L). auto.
  Qed.

  Lemma layout_list : forall (ids : list N) p n, In n (layout (b_of_list ids) p []) ->
    n_path n = [] /\ exists pre u post, ids = pre ++ u :: post /\ n_id n = user_id u /\ n_var n = N.of_nat (length post).
  Proof.
    induction ids as [|u ids IH]; intros p n H; [destruct H|]. rewrite b_of_list_cons in H. cbn [layout] in H. destruct H as [<-|H].
    - cbn. split; [auto|]. exists [], u, ids. rewrite length_of_list. auto.
    - cbn [layout app] in H. apply IH in H. destruct H as (A & pre & w & post & -> & B). split; [auto|].
      exists (u :: pre), w, post. auto.
  Qed.

  Lemma users_list (ids : list N) u : In u (users (b_of_list ids)) <-> In u ids.
  Proof.
    induction ids as [|w ids IH]; [reflexivity|]. rewrite b_of_list_cons. cbn [users user_id art N.eqb app usr]. cbn. rewrite IH. reflexivity.
  Qed.

  (** sdd::function finds the variable of any identifier of the whole order. *)
  Lemma function_at (VI : values_impl) (F I : Type) all o pre u post (f : F) : NoDup all -> all = pre ++ u :: post ->
    o_map o = o_map (order_of N.eqb (b_of_list all)) -> o_nodes o = o_nodes (order_of N.eqb (b_of_list all)) ->
    function VI N F I N.eqb o u f = Ok (HFun (N.of_nat (length post)) f).
  Proof.
    intros ND Ea Em En. assert (X : o_node N N.eqb o u = o_node N N.eqb (order_of N.eqb (b_of_list all)) u).
    { unfold o_node, deref. now rewrite Em, En. }
    pose proof (o_node_ok N N.eqb N_is_eqb (b_of_list all) u) as H.
    unfold function, carrier. rewrite X. destruct (o_node N N.eqb (order_of N.eqb (b_of_list all)) u) as [n|e].
    - destruct H as (_ & Hi & Hl). apply layout_list in Hl. destruct Hl as (Pn & pre' & w & post' & Ea' & Hi' & Hv).
      rewrite Hi in Hi'. injection Hi' as <-. rewrite Pn. cbn [rev carrier_loop]. rewrite Hv. do 2 f_equal.
      rewrite Ea in Ea'. rewrite Ea in ND. assert (post = post'); [|now subst]. clear - ND Ea'.
      revert pre' Ea'. induction pre as [|a pre IH]; intros [|b pre'] E; cbn [app] in *.
      + congruence.
      + exfalso. assert (E2 : post = pre' ++ u :: post') by congruence. inversion ND as [|? ? A _]; subst. apply A, in_app_iff. right. now left.
      + exfalso. assert (a = u) by congruence. subst a. inversion ND as [|? ? A _]; subst. apply A, in_app_iff. right. now left.
      + assert (E2 : pre ++ u :: post = pre' ++ u :: post') by congruence. inversion ND; subst. eapply IH; eauto.
    - destruct H as [_ H]. exfalso. apply H, users_list. rewrite Ea. apply in_app_iff. right. now left.
  Qed.
End Reads.

(** ** Rows *)

Lemma split_map {A B} (v : A -> B) : forall pre u post p a q, p ++ a :: q = map v (pre ++ u :: post) -> length q = length post ->
  p = map v pre /\ a = v u /\ q = map v post.
Proof.
  intros pre u post p a q E L. rewrite map_app in E. cbn [map] in E.
  assert (Lp : length p = length (map v pre)).
  { apply (f_equal (@length B)) in E. rewrite !app_length in E. cbn in E. rewrite !map_length in *. lia. }
  revert pre E Lp. induction p as [|b p IH]; intros [|w pre] E Lp; cbn in *; try discriminate.
  - injection E as -> ->. auto.
  - injection E as -> E. injection Lp as Lp. destruct (IH pre E Lp) as (-> & -> & ->). auto.
Qed.

Lemma map_change {A B} (v w : A -> B) pre u post : NoDup (pre ++ u :: post) -> (forall e, In e (pre ++ u :: post) -> e <> u -> w e = v e) ->
  map w (pre ++ u :: post) = map v pre ++ w u :: map v post.
Proof.
  intros ND H. rewrite map_app. cbn [map]. apply NoDup_remove_2 in ND. f_equal; [|f_equal]; apply map_ext_in; intros e He;
    (apply H; [apply in_app_iff; cbn; auto|]; intros ->; apply ND, in_app_iff; auto).
Qed.

Lemma map_eq_in {A B} (v w : A -> B) l : map v l = map w l -> forall e, In e l -> v e = w e.
Proof.
  induction l as [|a l IH]; cbn; intros E e H; [destruct H|]. injection E as E1 E2. destruct H as [<-|H]; auto.
Qed.

Lemma count_less {A B} (b : B -> bool) (v w : A -> B) t : forall l, In t l ->
  (forall e, In e l -> b (w e) = true -> b (v e) = true) -> b (v t) = true -> b (w t) = false ->
  length (filter b (map w l)) < length (filter b (map v l)).
Proof.
  assert (Le : forall l, (forall e, In e l -> b (w e) = true -> b (v e) = true) -> length (filter b (map w l)) <= length (filter b (map v l))).
  { induction l as [|a l IH]; intros H; cbn; [lia|]. specialize (IH (fun e He => H e (or_intror He))).
    specialize (H a (or_introl eq_refl)). destruct (b (w a)), (b (v a)); cbn; try lia; discriminate (H eq_refl). }
  induction l as [|a l IH]; intros Hin H A0 A1; [destruct Hin|]. cbn. destruct Hin as [->|Hin].
  - rewrite A0, A1. cbn. specialize (Le l (fun e He => H e (or_intror He))). lia.
  - specialize (IH Hin (fun e He => H e (or_intror He)) A0 A1).
    specialize (H a (or_introl eq_refl)). destruct (b (w a)), (b (v a)); cbn; try lia; discriminate (H eq_refl).
Qed.

Lemma arc_eqb_eq a b : arc_eqb a b = true <-> a = b.
Proof.
  destruct a, b. unfold arc_eqb. cbn. rewrite andb_true_iff, !N.eqb_eq. split; [intros [-> ->]; auto|intros [= -> ->]; auto].
Qed.

(** ** States *)

(** The value of a variable in a state. *)
Definition val (st : state) (e : N) : arc :=
  if N.testbit e 31 then (0%N, clock st (e - 2 ^ 31)%N) else match place st e with Some a => a | None => epsilon end.

Lemma val_core st c : (c < 2 ^ 31)%N -> val st (core_id c) = (0%N, clock st c).
Proof. intros H. unfold val. rewrite core_bit, core_id_add by auto. do 2 f_equal. lia. Qed.

Lemma val_task st t : (t < 2 ^ 31)%N -> val st t = match place st t with Some a => a | None => epsilon end.
Proof. intros H. unfold val. now rewrite bit31_low. Qed.

Section States.
  Variable tm : task_model.
  Variable cores : nat.
  Hypothesis W : fits32 tm cores.
  Notation n := (N.of_nat (task_number tm)).
  Notation k := (N.of_nat cores).
  Notation start := (start tm).
  Notation stop := (stop tm).

  (** What holds of all the states: the clock of a core is the end of its last task. *)
  Record good (st : state) : Prop := {
    good_place : forall u c s, (u < n)%N -> place st u = Some (c, s) -> (c < k)%N /\ (s + wcet (task_of tm u) <= clock st c)%N;
    good_clock : forall c, (c < k)%N -> clock st c = 0%N \/ exists u s, (u < n)%N /\ place st u = Some (c, s)
      /\ clock st c = (s + wcet (task_of tm u))%N /\ (clock st c <= deadline (task_of tm u))%N
  }.

  Definition enabled (t c : N) (st : state) : Prop :=
    is_ready tm st t /\ forall d, (d <= c)%N -> in_time tm st t d.

  Definition after (t c : N) (st : state) : state := {|
    place := fun u => if N.eqb u t then Some (c, start st t c) else place st u;
    clock := fun d => if N.eqb d c then stop st t c else clock st d |}.

  Lemma scheduled_after t c st : scheduled tm t c st (after t c st).
  Proof.
    unfold scheduled. cbn. rewrite !N.eqb_refl. split; [auto|split; [auto|split]]; intros x Nx; apply N.eqb_neq in Nx; now rewrite Nx.
  Qed.

  Lemma good_nothing : good nothing.
  Proof. split; cbn; [discriminate|auto]. Qed.

  Lemma good_ext st st' : (forall u, (u < n)%N -> place st u = place st' u) -> (forall c, (c < k)%N -> clock st c = clock st' c) ->
    good st -> good st'.
  Proof.
    intros Hp Hc [G1 G2]. split.
    - intros u c s Hu E. rewrite <- Hp in E by auto. destruct (G1 u c s Hu E) as [A B]. rewrite <- Hc by auto. auto.
    - intros c Lc. rewrite <- Hc by auto. destruct (G2 c Lc) as [E|(u & s & Hu & E & B)]; [auto|]. right. exists u, s.
      rewrite <- Hp by auto. auto.
  Qed.

  Lemma good_after t c st : (t < n)%N -> (c < k)%N -> good st -> place st t = None -> in_time tm st t c -> good (after t c st).
  Proof.
    intros Ht Hc [G1 G2] Pt It. split; cbn [after place clock].
    - intros u d s Hu E. destruct (N.eqb_spec u t) as [->|Nu].
      + injection E as <- <-. rewrite N.eqb_refl. split; [auto|]. unfold stop. lia.
      + destruct (G1 u d s Hu E) as [A B]. split; [auto|]. destruct (N.eqb_spec d c) as [->|]; [|auto].
        unfold Scheduling.task_of in *. unfold SchedulingProofs.stop, SchedulingProofs.start. lia.
    - intros d Hd. destruct (N.eqb_spec d c) as [->|Nd].
      + right. exists t, (start st t c). rewrite N.eqb_refl. split; [auto|]. split; [auto|]. split; [reflexivity|exact It].
      + destruct (G2 d Hd) as [E|(u & s & Hu & E & B)]; [auto|]. right. exists u, s. split; [auto|].
        destruct (N.eqb_spec u t) as [->|]; [congruence|auto].
  Qed.

  Lemma placed_not_epsilon st u a : good st -> (u < n)%N -> place st u = Some a -> a <> epsilon.
  Proof.
    intros G Hu E X. subst a. unfold epsilon in E. destruct (good_place st G u _ _ Hu E) as [A _]. pose proof (few_cores W).
    assert (2 ^ 31 <= 2 ^ 32 - 1)%N by (vm_compute; discriminate). lia.
  Qed.

  Lemma val_epsilon st u : good st -> (u < n)%N -> (val st u = epsilon <-> place st u = None).
  Proof.
    intros G Hu. pose proof (few_tasks W). rewrite val_task by lia. destruct (place st u) as [a|] eqn:E; [|tauto].
    split; [|discriminate]. intros ->. now apply (placed_not_epsilon st u epsilon) in E.
  Qed.

  (** A state is determined by the values of the tasks. *)
  Lemma same_place st st' u : good st -> good st' -> (u < n)%N -> val st u = val st' u -> place st u = place st' u.
  Proof.
    intros G G' Hu E. pose proof (few_tasks W). rewrite !val_task in E by lia.
    destruct (place st u) as [a|] eqn:E1, (place st' u) as [b|] eqn:E2; auto.
    - congruence.
    - now apply (placed_not_epsilon st u a) in E1.
    - symmetry in E. now apply (placed_not_epsilon st' u b) in E2.
  Qed.

  Lemma clock_le st st' c : good st -> good st' -> (forall u, (u < n)%N -> place st u = place st' u) -> (c < k)%N ->
    (clock st c <= clock st' c)%N.
  Proof.
    intros G G' H Hc. destruct (good_clock st G c Hc) as [->|(u & s & Hu & E & -> & _)]; [lia|]. rewrite H in E by auto.
    now apply (good_place st' G' u c s).
  Qed.

  Lemma same_clock st st' c : good st -> good st' -> (forall u, (u < n)%N -> place st u = place st' u) -> (c < k)%N ->
    clock st c = clock st' c.
  Proof. intros G G' H Hc. apply N.le_antisymm; apply clock_le; auto. intros u Hu. symmetry. auto. Qed.

  (** No overflow. *)
  Lemma eta_stop st t c : good st -> (t < n)%N -> (c < k)%N -> eta tm t (clock st c) = stop st t c.
  Proof.
    intros G Ht Hc. unfold eta, ets, uint32, SchedulingProofs.stop, SchedulingProofs.start. apply N.mod_small. pose proof (short_release W t Ht).
    destruct (good_clock st G c Hc) as [->|(u & s & Hu & _ & _ & L)]; [lia|]. pose proof (short_deadline W u t Hu Ht). lia.
  Qed.
End States.

Section Sched.
  Variable tm : task_model.
  Variable plt : fset arc_ltb -> fset arc_ltb -> bool.
  Hypothesis SP : strict_total plt.
  Notation VI := (flat_set_values arc_ltb arc_ltb_strict plt).
  Notation VL := (flat_set_laws arc_ltb arc_ltb_strict plt SP).
  Notation V := (fset arc_ltb).
  Notation set := (fset_of_list arc_ltb arc_ltb_strict).
  Variable PF : platform VI.
  Hypothesis PO : platform_ok PF.
  Variable HP : hplatform V N sfun sind.
  Hypothesis HPO : hplatform_ok HP.
  Notation sdd := (sdd V).
  Notation order := (order N).
  Notation hom := (hom V N sfun sind).
  Notation US := (sched_user tm plt).
  Notation hskip := (hskip VI N sfun sind US).
  Notation evals := (evals VI PF N sfun sind US).
  Notation maps := (maps VI PF N sfun sind US).
  Notation filters := (filters VI PF N sfun sind US).
  Notation fits := (fits VI PF).
  Notation has := (has VI).
  Notation on_set := (on_set tm).
  Notation function := (function VI N sfun sind N.eqb).

  (** ** Functions *)

  Lemma fun_at f (Pe : arc -> Prop) (g : V -> V) (phi : arc -> arc -> Prop) :
    (forall v w, disjoint (v_mem VI) v w -> disjoint (v_mem VI) (g v) (g w)) ->
    (forall v, v_empty VI v = false -> (forall a, v_mem VI v a = true -> Pe a) ->
       on_set f v = g v /\ forall b, v_mem VI (g v) b = true <-> exists a, v_mem VI v a = true /\ phi a b) ->
    forall pre u post o, reads o (pre ++ u :: post) ->
    maps o (length (pre ++ u :: post)) (HFun (N.of_nat (length post)) f)
      (fun c => forall p a q, c = p ++ a :: q -> length q = length post -> Pe a)
      (fun c d => exists p a b q, c = p ++ a :: q /\ length q = length post /\ d = p ++ b :: q /\ phi a b).
  Proof.
    intros Dg Hg. induction pre as [|w pre IH]; intros u post o Ro; cbn [app] in *.
    - destruct Ro as (_ & o' & L & R & _). cbn [length].
      apply (maps_fun VI VL PF PO N sfun sind US o (length post) o' f _ _ g phi L (reads_shape _ _ R) eq_refl Dg).
      + intros v c Lc Ve Hv. apply Hg; auto. intros a Ma. apply (Hv a Ma [] a c eq_refl Lc).
      + intros a c d Lc _. split.
        * intros (p & a' & b & q & E & Lq & -> & Ph). destruct p as [|x p]; cbn in E; injection E as E1 E2.
          -- subst. exists b. auto.
          -- exfalso. apply (f_equal (@length arc)) in E2. rewrite app_length in E2. cbn in E2. change (elt VI) with arc in *. lia.
        * intros (b & -> & Ph). exists [], a, b, c. auto.
    - destruct Ro as (_ & o' & L & R & _). cbn [length].
      refine (maps_skip VI VL PF PO N sfun sind US o _ o' _ _ _ _ _ L _ _ (IH u post o' R) _ _).
      + cbn [Hom.hskip]. unfold var_neqb. rewrite (proj1 L). cbn [lvar]. apply negb_true_iff, N.eqb_neq.
        rewrite app_length. cbn [length]. lia.
      + discriminate.
      + intros a c Hc p x q -> Lq. apply (Hc (a :: p) x q eq_refl Lq).
      + intros a c d Lc _. split.
        * intros (p & x & b & q & E & Lq & -> & Ph). destruct p as [|y p]; cbn in E; injection E as E1 E2.
          -- exfalso. subst. change (elt VI) with arc in *. rewrite Lq in Lc. rewrite app_length in Lc. cbn in Lc. lia.
          -- subst. exists (p ++ b :: q). split; [auto|]. exists p, x, b, q. auto.
        * intros (r & -> & p & x & b & q & -> & Lq & -> & Ph). exists (a :: p), x, b, q. auto.
  Qed.

  Definition test (f : sfun) (a : arc) : bool :=
    match f with
    | FilterConstant c keep => Bool.eqb (arc_eqb a c) keep
    | FilterConstraints t => (eta tm t (snd a) <=? deadline (task_of tm t))%N
    | ScheduleTau _ _ _ => false
    end.
  Definition is_filter (f : sfun) : Prop := match f with ScheduleTau _ _ _ => False | _ => True end.

  Lemma find_filter (b : arc -> bool) (v : V) x : fset_find arc_ltb (set (filter b (proj1_sig v))) x = true <->
    fset_find arc_ltb v x = true /\ b x = true.
  Proof. rewrite (fset_find_of_list arc_ltb arc_ltb_strict), filter_In, (fset_find_in arc_ltb arc_ltb_strict). reflexivity. Qed.

  Lemma on_filter f v x : is_filter f -> (fset_find arc_ltb (on_set f v) x = true <-> fset_find arc_ltb v x = true /\ test f x = true).
  Proof. destruct f; cbn [is_filter]; try contradiction; intros _; apply find_filter. Qed.

  (** The condition of a filter on a row. *)
  Definition passes (h : hom) (c : list arc) : Prop :=
    match h with
    | HFun v f => exists p a q, c = p ++ a :: q /\ N.of_nat (length q) = v /\ test f a = true
    | _ => False
    end.

  Lemma filter_at f pre u post o (P : list arc -> Prop) : is_filter f -> reads o (pre ++ u :: post) ->
    filters o (length (pre ++ u :: post)) (HFun (N.of_nat (length post)) f) P (passes (HFun (N.of_nat (length post)) f)).
  Proof.
    intros If Ro. unfold HomMaps.filters.
    refine (maps_weaken VI PF N sfun sind US o _ _ _ _ _ _
              (fun_at f (fun _ => True) (on_set f) (fun a b => a = b /\ test f a = true) _ _ pre u post o Ro) _ _).
    - intros v w D a. cbn [v_mem]. intros M1 M2. apply on_filter in M1, M2; auto. apply (D a); [apply M1|apply M2].
    - intros v _ _. split; [auto|]. intros b. cbn [v_mem]. split.
      + intros M. apply on_filter in M; auto. exists b. tauto.
      + intros (a & M & -> & T). apply on_filter; auto.
    - auto.
    - intros c d _ _. cbn [passes]. split.
      + intros (p & a & b & q & -> & Lq & -> & <- & T). split; [auto|]. exists p, a, q. split; [auto|]. split; [f_equal; exact Lq|auto].
      + intros [<- (p & a & q & -> & Lq & T)]. exists p, a, a, q. split; [auto|]. split; [now apply Nat2N.inj|auto].
  Qed.

  Lemma tau_at t core tau pre u post o : reads o (pre ++ u :: post) ->
    maps o (length (pre ++ u :: post)) (HFun (N.of_nat (length post)) (ScheduleTau t core tau))
      (fun c => forall p a q, c = p ++ a :: q -> length q = length post -> a = epsilon)
      (fun c d => exists p a q, c = p ++ a :: q /\ length q = length post /\ d = p ++ (core, tau) :: q).
  Proof.
    intros Ro. refine (maps_weaken VI PF N sfun sind US o _ _ _ _ _ _
              (fun_at (ScheduleTau t core tau) (fun a => a = epsilon)
                 (fun v => if fset_find arc_ltb v epsilon then set [(core, tau)] else fset_empty arc_ltb)
                 (fun a b => a = epsilon /\ b = (core, tau)) _ _ pre u post o Ro) _ _).
    - intros v w D a. cbn [v_mem]. destruct (fset_find arc_ltb v epsilon) eqn:E1, (fset_find arc_ltb w epsilon) eqn:E2;
        intros M1 M2; try discriminate. exact (D epsilon E1 E2).
    - intros v Ve Hv. assert (X : fset_find arc_ltb v epsilon = true).
      { destruct (v_nonempty VI VL v Ve) as (a & Ma). rewrite <- (Hv a Ma). exact Ma. }
      rewrite X. split.
      + apply (fset_ext arc_ltb arc_ltb_strict). intros x. cbn [Scheduling.on_set]. apply bool_ext.
        rewrite !(fset_find_of_list arc_ltb arc_ltb_strict), in_map_iff. apply (fset_find_in arc_ltb arc_ltb_strict) in X. cbn. split.
        * intros (y & <- & _). auto.
        * intros [<-|[]]. exists epsilon. auto.
      + intros b. transitivity (In b [(core, tau)]); [exact (fset_find_of_list arc_ltb arc_ltb_strict [(core, tau)] b)|]. cbn [In]. split.
        * intros [<-|[]]. exists epsilon. auto.
        * intros (a & _ & _ & ->). auto.
    - auto.
    - intros c d _ Hc. split.
      + intros (p & a & b & q & -> & Lq & -> & _ & ->). exists p, a, q. auto.
      + intros (p & a & q & -> & Lq & ->). exists p, a, (core, tau), q. split; [auto|]. split; [auto|]. split; [auto|]. split; [|auto].
        apply (Hc p a q eq_refl Lq).
  Qed.

  (** ** The variables *)

  Variable task_order : list N.
  Variable cores : nat.
  Hypothesis Po : Permutation task_order (all_tasks tm).
  Hypothesis W : fits32 tm cores.
  Notation n := (N.of_nat (task_number tm)).
  Notation core c := (core_id (N.of_nat c)).

  (** The identifiers from the core [j - 1]. *)
  Definition suf (j : nat) : list N := map (fun c => core c) (rev (seq 0 j)) ++ task_order.

  Lemma suf_S j : suf (S j) = core j :: suf j.
  Proof. unfold suf. rewrite seq_S, rev_app_distr. reflexivity. Qed.

  Lemma in_tasks t : In t task_order <-> (t < n)%N.
  Proof.
    assert (A : In t task_order <-> In t (all_tasks tm)) by (split; apply Permutation_in; [|symmetry]; exact Po).
    rewrite A. unfold all_tasks. rewrite in_map_iff. split.
    - intros (i & <- & H). apply in_seq in H. lia.
    - intros H. exists (N.to_nat t). split; [lia|]. apply in_seq. lia.
  Qed.

  Lemma in_suf j e : In e (suf j) <-> (exists c, c < j /\ e = core c) \/ (e < n)%N.
  Proof.
    unfold suf. rewrite in_app_iff, in_map_iff, in_tasks. split.
    - intros [(c & <- & H)|H]; [|auto]. apply in_rev, in_seq in H. left. exists c. split; [lia|auto].
    - intros [(c & H & ->)|H]; [|auto]. left. exists c. split; [auto|]. rewrite <- in_rev. apply in_seq. lia.
  Qed.

  Lemma in_suf_task j t : (t < n)%N -> In t (suf j).
  Proof. intros H. apply in_suf. auto. Qed.

  Lemma core_small c : c < cores -> (N.of_nat c < 2 ^ 31)%N.
  Proof. intros H. pose proof (few_cores W). lia. Qed.

  Lemma task_small t : (t < n)%N -> (t < 2 ^ 31)%N.
  Proof. intros H. pose proof (few_tasks W). lia. Qed.

  Lemma core_not_task c t : (t < n)%N -> core c <> t.
  Proof. intros H E. apply task_small, bit31_low in H. rewrite <- E, core_bit in H. discriminate. Qed.

  Lemma core_fresh j : j < cores -> ~ In (core j) (suf j).
  Proof.
    intros H Hin. apply in_suf in Hin. destruct Hin as [(c & L & E)|L].
    - apply core_id_inj in E; [lia|apply core_small; lia|apply core_small; lia].
    - now apply (core_not_task j (core j)).
  Qed.

  Lemma suf_nodup j : j <= cores -> NoDup (suf j).
  Proof.
    induction j as [|j IH]; intros H.
    - cbn. apply (Permutation_NoDup (l := all_tasks tm)); [now symmetry|]. unfold all_tasks.
      apply FinFun.Injective_map_NoDup; [intros a b; apply Nat2N.inj|apply seq_NoDup].
    - rewrite suf_S. constructor; [apply core_fresh; lia|apply IH; lia].
  Qed.

  (** The number of identifiers below an identifier. *)
  Fixpoint below (ids : list N) (u : N) : nat :=
    match ids with [] => 0 | w :: r => if N.eqb w u then length r else below r u end.

  Lemma below_at pre u post : NoDup (pre ++ u :: post) -> below (pre ++ u :: post) u = length post.
  Proof.
    induction pre as [|w pre IH]; cbn; intros ND; [now rewrite N.eqb_refl|]. inversion ND as [|? ? A B]; subst.
    destruct (N.eqb_spec w u) as [->|]; [|auto]. exfalso. apply A, in_app_iff. right. now left.
  Qed.

  Definition var (u : N) : N := N.of_nat (below (suf cores) u).

  Lemma var_suf u j : j <= cores -> In u (suf j) -> var u = N.of_nat (below (suf j) u).
  Proof.
    intros Hj Hu. unfold var. f_equal.
    assert (X : forall d j, cores - j = d -> j <= cores -> In u (suf j) -> below (suf cores) u = below (suf j) u); [|eauto].
    clear j Hj Hu. induction d as [|d IH]; intros j Ed Hj Hu.
    - now replace cores with j by lia.
    - rewrite (IH (S j)); [|lia|lia|rewrite suf_S; now right]. rewrite suf_S. cbn [below].
      destruct (N.eqb_spec (core j) u) as [<-|]; [|auto]. exfalso. apply (core_fresh j); auto. lia.
  Qed.

  Lemma var_at pre u post j : j <= cores -> suf j = pre ++ u :: post -> var u = N.of_nat (length post).
  Proof.
    intros Hj E. rewrite (var_suf u j Hj); [|rewrite E; apply in_app_iff; right; now left]. f_equal. rewrite E. apply below_at.
    rewrite <- E. now apply suf_nodup.
  Qed.

  Lemma split_suf j u : In u (suf j) -> exists pre post, suf j = pre ++ u :: post.
  Proof. apply in_split. Qed.

  Notation whole := (order_of N.eqb (b_of_list (suf cores))).
  Definition part (o : order) (j : nat) : Prop :=
    j <= cores /\ reads o (suf j) /\ o_map o = o_map whole /\ o_nodes o = o_nodes whole.

  Lemma part_whole : part whole cores.
  Proof. split; [auto|]. split; [eapply sees_chain; apply sees_whole|auto]. Qed.

  Lemma part_next o j : part o (S j) -> o_identifier o = Some (user_id (core j)) /\
    exists o', olevel N o (LFlat (N.of_nat (length (suf j)))) o' /\ part o' j.
  Proof.
    intros (L & R & M & D). rewrite suf_S in R. cbn [reads] in R. destruct R as (Id & o' & Lv & R & M' & D'). split; [auto|].
    exists o'. split; [auto|]. split; [lia|]. split; [auto|]. split; congruence.
  Qed.

  Lemma part_shape o j : part o j -> oshape N o (flat_shape (length (suf j))).
  Proof. intros (_ & R & _). now apply reads_shape. Qed.

  Lemma function_var o j u f : part o j -> In u (suf cores) -> function o u f = Ok (HFun (var u) f).
  Proof.
    intros (_ & _ & M & D) Hu. destruct (split_suf _ _ Hu) as (pre & post & E). rewrite (var_at pre u post cores (le_n _) E).
    apply (function_at VI sfun sind (suf cores) o pre u post f); auto. now apply suf_nodup.
  Qed.

  (** ** The homomorphism of a task and a core *)

  Definition filter_list (t : N) (c : nat) : list hom :=
    map (fun u => HFun (var u) (FilterConstant epsilon false)) (dependencies_of tm t)
    ++ [HFun (var t) (FilterConstant epsilon true)]
    ++ map (fun d => HFun (var (core d)) (FilterConstraints t)) (seq 0 (S c)).

  Definition is_comp (t : N) (c : nat) (h : hom) : Prop :=
    exists hs, h = HComp (HInd (Schedule t (N.of_nat c))) (HInter hs) /\ forall g, In g hs <-> In g (filter_list t c).

  Lemma filter_list_in t c h : In h (filter_list t c) <->
    (exists u, In u (dependencies_of tm t) /\ h = HFun (var u) (FilterConstant epsilon false))
    \/ h = HFun (var t) (FilterConstant epsilon true)
    \/ (exists d, d <= c /\ h = HFun (var (core d)) (FilterConstraints t)).
  Proof.
    unfold filter_list. rewrite !in_app_iff, !in_map_iff. cbn [In]. split.
    - intros [(u & <- & H)|[[<-|[]]|(d & <- & H)]]; [eauto|auto|]. apply in_seq in H. right. right. exists d. split; [lia|auto].
    - intros [(u & H & ->)|[->|(d & H & ->)]]; [eauto|auto|]. right. right. exists d. split; [auto|]. apply in_seq. lia.
  Qed.

  Lemma passes_iff f u j st : j <= cores -> In u (suf j) ->
    (passes (HFun (var u) f) (map (val st) (suf j)) <-> test f (val st u) = true).
  Proof.
    intros Hj Hu. destruct (split_suf _ _ Hu) as (pre & post & E). rewrite (var_at pre u post j Hj E), E. cbn [passes]. split.
    - intros (p & a & q & X & Lq & T). apply Nat2N.inj in Lq. destruct (split_map (val st) pre u post p a q (eq_sym X) Lq) as (_ & -> & _). exact T.
    - intros T. exists (map (val st) pre), (val st u), (map (val st) post). rewrite map_app, map_length. auto.
  Qed.

  Notation good := (good tm cores).
  Notation enabled := (enabled tm).
  Notation after := (after tm).

  Lemma filter_list_ids t c h : (t < n)%N -> c < cores -> In h (filter_list t c) ->
    exists u f, h = HFun (var u) f /\ is_filter f /\ In u (suf (S c)).
  Proof.
    intros Ht Hc H. apply filter_list_in in H. destruct H as [(u & Hu & ->)|[->|(d & Hd & ->)]].
    - exists u, (FilterConstant epsilon false). split; [auto|]. split; [exact Logic.I|]. apply in_suf_task, (known_deps W t); auto.
    - exists t, (FilterConstant epsilon true). split; [auto|]. split; [exact Logic.I|]. now apply in_suf_task.
    - exists (core d), (FilterConstraints t). split; [auto|]. split; [exact Logic.I|]. apply in_suf. left. exists d. split; [lia|auto].
  Qed.

  Lemma filters_enabled st t c j : good st -> (t < n)%N -> c < j -> j <= cores ->
    ((forall h, In h (filter_list t c) -> passes h (map (val st) (suf j))) <-> enabled t (N.of_nat c) st).
  Proof.
    intros G Ht Hc Hj. unfold SchedulingProofs.enabled, is_ready.
    assert (Te : forall u b, (u < n)%N -> (test (FilterConstant epsilon b) (val st u) = true <-> (place st u = None <-> b = true))).
    { intros u b Hu. cbn [test]. rewrite eqb_true_iff. rewrite <- (val_epsilon tm cores W st u G Hu), <- arc_eqb_eq.
      destruct (arc_eqb (val st u) epsilon), b; intuition congruence. }
    assert (Tc : forall d, d <= c -> (test (FilterConstraints t) (val st (core d)) = true <-> in_time tm st t (N.of_nat d))).
    { intros d Hd. cbn [test]. rewrite val_core by (apply core_small; lia). cbn [snd].
      rewrite (eta_stop tm cores W st t (N.of_nat d) G Ht) by lia. apply N.leb_le. }
    split.
    - intros H. split; [split|].
      + assert (X : passes (HFun (var t) (FilterConstant epsilon true)) (map (val st) (suf j))) by (apply H, filter_list_in; auto).
        apply passes_iff in X; auto using in_suf_task. apply Te in X; auto. now apply X.
      + intros u Hu. assert (Lu : (u < n)%N) by now apply (known_deps W t).
        assert (X : passes (HFun (var u) (FilterConstant epsilon false)) (map (val st) (suf j))) by (apply H, filter_list_in; eauto).
        apply passes_iff in X; auto using in_suf_task. apply Te in X; auto. intros Y. now apply X in Y.
      + intros d Hd. assert (X : passes (HFun (var (core (N.to_nat d))) (FilterConstraints t)) (map (val st) (suf j))).
        { apply H, filter_list_in. right. right. exists (N.to_nat d). split; [lia|auto]. }
        apply passes_iff in X; auto; [|apply in_suf; left; exists (N.to_nat d); split; [lia|auto]].
        apply Tc in X; [|lia]. now rewrite N2Nat.id in X.
    - intros [[H1 H2] H3] h Hh. apply filter_list_in in Hh. destruct Hh as [(u & Hu & ->)|[->|(d & Hd & ->)]].
      + assert (Lu : (u < n)%N) by now apply (known_deps W t). apply passes_iff; auto using in_suf_task. apply Te; auto.
        split; [intros X; now apply H2 in X|discriminate].
      + apply passes_iff; auto using in_suf_task. apply Te; auto. tauto.
      + apply passes_iff; auto; [apply in_suf; left; exists d; split; [lia|auto]|]. apply Tc; auto. apply H3. lia.
  Qed.

  (** What the rows are, and what a step does. *)
  Definition shown (j : nat) (x : list arc) : Prop := exists st, x = map (val st) (suf j) /\ good st.
  Definition step_row (j : nat) (t : N) (c : nat) (x y : list arc) : Prop :=
    exists st, x = map (val st) (suf j) /\ good st /\ enabled t (N.of_nat c) st /\ y = map (val (after t (N.of_nat c) st)) (suf j).

  Lemma val_after t c st e : (t < n)%N -> c < cores -> (e < n)%N \/ (exists d, d < cores /\ e = core d) -> e <> t -> e <> core c ->
    val (after t (N.of_nat c) st) e = val st e.
  Proof.
    intros Ht Hc He Nt Nc. destruct He as [He|(d & Hd & ->)].
    - rewrite !val_task by now apply task_small. cbn [SchedulingProofs.after place]. apply N.eqb_neq in Nt. now rewrite Nt.
    - rewrite !val_core by now apply core_small. cbn [SchedulingProofs.after clock]. destruct (N.eqb_spec (N.of_nat d) (N.of_nat c)) as [E|]; [|auto].
      exfalso. apply Nc. now rewrite E.
  Qed.

  Lemma after_task t c st : (t < n)%N -> val (after t (N.of_nat c) st) t = (N.of_nat c, start tm st t (N.of_nat c)).
  Proof. intros Ht. rewrite val_task by now apply task_small. cbn. now rewrite N.eqb_refl. Qed.

  Lemma after_core t c st : c < cores -> val (after t (N.of_nat c) st) (core c) = (0%N, stop tm st t (N.of_nat c)).
  Proof. intros Hc. rewrite val_core by now apply core_small. cbn [SchedulingProofs.after clock]. now rewrite N.eqb_refl. Qed.

  Lemma in_suf_cores j e : j <= cores -> In e (suf j) -> (e < n)%N \/ exists d, d < cores /\ e = core d.
  Proof. intros Hj H. apply in_suf in H. destruct H as [(d & L & ->)|H]; [right; exists d; split; [lia|auto]|auto]. Qed.

  Lemma good_after' t c st : (t < n)%N -> c < cores -> good st -> enabled t (N.of_nat c) st -> good (after t (N.of_nat c) st).
  Proof.
    intros Ht Hc G ([E _] & I1). apply (good_after tm cores t (N.of_nat c) st Ht); auto; [lia|]. apply I1. lia.
  Qed.

  Lemma shown_step j t c x y : (t < n)%N -> c < cores -> step_row j t c x y -> shown j y.
  Proof. intros Ht Hc (st & -> & G & En & ->). exists (after t (N.of_nat c) st). split; [auto|]. now apply good_after'. Qed.

  (** ** Skipped variables *)

  Lemma level_var o j : part o (S j) -> o_variable o = Some (N.of_nat (length (suf j))).
  Proof. intros A. destruct (part_next _ _ A) as (_ & o' & L & _). exact (proj1 L). Qed.

  Lemma fun_skip o j u f : part o (S j) -> In u (suf j) -> hskip o (HFun (var u) f) = true.
  Proof.
    intros A Hu. cbn [Hom.hskip]. unfold var_neqb. rewrite (level_var _ _ A). apply negb_true_iff, N.eqb_neq.
    destruct A as (Lj & _). destruct (split_suf _ _ Hu) as (pre & post & E). rewrite (var_at pre u post j) by (auto; lia).
    rewrite E, app_length. cbn [length]. lia.
  Qed.

  Lemma fun_noskip o j f : part o (S j) -> hskip o (HFun (var (core j)) f) = false.
  Proof.
    intros A. cbn [Hom.hskip]. unfold var_neqb. rewrite (level_var _ _ A). apply negb_false_iff, N.eqb_eq.
    destruct A as (Lj & _). now rewrite (var_at [] (core j) (suf j) (S j) Lj (suf_S j)).
  Qed.

  Lemma ind_skip o j t c : part o (S j) -> c < cores -> hskip o (HInd (Schedule t (N.of_nat c))) = negb (Nat.eqb j c).
  Proof.
    intros A Hc. destruct (part_next _ _ A) as (Id & _). cbn [Hom.hskip]. rewrite Id. cbn. f_equal.
    destruct A as (Lj & _). destruct (Nat.eqb_spec j c) as [->|D]; [apply N.eqb_refl|]. apply N.eqb_neq. intros E.
    apply core_id_inj in E; [lia|apply core_small; lia|apply core_small; lia].
  Qed.

  Lemma comp_skip o j t c h : part o (S j) -> (t < n)%N -> c < j -> is_comp t c h -> hskip o h = true.
  Proof.
    intros A Ht Hc (hs & -> & Hs). pose proof A as (Lj & _). cbn [Hom.hskip]. apply andb_true_iff. split.
    - pose proof (ind_skip o j t c A ltac:(lia)) as X. cbn [Hom.hskip] in X. rewrite X. apply negb_true_iff, Nat.eqb_neq. lia.
    - apply forallb_forall. intros g Hg. apply Hs in Hg. apply filter_list_ids in Hg; [|auto|lia].
      destruct Hg as (u & f & -> & _ & Hu). apply (fun_skip o j); auto. apply in_suf in Hu. apply in_suf.
      destruct Hu as [(d & Hd & ->)|Hu]; [left; exists d; split; [lia|auto]|auto].
  Qed.

  Lemma comp_noskip o j t h : part o (S j) -> is_comp t j h -> hskip o h = false.
  Proof.
    intros A (hs & -> & Hs). pose proof A as (Lj & _). cbn [Hom.hskip]. apply andb_false_iff. left.
    pose proof (ind_skip o j t j A ltac:(lia)) as X. cbn [Hom.hskip] in X. now rewrite X, Nat.eqb_refl.
  Qed.

  (** ** A task and a core at the variable of the core *)

  Lemma step_here t j st pre post : (t < n)%N -> j < cores -> suf j = pre ++ t :: post ->
    map (val (after t (N.of_nat j) st)) (suf (S j)) =
    (0%N, stop tm st t (N.of_nat j)) :: map (val st) pre ++ (N.of_nat j, start tm st t (N.of_nat j)) :: map (val st) post.
  Proof.
    intros Ht Hj E. rewrite suf_S. cbn [map]. rewrite (after_core t j st Hj). f_equal. rewrite E.
    rewrite (map_change (val st)).
    - now rewrite (after_task t j st Ht).
    - rewrite <- E. apply suf_nodup. lia.
    - intros e He Ne. rewrite <- E in He. apply val_after; auto; [apply (in_suf_cores j); auto; lia|].
      intros ->. now apply (core_fresh j).
  Qed.

  Lemma same_states j st st' : j <= cores -> good st -> good st' -> map (val st) (suf j) = map (val st') (suf j) ->
    (forall u, (u < n)%N -> place st u = place st' u) /\ forall c, (c < N.of_nat cores)%N -> clock st c = clock st' c.
  Proof.
    intros Hj G G' E. assert (X : forall u, (u < n)%N -> place st u = place st' u).
    { intros u Hu. apply (same_place tm cores W); auto. apply (map_eq_in _ _ _ E). now apply in_suf_task. }
    split; [auto|]. intros c Hc. now apply (same_clock tm cores).
  Qed.

  Notation all_pass hs x := (forall h, In h hs -> passes h x).

  Lemma ind_here o j t : part o (S j) -> (t < n)%N ->
    maps o (length (suf (S j))) (HInd (Schedule t (N.of_nat j)))
      (fun x => exists st, x = map (val st) (suf (S j)) /\ good st /\ enabled t (N.of_nat j) st) (step_row (S j) t j).
  Proof.
    intros A Ht. destruct (part_next _ _ A) as (Id & o' & L & A'). pose proof A as (Lj & _).
    replace (length (suf (S j))) with (S (length (suf j))) by (now rewrite suf_S).
    refine (maps_ind VI VL PF PO N sfun sind US o (length (suf j)) o' (Schedule t (N.of_nat j)) _ _ L (part_shape _ _ A') _ _).
    { rewrite (ind_skip o j t j A) by lia. now rewrite Nat.eqb_refl. }
    intros v s Ve Ns Fs Hv. destruct (has_some VI VL PF _ _ Fs Ns) as (c0 & Hc0).
    destruct (split_suf j t (in_suf_task j t Ht)) as (pre & post & E).
    assert (Key : forall a c, v_mem VI v a = true -> has s c -> exists st, a = (0%N, clock st (N.of_nat j)) /\ c = map (val st) (suf j) /\ good st
      /\ enabled t (N.of_nat j) st).
    { intros a c Ma Hc. destruct (Hv a c Ma Hc) as (st & Ex & G & En). rewrite suf_S in Ex. cbn [map] in Ex.
      rewrite val_core in Ex by (apply core_small; lia). injection Ex as Ea Ec. exists st. auto. }
    assert (Uniq : forall a b, v_mem VI v a = true -> v_mem VI v b = true -> a = b).
    { intros a b Ma Mb. destruct (Key a c0 Ma Hc0) as (st & -> & Ec & G & _). destruct (Key b c0 Mb Hc0) as (st' & -> & Ec' & G' & _).
      rewrite Ec in Ec'. destruct (same_states j st st' ltac:(lia) G G' Ec') as [_ X]. now rewrite X by lia. }
    assert (Ev : exists a w, proj1_sig (v : V) = a :: w) by (clear - Ve; destruct v as [[|a w] Sv]; [discriminate Ve|cbn; eauto]).
    destruct Ev as (a & w & Ev).
    assert (Ma : v_mem VI v a = true).
    { apply (fset_find_in arc_ltb arc_ltb_strict). rewrite Ev. now left. }
    assert (Ei : i_flat US (Schedule t (N.of_nat j)) o v =
      HConsF o (set [(fst a, eta tm t (snd a))]) (HFun (var t) (ScheduleTau t (N.of_nat j) (ets tm t (snd a))))).
    { cbn [i_flat sched_user]. unfold on_values. rewrite Ev.
      rewrite (function_var o (S j) t _ A) by now apply in_suf_task. reflexivity. }
    destruct A' as (Lj' & R' & X').
    assert (Rp : reads o' (pre ++ t :: post)) by now rewrite <- E.
    pose proof (tau_at t (N.of_nat j) (ets tm t (snd a)) pre t post o' Rp) as Mt.
    rewrite <- (var_at pre t post j Lj' E) in Mt. rewrite <- E in Mt.
    destruct (cons_eval VI VL PF N sfun sind US o (length (suf j)) o' (set [(fst a, eta tm t (snd a))]) _ _ _ s L
                (reads_shape _ _ R') Mt Fs Ns) as (y & Ey & Fy & Hy).
    { intros c Hc p x q Ec Lq. destruct (Key a c Ma Hc) as (st & _ & Ec' & G & En). rewrite Ec', E in Ec.
      destruct (split_map (val st) pre t post p x q (eq_sym Ec) Lq) as (_ & -> & _).
      apply (val_epsilon tm cores W); auto. apply En. }
    exists y. split; [exact (eq_ind_r (fun h => evals o' h s y) Ey Ei)|]. split; [exact Fy|]. intros d. rewrite Hy.
    assert (Vb : forall b, v_mem VI (set [(fst a, eta tm t (snd a))]) b = true <-> b = (fst a, eta tm t (snd a))).
    { intros b. transitivity (In b [(fst a, eta tm t (snd a))]); [exact (fset_find_of_list arc_ltb arc_ltb_strict _ b)|]. cbn. intuition. }
    split.
    - intros (b & r & c & -> & Mb & Hc & p & x & q & Ec & Lq & ->). apply Vb in Mb. subst b.
      destruct (Key a c Ma Hc) as (st & Ea & Ec' & G & En). exists a, c. split; [auto|]. split; [auto|]. exists st.
      split; [rewrite suf_S; cbn [map]; rewrite val_core by (apply core_small; lia); rewrite Ea, Ec'; reflexivity|]. split; [auto|]. split; [auto|].
      rewrite (step_here t j st pre post Ht ltac:(lia) E). rewrite Ea. cbn [fst snd]. rewrite (eta_stop tm cores W st t) by (auto; lia).
      rewrite Ec in Ec'. rewrite E in Ec'. destruct (split_map (val st) pre t post p x q Ec' Lq) as (-> & _ & ->). reflexivity.
    - intros (a' & c & Ma' & Hc & st & Ex & G & En & ->). rewrite (Uniq a' a Ma' Ma) in Ex. rewrite suf_S in Ex. cbn [map] in Ex.
      rewrite val_core in Ex by (apply core_small; lia). injection Ex as Ea Ec.
      rewrite (step_here t j st pre post Ht ltac:(lia) E).
      exists (0%N, stop tm st t (N.of_nat j)), (map (val st) pre ++ (N.of_nat j, start tm st t (N.of_nat j)) :: map (val st) post), c.
      split; [auto|]. split; [apply Vb; rewrite Ea; cbn [fst snd]; now rewrite (eta_stop tm cores W st t) by (auto; lia)|].
      split; [auto|]. exists (map (val st) pre), (val st t), (map (val st) post). rewrite Ec, E, map_app, map_length.
      split; [auto|]. split; [auto|]. rewrite Ea. reflexivity.
  Qed.

  Lemma comp_here o j t h : part o (S j) -> (t < n)%N -> is_comp t j h ->
    maps o (length (suf (S j))) h (shown (S j)) (step_row (S j) t j).
  Proof.
    intros A Ht C. pose proof (comp_noskip _ _ _ _ A C) as Sk. destruct C as (hs & -> & Hs). pose proof A as (Lj & Ro & _).
    refine (maps_comp VI PF N sfun sind US o _ _ _ _ (fun x => exists st, x = map (val st) (suf (S j)) /\ good st /\ enabled t (N.of_nat j) st)
              (fun c d => c = d /\ all_pass hs c) (step_row (S j) t j) _ (part_shape _ _ A) (fun _ => Sk) _ _ (ind_here o j t A Ht) _).
    - refine (filters_inter VI VL PF PO N sfun sind US o _ hs _ passes (part_shape _ _ A) _ _ _).
      + intros _. cbn [Hom.hskip]. apply not_true_is_false. intros X. rewrite forallb_forall in X.
        assert (Y : In (HFun (var (core j)) (FilterConstraints t)) hs).
        { apply Hs, filter_list_in. right. right. exists j. auto. }
        apply X in Y. exact (eq_true_false_abs _ Y (fun_noskip o j (FilterConstraints t) A)).
      + intros X. assert (Y : In (HFun (var t) (FilterConstant epsilon true)) hs) by (apply Hs, filter_list_in; auto).
        rewrite X in Y. destruct Y.
      + intros h Hh. apply Hs in Hh. apply filter_list_ids in Hh; [|auto|lia]. destruct Hh as (u & f & -> & If & Hu).
        destruct (split_suf _ _ Hu) as (pre & post & E). rewrite (var_at pre u post (S j) Lj E). rewrite E in *. now apply filter_at.
    - intros c d (st & -> & G) (<- & H). exists st. split; [auto|]. split; [auto|].
      apply (filters_enabled st t j (S j)); auto. intros h Hh. apply H. now apply Hs.
    - intros c d _ (st0 & Ec & G0). split.
      + intros (st & -> & G & En & ->). exists (map (val st) (suf (S j))). split; [split; [auto|]|exists st; auto].
        intros h Hh. apply Hs in Hh. revert h Hh. apply (filters_enabled st t j (S j)); auto.
      + intros (e & (<- & _) & H). exact H.
  Qed.

  (** A step does not depend on the cores above. *)
  Lemma step_up j t c a x d : S j <= cores -> (t < n)%N -> c < j -> shown (S j) (a :: x) ->
    (step_row (S j) t c (a :: x) d <-> exists r, d = a :: r /\ step_row j t c x r).
  Proof.
    intros Lj Ht Hc (st0 & E0 & G0). rewrite suf_S in E0. cbn [map] in E0. injection E0 as Ea Ex.
    assert (Va : forall st, val (after t (N.of_nat c) st) (core j) = val st (core j)).
    { intros st. apply val_after; auto; [lia|right; exists j; split; [lia|auto]|now apply core_not_task|].
      intros X. apply core_id_inj in X; [lia|apply core_small; lia|apply core_small; lia]. }
    split.
    - intros (st & E & G & En & ->). rewrite suf_S in E |- *. cbn [map] in E |- *. injection E as E1 E2. rewrite Va.
      exists (map (val (after t (N.of_nat c) st)) (suf j)). split; [now rewrite E1|]. exists st. auto.
    - intros (r & -> & st & E & G & En & ->). exists st. rewrite Ex in E.
      destruct (same_states j st0 st ltac:(lia) G0 G E) as [_ X].
      assert (Y : val st0 (core j) = val st (core j)) by (rewrite !val_core by (apply core_small; lia); now rewrite X by lia).
      rewrite suf_S. cbn [map]. rewrite Va. split; [congruence|]. split; [auto|]. split; [auto|]. congruence.
  Qed.

  Lemma shown_down j a x : shown (S j) (a :: x) -> shown j x.
  Proof. intros (st & E & G). rewrite suf_S in E. cbn [map] in E. injection E as _ E. exists st. auto. Qed.

  Lemma comp_maps t c h : (t < n)%N -> is_comp t c h -> forall j o, part o j -> c < j ->
    maps o (length (suf j)) h (shown j) (step_row j t c).
  Proof.
    intros Ht C. induction j as [|j IH]; intros o A Hc; [lia|]. destruct (Nat.eq_dec c j) as [->|D].
    - now apply comp_here.
    - destruct (part_next _ _ A) as (Id & o' & L & A'). pose proof A as (Lj & _).
      replace (length (suf (S j))) with (S (length (suf j))) by (now rewrite suf_S).
      refine (maps_skip VI VL PF PO N sfun sind US o _ o' _ _ _ _ _ L _ _ (IH o' A' _) _ _); [| |lia| |].
      + apply (comp_skip o j t c); auto. lia.
      + destruct C as (hs & -> & _). discriminate.
      + intros a x. apply shown_down.
      + intros a x d _ Sh. apply step_up; auto. lia.
  Qed.

  (** ** Fixpoints *)

  (** One step with the cores before [i]. *)
  Definition step_any (j i : nat) (x y : list arc) : Prop := exists t c, (t < n)%N /\ c < i /\ step_row j t c x y.
  Definition steps (j i : nat) : list arc -> list arc -> Prop := clos_refl_trans _ (step_any j i).

  Lemma shown_steps j i x y : i <= cores -> shown j x -> steps j i x y -> shown j y.
  Proof.
    intros Hi Sx H. induction H as [x y (t & c & Ht & Hc & H)|x|x y z _ IH1 _ IH2]; auto.
    apply (shown_step j t c x); auto. lia.
  Qed.

  Definition to_do (x : list arc) : nat := length (filter (fun a => arc_eqb a epsilon) x).

  Lemma filter_le {A} (b : A -> bool) l : length (filter b l) <= length l.
  Proof. induction l as [|a l IH]; cbn; [lia|]. destruct (b a); cbn; lia. Qed.

  Lemma step_down j t c x y : j <= cores -> (t < n)%N -> c < cores -> step_row j t c x y -> to_do y < to_do x.
  Proof.
    intros Hj Ht Hc (st & -> & G & En & ->). unfold to_do.
    apply (count_less (fun a => arc_eqb a epsilon) (val st) (val (after t (N.of_nat c) st)) t).
    - now apply in_suf_task.
    - intros e He X. apply arc_eqb_eq in X. apply arc_eqb_eq.
      destruct (N.eq_dec e t) as [->|Nt]; [apply (val_epsilon tm cores W); auto; apply En|].
      destruct (N.eq_dec e (core c)) as [->|Nc]; [rewrite after_core in X by auto; discriminate|].
      rewrite val_after in X; auto. now apply (in_suf_cores j).
    - apply arc_eqb_eq, (val_epsilon tm cores W); auto. apply En.
    - apply not_true_is_false. intros X. apply arc_eqb_eq in X. rewrite after_task in X by auto. unfold epsilon in X.
      assert (E1 : N.of_nat c = (2 ^ 32 - 1)%N) by congruence. pose proof (core_small c Hc).
      assert (2 ^ 31 <= 2 ^ 32 - 1)%N by (vm_compute; discriminate). lia.
  Qed.

  Lemma steps_down j i x y : j <= cores -> i <= cores -> steps j i x y -> x = y \/ to_do y < to_do x.
  Proof.
    intros Hj Hi H. induction H as [x y (t & c & Ht & Hc & H)|x|x y z _ IH1 _ IH2]; auto.
    - right. apply (step_down j t c); auto. lia.
    - destruct IH1 as [->|L1]; [auto|]. destruct IH2 as [<-|L2]; [auto|]. right. lia.
  Qed.

  Lemma steps_up j a x d : S j <= cores -> shown (S j) (a :: x) ->
    (steps (S j) j (a :: x) d <-> exists r, d = a :: r /\ steps j j x r).
  Proof.
    intros Lj Sx. split.
    - intros H. apply clos_rt_rtn1 in H. induction H as [|y z (t & c & Ht & Hc & S1) H IH].
      + exists x. split; [auto|apply rt_refl].
      + destruct IH as (r & -> & R). apply clos_rtn1_rt in H.
        assert (Sr : shown (S j) (a :: r)) by (apply (shown_steps (S j) j (a :: x)); auto; lia).
        apply step_up in S1; auto. destruct S1 as (q & -> & S1). exists q. split; [auto|].
        eapply rt_trans; [exact R|]. apply rt_step. exists t, c. auto.
    - intros (r & -> & R). apply clos_rt_rtn1 in R. induction R as [|y z (t & c & Ht & Hc & S1) R IH]; [apply rt_refl|].
      eapply rt_trans; [exact IH|]. apply rt_step. exists t, c. split; [auto|]. split; [auto|]. apply step_up; auto; [|eauto].
      apply (shown_steps (S j) j (a :: x)); auto; lia.
  Qed.

  (** The operands: the identity, and the homomorphisms of all the tasks and all the cores before [j]. *)
  Record operands (j : nat) (hs : list hom) : Prop := {
    op_id : In HId hs;
    op_all : forall h, In h hs -> h = HId \/ exists t c, (t < n)%N /\ c < j /\ is_comp t c h;
    op_some : forall t c, (t < n)%N -> c < j -> exists h, In h hs /\ is_comp t c h
  }.

  Notation partition := (partition VI N sfun sind US).
  Notation hset := (hset VI N sfun sind HP).
  Notation mk_sum := (mk_sum VI N sfun sind HP).
  Notation mk_inter := (mk_inter VI N sfun sind HP).
  Notation rewrite_fuel := (rewrite_fuel VI N sfun sind HP US).

  Lemma partition_in o hs : forall f g l i, partition o hs = (f, g, l, i) ->
    (forall h, In h hs -> match h with HLocal _ _ => False | _ => True end) ->
    (forall h, In h f <-> In h hs /\ h <> HId /\ hskip o h = true) /\
    (forall h, In h g <-> In h hs /\ h <> HId /\ hskip o h = false) /\
    l = [] /\ (i = true <-> In HId hs).
  Proof.
    induction hs as [|h hs IH]; intros f g l i E Nl; cbn [Hom.partition] in E.
    - injection E as <- <- <- <-. cbn. intuition discriminate.
    - destruct (partition o hs) as [[[f0 g0] l0] i0]. destruct (IH _ _ _ _ eq_refl) as (A & B & C & D); [intros k Hk; apply Nl; now right|].
      clear IH. specialize (Nl h (or_introl eq_refl)). destruct (Hom.is_id VI N sfun sind h) eqn:Ei.
      { assert (h = HId) by (destruct h; try discriminate; auto). subst h. injection E as <- <- <- <-. cbn [In].
        split; [intros k; rewrite A|split; [intros k; rewrite B|]]; intuition congruence. }
      assert (Ni : h <> HId) by (intros ->; discriminate).
      destruct (hskip o h) eqn:Es.
      { injection E as <- <- <- <-. cbn [In]. rewrite D.
        split; [intros k; rewrite A|split; [intros k; rewrite B|]]; intuition congruence. }
      assert (E' : (f0, h :: g0, l0, i0) = (f, g, l, i)) by (destruct h; try contradiction; exact E). clear E.
      injection E' as <- <- <- <-. cbn [In]. rewrite D.
      split; [intros k; rewrite A|split; [intros k; rewrite B|]]; intuition congruence.
  Qed.

  Lemma hset_in l h : In h (hset l) <-> In h l.
  Proof. apply (HomRewrite.hset_in VI N sfun sind HP HPO). Qed.

  Lemma two_in {A} (l : list A) a b : In a l -> In b l -> a <> b -> forall C (f : A -> C) (d : C), match l with [x] => f x | _ => d end = d.
  Proof.
    intros Ha Hb D C f d. destruct l as [|x [|y r]]; auto. exfalso. destruct Ha as [<-|[]], Hb as [<-|[]]. auto.
  Qed.

  Lemma comp_plain t c h : is_comp t c h -> h <> HId /\ match h with HSum _ | HInter _ | HLocal _ _ => False | _ => True end.
  Proof. intros (hs & -> & _). split; [discriminate|exact Logic.I]. Qed.

  Lemma part_empty o j : part o (S j) -> o_empty o = false.
  Proof. intros A. pose proof (level_var _ _ A) as X. unfold o_empty. unfold o_variable, head in X. now destruct (o_head o). Qed.

  Lemma op_plain j hs h : operands j hs -> In h hs -> match h with HSum _ | HLocal _ _ => False | _ => True end.
  Proof.
    intros Op Hh. apply (op_all _ _ Op) in Hh. destruct Hh as [->|(t & c & _ & _ & C)]; [exact Logic.I|].
    destruct C as (? & -> & _). exact Logic.I.
  Qed.

  Lemma sat_level j o hs f g f' : part o (S j) -> operands (S j) hs -> partition o hs = (f, g, [], true) ->
    maps o (length (suf (S j))) f' (shown (S j)) (steps (S j) j) ->
    maps o (length (suf (S j))) (HSatFix (N.of_nat (length (suf j))) f' (hset g) HId) (shown (S j)) (steps (S j) (S j)).
  Proof.
    intros A Op Ep Mf. pose proof A as (Lj & _).
    destruct (partition_in o hs _ _ _ _ Ep (fun h Hh => match h as h return match h with HSum _ | HLocal _ _ => False | _ => True end -> match h with HLocal _ _ => False | _ => True end
      with HLocal _ _ => fun x => x | _ => fun _ => Logic.I end (op_plain _ _ h Op Hh))) as (Pf & Pg & _).
    assert (Hg : forall h, In h (hset g) -> exists t, (t < n)%N /\ is_comp t j h).
    { intros h Hh. apply hset_in, Pg in Hh. destruct Hh as (Hh & Ni & Sk). apply (op_all _ _ Op) in Hh.
      destruct Hh as [->|(t & c & Ht & Hc & C)]; [contradiction|]. destruct (Nat.eq_dec c j) as [->|D]; [eauto|].
      rewrite (comp_skip o j t c h A Ht ltac:(lia) C) in Sk. discriminate. }
    assert (Gg : forall t, (t < n)%N -> exists h, In h (hset g) /\ is_comp t j h).
    { intros t Ht. destruct (op_some _ _ Op t j Ht ltac:(lia)) as (h & Hh & C). exists h. split; [|auto].
      apply hset_in, Pg. split; [auto|]. split; [apply (comp_plain t j h C)|now apply (comp_noskip o j t)]. }
    assert (Inc : forall x y, steps (S j) j x y -> steps (S j) (S j) x y).
    { intros x y H. induction H as [x y (t & c & Ht & Hc & H)|x|x y z _ IH1 _ IH2]; [|apply rt_refl|eapply rt_trans; eauto].
      apply rt_step. exists t, c. split; [auto|]. split; [lia|auto]. }
    refine (maps_satfix VI VL PF PO N sfun sind US o (length (suf (S j))) f' (hset g) (shown (S j)) (steps (S j) j)
      (fun h x y => exists t, (t < n)%N /\ is_comp t j h /\ step_row (S j) t j x y) to_do (length (suf (S j))) Mf _ _ _ _ _ _ _ _ (part_shape _ _ A) _ _).
    - intros h Hh. destruct (Hg h Hh) as (t & Ht & C).
      refine (maps_weaken VI PF N sfun sind US o _ _ _ _ _ _ (comp_maps t j h Ht C (S j) o A ltac:(lia)) _ _); [auto|].
      intros x y _ _. split; [eauto|]. intros (t' & Ht' & C' & H).
      destruct C as (h1 & -> & _), C' as (h2 & E & _). assert (t' = t) by congruence. now subst.
    - intros x _. apply rt_refl.
    - intros x y Sx H. apply (shown_steps (S j) j x); auto. lia.
    - intros h x y _ Sx (t & Ht & _ & H). apply (shown_step (S j) t j x); auto.
    - intros x y _ [H|(h & _ & t & Ht & _ & H)].
      + apply (steps_down (S j) j); auto. lia.
      + right. apply (step_down (S j) t j); auto.
    - intros x (st & -> & _). unfold to_do. rewrite <- (map_length (val st) (suf (S j))). apply filter_le.
    - intros _. cbn [Hom.hskip]. unfold var_neqb. rewrite (level_var _ _ A). now rewrite N.eqb_refl.
    - intros x y _ _. split.
      + intros H. induction H as [x y (t & c & Ht & Hc & H)|x|x y z _ IH1 _ IH2]; [|apply rt_refl|eapply rt_trans; eauto].
        apply rt_step. destruct (Nat.eq_dec c j) as [->|D].
        * right. destruct (Gg t Ht) as (h & Hh & C). exists h. split; [auto|]. exists t. auto.
        * left. apply rt_step. exists t, c. split; [auto|]. split; [lia|auto].
      + intros H. induction H as [x y [H|(h & _ & t & Ht & _ & H)]|x|x y z _ IH1 _ IH2]; [now apply Inc| |apply rt_refl|eapply rt_trans; eauto].
        apply rt_step. exists t, j. split; [auto|]. split; [lia|auto].
  Qed.

  (** Rewriting the fixpoint. *)
  Lemma rewrite_fix : 0 < task_number tm -> forall j fuel o hs, part o (S j) -> j < fuel -> operands (S j) hs ->
    exists f' g, rewrite_fuel fuel o (HFix (HSum hs)) = Ok (HSatFix (N.of_nat (length (suf j))) f' g HId) /\
      maps o (length (suf (S j))) (HSatFix (N.of_nat (length (suf j))) f' g HId) (shown (S j)) (steps (S j) (S j)).
  Proof.
    intros Hn. induction j as [|j IH]; intros fuel o hs A Hf Op; (destruct fuel as [|fuel]; [lia|]).
    - pose proof A as (Lj & _). destruct (part_next _ _ A) as (Id & o' & L & A'). pose proof L as (L1 & L2 & on & L3 & L4).
      destruct (partition o hs) as [[[f g] l] i] eqn:Ep.
      destruct (partition_in o hs f g l i Ep) as (Pf & Pg & -> & Pi).
      { intros h Hh. pose proof (op_plain _ _ _ Op Hh). now destruct h. }
      assert (Ei : i = true) by (apply Pi, (op_id _ _ Op)). subst i.
      assert (Ef : f = []).
      { destruct f as [|h f]; [auto|]. exfalso. destruct (proj1 (Pf h) (or_introl eq_refl)) as (Hh & Ni & Sk).
        apply (op_all _ _ Op) in Hh. destruct Hh as [->|(t & c & Ht & Hc & C)]; [auto|]. assert (c = 0) by lia. subst c.
        pose proof (comp_noskip _ _ _ _ A C). congruence. }
      assert (Ng : g <> []).
      { intros ->. destruct (op_some _ _ Op 0%N 0) as (h & Hh & C); [lia|lia|]. apply (Pg h). split; [auto|].
        split; [apply (comp_plain 0%N 0 h C)|now apply (comp_noskip o 0 0%N)]. }
      exists HId, (hset g). split.
      + cbn [Hom.rewrite_fuel]. rewrite (part_empty _ _ A), L1, L2, L3. rewrite Ep, Ef. cbn [negb nonempty rbind lvar].
        unfold saturation_fixpoint. destruct g; [congruence|reflexivity].
      + apply (sat_level 0 o hs f g HId A Op Ep).
        refine (maps_weaken VI PF N sfun sind US o _ _ _ _ _ _ (maps_id VI PF N sfun sind US o _ (shown 1)) _ _); [auto|].
        intros x y _ _. split; [intros ->; apply rt_refl|]. intros H.
        induction H as [x y (t & c & _ & Hc & _)|x|x y z _ IH1 _ IH2]; [lia|auto|congruence].
    - pose proof A as (Lj & _). destruct (part_next _ _ A) as (Id & o' & L & A'). pose proof L as (L1 & L2 & on & L3 & L4).
      destruct (partition o hs) as [[[f g] l] i] eqn:Ep.
      destruct (partition_in o hs f g l i Ep) as (Pf & Pg & -> & Pi).
      { intros h Hh. pose proof (op_plain _ _ _ Op Hh). now destruct h. }
      assert (Ei : i = true) by (apply Pi, (op_id _ _ Op)). subst i.
      assert (Ng : g <> []).
      { intros ->. destruct (op_some _ _ Op 0%N (S j)) as (h & Hh & C); [lia|lia|]. apply (Pg h). split; [auto|].
        split; [apply (comp_plain 0%N (S j) h C)|now apply (comp_noskip o (S j) 0%N)]. }
      assert (Hfin : forall h, In h (hset (f ++ [HId])) <-> h = HId \/ In h f).
      { intros h. rewrite hset_in, in_app_iff. cbn [In]. intuition. }
      assert (Op' : operands (S j) (hset (f ++ [HId]))).
      { split.
        - apply Hfin. auto.
        - intros h Hh. apply Hfin in Hh. destruct Hh as [->|Hh]; [auto|]. apply Pf in Hh. destruct Hh as (Hh & Ni & Sk).
          apply (op_all _ _ Op) in Hh. destruct Hh as [->|(t & c & Ht & Hc & C)]; [auto|]. right. exists t, c.
          split; [auto|]. split; [|auto]. destruct (Nat.eq_dec c (S j)) as [->|]; [|lia].
          pose proof (comp_noskip _ _ _ _ A C). congruence.
        - intros t c Ht Hc. destruct (op_some _ _ Op t c Ht ltac:(lia)) as (h & Hh & C). exists h. split; [|auto].
          apply Hfin. right. apply Pf. split; [auto|]. split; [apply (comp_plain t c h C)|now apply (comp_skip o (S j) t c)]. }
      destruct (op_some _ _ Op' 0%N 0) as (h1 & Hh1 & C1); [lia|lia|].
      assert (Es : mk_sum (f ++ [HId]) = Ok (HSum (hset (f ++ [HId])))).
      { rewrite (sum_plain VI N sfun sind HP HPO).
        - f_equal. apply (two_in (hset (f ++ [HId])) HId h1); [apply Op'|auto|]. intros <-. now apply (comp_plain 0%N 0 HId C1).
        - intros h Hh. apply (op_plain (S j) (hset (f ++ [HId])) h Op'). now apply hset_in.
        - intros X. apply (f_equal (@length _)) in X. rewrite app_length in X. cbn in X. lia. }
      destruct (IH fuel o' (hset (f ++ [HId])) A' ltac:(lia) Op') as (f1 & g1 & E1 & M1).
      exists (HSatFix (N.of_nat (length (suf j))) f1 g1 HId), (hset g). split.
      + cbn [Hom.rewrite_fuel]. rewrite (part_empty _ _ A), L1, L2, L3. rewrite Ep. cbn [negb].
        assert (Nf : nonempty f = true).
        { destruct f as [|h f]; [|reflexivity]. cbn in Hh1. destruct Hh1 as [<-|[]]. exfalso. now apply (comp_plain 0%N 0 HId C1). }
        rewrite Nf, Es. cbn [rbind fixpoint nonempty lvar]. change (vt VI) with V in E1 |- *. rewrite E1. cbn [rbind].
        unfold saturation_fixpoint. destruct g; [congruence|reflexivity].
      + apply (sat_level (S j) o hs f g _ A Op Ep).
        replace (length (suf (S (S j)))) with (S (length (suf (S j)))) by (now rewrite (suf_S (S j))).
        refine (maps_skip VI VL PF PO N sfun sind US o _ o' _ _ _ _ _ L _ _ M1 _ _).
        * cbn [Hom.hskip]. unfold var_neqb. rewrite (level_var _ _ A). apply negb_true_iff, N.eqb_neq. rewrite suf_S. cbn [length]. lia.
        * discriminate.
        * intros a x. apply shown_down.
        * intros a x d _ Sx. now apply steps_up.
  Qed.

  (** ** The last filter *)

  Notation placed := (FilterConstant epsilon false).
  Definition suffix (ids : list N) : Prop := exists pre, suf cores = pre ++ ids.

  Lemma var_suffix ids pre u post : suffix ids -> ids = pre ++ u :: post -> var u = N.of_nat (length post).
  Proof.
    intros (p & E) ->. apply (var_at (p ++ pre) u post cores (le_n _)). now rewrite <- app_assoc.
  Qed.

  Lemma var_less ids u : suffix ids -> In u ids -> (var u < N.of_nat (length ids))%N.
  Proof.
    intros Sx Hu. destruct (in_split _ _ Hu) as (pre & post & E). rewrite (var_suffix ids pre u post Sx E), E, app_length. cbn [length]. lia.
  Qed.

  Lemma suffix_tail w ids : suffix (w :: ids) -> suffix ids.
  Proof. intros (p & E). exists (p ++ [w]). now rewrite <- app_assoc. Qed.

  Definition tests (ids : list N) (hs : list hom) : Prop := forall h, In h hs -> exists u, In u ids /\ h = HFun (var u) placed.

  Lemma pass_up v f a (c : list arc) : (v < N.of_nat (length c))%N -> (passes (HFun v f) (a :: c) <-> passes (HFun v f) c).
  Proof.
    intros L. cbn [passes]. split.
    - intros (p & b & q & E & Lq & T). destruct p as [|x p]; cbn in E; injection E as E1 E2; [subst; lia|]. exists p, b, q. auto.
    - intros (p & b & q & -> & Lq & T). exists (a :: p), b, q. auto.
  Qed.

  Definition low (m : nat) (h : hom) : Prop := forall (o : order) v, o_variable o = Some v -> (N.of_nat m <= v)%N -> hskip o h = true.

  Lemma low_tests ids hs h : suffix ids -> tests ids hs -> In h hs -> low (length ids) h.
  Proof.
    intros Sx T Hh o v Vo Le. destruct (T h Hh) as (u & Hu & ->). cbn [Hom.hskip]. unfold var_neqb. rewrite Vo.
    apply negb_true_iff, N.eqb_neq. pose proof (var_less ids u Sx Hu). lia.
  Qed.

  Lemma test_filters o ids u : reads o ids -> suffix ids -> In u ids ->
    filters o (length ids) (HFun (var u) placed) (fun _ => True) (passes (HFun (var u) placed)).
  Proof.
    intros R Sx Hu. destruct (in_split _ _ Hu) as (pre & post & E). rewrite (var_suffix ids pre u post Sx E). rewrite E in *.
    apply filter_at; [exact Logic.I|auto].
  Qed.

  Lemma reads_empty o u ids : reads o (u :: ids) -> o_empty o = false.
  Proof.
    intros (_ & o' & (X & _) & _). unfold o_empty. unfold o_variable, head in X. now destruct (o_head o).
  Qed.

  Notation built hs := (match hset hs with [h] => h | _ => HInter (hset hs) end).

  Lemma rewrite_tests : forall ids fuel o hs, reads o ids -> suffix ids -> length ids < fuel -> hs <> [] -> tests ids hs ->
    exists h', rewrite_fuel fuel o (built hs) = Ok h' /\ h' <> HId /\ low (length ids) h' /\
      filters o (length ids) h' (fun _ => True) (fun c => forall h, In h hs -> passes h c).
  Proof.
    induction ids as [|w ids IH]; intros fuel o hs R Sx Lf Ne T; (destruct fuel as [|fuel]; [cbn in Lf; lia|]).
    { exfalso. destruct hs as [|h hs]; [auto|]. destruct (T h (or_introl eq_refl)) as (u & [] & _). }
    assert (Ts : forall l, (forall h, In h l -> In h hs) -> tests (w :: ids) l) by (intros l Hl h Hh; apply T; auto).
    assert (Hi : forall h, In h (hset hs) <-> In h hs) by (intros h; apply hset_in).
    assert (Cases : (exists h, hset hs = [h]) \/ (built hs = HInter (hset hs))).
    { destruct (hset hs) as [|h [|k r]]; eauto. }
    assert (Em : o_empty o = false) by now apply (reads_empty o w ids).
    pose proof R as (Id & o' & L & R' & _). pose proof L as (L1 & L2 & on & L3 & L4).
    destruct Cases as [(h & E)|E].
    - rewrite E. exists h. assert (Hh : In h hs) by (apply Hi; rewrite E; now left). destruct (T h Hh) as (u & Hu & ->).
      split; [|split; [discriminate|split; [now apply (low_tests (w :: ids) hs)|]]].
      + cbn [Hom.rewrite_fuel]. rewrite Em. now rewrite L1, L2, L3.
      + refine (maps_weaken VI PF N sfun sind US o _ _ _ _ _ _ (test_filters o _ u R Sx Hu) _ _); [auto|].
        intros c d _ _. split; intros [-> H]; (split; [auto|]).
        * intros k Hk. apply Hi in Hk. rewrite E in Hk. destruct Hk as [<-|[]]. exact H.
        * now apply H.
    - rewrite E. destruct (partition o (hset hs)) as [[[f g] l] i] eqn:Ep.
      destruct (partition_in o (hset hs) f g l i Ep) as (Pf & Pg & -> & Pi).
      { intros h Hh. apply Hi, T in Hh. destruct Hh as (u & _ & ->). exact Logic.I. }
      assert (Nid : forall h, In h hs -> h <> HId) by (intros h Hh; destruct (T h Hh) as (u & _ & ->); discriminate).
      assert (Ei : i = false).
      { apply not_true_is_false. intros X. apply Pi, Hi in X. now apply Nid in X. }
      subst i.
      assert (Tf : tests ids f).
      { intros h Hh. apply Pf in Hh. destruct Hh as (Hh & _ & Sk). apply Hi in Hh. destruct (T h Hh) as (u & [<-|Hu] & ->); [|eauto].
        exfalso. cbn [Hom.hskip] in Sk. unfold var_neqb in Sk. rewrite L1 in Sk. cbn [lvar] in Sk.
        rewrite (var_suffix (w :: ids) [] w ids Sx eq_refl), N.eqb_refl in Sk. discriminate. }
      assert (Fh : forall h, In h hs -> filters o (length (w :: ids)) h (fun _ => True) (passes h)).
      { intros h Hh. destruct (T h Hh) as (u & Hu & ->). now apply test_filters. }
      destruct f as [|f0 f1] eqn:Ef.
      + exists (HInter (hset hs)). split; [|split; [discriminate|split]].
        * cbn [Hom.rewrite_fuel]. rewrite Em, L1, L2, L3, Ep. reflexivity.
        * intros oo v Vo Le. cbn [Hom.hskip]. apply forallb_forall. intros h Hh. apply Hi in Hh. now apply (low_tests (w :: ids) hs h Sx T Hh oo v).
        * refine (maps_weaken VI PF N sfun sind US o _ _ _ _ _ _
            (filters_inter VI VL PF PO N sfun sind US o _ (hset hs) (fun _ => True) passes (reads_shape _ _ R) _ _ _) _ _).
          -- intros _. cbn [Hom.hskip]. apply not_true_is_false. intros X. rewrite forallb_forall in X.
             destruct hs as [|h hs0]; [auto|]. apply (proj2 (Pf h)). assert (Hh : In h (hset (h :: hs0))) by (apply Hi; now left).
             split; [auto|]. split; [apply Nid; now left|]. now apply X.
          -- intros X. destruct hs as [|h hs0]; [auto|]. assert (Hh : In h (hset (h :: hs0))) by (apply Hi; now left). rewrite X in Hh. destruct Hh.
          -- intros h Hh. apply Fh. now apply Hi.
          -- auto.
          -- intros c d _ _. split; intros [-> H]; (split; [auto|]); intros h Hh; apply H; now apply Hi.
      + rewrite <- Ef in *. assert (Nf : f <> [] /\ nonempty f = true) by (rewrite Ef; split; [discriminate|reflexivity]).
        destruct Nf as [Nf1 Nf2].
        destruct (IH fuel o' f R' (suffix_tail _ _ Sx) ltac:(cbn in Lf; lia) Nf1 Tf) as (h1 & E1 & Ni1 & Lo1 & M1).
        assert (Mk : mk_inter f = Ok (built f)).
        { apply (inter_plain VI N sfun sind HP HPO); [|auto]. intros h Hh. destruct (Tf h Hh) as (u & _ & ->). exact Logic.I. }
        assert (M1' : filters o (length (w :: ids)) h1 (fun _ => True) (fun c => forall h, In h f -> passes h c)).
        { cbn [length]. refine (maps_skip VI VL PF PO N sfun sind US o _ o' _ _ _ _ _ L (Lo1 o _ L1 (N.le_refl _)) Ni1 M1 _ _); [auto|].
          intros a c d Lc _. assert (Up : forall h, In h f -> (passes h (a :: c) <-> passes h c)).
          { intros h Hh. destruct (Tf h Hh) as (u & Hu & ->). apply pass_up. change (elt VI) with arc in *. rewrite Lc.
            apply var_less; auto. now apply suffix_tail in Sx. }
          split.
          - intros [<- H]. exists c. split; [auto|]. split; [auto|]. intros h Hh. apply Up; auto.
          - intros (r & -> & <- & H). split; [auto|]. intros h Hh. apply Up; auto. }
        destruct g as [|g0 g1] eqn:Eg.
        * exists h1. split; [|split; [auto|split]].
          -- cbn [Hom.rewrite_fuel]. rewrite Em, L1, L2, L3, Ep. unfold opt_build. rewrite Nf2. cbn [negb andb nonempty].
             rewrite Mk. cbn [rbind]. change (vt VI) with V in E1 |- *. rewrite E1. reflexivity.
          -- intros oo v Vo Le. apply (Lo1 oo v Vo). cbn [length] in Le. lia.
          -- refine (maps_weaken VI PF N sfun sind US o _ _ _ _ _ _ M1' _ _); [auto|].
             intros c d _ _. split; intros [-> H]; (split; [auto|]); intros h Hh; apply H.
             ++ apply Pf. split; [now apply Hi|]. split; [auto|]. apply not_false_is_true. intros X. apply (proj2 (Pg h)).
                split; [now apply Hi|]. auto.
             ++ apply Pf in Hh. now apply Hi.
        * rewrite <- Eg in *. exists (HSatInter (N.of_nat (length ids)) (Some h1) (hset g) None).
          assert (Sn : hskip o (HSatInter (N.of_nat (length ids)) (Some h1) (hset g) None) = false).
          { cbn [Hom.hskip]. unfold var_neqb. rewrite L1. cbn [lvar]. now rewrite N.eqb_refl. }
          assert (S1 : hskip o h1 = true) by (apply (Lo1 o _ L1), N.le_refl).
          split; [|split; [discriminate|split]].
          -- cbn [Hom.rewrite_fuel]. rewrite Em, L1, L2, L3, Ep. unfold opt_build. rewrite Nf2. cbn [negb andb nonempty].
             rewrite Mk. cbn [rbind]. change (vt VI) with V in E1 |- *. rewrite E1. cbn [rbind lvar]. unfold saturation_intersection. now rewrite Eg.
          -- intros oo v Vo Le. cbn [Hom.hskip]. unfold var_neqb. rewrite Vo. apply negb_true_iff, N.eqb_neq. cbn [length] in Le. lia.
          -- assert (Ho : forall h, In h (opt_list VI N sfun sind (Some h1) ++ hset g ++ opt_list VI N sfun sind None) <-> h = h1 \/ In h g).
             { intros h. rewrite !in_app_iff. cbn [opt_list In]. rewrite hset_in. intuition. }
             refine (maps_weaken VI PF N sfun sind US o _ _ _ _ _ _
               (filters_satinter VI VL PF PO N sfun sind US o _ (N.of_nat (length ids)) (Some h1) (hset g) None (fun _ => True)
                  (fun h c => if hskip o h then forall k, In k f -> passes k c else passes h c) (reads_shape _ _ R) (fun _ => Sn) _ _) _ _).
             ++ discriminate.
             ++ intros h Hh. apply Ho in Hh. destruct Hh as [->|Hh]; [now rewrite S1|]. apply Pg in Hh. destruct Hh as (Hh & _ & Sk).
                rewrite Sk. apply Fh. now apply Hi.
             ++ auto.
             ++ intros c d _ _. split; intros [-> H]; (split; [auto|]); intros h Hh.
                ** destruct (hskip o h) eqn:Sk.
                   --- assert (X := H h1 (proj2 (Ho h1) (or_introl eq_refl))). rewrite S1 in X. apply X, Pf. split; [now apply Hi|]. auto.
                   --- assert (X := H h). rewrite Sk in X. apply X, Ho. right. apply Pg. split; [now apply Hi|]. auto.
                ** apply Ho in Hh. destruct Hh as [->|Hh].
                   --- rewrite S1. intros k Hk. apply H. apply Pf in Hk. now apply Hi.
                   --- apply Pg in Hh. destruct Hh as (Hh & _ & Sk). rewrite Sk. apply H. now apply Hi.
  Qed.

  (** ** The construction of the homomorphisms *)

  Lemma rmap_all {A B} (f : A -> res serr B) (R : A -> B -> Prop) : forall l, (forall a, In a l -> exists b, f a = Ok b /\ R a b) ->
    exists bs, rmap f l = Ok bs /\ Forall2 R l bs.
  Proof.
    induction l as [|a l IH]; intros H; cbn [rmap]; [eauto|]. destruct (H a (or_introl eq_refl)) as (b & E & Rb).
    destruct IH as (bs & E' & F'); [intros x Hx; apply H; now right|]. rewrite E, E'. cbn [rbind]. eauto.
  Qed.

  Definition base (t : N) (a : nat) : list hom :=
    (map (fun u => HFun (var u) (FilterConstant epsilon false)) (dependencies_of tm t) ++ [HFun (var t) (FilterConstant epsilon true)])
    ++ map (fun d => HFun (var (core d)) (FilterConstraints t)) (seq 0 a).

  Lemma base_S t a : base t (S a) = base t a ++ [HFun (var (core a)) (FilterConstraints t)].
  Proof. unfold base. rewrite seq_S, map_app, <- !app_assoc. reflexivity. Qed.

  Lemma base_filters t c : base t (S c) = filter_list t c.
  Proof. unfold base, filter_list. now rewrite <- app_assoc. Qed.

  Lemma base_plain t a h : In h (base t a) -> match h with HInter _ | HLocal _ _ => False | _ => True end.
  Proof.
    unfold base. rewrite !in_app_iff, !in_map_iff. cbn [In]. intros [[(u & <- & _)|[<-|[]]]|(d & <- & _)]; exact Logic.I.
  Qed.

  Lemma in_core c : c < cores -> In (core c) (suf cores).
  Proof. intros H. apply in_suf. left. eauto. Qed.

  Lemma core_loop_ok t o : part o cores -> (t < n)%N -> forall m a fs, a + m <= cores -> (forall g, In g fs <-> In g (base t a)) ->
    exists hs, core_loop plt HP o t fs (seq a m) = Ok hs /\ (forall h, In h hs -> exists c, a <= c < a + m /\ is_comp t c h)
      /\ (forall c, a <= c < a + m -> exists h, In h hs /\ is_comp t c h).
  Proof.
    intros A Ht. induction m as [|m IH]; intros a fs La Hfs; cbn [seq core_loop].
    { exists []. split; [auto|]. split; [intros h []|lia]. }
    rewrite (function_var o cores (core a) _ A) by (apply in_core; lia). cbn [shom rbind].
    set (fs' := fs ++ [HFun (var (core a)) (FilterConstraints t)]).
    assert (Hfs' : forall g, In g fs' <-> In g (base t (S a))).
    { intros g. rewrite base_S. unfold fs'. rewrite !in_app_iff, Hfs. reflexivity. }
    assert (Hh : forall g, In g (hset (hset fs')) <-> In g (filter_list t a)).
    { intros g. rewrite !hset_in, Hfs', base_filters. reflexivity. }
    assert (Mk : mk_inter (hset fs') = Ok (HInter (hset (hset fs')))).
    { rewrite (inter_plain VI N sfun sind HP HPO).
      - f_equal. apply (two_in _ (HFun (var t) (FilterConstant epsilon true)) (HFun (var (core a)) (FilterConstraints t))).
        + apply Hh, filter_list_in. auto.
        + apply Hh, filter_list_in. eauto.
        + discriminate.
      - intros h H. apply (base_plain t (S a)). apply Hfs'. now apply hset_in.
      - intros X. assert (Y : In (HFun (var t) (FilterConstant epsilon true)) (hset (hset fs'))) by (apply Hh, filter_list_in; auto).
        apply hset_in in Y. rewrite X in Y. destruct Y. }
    cbv zeta. match goal with |- context [Hom.mk_inter VI N sfun sind HP (Hom.hset VI N sfun sind HP ?l)] => change l with fs' end.
    change (vt VI) with V in *. rewrite Mk. cbn [shom rbind].
    match goal with |- context [composition VI N sfun sind ?x ?y] =>
      change (composition VI N sfun sind x y) with (@Ok (cerr N) hom (HComp x y)) end.
    cbn [shom rbind]. destruct (IH (S a) fs' ltac:(lia) Hfs') as (hs & E & H1 & H2).
    change (vt VI) with V in *. rewrite E. cbn [rbind]. eexists. split; [reflexivity|]. split.
    - intros h [<-|H].
      + exists a. split; [lia|]. exists (hset (hset fs')). auto.
      + destruct (H1 h H) as (c & Hc & C). exists c. split; [lia|auto].
    - intros c Hc. destruct (Nat.eq_dec c a) as [->|D].
      + eexists. split; [now left|]. exists (hset (hset fs')). auto.
      + destruct (H2 c ltac:(lia)) as (h & Hin & C). exists h. split; [now right|auto].
  Qed.

  Notation parts := (parts VI N sfun sind).
  Definition for_task (t : N) (h : hom) : Prop :=
    (forall p, In p (parts h) -> exists c, c < cores /\ is_comp t c p) /\ (forall c, c < cores -> exists p, In p (parts h) /\ is_comp t c p).

  Lemma task_ok o t : part o cores -> 0 < cores -> (t < n)%N -> exists h, task_schedulers tm plt HP o cores t = Ok h /\ for_task t h.
  Proof.
    intros A Hk Ht. unfold task_schedulers.
    destruct (rmap_all (fun u => shom (function o u (FilterConstant epsilon false)))
                (fun u h => h = HFun (var u) (FilterConstant epsilon false)) (dependencies_of tm t)) as (ds & Ed & Fd).
    { intros u Hu. rewrite (function_var o cores u _ A) by (apply in_suf_task, (known_deps W t); auto). cbn. eauto. }
    change (vt VI) with V in *. rewrite Ed. cbn [rbind].
    rewrite (function_var o cores t _ A) by now apply in_suf_task. cbn [shom rbind].
    destruct (core_loop_ok t o A Ht cores 0 (ds ++ [HFun (var t) (FilterConstant epsilon true)]) ltac:(lia)) as (hs & E & H1 & H2).
    { intros g. unfold base. cbn [seq map]. rewrite app_nil_r, !in_app_iff. apply or_iff_compat_r. clear - Fd.
      induction Fd as [|u h us hs E _ IH]; [reflexivity|]. cbn [map In]. rewrite IH, E. reflexivity. }
    change (vt VI) with V in *. rewrite E. cbn [rbind].
    rewrite (sum_plain VI N sfun sind HP HPO).
    - eexists. split; [reflexivity|]. set (l := hset (hset hs)).
      assert (Hl : forall h, In h l <-> In h hs) by (intros h; unfold l; rewrite !hset_in; reflexivity).
      assert (Pl : forall h, In h (parts (match l with [h] => h | _ => HSum l end)) <-> In h l).
      { intros h. destruct l as [|a [|b r]] eqn:El; [reflexivity| |reflexivity].
        assert (Ha : In a hs) by (apply Hl; now left). destruct (H1 a Ha) as (c & _ & C). destruct C as (? & -> & _). reflexivity. }
      split.
      + intros p Hp. apply Pl, Hl, H1 in Hp. destruct Hp as (c & Hc & C). exists c. split; [lia|auto].
      + intros c Hc. destruct (H2 c ltac:(lia)) as (p & Hp & C). exists p. split; [now apply Pl, Hl|auto].
    - intros h Hh. apply hset_in, H1 in Hh. destruct Hh as (c & _ & C). destruct C as (? & -> & _). exact Logic.I.
    - intros X. destruct (H2 0 ltac:(lia)) as (h & Hh & _). apply hset_in in Hh. rewrite X in Hh. destruct Hh.
  Qed.

  Lemma whole_fuel : length (suf cores) < S (length (o_nodes whole)).
  Proof.
    cbn [order_of o_nodes]. rewrite map_length. assert (X : forall (ids : list N) p, length (layout (b_of_list ids) p []) = length ids).
    { induction ids as [|u ids IH]; intros p; [reflexivity|]. rewrite b_of_list_cons. cbn [layout length app]. f_equal. apply IH. }
    rewrite X. lia.
  Qed.

  Lemma all_ok : 0 < cores -> 0 < task_number tm -> exists h, all_schedulers tm plt HP whole cores = Ok h /\
    maps whole (length (suf cores)) h (shown cores) (steps cores cores).
  Proof.
    intros Hk Hn. unfold all_schedulers.
    destruct (rmap_all (task_schedulers tm plt HP whole cores) for_task (all_tasks tm)) as (hs & Eh & Fh).
    { intros t Ht. apply task_ok; auto; [apply part_whole|]. apply in_tasks. revert Ht. apply Permutation_in. now symmetry. }
    change (vt VI) with V in *. rewrite Eh. cbn [rbind].
    assert (Hs : (forall h, In h hs -> exists t, (t < n)%N /\ for_task t h) /\ (forall t, (t < n)%N -> exists h, In h hs /\ for_task t h)).
    { assert (Ht : forall t, In t (all_tasks tm) <-> (t < n)%N).
      { intros t. rewrite <- in_tasks. split; apply Permutation_in; [symmetry|]; exact Po. }
      split.
      - assert (Hl : forall t, In t (all_tasks tm) -> (t < n)%N) by (intros t; apply Ht). clear - Fh Hl.
        induction Fh as [|t h ts hs Rh _ IH]; intros k Hh; [destruct Hh|]. destruct Hh as [<-|Hh].
        + exists t. split; [apply Hl; now left|auto].
        + apply IH; auto. intros u Hu. apply Hl. now right.
      - intros t Hlt. apply Ht in Hlt. clear - Fh Hlt. induction Fh as [|u h ts hs Rh _ IH]; [destruct Hlt|].
        destruct Hlt as [<-|Hlt]; [exists h; split; [now left|auto]|]. destruct (IH Hlt) as (k & Hk & R). exists k. split; [now right|auto]. }
    destruct Hs as [Hs1 Hs2]. set (l := hset (flat_map parts (hset (hs ++ [HId])))).
    assert (Hl : forall p, In p l <-> p = HId \/ exists h, In h hs /\ In p (parts h)).
    { intros p. unfold l. rewrite hset_in, in_flat_map. split.
      - intros (h & Hh & Hp). apply hset_in, in_app_iff in Hh. destruct Hh as [Hh|[<-|[]]]; [eauto|]. destruct Hp as [<-|[]]. auto.
      - intros [->|(h & Hh & Hp)].
        + exists HId. split; [apply hset_in, in_app_iff; right; now left|now left].
        + exists h. split; [apply hset_in, in_app_iff; now left|auto]. }
    assert (Op : operands cores l).
    { split.
      - apply Hl. auto.
      - intros p Hp. apply Hl in Hp. destruct Hp as [->|(h & Hh & Hp)]; [auto|]. right. destruct (Hs1 h Hh) as (t & Ht & F1 & F2).
        destruct (F1 p Hp) as (c & Hc & C). exists t, c. auto.
      - intros t c Ht Hc. destruct (Hs2 t Ht) as (h & Hh & F1 & F2). destruct (F2 c Hc) as (p & Hp & C). exists p. split; [|auto].
        apply Hl. eauto. }
    assert (Es : mk_sum (hset (hs ++ [HId])) = Ok (HSum l)).
    { rewrite (sum_parts VI N sfun sind HP HPO).
      - f_equal. destruct (op_some _ _ Op 0%N 0) as (h1 & Hh1 & C1); [lia|lia|].
        apply (two_in l HId h1); [apply Op|auto|]. intros <-. now apply (comp_plain 0%N 0 HId C1).
      - intros h p Hh Hp. apply (op_plain cores l p Op). unfold l. apply hset_in, in_flat_map. eauto.
      - intros X. assert (Y : In HId (hset (hs ++ [HId]))) by (apply hset_in, in_app_iff; right; now left). rewrite X in Y. destruct Y. }
    change (vt VI) with V in *. rewrite Es. cbn [shom rbind fixpoint]. unfold rewrite.
    assert (Ek : cores = S (pred cores)) by lia.
    assert (Ap : part whole (S (pred cores))) by (rewrite <- Ek; apply part_whole).
    assert (Op' : operands (S (pred cores)) l) by now rewrite <- Ek.
    destruct (rewrite_fix Hn (pred cores) (S (length (o_nodes whole))) whole l Ap) as (f' & g & E & M); [|exact Op'|].
    { pose proof whole_fuel as X. assert (Y : cores <= length (suf cores)).
      { unfold suf. rewrite app_length, map_length, rev_length, seq_length. lia. }
      lia. }
    change (vt VI) with V in *. rewrite E. cbn [shom]. eexists. split; [reflexivity|]. rewrite <- Ek in M. exact M.
  Qed.

  Lemma feasible_ok : 0 < task_number tm -> exists h, feasible tm plt HP whole = Ok h /\
    filters whole (length (suf cores)) h (fun _ => True) (fun c => forall t, (t < n)%N -> passes (HFun (var t) placed) c).
  Proof.
    intros Hn. unfold feasible.
    destruct (rmap_all (fun t => shom (function whole t placed)) (fun t h => h = HFun (var t) placed) (all_tasks tm)) as (hs & Eh & Fh).
    { intros t Ht. eexists. split; [|reflexivity]. rewrite (function_var whole cores t _ part_whole); [reflexivity|].
      apply in_suf_task, in_tasks. revert Ht. apply Permutation_in. now symmetry. }
    change (vt VI) with V in *. rewrite Eh. cbn [rbind].
    assert (Hs : forall h, In h hs <-> exists t, (t < n)%N /\ h = HFun (var t) placed).
    { assert (Ht : forall t, In t (all_tasks tm) <-> (t < n)%N).
      { intros t. rewrite <- in_tasks. split; apply Permutation_in; [symmetry|]; exact Po. }
      assert (X : forall h, In h hs <-> exists t, In t (all_tasks tm) /\ h = HFun (var t) placed).
      { clear - Fh. induction Fh as [|t h ts hs E _ IH]; intros k; cbn [In]; [split; [intros []|intros (t & [] & _)]|]. rewrite IH. split.
        - intros [<-|(u & Hu & ->)]; eauto.
        - intros (u & [<-|Hu] & ->); eauto. }
      intros h. rewrite X. split; intros (t & A & B); exists t; (split; [now apply Ht|auto]). }
    assert (Ne : hs <> []).
    { intros ->. apply (proj2 (Hs (HFun (var 0) placed))). exists 0%N. split; [lia|auto]. }
    assert (Hi : forall h, In h (hset hs) <-> In h hs) by (intros h; apply hset_in).
    assert (Ne' : hset hs <> []).
    { intros X. destruct hs as [|h r]; [auto|]. assert (Y : In h (hset (h :: r))) by (apply Hi; now left). rewrite X in Y. destruct Y. }
    assert (Mk : mk_inter (hset hs) = Ok (built (hset hs))).
    { apply (inter_plain VI N sfun sind HP HPO); auto. intros h Hh. apply Hi, Hs in Hh. destruct Hh as (t & _ & ->). exact Logic.I. }
    change (vt VI) with V in *. rewrite Mk. cbn [shom rbind]. unfold rewrite.
    destruct (rewrite_tests (suf cores) (S (length (o_nodes whole))) whole (hset hs)) as (h' & E & _ & _ & M).
    - apply part_whole.
    - now exists [].
    - apply whole_fuel.
    - auto.
    - intros h Hh. apply Hi, Hs in Hh. destruct Hh as (t & Ht & ->). exists t. split; [now apply in_suf_task|auto].
    - change (vt VI) with V in *. rewrite E. cbn [shom]. eexists. split; [reflexivity|].
      refine (maps_weaken VI PF N sfun sind US whole _ _ _ _ _ _ M _ _); [auto|].
      intros c d _ _. split; intros [-> H]; (split; [auto|]).
      + intros t Ht. apply H, Hi, Hs. eauto.
      + intros h Hh. apply Hi, Hs in Hh. destruct Hh as (t & Ht & ->). auto.
  Qed.

  (** ** The initial state *)

  Lemma builder_list : order_builder task_order cores = b_of_list (suf cores).
  Proof.
    unfold order_builder, suf.
    assert (X : forall (l b : list N), fold_left (fun ob t => b_push (user_id t) BNil ob) l (b_of_list b) = b_of_list (rev l ++ b)).
    { clear. induction l as [|t l IH]; intros b; [reflexivity|]. cbn [fold_left rev]. rewrite <- app_assoc. cbn [app].
      rewrite <- IH, b_of_list_cons. reflexivity. }
    assert (E : fold_left (fun ob t => b_push (user_id t) BNil ob) (rev task_order) BNil = b_of_list task_order).
    { transitivity (b_of_list (rev (rev task_order) ++ [])); [apply (X _ [])|]. now rewrite rev_involutive, app_nil_r. }
    rewrite E. clear E.
    assert (Y : forall l (b : builder N), fold_left (fun ob i => b_push (user_id (core i)) BNil ob) l b =
      fold_left (fun ob t => b_push (user_id t) BNil ob) (map (fun i => core i) l) b).
    { clear. induction l as [|i l IH]; intros b; [reflexivity|]. cbn [fold_left map]. apply IH. }
    rewrite Y, X, map_rev. reflexivity.
  Qed.

  Lemma initial_ok : exists m0, sdd_from_order VI PF N initial_value whole = Ok m0 /\ fits (flat_shape (length (suf cores))) m0 /\
    forall c, has m0 c <-> c = map (val nothing) (suf cores).
  Proof.
    assert (Eo : mk_order N N.eqb (b_of_list (suf cores)) = Ok whole) by (apply (order_of_list N N.eqb N_is_eqb), suf_nodup; auto).
    destruct (C13_from_order VI VL PF N N.eqb N_is_eqb initial_value _ _ Eo (named_of_list N (suf cores))) as (m0 & E & C & D & B & _).
    exists m0. split; [auto|]. split; [split; [now apply (built_canonical VI VL PF PO)|now rewrite shape_of_list in D]|].
    intros c. unfold HomMaps.has. rewrite C, (initial_list N VI).
    assert (Iv : forall u a, v_mem VI (initial_value u) a = true <-> a = val nothing u).
    { intros u a. unfold initial_value, val. destruct (N.testbit u 31).
      - transitivity (In a [(0, 0)%N]); [exact (fset_find_of_list arc_ltb arc_ltb_strict _ a)|]. cbn. intuition.
      - transitivity (In a [epsilon]); [exact (fset_find_of_list arc_ltb arc_ltb_strict _ a)|]. cbn. intuition. }
    assert (K : forall (l : list N) (w : list (elt VI)), Forall2 (fun u a => v_mem VI (initial_value u) a = true) l w <-> w = map (val nothing) l).
    { clear - Iv. induction l as [|u l IH]; intros w; cbn [map].
      - split; [intros H; now inversion H|intros ->; constructor].
      - split.
        + intros H. inversion H as [|? a ? w' M H']; subst. apply IH in H'. subst w'. apply Iv in M. now subst a.
        + intros ->. constructor; [now apply Iv|]. now apply IH. }
    split.
    - intros (w & Ew & H). apply row_inj in Ew. subst w. now apply K.
    - intros ->. exists (map (val nothing) (suf cores)). split; [auto|]. now apply K.
  Qed.

  (** ** The program *)

  Lemma row_state st : state_row task_order cores st = map (val st) (suf cores).
  Proof.
    unfold state_row, suf. rewrite map_app, map_map. f_equal; apply map_ext_in.
    - intros c Hc. apply in_rev, in_seq in Hc. symmetry. apply val_core, core_small. lia.
    - intros t Ht. apply in_tasks in Ht. symmetry. now apply val_task, task_small.
  Qed.

  Lemma rule_good st st' : good st -> program_rule tm cores st st' -> good st' /\ step_any cores cores (map (val st) (suf cores)) (map (val st') (suf cores)).
  Proof.
    intros G (t & c & Ht & Hc & Rd & It & Sc). assert (En : enabled t c st) by (split; auto).
    destruct Sc as (S1 & S2 & S3 & S4).
    assert (Ep : forall u, place (after t c st) u = place st' u).
    { intros u. cbn [SchedulingProofs.after place]. destruct (N.eqb_spec u t) as [->|Nu]; [now rewrite S1|now rewrite S3]. }
    assert (Ec : forall d, clock (after t c st) d = clock st' d).
    { intros d. cbn [SchedulingProofs.after clock]. destruct (N.eqb_spec d c) as [->|Nu]; [now rewrite S2|now rewrite S4]. }
    split.
    - apply (good_ext tm cores (after t c st)); auto. apply (good_after tm cores t c st); auto; apply En. lia.
    - exists t, (N.to_nat c). split; [auto|]. split; [lia|]. exists st. rewrite N2Nat.id. split; [auto|]. split; [auto|]. split; [auto|].
      apply map_ext. intros e. unfold val. now rewrite Ep, Ec.
  Qed.

  Lemma reach_rows x : steps cores cores (map (val nothing) (suf cores)) x <->
    exists st, clos_refl_trans _ (program_rule tm cores) nothing st /\ good st /\ x = map (val st) (suf cores).
  Proof.
    split.
    - intros H. apply clos_rt_rtn1 in H. induction H as [|y z (t & c & Ht & Hc & st' & Ey & G' & En & ->) _ IH].
      + exists nothing. split; [apply rt_refl|]. split; [apply good_nothing|auto].
      + destruct IH as (st & R & G & E). rewrite E in Ey. destruct (same_states cores st st' (le_n _) G G' Ey) as [Sp Sc].
        assert (En' : enabled t (N.of_nat c) st).
        { destruct En as [[E1 E2] E3]. split; [split|].
          - now rewrite Sp.
          - intros u Hu. rewrite Sp; [now apply E2|]. now apply (known_deps W t).
          - intros d Hd. unfold in_time, SchedulingProofs.stop, SchedulingProofs.start. rewrite Sc by lia. now apply E3. }
        exists (after t (N.of_nat c) st). split; [|split; [now apply good_after'|]].
        * eapply rt_trans; [exact R|]. apply rt_step. exists t, (N.of_nat c). split; [auto|]. split; [lia|].
          destruct En' as [X Y]. split; [auto|]. split; [auto|]. apply scheduled_after.
        * apply map_ext_in. intros e He. destruct (in_suf_cores cores e (le_n _) He) as [He'|(d & Hd & ->)].
          -- rewrite !val_task by now apply task_small. cbn [SchedulingProofs.after place].
             unfold SchedulingProofs.start. rewrite Sc by lia. destruct (N.eqb e t); [auto|]. now rewrite Sp.
          -- rewrite !val_core by now apply core_small. cbn [SchedulingProofs.after clock].
             unfold SchedulingProofs.stop, SchedulingProofs.start. rewrite !Sc by lia. reflexivity.
    - intros (st & R & _ & ->). apply clos_rt_rtn1 in R.
      assert (X : good st /\ steps cores cores (map (val nothing) (suf cores)) (map (val st) (suf cores))); [|apply X].
      induction R as [|y z Rl R IH]; [split; [apply good_nothing|apply rt_refl]|]. destruct IH as [G H].
      destruct (rule_good y z G Rl) as [G' S1]. split; [auto|]. eapply rt_trans; [exact H|now apply rt_step].
  Qed.

  Theorem sched_main : 0 < cores -> 0 < task_number tm -> exists o m0 h f, sched_init tm plt PF HP task_order cores = Ok (o, m0, h, f) /\
    exists y z, evals o h m0 y /\ evals o f y z /\ fits (flat_shape (length (suf cores))) z /\
      forall c, has z c <-> exists st, possible tm (program_rule tm cores) st /\ c = state_row task_order cores st.
  Proof.
    intros Hk Hn. destruct (all_ok Hk Hn) as (h & Eh & Mh). destruct (feasible_ok Hn) as (f & Ef & Mf).
    destruct initial_ok as (m0 & Em & Fm & Hm).
    assert (Eo : mk_order N N.eqb (b_of_list (suf cores)) = Ok whole) by (apply (order_of_list N N.eqb N_is_eqb), suf_nodup; auto).
    exists whole, m0, h, f. split.
    { unfold sched_init. rewrite builder_list, Eo. cbn [sorder rbind]. change (vt VI) with V in *. rewrite Em. cbn [sorder rbind].
      rewrite Eh. cbn [rbind]. rewrite Ef. reflexivity. }
    destruct (Mh m0 Fm) as (y & Ey & Fy & Hy).
    { intros c Hc. apply Hm in Hc. subst c. exists nothing. split; [auto|apply good_nothing]. }
    destruct (Mf y Fy (fun _ _ => Logic.I)) as (z & Ez & Fz & Hz).
    exists y, z. split; [auto|]. split; [auto|]. split; [auto|]. intros c. rewrite Hz. split.
    - intros (c0 & Hc0 & <- & Ps). apply Hy in Hc0. destruct Hc0 as (c1 & Hc1 & R). apply Hm in Hc1. subst c1.
      apply reach_rows in R. destruct R as (st & R & G & ->). exists st. split; [|symmetry; apply row_state]. split; [auto|].
      intros t Ht X. specialize (Ps t Ht). apply passes_iff in Ps; [|auto|now apply in_suf_task].
      apply (val_epsilon tm cores W st t G Ht) in X. cbn [test] in Ps. rewrite X in Ps. discriminate Ps.
    - intros (st & (R & Co) & ->). exists (state_row task_order cores st). rewrite row_state.
      assert (G0 : good st).
      { clear Co. apply clos_rt_rtn1 in R. induction R as [|a b Rl R IH]; [apply good_nothing|]. now apply (rule_good a b). }
      split.
      + apply Hy. exists (map (val nothing) (suf cores)). split; [now apply Hm|]. apply reach_rows. exists st. auto.
      + split; [auto|]. intros t Ht. apply passes_iff; [auto|now apply in_suf_task|]. cbn [test]. apply eqb_true_iff.
        apply not_true_is_false. intros E. apply arc_eqb_eq in E.
        apply (Co t Ht).
        now apply (val_epsilon tm cores W st t G0 Ht).
  Qed.

  (** ** Without tasks or without cores *)

  Lemma whole_order : mk_order N N.eqb (order_builder task_order cores) = Ok whole.
  Proof. rewrite builder_list. apply (order_of_list N N.eqb N_is_eqb), suf_nodup. auto. Qed.

  Lemma no_tasks : task_number tm = 0 -> sched_init tm plt PF HP task_order cores = Err (SHom CInvalid).
  Proof.
    intros Hn. unfold sched_init. rewrite whole_order. cbn [sorder rbind]. destruct initial_ok as (m0 & Em & _).
    change (vt VI) with V in *. rewrite Em. cbn [sorder rbind]. unfold all_schedulers, feasible, all_tasks. rewrite Hn. cbn [seq map rmap rbind app].
    assert (Es : mk_sum (hset [HId]) = Ok HId) by (rewrite (sum_plain VI N sfun sind HP HPO); [reflexivity|now intros h [<-|[]]|discriminate]).
    change (vt VI) with V in *. rewrite Es. cbn [shom rbind fixpoint]. unfold rewrite. cbn [Hom.rewrite_fuel].
    destruct (oshape_inv _ _ _ (part_shape _ _ part_whole)) as [[X _]|(X & k & o' & r & (L1 & L2 & on & L3 & _) & _)].
    - rewrite X. reflexivity.
    - rewrite X, L1, L2, L3. reflexivity.
  Qed.

  Lemma no_cores : 0 < task_number tm -> cores = 0 -> sched_init tm plt PF HP task_order cores = Err (SHom CInvalid).
  Proof.
    intros Hn Hk. unfold sched_init. rewrite whole_order. cbn [sorder rbind]. destruct initial_ok as (m0 & Em & _).
    change (vt VI) with V in *. rewrite Em. cbn [sorder rbind].
    assert (X : task_schedulers tm plt HP whole cores 0 = Err (SHom CInvalid)).
    { unfold task_schedulers.
      destruct (rmap_all (fun u => shom (function whole u (FilterConstant epsilon false)))
                (fun u h => True) (dependencies_of tm 0)) as (ds & Ed & _).
      { intros u Hu. rewrite (function_var whole cores u _ part_whole) by (apply in_suf_task, (known_deps W 0); auto; lia). cbn. eauto. }
      change (vt VI) with V in *. rewrite Ed. cbn [rbind]. rewrite (function_var whole cores 0%N _ part_whole) by (apply in_suf_task; lia).
      cbn [shom rbind]. rewrite Hk. reflexivity. }
    unfold all_schedulers, all_tasks. destruct (task_number tm) as [|k]; [lia|]. cbn [seq map rmap].
    change (N.of_nat 0) with 0%N. change (vt VI) with V in *. rewrite X. reflexivity.
  Qed.
End Sched.
