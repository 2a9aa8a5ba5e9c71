(** * The example program examples/scheduling

    Simplifications: the model of the tasks is a parameter of the program (it is drawn at random in
    TaskModelGenerator.hpp), as the number of cores is; the field criticality of the tasks, the scaling factors of the
    cores (ArchModel.hpp), the measure of time and the count of the nodes are not modelled; the numbers of the tasks and
    of the cores are unbounded, times are integers of 32 bits. *)

From Coq Require Import List Bool NArith Arith Lia.
From Verif Require Import Base SortedSets Values Sdd Orders OrdersSdd DDModel FlatSet Hom Count.
Import ListNotations.

(** Integers of 32 bits. *)
Definition uint32 (n : N) : N := (n mod 2 ^ 32)%N.

(** Arc: a core and a time, examples/scheduling/Config.hpp 13-43. *)
Notation arc := (N * N)%type.
Definition arc_eqb (a b : arc) : bool := N.eqb (fst a) (fst b) && N.eqb (snd a) (snd b).
Definition arc_ltb (a b : arc) : bool := N.ltb (fst a) (fst b) || (N.eqb (fst a) (fst b) && N.ltb (snd a) (snd b)).
Definition epsilon : arc := ((2 ^ 32 - 1)%N, 0%N).

Lemma arc_ltb_spec a b : arc_ltb a b = true <-> (fst a < fst b \/ fst a = fst b /\ snd a < snd b)%N.
Proof. unfold arc_ltb. rewrite orb_true_iff, andb_true_iff, N.eqb_eq, !N.ltb_lt. reflexivity. Qed.

Lemma arc_ltb_strict : strict_total arc_ltb.
Proof.
  split.
  - intros a. apply not_true_is_false. rewrite arc_ltb_spec. lia.
  - intros a b c. rewrite !arc_ltb_spec. lia.
  - intros [a1 a2] [b1 b2] H1 H2. assert (X : ~ (a1 < b1 \/ a1 = b1 /\ a2 < b2)%N).
    { intros X. apply (arc_ltb_spec (a1, a2) (b1, b2)) in X. congruence. }
    assert (Y : ~ (b1 < a1 \/ b1 = a1 /\ b2 < a2)%N).
    { intros Y. apply (arc_ltb_spec (b1, b2) (a1, a2)) in Y. congruence. }
    f_equal; lia.
Qed.

(** TaskModel, examples/scheduling/TaskModel.hpp 15-127: what a task is, and the tasks that a task depends on. The
    vectors _tasks and _dependencies have the same length. *)
Record task : Type := { release : N; wcet : N; deadline : N }.
Record task_model : Type := { tasks : list (task * list N) }.
Definition no_task : task := {| release := 0; wcet := 0; deadline := 0 |}.
Definition task_number (tm : task_model) : nat := length (tasks tm).
Definition task_of (tm : task_model) (t : N) : task := fst (nth (N.to_nat t) (tasks tm) (no_task, [])).
Definition dependencies_of (tm : task_model) (t : N) : list N := snd (nth (N.to_nat t) (tasks tm) (no_task, [])).

(** ets and eta, examples/scheduling/TaskModel.hpp 44-52. *)
Definition ets (tm : task_model) (t tau : N) : N := N.max tau (release (task_of tm t)).
Definition eta (tm : task_model) (t tau : N) : N := uint32 (ets tm t tau + wcet (task_of tm t)).

(** ** build_order, examples/scheduling/TaskModel.hpp 54-99 *)

(** [TReadErased]: the element of an erased iterator is read, line 75. [TFuel]: the bound of the model is reached. *)
Inductive terr : Type := TReadErased | TFuel.

Section BuildOrder.
  Variable tm : task_model.
  (** The order in which a std::unordered_set<uint32_t> is iterated. *)
  Variable it : list N -> list N.
  (** Is the element of an erased iterator still readable? In a node of std::unordered_set, it is not. *)
  Variable lenient : bool.

  (** Lines 62-68. *)
  Definition all_tasks : list N := map N.of_nat (seq 0 (task_number tm)).
  Definition has_deps (t : N) : bool := match dependencies_of tm t with [] => false | _ => true end.

  (** The loop of lines 79-95 on the tasks of [l], from the set [free]: the new set [free] and the tasks that stay in
      dependent_tasks. *)
  Fixpoint release_tasks (free l : list N) : list N * list N :=
    match l with
    | [] => (free, [])
    | t :: r =>
      if existsb (fun u => existsb (N.eqb u) free) (dependencies_of tm t)
      then let '(free, kept) := release_tasks free r in (free, t :: kept)
      else release_tasks (t :: free) r
    end.

  (** The loop of lines 71-96. *)
  Fixpoint order_loop (fuel : nat) (free dependent : list N) : res terr (list N) :=
    match fuel with
    | 0 => Err TFuel
    | S fuel =>
      match it free with
      | [] => Ok []
      | next :: _ =>
        if lenient then
          let free := remove N.eq_dec next free in
          let '(free, dependent) := release_tasks free (it dependent) in
          rbind (order_loop fuel free dependent) (fun rv => Ok (next :: rv))
        else Err TReadErased
      end
    end.

  Definition build_order : res terr (list N) :=
    order_loop (S (task_number tm)) (filter (fun t => negb (has_deps t)) all_tasks) (filter has_deps all_tasks).
End BuildOrder.

(** ** The homomorphisms *)

(** filter_constant, filter_constraints and schedule_tau, examples/scheduling/Filters.hpp 23-28 and 60-63,
    examples/scheduling/Schedulers.hpp 26-30. *)
Inductive sfun : Type :=
| FilterConstant (constant : arc) (keep : bool)
| FilterConstraints (t : N)
| ScheduleTau (t core tau : N).

(** schedule, examples/scheduling/Schedulers.hpp 56-60. *)
Inductive sind : Type := Schedule (t core : N).

(** The identifier of a core: "c | (1 << 31)". *)
Definition core_id (c : N) : N := N.lor c (2 ^ 31).

Section Scheduling.
  Variable tm : task_model.
  (** flat_set<Arc> (examples/scheduling/Config.hpp 59-67) and the addresses of sets. *)
  Variable plt : fset arc_ltb -> fset arc_ltb -> bool.
  Notation VI := (flat_set_values arc_ltb arc_ltb_strict plt).
  Notation V := (fset arc_ltb).
  Notation set := (fset_of_list arc_ltb arc_ltb_strict).
  Variable PF : platform VI.
  Notation sdd := (sdd V).
  Notation order := (order N).
  Notation hom := (hom V N sfun sind).
  Variable HP : hplatform V N sfun sind.
  Notation function := (function VI N sfun sind N.eqb).

  (** operator()(Values): filter_constant, examples/scheduling/Filters.hpp 29-45; filter_constraints, 64-81;
      schedule_tau, examples/scheduling/Schedulers.hpp 31-41. *)
  Definition on_set (f : sfun) (val : V) : V :=
    match f with
    | FilterConstant constant keep => set (filter (fun x => Bool.eqb (arc_eqb x constant) keep) (proj1_sig val))
    | FilterConstraints t => set (filter (fun x => (eta tm t (snd x) <=? deadline (task_of tm t))%N) (proj1_sig val))
    | ScheduleTau _ core tau => set (map (fun _ => (core, tau)) (proj1_sig val))
    end.

  (** operator()(order, Values) of schedule, examples/scheduling/Schedulers.hpp 72-87. "*val.begin()" is the first
      element; the set is not empty, as it is on an arc. The exception of an unknown task would go through the
      evaluation; the tasks are in the order (see [function_at] in SchedulingProofs.v), so it is an arbitrary result. *)
  Definition on_values (i : sind) (o : order) (val : V) : hom :=
    match i, proj1_sig val with
    | Schedule t core, a :: _ =>
      match function o t (ScheduleTau t core (ets tm t (snd a))) with
      | Ok h => HConsF o (set [(fst a, eta tm t (snd a))]) h
      | Err _ => HConst Zero
      end
    | Schedule _ _, [] => HConst Zero
    end.

  (** The members selector: examples/scheduling/Filters.hpp 47-49 and 83-85, examples/scheduling/Schedulers.hpp 43-45;
      skip, Schedulers.hpp 61-64; operator()(), 89-91; operator()(order, SDD), which is not reachable, 66-70. *)
  Definition sched_user : user V N sfun sind := {|
    f_apply := on_set;
    f_sel := fun _ => true;
    f_shift := fun _ => false;
    i_skip := fun i id => match i with Schedule _ core => negb (N.eqb (usr id) (core_id core)) end;
    i_sel := fun _ => false;
    i_flat := on_values;
    i_hier := fun _ _ _ => HConst Zero;
    i_one := fun _ => Zero
  |}.

  (** ** main *)

  (** The order, examples/scheduling/scheduling.cpp 50-60. *)
  Definition order_builder (task_order : list N) (cores : nat) : builder N :=
    fold_left (fun ob i => b_push (user_id (core_id (N.of_nat i))) BNil ob) (seq 0 cores)
      (fold_left (fun ob t => b_push (user_id t) BNil ob) (rev task_order) BNil).

  (** The initial state, examples/scheduling/scheduling.cpp 63-71. *)
  Definition initial_value (e : N) : V := if N.testbit e 31 then set [(0, 0)%N] else set [epsilon].

  (** The failures of the program. *)
  Inductive serr : Type :=
  | SOrder (e : oerr N)
  | SHom (e : cerr N).
  Definition sorder {T} (r : res (oerr N) T) : res serr T := match r with Ok x => Ok x | Err e => Err (SOrder e) end.
  Definition shom {T} (r : res (cerr N) T) : res serr T := match r with Ok x => Ok x | Err e => Err (SHom e) end.

  Fixpoint rmap {A B : Type} (f : A -> res serr B) (l : list A) : res serr (list B) :=
    match l with
    | [] => Ok []
    | a :: r => rbind (f a) (fun b => rbind (rmap f r) (fun bs => Ok (b :: bs)))
    end.

  Notation hset := (hset VI N sfun sind HP).

  (** The loop on the cores, examples/scheduling/scheduling.cpp 89-102. [filters_set] is not cleared from a core to
      the next one. The result: the insertions in t_schedulers_set. *)
  Fixpoint core_loop (o : order) (t : N) (filters_set : list hom) (cores : list nat) : res serr (list hom) :=
    match cores with
    | [] => Ok []
    | c :: r =>
      rbind (shom (function o (core_id (N.of_nat c)) (FilterConstraints t))) (fun f =>
      let filters_set := filters_set ++ [f] in
      rbind (shom (mk_inter VI N sfun sind HP (hset filters_set))) (fun filters =>
      rbind (shom (composition VI N sfun sind (HInd (Schedule t (N.of_nat c))) filters)) (fun h =>
      rbind (core_loop o t filters_set r) (fun hs => Ok (h :: hs)))))
    end.

  (** The schedulers of a task, examples/scheduling/scheduling.cpp 77-106. *)
  Definition task_schedulers (o : order) (cores : nat) (t : N) : res serr hom :=
    rbind (rmap (fun u => shom (function o u (FilterConstant epsilon false))) (dependencies_of tm t)) (fun deps =>
    rbind (shom (function o t (FilterConstant epsilon true))) (fun unassigned =>
    rbind (core_loop o t (deps ++ [unassigned]) (seq 0 cores)) (fun hs =>
    shom (mk_sum VI N sfun sind HP (hset hs))))).

  (** The homomorphism all_schedulers, examples/scheduling/scheduling.cpp 73-113. *)
  Definition all_schedulers (o : order) (cores : nat) : res serr hom :=
    rbind (rmap (task_schedulers o cores) (all_tasks tm)) (fun hs =>
    rbind (shom (mk_sum VI N sfun sind HP (hset (hs ++ [HId])))) (fun h =>
    shom (rewrite VI N sfun sind HP sched_user o (fixpoint VI N sfun sind h)))).

  (** The homomorphism feasible, examples/scheduling/scheduling.cpp 123-128. *)
  Definition feasible (o : order) : res serr hom :=
    rbind (rmap (fun t => shom (function o t (FilterConstant epsilon false))) (all_tasks tm)) (fun hs =>
    rbind (shom (mk_inter VI N sfun sind HP (hset hs))) (fun h =>
    shom (rewrite VI N sfun sind HP sched_user o h))).

  (** main up to the applications of the homomorphisms, which are built before: [feasible] does not depend on the
      first application. *)
  Definition sched_init (task_order : list N) (cores : nat) : res serr (order * sdd * hom * hom) :=
    rbind (sorder (mk_order N N.eqb (order_builder task_order cores))) (fun o =>
    rbind (sorder (sdd_from_order VI PF N initial_value o)) (fun m0 =>
    rbind (all_schedulers o cores) (fun h =>
    rbind (feasible o) (fun f => Ok (o, m0, h, f))))).

  (** With the order [task_order] of the tasks, the program ends with the schedulings [final] and prints the number
      [printed], examples/scheduling/scheduling.cpp 119, 129 and 134. *)
  Definition sched_runs (task_order : list N) (cores : nat) (final : sdd) (printed : option N) : Prop :=
    exists o m0 h f schedulings, sched_init task_order cores = Ok (o, m0, h, f)
      /\ evals VI PF N sfun sind sched_user o h m0 schedulings
      /\ evals VI PF N sfun sind sched_user o f schedulings final
      /\ printed = size VI PF final.
End Scheduling.
