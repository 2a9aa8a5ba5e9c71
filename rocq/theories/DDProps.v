(** * Properties C01-C12: statements

    [values_laws VI]: VI is a proper type of sets of values.  [platform_ok PF]: PF is an arbitrary
    total order of addresses and arbitrary iteration orders of hash maps.
    [built VI PF x]: x was obtained through the constructors and operators of the library. *)

From Coq Require Import List Bool NArith Arith Permutation.
From Verif Require Import Base SortedSets Values Sdd SddFacts DDModel DDProofs Spec DDTheorems DDAlgebra
  FlatSet Bitset Concrete.
Import ListNotations.

(** ** Concrete diagrams used in the examples *)

(** A flat one over variables 1, 0 and a hierarchical one over a hierarchical variable 7. *)
Definition ex_flat (a b : list N) : sdd (vt FS) :=
  node_flat FS PF_up 1 (fs a) (node_flat FS PF_up 0 (fs b) One).
Definition ex_hier (a b c : list N) : sdd (vt FS) :=
  node_hier FS PF_up 7 (ex_flat a b) (node_flat FS PF_up 0 (fs c) One).
Definition ex_shape : shape := SHier 7 (SFlat 1 (SFlat 0 SEnd)) (SFlat 0 SEnd).
Definition ex_x : sdd (vt FS) := ex_hier [0; 1]%N [1; 2]%N [5]%N.
Definition ex_y : sdd (vt FS) := ex_hier [1; 2]%N [2; 3]%N [5; 6]%N.
Definition ex_z : sdd (vt FS) := ex_hier [2]%N [2]%N [5]%N.

Lemma ex_flat_built : forall a b, built FS PF_up (ex_flat a b).
Proof. intros. repeat constructor. Qed.
Lemma ex_hier_built : forall a b c, built FS PF_up (ex_hier a b c).
Proof. intros. repeat constructor. Qed.
Lemma ex_hier_follows : forall a b c, follows ex_shape (ex_hier a b c).
Proof.
  intros. unfold ex_hier, ex_flat, ex_shape.
  repeat (apply node_hier_follows || apply node_flat_follows || constructor).
Qed.

Ltac exs := first [apply ex_hier_built | apply ex_hier_follows | apply ex_flat_built | assumption].

Definition ok_enc (r : res (err (vt FS)) (sdd (vt FS))) : option (list N) :=
  match r with
  | Ok x => Some (enc enc_set x)
  | Err _ => None
  end.

(** ** C01 *)

Theorem C01_canonicity : forall VI (VL : values_laws VI) PF (PO : platform_ok PF) x y,
  built VI PF x -> built VI PF y ->
  (sdd_eqb VI PF x y = true <-> forall p, contains x p = true <-> contains y p = true).
Proof. exact sdd_eq_same. Qed.
Print Assumptions C01_canonicity.

Theorem C01_canonicity_tree : forall VI (VL : values_laws VI) lt, strict_total lt -> forall x y,
  canonical VI lt x -> canonical VI lt y -> (forall p, contains x p = contains y p) -> x = y.
Proof. exact canonicity. Qed.
Print Assumptions C01_canonicity_tree.

(** Two different computations of one non-trivial set are ==. *)
Example C01_ex : exists a b, built FS PF_up a /\ built FS PF_up b /\
  api_plus FS PF_up ex_x ex_y = Ok a /\
  rbind (api_minus FS PF_up ex_x ex_y) (api_plus FS PF_up ex_y) = Ok b /\
  sdd_eqb FS PF_up a b = true /\ sdd_eqb FS PF_up a ex_x = false.
Proof.
  destruct (sum_total FS FS_laws PF_up PF_up_ok ex_shape [ex_x; ex_y]) as (a & Ea & Fa).
  { intros x [<-|[<-|[]]]; split; exs. }
  destruct (minus_total FS FS_laws PF_up PF_up_ok ex_shape ex_x ex_y) as (m & Em & Fm);
    try exs.
  assert (Bm : built FS PF_up m).
  { eapply built_minus; [| |exact Em]; apply ex_hier_built. }
  destruct (sum_total FS FS_laws PF_up PF_up_ok ex_shape [ex_y; m]) as (b & Eb & Fb).
  { intros x [<-|[<-|[]]]; split; exs. }
  exists a, b. split; [|split; [|split; [exact Ea|split; [rewrite Em; exact Eb|]]]].
  - eapply built_sum; [|exact Ea]. intros x [<-|[<-|[]]]; apply ex_hier_built.
  - eapply built_sum; [|exact Eb]. intros x [<-|[<-|[]]]; auto. apply ex_hier_built.
  - pose (test := fun ra rb : res (err (vt FS)) (sdd (vt FS)) => match ra, rb with
      | Ok a, Ok b => sdd_eqb FS PF_up a b && negb (sdd_eqb FS PF_up a ex_x)
      | _, _ => false
      end).
    assert (T : test (api_plus FS PF_up ex_x ex_y)
      (rbind (api_minus FS PF_up ex_x ex_y) (api_plus FS PF_up ex_y)) = true)
      by (vm_compute; reflexivity).
    rewrite Em in T. cbn [rbind] in T. unfold api_plus in T. rewrite Ea, Eb in T. unfold test in T.
    apply andb_true_iff in T. destruct T as [T1 T2]. apply negb_true_iff in T2. auto.
Qed.

(** ** C02-C04 *)

Theorem C02_union : forall VI (VL : values_laws VI) PF (PO : platform_ok PF) l r,
  (forall x, In x l -> built VI PF x) -> api_sum VI PF l = Ok r ->
  forall p, contains r p = true <-> exists x, In x l /\ contains x p = true.
Proof. exact sum_spec. Qed.
Print Assumptions C02_union.

Theorem C03_intersection : forall VI (VL : values_laws VI) PF (PO : platform_ok PF) l r,
  l <> [] -> (forall x, In x l -> built VI PF x) -> api_intersection VI PF l = Ok r ->
  forall p, contains r p = true <-> forall x, In x l -> contains x p = true.
Proof. exact inter_spec. Qed.
Print Assumptions C03_intersection.

Theorem C04_difference : forall VI (VL : values_laws VI) PF (PO : platform_ok PF) x y r,
  built VI PF x -> built VI PF y -> api_minus VI PF x y = Ok r ->
  forall p, contains r p = true <-> contains x p = true /\ contains y p = false.
Proof. exact minus_spec. Qed.
Print Assumptions C04_difference.

(** ** C05 *)

Theorem C05_canonical : forall VI (VL : values_laws VI) PF (PO : platform_ok PF) x,
  built VI PF x -> canonical VI (addr_lt PF) x.
Proof. exact built_canonical. Qed.
Print Assumptions C05_canonical.

(** ** C06 *)

Theorem C06_union_total : forall VI (VL : values_laws VI) PF (PO : platform_ok PF) sh l,
  (forall x, In x l -> built VI PF x /\ follows sh x) ->
  exists r, api_sum VI PF l = Ok r /\ follows sh r.
Proof. exact sum_total. Qed.
Print Assumptions C06_union_total.

Theorem C06_intersection_total : forall VI (VL : values_laws VI) PF (PO : platform_ok PF) sh l,
  (forall x, In x l -> built VI PF x /\ follows sh x) ->
  exists r, api_intersection VI PF l = Ok r /\ follows sh r.
Proof. exact inter_total. Qed.
Print Assumptions C06_intersection_total.

Theorem C06_difference_total : forall VI (VL : values_laws VI) PF (PO : platform_ok PF) sh x y,
  built VI PF x -> built VI PF y -> follows sh x -> follows sh y ->
  exists r, api_minus VI PF x y = Ok r /\ follows sh r.
Proof. exact minus_total. Qed.
Print Assumptions C06_difference_total.

(** The recursion bound of the model is irrelevant: more fuel gives the same outcome. *)
Theorem C06_fuel : forall VI PF n m op, n <= m -> dd_eval VI PF n op <> Err EFuel ->
  dd_eval VI PF m op = dd_eval VI PF n op.
Proof. exact dd_eval_mono. Qed.
Print Assumptions C06_fuel.

(** The hypotheses of C02-C06 are met by [ex_x], [ex_y], [ex_z], and the results are not trivial. *)
Example C06_ex :
  (forall x, In x [ex_x; ex_y; ex_z] -> built FS PF_up x /\ follows ex_shape x) /\
  (exists r, api_sum FS PF_up [ex_x; ex_y; ex_z] = Ok r /\ follows ex_shape r /\ r <> Zero) /\
  (exists r, api_intersection FS PF_up [ex_x; ex_y] = Ok r /\ follows ex_shape r /\ r <> Zero) /\
  (exists r, api_minus FS PF_up ex_x ex_y = Ok r /\ follows ex_shape r /\ r <> Zero).
Proof.
  assert (H : forall x, In x [ex_x; ex_y; ex_z] -> built FS PF_up x /\ follows ex_shape x).
  { intros x [<-|[<-|[<-|[]]]]; split; exs. }
  split; [exact H|split; [|split]].
  - destruct (C06_union_total FS FS_laws PF_up PF_up_ok ex_shape _ H) as (r & E & F).
    exists r. split; [auto|split; [auto|]]. intros ->.
    assert (X : ok_enc (api_sum FS PF_up [ex_x; ex_y; ex_z]) = Some [0%N]) by now rewrite E.
    vm_compute in X. discriminate.
  - destruct (C06_intersection_total FS FS_laws PF_up PF_up_ok ex_shape [ex_x; ex_y]) as (r & E & F).
    { intros x Hx. apply H. simpl in *. tauto. }
    exists r. split; [auto|split; [auto|]]. intros ->.
    assert (X : ok_enc (api_intersection FS PF_up [ex_x; ex_y]) = Some [0%N]) by now rewrite E.
    vm_compute in X. discriminate.
  - destruct (C06_difference_total FS FS_laws PF_up PF_up_ok ex_shape ex_x ex_y) as (r & E & F);
      try apply H; simpl; auto.
    exists r. split; [auto|split; [auto|]]. intros ->.
    assert (X : ok_enc (api_minus FS PF_up ex_x ex_y) = Some [0%N]) by now rewrite E.
    vm_compute in X. discriminate.
Qed.

(** ** C07 *)

Theorem C07_union_errors : forall VI (VL : values_laws VI) PF (PO : platform_ok PF) l e,
  (forall x, In x l -> built VI PF x) -> api_sum VI PF l = Err e ->
  exists a b, e = ETop a b /\ incompatible a b.
Proof. exact sum_err. Qed.
Print Assumptions C07_union_errors.
Theorem C07_intersection_errors : forall VI (VL : values_laws VI) PF (PO : platform_ok PF) l e,
  (forall x, In x l -> built VI PF x) -> api_intersection VI PF l = Err e ->
  exists a b, e = ETop a b /\ incompatible a b.
Proof. exact inter_err. Qed.
Print Assumptions C07_intersection_errors.
Theorem C07_difference_errors : forall VI (VL : values_laws VI) PF (PO : platform_ok PF) x y e,
  built VI PF x -> built VI PF y -> api_minus VI PF x y = Err e ->
  exists a b, e = ETop a b /\ incompatible a b.
Proof. exact minus_err. Qed.
Print Assumptions C07_difference_errors.

(** Any union, and any binary intersection or difference, with two operands whose heads are
    incompatible throws top. *)
Theorem C07_union_throws : forall VI (VL : values_laws VI) PF (PO : platform_ok PF) x y l,
  built VI PF x -> built VI PF y -> incompatible x y ->
  (forall z, In z l -> built VI PF z) -> In x l -> In y l ->
  exists a b, api_sum VI PF l = Err (ETop a b).
Proof. exact sum_incompatible. Qed.
Print Assumptions C07_union_throws.
Theorem C07_intersection_throws : forall VI PF (PO : platform_ok PF) x y, incompatible x y ->
  exists a b, api_and VI PF x y = Err (ETop a b).
Proof. exact and_incompatible. Qed.
Print Assumptions C07_intersection_throws.
Theorem C07_difference_throws : forall VI PF (PO : platform_ok PF) x y, incompatible x y ->
  exists a b, api_minus VI PF x y = Err (ETop a b).
Proof. exact minus_incompatible. Qed.
Print Assumptions C07_difference_throws.

Example C07_ex : incompatible (VI := FS) ex_x (ex_flat [1]%N [2]%N) /\
  incompatible (VI := FS) (ex_flat [1]%N [2]%N) One /\ incompatible (VI := FS) (node_flat FS PF_up 3 (fs [1]%N) One) (ex_flat [1]%N [2]%N).
Proof. vm_compute. repeat split. discriminate. Qed.

(** ** C08 *)

(** All identities of the algebra of sets. *)
Theorem C08_set_algebra : forall VI (VL : values_laws VI) PF (PO : platform_ok PF) sh env,
  (forall i, built VI PF (env i) /\ follows sh (env i)) ->
  forall e1 e2, (forall b, sexp_bool b e1 = sexp_bool b e2) ->
  exists r, sexp_eval VI PF env e1 = Ok r /\ sexp_eval VI PF env e2 = Ok r.
Proof. exact sexp_agree. Qed.
Print Assumptions C08_set_algebra.

(** The identities listed in C08 are instances. *)
Notation "a '+s' b" := (SPlus a b) (at level 50, left associativity).
Notation "a '-s' b" := (SMinus a b) (at level 50, left associativity).
Notation "a '&s' b" := (SAnd a b) (at level 40, left associativity).
Definition C08_identities : list (sexp * sexp) :=
  let x := SVar 0 in let y := SVar 1 in let z := SVar 2 in
  [ (x +s y, y +s x); (x &s y, y &s x);
    (x +s (y +s z), x +s y +s z); (x &s (y &s z), x &s y &s z);
    (x +s x, x); (x &s x, x);
    (x &s (y +s z), (x &s y) +s (x &s z)); (x +s (y &s z), (x +s y) &s (x +s z));
    (x +s (x &s y), x); (x &s (x +s y), x);
    (x +s SZero, x); (x &s SZero, SZero); (x -s x, SZero); (x -s SZero, x); (SZero -s x, SZero);
    (x -s (y +s z), x -s y -s z); (x -s (y +s z), (x -s y) &s (x -s z));
    ((x &s y) +s (x -s y), x); ((x -s y) &s y, SZero) ].
Theorem C08_identities_hold : forall VI (VL : values_laws VI) PF (PO : platform_ok PF) sh x y z,
  built VI PF x -> built VI PF y -> built VI PF z -> follows sh x -> follows sh y -> follows sh z ->
  forall e1 e2, In (e1, e2) C08_identities ->
  let env := fun i => match i with 0 => x | 1 => y | _ => z end in
  exists r, sexp_eval VI PF env e1 = Ok r /\ sexp_eval VI PF env e2 = Ok r.
Proof.
  intros VI VL PF PO sh x y z Bx By Bz Fx Fy Fz e1 e2 Hin env.
  apply (C08_set_algebra VI VL PF PO sh).
  - intros [|[|i]]; simpl; auto.
  - intros b. simpl in Hin.
    repeat (destruct Hin as [Hin|Hin];
      [injection Hin as <- <-; cbn; destruct (b 0), (b 1), (b 2); reflexivity|]).
    destruct Hin.
Qed.
Print Assumptions C08_identities_hold.

(** ** C09 *)

Theorem C09_union : forall VI (VL : values_laws VI) PF1 PF2 (PO1 : platform_ok PF1)
    (PO2 : platform_ok PF2) sh l1 l2,
  (forall x, In x l1 -> built VI PF1 x /\ follows sh x) ->
  (forall x, In x l2 -> built VI PF2 x /\ follows sh x) ->
  Forall2 same_set l1 l2 ->
  exists r1 r2, api_sum VI PF1 l1 = Ok r1 /\ api_sum VI PF2 l2 = Ok r2 /\
    same_set r1 r2 /\ sim r1 r2.
Proof. exact sum_platform. Qed.
Print Assumptions C09_union.
Theorem C09_intersection : forall VI (VL : values_laws VI) PF1 PF2 (PO1 : platform_ok PF1)
    (PO2 : platform_ok PF2) sh l1 l2, l1 <> [] ->
  (forall x, In x l1 -> built VI PF1 x /\ follows sh x) ->
  (forall x, In x l2 -> built VI PF2 x /\ follows sh x) ->
  Forall2 same_set l1 l2 ->
  exists r1 r2, api_intersection VI PF1 l1 = Ok r1 /\ api_intersection VI PF2 l2 = Ok r2 /\
    same_set r1 r2 /\ sim r1 r2.
Proof. exact inter_platform. Qed.
Print Assumptions C09_intersection.
Theorem C09_difference : forall VI (VL : values_laws VI) PF1 PF2 (PO1 : platform_ok PF1)
    (PO2 : platform_ok PF2) sh x1 y1 x2 y2,
  built VI PF1 x1 -> built VI PF1 y1 -> built VI PF2 x2 -> built VI PF2 y2 ->
  follows sh x1 -> follows sh y1 -> follows sh x2 -> follows sh y2 ->
  same_set x1 x2 -> same_set y1 y2 ->
  exists r1 r2, api_minus VI PF1 x1 y1 = Ok r1 /\ api_minus VI PF2 x2 y2 = Ok r2 /\
    same_set r1 r2 /\ sim r1 r2.
Proof. exact minus_platform. Qed.
Print Assumptions C09_difference.

(** On the two platforms of Concrete.v the union below has its arcs in different orders. *)
Definition ex_down_flat (a b : list N) : sdd (vt FS) :=
  node_flat FS PF_down 1 (fs a) (node_flat FS PF_down 0 (fs b) One).
Example C09_ex :
  let l1 := [ex_flat [0]%N [1; 2]%N; ex_flat [0; 1]%N [2; 3]%N] in
  let l2 := [ex_down_flat [0]%N [1; 2]%N; ex_down_flat [0; 1]%N [2; 3]%N] in
  Forall2 (same_set (VI := FS)) l1 l2 /\
  (forall x, In x l1 -> built FS PF_up x /\ follows (SFlat 1 (SFlat 0 SEnd)) x) /\
  (forall x, In x l2 -> built FS PF_down x /\ follows (SFlat 1 (SFlat 0 SEnd)) x) /\
  ok_enc (api_sum FS PF_up l1) <> ok_enc (api_sum FS PF_down l2).
Proof.
  cbv zeta. split; [|split; [|split]].
  - repeat constructor; auto.
  - intros x [<-|[<-|[]]]; (split; [repeat constructor|]);
      repeat (apply node_flat_follows || constructor).
  - intros x [<-|[<-|[]]]; (split; [repeat constructor|]);
      repeat (apply node_flat_follows || constructor).
  - vm_compute. discriminate.
Qed.

(** ** C10 *)

(** The outcome (result or exception) of a union depends only on the set of non-empty operands:
    order, duplicates and |0| operands are irrelevant.  No compatibility is required. *)
Theorem C10_union_set : forall VI PF (PO : platform_ok PF) l m,
  (forall x, x <> Zero -> (In x l <-> In x m)) -> api_sum VI PF l = api_sum VI PF m.
Proof. exact sum_set. Qed.
Print Assumptions C10_union_set.
Theorem C10_intersection_set : forall VI PF (PO : platform_ok PF) l m,
  ~ In Zero l -> ~ In Zero m -> (forall x, In x l <-> In x m) ->
  api_intersection VI PF l = api_intersection VI PF m.
Proof. exact inter_set. Qed.
Print Assumptions C10_intersection_set.
Theorem C10_union_group : forall VI (VL : values_laws VI) PF (PO : platform_ok PF) sh l1 l2,
  (forall x, In x (l1 ++ l2) -> built VI PF x /\ follows sh x) ->
  agree (api_sum VI PF (l1 ++ l2))
    (rbind (api_sum VI PF l1) (fun a => rbind (api_sum VI PF l2) (fun b => api_plus VI PF a b))).
Proof. exact sum_group. Qed.
Print Assumptions C10_union_group.
Theorem C10_intersection_group : forall VI (VL : values_laws VI) PF (PO : platform_ok PF) sh l1 l2,
  l1 <> [] -> l2 <> [] -> (forall x, In x (l1 ++ l2) -> built VI PF x /\ follows sh x) ->
  agree (api_intersection VI PF (l1 ++ l2))
    (rbind (api_intersection VI PF l1) (fun a =>
     rbind (api_intersection VI PF l2) (fun b => api_and VI PF a b))).
Proof. exact inter_group. Qed.
Print Assumptions C10_intersection_group.
Theorem C10_units : forall VI PF (PO : platform_ok PF),
  api_sum VI PF [] = Ok Zero /\
  (forall x, api_sum VI PF [x] = Ok x) /\
  (forall x, api_intersection VI PF [x] = Ok x) /\
  (forall l, In Zero l -> api_intersection VI PF l = Ok Zero).
Proof.
  intros VI PF PO. split; [apply sum_nil|split; [apply sum_single|split; [apply inter_single|]]].
  now apply inter_zero.
Qed.
Print Assumptions C10_units.

Example C10_ex : agree (api_sum FS PF_up ([ex_x; ex_y] ++ [ex_z; ex_x]))
    (rbind (api_sum FS PF_up [ex_x; ex_y])
      (fun a => rbind (api_sum FS PF_up [ex_z; ex_x]) (fun b => api_plus FS PF_up a b))) /\
  api_sum FS PF_up [ex_x; ex_y; Zero; ex_x] = api_sum FS PF_up [ex_y; ex_x].
Proof.
  split.
  - apply (C10_union_group FS FS_laws PF_up PF_up_ok ex_shape).
    intros x Hx. simpl in Hx.
    repeat (destruct Hx as [<-|Hx]; [split; exs|]). destruct Hx.
  - apply (C10_union_set FS PF_up PF_up_ok). intros x Hx. simpl. intuition.
Qed.

(** ** C11: refuted *)

(** Three operands; on one platform the intersection is |0|, on the other it throws. *)
Theorem C11_intersection_throw_depends_on_addresses_refuted :
  exists (PF1 PF2 : platform FS) (x y z : sdd (vt FS)),
    platform_ok PF1 /\ platform_ok PF2 /\
    (forall t, In t [x; y; z] -> built FS PF1 t /\ built FS PF2 t) /\
    (exists r, api_intersection FS PF1 [x; y; z] = Ok r) /\
    (exists e, api_intersection FS PF2 [x; y; z] = Err e).
Proof.
  exists PF_up, PF_down, (node_flat FS PF_up 0 (fs [0]%N) One), (node_flat FS PF_up 0 (fs [1]%N) One),
    (node_flat FS PF_up 1 (fs [1]%N) One).
  split; [exact PF_up_ok|split; [exact PF_down_ok|split; [|split]]].
  - intros t Hin. simpl in Hin.
    repeat (destruct Hin as [<-|Hin]; [split; [|change PF_up with PF_up; fold (node_flat FS PF_down)];
      repeat constructor|]); try destruct Hin.
    + change (built FS PF_down (node_flat FS PF_down 0 (fs [0%N]) One)). repeat constructor.
    + change (built FS PF_down (node_flat FS PF_down 0 (fs [1%N]) One)). repeat constructor.
    + change (built FS PF_down (node_flat FS PF_down 1 (fs [1%N]) One)). repeat constructor.
  - vm_compute. eauto.
  - vm_compute. eauto.
Qed.
Print Assumptions C11_intersection_throw_depends_on_addresses_refuted.

(** ** C12 *)

Theorem C12_flat_constructor : forall VI (VL : values_laws VI) PF x v s p,
  contains (node_flat VI PF x v s) p = true <->
  exists a q, p = AVal x a q /\ v_mem VI v a = true /\ contains s q = true.
Proof. exact node_flat_contains. Qed.
Print Assumptions C12_flat_constructor.
Theorem C12_hierarchical_constructor : forall VI PF x v s p,
  contains (node_hier VI PF x v s) p = true <->
  exists n q, p = ANest x n q /\ contains v n = true /\ contains s q = true.
Proof. exact node_hier_contains. Qed.
Print Assumptions C12_hierarchical_constructor.
Theorem C12_flat_zero : forall VI PF x v s,
  node_flat VI PF x v s = Zero <-> v_empty VI v = true \/ s = Zero.
Proof. exact node_flat_zero. Qed.
Print Assumptions C12_flat_zero.
Theorem C12_hierarchical_zero : forall VI PF x v s,
  node_hier VI PF x v s = Zero <-> v = Zero \/ s = Zero.
Proof. exact node_hier_zero. Qed.
Print Assumptions C12_hierarchical_zero.
Theorem C12_empty : forall VI (VL : values_laws VI) PF (PO : platform_ok PF) x,
  built VI PF x -> (is_zero VI x = true <-> forall p, contains x p = false).
Proof. exact empty_iff. Qed.
Print Assumptions C12_empty.
Example C12_ex : contains (VI := FS) ex_x (ANest 7 (AVal 1 0%N (AVal 0 2%N ANil)) (AVal 0 5%N ANil)) = true /\
  node_flat FS PF_up 3 (fs []) One = Zero.
Proof. vm_compute. auto. Qed.
