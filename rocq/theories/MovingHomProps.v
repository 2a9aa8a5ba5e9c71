(** * Property C09 for homomorphisms when addresses change during their evaluation: statements

    [oracle_ok O]: each time the library goes through the arcs of a node, through a container ordered by addresses, or through a
    hash map, O gives the elements in an arbitrary order; the orders of two visits are unrelated.  [moving_apply … O … n fuel o h x]
    is the evaluation of h(o, x) under O, with at most n iterations in the loops of fixpoints and recursion bounded by fuel. *)

From Coq Require Import List Bool NArith Arith Permutation Lia.
From Verif Require Import Base SortedSets Values Sdd SddFacts Orders DDModel DDProofs DDTheorems FlatSet Bitset Concrete DDProps
  Hom HomFacts HomEval HomTyped HomConcrete HomProps Moving MovingProofs MovingProps MovingHom MovingHomProofs.
Import ListNotations.

(** Whatever the orders of visit, the application of a well-typed homomorphism never fails; it ends if and only if it ends with
    addresses that do not change, and then returns the same object. *)
Theorem C09_moving_homomorphism : forall VI (VL : values_laws VI) PF (PO : platform_ok PF) O (OO : oracle_ok O)
    U F I (US : user (vt VI) U F I) (HO : honest VI PF U F I US) o h s s' x,
  typed VI PF U F I US o h s' -> oshape U o s -> fits VI PF s x ->
  (forall n fuel e, moving_apply VI PF O U F I US n fuel o h x = Err e -> e = EFuel) /\
  (forall y, (exists n fuel, moving_apply VI PF O U F I US n fuel o h x = Ok y) <-> evals VI PF U F I US o h x y).
Proof.
  intros VI VL PF PO O OO U F I US HO o h s s' x T Os Fx. split.
  - intros n fuel e E. rewrite (moving_apply_eq VI VL PF PO O OO U F I US HO n fuel o h s s' x T Os Fx) in E.
    destruct (happly_safe VI VL PF PO U F I US HO o h s s' x n fuel T Os Fx) as [[y E']|E']; congruence.
  - intros y. split; intros (n & fuel & E); exists n, fuel.
    + now rewrite <- (moving_apply_eq VI VL PF PO O OO U F I US HO n fuel o h s s' x T Os Fx).
    + now rewrite (moving_apply_eq VI VL PF PO O OO U F I US HO n fuel o h s s' x T Os Fx).
Qed.
Print Assumptions C09_moving_homomorphism.

(** Two evaluations, under two unrelated families of orders, do as many iterations and return the same object. *)
Theorem C09_moving_homomorphism_any_orders : forall VI (VL : values_laws VI) PF (PO : platform_ok PF) O1 (OO1 : oracle_ok O1)
    O2 (OO2 : oracle_ok O2) U F I (US : user (vt VI) U F I) (HO : honest VI PF U F I US) o h s s' x n fuel,
  typed VI PF U F I US o h s' -> oshape U o s -> fits VI PF s x ->
  moving_apply VI PF O1 U F I US n fuel o h x = moving_apply VI PF O2 U F I US n fuel o h x.
Proof.
  intros VI VL PF PO O1 OO1 O2 OO2 U F I US HO o h s s' x n fuel T Os Fx.
  rewrite (moving_apply_eq VI VL PF PO O1 OO1 U F I US HO n fuel o h s s' x T Os Fx).
  now rewrite (moving_apply_eq VI VL PF PO O2 OO2 U F I US HO n fuel o h s s' x T Os Fx).
Qed.
Print Assumptions C09_moving_homomorphism_any_orders.

(** The least fixpoint of the identity, of 0 -> 1, 1 -> 2 in "3", of 0 -> 3 in "1" and of a selection in "4", on two paths. *)
Definition ex_moving_hom : exhom :=
  HFix (HSum [HId; HLocal 1 (HFun 1 (Fmap [(0, 1); (1, 2)]%N)); HFun 2 (Fmap [(0, 3)]%N); HLocal 1 (HFun 0 (Fkeep [5%N]))]).
Definition moving_enc (O : oracle) : option (list N) :=
  ok_enc (moving_apply FS PF_up O nat exfun exind ex_user 8 20 exo ex_moving_hom ex_two).
Example C09_moving_homomorphism_ex :
  ex_typed ex_moving_hom exs /\ oshape nat exo exs /\ fits FS PF_up exs ex_two /\ oracle_ok ex_oracle /\
  honest FS PF_up nat exfun exind ex_user /\
  moving_enc ex_oracle <> None /\ moving_enc ex_oracle <> Some (enc enc_set ex_two) /\
  moving_enc ex_oracle = moving_enc (fun _ _ l => l).
Proof.
  split; [unfold exs; ty|]. split; [exact exo_shape|]. split; [exact ex_two_fits|].
  split; [exact ex_oracle_ok|]. split; [exact ex_honest|].
  split; [vm_compute; discriminate|]. split; [vm_compute; discriminate|]. vm_compute. reflexivity.
Qed.
