(** * Property C09 when addresses change during an operation: statements

    [oracle_ok O]: each time the library goes through a container ordered by addresses, or through a hash map, O gives the
    elements of this container in an arbitrary order; the orders of two visits are unrelated. *)

From Coq Require Import List Bool NArith Arith Permutation Lia.
From Verif Require Import Base SortedSets Values Sdd SddFacts DDModel DDProofs Spec DDTheorems DDAlgebra FlatSet Bitset Concrete
  DDProps Moving MovingProofs.
Import ListNotations.

(** Whatever the orders of visit, operations on compatible operands return the right set, and return one and the same
    object: the one computed in DDModel.v with addresses that do not change. *)
Theorem C09_moving_union : forall VI (VL : values_laws VI) PF (PO : platform_ok PF) O (OO : oracle_ok O) sh l,
  (forall x, In x l -> built VI PF x /\ follows sh x) ->
  exists r, moving_sum VI PF O l = Ok r /\ api_sum VI PF l = Ok r /\
    forall p, contains r p = true <-> exists x, In x l /\ contains x p = true.
Proof.
  intros VI VL PF PO O OO sh l H.
  assert (HC : forall x, In x l -> canonical VI (addr_lt PF) x /\ follows sh x).
  { intros x Hx. destruct (H x Hx). split; auto. now apply (built_canonical VI VL PF PO). }
  destruct (moving_sum_follows VI VL PF PO O OO sh l HC) as (r' & E' & C2 & _ & S2).
  destruct (api_sum_follows VI VL PF PO sh l HC) as (r & E & C1 & _ & S1).
  exists r. split; [|split; [auto|]].
  - rewrite E'. f_equal. apply (canonicity VI VL _ (pf_lt PO)); auto. intros p. now rewrite S1, S2.
  - intros p. rewrite S1. apply existsb_exists.
Qed.
Print Assumptions C09_moving_union.

Theorem C09_moving_intersection : forall VI (VL : values_laws VI) PF (PO : platform_ok PF) O (OO : oracle_ok O) sh l,
  l <> [] -> (forall x, In x l -> built VI PF x /\ follows sh x) ->
  exists r, moving_intersection VI PF O l = Ok r /\ api_intersection VI PF l = Ok r /\
    forall p, contains r p = true <-> forall x, In x l -> contains x p = true.
Proof.
  intros VI VL PF PO O OO sh l Hne H.
  assert (HC : forall x, In x l -> canonical VI (addr_lt PF) x /\ follows sh x).
  { intros x Hx. destruct (H x Hx). split; auto. now apply (built_canonical VI VL PF PO). }
  destruct (moving_intersection_follows VI VL PF PO O OO sh l Hne HC) as (r' & E' & C2 & _ & S2).
  destruct (api_intersection_follows VI VL PF PO sh l Hne HC) as (r & E & C1 & _ & S1).
  exists r. split; [|split; [auto|]].
  - rewrite E'. f_equal. apply (canonicity VI VL _ (pf_lt PO)); auto. intros p. now rewrite S1, S2.
  - intros p. rewrite S1. apply forallb_forall.
Qed.
Print Assumptions C09_moving_intersection.

Theorem C09_moving_difference : forall VI (VL : values_laws VI) PF (PO : platform_ok PF) O (OO : oracle_ok O) sh x y,
  built VI PF x -> built VI PF y -> follows sh x -> follows sh y ->
  exists r, moving_minus VI PF O x y = Ok r /\ api_minus VI PF x y = Ok r /\
    forall p, contains r p = true <-> contains x p = true /\ contains y p = false.
Proof.
  intros VI VL PF PO O OO sh x y Bx By Fx Fy.
  pose proof (built_canonical VI VL PF PO x Bx) as Cx. pose proof (built_canonical VI VL PF PO y By) as Cy.
  destruct (moving_minus_follows VI VL PF PO O OO sh x y Cx Cy Fx Fy) as (r' & E' & C2 & _ & S2).
  destruct (api_minus_follows VI VL PF PO sh x y Cx Cy Fx Fy) as (r & E & C1 & _ & S1).
  exists r. split; [|split; [auto|]].
  - rewrite E'. f_equal. apply (canonicity VI VL _ (pf_lt PO)); auto. intros p. now rewrite S1, S2.
  - intros p. rewrite S1, andb_true_iff, negb_true_iff. reflexivity.
Qed.
Print Assumptions C09_moving_difference.

(** On any operands, compatible or not: an operation that returns returns the right set; an operation that does not return
    throws top with two incompatible SDDs.  Nothing else can happen, whatever the orders of visit. *)
Theorem C09_moving_any_operands : forall VI (VL : values_laws VI) PF (PO : platform_ok PF) O (OO : oracle_ok O) l x y,
  (forall z, In z l -> built VI PF z) -> built VI PF x -> built VI PF y ->
  match moving_sum VI PF O l with
  | Ok r => forall p, contains r p = true <-> exists z, In z l /\ contains z p = true
  | Err (ETop a b) => incompatible a b
  | Err _ => False
  end /\
  match moving_intersection VI PF O l with
  | Ok r => l <> [] -> forall p, contains r p = true <-> forall z, In z l -> contains z p = true
  | Err (ETop a b) => incompatible a b
  | Err _ => False
  end /\
  match moving_minus VI PF O x y with
  | Ok r => forall p, contains r p = true <-> contains x p = true /\ contains y p = false
  | Err (ETop a b) => incompatible a b
  | Err _ => False
  end.
Proof.
  intros VI VL PF PO O OO l x y Hl Bx By.
  assert (HC : forall z, In z l -> canonical VI (addr_lt PF) z /\ mode_ok VI None z).
  { intros z Hz. apply (built_ok VI VL PF PO). auto. }
  split; [|split].
  - pose proof (moving_sum_ok VI VL PF PO O OO None l HC) as HM.
    destruct (moving_sum VI PF O l) as [r|[]]; simpl in HM; try tauto.
    destruct HM as (_ & _ & S). intros p. rewrite S. apply existsb_exists.
  - destruct l as [|a l]; [cbn; intros H; congruence|].
    pose proof (moving_intersection_ok VI VL PF PO O OO None (a :: l) ltac:(discriminate) HC) as HM.
    destruct (moving_intersection VI PF O (a :: l)) as [r|[]]; simpl in HM; try tauto.
    destruct HM as (_ & _ & S). intros _ p. rewrite S.
    change (forallb (fun z => contains z p) (a :: l) = true <-> (forall z, In z (a :: l) -> contains z p = true)).
    apply forallb_forall.
  - pose proof (moving_minus_ok VI VL PF PO O OO None x y (built_canonical VI VL PF PO x Bx)
      (built_canonical VI VL PF PO y By) (proj2 (built_ok VI VL PF PO x Bx)) (proj2 (built_ok VI VL PF PO y By))) as HM.
    destruct (moving_minus VI PF O x y) as [r|[]]; simpl in HM; try tauto.
    destruct HM as (_ & _ & S & _). intros p. rewrite S, andb_true_iff, negb_true_iff. reflexivity.
Qed.
Print Assumptions C09_moving_any_operands.

(** An oracle that reverses every other container. *)
Definition ex_oracle : oracle := fun n X l => if Nat.even n then rev l else l.
Lemma ex_oracle_ok : oracle_ok ex_oracle.
Proof.
  intros n X l. unfold ex_oracle. destruct (Nat.even n); [|apply Permutation_refl].
  apply Permutation_sym, Permutation_rev.
Qed.
(** The containers of this union are not all trivial: two orders of visit give different intermediate results, here the
    incompatible operands with which top is thrown, and compatible operands give the results above. *)
Example C09_moving_ex :
  (forall x, In x [ex_x; ex_y; ex_z] -> built FS PF_up x /\ follows ex_shape x) /\
  oracle_ok ex_oracle /\
  ok_enc (moving_sum FS PF_up ex_oracle [ex_x; ex_y; ex_z]) = ok_enc (api_sum FS PF_up [ex_x; ex_y; ex_z]) /\
  ok_enc (moving_minus FS PF_up ex_oracle ex_x ex_y) = ok_enc (api_minus FS PF_up ex_x ex_y) /\
  (exists a b c d, moving_sum FS PF_up ex_oracle [node_flat FS PF_up 0 (fs [0]%N) One; node_flat FS PF_up 1 (fs [0]%N) One] = Err (ETop a b) /\
    api_sum FS PF_up [node_flat FS PF_up 0 (fs [0]%N) One; node_flat FS PF_up 1 (fs [0]%N) One] = Err (ETop c d) /\
    enc enc_set a <> enc enc_set c).
Proof.
  split; [|split; [exact ex_oracle_ok|split; [|split]]].
  - intros x [<-|[<-|[<-|[]]]]; split; exs.
  - vm_compute. reflexivity.
  - vm_compute. reflexivity.
  - do 4 eexists. split; [vm_compute; reflexivity|split; [vm_compute; reflexivity|]]. vm_compute. discriminate.
Qed.
