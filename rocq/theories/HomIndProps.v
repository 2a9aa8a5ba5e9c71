(** * Properties of inductive homomorphisms: theorems and examples (C69)

    [alike S t b]: the values that can replace [b] for the variable [t] at the head of every assignment of
    [S] (HomFun.v); [nalike] is the same for nested assignments. [mset x p] is [contains x p = true]. *)

From Coq Require Import List Bool NArith Arith Lia Permutation Sorted Relations.
From Verif Require Import Base SortedSets Values Sdd SddFacts Orders OrdersProofs OrdersSdd DDModel Spec.
From Verif Require Import DDGeneric DDProofs DDTheorems FlatSet Bitset Concrete Hom HomFacts HomEval HomTyped HomEqns HomLinear.
From Verif Require Import HomSum HomHalts HomComp HomInter HomFun HomPath HomRef HomConcrete HomProps HomRewrite HomInd HomCacheProps.
Import ListNotations.

Section HomIndProps.
  Variable VI : values_impl.
  Hypothesis VL : values_laws VI.
  Variable PF : platform VI.
  Hypothesis PO : platform_ok PF.
  Variables U F I : Type.
  Variable US : user (vt VI) U F I.
  Hypothesis HO : honest VI PF U F I US.
  Notation fits := (fits VI PF).
  Notation oshape := (oshape U).
  Notation olevel := (olevel U).
  Notation typed := (typed VI PF U F I US).
  Notation hskip := (hskip VI U F I US).
  Notation evals := (evals VI PF U F I US).
  Notation acts := (acts VI PF U F I US).
  Notation mset := (mset VI).
  Notation alike := (alike VI).
  Notation nalike := (nalike VI).
  Notation asg := (asg (elt VI)).

  (** At the end of the order, the result is what the user's code gives for |1|. *)
  Theorem C69_end o i y : o_empty o = true -> (evals o (HInd i) One y <-> y = i_one US i).
  Proof.
    intros E. apply (E_ind_end VI PF U F I US o i One y E); [|discriminate]. split; constructor.
  Qed.

  (** [part x t r v s]: [v] is the set of the values of the variable [t] that have in [x] the same
      continuations, and [s] is the set of these continuations. *)
  Definition part (x : sdd (vt VI)) (t : N) (r : shape) (v : vt VI) (s : sdd (vt VI)) : Prop :=
    fits r s /\ exists b p, mset x (AVal t b p) /\ (forall b', v_mem VI v b' = true <-> alike (mset x) t b b') /\
      forall q, mset s q <-> mset x (AVal t b q).

  (** At a flat level which is not skipped: the user's code is called with each such set of values, the
      homomorphism it returns is applied to the continuations, and the results are gathered. *)
  Theorem C69_flat o t o' r i s' x : olevel o (LFlat t) o' -> oshape o' r -> typed o (HInd i) s' ->
    hskip o (HInd i) = false -> fits (SFlat t r) x ->
    ((exists y, evals o (HInd i) x y) <-> forall v s, part x t r v s -> exists z, evals o' (i_flat US i o v) s z) /\
    forall y, evals o (HInd i) x y -> fits s' y /\
      forall q, contains y q = true <-> exists v s z, part x t r v s /\ evals o' (i_flat US i o v) s z /\ contains z q = true.
  Proof.
    intros L O T Sk Fx. destruct (is_zero VI x) eqn:Z.
    { apply is_zero_iff in Z. subst x. split.
      - split; [|intros _; exists Zero; now apply evals_zero]. intros _ v s (_ & b & p & X & _). discriminate.
      - intros y E. apply evals_zero in E. subst y. split; [apply fits_zero|]. intros q. split; [discriminate|].
        intros (v & s & z & (_ & b & p & X & _) & _). discriminate. }
    assert (Nz : x <> Zero) by (intros ->; discriminate).
    assert (G : forall v s, In (v, s) (farcs VI x) -> typed o' (i_flat US i o v) s' /\ fits r s).
    { intros v s Hin. destruct x as [| |v0 arcs|v0 arcs]; try (now destruct Hin).
      destruct (fits_flat_inv VI PF _ _ _ _ Fx) as (_ & _ & _ & G). destruct (G v s Hin) as (Ne & _ & Fs).
      split; [|auto]. now apply (typed_ind_flat VI PF U F I US o t o' i s' L Sk T). }
    destruct (ind_sum VI VL PF PO U F I US HO o' r s' (i_flat US i o) (farcs VI x) O G) as [S1 S2].
    assert (Q := fun v s => farcs_alike VI VL PF PO t r x v s Fx). fold (part x t r) in Q.
    assert (E := fun y => E_ind_flat VI PF U F I US o t o' r i x y L O Sk Fx Nz). split.
    - transitivity (forall v s, In (v, s) (farcs VI x) -> exists z, evals o' (i_flat US i o v) s z).
      + rewrite <- S2. split.
        * intros (y & Ey). apply E in Ey. destruct Ey as (ys & H & Es). eauto.
        * intros (ys & y & H & Es). exists y. apply E. eauto.
      + split; intros H v s Hv; apply (H v s); now apply Q.
    - intros y Ey. apply E in Ey. destruct Ey as (ys & H & Es). destruct (S1 ys y H Es) as [Fy C].
      split; [auto|]. intros q. rewrite C.
      split; intros (v & s & z & Hv & X); exists v, s, z; (split; [now apply Q|auto]).
  Qed.

  (** The same at a hierarchical level. *)
  Definition npart (x : sdd (vt VI)) (t : N) (n r : shape) (v s : sdd (vt VI)) : Prop :=
    fits n v /\ fits r s /\ exists b p, mset x (ANest t b p) /\ (forall b', mset v b' <-> nalike (mset x) t b b') /\
      forall q, mset s q <-> mset x (ANest t b q).

  Theorem C69_hier o t n o' r i s' x : olevel o (LHier t n) o' -> oshape o' r -> typed o (HInd i) s' ->
    hskip o (HInd i) = false -> fits (SHier t n r) x ->
    ((exists y, evals o (HInd i) x y) <-> forall v s, npart x t n r v s -> exists z, evals o' (i_hier US i o v) s z) /\
    forall y, evals o (HInd i) x y -> fits s' y /\
      forall q, contains y q = true <-> exists v s z, npart x t n r v s /\ evals o' (i_hier US i o v) s z /\ contains z q = true.
  Proof.
    intros L O T Sk Fx. destruct (is_zero VI x) eqn:Z.
    { apply is_zero_iff in Z. subst x. split.
      - split; [|intros _; exists Zero; now apply evals_zero]. intros _ v s (_ & _ & b & p & X & _). discriminate.
      - intros y E. apply evals_zero in E. subst y. split; [apply fits_zero|]. intros q. split; [discriminate|].
        intros (v & s & z & (_ & _ & b & p & X & _) & _). discriminate. }
    assert (Nz : x <> Zero) by (intros ->; discriminate).
    assert (G : forall v s, In (v, s) (harcs VI x) -> typed o' (i_hier US i o v) s' /\ fits r s).
    { intros v s Hin. destruct x as [| |v0 arcs|v0 arcs]; try (now destruct Hin).
      destruct (fits_hier_inv VI PF _ _ _ _ _ Fx) as (_ & _ & _ & G). destruct (G v s Hin) as (Ne & Fv & _ & Fs).
      split; [|auto]. now apply (typed_ind_hier VI PF U F I US o t n o' i s' L Sk T). }
    destruct (ind_sum VI VL PF PO U F I US HO o' r s' (i_hier US i o) (harcs VI x) O G) as [S1 S2].
    assert (Q := fun v s => harcs_alike VI VL PF PO t n r x v s Fx). fold (npart x t n r) in Q.
    assert (E := fun y => E_ind_hier VI PF U F I US o t n o' r i x y L O Sk Fx Nz). split.
    - transitivity (forall v s, In (v, s) (harcs VI x) -> exists z, evals o' (i_hier US i o v) s z).
      + rewrite <- S2. split.
        * intros (y & Ey). apply E in Ey. destruct Ey as (ys & H & Es). eauto.
        * intros (ys & y & H & Es). exists y. apply E. eauto.
      + split; intros H v s Hv; apply (H v s); now apply Q.
    - intros y Ey. apply E in Ey. destruct Ey as (ys & H & Es). destruct (S1 ys y H Es) as [Fy C].
      split; [auto|]. intros q. rewrite C.
      split; intros (v & s & z & Hv & X); exists v, s, z; (split; [now apply Q|auto]).
  Qed.

  (** When what the user's code returns treats values one by one ([R a p q]: the value [a] followed by [p]
      gives [q]), the whole homomorphism treats assignments one by one: it distributes over unions. *)
  Theorem C69_pointwise_flat_partial o t o' i s' (R : elt VI -> asg -> asg -> Prop) :
    olevel o (LFlat t) o' -> hskip o (HInd i) = false -> typed o (HInd i) s' ->
    (forall v, v_empty VI v = false -> acts o' (i_flat US i o v) (fun p q => exists a, v_mem VI v a = true /\ R a p q)) ->
    forall s x y, oshape o s -> fits s x -> evals o (HInd i) x y ->
    forall q, contains y q = true <-> exists a p, contains x (AVal t a p) = true /\ R a p q.
  Proof.
    intros L Sk T A s x y O Fx E q.
    rewrite (acts_ind_flat VI VL PF PO U F I US HO o t o' i s' R L Sk T A s x y O Fx E q). split.
    - intros (p & C & a & p' & -> & Ra). eauto.
    - intros (a & p & C & Ra). eauto 6.
  Qed.

  Theorem C69_pointwise_hier_partial o t n o' i s' (R : asg -> asg -> asg -> Prop) :
    olevel o (LHier t n) o' -> hskip o (HInd i) = false -> typed o (HInd i) s' ->
    (forall v, fits n v -> v <> Zero -> acts o' (i_hier US i o v) (fun p q => exists a, contains v a = true /\ R a p q)) ->
    forall s x y, oshape o s -> fits s x -> evals o (HInd i) x y ->
    forall q, contains y q = true <-> exists a p, contains x (ANest t a p) = true /\ R a p q.
  Proof.
    intros L Sk T A s x y O Fx E q.
    rewrite (acts_ind_hier VI VL PF PO U F I US HO o t n o' i s' R L Sk T A s x y O Fx E q). split.
    - intros (p & C & a & p' & -> & Ra). eauto.
    - intros (a & p & C & Ra). eauto 6.
  Qed.

  (** Every diagram in canonical form is the result of some operations: the theorems on diagrams that were
      built cover the operands and the results of the theorems on homomorphisms. *)
  Theorem C05_canonical_is_built s x : fits s x -> built VI PF x.
  Proof. apply (fits_built VI VL PF PO s x). Qed.
End HomIndProps.
Print Assumptions C69_end.
Print Assumptions C69_flat.
Print Assumptions C69_hier.
Print Assumptions C69_pointwise_flat_partial.
Print Assumptions C69_pointwise_hier_partial.
Print Assumptions C05_canonical_is_built.

(** ** Examples *)

Definition nil_o : order nat := Eval vm_compute in order_of Nat.eqb BNil.
Example C69_example_end : o_empty nil_o = true /\ evals FS PF_up nat exfun exind ex_user nil_o (HInd 0) One One.
Proof. split; [reflexivity|]. now apply C69_end. Qed.

(** The inductive homomorphism that rebuilds its operand, on { 0, 1 } x { 3, 4 } x { 5 } x { 6 }. *)
Definition exo1 : order nat := match o_next exo with Some o => o | None => exo end.
Example C69_example_flat : ex_typed (HInd 0) exs /\ olevel nat exo (LFlat 2) exo1 /\
  hskip FS nat exfun exind ex_user exo (HInd 0) = false /\ part FS PF_up ex_x 2 (SHier 1 (SFlat 1 (SFlat 0 SEnd)) (SFlat 0 SEnd))
    (fs [0; 1]%N) (node_hier FS PF_up 1 (node_flat FS PF_up 1 (fs [3; 4]%N) (node_flat FS PF_up 0 (fs [5%N]) One))
    (node_flat FS PF_up 0 (fs [6%N]) One)) /\
  exists y, ex_evals (HInd 0) ex_x y /\ contains (VI := FS) y (point 1 3 5 6) = true.
Proof.
  split; [apply ex_ind_typed; exact exo_shape|]. split; [lv|]. split; [reflexivity|]. split.
  - assert (Fx : fits FS PF_up (SFlat 2 (SHier 1 (SFlat 1 (SFlat 0 SEnd)) (SFlat 0 SEnd))) ex_x) by exact ex_x_fits.
    apply (farcs_alike FS FS_laws PF_up PF_up_ok 2 _ ex_x _ _ Fx). vm_compute. left. reflexivity.
  - run.
Qed.
Example C69_example_hier : typed FS PF_up nat exfun exind ex_user exo1 (HInd 0) (SHier 1 (SFlat 1 (SFlat 0 SEnd)) (SFlat 0 SEnd)) /\
  (exists o', olevel nat exo1 (LHier 1 (SFlat 1 (SFlat 0 SEnd))) o') /\
  hskip FS nat exfun exind ex_user exo1 (HInd 0) = false.
Proof.
  split; [apply ex_ind_typed; sh|]. split; [|reflexivity].
  exists (match o_next exo1 with Some o => o | None => exo end). lv.
Qed.

(** ** Inductive homomorphisms see the sets of values *)

(** An inductive homomorphism that keeps a variable when it has two values, and otherwise gives |0|. *)
Definition pair_user : user (vt FS) nat exfun exind := {|
  f_apply := ex_apply;
  f_sel := fun f => false;
  f_shift := fun f => false;
  i_skip := fun _ _ => false;
  i_sel := fun _ => false;
  i_flat := fun i o v => match proj1_sig v with [_; _] => HConsF o v HId | _ => HConst Zero end;
  i_hier := fun i o v => HConst Zero;
  i_one := fun _ => One
|}.
Definition one_b : builder nat := b_of_list [1].
Definition one_o : order nat := Eval vm_compute in order_of Nat.eqb one_b.
Definition one_x (l : list N) : sdd (vt FS) := node_flat FS PF_up 0 (fs l) One.

(** Hence it does not distribute over unions: nothing from { 0 }, nothing from { 1 }, but everything
    from their union. *)
Theorem C69_union_refuted : exists (i : exind) x1 x2 x y1 y2 y p,
  mk_order nat Nat.eqb one_b = Ok one_o /\ typed FS PF_up nat exfun exind pair_user one_o (HInd i) (SFlat 0 SEnd) /\
  fits FS PF_up (SFlat 0 SEnd) x1 /\ fits FS PF_up (SFlat 0 SEnd) x2 /\ api_sum FS PF_up [x1; x2] = Ok x /\
  evals FS PF_up nat exfun exind pair_user one_o (HInd i) x1 y1 /\
  evals FS PF_up nat exfun exind pair_user one_o (HInd i) x2 y2 /\
  evals FS PF_up nat exfun exind pair_user one_o (HInd i) x y /\
  contains (VI := FS) y p = true /\ contains (VI := FS) y1 p = false /\ contains (VI := FS) y2 p = false.
Proof.
  assert (Fx : forall l, fits FS PF_up (SFlat 0 SEnd) (one_x l)).
  { intros l. apply node_flat_fits. split; constructor. }
  destruct (sum_ok FS FS_laws PF_up PF_up_ok (SFlat 0 SEnd) [one_x [0%N]; one_x [1%N]]) as (x & Ex & Fxx & C).
  { intros z [<-|[<-|[]]]; apply Fx. }
  assert (x = one_x [0; 1]%N).
  { apply (fits_ext FS FS_laws PF_up PF_up_ok (SFlat 0 SEnd)); auto. intros p. rewrite C. cbn [existsb]. rewrite orb_false_r.
    apply bool_ext. rewrite orb_true_iff. unfold one_x. rewrite !(node_flat_contains FS FS_laws PF_up). split.
    - intros [(a & q & -> & M & Cq)|(a & q & -> & M & Cq)]; exists a, q; (split; [auto|]); (split; [|auto]); apply fs_in in M; apply fs_in; cbn in *; tauto.
    - intros (a & q & -> & M & Cq). apply fs_in in M. destruct M as [<-|[<-|[]]]; [left|right]; eexists _, q; (split; [reflexivity|]); (split; [|auto]); apply fs_in; now left. }
  subst x.
  destruct (happly FS PF_up nat exfun exind pair_user 5 5 one_o (HInd 0) (one_x [0%N])) as [y1|] eqn:E1; [|vm_compute in E1; discriminate].
  destruct (happly FS PF_up nat exfun exind pair_user 5 5 one_o (HInd 0) (one_x [1%N])) as [y2|] eqn:E2; [|vm_compute in E2; discriminate].
  destruct (happly FS PF_up nat exfun exind pair_user 5 5 one_o (HInd 0) (one_x [0; 1]%N)) as [y|] eqn:E; [|vm_compute in E; discriminate].
  exists 0, (one_x [0%N]), (one_x [1%N]), (one_x [0; 1]%N), y1, y2, y, (AVal 0%N 0%N ANil).
  split; [reflexivity|]. split.
  { apply (T_ind_flat _ _ _ _ _ _ one_o 0 (match o_next one_o with Some o => o | None => one_o end)); [lv|reflexivity|].
    intros v _. cbn [i_flat pair_user].
    assert (A : typed FS PF_up nat exfun exind pair_user (match o_next one_o with Some o => o | None => one_o end) (HConst Zero) (SFlat 0 SEnd)).
    { apply (T_const _ _ _ _ _ _ _ SEnd); [sh|apply fits_zero]. }
    assert (B : typed FS PF_up nat exfun exind pair_user (match o_next one_o with Some o => o | None => one_o end) (HConsF one_o v HId) (SFlat 0 SEnd)).
    { apply (T_consF _ _ _ _ _ _ _ SEnd one_o 0%N (match o_next one_o with Some o => o | None => one_o end)); [sh|reflexivity|reflexivity|sh|].
      apply T_id. sh. }
    destruct (proj1_sig v) as [|a [|b [|c l]]]; auto. }
  split; [apply Fx|]. split; [apply Fx|]. split; [exact Ex|].
  split; [exists 5, 5; exact E1|]. split; [exists 5, 5; exact E2|]. split; [exists 5, 5; exact E|].
  vm_compute in E. injection E as <-. vm_compute in E1. injection E1 as <-. vm_compute in E2. injection E2 as <-.
  repeat split; vm_compute; reflexivity.
Qed.
Print Assumptions C69_union_refuted.

(** The homomorphism that rebuilds its operand treats values one by one. *)
Lemma rebuild_acts o s : oshape nat o s -> acts FS PF_up nat exfun exind ex_user o (HInd 0) eq.
Proof.
  induction 1 as [o E|o x o' on r A B C D O IH|o x o' on n r A B C D On IHn O IH].
  - apply (acts_weq FS PF_up nat exfun exind ex_user o (HInd 0) (fun p q => p = ANil /\ contains (VI := FS) (i_one ex_user 0) q = true)).
    + intros p q (s & Os & Fp). assert (s = SEnd) by (apply (oshape_fun _ _ _ Os); now constructor). subst s.
      inversion Fp; subst. cbn. split; [intros [_ H]|intros <-; auto]. destruct q; auto; discriminate.
    + apply (acts_ind_end FS PF_up nat exfun exind ex_user). exact E.
  - assert (L : olevel nat o (LFlat x) o') by (split; [auto|split; [auto|exists on; auto]]).
    apply (acts_weq FS PF_up nat exfun exind ex_user o (HInd 0) (fun p q => exists a p', p = AVal x a p' /\ q = AVal x a p')).
    + intros p q (s & Os & Fp). assert (s = SFlat x r) by (apply (oshape_fun _ _ _ Os); now apply (os_flat nat o x o' on)). subst s.
      inversion Fp; subst. split; [intros (a' & p' & -> & ->); reflexivity|intros <-; eauto].
    + apply (acts_ind_flat FS FS_laws PF_up PF_up_ok nat exfun exind ex_user ex_honest o x o' 0 (SFlat x r)
        (fun a p q => q = AVal x a p) L).
      * cbn [hskip]. destruct (o_identifier o); reflexivity.
      * apply ex_ind_typed. now apply (os_flat nat o x o' on).
      * intros v _. cbn [i_flat ex_user].
        apply (acts_ext FS PF_up nat exfun exind ex_user o' _ (fun p q => exists a q', q = AVal x a q' /\ v_mem FS v a = true /\ p = q')).
        -- intros p q. split; [intros (a & q' & -> & M & <-); eauto|intros (a & M & ->); eauto 6].
        -- apply (acts_cons_flat FS FS_laws PF_up nat exfun exind ex_user o' o v (HInd 0) r r x o'); auto.
           now apply ex_ind_typed.
  - assert (L : olevel nat o (LHier x n) o') by (split; [auto|split; [auto|exists on; auto]]).
    apply (acts_weq FS PF_up nat exfun exind ex_user o (HInd 0) (fun p q => exists a p', p = ANest x a p' /\ q = ANest x a p')).
    + intros p q (s & Os & Fp). assert (s = SHier x n r) by (apply (oshape_fun _ _ _ Os); now apply (os_hier nat o x o' on)). subst s.
      inversion Fp; subst. split; [intros (a' & p' & -> & ->); reflexivity|intros <-; eauto].
    + apply (acts_ind_hier FS FS_laws PF_up PF_up_ok nat exfun exind ex_user ex_honest o x n o' 0 (SHier x n r)
        (fun a p q => q = ANest x a p) L).
      * cbn [hskip]. destruct (o_identifier o); reflexivity.
      * apply ex_ind_typed. now apply (os_hier nat o x o' on).
      * intros v _ _. cbn [i_hier ex_user].
        apply (acts_ext FS PF_up nat exfun exind ex_user o' _ (fun p q => exists a q', q = ANest x a q' /\ contains (VI := FS) v a = true /\ p = q')).
        -- intros p q. split; [intros (a & q' & -> & M & <-); eauto|intros (a & M & ->); eauto 6].
        -- apply (acts_cons_hier FS PF_up nat exfun exind ex_user o' o v (HInd 0) r r x o'); auto.
           now apply ex_ind_typed.
Qed.
Example C69_example_pointwise : exists y, ex_evals (HInd 0) ex_x y /\ forall p, contains (VI := FS) y p = contains (VI := FS) ex_x p.
Proof.
  destruct C69_example_flat as (_ & _ & _ & _ & y & E & _). exists y. split; [auto|]. intros p. apply bool_ext.
  rewrite (rebuild_acts exo exs exo_shape exs ex_x y exo_shape ex_x_fits E p). split; [|eauto].
  intros (q & C & ->). exact C.
Qed.
