(** * Properties of rewriting: theorems and examples *)

From Coq Require Import List Bool NArith Arith Lia Permutation Sorted Relations.
From Verif Require Import Base SortedSets Values Sdd SddFacts Orders OrdersProofs OrdersSdd DDModel.
From Verif Require Import OrdersProps DDGeneric DDProofs DDTheorems FlatSet Bitset Concrete.
From Verif Require Import Hom HomFacts HomEval HomTyped HomEqns HomLinear.
From Verif Require Import HomSum HomHalts HomComp HomInter HomFun HomPath HomRef HomConcrete HomProps HomRewrite HomSaturation.
Import ListNotations.

Section HomRewriteProps.
  Variable VI : values_impl.
  Hypothesis VL : values_laws VI.
  Variable PF : platform VI.
  Hypothesis PO : platform_ok PF.
  Variables U F I : Type.
  Variable HP : hplatform (vt VI) U F I.
  Hypothesis HPO : hplatform_ok HP.
  Variable US : user (vt VI) U F I.
  Hypothesis HO : honest VI PF U F I US.
  Variable ueqb : U -> U -> bool.
  Hypothesis EQ : is_eqb ueqb.
  Notation fits := (fits VI PF).
  Notation typed := (typed VI PF U F I US).
  Notation evals := (evals VI PF U F I US).
  Notation acts := (acts VI PF U F I US).
  Notation rewrite := (rewrite VI U F I HP US).
  Notation shape_of := (shape_of U).
  Notation nofix := (nofix VI U F I).
  Notation user_nofix := (user_nofix VI U F I US).
  Notation asg := (asg (elt VI)).
  (** [RO] says what each elementary part does. *)
  Notation linear RO :=
    (lin VI U F I US RO (fun o h => acts o h (RO o h))).

  (** Rewriting gives a homomorphism, whatever the homomorphism it is given. *)
  Theorem C43_rewrite_total b o h : mk_order U ueqb b = Ok o -> exists h', rewrite o h = Ok h'.
  Proof.
    intros E. pose proof (mk_order_ok U ueqb EQ b) as H. rewrite E in H. destruct H as [-> _].
    apply (rewrite_total VI U F I HP HPO US _ _ h (shape_of b)).
    - exact (sees_oshape U b _ 0 [] (sees_whole U ueqb b)).
    - cbn [order_of o_nodes]. rewrite map_length, length_layout. pose proof (height_shape_of U b). lia.
  Qed.

  (** rewrite(o, h) and h give the same result when both evaluations end. [RO o h] is what the
      elementary homomorphism [h] does at [o], as a relation on assignments; [lin] says that every
      elementary part of [h] distributes over unions in this way, and that the operands of its
      intersections only filter. *)
  Theorem C43_rewrite_agrees b o h h' s' (RO : order U -> hom (vt VI) U F I -> asg -> asg -> Prop) :
    mk_order U ueqb b = Ok o -> rewrite o h = Ok h' -> typed o h s' -> linear RO o h ->
    typed o h' s' /\
    forall x y z, fits (shape_of b) x -> evals o h x y -> evals o h' x z -> z = y.
  Proof.
    intros E R T L. assert (O := C55_orders_have_shapes U ueqb EQ b o E).
    assert (D := distinct_shape_of U b). split.
    - now apply (rewrite_acts VI VL PF PO U F I HP HPO US HO RO _ (fun _ _ A => A) _ o h h' (shape_of b) s' R O D T L).
    - intros x y z Fx Ey Ez. symmetry.
      now apply (rewrite_agrees VI VL PF PO U F I HP HPO US HO RO _ (fun _ _ A => A) _ o h h' (shape_of b) s' x y z R).
  Qed.

  (** Without fixpoint, both always end: the two homomorphisms are the same function. *)
  Theorem C43_rewrite_total_agrees b o h h' s' (RO : order U -> hom (vt VI) U F I -> asg -> asg -> Prop) x y :
    mk_order U ueqb b = Ok o -> rewrite o h = Ok h' -> typed o h s' -> linear RO o h ->
    user_nofix -> nofix h = true -> fits (shape_of b) x -> (evals o h' x y <-> evals o h x y).
  Proof.
    intros E R T L Un Nf Fx. assert (O := C55_orders_have_shapes U ueqb EQ b o E).
    destruct (C43_rewrite_agrees b o h h' s' RO E R T L) as [T' A].
    assert (Nf' := rewrite_nofix VI U F I HP HPO US _ o h h' R Nf).
    destruct (halts VI VL PF PO U F I US HO Un o h s' T Nf (shape_of b) x O Fx) as (y1 & E1).
    destruct (halts VI VL PF PO U F I US HO Un o h' s' T' Nf' (shape_of b) x O Fx) as (y2 & E2).
    assert (y2 = y1) by eauto. subst y2. split; intros Ey.
    - now rewrite (evals_fun VI PF U F I US _ _ _ _ _ Ey E2).
    - now rewrite (evals_fun VI PF U F I US _ _ _ _ _ Ey E1).
  Qed.

  (** What the rewritten homomorphism computes, as a set: the image of its operand by what [h] does. *)
  Theorem C43_rewrite_image b o h h' s' (RO : order U -> hom (vt VI) U F I -> asg -> asg -> Prop) x z :
    mk_order U ueqb b = Ok o -> rewrite o h = Ok h' -> typed o h s' -> linear RO o h ->
    fits (shape_of b) x -> evals o h' x z ->
    forall q, contains z q = true <-> exists p, contains x p = true /\ den VI U F I US RO o h p q.
  Proof.
    intros E R T L Fx Ez. assert (O := C55_orders_have_shapes U ueqb EQ b o E).
    exact (proj2 (rewrite_acts VI VL PF PO U F I HP HPO US HO RO _ (fun _ _ A => A) _ o h h' (shape_of b) s' R O (distinct_shape_of U b) T L)
             (shape_of b) x z O Fx Ez).
  Qed.

  (** [linear_total RO]: moreover the evaluation of each elementary part always ends. *)
  Notation linear_total RO :=
    (lin VI U F I US RO (fun o h => acts o h (RO o h) /\
       forall s x, oshape U o s -> fits s x -> exists y, evals o h x y)).

  (** Rewriting neither loses nor gains termination: rewrite(o, h) and h are the same partial function. *)
  Theorem C43_rewrite_same b o h h' s' (RO : order U -> hom (vt VI) U F I -> asg -> asg -> Prop) x y :
    mk_order U ueqb b = Ok o -> rewrite o h = Ok h' -> typed o h s' -> linear_total RO o h ->
    fits (shape_of b) x -> (evals o h' x y <-> evals o h x y).
  Proof.
    intros E R T L Fx. assert (O := C55_orders_have_shapes U ueqb EQ b o E).
    apply (rewrite_same VI VL PF PO U F I HP HPO US HO RO
      (fun o h => acts o h (RO o h) /\ forall s x, oshape U o s -> fits s x -> exists y, evals o h x y)
      (fun _ _ A => proj1 A) (fun _ _ A => proj2 A) _ o h h' (shape_of b) s' x y R O (distinct_shape_of U b) T L Fx).
  Qed.

  (** The evaluation of a fixpoint of linear parts ends exactly when finitely many assignments can be
      reached from its operand, whether or not it has been rewritten. *)
  Theorem C38_fixpoint_ends_iff b o hs s' (RO : order U -> hom (vt VI) U F I -> asg -> asg -> Prop) x :
    mk_order U ueqb b = Ok o -> typed o (HFix (HSum hs)) s' -> In HId hs ->
    linear_total RO o (HFix (HSum hs)) -> fits (shape_of b) x ->
    ((exists y, evals o (HFix (HSum hs)) x y) <->
     exists l : list asg, forall p q, contains x p = true ->
       clos_refl_trans _ (fun a c => (exists h, In h hs /\ den VI U F I US RO o h a c) /\ follows VI (shape_of b) c) p q ->
       In q l).
  Proof.
    intros E T Hi L Fx. assert (O := C55_orders_have_shapes U ueqb EQ b o E).
    destruct (typed_fix_inv VI PF U F I US _ _ _ T) as [O' _].
    assert (s' = shape_of b) by apply (oshape_fun _ _ _ O' _ O). subst s'.
    assert (W : forall p q, den VI U F I US RO o (HFix (HSum hs)) p q <->
      clos_refl_trans _ (fun a c => (exists h, In h hs /\ den VI U F I US RO o h a c) /\ follows VI (shape_of b) c) p q).
    { intros p q. rewrite (den_fix_iff VI U F I US RO o hs p q Hi). split; apply clos_incl; intros a c [X Y].
      - split; [now apply (den_sum_iff VI U F I US RO)|]. destruct Y as (s & Os & Fo).
        now rewrite <- (oshape_fun _ _ _ Os _ O).
      - split; [now apply (den_sum_iff VI U F I US RO)|]. exists (shape_of b). auto. }
    rewrite (ends_iff VI VL PF PO U F I US HO RO
      (fun o h => acts o h (RO o h) /\ forall s x, oshape U o s -> fits s x -> exists y, evals o h x y)
      (fun _ _ A => proj1 A) (fun _ _ A => proj2 A) o (HFix (HSum hs)) (shape_of b) (shape_of b) x O Fx T L).
    split; intros (l & Hl); exists l.
    - intros p q C X. apply (Hl p q C); [now apply W|]. clear - X C Fx.
      apply clos_rt_rtn1 in X. destruct X as [|m q [_ Fo] _]; [now apply (contains_follows VI PF (shape_of b) x)|auto].
    - intros p q C D _. apply (Hl p q C). now apply W.
  Qed.

  (** How to establish [lin] for an elementary homomorphism: it is enough that it acts according to
      [RO], and ends, wherever it can be applied. *)
  Lemma lin_elementary RO (leaf : order U -> hom (vt VI) U F I -> Prop) h : opaque VI U F I h = true ->
    (forall o s', typed o h s' -> leaf o h) ->
    forall o s s', oshape U o s -> typed o h s' -> lin VI U F I US RO leaf o h.
  Proof.
    intros Op A o s s' O. revert s'. induction O as [o E|o x o' on r V1 N1 M1 E1 O IH|o x o' on n r V1 N1 M1 E1 On _ O IH]; intros s' T.
    - apply lin_leaf; [auto|now right|eauto].
    - destruct (hskip VI U F I US o h) eqn:Sk; [|apply lin_leaf; [auto|now left|eauto]].
      assert (L : olevel U o (LFlat x) o') by (split; [auto|split; [auto|exists on; auto]]).
      destruct (typed_next VI PF U F I US o h s' T _ _ L Sk) as (r' & -> & T').
      apply (lin_next VI U F I US RO _ o _ o' h Op L Sk). eauto.
    - destruct (hskip VI U F I US o h) eqn:Sk; [|apply lin_leaf; [auto|now left|eauto]].
      assert (L : olevel U o (LHier x n) o') by (split; [auto|split; [auto|exists on; auto]]).
      destruct (typed_next VI PF U F I US o h s' T _ _ L Sk) as (r' & -> & T').
      apply (lin_next VI U F I US RO _ o _ o' h Op L Sk). eauto.
  Qed.

  Lemma linear_total_linear RO o h : linear_total RO o h -> linear RO o h.
  Proof.
    induction 1 as [o|o h Op N A|o l0 o0 h Op L0 Sk0 H IH|o t h o1 on T M H IH|o hs H IH|o hs Hi H IH
                   |o hs H IH Id].
    - constructor.
    - apply lin_leaf; auto. apply A.
    - now apply (lin_next VI U F I US RO _ o l0 o0).
    - now apply (lin_local VI U F I US RO _ o t h o1 on).
    - now apply lin_sum.
    - now apply lin_fix.
    - now apply lin_inter.
  Qed.
End HomRewriteProps.
Print Assumptions C43_rewrite_total.
Print Assumptions C43_rewrite_agrees.
Print Assumptions C43_rewrite_total_agrees.
Print Assumptions C43_rewrite_image.
Print Assumptions C43_rewrite_same.
Print Assumptions C38_fixpoint_ends_iff.

(** ** Examples *)

(** What the elementary homomorphisms of the example do. *)
Fixpoint ex_rel (h : exhom) : asg N -> asg N -> Prop :=
  match h with
  | HFun t (Fmap l) => rfun t (fun b a => In a (replace l b))
  | HFun t (Fkeep l) => rfun t (fun b a => a = b /\ existsb (N.eqb b) l = true)
  | HComp a b => fun p q => exists m, ex_rel b p m /\ ex_rel a m q
  | _ => fun _ _ => False
  end.
Definition ex_RO (o : order nat) (h : exhom) : asg N -> asg N -> Prop := ex_rel h.

Fixpoint ex_linear (h : exhom) : bool :=
  match h with
  | HFun _ (Fmap _) | HFun _ (Fkeep _) => true
  | HComp a b => ex_linear a && ex_linear b
  | _ => false
  end.

Lemma ex_keep_pointwise l : pointwise FS nat exfun exind ex_user (Fkeep l) (fun b a => a = b /\ existsb (N.eqb b) l = true).
Proof.
  intros v a. cbn [f_apply ex_user ex_apply]. rewrite fs_in, filter_In. split.
  - intros [H1 H2]. exists a. split; [now apply set_in|auto].
  - intros (b & Hb & -> & Hl). split; [now apply set_in|auto].
Qed.

Lemma ex_linear_acts h : ex_linear h = true -> forall o s', typed FS PF_up nat exfun exind ex_user o h s' ->
  acts FS PF_up nat exfun exind ex_user o h (ex_RO o h).
Proof.
  induction h as [a b IHa IHb| | | | |t f| | | | | | | | |] using hom_ind'; intros Hl oo s' T; try discriminate.
  - cbn [ex_linear] in Hl. apply andb_true_iff in Hl. destruct Hl as [Ha Hb].
    destruct (typed_comp_inv _ _ _ _ _ _ _ _ _ _ T) as (s0 & O & Tb & Ta).
    apply (acts_comp FS FS_laws PF_up PF_up_ok nat exfun exind ex_user ex_honest oo a b s'); eauto.
  - destruct f as [n|l|l|]; try discriminate.
    + apply (acts_fun FS FS_laws PF_up PF_up_ok nat exfun exind ex_user ex_honest oo t _ s' _ T). apply ex_keep_pointwise.
    + apply (acts_fun FS FS_laws PF_up PF_up_ok nat exfun exind ex_user ex_honest oo t _ s' _ T). apply fmap_pointwise.
Qed.

(** It always ends. *)
Lemma ex_user_nofix : user_nofix FS nat exfun exind ex_user.
Proof.
  split; intros [|i] o v; cbn; auto. destruct (o_identifier o) as [id|]; [|reflexivity]. now destruct (usr id =? 1).
Qed.
Lemma ex_linear_ends h : ex_linear h = true -> forall o s', typed FS PF_up nat exfun exind ex_user o h s' ->
  forall s x, oshape nat o s -> fits FS PF_up s x -> exists y, evals FS PF_up nat exfun exind ex_user o h x y.
Proof.
  intros Hl o s' T s x O Fx.
  apply (halts FS FS_laws PF_up PF_up_ok nat exfun exind ex_user ex_honest ex_user_nofix o h s' T) with (s := s); auto.
  clear - Hl. induction h as [a b IHa IHb| | | | |t f| | | | | | | | |] using hom_ind'; try discriminate; auto.
  cbn [ex_linear] in Hl. apply andb_true_iff in Hl. destruct Hl as [Ha Hb]. cbn. now rewrite IHa, IHb.
Qed.

Notation ex_lin_at := (lin FS nat exfun exind ex_user ex_RO (fun o h => acts FS PF_up nat exfun exind ex_user o h (ex_RO o h) /\
  forall s x, oshape nat o s -> fits FS PF_up s x -> exists y, evals FS PF_up nat exfun exind ex_user o h x y)).
Lemma ex_lin h : ex_linear h = true -> forall o s s', oshape nat o s -> typed FS PF_up nat exfun exind ex_user o h s' ->
  ex_lin_at o h.
Proof.
  intros H. apply (lin_elementary FS PF_up nat exfun exind ex_user).
  - destruct h; try discriminate; reflexivity.
  - intros o s' T. split; [now apply (ex_linear_acts h H o s')|now apply (ex_linear_ends h H o s')].
Qed.
Notation ex_weak := (linear_total_linear FS PF_up nat exfun exind ex_user ex_RO exo).

(** The transitive closure of three rules: 6 -> 7 in "5"; 3 -> 4 -> 7 in "3" of the hierarchy "2"; and
    1 -> 2 in "1" when "5" becomes 8. *)
Definition rw_f : exhom := HFun 0 (Fmap [(6, 7); (7, 8)]%N).
Definition rw_l : exhom := ex_h5.
Definition rw_g : exhom := HComp (HFun 2 (Fmap [(1, 2)]%N)) (HFun 0 (Fkeep [8%N])).
Definition rw_h : exhom := HFix (HSum [HId; rw_f; rw_l; rw_g]).
Lemma rw_typed : ex_typed rw_h exs.
Proof. unfold rw_h, rw_f, rw_l, rw_g, ex_h5, exs. ty. Qed.
Lemma rw_lin : ex_lin_at exo rw_h.
Proof.
  apply lin_fix; [reflexivity|]. apply lin_sum. intros h [<-|[<-|[<-|[<-|[]]]]].
  - constructor.
  - apply (ex_lin rw_f eq_refl exo exs exs exo_shape). unfold rw_f, exs. ty.
  - unfold rw_l, ex_h5. apply (lin_local _ _ _ _ _ _ _ exo 1 _
      (match o_next exo with Some o => o | None => exo end)
      (match o_next exo with Some o => match o_nested o with Some n => n | None => o end | None => exo end)).
    + apply (tg_next nat exo (LFlat 2) (match o_next exo with Some o => o | None => exo end)); [lv|discriminate|].
      constructor. reflexivity.
    + reflexivity.
    + apply ex_lin with (s := SFlat 1 (SFlat 0 SEnd)) (s' := SFlat 1 (SFlat 0 SEnd)); [reflexivity|sh|ty].
  - apply (ex_lin rw_g eq_refl exo exs exs exo_shape). unfold rw_g, exs. ty.
Qed.
Definition rw_h' : exhom := Eval vm_compute in match rewrite FS nat exfun exind HP_up ex_user exo rw_h with Ok h => h | Err _ => HId end.
Lemma rw_rewritten : rewrite FS nat exfun exind HP_up ex_user exo rw_h = Ok rw_h'.
Proof. vm_compute. reflexivity. Qed.

(** It is a saturation fixpoint at the first variable, whose three parts are not empty. *)
Example C43_example_shape : exists f g l, rw_h' = HSatFix 2 f [g] l /\ f <> HId /\ l = HId.
Proof. unfold rw_h'. eexists _, _, _. split; [reflexivity|]. split; [discriminate|reflexivity]. Qed.

Example C43_example : forall x y z, fits FS PF_up exs x -> ex_evals rw_h x y -> ex_evals rw_h' x z -> z = y.
Proof.
  exact (proj2 (C43_rewrite_agrees FS FS_laws PF_up PF_up_ok nat exfun exind HP_up HP_up_ok ex_user ex_honest
    Nat.eqb nat_is_eqb exb exo rw_h rw_h' exs ex_RO exo_built rw_rewritten rw_typed (ex_weak _ rw_lin))).
Qed.

(** They are even the same partial function. *)
Example C43_example_same : forall x y, fits FS PF_up exs x -> (ex_evals rw_h' x y <-> ex_evals rw_h x y).
Proof.
  intros x y. apply (C43_rewrite_same FS FS_laws PF_up PF_up_ok nat exfun exind HP_up HP_up_ok ex_user ex_honest
    Nat.eqb nat_is_eqb exb exo rw_h rw_h' exs ex_RO x y exo_built rw_rewritten rw_typed rw_lin).
Qed.

(** Both evaluations end on { 0, 1 } x { 3, 4 } x { 5 } x { 6 }, and reach (2, (7, 5), 8). *)
Example C43_example_run : exists y z, ex_evals rw_h ex_x y /\ ex_evals rw_h' ex_x z /\
  contains (VI := FS) z (point 2 7 5 8) = true /\ contains (VI := FS) ex_x (point 2 7 5 8) = false.
Proof.
  assert (A : ask exo rw_h ex_x (point 2 7 5 8) = Some true) by (vm_compute; reflexivity).
  assert (B : ask exo rw_h' ex_x (point 2 7 5 8) = Some true) by (vm_compute; reflexivity).
  apply ask_spec in A, B. destruct A as (y & Ey & _), B as (z & Ez & Cz). exists y, z.
  split; [auto|]. split; [auto|]. split; [auto|]. vm_compute. reflexivity.
Qed.

(** Hence, from this operand, finitely many assignments can be reached. *)
Example C38_example_ends_iff : exists l, forall p q, contains (VI := FS) ex_x p = true ->
  clos_refl_trans _ (fun a c => (exists h, In h [HId; rw_f; rw_l; rw_g] /\ den FS nat exfun exind ex_user ex_RO exo h a c) /\
    follows FS exs c) p q -> In q l.
Proof.
  apply (C38_fixpoint_ends_iff FS FS_laws PF_up PF_up_ok nat exfun exind ex_user ex_honest Nat.eqb nat_is_eqb
    exb exo [HId; rw_f; rw_l; rw_g] exs ex_RO ex_x exo_built rw_typed (or_introl eq_refl) rw_lin).
  - apply box_fits.
  - destruct C43_example_run as (y & _ & Ey & _). now exists y.
Qed.

(** An intersection of three filters. *)
Definition rw_i : exhom := HInter [HFun 2 (Fkeep [1%N]); HFun 0 (Fkeep [6; 8]%N); ex_h3].
Lemma rw_i_typed : ex_typed rw_i exs.
Proof. unfold rw_i, ex_h3, exs. ty. Qed.
Lemma rw_i_lin : ex_lin_at exo rw_i.
Proof.
  assert (Tg : target nat exo 1 (match o_next exo with Some o => o | None => exo end)).
  { apply (tg_next nat exo (LFlat 2) (match o_next exo with Some o => o | None => exo end)); [lv|discriminate|].
    constructor. reflexivity. }
  assert (Kp : forall t l p q, ex_RO exo (HFun t (Fkeep l)) p q -> p = q).
  { intros t l p q H. unfold ex_RO in H. cbn [ex_rel] in H. induction H as [|a b q [-> _]| |]; congruence. }
  apply lin_inter; intros h [<-|[<-|[<-|[]]]].
  - apply ex_lin with (s := exs) (s' := exs); [reflexivity|exact exo_shape|]. unfold exs. ty.
  - apply ex_lin with (s := exs) (s' := exs); [reflexivity|exact exo_shape|]. unfold exs. ty.
  - unfold ex_h3. apply (lin_local _ _ _ _ _ _ _ exo 1 _ (match o_next exo with Some o => o | None => exo end)
      (match o_next exo with Some o => match o_nested o with Some n => n | None => o end | None => exo end) Tg).
    + reflexivity.
    + apply ex_lin with (s := SFlat 1 (SFlat 0 SEnd)) (s' := SFlat 1 (SFlat 0 SEnd)); [reflexivity|sh|ty].
  - apply fi_leaf; [reflexivity|left; reflexivity|apply Kp].
  - apply (fi_next _ _ _ _ _ _ exo (LFlat 2) (match o_next exo with Some o => o | None => exo end)); [reflexivity|lv|reflexivity|].
    apply (fi_next _ _ _ _ _ _ _ (LHier 1 (SFlat 1 (SFlat 0 SEnd)))
      (match o_next exo with Some o => match o_next o with Some o => o | None => o end | None => exo end)); [reflexivity|lv|reflexivity|].
    apply fi_leaf; [reflexivity|left; reflexivity|apply Kp].
  - unfold ex_h3. apply (fi_local _ _ _ _ _ _ exo 1 _ (match o_next exo with Some o => o | None => exo end)
      (match o_next exo with Some o => match o_nested o with Some n => n | None => o end | None => exo end) Tg).
    + reflexivity.
    + apply fi_leaf; [reflexivity|left; reflexivity|apply Kp].
Qed.
Definition rw_i' : exhom := Eval vm_compute in match rewrite FS nat exfun exind HP_up ex_user exo rw_i with Ok h => h | Err _ => HId end.
Lemma rw_i_rewritten : rewrite FS nat exfun exind HP_up ex_user exo rw_i = Ok rw_i'.
Proof. vm_compute. reflexivity. Qed.
Example C43_example_inter : rw_i' <> rw_i /\ forall x y, fits FS PF_up exs x -> (ex_evals rw_i' x y <-> ex_evals rw_i x y).
Proof.
  split; [discriminate|]. intros x y Fx.
  apply (C43_rewrite_total_agrees FS FS_laws PF_up PF_up_ok nat exfun exind HP_up HP_up_ok ex_user ex_honest
    Nat.eqb nat_is_eqb exb exo rw_i rw_i' exs ex_RO x y exo_built rw_i_rewritten rw_i_typed (ex_weak _ rw_i_lin)); auto.
  exact ex_user_nofix.
Qed.

(** ** A homomorphism that does not distribute over unions *)

(** In "5": 1 -> 2; adds 9 when there are exactly two values. And 1 -> 3 in "5", through "1". *)
Definition no_h : exhom :=
  HFix (HSum [HId; HFun 0 (Fmap [(1, 2)]%N); HFun 0 Fpair; HComp (HFun 2 (Fmap [])) (HFun 0 (Fmap [(1, 3)]%N))]).
Definition no_x : sdd (vt FS) := box [0%N] [0%N] [0%N] [1%N].
Definition no_h' : exhom := Eval vm_compute in match rewrite FS nat exfun exind HP_up ex_user exo no_h with Ok h => h | Err _ => HId end.

(** The original applies every operand to the same set, the rewritten one saturates "5" first: 9 is
    found by the second one only. *)
Theorem C43_rewrite_refuted : exists h' y z, ex_typed no_h exs /\ fits FS PF_up exs no_x /\
  rewrite FS nat exfun exind HP_up ex_user exo no_h = Ok h' /\ ex_evals no_h no_x y /\ ex_evals h' no_x z /\
  contains (VI := FS) y (point 0 0 0 9) = false /\ contains (VI := FS) z (point 0 0 0 9) = true /\ y <> z.
Proof.
  assert (A : ask exo no_h no_x (point 0 0 0 9) = Some false) by (vm_compute; reflexivity).
  assert (B : ask exo no_h' no_x (point 0 0 0 9) = Some true) by (vm_compute; reflexivity).
  apply ask_spec in A, B. destruct A as (y & Ey & Cy), B as (z & Ez & Cz). exists no_h', y, z.
  split; [unfold no_h, exs; ty|]. split; [apply box_fits|]. split; [vm_compute; reflexivity|].
  split; [auto|]. split; [auto|]. split; [auto|]. split; [auto|]. congruence.
Qed.
Print Assumptions C43_rewrite_refuted.
