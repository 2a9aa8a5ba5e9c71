(** * Properties of homomorphisms

    Notations: [evals o h x y] is "h(o, x) terminates and returns y"; [contains y q] is "the
    assignment q belongs to y"; [oshape o s] is "the order o describes SDDs of shape s"; [fits s x]
    is "x is an SDD of shape s, built by the library"; [typed o h s'] is "h can be applied with o and
    gives SDDs of shape s'" (the library checks nothing of the sort). *)

From Coq Require Import List Bool NArith Arith Lia Permutation Relations.
From Verif Require Import Base SortedSets Values Sdd SddFacts Orders OrdersProofs OrdersSdd DDModel.
From Verif Require Import OrdersProps DDGeneric DDProofs DDTheorems FlatSet Bitset Concrete.
From Verif Require Import Hom HomFacts HomEval HomTyped HomEqns HomLinear.
From Verif Require Import HomSum HomHalts HomComp HomInter HomFun HomPath HomRef HomConcrete.
Import ListNotations.

(** ** Tactics for the examples *)

(** [sh] proves [oshape o s], [lv] proves [olevel o l o'] (with [l] and [o'] unknown), for a
    concrete order [o]. *)
Ltac sh :=
  match goal with |- oshape _ ?o ?s =>
    let b := eval vm_compute in (o_empty o) in
    match b with
    | true => apply os_end; reflexivity
    | false =>
      let x := eval vm_compute in (o_variable o) in
      let n := eval vm_compute in (o_next o) in
      let m := eval vm_compute in (o_nested o) in
      match x with Some ?x => match n with Some ?n => match m with Some ?m =>
        let e := eval vm_compute in (o_empty m) in
        match e with
        | true => apply (os_flat _ o x n m); [reflexivity|reflexivity|reflexivity|reflexivity|sh]
        | false => apply (os_hier _ o x n m); [reflexivity|reflexivity|reflexivity|reflexivity|sh|sh]
        end end end end
    end
  end.
Ltac lv :=
  match goal with |- olevel _ ?o ?l ?o' =>
    let n := eval vm_compute in (o_next o) in
    let m := eval vm_compute in (o_nested o) in
    match n with Some ?n => match m with Some ?m =>
      unify o' n;
      split; [reflexivity|split; [reflexivity|exists m; split; [reflexivity|]]];
      first [reflexivity | split; [reflexivity|sh]]
    end end
  end.

Section TypedEq.
  Variable US : user (vt FS) nat exfun exind.
  Notation typed := (typed FS PF_up nat exfun exind US).
  Lemma ty_fun_next o l o' t f s s' : olevel nat o l o' -> lvar l <> t -> s = under l s' ->
    typed o' (HFun t f) s' -> typed o (HFun t f) s.
  Proof. intros L Nn -> T. econstructor; eauto. Qed.
  Lemma ty_local_next o l o' t h s s' : olevel nat o l o' -> lvar l <> t -> s = under l s' ->
    typed o' (HLocal t h) s' -> typed o (HLocal t h) s.
  Proof. intros L Nn -> T. econstructor; eauto. Qed.
End TypedEq.

Ltac ty_here :=
  match goal with |- typed _ _ _ _ _ _ ?o (HLocal ?t _) ?s =>
    let x := eval vm_compute in (o_variable o) in
    let m := eval vm_compute in (o_nested o) in
    match x with Some t => match m with Some ?m =>
      eapply (T_local_here _ _ _ _ _ _ o t _ _ m); [lv|reflexivity|sh|ty]
    end end
  end
with ty_next :=
  match goal with
  | |- typed _ _ _ _ _ _ ?o (HFun _ _) (SFlat ?x _) => eapply (ty_fun_next _ _ (LFlat x)); [lv|discriminate|reflexivity|ty]
  | |- typed _ _ _ _ _ _ ?o (HFun _ _) (SHier ?x ?n _) => eapply (ty_fun_next _ _ (LHier x n)); [lv|discriminate|reflexivity|ty]
  | |- typed _ _ _ _ _ _ ?o (HLocal _ _) (SFlat ?x _) => eapply (ty_local_next _ _ (LFlat x)); [lv|discriminate|reflexivity|ty]
  | |- typed _ _ _ _ _ _ ?o (HLocal _ _) (SHier ?x ?n _) => eapply (ty_local_next _ _ (LHier x n)); [lv|discriminate|reflexivity|ty]
  end
with ty := lazymatch goal with
  | |- typed _ _ _ _ _ _ _ HId _ => apply T_id; sh
  | |- typed _ _ _ _ _ _ _ (HFix _) _ => apply T_fix; [sh|ty]
  | |- typed _ _ _ _ _ _ _ (HComp _ _) _ => eapply T_comp; [sh|ty|ty]
  | |- typed _ _ _ _ _ _ _ (HIte _ _ _) _ => eapply T_ite; [sh|reflexivity|ty|ty|ty]
  | |- typed _ _ _ _ _ _ _ (HSum _) _ => apply T_sum; [discriminate|let h := fresh in let H := fresh in intros h H; cbn [In] in H;
      repeat (destruct H as [<-|H]; [ty|]); destruct H]
  | |- typed _ _ _ _ _ _ _ (HInter _) _ => apply T_inter; [discriminate|let h := fresh in let H := fresh in intros h H; cbn [In] in H;
      repeat (destruct H as [<-|H]; [ty|]); destruct H]
  | |- typed _ _ _ _ _ _ ?o (HFun ?t _) _ =>
    let x := eval vm_compute in (o_variable o) in
    match x with Some t => apply T_fun_here; sh | _ => ty_next end
  | |- typed _ _ _ _ _ _ ?o (HLocal ?t _) _ =>
    let x := eval vm_compute in (o_variable o) in
    match x with Some t => ty_here | _ => ty_next end
  | |- _ => let g := match goal with |- typed _ _ _ _ _ _ _ ?h _ => h end in
            let h := eval red in g in
            match goal with |- typed ?a ?b ?c ?d ?e ?f ?o _ ?s =>
              change (typed a b c d e f o h s) end; ty
  end.
Notation ex_typed := (typed FS PF_up nat exfun exind ex_user exo).
Notation ex_evals := (evals FS PF_up nat exfun exind ex_user exo).

Definition ex_x : sdd (vt FS) := box [0; 1]%N [3; 4]%N [5]%N [6]%N.
Lemma ex_x_fits : fits FS PF_up exs ex_x.
Proof. apply box_fits. Qed.
(** Adds one to variable "1"; adds one to "3" in the hierarchy "2"; keeps 3 in "3". *)
Definition ex_h1 : exhom := HFun 2 (Fadd 1).
Definition ex_h2 : exhom := HLocal 1 (HFun 1 (Fadd 1)).
Definition ex_h3 : exhom := HLocal 1 (HFun 1 (Fkeep [3%N])).
Definition ex_h4 : exhom := HLocal 1 (HFun 0 (Fkeep [5; 6]%N)).
(** 3 -> 4, 4 -> 7 in "3". *)
Definition ex_h5 : exhom := HLocal 1 (HFun 1 (Fmap [(3, 4); (4, 7)]%N)).
Lemma ex_h1_typed : ex_typed ex_h1 exs. Proof. unfold exs. ty. Qed.
Lemma ex_h2_typed : ex_typed ex_h2 exs. Proof. unfold exs. ty. Qed.
Lemma ex_h3_typed : ex_typed ex_h3 exs. Proof. unfold exs. ty. Qed.
Lemma ex_h4_typed : ex_typed ex_h4 exs. Proof. unfold exs. ty. Qed.
Lemma ex_h5_typed : ex_typed ex_h5 exs. Proof. unfold exs. ty. Qed.

(** ** The properties *)

Lemma Forall2_in_left A B (R : A -> B -> Prop) l m a : Forall2 R l m -> In a l -> exists b, In b m /\ R a b.
Proof.
  induction 1 as [|x y l m H1 H2 IH]; [intros []|]. intros [<-|H]; [exists y; split; [now left|auto]|].
  destruct (IH H) as (b & Hb & R'). exists b. split; [now right|auto].
Qed.

Section HomProps.
  Variable VI : values_impl.
  Hypothesis VL : values_laws VI.
  Variable PF : platform VI.
  Hypothesis PO : platform_ok PF.
  Variables U F I : Type.
  Notation V := (vt VI).
  Notation sdd := (sdd V).
  Notation hom := (hom V U F I).
  Variable US : user V U F I.
  Variable HP : hplatform V U F I.
  Hypothesis HPO : hplatform_ok HP.
  Notation order := (order U).
  Notation asg := (asg (elt VI)).
  Notation fits := (fits VI PF).
  Notation oshape := (oshape U).
  Notation olevel := (olevel U).
  Notation target := (target U).
  Notation typed := (typed VI PF U F I US).
  Notation hskip := (hskip VI U F I US).
  Notation hselector := (hselector VI U F I US).
  Notation evals := (evals VI PF U F I US).
  Notation happly := (happly VI PF U F I US).
  Notation residual := (residual VI).
  Notation nofix := (nofix VI U F I).
  Notation user_nofix := (user_nofix VI U F I US).
  Notation acts := (acts VI PF U F I US).
  Notation composition := (composition VI U F I).
  Notation mk_sum := (mk_sum VI U F I HP).
  Notation mk_inter := (mk_inter VI U F I HP).
  Notation fixpoint := (fixpoint VI U F I).
  Notation if_then_else := (if_then_else VI U F I HP US).
  Hypothesis HO : honest VI PF U F I US.

  (** Every order built by the library has a shape. *)
  Theorem C55_orders_have_shapes ueqb (EQ : is_eqb ueqb) (b : builder U) o :
    mk_order U ueqb b = Ok o -> oshape o (shape_of U b).
  Proof.
    intros E. pose proof (mk_order_ok U ueqb EQ b) as H. rewrite E in H. destruct H as [-> _].
    exact (sees_oshape U b _ 0 [] (sees_whole U ueqb b)).
  Qed.

  (** Whatever the bounds of the model, the evaluation of a well-typed homomorphism never fails: it
      gives a result of the announced shape or reaches these bounds. *)
  Theorem C55_never_fails o h s s' x n fuel : typed o h s' -> oshape o s -> fits s x ->
    (exists y, happly n fuel o h x = Ok y /\ fits s' y) \/ happly n fuel o h x = Err EFuel.
  Proof.
    intros T O Fx. destruct (happly_safe VI VL PF PO U F I US HO o h s s' x n fuel T O Fx) as [(y & E)|E]; auto.
    left. exists y. split; [auto|]. apply (evals_fits VI VL PF PO U F I US HO o h s s' x); auto. exists n, fuel. auto.
  Qed.

  (** Without fixpoint, it terminates. *)
  Theorem C55_terminates : user_nofix -> forall o h s s' x, typed o h s' -> nofix h = true -> oshape o s -> fits s x ->
    exists y, evals o h x y.
  Proof. intros Un o h s s' x T Nf O Fx. now apply (halts VI VL PF PO U F I US HO Un o h s' T Nf s x). Qed.

  (** A result is unique. *)
  Theorem C55_deterministic o h x y z : evals o h x y -> evals o h x z -> y = z.
  Proof. apply evals_fun. Qed.

  Theorem C35_zero o h y : evals o h Zero y <-> y = Zero.
  Proof. apply evals_zero. Qed.

  Theorem C35_identity o x y : evals o HId x y <-> y = x.
  Proof. apply evals_id. Qed.

  (** composition(l, r), with all its simplifications: when the three evaluations end, they agree. *)
  Theorem C35_composition l r : exists h, composition l r = Ok h /\
    forall o s s', oshape o s -> typed o r s -> typed o l s' -> mergeable VI PF U F I US o l ->
    typed o h s' /\ forall x y z w, fits s x -> evals o h x y -> evals o r x z -> evals o l z w -> y = w.
  Proof.
    destruct (composition_total VI U F I l r) as (h & E). exists h. split; [auto|].
    intros o s s' O Tr Tl Mg. assert (T : typed o (HComp l r) s') by (econstructor; eauto). split.
    - unfold Hom.composition in E. now apply (comp_typed VI PF U F I US _ l r h E o s').
    - intros x y z w Fx Ey Ez Ew. now apply (composition_agrees VI VL PF PO U F I US HO l r h o s s' x y w z).
  Qed.

  (** Without fixpoint, composition(l, r)(x) is l(r(x)), for every x. *)
  Theorem C35_composition_total l r h o s s' x y : composition l r = Ok h -> user_nofix ->
    nofix l = true -> nofix r = true -> oshape o s -> typed o r s -> typed o l s' ->
    mergeable VI PF U F I US o l -> fits s x ->
    (evals o h x y <-> exists z, evals o r x z /\ evals o l z y).
  Proof.
    intros E Un Nl Nr O Tr Tl Mg Fx.
    apply (composition_nofix VI VL PF PO U F I US HO l r h o s s' x y); auto. econstructor; eauto.
  Qed.

  (** Without simplification by the constructor, no hypothesis is needed. *)
  Theorem C35_composition_plain l r o s s' x y : oshape o s -> typed o r s -> typed o l s' -> fits s x ->
    (evals o (HComp l r) x y <-> exists z, evals o r x z /\ evals o l z y).
  Proof.
    intros O Tr Tl Fx. apply (E_comp VI VL PF PO U F I US HO o s O l r s' x y); auto. econstructor; eauto.
  Qed.

  (** sum(o, {l1, ..., ln}), with all its simplifications. *)
  Theorem C36_sum l : l <> [] -> exists h, mk_sum l = Ok h /\
    forall o s s', oshape o s -> (forall k, In k l -> typed o k s') ->
    typed o h s' /\
    forall x y, fits s x ->
      (evals o h x y <-> exists ys, Forall2 (fun k z => evals o k x z) l ys /\ api_sum VI PF ys = Ok y).
  Proof.
    intros Ne. destruct (mk_sum_total VI U F I HP HPO l Ne) as (h & E). exists h. split; [auto|].
    intros o s s' O T. apply (mk_sum_ok VI VL PF PO U F I HP HPO US HO o s l h s' E O T).
  Qed.

  (** In terms of sets: the result is the union of the results. *)
  Theorem C36_sum_set l h o s s' x y : mk_sum l = Ok h -> oshape o s -> (forall k, In k l -> typed o k s') ->
    fits s x -> evals o h x y ->
    forall q, contains y q = true <-> exists k z, In k l /\ evals o k x z /\ contains z q = true.
  Proof.
    intros E O T Fx Ey q. destruct (mk_sum_ok VI VL PF PO U F I HP HPO US HO o s l h s' E O T) as [_ H].
    apply (H x y Fx) in Ey. destruct Ey as (ys & Hys & Es).
    assert (Fy : forall z, In z ys -> fits s' z) by (apply (evals_all_fits VI VL PF PO U F I US HO o l s s' x ys); auto).
    destruct (sum_ok VI VL PF PO s' ys Fy) as (y' & Es' & _ & C). rewrite Es in Es'. injection Es' as <-.
    rewrite C, existsb_exists. split.
    - intros (z & Hz & Cz). destruct (evals_all_in VI PF U F I US o l x ys Hys z Hz) as (k & Hk & Ek). eauto.
    - intros (k & z & Hk & Ek & Cz). destruct (Forall2_in_left _ _ _ _ _ _ Hys Hk) as (z' & Hz' & Ez').
      exists z'. split; [auto|]. now rewrite <- (evals_fun VI PF U F I US _ _ _ _ _ Ek Ez').
  Qed.

  Theorem C36_empty : mk_sum [] = Err CInvalid.
  Proof. apply mk_sum_invalid. Qed.

  (** intersection(o, {l1, ..., ln}) of selectors whose parts terminate. Missing: see
      [C37_intersection_refuted]. *)
  Theorem C37_intersection_partial l : l <> [] -> exists h, mk_inter l = Ok h /\
    forall o s s', oshape o s -> (forall k, In k l -> typed o k s' /\ hselector k = true /\ itree VI PF U F I US o k) ->
    typed o h s' /\
    forall x y, fits s x ->
      (evals o h x y <-> exists ys, Forall2 (fun k z => evals o k x z) l ys /\ api_intersection VI PF ys = Ok y).
  Proof.
    intros Ne. destruct (mk_inter_total VI U F I HP HPO l Ne) as (h & E). exists h. split; [auto|].
    intros o s s' O T. apply (mk_inter_ok VI VL PF PO U F I HP HPO US HO o s l h s' E O T).
  Qed.

  (** In particular for selectors without fixpoint. *)
  Theorem C37_intersection_nofix_partial l h o s s' x y : mk_inter l = Ok h -> user_nofix -> oshape o s ->
    (forall k, In k l -> typed o k s' /\ hselector k = true /\ nofix k = true) -> fits s x ->
    (evals o h x y <-> exists ys, Forall2 (fun k z => evals o k x z) l ys /\ api_intersection VI PF ys = Ok y).
  Proof.
    intros E Un O T Fx. apply (mk_inter_ok VI VL PF PO U F I HP HPO US HO o s l h s' E O); auto.
    intros k Hk. destruct (T k Hk) as (A & B & C). split; [auto|split; [auto|]].
    now apply (nofix_itree VI VL PF PO U F I US HO Un k o s').
  Qed.

  (** An intersection whose operands all terminate, once constructed. *)
  Theorem C37_intersection_plain l o s s' x y : l <> [] -> oshape o s -> (forall k, In k l -> typed o k s') -> fits s x ->
    (forall k, In k l -> exists z, evals o k x z) ->
    (evals o (HInter l) x y <-> exists ys, Forall2 (fun k z => evals o k x z) l ys /\ api_intersection VI PF ys = Ok y).
  Proof.
    intros Ne O T Fx Ex. assert (Ti : typed o (HInter l) s') by now constructor.
    pose proof (E_inter VI VL PF PO U F I US HO o s O l s' x) as K.
    split; [|now apply K].
    intros Ey. destruct (evals_all_ex VI PF U F I US o l x Ex) as (ys & Hys).
    assert (Fy : forall z, In z ys -> fits s' z) by (apply (evals_all_fits VI VL PF PO U F I US HO o l s s' x ys); auto).
    destruct (inter_ok VI VL PF PO s' ys) as (y' & E' & _); auto.
    { intros ->. inversion Hys; subst. congruence. }
    exists ys. split; [auto|]. rewrite E'. f_equal. apply (evals_fun VI PF U F I US o (HInter l) x y' y); auto.
    apply K; auto. exists ys. auto.
  Qed.

  (** fixpoint(h): its result is reached from x by iterating h, and is a fixed point of h; conversely
      it terminates as soon as the iteration reaches a fixed point. *)
  Theorem C38_fixpoint h o s x y : oshape o s -> typed o h s -> fits s x ->
    (evals o (fixpoint h) x y <-> exists k, HomEval.iter (evals o h) k x y /\ evals o h y y).
  Proof.
    intros O T Fx. apply (fixpoint_evals VI VL PF PO U F I US HO h o s x y); auto. now constructor.
  Qed.

  (** fixpoint(sum {Id, h1, ..., hn}), with monotone hi: the least set containing x and closed under
      all the hi. *)
  Theorem C38_least l h o s x y : mk_sum l = Ok h -> In HId l -> oshape o s ->
    (forall k, In k l -> typed o k s /\ monotone VI PF U F I US o k) -> fits s x ->
    evals o (fixpoint h) x y ->
    fits s y /\
    (forall p, contains x p = true -> contains y p = true) /\
    (forall k z, In k l -> evals o k y z -> forall p, contains z p = true -> contains y p = true) /\
    (forall c, fits s c -> (forall p, contains x p = true -> contains c p = true) ->
       (forall k, In k l -> exists z, evals o k c z /\ forall p, contains z p = true -> contains c p = true) ->
       forall p, contains y p = true -> contains c p = true).
  Proof.
    intros E Hid O T Fx Ey.
    destruct (sum_fuel_ok VI VL PF PO U F I HP HPO US HO _ l h o s E) as [Th Sm].
    { intros k Hk. now apply T. }
    { eauto. }
    assert (Tf : typed o (HFix h) s) by now constructor.
    destruct (fixpoint_least VI VL PF PO U F I US HO h o s x y l Tf Fx Sm Hid T Ey) as (A & B & C).
    split.
    { apply (C38_fixpoint h o s x y O Th Fx) in Ey. destruct Ey as (k & It & _).
      now apply (iter_fits VI VL PF PO U F I US HO o h s Th O k x y). }
    split; [exact A|split; [exact B|]].
    intros c Fc Hx Hk. apply (C c Fc Hx).
    - intros k z Hin Ek. destruct (Hk k Hin) as (z' & Ez' & Hz'). intros p.
      rewrite (evals_fun VI PF U F I US _ _ _ _ _ Ek Ez'). auto.
    - intros k Hin. destruct (Hk k Hin) as (z' & Ez' & _). eauto.
  Qed.

  (** if_then_else(p, t, e). *)
  Theorem C39_rejects p t e : if_then_else p t e = Err CInvalid <-> hselector p = false.
  Proof. symmetry. apply if_then_else_rejects. Qed.

  Theorem C39_if_then_else_partial p t e : hselector p = true -> exists h, if_then_else p t e = Ok h /\
    forall o s s', oshape o s -> typed o p s -> typed o t s' -> typed o e s' ->
    typed o h s' /\
    ((p = HId \/ t <> e \/ additive VI PF U F I US o t) ->
     forall x y c a d b y', fits s x -> evals o h x y ->
       evals o p x c -> evals o t c a -> api_minus VI PF x c = Ok d -> evals o e d b ->
       api_sum VI PF [a; b] = Ok y' -> y = y').
  Proof.
    intros Sel. destruct (if_then_else p t e) as [h|er] eqn:E.
    - exists h. split; [auto|]. intros o s s' O Tp Tt Te.
      assert (T : typed o (HIte p t e) s') by (econstructor; eauto). split.
      + apply (if_then_else_typed VI PF U F I HP HPO US p t e h o s' E T).
      + intros Hc x y c a d b y' Fx Ey E1 E2 E3 E4 E5.
        apply (if_then_else_agrees VI VL PF PO U F I HP HPO US HO p t e h o s s' x y y' E T O Fx Hc Ey).
        exists c, a, d, b. auto.
    - exfalso. revert E. unfold Hom.if_then_else. rewrite Sel. cbn [negb].
      destruct (is_id VI U F I p); [discriminate|]. destruct (hom_eqb VI U F I HP t e); discriminate.
  Qed.

  (** One side ends exactly when the other does, unless the constructor drops a condition that is not the identity;
      then it is enough that nothing is a fixpoint. *)
  Theorem C39_if_then_else_iff_partial p t e h o s s' x y : if_then_else p t e = Ok h -> oshape o s -> typed o p s ->
    typed o t s' -> typed o e s' -> fits s x ->
    (p = HId \/ t <> e \/ (additive VI PF U F I US o t /\ user_nofix /\ nofix p = true /\ nofix t = true)) ->
    (evals o h x y <->
     exists c a d b, evals o p x c /\ evals o t c a /\ api_minus VI PF x c = Ok d /\ evals o e d b /\
       api_sum VI PF [a; b] = Ok y).
  Proof.
    intros E O Tp Tt Te Fx Hc.
    destruct (if_then_else_cases VI U F I HP HPO US p t e h E) as [Sel Cs].
    assert (T : typed o (HIte p t e) s') by (econstructor; eauto).
    assert (Ag : forall z, evals o h x z ->
              (exists c a d b, evals o p x c /\ evals o t c a /\ api_minus VI PF x c = Ok d /\ evals o e d b) ->
              exists c a d b, evals o p x c /\ evals o t c a /\ api_minus VI PF x c = Ok d /\ evals o e d b /\
                api_sum VI PF [a; b] = Ok z).
    { intros z Ez (c & a & d & b & E1 & E2 & E3 & E4).
      assert (Fc : fits s c) by (apply (evals_fits VI VL PF PO U F I US HO o p s s x); auto).
      destruct (minus_ok VI VL PF PO s x c Fx Fc) as (d' & Ed & Fd & _). rewrite E3 in Ed. injection Ed as <-.
      destruct (sum_ok VI VL PF PO s' [a; b]) as (y1 & Ey1 & _ & _).
      { intros w [<-|[<-|[]]].
        - apply (evals_fits VI VL PF PO U F I US HO o t s s' c); auto.
        - apply (evals_fits VI VL PF PO U F I US HO o e s s' d); auto. }
      exists c, a, d, b. repeat (split; [assumption|]). rewrite Ey1. f_equal. symmetry.
      apply (if_then_else_agrees VI VL PF PO U F I HP HPO US HO p t e h o s s' x z y1 E T O Fx); auto.
      - tauto.
      - exists c, a, d, b. auto. }
    assert (Bk : (exists z, evals o h x z) ->
              (exists c a d b, evals o p x c /\ evals o t c a /\ api_minus VI PF x c = Ok d /\ evals o e d b /\
                 api_sum VI PF [a; b] = Ok y) -> evals o h x y).
    { intros (z & Ez) (c & a & d & b & E1 & E2 & E3 & E4 & E5).
      rewrite <- (if_then_else_agrees VI VL PF PO U F I HP HPO US HO p t e h o s s' x z y E T O Fx); auto.
      - tauto.
      - exists c, a, d, b. auto. }
    destruct Cs as [->|[[-> ->]|[Ee ->]]].
    - apply (E_ite VI VL PF PO U F I US HO o s O p t e s' x y); auto.
    - assert (M : api_minus VI PF x x = Ok Zero).
      { destruct (minus_ok VI VL PF PO s x x Fx Fx) as (d & Ed & Fd & Cd). rewrite Ed. f_equal.
        apply (fits_zero_iff VI VL PF s); auto. intros q. rewrite Cd. now destruct (contains x q). }
      split.
      + intros Ey. apply (Ag y Ey). exists x, y, Zero, Zero.
        split; [now apply evals_id|]. split; [auto|]. split; [auto|now apply evals_zero].
      + intros Ex. apply Bk; [|exact Ex]. destruct Ex as (c & a & d & b & E1 & E2 & _).
        apply evals_id in E1. subst c. eauto.
    - subst e. destruct Hc as [->|[Hc|(Ad & Un & Np & Nt)]]; [|congruence|].
      + assert (M : api_minus VI PF x x = Ok Zero).
        { destruct (minus_ok VI VL PF PO s x x Fx Fx) as (d & Ed & Fd & Cd). rewrite Ed. f_equal.
          apply (fits_zero_iff VI VL PF s); auto. intros q. rewrite Cd. now destruct (contains x q). }
        split.
        * intros Ey. apply (Ag y Ey). exists x, y, Zero, Zero.
          split; [now apply evals_id|]. split; [auto|]. split; [auto|now apply evals_zero].
        * intros Ex. apply Bk; [|exact Ex]. destruct Ex as (c & a & d & b & E1 & E2 & _).
          apply evals_id in E1. subst c. eauto.
      + destruct (halts VI VL PF PO U F I US HO Un o p s Tp Np s x O Fx) as (c & Ec).
        assert (Fc : fits s c) by (apply (evals_fits VI VL PF PO U F I US HO o p s s x); auto).
        destruct (minus_ok VI VL PF PO s x c Fx Fc) as (d & Ed & Fd & _).
        destruct (halts VI VL PF PO U F I US HO Un o t s' Tt Nt s c O Fc) as (a & Ea).
        destruct (halts VI VL PF PO U F I US HO Un o t s' Tt Nt s d O Fd) as (b & Eb).
        split.
        * intros Ey. apply (Ag y Ey). exists c, a, d, b. auto.
        * intros Ex. apply Bk; [|exact Ex]. apply (halts VI VL PF PO U F I US HO Un o t s' Tt Nt s x O Fx).
  Qed.

  (** Without simplification by the constructor, no hypothesis is needed. *)
  Theorem C39_if_then_else_plain p t e o s s' x y : oshape o s -> hselector p = true -> typed o p s -> typed o t s' ->
    typed o e s' -> fits s x ->
    (evals o (HIte p t e) x y <->
     exists c a d b, evals o p x c /\ evals o t c a /\ api_minus VI PF x c = Ok d /\ evals o e d b /\
       api_sum VI PF [a; b] = Ok y).
  Proof.
    intros O Sel Tp Tt Te Fx. apply (E_ite VI VL PF PO U F I US HO o s O p t e s' x y); auto. econstructor; eauto.
  Qed.

  (** local(t, h), whatever the nested homomorphism: in the set x, the nested assignments of t that
      have the same continuations are together replaced by their image by h. *)
  Theorem C40_local t h o s s' on n' x y : oshape o s -> local_at U o t s' on n' -> typed on h n' ->
    fits s x -> evals o (HLocal t h) x y ->
    fits s' y /\
    forall q, mset VI y q <-> inside VI t (img VI PF U F I US on h) (mset VI x) q.
  Proof.
    intros O L T Fx Ey. assert (Tl : typed o (HLocal t h) s') by (apply typed_local_iff; eauto). split.
    - now apply (evals_fits VI VL PF PO U F I US HO o (HLocal t h) s s' x).
    - now apply (local_sem VI VL PF PO U F I US HO o t h s' on n' L T s x y).
  Qed.

  (** When h transforms each nested assignment on its own (h acts as the relation R), so does local. *)
  Theorem C40_local_linear t h o s s' o1 on R x y : oshape o s -> typed o (HLocal t h) s' -> target o t o1 ->
    o_nested o1 = Some on -> acts on h R -> fits s x -> evals o (HLocal t h) x y ->
    forall q, contains y q = true <-> exists p, contains x p = true /\ rlocal t R p q.
  Proof.
    intros O T Tg M A Fx Ey q. apply (acts_local VI VL PF PO U F I US HO o t h s' o1 on R T Tg M A s x y O Fx Ey q).
  Qed.

  (** function(o, id, f), with its carrier, for a flat variable. *)
  Theorem C41_function ueqb (EQ : is_eqb ueqb) (b : builder U) o u s : mk_order U ueqb b = Ok o -> In u (users b) ->
    oshape o s ->
    exists path on t o1, goto U o path on /\ target on t o1 /\ o_identifier o1 = Some (user_id u) /\
    forall f, exists h, function VI U F I ueqb o u f = Ok h /\
      ((exists oe, o_nested o1 = Some oe /\ o_empty oe = true) ->
       forall x, fits s x ->
       (exists y, evals o h x y) /\
       forall y, evals o h x y -> fits s y /\
         forall q, mset VI y q <-> along VI path (changed VI t (f_apply US f)) (mset VI x) q).
  Proof. apply (function_ok VI VL PF PO U F I ueqb EQ US HO b o u s). Qed.

  Theorem C41_unknown ueqb (EQ : is_eqb ueqb) (b : builder U) o u f : mk_order U ueqb b = Ok o -> ~ In u (users b) ->
    function VI U F I ueqb o u f = Err (COrder (ENotFound u)).
  Proof.
    intros E Hu. unfold Hom.function.
    pose proof (mk_order_ok U ueqb EQ b) as Hm. rewrite E in Hm. destruct Hm as [-> ND].
    pose proof (o_node_ok U ueqb EQ b u) as Hn.
    destruct (o_node U ueqb (order_of ueqb b) u) as [n|e] eqn:En; [tauto|]. destruct Hn as [-> _]. reflexivity.
  Qed.

  (** A function that transforms each value on its own. *)
  Theorem C41_pointwise o t f s s' phi x y : oshape o s -> typed o (HFun t f) s' ->
    (forall v a, v_mem VI (f_apply US f v) a = true <-> exists b, v_mem VI v b = true /\ phi b a) ->
    fits s x -> evals o (HFun t f) x y ->
    forall q, contains y q = true <-> exists p, contains x p = true /\ rfun t phi p q.
  Proof.
    intros O T Ph Fx Ey q. apply (acts_fun VI VL PF PO U F I US HO o t f s' phi T Ph s x y O Fx Ey q).
  Qed.

  (** Skipping the first variable: evaluating h below it, on what follows each of its values, gives
      exactly the results of h. *)
  Theorem C42_skip o l o' h s r' x y : olevel o l o' -> oshape o' s -> fits (under l s) x ->
    hskip o h = true -> typed o' h r' ->
    (evals o h x y <-> fits (under l r') y /\ forall k, evals o' h (residual x k) (residual y k)).
  Proof. apply (ev_skip VI VL PF PO U F I US HO o l o' h s r' x y). Qed.

  (** [residual x k] is the set of the continuations of [k]. *)
  Theorem C42_residual l s x k q : fits (under l s) x ->
    (contains (residual x k) q = true <-> contains x (acons VI (lvar l) k q) = true).
  Proof. intros Fx. now rewrite (residual_contains VI PF l s x k q). Qed.

  (** The composite homomorphisms evaluated on the whole diagram, never skipping. *)
  Theorem C42_whole h o s s' x y : oshape o s -> typed o h s' -> fits s x ->
    (ref VI PF U F I US h o x y -> evals o h x y) /\
    (nointer VI U F I h = true -> evals o h x y -> ref VI PF U F I US h o x y).
  Proof.
    intros O T Fx. split.
    - apply (ref_evals VI VL PF PO U F I US HO h o s s' x y O T Fx).
    - apply (evals_ref VI VL PF PO U F I US HO h o s s' x y O T Fx).
  Qed.

  (** What selector() is true of: the homomorphisms made of the identity and of what the user declared as selectors; in an
      if_then_else the condition has been checked at the construction (C39). *)
  Inductive selects : hom -> Prop :=
  | sel_comp : forall l r, selects l -> selects r -> selects (HComp l r)
  | sel_fix : forall h, selects h -> selects (HFix h)
  | sel_fun : forall t f, f_sel US f = true -> selects (HFun t f)
  | sel_id : selects HId
  | sel_ite : forall p t e, selects t -> selects e -> selects (HIte p t e)
  | sel_ind : forall i, i_sel US i = true -> selects (HInd i)
  | sel_inter : forall l, (forall h, In h l -> selects h) -> selects (HInter l)
  | sel_local : forall t h, selects h -> selects (HLocal t h)
  | sel_satfix : forall x f g l, selects f -> (forall h, In h g -> selects h) -> selects l -> selects (HSatFix x f g l)
  | sel_satinter : forall x f g l, (forall h, f = Some h \/ In h g \/ l = Some h -> selects h) -> selects (HSatInter x f g l)
  | sel_satsum : forall x f g l, (forall h, f = Some h \/ In h g \/ l = Some h -> selects h) -> selects (HSatSum x f g l)
  | sel_sum : forall l, (forall h, In h l -> selects h) -> selects (HSum l).
  Theorem C44_declared : forall h, hselector h = true <-> selects h.
  Proof.
    assert (L : forall l, Forall (fun h => hselector h = true <-> selects h) l ->
                (forallb hselector l = true <-> forall h, In h l -> selects h)).
    { intros l H. rewrite forallb_forall, Forall_forall in *. split; intros K h Hh; apply H; auto. }
    assert (Op : forall f, (forall h, f = Some h -> (hselector h = true <-> selects h)) ->
                 (match f with Some h => hselector h | None => true end = true <-> forall h, f = Some h -> selects h)).
    { intros [k|] H; split; try discriminate; auto.
      - intros K h [= <-]. now apply H.
      - intros K. apply H; auto. }
    intros h. induction h as [l r IHl IHr|o v k IH|o v k IH|x|k IH|t f| |p t e IHp IHt IHe|i|l IH|t k IH|x f g l IHf IHg IHl
                             |x f g l IHf IHg IHl|x f g l IHf IHg IHl|l IH] using hom_ind'; cbn [Hom.hselector];
      rewrite ?andb_true_iff.
    - rewrite IHl, IHr. split; [intros []; now constructor|intros K; inversion K; auto].
    - split; [discriminate|intros K; inversion K].
    - split; [discriminate|intros K; inversion K].
    - split; [discriminate|intros K; inversion K].
    - rewrite IH. split; [now constructor|intros K; inversion K; auto].
    - split; [now constructor|intros K; inversion K; auto].
    - split; [constructor|auto].
    - rewrite IHt, IHe. split; [intros []; now constructor|intros K; inversion K; auto].
    - split; [now constructor|intros K; inversion K; auto].
    - rewrite (L l IH). split; [now constructor|intros K; inversion K; auto].
    - rewrite IH. split; [now constructor|intros K; inversion K; auto].
    - rewrite IHf, IHl, (L g IHg). split; [intros [[] ?]; now constructor|intros K; inversion K; auto].
    - rewrite (Op f IHf), (Op l IHl), (L g IHg). split.
      + intros [[] ?]. constructor. intros h [?|[?|?]]; auto.
      + intros K. inversion K as [| | | | | | | | |? ? ? ? A| |]; subst. repeat split; intros h Hh; apply A; auto.
    - rewrite (Op f IHf), (Op l IHl), (L g IHg). split.
      + intros [[] ?]. constructor. intros h [?|[?|?]]; auto.
      + intros K. inversion K as [| | | | | | | | | |? ? ? ? A|]; subst. repeat split; intros h Hh; apply A; auto.
    - rewrite (L l IH). split; [now constructor|intros K; inversion K; auto].
  Qed.
  Theorem C44_selectors o h s s' x y : typed o h s' -> oshape o s -> fits s x -> hselector h = true ->
    evals o h x y -> forall p, contains y p = true -> contains x p = true.
  Proof. apply (evals_selector VI VL PF PO U F I US HO o h s s' x y). Qed.
End HomProps.

(** ** Concrete cases *)

Lemma ex_user_nofix : user_nofix FS nat exfun exind ex_user.
Proof.
  split; intros i o v.
  - destruct i as [|i]; [reflexivity|]. cbn [i_flat ex_user]. destruct (o_identifier o) as [id|]; [|reflexivity].
    destruct (Nat.eqb (usr id) 1); reflexivity.
  - reflexivity.
Qed.

Notation ex_laws := FS_laws (only parsing).

(** The results exist and are the expected ones. *)
Ltac run := match goal with |- exists y, evals _ _ _ _ _ _ ?o ?h ?x y /\ contains y ?p = ?b =>
  apply (ask_spec o h x p b); vm_compute; reflexivity end.

Example C55_example : exists y, ex_evals ex_h2 ex_x y /\ fits FS PF_up exs y.
Proof.
  destruct (C55_terminates FS FS_laws PF_up PF_up_ok nat exfun exind ex_user ex_honest ex_user_nofix
              exo ex_h2 exs exs ex_x ex_h2_typed eq_refl exo_shape ex_x_fits) as (y & E).
  exists y. split; [auto|].
  apply (evals_fits FS FS_laws PF_up PF_up_ok nat exfun exind ex_user ex_honest exo ex_h2 exs exs ex_x);
    auto using ex_h2_typed, exo_shape, ex_x_fits.
Qed.
Example C55_example_orders : mk_order nat Nat.eqb exb = Ok exo /\ oshape nat exo exs.
Proof. split; [reflexivity|]. apply (C55_orders_have_shapes nat Nat.eqb nat_is_eqb exb). reflexivity. Qed.

Definition exn : order nat := Eval vm_compute in match o_next exo with Some o => match o_nested o with Some n => n | None => o end | None => exo end.
Definition exh : order nat := Eval vm_compute in match o_next exo with Some o => o | None => exo end.
Lemma ex_target : target nat exo 1 exh.
Proof.
  apply (tg_next _ exo (LFlat 2) exh); [lv|discriminate|]. constructor. reflexivity.
Qed.
Lemma ex_nested : o_nested exh = Some exn.
Proof. reflexivity. Qed.

(** Values replaced one by one. *)
Lemma fmap_pointwise l : pointwise FS nat exfun exind ex_user (Fmap l) (fun b a => In a (replace l b)).
Proof.
  intros v a. cbn [f_apply ex_user ex_apply]. rewrite fs_in, in_flat_map. split.
  - intros (b & Hb & Ha). exists b. split; [now apply set_in|auto].
  - intros (b & Hb & Ha). exists b. split; [now apply set_in|auto].
Qed.
Lemma ex_h5_clin : exists R, clin FS PF_up nat exfun exind ex_user exo ex_h5 R.
Proof.
  eexists. eapply cl_local; [exact ex_target|exact ex_nested|]. apply cl_other; [exact Logic.I|].
  apply (acts_fun FS FS_laws PF_up PF_up_ok nat exfun exind ex_user ex_honest _ _ _ (SFlat 1 (SFlat 0 SEnd)));
    [|apply fmap_pointwise]. ty.
Qed.

(** Two locals on the same hierarchy are merged: 3 -> 4 -> 7. *)
Example C35_example : exists h, composition FS nat exfun exind ex_h5 ex_h2 = Ok h /\
  (forall a b, h <> HComp a b) /\ ex_typed ex_h5 exs /\ ex_typed ex_h2 exs /\
  mergeable FS PF_up nat exfun exind ex_user exo ex_h5 /\
  exists y, ex_evals h ex_x y /\ contains y (point 0 7 5 6) = true.
Proof.
  eexists. split; [reflexivity|]. split; [discriminate|]. split; [apply ex_h5_typed|].
  split; [apply ex_h2_typed|]. split; [exact ex_h5_clin|]. run.
Qed.

(** When the second homomorphism depends on the whole set of values, merging two locals changes the
    result. *)
Definition ex_pair : exhom := HLocal 1 (HFun 1 Fpair).
Definition ex_spread : exhom := HLocal 1 (HFun 1 (Fmap [(0, 2); (1, 2); (1, 3)]%N)).
Definition plus (a b : sdd (vt FS)) : sdd (vt FS) :=
  match api_sum FS PF_up [a; b] with Ok y => y | Err _ => Zero end.
Lemma plus_fits s a b : fits FS PF_up s a -> fits FS PF_up s b -> fits FS PF_up s (plus a b).
Proof.
  intros Fa Fb. unfold plus. destruct (sum_ok FS FS_laws PF_up PF_up_ok s [a; b]) as (y & E & Fy & _).
  { intros z [<-|[<-|[]]]; auto. }
  now rewrite E.
Qed.
Definition ex_two : sdd (vt FS) := plus (box [0] [0] [5] [6])%N (box [0] [1] [5] [7])%N.
Lemma ex_two_fits : fits FS PF_up exs ex_two.
Proof. apply plus_fits; apply box_fits. Qed.

(** Running one evaluation after the other. *)
Definition ask2 (h2 h1 : exhom) (x : sdd (vt FS)) (p : asg N) : option bool :=
  match happly FS PF_up nat exfun exind ex_user 20 20 exo h1 x with
  | Ok y => ask exo h2 y p
  | Err _ => None
  end.
Lemma ask2_spec h2 h1 x p b : ask2 h2 h1 x p = Some b ->
  exists y z, ex_evals h1 x y /\ ex_evals h2 y z /\ contains (VI := FS) z p = b.
Proof.
  unfold ask2. destruct (happly _ _ _ _ _ _ _ _ _ _ x) as [y|] eqn:E; [|discriminate].
  intros H. apply ask_spec in H. destruct H as (z & A & B). exists y, z. split; [exists 20, 20; exact E|auto].
Qed.

Theorem C35_composition_refuted : exists l r h x y z w p,
  composition FS nat exfun exind l r = Ok h /\ ex_typed r exs /\ ex_typed l exs /\ fits FS PF_up exs x /\
  ex_evals h x y /\ ex_evals r x z /\ ex_evals l z w /\ contains y p = true /\ contains w p = false.
Proof.
  destruct (ask_spec exo (HLocal 1 (HComp (HFun 1 Fpair) (HFun 1 (Fmap [(0, 2); (1, 2); (1, 3)]%N)))) ex_two
              (point 0 9 5 7) true) as (y & Ey & Cy).
  { vm_compute. reflexivity. }
  destruct (ask2_spec ex_pair ex_spread ex_two (point 0 9 5 7) false) as (z & w & Ez & Ew & Cw).
  { vm_compute. reflexivity. }
  exists ex_pair, ex_spread. eexists. exists ex_two, y, z, w, (point 0 9 5 7).
  split; [reflexivity|]. split; [unfold exs, ex_spread; ty|]. split; [unfold exs, ex_pair; ty|].
  split; [exact ex_two_fits|]. auto 10.
Qed.

(** Nested sums are flattened, the two locals are regrouped. *)
Example C36_example : exists h, mk_sum FS nat exfun exind HP_up [ex_h1; HSum [ex_h2; HId]; ex_h5] = Ok h /\
  (forall k, In k [ex_h1; HSum [ex_h2; HId]; ex_h5] -> ex_typed k exs) /\
  (exists y, ex_evals h ex_x y /\ contains y (point 2 3 5 6) = true) /\
  (exists y, ex_evals h ex_x y /\ contains y (point 0 7 5 6) = true).
Proof.
  eexists. split; [vm_compute; reflexivity|]. split.
  - intros k [<-|[<-|[<-|[]]]]; [apply ex_h1_typed| |apply ex_h5_typed]. unfold exs, ex_h2. ty.
  - split; run.
Qed.

(** Selectors on the same hierarchy. *)
Example C37_example : exists h, mk_inter FS nat exfun exind HP_up [ex_h3; HInter [ex_h4; HFun 2 (Fkeep [0%N])]] = Ok h /\
  (forall k, In k [ex_h3; HInter [ex_h4; HFun 2 (Fkeep [0%N])]] ->
     ex_typed k exs /\ hselector FS nat exfun exind ex_user k = true /\ nofix FS nat exfun exind k = true) /\
  (exists y, ex_evals h ex_x y /\ contains y (point 0 3 5 6) = true) /\
  (exists y, ex_evals h ex_x y /\ contains y (point 1 3 5 6) = false).
Proof.
  eexists. split; [vm_compute; reflexivity|]. split.
  - intros k [<-|[<-|[]]]; (split; [|split; reflexivity]); [apply ex_h3_typed|]. unfold exs, ex_h4. ty.
  - split; run.
Qed.

(** Regrouping locals that are not selectors changes the result: 0 -> 5, 1 -> 6 and 0 -> 6, 1 -> 5. *)
Definition ex_swap1 : exhom := HLocal 1 (HFun 1 (Fmap [(0, 5); (1, 6)]%N)).
Definition ex_swap2 : exhom := HLocal 1 (HFun 1 (Fmap [(0, 6); (1, 5)]%N)).
Definition ex_three : sdd (vt FS) := plus (box [0] [0] [5] [6; 7])%N (box [0] [1] [5] [7; 8])%N.
Lemma ex_three_fits : fits FS PF_up exs ex_three.
Proof. apply plus_fits; apply box_fits. Qed.

Theorem C37_intersection_refuted : exists l h x y ys w p,
  mk_inter FS nat exfun exind HP_up l = Ok h /\ (forall k, In k l -> ex_typed k exs) /\ fits FS PF_up exs x /\
  ex_evals h x y /\ Forall2 (fun k z => ex_evals k x z) l ys /\ api_intersection FS PF_up ys = Ok w /\
  contains y p = false /\ contains w p = true.
Proof.
  assert (T1 : ex_typed ex_swap1 exs) by (unfold exs, ex_swap1; ty).
  assert (T2 : ex_typed ex_swap2 exs) by (unfold exs, ex_swap2; ty).
  destruct (ask_spec exo (HLocal 1 (HInter [HFun 1 (Fmap [(0, 5); (1, 6)]%N); HFun 1 (Fmap [(0, 6); (1, 5)]%N)]))
              ex_three (point 0 5 5 7) false) as (y & Ey & Cy).
  { vm_compute. reflexivity. }
  destruct (ask_spec exo ex_swap1 ex_three (point 0 5 5 7) true) as (y1 & E1 & C1).
  { vm_compute. reflexivity. }
  destruct (ask_spec exo ex_swap2 ex_three (point 0 5 5 7) true) as (y2 & E2 & C2).
  { vm_compute. reflexivity. }
  destruct (inter_ok FS FS_laws PF_up PF_up_ok exs [y1; y2]) as (w & Ew & _ & Cw).
  { discriminate. }
  { intros z [<-|[<-|[]]].
    - apply (evals_fits FS FS_laws PF_up PF_up_ok nat exfun exind ex_user ex_honest exo ex_swap1 exs exs ex_three);
        auto using exo_shape, ex_three_fits.
    - apply (evals_fits FS FS_laws PF_up PF_up_ok nat exfun exind ex_user ex_honest exo ex_swap2 exs exs ex_three);
        auto using exo_shape, ex_three_fits. }
  exists [ex_swap1; ex_swap2]. eexists. exists ex_three, y, [y1; y2], w, (point 0 5 5 7).
  split; [vm_compute; reflexivity|].
  split; [intros k [<-|[<-|[]]]; auto|]. split; [exact ex_three_fits|]. split; [exact Ey|].
  split; [repeat constructor; auto|]. split; [auto|]. split; [auto|].
  rewrite Cw. cbn [forallb]. now rewrite C1, C2.
Qed.

(** 3 -> 4 -> 7 by a fixpoint; every operand is linear, hence monotone. *)
Lemma ex_h5_monotone : monotone FS PF_up nat exfun exind ex_user exo ex_h5.
Proof.
  destruct ex_h5_clin as (R & C). eapply acts_monotone.
  apply (clin_acts FS FS_laws PF_up PF_up_ok nat exfun exind ex_user ex_honest exo ex_h5 R C exs ex_h5_typed).
Qed.
Example C38_example : exists h, mk_sum FS nat exfun exind HP_up [HId; ex_h5] = Ok h /\
  (forall k, In k [HId; ex_h5] -> ex_typed k exs /\ monotone FS PF_up nat exfun exind ex_user exo k) /\
  exists y, ex_evals (fixpoint FS nat exfun exind h) (box [0; 1] [3] [5] [6])%N y /\ contains y (point 1 7 5 6) = true.
Proof.
  eexists. split; [vm_compute; reflexivity|]. split.
  - intros k [<-|[<-|[]]].
    + split; [apply T_id, exo_shape|]. eapply acts_monotone. apply acts_id.
    + split; [apply ex_h5_typed|apply ex_h5_monotone].
  - run.
Qed.

Example C39_example : exists h,
  if_then_else FS nat exfun exind HP_up ex_user (HFun 2 (Fkeep [0%N])) ex_h1 ex_h2 = Ok h /\
  ex_typed (HFun 2 (Fkeep [0%N])) exs /\
  (exists y, ex_evals h ex_x y /\ contains y (point 1 3 5 6) = true) /\
  (exists y, ex_evals h ex_x y /\ contains y (point 1 5 5 6) = true).
Proof.
  eexists. split; [vm_compute; reflexivity|]. split; [unfold exs; ty|]. split; run.
Qed.

(** The simplification of if_then_else(p, t, t) to t is wrong when t depends on whole sets of values. *)
Definition ex_p0 : exhom := HFun 2 (Fkeep [0%N]).
Definition ex_pair1 : exhom := HFun 2 Fpair.
Definition ask3 (p t e : exhom) (x : sdd (vt FS)) (q : asg N) : option bool :=
  match happly FS PF_up nat exfun exind ex_user 20 20 exo p x with
  | Ok c => match happly FS PF_up nat exfun exind ex_user 20 20 exo t c with
    | Ok a => match api_minus FS PF_up x c with
      | Ok d => match happly FS PF_up nat exfun exind ex_user 20 20 exo e d with
        | Ok b => match api_sum FS PF_up [a; b] with Ok y => Some (contains (VI := FS) y q) | Err _ => None end
        | Err _ => None end
      | Err _ => None end
    | Err _ => None end
  | Err _ => None end.

Theorem C39_if_then_else_refuted : exists p t h x y c a d b y' q,
  if_then_else FS nat exfun exind HP_up ex_user p t t = Ok h /\ ex_typed p exs /\ ex_typed t exs /\
  fits FS PF_up exs x /\ ex_evals h x y /\
  ex_evals p x c /\ ex_evals t c a /\ api_minus FS PF_up x c = Ok d /\ ex_evals t d b /\
  api_sum FS PF_up [a; b] = Ok y' /\ contains y q = true /\ contains y' q = false.
Proof.
  destruct (ask_spec exo ex_pair1 ex_x (point 9 3 5 6) true) as (y & Ey & Cy).
  { vm_compute. reflexivity. }
  assert (A : ask3 ex_p0 ex_pair1 ex_pair1 ex_x (point 9 3 5 6) = Some false) by (vm_compute; reflexivity).
  unfold ask3 in A.
  destruct (happly _ _ _ _ _ _ _ _ _ _ ex_x) as [c|] eqn:E1 in A; [|discriminate].
  destruct (happly _ _ _ _ _ _ _ _ _ _ c) as [a|] eqn:E2 in A; [|discriminate].
  destruct (api_minus FS PF_up ex_x c) as [d|] eqn:E3; [|discriminate].
  destruct (happly _ _ _ _ _ _ _ _ _ _ d) as [b|] eqn:E4 in A; [|discriminate].
  destruct (api_sum FS PF_up [a; b]) as [y'|] eqn:E5; [|discriminate]. injection A as A.
  exists ex_p0, ex_pair1, ex_pair1, ex_x, y, c, a, d, b, y', (point 9 3 5 6).
  split; [vm_compute; reflexivity|]. split; [unfold exs, ex_p0; ty|]. split; [unfold exs, ex_pair1; ty|].
  split; [exact ex_x_fits|]. split; [exact Ey|]. split; [exists 20, 20; exact E1|].
  split; [exists 20, 20; exact E2|]. split; [exact E3|]. split; [exists 20, 20; exact E4|]. auto.
Qed.

(** A local in the hierarchy "2", on "3". *)
Example C40_example : local_at nat exo 1 exs exn (SFlat 1 (SFlat 0 SEnd)) /\
  (exists y, ex_evals ex_h2 ex_x y /\ contains y (point 1 5 5 6) = true) /\
  (exists y, ex_evals ex_h2 ex_x y /\ contains y (point 1 3 5 6) = false) /\
  (** the fast path of the selectors *)
  hselector FS nat exfun exind ex_user ex_h3 = true /\
  (exists y, ex_evals ex_h3 ex_x y /\ contains y (point 1 3 5 6) = true) /\
  (exists y, ex_evals ex_h3 ex_x y /\ contains y (point 1 4 5 6) = false).
Proof.
  split.
  - change exs with (under (LFlat 2) (SHier 1 (SFlat 1 (SFlat 0 SEnd)) (SFlat 0 SEnd))).
    apply (la_next nat exo (LFlat 2) exh); [lv|discriminate|].
    eapply (la_here nat exh 1 (SFlat 1 (SFlat 0 SEnd))); [lv|reflexivity|sh].
  - split; [run|]. split; [run|]. split; [reflexivity|]. split; run.
Qed.

(** The variable "4", inside the hierarchy "2". *)
Example C41_example : In 4 (users exb) /\
  exists h, function FS nat exfun exind Nat.eqb exo 4 (Fadd 1) = Ok h /\
  (exists y, ex_evals h ex_x y /\ contains y (point 1 3 6 6) = true) /\
  (exists y, ex_evals h ex_x y /\ contains y (point 1 3 5 6) = false).
Proof.
  split; [cbn; auto 10|]. eexists. split; [vm_compute; reflexivity|]. split; run.
Qed.

(** A homomorphism that skips "1". *)
Example C42_example : hskip FS nat exfun exind ex_user exo (HSum [ex_h2; HComp ex_h5 ex_h3]) = true /\
  ex_typed (HSum [ex_h2; HComp ex_h5 ex_h3]) exs /\
  (exists y, ex_evals (HSum [ex_h2; HComp ex_h5 ex_h3]) ex_x y /\ contains y (point 0 5 5 6) = true).
Proof.
  split; [reflexivity|]. split; [|run]. unfold exs, ex_h2, ex_h5, ex_h3. ty.
Qed.

Example C44_example : hselector FS nat exfun exind ex_user (HSum [ex_h3; HComp ex_h4 ex_p0]) = true /\
  ex_typed (HSum [ex_h3; HComp ex_h4 ex_p0]) exs /\
  (exists y, ex_evals (HSum [ex_h3; HComp ex_h4 ex_p0]) ex_x y /\ contains y (point 1 3 5 6) = true) /\
  (exists y, ex_evals (HSum [ex_h3; HComp ex_h4 ex_p0]) ex_x y /\ contains y (point 1 4 5 6) = false).
Proof.
  split; [reflexivity|]. split; [|split; run]. unfold exs, ex_h4, ex_p0, ex_h3. ty.
Qed.

Print Assumptions C55_never_fails.
Print Assumptions C55_terminates.
Print Assumptions C55_orders_have_shapes.
Print Assumptions C35_composition.
Print Assumptions C35_composition_total.
Print Assumptions C35_composition_plain.
Print Assumptions C35_composition_refuted.
Print Assumptions C36_sum.
Print Assumptions C36_sum_set.
Print Assumptions C37_intersection_partial.
Print Assumptions C37_intersection_nofix_partial.
Print Assumptions C37_intersection_plain.
Print Assumptions C37_intersection_refuted.
Print Assumptions C38_fixpoint.
Print Assumptions C38_least.
Print Assumptions C39_rejects.
Print Assumptions C39_if_then_else_partial.
Print Assumptions C39_if_then_else_iff_partial.
Print Assumptions C39_if_then_else_plain.
Print Assumptions C39_if_then_else_refuted.
Print Assumptions C40_local.
Print Assumptions C40_local_linear.
Print Assumptions C41_function.
Print Assumptions C41_unknown.
Print Assumptions C41_pointwise.
Print Assumptions C42_skip.
Print Assumptions C42_residual.
Print Assumptions C42_whole.
Print Assumptions C44_declared.
Print Assumptions C44_selectors.
