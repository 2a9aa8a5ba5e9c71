(** * Evaluation that never skips a level

    [ref] is the meaning of composite homomorphisms on the whole diagram, whatever they skip. Only
    functions, locals and inductive homomorphisms, whose effect is at a given level, go down. *)

From Coq Require Import List Bool NArith Arith Lia Permutation Sorted Relations.
From Verif Require Import Base SortedSets Values Sdd SddFacts Orders OrdersProofs OrdersSdd DDModel.
From Verif Require Import DDGeneric DDProofs DDTheorems Hom HomFacts HomEval HomTyped HomEqns HomLinear.
From Verif Require Import HomSum HomHalts HomComp HomInter.
Import ListNotations.

Section HomRef.
  Variable VI : values_impl.
  Hypothesis VL : values_laws VI.
  Variable PF : platform VI.
  Hypothesis PO : platform_ok PF.
  Variables U F I : Type.
  Notation V := (vt VI).
  Notation sdd := (sdd V).
  Notation hom := (hom V U F I).
  Variable US : user V U F I.
  Notation order := (order U).
  Notation fits := (fits VI PF).
  Notation oshape := (oshape U).
  Notation typed := (typed VI PF U F I US).
  Notation evals := (evals VI PF U F I US).
  Hypothesis HO : honest VI PF U F I US.

  Fixpoint ref (h : hom) (o : order) (x y : sdd) {struct h} : Prop :=
    let all := fix all (hs : list hom) (ys : list sdd) : Prop :=
      match hs, ys with
      | [], [] => True
      | h :: hs, y :: ys => ref h o x y /\ all hs ys
      | _, _ => False
      end in
    match h with
    | HComp f g => exists z, ref g o x z /\ ref f o z y
    | HSum hs => exists ys, all hs ys /\ api_sum VI PF ys = Ok y
    | HInter hs => exists ys, all hs ys /\ api_intersection VI PF ys = Ok y
    | HIte p t e => exists c a d b, ref p o x c /\ ref t o c a /\ api_minus VI PF x c = Ok d /\
        ref e o d b /\ api_sum VI PF [a; b] = Ok y
    | HFix h => exists k, HomEval.iter (ref h o) k x y /\ ref h o y y
    | _ => evals o h x y
    end.

  Lemma iter_ext (R R' : sdd -> sdd -> Prop) s : (forall x y, fits s x -> R x y -> R' x y /\ fits s y) ->
    forall k x y, fits s x -> HomEval.iter R k x y -> HomEval.iter R' k x y /\ fits s y.
  Proof.
    intros H. induction k as [|k IH]; intros x y Fx; cbn.
    - intros <-. auto.
    - intros (z & A & B). destruct (H x z Fx A) as [A' Fz]. destruct (IH z y Fz B) as [B' Fy]. eauto.
  Qed.

  (** Every result of the reference evaluation is the result of the evaluation, which skips. *)
  Theorem ref_evals : forall h o s s' x y, oshape o s -> typed o h s' -> fits s x ->
    ref h o x y -> evals o h x y.
  Proof.
    induction h as [f g IHf IHg| | | |h IH| | |p t e IHp IHt IHe| |l IH|t h IH| | | |l IH] using hom_ind';
      intros oo s s' xx yy O T Fx R; try exact R.
    - destruct R as (z & R1 & R2). destruct (typed_comp_inv VI PF U F I US _ _ _ _ T) as (s0 & O0 & Tg & Tf).
      assert (s0 = s) by apply (oshape_fun _ _ _ O0 _ O). subst s0.
      apply (E_comp VI VL PF PO U F I US HO oo s O f g s' xx yy T Fx).
      assert (E1 : evals oo g xx z) by now apply (IHg oo s s).
      exists z. split; [auto|]. apply (IHf oo s s'); auto. now apply (evals_fits VI VL PF PO U F I US HO oo g s s xx).
    - destruct (typed_fix_inv VI PF U F I US _ _ _ T) as [O' Th].
      assert (s' = s) by apply (oshape_fun _ _ _ O' _ O). subst s'.
      destruct R as (k & R1 & R2).
      assert (Hh : forall x y, fits s x -> ref h oo x y -> evals oo h x y /\ fits s y).
      { intros x1 y1 F1 R. assert (E : evals oo h x1 y1) by now apply (IH oo s s).
        split; [auto|]. now apply (evals_fits VI VL PF PO U F I US HO oo h s s x1). }
      destruct (iter_ext _ _ s Hh k xx yy Fx R1) as [I1 Fy].
      apply (E_fix VI VL PF PO U F I US HO oo s O h s xx yy T Fx). exists k. split; [auto|]. now apply Hh.
    - destruct (typed_ite_inv VI PF U F I US _ _ _ _ _ T) as (s0 & O0 & Sp & Tp & Tt & Te).
      assert (s0 = s) by apply (oshape_fun _ _ _ O0 _ O). subst s0.
      destruct R as (c & a & d & b & R1 & R2 & R3 & R4 & R5).
      assert (E1 : evals oo p xx c) by now apply (IHp oo s s).
      assert (Fc : fits s c) by now apply (evals_fits VI VL PF PO U F I US HO oo p s s xx).
      destruct (minus_ok VI VL PF PO s xx c Fx Fc) as (d' & E3 & Fd & _). rewrite R3 in E3. injection E3 as <-.
      apply (E_ite VI VL PF PO U F I US HO oo s O p t e s' xx yy T Fx).
      exists c, a, d, b. split; [auto|split; [now apply (IHt oo s s')|split; [auto|split; [now apply (IHe oo s s')|auto]]]].
    - destruct (typed_inter_inv VI PF U F I US _ _ _ T) as [Ne Th]. destruct R as (ys & R1 & R2).
      apply (E_inter VI VL PF PO U F I US HO oo s O l s' xx yy T Fx). exists ys. split; [|auto].
      clear Ne T R2. revert ys R1. induction IH as [|h l Hh Hl IHl]; intros [|y ys] R1; try destruct R1; constructor.
      + apply (Hh oo s s'); auto. apply Th. now left.
      + apply IHl; auto. intros k Hk. apply Th. now right.
    - destruct (typed_sum_inv VI PF U F I US _ _ _ T) as [Ne Th]. destruct R as (ys & R1 & R2).
      apply (E_sum VI VL PF PO U F I US HO oo s O l s' xx yy T Fx). exists ys. split; [|auto].
      clear Ne T R2. revert ys R1. induction IH as [|h l Hh Hl IHl]; intros [|y ys] R1; try destruct R1; constructor.
      + apply (Hh oo s s'); auto. apply Th. now left.
      + apply IHl; auto. intros k Hk. apply Th. now right.
  Qed.

  (** No intersection, whose evaluation may stop before having evaluated all its operands. *)
  Fixpoint nointer (h : hom) : bool :=
    match h with
    | HComp f g => nointer f && nointer g
    | HSum hs => forallb nointer hs
    | HInter _ => false
    | HIte p t e => nointer p && nointer t && nointer e
    | HFix h => nointer h
    | _ => true
    end.

  Theorem evals_ref : forall h o s s' x y, oshape o s -> typed o h s' -> fits s x -> nointer h = true ->
    evals o h x y -> ref h o x y.
  Proof.
    induction h as [f g IHf IHg| | | |h IH| | |p t e IHp IHt IHe| |l IH|t h IH| | | |l IH] using hom_ind';
      intros oo s s' xx yy O T Fx Ni E; try exact E; cbn [nointer] in Ni.
    - apply andb_true_iff in Ni. destruct Ni as [Nf Ng].
      destruct (typed_comp_inv VI PF U F I US _ _ _ _ T) as (s0 & O0 & Tg & Tf).
      assert (s0 = s) by apply (oshape_fun _ _ _ O0 _ O). subst s0.
      apply (E_comp VI VL PF PO U F I US HO oo s O f g s' xx yy T Fx) in E. destruct E as (z & E1 & E2).
      exists z. split; [now apply (IHg oo s s)|]. apply (IHf oo s s'); auto.
      now apply (evals_fits VI VL PF PO U F I US HO oo g s s xx).
    - destruct (typed_fix_inv VI PF U F I US _ _ _ T) as [O' Th].
      assert (s' = s) by apply (oshape_fun _ _ _ O' _ O). subst s'.
      apply (E_fix VI VL PF PO U F I US HO oo s O h s xx yy T Fx) in E. destruct E as (k & R1 & R2).
      assert (Hh : forall x y, fits s x -> evals oo h x y -> ref h oo x y /\ fits s y).
      { intros x1 y1 F1 R. split; [now apply (IH oo s s)|]. now apply (evals_fits VI VL PF PO U F I US HO oo h s s x1). }
      destruct (iter_ext _ _ s Hh k xx yy Fx R1) as [I1 Fy]. exists k. split; [auto|]. now apply Hh.
    - apply andb_true_iff in Ni. destruct Ni as [Ni N3]. apply andb_true_iff in Ni. destruct Ni as [N1 N2].
      destruct (typed_ite_inv VI PF U F I US _ _ _ _ _ T) as (s0 & O0 & Sp & Tp & Tt & Te).
      assert (s0 = s) by apply (oshape_fun _ _ _ O0 _ O). subst s0.
      apply (E_ite VI VL PF PO U F I US HO oo s O p t e s' xx yy T Fx) in E.
      destruct E as (c & a & d & b & R1 & R2 & R3 & R4 & R5).
      assert (Fc : fits s c) by now apply (evals_fits VI VL PF PO U F I US HO oo p s s xx).
      destruct (minus_ok VI VL PF PO s xx c Fx Fc) as (d' & E3 & Fd & _). rewrite R3 in E3. injection E3 as <-.
      exists c, a, d, b. split; [now apply (IHp oo s s)|split; [now apply (IHt oo s s')|]].
      split; [auto|split; [now apply (IHe oo s s')|auto]].
    - discriminate.
    - destruct (typed_sum_inv VI PF U F I US _ _ _ T) as [Ne Th].
      apply (E_sum VI VL PF PO U F I US HO oo s O l s' xx yy T Fx) in E. destruct E as (ys & R1 & R2).
      exists ys. split; [|auto]. rewrite forallb_forall in Ni.
      clear Ne T R2. revert ys R1. induction IH as [|h l Hh Hl IHl]; intros ys R1; inversion R1; subst; [exact Logic.I|].
      split.
      + apply (Hh oo s s'); auto; [apply Th; now left|apply Ni; now left].
      + apply IHl; auto; intros k Hk; [apply Ni; now right|apply Th; now right].
  Qed.
End HomRef.
