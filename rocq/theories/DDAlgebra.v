(** * Algebraic laws of the operations *)

From Coq Require Import List Bool NArith Arith Lia Permutation Sorted.
From Verif Require Import Base SortedSets Values Sdd SddFacts DDModel DDGeneric DDProofs Spec DDTheorems.
Import ListNotations.

Section Algebra.
  Variable VI : values_impl.
  Variable VL : values_laws VI.
  Variable PF : platform VI.
  Variable PO : platform_ok PF.
  Notation V := (vt VI).
  Notation sdd := (sdd V).
  Notation lt := (addr_lt PF).
  Notation built := (built VI PF).

  Lemma plus_spec : forall sh x y, built x -> built y -> follows sh x -> follows sh y ->
    exists r, api_plus VI PF x y = Ok r /\ built r /\ follows sh r /\
      forall p, contains r p = contains x p || contains y p.
  Proof.
    intros sh x y Bx By Fx Fy.
    assert (HB : forall z, In z [x; y] -> built z /\ follows sh z).
    { intros z [<-|[<-|[]]]; auto. }
    destruct (sum_total VI VL PF PO sh [x; y] HB) as (r & E & F). exists r.
    assert (HB' : forall z, In z [x; y] -> built z) by (intros z Hz; now apply HB).
    split; [exact E|split; [|split; [exact F|]]].
    - eapply built_sum; eauto.
    - intros p. apply bool_ext. rewrite (sum_spec VI VL PF PO _ _ HB' E), orb_true_iff. split.
      + intros (z & [<-|[<-|[]]] & H); auto.
      + intros [H|H]; [exists x|exists y]; simpl; auto.
  Qed.
  Lemma and_spec : forall sh x y, built x -> built y -> follows sh x -> follows sh y ->
    exists r, api_and VI PF x y = Ok r /\ built r /\ follows sh r /\
      forall p, contains r p = contains x p && contains y p.
  Proof.
    intros sh x y Bx By Fx Fy.
    assert (HB : forall z, In z [x; y] -> built z /\ follows sh z).
    { intros z [<-|[<-|[]]]; auto. }
    destruct (inter_total VI VL PF PO sh [x; y] HB) as (r & E & F). exists r.
    assert (HB' : forall z, In z [x; y] -> built z) by (intros z Hz; now apply HB).
    split; [exact E|split; [|split; [exact F|]]].
    - eapply built_inter; eauto.
    - intros p. apply bool_ext. assert (Hne : [x; y] <> []) by discriminate.
      rewrite (inter_spec VI VL PF PO _ _ Hne HB' E), andb_true_iff.
      split.
      + intros H. split; apply H; simpl; auto.
      + intros [H1 H2] z [<-|[<-|[]]]; auto.
  Qed.
  Lemma minus_spec' : forall sh x y, built x -> built y -> follows sh x -> follows sh y ->
    exists r, api_minus VI PF x y = Ok r /\ built r /\ follows sh r /\
      forall p, contains r p = contains x p && negb (contains y p).
  Proof.
    intros sh x y Bx By Fx Fy.
    destruct (minus_total VI VL PF PO sh x y Bx By Fx Fy) as (r & E & F). exists r.
    split; [exact E|split; [|split; [exact F|]]].
    - eapply built_minus; [exact Bx|exact By|exact E].
    - intros p. apply bool_ext. rewrite (minus_spec VI VL PF PO _ _ _ Bx By E), andb_true_iff, negb_true_iff.
      tauto.
  Qed.

  Lemma sexp_ok : forall sh env, (forall i, built (env i) /\ follows sh (env i)) ->
    forall e, exists r, sexp_eval VI PF env e = Ok r /\ built r /\ follows sh r /\
      forall p, contains r p = sexp_bool (fun i => contains (env i) p) e.
  Proof.
    intros sh env HE. induction e as [i| |a IHa b IHb|a IHa b IHb|a IHa b IHb]; simpl.
    - exists (env i). destruct (HE i). auto.
    - exists Zero. split; [auto|split; [constructor|split; [constructor|]]]. reflexivity.
    - destruct IHa as (ra & Ea & Ba & Fa & Ca). destruct IHb as (rb & Eb & Bb & Fb & Cb).
      rewrite Ea, Eb. simpl. destruct (plus_spec sh ra rb Ba Bb Fa Fb) as (r & E & B & F & C).
      exists r. split; [auto|split; [auto|split; [auto|]]]. intros p. now rewrite C, Ca, Cb.
    - destruct IHa as (ra & Ea & Ba & Fa & Ca). destruct IHb as (rb & Eb & Bb & Fb & Cb).
      rewrite Ea, Eb. simpl. destruct (and_spec sh ra rb Ba Bb Fa Fb) as (r & E & B & F & C).
      exists r. split; [auto|split; [auto|split; [auto|]]]. intros p. now rewrite C, Ca, Cb.
    - destruct IHa as (ra & Ea & Ba & Fa & Ca). destruct IHb as (rb & Eb & Bb & Fb & Cb).
      rewrite Ea, Eb. simpl. destruct (minus_spec' sh ra rb Ba Bb Fa Fb) as (r & E & B & F & C).
      exists r. split; [auto|split; [auto|split; [auto|]]]. intros p. now rewrite C, Ca, Cb.
  Qed.

  (** Every identity of the algebra of sets holds. *)
  Lemma sexp_agree : forall sh env, (forall i, built (env i) /\ follows sh (env i)) ->
    forall e1 e2, (forall b, sexp_bool b e1 = sexp_bool b e2) ->
    agree (sexp_eval VI PF env e1) (sexp_eval VI PF env e2).
  Proof.
    intros sh env HE e1 e2 H.
    destruct (sexp_ok sh env HE e1) as (r1 & E1 & B1 & _ & C1).
    destruct (sexp_ok sh env HE e2) as (r2 & E2 & B2 & _ & C2).
    exists r1. split; auto. rewrite E2. f_equal. apply (built_ext VI VL PF PO); auto.
    intros p. rewrite C1, C2, H. tauto.
  Qed.

  (** ** n-ary operations *)

  Lemma list_max_same : forall A (f : A -> nat) l m, (forall x, In x l -> f x <> 0 -> In x m) ->
    (forall x, In x m -> f x <> 0 -> In x l) -> list_max (map f l) = list_max (map f m).
  Proof.
    intros A f l m H1 H2. apply Nat.le_antisymm.
    - apply list_max_le_in. intros x Hx. destruct (Nat.eq_dec (f x) 0) as [->|Hn]; [lia|].
      apply (proj1 (list_max_le_in A f m _) (le_n _)). auto.
    - apply list_max_le_in. intros x Hx. destruct (Nat.eq_dec (f x) 0) as [->|Hn]; [lia|].
      apply (proj1 (list_max_le_in A f l _) (le_n _)). auto.
  Qed.

  (** The outcome of a n-ary union depends only on the set of its non-empty operands. *)
  Lemma sum_set : forall l m, (forall x, x <> Zero -> (In x l <-> In x m)) ->
    api_sum VI PF l = api_sum VI PF m.
  Proof.
    intros l m H. unfold api_sum.
    destruct (sb_fold VI PF PO l [] (SSorted_nil _)) as [H1 H2].
    destruct (sb_fold VI PF PO m [] (SSorted_nil _)) as [H3 H4].
    cbv zeta in *. rewrite (ssorted_ext lt (pf_lt PO) _ _ H1 H3).
    - unfold run, fuel_of. f_equal. f_equal. f_equal. apply list_max_same.
      + intros x Hx Hh. apply H; auto. intros ->. now apply Hh.
      + intros x Hx Hh. apply H; auto. intros ->. now apply Hh.
    - intros x. rewrite H2, H4. specialize (H x). simpl. tauto.
  Qed.
  Lemma inter_set : forall l m, ~ In Zero l -> ~ In Zero m -> (forall x, In x l <-> In x m) ->
    api_intersection VI PF l = api_intersection VI PF m.
  Proof.
    intros l m Zl Zm H. unfold api_intersection.
    destruct (ib_fold VI PF PO l false []) as (H1 & _).
    destruct (ib_fold VI PF PO m false []) as (H2 & _).
    set (rl := fold_left _ l _) in *. set (rm := fold_left _ m _) in *.
    destruct H1 as (A1 & A2 & A3); [auto|intros x Hx ->; auto|].
    destruct H2 as (B1 & B2 & B3); [auto|intros x Hx ->; auto|].
    assert (E : rl = rm).
    { destruct rl as [z1 l1], rm as [z2 l2]. cbn [fst snd] in *. subst. f_equal.
      apply (ssorted_ext lt (pf_lt PO)); [apply A2|apply B2|]; try constructor;
      intros Hx; apply A3 || apply B3.
      - apply A3 in Hx. destruct Hx as [[]|Hx]. right. now apply H.
      - apply B3 in Hx. destruct Hx as [[]|Hx]. right. now apply H. }
    rewrite E. unfold run, fuel_of. do 3 f_equal. apply list_max_same; intros x Hx _; now apply H.
  Qed.
  Lemma inter_zero : forall l, In Zero l -> api_intersection VI PF l = Ok Zero.
  Proof.
    intros l HZ. unfold api_intersection, run.
    destruct (ib_fold VI PF PO l false []) as (_ & _ & H). unfold dd_intersection.
    rewrite H; auto.
  Qed.
  Lemma sum_nil : api_sum VI PF [] = Ok Zero.
  Proof. reflexivity. Qed.
  Lemma sum_single : forall x, api_sum VI PF [x] = Ok x.
  Proof.
    intros x. unfold api_sum, run. cbn [fold_left]. unfold sdd_sb_add, sb_add.
    destruct (is_zero VI x) eqn:E; [apply is_zero_true in E; subst; reflexivity|reflexivity].
  Qed.
  Lemma inter_single : forall x, api_intersection VI PF [x] = Ok x.
  Proof.
    intros x. unfold api_intersection, run. cbn [fold_left]. unfold sdd_ib_add, ib_add. cbn [fst snd].
    destruct (is_zero VI x) eqn:E; [apply is_zero_true in E; subst; reflexivity|reflexivity].
  Qed.

  Lemma sum_group : forall sh l1 l2,
    (forall x, In x (l1 ++ l2) -> built x /\ follows sh x) ->
    agree (api_sum VI PF (l1 ++ l2))
      (rbind (api_sum VI PF l1) (fun a => rbind (api_sum VI PF l2) (fun b => api_plus VI PF a b))).
  Proof.
    intros sh l1 l2 H.
    assert (H1 : forall x, In x l1 -> built x /\ follows sh x) by (intros x Hx; apply H, in_app_iff; auto).
    assert (H2 : forall x, In x l2 -> built x /\ follows sh x) by (intros x Hx; apply H, in_app_iff; auto).
    assert (B0 : forall x, In x (l1 ++ l2) -> built x) by (intros x Hx; now apply H).
    assert (B1 : forall x, In x l1 -> built x) by (intros x Hx; now apply H1).
    assert (B2 : forall x, In x l2 -> built x) by (intros x Hx; now apply H2).
    destruct (sum_total VI VL PF PO sh _ H) as (r & E & F).
    destruct (sum_total VI VL PF PO sh _ H1) as (a & E1 & F1).
    destruct (sum_total VI VL PF PO sh _ H2) as (b & E2 & F2).
    assert (Ba : built a) by (eapply built_sum; [exact B1|exact E1]).
    assert (Bb : built b) by (eapply built_sum; [exact B2|exact E2]).
    destruct (plus_spec sh a b Ba Bb F1 F2) as (r' & E' & B' & _ & C').
    exists r. rewrite E1, E2. simpl. rewrite E'. split; auto. f_equal.
    apply (built_ext VI VL PF PO); auto.
    - eapply built_sum; [exact B0|exact E].
    - intros p. rewrite C', orb_true_iff, (sum_spec VI VL PF PO _ _ B0 E),
        (sum_spec VI VL PF PO _ _ B1 E1), (sum_spec VI VL PF PO _ _ B2 E2). split.
      + intros [(x & Hx & C)|(x & Hx & C)]; exists x; rewrite in_app_iff; auto.
      + intros (x & Hx & C). apply in_app_iff in Hx. destruct Hx; eauto.
  Qed.
  Lemma inter_group : forall sh l1 l2, l1 <> [] -> l2 <> [] ->
    (forall x, In x (l1 ++ l2) -> built x /\ follows sh x) ->
    agree (api_intersection VI PF (l1 ++ l2))
      (rbind (api_intersection VI PF l1) (fun a =>
       rbind (api_intersection VI PF l2) (fun b => api_and VI PF a b))).
  Proof.
    intros sh l1 l2 N1 N2 H.
    assert (N0 : l1 ++ l2 <> []) by (destruct l1; [congruence|discriminate]).
    assert (H1 : forall x, In x l1 -> built x /\ follows sh x) by (intros x Hx; apply H, in_app_iff; auto).
    assert (H2 : forall x, In x l2 -> built x /\ follows sh x) by (intros x Hx; apply H, in_app_iff; auto).
    assert (B0 : forall x, In x (l1 ++ l2) -> built x) by (intros x Hx; now apply H).
    assert (B1 : forall x, In x l1 -> built x) by (intros x Hx; now apply H1).
    assert (B2 : forall x, In x l2 -> built x) by (intros x Hx; now apply H2).
    destruct (inter_total VI VL PF PO sh _ H) as (r & E & F).
    destruct (inter_total VI VL PF PO sh _ H1) as (a & E1 & F1).
    destruct (inter_total VI VL PF PO sh _ H2) as (b & E2 & F2).
    assert (Ba : built a) by (eapply built_inter; [exact B1|exact E1]).
    assert (Bb : built b) by (eapply built_inter; [exact B2|exact E2]).
    destruct (and_spec sh a b Ba Bb F1 F2) as (r' & E' & B' & _ & C').
    exists r. rewrite E1, E2. simpl. rewrite E'. split; auto. f_equal.
    apply (built_ext VI VL PF PO); auto.
    - eapply built_inter; [exact B0|exact E].
    - intros p. rewrite C', andb_true_iff, (inter_spec VI VL PF PO _ _ N0 B0 E),
        (inter_spec VI VL PF PO _ _ N1 B1 E1), (inter_spec VI VL PF PO _ _ N2 B2 E2). split.
      + intros [P1 P2] x Hx. apply in_app_iff in Hx. destruct Hx; auto.
      + intros HP. split; intros x Hx; apply HP, in_app_iff; auto.
  Qed.
End Algebra.

(** ** Independence from the platform *)

Section Platforms.
  Variable VI : values_impl.
  Variable VL : values_laws VI.
  Variables PF1 PF2 : platform VI.
  Variable PO1 : platform_ok PF1.
  Variable PO2 : platform_ok PF2.
  Notation V := (vt VI).
  Notation sdd := (sdd V).

  Lemma built_sim : forall x y, built VI PF1 x -> built VI PF2 y -> same_set x y -> sim x y.
  Proof.
    intros x y Bx By H. apply (canonical_sim VI VL (addr_lt PF1) (addr_lt PF2) (pf_lt PO1) (pf_lt PO2)).
    - now apply (built_canonical VI VL PF1 PO1).
    - now apply (built_canonical VI VL PF2 PO2).
    - intros p. apply bool_ext. apply H.
  Qed.

  Lemma forall2_in : forall A B (R : A -> B -> Prop) l m x, Forall2 R l m -> In x l ->
    exists y, In y m /\ R x y.
  Proof.
    intros A B R l m x HF. induction HF as [|a b l m H HF IH]; intros Hin; [destruct Hin|].
    destruct Hin as [<-|Hin]; [exists b; simpl; auto|].
    destruct (IH Hin) as (y & H1 & H2). exists y; simpl; auto.
  Qed.
  Lemma forall2_flip : forall A B (R : A -> B -> Prop) l m, Forall2 R l m -> Forall2 (fun y x => R x y) m l.
  Proof. intros A B R l m HF; induction HF; constructor; auto. Qed.

  Lemma sum_platform : forall sh l1 l2,
    (forall x, In x l1 -> built VI PF1 x /\ follows sh x) ->
    (forall x, In x l2 -> built VI PF2 x /\ follows sh x) ->
    Forall2 same_set l1 l2 ->
    exists r1 r2, api_sum VI PF1 l1 = Ok r1 /\ api_sum VI PF2 l2 = Ok r2 /\ same_set r1 r2 /\ sim r1 r2.
  Proof.
    intros sh l1 l2 H1 H2 HF.
    assert (B1 : forall x, In x l1 -> built VI PF1 x) by (intros x Hx; now apply H1).
    assert (B2 : forall x, In x l2 -> built VI PF2 x) by (intros x Hx; now apply H2).
    destruct (sum_total VI VL PF1 PO1 sh _ H1) as (r1 & E1 & _).
    destruct (sum_total VI VL PF2 PO2 sh _ H2) as (r2 & E2 & _).
    assert (HS : same_set r1 r2).
    { intros p. rewrite (sum_spec VI VL PF1 PO1 _ _ B1 E1), (sum_spec VI VL PF2 PO2 _ _ B2 E2). split.
      - intros (x & Hx & C). destruct (forall2_in _ _ _ _ _ _ HF Hx) as (y & Hy & S).
        exists y. split; auto. now apply S.
      - intros (x & Hx & C). destruct (forall2_in _ _ _ _ _ _ (forall2_flip _ _ _ _ _ HF) Hx) as (y & Hy & S).
        exists y. split; auto. now apply S. }
    exists r1, r2. split; [auto|split; [auto|split; [auto|]]]. apply built_sim; auto.
    - eapply built_sum; [exact B1|exact E1].
    - eapply built_sum; [exact B2|exact E2].
  Qed.
  Lemma inter_platform : forall sh l1 l2, l1 <> [] ->
    (forall x, In x l1 -> built VI PF1 x /\ follows sh x) ->
    (forall x, In x l2 -> built VI PF2 x /\ follows sh x) ->
    Forall2 same_set l1 l2 ->
    exists r1 r2, api_intersection VI PF1 l1 = Ok r1 /\ api_intersection VI PF2 l2 = Ok r2 /\
      same_set r1 r2 /\ sim r1 r2.
  Proof.
    intros sh l1 l2 Hne H1 H2 HF.
    assert (Hne2 : l2 <> []) by (intros ->; inversion HF; subst; congruence).
    assert (B1 : forall x, In x l1 -> built VI PF1 x) by (intros x Hx; now apply H1).
    assert (B2 : forall x, In x l2 -> built VI PF2 x) by (intros x Hx; now apply H2).
    destruct (inter_total VI VL PF1 PO1 sh _ H1) as (r1 & E1 & _).
    destruct (inter_total VI VL PF2 PO2 sh _ H2) as (r2 & E2 & _).
    assert (HS : same_set r1 r2).
    { intros p. rewrite (inter_spec VI VL PF1 PO1 _ _ Hne B1 E1), (inter_spec VI VL PF2 PO2 _ _ Hne2 B2 E2).
      split.
      - intros C x Hx. destruct (forall2_in _ _ _ _ _ _ (forall2_flip _ _ _ _ _ HF) Hx) as (y & Hy & S).
        apply S. auto.
      - intros C x Hx. destruct (forall2_in _ _ _ _ _ _ HF Hx) as (y & Hy & S). apply S. auto. }
    exists r1, r2. split; [auto|split; [auto|split; [auto|]]]. apply built_sim; auto.
    - eapply built_inter; [exact B1|exact E1].
    - eapply built_inter; [exact B2|exact E2].
  Qed.
  Lemma minus_platform : forall sh x1 y1 x2 y2,
    built VI PF1 x1 -> built VI PF1 y1 -> built VI PF2 x2 -> built VI PF2 y2 ->
    follows sh x1 -> follows sh y1 -> follows sh x2 -> follows sh y2 ->
    same_set x1 x2 -> same_set y1 y2 ->
    exists r1 r2, api_minus VI PF1 x1 y1 = Ok r1 /\ api_minus VI PF2 x2 y2 = Ok r2 /\
      same_set r1 r2 /\ sim r1 r2.
  Proof.
    intros sh x1 y1 x2 y2 B1 B2 B3 B4 F1 F2 F3 F4 Sx Sy.
    destruct (minus_total VI VL PF1 PO1 sh _ _ B1 B2 F1 F2) as (r1 & E1 & _).
    destruct (minus_total VI VL PF2 PO2 sh _ _ B3 B4 F3 F4) as (r2 & E2 & _).
    assert (HS : same_set r1 r2).
    { intros p. rewrite (minus_spec VI VL PF1 PO1 _ _ _ B1 B2 E1), (minus_spec VI VL PF2 PO2 _ _ _ B3 B4 E2).
      rewrite (Sx p), <- !not_true_iff_false, (Sy p). tauto. }
    exists r1, r2. split; [auto|split; [auto|split; [auto|]]]. apply built_sim; auto.
    - eapply built_minus; [exact B1|exact B2|exact E1].
    - eapply built_minus; [exact B3|exact B4|exact E2].
  Qed.
End Platforms.
