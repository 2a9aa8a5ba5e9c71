(** * Replacement of parts of homomorphisms *)

From Coq Require Import List Bool NArith Arith Lia.
From Verif Require Import Base SortedSets Values Sdd SddFacts Orders OrdersProofs OrdersSdd DDModel.
From Verif Require Import DDGeneric DDProofs DDTheorems Hom HomFacts HomEval HomTyped HomEqns HomLinear HomSum HomHalts.
Import ListNotations.

Section Replace.
  Variable VI : values_impl.
  Hypothesis VL : values_laws VI.
  Variable PF : platform VI.
  Hypothesis PO : platform_ok PF.
  Variables U F I : Type.
  Notation V := (vt VI).
  Notation sdd := (sdd V).
  Notation hom := (hom V U F I).
  Variable US : user V U F I.
  Notation order := (order U).
  Notation fits := (fits VI PF).
  Notation oshape := (oshape U).
  Notation olevel := (olevel U).
  Notation typed := (typed VI PF U F I US).
  Notation hskip := (hskip VI U F I US).
  Notation hselector := (hselector VI U F I US).
  Notation evals := (evals VI PF U F I US).
  Notation ends := (ends VI PF U F I US).
  Notation direct := (direct VI PF U F I US).
  Notation opt_list := (opt_list VI U F I).
  Notation sat_step := (sat_step VI PF U F I US).
  Notation chain := (chain VI PF U F I US).
  Hypothesis HO : honest VI PF U F I US.

  (** Two homomorphisms that a user cannot tell apart: both are selectors or none is, they skip the same levels, they apply
      to the same diagrams and give the same results. *)
  Record alike (h k : hom) : Prop := {
    al_sel : hselector h = hselector k;
    al_skip : forall o, hskip o h = hskip o k;
    al_typed : forall o s', typed o h s' <-> typed o k s';
    al_evals : forall o s s' x y, oshape o s -> typed o h s' -> fits s x -> (evals o h x y <-> evals o k x y)
  }.
  Lemma alike_refl h : alike h h.
  Proof. split; tauto. Qed.
  Lemma alike_sym h k : alike h k -> alike k h.
  Proof.
    intros [A B C E]. split; [auto|auto|intros; symmetry; auto|].
    intros o s s' x y O T Fx. symmetry. apply (E o s s'); auto. now apply C.
  Qed.
  Lemma alike_trans h k l : alike h k -> alike k l -> alike h l.
  Proof.
    intros [A B C E] [A' B' C' E']. split; [congruence|intros; rewrite B; auto|intros; rewrite C; auto|].
    intros o s s' x y O T Fx. rewrite (E o s s'); auto. apply (E' o s s'); auto. now apply C.
  Qed.

  (** One direction. *)
  Record sim (h k : hom) : Prop := {
    s_sel : hselector h = hselector k;
    s_skip : forall o, hskip o h = hskip o k;
    s_typed : forall o s', typed o h s' -> typed o k s';
    s_evals : forall o s s' x y, oshape o s -> typed o h s' -> fits s x -> evals o h x y -> evals o k x y
  }.
  Lemma sim_alike h k : sim h k -> sim k h -> alike h k.
  Proof.
    intros [A B C E] [A' B' C' E']. split; [auto|auto|split; auto|]. intros o s s' x y O T Fx. split; eauto.
  Qed.

  Definition at_level (o : order) (h : hom) : Prop := o_empty o = false -> hskip o h = false.
  Lemma sim_intro h k : h <> HId -> k <> HId -> hselector h = hselector k -> (forall o, hskip o h = hskip o k) ->
    (forall o s', typed o h s' -> typed o k s') ->
    (forall o s s' x n y, oshape o s -> typed o h s' -> fits s x -> x <> Zero -> at_level o h ->
       runs ends (direct n h o x) y -> exists m, runs ends (direct m k o x) y) ->
    sim h k.
  Proof.
    intros Nh Nk Sel Sk Ty Dir. split; auto.
    intros o s s' x y O. revert s' x y.
    pattern o, s. revert o s O. apply (oshape_rec U).
    - intros o E s' x y T Fx X. destruct (is_zero VI x) eqn:Z.
      { apply is_zero_iff in Z. subst x. apply evals_zero in X. subst y. now apply evals_zero. }
      assert (Nz : x <> Zero) by (intros ->; discriminate).
      assert (O : oshape o SEnd) by now constructor.
      assert (At : forall h, at_level o h) by (intros h' E'; congruence).
      apply (ev_direct VI PF U F I US o h SEnd) in X; auto; [|apply At]. destruct X as (n & X).
      apply (ev_direct VI PF U F I US o k SEnd); auto; [apply At|]. eapply Dir; eauto.
    - intros o l o' r L O' IH s' x y T Fx X. destruct (is_zero VI x) eqn:Z.
      { apply is_zero_iff in Z. subst x. apply evals_zero in X. subst y. now apply evals_zero. }
      assert (Nz : x <> Zero) by (intros ->; discriminate).
      assert (O : oshape o (under l r)) by (now apply (oshape_level U o l o')).
      destruct (hskip o h) eqn:Hs.
      + destruct (typed_next VI PF U F I US o h s' T l o' L Hs) as (r' & -> & T').
        apply (ev_skip VI VL PF PO U F I US HO o l o' h r r') in X; auto. destruct X as [Fy A].
        apply (ev_skip VI VL PF PO U F I US HO o l o' k r r'); auto; [congruence|]. split; [auto|].
        intros j. apply (IH r'); auto. now apply (residual_fits VI PF l).
      + assert (At : at_level o h) by (intros _; auto).
        apply (ev_direct VI PF U F I US o h (under l r)) in X; auto. destruct X as (n & X).
        apply (ev_direct VI PF U F I US o k (under l r)); auto; [intros _; congruence|]. eapply Dir; eauto.
  Qed.

  (** ** Each class *)

  Lemma forall2_sym l l' : Forall2 alike l l' -> Forall2 alike l' l.
  Proof. induction 1; constructor; auto. now apply alike_sym. Qed.
  Lemma forall2_refl l : Forall2 alike l l.
  Proof. induction l; constructor; auto. apply alike_refl. Qed.
  Lemma forall2_in l l' k : Forall2 alike l l' -> In k l' -> exists h, In h l /\ alike h k.
  Proof.
    induction 1 as [|a b l l' A _ IH]; [intros []|]. intros [<-|H]; [exists a; split; [now left|auto]|].
    destruct (IH H) as (h & B & C). exists h. split; [now right|auto].
  Qed.
  Lemma forall2_typed o s' l l' : Forall2 alike l l' -> (forall h, In h l -> typed o h s') -> forall k, In k l' -> typed o k s'.
  Proof. intros A T k H. destruct (forall2_in l l' k A H) as (h & B & C). apply C. auto. Qed.
  Lemma forall2_nonempty l l' : Forall2 alike l l' -> l <> [] -> l' <> [].
  Proof. destruct 1; congruence. Qed.
  Lemma forall2_forallb (p : hom -> bool) l l' : (forall h k, alike h k -> p h = p k) -> Forall2 alike l l' ->
    forallb p l = forallb p l'.
  Proof. intros P. induction 1; cbn [forallb]; [auto|]. now rewrite (P x y), IHForall2. Qed.
  Lemma forall2_evals o s s' x l l' ys : oshape o s -> fits s x -> Forall2 alike l l' -> (forall h, In h l -> typed o h s') ->
    Forall2 (fun h y => evals o h x y) l ys -> Forall2 (fun h y => evals o h x y) l' ys.
  Proof.
    intros O Fx A. revert ys. induction A as [|h k l l' A B IH]; intros ys T H; inversion H as [|? y ? zs H1 H2]; subst; constructor.
    - apply (al_evals _ _ A o s s'); auto. apply T. now left.
    - apply IH; auto. intros h' H'. apply T. now right.
  Qed.

  Lemma sim_comp h k r t : alike h k -> alike r t -> sim (HComp h r) (HComp k t).
  Proof.
    intros A B. apply sim_intro; try discriminate.
    - cbn [Hom.hselector]. now rewrite (al_sel _ _ A), (al_sel _ _ B).
    - intros o. cbn [Hom.hskip]. now rewrite (al_skip _ _ A), (al_skip _ _ B).
    - intros o s' T. apply typed_comp_inv in T. destruct T as (s & O & T1 & T2).
      apply (T_comp VI PF U F I US o k t s s'); auto; [now apply (al_typed _ _ B)|now apply (al_typed _ _ A)].
    - intros o s s' x n y O T Fx Nz _. cbn [Hom.direct]. apply typed_comp_inv in T. destruct T as (s0 & O0 & T1 & T2).
      assert (s0 = s) by apply (oshape_fun _ _ _ O0 _ O). subst s0. rewrite runs_bind_iff. intros (z & E1 & E2).
      apply runs_hcall in E1. apply runs_hcall in E2. exists 0. apply runs_bind_iff. exists z. split; apply runs_hcall.
      + now apply (al_evals _ _ B o s s).
      + apply (al_evals _ _ A o s s'); auto. now apply (evals_fits VI VL PF PO U F I US HO o r s s x).
  Qed.
  Lemma sim_consF o v h k : alike h k -> sim (HConsF o v h) (HConsF o v k).
  Proof.
    intros A. apply sim_intro; try discriminate; auto.
    - intros o' s' T. inversion T as [| |? s ? x o'' ? ? r O1 O2 O3 O4 T'| | | | | | | | | | | | | | | | | | | | |]; subst.
      apply (T_consF VI PF U F I US o' s o x o'' v k r); auto. now apply (al_typed _ _ A).
    - intros o' s s' x n y O T Fx Nz _. cbn [Hom.direct]. unfold with_var, with_next.
      inversion T as [| |? s0 ? v0 o'' ? ? r O1 O2 O3 O4 T'| | | | | | | | | | | | | | | | | | | | |]; subst.
      assert (s0 = s) by apply (oshape_fun _ _ _ O1 _ O). subst s0. rewrite O2, O3, runs_bind_iff. intros (z & E1 & E2).
      apply runs_hcall in E1. exists 0. apply runs_bind_iff. exists z. split; [|auto]. apply runs_hcall.
      now apply (al_evals _ _ A o'' s r).
  Qed.
  Lemma sim_consH o v h k : alike h k -> sim (HConsH o v h) (HConsH o v k).
  Proof.
    intros A. apply sim_intro; try discriminate; auto.
    - intros o' s' T. inversion T as [| | |? s ? x o'' ? nv ? r O1 O2 O3 O4 Fv T'| | | | | | | | | | | | | | | | | | | |]; subst.
      apply (T_consH VI PF U F I US o' s o x o'' v nv k r); auto. now apply (al_typed _ _ A).
    - intros o' s s' x n y O T Fx Nz _. cbn [Hom.direct]. unfold with_var, with_next.
      inversion T as [| | |? s0 ? v0 o'' ? nv ? r O1 O2 O3 O4 Fv T'| | | | | | | | | | | | | | | | | | | |]; subst.
      assert (s0 = s) by apply (oshape_fun _ _ _ O1 _ O). subst s0. rewrite O2, O3, runs_bind_iff. intros (z & E1 & E2).
      apply runs_hcall in E1. exists 0. apply runs_bind_iff. exists z. split; [|auto]. apply runs_hcall.
      now apply (al_evals _ _ A o'' s r).
  Qed.
  Lemma sim_fix h k : alike h k -> sim (HFix h) (HFix k).
  Proof.
    intros A. apply sim_intro; try discriminate.
    - exact (al_sel _ _ A).
    - exact (al_skip _ _ A).
    - intros o s' T. apply typed_fix_inv in T. destruct T as [O T]. apply T_fix; auto. now apply (al_typed _ _ A).
    - intros o s s' x n y O T Fx Nz _. apply typed_fix_inv in T. destruct T as [O0 T].
      assert (s' = s) by apply (oshape_fun _ _ _ O0 _ O). subst s'. cbn [Hom.direct]. intros R.
      assert (X : exists n, runs ends (fix_loop VI PF U F I n o h x) y) by eauto. apply (runs_fix VI PF PO) in X.
      apply (runs_fix VI PF PO). destruct X as (j & X & Y). exists j.
      assert (G : forall j x, fits s x -> HomEval.iter (evals o h) j x y -> HomEval.iter (evals o k) j x y /\ fits s y).
      { clear -A O T VL PO HO. induction j as [|j IH]; intros x Fx X; cbn [HomEval.iter] in *; [now subst|].
        destruct X as (z & X1 & X2). assert (Fz := evals_fits VI VL PF PO U F I US HO o h s s x z T O Fx X1).
        destruct (IH z Fz X2) as [Y1 Y2]. split; [|auto]. exists z. split; [|auto]. now apply (al_evals _ _ A o s s). }
      destruct (G j x Fx X) as [G1 G2]. split; [auto|]. now apply (al_evals _ _ A o s s).
  Qed.
  Lemma sim_ite p p' t t' e e' : alike p p' -> alike t t' -> alike e e' -> sim (HIte p t e) (HIte p' t' e').
  Proof.
    intros A B C. apply sim_intro; try discriminate.
    - cbn [Hom.hselector]. now rewrite (al_sel _ _ B), (al_sel _ _ C).
    - intros o. cbn [Hom.hskip]. now rewrite (al_skip _ _ A), (al_skip _ _ B), (al_skip _ _ C).
    - intros o s' T. apply typed_ite_inv in T. destruct T as (s & O & Sel & T1 & T2 & T3).
      apply (T_ite VI PF U F I US o p' t' e' s s'); auto; [rewrite <- (al_sel _ _ A); auto|now apply (al_typed _ _ A)|
        now apply (al_typed _ _ B)|now apply (al_typed _ _ C)].
    - intros o s s' x n y O T Fx Nz _ R. apply typed_ite_inv in T. destruct T as (s0 & O0 & Sel & T1 & T2 & T3).
      assert (s0 = s) by apply (oshape_fun _ _ _ O0 _ O). subst s0.
      apply (runs_ite_of VI PF U F I US) in R. exists 0. apply (runs_ite_of VI PF U F I US).
      destruct R as (c & a & d & b & E1 & E2 & E3 & E4 & E5). exists c, a, d, b.
      assert (Fc : fits s c) by now apply (evals_fits VI VL PF PO U F I US HO o p s s x).
      assert (Fd : fits s d).
      { destruct (minus_ok VI VL PF PO s x c) as (w & W1 & W2 & _); auto. congruence. }
      split; [now apply (al_evals _ _ A o s s)|]. split; [now apply (al_evals _ _ B o s s')|]. split; [auto|].
      split; [now apply (al_evals _ _ C o s s')|auto].
  Qed.
  Lemma sim_inter l l' : Forall2 alike l l' -> sim (HInter l) (HInter l').
  Proof.
    intros A. apply sim_intro; try discriminate.
    - apply forall2_forallb; auto. intros h k B. apply B.
    - intros o. apply forall2_forallb; auto. intros h k B. apply B.
    - intros o s' T. apply typed_inter_inv in T. destruct T as [Ne T]. apply T_inter; [eapply forall2_nonempty; eauto|].
      eapply forall2_typed; eauto.
    - intros o s s' x n y O T Fx Nz _. apply typed_inter_inv in T. destruct T as [_ T]. cbn [Hom.direct]. intros R. exists 0.
      revert R. generalize (@nil sdd) as acc. induction A as [|h k l l' A B IH]; intros acc R; cbn [inter_loop] in *; [auto|].
      apply runs_bind_iff in R. destruct R as (z & E & R). apply runs_hcall in E. apply runs_bind_iff. exists z.
      split; [apply runs_hcall; apply (al_evals _ _ A o s s'); auto; apply T; now left|].
      destruct (is_zero VI z); [auto|]. apply IH; auto. intros h' H'. apply T. now right.
  Qed.
  Lemma sim_sum l l' : Forall2 alike l l' -> sim (HSum l) (HSum l').
  Proof.
    intros A. apply sim_intro; try discriminate.
    - apply forall2_forallb; auto. intros h k B. apply B.
    - intros o. apply forall2_forallb; auto. intros h k B. apply B.
    - intros o s' T. apply typed_sum_inv in T. destruct T as [Ne T]. apply T_sum; [eapply forall2_nonempty; eauto|].
      eapply forall2_typed; eauto.
    - intros o s s' x n y O T Fx Nz _. apply typed_sum_inv in T. destruct T as [_ T]. cbn [Hom.direct]. intros R. exists 0.
      apply runs_bind_iff in R. destruct R as (ys & E & R). apply runs_hcalls in E. apply runs_bind_iff. exists ys.
      split; [apply runs_hcalls; eapply forall2_evals; eauto|auto].
  Qed.
  Lemma sim_local t h k : alike h k -> sim (HLocal t h) (HLocal t k).
  Proof.
    intros A. apply sim_intro; try discriminate; auto.
    - exact (al_sel _ _ A).
    - intros o s' T. apply typed_local_iff in T. destruct T as (on & n' & L & T). apply typed_local_iff. exists on, n'.
      split; [auto|now apply (al_typed _ _ A)].
    - intros o s s' x n y O T Fx Nz At. cbn [Hom.direct]. destruct x as [| |var arcs|var arcs];
        try (intros R; now apply runs_throw_iff in R). unfold with_nested.
      apply typed_local_iff in T. destruct T as (on & n' & L & T).
      destruct L as [o t n0 o' on n' r L M O'|o l o' t s' on n' L N L'].
      2:{ exfalso. unfold at_level in At. cbn [Hom.hskip] in At. rewrite (proj2 (var_neqb_level U _ _ _ _ L) N) in At.
          specialize (At (olevel_nonempty U _ _ _ L)). discriminate. }
      rewrite M. rewrite runs_bind_iff. intros (vals & E & R). exists 0. apply runs_bind_iff. exists vals.
      rewrite <- (al_sel _ _ A). split; [|auto]. apply runs_local_vals in E. apply runs_local_vals.
      destruct E as (ws & E & ->). exists ws. split; [|auto].
      assert (Hn : forall v s0, In (v, s0) arcs -> exists n1, oshape on n1 /\ fits n1 v).
      { destruct L as (L1 & L2 & on' & L3 & L4 & L5). assert (on' = on) by congruence. subst on'.
        intros v s0 Hin. exists n0. split; [auto|].
        assert (Os : exists r0, s = SHier t n0 r0).
        { destruct (oshape_inv _ _ _ O) as [[E0 _]|(E0 & l & o2 & r0 & L0 & -> & O2)].
          - exfalso. assert (X := olevel_nonempty U o (LHier t n0) o' ltac:(split; [auto|split; [auto|exists on; auto]])). congruence.
          - destruct (olevel_fun U o l o2 L0 (LHier t n0) o') as [-> _]; [split; [auto|split; [auto|exists on; auto]]|].
            exists r0. reflexivity. }
        destruct Os as (r0 & ->). destruct (fits_harcs VI PF t n0 r0 (Hier var arcs) v s0 Fx Hin) as (B & _). auto. }
      clear R Fx Nz. induction E as [|[v s0] w arcs ws E1 E2 IH]; constructor.
      + cbn [fst] in *. destruct (Hn v s0 (or_introl eq_refl)) as (n1 & On & Fv).
        now apply (al_evals _ _ A on n1 n').
      + apply IH. intros v' s1 H1. apply (Hn v' s1). now right.
  Qed.

  Definition alike_opt (f f' : option hom) : Prop :=
    match f, f' with
    | None, None => True
    | Some h, Some k => alike h k
    | _, _ => False
    end.
  Lemma alike_opt_list f f' : alike_opt f f' -> Forall2 alike (opt_list f) (opt_list f').
  Proof. destruct f, f'; cbn; intros A; try contradiction; [constructor; [exact A|constructor]|constructor]. Qed.
  Lemma alike_opt_sym f f' : alike_opt f f' -> alike_opt f' f.
  Proof. destruct f, f'; cbn; auto. apply alike_sym. Qed.
  Lemma alike_opt_refl f : alike_opt f f.
  Proof. destruct f; cbn; auto. apply alike_refl. Qed.
  Lemma alike_parts f f' g g' k k' : alike_opt f f' -> Forall2 alike g g' -> alike_opt k k' ->
    Forall2 alike (opt_list f ++ g ++ opt_list k) (opt_list f' ++ g' ++ opt_list k').
  Proof. intros A B C. apply Forall2_app; [now apply alike_opt_list|]. apply Forall2_app; [auto|now apply alike_opt_list]. Qed.
  Lemma alike_opt_sel f f' : alike_opt f f' ->
    (match f with Some h => hselector h | None => true end) = (match f' with Some h => hselector h | None => true end).
  Proof. destruct f, f'; cbn; intros A; try contradiction; auto. apply A. Qed.

  Lemma sim_satsum x f f' g g' k k' : alike_opt f f' -> Forall2 alike g g' -> alike_opt k k' ->
    sim (HSatSum x f g k) (HSatSum x f' g' k').
  Proof.
    intros A B C. assert (P := alike_parts _ _ _ _ _ _ A B C). apply sim_intro; try discriminate; auto.
    - cbn [Hom.hselector]. rewrite (alike_opt_sel _ _ A), (alike_opt_sel _ _ C). f_equal. apply forall2_forallb; auto.
      intros h j D. apply D.
    - intros o s' T. remember (HSatSum x f g k) as h eqn:Eh. induction T; try discriminate; injection Eh; intros; subst.
      + eapply T_satsum_here; eauto; [eapply forall2_nonempty; eauto|]. eapply forall2_typed; eauto.
      + eapply T_satsum_next; eauto.
    - intros o s s' d n y O T Fd Nz At. cbn [Hom.direct]. intros R. exists 0.
      assert (T' : forall h, In h (opt_list f ++ g ++ opt_list k) -> typed o h s').
      { inversion T; subst; [auto|]. exfalso. unfold at_level in At. cbn [Hom.hskip] in At.
        match goal with L : olevel o ?l _, N : lvar ?l <> x |- _ =>
          rewrite (proj2 (var_neqb_level U _ _ _ _ L) N) in At; specialize (At (olevel_nonempty U _ _ _ L)); discriminate end. }
      apply runs_bind_iff in R. destruct R as (ys & E & R). apply runs_hcalls in E. apply runs_bind_iff. exists ys.
      split; [apply runs_hcalls; eapply forall2_evals; eauto|auto].
  Qed.
  Lemma sim_satinter x f f' g g' k k' : alike_opt f f' -> Forall2 alike g g' -> alike_opt k k' ->
    sim (HSatInter x f g k) (HSatInter x f' g' k').
  Proof.
    intros A B C. assert (P := alike_parts _ _ _ _ _ _ A B C). apply sim_intro; try discriminate; auto.
    - cbn [Hom.hselector]. rewrite (alike_opt_sel _ _ A), (alike_opt_sel _ _ C). f_equal. apply forall2_forallb; auto.
      intros h j D. apply D.
    - intros o s' T. remember (HSatInter x f g k) as h eqn:Eh. induction T; try discriminate; injection Eh; intros; subst.
      + eapply T_satinter_here; eauto; [eapply forall2_nonempty; eauto|]. eapply forall2_typed; eauto.
      + eapply T_satinter_next; eauto.
    - intros o s s' d n y O T Fd Nz At. cbn [Hom.direct]. intros R. exists 0.
      assert (T' : forall h, In h (opt_list f ++ g ++ opt_list k) -> typed o h s').
      { inversion T; subst; [auto|]. exfalso. unfold at_level in At. cbn [Hom.hskip] in At.
        match goal with L : olevel o ?l _, N : lvar ?l <> x |- _ =>
          rewrite (proj2 (var_neqb_level U _ _ _ _ L) N) in At; specialize (At (olevel_nonempty U _ _ _ L)); discriminate end. }
      apply runs_bind_iff in R. destruct R as (ys & E & R). apply runs_hcalls in E. apply runs_bind_iff. exists ys.
      split; [apply runs_hcalls; eapply forall2_evals; eauto|auto].
  Qed.
  Lemma chain_alike o s g g' : oshape o s -> Forall2 alike g g' -> (forall h, In h g -> typed o h s) ->
    forall x y, fits s x -> chain o g x y -> chain o g' x y /\ fits s y.
  Proof.
    intros O A. induction A as [|h k g g' A B IH]; intros T x y Fx; cbn [HomEval.chain]; [intros ->; auto|].
    intros (z & w & E1 & E2 & E3). assert (Th := T h (or_introl eq_refl)).
    assert (Fz := evals_fits VI VL PF PO U F I US HO o h s s x z Th O Fx E1).
    assert (Fw : fits s w).
    { destruct (sum_ok VI VL PF PO s [x; z]) as (w' & W1 & W2 & _); [intros a [<-|[<-|[]]]; auto|]. congruence. }
    destruct (IH (fun j Hj => T j (or_intror Hj)) w y Fw E3) as [C1 C2]. split; [|auto]. exists z, w.
    split; [now apply (al_evals _ _ A o s s)|auto].
  Qed.
  Lemma sim_satfix x f f' g g' k k' : alike f f' -> Forall2 alike g g' -> alike k k' ->
    sim (HSatFix x f g k) (HSatFix x f' g' k').
  Proof.
    intros A B C. apply sim_intro; try discriminate; auto.
    - cbn [Hom.hselector]. rewrite (al_sel _ _ A), (al_sel _ _ C). f_equal. apply forall2_forallb; auto. intros h j D. apply D.
    - intros o s' T. remember (HSatFix x f g k) as h eqn:Eh. induction T; try discriminate; injection Eh; intros; subst.
      + eapply T_satfix_here; eauto; [now apply (al_typed _ _ A)| |now apply (al_typed _ _ C)]. eapply forall2_typed; eauto.
      + eapply T_satfix_next; eauto.
    - intros o s s' d n y O T Fd Nz At. cbn [Hom.direct]. intros R.
      assert (T' : typed o f s /\ (forall h, In h g -> typed o h s) /\ typed o k s).
      { inversion T as [| | | | | | | | | | | | | | | | |? l o' s0 ? ? ? L O0 T1 T2 T3|? l o' ? ? ? ? s0 L N T0| | | | |]; subst.
        - assert (s' = s) by apply (oshape_fun _ _ _ O0 _ O). now subst s'.
        - exfalso. unfold at_level in At. cbn [Hom.hskip] in At. rewrite (proj2 (var_neqb_level U _ _ _ _ L) N) in At.
          specialize (At (olevel_nonempty U _ _ _ L)). discriminate. }
      destruct T' as (T1 & T2 & T3).
      assert (X : exists n, runs ends (sat_loop VI PF U F I n o f g k d) y) by eauto. apply (runs_sat VI PF PO) in X.
      apply (runs_sat VI PF PO). destruct X as (j & X & Y). exists j.
      assert (St : forall u v, fits s u -> sat_step o f g k u v -> sat_step o f' g' k' u v /\ fits s v).
      { intros u v Fu (u2 & u3 & E1 & E2 & E3).
        assert (F2 := evals_fits VI VL PF PO U F I US HO o f s s u u2 T1 O Fu E1).
        assert (F3 := evals_fits VI VL PF PO U F I US HO o k s s u2 u3 T3 O F2 E2).
        destruct (chain_alike o s g g' O B T2 u3 v F3 E3) as [C1 C2]. split; [|auto]. exists u2, u3.
        split; [now apply (al_evals _ _ A o s s)|]. split; [now apply (al_evals _ _ C o s s)|auto]. }
      assert (G : forall j u, fits s u -> HomEval.iter (sat_step o f g k) j u y ->
                  HomEval.iter (sat_step o f' g' k') j u y /\ fits s y).
      { clear -St. induction j as [|j IH]; intros u Fu X; cbn [HomEval.iter] in *; [now subst|].
        destruct X as (z & X1 & X2). destruct (St u z Fu X1) as [S1 S2]. destruct (IH z S2 X2) as [Y1 Y2].
        split; [|auto]. exists z. auto. }
      destruct (G j d Fd X) as [G1 G2]. split; [auto|]. now apply St.
  Qed.

  (** ** Replacement anywhere *)

  Lemma alike_comp h k r t : alike h k -> alike r t -> alike (HComp h r) (HComp k t).
  Proof. intros A B. apply sim_alike; apply sim_comp; auto using alike_sym. Qed.
  Lemma alike_list a b h k : alike h k -> Forall2 alike (a ++ h :: b) (a ++ k :: b).
  Proof. intros A. apply Forall2_app; [apply forall2_refl|]. constructor; [auto|apply forall2_refl]. Qed.
  Lemma alike_assoc a b c : alike (HComp (HComp a b) c) (HComp a (HComp b c)).
  Proof.
    split.
    - cbn [Hom.hselector]. now rewrite andb_assoc.
    - intros o. cbn [Hom.hskip]. now rewrite andb_assoc.
    - intros o s'. split; intros T.
      + apply typed_comp_inv in T. destruct T as (s & O & T1 & T2). apply typed_comp_inv in T2. destruct T2 as (s2 & O2 & T2 & T3).
        assert (s2 = s) by apply (oshape_fun _ _ _ O2 _ O). subst s2. apply (T_comp VI PF U F I US o a _ s s'); auto.
        now apply (T_comp VI PF U F I US o b c s s).
      + apply typed_comp_inv in T. destruct T as (s & O & T1 & T2). apply typed_comp_inv in T1. destruct T1 as (s2 & O2 & T1 & T3).
        assert (s2 = s) by apply (oshape_fun _ _ _ O2 _ O). subst s2. apply (T_comp VI PF U F I US o _ c s s'); auto.
        now apply (T_comp VI PF U F I US o a b s s').
    - intros o s s' x y O T Fx. rewrite (E_comp VI VL PF PO U F I US HO o s O _ _ s'); auto.
      apply typed_comp_inv in T. destruct T as (s1 & O1 & T1 & T2). assert (s1 = s) by apply (oshape_fun _ _ _ O1 _ O). subst s1.
      apply typed_comp_inv in T2. destruct T2 as (s2 & O2 & T2 & T3). assert (s2 = s) by apply (oshape_fun _ _ _ O2 _ O). subst s2.
      assert (Tbc : typed o (HComp b c) s) by now apply (T_comp VI PF U F I US o b c s s).
      assert (Tab : typed o (HComp a b) s') by now apply (T_comp VI PF U F I US o a b s s').
      rewrite (E_comp VI VL PF PO U F I US HO o s O a (HComp b c) s'); auto; [|now apply (T_comp VI PF U F I US o a _ s s')].
      split.
      + intros (z & E1 & E2). assert (Fz := evals_fits VI VL PF PO U F I US HO o c s s x z T1 O Fx E1).
        apply (E_comp VI VL PF PO U F I US HO o s O a b s') in E2; auto. destruct E2 as (w & E2 & E3). exists w. split; [|auto].
        apply (E_comp VI VL PF PO U F I US HO o s O b c s); eauto.
      + intros (w & E1 & E2). apply (E_comp VI VL PF PO U F I US HO o s O b c s) in E1; auto. destruct E1 as (z & E1 & E3).
        assert (Fz := evals_fits VI VL PF PO U F I US HO o c s s x z T1 O Fx E1). exists z. split; [auto|].
        apply (E_comp VI VL PF PO U F I US HO o s O a b s'); eauto.
  Qed.
End Replace.
