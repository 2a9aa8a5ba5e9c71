(** * Saturation homomorphisms at their variable; homomorphisms without fixpoints terminate *)

From Coq Require Import List Bool NArith Arith Lia Permutation Sorted Relations.
From Verif Require Import Base SortedSets Values Sdd SddFacts Orders OrdersProofs OrdersSdd DDModel.
From Verif Require Import DDGeneric DDProofs DDTheorems Hom HomFacts HomEval HomTyped HomEqns HomLinear.
Import ListNotations.

Section HomHalts.
  Variable VI : values_impl.
  Hypothesis VL : values_laws VI.
  Variable PF : platform VI.
  Hypothesis PO : platform_ok PF.
  Variables U F I : Type.
  Notation V := (vt VI).
  Notation sdd := (sdd V).
  Notation hom := (hom V U F I).
  Variable US : user V U F I.
  Notation order := (order U).
  Notation fits := (fits VI PF).
  Notation oshape := (oshape U).
  Notation olevel := (olevel U).
  Notation typed := (typed VI PF U F I US).
  Notation hskip := (hskip VI U F I US).
  Notation evals := (evals VI PF U F I US).
  Notation ends := (ends VI PF U F I US).
  Notation residual := (residual VI).
  Notation sum_of := (sum_of VI PF U F I US).
  Notation inter_of := (inter_of VI PF U F I US).
  Notation opt_list := (opt_list VI U F I).
  Notation sat_step := (sat_step VI PF U F I US).
  Notation harcs := (harcs VI).
  Hypothesis HO : honest VI PF U F I US.

  (** ** Saturation homomorphisms at their variable *)

  Theorem E_satsum o l o' s f g k x y : olevel o l o' -> oshape o s -> fits s x ->
    (evals o (HSatSum (lvar l) f g k) x y <-> sum_of o (opt_list f ++ g ++ opt_list k) x y).
  Proof.
    intros L O Fx. destruct (is_zero VI x) eqn:Z.
    { apply is_zero_iff in Z. subst x. rewrite evals_zero. symmetry. now apply sum_of_zero. }
    assert (Nz : x <> Zero) by (intros ->; discriminate).
    rewrite (ev_direct VI PF U F I US o _ s); auto; try discriminate.
    2:{ intros _. cbn [Hom.hskip]. apply (var_neqb_here U _ _ _ L). }
    cbn [Hom.direct]. unfold HomEqns.sum_of. split.
    - intros (_ & H). apply runs_bind_iff in H. destruct H as (ys & A & B). apply runs_hcalls in A.
      apply runs_lift in B. exists ys. auto.
    - intros (ys & A & B). exists 0. apply runs_bind_iff. exists ys. split; [now apply runs_hcalls|now apply runs_lift].
  Qed.

  Theorem E_satinter o l o' s f g k x y : olevel o l o' -> oshape o s -> fits s x -> x <> Zero ->
    (evals o (HSatInter (lvar l) f g k) x y <-> inter_of o (opt_list f ++ g ++ opt_list k) x y).
  Proof.
    intros L O Fx Nz. rewrite (ev_direct VI PF U F I US o _ s); auto; try discriminate.
    2:{ intros _. cbn [Hom.hskip]. apply (var_neqb_here U _ _ _ L). }
    cbn [Hom.direct]. unfold HomEqns.inter_of. split.
    - intros (_ & H). apply runs_bind_iff in H. destruct H as (ys & A & B). apply runs_hcalls in A.
      apply runs_lift in B. exists ys. auto.
    - intros (ys & A & B). exists 0. apply runs_bind_iff. exists ys. split; [now apply runs_hcalls|now apply runs_lift].
  Qed.

  Theorem E_satfix o l o' s f g k x y : olevel o l o' -> oshape o s -> fits s x -> x <> Zero ->
    (evals o (HSatFix (lvar l) f g k) x y <->
     exists n, HomEval.iter (sat_step o f g k) n x y /\ sat_step o f g k y y).
  Proof.
    intros L O Fx Nz. rewrite (ev_direct VI PF U F I US o _ s); auto; try discriminate.
    2:{ intros _. cbn [Hom.hskip]. apply (var_neqb_here U _ _ _ L). }
    cbn [Hom.direct]. apply (runs_sat VI PF PO).
  Qed.

  (** ** Termination *)

  (** No fixpoint below; the ones that the inductive homomorphisms of the user could build are
      excluded by a separate hypothesis. *)
  Fixpoint nofix (h : hom) : bool :=
    match h with
    | HComp l r => nofix l && nofix r
    | HConsF _ _ n | HConsH _ _ n => nofix n
    | HConst _ | HFun _ _ | HId | HInd _ => true
    | HFix _ | HSatFix _ _ _ _ => false
    | HIte p t e => nofix p && nofix t && nofix e
    | HInter l | HSum l => forallb nofix l
    | HLocal _ h => nofix h
    | HSatInter _ f g l | HSatSum _ f g l =>
      (match f with Some h => nofix h | None => true end) && forallb nofix g &&
      (match l with Some h => nofix h | None => true end)
    end.

  Definition user_nofix : Prop :=
    (forall i o v, nofix (i_flat US i o v) = true) /\ (forall i o v, nofix (i_hier US i o v) = true).

  Lemma nofix_opt f g k h : (match f with Some h => nofix h | None => true end) && forallb nofix g &&
      (match k with Some h => nofix h | None => true end) = true ->
    In h (opt_list f ++ g ++ opt_list k) -> nofix h = true.
  Proof.
    intros H Hin. apply andb_true_iff in H. destruct H as [H H3]. apply andb_true_iff in H. destruct H as [H1 H2].
    rewrite forallb_forall in H2. apply in_app_or in Hin. destruct Hin as [Hin|Hin].
    - destruct f as [f|]; cbn in Hin; [destruct Hin as [<-|[]]; auto|destruct Hin].
    - apply in_app_or in Hin. destruct Hin as [Hin|Hin]; [auto|].
      destruct k as [k|]; cbn in Hin; [destruct Hin as [<-|[]]; auto|destruct Hin].
  Qed.

  Lemma ind_vals_ex {W : Type} o (k : W -> hom) arcs :
    (forall v s, In (v, s) arcs -> exists y, evals o (k v) s y) ->
    exists ys, runs ends (ind_vals VI U F I o k arcs) ys.
  Proof.
    induction arcs as [|[v s] arcs IH]; intros H.
    - exists []. constructor.
    - destruct (H v s (or_introl eq_refl)) as (y & Hy).
      destruct IH as (ys & Hys); [intros v' s' Hin; apply (H v' s'); now right|].
      exists (y :: ys). cbn [ind_vals]. apply runs_bind_iff. exists y. split; [now apply runs_hcall|].
      apply runs_bind_iff. exists ys. split; [auto|constructor].
  Qed.

  Theorem halts : user_nofix -> forall o h s', typed o h s' -> nofix h = true ->
    forall s x, oshape o s -> fits s x -> exists y, evals o h x y.
  Proof.
    intros [UF UH] o h s' T.
    induction T as
      [o s O|o l r s s' O H1 IH1 H2 IH2|o s o1 x1 o'' v n r O A1 A2 O' T IH
      |o s o1 x1 o'' v nv n r O A1 A2 O' A3 T IH|o s c s' O Fc|o h1 s O T IH|o t1 f E|o t1 f r O
      |o k1 o1 t1 f s' L N T IH|o p t1 e s s' O Sel T1 IH1 T2 IH2 T3 IH3|o i s' E Fi
      |o k1 o1 i s' L Sk T IH|o x1 o1 i s' L Sk T IH|o x1 n o1 i s' L Sk T IH|o hs s' Ne T IH
      |o t1 n o0 on0 h1 n' r L M O T IH|o k1 o0 t1 h1 s' L N T IH
      |o k1 o1 s f g q L O T1 IH1 T2 IH2 T3 IH3|o k1 o1 x1 f g q s' L N T IH
      |o k1 o1 s' f g q L Ne T IH|o k1 o1 x1 f g q s' L N T IH
      |o k1 o1 s' f g q L Ne T IH|o k1 o1 x1 f g q s' L N T IH|o hs s' Ne T IH];
      intros Nf s0 x Os Fx; cbn [nofix] in Nf; try discriminate Nf.
    - exists x. now apply evals_id.
    - apply andb_true_iff in Nf. destruct Nf as [Nl Nr]. rewrite (oshape_fun _ _ _ Os _ O) in *. clear Os.
      destruct (IH1 Nr s x O Fx) as (z & Ez).
      assert (Fz : fits s z) by (apply (evals_fits VI VL PF PO U F I US HO o r s s x); auto).
      destruct (IH2 Nl s z O Fz) as (y & Ey). exists y.
      apply (E_comp VI VL PF PO U F I US HO o s O l r s'); eauto. eapply T_comp; eauto.
    - rewrite (oshape_fun _ _ _ Os _ O) in *. clear Os. destruct (IH Nf s x O' Fx) as (z & Ez).
      destruct (is_zero VI x) eqn:Z.
      { apply is_zero_iff in Z. subst x. exists Zero. now apply evals_zero. }
      exists (node_flat VI PF x1 v z).
      apply (ev_direct VI PF U F I US o _ s); auto; try discriminate; [intros ->; discriminate|].
      exists 0. cbn [Hom.direct]. unfold with_var, with_next. rewrite A1, A2. apply runs_bind_iff. exists z.
      split; [now apply runs_hcall|constructor].
    - rewrite (oshape_fun _ _ _ Os _ O) in *. clear Os. destruct (IH Nf s x O' Fx) as (z & Ez).
      destruct (is_zero VI x) eqn:Z.
      { apply is_zero_iff in Z. subst x. exists Zero. now apply evals_zero. }
      exists (node_hier VI PF x1 v z).
      apply (ev_direct VI PF U F I US o _ s); auto; try discriminate; [intros ->; discriminate|].
      exists 0. cbn [Hom.direct]. unfold with_var, with_next. rewrite A1, A2. apply runs_bind_iff. exists z.
      split; [now apply runs_hcall|constructor].
    - destruct (is_zero VI x) eqn:Z.
      { apply is_zero_iff in Z. subst x. exists Zero. now apply evals_zero. }
      exists c. apply (ev_direct VI PF U F I US o _ s0); auto; try discriminate; [intros ->; discriminate|].
      exists 0. constructor.
    - destruct (oshape_inv _ _ _ Os) as [[_ ->]|[X _]]; [|congruence].
      destruct x as [| |v arcs|v arcs]; [| |destruct Fx as [_ Fx]; inversion Fx..].
      { exists Zero. now apply evals_zero. }
      exists One. apply (ev_direct VI PF U F I US o _ SEnd); auto; try discriminate; [congruence|].
      exists 0. constructor.
    - rewrite (oshape_fun _ _ _ Os _ O) in *. clear Os.
      destruct (oshape_flat_level _ _ _ _ O) as (o' & L).
      destruct x as [| |v arcs|v arcs]; try (destruct Fx as [_ Fx]; now inversion Fx).
      { exists Zero. now apply evals_zero. }
      destruct (fits_flat_inv VI PF _ _ _ _ Fx) as (-> & _).
      assert (Dir : exists y, runs ends (direct VI PF U F I US 0 (HFun t1 f) o (Flat t1 arcs)) y).
      { cbn [Hom.direct]. unfold with_var. rewrite (proj1 L). cbn [lvar].
        destruct (f_sel US f || f_shift US f) eqn:E.
        - eexists. apply runs_ret_iff. reflexivity.
        - destruct (fun_slow_ok VI VL PF PO t1 r (f_apply US f) arcs Fx) as (z & Ez & Fz & C).
          exists z. now apply runs_lift. }
      destruct Dir as (y & Hy). exists y. apply (ev_direct VI PF U F I US o _ (SFlat t1 r)); eauto; try discriminate.
      intros _. cbn [Hom.hskip]. apply (var_neqb_here U _ _ _ L).
    - destruct (oshape_inv _ _ _ Os) as [[X _]|(_ & l' & o'' & r & L' & -> & O')].
      { rewrite (olevel_nonempty _ _ _ _ L) in X. discriminate. }
      destruct (olevel_fun _ _ _ _ L' _ _ L) as [-> ->].
      apply (skip_exists VI VL PF PO U F I US HO o k1 o1 _ r s' x L O' Fx); auto.
      + cbn [Hom.hskip]. now apply (var_neqb_level U o k1 o1 t1 L).
      + intros k. apply (IH eq_refl r); auto. now apply (residual_fits VI PF k1).
    - apply andb_true_iff in Nf. destruct Nf as [Nf Ne]. apply andb_true_iff in Nf. destruct Nf as [Np Nt].
      rewrite (oshape_fun _ _ _ Os _ O) in *. clear Os.
      destruct (IH1 Np s x O Fx) as (c & Ec).
      assert (Fc : fits s c) by (apply (evals_fits VI VL PF PO U F I US HO o p s s x); auto).
      destruct (minus_ok VI VL PF PO s x c Fx Fc) as (d & Ed & Fd & Cd).
      destruct (IH2 Nt s c O Fc) as (a & Ea). destruct (IH3 Ne s d O Fd) as (b & Eb).
      destruct (sum_ok VI VL PF PO s' [a; b]) as (y & Ey & Fy & Cy).
      { intros w [<-|[<-|[]]].
        - apply (evals_fits VI VL PF PO U F I US HO o t1 s s' c); auto.
        - apply (evals_fits VI VL PF PO U F I US HO o e s s' d); auto. }
      exists y. apply (E_ite VI VL PF PO U F I US HO o s O p t1 e s'); [eapply T_ite; eauto|auto|].
      exists c, a, d, b. auto.
    - destruct (oshape_inv _ _ _ Os) as [[_ ->]|[X _]]; [|congruence].
      destruct x as [| |v arcs|v arcs]; [| |destruct Fx as [_ Fx]; inversion Fx..].
      { exists Zero. now apply evals_zero. }
      exists (i_one US i). apply (ev_direct VI PF U F I US o _ SEnd); auto; try discriminate; [congruence|].
      exists 0. constructor.
    - destruct (oshape_inv _ _ _ Os) as [[X _]|(_ & l' & o'' & r & L' & -> & O')].
      { rewrite (olevel_nonempty _ _ _ _ L) in X. discriminate. }
      destruct (olevel_fun _ _ _ _ L' _ _ L) as [-> ->].
      apply (skip_exists VI VL PF PO U F I US HO o k1 o1 _ r s' x L O' Fx); auto.
      intros k. apply (IH eq_refl r); auto. now apply (residual_fits VI PF k1).
    - destruct (oshape_inv _ _ _ Os) as [[X _]|(_ & l' & o'' & r & L' & -> & O')].
      { rewrite (olevel_nonempty _ _ _ _ L) in X. discriminate. }
      destruct (olevel_fun _ _ _ _ L' _ _ L) as [-> ->]. cbn [under] in *.
      destruct x as [| |v arcs|v arcs]; try (destruct Fx as [_ Fx]; now inversion Fx).
      { exists Zero. now apply evals_zero. }
      destruct (fits_flat_inv VI PF _ _ _ _ Fx) as (-> & _ & D & G).
      destruct (ind_vals_ex o1 (i_flat US i o) arcs) as (ys & Hys).
      { intros v s Hin. destruct (G v s Hin) as (G1 & G2 & G3).
        apply (IH v G1 (UF i o v) r); auto. }
      pose proof Hys as Hys'. apply runs_ind_vals in Hys'.
      destruct (sum_ok VI VL PF PO s' ys) as (y & Ey & _).
      { intros y Hy. destruct (Forall2_in_r _ _ _ _ _ _ Hys' Hy) as ([v s] & Hin & Ev). cbn in Ev.
        destruct (G v s Hin) as (G1 & G2 & G3).
        apply (evals_fits VI VL PF PO U F I US HO o1 (i_flat US i o v) r s' s); auto. }
      exists y. apply (ev_direct VI PF U F I US o _ (SFlat x1 r)); auto; try discriminate.
      exists 0. cbn [Hom.direct]. unfold with_next. rewrite (proj1 (proj2 L)). apply runs_bind_iff.
      exists ys. split; [auto|now apply runs_lift].
    - destruct (oshape_inv _ _ _ Os) as [[X _]|(_ & l' & o'' & r & L' & -> & O')].
      { rewrite (olevel_nonempty _ _ _ _ L) in X. discriminate. }
      destruct (olevel_fun _ _ _ _ L' _ _ L) as [-> ->]. cbn [under] in *.
      destruct x as [| |v arcs|v arcs]; try (destruct Fx as [_ Fx]; now inversion Fx).
      { exists Zero. now apply evals_zero. }
      destruct (fits_hier_inv VI PF _ _ _ _ _ Fx) as (-> & _ & D & G).
      destruct (ind_vals_ex o1 (i_hier US i o) arcs) as (ys & Hys).
      { intros v s Hin. destruct (G v s Hin) as (G1 & G2 & G3 & G4).
        apply (IH v G2 G1 (UH i o v) r); auto. }
      pose proof Hys as Hys'. apply runs_ind_vals in Hys'.
      destruct (sum_ok VI VL PF PO s' ys) as (y & Ey & _).
      { intros y Hy. destruct (Forall2_in_r _ _ _ _ _ _ Hys' Hy) as ([v s] & Hin & Ev). cbn in Ev.
        destruct (G v s Hin) as (G1 & G2 & G3 & G4).
        apply (evals_fits VI VL PF PO U F I US HO o1 (i_hier US i o v) r s' s); auto. }
      exists y. apply (ev_direct VI PF U F I US o _ (SHier x1 n r)); auto; try discriminate.
      exists 0. cbn [Hom.direct]. unfold with_next. rewrite (proj1 (proj2 L)). apply runs_bind_iff.
      exists ys. split; [auto|now apply runs_lift].
    - rewrite forallb_forall in Nf.
      destruct (evals_all_ex VI PF U F I US o hs x) as (ys & Hys).
      { intros h Hh. apply (IH h Hh (Nf h Hh) s0); auto. }
      assert (Fys := evals_all_fits VI VL PF PO U F I US HO o hs s0 s' x ys Os Fx T Hys).
      assert (Ney := evals_all_ne VI PF U F I US _ _ _ _ Hys Ne).
      destruct (inter_ok VI VL PF PO s' ys Ney Fys) as (y & Ey & _). exists y.
      apply (E_inter VI VL PF PO U F I US HO o s0 Os hs s'); [now constructor|auto|]. exists ys. auto.
    - assert (Es : s0 = SHier t1 n r).
      { apply (oshape_fun _ _ _ Os). now apply (oshape_level _ _ (LHier t1 n) _ r L). }
      subst s0. apply (local_here_ex VI VL PF PO U F I US HO o t1 n o0 on0 h1 n' r x L M O T Fx).
      intros v s Hin. destruct x as [| |v0 arcs|v0 arcs]; cbn [HomLinear.harcs] in Hin; [destruct Hin..|].
      destruct (fits_hier_inv VI PF _ _ _ _ _ Fx) as (_ & _ & _ & G). destruct (G v s Hin) as (_ & G1 & _).
      apply (IH Nf n); auto. destruct L as (_ & _ & on' & M' & _ & On). congruence.
    - destruct (oshape_inv _ _ _ Os) as [[X _]|(_ & l' & o'' & r & L' & -> & O')].
      { rewrite (olevel_nonempty _ _ _ _ L) in X. discriminate. }
      destruct (olevel_fun _ _ _ _ L' _ _ L) as [-> ->].
      apply (skip_exists VI VL PF PO U F I US HO o k1 o0 _ r s' x L O' Fx); auto.
      + cbn [Hom.hskip]. now apply (var_neqb_level U o k1 o0 t1 L).
      + intros k. apply (IH Nf r); auto. now apply (residual_fits VI PF k1).
    - destruct (is_zero VI x) eqn:Z.
      { apply is_zero_iff in Z. subst x. exists Zero. now apply evals_zero. }
      destruct (evals_all_ex VI PF U F I US o (opt_list f ++ g ++ opt_list q) x) as (ys & Hys).
      { intros h Hh. apply (IH h Hh (nofix_opt f g q h Nf Hh) s0); auto. }
      assert (Fys := evals_all_fits VI VL PF PO U F I US HO o _ s0 s' x ys Os Fx T Hys).
      assert (Ney := evals_all_ne VI PF U F I US _ _ _ _ Hys Ne).
      destruct (inter_ok VI VL PF PO s' ys Ney Fys) as (y & Ey & _). exists y.
      apply (E_satinter o k1 o1 s0 f g q x y L Os Fx); [intros ->; discriminate|]. exists ys. auto.
    - destruct (oshape_inv _ _ _ Os) as [[X _]|(_ & l' & o'' & r & L' & -> & O')].
      { rewrite (olevel_nonempty _ _ _ _ L) in X. discriminate. }
      destruct (olevel_fun _ _ _ _ L' _ _ L) as [-> ->].
      apply (skip_exists VI VL PF PO U F I US HO o k1 o1 _ r s' x L O' Fx); auto.
      + cbn [Hom.hskip]. now apply (var_neqb_level U o k1 o1 x1 L).
      + intros k. apply (IH Nf r); auto. now apply (residual_fits VI PF k1).
    - destruct (evals_all_ex VI PF U F I US o (opt_list f ++ g ++ opt_list q) x) as (ys & Hys).
      { intros h Hh. apply (IH h Hh (nofix_opt f g q h Nf Hh) s0); auto. }
      assert (Fys := evals_all_fits VI VL PF PO U F I US HO o _ s0 s' x ys Os Fx T Hys).
      destruct (sum_ok VI VL PF PO s' ys Fys) as (y & Ey & _). exists y.
      apply (E_satsum o k1 o1 s0 f g q x y L Os Fx). exists ys. auto.
    - destruct (oshape_inv _ _ _ Os) as [[X _]|(_ & l' & o'' & r & L' & -> & O')].
      { rewrite (olevel_nonempty _ _ _ _ L) in X. discriminate. }
      destruct (olevel_fun _ _ _ _ L' _ _ L) as [-> ->].
      apply (skip_exists VI VL PF PO U F I US HO o k1 o1 _ r s' x L O' Fx); auto.
      + cbn [Hom.hskip]. now apply (var_neqb_level U o k1 o1 x1 L).
      + intros k. apply (IH Nf r); auto. now apply (residual_fits VI PF k1).
    - rewrite forallb_forall in Nf.
      destruct (evals_all_ex VI PF U F I US o hs x) as (ys & Hys).
      { intros h Hh. apply (IH h Hh (Nf h Hh) s0); auto. }
      assert (Fys := evals_all_fits VI VL PF PO U F I US HO o hs s0 s' x ys Os Fx T Hys).
      destruct (sum_ok VI VL PF PO s' ys Fys) as (y & Ey & _). exists y.
      apply (E_sum VI VL PF PO U F I US HO o s0 Os hs s'); [now constructor|auto|]. exists ys. auto.
  Qed.
End HomHalts.
