(** * Evaluation of inductive homomorphisms *)

From Coq Require Import List Bool NArith Arith Lia Permutation Sorted Relations.
From Verif Require Import Base SortedSets Values Sdd SddFacts Orders OrdersProofs OrdersSdd DDModel Spec.
From Verif Require Import DDGeneric DDProofs DDTheorems Hom HomFacts HomEval HomTyped HomEqns HomLinear.
From Verif Require Import HomSum HomHalts HomComp HomInter HomFun.
Import ListNotations.

Section HomInd.
  Variable VI : values_impl.
  Hypothesis VL : values_laws VI.
  Variable PF : platform VI.
  Hypothesis PO : platform_ok PF.
  Variables U F I : Type.
  Notation V := (vt VI).
  Notation sdd := (sdd V).
  Notation hom := (hom V U F I).
  Variable US : user V U F I.
  Notation order := (order U).
  Notation fits := (fits VI PF).
  Notation oshape := (oshape U).
  Notation olevel := (olevel U).
  Notation typed := (typed VI PF U F I US).
  Notation hskip := (hskip VI U F I US).
  Notation evals := (evals VI PF U F I US).
  Notation asg := (asg (elt VI)).
  Notation harcs := (harcs VI).
  Notation farcs := (farcs VI).
  Notation acts := (acts VI PF U F I US).
  Notation mset := (mset VI).
  Hypothesis HO : honest VI PF U F I US.

  Lemma Forall2_in_l {A B} (P : A -> B -> Prop) l l' a : Forall2 P l l' -> In a l -> exists b, In b l' /\ P a b.
  Proof.
    induction 1 as [|x y l l' Pxy H IH]; intros Hin; [destruct Hin|]. destruct Hin as [<-|Hin]; [exists y; cbn; auto|].
    destruct (IH Hin) as (b & Hb & Pb). exists b. cbn. auto.
  Qed.

  Lemma typed_ind_flat o t o' i s' : olevel o (LFlat t) o' -> hskip o (HInd i) = false ->
    typed o (HInd i) s' -> forall v, v_empty VI v = false -> typed o' (i_flat US i o v) s'.
  Proof.
    intros L Sk T. inversion T as
      [| | | | | | | | | |? ? ? E|? l o1 ? s1 L1 Sk1|? x1 o1 ? ? L1 Sk1 T1|? x1 n1 o1 ? ? L1 Sk1| | | | | | | | | |]; subst.
    - rewrite (olevel_nonempty _ _ _ _ L) in E. discriminate.
    - congruence.
    - destruct (olevel_fun _ _ _ _ L1 _ _ L) as [_ ->]. auto.
    - destruct (olevel_fun _ _ _ _ L1 _ _ L) as [X _]. discriminate.
  Qed.

  Lemma typed_ind_hier o t n o' i s' : olevel o (LHier t n) o' -> hskip o (HInd i) = false ->
    typed o (HInd i) s' -> forall v, fits n v -> v <> Zero -> typed o' (i_hier US i o v) s'.
  Proof.
    intros L Sk T. inversion T as
      [| | | | | | | | | |? ? ? E|? l o1 ? s1 L1 Sk1|? x1 o1 ? ? L1 Sk1 T1|? x1 n1 o1 ? ? L1 Sk1 T1| | | | | | | | | |]; subst.
    - rewrite (olevel_nonempty _ _ _ _ L) in E. discriminate.
    - congruence.
    - destruct (olevel_fun _ _ _ _ L1 _ _ L) as [X _]. discriminate.
    - destruct (olevel_fun _ _ _ _ L1 _ _ L) as [X ->]. injection X as -> ->. auto.
  Qed.

  Lemma E_ind_end o i x y : o_empty o = true -> fits SEnd x -> x <> Zero ->
    (evals o (HInd i) x y <-> y = i_one US i).
  Proof.
    intros E Fx Nz. rewrite (ev_direct VI PF U F I US o (HInd i) SEnd); auto; try discriminate; [|now constructor|congruence].
    assert (x = One) by (destruct Fx as [_ D]; inversion D; subst; congruence). subst x.
    cbn [Hom.direct]. split.
    - intros (n & R). now apply runs_ret_iff in R.
    - intros ->. exists 0. now apply runs_ret_iff.
  Qed.

  Lemma E_ind_flat o t o' r i x y : olevel o (LFlat t) o' -> oshape o' r -> hskip o (HInd i) = false ->
    fits (SFlat t r) x -> x <> Zero ->
    (evals o (HInd i) x y <->
     exists ys, Forall2 (fun a z => evals o' (i_flat US i o (fst a)) (snd a) z) (farcs x) ys /\ api_sum VI PF ys = Ok y).
  Proof.
    intros L O Sk Fx Nz.
    assert (Ow : oshape o (SFlat t r)).
    { destruct L as (A & B & on & M & E). now apply (os_flat U o t o' on r). }
    rewrite (ev_direct VI PF U F I US o (HInd i) (SFlat t r)); auto; try discriminate.
    destruct (fits_cases VI PF (LFlat t) r x Fx) as [->|[(arcs & -> & _)|(n' & arcs & -> & E)]]; [congruence| |discriminate].
    cbn [Hom.direct HomLinear.farcs]. unfold with_next. rewrite (proj1 (proj2 L)).
    assert (Q : forall n : nat, runs (ends VI PF U F I US) (ys <- ind_vals VI U F I o' (i_flat US i o) arcs;; lift VI U F I (api_sum VI PF ys)) y <->
      exists ys, Forall2 (fun a z => evals o' (i_flat US i o (fst a)) (snd a) z) arcs ys /\ api_sum VI PF ys = Ok y).
    { intros _. rewrite runs_bind_iff. setoid_rewrite runs_ind_vals. setoid_rewrite runs_lift. reflexivity. }
    split; [intros (n & X); now apply (Q n)|intros X; exists 0; now apply (Q 0)].
  Qed.

  Lemma E_ind_hier o t n o' r i x y : olevel o (LHier t n) o' -> oshape o' r -> hskip o (HInd i) = false ->
    fits (SHier t n r) x -> x <> Zero ->
    (evals o (HInd i) x y <->
     exists ys, Forall2 (fun a z => evals o' (i_hier US i o (fst a)) (snd a) z) (harcs x) ys /\ api_sum VI PF ys = Ok y).
  Proof.
    intros L O Sk Fx Nz.
    assert (Ow : oshape o (SHier t n r)).
    { destruct L as (A & B & on & M & E & On). now apply (os_hier U o t o' on n r). }
    rewrite (ev_direct VI PF U F I US o (HInd i) (SHier t n r)); auto; try discriminate.
    destruct (fits_cases VI PF (LHier t n) r x Fx) as [->|[(arcs & -> & E)|(n' & arcs & -> & E)]]; [congruence|discriminate|].
    cbn [Hom.direct HomLinear.harcs]. unfold with_next. rewrite (proj1 (proj2 L)).
    assert (Q : forall n : nat, runs (ends VI PF U F I US) (ys <- ind_vals VI U F I o' (i_hier US i o) arcs;; lift VI U F I (api_sum VI PF ys)) y <->
      exists ys, Forall2 (fun a z => evals o' (i_hier US i o (fst a)) (snd a) z) arcs ys /\ api_sum VI PF ys = Ok y).
    { intros _. rewrite runs_bind_iff. setoid_rewrite runs_ind_vals. setoid_rewrite runs_lift. reflexivity. }
    split; [intros (m & X); now apply (Q m)|intros X; exists 0; now apply (Q 0)].
  Qed.

  (** The sum of the parts, as a set; the sum succeeds as soon as all parts end. *)
  Lemma ind_sum {W} o' r s' (k : W -> hom) (arcs : list (W * sdd)) : oshape o' r ->
    (forall v s, In (v, s) arcs -> typed o' (k v) s' /\ fits r s) ->
    (forall ys y, Forall2 (fun a z => evals o' (k (fst a)) (snd a) z) arcs ys -> api_sum VI PF ys = Ok y ->
      fits s' y /\
      forall q, contains y q = true <-> exists v s z, In (v, s) arcs /\ evals o' (k v) s z /\ contains z q = true) /\
    ((exists ys y, Forall2 (fun a z => evals o' (k (fst a)) (snd a) z) arcs ys /\ api_sum VI PF ys = Ok y) <->
     forall v s, In (v, s) arcs -> exists z, evals o' (k v) s z).
  Proof.
    intros O G.
    assert (Fy : forall ys, Forall2 (fun a z => evals o' (k (fst a)) (snd a) z) arcs ys -> forall z, In z ys -> fits s' z).
    { intros ys H z Hz. destruct (Forall2_in_r _ _ _ _ _ _ H Hz) as ([v s] & Hin & Ez). cbn in Ez.
      destruct (G v s Hin) as [T Fs]. now apply (evals_fits VI VL PF PO U F I US HO o' (k v) r s' s). }
    split.
    - intros ys y H Es. destruct (sum_ok VI VL PF PO s' ys (Fy ys H)) as (y' & Es' & Fy' & C).
      rewrite Es in Es'. injection Es' as <-. split; [auto|]. intros q. rewrite C, existsb_exists. split.
      + intros (z & Hz & Cz). destruct (Forall2_in_r _ _ _ _ _ _ H Hz) as ([v s] & Hin & Ez). cbn in Ez. eauto 6.
      + intros (v & s & z & Hin & Ez & Cz). destruct (Forall2_in_l _ _ _ _ H Hin) as (z' & Hz & Ez'). cbn in Ez'.
        exists z'. split; [auto|]. now rewrite (evals_fun VI PF U F I US _ _ _ _ _ Ez' Ez).
    - split.
      + intros (ys & y & H & _) v s Hin. destruct (Forall2_in_l _ _ _ _ H Hin) as (z' & Hz & Ez'). eauto.
      + intros H. assert (Ex : exists ys, Forall2 (fun a z => evals o' (k (fst a)) (snd a) z) arcs ys).
        { clear - H. induction arcs as [|[v s] arcs IH]; [exists []; constructor|].
          destruct IH as (ys & Hys); [intros v' s' Hin; apply (H v' s'); now right|].
          destruct (H v s (or_introl eq_refl)) as (z & Ez). exists (z :: ys). now constructor. }
        destruct Ex as (ys & Hys). destruct (sum_ok VI VL PF PO s' ys (Fy ys Hys)) as (y & Es & _). eauto.
  Qed.

  (** The arcs of a node, as sets: the values with the same continuations. *)
  Lemma farcs_alike t r x v s : fits (SFlat t r) x ->
    (In (v, s) (farcs x) <->
     fits r s /\ exists b p, mset x (AVal t b p) /\ (forall b', v_mem VI v b' = true <-> alike VI (mset x) t b b') /\
       forall q, mset s q <-> mset x (AVal t b q)).
  Proof.
    intros Fx. split.
    - intros Hin. assert (Fx' := Fx). destruct x as [| |v0 arcs|v0 arcs]; cbn [HomLinear.farcs] in Hin; try (now destruct Hin).
      destruct (fits_flat_inv VI PF _ _ _ _ Fx) as (-> & _ & D & G). destruct (G v s Hin) as (Ne & Nz & Fs).
      split; [auto|].
      destruct (v_nonempty VI VL v Ne) as (b & Hb). destruct (fits_nonempty VI VL PF r s Fs Nz) as (p & Hp).
      assert (R : forall q, mset s q <-> mset (Flat t arcs) (AVal t b q)).
      { intros q. unfold HomFun.mset. change (AVal t b q) with (acons VI (lvar (LFlat t)) (KVal VI b) q).
        rewrite (residual_contains VI PF (LFlat t) r _ (KVal VI b) q Fx').
        cbn [HomFacts.residual]. now rewrite (find_arc_some VI (v_mem VI) arcs b v s D Hin Hb). }
      exists b, p. split; [now apply R|]. split; [|auto].
      now apply (alike_flat VI VL PF PO t r (Flat t arcs) v s b Fx').
    - intros (Fs & b & p & M & Hv & Hs).
      assert (Fx' := Fx). destruct x as [| |v0 arcs|v0 arcs]; cbn [HomLinear.farcs]; try discriminate M.
      destruct (fits_flat_inv VI PF _ _ _ _ Fx) as (-> & _ & D & G).
      destruct (find_arc_inv VI (v_mem VI) arcs b) as [Z|(w & Hin & Mb)].
      + unfold HomFun.mset in M. change (AVal t b p) with (acons VI (lvar (LFlat t)) (KVal VI b) p) in M.
        rewrite (residual_contains VI PF (LFlat t) r _ (KVal VI b) p Fx') in M. cbn [HomFacts.residual] in M.
        rewrite Z in M. discriminate.
      + destruct (G _ _ Hin) as (_ & _ & Fs').
        assert (Es : find_arc VI (v_mem VI) arcs b = s).
        { apply (fits_ext VI VL PF PO r); auto. intros q. apply bool_ext.
          change (find_arc VI (v_mem VI) arcs b) with (residual VI (Flat t arcs) (KVal VI b)).
          rewrite <- (residual_contains VI PF (LFlat t) r _ (KVal VI b) q Fx'). symmetry. apply Hs. }
        rewrite Es in Hin. assert (w = v); [|now subst w].
        apply (vl_ext VL). intros b'. apply bool_ext. rewrite Hv.
        apply (alike_flat VI VL PF PO t r (Flat t arcs) w s b Fx' Hin Mb).
  Qed.

  Lemma harcs_alike t n r x v s : fits (SHier t n r) x ->
    (In (v, s) (harcs x) <->
     fits n v /\ fits r s /\ exists b p, mset x (ANest t b p) /\ (forall b', mset v b' <-> nalike VI (mset x) t b b') /\
       forall q, mset s q <-> mset x (ANest t b q)).
  Proof.
    intros Fx. split.
    - intros Hin. assert (Fx' := Fx). destruct x as [| |v0 arcs|v0 arcs]; cbn [HomLinear.harcs] in Hin; try (now destruct Hin).
      destruct (fits_hier_inv VI PF _ _ _ _ _ Fx) as (-> & _ & D & G). destruct (G v s Hin) as (Ne & Fv & Nz & Fs).
      split; [auto|]. split; [auto|].
      destruct (fits_nonempty VI VL PF n v Fv Ne) as (b & Hb). destruct (fits_nonempty VI VL PF r s Fs Nz) as (p & Hp).
      assert (R : forall q, mset s q <-> mset (Hier t arcs) (ANest t b q)).
      { intros q. unfold HomFun.mset. change (ANest t b q) with (acons VI (lvar (LHier t n)) (KNest VI b) q).
        rewrite (residual_contains VI PF (LHier t n) r _ (KNest VI b) q Fx').
        cbn [HomFacts.residual]. now rewrite (find_arc_some VI contains arcs b v s D Hin Hb). }
      exists b, p. split; [now apply R|]. split; [|auto].
      intros b'. unfold HomFun.mset at 1.
      rewrite (residual_same_hier VI PF PO t n r (Hier t arcs) v s b b' Fx' Hin Hb).
      rewrite <- (proj1 (residual_same_hier VI PF PO t n r (Hier t arcs) v s b b Fx' Hin Hb) Hb).
      apply (residual_iff VI VL PF PO (LHier t n) r (Hier t arcs) (KNest VI b') (KNest VI b) Fx').
    - intros (Fv & Fs & b & p & M & Hv & Hs).
      assert (Fx' := Fx). destruct x as [| |v0 arcs|v0 arcs]; cbn [HomLinear.harcs]; try discriminate M.
      destruct (fits_hier_inv VI PF _ _ _ _ _ Fx) as (-> & _ & D & G).
      destruct (find_arc_inv VI contains arcs b) as [Z|(w & Hin & Mb)].
      + unfold HomFun.mset in M. change (ANest t b p) with (acons VI (lvar (LHier t n)) (KNest VI b) p) in M.
        rewrite (residual_contains VI PF (LHier t n) r _ (KNest VI b) p Fx') in M. cbn [HomFacts.residual] in M.
        rewrite Z in M. discriminate.
      + destruct (G _ _ Hin) as (_ & Fw & _ & Fs').
        assert (Es : find_arc VI contains arcs b = s).
        { apply (fits_ext VI VL PF PO r); auto. intros q. apply bool_ext.
          change (find_arc VI contains arcs b) with (residual VI (Hier t arcs) (KNest VI b)).
          rewrite <- (residual_contains VI PF (LHier t n) r _ (KNest VI b) q Fx'). symmetry. apply Hs. }
        rewrite Es in Hin. assert (w = v); [|now subst w].
        apply (fits_ext VI VL PF PO n); auto. intros b'. apply bool_ext.
        change (mset w b' <-> mset v b'). rewrite Hv. unfold HomFun.mset at 1.
        rewrite (residual_same_hier VI PF PO t n r (Hier t arcs) w s b b' Fx' Hin Mb).
        rewrite <- (proj1 (residual_same_hier VI PF PO t n r (Hier t arcs) w s b b Fx' Hin Mb) Mb).
        apply (residual_iff VI VL PF PO (LHier t n) r (Hier t arcs) (KNest VI b') (KNest VI b) Fx').
  Qed.

  (** A diagram in canonical form is the union of its arcs: the operations can give it. *)
  Lemma fits_built : forall s x, fits s x -> built VI PF x.
  Proof.
    induction s as [|t r IHr|t n IHn r IHr]; intros x Fx.
    - destruct Fx as [_ D]. inversion D; subst; constructor.
    - destruct (fits_cases VI PF (LFlat t) r x Fx) as [->|[(arcs & -> & _)|(n' & arcs & -> & X)]]; [constructor| |discriminate].
      destruct (fits_flat_inv VI PF _ _ _ _ Fx) as (_ & _ & D & G).
      destruct (sum_ok VI VL PF PO (SFlat t r) (map (fun a => node_flat VI PF t (fst a) (snd a)) arcs)) as (y & Es & Fy & C).
      { intros z Hz. apply in_map_iff in Hz. destruct Hz as ([v s] & <- & Hin). apply node_flat_fits. now apply (G v s). }
      apply (built_sum VI PF (map (fun a => node_flat VI PF t (fst a) (snd a)) arcs)).
      + intros z Hz. apply in_map_iff in Hz. destruct Hz as ([v s] & <- & Hin). apply built_flat, IHr. now apply (G v s).
      + rewrite Es. f_equal. apply (fits_ext VI VL PF PO (SFlat t r)); auto. intros p. apply bool_ext.
        rewrite C, existsb_exists. split.
        * intros (z & Hz & Cz). apply in_map_iff in Hz. destruct Hz as ([v s] & <- & Hin).
          apply node_flat_contains in Cz; auto. destruct Cz as (a & q & -> & M & Cq). cbn [contains].
          rewrite N.eqb_refl. cbn [andb]. apply existsb_exists. exists (v, s). split; [auto|]. cbn in *. now rewrite M.
        * intros Cp. destruct p as [|y' a q|y' a q]; try discriminate. cbn [contains] in Cp. apply andb_true_iff in Cp.
          destruct Cp as [E Cp]. apply N.eqb_eq in E. subst y'. apply existsb_exists in Cp. destruct Cp as ([v s] & Hin & M).
          apply andb_true_iff in M. destruct M as [M Cq]. exists (node_flat VI PF t v s). split.
          -- apply in_map_iff. exists (v, s). auto.
          -- apply node_flat_contains; auto. eauto.
    - destruct (fits_cases VI PF (LHier t n) r x Fx) as [->|[(arcs & -> & X)|(n' & arcs & -> & X)]]; [constructor|discriminate|].
      destruct (fits_hier_inv VI PF _ _ _ _ _ Fx) as (_ & _ & D & G).
      destruct (sum_ok VI VL PF PO (SHier t n r) (map (fun a => node_hier VI PF t (fst a) (snd a)) arcs)) as (y & Es & Fy & C).
      { intros z Hz. apply in_map_iff in Hz. destruct Hz as ([v s] & <- & Hin). apply node_hier_fits; now apply (G v s). }
      apply (built_sum VI PF (map (fun a => node_hier VI PF t (fst a) (snd a)) arcs)).
      + intros z Hz. apply in_map_iff in Hz. destruct Hz as ([v s] & <- & Hin). apply built_hier; [apply IHn|apply IHr]; now apply (G v s).
      + rewrite Es. f_equal. apply (fits_ext VI VL PF PO (SHier t n r)); auto. intros p. apply bool_ext.
        rewrite C, existsb_exists. split.
        * intros (z & Hz & Cz). apply in_map_iff in Hz. destruct Hz as ([v s] & <- & Hin).
          apply node_hier_contains in Cz; auto. destruct Cz as (a & q & -> & M & Cq). cbn [contains].
          rewrite N.eqb_refl. cbn [andb]. apply existsb_exists. exists (v, s). split; [auto|]. cbn in *. now rewrite M.
        * intros Cp. destruct p as [|y' a q|y' a q]; try discriminate. cbn [contains] in Cp. apply andb_true_iff in Cp.
          destruct Cp as [E Cp]. apply N.eqb_eq in E. subst y'. apply existsb_exists in Cp. destruct Cp as ([v s] & Hin & M).
          apply andb_true_iff in M. destruct M as [M Cq]. exists (node_hier VI PF t v s). split.
          -- apply in_map_iff. exists (v, s). auto.
          -- apply node_hier_contains; auto. eauto.
  Qed.

  (** ** Inductive homomorphisms that treat values one by one *)

  Theorem acts_ind_end o i : o_empty o = true -> acts o (HInd i) (fun p q => p = ANil /\ contains (i_one US i) q = true).
  Proof.
    intros E s x y O Fx Ey q. assert (s = SEnd).
    { destruct (oshape_inv _ _ _ O) as [[_ X]|(X & _)]; [auto|congruence]. }
    subst s. destruct (is_zero VI x) eqn:Z.
    { apply is_zero_iff in Z. subst x. apply evals_zero in Ey. subst y. split; [discriminate|].
      intros (p & X & _). discriminate. }
    assert (Nz : x <> Zero) by (intros ->; discriminate).
    apply (E_ind_end o i x y E Fx Nz) in Ey. subst y.
    assert (x = One) by (destruct Fx as [_ D]; inversion D; subst; congruence). subst x. split.
    - intros C. exists ANil. auto.
    - intros (p & _ & _ & C). auto.
  Qed.

  Theorem acts_ind_flat o t o' i s' (R : elt VI -> asg -> asg -> Prop) :
    olevel o (LFlat t) o' -> hskip o (HInd i) = false -> typed o (HInd i) s' ->
    (forall v, v_empty VI v = false -> acts o' (i_flat US i o v) (fun p q => exists a, v_mem VI v a = true /\ R a p q)) ->
    acts o (HInd i) (fun p q => exists a p', p = AVal t a p' /\ R a p' q).
  Proof.
    intros L Sk T A s x y O Fx E q.
    destruct (oshape_inv _ _ _ O) as [[X _]|(_ & l' & o'' & r & L' & -> & O')].
    { rewrite (olevel_nonempty _ _ _ _ L) in X. discriminate. }
    destruct (olevel_fun _ _ _ _ L' _ _ L) as [-> ->]. cbn [under] in Fx.
    destruct (is_zero VI x) eqn:Z.
    { apply is_zero_iff in Z. subst x. apply evals_zero in E. subst y. split; [discriminate|].
      intros (p & X & _). discriminate. }
    assert (Nz : x <> Zero) by (intros ->; discriminate).
    apply (E_ind_flat o t o' r i x y L O' Sk Fx Nz) in E. destruct E as (ys & H & Es).
    destruct (fits_cases VI PF (LFlat t) r x Fx) as [->|[(arcs & -> & _)|(n' & arcs & -> & X)]]; [congruence| |discriminate].
    cbn [HomLinear.farcs] in H.
    destruct (fits_flat_inv VI PF _ _ _ _ Fx) as (_ & _ & D & G).
    assert (G' : forall v s, In (v, s) arcs -> typed o' (i_flat US i o v) s' /\ fits r s).
    { intros v s Hin. destruct (G v s Hin) as (Ne & _ & Fs). split; [|auto]. now apply (typed_ind_flat o t o' i s' L Sk T). }
    destruct (ind_sum o' r s' (i_flat US i o) arcs O' G') as [S1 S2].
    destruct (S1 ys y H Es) as [_ C]. rewrite C. split.
    - intros (v & s & z & Hin & Ez & Cz). destruct (G v s Hin) as (Ne & _ & Fs).
      apply (A v Ne r s z O' Fs Ez) in Cz. destruct Cz as (p' & Cp & a & Ma & Ra).
      exists (AVal t a p'). split; [|eauto]. cbn [contains]. rewrite N.eqb_refl. cbn [andb].
      apply existsb_exists. exists (v, s). split; [auto|]. cbn. now rewrite Ma, Cp.
    - intros (p & Cp & a & p' & -> & Ra). cbn [contains] in Cp. rewrite N.eqb_refl in Cp. cbn [andb] in Cp.
      apply existsb_exists in Cp. destruct Cp as ([v s] & Hin & M). cbn in M. apply andb_true_iff in M.
      destruct M as [Ma Cp]. destruct (G v s Hin) as (Ne & _ & Fs).
      destruct (proj1 S2 (ex_intro _ ys (ex_intro _ y (conj H Es))) v s Hin) as (z & Ez).
      exists v, s, z. split; [auto|]. split; [auto|]. apply (A v Ne r s z O' Fs Ez). exists p'. eauto.
  Qed.

  Theorem acts_ind_hier o t n o' i s' (R : asg -> asg -> asg -> Prop) :
    olevel o (LHier t n) o' -> hskip o (HInd i) = false -> typed o (HInd i) s' ->
    (forall v, fits n v -> v <> Zero -> acts o' (i_hier US i o v) (fun p q => exists a, contains v a = true /\ R a p q)) ->
    acts o (HInd i) (fun p q => exists a p', p = ANest t a p' /\ R a p' q).
  Proof.
    intros L Sk T A s x y O Fx E q.
    destruct (oshape_inv _ _ _ O) as [[X _]|(_ & l' & o'' & r & L' & -> & O')].
    { rewrite (olevel_nonempty _ _ _ _ L) in X. discriminate. }
    destruct (olevel_fun _ _ _ _ L' _ _ L) as [-> ->]. cbn [under] in Fx.
    destruct (is_zero VI x) eqn:Z.
    { apply is_zero_iff in Z. subst x. apply evals_zero in E. subst y. split; [discriminate|].
      intros (p & X & _). discriminate. }
    assert (Nz : x <> Zero) by (intros ->; discriminate).
    apply (E_ind_hier o t n o' r i x y L O' Sk Fx Nz) in E. destruct E as (ys & H & Es).
    destruct (fits_cases VI PF (LHier t n) r x Fx) as [->|[(arcs & -> & X)|(n' & arcs & -> & X)]]; [congruence|discriminate|].
    cbn [HomLinear.harcs] in H.
    destruct (fits_hier_inv VI PF _ _ _ _ _ Fx) as (_ & _ & D & G).
    assert (G' : forall v s, In (v, s) arcs -> typed o' (i_hier US i o v) s' /\ fits r s).
    { intros v s Hin. destruct (G v s Hin) as (Ne & Fv & _ & Fs). split; [|auto]. now apply (typed_ind_hier o t n o' i s' L Sk T). }
    destruct (ind_sum o' r s' (i_hier US i o) arcs O' G') as [S1 S2].
    destruct (S1 ys y H Es) as [_ C]. rewrite C. split.
    - intros (v & s & z & Hin & Ez & Cz). destruct (G v s Hin) as (Ne & Fv & _ & Fs).
      apply (A v Fv Ne r s z O' Fs Ez) in Cz. destruct Cz as (p' & Cp & a & Ma & Ra).
      exists (ANest t a p'). split; [|eauto]. cbn [contains]. rewrite N.eqb_refl. cbn [andb].
      apply existsb_exists. exists (v, s). split; [auto|]. cbn. now rewrite Ma, Cp.
    - intros (p & Cp & a & p' & -> & Ra). cbn [contains] in Cp. rewrite N.eqb_refl in Cp. cbn [andb] in Cp.
      apply existsb_exists in Cp. destruct Cp as ([v s] & Hin & M). cbn in M. apply andb_true_iff in M.
      destruct M as [Ma Cp]. destruct (G v s Hin) as (Ne & Fv & _ & Fs).
      destruct (proj1 S2 (ex_intro _ ys (ex_intro _ y (conj H Es))) v s Hin) as (z & Ez).
      exists v, s, z. split; [auto|]. split; [auto|]. apply (A v Fv Ne r s z O' Fs Ez). exists p'. eauto.
  Qed.
End HomInd.
