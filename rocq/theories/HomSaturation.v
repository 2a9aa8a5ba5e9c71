(** * Rewriting and termination

    The evaluation of a homomorphism made of linear parts ends as soon as the assignments it can
    reach are in finite number, and so does the evaluation of the rewritten homomorphism: rewriting
    neither loses nor gains termination. *)

From Coq Require Import List Bool NArith Arith Lia Permutation Sorted Relations.
From Verif Require Import Base SortedSets Values Sdd SddFacts Orders OrdersProofs OrdersSdd DDModel.
From Verif Require Import DDGeneric DDProofs DDTheorems Count Hom HomFacts HomEval HomTyped HomEqns HomLinear.
From Verif Require Import HomSum HomHalts HomInter HomComp HomRewrite.
Import ListNotations.

Section HomSaturation.
  Variable VI : values_impl.
  Hypothesis VL : values_laws VI.
  Variable PF : platform VI.
  Hypothesis PO : platform_ok PF.
  Variables U F I : Type.
  Notation V := (vt VI).
  Notation sdd := (sdd V).
  Notation hom := (hom V U F I).
  Variable HP : hplatform V U F I.
  Hypothesis HPO : hplatform_ok HP.
  Variable US : user V U F I.
  Notation order := (order U).
  Notation fits := (fits VI PF).
  Notation oshape := (oshape U).
  Notation olevel := (olevel U).
  Notation typed := (typed VI PF U F I US).
  Notation hskip := (hskip VI U F I US).
  Notation hselector := (hselector VI U F I US).
  Notation evals := (evals VI PF U F I US).
  Notation ends := (ends VI PF U F I US).
  Notation residual := (residual VI).
  Notation sum_of := (sum_of VI PF U F I US).
  Notation inter_of := (inter_of VI PF U F I US).
  Notation evals_all := (evals_all VI PF U F I US).
  Notation asg := (asg (elt VI)).
  Notation rel := (asg -> asg -> Prop).
  Notation is_id := (is_id VI U F I).
  Notation local := (local VI U F I).
  Notation hsize := (hsize VI U F I).
  Notation hset_add := (hset_add VI U F I HP).
  Notation hset := (hset VI U F I HP).
  Notation sum_visit := (sum_visit VI U F I HP).
  Notation sum_fuel := (sum_fuel VI U F I HP).
  Notation mk_sum := (mk_sum VI U F I HP).
  Notation inter_visit := (inter_visit VI U F I HP).
  Notation inter_fuel := (inter_fuel VI U F I HP).
  Notation mk_inter := (mk_inter VI U F I HP).
  Notation regroup := (regroup VI U F I HP).
  Notation partition := (partition VI U F I US).
  Notation rewrite_fuel := (rewrite_fuel VI U F I HP US).
  Notation opt_list := (opt_list VI U F I).
  Notation target := (target U).
  Notation local_at := (local_at U).
  Notation harcs := (harcs VI).
  Notation acts := (acts VI PF U F I US).
  Notation runder := (runder VI).
  Notation same := (same VI PF U F I US).
  Notation locals_of := (locals_of VI U F I).
  Notation repr := (repr VI U F I).
  Notation leaves := (leaves VI U F I).
  Notation ileaves := (ileaves VI U F I).
  Notation acons := (acons VI).
  Notation chain := (chain VI PF U F I US).
  Notation sat_step := (sat_step VI PF U F I US).
  Hypothesis HO : honest VI PF U F I US.


  Notation follows := (follows VI).
  Notation valid := (valid VI U).
  Notation weq := (weq VI U).
  Notation sub := (sub VI).
  Notation opaque := (opaque VI U F I).
  Notation nonskip := (nonskip VI U F I US).
  Variable RO : order -> hom -> rel.
  Variable leaf : order -> hom -> Prop.
  Hypothesis leaf_acts : forall o h, leaf o h -> acts o h (RO o h).
  Hypothesis leaf_total : forall o h, leaf o h -> forall s x, oshape o s -> fits s x -> exists y, evals o h x y.
  Notation den := (den VI U F I US RO).
  Notation lin := (lin VI U F I US RO leaf).
  Notation filt := (filt VI U F I US RO).
  Notation uden := (uden VI U F I US RO).
  Notation iden := (iden VI U F I US RO).
  Notation sgood := (sgood VI PF U F I US RO leaf).
  Notation igood := (igood VI PF U F I US RO leaf).
  Notation ustep := (ustep VI U F I US RO).
  Notation spine := spine.

  (** ** Finite sets of assignments *)

  (** [R] leads from [x] to finitely many assignments following [s']. *)
  Definition bounded (x : sdd) (R : rel) (s' : shape) : Prop :=
    exists l, forall p q, contains x p = true -> R p q -> follows s' q -> In q l.

  (** Evaluating [h] ends when [R] leads to finitely many assignments. *)
  Definition stops (o : order) (h : hom) (s' : shape) (R : rel) : Prop :=
    forall s x, oshape o s -> fits s x -> bounded x R s' -> exists y, evals o h x y.

  Lemma bounded_mono x (R R' : rel) s' :
    (forall p q, contains x p = true -> R p q -> R' p q) -> bounded x R' s' -> bounded x R s'.
  Proof. intros H (l & Hl). exists l. intros p q C X Fq. apply (Hl p q); auto. Qed.

  Lemma stops_mono o h s' (R R' : rel) : (forall p q, valid o p -> R p q -> R' p q) ->
    stops o h s' R -> stops o h s' R'.
  Proof.
    intros H St s x O Fx B. apply (St s x O Fx). revert B. apply bounded_mono.
    intros p q C X. apply H; auto. now apply (contains_valid VI PF U o s x).
  Qed.

  Lemma bounded_filter x (R : rel) s' : (forall p q, R p q -> p = q) -> bounded x R s'.
  Proof.
    intros H. exists (enum VI x). intros p q C X _. apply H in X. subst q. now apply (enum_spec VI VL).
  Qed.

  Lemma filter_le (A : Type) (f g : A -> bool) l : (forall a, f a = true -> g a = true) ->
    length (filter f l) <= length (filter g l).
  Proof.
    intros H. induction l as [|a l IH]; cbn [filter]; [auto|].
    destruct (f a) eqn:E; [rewrite (H a E); cbn; lia|]. destruct (g a); cbn; lia.
  Qed.

  Lemma filter_lt (A : Type) (f g : A -> bool) l : (forall a, f a = true -> g a = true) ->
    forall a, In a l -> f a = false -> g a = true -> length (filter f l) < length (filter g l).
  Proof.
    intros H a. induction l as [|b l IH]; intros Hin Hf Hg; [destruct Hin|]. cbn [filter].
    destruct Hin as [->|Hin].
    - rewrite Hf, Hg. cbn. pose proof (filter_le A f g l H). lia.
    - specialize (IH Hin Hf Hg). destruct (f b) eqn:E; [rewrite (H b E); cbn; lia|]. destruct (g b); cbn; lia.
  Qed.

  (** A sequence of growing sets made of elements of a finite list is stationary. *)
  Lemma climb s (St : sdd -> sdd -> Prop) (Inv : sdd -> Prop) l :
    (forall u, Inv u -> fits s u /\ forall p, contains u p = true -> In p l) ->
    (forall u, Inv u -> exists v, St u v /\ Inv v /\ sub u v) ->
    forall x, Inv x -> exists n y, HomEval.iter St n x y /\ St y y.
  Proof.
    intros H1 H2.
    assert (G : forall n u, Inv u -> length (filter (fun p => negb (contains u p)) l) < n ->
              exists k y, HomEval.iter St k u y /\ St y y).
    { induction n as [|n IH]; intros u Iu Hn; [lia|].
      destruct (H2 u Iu) as (v & Sv & Iv & Suv).
      destruct (forallb (fun p => contains u p) (enum VI v)) eqn:E.
      - assert (v = u).
        { apply (fits_ext VI VL PF PO s); [apply (H1 v Iv)|apply (H1 u Iu)|].
          intros p. apply eq_true_iff_eq. split; [|apply Suv].
          intros C. rewrite forallb_forall in E. apply E. now apply (enum_spec VI VL). }
        subst v. exists 0, u. cbn. auto.
      - assert (X : exists p, contains v p = true /\ contains u p = false).
        { clear - E VL. assert (Y : forall q, In q (enum VI v) -> contains v q = true) by (intros q; apply (enum_spec VI VL)).
          induction (enum VI v) as [|q r IH]; [discriminate|]. cbn [forallb] in E. apply andb_false_iff in E.
          destruct E as [E|E].
          - exists q. split; [apply Y; now left|auto].
          - apply IH; auto. intros q' Hq. apply Y. now right. }
        destruct X as (p & Cv & Cu).
        destruct (IH v Iv) as (k & y & A & B).
        { enough (length (filter (fun p => negb (contains v p)) l) < length (filter (fun p => negb (contains u p)) l)) by lia.
          apply filter_lt with (a := p).
          - intros a Ha. apply negb_true_iff in Ha. apply negb_true_iff. destruct (contains u a) eqn:Ca; [|auto].
            rewrite (Suv a Ca) in Ha. discriminate.
          - now apply (H1 v Iv).
          - now rewrite Cv.
          - now rewrite Cu. }
        exists (S k), y. cbn [HomEval.iter]. eauto. }
    intros x Ix. apply (G (S (length (filter (fun p => negb (contains x p)) l))) x Ix). lia.
  Qed.

  (** ** Skipped levels and nested levels *)

  Definition tail (p : asg) : asg :=
    match p with ANil => ANil | AVal _ _ q => q | ANest _ _ q => q end.
  Definition nested (p : asg) : asg :=
    match p with ANest _ a _ => a | _ => ANil end.

  Lemma follows_cons k r k0 p : follows (under k r) (acons (lvar k) k0 p) <-> step_ok VI k k0 /\ follows r p.
  Proof.
    destruct k as [x|x n], k0 as [a|a]; cbn; split; intros H.
    - inversion H; subst. auto.
    - destruct H. now constructor.
    - inversion H.
    - now destruct H.
    - inversion H.
    - now destruct H.
    - inversion H; subst. auto.
    - destruct H. now constructor.
  Qed.

  Lemma stops_skip o k o' h r' R : olevel o k o' -> hskip o h = true -> typed o' h r' ->
    stops o' h r' R -> stops o h (under k r') (runder (lvar k) R).
  Proof.
    intros L Hs T St s x O Fx (l & Hl).
    destruct (oshape_inv _ _ _ O) as [[X _]|(_ & l' & o'' & r & L' & -> & O')].
    { rewrite (olevel_nonempty _ _ _ _ L) in X. discriminate. }
    destruct (olevel_fun _ _ _ _ L' _ _ L) as [-> ->].
    apply (skip_exists VI VL PF PO U F I US HO o k o' h r r' x L O' Fx Hs T).
    intros k0. apply (St r); [auto|now apply (residual_fits VI PF k)|].
    exists (map tail l). intros p q C X Fq.
    rewrite <- (residual_contains VI PF k r x k0 p Fx) in C.
    assert (Fp := contains_follows VI PF _ _ _ Fx C). apply follows_cons in Fp.
    replace q with (tail (acons (lvar k) k0 q)) by (destruct k0; reflexivity).
    apply in_map. apply (Hl _ _ C).
    - exists k0, p, q. auto.
    - apply follows_cons. intuition.
  Qed.

  Lemma stops_local o t s' on n' h R : local_at o t s' on n' -> typed on h n' ->
    stops on h n' R -> stops o (HLocal t h) s' (rlocal t R).
  Proof.
    intros La T St. revert T St. induction La as [o t n o' on n' r L M O'|o l o' t s' on n' L N La IH]; intros T St.
    - intros s x O Fx (l & Hl).
      assert (s = SHier t n r).
      { apply (oshape_fun _ _ _ O). now apply (oshape_level _ _ (LHier t n) _ r L). }
      subst s. apply (local_here_ex VI VL PF PO U F I US HO o t n o' on h n' r x L M O' T Fx).
      intros v s Hin. destruct x as [| |y arcs|y arcs]; try (destruct Fx as [_ Fx]; now inversion Fx); try (now destruct Hin).
      cbn [HomLinear.harcs] in Hin. destruct (fits_hier_inv VI PF _ _ _ _ _ Fx) as (-> & _ & _ & G).
      destruct (G v s Hin) as (G1 & G2 & G3 & G4).
      assert (On : oshape on n). { destruct L as (_ & _ & on' & M' & _ & On). congruence. }
      apply (St n v On G2). exists (map nested l). intros a b C X Fb.
      destruct (fits_nonempty VI VL PF _ _ G4 G3) as (p & Cp).
      replace b with (nested (ANest t b p)) by reflexivity. apply in_map. apply (Hl (ANest t a p)).
      + rewrite contains_hier, N.eqb_refl. cbn [andb]. apply acontains_spec. eauto.
      + now constructor.
      + constructor; [auto|]. now apply (contains_follows VI PF r s).
    - assert (T' : typed o' (HLocal t h) s') by (apply (typed_local_iff VI PF U F I US); eauto).
      apply (stops_mono o _ _ (runder (lvar l) (rlocal t R))).
      + intros p q _ X. now apply (rlocal_next VI) in X.
      + apply (stops_skip o l o'); auto. cbn [Hom.hskip]. now apply (var_neqb_level U o l o' t L).
  Qed.

  Lemma stops_mk_local o t s' on n' h R : local_at o t s' on n' -> typed on h n' ->
    stops on h n' R -> stops o (local t h) s' (rlocal t R).
  Proof.
    intros La T St s x O Fx B. assert (Tl : typed o (HLocal t h) s') by (apply (typed_local_iff VI PF U F I US); eauto).
    destruct (stops_local o t s' on n' h R La T St s x O Fx B) as (y & E). exists y.
    now apply (local_evals VI VL PF PO U F I US HO o s t h s' x y O Tl Fx).
  Qed.

  (** ** Termination of homomorphisms made of linear parts *)

  Lemma opaque_total o h : lin o h -> opaque h = true -> forall s', typed o h s' ->
    forall s x, oshape o s -> fits s x -> exists y, evals o h x y.
  Proof.
    induction 1 as [o|o h Op N A|o l0 o0 h Op L0 Sk0 H IH|o t h o1 on T M H IH|o hs H IH|o hs Hi H IH
                   |o hs H IH Id]; intros Op' s' Ty s x O Fx; try discriminate.
    - now apply (leaf_total o h A s).
    - destruct (typed_next VI PF U F I US o h s' Ty l0 o0 L0 Sk0) as (r' & -> & Tr).
      destruct (oshape_inv _ _ _ O) as [[X _]|(_ & l' & o'' & r & L' & -> & O')].
      { rewrite (olevel_nonempty _ _ _ _ L0) in X. discriminate. }
      destruct (olevel_fun _ _ _ _ L' _ _ L0) as [-> ->].
      apply (skip_exists VI VL PF PO U F I US HO o l0 o0 h r r' x L0 O' Fx Sk0 Tr).
      intros k. apply (IH Op' r' Tr r); [auto|]. now apply (residual_fits VI PF l0).
    - cbn [HomRewrite.opaque] in Op'. rewrite Hi in Op'. discriminate.
  Qed.

  Lemma sum_ex o hs s s' x : oshape o s -> fits s x -> (forall h, In h hs -> typed o h s') ->
    (forall h, In h hs -> exists y, evals o h x y) -> exists y, sum_of o hs x y.
  Proof.
    intros O Fx T H. destruct (evals_all_ex VI PF U F I US o hs x H) as (ys & Hys).
    assert (Fys := evals_all_fits VI VL PF PO U F I US HO o hs s s' x ys O Fx T Hys).
    destruct (sum_ok VI VL PF PO s' ys Fys) as (y & Ey & _). exists y, ys. auto.
  Qed.

  Lemma inter_ex o hs s s' x : oshape o s -> fits s x -> (forall h, In h hs -> typed o h s') -> hs <> [] ->
    (forall h, In h hs -> exists y, evals o h x y) -> exists y, inter_of o hs x y.
  Proof.
    intros O Fx T Ne H. destruct (evals_all_ex VI PF U F I US o hs x H) as (ys & Hys).
    assert (Fys := evals_all_fits VI VL PF PO U F I US HO o hs s s' x ys O Fx T Hys).
    assert (Ney := evals_all_ne VI PF U F I US _ _ _ _ Hys Ne).
    destruct (inter_ok VI VL PF PO s' ys Ney Fys) as (y & Ey & _). exists y, ys. auto.
  Qed.

  Theorem den_stops h : forall o s', lin o h -> typed o h s' -> stops o h s' (den o h).
  Proof.
    induction h as [| | | |hh IHh| | | | |hs IH|t hh IHh| | | |hs IH] using hom_ind'; intros oo s' Ln Ty;
      try (intros ss xx O Fx _; now apply (opaque_total _ _ Ln eq_refl s' Ty ss xx)).
    - destruct hh as [| | | | | | | | | | | | | |hs];
        try (intros ss xx O Fx _; now apply (opaque_total _ _ Ln eq_refl s' Ty ss xx)).
      destruct (existsb is_id hs) eqn:Hi.
      2:{ intros s x O Fx _. apply (opaque_total _ _ Ln) with (s' := s') (s := s); auto.
          cbn [HomRewrite.opaque]. now rewrite Hi. }
      apply id_in in Hi. destruct (typed_fix_inv VI PF U F I US _ _ _ Ty) as [O0 Th].
      intros s x O Fx (l & Hl). assert (s = s') by apply (oshape_fun _ _ _ O _ O0). subst s. clear O0.
      assert (Lh := lin_fix_inv VI U F I US RO leaf oo hs Hi Ln).
      assert (A := den_acts VI VL PF PO U F I US HO RO leaf leaf_acts (HSum hs) oo s' Lh Th).
      assert (St := IHh oo s' Lh Th).
      set (cl := clos_refl_trans _ (fun a b => den oo (HSum hs) a b /\ valid oo b)).
      destruct (climb s' (evals oo (HSum hs))
        (fun u => fits s' u /\ forall q, contains u q = true -> exists p, contains x p = true /\ cl p q) l) with (x := x)
        as (n & y & E1 & E2).
      + intros u [Fu Hu]. split; [auto|]. intros q C. destruct (Hu q C) as (p & Cp & X). apply (Hl p q Cp).
        * now apply (den_fix_iff VI U F I US RO oo hs p q Hi).
        * now apply (contains_follows VI PF s' u).
      + intros u [Fu Hu]. destruct (St s' u O Fu) as (v & Ev).
        { exists l. intros m q C D Fq. destruct (Hu m C) as (p & Cp & X). apply (Hl p q Cp); [|auto].
          apply (den_fix_iff VI U F I US RO oo hs p q Hi). eapply rt_trans; [exact X|]. apply rt_step.
          split; [auto|]. exists s'. auto. }
        assert (Fv : fits s' v) by (apply (evals_fits VI VL PF PO U F I US HO oo (HSum hs) s' s' u); auto).
        exists v. split; [auto|]. split; [split; [auto|]|].
        * intros q C. assert (Vq := contains_valid VI PF U oo s' v q O Fv C).
          apply (A s' u v O Fu Ev q) in C. destruct C as (m & Cm & D). destruct (Hu m Cm) as (p & Cp & X).
          exists p. split; [auto|]. eapply rt_trans; [exact X|]. apply rt_step. auto.
        * intros q C. apply (A s' u v O Fu Ev q). exists q. split; [auto|]. apply (den_sum_iff VI U F I US RO).
          exists HId. split; [auto|constructor].
      + split; [auto|]. intros q C. exists q. split; [auto|apply rt_refl].
      + exists y. apply (E_fix VI VL PF PO U F I US HO oo s' O (HSum hs) s' x y Ty Fx). exists n. auto.
    - intros s x O Fx _. exists x. now apply evals_id.
    - intros s x O Fx _. destruct (typed_inter_inv VI PF U F I US _ _ _ Ty) as [Ne Th].
      destruct (lin_inter_inv VI U F I US RO leaf _ _ Ln) as [Ls Fs]. rewrite Forall_forall in IH.
      destruct (inter_ex oo hs s s' x O Fx Th Ne) as (y & Hy).
      { intros h Hh. apply (IH h Hh oo s' (Ls h Hh) (Th h Hh) s x O Fx). apply bounded_filter.
        apply (filt_eq VI U F I US RO oo h (Fs h Hh)). }
      exists y. now apply (E_inter VI VL PF PO U F I US HO oo s O hs s').
    - apply (typed_local_iff VI PF U F I US) in Ty. destruct Ty as (on & n' & La & Tn).
      destruct (local_at_target U _ _ _ _ _ La) as (o1 & Tg & M).
      apply (stops_mono oo _ _ (rlocal t (den on hh))).
      + intros p q _ X. now apply (den_local_iff VI U F I US RO oo t hh o1 on).
      + apply (stops_local oo t s' on n'); auto. apply IHh; [|auto].
        now apply (lin_local_inv VI U F I US RO leaf oo t hh o1 on Ln).
    - intros s x O Fx B. destruct (typed_sum_inv VI PF U F I US _ _ _ Ty) as [_ Th]. rewrite Forall_forall in IH.
      destruct (sum_ex oo hs s s' x O Fx Th) as (y & Hy).
      { intros h Hh. apply (IH h Hh oo s' (lin_sum_inv VI U F I US RO leaf oo hs Ln h Hh) (Th h Hh) s x O Fx).
        revert B. apply bounded_mono. intros p q _ D. apply (den_sum_iff VI U F I US RO). eauto. }
      exists y. now apply (E_sum VI VL PF PO U F I US HO oo s O hs s').
  Qed.

  (** ** Both together: what a homomorphism does, and when it ends *)

  Definition ok (o : order) (h : hom) (s' : shape) (R : rel) : Prop := acts o h R /\ stops o h s' R.

  Lemma ok_weq o h s' (R R' : rel) : weq o R R' -> ok o h s' R -> ok o h s' R'.
  Proof.
    intros W [A B]. split; [now apply (acts_weq VI PF U F I US o h R)|].
    apply (stops_mono o h s' R); [|auto]. intros p q Vp. now apply W.
  Qed.

  Lemma den_ok h o s' : lin o h -> typed o h s' -> ok o h s' (den o h).
  Proof.
    intros Ln T. split.
    - exact (den_acts VI VL PF PO U F I US HO RO leaf leaf_acts h o s' Ln T).
    - now apply den_stops.
  Qed.

  Notation opt_in := (opt_in VI U F I HP HPO).

  Lemma satsum_ok o k o' s' f g l RF RL : olevel o k o' ->
    (forall h, f = Some h \/ In h g \/ l = Some h -> typed o h s') ->
    (forall h, f = Some h -> ok o h s' RF) -> (forall h, In h g -> ok o h s' (den o h)) ->
    (forall h, l = Some h -> ok o h s' RL) -> f <> None \/ g <> [] \/ l <> None ->
    ok o (saturation_sum VI U F I HP (lvar k) f g l) s'
      (fun p q => (f <> None /\ RF p q) \/ uden o g p q \/ (l <> None /\ RL p q)).
  Proof.
    intros L T Kf Kg Kl Ne. split.
    { apply (satsum_acts VI VL PF PO U F I HP HPO US HO RO o k o' s'); auto; intros h Hh; [now apply Kf|now apply Kg|now apply Kl]. }
    intros s x O Fx B.
    assert (Ex : forall h, f = Some h \/ In h g \/ l = Some h -> exists y, evals o h x y).
    { intros h [Hh|[Hh|Hh]].
      - apply (proj2 (Kf h Hh) s x O Fx). revert B. apply bounded_mono. intros p q _ X. left. split; [congruence|auto].
      - apply (proj2 (Kg h Hh) s x O Fx). revert B. apply bounded_mono. intros p q _ X. right; left. exists h. auto.
      - apply (proj2 (Kl h Hh) s x O Fx). revert B. apply bounded_mono. intros p q _ X. right; right. split; [congruence|auto]. }
    assert (X : exists y, evals o (HSatSum (lvar k) f (hset g) l) x y).
    { destruct (sum_ex o (opt_list f ++ hset g ++ opt_list l) s s' x O Fx) as (y & Hy).
      - intros h Hh. apply T. now apply opt_in.
      - intros h Hh. apply Ex. now apply opt_in.
      - exists y. now apply (E_satsum VI VL PF PO U F I US o k o' s f (hset g) l x y L O Fx). }
    unfold Hom.saturation_sum. destruct g as [|g0 g], f as [f|], l as [l|]; auto.
  Qed.

  Lemma satinter_ok o k o' s' f g l (PP PL : asg -> Prop) : olevel o k o' ->
    (forall h, f = Some h \/ In h g \/ l = Some h -> typed o h s') ->
    (forall h, f = Some h -> ok o h s' (fun p q => p = q /\ PP p)) ->
    (forall h, In h g -> ok o h s' (den o h) /\ filt o h) ->
    (forall h, l = Some h -> ok o h s' (fun p q => p = q /\ PL p)) -> f <> None \/ g <> [] \/ l <> None ->
    ok o (saturation_intersection VI U F I HP (lvar k) f g l) s'
      (fun p q => p = q /\ (f <> None -> PP p) /\ iden o g p /\ (l <> None -> PL p)).
  Proof.
    intros L T Kf Kg Kl Ne. split.
    { apply (satinter_acts VI VL PF PO U F I HP HPO US HO RO o k o' s'); auto; intros h Hh;
        [now apply Kf|split; now apply Kg|now apply Kl]. }
    intros s x O Fx _.
    assert (Ex : forall h, f = Some h \/ In h g \/ l = Some h -> exists y, evals o h x y).
    { intros h [Hh|[Hh|Hh]].
      - apply (proj2 (Kf h Hh) s x O Fx). apply bounded_filter. now intros p q [<- _].
      - apply (proj2 (proj1 (Kg h Hh)) s x O Fx). apply bounded_filter. apply (filt_eq VI U F I US RO o h). now apply Kg.
      - apply (proj2 (Kl h Hh) s x O Fx). apply bounded_filter. now intros p q [<- _]. }
    assert (X : exists y, evals o (HSatInter (lvar k) f (hset g) l) x y).
    { destruct (is_zero VI x) eqn:Z.
      { apply is_zero_iff in Z. subst x. exists Zero. now apply evals_zero. }
      assert (Nz : x <> Zero) by (intros ->; discriminate).
      assert (Nn : opt_list f ++ hset g ++ opt_list l <> []).
      { intros Y. destruct Ne as [Ne|[Ne|Ne]].
        - destruct f; [discriminate|congruence].
        - destruct g as [|h g]; [congruence|]. assert (Z' : In h (opt_list f ++ hset (h :: g) ++ opt_list l)).
          { apply opt_in. right. left. now left. }
          rewrite Y in Z'. destruct Z'.
        - destruct l as [h|]; [|congruence]. assert (Z' : In h (opt_list f ++ hset g ++ opt_list (Some h))) by (apply opt_in; auto).
          rewrite Y in Z'. destruct Z'. }
      destruct (inter_ex o (opt_list f ++ hset g ++ opt_list l) s s' x O Fx) as (y & Hy); auto.
      - intros h Hh. apply T. now apply opt_in.
      - intros h Hh. apply Ex. now apply opt_in.
      - exists y. now apply (E_satinter VI PF U F I US o k o' s f (hset g) l x y L O Fx Nz). }
    unfold Hom.saturation_intersection. destruct g as [|g0 g], f as [f|], l as [l|]; auto.
  Qed.

  (** Every homomorphism of G, applied in turn. *)
  Lemma chain_ex o s (Q : asg -> Prop) lst g : oshape o s ->
    (forall q, Q q -> follows s q -> In q lst) ->
    (forall h, In h g -> typed o h s /\ ok o h s (den o h) /\ forall p q, Q p -> den o h p q -> valid o q -> Q q) ->
    forall u, fits s u -> (forall p, contains u p = true -> Q p) ->
    exists v, chain o g u v /\ fits s v /\ sub u v /\ forall p, contains v p = true -> Q p.
  Proof.
    intros O Hl. induction g as [|h g IH]; intros Hg u Fu Qu; cbn [HomEval.chain].
    - exists u. split; [auto|]. split; [auto|]. split; [intros p; auto|auto].
    - destruct (Hg h (or_introl eq_refl)) as (Th & [Ah Sh] & Qh).
      destruct (Sh s u O Fu) as (z & Ez).
      { exists lst. intros p q C D Fq. apply Hl; [|auto]. apply (Qh p q); auto. exists s. auto. }
      assert (Fz : fits s z) by (apply (evals_fits VI VL PF PO U F I US HO o h s s u); auto).
      destruct (sum_ok VI VL PF PO s [u; z]) as (w & Ew & Fw & Cw).
      { intros a [<-|[<-|[]]]; auto. }
      assert (Qw : forall p, contains w p = true -> Q p).
      { intros p C. rewrite Cw in C. cbn [existsb] in C. rewrite orb_false_r in C. apply orb_true_iff in C.
        destruct C as [C|C]; [auto|]. assert (Vp := contains_valid VI PF U o s z p O Fz C).
        apply (Ah s u z O Fu Ez p) in C. destruct C as (m & Cm & D). apply (Qh m p); auto. }
      destruct (IH (fun k Hk => Hg k (or_intror Hk)) w Fw Qw) as (v & Ch & Fv & Sv & Qv).
      exists v. split; [eauto|]. split; [auto|]. split; [|auto].
      intros p C. apply Sv. rewrite Cw. cbn [existsb]. now rewrite C.
  Qed.

  Lemma satfix_ok o k o' s f g l (RF RL : rel) : olevel o k o' -> oshape o s -> typed o f s -> typed o l s ->
    (forall h, In h g -> typed o h s /\ ok o h s (den o h)) ->
    ok o f s RF -> ok o l s RL ->
    (forall p, valid o p -> RF p p) -> (forall p, valid o p -> RL p p) ->
    (forall p m q, valid o p -> valid o m -> RF p m -> RF m q -> RF p q) ->
    (forall p m q, valid o p -> valid o m -> RL p m -> RL m q -> RL p q) ->
    ok o (saturation_fixpoint VI U F I HP (lvar k) f g l) s (clos_refl_trans _ (ustep o RF RL g)).
  Proof.
    intros L O Tf Tl Tg Kf Kl Rf Rl Tf' Tl'. destruct Kf as [Af Sf], Kl as [Al Sl]. split.
    { apply (satfix_acts VI VL PF PO U F I HP HPO US HO RO o k o' s f g l RF RL); auto.
      intros h Hh. destruct (Tg h Hh) as (A & B & _). auto. }
    assert (Main : stops o (HSatFix (lvar k) f (hset g) l) s (clos_refl_trans _ (ustep o RF RL g))).
    { intros s0 x O0 Fx (lst & Hl). assert (s0 = s) by apply (oshape_fun _ _ _ O0 _ O). subst s0. clear O0.
      destruct (is_zero VI x) eqn:Z.
      { apply is_zero_iff in Z. subst x. exists Zero. now apply evals_zero. }
      assert (Nz : x <> Zero) by (intros ->; discriminate).
      set (Q := fun q => exists p, contains x p = true /\ clos_refl_trans _ (ustep o RF RL g) p q).
      assert (Ql : forall q, Q q -> follows s q -> In q lst).
      { intros q (p & Cp & X) Fq. now apply (Hl p q). }
      assert (Qs : forall m q, Q m -> (RF m q \/ RL m q \/ uden o g m q) -> valid o q -> Q q).
      { intros m q (p & Cp & X) Y Vq. exists p. split; [auto|]. eapply rt_trans; [exact X|]. apply rt_step. split; auto. }
      destruct (climb s (sat_step o f (hset g) l)
        (fun u => fits s u /\ forall q, contains u q = true -> Q q) lst) with (x := x) as (n & y & E1 & E2).
      - intros u [Fu Qu]. split; [auto|]. intros p C. apply Ql; [auto|]. now apply (contains_follows VI PF s u).
      - intros u [Fu Qu].
        destruct (Sf s u O Fu) as (u2 & E2).
        { exists lst. intros p q C D Fq. apply Ql; [|auto]. apply (Qs p q); auto. exists s. auto. }
        assert (F2 : fits s u2) by (apply (evals_fits VI VL PF PO U F I US HO o f s s u); auto).
        assert (Q2 : forall q, contains u2 q = true -> Q q).
        { intros q C. assert (Vq := contains_valid VI PF U o s u2 q O F2 C). apply (Af s u u2 O Fu E2 q) in C.
          destruct C as (m & Cm & D). apply (Qs m q); auto. }
        destruct (Sl s u2 O F2) as (u3 & E3).
        { exists lst. intros p q C D Fq. apply Ql; [|auto]. apply (Qs p q); auto. exists s. auto. }
        assert (F3 : fits s u3) by (apply (evals_fits VI VL PF PO U F I US HO o l s s u2); auto).
        assert (Q3 : forall q, contains u3 q = true -> Q q).
        { intros q C. assert (Vq := contains_valid VI PF U o s u3 q O F3 C). apply (Al s u2 u3 O F2 E3 q) in C.
          destruct C as (m & Cm & D). apply (Qs m q); auto. }
        destruct (chain_ex o s Q lst (hset g) O Ql) with (u := u3) as (v & Ch & Fv & Sv & Qv); auto.
        { intros h Hh. apply (proj1 (hset_in VI U F I HP HPO g h)) in Hh. destruct (Tg h Hh) as [Th Kh].
          split; [auto|]. split; [auto|]. intros p q Qp D Vq. apply (Qs p q); auto. right; right. exists h. auto. }
        exists v. split; [exists u2, u3; auto|]. split; [auto|]. intros p C. apply Sv.
        apply (Al s u2 u3 O F2 E3 p). exists p.
        assert (Vp := contains_valid VI PF U o s u p O Fu C). split; [|auto].
        apply (Af s u u2 O Fu E2 p). exists p. auto.
      - split; [auto|]. intros q C. exists q. split; [auto|apply rt_refl].
      - exists y. apply (E_satfix VI PF PO U F I US o k o' s f (hset g) l x y L O Fx Nz). eauto. }
    assert (Bd : forall x (R : rel), (forall p q, R p q -> RF p q \/ RL p q \/ uden o g p q) ->
              bounded x (clos_refl_trans _ (ustep o RF RL g)) s -> bounded x R s).
    { intros x R H (lst & Hl). exists lst. intros p q C X Fq. apply (Hl p q C); [|auto]. apply rt_step.
      split; [auto|]. exists s. auto. }
    unfold Hom.saturation_fixpoint. destruct g as [|g0 g]; [|exact Main].
    destruct (is_id f), (is_id l); cbn [negb andb]; try exact Main.
    - intros s0 x O0 Fx B. assert (s0 = s) by apply (oshape_fun _ _ _ O0 _ O). subst s0. apply (Sl s x O Fx).
      revert B. apply Bd. auto.
    - intros s0 x O0 Fx B. assert (s0 = s) by apply (oshape_fun _ _ _ O0 _ O). subst s0. apply (Sf s x O Fx).
      revert B. apply Bd. auto.
  Qed.

  Lemma skip_part_ok fuel o k o' r s' hf f' : olevel o k o' -> oshape o' r -> ~ In (lvar k) (spine r) ->
    sgood o s' hf -> hskip o hf = true -> rewrite_fuel fuel o' hf = Ok f' ->
    (forall r', typed o' hf r' -> lin o' hf -> typed o' f' r' /\ ok o' f' r' (den o' hf)) ->
    typed o f' s' /\ ok o f' s' (den o hf).
  Proof.
    intros L O' N [Th Ln] Sk E IH.
    destruct (typed_next VI PF U F I US o hf s' Th k o' L Sk) as (r' & -> & Tr).
    destruct (IH r' Tr (lin_down VI U F I US RO leaf o hf Ln k o' L Sk)) as [Tf [Af Sf']].
    assert (Sf : hskip o f' = true).
    { apply (rewrite_skip VI U F I HP HPO US fuel o' hf f' r o (lvar k)); auto. apply L. }
    split; [apply (typed_up VI PF U F I US f' o k o' r' L); eauto|].
    apply (ok_weq o f' _ (runder (lvar k) (den o' hf))).
    { apply (weq_sym VI U). now apply (den_down VI U F I US RO). }
    split; [now apply (acts_skip VI VL PF PO U F I US HO o k o' f' r')|now apply (stops_skip o k o')].
  Qed.

  Lemma nest_part_ok o t s s' on n' hl hl' : oshape o s -> local_at o t s' on n' -> typed on hl' n' ->
    ok on hl' n' (den on hl) ->
    typed o (local t hl') s' /\ ok o (local t hl') s' (rlocal t (den on hl)).
  Proof.
    intros O La Th [Ah Sh].
    destruct (nest_part VI VL PF PO U F I US HO RO o t s s' on n' hl hl' O La Th Ah) as [A B].
    split; [auto|]. split; [auto|]. now apply (stops_mk_local o t s' on n').
  Qed.

  Notation partition_spec := (partition_spec VI U F I US).
  Notation lin_sum_inv := (lin_sum_inv VI U F I US RO leaf).
  Notation lin_fix_inv := (lin_fix_inv VI U F I US RO leaf).
  Notation lin_inter_inv := (lin_inter_inv VI U F I US RO leaf).
  Notation fixpoint_den := (fixpoint_den VI VL PF PO U F I HP HPO US HO RO leaf).
  Notation mk_sum_den := (mk_sum_den VI VL PF PO U F I HP HPO US HO RO leaf).
  Notation mk_inter_den := (mk_inter_den VI PF U F I HP HPO US RO leaf).
  Notation fixpoint_skip := (fixpoint_skip VI U F I US).
  Notation mk_sum_skip := (mk_sum_skip VI U F I HP HPO US).
  Notation mk_inter_skip := (mk_inter_skip VI U F I HP HPO US).
  Notation sgood_down := (sgood_down VI PF U F I US RO leaf).
  Notation igood_down := (igood_down VI PF U F I US RO leaf).
  Notation local_here_inv := (local_here_inv U).
  Notation rlocal_same := (rlocal_same VI U).
  Notation rlocal_weq := (rlocal_weq VI U).
  Notation rlocal_clos := (rlocal_clos VI U).
  Notation rlocal_step := (rlocal_step VI U).
  Notation rlocal_trans := (rlocal_trans VI).
  Notation rlocal_eq := (rlocal_eq VI).
  Notation rlocal_ext := (rlocal_ext VI).
  Notation local_at_valid := (local_at_valid VI U).
  Notation den_local_at := (den_local_at VI U F I US RO).
  Notation den_id_iff := (den_id_iff VI U F I US RO).
  Notation den_sum_iff := (den_sum_iff VI U F I US RO).
  Notation den_fix_iff := (den_fix_iff VI U F I US RO).
  Notation den_inter_iff := (den_inter_iff VI U F I US RO).
  Notation hskip_local_here := (hskip_local_here VI U F I US).
  Notation filt_eq := (filt_eq VI U F I US RO).
  Notation satfix_typed := (satfix_typed VI PF U F I HP HPO US).
  Notation satsum_typed := (satsum_typed VI PF U F I HP HPO US).
  Notation satinter_typed := (satinter_typed VI PF U F I HP HPO US).
  Notation weq_trans := (weq_trans VI U).
  Notation cl o l := (clos_refl_trans _ (fun a b => uden o l a b /\ valid o b)).
  Notation fixpoint := (fixpoint VI U F I).

  Theorem rewrite_ok : forall fuel o h h' s s', rewrite_fuel fuel o h = Ok h' -> oshape o s -> distinct s ->
    typed o h s' -> lin o h -> typed o h' s' /\ ok o h' s' (den o h).
  Proof.
    induction fuel as [|fuel IH]; intros o h h' s s' E O Ds Th Ln; cbn [Hom.rewrite_fuel] in E; [discriminate|].
    assert (Same : typed o h s' /\ ok o h s' (den o h)) by (split; [auto|now apply den_ok]).
    destruct (oshape_inv _ _ _ O) as [[X _]|(X & k & o' & r & L & -> & O')]; rewrite X in E.
    { injection E as <-. exact Same. }
    pose proof L as L'. destruct L' as (V1 & Nx & on & M & _). rewrite V1, Nx, M in E.
    assert (Nr : ~ In (lvar k) (spine r)) by (destruct k; cbn in Ds; apply Ds).
    assert (Dr : distinct r) by (destruct k; cbn in Ds; apply Ds).
    destruct h as [| | | |hh| | | | |hs| | | | |hs]; try (injection E as <-; exact Same).
    - (* fixpoint *)
      destruct hh as [| | | | | | | | | | | | | |hs]; try (injection E as <-; exact Same).
      destruct (partition o hs) as [[[f g] lo] i] eqn:Ep. destruct (partition_spec o hs _ _ _ _ Ep) as (A & B & C & D & K).
      destruct i; cbn [negb] in E; [|injection E as <-; exact Same].
      assert (Hi : In HId hs) by now apply D.
      destruct (if nonempty f then _ else _) as [f'|] eqn:Ef; [|discriminate]. cbn [rbind] in E.
      destruct (if nonempty lo then _ else _) as [l'|] eqn:El; [|discriminate]. cbn [rbind] in E. injection E as <-.
      destruct (typed_fix_inv VI PF U F I US _ _ _ Th) as [O0 Ts].
      assert (s' = under k r) by apply (oshape_fun _ _ _ O0 _ O). subst s'. clear O0. set (s := under k r) in *.
      destruct (typed_sum_inv VI PF U F I US _ _ _ Ts) as [Ne Tk].
      assert (Lk := lin_sum_inv o hs (lin_fix_inv o hs Hi Ln)).
      assert (Gk : forall h, In h hs -> sgood o s h) by (intros h Hh; split; auto).
      assert (Gi : sgood o s HId) by auto.
      assert (PF' : exists RF : rel, typed o f' s /\ ok o f' s RF /\ (forall p, valid o p -> RF p p) /\
                (forall p m q, RF p m -> RF m q -> RF p q) /\
                (forall p q, valid o p -> RF p q -> cl o hs p q) /\
                (forall h p q, In h f -> valid o p -> valid o q -> den o h p q -> RF p q)).
      { destruct f as [|f0 f1] eqn:Eff; cbn [nonempty] in Ef.
        - injection Ef as <-. exists (fun p q => p = q). split; [now constructor|]. split.
          { apply (ok_weq o HId s (den o HId)); [intros p q _; apply den_id_iff|].
            apply den_ok; [constructor|now constructor]. }
          split; [auto|]. split; [congruence|]. split; [intros p q _ <-; apply rt_refl|]. intros h p q [].
        - rewrite <- Eff in *. clear Eff.
          destruct (mk_sum (f ++ [HId])) as [hf|] eqn:Em; [|discriminate]. cbn [rbind] in Ef.
          assert (Gf : forall h, In h (f ++ [HId]) -> sgood o s h /\ hskip o h = true /\ In h hs).
          { intros h Hh. apply in_app_or in Hh. destruct Hh as [Hh|[<-|[]]]; [|auto].
            apply A in Hh. destruct Hh as (H1 & _ & H2). auto. }
          destruct (fixpoint_den (f ++ [HId]) hf o s Em) as (G1 & W & Rr & Rt); auto.
          { apply in_or_app. right. now left. }
          { intros h Hh. now apply Gf. }
          assert (Sf : hskip o (fixpoint hf) = true).
          { apply fixpoint_skip. apply (mk_sum_skip _ _ o Em). intros h Hh. now apply Gf. }
          destruct (skip_part_ok fuel o k o' r s (fixpoint hf) f' L O' Nr G1 Sf Ef) as [Tf Af].
          { intros r' H1 H2. now apply (IH o' (fixpoint hf) f' r r'). }
          exists (den o (fixpoint hf)). split; [auto|]. split; [auto|]. split; [auto|]. split; [auto|]. split.
          + intros p q Vp R. apply (W p q Vp) in R. revert R. apply clos_incl.
            intros a b [(h & Hh & Dh) Vb]. split; [|auto]. exists h. split; [now apply Gf|auto].
          + intros h p q Hh Vp Vq Dh. apply (W p q Vp). apply rt_step. split; [|auto].
            exists h. split; [apply in_or_app; auto|auto]. }
      assert (PL' : exists RL : rel, typed o l' s /\ ok o l' s RL /\ (forall p, valid o p -> RL p p) /\
                (forall p m q, RL p m -> RL m q -> RL p q) /\
                (forall p q, valid o p -> RL p q -> cl o hs p q) /\
                (forall h p q, In h lo -> valid o p -> valid o q -> den o (HLocal (lvar k) h) p q -> RL p q)).
      { destruct lo as [|l0 l1] eqn:Ell; cbn [nonempty] in El.
        - injection El as <-. exists (fun p q => p = q). split; [now constructor|]. split.
          { apply (ok_weq o HId s (den o HId)); [intros p q _; apply den_id_iff|].
            apply den_ok; [constructor|now constructor]. }
          split; [auto|]. split; [congruence|]. split; [intros p q _ <-; apply rt_refl|]. intros h p q [].
        - assert (Hl0 : In l0 lo) by (rewrite Ell; now left). rewrite <- Ell in *. clear Ell.
          destruct (mk_sum (lo ++ [HId])) as [hl|] eqn:Em; [|discriminate]. cbn [rbind] in El.
          destruct (rewrite_fuel fuel on (fixpoint hl)) as [hl'|] eqn:Er; [|discriminate]. cbn [rbind] in El.
          injection El as <-.
          assert (Lo : forall h, In h lo -> In (HLocal (lvar k) h) hs).
          { intros h Hh. destruct (C h Hh) as (t & H1 & H2). now rewrite (hskip_local_here o k o' t h L H2) in H1. }
          destruct (sgood_down o s (lvar k) l0 (Gk _ (Lo l0 Hl0))) as (on2 & n' & La & _).
          destruct (local_here_inv o k o' s on2 n' L La) as (n & Ek & M2 & On).
          assert (on2 = on) by congruence. subst on2. clear M2.
          assert (On' := local_at_oshape U _ _ _ _ _ La O).
          assert (n' = n) by apply (oshape_fun _ _ _ On' _ On). subst n'. clear On'.
          assert (Gl : forall h, In h (lo ++ [HId]) -> sgood on n h).
          { intros h Hh. apply in_app_or in Hh. destruct Hh as [Hh|[<-|[]]].
            - destruct (sgood_down o s (lvar k) h (Gk _ (Lo h Hh))) as (on2 & n2 & La2 & G2).
              destruct (local_at_fun U _ _ _ _ _ La _ _ La2) as [-> ->]. auto.
            - split; now constructor. }
          destruct (fixpoint_den (lo ++ [HId]) hl on n Em) as (G1 & W & Rr & Rt); auto.
          { apply in_or_app. right. now left. }
          destruct (IH on (fixpoint hl) hl' n n Er On) as [Tl Al]; try apply G1.
          { unfold s in Ds. rewrite Ek in Ds. cbn in Ds. apply Ds. }
          destruct (nest_part_ok o (lvar k) s s on n (fixpoint hl) hl' O La Tl Al) as [Tl' Al'].
          rewrite Ek in L.
          exists (rlocal (lvar k) (den on (fixpoint hl))). split; [auto|]. split; [auto|]. split; [|split; [|split]].
          + intros p Vp. destruct (rlocal_same o (lvar k) s on n p (den on (fixpoint hl)) La Vp) as (a & Va & Ha).
            now apply Ha.
          + apply rlocal_trans. auto.
          + intros p q Vp R. apply (rlocal_weq o (lvar k) s on n _ _ La W p q Vp) in R.
            apply (rlocal_clos o (lvar k) n o' on (uden on (lo ++ [HId])) L M p q Vp) in R.
            revert p q Vp R. intros p q Vp R. apply clos_rt_rt1n in R.
            induction R as [p|p m q [R1 Vm] _ IHr]; [apply rt_refl|]. eapply rt_trans; [|now apply IHr].
            destruct (local_at_valid o (lvar k) s on n La p Vp) as (a & _ & _ & Ha).
            apply Ha in R1. destruct R1 as (b & (h & Hh & Dh) & Rb).
            assert (R1 : rlocal (lvar k) (den on h) p m) by (apply Ha; eauto).
            apply in_app_or in Hh. destruct Hh as [Hh|[<-|[]]].
            * apply rt_step. split; [|auto]. exists (HLocal (lvar k) h). split; [auto|].
              now apply (den_local_at o (lvar k) s on n h p m La).
            * assert (p = m); [|subst m; apply rt_refl]. revert R1. apply rlocal_eq. intros u v Dv.
              now apply den_id_iff in Dv.
          + intros h p q Hh Vp Vq Dh. apply (rlocal_weq o (lvar k) s on n _ _ La W p q Vp).
            apply (rlocal_step o (lvar k) n o' on (uden on (lo ++ [HId])) L M p q Vq).
            apply (den_local_at o (lvar k) s on n h p q La) in Dh. revert Dh. apply rlocal_ext.
            intros a b Dh. exists h. split; [apply in_or_app; auto|auto]. }
      destruct PF' as (RF & Tf & Af & Rf & Tf' & If & Jf). destruct PL' as (RL & Tl & Al & Rl & Tl' & Il & Jl).
      assert (Gg : forall h, In h g -> typed o h s /\ ok o h s (den o h)).
      { intros h Hh. destruct (B h Hh) as [Hh' _]. split; [now apply Gk|]. apply den_ok; now apply Gk. }
      split.
      { apply (satfix_typed o k o' s); auto. intros h Hh. now apply Gg. }
      eapply ok_weq.
      2:{ apply (satfix_ok o k o' s f' g l' RF RL); eauto. }
      intros p q Vp. rewrite (den_fix_iff o hs p q Hi).
      assert (Su : forall a b, den o (HSum hs) a b <-> uden o hs a b) by (intros a b; apply den_sum_iff).
      split; intros R; apply clos_rt_rt1n in R.
      + apply (clos_incl _ (fun a b => uden o hs a b /\ valid o b)); [intros a b [Y1 Y2]; split; [now apply Su|auto]|].
        induction R as [p|p m q [R1 Vm] _ IHr]; [apply rt_refl|]. eapply rt_trans; [|now apply IHr].
        destruct R1 as [R1|[R1|(h & Hh & Dh)]]; [now apply If|now apply Il|].
        apply rt_step. split; [|auto]. exists h. split; [now apply B|auto].
      + induction R as [p|p m q [R1 Vm] _ IHr]; [apply rt_refl|]. eapply rt_trans; [|now apply IHr].
        apply Su in R1. destruct R1 as (h & Hh & Dh).
        destruct (K h Hh) as [->|[Hf|[Hg|(t & h1 & -> & Hl & Sk)]]].
        * apply den_id_iff in Dh. subst m. apply rt_refl.
        * apply rt_step. split; [left; now apply (Jf h)|auto].
        * apply rt_step. split; [right; right; exists h; auto|auto].
        * rewrite (hskip_local_here o k o' t h1 L Sk) in Dh.
          apply rt_step. split; [right; left; now apply (Jl h1)|auto].
    - (* intersection *)
      destruct (partition o hs) as [[[f g] lo] i] eqn:Ep. destruct (partition_spec o hs _ _ _ _ Ep) as (A & B & C & D & K).
      destruct (negb (nonempty f) && negb (nonempty lo)) eqn:Eb; [injection E as <-; exact Same|].
      set (f2 := if i then f ++ [HId] else f) in *.
      destruct (opt_build _ _ _ _ f2 _) as [f'|] eqn:Ef; [|discriminate]. cbn [rbind] in E.
      destruct (opt_build _ _ _ _ lo _) as [l'|] eqn:El; [|discriminate]. cbn [rbind] in E. injection E as <-.
      destruct (typed_inter_inv VI PF U F I US _ _ _ Th) as [Ne Tk]. destruct (lin_inter_inv o hs Ln) as [Lk Fk].
      assert (Gk : forall h, In h hs -> igood o s' h) by (intros h Hh; split; [auto|split; auto]).
      assert (F2 : forall h, In h f2 <-> In h f \/ (h = HId /\ In HId hs)).
      { intros h. unfold f2. destruct i.
        - rewrite in_app_iff. cbn [In]. assert (In HId hs) by now apply D. intuition congruence.
        - assert (~ In HId hs) by (intros Y; apply D in Y; discriminate). intuition. }
      assert (Fh : forall h, In h f2 -> In h hs /\ hskip o h = true).
      { intros h Hh. apply F2 in Hh. destruct Hh as [Hh|[-> Hh]]; [apply A in Hh; intuition|auto]. }
      assert (PF' : (f' = None /\ f2 = []) \/ exists h, f' = Some h /\ typed o h s' /\
                ok o h s' (fun p q => p = q /\ iden o f2 p)).
      { unfold Hom.opt_build in Ef. destruct (nonempty f2) eqn:N2.
        2:{ injection Ef as <-. left. split; [auto|]. destruct f2; [auto|discriminate]. }
        right. destruct (mk_inter f2) as [hf|] eqn:Em; [|discriminate]. cbn [rbind] in Ef.
        destruct (rewrite_fuel fuel o' hf) as [hf'|] eqn:Er; [|discriminate]. cbn [rbind] in Ef. injection Ef as <-.
        exists hf'. split; [auto|].
        destruct (mk_inter_den f2 hf o (under k r) s' Em) as [(G1 & G2 & G3) W]; auto.
        { intros h Hh. apply Gk. now apply Fh. }
        assert (Sf : hskip o hf = true).
        { apply (mk_inter_skip _ _ o Em). intros h Hh. now apply Fh. }
        destruct (skip_part_ok fuel o k o' r s' hf hf' L O' Nr (conj G1 G2) Sf Er) as [Tf Af].
        { intros r' H1 H2. now apply (IH o' hf hf' r r'). }
        split; [auto|]. apply (ok_weq o hf' s' (den o hf)); [|auto]. intros p q Vp. split.
        - intros Dh. assert (p = q) by now apply (filt_eq o hf G3). subst q. split; [auto|]. now apply W.
        - intros [<- Y]. now apply W. }
      assert (PL' : (l' = None /\ lo = []) \/ exists h, l' = Some h /\ typed o h s' /\
                ok o h s' (fun p q => p = q /\ iden o (map (HLocal (lvar k)) lo) p)).
      { unfold Hom.opt_build in El. destruct lo as [|l0 l1] eqn:Ell; cbn [nonempty] in El; [injection El as <-; auto|].
        right. assert (Hl0 : In l0 lo) by (rewrite Ell; now left). rewrite <- Ell in *. clear Ell.
        destruct (mk_inter lo) as [hl|] eqn:Em; [|discriminate]. cbn [rbind] in El.
        destruct (rewrite_fuel fuel on hl) as [hl'|] eqn:Er; [|discriminate]. cbn [rbind] in El.
        injection El as <-. exists (local (lvar k) hl'). split; [auto|].
        assert (Lo : forall h, In h lo -> In (HLocal (lvar k) h) hs).
        { intros h Hh. destruct (C h Hh) as (t & H1 & H2). now rewrite (hskip_local_here o k o' t h L H2) in H1. }
        destruct (igood_down o s' (lvar k) l0 (Gk _ (Lo l0 Hl0))) as (on2 & n' & La & _).
        destruct (local_here_inv o k o' s' on2 n' L La) as (n & Ek & M2 & On).
        assert (on2 = on) by congruence. subst on2. clear M2.
        assert (Gl : forall h, In h lo -> igood on n' h).
        { intros h Hh. destruct (igood_down o s' (lvar k) h (Gk _ (Lo h Hh))) as (on2 & n2 & La2 & G2).
          destruct (local_at_fun U _ _ _ _ _ La _ _ La2) as [-> ->]. auto. }
        destruct (mk_inter_den lo hl on n n' Em Gl On) as [(G1 & G2 & G3) W].
        destruct (IH on hl hl' n n' Er On) as [Tl Al]; auto.
        { rewrite Ek in Ds. cbn in Ds. apply Ds. }
        destruct (nest_part_ok o (lvar k) (under k r) s' on n' hl hl' O La Tl Al) as [Tl' Al'].
        split; [auto|]. apply (ok_weq o _ s' (rlocal (lvar k) (den on hl))); [|auto]. intros p q Vp.
        destruct (rlocal_same o (lvar k) s' on n' p (den on hl) La Vp) as (a & Va & Ha).
        assert (Hq : iden o (map (HLocal (lvar k)) lo) p <-> iden on lo a).
        { unfold iden. split.
          - intros Y h Hh. apply Ha. apply (den_local_at o (lvar k) s' on n' h p p La). apply Y. now apply in_map.
          - intros Y h Hh. apply in_map_iff in Hh. destruct Hh as (h1 & <- & Hh).
            apply (den_local_at o (lvar k) s' on n' h1 p p La). apply Ha. auto. }
        split.
        - intros R. assert (p = q).
          { revert R. apply rlocal_eq. intros u v Y. now apply (filt_eq on hl G3). }
          subst q. split; [auto|]. apply Hq. apply W; [auto|]. now apply Ha.
        - intros [<- Y]. apply Ha. apply W; [auto|]. now apply Hq. }
      assert (Ne' : f' <> None \/ g <> [] \/ l' <> None).
      { destruct PF' as [[-> E2]|(hf & -> & _)]; [|left; discriminate].
        destruct PL' as [[-> E3]|(hl & -> & _)]; [|right; right; discriminate].
        exfalso. subst lo. assert (f = []).
        { destruct f as [|f0 f1]; [auto|]. assert (Y : In f0 f2) by (apply F2; left; now left). rewrite E2 in Y. destruct Y. }
        subst f. discriminate. }
      assert (Tt : forall h, f' = Some h \/ In h g \/ l' = Some h -> typed o h s').
      { intros h [Hh|[Hh|Hh]].
        - destruct PF' as [[-> _]|(hf & -> & Tf & _)]; [discriminate|]. now injection Hh as <-.
        - apply Tk. now apply B.
        - destruct PL' as [[-> _]|(hl & -> & Tl & _)]; [discriminate|]. now injection Hh as <-. }
      split; [now apply (satinter_typed o k o')|].
      eapply ok_weq.
      2:{ apply (satinter_ok o k o' s' f' g l' (iden o f2) (iden o (map (HLocal (lvar k)) lo)) L Tt); auto.
        - intros h Hh. destruct PF' as [[-> _]|(hf & -> & Tf & Af)]; [discriminate|]. now injection Hh as <-.
        - intros h Hh. destruct (B h Hh) as [Hh' _]. split; [|now apply Fk]. apply den_ok; auto.
        - intros h Hh. destruct PL' as [[-> _]|(hl & -> & Tf & Af)]; [discriminate|]. now injection Hh as <-. }
      intros p q Vp. rewrite (den_inter_iff o hs p q Ne). split.
      + intros (<- & A1 & A2 & A3). split; [auto|]. intros h Hh.
        assert (A1' : iden o f2 p).
        { destruct PF' as [[-> ->]|(hf & -> & _)]; [intros ? []|]. apply A1. discriminate. }
        assert (A3' : iden o (map (HLocal (lvar k)) lo) p).
        { destruct PL' as [[-> ->]|(hl & -> & _)]; [intros ? []|]. apply A3. discriminate. }
        destruct (K h Hh) as [->|[Hf|[Hg|(t & h1 & -> & Hl & Sk)]]].
        * constructor.
        * apply A1', F2. auto.
        * now apply A2.
        * rewrite (hskip_local_here o k o' t h1 L Sk). apply A3'. now apply in_map.
      + intros (<- & Y). split; [auto|]. split; [|split].
        * intros _ h Hh. apply Y. now apply Fh.
        * intros h Hh. apply Y. now apply B.
        * intros _ h Hh. apply in_map_iff in Hh. destruct Hh as (h1 & <- & Hh). apply Y.
          destruct (C h1 Hh) as (t & H1 & H2). now rewrite (hskip_local_here o k o' t h1 L H2) in H1.
    - (* sum *)
      destruct (partition o hs) as [[[f g] lo] i] eqn:Ep. destruct (partition_spec o hs _ _ _ _ Ep) as (A & B & C & D & K).
      destruct (negb (nonempty f) && negb (nonempty lo)) eqn:Eb; [injection E as <-; exact Same|].
      set (f2 := if i then f ++ [HId] else f) in *.
      destruct (opt_build _ _ _ _ f2 _) as [f'|] eqn:Ef; [|discriminate]. cbn [rbind] in E.
      destruct (opt_build _ _ _ _ lo _) as [l'|] eqn:El; [|discriminate]. cbn [rbind] in E. injection E as <-.
      destruct (typed_sum_inv VI PF U F I US _ _ _ Th) as [Ne Tk]. assert (Lk := lin_sum_inv o hs Ln).
      assert (Gk : forall h, In h hs -> sgood o s' h) by (intros h Hh; split; auto).
      assert (F2 : forall h, In h f2 <-> In h f \/ (h = HId /\ In HId hs)).
      { intros h. unfold f2. destruct i.
        - rewrite in_app_iff. cbn [In]. assert (In HId hs) by now apply D. intuition congruence.
        - assert (~ In HId hs) by (intros Y; apply D in Y; discriminate). intuition. }
      assert (Fh : forall h, In h f2 -> In h hs /\ hskip o h = true).
      { intros h Hh. apply F2 in Hh. destruct Hh as [Hh|[-> Hh]]; [apply A in Hh; intuition|auto]. }
      assert (PF' : (f' = None /\ f2 = []) \/ exists h, f' = Some h /\ typed o h s' /\ ok o h s' (uden o f2)).
      { unfold Hom.opt_build in Ef. destruct (nonempty f2) eqn:N2.
        2:{ injection Ef as <-. left. split; [auto|]. destruct f2; [auto|discriminate]. }
        right. destruct (mk_sum f2) as [hf|] eqn:Em; [|discriminate]. cbn [rbind] in Ef.
        destruct (rewrite_fuel fuel o' hf) as [hf'|] eqn:Er; [|discriminate]. cbn [rbind] in Ef. injection Ef as <-.
        exists hf'. split; [auto|].
        destruct (mk_sum_den f2 hf o (under k r) s' Em) as [G1 W]; auto.
        { intros h Hh. apply Gk. now apply Fh. }
        assert (Sf : hskip o hf = true).
        { apply (mk_sum_skip _ _ o Em). intros h Hh. now apply Fh. }
        destruct (skip_part_ok fuel o k o' r s' hf hf' L O' Nr G1 Sf Er) as [Tf Af].
        { intros r' H1 H2. now apply (IH o' hf hf' r r'). }
        split; [auto|]. now apply (ok_weq o hf' s' (den o hf)). }
      assert (PL' : (l' = None /\ lo = []) \/ exists h, l' = Some h /\ typed o h s' /\
                ok o h s' (uden o (map (HLocal (lvar k)) lo))).
      { unfold Hom.opt_build in El. destruct lo as [|l0 l1] eqn:Ell; cbn [nonempty] in El; [injection El as <-; auto|].
        right. assert (Hl0 : In l0 lo) by (rewrite Ell; now left). rewrite <- Ell in *. clear Ell.
        destruct (mk_sum lo) as [hl|] eqn:Em; [|discriminate]. cbn [rbind] in El.
        destruct (rewrite_fuel fuel on hl) as [hl'|] eqn:Er; [|discriminate]. cbn [rbind] in El.
        injection El as <-. exists (local (lvar k) hl'). split; [auto|].
        assert (Lo : forall h, In h lo -> In (HLocal (lvar k) h) hs).
        { intros h Hh. destruct (C h Hh) as (t & H1 & H2). now rewrite (hskip_local_here o k o' t h L H2) in H1. }
        destruct (sgood_down o s' (lvar k) l0 (Gk _ (Lo l0 Hl0))) as (on2 & n' & La & _).
        destruct (local_here_inv o k o' s' on2 n' L La) as (n & Ek & M2 & On).
        assert (on2 = on) by congruence. subst on2. clear M2.
        assert (Gl : forall h, In h lo -> sgood on n' h).
        { intros h Hh. destruct (sgood_down o s' (lvar k) h (Gk _ (Lo h Hh))) as (on2 & n2 & La2 & G2).
          destruct (local_at_fun U _ _ _ _ _ La _ _ La2) as [-> ->]. auto. }
        destruct (mk_sum_den lo hl on n n' Em Gl On) as [[G1 G2] W].
        destruct (IH on hl hl' n n' Er On) as [Tl Al]; auto.
        { rewrite Ek in Ds. cbn in Ds. apply Ds. }
        destruct (nest_part_ok o (lvar k) (under k r) s' on n' hl hl' O La Tl Al) as [Tl' Al'].
        split; [auto|]. apply (ok_weq o _ s' (rlocal (lvar k) (den on hl))); [|auto].
        apply (weq_trans o _ (rlocal (lvar k) (uden on lo))); [now apply (rlocal_weq o (lvar k) s' on n')|].
        intros p q Vp. destruct (local_at_valid o (lvar k) s' on n' La p Vp) as (a & _ & _ & Ha). split.
        - intros R. apply Ha in R. destruct R as (b & (h & Hh & Dh) & Rb). exists (HLocal (lvar k) h).
          split; [now apply in_map|]. apply (den_local_at o (lvar k) s' on n' h p q La). apply Ha. eauto.
        - intros (h & Hh & Dh). apply in_map_iff in Hh. destruct Hh as (h1 & <- & Hh).
          apply (den_local_at o (lvar k) s' on n' h1 p q La) in Dh. revert Dh. apply rlocal_ext.
          intros u v Y. exists h1. auto. }
      assert (Ne' : f' <> None \/ g <> [] \/ l' <> None).
      { destruct PF' as [[-> E2]|(hf & -> & _)]; [|left; discriminate].
        destruct PL' as [[-> E3]|(hl & -> & _)]; [|right; right; discriminate].
        exfalso. subst lo. assert (f = []).
        { destruct f as [|f0 f1]; [auto|]. assert (Y : In f0 f2) by (apply F2; left; now left). rewrite E2 in Y. destruct Y. }
        subst f. discriminate. }
      assert (Tt : forall h, f' = Some h \/ In h g \/ l' = Some h -> typed o h s').
      { intros h [Hh|[Hh|Hh]].
        - destruct PF' as [[-> _]|(hf & -> & Tf & _)]; [discriminate|]. now injection Hh as <-.
        - apply Tk. now apply B.
        - destruct PL' as [[-> _]|(hl & -> & Tl & _)]; [discriminate|]. now injection Hh as <-. }
      split; [now apply (satsum_typed o k o')|].
      eapply ok_weq.
      2:{ apply (satsum_ok o k o' s' f' g l' (uden o f2) (uden o (map (HLocal (lvar k)) lo)) L Tt); auto.
        - intros h Hh. destruct PF' as [[-> _]|(hf & -> & Tf & Af)]; [discriminate|]. now injection Hh as <-.
        - intros h Hh. apply den_ok; [apply Lk|apply Tk]; now apply B.
        - intros h Hh. destruct PL' as [[-> _]|(hl & -> & Tf & Af)]; [discriminate|]. now injection Hh as <-. }
      intros p q Vp. rewrite den_sum_iff. split.
      + intros [[_ (h & Hh & Dh)]|[(h & Hh & Dh)|[_ (h & Hh & Dh)]]].
        * exists h. split; [now apply Fh|auto].
        * exists h. split; [now apply B|auto].
        * apply in_map_iff in Hh. destruct Hh as (h1 & <- & Hh). exists (HLocal (lvar k) h1). split; [|auto].
          destruct (C h1 Hh) as (t & H1 & H2). now rewrite (hskip_local_here o k o' t h1 L H2) in H1.
      + intros (h & Hh & Dh).
        assert (Ff : In h f2 -> f' <> None /\ uden o f2 p q).
        { intros Y. split; [|exists h; auto]. destruct PF' as [[-> E2]|(hf & -> & _)]; [|discriminate].
          rewrite E2 in Y. destruct Y. }
        destruct (K h Hh) as [->|[Hf|[Hg|(t & h1 & -> & Hl & Sk)]]].
        * left. apply Ff, F2. auto.
        * left. apply Ff, F2. auto.
        * right; left. exists h. auto.
        * right; right. rewrite (hskip_local_here o k o' t h1 L Sk) in Dh. split.
          -- destruct PL' as [[-> ->]|(hl & -> & _)]; [destruct Hl|discriminate].
          -- exists (HLocal (lvar k) h1). split; [now apply in_map|auto].
  Qed.



  (** ** When evaluations end *)

  Lemma image_bounded o h s s' x y : oshape o s -> fits s x -> acts o h (den o h) ->
    evals o h x y -> bounded x (den o h) s'.
  Proof.
    intros O Fx A E. exists (enum VI y). intros p q C D _. apply (enum_spec VI VL).
    apply (A s x y O Fx E). eauto.
  Qed.

  (** The evaluation ends exactly when the image is finite. *)
  Theorem ends_iff o h s s' x : oshape o s -> fits s x -> typed o h s' -> lin o h ->
    ((exists y, evals o h x y) <-> bounded x (den o h) s').
  Proof.
    intros O Fx T Ln. destruct (den_ok h o s' Ln T) as [A B]. split.
    - intros (y & E). now apply (image_bounded o h s s' x y).
    - now apply (B s).
  Qed.

  Theorem rewrite_same fuel o h h' s s' x y : rewrite_fuel fuel o h = Ok h' -> oshape o s -> distinct s ->
    typed o h s' -> lin o h -> fits s x -> (evals o h' x y <-> evals o h x y).
  Proof.
    intros E O Ds Th Ln Fx. destruct (rewrite_ok fuel o h h' s s' E O Ds Th Ln) as [Th' [A' B']].
    destruct (den_ok h o s' Ln Th) as [A B].
    assert (Ag := rewrite_agrees VI VL PF PO U F I HP HPO US HO RO leaf leaf_acts fuel o h h' s s' x).
    split; intros Ey.
    - assert (Bd : bounded x (den o h) s').
      { exists (enum VI y). intros p q C D _. apply (enum_spec VI VL). apply (A' s x y O Fx Ey). eauto. }
      destruct (B s x O Fx Bd) as (z & Ez). now rewrite <- (Ag z y E O Ds Th Ln Fx Ez Ey).
    - destruct (B' s x O Fx (image_bounded o h s s' x y O Fx A Ey)) as (z & Ez).
      now rewrite (Ag y z E O Ds Th Ln Fx Ey Ez).
  Qed.
End HomSaturation.
