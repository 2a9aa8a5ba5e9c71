(** * The equations of homomorphisms

    Every composite homomorphism is evaluated as its definition says, whatever the levels that the
    evaluation skips. *)

From Coq Require Import List Bool NArith Arith Lia Permutation Sorted.
From Verif Require Import Base SortedSets Values Sdd SddFacts Orders OrdersProofs OrdersSdd DDModel.
From Verif Require Import DDGeneric DDProofs DDTheorems Hom HomFacts HomEval HomTyped.
Import ListNotations.

Section Eqns.
  Variable VI : values_impl.
  Hypothesis VL : values_laws VI.
  Variable PF : platform VI.
  Hypothesis PO : platform_ok PF.
  Variables U F I : Type.
  Notation V := (vt VI).
  Notation sdd := (sdd V).
  Notation hom := (hom V U F I).
  Variable US : user V U F I.
  Notation order := (order U).
  Notation fits := (fits VI PF).
  Notation oshape := (oshape U).
  Notation olevel := (olevel U).
  Notation typed := (typed VI PF U F I US).
  Notation hskip := (hskip VI U F I US).
  Notation hselector := (hselector VI U F I US).
  Notation evals := (evals VI PF U F I US).
  Notation ends := (ends VI PF U F I US).
  Notation direct := (direct VI PF U F I US).
  Notation hom_body := (hom_body VI PF U F I US).
  Notation residual := (residual VI).
  Notation arcwise := (arcwise VI).
  Notation heads := (heads VI).
  Notation iter := (HomEval.iter).
  Hypothesis HO : honest VI PF U F I US.

  Lemma oshape_rec (P : order -> shape -> Prop) :
    (forall o, o_empty o = true -> P o SEnd) ->
    (forall o l o' r, olevel o l o' -> oshape o' r -> P o' r -> P o (under l r)) ->
    forall o s, oshape o s -> P o s.
  Proof.
    intros H1 H2 o s H. induction H as [? E|? x o' on r A B C D E IH|? x o' on n r A B C D E IH1 G IH2]; auto.
    - apply (H2 _ (LFlat x) o' r); auto. split; [auto|split; [auto|exists on; auto]].
    - apply (H2 _ (LHier x n) o' r); auto. split; [auto|split; [auto|exists on; auto]].
  Qed.

  (** ** Residuals of the operations *)

  Lemma residual_sum l s ys y k : (forall z, In z ys -> fits (under l s) z) -> api_sum VI PF ys = Ok y ->
    api_sum VI PF (map (fun z => residual z k) ys) = Ok (residual y k).
  Proof.
    intros H E. destruct (sum_ok VI VL PF PO _ _ H) as (y' & E' & Fy & C). rewrite E in E'.
    injection E' as <-.
    destruct (sum_ok VI VL PF PO s (map (fun z => residual z k) ys)) as (w & Ew & Fw & Cw).
    { intros z Hz. apply in_map_iff in Hz. destruct Hz as (z' & <- & Hz).
      apply (residual_fits VI PF l). now apply H. }
    rewrite Ew. f_equal. symmetry. apply (residual_eq VI VL PF PO l s); auto.
    intros q. rewrite C, Cw. apply bool_ext. rewrite !existsb_exists. split.
    - intros (z & Hz & Cz). exists (residual z k). split; [apply in_map_iff; eauto|].
      now rewrite <- (residual_contains VI PF l s) by now apply H.
    - intros (z & Hz & Cz). apply in_map_iff in Hz. destruct Hz as (z' & <- & Hz).
      exists z'. split; [auto|]. now rewrite (residual_contains VI PF l s) by now apply H.
  Qed.

  Lemma residual_inter l s ys y k : ys <> [] -> (forall z, In z ys -> fits (under l s) z) ->
    api_intersection VI PF ys = Ok y ->
    api_intersection VI PF (map (fun z => residual z k) ys) = Ok (residual y k).
  Proof.
    intros Ne H E. destruct (inter_ok VI VL PF PO _ _ Ne H) as (y' & E' & Fy & C). rewrite E in E'.
    injection E' as <-.
    destruct (inter_ok VI VL PF PO s (map (fun z => residual z k) ys)) as (w & Ew & Fw & Cw).
    { destruct ys; [congruence|discriminate]. }
    { intros z Hz. apply in_map_iff in Hz. destruct Hz as (z' & <- & Hz).
      apply (residual_fits VI PF l). now apply H. }
    rewrite Ew. f_equal. symmetry. apply (residual_eq VI VL PF PO l s); auto.
    intros q. rewrite C, Cw. apply bool_ext. rewrite !forallb_forall. split.
    - intros X z Hz. apply in_map_iff in Hz. destruct Hz as (z' & <- & Hz).
      rewrite <- (residual_contains VI PF l s) by now apply H. now apply X.
    - intros X z Hz. rewrite (residual_contains VI PF l s) by now apply H. apply X.
      apply in_map_iff. eauto.
  Qed.

  Lemma residual_minus l s a b y k : fits (under l s) a -> fits (under l s) b ->
    api_minus VI PF a b = Ok y -> api_minus VI PF (residual a k) (residual b k) = Ok (residual y k).
  Proof.
    intros Fa Fb E. destruct (minus_ok VI VL PF PO _ _ _ Fa Fb) as (y' & E' & Fy & C). rewrite E in E'.
    injection E' as <-.
    destruct (minus_ok VI VL PF PO s (residual a k) (residual b k)) as (w & Ew & Fw & Cw).
    { now apply (residual_fits VI PF l). }
    { now apply (residual_fits VI PF l). }
    rewrite Ew. f_equal. symmetry. apply (residual_eq VI VL PF PO l s); auto.
    intros q. rewrite C, Cw. now rewrite !(residual_contains VI PF l s) by auto.
  Qed.

  (** ** Skipping a level *)

  Lemma sdd_dec (x y : sdd) : {x = y} + {x <> y}.
  Proof.
    destruct (sdd_eqb VI PF x y) eqn:E.
    - left. now apply (sdd_eqb_iff VI PF PO).
    - right. intros H. apply (sdd_eqb_iff VI PF PO) in H. congruence.
  Qed.

  Lemma choice_list (R : sdd -> sdd -> Prop) l : (forall z, In z l -> z <> Zero) ->
    (forall z, In z l -> exists w, R z w) ->
    exists f, f Zero = Zero /\ forall z, In z l -> R z (f z).
  Proof.
    induction l as [|a l IH]; intros Nz H.
    - exists (fun z => z). split; [auto|intros z []].
    - destruct IH as (f & F0 & Hf); [intros z Hz; apply Nz; now right|intros z Hz; apply H; now right|].
      destruct (H a (or_introl eq_refl)) as (w & Hw).
      exists (fun z => if sdd_dec z a then w else f z). split.
      + destruct (sdd_dec Zero a) as [E|E]; auto. exfalso. now apply (Nz a (or_introl eq_refl)).
      + intros z Hz. destruct (sdd_dec z a) as [->|E]; auto. destruct Hz as [->|Hz]; [congruence|auto].
  Qed.

  Lemma combine_map {A B} (f : A -> B) l : combine l (map f l) = map (fun a => (a, f a)) l.
  Proof. induction l as [|a l IH]; cbn; [auto|now rewrite IH]. Qed.

  Lemma filter_map {A B} (f : A -> B) p l : filter p (map f l) = map f (filter (fun a => p (f a)) l).
  Proof. induction l as [|a l IH]; cbn; [auto|]. destruct (p (f a)); cbn; now rewrite IH. Qed.

  Lemma forward_fun {W} o h f (arcs : list (W * sdd)) :
    (forall z, In z (map snd arcs) -> evals o h z (f z)) ->
    runs ends (forward VI U F I o h arcs) (fwd_pairs VI f arcs).
  Proof.
    intros H. apply runs_forward. exists (map (fun a => f (snd a)) arcs). split.
    - induction arcs as [|[v z] arcs IH]; cbn [map snd]; constructor.
      + apply H. now left.
      + apply IH. intros z' Hz. apply H. now right.
    - unfold fwd_pairs. rewrite combine_map, filter_map, map_map. reflexivity.
  Qed.

  Lemma fits_cases l s x : fits (under l s) x -> x = Zero \/
    (exists arcs, x = Flat (lvar l) arcs /\ l = LFlat (lvar l)) \/
    (exists n arcs, x = Hier (lvar l) arcs /\ l = LHier (lvar l) n).
  Proof.
    intros Fx. destruct x as [| |v arcs|v arcs], l as [z|z m]; cbn [under lvar] in *; auto;
      try (destruct Fx as [_ Fx]; now inversion Fx).
    - destruct (fits_flat_inv VI PF _ _ _ _ Fx) as (-> & _). right. left. eauto.
    - destruct (fits_hier_inv VI PF _ _ _ _ _ Fx) as (-> & _). right. right. eauto.
  Qed.

  Lemma body_forward n o l o' h s x y : olevel o l o' -> fits (under l s) x -> hskip o h = true ->
    x <> Zero -> runs ends (hom_body n (o, h, x)) y <->
    match x with
    | Flat var arcs => exists pairs, runs ends (forward VI U F I o' h arcs) pairs /\ su_flat VI PF var pairs = Ok y
    | Hier var arcs => exists pairs, runs ends (forward VI U F I o' h arcs) pairs /\ su_hier VI PF var pairs = Ok y
    | _ => False
    end.
  Proof.
    intros (Lv & Ln & _) Fx Hs Nz. unfold Hom.hom_body, with_var, with_next. rewrite Lv, Ln, Hs.
    destruct (fits_cases _ _ _ Fx) as [->|[(arcs & -> & _)|(n' & arcs & -> & _)]]; [congruence| |].
    - rewrite N.eqb_refl, runs_bind_iff. split; intros (p & H1 & H2); exists p; split; auto;
        now apply runs_lift in H2 || now apply runs_lift.
    - rewrite N.eqb_refl, runs_bind_iff. split; intros (p & H1 & H2); exists p; split; auto;
        now apply runs_lift in H2 || now apply runs_lift.
  Qed.

  Lemma skip_eval o l o' h s r' x f : olevel o l o' -> oshape o' s -> fits (under l s) x ->
    hskip o h = true -> h <> HId -> typed o' h r' -> f Zero = Zero ->
    (forall z, In z (heads x) -> evals o' h z (f z)) ->
    exists y, evals o h x y /\ fits (under l r') y /\ forall k, residual y k = f (residual x k).
  Proof.
    intros L O Fx Hs Ni T F0 Hf.
    destruct (is_zero VI x) eqn:Z.
    { apply is_zero_iff in Z. subst x. exists Zero. split; [now apply evals_zero|].
      split; [apply fits_zero|]. intros k. now rewrite residual_zero, F0. }
    assert (Nz : x <> Zero) by (intros ->; discriminate).
    assert (Hz : forall z, In z (heads x) -> fits r' (f z)).
    { intros z Hz. destruct (heads_residual VI VL PF _ _ _ _ Fx Hz) as (_ & Fz & _).
      apply (evals_fits VI VL PF PO U F I US HO o' h s r' z); auto. }
    destruct (fits_cases _ _ _ Fx) as [E|[(arcs & -> & El)|(n' & arcs & -> & El)]]; [congruence| |].
    - rewrite El in Fx. cbn [under] in Fx.
      destruct (fwd_flat VI VL PF PO _ s r' arcs f Fx Hz F0) as (y & E & Fy & Hy).
      exists y. split; [|split; [rewrite El; exact Fy|exact Hy]].
      apply (evals_iff VI PF U F I US); auto. exists 0.
      rewrite (body_forward 0 o l o' h s); auto; [|now rewrite El].
      exists (fwd_pairs VI f arcs). split; [|exact E]. now apply forward_fun.
    - rewrite El in Fx. cbn [under] in Fx.
      destruct (fwd_hier VI VL PF PO _ n' s r' arcs f Fx Hz F0) as (y & E & Fy & Hy).
      exists y. split; [|split; [rewrite El; exact Fy|exact Hy]].
      apply (evals_iff VI PF U F I US); auto. exists 0.
      rewrite (body_forward 0 o l o' h s); auto; [|now rewrite El].
      exists (fwd_pairs VI f arcs). split; [|exact E]. now apply forward_fun.
  Qed.

  Lemma skip_calls o l o' h s x y : olevel o l o' -> fits (under l s) x ->
    hskip o h = true -> evals o h x y -> forall z, In z (heads x) -> exists w, evals o' h z w.
  Proof.
    intros L Fx Hs E z Hz.
    destruct (is_id VI U F I h) eqn:Ei.
    { apply is_id_iff in Ei. subst h. exists z. now apply evals_id. }
    assert (Ni : h <> HId) by (intros ->; discriminate).
    assert (Nz : x <> Zero) by (intros ->; destruct Hz).
    apply (evals_iff VI PF U F I US) in E; auto. destruct E as (n & E).
    rewrite (body_forward n o l o' h s) in E; auto.
    assert (Gen : forall W (arcs : list (W * sdd)) pairs, runs ends (forward VI U F I o' h arcs) pairs ->
              In z (map snd arcs) -> exists w, evals o' h z w).
    { intros W arcs pairs R Hin. apply runs_forward in R. destruct R as (ss & R & _).
      apply in_map_iff in Hin. destruct Hin as (a & <- & Hin). clear - R Hin.
      induction R as [|a0 s0 la ls H1 H2 IH]; [destruct Hin|]. destruct Hin as [->|Hin]; eauto. }
    destruct x as [| |v arcs|v arcs]; cbn in Hz; try tauto.
    - destruct E as (p & R & _). eapply Gen; eauto.
    - destruct E as (p & R & _). eapply Gen; eauto.
  Qed.

  (** Skipping: the homomorphism is applied to every successor. *)
  Theorem ev_skip o l o' h s r' x y : olevel o l o' -> oshape o' s -> fits (under l s) x ->
    hskip o h = true -> typed o' h r' ->
    evals o h x y <-> fits (under l r') y /\ arcwise (evals o' h) x y.
  Proof.
    intros L O Fx Hs T.
    destruct (is_id VI U F I h) eqn:Ei.
    { apply is_id_iff in Ei. subst h. apply typed_id_inv in T.
      rewrite (oshape_fun _ _ _ T _ O) in *. rewrite evals_id. split.
      - intros ->. split; [auto|]. intros k. now apply evals_id.
      - intros [Fy A]. apply (residual_ext VI VL PF PO l s); auto. intros k. specialize (A k).
        now apply evals_id in A. }
    assert (Ni : h <> HId) by (intros ->; discriminate).
    assert (Nz : forall z, In z (heads x) -> z <> Zero).
    { intros z Hz. now destruct (heads_residual VI VL PF _ _ _ _ Fx Hz). }
    split.
    - intros E.
      destruct (choice_list (evals o' h) (heads x) Nz) as (f & F0 & Hf).
      { intros z Hz. apply (skip_calls o l o' h s x y L Fx Hs E z Hz). }
      destruct (skip_eval o l o' h s r' x f L O Fx Hs Ni T F0 Hf) as (y' & E' & Fy & Hy).
      rewrite (evals_fun VI PF U F I US _ _ _ _ _ E E'). split; [auto|]. intros k. rewrite Hy.
      destruct (residual_heads VI x k) as [->|Hk]; [rewrite F0; now apply evals_zero|auto].
    - intros [Fy A].
      destruct (choice_list (evals o' h) (heads x) Nz) as (f & F0 & Hf).
      { intros z Hz. destruct (heads_residual VI VL PF _ _ _ _ Fx Hz) as (_ & _ & k & <-). eauto. }
      destruct (skip_eval o l o' h s r' x f L O Fx Hs Ni T F0 Hf) as (y' & E' & Fy' & Hy).
      assert (y = y'); [|now subst].
      apply (residual_ext VI VL PF PO l r'); auto. intros k. rewrite Hy. specialize (A k).
      destruct (residual_heads VI x k) as [E|Hk].
      + rewrite E in *. rewrite F0. now apply evals_zero in A.
      + apply (evals_fun VI PF U F I US o' h (residual x k)); auto.
  Qed.

  Theorem skip_exists o l o' h s r' x : olevel o l o' -> oshape o' s -> fits (under l s) x ->
    hskip o h = true -> typed o' h r' ->
    (forall k, exists w, evals o' h (residual x k) w) -> exists y, evals o h x y.
  Proof.
    intros L O Fx Hs T A.
    destruct (is_id VI U F I h) eqn:Ei.
    { apply is_id_iff in Ei. subst h. exists x. now apply evals_id. }
    assert (Ni : h <> HId) by (intros ->; discriminate).
    destruct (choice_list (evals o' h) (heads x)) as (f & F0 & Hf).
    { intros z Hz. now destruct (heads_residual VI VL PF _ _ _ _ Fx Hz). }
    { intros z Hz. destruct (heads_residual VI VL PF _ _ _ _ Fx Hz) as (_ & _ & k & <-). auto. }
    destruct (skip_eval o l o' h s r' x f L O Fx Hs Ni T F0 Hf) as (y' & E' & _). eauto.
  Qed.

  (** Without skipping: the member operator(). *)
  Lemma ev_direct o h s x y : oshape o s -> fits s x -> x <> Zero -> h <> HId ->
    (o_empty o = false -> hskip o h = false) ->
    evals o h x y <-> exists n, runs ends (direct n h o x) y.
  Proof.
    intros O Fx Nz Ni Hs. rewrite (evals_iff VI PF U F I US); auto.
    assert (E : forall n, hom_body n (o, h, x) = direct n h o x); [|split; intros (n & X); exists n; congruence].
    intros n. destruct (oshape_inv _ _ _ O) as [[E ->]|(E & l & o' & r & L & -> & O')].
    - destruct x as [| |v a|v a]; try congruence; try (destruct Fx as [_ Fx]; inversion Fx).
      reflexivity.
    - unfold Hom.hom_body, with_var. rewrite (proj1 L), (Hs E).
      destruct (fits_cases _ _ _ Fx) as [->|[(arcs & -> & _)|(n' & arcs & -> & _)]]; [congruence| |];
        now rewrite N.eqb_refl.
  Qed.

  (** The two ways of evaluating. *)
  Lemma ev_cases o h s s' x : typed o h s' -> oshape o s -> fits s x -> h <> HId -> x <> Zero ->
    ((o_empty o = false -> hskip o h = false) /\
     forall y, evals o h x y <-> exists n, runs ends (direct n h o x) y) \/
    (exists l o' r r', olevel o l o' /\ s = under l r /\ oshape o' r /\ hskip o h = true /\
       s' = under l r' /\ typed o' h r' /\
       forall y, evals o h x y <-> fits s' y /\ arcwise (evals o' h) x y).
  Proof.
    intros T O Fx Ni Nz.
    destruct (oshape_inv _ _ _ O) as [[E ->]|(E & l & o' & r & L & -> & O')].
    - left. split; [congruence|]. intros y. apply (ev_direct o h SEnd); auto. congruence.
    - destruct (hskip o h) eqn:Hs.
      + right. destruct (typed_next VI PF U F I US o h s' T l o' L Hs) as (r' & -> & T').
        exists l, o', r, r'. split; [auto|]. split; [auto|]. split; [auto|]. split; [auto|].
        split; [auto|]. split; [auto|]. intros y. now apply (ev_skip o l o' h r r').
      + left. split; [auto|]. intros y. apply (ev_direct o h (under l r)); auto.
  Qed.

  (** ** Composition *)

  Lemma typed_comp_inv o f g s' : typed o (HComp f g) s' -> exists s, oshape o s /\ typed o g s /\ typed o f s'.
  Proof. intros T. inversion T; subst. eauto. Qed.

  Theorem E_comp : forall o s, oshape o s -> forall f g s' x y, typed o (HComp f g) s' -> fits s x ->
    (evals o (HComp f g) x y <-> exists z, evals o g x z /\ evals o f z y).
  Proof.
    apply (oshape_rec (fun o s => forall f g s' x y, typed o (HComp f g) s' -> fits s x ->
      (evals o (HComp f g) x y <-> exists z, evals o g x z /\ evals o f z y))).
    - intros o E f g s' x y T Fx.
      destruct (is_zero VI x) eqn:Z.
      { apply is_zero_iff in Z. subst x. rewrite evals_zero. split.
        - intros ->. exists Zero. split; now apply evals_zero.
        - intros (z & A & B). apply evals_zero in A. subst z. now apply evals_zero in B. }
      rewrite (ev_direct o (HComp f g) SEnd); [|now constructor|auto|intros ->; discriminate|discriminate|congruence].
      cbn [Hom.direct]. setoid_rewrite runs_bind_iff. setoid_rewrite runs_hcall. split.
      + intros (_ & z & A & B). eauto.
      + intros (z & A & B). exists 0. eauto.
    - intros o l o' r L O' IH f g s' x y T Fx.
      destruct (is_zero VI x) eqn:Z.
      { apply is_zero_iff in Z. subst x. rewrite evals_zero. split.
        - intros ->. exists Zero. split; now apply evals_zero.
        - intros (z & A & B). apply evals_zero in A. subst z. now apply evals_zero in B. }
      assert (O : oshape o (under l r)) by now apply (oshape_level _ _ _ _ r L).
      destruct (typed_comp_inv _ _ _ _ T) as (s0 & O0 & Tg & Tf).
      rewrite (oshape_fun _ _ _ O0 _ O) in *. clear O0.
      destruct (hskip o (HComp f g)) eqn:Hs.
      + destruct (typed_next VI PF U F I US _ _ _ T _ _ L Hs) as (r' & -> & T').
        cbn [Hom.hskip] in Hs. apply andb_true_iff in Hs. destruct Hs as [Sf Sg].
        destruct (typed_next VI PF U F I US _ _ _ Tf _ _ L Sf) as (rf & Ef & Tf').
        destruct (typed_next VI PF U F I US _ _ _ Tg _ _ L Sg) as (rg & Eg & Tg').
        apply under_inj in Ef. destruct Ef as [_ <-]. apply under_inj in Eg. destruct Eg as [_ <-].
        rewrite (ev_skip o l o' (HComp f g) r r' x y L O' Fx); auto; [|cbn; now rewrite Sf, Sg].
        split.
        * intros [Fy A].
          assert (B : forall k, exists z, evals o' g (residual x k) z /\ evals o' f z (residual y k)).
          { intros k. apply (IH f g r'); auto. now apply (residual_fits VI PF l). }
          destruct (skip_exists o l o' g r r x L O' Fx Sg Tg') as (z & Ez).
          { intros k. destruct (B k) as (w & Hw & _). eauto. }
          exists z. split; [auto|].
          pose proof Ez as Ez'. apply (ev_skip o l o' g r r x z L O' Fx Sg Tg') in Ez'. destruct Ez' as [Fz Az].
          apply (ev_skip o l o' f r r' z y L O' Fz Sf Tf'). split; [auto|]. intros k.
          destruct (B k) as (w & Hw1 & Hw2).
          rewrite <- (evals_fun VI PF U F I US _ _ _ _ _ Hw1 (Az k)). exact Hw2.
        * intros (z & A & B).
          apply (ev_skip o l o' g r r x z L O' Fx Sg Tg') in A. destruct A as [Fz A].
          apply (ev_skip o l o' f r r' z y L O' Fz Sf Tf') in B. destruct B as [Fy B].
          split; [auto|]. intros k. apply (IH f g r'); auto.
          -- now apply (residual_fits VI PF l).
          -- exists (residual z k). auto.
      + rewrite (ev_direct o (HComp f g) (under l r)); [|auto|auto|intros ->; discriminate|discriminate|auto].
        cbn [Hom.direct]. setoid_rewrite runs_bind_iff. setoid_rewrite runs_hcall. split.
        * intros (_ & z & A & B). eauto.
        * intros (z & A & B). exists 0. eauto.
  Qed.

  (** ** Several homomorphisms applied to the same operand *)

  Definition evals_all (o : order) (hs : list hom) (x : sdd) (ys : list sdd) : Prop :=
    Forall2 (fun h y => evals o h x y) hs ys.

  Lemma evals_all_in o hs x ys : evals_all o hs x ys -> forall y, In y ys ->
    exists h, In h hs /\ evals o h x y.
  Proof. intros H y Hy. destruct (Forall2_in_r _ _ _ _ _ _ H Hy) as (h & A & B). eauto. Qed.

  Lemma evals_all_ex o hs x : (forall h, In h hs -> exists y, evals o h x y) ->
    exists ys, evals_all o hs x ys.
  Proof.
    induction hs as [|h hs IH]; intros H.
    - exists []. constructor.
    - destruct (H h (or_introl eq_refl)) as (y & Hy).
      destruct IH as (ys & Hys); [intros h' Hh; apply H; now right|].
      exists (y :: ys). now constructor.
  Qed.

  Lemma evals_all_ex_inv o hs x ys : evals_all o hs x ys -> forall h, In h hs -> exists y, evals o h x y.
  Proof. induction 1 as [|h y hs ys A B IH]; intros k []; subst; eauto. Qed.

  Lemma evals_all_fits o hs s s' x ys : oshape o s -> fits s x -> (forall h, In h hs -> typed o h s') ->
    evals_all o hs x ys -> forall y, In y ys -> fits s' y.
  Proof.
    intros O Fx T H y Hy. destruct (evals_all_in _ _ _ _ H y Hy) as (h & Hh & E).
    apply (evals_fits VI VL PF PO U F I US HO o h s s' x); auto.
  Qed.

  Lemma evals_all_down o l o' hs r r' x ys k : olevel o l o' -> oshape o' r -> fits (under l r) x ->
    forallb (hskip o) hs = true -> (forall h, In h hs -> typed o' h r') ->
    evals_all o hs x ys -> evals_all o' hs (residual x k) (map (fun y => residual y k) ys).
  Proof.
    intros L O Fx Hs T H. rewrite forallb_forall in Hs.
    induction H as [|h y hs ys A B IH]; cbn [map]; constructor.
    - apply (ev_skip o l o' h r r' x y L O Fx) in A; [apply A|apply Hs; now left|apply T; now left].
    - apply IH; intros h' Hh; [apply Hs|apply T]; now right.
  Qed.

  Lemma evals_all_fun o hs x ys zs : evals_all o hs x ys -> evals_all o hs x zs -> ys = zs.
  Proof.
    intros H. revert zs. induction H as [|h y hs ys A B IH]; intros zs H'; inversion H'; subst; auto.
    f_equal; auto. eapply evals_fun; eauto.
  Qed.

  Lemma sum_zeros (s : shape) ys : (forall y, In y ys -> y = Zero) -> api_sum VI PF ys = Ok Zero.
  Proof.
    intros H. destruct (sum_ok VI VL PF PO s ys) as (r & E & Fr & C).
    { intros y Hy. rewrite (H y Hy). apply fits_zero. }
    rewrite E. f_equal. apply (fits_zero_iff VI VL PF s); auto. intros p. rewrite C.
    apply not_true_is_false. intros X. apply existsb_exists in X. destruct X as (y & Hy & Cy).
    rewrite (H y Hy) in Cy. discriminate.
  Qed.

  Lemma evals_all_zero o hs ys : evals_all o hs Zero ys -> forall y, In y ys -> y = Zero.
  Proof.
    intros H y Hy. destruct (evals_all_in _ _ _ _ H y Hy) as (h & _ & E). now apply evals_zero in E.
  Qed.

  Lemma evals_all_zeros o hs : evals_all o hs Zero (map (fun _ => Zero) hs).
  Proof. induction hs; cbn; constructor; auto. now apply evals_zero. Qed.

  (** ** Sum *)

  Definition sum_of (o : order) (hs : list hom) (x y : sdd) : Prop :=
    exists ys, evals_all o hs x ys /\ api_sum VI PF ys = Ok y.

  Lemma typed_sum_inv o hs s' : typed o (HSum hs) s' -> hs <> [] /\ forall h, In h hs -> typed o h s'.
  Proof. intros T. inversion T; subst. auto. Qed.

  Lemma sum_of_zero o hs y : sum_of o hs Zero y <-> y = Zero.
  Proof.
    split.
    - intros (ys & A & B). rewrite (sum_zeros SEnd ys (evals_all_zero _ _ _ A)) in B. congruence.
    - intros ->. exists (map (fun _ => Zero) hs). split; [apply evals_all_zeros|].
      apply (sum_zeros SEnd). intros y Hy. apply in_map_iff in Hy. now destruct Hy as (h & <- & _).
  Qed.

  Lemma sum_of_fun o hs x y z : sum_of o hs x y -> sum_of o hs x z -> y = z.
  Proof.
    intros (ys & A & B) (zs & A' & B'). rewrite (evals_all_fun _ _ _ _ _ A A') in B. congruence.
  Qed.

  Lemma runs_sum_of n o hs x y : runs ends (direct n (HSum hs) o x) y <-> sum_of o hs x y.
  Proof.
    cbn [Hom.direct]. rewrite runs_bind_iff. unfold sum_of, evals_all.
    split; intros (ys & A & B); exists ys; split.
    - now apply runs_hcalls in A.
    - now apply runs_lift in B.
    - now apply runs_hcalls.
    - now apply runs_lift.
  Qed.

  Theorem E_sum : forall o s, oshape o s -> forall hs s' x y, typed o (HSum hs) s' -> fits s x ->
    (evals o (HSum hs) x y <-> sum_of o hs x y).
  Proof.
    apply (oshape_rec (fun o s => forall hs s' x y, typed o (HSum hs) s' -> fits s x ->
      (evals o (HSum hs) x y <-> sum_of o hs x y))).
    - intros o E hs s' x y T Fx.
      destruct (is_zero VI x) eqn:Z.
      { apply is_zero_iff in Z. subst x. now rewrite evals_zero, sum_of_zero. }
      rewrite (ev_direct o (HSum hs) SEnd); [|now constructor|auto|intros ->; discriminate|discriminate|congruence].
      setoid_rewrite runs_sum_of. split; [now intros (_ & A)|intros A; now exists 0].
    - intros o l o' r L O' IH hs s' x y T Fx.
      destruct (is_zero VI x) eqn:Z.
      { apply is_zero_iff in Z. subst x. now rewrite evals_zero, sum_of_zero. }
      assert (O : oshape o (under l r)) by now apply (oshape_level _ _ _ _ r L).
      destruct (hskip o (HSum hs)) eqn:Hs.
      2:{ rewrite (ev_direct o (HSum hs) (under l r)); [|auto|auto|intros ->; discriminate|discriminate|auto].
          setoid_rewrite runs_sum_of. split; [now intros (_ & A)|intros A; now exists 0]. }
      destruct (typed_next VI PF U F I US _ _ _ T _ _ L Hs) as (r' & -> & T').
      destruct (typed_sum_inv _ _ _ T) as [Ne Th]. destruct (typed_sum_inv _ _ _ T') as [_ Th'].
      pose proof Hs as Hs'. cbn [Hom.hskip] in Hs'.
      assert (Up : forall y, sum_of o hs x y -> evals o (HSum hs) x y).
      { intros z (ys & A & B).
        assert (Fys : forall w, In w ys -> fits (under l r') w) by now apply (evals_all_fits o hs (under l r) _ x).
        apply (ev_skip o l o' (HSum hs) r r' x z L O' Fx Hs T'). split.
        - destruct (sum_ok VI VL PF PO _ _ Fys) as (z' & Ez & Fz & _). congruence.
        - intros k. apply (IH hs r'); auto; [now apply (residual_fits VI PF l)|].
          exists (map (fun w => residual w k) ys). split.
          + apply (evals_all_down o l o' hs r r'); auto.
          + apply (residual_sum l r'); auto. }
      split; [|apply Up]. intros E.
      assert (X : exists z, sum_of o hs x z).
      { pose proof E as E0. apply (ev_skip o l o' (HSum hs) r r' x y L O' Fx Hs T') in E0.
        destruct E0 as [Fy A]. rewrite forallb_forall in Hs'.
        destruct (evals_all_ex o hs x) as (ys & Hys).
        { intros h Hh. apply (skip_exists o l o' h r r' x L O' Fx); auto.
          intros k. specialize (A k). apply (IH hs r') in A; auto; [|now apply (residual_fits VI PF l)].
          destruct A as (zs & A & _). apply (evals_all_ex_inv _ _ _ _ A h Hh). }
        destruct (sum_ok VI VL PF PO (under l r') ys) as (z & Ez & _).
        { apply (evals_all_fits o hs (under l r) _ x); auto. }
        exists z, ys. auto. }
      destruct X as (z & Hz). rewrite (evals_fun VI PF U F I US _ _ _ _ _ E (Up z Hz)). exact Hz.
  Qed.

  (** ** Intersection: if the operands all evaluate, so does the intersection. *)

  Definition inter_of (o : order) (hs : list hom) (x y : sdd) : Prop :=
    exists ys, evals_all o hs x ys /\ api_intersection VI PF ys = Ok y.

  Lemma typed_inter_inv o hs s' : typed o (HInter hs) s' -> hs <> [] /\ forall h, In h hs -> typed o h s'.
  Proof. intros T. inversion T; subst. auto. Qed.

  Lemma evals_all_length o hs x ys : evals_all o hs x ys -> length ys = length hs.
  Proof. induction 1; cbn; auto. Qed.

  Lemma evals_all_ne o hs x ys : evals_all o hs x ys -> hs <> [] -> ys <> [].
  Proof. intros H Ne ->. apply Ne. inversion H. auto. Qed.

  Lemma inter_zero s ys : In Zero ys -> (forall y, In y ys -> fits s y) -> api_intersection VI PF ys = Ok Zero.
  Proof.
    intros Hz H. destruct (inter_ok VI VL PF PO s ys) as (r & E & Fr & C); auto.
    { intros ->. destruct Hz. }
    rewrite E. f_equal. apply (fits_zero_iff VI VL PF s); auto. intros p. rewrite C.
    apply not_true_is_false. intros X. rewrite forallb_forall in X. specialize (X _ Hz). discriminate.
  Qed.

  Lemma inter_loop_ok o s s' hs x : oshape o s -> fits s x -> (forall h, In h hs -> typed o h s') ->
    forall acc ys y, evals_all o hs x ys -> (forall z, In z acc -> fits s' z) ->
    api_intersection VI PF (acc ++ ys) = Ok y ->
    runs ends (inter_loop VI PF U F I o hs x acc) y.
  Proof.
    intros O Fx. induction hs as [|h hs IH]; intros T acc ys y A Ha E; inversion A as [|? z ? zs A1 A2]; subst;
      cbn [inter_loop].
    - rewrite app_nil_r in E. now apply runs_lift.
    - apply runs_bind_iff. exists z. split; [now apply runs_hcall|].
      destruct (is_zero VI z) eqn:Z.
      + apply is_zero_iff in Z. subst z. apply runs_ret_iff.
        rewrite (inter_zero s') in E; [congruence|apply in_app_iff; right; now left|].
        intros w Hw. apply in_app_iff in Hw. destruct Hw as [Hw|Hw]; [auto|].
        apply (evals_all_fits o (h :: hs) s s' x (Zero :: zs)); auto.
      + apply (IH (fun h' Hh => T h' (or_intror Hh)) (acc ++ [z]) zs); auto.
        * intros w Hw. apply in_app_iff in Hw. destruct Hw as [Hw|[<-|[]]]; [auto|].
          apply (evals_fits VI VL PF PO U F I US HO o h s s' x); auto. apply T. now left.
        * rewrite <- app_assoc. exact E.
  Qed.

  Theorem E_inter : forall o s, oshape o s -> forall hs s' x y, typed o (HInter hs) s' -> fits s x ->
    inter_of o hs x y -> evals o (HInter hs) x y.
  Proof.
    apply (oshape_rec (fun o s => forall hs s' x y, typed o (HInter hs) s' -> fits s x ->
      inter_of o hs x y -> evals o (HInter hs) x y)).
    - intros o E hs s' x y T Fx (ys & A & B).
      destruct (typed_inter_inv _ _ _ T) as [Ne Th].
      assert (O : oshape o SEnd) by now constructor.
      destruct (is_zero VI x) eqn:Z.
      { apply is_zero_iff in Z. subst x. apply evals_zero.
        rewrite (inter_zero s' ys) in B; [congruence| |].
        - pose proof (evals_all_ne _ _ _ _ A Ne) as Ney. pose proof (evals_all_zero _ _ _ A) as Hz.
          destruct ys as [|w ys]; [congruence|]. rewrite (Hz w (or_introl eq_refl)). now left.
        - now apply (evals_all_fits o hs SEnd s' Zero). }
      apply (ev_direct o (HInter hs) SEnd); [auto|auto|intros ->; discriminate|discriminate|congruence|].
      exists 0. cbn [Hom.direct]. apply (inter_loop_ok o SEnd s' hs x O Fx Th [] ys); auto. intros z [].
    - intros o l o' r L O' IH hs s' x y T Fx (ys & A & B).
      destruct (typed_inter_inv _ _ _ T) as [Ne Th].
      assert (O : oshape o (under l r)) by now apply (oshape_level _ _ _ _ r L).
      pose proof (evals_all_ne _ _ _ _ A Ne) as Ney.
      assert (Fys : forall w, In w ys -> fits s' w) by now apply (evals_all_fits o hs (under l r) _ x).
      destruct (is_zero VI x) eqn:Z.
      { apply is_zero_iff in Z. subst x. apply evals_zero.
        rewrite (inter_zero s' ys) in B; [congruence| |auto].
        pose proof (evals_all_zero _ _ _ A) as Hz.
        destruct ys as [|w ys]; [congruence|]. rewrite (Hz w (or_introl eq_refl)). now left. }
      destruct (hskip o (HInter hs)) eqn:Hs.
      2:{ apply (ev_direct o (HInter hs) (under l r)); [auto|auto|intros ->; discriminate|discriminate|auto|].
          exists 0. cbn [Hom.direct]. apply (inter_loop_ok o (under l r) s' hs x O Fx Th [] ys); auto.
          intros z []. }
      destruct (typed_next VI PF U F I US _ _ _ T _ _ L Hs) as (r' & -> & T').
      destruct (typed_inter_inv _ _ _ T') as [_ Th'].
      pose proof Hs as Hs'. cbn [Hom.hskip] in Hs'.
      apply (ev_skip o l o' (HInter hs) r r' x y L O' Fx Hs T'). split.
      + destruct (inter_ok VI VL PF PO _ _ Ney Fys) as (z' & Ez & Fz & _). congruence.
      + intros k. apply (IH hs r'); auto; [now apply (residual_fits VI PF l)|].
        exists (map (fun w => residual w k) ys). split.
        * apply (evals_all_down o l o' hs r r'); auto.
        * apply (residual_inter l r'); auto.
  Qed.

  (** ** If-then-else *)

  Definition ite_of (o : order) (p t e : hom) (x y : sdd) : Prop :=
    exists c a d b, evals o p x c /\ evals o t c a /\ api_minus VI PF x c = Ok d /\ evals o e d b
      /\ api_sum VI PF [a; b] = Ok y.

  Lemma typed_ite_inv o p t e s' : typed o (HIte p t e) s' ->
    exists s, oshape o s /\ hselector p = true /\ typed o p s /\ typed o t s' /\ typed o e s'.
  Proof. intros T. inversion T; subst. eauto 10. Qed.

  Lemma ite_of_fun o p t e x y z : ite_of o p t e x y -> ite_of o p t e x z -> y = z.
  Proof.
    intros (c & a & d & b & A1 & A2 & A3 & A4 & A5) (c' & a' & d' & b' & B1 & B2 & B3 & B4 & B5).
    rewrite (evals_fun VI PF U F I US _ _ _ _ _ A1 B1) in *.
    rewrite (evals_fun VI PF U F I US _ _ _ _ _ A2 B2) in *.
    rewrite A3 in B3. injection B3 as ->.
    rewrite (evals_fun VI PF U F I US _ _ _ _ _ A4 B4) in *. congruence.
  Qed.

  Lemma minus_zeros : api_minus VI PF Zero Zero = Ok Zero.
  Proof.
    destruct (minus_ok VI VL PF PO SEnd Zero Zero) as (r & E & Fr & C); try apply fits_zero.
    rewrite E. f_equal. apply (fits_zero_iff VI VL PF SEnd); auto.
  Qed.

  Lemma sum_two_zeros : api_sum VI PF [Zero; Zero] = Ok Zero.
  Proof. apply (sum_zeros SEnd). intros y [<-|[<-|[]]]; auto. Qed.

  Lemma ite_of_zero o p t e y : ite_of o p t e Zero y <-> y = Zero.
  Proof.
    assert (H : ite_of o p t e Zero Zero).
    { exists Zero, Zero, Zero, Zero. split; [now apply evals_zero|]. split; [now apply evals_zero|].
      split; [apply minus_zeros|]. split; [now apply evals_zero|apply sum_two_zeros]. }
    split; [intros H'; apply (ite_of_fun _ _ _ _ _ _ _ H' H)|intros ->; exact H].
  Qed.

  Lemma runs_ite_of n o p t e x y : runs ends (direct n (HIte p t e) o x) y <-> ite_of o p t e x y.
  Proof.
    cbn [Hom.direct]. unfold ite_of. setoid_rewrite runs_bind_iff. setoid_rewrite runs_hcall.
    setoid_rewrite runs_bind_iff. setoid_rewrite runs_hcall. setoid_rewrite runs_bind_iff.
    setoid_rewrite runs_lift. setoid_rewrite runs_bind_iff. setoid_rewrite runs_hcall.
    setoid_rewrite runs_lift. split.
    - intros (c & A & a & B & d & C & b & D & E). exists c, a, d, b. auto.
    - intros (c & a & d & b & A & B & C & D & E). eauto 10.
  Qed.

  Theorem E_ite : forall o s, oshape o s -> forall p t e s' x y, typed o (HIte p t e) s' -> fits s x ->
    (evals o (HIte p t e) x y <-> ite_of o p t e x y).
  Proof.
    apply (oshape_rec (fun o s => forall p t e s' x y, typed o (HIte p t e) s' -> fits s x ->
      (evals o (HIte p t e) x y <-> ite_of o p t e x y))).
    - intros o E p t e s' x y T Fx.
      destruct (is_zero VI x) eqn:Z.
      { apply is_zero_iff in Z. subst x. now rewrite evals_zero, ite_of_zero. }
      rewrite (ev_direct o (HIte p t e) SEnd); [|now constructor|auto|intros ->; discriminate|discriminate|congruence].
      setoid_rewrite runs_ite_of. split; [now intros (_ & A)|intros A; now exists 0].
    - intros o l o' r L O' IH p t e s' x y T Fx.
      destruct (is_zero VI x) eqn:Z.
      { apply is_zero_iff in Z. subst x. now rewrite evals_zero, ite_of_zero. }
      assert (O : oshape o (under l r)) by now apply (oshape_level _ _ _ _ r L).
      destruct (hskip o (HIte p t e)) eqn:Hs.
      2:{ rewrite (ev_direct o (HIte p t e) (under l r)); [|auto|auto|intros ->; discriminate|discriminate|auto].
          setoid_rewrite runs_ite_of. split; [now intros (_ & A)|intros A; now exists 0]. }
      destruct (typed_next VI PF U F I US _ _ _ T _ _ L Hs) as (r' & -> & T').
      destruct (typed_ite_inv _ _ _ _ _ T) as (s0 & O0 & Sel & Tp & Tt & Te).
      rewrite (oshape_fun _ _ _ O0 _ O) in *. clear O0.
      destruct (typed_ite_inv _ _ _ _ _ T') as (s1 & O1 & _ & Tp' & Tt' & Te').
      rewrite (oshape_fun _ _ _ O1 _ O') in *. clear O1.
      pose proof Hs as Hs'. cbn [Hom.hskip] in Hs'. apply andb_true_iff in Hs'.
      destruct Hs' as [Hs' St]. apply andb_true_iff in Hs'. destruct Hs' as [Sp Se].
      assert (Fit : forall h r1 z w, typed o h (under l r1) -> fits (under l r) z -> evals o h z w ->
                fits (under l r1) w).
      { intros h r1 z w Th Fz E. apply (evals_fits VI VL PF PO U F I US HO o h (under l r) _ z); auto. }
      assert (Up : forall y, ite_of o p t e x y -> evals o (HIte p t e) x y).
      { intros z (c & a & d & b & A1 & A2 & A3 & A4 & A5).
        assert (Fc := Fit _ _ _ _ Tp Fx A1). assert (Fa := Fit _ _ _ _ Tt Fc A2).
        destruct (minus_ok VI VL PF PO _ _ _ Fx Fc) as (d' & Ed & Fd & _).
        rewrite A3 in Ed. injection Ed as <-. assert (Fb := Fit _ _ _ _ Te Fd A4).
        assert (Fab : forall w, In w [a; b] -> fits (under l r') w) by (intros w [<-|[<-|[]]]; auto).
        destruct (sum_ok VI VL PF PO _ _ Fab) as (z' & Ez & Fz & _). rewrite A5 in Ez. injection Ez as <-.
        apply (ev_skip o l o' (HIte p t e) r r' x z L O' Fx Hs T'). split; [auto|]. intros k.
        apply (IH p t e r'); auto; [now apply (residual_fits VI PF l)|].
        apply (ev_skip o l o' p r r x c L O' Fx Sp Tp') in A1.
        apply (ev_skip o l o' t r r' c a L O' Fc St Tt') in A2.
        apply (ev_skip o l o' e r r' d b L O' Fd Se Te') in A4.
        exists (residual c k), (residual a k), (residual d k), (residual b k).
        split; [apply A1|]. split; [apply A2|]. split; [now apply (residual_minus l r)|].
        split; [apply A4|]. apply (residual_sum l r' [a; b]); auto. }
      split; [|apply Up]. intros E.
      assert (X : exists z, ite_of o p t e x z).
      { pose proof E as E0. apply (ev_skip o l o' (HIte p t e) r r' x y L O' Fx Hs T') in E0.
        destruct E0 as [Fy A].
        assert (B : forall k, ite_of o' p t e (residual x k) (residual y k)).
        { intros k. apply (IH p t e r'); auto. now apply (residual_fits VI PF l). }
        destruct (skip_exists o l o' p r r x L O' Fx Sp Tp') as (c & Ec).
        { intros k. destruct (B k) as (c & _ & _ & _ & Hc & _). eauto. }
        assert (Fc := Fit _ _ _ _ Tp Fx Ec).
        pose proof Ec as Ac. apply (ev_skip o l o' p r r x c L O' Fx Sp Tp') in Ac. destruct Ac as [_ Ac].
        destruct (minus_ok VI VL PF PO _ _ _ Fx Fc) as (d & Ed & Fd & _).
        destruct (skip_exists o l o' t r r' c L O' Fc St Tt') as (a & Ea).
        { intros k. destruct (B k) as (c' & a' & _ & _ & Hc & Ha & _).
          rewrite <- (evals_fun VI PF U F I US _ _ _ _ _ Hc (Ac k)). eauto. }
        destruct (skip_exists o l o' e r r' d L O' Fd Se Te') as (b & Eb).
        { intros k. destruct (B k) as (c' & _ & d' & b' & Hc & _ & Hd & Hb & _).
          rewrite (evals_fun VI PF U F I US _ _ _ _ _ Hc (Ac k)) in Hd.
          rewrite (residual_minus l r x c d k Fx Fc Ed) in Hd. injection Hd as ->. eauto. }
        destruct (sum_ok VI VL PF PO (under l r') [a; b]) as (z & Ez & _).
        { intros w [<-|[<-|[]]]; [apply (Fit t r' c)|apply (Fit e r' d)]; auto. }
        exists z, c, a, d, b. auto. }
      destruct X as (z & Hz). rewrite (evals_fun VI PF U F I US _ _ _ _ _ E (Up z Hz)). exact Hz.
  Qed.

  (** ** Fixpoint *)

  Definition fix_of (o : order) (h : hom) (x y : sdd) : Prop :=
    exists k, iter (evals o h) k x y /\ evals o h y y.

  Lemma typed_fix_inv o h s : typed o (HFix h) s -> oshape o s /\ typed o h s.
  Proof. intros T. inversion T; subst. auto. Qed.

  Lemma fix_of_fun o h x y z : fix_of o h x y -> fix_of o h x z -> y = z.
  Proof.
    intros (j & A & B) (k & C & D).
    apply (iter_fix_unique (evals o h) (evals_fun VI PF U F I US o h) j k x); auto.
  Qed.

  Lemma fix_of_zero o h y : fix_of o h Zero y <-> y = Zero.
  Proof.
    assert (H : fix_of o h Zero Zero) by (exists 0; split; [reflexivity|now apply evals_zero]).
    split; [intros H'; apply (fix_of_fun _ _ _ _ _ H' H)|intros ->; exact H].
  Qed.

  Lemma iter_fits o h s : typed o h s -> oshape o s -> forall n x y, fits s x ->
    iter (evals o h) n x y -> fits s y.
  Proof.
    intros T O. induction n as [|n IH]; intros x y Fx H; cbn [HomEval.iter] in H; [now subst y|].
    destruct H as (z & H1 & H2). apply (IH z); auto.
    apply (evals_fits VI VL PF PO U F I US HO o h s s x); auto.
  Qed.

  Lemma iter_down o l o' h r : olevel o l o' -> oshape o' r -> hskip o h = true -> typed o' h r ->
    forall n x y k, fits (under l r) x ->
    iter (evals o h) n x y -> iter (evals o' h) n (residual x k) (residual y k).
  Proof.
    intros L O Hs T. induction n as [|n IH]; intros x y k Fx H; cbn [HomEval.iter] in *; [now subst y|].
    destruct H as (z & H1 & H2). apply (ev_skip o l o' h r r x z L O Fx Hs T) in H1. destruct H1 as [Fz H1].
    exists (residual z k). split; auto.
  Qed.

  (** A bound valid for every successor. *)
  Lemma bound_all (P : nat -> sdd -> Prop) l : (forall n m z, P n z -> n <= m -> P m z) ->
    (forall z, In z l -> exists n, P n z) -> exists n, forall z, In z l -> P n z.
  Proof.
    intros Mono. induction l as [|a l IH]; intros H; [exists 0; intros z []|].
    destruct IH as (n & Hn); [intros z Hz; apply H; now right|].
    destruct (H a (or_introl eq_refl)) as (m & Hm). exists (Nat.max n m).
    intros z [<-|Hz]; [apply (Mono m)|apply (Mono n)]; auto; lia.
  Qed.

  (** The iterations reach a fixed point in [n] steps at most. *)
  Definition stops (o : order) (h : hom) (n : nat) (x : sdd) : Prop :=
    exists y, iter (evals o h) n x y /\ evals o h y y.

  Lemma iter_snoc {A} (R : A -> A -> Prop) : forall n x y z, iter R n x y -> R y z -> iter R (S n) x z.
  Proof.
    induction n as [|n IH]; intros x y z H1 H2; cbn [HomEval.iter] in *.
    - subst y. exists z. auto.
    - destruct H1 as (w & H1 & H3). exists w. split; [auto|]. apply (IH w y z); auto.
  Qed.

  Lemma stops_mono o h n m x : stops o h n x -> n <= m -> stops o h m x.
  Proof.
    intros (y & A & B) Le. exists y. split; [|auto]. induction Le as [|m Le IH]; [auto|].
    apply (iter_snoc _ m x y y); auto.
  Qed.

  Lemma stops_up o l o' h r : olevel o l o' -> oshape o' r -> hskip o h = true -> typed o' h r ->
    forall n x, fits (under l r) x -> (forall k, stops o' h n (residual x k)) -> stops o h n x.
  Proof.
    intros L O Hs T. induction n as [|n IH]; intros x Fx H.
    - exists x. split; [reflexivity|]. apply (ev_skip o l o' h r r x x L O Fx Hs T). split; [auto|].
      intros k. destruct (H k) as (y & A & B). cbn in A. now subst y.
    - destruct (skip_exists o l o' h r r x L O Fx Hs T) as (z & Ez).
      { intros k. destruct (H k) as (y & A & B). cbn [HomEval.iter] in A. destruct A as (w & A & _). eauto. }
      pose proof Ez as Az. apply (ev_skip o l o' h r r x z L O Fx Hs T) in Az. destruct Az as [Fz Az].
      destruct (IH z Fz) as (y & A & B).
      { intros k. destruct (H k) as (y & A & B). cbn [HomEval.iter] in A. destruct A as (w & A1 & A2).
        rewrite <- (evals_fun VI PF U F I US _ _ _ _ _ A1 (Az k)). exists y. auto. }
      exists y. split; [|auto]. cbn [HomEval.iter]. eauto.
  Qed.

  Theorem E_fix : forall o s, oshape o s -> forall h s' x y, typed o (HFix h) s' -> fits s x ->
    (evals o (HFix h) x y <-> fix_of o h x y).
  Proof.
    apply (oshape_rec (fun o s => forall h s' x y, typed o (HFix h) s' -> fits s x ->
      (evals o (HFix h) x y <-> fix_of o h x y))).
    - intros o E h s' x y T Fx.
      destruct (is_zero VI x) eqn:Z.
      { apply is_zero_iff in Z. subst x. now rewrite evals_zero, fix_of_zero. }
      rewrite (ev_direct o (HFix h) SEnd); [|now constructor|auto|intros ->; discriminate|discriminate|congruence].
      cbn [Hom.direct]. apply (runs_fix VI PF PO U F I US).
    - intros o l o' r L O' IH h s' x y T Fx.
      destruct (is_zero VI x) eqn:Z.
      { apply is_zero_iff in Z. subst x. now rewrite evals_zero, fix_of_zero. }
      assert (O : oshape o (under l r)) by now apply (oshape_level _ _ _ _ r L).
      destruct (hskip o (HFix h)) eqn:Hs.
      2:{ rewrite (ev_direct o (HFix h) (under l r)); [|auto|auto|intros ->; discriminate|discriminate|auto].
          cbn [Hom.direct]. apply (runs_fix VI PF PO U F I US). }
      destruct (typed_fix_inv _ _ _ T) as [O0 Th]. rewrite (oshape_fun _ _ _ O0 _ O) in *. clear O0.
      destruct (typed_next VI PF U F I US _ _ _ T _ _ L Hs) as (r' & Er & T').
      apply under_inj in Er. destruct Er as [_ <-].
      destruct (typed_fix_inv _ _ _ T') as [_ Th']. pose proof Hs as Sh. cbn [Hom.hskip] in Sh.
      assert (Up : forall y, fix_of o h x y -> evals o (HFix h) x y).
      { intros z (n & A & B). assert (Fz := iter_fits o h _ Th O n x z Fx A).
        apply (ev_skip o l o' (HFix h) r r x z L O' Fx Hs T'). split; [auto|]. intros k.
        apply (IH h r); auto; [now apply (residual_fits VI PF l)|]. exists n. split.
        - apply (iter_down o l o' h r); auto.
        - apply (ev_skip o l o' h r r z z L O' Fz Sh Th') in B. apply B. }
      split; [|apply Up]. intros E.
      assert (X : exists z, fix_of o h x z).
      { pose proof E as E0. apply (ev_skip o l o' (HFix h) r r x y L O' Fx Hs T') in E0.
        destruct E0 as [Fy A].
        destruct (bound_all (stops o' h) (heads x)) as (n & Hn).
        { intros n m z Hz. apply stops_mono. exact Hz. }
        { intros z Hz. destruct (heads_residual VI VL PF _ _ _ _ Fx Hz) as (_ & Fz & k & <-).
          specialize (A k). apply (IH h r) in A; auto. destruct A as (n & A1 & A2).
          exists n, (residual y k). auto. }
        destruct (stops_up o l o' h r L O' Sh Th' n x Fx) as (z & B1 & B2).
        { intros k. destruct (residual_heads VI x k) as [->|Hk]; [|auto].
          exists Zero. split; [|now apply evals_zero]. clear. induction n as [|n IH]; cbn; [auto|].
          exists Zero. split; [now apply evals_zero|auto]. }
        exists z, n. auto. }
      destruct X as (z & Hz). rewrite (evals_fun VI PF U F I US _ _ _ _ _ E (Up z Hz)). exact Hz.
  Qed.
End Eqns.
