(** * What homomorphisms do to the assignments of an SDD

    [acts o h R]: the result of [h] is the image of its operand by the relation [R] on assignments.
    Homomorphisms with such a relation are called linear: they distribute over unions. *)

From Coq Require Import List Bool NArith Arith Lia Permutation Sorted Relations.
From Verif Require Import Base SortedSets Values Sdd SddFacts Orders OrdersProofs OrdersSdd DDModel.
From Verif Require Import DDGeneric DDProofs DDTheorems Hom HomFacts HomEval HomTyped HomEqns.
Import ListNotations.

(** ** Relations on assignments *)

Section Relations.
  Variable T : Type.
  Notation asg := (asg T).
  Notation rel := (asg -> asg -> Prop).

  (** [R] at the nested part of the variable [t], everything else being kept. *)
  Inductive rlocal (t : N) (R : rel) : rel :=
  | rl_here a b q : R a b -> rlocal t R (ANest t a q) (ANest t b q)
  | rl_val x a q q' : x <> t -> rlocal t R q q' -> rlocal t R (AVal x a q) (AVal x a q')
  | rl_nest x a q q' : x <> t -> rlocal t R q q' -> rlocal t R (ANest x a q) (ANest x a q').

  (** [phi] on the value of the variable [t], everything else being kept. *)
  Inductive rfun (t : N) (phi : T -> T -> Prop) : rel :=
  | rf_end : rfun t phi ANil ANil
  | rf_here a b q : phi a b -> rfun t phi (AVal t a q) (AVal t b q)
  | rf_val x a q q' : x <> t -> rfun t phi q q' -> rfun t phi (AVal x a q) (AVal x a q')
  | rf_nest x a q q' : x <> t -> rfun t phi q q' -> rfun t phi (ANest x a q) (ANest x a q').
End Relations.
Arguments rlocal {T}.
Arguments rfun {T}.

Section Linear.
  Variable VI : values_impl.
  Hypothesis VL : values_laws VI.
  Variable PF : platform VI.
  Hypothesis PO : platform_ok PF.
  Variables U F I : Type.
  Notation V := (vt VI).
  Notation sdd := (sdd V).
  Notation hom := (hom V U F I).
  Variable US : user V U F I.
  Notation order := (order U).
  Notation fits := (fits VI PF).
  Notation oshape := (oshape U).
  Notation olevel := (olevel U).
  Notation typed := (typed VI PF U F I US).
  Notation hskip := (hskip VI U F I US).
  Notation hselector := (hselector VI U F I US).
  Notation evals := (evals VI PF U F I US).
  Notation ends := (ends VI PF U F I US).
  Notation direct := (direct VI PF U F I US).
  Notation residual := (residual VI).
  Notation arcwise := (arcwise VI).
  Notation asg := (asg (elt VI)).
  Notation rel := (asg -> asg -> Prop).
  Notation iter := (HomEval.iter).
  Notation sub := (sub VI).
  Hypothesis HO : honest VI PF U F I US.

  Definition harcs (x : sdd) : list (sdd * sdd) := match x with Hier _ arcs => arcs | _ => [] end.
  Definition farcs (x : sdd) : list (V * sdd) := match x with Flat _ arcs => arcs | _ => [] end.

  (** ** Local, at its target *)

  Lemma local_here_fwd o t n o' on h n' r x y : olevel o (LHier t n) o' -> o_nested o = Some on ->
    oshape o' r -> typed on h n' -> fits (SHier t n r) x -> evals o (HLocal t h) x y ->
    fits (SHier t n' r) y /\ (forall v s, In (v, s) (harcs x) -> exists w, evals on h v w) /\
    forall a q, contains y (ANest t a q) = true <->
      exists v w s, In (v, s) (harcs x) /\ evals on h v w /\ contains w a = true /\ contains s q = true.
  Proof.
    intros L M O T Fx E.
    assert (On : oshape on n).
    { destruct L as (_ & _ & on' & M' & _ & On). congruence. }
    assert (Oo : oshape o (SHier t n r)) by now apply (oshape_level _ _ (LHier t n) _ r L).
    assert (To : typed o (HLocal t h) (SHier t n' r)) by (eapply T_local_here; eauto).
    assert (Fy : fits (SHier t n' r) y) by (apply (evals_fits VI VL PF PO U F I US HO o (HLocal t h) (SHier t n r) _ x); auto).
    split; [auto|].
    destruct x as [| |v arcs|v arcs]; try (destruct Fx as [_ Fx]; now inversion Fx).
    { apply evals_zero in E. subst y. cbn [harcs]. split; [intros v s []|].
      intros a q. split; [discriminate|intros (v & w & s & [] & _)]. }
    destruct (fits_hier_inv VI PF _ _ _ _ _ Fx) as (-> & _ & D & G). cbn [harcs].
    apply (ev_direct VI PF U F I US o (HLocal t h) (SHier t n r)) in E; auto; try discriminate.
    2:{ intros _. cbn [Hom.hskip]. apply (var_neqb_here U _ _ _ L). }
    destruct E as (m & E). cbn [Hom.direct] in E. unfold with_nested in E. rewrite M in E.
    apply runs_bind_iff in E. destruct E as (vals & E1 & E2). apply runs_local_vals in E1.
    destruct E1 as (ws & E1 & Ev).
    assert (All : forall v s, In (v, s) arcs -> exists w, evals on h v w).
    { clear - E1. intros v s Hin. induction E1 as [|a w arcs ws A B IH]; [destruct Hin|].
      destruct Hin as [->|Hin]; eauto. }
    split; [exact All|].
    assert (Hvals : forall w s, In (w, s) vals <-> exists v, In (v, s) arcs /\ evals on h v w).
    { subst vals. clear - E1. intros w s. induction E1 as [|[v0 s0] w0 arcs ws A B IH]; cbn [combine map].
      - split; [intros []|intros (v & [] & _)].
      - cbn [In]. rewrite IH. cbn in A. split.
        + intros [X|(v & X & Y)]; [|exists v; auto]. injection X as <- <-. exists v0. auto.
        + intros (v & [X|X] & Y); [|right; eauto]. injection X as -> ->.
          left. now rewrite (evals_fun VI PF U F I US _ _ _ _ _ Y A). }
    assert (Fin : (forall p, contains y p = true <-> exists w s a q, In (w, s) vals /\ p = ANest t a q
                     /\ contains w a = true /\ contains s q = true) ->
              forall a q, contains y (ANest t a q) = true <->
                exists v w s, In (v, s) arcs /\ evals on h v w /\ contains w a = true /\ contains s q = true).
    { intros C a q. rewrite C. split.
      - intros (w & s & a' & q' & Hin & Ep & C1 & C2). injection Ep as <- <-. apply Hvals in Hin.
        destruct Hin as (v & Hin & Hw). exists v, w, s. auto.
      - intros (v & w & s & Hin & Hw & C1 & C2). exists w, s, a, q.
        split; [apply Hvals; eauto|auto]. }
    apply Fin. clear Fin.
    assert (Fw : forall w s, In (w, s) vals -> fits n' w /\ fits r s /\ s <> Zero).
    { intros w s Hin. apply Hvals in Hin. destruct Hin as (v & Hin & Hw).
      destruct (G v s Hin) as (_ & G2 & G3 & G4). split; [|auto].
      apply (evals_fits VI VL PF PO U F I US HO on h n n' v); auto. }
    destruct (hselector h) eqn:Sel; apply runs_lift in E2.
    - set (pairs := map (fun vs => (snd vs, fst vs))
                        (filter (fun vs => negb (is_zero VI (fst vs))) vals)) in *.
      assert (Hp : forall s w, In (s, w) pairs <-> In (w, s) vals /\ w <> Zero).
      { intros s w. unfold pairs. rewrite in_map_iff. split.
        - intros ([w0 s0] & X & Hin). injection X as -> ->. apply filter_In in Hin.
          destruct Hin as [Hin Z]. cbn in Z. split; [auto|]. intros ->. discriminate.
        - intros [Hin Z]. exists (w, s). split; [auto|]. apply filter_In. split; [auto|].
          cbn. apply negb_true_iff. now apply is_zero_false. }
      destruct (su_hier_ok VI VL PF PO t n' r pairs) as (z & Ez & Fz & C).
      + intros s w Hin. apply Hp in Hin. destruct Hin as [Hin Z]. destruct (Fw _ _ Hin) as (F1 & F2 & F3). auto.
      + intros s1 w1 s2 w2 I1 I2 Ne a M1 M2. apply Hp in I1. apply Hp in I2.
        destruct I1 as [I1 _], I2 as [I2 _]. apply Hvals in I1. apply Hvals in I2.
        destruct I1 as (v1 & I1 & V1), I2 as (v2 & I2 & V2).
        assert (S1 : sub w1 v1).
        { apply (evals_selector VI VL PF PO U F I US HO on h n n'); auto. now apply (G v1 s1). }
        assert (S2 : sub w2 v2).
        { apply (evals_selector VI VL PF PO U F I US HO on h n n'); auto. now apply (G v2 s2). }
        pose proof (adisjoint_unique VI _ _ D _ _ _ _ _ I1 I2 (S1 _ M1) (S2 _ M2)). congruence.
      + rewrite E2 in Ez. injection Ez as <-. intros p. rewrite C. split.
        * intros (s & w & a & q & Hin & X). apply Hp in Hin. exists w, s, a, q. split; [apply Hin|auto].
        * intros (w & s & a & q & Hin & -> & C1 & C2). exists s, w, a, q. split; [|auto].
          apply Hp. split; [auto|]. intros ->. discriminate.
    - destruct (sum_ok VI VL PF PO (SHier t n' r)
                  (map (fun vs => node_hier VI PF t (fst vs) (snd vs)) vals)) as (z & Ez & Fz & C).
      + intros z Hz. apply in_map_iff in Hz. destruct Hz as ([w s] & <- & Hin). cbn.
        destruct (Fw _ _ Hin) as (F1 & F2 & F3). now apply node_hier_fits.
      + rewrite E2 in Ez. injection Ez as <-. intros p. rewrite C, existsb_exists. split.
        * intros (z & Hz & Cz). apply in_map_iff in Hz. destruct Hz as ([w s] & <- & Hin). cbn in Cz.
          apply node_hier_contains in Cz; auto. destruct Cz as (a & q & -> & C1 & C2).
          exists w, s, a, q. auto.
        * intros (w & s & a & q & Hin & -> & C1 & C2). exists (node_hier VI PF t w s).
          split; [apply in_map_iff; now exists (w, s)|]. apply node_hier_contains; eauto.
  Qed.

  Lemma local_here_ex o t n o' on h n' r x : olevel o (LHier t n) o' -> o_nested o = Some on ->
    oshape o' r -> typed on h n' -> fits (SHier t n r) x ->
    (forall v s, In (v, s) (harcs x) -> exists w, evals on h v w) -> exists y, evals o (HLocal t h) x y.
  Proof.
    intros L M O T Fx All.
    assert (On : oshape on n).
    { destruct L as (_ & _ & on' & M' & _ & On). congruence. }
    assert (Oo : oshape o (SHier t n r)) by now apply (oshape_level _ _ (LHier t n) _ r L).
    destruct x as [| |v arcs|v arcs]; try (destruct Fx as [_ Fx]; now inversion Fx).
    { exists Zero. now apply evals_zero. }
    destruct (fits_hier_inv VI PF _ _ _ _ _ Fx) as (-> & _ & D & G). cbn [harcs] in All.
    assert (X : exists ws, Forall2 (fun a w => evals on h (fst a) w) arcs ws).
    { clear - All. induction arcs as [|[v s] arcs IH]; [exists []; constructor|].
      destruct (All v s (or_introl eq_refl)) as (w & Hw).
      destruct IH as (ws & Hws); [intros v' s' Hin; apply (All v' s'); now right|].
      exists (w :: ws). now constructor. }
    destruct X as (ws & Hws).
    set (vals := map (fun p : (sdd * sdd) * sdd => (snd p, snd (fst p))) (combine arcs ws)).
    assert (R : runs ends (local_vals VI U F I on h arcs) vals).
    { apply runs_local_vals. exists ws. auto. }
    assert (Hvals : forall w s, In (w, s) vals -> exists v, In (v, s) arcs /\ evals on h v w).
    { unfold vals. clear - Hws. intros w s. induction Hws as [|[v0 s0] w0 arcs ws A B IH]; cbn [combine map].
      - intros [].
      - cbn [In]. cbn in A. intros [X|X].
        + injection X as <- <-. exists v0. auto.
        + destruct (IH X) as (v & Y & Z). exists v. auto. }
    assert (Fw : forall w s, In (w, s) vals -> fits n' w /\ fits r s /\ s <> Zero).
    { intros w s Hin. apply Hvals in Hin. destruct Hin as (v & Hin & Hw).
      destruct (G v s Hin) as (_ & G2 & G3 & G4). split; [|auto].
      apply (evals_fits VI VL PF PO U F I US HO on h n n' v); auto. }
    assert (Dir : exists y, runs ends (direct 0 (HLocal t h) o (Hier t arcs)) y).
    { cbn [Hom.direct]. unfold with_nested. rewrite M.
      destruct (hselector h) eqn:Sel.
      - destruct (su_hier_ok VI VL PF PO t n' r (map (fun vs => (snd vs, fst vs))
                        (filter (fun vs => negb (is_zero VI (fst vs))) vals))) as (z & Ez & Fz & C).
        + intros s w Hin. apply in_map_iff in Hin. destruct Hin as ([w0 s0] & X & Hin). injection X as -> ->.
          apply filter_In in Hin. destruct Hin as [Hin Z]. cbn in Z.
          destruct (Fw _ _ Hin) as (F1 & F2 & F3). split; [auto|split; [auto|split; [auto|]]].
          intros ->. discriminate.
        + intros s1 w1 s2 w2 I1 I2 Ne a M1 M2. apply in_map_iff in I1. apply in_map_iff in I2.
          destruct I1 as ([? ?] & X1 & I1), I2 as ([? ?] & X2 & I2).
          injection X1 as -> ->. injection X2 as -> ->. apply filter_In in I1. apply filter_In in I2.
          destruct I1 as [I1 _], I2 as [I2 _]. apply Hvals in I1. apply Hvals in I2.
          destruct I1 as (v1 & I1 & V1), I2 as (v2 & I2 & V2).
          assert (S1 : sub w1 v1).
          { apply (evals_selector VI VL PF PO U F I US HO on h n n'); auto. now apply (G v1 s1). }
          assert (S2 : sub w2 v2).
          { apply (evals_selector VI VL PF PO U F I US HO on h n n'); auto. now apply (G v2 s2). }
          pose proof (adisjoint_unique VI _ _ D _ _ _ _ _ I1 I2 (S1 _ M1) (S2 _ M2)). congruence.
        + exists z. apply runs_bind_iff. exists vals. split; [exact R|]. now apply runs_lift.
      - destruct (sum_ok VI VL PF PO (SHier t n' r)
                  (map (fun vs => node_hier VI PF t (fst vs) (snd vs)) vals)) as (z & Ez & Fz & C).
        + intros z Hz. apply in_map_iff in Hz. destruct Hz as ([w s] & <- & Hin). cbn.
          destruct (Fw _ _ Hin) as (F1 & F2 & F3). now apply node_hier_fits.
        + exists z. apply runs_bind_iff. exists vals. split; [exact R|]. now apply runs_lift. }
    destruct Dir as (y & Hy). exists y.
    apply (ev_direct VI PF U F I US o (HLocal t h) (SHier t n r)); auto; try discriminate.
    - intros _. cbn [Hom.hskip]. apply (var_neqb_here U _ _ _ L).
    - exists 0. exact Hy.
  Qed.

  (** ** Function, at its target *)

  Lemma fun_here o t f r x y : oshape o (SFlat t r) -> fits (SFlat t r) x ->
    (evals o (HFun t f) x y <-> fits (SFlat t r) y /\ forall a q, contains y (AVal t a q) = true <->
      exists v s, In (v, s) (farcs x) /\ v_mem VI (f_apply US f v) a = true /\ contains s q = true).
  Proof.
    intros O Fx. destruct (oshape_flat_level _ _ _ _ O) as (o' & L).
    set (spec := fun y => fits (SFlat t r) y /\ forall a q, contains y (AVal t a q) = true <->
      exists v s, In (v, s) (farcs x) /\ v_mem VI (f_apply US f v) a = true /\ contains s q = true).
    assert (Uniq : forall y z, spec y -> spec z -> y = z).
    { intros y1 z [F1 C1] [F2 C2]. apply (fits_ext VI VL PF PO (SFlat t r)); auto. intros p.
      apply bool_ext. split; intros C.
      - destruct (contains_step VI PF (LFlat t) r _ _ F1 C) as ([a|n] & q & ->); cbn [acons lvar] in *.
        + apply C2. now apply C1.
        + exfalso. destruct y1 as [| |v arcs|v arcs]; try discriminate. destruct F1 as [_ F1]. inversion F1.
      - destruct (contains_step VI PF (LFlat t) r _ _ F2 C) as ([a|n] & q & ->); cbn [acons lvar] in *.
        + apply C1. now apply C2.
        + exfalso. destruct z as [| |v arcs|v arcs]; try discriminate. destruct F2 as [_ F2]. inversion F2. }
    assert (Ex : exists y, evals o (HFun t f) x y /\ spec y).
    { destruct x as [| |v arcs|v arcs]; try (destruct Fx as [_ Fx]; now inversion Fx).
      { exists Zero. split; [now apply evals_zero|]. split; [apply fits_zero|]. intros a q.
        split; [discriminate|intros (v & s & [] & _)]. }
      destruct (fits_flat_inv VI PF _ _ _ _ Fx) as (-> & _ & D & G).
      assert (Dir : exists y, runs ends (direct 0 (HFun t f) o (Flat t arcs)) y /\ fits (SFlat t r) y /\
                forall p, contains y p = true <-> exists v s a q, In (v, s) arcs /\ p = AVal t a q
                  /\ v_mem VI (f_apply US f v) a = true /\ contains s q = true).
      { cbn [Hom.direct]. unfold with_var. rewrite (proj1 L). cbn [lvar].
        destruct (f_sel US f || f_shift US f) eqn:E.
        - assert (Hg : forall v w, disjoint (v_mem VI) v w ->
                    disjoint (v_mem VI) (f_apply US f v) (f_apply US f w)).
          { intros v w Dvw. apply orb_true_iff in E. destruct E as [E|E].
            - intros a M1 M2. apply (Dvw a); now apply (ho_sel _ _ _ _ _ _ HO f).
            - now apply (ho_shift _ _ _ _ _ _ HO f). }
          destruct (fun_fast_ok VI VL PF PO t r (f_apply US f) arcs Fx Hg) as [Fy C].
          eexists. split; [apply runs_ret_iff; reflexivity|]. split; [exact Fy|exact C].
        - destruct (fun_slow_ok VI VL PF PO t r (f_apply US f) arcs Fx) as (z & Ez & Fz & C).
          exists z. split; [now apply runs_lift|auto]. }
      destruct Dir as (z & R & Fz & C). exists z. split.
      - apply (ev_direct VI PF U F I US o (HFun t f) (SFlat t r)); auto; try discriminate.
        + intros _. cbn [Hom.hskip]. apply (var_neqb_here U _ _ _ L).
        + exists 0. exact R.
      - split; [auto|]. intros a q. rewrite C. cbn [farcs]. split.
        + intros (v & s & a' & q' & Hin & X & Y). injection X as <- <-. eauto.
        + intros (v & s & Hin & X & Y). exists v, s, a, q. auto. }
    destruct Ex as (z & Ez & Sz). split.
    - intros E. now rewrite (evals_fun VI PF U F I US _ _ _ _ _ E Ez).
    - intros S. now rewrite (Uniq y z S Sz).
  Qed.

  (** ** Acting on assignments *)

  Definition acts (o : order) (h : hom) (R : rel) : Prop :=
    forall s x y, oshape o s -> fits s x -> evals o h x y ->
      forall q, contains y q = true <-> exists p, contains x p = true /\ R p q.

  Definition linear (o : order) (h : hom) : Prop := exists R, acts o h R.

  (** [filters o h P]: the result keeps the assignments satisfying [P]. *)
  Definition filters (o : order) (h : hom) (P : asg -> Prop) : Prop := acts o h (fun p q => p = q /\ P p).

  (** [R] below one step. *)
  Definition runder (x : N) (R : rel) : rel :=
    fun p q => exists k p' q', p = acons VI x k p' /\ q = acons VI x k q' /\ R p' q'.

  Lemma acts_skip o l o' h r' R : olevel o l o' -> hskip o h = true -> typed o' h r' ->
    acts o' h R -> acts o h (runder (lvar l) R).
  Proof.
    intros L Hs T A s x y O Fx E q.
    destruct (oshape_inv _ _ _ O) as [[X _]|(_ & l' & o'' & r & L' & -> & O')].
    { rewrite (olevel_nonempty _ _ _ _ L) in X. discriminate. }
    destruct (olevel_fun _ _ _ _ L' _ _ L) as [-> ->].
    apply (ev_skip VI VL PF PO U F I US HO o l o' h r r' x y L O' Fx Hs T) in E. destruct E as [Fy E].
    rewrite (contains_iff VI PF l r' y q Fy). split.
    - intros (k & q' & -> & C). apply (A r (residual x k) (residual y k)) in C; auto.
      + destruct C as (p' & C & Rp). exists (acons VI (lvar l) k p'). split.
        * now rewrite (residual_contains VI PF l r x k p' Fx).
        * exists k, p', q'. auto.
      + now apply (residual_fits VI PF l).
    - intros (p & C & k & p' & q' & -> & -> & Rp). exists k, q'. split; [auto|].
      apply (A r (residual x k) (residual y k)); auto.
      + now apply (residual_fits VI PF l).
      + exists p'. split; [|auto]. now rewrite <- (residual_contains VI PF l r x k p' Fx).
  Qed.

  Lemma acts_ext o h R R' : (forall p q, R p q <-> R' p q) -> acts o h R -> acts o h R'.
  Proof.
    intros H A s x y O Fx E q. rewrite (A s x y O Fx E q).
    split; intros (p & C & X); exists p; split; auto; now apply H.
  Qed.

  Theorem acts_id o : acts o HId eq.
  Proof.
    intros s x y O Fx E q. apply evals_id in E. subst y. split; [eauto|]. now intros (p & C & <-).
  Qed.

  Theorem acts_comp o f g s' R S : typed o (HComp f g) s' -> acts o f R -> acts o g S ->
    acts o (HComp f g) (fun p q => exists m, S p m /\ R m q).
  Proof.
    intros T A B s x y O Fx E q.
    apply (E_comp VI VL PF PO U F I US HO o s O f g s') in E; auto. destruct E as (z & E1 & E2).
    destruct (typed_comp_inv VI PF U F I US _ _ _ _ T) as (s0 & O0 & Tg & Tf).
    rewrite (oshape_fun _ _ _ O0 _ O) in *.
    assert (Fz : fits s z) by (apply (evals_fits VI VL PF PO U F I US HO o g s s x); auto).
    rewrite (A s z y O Fz E2 q). split.
    - intros (m & C & X). apply (B s x z O Fx E1) in C. destruct C as (p & C & Y). eauto.
    - intros (p & C & m & X & Y). exists m. split; [|auto]. apply (B s x z O Fx E1). eauto.
  Qed.

  Lemma evals_all_acts o hs x ys (RR : hom -> rel) s : evals_all VI PF U F I US o hs x ys ->
    oshape o s -> fits s x -> (forall h, In h hs -> acts o h (RR h)) ->
    forall q, (exists y, In y ys /\ contains y q = true) <->
      exists p h, contains x p = true /\ In h hs /\ RR h p q.
  Proof.
    intros H O Fx A q. induction H as [|h y hs ys E H IH].
    - split; [intros (y & [] & _)|intros (p & h & _ & [] & _)].
    - assert (A' : forall h, In h hs -> acts o h (RR h)) by (intros h' Hh; apply A; now right).
      specialize (IH A'). split.
      + intros (z & [<-|Hz] & C).
        * apply (A h (or_introl eq_refl) s x y O Fx E) in C. destruct C as (p & C & X).
          exists p, h. split; [auto|]. split; [now left|auto].
        * destruct (proj1 IH (ex_intro _ z (conj Hz C))) as (p & h' & X & Y & Z).
          exists p, h'. split; [auto|]. split; [now right|auto].
      + intros (p & h' & C & [<-|Hh] & X).
        * exists y. split; [now left|]. apply (A h (or_introl eq_refl) s x y O Fx E). eauto.
        * destruct (proj2 IH (ex_intro _ p (ex_intro _ h' (conj C (conj Hh X))))) as (z & Hz & Cz).
          exists z. split; [now right|auto].
  Qed.

  Theorem acts_sum o hs s' (RR : hom -> rel) : typed o (HSum hs) s' ->
    (forall h, In h hs -> acts o h (RR h)) ->
    acts o (HSum hs) (fun p q => exists h, In h hs /\ RR h p q).
  Proof.
    intros T A s x y O Fx E q.
    apply (E_sum VI VL PF PO U F I US HO o s O hs s') in E; auto. destruct E as (ys & E1 & E2).
    destruct (typed_sum_inv VI PF U F I US _ _ _ T) as [Ne Th].
    destruct (sum_ok VI VL PF PO s' ys) as (z & Ez & Fz & C).
    { apply (evals_all_fits VI VL PF PO U F I US HO o hs s s' x); auto. }
    rewrite E2 in Ez. injection Ez as <-. rewrite C, existsb_exists.
    rewrite (evals_all_acts o hs x ys RR s E1 O Fx A q).
    split; [intros (p & h & X & Y & Z); eauto|intros (p & X & h & Y & Z); eauto].
  Qed.

  Theorem acts_const o c : acts o (HConst c) (fun _ q => contains c q = true).
  Proof.
    intros s x y O Fx E q.
    destruct (is_zero VI x) eqn:Z.
    { apply is_zero_iff in Z. subst x. apply evals_zero in E. subst y. split; [discriminate|].
      intros (p & X & _). discriminate. }
    assert (Nz : x <> Zero) by (intros ->; discriminate).
    apply (ev_direct VI PF U F I US o (HConst c) s) in E; auto; try discriminate.
    destruct E as (n & E). cbn [Hom.direct] in E. apply runs_ret_iff in E. subst y.
    destruct (fits_nonempty VI VL PF s x Fx Nz) as (p & Cp). split; [eauto|]. now intros (_ & _ & X).
  Qed.

  Theorem acts_cons_flat o o1 v n s s1 x1 o2 R : oshape o s -> o_variable o1 = Some x1 ->
    o_next o1 = Some o2 -> oshape o2 s -> typed o2 n s1 -> acts o2 n R ->
    acts o (HConsF o1 v n) (fun p q => exists a q', q = AVal x1 a q' /\ v_mem VI v a = true /\ R p q').
  Proof.
    intros O0 V1 N1 O2 T A s' x y O Fx E q. rewrite (oshape_fun _ _ _ O _ O0) in *. clear O.
    destruct (is_zero VI x) eqn:Z.
    { apply is_zero_iff in Z. subst x. apply evals_zero in E. subst y. split; [discriminate|].
      intros (p & X & _). discriminate. }
    apply (ev_direct VI PF U F I US o (HConsF o1 v n) s) in E; auto; try discriminate; [|intros ->; discriminate].
    destruct E as (m & E). cbn [Hom.direct] in E. unfold with_var, with_next in E. rewrite V1, N1 in E.
    apply runs_bind_iff in E. destruct E as (z & E1 & E2). apply runs_hcall in E1.
    apply runs_ret_iff in E2. subst y. rewrite node_flat_contains; auto. split.
    - intros (a & q' & -> & M & C). apply (A s x z O2 Fx E1) in C. destruct C as (p & C & X).
      exists p. split; [auto|]. eauto.
    - intros (p & C & a & q' & -> & M & X). exists a, q'. split; [auto|split; [auto|]].
      apply (A s x z O2 Fx E1). eauto.
  Qed.

  Theorem acts_cons_hier o o1 v n s s1 x1 o2 R : oshape o s -> o_variable o1 = Some x1 ->
    o_next o1 = Some o2 -> oshape o2 s -> typed o2 n s1 -> acts o2 n R ->
    acts o (HConsH o1 v n) (fun p q => exists a q', q = ANest x1 a q' /\ contains v a = true /\ R p q').
  Proof.
    intros O0 V1 N1 O2 T A s' x y O Fx E q. rewrite (oshape_fun _ _ _ O _ O0) in *. clear O.
    destruct (is_zero VI x) eqn:Z.
    { apply is_zero_iff in Z. subst x. apply evals_zero in E. subst y. split; [discriminate|].
      intros (p & X & _). discriminate. }
    apply (ev_direct VI PF U F I US o (HConsH o1 v n) s) in E; auto; try discriminate; [|intros ->; discriminate].
    destruct E as (m & E). cbn [Hom.direct] in E. unfold with_var, with_next in E. rewrite V1, N1 in E.
    apply runs_bind_iff in E. destruct E as (z & E1 & E2). apply runs_hcall in E1.
    apply runs_ret_iff in E2. subst y. rewrite node_hier_contains; auto. split.
    - intros (a & q' & -> & M & C). apply (A s x z O2 Fx E1) in C. destruct C as (p & C & X).
      exists p. split; [auto|]. eauto.
    - intros (p & C & a & q' & -> & M & X). exists a, q'. split; [auto|split; [auto|]].
      apply (A s x z O2 Fx E1). eauto.
  Qed.

  Theorem acts_ite o p t e s' P Rt Re : typed o (HIte p t e) s' -> filters o p P -> acts o t Rt ->
    acts o e Re -> acts o (HIte p t e) (fun a b => (P a /\ Rt a b) \/ (~ P a /\ Re a b)).
  Proof.
    intros T Fp At Ae s x y O Fx E q.
    apply (E_ite VI VL PF PO U F I US HO o s O p t e s') in E; auto.
    destruct E as (c & a & d & b & E1 & E2 & E3 & E4 & E5).
    destruct (typed_ite_inv VI PF U F I US _ _ _ _ _ T) as (s0 & O0 & Sel & Tp & Tt & Te).
    rewrite (oshape_fun _ _ _ O0 _ O) in *. clear O0.
    assert (Fc : fits s c) by (apply (evals_fits VI VL PF PO U F I US HO o p s s x); auto).
    destruct (minus_ok VI VL PF PO s x c Fx Fc) as (d' & Ed & Fd & Cd). rewrite E3 in Ed. injection Ed as <-.
    destruct (sum_ok VI VL PF PO s' [a; b]) as (y' & Ey & Fy & Cy).
    { intros w [<-|[<-|[]]].
      - apply (evals_fits VI VL PF PO U F I US HO o t s s' c); auto.
      - apply (evals_fits VI VL PF PO U F I US HO o e s s' d); auto. }
    rewrite E5 in Ey. injection Ey as <-. rewrite Cy. cbn [existsb]. rewrite orb_false_r, orb_true_iff.
    pose proof (Fp s x c O Fx E1) as Cc.
    rewrite (At s c a O Fc E2 q), (Ae s d b O Fd E4 q). split.
    - intros [(m & C & X)|(m & C & X)].
      + apply Cc in C. destruct C as (m' & C & -> & Hp). exists m. split; [auto|]. left. auto.
      + rewrite Cd in C. apply andb_true_iff in C. destruct C as [C1 C2].
        exists m. split; [auto|]. right. split; [|auto]. intros Hp.
        assert (contains c m = true) by (apply Cc; eauto). rewrite H in C2. discriminate.
    - intros (m & C & [[Hp X]|[Hp X]]).
      + left. exists m. split; [|auto]. apply Cc. eauto.
      + right. exists m. split; [|auto]. rewrite Cd, C. cbn. apply negb_true_iff.
        apply not_true_is_false. intros X'. apply Cc in X'. destruct X' as (m' & _ & -> & Hp'). auto.
  Qed.

  Theorem acts_inter_filters o hs s' (PP : hom -> asg -> Prop) : typed o (HInter hs) s' ->
    (forall h, In h hs -> filters o h (PP h)) ->
    (forall s x, oshape o s -> fits s x -> forall h, In h hs -> exists y, evals o h x y) ->
    filters o (HInter hs) (fun p => forall h, In h hs -> PP h p).
  Proof.
    intros T A Tot s x y O Fx E q.
    destruct (typed_inter_inv VI PF U F I US _ _ _ T) as [Ne Th].
    destruct (evals_all_ex VI PF U F I US o hs x (Tot s x O Fx)) as (ys & Hys).
    assert (Ney := evals_all_ne VI PF U F I US _ _ _ _ Hys Ne).
    destruct (inter_ok VI VL PF PO s' ys Ney) as (z & Ez & Fz & C).
    { apply (evals_all_fits VI VL PF PO U F I US HO o hs s s' x); auto. }
    assert (E' : evals o (HInter hs) x z).
    { apply (E_inter VI VL PF PO U F I US HO o s O hs s'); auto. exists ys. auto. }
    rewrite (evals_fun VI PF U F I US _ _ _ _ _ E E'). clear E E' y. rewrite C, forallb_forall.
    assert (X : (forall y, In y ys -> contains y q = true) <->
              (forall h, In h hs -> contains x q = true /\ PP h q)).
    { clear - Hys A O Fx. induction Hys as [|h y hs ys E H IH].
      - split; [intros _ h []|intros _ y []].
      - assert (A' : forall h, In h hs -> filters o h (PP h)) by (intros h' Hh; apply A; now right).
        specialize (IH A').
        pose proof (A h (or_introl eq_refl) s x y O Fx E q) as Aq. split.
        + intros X h' [<-|Hh].
          * destruct (proj1 Aq (X y (or_introl eq_refl))) as (p & C & -> & Hp). auto.
          * apply IH; auto. intros z Hz. apply X. now right.
        + intros X z [<-|Hz].
          * apply Aq. exists q. destruct (X h (or_introl eq_refl)). auto.
          * apply IH; auto. intros h' Hh. apply X. now right. }
    rewrite X. split.
    - intros Y. exists q. split; [|split; [auto|intros h Hh; now apply Y]].
      destruct hs as [|h hs]; [congruence|]. now apply (Y h (or_introl eq_refl)).
    - intros (p & C' & -> & Hp) h Hh. auto.
  Qed.

  (** The image of a fixpoint whose body contains the identity. *)
  Lemma iter_acts o h s R : typed o h s -> oshape o s -> acts o h R -> forall n x y, fits s x ->
    iter (evals o h) n x y -> forall q, contains y q = true -> exists p, contains x p = true /\ clos_refl_trans _ R p q.
  Proof.
    intros T O A. induction n as [|n IH]; intros x y Fx H q C; cbn [HomEval.iter] in H.
    - subst y. exists q. split; [auto|apply rt_refl].
    - destruct H as (z & H1 & H2).
      assert (Fz : fits s z) by (apply (evals_fits VI VL PF PO U F I US HO o h s s x); auto).
      destruct (IH z y Fz H2 q C) as (m & Cm & Rm). apply (A s x z O Fx H1) in Cm.
      destruct Cm as (p & Cp & Rp). exists p. split; [auto|].
      eapply rt_trans; [apply rt_step; exact Rp|exact Rm].
  Qed.

  Theorem acts_fix o h s R : typed o (HFix h) s -> acts o h R -> (forall p, R p p) ->
    acts o (HFix h) (clos_refl_trans _ R).
  Proof.
    intros T A Rf s' x y O Fx E q.
    apply (E_fix VI VL PF PO U F I US HO o s' O h s) in E; auto.
    destruct (typed_fix_inv VI PF U F I US _ _ _ T) as [O0 Th]. rewrite (oshape_fun _ _ _ O0 _ O) in *. clear O0.
    destruct E as (n & E1 & E2).
    assert (Fy := iter_fits VI VL PF PO U F I US HO o h s' Th O n x y Fx E1).
    split.
    - apply (iter_acts o h s' R Th O A n x y Fx E1).
    - assert (In1 : sub x y).
      { clear E2 Fy. revert x Fx E1. induction n as [|n IH]; intros x Fx E1 p C; cbn [HomEval.iter] in E1.
        - now subst y.
        - destruct E1 as (z & H1 & H2).
          assert (Fz : fits s' z) by (apply (evals_fits VI VL PF PO U F I US HO o h s' s' x); auto).
          apply (IH z Fz H2). apply (A s' x z O Fx H1). eauto. }
      intros (p & C & Rp). apply In1 in C. clear In1 E1 Fx x. apply clos_rt_rt1n in Rp.
      induction Rp as [|p m q Rp Rm IH]; [auto|]. apply IH. apply (A s' y y O Fy E2). eauto.
  Qed.

  (** ** Locals and functions, wherever their target is *)

  (** The order whose head is the variable [t]. *)
  Inductive target : order -> N -> order -> Prop :=
  | tg_here o x : o_variable o = Some x -> target o x o
  | tg_next o l o' t o1 : olevel o l o' -> lvar l <> t -> target o' t o1 -> target o t o1.

  Lemma target_here o l o' o1 : olevel o l o' -> target o (lvar l) o1 -> o1 = o.
  Proof.
    intros L H. inversion H as [|? l' o'' ? ? L' N' H']; subst; auto.
    destruct (olevel_fun _ _ _ _ L _ _ L') as [-> _]. congruence.
  Qed.

  Lemma target_down o l o' t o1 : olevel o l o' -> lvar l <> t -> (target o t o1 <-> target o' t o1).
  Proof.
    intros L N. split.
    - intros H. inversion H as [? ? A|? l' o'' ? ? L' N' H']; subst.
      + destruct L as [A' _]. congruence.
      + now destruct (olevel_fun _ _ _ _ L _ _ L') as [_ ->].
    - intros H. now apply (tg_next o l o' t o1).
  Qed.

  Lemma rlocal_next (l : level) t R p q : lvar l <> t ->
    (runder (lvar l) (rlocal t R) p q <-> rlocal t R p q /\ exists k q', q = acons VI (lvar l) k q').
  Proof.
    intros N. split.
    - intros (k & p' & q' & -> & -> & H). split; [|eauto]. destruct k; cbn; now constructor.
    - intros (H & k & q' & Eq). destruct H as [a b c Hr|x a c c' Hx Hr|x a c c' Hx Hr].
      + destruct k; cbn in *; congruence.
      + destruct k as [a'|n]; cbn in *; [|discriminate]. injection Eq as -> -> ->.
        exists (KVal VI a'), c, q'. auto.
      + destruct k as [a'|n]; cbn in *; [discriminate|]. injection Eq as -> -> ->.
        exists (KNest VI n), c, q'. auto.
  Qed.

  Lemma acts_under o l o' h R R' : olevel o l o' -> acts o h R' ->
    (forall p q, R' p q <-> R p q /\ exists k q', q = acons VI (lvar l) k q') ->
    (forall s x y, oshape o s -> fits s x -> evals o h x y -> forall p q, contains x p = true -> R p q ->
       exists k q', q = acons VI (lvar l) k q') -> acts o h R.
  Proof.
    intros L A H K s x y O Fx E q. rewrite (A s x y O Fx E q). split.
    - intros (p & C & X). apply H in X. exists p. split; [auto|apply X].
    - intros (p & C & X). exists p. split; [auto|]. apply H. split; [auto|].
      apply (K s x y O Fx E p q C X).
  Qed.

  Lemma typed_local_target o t h s' : typed o (HLocal t h) s' -> exists o1 on n', target o t o1 /\
    o_nested o1 = Some on /\ typed on h n'.
  Proof.
    remember (HLocal t h) as k eqn:Ek. induction 1; try discriminate; injection Ek as -> ->.
    - exists o, on, n'. split; [|auto]. constructor. apply H.
    - destruct (IHtyped eq_refl) as (o1 & on & n' & A & B & C). exists o1, on, n'. split; [|auto].
      now apply (tg_next o l o').
  Qed.

  Theorem acts_local o t h s' o1 on R : typed o (HLocal t h) s' -> target o t o1 ->
    o_nested o1 = Some on -> acts on h R -> acts o (HLocal t h) (rlocal t R).
  Proof.
    intros T. remember (HLocal t h) as k eqn:Ek. revert o1.
    induction T as
      [o s O|o hl r s s' O H1 IH1 H2 IH2|o s o1 x o'' v n r O A1 A2 O' T IH
      |o s o1 x o'' v nv n r O A1 A2 O' A3 T IH|o s x s' O Fx|o h1 s O T IH|o t1 f E|o t1 f r O
      |o k1 o1 t1 f s' L N T IH|o p t1 e s s' O Sel T1 IH1 T2 IH2 T3 IH3|o i s' E Fx
      |o k1 o1 i s' L Sk T IH|o x o1 i s' L Sk T IH|o x n o1 i s' L Sk T IH|o hs s' Ne T IH
      |o t1 n o0 on0 h1 n' r L M O T IH|o k1 o0 t1 h1 s' L N T IH
      |o k1 o1 s f g q L O T1 IH1 T2 IH2 T3 IH3|o k1 o1 x f g q s' L N T IH
      |o k1 o1 s' f g q L Ne T IH|o k1 o1 x f g q s' L N T IH
      |o k1 o1 s' f g q L Ne T IH|o k1 o1 x f g q s' L N T IH|o hs s' Ne T IH];
      try discriminate Ek; injection Ek as -> ->; intros o1 Tg M1 A.
    - apply (target_here o (LHier t n) o0) in Tg; auto. subst o1. rewrite M in M1. injection M1 as ->.
      intros s x y O1 Fx E q.
      assert (Es : s = SHier t n r).
      { apply (oshape_fun _ _ _ O1). now apply (oshape_level _ _ (LHier t n) _ r L). }
      subst s.
      destruct (local_here_fwd o t n o0 on h n' r x y L M O T Fx E) as (Fy & All & C).
      assert (On : oshape on n).
      { destruct L as (_ & _ & on' & M' & _ & On). congruence. }
      assert (Fv : forall v s, In (v, s) (harcs x) -> fits n v).
      { intros v s Hin. destruct x as [| |v0 arcs|v0 arcs]; cbn [harcs] in Hin; [destruct Hin..|].
        destruct (fits_hier_inv VI PF _ _ _ _ _ Fx) as (_ & _ & _ & G). now apply (G v s). }
      assert (Cx : forall b q, contains x (ANest t b q) = true <->
                exists v s, In (v, s) (harcs x) /\ contains v b = true /\ contains s q = true).
      { intros b q'. destruct x as [| |v0 arcs|v0 arcs]; try (destruct Fx as [_ Fx]; now inversion Fx).
        - cbn [harcs]. split; [discriminate|intros (v & s & [] & _)].
        - destruct (fits_hier_inv VI PF _ _ _ _ _ Fx) as (-> & _).
          rewrite contains_hier, N.eqb_refl. cbn [andb harcs]. apply acontains_spec. }
      split.
      + intros Cq. destruct (contains_step VI PF (LHier t n') r _ _ Fy Cq) as ([a|a] & q' & ->); cbn [acons lvar] in *.
        { exfalso. destruct y as [| |v arcs|v arcs]; try discriminate. destruct Fy as [_ Fy]. inversion Fy. }
        apply C in Cq. destruct Cq as (v & w & s & Hin & Ew & C1 & C2).
        apply (A n v w On (Fv v s Hin) Ew) in C1. destruct C1 as (b & C1 & X).
        exists (ANest t b q'). split; [apply Cx; eauto|now constructor].
      + intros (p & Cp & X). inversion X as [a b q' Hr|x0 a q' q'' Hx Hr|x0 a q' q'' Hx Hr]; subst.
        * apply Cx in Cp. destruct Cp as (v & s & Hin & C1 & C2). destruct (All v s Hin) as (w & Ew).
          apply C. exists v, w, s. split; [auto|split; [auto|split; [|auto]]].
          apply (A n v w On (Fv v s Hin) Ew). eauto.
        * exfalso. destruct (contains_step VI PF (LHier t n) r _ _ Fx Cp) as (k & q0 & E0).
          destruct k; cbn in E0; congruence.
        * exfalso. destruct (contains_step VI PF (LHier t n) r _ _ Fx Cp) as (k & q0 & E0).
          destruct k; cbn in E0; congruence.
    - apply (target_down o k1 o0 t o1 L N) in Tg.
      assert (Hs : hskip o (HLocal t h) = true) by (cbn [Hom.hskip]; now apply (var_neqb_level U o k1 o0 t L)).
      pose proof (acts_skip o k1 o0 _ s' _ L Hs T (IH eq_refl o1 Tg M1 A)) as A'.
      apply (acts_under o k1 o0 _ _ _ L A').
      { intros p q. now apply rlocal_next. }
      intros s x y O1 Fx E p q C X.
      destruct (oshape_inv _ _ _ O1) as [[X1 _]|(_ & l' & o'' & r & L' & -> & O')].
      { rewrite (olevel_nonempty _ _ _ _ L) in X1. discriminate. }
      destruct (olevel_fun _ _ _ _ L' _ _ L) as [-> ->].
      destruct (contains_step VI PF k1 r _ _ Fx C) as (k & p' & ->).
      inversion X as [a b q' Hr E1|x0 a q' q'' Hx Hr E1|x0 a q' q'' Hx Hr E1]; subst.
      + destruct k; cbn in E1; congruence.
      + exists k, q''. destruct k; cbn in *; congruence.
      + exists k, q''. destruct k; cbn in *; congruence.
  Qed.

  (** A function of values applied pointwise. *)
  Definition pointwise (f : F) (phi : elt VI -> elt VI -> Prop) : Prop :=
    forall v a, v_mem VI (f_apply US f v) a = true <-> exists b, v_mem VI v b = true /\ phi b a.

  Lemma rfun_next (l : level) t phi p q : lvar l <> t ->
    (runder (lvar l) (rfun t phi) p q <-> rfun t phi p q /\ exists k q', q = acons VI (lvar l) k q').
  Proof.
    intros N. split.
    - intros (k & p' & q' & -> & -> & H). split; [|eauto]. destruct k; cbn; now constructor.
    - intros (H & k & q' & Eq). destruct H as [|a b c Hr|x a c c' Hx Hr|x a c c' Hx Hr].
      + destruct k; cbn in *; congruence.
      + destruct k; cbn in *; congruence.
      + destruct k as [a'|n]; cbn in *; [|discriminate]. injection Eq as -> -> ->.
        exists (KVal VI a'), c, q'. auto.
      + destruct k as [a'|n]; cbn in *; [discriminate|]. injection Eq as -> -> ->.
        exists (KNest VI n), c, q'. auto.
  Qed.

  Theorem acts_fun o t f s' phi : typed o (HFun t f) s' -> pointwise f phi ->
    acts o (HFun t f) (rfun t phi).
  Proof.
    intros T Pw. remember (HFun t f) as k eqn:Ek.
    induction T as
      [o s O|o hl r s s' O H1 IH1 H2 IH2|o s o1 x o'' v n r O A1 A2 O' T IH
      |o s o1 x o'' v nv n r O A1 A2 O' A3 T IH|o s x s' O Fx|o h1 s O T IH|o t1 f1 E|o t1 f1 r O
      |o k1 o1 t1 f1 s' L N T IH|o p t1 e s s' O Sel T1 IH1 T2 IH2 T3 IH3|o i s' E Fx
      |o k1 o1 i s' L Sk T IH|o x o1 i s' L Sk T IH|o x n o1 i s' L Sk T IH|o hs s' Ne T IH
      |o t1 n o0 on0 h1 n' r L M O T IH|o k1 o0 t1 h1 s' L N T IH
      |o k1 o1 s f1 g q L O T1 IH1 T2 IH2 T3 IH3|o k1 o1 x f1 g q s' L N T IH
      |o k1 o1 s' f1 g q L Ne T IH|o k1 o1 x f1 g q s' L N T IH
      |o k1 o1 s' f1 g q L Ne T IH|o k1 o1 x f1 g q s' L N T IH|o hs s' Ne T IH];
      try discriminate Ek; injection Ek as -> ->.
    - intros s x y O Fx E1 q.
      destruct (oshape_inv _ _ _ O) as [[_ ->]|[X _]]; [|congruence].
      destruct x as [| |v arcs|v arcs]; [| |destruct Fx as [_ Fx]; inversion Fx..].
      { apply evals_zero in E1. subst y. split; [discriminate|intros (p & X & _); discriminate]. }
      apply (ev_direct VI PF U F I US o (HFun t f) SEnd) in E1; auto; try discriminate; [|congruence].
      destruct E1 as (n & E1). cbn [Hom.direct] in E1. apply runs_ret_iff in E1. subst y.
      split.
      + intros C. exists q. split; [auto|]. destruct q; cbn in C; try discriminate. constructor.
      + intros (p & C & X). destruct p; cbn in C; try discriminate. inversion X. reflexivity.
    - intros s x y O1 Fx E q. rewrite (oshape_fun _ _ _ O1 _ O) in *. clear O1.
      apply (fun_here o t f r x y O Fx) in E. destruct E as [Fy C].
      assert (Cx : forall b q, contains x (AVal t b q) = true <->
                exists v s, In (v, s) (farcs x) /\ v_mem VI v b = true /\ contains s q = true).
      { intros b q'. destruct x as [| |v0 arcs|v0 arcs]; try (destruct Fx as [_ Fx]; now inversion Fx).
        - cbn [farcs]. split; [discriminate|intros (v & s0 & [] & _)].
        - destruct (fits_flat_inv VI PF _ _ _ _ Fx) as (-> & _).
          rewrite contains_flat, N.eqb_refl. cbn [andb farcs]. apply acontains_spec. }
      split.
      + intros Cq. destruct (contains_step VI PF (LFlat t) r _ _ Fy Cq) as ([a|a] & q' & ->); cbn [acons lvar] in *.
        2:{ exfalso. destruct y as [| |v arcs|v arcs]; try discriminate. destruct Fy as [_ Fy]. inversion Fy. }
        apply C in Cq. destruct Cq as (v & s0 & Hin & M & C2). apply Pw in M. destruct M as (b & M & X).
        exists (AVal t b q'). split; [apply Cx; eauto|now constructor].
      + intros (p & Cp & X). inversion X as [E0|a b q' Hr|x0 a q' q'' Hx Hr|x0 a q' q'' Hx Hr]; subst.
        * exfalso. destruct (contains_step VI PF (LFlat t) r _ _ Fx Cp) as (k & q0 & E0).
          destruct k; cbn in E0; congruence.
        * apply Cx in Cp. destruct Cp as (v & s0 & Hin & C1 & C2).
          apply C. exists v, s0. split; [auto|split; [|auto]]. apply Pw. eauto.
        * exfalso. destruct (contains_step VI PF (LFlat t) r _ _ Fx Cp) as (k & q0 & E0).
          destruct k; cbn in E0; congruence.
        * exfalso. destruct (contains_step VI PF (LFlat t) r _ _ Fx Cp) as (k & q0 & E0).
          destruct k; cbn in E0; congruence.
    - assert (Hs : hskip o (HFun t f) = true) by (cbn [Hom.hskip]; now apply (var_neqb_level U o k1 o1 t L)).
      pose proof (acts_skip o k1 o1 _ s' _ L Hs T (IH eq_refl)) as A'.
      apply (acts_under o k1 o1 _ _ _ L A').
      { intros p q. now apply rfun_next. }
      intros s x y O1 Fx E p q C X.
      destruct (oshape_inv _ _ _ O1) as [[X1 _]|(_ & l' & o'' & r & L' & -> & O')].
      { rewrite (olevel_nonempty _ _ _ _ L) in X1. discriminate. }
      destruct (olevel_fun _ _ _ _ L' _ _ L) as [-> ->].
      destruct (contains_step VI PF k1 r _ _ Fx C) as (k & p' & ->).
      inversion X as [E0|a b q' Hr E1|x0 a q' q'' Hx Hr E1|x0 a q' q'' Hx Hr E1]; subst.
      + destruct k; cbn in E0; congruence.
      + destruct k; cbn in E1; congruence.
      + exists k, q''. destruct k; cbn in *; congruence.
      + exists k, q''. destruct k; cbn in *; congruence.
  Qed.
End Linear.
