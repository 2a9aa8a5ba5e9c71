(** * The constructors of compositions, fixpoints and conditionals *)

From Coq Require Import List Bool NArith Arith Lia Permutation Sorted Relations.
From Verif Require Import Base SortedSets Values Sdd SddFacts Orders OrdersProofs OrdersSdd DDModel.
From Verif Require Import DDGeneric DDProofs DDTheorems Hom HomFacts HomEval HomTyped HomEqns HomLinear.
From Verif Require Import HomSum HomHalts.
Import ListNotations.

Section HomComp.
  Variable VI : values_impl.
  Hypothesis VL : values_laws VI.
  Variable PF : platform VI.
  Hypothesis PO : platform_ok PF.
  Variables U F I : Type.
  Notation V := (vt VI).
  Notation sdd := (sdd V).
  Notation hom := (hom V U F I).
  Variable HP : hplatform V U F I.
  Hypothesis HPO : hplatform_ok HP.
  Variable US : user V U F I.
  Notation order := (order U).
  Notation fits := (fits VI PF).
  Notation oshape := (oshape U).
  Notation olevel := (olevel U).
  Notation typed := (typed VI PF U F I US).
  Notation hskip := (hskip VI U F I US).
  Notation evals := (evals VI PF U F I US).
  Notation residual := (residual VI).
  Notation asg := (asg (elt VI)).
  Notation rel := (asg -> asg -> Prop).
  Notation is_id := (is_id VI U F I).
  Notation local := (local VI U F I).
  Notation hsize := (hsize VI U F I).
  Notation comp_fuel := (comp_fuel VI U F I).
  Notation composition := (composition VI U F I).
  Notation target := (target U).
  Notation harcs := (harcs VI).
  Notation acts := (acts VI PF U F I US).
  Notation local_at := (local_at U).
  Notation same := (same VI PF U F I US).
  Notation sub := (sub VI).
  Hypothesis HO : honest VI PF U F I US.

  Lemma same_evals o s h k s' x y : same o [h] [k] -> oshape o s -> typed o h s' -> typed o k s' -> fits s x ->
    evals o h x y -> evals o k x y.
  Proof.
    intros S O Th Tk Fx E. destruct (S s x O Fx) as [A B].
    assert (E1 : all_ev VI PF U F I US o [h] x) by (intros ? [<-|[]]; eauto).
    destruct (proj1 A E1 k (or_introl eq_refl)) as (z & Ez).
    assert (y = z); [|subst z; exact Ez].
    apply (fits_ext VI VL PF PO s').
    - apply (evals_fits VI VL PF PO U F I US HO o h s s' x); auto.
    - apply (evals_fits VI VL PF PO U F I US HO o k s s' x); auto.
    - intros q. apply bool_ext. split; intros C.
      + assert (X : un VI PF U F I US o [h] x q) by (exists h, y; split; [now left|auto]).
        apply (B E1) in X. destruct X as (k' & w & [<-|[]] & Ew & Cw).
        now rewrite (evals_fun VI PF U F I US _ _ _ _ _ Ez Ew).
      + assert (X : un VI PF U F I US o [k] x q) by (exists k, z; split; [now left|auto]).
        apply (B E1) in X. destruct X as (k' & w & [<-|[]] & Ew & Cw).
        now rewrite (evals_fun VI PF U F I US _ _ _ _ _ E Ew).
  Qed.

  Lemma local_evals o s t h s' x y : oshape o s -> typed o (HLocal t h) s' -> fits s x ->
    (evals o (local t h) x y <-> evals o (HLocal t h) x y).
  Proof.
    intros O T Fx.
    assert (S := same_mk_local VI VL PF PO U F I US HO o t h s' T).
    assert (T' := typed_mk_local VI PF U F I US o t h s' T).
    split; [apply (same_evals o s _ _ s'); auto|].
    apply (same_evals o s _ _ s'); auto. now apply same_sym.
  Qed.

  (** ** Homomorphisms whose local parts are linear *)

  (** [clin o h R]: [h] acts as [R], and so do, on the nested orders, the local parts that the
      constructor of compositions may merge. *)
  Inductive clin : order -> hom -> rel -> Prop :=
  | cl_other o h R : (match h with HComp _ _ | HLocal _ _ => False | _ => True end) -> acts o h R -> clin o h R
  | cl_comp o f g R S : clin o f R -> clin o g S -> clin o (HComp f g) (fun p q => exists m, S p m /\ R m q)
  | cl_local o t h o1 on R : target o t o1 -> o_nested o1 = Some on -> clin on h R ->
      clin o (HLocal t h) (rlocal t R).

  Lemma clin_comp_inv o f g R : clin o (HComp f g) R -> exists R1 R2, clin o f R1 /\ clin o g R2 /\
    R = (fun p q => exists m, R2 p m /\ R1 m q).
  Proof. inversion 1; subst; [contradiction|eauto]. Qed.

  Lemma clin_local_inv o t h R : clin o (HLocal t h) R -> exists o1 on R1, target o t o1 /\
    o_nested o1 = Some on /\ clin on h R1 /\ R = rlocal t R1.
  Proof. inversion 1; subst; [contradiction|eauto 8]. Qed.

  Theorem clin_acts o h R : clin o h R -> forall s', typed o h s' -> acts o h R.
  Proof.
    induction 1 as [o h R _ A|o f g R S Hf IHf Hg IHg|o t h o1 on R T M H IH]; intros s' Ty; [auto| |].
    - destruct (typed_comp_inv VI PF U F I US _ _ _ _ Ty) as (s0 & O0 & Tg & Tf).
      apply (acts_comp VI VL PF PO U F I US HO o f g s'); eauto.
    - pose proof Ty as Ty'. apply typed_local_target in Ty'. destruct Ty' as (o2 & on2 & n2 & T2 & M2 & Tn).
      assert (E : o2 = o1).
      { clear - T T2. induction T as [o x A|o l o' t o1 L N T IH].
        - inversion T2 as [? ? A2|? ? ? ? ? L2 N2 K2]; subst; [auto|]. destruct L2 as [L2 _]. congruence.
        - apply IH. now apply (target_down U o l o'). }
      subst o2. rewrite M in M2. injection M2 as <-.
      apply (acts_local VI VL PF PO U F I US HO o t h s' o1 on R); eauto.
  Qed.

  (** ** Typing of the result *)

  Lemma local_at_here_shape o t s on n : local_at o t s on n -> forall n', exists s', local_at o t s' on n'.
  Proof.
    induction 1 as [o t n1 o' on n r L M O|o l o' t s on n L N H IH]; intros n'.
    - exists (SHier t n' r). econstructor; eauto.
    - destruct (IH n') as (s' & H'). exists (under l s'). econstructor; eauto.
  Qed.

  Lemma local_at_order o t s on n s2 on2 n2 : local_at o t s on n -> local_at o t s2 on2 n2 -> on2 = on.
  Proof.
    intros H. revert s2. induction H as [o t n1 o' on n r L M O|o l o' t s on n L N H IH]; intros s2 K.
    - inversion K as [? ? ? ? ? ? ? L2 M2 O2|? l2 o2 ? ? ? ? L2 N2 K2]; subst.
      + congruence.
      + destruct (olevel_fun _ _ _ _ L _ _ L2) as [<- _]. now cbn in N2.
    - inversion K as [? ? ? ? ? ? ? L2 M2 O2|? l2 o2 ? ? ? ? L2 N2 K2]; subst.
      + destruct (olevel_fun _ _ _ _ L _ _ L2) as [-> _]. now cbn in N.
      + destruct (olevel_fun _ _ _ _ L _ _ L2) as [-> ->]. apply (IH s'). auto.
  Qed.

  Lemma local_at_oshape o t s on n : local_at o t s on n -> oshape o s -> oshape on n.
  Proof.
    induction 1 as [o t n1 o' on n r L M O|o l o' t s on n L N H IH]; intros Os.
    - assert (E : SHier t n r = SHier t n1 r).
      { apply (oshape_fun _ _ _ Os). now apply (oshape_level _ _ (LHier t n1) _ r L). }
      injection E as ->. destruct L as (_ & _ & on' & M' & _ & On). congruence.
    - apply IH. destruct (oshape_inv _ _ _ Os) as [[X _]|(_ & l' & o'' & r & L' & E & O')].
      { rewrite (olevel_nonempty _ _ _ _ L) in X. discriminate. }
      destruct (olevel_fun _ _ _ _ L' _ _ L) as [-> ->]. apply under_inj in E. destruct E as [_ ->]. auto.
  Qed.

  Lemma typed_locals o t hl hr s s' : oshape o s -> typed o (HLocal t hr) s -> typed o (HLocal t hl) s' ->
    exists on n n', local_at o t s on n /\ local_at o t s' on n' /\ oshape on n /\ typed on hr n /\ typed on hl n'.
  Proof.
    intros O Tr Tl. apply typed_local_iff in Tr. apply typed_local_iff in Tl.
    destruct Tr as (on & n & L & Tr), Tl as (on2 & n' & L2 & Tl).
    pose proof (local_at_order _ _ _ _ _ _ _ _ L L2). subst on2.
    exists on, n, n'. split; [auto|split; [auto|split; [|auto]]]. apply (local_at_oshape o t s on n); auto.
  Qed.

  Theorem comp_typed : forall fuel l r h, comp_fuel fuel l r = Ok h ->
    forall o s', typed o (HComp l r) s' -> typed o h s'.
  Proof.
    induction fuel as [|fuel IH]; intros l r h E o s' T; [discriminate|].
    destruct (typed_comp_inv VI PF U F I US _ _ _ _ T) as (s & O & Tr & Tl).
    assert (Other : (if is_id l then Ok r else if is_id r then Ok l else Ok (HComp l r)) = Ok (E := cerr U) h ->
              typed o h s').
    { intros X. destruct (is_id l) eqn:Il.
      - injection X as <-. apply is_id_iff in Il. subst l. apply typed_id_inv in Tl.
        now rewrite (oshape_fun _ _ _ Tl _ O).
      - destruct (is_id r) eqn:Ir; [injection X as <-; auto|]. injection X as <-. auto. }
    cbn [Hom.comp_fuel] in E.
    destruct l as [ll lr| | | | | | | | | |tl hl| | | |]; try (apply Other; exact E);
      destruct r as [rl rr| | | | | | | | | |tr hr| | | |]; try (apply Other; exact E); clear Other.
    - destruct (comp_fuel fuel lr rl) as [h1|] eqn:E1; [|discriminate]. injection E as <-.
      destruct (typed_comp_inv VI PF U F I US _ _ _ _ Tr) as (s0 & O0 & Trr & Trl).
      rewrite (oshape_fun _ _ _ O0 _ O) in *.
      destruct (typed_comp_inv VI PF U F I US _ _ _ _ Tl) as (s1 & O1 & Tlr & Tll).
      rewrite (oshape_fun _ _ _ O1 _ O) in *.
      apply (T_comp _ _ _ _ _ _ o ll (HComp h1 rr) s s'); auto.
      apply (T_comp _ _ _ _ _ _ o h1 rr s s); auto. apply (IH lr rl h1 E1).
      now apply (T_comp _ _ _ _ _ _ o lr rl s s).
    - destruct (comp_fuel fuel lr (HLocal tr hr)) as [h1|] eqn:E1; [|discriminate]. injection E as <-.
      destruct (typed_comp_inv VI PF U F I US _ _ _ _ Tl) as (s1 & O1 & Tlr & Tll).
      rewrite (oshape_fun _ _ _ O1 _ O) in *.
      apply (T_comp _ _ _ _ _ _ o ll h1 s s'); auto. apply (IH lr (HLocal tr hr) h1 E1).
      now apply (T_comp _ _ _ _ _ _ o lr _ s s).
    - destruct (comp_fuel fuel (HLocal tl hl) rl) as [h1|] eqn:E1; [|discriminate]. injection E as <-.
      destruct (typed_comp_inv VI PF U F I US _ _ _ _ Tr) as (s0 & O0 & Trr & Trl).
      rewrite (oshape_fun _ _ _ O0 _ O) in *.
      apply (T_comp _ _ _ _ _ _ o h1 rr s s'); auto. apply (IH (HLocal tl hl) rl h1 E1).
      now apply (T_comp _ _ _ _ _ _ o _ rl s s').
    - destruct (N.eqb tl tr) eqn:Et; [|injection E as <-; exact T]. apply N.eqb_eq in Et. subst tr.
      destruct (comp_fuel fuel hl hr) as [h1|] eqn:E1; [|discriminate]. injection E as <-.
      destruct (typed_locals o tl hl hr s s' O Tr Tl) as (on & n & n' & L & L' & On & Th & Tl').
      apply typed_mk_local. apply typed_local_iff. exists on, n'. split; [auto|].
      apply (IH hl hr h1 E1). now apply (T_comp _ _ _ _ _ _ on hl hr n n').
  Qed.

  (** ** Merging locals *)

  Lemma local_image o t s' on n' h hr s n (R : rel) : local_at o t s' on n' -> local_at o t s on n ->
    oshape o s -> typed on h n' -> typed on hr n ->
    (forall v u, fits n v -> evals on h v u -> exists w, evals on hr v w /\
       forall b, contains u b = true <-> exists a, contains w a = true /\ R a b) ->
    forall x y, fits s x -> evals o (HLocal t h) x y -> exists z, evals o (HLocal t hr) x z /\
      forall q, contains y q = true <-> exists p, contains z p = true /\ rlocal t R p q.
  Proof.
    intros L. revert s. induction L as [o t n1 o' on n' r L M O|o l o' t s' on n' L N H IH];
      intros s L2 Os Th Tr K x y Fx E.
    - assert (Es : s = SHier t n1 r).
      { apply (oshape_fun _ _ _ Os). now apply (oshape_level _ _ (LHier t n1) _ r L). }
      subst s.
      assert (On := local_at_oshape _ _ _ _ _ L2 Os).
      assert (n1 = n).
      { destruct L as (_ & _ & on' & M' & _ & On'). rewrite M in M'. injection M' as <-.
        apply (oshape_fun _ _ _ On' _ On). }
      subst n1.
      destruct (local_here_fwd VI VL PF PO U F I US HO o t n o' on h n' r x y L M O Th Fx E) as (Fy & All & C).
      destruct (local_here_ex VI VL PF PO U F I US HO o t n o' on hr n r x L M O Tr Fx) as (z & Ez).
      { intros v s Hin. destruct (fits_harcs VI PF _ _ _ _ _ _ Fx Hin) as (Fv & _).
        destruct (All v s Hin) as (u & Eu). destruct (K v u Fv Eu) as (w & Ew & _). eauto. }
      exists z. split; [auto|].
      destruct (local_here_fwd VI VL PF PO U F I US HO o t n o' on hr n r x z L M O Tr Fx Ez) as (Fz & All2 & C2).
      intros q. split.
      + intros Cq. destruct (contains_step VI PF (LHier t n') r _ _ Fy Cq) as ([a|a] & q' & ->); cbn [acons lvar] in *.
        { exfalso. destruct y as [| |v arcs|v arcs]; try discriminate. destruct Fy as [_ Fy]. inversion Fy. }
        apply C in Cq. destruct Cq as (v & u & s & Hin & Eu & C3 & C4).
        destruct (fits_harcs VI PF _ _ _ _ _ _ Fx Hin) as (Fv & _).
        destruct (K v u Fv Eu) as (w & Ew & Kw). apply Kw in C3. destruct C3 as (b & C3 & Rb).
        exists (ANest t b q'). split; [|now constructor]. apply C2. exists v, w, s. auto.
      + intros (p & Cp & Rp). destruct Rp as [a b q' Rab|x0 a q' q'' Nx Rp|x0 a q' q'' Nx Rp].
        * apply C2 in Cp. destruct Cp as (v & w & s & Hin & Ew & C3 & C4).
          destruct (fits_harcs VI PF _ _ _ _ _ _ Fx Hin) as (Fv & _).
          destruct (All v s Hin) as (u & Eu). destruct (K v u Fv Eu) as (w' & Ew' & Kw).
          rewrite (evals_fun VI PF U F I US _ _ _ _ _ Ew Ew') in C3.
          apply C. exists v, u, s. split; [auto|split; [auto|split; [|auto]]]. apply Kw. eauto.
        * exfalso. destruct (contains_step VI PF (LHier t n) r _ _ Fz Cp) as (k & q0 & E0).
          destruct k; cbn in E0; congruence.
        * exfalso. destruct (contains_step VI PF (LHier t n) r _ _ Fz Cp) as (k & q0 & E0).
          destruct k; cbn in E0; congruence.
    - destruct (oshape_inv _ _ _ Os) as [[X _]|(_ & l' & o'' & r & L' & -> & O')].
      { rewrite (olevel_nonempty _ _ _ _ L) in X. discriminate. }
      destruct (olevel_fun _ _ _ _ L' _ _ L) as [-> ->]. clear L'.
      assert (L3 : local_at o' t r on n).
      { remember (under l r) as s2 eqn:E2. destruct L2 as [o t n2 o2 on n r2 L2 M2 O2|o l2 o2 t s2 on n L2 N2 K2].
        - destruct (olevel_fun _ _ _ _ L _ _ L2) as [-> _]. now cbn in N.
        - destruct (olevel_fun _ _ _ _ L _ _ L2) as [-> ->]. apply under_inj in E2. destruct E2 as [_ ->]. auto. }
      assert (Sk : forall k, hskip o (HLocal t k) = true).
      { intros k. cbn [Hom.hskip]. now apply (var_neqb_level U o l o' t L). }
      assert (Ty : typed o' (HLocal t h) s') by (apply typed_local_iff; eauto).
      assert (Ty2 : typed o' (HLocal t hr) r) by (apply typed_local_iff; eauto).
      apply (ev_skip VI VL PF PO U F I US HO o l o' _ r s' x y L O' Fx (Sk h) Ty) in E. destruct E as [Fy E].
      assert (Rf : forall k, fits r (residual x k)) by (intros k; now apply (residual_fits VI PF l)).
      destruct (skip_exists VI VL PF PO U F I US HO o l o' _ r r x L O' Fx (Sk hr) Ty2) as (z & Ez).
      { intros k. destruct (IH r L3 O' Th Tr K (residual x k) (residual y k) (Rf k) (E k)) as (z & Ez & _). eauto. }
      exists z. split; [auto|].
      apply (ev_skip VI VL PF PO U F I US HO o l o' _ r r x z L O' Fx (Sk hr) Ty2) in Ez. destruct Ez as [Fz Ez].
      assert (Kk : forall k q, contains (residual y k) q = true <->
                exists p, contains (residual z k) p = true /\ rlocal t R p q).
      { intros k q. destruct (IH r L3 O' Th Tr K (residual x k) (residual y k) (Rf k) (E k)) as (z' & Ez' & C).
        rewrite (evals_fun VI PF U F I US _ _ _ _ _ (Ez k) Ez'). apply C. }
      intros q. rewrite (contains_iff VI PF l s' y q Fy). split.
      + intros (k & q' & -> & C). apply Kk in C. destruct C as (p & C & Rp).
        exists (acons VI (lvar l) k p). split.
        * now rewrite (residual_contains VI PF l r z k p Fz).
        * destruct k; cbn; now constructor.
      + intros (p & C & Rp). apply (contains_iff VI PF l r z p Fz) in C. destruct C as (k & p' & -> & C).
        remember (acons VI (lvar l) k p') as p eqn:Ep.
        destruct Rp as [a b q' Rab|x0 a q' q'' Nx Rp|x0 a q' q'' Nx Rp].
        * destruct k; cbn in Ep; congruence.
        * exists k, q''. destruct k as [a'|m]; cbn in Ep; [|discriminate]. injection Ep as -> -> ->.
          split; [reflexivity|]. apply Kk. eauto.
        * exists k, q''. destruct k as [a'|m]; cbn in Ep; [discriminate|]. injection Ep as -> -> ->.
          split; [reflexivity|]. apply Kk. eauto.
  Qed.

  (** [l] acts as [R]: the result of composition(l, r) is the image by [R] of the one of [r]. *)
  Theorem comp_image : forall fuel l r h, comp_fuel fuel l r = Ok h -> forall o R s s', clin o l R ->
    typed o (HComp l r) s' -> oshape o s -> forall x y, fits s x -> evals o h x y ->
    exists z, evals o r x z /\ forall q, contains y q = true <-> exists p, contains z p = true /\ R p q.
  Proof.
    induction fuel as [|fuel IH]; intros l r h E o R s s' Cl T O x y Fx Ev; [discriminate|].
    destruct (typed_comp_inv VI PF U F I US _ _ _ _ T) as (s0 & O0 & Tr & Tl).
    assert (s0 = s) by apply (oshape_fun _ _ _ O0 _ O). subst s0. clear O0.
    assert (Plain : evals o (HComp l r) x y ->
              exists z, evals o r x z /\ forall q, contains y q = true <-> exists p, contains z p = true /\ R p q).
    { intros X. apply (E_comp VI VL PF PO U F I US HO o s O l r s') in X; auto. destruct X as (z & E1 & E2).
      exists z. split; [auto|]. intros q. apply (clin_acts o l R Cl s' Tl s z y O); auto.
      apply (evals_fits VI VL PF PO U F I US HO o r s s x); auto. }
    assert (Other : (if is_id l then Ok r else if is_id r then Ok l else Ok (HComp l r)) = Ok (E := cerr U) h ->
              exists z, evals o r x z /\ forall q, contains y q = true <-> exists p, contains z p = true /\ R p q).
    { intros X. destruct (is_id l) eqn:Il.
      - injection X as <-. apply is_id_iff in Il. subst l. exists y. split; [auto|]. intros q.
        apply (clin_acts o HId R Cl s' Tl s y y O).
        + apply (evals_fits VI VL PF PO U F I US HO o r s s x); auto.
        + now apply evals_id.
      - destruct (is_id r) eqn:Ir; injection X as <-.
        + apply is_id_iff in Ir. subst r. exists x. split; [now apply evals_id|]. intros q.
          apply (clin_acts o l R Cl s' Tl s x y O Fx Ev).
        + auto. }
    cbn [Hom.comp_fuel] in E.
    destruct l as [ll lr| | | | | | | | | |tl hl| | | |]; try (apply Other; exact E);
      destruct r as [rl rr| | | | | | | | | |tr hr| | | |]; try (apply Other; exact E); clear Other.
    - destruct (comp_fuel fuel lr rl) as [h1|] eqn:E1; [|discriminate]. injection E as <-.
      destruct (typed_comp_inv VI PF U F I US _ _ _ _ Tr) as (s0 & O0 & Trr & Trl).
      assert (s0 = s) by apply (oshape_fun _ _ _ O0 _ O). subst s0. clear O0.
      destruct (typed_comp_inv VI PF U F I US _ _ _ _ Tl) as (s1 & O1 & Tlr & Tll).
      assert (s1 = s) by apply (oshape_fun _ _ _ O1 _ O). subst s1. clear O1.
      assert (T1 : typed o (HComp lr rl) s) by now apply (T_comp _ _ _ _ _ _ o lr rl s s).
      assert (Th1 : typed o h1 s) by now apply (comp_typed fuel lr rl).
      assert (T2 : typed o (HComp h1 rr) s) by now apply (T_comp _ _ _ _ _ _ o h1 rr s s).
      destruct (clin_comp_inv _ _ _ _ Cl) as (R1 & R2 & C1 & C2 & ->).
      apply (E_comp VI VL PF PO U F I US HO o s O ll (HComp h1 rr) s') in Ev; auto.
      2:{ now apply (T_comp _ _ _ _ _ _ o ll _ s s'). }
      destruct Ev as (m & Em & Ey). apply (E_comp VI VL PF PO U F I US HO o s O h1 rr s) in Em; auto.
      destruct Em as (w & Ew & Em).
      assert (Fw : fits s w) by (apply (evals_fits VI VL PF PO U F I US HO o rr s s x); auto).
      destruct (IH lr rl h1 E1 o R2 s s C2 T1 O w m Fw Em) as (z & Ez & Cz).
      exists z. split; [apply (E_comp VI VL PF PO U F I US HO o s O rl rr s); eauto|].
      assert (Fm : fits s m) by (apply (evals_fits VI VL PF PO U F I US HO o h1 s s w); auto).
      intros q. rewrite (clin_acts o ll R1 C1 s' Tll s m y O Fm Ey q). split.
      + intros (p & Cp & Rp). apply Cz in Cp. destruct Cp as (p' & Cp & Rp'). eauto.
      + intros (p & Cp & p' & Rp' & Rp). exists p'. split; [|auto]. apply Cz. eauto.
    - destruct (comp_fuel fuel lr (HLocal tr hr)) as [h1|] eqn:E1; [|discriminate]. injection E as <-.
      destruct (typed_comp_inv VI PF U F I US _ _ _ _ Tl) as (s1 & O1 & Tlr & Tll).
      assert (s1 = s) by apply (oshape_fun _ _ _ O1 _ O). subst s1. clear O1.
      assert (T1 : typed o (HComp lr (HLocal tr hr)) s) by now apply (T_comp _ _ _ _ _ _ o lr _ s s).
      assert (Th1 : typed o h1 s) by now apply (comp_typed fuel lr (HLocal tr hr)).
      destruct (clin_comp_inv _ _ _ _ Cl) as (R1 & R2 & C1 & C2 & ->).
      apply (E_comp VI VL PF PO U F I US HO o s O ll h1 s') in Ev; auto.
      2:{ now apply (T_comp _ _ _ _ _ _ o ll _ s s'). }
      destruct Ev as (m & Em & Ey).
      destruct (IH lr (HLocal tr hr) h1 E1 o R2 s s C2 T1 O x m Fx Em) as (z & Ez & Cz).
      exists z. split; [auto|].
      assert (Fm : fits s m) by (apply (evals_fits VI VL PF PO U F I US HO o h1 s s x); auto).
      intros q. rewrite (clin_acts o ll R1 C1 s' Tll s m y O Fm Ey q). split.
      + intros (p & Cp & Rp). apply Cz in Cp. destruct Cp as (p' & Cp & Rp'). eauto.
      + intros (p & Cp & p' & Rp' & Rp). exists p'. split; [|auto]. apply Cz. eauto.
    - destruct (comp_fuel fuel (HLocal tl hl) rl) as [h1|] eqn:E1; [|discriminate]. injection E as <-.
      destruct (typed_comp_inv VI PF U F I US _ _ _ _ Tr) as (s0 & O0 & Trr & Trl).
      assert (s0 = s) by apply (oshape_fun _ _ _ O0 _ O). subst s0. clear O0.
      assert (T1 : typed o (HComp (HLocal tl hl) rl) s') by now apply (T_comp _ _ _ _ _ _ o _ rl s s').
      assert (Th1 : typed o h1 s') by now apply (comp_typed fuel (HLocal tl hl) rl).
      apply (E_comp VI VL PF PO U F I US HO o s O h1 rr s') in Ev; auto.
      2:{ now apply (T_comp _ _ _ _ _ _ o h1 rr s s'). }
      destruct Ev as (w & Ew & Ey).
      assert (Fw : fits s w) by (apply (evals_fits VI VL PF PO U F I US HO o rr s s x); auto).
      destruct (IH (HLocal tl hl) rl h1 E1 o R s s' Cl T1 O w y Fw Ey) as (z & Ez & Cz).
      exists z. split; [|auto]. apply (E_comp VI VL PF PO U F I US HO o s O rl rr s); eauto.
    - destruct (N.eqb tl tr) eqn:Et; [|injection E as <-; auto]. apply N.eqb_eq in Et. subst tr.
      destruct (comp_fuel fuel hl hr) as [h1|] eqn:E1; [|discriminate]. injection E as <-.
      destruct (typed_locals o tl hl hr s s' O Tr Tl) as (on & n & n' & L & L' & On & Th & Tl').
      assert (T1 : typed on (HComp hl hr) n') by now apply (T_comp _ _ _ _ _ _ on hl hr n n').
      assert (Th1 : typed on h1 n') by now apply (comp_typed fuel hl hr).
      assert (T2 : typed o (HLocal tl h1) s') by (apply typed_local_iff; eauto).
      apply (local_evals o s tl h1 s') in Ev; auto.
      destruct (clin_local_inv _ _ _ _ Cl) as (o1 & on1 & R1 & Tg & M & C1 & ->).
      assert (on1 = on).
      { destruct (local_at_target _ _ _ _ _ _ L) as (o2 & Tg2 & M2).
        assert (E : o2 = o1).
        { clear - Tg Tg2. induction Tg as [o x A|o l o' t o1 L N T IH].
          - inversion Tg2 as [? ? A2|? ? ? ? ? L2 N2 K2]; subst; [auto|]. destruct L2 as [L2 _]. congruence.
          - apply IH. now apply (target_down U o l o'). }
        subst o2. congruence. }
      subst on1.
      apply (local_image o tl s' on n' h1 hr s n R1 L' L O Th1 Th); auto.
      intros v u Fv Eu. apply (IH hl hr h1 E1 on R1 n n' C1 T1 On v u Fv Eu).
  Qed.

  (** The local parts that the constructor may merge, along the right side of [l], are linear. *)
  Fixpoint mergeable (o : order) (l : hom) : Prop :=
    match l with
    | HLocal t h => exists R, clin o (HLocal t h) R
    | HComp _ r => mergeable o r
    | _ => True
    end.

  Theorem comp_agrees : forall fuel l r h, comp_fuel fuel l r = Ok h -> forall o s s', mergeable o l ->
    typed o (HComp l r) s' -> oshape o s -> forall x y, fits s x -> evals o h x y ->
    exists z, evals o r x z /\ forall w, evals o l z w -> w = y.
  Proof.
    induction fuel as [|fuel IH]; intros l r h E o s s' Mg T O x y Fx Ev; [discriminate|].
    destruct (typed_comp_inv VI PF U F I US _ _ _ _ T) as (s0 & O0 & Tr & Tl).
    assert (s0 = s) by apply (oshape_fun _ _ _ O0 _ O). subst s0. clear O0.
    assert (Th : typed o h s') by now apply (comp_typed (S fuel) l r).
    assert (Other : (if is_id l then Ok r else if is_id r then Ok l else Ok (HComp l r)) = Ok (E := cerr U) h ->
              exists z, evals o r x z /\ forall w, evals o l z w -> w = y).
    { intros X. destruct (is_id l) eqn:Il.
      - injection X as <-. apply is_id_iff in Il. subst l. exists y. split; [auto|]. intros w Ew.
        now apply evals_id in Ew.
      - destruct (is_id r) eqn:Ir; injection X as <-.
        + apply is_id_iff in Ir. subst r. exists x. split; [now apply evals_id|]. intros w Ew.
          apply (evals_fun VI PF U F I US _ _ _ _ _ Ew Ev).
        + apply (E_comp VI VL PF PO U F I US HO o s O l r s') in Ev; auto. destruct Ev as (z & E1 & E2).
          exists z. split; [auto|]. intros w Ew. apply (evals_fun VI PF U F I US _ _ _ _ _ Ew E2). }
    assert (LocalCase : forall t hl R, l = HLocal t hl -> clin o (HLocal t hl) R ->
              exists z, evals o r x z /\ forall w, evals o l z w -> w = y).
    { intros t hl R -> Cl. destruct (comp_image (S fuel) _ r h E o R s s' Cl T O x y Fx Ev) as (z & Ez & Cz).
      exists z. split; [auto|]. intros w Ew.
      assert (Fz : fits s z) by (apply (evals_fits VI VL PF PO U F I US HO o r s s x); auto).
      apply (fits_ext VI VL PF PO s').
      - apply (evals_fits VI VL PF PO U F I US HO o (HLocal t hl) s s' z); auto.
      - apply (evals_fits VI VL PF PO U F I US HO o h s s' x); auto.
      - intros q. apply bool_ext. rewrite Cz. apply (clin_acts o _ R Cl s' Tl s z w O Fz Ew). }
    cbn [Hom.comp_fuel] in E.
    destruct l as [ll lr| | | | | | | | | |tl hl| | | |]; try (apply Other; exact E).
    2:{ destruct Mg as (R & Cl). now apply (LocalCase tl hl R). }
    clear LocalCase.
    destruct r as [rl rr| | | | | | | | | |tr hr| | | |]; try (apply Other; exact E); clear Other.
    - destruct (comp_fuel fuel lr rl) as [h1|] eqn:E1; [|discriminate]. injection E as <-.
      destruct (typed_comp_inv VI PF U F I US _ _ _ _ Tr) as (s0 & O0 & Trr & Trl).
      assert (s0 = s) by apply (oshape_fun _ _ _ O0 _ O). subst s0. clear O0.
      destruct (typed_comp_inv VI PF U F I US _ _ _ _ Tl) as (s1 & O1 & Tlr & Tll).
      assert (s1 = s) by apply (oshape_fun _ _ _ O1 _ O). subst s1. clear O1.
      assert (T1 : typed o (HComp lr rl) s) by now apply (T_comp _ _ _ _ _ _ o lr rl s s).
      assert (Th1 : typed o h1 s) by now apply (comp_typed fuel lr rl).
      assert (T2 : typed o (HComp h1 rr) s) by now apply (T_comp _ _ _ _ _ _ o h1 rr s s).
      apply (E_comp VI VL PF PO U F I US HO o s O ll (HComp h1 rr) s') in Ev; auto.
      destruct Ev as (m & Em & Ey). apply (E_comp VI VL PF PO U F I US HO o s O h1 rr s) in Em; auto.
      destruct Em as (w & Ew & Em).
      assert (Fw : fits s w) by (apply (evals_fits VI VL PF PO U F I US HO o rr s s x); auto).
      destruct (IH lr rl h1 E1 o s s Mg T1 O w m Fw Em) as (z & Ez & Cz).
      exists z. split; [apply (E_comp VI VL PF PO U F I US HO o s O rl rr s); eauto|].
      assert (Fz : fits s z) by (apply (evals_fits VI VL PF PO U F I US HO o rl s s w); auto).
      intros u Eu. apply (E_comp VI VL PF PO U F I US HO o s O ll lr s') in Eu; auto.
      destruct Eu as (m' & Em' & Eu). rewrite (Cz m' Em') in Eu.
      apply (evals_fun VI PF U F I US _ _ _ _ _ Eu Ey).
    - destruct (comp_fuel fuel lr (HLocal tr hr)) as [h1|] eqn:E1; [|discriminate]. injection E as <-.
      destruct (typed_comp_inv VI PF U F I US _ _ _ _ Tl) as (s1 & O1 & Tlr & Tll).
      assert (s1 = s) by apply (oshape_fun _ _ _ O1 _ O). subst s1. clear O1.
      assert (T1 : typed o (HComp lr (HLocal tr hr)) s) by now apply (T_comp _ _ _ _ _ _ o lr _ s s).
      assert (Th1 : typed o h1 s) by now apply (comp_typed fuel lr (HLocal tr hr)).
      apply (E_comp VI VL PF PO U F I US HO o s O ll h1 s') in Ev; auto.
      destruct Ev as (m & Em & Ey).
      destruct (IH lr (HLocal tr hr) h1 E1 o s s Mg T1 O x m Fx Em) as (z & Ez & Cz).
      exists z. split; [auto|].
      assert (Fz : fits s z) by (apply (evals_fits VI VL PF PO U F I US HO o (HLocal tr hr) s s x); auto).
      intros u Eu. apply (E_comp VI VL PF PO U F I US HO o s O ll lr s') in Eu; auto.
      destruct Eu as (m' & Em' & Eu). rewrite (Cz m' Em') in Eu.
      apply (evals_fun VI PF U F I US _ _ _ _ _ Eu Ey).
  Qed.

  (** ** composition(l, r) *)

  Lemma comp_total : forall fuel l r, hsize l + hsize r <= fuel -> exists h, comp_fuel fuel l r = Ok h.
  Proof.
    assert (Pos : forall h, 1 <= hsize h).
    { destruct h; cbn [Hom.hsize]; lia. }
    induction fuel as [|fuel IH]; intros l r Hf.
    - pose proof (Pos l). lia.
    - cbn [Hom.comp_fuel].
      assert (Other : exists h, (if is_id l then Ok r else if is_id r then Ok l else Ok (HComp l r)) = Ok (E := cerr U) h).
      { destruct (is_id l); [eauto|]. destruct (is_id r); eauto. }
      destruct l as [ll lr| | | | | | | | | |tl hl| | | |]; try exact Other;
        destruct r as [rl rr| | | | | | | | | |tr hr| | | |]; try exact Other; clear Other; cbn [Hom.hsize] in Hf.
      + destruct (IH lr rl) as (h & ->); [lia|]. cbn. eauto.
      + destruct (IH lr (HLocal tr hr)) as (h & ->); [cbn [Hom.hsize]; lia|]. cbn. eauto.
      + destruct (IH (HLocal tl hl) rl) as (h & ->); [cbn [Hom.hsize]; lia|]. cbn. eauto.
      + destruct (N.eqb tl tr); [|eauto]. destruct (IH hl hr) as (h & ->); [lia|]. cbn. eauto.
  Qed.

  Theorem composition_total l r : exists h, composition l r = Ok h.
  Proof. now apply comp_total. Qed.

  Theorem composition_agrees l r h o s s' x y w z : composition l r = Ok h -> mergeable o l ->
    typed o (HComp l r) s' -> oshape o s -> fits s x ->
    evals o h x y -> evals o r x z -> evals o l z w -> y = w.
  Proof.
    intros E Mg T O Fx Ey Ez Ew.
    destruct (comp_agrees _ l r h E o s s' Mg T O x y Fx Ey) as (z' & Ez' & K).
    rewrite (evals_fun VI PF U F I US _ _ _ _ _ Ez Ez') in Ew. symmetry. now apply K.
  Qed.

  Lemma comp_nofix : forall fuel l r h, comp_fuel fuel l r = Ok h ->
    nofix VI U F I l = true -> nofix VI U F I r = true -> nofix VI U F I h = true.
  Proof.
    induction fuel as [|fuel IH]; intros l r h E Nl Nr; [discriminate|].
    assert (Other : (if is_id l then Ok r else if is_id r then Ok l else Ok (HComp l r)) = Ok (E := cerr U) h ->
              nofix VI U F I h = true).
    { intros X. destruct (is_id l); [congruence|]. destruct (is_id r); [congruence|].
      injection X as <-. cbn [nofix]. now rewrite Nl, Nr. }
    cbn [Hom.comp_fuel] in E.
    destruct l as [ll lr| | | | | | | | | |tl hl| | | |]; try (apply Other; exact E);
      destruct r as [rl rr| | | | | | | | | |tr hr| | | |]; try (apply Other; exact E);
      cbn [nofix] in Nl, Nr.
    - destruct (comp_fuel fuel lr rl) as [h1|] eqn:E1; [|discriminate]. injection E as <-.
      apply andb_true_iff in Nl. apply andb_true_iff in Nr. cbn [nofix].
      rewrite (IH lr rl h1 E1 (proj2 Nl) (proj1 Nr)), (proj1 Nl), (proj2 Nr). reflexivity.
    - destruct (comp_fuel fuel lr (HLocal tr hr)) as [h1|] eqn:E1; [|discriminate]. injection E as <-.
      apply andb_true_iff in Nl. cbn [nofix]. rewrite (IH lr _ h1 E1 (proj2 Nl) Nr), (proj1 Nl). reflexivity.
    - destruct (comp_fuel fuel (HLocal tl hl) rl) as [h1|] eqn:E1; [|discriminate]. injection E as <-.
      apply andb_true_iff in Nr. cbn [nofix]. rewrite (IH _ rl h1 E1 Nl (proj1 Nr)), (proj2 Nr). reflexivity.
    - destruct (N.eqb tl tr); [|injection E as <-; cbn [nofix]; now rewrite Nl, Nr].
      destruct (comp_fuel fuel hl hr) as [h1|] eqn:E1; [|discriminate]. injection E as <-.
      specialize (IH hl hr h1 E1 Nl Nr). unfold Hom.local. now destruct (is_id h1).
  Qed.

  (** Without fixpoints everything terminates, and composition(l, r)(x) is l(r(x)). *)
  Theorem composition_nofix l r h o s s' x y : composition l r = Ok h -> mergeable o l ->
    user_nofix VI U F I US -> nofix VI U F I l = true -> nofix VI U F I r = true ->
    typed o (HComp l r) s' -> oshape o s -> fits s x ->
    (evals o h x y <-> exists z, evals o r x z /\ evals o l z y).
  Proof.
    intros E Mg Un Nl Nr T O Fx.
    destruct (typed_comp_inv VI PF U F I US _ _ _ _ T) as (s0 & O0 & Tr & Tl).
    assert (s0 = s) by apply (oshape_fun _ _ _ O0 _ O). subst s0. clear O0.
    destruct (halts VI VL PF PO U F I US HO Un o r s Tr Nr s x O Fx) as (z & Ez).
    assert (Fz : fits s z) by (apply (evals_fits VI VL PF PO U F I US HO o r s s x); auto).
    destruct (halts VI VL PF PO U F I US HO Un o l s' Tl Nl s z O Fz) as (w & Ew).
    assert (Th : typed o h s') by now apply (comp_typed _ l r h E).
    destruct (halts VI VL PF PO U F I US HO Un o h s' Th (comp_nofix _ l r h E Nl Nr) s x O Fx) as (y0 & Ey0).
    assert (y0 = w) by (apply (composition_agrees l r h o s s' x y0 w z); auto). subst y0. split.
    - intros Ey. rewrite (evals_fun VI PF U F I US _ _ _ _ _ Ey Ey0). eauto.
    - intros (z' & Ez' & Ey). rewrite (evals_fun VI PF U F I US _ _ _ _ _ Ez' Ez) in Ey.
      now rewrite (evals_fun VI PF U F I US _ _ _ _ _ Ey Ew).
  Qed.

  (** ** fixpoint(h) *)

  Theorem fixpoint_evals h o s x y : typed o (HFix h) s -> fits s x ->
    (evals o (fixpoint VI U F I h) x y <-> exists k, HomEval.iter (evals o h) k x y /\ evals o h y y).
  Proof.
    intros T Fx. destruct (typed_fix_inv VI PF U F I US _ _ _ T) as [O Th].
    assert (Plain : evals o (HFix h) x y <-> exists k, HomEval.iter (evals o h) k x y /\ evals o h y y).
    { now apply (E_fix VI VL PF PO U F I US HO o s O h s). }
    destruct h as [| | | |h| |  | | | | | | | |]; cbn [Hom.fixpoint]; try exact Plain.
    - split.
      + intros E. exists 1. cbn [HomEval.iter].
        assert (Ey : evals o (HFix h) y y).
        { apply (E_fix VI VL PF PO U F I US HO o s O h s) in E; auto. destruct E as (k & E1 & E2).
          destruct (typed_fix_inv VI PF U F I US _ _ _ Th) as [_ Th'].
          apply (E_fix VI VL PF PO U F I US HO o s O h s); auto.
          { apply (iter_fits VI VL PF PO U F I US HO o h s Th' O k x y Fx E1). }
          exists 0. cbn. auto. }
        split; [|auto]. exists y. split; [exact E|reflexivity].
      + intros (k & E1 & E2). destruct k as [|k]; cbn [HomEval.iter] in E1.
        * now subst y.
        * destruct E1 as (z & E1 & E3).
          assert (Ez : evals o (HFix h) z z).
          { apply (E_fix VI VL PF PO U F I US HO o s O h s) in E1; auto. destruct E1 as (m & E4 & E5).
            destruct (typed_fix_inv VI PF U F I US _ _ _ Th) as [_ Th'].
            apply (E_fix VI VL PF PO U F I US HO o s O h s); auto.
            { apply (iter_fits VI VL PF PO U F I US HO o h s Th' O m x z Fx E4). }
            exists 0. cbn. auto. }
          assert (y = z); [|now subst].
          clear E1. revert E3. induction k as [|k IH]; cbn [HomEval.iter].
          -- auto.
          -- intros (z' & E6 & E7). rewrite (evals_fun VI PF U F I US _ _ _ _ _ E6 Ez) in E7. auto.
    - split.
      + intros E. apply evals_id in E. subst y. exists 0. split; [reflexivity|now apply evals_id].
      + intros (k & E1 & _). revert x Fx Plain E1. induction k as [|k IH]; intros x Fx Plain E1; cbn [HomEval.iter] in E1.
        * subst y. now apply evals_id.
        * destruct E1 as (z & E1 & E3). apply evals_id in E1. subst z. apply IH; auto.
  Qed.

  (** Monotone homomorphisms. *)
  Definition monotone (o : order) (h : hom) : Prop :=
    forall s x1 x2 y1 y2, oshape o s -> fits s x1 -> fits s x2 -> sub x1 x2 ->
      evals o h x1 y1 -> evals o h x2 y2 -> sub y1 y2.

  Lemma acts_monotone o h R : acts o h R -> monotone o h.
  Proof.
    intros A s x1 x2 y1 y2 O F1 F2 S E1 E2 q C. apply (A s x2 y2 O F2 E2).
    apply (A s x1 y1 O F1 E1) in C. destruct C as (p & C & X). exists p. auto.
  Qed.

  (** fixpoint(Id + h1 + ... + hn) computes the least set that contains x and is closed under the
      hi. The operands are given as the list they are the sum of. *)
  Theorem fixpoint_least h o s x y (hs : list hom) : typed o (HFix h) s -> fits s x ->
    same o [h] hs -> In HId hs -> (forall k, In k hs -> typed o k s /\ monotone o k) ->
    evals o (fixpoint VI U F I h) x y ->
    sub x y /\
    (forall k z, In k hs -> evals o k y z -> sub z y) /\
    (forall c, fits s c -> sub x c -> (forall k z, In k hs -> evals o k c z -> sub z c) ->
       (forall k, In k hs -> exists z, evals o k c z) -> sub y c).
  Proof.
    intros T Fx S Hid Hk E. apply (fixpoint_evals h o s x y T Fx) in E. destruct E as (n & E1 & E2).
    destruct (typed_fix_inv VI PF U F I US _ _ _ T) as [O Th].
    assert (St : forall a b, fits s a -> evals o h a b ->
              (forall k, In k hs -> exists z, evals o k a z) /\
              forall q, contains b q = true <-> exists k z, In k hs /\ evals o k a z /\ contains z q = true).
    { intros a b Fa Eb. destruct (S s a O Fa) as [A B].
      assert (E3 : all_ev VI PF U F I US o [h] a) by (intros k [<-|[]]; eauto).
      split; [now apply A|]. intros q. specialize (B E3 q). split.
      - intros C. apply B. exists h, b. split; [now left|auto].
      - intros (k & z & X). destruct (proj2 B (ex_intro _ k (ex_intro _ z X))) as (h' & b' & [<-|[]] & Eb' & C).
        now rewrite (evals_fun VI PF U F I US _ _ _ _ _ Eb Eb'). }
    assert (Fy := iter_fits VI VL PF PO U F I US HO o h s Th O n x y Fx E1).
    split; [|split].
    - clear E2 Fy. revert x Fx E1. induction n as [|n IH]; intros x Fx E1 p C; cbn [HomEval.iter] in E1.
      + now subst y.
      + destruct E1 as (z & H1 & H2).
        assert (Fz : fits s z) by (apply (evals_fits VI VL PF PO U F I US HO o h s s x); auto).
        apply (IH z Fz H2). apply (St x z Fx H1). exists HId, x. split; [auto|]. split; [now apply evals_id|auto].
    - intros k z Hin Ez q C. apply (St y y Fy E2). eauto.
    - intros c Fc Sc Cl Tot. clear E2 Fy. revert x Fx Sc E1.
      induction n as [|n IH]; intros x Fx Sc E1; cbn [HomEval.iter] in E1.
      + now subst y.
      + destruct E1 as (z & H1 & H2).
        assert (Fz : fits s z) by (apply (evals_fits VI VL PF PO U F I US HO o h s s x); auto).
        apply (IH z Fz); auto. intros q C. apply (St x z Fx H1) in C. destruct C as (k & w & Hin & Ew & Cw).
        destruct (Tot k Hin) as (w' & Ew'). apply (Cl k w' Hin Ew').
        apply (proj2 (Hk k Hin) s x c w w' O Fx Fc Sc Ew Ew' q Cw).
  Qed.

  (** ** if_then_else(p, t, e) *)

  Notation ite_of := (ite_of VI PF U F I US).
  Notation if_then_else := (if_then_else VI U F I HP US).

  Lemma if_then_else_cases p t e h : if_then_else p t e = Ok h -> hselector VI U F I US p = true /\
    (h = HIte p t e \/ (p = HId /\ h = t) \/ (t = e /\ h = t)).
  Proof.
    unfold Hom.if_then_else. destruct (hselector VI U F I US p); [|discriminate]. cbn [negb].
    destruct (is_id p) eqn:Ip.
    - intros [=->]. apply is_id_iff in Ip. auto.
    - destruct (hom_eqb VI U F I HP t e) eqn:Et; intros [=<-]; [|auto].
      split; [auto|]. right. right. split; [|auto]. unfold hom_eqb in Et.
      now apply (equivb_spec _ (hp_lt HPO)).
  Qed.

  Theorem if_then_else_rejects p t e : hselector VI U F I US p = false <-> if_then_else p t e = Err CInvalid.
  Proof.
    unfold Hom.if_then_else. destruct (hselector VI U F I US p); cbn [negb]; [|split; auto].
    destruct (is_id p); [split; discriminate|]. destruct (hom_eqb VI U F I HP t e); split; discriminate.
  Qed.

  Theorem if_then_else_typed p t e h o s' : if_then_else p t e = Ok h -> typed o (HIte p t e) s' -> typed o h s'.
  Proof.
    intros E T. destruct (typed_ite_inv VI PF U F I US _ _ _ _ _ T) as (s0 & O0 & Sel & Tp & Tt & Te).
    destruct (if_then_else_cases p t e h E) as [_ [->|[[_ ->]|[_ ->]]]]; auto.
  Qed.

  (** [h] distributes over disjoint unions. *)
  Definition additive (o : order) (h : hom) : Prop :=
    forall s x a b y ya yb, oshape o s -> fits s x -> fits s a -> fits s b ->
      (forall p, contains x p = contains a p || contains b p) ->
      evals o h x y -> evals o h a ya -> evals o h b yb -> forall p, contains y p = contains ya p || contains yb p.

  Lemma acts_additive o h R : acts o h R -> additive o h.
  Proof.
    intros A s x a b y ya yb O Fx Fa Fb C Ex Ea Eb q. apply bool_ext. rewrite orb_true_iff.
    rewrite (A s x y O Fx Ex q), (A s a ya O Fa Ea q), (A s b yb O Fb Eb q). split.
    - intros (p & Cp & Rp). rewrite C in Cp. apply orb_true_iff in Cp. destruct Cp; [left|right]; eauto.
    - intros [(p & Cp & Rp)|(p & Cp & Rp)]; exists p; (split; [|auto]); rewrite C, Cp; auto using orb_true_r.
  Qed.

  (** The library simplifies if_then_else(p, t, t) to t, which requires an additive t. *)
  Theorem if_then_else_agrees p t e h o s s' x y y' : if_then_else p t e = Ok h ->
    typed o (HIte p t e) s' -> oshape o s -> fits s x -> (p = HId \/ t <> e \/ additive o t) ->
    evals o h x y -> ite_of o p t e x y' -> y = y'.
  Proof.
    intros E T O Fx Ad Ey (c & a & d & b & E1 & E2 & E3 & E4 & E5).
    destruct (typed_ite_inv VI PF U F I US _ _ _ _ _ T) as (s0 & O0 & Sel & Tp & Tt & Te).
    assert (s0 = s) by apply (oshape_fun _ _ _ O0 _ O). subst s0. clear O0.
    assert (Fc : fits s c) by (apply (evals_fits VI VL PF PO U F I US HO o p s s x); auto).
    destruct (minus_ok VI VL PF PO s x c Fx Fc) as (d' & Ed & Fd & Cd). rewrite E3 in Ed. injection Ed as <-.
    destruct (sum_ok VI VL PF PO s' [a; b]) as (y1 & Ey1 & Fy & Cy).
    { intros w [<-|[<-|[]]].
      - apply (evals_fits VI VL PF PO U F I US HO o t s s' c); auto.
      - apply (evals_fits VI VL PF PO U F I US HO o e s s' d); auto. }
    rewrite E5 in Ey1. injection Ey1 as <-.
    assert (IdCase : p = HId -> evals o t x y -> y = y').
    { intros -> Et. apply evals_id in E1. subst c.
      assert (d = Zero).
      { apply (fits_zero_iff VI VL PF s); auto. intros q. rewrite Cd. now destruct (contains x q). }
      subst d. apply evals_zero in E4. subst b.
      rewrite <- (evals_fun VI PF U F I US _ _ _ _ _ Et E2) in *.
      apply (fits_ext VI VL PF PO s'); auto.
      - apply (evals_fits VI VL PF PO U F I US HO o t s s' x); auto.
      - intros q. rewrite Cy. cbn [existsb]. now rewrite !orb_false_r. }
    destruct (if_then_else_cases p t e h E) as [_ [->|[[-> ->]|[Ee ->]]]]; auto.
    - apply (E_ite VI VL PF PO U F I US HO o s O p t e s') in Ey; auto.
      apply (ite_of_fun VI PF U F I US o p t e x); auto. exists c, a, d, b. auto.
    - destruct Ad as [Ad|[Ad|Ad]]; [auto|congruence|]. subst e.
      apply (fits_ext VI VL PF PO s'); auto.
      + apply (evals_fits VI VL PF PO U F I US HO o t s s' x); auto.
      + intros q. rewrite Cy. cbn [existsb]. rewrite orb_false_r.
        apply (Ad s x c d y a b); auto. intros m. rewrite Cd.
        assert (Sub : sub c x) by (apply (evals_selector VI VL PF PO U F I US HO o p s s); auto).
        destruct (contains c m) eqn:Cm; [now rewrite (Sub m Cm)|]. destruct (contains x m); reflexivity.
  Qed.
End HomComp.
