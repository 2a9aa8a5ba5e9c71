(** * Rewriting (saturation)

    Sums, intersections and fixpoints of sums are rewritten level by level. What a homomorphism made
    of linear parts does is a relation on assignments, [den]; the rewritten homomorphism acts
    according to the same relation. *)

From Coq Require Import List Bool NArith Arith Lia Permutation Sorted Relations.
From Verif Require Import Base SortedSets Values Sdd SddFacts Orders OrdersProofs OrdersSdd DDModel.
From Verif Require Import DDGeneric DDProofs DDTheorems Hom HomFacts HomEval HomTyped HomEqns HomLinear.
From Verif Require Import HomSum HomHalts HomInter HomComp.
Import ListNotations.

Section HomRewrite.
  Variable VI : values_impl.
  Hypothesis VL : values_laws VI.
  Variable PF : platform VI.
  Hypothesis PO : platform_ok PF.
  Variables U F I : Type.
  Notation V := (vt VI).
  Notation sdd := (sdd V).
  Notation hom := (hom V U F I).
  Variable HP : hplatform V U F I.
  Hypothesis HPO : hplatform_ok HP.
  Variable US : user V U F I.
  Notation order := (order U).
  Notation fits := (fits VI PF).
  Notation oshape := (oshape U).
  Notation olevel := (olevel U).
  Notation typed := (typed VI PF U F I US).
  Notation hskip := (hskip VI U F I US).
  Notation hselector := (hselector VI U F I US).
  Notation evals := (evals VI PF U F I US).
  Notation ends := (ends VI PF U F I US).
  Notation residual := (residual VI).
  Notation sum_of := (sum_of VI PF U F I US).
  Notation inter_of := (inter_of VI PF U F I US).
  Notation evals_all := (evals_all VI PF U F I US).
  Notation asg := (asg (elt VI)).
  Notation rel := (asg -> asg -> Prop).
  Notation is_id := (is_id VI U F I).
  Notation local := (local VI U F I).
  Notation hsize := (hsize VI U F I).
  Notation hset_add := (hset_add VI U F I HP).
  Notation hset := (hset VI U F I HP).
  Notation sum_visit := (sum_visit VI U F I HP).
  Notation sum_fuel := (sum_fuel VI U F I HP).
  Notation mk_sum := (mk_sum VI U F I HP).
  Notation inter_visit := (inter_visit VI U F I HP).
  Notation inter_fuel := (inter_fuel VI U F I HP).
  Notation mk_inter := (mk_inter VI U F I HP).
  Notation regroup := (regroup VI U F I HP).
  Notation partition := (partition VI U F I US).
  Notation rewrite_fuel := (rewrite_fuel VI U F I HP US).
  Notation opt_list := (opt_list VI U F I).
  Notation target := (target U).
  Notation local_at := (local_at U).
  Notation harcs := (harcs VI).
  Notation acts := (acts VI PF U F I US).
  Notation runder := (runder VI).
  Notation same := (same VI PF U F I US).
  Notation locals_of := (locals_of VI U F I).
  Notation repr := (repr VI U F I).
  Notation leaves := (leaves VI U F I).
  Notation ileaves := (ileaves VI U F I).
  Notation acons := (acons VI).
  Notation chain := (chain VI PF U F I US).
  Notation sat_step := (sat_step VI PF U F I US).
  Hypothesis HO : honest VI PF U F I US.

  (** ** Assignments following a shape *)

  Inductive follows : shape -> asg -> Prop :=
  | fo_end : follows SEnd ANil
  | fo_flat x r a q : follows r q -> follows (SFlat x r) (AVal x a q)
  | fo_hier x n r a q : follows n a -> follows r q -> follows (SHier x n r) (ANest x a q).

  Lemma contains_follows s : forall x p, fits s x -> contains x p = true -> follows s p.
  Proof.
    induction s as [|y r IH|y n IHn r IH]; intros x p Fx C.
    - destruct x as [| |v arcs|v arcs]; try (destruct Fx as [_ Fx]; now inversion Fx); try discriminate.
      destruct p; try discriminate. constructor.
    - destruct (contains_step VI PF (LFlat y) r x p Fx C) as ([a|a] & q & ->); cbn [HomFacts.acons lvar] in *.
      + constructor. apply (IH (residual x (KVal VI a))); [now apply (residual_fits VI PF (LFlat y))|].
        rewrite <- C. symmetry. apply (residual_contains VI PF (LFlat y) r x (KVal VI a) q Fx).
      + exfalso. destruct x as [| |v arcs|v arcs]; try (destruct Fx as [_ Fx]; now inversion Fx); discriminate.
    - destruct (contains_step VI PF (LHier y n) r x p Fx C) as ([a|a] & q & ->); cbn [HomFacts.acons lvar] in *.
      + exfalso. destruct x as [| |v arcs|v arcs]; try (destruct Fx as [_ Fx]; now inversion Fx); discriminate.
      + destruct x as [| |v arcs|v arcs]; try (destruct Fx as [_ Fx]; now inversion Fx); try discriminate.
        destruct (fits_hier_inv VI PF _ _ _ _ _ Fx) as (-> & _ & _ & G).
        rewrite contains_hier, N.eqb_refl in C. cbn [andb] in C. apply acontains_spec in C.
        destruct C as (v & s & Hin & C1 & C2). destruct (G v s Hin) as (_ & G2 & _ & G4).
        constructor; eauto.
  Qed.

  Definition valid (o : order) (p : asg) : Prop := exists s, oshape o s /\ follows s p.

  Definition step_ok (l : level) (k : step VI) : Prop :=
    match l, k with
    | LFlat _, KVal _ _ => True
    | LHier _ n, KNest _ a => follows n a
    | _, _ => False
    end.

  Lemma valid_level o l o' p : olevel o l o' ->
    (valid o p <-> exists k p', p = acons (lvar l) k p' /\ step_ok l k /\ valid o' p').
  Proof.
    intros L. split.
    - intros (s & O & Fo).
      destruct (oshape_inv _ _ _ O) as [[X _]|(_ & l' & o'' & r & L' & -> & O')].
      { rewrite (olevel_nonempty _ _ _ _ L) in X. discriminate. }
      destruct (olevel_fun _ _ _ _ L' _ _ L) as [-> ->].
      destruct l as [x|x n]; cbn [under] in Fo; inversion Fo; subst.
      + exists (KVal VI a), q. split; [reflexivity|]. split; [exact Logic.I|]. exists r. auto.
      + exists (KNest VI a), q. split; [reflexivity|]. split; [auto|]. exists r. auto.
    - intros (k & p' & -> & Sk & r & O & Fo). exists (under l r). split; [now apply (oshape_level _ _ _ _ _ L)|].
      destruct l as [x|x n], k as [a|a]; cbn in *; try contradiction; now constructor.
  Qed.

  Lemma valid_cons o l o' k p : olevel o l o' -> (valid o (acons (lvar l) k p) <-> step_ok l k /\ valid o' p).
  Proof.
    intros L. rewrite (valid_level o l o' _ L). split.
    - intros (k' & p' & E & A & B). destruct k, k'; cbn in E; try discriminate; injection E as -> ->; auto.
    - intros [A B]. eauto.
  Qed.

  (** Equality of relations on the assignments that follow an order. *)
  Definition weq (o : order) (R R' : rel) : Prop := forall p q, valid o p -> (R p q <-> R' p q).

  Lemma weq_refl o R : weq o R R.
  Proof. intros p q _. reflexivity. Qed.
  Lemma weq_sym o R R' : weq o R R' -> weq o R' R.
  Proof. intros H p q Hp. symmetry. now apply H. Qed.
  Lemma weq_trans o A B C : weq o A B -> weq o B C -> weq o A C.
  Proof. intros H K p q Hp. rewrite (H p q Hp). now apply K. Qed.

  Lemma acts_weq o h R R' : weq o R R' -> acts o h R -> acts o h R'.
  Proof.
    intros H A s x y O Fx E q. rewrite (A s x y O Fx E q).
    split; intros (p & C & X); exists p; (split; [auto|]); apply (H p q); auto;
      exists s; split; auto; now apply (contains_follows s x).
  Qed.

  Lemma runder_weq o l o' R R' : olevel o l o' -> weq o' R R' -> weq o (runder (lvar l) R) (runder (lvar l) R').
  Proof.
    intros L H p q Hp. split; intros (k & p' & q' & -> & -> & X); exists k, p', q';
      (split; [auto|split; [auto|]]); apply (H p' q'); auto; now apply (valid_cons o l o' k p' L) in Hp.
  Qed.

  Lemma runder_cons x R k k' p q : runder x R (acons x k p) (acons x k' q) <-> k = k' /\ R p q.
  Proof.
    split.
    - intros (k0 & p' & q' & E1 & E2 & X).
      destruct k, k', k0; cbn in *; try discriminate; injection E1 as -> ->; injection E2 as -> ->; auto.
    - intros [<- X]. exists k, p, q. auto.
  Qed.

  (** ** What a homomorphism does, from what its elementary parts do *)

  (** The parts that rewriting does not look into. *)
  Definition opaque (h : hom) : bool :=
    match h with
    | HId | HSum _ | HInter _ | HLocal _ _ => false
    | HFix (HSum hs) => negb (existsb is_id hs)
    | _ => true
    end.

  Definition nonskip (o : order) (h : hom) : Prop := hskip o h = false \/ o_empty o = true.

  (** [RO o h]: what the opaque homomorphism [h] does at the order [o]. *)
  Variable RO : order -> hom -> rel.
  (** [leaf o h]: what is required of the opaque homomorphism [h] at [o]; at least that it acts so. *)
  Variable leaf : order -> hom -> Prop.
  Hypothesis leaf_acts : forall o h, leaf o h -> acts o h (RO o h).

  Inductive den : order -> hom -> asg -> asg -> Prop :=
  | den_id o p : den o HId p p
  | den_leaf o h p q : opaque h = true -> nonskip o h -> RO o h p q -> den o h p q
  | den_next o l o' h k p q : opaque h = true -> olevel o l o' -> hskip o h = true -> den o' h p q ->
      den o h (acons (lvar l) k p) (acons (lvar l) k q)
  | den_local o t h o1 on p q : target o t o1 -> o_nested o1 = Some on -> rlocal t (den on h) p q ->
      den o (HLocal t h) p q
  | den_sum o hs h p q : In h hs -> den o h p q -> den o (HSum hs) p q
  | den_fix o hs p q : existsb is_id hs = true ->
      clos_refl_trans _ (fun a b => den o (HSum hs) a b /\ valid o b) p q ->
      den o (HFix (HSum hs)) p q
  | den_inter o hs p : hs <> [] -> (forall h, In h hs -> den o h p p) -> den o (HInter hs) p p.

  (** Homomorphisms that only remove assignments. *)
  Inductive filt : order -> hom -> Prop :=
  | fi_id o : filt o HId
  | fi_leaf o h : opaque h = true -> nonskip o h -> (forall p q, RO o h p q -> p = q) -> filt o h
  | fi_next o l o' h : opaque h = true -> olevel o l o' -> hskip o h = true -> filt o' h -> filt o h
  | fi_local o t h o1 on : target o t o1 -> o_nested o1 = Some on -> filt on h -> filt o (HLocal t h)
  | fi_sum o hs : (forall h, In h hs -> filt o h) -> filt o (HSum hs)
  | fi_fix o hs : existsb is_id hs = true -> filt o (HSum hs) -> filt o (HFix (HSum hs))
  | fi_inter o hs : filt o (HInter hs).

  (** Every elementary part is linear; the operands of intersections only filter. *)
  Inductive lin : order -> hom -> Prop :=
  | lin_id o : lin o HId
  | lin_leaf o h : opaque h = true -> nonskip o h -> leaf o h -> lin o h
  | lin_next o l o' h : opaque h = true -> olevel o l o' -> hskip o h = true -> lin o' h -> lin o h
  | lin_local o t h o1 on : target o t o1 -> o_nested o1 = Some on -> lin on h -> lin o (HLocal t h)
  | lin_sum o hs : (forall h, In h hs -> lin o h) -> lin o (HSum hs)
  | lin_fix o hs : existsb is_id hs = true -> lin o (HSum hs) -> lin o (HFix (HSum hs))
  | lin_inter o hs : (forall h, In h hs -> lin o h) -> (forall h, In h hs -> filt o h) -> lin o (HInter hs).

  Lemma id_in hs : existsb is_id hs = true <-> In HId hs.
  Proof.
    rewrite existsb_exists. split.
    - intros (h & Hin & E). apply is_id_iff in E. now subst h.
    - intros Hin. exists HId. split; [auto|reflexivity].
  Qed.

  Lemma den_id_iff o p q : den o HId p q <-> p = q.
  Proof. split; [intros H; inversion H; subst; auto; discriminate|intros <-; constructor]. Qed.

  Lemma den_sum_iff o hs p q : den o (HSum hs) p q <-> exists h, In h hs /\ den o h p q.
  Proof.
    split.
    - intros H. inversion H; subst; try discriminate. eauto.
    - intros (h & Hin & H). now apply (den_sum o hs h).
  Qed.

  Lemma den_fix_iff o hs p q : In HId hs -> (den o (HFix (HSum hs)) p q <->
    clos_refl_trans _ (fun a b => den o (HSum hs) a b /\ valid o b) p q).
  Proof.
    intros Hi. apply id_in in Hi. split.
    - intros H. inversion H as [|? ? ? ? Op|? ? ? ? ? ? ? Op| | |? ? ? ? ? C|]; subst; auto;
        cbn [opaque] in Op; rewrite Hi in Op; discriminate.
    - intros H. now constructor.
  Qed.

  Lemma den_inter_iff o hs p q : hs <> [] ->
    (den o (HInter hs) p q <-> p = q /\ forall h, In h hs -> den o h p p).
  Proof.
    intros Ne. split.
    - intros H. inversion H; subst; try discriminate. auto.
    - intros (<- & H). now constructor.
  Qed.

  Lemma target_fun o t o1 : target o t o1 -> forall o2, target o t o2 -> o1 = o2.
  Proof.
    induction 1 as [o x V1|o l o' t o1 L N T IH]; intros o2 H2.
    - inversion H2 as [|? l' o'' ? ? L' N' H']; subst; auto. destruct L' as (V2 & _). congruence.
    - inversion H2 as [? ? V2|? l' o'' ? ? L' N' H']; subst.
      + destruct L as (V1 & _). congruence.
      + destruct (olevel_fun _ _ _ _ L _ _ L') as [-> ->]. auto.
  Qed.

  Lemma den_local_iff o t h o1 on p q : target o t o1 -> o_nested o1 = Some on ->
    (den o (HLocal t h) p q <-> rlocal t (den on h) p q).
  Proof.
    intros T M. split.
    - intros H. inversion H as [|? ? ? ? Op|? ? ? ? ? ? ? Op|? ? ? o2 on2 ? ? T2 M2 R| | |]; subst; try discriminate.
      rewrite (target_fun _ _ _ T _ T2) in M. replace on with on2 by congruence. auto.
    - intros H. now apply (den_local o t h o1 on).
  Qed.

  Lemma rlocal_ext t (R R' : rel) : (forall a b, R a b -> R' a b) -> forall p q, rlocal t R p q -> rlocal t R' p q.
  Proof. intros H p q X. induction X; constructor; auto. Qed.

  Lemma opaque_skip o l o' h p q : opaque h = true -> olevel o l o' -> hskip o h = true ->
    (den o h p q <-> runder (lvar l) (den o' h) p q).
  Proof.
    intros Op L Sk. split.
    - intros H. inversion H as [|? ? ? ? _ [X|X]|? l' o'' ? k p' q' _ L' _ D| | |? ? ? ? X|]; subst; try discriminate.
      + congruence.
      + rewrite (olevel_nonempty _ _ _ _ L) in X. discriminate.
      + destruct (olevel_fun _ _ _ _ L' _ _ L) as [-> ->]. exists k, p', q'. auto.
      + cbn [opaque] in Op. rewrite X in Op. discriminate.
    - intros (k & p' & q' & -> & -> & D). now apply (den_next o l o').
  Qed.

  Lemma opaque_here o h p q : opaque h = true -> nonskip o h -> (den o h p q <-> RO o h p q).
  Proof.
    intros Op N. split.
    - intros H. inversion H as [|? ? ? ? _ _ X|? l' o'' ? k p' q' _ L' Sk D| | |? ? ? ? X|]; subst; try discriminate; auto.
      + destruct N as [N|N]; [congruence|]. rewrite (olevel_nonempty _ _ _ _ L') in N. discriminate.
      + cbn [opaque] in Op. rewrite X in Op. discriminate.
    - intros H. now apply den_leaf.
  Qed.

  (** Below a level that it skips, a homomorphism does the same thing. *)
  Theorem den_down h : forall oo ll oo', olevel oo ll oo' -> hskip oo h = true ->
    weq oo (den oo h) (runder (lvar ll) (den oo' h)).
  Proof.
    assert (Opq : forall h oo ll oo', opaque h = true -> olevel oo ll oo' -> hskip oo h = true ->
              weq oo (den oo h) (runder (lvar ll) (den oo' h))).
    { intros h0 oo ll oo' Op L Sk pp q _. now apply opaque_skip. }
    induction h as [| | | |hh IHh| | | | |hs IH|t hh IHh| | | |hs IH] using hom_ind'; intros oo ll oo' L Sk;
      try (now apply Opq).
    - destruct hh as [| | | | | | | | | | | | | |hs]; try (now apply Opq).
      destruct (existsb is_id hs) eqn:Hi.
      2:{ apply Opq; auto. cbn [opaque]. now rewrite Hi. }
      specialize (IHh oo ll oo' L Sk). apply id_in in Hi. intros pp q Hp. rewrite (den_fix_iff oo hs pp q Hi).
      split.
      + intros H. apply clos_rt_rt1n in H. induction H as [pp|pp m q [H1 Vm] H2 IH2].
        * apply (valid_level oo ll oo' _ L) in Hp. destruct Hp as (k & p' & -> & _). exists k, p', p'.
          split; [auto|split; [auto|]]. apply (den_fix_iff oo' hs p' p' Hi). apply rt_refl.
        * specialize (IH2 Vm). apply (IHh pp m Hp) in H1. destruct H1 as (k & p' & m' & -> & -> & D).
          destruct IH2 as (k2 & m2 & q' & E & -> & D2).
          assert (k = k2 /\ m' = m2) as [-> ->].
          { destruct k, k2; cbn in E; try discriminate; injection E as -> ->; auto. }
          exists k2, p', q'. split; [auto|split; [auto|]]. apply (den_fix_iff oo' hs p' q' Hi).
          apply (den_fix_iff oo' hs m2 q' Hi) in D2. eapply rt_trans; [|exact D2]. apply rt_step.
          split; [auto|]. now apply (valid_cons oo ll oo' k2 m2 L) in Vm.
      + intros (k & p' & q' & -> & -> & D). apply (den_fix_iff oo' hs p' q' Hi) in D.
        apply clos_rt_rt1n in D. induction D as [p'|p' m' q' [H1 Vm] H2 IH2]; [apply rt_refl|].
        apply (valid_cons oo ll oo' k p' L) in Hp. destruct Hp as [Sk' Hp].
        assert (Vm2 : valid oo (acons (lvar ll) k m')) by (apply (valid_cons oo ll oo' k m' L); auto).
        eapply rt_trans; [|now apply IH2]. apply rt_step. split; [|auto].
        apply IHh; [apply (valid_cons oo ll oo' k p' L); auto|]. now apply runder_cons.
    - intros pp q Hp. rewrite den_id_iff. split.
      + intros <-. apply (valid_level oo ll oo' _ L) in Hp. destruct Hp as (k & p' & -> & _).
        apply runder_cons. split; [auto|constructor].
      + intros (k & p' & q' & -> & -> & D). apply den_id_iff in D. now subst q'.
    - intros pp q Hp. cbn [Hom.hskip] in Sk. rewrite forallb_forall in Sk. rewrite Forall_forall in IH.
      destruct hs as [|h0 hs].
      { split; [intros H; inversion H; subst; try discriminate; congruence|].
        intros (k & p' & q' & _ & _ & D). inversion D; subst; try discriminate; congruence. }
      rewrite (den_inter_iff oo (h0 :: hs) pp q) by discriminate. split.
      + intros (<- & H). destruct (proj1 (valid_level oo ll oo' _ L) Hp) as (k & p' & -> & _).
        apply runder_cons. split; [auto|]. apply den_inter_iff; [discriminate|]. split; [auto|].
        intros h Hin. specialize (H h Hin). apply (IH h Hin oo ll oo' L (Sk h Hin)) in H; [|auto].
        now apply runder_cons in H.
      + intros (k & p' & q' & -> & -> & D). apply den_inter_iff in D; [|discriminate].
        destruct D as (<- & D). split; [auto|]. intros h Hin. apply (IH h Hin oo ll oo' L (Sk h Hin)); [auto|].
        apply runder_cons. auto.
    - cbn [Hom.hskip] in Sk. apply (var_neqb_level U oo ll oo' t L) in Sk. intros pp q Hp. split.
      + intros H. inversion H as [|? ? ? ? Op|? ? ? ? ? ? ? Op|? ? ? o1 on ? ? T M R| | |]; subst; try discriminate.
        apply (target_down U oo ll oo' t o1 L Sk) in T.
        assert (X : runder (lvar ll) (rlocal t (den on hh)) pp q).
        { apply (rlocal_next VI); [auto|]. split; [auto|].
          apply (valid_level oo ll oo' _ L) in Hp. destruct Hp as (k & p' & -> & _).
          destruct k as [a|a]; cbn in *; inversion R; subst; try congruence;
            [exists (KVal VI a)|exists (KNest VI a)]; cbn; eauto. }
        destruct X as (k & p' & q' & -> & -> & X). exists k, p', q'. split; [auto|split; [auto|]].
        now apply (den_local oo' t hh o1 on).
      + intros (k & p' & q' & -> & -> & D).
        inversion D as [|? ? ? ? Op|? ? ? ? ? ? ? Op|? ? ? o1 on ? ? T M R| | |]; subst; try discriminate.
        apply (target_down U oo ll oo' t o1 L Sk) in T. apply (den_local oo t hh o1 on); auto.
        destruct k; cbn; now constructor.
    - intros pp q Hp. cbn [Hom.hskip] in Sk. rewrite forallb_forall in Sk. rewrite Forall_forall in IH.
      rewrite den_sum_iff. split.
      + intros (h & Hin & D). apply (IH h Hin oo ll oo' L (Sk h Hin)) in D; [|auto].
        destruct D as (k & p' & q' & -> & -> & D). exists k, p', q'. split; [auto|split; [auto|]].
        now apply (den_sum oo' hs h).
      + intros (k & p' & q' & -> & -> & D). apply den_sum_iff in D. destruct D as (h & Hin & D).
        exists h. split; [auto|]. apply (IH h Hin oo ll oo' L (Sk h Hin)); [auto|]. now apply runder_cons.
  Qed.

  Lemma lin_sum_inv o hs : lin o (HSum hs) -> forall h, In h hs -> lin o h.
  Proof. intros H. inversion H; subst; try discriminate; auto. Qed.

  Lemma lin_local_inv o t h o1 on : lin o (HLocal t h) -> target o t o1 -> o_nested o1 = Some on -> lin on h.
  Proof.
    intros H T M. inversion H as [|? ? Op|? ? ? ? Op|? ? ? o2 on2 T2 M2 R| | |]; subst; try discriminate.
    rewrite (target_fun _ _ _ T _ T2) in M. replace on with on2 by congruence. auto.
  Qed.

  Lemma lin_inter_inv o hs : lin o (HInter hs) -> (forall h, In h hs -> lin o h) /\
    (forall h, In h hs -> filt o h).
  Proof. intros H. inversion H; subst; try discriminate; auto. Qed.

  Lemma lin_fix_inv o hs : In HId hs -> lin o (HFix (HSum hs)) -> lin o (HSum hs).
  Proof.
    intros Hi H. apply id_in in Hi.
    inversion H as [|? ? Op|? ? ? ? Op| | | |]; subst; auto; cbn [opaque] in Op; rewrite Hi in Op; discriminate.
  Qed.

  Theorem filt_down o h : filt o h -> forall l o', olevel o l o' -> hskip o h = true -> filt o' h.
  Proof.
    induction 1 as [o|o h Op N A|o l0 o0 h Op L0 Sk0 H IH|o t h o1 on T M H IH|o hs H IH|o hs Hi H IH
                   |o hs]; intros l o' L Sk.
    - constructor.
    - destruct N as [N|N]; [congruence|]. rewrite (olevel_nonempty _ _ _ _ L) in N. discriminate.
    - destruct (olevel_fun _ _ _ _ L0 _ _ L) as [-> ->]. auto.
    - cbn [Hom.hskip] in Sk. apply (var_neqb_level U o l o' t L) in Sk.
      apply (target_down U o l o' t o1 L Sk) in T. apply (fi_local o' t h o1 on); eauto.
    - cbn [Hom.hskip] in Sk. rewrite forallb_forall in Sk. apply fi_sum. eauto.
    - apply fi_fix; eauto.
    - apply fi_inter.
  Qed.

  Theorem lin_down o h : lin o h -> forall l o', olevel o l o' -> hskip o h = true -> lin o' h.
  Proof.
    induction 1 as [o|o h Op N A|o l0 o0 h Op L0 Sk0 H IH|o t h o1 on T M H IH|o hs H IH|o hs Hi H IH
                   |o hs H IH Id]; intros l o' L Sk.
    - constructor.
    - destruct N as [N|N]; [congruence|]. rewrite (olevel_nonempty _ _ _ _ L) in N. discriminate.
    - destruct (olevel_fun _ _ _ _ L0 _ _ L) as [-> ->]. auto.
    - cbn [Hom.hskip] in Sk. apply (var_neqb_level U o l o' t L) in Sk.
      apply (target_down U o l o' t o1 L Sk) in T. apply (lin_local o' t h o1 on); eauto.
    - cbn [Hom.hskip] in Sk. rewrite forallb_forall in Sk. apply lin_sum. eauto.
    - apply lin_fix; eauto.
    - cbn [Hom.hskip] in Sk. rewrite forallb_forall in Sk. apply lin_inter; [eauto|].
      intros h Hin. apply (filt_down o h (Id h Hin) l o' L). auto.
  Qed.

  Lemma rlocal_eq t (R : rel) : (forall a b, R a b -> a = b) -> forall p q, rlocal t R p q -> p = q.
  Proof. intros H p q X. induction X as [a b q' Y|? ? ? ? _ _ ->|? ? ? ? _ _ ->]; auto. now rewrite (H a b Y). Qed.

  Theorem filt_eq o h : filt o h -> forall p q, den o h p q -> p = q.
  Proof.
    induction 1 as [o|o h Op N A|o l0 o0 h Op L0 Sk0 H IH|o t h o1 on T M H IH|o hs H IH|o hs Hi H IH
                   |o hs]; intros p q D.
    - now apply den_id_iff in D.
    - apply A. now apply (opaque_here o h p q).
    - apply (opaque_skip o l0 o0 h p q Op L0 Sk0) in D. destruct D as (k & p' & q' & -> & -> & D).
      now rewrite (IH _ _ D).
    - apply (den_local_iff o t h o1 on p q T M) in D. now apply (rlocal_eq t (den on h) IH).
    - apply den_sum_iff in D. destruct D as (h & Hin & D). eauto.
    - apply id_in in Hi. apply (den_fix_iff o hs p q Hi) in D. induction D as [p q [D _]|p|p m q _ -> _ ->]; auto.
    - inversion D; subst; auto; discriminate.
  Qed.

  (** ** Homomorphisms act as their relation says *)

  Lemma opaque_acts o h : lin o h -> opaque h = true -> forall s', typed o h s' -> acts o h (den o h).
  Proof.
    induction 1 as [o|o h Op N A|o l0 o0 h Op L0 Sk0 H IH|o t h o1 on T M H IH|o hs H IH|o hs Hi H IH
                   |o hs H IH Id]; intros Op' s' Ty; try discriminate.
    - apply (acts_ext VI PF U F I US o h (RO o h)); [|auto]. intros p q. symmetry. now apply opaque_here.
    - destruct (typed_next VI PF U F I US o h s' Ty l0 o0 L0 Sk0) as (r' & -> & Tr).
      apply (acts_ext VI PF U F I US o h (runder (lvar l0) (den o0 h))).
      + intros p q. symmetry. now apply opaque_skip.
      + apply (acts_skip VI VL PF PO U F I US HO o l0 o0 h r'); eauto.
    - cbn [opaque] in Op'. rewrite Hi in Op'. discriminate.
  Qed.

  Lemma inter_loop_acts o s s' x : oshape o s -> fits s x -> forall hs acc y,
    (forall h, In h hs -> typed o h s' /\ acts o h (den o h) /\ filt o h) ->
    (forall z, In z acc -> fits s' z) -> acc ++ map (fun _ => Zero) hs <> [] ->
    runs ends (inter_loop VI PF U F I o hs x acc) y ->
    forall q, contains y q = true <-> (forall z, In z acc -> contains z q = true) /\
      (forall h, In h hs -> contains x q = true /\ den o h q q).
  Proof.
    intros O Fx. induction hs as [|h hs IH]; intros acc y H Fa Ne R q; cbn [inter_loop] in R.
    - apply runs_lift in R. cbn [map] in Ne. rewrite app_nil_r in Ne.
      destruct (inter_ok VI VL PF PO s' acc Ne Fa) as (z & Ez & _ & C).
      assert (z = y) by congruence. subst z. rewrite C, forallb_forall. split.
      + intros A. split; [auto|intros h []].
      + now intros [A _].
    - apply runs_bind_iff in R. destruct R as (z & R1 & R2). apply runs_hcall in R1.
      destruct (H h (or_introl eq_refl)) as (Th & Ah & Fh).
      assert (Cz : contains z q = true <-> contains x q = true /\ den o h q q).
      { rewrite (Ah s x z O Fx R1 q). split.
        - intros (p & Cp & D). assert (p = q) by now apply (filt_eq o h Fh). subst p. auto.
        - intros [Cq D]. eauto. }
      destruct (is_zero VI z) eqn:Z.
      + apply is_zero_iff in Z. subst z. apply runs_ret_iff in R2. subst y. split; [discriminate|].
        intros [_ A]. apply Cz. apply A. now left.
      + rewrite (IH (acc ++ [z]) y); auto.
        * split.
          -- intros [A B]. split; [intros w Hw; apply A, in_or_app; auto|].
             intros k [<-|Hk]; [|auto]. apply Cz, A, in_or_app. right. now left.
          -- intros [A B]. split; [|intros k Hk; apply B; now right].
             intros w Hw. apply in_app_or in Hw. destruct Hw as [Hw|[<-|[]]]; [auto|]. apply Cz, B. now left.
        * intros k Hk. apply H. now right.
        * intros w Hw. apply in_app_or in Hw. destruct Hw as [Hw|[<-|[]]]; [auto|].
          apply (evals_fits VI VL PF PO U F I US HO o h s s' x); auto.
        * intros X. apply app_eq_nil in X. destruct X as [X _]. now apply app_eq_nil in X.
  Qed.

  Theorem den_acts h : forall o s', lin o h -> typed o h s' -> acts o h (den o h).
  Proof.
    induction h as [| | | |hh IHh| | | | |hs IH|t hh IHh| | | |hs IH] using hom_ind'; intros oo s' Ln Ty;
      try (now apply (opaque_acts _ _ Ln) with (s' := s')).
    - destruct hh as [| | | | | | | | | | | | | |hs]; try (now apply (opaque_acts _ _ Ln) with (s' := s')).
      destruct (existsb is_id hs) eqn:Hi.
      2:{ apply (opaque_acts _ _ Ln) with (s' := s'); auto. cbn [opaque]. now rewrite Hi. }
      apply id_in in Hi. destruct (typed_fix_inv VI PF U F I US _ _ _ Ty) as [O0 Th].
      assert (A := IHh oo s' (lin_fix_inv oo hs Hi Ln) Th).
      set (R := fun a b => a = b \/ (den oo (HSum hs) a b /\ valid oo b)).
      assert (AR : acts oo (HSum hs) R).
      { intros s x y O Fx E q. split.
        - intros C. assert (Vq : valid oo q).
          { exists s'. split; [auto|]. apply (contains_follows s' y); auto.
            apply (evals_fits VI VL PF PO U F I US HO oo (HSum hs) s s' x); auto. }
          apply (A s x y O Fx E q) in C. destruct C as (p & Cp & D). exists p. split; [auto|]. right. auto.
        - intros (p & Cp & [<-|[D _]]); apply (A s x y O Fx E); [|eauto]. exists p. split; [auto|].
          apply den_sum_iff. exists HId. split; [auto|constructor]. }
      apply (acts_ext VI PF U F I US oo _ (clos_refl_trans _ R)).
      + intros p q. rewrite (den_fix_iff oo hs p q Hi). split; intros C.
        * induction C as [a b [<-|C]|a|a b c C1 IH1 C2 IH2];
            [apply rt_refl|now apply rt_step|apply rt_refl|eapply rt_trans; eauto].
        * induction C as [a b C|a|a b c C1 IH1 C2 IH2];
            [apply rt_step; now right|apply rt_refl|eapply rt_trans; eauto].
      + apply (acts_fix VI VL PF PO U F I US HO oo (HSum hs) s'); auto. intros p. now left.
    - apply (acts_ext VI PF U F I US oo HId eq); [intros p q; symmetry; apply den_id_iff|apply acts_id].
    - destruct (typed_inter_inv VI PF U F I US _ _ _ Ty) as [Ne _].
      rewrite Forall_forall in IH.
      assert (Gen : forall o s, oshape o s -> forall s', lin o (HInter hs) -> typed o (HInter hs) s' ->
                acts o (HInter hs) (den o (HInter hs))).
      { clear oo s' Ln Ty. apply (oshape_rec U (fun o s => forall s', lin o (HInter hs) ->
          typed o (HInter hs) s' -> acts o (HInter hs) (den o (HInter hs)))).
        - intros o Em s' Ln Ty s x y O Fx E q. destruct (lin_inter_inv _ _ Ln) as [Ls Fs].
          destruct (typed_inter_inv VI PF U F I US _ _ _ Ty) as [_ Th].
          destruct (is_zero VI x) eqn:Z.
          { apply is_zero_iff in Z. subst x. apply evals_zero in E. subst y. split; [discriminate|].
            intros (p & X & _). discriminate. }
          apply (ev_direct VI PF U F I US o (HInter hs) s) in E; auto; try discriminate;
            [|intros ->; discriminate|congruence].
          destruct E as (n & E). cbn [Hom.direct] in E.
          rewrite (inter_loop_acts o s s' x O Fx hs [] y); auto.
          + split.
            * intros [_ A]. exists q. destruct hs as [|h0 hs]; [congruence|].
              split; [now apply (A h0 (or_introl eq_refl))|]. apply den_inter_iff; [auto|].
              split; [auto|]. intros h Hh. now apply A.
            * intros (p & Cp & D). apply den_inter_iff in D; [|auto]. destruct D as [<- D].
              split; [intros z []|]. auto.
          + intros h Hh. split; [auto|]. split; [|auto]. apply (IH h Hh o s'); auto.
          + intros z [].
          + destruct hs; [congruence|discriminate].
        - intros o l o' r L O' IHo s' Ln Ty. destruct (hskip o (HInter hs)) eqn:Sk.
          + destruct (typed_next VI PF U F I US o _ s' Ty l o' L Sk) as (r' & -> & Tr).
            apply (acts_weq o _ (runder (lvar l) (den o' (HInter hs)))).
            * apply weq_sym. now apply den_down.
            * apply (acts_skip VI VL PF PO U F I US HO o l o' _ r'); auto. apply (IHo r'); auto.
              apply (lin_down o _ Ln l o' L Sk).
          + intros s x y O Fx E q. destruct (lin_inter_inv _ _ Ln) as [Ls Fs].
            destruct (typed_inter_inv VI PF U F I US _ _ _ Ty) as [_ Th].
            destruct (is_zero VI x) eqn:Z.
            { apply is_zero_iff in Z. subst x. apply evals_zero in E. subst y. split; [discriminate|].
              intros (p & X & _). discriminate. }
            apply (ev_direct VI PF U F I US o (HInter hs) s) in E; auto; try discriminate;
              [|intros ->; discriminate].
            destruct E as (n & E). cbn [Hom.direct] in E.
            rewrite (inter_loop_acts o s s' x O Fx hs [] y); auto.
            * split.
              -- intros [_ A]. exists q. destruct hs as [|h0 hs]; [congruence|].
                 split; [now apply (A h0 (or_introl eq_refl))|]. apply den_inter_iff; [auto|].
                 split; [auto|]. intros h Hh. now apply A.
              -- intros (p & Cp & D). apply den_inter_iff in D; [|auto]. destruct D as [<- D].
                 split; [intros z []|]. auto.
            * intros h Hh. split; [auto|]. split; [|auto]. apply (IH h Hh o s'); auto.
            * intros z [].
            * destruct hs; [congruence|discriminate]. }
      intros s x y O. apply (Gen oo s O s' Ln Ty s x y O).
    - destruct (typed_local_target VI PF U F I US _ _ _ _ Ty) as (o1 & on & n' & Tg & M & Tn).
      apply (acts_ext VI PF U F I US oo _ (rlocal t (den on hh))).
      + intros p q. symmetry. now apply (den_local_iff oo t hh o1).
      + apply (acts_local VI VL PF PO U F I US HO oo t hh s' o1 on); auto. apply (IHh on n'); auto.
        now apply (lin_local_inv oo t hh o1 on Ln).
    - destruct (typed_sum_inv VI PF U F I US _ _ _ Ty) as [_ Th]. rewrite Forall_forall in IH.
      apply (acts_ext VI PF U F I US oo _ (fun p q => exists h, In h hs /\ den oo h p q)).
      + intros p q. symmetry. apply den_sum_iff.
      + apply (acts_sum VI VL PF PO U F I US HO oo hs s'); auto. intros h Hin. apply (IH h Hin oo s'); auto.
        now apply (lin_sum_inv oo hs Ln).
  Qed.

  (** ** The constructors of sums and intersections *)

  Lemma local_at_valid o t s' on n' : local_at o t s' on n' -> forall p, valid o p ->
    exists a, valid on a /\ rlocal t (fun x y => x = a /\ y = a) p p /\
      forall R q, rlocal t R p q <-> exists b, R a b /\ rlocal t (fun x y => x = a /\ y = b) p q.
  Proof.
    induction 1 as [o t n o' on n' r L M O|o l o' t s' on n' L N H IH]; intros p Vp.
    - apply (valid_level o _ o' p L) in Vp. destruct Vp as ([a|a] & p' & -> & Sk & Vp); [destruct Sk|].
      cbn [step_ok] in Sk. exists a. split; [|split].
      + exists n. split; [|auto]. destruct L as (_ & _ & on' & M' & _ & On). congruence.
      + cbn. constructor. auto.
      + cbn. intros R q. split.
        * intros X. inversion X; subst; [|congruence]. exists b. split; [auto|]. constructor. auto.
        * intros (b & Rb & X). inversion X as [a' b' q' [-> ->]| |]; subst; [|congruence]. now constructor.
    - apply (valid_level o _ o' p L) in Vp. destruct Vp as (k & p' & -> & Sk & Vp).
      destruct (IH p' Vp) as (a & Va & X & Y). exists a. split; [auto|split].
      + destruct k; cbn; now constructor.
      + intros R q. split.
        * intros Z. destruct k as [c|c]; cbn in Z; inversion Z as [|? ? ? q' Nx Z'|? ? ? q' Nx Z']; subst; try congruence;
            apply Y in Z'; destruct Z' as (b & Rb & Z'); exists b; (split; [auto|]); cbn; now constructor.
        * intros (b & Rb & Z). destruct k as [c|c]; cbn in Z |- *;
            inversion Z as [|? ? ? q' Nx Z'|? ? ? q' Nx Z']; subst; try congruence; constructor; auto; apply Y; eauto.
  Qed.

  Lemma rlocal_weq o t s' on n' R R' : local_at o t s' on n' -> weq on R R' -> weq o (rlocal t R) (rlocal t R').
  Proof.
    intros L H p q Vp. destruct (local_at_valid o t s' on n' L p Vp) as (a & Va & _ & Y).
    rewrite (Y R q), (Y R' q). split; intros (b & Rb & X); exists b; (split; [|auto]); now apply (H a b Va).
  Qed.

  Lemma rlocal_same o t s' on n' p (R : rel) : local_at o t s' on n' -> valid o p ->
    exists a, valid on a /\ forall R : rel, rlocal t R p p <-> R a a.
  Proof.
    intros L Vp. destruct (local_at_valid o t s' on n' L p Vp) as (a & Va & X & Y).
    exists a. split; [auto|]. intros R0. rewrite (Y R0 p). split; [|eauto].
    intros (b & Rb & Z). replace a with b at 2; [auto|]. clear - X Z.
    revert Z. induction X as [u v q [-> ->]|x u q q' Nx X IH|x u q q' Nx X IH]; intros Z.
    - inversion Z as [? ? ? [_ E]| |]; subst; [auto|congruence].
    - inversion Z; subst; auto.
    - inversion Z; subst; try congruence; auto.
  Qed.

  Lemma mk_local_lin o t s' on n' h : local_at o t s' on n' -> lin on h -> lin o (local t h).
  Proof.
    intros L Ln. unfold Hom.local. destruct (is_id h) eqn:E; [apply is_id_iff in E; subst h; constructor|].
    destruct (local_at_target U _ _ _ _ _ L) as (o1 & Tg & M). apply (lin_local o t h o1 on); auto.
  Qed.

  Lemma mk_local_filt o t s' on n' h : local_at o t s' on n' -> filt on h -> filt o (local t h).
  Proof.
    intros L Ln. unfold Hom.local. destruct (is_id h) eqn:E; [apply is_id_iff in E; subst h; constructor|].
    destruct (local_at_target U _ _ _ _ _ L) as (o1 & Tg & M). apply (fi_local o t h o1 on); auto.
  Qed.

  Lemma den_local_at o t s' on n' h p q : local_at o t s' on n' ->
    (den o (HLocal t h) p q <-> rlocal t (den on h) p q).
  Proof.
    intros L. destruct (local_at_target U _ _ _ _ _ L) as (o1 & Tg & M). now apply (den_local_iff o t h o1).
  Qed.

  Lemma mk_local_den o t s' on n' h : local_at o t s' on n' ->
    weq o (den o (local t h)) (rlocal t (den on h)).
  Proof.
    intros L p q Vp. unfold Hom.local. destruct (is_id h) eqn:E.
    - apply is_id_iff in E. subst h. rewrite den_id_iff. split.
      + intros <-. destruct (rlocal_same o t s' on n' p (den on HId) L Vp) as (a & Va & X). apply X. constructor.
      + apply rlocal_eq. intros a b. apply den_id_iff.
    - now apply (den_local_at o t s' on n').
  Qed.

  (** "insert remaining locals", for a notion of good homomorphisms and of equivalent lists. *)
  Section Regroup.
    Variable G : order -> shape -> hom -> Prop.
    Variable eqv : order -> list hom -> list hom -> Prop.
    Hypothesis E_mem : forall o a b, (forall k, In k a <-> In k b) -> eqv o a b.
    Hypothesis E_trans : forall o a b c, eqv o a b -> eqv o b c -> eqv o a c.
    Hypothesis E_app : forall o a b c d, eqv o a c -> eqv o b d -> eqv o (a ++ b) (c ++ d).
    Hypothesis G_down : forall o s' t k, G o s' (HLocal t k) ->
      exists on n', local_at o t s' on n' /\ G on n' k.
    Hypothesis G_local : forall o t s' on n' h l, local_at o t s' on n' -> l <> [] ->
      G on n' h -> (forall k, In k l -> G on n' k) -> eqv on [h] l ->
      G o s' (local t h) /\ eqv o [local t h] (map (HLocal t) l).

    Lemma regroup_gen (build : list hom -> res (cerr U) hom) o s' :
      (forall l h on n', build l = Ok h -> (forall k, In k l -> G on n' k) ->
         (exists n, oshape on n) -> G on n' h /\ eqv on [h] l) ->
      forall m ops ops', (forall t l, In (t, l) m -> l <> []) ->
        (forall k, In k ops \/ In k (locals_of m) -> G o s' k) ->
        regroup build m ops = Ok ops' ->
        (forall k, In k ops' -> G o s' k) /\ eqv o ops' (ops ++ locals_of m) /\
        (forall k, In k ops -> In k ops').
    Proof.
      intros Hb. induction m as [|[t l] m IH]; intros ops ops' Hne Ht E.
      - cbn in E. injection E as <-. rewrite app_nil_r. split; [auto|split; [|auto]].
        apply E_mem. intros k. reflexivity.
      - cbn [Hom.regroup] in E. destruct (build l) as [h|] eqn:Eh; [|discriminate]. cbn [rbind] in E.
        assert (Hl : forall k, In k l -> G o s' (HLocal t k)).
        { intros k Hk. apply Ht. right. unfold HomSum.locals_of. cbn [flat_map fst snd]. apply in_or_app. left.
          apply in_map_iff. now exists k. }
        pose proof (Hne t l (or_introl eq_refl)) as Nl.
        assert (L : exists on n', local_at o t s' on n' /\ (forall k, In k l -> G on n' k)).
        { destruct l as [|k0 l0]; [congruence|].
          pose proof (Hl k0 (or_introl eq_refl)) as T0. apply G_down in T0.
          destruct T0 as (on & n' & L & T0). exists on, n'. split; [auto|]. intros k Hk.
          pose proof (Hl k Hk) as T1. apply G_down in T1. destruct T1 as (on1 & n1 & L1 & T1).
          destruct (local_at_fun U _ _ _ _ _ L _ _ L1) as [-> ->]. auto. }
        destruct L as (on & n' & L & Tl).
        destruct (local_at_nested U _ _ _ _ _ L) as (n & On & _).
        destruct (Hb l h on n' Eh Tl (ex_intro _ n On)) as [Th Sh].
        destruct (G_local o t s' on n' h l L Nl Th Tl Sh) as [Gl Sl].
        destruct (IH (hset_add (local t h) ops) ops') as (A & B & C); auto.
        { intros t' l' Hin. apply (Hne t' l'). now right. }
        { intros k [Hk|Hk].
          - apply (hset_add_in VI U F I HP HPO) in Hk. destruct Hk as [->|Hk]; auto.
          - apply Ht. right. unfold HomSum.locals_of in *. cbn [flat_map]. apply in_or_app. auto. }
        split; [auto|split].
        + apply (E_trans _ _ _ _ B).
          apply (E_trans _ _ ((ops ++ [local t h]) ++ locals_of m)).
          { apply E_mem. intros k. rewrite !in_app_iff, (hset_add_in VI U F I HP HPO). cbn. intuition. }
          unfold HomSum.locals_of at 2. cbn [flat_map fst snd]. rewrite app_assoc.
          apply E_app; [|apply E_mem; intros k; reflexivity].
          apply E_app; [apply E_mem; intros k; reflexivity|exact Sl].
        + intros k Hk. apply C. apply (hset_add_in VI U F I HP HPO). auto.
    Qed.
  End Regroup.

  (** Sums. *)
  Definition uden (o : order) (l : list hom) : rel := fun p q => exists k, In k l /\ den o k p q.

  Lemma uden_app o a b p q : uden o (a ++ b) p q <-> uden o a p q \/ uden o b p q.
  Proof.
    unfold uden. split.
    - intros (k & Hk & D). apply in_app_or in Hk. destruct Hk; [left|right]; eauto.
    - intros [(k & Hk & D)|(k & Hk & D)]; exists k; (split; [apply in_or_app; auto|auto]).
  Qed.

  Definition sgood (o : order) (s' : shape) (h : hom) : Prop := typed o h s' /\ lin o h.
  Definition ueq (o : order) (a b : list hom) : Prop := weq o (uden o a) (uden o b).

  Lemma leaves_lin h : forall o, lin o h -> (forall k, In k (leaves h) -> lin o k) /\
    forall p q, den o h p q <-> uden o (leaves h) p q.
  Proof.
    induction h as [| | | | | | | | | | | | | |hs IH] using hom_ind'; intros oo Ln;
      try (cbn [HomSum.leaves]; split; [intros k [<-|[]]; auto|];
           intros pp qq; unfold uden; cbn [In]; split; [eauto|intros (k & [<-|[]] & D); auto]).
    cbn [HomSum.leaves]. assert (Ls := lin_sum_inv _ _ Ln). rewrite Forall_forall in IH. split.
    - intros k Hk. apply in_flat_map in Hk. destruct Hk as (h & Hh & Hk). now apply (IH h Hh oo (Ls h Hh)).
    - intros pp qq. rewrite den_sum_iff. unfold uden. split.
      + intros (h & Hh & D). apply (IH h Hh oo (Ls h Hh)) in D. destruct D as (k & Hk & D).
        exists k. split; [|auto]. apply in_flat_map. eauto.
      + intros (k & Hk & D). apply in_flat_map in Hk. destruct Hk as (h & Hh & Hk). exists h. split; [auto|].
        apply (IH h Hh oo (Ls h Hh)). exists k. auto.
  Qed.

  Lemma sgood_down o s' t k : sgood o s' (HLocal t k) -> exists on n', local_at o t s' on n' /\ sgood on n' k.
  Proof.
    intros [T Ln]. apply (typed_local_iff VI PF U F I US) in T. destruct T as (on & n' & L & T).
    exists on, n'. split; [auto|]. split; [auto|].
    destruct (local_at_target U _ _ _ _ _ L) as (o1 & Tg & M). now apply (lin_local_inv o t k o1 on).
  Qed.

  Lemma sgood_local o t s' on n' h l : local_at o t s' on n' -> l <> [] ->
    sgood on n' h -> (forall k, In k l -> sgood on n' k) -> ueq on [h] l ->
    sgood o s' (local t h) /\ ueq o [local t h] (map (HLocal t) l).
  Proof.
    intros L Nl [Th Lh] Gl E. split.
    - split; [|now apply (mk_local_lin o t s' on n')].
      apply (typed_mk_local VI PF U F I US). apply (typed_local_iff VI PF U F I US). eauto.
    - intros p q Vp. transitivity (rlocal t (den on h) p q).
      { unfold uden. cbn [In]. split.
        - intros (k & [<-|[]] & D). now apply (mk_local_den o t s' on n' h L p q Vp).
        - intros D. exists (local t h). split; [auto|]. now apply (mk_local_den o t s' on n' h L p q Vp). }
      transitivity (rlocal t (uden on l) p q).
      { apply (rlocal_weq o t s' on n'); auto. intros a b Va. rewrite <- (E a b Va). unfold uden. cbn [In]. split.
        - intros D. eauto.
        - intros (k & [<-|[]] & D). auto. }
      destruct (local_at_valid o t s' on n' L p Vp) as (a & Va & _ & Y). rewrite (Y (uden on l) q). split.
      + intros (b & (k & Hk & D) & X). exists (HLocal t k). split; [apply in_map_iff; eauto|].
        apply (den_local_at o t s' on n' k p q L). apply Y. eauto.
      + intros (k0 & Hk & D). apply in_map_iff in Hk. destruct Hk as (k & <- & Hk).
        apply (den_local_at o t s' on n' k p q L) in D. apply Y in D. destruct D as (b & D & X).
        exists b. split; [|auto]. exists k. auto.
  Qed.

  Theorem sum_fuel_den : forall fuel l h o s', sum_fuel fuel l = Ok h -> (forall k, In k l -> sgood o s' k) ->
    (exists s, oshape o s) -> sgood o s' h /\ ueq o [h] l.
  Proof.
    induction fuel as [|fuel IH]; intros l h o s' E Gl O; [discriminate|].
    assert (Th : typed o h s').
    { apply (sum_fuel_ok VI VL PF PO U F I HP HPO US HO (S fuel) l h o s' E); auto.
      intros k Hk. now apply Gl. }
    cbn [Hom.sum_fuel] in E. destruct l as [|h0 l0]; [discriminate|]. set (l := h0 :: l0) in *.
    destruct (fold_left sum_visit l ([], [])) as [ops locals] eqn:Ef.
    destruct (regroup (sum_fuel fuel) (h_iter HP locals) ops) as [ops'|] eqn:Er; [|discriminate].
    cbn [rbind] in E.
    destruct (leaves_list VI VL PF PO U F I US HO l o s') as (A & _ & _); [intros k Hk; now apply Gl|].
    assert (R : forall k, In k (ops ++ locals_of (h_iter HP locals)) <-> In k (flat_map leaves l)).
    { intros k. rewrite in_app_iff, (locals_iter VI U F I HP HPO), <- in_app_iff.
      change (ops ++ locals_of locals) with (repr (ops, locals)).
      rewrite <- Ef, (sum_fold_repr VI U F I HP HPO). cbn. intuition. }
    assert (Lf : forall k, In k (flat_map leaves l) -> lin o k).
    { intros k Hk. apply in_flat_map in Hk. destruct Hk as (k0 & Hk0 & Hk).
      now apply (leaves_lin k0 o (proj2 (Gl k0 Hk0))). }
    destruct (regroup_gen sgood ueq) with (build := sum_fuel fuel) (o := o) (s' := s')
      (m := h_iter HP locals) (ops := ops) (ops' := ops') as (A' & B' & C'); auto.
    { intros o0 a b H p q Vp. unfold uden. split; intros (k & Hk & D); exists k; (split; [now apply H|auto]). }
    { intros o0 a b c H K. now apply (weq_trans o0 _ (uden o0 b)). }
    { intros o0 a b c d H K p q Vp. rewrite !uden_app, (H p q Vp), (K p q Vp). reflexivity. }
    { apply sgood_down. }
    { apply sgood_local. }
    { intros t l' Hin. apply (sum_fold_ne VI U F I HP l ([], [])) with (t := t).
      - intros t1 l1 [].
      - rewrite Ef. cbn [snd]. now apply (Permutation_in _ (hp_iter HPO locals)). }
    { intros k Hk. apply in_or_app in Hk. apply R in Hk. split; auto. }
    assert (S : ueq o ops' l).
    { intros p q Vp. rewrite (B' p q Vp). unfold uden. split.
      - intros (k & Hk & D). apply R in Hk. apply in_flat_map in Hk. destruct Hk as (k0 & Hk0 & Hk).
        exists k0. split; [auto|]. apply (leaves_lin k0 o (proj2 (Gl k0 Hk0))). exists k. auto.
      - intros (k0 & Hk0 & D). apply (leaves_lin k0 o (proj2 (Gl k0 Hk0))) in D. destruct D as (k & Hk & D).
        exists k. split; [|auto]. apply R. apply in_flat_map. eauto. }
    assert (Fin : lin o h /\ ueq o [h] ops').
    { destruct ops' as [|h1 [|h2 r]]; injection E as <-.
      - split; [apply lin_sum; intros k []|]. intros p q Vp. unfold uden. cbn [In]. split.
        + intros (k & [<-|[]] & D). now apply den_sum_iff in D.
        + intros (k & [] & _).
      - split; [apply A'; now left|apply weq_refl].
      - split; [apply lin_sum; intros k Hk; now apply A'|]. intros p q Vp. unfold uden at 1. cbn [In]. split.
        + intros (k & [<-|[]] & D). now apply den_sum_iff in D.
        + intros D. eexists. split; [left; reflexivity|]. now apply den_sum_iff. }
    destruct Fin as [Lh Eh]. split; [split; auto|]. now apply (weq_trans o _ (uden o ops')).
  Qed.

  Lemma regroup_keep build m : forall ops ops' k, regroup build m ops = Ok ops' -> In k ops -> In k ops'.
  Proof.
    induction m as [|[t l] m IH]; intros ops ops' k E Hk; cbn [Hom.regroup] in E.
    - now injection E as <-.
    - destruct (build l) as [h|]; [|discriminate]. cbn [rbind] in E. apply (IH _ _ k E).
      apply (hset_add_in VI U F I HP HPO). auto.
  Qed.

  Lemma mk_sum_id l h : mk_sum l = Ok h -> In HId l -> h = HId \/ exists hs, h = HSum hs /\ In HId hs.
  Proof.
    unfold Hom.mk_sum. generalize (list_sum (map hsize l)). intros n E Hi. cbn [Hom.sum_fuel] in E.
    destruct l as [|h0 l0]; [discriminate|]. set (l := h0 :: l0) in *.
    destruct (fold_left sum_visit l ([], [])) as [ops locals] eqn:Ef.
    destruct (regroup (sum_fuel n) (h_iter HP locals) ops) as [ops'|] eqn:Er; [|discriminate].
    cbn [rbind] in E.
    assert (R : In HId (repr (ops, locals))).
    { rewrite <- Ef. apply (sum_fold_repr VI U F I HP HPO). right. apply in_flat_map. exists HId. split; [auto|now left]. }
    assert (Ho : In HId ops).
    { unfold HomSum.repr in R. cbn [fst snd] in R. apply in_app_or in R. destruct R as [R|R]; [auto|].
      unfold HomSum.locals_of in R. apply in_flat_map in R. destruct R as (x & _ & R). apply in_map_iff in R.
      destruct R as (y & X & _). discriminate. }
    apply (regroup_keep _ _ _ _ HId Er) in Ho.
    destruct ops' as [|h1 [|h2 r]]; injection E as <-; eauto.
    left. destruct Ho as [Ho|[]]. auto.
  Qed.

  (** Intersections. *)
  Definition iden (o : order) (l : list hom) (p : asg) : Prop := forall k, In k l -> den o k p p.
  Definition igood (o : order) (s' : shape) (h : hom) : Prop := typed o h s' /\ lin o h /\ filt o h.
  Definition ieq (o : order) (a b : list hom) : Prop := forall p, valid o p -> (iden o a p <-> iden o b p).

  Lemma iden_app o a b p : iden o (a ++ b) p <-> iden o a p /\ iden o b p.
  Proof.
    unfold iden. split.
    - intros H. split; intros k Hk; apply H; apply in_or_app; auto.
    - intros [A B] k Hk. apply in_app_or in Hk. destruct Hk; auto.
  Qed.

  Lemma ileaves_lin h : forall o s', igood o s' h -> (forall k, In k (ileaves h) -> igood o s' k) /\
    forall p, den o h p p <-> iden o (ileaves h) p.
  Proof.
    induction h as [| | | | | | | | |hs IH| | | | |] using hom_ind'; intros oo s' Gh;
      try (cbn [HomInter.ileaves]; split; [intros k [<-|[]]; auto|];
           intros pp; unfold iden; cbn [In]; split; [intros D k [<-|[]]; auto|intros D; apply D; auto]).
    cbn [HomInter.ileaves]. destruct Gh as (T & Ln & _).
    destruct (typed_inter_inv VI PF U F I US _ _ _ T) as [Ne Th].
    destruct (lin_inter_inv _ _ Ln) as [Ls Fs]. rewrite Forall_forall in IH.
    assert (Gs : forall h, In h hs -> igood oo s' h) by (intros h Hh; split; auto).
    split.
    - intros k Hk. apply in_flat_map in Hk. destruct Hk as (h & Hh & Hk). now apply (IH h Hh oo s' (Gs h Hh)).
    - intros pp. rewrite den_inter_iff by auto. unfold iden. split.
      + intros [_ D] k Hk. apply in_flat_map in Hk. destruct Hk as (h & Hh & Hk).
        now apply (proj1 (proj2 (IH h Hh oo s' (Gs h Hh)) pp) (D h Hh)).
      + intros D. split; [auto|]. intros h Hh. apply (IH h Hh oo s' (Gs h Hh)). intros k Hk. apply D.
        apply in_flat_map. eauto.
  Qed.

  Lemma filt_local_inv o t h o1 on : filt o (HLocal t h) -> target o t o1 -> o_nested o1 = Some on -> filt on h.
  Proof.
    intros H T M. inversion H as [|? ? Op|? ? ? ? Op|? ? ? o2 on2 T2 M2 R| | |]; subst; try discriminate.
    rewrite (target_fun _ _ _ T _ T2) in M. replace on with on2 by congruence. auto.
  Qed.

  Lemma igood_down o s' t k : igood o s' (HLocal t k) -> exists on n', local_at o t s' on n' /\ igood on n' k.
  Proof.
    intros (T & Ln & Fi). apply (typed_local_iff VI PF U F I US) in T. destruct T as (on & n' & L & T).
    exists on, n'. split; [auto|]. split; [auto|].
    destruct (local_at_target U _ _ _ _ _ L) as (o1 & Tg & M).
    split; [now apply (lin_local_inv o t k o1 on)|now apply (filt_local_inv o t k o1 on)].
  Qed.

  Lemma igood_local o t s' on n' h l : local_at o t s' on n' -> l <> [] ->
    igood on n' h -> (forall k, In k l -> igood on n' k) -> ieq on [h] l ->
    igood o s' (local t h) /\ ieq o [local t h] (map (HLocal t) l).
  Proof.
    intros L Nl (Th & Lh & Fh) Gl E. split.
    - split; [|split; [now apply (mk_local_lin o t s' on n')|now apply (mk_local_filt o t s' on n')]].
      apply (typed_mk_local VI PF U F I US). apply (typed_local_iff VI PF U F I US). eauto.
    - intros p Vp. destruct (rlocal_same o t s' on n' p (den on h) L Vp) as (a & Va & X).
      transitivity (den on h a a).
      { rewrite <- (X (den on h)), <- (mk_local_den o t s' on n' h L p p Vp). unfold iden. cbn [In]. split.
        - intros D. apply D. auto.
        - intros D k [<-|[]]. auto. }
      transitivity (iden on l a).
      { rewrite <- (E a Va). unfold iden. cbn [In]. split; [intros D k [<-|[]]; auto|intros D; apply D; auto]. }
      unfold iden. split.
      + intros D k0 Hk. apply in_map_iff in Hk. destruct Hk as (k & <- & Hk).
        apply (den_local_at o t s' on n' k p p L). apply (X (den on k)). auto.
      + intros D k Hk. apply (X (den on k)). apply (den_local_at o t s' on n' k p p L). apply D. apply in_map_iff. eauto.
  Qed.

  Theorem inter_fuel_den : forall fuel l h o s', inter_fuel fuel l = Ok h -> (forall k, In k l -> igood o s' k) ->
    (exists s, oshape o s) -> igood o s' h /\ ieq o [h] l.
  Proof.
    induction fuel as [|fuel IH]; intros l h o s' E Gl O; [discriminate|].
    cbn [Hom.inter_fuel] in E. destruct l as [|h0 l0]; [discriminate|]. set (l := h0 :: l0) in *.
    destruct (fold_left inter_visit l ([], [])) as [ops locals] eqn:Ef.
    destruct (regroup (inter_fuel fuel) (h_iter HP locals) ops) as [ops'|] eqn:Er; [|discriminate].
    cbn [rbind] in E.
    assert (R : forall k, In k (ops ++ locals_of (h_iter HP locals)) <-> In k (flat_map ileaves l)).
    { intros k. rewrite in_app_iff, (locals_iter VI U F I HP HPO), <- in_app_iff.
      change (ops ++ locals_of locals) with (repr (ops, locals)).
      rewrite <- Ef, (inter_fold_repr VI U F I HP HPO). cbn. intuition. }
    assert (Lf : forall k, In k (flat_map ileaves l) -> igood o s' k).
    { intros k Hk. apply in_flat_map in Hk. destruct Hk as (k0 & Hk0 & Hk).
      now apply (ileaves_lin k0 o s' (Gl k0 Hk0)). }
    destruct (regroup_gen igood ieq) with (build := inter_fuel fuel) (o := o) (s' := s')
      (m := h_iter HP locals) (ops := ops) (ops' := ops') as (A' & B' & C'); auto.
    { intros o0 a b H p Vp. unfold iden. split; intros D k Hk; apply D; now apply H. }
    { intros o0 a b c H K p Vp. rewrite (H p Vp). now apply K. }
    { intros o0 a b c d H K p Vp. rewrite !iden_app, (H p Vp), (K p Vp). reflexivity. }
    { apply igood_down. }
    { apply igood_local. }
    { intros t l' Hin. apply (inter_fold_ne VI U F I HP l ([], [])) with (t := t).
      - intros t1 l1 [].
      - rewrite Ef. cbn [snd]. now apply (Permutation_in _ (hp_iter HPO locals)). }
    { intros k Hk. apply in_or_app in Hk. apply R in Hk. auto. }
    assert (S : ieq o ops' l).
    { intros p Vp. rewrite (B' p Vp). unfold iden. split.
      - intros D k0 Hk0. apply (ileaves_lin k0 o s' (Gl k0 Hk0)). intros k Hk. apply D, R. apply in_flat_map. eauto.
      - intros D k Hk. apply R in Hk. apply in_flat_map in Hk. destruct Hk as (k0 & Hk0 & Hk).
        now apply (proj1 (proj2 (ileaves_lin k0 o s' (Gl k0 Hk0)) p) (D k0 Hk0)). }
    assert (Ne : ops' <> []).
    { intros X. subst ops'. assert (K : ops ++ locals_of (h_iter HP locals) = []).
      - destruct ops as [|k ops]; [|exfalso; apply (C' k); now left].
        destruct (h_iter HP locals) as [|[t l1] m] eqn:Em; [reflexivity|].
        exfalso. cbn [Hom.regroup] in Er. destruct (inter_fuel fuel l1) as [h1|]; [|discriminate].
        cbn [rbind] in Er. apply (regroup_keep _ _ _ _ (local t h1)) in Er; [destruct Er|].
        apply (hset_add_in VI U F I HP HPO). auto.
      - assert (N0 : ileaves h0 <> []).
        { clear - Gl. assert (T : typed o h0 s') by (apply (Gl h0); now left). clear Gl. clearbody l || idtac. revert s' T.
          induction h0 as [| | | | | | | | |hs IH| | | | |] using hom_ind'; intros s' T; try discriminate.
          destruct (typed_inter_inv VI PF U F I US _ _ _ T) as [Ne Th]. cbn [HomInter.ileaves].
          rewrite Forall_forall in IH. destruct hs as [|h1 hs]; [congruence|]. cbn [flat_map]. intros X.
          apply app_eq_nil in X. destruct X as [X _].
          apply (IH h1 (or_introl eq_refl) s' (Th h1 (or_introl eq_refl)) X). }
        destruct (ileaves h0) as [|k ks] eqn:Ek; [congruence|].
        assert (Y : In k (ops ++ locals_of (h_iter HP locals))).
        { apply R. unfold l. cbn [flat_map]. rewrite Ek. now left. }
        rewrite K in Y. destruct Y. }
    assert (Fin : igood o s' h /\ ieq o [h] ops').
    { destruct ops' as [|h1 [|h2 r]]; [congruence| |]; injection E as <-.
      - split; [apply A'; now left|]. intros p Vp. reflexivity.
      - split; [split; [|split]|].
        + constructor; [auto|]. intros k Hk. now apply A'.
        + apply lin_inter; intros k Hk; now apply A'.
        + apply fi_inter.
        + intros p Vp. unfold iden at 1. cbn [In]. split.
          * intros D. assert (D1 := D _ (or_introl eq_refl)). apply den_inter_iff in D1; [|discriminate].
            intros k Hk. now apply D1.
          * intros D k [<-|[]]. apply den_inter_iff; [discriminate|]. split; [auto|]. exact D. }
    destruct Fin as [Gh Eh]. split; [auto|]. intros p Vp. rewrite (Eh p Vp). now apply S.
  Qed.

  (** ** Typing above a skipped level *)
  Lemma typed_up h : forall o l o' r', olevel o l o' -> (exists r, oshape o' r) -> typed o' h r' ->
    hskip o h = true -> typed o h (under l r').
  Proof.
    induction h as [hl hr IHl IHr| | | |hh IHh| | |hc ht he IHc IHt IHe| |hs IH|t hh IHh| | | |hs IH] using hom_ind';
      intros oo ll oo' r' L O T Sk; cbn [Hom.hskip] in Sk; try discriminate.
    - apply andb_true_iff in Sk. destruct Sk as [Sl Sr].
      destruct (typed_comp_inv VI PF U F I US _ _ _ _ T) as (r0 & O0 & Tg & Tf).
      apply (T_comp VI PF U F I US oo hl hr (under ll r0)); [now apply (oshape_level _ _ _ _ _ L)| |]; eauto.
    - destruct (typed_fix_inv VI PF U F I US _ _ _ T) as [O0 Th].
      apply T_fix; [now apply (oshape_level _ _ _ _ _ L)|eauto].
    - apply (T_fun_next VI PF U F I US oo ll oo'); auto. now apply (var_neqb_level U oo ll oo').
    - apply typed_id_inv in T. constructor. now apply (oshape_level _ _ _ _ _ L).
    - apply andb_true_iff in Sk. destruct Sk as [Sk St]. apply andb_true_iff in Sk. destruct Sk as [Sp Se].
      destruct (typed_ite_inv VI PF U F I US _ _ _ _ _ T) as (r0 & O0 & Sel & Tp & Tt & Te).
      apply (T_ite VI PF U F I US oo _ _ _ (under ll r0)); eauto. now apply (oshape_level _ _ _ _ _ L).
    - now apply (T_ind_next VI PF U F I US oo ll oo').
    - destruct (typed_inter_inv VI PF U F I US _ _ _ T) as [Ne Th]. rewrite Forall_forall in IH.
      rewrite forallb_forall in Sk. apply T_inter; [auto|]. intros h Hh. eauto.
    - apply (T_local_next VI PF U F I US oo ll oo'); auto. now apply (var_neqb_level U oo ll oo').
    - apply (T_satfix_next VI PF U F I US oo ll oo'); auto. now apply (var_neqb_level U oo ll oo').
    - apply (T_satinter_next VI PF U F I US oo ll oo'); auto. now apply (var_neqb_level U oo ll oo').
    - apply (T_satsum_next VI PF U F I US oo ll oo'); auto. now apply (var_neqb_level U oo ll oo').
    - destruct (typed_sum_inv VI PF U F I US _ _ _ T) as [Ne Th]. rewrite Forall_forall in IH.
      rewrite forallb_forall in Sk. apply T_sum; [auto|]. intros h Hh. eauto.
  Qed.

  (** ** The rewritten homomorphism still skips the levels above *)

  Fixpoint spine (s : shape) : list N :=
    match s with
    | SEnd => []
    | SFlat x r => x :: spine r
    | SHier x _ r => x :: spine r
    end.

  (** No variable occurs twice at the same depth. *)
  Fixpoint distinct (s : shape) : Prop :=
    match s with
    | SEnd => True
    | SFlat x r => ~ In x (spine r) /\ distinct r
    | SHier x n r => ~ In x (spine r) /\ distinct n /\ distinct r
    end.

  Lemma local_skip o0 t h : var_neqb U o0 t = true -> hskip o0 (local t h) = true.
  Proof.
    intros H. unfold Hom.local. destruct (is_id h) eqn:E; [|exact H]. apply is_id_iff in E. now subst h.
  Qed.

  Lemma regroup_mem build : forall m ops ops' k, regroup build m ops = Ok ops' -> In k ops' ->
    In k ops \/ exists t h l, In (t, l) m /\ k = local t h.
  Proof.
    induction m as [|[t l] m IH]; intros ops ops' k E Hk; cbn [Hom.regroup] in E.
    - injection E as <-. auto.
    - destruct (build l) as [h|]; [|discriminate]. cbn [rbind] in E.
      destruct (IH _ _ k E Hk) as [H|(t1 & h1 & l1 & H1 & H2)].
      + apply (hset_add_in VI U F I HP HPO) in H. destruct H as [->|H]; [|auto].
        right. exists t, h, l. split; [now left|auto].
      + right. exists t1, h1, l1. split; [now right|auto].
  Qed.

  Lemma leaves_skip o0 h : hskip o0 h = true -> forall k, In k (leaves h) -> hskip o0 k = true.
  Proof.
    induction h as [| | | | | | | | | | | | | |hs IH] using hom_ind'; intros Sk k Hk;
      try (destruct Hk as [<-|[]]; exact Sk).
    cbn [HomSum.leaves] in Hk. cbn [Hom.hskip] in Sk. rewrite forallb_forall in Sk. rewrite Forall_forall in IH.
    apply in_flat_map in Hk. destruct Hk as (h & Hh & Hk). eauto.
  Qed.

  Lemma ileaves_skip o0 h : hskip o0 h = true -> forall k, In k (ileaves h) -> hskip o0 k = true.
  Proof.
    induction h as [| | | | | | | | |hs IH| | | | |] using hom_ind'; intros Sk k Hk;
      try (destruct Hk as [<-|[]]; exact Sk).
    cbn [HomInter.ileaves] in Hk. cbn [Hom.hskip] in Sk. rewrite forallb_forall in Sk. rewrite Forall_forall in IH.
    apply in_flat_map in Hk. destruct Hk as (h & Hh & Hk). eauto.
  Qed.

  Lemma regroup_skip build o0 m ops ops' :
    (forall t l, In (t, l) m -> l <> []) -> (forall k, In k (ops ++ locals_of m) -> hskip o0 k = true) ->
    regroup build m ops = Ok ops' -> forall k, In k ops' -> hskip o0 k = true.
  Proof.
    intros Ne Sk E k Hk. destruct (regroup_mem build m ops ops' k E Hk) as [H|(t & h & l & H & ->)].
    - apply Sk. apply in_or_app. auto.
    - apply local_skip. specialize (Ne t l H). destruct l as [|k0 l0]; [congruence|].
      apply (Sk (HLocal t k0)). apply in_or_app. right. unfold HomSum.locals_of. apply in_flat_map.
      exists (t, k0 :: l0). split; [auto|]. now left.
  Qed.

  Lemma mk_sum_skip l h o0 : mk_sum l = Ok h -> (forall k, In k l -> hskip o0 k = true) -> hskip o0 h = true.
  Proof.
    unfold Hom.mk_sum. generalize (list_sum (map hsize l)). intros n E Sk. cbn [Hom.sum_fuel] in E.
    destruct l as [|h0 l0]; [discriminate|]. set (l := h0 :: l0) in *.
    destruct (fold_left sum_visit l ([], [])) as [ops locals] eqn:Ef.
    destruct (regroup (sum_fuel n) (h_iter HP locals) ops) as [ops'|] eqn:Er; [|discriminate].
    cbn [rbind] in E.
    assert (Sk' : forall k, In k ops' -> hskip o0 k = true).
    { apply (regroup_skip (sum_fuel n) o0 (h_iter HP locals) ops); auto.
      - intros t l' Hin. apply (sum_fold_ne VI U F I HP l ([], [])) with (t := t).
        + intros t1 l1 [].
        + rewrite Ef. cbn [snd]. now apply (Permutation_in _ (hp_iter HPO locals)).
      - intros k. rewrite in_app_iff, (locals_iter VI U F I HP HPO), <- in_app_iff.
        change (ops ++ locals_of locals) with (repr (ops, locals)).
        rewrite <- Ef, (sum_fold_repr VI U F I HP HPO). intros [[]|Hk].
        apply in_flat_map in Hk. destruct Hk as (k0 & Hk0 & Hk). now apply (leaves_skip o0 k0 (Sk k0 Hk0)). }
    destruct ops' as [|h1 [|h2 r]]; injection E as <-; cbn [Hom.hskip].
    - reflexivity.
    - apply Sk'. now left.
    - apply forallb_forall. exact Sk'.
  Qed.

  Lemma mk_inter_skip l h o0 : mk_inter l = Ok h -> (forall k, In k l -> hskip o0 k = true) -> hskip o0 h = true.
  Proof.
    unfold Hom.mk_inter. generalize (list_sum (map hsize l)). intros n E Sk. cbn [Hom.inter_fuel] in E.
    destruct l as [|h0 l0]; [discriminate|]. set (l := h0 :: l0) in *.
    destruct (fold_left inter_visit l ([], [])) as [ops locals] eqn:Ef.
    destruct (regroup (inter_fuel n) (h_iter HP locals) ops) as [ops'|] eqn:Er; [|discriminate].
    cbn [rbind] in E.
    assert (Sk' : forall k, In k ops' -> hskip o0 k = true).
    { apply (regroup_skip (inter_fuel n) o0 (h_iter HP locals) ops); auto.
      - intros t l' Hin. apply (inter_fold_ne VI U F I HP l ([], [])) with (t := t).
        + intros t1 l1 [].
        + rewrite Ef. cbn [snd]. now apply (Permutation_in _ (hp_iter HPO locals)).
      - intros k. rewrite in_app_iff, (locals_iter VI U F I HP HPO), <- in_app_iff.
        change (ops ++ locals_of locals) with (repr (ops, locals)).
        rewrite <- Ef, (inter_fold_repr VI U F I HP HPO). intros [[]|Hk].
        apply in_flat_map in Hk. destruct Hk as (k0 & Hk0 & Hk). now apply (ileaves_skip o0 k0 (Sk k0 Hk0)). }
    destruct ops' as [|h1 [|h2 r]]; injection E as <-; cbn [Hom.hskip].
    - reflexivity.
    - apply Sk'. now left.
    - apply forallb_forall. exact Sk'.
  Qed.

  (** ** The partition of the operands *)
  Lemma partition_spec o hs : forall f g l i, partition o hs = (f, g, l, i) ->
    (forall k, In k f <-> In k hs /\ k <> HId /\ hskip o k = true) /\
    (forall k, In k g -> In k hs /\ k <> HId) /\
    (forall k, In k l -> exists t, In (HLocal t k) hs /\ hskip o (HLocal t k) = false) /\
    (i = true <-> In HId hs) /\
    (forall k, In k hs -> k = HId \/ In k f \/ In k g \/ exists t k', k = HLocal t k' /\ In k' l /\ hskip o k = false).
  Proof.
    induction hs as [|h hs IH]; intros f g l i E; cbn [Hom.partition] in E.
    - injection E as <- <- <- <-. cbn. intuition discriminate.
    - destruct (partition o hs) as [[[f0 g0] l0] i0]. destruct (IH _ _ _ _ eq_refl) as (A & B & C & D & K). clear IH.
      destruct (is_id h) eqn:Ei.
      { injection E as <- <- <- <-. apply is_id_iff in Ei. subst h.
        split; [|split; [|split; [|split]]].
        - intros k. rewrite A. cbn [In]. intuition congruence.
        - intros k Hk. cbn [In]. split; [right; now apply B|now apply B].
        - intros k Hk. destruct (C k Hk) as (t & X & Y). exists t. cbn [In]. auto.
        - cbn [In]. intuition.
        - intros k [<-|Hk]; auto. }
      assert (Nid : h <> HId) by (intros ->; discriminate).
      destruct (hskip o h) eqn:Sk.
      { injection E as <- <- <- <-. split; [|split; [|split; [|split]]].
        - intros k. cbn [In]. rewrite A. split; [intros [<-|X]; intuition|intros ([<-|X] & Y & Z); auto].
        - intros k Hk. cbn [In]. split; [right; now apply B|now apply B].
        - intros k Hk. destruct (C k Hk) as (t & X & Y). exists t. cbn [In]. auto.
        - cbn [In]. rewrite D. intuition congruence.
        - intros k [<-|Hk]; [right; left; now left|]. destruct (K k Hk) as [X|[X|[X|X]]]; auto.
          right; left; now right. }
      assert (Gen : (exists t k, h = HLocal t k /\ f = f0 /\ g = g0 /\ l = k :: l0 /\ i = i0) \/
                    (f = f0 /\ g = h :: g0 /\ l = l0 /\ i = i0)).
      { destruct h; injection E as <- <- <- <-; auto; try (right; auto; fail). left. eauto 10. }
      clear E. destruct Gen as [(t & k0 & -> & -> & -> & -> & ->)|(-> & -> & -> & ->)].
      + split; [|split; [|split; [|split]]].
        * intros k. rewrite A. cbn [In]. split; [intuition|]. intros ([<-|X] & Y & Z); [congruence|auto].
        * intros k Hk. cbn [In]. split; [right; now apply B|now apply B].
        * intros k [<-|Hk]; [exists t; split; [now left|auto]|].
          destruct (C k Hk) as (t' & X & Y). exists t'. cbn [In]. auto.
        * rewrite D. cbn [In]. intuition congruence.
        * intros k [<-|Hk]; [right; right; right; exists t, k0; split; [auto|split; [now left|auto]]|].
          destruct (K k Hk) as [X|[X|[X|(t' & k' & X & Y & Z)]]]; auto.
          right; right; right. exists t', k'. split; [auto|split; [now right|auto]].
      + split; [|split; [|split; [|split]]].
        * intros k. rewrite A. cbn [In]. split; [intuition|]. intros ([<-|X] & Y & Z); [congruence|auto].
        * intros k [<-|Hk]; cbn [In]; [auto|]. split; [right; now apply B|now apply B].
        * intros k Hk. destruct (C k Hk) as (t & X & Y). exists t. cbn [In]. auto.
        * rewrite D. cbn [In]. intuition congruence.
        * intros k [<-|Hk]; [right; right; left; now left|].
          destruct (K k Hk) as [X|[X|[X|X]]]; auto. right; right; left; now right.
  Qed.

  (** ** Saturation *)
  Lemma sum_of_un o s s' hs x y : oshape o s -> fits s x -> (forall h, In h hs -> typed o h s') ->
    sum_of o hs x y -> forall q, contains y q = true <-> exists h z, In h hs /\ evals o h x z /\ contains z q = true.
  Proof.
    intros O Fx Th (ys & Ey & Es) q.
    assert (Fys := evals_all_fits VI VL PF PO U F I US HO o hs s s' x ys O Fx Th Ey).
    destruct (sum_ok VI VL PF PO s' ys Fys) as (z & Ez & _ & C). assert (z = y) by congruence. subst z.
    rewrite C, existsb_exists. split.
    - intros (z & Hz & Cz). destruct (evals_all_in VI PF U F I US _ _ _ _ Ey z Hz) as (h & Hh & E). eauto.
    - intros (h & z & Hh & E & Cz). exists z. split; [|auto].
      now apply (evals_all_mem VI PF U F I US o hs x ys h).
  Qed.

  Lemma inter_of_all o s s' hs x y : oshape o s -> fits s x -> (forall h, In h hs -> typed o h s') -> hs <> [] ->
    inter_of o hs x y -> forall q, contains y q = true <-> forall h z, In h hs -> evals o h x z -> contains z q = true.
  Proof.
    intros O Fx Th Ne (ys & Ey & Es) q.
    assert (Fys := evals_all_fits VI VL PF PO U F I US HO o hs s s' x ys O Fx Th Ey).
    assert (Ney := evals_all_ne VI PF U F I US _ _ _ _ Ey Ne).
    destruct (inter_ok VI VL PF PO s' ys Ney Fys) as (z & Ez & _ & C). assert (z = y) by congruence. subst z.
    rewrite C, forallb_forall. split.
    - intros A h z Hh E. apply A. now apply (evals_all_mem VI PF U F I US o hs x ys h).
    - intros A z Hz. destruct (evals_all_in VI PF U F I US _ _ _ _ Ey z Hz) as (h & Hh & E). eauto.
  Qed.

  Lemma hset_in l : forall k, In k (hset l) <-> In k l.
  Proof.
    unfold Hom.hset.
    assert (H : forall l s k, In k (fold_left (fun s h => hset_add h s) l s) <-> In k s \/ In k l).
    { induction l0 as [|h r IH]; intros s k; cbn [fold_left In]; [intuition|].
      rewrite IH, (hset_add_in VI U F I HP HPO). intuition. }
    intros k. rewrite H. cbn. intuition.
  Qed.

  Lemma opt_in f g l k : In k (opt_list f ++ hset g ++ opt_list l) <-> f = Some k \/ In k g \/ l = Some k.
  Proof.
    rewrite !in_app_iff, hset_in. destruct f as [f|], l as [l|]; cbn; intuition congruence.
  Qed.

  Notation saturation_sum := (saturation_sum VI U F I HP).
  Notation saturation_intersection := (saturation_intersection VI U F I HP).
  Notation saturation_fixpoint := (saturation_fixpoint VI U F I HP).

  Lemma satsum_typed o k o' s' f g l : olevel o k o' -> f <> None \/ g <> [] \/ l <> None ->
    (forall h, f = Some h \/ In h g \/ l = Some h -> typed o h s') ->
    typed o (saturation_sum (lvar k) f g l) s'.
  Proof.
    intros L Ne T.
    assert (Ts : typed o (HSatSum (lvar k) f (hset g) l) s').
    { apply (T_satsum_here VI PF U F I US o k o'); [auto| |].
      - intros X. apply app_eq_nil in X. destruct X as [X1 X]. apply app_eq_nil in X. destruct X as [X2 X3].
        destruct Ne as [Ne|[Ne|Ne]]; [destruct f; [discriminate|congruence]| |destruct l; [discriminate|congruence]].
        destruct g as [|h g]; [congruence|]. assert (Y : In h (hset (h :: g))) by (apply hset_in; now left).
        rewrite X2 in Y. destruct Y.
      - intros h Hh. apply T. now apply opt_in. }
    unfold Hom.saturation_sum. destruct g as [|g0 g], f as [f|], l as [l|]; auto.
  Qed.

  Lemma satsum_acts o k o' s' f g l RF RL : olevel o k o' ->
    (forall h, f = Some h \/ In h g \/ l = Some h -> typed o h s') ->
    (forall h, f = Some h -> acts o h RF) -> (forall h, In h g -> acts o h (den o h)) ->
    (forall h, l = Some h -> acts o h RL) -> f <> None \/ g <> [] \/ l <> None ->
    acts o (saturation_sum (lvar k) f g l)
      (fun p q => (f <> None /\ RF p q) \/ uden o g p q \/ (l <> None /\ RL p q)).
  Proof.
    intros L T Af Ag Al Ne.
    assert (Ac : acts o (HSatSum (lvar k) f (hset g) l)
      (fun p q => (f <> None /\ RF p q) \/ uden o g p q \/ (l <> None /\ RL p q))).
    { intros s x y O Fx E q. apply (E_satsum VI VL PF PO U F I US o k o' s f (hset g) l x y L O Fx) in E.
      assert (Th : forall h, In h (opt_list f ++ hset g ++ opt_list l) -> typed o h s').
      { intros h Hh. apply T. now apply opt_in. }
      rewrite (sum_of_un o s s' _ x y O Fx Th E q). destruct E as (ys & Ey & _).
      assert (Ex := evals_all_ex_inv VI PF U F I US _ _ _ _ Ey). split.
      - intros (h & z & Hh & Ez & Cz). apply opt_in in Hh. destruct Hh as [Hh|[Hh|Hh]].
        + apply (Af h Hh s x z O Fx Ez q) in Cz. destruct Cz as (p & Cp & R). exists p. split; [auto|].
          left. split; [congruence|auto].
        + apply (Ag h Hh s x z O Fx Ez q) in Cz. destruct Cz as (p & Cp & R). exists p. split; [auto|].
          right; left. exists h. auto.
        + apply (Al h Hh s x z O Fx Ez q) in Cz. destruct Cz as (p & Cp & R). exists p. split; [auto|].
          right; right. split; [congruence|auto].
      - intros (p & Cp & [[Nf R]|[(h & Hh & R)|[Nl R]]]).
        + destruct f as [h|]; [|congruence]. destruct (Ex h) as (z & Ez); [apply opt_in; auto|].
          exists h, z. split; [apply opt_in; auto|]. split; [auto|]. apply (Af h eq_refl s x z O Fx Ez q). eauto.
        + destruct (Ex h) as (z & Ez); [apply opt_in; auto|].
          exists h, z. split; [apply opt_in; auto|]. split; [auto|]. apply (Ag h Hh s x z O Fx Ez q). eauto.
        + destruct l as [h|]; [|congruence]. destruct (Ex h) as (z & Ez); [apply opt_in; auto|].
          exists h, z. split; [apply opt_in; auto|]. split; [auto|]. apply (Al h eq_refl s x z O Fx Ez q). eauto. }
    unfold Hom.saturation_sum. destruct g as [|g0 g], f as [f|], l as [l|]; auto.
    - apply (acts_ext VI PF U F I US o f RF); [|auto]. intros p q. split; [intros R; left; split; [congruence|auto]|].
      intros [[_ R]|[(h & [] & _)|[X _]]]; [auto|congruence].
    - apply (acts_ext VI PF U F I US o l RL); [|auto]. intros p q. split; [intros R; right; right; split; [congruence|auto]|].
      intros [[X _]|[(h & [] & _)|[_ R]]]; [congruence|auto].
  Qed.

  Lemma satinter_typed o k o' s' f g l : olevel o k o' -> f <> None \/ g <> [] \/ l <> None ->
    (forall h, f = Some h \/ In h g \/ l = Some h -> typed o h s') ->
    typed o (saturation_intersection (lvar k) f g l) s'.
  Proof.
    intros L Ne T.
    assert (Ts : typed o (HSatInter (lvar k) f (hset g) l) s').
    { apply (T_satinter_here VI PF U F I US o k o'); [auto| |].
      - intros X. apply app_eq_nil in X. destruct X as [X1 X]. apply app_eq_nil in X. destruct X as [X2 X3].
        destruct Ne as [Ne|[Ne|Ne]]; [destruct f; [discriminate|congruence]| |destruct l; [discriminate|congruence]].
        destruct g as [|h g]; [congruence|]. assert (Y : In h (hset (h :: g))) by (apply hset_in; now left).
        rewrite X2 in Y. destruct Y.
      - intros h Hh. apply T. now apply opt_in. }
    unfold Hom.saturation_intersection. destruct g as [|g0 g], f as [f|], l as [l|]; auto.
  Qed.

  Lemma satinter_acts o k o' s' f g l (PP PL : asg -> Prop) : olevel o k o' ->
    (forall h, f = Some h \/ In h g \/ l = Some h -> typed o h s') ->
    (forall h, f = Some h -> acts o h (fun p q => p = q /\ PP p)) ->
    (forall h, In h g -> acts o h (den o h) /\ filt o h) ->
    (forall h, l = Some h -> acts o h (fun p q => p = q /\ PL p)) -> f <> None \/ g <> [] \/ l <> None ->
    acts o (saturation_intersection (lvar k) f g l)
      (fun p q => p = q /\ (f <> None -> PP p) /\ iden o g p /\ (l <> None -> PL p)).
  Proof.
    intros L T Af Ag Al Ne.
    assert (Ac : acts o (HSatInter (lvar k) f (hset g) l)
      (fun p q => p = q /\ (f <> None -> PP p) /\ iden o g p /\ (l <> None -> PL p))).
    { intros s x y O Fx E q.
      destruct (is_zero VI x) eqn:Z.
      { apply is_zero_iff in Z. subst x. apply evals_zero in E. subst y. split; [discriminate|].
        intros (p & X & _). discriminate. }
      assert (Nz : x <> Zero) by (intros ->; discriminate).
      apply (E_satinter VI PF U F I US o k o' s f (hset g) l x y L O Fx Nz) in E.
      assert (Th : forall h, In h (opt_list f ++ hset g ++ opt_list l) -> typed o h s').
      { intros h Hh. apply T. now apply opt_in. }
      assert (Nn : opt_list f ++ hset g ++ opt_list l <> []).
      { destruct Ne as [Ne|[Ne|Ne]]; intros X; apply app_eq_nil in X; destruct X as [X1 X];
          apply app_eq_nil in X; destruct X as [X2 X3].
        - destruct f; [discriminate|congruence].
        - destruct g as [|h g]; [congruence|]. assert (Y : In h (hset (h :: g))) by (apply hset_in; now left).
          rewrite X2 in Y. destruct Y.
        - destruct l; [discriminate|congruence]. }
      rewrite (inter_of_all o s s' _ x y O Fx Th Nn E q). destruct E as (ys & Ey & _).
      assert (Ex := evals_all_ex_inv VI PF U F I US _ _ _ _ Ey).
      assert (Hf : forall h z, f = Some h -> evals o h x z -> (contains z q = true <-> contains x q = true /\ PP q)).
      { intros h z Hh Ez. rewrite (Af h Hh s x z O Fx Ez q). split; [intros (p & Cp & <- & Pp); auto|intros []; eauto]. }
      assert (Hg : forall h z, In h g -> evals o h x z -> (contains z q = true <-> contains x q = true /\ den o h q q)).
      { intros h z Hh Ez. destruct (Ag h Hh) as [A Fi]. rewrite (A s x z O Fx Ez q).
        split; [|intros []; eauto]. intros (p & Cp & D). assert (p = q) by now apply (filt_eq o h Fi). subst p. auto. }
      assert (Hl : forall h z, l = Some h -> evals o h x z -> (contains z q = true <-> contains x q = true /\ PL q)).
      { intros h z Hh Ez. rewrite (Al h Hh s x z O Fx Ez q). split; [intros (p & Cp & <- & Pp); auto|intros []; eauto]. }
      split.
      - intros A. exists q.
        assert (Cq : contains x q = true).
        { destruct (opt_list f ++ hset g ++ opt_list l) as [|h0 r] eqn:El; [congruence|].
          assert (H0 : In h0 (opt_list f ++ hset g ++ opt_list l)) by (rewrite El; now left).
          destruct (Ex h0 (or_introl eq_refl)) as (z & Ez). specialize (A h0 z (or_introl eq_refl) Ez).
          apply opt_in in H0. destruct H0 as [H0|[H0|H0]].
          - now apply (Hf h0 z H0 Ez) in A.
          - now apply (Hg h0 z H0 Ez) in A.
          - now apply (Hl h0 z H0 Ez) in A. }
        split; [auto|]. split; [auto|]. split; [|split].
        + intros Nf. destruct f as [h|]; [|congruence]. destruct (Ex h) as (z & Ez); [apply opt_in; auto|].
          apply (Hf h z eq_refl Ez). apply (A h z); [apply opt_in; auto|auto].
        + intros h Hh. destruct (Ex h) as (z & Ez); [apply opt_in; auto|].
          apply (Hg h z Hh Ez). apply (A h z); [apply opt_in; auto|auto].
        + intros Nf. destruct l as [h|]; [|congruence]. destruct (Ex h) as (z & Ez); [apply opt_in; auto|].
          apply (Hl h z eq_refl Ez). apply (A h z); [apply opt_in; auto|auto].
      - intros (p & Cp & <- & A1 & A2 & A3) h z Hh Ez. apply opt_in in Hh. destruct Hh as [Hh|[Hh|Hh]].
        + apply (Hf h z Hh Ez). split; [auto|]. apply A1. congruence.
        + apply (Hg h z Hh Ez). auto.
        + apply (Hl h z Hh Ez). split; [auto|]. apply A3. congruence. }
    unfold Hom.saturation_intersection. destruct g as [|g0 g], f as [f|], l as [l|]; auto.
    - apply (acts_ext VI PF U F I US o f (fun p q => p = q /\ PP p)); [|auto]. intros p q. split.
      + intros [<- R]. split; [auto|]. split; [auto|]. split; [intros h []|congruence].
      + intros (<- & R & _). split; [auto|]. apply R. congruence.
    - apply (acts_ext VI PF U F I US o l (fun p q => p = q /\ PL p)); [|auto]. intros p q. split.
      + intros [<- R]. split; [auto|]. split; [congruence|]. split; [intros h []|auto].
      + intros (<- & _ & _ & R). split; [auto|]. apply R. congruence.
  Qed.

  Notation sub := (sub VI).
  Definition ustep (o : order) (RF RL : rel) (g : list hom) : rel :=
    fun a b => (RF a b \/ RL a b \/ uden o g a b) /\ valid o b.

  Lemma contains_valid o s x p : oshape o s -> fits s x -> contains x p = true -> valid o p.
  Proof. intros O Fx C. exists s. split; [auto|]. now apply (contains_follows s x). Qed.

  Lemma chain_acts o s g : oshape o s -> (forall h, In h g -> typed o h s /\ acts o h (den o h)) ->
    forall x y, fits s x -> chain o g x y -> fits s y /\ sub x y /\
      (forall q, contains y q = true ->
         exists p, contains x p = true /\ clos_refl_trans _ (fun a b => uden o g a b /\ valid o b) p q) /\
      (sub y x -> forall p q, contains x p = true -> uden o g p q -> contains x q = true).
  Proof.
    intros O. induction g as [|h g IH]; intros Hg x y Fx Ch; cbn [HomEval.chain] in Ch.
    - subst y. split; [auto|]. split; [intros p; auto|]. split.
      + intros q C. exists q. split; [auto|apply rt_refl].
      + intros _ p q C (k & [] & _).
    - destruct Ch as (z & w & Ez & Ew & Ch). destruct (Hg h (or_introl eq_refl)) as [Th Ah].
      assert (Fz : fits s z) by (apply (evals_fits VI VL PF PO U F I US HO o h s s x); auto).
      destruct (sum_ok VI VL PF PO s [x; z]) as (w' & Ew' & Fw & Cw).
      { intros u [<-|[<-|[]]]; auto. }
      assert (w' = w) by congruence. subst w'. clear Ew'.
      destruct (IH (fun k Hk => Hg k (or_intror Hk)) w y Fw Ch) as (Fy & S1 & S2 & S3).
      assert (Sxw : sub x w). { intros p C. rewrite Cw. cbn [existsb]. now rewrite C. }
      split; [auto|]. split; [intros p C; apply S1; auto|]. split.
      + intros q C. destruct (S2 q C) as (m & Cm & R).
        assert (R' : clos_refl_trans _ (fun a b => uden o (h :: g) a b /\ valid o b) m q).
        { clear - R. induction R as [a b [(k & Hk & D) Vb]|a|a b c _ R1 _ R2].
          - apply rt_step. split; [|auto]. exists k. split; [now right|auto].
          - apply rt_refl.
          - eapply rt_trans; eauto. }
        rewrite Cw in Cm. cbn [existsb] in Cm. rewrite orb_false_r in Cm. apply orb_true_iff in Cm.
        destruct Cm as [Cm|Cm]; [eauto|]. pose proof Cm as Cm'.
        apply (Ah s x z O Fx Ez m) in Cm. destruct Cm as (p & Cp & D). exists p. split; [auto|].
        eapply rt_trans; [|exact R']. apply rt_step. split; [exists h; split; [now left|auto]|].
        now apply (contains_valid o s z).
      + intros Sub p q C (k & [<-|Hk] & D).
        * apply Sub. apply S1. rewrite Cw. cbn [existsb].
          assert (X : contains z q = true) by (apply (Ah s x z O Fx Ez q); eauto). rewrite X. now rewrite orb_true_r.
        * assert (Ex : w = x).
          { apply (fits_ext VI VL PF PO s); auto. intros u. apply eq_true_iff_eq. split; [|apply Sxw].
            intros Cu. apply Sub. now apply S1. }
          subst w. apply (S3 Sub p q C). exists k. auto.
  Qed.

  Lemma satfix_typed o k o' s f g l : olevel o k o' -> oshape o s -> typed o f s -> typed o l s ->
    (forall h, In h g -> typed o h s) -> typed o (saturation_fixpoint (lvar k) f g l) s.
  Proof.
    intros L O Tf Tl Tg.
    assert (Ts : typed o (HSatFix (lvar k) f (hset g) l) s).
    { apply (T_satfix_here VI PF U F I US o k o'); auto. intros h Hh. apply Tg. now apply hset_in. }
    unfold Hom.saturation_fixpoint. destruct g as [|g0 g]; [|auto].
    destruct (negb (is_id f) && is_id l); [auto|]. destruct (is_id f && negb (is_id l)); auto.
  Qed.

  Lemma clos_ustep o (RF RL : rel) g x s : oshape o s -> fits s x ->
    (forall p q, contains x p = true -> RF p q -> contains x q = true) ->
    (forall p q, contains x p = true -> RL p q -> contains x q = true) ->
    (forall p q, contains x p = true -> uden o g p q -> contains x q = true) ->
    forall p q, contains x p = true -> clos_refl_trans _ (ustep o RF RL g) p q -> contains x q = true.
  Proof.
    intros O Fx A B C p q Cp R. induction R as [a b [[X|[X|X]] _]|a|a b c _ R1 _ R2]; eauto.
  Qed.

  Lemma satfix_acts o k o' s f g l (RF RL : rel) : olevel o k o' -> oshape o s -> typed o f s -> typed o l s ->
    (forall h, In h g -> typed o h s /\ acts o h (den o h)) ->
    acts o f RF -> acts o l RL ->
    (forall p, valid o p -> RF p p) -> (forall p, valid o p -> RL p p) ->
    (forall p m q, valid o p -> valid o m -> RF p m -> RF m q -> RF p q) ->
    (forall p m q, valid o p -> valid o m -> RL p m -> RL m q -> RL p q) ->
    acts o (saturation_fixpoint (lvar k) f g l) (clos_refl_trans _ (ustep o RF RL g)).
  Proof.
    intros L O Tf Tl Tg Af Al Rf Rl Tf' Tl'.
    assert (Ac : acts o (HSatFix (lvar k) f (hset g) l) (clos_refl_trans _ (ustep o RF RL g))).
    { intros s0 x y O0 Fx E q. assert (s0 = s) by apply (oshape_fun _ _ _ O0 _ O). subst s0. clear O0.
      destruct (is_zero VI x) eqn:Z.
      { apply is_zero_iff in Z. subst x. apply evals_zero in E. subst y. split; [discriminate|].
        intros (p & X & _). discriminate. }
      assert (Nz : x <> Zero) by (intros ->; discriminate).
      apply (E_satfix VI PF PO U F I US o k o' s f (hset g) l x y L O Fx Nz) in E.
      destruct E as (n & E1 & E2).
      assert (Hg : forall h, In h (hset g) -> typed o h s /\ acts o h (den o h)).
      { intros h Hh. apply Tg. now apply hset_in. }
      assert (Ug : forall a b, uden o (hset g) a b <-> uden o g a b).
      { intros a b. split; intros (h & Hh & D); exists h; (split; [now apply hset_in|auto]). }
      assert (St : forall u v, fits s u -> sat_step o f (hset g) l u v -> fits s v /\ sub u v /\
                 (forall r, contains v r = true -> exists p, contains u p = true /\ clos_refl_trans _ (ustep o RF RL g) p r) /\
                 (sub v u -> (forall p r, contains u p = true -> RF p r -> contains u r = true) /\
                             (forall p r, contains u p = true -> RL p r -> contains u r = true) /\
                             (forall p r, contains u p = true -> uden o g p r -> contains u r = true))).
      { intros u v Fu (u2 & u3 & Ef & El & Ch).
        assert (F2 : fits s u2) by (apply (evals_fits VI VL PF PO U F I US HO o f s s u); auto).
        assert (F3 : fits s u3) by (apply (evals_fits VI VL PF PO U F I US HO o l s s u2); auto).
        destruct (chain_acts o s (hset g) O Hg u3 v F3 Ch) as (Fv & S1 & S2 & S3).
        assert (C2 := Af s u u2 O Fu Ef). assert (C3 := Al s u2 u3 O F2 El).
        assert (Sa : sub u u2). { intros p C. apply C2. exists p. split; [auto|]. apply Rf. now apply (contains_valid o s u). }
        assert (Sb : sub u2 u3). { intros p C. apply C3. exists p. split; [auto|]. apply Rl. now apply (contains_valid o s u2). }
        split; [auto|]. split; [intros p C; auto|]. split.
        - intros r C. destruct (S2 r C) as (m & Cm & R). pose proof (contains_valid o s u3 m O F3 Cm) as Vm.
          apply C3 in Cm. destruct Cm as (m2 & Cm2 & R3). pose proof (contains_valid o s u2 m2 O F2 Cm2) as Vm2.
          apply C2 in Cm2. destruct Cm2 as (p & Cp & R2). exists p. split; [auto|].
          eapply rt_trans; [apply rt_step; split; [left; exact R2|auto]|].
          eapply rt_trans; [apply rt_step; split; [right; left; exact R3|auto]|].
          clear - R Ug. induction R as [a b [X Vb]|a|a b c _ R1 _ R2].
          + apply rt_step. split; [right; right; now apply Ug|auto].
          + apply rt_refl.
          + eapply rt_trans; eauto.
        - intros Sub.
          assert (E3 : u3 = u).
          { apply (fits_ext VI VL PF PO s); auto. intros r. apply eq_true_iff_eq. split; auto. }
          assert (E2' : u2 = u).
          { apply (fits_ext VI VL PF PO s); auto. intros r. apply eq_true_iff_eq. split; [|auto].
            intros C. apply Sub. now apply S1, Sb. }
          subst u2 u3. split; [|split].
          + intros p r C R. apply C2. eauto.
          + intros p r C R. apply C3. eauto.
          + intros p r C R. apply (S3 Sub p r C). now apply Ug. }
      assert (It : forall n x y, fits s x -> HomEval.iter (sat_step o f (hset g) l) n x y ->
                 fits s y /\ sub x y /\
                 forall r, contains y r = true -> exists p, contains x p = true /\ clos_refl_trans _ (ustep o RF RL g) p r).
      { clear - St. induction n as [|n IH]; intros x y Fx E; cbn [HomEval.iter] in E.
        - subst y. split; [auto|]. split; [intros p; auto|]. intros r C. exists r. split; [auto|apply rt_refl].
        - destruct E as (z & H1 & H2). destruct (St x z Fx H1) as (Fz & S1 & S2 & _).
          destruct (IH z y Fz H2) as (Fy & S3 & S4). split; [auto|]. split; [intros p C; auto|].
          intros r C. destruct (S4 r C) as (m & Cm & R). destruct (S2 m Cm) as (p & Cp & R').
          exists p. split; [auto|]. eapply rt_trans; eauto. }
      destruct (It n x y Fx E1) as (Fy & Sxy & Snd). split; [apply Snd|].
      intros (p & Cp & R). destruct (St y y Fy E2) as (_ & _ & _ & St4).
      destruct St4 as (A & B & C); [intros r; auto|].
      apply (clos_ustep o RF RL g y s O Fy A B C p q); auto. }
    unfold Hom.saturation_fixpoint. destruct g as [|g0 g]; [|exact Ac].
    destruct (is_id f) eqn:If, (is_id l) eqn:Il; cbn [negb andb]; try exact Ac.
    - (* f = Id, only l *)
      apply is_id_iff in If. subst f. intros s0 x y O0 Fx E q.
      assert (s0 = s) by apply (oshape_fun _ _ _ O0 _ O). subst s0. clear O0.
      assert (Fy : fits s y) by (apply (evals_fits VI VL PF PO U F I US HO o l s s x); auto).
      split.
      + intros C. pose proof (contains_valid o s y q O Fy C) as Vq. apply (Al s x y O Fx E q) in C.
        destruct C as (p & Cp & R). exists p. split; [auto|]. apply rt_step. split; [auto|auto].
      + intros (p & Cp & R).
        assert (Cy : contains y p = true).
        { apply (Al s x y O Fx E p). exists p. split; [auto|]. apply Rl. now apply (contains_valid o s x). }
        apply (clos_ustep o RF RL [] y s O Fy) with (p := p); auto.
        * intros a b Ca X. apply (Af s y y O Fy (proj2 (evals_id VI PF U F I US o y y) eq_refl) b). eauto.
        * intros a b Ca X. pose proof (contains_valid o s y a O Fy Ca) as Va.
          apply (Al s x y O Fx E a) in Ca. destruct Ca as (p0 & Cp0 & R0). apply (Al s x y O Fx E b).
          exists p0. split; [auto|]. apply (Tl' p0 a b); auto. now apply (contains_valid o s x).
        * intros a b _ (h & [] & _).
    - apply is_id_iff in Il. subst l. intros s0 x y O0 Fx E q.
      assert (s0 = s) by apply (oshape_fun _ _ _ O0 _ O). subst s0. clear O0.
      assert (Fy : fits s y) by (apply (evals_fits VI VL PF PO U F I US HO o f s s x); auto).
      split.
      + intros C. pose proof (contains_valid o s y q O Fy C) as Vq. apply (Af s x y O Fx E q) in C.
        destruct C as (p & Cp & R). exists p. split; [auto|]. apply rt_step. split; [auto|auto].
      + intros (p & Cp & R).
        assert (Cy : contains y p = true).
        { apply (Af s x y O Fx E p). exists p. split; [auto|]. apply Rf. now apply (contains_valid o s x). }
        apply (clos_ustep o RF RL [] y s O Fy) with (p := p); auto.
        * intros a b Ca X. pose proof (contains_valid o s y a O Fy Ca) as Va.
          apply (Af s x y O Fx E a) in Ca. destruct Ca as (p0 & Cp0 & R0). apply (Af s x y O Fx E b).
          exists p0. split; [auto|]. apply (Tf' p0 a b); auto. now apply (contains_valid o s x).
        * intros a b Ca X. apply (Al s y y O Fy (proj2 (evals_id VI PF U F I US o y y) eq_refl) b). eauto.
        * intros a b _ (h & [] & _).
  Qed.

  (** ** Rewriting keeps what is skipped *)

  Lemma fixpoint_skip o0 h : hskip o0 h = true -> hskip o0 (fixpoint VI U F I h) = true.
  Proof. destruct h; auto. Qed.

  Lemma spine_level l r x : In x (spine r) -> In x (spine (under l r)).
  Proof. destruct l; cbn; auto. Qed.

  Theorem rewrite_skip : forall fuel o h h' s o0 x0, rewrite_fuel fuel o h = Ok h' -> oshape o s ->
    o_variable o0 = Some x0 -> ~ In x0 (spine s) -> hskip o0 h = true -> hskip o0 h' = true.
  Proof.
    induction fuel as [|fuel IH]; intros o h h' s o0 x0 E O V0 N Sk; cbn [Hom.rewrite_fuel] in E; [discriminate|].
    destruct (oshape_inv _ _ _ O) as [[X _]|(X & l & o' & r & L & -> & O')]; rewrite X in E.
    { injection E as <-. auto. }
    pose proof L as L'. destruct L' as (V1 & Nx & on & M & _). rewrite V1, Nx, M in E.
    assert (Nv : var_neqb U o0 (lvar l) = true).
    { unfold var_neqb. rewrite V0. apply negb_true_iff, N.eqb_neq. intros ->. apply N. destruct l; cbn; auto. }
    assert (Nr : ~ In x0 (spine r)) by (intros Y; apply N; now apply spine_level).
    destruct h as [| | | |hh| | | | |hs| | | | |hs]; try (injection E as <-; exact Sk).
    - destruct hh as [| | | | | | | | | | | | | |hs]; try (injection E as <-; exact Sk).
      cbn [Hom.hskip] in Sk. rewrite forallb_forall in Sk.
      destruct (partition o hs) as [[[f g] lo] i] eqn:Ep. destruct (partition_spec o hs _ _ _ _ Ep) as (A & B & C & D & K).
      destruct i; cbn [negb] in E.
      2:{ injection E as <-. cbn [Hom.hskip]. now apply forallb_forall. }
      destruct (if nonempty f then _ else _) as [f'|] eqn:Ef; [|discriminate]. cbn [rbind] in E.
      destruct (if nonempty lo then _ else _) as [l'|] eqn:El; [|discriminate]. cbn [rbind] in E. injection E as <-.
      assert (Sf : hskip o0 f' = true).
      { destruct (nonempty f); [|injection Ef as <-; reflexivity].
        destruct (mk_sum (f ++ [HId])) as [hf|] eqn:Em; [|discriminate]. cbn [rbind] in Ef.
        apply (IH o' _ f' r o0 x0 Ef O' V0 Nr). apply fixpoint_skip. apply (mk_sum_skip _ _ o0 Em).
        intros k Hk. apply in_app_or in Hk. destruct Hk as [Hk|[<-|[]]]; [|reflexivity]. apply Sk. now apply A in Hk. }
      assert (Sl : hskip o0 l' = true).
      { destruct (nonempty lo); [|injection El as <-; reflexivity].
        destruct (mk_sum (lo ++ [HId])) as [hl|] eqn:Em; [|discriminate]. cbn [rbind] in El.
        destruct (rewrite_fuel fuel on (fixpoint VI U F I hl)) as [hl'|]; [|discriminate]. cbn [rbind] in El.
        injection El as <-. now apply local_skip. }
      unfold Hom.saturation_fixpoint. destruct g; [|exact Nv].
      destruct (negb (is_id f') && is_id l'); [auto|]. destruct (is_id f' && negb (is_id l')); auto.
    - cbn [Hom.hskip] in Sk. rewrite forallb_forall in Sk.
      destruct (partition o hs) as [[[f g] lo] i] eqn:Ep. destruct (partition_spec o hs _ _ _ _ Ep) as (A & B & C & D & K).
      destruct (negb (nonempty f) && negb (nonempty lo)) eqn:Eb.
      { injection E as <-. cbn [Hom.hskip]. now apply forallb_forall. }
      set (f2 := if i then f ++ [HId] else f) in *.
      destruct (opt_build _ _ _ _ f2 _) as [f'|] eqn:Ef; [|discriminate]. cbn [rbind] in E.
      destruct (opt_build _ _ _ _ lo _) as [l'|] eqn:El; [|discriminate]. cbn [rbind] in E. injection E as <-.
      assert (Sf : forall k, f' = Some k -> hskip o0 k = true).
      { intros k ->. unfold Hom.opt_build in Ef. destruct (nonempty f2); [|discriminate].
        destruct (mk_inter f2) as [hf|] eqn:Em; [|discriminate]. cbn [rbind] in Ef.
        destruct (rewrite_fuel fuel o' hf) as [hf'|] eqn:Er; [|discriminate]. cbn [rbind] in Ef. injection Ef as <-.
        apply (IH o' _ hf' r o0 x0 Er O' V0 Nr). apply (mk_inter_skip _ _ o0 Em). intros k Hk.
        assert (Hk' : In k f \/ k = HId).
        { unfold f2 in Hk. destruct i; [|auto]. apply in_app_or in Hk. destruct Hk as [Hk|[<-|[]]]; auto. }
        destruct Hk' as [Hk'| ->]; [|reflexivity]. apply Sk. now apply A in Hk'. }
      assert (Sl : forall k, l' = Some k -> hskip o0 k = true).
      { intros k ->. unfold Hom.opt_build in El. destruct (nonempty lo); [|discriminate].
        destruct (mk_inter lo) as [hl|] eqn:Em; [|discriminate]. cbn [rbind] in El.
        destruct (rewrite_fuel fuel on hl) as [hl'|]; [|discriminate]. cbn [rbind] in El.
        injection El as <-. now apply local_skip. }
      unfold Hom.saturation_intersection. destruct g, f' as [f'|], l' as [l'|]; auto.
    - cbn [Hom.hskip] in Sk. rewrite forallb_forall in Sk.
      destruct (partition o hs) as [[[f g] lo] i] eqn:Ep. destruct (partition_spec o hs _ _ _ _ Ep) as (A & B & C & D & K).
      destruct (negb (nonempty f) && negb (nonempty lo)) eqn:Eb.
      { injection E as <-. cbn [Hom.hskip]. now apply forallb_forall. }
      set (f2 := if i then f ++ [HId] else f) in *.
      destruct (opt_build _ _ _ _ f2 _) as [f'|] eqn:Ef; [|discriminate]. cbn [rbind] in E.
      destruct (opt_build _ _ _ _ lo _) as [l'|] eqn:El; [|discriminate]. cbn [rbind] in E. injection E as <-.
      assert (Sf : forall k, f' = Some k -> hskip o0 k = true).
      { intros k ->. unfold Hom.opt_build in Ef. destruct (nonempty f2); [|discriminate].
        destruct (mk_sum f2) as [hf|] eqn:Em; [|discriminate]. cbn [rbind] in Ef.
        destruct (rewrite_fuel fuel o' hf) as [hf'|] eqn:Er; [|discriminate]. cbn [rbind] in Ef. injection Ef as <-.
        apply (IH o' _ hf' r o0 x0 Er O' V0 Nr). apply (mk_sum_skip _ _ o0 Em). intros k Hk.
        assert (Hk' : In k f \/ k = HId).
        { unfold f2 in Hk. destruct i; [|auto]. apply in_app_or in Hk. destruct Hk as [Hk|[<-|[]]]; auto. }
        destruct Hk' as [Hk'| ->]; [|reflexivity]. apply Sk. now apply A in Hk'. }
      assert (Sl : forall k, l' = Some k -> hskip o0 k = true).
      { intros k ->. unfold Hom.opt_build in El. destruct (nonempty lo); [|discriminate].
        destruct (mk_sum lo) as [hl|] eqn:Em; [|discriminate]. cbn [rbind] in El.
        destruct (rewrite_fuel fuel on hl) as [hl'|]; [|discriminate]. cbn [rbind] in El.
        injection El as <-. now apply local_skip. }
      unfold Hom.saturation_sum. destruct g, f' as [f'|], l' as [l'|]; auto.
  Qed.

  (** ** Rewriting keeps what is done *)

  Notation fixpoint := (fixpoint VI U F I).
  Notation cl o l := (clos_refl_trans _ (fun a b => uden o l a b /\ valid o b)).

  Lemma clos_incl (A : Type) (R R' : A -> A -> Prop) : (forall a b, R a b -> R' a b) ->
    forall a b, clos_refl_trans _ R a b -> clos_refl_trans _ R' a b.
  Proof.
    intros H a b X. induction X as [a b X|a|a b c _ X1 _ X2].
    - apply rt_step. auto.
    - apply rt_refl.
    - eapply rt_trans; eauto.
  Qed.

  Lemma mk_sum_den l h o s s' : mk_sum l = Ok h -> (forall k, In k l -> sgood o s' k) -> oshape o s ->
    sgood o s' h /\ weq o (den o h) (uden o l).
  Proof.
    intros E G O. destruct (sum_fuel_den _ _ _ o s' E G (ex_intro _ s O)) as [A B]. split; [auto|].
    intros p q Vp. rewrite <- (B p q Vp). split.
    - intros D. exists h. split; [now left|auto].
    - intros (k & [<-|[]] & D). auto.
  Qed.

  Lemma mk_inter_den l h o s s' : mk_inter l = Ok h -> (forall k, In k l -> igood o s' k) -> oshape o s ->
    igood o s' h /\ forall p, valid o p -> (den o h p p <-> iden o l p).
  Proof.
    intros E G O. destruct (inter_fuel_den _ _ _ o s' E G (ex_intro _ s O)) as [A B]. split; [auto|].
    intros p Vp. rewrite <- (B p Vp). split.
    - intros D k [<-|[]]. auto.
    - intros D. apply D. now left.
  Qed.

  Lemma clos_valid o (R : rel) p q : valid o p -> clos_refl_trans _ (fun a b => R a b /\ valid o b) p q -> valid o q.
  Proof.
    intros Vp X. apply clos_rt_rtn1 in X. destruct X as [|y z [_ V] _]; auto.
  Qed.

  Lemma clos_weq o (R R' : rel) : weq o R R' ->
    weq o (clos_refl_trans _ (fun a b => R a b /\ valid o b)) (clos_refl_trans _ (fun a b => R' a b /\ valid o b)).
  Proof.
    intros H p q Vp. split; intros X; apply clos_rt_rt1n in X.
    - induction X as [p|p m q [R1 Vm] _ IH]; [apply rt_refl|].
      eapply rt_trans; [apply rt_step|now apply IH]. split; [now apply H|auto].
    - induction X as [p|p m q [R1 Vm] _ IH]; [apply rt_refl|].
      eapply rt_trans; [apply rt_step|now apply IH]. split; [now apply H|auto].
  Qed.

  Lemma fixpoint_den l h o s : mk_sum l = Ok h -> In HId l -> (forall k, In k l -> sgood o s k) -> oshape o s ->
    sgood o s (fixpoint h) /\ weq o (den o (fixpoint h)) (cl o l) /\
    (forall p, den o (fixpoint h) p p) /\
    (forall p m q, den o (fixpoint h) p m -> den o (fixpoint h) m q -> den o (fixpoint h) p q).
  Proof.
    intros E Hi G O. destruct (mk_sum_den l h o s s E G O) as [[Th Ln] W].
    destruct (mk_sum_id l h E Hi) as [->|(hs & -> & Hi2)]; cbn [Hom.fixpoint].
    - split; [split; auto|]. split; [|split].
      + intros p q Vp. rewrite den_id_iff. split; [intros <-; apply rt_refl|].
        intros X. apply clos_rt_rt1n in X. induction X as [p|p m q [R1 Vm] _ IH]; [auto|].
        apply (W p m Vp) in R1. apply den_id_iff in R1. subst m. auto.
      + intros p. constructor.
      + intros p m q A B. apply den_id_iff in A. now subst m.
    - split; [split; [now constructor|]|].
      { apply lin_fix; [now apply id_in|auto]. }
      split; [|split].
      + intros p q Vp. rewrite (den_fix_iff o hs p q Hi2). now apply clos_weq.
      + intros p. apply den_fix_iff; [auto|apply rt_refl].
      + intros p m q A B. apply den_fix_iff in A, B; auto. apply den_fix_iff; [auto|]. eapply rt_trans; eauto.
  Qed.

  Lemma rlocal_trans t (R : rel) : (forall a b c, R a b -> R b c -> R a c) ->
    forall p m q, rlocal t R p m -> rlocal t R m q -> rlocal t R p q.
  Proof.
    intros H p m q A. revert q. induction A as [a b p' Rab|x a p' m' N A IH|x a p' m' N A IH]; intros q B.
    - inversion B; subst; [constructor; eauto|congruence].
    - inversion B; subst. constructor; auto.
    - inversion B; subst; [congruence|]. constructor; auto.
  Qed.

  (** The homomorphisms passed to the next level. *)
  Lemma skip_part fuel o k o' r s' hf f' : olevel o k o' -> oshape o' r -> ~ In (lvar k) (spine r) ->
    sgood o s' hf -> hskip o hf = true -> rewrite_fuel fuel o' hf = Ok f' ->
    (forall r', typed o' hf r' -> lin o' hf -> typed o' f' r' /\ acts o' f' (den o' hf)) ->
    typed o f' s' /\ acts o f' (den o hf).
  Proof.
    intros L O' N [Th Ln] Sk E IH.
    destruct (typed_next VI PF U F I US o hf s' Th k o' L Sk) as (r' & -> & Tr).
    destruct (IH r' Tr (lin_down o hf Ln k o' L Sk)) as [Tf Af].
    assert (Sf : hskip o f' = true).
    { apply (rewrite_skip fuel o' hf f' r o (lvar k)); auto. apply L. }
    split; [apply (typed_up f' o k o' r' L); eauto|].
    apply (acts_weq o f' (runder (lvar k) (den o' hf))); [apply weq_sym; now apply den_down|].
    now apply (acts_skip VI VL PF PO U F I US HO o k o' f' r').
  Qed.

  (** The homomorphisms passed to the nested level. *)
  Lemma nest_part o t s s' on n' hl hl' : oshape o s -> local_at o t s' on n' -> typed on hl' n' -> acts on hl' (den on hl) ->
    typed o (local t hl') s' /\ acts o (local t hl') (rlocal t (den on hl)).
  Proof.
    intros O La Th Ah.
    assert (Tl : typed o (HLocal t hl') s') by (apply (typed_local_iff VI PF U F I US); eauto).
    split; [now apply (typed_mk_local VI PF U F I US)|].
    destruct (local_at_target U _ _ _ _ _ La) as (o1 & Tg & M).
    assert (A := acts_local VI VL PF PO U F I US HO o t hl' s' o1 on _ Tl Tg M Ah).
    intros s0 x y O0 Fx E. apply (local_evals VI VL PF PO U F I US HO o s0 t hl' s' x y O0 Tl Fx) in E.
    now apply (A s0 x y).
  Qed.

  Lemma local_here_inv o k o' s' on n' : olevel o k o' -> local_at o (lvar k) s' on n' ->
    exists n, k = LHier (lvar k) n /\ o_nested o = Some on /\ oshape on n.
  Proof.
    intros L La. inversion La as [? ? n o2 ? ? r L2 M2 O2|? l2 o2 ? ? ? ? L2 N2 K2]; subst.
    - destruct (olevel_fun _ _ _ _ L2 _ _ L) as [Ek _]. exists n. split; [auto|]. split; [auto|].
      destruct L2 as (_ & _ & on' & M' & _ & On). congruence.
    - destruct (olevel_fun _ _ _ _ L2 _ _ L) as [-> ->]. congruence.
  Qed.

  Lemma rlocal_clos o t n o' on (R : rel) : olevel o (LHier t n) o' -> o_nested o = Some on ->
    forall p q, valid o p -> rlocal t (clos_refl_trans _ (fun a b => R a b /\ valid on b)) p q ->
    clos_refl_trans _ (fun a b => rlocal t R a b /\ valid o b) p q.
  Proof.
    intros L M p q Vp X.
    assert (On : oshape on n). { destruct L as (_ & _ & on' & M' & _ & On). congruence. }
    apply (valid_level o _ o' _ L) in Vp. destruct Vp as ([a|a] & p' & -> & Sk & Vp); [destruct Sk|].
    cbn [HomFacts.acons lvar] in *. inversion X as [? b ? Rc| |]; subst; [|congruence].
    apply clos_rt_rt1n in Rc. clear X. induction Rc as [a|a c b [R1 (n1 & O1 & Fc)] _ IH]; [apply rt_refl|].
    assert (n1 = n) by apply (oshape_fun _ _ _ O1 _ On). subst n1.
    eapply rt_trans; [apply rt_step|apply (IH Fc)]. split; [now constructor|].
    apply (valid_cons o (LHier t n) o' (KNest VI c) p' L). split; [exact Fc|auto].
  Qed.

  Lemma rlocal_step o t n o' on (R : rel) : olevel o (LHier t n) o' -> o_nested o = Some on ->
    forall p q, valid o q -> rlocal t R p q -> rlocal t (clos_refl_trans _ (fun a b => R a b /\ valid on b)) p q.
  Proof.
    intros L M p q Vq X.
    assert (On : oshape on n). { destruct L as (_ & _ & on' & M' & _ & On). congruence. }
    apply (valid_level o _ o' _ L) in Vq. destruct Vq as ([b|b] & q' & -> & Sk & Vq); [destruct Sk|].
    cbn [HomFacts.acons lvar] in *. inversion X as [a ? ? Rc| |]; subst; [|congruence].
    constructor. apply rt_step. split; [auto|]. exists n. auto.
  Qed.

  Lemma hskip_local_here o k o' t h : olevel o k o' -> hskip o (HLocal t h) = false -> t = lvar k.
  Proof.
    intros L H. cbn [Hom.hskip] in H. destruct (N.eq_dec t (lvar k)) as [|N]; [auto|]. exfalso.
    assert (X : var_neqb U o t = true) by (apply (var_neqb_level U o k o' t L); congruence). congruence.
  Qed.

  Lemma nonempty_ne {A : Type} (l : list A) : nonempty l = true <-> l <> [].
  Proof. destruct l; cbn; split; congruence. Qed.

  Theorem rewrite_acts : forall fuel o h h' s s', rewrite_fuel fuel o h = Ok h' -> oshape o s -> distinct s ->
    typed o h s' -> lin o h -> typed o h' s' /\ acts o h' (den o h).
  Proof.
    induction fuel as [|fuel IH]; intros o h h' s s' E O Ds Th Ln; cbn [Hom.rewrite_fuel] in E; [discriminate|].
    assert (Same : typed o h s' /\ acts o h (den o h)) by (split; [auto|now apply (den_acts h o s')]).
    destruct (oshape_inv _ _ _ O) as [[X _]|(X & k & o' & r & L & -> & O')]; rewrite X in E.
    { injection E as <-. exact Same. }
    pose proof L as L'. destruct L' as (V1 & Nx & on & M & _). rewrite V1, Nx, M in E.
    assert (Nr : ~ In (lvar k) (spine r)) by (destruct k; cbn in Ds; apply Ds).
    assert (Dr : distinct r) by (destruct k; cbn in Ds; apply Ds).
    destruct h as [| | | |hh| | | | |hs| | | | |hs]; try (injection E as <-; exact Same).
    - (* fixpoint *)
      destruct hh as [| | | | | | | | | | | | | |hs]; try (injection E as <-; exact Same).
      destruct (partition o hs) as [[[f g] lo] i] eqn:Ep. destruct (partition_spec o hs _ _ _ _ Ep) as (A & B & C & D & K).
      destruct i; cbn [negb] in E; [|injection E as <-; exact Same].
      assert (Hi : In HId hs) by now apply D.
      destruct (if nonempty f then _ else _) as [f'|] eqn:Ef; [|discriminate]. cbn [rbind] in E.
      destruct (if nonempty lo then _ else _) as [l'|] eqn:El; [|discriminate]. cbn [rbind] in E. injection E as <-.
      destruct (typed_fix_inv VI PF U F I US _ _ _ Th) as [O0 Ts].
      assert (s' = under k r) by apply (oshape_fun _ _ _ O0 _ O). subst s'. clear O0. set (s := under k r) in *.
      destruct (typed_sum_inv VI PF U F I US _ _ _ Ts) as [Ne Tk].
      assert (Lk := lin_sum_inv o hs (lin_fix_inv o hs Hi Ln)).
      assert (Gk : forall h, In h hs -> sgood o s h) by (intros h Hh; split; auto).
      assert (Gi : sgood o s HId) by auto.
      assert (PF' : exists RF : rel, typed o f' s /\ acts o f' RF /\ (forall p, valid o p -> RF p p) /\
                (forall p m q, RF p m -> RF m q -> RF p q) /\
                (forall p q, valid o p -> RF p q -> cl o hs p q) /\
                (forall h p q, In h f -> valid o p -> valid o q -> den o h p q -> RF p q)).
      { destruct f as [|f0 f1] eqn:Eff; cbn [nonempty] in Ef.
        - injection Ef as <-. exists (fun p q => p = q). split; [now constructor|]. split.
          { apply (acts_ext VI PF U F I US o HId (den o HId)); [intros p q; apply den_id_iff|].
            apply (den_acts HId o s); [constructor|now constructor]. }
          split; [auto|]. split; [congruence|]. split; [intros p q _ <-; apply rt_refl|]. intros h p q [].
        - rewrite <- Eff in *. clear Eff.
          destruct (mk_sum (f ++ [HId])) as [hf|] eqn:Em; [|discriminate]. cbn [rbind] in Ef.
          assert (Gf : forall h, In h (f ++ [HId]) -> sgood o s h /\ hskip o h = true /\ In h hs).
          { intros h Hh. apply in_app_or in Hh. destruct Hh as [Hh|[<-|[]]]; [|auto].
            apply A in Hh. destruct Hh as (H1 & _ & H2). auto. }
          destruct (fixpoint_den (f ++ [HId]) hf o s Em) as (G1 & W & Rr & Rt); auto.
          { apply in_or_app. right. now left. }
          { intros h Hh. now apply Gf. }
          assert (Sf : hskip o (fixpoint hf) = true).
          { apply fixpoint_skip. apply (mk_sum_skip _ _ o Em). intros h Hh. now apply Gf. }
          destruct (skip_part fuel o k o' r s (fixpoint hf) f' L O' Nr G1 Sf Ef) as [Tf Af].
          { intros r' H1 H2. now apply (IH o' (fixpoint hf) f' r r'). }
          exists (den o (fixpoint hf)). split; [auto|]. split; [auto|]. split; [auto|]. split; [auto|]. split.
          + intros p q Vp R. apply (W p q Vp) in R. revert R. apply clos_incl.
            intros a b [(h & Hh & Dh) Vb]. split; [|auto]. exists h. split; [now apply Gf|auto].
          + intros h p q Hh Vp Vq Dh. apply (W p q Vp). apply rt_step. split; [|auto].
            exists h. split; [apply in_or_app; auto|auto]. }
      assert (PL' : exists RL : rel, typed o l' s /\ acts o l' RL /\ (forall p, valid o p -> RL p p) /\
                (forall p m q, RL p m -> RL m q -> RL p q) /\
                (forall p q, valid o p -> RL p q -> cl o hs p q) /\
                (forall h p q, In h lo -> valid o p -> valid o q -> den o (HLocal (lvar k) h) p q -> RL p q)).
      { destruct lo as [|l0 l1] eqn:Ell; cbn [nonempty] in El.
        - injection El as <-. exists (fun p q => p = q). split; [now constructor|]. split.
          { apply (acts_ext VI PF U F I US o HId (den o HId)); [intros p q; apply den_id_iff|].
            apply (den_acts HId o s); [constructor|now constructor]. }
          split; [auto|]. split; [congruence|]. split; [intros p q _ <-; apply rt_refl|]. intros h p q [].
        - assert (Hl0 : In l0 lo) by (rewrite Ell; now left). rewrite <- Ell in *. clear Ell.
          destruct (mk_sum (lo ++ [HId])) as [hl|] eqn:Em; [|discriminate]. cbn [rbind] in El.
          destruct (rewrite_fuel fuel on (fixpoint hl)) as [hl'|] eqn:Er; [|discriminate]. cbn [rbind] in El.
          injection El as <-.
          assert (Lo : forall h, In h lo -> In (HLocal (lvar k) h) hs).
          { intros h Hh. destruct (C h Hh) as (t & H1 & H2). now rewrite (hskip_local_here o k o' t h L H2) in H1. }
          destruct (sgood_down o s (lvar k) l0 (Gk _ (Lo l0 Hl0))) as (on2 & n' & La & _).
          destruct (local_here_inv o k o' s on2 n' L La) as (n & Ek & M2 & On).
          assert (on2 = on) by congruence. subst on2. clear M2.
          assert (On' := local_at_oshape U _ _ _ _ _ La O).
          assert (n' = n) by apply (oshape_fun _ _ _ On' _ On). subst n'. clear On'.
          assert (Gl : forall h, In h (lo ++ [HId]) -> sgood on n h).
          { intros h Hh. apply in_app_or in Hh. destruct Hh as [Hh|[<-|[]]].
            - destruct (sgood_down o s (lvar k) h (Gk _ (Lo h Hh))) as (on2 & n2 & La2 & G2).
              destruct (local_at_fun U _ _ _ _ _ La _ _ La2) as [-> ->]. auto.
            - split; now constructor. }
          destruct (fixpoint_den (lo ++ [HId]) hl on n Em) as (G1 & W & Rr & Rt); auto.
          { apply in_or_app. right. now left. }
          destruct (IH on (fixpoint hl) hl' n n Er On) as [Tl Al]; try apply G1.
          { unfold s in Ds. rewrite Ek in Ds. cbn in Ds. apply Ds. }
          destruct (nest_part o (lvar k) s s on n (fixpoint hl) hl' O La Tl Al) as [Tl' Al'].
          rewrite Ek in L.
          exists (rlocal (lvar k) (den on (fixpoint hl))). split; [auto|]. split; [auto|]. split; [|split; [|split]].
          + intros p Vp. destruct (rlocal_same o (lvar k) s on n p (den on (fixpoint hl)) La Vp) as (a & Va & Ha).
            now apply Ha.
          + apply rlocal_trans. auto.
          + intros p q Vp R. apply (rlocal_weq o (lvar k) s on n _ _ La W p q Vp) in R.
            apply (rlocal_clos o (lvar k) n o' on (uden on (lo ++ [HId])) L M p q Vp) in R.
            revert p q Vp R. intros p q Vp R. apply clos_rt_rt1n in R.
            induction R as [p|p m q [R1 Vm] _ IHr]; [apply rt_refl|]. eapply rt_trans; [|now apply IHr].
            destruct (local_at_valid o (lvar k) s on n La p Vp) as (a & _ & _ & Ha).
            apply Ha in R1. destruct R1 as (b & (h & Hh & Dh) & Rb).
            assert (R1 : rlocal (lvar k) (den on h) p m) by (apply Ha; eauto).
            apply in_app_or in Hh. destruct Hh as [Hh|[<-|[]]].
            * apply rt_step. split; [|auto]. exists (HLocal (lvar k) h). split; [auto|].
              now apply (den_local_at o (lvar k) s on n h p m La).
            * assert (p = m); [|subst m; apply rt_refl]. revert R1. apply rlocal_eq. intros u v Dv.
              now apply den_id_iff in Dv.
          + intros h p q Hh Vp Vq Dh. apply (rlocal_weq o (lvar k) s on n _ _ La W p q Vp).
            apply (rlocal_step o (lvar k) n o' on (uden on (lo ++ [HId])) L M p q Vq).
            apply (den_local_at o (lvar k) s on n h p q La) in Dh. revert Dh. apply rlocal_ext.
            intros a b Dh. exists h. split; [apply in_or_app; auto|auto]. }
      destruct PF' as (RF & Tf & Af & Rf & Tf' & If & Jf). destruct PL' as (RL & Tl & Al & Rl & Tl' & Il & Jl).
      assert (Gg : forall h, In h g -> typed o h s /\ acts o h (den o h)).
      { intros h Hh. destruct (B h Hh) as [Hh' _]. split; [now apply Gk|]. apply (den_acts h o s); now apply Gk. }
      split.
      { apply (satfix_typed o k o' s); auto. intros h Hh. now apply Gg. }
      eapply acts_weq.
      2:{ apply (satfix_acts o k o' s f' g l' RF RL); eauto. }
      intros p q Vp. rewrite (den_fix_iff o hs p q Hi).
      assert (Su : forall a b, den o (HSum hs) a b <-> uden o hs a b) by (intros a b; apply den_sum_iff).
      split; intros R; apply clos_rt_rt1n in R.
      + apply (clos_incl _ (fun a b => uden o hs a b /\ valid o b)); [intros a b [Y1 Y2]; split; [now apply Su|auto]|].
        induction R as [p|p m q [R1 Vm] _ IHr]; [apply rt_refl|]. eapply rt_trans; [|now apply IHr].
        destruct R1 as [R1|[R1|(h & Hh & Dh)]]; [now apply If|now apply Il|].
        apply rt_step. split; [|auto]. exists h. split; [now apply B|auto].
      + induction R as [p|p m q [R1 Vm] _ IHr]; [apply rt_refl|]. eapply rt_trans; [|now apply IHr].
        apply Su in R1. destruct R1 as (h & Hh & Dh).
        destruct (K h Hh) as [->|[Hf|[Hg|(t & h1 & -> & Hl & Sk)]]].
        * apply den_id_iff in Dh. subst m. apply rt_refl.
        * apply rt_step. split; [left; now apply (Jf h)|auto].
        * apply rt_step. split; [right; right; exists h; auto|auto].
        * rewrite (hskip_local_here o k o' t h1 L Sk) in Dh.
          apply rt_step. split; [right; left; now apply (Jl h1)|auto].
    - (* intersection *)
      destruct (partition o hs) as [[[f g] lo] i] eqn:Ep. destruct (partition_spec o hs _ _ _ _ Ep) as (A & B & C & D & K).
      destruct (negb (nonempty f) && negb (nonempty lo)) eqn:Eb; [injection E as <-; exact Same|].
      set (f2 := if i then f ++ [HId] else f) in *.
      destruct (opt_build _ _ _ _ f2 _) as [f'|] eqn:Ef; [|discriminate]. cbn [rbind] in E.
      destruct (opt_build _ _ _ _ lo _) as [l'|] eqn:El; [|discriminate]. cbn [rbind] in E. injection E as <-.
      destruct (typed_inter_inv VI PF U F I US _ _ _ Th) as [Ne Tk]. destruct (lin_inter_inv o hs Ln) as [Lk Fk].
      assert (Gk : forall h, In h hs -> igood o s' h) by (intros h Hh; split; [auto|split; auto]).
      assert (F2 : forall h, In h f2 <-> In h f \/ (h = HId /\ In HId hs)).
      { intros h. unfold f2. destruct i.
        - rewrite in_app_iff. cbn [In]. assert (In HId hs) by now apply D. intuition congruence.
        - assert (~ In HId hs) by (intros Y; apply D in Y; discriminate). intuition. }
      assert (Fh : forall h, In h f2 -> In h hs /\ hskip o h = true).
      { intros h Hh. apply F2 in Hh. destruct Hh as [Hh|[-> Hh]]; [apply A in Hh; intuition|auto]. }
      assert (PF' : (f' = None /\ f2 = []) \/ exists h, f' = Some h /\ typed o h s' /\
                acts o h (fun p q => p = q /\ iden o f2 p)).
      { unfold Hom.opt_build in Ef. destruct (nonempty f2) eqn:N2.
        2:{ injection Ef as <-. left. split; [auto|]. destruct f2; [auto|discriminate]. }
        right. destruct (mk_inter f2) as [hf|] eqn:Em; [|discriminate]. cbn [rbind] in Ef.
        destruct (rewrite_fuel fuel o' hf) as [hf'|] eqn:Er; [|discriminate]. cbn [rbind] in Ef. injection Ef as <-.
        exists hf'. split; [auto|].
        destruct (mk_inter_den f2 hf o (under k r) s' Em) as [(G1 & G2 & G3) W]; auto.
        { intros h Hh. apply Gk. now apply Fh. }
        assert (Sf : hskip o hf = true).
        { apply (mk_inter_skip _ _ o Em). intros h Hh. now apply Fh. }
        destruct (skip_part fuel o k o' r s' hf hf' L O' Nr (conj G1 G2) Sf Er) as [Tf Af].
        { intros r' H1 H2. now apply (IH o' hf hf' r r'). }
        split; [auto|]. apply (acts_weq o hf' (den o hf)); [|auto]. intros p q Vp. split.
        - intros Dh. assert (p = q) by now apply (filt_eq o hf G3). subst q. split; [auto|]. now apply W.
        - intros [<- Y]. now apply W. }
      assert (PL' : (l' = None /\ lo = []) \/ exists h, l' = Some h /\ typed o h s' /\
                acts o h (fun p q => p = q /\ iden o (map (HLocal (lvar k)) lo) p)).
      { unfold Hom.opt_build in El. destruct lo as [|l0 l1] eqn:Ell; cbn [nonempty] in El; [injection El as <-; auto|].
        right. assert (Hl0 : In l0 lo) by (rewrite Ell; now left). rewrite <- Ell in *. clear Ell.
        destruct (mk_inter lo) as [hl|] eqn:Em; [|discriminate]. cbn [rbind] in El.
        destruct (rewrite_fuel fuel on hl) as [hl'|] eqn:Er; [|discriminate]. cbn [rbind] in El.
        injection El as <-. exists (local (lvar k) hl'). split; [auto|].
        assert (Lo : forall h, In h lo -> In (HLocal (lvar k) h) hs).
        { intros h Hh. destruct (C h Hh) as (t & H1 & H2). now rewrite (hskip_local_here o k o' t h L H2) in H1. }
        destruct (igood_down o s' (lvar k) l0 (Gk _ (Lo l0 Hl0))) as (on2 & n' & La & _).
        destruct (local_here_inv o k o' s' on2 n' L La) as (n & Ek & M2 & On).
        assert (on2 = on) by congruence. subst on2. clear M2.
        assert (Gl : forall h, In h lo -> igood on n' h).
        { intros h Hh. destruct (igood_down o s' (lvar k) h (Gk _ (Lo h Hh))) as (on2 & n2 & La2 & G2).
          destruct (local_at_fun U _ _ _ _ _ La _ _ La2) as [-> ->]. auto. }
        destruct (mk_inter_den lo hl on n n' Em Gl On) as [(G1 & G2 & G3) W].
        destruct (IH on hl hl' n n' Er On) as [Tl Al]; auto.
        { rewrite Ek in Ds. cbn in Ds. apply Ds. }
        destruct (nest_part o (lvar k) (under k r) s' on n' hl hl' O La Tl Al) as [Tl' Al'].
        split; [auto|]. apply (acts_weq o _ (rlocal (lvar k) (den on hl))); [|auto]. intros p q Vp.
        destruct (rlocal_same o (lvar k) s' on n' p (den on hl) La Vp) as (a & Va & Ha).
        assert (Hq : iden o (map (HLocal (lvar k)) lo) p <-> iden on lo a).
        { unfold iden. split.
          - intros Y h Hh. apply Ha. apply (den_local_at o (lvar k) s' on n' h p p La). apply Y. now apply in_map.
          - intros Y h Hh. apply in_map_iff in Hh. destruct Hh as (h1 & <- & Hh).
            apply (den_local_at o (lvar k) s' on n' h1 p p La). apply Ha. auto. }
        split.
        - intros R. assert (p = q).
          { revert R. apply rlocal_eq. intros u v Y. now apply (filt_eq on hl G3). }
          subst q. split; [auto|]. apply Hq. apply W; [auto|]. now apply Ha.
        - intros [<- Y]. apply Ha. apply W; [auto|]. now apply Hq. }
      assert (Ne' : f' <> None \/ g <> [] \/ l' <> None).
      { destruct PF' as [[-> E2]|(hf & -> & _)]; [|left; discriminate].
        destruct PL' as [[-> E3]|(hl & -> & _)]; [|right; right; discriminate].
        exfalso. subst lo. assert (f = []).
        { destruct f as [|f0 f1]; [auto|]. assert (Y : In f0 f2) by (apply F2; left; now left). rewrite E2 in Y. destruct Y. }
        subst f. discriminate. }
      assert (Tt : forall h, f' = Some h \/ In h g \/ l' = Some h -> typed o h s').
      { intros h [Hh|[Hh|Hh]].
        - destruct PF' as [[-> _]|(hf & -> & Tf & _)]; [discriminate|]. now injection Hh as <-.
        - apply Tk. now apply B.
        - destruct PL' as [[-> _]|(hl & -> & Tl & _)]; [discriminate|]. now injection Hh as <-. }
      split; [now apply (satinter_typed o k o')|].
      eapply acts_weq.
      2:{ apply (satinter_acts o k o' s' f' g l' (iden o f2) (iden o (map (HLocal (lvar k)) lo)) L Tt); auto.
        - intros h Hh. destruct PF' as [[-> _]|(hf & -> & Tf & Af)]; [discriminate|]. now injection Hh as <-.
        - intros h Hh. destruct (B h Hh) as [Hh' _]. split; [|now apply Fk]. apply (den_acts h o s'); auto.
        - intros h Hh. destruct PL' as [[-> _]|(hl & -> & Tf & Af)]; [discriminate|]. now injection Hh as <-. }
      intros p q Vp. rewrite (den_inter_iff o hs p q Ne). split.
      + intros (<- & A1 & A2 & A3). split; [auto|]. intros h Hh.
        assert (A1' : iden o f2 p).
        { destruct PF' as [[-> ->]|(hf & -> & _)]; [intros ? []|]. apply A1. discriminate. }
        assert (A3' : iden o (map (HLocal (lvar k)) lo) p).
        { destruct PL' as [[-> ->]|(hl & -> & _)]; [intros ? []|]. apply A3. discriminate. }
        destruct (K h Hh) as [->|[Hf|[Hg|(t & h1 & -> & Hl & Sk)]]].
        * constructor.
        * apply A1', F2. auto.
        * now apply A2.
        * rewrite (hskip_local_here o k o' t h1 L Sk). apply A3'. now apply in_map.
      + intros (<- & Y). split; [auto|]. split; [|split].
        * intros _ h Hh. apply Y. now apply Fh.
        * intros h Hh. apply Y. now apply B.
        * intros _ h Hh. apply in_map_iff in Hh. destruct Hh as (h1 & <- & Hh). apply Y.
          destruct (C h1 Hh) as (t & H1 & H2). now rewrite (hskip_local_here o k o' t h1 L H2) in H1.
    - (* sum *)
      destruct (partition o hs) as [[[f g] lo] i] eqn:Ep. destruct (partition_spec o hs _ _ _ _ Ep) as (A & B & C & D & K).
      destruct (negb (nonempty f) && negb (nonempty lo)) eqn:Eb; [injection E as <-; exact Same|].
      set (f2 := if i then f ++ [HId] else f) in *.
      destruct (opt_build _ _ _ _ f2 _) as [f'|] eqn:Ef; [|discriminate]. cbn [rbind] in E.
      destruct (opt_build _ _ _ _ lo _) as [l'|] eqn:El; [|discriminate]. cbn [rbind] in E. injection E as <-.
      destruct (typed_sum_inv VI PF U F I US _ _ _ Th) as [Ne Tk]. assert (Lk := lin_sum_inv o hs Ln).
      assert (Gk : forall h, In h hs -> sgood o s' h) by (intros h Hh; split; auto).
      assert (F2 : forall h, In h f2 <-> In h f \/ (h = HId /\ In HId hs)).
      { intros h. unfold f2. destruct i.
        - rewrite in_app_iff. cbn [In]. assert (In HId hs) by now apply D. intuition congruence.
        - assert (~ In HId hs) by (intros Y; apply D in Y; discriminate). intuition. }
      assert (Fh : forall h, In h f2 -> In h hs /\ hskip o h = true).
      { intros h Hh. apply F2 in Hh. destruct Hh as [Hh|[-> Hh]]; [apply A in Hh; intuition|auto]. }
      assert (PF' : (f' = None /\ f2 = []) \/ exists h, f' = Some h /\ typed o h s' /\ acts o h (uden o f2)).
      { unfold Hom.opt_build in Ef. destruct (nonempty f2) eqn:N2.
        2:{ injection Ef as <-. left. split; [auto|]. destruct f2; [auto|discriminate]. }
        right. destruct (mk_sum f2) as [hf|] eqn:Em; [|discriminate]. cbn [rbind] in Ef.
        destruct (rewrite_fuel fuel o' hf) as [hf'|] eqn:Er; [|discriminate]. cbn [rbind] in Ef. injection Ef as <-.
        exists hf'. split; [auto|].
        destruct (mk_sum_den f2 hf o (under k r) s' Em) as [G1 W]; auto.
        { intros h Hh. apply Gk. now apply Fh. }
        assert (Sf : hskip o hf = true).
        { apply (mk_sum_skip _ _ o Em). intros h Hh. now apply Fh. }
        destruct (skip_part fuel o k o' r s' hf hf' L O' Nr G1 Sf Er) as [Tf Af].
        { intros r' H1 H2. now apply (IH o' hf hf' r r'). }
        split; [auto|]. now apply (acts_weq o hf' (den o hf)). }
      assert (PL' : (l' = None /\ lo = []) \/ exists h, l' = Some h /\ typed o h s' /\
                acts o h (uden o (map (HLocal (lvar k)) lo))).
      { unfold Hom.opt_build in El. destruct lo as [|l0 l1] eqn:Ell; cbn [nonempty] in El; [injection El as <-; auto|].
        right. assert (Hl0 : In l0 lo) by (rewrite Ell; now left). rewrite <- Ell in *. clear Ell.
        destruct (mk_sum lo) as [hl|] eqn:Em; [|discriminate]. cbn [rbind] in El.
        destruct (rewrite_fuel fuel on hl) as [hl'|] eqn:Er; [|discriminate]. cbn [rbind] in El.
        injection El as <-. exists (local (lvar k) hl'). split; [auto|].
        assert (Lo : forall h, In h lo -> In (HLocal (lvar k) h) hs).
        { intros h Hh. destruct (C h Hh) as (t & H1 & H2). now rewrite (hskip_local_here o k o' t h L H2) in H1. }
        destruct (sgood_down o s' (lvar k) l0 (Gk _ (Lo l0 Hl0))) as (on2 & n' & La & _).
        destruct (local_here_inv o k o' s' on2 n' L La) as (n & Ek & M2 & On).
        assert (on2 = on) by congruence. subst on2. clear M2.
        assert (Gl : forall h, In h lo -> sgood on n' h).
        { intros h Hh. destruct (sgood_down o s' (lvar k) h (Gk _ (Lo h Hh))) as (on2 & n2 & La2 & G2).
          destruct (local_at_fun U _ _ _ _ _ La _ _ La2) as [-> ->]. auto. }
        destruct (mk_sum_den lo hl on n n' Em Gl On) as [[G1 G2] W].
        destruct (IH on hl hl' n n' Er On) as [Tl Al]; auto.
        { rewrite Ek in Ds. cbn in Ds. apply Ds. }
        destruct (nest_part o (lvar k) (under k r) s' on n' hl hl' O La Tl Al) as [Tl' Al'].
        split; [auto|]. apply (acts_weq o _ (rlocal (lvar k) (den on hl))); [|auto].
        apply (weq_trans o _ (rlocal (lvar k) (uden on lo))); [now apply (rlocal_weq o (lvar k) s' on n')|].
        intros p q Vp. destruct (local_at_valid o (lvar k) s' on n' La p Vp) as (a & _ & _ & Ha). split.
        - intros R. apply Ha in R. destruct R as (b & (h & Hh & Dh) & Rb). exists (HLocal (lvar k) h).
          split; [now apply in_map|]. apply (den_local_at o (lvar k) s' on n' h p q La). apply Ha. eauto.
        - intros (h & Hh & Dh). apply in_map_iff in Hh. destruct Hh as (h1 & <- & Hh).
          apply (den_local_at o (lvar k) s' on n' h1 p q La) in Dh. revert Dh. apply rlocal_ext.
          intros u v Y. exists h1. auto. }
      assert (Ne' : f' <> None \/ g <> [] \/ l' <> None).
      { destruct PF' as [[-> E2]|(hf & -> & _)]; [|left; discriminate].
        destruct PL' as [[-> E3]|(hl & -> & _)]; [|right; right; discriminate].
        exfalso. subst lo. assert (f = []).
        { destruct f as [|f0 f1]; [auto|]. assert (Y : In f0 f2) by (apply F2; left; now left). rewrite E2 in Y. destruct Y. }
        subst f. discriminate. }
      assert (Tt : forall h, f' = Some h \/ In h g \/ l' = Some h -> typed o h s').
      { intros h [Hh|[Hh|Hh]].
        - destruct PF' as [[-> _]|(hf & -> & Tf & _)]; [discriminate|]. now injection Hh as <-.
        - apply Tk. now apply B.
        - destruct PL' as [[-> _]|(hl & -> & Tl & _)]; [discriminate|]. now injection Hh as <-. }
      split; [now apply (satsum_typed o k o')|].
      eapply acts_weq.
      2:{ apply (satsum_acts o k o' s' f' g l' (uden o f2) (uden o (map (HLocal (lvar k)) lo)) L Tt); auto.
        - intros h Hh. destruct PF' as [[-> _]|(hf & -> & Tf & Af)]; [discriminate|]. now injection Hh as <-.
        - intros h Hh. apply (den_acts h o s'); [apply Lk|apply Tk]; now apply B.
        - intros h Hh. destruct PL' as [[-> _]|(hl & -> & Tf & Af)]; [discriminate|]. now injection Hh as <-. }
      intros p q Vp. rewrite den_sum_iff. split.
      + intros [[_ (h & Hh & Dh)]|[(h & Hh & Dh)|[_ (h & Hh & Dh)]]].
        * exists h. split; [now apply Fh|auto].
        * exists h. split; [now apply B|auto].
        * apply in_map_iff in Hh. destruct Hh as (h1 & <- & Hh). exists (HLocal (lvar k) h1). split; [|auto].
          destruct (C h1 Hh) as (t & H1 & H2). now rewrite (hskip_local_here o k o' t h1 L H2) in H1.
      + intros (h & Hh & Dh).
        assert (Ff : In h f2 -> f' <> None /\ uden o f2 p q).
        { intros Y. split; [|exists h; auto]. destruct PF' as [[-> E2]|(hf & -> & _)]; [|discriminate].
          rewrite E2 in Y. destruct Y. }
        destruct (K h Hh) as [->|[Hf|[Hg|(t & h1 & -> & Hl & Sk)]]].
        * left. apply Ff, F2. auto.
        * left. apply Ff, F2. auto.
        * right; left. exists h. auto.
        * right; right. rewrite (hskip_local_here o k o' t h1 L Sk) in Dh. split.
          -- destruct PL' as [[-> ->]|(hl & -> & _)]; [destruct Hl|discriminate].
          -- exists (HLocal (lvar k) h1). split; [now apply in_map|auto].
  Qed.

  (** When both evaluations end, they give the same result. *)
  Theorem rewrite_agrees fuel o h h' s s' x y z : rewrite_fuel fuel o h = Ok h' -> oshape o s -> distinct s ->
    typed o h s' -> lin o h -> fits s x -> evals o h x y -> evals o h' x z -> y = z.
  Proof.
    intros E O Ds Th Ln Fx Ey Ez. destruct (rewrite_acts fuel o h h' s s' E O Ds Th Ln) as [Th' A'].
    assert (A := den_acts h o s' Ln Th).
    apply (fits_ext VI VL PF PO s').
    - apply (evals_fits VI VL PF PO U F I US HO o h s s' x); auto.
    - apply (evals_fits VI VL PF PO U F I US HO o h' s s' x); auto.
    - intros q. apply eq_true_iff_eq. rewrite (A s x y O Fx Ey q), (A' s x z O Fx Ez q). reflexivity.
  Qed.

  (** ** Rewriting never fails *)
  Fixpoint height (s : shape) : nat :=
    match s with
    | SEnd => 0
    | SFlat _ r => S (height r)
    | SHier _ n r => S (Nat.max (height n) (height r))
    end.

  Theorem rewrite_total : forall fuel o h s, oshape o s -> height s < fuel -> exists h', rewrite_fuel fuel o h = Ok h'.
  Proof.
    induction fuel as [|fuel IH]; intros o h s O Hf; [lia|]. cbn [Hom.rewrite_fuel].
    destruct (oshape_inv _ _ _ O) as [[X _]|(X & k & o' & r & L & -> & O')]; rewrite X; [eauto|].
    pose proof L as L'. destruct L' as (V1 & Nx & on & M & Hn). rewrite V1, Nx, M.
    assert (Hr : height r < fuel) by (destruct k; cbn [under height] in Hf; lia).
    assert (Rn : forall h, exists h', rewrite_fuel fuel on h = Ok h').
    { intros h0. destruct k as [x0|x0 n0].
      - destruct fuel as [|fu]; [lia|]. cbn [Hom.rewrite_fuel]. rewrite Hn. eauto.
      - destruct Hn as [_ On]. apply (IH on h0 n0 On). cbn [under height] in Hf. lia. }
    assert (Rr : forall h, exists h', rewrite_fuel fuel o' h = Ok h') by (intros h0; apply (IH o' h0 r); auto).
    destruct h as [| | | |hh| | | | |hs| | | | |hs]; try (eexists; reflexivity).
    - destruct hh as [| | | | | | | | | | | | | |hs]; try (eexists; reflexivity).
      destruct (partition o hs) as [[[f g] lo] i]. destruct (negb i); [eexists; reflexivity|].
      assert (A : exists f', (if nonempty f then rbind (mk_sum (f ++ [HId])) (fun s => rewrite_fuel fuel o' (fixpoint s)) else Ok HId) = Ok f').
      { destruct (nonempty f); [|eauto]. destruct (mk_sum_total VI U F I HP HPO (f ++ [HId])) as (hf & ->).
        { intros Y. now apply app_eq_nil in Y. }
        cbn [rbind]. apply Rr. }
      destruct A as (f' & ->). cbn [rbind].
      assert (B : exists l', (if nonempty lo then rbind (mk_sum (lo ++ [HId])) (fun s =>
                 rbind (rewrite_fuel fuel on (fixpoint s)) (fun s => Ok (local (lvar k) s))) else Ok HId) = Ok l').
      { destruct (nonempty lo); [|eauto]. destruct (mk_sum_total VI U F I HP HPO (lo ++ [HId])) as (hl & ->).
        { intros Y. now apply app_eq_nil in Y. }
        cbn [rbind]. destruct (Rn (fixpoint hl)) as (hl' & ->). cbn [rbind]. eauto. }
      destruct B as (l' & ->). cbn [rbind]. eauto.
    - destruct (partition o hs) as [[[f g] lo] i]. destruct (negb (nonempty f) && negb (nonempty lo)); [eexists; reflexivity|].
      set (f2 := if i then f ++ [HId] else f).
      assert (A : exists f', opt_build VI U F I f2 (fun f => rbind (mk_inter f) (rewrite_fuel fuel o')) = Ok f').
      { unfold Hom.opt_build. destruct (nonempty f2) eqn:N2; [|eauto]. apply nonempty_ne in N2.
        destruct (mk_inter_total VI U F I HP HPO f2 N2) as (hf & ->). cbn [rbind].
        destruct (Rr hf) as (hf' & ->). cbn [rbind]. eauto. }
      destruct A as (f' & ->). cbn [rbind].
      assert (B : exists l', opt_build VI U F I lo (fun l => rbind (mk_inter l) (fun s =>
                 rbind (rewrite_fuel fuel on s) (fun s => Ok (local (lvar k) s)))) = Ok l').
      { unfold Hom.opt_build. destruct (nonempty lo) eqn:N2; [|eauto]. apply nonempty_ne in N2.
        destruct (mk_inter_total VI U F I HP HPO lo N2) as (hl & ->). cbn [rbind].
        destruct (Rn hl) as (hl' & ->). cbn [rbind]. eauto. }
      destruct B as (l' & ->). cbn [rbind]. eauto.
    - destruct (partition o hs) as [[[f g] lo] i]. destruct (negb (nonempty f) && negb (nonempty lo)); [eexists; reflexivity|].
      set (f2 := if i then f ++ [HId] else f).
      assert (A : exists f', opt_build VI U F I f2 (fun f => rbind (mk_sum f) (rewrite_fuel fuel o')) = Ok f').
      { unfold Hom.opt_build. destruct (nonempty f2) eqn:N2; [|eauto]. apply nonempty_ne in N2.
        destruct (mk_sum_total VI U F I HP HPO f2 N2) as (hf & ->). cbn [rbind].
        destruct (Rr hf) as (hf' & ->). cbn [rbind]. eauto. }
      destruct A as (f' & ->). cbn [rbind].
      assert (B : exists l', opt_build VI U F I lo (fun l => rbind (mk_sum l) (fun s =>
                 rbind (rewrite_fuel fuel on s) (fun s => Ok (local (lvar k) s)))) = Ok l').
      { unfold Hom.opt_build. destruct (nonempty lo) eqn:N2; [|eauto]. apply nonempty_ne in N2.
        destruct (mk_sum_total VI U F I HP HPO lo N2) as (hl & ->). cbn [rbind].
        destruct (Rn hl) as (hl' & ->). cbn [rbind]. eauto. }
      destruct B as (l' & ->). cbn [rbind]. eauto.
  Qed.

  (** ** Rewriting introduces no fixpoint *)
  Notation nofix := (nofix VI U F I).

  Lemma local_nofix t h : nofix h = true -> nofix (local t h) = true.
  Proof. intros H. unfold Hom.local. destruct (is_id h); auto. Qed.

  Lemma leaves_nofix h : nofix h = true -> forall k, In k (leaves h) -> nofix k = true.
  Proof.
    induction h as [| | | | | | | | | | | | | |hs IH] using hom_ind'; intros Sk k Hk;
      try (destruct Hk as [<-|[]]; exact Sk).
    cbn [HomSum.leaves] in Hk. cbn [HomHalts.nofix] in Sk. rewrite forallb_forall in Sk. rewrite Forall_forall in IH.
    apply in_flat_map in Hk. destruct Hk as (h & Hh & Hk). eauto.
  Qed.

  Lemma ileaves_nofix h : nofix h = true -> forall k, In k (ileaves h) -> nofix k = true.
  Proof.
    induction h as [| | | | | | | | |hs IH| | | | |] using hom_ind'; intros Sk k Hk;
      try (destruct Hk as [<-|[]]; exact Sk).
    cbn [HomInter.ileaves] in Hk. cbn [HomHalts.nofix] in Sk. rewrite forallb_forall in Sk. rewrite Forall_forall in IH.
    apply in_flat_map in Hk. destruct Hk as (h & Hh & Hk). eauto.
  Qed.

  Lemma regroup_nofix build : (forall l h, build l = Ok h -> (forall k, In k l -> nofix k = true) -> nofix h = true) ->
    forall m ops ops', (forall k, In k (ops ++ locals_of m) -> nofix k = true) ->
    regroup build m ops = Ok ops' -> forall k, In k ops' -> nofix k = true.
  Proof.
    intros Hb. induction m as [|[t l] m IH]; intros ops ops' Sk E k Hk; cbn [Hom.regroup] in E.
    - injection E as <-. apply Sk. apply in_or_app. auto.
    - destruct (build l) as [h|] eqn:Eb; [|discriminate]. cbn [rbind] in E.
      apply (IH (hset_add (local t h) ops) ops'); auto. intros k0 Hk0. apply in_app_or in Hk0.
      assert (Sk' : forall k1, In k1 (locals_of ((t, l) :: m)) -> nofix k1 = true) by (intros k1 Y; apply Sk; apply in_or_app; auto).
      unfold HomSum.locals_of in Sk'. cbn [flat_map] in Sk'.
      destruct Hk0 as [Hk0|Hk0].
      + apply (hset_add_in VI U F I HP HPO) in Hk0. destruct Hk0 as [->|Hk0].
        * apply local_nofix. apply (Hb l h Eb). intros k1 Hk1. apply (Sk' (HLocal t k1)).
          apply in_or_app. left. cbn [fst snd]. now apply in_map.
        * apply Sk. apply in_or_app. auto.
      + apply Sk'. apply in_or_app. right. exact Hk0.
  Qed.

  Lemma sum_fuel_nofix : forall n l h, sum_fuel n l = Ok h -> (forall k, In k l -> nofix k = true) -> nofix h = true.
  Proof.
    induction n as [|n IH]; intros l h E Sk; cbn [Hom.sum_fuel] in E; [discriminate|].
    destruct l as [|h0 l0]; [discriminate|]. set (l := h0 :: l0) in *.
    destruct (fold_left sum_visit l ([], [])) as [ops locals] eqn:Ef.
    destruct (regroup (sum_fuel n) (h_iter HP locals) ops) as [ops'|] eqn:Er; [|discriminate].
    cbn [rbind] in E.
    assert (Sk' : forall k, In k ops' -> nofix k = true).
    { apply (regroup_nofix (sum_fuel n) IH (h_iter HP locals) ops); auto.
      intros k. rewrite in_app_iff, (locals_iter VI U F I HP HPO), <- in_app_iff.
      change (ops ++ locals_of locals) with (repr (ops, locals)).
      rewrite <- Ef, (sum_fold_repr VI U F I HP HPO). intros [[]|Hk].
      apply in_flat_map in Hk. destruct Hk as (k0 & Hk0 & Hk). now apply (leaves_nofix k0 (Sk k0 Hk0)). }
    destruct ops' as [|h1 [|h2 r]]; injection E as <-; cbn [HomHalts.nofix].
    - reflexivity.
    - apply Sk'. now left.
    - apply forallb_forall. exact Sk'.
  Qed.

  Lemma inter_fuel_nofix : forall n l h, inter_fuel n l = Ok h -> (forall k, In k l -> nofix k = true) -> nofix h = true.
  Proof.
    induction n as [|n IH]; intros l h E Sk; cbn [Hom.inter_fuel] in E; [discriminate|].
    destruct l as [|h0 l0]; [discriminate|]. set (l := h0 :: l0) in *.
    destruct (fold_left inter_visit l ([], [])) as [ops locals] eqn:Ef.
    destruct (regroup (inter_fuel n) (h_iter HP locals) ops) as [ops'|] eqn:Er; [|discriminate].
    cbn [rbind] in E.
    assert (Sk' : forall k, In k ops' -> nofix k = true).
    { apply (regroup_nofix (inter_fuel n) IH (h_iter HP locals) ops); auto.
      intros k. rewrite in_app_iff, (locals_iter VI U F I HP HPO), <- in_app_iff.
      change (ops ++ locals_of locals) with (repr (ops, locals)).
      rewrite <- Ef, (inter_fold_repr VI U F I HP HPO). intros [[]|Hk].
      apply in_flat_map in Hk. destruct Hk as (k0 & Hk0 & Hk). now apply (ileaves_nofix k0 (Sk k0 Hk0)). }
    destruct ops' as [|h1 [|h2 r]]; injection E as <-; cbn [HomHalts.nofix].
    - reflexivity.
    - apply Sk'. now left.
    - apply forallb_forall. exact Sk'.
  Qed.

  Theorem rewrite_nofix : forall fuel o h h', rewrite_fuel fuel o h = Ok h' -> nofix h = true -> nofix h' = true.
  Proof.
    induction fuel as [|fuel IH]; intros o h h' E Nf; cbn [Hom.rewrite_fuel] in E; [discriminate|].
    destruct (o_empty o); [injection E as <-; auto|].
    destruct (o_variable o) as [var|]; [|discriminate]. destruct (o_next o) as [o'|]; [|discriminate].
    destruct (o_nested o) as [on|]; [|discriminate].
    destruct h as [| | | |hh| | | | |hs| | | | |hs]; try (injection E as <-; exact Nf); try discriminate Nf.
    - cbn [HomHalts.nofix] in Nf. rewrite forallb_forall in Nf.
      destruct (partition o hs) as [[[f g] lo] i] eqn:Ep. destruct (partition_spec o hs _ _ _ _ Ep) as (A & B & C & D & K).
      destruct (negb (nonempty f) && negb (nonempty lo)) eqn:Eb.
      { injection E as <-. cbn [HomHalts.nofix]. now apply forallb_forall. }
      set (f2 := if i then f ++ [HId] else f) in *.
      destruct (opt_build _ _ _ _ f2 _) as [f'|] eqn:Ef; [|discriminate]. cbn [rbind] in E.
      destruct (opt_build _ _ _ _ lo _) as [l'|] eqn:El; [|discriminate]. cbn [rbind] in E. injection E as <-.
      assert (Sf : match f' with Some k => nofix k = true | None => True end).
      { unfold Hom.opt_build in Ef. destruct (nonempty f2); [|now injection Ef as <-].
        destruct (mk_inter f2) as [hf|] eqn:Em; [|discriminate]. cbn [rbind] in Ef.
        destruct (rewrite_fuel fuel o' hf) as [hf'|] eqn:Er; [|discriminate]. cbn [rbind] in Ef. injection Ef as <-.
        apply (IH o' hf hf' Er). apply (inter_fuel_nofix _ _ _ Em). intros k Hk.
        assert (Hk' : In k f \/ k = HId).
        { unfold f2 in Hk. destruct i; [|auto]. apply in_app_or in Hk. destruct Hk as [Hk|[<-|[]]]; auto. }
        destruct Hk' as [Hk'| ->]; [|reflexivity]. apply Nf. now apply A in Hk'. }
      assert (Sl : match l' with Some k => nofix k = true | None => True end).
      { unfold Hom.opt_build in El. destruct (nonempty lo); [|now injection El as <-].
        destruct (mk_inter lo) as [hl|] eqn:Em; [|discriminate]. cbn [rbind] in El.
        destruct (rewrite_fuel fuel on hl) as [hl'|] eqn:Er; [|discriminate]. cbn [rbind] in El. injection El as <-.
        apply local_nofix. apply (IH on hl hl' Er). apply (inter_fuel_nofix _ _ _ Em). intros k Hk.
        destruct (C k Hk) as (t & Ht & _). exact (Nf _ Ht). }
      assert (Sg : forallb nofix (hset g) = true).
      { apply forallb_forall. intros k Hk. apply Nf. apply B. now apply hset_in. }
      unfold Hom.saturation_intersection. destruct g, f' as [f'|], l' as [l'|]; auto; cbn [HomHalts.nofix];
        rewrite ?Sf, ?Sl, ?Sg; reflexivity.
    - cbn [HomHalts.nofix] in Nf. rewrite forallb_forall in Nf.
      destruct (partition o hs) as [[[f g] lo] i] eqn:Ep. destruct (partition_spec o hs _ _ _ _ Ep) as (A & B & C & D & K).
      destruct (negb (nonempty f) && negb (nonempty lo)) eqn:Eb.
      { injection E as <-. cbn [HomHalts.nofix]. now apply forallb_forall. }
      set (f2 := if i then f ++ [HId] else f) in *.
      destruct (opt_build _ _ _ _ f2 _) as [f'|] eqn:Ef; [|discriminate]. cbn [rbind] in E.
      destruct (opt_build _ _ _ _ lo _) as [l'|] eqn:El; [|discriminate]. cbn [rbind] in E. injection E as <-.
      assert (Sf : match f' with Some k => nofix k = true | None => True end).
      { unfold Hom.opt_build in Ef. destruct (nonempty f2); [|now injection Ef as <-].
        destruct (mk_sum f2) as [hf|] eqn:Em; [|discriminate]. cbn [rbind] in Ef.
        destruct (rewrite_fuel fuel o' hf) as [hf'|] eqn:Er; [|discriminate]. cbn [rbind] in Ef. injection Ef as <-.
        apply (IH o' hf hf' Er). apply (sum_fuel_nofix _ _ _ Em). intros k Hk.
        assert (Hk' : In k f \/ k = HId).
        { unfold f2 in Hk. destruct i; [|auto]. apply in_app_or in Hk. destruct Hk as [Hk|[<-|[]]]; auto. }
        destruct Hk' as [Hk'| ->]; [|reflexivity]. apply Nf. now apply A in Hk'. }
      assert (Sl : match l' with Some k => nofix k = true | None => True end).
      { unfold Hom.opt_build in El. destruct (nonempty lo); [|now injection El as <-].
        destruct (mk_sum lo) as [hl|] eqn:Em; [|discriminate]. cbn [rbind] in El.
        destruct (rewrite_fuel fuel on hl) as [hl'|] eqn:Er; [|discriminate]. cbn [rbind] in El. injection El as <-.
        apply local_nofix. apply (IH on hl hl' Er). apply (sum_fuel_nofix _ _ _ Em). intros k Hk.
        destruct (C k Hk) as (t & Ht & _). exact (Nf _ Ht). }
      assert (Sg : forallb nofix (hset g) = true).
      { apply forallb_forall. intros k Hk. apply Nf. apply B. now apply hset_in. }
      unfold Hom.saturation_sum. destruct g, f' as [f'|], l' as [l'|]; auto; cbn [HomHalts.nofix];
        rewrite ?Sf, ?Sl, ?Sg; reflexivity.
  Qed.
End HomRewrite.

(** ** Shapes of the orders built by the library *)
Section Built.
  Variable U : Type.

  Lemma spine_small b : forall x, In x (spine (shape_of U b)) -> (x < N.of_nat (b_length b))%N.
  Proof.
    induction b as [|id n IHn x IHx]; intros y H; [destruct H|].
    assert (H' : y = N.of_nat (b_length x) \/ In y (spine (shape_of U x))).
    { destruct n; cbn [shape_of spine In] in H; intuition. }
    cbn [b_length]. destruct H' as [->|H']; [lia|]. specialize (IHx y H'). lia.
  Qed.

  Lemma distinct_shape_of b : distinct (shape_of U b).
  Proof.
    induction b as [|id n IHn x IHx]; [exact Logic.I|].
    assert (N : ~ In (N.of_nat (b_length x)) (spine (shape_of U x))).
    { intros H. apply spine_small in H. lia. }
    destruct n as [|id' n' x']; cbn [shape_of distinct]; auto.
  Qed.

  Lemma height_shape_of b : height (shape_of U b) <= b_size b.
  Proof.
    induction b as [|id n IHn x IHx]; [cbn; lia|].
    destruct n as [|id' n' x']; cbn [shape_of height b_size] in *; lia.
  Qed.
End Built.
