(** * The constructor of intersections: flattening and regrouping of locals, for selectors *)

From Coq Require Import List Bool NArith Arith Lia Permutation Sorted Relations.
From Verif Require Import Base SortedSets Values Sdd SddFacts Orders OrdersProofs OrdersSdd DDModel.
From Verif Require Import DDGeneric DDProofs DDTheorems Hom HomFacts HomEval HomTyped HomEqns HomLinear.
From Verif Require Import HomSum HomHalts HomComp.
Import ListNotations.

Section HomInter.
  Variable VI : values_impl.
  Hypothesis VL : values_laws VI.
  Variable PF : platform VI.
  Hypothesis PO : platform_ok PF.
  Variables U F I : Type.
  Notation V := (vt VI).
  Notation sdd := (sdd V).
  Notation hom := (hom V U F I).
  Variable HP : hplatform V U F I.
  Hypothesis HPO : hplatform_ok HP.
  Variable US : user V U F I.
  Notation order := (order U).
  Notation fits := (fits VI PF).
  Notation oshape := (oshape U).
  Notation olevel := (olevel U).
  Notation typed := (typed VI PF U F I US).
  Notation hskip := (hskip VI U F I US).
  Notation hselector := (hselector VI U F I US).
  Notation evals := (evals VI PF U F I US).
  Notation residual := (residual VI).
  Notation inter_of := (inter_of VI PF U F I US).
  Notation asg := (asg (elt VI)).
  Notation is_id := (is_id VI U F I).
  Notation local := (local VI U F I).
  Notation hsize := (hsize VI U F I).
  Notation hset_add := (hset_add VI U F I HP).
  Notation inter_visit := (inter_visit VI U F I HP).
  Notation inter_fuel := (inter_fuel VI U F I HP).
  Notation mk_inter := (mk_inter VI U F I HP).
  Notation regroup := (regroup VI U F I HP).
  Notation add_local := (add_local VI U F I).
  Notation harcs := (harcs VI).
  Notation local_at := (local_at U).
  Notation locals_of := (locals_of VI U F I).
  Notation repr := (repr VI U F I).
  Notation sub := (sub VI).
  Hypothesis HO : honest VI PF U F I US.

  (** [h] terminates on every operand. *)
  Definition tot (o : order) (h : hom) : Prop :=
    forall s x, oshape o s -> fits s x -> exists y, evals o h x y.

  Definition al (o : order) (hs : list hom) (x : sdd) (q : asg) : Prop :=
    forall h, In h hs -> exists z, evals o h x z /\ contains z q = true.
  Definition isame (o : order) (hs hs' : list hom) : Prop :=
    forall s x, oshape o s -> fits s x -> forall q, al o hs x q <-> al o hs' x q.

  Lemma isame_refl o hs : isame o hs hs.
  Proof. intros s x O Fx q. reflexivity. Qed.
  Lemma isame_sym o hs hs' : isame o hs hs' -> isame o hs' hs.
  Proof. intros H s x O Fx q. symmetry. now apply (H s). Qed.
  Lemma isame_trans o a b c : isame o a b -> isame o b c -> isame o a c.
  Proof. intros H K s x O Fx q. rewrite (H s x O Fx q). now apply (K s). Qed.
  Lemma isame_mem o hs hs' : (forall h, In h hs <-> In h hs') -> isame o hs hs'.
  Proof. intros H s x O Fx q. split; intros A h Hh; apply A; now apply H. Qed.
  Lemma al_app o a b x q : al o (a ++ b) x q <-> al o a x q /\ al o b x q.
  Proof.
    split.
    - intros H. split; intros h Hh; apply H; apply in_or_app; auto.
    - intros [A B] h Hh. apply in_app_or in Hh. destruct Hh; auto.
  Qed.
  Lemma isame_app o a b c d : isame o a c -> isame o b d -> isame o (a ++ b) (c ++ d).
  Proof. intros H K s x O Fx q. rewrite !al_app, (H s x O Fx q), (K s x O Fx q). reflexivity. Qed.

  (** From [same] for single homomorphisms. *)
  Lemma isame_same o h k s' : typed o h s' -> typed o k s' -> same VI PF U F I US o [h] [k] -> isame o [h] [k].
  Proof.
    intros Th Tk S s x O Fx q.
    split; intros A k' [<-|[]].
    - destruct (A h (or_introl eq_refl)) as (z & Ez & Cz). exists z. split; [|auto].
      apply (same_evals VI VL PF PO U F I US HO o s h k s'); auto.
    - destruct (A k (or_introl eq_refl)) as (z & Ez & Cz). exists z. split; [|auto].
      apply (same_evals VI VL PF PO U F I US HO o s k h s'); auto. now apply same_sym.
  Qed.

  Lemma evals_all_mem o hs x ys h y : evals_all VI PF U F I US o hs x ys -> In h hs -> evals o h x y -> In y ys.
  Proof.
    intros Hys Hk Ew. induction Hys as [|k0 w0 hs ys A H IH]; [destruct Hk|].
    destruct Hk as [->|Hk]; [left; apply (evals_fun VI PF U F I US _ _ _ _ _ A Ew)|right; auto].
  Qed.

  (** The intersection of a list, as a set. *)
  Lemma inter_of_al o s s' hs x : oshape o s -> fits s x -> hs <> [] -> (forall h, In h hs -> typed o h s') ->
    (forall h, In h hs -> tot o h) ->
    exists y, inter_of o hs x y /\ fits s' y /\ forall q, contains y q = true <-> al o hs x q.
  Proof.
    intros O Fx Ne Th Tt.
    destruct (evals_all_ex VI PF U F I US o hs x) as (ys & Hys); [intros h Hh; now apply (Tt h Hh s)|].
    assert (Fys := evals_all_fits VI VL PF PO U F I US HO o hs s s' x ys O Fx Th Hys).
    assert (Ney := evals_all_ne VI PF U F I US _ _ _ _ Hys Ne).
    destruct (inter_ok VI VL PF PO s' ys Ney Fys) as (y & Ey & Fy & C). exists y. split; [exists ys; auto|].
    split; [auto|]. intros q. rewrite C, forallb_forall. split.
    - intros H h Hh. destruct (Tt h Hh s x O Fx) as (z & Ez). exists z. split; [auto|]. apply H.
      now apply (evals_all_mem o hs x ys h).
    - intros H z Hz. destruct (evals_all_in VI PF U F I US _ _ _ _ Hys z Hz) as (h & Hh & Ez).
      destruct (H h Hh) as (z' & Ez' & Cz). now rewrite (evals_fun VI PF U F I US _ _ _ _ _ Ez Ez').
  Qed.

  Lemma isame_one o s h hs s' : oshape o s -> typed o h s' -> tot o h -> hs <> [] ->
    (forall k, In k hs -> typed o k s') -> (forall k, In k hs -> tot o k) -> isame o [h] hs ->
    forall x y, fits s x -> (evals o h x y <-> inter_of o hs x y).
  Proof.
    intros O Th Tt Ne Ths Tts S x y Fx.
    destruct (inter_of_al o s s' hs x O Fx Ne Ths Tts) as (z & Ez & Fz & C).
    assert (Eh : evals o h x z).
    { destruct (Tt s x O Fx) as (w & Ew). assert (w = z); [|subst; auto].
      apply (fits_ext VI VL PF PO s'); auto.
      - apply (evals_fits VI VL PF PO U F I US HO o h s s' x); auto.
      - intros q. apply bool_ext. rewrite C, <- (S s x O Fx q). split.
        + intros Cw k [<-|[]]. eauto.
        + intros A. destruct (A h (or_introl eq_refl)) as (w' & Ew' & Cw).
          now rewrite (evals_fun VI PF U F I US _ _ _ _ _ Ew Ew'). }
    split.
    - intros E. now rewrite (evals_fun VI PF U F I US _ _ _ _ _ E Eh).
    - intros (ys & A & B). destruct Ez as (zs & A' & B').
      rewrite (evals_all_fun VI PF U F I US _ _ _ _ _ A A') in B. rewrite B' in B. injection B as <-. exact Eh.
  Qed.

  Lemma inter_tot o hs s' : typed o (HInter hs) s' -> (forall h, In h hs -> tot o h) -> tot o (HInter hs).
  Proof.
    intros T Tt s x O Fx. destruct (typed_inter_inv VI PF U F I US _ _ _ T) as [Ne Th].
    destruct (inter_of_al o s s' hs x O Fx Ne Th Tt) as (z & Ez & Fz & C). exists z.
    now apply (E_inter VI VL PF PO U F I US HO o s O hs s').
  Qed.

  Lemma isame_inter o hs s' : typed o (HInter hs) s' -> (forall h, In h hs -> tot o h) -> isame o [HInter hs] hs.
  Proof.
    intros T Tt s x O Fx q. destruct (typed_inter_inv VI PF U F I US _ _ _ T) as [Ne Th].
    destruct (inter_of_al o s s' hs x O Fx Ne Th Tt) as (z & Ez & Fz & C). rewrite <- C.
    assert (E : evals o (HInter hs) x z) by now apply (E_inter VI VL PF PO U F I US HO o s O hs s').
    split.
    - intros A. destruct (A _ (or_introl eq_refl)) as (w & Ew & Cw).
      now rewrite (evals_fun VI PF U F I US _ _ _ _ _ E Ew).
    - intros Cz k [<-|[]]. eauto.
  Qed.

  (** ** Below a skipped variable *)

  Lemma skip_tot o l o' h r' : olevel o l o' -> hskip o h = true -> typed o' h r' -> tot o' h -> tot o h.
  Proof.
    intros L Sk T Tt s x O Fx.
    destruct (oshape_inv _ _ _ O) as [[X _]|(_ & l' & o'' & r & L' & -> & O')].
    { rewrite (olevel_nonempty _ _ _ _ L) in X. discriminate. }
    destruct (olevel_fun _ _ _ _ L' _ _ L) as [-> ->].
    apply (skip_exists VI VL PF PO U F I US HO o l o' h r r' x L O' Fx Sk T). intros k.
    apply (Tt r); auto. now apply (residual_fits VI PF l).
  Qed.

  Lemma isame_skip o l o' hs hs' r' : olevel o l o' -> hs <> [] -> hs' <> [] ->
    (forall h, In h hs -> hskip o h = true /\ typed o' h r' /\ tot o' h) ->
    (forall h, In h hs' -> hskip o h = true /\ typed o' h r' /\ tot o' h) ->
    isame o' hs hs' -> isame o hs hs'.
  Proof.
    intros L Ne Ne' A B H s x O Fx.
    destruct (oshape_inv _ _ _ O) as [[X _]|(_ & l' & o'' & r & L' & -> & O')].
    { rewrite (olevel_nonempty _ _ _ _ L) in X. discriminate. }
    destruct (olevel_fun _ _ _ _ L' _ _ L) as [-> ->]. clear L'.
    assert (Q : forall hs, hs <> [] -> (forall h, In h hs -> hskip o h = true /\ typed o' h r' /\ tot o' h) ->
              forall q, al o hs x q <-> exists k q', q = acons VI (lvar l) k q' /\ al o' hs (residual x k) q').
    { intros l0 N0 A0 q. split.
      - intros E.
        assert (Down : forall h, In h l0 -> exists z, evals o h x z /\ fits (under l r') z /\
                  arcwise VI (evals o' h) x z /\ contains z q = true).
        { intros h Hh. destruct (A0 h Hh) as (S & T & _). destruct (E h Hh) as (z & Ez & Cz).
          exists z. split; [auto|].
          apply (ev_skip VI VL PF PO U F I US HO o l o' h r r' x z L O' Fx S T) in Ez. destruct Ez as [Fz Ez]. auto. }
        destruct l0 as [|h0 l0]; [congruence|].
        destruct (Down h0 (or_introl eq_refl)) as (z & _ & Fz & _ & Cz).
        apply (contains_iff VI PF l r' z q Fz) in Cz. destruct Cz as (k & q' & -> & Cz).
        exists k, q'. split; [auto|]. intros h Hh. destruct (Down h Hh) as (w & _ & Fw & Aw & Cw).
        exists (residual w k). split; [apply Aw|]. now rewrite <- (residual_contains VI PF l r' w k q' Fw).
      - intros (k & q' & -> & E) h Hh. destruct (A0 h Hh) as (S & T & Tt).
        destruct (skip_tot o l o' h r' L S T Tt (under l r) x O Fx) as (z & Ez). exists z. split; [auto|].
        apply (ev_skip VI VL PF PO U F I US HO o l o' h r r' x z L O' Fx S T) in Ez. destruct Ez as [Fz Ez].
        rewrite (residual_contains VI PF l r' z k q' Fz). destruct (E h Hh) as (w & Ew & Cw).
        now rewrite <- (evals_fun VI PF U F I US _ _ _ _ _ Ew (Ez k)). }
    intros q. rewrite (Q hs Ne A), (Q hs' Ne' B).
    assert (R : forall k, fits r (residual x k)) by (intros k; now apply (residual_fits VI PF l)).
    split; intros (k & q' & -> & X); exists k, q'; (split; [auto|]); now apply (H r (residual x k) O' (R k)).
  Qed.

  (** ** Locals *)

  Lemma local_tot o t s' on n' h : local_at o t s' on n' -> typed on h n' -> tot on h -> tot o (HLocal t h).
  Proof.
    intros L T Tt. induction L as [o t n o' on n' r L M O|o l o' t s' on n' L N H IH].
    - intros s x Os Fx.
      assert (Es : s = SHier t n r).
      { apply (oshape_fun _ _ _ Os). now apply (oshape_level _ _ (LHier t n) _ r L). }
      subst s. apply (local_here_ex VI VL PF PO U F I US HO o t n o' on h n' r x L M O T Fx).
      intros v s Hin. destruct (fits_harcs VI PF _ _ _ _ _ _ Fx Hin) as (Fv & _). apply (Tt n); auto.
      destruct L as (_ & _ & on' & M' & _ & On). congruence.
    - apply (skip_tot o l o' (HLocal t h) s' L); auto.
      + cbn [Hom.hskip]. now apply (var_neqb_level U o l o' t L).
      + apply typed_local_iff. eauto.
  Qed.

  Theorem isame_local o t s' on n' h hs : local_at o t s' on n' -> hs <> [] ->
    typed on h n' -> tot on h -> hselector h = true ->
    (forall k, In k hs -> typed on k n' /\ tot on k /\ hselector k = true) -> isame on [h] hs ->
    isame o [HLocal t h] (map (HLocal t) hs).
  Proof.
    intros L Ne Th Tt Sh Hk Hs. induction L as [o t n o' on n' r L M O|o l o' t s' on n' L N H IH].
    - intros s x Os Fx q.
      assert (Es : s = SHier t n r).
      { apply (oshape_fun _ _ _ Os). now apply (oshape_level _ _ (LHier t n) _ r L). }
      subst s. clear Os.
      assert (On : oshape on n).
      { destruct L as (_ & _ & on' & M' & _ & On). congruence. }
      assert (Cn : forall k, typed on k n' -> tot on k -> hselector k = true ->
                ((exists z, evals o (HLocal t k) x z /\ contains z q = true) <->
                exists v w s a q', q = ANest t a q' /\ In (v, s) (harcs x) /\ contains v a = true /\ evals on k v w /\
                  contains w a = true /\ contains s q' = true)).
      { intros k Tk Ttk Sk. split.
        - intros (y & Ey & Cq).
          destruct (local_here_fwd VI VL PF PO U F I US HO o t n o' on k n' r x y L M O Tk Fx Ey) as (Fy & _ & C).
          destruct (contains_step VI PF (LHier t n') r _ _ Fy Cq) as ([a|a] & q' & ->); cbn [acons lvar] in *.
          { exfalso. destruct y as [| |v arcs|v arcs]; try discriminate. destruct Fy as [_ Fy]. inversion Fy. }
          apply C in Cq. destruct Cq as (v & w & s & Hin & Ew & Cw & Cs). exists v, w, s, a, q'.
          destruct (fits_harcs VI PF _ _ _ _ _ _ Fx Hin) as (Fv & _).
          assert (Sub : sub w v) by (apply (evals_selector VI VL PF PO U F I US HO on k n n'); auto).
          auto 10.
        - intros (v & w & s & a & q' & -> & Hin & Cv & Ew & Cw & Cs).
          destruct (local_here_ex VI VL PF PO U F I US HO o t n o' on k n' r x L M O Tk Fx) as (y & Ey).
          { intros v' s0 Hin'. apply (Ttk n); [auto|]. now destruct (fits_harcs VI PF _ _ _ _ _ _ Fx Hin'). }
          exists y. split; [auto|].
          destruct (local_here_fwd VI VL PF PO U F I US HO o t n o' on k n' r x y L M O Tk Fx Ey) as (Fy & _ & C).
          apply C. exists v, w, s. auto. }
      assert (Uniq : forall v s v' s' a, In (v, s) (harcs x) -> In (v', s') (harcs x) ->
                contains v a = true -> contains v' a = true -> v' = v /\ s' = s).
      { intros v s v' s0 a I1 I2 C1 C2.
        destruct x as [| |v0 arcs|v0 arcs]; cbn [HomLinear.harcs] in *; [destruct I1..|].
        destruct (fits_hier_inv VI PF _ _ _ _ _ Fx) as (-> & _ & D & G).
        pose proof (adisjoint_unique VI _ _ D _ _ _ _ _ I1 I2 C1 C2) as X. injection X as -> ->. auto. }
      split.
      + intros A k Hin. apply in_map_iff in Hin. destruct Hin as (k0 & <- & Hin).
        destruct (Hk k0 Hin) as (T0 & Tt0 & S0). apply (Cn k0 T0 Tt0 S0).
        specialize (A _ (or_introl eq_refl)). apply (Cn h Th Tt Sh) in A.
        destruct A as (v & w & s & a & q' & -> & Hin' & Cv & Ew & Cw & Cs).
        destruct (fits_harcs VI PF _ _ _ _ _ _ Fx Hin') as (Fv & _).
        assert (X : al on [h] v a) by (intros ? [<-|[]]; eauto).
        apply (Hs n v On Fv) in X. destruct (X k0 Hin) as (w' & Ew' & Cw').
        exists v, w', s, a, q'. auto 10.
      + intros A k [<-|[]]. apply (Cn h Th Tt Sh).
        assert (A' : forall k0, In k0 hs -> exists v w s a q', q = ANest t a q' /\ In (v, s) (harcs x) /\
                  contains v a = true /\ evals on k0 v w /\ contains w a = true /\ contains s q' = true).
        { intros k0 Hin. destruct (Hk k0 Hin) as (T0 & Tt0 & S0). apply (Cn k0 T0 Tt0 S0).
          apply A. apply in_map_iff. eauto. }
        assert (N0 : exists k0, In k0 hs) by (destruct hs as [|k0 hs0]; [congruence|exists k0; now left]).
        destruct N0 as (k0 & Hin0). destruct (A' k0 Hin0) as (v & w & s & a & q' & -> & Hin & Cv & Ew & Cw & Cs).
        destruct (fits_harcs VI PF _ _ _ _ _ _ Fx Hin) as (Fv & _).
        assert (X : al on hs v a).
        { intros k1 Hin1. destruct (A' k1 Hin1) as (v1 & w1 & s1 & a1 & q1 & E1 & Hi1 & Cv1 & Ew1 & Cw1 & Cs1).
          injection E1 as <- <-. destruct (Uniq _ _ _ _ _ Hin Hi1 Cv Cv1) as [-> ->]. eauto. }
        apply (Hs n v On Fv) in X. destruct (X h (or_introl eq_refl)) as (w' & Ew' & Cw').
        exists v, w', s, a, q'. auto 10.
    - assert (Sk : forall k, hskip o (HLocal t k) = true).
      { intros k. cbn [Hom.hskip]. now apply (var_neqb_level U o l o' t L). }
      apply (isame_skip o l o' _ _ s' L); [discriminate| | | |now apply IH].
      + destruct hs; [congruence|discriminate].
      + intros k [<-|[]]. split; [apply Sk|]. split; [apply typed_local_iff; eauto|].
        now apply (local_tot o' t s' on n').
      + intros k Hin. apply in_map_iff in Hin. destruct Hin as (k0 & <- & Hin). destruct (Hk k0 Hin) as (A & B & C).
        split; [apply Sk|]. split; [apply typed_local_iff; eauto|]. now apply (local_tot o' t s' on n').
  Qed.

  (** ** Homomorphisms all of whose parts terminate *)

  Inductive itree : order -> hom -> Prop :=
  | it_leaf o h : (match h with HInter _ | HLocal _ _ => False | _ => True end) -> tot o h -> itree o h
  | it_inter o l : (forall h, In h l -> itree o h) -> itree o (HInter l)
  | it_local o t h s on n : local_at o t s on n -> itree on h -> itree o (HLocal t h).

  Lemma itree_tot o h : itree o h -> forall s', typed o h s' -> tot o h.
  Proof.
    induction 1 as [o h _ H|o l H IH|o t h s on n L H IH]; intros s' T; [auto| |].
    - destruct (typed_inter_inv VI PF U F I US _ _ _ T) as [Ne Th].
      apply (inter_tot o l s' T). intros h Hh. apply (IH h Hh s'); auto.
    - apply typed_local_iff in T. destruct T as (on2 & n' & L' & T).
      assert (on2 = on) by apply (local_at_order U _ _ _ _ _ _ _ _ L L'). subst on2.
      apply (local_tot o t s' on n'); auto. now apply (IH n').
  Qed.

  Lemma itree_local_inv o t h s on n : itree o (HLocal t h) -> local_at o t s on n -> itree on h.
  Proof.
    intros H L. inversion H as [? ? X| |? ? ? s2 on2 n2 L2 H2]; subst; [contradiction|].
    now rewrite <- (local_at_order U _ _ _ _ _ _ _ _ L L2).
  Qed.

  (** Homomorphisms without fixpoint are such trees. *)
  Lemma nofix_itree : user_nofix VI U F I US -> forall h o s', typed o h s' -> nofix VI U F I h = true -> itree o h.
  Proof.
    intros Un. induction h as [| | | | | | | | |l IH|t h IH| | | |] using hom_ind'; intros oo s' T Nf;
      try (apply it_leaf; [exact Logic.I|]; intros ss xx O Fx; now apply (halts VI VL PF PO U F I US HO Un _ _ s' T Nf ss)).
    - destruct (typed_inter_inv VI PF U F I US _ _ _ T) as [Ne Th]. cbn [nofix] in Nf. rewrite forallb_forall in Nf.
      rewrite Forall_forall in IH. apply it_inter. intros h Hh. apply (IH h Hh oo s'); auto.
    - apply typed_local_iff in T. destruct T as (on & n' & L & T). apply (it_local oo t h s' on n' L).
      now apply (IH on n').
  Qed.

  (** ** The state of the builder *)

  Fixpoint ileaves (h : hom) : list hom :=
    match h with
    | HInter l => flat_map ileaves l
    | _ => [h]
    end.

  Lemma inter_visit_repr h : forall st k, In k (repr (inter_visit st h)) <-> In k (repr st) \/ In k (ileaves h).
  Proof.
    induction h as [| | | | | | | | |l IH|t h IH| | | |] using hom_ind'; intros st k;
      try (cbn [Hom.inter_visit ileaves]; unfold HomSum.repr; cbn [fst snd];
           rewrite in_app_iff, (hset_add_in VI U F I HP HPO), in_app_iff; cbn [In]; intuition congruence).
    - cbn [Hom.inter_visit ileaves]. revert st. induction IH as [|h l Hh Hl IHl]; intros st.
      + cbn. intuition.
      + cbn [fold_left flat_map]. rewrite IHl, Hh, in_app_iff. intuition.
    - cbn [Hom.inter_visit ileaves]. unfold HomSum.repr. cbn [fst snd].
      rewrite !in_app_iff, add_local_repr. cbn [In]. intuition congruence.
  Qed.

  Lemma inter_fold_repr l : forall st k,
    In k (repr (fold_left inter_visit l st)) <-> In k (repr st) \/ In k (flat_map ileaves l).
  Proof.
    induction l as [|h l IH]; intros st k; cbn [fold_left flat_map].
    - cbn. intuition.
    - rewrite IH, inter_visit_repr, in_app_iff. intuition.
  Qed.

  (** What is known of each operand. *)
  Definition good (o : order) (s' : shape) (h : hom) : Prop := typed o h s' /\ hselector h = true /\ itree o h.

  Lemma ileaves_good h : forall o s', good o s' h ->
    (forall k, In k (ileaves h) -> good o s' k) /\ ileaves h <> [] /\ isame o [h] (ileaves h).
  Proof.
    induction h as [| | | | | | | | |l IH|t h IH| | | |] using hom_ind'; intros oo s' G;
      try (cbn [ileaves]; split; [intros k [<-|[]]; auto|split; [discriminate|apply isame_refl]]).
    destruct G as (T & Sl & It). destruct (typed_inter_inv VI PF U F I US _ _ _ T) as [Ne Th]. cbn [ileaves].
    cbn [Hom.hselector] in Sl. rewrite forallb_forall in Sl.
    assert (Il : forall h, In h l -> itree oo h).
    { inversion It; subst; [contradiction|auto]. }
    assert (H : (forall k, In k (flat_map ileaves l) -> good oo s' k) /\ (l <> [] -> flat_map ileaves l <> []) /\
              isame oo l (flat_map ileaves l)).
    { clear Ne T It. induction IH as [|h l Hh Hl IHl].
      - split; [intros k []|split; [auto|apply isame_refl]].
      - destruct (Hh oo s') as (A & B & C); [split; [|split]; auto with datatypes|].
        destruct IHl as (A' & B' & C'); [intros k Hk; auto with datatypes..|]. cbn [flat_map].
        split; [|split].
        + intros k Hk. apply in_app_or in Hk. destruct Hk; auto.
        + intros _ X. apply app_eq_nil in X. now apply B.
        + now apply (isame_app oo [h] l). }
    destruct H as (A & B & C). split; [auto|split; [auto|]].
    apply (isame_trans _ _ l); [|auto]. apply (isame_inter oo l s' T). intros h Hh. apply (itree_tot oo h (Il h Hh) s' (Th h Hh)).
  Qed.

  Lemma ileaves_list l o s' : (forall k, In k l -> good o s' k) ->
    (forall k, In k (flat_map ileaves l) -> good o s' k) /\ (l <> [] -> flat_map ileaves l <> []) /\
      isame o l (flat_map ileaves l).
  Proof.
    induction l as [|h l IHl]; intros Th.
    - split; [intros k []|split; [auto|apply isame_refl]].
    - destruct (ileaves_good h o s' (Th h (or_introl eq_refl))) as (A & B & C).
      destruct IHl as (A' & B' & C'); [intros k Hk; apply Th; now right|]. cbn [flat_map].
      split; [|split].
      + intros k Hk. apply in_app_or in Hk. destruct Hk; auto.
      + intros _ X. apply app_eq_nil in X. now apply B.
      + now apply (isame_app o [h] l).
  Qed.

  Lemma good_local o t h s' on n' : local_at o t s' on n' -> good on n' h -> good o s' (local t h).
  Proof.
    intros L (T & S & It).
    assert (TL : typed o (HLocal t h) s') by (apply typed_local_iff; eauto).
    unfold Hom.local. destruct (is_id h) eqn:Ei.
    - apply is_id_iff in Ei. subst h. split; [now apply (typed_local_id VI PF U F I US o t)|].
      split; [reflexivity|]. apply it_leaf; [exact Logic.I|]. intros s x _ _. exists x. now apply evals_id.
    - split; [auto|split; [auto|]]. now apply (it_local o t h s' on n').
  Qed.

  Lemma regroup_iok (build : list hom -> res (cerr U) hom) o s' :
    (forall l h on n', build l = Ok h -> (forall k, In k l -> good on n' k) ->
       (exists n, oshape on n) -> good on n' h /\ isame on [h] l) ->
    forall m ops ops', (forall t l, In (t, l) m -> l <> []) ->
      (forall k, In k ops \/ In k (locals_of m) -> good o s' k) ->
      regroup build m ops = Ok ops' ->
      (forall k, In k ops' -> good o s' k) /\ isame o ops' (ops ++ locals_of m) /\
      (ops ++ locals_of m <> [] -> ops' <> []).
  Proof.
    intros Hb. induction m as [|[t l] m IH]; intros ops ops' Hne Ht E.
    - cbn in E. injection E as <-. rewrite app_nil_r. split; [auto|split; [apply isame_refl|auto]].
    - cbn [Hom.regroup] in E. destruct (build l) as [h|] eqn:Eh; [|discriminate]. cbn [rbind] in E.
      assert (Hl : forall k, In k l -> good o s' (HLocal t k)).
      { intros k Hk. apply Ht. right. unfold HomSum.locals_of. cbn [flat_map fst snd]. apply in_or_app. left.
        apply in_map_iff. now exists k. }
      pose proof (Hne t l (or_introl eq_refl)) as Nl.
      assert (L : exists on n', local_at o t s' on n' /\ (forall k, In k l -> good on n' k)).
      { destruct l as [|k0 l0]; [congruence|].
        destruct (Hl k0 (or_introl eq_refl)) as (T0 & _). apply typed_local_iff in T0.
        destruct T0 as (on & n' & L & T0). exists on, n'. split; [auto|]. intros k Hk.
        destruct (Hl k Hk) as (T1 & S1 & I1). apply typed_local_iff in T1. destruct T1 as (on1 & n1 & L1 & T1).
        destruct (local_at_fun _ _ _ _ _ _ L _ _ L1) as [-> ->]. split; [auto|split; [auto|]].
        now apply (itree_local_inv o t k s' on n'). }
      destruct L as (on & n' & L & Tl).
      destruct (local_at_nested _ _ _ _ _ _ L) as (n & On & _).
      destruct (Hb l h on n' Eh Tl (ex_intro _ n On)) as [Gh Sh].
      destruct Gh as (Th & Slh & Ith).
      assert (TL : typed o (HLocal t h) s') by (apply typed_local_iff; eauto).
      assert (Gloc : good o s' (local t h)) by (apply (good_local o t h s' on n' L); split; auto).
      assert (S1 : isame o [local t h] (map (HLocal t) l)).
      { apply (isame_trans _ _ [HLocal t h]).
        - apply (isame_same o _ _ s'); auto; [apply Gloc|]. now apply (same_mk_local VI VL PF PO U F I US HO o t h s').
        - apply (isame_local o t s' on n' h l L Nl Th (itree_tot on h Ith n' Th) Slh); [|auto].
          intros k Hk. destruct (Tl k Hk) as (A & B & C). split; [auto|split; [|auto]].
          now apply (itree_tot on k C n'). }
      destruct (IH (hset_add (local t h) ops) ops') as (A & B & C); auto.
      { intros t' l' Hin. apply (Hne t' l'). now right. }
      { intros k [Hk|Hk].
        - apply (hset_add_in VI U F I HP HPO) in Hk. destruct Hk as [->|Hk]; auto.
        - apply Ht. right. unfold HomSum.locals_of in *. cbn [flat_map]. apply in_or_app. auto. }
      split; [auto|split].
      + apply (isame_trans _ _ _ _ B).
        apply (isame_trans _ _ ((ops ++ [local t h]) ++ locals_of m)).
        { apply isame_mem. intros k. rewrite !in_app_iff, (hset_add_in VI U F I HP HPO). cbn. intuition. }
        unfold HomSum.locals_of at 2. cbn [flat_map fst snd]. rewrite app_assoc.
        apply isame_app; [|apply isame_refl]. apply isame_app; [apply isame_refl|exact S1].
      + intros _. apply C. intros X. apply app_eq_nil in X. destruct X as [X _].
        assert (Y : In (local t h) (hset_add (local t h) ops)) by (apply (hset_add_in VI U F I HP HPO); auto).
        rewrite X in Y. destruct Y.
  Qed.

  Lemma inter_visit_ne h : forall st, (forall t l, In (t, l) (snd st) -> l <> []) ->
    forall t l, In (t, l) (snd (inter_visit st h)) -> l <> [].
  Proof.
    induction h as [| | | | | | | | |l IH|t h IH| | | |] using hom_ind'; intros st Hst; cbn [Hom.inter_visit snd]; auto.
    - revert st Hst. induction IH as [|h l Hh Hl IHl]; intros st Hst; cbn [fold_left]; [auto|].
      apply IHl. now apply Hh.
    - now apply add_local_ne.
  Qed.

  Lemma inter_fold_ne l : forall st, (forall t l, In (t, l) (snd st) -> l <> []) ->
    forall t l', In (t, l') (snd (fold_left inter_visit l st)) -> l' <> [].
  Proof.
    induction l as [|h l IH]; intros st Hst; cbn [fold_left]; [auto|]. apply IH. now apply inter_visit_ne.
  Qed.

  Theorem inter_fuel_ok : forall fuel l h o s', inter_fuel fuel l = Ok h -> (forall k, In k l -> good o s' k) ->
    (exists s, oshape o s) -> good o s' h /\ isame o [h] l.
  Proof.
    induction fuel as [|fuel IH]; intros l h o s' E Th O; [discriminate|].
    cbn [Hom.inter_fuel] in E. destruct l as [|h0 l0]; [discriminate|]. set (l := h0 :: l0) in *.
    destruct (fold_left inter_visit l ([], [])) as [ops locals] eqn:Ef.
    destruct (regroup (inter_fuel fuel) (h_iter HP locals) ops) as [ops'|] eqn:Er; [|discriminate].
    cbn [rbind] in E.
    destruct (ileaves_list l o s' Th) as (A & B & C).
    assert (R : forall k, In k (ops ++ locals_of (h_iter HP locals)) <-> In k (flat_map ileaves l)).
    { intros k. rewrite in_app_iff, (locals_iter VI U F I HP HPO), <- in_app_iff.
      change (ops ++ locals_of locals) with (repr (ops, locals)). rewrite <- Ef, inter_fold_repr. cbn. intuition. }
    destruct (regroup_iok (inter_fuel fuel) o s') with (m := h_iter HP locals) (ops := ops) (ops' := ops')
      as (A' & B' & C'); auto.
    { intros t l' Hin. apply (inter_fold_ne l ([], [])) with (t := t).
      - intros t1 l1 [].
      - rewrite Ef. cbn [snd]. now apply (Permutation_in _ (hp_iter HPO locals)). }
    { intros k Hk. apply A. apply R. now apply in_or_app. }
    assert (Ne : ops' <> []).
    { apply C'. intros X. destruct (flat_map ileaves l) as [|k ks] eqn:El; [now apply B|].
      assert (Y : In k (ops ++ locals_of (h_iter HP locals))) by (apply R; now left).
      rewrite X in Y. destruct Y. }
    assert (S : isame o ops' l).
    { apply (isame_trans _ _ _ _ B'). apply (isame_trans _ _ (flat_map ileaves l)); [now apply isame_mem|].
      now apply isame_sym. }
    assert (Ts : good o s' (HInter ops')).
    { split; [|split].
      - constructor; [auto|]. intros k Hk. now apply A'.
      - cbn [Hom.hselector]. apply forallb_forall. intros k Hk. now apply A'.
      - apply it_inter. intros k Hk. now apply A'. }
    destruct ops' as [|h1 [|h2 r]].
    - congruence.
    - injection E as <-. split; [apply A'; now left|exact S].
    - injection E as <-. split; [exact Ts|].
      refine (isame_trans _ _ _ _ (isame_inter o _ s' (proj1 Ts) _) S).
      intros k Hk. destruct (A' k Hk) as (T1 & _ & I1). now apply (itree_tot o k I1 s').
  Qed.

  Notation gsize := (gsize VI U F I).

  Lemma inter_visit_size h : forall st, gsize (snd (inter_visit st h)) <= gsize (snd st) + hsize h.
  Proof.
    induction h as [| | | | | | | | |l IH|t h IH| | | |] using hom_ind'; intros st;
      try (cbn [Hom.inter_visit snd]; lia).
    - assert (X : forall st, gsize (snd (fold_left inter_visit l st)) <= gsize (snd st) + list_sum (map hsize l)).
      { clear st. induction IH as [|h l Hh Hl IHl]; intros st; cbn [fold_left]; [cbn; lia|].
        specialize (IHl (inter_visit st h)). specialize (Hh st). rewrite sizes_cons. lia. }
      specialize (X st). cbn [Hom.inter_visit Hom.hsize]. lia.
    - cbn [Hom.inter_visit snd Hom.hsize]. rewrite add_local_size. lia.
  Qed.

  Lemma inter_fold_size l : forall st,
    gsize (snd (fold_left inter_visit l st)) <= gsize (snd st) + list_sum (map hsize l).
  Proof.
    induction l as [|h l IHl]; intros st; cbn [fold_left]; [cbn; lia|].
    specialize (IHl (inter_visit st h)). pose proof (inter_visit_size h st). rewrite sizes_cons. lia.
  Qed.

  Lemma inter_fuel_total : forall fuel l, l <> [] -> list_sum (map hsize l) < fuel -> exists h, inter_fuel fuel l = Ok h.
  Proof.
    induction fuel as [|fuel IH]; intros l Ne Hf; [lia|]. cbn [Hom.inter_fuel].
    destruct l as [|h0 l0]; [congruence|]. set (l := h0 :: l0) in *.
    destruct (fold_left inter_visit l ([], [])) as [ops locals] eqn:Ef.
    destruct (regroup_total VI U F I HP (inter_fuel fuel) (h_iter HP locals) ops) as (ops' & ->).
    - intros t l' Hin. assert (Hin' : In (t, l') locals) by now apply (Permutation_in _ (hp_iter HPO locals)).
      assert (Nl : l' <> []).
      { apply (inter_fold_ne l ([], [])) with (t := t); [intros t1 l1 []|]. now rewrite Ef. }
      apply IH; [auto|]. pose proof (inter_fold_size l ([], [])) as X. rewrite Ef in X. cbn [snd] in X.
      pose proof (gsize_in VI U F I locals t l' Hin'). pose proof (lsize_lt VI U F I l' Nl). cbn [HomSum.gsize] in X. lia.
    - cbn [rbind]. destruct ops' as [|h1 [|h2 r]]; eauto.
  Qed.

  (** ** intersection(o, operands), for selectors *)

  Theorem mk_inter_ok o s l h s' : mk_inter l = Ok h -> oshape o s -> (forall k, In k l -> good o s' k) ->
    typed o h s' /\ forall x y, fits s x -> (evals o h x y <-> inter_of o l x y).
  Proof.
    intros E O Th. destruct (inter_fuel_ok _ l h o s' E Th (ex_intro _ s O)) as [(T & S & It) Sm]. split; [auto|].
    assert (Ne : l <> []) by (intros ->; discriminate).
    apply (isame_one o s h l s'); auto.
    - now apply (itree_tot o h It s').
    - intros k Hk. now apply Th.
    - intros k Hk. destruct (Th k Hk) as (T1 & _ & I1). now apply (itree_tot o k I1 s').
  Qed.

  Theorem mk_inter_total l : l <> [] -> exists h, mk_inter l = Ok h.
  Proof. intros Ne. apply inter_fuel_total; [auto|]. lia. Qed.
End HomInter.
