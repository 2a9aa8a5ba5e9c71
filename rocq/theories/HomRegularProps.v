(** * Intersections of homomorphisms that are not selectors (C37)

    intersection(o, {l1, ..., ln}) flattens its operands and regroups those that are local to the same
    hierarchy (sdd/hom/intersection.hh 150-227). The regrouping is right as soon as, hierarchy by
    hierarchy, the operands send disjoint sets to disjoint sets, or are all the same. *)

From Coq Require Import List Bool NArith Arith Lia Permutation.
From Verif Require Import Base SortedSets Values Sdd SddFacts Orders OrdersProofs OrdersSdd DDModel.
From Verif Require Import DDGeneric DDProofs DDTheorems Hom HomFacts HomEval HomTyped HomEqns HomLinear.
From Verif Require Import HomSum HomHalts HomComp HomInter HomConcrete Concrete HomProps.
Import ListNotations.

Section Regular.
  Variable VI : values_impl.
  Hypothesis VL : values_laws VI.
  Variable PF : platform VI.
  Hypothesis PO : platform_ok PF.
  Variables U F I : Type.
  Notation V := (vt VI).
  Notation sdd := (sdd V).
  Notation hom := (hom V U F I).
  Variable HP : hplatform V U F I.
  Hypothesis HPO : hplatform_ok HP.
  Variable US : user V U F I.
  Notation order := (order U).
  Notation fits := (fits VI PF).
  Notation oshape := (oshape U).
  Notation typed := (typed VI PF U F I US).
  Notation hskip := (hskip VI U F I US).
  Notation hselector := (hselector VI U F I US).
  Notation evals := (evals VI PF U F I US).
  Notation local := (local VI U F I).
  Notation hset_add := (hset_add VI U F I HP).
  Notation inter_visit := (inter_visit VI U F I HP).
  Notation inter_fuel := (inter_fuel VI U F I HP).
  Notation mk_inter := (mk_inter VI U F I HP).
  Notation regroup := (regroup VI U F I HP).
  Notation harcs := (harcs VI).
  Notation local_at := (local_at U).
  Notation locals_of := (locals_of VI U F I).
  Notation repr := (repr VI U F I).
  Notation is_id := (is_id VI U F I).
  Notation user_nofix := (user_nofix VI U F I US).
  Notation nofix := (nofix VI U F I).
  Notation ileaves := (ileaves VI U F I).
  Notation tot := (tot VI PF U F I US).
  Notation al := (al VI PF U F I US).
  Notation isame := (isame VI PF U F I US).
  Notation itree := (itree VI PF U F I US).
  Hypothesis HO : honest VI PF U F I US.

  (** Two diagrams without a common element. *)
  Definition apart (x y : sdd) : Prop := forall q, contains x q = true -> contains y q = true -> False.

  (** Homomorphisms that send disjoint operands to disjoint results. *)
  Definition jointly_disjoint (o : order) (l : list hom) : Prop :=
    forall k k', In k l -> In k' l -> forall n v v' w w', oshape o n -> fits n v -> fits n v' -> apart v v' ->
      evals o k v w -> evals o k' v' w' -> apart w w'.

  (** What the operands [l], once flattened, apply below the variable [t]. *)
  Definition nested (t : N) (l : list hom) : list hom :=
    flat_map (fun h => match h with HLocal t' k => if N.eqb t' t then [k] else [] | _ => [] end) (flat_map ileaves l).

  (** Below each hierarchy, the operands send disjoint sets to disjoint sets or are all the same one; and
      so on inside the hierarchy. *)
  Inductive regular : order -> list hom -> Prop :=
  | regular_intro o l :
      (forall t s on n, local_at o t s on n -> nested t l <> [] ->
         jointly_disjoint on (nested t l) \/ exists k, forall k', In k' (nested t l) -> k' = k) ->
      (forall t s on n, local_at o t s on n -> nested t l <> [] -> regular on (nested t l)) ->
      regular o l.

  Lemma in_nested t l k : In k (nested t l) <-> In (HLocal t k) (flat_map ileaves l).
  Proof.
    unfold nested. rewrite in_flat_map. split.
    - intros (h & Hh & Hk). destruct h as [| | | | | | | | | |t' k0| | | |]; try destruct Hk.
      destruct (N.eqb_spec t' t) as [->|]; [|destruct Hk].
      destruct Hk as [<-|[]]. exact Hh.
    - intros Hk. exists (HLocal t k). split; [auto|]. rewrite N.eqb_refl. now left.
  Qed.

  Lemma nested_sub t l l' : (forall k, In k (flat_map ileaves l') -> In k (flat_map ileaves l)) ->
    forall k, In k (nested t l') -> In k (nested t l).
  Proof. intros H k. rewrite !in_nested. apply H. Qed.

  Lemma leaves_sub l l' : (forall k : hom, In k l' -> In k l) ->
    forall k, In k (flat_map ileaves l') -> In k (flat_map ileaves l).
  Proof. intros H k. rewrite !in_flat_map. intros (h & Hh & Hk). eauto. Qed.

  Lemma regular_sub o l : regular o l -> forall l',
    (forall k, In k (flat_map ileaves l') -> In k (flat_map ileaves l)) -> regular o l'.
  Proof.
    induction 1 as [o l A B IH]; intros l' H.
    assert (Ne : forall t, nested t l' <> [] -> nested t l <> []).
    { intros t N X. destruct (nested t l') as [|k r] eqn:E; [congruence|].
      assert (Y : In k (nested t l)) by (apply (nested_sub t l l' H); rewrite E; now left).
      rewrite X in Y. destruct Y. }
    constructor; intros t s on n L N.
    - destruct (A t s on n L (Ne t N)) as [J|(k & K)].
      + left. intros k k' Hk Hk'. apply J; now apply (nested_sub t l l' H).
      + right. exists k. intros k' Hk'. apply K. now apply (nested_sub t l l' H).
    - apply (IH t s on n L (Ne t N)). apply leaves_sub. now apply nested_sub.
  Qed.

  (** What is known of each operand. *)
  Definition igood (o : order) (s' : shape) (h : hom) : Prop := typed o h s' /\ itree o h.

  Lemma igood_tot o s' h : igood o s' h -> tot o h.
  Proof. intros (T & It). now apply (itree_tot VI VL PF PO U F I US HO o h It s'). Qed.

  Lemma ileaves_igood h : forall o s', igood o s' h ->
    (forall k, In k (ileaves h) -> igood o s' k) /\ ileaves h <> [] /\ isame o [h] (ileaves h).
  Proof.
    induction h as [| | | | | | | | |l IH|t h IH| | | |] using hom_ind'; intros oo s' G;
      try (cbn [HomInter.ileaves]; split; [intros k [<-|[]]; auto|split; [discriminate|apply isame_refl]]).
    destruct G as (T & It). destruct (typed_inter_inv VI PF U F I US _ _ _ T) as [Ne Th]. cbn [HomInter.ileaves].
    assert (Il : forall h, In h l -> itree oo h).
    { inversion It; subst; [contradiction|auto]. }
    assert (H : (forall k, In k (flat_map ileaves l) -> igood oo s' k) /\ (l <> [] -> flat_map ileaves l <> []) /\
              isame oo l (flat_map ileaves l)).
    { clear Ne T It. induction IH as [|h l Hh Hl IHl].
      - split; [intros k []|split; [auto|apply isame_refl]].
      - destruct (Hh oo s') as (A & B & C); [split; auto with datatypes|].
        destruct IHl as (A' & B' & C'); [intros k Hk; auto with datatypes..|]. cbn [flat_map].
        split; [|split].
        + intros k Hk. apply in_app_or in Hk. destruct Hk; auto.
        + intros _ X. apply app_eq_nil in X. now apply B.
        + now apply (isame_app VI PF U F I US oo [h] l). }
    destruct H as (A & B & C). split; [auto|split; [auto|]].
    apply (isame_trans _ _ _ _ _ _ _ _ l); [|auto].
    apply (isame_inter VI VL PF PO U F I US HO oo l s' T). intros h Hh. apply (igood_tot oo s' h). split; auto.
  Qed.

  Lemma ileaves_ilist l o s' : (forall k, In k l -> igood o s' k) ->
    (forall k, In k (flat_map ileaves l) -> igood o s' k) /\ (l <> [] -> flat_map ileaves l <> []) /\
      isame o l (flat_map ileaves l).
  Proof.
    induction l as [|h l IHl]; intros Th.
    - split; [intros k []|split; [auto|apply isame_refl]].
    - destruct (ileaves_igood h o s' (Th h (or_introl eq_refl))) as (A & B & C).
      destruct IHl as (A' & B' & C'); [intros k Hk; apply Th; now right|]. cbn [flat_map].
      split; [|split].
      + intros k Hk. apply in_app_or in Hk. destruct Hk; auto.
      + intros _ X. apply app_eq_nil in X. now apply B.
      + now apply (isame_app VI PF U F I US o [h] l).
  Qed.

  Lemma igood_local o t h s' on n' : local_at o t s' on n' -> igood on n' h -> igood o s' (local t h).
  Proof.
    intros L (T & It).
    assert (TL : typed o (HLocal t h) s') by (apply typed_local_iff; eauto).
    unfold Hom.local. destruct (is_id h) eqn:Ei.
    - apply is_id_iff in Ei. subst h. split; [now apply (typed_local_id VI PF U F I US o t)|].
      apply it_leaf; [exact Logic.I|]. intros s x _ _. exists x. now apply evals_id.
    - split; [auto|]. now apply (it_local _ _ _ _ _ _ o t h s' on n').
  Qed.

  (** Regrouping homomorphisms that send disjoint operands to disjoint results. *)
  Lemma isame_local_apart o t s' on n' h hs : local_at o t s' on n' -> hs <> [] -> typed on h n' -> tot on h ->
    (forall k, In k hs -> typed on k n' /\ tot on k) -> jointly_disjoint on hs -> isame on [h] hs ->
    isame o [HLocal t h] (map (HLocal t) hs).
  Proof.
    intros L Ne Th Tt Hk J Hs. induction L as [o t n o' on n' r L M O|o l o' t s' on n' L N H IH].
    - intros s x Os Fx q.
      assert (Es : s = SHier t n r).
      { apply (oshape_fun _ _ _ Os). now apply (oshape_level _ _ (LHier t n) _ r L). }
      subst s. clear Os.
      assert (On : oshape on n).
      { destruct L as (_ & _ & on' & M' & _ & On). congruence. }
      assert (Cn : forall k, typed on k n' -> tot on k ->
                ((exists z, evals o (HLocal t k) x z /\ contains z q = true) <->
                exists v w s a q', q = ANest t a q' /\ In (v, s) (harcs x) /\ evals on k v w /\
                  contains w a = true /\ contains s q' = true)).
      { intros k Tk Ttk. split.
        - intros (y & Ey & Cq).
          destruct (local_here_fwd VI VL PF PO U F I US HO o t n o' on k n' r x y L M O Tk Fx Ey) as (Fy & _ & C).
          destruct (contains_step VI PF (LHier t n') r _ _ Fy Cq) as ([a|a] & q' & ->); cbn [acons lvar] in *.
          { exfalso. destruct y as [| |v arcs|v arcs]; try discriminate. destruct Fy as [_ Fy]. inversion Fy. }
          apply C in Cq. destruct Cq as (v & w & s & Hin & Ew & Cw & Cs). exists v, w, s, a, q'. auto 10.
        - intros (v & w & s & a & q' & -> & Hin & Ew & Cw & Cs).
          destruct (local_here_ex VI VL PF PO U F I US HO o t n o' on k n' r x L M O Tk Fx) as (y & Ey).
          { intros v' s0 Hin'. apply (Ttk n); [auto|]. now destruct (fits_harcs VI PF _ _ _ _ _ _ Fx Hin'). }
          exists y. split; [auto|].
          destruct (local_here_fwd VI VL PF PO U F I US HO o t n o' on k n' r x y L M O Tk Fx Ey) as (Fy & _ & C).
          apply C. exists v, w, s. auto. }
      assert (Uniq : forall v s v' s', In (v, s) (harcs x) -> In (v', s') (harcs x) ->
                (v' = v /\ s' = s) \/ apart v v').
      { intros v s v' s0 I1 I2.
        destruct x as [| |v0 arcs|v0 arcs]; cbn [HomLinear.harcs] in *; [destruct I1..|].
        destruct (fits_hier_inv VI PF _ _ _ _ _ Fx) as (-> & _ & D & G).
        destruct (ForallOrdPairs_In D _ _ I1 I2) as [E|[E|E]].
        - left. injection E as -> ->. auto.
        - right. intros a C1 C2. apply (E a); auto.
        - right. intros a C1 C2. apply (E a); auto. }
      split.
      + intros A k Hin. apply in_map_iff in Hin. destruct Hin as (k0 & <- & Hin).
        destruct (Hk k0 Hin) as (T0 & Tt0). apply (Cn k0 T0 Tt0).
        specialize (A _ (or_introl eq_refl)). apply (Cn h Th Tt) in A.
        destruct A as (v & w & s & a & q' & -> & Hin' & Ew & Cw & Cs).
        destruct (fits_harcs VI PF _ _ _ _ _ _ Fx Hin') as (Fv & _).
        assert (X : al on [h] v a) by (intros ? [<-|[]]; eauto).
        apply (Hs n v On Fv) in X. destruct (X k0 Hin) as (w' & Ew' & Cw').
        exists v, w', s, a, q'. auto 10.
      + intros A k [<-|[]]. apply (Cn h Th Tt).
        assert (A' : forall k0, In k0 hs -> exists v w s a q', q = ANest t a q' /\ In (v, s) (harcs x) /\
                  evals on k0 v w /\ contains w a = true /\ contains s q' = true).
        { intros k0 Hin. destruct (Hk k0 Hin) as (T0 & Tt0). apply (Cn k0 T0 Tt0).
          apply A. apply in_map_iff. eauto. }
        assert (N0 : exists k0, In k0 hs) by (destruct hs as [|k0 hs0]; [congruence|exists k0; now left]).
        destruct N0 as (k0 & Hin0). destruct (A' k0 Hin0) as (v & w & s & a & q' & -> & Hin & Ew & Cw & Cs).
        destruct (fits_harcs VI PF _ _ _ _ _ _ Fx Hin) as (Fv & _).
        assert (X : al on hs v a).
        { intros k1 Hin1. destruct (A' k1 Hin1) as (v1 & w1 & s1 & a1 & q1 & E1 & Hi1 & Ew1 & Cw1 & Cs1).
          injection E1 as <- <-. destruct (Uniq _ _ _ _ Hin Hi1) as [[-> ->]|Ap]; [eauto|].
          destruct (fits_harcs VI PF _ _ _ _ _ _ Fx Hi1) as (Fv1 & _).
          exfalso. apply (J k0 k1 Hin0 Hin1 n v v1 w w1 On Fv Fv1 Ap Ew Ew1 a); auto. }
        apply (Hs n v On Fv) in X. destruct (X h (or_introl eq_refl)) as (w' & Ew' & Cw').
        exists v, w', s, a, q'. auto 10.
    - assert (Sk : forall k, hskip o (HLocal t k) = true).
      { intros k. cbn [Hom.hskip]. now apply (var_neqb_level U o l o' t L). }
      apply (isame_skip VI VL PF PO U F I US HO o l o' _ _ s' L); [discriminate| | | |now apply IH].
      + destruct hs; [congruence|discriminate].
      + intros k [<-|[]]. split; [apply Sk|]. split; [apply typed_local_iff; eauto|].
        now apply (local_tot VI VL PF PO U F I US HO o' t s' on n').
      + intros k Hin. apply in_map_iff in Hin. destruct Hin as (k0 & <- & Hin). destruct (Hk k0 Hin) as (A & B).
        split; [apply Sk|]. split; [apply typed_local_iff; eauto|].
        now apply (local_tot VI VL PF PO U F I US HO o' t s' on n').
  Qed.

  (** Regrouping copies of one homomorphism. *)
  Lemma isame_local_one o t s' on n' h hs k : local_at o t s' on n' -> hs <> [] -> (forall k', In k' hs -> k' = k) ->
    typed on h n' -> tot on h -> typed on k n' -> tot on k -> isame on [h] hs ->
    isame o [HLocal t h] (map (HLocal t) hs).
  Proof.
    intros L Ne Hk Th Tt Tk Ttk Hs.
    assert (K : forall k', In k' hs <-> In k' [k]).
    { intros k'. split; [intros X; left; symmetry; auto|]. intros [<-|[]].
      destruct hs as [|k0 r]; [congruence|]. rewrite <- (Hk k0 (or_introl eq_refl)). now left. }
    assert (S1 : isame on [h] [k]) by (apply (isame_trans _ _ _ _ _ _ _ _ hs); [auto|now apply isame_mem]).
    assert (S2 : same VI PF U F I US on [h] [k]).
    { intros s x O Fx. split.
      - split; intros _ z [<-|[]]; [apply (Ttk s x O Fx)|apply (Tt s x O Fx)].
      - intros _ q. split.
        + intros (z & y & [<-|[]] & Ey & Cy).
          assert (X : al on [h] x q) by (intros ? [<-|[]]; eauto).
          apply (S1 s x O Fx) in X. destruct (X k (or_introl eq_refl)) as (w & Ew & Cw). exists k, w.
          split; [now left|auto].
        + intros (z & y & [<-|[]] & Ey & Cy).
          assert (X : al on [k] x q) by (intros ? [<-|[]]; eauto).
          apply (S1 s x O Fx) in X. destruct (X h (or_introl eq_refl)) as (w & Ew & Cw). exists h, w.
          split; [now left|auto]. }
    assert (S3 : isame o [HLocal t h] [HLocal t k]).
    { apply (isame_same VI VL PF PO U F I US HO o _ _ s'); [apply typed_local_iff; eauto..|].
      apply (same_local VI VL PF PO U F I US HO o t s' on n' h [k] L Th); [intros ? [<-|[]]; auto|auto]. }
    apply (isame_trans _ _ _ _ _ _ _ _ [HLocal t k]); [auto|]. apply isame_mem. intros z.
    rewrite in_map_iff. split.
    - intros [<-|[]]. exists k. split; [auto|]. apply K. now left.
    - intros (k' & <- & Hk'). rewrite (Hk k' Hk'). now left.
  Qed.

  Lemma regroup_gen (build : list hom -> res (cerr U) hom) o s' : forall m,
    (forall t l h on n', In (t, l) m -> build l = Ok h -> local_at o t s' on n' -> (forall k, In k l -> igood on n' k) ->
       igood on n' h /\ isame o [HLocal t h] (map (HLocal t) l)) ->
    forall ops ops', (forall t l, In (t, l) m -> l <> []) ->
      (forall k, In k ops \/ In k (locals_of m) -> igood o s' k) ->
      regroup build m ops = Ok ops' ->
      (forall k, In k ops' -> igood o s' k) /\ isame o ops' (ops ++ locals_of m) /\
      (ops ++ locals_of m <> [] -> ops' <> []).
  Proof.
    induction m as [|[t l] m IH]; intros Hb ops ops' Hne Ht E.
    - cbn in E. injection E as <-. rewrite app_nil_r. split; [auto|split; [apply isame_refl|auto]].
    - cbn [Hom.regroup] in E. destruct (build l) as [h|] eqn:Eh; [|discriminate]. cbn [rbind] in E.
      assert (Hl : forall k, In k l -> igood o s' (HLocal t k)).
      { intros k Hk. apply Ht. right. unfold HomSum.locals_of. cbn [flat_map fst snd]. apply in_or_app. left.
        apply in_map_iff. now exists k. }
      pose proof (Hne t l (or_introl eq_refl)) as Nl.
      assert (L : exists on n', local_at o t s' on n' /\ (forall k, In k l -> igood on n' k)).
      { destruct l as [|k0 l0]; [congruence|].
        destruct (Hl k0 (or_introl eq_refl)) as (T0 & _). apply typed_local_iff in T0.
        destruct T0 as (on & n' & L & T0). exists on, n'. split; [auto|]. intros k Hk.
        destruct (Hl k Hk) as (T1 & I1). apply typed_local_iff in T1. destruct T1 as (on1 & n1 & L1 & T1).
        destruct (local_at_fun _ _ _ _ _ _ L _ _ L1) as [-> ->]. split; [auto|].
        now apply (itree_local_inv VI PF U F I US o t k s' on n'). }
      destruct L as (on & n' & L & Tl).
      destruct (Hb t l h on n' (or_introl eq_refl) Eh L Tl) as [Gh Sh].
      assert (TL : typed o (HLocal t h) s') by (apply typed_local_iff; destruct Gh; eauto).
      assert (Gloc : igood o s' (local t h)) by now apply (igood_local o t h s' on n' L).
      assert (S1 : isame o [local t h] (map (HLocal t) l)).
      { apply (isame_trans _ _ _ _ _ _ _ _ [HLocal t h]); [|exact Sh].
        apply (isame_same VI VL PF PO U F I US HO o _ _ s'); auto; [apply Gloc|].
        now apply (same_mk_local VI VL PF PO U F I US HO o t h s'). }
      destruct (IH) with (ops := hset_add (local t h) ops) (ops' := ops') as (A & B & C); auto.
      { intros t' l' h' on' n1 Hin. apply Hb. now right. }
      { intros t' l' Hin. apply (Hne t' l'). now right. }
      { intros k [Hk|Hk].
        - apply (hset_add_in VI U F I HP HPO) in Hk. destruct Hk as [->|Hk]; auto.
        - apply Ht. right. unfold HomSum.locals_of in *. cbn [flat_map]. apply in_or_app. auto. }
      split; [auto|split].
      + apply (isame_trans _ _ _ _ _ _ _ _ _ _ B).
        apply (isame_trans _ _ _ _ _ _ _ _ ((ops ++ [local t h]) ++ locals_of m)).
        { apply isame_mem. intros k. rewrite !in_app_iff, (hset_add_in VI U F I HP HPO). cbn. intuition. }
        unfold HomSum.locals_of at 2. cbn [flat_map fst snd]. rewrite app_assoc.
        apply isame_app; [|apply isame_refl]. apply isame_app; [apply isame_refl|exact S1].
      + intros _. apply C. intros X. apply app_eq_nil in X. destruct X as [X _].
        assert (Y : In (local t h) (hset_add (local t h) ops)) by (apply (hset_add_in VI U F I HP HPO); auto).
        rewrite X in Y. destruct Y.
  Qed.

  Lemma in_locals_of m t (l : list hom) k : In (t, l) m -> In k l -> In (HLocal t k) (locals_of m).
  Proof.
    intros A B. unfold HomSum.locals_of. apply in_flat_map. exists (t, l). split; [auto|]. cbn [fst snd].
    apply in_map_iff. eauto.
  Qed.

  Theorem inter_fuel_gen : forall fuel l h o s', inter_fuel fuel l = Ok h -> (forall k, In k l -> igood o s' k) ->
    regular o l -> (exists s, oshape o s) -> igood o s' h /\ isame o [h] l.
  Proof.
    induction fuel as [|fuel IH]; intros l h o s' E Th Rg O; [discriminate|].
    cbn [Hom.inter_fuel] in E. destruct l as [|h0 l0]; [discriminate|]. set (l := h0 :: l0) in *.
    destruct (fold_left inter_visit l ([], [])) as [ops locals] eqn:Ef.
    destruct (regroup (inter_fuel fuel) (h_iter HP locals) ops) as [ops'|] eqn:Er; [|discriminate].
    cbn [rbind] in E.
    destruct (ileaves_ilist l o s' Th) as (A & B & C).
    assert (R : forall k, In k (ops ++ locals_of (h_iter HP locals)) <-> In k (flat_map ileaves l)).
    { intros k. rewrite in_app_iff, (locals_iter VI U F I HP HPO), <- in_app_iff.
      change (ops ++ locals_of locals) with (repr (ops, locals)).
      rewrite <- Ef, (inter_fold_repr VI U F I HP HPO). cbn. intuition. }
    assert (Nel : forall t l', In (t, l') (h_iter HP locals) -> l' <> []).
    { intros t l' Hin. apply (inter_fold_ne VI U F I HP l ([], [])) with (t := t).
      - intros t1 l1 [].
      - rewrite Ef. cbn [snd]. now apply (Permutation_in _ (hp_iter HPO locals)). }
    destruct (regroup_gen (inter_fuel fuel) o s' (h_iter HP locals)) with (ops := ops) (ops' := ops')
      as (A' & B' & C'); auto.
    { intros t l' h' on n' Hin Eb L Gl.
      assert (Sub : forall k, In k l' -> In k (nested t l)).
      { intros k Hk. apply in_nested, R, in_or_app. right. now apply (in_locals_of _ t l'). }
      assert (Nn : nested t l <> []).
      { pose proof (Nel t l' Hin) as X. destruct l' as [|k0 r]; [congruence|]. intros Y.
        specialize (Sub k0 (or_introl eq_refl)). rewrite Y in Sub. destruct Sub. }
      destruct (local_at_nested _ _ _ _ _ _ L) as (n & On & _).
      inversion Rg as [o1 l1 RA RB]; subst o1 l1.
      destruct (IH l' h' on n' Eb Gl) as [Gh Sh].
      { apply (regular_sub on (nested t l)); [now apply (RB t s' on n')|]. now apply leaves_sub. }
      { eauto. }
      split; [auto|]. pose proof (igood_tot _ _ _ Gh) as Tth. destruct Gh as [Th' _].
      assert (Gl' : forall k, In k l' -> typed on k n' /\ tot on k).
      { intros k Hk. split; [now apply Gl|]. apply (igood_tot on n'). auto. }
      destruct (RA t s' on n' L Nn) as [J|(k & K)].
      - apply (isame_local_apart o t s' on n' h' l' L (Nel t l' Hin) Th' Tth Gl'); [|auto].
        intros k k' Hk Hk'. apply J; auto.
      - pose proof (Nel t l' Hin) as X. destruct l' as [|k0 r]; [congruence|].
        destruct (Gl' k0 (or_introl eq_refl)) as [T0 Tt0].
        apply (isame_local_one o t s' on n' h' (k0 :: r) k0 L X); auto.
        intros k' Hk'. rewrite (K k0 (Sub k0 (or_introl eq_refl))). apply K. auto. }
    { intros k Hk. apply A. apply R. now apply in_or_app. }
    assert (Ne : ops' <> []).
    { apply C'. intros X. destruct (flat_map ileaves l) as [|k ks] eqn:El; [now apply B|].
      assert (Y : In k (ops ++ locals_of (h_iter HP locals))) by (apply R; now left).
      rewrite X in Y. destruct Y. }
    assert (Sm : isame o ops' l).
    { apply (isame_trans _ _ _ _ _ _ _ _ _ _ B').
      apply (isame_trans _ _ _ _ _ _ _ _ (flat_map ileaves l)); [now apply isame_mem|].
      now apply isame_sym. }
    assert (Ts : igood o s' (HInter ops')).
    { split.
      - constructor; [auto|]. intros k Hk. now apply A'.
      - apply it_inter. intros k Hk. now apply A'. }
    destruct ops' as [|h1 [|h2 r]].
    - congruence.
    - injection E as <-. split; [apply A'; now left|exact Sm].
    - injection E as <-. split; [exact Ts|].
      refine (isame_trans _ _ _ _ _ _ _ _ _ _ (isame_inter VI VL PF PO U F I US HO o _ s' (proj1 Ts) _) Sm).
      intros k Hk. apply (igood_tot o s'). auto.
  Qed.

  (** intersection(o, {l1, ..., ln}), selectors or not. Missing: see [C37_intersection_refuted]. *)
  Theorem C37_intersection_regular_partial l : l <> [] -> exists h, mk_inter l = Ok h /\
    forall o s s', oshape o s -> (forall k, In k l -> typed o k s' /\ itree o k) -> regular o l ->
    typed o h s' /\
    forall x y, fits s x ->
      (evals o h x y <-> exists ys, Forall2 (fun k z => evals o k x z) l ys /\ api_intersection VI PF ys = Ok y).
  Proof.
    intros Ne. destruct (mk_inter_total VI U F I HP HPO l Ne) as (h & E). exists h. split; [auto|].
    intros o s s' O T Rg. destruct (inter_fuel_gen _ l h o s' E T Rg (ex_intro _ s O)) as [G Sm].
    split; [apply G|].
    apply (isame_one VI VL PF PO U F I US HO o s h l s'); auto.
    - apply G.
    - now apply (igood_tot o s').
    - intros k Hk. now apply T.
    - intros k Hk. apply (igood_tot o s'). now apply T.
  Qed.

  (** Selectors send disjoint operands to disjoint results, whatever they select. *)
  Lemma selectors_apart o l n' : (forall k, In k l -> typed o k n' /\ hselector k = true) -> jointly_disjoint o l.
  Proof.
    intros H k k' Hk Hk' n v v' w w' O Fv Fv' Ap E E' q C C'.
    destruct (H k Hk) as [T Sl], (H k' Hk') as [T' Sl'].
    apply (Ap q).
    - now apply (evals_selector VI VL PF PO U F I US HO o k n n' v w).
    - now apply (evals_selector VI VL PF PO U F I US HO o k' n n' v' w').
  Qed.

  (** So do the restrictions of one injective transformation. *)
  Lemma injective_apart o l (R : asg (elt VI) -> asg (elt VI) -> Prop) :
    (forall p p' q, R p q -> R p' q -> p = p') ->
    (forall k, In k l -> exists Rk, acts VI PF U F I US o k Rk /\ forall p q, Rk p q -> R p q) -> jointly_disjoint o l.
  Proof.
    intros Inj H k k' Hk Hk' n v v' w w' O Fv Fv' Ap E E' q C C'.
    destruct (H k Hk) as (Rk & A & B), (H k' Hk') as (Rk' & A' & B').
    apply (A n v w O Fv E) in C. apply (A' n v' w' O Fv' E') in C'.
    destruct C as (p & Cp & Rp), C' as (p' & Cp' & Rp').
    rewrite <- (Inj p p' q (B _ _ Rp) (B' _ _ Rp')) in Cp'. apply (Ap p Cp Cp').
  Qed.

  Lemma rfun_injective t (phi : elt VI -> elt VI -> Prop) : (forall a a' b, phi a b -> phi a' b -> a = a') ->
    forall p q, rfun t phi p q -> forall p', rfun t phi p' q -> p = p'.
  Proof.
    intros Inj. induction 1 as [|a b q Ph|x a q q' Nx Hr IH|x a q q' Nx Hr IH]; intros p' Hp';
      inversion Hp' as [X1 X2|a1 b1 q1 P1 X1 X2|x1 a1 q1 q2 N1 H1 X1 X2|x1 a1 q1 q2 N1 H1 X1 X2]; subst;
      try congruence; try (f_equal; eauto; fail).
  Qed.

  (** Operands that are local to pairwise different hierarchies, or not local. *)
  Theorem C37_intersection_distinct_partial l h o s s' x y : mk_inter l = Ok h -> user_nofix -> oshape o s ->
    (forall k, In k l -> typed o k s' /\ nofix k = true) ->
    (forall k, In k l -> match k with HInter _ => False | HLocal _ k' => match k' with HInter _ | HLocal _ _ => False | _ => True end
       | _ => True end) ->
    (forall t k k', In (HLocal t k) l -> In (HLocal t k') l -> k' = k) -> fits s x ->
    (evals o h x y <-> exists ys, Forall2 (fun k z => evals o k x z) l ys /\ api_intersection VI PF ys = Ok y).
  Proof.
    intros E Un O T Sh Di Fx.
    assert (Ne : l <> []) by (intros ->; discriminate).
    destruct (C37_intersection_regular_partial l Ne) as (h' & E' & H). rewrite E in E'. injection E' as <-.
    apply (H o s s' O); auto.
    - intros k Hk. destruct (T k Hk) as (A & B). split; [auto|].
      now apply (nofix_itree VI VL PF PO U F I US HO Un k o s').
    - assert (Lv : flat_map ileaves l = l).
      { clear - Sh. induction l as [|k l IH]; [reflexivity|]. cbn [flat_map].
        rewrite IH by (intros k' Hk'; apply Sh; now right). specialize (Sh k (or_introl eq_refl)).
        destruct k; try reflexivity. contradiction. }
      constructor; intros t s0 on n L N.
      + right. destruct (nested t l) as [|k r] eqn:En; [congruence|]. exists k. intros k' Hk'.
        rewrite <- En in Hk'. apply in_nested in Hk'. rewrite Lv in Hk'.
        assert (Hk : In k (nested t l)) by (rewrite En; now left). apply in_nested in Hk. rewrite Lv in Hk.
        apply (Di t); auto.
      + assert (Z : forall t', nested t' (nested t l) = []).
        { intros t'. destruct (nested t' (nested t l)) as [|k r] eqn:En; [reflexivity|].
          assert (X : In k (nested t' (nested t l))) by (rewrite En; now left).
          apply in_nested, in_flat_map in X. destruct X as (k1 & H1 & H2).
          apply in_nested in H1. rewrite Lv in H1. specialize (Sh _ H1). cbn in Sh.
          destruct k1; try contradiction; destruct H2 as [H2|[]]; discriminate. }
        constructor; intros t' s1 on1 n1 L1 N1; rewrite Z in N1; congruence.
  Qed.
End Regular.

(** Adding one to "3" in the hierarchy "2", also with a guard, and adding one to "1": no selector, and two operands local to the same
    hierarchy, which are regrouped. *)
Definition ex_guard : exhom := HLocal 1 (HComp (HFun 1 (Fkeep [4%N])) (HFun 1 (Fadd 1))).
Definition ex_family : list exhom := [ex_h2; HInter [ex_guard; ex_h2]; ex_h1].

Lemma fadd_pointwise n : pointwise FS nat exfun exind ex_user (Fadd n) (fun b a => a = (n + b)%N).
Proof.
  intros v a. cbn [f_apply ex_user ex_apply]. rewrite fs_in, in_map_iff. split.
  - intros (b & <- & Hb). exists b. split; [now apply set_in|auto].
  - intros (b & Hb & ->). exists b. split; [auto|now apply set_in].
Qed.
Lemma fkeep_pointwise l : pointwise FS nat exfun exind ex_user (Fkeep l) (fun b a => a = b /\ In a l).
Proof.
  intros v a. cbn [f_apply ex_user ex_apply]. rewrite fs_in, filter_In, existsb_exists. split.
  - intros (Ha & b & Hb & E). apply N.eqb_eq in E. subst b. exists a. split; [now apply set_in|auto].
  - intros (b & Hb & -> & Hl). split; [now apply set_in|]. exists b. split; [auto|apply N.eqb_refl].
Qed.

Lemma ex_family_typed k : In k ex_family -> ex_typed k exs /\ itree FS PF_up nat exfun exind ex_user exo k.
Proof.
  intros Hk.
  assert (T : ex_typed k exs /\ nofix FS nat exfun exind k = true).
  { destruct Hk as [<-|[<-|[<-|[]]]]; (split; [|reflexivity]); [apply ex_h2_typed| |apply ex_h1_typed].
    unfold exs, ex_guard, ex_h2. ty. }
  split; [apply T|].
  apply (nofix_itree FS FS_laws PF_up PF_up_ok nat exfun exind ex_user ex_honest ex_user_nofix k exo exs); apply T.
Qed.

Lemma ex_local_at s on n : local_at nat exo 1 s on n -> on = exn.
Proof.
  intros L. apply (local_at_order nat exo 1 (SFlat 2 (SHier 1 (SFlat 1 (SFlat 0 SEnd)) (SFlat 0 SEnd))) _ (SFlat 1 (SFlat 0 SEnd)) s on n); [|exact L].
  apply (la_next nat exo (LFlat 2) exh 1 (SHier 1 (SFlat 1 (SFlat 0 SEnd)) (SFlat 0 SEnd))); [lv|discriminate|].
  eapply (la_here nat exh 1 (SFlat 1 (SFlat 0 SEnd))); [lv|reflexivity|sh].
Qed.

Lemma ex_family_regular : regular FS PF_up nat exfun exind ex_user exo ex_family.
Proof.
  assert (E : forall t, nested FS nat exfun exind t ex_family <> [] -> t = 1%N).
  { intros t N. destruct (nested FS nat exfun exind t ex_family) as [|k r] eqn:En; [congruence|].
    assert (X : In k (nested FS nat exfun exind t ex_family)) by (rewrite En; now left).
    apply in_nested in X. destruct X as [X|[X|[X|[X|[]]]]]; unfold ex_h2, ex_guard, ex_h1 in X; congruence. }
  constructor; intros t s on n L N; pose proof (E t N) as ->; rewrite (ex_local_at s on n L).
  - left. apply (injective_apart FS PF_up nat exfun exind ex_user exn _ (rfun (T := elt FS) 1 (fun b a => a = (1 + b)%N))).
    + intros p p' q A B. apply (rfun_injective FS 1 (fun b a => a = (1 + b)%N)) with (q := q); auto. lia.
    + assert (TA : typed FS PF_up nat exfun exind ex_user exn (HFun 1 (Fadd 1)) (SFlat 1 (SFlat 0 SEnd))) by ty.
      assert (TK : typed FS PF_up nat exfun exind ex_user exn (HFun 1 (Fkeep [4%N])) (SFlat 1 (SFlat 0 SEnd))) by ty.
      pose proof (acts_fun FS FS_laws PF_up PF_up_ok nat exfun exind ex_user ex_honest _ _ _ _ _ TA (fadd_pointwise 1)) as AA.
      pose proof (acts_fun FS FS_laws PF_up PF_up_ok nat exfun exind ex_user ex_honest _ _ _ _ _ TK (fkeep_pointwise [4%N])) as AK.
      intros k [<-|[<-|[<-|[]]]].
      * exists (rfun 1 (fun b a => a = (1 + b)%N)). split; [exact AA|auto].
      * eexists. split; [apply (acts_comp FS FS_laws PF_up PF_up_ok nat exfun exind ex_user ex_honest _ _ _ (SFlat 1 (SFlat 0 SEnd)));
          [ty|exact AK|exact AA]|].
        cbn beta. intros p q (m & A & B).
        assert (m = q); [|now subst m].
        clear - B. induction B as [|a b q (-> & _)|x a q q' Nx Hr IH|x a q q' Nx Hr IH]; congruence.
      * exists (rfun 1 (fun b a => a = (1 + b)%N)). split; [exact AA|auto].
  - constructor; intros t s' on' n' L' N'; exfalso; apply N'; reflexivity.
Qed.

Example C37_example_regular : exists h, mk_inter FS nat exfun exind HP_up ex_family = Ok h /\
  (forall k, In k ex_family -> ex_typed k exs /\ itree FS PF_up nat exfun exind ex_user exo k) /\
  regular FS PF_up nat exfun exind ex_user exo ex_family /\
  (forall k, In k ex_family -> hselector FS nat exfun exind ex_user k = false) /\
  (exists y, ex_evals h ex_x y /\ contains y (point 1 4 5 6) = true) /\
  (exists y, ex_evals h ex_x y /\ contains y (point 1 5 5 6) = false).
Proof.
  eexists. split; [vm_compute; reflexivity|]. split; [exact ex_family_typed|]. split; [exact ex_family_regular|].
  split; [intros k [<-|[<-|[<-|[]]]]; reflexivity|]. split; run.
Qed.

Print Assumptions C37_intersection_regular_partial.
Print Assumptions C37_intersection_distinct_partial.
Print Assumptions C37_example_regular.
