(** * Reaching an identifier: carrier and function *)

From Coq Require Import List Bool NArith Arith Lia Permutation Sorted Relations.
From Verif Require Import Base SortedSets Values Sdd SddFacts Orders OrdersProofs OrdersSdd DDModel.
From Verif Require Import DDGeneric DDProofs DDTheorems Hom HomFacts HomEval HomTyped HomEqns HomLinear.
From Verif Require Import HomSum HomHalts HomComp HomInter HomFun.
Import ListNotations.

Section Paths.
  Variable U : Type.
  Notation order := (order U).
  Notation target := (target U).

  (** [goto o p o']: entering successively the hierarchies of variables [p] leads from [o] to the
      nested order [o']. *)
  Inductive goto : order -> list N -> order -> Prop :=
  | go_nil o : goto o [] o
  | go_cons o z o1 on p o' : target o z o1 -> o_nested o1 = Some on -> o_empty on = false -> goto on p o' ->
      goto o (z :: p) o'.

  Lemma sees_level o id n x p path : sees o (BNode id n x) p path ->
    exists l o', olevel U o l o' /\ lvar l = N.of_nat (b_length x) /\ sees o' x (p + 1 + b_size n) path /\
      o_nodes o' = o_nodes o.
  Proof.
    intros S. pose proof (sees_oshape U _ _ _ _ S) as O.
    destruct (oshape_inv _ _ _ O) as [[E _]|(_ & l & o' & r & L & _ & _)].
    { rewrite (sees_empty _ _ _ _ _ S) in E. discriminate. }
    exists l, o'. split; [auto|]. destruct (sees_next _ _ _ _ _ _ _ S) as (o2 & E2 & S2 & _ & N2).
    destruct L as (A & B & _). rewrite B in E2. injection E2 as ->. split; [|auto].
    unfold o_variable in A. rewrite (sees_head _ _ _ _ _ _ _ S) in A. cbn in A. congruence.
  Qed.

  Lemma sees_target_lt o z o1 : target o z o1 -> forall b p path, sees o b p path -> (z < N.of_nat (b_length b))%N.
  Proof.
    induction 1 as [o x A|o l o' t o1 L N H IH]; intros b p path S.
    - destruct b as [|id n x']; [unfold o_variable, head in A; destruct S as [S _]; rewrite S in A; discriminate|].
      unfold o_variable in A. rewrite (sees_head _ _ _ _ _ _ _ S) in A. cbn in A. injection A as <-.
      cbn [b_length]. lia.
    - destruct b as [|id n x'].
      { pose proof (sees_empty _ _ _ _ _ S) as E.
        rewrite (olevel_nonempty _ _ _ _ L) in E. discriminate. }
      destruct (sees_level _ _ _ _ _ _ S) as (l2 & o2 & L2 & _ & S2 & _).
      destruct (olevel_fun _ _ _ _ L _ _ L2) as [-> ->]. apply IH in S2. cbn [b_length]. lia.
  Qed.

  Lemma layout_goto : forall (b : builder U) o p path n, sees o b p path -> In n (layout b p path) ->
    exists rest vs on o1, n_path n = path ++ rest /\
      Forall2 (fun i v => exists m, deref o i = Some m /\ n_var m = v) rest vs /\
      goto o vs on /\ target on (n_var n) o1 /\ head o1 = Some n.
  Proof.
    induction b as [|id nb IHn x IHx]; intros o p path n S Hin; [destruct Hin|].
    pose proof (sees_head _ _ _ _ _ _ _ S) as Hd. cbn [layout] in Hin. destruct Hin as [<-|Hin].
    - cbn [n_path n_var]. exists [], [], o, o. rewrite app_nil_r. split; [auto|split; [constructor|split; [constructor|]]].
      split; [constructor; unfold o_variable; now rewrite Hd|auto].
    - apply in_app_or in Hin. destruct Hin as [Hin|Hin].
      + destruct (sees_nested _ _ _ _ _ _ _ S) as (on & E2 & S2 & _ & N2).
        destruct (IHn on _ _ n S2 Hin) as (rest & vs & on' & o1 & A & B & C & D & E).
        exists (p :: rest), (N.of_nat (b_length x) :: vs), on', o1.
        split; [now rewrite A, <- app_assoc|]. split; [|split; [|auto]].
        * constructor.
          -- destruct S as [S1 S3]. unfold head in Hd. rewrite S1 in Hd. cbn [first] in Hd.
             eexists. split; [exact Hd|reflexivity].
          -- clear - B N2. induction B as [|i v rest vs (m & E1 & E2) B IH]; constructor; [|auto].
             exists m. split; [|auto]. unfold deref in *. now rewrite <- N2.
        * apply (go_cons o _ o on).
          -- constructor. unfold o_variable. now rewrite Hd.
          -- auto.
          -- rewrite (sees_empty _ _ _ _ _ S2). destruct nb; [destruct Hin|reflexivity].
          -- auto.
      + destruct (sees_level _ _ _ _ _ _ S) as (l & o' & L & Lv & S2 & N2).
        destruct (IHx o' _ _ n S2 Hin) as (rest & vs & on' & o1 & A & B & C & D & E).
        assert (B' : Forall2 (fun i v => exists m, deref o i = Some m /\ n_var m = v) rest vs).
        { clear - B N2. induction B as [|i v rest vs (m & E1 & E2) B IH]; constructor; [|auto].
          exists m. split; [|auto]. unfold deref in *. now rewrite <- N2. }
        assert (Up : forall z oz, target o' z oz -> target o z oz).
        { intros z oz Tz. apply (tg_next U o l o' z oz L); [|auto].
          pose proof (sees_target_lt _ _ _ Tz _ _ _ S2). lia. }
        inversion C as [o0|o0 z oz on p' o2 Tz Nz Ez C']; subst.
        * exists rest, [], o, o1. split; [auto|split; [auto|split; [constructor|split; [auto|auto]]]].
        * exists rest, (z :: p'), on', o1. split; [auto|split; [auto|split; [|split; auto]]].
          apply (go_cons o z oz on); auto.
  Qed.
End Paths.

Section HomPath.
  Variable VI : values_impl.
  Hypothesis VL : values_laws VI.
  Variable PF : platform VI.
  Hypothesis PO : platform_ok PF.
  Variables U F I : Type.
  Variable ueqb : U -> U -> bool.
  Hypothesis ueqb_spec : forall a b, ueqb a b = true <-> a = b.
  Notation V := (vt VI).
  Notation sdd := (sdd V).
  Notation hom := (hom V U F I).
  Variable US : user V U F I.
  Notation order := (order U).
  Notation fits := (fits VI PF).
  Notation oshape := (oshape U).
  Notation olevel := (olevel U).
  Notation typed := (typed VI PF U F I US).
  Notation evals := (evals VI PF U F I US).
  Notation residual := (residual VI).
  Notation asg := (asg (elt VI)).
  Notation set := (asg -> Prop).
  Notation local_at := (local_at U).
  Notation tot := (tot VI PF U F I US).
  Notation inside := (inside VI).
  Notation along := (along VI).
  Notation mset := (mset VI).
  Notation img := (img VI PF U F I US).
  Notation local := (local VI U F I).
  Notation carrier := (carrier VI U F I ueqb).
  Notation function := (function VI U F I ueqb).
  Notation target := (target U).
  Notation goto := (goto U).
  Hypothesis HO : honest VI PF U F I US.

  (** ** What the constructors build *)

  Lemma carrier_loop_ok o : forall rest vs h,
    Forall2 (fun i v => exists m, deref o i = Some m /\ n_var m = v) rest vs ->
    carrier_loop VI U F I o (rev rest) h = Ok (fold_right local h vs).
  Proof.
    intros rest vs h H.
    assert (X : forall l vs h, Forall2 (fun i v => exists m, deref o i = Some m /\ n_var m = v) l vs ->
              carrier_loop VI U F I o l h = Ok (fold_left (fun h v => local v h) vs h)).
    { clear. induction l as [|i l IH]; intros vs h H; inversion H as [|? v ? vs' (m & D & E) H']; subst; [reflexivity|].
      cbn [carrier_loop fold_left]. unfold o_node_from_position. rewrite D. now apply IH. }
    rewrite (X (rev rest) (rev vs)).
    - rewrite <- fold_left_rev_right, rev_involutive. reflexivity.
    - clear X. induction H as [|i v rest vs H1 H2 IH]; [constructor|]. cbn [rev]. apply Forall2_app; auto.
  Qed.

  (** The path from the head of an order to an identifier. *)
  Theorem carrier_ok (b : builder U) o u : mk_order U ueqb b = Ok o -> In u (users b) ->
    exists path on x o1, goto o path on /\ target on x o1 /\ o_identifier o1 = Some (user_id u) /\
      (forall h, carrier o u h = Ok (fold_right local h path)) /\
      (forall f, function o u f = Ok (fold_right local (HFun x f) path)).
  Proof.
    intros E Hu. pose proof (mk_order_ok U ueqb ueqb_spec b) as Hm. rewrite E in Hm. destruct Hm as [-> ND].
    pose proof (o_node_ok U ueqb ueqb_spec b u) as Hn.
    destruct (o_node U ueqb (order_of ueqb b) u) as [n|e] eqn:En; [|destruct Hn as [_ Hn]; contradiction].
    destruct Hn as (_ & Hid & Hin).
    destruct (layout_goto U b (order_of ueqb b) 0 [] n (sees_whole U ueqb b) Hin) as (rest & vs & on & o1 & A & B & C & D & G).
    cbn [app] in A.
    exists vs, on, (n_var n), o1. split; [auto|split; [auto|]].
    split; [unfold o_identifier; rewrite G; cbn; now rewrite Hid|].
    assert (Ca : forall h, carrier (order_of ueqb b) u h = Ok (fold_right local h vs)).
    { intros h. unfold Hom.carrier. rewrite En. rewrite A.
      now apply carrier_loop_ok. }
    split; [auto|]. intros f. unfold Hom.function. rewrite En. apply Ca.
  Qed.

  Theorem carrier_unknown (b : builder U) o u h : mk_order U ueqb b = Ok o -> ~ In u (users b) ->
    carrier o u h = Err (COrder (ENotFound u)).
  Proof.
    intros E Hu. pose proof (mk_order_ok U ueqb ueqb_spec b) as Hm. rewrite E in Hm. destruct Hm as [-> ND].
    pose proof (o_node_ok U ueqb ueqb_spec b u) as Hn. unfold Hom.carrier.
    destruct (o_node U ueqb (order_of ueqb b) u) as [n|e] eqn:En; [tauto|]. destruct Hn as [-> _]. reflexivity.
  Qed.

  Lemma local_chain (h : hom) path : h <> HId -> fold_right local h path = fold_right HLocal h path.
  Proof.
    intros N. induction path as [|z p IH]; [reflexivity|]. cbn [fold_right]. rewrite IH. unfold Hom.local.
    destruct (is_id VI U F I (fold_right HLocal h p)) eqn:E; [|reflexivity].
    apply is_id_iff in E. destruct p; cbn in E; congruence.
  Qed.

  (** ** What it computes *)

  Lemma target_local o z o1 : target o z o1 -> forall s on n', oshape o s -> o_nested o1 = Some on -> o_empty on = false ->
    exists s', local_at o z s' on n'.
  Proof.
    induction 1 as [o x A|o l o' t o1 L N H IH]; intros s on n' O M Ne.
    - destruct (oshape_inv _ _ _ O) as [[X _]|(_ & l & o' & r & L & -> & O')].
      { apply variable_nonempty in A. congruence. }
      pose proof L as (A' & B & on' & M' & D). rewrite A in A'. injection A' as ->. rewrite M in M'. injection M' as <-.
      destruct l as [y|y n]; [congruence|]. exists (SHier y n' r). now apply (la_here U o y n o' on n' r).
    - destruct (oshape_inv _ _ _ O) as [[X _]|(_ & l2 & o2 & r & L2 & -> & O')].
      { rewrite (olevel_nonempty _ _ _ _ L) in X. discriminate. }
      destruct (olevel_fun _ _ _ _ L2 _ _ L) as [-> ->].
      destruct (IH r on n' O' M Ne) as (s' & X). exists (under l s'). now apply (la_next U o l o').
  Qed.

  Lemma chain_typed o path on : goto o path on -> forall s h n', oshape o s -> typed on h n' ->
    exists s', typed o (fold_right HLocal h path) s'.
  Proof.
    induction 1 as [o|o z o1 on p o' Tz M Ne G IH]; intros s h n' O T; [eauto|].
    destruct (target_local o z o1 Tz s on SEnd O M Ne) as (s0 & L0).
    destruct (local_at_nested _ _ _ _ _ _ L0) as (n & On & _).
    destruct (IH n h n' On T) as (n2 & T2). cbn [fold_right].
    destruct (target_local o z o1 Tz s on n2 O M Ne) as (s2 & L2). exists s2. apply typed_local_iff. eauto.
  Qed.

  Lemma chain_tot o path on : goto o path on -> forall s h n', oshape o s -> typed on h n' -> tot on h ->
    tot o (fold_right HLocal h path).
  Proof.
    induction 1 as [o|o z o1 on p o' Tz M Ne G IH]; intros s h n' O T Tt; [auto|].
    destruct (target_local o z o1 Tz s on SEnd O M Ne) as (s0 & L0).
    destruct (local_at_nested _ _ _ _ _ _ L0) as (n & On & _).
    destruct (chain_typed on p o' G n h n' On T) as (n2 & T2). cbn [fold_right].
    destruct (target_local o z o1 Tz s on n2 O M Ne) as (s2 & L2).
    apply (local_tot VI VL PF PO U F I US HO o z s2 on n2); auto. now apply (IH n h n').
  Qed.

  Lemma inside_mono_fits (op op' : set -> set) o t s' on n' : local_at o t s' on n' ->
    extensional VI op -> extensional VI op' ->
    (forall n v, oshape on n -> fits n v -> forall a, op (mset v) a -> op' (mset v) a) ->
    forall s x, oshape o s -> fits s x -> forall q, inside t op (mset x) q -> inside t op' (mset x) q.
  Proof.
    intros L E E' Hop. induction L as [o t n o' on n' r L M O|o l o' t s' on n' L N H IH]; intros s x Os Fx q Hq.
    - assert (Es : s = SHier t n r).
      { apply (oshape_fun _ _ _ Os). now apply (oshape_level _ _ (LHier t n) _ r L). }
      subst s.
      assert (On : oshape on n).
      { destruct L as (_ & _ & on' & M' & _ & On). congruence. }
      assert (Y : forall q S, inside t op S q -> exists p, S p).
      { clear. intros q S. induction 1 as [S a b q H _|S z a q _ _ [p IH]|S z a q _ _ [p IH]]; eauto. }
      inversion Hq as [S0 a b q' H1 H2|S0 z a q' N H1|S0 z a q' N H1]; subst.
      + apply (in_here VI t op' _ a b); [auto|]. apply (in_hier VI PF t n r x b q' Fx) in H1.
        destruct H1 as (v & s & Hin & Cb & Cs).
        destruct (fits_harcs VI PF _ _ _ _ _ _ Fx Hin) as (Fv & _).
        pose proof (alike_hier VI VL PF PO t n r x v s b Fx Hin Cb) as Al.
        apply (E' (mset v)); [exact Al|]. apply (Hop n v On Fv). apply (E (nalike VI (mset x) t b)); [|auto].
        intros p. symmetry. apply Al.
      + exfalso. apply Y in H1. destruct H1 as (p' & Cp').
        destruct (contains_step VI PF (LHier t n) r _ _ Fx Cp') as (k & q0 & E0). destruct k; cbn in E0; congruence.
      + exfalso. apply Y in H1. destruct H1 as (p' & Cp').
        destruct (contains_step VI PF (LHier t n) r _ _ Fx Cp') as (k & q0 & E0). destruct k; cbn in E0; congruence.
    - destruct (oshape_inv _ _ _ Os) as [[X1 _]|(_ & l' & o'' & r & L' & -> & O')].
      { rewrite (olevel_nonempty _ _ _ _ L) in X1. discriminate. }
      destruct (olevel_fun _ _ _ _ L' _ _ L) as [-> ->]. clear L'.
      assert (Y : forall q S, inside t op S q -> exists p, S p).
      { clear. intros q S. induction 1 as [S a b q H _|S z a q _ _ [p IH]|S z a q _ _ [p IH]]; eauto. }
      assert (Q : exists k q', q = acons VI (lvar l) k q').
      { inversion Hq as [S0 a b q' H1 H2|S0 z a q' Nz H1|S0 z a q' Nz H1]; subst.
        * destruct (contains_step VI PF l r _ _ Fx H1) as (k & q0 & E0). destruct k; cbn in E0; congruence.
        * apply Y in H1. destruct H1 as (p & Cp). destruct (contains_step VI PF l r _ _ Fx Cp) as (k & q0 & E0).
          exists (KVal VI a), q'. destruct k; cbn in E0; [injection E0 as -> _ _; reflexivity|discriminate].
        * apply Y in H1. destruct H1 as (p & Cp). destruct (contains_step VI PF l r _ _ Fx Cp) as (k & q0 & E0).
          exists (KNest VI a), q'. destruct k; cbn in E0; [discriminate|injection E0 as -> _ _; reflexivity]. }
      destruct Q as (k & q' & ->). rewrite inside_acons in * by auto.
      assert (Fr : fits r (residual x k)) by now apply (residual_fits VI PF l).
      assert (X : forall p, mset (residual x k) p <-> mset x (acons VI (lvar l) k p)).
      { intros p. unfold HomFun.mset. now rewrite (residual_contains VI PF l r x k p Fx). }
      apply (inside_ext VI t op' E' (mset (residual x k))); [auto|].
      apply (IH Hop r (residual x k) O' Fr).
      apply (inside_ext VI t op E (fun q => mset x (acons VI (lvar l) k q))); [|auto].
      intros p. symmetry. apply X.
  Qed.

  (** Applying [h] through a path of locals. *)
  Theorem chain_sem o path on : goto o path on -> forall s h n', oshape o s -> typed on h n' -> tot on h ->
    forall x y, fits s x -> evals o (fold_right HLocal h path) x y ->
    forall q, mset y q <-> along path (img on h) (mset x) q.
  Proof.
    induction 1 as [o|o z o1 on p o' Tz M Ne G IH]; intros s h n' O T Tt x y Fx E q.
    - cbn [fold_right] in *. cbn [HomFun.along fold_right]. split.
      + intros C. exists s, x, y. split; [auto|split; [auto|split; [reflexivity|auto]]].
      + intros (s2 & v & w & O2 & Fv & Hv & Ew & Cw).
        assert (s2 = s) by apply (oshape_fun _ _ _ O2 _ O). subst s2.
        assert (v = x).
        { apply (fits_ext VI VL PF PO s); auto. intros b. apply bool_ext. apply Hv. }
        subst v. now rewrite (evals_fun VI PF U F I US _ _ _ _ _ E Ew).
    - destruct (target_local o z o1 Tz s on SEnd O M Ne) as (s0 & L0).
      destruct (local_at_nested _ _ _ _ _ _ L0) as (n & On & _).
      destruct (chain_typed on p o' G n h n' On T) as (n2 & T2).
      pose proof (chain_tot on p o' G n h n' On T Tt) as Tt2.
      destruct (target_local o z o1 Tz s on n2 O M Ne) as (s2 & L2). cbn [fold_right] in E.
      rewrite (local_sem VI VL PF PO U F I US HO o z _ s2 on n2 L2 T2 s x y O Fx E q).
      cbn [HomFun.along fold_right].
      pose proof (img_ext VI PF U F I US on (fold_right HLocal h p)) as E1.
      pose proof (along_ext VI p _ (img_ext VI PF U F I US o' h)) as E2.
      split.
      + apply (inside_mono_fits _ (along p (img o' h)) o z s2 on n2 L2 E1 E2) with (s := s); auto.
        intros n3 v On3 Fv a (n4 & v' & w & On4 & Fv' & Hv & Ew & Cw).
        assert (n3 = n) by apply (oshape_fun _ _ _ On3 _ On). subst n3.
        assert (n4 = n) by apply (oshape_fun _ _ _ On4 _ On). subst n4.
        assert (v' = v) by (apply (fits_ext VI VL PF PO n); auto; intros b; apply bool_ext; apply Hv). subst v'.
        now apply (IH n h n' On T Tt v w Fv Ew a).
      + apply (inside_mono_fits (along p (img o' h)) _ o z s2 on n2 L2 E2 E1) with (s := s); auto.
        intros n3 v On3 Fv a X.
        assert (n3 = n) by apply (oshape_fun _ _ _ On3 _ On). subst n3.
        destruct (Tt2 n v On Fv) as (w & Ew). exists n, v, w.
        split; [auto|split; [auto|split; [reflexivity|split; [auto|]]]].
        now apply (IH n h n' On T Tt v w Fv Ew a).
  Qed.

  (** Replacing the operation at the end of a path. *)
  Lemma along_mono_fits o path on : goto o path on -> forall (op op' : set -> set),
    extensional VI op -> extensional VI op' ->
    (forall n v, oshape on n -> fits n v -> forall a, op (mset v) a -> op' (mset v) a) ->
    forall s x, oshape o s -> fits s x -> forall q, along path op (mset x) q -> along path op' (mset x) q.
  Proof.
    induction 1 as [o|o z o1 on p o' Tz M Ne G IH]; intros op op' E E' Hop s x O Fx q.
    - cbn. now apply (Hop s x).
    - destruct (target_local o z o1 Tz s on SEnd O M Ne) as (s0 & L0). cbn [HomFun.along fold_right].
      apply (inside_mono_fits _ _ o z s0 on SEnd L0 (along_ext VI p _ E) (along_ext VI p _ E')) with (s := s); auto.
      intros n v On Fv a. now apply (IH op op' E E' Hop n v).
  Qed.

  Lemma target_fun o t o1 : target o t o1 -> forall s on f, oshape o s -> o_nested o1 = Some on -> o_empty on = true ->
    typed o (HFun t f) s.
  Proof.
    induction 1 as [o x A|o l o' t o1 L N H IH]; intros s on f O M Ne.
    - destruct (oshape_inv _ _ _ O) as [[X _]|(_ & l & o' & r & L & -> & O')].
      { apply variable_nonempty in A. congruence. }
      pose proof L as (A' & B & on' & M' & D). rewrite A in A'. injection A' as ->. rewrite M in M'. injection M' as <-.
      destruct l as [y|y n]; [|destruct D; congruence]. now constructor.
    - destruct (oshape_inv _ _ _ O) as [[X _]|(_ & l2 & o2 & r & L2 & -> & O')].
      { rewrite (olevel_nonempty _ _ _ _ L) in X. discriminate. }
      destruct (olevel_fun _ _ _ _ L2 _ _ L) as [-> ->].
      apply (T_fun_next VI PF U F I US o l o' t f r L N). eauto.
  Qed.

  (** function(o, u, f): in the order built from [b], the set of values of the flat identifier [u] is
      replaced by its image by [f]. *)
  Theorem function_ok (b : builder U) o u s : mk_order U ueqb b = Ok o -> In u (users b) -> oshape o s ->
    exists path on t o1, goto o path on /\ target on t o1 /\ o_identifier o1 = Some (user_id u) /\
    forall f, exists h, function o u f = Ok h /\
      ((exists oe, o_nested o1 = Some oe /\ o_empty oe = true) ->
       forall x, fits s x ->
       (exists y, evals o h x y) /\
       forall y, evals o h x y -> fits s y /\
         forall q, mset y q <-> along path (changed VI t (f_apply US f)) (mset x) q).
  Proof.
    intros E Hu O. destruct (carrier_ok b o u E Hu) as (path & on & t & o1 & G & Tg & Id & _ & Fo).
    exists path, on, t, o1. split; [auto|split; [auto|split; [auto|]]]. intros f. eexists. split; [apply Fo|].
    intros (oe & M & Ne) x Fx. rewrite local_chain by discriminate.
    assert (On : exists n, oshape on n).
    { clear Id Fo Tg M E. revert s x O Fx. induction G as [o|o z o2 on p o' Tz M2 Ne2 G IH]; intros s x O Fx; [eauto|].
      destruct (target_local o z o2 Tz s on SEnd O M2 Ne2) as (s0 & L0).
      destruct (local_at_nested _ _ _ _ _ _ L0) as (n & On & _).
      assert (X : exists x, fits n x) by (exists Zero; apply fits_zero). destruct X as (x0 & F0).
      apply (IH n x0 On F0). }
    destruct On as (n & On).
    pose proof (target_fun on t o1 Tg n oe f On M Ne) as T.
    pose proof (fun_tot VI VL PF PO U F I US HO on t f n T) as Tt.
    split; [now apply (chain_tot o path on G s (HFun t f) n O T Tt s x)|]. intros y Ey.
    assert (Ty : typed o (fold_right HLocal (HFun t f) path) s).
    { clear - G T On O. revert s O. induction G as [o|o z o2 on p o' Tz M2 Ne2 G IH]; intros s O.
      - now rewrite (oshape_fun _ _ _ O _ On).
      - destruct (target_local o z o2 Tz s on SEnd O M2 Ne2) as (s0 & L0).
        destruct (local_at_nested _ _ _ _ _ _ L0) as (n0 & On0 & _). cbn [fold_right].
        apply typed_local_iff. exists on, n0. split; [|now apply IH].
        clear - L0 O On0. revert s O. induction L0 as [o t n o' on n' r L M O'|o l o' t s' on n' L N H IH]; intros s O.
        + assert (n = n0).
          { destruct L as (_ & _ & on' & M' & _ & On'). rewrite M in M'. injection M' as <-.
            apply (oshape_fun _ _ _ On' _ On0). }
          subst n0. rewrite (oshape_fun _ _ _ O (SHier t n r)); [now apply (la_here U o t n o' on n r)|].
          now apply (oshape_level _ _ (LHier t n) _ r L).
        + destruct (oshape_inv _ _ _ O) as [[X _]|(_ & l2 & o2 & r & L2 & -> & O')].
          { rewrite (olevel_nonempty _ _ _ _ L) in X. discriminate. }
          destruct (olevel_fun _ _ _ _ L2 _ _ L) as [-> ->]. apply (la_next U o l o'); auto. }
    split; [now apply (evals_fits VI VL PF PO U F I US HO o (fold_right HLocal (HFun t f) path) s s x)|]. intros q.
    rewrite (chain_sem o path on G s (HFun t f) n O T Tt x y Fx Ey q).
    pose proof (img_ext VI PF U F I US on (HFun t f)) as E1.
    pose proof (changed_ext VI t (f_apply US f)) as E2.
    split.
    - apply (along_mono_fits o path on G _ _ E1 E2) with (s := s); auto.
      intros n3 v On3 Fv a (n4 & v' & w & On4 & Fv' & Hv & Ew & Cw).
      assert (n3 = n) by apply (oshape_fun _ _ _ On3 _ On). subst n3.
      assert (n4 = n) by apply (oshape_fun _ _ _ On4 _ On). subst n4.
      assert (v' = v) by (apply (fits_ext VI VL PF PO n); auto; intros b0; apply bool_ext; apply Hv). subst v'.
      now apply (fun_sem VI VL PF PO U F I US HO on t f n T n v w On Fv Ew a).
    - apply (along_mono_fits o path on G _ _ E2 E1) with (s := s); auto.
      intros n3 v On3 Fv a X.
      assert (n3 = n) by apply (oshape_fun _ _ _ On3 _ On). subst n3.
      destruct (Tt n v On Fv) as (w & Ew). exists n, v, w.
      split; [auto|split; [auto|split; [reflexivity|split; [auto|]]]].
      now apply (fun_sem VI VL PF PO U F I US HO on t f n T n v w On Fv Ew a).
  Qed.
End HomPath.
