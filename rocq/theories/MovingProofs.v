(** * Proofs about Moving.v: unions, intersections and differences do not depend on the orders in which containers are gone through

    The loops are those of DDModel.v, so that the lemmas of DDGeneric.v and DDFast.v on what is stored in the containers are
    reused; only those on the loops are done again, for computations with an oracle. *)

From Coq Require Import List Bool NArith Arith Lia Permutation Sorted.
From Verif Require Import Base SortedSets Values Sdd SddFacts DDModel DDGeneric DDFast DDProofs DDTheorems Moving.
Import ListNotations.

(** ** Triples on computations with an oracle *)

Section Triples.
  Variable VI : values_impl.
  Variables D H : Type.
  Variable Inv : memory D H -> Prop.       (* holds before and after *)
  Variable Ex : err (vt VI) -> Prop.
  Notation M := (M VI D H).

  Definition hm {A : Type} (p : M A) (Q : A -> Prop) : Prop :=
    forall s, Inv s -> outcome Ex Q (fst (p s)) /\ Inv (snd (p s)).

  Lemma hm_ret : forall A (a : A) (Q : A -> Prop), Q a -> hm (mret VI a) Q.
  Proof. intros A a Q H1 s Hs. split; [exact H1|exact Hs]. Qed.
  Lemma hm_throw : forall A e (Q : A -> Prop), Ex e -> hm (mthrow VI e) Q.
  Proof. intros A e Q H1 s Hs. split; [exact H1|exact Hs]. Qed.
  Lemma hm_bind : forall A B (p : M A) (f : A -> M B) (Q : A -> Prop) (R : B -> Prop),
    hm p Q -> (forall a, Q a -> hm (f a) R) -> hm (mbind VI p f) R.
  Proof.
    intros A B p f Q R HP HF s Hs. unfold mbind. specialize (HP s Hs). destruct (p s) as [[a|e] s']; simpl in *; auto.
    destruct HP as [HP Hs']. apply (HF a HP s' Hs').
  Qed.
  Lemma hm_conseq : forall A (p : M A) (Q R : A -> Prop), hm p Q -> (forall a, Q a -> R a) -> hm p R.
  Proof.
    intros A p Q R H1 HI s Hs. destruct (H1 s Hs) as [H2 H3]. split; [|exact H3]. destruct (fst (p s)); simpl in *; auto.
  Qed.
  (** A conclusion for each index of a non-empty family. *)
  Lemma hm_all : forall A (X : Type) (p : M A) (P : X -> Prop) (Q : X -> A -> Prop), (exists x, P x) ->
    (forall x, P x -> hm p (Q x)) -> hm p (fun r => forall x, P x -> Q x r).
  Proof.
    intros A X p P Q [x0 H0] H1 s Hs. destruct (H1 x0 H0 s Hs) as [E Hs']. split; [|exact Hs'].
    destruct (fst (p s)) as [a|e] eqn:Ep; simpl in *; auto.
    intros x Hx. destruct (H1 x Hx s Hs) as [E' _]. now rewrite Ep in E'.
  Qed.
  Lemma hm_visit : forall O, oracle_ok O -> (forall s, Inv s -> Inv (tick s)) ->
    forall X (l : list X), hm (visit VI O l) (fun l' => Permutation l' l).
  Proof. intros O HO IT X l s Hs. split; [apply HO|apply (IT s Hs)]. Qed.
  Lemma hm_assoc : forall A B C (p : M A) (f : A -> M B) (g : B -> M C) (Q : C -> Prop),
    hm (mbind VI (mbind VI p f) g) Q -> hm (mbind VI p (fun a => mbind VI (f a) g)) Q.
  Proof. intros A B C p f g Q H1 s Hs. specialize (H1 s Hs). unfold mbind in *. destruct (p s) as [[a|e] s']; auto. Qed.
End Triples.
Arguments hm VI {D H} Inv Ex {A} p Q.
Arguments hm_ret VI {D H} Inv Ex {A} a Q _.
Arguments hm_throw VI {D H} Inv Ex {A} e Q _.
Arguments hm_bind VI {D H} Inv Ex {A B} p f Q R _ _.
Arguments hm_conseq VI {D H} Inv Ex {A} p Q R _ _.
Arguments hm_all VI {D H} Inv Ex A X p P Q _ _.
Arguments hm_visit VI {D H} Inv Ex O _ _ {X} l.
Arguments hm_assoc VI {D H} Inv Ex {A B C} p f g Q _.

(** The operations on valuations compute unions, intersections and differences of good valuations. *)
Record mops_ok (VI : values_impl) {DC HC : Type} (Inv : memory DC HC -> Prop) (Ex : err (vt VI) -> Prop) {K W : Type} (mem : W -> K -> bool)
  (clash : K -> K -> Prop) (mo : mops VI DC HC W)
  (GV : W -> Prop) : Prop := {
  mk_sum : forall l, ssorted (vo_lt (mo_pure mo)) l ->
    (forall x, In x l -> GV x /\ vo_empty (mo_pure mo) x = false) ->
    hm VI Inv Ex (mo_sum mo l) (fun r => GV r /\ forall k, mem r k = existsb (fun x => mem x k) l);
  mk_inter : forall a b, GV a -> GV b ->
    hm VI Inv Ex (mo_inter mo a b) (fun r => GV r /\ (forall k, mem r k = mem a k && mem b k) /\
                                      forall k1 k2, mem a k1 = true -> mem b k2 = true -> ~ clash k1 k2);
  mk_diff : forall a b, GV a -> GV b ->
    hm VI Inv Ex (mo_diff mo a b) (fun r => GV r /\ (forall k, mem r k = mem a k && negb (mem b k)) /\
                                     forall k1 k2, mem a k1 = true -> mem b k2 = true -> ~ clash k1 k2)
}.
Arguments mk_sum {VI DC HC Inv Ex K W mem clash mo GV}.
Arguments mk_inter {VI DC HC Inv Ex K W mem clash mo GV}.
Arguments mk_diff {VI DC HC Inv Ex K W mem clash mo GV}.

Section Loops.
  Variable VI : values_impl.
  Variable PF : platform VI.
  Hypothesis PO : platform_ok PF.
  Variable O : oracle.
  Hypothesis OO : oracle_ok O.
  Variables DC HC : Type.
  Variable Inv : memory DC HC -> Prop.
  Hypothesis IT : forall s, Inv s -> Inv (tick s).
  Notation V := (vt VI).
  Notation sdd := (sdd V).
  Notation lt := (addr_lt PF).

  Variable ask : ddop V -> M VI DC HC sdd.
  Variable h : ddop V -> res (err V) sdd.      (* a model of the operations of DDModel.v: used for the order only *)
  Variable Ex : err V -> Prop.
  Context {K W : Type}.
  Variable mem : W -> K -> bool.
  Variable clash : K -> K -> Prop.
  Variable mo : mops VI DC HC W.
  Variable GV : W -> Prop.
  Variable GS : K -> sdd -> Prop.
  Notation ops := (mo_pure mo).
  Hypothesis OV : ops_ok VI h Ex mem clash ops GV.
  Hypothesis OS : forall k, ops_ok VI h Ex contains aclash (hier_ops VI PF) (GS k).
  Hypothesis MV : mops_ok VI Inv Ex mem clash mo GV.
  Hypothesis MS : forall k, mops_ok VI Inv Ex contains aclash (m_hier VI PF ask) (GS k).
  Variable cast : sdd -> option (N * list (W * sdd)).

  Notation vempty := (vo_empty ops).
  Notation hm := (hm VI Inv Ex).
  Notation hm_ret := (hm_ret VI Inv Ex).
  Notation hm_throw := (hm_throw VI Inv Ex).
  Notation gv := (gv VI ops GV).
  Notation gs := (gs VI mem GS).
  Notation good_alpha := (good_alpha VI PF mem clash ops GV GS).
  Notation gpairs := (gpairs VI mem clash ops GV GS).
  Notation su_rel := (su_rel VI PF ops).
  Notation su_rel_nil := (su_rel_nil VI PF ops).
  Notation fop_map_swap := (fop_map_swap VI mem).
  Notation acnt := (acnt VI mem).
  Notation good_arcs := (good_arcs VI mem clash ops GV GS).
  Notation acnt_le1 := (acnt_le1 VI mem).
  Notation bc := (bc VI).
  Notation mc := (mc VI mem).
  Notation cnt := (cnt VI mem).
  Notation gb := (gb VI PF mem GS).
  Notation ge := (ge VI PF mem ops GV GS).
  Notation gm := (gm VI PF mem ops GV GS).
  Notation acnt_cons := (acnt_cons VI mem).
  Notation cnt_app := (cnt_app VI mem).
  Notation cnt_cons := (cnt_cons VI mem).
  Notation cnt_nil := (cnt_nil VI mem).
  Notation mc_app := (mc_app VI mem).
  Notation mc_cons := (mc_cons VI mem).
  Notation mc_nil := (mc_nil VI mem).
  Notation gm_app := (gm_app VI PF mem ops GV GS).
  Notation gm_cons := (gm_cons VI PF mem ops GV GS).
  Notation gm_nil := (gm_nil VI PF mem ops GV GS).
  Notation cnt_perm := (cnt_perm VI mem).
  Notation mc_perm := (mc_perm VI mem).
  Notation gm_perm := (gm_perm VI PF mem ops GV GS).
  Notation sb_add_bc := (sb_add_bc VI PF PO).
  Notation sb_add_gb := (sb_add_gb VI PF PO mem GS).
  Notation save_rep := (save_rep VI ops).
  Notation save_rep_nil := (save_rep_nil VI ops).
  Notation save_rep_snoc := (save_rep_snoc VI h Ex mem clash ops GV OV).
  Notation save_rep_dup := (save_rep_dup VI h Ex mem clash ops GV OV).
  Notation apart_cnt := (apart_cnt VI PF h Ex mem clash ops GV GS OV).
  Notation save_rep_self := (save_rep_self VI PF h Ex mem clash ops GV GS OV).
  Notation C_pre := (C_pre VI PF mem clash ops GV GS).
  Notation C_post := (C_post VI PF mem clash ops GV GS).
  Notation ge_intro := (ge_intro VI PF mem ops GV GS).
  Notation sum_I_ok := (sum_I_ok VI PF PO h Ex mem clash ops GV GS OV).
  Notation asel := (asel VI mem cast).
  Notation um_insert_ok := (um_insert_ok VI PF h Ex mem clash ops GV GS OV).
  Notation arcs_entries := (arcs_entries VI PF PO mem ops GV GS).
  Notation node_post := (node_post VI PF mem clash ops GV GS).
  Notation inter_pairs := (inter_pairs VI mem ops GV GS).
  Notation inter_pairs_gpairs := (inter_pairs_gpairs VI PF h Ex mem clash ops GV GS OS cast).
  Notation good_alpha_arcs := (good_alpha_arcs VI PF mem clash ops GV GS).
  Notation diff_pairs := (diff_pairs VI mem ops GV GS).
  Notation diff_pairs_gpairs := (diff_pairs_gpairs VI PF h Ex mem clash ops GV GS OS cast).
  Notation valuations_builder := (valuations_builder VI h Ex mem clash ops GV OV).
  Notation is_zero_false := (is_zero_false VI).
  Notation is_zero_true := (is_zero_true VI).

  Notation gs_sub := (gs_sub VI mem GS).
  Notation gb_sub := (gb_sub VI PF mem GS).
  Notation acnt_in := (acnt_in VI mem).
  Notation gs_nonempty := (gs_nonempty VI PF h Ex mem clash ops GV GS OV OS).
  Notation arc_agree := (arc_agree VI mem clash).
  Notation arcs_agree := (arcs_agree VI mem clash).
  Notation arcs_free := (arcs_free VI mem clash).

  Lemma good_arcs_perm : forall a b, Permutation a b -> good_arcs a -> good_arcs b.
  Proof.
    intros a b HP [H1 H2 H3]. split.
    - intros v s Hin. apply H1. exact (Permutation_in _ (Permutation_sym HP) Hin).
    - eapply fop_perm; [|exact HP|exact H2]. intros x y D k M1 M2. apply (D k); auto.
    - intros v1 s1 v2 s2 k1 k2 I1 I2. apply (H3 v1 s1 v2 s2).
      + exact (Permutation_in _ (Permutation_sym HP) I1).
      + exact (Permutation_in _ (Permutation_sym HP) I2).
  Qed.

  Lemma acontains_perm : forall a b, Permutation a b -> forall k p, acontains VI mem a k p = acontains VI mem b k p.
  Proof.
    intros a b HP k p. apply bool_ext. rewrite !acontains_spec.
    split; intros (v & s & Hin & H); exists v, s; split; auto.
    - exact (Permutation_in _ HP Hin).
    - exact (Permutation_in _ (Permutation_sym HP) Hin).
  Qed.

  Lemma m_su_add_ok : forall m pairs s v, su_rel m pairs -> gs v s -> gv v ->
    hm (m_su_add VI PF  mo s v m) (fun m' => su_rel m' (pairs ++ [(s, v)])).
  Proof.
    intros m pairs s v HR [Hs1 Hs2] [Hv1 Hv2]. unfold m_su_add.
    rewrite is_zero_false, Hv2 by auto. simpl. apply hm_ret. unfold su_rel.
    rewrite (fm_upd_ext _ _ lt _
      (fun o => fs_insert (vo_lt ops) v (match o with Some b => b | None => [] end))).
    - apply (mm_add_rel lt (vo_lt ops) (pf_lt PO) (oo_lt _ _ _ _ _ _ _ OV)). exact HR.
    - intros o. unfold sb_add. now rewrite Hv2.
  Qed.

  Lemma m_su_run_ok : forall m pairs, su_rel m pairs -> gpairs pairs ->
    hm (m_su_run VI PF O mo m)
      (fun alpha => good_alpha alpha /\ (alpha = [] <-> pairs = []) /\
         forall k p, acontains VI mem (map swap alpha) k p = true <->
           exists s v, In (s, v) pairs /\ mem v k = true /\ contains s p = true).
  Proof.
    intros m pairs (H1 & H2 & H3) (G1 & G2 & G3).
    pose proof (pf_lt PO) as ST. pose proof (oo_lt _ _ _ _ _ _ _ OV) as STv.
    (* loop invariant *)
    assert (Loop : forall m2 alpha,
      NoDup (map fst m2) ->
      (forall s b, In (s, b) m2 -> In (s, b) m) ->
      ksorted lt alpha ->
      (forall s v, In (s, v) alpha -> ~ In s (map fst m2)) ->
      hm (m_su_loop VI PF mo m2 alpha) (fun alpha' =>
        ksorted lt alpha' /\
        (forall s v, In (s, v) alpha' -> In (s, v) alpha \/
           exists b, In (s, b) m2 /\ GV v /\ forall k, mem v k = existsb (fun x => mem x k) b) /\
        (forall s v, In (s, v) alpha -> In (s, v) alpha') /\
        (forall s b, In (s, b) m2 -> exists v, In (s, v) alpha' /\
           forall k, mem v k = existsb (fun x => mem x k) b))).
    { induction m2 as [|[s b] r IH]; intros alpha HN Hsub Hs Hfresh; simpl.
      - apply hm_ret. repeat split; auto. intros s b [].
      - inversion HN as [|? ? Hn1 Hn2]; subst.
        eapply hm_bind.
        + apply (mk_sum MV).
          * eapply H2. apply Hsub. now left.
          * intros x Hx. eapply (G1 s x). apply H3. exists b; split; auto. apply Hsub; now left.
        + intros v [Hv1 Hv2]. simpl.
          assert (Hno : forall v', ~ In (s, v') alpha).
          { intros v' Hin. apply (Hfresh _ _ Hin). now left. }
          assert (Hadd : forall s' v', In (s', v') (alpha_add VI PF v s alpha) <->
                    In (s', v') alpha \/ (s', v') = (s, v)).
          { intros s' v'. unfold alpha_add, fm_emplace. rewrite (fm_upd_in lt ST) by auto. split.
            - intros [[_ Hin]|[-> [(b' & Hin & ->)|[_ ->]]]]; auto.
            - intros [Hin|E].
              + left; split; auto. intros ->. eapply Hno; eauto.
              + injection E as -> ->. right; split; auto. }
          eapply hm_conseq.
          * apply IH; auto.
            -- intros s' b' Hin. apply Hsub. now right.
            -- apply fm_upd_sorted; auto.
            -- intros s' v' Hin. apply Hadd in Hin. destruct Hin as [Hin|E].
               ++ intros Hm. apply (Hfresh _ _ Hin). now right.
               ++ injection E as -> ->. auto.
          * intros alpha' (A1 & A2 & A3 & A4). split; [auto|split; [|split]].
            -- intros s' v' Hin. destruct (A2 _ _ Hin) as [Hin'|(b' & Hb & Hb')].
               ++ apply Hadd in Hin'. destruct Hin' as [Hin'|E]; auto.
                  injection E as -> ->. right. exists b. simpl; auto.
               ++ right. exists b'. simpl; auto.
            -- intros s' v' Hin. apply A3. apply Hadd; auto.
            -- intros s' b' [E|Hin].
               ++ injection E as <- <-. exists v. split; auto. apply A3. apply Hadd; auto.
               ++ eauto. }
    unfold m_su_run. eapply hm_bind; [apply (hm_visit VI Inv Ex O OO IT)|]. intros mp HPm.
    eapply hm_conseq; [apply (Loop mp [])|].
    - eapply Permutation_NoDup; [apply Permutation_map, Permutation_sym, HPm|]. apply (ksorted_nodup lt ST); auto.
    - intros s b Hin. exact (Permutation_in _ HPm Hin).
    - constructor.
    - intros s v [].
    - intros alpha (A1 & A2p & _ & A4p).
      assert (A2 : forall s v, In (s, v) alpha -> In (s, v) [] \/
           exists b, In (s, b) m /\ GV v /\ forall k, mem v k = existsb (fun x => mem x k) b).
      { intros s v Hin. destruct (A2p _ _ Hin) as [|(b & Hb & Hr)]; auto. right. exists b. split; auto.
        exact (Permutation_in _ HPm Hb). }
      assert (A4 : forall s b, In (s, b) m -> exists v, In (s, v) alpha /\
           forall k, mem v k = existsb (fun x => mem x k) b).
      { intros s b Hin. apply A4p. exact (Permutation_in _ (Permutation_sym HPm) Hin). }
      clear A2p A4p.
      assert (Hvals : forall s v, In (s, v) alpha -> exists b, In (s, b) m /\ GV v /\
                forall k, mem v k = existsb (fun x => mem x k) b).
      { intros s v Hin. destruct (A2 _ _ Hin) as [[]|]; auto. }
      split; [|split].
      + split; auto.
        * intros s v Hin. destruct (Hvals _ _ Hin) as (b & Hb & Hv & Hk).
          destruct b as [|w b]; [destruct (H2 _ _ Hb); congruence|].
          assert (Hw : In (s, w) pairs) by (apply H3; exists (w :: b); simpl; auto).
          destruct (G1 _ _ Hw) as [Gs [Gw Ew]]. split; [split; [|apply Gs]|split; [auto|]].
          { intros k Mk. rewrite Hk in Mk. apply existsb_exists in Mk. destruct Mk as (x & Ix & Mx).
            apply (G1 s x); auto. apply H3. eauto. }
          destruct (oo_nonempty _ _ _ _ _ _ _ OV w Gw Ew) as [k Hkw].
          destruct (vempty v) eqn:E; auto.
          pose proof (oo_empty _ _ _ _ _ _ _ OV v Hv E k) as Hf.
          rewrite Hk in Hf. simpl in Hf. rewrite Hkw in Hf. discriminate.
        * apply fop_map_swap; [|apply (ksorted_nodup lt ST); auto].
          intros s1 v1 s2 v2 Hi1 Hi2 Hne k M1 M2.
          destruct (Hvals _ _ Hi1) as (b1 & Hb1 & _ & K1).
          destruct (Hvals _ _ Hi2) as (b2 & Hb2 & _ & K2).
          rewrite K1 in M1. rewrite K2 in M2.
          apply existsb_exists in M1. apply existsb_exists in M2.
          destruct M1 as (w1 & I1 & M1). destruct M2 as (w2 & I2 & M2).
          apply (G2 s1 w1 s2 w2) with (k := k); auto.
          -- apply H3; eauto.
          -- apply H3; eauto.
        * intros s1 v1 s2 v2 k1 k2 Hi1 Hi2 M1 M2.
          destruct (Hvals _ _ Hi1) as (b1 & Hb1 & _ & K1).
          destruct (Hvals _ _ Hi2) as (b2 & Hb2 & _ & K2).
          rewrite K1 in M1. rewrite K2 in M2.
          apply existsb_exists in M1. apply existsb_exists in M2.
          destruct M1 as (w1 & I1 & M1). destruct M2 as (w2 & I2 & M2).
          apply (G3 s1 w1 s2 w2); auto; apply H3; eauto.
      + split.
        * intros ->. destruct pairs as [|[s v] r]; auto. exfalso.
          destruct (proj2 (H3 s v) (or_introl eq_refl)) as (b & Hb & _).
          destruct (A4 _ _ Hb) as (w & [] & _).
        * intros ->. destruct alpha as [|[s v] r]; auto. exfalso.
          destruct (Hvals s v (or_introl eq_refl)) as (b & Hb & _).
          destruct b as [|w b]; [destruct (H2 _ _ Hb); congruence|].
          apply (H3 s w). exists (w :: b); simpl; auto.
      + intros k p. rewrite acontains_spec. split.
        * intros (v & s & Hin & M & C). apply in_map_iff in Hin.
          destruct Hin as ([s0 v0] & E & Hin). injection E as -> ->.
          destruct (Hvals _ _ Hin) as (b & Hb & _ & Hk). rewrite Hk in M.
          apply existsb_exists in M. destruct M as (w & Iw & M).
          exists s, w. split; auto. apply H3; eauto.
        * intros (s & w & Hin & M & C). apply H3 in Hin. destruct Hin as (b & Hb & Iw).
          destruct (A4 _ _ Hb) as (v & Hv & Hk). exists v, s. split; [|split; auto].
          -- apply in_map_iff. exists (s, v); auto.
          -- rewrite Hk. apply existsb_exists; eauto.
  Qed.

  Lemma m_sum_C_ok : forall todo cv cs kept save rem sv,
    C_pre cv cs todo kept save rem sv ->
    hm (m_sum_C VI PF  mo cv cs todo kept save rem) (C_post cv cs todo kept save rem sv).
  Proof.
    induction todo as [|[rv rs] t IH]; intros cv cs kept save rem sv Hpre; cbn [m_sum_C].
    - apply hm_ret. now apply sum_I_ok.
    - assert (Hpre0 := Hpre).
      destruct Hpre as (Hcv & Hcs & Gk & Gt & Gr & Gs & HR & C1 & C2 & F1 & F2).
      apply gm_cons in Gt. destruct Gt as [[[Grv Erv] Grs] Gt]. cbn [fst snd] in *.
      destruct (vempty cv) eqn:Ecv.
      { (* nothing left in cv *)
        apply hm_ret. pose proof (oo_empty _ _ _ _ _ _ _ OV cv Hcv Ecv) as He.
        unfold sum_I. rewrite Ecv. exists sv.
        split; [|split; [auto|split; [auto|split; [auto|split; [|split; [|split]]]]]].
        - apply gm_app. split; auto. apply gm_cons; split; auto. split; [split|]; auto.
        - intros k. specialize (C1 k). rewrite cnt_app. lia.
        - intros k; lia.
        - intros k1 k2 H1 H2. rewrite cnt_app in H1, H2. apply F1; lia.
        - intros k p. rewrite He, mc_app. simpl. rewrite !orb_false_r.
          rewrite <- !orb_assoc. reflexivity. }
      destruct (vo_eqb ops cv rv) eqn:Eq.
      { (* (D) *)
        apply (oo_eqb _ _ _ _ _ _ _ OV) in Eq. subst rv. apply hm_ret.
        assert (Gnew : gm [(cv, sdd_sb_add VI PF cs rs)]).
        { apply gm_cons. split; [|apply gm_nil]. apply ge_intro; [split; auto|].
          apply sb_add_gb; auto. }
        exists (sv ++ [(cv, sdd_sb_add VI PF cs rs)]).
        split; [|split; [auto|split; [|split; [|split; [|split; [|split]]]]]].
        - apply gm_app; auto.
        - apply gm_app; auto.
        - apply save_rep_snoc; auto. intros e' Hin Ee. refine (apart_cnt sv _ Gs _ e' _ Hin _ _).
          + intros k. specialize (C2 k). instantiate (1 := [(cv, sdd_sb_add VI PF cs rs)]).
            rewrite cnt_cons, cnt_nil. simpl. lia.
          + now left.
          + now symmetry.
        - intros k. specialize (C1 k). rewrite !cnt_app, cnt_cons, ?cnt_nil in *. simpl in *. lia.
        - intros k. rewrite !cnt_app, cnt_cons, ?cnt_nil. simpl. lia.
        - intros k1 k2 H1 H2. rewrite !cnt_app, cnt_cons, ?cnt_nil in H1, H2. apply F1; rewrite cnt_cons; simpl in *; lia.
        - intros k p. rewrite !mc_app, !mc_cons, !mc_nil. cbn [fst snd].
          rewrite sb_add_bc by apply Hcs.
          destruct (mc kept k p), (mc t k p), (mc rem k p), (mc sv k p), (mem cv k), (bc rs p),
            (contains cs p); reflexivity. }
      eapply hm_bind; [apply (mk_inter MV); auto|].
      intros inter (Gi & Hi & Fi). simpl.
      destruct (vempty inter) eqn:Ei; cbn [negb].
      { (* (H): nothing in common *)
        pose proof (oo_empty _ _ _ _ _ _ _ OV inter Gi Ei) as He.
        eapply hm_conseq.
        - apply (IH cv cs (kept ++ [(rv, rs)]) save rem sv).
          split; [auto|split; [auto|split; [|split; [auto|split; [auto|split; [auto|split; [auto|
            split; [|split; [|split]]]]]]]]].
          + apply gm_app; split; auto. apply gm_cons; split; [|apply gm_nil]. split; [split|]; auto.
          + intros k. specialize (C1 k). rewrite !cnt_app, !cnt_cons, ?cnt_nil in *.
            cbn [fst] in *. lia.
          + intros k. specialize (C2 k). specialize (C1 k). specialize (He k). rewrite Hi in He.
            rewrite !cnt_app, !cnt_cons, ?cnt_nil in *. cbn [fst] in *.
            destruct (mem cv k), (mem rv k); simpl in *; try discriminate; lia.
          + intros k1 k2 H1 H2. rewrite !cnt_app, !cnt_cons, ?cnt_nil in H1, H2.
            apply F1; rewrite cnt_cons; cbn [fst] in *; lia.
          + intros k1 k2 M1 H2. rewrite !cnt_app, !cnt_cons, ?cnt_nil in H2. cbn [fst] in H2.
            destruct (mem rv k2) eqn:M2; [now apply Fi|]. apply F2; auto. simpl in H2; lia.
        - intros [[kept' save'] rem'] (sv' & A1 & A2 & A3 & A4 & A5 & A6 & AF & A7).
          exists sv'. split; [auto|split; [auto|split; [auto|split; [auto|split; [auto|split; [auto|split; [auto|]]]]]]].
          intros k p. rewrite A7, mc_app, !mc_cons, mc_nil. cbn [fst snd].
          destruct (mc kept k p), (mc t k p), (mc rem k p), (mc sv k p), (mem cv k), (bc rs p),
            (contains cs p), (mem rv k); reflexivity. }
      (* (E), (F) *)
      eapply hm_bind; [apply (mk_diff MV); auto|].
      intros diff (Gd & Hd & _).
      assert (Si : forall k, mem inter k = true -> mem cv k = true /\ mem rv k = true).
      { intros k Hk. rewrite Hi in Hk. now apply andb_prop in Hk. }
      assert (Sd : forall k, mem diff k = true -> mem rv k = true).
      { intros k Hk. rewrite Hd in Hk. now apply andb_prop in Hk. }
      set (rem1 := if negb (vempty diff) then rem ++ [(diff, rs)] else rem).
      set (save1 := save ++ [(inter, sdd_sb_add VI PF cs rs)]).
      assert (Gr1 : gm rem1).
      { unfold rem1. destruct (vempty diff) eqn:Ed; simpl; auto.
        apply gm_app; split; auto. apply gm_cons; split; [|apply gm_nil]. split; [split|]; auto.
        simpl. apply (gb_sub rv); auto. }
      assert (Cr1 : forall k, cnt rem1 k = cnt rem k + b2n (mem diff k)).
      { intros k. unfold rem1. destruct (vempty diff) eqn:Ed; simpl.
        - rewrite (oo_empty _ _ _ _ _ _ _ OV diff Gd Ed). simpl. lia.
        - rewrite cnt_app, cnt_cons, cnt_nil. simpl. lia. }
      assert (Mr1 : forall k p, mc rem1 k p = mc rem k p || (mem diff k && bc rs p)).
      { intros k p. unfold rem1. destruct (vempty diff) eqn:Ed; simpl.
        - rewrite (oo_empty _ _ _ _ _ _ _ OV diff Gd Ed). simpl. now rewrite orb_false_r.
        - rewrite mc_app, mc_cons, mc_nil. simpl. now rewrite orb_false_r. }
      assert (Gnew : gm [(inter, sdd_sb_add VI PF cs rs)]).
      { apply gm_cons. split; [|apply gm_nil]. apply ge_intro; [split; auto|].
        apply sb_add_gb.
        - apply (gs_sub cv); auto. intros k Hk. now apply Si.
        - right. apply (gb_sub rv); auto. intros k Hk. now apply Si. }
      assert (Gs1 : gm (sv ++ [(inter, sdd_sb_add VI PF cs rs)])).
      { apply gm_app; auto. }
      assert (HR1 : save_rep save1 (sv ++ [(inter, sdd_sb_add VI PF cs rs)])).
      { apply save_rep_snoc; auto. intros e' Hin Ee. refine (apart_cnt sv _ Gs _ e' _ Hin _ _).
        - intros k. specialize (C2 k). instantiate (1 := [(inter, sdd_sb_add VI PF cs rs)]).
          rewrite cnt_cons, cnt_nil. simpl. rewrite Hi.
          destruct (mem cv k), (mem rv k); simpl in *; lia.
        - now left.
        - now symmetry. }
      destruct (vo_eqb ops cv inter) eqn:Eqi.
      { (* (G) *)
        apply (oo_eqb _ _ _ _ _ _ _ OV) in Eqi. subst inter. apply hm_ret.
        unfold sum_I. rewrite Ecv.
        exists (sv ++ [(cv, sdd_sb_add VI PF cs rs)]).
        split; [|split; [auto|split; [auto|split; [|split; [|split; [|split]]]]]].
        - apply gm_app; auto.
        - apply save_rep_dup; auto. exists (cv, sdd_sb_add VI PF cs rs). split; auto.
          apply in_app_iff; simpl; auto.
        - intros k. specialize (C1 k). specialize (Hi k). specialize (Hd k).
          rewrite !cnt_app, Cr1, !cnt_cons, ?cnt_nil in *. cbn [fst] in *. rewrite Hd.
          destruct (mem cv k), (mem rv k); simpl in *; try discriminate; lia.
        - intros k. rewrite !cnt_app, cnt_cons, ?cnt_nil. simpl. lia.
        - intros k1 k2 H1 H2. rewrite !cnt_app, Cr1, !cnt_cons, ?cnt_nil in H1, H2. cbn [fst] in *.
          apply F1; rewrite cnt_cons; cbn [fst].
          + specialize (Si k1). specialize (Sd k1).
            destruct (mem cv k1), (mem diff k1), (mem rv k1); simpl in *; try lia; intuition discriminate.
          + specialize (Si k2). specialize (Sd k2).
            destruct (mem cv k2), (mem diff k2), (mem rv k2); simpl in *; try lia; intuition discriminate.
        - intros k p. specialize (Hi k). specialize (Hd k).
          rewrite Mr1, !mc_app, !mc_cons, !mc_nil. cbn [fst snd].
          rewrite sb_add_bc, Hd by apply Hcs.
          destruct (mem cv k), (mem rv k); simpl in *; try discriminate;
          destruct (mc kept k p), (mc t k p), (mc rem k p), (mc sv k p), (bc rs p),
            (contains cs p); reflexivity. }
      eapply hm_bind; [apply (mk_diff MV); auto|].
      intros cv' (Gcv' & Hcv' & _). simpl.
      assert (Sc : forall k, mem cv' k = true -> mem cv k = true).
      { intros k Hk. rewrite Hcv' in Hk. now apply andb_prop in Hk. }
      eapply hm_conseq.
      + apply (IH cv' cs kept save1 rem1 (sv ++ [(inter, sdd_sb_add VI PF cs rs)])).
        split; [auto|split; [now apply (gs_sub cv)|split; [auto|split; [auto|split; [auto|split; [auto|split; [auto|
          split; [|split; [|split]]]]]]]]].
        * intros k. specialize (C1 k). specialize (C2 k).
          rewrite !cnt_app, Cr1, !cnt_cons, ?cnt_nil in *. cbn [fst] in *. rewrite Hd, Hi.
          destruct (mem cv k), (mem rv k); simpl in *; lia.
        * intros k. specialize (C1 k). specialize (C2 k).
          rewrite !cnt_app, Cr1, !cnt_cons, ?cnt_nil in *. cbn [fst] in *. rewrite Hcv', Hd, Hi.
          destruct (mem cv k), (mem rv k); simpl in *; lia.
        * intros k1 k2 H1 H2. rewrite !cnt_app, Cr1, !cnt_cons, ?cnt_nil in H1, H2. cbn [fst] in *.
          apply F1; rewrite cnt_cons; cbn [fst].
          -- specialize (Si k1). specialize (Sd k1).
             destruct (mem inter k1), (mem diff k1), (mem rv k1); simpl in *; try lia; intuition discriminate.
          -- specialize (Si k2). specialize (Sd k2).
             destruct (mem inter k2), (mem diff k2), (mem rv k2); simpl in *; try lia; intuition discriminate.
        * intros k1 k2 M1 H2. apply Sc in M1. rewrite !cnt_app, Cr1, !cnt_cons, ?cnt_nil in H2. cbn [fst] in H2.
          destruct (mem rv k2) eqn:M2; [now apply Fi|]. apply F2; auto.
          specialize (Si k2). specialize (Sd k2). rewrite M2 in Si, Sd.
          destruct (mem inter k2), (mem diff k2); simpl in *; try lia; intuition discriminate.
      + intros [[kept' save'] rem'] (sv' & A1 & A2 & A3 & A4 & A5 & A6 & AF & A7).
        exists sv'. split; [auto|split; [auto|split; [auto|split; [auto|split; [auto|split; [|split; [auto|]]]]]]].
        * intros k. specialize (A6 k). rewrite cnt_app, cnt_cons, cnt_nil in A6. cbn [fst] in A6.
          rewrite Hcv', Hi in A6.
          destruct (mem cv k), (mem rv k); simpl in *; lia.
        * intros k p. rewrite A7, Mr1, !mc_app, !mc_cons, !mc_nil. cbn [fst snd].
          rewrite sb_add_bc, Hcv', Hd, Hi by apply Hcs.
          destruct (mem cv k), (mem rv k); simpl in *; try discriminate;
          destruct (mc kept k p), (mc t k p), (mc rem k p), (mc sv k p), (bc rs p),
            (contains cs p); reflexivity.
  Qed.

  Lemma m_sum_B_ok : forall arcs res save sv,
    (forall v s, In (v, s) arcs -> gv v /\ gs v s) ->
    gm res -> gm sv -> save_rep save sv ->
    (forall k, cnt res k + cnt sv k <= 1) ->
    (forall k, cnt sv k + acnt arcs k <= 1) ->
    (forall k1 k2, 1 <= cnt res k1 + cnt sv k1 -> 1 <= cnt res k2 + cnt sv k2 -> ~ clash k1 k2) ->
    (forall v s k1 k2, In (v, s) arcs -> mem v k1 = true -> 1 <= cnt sv k2 + acnt arcs k2 -> ~ clash k1 k2) ->
    hm (m_sum_B VI PF O mo arcs res save) (fun r =>
      exists sv', gm (fst r) /\ gm sv' /\ save_rep (snd r) sv' /\
      (forall k, cnt (fst r) k + cnt sv' k <= 1) /\
      (forall k1 k2, 1 <= cnt (fst r) k1 + cnt sv' k1 -> 1 <= cnt (fst r) k2 + cnt sv' k2 -> ~ clash k1 k2) /\
      (forall k p, mc (fst r) k p || mc sv' k p =
         mc res k p || mc sv k p || acontains VI mem arcs k p)).
  Proof.
    induction arcs as [|[v s] arcs IH]; intros res save sv Ha Gr Gs HR C1 C2 F1 F2; cbn [m_sum_B].
    - apply hm_ret. exists sv. cbn [fst snd].
      split; [exact Gr|split; [exact Gs|split; [exact HR|split; [exact C1|split; [exact F1|]]]]].
      intros k p. simpl. now rewrite orb_false_r.
    - eapply hm_bind; [apply (hm_visit VI Inv Ex O OO IT)|]. intros todo HP.
      eapply hm_bind.
      + apply (m_sum_C_ok todo v s [] save [] sv).
        destruct (Ha v s (or_introl eq_refl)) as [Hv Hs].
        split; [apply Hv|split; [auto|split; [apply gm_nil|split; [|split; [apply gm_nil|split; [auto|split; [auto|
          split; [|split; [|split]]]]]]]]].
        * eapply gm_perm; [|exact Gr]. now apply Permutation_sym.
        * intros k. rewrite (cnt_perm _ _ HP), !cnt_nil. specialize (C1 k). lia.
        * intros k. rewrite !cnt_nil. specialize (C2 k). rewrite acnt_cons in C2. simpl in *. lia.
        * intros k1 k2. rewrite !(cnt_perm _ _ HP), !cnt_nil. intros H1 H2. apply F1; lia.
        * intros k1 k2 M1. rewrite !cnt_nil. intros H2. apply (F2 v s); [now left|auto|lia].
      + intros [[kept save'] rem] (sv' & A1 & A2 & A3 & A4 & A5 & A6 & AF & A7). cbn [fst snd].
        assert (E : um_insert VI ops rem kept = kept ++ rem).
        { apply save_rep_self; auto.
          - intros k. specialize (A5 k). lia.
          - apply apart_cnt; auto. intros k. specialize (A5 k). lia. }
        rewrite E. eapply hm_conseq.
        * apply (IH (kept ++ rem) save' sv'); auto.
          -- intros v' s' Hin. apply Ha. now right.
          -- apply gm_app; auto.
          -- intros k. rewrite cnt_app. specialize (A5 k). lia.
          -- intros k. specialize (A6 k). specialize (C2 k). rewrite acnt_cons in C2. simpl in *. lia.
          -- intros k1 k2. rewrite !cnt_app. auto.
          -- intros v' s' k1 k2 Hin M1 H2. apply (F2 v' s'); [now right|auto|].
             rewrite acnt_cons. cbn [fst]. specialize (A6 k2). lia.
        * intros [res' save''] (sv'' & B1 & B2 & B3 & B4 & BF & B5). cbn [fst snd] in *.
          exists sv''. split; [auto|split; [auto|split; [auto|split; [auto|split; [auto|]]]]].
          intros k p. rewrite B5, mc_app. rewrite A7, !mc_nil, (mc_perm _ _ HP).
          unfold acontains. simpl.
          match goal with |- context [existsb ?f arcs] => destruct (existsb f arcs) end;
          destruct (mc res k p), (mc sv k p), (mem v k && contains s p); reflexivity.
  Qed.

  Lemma m_sum_A_ok : forall begin var operands res,
    (forall x, In x operands -> hm (m_check VI begin x)
       (fun _ => exists arcs, cast x = Some (var, arcs) /\ good_arcs arcs)) ->
    gm res -> (forall k, cnt res k <= 1) ->
    (forall k1 k2, 1 <= cnt res k1 -> 1 <= cnt res k2 -> ~ clash k1 k2) ->
    hm (m_sum_A VI PF O mo cast begin operands res) (fun r =>
      gm r /\ (forall k, cnt r k <= 1) /\
      (forall k1 k2, 1 <= cnt r k1 -> 1 <= cnt r k2 -> ~ clash k1 k2) /\
      (forall k p, mc r k p = mc res k p || existsb (fun x => asel var x k p) operands) /\
      (forall x, In x operands -> exists arcs, cast x = Some (var, arcs))).
  Proof.
    intros begin var. induction operands as [|x r IH]; intros res Hx Gr C1 F1; cbn [m_sum_A].
    - apply hm_ret. split; [exact Gr|split; [exact C1|split; [exact F1|split; [|intros x []]]]].
      intros k p. simpl. now rewrite orb_false_r.
    - eapply hm_bind; [apply Hx; now left|].
      intros _ (arcs0 & Ec & Ga). rewrite Ec.
      eapply hm_bind; [apply (hm_visit VI Inv Ex O OO IT)|]. intros arcs HPa.
      destruct (good_arcs_perm _ _ (Permutation_sym HPa) Ga) as [Ga1 Ga2 Ga3].
      eapply hm_bind.
      + apply (m_sum_B_ok arcs res [] []); auto.
        * apply gm_nil.
        * apply save_rep_nil.
        * intros k. rewrite cnt_nil. specialize (C1 k). lia.
        * intros k. rewrite cnt_nil. apply (acnt_le1 arcs Ga2).
        * intros k1 k2. rewrite !cnt_nil. intros H1 H2. apply F1; lia.
        * intros v s k1 k2 Hin M1. rewrite cnt_nil. intros H2.
          destruct (acnt_in arcs k2) as (w & t & Hw & M2); [lia|]. apply (Ga3 v s w t); auto.
      + intros [res' save] (sv & A1 & A2 & A3 & A4 & AF & A5). cbn [fst snd] in *.
        rewrite (um_insert_ok save sv) by auto.
        eapply hm_conseq.
        * apply IH.
          -- intros y Hy. apply Hx. now right.
          -- apply gm_app; auto.
          -- intros k. rewrite cnt_app. auto.
          -- intros k1 k2. rewrite !cnt_app. auto.
        * intros res'' (B1 & B2 & BF & B3 & B4). split; [auto|split; [auto|split; [auto|split]]].
          -- intros k p. rewrite B3, mc_app, A5, mc_nil. simpl existsb. unfold DDGeneric.asel at 2.
             rewrite Ec, N.eqb_refl, (acontains_perm _ _ HPa). rewrite orb_false_r. now rewrite <- orb_assoc.
          -- intros y [<-|Hy]; eauto.
  Qed.

  (** Operations on the successors of a valuation. *)
  Lemma m_sum_succ : forall v b, gv v -> gb v b ->
    hm (mo_sum (m_hier VI PF ask) b)
      (fun s => gs v s /\ forall p, contains s p = existsb (fun x => contains x p) b).
  Proof.
    intros v b [Gv Ev] (Hb1 & Hb2 & Hb3). destruct (oo_nonempty _ _ _ _ _ _ _ OV v Gv Ev) as [k0 M0].
    eapply hm_conseq.
    - apply (hm_all VI Inv Ex _ K _ (fun k => mem v k = true)
               (fun k r => GS k r /\ forall p, contains r p = existsb (fun x => contains x p) b)); [eauto|].
      intros k Mk. apply (mk_sum (MS k) b); auto.
      intros x Hx. destruct (Hb3 _ Hx) as [H1 H2]. split; [auto|now apply is_zero_false].
    - cbv beta. intros s H. destruct (H k0 M0) as [_ Hs]. split; [|exact Hs]. split.
      + intros k Mk. apply (H k Mk).
      + intros ->. destruct b as [|x b]; [congruence|].
        destruct (Hb3 x (or_introl eq_refl)) as [H1 H2].
        destruct (oo_nonempty _ _ _ _ _ _ _ (OS k0) x (H1 k0 M0) (is_zero_false _ H2)) as [p Hp].
        specialize (Hs p). simpl in Hs. rewrite Hp in Hs. discriminate.
  Qed.
  Lemma m_inter_succ : forall v lv rv ls rs, gv v -> (forall k, mem v k = mem lv k && mem rv k) -> gs lv ls -> gs rv rs ->
    hm (mo_inter (m_hier VI PF ask) ls rs)
      (fun s => (forall k, mem v k = true -> GS k s) /\ (forall p, contains s p = contains ls p && contains rs p) /\
                agree ls rs).
  Proof.
    intros v lv rv ls rs [Gv Ev] Hv [Hl _] [Hr _]. destruct (oo_nonempty _ _ _ _ _ _ _ OV v Gv Ev) as [k0 M0].
    eapply hm_conseq.
    - apply (hm_all VI Inv Ex _ K _ (fun k => mem v k = true)
               (fun k s => GS k s /\ (forall p, contains s p = contains ls p && contains rs p) /\ agree ls rs)); [eauto|].
      intros k Mk. rewrite Hv in Mk. apply andb_prop in Mk.
      apply (mk_inter (MS k) ls rs); [apply Hl|apply Hr]; apply Mk.
    - cbv beta. intros s H. split; [intros k Mk; apply (H k Mk)|]. exact (proj2 (H k0 M0)).
  Qed.
  Lemma m_diff_succ : forall v lv rv ls rs, gv v -> (forall k, mem v k = mem lv k && mem rv k) -> gs lv ls -> gs rv rs ->
    hm (mo_diff (m_hier VI PF ask) ls rs)
      (fun s => (forall k, mem v k = true -> GS k s) /\ (forall p, contains s p = contains ls p && negb (contains rs p)) /\
                agree ls rs).
  Proof.
    intros v lv rv ls rs [Gv Ev] Hv [Hl _] [Hr _]. destruct (oo_nonempty _ _ _ _ _ _ _ OV v Gv Ev) as [k0 M0].
    eapply hm_conseq.
    - apply (hm_all VI Inv Ex _ K _ (fun k => mem v k = true)
               (fun k s => GS k s /\ (forall p, contains s p = contains ls p && negb (contains rs p)) /\ agree ls rs)); [eauto|].
      intros k Mk. rewrite Hv in Mk. apply andb_prop in Mk.
      apply (mk_diff (MS k) ls rs); [apply Hl|apply Hr]; apply Mk.
    - cbv beta. intros s H. split; [intros k Mk; apply (H k Mk)|]. exact (proj2 (H k0 M0)).
  Qed.

  Lemma m_sum_su_ok : forall res m pairs,
    gm res -> (forall k, cnt res k <= 1) ->
    su_rel m pairs -> gpairs pairs ->
    (forall s v k, In (s, v) pairs -> mem v k = true -> cnt res k = 0) ->
    (forall k1 k2, 1 <= cnt res k1 -> 1 <= cnt res k2 -> ~ clash k1 k2) ->
    (forall s v k1 k2, In (s, v) pairs -> mem v k1 = true -> 1 <= cnt res k2 -> ~ clash k1 k2) ->
    hm (m_sum_su VI PF ask mo res m) (fun m' => exists pairs',
      su_rel m' pairs' /\ gpairs pairs' /\
      (res <> [] -> pairs' <> []) /\
      (forall k p, (exists s v, In (s, v) pairs' /\ mem v k = true /\ contains s p = true) <->
         (exists s v, In (s, v) pairs /\ mem v k = true /\ contains s p = true) \/ mc res k p = true)).
  Proof.
    induction res as [|[v b] r IH]; intros m pairs Gr C HR (G1 & G2 & G3) Hsep F1 F2; cbn [m_sum_su].
    - apply hm_ret. exists pairs. split; [auto|split; [split; auto|split]].
      + congruence.
      + intros k p. rewrite mc_nil. split; [auto|intros [H|H]; [auto|discriminate]].
    - apply gm_cons in Gr. destruct Gr as [[Hv (Hb1 & Hb2 & Hb3)] Gr]. cbn [fst snd] in *.
      eapply hm_bind.
      + apply (m_sum_succ v b); auto. split; auto.
      + intros s [Hs Hs2].
        eapply hm_bind; [apply m_su_add_ok; eauto|].
        intros m' HR'.
        assert (Hv0 : forall k, mem v k = true -> cnt r k = 0).
        { intros k Hk. specialize (C k). rewrite cnt_cons in C. cbn [fst] in C. rewrite Hk in C.
          simpl in C. lia. }
        eapply hm_conseq.
        * apply (IH m' (pairs ++ [(s, v)])); auto.
          -- intros k. specialize (C k). rewrite cnt_cons in C. lia.
          -- split.
             ++ intros s' v' Hin. apply in_app_iff in Hin. destruct Hin as [Hin|[E|[]]]; auto.
                injection E as <- <-; auto.
             ++ split. assert (Hcross : forall s' v', In (s', v') pairs -> disjoint mem v' v).
                { intros s' v' Hin k M1 M2. specialize (Hsep _ _ _ Hin M1).
                  rewrite cnt_cons in Hsep. cbn [fst] in Hsep. rewrite M2 in Hsep. discriminate. }
                intros s1 v1 s2 v2 I1 I2 Hne. apply in_app_iff in I1. apply in_app_iff in I2.
                destruct I1 as [I1|[E1|[]]], I2 as [I2|[E2|[]]].
                ** eapply G2; eauto.
                ** injection E2 as <- <-. eauto.
                ** injection E1 as <- <-. apply disjoint_sym. eauto.
                ** congruence.
                ** intros s1 v1 s2 v2 k1 k2 I1 I2 M1 M2. apply in_app_iff in I1. apply in_app_iff in I2.
                   destruct I1 as [I1|[E1|[]]], I2 as [I2|[E2|[]]].
                   --- apply (G3 s1 v1 s2 v2); auto.
                   --- injection E2 as <- <-. apply (F2 s1 v1); auto. rewrite cnt_cons. cbn [fst]. rewrite M2. simpl; lia.
                   --- injection E1 as <- <-. intros Hc. apply (oo_sym _ _ _ _ _ _ _ OV) in Hc. revert Hc.
                       apply (F2 s2 v2); auto. rewrite cnt_cons. cbn [fst]. rewrite M1. simpl; lia.
                   --- injection E1 as <- <-. injection E2 as <- <-. apply F1; rewrite cnt_cons; cbn [fst];
                         [rewrite M1|rewrite M2]; simpl; lia.
          -- intros s' v' k Hin M. apply in_app_iff in Hin. destruct Hin as [Hin|[E|[]]].
             ++ specialize (Hsep _ _ _ Hin M). rewrite cnt_cons in Hsep. lia.
             ++ injection E as <- <-; auto.
          -- intros k1 k2 H1 H2. apply F1; rewrite cnt_cons; lia.
          -- intros s' v' k1 k2 Hin M H2. apply in_app_iff in Hin. destruct Hin as [Hin|[E|[]]].
             ++ apply (F2 s' v'); auto. rewrite cnt_cons; lia.
             ++ injection E as <- <-. apply F1; rewrite cnt_cons; cbn [fst]; [rewrite M; simpl|]; lia.
        * intros m'' (pairs' & A1 & A2 & A3 & A4). exists pairs'. split; [auto|split; [auto|split]].
          -- intros _ E. subst pairs'.
             assert (Hin : exists k p, mem v k = true /\ contains s p = true).
             { destruct (oo_nonempty _ _ _ _ _ _ _ OV v) as [k Hk]; try apply Hv.
               destruct (gs_nonempty v s Hv Hs) as [p Hp]. eauto. }
             destruct Hin as (k & p & Hk & Hp).
             destruct (proj2 (A4 k p)) as (s' & v' & [] & _).
             left. exists s, v. split; auto. apply in_app_iff; simpl; auto.
          -- intros k p. rewrite A4, mc_cons. cbn [fst snd]. unfold bc. rewrite <- Hs2.
             rewrite orb_true_iff, andb_true_iff. split.
             ++ intros [(s' & v' & Hin & M)|Hm]; [|auto].
                apply in_app_iff in Hin. destruct Hin as [Hin|[E|[]]].
                ** left; eauto.
                ** injection E as <- <-. auto.
             ++ intros [(s' & v' & Hin & M)|[M|Hm]]; [| |auto].
                ** left. exists s', v'. split; auto. apply in_app_iff; auto.
                ** left. exists s, v. split; auto. apply in_app_iff; simpl; auto.
  Qed.

  Lemma m_sum_work_ok : forall mk var head arcs others,
    cast head = Some (var, arcs) -> good_arcs arcs ->
    (forall x, In x others -> hm (m_check VI head x)
       (fun _ => exists arcs, cast x = Some (var, arcs) /\ good_arcs arcs)) ->
    hm (m_sum_work VI PF O ask mo mk cast (head :: others))
      (fun r => node_post mk var (fun k p => existsb (fun x => asel var x k p) (head :: others)) r /\
         forall x, In x (head :: others) -> exists arcs, cast x = Some (var, arcs)).
  Proof.
    intros mk var head arcs0 others Ec Ga Hx. unfold m_sum_work. rewrite Ec.
    eapply hm_bind; [apply (hm_visit VI Inv Ex O OO IT)|]. intros arcs HPa.
    destruct (good_arcs_perm _ _ (Permutation_sym HPa) Ga) as [Ga1 Ga2 Ga3].
    destruct (arcs_entries arcs Ga1) as (I1 & I2 & I3).
    set (m0 := map (fun a => (fst a, sdd_sb_add VI PF (snd a) [])) arcs) in *.
    assert (E : um_insert VI ops m0 [] = m0).
    { apply (save_rep_self m0 I1).
      - intros k. rewrite I2. now apply acnt_le1.
      - intros e e' []. }
    cbv zeta. rewrite E. eapply hm_bind.
    - apply (m_sum_A_ok head var); auto.
      + intros k. rewrite I2. now apply acnt_le1.
      + intros k1 k2. rewrite !I2. intros H1 H2.
        destruct (acnt_in _ _ H1) as (v1 & s1 & J1 & M1). destruct (acnt_in _ _ H2) as (v2 & s2 & J2 & M2).
        apply (Ga3 v1 s1 v2 s2); auto.
    - intros res (A1 & A2 & AF & A3 & A4).
      eapply hm_bind; [apply (hm_visit VI Inv Ex O OO IT)|]. intros todo HP.
      eapply hm_bind.
      + apply (m_sum_su_ok todo [] []).
        * exact (gm_perm _ _ (Permutation_sym HP) A1).
        * intros k. rewrite (cnt_perm _ _ HP). auto.
        * apply su_rel_nil.
        * split; [intros ? ? []|split; [intros ? ? ? ? []|intros ? ? ? ? ? ? []]].
        * intros ? ? ? [].
        * intros k1 k2. rewrite !(cnt_perm _ _ HP). auto.
        * intros ? ? ? ? [].
      + intros m (pairs & B1 & B2 & _ & B4).
        eapply hm_bind; [apply m_su_run_ok; eauto|].
        intros alpha (D1 & D2 & D3). apply hm_ret.
        split; [|intros x [<-|Hin]; eauto].
        exists alpha. split; [auto|split; [auto|]].
        intros k p. apply bool_ext. rewrite D3, B4, (mc_perm _ _ HP), A3, I3.
        simpl existsb. unfold DDGeneric.asel at 2. rewrite Ec, N.eqb_refl, andb_true_l, (acontains_perm _ _ HPa). split.
        * intros [(s & v & [] & _)|H]; auto.
        * auto.
  Qed.

  Lemma m_inter_rhs_ok : forall lhs rhs0 lv ls rhs m pairs,
    gv lv -> gs lv ls -> In (lv, ls) lhs ->
    (forall v s, In (v, s) rhs -> In (v, s) rhs0 /\ gv v /\ gs v s) ->
    su_rel m pairs -> inter_pairs lhs rhs0 pairs ->
    hm (m_inter_rhs VI PF ask mo lv ls rhs m) (fun m' => exists pairs',
      su_rel m' pairs' /\ inter_pairs lhs rhs0 pairs' /\
      (forall s v, In (s, v) pairs -> In (s, v) pairs') /\
      (forall rv rs k p, In (rv, rs) rhs -> mem lv k = true -> mem rv k = true ->
         contains ls p = true -> contains rs p = true ->
         exists s v, In (s, v) pairs' /\ mem v k = true /\ contains s p = true) /\
      (forall rv rs, In (rv, rs) rhs -> arc_agree lv ls rv rs)).
  Proof.
    intros lhs rhs0 lv ls. induction rhs as [|[rv rs] r IH];
      intros m pairs Hlv Hls Hl Hr HR HI; cbn [m_inter_rhs].
    - apply hm_ret. exists pairs. split; [auto|split; [auto|split; [auto|split]]].
      + intros rv rs k p [].
      + intros rv rs [].
    - destruct (Hr rv rs (or_introl eq_refl)) as (Hr0 & Hrv & Hrs).
      assert (Hr' : forall v s, In (v, s) r -> In (v, s) rhs0 /\ gv v /\ gs v s).
      { intros; apply Hr; now right. }
      eapply hm_bind; [apply (mk_inter MV); [apply Hlv|apply Hrv]|].
      intros v (Gv & Hv & Fv). destruct (vempty v) eqn:Ev; cbn [negb].
      { pose proof (oo_empty _ _ _ _ _ _ _ OV v Gv Ev) as He.
        eapply hm_conseq; [apply (IH m pairs); auto|].
        intros m' (pairs' & A1 & A2 & A3 & A4 & A5). exists pairs'.
        split; [auto|split; [auto|split; [auto|split]]].
        - intros rv' rs' k p [E|Hin]; [|eauto]. injection E as <- <-.
          intros M1 M2. specialize (He k). rewrite Hv, M1, M2 in He. discriminate.
        - intros rv' rs' [E|Hin]; [|auto]. injection E as <- <-. split; [exact Fv|].
          intros k M1 M2. specialize (He k). rewrite Hv, M1, M2 in He. discriminate. }
      assert (Gv' : gv v) by (split; auto).
      eapply hm_bind; [apply (m_inter_succ v lv rv); auto|].
      intros s (Gs0 & Hs & As). destruct (is_zero VI s) eqn:Es; cbn [negb].
      { apply is_zero_true in Es. subst s.
        eapply hm_conseq; [apply (IH m pairs); auto|].
        intros m' (pairs' & A1 & A2 & A3 & A4 & A5). exists pairs'.
        split; [auto|split; [auto|split; [auto|split]]].
        - intros rv' rs' k p [E|Hin]; [|eauto]. injection E as <- <-.
          intros _ _ M1 M2. specialize (Hs p). rewrite M1, M2 in Hs. discriminate.
        - intros rv' rs' [E|Hin]; [|auto]. injection E as <- <-. split; auto. }
      assert (Gs' : gs v s).
      { split; auto. intros ->. discriminate. }
      eapply hm_bind; [apply m_su_add_ok; eauto|].
      intros m1 HR1. eapply hm_conseq.
      + apply (IH m1 (pairs ++ [(s, v)])); auto.
        intros s' v' Hin. apply in_app_iff in Hin. destruct Hin as [Hin|[E|[]]]; [now apply HI|].
        injection E as <- <-. split; [auto|split; [auto|]].
        exists lv, ls, rv, rs. auto.
      + intros m' (pairs' & A1 & A2 & A3 & A4 & A5). exists pairs'.
        split; [auto|split; [auto|split; [|split]]].
        * intros; apply A3. apply in_app_iff; auto.
        * intros rv' rs' k p [E|Hin]; [|eauto]. injection E as <- <-.
          intros M1 M2 M3 M4. exists s, v. split; [apply A3, in_app_iff; simpl; auto|].
          rewrite Hv, Hs, M1, M2, M3, M4. auto.
        * intros rv' rs' [E|Hin]; [|auto]. injection E as <- <-. split; auto.
  Qed.

  Lemma m_inter_lhs_ok : forall lhs0 rhs lhs m pairs,
    (forall v s, In (v, s) lhs -> In (v, s) lhs0 /\ gv v /\ gs v s) ->
    (forall v s, In (v, s) rhs -> gv v /\ gs v s) ->
    su_rel m pairs -> inter_pairs lhs0 rhs pairs ->
    hm (m_inter_lhs VI PF O ask mo lhs rhs m) (fun m' => exists pairs',
      su_rel m' pairs' /\ inter_pairs lhs0 rhs pairs' /\
      (forall s v, In (s, v) pairs -> In (s, v) pairs') /\
      (forall lv ls rv rs k p, In (lv, ls) lhs -> In (rv, rs) rhs ->
         mem lv k = true -> mem rv k = true ->
         contains ls p = true -> contains rs p = true ->
         exists s v, In (s, v) pairs' /\ mem v k = true /\ contains s p = true) /\
      arcs_agree lhs rhs).
  Proof.
    intros lhs0 rhs. induction lhs as [|[lv ls] r IH]; intros m pairs Hl Hr HR HI; cbn [m_inter_lhs].
    - apply hm_ret. exists pairs. split; [auto|split; [auto|split; [auto|split]]].
      + intros lv ls rv rs k p [].
      + intros lv ls rv rs [].
    - destruct (Hl lv ls (or_introl eq_refl)) as (Hl0 & Hlv & Hls).
      eapply hm_bind; [apply (hm_visit VI Inv Ex O OO IT)|]. intros rp HPr.
      eapply hm_bind.
      + apply (m_inter_rhs_ok lhs0 rhs lv ls rp m pairs); auto.
        intros v s Hin. pose proof (Permutation_in _ HPr Hin). auto.
      + intros m1 (pairs1 & A1 & A2 & A3 & A4 & A5).
        eapply hm_conseq.
        * apply (IH m1 pairs1); auto. intros; apply Hl; now right.
        * intros m' (pairs' & B1 & B2 & B3 & B4 & B5). exists pairs'.
          split; [auto|split; [auto|split; [auto|split]]].
          2: { intros lv' ls' rv' rs' [E|Hin]; [|now apply B5]. injection E as <- <-.
               intros Hin. apply A5. exact (Permutation_in _ (Permutation_sym HPr) Hin). }
          intros lv' ls' rv' rs' k p [E|Hin]; [|eauto]. injection E as <- <-.
          intros Hin M1 M2 M3 M4.
          destruct (A4 rv' rs' k p (Permutation_in _ (Permutation_sym HPr) Hin) M1 M2 M3 M4) as (s & v & H1 & H2).
          exists s, v. auto.
  Qed.

  Lemma inter_alpha_ok : forall lhs rhs, good_arcs lhs -> good_arcs rhs ->
    hm (mbind VI (visit VI O lhs) (fun l => m_inter_lhs VI PF O ask mo l rhs [])) (fun m => exists pairs,
      su_rel m pairs /\ gpairs pairs /\
      (forall k p, (exists s v, In (s, v) pairs /\ mem v k = true /\ contains s p = true) <->
         acontains VI mem lhs k p && acontains VI mem rhs k p = true) /\
      arcs_agree lhs rhs).
  Proof.
    intros lhs rhs [GL DL FL] [GR DR FR]. eapply hm_bind; [apply (hm_visit VI Inv Ex O OO IT)|]. intros lp HPl. eapply hm_conseq.
    - apply (m_inter_lhs_ok lhs rhs lp [] []); auto.
      + intros v s Hin. pose proof (Permutation_in _ HPl Hin). auto.
      + apply su_rel_nil.
      + intros s v [].
    - intros m (pairs & A1 & A2 & _ & A4 & A5). exists pairs.
      split; [auto|split; [|split; [|intros lv ls rv rs Hin; apply A5; exact (Permutation_in _ (Permutation_sym HPl) Hin)]]].
      + apply (inter_pairs_gpairs lhs rhs); auto.
      + intros k p. rewrite andb_true_iff, !acontains_spec. split.
        * intros (s & v & Hin & M & C).
          destruct (A2 _ _ Hin) as (_ & _ & lv & ls & rv & rs & L & R & Hv & Hs).
          rewrite Hv in M. rewrite Hs in C. apply andb_prop in M. apply andb_prop in C.
          split; [exists lv, ls|exists rv, rs]; intuition.
        * intros [(lv & ls & L & M1 & C1) (rv & rs & R & M2 & C2)].
          exact (A4 lv ls rv rs k p (Permutation_in _ (Permutation_sym HPl) L) R M1 M2 C1 C2).
  Qed.

  Lemma m_inter_operands_ok : forall mk var,
    (forall arcs, cast (mk var arcs) = Some (var, arcs)) ->
    forall operands res larcs,
    cast res = Some (var, larcs) -> good_arcs larcs -> larcs <> [] ->
    node_post mk var (fun k p => acontains VI mem larcs k p) res ->
    (forall x r arcs, In x operands -> cast r = Some (var, arcs) -> r <> Zero ->
       node_post mk var (fun k p => acontains VI mem arcs k p) r ->
       hm (m_check VI r x)
         (fun _ => exists arcs, cast x = Some (var, arcs) /\ good_arcs arcs)) ->
    (forall arcs, mk var arcs <> Zero) -> res <> Zero ->
    hm (m_inter_operands VI PF O ask mo mk cast var res operands)
      (fun r => node_post mk var (fun k p => acontains VI mem larcs k p &&
                           forallb (fun x => asel var x k p) operands) r /\
         match operands with
         | [] => True
         | x :: _ => exists rarcs, cast x = Some (var, rarcs) /\ arcs_agree larcs rarcs
         end).
  Proof.
    intros mk var Hmk. induction operands as [|x r IH]; intros res larcs Ec Gl Hne Hnp Hx Hmz Hrz;
      cbn [m_inter_operands].
    - apply hm_ret. split; [|exact I]. destruct Hnp as (alpha & A1 & A2 & A3). exists alpha.
      split; [auto|split; [auto|]]. intros k p. simpl. now rewrite A3, andb_true_r.
    - eapply hm_bind; [eapply Hx; eauto; now left|].
      intros _ (rarcs & Er & Gr). rewrite Ec, Er.
      apply (hm_assoc VI Inv Ex). eapply hm_bind; [apply (inter_alpha_ok larcs rarcs); auto|].
      intros m (pairs & B1 & B2 & B3 & B4).
      assert (HD : forall k p, asel var x k p = acontains VI mem rarcs k p).
      { intros k p. unfold DDGeneric.asel. now rewrite Er, N.eqb_refl. }
      destruct m as [|e m].
      + apply hm_ret. split; [|eauto]. exists []. split; [|split; [reflexivity|]].
        * split; [constructor|intros ? ? []|constructor|intros ? ? ? ? ? ? []].
        * apply mm_rel_empty in B1. subst pairs. intros k p. simpl forallb. rewrite HD.
          specialize (B3 k p). simpl.
          destruct (acontains VI mem larcs k p); [|reflexivity].
          destruct (acontains VI mem rarcs k p); [|reflexivity].
          exfalso. destruct (proj2 B3 eq_refl) as (s & v & [] & _).
      + eapply hm_bind; [apply m_su_run_ok; eauto|].
        intros alpha (D1 & D2 & D3).
        assert (Hna : alpha <> []).
        { intros E. apply D2 in E. subst pairs. apply mm_rel_nonempty in B1. discriminate. }
        assert (Hcn : create_node VI mk var alpha = mk var (map swap alpha)).
        { destruct alpha; [congruence|reflexivity]. }
        eapply hm_conseq.
        * apply (IH _ (map swap alpha)).
          -- rewrite Hcn. apply Hmk.
          -- now apply good_alpha_arcs.
          -- destruct alpha; [congruence|discriminate].
          -- exists alpha. auto.
          -- intros y r' arcs Hy. apply Hx. now right.
          -- exact Hmz.
          -- rewrite Hcn. apply Hmz.
        * intros res' [(alpha' & E1 & E2 & E3) _]. split; [|eauto]. exists alpha'. split; [auto|split; [auto|]].
          intros k p. rewrite E3. simpl forallb. rewrite HD, andb_assoc. f_equal.
          apply bool_ext. now rewrite D3, B3.
  Qed.

  Lemma m_diff_pass1_ok : forall lhs0 rhs runion lhs m pairs,
    GV runion -> (forall k, mem runion k = existsb (fun a => mem (fst a) k) rhs) ->
    (forall v s, In (v, s) lhs -> In (v, s) lhs0 /\ gv v /\ gs v s) ->
    su_rel m pairs -> diff_pairs lhs0 rhs pairs ->
    hm (m_diff_pass1 VI PF  mo runion lhs m) (fun m' => exists pairs',
      su_rel m' pairs' /\ diff_pairs lhs0 rhs pairs' /\
      (forall s v, In (s, v) pairs -> In (s, v) pairs') /\
      (forall lv ls k, In (lv, ls) lhs -> mem lv k = true ->
         existsb (fun a => mem (fst a) k) rhs = false ->
         exists v, In (ls, v) pairs' /\ mem v k = true)).
  Proof.
    intros lhs0 rhs runion. induction lhs as [|[lv ls] r IH];
      intros m pairs GU HU Hl HR HI; cbn [m_diff_pass1].
    - apply hm_ret. exists pairs. split; [auto|split; [auto|split; [auto|]]]. intros ? ? ? [].
    - destruct (Hl lv ls (or_introl eq_refl)) as (Hl0 & Hlv & Hls).
      assert (Hl' : forall v s, In (v, s) r -> In (v, s) lhs0 /\ gv v /\ gs v s).
      { intros; apply Hl; now right. }
      eapply hm_bind; [apply (mk_diff MV); [apply Hlv|auto]|].
      intros v (Gv & Hv & _). destruct (vempty v) eqn:Ev; cbn [negb].
      { pose proof (oo_empty _ _ _ _ _ _ _ OV v Gv Ev) as He.
        eapply hm_conseq; [apply (IH m pairs); auto|].
        intros m' (pairs' & A1 & A2 & A3 & A4). exists pairs'.
        split; [auto|split; [auto|split; [auto|]]].
        intros lv' ls' k [E|Hin]; [|eauto]. injection E as <- <-.
        intros M1 M2. specialize (He k). rewrite Hv, HU, M1, M2 in He. discriminate. }
      assert (Gv' : gv v) by (split; auto).
      assert (Gs' : gs v ls).
      { apply (gs_sub lv); auto. intros k Mk. rewrite Hv in Mk. now apply andb_prop in Mk. }
      eapply hm_bind; [apply m_su_add_ok; eauto|].
      intros m1 HR1. eapply hm_conseq.
      + apply (IH m1 (pairs ++ [(ls, v)])); auto.
        intros s' v' Hin. apply in_app_iff in Hin. destruct Hin as [Hin|[E|[]]]; [now apply HI|].
        injection E as <- <-. split; [auto|split; [auto|]].
        exists lv, ls. split; auto. left; split; auto. intros k. now rewrite Hv, HU.
      + intros m' (pairs' & A1 & A2 & A3 & A4). exists pairs'.
        split; [auto|split; [auto|split]].
        * intros; apply A3. apply in_app_iff; auto.
        * intros lv' ls' k [E|Hin]; [|eauto]. injection E as <- <-.
          intros M1 M2. exists v. split; [apply A3, in_app_iff; simpl; auto|].
          now rewrite Hv, HU, M1, M2.
  Qed.

  Lemma m_diff_rhs_ok : forall lhs rhs0 lv ls rhs m pairs,
    gv lv -> gs lv ls -> In (lv, ls) lhs ->
    (forall v s, In (v, s) rhs -> In (v, s) rhs0 /\ gv v /\ gs v s) ->
    su_rel m pairs -> diff_pairs lhs rhs0 pairs ->
    hm (m_diff_rhs VI PF ask mo lv ls rhs m) (fun m' => exists pairs',
      su_rel m' pairs' /\ diff_pairs lhs rhs0 pairs' /\
      (forall s v, In (s, v) pairs -> In (s, v) pairs') /\
      (forall rv rs k p, In (rv, rs) rhs -> mem lv k = true -> mem rv k = true ->
         contains ls p = true -> contains rs p = false ->
         exists s v, In (s, v) pairs' /\ mem v k = true /\ contains s p = true) /\
      (forall rv rs, In (rv, rs) rhs -> arc_agree lv ls rv rs)).
  Proof.
    intros lhs rhs0 lv ls. induction rhs as [|[rv rs] r IH];
      intros m pairs Hlv Hls Hl Hr HR HI; cbn [m_diff_rhs].
    - apply hm_ret. exists pairs. split; [auto|split; [auto|split; [auto|split]]].
      + intros rv rs k p [].
      + intros rv rs [].
    - destruct (Hr rv rs (or_introl eq_refl)) as (Hr0 & Hrv & Hrs).
      assert (Hr' : forall v s, In (v, s) r -> In (v, s) rhs0 /\ gv v /\ gs v s).
      { intros; apply Hr; now right. }
      eapply hm_bind; [apply (mk_inter MV); [apply Hlv|apply Hrv]|].
      intros v (Gv & Hv & Fv). destruct (vempty v) eqn:Ev; cbn [negb].
      { pose proof (oo_empty _ _ _ _ _ _ _ OV v Gv Ev) as He.
        eapply hm_conseq; [apply (IH m pairs); auto|].
        intros m' (pairs' & A1 & A2 & A3 & A4 & A5). exists pairs'.
        split; [auto|split; [auto|split; [auto|split]]].
        - intros rv' rs' k p [E|Hin]; [|eauto]. injection E as <- <-.
          intros M1 M2. specialize (He k). rewrite Hv, M1, M2 in He. discriminate.
        - intros rv' rs' [E|Hin]; [|auto]. injection E as <- <-. split; [exact Fv|].
          intros k M1 M2. specialize (He k). rewrite Hv, M1, M2 in He. discriminate. }
      assert (Gv' : gv v) by (split; auto).
      eapply hm_bind; [apply (m_diff_succ v lv rv ls rs); auto|].
      intros s (Gs0 & Hs & As). destruct (is_zero VI s) eqn:Es; cbn [negb].
      { apply is_zero_true in Es. subst s.
        eapply hm_conseq; [apply (IH m pairs); auto|].
        intros m' (pairs' & A1 & A2 & A3 & A4 & A5). exists pairs'.
        split; [auto|split; [auto|split; [auto|split]]].
        - intros rv' rs' k p [E|Hin]; [|eauto]. injection E as <- <-.
          intros _ _ M1 M2. specialize (Hs p). rewrite M1, M2 in Hs. discriminate.
        - intros rv' rs' [E|Hin]; [|auto]. injection E as <- <-. split; auto. }
      assert (Gs' : gs v s).
      { split; auto. intros ->. discriminate. }
      eapply hm_bind; [apply m_su_add_ok; eauto|].
      intros m1 HR1. eapply hm_conseq.
      + apply (IH m1 (pairs ++ [(s, v)])); auto.
        intros s' v' Hin. apply in_app_iff in Hin. destruct Hin as [Hin|[E|[]]]; [now apply HI|].
        injection E as <- <-. split; [auto|split; [auto|]].
        exists lv, ls. split; auto. right. exists rv, rs. auto.
      + intros m' (pairs' & A1 & A2 & A3 & A4 & A5). exists pairs'.
        split; [auto|split; [auto|split; [|split]]].
        * intros; apply A3. apply in_app_iff; auto.
        * intros rv' rs' k p [E|Hin]; [|eauto]. injection E as <- <-.
          intros M1 M2 M3 M4. exists s, v. split; [apply A3, in_app_iff; simpl; auto|].
          rewrite Hv, Hs, M1, M2, M3, M4. auto.
        * intros rv' rs' [E|Hin]; [|auto]. injection E as <- <-. split; auto.
  Qed.

  Lemma m_diff_pass2_ok : forall lhs0 rhs lhs m pairs,
    (forall v s, In (v, s) lhs -> In (v, s) lhs0 /\ gv v /\ gs v s) ->
    (forall v s, In (v, s) rhs -> gv v /\ gs v s) ->
    su_rel m pairs -> diff_pairs lhs0 rhs pairs ->
    hm (m_diff_pass2 VI PF O ask mo lhs rhs m) (fun m' => exists pairs',
      su_rel m' pairs' /\ diff_pairs lhs0 rhs pairs' /\
      (forall s v, In (s, v) pairs -> In (s, v) pairs') /\
      (forall lv ls rv rs k p, In (lv, ls) lhs -> In (rv, rs) rhs ->
         mem lv k = true -> mem rv k = true ->
         contains ls p = true -> contains rs p = false ->
         exists s v, In (s, v) pairs' /\ mem v k = true /\ contains s p = true) /\
      arcs_agree lhs rhs).
  Proof.
    intros lhs0 rhs. induction lhs as [|[lv ls] r IH]; intros m pairs Hl Hr HR HI; cbn [m_diff_pass2].
    - apply hm_ret. exists pairs. split; [auto|split; [auto|split; [auto|split]]].
      + intros lv ls rv rs k p [].
      + intros lv ls rv rs [].
    - destruct (Hl lv ls (or_introl eq_refl)) as (Hl0 & Hlv & Hls).
      eapply hm_bind; [apply (hm_visit VI Inv Ex O OO IT)|]. intros rp HPr.
      eapply hm_bind.
      + apply (m_diff_rhs_ok lhs0 rhs lv ls rp m pairs); auto.
        intros v s Hin. pose proof (Permutation_in _ HPr Hin). auto.
      + intros m1 (pairs1 & A1 & A2 & A3 & A4 & A5).
        eapply hm_conseq.
        * apply (IH m1 pairs1); auto. intros; apply Hl; now right.
        * intros m' (pairs' & B1 & B2 & B3 & B4 & B5). exists pairs'.
          split; [auto|split; [auto|split; [auto|split]]].
          2: { intros lv' ls' rv' rs' [E|Hin]; [|now apply B5]. injection E as <- <-.
               intros Hin. apply A5. exact (Permutation_in _ (Permutation_sym HPr) Hin). }
          intros lv' ls' rv' rs' k p [E|Hin]; [|eauto]. injection E as <- <-.
          intros Hin M1 M2 M3 M4.
          destruct (A4 rv' rs' k p (Permutation_in _ (Permutation_sym HPr) Hin) M1 M2 M3 M4) as (s & v & H1 & H2).
          exists s, v. auto.
  Qed.


  (** Difference of two alphas. *)
  Lemma m_diff_work_ok : forall mk x lhs rhs lorig rorig, good_arcs lhs -> good_arcs rhs ->
    hm (m_diff_work VI PF O ask mo mk x x lhs rhs lorig rorig)
      (fun r => node_post mk x (fun k p => acontains VI mem lhs k p && negb (acontains VI mem rhs k p)) r /\
         arcs_agree lhs rhs).
  Proof.
    intros mk x lhs rhs lorig rorig [GL DL FL] [GR DR FR]. unfold m_diff_work. rewrite N.eqb_refl. cbn [negb].
    eapply hm_bind; [apply (hm_visit VI Inv Ex O OO IT)|]. intros rp HPr.
    destruct (valuations_builder rp []) as (B1 & B2 & B3).
    { intros v s Hin. now destruct (GR v s (Permutation_in _ HPr Hin)). }
    { constructor. }
    { intros y []. }
    eapply hm_bind; [apply (mk_sum MV); auto|].
    intros U [GU HU0].
    assert (HU : forall k, mem U k = existsb (fun a => mem (fst a) k) rhs).
    { intros k. rewrite HU0. apply bool_ext. rewrite !existsb_exists. split.
      - intros (y & Hin & Hy). apply B3 in Hin. destruct Hin as [[]|(s & Hin)]. exists (y, s). split; auto.
        exact (Permutation_in _ HPr Hin).
      - intros ([v s] & Hin & Hy). exists v; split; auto. apply B3. right. exists s.
        exact (Permutation_in _ (Permutation_sym HPr) Hin). }
    assert (Hsub : forall l, Permutation l lhs -> forall v s, In (v, s) l -> In (v, s) lhs /\ gv v /\ gs v s).
    { intros l HP v s Hin. pose proof (Permutation_in _ HP Hin). auto. }
    eapply hm_bind; [apply (hm_visit VI Inv Ex O OO IT)|]. intros l1 HP1.
    eapply hm_bind.
    { apply (m_diff_pass1_ok lhs rhs U l1 [] []); auto.
      - intros v s Hin. exact (Hsub l1 HP1 v s Hin).
      - apply su_rel_nil.
      - intros s v []. }
    intros m1 (pairs1 & A1 & A2 & _ & A4).
    eapply hm_bind; [apply (hm_visit VI Inv Ex O OO IT)|]. intros l2 HP2.
    eapply hm_bind; [apply (m_diff_pass2_ok lhs rhs l2 m1 pairs1); auto; intros v s Hin; exact (Hsub l2 HP2 v s Hin)|].
    intros m (pairs & D1 & D2 & D3 & D4 & D5p).
    assert (D5 : arcs_agree lhs rhs).
    { intros lv ls rv rs Hin. apply D5p. exact (Permutation_in _ (Permutation_sym HP2) Hin). }
    assert (HG : gpairs pairs) by (apply (diff_pairs_gpairs lhs rhs); auto).
    assert (HS : forall k p, (exists s v, In (s, v) pairs /\ mem v k = true /\ contains s p = true) <->
         acontains VI mem lhs k p && negb (acontains VI mem rhs k p) = true).
    { intros k p. rewrite andb_true_iff, negb_true_iff, acontains_spec. split.
      * intros (s & v & Hin & M & C).
        destruct (D2 _ _ Hin) as (_ & _ & lv & ls & L & [[-> Hv]|(rv & rs & R & Hv & Hs)]).
        -- rewrite Hv in M. apply andb_prop in M. destruct M as [M1 M2].
           apply negb_true_iff in M2. split; [eauto|].
           apply acontains_out. intros rv rs R.
           destruct (mem rv k) eqn:E; auto.
           assert (existsb (fun a => mem (fst a) k) rhs = true); [|congruence].
           apply existsb_exists. exists (rv, rs); auto.
        -- rewrite Hv in M. rewrite Hs in C. apply andb_prop in M. apply andb_prop in C.
           destruct M as [M1 M2]. destruct C as [C1 C2]. apply negb_true_iff in C2.
           split; [eauto|]. rewrite (acontains_residual VI mem rhs DR rv rs k R M2). auto.
      * intros [(lv & ls & L & M1 & C1) Hno].
        destruct (existsb (fun a => mem (fst a) k) rhs) eqn:E.
        -- apply existsb_exists in E. destruct E as ([rv rs] & R & M2). simpl in M2.
           rewrite (acontains_residual VI mem rhs DR rv rs k R M2) in Hno.
           exact (D4 lv ls rv rs k p (Permutation_in _ (Permutation_sym HP2) L) R M1 M2 C1 Hno).
        -- destruct (A4 lv ls k (Permutation_in _ (Permutation_sym HP1) L) M1 E) as (v & Hin & M). exists ls, v. auto. }
    destruct m as [|e m].
    - apply hm_ret. split; [|auto]. exists []. split; [|split; [reflexivity|]].
      + split; [constructor|intros ? ? []|constructor|intros ? ? ? ? ? ? []].
      + apply mm_rel_empty in D1. subst pairs. intros k p. specialize (HS k p). simpl.
        destruct (acontains VI mem lhs k p && negb (acontains VI mem rhs k p)); auto.
        exfalso. destruct (proj2 HS eq_refl) as (s & v & [] & _).
    - eapply hm_bind; [apply m_su_run_ok; eauto|].
      intros alpha (E1 & E2 & E3). apply hm_ret. split; [|auto]. exists alpha. split; [auto|split; [auto|]].
      intros k p. apply bool_ext. now rewrite E3, HS.
  Qed.
End Loops.

Section Fast.
  Variable VI : values_impl.
  Hypothesis VL : values_laws VI.
  Hypothesis FAST : v_fast VI = true.
  Variable PF : platform VI.
  Hypothesis PO : platform_ok PF.
  Variable O : oracle.
  Hypothesis OO : oracle_ok O.
  Variables DC HC : Type.
  Variable Inv : memory DC HC -> Prop.
  Hypothesis IT : forall s, Inv s -> Inv (tick s).
  Notation V := (vt VI).
  Notation sdd := (sdd V).
  Notation lt := (addr_lt PF).
  Variable ask : ddop V -> M VI DC HC sdd.
  Variable h : ddop V -> res (err V) sdd.
  Variable Ex : err V -> Prop.
  Variable GS : elt VI -> sdd -> Prop.
  Notation GV := (fun _ : V => True).
  Notation noclash := (fun _ _ : elt VI => False).
  Hypothesis OS : forall k, ops_ok VI h Ex contains aclash (hier_ops VI PF) (GS k).
  Hypothesis MS : forall k, mops_ok VI Inv Ex contains aclash (m_hier VI PF ask) (GS k).

  Notation hm := (hm VI Inv Ex).
  Notation hm_ret := (hm_ret VI Inv Ex).
  Notation gsk := (gsk VI GS).
  Notation good_arcs := (good_arcs VI (v_mem VI) noclash (flat_ops VI PF) GV GS).
  Notation mmE := (mm_rel (e_lt VI) lt).
  Notation mmS := (mm_rel lt (e_lt VI)).
  Notation asel := (asel VI (v_mem VI) (cast_flat VI)).
  Notation fast_add_arcs_ok := (fast_add_arcs_ok VI VL PF PO).

  Lemma m_fast_operands_ok : forall begin var operands m L,
    (forall x, In x operands -> hm (m_check VI begin x)
       (fun _ => exists arcs, cast_flat VI x = Some (var, arcs) /\ good_arcs arcs)) ->
    mmE m L -> (forall e t, In (e, t) L -> gsk e t) ->
    hm (m_fast_operands VI PF O begin operands m) (fun m' => exists L', mmE m' L' /\
      (forall e t, In (e, t) L' -> gsk e t) /\
      (forall e p, (exists t, In (e, t) L' /\ contains t p = true) <->
         (exists t, In (e, t) L /\ contains t p = true) \/
         existsb (fun x => asel var x e p) operands = true) /\
      (forall x, In x operands -> exists arcs, cast_flat VI x = Some (var, arcs))).
  Proof.
    intros begin var. induction operands as [|x r IH]; intros m L Hx HR HL; cbn [m_fast_operands].
    - apply hm_ret. exists L. split; [auto|split; [auto|split]].
      + intros e p. simpl. split; [auto|intros [H|H]; [auto|discriminate]].
      + intros x [].
    - eapply hm_bind; [apply Hx; now left|].
      intros _ (arcs & Ec & Ga). rewrite Ec.
      eapply hm_bind; [apply (hm_visit VI Inv Ex O OO IT)|]. intros ap HPa.
      destruct (fast_add_arcs_ok ap m L) as (L1 & H1 & H2p); auto.
      { intros v s Hin. destruct Ga as [Ga _ _]. now destruct (Ga v s (Permutation_in _ HPa Hin)) as [_ [_ ?]]. }
      assert (H2 : forall e t, In (e, t) L1 <-> In (e, t) L \/ (exists v, In (v, t) arcs /\ v_mem VI v e = true)).
      { intros e t. rewrite H2p. split; intros [H|(v & Hin & H)]; auto; right; exists v; split; auto.
        - exact (Permutation_in _ HPa Hin).
        - exact (Permutation_in _ (Permutation_sym HPa) Hin). }
      eapply hm_conseq.
      + apply (IH _ L1); auto.
        * intros y Hy. apply Hx. now right.
        * intros e t Hin. apply H2 in Hin. destruct Hin as [Hin|(v & Hin & Mv)]; eauto.
          destruct Ga as [Ga _ _]. destruct (Ga _ _ Hin) as [_ [Hs Hz]]. split; auto.
      + intros m' (L' & A1 & A2 & A3 & A4). exists L'. split; [auto|split; [auto|split]].
        * intros e p. rewrite A3. simpl existsb. unfold DDGeneric.asel at 2.
          rewrite Ec, N.eqb_refl, andb_true_l, orb_true_iff, acontains_spec. split.
          -- intros [(t & Hin & C)|H]; auto.
             apply H2 in Hin. destruct Hin as [Hin|(v & Hin & M)]; eauto.
             right; left. eauto.
          -- intros [(t & Hin & C)|[(v & s & Hin & M & C)|H]]; auto.
             ++ left. exists t. split; auto. apply H2; auto.
             ++ left. exists s. split; auto. apply H2; eauto.
        * intros y [<-|Hy]; eauto.
  Qed.

  Lemma m_fast_succs_ok : forall m acc A,
    NoDup (map fst m) ->
    (forall e b, In (e, b) m -> b <> [] /\ ssorted lt b /\ forall s, In s b -> gsk e s) ->
    mmS acc A ->
    (forall s e, In (s, e) A -> gsk e s) ->
    (forall s1 s2 e, In (s1, e) A -> In (s2, e) A -> s1 = s2) ->
    (forall s e, In (s, e) A -> ~ In e (map fst m)) ->
    hm (m_fast_succs VI PF ask m acc) (fun acc' => exists A', mmS acc' A' /\
      (forall s e, In (s, e) A' -> gsk e s) /\
      (forall s1 s2 e, In (s1, e) A' -> In (s2, e) A' -> s1 = s2) /\
      (forall e p, (exists s, In (s, e) A' /\ contains s p = true) <->
         (exists s, In (s, e) A /\ contains s p = true) \/
         (exists b, In (e, b) m /\ existsb (fun s => contains s p) b = true))).
  Proof.
    induction m as [|[e b] r IH]; intros acc A HN Hm HR HG HF Hsep; cbn [m_fast_succs].
    - apply hm_ret. exists A. split; [auto|split; [auto|split; [auto|]]].
      intros e p. split; [auto|intros [H|(b & [] & _)]; auto].
    - inversion HN as [|? ? Hn1 Hn2]; subst.
      destruct (Hm e b (or_introl eq_refl)) as (Hb1 & Hb2 & Hb3).
      eapply hm_bind.
      + apply (mk_sum (MS e) b); auto.
        intros x Hx. destruct (Hb3 _ Hx) as [H1 H2]. split; auto. now apply is_zero_false.
      + intros s [Hs1 Hs2]. simpl in Hs2.
        assert (Hs : gsk e s).
        { split; auto. intros ->. destruct b as [|x b]; [congruence|].
          destruct (Hb3 x (or_introl eq_refl)) as [H1 H2].
          destruct (oo_nonempty _ _ _ _ _ _ _ (OS e) x H1 (is_zero_false _ _ H2)) as [p Hp].
          specialize (Hs2 p). simpl in Hs2. rewrite Hp in Hs2. discriminate. }
        pose proof (mm_add_rel lt (e_lt VI) (pf_lt PO) (vl_elt VL) acc A s e HR) as HR'.
        eapply hm_conseq.
        * apply (IH _ (A ++ [(s, e)])); auto.
          -- intros e' b' Hin. apply (Hm e' b'). now right.
          -- intros s' e' Hin. apply in_app_iff in Hin. destruct Hin as [Hin|[E|[]]]; eauto.
             injection E as <- <-; auto.
          -- intros s1 s2 e' I1 I2. apply in_app_iff in I1. apply in_app_iff in I2.
             destruct I1 as [I1|[E1|[]]], I2 as [I2|[E2|[]]].
             ++ eauto.
             ++ injection E2 as <- <-. exfalso. apply (Hsep _ _ I1). now left.
             ++ injection E1 as <- <-. exfalso. apply (Hsep _ _ I2). now left.
             ++ congruence.
          -- intros s' e' Hin. apply in_app_iff in Hin. destruct Hin as [Hin|[E|[]]].
             ++ intros Hr. apply (Hsep _ _ Hin). now right.
             ++ injection E as <- <-; auto.
        * intros acc' (A' & B1 & B2 & B3 & B4). exists A'.
          split; [auto|split; [auto|split; [auto|]]].
          intros e' p. rewrite B4. split.
          -- intros [(s' & Hin & C)|(b' & Hin & C)].
             ++ apply in_app_iff in Hin. destruct Hin as [Hin|[E|[]]]; eauto.
                injection E as <- <-. right. exists b. split; [now left|]. now rewrite <- Hs2.
             ++ right. exists b'. split; [now right|auto].
          -- intros [(s' & Hin & C)|(b' & [E|Hin] & C)].
             ++ left. exists s'. split; auto. apply in_app_iff; auto.
             ++ injection E as <- <-. left. exists s. split; [apply in_app_iff; simpl; auto|].
                now rewrite Hs2.
             ++ right; eauto.
  Qed.

  Lemma fast_alpha_perm : forall acc accp A, Permutation acc accp -> mmS acc A ->
    (forall s e, In (s, e) A -> gsk e s) ->
    (forall s1 s2 e, In (s1, e) A -> In (s2, e) A -> s1 = s2) ->
    let alpha := fold_left (fun alpha e => alpha_add VI PF (v_build VI (snd e)) (fst e) alpha) accp [] in
    good_alpha VI PF (v_mem VI) noclash (flat_ops VI PF) GV GS alpha /\
    forall k p, acontains VI (v_mem VI) (map swap alpha) k p = true <->
      exists s, In (s, k) A /\ contains s p = true.
  Proof.
    intros acc accp A HP (H1 & H2 & H3) HG HF alpha.
    pose proof (pf_lt PO) as ST.
    assert (Hgen : forall l (al : list (sdd * V)), NoDup (map fst l) -> ksorted lt al ->
              (forall s v, In (s, v) al -> ~ In s (map fst l)) ->
              let al' := fold_left (fun alpha e => alpha_add VI PF (v_build VI (snd e)) (fst e) alpha) l al in
              ksorted lt al' /\
              forall s v, In (s, v) al' <-> In (s, v) al \/
                exists b, In (s, b) l /\ v = v_build VI b).
    { induction l as [|[s b] r IH]; intros al HN Hk Hf; cbn [fold_left fst snd].
      - split; auto. intros s v; split; [auto|intros [H|(b & [] & _)]; auto].
      - inversion HN as [|? ? Hn1 Hn2]; subst.
        assert (Hadd : forall s' v', In (s', v') (alpha_add VI PF (v_build VI b) s al) <->
                  In (s', v') al \/ (s', v') = (s, v_build VI b)).
        { intros s' v'. unfold alpha_add, fm_emplace. rewrite (fm_upd_in lt ST) by auto. split.
          - intros [[_ Hin]|[-> [(b' & Hin & ->)|[_ ->]]]]; auto.
          - intros [Hin|E].
            + left; split; auto. intros ->. apply (Hf _ _ Hin). now left.
            + injection E as -> ->. right; split; auto. right; split; auto.
              intros v Hin. apply (Hf _ _ Hin). now left. }
        destruct (IH (alpha_add VI PF (v_build VI b) s al)) as (I1 & I2); auto.
        + apply fm_upd_sorted; auto.
        + intros s' v' Hin. apply Hadd in Hin. destruct Hin as [Hin|E].
          * intros Hr. apply (Hf _ _ Hin). now right.
          * injection E as -> ->. auto.
        + split; auto. intros s' v'. rewrite I2, Hadd. split.
          * intros [[H|E]|(b' & H & ->)]; auto.
            -- injection E as -> ->. right. exists b. split; [now left|auto].
            -- right. exists b'. split; [now right|auto].
          * intros [H|(b' & [E|H] & ->)]; auto.
            -- injection E as <- <-. auto.
            -- right; eauto. }
    destruct (Hgen accp []) as (G1 & G2).
    { eapply Permutation_NoDup; [apply Permutation_map, HP|]. apply (ksorted_nodup lt ST); auto. }
    { constructor. }
    { intros s v []. }
    fold alpha in G1, G2.
    assert (Hin : forall s v, In (s, v) alpha <-> exists b, In (s, b) acc /\ v = v_build VI b).
    { intros s v. rewrite G2. split.
      - intros [[]|(b & Hb & E)]. exists b. split; auto. exact (Permutation_in _ (Permutation_sym HP) Hb).
      - intros (b & Hb & E). right. exists b. split; auto. exact (Permutation_in _ HP Hb). }
    assert (Hmem : forall s b, In (s, b) acc -> forall k, v_mem VI (v_build VI b) k = true <-> In (s, k) A).
    { intros s b Hb k. destruct (H2 _ _ Hb) as [_ Hs]. rewrite (vl_build VL FAST) by auto.
      rewrite <- H3. split; [eauto|].
      intros (b' & Hb' & Hk). rewrite (ksorted_fun lt ST acc H1 s b b'); auto. }
    clear G2. split.
    - split; auto.
      + intros s v Ha. apply Hin in Ha. destruct Ha as (b & Hb & ->).
        destruct b as [|e b]; [destruct (H2 _ _ Hb); congruence|].
        assert (He : In (s, e) A) by (apply H3; exists (e :: b); simpl; auto).
        split; [split|split; [auto|]].
        * intros k Mk. apply (Hmem _ _ Hb) in Mk. apply (HG _ _ Mk).
        * apply (HG _ _ He).
        * simpl. destruct (v_empty VI (v_build VI (e :: b))) eqn:E; auto.
        apply (vl_empty VL) with (x := e) in E. apply (Hmem _ _ Hb) in He. congruence.
      + apply (fop_map_swap VI (v_mem VI)); [|apply (ksorted_nodup lt ST); auto].
        intros s1 v1 s2 v2 I1 I2 Hne k M1 M2. apply Hne.
        apply Hin in I1. apply Hin in I2. destruct I1 as (b1 & I1 & ->). destruct I2 as (b2 & I2 & ->).
        apply (Hmem _ _ I1) in M1. apply (Hmem _ _ I2) in M2. eauto.
    - intros k p. rewrite acontains_spec. split.
      + intros (v & s & Ha & M & C). apply in_map_iff in Ha. destruct Ha as ([s0 v0] & E & Ha).
        injection E as -> ->. apply Hin in Ha. destruct Ha as (b & Hb & ->).
        exists s. split; auto. now apply (Hmem _ _ Hb).
      + intros (s & Ha & C). assert (Ha' := Ha). apply H3 in Ha'. destruct Ha' as (b & Hb & Hk).
        exists (v_build VI b), s. split; [|split; auto].
        * apply in_map_iff. exists (s, v_build VI b). split; auto. apply Hin. eauto.
        * now apply (Hmem _ _ Hb).
  Qed.

  Lemma m_sum_work_fast_ok : forall var head arcs others,
    cast_flat VI head = Some (var, arcs) ->
    (forall x, In x (head :: others) -> hm (m_check VI head x)
       (fun _ => exists arcs, cast_flat VI x = Some (var, arcs) /\ good_arcs arcs)) ->
    hm (m_sum_work_fast VI PF O ask (head :: others))
      (fun r => node_post VI PF (v_mem VI) noclash (flat_ops VI PF) GV GS Flat var
           (fun k p => existsb (fun x => asel var x k p) (head :: others)) r /\
         forall x, In x (head :: others) -> exists arcs, cast_flat VI x = Some (var, arcs)).
  Proof.
    intros var head arcs others Ec Hx. unfold m_sum_work_fast. rewrite Ec.
    eapply hm_bind.
    - apply (m_fast_operands_ok head var (head :: others) [] []); auto.
      + apply mm_rel_nil.
      + intros e t [].
    - intros m (L & A1 & A2 & A3 & A4).
      eapply hm_bind.
      + apply (m_fast_succs_ok m [] []).
        * apply (ksorted_nodup _ (vl_elt VL)). apply A1.
        * intros e b Hin. destruct A1 as (_ & B1 & B2). destruct (B1 _ _ Hin) as [B3 B4].
          split; [auto|split; [auto|]]. intros s Hs. apply (A2 e). apply B2; eauto.
        * apply mm_rel_nil.
        * intros s e [].
        * intros ? ? ? [].
        * intros ? ? [].
      + intros acc (A & B1 & B2 & B3 & B4).
        eapply hm_bind; [apply (hm_visit VI Inv Ex O OO IT)|]. intros accp HPc.
        apply hm_ret. split; [|auto].
        destruct (fast_alpha_perm acc accp A (Permutation_sym HPc) B1 B2 B3) as [G1 G2].
        exists (fold_left (fun alpha e => alpha_add VI PF (v_build VI (snd e)) (fst e) alpha) accp []).
        split; [auto|split; [auto|]].
        intros k p. apply bool_ext. rewrite G2.
        specialize (A3 k p). specialize (B4 k p). simpl existsb in A3.
        rewrite B4. destruct A1 as (_ & _ & A1). split.
        * intros [(s & [] & _)|(b & Hb & C)]. apply existsb_exists in C.
          destruct C as (s & Hs & C).
          destruct (proj1 A3) as [(t & [] & _)|H]; [|exact H].
          exists s. split; auto. apply A1. eauto.
        * intros H. right. destruct (proj2 A3 (or_intror H)) as (t & Ht & C).
          apply A1 in Ht. destruct Ht as (b & Hb & Hi). exists b. split; auto.
          apply existsb_exists; eauto.
  Qed.
End Fast.

Section Bodies.
  Variable VI : values_impl.
  Hypothesis VL : values_laws VI.
  Variable PF : platform VI.
  Hypothesis PO : platform_ok PF.
  Variable O : oracle.
  Hypothesis OO : oracle_ok O.
  Variables DC HC : Type.
  Variable Inv : memory DC HC -> Prop.
  Hypothesis IT : forall s, Inv s -> Inv (tick s).
  Notation V := (vt VI).
  Notation sdd := (sdd V).
  Notation lt := (addr_lt PF).
  Notation Ex := (Ex VI).
  Notation mode_ok := (mode_ok VI).
  Notation noclash := (fun _ _ : elt VI => False).
  Notation good := (good VI PF).
  Notation good_zero := (good_zero VI PF).
  Notation sdd_eqb_spec := (sdd_eqb_spec VI PF PO).
  Notation ib_fold := (ib_fold VI PF PO).
  Notation sb_fold := (sb_fold VI PF PO).
  Notation is_zero_true := (is_zero_true VI).
  Notation val_mode := (val_mode VI).
  Notation gsF n md x := (fun k => good n (flat_mode VI md x k)).
  Notation gsH n md x := (fun k => good n (hier_mode VI md x k)).
  Notation agree := (@agree VI).
  Notation agree_sym := (agree_sym VI).
  Notation agree_zero := (agree_zero VI).
  Notation agree_flat := (agree_flat VI).
  Notation agree_hier := (agree_hier VI).
  Notation ex_incompatible := (ex_incompatible VI VL PF).
  Notation garcs_flat n md x := (good_arcs VI (v_mem VI) noclash (flat_ops VI PF) (fun _ => True) (gsF n md x)).
  Notation garcs_hier n md x := (good_arcs VI contains aclash (hier_ops VI PF) (good n (val_mode md x)) (gsH n md x)).
  Notation one_incompatible := (one_incompatible VI VL PF).
  Notation node_flat_good := (node_flat_good VI VL PF).
  Notation node_hier_good := (node_hier_good VI VL PF).
  Notation good_flat := (good_flat VI PF).
  Notation good_hier := (good_hier VI VL PF).
  Notation cast_flat_inv := (cast_flat_inv VI).
  Notation cast_hier_inv := (cast_hier_inv VI).
  Notation contains_flat_inv := (contains_flat_inv VI).
  Notation contains_hier_inv := (contains_hier_inv VI).
  Notation asel_flat := (asel_flat VI).
  Notation asel_hier := (asel_hier VI).
  Notation node_post_flat := (node_post_flat VI PF).
  Notation node_post_hier := (node_post_hier VI VL PF).
  Notation old n := (dd_eval VI PF n).
  Notation oldSF n md x := (flat_succ_ops VI VL PF PO n (dd_eval VI PF n) md x (dd_eval_ok VI VL PF PO n)).
  Notation oldSH n md x := (hier_succ_ops VI VL PF PO n (dd_eval VI PF n) md x (dd_eval_ok VI VL PF PO n)).
  Notation oldV n md x := (val_ops VI VL PF PO n (dd_eval VI PF n) md x (dd_eval_ok VI VL PF PO n)).
  Notation oldF n md := (flat_ops_ok VI VL PF PO (dd_eval VI PF n) (Ex md)).

  (** What an evaluation [ask] of the cached operations ensures on operands of height at most [n]. *)
  Record mh_ok (n : nat) (ask : ddop V -> M VI DC HC sdd) : Prop := {
    mh_sum : forall md l, 2 <= length l -> ssorted lt l ->
      (forall x, In x l -> good n md x /\ x <> Zero) ->
      hm VI Inv (Ex md) (ask (OpSum l)) (fun r => good n md r /\ forall p, contains r p = existsb (fun x => contains x p) l);
    mh_inter : forall md l, 2 <= length l -> ssorted lt l ->
      (forall x, In x l -> good n md x /\ x <> Zero) ->
      hm VI Inv (Ex md) (ask (OpInter l))
        (fun r => good n md r /\ (forall p, contains r p = forallb (fun x => contains x p) l) /\
                  forall a b, l = [a; b] -> agree a b);
    mh_diff : forall md a b, good n md a -> good n md b -> a <> b -> a <> Zero -> b <> Zero ->
      hm VI Inv (Ex md) (ask (OpDiff a b))
        (fun r => good n md r /\ (forall p, contains r p = contains a p && negb (contains b p)) /\ agree a b)
  }.

  Lemma m_sum_ok : forall n ask md l, mh_ok n ask -> ssorted lt l ->
    (forall x, In x l -> good n md x /\ x <> Zero) ->
    hm VI Inv (Ex md) (m_sum VI ask l)
      (fun r => good n md r /\ forall p, contains r p = existsb (fun x => contains x p) l).
  Proof.
    intros n ask md l HO HS HG. unfold m_sum. destruct l as [|a [|b l]].
    - apply hm_ret. split; [apply good_zero|]. reflexivity.
    - apply hm_ret. split; [apply HG; now left|]. intros p; simpl. now rewrite orb_false_r.
    - apply (mh_sum _ _ HO); auto. simpl; lia.
  Qed.

  Lemma m_inter_ok : forall n ask md l, mh_ok n ask -> ssorted lt l -> l <> [] ->
    (forall x, In x l -> good n md x /\ x <> Zero) ->
    hm VI Inv (Ex md) (m_intersection VI ask (false, l))
      (fun r => good n md r /\ (forall p, contains r p = forallb (fun x => contains x p) l) /\
                forall a b, l = [a; b] -> agree a b).
  Proof.
    intros n ask md l HO HS HN HG. unfold m_intersection, snd. destruct l as [|a [|b l]].
    - congruence.
    - apply hm_ret. split; [apply HG; now left|]. split; [intros p; simpl; now rewrite andb_true_r|discriminate].
    - apply (mh_inter _ _ HO); auto. simpl; lia.
  Qed.

  Lemma m_diff_ok : forall n ask md a b, mh_ok n ask -> good n md a -> good n md b ->
    hm VI Inv (Ex md) (m_difference VI PF ask a b)
      (fun r => good n md r /\ (forall p, contains r p = contains a p && negb (contains b p)) /\ agree a b).
  Proof.
    intros n ask md a b HO Ga Gb. unfold m_difference.
    destruct (sdd_eqb VI PF a b) eqn:E1; simpl.
    { apply sdd_eqb_spec in E1. subst b. apply hm_ret. split; [apply good_zero|].
      split; [|apply Ga]. intros p; simpl. now destruct (contains a p). }
    destruct (is_zero VI a) eqn:E2; simpl.
    { apply is_zero_true in E2. subst a. apply hm_ret. split; [apply good_zero|]. split; [reflexivity|apply agree_zero]. }
    destruct (is_zero VI b) eqn:E3; simpl.
    { apply is_zero_true in E3. subst b. apply hm_ret. split; [auto|].
      split; [|apply agree_sym, agree_zero]. intros p; simpl. now rewrite andb_true_r. }
    apply (mh_diff _ _ HO); auto.
    - intros ->. rewrite (proj2 (sdd_eqb_spec b b) eq_refl) in E1. discriminate.
    - intros ->; discriminate.
    - intros ->; discriminate.
  Qed.

  Lemma m_inter2_ok : forall n ask md a b, mh_ok n ask -> good n md a -> good n md b ->
    hm VI Inv (Ex md) (mo_inter (m_hier VI PF ask) a b)
      (fun r => good n md r /\ (forall p, contains r p = contains a p && contains b p) /\ agree a b).
  Proof.
    intros n ask md a b HO Ga Gb.
    change (hm VI Inv (Ex md) (m_intersection VI ask (fold_left (fun b x => sdd_ib_add VI PF x b) [a; b] (false, [])))
      (fun r => good n md r /\ (forall p, contains r p = contains a p && contains b p) /\ agree a b)).
    destruct (ib_fold [a; b] false []) as (I1 & _ & I3).
    set (r := fold_left _ _ _) in *.
    destruct (is_zero VI a) eqn:Ea; [|destruct (is_zero VI b) eqn:Eb].
    - apply is_zero_true in Ea. subst a. unfold m_intersection. rewrite I3 by (simpl; auto).
      apply hm_ret. split; [apply good_zero|]. split; [reflexivity|apply agree_zero].
    - apply is_zero_true in Eb. subst b. unfold m_intersection. rewrite I3 by (simpl; auto).
      apply hm_ret. split; [apply good_zero|]. split; [|apply agree_sym, agree_zero].
      intros p; simpl. now rewrite andb_false_r.
    - assert (a <> Zero) by (intros ->; discriminate). assert (b <> Zero) by (intros ->; discriminate).
      destruct I1 as (J1 & J2 & J3); auto.
      { intros x [<-|[<-|[]]]; auto. }
      destruct r as [z l]. cbn [fst snd] in *. subst z.
      assert (Hin : forall x, In x l <-> x = a \/ x = b).
      { intros x. rewrite J3. simpl. intuition. }
      eapply hm_conseq.
      + apply (m_inter_ok n ask md l); auto.
        * apply J2. constructor.
        * intros ->. apply (Hin a). auto.
        * intros x Hx. apply Hin in Hx. destruct Hx as [->| ->]; auto.
      + intros r (G & C & A). split; [auto|split].
        * intros p. rewrite C. apply bool_ext.
          rewrite forallb_forall, andb_true_iff. split.
          -- intros H1. split; apply H1; apply Hin; auto.
          -- intros [H1 H2] x Hx. apply Hin in Hx. destruct Hx as [->| ->]; auto.
        * assert (HSl : ssorted lt l) by (apply J2; constructor).
          assert (La : In a l) by (apply Hin; auto). assert (Lb : In b l) by (apply Hin; auto).
          pose proof (ssorted_nodup lt (pf_lt PO) l HSl) as HN.
          clear - A Hin La Lb Ga HN. destruct l as [|u [|w [|z t]]].
          -- destruct La.
          -- destruct La as [<-|[]]. destruct Lb as [<-|[]]. apply Ga.
          -- specialize (A u w eq_refl).
             assert (Huw : u <> w). { inversion HN as [|? ? Hn _]; subst. intros ->. apply Hn. now left. }
             destruct (proj1 (Hin u) (or_introl eq_refl)) as [->| ->];
               destruct (proj1 (Hin w) (or_intror (or_introl eq_refl))) as [->| ->];
               first [congruence|exact A|now apply agree_sym].
          -- exfalso. inversion HN as [|? ? Hn1 HN1]; subst. inversion HN1 as [|? ? Hn2 _]; subst.
             destruct (proj1 (Hin u) (or_introl eq_refl)) as [->| ->];
               destruct (proj1 (Hin w) (or_intror (or_introl eq_refl))) as [->| ->];
               destruct (proj1 (Hin z) (or_intror (or_intror (or_introl eq_refl)))) as [->| ->]; simpl in *; tauto.
  Qed.

  Lemma m_hier_ok : forall n ask md, mh_ok n ask -> mops_ok VI Inv (Ex md) contains aclash (m_hier VI PF ask) (good n md).
  Proof.
    intros n ask md HO. split.
    - intros l HS HG. apply m_sum_ok; auto. intros x Hx. destruct (HG _ Hx) as [H1 H2].
      split; auto. intros ->. discriminate.
    - intros a b Ga Gb. now apply m_inter2_ok.
    - intros a b Ga Gb. now apply m_diff_ok.
  Qed.

  Lemma m_flat_ok : forall X, mops_ok VI Inv X (v_mem VI) noclash (m_flat VI PF O) (fun _ => True).
  Proof.
    intros X. split.
    - intros l _ _. simpl. eapply hm_bind; [apply (hm_visit VI Inv X O OO IT)|]. intros lp HP. apply hm_ret. split; auto.
      intros k. rewrite (val_sum_spec VI VL). apply bool_ext. rewrite !existsb_exists.
      split; intros (x & Hin & Hx); exists x; split; auto.
      + exact (Permutation_in _ HP Hin).
      + exact (Permutation_in _ (Permutation_sym HP) Hin).
    - intros a b _ _. simpl. eapply hm_bind; [apply (hm_visit VI Inv X O OO IT)|]. intros lp HP. apply hm_ret. split; [auto|split; [|auto]].
      intros k. unfold ib_add in *. cbn [fst snd] in *.
      destruct (v_empty VI a) eqn:Ea; cbn [fst snd] in *.
      { apply (vl_empty VL) with (x := k) in Ea. apply Permutation_sym, Permutation_nil in HP. subst lp.
        cbn. now rewrite (vl_default VL), Ea. }
      destruct (v_empty VI b) eqn:Eb; cbn [fst snd] in *.
      { apply (vl_empty VL) with (x := k) in Eb. apply Permutation_sym, Permutation_nil in HP. subst lp.
        cbn. rewrite (vl_default VL), Eb. now rewrite andb_false_r. }
      assert (HI : forall y, In y lp <-> y = a \/ y = b).
      { intros y. split; intros H.
        - pose proof (Permutation_in _ HP H) as H'. apply (fs_insert_in _ (vl_lt VL)) in H'. destruct H' as [->|[->|[]]]; auto.
        - apply (Permutation_in _ (Permutation_sym HP)). apply (fs_insert_in _ (vl_lt VL)). simpl. destruct H; auto. }
      unfold val_intersection. cbn [fst snd]. destruct lp as [|c lp]; [destruct (proj2 (HI a)); auto|].
      rewrite (val_inter_loop_spec VI VL). apply bool_ext. rewrite !andb_true_iff, forallb_forall.
      assert (HI2 : forall y, c = y \/ In y lp <-> y = a \/ y = b) by (intros y; rewrite <- HI; reflexivity).
      split.
      + intros [H1 H2]. split; [destruct (proj2 (HI2 a))|destruct (proj2 (HI2 b))]; subst; auto.
      + intros [H1 H2]. split.
        * destruct (proj1 (HI2 c)) as [->| ->]; auto.
        * intros y Hy. destruct (proj1 (HI2 y)) as [->| ->]; auto.
    - intros a b _ _. simpl. apply hm_ret. split; [auto|split; [apply (vl_diff VL)|auto]].
  Qed.

  Lemma mops_ok_Ex : forall (X Y : err V -> Prop) K W (mem : W -> K -> bool) cl mo GV, (forall e, X e -> Y e) ->
    mops_ok VI Inv X mem cl mo GV -> mops_ok VI Inv Y mem cl mo GV.
  Proof.
    intros X Y K W mem cl mo GV HXY [].
    assert (W' : forall A (p : M VI DC HC A) Q, hm VI Inv X p Q -> hm VI Inv Y p Q).
    { intros A p Q H1 s Hs. destruct (H1 s Hs) as [H2 H3]. split; [|exact H3]. eapply outcome_impl; [apply H2| |]; auto. }
    split; auto.
  Qed.
  Lemma m_flat_succ_ops : forall n ask md x, mh_ok n ask -> forall k,
    mops_ok VI Inv (Ex md) contains aclash (m_hier VI PF ask) (good n (flat_mode VI md x k)).
  Proof.
    intros n ask md x HO k. eapply mops_ok_Ex; [|apply m_hier_ok; auto].
    intros e. apply (proj1 (Ex_mode VI _ _ (flat_mode_None VI md x k) e)).
  Qed.
  Lemma m_hier_succ_ops : forall n ask md x, mh_ok n ask -> forall k,
    mops_ok VI Inv (Ex md) contains aclash (m_hier VI PF ask) (good n (hier_mode VI md x k)).
  Proof.
    intros n ask md x HO k. eapply mops_ok_Ex; [|apply m_hier_ok; auto].
    intros e. apply (proj1 (Ex_mode VI _ _ (hier_mode_None VI md x k) e)).
  Qed.
  Lemma m_val_ops : forall n ask md x, mh_ok n ask ->
    mops_ok VI Inv (Ex md) contains aclash (m_hier VI PF ask) (good n (val_mode md x)).
  Proof.
    intros n ask md x HO. eapply mops_ok_Ex; [|apply m_hier_ok; auto].
    intros e. apply (proj1 (Ex_mode VI _ _ (val_mode_None VI md x) e)).
  Qed.

  Lemma m_compat_flat : forall n md x arcs y,
    good (S n) md (Flat x arcs) -> good (S n) md y -> y <> Zero ->
    hm VI Inv (Ex md) (m_check VI (Flat x arcs) y)
      (fun _ => exists arcs', cast_flat VI y = Some (x, arcs') /\ garcs_flat n md x arcs').
  Proof.
    intros n md x arcs y Ga Gb Hz.
    pose proof (ex_incompatible _ _ _ _ Ga Gb) as HE.
    destruct y as [| |y arcs'|y arcs']; simpl; try congruence.
    - apply hm_throw. apply HE. exact I.
    - destruct (N.eqb x y) eqn:E.
      + apply N.eqb_eq in E. subst y. apply hm_ret. exists arcs'. split; auto.
        eapply good_flat; eauto.
      + apply N.eqb_neq in E. apply hm_throw. apply HE. exact E.
    - apply hm_throw. apply HE. exact I.
  Qed.

  Lemma m_compat_hier : forall n md x arcs y,
    good (S n) md (Hier x arcs) -> good (S n) md y -> y <> Zero ->
    hm VI Inv (Ex md) (m_check VI (Hier x arcs) y)
      (fun _ => exists arcs', cast_hier VI y = Some (x, arcs') /\ garcs_hier n md x arcs').
  Proof.
    intros n md x arcs y Ga Gb Hz.
    pose proof (ex_incompatible _ _ _ _ Ga Gb) as HE.
    destruct y as [| |y arcs'|y arcs']; simpl; try congruence.
    - apply hm_throw. apply HE. exact I.
    - apply hm_throw. apply HE. exact I.
    - destruct (N.eqb x y) eqn:E.
      + apply N.eqb_eq in E. subst y. apply hm_ret. exists arcs'. split; auto.
        eapply good_hier; eauto.
      + apply N.eqb_neq in E. apply hm_throw. apply HE. exact E.
  Qed.

  Lemma m_sum_body_ok : forall n ask md l, mh_ok n ask -> 2 <= length l -> ssorted lt l ->
    (forall x, In x l -> good (S n) md x /\ x <> Zero) ->
    hm VI Inv (Ex md) (m_sum_body VI PF O ask l)
      (fun r => good (S n) md r /\ forall p, contains r p = existsb (fun x => contains x p) l).
  Proof.
    intros n ask md l0 HO Hlen0 HS0 HG0.
    unfold m_sum_body. eapply hm_bind; [apply (hm_visit VI Inv (Ex md) O OO IT)|]. intros l HP.
    assert (Hlen : 2 <= length l) by (rewrite (Permutation_length HP); exact Hlen0).
    assert (HN : NoDup l).
    { apply (Permutation_NoDup (Permutation_sym HP)). apply (ssorted_nodup lt (pf_lt PO)). exact HS0. }
    assert (HG : forall x, In x l -> good (S n) md x /\ x <> Zero).
    { intros x Hx. apply HG0. exact (Permutation_in _ HP Hx). }
    apply hm_conseq with (Q := fun r => good (S n) md r /\ forall p, contains r p = existsb (fun x => contains x p) l).
    2: { intros r [H1 H2]. split; [auto|].
         intros p. rewrite H2. apply existsb_ext_eq. split; intros (x & Hx & C); exists x; split; auto.
         - exact (Permutation_in _ HP Hx).
         - exact (Permutation_in _ (Permutation_sym HP) Hx). }
    clear HP HG0 HS0 Hlen0 l0.
    destruct l as [|a [|b l]]; simpl in Hlen; try lia.
    destruct (HG a (or_introl eq_refl)) as [Ga Za].
    destruct (HG b (or_intror (or_introl eq_refl))) as [Gb Zb].
    assert (Hab : a <> b). { inversion HN as [|? ? Hni _]; subst. intros ->. apply Hni. now left. }
    destruct a as [| |x arcs|x arcs]; [congruence| | |].
    - apply hm_throw. eapply one_incompatible; eauto.
    - (* flat *)
      set (L := b :: l) in *.
      assert (Hpost : hm VI Inv (Ex md) (if v_fast VI then m_sum_work_fast VI PF O ask (Flat x arcs :: L)
         else m_sum_work VI PF O ask (m_flat VI PF O) Flat (cast_flat VI) (Flat x arcs :: L)) (fun r =>
         node_post VI PF (v_mem VI) noclash (flat_ops VI PF) (fun _ => True) (gsF n md x) Flat x
           (fun k p => existsb (fun y => asel VI (v_mem VI) (cast_flat VI) x y k p) (Flat x arcs :: L)) r /\
         forall y, In y (Flat x arcs :: L) -> exists arcs, cast_flat VI y = Some (x, arcs))).
      { unfold L. destruct (v_fast VI) eqn:EF.
        - apply (m_sum_work_fast_ok VI VL EF PF PO O OO DC HC Inv IT ask (old n) (Ex md) (gsF n md x) (oldSF n md x) (m_flat_succ_ops n ask md x HO) x (Flat x arcs) arcs); auto.
          intros y Hy. destruct (HG _ Hy) as [Gy Zy]. apply (m_compat_flat n md x arcs y); auto.
        - apply (m_sum_work_ok VI PF PO O OO DC HC Inv IT ask (old n) (Ex md) (v_mem VI) noclash (m_flat VI PF O) (fun _ => True)
                   (gsF n md x) (oldF n md) (oldSF n md x) (m_flat_ok (Ex md)) (m_flat_succ_ops n ask md x HO)
                   (cast_flat VI) Flat x (Flat x arcs) arcs (b :: l)); auto.
          + eapply good_flat; eauto.
          + intros y Hy. destruct (HG y (or_intror Hy)) as [Gy Zy].
            apply (m_compat_flat n md x arcs y); auto. }
      eapply hm_conseq; [exact Hpost|].
      intros r ((alpha & A1 & -> & A2) & A3).
      destruct (node_flat_good n md x alpha A1) as [N1 N2].
      split; auto.
      intros p. apply bool_ext. rewrite N2, existsb_exists. split.
      + intros (k & q & -> & H). rewrite A2 in H. apply existsb_exists in H.
        destruct H as (y & Hy & H). rewrite asel_flat in H. exists y. split; auto.
      + intros (y & Hy & H). destruct (A3 _ Hy) as [arcs' E]. apply cast_flat_inv in E. subst y.
        destruct (contains_flat_inv _ _ _ H) as (k & q & ->). exists k, q. split; auto.
        rewrite A2. apply existsb_exists. exists (Flat x arcs'). split; [exact Hy|now rewrite asel_flat].
    - (* hierarchical *)
      set (L := b :: l) in *.
      assert (Hpost : hm VI Inv (Ex md) (m_sum_work VI PF O ask (m_hier VI PF ask) Hier (cast_hier VI) (Hier x arcs :: L)) (fun r =>
         node_post VI PF contains aclash (hier_ops VI PF) (good n (val_mode md x)) (gsH n md x) Hier x
           (fun k p => existsb (fun y => asel VI contains (cast_hier VI) x y k p) (Hier x arcs :: L)) r /\
         forall y, In y (Hier x arcs :: L) -> exists arcs, cast_hier VI y = Some (x, arcs))).
      { unfold L.
        apply (m_sum_work_ok VI PF PO O OO DC HC Inv IT ask (old n) (Ex md) contains aclash (m_hier VI PF ask) (good n (val_mode md x))
                   (gsH n md x) (oldV n md x) (oldSH n md x) (m_val_ops n ask md x HO) (m_hier_succ_ops n ask md x HO)
                   (cast_hier VI) Hier x (Hier x arcs) arcs (b :: l)); auto.
          + eapply good_hier; eauto.
          + intros y Hy. destruct (HG y (or_intror Hy)) as [Gy Zy].
            apply (m_compat_hier n md x arcs y); auto. }
      eapply hm_conseq; [exact Hpost|].
      intros r ((alpha & A1 & -> & A2) & A3).
      destruct (node_hier_good n md x alpha A1) as [N1 N2].
      split; auto.
      intros p. apply bool_ext. rewrite N2, existsb_exists. split.
      + intros (k & q & -> & H). rewrite A2 in H. apply existsb_exists in H.
        destruct H as (y & Hy & H). rewrite asel_hier in H. exists y. split; auto.
      + intros (y & Hy & H). destruct (A3 _ Hy) as [arcs' E]. apply cast_hier_inv in E. subst y.
        destruct (contains_hier_inv _ _ _ H) as (k & q & ->). exists k, q. split; auto.
        rewrite A2. apply existsb_exists. exists (Hier x arcs'). split; [exact Hy|now rewrite asel_hier].
  Qed.

  Lemma m_inter_body_ok : forall n ask md l, mh_ok n ask -> 2 <= length l -> ssorted lt l ->
    (forall x, In x l -> good (S n) md x /\ x <> Zero) ->
    hm VI Inv (Ex md) (m_inter_body VI PF O ask l)
      (fun r => good (S n) md r /\ (forall p, contains r p = forallb (fun x => contains x p) l) /\
                forall a b, l = [a; b] -> agree a b).
  Proof.
    intros n ask md l0 HO Hlen0 HS0 HG0.
    unfold m_inter_body. eapply hm_bind; [apply (hm_visit VI Inv (Ex md) O OO IT)|]. intros l HP.
    assert (Hlen : 2 <= length l) by (rewrite (Permutation_length HP); exact Hlen0).
    assert (HN : NoDup l).
    { apply (Permutation_NoDup (Permutation_sym HP)). apply (ssorted_nodup lt (pf_lt PO)). exact HS0. }
    assert (HG : forall x, In x l -> good (S n) md x /\ x <> Zero).
    { intros x Hx. apply HG0. exact (Permutation_in _ HP Hx). }
    apply hm_conseq with (Q := fun r => good (S n) md r /\ (forall p, contains r p = forallb (fun x => contains x p) l) /\
                forall a b t, l = a :: b :: t -> agree a b).
    2: { intros r (H1 & H2 & H3). split; [auto|split].
         - intros p. rewrite H2. apply bool_ext. rewrite !forallb_forall. split; intros C x Hx; apply C.
           + exact (Permutation_in _ (Permutation_sym HP) Hx).
           + exact (Permutation_in _ HP Hx).
         - intros a b ->. apply Permutation_sym, Permutation_length_2_inv in HP.
           destruct HP as [->| ->]; [eauto|apply agree_sym; eauto]. }
    clear HP HG0 HS0 Hlen0 l0.
    destruct l as [|a [|b l]]; simpl in Hlen; try lia.
    destruct (HG a (or_introl eq_refl)) as [Ga Za].
    destruct (HG b (or_intror (or_introl eq_refl))) as [Gb Zb].
    assert (Hab : a <> b). { inversion HN as [|? ? Hni _]; subst. intros ->. apply Hni. now left. }
    destruct a as [| |x arcs|x arcs]; [congruence| | |].
    - apply hm_throw. eapply one_incompatible; eauto.
    - assert (Hne : arcs <> []). { destruct Ga as (HCa & _). now inversion HCa. }
      unfold m_inter_work. cbn [cast_flat].
      eapply hm_conseq.
      + apply (m_inter_operands_ok VI PF PO O OO DC HC Inv IT ask (old n) (Ex md) (v_mem VI) noclash (m_flat VI PF O) (fun _ => True)
                   (gsF n md x) (oldF n md) (oldSF n md x) (m_flat_ok (Ex md)) (m_flat_succ_ops n ask md x HO)
                 (cast_flat VI) Flat x) with (larcs := arcs); auto.
        * eapply good_flat; eauto.
        * now apply node_post_flat.
        * intros y r arcs' Hy Ec Hr (alpha & A1 & A2 & A3).
          destruct (HG y (or_intror Hy)) as [Gy Zy].
          destruct (node_flat_good n md x alpha A1) as [N1 N2].
          rewrite <- A2 in N1. apply cast_flat_inv in Ec. subst r.
          apply (m_compat_flat n md x arcs' y); auto.
        * discriminate.
      + intros r [(alpha & A1 & -> & A2) (rarcs & Ec & AA)].
        destruct (node_flat_good n md x alpha A1) as [N1 N2].
        split; auto. split.
        2: { intros a0 b0 t0 E0. injection E0 as <- <- <-. apply cast_flat_inv in Ec. subst b. now apply agree_flat. }
        intros p. apply bool_ext. rewrite N2.
        change (forallb (fun y => contains y p) (Flat x arcs :: b :: l))
          with (contains (Flat x arcs) p && forallb (fun y => contains y p) (b :: l)).
        rewrite andb_true_iff. split.
        * intros (k & q & -> & H). rewrite A2 in H. apply andb_prop in H. destruct H as [H1 H2].
          split.
          -- rewrite contains_flat, N.eqb_refl. exact H1.
          -- rewrite forallb_forall in *. intros y Hy. rewrite <- asel_flat. auto.
        * intros [H1 H2]. destruct (contains_flat_inv _ _ _ H1) as (k & q & ->). exists k, q.
          split; auto. rewrite A2. rewrite contains_flat, N.eqb_refl in H1. simpl in H1. rewrite H1.
          rewrite andb_true_l. rewrite forallb_forall in *. intros y Hy. rewrite asel_flat. auto.
    - assert (Hne : arcs <> []). { destruct Ga as (HCa & _). now inversion HCa. }
      unfold m_inter_work. cbn [cast_hier].
      eapply hm_conseq.
      + apply (m_inter_operands_ok VI PF PO O OO DC HC Inv IT ask (old n) (Ex md) contains aclash (m_hier VI PF ask) (good n (val_mode md x))
                   (gsH n md x) (oldV n md x) (oldSH n md x) (m_val_ops n ask md x HO) (m_hier_succ_ops n ask md x HO)
                 (cast_hier VI) Hier x) with (larcs := arcs); auto.
        * eapply good_hier; eauto.
        * now apply node_post_hier.
        * intros y r arcs' Hy Ec Hr (alpha & A1 & A2 & A3).
          destruct (HG y (or_intror Hy)) as [Gy Zy].
          destruct (node_hier_good n md x alpha A1) as [N1 N2].
          rewrite <- A2 in N1. apply cast_hier_inv in Ec. subst r.
          apply (m_compat_hier n md x arcs' y); auto.
        * discriminate.
      + intros r [(alpha & A1 & -> & A2) (rarcs & Ec & AA)].
        destruct (node_hier_good n md x alpha A1) as [N1 N2].
        split; auto. split.
        2: { intros a0 b0 t0 E0. injection E0 as <- <- <-. apply cast_hier_inv in Ec. subst b. now apply agree_hier. }
        intros p. apply bool_ext. rewrite N2.
        change (forallb (fun y => contains y p) (Hier x arcs :: b :: l))
          with (contains (Hier x arcs) p && forallb (fun y => contains y p) (b :: l)).
        rewrite andb_true_iff. split.
        * intros (k & q & -> & H). rewrite A2 in H. apply andb_prop in H. destruct H as [H1 H2].
          split.
          -- rewrite contains_hier, N.eqb_refl. exact H1.
          -- rewrite forallb_forall in *. intros y Hy. rewrite <- asel_hier. auto.
        * intros [H1 H2]. destruct (contains_hier_inv _ _ _ H1) as (k & q & ->). exists k, q.
          split; auto. rewrite A2. rewrite contains_hier, N.eqb_refl in H1. simpl in H1. rewrite H1.
          rewrite andb_true_l. rewrite forallb_forall in *. intros y Hy. rewrite asel_hier. auto.
  Qed.

  Lemma m_diff_body_ok : forall n ask md a b, mh_ok n ask ->
    good (S n) md a -> good (S n) md b -> a <> b -> a <> Zero -> b <> Zero ->
    hm VI Inv (Ex md) (m_diff_body VI PF O ask a b)
      (fun r => good (S n) md r /\ (forall p, contains r p = contains a p && negb (contains b p)) /\ agree a b).
  Proof.
    intros n ask md a b HO Ga Gb Hab Za Zb.
    pose proof (ex_incompatible _ _ _ _ Ga Gb) as HE.
    destruct a as [| |x la|x la]; [congruence| | |];
      destruct b as [| |y ra|y ra]; try congruence; cbn [m_diff_body];
      try (apply hm_throw; apply HE; exact I).
    - (* flat *)
      destruct (N.eqb x y) eqn:E.
      + apply N.eqb_eq in E. subst y. eapply hm_conseq.
        * apply (m_diff_work_ok VI PF PO O OO DC HC Inv IT ask (old n) (Ex md) (v_mem VI) noclash (m_flat VI PF O) (fun _ => True)
                   (gsF n md x) (oldF n md) (oldSF n md x) (m_flat_ok (Ex md)) (m_flat_succ_ops n ask md x HO) (cast_flat VI) Flat x la ra).
          -- eapply good_flat; eauto.
          -- eapply good_flat; eauto.
        * intros r [(alpha & A1 & -> & A2) AA].
          destruct (node_flat_good n md x alpha A1) as [N1 N2].
          split; [auto|split; [|now apply agree_flat]]. intros p. apply bool_ext. rewrite N2, andb_true_iff, negb_true_iff. split.
          -- intros (k & q & -> & H). rewrite A2 in H. apply andb_prop in H. destruct H as [H1 H2].
             apply negb_true_iff in H2. rewrite !contains_flat, N.eqb_refl. auto.
          -- intros [H1 H2]. destruct (contains_flat_inv _ _ _ H1) as (k & q & ->).
             exists k, q. split; auto. rewrite A2.
             rewrite contains_flat, N.eqb_refl, andb_true_l in H1.
             rewrite contains_flat, N.eqb_refl, andb_true_l in H2. now rewrite H1, H2.
      + unfold m_diff_work. rewrite E. simpl. apply hm_throw.
        apply N.eqb_neq in E. apply HE. exact E.
    - destruct (N.eqb x y) eqn:E.
      + apply N.eqb_eq in E. subst y. eapply hm_conseq.
        * apply (m_diff_work_ok VI PF PO O OO DC HC Inv IT ask (old n) (Ex md) contains aclash (m_hier VI PF ask) (good n (val_mode md x))
                   (gsH n md x) (oldV n md x) (oldSH n md x) (m_val_ops n ask md x HO) (m_hier_succ_ops n ask md x HO) (cast_hier VI) Hier x la ra).
          -- eapply good_hier; eauto.
          -- eapply good_hier; eauto.
        * intros r [(alpha & A1 & -> & A2) AA].
          destruct (node_hier_good n md x alpha A1) as [N1 N2].
          split; [auto|split; [|now apply agree_hier]]. intros p. apply bool_ext. rewrite N2, andb_true_iff, negb_true_iff. split.
          -- intros (k & q & -> & H). rewrite A2 in H. apply andb_prop in H. destruct H as [H1 H2].
             apply negb_true_iff in H2. rewrite !contains_hier, N.eqb_refl. auto.
          -- intros [H1 H2]. destruct (contains_hier_inv _ _ _ H1) as (k & q & ->).
             exists k, q. split; auto. rewrite A2.
             rewrite contains_hier, N.eqb_refl, andb_true_l in H1.
             rewrite contains_hier, N.eqb_refl, andb_true_l in H2. now rewrite H1, H2.
      + unfold m_diff_work. rewrite E. simpl. apply hm_throw.
        apply N.eqb_neq in E. apply HE. exact E.
  Qed.

  (** ** Evaluation *)

  Lemma mh_ok_0 : forall ask, mh_ok 0 ask.
  Proof.
    intros ask. split.
    - intros md l Hl HS HG. destruct l as [|a [|b l]]; simpl in Hl; try lia. exfalso.
      destruct (HG a) as [G1 Z1]; [now left|]. destruct (HG b) as [G2 Z2]; [right; now left|].
      apply (sorted_two_ne VI PF PO _ _ _ HS).
      rewrite (height0 VI PF _ _ _ G1 eq_refl Z1), (height0 VI PF _ _ _ G2 eq_refl Z2). reflexivity.
    - intros md l Hl HS HG. destruct l as [|a [|b l]]; simpl in Hl; try lia. exfalso.
      destruct (HG a) as [G1 Z1]; [now left|]. destruct (HG b) as [G2 Z2]; [right; now left|].
      apply (sorted_two_ne VI PF PO _ _ _ HS).
      rewrite (height0 VI PF _ _ _ G1 eq_refl Z1), (height0 VI PF _ _ _ G2 eq_refl Z2). reflexivity.
    - intros md a b G1 G2 Hne Z1 Z2. exfalso. apply Hne.
      rewrite (height0 VI PF _ _ _ G1 eq_refl Z1), (height0 VI PF _ _ _ G2 eq_refl Z2). reflexivity.
  Qed.

  Definition op_pre (n : nat) (md : mode VI) (op : ddop V) : Prop :=
    match op with
    | OpSum l | OpInter l => 2 <= length l /\ ssorted lt l /\ forall x, In x l -> good n md x /\ x <> Zero
    | OpDiff a b => good n md a /\ good n md b /\ a <> b /\ a <> Zero /\ b <> Zero
    end.
  Definition op_post (n : nat) (md : mode VI) (op : ddop V) (r : sdd) : Prop :=
    match op with
    | OpSum l => good n md r /\ forall p, contains r p = existsb (fun x => contains x p) l
    | OpInter l => good n md r /\ (forall p, contains r p = forallb (fun x => contains x p) l) /\
                   forall a b, l = [a; b] -> agree a b
    | OpDiff a b => good n md r /\ (forall p, contains r p = contains a p && negb (contains b p)) /\ agree a b
    end.
  Lemma mh_ok_op n ask : mh_ok n ask <-> forall md op, op_pre n md op -> hm VI Inv (Ex md) (ask op) (op_post n md op).
  Proof.
    split.
    - intros [H1 H2 H3] md op H4. destruct op as [l|l|a b]; cbn in H4.
      + apply H1; apply H4.
      + apply H2; apply H4.
      + apply H3; apply H4.
    - intros H1. split.
      + intros md l A1 A2 A3. apply (H1 md (OpSum l)). cbn. auto.
      + intros md l A1 A2 A3. apply (H1 md (OpInter l)). cbn. auto.
      + intros md a b A1 A2 A3 A4 A5. apply (H1 md (OpDiff a b)). cbn. auto.
  Qed.
  Lemma m_body_ok n ask md op : mh_ok n ask -> op_pre (S n) md op ->
    hm VI Inv (Ex md) (m_body VI PF O ask op) (op_post (S n) md op).
  Proof.
    intros H1 H2. destruct op as [l|l|a b]; cbn [m_body op_pre op_post] in *.
    - now apply m_sum_body_ok.
    - now apply m_inter_body_ok.
    - now apply m_diff_body_ok.
  Qed.
End Bodies.
Arguments mh_ok VI PF {DC HC} Inv n ask.

(** ** Evaluation through caches *)

Section Evaluation.
  Variable VI : values_impl.
  Hypothesis VL : values_laws VI.
  Variable PF : platform VI.
  Hypothesis PO : platform_ok PF.
  Variable O : oracle.
  Hypothesis OO : oracle_ok O.
  Variables DC HC : Type.
  Notation V := (vt VI).
  Notation sdd := (sdd V).
  Notation lt := (addr_lt PF).
  Notation Ex := (Ex VI).
  Notation mode_ok := (mode_ok VI).
  Notation good := (good VI PF).
  Notation op_pre := (op_pre VI PF).
  Notation op_post := (op_post VI PF).
  Notation agree := (@agree VI).

  (** A right result of an operation, wherever it is asked. *)
  Definition meaning (op : ddop V) (r : sdd) : Prop := forall n md, op_pre n md op -> op_post n md op r.

  (** Caches that give right results if they receive right results: [cinv] holds between accesses, [chas d op] says that the
      operation is there, [cd] is what a search gives to the insertion that follows it. *)
  Variable C : memo (ddop V) sdd (err V) DC.
  Variable cinv : DC -> Prop.
  Variable chas : DC -> ddop V -> Prop.
  Variable cd : ddop V -> N.
  Record dd_memo_ok : Prop := {
    dmo_find : forall op d, cinv d -> exists r d', c_find C op d = (Ok (r, cd op), d') /\ cinv d' /\
      (forall o, chas d' o <-> chas d o) /\
      match r with
      | Some v => meaning op v
      | None => ~ chas d op
      end;
    dmo_store : forall op v d, cinv d -> meaning op v -> ~ chas d op ->
      exists d', c_store C op v (cd op) d = (Ok tt, d') /\ cinv d' /\ forall o, chas d' o -> chas d o \/ o = op
  }.
  Hypothesis CO : dd_memo_ok.

  Definition oheight (op : ddop V) : nat :=
    match op with
    | OpSum l | OpInter l => list_max (map height l)
    | OpDiff a b => Nat.max (height a) (height b)
    end.
  Lemma good_height n m md x : good n md x -> height x <= m -> good m md x.
  Proof. intros (A & _ & B) H. split; [auto|split; auto]. Qed.
  Lemma list_height_le l n : (forall x : sdd, In x l -> height x <= n) -> list_max (map height l) <= n.
  Proof.
    intros H. apply list_max_le, Forall_forall. intros k Hk. apply in_map_iff in Hk. destruct Hk as (x & <- & Hx). auto.
  Qed.
  Lemma list_height_in l (x : sdd) : In x l -> height x <= list_max (map height l).
  Proof.
    intros H. assert (K : list_max (map height l) <= list_max (map height l)) by auto.
    apply list_max_le in K. rewrite Forall_forall in K. apply K. now apply in_map.
  Qed.
  Lemma op_pre_height n md op : op_pre n md op -> oheight op <= n.
  Proof.
    destruct op as [l|l|a b]; cbn.
    - intros (_ & _ & H). apply list_height_le. intros x Hx. apply (H x Hx).
    - intros (_ & _ & H). apply list_height_le. intros x Hx. apply (H x Hx).
    - intros ((_ & H1 & _) & (_ & H2 & _) & _). lia.
  Qed.
  Lemma op_pre_lower n m md op : op_pre n md op -> oheight op <= m -> op_pre m md op.
  Proof.
    destruct op as [l|l|a b]; cbn; intros H1 H2.
    - destruct H1 as (A & B & H1). split; [auto|split; [auto|]]. intros x Hx. destruct (H1 x Hx) as [G1 G2]. split; [|auto].
      apply (good_height n); [auto|]. pose proof (list_height_in l x Hx). lia.
    - destruct H1 as (A & B & H1). split; [auto|split; [auto|]]. intros x Hx. destruct (H1 x Hx) as [G1 G2]. split; [|auto].
      apply (good_height n); [auto|]. pose proof (list_height_in l x Hx). lia.
    - destruct H1 as (A & B & H1). split; [apply (good_height n); [auto|lia]|]. split; [apply (good_height n); [auto|lia]|auto].
  Qed.
  Lemma op_post_raise n m md op r : op_post n md op r -> n <= m -> op_post m md op r.
  Proof.
    intros H1 H2. assert (K : good n md r -> good m md r).
    { intros (A & B & G). split; [auto|split; [lia|auto]]. }
    destruct op; cbn in *; intuition.
  Qed.

  (** Since the caches were [d0]: only operations on operands of height at most [n] came in. *)
  Definition since (d0 : DC) (h0 : HC) (n : nat) (s : memory DC HC) : Prop :=
    cinv (dd_caches s) /\ hom_cache s = h0 /\ forall o, chas (dd_caches s) o -> chas d0 o \/ oheight o <= n.
  Lemma since_refl s n : cinv (dd_caches s) -> since (dd_caches s) (hom_cache s) n s.
  Proof. intros H. split; [auto|split; auto]. Qed.
  Lemma since_tick d0 h0 n s : since d0 h0 n s -> since d0 h0 n (tick s).
  Proof. exact (fun H => H). Qed.
  (** From the present state. *)
  Lemma hm_since n m A Xs (p : M VI DC HC A) Q : (forall d h, hm VI (since d h n) Xs p Q) -> n <= m ->
    forall d h, hm VI (since d h m) Xs p Q.
  Proof.
    intros H1 Hm d h s (I1 & I2 & I3). destruct (H1 _ _ s (since_refl s n I1)) as [J1 (J2 & J3 & J4)].
    split; [auto|]. split; [auto|split; [congruence|]]. intros o Ho. destruct (J4 o Ho) as [K|K]; [auto|right; lia].
  Qed.

  Lemma m_eval_ok : forall n fuel, n <= fuel -> forall d h, mh_ok VI PF (since d h n) n (m_eval VI PF O C fuel).
  Proof.
    induction n as [|n IH]; intros fuel Hf d h; [now apply mh_ok_0|]. apply mh_ok_op. intros md op Hop.
    destruct (le_lt_dec (oheight op) n) as [Hn|Hn].
    { apply (hm_since n); [|lia]. intros d1 h1.
      eapply hm_conseq; [apply (proj1 (mh_ok_op VI PF DC HC _ n _) (IH fuel ltac:(lia) d1 h1) md op)|].
      - now apply (op_pre_lower (S n)).
      - intros r Hr. apply (op_post_raise n); auto. }
    pose proof (op_pre_height _ _ _ Hop) as Hh.
    destruct fuel as [|f]; [lia|]. intros s (I1 & I2 & I3). cbn [m_eval].
    destruct (dmo_find CO op (dd_caches s) I1) as (r & d1 & E1 & J1 & J2 & J3).
    unfold mbind, on_dd. rewrite E1. cbn [fst snd].
    destruct r as [v|].
    { cbn. split; [now apply J3|]. split; [auto|split; [auto|]]. cbn. intros o Ho. apply I3. now apply J2. }
    cbn [clock dd_caches hom_cache]. set (s1 := {| clock := clock s; dd_caches := d1; hom_cache := hom_cache s |}).
    assert (B : forall md', op_pre (S n) md' op ->
                hm VI (since d1 (hom_cache s) n) (Ex md') (m_body VI PF O (m_eval VI PF O C f) op) (op_post (S n) md' op)).
    { intros md' Hop'. apply m_body_ok; auto. apply IH. lia. }
    assert (S1 : since d1 (hom_cache s) n s1) by (apply (since_refl s1); auto).
    destruct (B md Hop s1 S1) as [B1 (B2 & B3 & B4)].
    destruct (m_body VI PF O (m_eval VI PF O C f) op s1) as [[v|e] s2] eqn:E2; cbn [fst snd] in *.
    - assert (Mv : meaning op v).
      { intros n' md' Hop'. pose proof (op_pre_height _ _ _ Hop') as Hh'. apply (op_post_raise (S n)); [|lia].
        assert (Hop1 : op_pre (S n) md' op) by (apply (op_pre_lower n'); auto).
        destruct (B md' Hop1 s1 S1) as [B5 _]. rewrite E2 in B5. exact B5. }
      assert (Nh : ~ chas (dd_caches s2) op).
      { intros Hc. destruct (B4 op Hc) as [Hc1|Hc1]; [|lia]. apply J3. now apply J2. }
      destruct (dmo_store CO op v (dd_caches s2) B2 Mv Nh) as (d3 & E3 & K1 & K2).
      rewrite E3. cbn. split; [now apply Mv|]. split; [auto|split; [cbn; congruence|]].
      cbn. intros o Ho. destruct (K2 o Ho) as [Ho2| ->]; [|right; lia].
      destruct (B4 o Ho2) as [Ho1|Ho1]; [|right; lia]. apply I3. now apply J2.
    - split; [exact B1|]. split; [auto|split; [congruence|]].
      intros o Ho. destruct (B4 o Ho) as [Ho1|Ho1]; [|right; lia]. apply I3. now apply J2.
  Qed.

  (** Operations, in a state whose caches are good; [P]: what is kept about the other cache. *)
  Variable P : HC -> Prop.
  Definition idle (s : memory DC HC) : Prop := cinv (dd_caches s) /\ P (hom_cache s).
  Lemma idle_tick s : idle s -> idle (tick s).
  Proof. exact (fun H => H). Qed.
  Lemma hm_idle n A Xs (p : M VI DC HC A) Q : (forall d h, hm VI (since d h n) Xs p Q) -> hm VI idle Xs p Q.
  Proof.
    intros H1 s [I1 I2]. destruct (H1 _ _ s (since_refl s n I1)) as [J1 (J2 & J3 & J4)].
    split; [auto|]. split; [auto|]. now rewrite J3.
  Qed.
  Lemma m_eval_idle n : mh_ok VI PF idle n (m_eval VI PF O C n).
  Proof.
    apply mh_ok_op. intros md op Hop. apply (hm_idle n). intros d h.
    now apply (proj1 (mh_ok_op VI PF DC HC _ n _) (m_eval_ok n n (le_n n) d h) md op).
  Qed.

  Lemma mv_sum_ok : forall md l, (forall x, In x l -> canonical VI lt x /\ mode_ok md x) ->
    hm VI idle (Ex md) (mv_sum VI PF O C l) (fun r => canonical VI lt r /\ mode_ok md r /\
      forall p, contains r p = existsb (fun x => contains x p) l).
  Proof.
    intros md l HG. unfold mv_sum.
    destruct (sb_fold VI PF PO l [] (SSorted_nil _)) as [H1 H2].
    set (r := fold_left _ _ _) in *.
    eapply hm_conseq.
    - apply (m_sum_ok VI PF DC HC idle (fuel_of VI l) _ md r); [apply m_eval_idle|exact H1|].
      intros x Hx. apply H2 in Hx. destruct Hx as [[]|[Hx Hz]].
      destruct (HG _ Hx) as [G1 G2]. split; auto. split; [auto|split; [now apply (fuel_height VI)|auto]].
    - intros x [(A & _ & F) Hx]. split; [auto|split; [auto|]].
      intros p. rewrite Hx. apply existsb_ext_eq. split.
      + intros (y & Hy & C'). apply H2 in Hy. destruct Hy as [[]|[Hy _]]. eauto.
      + intros (y & Hy & C'). exists y. split; auto. apply H2. right; split; auto.
        intros ->. discriminate.
  Qed.

  Lemma mv_inter_ok : forall md l, l <> [] ->
    (forall x, In x l -> canonical VI lt x /\ mode_ok md x) ->
    hm VI idle (Ex md) (mv_inter VI PF O C l) (fun r => canonical VI lt r /\ mode_ok md r /\
      (forall p, contains r p = forallb (fun x => contains x p) l)).
  Proof.
    intros md l Hne HG. unfold mv_inter.
    destruct (ib_fold VI PF PO l false []) as (I1 & _ & I3).
    set (r := fold_left _ _ _) in *.
    destruct (existsb (is_zero VI) l) eqn:EZ.
    - apply existsb_exists in EZ. destruct EZ as (z & Hz & E). apply (is_zero_true VI) in E. subst z.
      unfold m_intersection. rewrite I3 by auto. apply hm_ret. split; [constructor|split].
      + split; [apply agree_zero|]. destruct md; simpl; auto. discriminate.
      + intros p. symmetry. apply not_true_is_false. rewrite forallb_forall. intros H.
        specialize (H _ Hz). discriminate.
    - assert (Hnz : forall x, In x l -> x <> Zero).
      { intros x Hx ->. assert (existsb (is_zero VI) l = true); [|congruence].
        apply existsb_exists. exists Zero; auto. }
      destruct (I1 eq_refl Hnz) as (J1 & J2 & J3).
      destruct r as [z r]. cbn [fst snd] in *. subst z.
      eapply hm_conseq.
      + apply (m_inter_ok VI PF DC HC idle (fuel_of VI l) _ md r); [apply m_eval_idle| | |].
        * apply J2. constructor.
        * intros ->. destruct l as [|a l]; [congruence|]. apply (J3 a). right; now left.
        * intros x Hx. apply J3 in Hx. destruct Hx as [[]|Hx]. destruct (HG _ Hx) as [G1 G2].
          split; auto. split; [auto|split; [now apply (fuel_height VI)|auto]].
      + intros x ((A & _ & F) & Hx & _). split; [auto|split; [auto|]].
        intros p. rewrite Hx. apply bool_ext. rewrite !forallb_forall. split.
        * intros H y Hy. apply H. apply J3; auto.
        * intros H y Hy. apply J3 in Hy. destruct Hy as [[]|Hy]; auto.
  Qed.

  Lemma mv_minus_ok : forall md a b,
    canonical VI lt a -> canonical VI lt b -> mode_ok md a -> mode_ok md b ->
    hm VI idle (Ex md) (mv_minus VI PF O C a b) (fun r => canonical VI lt r /\ mode_ok md r /\
      (forall p, contains r p = contains a p && negb (contains b p)) /\ agree a b).
  Proof.
    intros md a b Ca Cb Fa Fb. unfold mv_minus. eapply hm_conseq.
    - apply (m_diff_ok VI PF PO DC HC idle (fuel_of VI [a; b]) _ md a b); [apply m_eval_idle| |].
      + split; [auto|split; [apply (fuel_height VI); simpl; auto|auto]].
      + split; [auto|split; [apply (fuel_height VI); simpl; auto|auto]].
    - intros x ((A & _ & F) & Hx & B). auto.
  Qed.

  (** The intersection of two SDDs which returns has compared all their assignments. *)
  Lemma mv_inter2_ok : forall md a b,
    canonical VI lt a -> canonical VI lt b -> mode_ok md a -> mode_ok md b ->
    hm VI idle (Ex md) (mv_inter VI PF O C [a; b]) (fun _ => agree a b).
  Proof.
    intros md a b Ca Cb Fa Fb.
    pose proof (m_inter2_ok VI PF PO DC HC idle (fuel_of VI [a; b]) (m_eval VI PF O C (fuel_of VI [a; b])) md a b (m_eval_idle _)) as H.
    eapply hm_conseq; [apply H|].
    - split; [auto|split; [apply (fuel_height VI); simpl; auto|auto]].
    - split; [auto|split; [apply (fuel_height VI); simpl; auto|auto]].
    - intros r (_ & _ & A). exact A.
  Qed.
End Evaluation.
Arguments dd_memo_ok VI PF {DC} C cinv chas cd.
Arguments idle {DC HC} cinv P s.

(** ** Without caches *)

Section Plain.
  Variable VI : values_impl.
  Hypothesis VL : values_laws VI.
  Variable PF : platform VI.
  Hypothesis PO : platform_ok PF.
  Variable O : oracle.
  Hypothesis OO : oracle_ok O.
  Notation V := (vt VI).
  Notation sdd := (sdd V).
  Notation lt := (addr_lt PF).
  Notation Ex := (Ex VI).
  Notation mode_ok := (mode_ok VI).
  Notation agree := (@agree VI).

  Lemma no_cache_ok : dd_memo_ok VI PF no_cache (fun _ : unit => True) (fun _ _ => False) (fun _ => 0%N).
  Proof.
    split.
    - intros op d _. exists None, d. cbn. split; [auto|split; [auto|split; [tauto|auto]]].
    - intros op v d _ _ _. exists d. cbn. split; [auto|split; [auto|tauto]].
  Qed.
  Notation plain := (idle (fun _ : unit => True) (fun _ : unit => True)).
  Lemma plain_start : plain (start tt tt).
  Proof. split; exact I. Qed.

  Lemma moving_sum_ok : forall md l, (forall x, In x l -> canonical VI lt x /\ mode_ok md x) ->
    outcome (Ex md) (fun r => canonical VI lt r /\ mode_ok md r /\
      forall p, contains r p = existsb (fun x => contains x p) l) (moving_sum VI PF O l).
  Proof.
    intros md l HG.
    apply (mv_sum_ok VI VL PF PO O OO unit unit no_cache _ _ _ no_cache_ok (fun _ => True) md l HG (start tt tt) plain_start).
  Qed.
  Lemma moving_intersection_ok : forall md l, l <> [] ->
    (forall x, In x l -> canonical VI lt x /\ mode_ok md x) ->
    outcome (Ex md) (fun r => canonical VI lt r /\ mode_ok md r /\
      forall p, contains r p = forallb (fun x => contains x p) l) (moving_intersection VI PF O l).
  Proof.
    intros md l Hne HG.
    apply (mv_inter_ok VI VL PF PO O OO unit unit no_cache _ _ _ no_cache_ok (fun _ => True) md l Hne HG (start tt tt) plain_start).
  Qed.
  Lemma moving_minus_ok : forall md a b,
    canonical VI lt a -> canonical VI lt b -> mode_ok md a -> mode_ok md b ->
    outcome (Ex md) (fun r => canonical VI lt r /\ mode_ok md r /\
      (forall p, contains r p = contains a p && negb (contains b p)) /\ agree a b) (moving_minus VI PF O a b).
  Proof.
    intros md a b Ca Cb Fa Fb.
    apply (mv_minus_ok VI VL PF PO O OO unit unit no_cache _ _ _ no_cache_ok (fun _ => True) md a b Ca Cb Fa Fb (start tt tt) plain_start).
  Qed.

  (** An operation which returns has compared all the assignments of its operands. *)
  Lemma moving_sum_agree : forall l r, (forall x, In x l -> canonical VI lt x /\ coherent x) ->
    moving_sum VI PF O l = Ok r -> forall x y, In x l -> In y l -> agree x y.
  Proof.
    intros l r HG E x y Hx Hy p q Hp Hq.
    pose proof (moving_sum_ok None l) as H. rewrite E in H. simpl in H.
    destruct H as (_ & (HF & _) & HC).
    { intros z Hz. destruct (HG z Hz) as [H1 H2]. split; [auto|split; simpl; auto]. }
    apply HF; rewrite HC; apply existsb_exists; eauto.
  Qed.
  Lemma moving_intersection_agree : forall a b r,
    canonical VI lt a -> canonical VI lt b -> coherent a -> coherent b ->
    moving_intersection VI PF O [a; b] = Ok r -> agree a b.
  Proof.
    intros a b r Ca Cb Fa Fb E.
    destruct (mv_inter2_ok VI VL PF PO O OO unit unit no_cache _ _ _ no_cache_ok (fun _ => True) None a b Ca Cb) with (s := start tt tt (D := unit) (H := unit))
      as [K _].
    - split; [exact Fa|exact I].
    - split; [exact Fb|exact I].
    - exact plain_start.
    - unfold moving_intersection in E. rewrite E in K. exact K.
  Qed.

  Lemma moving_sum_follows : forall sh l, (forall x, In x l -> canonical VI lt x /\ follows sh x) ->
    exists r, moving_sum VI PF O l = Ok r /\ canonical VI lt r /\ follows sh r /\
      forall p, contains r p = existsb (fun x => contains x p) l.
  Proof.
    intros sh l H. pose proof (moving_sum_ok (Some (shape_universe VI sh)) l) as K.
    assert (H' : forall x, In x l -> canonical VI lt x /\ mode_ok (Some (shape_universe VI sh)) x).
    { intros x Hx. destruct (H x Hx). split; [auto|now apply follows_mode_ok]. }
    specialize (K H'). destruct (moving_sum VI PF O l) as [r|e]; simpl in K.
    - destruct K as (K1 & K2 & K3).
      exists r. split; [auto|split; [auto|split; [now apply (mode_ok_follows VI VL PF)|auto]]].
    - exfalso. destruct e; simpl in K; try (destruct K as [K _]; discriminate); exact K.
  Qed.
  Lemma moving_intersection_follows : forall sh l, l <> [] -> (forall x, In x l -> canonical VI lt x /\ follows sh x) ->
    exists r, moving_intersection VI PF O l = Ok r /\ canonical VI lt r /\ follows sh r /\
      forall p, contains r p = forallb (fun x => contains x p) l.
  Proof.
    intros sh l HN H. pose proof (moving_intersection_ok (Some (shape_universe VI sh)) l HN) as K.
    assert (H' : forall x, In x l -> canonical VI lt x /\ mode_ok (Some (shape_universe VI sh)) x).
    { intros x Hx. destruct (H x Hx). split; [auto|now apply follows_mode_ok]. }
    specialize (K H'). destruct (moving_intersection VI PF O l) as [r|e]; simpl in K.
    - destruct K as (K1 & K2 & K3).
      exists r. split; [auto|split; [auto|split; [now apply (mode_ok_follows VI VL PF)|auto]]].
    - exfalso. destruct e; simpl in K; try (destruct K as [K _]; discriminate); exact K.
  Qed.
  Lemma moving_minus_follows : forall sh a b, canonical VI lt a -> canonical VI lt b -> follows sh a -> follows sh b ->
    exists r, moving_minus VI PF O a b = Ok r /\ canonical VI lt r /\ follows sh r /\
      forall p, contains r p = contains a p && negb (contains b p).
  Proof.
    intros sh a b Ca Cb Fa Fb. pose proof (moving_minus_ok (Some (shape_universe VI sh)) a b Ca Cb) as K.
    specialize (K (follows_mode_ok VI _ _ Fa) (follows_mode_ok VI _ _ Fb)).
    destruct (moving_minus VI PF O a b) as [r|e]; simpl in K.
    - destruct K as (K1 & K2 & K3 & _).
      exists r. split; [auto|split; [auto|split; [now apply (mode_ok_follows VI VL PF)|auto]]].
    - exfalso. destruct e; simpl in K; try (destruct K as [K _]; discriminate); exact K.
  Qed.
End Plain.
