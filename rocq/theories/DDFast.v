(** * Correctness of the fast-iterable union (sdd/dd/sum.hh 221-296) *)

From Coq Require Import List Bool NArith Arith Lia Permutation Sorted.
From Verif Require Import Base SortedSets Values Sdd SddFacts DDModel DDGeneric.
Import ListNotations.

Section Fast.
  Variable VI : values_impl.
  Hypothesis VL : values_laws VI.
  Hypothesis FAST : v_fast VI = true.
  Variable PF : platform VI.
  Hypothesis PO : platform_ok PF.
  Notation V := (vt VI).
  Notation sdd := (sdd V).
  Notation lt := (addr_lt PF).

  Variable h : ddop V -> res (err V) sdd.
  Variable Ex : err V -> Prop.
  Variable GS : elt VI -> sdd -> Prop.
  Notation GV := (fun _ : V => True).
  Notation noclash := (fun _ _ : elt VI => False).
  Hypothesis OS : forall k, ops_ok VI h Ex contains aclash (hier_ops VI PF) (GS k).

  Notation hoare := (hoare h Ex).
  Notation gv := (gv VI (flat_ops VI PF) GV).
  Definition gsk (e : elt VI) (s : sdd) : Prop := GS e s /\ s <> Zero.
  Notation good_arcs := (good_arcs VI (v_mem VI) noclash (flat_ops VI PF) GV GS).
  Notation mmE := (mm_rel (e_lt VI) lt).
  Notation mmS := (mm_rel lt (e_lt VI)).

  Lemma fast_add_value_ok : forall s m L value, s <> Zero -> mmE m L ->
    mmE (fast_add_value VI PF s m value) (L ++ [(value, s)]).
  Proof.
    intros s m L value Hs HR. unfold fast_add_value.
    rewrite (fm_upd_ext _ _ (e_lt VI) _
      (fun o => fs_insert lt s (match o with Some b => b | None => [] end))).
    - apply (mm_add_rel (e_lt VI) lt (vl_elt VL) (pf_lt PO)). exact HR.
    - intros o. unfold sdd_sb_add, sb_add. now rewrite is_zero_false.
  Qed.

  Lemma fast_add_arc_ok : forall v s m L, s <> Zero -> mmE m L ->
    exists L', mmE (fast_add_arc VI PF m (v, s)) L' /\
      forall e t, In (e, t) L' <-> In (e, t) L \/ (t = s /\ v_mem VI v e = true).
  Proof.
    intros v s m L Hs HR. unfold fast_add_arc. cbn [fst snd].
    assert (Hgen : forall l m L, mmE m L -> exists L',
              mmE (fold_left (fast_add_value VI PF s) l m) L' /\
              forall e t, In (e, t) L' <-> In (e, t) L \/ (t = s /\ In e l)).
    { induction l as [|a l IH]; intros m0 L0 H0; simpl.
      - exists L0. split; auto. intros e t; tauto.
      - destruct (IH _ _ (fast_add_value_ok s m0 L0 a Hs H0)) as (L' & H1 & H2).
        exists L'. split; auto. intros e t. rewrite H2, in_app_iff. simpl. split.
        + intros [[H|[H|[]]]|H]; auto.
          * injection H as <- <-; auto.
          * right; tauto.
        + intros [H|[-> [<-|H]]]; auto. }
    destruct (Hgen (v_iter VI v) m L HR) as (L' & H1 & H2). exists L'. split; auto.
    intros e t. rewrite H2. rewrite (vl_iter VL). tauto.
  Qed.

  Lemma fast_add_arcs_ok : forall arcs m L,
    (forall v s, In (v, s) arcs -> s <> Zero) -> mmE m L ->
    exists L', mmE (fold_left (fast_add_arc VI PF) arcs m) L' /\
      forall e t, In (e, t) L' <->
        In (e, t) L \/ (exists v, In (v, t) arcs /\ v_mem VI v e = true).
  Proof.
    induction arcs as [|[v s] r IH]; intros m L Ha HR; simpl.
    - exists L. split; auto. intros e t. split; [auto|intros [H|(? & [] & _)]; auto].
    - destruct (fast_add_arc_ok v s m L (Ha v s (or_introl eq_refl)) HR) as (L1 & H1 & H2).
      destruct (IH (fast_add_arc VI PF m (v, s)) L1) as (L' & H3 & H4); auto.
      { intros v' s' H; apply (Ha v' s'). now right. }
      exists L'. split; auto. intros e t. rewrite H4, H2. split.
      + intros [[H|[-> H]]|(v' & H & H')]; eauto.
      + intros [H|(v' & [H|H] & H')]; eauto. injection H as <- <-; auto.
  Qed.

  Notation asel := (asel VI (v_mem VI) (cast_flat VI)).

  Lemma fast_operands_ok : forall begin var operands m L,
    (forall x, In x operands -> hoare (check_compatibility VI begin x)
       (fun _ => exists arcs, cast_flat VI x = Some (var, arcs) /\ good_arcs arcs)) ->
    mmE m L -> (forall e t, In (e, t) L -> gsk e t) ->
    hoare (fast_operands VI PF begin operands m) (fun m' => exists L', mmE m' L' /\
      (forall e t, In (e, t) L' -> gsk e t) /\
      (forall e p, (exists t, In (e, t) L' /\ contains t p = true) <->
         (exists t, In (e, t) L /\ contains t p = true) \/
         existsb (fun x => asel var x e p) operands = true) /\
      (forall x, In x operands -> exists arcs, cast_flat VI x = Some (var, arcs))).
  Proof.
    intros begin var. induction operands as [|x r IH]; intros m L Hx HR HL; cbn [fast_operands].
    - apply hoare_ret. exists L. split; [auto|split; [auto|split]].
      + intros e p. simpl. split; [auto|intros [H|H]; [auto|discriminate]].
      + intros x [].
    - eapply hoare_bind; [apply Hx; now left|].
      intros _ (arcs & Ec & Ga). rewrite Ec.
      destruct (fast_add_arcs_ok arcs m L) as (L1 & H1 & H2); auto.
      { intros v s Hin. destruct Ga as [Ga _ _]. now destruct (Ga _ _ Hin) as [_ [_ ?]]. }
      eapply hoare_conseq.
      + apply (IH _ L1); auto.
        * intros y Hy. apply Hx. now right.
        * intros e t Hin. apply H2 in Hin. destruct Hin as [Hin|(v & Hin & Mv)]; eauto.
          destruct Ga as [Ga _ _]. destruct (Ga _ _ Hin) as [_ [Hs Hz]]. split; auto.
      + intros m' (L' & A1 & A2 & A3 & A4). exists L'. split; [auto|split; [auto|split]].
        * intros e p. rewrite A3. simpl existsb. unfold DDGeneric.asel at 2.
          rewrite Ec, N.eqb_refl, andb_true_l, orb_true_iff, acontains_spec. split.
          -- intros [(t & Hin & C)|H]; auto.
             apply H2 in Hin. destruct Hin as [Hin|(v & Hin & M)]; eauto.
             right; left. eauto.
          -- intros [(t & Hin & C)|[(v & s & Hin & M & C)|H]]; auto.
             ++ left. exists t. split; auto. apply H2; auto.
             ++ left. exists s. split; auto. apply H2; eauto.
        * intros y [<-|Hy]; eauto.
  Qed.

  (** Regroup the values by successor. *)
  Lemma fast_succs_ok : forall m acc A,
    NoDup (map fst m) ->
    (forall e b, In (e, b) m -> b <> [] /\ ssorted lt b /\ forall s, In s b -> gsk e s) ->
    mmS acc A ->
    (forall s e, In (s, e) A -> gsk e s) ->
    (forall s1 s2 e, In (s1, e) A -> In (s2, e) A -> s1 = s2) ->
    (forall s e, In (s, e) A -> ~ In e (map fst m)) ->
    hoare (fast_succs VI PF m acc) (fun acc' => exists A', mmS acc' A' /\
      (forall s e, In (s, e) A' -> gsk e s) /\
      (forall s1 s2 e, In (s1, e) A' -> In (s2, e) A' -> s1 = s2) /\
      (forall e p, (exists s, In (s, e) A' /\ contains s p = true) <->
         (exists s, In (s, e) A /\ contains s p = true) \/
         (exists b, In (e, b) m /\ existsb (fun s => contains s p) b = true))).
  Proof.
    induction m as [|[e b] r IH]; intros acc A HN Hm HR HG HF Hsep; cbn [fast_succs].
    - apply hoare_ret. exists A. split; [auto|split; [auto|split; [auto|]]].
      intros e p. split; [auto|intros [H|(b & [] & _)]; auto].
    - inversion HN as [|? ? Hn1 Hn2]; subst.
      destruct (Hm e b (or_introl eq_refl)) as (Hb1 & Hb2 & Hb3).
      eapply hoare_bind.
      + apply (oo_sum _ _ _ _ _ _ _ (OS e) b); auto.
        intros x Hx. destruct (Hb3 _ Hx) as [H1 H2]. split; auto. now apply is_zero_false.
      + intros s [Hs1 Hs2]. simpl in Hs2.
        assert (Hs : gsk e s).
        { split; auto. intros ->. destruct b as [|x b]; [congruence|].
          destruct (Hb3 x (or_introl eq_refl)) as [H1 H2].
          destruct (oo_nonempty _ _ _ _ _ _ _ (OS e) x H1 (is_zero_false _ _ H2)) as [p Hp].
          specialize (Hs2 p). simpl in Hs2. rewrite Hp in Hs2. discriminate. }
        pose proof (mm_add_rel lt (e_lt VI) (pf_lt PO) (vl_elt VL) acc A s e HR) as HR'.
        eapply hoare_conseq.
        * apply (IH _ (A ++ [(s, e)])); auto.
          -- intros e' b' Hin. apply (Hm e' b'). now right.
          -- intros s' e' Hin. apply in_app_iff in Hin. destruct Hin as [Hin|[E|[]]]; eauto.
             injection E as <- <-; auto.
          -- intros s1 s2 e' I1 I2. apply in_app_iff in I1. apply in_app_iff in I2.
             destruct I1 as [I1|[E1|[]]], I2 as [I2|[E2|[]]].
             ++ eauto.
             ++ injection E2 as <- <-. exfalso. apply (Hsep _ _ I1). now left.
             ++ injection E1 as <- <-. exfalso. apply (Hsep _ _ I2). now left.
             ++ congruence.
          -- intros s' e' Hin. apply in_app_iff in Hin. destruct Hin as [Hin|[E|[]]].
             ++ intros Hr. apply (Hsep _ _ Hin). now right.
             ++ injection E as <- <-; auto.
        * intros acc' (A' & B1 & B2 & B3 & B4). exists A'.
          split; [auto|split; [auto|split; [auto|]]].
          intros e' p. rewrite B4. split.
          -- intros [(s' & Hin & C)|(b' & Hin & C)].
             ++ apply in_app_iff in Hin. destruct Hin as [Hin|[E|[]]]; eauto.
                injection E as <- <-. right. exists b. split; [now left|]. now rewrite <- Hs2.
             ++ right. exists b'. split; [now right|auto].
          -- intros [(s' & Hin & C)|(b' & [E|Hin] & C)].
             ++ left. exists s'. split; auto. apply in_app_iff; auto.
             ++ injection E as <- <-. left. exists s. split; [apply in_app_iff; simpl; auto|].
                now rewrite Hs2.
             ++ right; eauto.
  Qed.

  (** Building the arcs. *)
  Lemma fast_alpha : forall acc A, mmS acc A ->
    (forall s e, In (s, e) A -> gsk e s) ->
    (forall s1 s2 e, In (s1, e) A -> In (s2, e) A -> s1 = s2) ->
    let alpha := fold_left (fun alpha e => alpha_add VI PF (v_build VI (snd e)) (fst e) alpha) acc [] in
    good_alpha VI PF (v_mem VI) noclash (flat_ops VI PF) GV GS alpha /\
    forall k p, acontains VI (v_mem VI) (map swap alpha) k p = true <->
      exists s, In (s, k) A /\ contains s p = true.
  Proof.
    intros acc A (H1 & H2 & H3) HG HF alpha.
    pose proof (pf_lt PO) as ST.
    assert (Hgen : forall l (al : list (sdd * V)), NoDup (map fst l) -> ksorted lt al ->
              (forall s v, In (s, v) al -> ~ In s (map fst l)) ->
              let al' := fold_left (fun alpha e => alpha_add VI PF (v_build VI (snd e)) (fst e) alpha) l al in
              ksorted lt al' /\
              forall s v, In (s, v) al' <-> In (s, v) al \/
                exists b, In (s, b) l /\ v = v_build VI b).
    { induction l as [|[s b] r IH]; intros al HN Hk Hf; cbn [fold_left fst snd].
      - split; auto. intros s v; split; [auto|intros [H|(b & [] & _)]; auto].
      - inversion HN as [|? ? Hn1 Hn2]; subst.
        assert (Hadd : forall s' v', In (s', v') (alpha_add VI PF (v_build VI b) s al) <->
                  In (s', v') al \/ (s', v') = (s, v_build VI b)).
        { intros s' v'. unfold alpha_add, fm_emplace. rewrite (fm_upd_in lt ST) by auto. split.
          - intros [[_ Hin]|[-> [(b' & Hin & ->)|[_ ->]]]]; auto.
          - intros [Hin|E].
            + left; split; auto. intros ->. apply (Hf _ _ Hin). now left.
            + injection E as -> ->. right; split; auto. right; split; auto.
              intros v Hin. apply (Hf _ _ Hin). now left. }
        destruct (IH (alpha_add VI PF (v_build VI b) s al)) as (I1 & I2); auto.
        + apply fm_upd_sorted; auto.
        + intros s' v' Hin. apply Hadd in Hin. destruct Hin as [Hin|E].
          * intros Hr. apply (Hf _ _ Hin). now right.
          * injection E as -> ->. auto.
        + split; auto. intros s' v'. rewrite I2, Hadd. split.
          * intros [[H|E]|(b' & H & ->)]; auto.
            -- injection E as -> ->. right. exists b. split; [now left|auto].
            -- right. exists b'. split; [now right|auto].
          * intros [H|(b' & [E|H] & ->)]; auto.
            -- injection E as <- <-. auto.
            -- right; eauto. }
    destruct (Hgen acc []) as (G1 & G2).
    { apply (ksorted_nodup lt ST); auto. }
    { constructor. }
    { intros s v []. }
    fold alpha in G1, G2.
    assert (Hin : forall s v, In (s, v) alpha <-> exists b, In (s, b) acc /\ v = v_build VI b).
    { intros s v. rewrite G2. split; [intros [[]|H]; auto|auto]. }
    assert (Hmem : forall s b, In (s, b) acc -> forall k, v_mem VI (v_build VI b) k = true <-> In (s, k) A).
    { intros s b Hb k. destruct (H2 _ _ Hb) as [_ Hs]. rewrite (vl_build VL FAST) by auto.
      rewrite <- H3. split; [eauto|].
      intros (b' & Hb' & Hk). rewrite (ksorted_fun lt ST acc H1 s b b'); auto. }
    clear G2. split.
    - split; auto.
      + intros s v Ha. apply Hin in Ha. destruct Ha as (b & Hb & ->).
        destruct b as [|e b]; [destruct (H2 _ _ Hb); congruence|].
        assert (He : In (s, e) A) by (apply H3; exists (e :: b); simpl; auto).
        split; [split|split; [auto|]].
        * intros k Mk. apply (Hmem _ _ Hb) in Mk. apply (HG _ _ Mk).
        * apply (HG _ _ He).
        * simpl.
        destruct (v_empty VI (v_build VI (e :: b))) eqn:E; auto.
        apply (vl_empty VL) with (x := e) in E. apply (Hmem _ _ Hb) in He. congruence.
      + apply (fop_map_swap VI (v_mem VI)); [|apply (ksorted_nodup lt ST); auto].
        intros s1 v1 s2 v2 I1 I2 Hne k M1 M2. apply Hne.
        apply Hin in I1. apply Hin in I2. destruct I1 as (b1 & I1 & ->). destruct I2 as (b2 & I2 & ->).
        apply (Hmem _ _ I1) in M1. apply (Hmem _ _ I2) in M2. eauto.
    - intros k p. rewrite acontains_spec. split.
      + intros (v & s & Ha & M & C). apply in_map_iff in Ha. destruct Ha as ([s0 v0] & E & Ha).
        injection E as -> ->. apply Hin in Ha. destruct Ha as (b & Hb & ->).
        exists s. split; auto. now apply (Hmem _ _ Hb).
      + intros (s & Ha & C). assert (Ha' := Ha). apply H3 in Ha'. destruct Ha' as (b & Hb & Hk).
        exists (v_build VI b), s. split; [|split; auto].
        * apply in_map_iff. exists (s, v_build VI b). split; auto. apply Hin. eauto.
        * now apply (Hmem _ _ Hb).
  Qed.

  Lemma sum_work_fast_ok : forall var head arcs others,
    cast_flat VI head = Some (var, arcs) ->
    (forall x, In x (head :: others) -> hoare (check_compatibility VI head x)
       (fun _ => exists arcs, cast_flat VI x = Some (var, arcs) /\ good_arcs arcs)) ->
    hoare (sum_work_fast VI PF (head :: others))
      (fun r => node_post VI PF (v_mem VI) noclash (flat_ops VI PF) GV GS Flat var
           (fun k p => existsb (fun x => asel var x k p) (head :: others)) r /\
         forall x, In x (head :: others) -> exists arcs, cast_flat VI x = Some (var, arcs)).
  Proof.
    intros var head arcs others Ec Hx. unfold sum_work_fast. rewrite Ec.
    eapply hoare_bind.
    - apply (fast_operands_ok head var (head :: others) [] []); auto.
      + apply mm_rel_nil.
      + intros e t [].
    - intros m (L & A1 & A2 & A3 & A4).
      eapply hoare_bind.
      + apply (fast_succs_ok m [] []).
        * apply (ksorted_nodup _ (vl_elt VL)). apply A1.
        * intros e b Hin. destruct A1 as (_ & B1 & B2). destruct (B1 _ _ Hin) as [B3 B4].
          split; [auto|split; [auto|]]. intros s Hs. apply (A2 e). apply B2; eauto.
        * apply mm_rel_nil.
        * intros s e [].
        * intros ? ? ? [].
        * intros ? ? [].
      + intros acc (A & B1 & B2 & B3 & B4).
        apply hoare_ret. split; [|auto].
        destruct (fast_alpha acc A B1 B2 B3) as [G1 G2].
        exists (fold_left (fun alpha e => alpha_add VI PF (v_build VI (snd e)) (fst e) alpha) acc []).
        split; [auto|split; [auto|]].
        intros k p. apply bool_ext. rewrite G2.
        specialize (A3 k p). specialize (B4 k p). simpl existsb in A3.
        rewrite B4. destruct A1 as (_ & _ & A1). split.
        * intros [(s & [] & _)|(b & Hb & C)]. apply existsb_exists in C.
          destruct C as (s & Hs & C).
          destruct (proj1 A3) as [(t & [] & _)|H]; [|exact H].
          exists s. split; auto. apply A1. eauto.
        * intros H. right. destruct (proj2 A3 (or_intror H)) as (t & Ht & C).
          apply A1 in Ht. destruct Ht as (b & Hb & Hi). exists b. split; auto.
          apply existsb_exists; eauto.
  Qed.
End Fast.
