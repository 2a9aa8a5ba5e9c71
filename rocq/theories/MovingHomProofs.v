(** * Proofs about MovingHom.v: the evaluation of homomorphisms does not depend on the orders in which containers are gone through *)

From Coq Require Import List Bool NArith Arith Lia Permutation Sorted.
From Verif Require Import Base SortedSets Values Sdd SddFacts Orders DDModel DDGeneric DDFast DDProofs DDTheorems Moving MovingProofs
  Hom HomFacts HomEval HomTyped MovingHom.
Import ListNotations.

Section Proofs.
  Variable VI : values_impl.
  Variable VL : values_laws VI.
  Variable PF : platform VI.
  Variable PO : platform_ok PF.
  Variable O : oracle.
  Hypothesis OO : oracle_ok O.
  Notation V := (vt VI).
  Notation sdd := (sdd V).
  Notation lt := (addr_lt PF).
  Notation fits := (fits VI PF).
  Variables DC HC : Type.
  Notation M := (M VI DC HC).
  Variable C : memo (ddop V) sdd (err V) DC.
  Variable cinv : DC -> Prop.
  Variable chas : DC -> ddop V -> Prop.
  Variable cd : ddop V -> N.
  Hypothesis CO : dd_memo_ok VI PF C cinv chas cd.
  Variable P : HC -> Prop.
  Variable exact : Prop.
  (** The errors that may stop a computation at any point. *)
  Variable abrupt : err V -> Prop.
  Notation Inv := (idle cinv P).

  (** The computation [p] gives [r] in any state, or stops on an abrupt error, and leaves good caches.  Nothing is said, unless
      [exact], of what it gives when [r] lacks fuel: the caches may save it. *)
  Definition stops {A : Type} (r : res (err V) A) : Prop := exists e, abrupt e /\ r = Err e.
  Definition eqm {A : Type} (p : M A) (r : res (err V) A) : Prop :=
    (r = Err EFuel -> exact) -> forall s, Inv s -> (fst (p s) = r \/ stops (fst (p s))) /\ Inv (snd (p s)).

  Lemma eqm_ret A (a : A) : eqm (mret VI a) (Ok a).
  Proof. intros _ s H. split; [now left|exact H]. Qed.
  Lemma eqm_throw A e : eqm (A := A) (mthrow VI e) (Err e).
  Proof. intros _ s H. split; [now left|exact H]. Qed.
  (** An abrupt stop of the whole computation. *)
  Lemma eqm_stop A e r : abrupt e -> eqm (A := A) (mthrow VI e) r.
  Proof. intros He _ s H. split; [right; now exists e|exact H]. Qed.
  Lemma eqm_bind A B (p : M A) (f : A -> M B) r g : eqm p r -> (forall a, r = Ok a -> eqm (f a) (g a)) ->
    eqm (mbind VI p f) (rbind r g).
  Proof.
    intros Hp Hf Ht s Hs. unfold mbind. destruct (Hp) with (s := s) as [[E|(e & He & E)] I1]; [intros ->; now apply Ht|exact Hs| |].
    - destruct (p s) as [[a|e] s']; cbn in E, I1; subst r; cbn in *.
      + now apply (Hf a eq_refl Ht).
      + split; [now left|exact I1].
    - destruct (p s) as [r' s']; cbn in E, I1. subst r'. split; [right; now exists e|exact I1].
  Qed.
  Lemma eqm_visit A B (l : list A) (f : list A -> M B) r : (forall l', Permutation l' l -> eqm (f l') r) ->
    eqm (mbind VI (visit VI O l) f) r.
  Proof. intros H Ht s Hs. unfold mbind, visit. apply (H _ (OO _ _ _) Ht). exact Hs. Qed.
  (** From a triple without error. *)
  Lemma hm_eqm A (X : err V -> Prop) (p : M A) (Q : A -> Prop) y : hm VI Inv X p Q -> (forall e, ~ X e) ->
    (forall a, Q a -> a = y) -> eqm p (Ok y).
  Proof.
    intros H HX HQ _ s Hs. destruct (H s Hs) as [H1 H2]. split; [left|exact H2].
    destruct (fst (p s)) as [a|e]; cbn in H1; [|destruct (HX e H1)]. f_equal. now apply HQ.
  Qed.

  Lemma no_error sh e : ~ Ex VI (Some (shape_universe VI sh)) e.
  Proof. intros K. destruct e; cbn in K; try (destruct K as [K _]; discriminate); exact K. Qed.

  (** ** Operations *)

  (** On SDDs of one shape these operations give what those of DDModel.v give, on operands in any order. *)
  Lemma mv_sum_eq s l l' : (forall x, In x l -> fits s x) -> (forall x, In x l' <-> In x l) ->
    eqm (mv_sum VI PF O C l') (api_sum VI PF l).
  Proof.
    intros H HI. destruct (sum_ok VI VL PF PO s l H) as (y & E & Fy & Cy). rewrite E.
    eapply hm_eqm; [apply (mv_sum_ok VI VL PF PO O OO DC HC C cinv chas cd CO P (Some (shape_universe VI s)) l')|apply no_error|].
    - intros x Hx. apply HI in Hx. destruct (H x Hx). split; [auto|now apply follows_mode_ok].
    - intros a (A1 & A2 & A3). apply (fits_ext VI VL PF PO s); [|auto|].
      + split; [auto|now apply (mode_ok_follows VI VL PF)].
      + intros p. rewrite A3, Cy. apply existsb_ext_eq. split; intros (x & Hx & Cx); exists x; (split; [now apply HI|auto]).
  Qed.
  Lemma mv_inter_eq s l : l <> [] -> (forall x, In x l -> fits s x) ->
    eqm (mv_inter VI PF O C l) (api_intersection VI PF l).
  Proof.
    intros Ne H. destruct (inter_ok VI VL PF PO s l Ne H) as (y & E & Fy & Cy). rewrite E.
    eapply hm_eqm; [apply (mv_inter_ok VI VL PF PO O OO DC HC C cinv chas cd CO P (Some (shape_universe VI s)) l Ne)|apply no_error|].
    - intros x Hx. destruct (H x Hx). split; [auto|now apply follows_mode_ok].
    - intros a (A1 & A2 & A3). apply (fits_ext VI VL PF PO s); [|auto|].
      + split; [auto|now apply (mode_ok_follows VI VL PF)].
      + intros p. now rewrite A3, Cy.
  Qed.
  Lemma mv_minus_eq s a b : fits s a -> fits s b -> eqm (mv_minus VI PF O C a b) (api_minus VI PF a b).
  Proof.
    intros Fa Fb. destruct (minus_ok VI VL PF PO s a b Fa Fb) as (y & E & Fy & Cy). rewrite E.
    destruct Fa as [Ca Fa], Fb as [Cb Fb].
    eapply hm_eqm; [apply (mv_minus_ok VI VL PF PO O OO DC HC C cinv chas cd CO P (Some (shape_universe VI s)) a b Ca Cb); now apply follows_mode_ok|apply no_error|].
    intros z (A1 & A2 & A3 & _). apply (fits_ext VI VL PF PO s); [|auto|].
    - split; [auto|now apply (mode_ok_follows VI VL PF)].
    - intros p. now rewrite A3, Cy.
  Qed.

  (** ** Square unions *)

  Lemma m_su_add_rel W (mo : mops VI DC HC W) m pairs s v : strict_total (vo_lt (mo_pure mo)) -> su_rel VI PF (mo_pure mo) m pairs ->
    s <> Zero -> vo_empty (mo_pure mo) v = false ->
    exists m', m_su_add VI PF mo s v m = mret VI (D := DC) (H := HC) m' /\ su_rel VI PF (mo_pure mo) m' (pairs ++ [(s, v)]).
  Proof.
    intros ST R Nz Nv. unfold m_su_add. rewrite (is_zero_false VI) by auto. rewrite Nv. cbn [orb].
    eexists. split; [reflexivity|]. unfold su_rel.
    rewrite (fm_upd_ext _ _ lt _
      (fun o => fs_insert (vo_lt (mo_pure mo)) v (match o with Some b => b | None => [] end))).
    - apply (mm_add_rel lt (vo_lt (mo_pure mo)) (pf_lt PO) ST). exact R.
    - intros o. unfold sb_add. now rewrite Nv.
  Qed.

  Lemma su_flat_eq x r m pairs pairs' : su_rel VI PF (flat_ops VI PF) m pairs ->
    (forall s v, In (s, v) pairs' -> fits r s /\ s <> Zero /\ v_empty VI v = false) ->
    (forall s1 v1 s2 v2, In (s1, v1) pairs' -> In (s2, v2) pairs' -> s1 <> s2 -> disjoint (v_mem VI) v1 v2) ->
    (forall e, In e pairs <-> In e pairs') ->
    eqm (mh_su_node VI PF O (m_flat VI PF O) Flat x m) (su_flat VI PF x pairs').
  Proof.
    intros R H1 H2 HI. destruct (su_flat_ok VI VL PF PO x r pairs' H1 H2) as (y & E & Fy & Cy). rewrite E.
    set (n := fuel_of VI (map fst pairs)). set (md := Some (shape_universe VI (SFlat x r))).
    assert (G : gpairs VI (v_mem VI) (fun _ _ => False) (flat_ops VI PF) (fun _ => True)
                  (fun k => good VI PF n (flat_mode VI md x k)) pairs).
    { split; [|split].
      - intros s v Hin. destruct (H1 s v) as ([Cs Ds] & E1 & E2); [now apply HI|].
        split; [split; auto|split; auto].
        intros k _. split; [auto|split; [|now apply follows_flat_mode]]. apply fuel_height. apply in_map_iff. exists (s, v). auto.
      - intros s1 v1 s2 v2 I1 I2. apply (H2 s1 v1 s2 v2); now apply HI.
      - auto. }
    pose proof (m_su_run_ok VI PF PO O OO DC HC Inv (idle_tick DC HC cinv P) (dd_eval VI PF n) (Ex VI md) (v_mem VI) (fun _ _ => False) (m_flat VI PF O)
      (fun _ => True) (fun k => good VI PF n (flat_mode VI md x k)) (flat_ops_ok VI VL PF PO _ _)
      (m_flat_ok VI VL PF O OO DC HC Inv (idle_tick DC HC cinv P) _) m pairs R G) as S.
    unfold mh_su_node. eapply hm_eqm with (Q := fun z => z = y); [eapply hm_bind; [exact S|]|apply (no_error (SFlat x r))|auto].
    intros alpha (A & _ & C'). apply hm_ret.
    destruct (node_flat_good VI VL PF n md x alpha A) as [(N1 & _ & N2) N3].
    apply (mode_ok_follows VI VL PF) in N2; [|exact N1].
    apply (fits_ext VI VL PF PO (SFlat x r)); [split; auto|auto|].
    intros p. apply bool_ext. rewrite N3, Cy. split.
    - intros (k & q & -> & Hc). apply C' in Hc. destruct Hc as (s & v & I1 & ? & ?). exists s, v, k, q.
      split; [now apply HI|auto].
    - intros (s & v & a & q & I1 & -> & I2 & I3). exists a, q. split; auto. apply C'. exists s, v. split; [now apply HI|auto].
  Qed.

  Lemma su_hier_eq x nn r m pairs pairs' : su_rel VI PF (hier_ops VI PF) m pairs ->
    (forall s v, In (s, v) pairs' -> fits r s /\ s <> Zero /\ fits nn v /\ v <> Zero) ->
    (forall s1 v1 s2 v2, In (s1, v1) pairs' -> In (s2, v2) pairs' -> s1 <> s2 -> disjoint contains v1 v2) ->
    (forall e, In e pairs <-> In e pairs') ->
    eqm (mh_su_node VI PF O (m_hier VI PF (m_eval VI PF O C (su_fuel VI m))) Hier x m) (su_hier VI PF x pairs').
  Proof.
    intros R H1 H2 HI. destruct (su_hier_ok VI VL PF PO x nn r pairs' H1 H2) as (y & E & Fy & Cy). rewrite E.
    set (n := su_fuel VI m). set (md := Some (shape_universe VI (SHier x nn r))).
    assert (HH : forall s v, In (s, v) pairs -> height s <= n /\ height v <= n).
    { intros s v Hin. apply (proj2 (proj2 R)) in Hin. destruct Hin as (b & Hb & Hv).
      split; apply fuel_height; apply in_or_app.
      - left. apply in_map_iff. exists (s, b). auto.
      - right. apply in_concat. exists b. split; [|auto]. apply in_map_iff. exists (s, b). auto. }
    assert (G : gpairs VI contains aclash (hier_ops VI PF) (good VI PF n (val_mode VI md x))
                  (fun a => good VI PF n (hier_mode VI md x a)) pairs).
    { split; [|split].
      - intros s v Hin. destruct (HH s v Hin) as [Hs Hv]. destruct (H1 s v) as ([Cs Ds] & E1 & [Cv Dv] & E2); [now apply HI|].
        split; [split; auto|split; [|now apply is_zero_false]].
        + intros a Ha. split; [auto|split; [auto|now apply (follows_hier_mode VI x nn r v)]].
        + split; [auto|split; [auto|]]. apply (follows_val_mode VI x nn r v s); auto. now apply (canonical_nonempty VI VL lt).
      - intros s1 v1 s2 v2 I1 I2. apply (H2 s1 v1 s2 v2); now apply HI.
      - intros s1 v1 s2 v2 k1 k2 I1 I2 M1 M2. apply HI in I1. apply HI in I2.
        destruct (H1 _ _ I1) as (_ & _ & [_ D1] & _). destruct (H1 _ _ I2) as (_ & _ & [_ D2] & _).
        exact (shape_free VI nn k1 k2 (follows_asg VI nn v1 D1 k1 M1) (follows_asg VI nn v2 D2 k2 M2)). }
    pose proof (m_su_run_ok VI PF PO O OO DC HC Inv (idle_tick DC HC cinv P) (dd_eval VI PF n) (Ex VI md) contains aclash (m_hier VI PF (m_eval VI PF O C n))
      (good VI PF n (val_mode VI md x)) (fun a => good VI PF n (hier_mode VI md x a))
      (val_ops VI VL PF PO n _ md x (dd_eval_ok VI VL PF PO n))
      (m_val_ops VI PF PO DC HC Inv n _ md x (m_eval_idle VI VL PF PO O OO DC HC C cinv chas cd CO P n)) m pairs R G) as S.
    unfold mh_su_node. eapply hm_eqm with (Q := fun z => z = y); [eapply hm_bind; [exact S|]|apply (no_error (SHier x nn r))|auto].
    intros alpha (A & _ & C'). apply hm_ret.
    destruct (node_hier_good VI VL PF n md x alpha A) as [(N1 & _ & N2) N3].
    apply (mode_ok_follows VI VL PF) in N2; [|exact N1].
    apply (fits_ext VI VL PF PO (SHier x nn r)); [split; auto|auto|].
    intros p. apply bool_ext. rewrite N3, Cy. split.
    - intros (k & q & -> & Hc). apply C' in Hc. destruct Hc as (s & v & I1 & ? & ?). exists s, v, k, q.
      split; [now apply HI|auto].
    - intros (s & v & a & q & I1 & -> & I2 & I3). exists a, q. split; auto. apply C'. exists s, v. split; [now apply HI|auto].
  Qed.

  (** ** Evaluation *)

  Variables U F I : Type.
  Notation hom := (hom V U F I).
  Notation order := (order U).
  Variable US : user V U F I.
  Hypothesis HO : honest VI PF U F I US.
  Notation hop := (hop VI U F I).
  Notation typed := (typed VI PF U F I US).
  Notation oshape := (oshape U).
  Notation olevel := (olevel U).
  Notation hskip := (hskip VI U F I US).
  Notation hselector := (hselector VI U F I US).
  Notation safe := (safe VI PF U F I US).
  Notation result_ok := (result_ok VI PF U F I US).
  Notation weak_ok := (weak_ok VI PF U F I US).
  Variable alarm : nat -> bool.
  Hypothesis AL : forall t, alarm t = true -> abrupt EUser.

  Lemma eqm_user A B (a : A) (f : A -> M B) r : eqm (f a) r -> eqm (mbind VI (user_call VI alarm a) f) r.
  Proof.
    intros H Ht s [H1 H2]. unfold mbind, user_call. destruct (alarm (clock s)) eqn:E.
    - split; [|split; assumption]. right. exists EUser. split; [now apply (AL (clock s))|reflexivity].
    - apply H; [exact Ht|split; assumption].
  Qed.

  (** The homomorphisms that may be applied: closed under the calls that a homomorphism makes. *)
  Variable ok : hom -> Prop.
  Record hereditary : Prop := {
    hd_comp : forall l r, ok (HComp l r) -> ok l /\ ok r;
    hd_consF : forall o v h, ok (HConsF o v h) -> ok h;
    hd_consH : forall o v h, ok (HConsH o v h) -> ok h;
    hd_fix : forall h, ok (HFix h) -> ok h;
    hd_ite : forall p t e, ok (HIte p t e) -> ok p /\ ok t /\ ok e;
    hd_ind : forall i o s, ok (HInd i) -> oshape o s -> o_empty o = false ->
      (forall v, ok (i_flat US i o v)) /\ (forall v, ok (i_hier US i o v));
    hd_inter : forall l h, ok (HInter l) -> In h l -> ok h;
    hd_local : forall t h, ok (HLocal t h) -> ok h;
    hd_satfix : forall x f g l, ok (HSatFix x f g l) -> ok f /\ (forall h, In h g -> ok h) /\ ok l;
    hd_satinter : forall x f g l h, ok (HSatInter x f g l) -> In h (opt_list VI U F I f ++ g ++ opt_list VI U F I l) -> ok h;
    hd_satsum : forall x f g l h, ok (HSatSum x f g l) -> In h (opt_list VI U F I f ++ g ++ opt_list VI U F I l) -> ok h;
    hd_sum : forall l h, ok (HSum l) -> In h l -> ok h
  }.
  Hypothesis HD : hereditary.

  Section Body.
    Variable k : hop -> res (err V) sdd.
    Variable mk : hop -> M sdd.
    Hypothesis K : safe k.
    Hypothesis MK : forall o h s s' x, typed o h s' -> ok h -> oshape o s -> fits s x -> x <> Zero -> h <> HId ->
      eqm (mk (o, h, x)) (k (o, h, x)).
    Notation hoare := (hoare k (eq EFuel)).
    Notation hcall := (hcall VI U F I).
    Notation mh_call := (mh_call VI U F I mk).
    Notation cf := (call_fun VI U F I k).

    Lemma interp_lift A (r : res (err V) A) : interp k (lift VI U F I r) = r.
    Proof. destruct r; reflexivity. Qed.

    Lemma both_bind A B (p : M A) (f : A -> M B) q g (Q : A -> Prop) : eqm p (interp k q) -> hoare q Q ->
      (forall a, Q a -> eqm (f a) (interp k (g a))) -> eqm (mbind VI p f) (interp k (bind q g)).
    Proof.
      intros Hp Hq Hf. rewrite interp_bind. apply eqm_bind; [exact Hp|]. intros a E. apply Hf.
      unfold Base.hoare in Hq. rewrite E in Hq. exact Hq.
    Qed.

    Lemma call_eq o h s s' x : typed o h s' -> ok h -> oshape o s -> fits s x -> eqm (mh_call o h x) (interp k (hcall o h x)).
    Proof.
      intros T Kh Os Fx. unfold MovingHom.mh_call, Hom.hcall.
      destruct (is_id VI U F I h) eqn:E1; cbn [orb]; [apply eqm_ret|].
      destruct (is_zero VI x) eqn:E2; [apply eqm_ret|].
      assert (A : eqm (mk (o, h, x)) (k (o, h, x))).
      { apply (MK o h s s' x); auto.
        - intros ->. discriminate.
        - intros ->. discriminate. }
      unfold call. cbn [interp]. destruct (k (o, h, x)); exact A.
    Qed.

    (** A call succeeds or lacks fuel. *)
    Lemma call_cases o h s s' x : typed o h s' -> oshape o s -> fits s x ->
      (interp k (hcall o h x) = Ok (cf o h x) /\ result_ok h s' x (cf o h x)) \/ interp k (hcall o h x) = Err EFuel.
    Proof.
      intros T Os Fx. pose proof (hcall_safe VI PF U F I US k K o h s s' x T Os Fx) as X.
      unfold Base.hoare, call_fun in *. destruct (interp k (hcall o h x)) as [y|e]; cbn in X; [left; auto|right; now subst e].
    Qed.

    (** *** Loops on the arcs of a node *)

    Lemma forward_eq W (mo : mops VI DC HC W) o h s r' : typed o h r' -> ok h -> oshape o s -> strict_total (vo_lt (mo_pure mo)) ->
      forall l m done, su_rel VI PF (mo_pure mo) m done ->
      (forall v z, In (v, z) l -> fits s z /\ vo_empty (mo_pure mo) v = false) ->
      (exists m', eqm (mh_forward VI PF U F I mk mo o h l m) (Ok m') /\
         su_rel VI PF (mo_pure mo) m' (done ++ fwd_pairs VI (cf o h) l) /\
         forall v z, In (v, z) l -> interp k (hcall o h z) = Ok (cf o h z) /\ result_ok h r' z (cf o h z)) \/
      (eqm (mh_forward VI PF U F I mk mo o h l m) (Err EFuel) /\
         exists v z, In (v, z) l /\ interp k (hcall o h z) = Err EFuel).
    Proof.
      intros T Kh Os ST. induction l as [|[v z] l IH]; intros m done R G; cbn [mh_forward].
      - left. exists m. split; [apply eqm_ret|]. split; [|intros v z []]. unfold fwd_pairs. cbn. now rewrite app_nil_r.
      - destruct (G v z (or_introl eq_refl)) as [Fz Ev].
        pose proof (call_eq o h s r' z T Kh Os Fz) as C'.
        assert (G' : forall v0 z0, In (v0, z0) l -> fits s z0 /\ vo_empty (mo_pure mo) v0 = false).
        { intros v0 z0 Hin. apply G. now right. }
        destruct (call_cases o h s r' z T Os Fz) as [[E Rk]|E]; rewrite E in C'.
        2: { right. split.
             - apply (eqm_bind _ _ _ _ (Err EFuel) (fun _ => Err EFuel) C'). discriminate.
             - exists v, z. split; [now left|auto]. }
        assert (Step : forall m2 done2, su_rel VI PF (mo_pure mo) m2 done2 ->
                  done2 = done ++ fwd_pairs VI (cf o h) [(v, z)] ->
                  (exists m', eqm (mh_forward VI PF U F I mk mo o h l m2) (Ok m') /\
                     su_rel VI PF (mo_pure mo) m' (done ++ fwd_pairs VI (cf o h) ((v, z) :: l)) /\
                     forall v0 z0, In (v0, z0) ((v, z) :: l) ->
                       interp k (hcall o h z0) = Ok (cf o h z0) /\ result_ok h r' z0 (cf o h z0)) \/
                  (eqm (mh_forward VI PF U F I mk mo o h l m2) (Err EFuel) /\
                     exists v0 z0, In (v0, z0) ((v, z) :: l) /\ interp k (hcall o h z0) = Err EFuel)).
        { intros m2 done2 R2 ->. destruct (IH m2 _ R2 G') as [(m' & A1 & A2 & A3)|(A1 & v0 & z0 & A2 & A3)].
          - left. exists m'. split; [auto|]. split.
            + rewrite <- app_assoc in A2. replace (fwd_pairs VI (cf o h) ((v, z) :: l))
                with (fwd_pairs VI (cf o h) [(v, z)] ++ fwd_pairs VI (cf o h) l); [auto|].
              unfold fwd_pairs. cbn [filter map]. destruct (negb _); reflexivity.
            + intros v0 z0 [E0|Hin]; [|eauto]. injection E0 as <- <-. auto.
          - right. split; [auto|]. exists v0, z0. split; [now right|auto]. }
        unfold fwd_pairs in Step at 1. cbn [filter map snd fst] in Step.
        destruct (is_zero VI (cf o h z)) eqn:Ez; cbn [negb] in Step.
        + rewrite app_nil_r in Step. specialize (Step m done R eq_refl).
          destruct Step as [(m' & A1 & A2 & A3)|(A1 & A2)].
          * left. exists m'. split; [|auto]. apply (eqm_bind _ _ _ _ (Ok (cf o h z)) (fun _ => Ok m') C').
            intros a E0. injection E0 as <-. now rewrite Ez.
          * right. split; [|auto]. apply (eqm_bind _ _ _ _ (Ok (cf o h z)) (fun _ => Err EFuel) C').
            intros a E0. injection E0 as <-. now rewrite Ez.
        + destruct (m_su_add_rel W mo m done (cf o h z) v ST R) as (m2 & Em & R2).
          { intros E0. rewrite E0 in Ez. discriminate. } { auto. }
          specialize (Step m2 _ R2 eq_refl).
          destruct Step as [(m' & A1 & A2 & A3)|(A1 & A2)].
          * left. exists m'. split; [|auto]. apply (eqm_bind _ _ _ _ (Ok (cf o h z)) (fun _ => Ok m') C').
            intros a E0. injection E0 as <-. rewrite Ez, Em. exact A1.
          * right. split; [|auto]. apply (eqm_bind _ _ _ _ (Ok (cf o h z)) (fun _ => Err EFuel) C').
            intros a E0. injection E0 as <-. rewrite Ez, Em. exact A1.
    Qed.

    Lemma forward_static W o h s r' : typed o h r' -> oshape o s -> forall (l : list (W * sdd)),
      (forall v z, In (v, z) l -> fits s z) ->
      ((forall v z, In (v, z) l -> interp k (hcall o h z) = Ok (cf o h z)) ->
        interp k (forward VI U F I o h l) = Ok (fwd_pairs VI (cf o h) l)) /\
      ((exists v z, In (v, z) l /\ interp k (hcall o h z) = Err EFuel) ->
        interp k (forward VI U F I o h l) = Err EFuel).
    Proof.
      intros T Os. induction l as [|[v z] l IH]; intros G; cbn [forward].
      - split; [reflexivity|]. intros (v & z & [] & _).
      - rewrite interp_bind. destruct IH as [I1 I2]; [intros v0 z0 Hin; apply (G v0 z0); now right|]. split.
        + intros H. rewrite (H v z (or_introl eq_refl)). cbn [rbind]. rewrite interp_bind, I1.
          * unfold fwd_pairs. cbn. destruct (is_zero VI (cf o h z)); reflexivity.
          * intros v0 z0 Hin. apply (H v0 z0). now right.
        + intros (v0 & z0 & Hin & E).
          destruct (call_cases o h s r' z T Os (G v z (or_introl eq_refl))) as [[E1 _]|E1]; rewrite E1; [|reflexivity].
          cbn [rbind]. rewrite interp_bind, I2; [reflexivity|].
          destruct Hin as [E0|Hin]; [injection E0 as <- <-; congruence|eauto].
    Qed.

    Lemma forward_body W (mo : mops VI DC HC W) (mk' : list (sdd * list W) -> M sdd) (st : list (sdd * W) -> res (err V) sdd)
        o h s r' arcs : typed o h r' -> ok h -> oshape o s -> strict_total (vo_lt (mo_pure mo)) ->
      (forall v z, In (v, z) arcs -> fits s z /\ vo_empty (mo_pure mo) v = false) ->
      (forall m pairs, su_rel VI PF (mo_pure mo) m pairs ->
         (forall z, In z (map snd arcs) -> result_ok h r' z (cf o h z)) ->
         (forall e, In e pairs <-> In e (fwd_pairs VI (cf o h) arcs)) ->
         eqm (mk' m) (st (fwd_pairs VI (cf o h) arcs))) ->
      eqm (mbind VI (visit VI O arcs) (fun l => mbind VI (mh_forward VI PF U F I mk mo o h l []) mk'))
        (interp k (pairs <- forward VI U F I o h arcs ;; lift VI U F I (st pairs))).
    Proof.
      intros T Kh Os ST G HF. rewrite interp_bind. apply eqm_visit. intros l HP.
      assert (HI : forall e, In e l <-> In e arcs).
      { intros e. split; intros Hin; [exact (Permutation_in _ HP Hin)|exact (Permutation_in _ (Permutation_sym HP) Hin)]. }
      destruct (forward_static W o h s r' T Os arcs) as [S1 S2]; [intros v z Hin; now apply (G v z)|].
      destruct (forward_eq W mo o h s r' T Kh Os ST l [] [] (su_rel_nil VI PF _)) as [(m' & A1 & A2 & A3)|(A1 & v & z & A2 & A3)].
      - intros v z Hin. apply (G v z). now apply HI.
      - rewrite S1 by (intros v z Hin; apply (A3 v z); now apply HI). cbn [rbind]. rewrite interp_lift.
        apply (eqm_bind _ _ _ _ (Ok m') (fun _ => st (fwd_pairs VI (cf o h) arcs)) A1). intros a E. injection E as <-.
        apply (HF m' (fwd_pairs VI (cf o h) l)); [exact A2| |].
        + intros z Hz. apply in_map_iff in Hz. destruct Hz as ([v z'] & <- & Hin). apply (A3 v z'). now apply HI.
        + intros [s1 v1]. rewrite !fwd_pairs_in. split; intros (z & Hz & X); exists z; (split; [now apply HI|auto]).
      - rewrite S2 by (exists v, z; split; [now apply HI|auto]). cbn [rbind].
        apply (eqm_bind _ _ _ _ (Err EFuel) (fun _ => Err EFuel) A1). discriminate.
    Qed.

    Lemma local_su_eq o h n n' (mo : mops VI DC HC sdd) : typed o h n' -> ok h -> oshape o n -> mo_pure mo = hier_ops VI PF ->
      forall l m done, su_rel VI PF (hier_ops VI PF) m done ->
      (forall v z, In (v, z) l -> fits n v /\ z <> Zero) ->
      (exists m', eqm (mh_local_su VI PF U F I mk o h l m mo) (Ok m') /\
         su_rel VI PF (hier_ops VI PF) m' (done ++ map (fun a => (snd a, cf o h (fst a)))
           (filter (fun a => negb (is_zero VI (cf o h (fst a)))) l)) /\
         forall v z, In (v, z) l -> interp k (hcall o h v) = Ok (cf o h v)) \/
      (eqm (mh_local_su VI PF U F I mk o h l m mo) (Err EFuel) /\
         exists v z, In (v, z) l /\ interp k (hcall o h v) = Err EFuel).
    Proof.
      intros T Kh Os Pm. induction l as [|[v z] l IH]; intros m done R G; cbn [mh_local_su].
      - left. exists m. split; [apply eqm_ret|]. split; [|intros v z []]. cbn. now rewrite app_nil_r.
      - destruct (G v z (or_introl eq_refl)) as [Fv Nz].
        pose proof (call_eq o h n n' v T Kh Os Fv) as C'.
        assert (G' : forall v0 z0, In (v0, z0) l -> fits n v0 /\ z0 <> Zero).
        { intros v0 z0 Hin. apply G. now right. }
        destruct (call_cases o h n n' v T Os Fv) as [[E Rk]|E]; rewrite E in C'.
        2: { right. split.
             - apply (eqm_bind _ _ _ _ (Err EFuel) (fun _ => Err EFuel) C'). discriminate.
             - exists v, z. split; [now left|auto]. }
        cbn [filter fst].
        destruct (is_zero VI (cf o h v)) eqn:Ez; cbn [negb].
        + destruct (IH m done R G') as [(m' & A1 & A2 & A3)|(A1 & v0 & z0 & A2 & A3)].
          * left. exists m'. split; [|split; [exact A2|]].
            { apply (eqm_bind _ _ _ _ (Ok (cf o h v)) (fun _ => Ok m') C').
              intros a E0. injection E0 as <-. now rewrite Ez. }
            intros v0 z0 [E0|Hin]; [|eauto]. injection E0 as <- <-. auto.
          * right. split; [|exists v0, z0; split; [now right|auto]].
            apply (eqm_bind _ _ _ _ (Ok (cf o h v)) (fun _ => Err EFuel) C').
            intros a E0. injection E0 as <-. now rewrite Ez.
        + assert (R' : su_rel VI PF (mo_pure mo) m done) by now rewrite Pm.
          destruct (m_su_add_rel sdd mo m done z (cf o h v)) as (m2 & Em & R2); auto.
          { rewrite Pm. apply (pf_lt PO). }
          { rewrite Pm. exact Ez. }
          rewrite Pm in R2. cbn [map fst snd].
          destruct (IH m2 _ R2 G') as [(m' & A1 & A2 & A3)|(A1 & v0 & z0 & A2 & A3)].
          * left. exists m'. split; [|split; [rewrite <- app_assoc in A2; exact A2|]].
            { apply (eqm_bind _ _ _ _ (Ok (cf o h v)) (fun _ => Ok m') C').
              intros a E0. injection E0 as <-. rewrite Ez, Em. exact A1. }
            intros v0 z0 [E0|Hin]; [|eauto]. injection E0 as <- <-. auto.
          * right. split; [|exists v0, z0; split; [now right|auto]].
            apply (eqm_bind _ _ _ _ (Ok (cf o h v)) (fun _ => Err EFuel) C').
            intros a E0. injection E0 as <-. rewrite Ez, Em. exact A1.
    Qed.

    Lemma local_vals_eq o h n n' x : typed o h n' -> ok h -> oshape o n -> forall l,
      (forall v z, In (v, z) l -> fits n v) ->
      (eqm (mh_local_vals VI PF U F I mk x o h l) (Ok (map (fun a => node_hier VI PF x (cf o h (fst a)) (snd a)) l)) /\
         forall v z, In (v, z) l -> interp k (hcall o h v) = Ok (cf o h v)) \/
      (eqm (mh_local_vals VI PF U F I mk x o h l) (Err EFuel) /\
         exists v z, In (v, z) l /\ interp k (hcall o h v) = Err EFuel).
    Proof.
      intros T Kh Os. induction l as [|[v z] l IH]; intros G; cbn [mh_local_vals].
      - left. split; [apply eqm_ret|intros v z []].
      - pose proof (G v z (or_introl eq_refl)) as Fv.
        pose proof (call_eq o h n n' v T Kh Os Fv) as C'.
        destruct (call_cases o h n n' v T Os Fv) as [[E Rk]|E]; rewrite E in C'.
        2: { right. split.
             - apply (eqm_bind _ _ _ _ (Err EFuel) (fun _ => Err EFuel) C'). discriminate.
             - exists v, z. split; [now left|auto]. }
        destruct IH as [[A1 A2]|[A1 (v0 & z0 & A2 & A3)]]; [intros v0 z0 Hin; apply (G v0 z0); now right| |].
        + left. split.
          * cbn [map fst snd]. set (l' := map _ l) in *.
            apply (eqm_bind _ _ _ _ (Ok (cf o h v)) (fun y => Ok (node_hier VI PF x y z :: l')) C').
            intros a E0. apply (eqm_bind _ _ _ _ (Ok l') (fun ys => Ok (node_hier VI PF x a z :: ys)) A1).
            intros ys _. apply eqm_ret.
          * intros v0 z0 [E0|Hin]; [|eauto]. injection E0 as <- <-. auto.
        + right. split; [|exists v0, z0; split; [now right|auto]].
          apply (eqm_bind _ _ _ _ (Ok (cf o h v)) (fun y => Err EFuel) C').
          intros a E0. apply (eqm_bind _ _ _ _ (Err EFuel) (fun ys => Err EFuel) A1). discriminate.
    Qed.

    Lemma local_static o h n n' : typed o h n' -> oshape o n -> forall l,
      (forall v z, In (v, z) l -> fits n v) ->
      ((forall v z, In (v, z) l -> interp k (hcall o h v) = Ok (cf o h v)) ->
        interp k (local_vals VI U F I o h l) = Ok (map (fun a => (cf o h (fst a), snd a)) l)) /\
      ((exists v z, In (v, z) l /\ interp k (hcall o h v) = Err EFuel) ->
        interp k (local_vals VI U F I o h l) = Err EFuel).
    Proof.
      intros T Os. induction l as [|[v z] l IH]; intros G; cbn [local_vals].
      - split; [reflexivity|]. intros (v & z & [] & _).
      - rewrite interp_bind. destruct IH as [I1 I2]; [intros v0 z0 Hin; apply (G v0 z0); now right|]. split.
        + intros H. rewrite (H v z (or_introl eq_refl)). cbn [rbind]. rewrite interp_bind, I1.
          * reflexivity.
          * intros v0 z0 Hin. apply (H v0 z0). now right.
        + intros (v0 & z0 & Hin & E).
          destruct (call_cases o h n n' v T Os (G v z (or_introl eq_refl))) as [[E1 _]|E1]; rewrite E1; [|reflexivity].
          cbn [rbind]. rewrite interp_bind, I2; [reflexivity|].
          destruct Hin as [E0|Hin]; [injection E0 as <- <-; congruence|eauto].
    Qed.

    Lemma ind_vals_eq W o s s' (kk : W -> hom) : oshape o s -> forall l,
      (forall v, ok (kk v)) -> (forall v z, In (v, z) l -> typed o (kk v) s' /\ fits s z) ->
      (eqm (mh_ind_vals VI U F I alarm mk o kk l) (Ok (map (fun a => cf o (kk (fst a)) (snd a)) l)) /\
         forall v z, In (v, z) l -> interp k (hcall o (kk v) z) = Ok (cf o (kk v) z) /\ fits s' (cf o (kk v) z)) \/
      (eqm (mh_ind_vals VI U F I alarm mk o kk l) (Err EFuel) /\
         exists v z, In (v, z) l /\ interp k (hcall o (kk v) z) = Err EFuel).
    Proof.
      intros Os. induction l as [|[v z] l IH]; intros Kk G; cbn [mh_ind_vals].
      - left. split; [apply eqm_ret|intros v z []].
      - destruct (G v z (or_introl eq_refl)) as [T Fz].
        assert (Us : forall r, eqm (mbind VI (mh_call o (kk v) z) (fun y => mbind VI (mh_ind_vals VI U F I alarm mk o kk l)
                       (fun ys => mret VI (y :: ys)))) r ->
                     eqm (mbind VI (user_call VI alarm (kk v)) (fun h => mbind VI (mh_call o h z) (fun y =>
                       mbind VI (mh_ind_vals VI U F I alarm mk o kk l) (fun ys => mret VI (y :: ys))))) r).
        { intros r Hr. now apply eqm_user. }
        pose proof (call_eq o (kk v) s s' z T (Kk v) Os Fz) as C'.
        destruct (call_cases o (kk v) s s' z T Os Fz) as [[E Rk]|E]; rewrite E in C'.
        2: { right. split.
             - apply Us. apply (eqm_bind _ _ _ _ (Err EFuel) (fun _ => Err EFuel) C'). discriminate.
             - exists v, z. split; [now left|auto]. }
        destruct IH as [[A1 A2]|[A1 (v0 & z0 & A2 & A3)]]; [exact Kk|intros v0 z0 Hin; apply (G v0 z0); now right| |].
        + left. split.
          * cbn [map fst snd]. set (l' := map _ l) in *. apply Us.
            apply (eqm_bind _ _ _ _ (Ok (cf o (kk v) z)) (fun y => Ok (y :: l')) C').
            intros a E0. apply (eqm_bind _ _ _ _ (Ok l') (fun ys => Ok (a :: ys)) A1).
            intros ys _. apply eqm_ret.
          * intros v0 z0 [E0|Hin]; [|eauto]. injection E0 as <- <-. split; [auto|apply Rk].
        + right. split; [|exists v0, z0; split; [now right|auto]]. apply Us.
          apply (eqm_bind _ _ _ _ (Ok (cf o (kk v) z)) (fun y => Err EFuel) C').
          intros a E0. apply (eqm_bind _ _ _ _ (Err EFuel) (fun ys => Err EFuel) A1). discriminate.
    Qed.

    Lemma ind_static W o s s' (kk : W -> hom) : oshape o s -> forall l,
      (forall v z, In (v, z) l -> typed o (kk v) s' /\ fits s z) ->
      ((forall v z, In (v, z) l -> interp k (hcall o (kk v) z) = Ok (cf o (kk v) z)) ->
        interp k (ind_vals VI U F I o kk l) = Ok (map (fun a => cf o (kk (fst a)) (snd a)) l)) /\
      ((exists v z, In (v, z) l /\ interp k (hcall o (kk v) z) = Err EFuel) ->
        interp k (ind_vals VI U F I o kk l) = Err EFuel).
    Proof.
      intros Os. induction l as [|[v z] l IH]; intros G; cbn [ind_vals].
      - split; [reflexivity|]. intros (v & z & [] & _).
      - rewrite interp_bind. destruct IH as [I1 I2]; [intros v0 z0 Hin; apply (G v0 z0); now right|]. split.
        + intros H. rewrite (H v z (or_introl eq_refl)). cbn [rbind]. rewrite interp_bind, I1.
          * reflexivity.
          * intros v0 z0 Hin. apply (H v0 z0). now right.
        + intros (v0 & z0 & Hin & E). destruct (G v z (or_introl eq_refl)) as [T Fz].
          destruct (call_cases o (kk v) s s' z T Os Fz) as [[E1 _]|E1]; rewrite E1; [|reflexivity].
          cbn [rbind]. rewrite interp_bind, I2; [reflexivity|].
          destruct Hin as [E0|Hin]; [injection E0 as <- <-; congruence|eauto].
    Qed.

    Lemma perm_in A (l m : list A) : Permutation l m -> forall e, In e l <-> In e m.
    Proof. intros HP e. split; intros Hin; [exact (Permutation_in _ HP Hin)|exact (Permutation_in _ (Permutation_sym HP) Hin)]. Qed.

    Lemma ind_body W o s s' (kk : W -> hom) arcs : oshape o s ->
      (forall v, ok (kk v)) -> (forall v z, In (v, z) arcs -> typed o (kk v) s' /\ fits s z) ->
      eqm (mbind VI (visit VI O arcs) (fun l => mbind VI (mh_ind_vals VI U F I alarm mk o kk l) (mv_sum VI PF O C)))
        (interp k (ys <- ind_vals VI U F I o kk arcs ;; lift VI U F I (api_sum VI PF ys))).
    Proof.
      intros Os Kk G. rewrite interp_bind. apply eqm_visit. intros l HP. pose proof (perm_in _ _ _ HP) as HI.
      destruct (ind_static W o s s' kk Os arcs G) as [S1 S2].
      destruct (ind_vals_eq W o s s' kk Os l Kk) as [[A1 A2]|[A1 (v & z & A2 & A3)]].
      - intros v z Hin. apply (G v z). now apply HI.
      - rewrite S1 by (intros v z Hin; apply (A2 v z); now apply HI). cbn [rbind]. rewrite interp_lift.
        set (l' := map _ l) in *.
        apply (eqm_bind _ _ _ _ (Ok l') (fun _ => api_sum VI PF _) A1). intros a E. injection E as <-.
        apply (mv_sum_eq s').
        + intros y Hy. apply in_map_iff in Hy. destruct Hy as ([v z] & <- & Hin). cbn. apply (A2 v z). now apply HI.
        + intros y. subst l'. rewrite !in_map_iff. split; intros (a & E & Hin); exists a; (split; [auto|now apply HI]).
      - rewrite S2 by (exists v, z; split; [now apply HI|auto]). cbn [rbind].
        apply (eqm_bind _ _ _ _ (Err EFuel) (fun _ => Err EFuel) A1). discriminate.
    Qed.

    (** *** Loops on the operands of a homomorphism *)

    Lemma calls_eq o s s' x hs : oshape o s -> fits s x -> (forall h, In h hs -> ok h) -> (forall h, In h hs -> typed o h s') ->
      eqm (mh_calls VI U F I mk o hs x) (interp k (hcalls VI U F I o hs x)).
    Proof.
      intros Os Fx. induction hs as [|h hs IH]; intros Kh T; cbn [mh_calls hcalls]; [apply eqm_ret|].
      eapply both_bind.
      - apply (call_eq o h s s' x); auto; [apply T|apply Kh]; now left.
      - apply (hcall_safe VI PF U F I US k K o h s s' x); auto. apply T. now left.
      - intros y _. apply (both_bind _ _ _ _ _ _ (fun _ => True)).
        + apply IH; intros h' Hh; [apply Kh|apply T]; now right.
        + eapply hoare_conseq; [apply (hcalls_safe VI PF U F I US k K o s s' x hs Os Fx); intros h' Hh; apply T; now right|].
          auto.
        + intros ys _. apply eqm_ret.
    Qed.

    Lemma inter_eq o s s' x hs : oshape o s -> fits s x -> (forall h, In h hs -> ok h) -> (forall h, In h hs -> typed o h s') ->
      forall acc, (forall y, In y acc -> fits s' y) -> (hs <> [] \/ acc <> []) ->
      eqm (mh_inter_loop VI PF O C U F I mk o hs x acc) (interp k (inter_loop VI PF U F I o hs x acc)).
    Proof.
      intros Os Fx. induction hs as [|h hs IH]; intros Kh T acc Hacc Ne; cbn [mh_inter_loop inter_loop].
      - rewrite interp_lift. destruct Ne as [Ne|Ne]; [congruence|]. now apply (mv_inter_eq s').
      - eapply both_bind.
        + apply (call_eq o h s s' x); auto; [apply T|apply Kh]; now left.
        + apply (hcall_safe VI PF U F I US k K o h s s' x); auto. apply T. now left.
        + intros y [Fy _]. destruct (is_zero VI y); [apply eqm_ret|]. apply IH.
          * intros h' Hh. apply Kh. now right.
          * intros h' Hh. apply T. now right.
          * intros z Hz. apply in_app_iff in Hz. destruct Hz as [Hz|[<-|[]]]; auto.
          * right. destruct acc; discriminate.
    Qed.

    (** The bound on iterations may be lower than the one of Hom.v if the lack of fuel is abrupt. *)
    Definition bounds (n m : nat) : Prop := n = m \/ n <= m /\ abrupt EFuel.
    Lemma bounds_0 m A (r : res (err V) A) : bounds 0 m -> (m = 0 -> r = Err EFuel) -> eqm (mthrow VI EFuel) r.
    Proof. intros [E|[_ B]] Hr; [rewrite Hr by auto; apply eqm_throw|now apply eqm_stop]. Qed.
    Lemma bounds_S n m : bounds (S n) m -> exists m', m = S m' /\ bounds n m'.
    Proof.
      intros [<-|[L B]]; [exists n; split; [auto|now left]|].
      destruct m as [|m]; [lia|]. exists m. split; [auto|]. right. split; [lia|auto].
    Qed.

    Lemma fix_eq o h s : typed o h s -> ok h -> oshape o s -> forall n m x, bounds n m -> fits s x ->
      eqm (mh_fix VI PF U F I mk n o h x) (interp k (fix_loop VI PF U F I m o h x)).
    Proof.
      intros T Kh Os. induction n as [|n IH]; intros m x Bn Fx; cbn [mh_fix].
      { apply (bounds_0 m); [auto|]. intros ->. reflexivity. }
      destruct (bounds_S n m Bn) as (m' & -> & Bn'). cbn [fix_loop].
      eapply both_bind; [apply (call_eq o h s s x); auto|apply (hcall_safe VI PF U F I US k K o h s s x); auto|].
      intros y [Fy _]. destruct (sdd_eqb VI PF y x); [apply eqm_ret|now apply IH].
    Qed.

    Lemma chain_eq o s g : oshape o s -> (forall h, In h g -> ok h) -> (forall h, In h g -> typed o h s) -> forall x, fits s x ->
      eqm (mh_chain VI PF O C U F I mk o g x) (interp k (g_chain VI PF U F I o g x)).
    Proof.
      intros Os. induction g as [|h g IH]; intros Kh T x Fx; cbn [mh_chain g_chain]; [apply eqm_ret|].
      eapply both_bind.
      - apply (call_eq o h s s x); auto; [apply T|apply Kh]; now left.
      - apply (hcall_safe VI PF U F I US k K o h s s x); auto. apply T. now left.
      - intros y [Fy _].
        assert (Fs : forall w, In w [x; y] -> fits s w) by (intros w [<-|[<-|[]]]; auto).
        destruct (sum_ok VI VL PF PO s [x; y] Fs) as (z & E & Fz & _).
        apply (both_bind _ _ _ _ _ _ (fits s)).
        + rewrite interp_lift. now apply (mv_sum_eq s).
        + rewrite E. exact Fz.
        + intros w Fw. apply IH; [intros h' Hh; apply Kh; now right|intros h' Hh; apply T; now right|auto].
    Qed.

    Lemma sat_eq o s f g l : oshape o s -> ok f -> (forall h, In h g -> ok h) -> ok l -> typed o f s -> (forall h, In h g -> typed o h s) -> typed o l s ->
      forall n m x, bounds n m -> fits s x ->
      eqm (mh_sat VI PF O C U F I mk n o f g l x) (interp k (sat_loop VI PF U F I m o f g l x)).
    Proof.
      intros Os Kf Kg Kl Tf Tg Tl. induction n as [|n IH]; intros m x Bn Fx; cbn [mh_sat].
      { apply (bounds_0 m); [auto|]. intros ->. reflexivity. }
      destruct (bounds_S n m Bn) as (m' & -> & Bn'). cbn [sat_loop].
      eapply both_bind; [apply (call_eq o f s s x); auto|apply (hcall_safe VI PF U F I US k K o f s s x); auto|].
      intros x2 [F2 _].
      eapply both_bind; [apply (call_eq o l s s x2); auto|apply (hcall_safe VI PF U F I US k K o l s s x2); auto|].
      intros x3 [F3 _].
      eapply both_bind; [apply (chain_eq o s g); auto|apply (chain_safe VI VL PF PO U F I US k K o s g Os Tg x3 F3)|].
      intros x4 [F4 _]. destruct (sdd_eqb VI PF x x4); [apply eqm_ret|now apply IH].
    Qed.

    (** *** Functions *)

    Notation fstep g := (fun (alpha : list (sdd * V)) (arc : V * sdd) =>
      let val := g (fst arc) in if v_empty VI val then alpha else alpha_add VI PF val (snd arc) alpha).

    Lemma fast_loop (g : V -> V) : forall l al, NoDup (map snd l) -> ksorted lt al ->
      (forall s v, In (s, v) al -> ~ In s (map snd l)) ->
      ksorted lt (fold_left (fstep g) l al) /\ forall s v, In (s, v) (fold_left (fstep g) l al) <->
        In (s, v) al \/ exists w, In (w, s) l /\ v = g w /\ v_empty VI v = false.
    Proof.
      pose proof (pf_lt PO) as ST. induction l as [|[w s] l IH]; intros al Nd Ks Fr; cbn [fold_left fst snd].
      - split; [auto|]. intros s v. split; [auto|intros [X|(w & [] & _)]; auto].
      - inversion Nd as [|? ? N1 N2]; subst. destruct (v_empty VI (g w)) eqn:E.
        + destruct (IH al N2 Ks) as [I1 I2].
          { intros s' v' Hin Hl. apply (Fr _ _ Hin). now right. }
          split; [auto|]. intros s' v'. rewrite I2. split.
          * intros [X|(w' & X & Y)]; [auto|right; exists w'; split; [now right|auto]].
          * intros [X|(w' & [X|X] & Y1 & Y2)]; [auto| |right; exists w'; auto].
            injection X as -> ->. congruence.
        + assert (Hadd : forall s' v', In (s', v') (alpha_add VI PF (g w) s al) <->
                    In (s', v') al \/ (s', v') = (s, g w)).
          { intros s' v'. unfold alpha_add, fm_emplace. rewrite (fm_upd_in _ ST) by auto. split.
            - intros [[_ Hin]|[-> [(b' & Hin & ->)|[_ ->]]]]; auto.
            - intros [Hin|E'].
              + left; split; auto. intros ->. apply (Fr _ _ Hin). now left.
              + injection E' as -> ->. right; split; auto. right; split; auto.
                intros v Hin. apply (Fr _ _ Hin). now left. }
          destruct (IH (alpha_add VI PF (g w) s al) N2) as [I1 I2].
          { apply fm_upd_sorted; auto. }
          { intros s' v' Hin. apply Hadd in Hin. destruct Hin as [Hin|E'].
            - intros Hl. apply (Fr _ _ Hin). now right.
            - injection E' as -> ->. auto. }
          split; [auto|]. intros s' v'. rewrite I2, Hadd. split.
          * intros [[X|X]|(w' & X & Y)]; [auto| |right; exists w'; split; [now right|auto]].
            injection X as -> ->. right. exists w. split; [now left|auto].
          * intros [X|(w' & [X|X] & Y1 & Y2)]; [auto| |right; exists w'; auto].
            injection X as -> ->. subst v'. auto.
    Qed.

    Lemma ksorted_ext (m1 m2 : list (sdd * V)) : ksorted lt m1 -> ksorted lt m2 ->
      (forall s v, In (s, v) m1 <-> In (s, v) m2) -> m1 = m2.
    Proof.
      pose proof (pf_lt PO) as ST. intros K1 K2 H.
      assert (E : map fst m1 = map fst m2).
      { apply (ssorted_ext lt ST); auto. intros s. rewrite !in_map_iff. split; intros ([s' v] & <- & Hin);
          exists (s', v); (split; [auto|now apply H]). }
      pose proof (ksorted_nodup lt ST m1 K1) as N1. clear K1.
      revert m2 K2 H E. induction m1 as [|[s v] m1 IH]; intros [|[s2 v2] m2] K2 H E; try discriminate; auto.
      cbn in E. injection E as <- E.
      assert (Ev : v = v2).
      { apply (ksorted_fun lt ST _ K2 s); [apply H; now left|now left]. }
      subst v2. f_equal. inversion N1 as [|? ? N2 N3]; subst. apply IH; auto.
      - now inversion K2.
      - intros s' v'. split; intros Hin.
        + destruct (proj1 (H s' v') (or_intror Hin)) as [X|X]; [|auto]. injection X as <- <-.
          destruct N2. apply in_map_iff. exists (s, v). auto.
        + destruct (proj2 (H s' v') (or_intror Hin)) as [X|X]; [|auto]. injection X as <- <-.
          destruct N2. cbn. rewrite E. apply in_map_iff. exists (s, v). auto.
    Qed.

    Lemma images_eq A f (g : list (V * sdd) -> M A) r : forall l,
      eqm (g (map (fun a => (f_apply US f (fst a), snd a)) l)) r -> eqm (mbind VI (mh_images VI U F I US alarm f l) g) r.
    Proof.
      intros l. revert g. induction l as [|[v z] l IH]; intros g Hg; cbn [mh_images].
      - intros Ht s Hs. unfold mbind, mret. cbn. now apply Hg.
      - assert (E : eqm (mbind VI (user_call VI alarm (f_apply US f v)) (fun v' =>
                      mbind VI (mh_images VI U F I US alarm f l) (fun rest => g ((v', z) :: rest)))) r).
        { apply eqm_user. now apply IH. }
        intros Ht s Hs. destruct (E Ht s Hs) as [E1 E2]. clear - E1 E2. unfold mbind, mret in *.
        destruct (user_call VI alarm (f_apply US f v) s) as [[v'|e] s']; [|auto].
        destruct (mh_images VI U F I US alarm f l s') as [[l'|e] s'']; auto.
    Qed.
    Lemma fold_images f : forall l al,
      fold_left (fun alpha arc => if v_empty VI (fst arc) then alpha else alpha_add VI PF (fst arc) (snd arc) alpha)
        (map (fun a => (f_apply US f (fst a), snd a)) l) al = fold_left (fstep (f_apply US f)) l al.
    Proof. induction l as [|[v z] l IH]; intros al; cbn [map fold_left fst snd]; auto. Qed.

    Lemma fast_perm (g : V -> V) l arcs : NoDup (map snd arcs) -> Permutation l arcs ->
      fold_left (fstep g) l [] = fold_left (fstep g) arcs [].
    Proof.
      intros Nd HP. destruct (fast_loop g arcs [] Nd) as [A1 A2]; [constructor|intros s v []|].
      assert (Nl : NoDup (map snd l)).
      { apply (Permutation_NoDup (l := map snd arcs)); [|auto]. apply Permutation_map. now apply Permutation_sym. }
      destruct (fast_loop g l [] Nl) as [B1 B2]; [constructor|intros s v []|].
      apply ksorted_ext; auto. intros s v. rewrite A2, B2. pose proof (perm_in _ _ _ HP) as HI.
      split; intros [[]|(w & Hin & X)]; right; exists w; (split; [now apply HI|auto]).
    Qed.

    (** *** Local homomorphisms *)

    Lemma local_eq n bd o t nn o' on h n' r x : olevel o (LHier t nn) o' -> o_nested o = Some on ->
      oshape o' r -> typed on h n' -> ok h -> fits (SHier t nn r) x -> x <> Zero ->
      eqm (mh_direct VI PF O C U F I US alarm mk n (HLocal t h) o x) (interp k (direct VI PF U F I US bd (HLocal t h) o x)).
    Proof.
      intros L Mo Os T Kh Fx Nz. destruct L as (_ & _ & on' & M' & _ & On).
      rewrite Mo in M'. injection M' as <-.
      destruct x as [| |var arcs|var arcs]; try congruence; try (destruct Fx as [_ Fx]; now inversion Fx).
      destruct (fits_hier_inv VI PF _ _ _ _ _ Fx) as (-> & _ & D & G).
      cbn [Hom.direct MovingHom.mh_direct]. unfold with_nested, mh_nested. rewrite Mo.
      rewrite interp_bind. apply eqm_visit. intros l HP. pose proof (perm_in _ _ _ HP) as HI.
      assert (Ga : forall v z, In (v, z) arcs -> fits nn v) by (intros v z Hin; now apply (G v z)).
      destruct (local_static on h nn n' T On arcs Ga) as [S1 S2].
      assert (Hok : forall v, fits nn v -> interp k (hcall on h v) = Ok (cf on h v) -> result_ok h n' v (cf on h v)).
      { intros v Fv E. destruct (call_cases on h nn n' v T On Fv) as [[_ X]|X]; [auto|congruence]. }
      destruct (hselector h) eqn:Sel.
      - destruct (local_su_eq on h nn n' (m_hier VI PF (m_eval VI PF O C 0)) T Kh On eq_refl l [] []
                    (su_rel_nil VI PF _)) as [(m & A1 & A2 & A3)|(A1 & v & z & A2 & A3)].
        + intros v z Hin. apply HI in Hin. now destruct (G v z Hin) as (? & ? & ? & ?).
        + rewrite S1 by (intros v z Hin; apply (A3 v z); now apply HI). cbn [rbind]. rewrite interp_lift.
          apply (eqm_bind _ _ _ _ (Ok m) (fun _ => su_hier VI PF t _) A1). intros a E. injection E as <-.
          set (vals := map (fun a => (cf on h (fst a), snd a)) arcs).
          set (pairs := map (fun vs : sdd * sdd => (snd vs, fst vs)) (filter (fun vs => negb (is_zero VI (fst vs))) vals)).
          assert (Hp : forall s v', In (s, v') pairs <-> v' <> Zero /\ exists v, In (v, s) arcs /\ v' = cf on h v).
          { intros s v'. unfold pairs, vals. rewrite in_map_iff. split.
            - intros ([v0 s0] & E & Hin). cbn in E. injection E as -> ->. apply filter_In in Hin. destruct Hin as [Hin Z].
              cbn in Z. apply negb_true_iff in Z. split; [intros ->; discriminate|].
              apply in_map_iff in Hin. destruct Hin as ([v z] & E & Hin). cbn in E. injection E as <- <-. eauto.
            - intros (Z & v & Hin & ->). exists (cf on h v, s). split; [auto|]. apply filter_In. split.
              + apply in_map_iff. exists (v, s). auto.
              + cbn. rewrite (is_zero_false VI) by auto. reflexivity. }
          apply (su_hier_eq t n' r m _ pairs A2).
          * intros s v' Hin. apply Hp in Hin. destruct Hin as (Z & v & Hin & ->).
            destruct (G v s Hin) as (G1 & G2 & G3 & G4).
            split; [auto|split; [auto|split; [|auto]]]. apply Hok; auto. apply (A3 v s). now apply HI.
          * intros s1 v1 s2 v2 I1 I2 Ne a M1 M2. apply Hp in I1. apply Hp in I2.
            destruct I1 as (_ & w1 & J1 & ->), I2 as (_ & w2 & J2 & ->).
            apply (Hok w1) in M1; [|now apply (G w1 s1)|apply (A3 w1 s1); now apply HI|auto].
            apply (Hok w2) in M2; [|now apply (G w2 s2)|apply (A3 w2 s2); now apply HI|auto].
            pose proof (adisjoint_unique VI _ _ D _ _ _ _ _ J1 J2 M1 M2). congruence.
          * intros [s v']. rewrite Hp. cbn [app]. rewrite in_map_iff. split.
            -- intros ([v z] & E & Hin). cbn in E. injection E as <- <-. apply filter_In in Hin. destruct Hin as [Hin Z].
               cbn in Z. apply negb_true_iff in Z. split; [intros E; rewrite E in Z; discriminate|]. exists v. split; [now apply HI|auto].
            -- intros (Z & v & Hin & ->). exists (v, s). split; [auto|]. apply filter_In. split; [now apply HI|].
               cbn. rewrite (is_zero_false VI) by auto. reflexivity.
        + rewrite S2 by (exists v, z; split; [now apply HI|auto]). cbn [rbind].
          apply (eqm_bind _ _ _ _ (Err EFuel) (fun _ => Err EFuel) A1). discriminate.
      - destruct (local_vals_eq on h nn n' t T Kh On l) as [[A1 A2]|[A1 (v & z & A2 & A3)]].
        + intros v z Hin. apply (Ga v z). now apply HI.
        + rewrite S1 by (intros v z Hin; apply (A2 v z); now apply HI). cbn [rbind]. rewrite interp_lift.
          set (l' := map _ l) in *.
          apply (eqm_bind _ _ _ _ (Ok l') (fun _ => api_sum VI PF _) A1). intros a E. injection E as <-.
          rewrite map_map. apply (mv_sum_eq (SHier t n' r)).
          * intros y Hy. apply in_map_iff in Hy. destruct Hy as ([v z] & <- & Hin). cbn [fst snd].
            apply node_hier_fits; auto.
            -- apply Hok; [now apply (G v z)|]. apply (A2 v z). now apply HI.
            -- now apply (G v z).
          * intros y. subst l'. rewrite !in_map_iff. split; intros (a & E & Hin); exists a; (split; [auto|now apply HI]).
        + rewrite S2 by (exists v, z; split; [now apply HI|auto]). cbn [rbind].
          apply (eqm_bind _ _ _ _ (Err EFuel) (fun _ => Err EFuel) A1). discriminate.
    Qed.

    (** *** The member operator() *)

    Lemma direct_eq n bd o h s s' x : bounds n bd -> typed o h s' -> ok h -> oshape o s -> fits s x -> x <> Zero -> h <> HId ->
      (o_empty o = false -> hskip o h = false) ->
      eqm (mh_direct VI PF O C U F I US alarm mk n h o x) (interp k (direct VI PF U F I US bd h o x)).
    Proof.
      intros Bn T Kh Os Fx Nz Ni Hs.
      assert (Down : forall l o' t, olevel o l o' -> lvar l <> t -> hskip o h = var_neqb U o t -> False).
      { intros l o' t L Nt E. rewrite (proj2 (var_neqb_level U o l o' t L) Nt) in E.
        rewrite Hs in E; [discriminate|]. eapply olevel_nonempty; eauto. }
      inversion T as
      [? s1 O1|? hl r s1 ? O1 H1 H2|? s1 o1 x1 o'' v n1 r O1 A1 A2 O' T1
      |? s1 o1 x1 o'' v nv n1 r O1 A1 A2 O' A3 T1|? s1 x1 ? O1 Fx1|? h1 ? O1 T1|? t f E|? t f r O1
      |? l o1 t f s1 L Nt T1|? p t e s1 ? O1 Sel T1 T2 T3|? i ? E Fx1
      |? l o1 i s1 L Sk T1|? x1 o1 i ? L Sk T1|? x1 n1 o1 i ? L Sk T1|? hs ? Ne T1
      |? t n1 o1 on h1 n' r L Mo O1 T1|? l o1 t h1 s1 L Nt T1
      |? l o1 ? f g q L O1 T1 T2 T3|? l o1 x1 f g q s1 L Nt T1
      |? l o1 ? f g q L Ne T1|? l o1 x1 f g q s1 L Nt T1
      |? l o1 ? f g q L Ne T1|? l o1 x1 f g q s1 L Nt T1|? hs ? Ne T1]; subst; try congruence.
      - (* composition *)
        destruct (hd_comp HD _ _ Kh) as [Kl Kr].
        rewrite (oshape_fun _ _ _ O1 _ Os) in *. cbn [Hom.direct MovingHom.mh_direct].
        eapply both_bind; [apply (call_eq o r s s x); auto|apply (hcall_safe VI PF U F I US k K o r s s x H1 Os Fx)|].
        intros y [Fy _]. now apply (call_eq o hl s s' y).
      - (* cons, flat *)
        pose proof (hd_consF HD _ _ _ Kh) as Kn.
        cbn [Hom.direct MovingHom.mh_direct]. unfold with_var, with_next, mh_var, mh_next. rewrite A1, A2.
        rewrite (oshape_fun _ _ _ O1 _ Os) in *.
        eapply both_bind; [apply (call_eq o'' n1 s r x); auto|apply (hcall_safe VI PF U F I US k K o'' n1 s r x T1 O' Fx)|].
        intros y _. apply eqm_ret.
      - (* cons, hierarchical *)
        pose proof (hd_consH HD _ _ _ Kh) as Kn.
        cbn [Hom.direct MovingHom.mh_direct]. unfold with_var, with_next, mh_var, mh_next. rewrite A1, A2.
        rewrite (oshape_fun _ _ _ O1 _ Os) in *.
        eapply both_bind; [apply (call_eq o'' n1 s r x); auto|apply (hcall_safe VI PF U F I US k K o'' n1 s r x T1 O' Fx)|].
        intros y _. apply eqm_ret.
      - (* constant *) apply eqm_ret.
      - (* fixpoint *)
        pose proof (hd_fix HD _ Kh) as Kn.
        cbn [Hom.direct MovingHom.mh_direct]. rewrite (oshape_fun _ _ _ O1 _ Os) in *. now apply (fix_eq o h1 s).
      - (* function, terminal *)
        destruct (oshape_inv _ _ _ Os) as [[_ ->]|[E' _]]; [|congruence].
        destruct x as [| |v a|v a]; [congruence| |destruct Fx as [_ Fx]; inversion Fx..]. apply eqm_ret.
      - (* function, target *)
        rewrite (oshape_fun _ _ _ Os _ O1) in *.
        destruct x as [| |v arcs|v arcs]; try congruence; try (destruct Fx as [_ Fx]; now inversion Fx).
        destruct (fits_flat_inv VI PF _ _ _ _ Fx) as (-> & _ & D & G).
        inversion O1 as [|? ? ? ? ? A1|]; subst. cbn [Hom.direct MovingHom.mh_direct]. unfold with_var, mh_var. rewrite A1.
        assert (Nd : NoDup (map snd arcs)).
        { destruct Fx as [Fx _]. inversion Fx. now apply (ssorted_nodup _ (pf_lt PO)). }
        apply eqm_visit. intros l HP. apply images_eq.
        destruct (f_sel US f || f_shift US f).
        + rewrite fold_images, (fast_perm _ l arcs Nd HP). apply eqm_ret.
        + rewrite interp_lift, map_map. apply (mv_sum_eq (SFlat t r)).
          * intros z Hz. apply in_map_iff in Hz. destruct Hz as ([v s0] & <- & Hv). cbn.
            apply node_flat_fits; auto. now apply (G v s0).
          * apply perm_in. now apply Permutation_map.
      - exfalso. apply (Down l o1 t); auto.
      - (* if_then_else *)
        destruct (hd_ite HD _ _ _ Kh) as (Kp & Kt & Ke).
        cbn [Hom.direct MovingHom.mh_direct]. rewrite (oshape_fun _ _ _ O1 _ Os) in *.
        eapply both_bind; [apply (call_eq o p s s x); auto|apply (hcall_safe VI PF U F I US k K o p s s x T1 Os Fx)|].
        intros y [Fy _].
        eapply both_bind; [apply (call_eq o t s s' y); auto|apply (hcall_safe VI PF U F I US k K o t s s' y T2 Os Fy)|].
        intros a [Fa _].
        destruct (minus_ok VI VL PF PO s x y Fx Fy) as (d & E & Fd & _).
        apply (both_bind _ _ _ _ _ _ (fits s)); [rewrite interp_lift; now apply (mv_minus_eq s)|rewrite E; exact Fd|].
        clear d E Fd. intros d Fd.
        eapply both_bind; [apply (call_eq o e s s' d); auto|apply (hcall_safe VI PF U F I US k K o e s s' d T3 Os Fd)|].
        intros b [Fb _]. rewrite interp_lift. apply (mv_sum_eq s'); [|reflexivity]. intros w [<-|[<-|[]]]; auto.
      - (* inductive, terminal *)
        destruct (oshape_inv _ _ _ Os) as [[_ ->]|[E' _]]; [|congruence].
        destruct x as [| |v a|v a]; [congruence| |destruct Fx as [_ Fx]; inversion Fx..].
        cbn [Hom.direct MovingHom.mh_direct interp]. pose proof (eqm_user _ _ (i_one US i) (mret VI) _ (eqm_ret _ _)) as E1.
        intros Ht st Hst. specialize (E1 Ht st Hst). unfold mbind, mret, user_call in *. destruct (alarm (clock st)); exact E1.
      - rewrite Hs in Sk; [discriminate|]. eapply olevel_nonempty; eauto.
      - (* inductive, flat *)
        destruct (oshape_inv _ _ _ Os) as [[E' _]|(_ & l & o' & r & L' & -> & O')].
        { rewrite (olevel_nonempty _ _ _ _ L) in E'. discriminate. }
        destruct (olevel_fun _ _ _ _ L' _ _ L) as [-> ->]. cbn [under] in *.
        destruct x as [| |v arcs|v arcs]; try congruence; try (destruct Fx as [_ Fx]; now inversion Fx).
        destruct (fits_flat_inv VI PF _ _ _ _ Fx) as (-> & _ & D & G).
        cbn [Hom.direct MovingHom.mh_direct]. unfold with_next, mh_next. rewrite (proj1 (proj2 L)).
        apply (ind_body V o1 r s' (i_flat US i o) arcs O');
          [apply (hd_ind HD i o _ Kh Os); eapply olevel_nonempty; eauto|].
        intros v z Hin. destruct (G v z Hin) as (G1 & G2 & G3). auto.
      - (* inductive, hierarchical *)
        destruct (oshape_inv _ _ _ Os) as [[E' _]|(_ & l & o' & r & L' & -> & O')].
        { rewrite (olevel_nonempty _ _ _ _ L) in E'. discriminate. }
        destruct (olevel_fun _ _ _ _ L' _ _ L) as [-> ->]. cbn [under] in *.
        destruct x as [| |v arcs|v arcs]; try congruence; try (destruct Fx as [_ Fx]; now inversion Fx).
        destruct (fits_hier_inv VI PF _ _ _ _ _ Fx) as (-> & _ & D & G).
        cbn [Hom.direct MovingHom.mh_direct]. unfold with_next, mh_next. rewrite (proj1 (proj2 L)).
        apply (ind_body sdd o1 r s' (i_hier US i o) arcs O');
          [apply (hd_ind HD i o _ Kh Os); eapply olevel_nonempty; eauto|].
        intros v z Hin. destruct (G v z Hin) as (G1 & G2 & G3 & G4). auto.
      - (* intersection *)
        cbn [Hom.direct MovingHom.mh_direct]. apply (inter_eq o s s' x hs Os Fx (fun h' => hd_inter HD hs h' Kh) T1 []); auto. intros y [].
      - (* local, target *)
        assert (E : s = SHier t n1 r).
        { apply (oshape_fun _ _ _ Os). now apply (oshape_level _ _ (LHier t n1) _ r L). }
        rewrite E in *. apply (local_eq n bd o t n1 o1 on h1 n' r x L Mo O1 T1 (hd_local HD _ _ Kh) Fx Nz).
      - exfalso. apply (Down l o1 t); auto.
      - (* saturation fixpoint *)
        destruct (hd_satfix HD _ _ _ _ Kh) as (Kf & Kg & Kl).
        cbn [Hom.direct MovingHom.mh_direct]. rewrite (oshape_fun _ _ _ O1 _ Os) in *. now apply (sat_eq o s f g q).
      - exfalso. apply (Down l o1 x1); auto.
      - (* saturation intersection *)
        cbn [Hom.direct MovingHom.mh_direct].
        eapply both_bind; [apply (calls_eq o s s' x _ Os Fx (fun h' => hd_satinter HD _ _ _ _ h' Kh) T1)|apply (hcalls_safe VI PF U F I US k K o s s' x _ Os Fx T1)|].
        intros ys [Hl Hys]. rewrite interp_lift. apply (mv_inter_eq s').
        + intros ->. apply Ne. destruct (opt_list VI U F I f ++ g ++ opt_list VI U F I q); [auto|discriminate].
        + intros z Hz. now apply Hys.
      - exfalso. apply (Down l o1 x1); auto.
      - (* saturation sum *)
        cbn [Hom.direct MovingHom.mh_direct].
        eapply both_bind; [apply (calls_eq o s s' x _ Os Fx (fun h' => hd_satsum HD _ _ _ _ h' Kh) T1)|apply (hcalls_safe VI PF U F I US k K o s s' x _ Os Fx T1)|].
        intros ys [_ Hys]. rewrite interp_lift. apply (mv_sum_eq s'); [|reflexivity]. intros z Hz. now apply Hys.
      - exfalso. apply (Down l o1 x1); auto.
      - (* sum *)
        cbn [Hom.direct MovingHom.mh_direct].
        eapply both_bind; [apply (calls_eq o s s' x _ Os Fx (fun h' => hd_sum HD _ h' Kh) T1)|apply (hcalls_safe VI PF U F I US k K o s s' x _ Os Fx T1)|].
        intros ys [_ Hys]. rewrite interp_lift. apply (mv_sum_eq s'); [|reflexivity]. intros z Hz. now apply Hys.
    Qed.

    Lemma skip_eq n bd o l o' h s r' x : olevel o l o' -> oshape o' s -> fits (under l s) x ->
      x <> Zero -> hskip o h = true -> typed o' h r' -> ok h ->
      eqm (mh_body VI PF O C U F I US alarm mk n (o, h, x)) (interp k (hom_body VI PF U F I US bd (o, h, x))).
    Proof.
      intros L Os Fx Nz Hs T Kh. pose proof L as (Lv & Ln & _).
      unfold Hom.hom_body, MovingHom.mh_body. unfold with_var, with_next, mh_var, mh_next. rewrite Lv, Ln, Hs.
      destruct x as [| |var arcs|var arcs]; destruct l as [z|z nn]; cbn [under] in *;
        try congruence; try (destruct Fx as [_ Fx]; now inversion Fx).
      - destruct (fits_flat_inv VI PF _ _ _ _ Fx) as (-> & _ & D & G). cbn [lvar]. rewrite N.eqb_refl.
        apply (forward_body V (m_flat VI PF O) _ (su_flat VI PF z) o' h s r' arcs T Kh Os).
        + apply (vl_lt VL).
        + intros v w Hin. now destruct (G v w Hin) as (? & ? & ?).
        + intros m0 pairs R Hc HI. apply (su_flat_eq z r' m0 pairs); auto.
          * intros s0 v Hin. apply fwd_pairs_in in Hin. destruct Hin as (w & Hin & -> & Z).
            split; [|split; [auto|now apply (G v w)]]. apply Hc. apply in_map_iff. exists (v, w). auto.
          * now apply fwd_disj.
      - destruct (fits_hier_inv VI PF _ _ _ _ _ Fx) as (-> & _ & D & G). cbn [lvar]. rewrite N.eqb_refl.
        apply (forward_body sdd (m_hier VI PF (m_eval VI PF O C 0))
          (fun m0 => mh_su_node VI PF O (m_hier VI PF (m_eval VI PF O C (su_fuel VI m0))) Hier z m0)
          (su_hier VI PF z) o' h s r' arcs T Kh Os).
        + apply (pf_lt PO).
        + intros v w Hin. destruct (G v w Hin) as (G1 & G2 & G3 & G4). split; [auto|now apply is_zero_false].
        + intros m0 pairs R Hc HI. apply (su_hier_eq z nn r' m0 pairs); auto.
          * intros s0 v Hin. apply fwd_pairs_in in Hin. destruct Hin as (w & Hin & -> & Z).
            destruct (G v w Hin) as (G1 & G2 & _).
            split; [|split; [auto|split; auto]]. apply Hc. apply in_map_iff. exists (v, w). auto.
          * now apply fwd_disj.
    Qed.

    Lemma body_eq n bd o h s s' x : bounds n bd -> typed o h s' -> ok h -> oshape o s -> fits s x -> x <> Zero -> h <> HId ->
      eqm (mh_body VI PF O C U F I US alarm mk n (o, h, x)) (interp k (hom_body VI PF U F I US bd (o, h, x))).
    Proof.
      intros Bn T Kh Os Fx Nz Ni. destruct (oshape_inv _ _ _ Os) as [[E ->]|(E & l & o' & r & L & -> & O')].
      - destruct x as [| |v a|v a]; try congruence; try (destruct Fx as [_ Fx]; now inversion Fx).
        cbn [Hom.hom_body MovingHom.mh_body]. apply (direct_eq n bd o h SEnd s' One); auto. congruence.
      - destruct (hskip o h) eqn:Hs.
        + destruct (typed_next VI PF U F I US o h s' T l o' L Hs) as (r' & -> & T').
          apply (skip_eq n bd o l o' h r r' x L O' Fx Nz Hs T' Kh).
        + pose proof (direct_eq n bd o h _ s' x Bn T Kh Os Fx Nz Ni (fun _ => Hs)) as X.
          unfold Hom.hom_body, MovingHom.mh_body. unfold with_var, mh_var. rewrite (proj1 L), Hs.
          destruct x as [| |var arcs|var arcs]; destruct l as [z|z nn]; cbn [under] in *;
            try congruence; try (destruct Fx as [_ Fx]; now inversion Fx).
          * destruct (fits_flat_inv VI PF _ _ _ _ Fx) as (-> & _). cbn [lvar]. now rewrite N.eqb_refl.
          * destruct (fits_hier_inv VI PF _ _ _ _ _ Fx) as (-> & _). cbn [lvar]. now rewrite N.eqb_refl.
    Qed.
  End Body.

End Proofs.
Arguments hereditary VI {U F I} US ok.

(** ** Without caches *)

Section Plain.
  Variable VI : values_impl.
  Variable VL : values_laws VI.
  Variable PF : platform VI.
  Variable PO : platform_ok PF.
  Variable O : oracle.
  Hypothesis OO : oracle_ok O.
  Variables U F I : Type.
  Variable US : user (vt VI) U F I.
  Hypothesis HO : honest VI PF U F I US.
  Notation typed := (typed VI PF U F I US).
  Notation oshape := (oshape U).
  Notation fits := (fits VI PF).
  Notation hom := (hom (vt VI) U F I).
  Notation any := (fun _ => True).

  Lemma any_hereditary : hereditary VI US (fun _ : hom => True).
  Proof. split; auto. Qed.
  Notation never := (fun _ : nat => false).
  Notation eqm := (eqm VI unit unit any any True (fun _ => False)).
  Notation plain_eval := (mh_eval VI PF O no_cache U F I no_filtered US never).
  Lemma never_abrupt : forall t, never t = true -> False.
  Proof. discriminate. Qed.

  Lemma mh_eval_eq n : forall fuel o h s s' x, typed o h s' -> True -> oshape o s -> fits s x -> x <> Zero -> h <> HId ->
    eqm (plain_eval n fuel (o, h, x)) (heval VI PF U F I US n fuel (o, h, x)).
  Proof.
    induction fuel as [|fuel IH]; intros o h s s' x T _ Os Fx Nz Ni.
    - cbn [mh_eval heval]. apply eqm_throw.
    - pose proof (body_eq VI VL PF PO O OO unit unit no_cache _ _ _ (no_cache_ok VI PF) any True (fun _ => False) U F I US
        never never_abrupt any any_hereditary
        (heval VI PF U F I US n fuel) (plain_eval n fuel) (heval_safe VI VL PF PO U F I US HO n fuel) IH n n o h s s' x
        (or_introl eq_refl) T Logic.I Os Fx Nz Ni)
        as B. intros Ht st Hst. cbn [mh_eval f_accept no_filtered]. unfold mbind, on_hom. cbn [fst snd f_skip]. apply B; [exact Ht|exact Hst].
  Qed.

  (** Whatever the orders in which containers are gone through, the evaluation of a well-typed homomorphism ends in the same way
      as in Hom.v. *)
  Theorem moving_apply_eq n fuel o h s s' x : typed o h s' -> oshape o s -> fits s x ->
    moving_apply VI PF O U F I US n fuel o h x = happly VI PF U F I US n fuel o h x.
  Proof.
    intros T Os Fx. unfold moving_apply, happly.
    pose proof (call_eq VI PF unit unit any any True (fun _ => False) U F I US any (heval VI PF U F I US n fuel) (plain_eval n fuel)
      (mh_eval_eq n fuel) o h s s' x T Logic.I Os Fx) as E.
    destruct (E (fun _ => Logic.I) (start tt tt)) as [[E1|(e & [] & _)] _]; [split; exact Logic.I|exact E1].
  Qed.
End Plain.

(** ** Through caches *)

Section Caches.
  Variable VI : values_impl.
  Variable VL : values_laws VI.
  Variable PF : platform VI.
  Variable PO : platform_ok PF.
  Variable O : oracle.
  Hypothesis OO : oracle_ok O.
  Notation V := (vt VI).
  Notation sdd := (sdd V).
  Variables DC HC : Type.
  Variable C : memo (ddop V) sdd (err V) DC.
  Variable cinv : DC -> Prop.
  Variable chas : DC -> ddop V -> Prop.
  Variable cd : ddop V -> N.
  Hypothesis CO : dd_memo_ok VI PF C cinv chas cd.
  Variables U F I : Type.
  Notation hom := (hom V U F I).
  Notation hop := (hop VI U F I).
  Variable US : user V U F I.
  Hypothesis HO : honest VI PF U F I US.
  Notation typed := (typed VI PF U F I US).
  Notation oshape := (oshape U).
  Notation fits := (fits VI PF).
  Notation heval := (heval VI PF U F I US).
  Variable ok : hom -> Prop.
  Hypothesis HD : hereditary VI US ok.

  Definition happlicable (op : hop) : Prop :=
    let '(o, h, x) := op in
    x <> Zero /\ h <> HId /\ ok h /\ exists s s', typed o h s' /\ oshape o s /\ fits s x.
  Definition hanswer (op : hop) (v : sdd) : Prop := exists n fuel, heval n fuel op = Ok v.

  Variable K : filtered_memo hop sdd (err V) HC.
  Variable hinv : HC -> Prop.
  Variable hhas : HC -> hop -> Prop.
  Variable same : hop -> hop -> Prop.
  Variable hcd : hop -> N.
  Definition hstored (d : HC) (op : hop) : Prop := exists o, hhas d o /\ same o op.
  Record hom_memo_ok : Prop := {
    hmo_find : forall op d, hinv d -> happlicable op -> f_accept K op = true ->
      exists r d', c_find (f_memo K) op d = (Ok (r, hcd op), d') /\ hinv d' /\ (forall o, hhas d' o <-> hhas d o) /\
      match r with
      | Some v => hanswer op v
      | None => ~ hstored d op
      end;
    hmo_store : forall op v d, hinv d -> happlicable op -> f_accept K op = true -> hanswer op v -> ~ hstored d op ->
      exists d', c_store (f_memo K) op v (hcd op) d = (Ok tt, d') /\ hinv d' /\ forall o, hhas d' o -> hhas d o \/ o = op;
    hmo_skip : forall op d, hinv d -> hinv (f_skip K op d) /\ forall o, hhas (f_skip K op d) o <-> hhas d o;
    hmo_good : forall op d, hinv d -> hhas d op -> happlicable op;
    hmo_same : forall a b, same a b -> happlicable a -> happlicable b -> forall n k, heval n k a = heval n k b
  }.
  Hypothesis KO : hom_memo_ok.

  (** Since the cache was [h0]: only evaluations that end within [k] came in. *)
  Definition hsince (n k : nat) (h0 h : HC) : Prop :=
    hinv h /\ forall o, hhas h o -> hhas h0 o \/ exists v, heval n k o = Ok v.
  Variable alarm : nat -> bool.
  Variable abrupt : err V -> Prop.
  Hypothesis AL : forall t, alarm t = true -> abrupt EUser.
  Notation eqm n k h0 := (eqm VI DC HC cinv (hsince n k h0) False abrupt).
  Notation stops := (stops VI abrupt).
  Notation cached := (mh_eval VI PF O C U F I K US alarm).

  Lemma heval_more n k op v : heval n k op = Ok v -> heval n (S k) op = Ok v.
  Proof. apply (heval_mono VI PF U F I US); lia. Qed.

  (** [n] and [fuel] bound the evaluation through the caches, [m] and [k] the one without caches. *)
  Lemma cached_eq n m : bounds VI abrupt n m -> forall k fuel, k <= fuel \/ abrupt EFuel ->
    forall h0 o h s s' x, typed o h s' -> ok h -> oshape o s -> fits s x ->
    x <> Zero -> h <> HId -> eqm m k h0 (cached n fuel (o, h, x)) (heval m k (o, h, x)).
  Proof.
    intros Bn. induction k as [|k IH]; intros fuel Hf h0 o h s s' x T Kh Os Fx Nz Ni Ht st [I1 [I2 I3]].
    { exfalso. apply Ht. reflexivity. }
    assert (G : happlicable (o, h, x)).
    { split; [auto|split; [auto|split; [auto|]]]. exists s, s'. auto. }
    destruct (heval m k (o, h, x)) as [v|e] eqn:Ek.
    { (* ends within k *)
      assert (Hk : k <= fuel \/ abrupt EFuel) by (destruct Hf; [left; lia|auto]).
      destruct (IH fuel Hk (hom_cache st) o h s s' x T Kh Os Fx Nz Ni) with (s := st) as [E1 [J1 [J2 J3]]].
      - rewrite Ek. discriminate.
      - split; [exact I1|]. split; [exact I2|auto].
      - rewrite Ek in E1. rewrite (heval_more _ _ _ _ Ek). split; [exact E1|]. split; [exact J1|]. split; [exact J2|].
        intros o1 Ho1. destruct (J3 o1 Ho1) as [Hs|(v1 & Hv)]; [auto|right; exists v1; now apply heval_more]. }
    assert (Nk : forall v, heval m k (o, h, x) <> Ok v) by (rewrite Ek; discriminate). clear e Ek.
    destruct fuel as [|f].
    { destruct Hf as [Hf|Ha]; [lia|]. split; [right; now exists EFuel|]. split; [exact I1|]. split; [exact I2|exact I3]. }
    assert (Hf' : k <= f \/ abrupt EFuel) by (destruct Hf; [left; lia|auto]).
    (* evaluation *)
    assert (B : forall st1, cinv (dd_caches st1) -> hinv (hom_cache st1) ->
              (fst (mh_body VI PF O C U F I US alarm (cached n f) n (o, h, x) st1) = heval m (S k) (o, h, x) \/
               stops (fst (mh_body VI PF O C U F I US alarm (cached n f) n (o, h, x) st1))) /\
              idle cinv (hsince m k (hom_cache st1)) (snd (mh_body VI PF O C U F I US alarm (cached n f) n (o, h, x) st1))).
    { intros st1 A1 A2.
      apply (body_eq VI VL PF PO O OO DC HC C cinv chas cd CO (hsince m k (hom_cache st1)) False abrupt U F I US alarm AL ok HD
        (heval m k) (cached n f) (heval_safe VI VL PF PO U F I US HO m k)) with (s := s) (s' := s'); auto.
      - intros o1 h1 s1 s1' x1 T1 K1 O1 F1 Z1 N1. apply (IH f Hf' (hom_cache st1) o1 h1 s1 s1' x1); auto.
      - split; [exact A1|]. split; [exact A2|auto]. }
    destruct (heval m (S k) (o, h, x)) as [y|e] eqn:Ey.
    2: { exfalso. pose proof (heval_safe VI VL PF PO U F I US HO m (S k) o h s s' x T Os Fx Nz Ni) as X. rewrite Ey in X.
         cbn in X. subst e. now apply Ht. }
    assert (Wk : forall h1 hx, (forall o1, hhas h1 o1 -> hhas h0 o1 \/ exists v, heval m (S k) o1 = Ok v) -> hsince m k h1 hx ->
                 hsince m (S k) h0 hx).
    { intros h1 hx W1 [W2 W3]. split; [exact W2|]. intros o1 Ho1. destruct (W3 o1 Ho1) as [Hs|(v1 & Hv)]; [auto|].
      right. exists v1. now apply heval_more. }
    cbn [mh_eval]. destruct (f_accept K (o, h, x)) eqn:Ea.
    - destruct (hmo_find KO (o, h, x) (hom_cache st) I2 G Ea) as (r & d1 & E1 & J1 & J2 & J3).
      unfold mbind, on_hom. rewrite E1. cbn [fst snd]. destruct r as [v|].
      + destruct J3 as (n' & f' & Ev). split.
        * left. cbn. f_equal.
          apply (heval_mono VI PF U F I US) with (n' := Nat.max m n') (fuel' := Nat.max (S k) f') in Ey; [|lia|lia].
          apply (heval_mono VI PF U F I US) with (n' := Nat.max m n') (fuel' := Nat.max (S k) f') in Ev; [|lia|lia].
          congruence.
        * split; [exact I1|]. split; [exact J1|]. cbn. intros o1 Ho1. apply I3. now apply J2.
      + cbn [clock dd_caches hom_cache].
        set (st1 := {| clock := clock st; dd_caches := dd_caches st; hom_cache := d1 |}).
        destruct (B st1 I1 J1) as [B1 [B2 B3]].
        destruct (mh_body VI PF O C U F I US alarm (cached n f) n (o, h, x) st1) as [r st2]. cbn [fst snd] in *.
        destruct B1 as [-> |(e & He & ->)].
        2: { split; [right; now exists e|]. split; [exact B2|]. apply (Wk d1); [|exact B3]. intros o1 Ho1. apply I3. now apply J2. }
        assert (Ns : ~ hstored (hom_cache st2) (o, h, x)).
        { intros (o1 & Ho1 & Sm). destruct B3 as [B4 B5]. destruct (B5 o1 Ho1) as [Hd|(v1 & Hv)].
          - apply J3. exists o1. split; [now apply J2|exact Sm].
          - rewrite (hmo_same KO o1 (o, h, x) Sm (hmo_good KO _ _ B4 Ho1) G) in Hv. now apply Nk in Hv. }
        destruct (hmo_store KO (o, h, x) y (hom_cache st2) (proj1 B3) G Ea (ex_intro _ m (ex_intro _ (S k) Ey)) Ns)
          as (d3 & E3 & L1 & L2).
        rewrite E3. cbn. split; [now left|]. split; [exact B2|]. split; [exact L1|]. cbn. intros o1 Ho1.
        destruct (L2 o1 Ho1) as [Ho2| ->]; [|right; exists y; exact Ey].
        destruct (proj2 B3 o1 Ho2) as [Hd|(v1 & Hv)]; [|right; exists v1; now apply heval_more].
        apply I3. now apply J2.
    - unfold mbind at 1 2 3, on_hom. cbn [fst snd].
      destruct (hmo_skip KO (o, h, x) (hom_cache st) I2) as [J1 J2].
      set (st1 := {| clock := clock st; dd_caches := dd_caches st; hom_cache := f_skip K (o, h, x) (hom_cache st) |}).
      destruct (B st1 I1 J1) as [B1 [B2 B3]]. split; [exact B1|]. split; [exact B2|].
      apply (Wk (hom_cache st1)); [|exact B3]. intros o1 Ho1. apply I3. now apply J2.
  Qed.

  (** An application that ends gives the same result through the caches, whatever their contents and the orders of visit, unless
      it is stopped. *)
  Theorem mv_apply_eq n k fuel o h s s' x y : typed o h s' -> ok h -> oshape o s -> fits s x ->
    happly VI PF U F I US n k o h x = Ok y -> k <= fuel ->
    forall st, idle cinv hinv st ->
    (fst (mv_apply VI PF O C U F I K US alarm n fuel o h x st) = Ok y \/ stops (fst (mv_apply VI PF O C U F I K US alarm n fuel o h x st))) /\
    idle cinv hinv (snd (mv_apply VI PF O C U F I K US alarm n fuel o h x st)).
  Proof.
    intros T Kh Os Fx E Hk st [I1 I2].
    pose proof (call_eq VI PF DC HC cinv (hsince n k (hom_cache st)) False abrupt U F I US ok (heval n k) (cached n fuel)
      (cached_eq n n (or_introl eq_refl) k fuel (or_introl Hk) (hom_cache st)) o h s s' x T Kh Os Fx) as Q.
    unfold happly in E. rewrite E in Q.
    destruct (Q ltac:(discriminate) st) as [Q1 [Q2 [Q3 Q4]]].
    - split; [exact I1|]. split; [exact I2|auto].
    - split; [exact Q1|]. split; [exact Q2|exact Q3].
  Qed.
End Caches.
