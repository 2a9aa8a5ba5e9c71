(** * Evaluations that may not end

    Whatever happens during the evaluation of a homomorphism through the caches (it ends, an exception of the user's code stops it,
    or the bounds of the model do), a result is a right one and the caches are left good.  MovingHomProofs.v says it, more precisely,
    of the evaluations that end when nothing stops them; here nothing is supposed: the fixpoints of tests/hom/test_hom_interrupt.cc
    do not end unless an exception stops them. *)

From Coq Require Import List Bool NArith Arith Lia Permutation Sorted.
From Verif Require Import Base SortedSets Values Sdd SddFacts Orders DDModel DDGeneric DDFast DDProofs DDTheorems Moving MovingProofs
  Hom HomFacts HomEval HomTyped HomEqns MovingHom MovingHomProofs.
Import ListNotations.

Section Safe.
  Variable VI : values_impl.
  Variable VL : values_laws VI.
  Variable PF : platform VI.
  Variable PO : platform_ok PF.
  Variable O : oracle.
  Hypothesis OO : oracle_ok O.
  Notation V := (vt VI).
  Notation sdd := (sdd V).
  Notation lt := (addr_lt PF).
  Notation fits := (fits VI PF).
  Variables DC HC : Type.
  Notation M := (M VI DC HC).
  Variable C : memo (ddop V) sdd (err V) DC.
  Variable cinv : DC -> Prop.
  Variable chas : DC -> ddop V -> Prop.
  Variable cd : ddop V -> N.
  Hypothesis CO : dd_memo_ok VI PF C cinv chas cd.
  Variable P : HC -> Prop.
  Notation Inv := (idle cinv P).
  Variables U F I : Type.
  Notation hom := (hom V U F I).
  Notation order := (order U).
  Variable US : user V U F I.
  Hypothesis HO : honest VI PF U F I US.
  Notation hop := (hop VI U F I).
  Notation typed := (typed VI PF U F I US).
  Notation oshape := (oshape U).
  Notation olevel := (olevel U).
  Notation hskip := (hskip VI U F I US).
  Notation hselector := (hselector VI U F I US).
  Notation result_ok := (result_ok VI PF U F I US).
  Notation evals := (evals VI PF U F I US).
  Notation ends := (ends VI PF U F I US).
  Notation direct := (direct VI PF U F I US).
  Notation hom_body := (hom_body VI PF U F I US).
  Variable alarm : nat -> bool.
  Variable ok : hom -> Prop.
  Hypothesis HD : hereditary VI US ok.
  (** What may stop an evaluation. *)
  Variable stop : err V -> Prop.
  Hypothesis SF : stop EFuel.
  Hypothesis SU : forall t, alarm t = true -> stop EUser.
  Notation hm := (hm VI Inv stop).

  Lemma eqm_hm A (p : M A) y : eqm VI DC HC cinv P True (fun _ => False) p (Ok y) -> hm p (fun z => z = y).
  Proof.
    intros H s Hs. destruct (H (fun _ => Logic.I) s Hs) as [[E|(e & [] & _)] J]. split; [|exact J]. now rewrite E.
  Qed.
  Lemma sum_hm s l l' : (forall x, In x l -> fits s x) -> (forall x, In x l' <-> In x l) ->
    hm (mv_sum VI PF O C l') (fun y => api_sum VI PF l = Ok y).
  Proof.
    intros H HI. pose proof (mv_sum_eq VI VL PF PO O OO DC HC C cinv chas cd CO P True (fun _ => False) s l l' H HI) as E.
    destruct (sum_ok VI VL PF PO s l H) as (y & Ey & _). rewrite Ey in *.
    eapply hm_conseq; [apply eqm_hm; exact E|]. intros a ->. auto.
  Qed.
  Lemma inter_hm s l : l <> [] -> (forall x, In x l -> fits s x) ->
    hm (mv_inter VI PF O C l) (fun y => api_intersection VI PF l = Ok y).
  Proof.
    intros Ne H. pose proof (mv_inter_eq VI VL PF PO O OO DC HC C cinv chas cd CO P True (fun _ => False) s l Ne H) as E.
    destruct (inter_ok VI VL PF PO s l Ne H) as (y & Ey & _). rewrite Ey in *.
    eapply hm_conseq; [apply eqm_hm; exact E|]. intros a ->. auto.
  Qed.
  Lemma minus_hm s a b : fits s a -> fits s b ->
    hm (mv_minus VI PF O C a b) (fun y => api_minus VI PF a b = Ok y).
  Proof.
    intros Fa Fb. pose proof (mv_minus_eq VI VL PF PO O OO DC HC C cinv chas cd CO P True (fun _ => False) s a b Fa Fb) as E.
    destruct (minus_ok VI VL PF PO s a b Fa Fb) as (y & Ey & _). rewrite Ey in *.
    eapply hm_conseq; [apply eqm_hm; exact E|]. intros z ->. auto.
  Qed.
  Lemma visit_hm A (l : list A) : hm (visit VI O l) (fun l' => Permutation l' l).
  Proof. apply (hm_visit VI Inv stop O OO). intros s [H1 H2]. now split. Qed.
  Lemma user_hm A (a : A) : hm (user_call VI alarm a) (fun b => b = a).
  Proof.
    intros s [H1 H2]. unfold user_call. cbn [fst snd]. split; [|now split].
    destruct (alarm (clock s)) eqn:E; [now apply (SU (clock s))|reflexivity].
  Qed.

  Lemma evals_result o h s s' x y : typed o h s' -> oshape o s -> fits s x -> evals o h x y -> result_ok h s' x y.
  Proof.
    intros T Os Fx (n & fuel & E).
    pose proof (hcall_safe VI PF U F I US (heval VI PF U F I US n fuel) (heval_safe VI VL PF PO U F I US HO n fuel) o h s s' x T Os Fx) as X.
    unfold hoare in X. unfold happly in E. rewrite E in X. exact X.
  Qed.

  Section Body.
    Variable mk : hop -> M sdd.
    Hypothesis MK : forall o h s s' x, typed o h s' -> ok h -> oshape o s -> fits s x -> x <> Zero -> h <> HId ->
      hm (mk (o, h, x)) (evals o h x).
    Notation mh_call := (mh_call VI U F I mk).

    Lemma call_hm o h s s' x : typed o h s' -> ok h -> oshape o s -> fits s x -> hm (mh_call o h x) (evals o h x).
    Proof.
      intros T Kh Os Fx. unfold MovingHom.mh_call.
      destruct (is_id VI U F I h) eqn:E1; cbn [orb].
      { apply hm_ret. apply is_id_iff in E1. subst h. now apply evals_id. }
      destruct (is_zero VI x) eqn:E2.
      { apply hm_ret. apply is_zero_iff in E2. subst x. now apply evals_zero. }
      apply (MK o h s s' x); auto.
      - intros ->. discriminate.
      - intros ->. discriminate.
    Qed.

    (** A step of the evaluation, beside the one of Hom.v. *)
    Lemma step A B (p : M A) (f : A -> M B) (q : prog hop sdd (err V) A) g (Q : A -> Prop) : hm p (fun a => runs ends q a /\ Q a) ->
      (forall a, Q a -> hm (f a) (fun b => runs ends (g a) b)) -> hm (mbind VI p f) (fun b => runs ends (bind q g) b).
    Proof.
      intros H1 H2. eapply hm_bind; [exact H1|]. intros a [Ra Qa].
      eapply hm_conseq; [apply (H2 a Qa)|]. intros b Rb. apply runs_bind_iff. eauto.
    Qed.
    Lemma call_step B o h s s' x (f : sdd -> M B) (g : sdd -> prog hop sdd (err V) B) : typed o h s' -> ok h -> oshape o s -> fits s x ->
      (forall y, evals o h x y -> fits s' y -> hm (f y) (fun b => runs ends (g y) b)) ->
      hm (mbind VI (mh_call o h x) f) (fun b => runs ends (bind (hcall VI U F I o h x) g) b).
    Proof.
      intros T Kh Os Fx H. apply (step _ _ _ _ _ _ (fun y => evals o h x y /\ fits s' y)).
      - eapply hm_conseq; [now apply (call_hm o h s s' x)|]. intros y Hy. split; [now apply runs_hcall|].
        split; [auto|]. now apply (evals_result o h s s' x y).
      - intros y [H1 H2]. auto.
    Qed.

    Lemma su_add_hm W (mo : mops VI DC HC W) m pairs s v : strict_total (vo_lt (mo_pure mo)) -> su_rel VI PF (mo_pure mo) m pairs ->
      s <> Zero -> vo_empty (mo_pure mo) v = false ->
      hm (m_su_add VI PF mo s v m) (fun m' => su_rel VI PF (mo_pure mo) m' (pairs ++ [(s, v)])).
    Proof.
      intros ST R Nz Nv. destruct (m_su_add_rel VI PF PO DC HC W mo m pairs s v ST R Nz Nv) as (m' & -> & R'). now apply hm_ret.
    Qed.

    (** *** Loops on the arcs of a node *)

    Lemma forward_hm W (mo : mops VI DC HC W) o h s r' : typed o h r' -> ok h -> oshape o s -> strict_total (vo_lt (mo_pure mo)) ->
      forall l m done, su_rel VI PF (mo_pure mo) m done ->
      (forall v z, In (v, z) l -> fits s z /\ vo_empty (mo_pure mo) v = false) ->
      hm (mh_forward VI PF U F I mk mo o h l m) (fun m' =>
        (forall v z, In (v, z) l -> exists w, evals o h z w) /\
        exists pairs, su_rel VI PF (mo_pure mo) m' pairs /\
        forall e v, In (e, v) pairs <-> In (e, v) done \/ exists z, In (v, z) l /\ evals o h z e /\ e <> Zero).
    Proof.
      intros T Kh Os ST. induction l as [|[v z] l IH]; intros m done R G; cbn [mh_forward].
      { apply hm_ret. split; [intros v z []|]. exists done. split; [auto|]. intros e v. split; [auto|].
        intros [H|(z & [] & _)]; auto. }
      destruct (G v z (or_introl eq_refl)) as [Fz Ev].
      assert (G' : forall v0 z0, In (v0, z0) l -> fits s z0 /\ vo_empty (mo_pure mo) v0 = false).
      { intros v0 z0 Hin. apply G. now right. }
      eapply hm_bind; [apply (call_hm o h s r' z); auto|]. intros w Hw. cbn beta in Hw.
      destruct (is_zero VI w) eqn:Ez.
      - apply is_zero_iff in Ez. subst w. eapply hm_conseq; [apply (IH m done R G')|].
        intros m' (A1 & pairs & A2 & A3). split.
        + intros v0 z0 [E|Hin]; [injection E as <- <-; eauto|eauto].
        + exists pairs. split; [auto|]. intros e v0. rewrite A3. split.
          * intros [H|(z0 & H1 & H2)]; [auto|]. right. exists z0. split; [now right|auto].
          * intros [H|(z0 & [E|Hin] & H2 & H3)]; [auto| |right; eauto]. injection E as <- <-.
            destruct H3. now apply (evals_fun VI PF U F I US o h z).
      - assert (Nz : w <> Zero) by (intros ->; discriminate).
        eapply hm_bind; [now apply (su_add_hm W mo m done w v)|]. intros m2 R2. cbn beta in R2.
        eapply hm_conseq; [apply (IH m2 _ R2 G')|].
        intros m' (A1 & pairs & A2 & A3). split.
        + intros v0 z0 [E|Hin]; [injection E as <- <-; eauto|eauto].
        + exists pairs. split; [auto|]. intros e v0. rewrite A3. split.
          * intros [H|(z0 & H1 & H2)]; [|right; exists z0; split; [now right|auto]].
            apply in_app_iff in H. destruct H as [H|[E|[]]]; [auto|]. injection E as -> ->.
            right. exists z. split; [now left|auto].
          * intros [H|(z0 & [E|Hin] & H2 & H3)]; [left; apply in_app_iff; auto| |right; eauto]. injection E as <- <-.
            left. apply in_app_iff. right. left. f_equal. now apply (evals_fun VI PF U F I US o h z).
    Qed.

    Lemma local_su_hm o h n n' (mo : mops VI DC HC sdd) : typed o h n' -> ok h -> oshape o n -> mo_pure mo = hier_ops VI PF ->
      forall l m done, su_rel VI PF (hier_ops VI PF) m done ->
      (forall v z, In (v, z) l -> fits n v /\ z <> Zero) ->
      hm (mh_local_su VI PF U F I mk o h l m mo) (fun m' =>
        (forall v z, In (v, z) l -> exists w, evals o h v w) /\
        exists pairs, su_rel VI PF (hier_ops VI PF) m' pairs /\
        forall e w, In (e, w) pairs <-> In (e, w) done \/ exists v, In (v, e) l /\ evals o h v w /\ w <> Zero).
    Proof.
      intros T Kh Os Pm. induction l as [|[v z] l IH]; intros m done R G; cbn [mh_local_su].
      { apply hm_ret. split; [intros v z []|]. exists done. split; [auto|]. intros e v. split; [auto|].
        intros [H|(z & [] & _)]; auto. }
      destruct (G v z (or_introl eq_refl)) as [Fv Nz].
      assert (G' : forall v0 z0, In (v0, z0) l -> fits n v0 /\ z0 <> Zero).
      { intros v0 z0 Hin. apply G. now right. }
      eapply hm_bind; [apply (call_hm o h n n' v); auto|]. intros w Hw. cbn beta in Hw.
      destruct (is_zero VI w) eqn:Ez.
      - apply is_zero_iff in Ez. subst w. eapply hm_conseq; [apply (IH m done R G')|].
        intros m' (A1 & pairs & A2 & A3). split.
        + intros v0 z0 [E|Hin]; [injection E as <- <-; eauto|eauto].
        + exists pairs. split; [auto|]. intros e v0. rewrite A3. split.
          * intros [H|(z0 & H1 & H2)]; [auto|]. right. exists z0. split; [now right|auto].
          * intros [H|(z0 & [E|Hin] & H2 & H3)]; [auto| |right; eauto]. injection E as <- <-.
            destruct H3. now apply (evals_fun VI PF U F I US o h v).
      - assert (Nw : w <> Zero) by (intros ->; discriminate).
        eapply hm_bind; [apply (su_add_hm sdd mo m done z w)|].
        { rewrite Pm. apply (pf_lt PO). } { now rewrite Pm. } { exact Nz. } { rewrite Pm. exact Ez. }
        intros m2 R2. cbn beta in R2. rewrite Pm in R2.
        eapply hm_conseq; [apply (IH m2 _ R2 G')|].
        intros m' (A1 & pairs & A2 & A3). split.
        + intros v0 z0 [E|Hin]; [injection E as <- <-; eauto|eauto].
        + exists pairs. split; [auto|]. intros e w0. rewrite A3. split.
          * intros [H|(z0 & H1 & H2)]; [|right; exists z0; split; [now right|auto]].
            apply in_app_iff in H. destruct H as [H|[E|[]]]; [auto|]. injection E as -> ->.
            right. exists v. split; [now left|auto].
          * intros [H|(z0 & [E|Hin] & H2 & H3)]; [left; apply in_app_iff; auto| |right; eauto]. injection E as <- <-.
            left. apply in_app_iff. right. left. f_equal. now apply (evals_fun VI PF U F I US o h v).
    Qed.

    Lemma local_vals_hm o h n n' x : typed o h n' -> ok h -> oshape o n -> forall l,
      (forall v z, In (v, z) l -> fits n v) ->
      hm (mh_local_vals VI PF U F I mk x o h l)
        (Forall2 (fun a y => exists w, evals o h (fst a) w /\ y = node_hier VI PF x w (snd a)) l).
    Proof.
      intros T Kh Os. induction l as [|[v z] l IH]; intros G; cbn [mh_local_vals]; [apply hm_ret; constructor|].
      eapply hm_bind; [apply (call_hm o h n n' v); auto; apply (G v z); now left|]. intros w Hw. cbn beta in Hw.
      eapply hm_bind; [apply IH; intros v0 z0 Hin; apply (G v0 z0); now right|]. intros ys Hys. cbn beta in Hys.
      apply hm_ret. constructor; [|auto]. exists w. auto.
    Qed.

    Lemma ind_vals_hm W o s s' (kk : W -> hom) : oshape o s -> forall l,
      (forall v, ok (kk v)) -> (forall v z, In (v, z) l -> typed o (kk v) s' /\ fits s z) ->
      hm (mh_ind_vals VI U F I alarm mk o kk l) (Forall2 (fun a y => evals o (kk (fst a)) (snd a) y) l).
    Proof.
      intros Os. induction l as [|[v z] l IH]; intros Kk G; cbn [mh_ind_vals]; [apply hm_ret; constructor|].
      destruct (G v z (or_introl eq_refl)) as [T Fz].
      eapply hm_bind; [apply user_hm|]. intros h ->.
      eapply hm_bind; [apply (call_hm o (kk v) s s' z); auto|]. intros w Hw. cbn beta in Hw.
      eapply hm_bind; [apply IH; [auto|intros v0 z0 Hin; apply (G v0 z0); now right]|]. intros ys Hys. cbn beta in Hys.
      apply hm_ret. now constructor.
    Qed.

    Lemma images_hm f : forall l, hm (mh_images VI U F I US alarm f l) (fun l' => l' = map (fun a => (f_apply US f (fst a), snd a)) l).
    Proof.
      induction l as [|[v z] l IH]; cbn [mh_images]; [now apply hm_ret|].
      eapply hm_bind; [apply user_hm|]. intros v' ->.
      eapply hm_bind; [exact IH|]. intros l' ->. now apply hm_ret.
    Qed.

    Lemma forall2_perm A B (R : A -> B -> Prop) l l' ys : Permutation l' l -> Forall2 R l' ys ->
      exists zs, Forall2 R l zs /\ Permutation ys zs.
    Proof.
      intros HP. revert ys. induction HP as [|a l' l HP IH|a b l|l' l1 l HP1 IH1 HP2 IH2]; intros ys H.
      - inversion H; subst. exists []. auto.
      - inversion H as [|? y ? ys' H1 H2]; subst. destruct (IH _ H2) as (zs & H3 & H4). exists (y :: zs). split; auto.
      - inversion H as [|? y ? ys' H1 H2]; subst. inversion H2 as [|? y' ? ys'' H3 H4]; subst.
        exists (y' :: y :: ys''). split; [auto|]. apply perm_swap.
      - destruct (IH1 _ H) as (zs & H1 & H2). destruct (IH2 _ H1) as (zs' & H3 & H4). exists zs'. split; [auto|]. eapply perm_trans; eauto.
    Qed.
    Lemma forall2_in_r A B (R : A -> B -> Prop) l ys y : Forall2 R l ys -> In y ys -> exists a, In a l /\ R a y.
    Proof.
      induction 1 as [|a b l ys H1 H2 IH]; intros Hin; [destruct Hin|]. destruct Hin as [<-|Hin]; [exists a; split; [now left|auto]|].
      destruct (IH Hin) as (a' & H3 & H4). exists a'. split; [now right|auto].
    Qed.

    Lemma ind_body_hm W o s s' (kk : W -> hom) arcs : oshape o s ->
      (forall v, ok (kk v)) -> (forall v z, In (v, z) arcs -> typed o (kk v) s' /\ fits s z) ->
      hm (mbind VI (visit VI O arcs) (fun l => mbind VI (mh_ind_vals VI U F I alarm mk o kk l) (mv_sum VI PF O C)))
        (runs ends (ys <- ind_vals VI U F I o kk arcs ;; lift VI U F I (api_sum VI PF ys))).
    Proof.
      intros Os Kk G. eapply hm_bind; [apply visit_hm|]. intros l HP. cbn beta in HP.
      eapply hm_bind; [apply (ind_vals_hm W o s s' kk Os l Kk)|].
      { intros v z Hin. apply (G v z). now apply (perm_in _ _ _ HP). }
      intros ys Hys. cbn beta in Hys. destruct (forall2_perm _ _ _ _ _ _ HP Hys) as (zs & Hzs & Pz).
      eapply hm_conseq; [apply (sum_hm s' zs ys)|].
      - intros y Hy. destruct (forall2_in_r _ _ _ _ _ _ Hzs Hy) as ([v z] & Hin & Ey). cbn in Ey.
        destruct (G v z Hin) as [T Fz]. now apply (evals_result o (kk v) s s' z y).
      - now apply perm_in.
      - intros y Ey. apply runs_bind_iff. exists zs. split; [now apply runs_ind_vals|now apply runs_lift].
    Qed.

    Lemma forward_body_hm W (mo : mops VI DC HC W) (mk' : list (sdd * list W) -> M sdd) (st : list (sdd * W) -> res (err V) sdd)
        o h s r' arcs : typed o h r' -> ok h -> oshape o s -> strict_total (vo_lt (mo_pure mo)) ->
      (forall v z, In (v, z) arcs -> fits s z /\ z <> Zero /\ vo_empty (mo_pure mo) v = false) ->
      (forall m pairs f, su_rel VI PF (mo_pure mo) m pairs ->
         (forall z, In z (map snd arcs) -> fits r' (f z)) ->
         (forall e, In e pairs <-> In e (fwd_pairs VI f arcs)) ->
         hm (mk' m) (fun y => st (fwd_pairs VI f arcs) = Ok y)) ->
      hm (mbind VI (visit VI O arcs) (fun l => mbind VI (mh_forward VI PF U F I mk mo o h l []) mk'))
        (runs ends (pairs <- forward VI U F I o h arcs ;; lift VI U F I (st pairs))).
    Proof.
      intros T Kh Os ST G HF. eapply hm_bind; [apply visit_hm|]. intros l HP. cbn beta in HP.
      pose proof (perm_in _ _ _ HP) as HI.
      eapply hm_bind; [apply (forward_hm W mo o h s r' T Kh Os ST l [] [] (su_rel_nil VI PF _))|].
      { intros v z Hin. apply HI in Hin. destruct (G v z Hin) as (? & ? & ?). auto. }
      intros m (A1 & pairs & A2 & A3).
      destruct (choice_list VI PF PO (evals o h) (map snd arcs)) as (f & _ & Hf).
      { intros z Hz. apply in_map_iff in Hz. destruct Hz as ([v z'] & <- & Hin). now apply (G v z'). }
      { intros z Hz. apply in_map_iff in Hz. destruct Hz as ([v z'] & <- & Hin). apply (A1 v z'). now apply HI. }
      assert (Hv : forall v z, In (v, z) arcs -> evals o h z (f z)).
      { intros v z Hin. apply Hf. apply in_map_iff. exists (v, z). auto. }
      eapply hm_conseq; [apply (HF m pairs f A2)|].
      - intros z Hz. apply in_map_iff in Hz. destruct Hz as ([v z'] & <- & Hin). cbn [snd].
        apply (evals_result o h s r' z'); eauto. now apply (G v z').
      - intros [e v]. rewrite A3, fwd_pairs_in. split.
        + intros [[]|(z & Hin & E & Nz)]. apply HI in Hin. exists z. split; [auto|]. split; [|auto].
          apply (evals_fun VI PF U F I US o h z); eauto.
        + intros (z & Hin & -> & Nz). right. exists z. split; [now apply HI|]. split; [eauto|auto].
      - intros y Ey. apply runs_bind_iff. exists (fwd_pairs VI f arcs). split; [|now apply runs_lift].
        now apply (forward_fun VI PF U F I US o h f arcs).
    Qed.

    (** *** Other loops *)

    Lemma calls_hm o s s' x hs : oshape o s -> fits s x -> (forall h, In h hs -> ok h) -> (forall h, In h hs -> typed o h s') ->
      hm (mh_calls VI U F I mk o hs x) (fun ys => runs ends (hcalls VI U F I o hs x) ys /\ length ys = length hs /\ forall y, In y ys -> fits s' y).
    Proof.
      intros Os Fx. induction hs as [|h hs IH]; intros Kh T; cbn [mh_calls hcalls].
      - apply hm_ret. split; [constructor|]. split; [auto|intros y []].
      - pose proof (T h (or_introl eq_refl)) as Th.
        eapply hm_bind; [apply (call_hm o h s s' x); auto; apply Kh; now left|]. intros y Hy. cbn beta in Hy.
        eapply hm_bind; [apply IH; intros h' Hh; [apply Kh|apply T]; now right|]. intros ys (R & Le & Fs).
        apply hm_ret. split.
        + apply runs_bind_iff. exists y. split; [now apply runs_hcall|]. apply runs_bind_iff. exists ys. split; [auto|constructor].
        + split; [cbn; now rewrite Le|]. intros z [<-|Hz]; [now apply (evals_result o h s s' x)|auto].
    Qed.

    Lemma inter_loop_hm o s s' x hs : oshape o s -> fits s x -> (forall h, In h hs -> ok h) -> (forall h, In h hs -> typed o h s') ->
      forall acc, (forall y, In y acc -> fits s' y) -> (hs <> [] \/ acc <> []) ->
      hm (mh_inter_loop VI PF O C U F I mk o hs x acc) (runs ends (inter_loop VI PF U F I o hs x acc)).
    Proof.
      intros Os Fx. induction hs as [|h hs IH]; intros Kh T acc Hacc Ne; cbn [mh_inter_loop inter_loop].
      - destruct Ne as [Ne|Ne]; [congruence|]. eapply hm_conseq; [now apply (inter_hm s')|].
        intros y Ey. now apply runs_lift.
      - apply (call_step _ o h s s' x); auto; [apply T; now left|apply Kh; now left|].
        intros y _ Fy. destruct (is_zero VI y); [apply hm_ret; constructor|]. apply IH.
        + intros h' Hh. apply Kh. now right.
        + intros h' Hh. apply T. now right.
        + intros z Hz. apply in_app_iff in Hz. destruct Hz as [Hz|[<-|[]]]; auto.
        + right. destruct acc; discriminate.
    Qed.

    Lemma fix_hm o h s : typed o h s -> ok h -> oshape o s -> forall n x, fits s x ->
      hm (mh_fix VI PF U F I mk n o h x) (runs ends (fix_loop VI PF U F I n o h x)).
    Proof.
      intros T Kh Os. induction n as [|n IH]; intros x Fx; cbn [mh_fix fix_loop]; [now apply hm_throw|].
      apply (call_step _ o h s s x); auto. intros y _ Fy.
      destruct (sdd_eqb VI PF y x); [apply hm_ret; constructor|now apply IH].
    Qed.

    Lemma chain_hm o s g : oshape o s -> (forall h, In h g -> ok h) -> (forall h, In h g -> typed o h s) -> forall x, fits s x ->
      hm (mh_chain VI PF O C U F I mk o g x) (fun y => runs ends (g_chain VI PF U F I o g x) y /\ fits s y).
    Proof.
      intros Os. induction g as [|h g IH]; intros Kh T x Fx; cbn [mh_chain g_chain]; [apply hm_ret; split; [constructor|auto]|].
      pose proof (T h (or_introl eq_refl)) as Th.
      eapply hm_bind; [apply (call_hm o h s s x); auto; apply Kh; now left|]. intros y Hy. cbn beta in Hy.
      assert (Fs : forall w, In w [x; y] -> fits s w).
      { intros w [<-|[<-|[]]]; [auto|now apply (evals_result o h s s x)]. }
      eapply hm_bind; [apply (sum_hm s [x; y] [x; y] Fs); reflexivity|]. intros z Ez. cbn beta in Ez.
      destruct (sum_ok VI VL PF PO s [x; y] Fs) as (z' & E & Fz & _). rewrite Ez in E. injection E as <-.
      eapply hm_conseq; [apply IH; [intros h' Hh; apply Kh; now right|intros h' Hh; apply T; now right|exact Fz]|].
      intros w [Rw Fw]. split; [|auto]. apply runs_bind_iff. exists y. split; [now apply runs_hcall|].
      apply runs_bind_iff. exists z. split; [now apply runs_lift|auto].
    Qed.

    Lemma sat_hm o s f g l : oshape o s -> ok f -> (forall h, In h g -> ok h) -> ok l -> typed o f s -> (forall h, In h g -> typed o h s) -> typed o l s ->
      forall n x, fits s x ->
      hm (mh_sat VI PF O C U F I mk n o f g l x) (runs ends (sat_loop VI PF U F I n o f g l x)).
    Proof.
      intros Os Kf Kg Kl Tf Tg Tl. induction n as [|n IH]; intros x Fx; cbn [mh_sat sat_loop]; [now apply hm_throw|].
      apply (call_step _ o f s s x); auto. intros x2 _ F2.
      apply (call_step _ o l s s x2); auto. intros x3 _ F3.
      apply (step _ _ _ _ _ _ (fits s)); [now apply (chain_hm o s g)|]. intros x4 F4.
      destruct (sdd_eqb VI PF x x4); [apply hm_ret; constructor|now apply IH].
    Qed.

    Lemma local_hm n o t nn o' on h n' r x : olevel o (LHier t nn) o' -> o_nested o = Some on ->
      oshape o' r -> typed on h n' -> ok h -> fits (SHier t nn r) x -> x <> Zero ->
      hm (mh_direct VI PF O C U F I US alarm mk n (HLocal t h) o x) (runs ends (direct n (HLocal t h) o x)).
    Proof.
      intros L Mo Os T Kh Fx Nz. destruct L as (_ & _ & on' & M' & _ & On).
      rewrite Mo in M'. injection M' as <-.
      destruct x as [| |var arcs|var arcs]; try congruence; try (destruct Fx as [_ Fx]; now inversion Fx).
      destruct (fits_hier_inv VI PF _ _ _ _ _ Fx) as (-> & _ & D & G).
      cbn [Hom.direct MovingHom.mh_direct]. unfold with_nested, mh_nested. rewrite Mo.
      eapply hm_bind; [apply visit_hm|]. intros l HP. cbn beta in HP. pose proof (perm_in _ _ _ HP) as HI.
      assert (Choice : (forall v z, In (v, z) l -> exists w, evals on h v w) ->
                exists f, forall v z, In (v, z) arcs -> evals on h v (f v)).
      { intros A1. destruct (choice_list VI PF PO (evals on h) (map fst arcs)) as (f & _ & Hf).
        - intros z Hz. apply in_map_iff in Hz. destruct Hz as ([v z'] & <- & Hin). now apply (G v z').
        - intros z Hz. apply in_map_iff in Hz. destruct Hz as ([v z'] & <- & Hin). apply (A1 v z'). now apply HI.
        - exists f. intros v z Hin. apply Hf. apply in_map_iff. exists (v, z). auto. }
      assert (Vals : forall f, (forall v z, In (v, z) arcs -> evals on h v (f v)) ->
                runs ends (local_vals VI U F I on h arcs) (map (fun a => (f (fst a), snd a)) arcs)).
      { intros f Hf. apply runs_local_vals. exists (map (fun a => f (fst a)) arcs). split.
        - clear - Hf. induction arcs as [|[v z] arcs IH]; cbn [map fst]; constructor.
          + apply (Hf v z). now left.
          + apply IH. intros v0 z0 Hin. apply (Hf v0 z0). now right.
        - rewrite (combine_map (fun a => f (fst a)) arcs), map_map. reflexivity. }
      destruct (hselector h) eqn:Sel.
      - eapply hm_bind; [apply (local_su_hm on h nn n' (m_hier VI PF (m_eval VI PF O C 0)) T Kh On eq_refl l [] []
                    (su_rel_nil VI PF _))|].
        { intros v z Hin. apply HI in Hin. now destruct (G v z Hin) as (? & ? & ? & ?). }
        intros m (A1 & pairs0 & A2 & A3). destruct (Choice A1) as (f & Hf).
        set (vals := map (fun a => (f (fst a), snd a)) arcs).
        set (pairs := map (fun vs : sdd * sdd => (snd vs, fst vs)) (filter (fun vs => negb (is_zero VI (fst vs))) vals)).
        assert (Hp : forall s v', In (s, v') pairs <-> v' <> Zero /\ exists v, In (v, s) arcs /\ v' = f v).
        { intros s v'. unfold pairs, vals. rewrite in_map_iff. split.
          - intros ([v0 s0] & E & Hin). cbn in E. injection E as -> ->. apply filter_In in Hin. destruct Hin as [Hin Z].
            cbn in Z. apply negb_true_iff in Z. split; [intros ->; discriminate|].
            apply in_map_iff in Hin. destruct Hin as ([v z] & E & Hin). cbn in E. injection E as <- <-. eauto.
          - intros (Z & v & Hin & ->). exists (f v, s). split; [auto|]. apply filter_In. split.
            + apply in_map_iff. exists (v, s). auto.
            + cbn. rewrite (is_zero_false VI) by auto. reflexivity. }
        assert (Hok : forall v z, In (v, z) arcs -> result_ok h n' v (f v)).
        { intros v z Hin. apply (evals_result on h nn n' v); eauto. now apply (G v z). }
        assert (Pa : forall s v, In (s, v) pairs -> fits r s /\ s <> Zero /\ fits n' v /\ v <> Zero).
        { intros s v' Hin. apply Hp in Hin. destruct Hin as (Z & v & Hin & ->).
          destruct (G v s Hin) as (G1 & G2 & G3 & G4).
          split; [auto|split; [auto|split; [|auto]]]. now apply (Hok v s). }
        assert (Pd : forall s1 v1 s2 v2, In (s1, v1) pairs -> In (s2, v2) pairs -> s1 <> s2 -> disjoint contains v1 v2).
        { intros s1 v1 s2 v2 I1 I2 Ne a M1 M2. apply Hp in I1. apply Hp in I2.
          destruct I1 as (_ & w1 & J1 & ->), I2 as (_ & w2 & J2 & ->).
          apply (Hok w1 s1 J1) in M1; [|auto]. apply (Hok w2 s2 J2) in M2; [|auto].
          pose proof (adisjoint_unique VI _ _ D _ _ _ _ _ J1 J2 M1 M2). congruence. }
        destruct (su_hier_ok VI VL PF PO t n' r pairs Pa Pd) as (y & Ey & _).
        pose proof (su_hier_eq VI VL PF PO O OO DC HC C cinv chas cd CO P True (fun _ => False) t n' r m pairs0 pairs A2 Pa Pd) as E.
        rewrite Ey in E. eapply hm_conseq; [apply eqm_hm; apply E|].
        + intros [s w]. rewrite A3, Hp. split.
          * intros [[]|(v & Hin & Ev & Nw)]. apply HI in Hin. split; [auto|]. exists v. split; [auto|].
            apply (evals_fun VI PF U F I US on h v); eauto.
          * intros (Nw & v & Hin & ->). right. exists v. split; [now apply HI|]. split; [eauto|auto].
        + intros y' ->. apply runs_bind_iff. exists vals. split; [now apply Vals|].
          apply runs_lift. exact Ey.
      - eapply hm_bind; [apply (local_vals_hm on h nn n' t T Kh On l)|].
        { intros v z Hin. apply HI in Hin. now apply (G v z). }
        intros ys Hys. cbn beta in Hys.
        destruct Choice as (f & Hf).
        { intros v z Hin. clear - Hys Hin. induction Hys as [|[v0 z0] y l ys H1 H2 IH]; [destruct Hin|].
          destruct Hin as [E|Hin]; [|auto]. injection E as <- <-. destruct H1 as (w & H1 & _). eauto. }
        destruct (forall2_perm _ _ _ _ _ _ HP Hys) as (zs & Hzs & Pz).
        assert (Ez : zs = map (fun vs : sdd * sdd => node_hier VI PF t (fst vs) (snd vs)) (map (fun a => (f (fst a), snd a)) arcs)).
        { clear - Hzs Hf. induction Hzs as [|[v z] y arcs zs H1 H2 IH]; [reflexivity|]. cbn [map fst snd] in *.
          destruct H1 as (w & H1 & ->). f_equal.
          - f_equal. apply (evals_fun VI PF U F I US on h v); [auto|]. apply (Hf v z). now left.
          - apply IH. intros v0 z0 Hin. apply (Hf v0 z0). now right. }
        eapply hm_conseq; [apply (sum_hm (SHier t n' r) zs ys)|].
        + intros y Hy. destruct (forall2_in_r _ _ _ _ _ _ Hzs Hy) as ([v z] & Hin & w & Ew & ->). cbn [fst snd] in *.
          destruct (G v z Hin) as (G1 & G2 & G3 & G4). apply node_hier_fits; auto. now apply (evals_result on h nn n' v).
        + now apply perm_in.
        + intros y Ey. apply runs_bind_iff. exists (map (fun a => (f (fst a), snd a)) arcs). split; [now apply Vals|].
          apply runs_lift. now rewrite <- Ez.
    Qed.

    Lemma direct_hm n o h s s' x : typed o h s' -> ok h -> oshape o s -> fits s x -> x <> Zero -> h <> HId ->
      (o_empty o = false -> hskip o h = false) ->
      hm (mh_direct VI PF O C U F I US alarm mk n h o x) (runs ends (direct n h o x)).
    Proof.
      intros T Kh Os Fx Nz Ni Hs.
      assert (Down : forall l o' t, olevel o l o' -> lvar l <> t -> hskip o h = var_neqb U o t -> False).
      { intros l o' t L Nt E. rewrite (proj2 (var_neqb_level U o l o' t L) Nt) in E.
        rewrite Hs in E; [discriminate|]. eapply olevel_nonempty; eauto. }
      inversion T as
      [? s1 O1|? hl r s1 ? O1 H1 H2|? s1 o1 x1 o'' v n1 r O1 A1 A2 O' T1
      |? s1 o1 x1 o'' v nv n1 r O1 A1 A2 O' A3 T1|? s1 x1 ? O1 Fx1|? h1 ? O1 T1|? t f E|? t f r O1
      |? l o1 t f s1 L Nt T1|? p t e s1 ? O1 Sel T1 T2 T3|? i ? E Fx1
      |? l o1 i s1 L Sk T1|? x1 o1 i ? L Sk T1|? x1 n1 o1 i ? L Sk T1|? hs ? Ne T1
      |? t n1 o1 on h1 n' r L Mo O1 T1|? l o1 t h1 s1 L Nt T1
      |? l o1 ? f g q L O1 T1 T2 T3|? l o1 x1 f g q s1 L Nt T1
      |? l o1 ? f g q L Ne T1|? l o1 x1 f g q s1 L Nt T1
      |? l o1 ? f g q L Ne T1|? l o1 x1 f g q s1 L Nt T1|? hs ? Ne T1]; subst; try congruence.
      - (* composition *)
        destruct (hd_comp _ _ _ _ _ _ HD _ _ Kh) as [Kl Kr].
        rewrite (oshape_fun _ _ _ O1 _ Os) in *. cbn [Hom.direct MovingHom.mh_direct].
        apply (call_step _ o r s s x); auto. intros y _ Fy.
        eapply hm_conseq; [now apply (call_hm o hl s s' y)|]. intros z Hz. now apply runs_hcall.
      - (* cons, flat *)
        pose proof (hd_consF _ _ _ _ _ _ HD _ _ _ Kh) as Kn.
        cbn [Hom.direct MovingHom.mh_direct]. unfold with_var, with_next, mh_var, mh_next. rewrite A1, A2.
        rewrite (oshape_fun _ _ _ O1 _ Os) in *.
        apply (call_step _ o'' n1 s r x); auto. intros y _ _. apply hm_ret. constructor.
      - (* cons, hierarchical *)
        pose proof (hd_consH _ _ _ _ _ _ HD _ _ _ Kh) as Kn.
        cbn [Hom.direct MovingHom.mh_direct]. unfold with_var, with_next, mh_var, mh_next. rewrite A1, A2.
        rewrite (oshape_fun _ _ _ O1 _ Os) in *.
        apply (call_step _ o'' n1 s r x); auto. intros y _ _. apply hm_ret. constructor.
      - (* constant *) apply hm_ret. constructor.
      - (* fixpoint *)
        pose proof (hd_fix _ _ _ _ _ _ HD _ Kh) as Kn.
        cbn [Hom.direct MovingHom.mh_direct]. rewrite (oshape_fun _ _ _ O1 _ Os) in *. now apply (fix_hm o h1 s).
      - (* function, terminal *)
        destruct (oshape_inv _ _ _ Os) as [[_ ->]|[E' _]]; [|congruence].
        destruct x as [| |v a|v a]; [congruence| |destruct Fx as [_ Fx]; inversion Fx..]. apply hm_ret. constructor.
      - (* function, target *)
        rewrite (oshape_fun _ _ _ Os _ O1) in *.
        destruct x as [| |v arcs|v arcs]; try congruence; try (destruct Fx as [_ Fx]; now inversion Fx).
        destruct (fits_flat_inv VI PF _ _ _ _ Fx) as (-> & _ & D & G).
        inversion O1 as [|? ? ? ? ? A1|]; subst. cbn [Hom.direct MovingHom.mh_direct]. unfold with_var, mh_var. rewrite A1.
        assert (Nd : NoDup (map snd arcs)).
        { destruct Fx as [Fx _]. inversion Fx. now apply (ssorted_nodup _ (pf_lt PO)). }
        eapply hm_bind; [apply visit_hm|]. intros l HP. cbn beta in HP.
        eapply hm_bind; [apply images_hm|]. intros l' ->.
        destruct (f_sel US f || f_shift US f).
        + rewrite fold_images, (fast_perm VI PF PO _ l arcs Nd HP). apply hm_ret. constructor.
        + rewrite map_map. eapply hm_conseq; [|intros y Ey; apply runs_lift; exact Ey]. apply (sum_hm (SFlat t r)).
          * intros z Hz. apply in_map_iff in Hz. destruct Hz as ([v s0] & <- & Hv). cbn.
            apply node_flat_fits; auto. now apply (G v s0).
          * apply perm_in. now apply Permutation_map.
      - exfalso. apply (Down l o1 t); auto.
      - (* if_then_else *)
        destruct (hd_ite _ _ _ _ _ _ HD _ _ _ Kh) as (Kp & Kt & Ke).
        cbn [Hom.direct MovingHom.mh_direct]. rewrite (oshape_fun _ _ _ O1 _ Os) in *.
        apply (call_step _ o p s s x); auto. intros y _ Fy.
        apply (call_step _ o t s s' y); auto. intros a _ Fa.
        apply (step _ _ _ _ _ _ (fits s)).
        { eapply hm_conseq; [now apply (minus_hm s)|]. intros d Ed. split; [now apply runs_lift|].
          destruct (minus_ok VI VL PF PO s x y Fx Fy) as (d' & E & Fd & _). rewrite Ed in E. injection E as ->. exact Fd. }
        intros d Fd. apply (call_step _ o e s s' d); auto. intros b _ Fb.
        eapply hm_conseq; [apply (sum_hm s' [a; b] [a; b]); [|reflexivity]|].
        + intros w [<-|[<-|[]]]; auto.
        + intros w Ew. now apply runs_lift.
      - (* inductive, terminal *)
        destruct (oshape_inv _ _ _ Os) as [[_ ->]|[E' _]]; [|congruence].
        destruct x as [| |v a|v a]; [congruence| |destruct Fx as [_ Fx]; inversion Fx..].
        cbn [Hom.direct MovingHom.mh_direct]. eapply hm_conseq; [apply user_hm|]. intros y ->. constructor.
      - rewrite Hs in Sk; [discriminate|]. eapply olevel_nonempty; eauto.
      - (* inductive, flat *)
        destruct (oshape_inv _ _ _ Os) as [[E' _]|(_ & l & o' & r & L' & -> & O')].
        { rewrite (olevel_nonempty _ _ _ _ L) in E'. discriminate. }
        destruct (olevel_fun _ _ _ _ L' _ _ L) as [-> ->]. cbn [under] in *.
        destruct x as [| |v arcs|v arcs]; try congruence; try (destruct Fx as [_ Fx]; now inversion Fx).
        destruct (fits_flat_inv VI PF _ _ _ _ Fx) as (-> & _ & D & G).
        cbn [Hom.direct MovingHom.mh_direct]. unfold with_next, mh_next. rewrite (proj1 (proj2 L)).
        apply (ind_body_hm V o1 r s' (i_flat US i o) arcs O');
          [apply (hd_ind _ _ _ _ _ _ HD i o _ Kh Os); eapply olevel_nonempty; eauto|].
        intros v z Hin. destruct (G v z Hin) as (G1 & G2 & G3). auto.
      - (* inductive, hierarchical *)
        destruct (oshape_inv _ _ _ Os) as [[E' _]|(_ & l & o' & r & L' & -> & O')].
        { rewrite (olevel_nonempty _ _ _ _ L) in E'. discriminate. }
        destruct (olevel_fun _ _ _ _ L' _ _ L) as [-> ->]. cbn [under] in *.
        destruct x as [| |v arcs|v arcs]; try congruence; try (destruct Fx as [_ Fx]; now inversion Fx).
        destruct (fits_hier_inv VI PF _ _ _ _ _ Fx) as (-> & _ & D & G).
        cbn [Hom.direct MovingHom.mh_direct]. unfold with_next, mh_next. rewrite (proj1 (proj2 L)).
        apply (ind_body_hm sdd o1 r s' (i_hier US i o) arcs O');
          [apply (hd_ind _ _ _ _ _ _ HD i o _ Kh Os); eapply olevel_nonempty; eauto|].
        intros v z Hin. destruct (G v z Hin) as (G1 & G2 & G3 & G4). auto.
      - (* intersection *)
        cbn [Hom.direct MovingHom.mh_direct].
        apply (inter_loop_hm o s s' x hs Os Fx (fun h' => hd_inter _ _ _ _ _ _ HD hs h' Kh) T1 []); auto. intros y [].
      - (* local, target *)
        assert (E : s = SHier t n1 r).
        { apply (oshape_fun _ _ _ Os). now apply (oshape_level _ _ (LHier t n1) _ r L). }
        rewrite E in *. apply (local_hm n o t n1 o1 on h1 n' r x L Mo O1 T1 (hd_local _ _ _ _ _ _ HD _ _ Kh) Fx Nz).
      - exfalso. apply (Down l o1 t); auto.
      - (* saturation fixpoint *)
        destruct (hd_satfix _ _ _ _ _ _ HD _ _ _ _ Kh) as (Kf & Kg & Kl).
        cbn [Hom.direct MovingHom.mh_direct]. rewrite (oshape_fun _ _ _ O1 _ Os) in *. now apply (sat_hm o s f g q).
      - exfalso. apply (Down l o1 x1); auto.
      - (* saturation intersection *)
        cbn [Hom.direct MovingHom.mh_direct].
        eapply step; [apply (calls_hm o s s' x _ Os Fx (fun h' => hd_satinter _ _ _ _ _ _ HD _ _ _ _ h' Kh) T1)|].
        intros ys [Hl Hys]. eapply hm_conseq; [|intros y Ey; apply runs_lift; exact Ey]. apply (inter_hm s'); [|exact Hys].
        intros ->. apply Ne. destruct (opt_list VI U F I f ++ g ++ opt_list VI U F I q); [auto|discriminate].
      - exfalso. apply (Down l o1 x1); auto.
      - (* saturation sum *)
        cbn [Hom.direct MovingHom.mh_direct].
        eapply step; [apply (calls_hm o s s' x _ Os Fx (fun h' => hd_satsum _ _ _ _ _ _ HD _ _ _ _ h' Kh) T1)|].
        intros ys [_ Hys]. eapply hm_conseq; [|intros y Ey; apply runs_lift; exact Ey]. apply (sum_hm s'); [exact Hys|reflexivity].
      - exfalso. apply (Down l o1 x1); auto.
      - (* sum *)
        cbn [Hom.direct MovingHom.mh_direct].
        eapply step; [apply (calls_hm o s s' x _ Os Fx (fun h' => hd_sum _ _ _ _ _ _ HD _ h' Kh) T1)|].
        intros ys [_ Hys]. eapply hm_conseq; [|intros y Ey; apply runs_lift; exact Ey]. apply (sum_hm s'); [exact Hys|reflexivity].
    Qed.

    Lemma skip_hm n o l o' h s r' x : olevel o l o' -> oshape o' s -> fits (under l s) x ->
      x <> Zero -> hskip o h = true -> typed o' h r' -> ok h ->
      hm (mh_body VI PF O C U F I US alarm mk n (o, h, x)) (runs ends (hom_body n (o, h, x))).
    Proof.
      intros L Os Fx Nz Hs T Kh. pose proof L as (Lv & Ln & _).
      unfold Hom.hom_body, MovingHom.mh_body. unfold with_var, with_next, mh_var, mh_next. rewrite Lv, Ln, Hs.
      destruct x as [| |var arcs|var arcs]; destruct l as [z|z nn]; cbn [under] in *;
        try congruence; try (destruct Fx as [_ Fx]; now inversion Fx).
      - destruct (fits_flat_inv VI PF _ _ _ _ Fx) as (-> & _ & D & G). cbn [lvar]. rewrite N.eqb_refl.
        apply (forward_body_hm V (m_flat VI PF O) _ (su_flat VI PF z) o' h s r' arcs T Kh Os).
        + apply (vl_lt VL).
        + intros v w Hin. now destruct (G v w Hin) as (? & ? & ?).
        + intros m0 pairs f R Hc HI.
          assert (Pa : forall s0 v, In (s0, v) (fwd_pairs VI f arcs) -> fits r' s0 /\ s0 <> Zero /\ v_empty VI v = false).
          { intros s0 v Hin. apply fwd_pairs_in in Hin. destruct Hin as (w & Hin & -> & Z).
            split; [|split; [auto|now apply (G v w)]]. apply Hc. apply in_map_iff. exists (v, w). auto. }
          pose proof (fwd_disj VI (v_mem VI) f arcs D) as Pd.
          destruct (su_flat_ok VI VL PF PO z r' _ Pa Pd) as (y & Ey & _).
          pose proof (su_flat_eq VI VL PF PO O OO DC HC cinv P True (fun _ => False) z r' m0 pairs _ R Pa Pd HI) as E.
          rewrite Ey in E. eapply hm_conseq; [apply eqm_hm; exact E|]. intros y' ->. exact Ey.
      - destruct (fits_hier_inv VI PF _ _ _ _ _ Fx) as (-> & _ & D & G). cbn [lvar]. rewrite N.eqb_refl.
        apply (forward_body_hm sdd (m_hier VI PF (m_eval VI PF O C 0))
          (fun m0 => mh_su_node VI PF O (m_hier VI PF (m_eval VI PF O C (su_fuel VI m0))) Hier z m0)
          (su_hier VI PF z) o' h s r' arcs T Kh Os).
        + apply (pf_lt PO).
        + intros v w Hin. destruct (G v w Hin) as (G1 & G2 & G3 & G4). split; [auto|split; [auto|now apply is_zero_false]].
        + intros m0 pairs f R Hc HI.
          assert (Pa : forall s0 v, In (s0, v) (fwd_pairs VI f arcs) -> fits r' s0 /\ s0 <> Zero /\ fits nn v /\ v <> Zero).
          { intros s0 v Hin. apply fwd_pairs_in in Hin. destruct Hin as (w & Hin & -> & Z).
            destruct (G v w Hin) as (G1 & G2 & _).
            split; [|split; [auto|split; auto]]. apply Hc. apply in_map_iff. exists (v, w). auto. }
          pose proof (fwd_disj VI contains f arcs D) as Pd.
          destruct (su_hier_ok VI VL PF PO z nn r' _ Pa Pd) as (y & Ey & _).
          pose proof (su_hier_eq VI VL PF PO O OO DC HC C cinv chas cd CO P True (fun _ => False) z nn r' m0 pairs _ R Pa Pd HI) as E.
          rewrite Ey in E. eapply hm_conseq; [apply eqm_hm; exact E|]. intros y' ->. exact Ey.
    Qed.

    Lemma body_hm n o h s s' x : typed o h s' -> ok h -> oshape o s -> fits s x -> x <> Zero -> h <> HId ->
      hm (mh_body VI PF O C U F I US alarm mk n (o, h, x)) (evals o h x).
    Proof.
      intros T Kh Os Fx Nz Ni.
      assert (R : hm (mh_body VI PF O C U F I US alarm mk n (o, h, x)) (runs ends (hom_body n (o, h, x)))).
      2: { eapply hm_conseq; [exact R|]. intros y Ry. apply (evals_iff VI PF U F I US); eauto. }
      destruct (oshape_inv _ _ _ Os) as [[E ->]|(E & l & o' & r & L & -> & O')].
      - destruct x as [| |v a|v a]; try congruence; try (destruct Fx as [_ Fx]; now inversion Fx).
        cbn [Hom.hom_body MovingHom.mh_body]. apply (direct_hm n o h SEnd s' One); auto. congruence.
      - destruct (hskip o h) eqn:Hs.
        + destruct (typed_next VI PF U F I US o h s' T l o' L Hs) as (r' & -> & T').
          apply (skip_hm n o l o' h r r' x L O' Fx Nz Hs T' Kh).
        + pose proof (direct_hm n o h _ s' x T Kh Os Fx Nz Ni (fun _ => Hs)) as X.
          unfold Hom.hom_body, MovingHom.mh_body. unfold with_var, mh_var. rewrite (proj1 L), Hs.
          destruct x as [| |var arcs|var arcs]; destruct l as [z|z nn]; cbn [under] in *;
            try congruence; try (destruct Fx as [_ Fx]; now inversion Fx).
          * destruct (fits_flat_inv VI PF _ _ _ _ Fx) as (-> & _). cbn [lvar]. now rewrite N.eqb_refl.
          * destruct (fits_hier_inv VI PF _ _ _ _ _ Fx) as (-> & _). cbn [lvar]. now rewrite N.eqb_refl.
    Qed.
  End Body.
End Safe.

(** ** Through caches *)

Section Caches.
  Variable VI : values_impl.
  Variable VL : values_laws VI.
  Variable PF : platform VI.
  Variable PO : platform_ok PF.
  Variable O : oracle.
  Hypothesis OO : oracle_ok O.
  Notation V := (vt VI).
  Notation sdd := (sdd V).
  Variables DC HC : Type.
  Variable C : memo (ddop V) sdd (err V) DC.
  Variable cinv : DC -> Prop.
  Variable chas : DC -> ddop V -> Prop.
  Variable cd : ddop V -> N.
  Hypothesis CO : dd_memo_ok VI PF C cinv chas cd.
  Variables U F I : Type.
  Notation hom := (hom V U F I).
  Notation hop := (hop VI U F I).
  Variable US : user V U F I.
  Hypothesis HO : honest VI PF U F I US.
  Notation typed := (typed VI PF U F I US).
  Notation oshape := (oshape U).
  Notation fits := (fits VI PF).
  Notation heval := (heval VI PF U F I US).
  Notation evals := (evals VI PF U F I US).
  Variable ok : hom -> Prop.
  Hypothesis HD : hereditary VI US ok.
  Variable K : filtered_memo hop sdd (err V) HC.
  Variable hinv : HC -> Prop.
  Variable hhas : HC -> hop -> Prop.
  Variable same : hop -> hop -> Prop.
  Variable hcd : hop -> N.
  Hypothesis KO : hom_memo_ok VI PF HC U F I US ok K hinv hhas same hcd.
  Notation happlicable := (happlicable VI PF U F I US ok).
  Variable alarm : nat -> bool.
  Notation cached := (mh_eval VI PF O C U F I K US alarm).
  (** What may stop an evaluation: the bounds of the model, and the user's code if it throws. *)
  Definition stop (e : err V) : Prop := e = EFuel \/ (exists t, alarm t = true) /\ e = EUser.
  Notation hm := (hm VI (idle cinv hinv) stop).

  Lemma stop_fuel : stop EFuel.
  Proof. now left. Qed.
  Lemma stop_user : forall t, alarm t = true -> stop EUser.
  Proof. intros t Ht. right. split; [now exists t|reflexivity]. Qed.

  (** The least bound that is sufficient. *)
  Lemma least_fuel n op y : forall k, heval n k op = Ok y -> exists k', heval n (S k') op = Ok y /\ forall v, heval n k' op <> Ok v.
  Proof.
    induction k as [|k IH]; intros E; [discriminate|].
    destruct (heval n k op) as [v|e] eqn:Ek.
    - pose proof (heval_mono VI PF U F I US k n n (S k) op v ltac:(lia) ltac:(lia) Ek) as E'. apply IH. congruence.
    - exists k. split; [exact E|]. intros v. congruence.
  Qed.

  Lemma cached_hm n : forall fuel o h s s' x, typed o h s' -> ok h -> oshape o s -> fits s x ->
    x <> Zero -> h <> HId -> hm (cached n fuel (o, h, x)) (evals o h x).
  Proof.
    induction fuel as [|f IH]; intros o h s s' x T Kh Os Fx Nz Ni; cbn [mh_eval].
    { apply hm_throw. exact stop_fuel. }
    pose proof (body_hm VI VL PF PO O OO DC HC C cinv chas cd CO hinv U F I US HO alarm ok HD stop stop_fuel stop_user
      (cached n f) IH n o h s s' x T Kh Os Fx Nz Ni) as B.
    assert (G : happlicable (o, h, x)).
    { split; [auto|split; [auto|split; [auto|]]]. exists s, s'. auto. }
    destruct (f_accept K (o, h, x)) eqn:Ea.
    - intros st [I1 I2]. destruct (hmo_find _ _ _ _ _ _ _ _ _ _ _ _ _ KO (o, h, x) (hom_cache st) I2 G Ea) as (r & d1 & E1 & J1 & J2 & J3).
      unfold mbind, on_hom. rewrite E1. cbn [fst snd]. destruct r as [v|].
      + cbn. split; [|split; [exact I1|exact J1]]. destruct J3 as (n' & f' & Ev).
        apply (evals_ends VI PF U F I US); auto. exists n', f'. exact Ev.
      + cbn [clock dd_caches hom_cache].
        set (st1 := {| clock := clock st; dd_caches := dd_caches st; hom_cache := d1 |}).
        destruct (B st1 (conj I1 J1)) as [B1 [B2 B3]].
        destruct (mh_body VI PF O C U F I US alarm (cached n f) n (o, h, x) st1) as [[y|e] st2] eqn:Eb; cbn [fst snd outcome] in *.
        2: { split; [exact B1|]. split; [exact B2|exact B3]. }
        assert (Ey : ends VI PF U F I US (o, h, x) y) by (now apply (evals_ends VI PF U F I US)).
        destruct Ey as (n0 & k0 & Ey).
        assert (Ey' : heval (Nat.max n n0) k0 (o, h, x) = Ok y).
        { apply (heval_mono VI PF U F I US k0 n0); auto; lia. }
        destruct (least_fuel _ _ _ _ Ey') as (k & Ek & Lk). set (m := Nat.max n n0) in *.
        (* the evaluations made meanwhile need less fuel than [k] *)
        assert (Ns : ~ hstored VI HC U F I hhas same (hom_cache st2) (o, h, x)).
        { pose proof (body_eq VI VL PF PO O OO DC HC C cinv chas cd CO
            (hsince VI PF HC U F I US hinv hhas m k d1) False stop U F I US alarm stop_user ok HD
            (heval m k) (cached n f) (heval_safe VI VL PF PO U F I US HO m k)) as Q.
          assert (Bn : bounds VI stop n m) by (right; split; [lia|exact stop_fuel]).
          specialize (Q (fun o1 h1 s1 s1' x1 T1 K1 O1 F1 Z1 N1 =>
            cached_eq VI VL PF PO O OO DC HC C cinv chas cd CO U F I US HO ok HD K hinv hhas same hcd KO alarm stop stop_user
              n m Bn k f (or_intror stop_fuel) d1 o1 h1 s1 s1' x1 T1 K1 O1 F1 Z1 N1)).
          specialize (Q n m o h s s' x Bn T Kh Os Fx Nz Ni).
          cbn [Hom.heval] in Ek. rewrite Ek in Q. specialize (Q ltac:(discriminate) st1).
          destruct Q as [_ [_ [Q1 Q2]]]; [split; [exact I1|]; split; [exact J1|auto]|]. rewrite Eb in Q1, Q2. cbn [snd] in Q1, Q2.
          intros (o1 & Ho1 & Sm). destruct (Q2 o1 Ho1) as [Hd|(v1 & Hv)].
          - apply J3. exists o1. split; [now apply J2|exact Sm].
          - rewrite (hmo_same _ _ _ _ _ _ _ _ _ _ _ _ _ KO o1 (o, h, x) Sm (hmo_good _ _ _ _ _ _ _ _ _ _ _ _ _ KO _ _ Q1 Ho1) G) in Hv.
            now apply Lk in Hv. }
        destruct (hmo_store _ _ _ _ _ _ _ _ _ _ _ _ _ KO (o, h, x) y (hom_cache st2) B3 G Ea (ex_intro _ n0 (ex_intro _ k0 Ey)) Ns)
          as (d3 & E3 & L1 & L2).
        rewrite E3. cbn. split; [exact B1|]. split; [exact B2|exact L1].
    - intros st [I1 I2]. unfold mbind at 1, on_hom. cbn [fst snd].
      destruct (hmo_skip _ _ _ _ _ _ _ _ _ _ _ _ _ KO (o, h, x) (hom_cache st) I2) as [J1 J2].
      apply B. split; [exact I1|exact J1].
  Qed.

  (** An application of a well-typed homomorphism gives a right result or stops, and leaves good caches. *)
  Theorem mv_apply_safe n fuel o h s s' x : typed o h s' -> ok h -> oshape o s -> fits s x ->
    hm (mv_apply VI PF O C U F I K US alarm n fuel o h x) (evals o h x).
  Proof.
    intros T Kh Os Fx. unfold mv_apply.
    now apply (call_hm VI PF DC HC cinv hinv U F I US ok stop (cached n fuel) (cached_hm n fuel) o h s s' x).
  Qed.
End Caches.
