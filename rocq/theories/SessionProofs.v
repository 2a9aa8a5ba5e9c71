(** * Sessions: proofs

    The caches of Cache.v satisfy the laws that MovingProofs.v and MovingHomProofs.v require of caches: what is found is a right
    result, because only right results come in. *)

From Coq Require Import List Bool NArith Arith Lia.
From Verif Require Import Base SortedSets Values Sdd SddFacts Orders OrdersSdd DDModel DDGeneric DDProofs DDTheorems.
From Verif Require Import Hom HomFacts HomEval HomTyped HomEqns HomCache.
From Verif Require Import Pow2 HashTable Cached Cache CacheProofs CacheTheorems CacheProps HomCacheProps.
From Verif Require Import Moving MovingProofs MovingHom MovingHomProofs MovingHomSafe Session.
Import ListNotations.

(** ** Caches of operations whose results satisfy [mean] *)

Section Bank.
  Context {Op K R : Type}.
  Variable key : Op -> K.
  Variable keq : K -> K -> bool.
  Variable hash : K -> N.
  Hypothesis keq_spec : forall a b, keq a b = true <-> a = b.
  Variable kind : Op -> nat.
  Variable accept : Op -> bool.
  Variable good : Op -> Prop.
  Variable mean : Op -> R -> Prop.
  Hypothesis mean_same : forall a b v, kind a = kind b -> key a = key b -> good a -> good b -> mean a v -> mean b v.
  Variable sizes : nat -> N.

  Definition bval (i : nat) (op : Op) (r : R) : Prop := kind op = i /\ good op /\ accept op = true /\ mean op r.
  Definition bnb (i : nat) : N := next_power_of_2_64 (sizes i).
  Definition binv (s : caches Op R) : Prop := forall i, nb (tab (s i)) = bnb i /\
    max_size (s i) = max_load (bnb i) /\ exists els fl, cache_ok key hash (bval i) (s i) els fl.
  Definition bhas (s : caches Op R) (o : Op) : Prop :=
    exists p d, dat (cmem (s (kind o))) p = Some d /\ e_op d = o.
  Definition bcd (op : Op) : N := pos hash (key op) (bnb (kind op)).
  Definition bsame (a b : Op) : Prop := kind a = kind b /\ key a = key b.
  Definition bstored (s : caches Op R) (op : Op) : Prop := exists o, bhas s o /\ bsame o op.

  Lemma binv_set : forall s i c, binv s -> nb (tab c) = bnb i -> max_size c = max_load (bnb i) ->
    (exists els fl, cache_ok key hash (bval i) c els fl) -> binv (set_cache s i c).
  Proof.
    intros s i c I H1 H2 H3 j. destruct (Nat.eq_dec j i) as [->|Hn].
    - rewrite set_same. auto.
    - rewrite set_other by auto. apply I.
  Qed.
  Lemma bhas_set : forall s i c, (forall p, dat (cmem c) p = dat (cmem (s i)) p) ->
    forall o, bhas (set_cache s i c) o <-> bhas s o.
  Proof.
    intros s i c H o. unfold bhas. destruct (Nat.eq_dec (kind o) i) as [->|Hn].
    - rewrite set_same. split; intros (p & d & H1 & H2); exists p, d; rewrite H in *; auto.
    - rewrite set_other by auto. tauto.
  Qed.

  Lemma b_filtered_ok : forall op s, binv s -> binv (note_filtered kind op s) /\
    (forall o, bhas (note_filtered kind op s) o <-> bhas s o).
  Proof.
    intros op s I. unfold note_filtered. destruct (I (kind op)) as (H1 & H2 & els & fl & H3). split.
    - apply binv_set; auto. exists els, fl. destruct H3. split; auto.
    - apply bhas_set. auto.
  Qed.
  Lemma b_stored_dec : forall i (c : cache Op R) els fl op, cache_ok key hash (bval i) c els fl ->
    (exists p d, In p els /\ dat (cmem c) p = Some d /\ key (e_op d) = key op) \/
    (forall p d, In p els -> dat (cmem c) p = Some d -> key (e_op d) <> key op).
  Proof.
    intros i c els fl op I.
    destruct (find (fun p => match dat (cmem c) p with Some d => keq (key op) (key (e_op d)) | None => false end) els)
      as [p|] eqn:F.
    - left. apply find_some in F. destruct F as [F1 F2]. destruct (dat (cmem c) p) as [d|] eqn:D; [|discriminate].
      apply keq_spec in F2. exists p, d. auto.
    - right. intros p d Hp Hd Hk. pose proof (find_none _ _ F p Hp) as N1. cbv beta in N1. rewrite Hd in N1.
      assert (keq (key op) (key (e_op d)) = true) by (now apply keq_spec). congruence.
  Qed.
  Lemma b_find_ok : forall op s, binv s -> good op -> accept op = true ->
    exists r s', find_op key keq hash kind op s = Ok (r, bcd op, s') /\
    binv s' /\ (forall o, bhas s' o <-> bhas s o) /\
    match r with
    | Some v => mean op v
    | None => ~ bstored s op
    end.
  Proof.
    intros op s I G Ac. destruct (I (kind op)) as (H1 & H2 & els & fl & H3). unfold find_op, bcd.
    destruct (b_stored_dec _ _ _ _ op H3) as [(p & d & Hp & Hd & Hk)|Hno].
    - destruct (find_some_ok key keq hash keq_spec _ _ _ _ op p d H3 Hp Hd Hk) as (c' & E1 & I1 & M1 & T1 & X1 & _).
      rewrite E1. cbn [rbind fst snd]. rewrite H1. exists (Some (e_res d)). eexists. split; [reflexivity|]. split; [|split].
      + apply binv_set; auto; try congruence. eauto.
      + apply bhas_set. intros q. now rewrite M1.
      + destruct (k_val _ _ _ _ _ _ H3 p d Hp Hd) as (V1 & V2 & V3 & V4). now apply (mean_same (e_op d)).
    - destruct (find_none_ok key keq hash keq_spec _ _ _ _ op H3 Hno) as [E1 I1].
      rewrite E1. cbn [rbind fst snd]. rewrite H1. exists None. eexists. split; [reflexivity|]. split; [|split].
      + apply binv_set; auto. eauto.
      + apply bhas_set. auto.
      + intros (o & (p & d & Hd & Ho) & Hs1 & Hs2). rewrite Hs1 in Hd. subst o.
        apply (Hno p d); auto. eapply (in_els key hash); eauto.
  Qed.
  Lemma b_store_ok : forall op v s, binv s -> good op -> accept op = true -> ~ bstored s op -> mean op v ->
    exists s', store_op key keq hash kind op v (bcd op) s = Ok s' /\ binv s' /\ (forall o, bhas s' o -> bhas s o \/ o = op).
  Proof.
    intros op v s I G Ac Hs Ev. destruct (I (kind op)) as (H1 & H2 & els & fl & H3). unfold store_op, bcd. rewrite <- H1.
    destruct (store_ok key keq hash keq_spec (bval (kind op)) (s (kind op)) els fl op v H3)
      as (c' & els' & fl' & p & E1 & I1 & N1 & X1 & D1 & D2).
    - split; [reflexivity|]. auto.
    - intros q d Hq Hd Hk. apply Hs. destruct (k_val _ _ _ _ _ _ H3 q d Hq Hd) as (V1 & _).
      exists (e_op d). split; [|split; auto]. exists q, d. rewrite V1. auto.
    - rewrite E1. cbn [rbind]. eexists. split; [reflexivity|]. split.
      + apply binv_set; auto; try congruence. eauto.
      + intros o (q & d & Hd & Ho). destruct (Nat.eq_dec (kind o) (kind op)) as [Ek|Hn].
        * rewrite Ek, set_same in Hd. destruct (N.eq_dec q p) as [->|Hq].
          -- right. destruct D1 as (d' & Hd' & Ho' & _). congruence.
          -- left. exists q, d. rewrite Ek. auto.
        * left. exists q, d. rewrite set_other in Hd by auto. auto.
  Qed.
  Lemma b_has_good : forall s o, binv s -> bhas s o -> good o.
  Proof.
    intros s o I (p & d & Hd & Ho). destruct (I (kind o)) as (H1 & H2 & els & fl & H3).
    destruct (k_val _ _ _ _ _ _ H3 p d) as (_ & V & _); [eapply (in_els key hash); eauto|auto|]. congruence.
  Qed.
  Lemma b_clear_inv : forall i s, binv s -> exists s', clear_op i s = Ok s' /\ binv s'.
  Proof.
    intros i s I. destruct (I i) as (H1 & H2 & els & fl & H3).
    destruct (clear_ok key hash _ _ _ _ H3) as (c' & fl' & E1 & I1 & N1 & X1 & _). unfold clear_op. rewrite E1. cbn [rbind].
    eexists. split; [reflexivity|]. apply binv_set; auto; try congruence. eauto.
  Qed.
  Hypothesis sizes_ok : forall i, (2 <= sizes i <= 2 ^ 63)%N.
  Lemma b_new_inv : forall s, new_caches sizes s -> binv s.
  Proof.
    intros s H i. destruct (sizes_ok i) as [H1 H2].
    destruct (make_cache_ok key hash (bval i) (sizes i) H1 H2) as (c & E1 & I1 & N1 & X1 & _).
    rewrite (H i) in E1. injection E1 as ->. split; auto. split; [exact X1|]. eauto.
  Qed.
End Bank.

(** ** The caches of a session *)

Section SessionProofs.
  Variable VI : values_impl.
  Hypothesis VL : values_laws VI.
  Variable PF : platform VI.
  Hypothesis PO : platform_ok PF.
  Variable O : oracle.
  Hypothesis OO : oracle_ok O.
  Variables U F I : Type.
  Notation V := (vt VI).
  Notation sdd := (sdd V).
  Notation hom := (hom V U F I).
  Notation hop := (hop VI U F I).
  Variable US : user V U F I.
  Hypothesis HO : honest VI PF U F I US.
  Variable HP : hplatform V U F I.
  Hypothesis HPO : hplatform_ok HP.
  Variable J : I -> Prop.
  Hypothesis OB : oblivious VI U F I US J.
  Variable dd_hash : ddop V -> N.
  Variable hom_hash : hom * sdd -> N.
  Variables dd_sizes hom_sizes : nat -> N.
  Notation lt := (addr_lt PF).
  Notation only := (only VI U F I J).
  Notation heval := (heval VI PF U F I US).
  Notation dd_memo := (dd_memo VI PF dd_hash).
  Notation hom_memo := (hom_memo VI PF U F I HP hom_hash).
  Notation ddc := (caches (ddop V) sdd).
  Notation homc := (caches hop sdd).

  Definition dd_good (op : ddop V) : Prop := True.
  Definition dd_accept (op : ddop V) : bool := true.
  Definition dd_inv : ddc -> Prop :=
    binv (fun op => op) dd_hash (dd_kind VI) dd_accept dd_good (meaning VI PF) dd_sizes.
  Definition dd_has : ddc -> ddop V -> Prop := bhas (dd_kind VI).
  Definition dd_cd : ddop V -> N := bcd (fun op => op) dd_hash (dd_kind VI) dd_sizes.

  Lemma dd_same (a b : ddop V) v : dd_kind VI a = dd_kind VI b -> a = b -> dd_good a -> dd_good b ->
    meaning VI PF a v -> meaning VI PF b v.
  Proof. now intros _ ->. Qed.
  Lemma dd_memo_laws : dd_memo_ok VI PF dd_memo dd_inv dd_has dd_cd.
  Proof.
    split.
    - intros op d Hd.
      destruct (b_find_ok (fun op => op) (ddop_eqb VI PF) dd_hash (ddop_eqb_spec VI PF PO) (dd_kind VI) dd_accept dd_good
                  (meaning VI PF) dd_same dd_sizes op d Hd Logic.I eq_refl) as (r & d' & E & I1 & H1 & H2).
      exists r, d'. cbn [dd_memo c_find]. rewrite E. split; [reflexivity|]. split; [exact I1|]. split; [exact H1|].
      destruct r; [exact H2|]. intros H3. apply H2. exists op. split; [exact H3|]. now split.
    - intros op v d Hd Hv Hn.
      destruct (b_store_ok (fun op => op) (ddop_eqb VI PF) dd_hash (ddop_eqb_spec VI PF PO) (dd_kind VI) dd_accept dd_good
                  (meaning VI PF) dd_sizes op v d Hd Logic.I eq_refl) as (d' & E & I1 & H1).
      + intros (o & Ho & _ & <-). auto.
      + exact Hv.
      + exists d'. cbn [dd_memo c_store]. unfold dd_cd. rewrite E. split; [reflexivity|]. auto.
  Qed.

  Lemma only_hereditary : hereditary VI US only.
  Proof.
    split; try (intros; match goal with H : HomCache.only _ _ _ _ _ _ |- _ => inversion H; subst; auto end; fail).
    intros i o s H Os E. assert (Ji : J i) by (inversion H; subst; assumption).
    destruct (OB i o o Ji (osame_refl U o s Os) E) as (_ & H1 & H2).
    split; intros v; eapply (hsim_only VI U F I J); eauto.
  Qed.

  Notation happ := (happlicable VI PF U F I US only).
  Definition hom_kind (op : hop) : nat := 0.
  Definition hom_same (a b : hop) : Prop := hkey VI U F I a = hkey VI U F I b.
  Definition hom_inv : homc -> Prop :=
    binv (hkey VI U F I) hom_hash hom_kind (should_cache VI U F I) happ (hanswer VI PF U F I US) hom_sizes.
  Definition hom_has : homc -> hop -> Prop := bhas hom_kind.
  Definition hom_cd : hop -> N := bcd (hkey VI U F I) hom_hash hom_kind hom_sizes.

  Lemma happ_same (a b : hop) : hom_same a b -> happ a -> happ b -> forall n k, heval n k a = heval n k b.
  Proof.
    destruct a as [[o h] x], b as [[o' h'] x']. intros K Ga Gb n k. cbn in K. injection K as <- <-.
    rewrite <- !(peval_heval VI PF U F I US). now apply (hgood_eval VI VL PF PO U F I US HO J OB).
  Qed.
  Lemma hanswer_same (a b : hop) v : hom_kind a = hom_kind b -> hkey VI U F I a = hkey VI U F I b -> happ a -> happ b ->
    hanswer VI PF U F I US a v -> hanswer VI PF U F I US b v.
  Proof. intros _ K Ga Gb (n & k & E). exists n, k. rewrite <- E. symmetry. now apply happ_same. Qed.
  Lemma hom_memo_laws : hom_memo_ok VI PF homc U F I US only hom_memo hom_inv hom_has hom_same hom_cd.
  Proof.
    assert (ST : forall d op, hstored VI homc U F I hom_has hom_same d op <-> bstored (hkey VI U F I) hom_kind d op).
    { intros d op. split; intros (o & H1 & H2); exists o; (split; [exact H1|]); [now split|apply H2]. }
    split.
    - intros op d Hd G Ac.
      destruct (b_find_ok (hkey VI U F I) (hkey_eqb VI PF U F I HP) hom_hash (hkey_eqb_spec VI PF PO U F I HP HPO) hom_kind
                  (should_cache VI U F I) happ (hanswer VI PF U F I US) hanswer_same hom_sizes op d Hd G Ac)
        as (r & d' & E & I1 & H1 & H2).
      exists r, d'. cbn [Session.hom_memo f_memo c_find]. change (fun _ : hop => 0) with hom_kind. rewrite E. split; [reflexivity|]. split; [exact I1|].
      split; [exact H1|]. destruct r; [exact H2|]. now rewrite ST.
    - intros op v d Hd G Ac Hv Hn.
      destruct (b_store_ok (hkey VI U F I) (hkey_eqb VI PF U F I HP) hom_hash (hkey_eqb_spec VI PF PO U F I HP HPO) hom_kind
                  (should_cache VI U F I) happ (hanswer VI PF U F I US) hom_sizes op v d Hd G Ac)
        as (d' & E & I1 & H1); [now rewrite <- ST|exact Hv|].
      exists d'. cbn [Session.hom_memo f_memo c_store]. change (fun _ : hop => 0) with hom_kind. unfold hom_cd. rewrite E.
      split; [reflexivity|]. auto.
    - intros op d Hd. exact (b_filtered_ok (hkey VI U F I) hom_hash hom_kind (should_cache VI U F I) happ _ hom_sizes op d Hd).
    - intros op d Hd H1. exact (b_has_good (hkey VI U F I) hom_hash hom_kind (should_cache VI U F I) happ _ hom_sizes d op Hd H1).
    - exact happ_same.
  Qed.

  (** ** Commands *)

  Definition steady : memory ddc homc -> Prop := idle dd_inv hom_inv.
  Notation M := (M VI ddc homc).
  Definition some (r : res (err V) sdd) : res (err V) (option sdd) :=
    match r with Ok y => Ok (Some y) | Err e => Err e end.
  Lemma answer_fst (p : M sdd) s : fst (answer VI U F I p s) = some (fst (p s)).
  Proof. unfold answer, mbind. destruct (p s) as [[y|e] s']; reflexivity. Qed.
  Lemma answer_snd (p : M sdd) s : snd (answer VI U F I p s) = snd (p s).
  Proof. unfold answer, mbind. destruct (p s) as [[y|e] s']; reflexivity. Qed.

  Notation mv_sum := (mv_sum VI PF O dd_memo).
  Notation mv_inter := (mv_inter VI PF O dd_memo).
  Notation mv_minus := (mv_minus VI PF O dd_memo).
  Notation run_command := (run_command VI PF O U F I US HP dd_hash hom_hash).
  Notation run_session := (run_session VI PF O U F I US HP dd_hash hom_hash).

  Lemma s_sum_ok md l : (forall x, In x l -> canonical VI lt x /\ mode_ok VI md x) ->
    hm VI steady (Ex VI md) (mv_sum l) (fun r => canonical VI lt r /\ mode_ok VI md r /\
      forall p, contains r p = existsb (fun x => contains x p) l).
  Proof. apply (mv_sum_ok VI VL PF PO O OO ddc homc dd_memo dd_inv dd_has dd_cd dd_memo_laws hom_inv md l). Qed.
  Lemma s_inter_ok md l : l <> [] -> (forall x, In x l -> canonical VI lt x /\ mode_ok VI md x) ->
    hm VI steady (Ex VI md) (mv_inter l) (fun r => canonical VI lt r /\ mode_ok VI md r /\
      forall p, contains r p = forallb (fun x => contains x p) l).
  Proof. apply (mv_inter_ok VI VL PF PO O OO ddc homc dd_memo dd_inv dd_has dd_cd dd_memo_laws hom_inv md l). Qed.
  Lemma s_minus_ok md a b : canonical VI lt a -> canonical VI lt b -> mode_ok VI md a -> mode_ok VI md b ->
    hm VI steady (Ex VI md) (mv_minus a b) (fun r => canonical VI lt r /\ mode_ok VI md r /\
      (forall p, contains r p = contains a p && negb (contains b p)) /\ @agree VI a b).
  Proof. apply (mv_minus_ok VI VL PF PO O OO ddc homc dd_memo dd_inv dd_has dd_cd dd_memo_laws hom_inv md a b). Qed.
  (** What an exception of user code looks like. *)
  Definition thrown (alarm : nat -> bool) (e : err V) : Prop := (exists t, alarm t = true) /\ e = EUser.
  Lemma s_apply_ok alarm n k fuel o h s s' x y : typed VI PF U F I US o h s' -> only h -> oshape U o s -> fits VI PF s x ->
    happly VI PF U F I US n k o h x = Ok y -> k <= fuel -> forall st, steady st ->
    (fst (mv_apply VI PF O dd_memo U F I hom_memo US alarm n fuel o h x st) = Ok y \/
     exists e, thrown alarm e /\ fst (mv_apply VI PF O dd_memo U F I hom_memo US alarm n fuel o h x st) = Err e) /\
    steady (snd (mv_apply VI PF O dd_memo U F I hom_memo US alarm n fuel o h x st)).
  Proof.
    apply (mv_apply_eq VI VL PF PO O OO ddc homc dd_memo dd_inv dd_has dd_cd dd_memo_laws U F I US HO only only_hereditary
             hom_memo hom_inv hom_has hom_same hom_cd hom_memo_laws alarm (thrown alarm)).
    intros t Ht. split; [now exists t|reflexivity].
  Qed.
  Lemma s_apply_safe alarm n fuel o h s s' x : typed VI PF U F I US o h s' -> only h -> oshape U o s -> fits VI PF s x ->
    hm VI steady (stop VI alarm) (mv_apply VI PF O dd_memo U F I hom_memo US alarm n fuel o h x) (evals VI PF U F I US o h x).
  Proof.
    apply (mv_apply_safe VI VL PF PO O OO ddc homc dd_memo dd_inv dd_has dd_cd dd_memo_laws U F I US HO only only_hereditary
             hom_memo hom_inv hom_has hom_same hom_cd hom_memo_laws).
  Qed.

  Lemma s_clear_dd i st : steady st -> exists d, on_dd VI (clear_cache VI i) st = (Ok tt, d) /\ steady d.
  Proof.
    intros [H1 H2]. unfold on_dd, clear_cache.
    destruct (b_clear_inv (fun op => op) dd_hash (dd_kind VI) dd_accept dd_good (meaning VI PF) dd_sizes i _ H1)
      as (d & E & H3). rewrite E. eexists. split; [reflexivity|]. split; [exact H3|exact H2].
  Qed.
  Lemma s_clear_hom i st : steady st -> exists d, on_hom VI (clear_cache VI i) st = (Ok tt, d) /\ steady d.
  Proof.
    intros [H1 H2]. unfold on_hom, clear_cache.
    destruct (b_clear_inv (hkey VI U F I) hom_hash hom_kind (should_cache VI U F I) happ (hanswer VI PF U F I US) hom_sizes i _ H2)
      as (d & E & H3). rewrite E. eexists. split; [reflexivity|]. split; [exact H1|exact H3].
  Qed.

  Hypothesis dd_sizes_ok : forall i, (2 <= dd_sizes i <= 2 ^ 63)%N.
  Hypothesis hom_sizes_ok : forall i, (2 <= hom_sizes i <= 2 ^ 63)%N.
  Lemma s_start d h : new_caches dd_sizes d -> new_caches hom_sizes h -> steady (start d h).
  Proof.
    intros H1 H2. split; [now apply b_new_inv|]. now apply b_new_inv.
  Qed.
End SessionProofs.
