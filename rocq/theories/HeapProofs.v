(** * Invariant of the heap of unified data *)

From Coq Require Import List Bool NArith Arith Lia Permutation.
From Verif Require Import Base Pow2 HashTable Heap.
Import ListNotations.

(** *** Lists *)

Lemma count_pos : forall (l : list ptr) p, In p l <-> 0 < count_occ N.eq_dec l p.
Proof. intros. rewrite (count_occ_In N.eq_dec). lia. Qed.
Lemma count_zero : forall (l : list ptr) p, ~ In p l <-> count_occ N.eq_dec l p = 0.
Proof. intros. now rewrite (count_occ_not_In N.eq_dec). Qed.
Lemma count_perm : forall (l l' : list ptr), Permutation l l' -> forall p, count_occ N.eq_dec l p = count_occ N.eq_dec l' p.
Proof. intros l l' H. now apply Permutation_count_occ. Qed.
Lemma count_len : forall (l : list ptr) p, count_occ N.eq_dec l p <= length l.
Proof. intros l p. induction l as [|a l IH]; simpl; [lia|]. destruct (N.eq_dec a p); lia. Qed.
Lemma count_cons : forall p q (l : list ptr),
  count_occ N.eq_dec (p :: l) q = (if N.eqb q p then 1 else 0) + count_occ N.eq_dec l q.
Proof.
  intros p q l. cbn [count_occ]. destruct (N.eq_dec p q) as [->|Hn].
  - now rewrite N.eqb_refl.
  - apply not_eq_sym, N.eqb_neq in Hn. now rewrite Hn.
Qed.

Section HeapProofs.
  Context {L : Type}.
  Variable leqb : L -> L -> bool.
  Variable hash : L * list ptr -> N.
  Variable bytes : L * list ptr -> N.
  Hypothesis leqb_spec : forall a b, leqb a b = true <-> a = b.

  Lemma ptrs_eqb_spec : forall l m, ptrs_eqb l m = true <-> l = m.
  Proof.
    induction l as [|p l IH]; intros [|q m]; cbn [ptrs_eqb]; split; intros H; try discriminate; auto.
    - apply andb_true_iff in H. destruct H as [H1 H2]. apply N.eqb_eq in H1. apply IH in H2. congruence.
    - injection H as -> ->. rewrite N.eqb_refl. now apply IH.
  Qed.
  Lemma node_eqb_spec : forall a b, node_eqb leqb a b = true <-> a = b.
  Proof.
    intros [l ks] [l' ks']. unfold node_eqb. cbn [fst snd]. rewrite andb_true_iff, leqb_spec, ptrs_eqb_spec.
    split; [intros [-> ->]; auto|]. intros E. injection E as -> ->. auto.
  Qed.

  Notation heap := (heap L).
  Notation key := (fun d : uniq L => u_data d).
  Notation tok := (table_ok key hash).

  Definition udat (m : @mem (uniq L)) (p : ptr) : option (L * list ptr) := option_map key (dat m p).
  Definition kids (m : @mem (uniq L)) (p : ptr) : list ptr :=
    match udat m p with
    | Some d => snd d
    | None => []
    end.
  Definition refs (m : @mem (uniq L)) (roots els : list ptr) : list ptr := roots ++ flat_map (kids m) els.

  (** Only hooks and keys matter. *)
  Lemma chain_ext2 : forall (m m' : @mem (uniq L)) l cur,
    (forall p, In p l -> option_map c_next (m' p) = option_map c_next (m p)) -> chain m cur l -> chain m' cur l.
  Proof.
    intros m m' l. induction l as [|p l IH]; intros cur H C; cbn [chain] in *; auto.
    destruct C as (-> & c & Hc & C). split; auto. pose proof (H p (or_introl eq_refl)) as Hp. rewrite Hc in Hp.
    destruct (m' p) as [c'|] eqn:E; [|discriminate]. injection Hp as Hp. exists c'. split; auto. rewrite Hp.
    apply IH; auto. intros q Hq. apply H. now right.
  Qed.
  Lemma table_ext2 : forall m m' t els, tok m t els ->
    (forall p, In p els -> option_map c_next (m' p) = option_map c_next (m p)) ->
    (forall p, In p els -> udat m' p = udat m p) -> tok m' t els.
  Proof.
    intros m m' t els (bs & R & P) H1 H2. exists bs. split; auto.
    assert (H1' : forall p, In p (concat bs) -> option_map c_next (m' p) = option_map c_next (m p)).
    { intros p Hp. apply H1. eapply Permutation_in; [symmetry; exact P|auto]. }
    assert (H2' : forall p d', In p (concat bs) -> dat m' p = Some d' -> exists d, dat m p = Some d /\ u_data d = u_data d').
    { intros p d' Hp Hd. pose proof (H2 p) as E. unfold udat in E. rewrite Hd in E.
      destruct (dat m p) as [d|].
      - exists d. split; auto. cbn [option_map] in E. specialize (E (Permutation_in _ (Permutation_sym P) Hp)). congruence.
      - specialize (E (Permutation_in _ (Permutation_sym P) Hp)). discriminate. }
    destruct R. constructor; auto.
    - clear - r_chain H1'. induction r_chain as [|cur l b bs C F IH]; constructor.
      + apply (chain_ext2 m); auto. intros p Hp. apply H1'. cbn [concat]. apply in_app_iff. auto.
      + apply IH. intros p Hp. apply H1'. cbn [concat]. apply in_app_iff. auto.
    - intros i l p d Hi Hp Hd.
      assert (Hc : In p (concat bs)) by (apply in_concat; exists l; split; auto; eapply nth_error_In; eauto).
      destruct (H2' p d Hc Hd) as (d0 & Hd0 & E). rewrite <- E. now apply (r_pos i l p d0).
    - intros p q d e Hp Hq Hd He E. destruct (H2' p d Hp Hd) as (d0 & Hd0 & E0). destruct (H2' q e Hq He) as (e0 & He0 & E1).
      apply (r_keys p q d0 e0); auto. congruence.
  Qed.

  (** The invariant: [roots] are the pointers held outside of nodes, [els] the live nodes, [dying] the addresses of
      nodes under construction or destruction, [ex] the live nodes that may not be referenced. *)
  Record inv (h : heap) (roots els dying ex : list ptr) : Prop := {
    i_table : tok (hm h) (ht h) els;
    i_nb : (nb (ht h) < 2 ^ 63)%N;
    i_refs : forall p d, In p els -> dat (hm h) p = Some d ->
             u_ref d = N.of_nat (count_occ N.eq_dec (refs (hm h) roots els) p);
    i_in : forall p, In p (refs (hm h) roots els) -> In p els;
    i_pos : forall p, In p els -> In p (refs (hm h) roots els) \/ In p ex;
    i_only : forall p, hm h p <> None -> In p els \/ In p dying;
    i_dying : forall p, In p dying -> ~ In p els;
    i_rank : exists rank : ptr -> nat, forall p q, In p els -> In q (kids (hm h) p) -> rank q < rank p;
    i_block : forall p, hm h p <> None -> blocks h p <> None;
    i_alloc : forall p, blocks h p <> None -> hm h p <> None \/ ucache h = Some p \/ In p dying;
    i_cache : forall p, ucache h = Some p -> ~ In p dying /\ hm h p = None /\ exists n, blocks h p = Some n /\ (ucsize h <= n)%N;
    i_nocache : ucache h = None -> ucsize h = 0%N
  }.

  Lemma refs_perm : forall m roots roots' els els', Permutation roots roots' -> Permutation els els' ->
    Permutation (refs m roots els) (refs m roots' els').
  Proof. intros. unfold refs. apply Permutation_app; auto. now apply Permutation_flat_map. Qed.
  Lemma flat_map_ext_in : forall A B (f g : A -> list B) l, (forall x, In x l -> f x = g x) -> flat_map f l = flat_map g l.
  Proof.
    intros A B f g l. induction l as [|a l IH]; intros H; simpl; auto. rewrite H by (simpl; auto). f_equal.
    apply IH. intros x Hx. apply H. now right.
  Qed.
  Lemma refs_ext : forall m m' roots els, (forall p, In p els -> udat m' p = udat m p) -> refs m' roots els = refs m roots els.
  Proof. intros m m' roots els H. unfold refs. f_equal. apply flat_map_ext_in. intros x Hx. unfold kids. now rewrite H. Qed.
  Lemma inv_perm : forall h roots roots' els els' dying ex, inv h roots els dying ex -> Permutation roots roots' ->
    Permutation els els' -> inv h roots' els' dying ex.
  Proof.
    intros h roots roots' els els' dying ex I P Q. pose proof (refs_perm (hm h) _ _ _ _ P Q) as R.
    assert (E : forall p, In p els' <-> In p els) by (intros p; split; apply Permutation_in; auto using Permutation_sym).
    assert (E2 : forall p, In p (refs (hm h) roots' els') <-> In p (refs (hm h) roots els)).
    { intros p; split; apply Permutation_in; auto using Permutation_sym. }
    destruct I. constructor; auto.
    - now apply (table_perm key hash _ _ els).
    - intros p d Hp. rewrite <- (count_perm _ _ R). apply i_refs0. now apply E.
    - intros p Hp. apply E, i_in0, E2, Hp.
    - intros p Hp. rewrite E2. apply i_pos0, E, Hp.
    - intros p Hp. rewrite E. auto.
    - intros p Hp. rewrite E. auto.
    - destruct i_rank0 as (rank & Hr). exists rank. intros p q Hp. apply Hr, E, Hp.
  Qed.
  Lemma inv_live : forall h roots els dying ex p, inv h roots els dying ex -> In p els -> exists c, hm h p = Some c.
  Proof.
    intros h roots els dying ex p I Hp. destruct (table_dat key hash _ _ _ p (i_table _ _ _ _ _ I) Hp) as (d & Hd).
    unfold dat in Hd. destruct (hm h p) as [c|]; [eauto|discriminate].
  Qed.
  Lemma inv_root : forall h roots els dying ex p, inv h roots els dying ex -> In p roots -> In p els.
  Proof. intros h roots els dying ex p I Hp. apply (i_in _ _ _ _ _ I). unfold refs. apply in_app_iff. auto. Qed.
  Lemma inv_kid : forall h roots els dying ex p q, inv h roots els dying ex -> In p els -> In q (kids (hm h) p) -> In q els.
  Proof.
    intros h roots els dying ex p q I Hp Hq. apply (i_in _ _ _ _ _ I). unfold refs. apply in_app_iff. right.
    apply in_flat_map. eauto.
  Qed.
  Lemma inv_small : forall h roots els dying ex, inv h roots els dying ex ->
    length els <= length ex + length (refs (hm h) roots els).
  Proof.
    intros h roots els dying ex I. rewrite <- app_length.
    apply NoDup_incl_length; [apply (table_nodup key hash _ _ _ (i_table _ _ _ _ _ I))|].
    intros p Hp. apply in_app_iff. destruct (i_pos _ _ _ _ _ I p Hp) as [H|H]; auto.
  Qed.

  Lemma set_ref_udat : forall m p c r q, m p = Some c -> udat (set_ref m p c r) q = udat m q.
  Proof.
    intros m p c r q H. unfold udat, dat, set_ref. destruct (N.eq_dec q p) as [->|Hn].
    - rewrite upd_same, H. reflexivity.
    - now rewrite upd_other.
  Qed.
  Lemma set_ref_next : forall (m : @mem (uniq L)) p c r q, m p = Some c ->
    option_map c_next (set_ref m p c r q) = option_map c_next (m q).
  Proof.
    intros m p c r q H. unfold set_ref. destruct (N.eq_dec q p) as [->|Hn].
    - rewrite upd_same, H. reflexivity.
    - now rewrite upd_other.
  Qed.
  Lemma set_ref_none : forall (m : @mem (uniq L)) p c r q, m p = Some c -> (set_ref m p c r q = None <-> m q = None).
  Proof.
    intros m p c r q H. unfold set_ref. destruct (N.eq_dec q p) as [->|Hn].
    - rewrite upd_same, H. split; discriminate.
    - now rewrite upd_other.
  Qed.

  (** A change of counter and of roots. *)
  Lemma inv_set_ref : forall h roots roots' els dying ex ex' p c r, inv h roots els dying ex -> hm h p = Some c ->
    In p els ->
    (forall q, count_occ N.eq_dec (refs (hm h) roots' els) q =
               if N.eqb q p then N.to_nat r else count_occ N.eq_dec (refs (hm h) roots els) q) ->
    (forall q, In q ex -> In q ex' \/ (q = p /\ r <> 0%N)) -> (r <> 0%N \/ In p ex') ->
    inv (with_mem (set_ref (hm h) p c r) h) roots' els dying ex'.
  Proof.
    intros h roots roots' els dying ex ex' p c r I Hc Hp Hcount Hex Hr.
    set (m' := set_ref (hm h) p c r).
    assert (U : forall q, udat m' q = udat (hm h) q) by (intros; now apply set_ref_udat).
    assert (R : forall rs, refs m' rs els = refs (hm h) rs els) by (intros; now apply refs_ext).
    assert (Hnone : forall q, m' q = None <-> hm h q = None) by (intros; now apply set_ref_none).
    assert (Hin : forall q, In q (refs (hm h) roots' els) -> In q els).
    { intros q Hq. destruct (N.eq_dec q p) as [->|Hn]; auto. apply (i_in _ _ _ _ _ I). apply count_pos.
      apply count_pos in Hq. rewrite Hcount in Hq. apply N.eqb_neq in Hn. now rewrite Hn in Hq. }
    destruct I. constructor; cbn [with_mem hm ht blocks ucache ucsize]; fold m'; auto.
    - apply (table_ext2 (hm h)); auto. intros q _. now apply set_ref_next.
    - intros q d Hq Hd. rewrite R, Hcount. destruct (N.eq_dec q p) as [->|Hn].
      + rewrite N.eqb_refl, Nnat.N2Nat.id. unfold dat, m', set_ref in Hd. rewrite upd_same in Hd.
        cbn [option_map c_data] in Hd. injection Hd as <-. reflexivity.
      + apply N.eqb_neq in Hn as E. rewrite E. apply i_refs0; auto. unfold dat, m', set_ref in Hd.
        rewrite upd_other in Hd by auto. exact Hd.
    - intros q. rewrite R. auto.
    - intros q Hq. rewrite R. destruct (N.eq_dec q p) as [->|Hn].
      + destruct Hr as [Hr|Hr]; auto. left. apply count_pos. rewrite Hcount, N.eqb_refl. lia.
      + destruct (i_pos0 q Hq) as [H|H].
        * left. apply count_pos. rewrite Hcount. apply N.eqb_neq in Hn. rewrite Hn. now apply count_pos.
        * destruct (Hex q H) as [H'|[-> _]]; auto. contradiction.
    - intros q Hq. apply i_only0. rewrite <- Hnone. exact Hq.
    - destruct i_rank0 as (rank & Hk). exists rank. intros a b Ha Hb. apply Hk; auto. unfold kids in *. now rewrite U in Hb.
    - intros q Hq. apply i_block0. rewrite <- Hnone. exact Hq.
    - intros q Hq. rewrite Hnone. auto.
    - intros q Hq. rewrite Hnone. auto.
  Qed.

  (** *** Increment *)

  Lemma incr_ok : forall h roots els dying ex p, inv h roots els dying ex -> In p els ->
    (N.of_nat (length (refs (hm h) roots els)) < 2 ^ 32 - 1)%N ->
    exists m', incr p h = Ok (with_mem m' h) /\ inv (with_mem m' h) (p :: roots) els dying ex /\
    (forall q, udat m' q = udat (hm h) q) /\ (forall q, ~ In q els -> m' q = hm h q).
  Proof.
    intros h roots els dying ex p I Hp Hl. destruct (inv_live _ _ _ _ _ p I Hp) as (c & Hc).
    assert (Hr : u_ref (c_data c) = N.of_nat (count_occ N.eq_dec (refs (hm h) roots els) p)).
    { apply (i_refs _ _ _ _ _ I); auto. unfold dat. now rewrite Hc. }
    pose proof (count_len (refs (hm h) roots els) p) as HL.
    unfold incr, deref. rewrite Hc. cbn [rbind].
    assert (E : (u_ref (c_data c) =? 2 ^ 32 - 1)%N = false) by (apply N.eqb_neq; lia).
    rewrite E. eexists. split; [reflexivity|]. split; [|split].
    - apply (inv_set_ref h roots (p :: roots) els dying ex ex p c); auto; [|left; lia].
      intros q. unfold refs at 1. cbn [app]. rewrite count_cons. fold (refs (hm h) roots els).
      destruct (N.eqb q p) eqn:Eq; [|lia]. apply N.eqb_eq in Eq. subst q. rewrite Hr. lia.
    - intros q. now apply set_ref_udat.
    - intros q Hq. unfold set_ref. apply upd_other. congruence.
  Qed.

  (** *** Release *)

  Lemma release_dec : forall f h roots els dying ex p, inv h (p :: roots) els dying ex ->
    In p (refs (hm h) roots els) ->
    exists m', release leqb hash (S f) p h = Ok (with_mem m' h) /\ inv (with_mem m' h) roots els dying ex /\
    (forall q, udat m' q = udat (hm h) q) /\ (forall q, ~ In q els -> m' q = hm h q).
  Proof.
    intros f h roots els dying ex p I Hin.
    assert (Hp : In p els) by (apply (inv_root _ _ _ _ _ _ I); now left).
    destruct (inv_live _ _ _ _ _ p I Hp) as (c & Hc).
    assert (Hr : u_ref (c_data c) = N.of_nat (count_occ N.eq_dec (refs (hm h) (p :: roots) els) p)).
    { apply (i_refs _ _ _ _ _ I); auto. unfold dat. now rewrite Hc. }
    unfold refs in Hr. cbn [app] in Hr. rewrite count_cons, N.eqb_refl in Hr. fold (refs (hm h) roots els) in Hr.
    pose proof (proj1 (count_pos _ _) Hin) as Hcnt.
    cbn [release]. unfold deref at 1. rewrite Hc. cbn [rbind].
    assert (E0 : (u_ref (c_data c) =? 0)%N = false) by (apply N.eqb_neq; lia).
    assert (E1 : (u_ref (c_data c) - 1 =? 0)%N = false) by (apply N.eqb_neq; lia).
    rewrite E0, E1. eexists. split; [reflexivity|]. split; [|split].
    - apply (inv_set_ref h (p :: roots) roots els dying ex ex p c); auto; [|left; lia].
      intros q. unfold refs at 2. cbn [app]. rewrite count_cons. fold (refs (hm h) roots els).
      destruct (N.eqb q p) eqn:Eq; [|lia]. apply N.eqb_eq in Eq. subst q. rewrite Hr. lia.
    - intros q. now apply set_ref_udat.
    - intros q Hq. unfold set_ref. apply upd_other. congruence.
  Qed.

  (** What a release may change. *)
  Record released (h h' : heap) (els els' : list ptr) : Prop := {
    re_els : exists dead, Permutation els (els' ++ dead);
    re_dat : forall q, In q els' -> udat (hm h') q = udat (hm h) q;
    re_mem : forall q, ~ In q els -> hm h' q = hm h q;
    re_block : forall q, ~ In q els -> blocks h' q = blocks h q;
    re_env : env h' = env h;
    re_ucache : ucache h' = ucache h;
    re_ucsize : ucsize h' = ucsize h;
    re_stats : access h' = access h /\ uhits h' = uhits h /\ umisses h' = umisses h /\ upeak h' = upeak h
  }.
  Lemma released_trans : forall h h1 h2 els els1 els2, released h h1 els els1 -> released h1 h2 els1 els2 ->
    released h h2 els els2.
  Proof.
    intros h h1 h2 els els1 els2 R1 R2. destruct R1 as [(d1 & P1) A1 B1 C1 D1 E1 F1 G1]. destruct R2 as [(d2 & P2) A2 B2 C2 D2 E2 F2 G2].
    assert (I1 : forall q, In q els1 -> In q els).
    { intros q Hq. apply (Permutation_in _ (Permutation_sym P1)). apply in_app_iff. auto. }
    assert (I2 : forall q, In q els2 -> In q els1).
    { intros q Hq. apply (Permutation_in _ (Permutation_sym P2)). apply in_app_iff. auto. }
    constructor.
    - exists (d2 ++ d1). rewrite P1, P2, <- app_assoc. reflexivity.
    - intros q Hq. rewrite A2, A1; auto.
    - intros q Hq. rewrite B2, B1; auto.
    - intros q Hq. rewrite C2, C1; auto.
    - congruence.
    - congruence.
    - congruence.
    - destruct G1 as (? & ? & ? & ?), G2 as (? & ? & ? & ?). repeat split; congruence.
  Qed.
  Lemma released_refl : forall h els, released h h els els.
  Proof. intros. constructor; auto. exists []. now rewrite app_nil_r. Qed.
  Lemma released_incl : forall h h' els els' q, released h h' els els' -> In q els' -> In q els.
  Proof.
    intros h h' els els' q [(d & P) _ _ _ _ _ _ _] Hq. apply (Permutation_in _ (Permutation_sym P)). apply in_app_iff. auto.
  Qed.

  Lemma release_fold : forall f,
    (forall h roots els dying ex p, inv h (p :: roots) els dying ex -> length els <= f ->
      exists h' els', release leqb hash f p h = Ok h' /\ inv h' roots els' dying ex /\ released h h' els els') ->
    forall ks h roots els dying ex, inv h (ks ++ roots) els dying ex -> length els <= f ->
      exists h' els', fold_left (fun r q => rbind r (release leqb hash f q)) ks (Ok h) = Ok h' /\
        inv h' roots els' dying ex /\ released h h' els els'.
  Proof.
    intros f IH ks. induction ks as [|k ks IHk]; intros h roots els dying ex I Hl; cbn [app fold_left] in *.
    - exists h, els. split; auto. split; auto. apply released_refl.
    - destruct (IH h (ks ++ roots) els dying ex k I Hl) as (h1 & els1 & E1 & I1 & R1).
      cbn [rbind]. rewrite E1. destruct (IHk h1 roots els1 dying ex I1) as (h2 & els2 & E2 & I2 & R2).
      + destruct R1 as [(d & P) _ _ _ _ _ _ _]. apply Permutation_length in P. rewrite app_length in P. lia.
      + exists h2, els2. split; auto. split; auto. eapply released_trans; eauto.
  Qed.

  Lemma inv_forget : forall h roots els dying ex p, inv h roots els (p :: dying) ex -> hm h p = None -> blocks h p = None ->
    inv h roots els dying ex.
  Proof.
    intros h roots els dying ex p I Hm Hb. destruct I. constructor; auto.
    - intros q Hq. destruct (i_only0 q Hq) as [H|[->|H]]; auto; try contradiction.
    - intros q Hq. apply i_dying0. now right.
    - intros q Hq. destruct (i_alloc0 q Hq) as [H|[H|[->|H]]]; auto; try contradiction.
    - intros q Hq. destruct (i_cache0 q Hq) as (H1 & H2). split; auto. intros H. apply H1. now right.
  Qed.

  (** Destroying a node under destruction. *)
  Lemma inv_free : forall h roots els dying ex p, inv h roots els (p :: dying) ex -> blocks h p <> None ->
    exists h', free_block p (with_mem (upd (hm h) p None) h) = Ok h' /\ inv h' roots els dying ex /\
    hm h' = upd (hm h) p None /\ blocks h' = upd_block (blocks h) p None /\ env h' = env h /\ ucache h' = ucache h /\
    ucsize h' = ucsize h /\ ht h' = ht h /\ (access h' = access h /\ uhits h' = uhits h /\ umisses h' = umisses h /\ upeak h' = upeak h).
  Proof.
    intros h roots els dying ex p I Hb. unfold free_block. cbn [with_mem blocks].
    destruct (blocks h p) as [n|] eqn:E; [|contradiction]. eexists. split; [reflexivity|].
    cbn [with_blocks with_mem hm ht blocks ucache ucsize env access uhits umisses upeak]. split; [|repeat split; auto].
    assert (Hp : ~ In p els) by (apply (i_dying _ _ _ _ _ I); now left).
    assert (U : forall q, In q els -> udat (upd (hm h) p None) q = udat (hm h) q).
    { intros q Hq. unfold udat, dat. rewrite upd_other; auto. congruence. }
    assert (R : forall rs, refs (upd (hm h) p None) rs els = refs (hm h) rs els) by (intros; now apply refs_ext).
    apply (inv_forget _ _ _ _ _ p).
    2: { cbn [hm with_blocks with_mem]. apply upd_same. }
    2: { cbn [blocks with_blocks]. unfold upd_block. now rewrite N.eqb_refl. }
    destruct I. constructor; cbn [with_blocks with_mem hm ht blocks ucache ucsize]; auto.
    - apply (table_ext key hash (hm h)); auto. intros q Hq. apply upd_other. congruence.
    - intros q d Hq Hd. rewrite R. apply i_refs0; auto. unfold dat in *. rewrite upd_other in Hd; auto. congruence.
    - intros q. rewrite R. auto.
    - intros q Hq. rewrite R. auto.
    - intros q Hq. apply i_only0. destruct (N.eq_dec q p) as [->|Hn]; [now rewrite upd_same in Hq|now rewrite upd_other in Hq].
    - destruct i_rank0 as (rank & Hk). exists rank. intros a b Ha Hb'. apply Hk; auto. unfold kids in *. now rewrite U in Hb'.
    - intros q Hq. unfold upd_block. destruct (N.eq_dec q p) as [->|Hn]; [now rewrite upd_same in Hq|].
      rewrite upd_other in Hq by auto. apply N.eqb_neq in Hn. rewrite Hn. auto.
    - intros q Hq. unfold upd_block in Hq. destruct (N.eqb q p) eqn:Eq; [congruence|]. apply N.eqb_neq in Eq.
      rewrite upd_other by auto. auto.
    - intros q Hq. destruct (i_cache0 q Hq) as (H1 & H2 & n' & H3 & H4). split; auto.
      assert (q <> p) by (intros ->; apply H1; now left).
      rewrite upd_other by auto. split; auto. exists n'. split; auto. unfold upd_block.
      apply N.eqb_neq in H. now rewrite H.
  Qed.

  Lemma in_split_perm : forall (p : ptr) l, In p l -> exists l', Permutation l (p :: l').
  Proof.
    intros p l H. apply in_split in H. destruct H as (l1 & l2 & ->). exists (l1 ++ l2).
    symmetry. apply Permutation_middle.
  Qed.

  Lemma release_ok : forall f h roots els dying ex p, inv h (p :: roots) els dying ex -> length els <= f ->
    exists h' els', release leqb hash f p h = Ok h' /\ inv h' roots els' dying ex /\ released h h' els els'.
  Proof.
    induction f as [|f IH]; intros h roots els dying ex p I Hl.
    { assert (Hp : In p els) by (apply (inv_root _ _ _ _ _ _ I); now left). destruct els; [destruct Hp|simpl in Hl; lia]. }
    assert (Hp : In p els) by (apply (inv_root _ _ _ _ _ _ I); now left).
    destruct (in_dec N.eq_dec p (refs (hm h) roots els)) as [Hin|Hout].
    - destruct (release_dec f h roots els dying ex p I Hin) as (m' & E & I' & U & M). exists (with_mem m' h), els.
      split; [exact E|]. split; [exact I'|]. constructor; auto. exists []. now rewrite app_nil_r.
    - destruct (inv_live _ _ _ _ _ p I Hp) as (c & Hc).
      assert (Hr : u_ref (c_data c) = N.of_nat (count_occ N.eq_dec (refs (hm h) (p :: roots) els) p)).
      { apply (i_refs _ _ _ _ _ I); auto. unfold dat. now rewrite Hc. }
      unfold refs in Hr. cbn [app] in Hr. rewrite count_cons, N.eqb_refl in Hr. fold (refs (hm h) roots els) in Hr.
      apply count_zero in Hout. rewrite Hout in Hr.
      assert (I1 : inv (with_mem (set_ref (hm h) p c 0) h) roots els dying (p :: ex)).
      { apply (inv_set_ref h (p :: roots) roots els dying ex (p :: ex) p c); auto.
        - intros q. unfold refs at 2. cbn [app]. rewrite count_cons. fold (refs (hm h) roots els).
          destruct (N.eqb q p) eqn:Eq; [|lia]. apply N.eqb_eq in Eq. subst q. exact Hout.
        - intros q Hq. left. now right.
        - right. now left. }
      cbn [release]. unfold deref at 1. rewrite Hc. cbn [rbind].
      assert (E0 : (u_ref (c_data c) =? 0)%N = false) by (apply N.eqb_neq; lia).
      assert (E1 : (u_ref (c_data c) - 1)%N = 0%N) by lia.
      rewrite E0, E1. cbn [N.eqb].
      set (m1 := set_ref (hm h) p c 0) in *.
      destruct (in_split_perm p els Hp) as (els1 & P1).
      pose proof (inv_perm _ _ _ _ _ _ _ I1 (Permutation_refl _) P1) as I2.
      assert (Hc1 : exists c1, m1 p = Some c1 /\ u_data (c_data c1) = u_data (c_data c)).
      { unfold m1, set_ref. rewrite upd_same. eexists. split; reflexivity. }
      destruct Hc1 as (c1 & Hc1 & Ec1).
      destruct (erase_ok key (node_eqb leqb) hash node_eqb_spec m1 (ht h) els1 p c1 (i_table _ _ _ _ _ I2) Hc1)
        as (m2 & t2 & E2 & T2 & D2 & M2 & NB2 & SZ2).
      cbn [with_mem hm ht] in *. rewrite E2. cbn [rbind fst snd].
      assert (ND : ~ In p els1).
      { pose proof (table_nodup key hash _ _ _ (i_table _ _ _ _ _ I2)) as N. now inversion N. }
      assert (Hc2 : m2 p = Some c1) by (rewrite M2; auto).
      unfold deref. rewrite Hc2. cbn [rbind].
      set (ks := snd (u_data (c_data c1))).
      set (h2 := with_table m2 t2 (with_mem m1 h)).
      assert (U2 : forall q, udat m2 q = udat (hm h) q).
      { intros q. unfold udat. rewrite D2. fold (udat m1 q). unfold m1. now rewrite set_ref_udat. }
      assert (Ek : kids (hm h) p = ks).
      { unfold kids, udat, dat. rewrite Hc. cbn [option_map]. unfold ks. now rewrite Ec1. }
      assert (R2 : forall rs es, refs m2 rs es = refs (hm h) rs es) by (intros; apply refs_ext; auto).
      assert (R1 : forall rs es, refs m1 rs es = refs (hm h) rs es).
      { intros; apply refs_ext. intros. unfold m1. now apply set_ref_udat. }
      assert (RP : Permutation (refs (hm h) roots els) (refs (hm h) (ks ++ roots) els1)).
      { unfold refs. rewrite (Permutation_flat_map (kids (hm h)) P1). cbn [flat_map]. rewrite Ek.
        rewrite <- app_assoc. rewrite (Permutation_app_comm roots (ks ++ _)). rewrite <- app_assoc.
        apply Permutation_app_head. apply Permutation_app_comm. }
      assert (INp : forall q, In q els <-> q = p \/ In q els1).
      { intros q. split; intros Hq.
        - apply (Permutation_in _ P1) in Hq. destruct Hq; auto.
        - apply (Permutation_in _ (Permutation_sym P1)). destruct Hq; simpl; auto. }
      assert (N12 : forall q, m2 q <> None <-> hm h q <> None).
      { intros q. unfold not. assert (A : m2 q = None <-> hm h q = None); [|tauto].
        pose proof (D2 q) as D. unfold dat in D.
        pose proof (set_ref_none (hm h) p c 0 q Hc) as S. fold m1 in S. rewrite <- S.
        destruct (m2 q), (m1 q); cbn [option_map] in D; split; congruence. }
      assert (I3 : inv h2 (ks ++ roots) els1 (p :: dying) ex).
      { destruct I1. unfold h2. constructor; cbn [with_table with_mem hm ht blocks ucache ucsize] in *; auto.
        - rewrite NB2. auto.
        - intros q d Hq Hd. rewrite R2, <- (count_perm _ _ RP), <- R1. apply i_refs0.
          + apply INp. auto.
          + rewrite <- D2. exact Hd.
        - intros q Hq. rewrite R2 in Hq. apply (Permutation_in _ (Permutation_sym RP)) in Hq.
          assert (q <> p).
          { intros ->. apply count_pos in Hq. lia. }
          rewrite <- R1 in Hq. apply i_in0, INp in Hq. tauto.
        - intros q Hq. assert (Hq' : In q els) by (apply INp; auto).
          destruct (i_pos0 q Hq') as [H|[H|H]]; auto.
          + left. rewrite R2. apply (Permutation_in _ RP). rewrite <- R1. auto.
          + subst q. contradiction.
        - intros q Hq. apply N12 in Hq. destruct (i_only _ _ _ _ _ I q Hq) as [H|H].
          + apply INp in H. simpl. destruct H; auto.
          + simpl. auto.
        - intros q [<-|Hq]; auto. intros H. apply (i_dying0 q Hq). apply INp. auto.
        - destruct i_rank0 as (rank & Hk). exists rank. intros a b Ha Hb. apply Hk; [apply INp; auto|].
          unfold kids in *. rewrite U2 in Hb. unfold m1. rewrite set_ref_udat; auto.
        - intros q Hq. apply (i_block _ _ _ _ _ I). apply N12. auto.
        - intros q Hq. destruct (i_alloc _ _ _ _ _ I q Hq) as [H|[H|H]]; [left; now apply N12|auto|right; right; now right].
        - intros q Hq. destruct (i_cache _ _ _ _ _ I q Hq) as (A & B & C). split; [|split; auto].
          + intros [<-|H]; auto. congruence.
          + destruct (m2 q) eqn:E; auto. exfalso. apply (proj1 (N12 q)); congruence. }
      assert (Hl1 : length els1 <= f).
      { apply Permutation_length in P1. simpl in P1. lia. }
      destruct (release_fold f IH ks h2 roots els1 (p :: dying) ex I3 Hl1) as (h3 & els3 & E3 & I4 & Re).
      rewrite E3. cbn [rbind].
      assert (Hb3 : blocks h3 p <> None).
      { rewrite (re_block _ _ _ _ Re p ND). cbn. apply (i_block _ _ _ _ _ I). congruence. }
      destruct (inv_free h3 roots els3 dying ex p I4 Hb3) as (h4 & E4 & I5 & A1 & A2 & A3 & A4 & A5 & A6 & A7).
      rewrite E4. exists h4, els3. split; auto. split; auto.
      assert (In3 : forall q, In q els3 -> In q els1) by (intros q; eapply released_incl; eauto).
      constructor.
      + destruct (re_els _ _ _ _ Re) as (dead & Pd). exists (p :: dead). rewrite P1, Pd.
        apply Permutation_middle.
      + intros q Hq. rewrite A1. unfold udat, dat. rewrite upd_other by (intros ->; auto).
        fold (dat (hm h3) q). fold (udat (hm h3) q). rewrite (re_dat _ _ _ _ Re q Hq). cbn [h2 with_table hm]. apply U2.
      + intros q Hq. rewrite INp in Hq. rewrite A1, upd_other by tauto. rewrite (re_mem _ _ _ _ Re q) by tauto.
        cbn [h2 with_table hm]. rewrite M2 by tauto. unfold m1, set_ref. apply upd_other. tauto.
      + intros q Hq. rewrite INp in Hq. rewrite A2. unfold upd_block. assert (q <> p) by tauto. apply N.eqb_neq in H. rewrite H.
        rewrite (re_block _ _ _ _ Re q) by tauto. reflexivity.
      + rewrite A3, (re_env _ _ _ _ Re). reflexivity.
      + rewrite A4, (re_ucache _ _ _ _ Re). reflexivity.
      + rewrite A5, (re_ucsize _ _ _ _ Re). reflexivity.
      + destruct A7 as (-> & -> & -> & ->), (re_stats _ _ _ _ Re) as (-> & -> & -> & ->). auto.
  Qed.

  Lemma release_all_ok : forall h roots els dying ex p, inv h (p :: roots) els dying ex ->
    exists h' els', release_all leqb hash h p = Ok h' /\ inv h' roots els' dying ex /\ released h h' els els'.
  Proof.
    intros h roots els dying ex p I. unfold release_all. apply release_ok; auto.
    rewrite (table_size key hash _ _ _ (i_table _ _ _ _ _ I)), Nnat.Nat2N.id. lia.
  Qed.

  (** *** Creation *)

  Lemma allocate_ok : forall h roots els dying ex d a, inv h roots els dying ex -> blocks h a = None -> ~ In a dying ->
    exists p h1, allocate (bytes d) a h = Ok (p, h1) /\ inv h1 roots els (p :: dying) ex /\ hm h1 = hm h /\ env h1 = env h /\
    hm h p = None /\ ~ In p dying /\ (forall x, blocks h x <> None -> blocks h1 x <> None) /\
    exists n, blocks h1 p = Some n /\ (bytes d <= n)%N.
  Proof.
    intros h roots els dying ex d a I Ha Hda.
    assert (Hma : hm h a = None).
    { destruct (hm h a) eqn:E; auto. exfalso. apply (i_block _ _ _ _ _ I a); congruence. }
    assert (Hlive : forall p, hm h p = None -> ~ In p els).
    { intros p Hp Hin. destruct (inv_live _ _ _ _ _ p I Hin) as (c & Hc). congruence. }
    assert (New : exists p h1, Ok (E := herr) (a, with_blocks (upd_block (blocks h) a (Some (bytes d))) (ucache h) (ucsize h) h) = Ok (p, h1) /\
      inv h1 roots els (p :: dying) ex /\ hm h1 = hm h /\ env h1 = env h /\ hm h p = None /\ ~ In p dying /\
      (forall x, blocks h x <> None -> blocks h1 x <> None) /\ exists n, blocks h1 p = Some n /\ (bytes d <= n)%N).
    { eexists _, _. split; [reflexivity|]. split; [|split; [|split; [|split; [|split; [|split]]]]]; auto.
      - destruct I. constructor; cbn [with_blocks hm ht blocks ucache ucsize]; auto.
        + intros q Hq. destruct (i_only0 q Hq) as [H|H]; [left|right; right]; auto.
        + intros q [<-|Hq]; auto.
        + intros q Hq. unfold upd_block. destruct (N.eqb q a) eqn:E; [congruence|auto].
        + intros q Hq. unfold upd_block in Hq. destruct (N.eqb q a) eqn:E.
          * apply N.eqb_eq in E. subst. right. right. now left.
          * destruct (i_alloc0 q Hq) as [H|[H|H]]; auto. right. right. now right.
        + intros q Hq. destruct (i_cache0 q Hq) as (A & B & n & C & D).
          assert (q <> a) by congruence. split; [intros [<-|Hd]; auto|]. split; auto. exists n. split; auto.
          unfold upd_block. apply N.eqb_neq in H. now rewrite H.
      - intros x Hx. cbn [with_blocks blocks]. unfold upd_block. destruct (N.eqb x a); congruence.
      - exists (bytes d). cbn [with_blocks blocks]. unfold upd_block. rewrite N.eqb_refl. split; auto. lia. }
    unfold allocate. destruct (ucache h) as [p|] eqn:Eu.
    - destruct (bytes d <=? ucsize h)%N eqn:El.
      + apply N.leb_le in El. exists p. eexists. split; [reflexivity|].
        destruct (i_cache _ _ _ _ _ I p Eu) as (A & B & n & C & D). split; [|split; [|split; [|split; [|split; [|split]]]]]; auto.
        * destruct I. constructor; cbn [with_blocks hm ht blocks ucache ucsize]; auto.
          -- intros q Hq. destruct (i_only0 q Hq) as [H|H]; [left|right; right]; auto.
          -- intros q [<-|Hq]; auto.
          -- intros q Hq. destruct (i_alloc0 q Hq) as [H|[H|H]]; auto; right; right; [left; congruence|now right].
          -- intros q Hq. discriminate.
        * exists n. split; auto. lia.
      + rewrite Ha. exact New.
    - rewrite Ha. exact New.
  Qed.

  Lemma incr_fold : forall ks h roots els dying ex, inv h roots els dying ex -> (forall k, In k ks -> In k els) ->
    (N.of_nat (length (refs (hm h) roots els) + length ks) < 2 ^ 32)%N ->
    exists m', fold_left (fun r q => rbind r (incr q)) ks (Ok h) = Ok (with_mem m' h) /\
    inv (with_mem m' h) (ks ++ roots) els dying ex /\
    (forall q, udat m' q = udat (hm h) q) /\ (forall q, ~ In q els -> m' q = hm h q).
  Proof.
    induction ks as [|k ks IH]; intros h roots els dying ex I Hk Hl; cbn [fold_left app].
    - exists (hm h). replace (with_mem (hm h) h) with h by (destruct h; reflexivity). auto.
    - cbn [rbind]. destruct (incr_ok h roots els dying ex k I) as (m1 & E1 & I1 & U1 & M1).
      + apply Hk. now left.
      + simpl in Hl. lia.
      + rewrite E1. destruct (IH (with_mem m1 h) (k :: roots) els dying ex I1) as (m2 & E2 & I2 & U2 & M2).
        * intros q Hq. apply Hk. now right.
        * cbn [with_mem hm]. rewrite (refs_ext (hm h)) by auto. unfold refs in *. cbn [app length] in *. rewrite app_length in *. simpl. lia.
        * exists m2. cbn [with_mem hm] in *. split; [exact E2|]. split; [|split].
          -- eapply inv_perm; [exact I2| |reflexivity]. symmetry. apply Permutation_middle.
          -- intros q. rewrite U2. auto.
          -- intros q Hq. rewrite M2, M1; auto.
  Qed.

  Lemma construct_ok : forall h roots els dying ex p d n, inv h roots els (p :: dying) ex -> (forall k, In k (snd d) -> In k els) ->
    (N.of_nat (length (refs (hm h) roots els) + length (snd d)) < 2 ^ 32)%N -> hm h p = None ->
    blocks h p = Some n -> (bytes d <= n)%N ->
    exists m', construct bytes p d h = Ok (with_mem m' h) /\ inv (with_mem m' h) (snd d ++ roots) els (p :: dying) ex /\
    (forall q, q <> p -> udat m' q = udat (hm h) q) /\ m' p = Some {| c_data := {| u_ref := 0; u_data := d |}; c_next := None |}.
  Proof.
    intros h roots els dying ex p d n I Hk Hl Hm Hb Hn. unfold construct. rewrite Hb, Hm.
    destruct (bytes d <=? n)%N eqn:En; [|apply N.leb_gt in En; lia].
    destruct (incr_fold (snd d) h roots els (p :: dying) ex I Hk Hl) as (m1 & E1 & I1 & U1 & M1). rewrite E1. cbn [rbind].
    eexists. split; [reflexivity|]. cbn [with_mem hm].
    assert (Hp : ~ In p els) by (apply (i_dying _ _ _ _ _ I1); now left).
    split; [|split].
    - set (m2 := upd m1 p _).
      assert (U : forall q, In q els -> udat m2 q = udat m1 q).
      { intros q Hq. unfold udat, dat, m2. rewrite upd_other; auto. congruence. }
      assert (R : forall rs, refs m2 rs els = refs m1 rs els) by (intros; now apply refs_ext).
      destruct I1. constructor; cbn [with_mem hm ht blocks ucache ucsize] in *; auto.
      + apply (table_ext key hash m1); auto. intros q Hq. apply upd_other. congruence.
      + intros q e Hq Hd. rewrite R. apply i_refs0; auto. unfold dat, m2 in *. rewrite upd_other in Hd; auto. congruence.
      + intros q. rewrite R. auto.
      + intros q Hq. rewrite R. auto.
      + intros q Hq. unfold m2 in Hq. destruct (N.eq_dec q p) as [->|Hne]; [right; now left|].
        rewrite upd_other in Hq; auto.
      + destruct i_rank0 as (rank & Hr). exists rank. intros a b Ha Hb'. apply Hr; auto. unfold kids in *. now rewrite U in Hb'.
      + intros q Hq. unfold m2 in Hq. destruct (N.eq_dec q p) as [->|Hne]; [congruence|]. rewrite upd_other in Hq; auto.
      + intros q Hq. unfold m2. destruct (N.eq_dec q p) as [->|Hne]; [right; right; now left|]. rewrite upd_other; auto.
      + intros q Hq. destruct (i_cache0 q Hq) as (A & B & C). split; auto. split; auto. unfold m2. rewrite upd_other; auto.
        intros ->. apply A. now left.
    - intros q Hq. unfold udat, dat. rewrite upd_other; auto. fold (dat m1 q). fold (udat m1 q). apply U1.
    - apply upd_same.
  Qed.

  Lemma release_dec_fold : forall ks h roots els dying ex, inv h (ks ++ roots) els dying ex ->
    (forall k, In k ks -> In k (refs (hm h) roots els)) ->
    exists m', fold_left (fun r x => rbind r (fun h => release_all leqb hash h x)) ks (Ok h) = Ok (with_mem m' h) /\
    inv (with_mem m' h) roots els dying ex /\
    (forall q, udat m' q = udat (hm h) q) /\ (forall q, ~ In q els -> m' q = hm h q).
  Proof.
    induction ks as [|k ks IH]; intros h roots els dying ex I Hk; cbn [fold_left app] in *.
    - exists (hm h). replace (with_mem (hm h) h) with h by (destruct h; reflexivity). auto.
    - cbn [rbind]. unfold release_all at 2.
      destruct (release_dec (N.to_nat (size_ (ht h))) h (ks ++ roots) els dying ex k I) as (m1 & E1 & I1 & U1 & M1).
      + unfold refs. rewrite <- app_assoc. apply in_app_iff. right. apply Hk. now left.
      + rewrite E1. destruct (IH (with_mem m1 h) roots els dying ex I1) as (m2 & E2 & I2 & U2 & M2).
        * intros q Hq. cbn [with_mem hm]. rewrite (refs_ext (hm h)) by auto. apply Hk. now right.
        * exists m2. cbn [with_mem hm] in *. split; [exact E2|]. split; [exact I2|]. split.
          -- intros q. rewrite U2. auto.
          -- intros q Hq. rewrite M2, M1; auto.
  Qed.

  Lemma rank_bound : forall (rank : ptr -> nat) ks, exists b, forall k, In k ks -> rank k < b.
  Proof.
    intros rank ks. induction ks as [|k ks (b & IH)].
    - exists 0. intros k [].
    - exists (S (Nat.max (rank k) b)). intros x [<-|Hx]; [lia|]. specialize (IH x Hx). lia.
  Qed.

  (** The node constructed at [p] is unified; [q] is the unified node, which is not referenced when it is new. *)
  (** The node [p], of data [d], is linked in the table. *)
  Lemma inv_linked : forall h roots els dying ex p d m1 t1 sa sb sc sd, inv h (snd d ++ roots) els (p :: dying) ex -> ~ In p dying ->
    hm h p = Some {| c_data := {| u_ref := 0; u_data := d |}; c_next := None |} ->
    (forall x, dat m1 x = dat (hm h) x) -> tok m1 t1 (p :: els) -> (nb t1 < 2 ^ 63)%N ->
    inv (with_stats sa sb sc sd (with_table m1 t1 h)) roots (p :: els) dying (p :: ex) /\
    Permutation (refs (hm h) (snd d ++ roots) els) (refs m1 roots (p :: els)).
  Proof.
    intros h roots els dying ex p d m1 t1 sa sb sc sd I Hpd Hm D1 T1 Nb1.
    assert (Hp : ~ In p els) by (apply (i_dying _ _ _ _ _ I); now left).
    assert (U1 : forall x, udat m1 x = udat (hm h) x) by (intros x; unfold udat; now rewrite D1).
    assert (R1 : forall rs es, refs m1 rs es = refs (hm h) rs es) by (intros; apply refs_ext; auto).
    assert (K1 : forall x, kids m1 x = kids (hm h) x) by (intros x; unfold kids; now rewrite U1).
    assert (N1 : forall x, m1 x = None <-> hm h x = None).
    { intros x. pose proof (D1 x) as D. unfold dat in D. destruct (m1 x), (hm h x); cbn [option_map] in D; split; congruence. }
    assert (Up : udat (hm h) p = Some d) by (unfold udat, dat; now rewrite Hm).
    assert (Kp : kids (hm h) p = snd d) by (unfold kids; now rewrite Up).
    assert (RP : Permutation (refs (hm h) (snd d ++ roots) els) (refs m1 roots (p :: els))).
    { rewrite R1. unfold refs. cbn [flat_map]. rewrite Kp. rewrite <- app_assoc.
      rewrite !app_assoc. apply Permutation_app_tail. apply Permutation_app_comm. }
    split; [|exact RP].
    destruct I. constructor; cbn [with_stats with_table hm ht blocks ucache ucsize]; auto.
      * intros x e [<-|Hx] He; rewrite <- (count_perm _ _ RP).
        -- rewrite D1 in He. unfold dat in He. rewrite Hm in He. injection He as <-. cbn [u_ref].
           assert (Z : count_occ N.eq_dec (refs (hm h) (snd d ++ roots) els) p = 0); [|now rewrite Z].
           apply count_zero. intros H. apply Hp, i_in0, H.
        -- apply i_refs0; auto. now rewrite <- D1.
      * intros x Hx. right. apply i_in0. apply (Permutation_in _ (Permutation_sym RP)). exact Hx.
      * intros x [<-|Hx]; [right; now left|]. destruct (i_pos0 x Hx) as [H|H]; [left|right; now right]. now apply (Permutation_in _ RP).
      * intros x Hx. rewrite N1 in Hx. destruct (i_only0 x Hx) as [H|[H|H]]; simpl; auto.
      * intros x Hx [<-|Hi]; [auto|]. apply (i_dying0 x); [now right|auto].
      * destruct i_rank0 as (rank & Hr). destruct (rank_bound rank (snd d)) as (b & Hbd).
        exists (fun x => if N.eqb x p then b else rank x). intros x y Hx Hy. rewrite K1 in Hy.
        assert (y <> p).
        { intros ->. apply Hp. destruct Hx as [<-|Hx].
          - rewrite Kp in Hy. apply i_in0. unfold refs. apply in_app_iff. left. apply in_app_iff. auto.
          - apply i_in0. unfold refs. apply in_app_iff. right. apply in_flat_map. eauto. }
        apply N.eqb_neq in H. rewrite H. destruct (N.eqb x p) eqn:Ex.
        -- apply N.eqb_eq in Ex. subst x. apply Hbd. rewrite <- Kp. auto.
        -- destruct Hx as [<-|Hx]; [rewrite N.eqb_refl in Ex; discriminate|]. now apply Hr.
      * intros x Hx. apply i_block0. rewrite <- N1. auto.
      * intros x Hx. rewrite N1. destruct (i_alloc0 x Hx) as [H|[H|[<-|H]]]; auto. left. congruence.
      * intros x Hx. destruct (i_cache0 x Hx) as (A & B & C). rewrite N1. split; [intros H; apply A; now right|auto].
  Qed.

  Lemma unify_ok : forall h roots els dying ex p d n, inv h (snd d ++ roots) els (p :: dying) ex -> ~ In p dying -> blocks h p = Some n -> (bytes d <= n)%N ->
    hm h p = Some {| c_data := {| u_ref := 0; u_data := d |}; c_next := None |} ->
    (N.of_nat (length els) + 1 < 2 ^ 60)%N ->
    exists q h1 els1 ex1, unify leqb hash bytes p d h = Ok (q, h1) /\ inv h1 roots els1 dying ex1 /\ (ex1 = ex \/ ex1 = q :: ex) /\ In q els1 /\
    udat (hm h1) q = Some d /\ (forall x, In x els -> In x els1 /\ udat (hm h1) x = udat (hm h) x) /\
    env h1 = env h /\ length (refs (hm h1) roots els1) <= length (refs (hm h) (snd d ++ roots) els) /\
    (els1 = els \/ els1 = q :: els) /\
    access h1 = (access h + 1)%N /\
    (if in_dec N.eq_dec q els then uhits h1 = (uhits h + 1)%N /\ umisses h1 = umisses h /\ upeak h1 = upeak h
     else uhits h1 = uhits h /\ umisses h1 = (umisses h + 1)%N /\ upeak h1 = N.max (upeak h) (size_ (ht h1))) /\
    (forall x, In x dying -> blocks h1 x = blocks h x).
  Proof.
    intros h roots els dying ex p d n I Hpd Hb Hn Hm Hsz.
    assert (Hp : ~ In p els) by (apply (i_dying _ _ _ _ _ I); now left).
    destruct (insert_ok key (node_eqb leqb) hash node_eqb_spec (hm h) (ht h) els p _ (i_table _ _ _ _ _ I) (i_nb _ _ _ _ _ I) Hm Hp)
      as (m1 & t1 & q & isnew & E & D1 & M1 & Cases).
    assert (Nb1 : (nb t1 < 2 ^ 63)%N).
    { eapply (insert_nb key (node_eqb leqb) hash node_eqb_spec); [apply (i_table _ _ _ _ _ I)|apply (i_nb _ _ _ _ _ I)|exact Hm|exact Hp| |exact E].
      rewrite (table_size key hash _ _ _ (i_table _ _ _ _ _ I)). exact Hsz. }
    unfold unify. rewrite E. cbn [rbind].
    assert (U1 : forall x, udat m1 x = udat (hm h) x) by (intros x; unfold udat; now rewrite D1).
    assert (R1 : forall rs es, refs m1 rs es = refs (hm h) rs es) by (intros; apply refs_ext; auto).
    assert (K1 : forall x, kids m1 x = kids (hm h) x) by (intros x; unfold kids; now rewrite U1).
    assert (N1 : forall x, m1 x = None <-> hm h x = None).
    { intros x. pose proof (D1 x) as D. unfold dat in D. destruct (m1 x), (hm h x); cbn [option_map] in D; split; congruence. }
    assert (Up : udat (hm h) p = Some d) by (unfold udat, dat; now rewrite Hm).
    assert (Kp : kids (hm h) p = snd d) by (unfold kids; now rewrite Up).
    destruct isnew.
    - destruct Cases as (-> & Habs & T1).
      exists p. eexists _, (p :: els), (p :: ex). split; [reflexivity|].
      destruct (inv_linked h roots els dying ex p d m1 t1 (access h + 1)%N (uhits h) (umisses h + 1)%N (N.max (upeak h) (size_ t1)) I Hpd Hm D1 T1 Nb1) as [I1 RP].
      split; [|split; [|split; [|split; [|split; [|split; [|split; [|split; [|split; [|split]]]]]]]]]; cbn [with_stats with_table hm env access uhits umisses upeak]; auto.
      + now left.
      + now rewrite U1.
      + intros x Hx. split; [now right|auto].
      + rewrite (Permutation_length RP). lia.
      + destruct (in_dec N.eq_dec p els); [contradiction|auto].
    - destruct Cases as ((Hq & e & He & Ke) & T1). cbv beta in Ke; cbn [c_data u_data] in Ke.
      assert (Uq : udat (hm h) q = Some d) by (unfold udat; rewrite He; cbn [option_map]; f_equal; exact Ke).
      assert (Kq : kids (hm h) q = snd d) by (unfold kids; now rewrite Uq).
      assert (Hqp : q <> p) by congruence.
      assert (I1 : inv (with_table m1 t1 h) (snd d ++ roots) els (p :: dying) ex).
      { destruct I. constructor; cbn [with_table hm ht blocks ucache ucsize]; auto.
        - intros x f Hx Hf. rewrite R1. apply i_refs0; auto. now rewrite <- D1.
        - intros x. rewrite R1. auto.
        - intros x. rewrite R1. auto.
        - intros x Hx. rewrite N1 in Hx. auto.
        - destruct i_rank0 as (rank & Hr). exists rank. intros x y. rewrite K1. auto.
        - intros x Hx. rewrite N1 in Hx. auto.
        - intros x Hx. rewrite N1. auto.
        - intros x Hx. rewrite N1. auto. }
      destruct (release_dec_fold (snd d) (with_table m1 t1 h) roots els (p :: dying) ex I1) as (m2 & E2 & I2 & U2 & M2).
      { intros k Hk. cbn [with_table hm]. rewrite R1. unfold refs. apply in_app_iff. right. apply in_flat_map. exists q. rewrite Kq. auto. }
      rewrite E2. cbn [rbind with_mem with_table with_stats ucsize hm].
      set (m3 := upd m2 p None).
      assert (U3 : forall x, In x els -> udat m3 x = udat (hm h) x).
      { intros x Hx. unfold m3, udat, dat. rewrite upd_other by congruence. fold (dat m2 x). fold (udat m2 x). rewrite U2. apply U1. }
      assert (R3 : forall rs, refs m3 rs els = refs (hm h) rs els) by (intros; apply refs_ext; auto).
      (* the memory of the new node is released or kept *)
      assert (Final : forall h', hm h' = m3 -> ht h' = t1 -> env h' = env h ->
        (forall x, x <> p -> blocks h' x <> None -> blocks h x <> None) ->
        (forall x, In x els -> blocks h' x = blocks h x) ->
        ((blocks h' p = None /\ ucache h' = ucache h /\ ucsize h' = ucsize h /\ (forall x, x <> p -> blocks h' x = blocks h x))
         \/ (blocks h' p = Some n /\ ucache h' = Some p /\ ucsize h' = bytes d /\ (forall c, ucache h = Some c -> blocks h' c = None))) ->
        (forall x, In x dying -> blocks h' x = blocks h x) ->
        inv h' roots els dying ex).
      { intros h' A1 A2 A3 A4 A5 A6 A7.
        assert (N3 : forall x, m3 x <> None -> x <> p /\ hm h x <> None).
        { intros x Hx. unfold m3 in Hx. destruct (N.eq_dec x p) as [->|Hne]; [now rewrite upd_same in Hx|]. split; auto.
          rewrite upd_other in Hx by auto. destruct (in_dec N.eq_dec x els) as [Hi|Ho].
          - destruct (inv_live _ _ _ _ _ x I Hi) as (c & ->). discriminate.
          - rewrite M2 in Hx by auto. cbn [with_table hm] in Hx. now rewrite N1 in Hx. }
        assert (N4 : forall x, x <> p -> hm h x <> None -> m3 x <> None).
        { intros x Hx Hh. unfold m3. rewrite upd_other by auto. destruct (in_dec N.eq_dec x els) as [Hi|Ho].
          - destruct (inv_live _ _ _ _ _ x I2 Hi) as (c & Hc). cbn [with_mem hm] in Hc. congruence.
          - rewrite M2 by auto. cbn [with_table hm]. now rewrite N1. }
        pose proof (i_block _ _ _ _ _ I) as Bk. pose proof (i_alloc _ _ _ _ _ I) as Al. pose proof (i_cache _ _ _ _ _ I) as Ca.
        pose proof (i_nocache _ _ _ _ _ I) as Nc. pose proof (i_only _ _ _ _ _ I) as On. pose proof (i_dying _ _ _ _ _ I) as Dy.
        destruct I2. cbn [with_mem with_table hm ht blocks ucache ucsize] in *. constructor; rewrite ?A1, ?A2; auto.
        - apply (table_ext key hash m2); auto. intros x Hx. unfold m3. apply upd_other. congruence.
        - intros x f Hx Hf. rewrite R3, <- R1. unfold m3, dat in Hf. rewrite upd_other in Hf by congruence. 
          rewrite (refs_ext m1 m2) in i_refs0 by auto. auto.
        - intros x Hx. rewrite R3, <- R1 in Hx. rewrite (refs_ext m1 m2) in i_in0 by auto. auto.
        - intros x Hx. rewrite R3, <- R1. rewrite (refs_ext m1 m2) in i_pos0 by auto. auto.
        - intros x Hx. destruct (N3 x Hx) as [B1 B2]. destruct (On x B2) as [H|[H|H]]; auto. congruence.
        - intros x Hx. apply Dy. now right.
        - destruct i_rank0 as (rank & Hr). exists rank. intros x y Hx Hy. apply Hr; auto. unfold kids in *. rewrite U3 in Hy by auto.
          rewrite U2, U1. exact Hy.
        - intros x Hx. destruct (N3 x Hx) as [B1 B2]. destruct (On x B2) as [H|[H|H]]; [|congruence|].
          + rewrite A5 by auto. auto.
          + rewrite A7 by auto. auto.
        - intros x Hx. destruct (N.eq_dec x p) as [->|Hne].
          + destruct A6 as [(C1 & _)|(_ & C2 & _)]; [congruence|auto].
          + destruct (Al x (A4 x Hne Hx)) as [H|[H|[H|H]]]; [left; auto| |congruence|auto].
            right. left. destruct A6 as [(_ & C2 & _)|(_ & _ & _ & C4)]; [congruence|]. rewrite (C4 x H) in Hx. congruence.
        - intros x Hx. destruct A6 as [(C1 & C2 & C3 & C4)|(C1 & C2 & C3 & C4)].
          + rewrite C2 in Hx. destruct (Ca x Hx) as (B1 & B2 & n' & B3 & B4). assert (x <> p) by (intros ->; apply B1; now left).
            split; [intros H'; apply B1; now right|]. split.
            * destruct (m3 x) eqn:Ex; auto. exfalso. apply (N3 x); congruence.
            * exists n'. rewrite C3, C4; auto.
          + rewrite C2 in Hx. injection Hx as <-. split; [exact Hpd|]. split; [apply upd_same|]. exists n. rewrite C1, C3. auto.
        - intros Hx. destruct A6 as [(C1 & C2 & C3 & C4)|(C1 & C2 & C3 & C4)]; [|congruence]. rewrite C2 in Hx. rewrite C3. auto. }
      assert (Post : forall h', inv h' roots els dying ex -> hm h' = m3 -> env h' = env h -> access h' = (access h + 1)%N ->
         uhits h' = (uhits h + 1)%N -> umisses h' = umisses h -> upeak h' = upeak h ->
         (forall x, In x dying -> blocks h' x = blocks h x) ->
         exists q0 h1 els1 ex1, Ok (E := herr) (q, h') = Ok (q0, h1) /\ inv h1 roots els1 dying ex1 /\ (ex1 = ex \/ ex1 = q0 :: ex) /\ In q0 els1 /\
           udat (hm h1) q0 = Some d /\ (forall x, In x els -> In x els1 /\ udat (hm h1) x = udat (hm h) x) /\
           env h1 = env h /\ length (refs (hm h1) roots els1) <= length (refs (hm h) (snd d ++ roots) els) /\
           (els1 = els \/ els1 = q0 :: els) /\ access h1 = (access h + 1)%N /\
           (if in_dec N.eq_dec q0 els then uhits h1 = (uhits h + 1)%N /\ umisses h1 = umisses h /\ upeak h1 = upeak h
            else uhits h1 = uhits h /\ umisses h1 = (umisses h + 1)%N /\ upeak h1 = N.max (upeak h) (size_ (ht h1))) /\
           (forall x, In x dying -> blocks h1 x = blocks h x)).
      { intros h' Ih A1 A3 A4 A5 A6 A7 A8. exists q, h', els, ex. rewrite A1.
        split; [reflexivity|]. split; [exact Ih|]. split; [now left|]. split; [exact Hq|].
        split; [now rewrite U3|]. split; [intros x Hx; split; auto|]. split; [exact A3|]. split.
        - rewrite R3. unfold refs. rewrite !app_length. lia.
        - split; [now left|]. split; [exact A4|]. split; [|exact A8]. destruct (in_dec N.eq_dec q els); [auto|contradiction]. }
      destruct (ucsize h <? bytes d)%N eqn:Es; cbn [ucache with_mem with_table with_stats].
      + destruct (ucache h) as [c|] eqn:Eu; cbn [rbind].
        * destruct (i_cache _ _ _ _ _ I c Eu) as (B1 & B2 & n' & B3 & B4).
          assert (Hcp : c <> p) by (intros ->; apply B1; now left). apply N.eqb_neq in Hcp as Hcp'.
          assert (Hpc : (p =? c)%N = false) by (rewrite N.eqb_sym; exact Hcp').
          assert (Hce : forall x, In x els -> (x =? c)%N = false).
          { intros x Hx. apply N.eqb_neq. intros ->. destruct (inv_live _ _ _ _ _ c I Hx) as (cc & Hcc). congruence. }
          unfold free_block. cbn [with_mem with_table with_stats blocks]. rewrite B3. cbn [rbind with_blocks blocks].
          assert (Kd : forall x, In x dying -> upd_block (blocks h) c None x = blocks h x).
          { intros x Hx. unfold upd_block. assert (Hxc : x <> c) by (intros ->; apply B1; now right).
            apply N.eqb_neq in Hxc. now rewrite Hxc. }
          apply Post; cbn [with_blocks with_mem with_table with_stats hm blocks env access uhits umisses upeak]; auto.
          apply Final; cbn [with_blocks with_mem with_table with_stats hm ht env blocks ucache ucsize]; auto; unfold upd_block.
          -- intros x Hx. destruct (N.eqb x c); [intros H; congruence|auto].
          -- intros x Hx. now rewrite Hce.
          -- right. rewrite Hpc. repeat split; auto. intros c' Hc'. injection Hc' as <-. now rewrite N.eqb_refl.
        * cbn [with_blocks blocks with_mem with_table with_stats].
          apply Post; cbn [with_blocks with_mem with_table with_stats hm env access uhits umisses upeak]; auto.
          apply Final; cbn [with_blocks with_mem with_table with_stats hm ht env blocks ucache ucsize]; auto.
          right. repeat split; auto. intros c' Hc'. discriminate.
      + unfold free_block. cbn [with_mem with_table with_stats blocks]. rewrite Hb. cbn [rbind with_blocks blocks].
        assert (Kd : forall x, In x dying -> upd_block (blocks h) p None x = blocks h x).
        { intros x Hx. unfold upd_block. assert (Hxp : x <> p) by congruence. apply N.eqb_neq in Hxp. now rewrite Hxp. }
        apply Post; cbn [with_blocks with_mem with_table with_stats hm blocks env access uhits umisses upeak]; auto.
        apply Final; cbn [with_blocks with_mem with_table with_stats hm ht env blocks ucache ucsize]; auto; unfold upd_block.
        * intros x Hx. apply N.eqb_neq in Hx. rewrite Hx. auto.
        * intros x Hx. assert (Hxp : x <> p) by congruence. apply N.eqb_neq in Hxp. now rewrite Hxp.
        * left. rewrite N.eqb_refl. repeat split; auto. intros x Hx. apply N.eqb_neq in Hx. now rewrite Hx.
  Qed.

  Lemma inv_unex : forall h roots els dying ex q, inv h (q :: roots) els dying (q :: ex) -> inv h (q :: roots) els dying ex.
  Proof.
    intros h roots els dying ex q I. destruct I. constructor; auto. intros p Hp. destruct (i_pos0 p Hp) as [H|[<-|H]]; auto.
    left. now left.
  Qed.

  Lemma make_ok : forall h roots els dying ex d a, inv h roots els dying ex -> blocks h a = None -> ~ In a dying -> (forall k, In k (snd d) -> In k els) ->
    (N.of_nat (length ex + length (refs (hm h) roots els) + length (snd d) + 1) < 2 ^ 32)%N ->
    exists q h1 els1, make leqb hash bytes d a h = Ok (q, h1) /\ inv h1 (q :: roots) els1 dying ex /\
    udat (hm h1) q = Some d /\ (forall x, In x els -> In x els1 /\ udat (hm h1) x = udat (hm h) x) /\
    env h1 = env h /\ length (refs (hm h1) (q :: roots) els1) <= length (refs (hm h) roots els) + length (snd d) + 1 /\
    (els1 = els \/ els1 = q :: els) /\ access h1 = (access h + 1)%N /\
    (if in_dec N.eq_dec q els then uhits h1 = (uhits h + 1)%N /\ umisses h1 = umisses h /\ upeak h1 = upeak h
     else uhits h1 = uhits h /\ umisses h1 = (umisses h + 1)%N /\ upeak h1 = N.max (upeak h) (size_ (ht h1))) /\
    (forall x, In x dying -> blocks h x <> None -> blocks h1 x <> None).
  Proof.
    intros h roots els dying ex d a I Ha Hda Hk Hl. unfold make.
    destruct (allocate_ok h roots els dying ex d a I Ha Hda) as (p & h1 & E1 & I1 & M1 & V1 & Hp & Hpd & Kb & n & Bp & Hn).
    assert (S1 : access h1 = access h /\ uhits h1 = uhits h /\ umisses h1 = umisses h /\ upeak h1 = upeak h).
    { clear - E1. unfold allocate in E1. destruct (ucache h); [destruct (_ <=? _)%N|];
      try (destruct (blocks h a); [discriminate|]); injection E1 as <- <-; auto. }
    rewrite E1. cbn [rbind fst snd].
    destruct (construct_ok h1 roots els dying ex p d n I1 Hk) as (m2 & E2 & I2 & U2 & Mp); auto.
    { rewrite M1. lia. }
    { now rewrite M1. }
    rewrite E2. cbn [rbind].
    assert (L2 : length (refs m2 (snd d ++ roots) els) = length (refs (hm h) roots els) + length (snd d)).
    { rewrite (refs_ext (hm h)).
      - unfold refs. rewrite !app_length. lia.
      - intros x Hx. rewrite <- M1. apply U2. intros ->. apply (i_dying _ _ _ _ _ I1 p); simpl; auto. }
    destruct (unify_ok (with_mem m2 h1) roots els dying ex p d n I2 Hpd Bp Hn Mp) as (q & h3 & els3 & ex1 & E3 & I3 & Hex & Hq & Uq & Ux & V3 & L3 & Els & A3 & S3 & K3).
    { pose proof (inv_small _ _ _ _ _ I) as Sm. change (2 ^ 60)%N with (2 ^ 28 * 2 ^ 32)%N.
      assert (1 <= 2 ^ 28)%N by (vm_compute; discriminate). nia. }
    rewrite E3. cbn [rbind fst snd].
    destruct (incr_ok h3 roots els3 dying ex1 q I3 Hq) as (m4 & E4 & I4 & U4 & M4).
    { cbn [with_mem hm] in L3. rewrite L2 in L3. lia. }
    rewrite E4. cbn [rbind]. exists q, (with_mem m4 h3), els3. split; [reflexivity|]. cbn [with_mem hm env access uhits umisses upeak] in *.
    split; [|split; [|split; [|split; [|split; [|split; [|split; [|split]]]]]]].
    - destruct Hex as [-> | ->]; auto. now apply inv_unex.
    - now rewrite U4.
    - intros x Hx. destruct (Ux x Hx) as [B1 B2]. split; auto. rewrite U4, B2. rewrite U2.
      + now rewrite M1.
      + intros ->. apply (i_dying _ _ _ _ _ I1 p); simpl; auto.
    - congruence.
    - rewrite (refs_ext (hm h3)) by auto. unfold refs in *. cbn [app length]. rewrite L2 in L3. lia.
    - auto.
    - destruct S1 as (S1 & _). congruence.
    - destruct S1 as (_ & S1 & S2 & S4). rewrite <- S1, <- S2, <- S4. exact S3.
    - intros x Hx Hb. cbn [with_mem blocks] in *. rewrite K3 by auto. auto.
  Qed.
End HeapProofs.
