(** * Correctness of the loops of sum.hh, intersection.hh, difference.hh and square_union.hh

    The loops are templates on the type of valuations; they are proved once, for any valuation
    type [W] whose operations satisfy [ops_ok]. *)

From Coq Require Import List Bool NArith Arith Lia Permutation Sorted.
From Verif Require Import Base SortedSets Values Sdd SddFacts DDModel.
Import ListNotations.

Section Spec.
  Variable VI : values_impl.
  Variable h : ddop (vt VI) -> res (err (vt VI)) (sdd (vt VI)).
  Variable Ex : err (vt VI) -> Prop.

  (** The operations [ops] compute unions, intersections and differences of good valuations. *)
  (** [clash]: the keys that no two operands may have. *)
  Record ops_ok {K W : Type} (mem : W -> K -> bool) (clash : K -> K -> Prop) (ops : valops VI W) (GV : W -> Prop) : Prop := {
    oo_sym : forall k1 k2, clash k1 k2 -> clash k2 k1;
    oo_free : forall a, GV a -> forall k1 k2, mem a k1 = true -> mem a k2 = true -> ~ clash k1 k2;
    oo_lt : strict_total (vo_lt ops);
    oo_eqb : forall a b, vo_eqb ops a b = true <-> a = b;
    oo_ext : forall a b, GV a -> GV b -> (forall k, mem a k = mem b k) -> a = b;
    oo_empty : forall a, GV a -> vo_empty ops a = true -> forall k, mem a k = false;
    oo_nonempty : forall a, GV a -> vo_empty ops a = false -> exists k, mem a k = true;
    oo_sum : forall l, ssorted (vo_lt ops) l ->
      (forall x, In x l -> GV x /\ vo_empty ops x = false) ->
      hoare h Ex (vo_sum ops l) (fun r => GV r /\ forall k, mem r k = existsb (fun x => mem x k) l);
    oo_inter : forall a b, GV a -> GV b ->
      hoare h Ex (vo_inter ops a b) (fun r => GV r /\ (forall k, mem r k = mem a k && mem b k) /\
        forall k1 k2, mem a k1 = true -> mem b k2 = true -> ~ clash k1 k2);
    oo_diff : forall a b, GV a -> GV b ->
      hoare h Ex (vo_diff ops a b) (fun r => GV r /\ (forall k, mem r k = mem a k && negb (mem b k)) /\
        forall k1 k2, mem a k1 = true -> mem b k2 = true -> ~ clash k1 k2);
    oo_iter : forall m, Permutation (vo_iter ops m) m
  }.
End Spec.

Section Generic.
  Variable VI : values_impl.
  Variable PF : platform VI.
  Hypothesis PO : platform_ok PF.
  Notation V := (vt VI).
  Notation sdd := (sdd V).
  Notation P := (prog (ddop V) sdd (err V)).
  Notation lt := (addr_lt PF).

  Variable h : ddop V -> res (err V) sdd.
  Variable Ex : err V -> Prop.
  Context {K W : Type}.
  Variable mem : W -> K -> bool.
  Variable clash : K -> K -> Prop.
  Variable ops : valops VI W.
  Variable GV : W -> Prop.
  Variable GS : K -> sdd -> Prop.        (* the good successors of a key *)

  Hypothesis OV : ops_ok VI h Ex mem clash ops GV.
  Hypothesis OS : forall k, ops_ok VI h Ex contains aclash (hier_ops VI PF) (GS k).

  Notation vempty := (vo_empty ops).
  Notation hoare := (hoare h Ex).

  Definition gv (v : W) : Prop := GV v /\ vempty v = false.
  Definition gs (v : W) (s : sdd) : Prop := (forall k, mem v k = true -> GS k s) /\ s <> Zero.

  Lemma gs_sub : forall v w s, (forall k, mem w k = true -> mem v k = true) -> gs v s -> gs w s.
  Proof. intros v w s H [H1 H2]. split; auto. Qed.

  Lemma is_zero_false : forall s : sdd, s <> Zero -> is_zero VI s = false.
  Proof. intros [] H; simpl in H; congruence || reflexivity. Qed.

  Lemma is_zero_true : forall s : sdd, is_zero VI s = true -> s = Zero.
  Proof. intros [] H; simpl in H; congruence || reflexivity. Qed.

  (** ** Results of a node construction *)

  Definition swap {A B : Type} (x : A * B) : B * A := (snd x, fst x).

  Record good_alpha (alpha : list (sdd * W)) : Prop := {
    ga_sorted : ksorted lt alpha;
    ga_good : forall s v, In (s, v) alpha -> gs v s /\ gv v;
    ga_disj : adisjoint VI mem (map swap alpha);
    ga_free : forall s1 v1 s2 v2 k1 k2, In (s1, v1) alpha -> In (s2, v2) alpha -> mem v1 k1 = true -> mem v2 k2 = true ->
      ~ clash k1 k2
  }.

  (** ** Square union *)

  Definition gpairs (pairs : list (sdd * W)) : Prop :=
    (forall s v, In (s, v) pairs -> gs v s /\ gv v) /\
    (forall s1 v1 s2 v2, In (s1, v1) pairs -> In (s2, v2) pairs -> s1 <> s2 -> disjoint mem v1 v2) /\
    (forall s1 v1 s2 v2 k1 k2, In (s1, v1) pairs -> In (s2, v2) pairs -> mem v1 k1 = true -> mem v2 k2 = true ->
       ~ clash k1 k2).

  (** The map [m] of square_union represents the added pairs. *)
  Definition su_rel (m : list (sdd * list W)) (pairs : list (sdd * W)) : Prop :=
    mm_rel lt (vo_lt ops) m pairs.

  Lemma su_rel_nil : su_rel [] [].
  Proof. apply mm_rel_nil. Qed.

  Lemma su_add_ok : forall m pairs s v, su_rel m pairs -> gs v s -> gv v ->
    hoare (su_add VI PF ops s v m) (fun m' => su_rel m' (pairs ++ [(s, v)])).
  Proof.
    intros m pairs s v HR [Hs1 Hs2] [Hv1 Hv2]. unfold su_add.
    rewrite is_zero_false, Hv2 by auto. simpl. apply hoare_ret. unfold su_rel.
    rewrite (fm_upd_ext _ _ lt _
      (fun o => fs_insert (vo_lt ops) v (match o with Some b => b | None => [] end))).
    - apply (mm_add_rel lt (vo_lt ops) (pf_lt PO) (oo_lt _ _ _ _ _ _ _ OV)). exact HR.
    - intros o. unfold sb_add. now rewrite Hv2.
  Qed.

  Lemma fop_map_swap : forall alpha : list (sdd * W),
    (forall s1 v1 s2 v2, In (s1, v1) alpha -> In (s2, v2) alpha -> s1 <> s2 -> disjoint mem v1 v2) ->
    NoDup (map fst alpha) -> adisjoint VI mem (map swap alpha).
  Proof.
    induction alpha as [|[s v] r IH]; intros H1 H2; simpl.
    - constructor.
    - inversion H2; subst. constructor.
      + rewrite Forall_forall. intros [v' s'] Hin. apply in_map_iff in Hin.
        destruct Hin as ([s0 v0] & E & Hin). injection E as -> ->. simpl.
        apply (H1 s v s' v'); simpl; auto. intros ->. apply H3.
        apply in_map_iff. exists (s', v'); auto.
      + apply IH; auto. intros; eapply H1; simpl; eauto.
  Qed.

  (** Evaluation of square_union: the arcs of the result represent the same set as the pairs. *)
  Lemma su_run_ok : forall m pairs, su_rel m pairs -> gpairs pairs ->
    hoare (su_run VI PF ops m [])
      (fun alpha => good_alpha alpha /\ (alpha = [] <-> pairs = []) /\
         forall k p, acontains VI mem (map swap alpha) k p = true <->
           exists s v, In (s, v) pairs /\ mem v k = true /\ contains s p = true).
  Proof.
    intros m pairs (H1 & H2 & H3) (G1 & G2 & G3).
    pose proof (pf_lt PO) as ST. pose proof (oo_lt _ _ _ _ _ _ _ OV) as STv.
    (* loop invariant *)
    assert (Loop : forall m2 alpha,
      NoDup (map fst m2) ->
      (forall s b, In (s, b) m2 -> In (s, b) m) ->
      ksorted lt alpha ->
      (forall s v, In (s, v) alpha -> ~ In s (map fst m2)) ->
      hoare (su_run VI PF ops m2 alpha) (fun alpha' =>
        ksorted lt alpha' /\
        (forall s v, In (s, v) alpha' -> In (s, v) alpha \/
           exists b, In (s, b) m2 /\ GV v /\ forall k, mem v k = existsb (fun x => mem x k) b) /\
        (forall s v, In (s, v) alpha -> In (s, v) alpha') /\
        (forall s b, In (s, b) m2 -> exists v, In (s, v) alpha' /\
           forall k, mem v k = existsb (fun x => mem x k) b))).
    { induction m2 as [|[s b] r IH]; intros alpha HN Hsub Hs Hfresh; simpl.
      - apply hoare_ret. repeat split; auto. intros s b [].
      - inversion HN as [|? ? Hn1 Hn2]; subst.
        eapply hoare_bind.
        + apply (oo_sum _ _ _ _ _ _ _ OV).
          * eapply H2. apply Hsub. now left.
          * intros x Hx. eapply (G1 s x). apply H3. exists b; split; auto. apply Hsub; now left.
        + intros v [Hv1 Hv2]. simpl.
          assert (Hno : forall v', ~ In (s, v') alpha).
          { intros v' Hin. apply (Hfresh _ _ Hin). now left. }
          assert (Hadd : forall s' v', In (s', v') (alpha_add VI PF v s alpha) <->
                    In (s', v') alpha \/ (s', v') = (s, v)).
          { intros s' v'. unfold alpha_add, fm_emplace. rewrite (fm_upd_in lt ST) by auto. split.
            - intros [[_ Hin]|[-> [(b' & Hin & ->)|[_ ->]]]]; auto.
            - intros [Hin|E].
              + left; split; auto. intros ->. eapply Hno; eauto.
              + injection E as -> ->. right; split; auto. }
          eapply hoare_conseq.
          * apply IH; auto.
            -- intros s' b' Hin. apply Hsub. now right.
            -- apply fm_upd_sorted; auto.
            -- intros s' v' Hin. apply Hadd in Hin. destruct Hin as [Hin|E].
               ++ intros Hm. apply (Hfresh _ _ Hin). now right.
               ++ injection E as -> ->. auto.
          * intros alpha' (A1 & A2 & A3 & A4). split; [auto|split; [|split]].
            -- intros s' v' Hin. destruct (A2 _ _ Hin) as [Hin'|(b' & Hb & Hb')].
               ++ apply Hadd in Hin'. destruct Hin' as [Hin'|E]; auto.
                  injection E as -> ->. right. exists b. simpl; auto.
               ++ right. exists b'. simpl; auto.
            -- intros s' v' Hin. apply A3. apply Hadd; auto.
            -- intros s' b' [E|Hin].
               ++ injection E as <- <-. exists v. split; auto. apply A3. apply Hadd; auto.
               ++ eauto. }
    eapply hoare_conseq; [apply (Loop m [])|].
    - apply (ksorted_nodup lt ST); auto.
    - auto.
    - constructor.
    - intros s v [].
    - intros alpha (A1 & A2 & _ & A4).
      assert (Hvals : forall s v, In (s, v) alpha -> exists b, In (s, b) m /\ GV v /\
                forall k, mem v k = existsb (fun x => mem x k) b).
      { intros s v Hin. destruct (A2 _ _ Hin) as [[]|]; auto. }
      split; [|split].
      + split; auto.
        * intros s v Hin. destruct (Hvals _ _ Hin) as (b & Hb & Hv & Hk).
          destruct b as [|w b]; [destruct (H2 _ _ Hb); congruence|].
          assert (Hw : In (s, w) pairs) by (apply H3; exists (w :: b); simpl; auto).
          destruct (G1 _ _ Hw) as [Gs [Gw Ew]]. split; [split; [|apply Gs]|split; [auto|]].
          { intros k Mk. rewrite Hk in Mk. apply existsb_exists in Mk. destruct Mk as (x & Ix & Mx).
            apply (G1 s x); auto. apply H3. eauto. }
          destruct (oo_nonempty _ _ _ _ _ _ _ OV w Gw Ew) as [k Hkw].
          destruct (vempty v) eqn:E; auto.
          pose proof (oo_empty _ _ _ _ _ _ _ OV v Hv E k) as Hf.
          rewrite Hk in Hf. simpl in Hf. rewrite Hkw in Hf. discriminate.
        * apply fop_map_swap; [|apply (ksorted_nodup lt ST); auto].
          intros s1 v1 s2 v2 Hi1 Hi2 Hne k M1 M2.
          destruct (Hvals _ _ Hi1) as (b1 & Hb1 & _ & K1).
          destruct (Hvals _ _ Hi2) as (b2 & Hb2 & _ & K2).
          rewrite K1 in M1. rewrite K2 in M2.
          apply existsb_exists in M1. apply existsb_exists in M2.
          destruct M1 as (w1 & I1 & M1). destruct M2 as (w2 & I2 & M2).
          apply (G2 s1 w1 s2 w2) with (k := k); auto.
          -- apply H3; eauto.
          -- apply H3; eauto.
        * intros s1 v1 s2 v2 k1 k2 Hi1 Hi2 M1 M2.
          destruct (Hvals _ _ Hi1) as (b1 & Hb1 & _ & K1).
          destruct (Hvals _ _ Hi2) as (b2 & Hb2 & _ & K2).
          rewrite K1 in M1. rewrite K2 in M2.
          apply existsb_exists in M1. apply existsb_exists in M2.
          destruct M1 as (w1 & I1 & M1). destruct M2 as (w2 & I2 & M2).
          apply (G3 s1 w1 s2 w2); auto; apply H3; eauto.
      + split.
        * intros ->. destruct pairs as [|[s v] r]; auto. exfalso.
          destruct (proj2 (H3 s v) (or_introl eq_refl)) as (b & Hb & _).
          destruct (A4 _ _ Hb) as (w & [] & _).
        * intros ->. destruct alpha as [|[s v] r]; auto. exfalso.
          destruct (Hvals s v (or_introl eq_refl)) as (b & Hb & _).
          destruct b as [|w b]; [destruct (H2 _ _ Hb); congruence|].
          apply (H3 s w). exists (w :: b); simpl; auto.
      + intros k p. rewrite acontains_spec. split.
        * intros (v & s & Hin & M & C). apply in_map_iff in Hin.
          destruct Hin as ([s0 v0] & E & Hin). injection E as -> ->.
          destruct (Hvals _ _ Hin) as (b & Hb & _ & Hk). rewrite Hk in M.
          apply existsb_exists in M. destruct M as (w & Iw & M).
          exists s, w. split; auto. apply H3; eauto.
        * intros (s & w & Hin & M & C). apply H3 in Hin. destruct Hin as (b & Hb & Iw).
          destruct (A4 _ _ Hb) as (v & Hv & Hk). exists v, s. split; [|split; auto].
          -- apply in_map_iff. exists (s, v); auto.
          -- rewrite Hk. apply existsb_exists; eauto.
  Qed.

  (** ** Arcs of an operand *)

  Definition b2n (b : bool) : nat := if b then 1 else 0.

  Definition acnt (arcs : list (W * sdd)) (k : K) : nat :=
    length (filter (fun a => mem (fst a) k) arcs).

  Record good_arcs (arcs : list (W * sdd)) : Prop := {
    gar_good : forall v s, In (v, s) arcs -> gv v /\ gs v s;
    gar_disj : adisjoint VI mem arcs;
    gar_free : forall v1 s1 v2 s2 k1 k2, In (v1, s1) arcs -> In (v2, s2) arcs -> mem v1 k1 = true -> mem v2 k2 = true ->
      ~ clash k1 k2
  }.

  Lemma acnt_le1 : forall arcs, adisjoint VI mem arcs -> forall k, acnt arcs k <= 1.
  Proof.
    induction arcs as [|[v s] r IH]; intros H k; unfold acnt in *; simpl; [lia|].
    inversion H as [|? ? Hv Hr]; subst. specialize (IH Hr k).
    destruct (mem v k) eqn:M; simpl; auto.
    assert (E : filter (fun a : W * sdd => mem (fst a) k) r = []); [|rewrite E; simpl; lia].
    rewrite Forall_forall in Hv. clear -Hv M.
    induction r as [|a r IH]; simpl; auto.
    destruct (mem (fst a) k) eqn:Ma.
    - exfalso. apply (Hv a (or_introl eq_refl) k); auto.
    - apply IH. intros x Hx; apply Hv; now right.
  Qed.

  Lemma acnt_in : forall arcs k, 1 <= acnt arcs k -> exists v s, In (v, s) arcs /\ mem v k = true.
  Proof.
    intros arcs k H. unfold acnt in H. destruct (filter (fun a => mem (fst a) k) arcs) as [|[v s] l] eqn:E; [simpl in H; lia|].
    assert (Hin : In (v, s) (filter (fun a => mem (fst a) k) arcs)) by (rewrite E; now left).
    apply filter_In in Hin. exists v, s. exact Hin.
  Qed.

  (** ** Union *)

  (** Sets represented by builders of successors and by the maps res, save, remainder. *)
  Definition bc (b : list sdd) (p : asg (elt VI)) : bool := existsb (fun s => contains s p) b.
  Definition mc (m : list (W * list sdd)) (k : K) (p : asg (elt VI)) : bool :=
    existsb (fun e => mem (fst e) k && bc (snd e) p) m.
  Definition cnt (m : list (W * list sdd)) (k : K) : nat :=
    length (filter (fun e => mem (fst e) k) m).

  Definition gb (v : W) (b : list sdd) : Prop := b <> [] /\ ssorted lt b /\ forall s, In s b -> gs v s.
  Definition ge (e : W * list sdd) : Prop := gv (fst e) /\ gb (fst e) (snd e).
  Definition gm (m : list (W * list sdd)) : Prop := forall e, In e m -> ge e.

  Lemma cnt_app : forall a b k, cnt (a ++ b) k = cnt a k + cnt b k.
  Proof. intros; unfold cnt. now rewrite filter_app, app_length. Qed.
  Lemma cnt_cons : forall e m k, cnt (e :: m) k = b2n (mem (fst e) k) + cnt m k.
  Proof. intros; unfold cnt; simpl. destruct (mem (fst e) k); reflexivity. Qed.
  Lemma cnt_nil : forall k, cnt [] k = 0.
  Proof. reflexivity. Qed.
  Lemma acnt_cons : forall e m k, acnt (e :: m) k = b2n (mem (fst e) k) + acnt m k.
  Proof. intros; unfold acnt; simpl. destruct (mem (fst e) k); reflexivity. Qed.
  Lemma mc_app : forall a b k p, mc (a ++ b) k p = mc a k p || mc b k p.
  Proof. intros; unfold mc. apply existsb_app. Qed.
  Lemma mc_cons : forall e m k p, mc (e :: m) k p = (mem (fst e) k && bc (snd e) p) || mc m k p.
  Proof. reflexivity. Qed.
  Lemma mc_nil : forall k p, mc [] k p = false.
  Proof. reflexivity. Qed.
  Lemma gm_app : forall a b, gm (a ++ b) <-> gm a /\ gm b.
  Proof.
    intros a b; unfold gm; split.
    - intros H; split; intros e He; apply H, in_app_iff; auto.
    - intros [H1 H2] e He. apply in_app_iff in He. destruct He; auto.
  Qed.
  Lemma gm_cons : forall e m, gm (e :: m) <-> ge e /\ gm m.
  Proof.
    intros e m; unfold gm; simpl; split.
    - intros H; split; auto.
    - intros [H1 H2] e' [<-|He]; auto.
  Qed.
  Lemma gm_nil : gm [].
  Proof. intros e []. Qed.

  Lemma cnt_perm : forall a b, Permutation a b -> forall k, cnt a k = cnt b k.
  Proof.
    intros a b H k. induction H; rewrite ?cnt_cons; try lia; auto.
  Qed.
  Lemma mc_perm : forall a b, Permutation a b -> forall k p, mc a k p = mc b k p.
  Proof.
    intros a b H k p. induction H; rewrite ?mc_cons; try congruence; auto.
    destruct (mem (fst y) k && bc (snd y) p), (mem (fst x) k && bc (snd x) p); reflexivity.
  Qed.
  Lemma gm_perm : forall a b, Permutation a b -> gm a -> gm b.
  Proof.
    intros a b H G e He. apply G. eapply Permutation_in; [apply Permutation_sym|]; eauto.
  Qed.

  Lemma cnt_in : forall m e k, In e m -> mem (fst e) k = true -> 1 <= cnt m k.
  Proof.
    intros m e k Hin Hk. unfold cnt.
    destruct (filter (fun e0 => mem (fst e0) k) m) eqn:E; simpl; [|lia].
    assert (In e []) as []. rewrite <- E. apply filter_In; auto.
  Qed.

  (** sum_builder::add *)
  Lemma sb_add_bc : forall s b p, s <> Zero -> bc (sdd_sb_add VI PF s b) p = contains s p || bc b p.
  Proof.
    intros s b p Hs. unfold sdd_sb_add, sb_add. rewrite is_zero_false by auto.
    unfold bc. apply bool_ext. rewrite orb_true_iff, !existsb_exists. split.
    - intros (x & Hin & Hx). apply (fs_insert_in _ (pf_lt PO)) in Hin.
      destruct Hin as [->|Hin]; eauto.
    - intros [Hx|(x & Hin & Hx)].
      + exists s; split; auto. apply (fs_insert_in _ (pf_lt PO)); auto.
      + exists x; split; auto. apply (fs_insert_in _ (pf_lt PO)); auto.
  Qed.

  Lemma gb_sub : forall v w b, (forall k, mem w k = true -> mem v k = true) -> gb v b -> gb w b.
  Proof. intros v w b H (H1 & H2 & H3). split; [auto|split; [auto|]]. intros s Hs. apply (gs_sub v w); auto. Qed.

  Lemma sb_add_gb : forall v s b, gs v s -> (b = [] \/ gb v b) -> gb v (sdd_sb_add VI PF s b).
  Proof.
    intros v s b Hs Hb. unfold sdd_sb_add, sb_add. rewrite is_zero_false by apply Hs.
    assert (Hb' : ssorted lt b /\ forall s, In s b -> gs v s).
    { destruct Hb as [->|[_ Hb]]; auto. split; [constructor|intros ? []]. }
    split; [|split].
    - intros E. assert (In s []) as []. rewrite <- E. apply (fs_insert_in _ (pf_lt PO)); auto.
    - apply fs_insert_sorted; [apply PO|apply Hb'].
    - intros s' Hin. apply (fs_insert_in _ (pf_lt PO)) in Hin. destruct Hin as [->|Hin]; auto.
      now apply Hb'.
  Qed.

  (** *** The maps: insertions that do not collide *)

  Definition keys_apart (a b : list (W * list sdd)) : Prop :=
    forall e e', In e a -> In e' b -> fst e <> fst e'.

  (** Inserting [save] in a map whose keys are apart amounts to appending [sv]. *)
  Definition save_rep (save sv : list (W * list sdd)) : Prop :=
    forall m, keys_apart m sv -> um_insert VI ops save m = m ++ sv.

  Lemma um_emplace_fresh : forall e m, (forall e', In e' m -> fst e <> fst e') ->
    um_emplace VI ops e m = m ++ [e].
  Proof.
    intros e m H. unfold um_emplace.
    destruct (existsb (fun e' => vo_eqb ops (fst e) (fst e')) m) eqn:E; auto.
    apply existsb_exists in E. destruct E as (e' & Hin & E).
    apply (oo_eqb _ _ _ _ _ _ _ OV) in E. exfalso. eapply H; eauto.
  Qed.

  Lemma um_emplace_dup : forall e m, (exists e', In e' m /\ fst e = fst e') ->
    um_emplace VI ops e m = m.
  Proof.
    intros e m (e' & Hin & E). unfold um_emplace.
    destruct (existsb (fun e' => vo_eqb ops (fst e) (fst e')) m) eqn:Eb; auto.
    assert (existsb (fun e' => vo_eqb ops (fst e) (fst e')) m = true); [|congruence].
    apply existsb_exists. exists e'; split; auto. now apply (oo_eqb _ _ _ _ _ _ _ OV).
  Qed.

  Lemma save_rep_nil : save_rep [] [].
  Proof. intros m _. simpl. now rewrite app_nil_r. Qed.

  Lemma save_rep_snoc : forall save sv e, save_rep save sv ->
    (forall e', In e' sv -> fst e <> fst e') -> save_rep (save ++ [e]) (sv ++ [e]).
  Proof.
    intros save sv e H Hf m Hk. unfold um_insert. rewrite fold_left_app. simpl.
    change (um_emplace VI ops e (um_insert VI ops save m) = m ++ sv ++ [e]).
    rewrite H.
    - rewrite um_emplace_fresh; [now rewrite app_assoc|].
      intros e' Hin. apply in_app_iff in Hin. destruct Hin as [Hin|Hin]; auto.
      intros E. apply (Hk e' e); auto. apply in_app_iff; simpl; auto.
    - intros e1 e2 H1 H2. apply Hk; auto. apply in_app_iff; auto.
  Qed.

  Lemma save_rep_dup : forall save sv e, save_rep save sv ->
    (exists e', In e' sv /\ fst e = fst e') -> save_rep (save ++ [e]) sv.
  Proof.
    intros save sv e H (e' & Hin & E) m Hk. unfold um_insert. rewrite fold_left_app. simpl.
    change (um_emplace VI ops e (um_insert VI ops save m) = m ++ sv).
    rewrite H by auto. apply um_emplace_dup. exists e'; split; auto. apply in_app_iff; auto.
  Qed.

  (** Entries that share no value have different keys. *)
  Lemma apart_cnt : forall a b, gm a -> (forall k, cnt a k + cnt b k <= 1) -> keys_apart a b.
  Proof.
    intros a b Ha Hc e e' H1 H2 E.
    destruct (Ha _ H1) as [[G1 G2] _].
    destruct (oo_nonempty _ _ _ _ _ _ _ OV _ G1 G2) as [k Hk].
    pose proof (cnt_in a e k H1 Hk). rewrite E in Hk. pose proof (cnt_in b e' k H2 Hk).
    specialize (Hc k). lia.
  Qed.

  Lemma save_rep_self : forall l, gm l -> (forall k, cnt l k <= 1) -> save_rep l l.
  Proof.
    intros l. induction l as [|e r IH] using rev_ind; intros Hg Hc.
    - apply save_rep_nil.
    - apply gm_app in Hg. destruct Hg as [Hg He]. apply save_rep_snoc.
      + apply IH; auto. intros k. specialize (Hc k). rewrite cnt_app in Hc. lia.
      + intros e' Hin E. refine (apart_cnt r [e] Hg _ e' e Hin _ _).
        * intros k. specialize (Hc k). now rewrite cnt_app in Hc.
        * now left.
        * now symmetry.
  Qed.

  Lemma gv_mem_inter : forall cv rv i, (forall k, mem i k = mem cv k && mem rv k) ->
    forall k, mem i k = true -> mem cv k = true /\ mem rv k = true.
  Proof. intros cv rv i H k Hk. rewrite H in Hk. now apply andb_prop in Hk. Qed.

  (** *** Loop (C) *)

  Definition C_pre (cv : W) (cs : sdd) (todo kept save rem sv : list (W * list sdd)) : Prop :=
    GV cv /\ gs cv cs /\ gm kept /\ gm todo /\ gm rem /\ gm sv /\ save_rep save sv /\
    (forall k, cnt kept k + cnt todo k + cnt rem k + cnt sv k <= 1) /\
    (forall k, cnt kept k + cnt rem k + cnt sv k + b2n (mem cv k) <= 1) /\
    (forall k1 k2, 1 <= cnt kept k1 + cnt todo k1 + cnt rem k1 + cnt sv k1 ->
       1 <= cnt kept k2 + cnt todo k2 + cnt rem k2 + cnt sv k2 -> ~ clash k1 k2) /\
    (forall k1 k2, mem cv k1 = true -> 1 <= cnt kept k2 + cnt rem k2 + cnt sv k2 -> ~ clash k1 k2).

  Definition C_post (cv : W) (cs : sdd) (todo kept save rem sv : list (W * list sdd))
    (r : list (W * list sdd) * list (W * list sdd) * list (W * list sdd)) : Prop :=
    let '(kept', save', rem') := r in
    exists sv', gm kept' /\ gm rem' /\ gm sv' /\ save_rep save' sv' /\
      (forall k, cnt kept' k + cnt rem' k + cnt sv' k <= 1) /\
      (forall k, cnt sv' k <= cnt sv k + b2n (mem cv k)) /\
      (forall k1 k2, 1 <= cnt kept' k1 + cnt rem' k1 + cnt sv' k1 -> 1 <= cnt kept' k2 + cnt rem' k2 + cnt sv' k2 ->
         ~ clash k1 k2) /\
      (forall k p, mc kept' k p || mc rem' k p || mc sv' k p =
         (mc kept k p || mc todo k p || mc rem k p || mc sv k p) || (mem cv k && contains cs p)).

  Lemma ge_intro : forall v b, gv v -> gb v b -> ge (v, b).
  Proof. intros; split; auto. Qed.

  Lemma sum_I_ok : forall cv cs kept save rem sv,
    C_pre cv cs [] kept save rem sv ->
    C_post cv cs [] kept save rem sv (kept, sum_I VI PF ops cv cs save, rem).
  Proof.
    intros cv cs kept save rem sv (Hcv & Hcs & Gk & _ & Gr & Gs & HR & C1 & C2 & F1 & F2).
    unfold C_post, sum_I. destruct (vempty cv) eqn:E.
    - exists sv. pose proof (oo_empty _ _ _ _ _ _ _ OV cv Hcv E) as He.
      split; [auto|split; [auto|split; [auto|split; [auto|split; [|split; [|split]]]]]].
      + intros k. specialize (C2 k). lia.
      + intros k. lia.
      + intros k1 k2 H1 H2. apply F1; rewrite cnt_nil; lia.
      + intros k p. rewrite He, mc_nil. simpl. rewrite !orb_false_r. reflexivity.
    - exists (sv ++ [(cv, sdd_sb_add VI PF cs [])]).
      assert (Gnew : gm [(cv, sdd_sb_add VI PF cs [])]).
      { apply gm_cons. split; [|apply gm_nil]. apply ge_intro; [split; auto|].
        apply sb_add_gb; auto. }
      split; [auto|split; [auto|split; [|split; [|split; [|split; [|split]]]]]].
      + apply gm_app; auto.
      + apply save_rep_snoc; auto. intros e' Hin Ee. refine (apart_cnt sv _ Gs _ e' _ Hin _ _).
        * intros k. specialize (C2 k). instantiate (1 := [(cv, sdd_sb_add VI PF cs [])]).
          rewrite cnt_cons, cnt_nil. simpl. lia.
        * now left.
        * now symmetry.
      + intros k. specialize (C2 k). rewrite cnt_app, cnt_cons, cnt_nil. simpl. lia.
      + intros k. rewrite cnt_app, cnt_cons, cnt_nil. simpl. lia.
      + intros k1 k2 H1 H2. rewrite cnt_app, cnt_cons, cnt_nil in H1, H2. cbn [fst] in H1, H2.
        destruct (mem cv k1) eqn:M1, (mem cv k2) eqn:M2; simpl in H1, H2.
        * now apply (oo_free _ _ _ _ _ _ _ OV cv Hcv).
        * apply F2; auto; lia.
        * intros Hc. apply (oo_sym _ _ _ _ _ _ _ OV) in Hc. revert Hc. apply F2; auto; lia.
        * apply F1; rewrite cnt_nil; lia.
      + intros k p. rewrite mc_app, mc_cons, mc_nil. cbn [fst snd].
        rewrite sb_add_bc by apply Hcs. unfold bc; simpl.
        rewrite !orb_false_r. rewrite <- !orb_assoc. reflexivity.
  Qed.

  Lemma sum_C_ok : forall todo cv cs kept save rem sv,
    C_pre cv cs todo kept save rem sv ->
    hoare (sum_C VI PF ops cv cs todo kept save rem) (C_post cv cs todo kept save rem sv).
  Proof.
    induction todo as [|[rv rs] t IH]; intros cv cs kept save rem sv Hpre; cbn [sum_C].
    - apply hoare_ret. now apply sum_I_ok.
    - assert (Hpre0 := Hpre).
      destruct Hpre as (Hcv & Hcs & Gk & Gt & Gr & Gs & HR & C1 & C2 & F1 & F2).
      apply gm_cons in Gt. destruct Gt as [[[Grv Erv] Grs] Gt]. cbn [fst snd] in *.
      destruct (vempty cv) eqn:Ecv.
      { (* nothing left in cv *)
        apply hoare_ret. pose proof (oo_empty _ _ _ _ _ _ _ OV cv Hcv Ecv) as He.
        unfold sum_I. rewrite Ecv. exists sv.
        split; [|split; [auto|split; [auto|split; [auto|split; [|split; [|split]]]]]].
        - apply gm_app. split; auto. apply gm_cons; split; auto. split; [split|]; auto.
        - intros k. specialize (C1 k). rewrite cnt_app. lia.
        - intros k; lia.
        - intros k1 k2 H1 H2. rewrite cnt_app in H1, H2. apply F1; lia.
        - intros k p. rewrite He, mc_app. simpl. rewrite !orb_false_r.
          rewrite <- !orb_assoc. reflexivity. }
      destruct (vo_eqb ops cv rv) eqn:Eq.
      { (* (D) *)
        apply (oo_eqb _ _ _ _ _ _ _ OV) in Eq. subst rv. apply hoare_ret.
        assert (Gnew : gm [(cv, sdd_sb_add VI PF cs rs)]).
        { apply gm_cons. split; [|apply gm_nil]. apply ge_intro; [split; auto|].
          apply sb_add_gb; auto. }
        exists (sv ++ [(cv, sdd_sb_add VI PF cs rs)]).
        split; [|split; [auto|split; [|split; [|split; [|split; [|split]]]]]].
        - apply gm_app; auto.
        - apply gm_app; auto.
        - apply save_rep_snoc; auto. intros e' Hin Ee. refine (apart_cnt sv _ Gs _ e' _ Hin _ _).
          + intros k. specialize (C2 k). instantiate (1 := [(cv, sdd_sb_add VI PF cs rs)]).
            rewrite cnt_cons, cnt_nil. simpl. lia.
          + now left.
          + now symmetry.
        - intros k. specialize (C1 k). rewrite !cnt_app, cnt_cons, ?cnt_nil in *. simpl in *. lia.
        - intros k. rewrite !cnt_app, cnt_cons, ?cnt_nil. simpl. lia.
        - intros k1 k2 H1 H2. rewrite !cnt_app, cnt_cons, ?cnt_nil in H1, H2. apply F1; rewrite cnt_cons; simpl in *; lia.
        - intros k p. rewrite !mc_app, !mc_cons, !mc_nil. cbn [fst snd].
          rewrite sb_add_bc by apply Hcs.
          destruct (mc kept k p), (mc t k p), (mc rem k p), (mc sv k p), (mem cv k), (bc rs p),
            (contains cs p); reflexivity. }
      eapply hoare_bind; [apply (oo_inter _ _ _ _ _ _ _ OV); auto|].
      intros inter (Gi & Hi & Fi). simpl.
      destruct (vempty inter) eqn:Ei; cbn [negb].
      { (* (H): nothing in common *)
        pose proof (oo_empty _ _ _ _ _ _ _ OV inter Gi Ei) as He.
        eapply hoare_conseq.
        - apply (IH cv cs (kept ++ [(rv, rs)]) save rem sv).
          split; [auto|split; [auto|split; [|split; [auto|split; [auto|split; [auto|split; [auto|
            split; [|split; [|split]]]]]]]]].
          + apply gm_app; split; auto. apply gm_cons; split; [|apply gm_nil]. split; [split|]; auto.
          + intros k. specialize (C1 k). rewrite !cnt_app, !cnt_cons, ?cnt_nil in *.
            cbn [fst] in *. lia.
          + intros k. specialize (C2 k). specialize (C1 k). specialize (He k). rewrite Hi in He.
            rewrite !cnt_app, !cnt_cons, ?cnt_nil in *. cbn [fst] in *.
            destruct (mem cv k), (mem rv k); simpl in *; try discriminate; lia.
          + intros k1 k2 H1 H2. rewrite !cnt_app, !cnt_cons, ?cnt_nil in H1, H2.
            apply F1; rewrite cnt_cons; cbn [fst] in *; lia.
          + intros k1 k2 M1 H2. rewrite !cnt_app, !cnt_cons, ?cnt_nil in H2. cbn [fst] in H2.
            destruct (mem rv k2) eqn:M2; [now apply Fi|]. apply F2; auto. simpl in H2; lia.
        - intros [[kept' save'] rem'] (sv' & A1 & A2 & A3 & A4 & A5 & A6 & AF & A7).
          exists sv'. split; [auto|split; [auto|split; [auto|split; [auto|split; [auto|split; [auto|split; [auto|]]]]]]].
          intros k p. rewrite A7, mc_app, !mc_cons, mc_nil. cbn [fst snd].
          destruct (mc kept k p), (mc t k p), (mc rem k p), (mc sv k p), (mem cv k), (bc rs p),
            (contains cs p), (mem rv k); reflexivity. }
      (* (E), (F) *)
      eapply hoare_bind; [apply (oo_diff _ _ _ _ _ _ _ OV); auto|].
      intros diff (Gd & Hd & _).
      assert (Si : forall k, mem inter k = true -> mem cv k = true /\ mem rv k = true).
      { intros k Hk. rewrite Hi in Hk. now apply andb_prop in Hk. }
      assert (Sd : forall k, mem diff k = true -> mem rv k = true).
      { intros k Hk. rewrite Hd in Hk. now apply andb_prop in Hk. }
      set (rem1 := if negb (vempty diff) then rem ++ [(diff, rs)] else rem).
      set (save1 := save ++ [(inter, sdd_sb_add VI PF cs rs)]).
      assert (Gr1 : gm rem1).
      { unfold rem1. destruct (vempty diff) eqn:Ed; simpl; auto.
        apply gm_app; split; auto. apply gm_cons; split; [|apply gm_nil]. split; [split|]; auto.
        simpl. apply (gb_sub rv); auto. }
      assert (Cr1 : forall k, cnt rem1 k = cnt rem k + b2n (mem diff k)).
      { intros k. unfold rem1. destruct (vempty diff) eqn:Ed; simpl.
        - rewrite (oo_empty _ _ _ _ _ _ _ OV diff Gd Ed). simpl. lia.
        - rewrite cnt_app, cnt_cons, cnt_nil. simpl. lia. }
      assert (Mr1 : forall k p, mc rem1 k p = mc rem k p || (mem diff k && bc rs p)).
      { intros k p. unfold rem1. destruct (vempty diff) eqn:Ed; simpl.
        - rewrite (oo_empty _ _ _ _ _ _ _ OV diff Gd Ed). simpl. now rewrite orb_false_r.
        - rewrite mc_app, mc_cons, mc_nil. simpl. now rewrite orb_false_r. }
      assert (Gnew : gm [(inter, sdd_sb_add VI PF cs rs)]).
      { apply gm_cons. split; [|apply gm_nil]. apply ge_intro; [split; auto|].
        apply sb_add_gb.
        - apply (gs_sub cv); auto. intros k Hk. now apply Si.
        - right. apply (gb_sub rv); auto. intros k Hk. now apply Si. }
      assert (Gs1 : gm (sv ++ [(inter, sdd_sb_add VI PF cs rs)])).
      { apply gm_app; auto. }
      assert (HR1 : save_rep save1 (sv ++ [(inter, sdd_sb_add VI PF cs rs)])).
      { apply save_rep_snoc; auto. intros e' Hin Ee. refine (apart_cnt sv _ Gs _ e' _ Hin _ _).
        - intros k. specialize (C2 k). instantiate (1 := [(inter, sdd_sb_add VI PF cs rs)]).
          rewrite cnt_cons, cnt_nil. simpl. rewrite Hi.
          destruct (mem cv k), (mem rv k); simpl in *; lia.
        - now left.
        - now symmetry. }
      destruct (vo_eqb ops cv inter) eqn:Eqi.
      { (* (G) *)
        apply (oo_eqb _ _ _ _ _ _ _ OV) in Eqi. subst inter. apply hoare_ret.
        unfold sum_I. rewrite Ecv.
        exists (sv ++ [(cv, sdd_sb_add VI PF cs rs)]).
        split; [|split; [auto|split; [auto|split; [|split; [|split; [|split]]]]]].
        - apply gm_app; auto.
        - apply save_rep_dup; auto. exists (cv, sdd_sb_add VI PF cs rs). split; auto.
          apply in_app_iff; simpl; auto.
        - intros k. specialize (C1 k). specialize (Hi k). specialize (Hd k).
          rewrite !cnt_app, Cr1, !cnt_cons, ?cnt_nil in *. cbn [fst] in *. rewrite Hd.
          destruct (mem cv k), (mem rv k); simpl in *; try discriminate; lia.
        - intros k. rewrite !cnt_app, cnt_cons, ?cnt_nil. simpl. lia.
        - intros k1 k2 H1 H2. rewrite !cnt_app, Cr1, !cnt_cons, ?cnt_nil in H1, H2. cbn [fst] in *.
          apply F1; rewrite cnt_cons; cbn [fst].
          + specialize (Si k1). specialize (Sd k1).
            destruct (mem cv k1), (mem diff k1), (mem rv k1); simpl in *; try lia; intuition discriminate.
          + specialize (Si k2). specialize (Sd k2).
            destruct (mem cv k2), (mem diff k2), (mem rv k2); simpl in *; try lia; intuition discriminate.
        - intros k p. specialize (Hi k). specialize (Hd k).
          rewrite Mr1, !mc_app, !mc_cons, !mc_nil. cbn [fst snd].
          rewrite sb_add_bc, Hd by apply Hcs.
          destruct (mem cv k), (mem rv k); simpl in *; try discriminate;
          destruct (mc kept k p), (mc t k p), (mc rem k p), (mc sv k p), (bc rs p),
            (contains cs p); reflexivity. }
      eapply hoare_bind; [apply (oo_diff _ _ _ _ _ _ _ OV); auto|].
      intros cv' (Gcv' & Hcv' & _). simpl.
      assert (Sc : forall k, mem cv' k = true -> mem cv k = true).
      { intros k Hk. rewrite Hcv' in Hk. now apply andb_prop in Hk. }
      eapply hoare_conseq.
      + apply (IH cv' cs kept save1 rem1 (sv ++ [(inter, sdd_sb_add VI PF cs rs)])).
        split; [auto|split; [now apply (gs_sub cv)|split; [auto|split; [auto|split; [auto|split; [auto|split; [auto|
          split; [|split; [|split]]]]]]]]].
        * intros k. specialize (C1 k). specialize (C2 k).
          rewrite !cnt_app, Cr1, !cnt_cons, ?cnt_nil in *. cbn [fst] in *. rewrite Hd, Hi.
          destruct (mem cv k), (mem rv k); simpl in *; lia.
        * intros k. specialize (C1 k). specialize (C2 k).
          rewrite !cnt_app, Cr1, !cnt_cons, ?cnt_nil in *. cbn [fst] in *. rewrite Hcv', Hd, Hi.
          destruct (mem cv k), (mem rv k); simpl in *; lia.
        * intros k1 k2 H1 H2. rewrite !cnt_app, Cr1, !cnt_cons, ?cnt_nil in H1, H2. cbn [fst] in *.
          apply F1; rewrite cnt_cons; cbn [fst].
          -- specialize (Si k1). specialize (Sd k1).
             destruct (mem inter k1), (mem diff k1), (mem rv k1); simpl in *; try lia; intuition discriminate.
          -- specialize (Si k2). specialize (Sd k2).
             destruct (mem inter k2), (mem diff k2), (mem rv k2); simpl in *; try lia; intuition discriminate.
        * intros k1 k2 M1 H2. apply Sc in M1. rewrite !cnt_app, Cr1, !cnt_cons, ?cnt_nil in H2. cbn [fst] in H2.
          destruct (mem rv k2) eqn:M2; [now apply Fi|]. apply F2; auto.
          specialize (Si k2). specialize (Sd k2). rewrite M2 in Si, Sd.
          destruct (mem inter k2), (mem diff k2); simpl in *; try lia; intuition discriminate.
      + intros [[kept' save'] rem'] (sv' & A1 & A2 & A3 & A4 & A5 & A6 & AF & A7).
        exists sv'. split; [auto|split; [auto|split; [auto|split; [auto|split; [auto|split; [|split; [auto|]]]]]]].
        * intros k. specialize (A6 k). rewrite cnt_app, cnt_cons, cnt_nil in A6. cbn [fst] in A6.
          rewrite Hcv', Hi in A6.
          destruct (mem cv k), (mem rv k); simpl in *; lia.
        * intros k p. rewrite A7, Mr1, !mc_app, !mc_cons, !mc_nil. cbn [fst snd].
          rewrite sb_add_bc, Hcv', Hd, Hi by apply Hcs.
          destruct (mem cv k), (mem rv k); simpl in *; try discriminate;
          destruct (mc kept k p), (mc t k p), (mc rem k p), (mc sv k p), (bc rs p),
            (contains cs p); reflexivity.
  Qed.

  (** *** Loop (B) *)

  Lemma sum_B_ok : forall arcs res save sv,
    (forall v s, In (v, s) arcs -> gv v /\ gs v s) ->
    gm res -> gm sv -> save_rep save sv ->
    (forall k, cnt res k + cnt sv k <= 1) ->
    (forall k, cnt sv k + acnt arcs k <= 1) ->
    (forall k1 k2, 1 <= cnt res k1 + cnt sv k1 -> 1 <= cnt res k2 + cnt sv k2 -> ~ clash k1 k2) ->
    (forall v s k1 k2, In (v, s) arcs -> mem v k1 = true -> 1 <= cnt sv k2 + acnt arcs k2 -> ~ clash k1 k2) ->
    hoare (sum_B VI PF ops arcs res save) (fun r =>
      exists sv', gm (fst r) /\ gm sv' /\ save_rep (snd r) sv' /\
      (forall k, cnt (fst r) k + cnt sv' k <= 1) /\
      (forall k1 k2, 1 <= cnt (fst r) k1 + cnt sv' k1 -> 1 <= cnt (fst r) k2 + cnt sv' k2 -> ~ clash k1 k2) /\
      (forall k p, mc (fst r) k p || mc sv' k p =
         mc res k p || mc sv k p || acontains VI mem arcs k p)).
  Proof.
    induction arcs as [|[v s] arcs IH]; intros res save sv Ha Gr Gs HR C1 C2 F1 F2; cbn [sum_B].
    - apply hoare_ret. exists sv. cbn [fst snd].
      split; [exact Gr|split; [exact Gs|split; [exact HR|split; [exact C1|split; [exact F1|]]]]].
      intros k p. simpl. now rewrite orb_false_r.
    - pose proof (oo_iter _ _ _ _ _ _ _ OV res) as HP.
      eapply hoare_bind.
      + apply (sum_C_ok (vo_iter ops res) v s [] save [] sv).
        destruct (Ha v s (or_introl eq_refl)) as [Hv Hs].
        split; [apply Hv|split; [auto|split; [apply gm_nil|split; [|split; [apply gm_nil|split; [auto|split; [auto|
          split; [|split; [|split]]]]]]]]].
        * eapply gm_perm; [|exact Gr]. now apply Permutation_sym.
        * intros k. rewrite (cnt_perm _ _ HP), !cnt_nil. specialize (C1 k). lia.
        * intros k. rewrite !cnt_nil. specialize (C2 k). rewrite acnt_cons in C2. simpl in *. lia.
        * intros k1 k2. rewrite !(cnt_perm _ _ HP), !cnt_nil. intros H1 H2. apply F1; lia.
        * intros k1 k2 M1. rewrite !cnt_nil. intros H2. apply (F2 v s); [now left|auto|lia].
      + intros [[kept save'] rem] (sv' & A1 & A2 & A3 & A4 & A5 & A6 & AF & A7). cbn [fst snd].
        assert (E : um_insert VI ops rem kept = kept ++ rem).
        { apply save_rep_self; auto.
          - intros k. specialize (A5 k). lia.
          - apply apart_cnt; auto. intros k. specialize (A5 k). lia. }
        rewrite E. eapply hoare_conseq.
        * apply (IH (kept ++ rem) save' sv'); auto.
          -- intros v' s' Hin. apply Ha. now right.
          -- apply gm_app; auto.
          -- intros k. rewrite cnt_app. specialize (A5 k). lia.
          -- intros k. specialize (A6 k). specialize (C2 k). rewrite acnt_cons in C2. simpl in *. lia.
          -- intros k1 k2. rewrite !cnt_app. auto.
          -- intros v' s' k1 k2 Hin M1 H2. apply (F2 v' s'); [now right|auto|].
             rewrite acnt_cons. cbn [fst]. specialize (A6 k2). lia.
        * intros [res' save''] (sv'' & B1 & B2 & B3 & B4 & BF & B5). cbn [fst snd] in *.
          exists sv''. split; [auto|split; [auto|split; [auto|split; [auto|split; [auto|]]]]].
          intros k p. rewrite B5, mc_app. rewrite A7, !mc_nil, (mc_perm _ _ HP).
          unfold acontains. simpl.
          match goal with |- context [existsb ?f arcs] => destruct (existsb f arcs) end;
          destruct (mc res k p), (mc sv k p), (mem v k && contains s p); reflexivity.
  Qed.

  (** *** Loop (A) *)

  Variable cast : sdd -> option (N * list (W * sdd)).

  (** Set represented by the arcs of an operand. *)
  Definition asel (var : N) (x : sdd) (k : K) (p : asg (elt VI)) : bool :=
    match cast x with
    | Some (y, arcs) => N.eqb y var && acontains VI mem arcs k p
    | None => false
    end.

  Lemma um_insert_ok : forall save sv res, gm res -> gm sv -> save_rep save sv ->
    (forall k, cnt res k + cnt sv k <= 1) -> um_insert VI ops save res = res ++ sv.
  Proof. intros save sv res G1 G2 HR HC. apply HR. now apply apart_cnt. Qed.

  Lemma sum_A_ok : forall begin var operands res,
    (forall x, In x operands -> hoare (check_compatibility VI begin x)
       (fun _ => exists arcs, cast x = Some (var, arcs) /\ good_arcs arcs)) ->
    gm res -> (forall k, cnt res k <= 1) ->
    (forall k1 k2, 1 <= cnt res k1 -> 1 <= cnt res k2 -> ~ clash k1 k2) ->
    hoare (sum_A VI PF ops cast begin operands res) (fun r =>
      gm r /\ (forall k, cnt r k <= 1) /\
      (forall k1 k2, 1 <= cnt r k1 -> 1 <= cnt r k2 -> ~ clash k1 k2) /\
      (forall k p, mc r k p = mc res k p || existsb (fun x => asel var x k p) operands) /\
      (forall x, In x operands -> exists arcs, cast x = Some (var, arcs))).
  Proof.
    intros begin var. induction operands as [|x r IH]; intros res Hx Gr C1 F1; cbn [sum_A].
    - apply hoare_ret. split; [exact Gr|split; [exact C1|split; [exact F1|split; [|intros x []]]]].
      intros k p. simpl. now rewrite orb_false_r.
    - eapply hoare_bind; [apply Hx; now left|].
      intros _ (arcs & Ec & [Ga1 Ga2 Ga3]). rewrite Ec.
      eapply hoare_bind.
      + apply (sum_B_ok arcs res [] []); auto.
        * apply gm_nil.
        * apply save_rep_nil.
        * intros k. rewrite cnt_nil. specialize (C1 k). lia.
        * intros k. rewrite cnt_nil. apply (acnt_le1 arcs Ga2).
        * intros k1 k2. rewrite !cnt_nil. intros H1 H2. apply F1; lia.
        * intros v s k1 k2 Hin M1. rewrite cnt_nil. intros H2.
          destruct (acnt_in arcs k2) as (w & t & Hw & M2); [lia|]. apply (Ga3 v s w t); auto.
      + intros [res' save] (sv & A1 & A2 & A3 & A4 & AF & A5). cbn [fst snd] in *.
        rewrite (um_insert_ok save sv) by auto.
        eapply hoare_conseq.
        * apply IH.
          -- intros y Hy. apply Hx. now right.
          -- apply gm_app; auto.
          -- intros k. rewrite cnt_app. auto.
          -- intros k1 k2. rewrite !cnt_app. auto.
        * intros res'' (B1 & B2 & BF & B3 & B4). split; [auto|split; [auto|split; [auto|split]]].
          -- intros k p. rewrite B3, mc_app, A5, mc_nil. simpl existsb. unfold asel at 2.
             rewrite Ec, N.eqb_refl. rewrite orb_false_r. now rewrite <- orb_assoc.
          -- intros y [<-|Hy]; eauto.
  Qed.

  (** Union of the successors of a valuation. *)
  Lemma sum_succ : forall v b, gv v -> gb v b ->
    hoare (vo_sum (hier_ops VI PF) b)
      (fun s => gs v s /\ forall p, contains s p = existsb (fun x => contains x p) b).
  Proof.
    intros v b [Gv Ev] (Hb1 & Hb2 & Hb3). destruct (oo_nonempty _ _ _ _ _ _ _ OV v Gv Ev) as [k0 M0].
    eapply hoare_conseq.
    - apply (hoare_all h Ex _ K _ (fun k => mem v k = true)
               (fun k r => GS k r /\ forall p, contains r p = existsb (fun x => contains x p) b)); [eauto|].
      intros k Mk. apply (oo_sum _ _ _ _ _ _ _ (OS k) b); auto.
      intros x Hx. destruct (Hb3 _ Hx) as [H1 H2]. split; [auto|now apply is_zero_false].
    - cbv beta. intros s H. destruct (H k0 M0) as [_ Hs]. split; [|exact Hs]. split.
      + intros k Mk. apply (H k Mk).
      + intros ->. destruct b as [|x b]; [congruence|].
        destruct (Hb3 x (or_introl eq_refl)) as [H1 H2].
        destruct (oo_nonempty _ _ _ _ _ _ _ (OS k0) x (H1 k0 M0) (is_zero_false _ H2)) as [p Hp].
        specialize (Hs p). simpl in Hs. rewrite Hp in Hs. discriminate.
  Qed.

  Lemma gs_nonempty : forall v s, gv v -> gs v s -> exists p, contains s p = true.
  Proof.
    intros v s [Gv Ev] [H1 H2]. destruct (oo_nonempty _ _ _ _ _ _ _ OV v Gv Ev) as [k M].
    exact (oo_nonempty _ _ _ _ _ _ _ (OS k) s (H1 k M) (is_zero_false _ H2)).
  Qed.

  (** Final loop. *)
  Lemma sum_su_ok : forall res m pairs,
    gm res -> (forall k, cnt res k <= 1) ->
    su_rel m pairs -> gpairs pairs ->
    (forall s v k, In (s, v) pairs -> mem v k = true -> cnt res k = 0) ->
    (forall k1 k2, 1 <= cnt res k1 -> 1 <= cnt res k2 -> ~ clash k1 k2) ->
    (forall s v k1 k2, In (s, v) pairs -> mem v k1 = true -> 1 <= cnt res k2 -> ~ clash k1 k2) ->
    hoare (sum_su VI PF ops res m) (fun m' => exists pairs',
      su_rel m' pairs' /\ gpairs pairs' /\
      (res <> [] -> pairs' <> []) /\
      (forall k p, (exists s v, In (s, v) pairs' /\ mem v k = true /\ contains s p = true) <->
         (exists s v, In (s, v) pairs /\ mem v k = true /\ contains s p = true) \/ mc res k p = true)).
  Proof.
    induction res as [|[v b] r IH]; intros m pairs Gr C HR (G1 & G2 & G3) Hsep F1 F2; cbn [sum_su].
    - apply hoare_ret. exists pairs. split; [auto|split; [split; auto|split]].
      + congruence.
      + intros k p. rewrite mc_nil. split; [auto|intros [H|H]; [auto|discriminate]].
    - apply gm_cons in Gr. destruct Gr as [[Hv (Hb1 & Hb2 & Hb3)] Gr]. cbn [fst snd] in *.
      eapply hoare_bind.
      + apply (sum_succ v b); auto. split; auto.
      + intros s [Hs Hs2].
        eapply hoare_bind; [apply su_add_ok; eauto|].
        intros m' HR'.
        assert (Hv0 : forall k, mem v k = true -> cnt r k = 0).
        { intros k Hk. specialize (C k). rewrite cnt_cons in C. cbn [fst] in C. rewrite Hk in C.
          simpl in C. lia. }
        eapply hoare_conseq.
        * apply (IH m' (pairs ++ [(s, v)])); auto.
          -- intros k. specialize (C k). rewrite cnt_cons in C. lia.
          -- split.
             ++ intros s' v' Hin. apply in_app_iff in Hin. destruct Hin as [Hin|[E|[]]]; auto.
                injection E as <- <-; auto.
             ++ split. assert (Hcross : forall s' v', In (s', v') pairs -> disjoint mem v' v).
                { intros s' v' Hin k M1 M2. specialize (Hsep _ _ _ Hin M1).
                  rewrite cnt_cons in Hsep. cbn [fst] in Hsep. rewrite M2 in Hsep. discriminate. }
                intros s1 v1 s2 v2 I1 I2 Hne. apply in_app_iff in I1. apply in_app_iff in I2.
                destruct I1 as [I1|[E1|[]]], I2 as [I2|[E2|[]]].
                ** eapply G2; eauto.
                ** injection E2 as <- <-. eauto.
                ** injection E1 as <- <-. apply disjoint_sym. eauto.
                ** congruence.
                ** intros s1 v1 s2 v2 k1 k2 I1 I2 M1 M2. apply in_app_iff in I1. apply in_app_iff in I2.
                   destruct I1 as [I1|[E1|[]]], I2 as [I2|[E2|[]]].
                   --- apply (G3 s1 v1 s2 v2); auto.
                   --- injection E2 as <- <-. apply (F2 s1 v1); auto. rewrite cnt_cons. cbn [fst]. rewrite M2. simpl; lia.
                   --- injection E1 as <- <-. intros Hc. apply (oo_sym _ _ _ _ _ _ _ OV) in Hc. revert Hc.
                       apply (F2 s2 v2); auto. rewrite cnt_cons. cbn [fst]. rewrite M1. simpl; lia.
                   --- injection E1 as <- <-. injection E2 as <- <-. apply F1; rewrite cnt_cons; cbn [fst];
                         [rewrite M1|rewrite M2]; simpl; lia.
          -- intros s' v' k Hin M. apply in_app_iff in Hin. destruct Hin as [Hin|[E|[]]].
             ++ specialize (Hsep _ _ _ Hin M). rewrite cnt_cons in Hsep. lia.
             ++ injection E as <- <-; auto.
          -- intros k1 k2 H1 H2. apply F1; rewrite cnt_cons; lia.
          -- intros s' v' k1 k2 Hin M H2. apply in_app_iff in Hin. destruct Hin as [Hin|[E|[]]].
             ++ apply (F2 s' v'); auto. rewrite cnt_cons; lia.
             ++ injection E as <- <-. apply F1; rewrite cnt_cons; cbn [fst]; [rewrite M; simpl|]; lia.
        * intros m'' (pairs' & A1 & A2 & A3 & A4). exists pairs'. split; [auto|split; [auto|split]].
          -- intros _ E. subst pairs'.
             assert (Hin : exists k p, mem v k = true /\ contains s p = true).
             { destruct (oo_nonempty _ _ _ _ _ _ _ OV v) as [k Hk]; try apply Hv.
               destruct (gs_nonempty v s Hv Hs) as [p Hp]. eauto. }
             destruct Hin as (k & p & Hk & Hp).
             destruct (proj2 (A4 k p)) as (s' & v' & [] & _).
             left. exists s, v. split; auto. apply in_app_iff; simpl; auto.
          -- intros k p. rewrite A4, mc_cons. cbn [fst snd]. unfold bc. rewrite <- Hs2.
             rewrite orb_true_iff, andb_true_iff. split.
             ++ intros [(s' & v' & Hin & M)|Hm]; [|auto].
                apply in_app_iff in Hin. destruct Hin as [Hin|[E|[]]].
                ** left; eauto.
                ** injection E as <- <-. auto.
             ++ intros [(s' & v' & Hin & M)|[M|Hm]]; [| |auto].
                ** left. exists s', v'. split; auto. apply in_app_iff; auto.
                ** left. exists s, v. split; auto. apply in_app_iff; simpl; auto.
  Qed.

  Lemma arcs_entries : forall arcs,
    (forall v s, In (v, s) arcs -> gv v /\ gs v s) ->
    let m := map (fun a => (fst a, sdd_sb_add VI PF (snd a) [])) arcs in
    gm m /\ (forall k, cnt m k = acnt arcs k) /\ (forall k p, mc m k p = acontains VI mem arcs k p).
  Proof.
    induction arcs as [|[v s] r IH]; intros H; cbv zeta; cbn [map fst snd].
    - split; [apply gm_nil|split; reflexivity].
    - destruct IH as (I1 & I2 & I3); [intros; apply H; now right|].
      destruct (H v s (or_introl eq_refl)) as [Hv Hs].
      split; [|split].
      + apply gm_cons; split; auto. split; auto. simpl. apply sb_add_gb; auto.
      + intros k. rewrite cnt_cons, acnt_cons, I2. reflexivity.
      + intros k p. rewrite mc_cons, I3. cbn [fst snd]. rewrite sb_add_bc by apply Hs.
        unfold bc, acontains; simpl. now rewrite orb_false_r.
  Qed.

  (** Result of a work() function: a node made of a good alpha representing [D]. *)
  Definition node_post (mk : N -> list (W * sdd) -> sdd) (var : N)
    (D : K -> asg (elt VI) -> bool) (r : sdd) : Prop :=
    exists alpha, good_alpha alpha /\ r = create_node VI mk var alpha /\
      forall k p, acontains VI mem (map swap alpha) k p = D k p.

  Lemma sum_work_ok : forall mk var head arcs others,
    cast head = Some (var, arcs) -> good_arcs arcs ->
    (forall x, In x others -> hoare (check_compatibility VI head x)
       (fun _ => exists arcs, cast x = Some (var, arcs) /\ good_arcs arcs)) ->
    hoare (sum_work VI PF ops mk cast (head :: others))
      (fun r => node_post mk var (fun k p => existsb (fun x => asel var x k p) (head :: others)) r /\
         forall x, In x (head :: others) -> exists arcs, cast x = Some (var, arcs)).
  Proof.
    intros mk var head arcs others Ec [Ga1 Ga2 Ga3] Hx. unfold sum_work. rewrite Ec.
    destruct (arcs_entries arcs Ga1) as (I1 & I2 & I3).
    set (m0 := map (fun a => (fst a, sdd_sb_add VI PF (snd a) [])) arcs) in *.
    assert (E : um_insert VI ops m0 [] = m0).
    { apply (save_rep_self m0 I1).
      - intros k. rewrite I2. now apply acnt_le1.
      - intros e e' []. }
    rewrite E. eapply hoare_bind.
    - apply (sum_A_ok head var); auto.
      + intros k. rewrite I2. now apply acnt_le1.
      + intros k1 k2. rewrite !I2. intros H1 H2.
        destruct (acnt_in _ _ H1) as (v1 & s1 & J1 & M1). destruct (acnt_in _ _ H2) as (v2 & s2 & J2 & M2).
        apply (Ga3 v1 s1 v2 s2); auto.
    - intros res (A1 & A2 & AF & A3 & A4).
      pose proof (oo_iter _ _ _ _ _ _ _ OV res) as HP.
      eapply hoare_bind.
      + apply (sum_su_ok (vo_iter ops res) [] []).
        * eapply gm_perm; [apply Permutation_sym; eauto|auto].
        * intros k. rewrite (cnt_perm _ _ HP). auto.
        * apply su_rel_nil.
        * split; [intros ? ? []|split; [intros ? ? ? ? []|intros ? ? ? ? ? ? []]].
        * intros ? ? ? [].
        * intros k1 k2. rewrite !(cnt_perm _ _ HP). auto.
        * intros ? ? ? ? [].
      + intros m (pairs & B1 & B2 & _ & B4).
        eapply hoare_bind; [apply su_run_ok; eauto|].
        intros alpha (D1 & D2 & D3). apply hoare_ret.
        split; [|intros x [<-|Hin]; eauto].
        exists alpha. split; [auto|split; [auto|]].
        intros k p. apply bool_ext. rewrite D3, B4, (mc_perm _ _ HP), A3, I3.
        simpl existsb. unfold asel at 2. rewrite Ec, N.eqb_refl, andb_true_l. split.
        * intros [(s & v & [] & _)|H]; auto.
        * auto.
  Qed.

  (** ** Intersection *)

  (** [P k s]: the pairs added for key [k] have a successor determined by [k]. *)
  Definition functional_pairs (pairs : list (sdd * W)) : Prop :=
    forall s1 v1 s2 v2, In (s1, v1) pairs -> In (s2, v2) pairs -> s1 <> s2 -> disjoint mem v1 v2.

  (** Where a pair of the intersection comes from. *)
  Definition inter_src (lhs rhs : list (W * sdd)) (s : sdd) (v : W) : Prop :=
    exists lv ls rv rs, In (lv, ls) lhs /\ In (rv, rs) rhs /\
      (forall k, mem v k = mem lv k && mem rv k) /\
      (forall p, contains s p = contains ls p && contains rs p).

  Definition inter_pairs (lhs rhs : list (W * sdd)) (pairs : list (sdd * W)) : Prop :=
    forall s v, In (s, v) pairs -> gs v s /\ gv v /\ inter_src lhs rhs s v.

  (** Two arcs agree: their valuations have no clashing keys, nor have their successors if the valuations intersect. *)
  Definition arc_agree (lv : W) (ls : sdd) (rv : W) (rs : sdd) : Prop :=
    (forall k1 k2, mem lv k1 = true -> mem rv k2 = true -> ~ clash k1 k2) /\
    (forall k, mem lv k = true -> mem rv k = true -> agree ls rs).
  Definition arcs_agree (lhs rhs : list (W * sdd)) : Prop :=
    forall lv ls rv rs, In (lv, ls) lhs -> In (rv, rs) rhs -> arc_agree lv ls rv rs.
  Definition arcs_free (arcs : list (W * sdd)) : Prop :=
    forall v1 s1 v2 s2 k1 k2, In (v1, s1) arcs -> In (v2, s2) arcs -> mem v1 k1 = true -> mem v2 k2 = true -> ~ clash k1 k2.

  (** Intersection and difference of the successors of a common key. *)
  Lemma inter_succ : forall v lv rv ls rs, gv v -> (forall k, mem v k = mem lv k && mem rv k) -> gs lv ls -> gs rv rs ->
    hoare (vo_inter (hier_ops VI PF) ls rs)
      (fun s => (forall k, mem v k = true -> GS k s) /\ (forall p, contains s p = contains ls p && contains rs p) /\
                agree ls rs).
  Proof.
    intros v lv rv ls rs [Gv Ev] Hv [Hl _] [Hr _]. destruct (oo_nonempty _ _ _ _ _ _ _ OV v Gv Ev) as [k0 M0].
    eapply hoare_conseq.
    - apply (hoare_all h Ex _ K _ (fun k => mem v k = true)
               (fun k s => GS k s /\ (forall p, contains s p = contains ls p && contains rs p) /\ agree ls rs)); [eauto|].
      intros k Mk. rewrite Hv in Mk. apply andb_prop in Mk.
      apply (oo_inter _ _ _ _ _ _ _ (OS k) ls rs); [apply Hl|apply Hr]; apply Mk.
    - cbv beta. intros s H. split; [intros k Mk; apply (H k Mk)|]. exact (proj2 (H k0 M0)).
  Qed.
  Lemma diff_succ : forall v lv rv ls rs, gv v -> (forall k, mem v k = mem lv k && mem rv k) -> gs lv ls -> gs rv rs ->
    hoare (vo_diff (hier_ops VI PF) ls rs)
      (fun s => (forall k, mem v k = true -> GS k s) /\ (forall p, contains s p = contains ls p && negb (contains rs p)) /\
                agree ls rs).
  Proof.
    intros v lv rv ls rs [Gv Ev] Hv [Hl _] [Hr _]. destruct (oo_nonempty _ _ _ _ _ _ _ OV v Gv Ev) as [k0 M0].
    eapply hoare_conseq.
    - apply (hoare_all h Ex _ K _ (fun k => mem v k = true)
               (fun k s => GS k s /\ (forall p, contains s p = contains ls p && negb (contains rs p)) /\ agree ls rs)); [eauto|].
      intros k Mk. rewrite Hv in Mk. apply andb_prop in Mk.
      apply (oo_diff _ _ _ _ _ _ _ (OS k) ls rs); [apply Hl|apply Hr]; apply Mk.
    - cbv beta. intros s H. split; [intros k Mk; apply (H k Mk)|]. exact (proj2 (H k0 M0)).
  Qed.

  Lemma inter_pairs_gpairs : forall lhs rhs pairs,
    adisjoint VI mem lhs -> adisjoint VI mem rhs -> arcs_free lhs -> inter_pairs lhs rhs pairs -> gpairs pairs.
  Proof.
    intros lhs rhs pairs DL DR FL H. split; [|split].
    - intros s v Hin. destruct (H _ _ Hin) as (H1 & H2 & _); auto.
    - intros s1 v1 s2 v2 I1 I2 Hne k M1 M2. apply Hne.
      destruct (H _ _ I1) as (S1 & _ & lv1 & ls1 & rv1 & rs1 & L1 & R1 & V1 & P1).
      destruct (H _ _ I2) as (S2 & _ & lv2 & ls2 & rv2 & rs2 & L2 & R2 & V2 & P2).
      pose proof (proj1 S1 k M1) as T1. pose proof (proj1 S2 k M2) as T2.
      rewrite V1 in M1. rewrite V2 in M2. apply andb_prop in M1. apply andb_prop in M2.
      assert (E1 : (lv1, ls1) = (lv2, ls2)) by (apply (adisjoint_unique VI mem lhs DL lv1 ls1 lv2 ls2 k); tauto).
      assert (E2 : (rv1, rs1) = (rv2, rs2)) by (apply (adisjoint_unique VI mem rhs DR rv1 rs1 rv2 rs2 k); tauto).
      injection E1 as -> ->. injection E2 as -> ->.
      apply (oo_ext _ _ _ _ _ _ _ (OS k)); auto.
      intros p. now rewrite P1, P2.
    - intros s1 v1 s2 v2 k1 k2 I1 I2 M1 M2.
      destruct (H _ _ I1) as (_ & _ & lv1 & ls1 & rv1 & rs1 & L1 & R1 & V1 & P1).
      destruct (H _ _ I2) as (_ & _ & lv2 & ls2 & rv2 & rs2 & L2 & R2 & V2 & P2).
      rewrite V1 in M1. rewrite V2 in M2. apply andb_prop in M1. apply andb_prop in M2.
      apply (FL lv1 ls1 lv2 ls2); tauto.
  Qed.

  Lemma inter_rhs_ok : forall lhs rhs0 lv ls rhs m pairs,
    gv lv -> gs lv ls -> In (lv, ls) lhs ->
    (forall v s, In (v, s) rhs -> In (v, s) rhs0 /\ gv v /\ gs v s) ->
    su_rel m pairs -> inter_pairs lhs rhs0 pairs ->
    hoare (inter_rhs VI PF ops lv ls rhs m) (fun m' => exists pairs',
      su_rel m' pairs' /\ inter_pairs lhs rhs0 pairs' /\
      (forall s v, In (s, v) pairs -> In (s, v) pairs') /\
      (forall rv rs k p, In (rv, rs) rhs -> mem lv k = true -> mem rv k = true ->
         contains ls p = true -> contains rs p = true ->
         exists s v, In (s, v) pairs' /\ mem v k = true /\ contains s p = true) /\
      (forall rv rs, In (rv, rs) rhs -> arc_agree lv ls rv rs)).
  Proof.
    intros lhs rhs0 lv ls. induction rhs as [|[rv rs] r IH];
      intros m pairs Hlv Hls Hl Hr HR HI; cbn [inter_rhs].
    - apply hoare_ret. exists pairs. split; [auto|split; [auto|split; [auto|split]]].
      + intros rv rs k p [].
      + intros rv rs [].
    - destruct (Hr rv rs (or_introl eq_refl)) as (Hr0 & Hrv & Hrs).
      assert (Hr' : forall v s, In (v, s) r -> In (v, s) rhs0 /\ gv v /\ gs v s).
      { intros; apply Hr; now right. }
      eapply hoare_bind; [apply (oo_inter _ _ _ _ _ _ _ OV); [apply Hlv|apply Hrv]|].
      intros v (Gv & Hv & Fv). destruct (vempty v) eqn:Ev; cbn [negb].
      { pose proof (oo_empty _ _ _ _ _ _ _ OV v Gv Ev) as He.
        eapply hoare_conseq; [apply (IH m pairs); auto|].
        intros m' (pairs' & A1 & A2 & A3 & A4 & A5). exists pairs'.
        split; [auto|split; [auto|split; [auto|split]]].
        - intros rv' rs' k p [E|Hin]; [|eauto]. injection E as <- <-.
          intros M1 M2. specialize (He k). rewrite Hv, M1, M2 in He. discriminate.
        - intros rv' rs' [E|Hin]; [|auto]. injection E as <- <-. split; [exact Fv|].
          intros k M1 M2. specialize (He k). rewrite Hv, M1, M2 in He. discriminate. }
      assert (Gv' : gv v) by (split; auto).
      eapply hoare_bind; [apply (inter_succ v lv rv); auto|].
      intros s (Gs0 & Hs & As). destruct (is_zero VI s) eqn:Es; cbn [negb].
      { apply is_zero_true in Es. subst s.
        eapply hoare_conseq; [apply (IH m pairs); auto|].
        intros m' (pairs' & A1 & A2 & A3 & A4 & A5). exists pairs'.
        split; [auto|split; [auto|split; [auto|split]]].
        - intros rv' rs' k p [E|Hin]; [|eauto]. injection E as <- <-.
          intros _ _ M1 M2. specialize (Hs p). rewrite M1, M2 in Hs. discriminate.
        - intros rv' rs' [E|Hin]; [|auto]. injection E as <- <-. split; auto. }
      assert (Gs' : gs v s).
      { split; auto. intros ->. discriminate. }
      eapply hoare_bind; [apply su_add_ok; eauto|].
      intros m1 HR1. eapply hoare_conseq.
      + apply (IH m1 (pairs ++ [(s, v)])); auto.
        intros s' v' Hin. apply in_app_iff in Hin. destruct Hin as [Hin|[E|[]]]; [now apply HI|].
        injection E as <- <-. split; [auto|split; [auto|]].
        exists lv, ls, rv, rs. auto.
      + intros m' (pairs' & A1 & A2 & A3 & A4 & A5). exists pairs'.
        split; [auto|split; [auto|split; [|split]]].
        * intros; apply A3. apply in_app_iff; auto.
        * intros rv' rs' k p [E|Hin]; [|eauto]. injection E as <- <-.
          intros M1 M2 M3 M4. exists s, v. split; [apply A3, in_app_iff; simpl; auto|].
          rewrite Hv, Hs, M1, M2, M3, M4. auto.
        * intros rv' rs' [E|Hin]; [|auto]. injection E as <- <-. split; auto.
  Qed.

  Lemma inter_lhs_ok : forall lhs0 rhs lhs m pairs,
    (forall v s, In (v, s) lhs -> In (v, s) lhs0 /\ gv v /\ gs v s) ->
    (forall v s, In (v, s) rhs -> gv v /\ gs v s) ->
    su_rel m pairs -> inter_pairs lhs0 rhs pairs ->
    hoare (inter_lhs VI PF ops lhs rhs m) (fun m' => exists pairs',
      su_rel m' pairs' /\ inter_pairs lhs0 rhs pairs' /\
      (forall s v, In (s, v) pairs -> In (s, v) pairs') /\
      (forall lv ls rv rs k p, In (lv, ls) lhs -> In (rv, rs) rhs ->
         mem lv k = true -> mem rv k = true ->
         contains ls p = true -> contains rs p = true ->
         exists s v, In (s, v) pairs' /\ mem v k = true /\ contains s p = true) /\
      arcs_agree lhs rhs).
  Proof.
    intros lhs0 rhs. induction lhs as [|[lv ls] r IH]; intros m pairs Hl Hr HR HI; cbn [inter_lhs].
    - apply hoare_ret. exists pairs. split; [auto|split; [auto|split; [auto|split]]].
      + intros lv ls rv rs k p [].
      + intros lv ls rv rs [].
    - destruct (Hl lv ls (or_introl eq_refl)) as (Hl0 & Hlv & Hls).
      eapply hoare_bind.
      + apply (inter_rhs_ok lhs0 rhs lv ls rhs m pairs); auto.
      + intros m1 (pairs1 & A1 & A2 & A3 & A4 & A5).
        eapply hoare_conseq.
        * apply (IH m1 pairs1); auto. intros; apply Hl; now right.
        * intros m' (pairs' & B1 & B2 & B3 & B4 & B5). exists pairs'.
          split; [auto|split; [auto|split; [auto|split]]].
          2: { intros lv' ls' rv' rs' [E|Hin]; [|now apply B5]. injection E as <- <-. auto. }
          intros lv' ls' rv' rs' k p [E|Hin]; [|eauto]. injection E as <- <-.
          intros Hin M1 M2 M3 M4.
          destruct (A4 rv' rs' k p Hin M1 M2 M3 M4) as (s & v & H1 & H2).
          exists s, v. auto.
  Qed.

  (** Intersection of two alphas. *)
  Lemma inter_alpha_ok : forall lhs rhs, good_arcs lhs -> good_arcs rhs ->
    hoare (inter_lhs VI PF ops lhs rhs []) (fun m => exists pairs,
      su_rel m pairs /\ gpairs pairs /\
      (forall k p, (exists s v, In (s, v) pairs /\ mem v k = true /\ contains s p = true) <->
         acontains VI mem lhs k p && acontains VI mem rhs k p = true) /\
      arcs_agree lhs rhs).
  Proof.
    intros lhs rhs [GL DL FL] [GR DR FR]. eapply hoare_conseq.
    - apply (inter_lhs_ok lhs rhs lhs [] []); auto.
      + apply su_rel_nil.
      + intros s v [].
    - intros m (pairs & A1 & A2 & _ & A4 & A5). exists pairs. split; [auto|split; [|split; [|exact A5]]].
      + apply (inter_pairs_gpairs lhs rhs); auto.
      + intros k p. rewrite andb_true_iff, !acontains_spec. split.
        * intros (s & v & Hin & M & C).
          destruct (A2 _ _ Hin) as (_ & _ & lv & ls & rv & rs & L & R & Hv & Hs).
          rewrite Hv in M. rewrite Hs in C. apply andb_prop in M. apply andb_prop in C.
          split; [exists lv, ls|exists rv, rs]; intuition.
        * intros [(lv & ls & L & M1 & C1) (rv & rs & R & M2 & C2)]. eauto.
  Qed.

  Lemma good_alpha_arcs : forall alpha, good_alpha alpha -> good_arcs (map swap alpha).
  Proof.
    intros alpha [H1 H2 H3 H4]. split; auto.
    2: { intros v1 s1 v2 s2 k1 k2 I1 I2. apply in_map_iff in I1, I2. destruct I1 as ([s1' v1'] & E1 & I1).
         destruct I2 as ([s2' v2'] & E2 & I2). injection E1 as -> ->. injection E2 as -> ->. eauto. }
    intros v s Hin. apply in_map_iff in Hin. destruct Hin as ([s0 v0] & E & Hin).
    injection E as -> ->. destruct (H2 _ _ Hin); auto.
  Qed.

  Lemma inter_operands_ok : forall mk var,
    (forall arcs, cast (mk var arcs) = Some (var, arcs)) ->
    forall operands res larcs,
    cast res = Some (var, larcs) -> good_arcs larcs -> larcs <> [] ->
    node_post mk var (fun k p => acontains VI mem larcs k p) res ->
    (forall x r arcs, In x operands -> cast r = Some (var, arcs) -> r <> Zero ->
       node_post mk var (fun k p => acontains VI mem arcs k p) r ->
       hoare (check_compatibility VI r x)
         (fun _ => exists arcs, cast x = Some (var, arcs) /\ good_arcs arcs)) ->
    (forall arcs, mk var arcs <> Zero) -> res <> Zero ->
    hoare (inter_operands VI PF ops mk cast var res operands)
      (fun r => node_post mk var (fun k p => acontains VI mem larcs k p &&
                           forallb (fun x => asel var x k p) operands) r /\
         match operands with
         | [] => True
         | x :: _ => exists rarcs, cast x = Some (var, rarcs) /\ arcs_agree larcs rarcs
         end).
  Proof.
    intros mk var Hmk. induction operands as [|x r IH]; intros res larcs Ec Gl Hne Hnp Hx Hmz Hrz;
      cbn [inter_operands].
    - apply hoare_ret. split; [|exact I]. destruct Hnp as (alpha & A1 & A2 & A3). exists alpha.
      split; [auto|split; [auto|]]. intros k p. simpl. now rewrite A3, andb_true_r.
    - eapply hoare_bind; [eapply Hx; eauto; now left|].
      intros _ (rarcs & Er & Gr). rewrite Ec, Er.
      eapply hoare_bind; [apply (inter_alpha_ok larcs rarcs); auto|].
      intros m (pairs & B1 & B2 & B3 & B4).
      assert (HD : forall k p, asel var x k p = acontains VI mem rarcs k p).
      { intros k p. unfold asel. now rewrite Er, N.eqb_refl. }
      destruct m as [|e m].
      + apply hoare_ret. split; [|eauto]. exists []. split; [|split; [reflexivity|]].
        * split; [constructor|intros ? ? []|constructor|intros ? ? ? ? ? ? []].
        * apply mm_rel_empty in B1. subst pairs. intros k p. simpl forallb. rewrite HD.
          specialize (B3 k p). simpl.
          destruct (acontains VI mem larcs k p); [|reflexivity].
          destruct (acontains VI mem rarcs k p); [|reflexivity].
          exfalso. destruct (proj2 B3 eq_refl) as (s & v & [] & _).
      + eapply hoare_bind; [apply su_run_ok; eauto|].
        intros alpha (D1 & D2 & D3).
        assert (Hna : alpha <> []).
        { intros E. apply D2 in E. subst pairs. apply mm_rel_nonempty in B1. discriminate. }
        assert (Hcn : create_node VI mk var alpha = mk var (map swap alpha)).
        { destruct alpha; [congruence|reflexivity]. }
        eapply hoare_conseq.
        * apply (IH _ (map swap alpha)).
          -- rewrite Hcn. apply Hmk.
          -- now apply good_alpha_arcs.
          -- destruct alpha; [congruence|discriminate].
          -- exists alpha. auto.
          -- intros y r' arcs Hy. apply Hx. now right.
          -- exact Hmz.
          -- rewrite Hcn. apply Hmz.
        * intros res' [(alpha' & E1 & E2 & E3) _]. split; [|eauto]. exists alpha'. split; [auto|split; [auto|]].
          intros k p. rewrite E3. simpl forallb. rewrite HD, andb_assoc. f_equal.
          apply bool_ext. now rewrite D3, B3.
  Qed.

  (** ** Difference *)

  Definition diff_src (lhs rhs : list (W * sdd)) (s : sdd) (v : W) : Prop :=
    exists lv ls, In (lv, ls) lhs /\
      ((s = ls /\ forall k, mem v k = mem lv k && negb (existsb (fun a => mem (fst a) k) rhs)) \/
       exists rv rs, In (rv, rs) rhs /\ (forall k, mem v k = mem lv k && mem rv k) /\
         (forall p, contains s p = contains ls p && negb (contains rs p))).

  Definition diff_pairs (lhs rhs : list (W * sdd)) (pairs : list (sdd * W)) : Prop :=
    forall s v, In (s, v) pairs -> gs v s /\ gv v /\ diff_src lhs rhs s v.

  Lemma diff_pairs_gpairs : forall lhs rhs pairs,
    adisjoint VI mem lhs -> adisjoint VI mem rhs -> arcs_free lhs -> diff_pairs lhs rhs pairs -> gpairs pairs.
  Proof.
    intros lhs rhs pairs DL DR FL H. split; [|split].
    - intros s v Hin. destruct (H _ _ Hin) as (H1 & H2 & _); auto.
    - intros s1 v1 s2 v2 I1 I2 Hne k M1 M2. apply Hne.
      destruct (H _ _ I1) as (S1 & _ & lv1 & ls1 & L1 & C1).
      destruct (H _ _ I2) as (S2 & _ & lv2 & ls2 & L2 & C2).
      pose proof (proj1 S1 k M1) as T1. pose proof (proj1 S2 k M2) as T2.
      assert (K1 : mem lv1 k = true).
      { destruct C1 as [[_ C1]|(? & ? & _ & C1 & _)]; rewrite C1 in M1; now apply andb_prop in M1. }
      assert (K2 : mem lv2 k = true).
      { destruct C2 as [[_ C2]|(? & ? & _ & C2 & _)]; rewrite C2 in M2; now apply andb_prop in M2. }
      assert (E1 : (lv1, ls1) = (lv2, ls2)) by (apply (adisjoint_unique VI mem lhs DL lv1 ls1 lv2 ls2 k); auto).
      injection E1 as -> ->.
      assert (Hout : forall rv rs, In (rv, rs) rhs -> mem rv k = true ->
                existsb (fun a => mem (fst a) k) rhs = true).
      { intros rv rs Hin Hk. apply existsb_exists. exists (rv, rs); auto. }
      destruct C1 as [[-> C1]|(rv1 & rs1 & R1 & V1 & P1)],
               C2 as [[-> C2]|(rv2 & rs2 & R2 & V2 & P2)].
      + reflexivity.
      + rewrite C1 in M1. rewrite V2 in M2. apply andb_prop in M1. apply andb_prop in M2.
        destruct M1 as [_ M1]. destruct M2 as [_ M2]. rewrite (Hout _ _ R2 M2) in M1. discriminate.
      + rewrite C2 in M2. rewrite V1 in M1. apply andb_prop in M1. apply andb_prop in M2.
        destruct M1 as [_ M1]. destruct M2 as [_ M2]. rewrite (Hout _ _ R1 M1) in M2. discriminate.
      + rewrite V1 in M1. rewrite V2 in M2. apply andb_prop in M1. apply andb_prop in M2.
        assert (E2 : (rv1, rs1) = (rv2, rs2)) by (apply (adisjoint_unique VI mem rhs DR rv1 rs1 rv2 rs2 k); tauto).
        injection E2 as -> ->.
        apply (oo_ext _ _ _ _ _ _ _ (OS k)); auto.
        intros p. now rewrite P1, P2.
    - intros s1 v1 s2 v2 k1 k2 I1 I2 M1 M2.
      destruct (H _ _ I1) as (_ & _ & lv1 & ls1 & L1 & C1).
      destruct (H _ _ I2) as (_ & _ & lv2 & ls2 & L2 & C2).
      apply (FL lv1 ls1 lv2 ls2); auto.
      + destruct C1 as [[_ C1]|(? & ? & _ & C1 & _)]; rewrite C1 in M1; now apply andb_prop in M1.
      + destruct C2 as [[_ C2]|(? & ? & _ & C2 & _)]; rewrite C2 in M2; now apply andb_prop in M2.
  Qed.

  Lemma diff_pass1_ok : forall lhs0 rhs runion lhs m pairs,
    GV runion -> (forall k, mem runion k = existsb (fun a => mem (fst a) k) rhs) ->
    (forall v s, In (v, s) lhs -> In (v, s) lhs0 /\ gv v /\ gs v s) ->
    su_rel m pairs -> diff_pairs lhs0 rhs pairs ->
    hoare (diff_pass1 VI PF ops runion lhs m) (fun m' => exists pairs',
      su_rel m' pairs' /\ diff_pairs lhs0 rhs pairs' /\
      (forall s v, In (s, v) pairs -> In (s, v) pairs') /\
      (forall lv ls k, In (lv, ls) lhs -> mem lv k = true ->
         existsb (fun a => mem (fst a) k) rhs = false ->
         exists v, In (ls, v) pairs' /\ mem v k = true)).
  Proof.
    intros lhs0 rhs runion. induction lhs as [|[lv ls] r IH];
      intros m pairs GU HU Hl HR HI; cbn [diff_pass1].
    - apply hoare_ret. exists pairs. split; [auto|split; [auto|split; [auto|]]]. intros ? ? ? [].
    - destruct (Hl lv ls (or_introl eq_refl)) as (Hl0 & Hlv & Hls).
      assert (Hl' : forall v s, In (v, s) r -> In (v, s) lhs0 /\ gv v /\ gs v s).
      { intros; apply Hl; now right. }
      eapply hoare_bind; [apply (oo_diff _ _ _ _ _ _ _ OV); [apply Hlv|auto]|].
      intros v (Gv & Hv & _). destruct (vempty v) eqn:Ev; cbn [negb].
      { pose proof (oo_empty _ _ _ _ _ _ _ OV v Gv Ev) as He.
        eapply hoare_conseq; [apply (IH m pairs); auto|].
        intros m' (pairs' & A1 & A2 & A3 & A4). exists pairs'.
        split; [auto|split; [auto|split; [auto|]]].
        intros lv' ls' k [E|Hin]; [|eauto]. injection E as <- <-.
        intros M1 M2. specialize (He k). rewrite Hv, HU, M1, M2 in He. discriminate. }
      assert (Gv' : gv v) by (split; auto).
      assert (Gs' : gs v ls).
      { apply (gs_sub lv); auto. intros k Mk. rewrite Hv in Mk. now apply andb_prop in Mk. }
      eapply hoare_bind; [apply su_add_ok; eauto|].
      intros m1 HR1. eapply hoare_conseq.
      + apply (IH m1 (pairs ++ [(ls, v)])); auto.
        intros s' v' Hin. apply in_app_iff in Hin. destruct Hin as [Hin|[E|[]]]; [now apply HI|].
        injection E as <- <-. split; [auto|split; [auto|]].
        exists lv, ls. split; auto. left; split; auto. intros k. now rewrite Hv, HU.
      + intros m' (pairs' & A1 & A2 & A3 & A4). exists pairs'.
        split; [auto|split; [auto|split]].
        * intros; apply A3. apply in_app_iff; auto.
        * intros lv' ls' k [E|Hin]; [|eauto]. injection E as <- <-.
          intros M1 M2. exists v. split; [apply A3, in_app_iff; simpl; auto|].
          now rewrite Hv, HU, M1, M2.
  Qed.

  Lemma diff_rhs_ok : forall lhs rhs0 lv ls rhs m pairs,
    gv lv -> gs lv ls -> In (lv, ls) lhs ->
    (forall v s, In (v, s) rhs -> In (v, s) rhs0 /\ gv v /\ gs v s) ->
    su_rel m pairs -> diff_pairs lhs rhs0 pairs ->
    hoare (diff_rhs VI PF ops lv ls rhs m) (fun m' => exists pairs',
      su_rel m' pairs' /\ diff_pairs lhs rhs0 pairs' /\
      (forall s v, In (s, v) pairs -> In (s, v) pairs') /\
      (forall rv rs k p, In (rv, rs) rhs -> mem lv k = true -> mem rv k = true ->
         contains ls p = true -> contains rs p = false ->
         exists s v, In (s, v) pairs' /\ mem v k = true /\ contains s p = true) /\
      (forall rv rs, In (rv, rs) rhs -> arc_agree lv ls rv rs)).
  Proof.
    intros lhs rhs0 lv ls. induction rhs as [|[rv rs] r IH];
      intros m pairs Hlv Hls Hl Hr HR HI; cbn [diff_rhs].
    - apply hoare_ret. exists pairs. split; [auto|split; [auto|split; [auto|split]]].
      + intros rv rs k p [].
      + intros rv rs [].
    - destruct (Hr rv rs (or_introl eq_refl)) as (Hr0 & Hrv & Hrs).
      assert (Hr' : forall v s, In (v, s) r -> In (v, s) rhs0 /\ gv v /\ gs v s).
      { intros; apply Hr; now right. }
      eapply hoare_bind; [apply (oo_inter _ _ _ _ _ _ _ OV); [apply Hlv|apply Hrv]|].
      intros v (Gv & Hv & Fv). destruct (vempty v) eqn:Ev; cbn [negb].
      { pose proof (oo_empty _ _ _ _ _ _ _ OV v Gv Ev) as He.
        eapply hoare_conseq; [apply (IH m pairs); auto|].
        intros m' (pairs' & A1 & A2 & A3 & A4 & A5). exists pairs'.
        split; [auto|split; [auto|split; [auto|split]]].
        - intros rv' rs' k p [E|Hin]; [|eauto]. injection E as <- <-.
          intros M1 M2. specialize (He k). rewrite Hv, M1, M2 in He. discriminate.
        - intros rv' rs' [E|Hin]; [|auto]. injection E as <- <-. split; [exact Fv|].
          intros k M1 M2. specialize (He k). rewrite Hv, M1, M2 in He. discriminate. }
      assert (Gv' : gv v) by (split; auto).
      eapply hoare_bind; [apply (diff_succ v lv rv ls rs); auto|].
      intros s (Gs0 & Hs & As). destruct (is_zero VI s) eqn:Es; cbn [negb].
      { apply is_zero_true in Es. subst s.
        eapply hoare_conseq; [apply (IH m pairs); auto|].
        intros m' (pairs' & A1 & A2 & A3 & A4 & A5). exists pairs'.
        split; [auto|split; [auto|split; [auto|split]]].
        - intros rv' rs' k p [E|Hin]; [|eauto]. injection E as <- <-.
          intros _ _ M1 M2. specialize (Hs p). rewrite M1, M2 in Hs. discriminate.
        - intros rv' rs' [E|Hin]; [|auto]. injection E as <- <-. split; auto. }
      assert (Gs' : gs v s).
      { split; auto. intros ->. discriminate. }
      eapply hoare_bind; [apply su_add_ok; eauto|].
      intros m1 HR1. eapply hoare_conseq.
      + apply (IH m1 (pairs ++ [(s, v)])); auto.
        intros s' v' Hin. apply in_app_iff in Hin. destruct Hin as [Hin|[E|[]]]; [now apply HI|].
        injection E as <- <-. split; [auto|split; [auto|]].
        exists lv, ls. split; auto. right. exists rv, rs. auto.
      + intros m' (pairs' & A1 & A2 & A3 & A4 & A5). exists pairs'.
        split; [auto|split; [auto|split; [|split]]].
        * intros; apply A3. apply in_app_iff; auto.
        * intros rv' rs' k p [E|Hin]; [|eauto]. injection E as <- <-.
          intros M1 M2 M3 M4. exists s, v. split; [apply A3, in_app_iff; simpl; auto|].
          rewrite Hv, Hs, M1, M2, M3, M4. auto.
        * intros rv' rs' [E|Hin]; [|auto]. injection E as <- <-. split; auto.
  Qed.

  Lemma diff_pass2_ok : forall lhs0 rhs lhs m pairs,
    (forall v s, In (v, s) lhs -> In (v, s) lhs0 /\ gv v /\ gs v s) ->
    (forall v s, In (v, s) rhs -> gv v /\ gs v s) ->
    su_rel m pairs -> diff_pairs lhs0 rhs pairs ->
    hoare (diff_pass2 VI PF ops lhs rhs m) (fun m' => exists pairs',
      su_rel m' pairs' /\ diff_pairs lhs0 rhs pairs' /\
      (forall s v, In (s, v) pairs -> In (s, v) pairs') /\
      (forall lv ls rv rs k p, In (lv, ls) lhs -> In (rv, rs) rhs ->
         mem lv k = true -> mem rv k = true ->
         contains ls p = true -> contains rs p = false ->
         exists s v, In (s, v) pairs' /\ mem v k = true /\ contains s p = true) /\
      arcs_agree lhs rhs).
  Proof.
    intros lhs0 rhs. induction lhs as [|[lv ls] r IH]; intros m pairs Hl Hr HR HI; cbn [diff_pass2].
    - apply hoare_ret. exists pairs. split; [auto|split; [auto|split; [auto|split]]].
      + intros lv ls rv rs k p [].
      + intros lv ls rv rs [].
    - destruct (Hl lv ls (or_introl eq_refl)) as (Hl0 & Hlv & Hls).
      eapply hoare_bind.
      + apply (diff_rhs_ok lhs0 rhs lv ls rhs m pairs); auto.
      + intros m1 (pairs1 & A1 & A2 & A3 & A4 & A5).
        eapply hoare_conseq.
        * apply (IH m1 pairs1); auto. intros; apply Hl; now right.
        * intros m' (pairs' & B1 & B2 & B3 & B4 & B5). exists pairs'.
          split; [auto|split; [auto|split; [auto|split]]].
          2: { intros lv' ls' rv' rs' [E|Hin]; [|now apply B5]. injection E as <- <-. auto. }
          intros lv' ls' rv' rs' k p [E|Hin]; [|eauto]. injection E as <- <-.
          intros Hin M1 M2 M3 M4.
          destruct (A4 rv' rs' k p Hin M1 M2 M3 M4) as (s & v & H1 & H2).
          exists s, v. auto.
  Qed.

  (** Union of the valuations of the right operand. *)
  Lemma valuations_builder : forall (arcs : list (W * sdd)) b,
    (forall v s, In (v, s) arcs -> gv v) ->
    ssorted (vo_lt ops) b -> (forall x, In x b -> GV x /\ vempty x = false) ->
    let b' := fold_left (fun b a => sb_add vempty (vo_lt ops) (fst a) b) arcs b in
    ssorted (vo_lt ops) b' /\ (forall x, In x b' -> GV x /\ vempty x = false) /\
    (forall x, In x b' <-> In x b \/ exists s, In (x, s) arcs).
  Proof.
    pose proof (oo_lt _ _ _ _ _ _ _ OV) as STv.
    induction arcs as [|[v s] r IH]; intros b Ha Hs Hg; simpl.
    - split; [auto|split; [auto|]]. intros x; split; [auto|intros [H|(? & [])]; auto].
    - destruct (Ha v s (or_introl eq_refl)) as [Gv Ev].
      assert (E : sb_add vempty (vo_lt ops) v b = fs_insert (vo_lt ops) v b).
      { unfold sb_add. now rewrite Ev. }
      rewrite E.
      destruct (IH (fs_insert (vo_lt ops) v b)) as (I1 & I2 & I3).
      + intros; eapply Ha; right; eauto.
      + apply fs_insert_sorted; auto.
      + intros x Hx. apply (fs_insert_in _ STv) in Hx. destruct Hx as [->|Hx]; auto.
      + split; [auto|split; [auto|]]. intros x. rewrite I3, (fs_insert_in _ STv). split.
        * intros [[->|H]|(s' & H)]; eauto.
        * intros [H|(s' & [H|H])]; eauto. injection H as -> ->; auto.
  Qed.

  (** Difference of two alphas. *)
  Lemma diff_alpha_ok : forall lhs rhs, good_arcs lhs -> good_arcs rhs ->
    hoare (runion <- vo_sum ops (fold_left (fun b a => sb_add vempty (vo_lt ops) (fst a) b) rhs []) ;;
           m1 <- diff_pass1 VI PF ops runion lhs [] ;;
           diff_pass2 VI PF ops lhs rhs m1) (fun m => exists pairs,
      su_rel m pairs /\ gpairs pairs /\
      (forall k p, (exists s v, In (s, v) pairs /\ mem v k = true /\ contains s p = true) <->
         acontains VI mem lhs k p && negb (acontains VI mem rhs k p) = true) /\
      arcs_agree lhs rhs).
  Proof.
    intros lhs rhs [GL DL FL] [GR DR FR].
    destruct (valuations_builder rhs []) as (B1 & B2 & B3).
    { intros v s Hin. now destruct (GR _ _ Hin). }
    { constructor. }
    { intros x []. }
    eapply hoare_bind; [apply (oo_sum _ _ _ _ _ _ _ OV); auto|].
    intros U [GU HU0].
    assert (HU : forall k, mem U k = existsb (fun a => mem (fst a) k) rhs).
    { intros k. rewrite HU0. apply bool_ext. rewrite !existsb_exists. split.
      - intros (x & Hin & Hx). apply B3 in Hin. destruct Hin as [[]|(s & Hin)]. exists (x, s); auto.
      - intros ([v s] & Hin & Hx). exists v; split; auto. apply B3. eauto. }
    eapply hoare_bind.
    { apply (diff_pass1_ok lhs rhs U lhs [] []); auto.
      - apply su_rel_nil.
      - intros s v []. }
    intros m1 (pairs1 & A1 & A2 & _ & A4).
    eapply hoare_conseq.
    - apply (diff_pass2_ok lhs rhs lhs m1 pairs1); auto.
    - intros m (pairs & D1 & D2 & D3 & D4 & D5). exists pairs. split; [auto|split; [|split; [|exact D5]]].
      + apply (diff_pairs_gpairs lhs rhs); auto.
      + intros k p. rewrite andb_true_iff, negb_true_iff, acontains_spec. split.
        * intros (s & v & Hin & M & C).
          destruct (D2 _ _ Hin) as (_ & _ & lv & ls & L & [[-> Hv]|(rv & rs & R & Hv & Hs)]).
          -- rewrite Hv in M. apply andb_prop in M. destruct M as [M1 M2].
             apply negb_true_iff in M2. split; [eauto|].
             apply acontains_out. intros rv rs R.
             destruct (mem rv k) eqn:E; auto.
             assert (existsb (fun a => mem (fst a) k) rhs = true); [|congruence].
             apply existsb_exists. exists (rv, rs); auto.
          -- rewrite Hv in M. rewrite Hs in C. apply andb_prop in M. apply andb_prop in C.
             destruct M as [M1 M2]. destruct C as [C1 C2]. apply negb_true_iff in C2.
             split; [eauto|]. rewrite (acontains_residual VI mem rhs DR rv rs k R M2). auto.
        * intros [(lv & ls & L & M1 & C1) Hno].
          destruct (existsb (fun a => mem (fst a) k) rhs) eqn:E.
          -- apply existsb_exists in E. destruct E as ([rv rs] & R & M2). simpl in M2.
             rewrite (acontains_residual VI mem rhs DR rv rs k R M2) in Hno. eauto.
          -- destruct (A4 lv ls k L M1 E) as (v & Hin & M). exists ls, v. auto.
  Qed.

  Lemma diff_work_ok : forall mk x lhs rhs lorig rorig, good_arcs lhs -> good_arcs rhs ->
    hoare (diff_work VI PF ops mk x x lhs rhs lorig rorig)
      (fun r => node_post mk x (fun k p => acontains VI mem lhs k p && negb (acontains VI mem rhs k p)) r /\
         arcs_agree lhs rhs).
  Proof.
    intros mk x lhs rhs lorig rorig GL GR. unfold diff_work. rewrite N.eqb_refl. cbn [negb].
    set (b := fold_left _ _ _).
    set (fin := fun m : list (sdd * list W) => match m with
                | [] => Ret Zero
                | _ => alpha <- su_run VI PF ops m [] ;; Ret (create_node VI mk x alpha)
                end).
    assert (H : hoare (bind (bind (vo_sum ops b) (fun runion =>
                  bind (diff_pass1 VI PF ops runion lhs []) (fun m1 =>
                  diff_pass2 VI PF ops lhs rhs m1))) fin)
                (fun r => node_post mk x (fun k p => acontains VI mem lhs k p &&
                                            negb (acontains VI mem rhs k p)) r /\ arcs_agree lhs rhs)).
    { eapply hoare_bind; [apply diff_alpha_ok; auto|].
      intros m (pairs & B1 & B2 & B3 & B4). unfold fin. destruct m as [|e m].
      - apply hoare_ret. split; [|auto]. exists []. split; [|split; [reflexivity|]].
        + split; [constructor|intros ? ? []|constructor|intros ? ? ? ? ? ? []].
        + apply mm_rel_empty in B1. subst pairs. intros k p. specialize (B3 k p). simpl.
          destruct (acontains VI mem lhs k p && negb (acontains VI mem rhs k p)); auto.
          exfalso. destruct (proj2 B3 eq_refl) as (s & v & [] & _).
      - eapply hoare_bind; [apply su_run_ok; eauto|].
        intros alpha (D1 & D2 & D3). apply hoare_ret. split; [|auto]. exists alpha. split; [auto|split; [auto|]].
        intros k p. apply bool_ext. now rewrite D3, B3. }
    unfold Base.hoare in *. rewrite !interp_bind in *.
    destruct (interp h (vo_sum ops b)) as [u|]; simpl in *; auto.
    rewrite !interp_bind in *.
    destruct (interp h (diff_pass1 VI PF ops u lhs [])) as [m1|]; simpl in *; auto.
    rewrite !interp_bind in *. exact H.
  Qed.
End Generic.
