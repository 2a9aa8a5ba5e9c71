(** * flat_sets as handles on unified data (C76) *)

From Coq Require Import List Bool NArith Arith Lia Permutation Sorted.
From Verif Require Import Base SortedSets FlatSet Pow2 HashTable Heap HeapProofs HeapTheorems FlatHandles FlatHandlesSpec.
Import ListNotations.

Section Proofs.
  Context {A : Type}.
  Variable lt : A -> A -> bool.
  Variable eqb : A -> A -> bool.
  Variable hash bytes : list A * list ptr -> N.
  Hypothesis ST : strict_total lt.
  Hypothesis eqb_spec : forall x y, eqb x y = true <-> x = y.
  Notation L := (list A).
  Notation step := (h_step (data_eqb eqb) hash bytes).
  Notation good := (good hash).

  Lemma Forall2_in_l : forall (X Y : Type) (P : X -> Y -> Prop) l m, Forall2 P l m -> forall x, In x l -> exists y, In y m /\ P x y.
  Proof.
    intros X Y P l m F. induction F as [|a b l m H F IH]; intros x []; [subst; exists b; cbn; auto|].
    destruct (IH x H0) as (y & Hy & Py). exists y. cbn. auto.
  Qed.
  Arguments Forall2_in_l {X Y P l m} _ _ _.

  Lemma data_eqb_spec : forall l m, data_eqb eqb l m = true <-> l = m.
  Proof.
    induction l as [|x l IH]; intros [|y m]; cbn [data_eqb]; try (split; congruence).
    rewrite andb_true_iff, eqb_spec, IH. split; [intros [-> ->]; auto|]. intros E. injection E as -> ->. auto.
  Qed.

  (** ** The specification, in terms of membership *)
  Lemma member_spec : forall s x, member eqb s x = true <-> In x s.
  Proof.
    intros s x. unfold member. rewrite existsb_exists. split.
    - intros (y & Hy & E). apply eqb_spec in E. now subst.
    - intros H. exists x. split; auto. now apply eqb_spec.
  Qed.
  Lemma same_spec : forall s t, same eqb s t = true <-> forall x, In x s <-> In x t.
  Proof.
    intros s t. unfold same. rewrite andb_true_iff, !forallb_forall. split.
    - intros [H1 H2] x. split; intros H; [apply H1 in H|apply H2 in H]; now apply member_spec in H.
    - intros H. split; intros x Hx; apply member_spec; now apply H.
  Qed.
  Lemma card_spec : forall s c, NoDup c -> (forall x, In x c <-> In x s) -> length c = card eqb s.
  Proof.
    induction s as [|a s IH]; intros c ND E; cbn [card].
    - destruct c as [|x c]; auto. exfalso. apply (E x). now left.
    - destruct (member eqb s a) eqn:M.
      + apply member_spec in M. apply IH; auto. intros x. rewrite E. cbn. split; [intros [<-|H]; auto|auto].
      + assert (Hn : ~ In a s) by (rewrite <- member_spec; congruence).
        assert (Ha : In a c) by (apply E; now left). apply in_split in Ha. destruct Ha as (c1 & c2 & ->).
        rewrite app_length. cbn [length]. rewrite Nat.add_succ_r. f_equal. rewrite <- app_length.
        pose proof (NoDup_remove_1 _ _ _ ND) as ND1. pose proof (NoDup_remove_2 _ _ _ ND) as N2.
        apply IH; auto. intros x. specialize (E x). rewrite in_app_iff in E |- *. cbn [In] in E. split.
        * intros Hx. assert (Hx' : a = x \/ In x s) by tauto. destruct Hx' as [<-|Hx']; auto. exfalso. apply N2.
          apply in_app_iff. exact Hx.
        * intros Hx. assert (Hx' : In x c1 \/ a = x \/ In x c2) by tauto. destruct Hx' as [H|[<-|H]]; auto. contradiction.
  Qed.
  Lemma mem_same : forall c s x, (forall y, In y c <-> In y s) -> fs_mem lt c x = member eqb s x.
  Proof. intros c s x H. apply eq_true_iff_eq. now rewrite (fs_mem_spec lt ST), member_spec, H. Qed.

  (** ** Values of variables *)
  Definition repr (c s : list A) : Prop := ssorted lt c /\ forall x, In x c <-> In x s.
  Definition agr (x : var * option (tree L)) (y : var * list A) : Prop :=
    fst x = uv (fst y) /\ exists c, snd x = Some (Node c []) /\ repr c (snd y).
  Definition rel (r : vals (L := L)) (e : sets) : Prop :=
    exists r0, r = r0 ++ [(mgr_empty, Some (Node [] []))] /\ Forall2 agr r0 e.

  Lemma repr_unique : forall c d s t, repr c s -> repr d t -> (forall x, In x s <-> In x t) -> c = d.
  Proof. intros c d s t [S1 I1] [S2 I2] H. apply (ssorted_ext lt ST); auto. intros x. now rewrite I1, I2. Qed.

  Lemma rel_mgr : forall r e, rel r e -> value r mgr_empty = Some (Node [] []).
  Proof.
    intros r e (r0 & -> & F). unfold value. induction F as [|x y r0 e Hxy F IH]; [reflexivity|].
    destruct x as [v t]. destruct Hxy as (E & _). cbn in E. subst v. cbn. apply IH.
  Qed.
  Lemma rel_value : forall r e v s, rel r e -> set_of e v = Some s -> exists c, value r (uv v) = Some (Node c []) /\ repr c s.
  Proof.
    intros r e v s (r0 & -> & F). unfold value. induction F as [|x y r0 e Hxy F IH]; cbn [set_of]; [discriminate|].
    destruct x as [w t], y as [w' s']. destruct Hxy as (E & c & E2 & R). cbn [fst snd] in E, E2, R. subst w t.
    cbn [get app]. change (Nat.eqb (uv v) (uv w')) with (Nat.eqb v w'). destruct (Nat.eqb v w').
    - intros H. injection H as <-. eauto.
    - auto.
  Qed.
  Lemma rel_known : forall r e v, rel r e -> known e v -> exists c, value r (uv v) = Some (Node c []) /\ repr c (the e v).
  Proof.
    intros r e v R K. unfold known, the in *. destruct (set_of e v) as [s|] eqn:E; [|congruence]. eapply rel_value; eauto.
  Qed.
  Lemma value_declared : forall (r : vals (L := L)) v t, value r v = Some t -> declared r v.
  Proof. intros r v t H. unfold value, declared in *. destruct (get r v); congruence. Qed.
  Lemma rel_push : forall r e v c s, rel r e -> repr c s -> rel ((uv v, Some (Node c [])) :: r) ((v, s) :: e).
  Proof.
    intros r e v c s (r0 & -> & F) R. exists ((uv v, Some (Node c [])) :: r0). split; auto. constructor; auto.
    split; auto. exists c. auto.
  Qed.
  Lemma rel_put : forall r e v c s, rel r e -> known e v -> repr c s -> rel (put r (uv v) (Some (Node c []))) (set_to e v s).
  Proof.
    intros r e v c s (r0 & -> & F) K R.
    assert (H : exists r1, put (r0 ++ [(mgr_empty, Some (Node [] []))]) (uv v) (Some (Node c [])) =
                           r1 ++ [(mgr_empty, Some (Node [] []))] /\ Forall2 agr r1 (set_to e v s)); auto.
    unfold known in K. induction F as [|x y r0 e Hxy F IH]; cbn [set_of] in K; [congruence|].
    destruct x as [w t], y as [w' s']. pose proof Hxy as Hxy'. destruct Hxy as (E & _). cbn [fst] in E. subst w.
    cbn [put app set_to]. cbn [set_of] in K. change (Nat.eqb (uv v) (uv w')) with (Nat.eqb v w'). destruct (Nat.eqb v w').
    - exists ((uv w', Some (Node c [])) :: r0). split; auto. constructor; auto. split; auto. exists c. auto.
    - destruct (IH K) as (r1 & E1 & F1). exists ((uv w', t) :: r1). rewrite E1. split; auto.
  Qed.
  Lemma rel_drop : forall r e v, rel r e -> known e v -> rel (drop r (uv v)) (forget e v).
  Proof.
    intros r e v (r0 & -> & F) K.
    assert (H : exists r1, drop (r0 ++ [(mgr_empty, Some (Node [] []))]) (uv v) =
                           r1 ++ [(mgr_empty, Some (Node [] []))] /\ Forall2 agr r1 (forget e v)); auto.
    unfold known in K. induction F as [|x y r0 e Hxy F IH]; cbn [set_of] in K; [congruence|].
    destruct x as [w t], y as [w' s']. pose proof Hxy as Hxy'. destruct Hxy as (E & _). cbn [fst] in E. subst w.
    cbn [drop app forget]. cbn [set_of] in K. change (Nat.eqb (uv v) (uv w')) with (Nat.eqb v w'). destruct (Nat.eqb v w').
    - exists r0. split; auto.
    - destruct (IH K) as (r1 & E1 & F1). exists ((uv w', t) :: r1). rewrite E1. split; auto.
  Qed.

  (** ** Operations *)
  Lemma data_ok : forall h r k v c, good h r k -> value r v = Some (Node c []) -> data h v = Ok c.
  Proof.
    intros h r k v c (els & I & S & _) V. destruct (sim_value _ _ _ _ _ S V) as (p & G & D). unfold data, held. rewrite G.
    cbn [rbind]. apply denotes_node in D. destruct D as (ks & U & _). unfold udat, dat, deref in *.
    destruct (hm h p) as [cl|]; [|discriminate]. cbn [rbind option_map] in *. injection U as U. now rewrite U.
  Qed.
  Lemma held_ok : forall h r k v t, good h r k -> value r v = Some t -> exists p, held h v = Ok p /\ get (env h) v = Some (Some p) /\ denotes (hm h) t p.
  Proof.
    intros h r k v t (els & I & S & _) V. destruct (sim_value _ _ _ _ _ S V) as (p & G & D). exists p. unfold held. now rewrite G.
  Qed.
  Lemma pointers : forall h r k v w t u p q, good h r k -> value r v = Some t -> value r w = Some u ->
    get (env h) v = Some (Some p) -> get (env h) w = Some (Some q) -> (p = q <-> t = u).
  Proof.
    intros h r k v w t u p q (els & I & S & _) V W G1 G2.
    destruct (sim_value _ _ _ _ _ S V) as (p' & G1' & D1). destruct (sim_value _ _ _ _ _ S W) as (q' & G2' & D2).
    rewrite G1 in G1'. rewrite G2 in G2'. injection G1' as <-. injection G2' as <-. split.
    - intros <-. eapply denotes_fun; eauto.
    - intros <-. eapply (denotes_inj hash); [exact I| | |exact D1|exact D2]; apply (inv_root hash _ _ _ _ _ _ I); eapply handles_in; eauto.
  Qed.

  Lemma step1 : forall o h r k, good h r k -> proper o r -> allocator_ok o h -> (N.of_nat (k + 1) < 2 ^ 32 - 1)%N -> cost o <= 1 ->
    exists h', step o h = Ok h' /\ good h' (v_step o r) (k + 1).
  Proof.
    intros o h r k G P Al B C. destruct (step_ok (data_eqb eqb) hash bytes data_eqb_spec o h r k G P Al) as (h' & E & G'); [lia|].
    exists h'. split; auto. eapply good_mono; [exact G'|]. lia.
  Qed.
  Lemma step0 : forall o h r k, good h r k -> proper o r -> allocator_ok o h -> (N.of_nat (k + 1) < 2 ^ 32 - 1)%N -> cost o = 0 ->
    exists h', step o h = Ok h' /\ good h' (v_step o r) k.
  Proof.
    intros o h r k G P Al B C. destruct (step_ok (data_eqb eqb) hash bytes data_eqb_spec o h r k G P Al) as (h' & E & G'); [lia|].
    exists h'. split; auto. eapply good_mono; [exact G'|]. lia.
  Qed.
  Lemma create_ok : forall v c a h r e k, good h r k -> rel r e -> blocks h a = None -> (N.of_nat (k + 1) < 2 ^ 32 - 1)%N ->
    exists h', create eqb hash bytes v c a h = Ok h' /\ good h' ((v, Some (Node c [])) :: r) (k + 1).
  Proof.
    intros v c a h r e k G R Al B. pose proof (rel_mgr _ _ R) as V. unfold create. destruct c as [|x c].
    - destruct (step1 (HCopy v (SVar mgr_empty)) h r k G) as (h' & E & G'); cbn [proper allocator_ok cost source_value]; auto.
      + rewrite V. discriminate.
      + exists h'. split; auto. cbn [v_step source_value] in G'. now rewrite V in G'.
    - destruct (step1 (HCreate v (x :: c) [] a) h r k G) as (h' & E & G'); cbn [proper allocator_ok cost length]; auto.
      exists h'. auto.
  Qed.
  Lemma replace_ok : forall v c s a h r e k, good h r k -> rel r e -> known e v -> repr c s -> blocks h a = None ->
    (N.of_nat (k + 1) < 2 ^ 32 - 1)%N ->
    exists h' r', replace eqb hash bytes (uv v) c a h = Ok h' /\ good h' r' (k + 1) /\ rel r' (set_to e v s).
  Proof.
    intros v c s a h r e k G R K Rp Al B. destruct (rel_known _ _ _ R K) as (c0 & V & _). unfold replace.
    destruct (create_ok tmp c a h r e k G R Al B) as (h1 & E1 & G1). rewrite E1. cbn [rbind].
    assert (D : declared ((tmp, Some (Node c [])) :: r) (uv v)).
    { unfold declared. cbn [get]. change (Nat.eqb (uv v) tmp) with false. cbv iota. apply (value_declared _ _ _ V). }
    assert (B1 : (N.of_nat (k + 1 + 0) < 2 ^ 32 - 1)%N) by (rewrite Nat.add_0_r; exact B).
    destruct (step_ok (data_eqb eqb) hash bytes data_eqb_spec (HMoveAssign (uv v) tmp) h1 _ _ G1) as (h2 & E2 & G2); auto.
    { cbn [proper]. split; auto. split; [|discriminate]. unfold declared. discriminate. }
    { exact Logic.I. }
    rewrite E2. cbn [rbind]. cbn [v_step cost] in G2. rewrite Nat.add_0_r in G2.
    change (value ((tmp, Some (Node c [])) :: r) tmp) with (Some (Node c [])) in G2.
    change (put (put ((tmp, Some (Node c [])) :: r) (uv v) (Some (Node c []))) tmp None)
      with ((tmp, None) :: put r (uv v) (Some (Node c []))) in G2.
    destruct (step_ok (data_eqb eqb) hash bytes data_eqb_spec (HDestroy tmp) h2 _ _ G2) as (h3 & E3 & G3); auto.
    { cbn [proper]. unfold declared. discriminate. }
    { exact Logic.I. }
    exists h3, (put r (uv v) (Some (Node c []))). split; auto. cbn [v_step cost] in G3. rewrite Nat.add_0_r in G3.
    split; [exact G3|]. now apply rel_put.
  Qed.

  Lemma repr_of_list : forall l, repr (fs_of_list lt l) l.
  Proof. intros l. apply (fs_of_list_spec lt ST l). Qed.
  Lemma repr_ext : forall c s t, repr c s -> (forall x, In x s <-> In x t) -> repr c t.
  Proof. intros c s t [S1 H1] H. split; auto. intros x. now rewrite H1. Qed.
  Lemma repr_nil : repr [] [].
  Proof. split; [constructor|tauto]. Qed.

  Lemma copy_ok : forall v w c h r k, good h r k -> value r w = Some (Node c []) -> (N.of_nat (k + 1) < 2 ^ 32 - 1)%N ->
    exists h', step (HCopy v (SVar w)) h = Ok h' /\ good h' ((v, Some (Node c [])) :: r) (k + 1).
  Proof.
    intros v w c h r k G V B. destruct (step1 (HCopy v (SVar w)) h r k G) as (h' & E & G'); cbn [proper allocator_ok cost source_value]; auto.
    - rewrite V. discriminate.
    - exists h'. split; auto. cbn [v_step source_value] in G'. now rewrite V in G'.
  Qed.
  Lemma assign_ok : forall h r k v w s t, good h r k -> value r v = Some s -> value r w = Some t ->
    (w <> v \/ exists u, u <> v /\ value r u = value r v) -> (N.of_nat (k + 1) < 2 ^ 32 - 1)%N ->
    exists h', step (HAssign v (SVar w)) h = Ok h' /\ good h' (put r v (Some t)) (k + 1).
  Proof.
    intros h r k v w s t G V W H B. destruct (step1 (HAssign v (SVar w)) h r k G) as (h' & E & G'); cbn [proper allocator_ok cost]; auto.
    - split; [apply (value_declared _ _ _ V)|]. split; [cbn [source_value]; congruence|]. exact H.
    - exists h'. split; auto. cbn [v_step source_value] in G'. now rewrite W in G'.
  Qed.

  Lemma f_step_ok : forall o h r e k, good h r k -> rel r e -> f_proper eqb o e -> f_alloc o h ->
    (N.of_nat (k + f_cost o) < 2 ^ 32 - 1)%N ->
    exists h' r', f_step lt eqb hash bytes o h = Ok (h', snd (s_step eqb o e)) /\ good h' r' (k + f_cost o) /\
                  rel r' (fst (s_step eqb o e)).
  Proof.
    intros o h r e k G R P Al B.
    assert (Mono : forall h r, good h r k -> good h r (k + 1)) by (intros h0 r0 G0; eapply good_mono; [exact G0|lia]).
    destruct o as [v|v l a|v w|v w|v x a|v x a|v u w a|v u w a|v u w a|v w|v|v x|v|v|v w];
      cbn [f_step s_step f_proper f_alloc f_cost fst snd] in *; unfold quiet.
    - destruct (copy_ok (uv v) mgr_empty [] h r k G (rel_mgr _ _ R) B) as (h' & E & G'). rewrite E. cbn [rbind].
      eexists _, _. split; [reflexivity|]. split; [exact G'|]. apply rel_push; auto. apply repr_nil.
    - destruct (create_ok (uv v) (fs_of_list lt l) a h r e k G R Al B) as (h' & E & G'). rewrite E. cbn [rbind].
      eexists _, _. split; [reflexivity|]. split; [exact G'|]. apply rel_push; auto. apply repr_of_list.
    - destruct (rel_known _ _ _ R P) as (c & V & Rp).
      destruct (copy_ok (uv v) (uv w) c h r k G V B) as (h' & E & G'). rewrite E. cbn [rbind].
      eexists _, _. split; [reflexivity|]. split; [exact G'|]. apply rel_push; auto.
    - destruct P as (K1 & K2 & Hs). destruct (rel_known _ _ _ R K1) as (c & V & Rp). destruct (rel_known _ _ _ R K2) as (d & W & Rq).
      destruct (assign_ok h r k (uv v) (uv w) _ _ G V W) as (h' & E & G'); auto.
      { destruct Hs as [Hs|[Hs|(u & Hu & Ku & Hs)]].
        - left. unfold uv. lia.
        - right. exists mgr_empty. split; [discriminate|]. rewrite (rel_mgr _ _ R), V. rewrite Hs in Rp.
          now rewrite (repr_unique _ _ _ _ Rp repr_nil (fun x => iff_refl _)).
        - right. exists (uv u). split; [unfold uv; lia|]. destruct (rel_known _ _ _ R Ku) as (d' & U & Ru). rewrite U, V.
          rewrite same_spec in Hs. now rewrite (repr_unique _ _ _ _ Ru Rp Hs). }
      rewrite E. cbn [rbind]. eexists _, _. split; [reflexivity|]. split; [exact G'|]. apply rel_put; auto.
    - destruct (rel_known _ _ _ R P) as (c & V & Rp). rewrite (data_ok _ _ _ _ _ G V). cbn [rbind].
      rewrite (mem_same c (the e v) x) by apply Rp. destruct (member eqb (the e v) x) eqn:M; cbn [negb].
      + exists h, (put r (uv v) (Some (Node c []))). split; [reflexivity|]. apply member_spec in M. split.
        * rewrite put_same; [now apply Mono|]. unfold value in V. destruct (get r (uv v)) as [[t|]|]; congruence.
        * apply rel_put; auto. eapply repr_ext; [exact Rp|]. intros y. cbn. split; [auto|]. intros [<-|H]; auto.
      + destruct (replace_ok v (fs_insert lt x c) (x :: the e v) a h r e k G R P) as (h' & r' & E & G' & R'); auto.
        { destruct Rp as [S1 H1]. split; [now apply (fs_insert_sorted lt ST)|]. intros y. rewrite (fs_insert_in lt ST), H1. cbn.
          split; intros [->|H]; auto. }
        rewrite E. cbn [rbind]. exists h', r'. auto.
    - destruct (rel_known _ _ _ R P) as (c & V & Rp). rewrite (data_ok _ _ _ _ _ G V). cbn [rbind].
      rewrite (mem_same c (the e v) x) by apply Rp.
      destruct (replace_ok v (fs_erase lt x c) (filter (fun y => negb (eqb y x)) (the e v)) a h r e k G R P) as (h' & r' & E & G' & R'); auto.
      { destruct Rp as [S1 H1]. destruct (fs_erase_spec lt ST x c S1) as [S2 H2]. split; auto. intros y.
        rewrite H2, H1, filter_In, negb_true_iff, <- not_true_iff_false, eqb_spec. tauto. }
      rewrite E. cbn [rbind]. exists h', r'. auto.
    - destruct P as [K1 K2]. destruct (rel_known _ _ _ R K1) as (c & V & Rp). destruct (rel_known _ _ _ R K2) as (d & W & Rq).
      rewrite (data_ok _ _ _ _ _ G V), (data_ok _ _ _ _ _ G W). cbn [rbind].
      destruct (create_ok (uv v) (fs_of_list lt (set_union lt c d)) a h r e k G R Al B) as (h' & E & G'). rewrite E. cbn [rbind].
      eexists _, _. split; [reflexivity|]. split; [exact G'|]. apply rel_push; auto. eapply repr_ext; [apply repr_of_list|].
      intros x. rewrite (set_union_in lt ST), in_app_iff. destruct Rp as [_ H1], Rq as [_ H2]. now rewrite H1, H2.
    - destruct P as [K1 K2]. destruct (rel_known _ _ _ R K1) as (c & V & Rp). destruct (rel_known _ _ _ R K2) as (d & W & Rq).
      rewrite (data_ok _ _ _ _ _ G V), (data_ok _ _ _ _ _ G W). cbn [rbind].
      destruct (create_ok (uv v) (fs_of_list lt (set_intersection lt c d)) a h r e k G R Al B) as (h' & E & G'). rewrite E. cbn [rbind].
      eexists _, _. split; [reflexivity|]. split; [exact G'|]. apply rel_push; auto. eapply repr_ext; [apply repr_of_list|].
      intros x. destruct Rp as [S1 H1], Rq as [S2 H2]. rewrite (set_intersection_in lt ST), filter_In, member_spec by auto.
      now rewrite H1, H2.
    - destruct P as [K1 K2]. destruct (rel_known _ _ _ R K1) as (c & V & Rp). destruct (rel_known _ _ _ R K2) as (d & W & Rq).
      rewrite (data_ok _ _ _ _ _ G V), (data_ok _ _ _ _ _ G W). cbn [rbind].
      destruct (create_ok (uv v) (fs_of_list lt (set_difference lt c d)) a h r e k G R Al B) as (h' & E & G'). rewrite E. cbn [rbind].
      eexists _, _. split; [reflexivity|]. split; [exact G'|]. apply rel_push; auto. eapply repr_ext; [apply repr_of_list|].
      intros x. destruct Rp as [S1 H1], Rq as [S2 H2].
      rewrite (set_difference_in lt ST), filter_In, negb_true_iff, <- not_true_iff_false, member_spec by auto. now rewrite H1, H2.
    - destruct P as [K1 K2]. destruct (rel_known _ _ _ R K1) as (c & V & Rp). destruct (rel_known _ _ _ R K2) as (d & W & Rq).
      destruct (copy_ok tmp (uv v) c h r k G V) as (h1 & E1 & G1); [lia|]. rewrite E1. cbn [rbind].
      destruct (assign_ok h1 _ _ (uv v) (uv w) (Node c []) (Node d []) G1) as (h2 & E2 & G2); [exact V|exact W| |lia|].
      { right. exists tmp. split; [discriminate|]. symmetry. exact V. }
      rewrite E2. cbn [rbind].
      change (put ((tmp, Some (Node c [])) :: r) (uv v) (Some (Node d []))) with
             ((tmp, Some (Node c [])) :: put r (uv v) (Some (Node d []))) in G2.
      assert (R2 : rel (put r (uv v) (Some (Node d []))) (set_to e v (the e w))) by (apply rel_put; auto).
      assert (K3 : known (set_to e v (the e w)) w).
      { revert K2. unfold known. clear. set (s := the e w). clearbody s. induction e as [|[z t] e IH]; cbn [set_to set_of]; auto.
        destruct (Nat.eqb v z); cbn [set_of]; destruct (Nat.eqb w z); auto; discriminate. }
      destruct (rel_known _ _ _ R2 K3) as (d' & W' & _).
      destruct (assign_ok h2 _ _ (uv w) tmp (Node d' []) (Node c []) G2) as (h3 & E3 & G3); [exact W'|reflexivity| |lia|].
      { left. discriminate. }
      rewrite E3. cbn [rbind].
      change (put ((tmp, Some (Node c [])) :: put r (uv v) (Some (Node d []))) (uv w) (Some (Node c []))) with
             ((tmp, Some (Node c [])) :: put (put r (uv v) (Some (Node d []))) (uv w) (Some (Node c []))) in G3.
      destruct (step_ok (data_eqb eqb) hash bytes data_eqb_spec (HDestroy tmp) h3 _ _ G3) as (h4 & E4 & G4).
      { cbn [proper]. unfold declared. discriminate. }
      { exact Logic.I. }
      { cbn [cost]. lia. }
      rewrite E4. cbn [rbind]. eexists _, _. split; [reflexivity|]. split.
      { eapply good_mono; [exact G4|]. cbn [cost]. lia. }
      apply rel_put; auto.
    - destruct (rel_known _ _ _ R P) as (c & V & Rp).
      destruct (step_ok (data_eqb eqb) hash bytes data_eqb_spec (HDestroy (uv v)) h r k G) as (h' & E & G').
      { cbn [proper]. apply (value_declared _ _ _ V). }
      { exact Logic.I. }
      { cbn [cost]. lia. }
      rewrite E. cbn [rbind]. eexists _, _. split; [reflexivity|]. split; [eapply good_mono; [exact G'|cbn [cost]; lia]|].
      cbn [v_step]. apply rel_drop; auto.
    - destruct (rel_known _ _ _ R P) as (c & V & Rp). rewrite (data_ok _ _ _ _ _ G V). cbn [rbind].
      rewrite (mem_same c (the e v) x) by apply Rp. exists h, r. auto.
    - destruct (rel_known _ _ _ R P) as (c & V & Rp). rewrite (data_ok _ _ _ _ _ G V). cbn [rbind].
      destruct Rp as [S1 H1]. rewrite (card_spec (the e v) c (ssorted_nodup lt ST _ S1) H1). exists h, r. auto.
    - destruct (rel_known _ _ _ R P) as (c & V & Rp). rewrite (data_ok _ _ _ _ _ G V). cbn [rbind].
      exists h, r. split; [|auto]. destruct Rp as [_ H1]. repeat f_equal. destruct c as [|x c], (the e v) as [|y s]; auto; exfalso.
      + apply (H1 y). now left.
      + apply (H1 x). now left.
    - destruct P as [K1 K2]. destruct (rel_known _ _ _ R K1) as (c & V & Rp). destruct (rel_known _ _ _ R K2) as (d & W & Rq).
      destruct (held_ok _ _ _ _ _ G V) as (p & Ep & Gp & _). destruct (held_ok _ _ _ _ _ G W) as (q & Eq & Gq & _).
      rewrite Ep, Eq. cbn [rbind]. exists h, r. split; [|auto]. repeat f_equal. apply eq_true_iff_eq.
      rewrite N.eqb_eq, same_spec, (pointers _ _ _ _ _ _ _ _ _ G V W Gp Gq). split.
      + intros E. injection E as <-. destruct Rp as [_ H1], Rq as [_ H2]. intros x. now rewrite <- H1, <- H2.
      + intros E. now rewrite (repr_unique _ _ _ _ Rp Rq E).
  Qed.

  Lemma f_run_ok : forall l h r e k, good h r k -> rel r e -> f_history eqb lt hash bytes l h e ->
    (N.of_nat (k + f_total l) < 2 ^ 32 - 1)%N ->
    exists h' r', f_run lt eqb hash bytes l h = Ok (h', snd (s_run eqb l e)) /\ good h' r' (k + f_total l) /\
                  rel r' (fst (s_run eqb l e)).
  Proof.
    induction l as [|o l IH]; intros h r e k G R H B; cbn [f_run s_run f_history] in *.
    - exists h, r. split; auto. split; auto. eapply good_mono; [exact G|lia].
    - destruct H as (P & Al & H). change (f_total (o :: l)) with (f_cost o + f_total l) in *.
      destruct (f_step_ok o h r e k G R P Al) as (h1 & r1 & E1 & G1 & R1); [lia|]. rewrite E1. cbn [rbind fst snd].
      destruct (IH h1 r1 _ _ G1 R1 (H _ _ E1)) as (h2 & r2 & E2 & G2 & R2); [lia|]. rewrite E2. cbn [rbind fst snd].
      destruct (s_step eqb o e) as [e1 x]. cbn [fst snd] in *. destruct (s_run eqb l e1) as [e2 xs]. cbn [fst snd] in *.
      exists h2, r2. split; auto. split; auto. now rewrite Nat.add_assoc.
  Qed.
  Lemma f_init_ok : forall size a, (1 <= size <= 2 ^ 62)%N ->
    exists h, f_init eqb hash bytes size a = Ok h /\ good h [(mgr_empty, Some (Node [] []))] 1 /\ rel [(mgr_empty, Some (Node [] []))] [].
  Proof.
    intros size a Hs. destruct (step1 (HCreate mgr_empty [] [] a) (empty_heap size) [] 0 (good_empty hash size Hs)) as (h & E & G).
    - cbn [proper]. intros k [].
    - reflexivity.
    - reflexivity.
    - cbn. lia.
    - exists h. split; auto. split; [exact G|]. exists []. split; auto.
  Qed.

  (** ** C76 *)

  (** A program on variables of type flat_set: constructions, copies, moves, assignments, insertions, removals, unions,
      intersections, differences, swaps, ends of scopes and queries, in any order, from a manager of any initial size, with any
      hash function and any allocator that does not return an allocated block.  There is no undefined behaviour, what the
      operations return is what they return on sets; at the end, each variable designates a sorted vector of its values, and two
      variables are == (the same pointer) exactly when they hold the same set. *)
  Theorem C76_programs_partial : forall l size a h0, (1 <= size <= 2 ^ 62)%N -> f_init eqb hash bytes size a = Ok h0 ->
    f_history eqb lt hash bytes l h0 [] -> (N.of_nat (1 + f_total l) < 2 ^ 32 - 1)%N ->
    exists h, f_run lt eqb hash bytes l h0 = Ok (h, snd (s_run eqb l [])) /\
    forall v w s t, set_of (fst (s_run eqb l [])) v = Some s -> set_of (fst (s_run eqb l [])) w = Some t ->
    exists p q c d, get (env h) (uv v) = Some (Some p) /\ get (env h) (uv w) = Some (Some q) /\
      udat (hm h) p = Some (c, []) /\ udat (hm h) q = Some (d, []) /\
      StronglySorted (fun x y => lt x y = true) c /\ (forall x, In x c <-> In x s) /\
      (p = q <-> forall x, In x s <-> In x t).
  Proof.
    intros l size a h0 Hs E0 H B. destruct (f_init_ok size a Hs) as (h0' & E0' & G0 & R0). rewrite E0 in E0'. injection E0' as <-.
    destruct (f_run_ok l h0 _ _ _ G0 R0 H B) as (h & r & E & G & R). exists h. split; auto. intros v w s t Sv Sw.
    destruct (rel_value _ _ _ _ R Sv) as (c & V & Rp). destruct (rel_value _ _ _ _ R Sw) as (d & W & Rq).
    destruct (held_ok _ _ _ _ _ G V) as (p & _ & Gp & Dp). destruct (held_ok _ _ _ _ _ G W) as (q & _ & Gq & Dq).
    exists p, q, c, d. split; auto. split; auto.
    apply denotes_node in Dp. destruct Dp as (ks & U1 & F1). inversion F1; subst.
    apply denotes_node in Dq. destruct Dq as (ks & U2 & F2). inversion F2; subst. split; auto. split; auto.
    split; [apply Rp|]. split; [apply Rp|]. rewrite (pointers _ _ _ _ _ _ _ _ _ G V W Gp Gq). split.
    - intros X. injection X as <-. destruct Rp as [_ H1], Rq as [_ H2]. intros x. now rewrite <- H1, <- H2.
    - intros X. now rewrite (repr_unique _ _ _ _ Rp Rq X).
  Qed.

  (** What is alive: the empty set, kept by the manager, and the sets held by variables; each once. *)
  Theorem C76_lifetime : forall l size a h0, (1 <= size <= 2 ^ 62)%N -> f_init eqb hash bytes size a = Ok h0 ->
    f_history eqb lt hash bytes l h0 [] -> (N.of_nat (1 + f_total l) < 2 ^ 32 - 1)%N ->
    exists h, f_run lt eqb hash bytes l h0 = Ok (h, snd (s_run eqb l [])) /\
    (forall p, hm h p <> None -> exists c, udat (hm h) p = Some (c, []) /\
       (c = [] \/ exists v s, In (v, s) (fst (s_run eqb l [])) /\ forall x, In x c <-> In x s)) /\
    (forall p q c, udat (hm h) p = Some (c, []) -> udat (hm h) q = Some (c, []) -> p = q).
  Proof.
    intros l size a h0 Hs E0 H B. destruct (f_init_ok size a Hs) as (h0' & E0' & G0 & R0). rewrite E0 in E0'. injection E0' as <-.
    destruct (f_run_ok l h0 _ _ _ G0 R0 H B) as (h & r & E & G & R). exists h. split; auto.
    destruct G as (els & I & S & _).
    assert (Live : forall p, hm h p <> None -> In p els).
    { intros p Hp. destruct (i_only hash _ _ _ _ _ I p Hp) as [X|[]]; auto. }
    split.
    - intros p Hp. destruct (live_reachable hash h _ els I S p (Live p Hp)) as (v & t & u & Hin & Sub & D).
      destruct R as (r0 & -> & F). apply in_app_or in Hin. destruct Hin as [Hin|[Hin|[]]].
      + destruct (Forall2_in_l F _ Hin) as ([w s] & Hw & (_ & c & Ec & Rp)). cbn [snd] in Ec. injection Ec as ->.
        assert (u = Node c []) as ->.
        { inversion Sub as [|? ? ? Hu]; subst; auto. destruct Hu. }
        apply denotes_node in D. destruct D as (ks & U & F2). inversion F2; subst. exists c. split; auto. right. exists w, s.
        split; auto. apply Rp.
      + injection Hin as <- <-. assert (u = Node [] []) as ->.
        { inversion Sub as [|? ? ? Hu]; subst; auto. destruct Hu. }
        apply denotes_node in D. destruct D as (ks & U & F2). inversion F2; subst. exists []. auto.
    - intros p q c U1 U2. assert (Alive : forall z, udat (hm h) z = Some (c, []) -> In z els).
      { intros z U. apply Live. unfold udat, dat in U. destruct (hm h z); [discriminate|]. cbn in U. discriminate. }
      eapply (denotes_inj hash h _ els [] [] (Node c [])); [exact I| | | |]; auto; apply denotes_node; exists []; auto.
  Qed.
End Proofs.
Print Assumptions C76_programs_partial.
Print Assumptions C76_lifetime.

(** ** Self-assignment (see C24) *)

Definition ex_lt : nat -> nat -> bool := Nat.ltb.
Definition ex_hash (d : list nat * list ptr) : N := N.of_nat (length (fst d)).
Definition ex_bytes (d : list nat * list ptr) : N := 40%N.

(** v = v is undefined behaviour when v is the only variable that holds its set, and this set is not empty: the data are
    deleted, then read. *)
Theorem C76_programs_refuted : exists l h0, f_init Nat.eqb ex_hash ex_bytes 8 1%N = Ok h0 /\
  l = [FRange 0 [4; 2] 2%N; FAssign 0 0] /\ f_run ex_lt Nat.eqb ex_hash ex_bytes l h0 = Err HUB.
Proof.
  eexists _, _. split; [vm_compute; reflexivity|]. split; [reflexivity|]. vm_compute. reflexivity.
Qed.
Print Assumptions C76_programs_refuted.

(** ** A concrete program *)

Definition knownb (e : sets (A := nat)) (v : var) : bool := match set_of e v with Some _ => true | None => false end.
Definition f_properb (o : fop nat) (e : sets) : bool :=
  match o with
  | FDefault _ | FRange _ _ _ => true
  | FCopy _ w => knownb e w
  | FAssign v w => knownb e v && knownb e w &&
      (negb (Nat.eqb v w) || match the e v with [] => true | _ => false end ||
       existsb (fun x => negb (Nat.eqb (fst x) v) && knownb e (fst x) && same Nat.eqb (the e (fst x)) (the e v)) e)
  | FInsert v _ _ | FErase v _ _ | FDestroy v | FCount v _ | FSize v | FEmpty v => knownb e v
  | FSum _ u w _ | FIntersection _ u w _ | FDifference _ u w _ | FSwap u w | FEqual u w => knownb e u && knownb e w
  end.
Definition f_allocb (o : fop nat) (h : heap (list nat)) : bool :=
  match o with
  | FRange _ _ a | FInsert _ _ a | FErase _ _ a | FSum _ _ _ a | FIntersection _ _ _ a | FDifference _ _ _ a =>
      match blocks h a with None => true | Some _ => false end
  | _ => true
  end.
Fixpoint f_historyb (l : list (fop nat)) (h : heap (list nat)) (e : sets) : bool :=
  match l with
  | [] => true
  | o :: l' => f_properb o e && f_allocb o h &&
               match f_step ex_lt Nat.eqb ex_hash ex_bytes o h with
               | Ok (h', _) => f_historyb l' h' (fst (s_step Nat.eqb o e))
               | Err _ => false
               end
  end.
Lemma knownb_spec : forall e v, knownb e v = true -> known e v.
Proof. intros e v. unfold knownb, known. destruct (set_of e v); congruence. Qed.
Lemma f_properb_spec : forall o e, f_properb o e = true -> f_proper Nat.eqb o e.
Proof.
  intros o e H. destruct o; cbn [f_properb f_proper] in *; auto using knownb_spec;
    try (apply andb_prop in H; destruct H as [H1 H2]; split; now apply knownb_spec).
  apply andb_prop in H. destruct H as [H H3]. apply andb_prop in H. destruct H as [H1 H2].
  split; [now apply knownb_spec|]. split; [now apply knownb_spec|]. apply orb_prop in H3. destruct H3 as [H3|H3].
  - apply orb_prop in H3. destruct H3 as [H3|H3].
    + left. apply negb_true_iff, Nat.eqb_neq in H3. exact H3.
    + right. left. destruct (the e v); congruence.
  - right. right. apply existsb_exists in H3. destruct H3 as (x & _ & Hx). apply andb_prop in Hx. destruct Hx as [Hx Hs].
    apply andb_prop in Hx. destruct Hx as [Hx Hk]. exists (fst x). apply negb_true_iff, Nat.eqb_neq in Hx. auto using knownb_spec.
Qed.
Lemma f_historyb_spec : forall l h e, f_historyb l h e = true -> f_history Nat.eqb ex_lt ex_hash ex_bytes l h e.
Proof.
  induction l as [|o l IH]; intros h e H; cbn [f_historyb f_history] in *; auto.
  apply andb_prop in H. destruct H as [H H3]. apply andb_prop in H. destruct H as [H1 H2].
  split; [now apply f_properb_spec|]. split.
  - destruct o; cbn [f_allocb f_alloc] in *; auto; destruct (blocks h a); congruence.
  - intros h' x E. rewrite E in H3. auto.
Qed.

Definition ex_prog : list (fop nat) :=
  [ FDefault 0; FRange 1 [3; 1; 2; 3] 2%N; FRange 2 [2; 5] 3%N; FInsert 0 2 4%N; FInsert 0 5 5%N;
    FEqual 0 2;                       (* {2, 5} was built in two ways *)
    FEqual 0 1; FSum 3 1 2 6%N; FIntersection 4 1 2 7%N; FDifference 5 3 1 8%N; FSize 3; FInsert 4 2 9%N;
    FErase 5 5 10%N; FEmpty 5; FAssign 5 5;              (* 5 is empty *)
    FAssign 0 0;                                         (* 2 holds the same set *)
    FCopy 6 1; FSwap 6 6; FSwap 6 2; FEqual 6 0; FDestroy 1; FCount 2 3; FErase 2 1 11%N; FErase 2 1 12%N; FSize 2; FDestroy 0 ].

Example ex_program : exists h0, f_init Nat.eqb ex_hash ex_bytes 8 1%N = Ok h0 /\
  f_history Nat.eqb ex_lt ex_hash ex_bytes ex_prog h0 [] /\ (N.of_nat (1 + f_total ex_prog) < 2 ^ 32 - 1)%N /\
  filter (fun x => match x with ONone => false | _ => true end) (snd (s_run Nat.eqb ex_prog [])) =
  [ OBool true; OBool true; OBool true; OBool false; ONum 4; OBool false; ONum 1; OBool true; OBool true; ONum 1; ONum 1; ONum 0;
    ONum 2 ].
Proof.
  eexists. split; [vm_compute; reflexivity|]. split; [apply f_historyb_spec; vm_compute; reflexivity|].
  split; vm_compute; reflexivity.
Qed.
