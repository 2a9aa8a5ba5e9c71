(** * Facts about canonical SDDs; canonicity *)

From Coq Require Import List Bool NArith Arith Lia Permutation Sorted.
From Verif Require Import SortedSets Values Sdd.
Import ListNotations.

(** ** Sorted lists are determined by their elements *)

Lemma strongly_sorted_ext : forall A (R : A -> A -> Prop),
  (forall x, ~ R x x) -> (forall x y, R x y -> R y x -> False) ->
  forall l1 l2, StronglySorted R l1 -> StronglySorted R l2 ->
  (forall x, In x l1 <-> In x l2) -> l1 = l2.
Proof.
  intros A R Hirr Hasym. induction l1 as [|x r IH]; intros l2 H1 H2 Hext.
  - destruct l2 as [|y s]; auto. exfalso. apply (Hext y). now left.
  - destruct l2 as [|y s]; [exfalso; apply (Hext x); now left|].
    inversion H1 as [|x' r' Hr Hx]; inversion H2 as [|y' s' Hs Hy]; subst.
    rewrite Forall_forall in *.
    assert (x = y).
    { destruct (proj1 (Hext x) (or_introl eq_refl)) as [->|Hxs]; auto.
      destruct (proj2 (Hext y) (or_introl eq_refl)) as [->|Hyr]; auto.
      exfalso; eauto. }
    subst y. f_equal. apply IH; auto. intros z; split; intros Hz.
    + destruct (proj1 (Hext z) (or_intror Hz)) as [<-|]; auto. exfalso; eapply Hirr; eauto.
    + destruct (proj2 (Hext z) (or_intror Hz)) as [<-|]; auto. exfalso; eapply Hirr; eauto.
Qed.

Lemma strongly_sorted_map : forall A B (f : A -> B) (R : B -> B -> Prop) l,
  StronglySorted R (map f l) -> StronglySorted (fun x y => R (f x) (f y)) l.
Proof.
  induction l as [|x r IH]; intros H; simpl in *; constructor; inversion H; subst; auto.
  rewrite Forall_forall in *. intros y Hy. apply H3. now apply in_map.
Qed.

Lemma existsb_In : forall A (f : A -> bool) l, existsb f l = true <-> exists x, In x l /\ f x = true.
Proof. intros; apply existsb_exists. Qed.

Lemma existsb_ext_eq : forall A (f : A -> bool) B (g : B -> bool) l m,
  ((exists x, In x l /\ f x = true) <-> (exists y, In y m /\ g y = true)) ->
  existsb f l = existsb g m.
Proof.
  intros A f B g l m H.
  destruct (existsb f l) eqn:H1, (existsb g m) eqn:H2; auto.
  - apply existsb_exists in H1. apply H in H1. apply existsb_exists in H1. congruence.
  - apply existsb_exists in H2. apply H in H2. apply existsb_exists in H2. congruence.
Qed.

Lemma bool_ext : forall a b : bool, (a = true <-> b = true) -> a = b.
Proof. intros [] []; intuition. Qed.

(** ** Alphas: lists of arcs seen as functions from keys to sets *)

Section Alpha.
  Variable VI : values_impl.
  Notation V := (vt VI).
  Context {K W : Type}.
  Variable mem : W -> K -> bool.

  (** (k, p) belongs to the alpha [arcs]. *)
  Definition acontains (arcs : list (W * sdd V)) (k : K) (p : asg (elt VI)) : bool :=
    existsb (fun arc => mem (fst arc) k && contains (snd arc) p) arcs.

  Lemma acontains_spec : forall arcs k p, acontains arcs k p = true <->
    exists v s, In (v, s) arcs /\ mem v k = true /\ contains s p = true.
  Proof.
    intros arcs k p; unfold acontains; rewrite existsb_exists; split.
    - intros [[v s] [H1 H2]]; simpl in H2; apply andb_prop in H2. exists v, s; intuition.
    - intros (v & s & H1 & H2 & H3). exists (v, s); simpl; rewrite H2, H3; auto.
  Qed.

  Lemma acontains_perm : forall a1 a2, Permutation a1 a2 ->
    forall k p, acontains a1 k p = acontains a2 k p.
  Proof.
    intros a1 a2 HP k p. apply bool_ext. rewrite !acontains_spec.
    split; intros (v & s & H & H'); exists v, s; split; auto.
    - eapply Permutation_in; eauto.
    - eapply Permutation_in; [apply Permutation_sym|]; eauto.
  Qed.

  Definition adisjoint (arcs : list (W * sdd V)) : Prop :=
    ForallOrdPairs (fun a b => disjoint mem (fst a) (fst b)) arcs.

  Lemma disjoint_sym : forall v w, disjoint mem v w -> disjoint mem w v.
  Proof. intros v w H k H1 H2; eapply H; eauto. Qed.

  Lemma adisjoint_unique : forall arcs, adisjoint arcs ->
    forall v s v' s' k, In (v, s) arcs -> In (v', s') arcs ->
    mem v k = true -> mem v' k = true -> (v, s) = (v', s').
  Proof.
    intros arcs H v s v' s' k H1 H2 H3 H4.
    destruct (ForallOrdPairs_In H _ _ H1 H2) as [E|[D|D]]; auto.
    - exfalso; eapply D; simpl; eauto.
    - exfalso; eapply D; simpl; eauto.
  Qed.

  (** Fixing a key of one arc gives the successor of this arc. *)
  Lemma acontains_residual : forall arcs, adisjoint arcs ->
    forall v s k, In (v, s) arcs -> mem v k = true ->
    forall p, acontains arcs k p = contains s p.
  Proof.
    intros arcs HD v s k Hin Hk p. apply bool_ext. rewrite acontains_spec. split.
    - intros (v' & s' & H1 & H2 & H3).
      assert (E : (v, s) = (v', s')) by (eapply adisjoint_unique; eauto).
      injection E as -> ->; auto.
    - intros H. exists v, s; auto.
  Qed.

  Lemma acontains_out : forall arcs k, (forall v s, In (v, s) arcs -> mem v k = false) ->
    forall p, acontains arcs k p = false.
  Proof.
    intros arcs k H p. destruct (acontains arcs k p) eqn:E; auto.
    apply acontains_spec in E. destruct E as (v & s & H1 & H2 & _).
    rewrite (H _ _ H1) in H2; discriminate.
  Qed.

  Lemma ssorted_inj : forall lt, strict_total lt -> forall (arcs : list (W * sdd V)) v v' s,
    ssorted lt (map snd arcs) -> In (v, s) arcs -> In (v', s) arcs -> v = v'.
  Proof.
    intros lt ST arcs v v' s HS H1 H2. apply (ssorted_nodup lt ST) in HS.
    induction arcs as [|[w t] r IH]; simpl in *; [tauto|]. inversion HS; subst.
    destruct H1 as [H1|H1], H2 as [H2|H2].
    - congruence.
    - injection H1 as -> ->. exfalso; apply H3. change s with (snd (v', s)). now apply in_map.
    - injection H2 as -> ->. exfalso; apply H3. change s with (snd (v, s)). now apply in_map.
    - auto.
  Qed.

  (** An alpha is determined by the set it represents. *)
  Lemma alpha_unique : forall lt, strict_total lt ->
    forall A B : list (W * sdd V),
    (forall v s, In (v, s) A -> (exists k, mem v k = true) /\ (exists p, contains s p = true)) ->
    (forall v s, In (v, s) B -> (exists k, mem v k = true) /\ (exists p, contains s p = true)) ->
    adisjoint A -> adisjoint B ->
    ssorted lt (map snd A) -> ssorted lt (map snd B) ->
    (forall v s w t, In (v, s) A -> In (w, t) B ->
       (forall p, contains s p = contains t p) -> s = t) ->
    (forall v s w t, In (v, s) A -> In (w, t) B ->
       (forall k, mem v k = mem w k) -> v = w) ->
    (forall k p, acontains A k p = acontains B k p) ->
    A = B.
  Proof.
    intros lt ST A B HA HB DA DB SA SB IHs IHv Hsame.
    (* successors of arcs sharing a key are equal *)
    assert (Hsucc : forall v s w t k, In (v, s) A -> In (w, t) B ->
              mem v k = true -> mem w k = true -> s = t).
    { intros v s w t k H1 H2 H3 H4. eapply IHs; eauto. intros p.
      rewrite <- (acontains_residual A DA v s k H1 H3 p).
      rewrite <- (acontains_residual B DB w t k H2 H4 p). apply Hsame. }
    (* every key of an arc of A belongs to some arc of B, and conversely *)
    assert (HkA : forall v s k, In (v, s) A -> mem v k = true ->
              exists w t, In (w, t) B /\ mem w k = true).
    { intros v s k H1 H2. destruct (HA _ _ H1) as [_ [p Hp]].
      assert (acontains A k p = true) as H by (apply acontains_spec; eauto).
      rewrite Hsame in H. apply acontains_spec in H. destruct H as (w & t & H3 & H4 & _).
      eauto. }
    assert (HkB : forall w t k, In (w, t) B -> mem w k = true ->
              exists v s, In (v, s) A /\ mem v k = true).
    { intros w t k H1 H2. destruct (HB _ _ H1) as [_ [p Hp]].
      assert (acontains B k p = true) as H by (apply acontains_spec; eauto).
      rewrite <- Hsame in H. apply acontains_spec in H. destruct H as (v & s & H3 & H4 & _).
      eauto. }
    assert (Hval : forall v w s, In (v, s) A -> In (w, s) B -> v = w).
    { intros v w s H1 H2. eapply IHv; eauto. intros k. apply bool_ext. split; intros Hk.
      - destruct (HkA _ _ _ H1 Hk) as (w' & t' & H3 & H4).
        assert (s = t') by (eapply Hsucc; eauto). subst t'.
        assert (w = w') by exact (ssorted_inj lt ST B w w' s SB H2 H3). congruence.
      - destruct (HkB _ _ _ H2 Hk) as (v' & s' & H3 & H4).
        assert (s' = s) by (eapply Hsucc; eauto). subst s'.
        assert (v = v') by exact (ssorted_inj lt ST A v v' s SA H1 H3). congruence. }
    pose proof (strongly_sorted_map _ _ (@snd W (sdd V)) _ _ SA) as S1.
    pose proof (strongly_sorted_map _ _ (@snd W (sdd V)) _ _ SB) as S2.
    apply (strongly_sorted_ext _ (fun x y => lt (snd x) (snd y) = true)); auto.
    - intros [v s]; simpl. rewrite (st_irrefl ST). discriminate.
    - intros [v s] [w t]; simpl. intros H1 H2.
      rewrite (lt_asym lt ST _ _ H1) in H2; discriminate.
    - intros [v s]; split; intros Hin.
      + destruct (HA _ _ Hin) as [[k Hk] _].
        destruct (HkA _ _ _ Hin Hk) as (w & t & H3 & H4).
        assert (s = t) by (eapply Hsucc; eauto). subst t.
        rewrite (Hval _ _ _ Hin H3). exact H3.
      + destruct (HB _ _ Hin) as [[k Hk] _].
        destruct (HkB _ _ _ Hin Hk) as (w & t & H3 & H4).
        assert (t = s) by (eapply Hsucc; eauto). subst t.
        rewrite <- (Hval _ _ _ H3 Hin). exact H3.
  Qed.
End Alpha.

Section Facts.
  Variable VI : values_impl.
  Variable VL : values_laws VI.
  Notation V := (vt VI).
  Variable lt : sdd V -> sdd V -> bool.

  Lemma contains_flat : forall x arcs y a q,
    contains (Flat x arcs) (AVal y a q) = N.eqb x y && acontains VI (v_mem VI) arcs a q.
  Proof. reflexivity. Qed.

  Lemma contains_hier : forall x arcs y n q,
    contains (Hier x arcs) (ANest y n q) = N.eqb x y && acontains VI contains arcs n q.
  Proof. reflexivity. Qed.

  (** A canonical SDD is |0| exactly when it contains nothing. *)
  Lemma canonical_nonempty : forall t, canonical VI lt t -> t <> Zero ->
    exists p, contains t p = true.
  Proof.
    intros t H; induction H as [| |x arcs Hne Hnz Hc IH HD HS|x arcs Hne Hnz Hcv IHv Hc IH HD HS];
      intros Hz.
    - congruence.
    - exists ANil; reflexivity.
    - destruct arcs as [|[v s] r]; [congruence|].
      destruct (Hnz v s (or_introl eq_refl)) as [H1 H2].
      destruct (v_nonempty VI VL v H1) as [a Ha].
      destruct (IH v s (or_introl eq_refl) H2) as [q Hq].
      exists (AVal x a q). rewrite contains_flat, N.eqb_refl. rewrite andb_true_l.
      apply acontains_spec. exists v, s; simpl; auto.
    - destruct arcs as [|[v s] r]; [congruence|].
      destruct (Hnz v s (or_introl eq_refl)) as [H1 H2].
      destruct (IHv v s (or_introl eq_refl) H1) as [n Hn].
      destruct (IH v s (or_introl eq_refl) H2) as [q Hq].
      exists (ANest x n q). rewrite contains_hier, N.eqb_refl. rewrite andb_true_l.
      apply acontains_spec. exists v, s; simpl; auto.
  Qed.

  Lemma canonical_zero_iff : forall t, canonical VI lt t ->
    (t = Zero <-> forall p, contains t p = false).
  Proof.
    intros t H; split.
    - intros -> p; reflexivity.
    - intros Hp. destruct t; auto; exfalso.
      all: destruct (canonical_nonempty _ H) as [p Hq]; [discriminate|].
      all: rewrite Hp in Hq; discriminate.
  Qed.

  Hypothesis ST : strict_total lt.

  Theorem canonicity : forall x y, canonical VI lt x -> canonical VI lt y ->
    (forall p, contains x p = contains y p) -> x = y.
  Proof.
    induction x as [| |x arcs IH|x arcs IH] using sdd_ind'; intros y Hx Hy Hsame.
    - symmetry. apply canonical_zero_iff; auto. intros p; rewrite <- Hsame; reflexivity.
    - assert (Hnil : contains y ANil = true) by (rewrite <- Hsame; reflexivity).
      destruct y; simpl in Hnil; try discriminate; reflexivity.
    - destruct (canonical_nonempty _ Hx) as [p Hp]; [discriminate|].
      assert (Hp' := Hp). rewrite Hsame in Hp'.
      destruct p as [|x0 a q|x0 n q]; try discriminate.
      destruct y as [| |y arcs'|y arcs']; try discriminate.
      rewrite contains_flat in *. apply andb_prop in Hp. apply andb_prop in Hp'.
      destruct Hp as [E1 _]. destruct Hp' as [E2 _].
      apply N.eqb_eq in E1. apply N.eqb_eq in E2. subst x0 y.
      inversion Hx as [| |? ? Hne Hnz Hc HD HS|]; subst.
      inversion Hy as [| |? ? Hne' Hnz' Hc' HD' HS'|]; subst.
      f_equal. apply (alpha_unique VI (v_mem VI) lt ST); auto.
      + intros v s Hin. split.
        * apply v_nonempty; auto. apply (Hnz _ _ Hin).
        * apply canonical_nonempty; eauto. apply (Hnz _ _ Hin).
      + intros v s Hin. split.
        * apply v_nonempty; auto. apply (Hnz' _ _ Hin).
        * apply canonical_nonempty; eauto. apply (Hnz' _ _ Hin).
      + intros v s w t H1 H2 H3. eapply IH; eauto.
      + intros v s w t _ _ H3. apply (vl_ext VL). exact H3.
      + intros k p. specialize (Hsame (AVal x k p)). rewrite !contains_flat, N.eqb_refl in Hsame.
        exact Hsame.
    - destruct (canonical_nonempty _ Hx) as [p Hp]; [discriminate|].
      assert (Hp' := Hp). rewrite Hsame in Hp'.
      destruct p as [|x0 a q|x0 n q]; try discriminate.
      destruct y as [| |y arcs'|y arcs']; try discriminate.
      rewrite contains_hier in *. apply andb_prop in Hp. apply andb_prop in Hp'.
      destruct Hp as [E1 _]. destruct Hp' as [E2 _].
      apply N.eqb_eq in E1. apply N.eqb_eq in E2. subst x0 y.
      inversion Hx as [| | |? ? Hne Hnz Hcv Hc HD HS]; subst.
      inversion Hy as [| | |? ? Hne' Hnz' Hcv' Hc' HD' HS']; subst.
      f_equal. apply (alpha_unique VI contains lt ST); auto.
      + intros v s Hin. split.
        * apply canonical_nonempty; eauto. apply (Hnz _ _ Hin).
        * apply canonical_nonempty; eauto. apply (Hnz _ _ Hin).
      + intros v s Hin. split.
        * apply canonical_nonempty; eauto. apply (Hnz' _ _ Hin).
        * apply canonical_nonempty; eauto. apply (Hnz' _ _ Hin).
      + intros v s w t H1 H2 H3. destruct (IH _ _ H1) as [_ IH2]. eapply IH2; eauto.
      + intros v s w t H1 H2 H3. destruct (IH _ _ H1) as [IH1 _]. eapply IH1; eauto.
      + intros k p. specialize (Hsame (ANest x k p)). rewrite !contains_hier, N.eqb_refl in Hsame.
        exact Hsame.
  Qed.
End Facts.
