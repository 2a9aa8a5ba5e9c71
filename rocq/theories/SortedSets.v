(** * boost::container::flat_set and flat_map

    Sorted, duplicate-free containers, as used by nary_builder (sdd/dd/nary.hh 155-156),
    alpha_builder (sdd/dd/alpha.hh 93-94), square_union (sdd/dd/square_union.hh 37-38) and the
    fast-iterable union (sdd/dd/sum.hh 236-239, 267-270).  The comparison is a parameter
    (it is the comparison of addresses for SDDs). *)

From Coq Require Import List Bool Permutation Sorted.
Import ListNotations.

(** A strict total order given by a boolean comparison. *)
Record strict_total {A : Type} (lt : A -> A -> bool) : Prop := {
  st_irrefl : forall x, lt x x = false;
  st_trans : forall x y z, lt x y = true -> lt y z = true -> lt x z = true;
  st_total : forall x y, lt x y = false -> lt y x = false -> x = y
}.
Arguments st_irrefl {A lt} _ _.
Arguments st_trans {A lt} _ _ _ _ _ _.
Arguments st_total {A lt} _ _ _ _ _.

Section FlatSet.
  Context {A : Type}.
  Variable lt : A -> A -> bool.

  (** flat_set::insert: keep sorted, ignore an element already present. *)
  Fixpoint fs_insert (x : A) (l : list A) : list A :=
    match l with
    | [] => [x]
    | y :: r => if lt x y then x :: l
                else if lt y x then y :: fs_insert x r
                else l
    end.

  (** The element equality induced by the order: neither is less than the other
      (as tested at sdd/dd/square_union.hh 58-59). *)
  Definition equivb (x y : A) : bool := negb (lt x y) && negb (lt y x).

  Definition ssorted (l : list A) : Prop := StronglySorted (fun x y => lt x y = true) l.

  Hypothesis ST : strict_total lt.

  Lemma equivb_spec : forall x y, equivb x y = true <-> x = y.
  Proof.
    intros x y; unfold equivb; split.
    - intros H; apply andb_prop in H; destruct H as [H1 H2].
      apply negb_true_iff in H1; apply negb_true_iff in H2. now apply (st_total ST).
    - intros ->; now rewrite (st_irrefl ST).
  Qed.

  Lemma lt_asym : forall x y, lt x y = true -> lt y x = false.
  Proof.
    intros x y H; destruct (lt y x) eqn:H2; auto.
    pose proof (st_trans ST _ _ _ H H2) as H3. rewrite (st_irrefl ST) in H3; discriminate.
  Qed.

  Lemma fs_insert_in : forall x l y, In y (fs_insert x l) <-> y = x \/ In y l.
  Proof.
    intros x l; induction l as [|z r IH]; intros y; simpl.
    - intuition.
    - destruct (lt x z) eqn:H1; simpl; [intuition|].
      destruct (lt z x) eqn:H2; simpl.
      + rewrite IH. intuition.
      + pose proof (st_total ST _ _ H1 H2); subst. intuition.
  Qed.

  Lemma fs_insert_sorted : forall x l, ssorted l -> ssorted (fs_insert x l).
  Proof.
    intros x l; induction l as [|z r IH]; intros HS; simpl.
    - constructor; constructor.
    - inversion HS; subst.
      destruct (lt x z) eqn:H5; [|destruct (lt z x) eqn:H4].
      + constructor; auto. constructor; auto.
        rewrite Forall_forall in *. intros w Hw. eapply (st_trans ST); eauto.
      + constructor; [now apply IH|]. rewrite Forall_forall in *. intros w Hw.
        apply fs_insert_in in Hw. destruct Hw; subst; auto.
      + auto.
  Qed.

  Lemma ssorted_nodup : forall l, ssorted l -> NoDup l.
  Proof.
    induction l as [|x r IH]; intros H; constructor; inversion H; subst; auto.
    intros Hin. rewrite Forall_forall in *. specialize (H3 _ Hin).
    rewrite (st_irrefl ST) in H3; discriminate.
  Qed.

  Lemma ssorted_ext : forall l1 l2, ssorted l1 -> ssorted l2 ->
    (forall x, In x l1 <-> In x l2) -> l1 = l2.
  Proof.
    induction l1 as [|x r IH]; intros l2 H1 H2 Hext.
    - destruct l2 as [|y s]; auto. exfalso. apply (Hext y). now left.
    - destruct l2 as [|y s]; [exfalso; apply (Hext x); now left|].
      inversion H1 as [|x' r' Hr Hx]; inversion H2 as [|y' s' Hs Hy]; subst.
      rewrite Forall_forall in *.
      assert (x = y).
      { destruct (proj1 (Hext x) (or_introl eq_refl)) as [->|Hxs]; auto.
        destruct (proj2 (Hext y) (or_introl eq_refl)) as [->|Hyr]; auto.
        specialize (Hy _ Hxs). specialize (Hx _ Hyr).
        pose proof (lt_asym _ _ Hx). congruence. }
      subst y. f_equal. apply IH; auto. intros z; split; intros Hz.
      + destruct (proj1 (Hext z) (or_intror Hz)) as [<-|]; auto.
        exfalso. specialize (Hx _ Hz). rewrite (st_irrefl ST) in Hx; discriminate.
      + destruct (proj2 (Hext z) (or_intror Hz)) as [<-|]; auto.
        exfalso. specialize (Hy _ Hz). rewrite (st_irrefl ST) in Hy; discriminate.
  Qed.
End FlatSet.

Section FlatMap.
  Context {K B : Type}.
  Variable lt : K -> K -> bool.

  (** flat_map: replace the value at [k] by [f (Some old)], or insert [f None]. Covers emplace
      (existing entries win), find-then-modify and lower_bound/emplace_hint. *)
  Fixpoint fm_upd (k : K) (f : option B -> B) (m : list (K * B)) : list (K * B) :=
    match m with
    | [] => [(k, f None)]
    | (k', b) :: r => if lt k k' then (k, f None) :: m
                      else if lt k' k then (k', b) :: fm_upd k f r
                      else (k', f (Some b)) :: r
    end.

  (** flat_map::emplace *)
  Definition fm_emplace (k : K) (b : B) (m : list (K * B)) : list (K * B) :=
    fm_upd k (fun o => match o with Some b' => b' | None => b end) m.

  Definition ksorted (m : list (K * B)) : Prop := ssorted lt (map fst m).

  Hypothesis ST : strict_total lt.

  (** Characterisation of an update, entry by entry. *)
  Lemma fm_upd_in : forall k f m, ksorted m -> forall k' b',
    In (k', b') (fm_upd k f m) <->
    (k' <> k /\ In (k', b') m) \/
    (k' = k /\ ((exists b, In (k, b) m /\ b' = f (Some b)) \/
                ((forall b, ~ In (k, b) m) /\ b' = f None))).
  Proof.
    intros k f m; induction m as [|[k1 b1] r IH]; intros HS k' b'.
    - simpl. split.
      + intros [H|[]]. injection H as <- <-. right; split; [reflexivity|]. right; split; auto.
      + intros [[_ []]|[-> [[b [[] _]]|[_ ->]]]]. now left.
    - unfold ksorted in HS; simpl in HS. inversion HS as [|x y Hr Hx]; subst.
      rewrite Forall_forall in Hx.
      assert (Hlt : forall k2 b2, In (k2, b2) r -> lt k1 k2 = true).
      { intros k2 b2 Hin. apply Hx. apply in_map_iff. exists (k2, b2); auto. }
      cbn [fm_upd]. destruct (lt k k1) eqn:H1; [|destruct (lt k1 k) eqn:H2].
      + assert (Hno : forall b, ~ In (k, b) ((k1, b1) :: r)).
        { intros b [H|H].
          - injection H as -> ->. rewrite (st_irrefl ST) in H1; discriminate.
          - specialize (Hlt _ _ H). pose proof (lt_asym lt ST _ _ H1). congruence. }
        split.
        * intros [H|H].
          -- injection H as <- <-. right; split; auto.
          -- left. split; auto. intros ->. exact (Hno _ H).
        * intros [[Hne H]|[-> [[b [H ->]]|[_ ->]]]].
          -- now right.
          -- exfalso; exact (Hno _ H).
          -- now left.
      + assert (Hne1 : k1 <> k). { intros ->. rewrite (st_irrefl ST) in H2; discriminate. }
        simpl. rewrite (IH Hr). split.
        * intros [H|[[Hne H]|[-> [[b [H ->]]|[H ->]]]]].
          -- injection H as <- <-. left; auto.
          -- left; auto.
          -- right; split; auto. left; exists b; auto.
          -- right; split; auto. right; split; auto. intros b [H3|H3]; [congruence|eapply H; eauto].
        * intros [[Hne [H|H]]|[-> [[b [[H|H] ->]]|[H ->]]]].
          -- left; auto.
          -- right; left; auto.
          -- injection H as -> ->; congruence.
          -- right; right; split; auto. left; eauto.
          -- right; right; split; auto. right; split; auto. intros b Hb; eapply H; eauto.
      + pose proof (st_total ST _ _ H1 H2); subst k1.
        assert (Hno : forall b, ~ In (k, b) r).
        { intros b H. specialize (Hlt _ _ H). congruence. }
        simpl. split.
        * intros [H|H].
          -- injection H as <- <-. right; split; auto. left; exists b1; auto.
          -- left. split; [|now right]. intros ->. exact (Hno _ H).
        * intros [[Hne [H|H]]|[-> [[b [[H|H] ->]]|[H ->]]]].
          -- injection H as <- <-; congruence.
          -- now right.
          -- injection H as ->. now left.
          -- exfalso; exact (Hno _ H).
          -- exfalso; apply (H b1); now left.
  Qed.

  Lemma fm_upd_keys : forall k f m x,
    In x (map fst (fm_upd k f m)) <-> x = k \/ In x (map fst m).
  Proof.
    intros k f m; induction m as [|[k1 b1] r IH]; intros x; simpl.
    - intuition.
    - destruct (lt k k1) eqn:H1; [|destruct (lt k1 k) eqn:H2]; simpl.
      + intuition.
      + rewrite IH. intuition.
      + pose proof (st_total ST _ _ H1 H2); subst k1. intuition.
  Qed.

  Lemma fm_upd_sorted : forall k f m, ksorted m -> ksorted (fm_upd k f m).
  Proof.
    unfold ksorted. intros k f m; induction m as [|[k1 b1] r IH]; intros HS; simpl in *.
    - constructor; constructor.
    - inversion HS as [|x y Hr Hx]; subst. rewrite Forall_forall in Hx.
      destruct (lt k k1) eqn:H1; [|destruct (lt k1 k) eqn:H2]; simpl.
      + constructor; [exact HS|]. rewrite Forall_forall. intros z [<-|Hz]; auto.
        eapply (st_trans ST); eauto.
      + constructor; [now apply IH|]. rewrite Forall_forall. intros z Hz.
        apply fm_upd_keys in Hz. destruct Hz as [->|Hz]; auto.
      + constructor; [exact Hr|]. rewrite Forall_forall. exact Hx.
  Qed.

  Lemma ksorted_nodup : forall m, ksorted m -> NoDup (map fst m).
  Proof. intros m H. eapply ssorted_nodup; eauto. Qed.

  Lemma ksorted_fun : forall m, ksorted m -> forall k b1 b2,
    In (k, b1) m -> In (k, b2) m -> b1 = b2.
  Proof.
    intros m H. apply ksorted_nodup in H. induction m as [|[k' b'] r IH]; simpl in *;
      intros k b1 b2 H1 H2; [tauto|].
    inversion H; subst.
    destruct H1 as [H1|H1], H2 as [H2|H2].
    - congruence.
    - injection H1 as -> ->. exfalso; apply H4. change k with (fst (k, b2)). now apply in_map.
    - injection H2 as -> ->. exfalso; apply H4. change k with (fst (k, b1)). now apply in_map.
    - eauto.
  Qed.
End FlatMap.

(** ** flat_map whose values are flat_sets *)

Lemma fm_upd_ext : forall K B (lt : K -> K -> bool) (f g : option B -> B), (forall o, f o = g o) ->
  forall k m, fm_upd lt k f m = fm_upd lt k g m.
Proof.
  intros K B lt f g H k m; induction m as [|[k' b] r IH]; simpl; rewrite ?H, ?IH; reflexivity.
Qed.

Section MultiMap.
  Context {K A : Type}.
  Variable ltK : K -> K -> bool.
  Variable ltA : A -> A -> bool.

  (** Insert [x] in the set associated to [k]. *)
  Definition mm_add (k : K) (x : A) (m : list (K * list A)) : list (K * list A) :=
    fm_upd ltK k (fun o => fs_insert ltA x (match o with Some b => b | None => [] end)) m.

  (** The map [m] represents the pairs added so far. *)
  Definition mm_rel (m : list (K * list A)) (pairs : list (K * A)) : Prop :=
    ksorted ltK m /\
    (forall k b, In (k, b) m -> b <> [] /\ ssorted ltA b) /\
    (forall k x, (exists b, In (k, b) m /\ In x b) <-> In (k, x) pairs).

  Lemma mm_rel_nil : mm_rel [] [].
  Proof.
    split; [constructor|split].
    - intros s b [].
    - intros s v; split; [intros (b & [] & _)|intros []].
  Qed.

  Lemma mm_rel_empty : forall pairs, mm_rel [] pairs -> pairs = [].
  Proof.
    intros [|[s v] r] (_ & _ & H); auto.
    destruct (proj2 (H s v) (or_introl eq_refl)) as (b & [] & _).
  Qed.

  Lemma mm_rel_nonempty : forall m, mm_rel m [] -> m = [].
  Proof.
    intros [|[s [|v b]] r] (_ & H1 & H2); auto.
    - destruct (H1 s [] (or_introl eq_refl)); congruence.
    - exfalso. apply (H2 s v). exists (v :: b); simpl; auto.
  Qed.

  Hypothesis STK : strict_total ltK.
  Hypothesis STA : strict_total ltA.

  Definition st_eq_dec (x y : K) : {x = y} + {x <> y}.
  Proof.
    destruct (equivb ltK x y) eqn:E.
    - left. now apply (equivb_spec ltK STK).
    - right. intros ->. rewrite (proj2 (equivb_spec ltK STK y y) eq_refl) in E. discriminate.
  Defined.

  Lemma mm_add_rel : forall m pairs k x, mm_rel m pairs -> mm_rel (mm_add k x m) (pairs ++ [(k, x)]).
  Proof.
    intros m pairs s v (H1 & H2 & H3). unfold mm_add.
    set (f := fun o => _).
    split; [|split].
    - apply fm_upd_sorted; auto.
    - intros s' b' Hin. apply (fm_upd_in ltK STK) in Hin; auto.
      destruct Hin as [[_ Hin]|[-> [(b & Hin & ->)|[_ ->]]]].
      + eapply H2; eauto.
      + unfold f. split.
        * intros E. assert (In v []) as []. rewrite <- E. apply (fs_insert_in _ STA); auto.
        * apply fs_insert_sorted; auto. eapply H2; eauto.
      + unfold f; simpl. split; [discriminate|]. constructor; constructor.
    - intros s' v'. rewrite in_app_iff. split.
      + intros (b & Hin & Hv'). apply (fm_upd_in ltK STK) in Hin; auto.
        destruct Hin as [[_ Hin]|[-> [(b0 & Hin & ->)|[_ ->]]]].
        * left. apply H3. eauto.
        * unfold f in Hv'. apply (fs_insert_in _ STA) in Hv'. destruct Hv' as [->|Hv'].
          -- right; simpl; auto.
          -- left. apply H3; eauto.
        * simpl in Hv'. destruct Hv' as [->|[]]. right; simpl; auto.
      + intros [Hin|[Hin|[]]].
        * apply H3 in Hin. destruct Hin as (b & Hin & Hv').
          destruct (st_eq_dec s' s) as [->|Hne].
          -- exists (f (Some b)). split.
             ++ apply (fm_upd_in ltK STK); auto. right; split; auto. left; eauto.
             ++ unfold f. apply (fs_insert_in _ STA); auto.
          -- exists b. split; auto. apply (fm_upd_in ltK STK); auto.
        * injection Hin as <- <-.
          destruct (in_dec st_eq_dec s (map fst m)) as [Hm|Hm].
          -- apply in_map_iff in Hm. destruct Hm as ([s0 b] & E & Hin). simpl in E; subst s0.
             exists (f (Some b)). split.
             ++ apply (fm_upd_in ltK STK); auto. right; split; auto. left; eauto.
             ++ unfold f. apply (fs_insert_in _ STA); auto.
          -- exists (f None). split.
             ++ apply (fm_upd_in ltK STK); auto. right; split; auto. right; split; auto.
                intros b Hb. apply Hm. apply in_map_iff. exists (s, b); auto.
             ++ simpl; auto.
  Qed.
End MultiMap.
