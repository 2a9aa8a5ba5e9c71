(** * Model of sdd/values/flat_set.hh *)

From Coq Require Import List Bool NArith Arith Lia Permutation Sorted Eqdep_dec.
From Verif Require Import Base SortedSets Values.
Import ListNotations.

(** ** Algorithms on sorted ranges (std::set_union, std::set_intersection, std::set_difference) *)

Section Merge.
  Context {A : Type}.
  Variable lt : A -> A -> bool.

  (** std::set_union, used at sdd/values/flat_set.hh 513-514. *)
  Fixpoint set_union (l : list A) : list A -> list A :=
    match l with
    | [] => fun r => r
    | x :: l' =>
        fix aux (r : list A) : list A :=
          match r with
          | [] => x :: l'
          | y :: r' => if lt y x then y :: aux r'
                       else if lt x y then x :: set_union l' r
                       else x :: set_union l' r'
          end
    end.

  (** std::set_intersection, used at sdd/values/flat_set.hh 497-498. *)
  Fixpoint set_intersection (l : list A) : list A -> list A :=
    match l with
    | [] => fun _ => []
    | x :: l' =>
        fix aux (r : list A) : list A :=
          match r with
          | [] => []
          | y :: r' => if lt x y then set_intersection l' r
                       else if lt y x then aux r'
                       else x :: set_intersection l' r'
          end
    end.

  (** std::set_difference, used at sdd/values/flat_set.hh 481-482. *)
  Fixpoint set_difference (l : list A) : list A -> list A :=
    match l with
    | [] => fun _ => []
    | x :: l' =>
        fix aux (r : list A) : list A :=
          match r with
          | [] => x :: l'
          | y :: r' => if lt x y then x :: set_difference l' r
                       else if lt y x then aux r'
                       else set_difference l' r'
          end
    end.

  (** boost::container::flat_set built from a range: constructor (begin, end) and
      std::inserter(res, res.begin()). *)
  Definition fs_of_list (l : list A) : list A := fold_left (fun s x => fs_insert lt x s) l [].

  (** boost::container::flat_set::erase(key). *)
  Fixpoint fs_erase (x : A) (l : list A) : list A :=
    match l with
    | [] => []
    | y :: r => if lt x y then l else if lt y x then y :: fs_erase x r else r
    end.

  (** boost::container::flat_set::find(key) != end(), count(key). *)
  Definition fs_mem (l : list A) (x : A) : bool := existsb (equivb lt x) l.

  (** Sortedness as a boolean: the invariant boost maintains. *)
  Fixpoint sortedb (l : list A) : bool :=
    match l with
    | [] => true
    | x :: r => forallb (lt x) r && sortedb r
    end.
End Merge.

Section MergeFacts.
  Context {A : Type}.
  Variable lt : A -> A -> bool.
  Hypothesis ST : strict_total lt.

  Lemma sortedb_spec : forall l, sortedb lt l = true <-> ssorted lt l.
  Proof.
    induction l as [|x r IH]; simpl.
    - split; auto. intros _. constructor.
    - rewrite andb_true_iff, IH, forallb_forall. split.
      + intros [H1 H2]. constructor; auto. now apply Forall_forall.
      + intros H. inversion H; subst. split; auto. now apply Forall_forall.
  Qed.

  Lemma fs_mem_spec : forall l x, fs_mem lt l x = true <-> In x l.
  Proof.
    intros l x. unfold fs_mem. rewrite existsb_exists. split.
    - intros (y & Hy & E). apply (equivb_spec lt ST) in E. now subst.
    - intros H. exists x. split; auto. now apply (equivb_spec lt ST).
  Qed.

  Lemma fold_insert : forall l s, ssorted lt s ->
    let r := fold_left (fun s x => fs_insert lt x s) l s in
    ssorted lt r /\ forall x, In x r <-> In x s \/ In x l.
  Proof.
    induction l as [|a l IH]; intros s HS; cbn [fold_left]; cbv zeta.
    - split; auto. intros x; simpl; tauto.
    - destruct (IH (fs_insert lt a s)) as [I1 I2]; [apply fs_insert_sorted; auto|].
      split; auto. intros x. rewrite I2, (fs_insert_in lt ST). simpl. intuition.
  Qed.

  Lemma fs_of_list_spec : forall l, ssorted lt (fs_of_list lt l) /\
    forall x, In x (fs_of_list lt l) <-> In x l.
  Proof.
    intros l. destruct (fold_insert l [] (SSorted_nil _)) as [H1 H2]. split; auto.
    intros x. unfold fs_of_list. rewrite H2. simpl. tauto.
  Qed.

  Lemma set_union_in : forall l r x, In x (set_union lt l r) <-> In x l \/ In x r.
  Proof.
    induction l as [|a l IHl]; intros r x.
    - simpl. tauto.
    - induction r as [|b r IHr].
      + simpl. tauto.
      + cbn [set_union]. destruct (lt b a) eqn:E1; [|destruct (lt a b) eqn:E2].
        * simpl in *. rewrite IHr. tauto.
        * cbn [In]. rewrite IHl. simpl. tauto.
        * pose proof (st_total ST _ _ E2 E1). subst b. cbn [In]. rewrite IHl. simpl. tauto.
  Qed.

  Lemma ssorted_cons_in : forall a l x, ssorted lt (a :: l) -> In x l -> lt a x = true.
  Proof. intros a l x H. inversion H; subst. rewrite Forall_forall in *. auto. Qed.

  Lemma ssorted_tail : forall a l, ssorted lt (a :: l) -> ssorted lt l.
  Proof. intros a l H. now inversion H. Qed.

  Lemma ssorted_below : forall a b l, ssorted lt (b :: l) -> lt a b = true -> ~ In a (b :: l).
  Proof.
    intros a b l HS HL [<-|Hin].
    - rewrite (st_irrefl ST) in HL. discriminate.
    - pose proof (ssorted_cons_in _ _ _ HS Hin) as H.
      pose proof (st_trans ST _ _ _ HL H) as H2. rewrite (st_irrefl ST) in H2. discriminate.
  Qed.

  Lemma set_intersection_in : forall l r x, ssorted lt l -> ssorted lt r ->
    (In x (set_intersection lt l r) <-> In x l /\ In x r).
  Proof.
    induction l as [|a l IHl]; intros r x HL HR.
    - simpl. tauto.
    - induction r as [|b r IHr].
      + simpl. tauto.
      + cbn [set_intersection]. destruct (lt a b) eqn:E1; [|destruct (lt b a) eqn:E2].
        * rewrite IHl; [|now apply ssorted_tail in HL|exact HR].
          pose proof (ssorted_below a b r HR E1) as Hn. cbn [In] in *. intuition; subst; tauto.
        * specialize (IHr (ssorted_tail _ _ HR)).
          change (In x (set_intersection lt (a :: l) r) <-> In x (a :: l) /\ In x (b :: r)).
          rewrite IHr. pose proof (ssorted_below b a l HL E2) as Hn.
          cbn [In] in *. intuition; subst; tauto.
        * pose proof (st_total ST _ _ E1 E2). subst b. cbn [In].
          rewrite IHl; [|now apply ssorted_tail in HL|now apply ssorted_tail in HR].
          assert (Hn1 : In a l -> False).
          { intros Hin. pose proof (ssorted_cons_in _ _ _ HL Hin) as H.
            rewrite (st_irrefl ST) in H. discriminate. }
          assert (Hn2 : In a r -> False).
          { intros Hin. pose proof (ssorted_cons_in _ _ _ HR Hin) as H.
            rewrite (st_irrefl ST) in H. discriminate. }
          intuition; subst; tauto.
  Qed.

  Lemma set_difference_in : forall l r x, ssorted lt l -> ssorted lt r ->
    (In x (set_difference lt l r) <-> In x l /\ ~ In x r).
  Proof.
    induction l as [|a l IHl]; intros r x HL HR.
    - simpl. tauto.
    - induction r as [|b r IHr].
      + simpl. tauto.
      + cbn [set_difference]. destruct (lt a b) eqn:E1; [|destruct (lt b a) eqn:E2].
        * cbn [In]. rewrite IHl; [|now apply ssorted_tail in HL|exact HR].
          pose proof (ssorted_below a b r HR E1) as Hn. cbn [In] in *. intuition; subst; tauto.
        * specialize (IHr (ssorted_tail _ _ HR)).
          change (In x (set_difference lt (a :: l) r) <-> In x (a :: l) /\ ~ In x (b :: r)).
          rewrite IHr. pose proof (ssorted_below b a l HL E2) as Hn.
          cbn [In] in *. intuition; subst; tauto.
        * pose proof (st_total ST _ _ E1 E2). subst b. cbn [In].
          rewrite IHl; [|now apply ssorted_tail in HL|now apply ssorted_tail in HR].
          assert (Hn1 : In a l -> False).
          { intros Hin. pose proof (ssorted_cons_in _ _ _ HL Hin) as H.
            rewrite (st_irrefl ST) in H. discriminate. }
          assert (Hn2 : In a r -> False).
          { intros Hin. pose proof (ssorted_cons_in _ _ _ HR Hin) as H.
            rewrite (st_irrefl ST) in H. discriminate. }
          intuition; subst; tauto.
  Qed.

  Lemma fs_erase_spec : forall x l, ssorted lt l ->
    ssorted lt (fs_erase lt x l) /\ forall y, In y (fs_erase lt x l) <-> In y l /\ y <> x.
  Proof.
    intros x l HS. induction l as [|a l IH]; cbn [fs_erase].
    - split; [constructor|]. simpl; tauto.
    - destruct (lt x a) eqn:E1; [|destruct (lt a x) eqn:E2].
      + split; auto. intros y. pose proof (ssorted_below x a l HS E1) as Hn.
        split; [|tauto]. intros Hy. split; auto. intros ->. tauto.
      + destruct (IH (ssorted_tail _ _ HS)) as [I1 I2]. split.
        * constructor; auto. apply Forall_forall. intros y Hy. apply I2 in Hy.
          eapply ssorted_cons_in; eauto. tauto.
        * intros y. cbn [In]. rewrite I2. split.
          -- intros [<-|H]; [|tauto]. split; auto. intros ->. rewrite (st_irrefl ST) in E2. discriminate.
          -- tauto.
      + pose proof (st_total ST _ _ E1 E2). subst a. split; [now apply ssorted_tail in HS|].
        intros y. cbn [In]. split.
        * intros Hy. split; auto. intros ->.
          pose proof (ssorted_cons_in _ _ _ HS Hy) as H. rewrite (st_irrefl ST) in H. discriminate.
        * intros [[->|Hy] Hne]; congruence || auto.
  Qed.
End MergeFacts.

(** ** flat_set<Value> *)

(** A flat_set handle designates a unified sorted vector: sdd/values/flat_set.hh 37, 58. As for
    SDDs, handles are identified with the sorted vectors they designate (unification is C22, and handles are C76). *)
Definition fset {A : Type} (lt : A -> A -> bool) : Type := { l : list A | sortedb lt l = true }.

Section FlatSetType.
  Context {A : Type}.
  Variable lt : A -> A -> bool.
  Hypothesis ST : strict_total lt.
  Notation fset := (fset lt).

  Lemma fset_eq : forall a b : fset, proj1_sig a = proj1_sig b -> a = b.
  Proof.
    intros [l p] [m q]; simpl. intros ->. f_equal. apply UIP_dec. apply bool_dec.
  Qed.

  Lemma fset_sorted : forall a : fset, ssorted lt (proj1_sig a).
  Proof. intros [l p]. simpl. now apply sortedb_spec. Qed.

  Definition mk_fset (l : list A) (H : ssorted lt l) : fset := exist _ l (canon _ (proj2 (sortedb_spec lt l) H)).

  (** flat_set(), 70-72. *)
  Definition fset_empty : fset := exist _ [] eq_refl.

  (** flat_set(begin, end), 75-78 with create 281-294; also the constructor from a data_type
      (87-89, create 297-309) applied to a container filled by [l]. *)
  Definition fset_of_list (l : list A) : fset := mk_fset (fs_of_list lt l) (proj1 (fs_of_list_spec lt ST l)).

  (** insert, 92-103: the new set, and whether an insertion took place. *)
  Definition fset_insert (x : A) (s : fset) : fset * bool :=
    if fs_mem lt (proj1_sig s) x then (s, false)
    else (mk_fset (fs_insert lt x (proj1_sig s)) (fs_insert_sorted lt ST x _ (fset_sorted s)), true).

  (** erase, 199-206: the new set, and the number of erased values. *)
  Definition fset_erase (x : A) (s : fset) : fset * nat :=
    (mk_fset (fs_erase lt x (proj1_sig s)) (proj1 (fs_erase_spec lt ST x _ (fset_sorted s))),
     if fs_mem lt (proj1_sig s) x then 1 else 0).

  (** find(x) != end(), 181-186; count, 190-195. *)
  Definition fset_find (s : fset) (x : A) : bool := fs_mem lt (proj1_sig s) x.
  (** empty, 165-170; size, 173-178. *)
  Definition fset_isempty (s : fset) : bool := match proj1_sig s with [] => true | _ => false end.
  Definition fset_size (s : fset) : N := N.of_nat (length (proj1_sig s)).
  (** operator==, 246-253: equality of pointers to unified data. *)
  Definition fset_eqb (a b : fset) : bool :=
    (fix eqb (l m : list A) : bool :=
       match l, m with
       | [], [] => true
       | x :: l', y :: m' => equivb lt x y && eqb l' m'
       | _, _ => false
       end) (proj1_sig a) (proj1_sig b).

  (** difference, intersection, sum: 473-516. *)
  Definition fset_difference (a b : fset) : fset :=
    fset_of_list (set_difference lt (proj1_sig a) (proj1_sig b)).
  Definition fset_intersection (a b : fset) : fset :=
    fset_of_list (set_intersection lt (proj1_sig a) (proj1_sig b)).
  Definition fset_sum (a b : fset) : fset :=
    fset_of_list (set_union lt (proj1_sig a) (proj1_sig b)).

  (** operator<, 270-277, compares addresses: [plt]. *)
  Variable plt : fset -> fset -> bool.

  Definition flat_set_values : values_impl := {|
    vt := fset;
    elt := A;
    v_mem := fset_find;
    v_default := fset_empty;
    v_empty := fset_isempty;
    v_eqb := fset_eqb;
    v_lt := plt;
    v_sum := fset_sum;
    v_inter := fset_intersection;
    v_diff := fset_difference;
    v_size := fset_size;
    v_fast := true;                  (* values_traits<flat_set>, 393-399 *)
    v_iter := fun s => proj1_sig s;
    v_build := fset_of_list;
    e_lt := lt
  |}.

  Lemma fset_find_in : forall s x, fset_find s x = true <-> In x (proj1_sig s).
  Proof. intros s x. apply (fs_mem_spec lt ST). Qed.

  Lemma fset_find_of_list : forall l x, fset_find (fset_of_list l) x = true <-> In x l.
  Proof.
    intros l x. rewrite fset_find_in. simpl. apply (proj2 (fs_of_list_spec lt ST l)).
  Qed.

  Lemma fset_ext : forall a b : fset, (forall x, fset_find a x = fset_find b x) -> a = b.
  Proof.
    intros a b H. apply fset_eq. apply (ssorted_ext lt ST); try apply fset_sorted.
    intros x. rewrite <- !fset_find_in. now rewrite H.
  Qed.

  Lemma fset_eqb_spec : forall a b, fset_eqb a b = true <-> a = b.
  Proof.
    intros [l p] [m q]. unfold fset_eqb. cbn [proj1_sig]. split.
    - intros H. apply fset_eq. cbn [proj1_sig]. clear p q. revert m H.
      induction l as [|x l IH]; intros [|y m] H; try discriminate; auto.
      apply andb_prop in H. destruct H as [H1 H2]. apply (equivb_spec lt ST) in H1.
      subst. f_equal. now apply IH.
    - intros H. injection H as ->. clear p q. induction m as [|x m IH]; auto.
      apply andb_true_intro. split; auto. now apply (equivb_spec lt ST).
  Qed.

  Lemma find_sum : forall a b x, fset_find (fset_sum a b) x = fset_find a x || fset_find b x.
  Proof.
    intros a b x. apply eq_true_iff_eq. unfold fset_sum.
    rewrite fset_find_of_list, orb_true_iff, !fset_find_in. apply (set_union_in lt ST).
  Qed.
  Lemma find_inter : forall a b x, fset_find (fset_intersection a b) x = fset_find a x && fset_find b x.
  Proof.
    intros a b x. apply eq_true_iff_eq. unfold fset_intersection.
    rewrite fset_find_of_list, andb_true_iff, !fset_find_in.
    apply (set_intersection_in lt ST); apply fset_sorted.
  Qed.
  Lemma find_diff : forall a b x, fset_find (fset_difference a b) x = fset_find a x && negb (fset_find b x).
  Proof.
    intros a b x. apply eq_true_iff_eq. unfold fset_difference.
    rewrite fset_find_of_list, andb_true_iff, negb_true_iff, <- not_true_iff_false, !fset_find_in.
    apply (set_difference_in lt ST); apply fset_sorted.
  Qed.
  Lemma find_insert : forall a x y, fset_find (fst (fset_insert x a)) y = equivb lt y x || fset_find a y.
  Proof.
    intros a x y. apply eq_true_iff_eq. rewrite orb_true_iff, (equivb_spec lt ST), !fset_find_in.
    unfold fset_insert. destruct (fs_mem lt (proj1_sig a) x) eqn:E; cbn [fst].
    - apply (fs_mem_spec lt ST) in E. split; [auto|]. intros [->|H]; auto.
    - unfold mk_fset. cbn [proj1_sig]. apply (fs_insert_in lt ST).
  Qed.
  Lemma find_erase : forall a x y, fset_find (fst (fset_erase x a)) y = fset_find a y && negb (equivb lt y x).
  Proof.
    intros a x y. apply eq_true_iff_eq.
    rewrite andb_true_iff, negb_true_iff, <- not_true_iff_false, (equivb_spec lt ST), !fset_find_in.
    unfold fset_erase. cbn [fst]. unfold mk_fset. cbn [proj1_sig].
    apply (fs_erase_spec lt ST). apply fset_sorted.
  Qed.
  Lemma isempty_spec : forall a, fset_isempty a = true <-> forall x, fset_find a x = false.
  Proof.
    intros a. unfold fset_isempty. destruct (proj1_sig a) as [|y l] eqn:E.
    - split; auto. intros _ x. apply not_true_is_false. rewrite fset_find_in, E. auto.
    - split; [discriminate|]. intros H. specialize (H y). apply not_true_iff_false in H.
      exfalso. apply H. apply fset_find_in. rewrite E. now left.
  Qed.

  Lemma flat_set_laws : strict_total plt -> values_laws flat_set_values.
  Proof.
    intros HP. split; simpl.
    - apply fset_ext.
    - apply fset_eqb_spec.
    - exact HP.
    - exact ST.
    - reflexivity.
    - apply isempty_spec.
    - apply find_sum.
    - apply find_inter.
    - apply find_diff.
    - intros a x. symmetry. apply fset_find_in.
    - intros a. apply (ssorted_nodup lt ST). apply fset_sorted.
    - reflexivity.
    - intros _ l _ x. apply fset_find_of_list.
  Qed.
End FlatSetType.
