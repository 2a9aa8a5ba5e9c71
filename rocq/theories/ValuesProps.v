(** * Properties C16, C17, C49, C50: sets of values *)

From Coq Require Import List Bool NArith Arith Lia Permutation.
From Verif Require Import Base SortedSets Values FlatSet Bitset ValuesMore Concrete.
Import ListNotations.

(** ** C16: flat_set *)

Section C16.
  Variable A : Type.
  Variable lt : A -> A -> bool.
  Hypothesis ST : strict_total lt.
  Notation mem := (fset_find lt).

  (** The content of a set, as seen by iteration: every element once, in increasing order. *)
  Theorem C16_iteration : forall s : fset lt,
    (forall x, In x (proj1_sig s) <-> mem s x = true) /\ NoDup (proj1_sig s) /\
    fset_size lt s = N.of_nat (length (proj1_sig s)).
  Proof.
    intros s. split; [|split].
    - intros x. symmetry. now apply fset_find_in.
    - apply (ssorted_nodup lt ST). now apply fset_sorted.
    - reflexivity.
  Qed.
  Theorem C16_constructor : forall l x, mem (fset_of_list lt ST l) x = true <-> In x l.
  Proof. intros. now apply fset_find_of_list. Qed.
  Theorem C16_sum : forall a b x,
    mem (fset_sum lt ST a b) x = true <-> mem a x = true \/ mem b x = true.
  Proof. intros. rewrite find_sum, orb_true_iff by auto. tauto. Qed.
  Theorem C16_intersection : forall a b x,
    mem (fset_intersection lt ST a b) x = true <-> mem a x = true /\ mem b x = true.
  Proof. intros. rewrite find_inter, andb_true_iff by auto. tauto. Qed.
  Theorem C16_difference : forall a b x,
    mem (fset_difference lt ST a b) x = true <-> mem a x = true /\ mem b x = false.
  Proof. intros. rewrite find_diff, andb_true_iff, negb_true_iff by auto. tauto. Qed.
  Theorem C16_insert : forall a x,
    (forall y, mem (fst (fset_insert lt ST x a)) y = true <-> y = x \/ mem a y = true) /\
    (snd (fset_insert lt ST x a) = true <-> mem a x = false).
  Proof.
    intros a x. split.
    - intros y. rewrite find_insert, orb_true_iff, (equivb_spec lt ST) by auto. tauto.
    - unfold fset_insert, fset_find. destruct (fs_mem lt (proj1_sig a) x); simpl; split; congruence.
  Qed.
  Theorem C16_erase : forall a x,
    (forall y, mem (fst (fset_erase lt ST x a)) y = true <-> y <> x /\ mem a y = true) /\
    snd (fset_erase lt ST x a) = if mem a x then 1 else 0.
  Proof.
    intros a x. split; [|reflexivity].
    intros y. rewrite find_erase, andb_true_iff, negb_true_iff, <- not_true_iff_false, (equivb_spec lt ST)
      by auto. tauto.
  Qed.
  Theorem C16_empty : forall a, fset_isempty lt a = true <-> forall x, mem a x = false.
  Proof. intros. now apply isempty_spec. Qed.
  Theorem C16_equality : forall a b,
    fset_eqb lt a b = true <-> forall x, mem a x = true <-> mem b x = true.
  Proof.
    intros a b. rewrite fset_eqb_spec by auto. split.
    - intros ->. tauto.
    - intros H. apply (fset_ext lt ST). intros x. apply eq_true_iff_eq. apply H.
  Qed.
End C16.
Print Assumptions C16_iteration.
Print Assumptions C16_constructor.
Print Assumptions C16_sum.
Print Assumptions C16_intersection.
Print Assumptions C16_difference.
Print Assumptions C16_insert.
Print Assumptions C16_erase.
Print Assumptions C16_empty.
Print Assumptions C16_equality.

(** flat_set is a Values type, hence every theorem about SDDs applies to it, whatever the addresses. *)
Theorem C16_values_type : forall A (lt : A -> A -> bool) (ST : strict_total lt) plt,
  strict_total plt -> values_laws (flat_set_values lt ST plt).
Proof. exact @flat_set_laws. Qed.
Print Assumptions C16_values_type.

Example C16_ex : strict_total N.ltb /\ strict_total set_lt /\
  proj1_sig (fset_sum N.ltb Nltb_strict (fs [5; 1; 3]%N) (fs [2; 3]%N)) = [1; 2; 3; 5]%N /\
  proj1_sig (fset_difference N.ltb Nltb_strict (fs [5; 1; 3]%N) (fs [2; 3]%N)) = [1; 5]%N.
Proof. split; [exact Nltb_strict|split; [exact set_lt_strict|vm_compute; auto]]. Qed.

(** ** C17: bitset *)

Theorem C17_constructor_insert : forall size n b,
  (n < size -> exists b', bs_insert size n b = Ok b' /\
     forall i, N.testbit (proj1_sig b') i = true <-> i = n \/ N.testbit (proj1_sig b) i = true)%N /\
  (size <= n -> bs_insert size n b = Err OutOfRange)%N.
Proof.
  intros size n b. unfold bs_insert. split; intros H.
  - destruct (bool_dec (n <? size)%N true) as [E|E].
    + eexists. split; [reflexivity|]. intros i. cbn [mk proj1_sig].
      destruct (N.eq_dec i n) as [->|Hne].
      * rewrite N.setbit_eq. tauto.
      * rewrite N.setbit_neq by auto. tauto.
    + apply N.ltb_lt in H. congruence.
  - destruct (bool_dec (n <? size)%N true) as [E|E]; auto. exfalso. pose proof (proj1 (N.ltb_lt _ _) E). lia.
Qed.
Print Assumptions C17_constructor_insert.

(** [content size b i]: i is in the set. *)
Notation content b i := (N.testbit (proj1_sig b) i).

Theorem C17_test : forall size b i, (i < size)%N -> bs_test size b i = Ok (content b i).
Proof. intros size b i H. unfold bs_test. apply N.ltb_lt in H. now rewrite H. Qed.
Print Assumptions C17_test.
Theorem C17_range : forall size (b : bitset size) i, content b i = true -> (i < size)%N.
Proof.
  intros size b i H. destruct (N.lt_ge_cases i size) as [|Hge]; auto.
  rewrite above in H by auto. discriminate.
Qed.
Print Assumptions C17_range.
Theorem C17_sum : forall size a b i,
  content (bs_sum size a b) i = true <-> content a i = true \/ content b i = true.
Proof. intros. simpl. rewrite N.lor_spec, orb_true_iff. tauto. Qed.
Print Assumptions C17_sum.
Theorem C17_intersection : forall size a b i,
  content (bs_intersection size a b) i = true <-> content a i = true /\ content b i = true.
Proof. intros. simpl. rewrite N.land_spec, andb_true_iff. tauto. Qed.
Print Assumptions C17_intersection.
Theorem C17_difference : forall size a b i,
  content (bs_difference size a b) i = true <-> content a i = true /\ content b i = false.
Proof. intros. rewrite bs_diff_bits, andb_true_iff, negb_true_iff. tauto. Qed.
Print Assumptions C17_difference.
Theorem C17_shift_left : forall size a n i,
  content (bs_shl size a n) i = true <-> (i < size /\ n <= i)%N /\ content a (i - n)%N = true.
Proof.
  intros size a n i. simpl. rewrite N.land_spec, andb_true_iff.
  destruct (N.lt_ge_cases i size) as [Hs|Hs].
  - rewrite N.ones_spec_low by auto. destruct (N.lt_ge_cases i n) as [Hn|Hn].
    + rewrite N.shiftl_spec_low by auto. split; [intros [H _]; discriminate|lia].
    + rewrite N.shiftl_spec_high' by auto. split; [intros [H _]|intros [_ H]]; auto.
  - rewrite N.ones_spec_high by auto. split; [intros [_ H]; discriminate|lia].
Qed.
Print Assumptions C17_shift_left.
Theorem C17_shift_right : forall size a n i,
  content (bs_shr size a n) i = content a (i + n)%N.
Proof. intros. simpl. now rewrite N.shiftr_spec'. Qed.
Print Assumptions C17_shift_right.
Theorem C17_size : forall size (b : bitset size), exists l, NoDup l /\
  (forall i, In i l <-> content b i = true) /\ bs_size size b = N.of_nat (length l).
Proof.
  intros size b. exists (bs_list size b). split; [|split].
  - apply (vl_iter_nodup (bitset_laws size)).
  - apply bs_list_spec.
  - reflexivity.
Qed.
Print Assumptions C17_size.
Theorem C17_empty : forall size b, bs_isempty size b = true <-> forall i, content b i = false.
Proof. exact bs_isempty_spec. Qed.
Print Assumptions C17_empty.
Theorem C17_equality : forall size a b,
  bs_eqb size a b = true <-> forall i, content a i = true <-> content b i = true.
Proof.
  intros size a b. unfold bs_eqb. rewrite N.eqb_eq. split.
  - intros E i. rewrite E. tauto.
  - intros H. apply N.bits_inj. intros i. apply eq_true_iff_eq. apply H.
Qed.
Print Assumptions C17_equality.
Theorem C17_values_type : forall size, values_laws (bitset_values size).
Proof. exact bitset_laws. Qed.
Print Assumptions C17_values_type.

(** Up to 64 bits operator< is a strict total order and operator< and hash never terminate. *)
Theorem C17_order_64 : forall size, (size <= 64)%N -> exists lt, strict_total lt /\
  (forall a b, bs_lt size a b = Ok (lt a b)) /\
  (forall h a, bs_hash size h a <> Err Terminate).
Proof.
  intros size H.
  assert (B : forall a : bitset size, (proj1_sig a <? 2 ^ 64)%N = true).
  { intros a. apply N.ltb_lt. eapply N.lt_le_trans; [apply N.ltb_lt; exact (proj2_sig a)|].
    apply N.pow_le_mono_r; lia. }
  exists (fun a b => N.ltb (proj1_sig a) (proj1_sig b)). split; [|split].
  - split.
    + intros x. apply N.ltb_irrefl.
    + intros x y z. rewrite !N.ltb_lt. lia.
    + intros x y H1 H2. apply bitset_eq. revert H1 H2. rewrite !N.ltb_ge. lia.
  - intros a b. unfold bs_lt, to_ulong, rbind. now rewrite !B.
  - intros h a. unfold bs_hash, to_ulong, rbind. rewrite B. discriminate.
Qed.
Print Assumptions C17_order_64.
(** The claim "for every N" is false: above 64 bits comparing and hashing call std::terminate. *)
Theorem C17_order_refuted : forall size, (64 < size)%N -> exists a : bitset size,
  (forall b, bs_lt size a b = Err Terminate) /\ (forall h, bs_hash size h a = Err Terminate).
Proof.
  intros size H.
  assert (T : (2 ^ 64 <? 2 ^ size)%N = true).
  { apply N.ltb_lt. apply N.pow_lt_mono_r; lia. }
  exists (exist _ (2 ^ 64)%N T).
  assert (E : to_ulong size (exist _ (2 ^ 64)%N T) = Err Terminate).
  { unfold to_ulong. cbn [proj1_sig]. now rewrite N.ltb_irrefl. }
  split.
  - intros b. unfold bs_lt. rewrite E. reflexivity.
  - intros h. unfold bs_hash. rewrite E. reflexivity.
Qed.
Print Assumptions C17_order_refuted.
(** Asking for a value out of range terminates the program although insert throws. *)
Theorem C17_test_refuted : forall size b i, (size <= i)%N -> bs_test size b i = Err Terminate.
Proof. intros size b i H. unfold bs_test. apply N.ltb_ge in H. now rewrite H. Qed.
Print Assumptions C17_test_refuted.

Example C17_ex :
  match rbind (bs_insert 64 3 (bs_empty 64)) (bs_insert 64 60), bs_insert 64 3 (bs_empty 64) with
  | Ok a, Ok b => bs_size 64 a = 2%N /\ bs_list 64 (bs_difference 64 a b) = [60%N] /\
                  bs_lt 64 b a = Ok true
  | _, _ => False
  end.
Proof. vm_compute. repeat split. Qed.

(** ** C49: the iterator returned by insert *)

(** It is valid exactly when the value was absent, the new set was unknown and shrinking did not move
    the vector: the claim "the returned iterator points to the value in the set" is false. *)
Theorem C49_insert_iterator_refuted : exists bufs fresh present grows shrinks hit,
  (forall b, In b bufs -> b < fresh) /\
  ~ iterator_valid (insert_buffers bufs fresh present grows shrinks hit).
Proof.
  exists [0], 1, true, false, false, false. split.
  - simpl. lia.
  - rewrite insert_iterator_valid_iff by (simpl; lia). intros [H _]. discriminate.
Qed.
Print Assumptions C49_insert_iterator_refuted.
Theorem C49_insert_iterator_valid_iff_partial : forall bufs fresh present grows shrinks hit,
  (forall b, In b bufs -> b < fresh) ->
  (iterator_valid (insert_buffers bufs fresh present grows shrinks hit) <->
   present = false /\ shrinks = false /\ hit = false).
Proof. exact insert_iterator_valid_iff. Qed.
Print Assumptions C49_insert_iterator_valid_iff_partial.

(** ** C50: display of integral flat_sets *)

Theorem C50_display : forall l, ssorted N.ltb l ->
  (forall x, denoted (display l) x <-> In x l) /\ separated (display l).
Proof. intros l H. split; [now apply display_denoted|now apply display_separated]. Qed.
Print Assumptions C50_display.
Theorem C50_display_injective : forall a b : fset N.ltb,
  display (proj1_sig a) = display (proj1_sig b) -> a = b.
Proof.
  intros a b H. apply fset_eq. apply (ssorted_ext N.ltb Nltb_strict).
  - apply (fset_sorted N.ltb).
  - apply (fset_sorted N.ltb).
  - intros x. rewrite <- !display_denoted by apply (fset_sorted N.ltb). now rewrite H.
Qed.
Print Assumptions C50_display_injective.
Example C50_ex : display (proj1_sig (fs [7; 1; 2; 3; 9; 10]%N)) = [(1, 3); (7, 7); (9, 10)]%N.
Proof. vm_compute. reflexivity. Qed.
