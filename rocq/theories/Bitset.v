(** * Model of sdd/values/bitset.hh *)

From Coq Require Import List Bool NArith Arith Lia Permutation Sorted Eqdep_dec.
From Verif Require Import Base SortedSets Values.
Import ListNotations.

(** bitset<Size>, sdd/values/bitset.hh 22-139: a std::bitset<Size>, seen as a number below
    2^Size. *)
Definition bitset (size : N) : Type := { b : N | N.ltb b (2 ^ size) = true }.

(** Outcomes: the exceptions of std::bitset, and std::terminate when an exception leaves a noexcept
    function. *)
Inductive berr : Type := OutOfRange | Terminate.

Section Bitset.
  Variable size : N.
  Notation bitset := (bitset size).

  Lemma bitset_eq : forall a b : bitset, proj1_sig a = proj1_sig b -> a = b.
  Proof. intros [l p] [m q]; simpl. intros ->. f_equal. apply UIP_dec. apply bool_dec. Qed.

  Lemma lt_bits : forall b, N.ltb b (2 ^ size) = true <-> forall i, (size <= i)%N -> N.testbit b i = false.
  Proof.
    intros b. rewrite N.ltb_lt. split.
    - intros H i Hi. destruct (N.eq_dec b 0) as [->|Hz]; [apply N.bits_0|].
      apply N.bits_above_log2. apply N.log2_lt_pow2 in H; lia.
    - intros H. destruct (N.eq_dec b 0) as [->|Hz].
      + assert (2 ^ size <> 0)%N by (apply N.pow_nonzero; lia). lia.
      + apply N.log2_lt_pow2; [lia|].
        destruct (N.lt_ge_cases (N.log2 b) size) as [|Hge]; auto.
        specialize (H _ Hge). rewrite N.bit_log2 in H by auto. discriminate.
  Qed.

  Lemma above : forall (b : bitset) i, (size <= i)%N -> N.testbit (proj1_sig b) i = false.
  Proof. intros [b H] i Hi. simpl. now apply (proj1 (lt_bits b) H). Qed.

  Definition mk (b : N) (H : forall i, (size <= i)%N -> N.testbit b i = false) : bitset :=
    exist _ b (canon _ (proj2 (lt_bits b) H)).

  (** bitset(), 34-37. *)
  Definition bs_empty : bitset := mk 0 (fun i _ => N.bits_0 i).

  (** insert, 84-89: std::bitset::set throws out_of_range. *)
  Lemma set_above : forall (b : bitset) n, N.ltb n size = true ->
    forall i, (size <= i)%N -> N.testbit (N.setbit (proj1_sig b) n) i = false.
  Proof.
    intros b n H i Hi. apply N.ltb_lt in H. rewrite N.setbit_neq by lia. now apply above.
  Qed.
  Definition bs_insert (n : N) (b : bitset) : res berr bitset :=
    match Bool.bool_dec (N.ltb n size) true with
    | left H => Ok (mk _ (set_above b n H))
    | right _ => Err OutOfRange
    end.

  (** test, 105-110: std::bitset::test throws out_of_range, test is noexcept. *)
  Definition bs_test (b : bitset) (n : N) : res berr bool :=
    if N.ltb n size then Ok (N.testbit (proj1_sig b) n) else Err Terminate.

  (** Positions 0, ..., size - 1. *)
  Definition positions : list N := map N.of_nat (seq 0 (N.to_nat size)).
  (** The values of a set (the loop of operator<<, 182-196). *)
  Definition bs_list (b : bitset) : list N := filter (N.testbit (proj1_sig b)) positions.
  (** size, 91-96 (std::bitset::count); empty, 98-103 (std::bitset::none). *)
  Definition bs_size (b : bitset) : N := N.of_nat (length (bs_list b)).
  Definition bs_isempty (b : bitset) : bool := N.eqb (proj1_sig b) 0.

  (** operator==, 60-66. *)
  Definition bs_eqb (a b : bitset) : bool := N.eqb (proj1_sig a) (proj1_sig b).

  (** std::bitset::to_ulong: throws overflow_error if a bit above 63 is set. *)
  Definition to_ulong (b : bitset) : res berr N :=
    if N.ltb (proj1_sig b) (2 ^ 64) then Ok (proj1_sig b) else Err Terminate.

  (** operator<, 76-82, and std::hash, 210-219 (as a function of the number): both are noexcept. *)
  Definition bs_lt (a b : bitset) : res berr bool :=
    rbind (to_ulong a) (fun x => rbind (to_ulong b) (fun y => Ok (N.ltb x y))).
  Definition bs_hash (h : N -> N) (a : bitset) : res berr N :=
    rbind (to_ulong a) (fun x => Ok (h x)).

  (** sum, intersection, difference, 143-174 ([~] flips the [size] bits). *)
  Lemma lor_above : forall a b : bitset, forall i, (size <= i)%N ->
    N.testbit (N.lor (proj1_sig a) (proj1_sig b)) i = false.
  Proof. intros a b i Hi. now rewrite N.lor_spec, !above. Qed.
  Lemma land_above : forall (a : bitset) b, forall i, (size <= i)%N ->
    N.testbit (N.land (proj1_sig a) b) i = false.
  Proof. intros a b i Hi. now rewrite N.land_spec, above. Qed.
  Definition bs_sum (a b : bitset) : bitset := mk _ (lor_above a b).
  Definition bs_intersection (a b : bitset) : bitset := mk _ (land_above a (proj1_sig b)).
  Definition bs_difference (a b : bitset) : bitset := mk _ (land_above a (N.lnot (proj1_sig b) size)).

  (** operator<< and operator>>, 120-132. *)
  Lemma shl_above : forall (a : bitset) n i, (size <= i)%N ->
    N.testbit (N.land (N.shiftl (proj1_sig a) n) (N.ones size)) i = false.
  Proof.
    intros a n i Hi. rewrite N.land_spec, N.ones_spec_high by lia. apply andb_false_r.
  Qed.
  Lemma shr_above : forall (a : bitset) n i, (size <= i)%N ->
    N.testbit (N.shiftr (proj1_sig a) n) i = false.
  Proof. intros a n i Hi. rewrite N.shiftr_spec'. apply above. lia. Qed.
  Definition bs_shl (a : bitset) (n : N) : bitset := mk _ (shl_above a n).
  Definition bs_shr (a : bitset) (n : N) : bitset := mk _ (shr_above a n).

  (** The Values interface; [v_lt] is the comparison made by operator< when it returns. *)
  Definition bitset_values : values_impl := {|
    vt := bitset;
    elt := N;
    v_mem := fun b x => N.testbit (proj1_sig b) x;
    v_default := bs_empty;
    v_empty := bs_isempty;
    v_eqb := bs_eqb;
    v_lt := fun a b => match bs_lt a b with Ok r => r | Err _ => N.ltb (proj1_sig a) (proj1_sig b) end;
    v_sum := bs_sum;
    v_inter := bs_intersection;
    v_diff := bs_difference;
    v_size := bs_size;
    v_fast := false;                       (* sdd/values/values_traits.hh 15-21 *)
    v_iter := bs_list;
    v_build := fun _ => bs_empty;          (* not used: not fast iterable *)
    e_lt := N.ltb
  |}.

  Lemma in_positions : forall i, In i positions <-> (i < size)%N.
  Proof.
    intros i. unfold positions. rewrite in_map_iff. split.
    - intros (n & <- & H). apply in_seq in H. lia.
    - intros H. exists (N.to_nat i). split; [lia|]. apply in_seq. lia.
  Qed.

  Lemma bs_list_spec : forall b i, In i (bs_list b) <-> N.testbit (proj1_sig b) i = true.
  Proof.
    intros b i. unfold bs_list. rewrite filter_In, in_positions. split; [tauto|].
    intros H. split; auto. destruct (N.lt_ge_cases i size) as [|Hge]; auto.
    rewrite above in H by auto. discriminate.
  Qed.

  Lemma bs_ext : forall a b : bitset,
    (forall i, N.testbit (proj1_sig a) i = N.testbit (proj1_sig b) i) -> a = b.
  Proof. intros a b H. apply bitset_eq. now apply N.bits_inj. Qed.

  Lemma bs_diff_bits : forall a b i, N.testbit (proj1_sig (bs_difference a b)) i =
    N.testbit (proj1_sig a) i && negb (N.testbit (proj1_sig b) i).
  Proof.
    intros a b i. unfold bs_difference, mk. cbn [proj1_sig]. rewrite N.land_spec.
    destruct (N.lt_ge_cases i size) as [Hlt|Hge].
    - now rewrite N.lnot_spec_low.
    - now rewrite above.
  Qed.

  Lemma Nltb_strict : strict_total N.ltb.
  Proof.
    split.
    - intros x. apply N.ltb_irrefl.
    - intros x y z. rewrite !N.ltb_lt. lia.
    - intros x y. rewrite !N.ltb_ge. lia.
  Qed.

  Lemma bs_isempty_spec : forall a, bs_isempty a = true <-> forall i, N.testbit (proj1_sig a) i = false.
  Proof.
    intros a. unfold bs_isempty. rewrite N.eqb_eq. split.
    - intros -> i. apply N.bits_0.
    - intros H. apply N.bits_inj. intros i. rewrite H. symmetry. apply N.bits_0.
  Qed.

  Lemma bs_lt_value : forall a b,
    match bs_lt a b with Ok r => r | Err _ => N.ltb (proj1_sig a) (proj1_sig b) end =
    N.ltb (proj1_sig a) (proj1_sig b).
  Proof.
    intros a b. unfold bs_lt, to_ulong, rbind.
    destruct (N.ltb (proj1_sig a) (2 ^ 64)); auto. destruct (N.ltb (proj1_sig b) (2 ^ 64)); auto.
  Qed.

  Lemma bitset_laws : values_laws bitset_values.
  Proof.
    split; cbn [bitset_values v_mem v_default v_empty v_eqb v_lt v_sum v_inter v_diff v_size v_fast
                v_iter v_build e_lt vt elt].
    - apply bs_ext.
    - intros a b. unfold bs_eqb. rewrite N.eqb_eq. split; [apply bitset_eq|now intros ->].
    - split.
      + intros x. rewrite bs_lt_value. apply (st_irrefl Nltb_strict).
      + intros x y z. rewrite !bs_lt_value. apply (st_trans Nltb_strict).
      + intros x y. rewrite !bs_lt_value. intros H1 H2. apply bitset_eq.
        now apply (st_total Nltb_strict).
    - exact Nltb_strict.
    - intros x. apply N.bits_0.
    - apply bs_isempty_spec.
    - intros a b x. apply N.lor_spec.
    - intros a b x. apply N.land_spec.
    - apply bs_diff_bits.
    - apply bs_list_spec.
    - intros a. apply NoDup_filter. unfold positions. apply FinFun.Injective_map_NoDup.
      + intros x y. lia.
      + apply seq_NoDup.
    - reflexivity.
    - discriminate.
  Qed.
End Bitset.
