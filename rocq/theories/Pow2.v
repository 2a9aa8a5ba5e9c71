(** * sdd/util/next_power.hh *)

From Coq Require Import List Bool NArith Arith Lia.
Import ListNotations.
Local Open Scope N_scope.

(** x |= x >> k. *)
Definition smear (x k : N) : N := N.lor x (N.shiftr x k).

(** next_power_of_2 (next_power.hh 16-32 for 64 bits, 38-53 for 32 bits): arithmetic modulo 2^bits. *)
Definition next_power_of_2 (bits : N) (shifts : list N) (x : N) : N :=
  let x := (x + (2 ^ bits - 1)) mod 2 ^ bits in                          (* x-- *)
  let x := fold_left smear shifts x in
  (x + 1) mod 2 ^ bits.                                                  (* x++ *)
Definition next_power_of_2_64 (x : N) : N := next_power_of_2 64 [1; 2; 4; 8; 16; 32] x.
Definition next_power_of_2_32 (x : N) : N := next_power_of_2 32 [1; 2; 4; 8; 16] x.

(** [window y k z]: bit i of z says whether y has a bit in [i, i + k). *)
Definition window (y k z : N) : Prop :=
  forall i, N.testbit z i = true <-> exists j, i <= j /\ j < i + k /\ N.testbit y j = true.

Lemma window_1 : forall y, window y 1 y.
Proof.
  intros y i. split.
  - intros H. exists i. split; [lia|]. split; [lia|auto].
  - intros (j & H1 & H2 & H). assert (j = i) by lia. now subst.
Qed.
Lemma window_smear : forall y k z, window y k z -> window y (2 * k) (smear z k).
Proof.
  intros y k z H i. unfold smear. rewrite N.lor_spec, N.shiftr_spec by lia. unfold window in H. rewrite orb_true_iff, !H. split.
  - intros [(j & H1 & H2 & H3)|(j & H1 & H2 & H3)]; exists j; split; try lia; split; try lia; auto.
  - intros (j & H1 & H2 & H3). destruct (N.lt_ge_cases j (i + k)); [left|right]; exists j; split; try lia; split; try lia; auto.
Qed.

Lemma window_all : forall y k z, y < 2 ^ k -> window y k z -> 0 < y -> z = 2 ^ (N.log2 y + 1) - 1.
Proof.
  intros y k z Hy H Hp. rewrite <- N.pred_sub, <- N.ones_equiv. apply N.bits_inj. intros i.
  apply eq_true_iff_eq. unfold window in H. rewrite H, N.ones_spec_iff. split.
  - intros (j & H1 & H2 & H3). destruct (N.lt_ge_cases (N.log2 y) j) as [L|L]; [|lia].
    rewrite N.bits_above_log2 in H3 by auto. discriminate.
  - intros Hi. exists (N.log2 y). split; [lia|]. split; [|apply N.bit_log2; lia].
    apply N.log2_lt_pow2 in Hy; lia.
Qed.

Section Generic.
  Variables (bits : N) (shifts : list N).
  (** The shifts double the width of the window up to [bits]. *)
  Hypothesis full : forall y, window y bits (fold_left smear shifts y).
  Hypothesis bits_pos : 0 < bits.

  Lemma next_power_zero : next_power_of_2 bits shifts 0 = 0.
  Proof.
    unfold next_power_of_2. rewrite N.add_0_l.
    assert (P : 0 < 2 ^ bits) by (apply N.neq_0_lt_0, N.pow_nonzero; lia).
    assert (P1 : 1 < 2 ^ bits) by (apply N.pow_gt_1; lia).
    rewrite (N.mod_small (2 ^ bits - 1)) by lia.
    rewrite (window_all (2 ^ bits - 1) bits _ ltac:(lia) (full _)) by lia.
    assert (L : N.log2 (2 ^ bits - 1) = bits - 1).
    { rewrite <- N.pred_sub. rewrite N.log2_pred_pow2 by lia. lia. }
    rewrite L, N.sub_add by lia. rewrite N.sub_add by lia. apply N.mod_same. lia.
  Qed.

  Lemma next_power_spec : forall x, 1 <= x -> x <= 2 ^ (bits - 1) ->
    exists e, next_power_of_2 bits shifts x = 2 ^ e /\ e < bits /\ x <= 2 ^ e /\
              forall f, x <= 2 ^ f -> 2 ^ e <= 2 ^ f.
  Proof.
    intros x H1 H2. unfold next_power_of_2.
    assert (P : 0 < 2 ^ bits) by (apply N.neq_0_lt_0, N.pow_nonzero; lia).
    assert (P1 : 1 < 2 ^ bits) by (apply N.pow_gt_1; lia).
    assert (P2 : 2 ^ bits = 2 * 2 ^ (bits - 1)).
    { rewrite <- N.pow_succ_r'. f_equal. lia. }
    replace ((x + (2 ^ bits - 1)) mod 2 ^ bits) with (x - 1).
    2: { replace (x + (2 ^ bits - 1)) with (x - 1 + 1 * 2 ^ bits) by lia.
         rewrite N.mod_add by lia. symmetry. apply N.mod_small. lia. }
    destruct (N.eq_dec x 1) as [->|Hx].
    - exists 0. assert (Z : fold_left smear shifts (1 - 1) = 0).
      { apply N.bits_inj. intros i. rewrite N.bits_0. apply not_true_iff_false. intros H.
        apply full in H. destruct H as (j & _ & _ & H). now rewrite N.bits_0 in H. }
      rewrite Z. rewrite N.mod_small by lia. split; [reflexivity|]. split; [lia|]. split; [reflexivity|].
      intros f _. change (2 ^ 0) with 1. pose proof (N.pow_nonzero 2 f). lia.
    - assert (Hy : 0 < x - 1) by lia.
      rewrite (window_all (x - 1) bits _ ltac:(lia) (full _) Hy).
      set (l := N.log2 (x - 1)).
      destruct (N.log2_spec (x - 1) Hy) as [L1 L2]. fold l in L1, L2.
      assert (Ll : l < bits - 1).
      { apply N.log2_lt_pow2; lia. }
      assert (Q : 2 ^ (l + 1) <= 2 ^ (bits - 1)) by (apply N.pow_le_mono_r; lia).
      assert (Q0 : 0 < 2 ^ (l + 1)) by (apply N.neq_0_lt_0, N.pow_nonzero; lia).
      exists (l + 1). rewrite N.sub_add by lia. rewrite N.mod_small by lia.
      rewrite <- N.add_1_r in L2. split; auto. split; [lia|]. split; [lia|].
      intros f Hf. apply N.pow_le_mono_r; [lia|].
      destruct (N.lt_ge_cases l f); [lia|].
      assert (2 ^ f <= 2 ^ l) by (apply N.pow_le_mono_r; lia). lia.
  Qed.

  Lemma next_power_big : forall x, 2 ^ (bits - 1) < x -> x < 2 ^ bits -> next_power_of_2 bits shifts x = 0.
  Proof.
    intros x H1 H2. unfold next_power_of_2.
    assert (P : 0 < 2 ^ bits) by (apply N.neq_0_lt_0, N.pow_nonzero; lia).
    assert (P0 : 0 < 2 ^ (bits - 1)) by (apply N.neq_0_lt_0, N.pow_nonzero; lia).
    replace ((x + (2 ^ bits - 1)) mod 2 ^ bits) with (x - 1).
    2: { replace (x + (2 ^ bits - 1)) with (x - 1 + 1 * 2 ^ bits) by lia.
         rewrite N.mod_add by lia. symmetry. apply N.mod_small. lia. }
    assert (Hy : 0 < x - 1) by lia.
    rewrite (window_all (x - 1) bits _ ltac:(lia) (full _) Hy).
    assert (L : N.log2 (x - 1) = bits - 1).
    { apply N.log2_unique; [lia|]. split; [lia|]. rewrite <- N.add_1_r, N.sub_add by lia. lia. }
    rewrite L, N.sub_add by lia. rewrite N.sub_add by lia. apply N.mod_same. lia.
  Qed.
End Generic.

Lemma full_64 : forall y, window y 64 (fold_left smear [1; 2; 4; 8; 16; 32] y).
Proof.
  intros y. cbn [fold_left].
  apply (window_smear _ 32), (window_smear _ 16), (window_smear _ 8), (window_smear _ 4),
    (window_smear _ 2), (window_smear _ 1), window_1.
Qed.
Lemma full_32 : forall y, window y 32 (fold_left smear [1; 2; 4; 8; 16] y).
Proof.
  intros y. cbn [fold_left].
  apply (window_smear _ 16), (window_smear _ 8), (window_smear _ 4),
    (window_smear _ 2), (window_smear _ 1), window_1.
Qed.

Lemma np64_spec : forall x, 1 <= x -> x <= 2 ^ 63 ->
  exists e, next_power_of_2_64 x = 2 ^ e /\ e < 64 /\ x <= 2 ^ e /\ forall f, x <= 2 ^ f -> 2 ^ e <= 2 ^ f.
Proof. intros x. apply (next_power_spec 64 _ full_64). lia. Qed.
Lemma np64_zero : next_power_of_2_64 0 = 0.
Proof. apply (next_power_zero 64 _ full_64). lia. Qed.
Lemma np64_big : forall x, 2 ^ 63 < x -> x < 2 ^ 64 -> next_power_of_2_64 x = 0.
Proof. intros x. apply (next_power_big 64 _ full_64). lia. Qed.
Lemma np32_spec : forall x, 1 <= x -> x <= 2 ^ 31 ->
  exists e, next_power_of_2_32 x = 2 ^ e /\ e < 32 /\ x <= 2 ^ e /\ forall f, x <= 2 ^ f -> 2 ^ e <= 2 ^ f.
Proof. intros x. apply (next_power_spec 32 _ full_32). lia. Qed.
Lemma np32_zero : next_power_of_2_32 0 = 0.
Proof. apply (next_power_zero 32 _ full_32). lia. Qed.
Lemma np32_big : forall x, 2 ^ 31 < x -> x < 2 ^ 32 -> next_power_of_2_32 x = 0.
Proof. intros x. apply (next_power_big 32 _ full_32). lia. Qed.
