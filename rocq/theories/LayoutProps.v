(** * Layout of nodes and homomorphisms in memory (C62)

    [holds m a n x]: the [n] bytes of [m] at the address [a] represent [x].  [construct ... m p index fields es elems] is the
    memory after the placement new, at the address [p], of the unified object with these fields and with the elements [elems]
    (arcs or operands, [es] bytes each).  [exposes m a fields k es l]: iterating from begin() to end(), on the object at the
    address [a], goes through [l]. *)

From Coq Require Import List Bool NArith Arith Lia.
From Verif Require Import Layout.
Import ListNotations.
Open Scope N_scope.

Section Elements.
  Context {X : Type}.
  Variable num : N -> X.
  Hypothesis num_inj : forall a b, num a = num b -> a = b.

  Lemma exposes_iff upacked packed pointer types m p index fields es elems k c width :
    In (object packed fields) types -> Forall proper (map fst fields) -> 0 < es ->
    nth_error fields k = Some (c, num (stored width elems)) ->
    forall l, exposes num packed (construct num upacked packed pointer types m p index fields es elems)
                      (p + storage_at upacked packed pointer types) fields k es l <->
              l = firstn (N.to_nat (stored width elems)) elems.
  Proof.
    intros HT HF He Hk l.
    assert (Forall (fun c => 0 < calign c) (map fst fields)) as HA.
    { eapply Forall_impl; [|exact HF]. intros ? (_ & ? & _); auto. }
    pose proof (construct_spec num upacked packed pointer types m p index fields es elems HT HA) as (_ & _ & _ & _ & H1 & H2).
    set (m' := construct num upacked packed pointer types m p index fields es elems) in *.
    assert (0 < csize c) as Hc.
    { rewrite Forall_forall in HF. apply HF. apply nth_error_In in Hk. apply (in_map fst) in Hk. exact Hk. }
    assert (stored width elems <= N.of_nat (length elems)) as Hs.
    { unfold stored. destruct (N.eq_dec (2 ^ width) 0) as [E|E]; [rewrite E; destruct (N.of_nat (length elems)); cbn; lia|].
      apply N.mod_le; exact E. }
    assert (length (firstn (N.to_nat (stored width elems)) elems) = N.to_nat (stored width elems)) as Hl.
    { rewrite firstn_length. lia. }
    split.
    - intros (n & c' & x & Hk' & Hn & Hlen & Hel).
      rewrite Hk in Hk'. injection Hk' as <- <-.
      pose proof (num_inj _ _ (holds_fun _ _ _ _ _ Hc Hn (H1 _ _ _ Hk))) as ->.
      rewrite <- Hl in Hlen.
      assert (forall i y z, nth_error l i = Some y -> nth_error (firstn (N.to_nat (stored width elems)) elems) i = Some z -> y = z) as E.
      { intros i y z Hy Hz. apply Hel in Hy.
        assert (nth_error elems i = Some z) as Hz'.
        { rewrite <- (firstn_skipn (N.to_nat (stored width elems)) elems), nth_error_app1; auto.
          apply nth_error_Some. congruence. }
        apply H2 in Hz'. exact (holds_fun _ _ _ _ _ He Hy Hz'). }
      revert Hlen E. generalize (firstn (N.to_nat (stored width elems)) elems). clear.
      induction l as [|y l IH]; intros [|z q] Hlen E; cbn in Hlen; try discriminate; auto.
      f_equal; [exact (E 0%nat y z eq_refl eq_refl)|]. apply IH; [lia|]. intros i. exact (E (S i)).
    - intros ->. exists (stored width elems), c, (num (stored width elems)). repeat split; auto.
      intros i y Hi. apply H2.
      rewrite <- (firstn_skipn (N.to_nat (stored width elems)) elems), nth_error_app1; auto.
      apply nth_error_Some. congruence.
  Qed.
End Elements.

(** Construction writes only inside the block that was asked to the unicity table (sizeof(Unique) + extra bytes), and nothing it
    writes there overwrites the rest: the link of the hash table, the reference counter, the index of the variant, the fields of
    the object, and all its elements are intact at the end. *)
Theorem C62_construction_in_block : forall X (num : N -> X) upacked packed pointer types m p index fields es elems,
  Forall proper (map fst fields) -> In (object packed fields) types ->
  let m' := construct num upacked packed pointer types m p index fields es elems in
  (forall b, b < p \/ p + block_size upacked packed pointer types es elems <= b -> m' b = m b) /\
  holds m' (hook_at upacked packed pointer types p) (csize (struct false [pointer])) (num 0) /\
  holds m' (count_at upacked packed pointer types p) 4 (num 0) /\
  holds m' (index_at upacked packed pointer types p) 1 (num index) /\
  (forall k c x, nth_error fields k = Some (c, x) ->
     holds m' (p + storage_at upacked packed pointer types + nth k (offsets packed 0 (map fst fields)) 0) (csize c) x) /\
  (forall i x, nth_error elems i = Some x ->
     holds m' (behind packed (p + storage_at upacked packed pointer types) fields + N.of_nat i * es) es x).
Proof.
  intros X num upacked packed pointer types m p index fields es elems HF HT.
  apply construct_spec; auto. eapply Forall_impl; [|exact HF]. intros ? (_ & ? & _); auto.
Qed.
Print Assumptions C62_construction_in_block.

(** The arcs of a node, the operands of a sum and the G part of a saturated fixpoint are iterated as they were given, as long as
    their number fits in the field that holds it. *)
Theorem C62_elements_partial : forall X (num : N -> X) upacked packed pointer types m p index es elems width size,
  (forall a b, num a = num b -> a = b) -> proper size -> 0 < es ->
  N.of_nat (length elems) < 2 ^ width ->
  let at_ := p + storage_at upacked packed pointer types in
  let after fields := construct num upacked packed pointer types m p index fields es elems in
  (forall variable x, proper variable ->
     let fields := node_fields num variable size width x elems in
     In (object packed fields) types ->
     forall l, exposes num packed (after fields) at_ fields 1 es l <-> l = elems) /\
  (let fields := sum_fields num size width elems in
   In (object packed fields) types ->
   forall l, exposes num packed (after fields) at_ fields 0 es l <-> l = elems) /\
  (forall variable hom x f r, proper variable -> proper hom ->
     let fields := sat_fields num variable size hom width x f r elems in
     In (object packed fields) types ->
     forall l, exposes num packed (after fields) at_ fields 2 es l <-> l = elems).
Proof.
  intros X num upacked packed pointer types m p index es elems width size num_inj Hs He Hw at_ after.
  assert (firstn (N.to_nat (stored width elems)) elems = elems) as E.
  { unfold stored. rewrite N.mod_small by exact Hw. rewrite Nnat.Nat2N.id. apply firstn_all. }
  split; [|split].
  - intros variable x Hv fields HT l.
    pose proof (exposes_iff num num_inj upacked packed pointer types m p index fields es elems 1 size width HT
                  ltac:(repeat (apply Forall_cons; auto)) He eq_refl l) as H. rewrite E in H. exact H.
  - intros fields HT l.
    pose proof (exposes_iff num num_inj upacked packed pointer types m p index fields es elems 0 size width HT
                  ltac:(repeat (apply Forall_cons; auto)) He eq_refl l) as H. rewrite E in H. exact H.
  - intros variable hom x f r Hv Hh fields HT l.
    pose proof (exposes_iff num num_inj upacked packed pointer types m p index fields es elems 2 size width HT
                  ltac:(repeat (apply Forall_cons; auto)) He eq_refl l) as H. rewrite E in H. exact H.
Qed.
Print Assumptions C62_elements_partial.

(** Beyond, elements are lost: a sum of 2^width operands has none left, and its operands are never destroyed. *)
Theorem C62_elements_refuted : forall X (num : N -> X) upacked packed pointer types m p index es width size,
  (forall a b, num a = num b -> a = b) -> proper size -> 0 < es ->
  In (struct packed [size]) types ->
  exists elems, length elems = N.to_nat (2 ^ width) /\
    let fields := sum_fields num size width elems in
    forall l, exposes num packed (construct num upacked packed pointer types m p index fields es elems)
                      (p + storage_at upacked packed pointer types) fields 0 es l <-> l = [].
Proof.
  intros X num upacked packed pointer types m p index es width size num_inj Hs He HT.
  exists (repeat (num 0) (N.to_nat (2 ^ width))). split; [apply repeat_length|]. intros fields l.
  set (elems := repeat (num 0) (N.to_nat (2 ^ width))) in *.
  assert (stored width elems = 0) as E.
  { unfold stored, elems. rewrite repeat_length, Nnat.N2Nat.id. apply N.mod_same. apply N.pow_nonzero. discriminate. }
  pose proof (exposes_iff num num_inj upacked packed pointer types m p index fields es elems 0 size width HT
                ltac:(repeat (apply Forall_cons; auto)) He eq_refl l) as H. rewrite E in H. exact H.
Qed.
Print Assumptions C62_elements_refuted.

(** ** Alignment, on a platform with 64-bit pointers, without LIBSDD_PACKED *)
Definition pointer64 : ctype := {| csize := 8; calign := 8 |}.

(** SDDs of conf0, conf1 and conf2: sdd/conf/default_configurations.hh 22-28 and 85-108, sdd/dd/definition.hh 53-54. *)
Definition default_node : ctype := struct false [uint32; uint16].
Definition sdd_types : list ctype := [struct false []; struct false []; default_node; default_node].
(** An arc: sdd/dd/alpha.hh 22-30.  A valuation is a handle (SDD, flat_set), or a bitset of 64 values: 8 bytes. *)
Definition default_arc : ctype := struct false [pointer64; pointer64].

(** The alignment of a class is that of one of its fields, and every field is at a multiple of its own. *)
Theorem C62_struct : forall l, Forall proper l -> l <> [] ->
  (exists c, In c l /\ calign (struct false l) = calign c) /\ (forall c, In c l -> calign c <= calign (struct false l)) /\
  (forall k c, nth_error l k = Some c -> (calign c | nth k (offsets false 0 l) 0)) /\
  ending false 0 l <= csize (struct false l) < ending false 0 l + calign (struct false l).
Proof.
  intros l P Hl. cbn [calign struct]. split; [|split; [|split]].
  - destruct l as [|a l]; [now elim Hl|]. clear Hl. revert a P. induction l as [|b l IH]; intros a P; inversion P as [|? ? A B]; subst.
    + exists a. split; [now left|]. cbn. destruct A as (_ & A & _). lia.
    + destruct (IH b B) as (c & H1 & H2). cbn [map largest fold_right] in *. unfold largest in H2. rewrite H2.
      destruct (N.max_spec (calign a) (calign c)) as [[_ ->]|[_ ->]]; [exists c|exists a]; (split; [|reflexivity]); [now right|now left].
  - intros c H. clear Hl P. induction l as [|a l IH]; [now elim H|]. cbn [map largest fold_right].
    destruct H as [->|H]; [lia|]. specialize (IH H). unfold largest in IH. lia.
  - clear Hl P. assert (G : forall off k c, nth_error l k = Some c -> (calign c | nth k (offsets false off l) 0)).
    2:{ intros k c. apply G. }
    induction l as [|a l IH]; intros off k c H; [destruct k; discriminate|]. destruct k; cbn in *.
    + injection H as ->. unfold align_up. apply N.divide_factor_r.
    + now apply IH.
  - cbn [csize]. assert (G : 0 < largest (map calign l)) by (unfold largest; clear; induction (map calign l); cbn; lia).
    assert (E : 1 <= ending false 0 l).
    { destruct l as [|c l]; [now elim Hl|]. inversion P as [|? ? (A & B & _) C]; subst. cbn [ending field_at].
      eapply N.le_trans; [|apply ending_ge; eapply Forall_impl; [|exact C]; intros x (_ & ? & _); auto]. lia. }
    replace (csize (struct false l)) with (align_up (ending false 0 l) (largest (map calign l)))
      by (unfold struct; cbn [csize]; now rewrite N.max_r by lia).
    split; [now apply align_up_ge|]. unfold align_up.
    pose proof (N.mul_div_le (ending false 0 l + largest (map calign l) - 1) (largest (map calign l)) ltac:(lia)) as D.
    rewrite N.mul_comm in D. lia.
Qed.
Print Assumptions C62_struct.
(** A class without field has one byte; the integers. *)
Example C62_small : struct false [] = byte /\ Forall proper [byte; uint16; uint32].
Proof. split; [reflexivity|]. repeat constructor; exists 1; reflexivity. Qed.

Theorem C62_arcs_aligned_partial : forall upacked p i, (8 | p) ->
  calign default_arc = 8 /\
  (8 | p + storage_at upacked false pointer64 sdd_types + csize default_node + i * csize default_arc).
Proof.
  intros upacked p i [k ->]. split; [reflexivity|].
  assert (storage_at upacked false pointer64 sdd_types = 16) as -> by (destruct upacked; reflexivity).
  change (csize default_node) with 8. change (csize default_arc) with 16. exists (k + 3 + 2 * i). lia.
Qed.
Print Assumptions C62_arcs_aligned_partial.

(** Homomorphisms: a sum only has a 32-bit counter (operands_size_type), and the variant has other types that hold pointers, so
    its storage is aligned on 8 bytes.  Every operand of every sum is at an address that is not suitable for a pointer. *)
Definition default_sum : ctype := struct false [uint32].
Theorem C62_operands_aligned_refuted : forall types p i,
  In default_sum types -> largest (map calign types) = 8 -> (8 | p) ->
  ~ (calign pointer64 | p + storage_at false false pointer64 types + csize default_sum + i * csize pointer64).
Proof.
  intros types p i _ Hl [k ->] [q Hq].
  assert (storage_at false false pointer64 types = 24) as E.
  { unfold storage_at, data_at, unique_fields, variant_fields, union_storage, struct. rewrite Hl.
    cbn [offsets nth field_at calign csize byte uint32 pointer64 map largest fold_right]. reflexivity. }
  rewrite E in Hq. change (csize default_sum) with 4 in Hq. cbn [csize calign pointer64] in Hq. lia.
Qed.
Print Assumptions C62_operands_aligned_refuted.

(** ** The hypotheses are met *)
Definition ex_node : list (ctype * N) := node_fields (fun n => n) uint32 uint16 16 7 [100; 101; 102].
Example C62_example_node :
  In (object false ex_node) sdd_types /\ Forall proper (map fst ex_node) /\ proper pointer64 /\
  let m := construct (fun n => n) false false pointer64 sdd_types (fun _ => None) 4096 2 ex_node 16 [100; 101; 102] in
  exposes (fun n => n) false m (4096 + 16) ex_node 1 16 [100; 101; 102] /\
  block_size false false pointer64 sdd_types 16 [100; 101; 102] = 24 + 48 /\
  m (4096 + 20) = Some (3, 0) /\ m (4096 + 24) = Some (100, 0) /\ m (4096 + 71) = Some (102, 15) /\ m (4096 + 72) = None.
Proof.
  assert (proper pointer64) as P by (repeat split; try reflexivity; exists 1; reflexivity).
  assert (proper uint32) as P1 by (repeat split; try reflexivity; exists 1; reflexivity).
  assert (proper uint16) as P2 by (repeat split; try reflexivity; exists 1; reflexivity).
  split; [right; right; left; reflexivity|]. split; [repeat (apply Forall_cons; auto)|]. split; [exact P|].
  cbv zeta. split; [|repeat split; vm_compute; reflexivity].
  change (4096 + 16) with (4096 + storage_at false false pointer64 sdd_types).
  pose proof (C62_elements_partial N (fun n => n) false false pointer64 sdd_types (fun _ => None) 4096 2 16 [100; 101; 102] 16 uint16
                (fun a b H => H) P2 ltac:(reflexivity) ltac:(reflexivity)) as [H _].
  apply (H uint32 7 P1); [right; right; left; reflexivity|reflexivity].
Qed.

(** Some of the types of homomorphisms: identity, sum, composition (two handles). *)
Definition ex_hom_types : list ctype := [struct false []; default_sum; struct false [pointer64; pointer64]].
Example C62_example_sum : In default_sum ex_hom_types /\ largest (map calign ex_hom_types) = 8 /\
  4096 + storage_at false false pointer64 ex_hom_types + csize default_sum = 4096 + 28.
Proof. repeat split; try reflexivity. right; left; reflexivity. Qed.
