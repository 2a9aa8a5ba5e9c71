(** * The number of arcs of a node: sdd/dd/node.hh *)

From Coq Require Import List Bool NArith Arith Lia Permutation.
From Verif Require Import Base SortedSets Values Sdd SddFacts DDModel DDProofs Spec DDTheorems FlatSet Bitset Concrete.
Import ListNotations.

Section NodeSize.
  Variable VI : values_impl.
  Notation V := (vt VI).
  Notation sdd := (sdd V).
  (** Width of alpha_size_type; 16 in conf/default_configurations.hh 29. *)
  Variable width : N.
  Context {W : Type}.
  Variable arc_eqb : W * sdd -> W * sdd -> bool.

  (** node.hh 27-160.  The arcs are placed after the node (consolidate); only size_ says how many. *)
  Record node : Type := { variable : N; size_ : N; stored : list (W * sdd) }.
  (** node(), 71-78: static_cast<alpha_size_type>(builder.size()). *)
  Definition make_node (var : N) (builder : list (W * sdd)) : node :=
    {| variable := var; size_ := (N.of_nat (length builder) mod 2 ^ width)%N; stored := builder |}.
  (** begin() and end(), 102-120. *)
  Definition exposed (n : node) : list (W * sdd) := firstn (N.to_nat (size_ n)) (stored n).
  (** ==, 134-143. *)
  Definition node_eq (a b : node) : bool :=
    N.eqb (size_ a) (size_ b) && N.eqb (variable a) (variable b) &&
    forallb (fun ab => arc_eqb (fst ab) (snd ab)) (combine (exposed a) (exposed b)).

  Lemma exposed_all : forall var l, (N.of_nat (length l) < 2 ^ width)%N -> exposed (make_node var l) = l.
  Proof.
    intros var l H. unfold exposed, make_node. cbn [size_ stored].
    rewrite N.mod_small by auto. rewrite Nnat.Nat2N.id. apply firstn_all.
  Qed.
  Lemma exposed_length : forall var l, length (exposed (make_node var l)) =
    N.to_nat (N.of_nat (length l) mod 2 ^ width)%N.
  Proof.
    intros var l. unfold exposed, make_node. cbn [size_ stored]. apply firstn_length_le.
    assert (N.of_nat (length l) mod 2 ^ width <= N.of_nat (length l))%N; [|lia].
    apply N.mod_le. apply N.pow_nonzero. discriminate.
  Qed.
  Lemma exposed_lost : forall var l, (2 ^ width <= N.of_nat (length l))%N ->
    length (exposed (make_node var l)) < length l.
  Proof.
    intros var l H. rewrite exposed_length.
    assert (N.of_nat (length l) mod 2 ^ width < 2 ^ width)%N; [|lia].
    apply N.mod_lt. apply N.pow_nonzero. discriminate.
  Qed.
  Lemma exposed_prefix : forall var l, exists rest, l = exposed (make_node var l) ++ rest.
  Proof. intros. exists (skipn (N.to_nat (size_ (make_node var l))) l). symmetry. apply firstn_skipn. Qed.

  Lemma node_eq_spec : (forall a b, arc_eqb a b = true <-> a = b) ->
    forall x y k l, (N.of_nat (length k) < 2 ^ width)%N -> (N.of_nat (length l) < 2 ^ width)%N ->
    (node_eq (make_node x k) (make_node y l) = true <-> x = y /\ k = l).
  Proof.
    intros He x y k l Hk Hl. unfold node_eq. rewrite !exposed_all by auto.
    unfold make_node. cbn [size_ variable]. rewrite !N.mod_small by auto.
    rewrite !andb_true_iff, !N.eqb_eq. split.
    - intros [[H1 ->] H2]. split; auto. apply Nnat.Nat2N.inj in H1. clear Hk Hl.
      revert l H1 H2. induction k as [|a k IH]; intros [|b l] H1 H2; try discriminate; auto.
      cbn [combine forallb fst snd] in H2. apply andb_true_iff in H2. destruct H2 as [H2 H3].
      apply He in H2. subst. f_equal. apply IH; auto.
    - intros [-> ->]. split; auto. clear - He. induction l as [|a l IH]; auto.
      cbn [combine forallb fst snd]. rewrite IH, andb_true_r. now apply He.
  Qed.
End NodeSize.

(** ** A diagram with many arcs: variable 1 and variable 0 have the same value, below [n]. *)

Definition eq_pair (i : nat) : sdd (vt FS) :=
  node_flat FS PF_up 1 (fs [N.of_nat i]) (node_flat FS PF_up 0 (fs [N.of_nat i]) One).

Lemma fs_one : forall a c, v_mem FS (fs [a]) c = true <-> c = a.
Proof.
  intros a c. change (fs_mem N.ltb (fs_of_list N.ltb [a]) c = true <-> c = a).
  rewrite (fs_mem_spec N.ltb Nltb_strict).
  rewrite (proj2 (fs_of_list_spec N.ltb Nltb_strict [a])). simpl. intuition.
Qed.
Lemma eq_pair_contains : forall i p, contains (VI := FS) (eq_pair i) p = true <->
  p = AVal 1 (N.of_nat i) (AVal 0 (N.of_nat i) ANil).
Proof.
  intros i p. unfold eq_pair. rewrite (node_flat_contains FS FS_laws). split.
  - intros (a & q & -> & Ha & Hq). apply (node_flat_contains FS FS_laws) in Hq.
    destruct Hq as (b & r & -> & Hb & Hr). destruct r; try discriminate.
    apply fs_one in Ha. apply fs_one in Hb. now subst.
  - intros ->. exists (N.of_nat i), (AVal 0%N (N.of_nat i) ANil). split; auto. split; [now apply fs_one|].
    apply (node_flat_contains FS FS_laws). exists (N.of_nat i), ANil. split; auto. split; auto.
    now apply fs_one.
Qed.

Lemma wide_arcs : forall n x arcs,
  (forall p, contains (VI := FS) (Flat x arcs) p = true <-> exists i, i < n /\ contains (VI := FS) (eq_pair i) p = true) ->
  n <= length arcs.
Proof.
  intros n x arcs H.
  assert (P : forall i, i < n -> exists a, In a arcs /\ v_mem FS (fst a) (N.of_nat i) = true /\
    contains (VI := FS) (snd a) (AVal 0 (N.of_nat i) ANil) = true).
  { intros i Hi. assert (C : contains (VI := FS) (Flat x arcs) (AVal 1 (N.of_nat i) (AVal 0 (N.of_nat i) ANil)) = true).
    { apply H. exists i. split; auto. now apply eq_pair_contains. }
    rewrite contains_flat in C. apply andb_prop in C. destruct C as [_ C].
    apply acontains_spec in C. destruct C as (v & s & Hin & Hv & Hs). exists (v, s). auto. }
  destruct n as [|n']; [lia|]. set (n := S n') in *.
  assert (X : x = 1%N).
  { assert (C : contains (VI := FS) (Flat x arcs) (AVal 1 0%N (AVal 0 0%N ANil)) = true).
    { apply H. exists 0. split; [unfold n; lia|]. now apply eq_pair_contains. }
    rewrite contains_flat in C. apply andb_prop in C. destruct C as [C _]. now apply N.eqb_eq in C. }
  assert (L : forall m, m <= n -> exists l, length l = m /\ NoDup l /\ incl l arcs /\
    forall a, In a l -> exists i, i < m /\ v_mem FS (fst a) (N.of_nat i) = true).
  { induction m as [|m IH]; intros Hm.
    - exists []. split; [auto|]. split; [constructor|]. split; [intros a []|intros a []].
    - destruct IH as (l & Hl & Hd & Hi & Hv); [lia|]. destruct (P m) as (a & Ha & Hva & Hsa); [lia|].
      exists (a :: l). split; [simpl; auto|]. split; [|split].
      + constructor; auto. intros Hin. destruct (Hv a Hin) as (i & Hi1 & Hi2).
        assert (C : contains (VI := FS) (Flat x arcs) (AVal 1 (N.of_nat i) (AVal 0 (N.of_nat m) ANil)) = true).
        { rewrite contains_flat, X. apply andb_true_intro. split; [reflexivity|]. apply acontains_spec.
          exists (fst a), (snd a). split; auto. now rewrite <- surjective_pairing. }
        apply H in C. destruct C as (j & _ & C). apply eq_pair_contains in C. injection C as C1 C2. lia.
      + intros b [<-|Hb]; auto.
      + intros b [<-|Hb]; [exists m; split; [lia|auto]|]. destruct (Hv b Hb) as (i & Hi1 & Hi2).
        exists i. split; [lia|auto]. }
  destruct (L n (Nat.le_refl n)) as (l & Hl & Hd & Hi & _). rewrite <- Hl. now apply NoDup_incl_length.
Qed.

(** The union of the first [n] pairs exists and has a root with at least [n] arcs. *)
Lemma wide_exists : forall n, 0 < n -> exists x arcs,
  api_sum FS PF_up (map eq_pair (seq 0 n)) = Ok (Flat x arcs) /\ built FS PF_up (Flat x arcs) /\ n <= length arcs.
Proof.
  intros n Hn.
  assert (B : forall y, In y (map eq_pair (seq 0 n)) -> built FS PF_up y /\ follows (SFlat 1 (SFlat 0 SEnd)) y).
  { intros y Hy. apply in_map_iff in Hy. destruct Hy as (i & <- & _). unfold eq_pair. split.
    - repeat constructor.
    - repeat (apply node_flat_follows || constructor). }
  destruct (sum_total FS FS_laws PF_up PF_up_ok _ _ B) as (r & Er & Fr).
  assert (Br : built FS PF_up r) by (eapply built_sum; [|exact Er]; intros y Hy; now apply B).
  assert (C : forall p, contains (VI := FS) r p = true <-> exists i, i < n /\ contains (VI := FS) (eq_pair i) p = true).
  { intros p. rewrite (sum_spec FS FS_laws PF_up PF_up_ok _ _ (fun y Hy => proj1 (B y Hy)) Er).
    split.
    - intros (y & Hy & Hp). apply in_map_iff in Hy. destruct Hy as (i & <- & Hi). apply in_seq in Hi.
      exists i. split; [lia|auto].
    - intros (i & Hi & Hp). exists (eq_pair i). split; auto. apply in_map, in_seq. lia. }
  assert (C0 : contains (VI := FS) r (AVal 1 0%N (AVal 0 0%N ANil)) = true).
  { apply C. exists 0. split; [exact Hn|now apply eq_pair_contains]. }
  destruct r as [| |x arcs|x arcs]; try discriminate C0.
  exists x, arcs. split; auto. split; auto. now apply (wide_arcs n x arcs).
Qed.

(** Assignments are lost by the truncation. *)
Lemma lost_assignment : forall lt x arcs, canonical FS lt (Flat x arcs) ->
  (2 ^ 16 <= N.of_nat (length arcs))%N ->
  exists p, contains (VI := FS) (Flat x arcs) p = true /\
            contains (VI := FS) (Flat x (exposed FS (make_node FS 16 x arcs))) p = false.
Proof.
  intros lt x arcs Hc Hl.
  destruct (exposed_prefix FS 16 x arcs) as (rest & E).
  pose proof (exposed_lost FS 16 x arcs Hl) as Hlen.
  set (ex := exposed FS (make_node FS 16 x arcs)) in *.
  destruct rest as [|[v s] rest]; [rewrite app_nil_r in E; apply (f_equal (@length _)) in E; lia|].
  clearbody ex. inversion Hc as [| |x0 a0 H1 H2 H3 H4 H5 EE|]. subst x0 a0.
  destruct (H2 v s) as [Hv Hs]; [rewrite E; apply in_app_iff; simpl; auto|].
  assert (Hcs : canonical FS lt s) by (apply (H3 v); rewrite E; apply in_app_iff; simpl; auto).
  destruct (canonical_nonempty FS FS_laws lt s Hcs Hs) as (q & Hq).
  destruct (v_nonempty FS FS_laws v Hv) as (a & Ha).
  exists (AVal x a q). rewrite !contains_flat, N.eqb_refl. cbn [andb]. split.
  - apply acontains_spec. exists v, s. split; auto. rewrite E. apply in_app_iff. simpl. auto.
  - apply not_true_iff_false. intros C. apply acontains_spec in C. destruct C as (w & u & Hin & Hw & _).
    rewrite E in H4. clear - H4 Hin Ha Hw. 
    induction ex as [|b ex IH]; [destruct Hin|]. inversion H4 as [|? ? F1 F2]; subst.
    destruct Hin as [->|Hin]; [|auto]. rewrite Forall_forall in F1.
    apply (F1 (v, s)) with (k := a); auto. apply in_app_iff. simpl. auto.
Qed.
