(** * Properties of FORCE: spans, history of the program, overflows (C34, C80, C81) *)

From Coq Require Import List Bool Arith NArith Lia Permutation Sorted.
From Verif Require Import Base Orders OrdersProofs OrdersMore OrdersProps Force ForceMore ForceInt.
Import ListNotations.

(** ** Specification *)

(** What is expected of std::sort: it permutes, and its result only depends on the comparisons it makes (it is deterministic). *)
Definition permuting (sort : (nat -> N) -> list nat -> list nat) : Prop := forall key l, Permutation (sort key l) l.
Definition comparing (sort : (nat -> N) -> list nat -> list nat) : Prop := forall k k' l,
  (forall i j, In i l -> In j l -> (k i <? k j)%N = (k' i <? k' j)%N) -> sort k l = sort k' l.

(** [d] is the span of the identifiers [e] in the order [l]: the distance from the first of them to the last. *)
Definition is_span {U} (l e : list U) (d : nat) : Prop :=
  match e with
  | [] => d = 0
  | _ => exists p q, d = q - p /\ p <= q /\ (exists u, In u e /\ nth_error l p = Some u) /\ (exists u, In u e /\ nth_error l q = Some u) /\
         forall u, In u e -> exists i, p <= i <= q /\ nth_error l i = Some u
  end.

(** The total span of hyperedges. *)
Inductive total_span_is {U} (l : list U) : list (list U) -> nat -> Prop :=
| total_nil : total_span_is l [] 0
| total_cons e es d t : is_span l e d -> total_span_is l es t -> total_span_is l (e :: es) (d + t).

(** ** Proofs *)

Lemma place_found {U} (ueqb : U -> U -> bool) : (forall a b, ueqb a b = true <-> a = b) -> forall l u, In u l ->
  nth_error l (place_in U ueqb l u) = Some u.
Proof.
  intros EQ. induction l as [|v l IH]; intros u I; [destruct I|]. cbn. destruct (ueqb u v) eqn:E.
  - apply EQ in E as ->. reflexivity.
  - cbn. apply IH. destruct I as [->|I]; [|exact I]. assert (ueqb u u = true) by now apply EQ. congruence.
Qed.

Lemma min_max_span n : forall ps, ps <> [] -> Forall (fun p => p < n) ps ->
  In (fold_right Nat.max 0 ps) ps /\ In (fold_right Nat.min n ps) ps /\
  forall p, In p ps -> fold_right Nat.min n ps <= p <= fold_right Nat.max 0 ps.
Proof.
  induction ps as [|p ps IH]; intros NE F; [congruence|]. inversion F as [|? ? P F']; subst.
  destruct ps as [|q ps].
  - cbn. split; [left; lia|]. split; [left; lia|]. intros x [->|[]]. lia.
  - destruct IH as (A & B & C); [discriminate|exact F'|].
    change (fold_right Nat.max 0 (p :: q :: ps)) with (Nat.max p (fold_right Nat.max 0 (q :: ps))).
    change (fold_right Nat.min n (p :: q :: ps)) with (Nat.min p (fold_right Nat.min n (q :: ps))).
    set (m := fold_right Nat.max 0 (q :: ps)) in *. set (i := fold_right Nat.min n (q :: ps)) in *.
    split; [|split].
    + destruct (Nat.max_spec p m) as [[_ ->]|[_ ->]]; [right; exact A|left; reflexivity].
    + destruct (Nat.min_spec p i) as [[_ ->]|[_ ->]]; [left; reflexivity|right; exact B].
    + intros x [->|I]; [lia|]. apply C in I. lia.
Qed.

Lemma spread_total {U} (ueqb : U -> U -> bool) (EQ : forall a b, ueqb a b = true <-> a = b) l : forall es,
  (forall e u, In e es -> In u e -> In u l) -> total_span_is l es (spread U ueqb l es).
Proof.
  induction es as [|e es IH]; intros IN; [constructor|]. rewrite spread_cons. constructor.
  - destruct e as [|u e]; [reflexivity|]. unfold is_span, min_max.
    destruct (min_max_span (length l) (map (place_in U ueqb l) (u :: e))) as (A & B & C); [discriminate| |].
    { apply Forall_map, Forall_forall. intros x I. apply place_lt; auto. eapply IN; [left; reflexivity|exact I]. }
    cbn [map] in *. eexists _, _. split; [reflexivity|].
    split; [pose proof (C _ (or_introl eq_refl)) as C0; exact (Nat.le_trans _ _ _ (proj1 C0) (proj2 C0))|].
    change (place_in U ueqb l u :: map (place_in U ueqb l) e) with (map (place_in U ueqb l) (u :: e)) in *.
    split; [|split].
    + apply in_map_iff in B as (x & <- & I). exists x. split; [exact I|].
      apply place_found; auto. eapply IN; [left; reflexivity|exact I].
    + apply in_map_iff in A as (x & <- & I). exists x. split; [exact I|].
      apply place_found; auto. eapply IN; [left; reflexivity|exact I].
    + intros x I. exists (place_in U ueqb l x). split; [apply C; now apply in_map|].
      apply place_found; auto. eapply IN; [left; reflexivity|exact I].
  - apply IH. intros f x I. apply IN. now right.
Qed.

(** ** C34: the spans which are kept for statistics are those of the orders *)

(** The j-th span is the total span of the order that is returned after j iterations. *)
Theorem C34_spans : forall U ueqb (EQ : is_eqb ueqb) sort dbl_max location ids es g k reverse j,
  permuting sort ->
  hypergraph_at ueqb location ids es = Ok g ->
  Forall (fun s => (s < dbl_max)%N) (w_spans U (worker_loop U sort dbl_max g k)) ->
  j < k ->
  exists l s, worker U sort dbl_max g reverse (S j) = b_of_list l /\
    nth_error (w_spans U (worker_loop U sort dbl_max g k)) j = Some (N.of_nat s) /\ total_span_is l (map fst es) s.
Proof.
  intros U ueqb EQ sort dbl_max location ids es g k reverse j SP H F J.
  assert (F' : Forall (fun s => (s < dbl_max)%N) (w_spans U (worker_loop U sort dbl_max g (S j)))).
  { apply Forall_forall. intros s I. apply In_nth_error in I as (i & I).
    destruct (worker_loop_ok U sort dbl_max SP g (S j)) as (_ & _ & _ & L).
    assert (i < S j) as IJ by (rewrite <- L; apply nth_error_Some; congruence).
    rewrite (spans_prefix U sort dbl_max g i (S j) IJ), <- (spans_prefix U sort dbl_max g i k) in I by lia.
    rewrite Forall_forall in F. apply F. eapply nth_error_In; eauto. }
  destruct (worker_spans U ueqb sort dbl_max EQ SP location ids es g j reverse H F') as (l & E1 & E2).
  exists l, (spread U ueqb l (map fst es)). split; [exact E1|].
  split; [rewrite (spans_prefix U sort dbl_max g j k J); exact E2|].
  apply spread_total; [exact EQ|]. intros e u I I'.
  destruct (hypergraph_ok U ueqb EQ location ids es g H) as [[B1 _ _ _] _].
  destruct (worker_flats U sort dbl_max SP g reverse (S j)) as (l' & E3 & P). rewrite E1 in E3.
  assert (l = l') as -> by (apply (f_equal flats) in E3; now rewrite !flats_of_list in E3).
  eapply Permutation_in; [symmetry; exact P|]. rewrite B1.
  apply in_map_iff in I as (e' & <- & I).
  eapply stored_in; [eapply hypergraph_match; [exact EQ|exact H]|exact I|exact I'].
Qed.
Print Assumptions C34_spans.

(** ** C80: the order depends on the hypergraph only *)

(** [location] is the number of vertices of the hypergraphs built before.  With hyperedges of weight 1, it has no effect; nor
    with hyperedges of the same integral weight, if every identifier is in some hyperedge. *)
Theorem C80_history_partial : forall U ueqb (EQ : is_eqb ueqb) sort dbl_max n ids es location location' g g' reverse k,
  permuting sort -> comparing sort ->
  hypergraph_at ueqb location ids es = Ok g -> hypergraph_at ueqb location' ids es = Ok g' ->
  (forall e, In e es -> w_num (snd e) = (n * Npos (w_den (snd e)))%N) ->
  n = 1%N \/ (forall u, In u ids -> exists e, In e es /\ In u (fst e)) ->
  worker U sort dbl_max g' reverse k = worker U sort dbl_max g reverse k /\
  w_spans U (worker_loop U sort dbl_max g' k) = w_spans U (worker_loop U sort dbl_max g k).
Proof.
  intros U ueqb EQ sort dbl_max n ids es l l' g g' reverse k SP OC H H' W C.
  destruct (N.le_ge_cases l l') as [L|L].
  - replace l' with (l + (l' - l))%N in H' by lia. eapply worker_history; eauto.
  - replace l with (l' + (l - l'))%N in H by lia.
    destruct (worker_history U ueqb sort dbl_max EQ SP OC (l - l') n l' ids es g' g reverse k H' H W C) as [-> ->]. auto.
Qed.
Print Assumptions C80_history_partial.

(** Whether a hypergraph can be built does not depend on the history. *)
Theorem C80_built : forall U (ueqb : U -> U -> bool) ids es location location',
  match hypergraph_at ueqb location ids es, hypergraph_at ueqb location' ids es with
  | Ok _, Ok _ => True
  | Err e, Err e' => e = e'
  | _, _ => False
  end.
Proof.
  intros U ueqb ids es l l'.
  destruct (N.le_ge_cases l l') as [L|L].
  - pose proof (hypergraph_shifted U ueqb (l' - l) l ids es) as H. replace (l + (l' - l))%N with l' in H by lia.
    destruct (hypergraph_at ueqb l ids es), (hypergraph_at ueqb l' ids es); auto.
  - pose proof (hypergraph_shifted U ueqb (l - l') l' ids es) as H. replace (l' + (l - l'))%N with l in H by lia.
    destruct (hypergraph_at ueqb l ids es), (hypergraph_at ueqb l' ids es); auto.
Qed.
Print Assumptions C80_built.

(** A sort as expected. *)
Fixpoint insert_key (key : nat -> N) (i : nat) (l : list nat) : list nat :=
  match l with [] => [i] | j :: r => if (key j <? key i)%N then j :: insert_key key i r else i :: l end.
Definition sort_key (key : nat -> N) (l : list nat) : list nat := fold_right (insert_key key) [] l.

Lemma insert_perm key i l : Permutation (insert_key key i l) (i :: l).
Proof.
  induction l as [|j l IH]; cbn; [reflexivity|]. destruct (_ <? _)%N; [|reflexivity]. rewrite IH. apply perm_swap.
Qed.
Lemma sort_key_permutes : permuting sort_key.
Proof. intros key l. induction l as [|i l IH]; cbn; [reflexivity|]. rewrite insert_perm. now apply perm_skip. Qed.
Lemma sort_key_compares : comparing sort_key.
Proof.
  intros k k' l. induction l as [|i l IH]; intros H; [reflexivity|].
  change (insert_key k i (sort_key k l) = insert_key k' i (sort_key k' l)).
  rewrite <- IH by (intros a b A B; apply H; now right).
  assert (forall m, (forall j, In j m -> In j (i :: l)) -> insert_key k i m = insert_key k' i m) as G.
  { induction m as [|j m IHm]; intros IN; cbn; [reflexivity|].
    rewrite (H j i); [|apply IN; now left|now left]. rewrite IHm by (intros; apply IN; now right). reflexivity. }
  apply G. intros j J. right. eapply Permutation_in; [apply (sort_key_permutes k l)|exact J].
Qed.
Lemma sort_key_sorts : sorts sort_key.
Proof.
  intros key l. split; [apply sort_key_permutes|]. induction l as [|i l IH]; cbn; [constructor|].
  change (fold_right (insert_key key) [] l) with (sort_key key l). induction IH as [|j m S IHm F]; cbn.
  - repeat constructor.
  - destruct (N.ltb_spec (key j) (key i)).
    + constructor; [exact IHm|]. apply Forall_forall. intros x X. eapply Permutation_in in X; [|apply insert_perm].
      destruct X as [->|X]; [lia|]. rewrite Forall_forall in F. auto.
    + constructor; [constructor; assumption|]. constructor; [assumption|]. eapply Forall_impl; [|exact F]. cbn. lia.
Qed.

(** A hypergraph with an isolated vertex, built first, and then after 7 vertices. *)
Definition weighs (n : N) : weight := {| w_num := n; w_den := 1 |}.
Definition ex_edges : list (list nat * weight) := [([1; 4], weighs 1); ([2; 4], weighs 1); ([1; 2; 4], weighs 1)].
Example C80_ex : exists g g', hypergraph_at Nat.eqb 0 [1; 2; 3; 4] ex_edges = Ok g /\
  hypergraph_at Nat.eqb 7 [1; 2; 3; 4] ex_edges = Ok g' /\ g <> g' /\
  worker nat sort_key 100 g true 2 = b_of_list [1; 2; 4; 3] /\ worker nat sort_key 100 g' true 2 = b_of_list [1; 2; 4; 3] /\
  w_spans nat (worker_loop nat sort_key 100 g 2) = [5; 5]%N.
Proof. eexists _, _. split; [vm_compute; reflexivity|]. split; [vm_compute; reflexivity|]. split; [discriminate|]. vm_compute. auto. Qed.

Lemma one_step U sort dbl_max (g : hypergraph U) m sp :
  let es := map (compute_cog U (vertices U g)) (hyperedges U g) in
  let vs := map (relocate U es) (vertices U g) in
  sort (loc_of U vs) (seq 0 (length (vertices U g))) = m -> total_span U (assign U vs m 0) es = sp -> (sp < dbl_max)%N ->
  worker U sort dbl_max g true 1 = b_of_list (listed U (map (v_id U) (vertices U g)) m).
Proof.
  intros es vs S T L. unfold worker. rewrite to_builder_ok. unfold worker_loop, worker_start. cbn [Nat.iter nat_rect].
  unfold iteration. cbn [w_graph w_sorted w_best vertices]. fold es. fold vs. rewrite S, T.
  apply N.ltb_lt in L. rewrite L, listed_ids, assign_ids. f_equal. f_equal. subst vs. apply relocate_ids.
Qed.

(** Two hypergraphs built by the same calls, the second one after the first: their orders differ, whatever the sort.  All the
    identifiers are in hyperedges, but the weights differ. *)
Theorem C80_weights_refuted : forall sort dbl_max, sorts sort -> (0 < dbl_max)%N -> exists g g',
  (exists v, mk_hypergraph nat Nat.eqb [10; 11] 0 = Ok (v, 2%N)) /\
  hypergraph_at Nat.eqb 0 [10; 11] [([10], weighs 2); ([11], weighs 1)] = Ok g /\
  hypergraph_at Nat.eqb 2 [10; 11] [([10], weighs 2); ([11], weighs 1)] = Ok g' /\
  worker nat sort dbl_max g true 1 = b_of_list [10; 11] /\ worker nat sort dbl_max g' true 1 = b_of_list [11; 10].
Proof.
  intros sort dbl_max S L. eexists _, _. split; [eexists; vm_compute; reflexivity|].
  split; [vm_compute; reflexivity|]. split; [vm_compute; reflexivity|]. split.
  - erewrite (one_step nat sort dbl_max _ [0; 1] 0%N); [reflexivity| |reflexivity|exact L].
    apply sort3; auto.
    + vm_compute. intuition (subst; try reflexivity; discriminate).
    + repeat constructor; vm_compute; discriminate.
  - erewrite (one_step nat sort dbl_max _ [1; 0] 0%N); [reflexivity| |reflexivity|exact L].
    apply sort3; auto.
    + vm_compute. intuition (subst; try reflexivity; discriminate).
    + apply perm_swap.
    + repeat constructor; vm_compute; discriminate.
Qed.
Print Assumptions C80_weights_refuted.

(** The same with one hyperedge, of weight 2, and an identifier in no hyperedge. *)
Theorem C80_isolated_refuted : forall sort dbl_max, sorts sort -> (0 < dbl_max)%N -> exists g g',
  hypergraph_at Nat.eqb 0 [10; 11] [([10], weighs 2)] = Ok g /\ hypergraph_at Nat.eqb 2 [10; 11] [([10], weighs 2)] = Ok g' /\
  worker nat sort dbl_max g true 1 = b_of_list [10; 11] /\ worker nat sort dbl_max g' true 1 = b_of_list [11; 10].
Proof.
  intros sort dbl_max S L. eexists _, _. 
  split; [vm_compute; reflexivity|]. split; [vm_compute; reflexivity|]. split.
  - erewrite (one_step nat sort dbl_max _ [0; 1] 0%N); [reflexivity| |reflexivity|exact L].
    apply sort3; auto.
    + vm_compute. intuition (subst; try reflexivity; discriminate).
    + repeat constructor; vm_compute; discriminate.
  - erewrite (one_step nat sort dbl_max _ [1; 0] 0%N); [reflexivity| |reflexivity|exact L].
    apply sort3; auto.
    + vm_compute. intuition (subst; try reflexivity; discriminate).
    + apply perm_swap.
    + repeat constructor; vm_compute; discriminate.
Qed.
Print Assumptions C80_isolated_refuted.

(** The strategy changes its hypergraph: applied twice, it gives two orders. *)
Theorem C80_again_refuted : forall sort dbl_max, sorts sort -> (10 < dbl_max)%N -> exists g,
  hypergraph_at Nat.eqb 0 [10; 11; 12] [([10; 12], weighs 3); ([10], weighs 10); ([10; 11], weighs 1)] = Ok g /\
  worker nat sort dbl_max g true 1 = b_of_list [11; 10; 12] /\
  worker nat sort dbl_max (w_graph nat (worker_loop nat sort dbl_max g 1)) true 1 = b_of_list [11; 12; 10].
Proof.
  intros sort dbl_max S L. eexists. split; [vm_compute; reflexivity|].
  match goal with |- worker nat sort dbl_max ?G true 1 = _ /\ _ => set (g := G) end.
  assert (E : sort (loc_of nat (map (relocate nat (map (compute_cog nat (vertices nat g)) (hyperedges nat g))) (vertices nat g)))
                (seq 0 (length (vertices nat g))) = [1; 0; 2]).
  { apply sort3; auto.
    - vm_compute. intuition (subst; try reflexivity; discriminate).
    - vm_compute. apply perm_swap.
    - repeat constructor; vm_compute; discriminate. }
  split.
  - erewrite (one_step nat sort dbl_max g [1; 0; 2] 2%N); [reflexivity|exact E|vm_compute; reflexivity|lia].
  - assert (w_graph nat (worker_loop nat sort dbl_max g 1) = w_graph nat (worker_loop nat (fun _ _ => [1; 0; 2]) 0 g 1)) as ->.
    { unfold worker_loop, worker_start. cbn [Nat.iter nat_rect]. unfold iteration. cbn [w_graph w_sorted]. now rewrite E. }
    erewrite (one_step nat sort dbl_max _ [1; 2; 0] 3%N); [reflexivity| |vm_compute; reflexivity|lia].
    apply sort3; auto.
    + vm_compute. intuition (subst; try reflexivity; discriminate).
    + apply (Permutation_cons_app [1; 2] []). reflexivity.
    + repeat constructor; vm_compute; discriminate.
Qed.
Print Assumptions C80_again_refuted.

(** ** C81: sums of FORCE fit in an int *)

Definition INT_MAX : N := 2147483647.

(** If the number of ends of hyperedges, times the number of identifiers given to hypergraphs until now, times the greatest weight
    fits in an int, no sum overflows, and the order is the one of exact arithmetic. *)
Theorem C81_fits_partial : forall U ueqb (EQ : is_eqb ueqb) sort dbl_max W location ids es g reverse k,
  permuting sort ->
  hypergraph_at ueqb location ids es = Ok g ->
  (1 <= W)%N -> (forall e, In e es -> (w_num (snd e) <= W * Npos (w_den (snd e)))%N) ->
  (N.of_nat (list_sum (map (fun e => length (fst e)) es)) * (location + N.of_nat (length ids)) * W <= INT_MAX)%N ->
  worker_int U sort dbl_max INT_MAX g reverse k = Some (worker U sort dbl_max g reverse k).
Proof.
  intros U ueqb EQ sort dbl_max W location ids es g reverse k SP H W1 LW L.
  eapply (worker_int_ok U sort dbl_max INT_MAX _ _ W L W1 SP (length ids)); [|lia].
  eapply hypergraph_fits; eauto; apply N.le_refl.
Qed.
Print Assumptions C81_fits_partial.

(** Whenever no sum overflows, the order is the one of exact arithmetic. *)
Theorem C81_exact : forall U sort dbl_max int_max g reverse k b,
  worker_int U sort dbl_max int_max g reverse k = Some b -> b = worker U sort dbl_max g reverse k.
Proof. intros U sort dbl_max int_max g reverse k b. apply worker_int_some. Qed.
Print Assumptions C81_exact.

(** A hyperedge with 65537 identifiers is enough for an undefined behaviour, whatever its weight, at the first iteration. *)
Theorem C81_big_refuted : forall U ueqb (EQ : is_eqb ueqb) sort dbl_max w (ids : list U) reverse k,
  NoDup ids -> N.of_nat (length ids) = 65537%N ->
  exists g, hypergraph_at ueqb 0 ids [(ids, w)] = Ok g /\ worker_int U sort dbl_max INT_MAX g reverse (S k) = None.
Proof.
  intros U ueqb EQ sort dbl_max w ids reverse k ND L. apply one_edge; auto.
  - intros ->. discriminate.
  - rewrite L. reflexivity.
Qed.
Print Assumptions C81_big_refuted.

Example C81_big_ex : exists ids : list nat, NoDup ids /\ N.of_nat (length ids) = 65537%N.
Proof. exists (seq 0 (N.to_nat 65537)). split; [apply seq_NoDup|]. rewrite seq_length. apply N2Nat.id. Qed.

(** So are two identifiers, when 2^30 identifiers have been given to hypergraphs before: the variable location is never reset. *)
Theorem C81_history_refuted : forall U ueqb (EQ : is_eqb ueqb) sort dbl_max w (a b : U) reverse k, a <> b ->
  exists g, hypergraph_at ueqb (2 ^ 30) [a; b] [([a; b], w)] = Ok g /\ worker_int U sort dbl_max INT_MAX g reverse (S k) = None.
Proof.
  intros U ueqb EQ sort dbl_max w a b reverse k NE. apply one_edge; auto.
  - constructor; [intros [E|[]]; congruence|]. constructor; [intros []|constructor].
  - discriminate.
  - reflexivity.
Qed.
Print Assumptions C81_history_refuted.

Example C81_ex : exists g, hypergraph_at Nat.eqb 0 [1; 2; 3; 4] ex_edges = Ok g /\
  (N.of_nat (list_sum (map (fun e => length (fst e)) ex_edges)) * (0 + 4) * 1 <= INT_MAX)%N /\
  worker_int nat sort_key 100 INT_MAX g true 2 = Some (b_of_list [1; 2; 4; 3]) /\
  worker_int nat sort_key 100 4 g true 2 = None.
Proof. eexists. split; [vm_compute; reflexivity|]. split; [vm_compute; discriminate|]. vm_compute. auto. Qed.
