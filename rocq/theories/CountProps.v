(** * Properties C14, C15, C46, C48, C51: size(), paths(), tools, number of arcs *)

From Coq Require Import List Bool NArith Arith Lia Permutation.
From Verif Require Import Base SortedSets Values Sdd SddFacts DDModel DDProofs Spec DDTheorems DDAlgebra
  FlatSet Bitset Concrete DDProps Count Paths Tools ToolsProofs NodeSize.
Import ListNotations.

(** ** C14 *)

(** [l] enumerates the assignments of x, each once. *)
Theorem C14_size : forall VI (VL : values_laws VI) PF (PO : platform_ok PF) x, built VI PF x ->
  exists l, NoDup l /\ (forall p, In p l <-> contains x p = true) /\
            size VI PF x = Some (N.of_nat (length l)).
Proof. intros VI VL PF PO. exact (size_spec VI PF VL PO). Qed.
Print Assumptions C14_size.
Example C14_ex : built FS PF_up ex_x /\ size FS PF_up ex_x = Some 4%N /\
  match api_plus FS PF_up ex_x ex_y with Ok z => size FS PF_up z | Err _ => None end = Some 11%N.
Proof. split; [exs|]. vm_compute. auto. Qed.

(** ** C15 *)

(** A path is a sequence of valuations; [in_product w pt]: the sequence of values [w] is in the product
    of [pt].  [flat p]: the values of the assignment [p], from left to right. *)
Theorem C15_paths : forall VI (VL : values_laws VI) PF (PO : platform_ok PF) x, built VI PF x -> x <> Zero ->
  exists l, paths VI x = Some l /\
  forall w, (exists pt, In pt l /\ in_product VI w pt) <-> (exists p, contains x p = true /\ flat VI p = w).
Proof.
  intros VI VL PF PO x B Hx. exists (paths_of VI x). split.
  - apply paths_correct. eapply canonical_nz; eauto. now apply (built_canonical VI VL PF PO).
  - apply paths_of_spec.
Qed.
Print Assumptions C15_paths.
(** Products are pairwise disjoint. *)
Theorem C15_disjoint : forall VI (VL : values_laws VI) PF (PO : platform_ok PF) x,
  built VI PF x -> x <> Zero -> exists l, paths VI x = Some l /\
  forall l1 a l2 b l3 w, l = l1 ++ a :: l2 ++ b :: l3 -> in_product VI w a -> in_product VI w b -> False.
Proof.
  intros VI VL PF PO x B Hx. destruct (built_both VI VL PF PO x B) as [C CO].
  exists (paths_of VI x). split.
  - apply paths_correct. eapply canonical_nz; eauto.
  - intros l1 a l2 b l3 w E. pose proof (paths_disjoint VI VL _ x C CO) as D. rewrite E in D. clear E.
    induction l1 as [|c l1 IH]; cbn [app] in D; inversion D as [|? ? D1 D2]; subst; auto.
    rewrite Forall_forall in D1. apply (D1 b). apply in_app_iff. simpl. auto.
Qed.
Print Assumptions C15_disjoint.
(** The sizes of the products add up to size(). *)
Theorem C15_total : forall VI (VL : values_laws VI) PF (PO : platform_ok PF) x,
  built VI PF x -> x <> Zero -> exists l, paths VI x = Some l /\
  size VI PF x = Some (fold_right (fun pt n => (fold_right (fun v m => (v_size VI v * m)%N) 1%N pt + n)%N) 0%N l).
Proof.
  intros VI VL PF PO x B Hx. pose proof (built_canonical VI VL PF PO x B) as C.
  exists (paths_of VI x). split.
  - apply paths_correct. eapply canonical_nz; eauto.
  - rewrite (size_card VI PF VL PO x B), <- (total_card VI VL x). reflexivity.
Qed.
Print Assumptions C15_total.
(** |0| has no assignment, but one empty path is produced, as for |1|. *)
Theorem C15_empty_refuted : forall VI, paths VI Zero = Some [[]] /\ paths VI Zero = paths VI One /\
  forall p, contains (VI := VI) Zero p = false.
Proof. intros VI. repeat split. Qed.
Print Assumptions C15_empty_refuted.
Example C15_ex : built FS PF_up ex_x /\ ex_x <> Zero /\
  match api_plus FS PF_up ex_x ex_y with
  | Ok z => option_map (map (map (@proj1_sig _ _))) (paths FS z)
  | Err _ => None
  end = Some [[[1]; [1]; [5]]; [[0]; [1; 2]; [5]]; [[1; 2]; [2; 3]; [5; 6]]]%N.
Proof. split; [exs|]. split; [discriminate|]. vm_compute. reflexivity. Qed.

(** ** C46 *)

(** [all_nodes VI x l]: [l] holds the nodes reachable from [x], each once.  The counters are unsigned
    ints; [w32] is the remainder modulo 2^32. *)
Theorem C46_nodes : forall VI PF (PO : platform_ok PF) x, exists l, all_nodes VI x l /\
  nodes VI PF x = (w32 (count VI (is_flat VI) l), w32 (count VI (is_hier VI) l)).
Proof. exact nodes_spec. Qed.
Print Assumptions C46_nodes.
(** arcs(x)[k] counts the flat and the hierarchical nodes with k arcs. *)
Theorem C46_arcs : forall VI PF (PO : platform_ok PF) x, exists l, all_nodes VI x l /\
  forall k, freq_at (arcs VI PF x) k =
    (w32 (count VI (fun t => is_flat VI t && N.eqb (degree VI t) k) l),
     w32 (count VI (fun t => is_hier VI t && N.eqb (degree VI t) k) l)).
Proof. exact arcs_spec. Qed.
Print Assumptions C46_arcs.
Theorem C46_number_of_arcs : forall VI PF (PO : platform_ok PF) x, exists l, all_nodes VI x l /\
  number_of_arcs (arcs VI PF x) =
    (w32 (sum_over VI (fun t => if is_flat VI t then degree VI t else 0%N) l),
     w32 (sum_over VI (fun t => if is_hier VI t then degree VI t else 0%N) l)).
Proof. exact number_of_arcs_spec. Qed.
Print Assumptions C46_number_of_arcs.
(** size(x): bytes of all reachable nodes and terminals, each once. *)
Theorem C46_bytes : forall VI PF (PO : platform_ok PF) zsz osz usz fsz hsz x, exists l, all_terms VI x l /\
  bytes VI PF zsz osz usz fsz hsz x = w64 (sum_over VI (term_bytes VI zsz osz usz fsz hsz) l).
Proof. exact bytes_spec. Qed.
Print Assumptions C46_bytes.
(** A diagram used both as a valuation and as a successor is counted once. *)
Definition ex_shared : sdd (vt FS) := node_hier FS PF_up 7 (ex_flat [1] [2])%N (ex_flat [1] [2])%N.
Example C46_ex :
  match api_plus FS PF_up ex_x ex_y with
  | Ok z => (nodes FS PF_up z, arcs FS PF_up z, number_of_arcs (arcs FS PF_up z),
             bytes FS PF_up 1 1 10 3 3 z)
  | Err _ => ((0, 0), [], (0, 0), 0)%N
  end = ((7, 1), [(1, (6, 0)); (2, (1, 1))], (8, 2), 111)%N /\
  nodes FS PF_up ex_shared = (2, 1)%N /\ number_of_arcs (arcs FS PF_up ex_shared) = (2, 1)%N.
Proof. vm_compute. auto. Qed.

(** ** C51: dot *)

(** The output declares every reachable node and terminal once and draws each of its arcs once. *)
Theorem C51_dot : forall VI PF (PO : platform_ok PF) x, exists l, all_terms VI x l /\
  Permutation (dot VI PF x) (flat_map (items_of VI) l).
Proof. exact dot_spec. Qed.
Print Assumptions C51_dot.
Example C51_ex : length (dot FS PF_up ex_shared) = 7.
Proof. vm_compute. reflexivity. Qed.

(** ** C48 *)

(** All arcs are exposed when there are fewer than 2^width of them, and == then compares arcs. *)
Theorem C48_arcs_kept_partial : forall VI width W var (l : list (W * sdd (vt VI))),
  (N.of_nat (length l) < 2 ^ width)%N -> exposed VI (make_node VI width var l) = l.
Proof. intros VI width W. exact (exposed_all VI width). Qed.
Print Assumptions C48_arcs_kept_partial.
Theorem C48_equality_partial : forall VI width W (arc_eqb : W * sdd (vt VI) -> W * sdd (vt VI) -> bool),
  (forall a b, arc_eqb a b = true <-> a = b) -> forall x y k l,
  (N.of_nat (length k) < 2 ^ width)%N -> (N.of_nat (length l) < 2 ^ width)%N ->
  (node_eq VI arc_eqb (make_node VI width x k) (make_node VI width y l) = true <-> x = y /\ k = l).
Proof. intros VI width W. exact (node_eq_spec VI width). Qed.
Print Assumptions C48_equality_partial.
(** With the default 16 bits, a union of 65536 diagrams of one path yields a node that loses some of its
    assignments. *)
Theorem C48_arcs_kept_refuted : exists l x arcs,
  (forall d, In d l -> built FS PF_up d) /\ length l = N.to_nat (2 ^ 16) /\
  api_sum FS PF_up l = Ok (Flat x arcs) /\
  exists p, contains (VI := FS) (Flat x arcs) p = true /\
            contains (VI := FS) (Flat x (exposed FS (make_node FS 16 x arcs))) p = false.
Proof.
  assert (Hn : 0 < N.to_nat (2 ^ 16)).
  { assert (H : (0 < 2 ^ 16)%N) by reflexivity. revert H. generalize (2 ^ 16)%N. intros m H. lia. }
  destruct (wide_exists _ Hn) as (x & arcs & E & B & L).
  exists (map eq_pair (seq 0 (N.to_nat (2 ^ 16)))), x, arcs. split; [|split; [|split; [exact E|]]].
  - intros d Hd. apply in_map_iff in Hd. destruct Hd as (i & <- & _). unfold eq_pair. repeat constructor.
  - now rewrite map_length, seq_length.
  - eapply lost_assignment; [apply (built_canonical FS FS_laws PF_up PF_up_ok _ B)|].
    clear - L. generalize dependent (2 ^ 16)%N. intros m L. lia.
Qed.
Print Assumptions C48_arcs_kept_refuted.
(** Nodes whose numbers of arcs are multiples of 2^16 are all == to each other. *)
Theorem C48_equality_refuted : forall VI W (arc_eqb : W * sdd (vt VI) -> W * sdd (vt VI) -> bool) x k l,
  (N.of_nat (length k) mod 2 ^ 16 = 0)%N -> (N.of_nat (length l) mod 2 ^ 16 = 0)%N ->
  node_eq VI arc_eqb (make_node VI 16 x k) (make_node VI 16 x l) = true.
Proof.
  intros VI W arc_eqb x k l Hk Hl. unfold node_eq, exposed, make_node. cbn [size_ stored variable].
  rewrite Hk, Hl, !N.eqb_refl. reflexivity.
Qed.
Print Assumptions C48_equality_refuted.
