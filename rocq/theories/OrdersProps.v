(** * Orders: the properties (C13, C28-C34, C54) *)

From Coq Require Import List Bool Arith NArith Lia Permutation Sorted.
From Verif Require Import Base SortedSets Values Sdd DDModel Spec DDTheorems Concrete.
From Verif Require Import Orders OrdersProofs OrdersMore OrdersSdd Force.
Import ListNotations.

(** The equality of identifiers is an equality. *)
Definition is_eqb {U : Type} (ueqb : U -> U -> bool) : Prop :=
  forall a b, ueqb a b = true <-> a = b.

(** Reading an order with empty(), identifier(), nested() and next(). *)
Inductive reads {U : Type} : order U -> builder U -> Prop :=
| reads_nil o : o_empty o = true -> reads o BNil
| reads_node o id n x on ox :
    o_empty o = false -> o_identifier o = Some id ->
    o_nested o = Some on -> reads on n ->
    o_next o = Some ox -> reads ox x ->
    reads o (BNode id n x).

(** The orders obtained from [root] by nested() and next(). *)
Inductive suborder {U : Type} (root : order U) : order U -> Prop :=
| sub_root : suborder root root
| sub_nested o o' : suborder root o -> o_empty o = false -> o_nested o = Some o' -> suborder root o'
| sub_next o o' : suborder root o -> o_empty o = false -> o_next o = Some o' -> suborder root o'.

(** A concrete builder: a, h { b, g { c, d } }, e. *)
Definition ex_b : builder nat :=
  BNode (user_id 1) BNil
    (BNode (user_id 2)
       (BNode (user_id 3) BNil
          (BNode {| art := 7; usr := 0 |} (b_of_list [4; 5]) BNil))
       (b_of_list [6])).
Lemma nat_is_eqb : is_eqb Nat.eqb.
Proof. intros a b. apply Nat.eqb_eq. Qed.

(** ** C28 *)

Theorem C28_built_iff_unique : forall U ueqb (EQ : is_eqb ueqb) (b : builder U),
  (exists o, mk_order U ueqb b = Ok o) <-> NoDup (users b).
Proof.
  intros U ueqb EQ b. pose proof (mk_order_ok U ueqb EQ b) as H.
  destruct (mk_order U ueqb b) as [o|e].
  - split; [tauto|eauto].
  - destruct H as (u & -> & R). split; [intros [o [=]]|].
    intros ND. destruct (repeated_not_NoDup _ _ _ R ND).
Qed.

Theorem C28_duplicate_reported : forall U ueqb (EQ : is_eqb ueqb) (b : builder U) e,
  mk_order U ueqb b = Err e -> exists u, e = EDuplicate u /\ repeated u (users b).
Proof.
  intros U ueqb EQ b e E. pose proof (mk_order_ok U ueqb EQ b) as H. now rewrite E in H.
Qed.

Lemma order_is : forall U ueqb (EQ : is_eqb ueqb) (b : builder U) o,
  mk_order U ueqb b = Ok o -> o = order_of ueqb b.
Proof.
  intros U ueqb EQ b o E. pose proof (mk_order_ok U ueqb EQ b) as H. rewrite E in H. tauto.
Qed.

Lemma layout_all_ids {U} (b : builder U) : forall p path, map n_id (layout b p path) = all_ids b.
Proof.
  induction b as [|id n IHn x IHx]; intros p path; cbn; auto.
  now rewrite map_app, IHn, IHx.
Qed.

Lemma deref_order_of {U} ueqb (b : builder U) i :
  deref (order_of ueqb b) i = nth_error (layout b 0 []) i.
Proof.
  unfold deref. cbn [order_of o_nodes]. rewrite nth_error_map.
  destruct (nth_error (layout b 0 []) i); reflexivity.
Qed.

(** The nodes are numbered from top to bottom. *)
Theorem C28_positions : forall U ueqb (EQ : is_eqb ueqb) (b : builder U) o,
  mk_order U ueqb b = Ok o ->
  (forall i, i < b_size b -> exists n, o_node_from_position o i = Ok n /\ n_pos n = i
                                       /\ nth_error (all_ids b) i = Some (n_id n))
  /\ length (o_nodes o) = b_size b.
Proof.
  intros U ueqb EQ b o E. rewrite (order_is _ _ EQ _ _ E). split.
  - intros i L. unfold o_node_from_position. rewrite deref_order_of.
    destruct (nth_error (layout b 0 []) i) as [n|] eqn:EN.
    + exists n. split; [reflexivity|]. split.
      * apply (layout_nth U b 0 []) in EN. lia.
      * rewrite <- (layout_all_ids b 0 []). now apply map_nth_error.
    + apply nth_error_None in EN. rewrite length_layout in EN. lia.
  - cbn. now rewrite map_length, length_layout.
Qed.

(** The variables of one level count down to 0. *)
Theorem C28_variables : forall U ueqb (EQ : is_eqb ueqb) (b : builder U) root o,
  mk_order U ueqb b = Ok root -> suborder root o -> o_empty o = false ->
  exists v next, o_variable o = Some v /\ o_next o = Some next
    /\ (if o_empty next then v = 0%N
        else exists w, o_variable next = Some w /\ v = N.succ w).
Proof.
  intros U ueqb EQ b root o E S NE. rewrite (order_is _ _ EQ _ _ E) in S.
  assert (exists b' p path, sees o b' p path) as (b' & p & path & SE).
  { clear NE. induction S as [|o o' _ (b' & p & path & SE) N H|o o' _ (b' & p & path & SE) N H].
    - exists b, 0, []. apply sees_whole.
    - destruct b' as [|id n x]; [rewrite (sees_empty _ _ _ _ _ SE) in N; discriminate|].
      destruct (sees_nested _ _ _ _ _ _ _ SE) as (on & E2 & S2 & _).
      rewrite E2 in H. injection H as <-. eauto.
    - destruct b' as [|id n x]; [rewrite (sees_empty _ _ _ _ _ SE) in N; discriminate|].
      destruct (sees_next _ _ _ _ _ _ _ SE) as (on & E2 & S2 & _).
      rewrite E2 in H. injection H as <-. eauto. }
  destruct b' as [|id n x]; [rewrite (sees_empty _ _ _ _ _ SE) in NE; discriminate|].
  destruct (sees_next _ _ _ _ _ _ _ SE) as (ox & E2 & S2 & _).
  unfold o_variable at 1. rewrite (sees_head _ _ _ _ _ _ _ SE). cbn [option_map n_var].
  exists (N.of_nat (b_length x)), ox. split; [reflexivity|]. split; [exact E2|].
  rewrite (sees_empty _ _ _ _ _ S2). destruct x as [|id' n' x']; [reflexivity|].
  cbn [b_empty]. unfold o_variable. rewrite (sees_head _ _ _ _ _ _ _ S2).
  eexists. split; [reflexivity|]. cbn. lia.
Qed.

Lemma sees_reads {U} : forall (b : builder U) o p path, sees o b p path -> reads o b.
Proof.
  induction b as [|id n IHn x IHx]; intros o p path S.
  - constructor. exact (sees_empty _ _ _ _ _ S).
  - destruct (sees_nested _ _ _ _ _ _ _ S) as (on & E1 & S1 & _).
    destruct (sees_next _ _ _ _ _ _ _ S) as (ox & E2 & S2 & _).
    econstructor; eauto.
    + exact (sees_empty _ _ _ _ _ S).
    + unfold o_identifier. now rewrite (sees_head _ _ _ _ _ _ _ S).
Qed.

(** Walking through the order gives back the builder. *)
Theorem C28_structure : forall U ueqb (EQ : is_eqb ueqb) (b : builder U) o,
  mk_order U ueqb b = Ok o -> reads o b.
Proof.
  intros U ueqb EQ b o E. rewrite (order_is _ _ EQ _ _ E). eapply sees_reads, sees_whole.
Qed.

(** node(id) finds the node of an identifier of the order and reports others. *)
Theorem C28_node : forall U ueqb (EQ : is_eqb ueqb) (b : builder U) o u,
  mk_order U ueqb b = Ok o ->
  (In u (users b) -> exists n, o_node U ueqb o u = Ok n /\ n_id n = user_id u
                               /\ o_node_from_position o (n_pos n) = Ok n)
  /\ (~ In u (users b) -> o_node U ueqb o u = Err (ENotFound u)).
Proof.
  intros U ueqb EQ b o u E. rewrite (order_is _ _ EQ _ _ E).
  pose proof (o_node_ok U ueqb EQ b u) as H.
  destruct (o_node U ueqb (order_of ueqb b) u) as [n|e].
  - destruct H as (H1 & H2 & H3). split; [intros _|tauto].
    exists n. split; [reflexivity|]. split; [exact H2|].
    apply In_nth_error in H3 as [i H3]. unfold o_node_from_position.
    pose proof (layout_nth _ _ _ _ _ _ H3) as P. cbn in P.
    rewrite P, deref_order_of, H3. reflexivity.
  - destruct H as [-> H]. split; [tauto|reflexivity].
Qed.

(** contains(upper, nested) tells if a position is in the hierarchy below another one. *)
Theorem C28_contains : forall U ueqb (EQ : is_eqb ueqb) (b : builder U) o i j,
  mk_order U ueqb b = Ok o -> i < b_size b -> j < b_size b ->
  exists r, o_contains o i j = Ok r /\ (r = true <-> inside o i j).
Proof.
  intros U ueqb EQ b o i j E Li Lj. rewrite (order_is _ _ EQ _ _ E).
  unfold o_contains.
  destruct (nth_error (layout b 0 []) j) as [n|] eqn:EN.
  2:{ apply nth_error_None in EN. rewrite length_layout in EN. lia. }
  assert (deref (order_of ueqb b) j = Some n) as D by (rewrite deref_order_of; exact EN).
  rewrite D. eexists. split; [reflexivity|].
  pose proof (path_ok U (order_of ueqb b) b 0 [] j n (holds_whole U b) ltac:(lia) D
                ltac:(intros ? []) i) as P.
  rewrite existsb_exists. transitivity (In i (n_path n)).
  - split.
    + intros (k & H1 & H2). apply Nat.eqb_eq in H2. now subst.
    + intros H. exists i. split; auto. apply Nat.eqb_refl.
  - rewrite P. cbn. split; [intros [[]|[_ H]]; exact H|]. intros H. right. split; [lia|exact H].
Qed.

Example C28_ex : exists o, mk_order nat Nat.eqb ex_b = Ok o
  /\ option_map n_pos (deref o 4) = Some 4 /\ o_contains o 1 5 = Ok true
  /\ o_contains o 0 5 = Ok false
  /\ (exists n, o_node nat Nat.eqb o 5 = Ok n /\ n_path n = [1; 3] /\ n_var n = 0%N).
Proof. vm_compute. eexists. repeat split. eexists. repeat split. Qed.
Example C28_ex_duplicate :
  mk_order nat Nat.eqb (b_push (user_id 5) BNil ex_b) = Err (EDuplicate 5).
Proof. reflexivity. Qed.

(** ** C54 *)

(** Orders, and their parts, are equal when they are the same sequence of identifiers with the same
    hierarchy, at the same position. *)
Theorem C54_order_equality : forall U ueqb (EQ : is_eqb ueqb) (ba bb : builder U) ra rb oa ob a b,
  mk_order U ueqb ba = Ok ra -> mk_order U ueqb bb = Ok rb ->
  suborder ra oa -> suborder rb ob -> reads oa a -> reads ob b ->
  exists r, order_eqb U ueqb oa ob = Ok r
            /\ (r = true <-> a = b /\ o_position oa = o_position ob).
Proof.
  intros U ueqb EQ ba bb ra rb oa ob a b EA EB SA SB RA RB.
  assert (forall (b0 : builder U) root o, mk_order U ueqb b0 = Ok root -> suborder root o ->
            exists b' p path, sees o b' p path) as SS.
  { intros b0 root o E S. rewrite (order_is _ _ EQ _ _ E) in S.
    induction S as [|o o' _ (b' & p & path & SE) N H|o o' _ (b' & p & path & SE) N H].
    - exists b0, 0, []. apply sees_whole.
    - destruct b' as [|id n x]; [rewrite (sees_empty _ _ _ _ _ SE) in N; discriminate|].
      destruct (sees_nested _ _ _ _ _ _ _ SE) as (on & E2 & S2 & _).
      rewrite E2 in H. injection H as <-. eauto.
    - destruct b' as [|id n x]; [rewrite (sees_empty _ _ _ _ _ SE) in N; discriminate|].
      destruct (sees_next _ _ _ _ _ _ _ SE) as (on & E2 & S2 & _).
      rewrite E2 in H. injection H as <-. eauto. }
  assert (forall (o : order U) x y, reads o x -> reads o y -> x = y) as RU.
  { intros o x y H. revert y. induction H as [o H|o id n x on ox H1 H2 H3 _ IH1 H4 _ IH2];
      intros y Hy; inversion Hy as [? H'|? id' n' x' on' ox' H1' H2' H3' R1 H4' R2]; subst;
      try congruence.
    rewrite H2 in H2'. injection H2' as <-. rewrite H3 in H3'. injection H3' as <-.
    rewrite H4 in H4'. injection H4' as <-. f_equal; auto. }
  destruct (SS _ _ _ EA SA) as (a' & pa & patha & SEA).
  destruct (SS _ _ _ EB SB) as (b' & pb & pathb & SEB).
  pose proof (RU _ _ _ RA (sees_reads _ _ _ _ SEA)) as ->.
  pose proof (RU _ _ _ RB (sees_reads _ _ _ _ SEB)) as ->.
  assert (b_size a' < S (length (o_nodes oa))) as L.
  { destruct SEA as [_ H]. apply holds_size in H. lia. }
  destruct (order_eqb_ok U ueqb EQ _ oa ob a' b' pa pb patha pathb SEA SEB L) as (r & E & S).
  exists r. split; [exact E|]. rewrite S.
  assert (forall (o : order U) b p path, sees o b p path ->
            o_position o = match b with BNil => None | _ => Some p end) as PO.
  { intros o [|id n x] p path H.
    - unfold o_position, head. destruct H as [-> _]. reflexivity.
    - unfold o_position. now rewrite (sees_head _ _ _ _ _ _ _ H). }
  rewrite (PO _ _ _ _ SEA), (PO _ _ _ _ SEB).
  split; intros [<- H]; split; auto; destruct a'; try congruence.
  - rewrite H; congruence.
Qed.

Corollary C54_whole_orders : forall U ueqb (EQ : is_eqb ueqb) (a b : builder U) oa ob,
  mk_order U ueqb a = Ok oa -> mk_order U ueqb b = Ok ob ->
  exists r, order_eqb U ueqb oa ob = Ok r /\ (r = true <-> a = b).
Proof.
  intros U ueqb EQ a b oa ob EA EB.
  destruct (C54_order_equality U ueqb EQ a b oa ob oa ob a b EA EB (sub_root _) (sub_root _)
              (C28_structure _ _ EQ _ _ EA) (C28_structure _ _ EQ _ _ EB)) as (r & E & S).
  exists r. split; [exact E|]. rewrite S. split; [tauto|]. intros ->. split; auto.
  rewrite EA in EB. now injection EB as <-.
Qed.
Example C54_ex : exists oa ob, mk_order nat Nat.eqb ex_b = Ok oa
  /\ mk_order nat Nat.eqb (b_of_list [1; 2; 3]) = Ok ob
  /\ order_eqb nat Nat.eqb oa oa = Ok true /\ order_eqb nat Nat.eqb oa ob = Ok false.
Proof. vm_compute. eexists _, _. repeat split. Qed.

(** ** C29 *)

Theorem C29_push : forall U id nested (b : builder U),
  items (b_push id nested b) = (id, nested) :: items b.
Proof. reflexivity. Qed.
Theorem C29_concat : forall U (a b : builder U), items (b_concat a b) = items a ++ items b.
Proof. exact items_concat. Qed.
Theorem C29_range : forall U (l : list U), items (b_of_list l) = map (fun u => (user_id u, BNil)) l.
Proof. exact items_of_list. Qed.
Theorem C29_size : forall U (b : builder U), b_size b = length (all_ids b).
Proof. exact b_size_ids. Qed.
Theorem C29_size_concat : forall U (a b : builder U), b_size (b_concat a b) = b_size a + b_size b.
Proof.
  intros U a b. induction a as [|id n _ x IH]; cbn; auto. rewrite IH. lia.
Qed.
Theorem C29_height : forall U (b : builder U), b_empty b = false ->
  b_height b = Some (length (items b)).
Proof. intros U [|id n x] H; [discriminate|]. cbn. now rewrite b_length_items. Qed.
Example C29_ex : b_size ex_b = 7 /\ b_height ex_b = Some 3.
Proof. split; reflexivity. Qed.

(** ** C30 *)

Theorem C30_flatten : forall U (b : builder U),
  items (flatten b) = map (fun u => (user_id u, BNil)) (flats b).
Proof. intros U b. rewrite flatten_ok. apply items_of_list. Qed.

Theorem C30_order_flat : forall U ueqb (EQ : is_eqb ueqb) (b : builder U) o,
  mk_order U ueqb b = Ok o -> o_flat o = Ok (flats b).
Proof.
  intros U ueqb EQ b o E. rewrite (order_is _ _ EQ _ _ E). unfold o_flat. cbn [o_head order_of].
  apply (flat_impl_ok U _ b 0 []); [apply holds_whole|]. cbn.
  rewrite map_length, length_layout. lia.
Qed.

(** If a builder gives an order, so does its flattening. *)
Theorem C30_flatten_valid : forall U ueqb (EQ : is_eqb ueqb) (b : builder U) o,
  well_named b -> mk_order U ueqb b = Ok o ->
  exists o', mk_order U ueqb (flatten b) = Ok o' /\ o_flat o' = o_flat o.
Proof.
  intros U ueqb EQ b o W E.
  assert (NoDup (users b)) as ND by (apply (C28_built_iff_unique U ueqb EQ); eauto).
  assert (NoDup (users (flatten b))) as ND'.
  { rewrite flatten_ok, users_of_list.
    assert (exists l, Permutation (users b) (l ++ flats b)) as [l P].
    { clear E ND. induction b as [|id n IHn x IHx]; [exists []; reflexivity|].
      destruct W as (W1 & W2 & W3). destruct (IHx W3) as [lx Px].
      destruct n as [|id' n' x'] eqn:EN.
      - cbn [users flats]. rewrite (W1 eq_refl). exists lx. cbn.
        rewrite Px. apply Permutation_middle.
      - destruct (IHn W2) as [ln Pn]. rewrite <- EN in *.
        assert (flats (BNode id n x) = flats n ++ flats x) as -> by now rewrite EN.
        cbn [users]. exists ((if is_artificial id then [] else [usr id]) ++ ln ++ lx).
        rewrite <- !app_assoc. apply Permutation_app_head. rewrite Pn, Px, <- !app_assoc.
        apply Permutation_app_head. rewrite !app_assoc. apply Permutation_app_tail.
        apply Permutation_app_comm. }
    pose proof (Permutation_NoDup P ND) as H. clear - H.
    induction l as [|u l IH]; cbn in H; auto. inversion H; auto. }
  apply (C28_built_iff_unique U ueqb EQ) in ND' as [o' E']. exists o'. split; [exact E'|].
  rewrite (C30_order_flat _ _ EQ _ _ E), (C30_order_flat _ _ EQ _ _ E').
  now rewrite flatten_ok, flats_of_list.
Qed.
Example C30_ex : flats ex_b = [1; 3; 4; 5; 6] /\ flatten ex_b = b_of_list [1; 3; 4; 5; 6].
Proof. split; reflexivity. Qed.

(** ** C31 *)

(** For two identifiers per hierarchy or more: the computation ends, the top level has at most [n]
    identifiers, and the result is obtained by putting consecutive identifiers, at most [n] of
    them, in new hierarchies. In particular the flat identifiers and those of the user are kept,
    in the same order. The full statement is for every [n]. *)
Theorem C31_grouped_partial : forall U u0 n (b : builder U) c fuel,
  2 <= n -> b_length b < fuel ->
  exists r c', identifiers_per_hierarchy U u0 fuel n b c = Ok (r, c')
    /\ b_length r <= n /\ regrouped n b r /\ flats r = flats b /\ users r = users b.
Proof.
  intros U u0 n b c fuel Hn L. unfold identifiers_per_hierarchy.
  assert (Nat.eqb n 1 = false) as -> by (apply Nat.eqb_neq; lia). rewrite orb_false_r.
  destruct (b_empty b) eqn:E.
  - apply b_empty_nil in E. subst. exists BNil, c. repeat split; try constructor. cbn. lia.
  - assert (b <> BNil) as NE by (intros ->; discriminate).
    destruct (iph_loop_ok U u0 n Hn fuel b c NE L) as (r & c' & E1 & L1 & G).
    exists r, c'. destruct (regrouped_flats _ _ _ _ G). auto.
Qed.

(** With 0, it never ends on a non-empty builder. *)
Theorem C31_zero_diverges_refuted : forall U u0 (b : builder U) c fuel,
  b <> BNil -> identifiers_per_hierarchy U u0 fuel 0 b c = Err EFuel.
Proof.
  intros U u0 b c fuel NE. unfold identifiers_per_hierarchy.
  destruct b as [|id n x]; [congruence|]. cbn [b_empty orb Nat.eqb]. now apply iph_zero.
Qed.

(** With 1, the builder is returned unchanged, however large its levels are. *)
Theorem C31_one_refuted : exists (b r : builder nat) c',
  identifiers_per_hierarchy nat 0 10 1 b 0 = Ok (r, c') /\ ~ b_length r <= 1.
Proof. exists (b_of_list [1; 2]), (b_of_list [1; 2]), 0%N. split; [reflexivity|]. cbn. lia. Qed.

Example C31_ex : exists r c', identifiers_per_hierarchy nat 0 8 2 (b_of_list [1; 2; 3; 4; 5]) 0 = Ok (r, c')
  /\ b_length r = 2 /\ flats r = [1; 2; 3; 4; 5] /\ b_size r = 10.
Proof. vm_compute. eexists _, _. repeat split. Qed.

(** ** C32 *)

(** Saving a non-empty order and loading it again: the identifiers are kept, in the same order, and
    so are the hierarchies up to their names and to those with a single element. At the top, a
    single hierarchy that contains everything may be removed as well. The full statement is for
    every order, including the empty one. *)
Theorem C32_round_trip_partial :
  forall U ueqb (EQ : is_eqb ueqb) u0 readable (b : builder U) o c,
  mk_order U ueqb b = Ok o -> b <> BNil -> well_named b ->
  Forall (fun u => readable u = true) (flats b) ->
  exists j r c', dump_order o = Ok j /\ load_order U u0 readable j c = Ok (r, c')
    /\ flats r = flats b /\ (eqv b r \/ exists h, eqv b (BNode h r BNil)).
Proof.
  intros U ueqb EQ u0 readable b o c E NE W R. rewrite (order_is _ _ EQ _ _ E).
  unfold dump_order. cbn [o_head order_of].
  rewrite (dump_items_ok U _ b 0 []); [|apply holds_whole|].
  2:{ cbn. rewrite map_length, length_layout. lia. }
  cbn [rbind].
  destruct (load_order_ok U u0 readable b c R W NE) as (r & c' & H). eauto.
Qed.

(** The dump of an empty order cannot be loaded: height() dereferences a null pointer. *)
Theorem C32_empty_refuted : forall U ueqb u0 readable c,
  exists o j, mk_order U ueqb BNil = Ok o /\ dump_order o = Ok j
              /\ load_order U u0 readable j c = Err EUndefined.
Proof. intros. eexists _, _. repeat split. Qed.

Example C32_ex : exists o j r c', mk_order nat Nat.eqb ex_b = Ok o /\ dump_order o = Ok j
  /\ load_order nat 0 (fun _ => true) j 7 = Ok (r, c') /\ flats r = [1; 3; 4; 5; 6] /\ b_size r = 7.
Proof. vm_compute. eexists _, _, _, _. repeat split. Qed.

(** ** C13 *)

Theorem C13_from_order :
  forall VI (VL : values_laws VI) PF U ueqb (EQ : is_eqb ueqb) (init : U -> vt VI) b o,
  mk_order U ueqb b = Ok o -> well_named b ->
  exists x, sdd_from_order VI PF U init o = Ok x
    /\ (forall p, contains x p = true <-> initial VI U init b p)
    /\ follows (shape_of U b) x
    /\ built VI PF x
    /\ (x = Zero <-> exists u, In u (flats b) /\ v_empty VI (init u) = true).
Proof.
  intros VI VL PF U ueqb EQ init b o E W. rewrite (order_is _ _ EQ _ _ E).
  exists (sdd_of_builder VI PF U init b). split.
  - unfold sdd_from_order. apply (sdd_of_order_ok VI PF U init _ b _ 0 []); auto.
    + apply sees_whole.
    + cbn. rewrite map_length, length_layout. lia.
  - split; [exact (sdd_of_builder_contains VI PF U init VL b)|].
    split; [apply sdd_of_builder_follows|]. split; [apply sdd_of_builder_built|].
    apply sdd_of_builder_zero.
Qed.
Example C13_ex : exists o x, mk_order nat Nat.eqb ex_b = Ok o
  /\ well_named ex_b
  /\ sdd_from_order FS PF_up nat (fun u => fs [N.of_nat u]) o = Ok x
  /\ contains x
       (AVal 2 1 (ANest 1 (AVal 1 3 (ANest 0 (AVal 1 4 (AVal 0 5 ANil)) ANil)) (AVal 0 6 ANil)))%N = true.
Proof.
  destruct (mk_order nat Nat.eqb ex_b) as [o|e] eqn:E; [|discriminate].
  assert (well_named ex_b) as W by (cbn; repeat split; auto; discriminate).
  destruct (C13_from_order FS FS_laws PF_up nat Nat.eqb nat_is_eqb (fun u => fs [N.of_nat u]) ex_b o E W)
    as (x & E2 & C & _).
  exists o, x. split; [reflexivity|]. split; [exact W|]. split; [exact E2|].
  apply C. cbn. repeat split; reflexivity.
Qed.

(** ** C33, C34 *)

(** Whatever sort (stable or not), weights, and number of iterations: the result is a flat order
    with each identifier exactly once. *)
Theorem C33_permutation : forall U ueqb (EQ : is_eqb ueqb) sort dbl_max ids g reverse k,
  (forall key l, Permutation (sort key l) l) ->
  graph_of U ueqb ids g ->
  exists l, worker U sort dbl_max g reverse k = b_of_list l
            /\ Permutation l ids /\ NoDup l.
Proof.
  intros U ueqb EQ sort dbl_max ids g reverse k SP G.
  destruct (graph_ids U ueqb EQ ids g G) as [E ND].
  destruct (worker_flats U sort dbl_max SP g reverse k) as (l & E1 & P).
  exists l. split; [exact E1|]. rewrite E in P. split; [exact P|].
  eapply Permutation_NoDup; [symmetry; exact P|exact ND].
Qed.

(** Building the hypergraph reports identifiers that appear twice. *)
Theorem C33_duplicates : forall U ueqb (EQ : is_eqb ueqb) ids location,
  (exists r, mk_hypergraph U ueqb ids location = Ok r) <-> NoDup ids.
Proof.
  intros U ueqb EQ ids location. unfold mk_hypergraph.
  pose proof (mk_vertices_ok U ueqb EQ ids location [] (NoDup_nil _)) as H.
  destruct (mk_vertices U ueqb ids location []) as [[vs l]|e]; cbn in *.
  - destruct H as [<- H]. split; [auto|eauto].
  - destruct H as (u & -> & R). split; [intros [r [=]]|].
    intros ND. destruct (repeated_not_NoDup _ _ _ R ND).
Qed.

(** reverse gives the same order upside down. *)
Theorem C33_reverse : forall U sort dbl_max (g : hypergraph U) k,
  flats (worker U sort dbl_max g true k) = rev (flats (worker U sort dbl_max g false k)).
Proof.
  intros U sort dbl_max g k. unfold worker. rewrite !to_builder_ok, !flats_of_list.
  generalize (w_best U (worker_loop U sort dbl_max g k)) as l. intros l.
  rewrite map_rev.
  assert (forall i, rev (id_of U (vertices U (w_graph U (worker_loop U sort dbl_max g k))) i)
                    = id_of U (vertices U (w_graph U (worker_loop U sort dbl_max g k))) i) as R.
  { intros i. unfold id_of. destruct (nth_error _ i); reflexivity. }
  induction l as [|i l IH]; [reflexivity|].
  cbn [map rev concat]. rewrite concat_app, rev_app_distr. cbn [concat].
  rewrite app_nil_r, R, <- IH. reflexivity.
Qed.

(** What is returned is the order of the last iteration. *)
Theorem C34_returns_last : forall U sort dbl_max (g : hypergraph U) k,
  Forall (fun s => (s < dbl_max)%N) (w_spans U (worker_loop U sort dbl_max g k)) ->
  w_best U (worker_loop U sort dbl_max g k) = w_sorted U (worker_loop U sort dbl_max g k).
Proof. exact worker_best. Qed.

(** The full claim, that the returned order has the smallest of the spans, is false for every
    sort. *)
Definition ex_weight (n : N) : weight := {| w_num := n; w_den := 1 |}.
Definition ex_graph : res (ferr nat) (hypergraph nat) :=
  rbind (mk_hypergraph nat Nat.eqb [10; 11; 12] 0) (fun g =>
  rbind (add_hyperedge nat Nat.eqb [10; 12] (ex_weight 3) (fst g)) (fun g =>
  rbind (add_hyperedge nat Nat.eqb [10] (ex_weight 10) g) (fun g =>
  add_hyperedge nat Nat.eqb [10; 11] (ex_weight 1) g))).

Lemma sort3 sort key (l m : list nat) : sorts sort ->
  (forall i j, In i l -> In j l -> key i = key j -> i = j) ->
  Permutation l m -> StronglySorted (fun i j => (key i <= key j)%N) m -> sort key l = m.
Proof.
  intros S INJ P SM. destruct (S key l) as [P1 S1].
  apply (sorted_unique key); auto.
  - intros i j Hi Hj. apply INJ; eapply Permutation_in; eauto.
  - eapply Permutation_trans; eauto.
Qed.

Lemma ex_graph_of g : ex_graph = Ok g -> graph_of nat Nat.eqb [10; 11; 12] g.
Proof.
  unfold ex_graph. intros H.
  destruct (mk_hypergraph nat Nat.eqb [10; 11; 12] 0) as [[g0 l]|e] eqn:E0; [|discriminate].
  cbn [rbind fst] in H.
  destruct (add_hyperedge nat Nat.eqb [10; 12] (ex_weight 3) g0) as [g1|e] eqn:E1; [|discriminate].
  cbn [rbind] in H.
  destruct (add_hyperedge nat Nat.eqb [10] (ex_weight 10) g1) as [g2|e] eqn:E2; [|discriminate].
  cbn [rbind] in H.
  eapply graph_edge; [|exact H]. eapply graph_edge; [|exact E2]. eapply graph_edge; [|exact E1].
  eapply graph_new. exact E0.
Qed.

(** The span of an order: the sum over the hyperedges of the distance between the first and the
    last of their identifiers. *)
Fixpoint place (l : list nat) (u : nat) : nat :=
  match l with [] => 0 | v :: l => if u =? v then 0 else S (place l u) end.
Definition edge_span (l e : list nat) : nat :=
  match map (place l) e with [] => 0 | p :: ps => fold_left Nat.max ps p - fold_left Nat.min ps p end.
Definition order_span (l : list nat) (es : list (list nat)) : nat :=
  list_sum (map (edge_span l) es).

(** One more iteration, and the order returned is worse than one found before. *)
Theorem C34_best_refuted : forall sort dbl_max, sorts sort -> (10 < dbl_max)%N ->
  exists g, ex_graph = Ok g
    /\ graph_of nat Nat.eqb [10; 11; 12] g
    /\ w_spans nat (worker_loop nat sort dbl_max g 2) = [2; 3]%N
    /\ worker nat sort dbl_max g true 1 = b_of_list [11; 10; 12]
    /\ worker nat sort dbl_max g true 2 = b_of_list [11; 12; 10]
    /\ order_span [11; 10; 12] [[10; 12]; [10]; [10; 11]] = 2
    /\ order_span [11; 12; 10] [[10; 12]; [10]; [10; 11]] = 3.
Proof.
  intros sort dbl_max S D. destruct ex_graph as [g|e] eqn:EG; [|discriminate].
  exists g. split; [reflexivity|]. split; [exact (ex_graph_of g EG)|].
  vm_compute in EG. injection EG as <-.
  match goal with |- w_spans nat (worker_loop nat sort dbl_max ?G 2) = _ /\ _ => set (g := G) end.
  (* first iteration *)
  assert (worker_loop nat sort dbl_max g 1 =
    {| w_graph := w_graph nat (worker_loop nat (fun _ _ => [1; 0; 2]) dbl_max g 1);
       w_sorted := [1; 0; 2]; w_best := [1; 0; 2]; w_spans := [2%N] |}) as E1.
  { change (worker_loop nat sort dbl_max g 1) with (iteration nat sort dbl_max (worker_start nat g)).
    change (worker_loop nat (fun _ _ => [1; 0; 2]) dbl_max g 1)
      with (iteration nat (fun _ _ => [1; 0; 2]) dbl_max (worker_start nat g)).
    unfold iteration.
    match goal with |- context [sort ?k ?l] => assert (sort k l = [1; 0; 2]) as -> end.
    { apply sort3; auto.
      - vm_compute. intuition (subst; try reflexivity; discriminate).
      - vm_compute. apply perm_swap.
      - repeat constructor; vm_compute; discriminate. }
    cbn [w_graph w_best w_spans worker_start]. 
    match goal with |- context [(?a <? dbl_max)%N] =>
      let v := eval vm_compute in a in assert (a = v) as -> by reflexivity end.
    assert (2 <? dbl_max = true)%N as -> by (apply N.ltb_lt; lia). reflexivity. }
  assert (w_best nat (worker_loop nat sort dbl_max g 2) = [1; 2; 0]
          /\ w_spans nat (worker_loop nat sort dbl_max g 2) = [2; 3]%N
          /\ map (v_id nat) (vertices nat (w_graph nat (worker_loop nat sort dbl_max g 2))) = [10; 11; 12])
    as (E2 & E3 & E4).
  { change (worker_loop nat sort dbl_max g 2)
      with (iteration nat sort dbl_max (worker_loop nat sort dbl_max g 1)).
    rewrite E1. unfold iteration. cbn [w_sorted w_best w_spans w_graph].
    match goal with |- context [sort ?k ?l] => assert (sort k l = [1; 2; 0]) as -> end.
    { apply sort3; auto.
      - vm_compute. intuition (subst; try reflexivity; discriminate).
      - apply perm_skip, perm_swap.
      - repeat constructor; vm_compute; discriminate. }
    cbn [vertices].
    match goal with |- context [(?a <? dbl_max)%N] =>
      let v := eval vm_compute in a in assert (a = v) as -> by (vm_compute; reflexivity) end.
    assert (3 <? dbl_max = true)%N as -> by (apply N.ltb_lt; lia).
    repeat split. }
  split; [exact E3|]. unfold worker. rewrite E1. cbn [w_best w_graph]. rewrite E2.
  split; [reflexivity|]. split; [|split; reflexivity].
  rewrite to_builder_ok. cbn [map].
  assert (forall i, id_of nat (vertices nat (w_graph nat (worker_loop nat sort dbl_max g 2))) i
                    = id_of nat (vertices nat (w_graph nat (worker_start nat g))) i) as ID.
  { apply id_of_ext. rewrite E4. reflexivity. }
  rewrite !ID. reflexivity.
Qed.

Print Assumptions C28_built_iff_unique.
Print Assumptions C28_duplicate_reported.
Print Assumptions C28_positions.
Print Assumptions C28_variables.
Print Assumptions C28_structure.
Print Assumptions C28_node.
Print Assumptions C28_contains.
Print Assumptions C54_order_equality.
Print Assumptions C54_whole_orders.
Print Assumptions C29_push.
Print Assumptions C29_concat.
Print Assumptions C29_range.
Print Assumptions C29_size.
Print Assumptions C29_size_concat.
Print Assumptions C29_height.
Print Assumptions C30_flatten.
Print Assumptions C30_order_flat.
Print Assumptions C30_flatten_valid.
Print Assumptions C31_grouped_partial.
Print Assumptions C31_zero_diverges_refuted.
Print Assumptions C31_one_refuted.
Print Assumptions C32_round_trip_partial.
Print Assumptions C32_empty_refuted.
Print Assumptions C13_from_order.
Print Assumptions C33_permutation.
Print Assumptions C33_duplicates.
Print Assumptions C33_reverse.
Print Assumptions C34_returns_last.
Print Assumptions C34_best_refuted.
