(** * Properties of unified data and of handles (C22, C23, C24) *)

From Coq Require Import List Bool NArith Arith Lia Permutation.
From Verif Require Import Base Pow2 HashTable Heap HeapProofs HeapTheorems.
Import ListNotations.

Section Props.
  Context {L : Type}.
  Variable leqb : L -> L -> bool.
  Variable hash bytes : L * list ptr -> N.             (* any hash function, any size of nodes *)
  Hypothesis leqb_spec : forall a b, leqb a b = true <-> a = b.

  (** After any history of creations, copies, moves, assignments, swaps and destructions, from an empty unicity table of any
      initial size and for any allocator that does not return an allocated block: no undefined behaviour, every variable
      designates its value, two variables hold the same pointer exactly when their values are equal. *)
  Theorem C22_unicity : forall l size, (1 <= size <= 2 ^ 62)%N ->
    history leqb hash bytes l (empty_heap size) [] -> (N.of_nat (total l) < 2 ^ 32 - 1)%N ->
    exists h, h_run leqb hash bytes l (empty_heap size) = Ok h /\
    forall v w t u, value (v_run l []) v = Some t -> value (v_run l []) w = Some u ->
    exists p q, get (env h) v = Some (Some p) /\ get (env h) w = Some (Some q) /\
                denotes (hm h) t p /\ denotes (hm h) u q /\ (p = q <-> t = u).
  Proof.
    intros l size Hs H B. destruct (run_ok leqb hash bytes leqb_spec l _ _ 0 (good_empty hash size Hs) H B) as (h & E & els & I & S & _).
    exists h. split; auto. intros v w t u Hv Hw.
    destruct (sim_value _ _ _ _ _ S Hv) as (p & G1 & D1). destruct (sim_value _ _ _ _ _ S Hw) as (q & G2 & D2).
    exists p, q. repeat split; auto.
    - intros <-. eapply denotes_fun; eauto.
    - intros <-. eapply (denotes_inj hash); [exact I| | |exact D1|exact D2]; apply (inv_root hash _ _ _ _ _ _ I); eapply handles_in; eauto.
  Qed.

  (** The live nodes are exactly the parts of the values of the variables, one node per part. *)
  Theorem C23_lifetime : forall l size, (1 <= size <= 2 ^ 62)%N ->
    history leqb hash bytes l (empty_heap size) [] -> (N.of_nat (total l) < 2 ^ 32 - 1)%N ->
    exists h, h_run leqb hash bytes l (empty_heap size) = Ok h /\
    (forall v t u, In (v, Some t) (v_run l []) -> subtree u t -> exists p, denotes (hm h) u p) /\
    (forall p, hm h p <> None -> exists v t u, In (v, Some t) (v_run l []) /\ subtree u t /\ denotes (hm h) u p) /\
    (forall p q u, denotes (hm h) u p -> denotes (hm h) u q -> p = q).
  Proof.
    intros l size Hs H B. destruct (run_ok leqb hash bytes leqb_spec l _ _ 0 (good_empty hash size Hs) H B) as (h & E & els & I & S & _).
    exists h. split; auto.
    assert (Live : forall p, hm h p <> None -> In p els).
    { intros p Hp. destruct (i_only hash _ _ _ _ _ I p Hp) as [X|[]]; auto. }
    assert (Den : forall u p, denotes (hm h) u p -> hm h p <> None).
    { intros [x ts] p D. apply denotes_node in D. destruct D as (ks & U & _). unfold udat, dat in U.
      destruct (hm h p); [discriminate|]. cbn in U. discriminate. }
    split; [|split].
    - intros v t u Hin Hsub. destruct (value_live hash h _ els I S v t u Hin Hsub) as (p & _ & D). eauto.
    - intros p Hp. apply (live_reachable hash h _ els I S p). auto.
    - intros p q u D1 D2. eapply (denotes_inj hash); [exact I| | |exact D1|exact D2]; apply Live; eapply Den; eauto.
  Qed.

  (** When no variable designates anything any more, no node remains, the table is empty, and the only allocated block is the
      one kept by the unicity table. *)
  Theorem C23_no_leak : forall l size, (1 <= size <= 2 ^ 62)%N ->
    history leqb hash bytes l (empty_heap size) [] -> (N.of_nat (total l) < 2 ^ 32 - 1)%N ->
    (forall v, value (v_run l []) v = None) -> NoDup (map fst (v_run l [])) ->
    exists h, h_run leqb hash bytes l (empty_heap size) = Ok h /\
    (forall p, hm h p = None) /\ size_ (ht h) = 0%N /\ (forall p, blocks h p <> None -> ucache h = Some p).
  Proof.
    intros l size Hs H B Dead ND. destruct (run_ok leqb hash bytes leqb_spec l _ _ 0 (good_empty hash size Hs) H B) as (h & E & els & I & S & _).
    exists h. split; auto.
    assert (Els : els = []).
    { destruct els as [|p els]; auto. exfalso.
      destruct (live_reachable hash h _ (p :: els) I S p (or_introl eq_refl)) as (v & t & u & Hin & _).
      specialize (Dead v). clear - Hin ND Dead. induction (v_run l []) as [|[w x] r IH]; [destruct Hin|].
      inversion ND as [|? ? N1 N2]; subst. cbn [fst] in N1. unfold value in *. cbn [get] in Dead. destruct Hin as [Hin|Hin].
      - injection Hin as -> ->. rewrite Nat.eqb_refl in Dead. discriminate.
      - destruct (Nat.eqb v w) eqn:Ev.
        + apply Nat.eqb_eq in Ev. subst w. apply N1. apply in_map_iff. exists (v, Some t). auto.
        + auto. }
    subst els. assert (None_ : forall p, hm h p = None).
    { intros p. destruct (hm h p) eqn:Ep; auto. exfalso. destruct (i_only hash _ _ _ _ _ I p) as [[]|[]]. congruence. }
    split; auto. split.
    - rewrite (table_size _ hash _ _ _ (i_table hash _ _ _ _ _ I)). reflexivity.
    - intros p Hp. destruct (i_alloc hash _ _ _ _ _ I p Hp) as [X|[X|[]]]; auto. exfalso. apply X. auto.
  Qed.

  (** C24, partial: x = x, and x = (a handle stored in the data of x), are correct when another variable designates the same
      data as x.  Missing: the case where x is the only handle, see the refutations below. *)
  Theorem C24_self_assignment_partial : forall l size, (1 <= size <= 2 ^ 62)%N ->
    history leqb hash bytes l (empty_heap size) [] -> (N.of_nat (total l + 1) < 2 ^ 32 - 1)%N ->
    forall x y t s, value (v_run l []) x = Some t -> x <> y -> value (v_run l []) y = Some t ->
    source_var s = x -> source_value (v_run l []) s <> None ->
    exists h h', h_run leqb hash bytes l (empty_heap size) = Ok h /\ h_step leqb hash bytes (HAssign x s) h = Ok h' /\
    exists u p, source_value (v_run l []) s = Some u /\ get (env h') x = Some (Some p) /\ denotes (hm h') u p.
  Proof.
    intros l size Hs H B x y t s Hx Hn Hy Sv Ss.
    destruct (run_ok leqb hash bytes leqb_spec l _ _ 0 (good_empty hash size Hs) H ltac:(lia)) as (h & E & G).
    destruct (step_ok leqb hash bytes leqb_spec (HAssign x s) h _ _ G) as (h' & E' & els & I & S & _).
    - cbn [proper]. split; [|split; auto].
      + unfold declared, value in *. destruct (get (v_run l []) x) as [[?|]|]; congruence.
      + right. exists y. split; congruence.
    - exact Logic.I.
    - cbn [cost]. lia.
    - exists h, h'. split; auto. split; auto. cbn [v_step] in S. destruct (source_value (v_run l []) s) as [u|]; [|congruence].
      exists u. destruct (sim_value _ _ _ x u S) as (p & A1 & A2).
      + unfold value. rewrite get_put_same; auto. unfold value in Hx. destruct (get (v_run l []) x); congruence.
      + exists p. auto.
  Qed.
End Props.
Print Assumptions C22_unicity.
Print Assumptions C23_lifetime.
Print Assumptions C23_no_leak.
Print Assumptions C24_self_assignment_partial.

(** ** Concrete histories *)

Definition ex_hash (d : nat * list ptr) : N := (N.of_nat (fst d) + fold_right N.add 0 (snd d))%N.
Definition ex_bytes (d : nat * list ptr) : N := (16 + 8 * N.of_nat (length (snd d)))%N.
Definition ex_step := h_step Nat.eqb ex_hash ex_bytes.
Definition ex_run := h_run Nat.eqb ex_hash ex_bytes.

(** A decision procedure for examples. *)
Definition is_some {A} (x : option A) : bool := match x with Some _ => true | None => false end.
Definition proper_b (o : hop nat) (r : vals (L := nat)) : bool :=
  match o with
  | HCreate _ _ ks _ => forallb (fun k => is_some (value r k)) ks
  | HCopy _ s => is_some (source_value r s)
  | HMove _ w => is_some (get r w)
  | HAssign v s => is_some (get r v) && is_some (source_value r s) && negb (Nat.eqb (source_var s) v)
  | HMoveAssign v w => is_some (get r v) && is_some (get r w) && negb (Nat.eqb v w)
  | HDestroy v => is_some (get r v)
  | HSwap v w => is_some (get r v) && is_some (get r w)
  end.
Definition alloc_b (o : hop nat) (h : heap nat) : bool :=
  match o with
  | HCreate _ _ _ a => negb (is_some (blocks h a))
  | _ => true
  end.
Fixpoint history_b (l : list (hop nat)) (h : heap nat) (r : vals (L := nat)) : bool :=
  match l with
  | [] => true
  | o :: l' => proper_b o r && alloc_b o h &&
               match ex_step o h with
               | Ok h' => history_b l' h' (v_step o r)
               | Err _ => true
               end
  end.
Lemma is_some_spec : forall A (x : option A), is_some x = true -> x <> None.
Proof. intros A [a|]; cbn; congruence. Qed.
Lemma history_b_ok : forall l h r, history_b l h r = true -> history Nat.eqb ex_hash ex_bytes l h r.
Proof.
  induction l as [|o l IH]; intros h r H; cbn [history history_b] in *; auto.
  apply andb_true_iff in H. destruct H as [H H3]. apply andb_true_iff in H. destruct H as [H1 H2]. split; [|split].
  - destruct o; cbn [proper proper_b] in *; rewrite ?andb_true_iff in H1; unfold declared.
    + rewrite forallb_forall in H1. intros k Hk. apply is_some_spec. auto.
    + now apply is_some_spec.
    + now apply is_some_spec.
    + destruct H1 as [[A B] C]. split; [now apply is_some_spec|]. split; [now apply is_some_spec|]. left.
      apply negb_true_iff, Nat.eqb_neq in C. auto.
    + destruct H1 as [[A B] C]. split; [now apply is_some_spec|]. split; [now apply is_some_spec|].
      apply negb_true_iff, Nat.eqb_neq in C. auto.
    + now apply is_some_spec.
    + destruct H1 as [A B]. split; now apply is_some_spec.
  - destruct o; cbn [allocator_ok alloc_b] in *; auto. destruct (blocks h a); [discriminate|auto].
  - intros h' E. fold ex_step in E. rewrite E in H3. auto.
Qed.

(** Creation of |1| (0), of two equal nodes (1 and 2), of a node over them (3); a new node in the block kept by the table (4);
    destruction of everything in some order, with moves, swaps and assignments between. *)
Definition ex_history : list (hop nat) :=
  [HCreate 0 7 [] 100%N; HCreate 1 8 [0] 200%N; HCreate 2 8 [0] 300%N; HCreate 3 9 [1; 2; 0] 400%N; HCreate 4 7 [] 500%N;
   HCopy 5 (SNested 3 1); HMove 6 4; HAssign 4 (SVar 1); HSwap 3 6; HDestroy 0; HDestroy 1; HMoveAssign 2 3;
   HAssign 5 (SNested 6 2)].
Definition ex_destroy : list (hop nat) := [HDestroy 6; HDestroy 4; HDestroy 2; HDestroy 3; HDestroy 5].
Example C22_example : history Nat.eqb ex_hash ex_bytes ex_history (empty_heap 2) [] /\ (N.of_nat (total ex_history) < 2 ^ 32 - 1)%N /\
  match ex_run ex_history (empty_heap 2) with
  | Ok h => get (env h) 5 = get (env h) 2 /\ get (env h) 5 <> get (env h) 4 /\ get (env h) 6 <> None /\ size_ (ht h) = 3%N
  | Err _ => False
  end.
Proof.
  split; [apply history_b_ok; vm_compute; reflexivity|]. split; [vm_compute; reflexivity|].
  vm_compute. repeat split; discriminate.
Qed.
Example C23_example : history Nat.eqb ex_hash ex_bytes (ex_history ++ ex_destroy) (empty_heap 2) [] /\
  (forall v, value (v_run (ex_history ++ ex_destroy) []) v = None) /\ NoDup (map fst (v_run (ex_history ++ ex_destroy) [])).
Proof.
  split; [apply history_b_ok; vm_compute; reflexivity|].
  assert (E : v_run (ex_history ++ ex_destroy) [] = []) by (vm_compute; reflexivity). rewrite E. split; [reflexivity|constructor].
Qed.

(** ** C24 is false of the code: ptr.hh 95-111 and 122-137 release the current data first. *)

(** x = x, x being the only handle on its data: the destroyed data is accessed. *)
Theorem C24_self_copy_refuted :
  exists l x, history Nat.eqb ex_hash ex_bytes l (empty_heap 2) [] /\ value (v_run l []) x <> None /\
  exists h, ex_run l (empty_heap 2) = Ok h /\ ex_step (HAssign x (SVar x)) h = Err HUB.
Proof.
  exists [HCreate 0 7 [] 100%N; HCreate 1 8 [0] 200%N], 1. split; [apply history_b_ok; vm_compute; reflexivity|].
  split; [vm_compute; discriminate|].
  destruct (ex_run [HCreate 0 7 [] 100%N; HCreate 1 8 [0] 200%N] (empty_heap 2)) as [h|] eqn:E; [|vm_compute in E; discriminate].
  exists h. split; auto. revert E. intros E. vm_compute in E. injection E as <-. vm_compute. reflexivity.
Qed.
Print Assumptions C24_self_copy_refuted.
(** x = x.successor(), x being the only handle on its data: other.x_ is read in the destroyed node. *)
Theorem C24_nested_copy_refuted :
  exists l x, history Nat.eqb ex_hash ex_bytes l (empty_heap 2) [] /\ source_value (v_run l []) (SNested x 0) <> None /\
  exists h, ex_run l (empty_heap 2) = Ok h /\ ex_step (HAssign x (SNested x 0)) h = Err HUB.
Proof.
  exists [HCreate 0 7 [] 100%N; HCreate 1 8 [0] 200%N], 1. split; [apply history_b_ok; vm_compute; reflexivity|].
  split; [vm_compute; discriminate|].
  destruct (ex_run [HCreate 0 7 [] 100%N; HCreate 1 8 [0] 200%N] (empty_heap 2)) as [h|] eqn:E; [|vm_compute in E; discriminate].
  exists h. split; auto. revert E. intros E. vm_compute in E. injection E as <-. vm_compute. reflexivity.
Qed.
Print Assumptions C24_nested_copy_refuted.
(** x = std::move(x) leaves x empty, its data being lost. *)
Theorem C24_self_move_refuted :
  exists l x, history Nat.eqb ex_hash ex_bytes l (empty_heap 2) [] /\ value (v_run l []) x <> None /\
  exists h h', ex_run l (empty_heap 2) = Ok h /\ ex_step (HMoveAssign x x) h = Ok h' /\ get (env h') x = Some None.
Proof.
  exists [HCreate 0 7 [] 100%N; HCreate 1 8 [0] 200%N], 1. split; [apply history_b_ok; vm_compute; reflexivity|].
  split; [vm_compute; discriminate|].
  destruct (ex_run [HCreate 0 7 [] 100%N; HCreate 1 8 [0] 200%N] (empty_heap 2)) as [h|] eqn:E; [|vm_compute in E; discriminate].
  exists h. vm_compute in E. injection E as <-.
  match goal with |- exists h', _ /\ ex_step ?o ?h = Ok h' /\ _ => destruct (ex_step o h) as [h'|] eqn:E; [|vm_compute in E; discriminate] end.
  exists h'. split; auto. split; auto. vm_compute in E. injection E as <-. reflexivity.
Qed.
Print Assumptions C24_self_move_refuted.
Example C24_partial_example : exists h h', let l := [HCreate 0 7 [] 100%N; HCreate 1 8 [0] 200%N; HCopy 2 (SVar 1)] in
  value (v_run l []) 1 = Some (Node 8 [Node 7 []]) /\ value (v_run l []) 2 = Some (Node 8 [Node 7 []]) /\
  ex_run l (empty_heap 2) = Ok h /\ ex_step (HAssign 1 (SVar 1)) h = Ok h' /\ get (env h') 1 = Some (Some 200%N).
Proof.
  cbv zeta. destruct (ex_run [HCreate 0 7 [] 100%N; HCreate 1 8 [0] 200%N; HCopy 2 (SVar 1)] (empty_heap 2)) as [h|] eqn:E; [|vm_compute in E; discriminate].
  exists h. vm_compute in E. injection E as <-.
  match goal with |- exists h', _ /\ _ /\ _ /\ ex_step ?o ?h = Ok h' /\ _ => destruct (ex_step o h) as [h'|] eqn:E; [|vm_compute in E; discriminate] end.
  exists h'. split; [reflexivity|]. split; [reflexivity|]. split; auto. split; auto. vm_compute in E. injection E as <-. reflexivity.
Qed.
