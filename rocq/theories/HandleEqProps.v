(** * Equality of handles on SDDs is equality of sets (C60) *)

From Coq Require Import List Bool NArith Arith Lia Permutation Sorted.
From Verif Require Import Base SortedSets Values Sdd SddFacts Pow2 HashTable Heap HeapProofs HeapTheorems HandleEq FlatSet Concrete.
Import ListNotations.

Section Props.
  Variable VI : values_impl.
  Variable VL : values_laws VI.
  Notation L := (label (vt VI)).
  Variable hash bytes : L * list ptr -> N.             (* any hash function, any size of nodes *)
  Notation run l size := (h_run (label_eqb VI) hash bytes (map (as_hop VI) l) (empty_heap size)).
  Notation vals_after l := (v_run (map (as_hop VI) l) []).

  Lemma sdd_good : forall l size, (1 <= size <= 2 ^ 62)%N -> sdd_history VI (label_eqb VI) hash bytes l (empty_heap size) [] ->
    (N.of_nat (total (map (as_hop VI) l)) < 2 ^ 32 - 1)%N ->
    exists h, run l size = Ok h /\ good hash h (vals_after l) (total (map (as_hop VI) l)) /\ sorted_heap VI h /\ all_wf VI (vals_after l).
  Proof.
    intros l size Hs H B. apply (sdd_run_ok VI (label_eqb VI) hash bytes (label_eqb_spec VI VL) l (empty_heap size) [] 0); auto.
    - apply good_empty. exact Hs.
    - intros p d U. cbn in U. discriminate.
    - intros v t [].
  Qed.

  (** After any history of creations of nodes, copies, moves, assignments, swaps and destructions of handles, with any
      allocator: the pointers held by two handles (what operator== compares) are equal exactly when the two handles represent
      the same set of assignments.  The arcs of a node are sorted by the addresses of its successors at the time it is
      created; nothing is assumed of addresses. *)
  Theorem C60_handle_equality : forall l size, (1 <= size <= 2 ^ 62)%N ->
    sdd_history VI (label_eqb VI) hash bytes l (empty_heap size) [] -> (N.of_nat (total (map (as_hop VI) l)) < 2 ^ 32 - 1)%N ->
    exists h, run l size = Ok h /\
    forall v w x y, holds VI (vals_after l) v = Some x -> holds VI (vals_after l) w = Some y ->
    exists p q, get (env h) v = Some (Some p) /\ get (env h) w = Some (Some q) /\
                (p = q <-> forall a, contains x a = contains y a).
  Proof.
    intros l size Hs H B. destruct (sdd_good l size Hs H B) as (h & E & G & Sh & W). exists h. split; auto.
    intros v w x y Hv Hw. unfold holds in Hv, Hw.
    destruct (value (vals_after l) v) as [t|] eqn:Ev; [|discriminate]. destruct (value (vals_after l) w) as [u|] eqn:Ew; [|discriminate].
    cbn [option_map] in Hv, Hw. injection Hv as <-. injection Hw as <-. pose proof G as G0. destruct G as (els & I & S & _).
    destruct (sim_value _ _ _ _ _ S Ev) as (p & G1 & D1). destruct (sim_value _ _ _ _ _ S Ew) as (q & G2 & D2).
    exists p, q. split; auto. split; auto. split.
    - intros <- a. now rewrite (denotes_fun _ _ _ _ D1 D2).
    - intros Hsame. assert (Wt : wf VI t) by (apply (W v), value_in, Ev). assert (Wu : wf VI u) by (apply (W w), value_in, Ew).
      assert (t = u).
      { apply (sdd_of_inj VI); auto. apply (rcanonicity VI VL (addr_order VI h)); auto.
        - apply (addr_order_irr VI hash h _ _ G0).
        - apply (addr_order_asym VI hash h _ _ G0).
        - apply (wf_canonical VI hash bytes h Sh t p Wt D1).
        - apply (wf_canonical VI hash bytes h Sh u q Wu D2). }
      subst u. eapply (denotes_inj hash); [exact I| | |exact D1|exact D2]; apply (inv_root hash _ _ _ _ _ _ I); eapply handles_in; eauto.
  Qed.

  (** A handle is empty() (it is the handle on |0|) exactly when it contains no assignment. *)
  Theorem C60_handle_empty : forall l size, (1 <= size <= 2 ^ 62)%N ->
    sdd_history VI (label_eqb VI) hash bytes l (empty_heap size) [] -> (N.of_nat (total (map (as_hop VI) l)) < 2 ^ 32 - 1)%N ->
    exists h, run l size = Ok h /\
    forall v x, holds VI (vals_after l) v = Some x ->
    exists p, get (env h) v = Some (Some p) /\
              (udat (hm h) p = Some (KZero, []) <-> forall a, contains x a = false).
  Proof.
    intros l size Hs H B. destruct (sdd_good l size Hs H B) as (h & E & G & Sh & W). exists h. split; auto.
    intros v x Hv. unfold holds in Hv. destruct (value (vals_after l) v) as [t|] eqn:Ev; [|discriminate].
    cbn [option_map] in Hv. injection Hv as <-. destruct G as (els & I & S & _).
    destruct (sim_value _ _ _ _ _ S Ev) as (p & G1 & D1). exists p. split; auto.
    assert (Wt : wf VI t) by (apply (W v), value_in, Ev). pose proof (wf_canonical VI hash bytes h Sh t p Wt D1) as Ct. split.
    - intros U a. destruct t as [lb ts]. apply denotes_node in D1. destruct D1 as (ks & U1 & _). rewrite U in U1. injection U1 as <- <-.
      reflexivity.
    - intros Hn. apply (rcanonical_zero_iff VI VL _ _ Ct) in Hn. destruct Wt; cbn [sdd_of] in Hn; try discriminate.
      apply denotes_node in D1. destruct D1 as (ks & U & F). inversion F; subst. exact U.
  Qed.
End Props.
Print Assumptions C60_handle_equality.
Print Assumptions C60_handle_empty.

(** ** A concrete history *)

Notation lab := (label (vt FS)).
Definition exs_hash (d : lab * list ptr) : N := fold_right N.add 0%N (snd d).
Definition exs_bytes (d : lab * list ptr) : N := (16 + 24 * N.of_nat (length (snd d)))%N.

(** A decision procedure for examples; hierarchical nodes with one arc only. *)
Definition some_b {A} (x : option A) : bool := match x with Some _ => true | None => false end.
Definition not_zero (r : vals (L := lab)) (k : var) : bool :=
  match value r k with Some (Node KZero _) => false | _ => true end.
Fixpoint pairs_b {A} (f : A -> A -> bool) (l : list A) : bool :=
  match l with
  | [] => true
  | a :: r => forallb (f a) r && pairs_b f r
  end.
Fixpoint addrs (h : heap lab) (ks : list var) : option (list ptr) :=
  match ks with
  | [] => Some []
  | k :: r => match get (env h) k, addrs h r with
              | Some (Some p), Some ps => Some (p :: ps)
              | _, _ => None
              end
  end.
Definition ascending_b (h : heap lab) (ks : list var) : bool :=
  match addrs h ks with
  | Some ps => pairs_b N.ltb ps
  | None => false
  end.
Definition legal_b (o : sop FS) (h : heap lab) (r : vals (L := lab)) : bool :=
  match o with
  | OZero _ _ _ | OOne _ _ _ => true
  | OFlat _ _ _ arcs _ => negb (Nat.eqb (length arcs) 0) &&
      forallb (fun a => negb (v_empty FS (fst a)) && not_zero r (snd a)) arcs &&
      pairs_b (fun a b => v_empty FS (v_inter FS (fst a) (fst b))) arcs && ascending_b h (map snd arcs)
  | OHier _ _ _ arcs _ => Nat.eqb (length arcs) 1 && forallb (fun a => not_zero r (fst a) && not_zero r (snd a)) arcs &&
      ascending_b h (map snd arcs)
  | OHandle _ (HCreate _ _ _ _) => false
  | OHandle _ _ => true
  end.
Definition properb (o : hop lab) (r : vals (L := lab)) : bool :=
  match o with
  | HCreate _ _ ks _ => forallb (fun k => some_b (value r k)) ks
  | HCopy _ s => some_b (source_value r s)
  | HMove _ w => some_b (get r w)
  | HAssign v s => some_b (get r v) && some_b (source_value r s) && negb (Nat.eqb (source_var s) v)
  | HMoveAssign v w => some_b (get r v) && some_b (get r w) && negb (Nat.eqb v w)
  | HDestroy v => some_b (get r v)
  | HSwap v w => some_b (get r v) && some_b (get r w)
  end.
Definition allocb (o : hop lab) (h : heap lab) : bool :=
  match o with
  | HCreate _ _ _ a => negb (some_b (blocks h a))
  | _ => true
  end.
Fixpoint sdd_history_b (l : list (sop FS)) (h : heap lab) (r : vals (L := lab)) : bool :=
  match l with
  | [] => true
  | o :: l' => legal_b o h r && properb (as_hop FS o) r && allocb (as_hop FS o) h &&
               match h_step (label_eqb FS) exs_hash exs_bytes (as_hop FS o) h with
               | Ok h' => sdd_history_b l' h' (v_step (as_hop FS o) r)
               | Err _ => true
               end
  end.

Lemma some_b_spec : forall A (x : option A), some_b x = true -> x <> None.
Proof. intros A [a|]; cbn; congruence. Qed.
Lemma pairs_b_spec : forall A (f : A -> A -> bool) (P : A -> A -> Prop) l, (forall a b, f a b = true -> P a b) -> pairs_b f l = true ->
  ForallOrdPairs P l.
Proof.
  intros A f P l T. induction l as [|a l IH]; cbn; intros H; constructor; apply andb_true_iff in H; destruct H as [H1 H2]; auto.
  rewrite forallb_forall in H1. rewrite Forall_forall. auto.
Qed.
Lemma ascending_b_spec : forall h ks, ascending_b h ks = true -> ascending FS h ks.
Proof.
  intros h ks H. unfold ascending_b in H. destruct (addrs h ks) as [ps|] eqn:E; [|discriminate]. exists ps. split.
  - clear H. revert ps E. induction ks as [|k ks IH]; cbn [addrs]; intros ps E; [injection E as <-; constructor|].
    destruct (get (env h) k) as [[p|]|] eqn:G; try discriminate. destruct (addrs h ks) as [qs|]; [|discriminate]. injection E as <-.
    constructor; auto.
  - clear E. induction ps as [|p ps IH]; [constructor|]. cbn in H. apply andb_true_iff in H. destruct H as [H1 H2]. constructor; auto.
    rewrite Forall_forall. rewrite forallb_forall in H1. intros q Hq. apply N.ltb_lt. auto.
Qed.
Lemma not_zero_spec : forall r k, not_zero r k = true -> holds FS r k <> Some Zero.
Proof. intros r k H. unfold not_zero, holds in *. destruct (value r k) as [[[| |x vs|x] ts]|]; cbn [option_map sdd_of] in *; try discriminate H; intros Q; discriminate Q. Qed.
Lemma sdd_history_b_ok : forall l h r, sdd_history_b l h r = true -> sdd_history FS (label_eqb FS) exs_hash exs_bytes l h r.
Proof.
  induction l as [|o l IH]; intros h r H; cbn [sdd_history sdd_history_b] in *; auto.
  apply andb_true_iff in H. destruct H as [H H4]. apply andb_true_iff in H. destruct H as [H H3].
  apply andb_true_iff in H. destruct H as [H1 H2]. split; [|split; [|split]].
  - destruct o as [v a|v a|v x arcs a|v x arcs a|o]; cbn [legal legal_b] in *; auto.
    + rewrite !andb_true_iff in H1. destruct H1 as [[[A B] C] D]. split; [|split; [|split]].
      * intros ->. discriminate.
      * intros w k Hk. rewrite forallb_forall in B. specialize (B _ Hk). cbn [fst snd] in B. apply andb_true_iff in B. destruct B as [B1 B2].
        split; [now apply negb_true_iff in B1|now apply not_zero_spec].
      * eapply pairs_b_spec; [|exact C]. intros a1 b1 Hab k K1 K2. cbn beta in Hab. apply (vl_empty FS_laws) with (x := k) in Hab.
        rewrite (vl_inter FS_laws), K1, K2 in Hab. discriminate.
      * now apply ascending_b_spec.
    + rewrite !andb_true_iff in H1. destruct H1 as [[A B] D]. apply Nat.eqb_eq in A. destruct arcs as [|c [|d arcs]]; try discriminate.
      split; [discriminate|]. split; [|split].
      * intros w k Hk. rewrite forallb_forall in B. specialize (B _ Hk). cbn [fst snd] in B. apply andb_true_iff in B. destruct B as [B1 B2].
        split; now apply not_zero_spec.
      * repeat constructor.
      * now apply ascending_b_spec.
    + destruct o; auto. discriminate.
  - destruct (as_hop FS o); cbn [proper properb] in *; rewrite ?andb_true_iff in H2; unfold declared.
    + rewrite forallb_forall in H2. intros k Hk. apply some_b_spec. auto.
    + now apply some_b_spec.
    + now apply some_b_spec.
    + destruct H2 as [[A B] C]. split; [now apply some_b_spec|]. split; [now apply some_b_spec|]. left.
      apply negb_true_iff, Nat.eqb_neq in C. auto.
    + destruct H2 as [[A B] C]. split; [now apply some_b_spec|]. split; [now apply some_b_spec|].
      apply negb_true_iff, Nat.eqb_neq in C. auto.
    + now apply some_b_spec.
    + destruct H2 as [A B]. split; now apply some_b_spec.
  - destruct (as_hop FS o); cbn [allocator_ok allocb] in *; auto. destruct (blocks h a); [discriminate|auto].
  - intros h' E. rewrite E in H4. auto.
Qed.

(** |0| (0) and |1| (1); A = 0:{1} (2) at 200, B = 0:{2} (3) at 150, the union N = 1:{5}.B + 1:{6}.A (4), with B first; a
    hierarchical node over it (5); then N and B are destroyed, B comes back at 250 (3) and the union (6) now has A first; it is
    built again (7). *)
Definition exs_history : list (sop FS) :=
  [OZero FS 0%nat 50; OOne FS 1%nat 100; OFlat FS 2%nat 0 [(fs [1], 1%nat)] 200; OFlat FS 3%nat 0 [(fs [2], 1%nat)] 150;
   OFlat FS 4%nat 1 [(fs [5], 3%nat); (fs [6], 2%nat)] 300; OHier FS 5%nat 9 [(4%nat, 2%nat)] 400;
   OHandle FS (HDestroy 5%nat); OHandle FS (HDestroy 4%nat); OHandle FS (HDestroy 3%nat);
   OFlat FS 3%nat 0 [(fs [2], 1%nat)] 250; OFlat FS 6%nat 1 [(fs [6], 2%nat); (fs [5], 3%nat)] 300; OHandle FS (HCopy 8%nat (SNested 6%nat 1%nat));
   OFlat FS 7%nat 1 [(fs [6], 2%nat); (fs [5], 8%nat)] 500; OHier FS 5%nat 9 [(6%nat, 2%nat)] 600]%N.
Example C60_example : sdd_history FS (label_eqb FS) exs_hash exs_bytes exs_history (empty_heap 4) [] /\
  (N.of_nat (total (map (as_hop FS) exs_history)) < 2 ^ 32 - 1)%N /\
  match h_run (label_eqb FS) exs_hash exs_bytes (map (as_hop FS) exs_history) (empty_heap 4) with
  | Ok h => get (env h) 6 = get (env h) 7 /\ get (env h) 3 = get (env h) 8 /\ get (env h) 2 <> get (env h) 3 /\ size_ (ht h) = 6%N
  | Err _ => False
  end.
Proof.
  split; [apply sdd_history_b_ok; vm_compute; reflexivity|]. split; [vm_compute; reflexivity|].
  vm_compute. repeat split; discriminate.
Qed.
