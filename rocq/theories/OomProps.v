(** * Properties under failures of memory allocation (C64) *)

From Coq Require Import List Bool NArith Arith Lia Permutation.
From Verif Require Import Base Pow2 HashTable Heap HeapProofs HeapTheorems HeapProps Cached Cache CacheProofs CacheTheorems Oom.
Import ListNotations.

Section Props.
  Context {L : Type}.
  Variable leqb : L -> L -> bool.
  Variable hash bytes : L * list ptr -> N.
  Hypothesis leqb_spec : forall a b, leqb a b = true <-> a = b.

  (** Handles, partial: after any history in which any creations fail for lack of memory (of the node, or of the buckets of
      the unicity table), there is no undefined behaviour, the variables have the values they would have had without the
      operations that threw, and two variables hold the same pointer exactly when their values are equal.
      Missing: memory is lost, see below. *)
  Theorem C64_values_partial : forall l size, (1 <= size <= 2 ^ 62)%N ->
    o_history leqb hash bytes l (empty_heap size) [] -> (N.of_nat (o_total l) < 2 ^ 32 - 1)%N ->
    exists thrown h, o_run leqb hash bytes l (empty_heap size) = Ok (thrown, h) /\ length thrown = length l /\
    forall v w t u, value (v_run (done l thrown) []) v = Some t -> value (v_run (done l thrown) []) w = Some u ->
    exists p q, get (env h) v = Some (Some p) /\ get (env h) w = Some (Some q) /\
                denotes (hm h) t p /\ denotes (hm h) u q /\ (p = q <-> t = u).
  Proof.
    intros l size Hs H B.
    pose proof (proj2 (good_with_nil hash (empty_heap size) [] 0) (good_empty hash size Hs)) as G.
    destruct (o_run_ok leqb hash bytes leqb_spec l _ _ _ _ _ _ G H B) as (bs & h & extra & dying & ex & E & Ln & els & I & S & _).
    exists bs, h. split; auto. split; auto. intros v w t u Hv Hw.
    destruct (sim_value _ _ _ _ _ S Hv) as (p & G1 & D1). destruct (sim_value _ _ _ _ _ S Hw) as (q & G2 & D2).
    exists p, q. repeat split; auto.
    - intros <-. eapply denotes_fun; eauto.
    - intros <-. eapply (denotes_inj hash); [exact I| | |exact D1|exact D2]; apply (inv_root hash _ _ _ _ _ _ I);
        apply in_app_iff; right; eapply handles_in; eauto.
  Qed.

  (** When the block of the node itself is refused, and the block in reserve is absent or too small, the state does not
      change at all. *)
  Theorem C64_block_partial : forall v l kids h ps, map_res (held h) kids = Ok ps ->
    (ucache h = None \/ (ucsize h < bytes (l, ps))%N) ->
    o_step leqb hash bytes (OFail v l kids None) h = Ok (true, h).
  Proof.
    clear leqb_spec. intros v l kids h ps E H. cbn [o_step]. rewrite E. cbn [rbind]. unfold make_throws, allocate_throws.
    destruct (ucache h) as [p|] eqn:Eu; [|reflexivity]. destruct H as [H|H]; [discriminate|].
    destruct (N.leb_spec (bytes (l, ps)) (ucsize h)); [lia|]. reflexivity.
  Qed.
End Props.
Print Assumptions C64_values_partial.
Print Assumptions C64_block_partial.

(** ** Examples *)

Definition ex_ostep := o_step Nat.eqb ex_hash ex_bytes.
Definition ex_orun := o_run Nat.eqb ex_hash ex_bytes.
Definition fresh_b (o : oop nat) (h : heap nat) : bool :=
  match o with
  | OOp o => alloc_b o h
  | OFail _ _ _ (Some a) => negb (is_some (blocks h a))
  | OFail _ _ _ None => true
  end.
Fixpoint o_history_b (l : list (oop nat)) (h : heap nat) (r : vals (L := nat)) : bool :=
  match l with
  | [] => true
  | o :: l' => proper_b (plain o) r && fresh_b o h &&
               match ex_ostep o h with
               | Ok (b, h') => o_history_b l' h' (if b then r else v_step (plain o) r)
               | Err _ => true
               end
  end.
Lemma o_history_b_ok : forall l h r, o_history_b l h r = true -> o_history Nat.eqb ex_hash ex_bytes l h r.
Proof.
  induction l as [|o l IH]; intros h r H; cbn [o_history o_history_b] in *; auto.
  apply andb_true_iff in H. destruct H as [H H3]. apply andb_true_iff in H. destruct H as [H1 H2].
  split; [|split].
  - clear - H1. destruct o as [o|v l ks a]; cbn [plain] in *.
    + destruct o; cbn [proper proper_b] in *; rewrite ?andb_true_iff in H1; unfold declared.
      * rewrite forallb_forall in H1. intros k Hk. apply is_some_spec. auto.
      * now apply is_some_spec.
      * now apply is_some_spec.
      * destruct H1 as [[A B] C]. split; [now apply is_some_spec|]. split; [now apply is_some_spec|]. left.
        apply negb_true_iff, Nat.eqb_neq in C. auto.
      * destruct H1 as [[A B] C]. split; [now apply is_some_spec|]. split; [now apply is_some_spec|].
        apply negb_true_iff, Nat.eqb_neq in C. auto.
      * now apply is_some_spec.
      * destruct H1 as [A B]. split; now apply is_some_spec.
    + cbn [proper proper_b] in *. rewrite forallb_forall in H1. intros k Hk. apply is_some_spec. auto.
  - destruct o as [o|v l0 ks [a|]]; cbn [fresh_block fresh_b] in *; auto.
    + destruct o; cbn [allocator_ok alloc_b] in *; auto. destruct (blocks h a); [discriminate|auto].
    + destruct (blocks h a); [discriminate|auto].
  - intros b h' E. fold ex_ostep in E. rewrite E in H3. auto.
Qed.

(** A history in which the buckets are refused (a node is linked and thrown away, then a duplicate is lost), the block of a
    node is refused, then memory is available again: the node that was linked is found. *)
Definition ex_failures : list (oop nat) :=
  [OOp (HCreate 0 7 [] 100%N); OFail 1 8 [0] (Some 200%N); OFail 1 8 [0] (Some 300%N); OFail 1 9 [0] None;
   OOp (HCreate 1 8 [0] 400%N); OOp (HCopy 2 (SNested 1 0))].
Example C64_example : o_history Nat.eqb ex_hash ex_bytes ex_failures (empty_heap 2) [] /\
  (N.of_nat (o_total ex_failures) < 2 ^ 32 - 1)%N /\
  match ex_orun ex_failures (empty_heap 2) with
  | Ok (thrown, h) => thrown = [false; true; true; true; false; false] /\ get (env h) 1 = Some (Some 200%N) /\
                      get (env h) 2 = get (env h) 0
  | Err _ => False
  end.
Proof.
  split; [apply o_history_b_ok; vm_compute; reflexivity|]. split; [vm_compute; reflexivity|].
  vm_compute. repeat split.
Qed.

(** ** C64 is false of the code: memory is lost *)

(** The node linked by a creation that throws stays in the unicity table although nothing refers to it, with everything it
    refers to: destroying all the variables does not empty the table. *)
Theorem C64_linked_node_refuted : exists l thrown h, o_history Nat.eqb ex_hash ex_bytes l (empty_heap 2) [] /\
  ex_orun l (empty_heap 2) = Ok (thrown, h) /\ v_run (done l thrown) [] = [] /\ env h = [] /\ size_ (ht h) = 2%N /\
  (access h, uhits h, umisses h) = (2, 0, 1)%N.
Proof.
  exists [OOp (HCreate 0 7 [] 100%N); OFail 1 8 [0] (Some 200%N); OOp (HDestroy 0)].
  destruct (ex_orun _ (empty_heap 2)) as [[thrown h]|] eqn:E; [|vm_compute in E; discriminate]. exists thrown, h.
  split; [apply o_history_b_ok; vm_compute; reflexivity|]. split; auto.
  vm_compute in E. injection E as <- <-. vm_compute. repeat split.
Qed.
Print Assumptions C64_linked_node_refuted.
(** The duplicate of an existing node is neither destroyed nor linked: its block is lost, and what it refers to is never
    reclaimed. *)
Theorem C64_duplicate_refuted : exists l thrown h p, o_history Nat.eqb ex_hash ex_bytes l (empty_heap 2) [] /\
  ex_orun l (empty_heap 2) = Ok (thrown, h) /\ env h = [] /\
  hm h p <> None /\ blocks h p <> None /\ ucache h <> Some p /\ ~ In (Some p) (bks (ht h)) /\
  (forall q c, hm h q = Some c -> c_next c <> Some p) /\ size_ (ht h) = 1%N.
Proof.
  exists [OOp (HCreate 0 7 [] 100%N); OFail 1 8 [0] (Some 200%N); OFail 1 8 [0] (Some 300%N);
          OOp (HCreate 1 8 [0] 400%N); OOp (HDestroy 1); OOp (HDestroy 0)].
  destruct (ex_orun _ (empty_heap 2)) as [[thrown h]|] eqn:E; [|vm_compute in E; discriminate]. exists thrown, h, 300%N.
  split; [apply o_history_b_ok; vm_compute; reflexivity|]. split; auto.
  vm_compute in E. injection E as <- <-.
  split; [reflexivity|]. split; [vm_compute; discriminate|]. split; [vm_compute; discriminate|]. split; [vm_compute; discriminate|].
  split; [cbn; intuition discriminate|]. split; [|reflexivity].
  cbn [hm]. intros q c. repeat match goal with |- context [match ?b with _ => _ end] => destruct b; try discriminate end;
    intros Hc; try (injection Hc as <-; cbn; discriminate); try discriminate.
Qed.
Print Assumptions C64_duplicate_refuted.

(** ** The caches *)

(** Stores, until one fails. *)
Fixpoint stores {Op K R : Type} (key : Op -> K) keq (hash : K -> N) (l : list (Op * R * N)) (c : cache Op R) : res herr (cache Op R) :=
  match l with
  | [] => Ok c
  | (op, r, b) :: l' => rbind (cache_store key keq hash op r b c) (stores key keq hash l')
  end.

Section Cache.
  Context {Op K R : Type}.
  Variable key : Op -> K.
  Variable keq : K -> K -> bool.
  Variable hash : K -> N.
  Hypothesis keq_spec : forall a b, keq a b = true <-> a = b.

  Lemma short_stores : forall (l : list (Op * R * N)) fl (c : cache Op R), fchain (links c) (free c) fl ->
    (size_ (tab c) + N.of_nat (length fl) + 1 = max_size c)%N -> length fl < length l ->
    exists e, stores key keq hash l c = Err e.
  Proof.
    clear keq_spec. induction l as [|[[op r] b] l IH]; intros fl c F S Hl; [cbn in Hl; lia|]. cbn [stores].
    destruct (cache_store key keq hash op r b c) as [c1|e] eqn:E; [|exists e; reflexivity]. cbn [rbind].
    unfold cache_store in E. destruct (N.eqb_spec (size_ (tab c)) (max_size c)); [lia|]. cbn [rbind] in E.
    destruct fl as [|p fl]; cbn [fchain] in F.
    - unfold pool_allocate in E. rewrite F in E. discriminate.
    - destruct F as [F1 F2]. unfold pool_allocate in E. rewrite F1 in E. destruct (cmem c p); [discriminate|].
      cbn [rbind tab cmem lru fresh free links max_size hits misses filtered discarded] in E.
      destruct (insert_commit _ _ _ _) as [[m t]|] eqn:Ei; [|discriminate]. cbn [rbind fst snd] in E. injection E as <-.
      apply (IH fl); cbn [links free tab max_size]; auto.
      + assert (St : size_ t = (size_ (tab c) + 1)%N).
        { unfold insert_commit in Ei. destruct (bucket _ _); [|discriminate]. cbn [rbind] in Ei.
          destruct (last_loop _ _ _ _) as [[q|]|]; [| |discriminate]; cbn [rbind] in Ei.
          - destruct (set_next _ _ _); [|discriminate]. cbn [rbind] in Ei. injection Ei as <- <-. reflexivity.
          - injection Ei as <- <-. reflexivity. }
        rewrite St. cbn [length] in S. lia.
      + cbn [length] in Hl. lia.
  Qed.

  (** The insertion of one node in the LRU list fails, in any state of any cache: from then on, after at most as many
      stores as the cache has slots, a store goes wrong. *)
  Theorem C64_cache_refuted : forall (P : Op -> R -> Prop) c els fl op r, cache_ok key hash P c els fl ->
    exists c1, store_throws key keq hash op r c = Ok c1 /\
    forall l, (max_size c <= N.of_nat (length l))%N -> exists e, stores key keq hash l c1 = Err e.
  Proof.
    intros P c els fl op r C. pose proof (ok_length key hash P c els fl C) as HL. pose proof (ok_size key hash P c els fl C) as HS.
    pose proof (k_pos key hash P _ _ _ C) as HP.
    unfold store_throws. destruct (full_iff key hash P c els fl C) as [F1 F2].
    destruct (N.eqb (size_ (tab c)) (max_size c)) eqn:Ef.
    - assert (fl = []) by auto. subst fl.
      destruct (evict_ok key keq hash keq_spec P c els C) as (id & p & rest & els' & c1 & _ & PE & E1 & I1 & _ & _ & Mp & _ & X1 & _).
      rewrite E1. cbn [rbind]. pose proof (k_free key hash P _ _ _ I1) as [F3 F4]. cbn [fchain] in F4.
      unfold pool_allocate. rewrite F3, Mp. cbn [rbind]. eexists. split; [reflexivity|].
      intros l Hl. apply (short_stores l []); cbn [links free tab max_size length].
      + exact F4.
      + rewrite X1, (ok_size key hash P _ _ _ I1). pose proof (ok_length key hash P _ _ _ I1) as H1. cbn [length] in H1. lia.
      + lia.
    - cbn [rbind]. destruct fl as [|p fl]; [now specialize (F2 eq_refl)|]. pose proof (k_free key hash P _ _ _ C) as [F3 F4].
      unfold pool_allocate. rewrite F3, (ok_free_none key hash P c els (p :: fl) p C) by now left. cbn [rbind].
      eexists. split; [reflexivity|]. intros l Hl. apply (short_stores l fl); cbn [links free tab max_size length].
      + exact F4.
      + cbn [length] in HL. lia.
      + cbn [length] in HL. lia.
  Qed.
End Cache.
Print Assumptions C64_cache_refuted.

(** A new cache of capacity 3: two operations, a third one whose store fails, the same again with memory: undefined
    behaviour (the pool has no free slot, and the table is not full). *)
Example C64_cache_example :
  rbind (make_cache 4) (fun c : cache N N =>
  rbind (stores (fun n => n) N.eqb (fun n => n) [(1, 10, 1); (2, 20, 2)]%N c) (fun c1 =>
  rbind (store_throws (fun n => n) N.eqb (fun n => n) 3%N 30%N c1) (fun c2 =>
  stores (fun n => n) N.eqb (fun n => n) [(3, 30, 3)]%N c2))) = Err HUB.
Proof. vm_compute. reflexivity. Qed.
