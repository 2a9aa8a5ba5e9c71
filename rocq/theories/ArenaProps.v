(** * Properties of the memory arena (C26, C52, C53) *)

From Coq Require Import List Bool NArith Arith Lia Permutation.
From Verif Require Import Base HashTable Arena.
Import ListNotations.
Local Open Scope N_scope.

Lemma separated_nth : forall l i j b c, separated l -> i <> j -> nth_error l i = Some b -> nth_error l j = Some c ->
  disjoint (b_adr b) (b_len b) (b_adr c) (b_len c).
Proof.
  induction l as [|x l IH]; intros i j b c S Hn Hi Hj; [destruct i; discriminate|]. destruct S as [S1 S2]. rewrite Forall_forall in S1.
  assert (Sym : forall p n q k, disjoint p n q k -> disjoint q k p n) by (unfold disjoint; tauto).
  destruct i as [|i], j as [|j]; cbn [nth_error] in *; try congruence.
  - injection Hi as <-. apply S1. eapply nth_error_In; eauto.
  - injection Hj as <-. apply Sym, S1. eapply nth_error_In; eauto.
  - eapply (IH i j); eauto.
Qed.

(** After any sequence of allocations, deallocations in any order and nested scopes: no undefined behaviour, blocks held by the
    client share no byte, each is inside the buffer or is a block of the system outside of the buffer. *)
Theorem C26_blocks : forall l base size, a_history l (make_arena base size) [] ->
  exists a live, a_run l (make_arena base size) [] = Ok (a, live) /\
  (forall i j b c, i <> j -> nth_error live i = Some b -> nth_error live j = Some c ->
     disjoint (b_adr b) (b_len b) (b_adr c) (b_len c)) /\
  (forall b, In b live ->
     (base <= b_adr b /\ b_adr b + b_len b <= base + size) \/
     (In (b_adr b, b_len b) (system a) /\ disjoint (b_adr b) (b_len b) base size)).
Proof.
  intros l base size H. destruct (a_run_ok l _ _ (a_inv_init base size) H) as (a & live & E & I & B & S). exists a, live.
  split; auto. cbn [make_arena a_base a_size] in B, S. split.
  - intros i j b c. apply separated_nth. apply (ai_sep _ _ I).
  - intros b Hb. destruct (ai_live _ _ I b Hb) as [[A _]|[A _]].
    + left. unfold in_buffer in A. rewrite B, S in A. exact A.
    + right. split; auto. destruct (ai_sys _ _ I _ _ A) as [_ D]. rewrite B, S in D. exact D.
Qed.
Print Assumptions C26_blocks.

(** A request is served in the buffer exactly when it fits in the free space. *)
Theorem C26_fit : forall n s a live, a_inv a live ->
  (n <= a_base a + a_size a - position a -> fst (allocate n s a) = position a /\ system (snd (allocate n s a)) = system a) /\
  (a_base a + a_size a - position a < n -> fst (allocate n s a) = s /\ position (snd (allocate n s a)) = position a).
Proof.
  intros n s a live _. unfold allocate. cbv zeta. split; intros H.
  - apply N.leb_le in H. rewrite H. auto.
  - apply N.leb_gt in H. rewrite H. auto.
Qed.
Print Assumptions C26_fit.

(** Leaving a scope restores the free space, whatever happened in it. *)
Inductive balanced : list aop -> Prop :=
| bal_nil : balanced []
| bal_alloc : forall n s l, balanced l -> balanced (AAlloc n s :: l)
| bal_dealloc : forall p n l, balanced l -> balanced (ADealloc p n :: l)
| bal_scope : forall l l', balanced l -> balanced l' -> balanced (AEnter :: l ++ ALeave :: l').
Lemma a_run_app : forall l l' a live, a_run (l ++ l') a live = rbind (a_run l a live) (fun r => a_run l' (fst r) (snd r)).
Proof.
  induction l as [|o l IH]; intros l' a live; cbn [a_run app]; [reflexivity|]. destruct (a_step o a); cbn [rbind]; auto.
Qed.
Lemma step_rewinders : forall o a a', (match o with AEnter | ALeave => False | _ => True end) -> a_step o a = Ok a' -> rewinders a' = rewinders a.
Proof.
  intros [n s|p n| |] a a' H E; cbn [a_step] in E; try contradiction.
  - injection E as <-. unfold allocate. cbv zeta. destruct (_ <=? _); reflexivity.
  - unfold deallocate in E. destruct (pointer_in_buffer p a).
    + injection E as <-. destruct (_ =? _); reflexivity.
    + destruct (sys_delete p (system a)); [|discriminate]. cbn [rbind] in E. injection E as <-. reflexivity.
Qed.
Lemma balanced_rewinders : forall l, balanced l -> forall a live a' live', a_run l a live = Ok (a', live') -> rewinders a' = rewinders a.
Proof.
  intros l B. induction B as [|n s l B IH|p n l B IH|l l' B IH B' IH']; intros a live a' live' E.
  - cbn [a_run] in E. injection E as -> ->. reflexivity.
  - cbn [a_run] in E. destruct (a_step (AAlloc n s) a) as [a1|] eqn:E1; [|discriminate]. cbn [rbind] in E.
    rewrite (IH _ _ _ _ E). eapply step_rewinders; eauto. exact I.
  - cbn [a_run] in E. destruct (a_step (ADealloc p n) a) as [a1|] eqn:E1; [|discriminate]. cbn [rbind] in E.
    rewrite (IH _ _ _ _ E). eapply step_rewinders; eauto. exact I.
  - cbn [a_run a_step rbind] in E. rewrite a_run_app in E.
    destruct (a_run l (enter a) (client AEnter a live)) as [[a1 live1]|] eqn:E1; [|discriminate]. cbn [rbind fst snd a_run a_step] in E.
    pose proof (IH _ _ _ _ E1) as R1. unfold leave in E. rewrite R1 in E. cbn [enter with_rewinders rewinders rbind] in E.
    rewrite (IH' _ _ _ _ E). reflexivity.
Qed.
Theorem C26_scope : forall body a live a' live', balanced body ->
  a_run (AEnter :: body ++ [ALeave]) a live = Ok (a', live') -> position a' = position a /\ rewinders a' = rewinders a.
Proof.
  intros body a live a' live' B E. cbn [a_run a_step rbind] in E. rewrite a_run_app in E.
  destruct (a_run body (enter a) (client AEnter a live)) as [[a1 live1]|] eqn:E1; [|discriminate]. cbn [rbind fst snd a_run a_step] in E.
  pose proof (balanced_rewinders body B _ _ _ _ E1) as R1. unfold leave in E. rewrite R1 in E. cbn [enter with_rewinders rewinders rbind] in E.
  injection E as <- <-. split; reflexivity.
Qed.
Print Assumptions C26_scope.

(** Blocks of the system are given back, as long as none starts just after the buffer. *)
Fixpoint not_adjacent (base size : N) (l : list aop) : Prop :=
  match l with
  | [] => True
  | AAlloc _ s :: l' => s <> base + size /\ not_adjacent base size l'
  | _ :: l' => not_adjacent base size l'
  end.
Definition held (a : arena) (live : list block) : Prop :=
  forall x, In x (system a) -> fst x <> a_base a + a_size a /\ exists d, In {| b_adr := fst x; b_len := snd x; b_depth := d |} live.
Lemma remove_keep : forall p n l b, In b l -> (b_adr b <> p \/ b_len b <> n) -> In b (remove_block p n l).
Proof.
  intros p n l b. induction l as [|x l IH]; intros [] H2; cbn [remove_block].
  - subst x. destruct (N.eqb p (b_adr b) && N.eqb n (b_len b)) eqn:E; [|now left].
    apply andb_true_iff in E. destruct E as [E1 E2]. apply N.eqb_eq in E1, E2. subst. tauto.
  - destruct (_ && _); auto. now right; auto.
Qed.
Lemma held_step : forall o a live a', a_inv a live -> a_legal o a live -> held a live ->
  (match o with AAlloc _ s => s <> a_base a + a_size a | _ => True end) -> a_step o a = Ok a' -> held a' (client o a live).
Proof.
  intros o a live a' I Lg H Hs E. destruct o as [n s|p n| |]; cbn [a_step client] in *.
  - injection E as <-. unfold allocate. cbv zeta. destruct (_ <=? _); cbn [fst snd with_position with_system]; intros x Hx; cbn [system a_base a_size] in *.
    + destruct (H x Hx) as [A (d & B)]. split; auto. exists d. now right.
    + destruct Hx as [<-|Hx].
      * cbn [fst snd]. split; auto. eexists. now left.
      * destruct (H x Hx) as [A (d & B)]. split; auto. exists d. now right.
  - destruct Lg as (d & Hd). unfold deallocate in E. destruct (pointer_in_buffer p a) eqn:Ep.
    + injection E as <-.
      assert (G : forall x, In x (system a) -> fst x <> a_base a + a_size a /\ exists d, In {| b_adr := fst x; b_len := snd x; b_depth := d |} (remove_block p n live)).
      { intros x Hx. destruct (H x Hx) as [A (e & B)]. split; auto. exists e. apply remove_keep; auto. left. cbn [b_adr].
        unfold pointer_in_buffer in Ep. apply andb_true_iff in Ep. rewrite !N.leb_le in Ep. destruct x as [q k].
        destruct (ai_sys _ _ I q k Hx) as [C _]. cbn [fst] in *. lia. }
      destruct (_ =? _); exact G.
    + destruct (ai_live _ _ I _ Hd) as [[[A1 A2] _]|[A _]]; cbn [b_adr b_len] in *.
      { exfalso. unfold pointer_in_buffer in Ep. apply andb_false_iff in Ep. rewrite !N.leb_gt in Ep. lia. }
      destruct (sys_delete_ok p n _ A (ai_nodup _ _ I)) as (l' & El & Il & _). rewrite El in E. cbn [rbind] in E. injection E as <-.
      intros x Hx. cbn [with_system system a_base a_size] in *. apply Il in Hx. destruct Hx as [Hx Hf].
      destruct (H x Hx) as [B (e & C)]. split; auto. exists e. apply remove_keep; auto.
  - injection E as <-. exact H.
  - unfold leave in E. destruct (rewinders a); [discriminate|]. injection E as <-. exact H.
Qed.
Theorem C53_system_partial : forall l base size, a_history l (make_arena base size) [] -> not_adjacent base size l ->
  exists a live, a_run l (make_arena base size) [] = Ok (a, live) /\
  (forall p n, In (p, n) (system a) -> exists d, In {| b_adr := p; b_len := n; b_depth := d |} live).
Proof.
  intros l base size H NA.
  assert (G : forall l a live, a_inv a live -> held a live -> a_history l a live -> not_adjacent (a_base a) (a_size a) l ->
    exists a' live', a_run l a live = Ok (a', live') /\ held a' live').
  { clear. induction l as [|o l IH]; intros a live I Hh H NA; cbn [a_run a_history] in *; [eauto|].
    destruct H as [H1 H2]. destruct (a_step_ok o a live I H1) as (a1 & E1 & I1 & B1 & S1). rewrite E1. cbn [rbind].
    apply IH; auto.
    - eapply held_step; eauto. destruct o; auto. cbn [not_adjacent] in NA. tauto.
    - rewrite B1, S1. destruct o; cbn [not_adjacent] in NA; tauto. }
  destruct (G l (make_arena base size) [] (a_inv_init base size)) as (a & live & E & Hh); auto.
  - intros x [].
  - exists a, live. split; auto. intros p n Hx. apply (Hh _ Hx).
Qed.
Print Assumptions C53_system_partial.
(** Otherwise pointer_in_buffer (164-169), whose upper bound is inclusive, takes it for a block of the buffer: it is lost. *)
Theorem C53_system_refuted : exists l base size, a_history l (make_arena base size) [] /\
  exists a, a_run l (make_arena base size) [] = Ok (a, []) /\ system a <> [].
Proof.
  exists [AAlloc 100 164; ADealloc 164 100], 100, 64. split.
  - cbn [a_history a_legal]. split.
    + split; [unfold disjoint; cbn; lia|]. split; [right; cbn; lia|]. constructor.
    + intros a' E. cbn [a_step] in E. injection E as <-. split; [|intros; exact I]. exists 0%nat. vm_compute. now left.
  - eexists. split; [vm_compute; reflexivity|]. discriminate.
Qed.
Print Assumptions C53_system_refuted.

(** A history with nested scopes, deallocations out of order and across scopes, and a request that does not fit. *)
Definition ex_arena : list aop :=
  [AAlloc 16 0; AEnter; AAlloc 8 0; AAlloc 24 0; ADealloc 116 8; AEnter; AAlloc 40 900; ADealloc 124 24; AAlloc 8 0; ADealloc 900 40;
   ADealloc 124 8; ALeave; ALeave; AAlloc 32 0].
Example C26_example : a_history ex_arena (make_arena 100 64) [] /\ balanced ex_arena /\ not_adjacent 100 64 ex_arena /\
  match a_run ex_arena (make_arena 100 64) [] with
  | Ok (a, live) => map b_adr live = [116; 100] /\ position a = 148
  | Err _ => False
  end.
Proof.
  split; [|split; [|split]].
  - unfold ex_arena. cbn [a_history].
    repeat (split; [cbn; unfold disjoint; repeat first [split | lia | discriminate | constructor | (eexists; vm_compute; tauto)]
                   | let a' := fresh in let E := fresh in intros a' E; vm_compute in E; injection E as <-]); exact I.
  - unfold ex_arena. repeat constructor.
    apply (bal_scope [AAlloc 8 0; AAlloc 24 0; ADealloc 116 8; AEnter; AAlloc 40 900; ADealloc 124 24; AAlloc 8 0; ADealloc 900 40; ADealloc 124 8; ALeave] [AAlloc 32 0]).
    + repeat constructor. apply (bal_scope [AAlloc 40 900; ADealloc 124 24; AAlloc 8 0; ADealloc 900 40; ADealloc 124 8] []); repeat constructor.
    + repeat constructor.
  - cbn. repeat split; discriminate.
  - vm_compute. split; reflexivity.
Qed.

(** ** C52: alignment *)

(** Blocks of the buffer are aligned when all requests are multiples of the alignment. *)
Definition request_ok (k : N) (o : aop) : Prop := match o with AAlloc n _ => (k | n) | _ => True end.
Theorem C52_aligned_partial : forall k l base size, k <> 0 -> (k | base) -> Forall (request_ok k) l ->
  a_history l (make_arena base size) [] ->
  exists a live, a_run l (make_arena base size) [] = Ok (a, live) /\
  forall b, In b live -> b_adr b + b_len b <= base + size -> base <= b_adr b -> (k | b_adr b).
Proof.
  intros k l base size Hk Hb Hr H.
  assert (G : forall l a live, a_inv a live -> Forall (request_ok k) l -> a_history l a live -> (k | position a) ->
    Forall (fun p => (k | p)) (rewinders a) -> (forall b, In b live -> in_buffer a b -> (k | b_adr b)) ->
    exists a' live', a_run l a live = Ok (a', live') /\ a_base a' = a_base a /\ a_size a' = a_size a /\
      (forall b, In b live' -> in_buffer a' b -> (k | b_adr b))).
  { clear - Hk. induction l as [|o l IH]; intros a live I Hr H Hp Hw Hl; cbn [a_run a_history] in *; [eauto 6|].
    destruct H as [H1 H2]. destruct (a_step_ok o a live I H1) as (a1 & E1 & I1 & B1 & S1). rewrite E1. cbn [rbind].
    inversion Hr as [|? ? R1 R2]; subst.
    destruct (IH a1 (client o a live) I1 R2 (H2 a1 E1)) as (a2 & live2 & E2 & B2 & S2 & L2).
    - destruct o as [n s|p n| |]; cbn [a_step request_ok] in *.
      + injection E1 as <-. unfold allocate. cbv zeta. destruct (_ <=? _); cbn [snd with_position with_system position]; auto.
        now apply N.divide_add_r.
      + unfold deallocate in E1. destruct H1 as (d & Hd). destruct (pointer_in_buffer p a) eqn:Ep.
        * injection E1 as <-. destruct (N.eqb (p + n) (position a)) eqn:En; auto. cbn [with_position position].
          destruct (N.eq_dec n 0) as [->|Hn].
          -- apply N.eqb_eq in En. rewrite N.add_0_r in En. now subst p.
          -- destruct (ai_live _ _ I _ Hd) as [[A _]|[A _]].
             ++ apply (Hl _ Hd A).
             ++ cbn [b_adr b_len] in A. destruct (ai_sys _ _ I _ _ A) as [C D]. pose proof (ai_pos _ _ I). apply N.eqb_eq in En.
                unfold pointer_in_buffer in Ep. apply andb_true_iff in Ep. rewrite !N.leb_le in Ep. unfold disjoint in D. lia.
        * destruct (sys_delete p (system a)); [|discriminate]. cbn [rbind] in E1. injection E1 as <-. auto.
      + injection E1 as <-. auto.
      + unfold leave in E1. destruct (rewinders a) as [|q r]; [discriminate|]. injection E1 as <-. inversion Hw; auto.
    - destruct o as [n s|p n| |]; cbn [a_step] in *.
      + rewrite (step_rewinders (AAlloc n s) a a1); auto; exact Logic.I.
      + rewrite (step_rewinders (ADealloc p n) a a1); auto; exact Logic.I.
      + injection E1 as <-. cbn [enter with_rewinders rewinders]. constructor; auto.
      + unfold leave in E1. destruct (rewinders a) as [|q r]; [discriminate|]. injection E1 as <-. inversion Hw; auto.
    - intros b Hbl Hin. unfold in_buffer in Hin. rewrite B1, S1 in Hin. destruct o as [n s|p n| |]; cbn [client] in Hbl; auto.
      + destruct Hbl as [<-|Hbl]; auto. cbn [b_adr b_len] in *. unfold allocate in *. cbv zeta in *.
        destruct (_ <=? _) eqn:E; cbn [fst] in *; auto. apply N.leb_gt in E. cbn [a_legal] in H1. destruct H1 as (C1 & C2 & _).
        unfold disjoint in C1. lia.
      + apply Hl; auto. eapply remove_in; eauto.
    - exists a2, live2. split; auto. split; [congruence|]. split; [congruence|auto]. }
  destruct (G l (make_arena base size) [] (a_inv_init base size) Hr H) as (a & live & E & B & S & L); auto.
  - cbn. constructor.
  - intros b [].
  - exists a, live. split; auto. intros b Hbl H1 H2. apply L; auto. unfold in_buffer. rewrite B, S. auto.
Qed.
Print Assumptions C52_aligned_partial.
(** allocate does not align: two types of different alignments in the same arena. *)
Theorem C52_aligned_refuted : exists l base size, (8 | base) /\ a_history l (make_arena base size) [] /\
  exists a b live, a_run l (make_arena base size) [] = Ok (a, b :: live) /\ b_len b = 8 /\ ~ (8 | b_adr b).
Proof.
  exists [AAlloc 2 0; AAlloc 8 0], 64, 64. split; [exists 8; reflexivity|]. split.
  - cbn [a_history].
    repeat (split; [cbn; unfold disjoint; repeat first [split | lia | discriminate | constructor | (eexists; vm_compute; tauto)]
                   | let a' := fresh in let E := fresh in intros a' E; vm_compute in E; injection E as <-]); exact I.
  - eexists _, _, _. split; [vm_compute; reflexivity|]. split; [reflexivity|]. cbn [b_adr]. intros [x Hx]. lia.
Qed.
Print Assumptions C52_aligned_refuted.
Example C52_example : (8 | 64) /\ Forall (request_ok 8) [AAlloc 16 0; AEnter; AAlloc 8 0; ADealloc 80 8; ALeave; AAlloc 24 0].
Proof. split; [exists 8; reflexivity|]. repeat constructor; cbn; [exists 2|exists 1|exists 3]; reflexivity. Qed.
