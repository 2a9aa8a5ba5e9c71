(** * sdd/mem/linear_alloc.hh: the memory arena of operations

    Addresses are numbers.  The arena owns the bytes [base, base + size).  What ::operator new returns is an argument of
    the operation. *)

From Coq Require Import List Bool NArith Arith Lia Permutation.
From Verif Require Import Base HashTable.
Import ListNotations.
Local Open Scope N_scope.

(** size_, buffer_, position_ (33-39), the positions kept by the active rewinders (200, innermost first), and the blocks
    given by ::operator new. *)
Record arena : Type := {
  a_base : N; a_size : N; position : N;
  rewinders : list N;
  system : list (N * N)
}.
(** Constructor, 52-61. *)
Definition make_arena (base size : N) : arena :=
  {| a_base := base; a_size := size; position := base; rewinders := []; system := [] |}.
Definition with_position (p : N) (a : arena) : arena :=
  {| a_base := a_base a; a_size := a_size a; position := p; rewinders := rewinders a; system := system a |}.
Definition with_system (l : list (N * N)) (a : arena) : arena :=
  {| a_base := a_base a; a_size := a_size a; position := position a; rewinders := rewinders a; system := l |}.
Definition with_rewinders (l : list N) (a : arena) : arena :=
  {| a_base := a_base a; a_size := a_size a; position := position a; rewinders := l; system := system a |}.

(** pointer_in_buffer, 164-169. *)
Definition pointer_in_buffer (p : N) (a : arena) : bool := (a_base a <=? p) && (p <=? a_base a + a_size a).
(** allocate, 74-97; [s] is the result of ::operator new.  diff is a difference of pointers converted to size_t. *)
Definition allocate (n s : N) (a : arena) : N * arena :=
  let diff := a_base a + a_size a - position a in
  if n <=? diff then (position a, with_position (position a + n) a)
  else (s, with_system ((s, n) :: system a) a).
(** ::operator delete. *)
Fixpoint sys_delete (p : N) (l : list (N * N)) : res herr (list (N * N)) :=
  match l with
  | [] => Err HUB
  | (q, n) :: l' => if N.eqb p q then Ok l' else rbind (sys_delete p l') (fun r => Ok ((q, n) :: r))
  end.
(** deallocate, 99-122. *)
Definition deallocate (p n : N) (a : arena) : res herr arena :=
  if pointer_in_buffer p a then
    Ok (if N.eqb (p + n) (position a) then with_position p a else a)
  else rbind (sys_delete p (system a)) (fun l => Ok (with_system l a)).
(** rewinder: constructor 197-205, destructor 210-217 (rewind, 124-130). *)
Definition enter (a : arena) : arena := with_rewinders (position a :: rewinders a) a.
Definition leave (a : arena) : res herr arena :=
  match rewinders a with
  | [] => Err HUB
  | p :: l => Ok (with_rewinders l (with_position p a))
  end.

(** ** What a client does *)

Inductive aop : Type :=
| AAlloc (n s : N)                     (* allocate n bytes; s: what ::operator new would return *)
| ADealloc (p n : N)
| AEnter
| ALeave.
(** A block held by the client: address, size, and number of active rewinders when it was allocated. *)
Record block : Type := { b_adr : N; b_len : N; b_depth : nat }.
Definition a_step (o : aop) (a : arena) : res herr arena :=
  match o with
  | AAlloc n s => Ok (snd (allocate n s a))
  | ADealloc p n => deallocate p n a
  | AEnter => Ok (enter a)
  | ALeave => leave a
  end.
Fixpoint remove_block (p n : N) (l : list block) : list block :=
  match l with
  | [] => []
  | b :: l' => if N.eqb p (b_adr b) && N.eqb n (b_len b) then l' else b :: remove_block p n l'
  end.
(** The blocks held after an operation. *)
Definition client (o : aop) (a : arena) (live : list block) : list block :=
  match o with
  | AAlloc n s => {| b_adr := fst (allocate n s a); b_len := n; b_depth := length (rewinders a) |} :: live
  | ADealloc p n => remove_block p n live
  | _ => live
  end.
(** Byte ranges. *)
Definition disjoint (p n q k : N) : Prop := n = 0 \/ k = 0 \/ p + n <= q \/ q + k <= p.
(** Correct uses: ::operator new returns bytes outside of the buffer and of its other blocks; only blocks held are
    deallocated; the blocks allocated in the scope of a rewinder are deallocated before its end. *)
Definition a_legal (o : aop) (a : arena) (live : list block) : Prop :=
  match o with
  | AAlloc n s => disjoint s n (a_base a) (a_size a) /\ (s < a_base a \/ a_base a + a_size a <= s) /\
                  Forall (fun b => disjoint s n (fst b) (snd b) /\ s <> fst b) (system a)
  | ADealloc p n => exists d, In {| b_adr := p; b_len := n; b_depth := d |} live
  | AEnter => True
  | ALeave => rewinders a <> [] /\ Forall (fun b => (b_depth b < length (rewinders a))%nat) live
  end.
Fixpoint a_history (l : list aop) (a : arena) (live : list block) : Prop :=
  match l with
  | [] => True
  | o :: l' => a_legal o a live /\ forall a', a_step o a = Ok a' -> a_history l' a' (client o a live)
  end.
Fixpoint a_run (l : list aop) (a : arena) (live : list block) : res herr (arena * list block) :=
  match l with
  | [] => Ok (a, live)
  | o :: l' => rbind (a_step o a) (fun a' => a_run l' a' (client o a live))
  end.

(** ** Invariant *)

Definition in_buffer (a : arena) (b : block) : Prop := a_base a <= b_adr b /\ b_adr b + b_len b <= a_base a + a_size a.
Definition in_system (a : arena) (b : block) : Prop := In (b_adr b, b_len b) (system a) /\ b_len b <> 0.
(** Disjointness from the blocks after. *)
Fixpoint separated (l : list block) : Prop :=
  match l with
  | [] => True
  | b :: l' => Forall (fun c => disjoint (b_adr b) (b_len b) (b_adr c) (b_len c)) l' /\ separated l'
  end.
Record a_inv (a : arena) (live : list block) : Prop := {
  ai_pos : a_base a <= position a <= a_base a + a_size a;
  ai_rew : Forall (fun p => a_base a <= p <= a_base a + a_size a) (rewinders a);
  ai_live : forall b, In b live -> (in_buffer a b /\ (b_len b <> 0 -> b_adr b + b_len b <= position a)) \/ in_system a b;
  ai_sep : separated live;
  ai_depth : forall b, In b live -> (b_depth b <= length (rewinders a))%nat;
  ai_scope : forall i p b, nth_error (rewinders a) i = Some p -> In b live -> in_buffer a b -> b_len b <> 0 ->
             (b_depth b + i < length (rewinders a))%nat -> b_adr b + b_len b <= p;
  ai_sys : forall q n, In (q, n) (system a) -> (q < a_base a \/ a_base a + a_size a <= q) /\ disjoint q n (a_base a) (a_size a);
  ai_nodup : NoDup (map fst (system a))
}.

Lemma separated_in : forall l b c, separated l -> In b l -> In c l -> b = c \/ disjoint (b_adr b) (b_len b) (b_adr c) (b_len c).
Proof.
  induction l as [|x l IH]; intros b c S Hb Hc; [destruct Hb|]. destruct S as [S1 S2]. rewrite Forall_forall in S1.
  assert (Sym : forall p n q k, disjoint p n q k -> disjoint q k p n) by (unfold disjoint; tauto).
  destruct Hb as [<-|Hb], Hc as [<-|Hc]; auto.
Qed.
Lemma remove_in : forall p n l b, In b (remove_block p n l) -> In b l.
Proof.
  intros p n l b. induction l as [|x l IH]; cbn [remove_block]; auto. destruct (_ && _); simpl; auto. intros [H|H]; auto.
Qed.
Lemma remove_sep : forall p n l, separated l -> separated (remove_block p n l).
Proof.
  intros p n l. induction l as [|x l IH]; cbn [remove_block]; auto. intros [S1 S2]. destruct (_ && _); auto. split; auto.
  rewrite Forall_forall in *. intros c Hc. apply S1. eapply remove_in; eauto.
Qed.
(** What remains is disjoint from what was removed. *)
Lemma remove_disjoint : forall p n l d, separated l -> In {| b_adr := p; b_len := n; b_depth := d |} l ->
  forall b, In b (remove_block p n l) -> disjoint p n (b_adr b) (b_len b).
Proof.
  intros p n l d. induction l as [|x l IH]; intros S H b Hb; cbn [remove_block] in Hb; [destruct Hb|].
  destruct S as [S1 S2]. rewrite Forall_forall in S1. destruct (N.eqb p (b_adr x) && N.eqb n (b_len x)) eqn:E.
  - apply andb_true_iff in E. destruct E as [E1 E2]. apply N.eqb_eq in E1, E2. subst p n. auto.
  - destruct H as [H|H].
    + subst x. cbn [b_adr b_len] in E. rewrite !N.eqb_refl in E. discriminate.
    + destruct Hb as [<-|Hb]; [|now apply IH]. specialize (S1 _ H). cbn [b_adr b_len] in S1. unfold disjoint in *. tauto.
Qed.
Lemma sys_delete_ok : forall p n l, In (p, n) l -> NoDup (map fst l) ->
  exists l', sys_delete p l = Ok l' /\ (forall x, In x l' <-> In x l /\ fst x <> p) /\ NoDup (map fst l').
Proof.
  intros p n l. induction l as [|[q k] l IH]; intros H ND; cbn [sys_delete] in *; [destruct H|].
  cbn [map fst] in ND. inversion ND as [|? ? N1 N2]; subst. destruct (N.eqb p q) eqn:E.
  - apply N.eqb_eq in E. subst q. exists l. split; auto. split; auto. intros [x y]. cbn [fst]. split.
    + intros Hx. split; [now right|]. intros ->. apply N1. apply in_map_iff. exists (p, y). auto.
    + intros [[Hx|Hx] Hy]; auto. injection Hx as -> ->. congruence.
  - apply N.eqb_neq in E. destruct H as [H|H]; [injection H as -> ->; congruence|].
    destruct (IH H N2) as (l' & E' & I' & N'). rewrite E'. cbn [rbind]. exists ((q, k) :: l'). split; auto. split.
    + intros [x y]. cbn [fst In]. rewrite I'. cbn [fst]. split.
      * intros [Hx|[Hx Hy]]; [injection Hx as -> ->; auto|auto].
      * intros [[Hx|Hx] Hy]; auto.
    + cbn [map fst]. constructor; auto. intros Hq. apply in_map_iff in Hq. destruct Hq as ([x y] & Ex & Hx). cbn [fst] in Ex. subst x.
      apply I' in Hx. apply N1. apply in_map_iff. exists (q, y). tauto.
Qed.

(** *** One step *)

Theorem a_step_ok : forall o a live, a_inv a live -> a_legal o a live ->
  exists a', a_step o a = Ok a' /\ a_inv a' (client o a live) /\ a_base a' = a_base a /\ a_size a' = a_size a.
Proof.
  intros o a live I Lg. destruct I as [Pos Rew Lv Sep Dep Sc Sy ND]. destruct o as [n s|p n| |]; cbn [a_step a_legal client] in *.
  - eexists. split; [reflexivity|]. unfold allocate. cbv zeta. destruct (n <=? a_base a + a_size a - position a) eqn:E.
    + apply N.leb_le in E. cbn [fst snd]. split; [|split; reflexivity]. constructor; cbn [with_position a_base a_size position rewinders system]; auto.
      * lia.
      * intros b [<-|Hb].
        -- left. unfold in_buffer, with_position. cbn [b_adr b_len a_base a_size position]. split; lia.
        -- destruct (Lv b Hb) as [[A B]|A]; [left|right; exact A]. split; [exact A|]. intros Hn. specialize (B Hn). lia.
      * split; auto. apply Forall_forall. intros c Hc. cbn [b_adr b_len]. unfold disjoint.
        destruct (Lv c Hc) as [[A B]|[A B]].
        -- destruct (N.eq_dec (b_len c) 0); auto.
        -- destruct (Sy _ _ A) as [C D]. unfold disjoint in D. lia.
      * intros b [<-|Hb]; auto.
      * intros i q b Hi [<-|Hb] Hin Hn Hd; [|apply (Sc i q b); auto]. cbn [b_depth] in Hd. lia.
    + apply N.leb_gt in E. destruct Lg as (L1 & L2 & L3). cbn [fst snd].
      assert (Hn0 : n <> 0) by lia. rewrite Forall_forall in L3.
      split; [|split; reflexivity]. constructor; cbn [with_system a_base a_size position rewinders system]; auto.
      * intros b [<-|Hb].
        -- right. split; cbn [b_adr b_len system]; auto. now left.
        -- destruct (Lv b Hb) as [A|[A B]]; [left; exact A|right]. split; auto. cbn [system]. now right.
      * split; auto. apply Forall_forall. intros c Hc. cbn [b_adr b_len]. unfold disjoint in *.
        destruct (Lv c Hc) as [[A B]|[A B]].
        -- unfold in_buffer in A. lia.
        -- destruct (L3 _ A) as [C D]. cbn [fst snd] in C. lia.
      * intros b [<-|Hb]; auto.
      * intros i q b Hi [<-|Hb] Hin Hn Hd; [|apply (Sc i q b); auto]. cbn [b_depth] in Hd. lia.
      * intros q k [H|H]; [injection H as <- <-; auto|auto].
      * cbn [map fst]. constructor; auto. intros H. apply in_map_iff in H. destruct H as (x & Ex & Hx). destruct (L3 x Hx). congruence.
  - destruct Lg as (d & Hd). pose proof (remove_disjoint p n live d Sep Hd) as RD. unfold deallocate.
    set (b0 := {| b_adr := p; b_len := n; b_depth := d |}) in *.
    destruct (pointer_in_buffer p a) eqn:E.
    + eexists. split; [reflexivity|]. unfold pointer_in_buffer in E. apply andb_true_iff in E. destruct E as [E1 E2].
      apply N.leb_le in E1, E2. destruct (N.eqb (p + n) (position a)) eqn:Ep.
      * apply N.eqb_eq in Ep. split; [|split; reflexivity]. constructor; cbn [with_position a_base a_size position rewinders system]; auto.
        -- intros b Hb. pose proof (remove_in _ _ _ _ Hb) as Hb'. destruct (Lv b Hb') as [[A B]|A]; [left|right; exact A].
           split; [exact A|]. intros Hn. specialize (B Hn). specialize (RD b Hb). unfold disjoint, in_buffer in *. lia.
        -- now apply remove_sep.
        -- intros b Hb. apply Dep. eapply remove_in; eauto.
        -- intros i q b Hi Hb. apply (Sc i q b Hi). eapply remove_in; eauto.
      * split; [|split; reflexivity]. constructor; auto.
        -- intros b Hb. apply Lv. eapply remove_in; eauto.
        -- now apply remove_sep.
        -- intros b Hb. apply Dep. eapply remove_in; eauto.
        -- intros i q b Hi Hb. apply (Sc i q b Hi). eapply remove_in; eauto.
    + assert (Hs : In (p, n) (system a)).
      { destruct (Lv b0 Hd) as [[[A1 A2] B]|[A B]]; auto. cbn [b0 b_adr b_len] in *. exfalso. unfold pointer_in_buffer in E.
        apply andb_false_iff in E. rewrite !N.leb_gt in E. lia. }
      destruct (sys_delete_ok p n (system a) Hs ND) as (l' & El & Il & Nl). rewrite El. cbn [rbind]. eexists. split; [reflexivity|].
      split; [|split; reflexivity]. constructor; cbn [with_system a_base a_size position rewinders system]; auto.
      * intros b Hb. pose proof (remove_in _ _ _ _ Hb) as Hb'. destruct (Lv b Hb') as [A|[A B]]; [left; exact A|right].
        split; auto. cbn [system]. apply Il. split; auto. cbn [fst]. intros Eq.
        specialize (RD b Hb). assert (Hn : n = b_len b).
        { rewrite Eq in A. revert A. generalize (b_len b). intros m A. clear - A Hs ND. induction (system a) as [|x l IH]; [destruct A|]. cbn [map] in ND.
          inversion ND as [|? ? N1 N2]; subst. destruct A as [A|A], Hs as [H|H]; subst.
          - congruence.
          - exfalso. apply N1. apply in_map_iff. exists (p, n). auto.
          - exfalso. apply N1. apply in_map_iff. exists (p, m). auto.
          - auto. }
        unfold disjoint in RD. lia.
      * now apply remove_sep.
      * intros b Hb. apply Dep. eapply remove_in; eauto.
      * intros i q b Hi Hb. apply (Sc i q b Hi). eapply remove_in; eauto.
      * intros q k Hq. apply Il in Hq. apply Sy. tauto.
  - eexists. split; [reflexivity|]. unfold enter. split; [|split; reflexivity].
    constructor; cbn [with_rewinders a_base a_size position rewinders system]; auto.
    + intros b Hb. specialize (Dep b Hb). cbn [length]. lia.
    + intros [|i] q b Hi Hb Hin Hn Hd; cbn [nth_error] in Hi.
      * injection Hi as <-. destruct (Lv b Hb) as [[A B]|[A B]]; auto.
        destruct (Sy _ _ A) as [C D]. unfold disjoint, in_buffer, with_rewinders in *. cbn [a_base a_size] in *. lia.
      * apply (Sc i q b); auto. cbn [length] in Hd. lia.
  - destruct Lg as [Hr Hl]. unfold leave. destruct (rewinders a) as [|p l] eqn:Er; [congruence|]. eexists. split; [reflexivity|].
    inversion Rew as [|? ? R1 R2]; subst. rewrite Forall_forall in Hl. cbn [length] in *.
    split; [|split; reflexivity]. constructor; cbn [with_rewinders with_position a_base a_size position rewinders system]; auto.
    + intros b Hb. destruct (Lv b Hb) as [[A B]|A]; [left|right; exact A]. split; [exact A|]. intros Hn.
      apply (Sc 0%nat p b); auto. specialize (Hl b Hb). lia.
    + intros b Hb. specialize (Hl b Hb). lia.
    + intros i q b Hi Hb Hin Hn Hd. apply (Sc (S i) q b); auto. lia.
Qed.

Lemma a_inv_init : forall base size, a_inv (make_arena base size) [].
Proof.
  intros base size. constructor; cbn [make_arena a_base a_size position rewinders system]; auto; try (intros; contradiction); try lia;
  try constructor.
Qed.
Theorem a_run_ok : forall l a live, a_inv a live -> a_history l a live ->
  exists a' live', a_run l a live = Ok (a', live') /\ a_inv a' live' /\ a_base a' = a_base a /\ a_size a' = a_size a.
Proof.
  induction l as [|o l IH]; intros a live I H; cbn [a_run a_history] in *.
  - eauto 6.
  - destruct H as [H1 H2]. destruct (a_step_ok o a live I H1) as (a1 & E1 & I1 & B1 & S1). rewrite E1. cbn [rbind].
    destruct (IH a1 _ I1 (H2 a1 E1)) as (a2 & live2 & E2 & I2 & B2 & S2). exists a2, live2. split; auto. split; auto. split; congruence.
Qed.
