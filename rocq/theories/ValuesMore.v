(** * More of sdd/values: display of flat_sets, iterator returned by insert *)

From Coq Require Import List Bool NArith Arith Lia.
From Verif Require Import Base SortedSets Values FlatSet Bitset.
Import ListNotations.

(** ** operator<< of flat_set of an integral type, sdd/values/flat_set.hh 430-470

    The text is modelled by the list of the intervals displayed, (a, a) being displayed "a" and (a, b)
    being displayed "a..b". The case of one element (437-440) gives the same text as the loop.
    Values are unbounded naturals: [*cit + 1] does not wrap below the greatest value of the type, and
    the greatest value has no next element. *)
Fixpoint display_loop (first cit : N) (l : list N) : list (N * N) :=
  match l with
  | [] => [(first, cit)]
  | x :: l' => if N.eqb (cit + 1) x then display_loop first x l'
               else (first, cit) :: display_loop x x l'
  end.
Definition display (l : list N) : list (N * N) :=
  match l with
  | [] => []
  | x :: l' => display_loop x x l'
  end.

(** The values a list of intervals denotes. *)
Definition in_interval (x : N) (i : N * N) : Prop := (fst i <= x <= snd i)%N.
Definition denoted (l : list (N * N)) (x : N) : Prop := exists i, In i l /\ in_interval x i.

Lemma display_loop_denoted : forall l first cit, (first <= cit)%N -> ssorted N.ltb (cit :: l) ->
  forall x, denoted (display_loop first cit l) x <-> ((first <= x <= cit)%N \/ In x l).
Proof.
  induction l as [|y l IH]; intros first cit Hle Hs x; cbn [display_loop].
  - unfold denoted, in_interval. split.
    + intros (i & [<-|[]] & H). auto.
    + intros [H|[]]. exists (first, cit). simpl. auto.
  - assert (Hlt : (cit < y)%N).
    { apply N.ltb_lt. inversion Hs; subst.
      match goal with H : Forall _ _ |- _ => inversion H; subst; assumption end. }
    assert (Hs' : ssorted N.ltb (y :: l)) by (inversion Hs; auto).
    destruct (N.eqb_spec (cit + 1) y) as [E|E].
    + rewrite IH by (auto; lia). simpl. split.
      * intros [H|H]; auto. destruct (N.eq_dec x y); [auto|]. left. lia.
      * intros [H|[H|H]]; auto; left; lia.
    + unfold denoted. split.
      * intros (i & [<-|Hi] & H); [left; exact H|].
        assert (D : denoted (display_loop y y l) x) by (exists i; auto).
        apply IH in D; [|lia|auto]. right. destruct D as [D|D]; [left; lia|now right].
      * intros [H|H].
        -- exists (first, cit). simpl. auto.
        -- assert (D : denoted (display_loop y y l) x).
           { apply IH; [lia|auto|]. destruct H as [<-|H]; [left; lia|auto]. }
           destruct D as (i & Hi & D). exists i. simpl. auto.
Qed.

Lemma display_denoted : forall l, ssorted N.ltb l -> forall x, denoted (display l) x <-> In x l.
Proof.
  intros [|y l] Hs x; cbn [display].
  - split; [intros (i & [] & _)|intros []].
  - rewrite display_loop_denoted by (auto; lia). simpl. split.
    + intros [H|H]; [left; lia|auto].
    + intros [<-|H]; [left; lia|auto].
Qed.

(** Intervals are maximal: separated by at least one missing value, increasing, and not empty. *)
Fixpoint separated (l : list (N * N)) : Prop :=
  match l with
  | [] => True
  | (a, b) :: l' => (a <= b)%N /\ (match l' with [] => True | (c, _) :: _ => (b + 1 < c)%N end) /\
      separated l'
  end.
Lemma display_loop_head : forall l first cit, exists b r, display_loop first cit l = (first, b) :: r.
Proof.
  induction l as [|y l IH]; intros first cit; cbn [display_loop]; eauto.
  destruct (N.eqb (cit + 1) y); eauto.
Qed.
Lemma display_loop_separated : forall l first cit, (first <= cit)%N -> ssorted N.ltb (cit :: l) ->
  separated (display_loop first cit l).
Proof.
  induction l as [|y l IH]; intros first cit Hle Hs; cbn [display_loop].
  - simpl. auto.
  - assert (Hlt : (cit < y)%N).
    { apply N.ltb_lt. inversion Hs; subst.
      match goal with H : Forall _ _ |- _ => inversion H; subst; assumption end. }
    assert (Hs' : ssorted N.ltb (y :: l)) by (inversion Hs; auto).
    destruct (N.eqb_spec (cit + 1) y) as [E|E].
    + apply IH; auto. lia.
    + cbn [separated]. split; auto. split; [|apply IH; auto; lia].
      destruct (display_loop_head l y y) as (b & r & ->). lia.
Qed.
Lemma display_separated : forall l, ssorted N.ltb l -> separated (display l).
Proof. intros [|y l] Hs; simpl; auto. apply display_loop_separated; auto. lia. Qed.

(** ** The iterator returned by flat_set::insert, sdd/values/flat_set.hh 92-103

    Buffers of vectors are numbered; [bufs] is the list of the live ones. An iterator designates a
    buffer. [fresh] is a number not in use. *)
Record insert_outcome : Type := {
  io_iterator : nat;      (* buffer the returned iterator points to *)
  io_live : list nat      (* buffers still allocated when insert returns *)
}.
(** [present]: the value is already in the set. [grows]: the vector of the copy is reallocated by the
    insertion. [shrinks]: shrink_to_fit reallocates. [hit]: the unique table already has the new set, in
    which case the argument is destroyed (sdd/mem/unique_table.hh 103-119).
    94: copy of the data (buffer [fresh]).  95: insertion.  96-100.  101 and end of scope: the local
    vector is destroyed unless it was moved into the unique table. *)
Definition insert_buffers (bufs : list nat) (fresh : nat) (present grows shrinks hit : bool)
  : insert_outcome :=
  if present then {| io_iterator := fresh; io_live := bufs |}
  else
    let b1 := if grows then S fresh else fresh in       (* buffer after fs.insert *)
    let b2 := if shrinks then S (S fresh) else b1 in    (* buffer after fs.shrink_to_fit *)
    {| io_iterator := b1; io_live := if hit then bufs else b2 :: bufs |}.
Definition iterator_valid (o : insert_outcome) : Prop := In (io_iterator o) (io_live o).

Lemma insert_iterator_valid_iff : forall bufs fresh present grows shrinks hit,
  (forall b, In b bufs -> b < fresh) ->
  (iterator_valid (insert_buffers bufs fresh present grows shrinks hit) <->
   present = false /\ shrinks = false /\ hit = false).
Proof.
  intros bufs fresh present grows shrinks hit Hf. unfold iterator_valid, insert_buffers.
  destruct present; cbn [io_iterator io_live].
  - split; [intros H; apply Hf in H; lia|intros [H _]; discriminate].
  - destruct hit; cbn [io_iterator io_live].
    + split; [|intros (_ & _ & H); discriminate].
      intros H. apply Hf in H. destruct grows; lia.
    + destruct shrinks.
      * split; [|intros (_ & H & _); discriminate].
        intros [H|H]; [destruct grows; lia|apply Hf in H; destruct grows; lia].
      * split; auto. intros _. now left.
Qed.
