(** * Texts, and the decimal representation of integers

    Shared by the models of the textual outputs: what operator<< of the standard streams writes for integers is the
    decimal representation of the standard library of Coq. *)

From Coq Require Import List Bool Arith NArith ZArith Lia Ascii String Decimal DecimalString DecimalN DecimalFacts.
Import ListNotations.

(** The bytes of a stream. *)
Definition text := list ascii.
Definition lit (s : string) : text := list_ascii_of_string s.

(** What os << n writes for an unsigned, then for a signed integer that is not of a character type. *)
Definition decN (n : N) : text := lit (NilZero.string_of_uint (N.to_uint n)).
Definition dec (z : Z) : text := lit (NilZero.string_of_int (Z.to_int z)).

(** The value of a decimal digit. *)
Definition digit (c : ascii) : option N :=
  let n := N_of_ascii c in if (48 <=? n)%N && (n <=? 57)%N then Some (n - 48)%N else None.

(** The longest sequence of digits, and what follows. *)
Fixpoint digits (t : text) (acc : N) : N * text :=
  match t with
  | c :: r => match digit c with Some d => digits r (10 * acc + d)%N | None => (acc, t) end
  | [] => (acc, [])
  end.

(** The text does not begin with a digit. *)
Definition no_digit (t : text) : Prop := match t with c :: _ => digit c = None | [] => True end.

Lemma digits_acc : forall d p rest, no_digit rest ->
  digits (lit (NilEmpty.string_of_uint d) ++ rest) (N.pos p) = (N.pos (Pos.of_uint_acc d p), rest).
Proof.
  induction d as [|d IH|d IH|d IH|d IH|d IH|d IH|d IH|d IH|d IH|d IH]; intros p rest ND.
  1: { cbn. destruct rest as [|c r]; [reflexivity|]. cbn in *. now rewrite ND. }
  all: cbn [NilEmpty.string_of_uint lit list_ascii_of_string List.app digits];
       match goal with |- context [digit ?c] =>
         let v := eval vm_compute in (digit c) in change (digit c) with v end;
       cbv iota beta; cbn [Pos.of_uint_acc]; rewrite <- (IH _ _ ND); unfold lit; f_equal; lia.
Qed.


(** The digits of a sequence without leading zero. *)
Lemma digits_uint : forall d rest, no_digit rest -> unorm d = d ->
  exists c r v, lit (NilZero.string_of_uint d) = c :: r /\ digit c = Some v /\ (v = 0%N -> r = [])
    /\ digits (r ++ rest) v = (N.of_uint d, rest).
Proof.
  intros d rest ND NO.
  assert (Z0 : forall e u, nzhead e <> D0 u) by (induction e; cbn; intros; try discriminate; apply IHe).
  destruct d; cbn [NilZero.string_of_uint NilEmpty.string_of_uint lit list_ascii_of_string].
  - discriminate.
  - exists "0"%char, (lit (NilEmpty.string_of_uint d)), 0%N.
    unfold unorm in NO. cbn [nzhead] in NO.
    assert (d = Nil) as ->.
    { destruct (nzhead d) eqn:E; try discriminate; [|exfalso; eapply Z0; eauto]. now inversion NO. }
    repeat split. cbn. destruct rest as [|c r]; [reflexivity|]. cbn in *. now rewrite ND.
  - exists "1"%char, (lit (NilEmpty.string_of_uint d)), 1%N. repeat split; [discriminate|]. exact (digits_acc d _ rest ND).
  - exists "2"%char, (lit (NilEmpty.string_of_uint d)), 2%N. repeat split; [discriminate|]. exact (digits_acc d _ rest ND).
  - exists "3"%char, (lit (NilEmpty.string_of_uint d)), 3%N. repeat split; [discriminate|]. exact (digits_acc d _ rest ND).
  - exists "4"%char, (lit (NilEmpty.string_of_uint d)), 4%N. repeat split; [discriminate|]. exact (digits_acc d _ rest ND).
  - exists "5"%char, (lit (NilEmpty.string_of_uint d)), 5%N. repeat split; [discriminate|]. exact (digits_acc d _ rest ND).
  - exists "6"%char, (lit (NilEmpty.string_of_uint d)), 6%N. repeat split; [discriminate|]. exact (digits_acc d _ rest ND).
  - exists "7"%char, (lit (NilEmpty.string_of_uint d)), 7%N. repeat split; [discriminate|]. exact (digits_acc d _ rest ND).
  - exists "8"%char, (lit (NilEmpty.string_of_uint d)), 8%N. repeat split; [discriminate|]. exact (digits_acc d _ rest ND).
  - exists "9"%char, (lit (NilEmpty.string_of_uint d)), 9%N. repeat split; [discriminate|]. exact (digits_acc d _ rest ND).
Qed.

Lemma unorm_to_uint n : unorm (N.to_uint n) = N.to_uint n.
Proof. rewrite <- Unsigned.to_of, Unsigned.of_to. reflexivity. Qed.

(** Reading the decimal representation of [n] gives [n]: its first digit is not 0, except for 0 itself. *)
Lemma decN_digits : forall n rest, no_digit rest ->
  exists c r v, decN n = c :: r /\ digit c = Some v /\ (v = 0%N -> r = []) /\ digits (r ++ rest) v = (n, rest).
Proof.
  intros n rest ND. destruct (digits_uint (N.to_uint n) rest ND (unorm_to_uint n)) as (c & r & v & A & B & C & E).
  rewrite Unsigned.of_to in E. unfold decN. eauto 10.
Qed.

Lemma decN_prefix : forall n m s t, no_digit s -> no_digit t -> decN n ++ s = decN m ++ t -> n = m /\ s = t.
Proof.
  intros n m s t Hs Ht E.
  destruct (decN_digits n s Hs) as (c & r & v & A & B & _ & D1).
  destruct (decN_digits m t Ht) as (c' & r' & v' & A' & B' & _ & D2).
  rewrite A, A' in E. cbn in E. injection E as -> E. rewrite E in D1.
  assert (v = v') by congruence. subst. rewrite D2 in D1. inversion D1. auto.
Qed.

Lemma dec_sign : forall z, dec z = if (z <? 0)%Z then "-"%char :: decN (Z.abs_N z) else decN (Z.abs_N z).
Proof. intros [|p|p]; reflexivity. Qed.

Lemma decN_head : forall n, exists c r v, decN n = c :: r /\ digit c = Some v.
Proof. intros n. destruct (decN_digits n [] Logic.I) as (c & r & v & A & B & _). eauto. Qed.

Lemma dec_prefix : forall n m s t, no_digit s -> no_digit t -> dec n ++ s = dec m ++ t -> n = m /\ s = t.
Proof.
  intros n m s t Hs Ht E. rewrite !dec_sign in E.
  destruct (decN_head (Z.abs_N n)) as (c & r & v & A & B).
  destruct (decN_head (Z.abs_N m)) as (c' & r' & v' & A' & B').
  destruct (Z.ltb_spec n 0), (Z.ltb_spec m 0).
  - injection E as E. apply decN_prefix in E; auto. split; [lia|tauto].
  - rewrite A' in E. injection E as <- _. discriminate.
  - rewrite A in E. injection E as -> _. discriminate.
  - apply decN_prefix in E; auto. split; [lia|tauto].
Qed.
