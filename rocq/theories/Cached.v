(** * Evaluation through a cache

    The recursion of sdd/mem/cache.hh operator() 211-261, over any store that offers a search and an
    insertion.  [peval n op] is the evaluation without cache. *)

From Coq Require Import List Bool NArith Arith Lia.
From Verif Require Import Base.
Import ListNotations.

(** Outcomes: an exception of the evaluation, a fault of the cache, recursion too deep. *)
Inductive cerr (E H : Type) : Type :=
| CThrow (e : E)
| CFault (h : H)
| CFuel.
Arguments CThrow {E H} e.
Arguments CFault {E H} h.
Arguments CFuel {E H}.

Section Eval.
  Context {Op R E : Type}.
  Variable efuel : E.
  Hypothesis efuel_dec : forall e : E, {e = efuel} + {e <> efuel}.
  Variable body : Op -> prog Op R E R.

  Fixpoint peval (n : nat) (op : Op) : res E R :=
    match n with
    | O => Err efuel
    | S n' => interp (peval n') (body op)
    end.

  Definition terminates (n : nat) (op : Op) : Prop := peval n op <> Err efuel.

  (** The operations called by a computation. *)
  Inductive calls (h : Op -> res E R) : prog Op R E R -> Op -> Prop :=
  | calls_here : forall op k, calls h (Call op k) op
  | calls_later : forall op k r op', h op = Ok r -> calls h (k r) op' -> calls h (Call op k) op'.

  Lemma interp_mono : forall (h h' : Op -> res E R), (forall op, h op <> Err efuel -> h' op = h op) ->
    forall p : prog Op R E R, interp h p <> Err efuel -> interp h' p = interp h p.
  Proof.
    intros h h' H p. induction p as [a|e|op k IH]; cbn [interp]; intros N; auto.
    destruct (h op) as [r|e] eqn:E1.
    - rewrite (H op) by congruence. rewrite E1. apply IH. auto.
    - rewrite (H op) by (intros X; apply N; congruence). now rewrite E1.
  Qed.
  Lemma peval_mono1 : forall n op, terminates n op -> peval (S n) op = peval n op.
  Proof.
    induction n as [|n IH]; intros op H; [now destruct H|].
    unfold terminates in *. change (peval (S (S n)) op) with (interp (peval (S n)) (body op)).
    change (peval (S n) op) with (interp (peval n) (body op)) in *. apply interp_mono; auto.
  Qed.
  Lemma peval_mono : forall n m op, n <= m -> terminates n op -> peval m op = peval n op.
  Proof.
    intros n m op H T. induction H as [|m H IH]; auto. rewrite <- IH. apply peval_mono1.
    unfold terminates. rewrite IH. exact T.
  Qed.
  Lemma terminates_mono : forall n m op, n <= m -> terminates n op -> terminates m op.
  Proof. intros n m op H T. unfold terminates. rewrite (peval_mono n m op H T). exact T. Qed.

  (** Running a computation with stateful answers. *)
  Context {H St : Type}.
  Fixpoint exec {A : Type} (h : Op -> St -> res (cerr E H) R * St) (p : prog Op R E A) (s : St)
      : res (cerr E H) A * St :=
    match p with
    | Ret a => (Ok a, s)
    | Throw e => (Err (CThrow e), s)
    | Call op k =>
        match h op s with
        | (Ok r, s') => exec h (k r) s'
        | (Err e, s') => (Err e, s')
        end
    end.

  Variable accept : Op -> bool.                              (* apply_filters, 25-58 *)
  Variable note_filtered : Op -> St -> St.                   (* ++stats_.filtered *)
  Variable find_op : Op -> St -> res H (option R * N * St).  (* 221-236 *)
  Variable store_op : Op -> R -> N -> St -> res H St.        (* 241-260 *)

  (** cache::operator(). *)
  Fixpoint lookup (fuel : nat) (op : Op) (s : St) : res (cerr E H) R * St :=
    match fuel with
    | O => (Err CFuel, s)
    | S n =>
        if accept op then
          match find_op op s with
          | Err h => (Err (CFault h), s)
          | Ok (Some r, _, s1) => (Ok r, s1)
          | Ok (None, b, s1) =>
              match exec (lookup n) (body op) s1 with
              | (Err e, s2) => (Err e, s2)
              | (Ok r, s2) =>
                  match store_op op r b s2 with
                  | Ok s3 => (Ok r, s3)
                  | Err h => (Err (CFault h), s2)
                  end
              end
          end
        else exec (lookup n) (body op) (note_filtered op s)
    end.

  (** ** Correctness for any store that satisfies these laws *)

  Variable same : Op -> Op -> Prop.                          (* equality of cached operations *)
  Hypothesis same_sym : forall a b, same a b -> same b a.
  Variable good : Op -> Prop.
  Hypothesis good_calls : forall n op op', good op -> calls (peval n) (body op) op' -> good op'.
  Hypothesis same_eval : forall a b, same a b -> good a -> good b -> forall n, peval n a = peval n b.

  Variable inv : St -> Prop.
  Variable has : St -> Op -> Prop.                           (* the operations stored *)
  Definition stored (s : St) (op : Op) : Prop := exists o, has s o /\ same o op.
  Hypothesis filtered_ok : forall op s, inv s -> inv (note_filtered op s) /\ (forall o, has (note_filtered op s) o <-> has s o).
  Variable cd : Op -> N.
  Hypothesis find_ok : forall op s, inv s -> good op -> accept op = true -> exists r s', find_op op s = Ok (r, cd op, s') /\
    inv s' /\ (forall o, has s' o <-> has s o) /\
    match r with
    | Some v => stored s op /\ exists n, peval n op = Ok v
    | None => ~ stored s op
    end.
  Hypothesis store_ok : forall op v n s, inv s -> good op -> accept op = true -> ~ stored s op -> peval n op = Ok v ->
    exists s', store_op op v (cd op) s = Ok s' /\ inv s' /\ (forall o, has s' o -> has s o \/ o = op).
  Hypothesis has_good : forall s o, inv s -> has s o -> good o.

  Definition lift {A : Type} (r : res E A) : res (cerr E H) A :=
    match r with
    | Ok a => Ok a
    | Err e => Err (CThrow e)
    end.

  (** Operations stored after and not before terminate within [n]. *)
  Definition grows (n : nat) (s s' : St) : Prop := forall o, has s' o -> has s o \/ terminates n o.

  Lemma grows_trans : forall n a b c, grows n a b -> grows n b c -> grows n a c.
  Proof. intros n a b c H1 H2 o Ho. destruct (H2 o Ho) as [Hb|]; auto. Qed.

  Definition lookup_correct (n : nat) : Prop := forall op s fuel, inv s -> good op -> terminates n op -> n <= fuel ->
    exists s', lookup fuel op s = (lift (peval n op), s') /\ inv s' /\ grows n s s'.

  Lemma exec_correct : forall n fuel, lookup_correct n -> n <= fuel ->
    forall p s, inv s -> (forall op, calls (peval n) p op -> good op) -> interp (peval n) p <> Err efuel ->
    exists s', exec (lookup fuel) p s = (lift (interp (peval n) p), s') /\ inv s' /\ grows n s s'.
  Proof.
    intros n fuel LC Hf p. induction p as [a|e|op k IH]; intros s I G T; cbn [exec interp] in *.
    - exists s. split; auto. split; auto. intros o; auto.
    - exists s. split; auto. split; auto. intros o; auto.
    - assert (Top : terminates n op).
      { unfold terminates. intros X. rewrite X in T. auto. }
      destruct (LC op s fuel I) as (s1 & E1 & I1 & G1); auto.
      { apply G. constructor. }
      rewrite E1. destruct (peval n op) as [r|e] eqn:Er; cbn [lift].
      + destruct (IH r s1 I1) as (s2 & E2 & I2 & G2); auto.
        { intros op' Hc. apply G. eapply calls_later; eauto. }
        exists s2. split; auto. split; auto. eapply grows_trans; eauto.
      + exists s1. auto.
  Qed.

  Lemma lookup_ok : forall n, lookup_correct n.
  Proof.
    induction n as [|n IH]; intros op s fuel I G T Hf; [now destruct T|].
    assert (D : terminates n op \/ peval n op = Err efuel).
    { unfold terminates. destruct (peval n op) as [r|e]; [left; discriminate|].
      destruct (efuel_dec e) as [->|N]; auto. left. congruence. }
    destruct D as [Tn|E0].
    { (* terminates earlier *)
      destruct (IH op s fuel I G Tn) as (s' & E1 & I1 & G1); [lia|].
      exists s'. rewrite peval_mono1 by auto. split; auto. split; auto.
      intros o Ho. destruct (G1 o Ho); auto. right. eapply terminates_mono; [|eauto]. lia. }
    destruct fuel as [|f]; [lia|]. cbn [lookup].
    assert (Tb : interp (peval n) (body op) <> Err efuel) by exact T.
    assert (Gb : forall op', calls (peval n) (body op) op' -> good op') by (intros op'; now apply good_calls).
    assert (Hnf : n <= f) by lia.
    assert (Gm : forall a b, grows n a b -> grows (S n) a b).
    { intros a b H1 o Ho. destruct (H1 o Ho); auto. right. eapply terminates_mono; [|eauto]. lia. }
    destruct (accept op) eqn:Ea.
    - destruct (find_ok op s I G Ea) as (r & s1 & E1 & I1 & H1 & Hr). rewrite E1. destruct r as [v|].
      + destruct Hr as [_ (m & Em)]. exists s1. split; [|split; auto].
        * assert (Tm : terminates m op).
          { unfold terminates. rewrite Em. discriminate. }
          assert (EE : peval (S n) op = Ok v).
          { rewrite <- (peval_mono (S n) (S n + m)) by (auto; lia).
            rewrite (peval_mono m (S n + m)) by (auto; lia). exact Em. }
          now rewrite EE.
        * intros o Ho. left. now apply H1.
      + destruct (exec_correct n f IH Hnf (body op) s1 I1 Gb Tb) as (s2 & E2 & I2 & G2). rewrite E2.
        change (interp (peval n) (body op)) with (peval (S n) op) in *.
        destruct (peval (S n) op) as [v|e] eqn:Ev; cbn [lift].
        * assert (Hns : ~ stored s2 op).
          { intros (o & Ho & Hs). destruct (G2 o Ho) as [Ho1|To].
            - apply Hr. exists o. split; auto. now apply H1.
            - assert (Go : good o) by (eapply has_good; eauto).
              assert (Eo : peval n o = peval n op) by (apply same_eval; auto).
              apply To. congruence. }
          destruct (store_ok op v (S n) s2 I2 G Ea Hns Ev) as (s3 & E3 & I3 & H3). rewrite E3.
          exists s3. split; auto. split; auto. intros o Ho. destruct (H3 o Ho) as [Ho2|Ho2].
          -- destruct (G2 o Ho2) as [Ho1|To]; [left; now apply H1|].
             right. eapply terminates_mono; [|eauto]. lia.
          -- right. subst o. unfold terminates. congruence.
        * exists s2. split; auto. split; auto. apply Gm. intros o Ho. destruct (G2 o Ho); auto. left. now apply H1.
    - destruct (filtered_ok op s I) as [I1 H1].
      destruct (exec_correct n f IH Hnf (body op) _ I1 Gb Tb) as (s2 & E2 & I2 & G2). rewrite E2.
      exists s2. split; auto. split; auto. apply Gm. intros o Ho. destruct (G2 o Ho); auto. left. now apply H1.
  Qed.
End Eval.
