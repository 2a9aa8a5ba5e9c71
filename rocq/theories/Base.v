(** * Outcomes, and the free monad in which the algorithms of libsdd are written

    Nothing in this file models a particular function of the library.

    - [res]: outcome of a computation, a value or an error.
    - [prog]: a computation whose only effect is [Call op], i.e. asking a cached operation
      (a lookup in one of the caches of sdd/dd/context.hh or sdd/hom/context.hh).
    - [interp h p]: run [p], answering every [Call op] with [h op].  *)

From Coq Require Import List Bool.
Import ListNotations.

(** Outcome of a C++ evaluation: a value or an error (exception, undefined behaviour...). *)
Inductive res (E A : Type) : Type :=
| Ok (a : A)
| Err (e : E).
Arguments Ok {E A} a.
Arguments Err {E A} e.

Definition rbind {E A B : Type} (r : res E A) (k : A -> res E B) : res E B :=
  match r with
  | Ok a => k a
  | Err e => Err e
  end.

(** Computations calling cached operations. *)
Inductive prog (Op R E A : Type) : Type :=
| Ret (a : A)
| Throw (e : E)
| Call (op : Op) (k : R -> prog Op R E A).
Arguments Ret {Op R E A} a.
Arguments Throw {Op R E A} e.
Arguments Call {Op R E A} op k.

Fixpoint bind {Op R E A B : Type} (p : prog Op R E A) (f : A -> prog Op R E B) : prog Op R E B :=
  match p with
  | Ret a => f a
  | Throw e => Throw e
  | Call op k => Call op (fun r => bind (k r) f)
  end.

Notation "x <- p ;; q" := (bind p (fun x => q))
  (at level 61, p at next level, right associativity).

(** Call a cached operation and return its result. *)
Definition call {Op R E : Type} (op : Op) : prog Op R E R := Call op (fun r => Ret r).

(** Pure interpretation: [h] answers the calls. *)
Fixpoint interp {Op R E A : Type} (h : Op -> res E R) (p : prog Op R E A) : res E A :=
  match p with
  | Ret a => Ok a
  | Throw e => Err e
  | Call op k => match h op with
                 | Ok r => interp h (k r)
                 | Err e => Err e
                 end
  end.

Lemma interp_bind : forall Op R E A B (h : Op -> res E R) (p : prog Op R E A)
    (f : A -> prog Op R E B),
  interp h (bind p f) = rbind (interp h p) (fun a => interp h (f a)).
Proof.
  intros Op R E A B h p f; induction p as [a|e|op k IH]; simpl; auto.
  destruct (h op) as [r|e]; simpl; auto.
Qed.

(** [outcome Ex Q r]: [r] is a value satisfying [Q] or an error allowed by [Ex]. *)
Definition outcome {E A : Type} (Ex : E -> Prop) (Q : A -> Prop) (r : res E A) : Prop :=
  match r with
  | Ok a => Q a
  | Err e => Ex e
  end.

(** [hoare h Ex p Q]: running [p] gives a value satisfying [Q] or an error allowed by [Ex]. *)
Definition hoare {Op R E A : Type} (h : Op -> res E R) (Ex : E -> Prop)
  (p : prog Op R E A) (Q : A -> Prop) : Prop := outcome Ex Q (interp h p).

Section HoareRules.
  Context {Op R E : Type}.
  Variable h : Op -> res E R.
  Variable Ex : E -> Prop.

  Lemma hoare_ret : forall A (a : A) (Q : A -> Prop), Q a -> hoare h Ex (Ret a) Q.
  Proof. intros; unfold hoare; simpl; auto. Qed.

  Lemma hoare_throw : forall A e (Q : A -> Prop), Ex e -> hoare h Ex (Throw e) Q.
  Proof. intros; unfold hoare; simpl; auto. Qed.

  Lemma hoare_conseq : forall A (p : prog Op R E A) (Q Q' : A -> Prop),
    hoare h Ex p Q -> (forall a, Q a -> Q' a) -> hoare h Ex p Q'.
  Proof.
    intros A p Q Q' H1 H2; unfold hoare, outcome in *; destruct (interp h p); auto.
  Qed.

  Lemma hoare_all : forall A K (p : prog Op R E A) (P : K -> Prop) (Q : K -> A -> Prop), (exists k, P k) ->
    (forall k, P k -> hoare h Ex p (Q k)) -> hoare h Ex p (fun a => forall k, P k -> Q k a).
  Proof.
    intros A K p P Q [k Hk] H. unfold hoare, outcome in *. destruct (interp h p).
    - intros k' Hk'. exact (H k' Hk').
    - exact (H k Hk).
  Qed.

  Lemma hoare_bind : forall A B (p : prog Op R E A) (f : A -> prog Op R E B)
      (P : A -> Prop) (Q : B -> Prop),
    hoare h Ex p P -> (forall a, P a -> hoare h Ex (f a) Q) -> hoare h Ex (bind p f) Q.
  Proof.
    intros A B p f P Q H1 H2; unfold hoare, outcome in *; rewrite interp_bind.
    destruct (interp h p); simpl; auto. now apply H2.
  Qed.

  Lemma hoare_call : forall op (Q : R -> Prop), outcome Ex Q (h op) -> hoare h Ex (call op) Q.
  Proof.
    intros op Q H; unfold hoare, outcome in *; simpl; destruct (h op); auto.
  Qed.
End HoareRules.

(** A proof that a boolean is true, which computes to [eq_refl] on concrete data: it keeps
    subset types computable. *)
Definition canon (b : bool) : b = true -> b = true :=
  match b as b return b = true -> b = true with
  | true => fun _ => eq_refl
  | false => fun h => h
  end.
