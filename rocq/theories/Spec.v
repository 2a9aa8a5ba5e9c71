(** * Specification vocabulary for the properties of sdd/dd *)

From Coq Require Import List Bool NArith Permutation.
From Verif Require Import Base SortedSets Values Sdd DDModel.
Import ListNotations.

Section Spec.
  Variable VI : values_impl.
  Notation V := (vt VI).
  Notation sdd := (sdd V).

  (** Two SDDs contain the same assignments. *)
  Definition same_set (x y : sdd) : Prop := forall p, contains x p = true <-> contains y p = true.

  (** The SDDs a user can obtain with the constructors and operators of sdd/dd, on a platform. *)
  Inductive built (PF : platform VI) : sdd -> Prop :=
  | built_zero : built PF Zero
  | built_one : built PF One
  | built_flat : forall x v s, built PF s -> built PF (node_flat VI PF x v s)
  | built_hier : forall x v s, built PF v -> built PF s -> built PF (node_hier VI PF x v s)
  | built_sum : forall l r, (forall x, In x l -> built PF x) -> api_sum VI PF l = Ok r -> built PF r
  | built_inter : forall l r, (forall x, In x l -> built PF x) -> api_intersection VI PF l = Ok r ->
      built PF r
  | built_minus : forall x y r, built PF x -> built PF y -> api_minus VI PF x y = Ok r -> built PF r.

  (** Equality of diagrams up to the order in which arcs are listed. *)
  Inductive sim : sdd -> sdd -> Prop :=
  | sim_zero : sim Zero Zero
  | sim_one : sim One One
  | sim_flat : forall x A B B', Permutation B B' ->
      Forall2 (fun a b => fst a = fst b /\ sim (snd a) (snd b)) A B' ->
      sim (Flat x A) (Flat x B)
  | sim_hier : forall x A B B', Permutation B B' ->
      Forall2 (fun a b => sim (fst a) (fst b) /\ sim (snd a) (snd b)) A B' ->
      sim (Hier x A) (Hier x B).
End Spec.
Arguments same_set {VI} x y.
Arguments sim {VI} _ _.

(** ** Set expressions *)

Inductive sexp : Type :=
| SVar (i : nat)
| SZero
| SPlus (a b : sexp)
| SAnd (a b : sexp)
| SMinus (a b : sexp).

(** Value of an expression computed by the library. *)
Fixpoint sexp_eval (VI : values_impl) (PF : platform VI) (env : nat -> sdd (vt VI)) (e : sexp)
  : res (err (vt VI)) (sdd (vt VI)) :=
  match e with
  | SVar i => Ok (env i)
  | SZero => Ok Zero
  | SPlus a b => rbind (sexp_eval VI PF env a) (fun x => rbind (sexp_eval VI PF env b) (api_plus VI PF x))
  | SAnd a b => rbind (sexp_eval VI PF env a) (fun x => rbind (sexp_eval VI PF env b) (api_and VI PF x))
  | SMinus a b => rbind (sexp_eval VI PF env a) (fun x => rbind (sexp_eval VI PF env b) (api_minus VI PF x))
  end.

(** Truth value of an expression, for one element of the sets. *)
Fixpoint sexp_bool (env : nat -> bool) (e : sexp) : bool :=
  match e with
  | SVar i => env i
  | SZero => false
  | SPlus a b => sexp_bool env a || sexp_bool env b
  | SAnd a b => sexp_bool env a && sexp_bool env b
  | SMinus a b => sexp_bool env a && negb (sexp_bool env b)
  end.

(** Two computations return the same SDD. *)
Definition agree {E A : Type} (a b : res E A) : Prop := exists r, a = Ok r /\ b = Ok r.
