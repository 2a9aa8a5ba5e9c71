(** * Set Decision Diagrams as trees, their meaning, and canonical form

    This file is the small specification against which the operations are proved. *)

From Coq Require Import List Bool NArith Arith Lia Permutation Sorted.
From Verif Require Import SortedSets Values.
Import ListNotations.

(** An SDD: sdd/dd/definition.hh 51-56 (variant of |0|, |1|, flat_node, hierarchical_node), with
    nodes as in sdd/dd/node.hh: a variable and a list of arcs (valuation, successor).
    Simplification: handles are identified with the trees they designate; the heap
    (unique table, reference counts) is modelled in Heap.v. *)
Inductive sdd (V : Type) : Type :=
| Zero
| One
| Flat (x : N) (arcs : list (V * sdd V))
| Hier (x : N) (arcs : list (sdd V * sdd V)).
Arguments Zero {V}.
Arguments One {V}.
Arguments Flat {V} x arcs.
Arguments Hier {V} x arcs.

(** Induction principle going through the lists of arcs. *)
Section SddInd.
  Variable V : Type.
  Variable P : sdd V -> Prop.
  Hypothesis HZ : P Zero.
  Hypothesis HO : P One.
  Hypothesis HF : forall x arcs, (forall v s, In (v, s) arcs -> P s) -> P (Flat x arcs).
  Hypothesis HH : forall x arcs, (forall v s, In (v, s) arcs -> P v /\ P s) -> P (Hier x arcs).
  Fixpoint sdd_ind' (t : sdd V) : P t :=
    match t return P t with
    | Zero => HZ
    | One => HO
    | Flat x arcs =>
      HF x arcs
        ((fix go (l : list (V * sdd V)) : forall v s, In (v, s) l -> P s :=
            match l return forall v s, In (v, s) l -> P s with
            | [] => fun v s H => match H with end
            | (v0, s0) :: r => fun v s H =>
                match H with
                | or_introl e => eq_ind s0 P (sdd_ind' s0) s (f_equal snd e)
                | or_intror H' => go r v s H'
                end
            end) arcs)
    | Hier x arcs =>
      HH x arcs
        ((fix go (l : list (sdd V * sdd V)) : forall v s, In (v, s) l -> P v /\ P s :=
            match l return forall v s, In (v, s) l -> P v /\ P s with
            | [] => fun v s H => match H with end
            | (v0, s0) :: r => fun v s H =>
                match H with
                | or_introl e => conj (eq_ind v0 P (sdd_ind' v0) v (f_equal fst e))
                                      (eq_ind s0 P (sdd_ind' s0) s (f_equal snd e))
                | or_intror H' => go r v s H'
                end
            end) arcs)
    end.
End SddInd.

(** An assignment: for each variable from top to bottom, a value, or (for a hierarchical variable)
    a nested assignment. *)
Inductive asg (T : Type) : Type :=
| ANil
| AVal (x : N) (a : T) (rest : asg T)
| ANest (x : N) (nested : asg T) (rest : asg T).
Arguments ANil {T}.
Arguments AVal {T} x a rest.
Arguments ANest {T} x nested rest.

(** Two assignments clash when, followed together as long as they give the same values, they come to different variables, to a
    flat and to a hierarchical variable, or to the end of only one of them.  The nested assignments of a variable are followed
    too, whether or not they are equal. *)
Fixpoint aclash {T : Type} (p q : asg T) : Prop :=
  match p, q with
  | ANil, ANil => False
  | AVal x a p', AVal y b q' => x <> y \/ (a = b /\ aclash p' q')
  | ANest x n p', ANest y m q' => x <> y \/ aclash n m \/ (n = m /\ aclash p' q')
  | _, _ => True
  end.

Section Meaning.
  Variable VI : values_impl.
  Notation V := (vt VI).

  (** The assignments contained in an SDD. *)
  Fixpoint contains (t : sdd V) (p : asg (elt VI)) : bool :=
    match t, p with
    | One, ANil => true
    | Flat x arcs, AVal y a q =>
        N.eqb x y && existsb (fun arc => v_mem VI (fst arc) a && contains (snd arc) q) arcs
    | Hier x arcs, ANest y n q =>
        N.eqb x y && existsb (fun arc => contains (fst arc) n && contains (snd arc) q) arcs
    | _, _ => false
    end.

  (** An address order: operator< on SDDs, sdd/dd/definition.hh 389-395
      ("The order is arbitrary and can change at each run"). *)
  Variable lt : sdd V -> sdd V -> bool.

  (** Canonical form. [disjoint] says that no key belongs to two different arcs. *)
  Definition disjoint {K W : Type} (mem : W -> K -> bool) (v w : W) : Prop :=
    forall k, mem v k = true -> mem w k = true -> False.

  Inductive canonical : sdd V -> Prop :=
  | can_zero : canonical Zero
  | can_one : canonical One
  | can_flat : forall x arcs,
      arcs <> [] ->
      (forall v s, In (v, s) arcs -> v_empty VI v = false /\ s <> Zero) ->
      (forall v s, In (v, s) arcs -> canonical s) ->
      ForallOrdPairs (fun a b => disjoint (v_mem VI) (fst a) (fst b)) arcs ->
      ssorted lt (map snd arcs) ->
      canonical (Flat x arcs)
  | can_hier : forall x arcs,
      arcs <> [] ->
      (forall v s, In (v, s) arcs -> v <> Zero /\ s <> Zero) ->
      (forall v s, In (v, s) arcs -> canonical v) ->
      (forall v s, In (v, s) arcs -> canonical s) ->
      ForallOrdPairs (fun a b => disjoint contains (fst a) (fst b)) arcs ->
      ssorted lt (map snd arcs) ->
      canonical (Hier x arcs).

  (** Shapes: the structure of variables an SDD follows (an order without names). *)
  Inductive shape : Type :=
  | SEnd
  | SFlat (x : N) (rest : shape)
  | SHier (x : N) (nested rest : shape).

  Inductive follows : shape -> sdd V -> Prop :=
  | fol_zero : forall sh, follows sh Zero
  | fol_one : follows SEnd One
  | fol_flat : forall x rest arcs,
      (forall v s, In (v, s) arcs -> follows rest s) ->
      follows (SFlat x rest) (Flat x arcs)
  | fol_hier : forall x nested rest arcs,
      (forall v s, In (v, s) arcs -> follows nested v) ->
      (forall v s, In (v, s) arcs -> follows rest s) ->
      follows (SHier x nested rest) (Hier x arcs).

  (** Incompatible heads: two non-empty SDDs whose first levels differ in kind or variable. *)
  Definition incompatible (a b : sdd V) : Prop :=
    match a, b with
    | Zero, _ => False
    | _, Zero => False
    | One, One => False
    | Flat x _, Flat y _ => x <> y
    | Hier x _, Hier y _ => x <> y
    | _, _ => True
    end.

  (** No assignment of [a] clashes with one of [b]. *)
  Definition agree (a b : sdd V) : Prop := forall p q, contains a p = true -> contains b q = true -> ~ aclash p q.
  (** No two assignments clash: true of all the SDDs a user can build (DDTheorems.v, built_coherent). *)
  Definition coherent (a : sdd V) : Prop := agree a a.

  Fixpoint height (t : sdd V) : nat :=
    match t with
    | Zero | One => 0
    | Flat _ arcs => S (list_max (map (fun a => height (snd a)) arcs))
    | Hier _ arcs => S (list_max (map (fun a => Nat.max (height (fst a)) (height (snd a))) arcs))
    end.
End Meaning.

Arguments contains {VI} t p.
Arguments incompatible {VI} a b.
Arguments agree {VI} a b.
Arguments coherent {VI} a.
Arguments height {VI} t.
Arguments follows {VI} _ _.
