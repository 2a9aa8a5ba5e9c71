(** * What a program on flat_sets does: variables hold sets

    A set is given by a list of its members, in any order, with repetitions or not. *)

From Coq Require Import List Bool NArith Arith Lia.
From Verif Require Import Base HashTable Heap FlatHandles.
Import ListNotations.

Section Spec.
  Context {A : Type}.
  Variable eqb : A -> A -> bool.

  Definition sets : Type := list (var * list A).
  Fixpoint set_of (e : sets) (v : var) : option (list A) :=
    match e with
    | [] => None
    | (w, s) :: e' => if Nat.eqb v w then Some s else set_of e' v
    end.
  Fixpoint set_to (e : sets) (v : var) (s : list A) : sets :=
    match e with
    | [] => []
    | (w, t) :: e' => if Nat.eqb v w then (w, s) :: e' else (w, t) :: set_to e' v s
    end.
  Fixpoint forget (e : sets) (v : var) : sets :=
    match e with
    | [] => []
    | (w, t) :: e' => if Nat.eqb v w then e' else (w, t) :: forget e' v
    end.
  Definition the (e : sets) (v : var) : list A := match set_of e v with Some s => s | None => [] end.

  Definition member (s : list A) (x : A) : bool := existsb (eqb x) s.
  Definition same (s t : list A) : bool := forallb (member t) s && forallb (member s) t.
  Fixpoint card (s : list A) : nat :=
    match s with
    | [] => 0
    | x :: r => if member r x then card r else S (card r)
    end.

  Definition s_step (o : fop A) (e : sets) : sets * obs :=
    match o with
    | FDefault v => ((v, []) :: e, ONone)
    | FRange v l _ => ((v, l) :: e, ONone)
    | FCopy v w => ((v, the e w) :: e, ONone)
    | FAssign v w => (set_to e v (the e w), ONone)
    | FInsert v x _ => (set_to e v (x :: the e v), OBool (negb (member (the e v) x)))
    | FErase v x _ => (set_to e v (filter (fun y => negb (eqb y x)) (the e v)), ONum (if member (the e v) x then 1 else 0)%N)
    | FSum v u w _ => ((v, the e u ++ the e w) :: e, ONone)
    | FIntersection v u w _ => ((v, filter (member (the e w)) (the e u)) :: e, ONone)
    | FDifference v u w _ => ((v, filter (fun y => negb (member (the e w) y)) (the e u)) :: e, ONone)
    | FSwap v w => (set_to (set_to e v (the e w)) w (the e v), ONone)
    | FDestroy v => (forget e v, ONone)
    | FCount v x => (e, ONum (if member (the e v) x then 1 else 0)%N)
    | FSize v => (e, ONum (N.of_nat (card (the e v))))
    | FEmpty v => (e, OBool (match the e v with [] => true | _ => false end))
    | FEqual v w => (e, OBool (same (the e v) (the e w)))
    end.
  Fixpoint s_run (l : list (fop A)) (e : sets) : sets * list obs :=
    match l with
    | [] => (e, [])
    | o :: l' => let '(e1, x) := s_step o e in let '(e2, xs) := s_run l' e1 in (e2, x :: xs)
    end.

  (** Correct uses: variables are declared; v = v only if v is empty or another variable holds the same set (C24). *)
  Definition known (e : sets) (v : var) : Prop := set_of e v <> None.
  Definition f_proper (o : fop A) (e : sets) : Prop :=
    match o with
    | FDefault _ | FRange _ _ _ => True
    | FCopy _ w => known e w
    | FAssign v w => known e v /\ known e w /\
        (v <> w \/ the e v = [] \/ exists u, u <> v /\ known e u /\ same (the e u) (the e v) = true)
    | FInsert v _ _ | FErase v _ _ | FDestroy v | FCount v _ | FSize v | FEmpty v => known e v
    | FSum _ u w _ | FIntersection _ u w _ | FDifference _ u w _ | FSwap u w | FEqual u w => known e u /\ known e w
    end.
  (** new char[] returns a block that is not allocated. *)
  Definition f_alloc (o : fop A) (h : heap (list A)) : Prop :=
    match o with
    | FRange _ _ a | FInsert _ _ a | FErase _ _ a | FSum _ _ _ a | FIntersection _ _ _ a | FDifference _ _ _ a => blocks h a = None
    | _ => True
    end.
  (** A bound on the references added. *)
  Definition f_cost (o : fop A) : nat := match o with FSwap _ _ => 3 | _ => 1 end.
  Definition f_total (l : list (fop A)) : nat := list_sum (map f_cost l).

  Variable lt : A -> A -> bool.
  Variable hash bytes : list A * list ptr -> N.
  Fixpoint f_history (l : list (fop A)) (h : heap (list A)) (e : sets) : Prop :=
    match l with
    | [] => True
    | o :: l' => f_proper o e /\ f_alloc o h /\
                 forall h' x, f_step lt eqb hash bytes o h = Ok (h', x) -> f_history l' h' (fst (s_step o e))
    end.
End Spec.
