(** * sdd/values/flat_set.hh, as handles on unified data

    Programs that use variables of type flat_set, on the heap of Heap.v: the unicity table of flat_set_manager, reference
    counts, any allocator.  FlatSet.v identifies a flat_set with its values; here a flat_set is a pointer. *)

From Coq Require Import List Bool NArith Arith Lia.
From Verif Require Import Base SortedSets FlatSet Pow2 HashTable Heap.
Import ListNotations.

(** Variables: flat_set_manager::empty (flat_set.hh 348), the temporary of an expression, and those of the program. *)
Definition mgr_empty : var := 0.
Definition tmp : var := 1.
Definition uv (v : var) : var := S (S v).

(** Operations of a program on its variables; the last argument is what new char[] returns, if it is called. *)
Inductive fop {A : Type} : Type :=
| FDefault (v : var)                                   (* flat_set v; *)
| FRange (v : var) (l : list A) (a : ptr)              (* flat_set v(begin, end); flat_set v {...}; *)
| FCopy (v w : var)                                    (* flat_set v(w); flat_set v(std::move(w)); *)
| FAssign (v w : var)                                  (* v = w; v = std::move(w); *)
| FInsert (v : var) (x : A) (a : ptr)                  (* v.insert(x).second; *)
| FErase (v : var) (x : A) (a : ptr)                   (* v.erase(x); *)
| FSum (v u w : var) (a : ptr)                         (* flat_set v = sum(u, w); *)
| FIntersection (v u w : var) (a : ptr)
| FDifference (v u w : var) (a : ptr)
| FSwap (v w : var)                                    (* std::swap(v, w); *)
| FDestroy (v : var)                                   (* end of the scope of v *)
| FCount (v : var) (x : A)                             (* v.count(x); v.find(x) != v.end(); *)
| FSize (v : var)                                      (* v.size(); *)
| FEmpty (v : var)                                     (* v.empty(); *)
| FEqual (v w : var).                                  (* v == w; *)
Arguments fop : clear implicits.

(** What an operation returns to the program. *)
Inductive obs : Type :=
| ONone
| OBool (b : bool)
| ONum (n : N).

Section FlatHandles.
  Context {A : Type}.
  Variable lt : A -> A -> bool.                        (* operator< of Value *)
  Variable eqb : A -> A -> bool.                       (* operator== of Value *)
  Variable hash bytes : list A * list ptr -> N.        (* std::hash of data_type, 522-535; sizeof(unique_type) *)

  (** operator== of boost::container::flat_set. *)
  Fixpoint data_eqb (l m : list A) : bool :=
    match l, m with
    | [], [] => true
    | x :: l', y :: m' => eqb x y && data_eqb l' m'
    | _, _ => false
    end.
  Notation step := (h_step data_eqb hash bytes).

  (** ptr_->data(), used at 95, 109-206. *)
  Definition data (h : heap (list A)) (v : var) : res herr (list A) :=
    rbind (held h v) (fun p => rbind (deref (hm h) p) (fun c => Ok (fst (u_data (c_data c))))).

  (** create, 281-309, and unify, 312-320: a new handle; empty_set(), 237-241, copies the handle of the manager. *)
  Definition create (v : var) (d : list A) (a : ptr) (h : heap (list A)) : res herr (heap (list A)) :=
    match d with
    | [] => step (HCopy v (SVar mgr_empty)) h
    | _ :: _ => step (HCreate v d [] a) h
    end.
  (** ptr_ = create(d): the temporary is moved in ptr_, then destroyed (98-100, 204). *)
  Definition replace (v : var) (d : list A) (a : ptr) (h : heap (list A)) : res herr (heap (list A)) :=
    rbind (create tmp d a h) (fun h1 =>
    rbind (step (HMoveAssign v tmp) h1) (fun h2 => step (HDestroy tmp) h2)).
  Definition quiet (r : res herr (heap (list A))) : res herr (heap (list A) * obs) := rbind r (fun h => Ok (h, ONone)).

  (** One operation.  Copy and assignment are those of ptr_ (62-67); there is no move constructor nor move assignment, a
      move is a copy. *)
  Definition f_step (o : fop A) (h : heap (list A)) : res herr (heap (list A) * obs) :=
    match o with
    | FDefault v => quiet (step (HCopy (uv v) (SVar mgr_empty)) h)                             (* 70-72 *)
    | FRange v l a => quiet (create (uv v) (fs_of_list lt l) a h)                              (* 75-84 *)
    | FCopy v w => quiet (step (HCopy (uv v) (SVar (uv w))) h)
    | FAssign v w => quiet (step (HAssign (uv v) (SVar (uv w))) h)
    | FInsert v x a =>                                                                         (* 92-103 *)
        rbind (data h (uv v)) (fun d =>
        if fs_mem lt d x then Ok (h, OBool false)
        else rbind (replace (uv v) (fs_insert lt x d) a h) (fun h1 => Ok (h1, OBool true)))
    | FErase v x a =>                                                                          (* 199-206 *)
        rbind (data h (uv v)) (fun d =>
        rbind (replace (uv v) (fs_erase lt x d) a h) (fun h1 => Ok (h1, ONum (if fs_mem lt d x then 1 else 0)%N)))
    | FSum v u w a =>                                                                          (* 505-516 *)
        rbind (data h (uv u)) (fun d => rbind (data h (uv w)) (fun e =>
        quiet (create (uv v) (fs_of_list lt (set_union lt d e)) a h)))
    | FIntersection v u w a =>                                                                 (* 489-500 *)
        rbind (data h (uv u)) (fun d => rbind (data h (uv w)) (fun e =>
        quiet (create (uv v) (fs_of_list lt (set_intersection lt d e)) a h)))
    | FDifference v u w a =>                                                                   (* 473-484 *)
        rbind (data h (uv u)) (fun d => rbind (data h (uv w)) (fun e =>
        quiet (create (uv v) (fs_of_list lt (set_difference lt d e)) a h)))
    | FSwap v w =>                                      (* std::swap: T tmp(move(v)); v = move(w); w = move(tmp); *)
        quiet (rbind (step (HCopy tmp (SVar (uv v))) h) (fun h1 =>
               rbind (step (HAssign (uv v) (SVar (uv w))) h1) (fun h2 =>
               rbind (step (HAssign (uv w) (SVar tmp)) h2) (fun h3 => step (HDestroy tmp) h3))))
    | FDestroy v => quiet (step (HDestroy (uv v)) h)
    | FCount v x => rbind (data h (uv v)) (fun d => Ok (h, ONum (if fs_mem lt d x then 1 else 0)%N))  (* 181-195 *)
    | FSize v => rbind (data h (uv v)) (fun d => Ok (h, ONum (N.of_nat (length d))))           (* 173-178 *)
    | FEmpty v => rbind (data h (uv v)) (fun d => Ok (h, OBool (match d with [] => true | _ => false end)))  (* 165-170 *)
    | FEqual v w => rbind (held h (uv v)) (fun p => rbind (held h (uv w)) (fun q => Ok (h, OBool (N.eqb p q))))  (* 246-253 *)
    end.
  Fixpoint f_run (l : list (fop A)) (h : heap (list A)) : res herr (heap (list A) * list obs) :=
    match l with
    | [] => Ok (h, [])
    | o :: l' => rbind (f_step o h) (fun r => rbind (f_run l' (fst r)) (fun s => Ok (fst s, snd r :: snd s)))
    end.

  (** flat_set_manager, 351-356, with mk_empty, 367-373. *)
  Definition f_init (size : N) (a : ptr) : res herr (heap (list A)) := step (HCreate mgr_empty [] [] a) (empty_heap size).
End FlatHandles.
