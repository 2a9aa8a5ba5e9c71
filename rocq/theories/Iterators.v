(** * Validity of the iterators of std::unordered_map

    The standard lets insertions rehash the map, which invalidates the iterators, including end(); references to elements
    stay valid, and so do the iterators when an element is erased, except those of this element.  The validity of an
    iterator is modelled by the number of rehashes of the map before it was obtained.  Three functions of the library keep
    iterators while they insert: the generic union (sdd/dd/sum.hh 99-207), the count of combinations
    (sdd/dd/count_combinations.hh) and the export to DOT (sdd/tools/dot/sdd.hh). *)

From Coq Require Import List Bool NArith Arith Lia.
From Verif Require Import Base SortedSets Values Sdd DDModel Count Tools.
Import ListNotations.

(** The growth of a map, chosen by the implementation.  [full b n]: inserting an element, the [n]-th one, rehashes a
    map of [b] buckets; [grow b n] is then the number of buckets.  [initial n]: buckets of a map created for [n] elements. *)
Record growth : Type := {
  initial : nat -> nat;
  full : nat -> nat -> bool;
  grow : nat -> nat -> nat
}.
(** What the standard guarantees for a maximal load factor: an empty map is never too small, more elements do not need
    less room, a rehash makes enough room, and no number of buckets is enough for every number of elements. *)
Record growth_ok (G : growth) : Prop := {
  full_mono : forall b n n', n <= n' -> full G b n = true -> full G b n' = true;
  grow_enough : forall b n, full G b n = true -> full G (grow G b n) n = false;
  full_none : forall b, full G b 0 = false;
  full_some : forall b, exists n, full G b n = true
}.

(** A map: its elements, its buckets and the number of its rehashes. *)
Record umap (E : Type) : Type := { elems : list E; buckets : nat; epoch : nat }.
Arguments elems {E}.
Arguments buckets {E}.
Arguments epoch {E}.
Definition set_elems {E} (l : list E) (m : umap E) : umap E := {| elems := l; buckets := buckets m; epoch := epoch m |}.
Definition created {E} (G : growth) (n : nat) : umap E := {| elems := []; buckets := initial G n; epoch := 0 |}.

(** The map once its elements are [l], one more than before: emplace and insert, when the key is not in the map. *)
Definition inserted {E} (G : growth) (l : list E) (m : umap E) : umap E :=
  if full G (buckets m) (length l)
  then {| elems := l; buckets := grow G (buckets m) (length l); epoch := S (epoch m) |}
  else {| elems := l; buckets := buckets m; epoch := epoch m |}.

(** The use of an iterator obtained after [it] rehashes. *)
Definition valid {E} (it : nat) (m : umap E) : bool := Nat.eqb it (epoch m).

(** ** The count of combinations *)

Inductive cerr : Type :=
| CZero                                       (* the unreachable case, sdd/dd/count_combinations.hh 32-38 *)
| CIterator.                                  (* an invalidated iterator is dereferenced: undefined behaviour *)

Section Count.
  Variable VI : values_impl.
  Variable PF : platform VI.
  Variable G : growth.
  Notation V := (vt VI).
  Notation sdd := (sdd V).
  Notation map := (umap (sdd * N)).
  (** The order of evaluation of "insertion.first->second += ... visit(...)" (58 and 73) is not specified.  [late]: the
      iterator is dereferenced after the visits. *)
  Variable late : bool.

  (** [insertion.first->second += n], after a visit. *)
  Definition it_add (it : nat) (t : sdd) (n : N) (m : map) : res cerr map :=
    if late && negb (valid it m) then Err CIterator
    else Ok (set_elems (memo_add VI PF (elems m) t n) m).
  (** [return insertion.first->second]. *)
  Definition it_get (it : nat) (t : sdd) (m : map) : res cerr (N * map) :=
    if valid it m then Ok (match memo_find VI PF (elems m) t with Some n => n | None => 0%N end, m)
    else Err CIterator.

  (** The visitor, sdd/dd/count_combinations.hh 21-78, as in Count.v, with its iterators. *)
  Fixpoint it_visit (t : sdd) (m : map) {struct t} : res cerr (N * map) :=
    match t with
    | Zero => Err CZero
    | One => Ok (1%N, m)
    | Flat _ arcs =>
        match memo_find VI PF (elems m) t with
        | Some n => Ok (n, m)
        | None =>
            let m1 := inserted G ((t, 0%N) :: elems m) m in
            rbind ((fix loop (l : list (V * sdd)) (m : map) : res cerr map :=
                      match l with
                      | [] => Ok m
                      | (v, s) :: l' =>
                          rbind (it_visit s m) (fun nm =>
                          rbind (it_add (epoch m1) t (v_size VI v * fst nm)%N (snd nm)) (loop l'))
                      end) arcs m1) (it_get (epoch m1) t)
        end
    | Hier _ arcs =>
        match memo_find VI PF (elems m) t with
        | Some n => Ok (n, m)
        | None =>
            let m1 := inserted G ((t, 0%N) :: elems m) m in
            rbind ((fix loop (l : list (sdd * sdd)) (m : map) : res cerr map :=
                      match l with
                      | [] => Ok m
                      | (v, s) :: l' =>
                          rbind (it_visit v m) (fun km =>
                          rbind (it_visit s (snd km)) (fun nm =>
                          rbind (it_add (epoch m1) t (fst km * fst nm)%N (snd nm)) (loop l')))
                      end) arcs m1) (it_get (epoch m1) t)
        end
    end.

  (** count_combinations, sdd/dd/count_combinations.hh 87-91: a map created without size. *)
  Definition it_size (x : sdd) : res cerr N :=
    if is_zero VI x then Ok 0%N else rbind (it_visit x (created G 0)) (fun nm => Ok (fst nm)).
End Count.

(** ** The export to DOT *)

Section Dot.
  Variable VI : values_impl.
  Variable PF : platform VI.
  Variable G : growth.
  Notation V := (vt VI).
  Notation sdd := (sdd V).
  Notation map := (umap sdd).

  (** [visited_.emplace_hint(search, &n)]: the hint must be a valid iterator. *)
  Definition it_hint (it : nat) (t : sdd) (st : list (item VI) * map) : res cerr (list (item VI) * map) :=
    if valid it (snd st) then Ok (fst st, inserted G (t :: elems (snd st)) (snd st)) else Err CIterator.

  (** to_dot_visitor, sdd/tools/dot/sdd.hh 20-109, as in Tools.v: [search] is obtained first (40, 54, 68, 87), and used
      after the visits (45, 59, 78, 105). *)
  Fixpoint it_dot_visit (t : sdd) (st : list (item VI) * map) {struct t} : res cerr (list (item VI) * map) :=
    if visited VI PF (elems (snd st)) t then Ok st
    else
      let search := epoch (snd st) in
      match t with
      | Zero | One => it_hint search t (fst st ++ [DNode VI t], snd st)
      | Flat _ arcs =>
          rbind ((fix loop (l : list (V * sdd)) (st : list (item VI) * map) : res cerr (list (item VI) * map) :=
                    match l with
                    | [] => Ok st
                    | arc :: l' =>
                        rbind (it_dot_visit (snd arc) st) (fun st1 =>
                        loop l' (fst st1 ++ [DFlat VI t (fst arc) (snd arc)], snd st1))
                    end) arcs (fst st ++ [DNode VI t], snd st)) (it_hint search t)
      | Hier _ arcs =>
          rbind ((fix loop (l : list (sdd * sdd)) (st : list (item VI) * map) : res cerr (list (item VI) * map) :=
                    match l with
                    | [] => Ok st
                    | arc :: l' =>
                        rbind (it_dot_visit (snd arc) st) (fun st1 =>
                        rbind (it_dot_visit (fst arc) st1) (fun st2 =>
                        loop l' (fst st2 ++ [DHier VI t (fst arc) (snd arc)], snd st2)))
                    end) arcs (fst st ++ [DNode VI t], snd st)) (it_hint search t)
      end.
  (** operator<< of to_dot, sdd/tools/dot/sdd.hh 146-157: a visitor, thus a set created without size, by export. *)
  Definition it_dot (x : sdd) : res cerr (list (item VI)) :=
    rbind (it_dot_visit x ([], created G 0)) (fun st => Ok (fst st)).
End Dot.

(** ** The generic union *)

Section Sum.
  Variable VI : values_impl.
  Variable PF : platform VI.
  Variable G : growth.
  Notation V := (vt VI).
  Notation sdd := (sdd V).
  Notation P := (prog (ddop V) sdd (err V)).
  Section Work.
    Variable W : Type.
    Variable ops : valops VI W.
    Notation map := (umap (W * list sdd)).

    Definition it_emplace (kv : W * list sdd) (m : map) : map :=
      if existsb (fun e => vo_eqb ops (fst kv) (fst e)) (elems m) then m else inserted G (elems m ++ [kv]) m.
    Definition it_insert (l : list (W * list sdd)) (m : map) : map := fold_left (fun m kv => it_emplace kv m) l m.

    (** Loop (B), sdd/dd/sum.hh 110-198: [res_end] is used in the condition of loop (C), 120.  Erasures of loop (C) do not
        invalidate it. *)
    Fixpoint it_sum_B (res_end : nat) (arcs : list (W * sdd)) (res : map) (save : list (W * list sdd))
      : P (map * list (W * list sdd)) :=
      match arcs with
      | [] => Ret (res, save)
      | (v, s) :: r =>
        if valid res_end res then
          krs <- sum_C VI PF ops v s (vo_iter ops (elems res)) [] save [] ;;
          it_sum_B res_end r (it_insert (snd krs) (set_elems (fst (fst krs)) res)) (snd (fst krs))
        else Throw EUB
      end.

    (** Loop (A), sdd/dd/sum.hh 99-207: res_end is obtained once by operand, 105. *)
    Fixpoint it_sum_A (cast : sdd -> option (N * list (W * sdd))) (begin : sdd) (operands : list sdd) (res : map)
      : P map :=
      match operands with
      | [] => Ret res
      | x :: r =>
        _ <- check_compatibility VI begin x ;;
        match cast x with
        | None => Throw EUB
        | Some (_, arcs) =>
          rs <- it_sum_B (epoch res) arcs res [] ;;
          it_sum_A cast begin r (it_insert (snd rs) (fst rs))
        end
      end.

    (** sum_op_impl::work, generic version, sdd/dd/sum.hh 45-218: the map is created for the arcs of the first operand. *)
    Definition it_sum_work (mk : N -> list (W * sdd) -> sdd) (cast : sdd -> option (N * list (W * sdd)))
      (operands : list sdd) : P sdd :=
      match operands with
      | [] => Throw EUB
      | head :: others =>
        match cast head with
        | None => Throw EUB
        | Some (x, arcs) =>
          let res0 := it_insert (List.map (fun a => (fst a, sdd_sb_add VI PF (snd a) [])) arcs)
                        (created G (length arcs)) in
          res <- it_sum_A cast head others res0 ;;
          m <- sum_su VI PF ops (vo_iter ops (elems res)) [] ;;
          alpha <- su_run VI PF ops m [] ;;
          Ret (create_node VI mk x alpha)
        end
      end.
  End Work.

  (** nary_op<C, sum_op_impl>::operator(), sdd/dd/nary.hh 100-121. *)
  Definition it_sum_body (operands : list sdd) : P sdd :=
    match operands with
    | Flat _ _ :: _ :: _ =>
        if v_fast VI then sum_work_fast VI PF operands
        else it_sum_work V (flat_ops VI PF) Flat (cast_flat VI) operands
    | Hier _ _ :: _ :: _ => it_sum_work sdd (hier_ops VI PF) Hier (cast_hier VI) operands
    | a :: b :: _ => Throw (ETop a b)
    | _ => Throw EUB
    end.

  (** Evaluation of operations, as in DDModel.v: every union, at every depth, is the one above. *)
  Definition it_body (op : ddop V) : P sdd :=
    match op with
    | OpSum l => it_sum_body l
    | op => dd_body VI PF op
    end.
  Fixpoint it_eval (fuel : nat) (op : ddop V) : res (err V) sdd :=
    match fuel with
    | 0 => Err EFuel
    | S n => interp (it_eval n) (it_body op)
    end.
  (** sum(begin, end), sdd/dd/sum.hh 399-422; intersection(begin, end), sdd/dd/intersection.hh 216-239; operator-,
      sdd/dd/difference.hh 210-231. *)
  Definition it_api_sum (l : list sdd) : res (err V) sdd :=
    interp (it_eval (fuel_of VI l)) (dd_sum VI (fold_left (fun b x => sdd_sb_add VI PF x b) l [])).
  Definition it_api_intersection (l : list sdd) : res (err V) sdd :=
    interp (it_eval (fuel_of VI l)) (dd_intersection VI (fold_left (fun b x => sdd_ib_add VI PF x b) l (false, []))).
  Definition it_api_minus (x y : sdd) : res (err V) sdd :=
    interp (it_eval (fuel_of VI [x; y])) (dd_difference VI PF x y).
End Sum.
