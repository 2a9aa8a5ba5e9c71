(** * The example program examples/hanoi

    Simplifications: the numbers of rings and of poles are unbounded (unsigned int, and int for the parameters of the
    constructors, in the program); the assertions "no hierarchy" are an arbitrary result, as the order is flat; the
    measure of time is not modelled. *)

From Coq Require Import List Bool NArith Arith Lia.
From Verif Require Import Base SortedSets Values Sdd Orders OrdersSdd DDModel FlatSet Bitset Hom Count.
Import ListNotations.

(** The two types of inductive homomorphisms, examples/hanoi/hanoi.cc 23-26 and 82-87. *)
Inductive hind : Type :=
| NoRingAbove (i j : N)
| SwapPole (ring source destination : N).

(** The constructor of no_ring_above, examples/hanoi/hanoi.cc 28-31. *)
Definition no_ring_above (a b : N) : hind :=
  NoRingAbove (if (a <? b)%N then a else b) (if (a <? b)%N then b else a).

Section Hanoi.
  (** flat_set<unsigned int> (conf2, sdd/conf/default_configurations.hh 103-108) and the addresses of sets. *)
  Variable plt : fset N.ltb -> fset N.ltb -> bool.
  Notation VI := (flat_set_values N.ltb Nltb_strict plt).
  Notation V := (fset N.ltb).
  Notation set := (fset_of_list N.ltb Nltb_strict).
  Variable PF : platform VI.
  Notation sdd := (sdd V).
  Notation order := (order N).
  Notation hom := (hom V N Empty_set hind).
  Variable HP : hplatform V N Empty_set hind.

  (** operator()(order, Values), examples/hanoi/hanoi.cc 49-57 and 111-125. *)
  Definition on_values (i : hind) (o : order) (val : V) : hom :=
    match i with
    | NoRingAbove i j =>
      let v := fst (fset_erase N.ltb Nltb_strict i val) in
      let v := fst (fset_erase N.ltb Nltb_strict j v) in
      HConsF o v (HInd (NoRingAbove i j))
    | SwapPole _ source destination =>
      if fset_find N.ltb val source
      then HConsF o (set [destination]) (HInd (no_ring_above source destination))
      else HConst Zero
    end.

  (** skip, examples/hanoi/hanoi.cc 33-38 and 95-100; operator()(), 59-64 and 127-132; operator()(order, SDD), which
      is not reachable, 40-47 and 102-109. There is no user function. *)
  Definition hanoi_user : user V N Empty_set hind := {|
    f_apply := fun f v => v;
    f_sel := fun f => false;
    f_shift := fun f => false;
    i_skip := fun i id => match i with
                          | NoRingAbove _ _ => false
                          | SwapPole ring _ _ => negb (N.eqb (usr id) ring)
                          end;
    i_sel := fun _ => false;
    i_flat := on_values;
    i_hier := fun _ _ _ => HConst Zero;
    i_one := fun _ => One
  |}.

  (** The order, examples/hanoi/hanoi.cc 199-205. *)
  Definition rings (nb_rings : nat) : builder N :=
    fold_left (fun ob i => b_push (user_id (N.of_nat i)) BNil ob) (seq 0 nb_rings) BNil.

  (** The insertions in union_swap_pole, examples/hanoi/hanoi.cc 211-224, in their order. *)
  Definition swaps (nb_rings nb_poles : nat) : list hom :=
    flat_map (fun i =>
      flat_map (fun source =>
        flat_map (fun destination =>
          if source =? destination then []
          else [HInd (SwapPole (N.of_nat i) (N.of_nat source) (N.of_nat destination))])
        (seq 0 nb_poles)) (seq 0 nb_poles)) (seq 0 nb_rings).

  (** The failures of the program. *)
  Inductive herr : Type :=
  | HOrder (e : oerr N)
  | HHom (e : cerr N).
  Definition horder {T} (r : res (oerr N) T) : res herr T := match r with Ok x => Ok x | Err e => Err (HOrder e) end.
  Definition hhom {T} (r : res (cerr N) T) : res herr T := match r with Ok x => Ok x | Err e => Err (HHom e) end.

  (** The events, examples/hanoi/hanoi.cc 211-228; std::set is ordered by addresses. *)
  Definition hanoi_events (o : order) (nb_rings nb_poles : nat) : res herr hom :=
    let union_swap_pole := hset VI N Empty_set hind HP (swaps nb_rings nb_poles ++ [HId]) in
    rbind (hhom (mk_sum VI N Empty_set hind HP union_swap_pole)) (fun h =>
    hhom (rewrite VI N Empty_set hind HP hanoi_user o (fixpoint VI N Empty_set hind h))).

  (** main up to the application of events: the order, the initial state and the events,
      examples/hanoi/hanoi.cc 199-228. *)
  Definition hanoi_init (nb_rings nb_poles : nat) : res herr (order * sdd * hom) :=
    rbind (horder (mk_order N N.eqb (rings nb_rings))) (fun o =>
    rbind (horder (sdd_from_order VI PF N (fun _ => set [0%N]) o)) (fun m0 =>
    rbind (hanoi_events o nb_rings nb_poles) (fun events => Ok (o, m0, events)))).

  (** The program ends with the states [final] and prints the number [printed], examples/hanoi/hanoi.cc 233-240. *)
  Definition hanoi_runs (nb_rings nb_poles : nat) (final : sdd) (printed : option N) : Prop :=
    exists o m0 events, hanoi_init nb_rings nb_poles = Ok (o, m0, events)
      /\ evals VI PF N Empty_set hind hanoi_user o events m0 final
      /\ printed = size VI PF final.
End Hanoi.
