(** * The example program examples/dictionary

    Simplifications: a char is an element of a type with a strict total order; reading the file twice gives the
    same lines; the progress messages and the optional DOT file are not modelled. *)

From Coq Require Import List Bool NArith Arith Lia.
From Verif Require Import Base SortedSets Values Sdd Orders OrdersSdd DDModel FlatSet Count.
Import ListNotations.

Section Dictionary.
  (** flat_set<char>, examples/dictionary/dictionary.cc 11-16: the characters, their order and the addresses of the sets. *)
  Variable char : Type.
  Variable lt : char -> char -> bool.
  Hypothesis ST : strict_total lt.
  Variable plt : fset lt -> fset lt -> bool.
  Variable hash_sign : char.
  Notation VI := (flat_set_values lt ST plt).
  Variable PF : platform VI.
  Notation sdd := (sdd (vt VI)).

  (** The failures of the program: those of orders and of operations on SDDs. *)
  Inductive derr : Type :=
  | DOrder (e : oerr N)
  | DSdd (e : err (vt VI)).

  (** The size of the longest line, examples/dictionary/dictionary.cc 54-61. *)
  Definition max_size (lines : list (list char)) : nat :=
    fold_left (fun m line => if length line <? m then m else length line) lines 0.

  (** std::iota and the order, examples/dictionary/dictionary.cc 67-71. *)
  Definition dict_order (max : nat) : res derr (order N) :=
    match mk_order N N.eqb (b_of_list (map N.of_nat (seq 0 max))) with
    | Ok o => Ok o
    | Err e => Err (DOrder e)
    end.

  (** The values of a position, examples/dictionary/dictionary.cc 78-81. [line[pos]] is only read when pos is in the line: the
      default of [nth] is not used. *)
  Definition letters (line : list char) (pos : N) : vt VI :=
    if (pos <? N.of_nat (length line))%N then fset_of_list lt ST [nth (N.to_nat pos) line hash_sign]
    else fset_of_list lt ST [hash_sign].

  (** The loop on lines, examples/dictionary/dictionary.cc 73-83; operator+=, sdd/dd/sum.hh 386-397. *)
  Fixpoint dict_loop (o : order N) (lines : list (list char)) (dict : sdd) : res derr sdd :=
    match lines with
    | [] => Ok dict
    | line :: r =>
      match sdd_from_order VI PF N (letters line) o with
      | Err e => Err (DOrder e)
      | Ok x => match api_plus VI PF dict x with
                | Err e => Err (DSdd e)
                | Ok d => dict_loop o r d
                end
      end
    end.

  (** main, examples/dictionary/dictionary.cc 22-99: the SDD and the number that is printed (line 85). *)
  Definition dictionary (lines : list (list char)) : res derr (sdd * option N) :=
    rbind (dict_order (max_size lines)) (fun o =>
    rbind (dict_loop o lines Zero) (fun dict => Ok (dict, size VI PF dict))).
End Dictionary.
