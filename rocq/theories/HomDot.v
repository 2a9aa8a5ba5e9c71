(** * The DOT export of homomorphisms, character by character *)

From Coq Require Import Ascii String List Bool Arith NArith Lia.
From Verif Require Import Base SortedSets Values Sdd DDModel Orders Hom Text OrderText ForceDot Tools HomTools.
Import ListNotations.

Section HomDot.
  Variable VI : values_impl.
  Variables U F I : Type.
  Notation hom := (hom (vt VI) U F I).
  Variable heqb : hom -> hom -> bool.    (* equality of addresses *)
  Variable pa : hom -> text.             (* the address of an operation, written by oss << const void* *)
  Variable pf : F -> text.               (* what print (function.hh 186-206) writes for the functions of the user *)

  (** node, sdd/tools/dot/homomorphism.hh 178-186, and the names of identities, 79-80. *)
  Definition hnode (h : hom) : text := lit "h" ++ pa h.
  Definition name_text (n : name VI U F I) : text :=
    match n with inl h => hnode h | inr k => lit "id" ++ decN k end.
  (** What follows the name of an operation in its declaration: 41, 56, 69, 89, 102, 129, 145.  The label of a function is what
      operator<< writes for it (sdd/hom/function.hh 318-325), without escape.  The other classes are not declared. *)
  Definition decl_tail (h : hom) : text :=
    match h with
    | HComp _ _ => lit "[label=""o""];"
    | HFix _ => lit "[label=""*""];"
    | HFun t f => lit " [label=""" ++ (lit "fun(" ++ decN t ++ lit ", " ++ pf f ++ lit ")") ++ lit """];"
    | HLocal _ _ => lit " [label=""@""];"
    | HSatFix _ _ _ _ => lit " [label=""$*""];"
    | HSum _ => lit " [label=""+""];"
    | HIte _ _ _ => lit " [label=""ITE""];"
    | _ => []
    end.
  (** What follows the target of an edge that leaves [h]: 43-45, 58, 91, 106, 112, 117, 133, 148-154.  Simplification: the
      counter of 108 does not wrap (there are fewer than 2^32 operands). *)
  Definition edge_tail (h : hom) (l : elabel) : text :=
    match l with
    | ELeft => lit "[label=""l""];"
    | ERight => lit "[label=""r""];"
    | ENone => match h with HFix _ => [] | _ => lit ";" end
    | ETarget t => lit " [label=""" ++ decN t ++ lit """]"
    | EF => lit " [label=""F""];"
    | EG i => lit " [label=""g" ++ decN (N.of_nat i) ++ lit """];"
    | EL => lit " [label=""L""];"
    | EIf => lit " [label=""if""];"
    | EThen => lit " [label=""then""];"
    | EElse => lit " [label=""else""];"
    end.
  (** The lines. *)
  Definition item_line (i : item VI U F I) : text :=
    match i with
    | DHom _ _ _ _ h => hnode h ++ decl_tail h
    | DIdent _ _ _ _ k => lit "id" ++ decN k ++ lit " [label=""id""];"                      (* 79 *)
    | DEdge _ _ _ _ h l n => hnode h ++ lit " -> " ++ name_text n ++ edge_tail h l
    end.
  (** operator<<, 197-204, and dot, 209-215; [n] is the value of the static counter of 78. *)
  Definition hom_dot_text (n : N) (h : hom) : text :=
    unlines (lit "digraph homomorphism {" :: map item_line (hom_dot VI U F I heqb n h) ++ [lit "}"]).
End HomDot.
