(** * The DOT export of SDDs, with the identifiers of an order, character by character *)

From Coq Require Import Ascii String List Bool Arith NArith Lia.
From Verif Require Import Base SortedSets Values Sdd DDModel Tools Orders Text OrderText ForceDot.
Import ListNotations.

(** A loop whose body may fail. *)
Section Loop.
  Variables (E S A : Type) (f : S -> A -> res E S).
  Fixpoint loop_res (l : list A) (s : S) : res E S :=
    match l with
    | [] => Ok s
    | a :: l => rbind (f s a) (loop_res l)
    end.
End Loop.
Arguments loop_res {E S A}.

Section SddDot.
  Variable VI : values_impl.
  Variable PF : platform VI.
  Variable U : Type.
  Notation V := (vt VI).
  Notation sdd := (sdd V).

  (** What the visitor writes at once: the declaration of a terminal (44, 58), of a node (72, 91), the edge of an arc of
      a flat node (76), the four lines of an arc of a hierarchical node (98-102). *)
  Inductive ditem : Type :=
  | XTerm (t : sdd)
  | XNode (t : sdd) (id : oid U)
  | XFlat (t : sdd) (v : V) (succ : sdd)
  | XHier (t : sdd) (v : sdd) (succ : sdd).

  (** to_dot_visitor, sdd/tools/dot/sdd.hh 20-110: what was written, and visited_ (26), which holds the nodes whose visit is
      finished.  [Err EUndefined]: o.identifier(), o.next() or o.nested() of an empty order, which dereference a null pointer.
      [depth] is not used by the code.  As in Tools.v, a node stands for its address. *)
  Fixpoint sdot_visit (t : sdd) (o : order U) (st : list ditem * list sdd) {struct t} : res (oerr U) (list ditem * list sdd) :=
    if visited VI PF (snd st) t then Ok st
    else
      match t with
      | Zero | One => Ok (fst st ++ [XTerm t], t :: snd st)              (* 36-62 *)
      | Flat _ arcs =>                                                   (* 64-81 *)
        match o_identifier o, o_next o with
        | Some id, Some next =>
          rbind (loop_res (fun st arc =>
                   rbind (sdot_visit (snd arc) next st) (fun st1 =>
                   Ok (fst st1 ++ [XFlat t (fst arc) (snd arc)], snd st1)))
                 arcs (fst st ++ [XNode t id], snd st)) (fun st1 =>
          Ok (fst st1, t :: snd st1))
        | _, _ => Err EUndefined
        end
      | Hier _ arcs =>                                                   (* 83-109 *)
        match o_identifier o, o_next o, o_nested o with
        | Some id, Some next, Some nested =>
          rbind (loop_res (fun st arc =>
                   rbind (sdot_visit (snd arc) next st) (fun st1 =>
                   rbind (sdot_visit (fst arc) nested st1) (fun st2 =>
                   Ok (fst st2 ++ [XHier t (fst arc) (snd arc)], snd st2))))
                 arcs (fst st ++ [XNode t id], snd st)) (fun st1 =>
          Ok (fst st1, t :: snd st1))
        | _, _, _ => Err EUndefined
        end
      end.
  Definition sdot (x : sdd) (o : order U) : res (oerr U) (list ditem) :=
    rbind (sdot_visit x o ([], [])) (fun st => Ok (fst st)).

  (** The characters.  [pa]: the address of a node, written by os << const void*; [pv], [pu]: what operator<< writes for values
      and for the identifiers of the user. *)
  Variable pa : sdd -> text.
  Variable pv : V -> text.
  Variable pu : U -> text.

  (** node_string and ghost_string, 113-129. *)
  Definition node_string (t : sdd) : text := lit "n" ++ pa t.
  Definition ghost_string (t succ : sdd) : text := lit "g" ++ pa t ++ node_string succ.
  (** The lines; std::endl (101) is a newline. *)
  Definition ditem_lines (i : ditem) : list text :=
    match i with
    | XTerm t => [node_string t ++ lit " [shape=square,label=""" ++ lit (match t with Zero => "0" | _ => "1" end) ++ lit """];"]
    | XNode t id => [node_string t ++ lit " [label=""" ++ oid_text pu id ++ lit """];"]
    | XFlat t v succ => [node_string t ++ lit " -> " ++ node_string succ ++ lit " [label=""" ++ pv v ++ lit """];"]
    | XHier t v succ =>
      let ghost := ghost_string t succ in
      [ghost ++ lit " [shape=point,label="""",height=0,width=0];";
       node_string t ++ lit " -> " ++ ghost ++ lit " [arrowhead=none];";
       ghost ++ lit " -> " ++ node_string succ ++ lit ";";
       ghost ++ lit " -> " ++ node_string v ++ lit " [style=dotted];"]
    end.
  (** operator<<, 141-148, and dot, 156-161. *)
  Definition sdot_text (x : sdd) (o : order U) : res (oerr U) text :=
    rbind (sdot x o) (fun items =>
    Ok (unlines (lit "digraph sdd {" :: concat (map ditem_lines items) ++ [lit "}"]))).
End SddDot.
Arguments XTerm {VI U}.
Arguments XNode {VI U}.
Arguments XFlat {VI U}.
Arguments XHier {VI U}.
