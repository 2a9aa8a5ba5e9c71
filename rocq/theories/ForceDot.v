(** * The DOT export of hypergraphs, character by character *)

From Coq Require Import Ascii String List Bool Arith NArith.
From Verif Require Import Text OrderText Force.
Import ListNotations.

Section ForceDot.
  Variable U : Type.
  Variable pu : U -> text.     (* operator<< of the identifiers of the user *)
  Variable pa : nat -> text.   (* operator<< of the address of a hyperedge, given its rank in the deque *)

  (** Lines ended by std::endl. *)
  Definition unlines (l : list text) : text := concat (map (fun t => t ++ [newline]) l).

  (** The lines of a vertex, of a hyperedge, and of a vertex of a hyperedge: sdd/tools/dot/force_hypergraph.hh 27-39. *)
  Definition vertex_line (u : U) : text := lit "v" ++ pu u ++ lit "[label=""" ++ pu u ++ lit """];".
  Definition edge_line (a : text) : text := lit "h" ++ a ++ lit " [label="""",shape=point]".
  Definition link_line (a : text) (u : U) : text := lit "h" ++ a ++ lit " -- v" ++ pu u ++ lit ";".

  Definition edge_lines (vs : list (vertex U)) (k : nat) (e : hyperedge) : list text :=
    edge_line (pa k) ::
    concat (map (fun i => match nth_error vs i with Some v => [link_line (pa k) (v_id U v)] | None => [] end) (e_vertices e)).

  Fixpoint edges_lines (vs : list (vertex U)) (k : nat) (es : list hyperedge) : list text :=
    match es with [] => [] | e :: es => edge_lines vs k e ++ edges_lines vs (S k) es end.

  (** operator<< of force_hypergraph_to_dot, sdd/tools/dot/force_hypergraph.hh 22-42. *)
  Definition hypergraph_dot (g : hypergraph U) : text :=
    unlines ([lit "graph hypergraph { layout=fdp; splines=true;"]
             ++ map (fun v => vertex_line (v_id U v)) (vertices U g)
             ++ edges_lines (vertices U g) 0 (hyperedges U g)
             ++ [lit "}"]).
End ForceDot.
