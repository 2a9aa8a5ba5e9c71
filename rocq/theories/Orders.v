(** * Order builders, orders and order strategies

    Model of sdd/order/order_builder.hh, order_identifier.hh, order_node.hh, order.hh,
    strategies/flatten.hh, strategies/identifiers_per_hierarchy.hh and sdd/tools/order.hh.

    [U] is C::Identifier, the type of the identifiers of the user; [ueqb] its operator==; [u0] its
    default value. *)

From Coq Require Import List Bool Arith NArith Lia.
From Verif Require Import Base.
Import ListNotations.

Section Orders.
  Variable U : Type.
  Variable ueqb : U -> U -> bool.
  Variable u0 : U.

  (** order_identifier<C>, sdd/order/order_identifier.hh 20-91: [art] is artificial_ (0 for an
      identifier of the user), [usr] is user_. *)
  Record oid : Type := { art : N; usr : U }.

  (** Constructor from a user's identifier, order_identifier.hh 51-54. *)
  Definition user_id (u : U) : oid := {| art := 0; usr := u |}.

  (** Constructor of an artificial identifier and its counter, order_identifier.hh 44-47, 82-90.
      Simplification: the counter does not wrap around after 2^32 identifiers; see OrderArtificial.v for what happens then. *)
  Definition artificial_id (counter : N) : oid * N :=
    let c := N.succ counter in ({| art := c; usr := u0 |}, c).

  (** is_artificial, order_identifier.hh 64-70. *)
  Definition is_artificial (i : oid) : bool := negb (N.eqb (art i) 0).

  (** operator==, order_identifier.hh 95-100. *)
  Definition oid_eqb (a b : oid) : bool := N.eqb (art a) (art b) && ueqb (usr a) (usr b).

  (** order_builder<C>, sdd/order/order_builder.hh 38-62. Simplification: the shared_ptr to nodes,
      whose fields are const, is identified with the value it designates. *)
  Inductive builder : Type :=
  | BNil
  | BNode (id : oid) (nested next : builder).

  (** empty, order_builder.hh 133-138. *)
  Definition b_empty (b : builder) : bool := match b with BNil => true | BNode _ _ _ => false end.

  (** The constructors from one identifier, order_builder.hh 89-127. *)
  Definition b_single (id : oid) (nested : builder) : builder := BNode id nested BNil.

  (** push, order_builder.hh 168-188 and 260-266. *)
  Definition b_push (id : oid) (nested : builder) (b : builder) : builder := BNode id nested b.

  (** The constructor from a range, order_builder.hh 73-82: the identifiers are pushed from the
      last one to the first one. *)
  Definition b_of_list (l : list U) : builder :=
    fold_left (fun b u => b_push (user_id u) BNil b) (rev l) BNil.

  (** concat and operator<<, order_builder.hh 190-196 and 246-253. *)
  Fixpoint b_concat (head next : builder) : builder :=
    match head with
    | BNode id n x => BNode id n (b_concat x next)
    | BNil => next
    end.

  (** size and node_size, order_builder.hh 198-206 and 226-243. *)
  Fixpoint b_size (b : builder) : nat :=
    match b with
    | BNil => 0
    | BNode _ n x => S (b_size n + b_size x)
    end.

  (** The loop of height, order_builder.hh 214-219. *)
  Fixpoint b_length (b : builder) : nat :=
    match b with
    | BNil => 0
    | BNode _ _ x => S (b_length x)
    end.

  (** height, order_builder.hh 208-221. [None]: the null pointer is dereferenced. *)
  Definition b_height (b : builder) : option nat :=
    match b with
    | BNil => None
    | BNode _ _ x => Some (S (b_length x))
    end.

  (** ** Orders *)

  (** order_node<C>, sdd/order/order_node.hh 27-148: pointers are indices in the vector of nodes. *)
  Record onode : Type := {
    n_id : oid;
    n_var : N;
    n_pos : nat;
    n_next : option nat;
    n_nested : option nat;
    n_path : list nat
  }.

  Inductive oerr : Type :=
  | EDuplicate (u : U)   (** duplicate_identifier_error, sdd/order/order_error.hh 91 *)
  | ENotFound (u : U)    (** identifier_not_found_error, sdd/order/order_error.hh *)
  | EUndefined           (** undefined behaviour: null pointer, out of bounds... *)
  | EFuel.               (** not enough fuel; never happens, see the theorems *)

  (** What the lambda helper of mk_nodes_ptr captures, sdd/order/order.hh 252-268.
      [s_nodes] is the vector; [None] is a default-constructed node. *)
  Record mkst : Type := { s_pos : nat; s_nodes : list (option onode); s_unicity : list U }.

  (** nodes[i] = n; [None] if out of bounds. *)
  Fixpoint store (l : list (option onode)) (i : nat) (n : onode) : option (list (option onode)) :=
    match l, i with
    | [], _ => None
    | _ :: r, 0 => Some (Some n :: r)
    | x :: r, S i => match store r i n with Some r => Some (x :: r) | None => None end
    end.

  (** helper, order.hh 267-297. On an empty builder it stands for the pair (nullptr, 0) of lines
      273-274. Simplification: variables and positions (unsigned int) do not
      overflow; see OrderWidth.v for what happens when they do. *)
  Fixpoint mk_helper (b : builder) (path : list nat) (st : mkst)
    : res oerr (option nat * N * mkst) :=
    match b with
    | BNil => Ok (None, 0%N, st)
    | BNode id nested next =>
      let current := s_pos st in
      let st := {| s_pos := S current; s_nodes := s_nodes st; s_unicity := s_unicity st |} in
      rbind (mk_helper nested (path ++ [current]) st) (fun r1 =>
      let '(nested_ptr, _, st) := r1 in
      rbind (mk_helper next path st) (fun r2 =>
      let '(next_ptr, variable, st) := r2 in
      if negb (is_artificial id) && existsb (ueqb (usr id)) (s_unicity st)
      then Err (EDuplicate (usr id))
      else
        let unicity := if is_artificial id then s_unicity st else usr id :: s_unicity st in
        match store (s_nodes st) current
                {| n_id := id; n_var := variable; n_pos := current; n_next := next_ptr;
                   n_nested := nested_ptr; n_path := path |} with
        | Some nodes =>
          Ok (Some current, N.succ variable,
              {| s_pos := s_pos st; s_nodes := nodes; s_unicity := unicity |})
        | None => Err EUndefined
        end))
    end.

  (** mk_nodes_ptr, order.hh 243-303; the null pointer is the empty vector. *)
  Definition mk_nodes (b : builder) : res oerr (list (option onode)) :=
    if b_empty b then Ok []
    else
      rbind (mk_helper b []
               {| s_pos := 0; s_nodes := repeat None (b_size b); s_unicity := [] |})
        (fun r => Ok (s_nodes (snd r))).

  (** emplace in an unordered_map: an existing key is kept. *)
  Definition emplace (k : oid) (v : nat) (m : list (oid * nat)) : list (oid * nat) :=
    if existsb (fun e => oid_eqb (fst e) k) m then m else m ++ [(k, v)].

  (** mk_identifier_to_node, order.hh 306-317. A default-constructed node is skipped here; the
      theorems show that there is none. *)
  Definition mk_map (nodes : list (option onode)) : list (oid * nat) :=
    fold_left (fun m n => match n with Some n => emplace (n_id n) (n_pos n) m | None => m end)
      nodes [].

  (** order<C>, order.hh 42-89: shared vector of nodes, mapping and head. *)
  Record order : Type := {
    o_nodes : list (option onode);
    o_map : list (oid * nat);
    o_head : option nat
  }.

  (** Constructor, order.hh 85-89. *)
  Definition mk_order (b : builder) : res oerr order :=
    rbind (mk_nodes b) (fun nodes =>
      Ok {| o_nodes := nodes; o_map := mk_map nodes;
            o_head := match nodes with [] => None | _ => Some 0 end |}).

  (** Access to a node through a pointer; [None]: undefined behaviour. *)
  Definition deref (o : order) (i : nat) : option onode :=
    match nth_error (o_nodes o) i with Some (Some n) => Some n | _ => None end.

  Definition head (o : order) : option onode :=
    match o_head o with Some i => deref o i | None => None end.

  (** empty, order.hh 154-160. *)
  Definition o_empty (o : order) : bool := match o_head o with None => true | Some _ => false end.

  (** variable, identifier, position, order.hh 112-134. *)
  Definition o_variable (o : order) : option N := option_map n_var (head o).
  Definition o_identifier (o : order) : option oid := option_map n_id (head o).
  Definition o_position (o : order) : option nat := option_map n_pos (head o).

  (** next and nested, order.hh 136-152. *)
  Definition with_head (o : order) (h : option nat) : order :=
    {| o_nodes := o_nodes o; o_map := o_map o; o_head := h |}.
  Definition o_next (o : order) : option order :=
    option_map (fun n => with_head o (n_next n)) (head o).
  Definition o_nested (o : order) : option order :=
    option_map (fun n => with_head o (n_nested n)) (head o).

  (** node, order.hh 171-184. *)
  Definition o_node (o : order) (u : U) : res oerr onode :=
    match find (fun e => oid_eqb (fst e) (user_id u)) (o_map o) with
    | Some (_, i) => match deref o i with Some n => Ok n | None => Err EUndefined end
    | None => Err (ENotFound u)
    end.

  (** node_from_position, order.hh 186-192. *)
  Definition o_node_from_position (o : order) (i : nat) : res oerr onode :=
    match deref o i with Some n => Ok n | None => Err EUndefined end.

  (** contains, order.hh 95-101. *)
  Definition o_contains (o : order) (upper nested : nat) : res oerr bool :=
    match deref o nested with
    | Some n => Ok (existsb (Nat.eqb upper) (n_path n))
    | None => Err EUndefined
    end.

  (** flat_impl, order.hh 214-232. *)
  Fixpoint flat_impl (fuel : nat) (o : order) (current : option nat) : res oerr (list U) :=
    match fuel with
    | 0 => Err EFuel
    | S fuel =>
      match current with
      | None => Ok []
      | Some i =>
        match deref o i with
        | None => Err EUndefined
        | Some n =>
          rbind (match n_nested n with
                 | Some k => flat_impl fuel o (Some k)
                 | None => Ok [usr (n_id n)]
                 end) (fun l1 =>
          rbind (flat_impl fuel o (n_next n)) (fun l2 => Ok (l1 ++ l2)))
        end
      end
    end.

  (** flat, order.hh 162-169. *)
  Definition o_flat (o : order) : res oerr (list U) :=
    flat_impl (S (length (o_nodes o))) o (o_head o).

  (** operator==, order.hh 194-210. *)
  Fixpoint order_eqb_impl (fuel : nat) (a b : order) : res oerr bool :=
    match fuel with
    | 0 => Err EFuel
    | S fuel =>
      if o_empty a then Ok (o_empty b)
      else if o_empty b then Ok false
      else
        match head a, head b with
        | Some m, Some n =>
          if Nat.eqb (n_pos m) (n_pos n) && oid_eqb (n_id m) (n_id n)
          then
            rbind (order_eqb_impl fuel (with_head a (n_nested m)) (with_head b (n_nested n)))
              (fun e => if e
                 then order_eqb_impl fuel (with_head a (n_next m)) (with_head b (n_next n))
                 else Ok false)
          else Ok false
        | _, _ => Err EUndefined
        end
    end.
  Definition order_eqb (a b : order) : res oerr bool :=
    order_eqb_impl (S (length (o_nodes a))) a b.

  (** ** Strategies *)

  (** flatten, sdd/order/strategies/flatten.hh 19-38. *)
  Fixpoint flatten (b : builder) : builder :=
    match b with
    | BNil => BNil
    | BNode id BNil next => b_concat (b_single (user_id (usr id)) BNil) (flatten next)
    | BNode _ nested next => b_concat (flatten nested) (flatten next)
    end.

  (** packetize_impl, sdd/order/strategies/identifiers_per_hierarchy.hh 66-90: the list of packets
      and the number returned. packets.front() on an empty list is undefined behaviour: [None]. *)
  Fixpoint packetize_impl (nb_variables : nat) (b : builder) : option (nat * list builder) :=
    match b with
    | BNil => Some (0, [BNil])
    | BNode id nested next =>
      match packetize_impl nb_variables next with
      | Some (nb, packets) =>
        if Nat.eqb nb nb_variables
        then Some (1, b_single id nested :: packets)
        else match packets with
             | front :: packets => Some (S nb, b_push id nested front :: packets)
             | [] => None
             end
      | None => None
      end
    end.

  (** The loop that pushes the packets, from the last one, each under a new artificial identifier,
      identifiers_per_hierarchy.hh 44-48. *)
  Fixpoint push_packets (packets_rev : list builder) (counter : N) (tmp : builder) : builder * N :=
    match packets_rev with
    | [] => (tmp, counter)
    | p :: packets_rev =>
      let '(id, counter) := artificial_id counter in
      push_packets packets_rev counter (b_push id p tmp)
    end.

  (** The loop of operator(), identifiers_per_hierarchy.hh 41-50. *)
  Fixpoint iph_loop (fuel : nat) (nb_variables : nat) (b : builder) (counter : N)
    : res oerr (builder * N) :=
    match fuel with
    | 0 => Err EFuel
    | S fuel =>
      match b_height b with
      | None => Err EUndefined
      | Some h =>
        if nb_variables <? h
        then match packetize_impl nb_variables b with
             | Some (_, packets) =>
               let '(tmp, counter) := push_packets (rev packets) counter BNil in
               iph_loop fuel nb_variables tmp counter
             | None => Err EUndefined
             end
        else Ok (b, counter)
      end
    end.

  (** operator(), identifiers_per_hierarchy.hh 32-53. *)
  Definition identifiers_per_hierarchy (fuel : nat) (nb_variables : nat) (b : builder)
    (counter : N) : res oerr (builder * N) :=
    if b_empty b || Nat.eqb nb_variables 1 then Ok (b, counter)
    else iph_loop fuel nb_variables b counter.

  (** ** Orders as JSON

      Simplification: the text is not modelled, only the JSON value: arrays and identifiers.
      [readable u] tells if mk_order_identifier, applied to the JSON value of [u], returns [u]
      (sdd/tools/order.hh 30-68); it does not, for instance, for an unsigned int not representable
      as an int. *)
  Variable readable : U -> bool.

  Inductive json : Type :=
  | JId (u : U)
  | JArray (l : list json).

  (** The items written by dump_order between the brackets, sdd/tools/order.hh 157-186, and
      dump_order itself. The order is given by its head; [fuel] bounds the depth. *)
  Fixpoint dump_items (fuel : nat) (o : order) (current : option nat) : res oerr (list json) :=
    match fuel with
    | 0 => Err EFuel
    | S fuel =>
      match current with
      | None => Ok []
      | Some i =>
        match deref o i with
        | None => Err EUndefined
        | Some n =>
          rbind (match n_nested n with
                 | Some k => rbind (dump_items fuel o (Some k)) (fun l => Ok (JArray l))
                 | None => Ok (JId (usr (n_id n)))
                 end) (fun j =>
          rbind (dump_items fuel o (n_next n)) (fun l => Ok (j :: l)))
        end
      end
    end.
  Definition dump_order (o : order) : res oerr json :=
    rbind (dump_items (S (length (o_nodes o))) o (o_head o)) (fun l => Ok (JArray l)).

  (** load_order_impl, sdd/tools/order.hh 70-91. An identifier that cannot be read is undefined
      behaviour: an exception leaves a noexcept function (tools/order.hh 34-54), or an assertion
      fails (line 65). The counter is the one of artificial identifiers. *)
  Fixpoint load_impl (j : json) (counter : N) : res oerr (builder * N) :=
    match j with
    | JArray l =>
      rbind
        ((fix loop (l : list json) (ob : builder) (counter : N) : res oerr (builder * N) :=
            match l with
            | [] => Ok (ob, counter)
            | j :: l =>
              rbind (load_impl j counter) (fun r =>
                loop l (b_concat ob (fst r)) (snd r))
            end) l BNil counter)
        (fun r =>
           let '(ob, counter) := r in
           match b_height ob with
           | None => Err EUndefined
           | Some h =>
             if Nat.eqb h 1 then Ok (ob, counter)
             else let '(id, counter) := artificial_id counter in Ok (b_single id ob, counter)
           end)
    | JId u => if readable u then Ok (b_single (user_id u) BNil, counter) else Err EUndefined
    end.

  (** load_order, sdd/tools/order.hh 95-114, for a document that is an array. *)
  Definition load_order (j : json) (counter : N) : res oerr (builder * N) :=
    rbind (load_impl j counter) (fun r =>
      let '(ob, counter) := r in
      match b_height ob, ob with
      | Some h, BNode _ nested _ =>
        if Nat.eqb h 1 && negb (b_empty nested) then Ok (nested, counter) else Ok (ob, counter)
      | _, _ => Err EUndefined
      end).
End Orders.
