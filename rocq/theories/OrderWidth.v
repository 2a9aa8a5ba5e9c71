(** * Orders whose variables and positions are machine integers

    Orders.v builds an order with unbounded variables and positions. In the code a variable has
    the type of the configuration (conf/default_configurations.hh 25-26: unsigned int by default,
    but a configuration may choose another type), and a position is an unsigned int. This file
    builds the order again with integers that wrap around: [W] is the number of variables of the
    type, [P] the number of positions.

    The helper of order.hh declares its own result as a pair with an unsigned int (line 269), so
    that for a type larger than unsigned int, [W] is the number of values of unsigned int. *)

From Coq Require Import List Bool Arith NArith.
From Verif Require Import Base Orders.
Import ListNotations.

Section Width.
  Variable U : Type.
  Variable ueqb : U -> U -> bool.
  Variable W : N.
  Variable P : nat.

  (** helper, sdd/order/order.hh 267-297. pos++ (line 271) and variable + 1 (line 296) wrap. *)
  Fixpoint mk_helper_w (b : builder U) (path : list nat) (st : mkst U)
    : res (oerr U) (option nat * N * mkst U) :=
    match b with
    | BNil _ => Ok (None, 0%N, st)
    | BNode _ id nested next =>
      let current := s_pos _ st in
      let st := {| s_pos := Nat.modulo (S current) P; s_nodes := s_nodes _ st;
                   s_unicity := s_unicity _ st |} in
      rbind (mk_helper_w nested (path ++ [current]) st) (fun r1 =>
      let '(nested_ptr, _, st) := r1 in
      rbind (mk_helper_w next path st) (fun r2 =>
      let '(next_ptr, variable, st) := r2 in
      if negb (is_artificial _ id) && existsb (ueqb (usr _ id)) (s_unicity _ st)
      then Err (EDuplicate _ (usr _ id))
      else
        let unicity :=
          if is_artificial _ id then s_unicity _ st else usr _ id :: s_unicity _ st in
        match store _ (s_nodes _ st) current
                {| n_id := id; n_var := variable; n_pos := current; n_next := next_ptr;
                   n_nested := nested_ptr; n_path := path |} with
        | Some nodes =>
          Ok (Some current, N.modulo (N.succ variable) W,
              {| s_pos := s_pos _ st; s_nodes := nodes; s_unicity := unicity |})
        | None => Err (EUndefined _)
        end))
    end.

  (** mk_nodes_ptr, order.hh 243-303. *)
  Definition mk_nodes_w (b : builder U) : res (oerr U) (list (option (onode U))) :=
    if b_empty _ b then Ok []
    else
      rbind (mk_helper_w b []
               {| s_pos := 0; s_nodes := repeat None (b_size _ b); s_unicity := [] |})
        (fun r => Ok (s_nodes _ (snd r))).

  (** Constructor, order.hh 85-89. *)
  Definition mk_order_w (b : builder U) : res (oerr U) (order U) :=
    rbind (mk_nodes_w b) (fun nodes =>
      Ok {| o_nodes := nodes; o_map := mk_map U ueqb nodes;
            o_head := match nodes with [] => None | _ => Some 0 end |}).
End Width.
