(** * The textual output of orders, character by character *)

From Coq Require Import Ascii String List Bool Arith NArith Lia.
From Verif Require Import Base Text Orders OrdersProofs.
Import ListNotations.

Definition newline : ascii := "010"%char.
Definition space : ascii := " "%char.

Section OrderText.
  Variable U : Type.
  Variable pu : U -> text.   (* operator<< of the identifiers of the user *)

  (** operator<< of order_identifier, sdd/order/order_identifier.hh 102-117. *)
  Definition oid_text (i : oid U) : text :=
    if is_artificial i then lit "@" ++ decN (art i) ++ lit "@" else pu (usr i).

  (** operator<< of order, sdd/order/order.hh 322-348; the lambda helper, 330-345.  Dereferencing a null head is undefined
      behaviour.  Simplification: [indent] (unsigned int) does not wrap around. *)
  Fixpoint order_text_impl (fuel : nat) (o : order U) (indent : nat) : res (oerr U) text :=
    match fuel with
    | 0 => Err EFuel
    | S fuel =>
      if o_empty o then Ok []
      else
        match o_identifier o, o_variable o, o_nested o, o_next o with
        | Some id, Some x, Some nested, Some next =>
          rbind (if o_empty nested then Ok [] else order_text_impl fuel nested (indent + 2)) (fun t1 =>
          rbind (if o_empty next then Ok [] else order_text_impl fuel next indent) (fun t2 =>
          Ok ((repeat space indent ++ oid_text id ++ lit " (" ++ decN x ++ lit ")" ++ [newline]) ++ t1 ++ t2)))
        | _, _, _, _ => Err EUndefined
        end
    end.
  Definition order_text (o : order U) : res (oerr U) text := order_text_impl (S (length (o_nodes o))) o 0.
End OrderText.
Arguments oid_text {U}.
Arguments order_text_impl {U}.
Arguments order_text {U}.
