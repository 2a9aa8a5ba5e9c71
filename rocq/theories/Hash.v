(** * sdd/util/hash.hh and the specializations of std::hash

    For each hashed class, its operator== and its std::hash, as functions of the object in memory.  Handles (SDD,
    homomorphism, flat_set) are their pointer.  [hint], [hptr], [huser] are the std::hash of the standard library and of
    the user for integers, pointers and user's types. *)

From Coq Require Import List Bool NArith Arith Lia.
From Verif Require Import Base HashTable Variant Orders.
Import ListNotations.

Section Hash.
  Variable hint : N -> N.                             (* std::hash of integral types *)
  Variable hptr : N -> N.                             (* std::hash<T*> *)

  (** hash_combine, hash.hh 14-20. *)
  Definition hash_combine (seed h : N) : N :=
    N.lxor seed (u64 (h + 0x9e3779b9 + u64 (N.shiftl seed 6) + N.shiftr seed 2)).
  (** hash_combine on a range, 24-33; seed(x)(val(y)), 49-93; val of an optional, 86-93; range, 97-115. *)
  Definition val (h : N) (seed : N) : N := hash_combine seed h.
  Definition val_opt (h : option N) (seed : N) : N := match h with Some h => hash_combine seed h | None => seed end.
  Definition range (hs : list N) (seed : N) : N := fold_left hash_combine hs seed.

  Section ListEq.
    Context {A : Type}.
    Variable eq : A -> A -> bool.
    (** std::equal after the comparison of the sizes. *)
    Fixpoint list_eq (l m : list A) : bool :=
      match l, m with
      | [], [] => true
      | x :: l', y :: m' => eq x y && list_eq l' m'
      | _, _ => false
      end.
  End ListEq.
  Definition opt_eq (a b : option N) : bool :=
    match a, b with
    | Some x, Some y => N.eqb x y
    | None, None => true
    | _, _ => false
    end.

  (** ** Diagrams *)

  (** Valuations: a type with its operator== and hash. *)
  Section Nodes.
    Context {W : Type}.
    Variable weq : W -> W -> bool.
    Variable whash : W -> N.
    (** arc, sdd/dd/alpha.hh 22-68, 172-183. *)
    Definition arc : Type := (W * N)%type.
    Definition arc_eq (a b : arc) : bool := N.eqb (snd a) (snd b) && weq (fst a) (fst b).
    Definition arc_hash (a : arc) : N := val (hptr (snd a)) (whash (fst a)).
    (** node, sdd/dd/node.hh 24-160, 181-192. *)
    Record node_obj : Type := { nd_var : N; nd_arcs : list arc }.
    Definition node_eq (a b : node_obj) : bool :=
      Nat.eqb (length (nd_arcs a)) (length (nd_arcs b)) && N.eqb (nd_var a) (nd_var b)
      && list_eq arc_eq (nd_arcs a) (nd_arcs b).
    Definition node_hash (a : node_obj) : N := range (map arc_hash (nd_arcs a)) (hint (nd_var a)).
  End Nodes.

  (** The unified data of SDDs, sdd/dd/definition.hh 53-54, with sdd/mem/variant.hh 91-97 and 175-186; terminals,
      sdd/dd/terminal.hh 20-93.  Flat valuations have type [W]; hierarchical ones are SDDs. *)
  Section Sdds.
    Context {W : Type}.
    Variable weq : W -> W -> bool.
    Variable whash : W -> N.
    Inductive sdd_obj : Type :=
    | OZero
    | OOne
    | OFlat (n : @node_obj W)
    | OHier (n : @node_obj N).
    Definition sdd_index (x : sdd_obj) : N := match x with OZero => 0 | OOne => 1 | OFlat _ => 2 | OHier _ => 3 end.
    Definition sdd_obj_eq (x y : sdd_obj) : bool :=
      match x, y with
      | OZero, OZero => true
      | OOne, OOne => true
      | OFlat a, OFlat b => node_eq weq a b
      | OHier a, OHier b => node_eq N.eqb a b
      | _, _ => false
      end.
    Definition sdd_obj_hash (x : sdd_obj) : N :=
      val (hint (sdd_index x))
        (match x with
         | OZero => 0
         | OOne => 1
         | OFlat a => node_hash whash a
         | OHier a => node_hash hptr a
         end)%N.
  End Sdds.

  (** Cache keys: difference_op, sdd/dd/difference.hh 154-160, 242-253; nary_op, sdd/dd/nary.hh 123-129, 267-278;
      cached_homomorphism, sdd/hom/evaluation.hh 115-121, 160-171.  Their members are SDDs or homomorphisms. *)
  Definition pair_eq (a b : N * N) : bool := N.eqb (fst a) (fst b) && N.eqb (snd a) (snd b).
  Definition pair_hash (a : N * N) : N := val (hptr (snd a)) (hptr (fst a)).
  Definition nary_eq (a b : list N) : bool := Nat.eqb (length a) (length b) && list_eq N.eqb a b.
  Definition nary_hash (a : list N) : N := range (map hptr a) 0.

  (** Values of a flat_set, sdd/values/flat_set.hh 525-536: boost's == compares the sizes and the elements. *)
  Section FlatSets.
    Context {A : Type}.
    Variable aeq : A -> A -> bool.
    Variable ahash : A -> N.
    Definition fset_eq (a b : list A) : bool := Nat.eqb (length a) (length b) && list_eq aeq a b.
    Definition fset_hash (a : list A) : N := range (map ahash a) 0.
  End FlatSets.

  (** ** Orders *)

  Section Orders.
    Variable U : Type.
    Variable ueqb : U -> U -> bool.
    Variable uhash : U -> N.
    (** order_identifier, sdd/order/order_identifier.hh 95-100, 128-139. *)
    Definition oid_hash (i : oid U) : N := val (uhash (usr U i)) (hint (art U i)).

    (** order, sdd/order/order.hh 68-75, 359-370: nodes_ptr_.get() and head_ are addresses. *)
    Record order_obj : Type := { oo_nodes : N; oo_head : N; oo_val : order U }.
    Definition order_obj_eq (a b : order_obj) : res (oerr U) bool := order_eqb U ueqb (oo_val a) (oo_val b).
    Definition order_obj_hash (a : order_obj) : N := val (hptr (oo_head a)) (hptr (oo_nodes a)).

    (** ** Homomorphisms

        The unified data, sdd/hom/definition.hh 45-59.  Operands are handles; [F] and [I] are the functions and the
        inductive homomorphisms of the user, with their type, compared by typeid and operator== (function.hh 111-126,
        inductive.hh 136-152). *)
    Context {W F I : Type}.
    Variables (weq : W -> W -> bool) (whash : W -> N).
    Variables (feq : F -> F -> bool) (fhash : F -> N).
    Variables (ieq : I -> I -> bool) (ihash : I -> N).

    Inductive hom_obj : Type :=
    | OComp (left right : N)
    | OConsH (o : order_obj) (v : N) (next : N)
    | OConsF (o : order_obj) (v : W) (next : N)
    | OConst (x : N)
    | OFix (h : N)
    | OFun (target : N) (f : F)
    | OId
    | OIte (c t e : N)
    | OInd (i : I)
    | OInter (operands : list N)
    | OLocal (target : N) (h : N)
    | OSatFix (x : N) (f : N) (g : list N) (l : N)
    | OSatInter (x : N) (f : option N) (g : list N) (l : option N)
    | OSatSum (x : N) (f : option N) (g : list N) (l : option N)
    | OSum (operands : list N).

    Definition hom_index (h : hom_obj) : N :=
      match h with
      | OComp _ _ => 0 | OConsH _ _ _ => 1 | OConsF _ _ _ => 2 | OConst _ => 3 | OFix _ => 4 | OFun _ _ => 5 | OId => 6
      | OIte _ _ _ => 7 | OInd _ => 8 | OInter _ => 9 | OLocal _ _ => 10 | OSatFix _ _ _ _ => 11
      | OSatInter _ _ _ _ => 12 | OSatSum _ _ _ _ => 13 | OSum _ => 14
      end%N.

    (** operator==: composition.hh 57-63, cons.hh 59-65, constant.hh 53-59, fixpoint.hh 68-74, function.hh 310-316,
        identity.hh, if_then_else.hh 74-80, inductive.hh, intersection.hh 101-107, local.hh, saturation_*.hh, sum.hh
        123-129.  The comparison of orders may fail in the model ([Err]). *)
    Definition hom_obj_eq (a b : hom_obj) : res (oerr U) bool :=
      match a, b with
      | OComp l r, OComp l' r' => Ok (N.eqb l l' && N.eqb r r')
      | OConsH o v n, OConsH o' v' n' =>
          if N.eqb v v' && N.eqb n n' then order_obj_eq o o' else Ok false
      | OConsF o v n, OConsF o' v' n' =>
          if weq v v' && N.eqb n n' then order_obj_eq o o' else Ok false
      | OConst x, OConst x' => Ok (N.eqb x x')
      | OFix h, OFix h' => Ok (N.eqb h h')
      | OFun t f, OFun t' f' => Ok (N.eqb t t' && feq f f')
      | OId, OId => Ok true
      | OIte c t e, OIte c' t' e' => Ok (N.eqb c c' && N.eqb t t' && N.eqb e e')
      | OInd i, OInd i' => Ok (ieq i i')
      | OInter l, OInter l' => Ok (nary_eq l l')
      | OLocal t h, OLocal t' h' => Ok (N.eqb t t' && N.eqb h h')
      | OSatFix x f g l, OSatFix x' f' g' l' =>
          Ok (N.eqb x x' && N.eqb f f' && N.eqb l l' && nary_eq g g')
      | OSatInter x f g l, OSatInter x' f' g' l' =>
          Ok (N.eqb x x' && opt_eq f f' && opt_eq l l' && nary_eq g g')
      | OSatSum x f g l, OSatSum x' f' g' l' =>
          Ok (N.eqb x x' && opt_eq f f' && opt_eq l l' && nary_eq g g')
      | OSum l, OSum l' => Ok (nary_eq l l')
      | _, _ => Ok false
      end.

    (** The std::hash of each class, under that of the variant (variant.hh 175-186). *)
    Definition hom_obj_hash (h : hom_obj) : N :=
      val (hint (hom_index h))
        (match h with
         | OComp l r => val (hptr r) (hptr l)                            (* composition.hh 152-163 *)
         | OConsH o v n => val (hptr n) (val (hptr v) (order_obj_hash o))  (* cons.hh 110-121 *)
         | OConsF o v n => val (hptr n) (val (whash v) (order_obj_hash o))
         | OConst x => hptr x                                            (* constant.hh 103-114 *)
         | OFix h => val (hptr h) 345789                                 (* fixpoint.hh 136-147 *)
         | OFun t f => val (hint t) (fhash f)                            (* function.hh 360-371 *)
         | OId => 607769                                                 (* identity.hh 97-108 *)
         | OIte c t e => val (hptr e) (val (hptr t) (hptr c))            (* if_then_else.hh 135-146 *)
         | OInd i => ihash i                                             (* inductive.hh 351-361 *)
         | OInter l => range (map hptr l) 0                              (* intersection.hh 229-240 *)
         | OLocal t h => val (hptr h) (hint t)                           (* local.hh 161-172 *)
         | OSatFix x f g l =>                                            (* saturation_fixpoint.hh 220-231 *)
             range (map hptr g) (val (hptr l) (val (hptr f) (hint x)))
         | OSatInter x f g l | OSatSum x f g l =>                        (* saturation_intersection.hh, saturation_sum.hh *)
             range (map hptr g) (val_opt (option_map hptr l) (val_opt (option_map hptr f) (hint x)))
         | OSum l => range (map hptr l) 0                                (* sum.hh 266-277 *)
         end)%N.
  End Orders.
End Hash.

(** ** Facts *)

Lemma list_eq_map : forall (A : Type) (eq : A -> A -> bool) (h : A -> N), (forall a b, eq a b = true -> h a = h b) ->
  forall l m, list_eq eq l m = true -> map h l = map h m.
Proof.
  intros A eq h H. induction l as [|x l IH]; intros [|y m] E; try discriminate; [reflexivity|].
  cbn [list_eq] in E. apply andb_prop in E. destruct E as [E1 E2]. cbn [map]. f_equal; auto.
Qed.
Lemma list_eqb_eq : forall l m, list_eq N.eqb l m = true <-> l = m.
Proof.
  induction l as [|x l IH]; intros [|y m]; cbn [list_eq]; split; try discriminate; try reflexivity.
  - intros E. apply andb_prop in E. destruct E as [E1 E2]. apply N.eqb_eq in E1. apply IH in E2. now subst.
  - intros [= -> ->]. rewrite N.eqb_refl. now apply IH.
Qed.
