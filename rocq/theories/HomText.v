(** * The textual output of homomorphisms, character by character *)

From Coq Require Import Ascii String List Bool Arith NArith Lia.
From Verif Require Import Base Sdd Text SddText Orders OrderText Hom.
Import ListNotations.

(** The texts of all the elements, if there is one for each of them. *)
Fixpoint all_texts (l : list (option text)) : option (list text) :=
  match l with
  | [] => Some []
  | None :: _ => None
  | Some t :: r => option_map (cons t) (all_texts r)
  end.

(** std::copy of all the elements but the last one to an ostream_iterator that writes [sep] after each of them, then the last
    element: sdd/hom/sum.hh 136-137, intersection.hh 114-116, saturation_fixpoint.hh 161-163. *)
Fixpoint join (sep : text) (l : list text) : text :=
  match l with
  | [] => []
  | [t] => t
  | t :: r => t ++ sep ++ join sep r
  end.

Section HomText.
  Variables V U F I : Type.
  Variable pv : V -> text.   (* operator<< of valuations *)
  Variable pu : U -> text.   (* operator<< of the identifiers of the user *)
  Variable pf : F -> text.   (* what print (function.hh 186-206) writes for the functions of the user *)
  Variable pi : I -> text.   (* what print (inductive.hh 165-184) writes for the inductives of the user *)
  Notation hom := (hom V U F I).

  Definition text2 (a b : option text) (f : text -> text -> text) : option text :=
    match a, b with Some a, Some b => Some (f a b) | _, _ => None end.
  Definition text3 (a b c : option text) (f : text -> text -> text -> text) : option text :=
    match a, b, c with Some a, Some b, Some c => Some (f a b c) | _, _, _ => None end.

  (** The part G of saturations, saturation_sum.hh 104-109 and saturation_intersection.hh 105-110: nothing if it is empty, and a
      closing parenthesis after it otherwise. *)
  Definition group_text (sep : text) (l : list text) : text :=
    match l with [] => [] | _ => join sep l ++ lit ")" end.

  (** operator<< of homomorphism (sdd/hom/definition.hh 241-246), and of each operation.  [None]: undefined behaviour, the
      operands of a sum or of an intersection, or the order of a cons, are empty.  Simplification: the variable of function,
      local and saturation fixpoint is written in decimal, i.e. variable_type is not a character type (it is unsigned int in
      the configurations of the library, sdd/conf/default_configurations.hh 26). *)
  Fixpoint hom_text (h : hom) : option text :=
    let opt := fun (o : option hom) => match o with None => Some [] | Some k => hom_text k end in
    match h with
    | HComp l r =>                                               (* composition.hh 65-70 *)
      text2 (hom_text l) (hom_text r) (fun a b => a ++ lit " o " ++ b)
    | HConsF o v n =>                                            (* cons.hh 67-73 *)
      match o_identifier o with
      | None => None
      | Some id => option_map (fun t => lit "cons(" ++ oid_text pu id ++ lit ", " ++ pv v ++ lit ", " ++ t ++ lit ")")
                     (hom_text n)
      end
    | HConsH o v n =>                                            (* cons.hh 67-73 *)
      match o_identifier o with
      | None => None
      | Some id => text2 (sdd_text V pv v) (hom_text n)
                     (fun s t => lit "cons(" ++ oid_text pu id ++ lit ", " ++ s ++ lit ", " ++ t ++ lit ")")
      end
    | HConst x => option_map (fun t => lit "const(" ++ t ++ lit ")") (sdd_text V pv x)     (* constant.hh 61-66 *)
    | HFix k => option_map (fun t => lit "(" ++ t ++ lit ")*") (hom_text k)                (* fixpoint.hh 76-81 *)
    | HFun t f => Some (lit "fun(" ++ decN t ++ lit ", " ++ pf f ++ lit ")")               (* function.hh 318-325 *)
    | HId => Some (lit "Id")                                                               (* identity.hh 63-68 *)
    | HIte p t e =>                                                                        (* if_then_else.hh 82-88 *)
      text3 (hom_text p) (hom_text t) (hom_text e)
        (fun a b c => lit "ite(" ++ a ++ lit ", " ++ b ++ lit "," ++ c ++ lit ")")
    | HInd i => Some (pi i)                                                                (* inductive.hh 318-324 *)
    | HInter l =>                                                                          (* intersection.hh 109-117 *)
      match l with
      | [] => None
      | _ => option_map (fun ts => lit "(" ++ join (lit " & ") ts ++ lit ")") (all_texts (map hom_text l))
      end
    | HLocal x k => option_map (fun t => lit "@(" ++ decN x ++ lit ", " ++ t ++ lit ")") (hom_text k)  (* local.hh 116-121 *)
    | HSatFix x f g l =>                                                                   (* saturation_fixpoint.hh 153-166 *)
      match all_texts (map hom_text g) with
      | None => None
      | Some ts =>
        text2 (hom_text f) (hom_text l)
          (fun a b => lit "Sat(@" ++ decN x ++ lit ",  " ++ a ++ lit " + " ++ b ++
                      match ts with [] => [] | _ => lit " + " ++ join (lit " + ") ts ++ lit ")*" end)
      end
    | HSatInter x f g l =>                                                                 (* saturation_intersection.hh 94-118 *)
      match all_texts (map hom_text g) with
      | None => None
      | Some ts =>
        text2 (opt f) (opt l)
          (fun a b => lit "SatInter(@" ++ decN x ++ lit ", F=" ++ a ++ lit ", G=" ++ group_text (lit " & ") ts ++
                      lit ", L=" ++ b ++ lit ")")
      end
    | HSatSum x f g l =>                                                                   (* saturation_sum.hh 94-117 *)
      match all_texts (map hom_text g) with
      | None => None
      | Some ts =>
        text2 (opt f) (opt l)
          (fun a b => lit "SatSum(@" ++ decN x ++ lit ", F=" ++ a ++ lit ", G=" ++ group_text (lit " + ") ts ++
                      lit ", L=" ++ b)
      end
    | HSum l =>                                                                            (* sum.hh 131-138 *)
      match l with
      | [] => None
      | _ => option_map (fun ts => lit "(" ++ join (lit " + ") ts ++ lit ")") (all_texts (map hom_text l))
      end
    end.
End HomText.
Arguments hom_text {V U F I}.
