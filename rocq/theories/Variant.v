(** * sdd/util/typelist.hh, sdd/mem/variant.hh, sdd/mem/variant_impl.hh: tagged unions and visitors

    A C++ type is an element of [Ty]; [T t] is the set of values of type [t].  The storage of a variant holds a value
    together with the type it was constructed with (which the program cannot observe): reading it as another type is
    undefined behaviour ([VUB]), like reading past a jump table. *)

From Coq Require Import List Bool NArith Arith Lia Eqdep_dec.
From Verif Require Import Base.
Import ListNotations.

Inductive verr : Type := VUB | VUnreachable.

Section Typelist.
  Context {Ty : Type}.
  Variable ty_dec : forall a b : Ty, {a = b} + {a <> b}.

  (** util::index_of, typelist.hh 14-25; [None]: no such instantiation (compilation error). *)
  Fixpoint index_of (t : Ty) (l : list Ty) : option nat :=
    match l with
    | [] => None
    | h :: r => if ty_dec t h then Some 0 else option_map S (index_of t r)
    end.

  (** util::nth, 30-43. *)
  Fixpoint nth_ty (i : nat) (l : list Ty) : option Ty :=
    match l, i with
    | [], _ => None
    | h :: _, O => Some h
    | _ :: r, S j => nth_ty j r
    end.

  (** util::mul, 62-63. *)
  Definition mul (x : Ty) (ys : list Ty) : list (Ty * Ty) := map (fun y => (x, y)) ys.

  (** util::cat, 69-88: cat<X> is X; cat<X, Y, Zs...> is cat<cat<X, Y>, Zs...>. *)
  Fixpoint cat (x : list (Ty * Ty)) (zs : list (list (Ty * Ty))) : list (Ty * Ty) :=
    match zs with
    | [] => x
    | y :: r => cat (x ++ y) r
    end.

  (** util::join, 92-100; cat<> without argument does not compile: variants have at least a type (variant.hh 49). *)
  Definition join (xs ys : list Ty) : option (list (Ty * Ty)) :=
    match map (fun x => mul x ys) xs with
    | [] => None
    | x :: r => Some (cat x r)
    end.
End Typelist.

(** mem::largest_alignment and mem::largest_size, variant_impl.hh 21-52: of a non-empty list. *)
Fixpoint largest (head : N) (tail : list N) : N :=
  match tail with
  | [] => head
  | h :: r => let t := largest h r in if (head <? t)%N then t else head
  end.

Section Variant.
  Context {Ty : Type}.
  Variable ty_dec : forall a b : Ty, {a = b} + {a <> b}.
  Variable T : Ty -> Type.

  (** mem::variant, variant.hh 39-98: the index (a uint8_t) and the storage. *)
  Record variant (Types : list Ty) : Type := { index : N; dyn : Ty; storage : T dyn }.
  Arguments index {Types}. Arguments dyn {Types}. Arguments storage {Types}.

  (** The two static_assert, variant.hh 49-54. *)
  Definition accepted (Types : list Ty) : Prop := 1 <= length Types <= 255.

  (** Constructor, 69-76; index_of is converted to uint8_t. *)
  Definition construct (Types : list Ty) (t : Ty) (x : T t) : option (variant Types) :=
    option_map (fun i => {| index := N.of_nat i mod 256; dyn := t; storage := x |}) (index_of ty_dec t Types).

  (** static_cast<const X*>(&storage), variant_impl.hh 138 and 169; reinterpret_cast, variant.hh 132. *)
  Definition read {Types} (v : variant Types) (t : Ty) : res verr (T t) :=
    match ty_dec (dyn v) t with
    | left e => Ok (eq_rect _ T (storage v) _ e)
    | right _ => Err VUB
    end.

  (** is<T>, variant.hh 103-111; variant_cast, 126-133. *)
  Definition is {Types} (t : Ty) (v : variant Types) : option bool :=
    option_map (fun i => N.eqb (index v) (N.of_nat i)) (index_of ty_dec t Types).
  Definition variant_cast {Types} (t : Ty) (v : variant Types) : res verr (T t) := read v t.

  (** A visitor: for each type, the overload selected for it; its outcome may be an error. *)
  Section Visit.
    Context {R : Type}.
    Variable vis : forall t, T t -> res verr R.
    (** call, variant_impl.hh 132-139. *)
    Definition call_as {Types} (t : Ty) (v : variant Types) : res verr R := rbind (read v t) (vis t).
    (** apply_visitor, 143-159: the table of the instantiations of call, indexed by the index. *)
    Definition apply_visitor {Types} (v : variant Types) : res verr R :=
      match nth_error (map (fun t => @call_as Types t) Types) (N.to_nat (index v)) with
      | Some f => f v
      | None => Err VUB
      end.
  End Visit.

  Section BinaryVisit.
    Context {R : Type}.
    Variable vis : forall t u, T t -> T u -> res verr R.
    (** binary_call, 163-170. *)
    Definition binary_call {Xs Ys} (tu : Ty * Ty) (x : variant Xs) (y : variant Ys) : res verr R :=
      rbind (read x (fst tu)) (fun a => rbind (read y (snd tu)) (fun b => vis (fst tu) (snd tu) a b)).
    (** apply_binary_visitor, 190-205, with the table of binary_jump_table, 178-187. *)
    Definition apply_binary_visitor {Xs Ys} (x : variant Xs) (y : variant Ys) : res verr R :=
      match join Xs Ys with
      | None => Err VUB
      | Some l =>
          match nth_error (map (fun tu => @binary_call Xs Ys tu) l)
                  (N.to_nat (index x) * length Ys + N.to_nat (index y)) with
          | Some f => f x y
          | None => Err VUB
          end
      end.
  End BinaryVisit.

  (** eq_visitor, 106-125: the comparison of a type with itself, or __builtin_unreachable(). *)
  Definition eq_visitor (eqt : forall t, T t -> T t -> bool) (t u : Ty) (x : T t) (y : T u) : res verr bool :=
    match ty_dec t u with
    | left e => Ok (eqt u (eq_rect _ T x _ e) y)
    | right _ => Err VUnreachable
    end.
  (** operator==, variant.hh 91-97. *)
  Definition variant_eq (eqt : forall t, T t -> T t -> bool) {Types} (x y : variant Types) : res verr bool :=
    if N.eqb (index x) (index y) then apply_binary_visitor (eq_visitor eqt) x y else Ok false.

  (** union_storage with Len = 0 (variant.hh 63), 59-73: size and alignment of the storage. *)
  Definition storage_size (sizeof : Ty -> N) (Types : list Ty) : option N :=
    match map sizeof Types with
    | [] => None
    | h :: r => Some (N.max 0 (largest h r))
    end.
  Definition storage_alignment (packed : bool) (alignof : Ty -> N) (Types : list Ty) : option N :=
    match map alignof Types with
    | [] => None
    | h :: r => Some (if packed then 1%N else largest h r)
    end.
End Variant.

(** ** Facts *)

Section Facts.
  Context {Ty : Type}.
  Variable ty_dec : forall a b : Ty, {a = b} + {a <> b}.

  Lemma index_of_nth : forall t l i, index_of ty_dec t l = Some i -> nth_error l i = Some t /\ i < length l.
  Proof.
    intros t l. induction l as [|h r IH]; [discriminate|]. intros i. cbn [index_of].
    destruct (ty_dec t h) as [->|n]; [intros [= <-]; split; [reflexivity|cbn; lia]|].
    destruct (index_of ty_dec t r) as [j|] eqn:E; [|discriminate]. cbn. intros [= <-].
    destruct (IH j eq_refl). split; [assumption|lia].
  Qed.
  Lemma index_of_in : forall t l, In t l -> exists i, index_of ty_dec t l = Some i.
  Proof.
    intros t l. induction l as [|h r IH]; [intros []|]. intros [->|H]; cbn [index_of].
    - destruct (ty_dec t t) as [_|n]; [eauto|now elim n].
    - destruct (ty_dec t h); [eauto|]. destruct (IH H) as (i & ->). cbn. eauto.
  Qed.
  Lemma index_of_inj : forall t u l i, index_of ty_dec t l = Some i -> index_of ty_dec u l = Some i -> t = u.
  Proof.
    intros t u l i A B. apply index_of_nth in A, B. destruct A, B. congruence.
  Qed.

  Lemma cat_concat : forall zs x, @cat Ty x zs = x ++ concat zs.
  Proof.
    induction zs as [|y r IH]; intros x; cbn [cat concat]; [now rewrite app_nil_r|].
    now rewrite IH, app_assoc.
  Qed.
  Lemma nth_grid : forall (xs ys : list Ty) i j x y, nth_error xs i = Some x -> nth_error ys j = Some y ->
    nth_error (concat (map (fun x => mul x ys) xs)) (i * length ys + j) = Some (x, y).
  Proof.
    intros xs ys. induction xs as [|a xs IH]; intros [|i] j x y Hx Hy; try discriminate; cbn [map concat].
    - injection Hx as ->. assert (j < length ys) by (apply nth_error_Some; congruence).
      rewrite nth_error_app1 by (unfold mul; rewrite map_length; lia).
      cbn [Nat.mul Nat.add]. unfold mul. now apply map_nth_error.
    - rewrite nth_error_app2 by (unfold mul; rewrite map_length; cbn; lia).
      replace (S i * length ys + j - length (mul a ys)) with (i * length ys + j)
        by (unfold mul; rewrite map_length; cbn; lia).
      now apply IH.
  Qed.
  Lemma join_nth : forall (xs ys : list Ty) i j x y, nth_error xs i = Some x -> nth_error ys j = Some y ->
    exists l, join xs ys = Some l /\ nth_error l (i * length ys + j) = Some (x, y).
  Proof.
    intros xs ys i j x y Hx Hy. unfold join. destruct xs as [|a xs]; [now destruct i|]. cbn [map].
    eexists. split; [reflexivity|]. rewrite cat_concat. exact (nth_grid (a :: xs) ys i j x y Hx Hy).
  Qed.

  Lemma largest_ge : forall tail head x, In x (head :: tail) -> (x <= largest head tail)%N.
  Proof.
    induction tail as [|h r IH]; intros head x; cbn [largest].
    - intros [->|[]]. lia.
    - intros [->|H]; [destruct (N.ltb_spec x (largest h r)); lia|].
      specialize (IH h x H). destruct (N.ltb_spec head (largest h r)); lia.
  Qed.
  Lemma largest_in : forall tail head, In (largest head tail) (head :: tail).
  Proof.
    induction tail as [|h r IH]; intros head; cbn [largest]; [now left|].
    destruct (N.ltb_spec head (largest h r)); [right; apply IH|now left].
  Qed.
End Facts.
