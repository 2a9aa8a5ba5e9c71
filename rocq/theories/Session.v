(** * Sessions: operations and homomorphisms mixed, through the caches, while addresses change

    The model of the whole library as a user sees it between the creation of the manager and its end: union, intersection and
    difference (Moving.v) and applications of homomorphisms (MovingHom.v) in any sequence, all going through the caches of
    Cache.v, of any sizes, in which results of former operations stay, are evicted and are removed by clear().

    Simplification: hash() is a function of the operation.  In the library it depends on the addresses of operands, which do not
    change as long as an entry refers to them. *)

From Coq Require Import List Bool NArith Arith.
From Verif Require Import Base SortedSets Values Sdd Orders DDModel Hom Pow2 HashTable Cached Cache CacheProps HomCacheProps
  Moving MovingHom.
Import ListNotations.

Section Session.
  Variable VI : values_impl.
  Variable PF : platform VI.
  Variable O : oracle.
  Notation V := (vt VI).
  Notation sdd := (sdd V).
  Variables U F I : Type.
  Notation hom := (hom V U F I).
  Notation hop := (hop VI U F I).
  Notation order := (order U).
  Variable US : user V U F I.
  Variable HP : hplatform V U F I.
  Variable dd_hash : ddop V -> N.
  Variable hom_hash : hom * sdd -> N.

  (** The three caches of sdd/dd/context.hh 20-60 and the one of sdd/hom/context.hh 20-45. *)
  Notation ddc := (caches (ddop V) sdd).
  Notation homc := (caches hop sdd).
  (** An undefined behaviour of a cache is one of the operation. *)
  Definition dd_memo : memo (ddop V) sdd (err V) ddc := {|
    c_find := fun op s =>
      match find_op (fun op => op) (ddop_eqb VI PF) dd_hash (dd_kind VI) op s with
      | Ok (r, b, s') => (Ok (r, b), s')
      | Err _ => (Err EUB, s)
      end;
    c_store := fun op r b s =>
      match store_op (fun op => op) (ddop_eqb VI PF) dd_hash (dd_kind VI) op r b s with
      | Ok s' => (Ok tt, s')
      | Err _ => (Err EUB, s)
      end
  |}.
  Definition hom_memo : filtered_memo hop sdd (err V) homc := {|
    f_memo := {|
      c_find := fun op s =>
        match find_op (hkey VI U F I) (hkey_eqb VI PF U F I HP) hom_hash (fun _ => 0) op s with
        | Ok (r, b, s') => (Ok (r, b), s')
        | Err _ => (Err EUB, s)
        end;
      c_store := fun op r b s =>
        match store_op (hkey VI U F I) (hkey_eqb VI PF U F I HP) hom_hash (fun _ => 0) op r b s with
        | Ok s' => (Ok tt, s')
        | Err _ => (Err EUB, s)
        end
    |};
    f_accept := should_cache VI U F I;
    f_skip := fun op s => note_filtered (fun _ => 0) op s
  |}.
  Notation M := (M VI ddc homc).

  (** What a user can ask for.  In an application, [alarm] says which calls of user code throw (MovingHom.v). *)
  Inductive command : Type :=
  | SUnion (l : list sdd)
  | SIntersection (l : list sdd)
  | SDifference (x y : sdd)
  | SApply (alarm : nat -> bool) (o : order) (h : hom) (x : sdd)
  | SClearOperations
  | SClearHomomorphisms.

  (** cache::clear(), sdd/mem/cache.hh 264-273, of the cache [i]. *)
  Definition clear_cache {Op R : Type} (i : nat) (s : caches Op R) : res (err V) unit * caches Op R :=
    match clear_op i s with
    | Ok s' => (Ok tt, s')
    | Err _ => (Err EUB, s)
    end.
  Definition answer (p : M sdd) : M (option sdd) := mbind VI p (fun r => mret VI (Some r)).
  (** SClearOperations: sdd/dd/context.hh 103-111.  SClearHomomorphisms: sdd/hom/context.hh 75-81, sdd/manager.hh 187-194.
      [n] and [fuel] bound the model of the evaluation of homomorphisms. *)
  Definition run_command (n fuel : nat) (c : command) : M (option sdd) :=
    match c with
    | SUnion l => answer (mv_sum VI PF O dd_memo l)
    | SIntersection l => answer (mv_inter VI PF O dd_memo l)
    | SDifference x y => answer (mv_minus VI PF O dd_memo x y)
    | SApply alarm o h x => answer (mv_apply VI PF O dd_memo U F I hom_memo US alarm n fuel o h x)
    | SClearOperations =>
        mbind VI (on_dd VI (clear_cache 2)) (fun _ =>
        mbind VI (on_dd VI (clear_cache 1)) (fun _ =>
        mbind VI (on_dd VI (clear_cache 0)) (fun _ => mret VI None)))
    | SClearHomomorphisms => mbind VI (on_hom VI (clear_cache 0)) (fun _ => mret VI None)
    end.
  (** The commands one after the other: an exception is for the user, who goes on. *)
  Fixpoint run_session (n fuel : nat) (l : list command) (s : memory ddc homc)
    : list (res (err V) (option sdd)) * memory ddc homc :=
    match l with
    | [] => ([], s)
    | c :: l' =>
        let '(r, s1) := run_command n fuel c s in
        let '(rs, s2) := run_session n fuel l' s1 in
        (r :: rs, s2)
    end.
End Session.
