(** * sdd/mem/cache.hh, cache_entry.hh, lru_list.hh: the operation cache

    Entries are in the slots of a pool, linked in a hash table (without rehash) and in a list sorted by last
    access.  A slot either holds an entry ([cmem]) or belongs to the free list ([links]); using one as the other is
    undefined behaviour.  A node of the LRU list is a pair (identity of the std::list node, pointer to the entry):
    an iterator is the identity of the node. *)

From Coq Require Import List Bool NArith Arith Lia Permutation.
From Verif Require Import Base Pow2 HashTable Cached.
Import ListNotations.

Section Cache.
  Context {Op K R E : Type}.
  Variable key : Op -> K.                          (* what operator== and hash of an operation look at *)
  Variable keq : K -> K -> bool.
  Variable hash : K -> N.

  (** cache_entry, cache_entry.hh 24-61: operation, result, lru_cit_ (the hook is in the cell). *)
  Record entry : Type := { e_op : Op; e_res : R; e_cit : N }.
  Definition ekey (e : entry) : K := key (e_op e).   (* hash and == of entries, cache_entry.hh 54-60, 73-83 *)

  (** cache.hh 117-184: set_, the entries in the pool, lru_list_ (and the next fresh identity of node), the free list
      of the pool and its links, max_size_, stats_. *)
  Record cache : Type := {
    tab : table;
    cmem : @mem entry;
    lru : list (N * ptr);
    fresh : N;
    free : option ptr;
    links : ptr -> option ptr;
    max_size : N;
    hits : N; misses : N; filtered : N; discarded : N
  }.

  (** set_.bucket_count() * 0.85, as a size_t.  0.85 is the double 7656119366529843 / 2^53; its product by a power of
      two is exact, the conversion truncates. *)
  Definition max_load (nb : N) : N := (nb * 7656119366529843 / 2 ^ 53)%N.

  (** pool constructor, 154-162: the slots in order.  With [size = 0], [size - 1] wraps and the loop writes outside
      of the array. *)
  Definition slots (n : N) : list ptr := map N.of_nat (seq 0 (N.to_nat n)).
  Definition pool_links (size : N) (p : ptr) : option ptr := if N.eqb (p + 1) size then None else Some (p + 1)%N.

  (** Constructor, 195-202. *)
  Definition make_cache (size : N) : res herr cache :=
    let t := make_table size in
    let n := max_load (nb t) in
    if N.eqb n 0 then Err HUB
    else Ok {| tab := t; cmem := fun _ => None; lru := []; fresh := 0; free := Some 0%N; links := pool_links n;
               max_size := n; hits := 0; misses := 0; filtered := 0; discarded := 0 |}.

  (** pool::allocate, 164-172. *)
  Definition pool_allocate (c : cache) : res herr (ptr * cache) :=
    match free c with
    | None => Err HUB
    | Some p =>
        match cmem c p with
        | Some _ => Err HUB
        | None => Ok (p, {| tab := tab c; cmem := cmem c; lru := lru c; fresh := fresh c; free := links c p;
                            links := links c; max_size := max_size c; hits := hits c; misses := misses c;
                            filtered := filtered c; discarded := discarded c |})
        end
    end.
  (** oldest->~cache_entry_type(); pool::deallocate, 174-182. *)
  Definition destroy (p : ptr) (c : cache) : res herr cache :=
    rbind (deref (cmem c) p) (fun _ =>
    Ok {| tab := tab c; cmem := upd (cmem c) p None; lru := lru c; fresh := fresh c; free := Some p;
          links := fun q => if N.eqb q p then free c else links c q; max_size := max_size c; hits := hits c;
          misses := misses c; filtered := filtered c; discarded := discarded c |}).

  (** 213-217. *)
  Definition count_filtered (c : cache) : cache :=
    {| tab := tab c; cmem := cmem c; lru := lru c; fresh := fresh c; free := free c; links := links c;
       max_size := max_size c; hits := hits c; misses := misses c; filtered := (filtered c + 1)%N;
       discarded := discarded c |}.
  (** 238. *)
  Definition count_miss (c : cache) : cache :=
    {| tab := tab c; cmem := cmem c; lru := lru c; fresh := fresh c; free := free c; links := links c;
       max_size := max_size c; hits := hits c; misses := (misses c + 1)%N; filtered := filtered c;
       discarded := discarded c |}.
  (** 229-236: hits, splice of the node at the end; the iterator must belong to the list. *)
  Definition hit (p : ptr) (c : cache) : res herr (R * cache) :=
    rbind (deref (cmem c) p) (fun ce =>
    let id := e_cit (c_data ce) in
    match find (fun x => N.eqb (fst x) id) (lru c) with
    | None => Err HUB
    | Some x =>
        Ok (e_res (c_data ce),
            {| tab := tab c; cmem := cmem c; lru := filter (fun y => negb (N.eqb (fst y) id)) (lru c) ++ [x];
               fresh := fresh c; free := free c; links := links c; max_size := max_size c; hits := (hits c + 1)%N;
               misses := misses c; filtered := filtered c; discarded := discarded c |})
    end).
  (** 219-238: search. *)
  Definition cache_find (op : Op) (c : cache) : res herr (option R * N * cache) :=
    rbind (insert_check ekey keq hash (cmem c) (tab c) (key op)) (fun r =>
    match r with
    | (Some p, b) => rbind (hit p c) (fun rc => Ok (Some (fst rc), b, snd rc))
    | (None, b) => Ok (None, b, count_miss c)
    end).
  (** 243-252: evict the oldest entry. *)
  Definition evict (c : cache) : res herr cache :=
    match lru c with
    | [] => Err HUB
    | (_, p) :: rest =>
        rbind (erase ekey keq hash (cmem c) (tab c) p) (fun mt =>
        rbind (destroy p {| tab := snd mt; cmem := fst mt; lru := lru c; fresh := fresh c; free := free c;
                            links := links c; max_size := max_size c; hits := hits c; misses := misses c;
                            filtered := filtered c; discarded := discarded c |}) (fun c1 =>
        Ok {| tab := tab c1; cmem := cmem c1; lru := rest; fresh := fresh c1; free := free c1; links := links c1;
              max_size := max_size c1; hits := hits c1; misses := misses c1; filtered := filtered c1;
              discarded := (discarded c1 + 1)%N |}))
    end.
  (** 242-260: the new entry. *)
  Definition cache_store (op : Op) (r : R) (b : N) (c : cache) : res herr cache :=
    rbind (if N.eqb (size_ (tab c)) (max_size c) then evict c else Ok c) (fun c1 =>
    rbind (pool_allocate c1) (fun pc =>
    let '(p, c2) := pc in
    let id := fresh c2 in
    let m := upd (cmem c2) p (Some {| c_data := {| e_op := op; e_res := r; e_cit := id |}; c_next := None |}) in
    rbind (insert_commit m (tab c2) p b) (fun mt =>
    Ok {| tab := snd mt; cmem := fst mt; lru := lru c2 ++ [(id, p)]; fresh := (id + 1)%N; free := free c2;
          links := links c2; max_size := max_size c2; hits := hits c2; misses := misses c2;
          filtered := filtered c2; discarded := discarded c2 |}))).

  (** clear, 264-273: entries are destroyed, the LRU list is left as it is. *)
  Definition clear (c : cache) : res herr cache :=
    rbind (clear_and_dispose cmem destroy (tab c) c) (fun r =>
    let c' := fst r in
    Ok {| tab := snd r; cmem := cmem c'; lru := lru c'; fresh := fresh c'; free := free c'; links := links c';
          max_size := max_size c'; hits := hits c'; misses := misses c'; filtered := filtered c';
          discarded := discarded c' |}).

  (** Several caches (sdd/dd/context.hh 27-60, sdd/hom/context.hh): [kind op] is the one used by [op]. *)
  Variable kind : Op -> nat.
  Definition caches : Type := nat -> cache.
  Definition set_cache (s : caches) (i : nat) (c : cache) : caches := fun j => if Nat.eqb j i then c else s j.
  Definition note_filtered (op : Op) (s : caches) : caches := set_cache s (kind op) (count_filtered (s (kind op))).
  Definition find_op (op : Op) (s : caches) : res herr (option R * N * caches) :=
    rbind (cache_find op (s (kind op))) (fun r => Ok (fst r, set_cache s (kind op) (snd r))).
  Definition store_op (op : Op) (r : R) (b : N) (s : caches) : res herr caches :=
    rbind (cache_store op r b (s (kind op))) (fun c => Ok (set_cache s (kind op) c)).
  Definition clear_op (i : nat) (s : caches) : res herr caches :=
    rbind (clear (s i)) (fun c => Ok (set_cache s i c)).
End Cache.
Arguments entry : clear implicits.
Arguments cache : clear implicits.
Arguments caches : clear implicits.
