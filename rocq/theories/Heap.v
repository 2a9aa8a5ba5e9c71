(** * sdd/mem/unique_table.hh, unique.hh, ptr.hh: unified data and their handles

    The heap: blocks returned by new char[] (with their size), the nodes constructed in them, the unicity table, the
    block kept by the unicity table, and the variables of type ptr (SDD, homomorphism) of a program.  A node is a label
    (variable, valuations) and the pointers stored in it (successors, hierarchical valuations).  Choices of the system
    allocator are arguments of operations. *)

From Coq Require Import List Bool NArith Arith Lia Permutation.
From Verif Require Import Base Pow2 HashTable.
Import ListNotations.

(** Variables of a program, and what they hold; [None] after a move. *)
Definition var : Type := nat.
Section Env.
  Context {A : Type}.
  Fixpoint get (e : list (var * option A)) (v : var) : option (option A) :=
    match e with
    | [] => None
    | (w, p) :: e' => if Nat.eqb v w then Some p else get e' v
    end.
  Fixpoint put (e : list (var * option A)) (v : var) (p : option A) : list (var * option A) :=
    match e with
    | [] => []
    | (w, q) :: e' => if Nat.eqb v w then (w, p) :: e' else (w, q) :: put e' v p
    end.
  Fixpoint drop (e : list (var * option A)) (v : var) : list (var * option A) :=
    match e with
    | [] => []
    | (w, q) :: e' => if Nat.eqb v w then e' else (w, q) :: drop e' v
    end.
End Env.

Section Heap.
  Context {L : Type}.
  Variable leqb : L -> L -> bool.                       (* equality of labels *)
  Variable hash : L * list ptr -> N.                    (* hash of the data *)
  Variable bytes : L * list ptr -> N.                   (* sizeof(Unique) + extra_bytes *)

  Definition node : Type := (L * list ptr)%type.
  (** unique, unique.hh 44-67: ref_count_ (uint32_t) and data_; the hook is in the cell. *)
  Record uniq : Type := { u_ref : N; u_data : node }.
  Fixpoint ptrs_eqb (l m : list ptr) : bool :=
    match l, m with
    | [], [] => true
    | p :: l', q :: m' => N.eqb p q && ptrs_eqb l' m'
    | _, _ => false
    end.
  (** operator== of unified data (unique.hh 86-92): labels, and pointers of the nested SDDs. *)
  Definition node_eqb (a b : node) : bool := leqb (fst a) (fst b) && ptrs_eqb (snd a) (snd b).

  Record heap : Type := {
    hm : @mem uniq;
    ht : table;
    blocks : ptr -> option N;                           (* allocated blocks, and their size *)
    ucache : option ptr; ucsize : N;                    (* unique_table: cache_, cache_size_ *)
    env : list (var * option ptr);
    access : N; uhits : N; umisses : N; upeak : N        (* stats_ *)
  }.
  Definition with_mem (m : @mem uniq) (h : heap) : heap :=
    {| hm := m; ht := ht h; blocks := blocks h; ucache := ucache h; ucsize := ucsize h; env := env h;
       access := access h; uhits := uhits h; umisses := umisses h; upeak := upeak h |}.
  Definition with_table (m : @mem uniq) (t : table) (h : heap) : heap :=
    {| hm := m; ht := t; blocks := blocks h; ucache := ucache h; ucsize := ucsize h; env := env h;
       access := access h; uhits := uhits h; umisses := umisses h; upeak := upeak h |}.
  Definition with_blocks (b : ptr -> option N) (c : option ptr) (n : N) (h : heap) : heap :=
    {| hm := hm h; ht := ht h; blocks := b; ucache := c; ucsize := n; env := env h;
       access := access h; uhits := uhits h; umisses := umisses h; upeak := upeak h |}.
  Definition with_env (e : list (var * option ptr)) (h : heap) : heap :=
    {| hm := hm h; ht := ht h; blocks := blocks h; ucache := ucache h; ucsize := ucsize h; env := e;
       access := access h; uhits := uhits h; umisses := umisses h; upeak := upeak h |}.
  Definition with_stats (a b c d : N) (h : heap) : heap :=
    {| hm := hm h; ht := ht h; blocks := blocks h; ucache := ucache h; ucsize := ucsize h; env := env h;
       access := a; uhits := b; umisses := c; upeak := d |}.

  Definition upd_block (b : ptr -> option N) (p : ptr) (n : option N) : ptr -> option N :=
    fun q => if N.eqb q p then n else b q.
  (** delete[]. *)
  Definition free_block (p : ptr) (h : heap) : res herr heap :=
    match blocks h p with
    | None => Err HUB
    | Some _ => Ok (with_blocks (upd_block (blocks h) p None) (ucache h) (ucsize h) h)
    end.

  (** ++ref_count_, unique.hh 94-101. *)
  Definition set_ref (m : @mem uniq) (p : ptr) (c : cell) (r : N) : @mem uniq :=
    upd m p (Some {| c_data := {| u_ref := r; u_data := u_data (c_data c) |}; c_next := c_next c |}).
  Definition incr (p : ptr) (h : heap) : res herr heap :=
    rbind (deref (hm h) p) (fun c =>
    if N.eqb (u_ref (c_data c)) (2 ^ 32 - 1) then Err HAssert
    else Ok (with_mem (set_ref (hm h) p c (u_ref (c_data c) + 1)) h)).

  (** Decrement and, if there is no more reference, call the deletion handler, ptr.hh 100-107, 124-131, 141-148:
      unique_table::erase, unique_table.hh 147-156.  The destructor of the node destroys the nested pointers. *)
  Fixpoint release (fuel : nat) (p : ptr) (h : heap) : res herr heap :=
    match fuel with
    | O => Err HFuel
    | S f =>
        rbind (deref (hm h) p) (fun c =>
        if N.eqb (u_ref (c_data c)) 0 then Err HAssert
        else
          let h1 := with_mem (set_ref (hm h) p c (u_ref (c_data c) - 1)) h in
          if N.eqb (u_ref (c_data c) - 1) 0 then
            rbind (erase (fun d => u_data d) node_eqb hash (hm h1) (ht h1) p) (fun mt =>
            rbind (deref (fst mt) p) (fun c1 =>
            rbind (fold_left (fun r q => rbind r (release f q)) (snd (u_data (c_data c1)))
                             (Ok (with_table (fst mt) (snd mt) h1))) (fun h2 =>
            free_block p (with_mem (upd (hm h2) p None) h2))))
          else Ok h1)
    end.
  Definition release_all (h : heap) (p : ptr) : res herr heap := release (S (N.to_nat (size_ (ht h)))) p h.

  (** The pointer held by a variable. *)
  Definition held (h : heap) (v : var) : res herr ptr :=
    match get (env h) v with
    | Some (Some p) => Ok p
    | _ => Err HAssert
    end.
  (** A source of copy: a variable, or a pointer stored in the node designated by a variable (the reference returned by
      arc::successor() or arc::valuation()). *)
  Inductive source : Type :=
  | SVar (v : var)
  | SNested (v : var) (i : nat).
  (** Where the reference is bound: the variable, or the address of the node. *)
  Definition bind_source (h : heap) (s : source) : res herr (var + ptr * nat) :=
    match s with
    | SVar v => Ok (inl v)
    | SNested v i => rbind (held h v) (fun p => Ok (inr (p, i)))
    end.
  (** other.x_: reads the variable, or the memory of the node. *)
  Definition read_source (h : heap) (s : var + ptr * nat) : res herr ptr :=
    match s with
    | inl v => held h v
    | inr (p, i) =>
        rbind (deref (hm h) p) (fun c =>
        match nth_error (snd (u_data (c_data c))) i with
        | Some q => Ok q
        | None => Err HUB
        end)
    end.

  (** unique_table::allocate, unique_table.hh 126-142; [a] is what new char[] returns. *)
  Definition allocate (n : N) (a : ptr) (h : heap) : res herr (ptr * heap) :=
    match ucache h with
    | Some p =>
        if (n <=? ucsize h)%N then Ok (p, with_blocks (blocks h) None 0%N h)
        else match blocks h a with
             | Some _ => Err HUB
             | None => Ok (a, with_blocks (upd_block (blocks h) a (Some n)) (ucache h) (ucsize h) h)
             end
    | None =>
        match blocks h a with
        | Some _ => Err HUB
        | None => Ok (a, with_blocks (upd_block (blocks h) a (Some n)) (ucache h) (ucsize h) h)
        end
    end.
  (** Placement new: the block must be large enough and unused; nested pointers are copied. *)
  Definition construct (p : ptr) (d : node) (h : heap) : res herr heap :=
    match blocks h p, hm h p with
    | Some n, None =>
        if (bytes d <=? n)%N then
          rbind (fold_left (fun r q => rbind r (incr q)) (snd d) (Ok h)) (fun h1 =>
          Ok (with_mem (upd (hm h1) p (Some {| c_data := {| u_ref := 0; u_data := d |}; c_next := None |})) h1))
        else Err HUB
    | _, _ => Err HUB
    end.
  (** unique_table::operator(), unique_table.hh 94-123. *)
  Definition unify (p : ptr) (d : node) (h : heap) : res herr (ptr * heap) :=
    rbind (insert (fun d => u_data d) node_eqb hash (hm h) (ht h) p) (fun r =>
    let '(m, t, (q, isnew)) := r in
    let h1 := with_table m t h in
    if isnew then Ok (q, with_stats (access h + 1) (uhits h) (umisses h + 1) (N.max (upeak h) (size_ t)) h1)
    else
      (* ~Unique() *)
      rbind (fold_left (fun r x => rbind r (fun h => release_all h x)) (snd d) (Ok h1)) (fun h2 =>
      let h3 := with_stats (access h + 1) (uhits h + 1) (umisses h) (upeak h) (with_mem (upd (hm h2) p None) h2) in
      if (ucsize h3 <? bytes d)%N then
        (* cache_.reset(ptr) *)
        rbind (match ucache h3 with
               | Some c => free_block c h3
               | None => Ok h3
               end) (fun h4 => Ok (q, with_blocks (blocks h4) (Some p) (bytes d) h4))
      else rbind (free_block p h3) (fun h4 => Ok (q, h4)))).

  (** unify_node, sdd/dd/definition.hh 473-487, and ptr(Unique* ), ptr.hh 77-83. *)
  Definition make (d : node) (a : ptr) (h : heap) : res herr (ptr * heap) :=
    rbind (allocate (bytes d) a h) (fun ph =>
    rbind (construct (fst ph) d (snd ph)) (fun h1 =>
    rbind (unify (fst ph) d h1) (fun qh =>
    rbind (incr (fst qh) (snd qh)) (fun h2 => Ok (fst qh, h2))))).

  (** Operations of a program on its handles. *)
  Inductive hop : Type :=
  | HCreate (v : var) (l : L) (kids : list var) (a : ptr)  (* SDD v(...): unify_node, sdd/dd/definition.hh 473-487 *)
  | HCopy (v : var) (s : source)                            (* ptr(const ptr&), 86-92 *)
  | HMove (v w : var)                                       (* ptr(ptr&&), 114-119 *)
  | HAssign (v : var) (s : source)                          (* operator=(const ptr&), 95-111 *)
  | HMoveAssign (v w : var)                                 (* operator=(ptr&&), 122-137 *)
  | HDestroy (v : var)                                      (* ~ptr(), 140-150 *)
  | HSwap (v w : var).                                      (* swap, 169-193 *)

  Definition map_res {A B E : Type} (f : A -> res E B) : list A -> res E (list B) :=
    fix go (l : list A) : res E (list B) :=
      match l with
      | [] => Ok []
      | x :: l' => rbind (f x) (fun y => rbind (go l') (fun r => Ok (y :: r)))
      end.

  (** Release of the pointer of [v], if it is not null. *)
  Definition release_var (v : var) (h : heap) : res herr heap :=
    match get (env h) v with
    | None => Err HUB
    | Some None => Ok h
    | Some (Some p) => release_all h p
    end.

  Definition h_step (o : hop) (h : heap) : res herr heap :=
    match o with
    | HCreate v l kids a =>
        rbind (map_res (held h) kids) (fun ks =>
        rbind (make (l, ks) a h) (fun qh => Ok (with_env ((v, Some (fst qh)) :: env (snd qh)) (snd qh))))
    | HCopy v s =>
        rbind (bind_source h s) (fun b =>
        rbind (read_source h b) (fun p =>
        rbind (incr p h) (fun h1 => Ok (with_env ((v, Some p) :: env h1) h1))))
    | HMove v w =>
        match get (env h) w with
        | None => Err HUB
        | Some p => Ok (with_env ((v, p) :: put (env h) w None) h)
        end
    | HAssign v s =>
        rbind (bind_source h s) (fun b =>
        rbind (read_source h b) (fun _ =>                  (* the assertion, line 99 *)
        rbind (release_var v h) (fun h1 =>
        rbind (read_source h1 b) (fun p =>
        let h2 := with_env (put (env h1) v (Some p)) h1 in
        incr p h2))))
    | HMoveAssign v w =>
        rbind (release_var v h) (fun h1 =>
        match get (env h1) w with
        | None => Err HUB
        | Some p => Ok (with_env (put (put (env h1) v p) w None) h1)
        end)
    | HDestroy v =>
        rbind (release_var v h) (fun h1 => Ok (with_env (drop (env h1) v) h1))
    | HSwap v w =>
        match get (env h) v, get (env h) w with
        | Some p, Some q => Ok (with_env (put (put (env h) v q) w p) h)
        | _, _ => Err HUB
        end
    end.

  Definition empty_heap (size : N) : heap :=
    {| hm := fun _ => None; ht := make_table size; blocks := fun _ => None; ucache := None; ucsize := 0; env := [];
       access := 0; uhits := 0; umisses := 0; upeak := 0 |}.
  Definition h_run (l : list hop) (h : heap) : res herr heap := fold_left (fun r o => rbind r (h_step o)) l (Ok h).
End Heap.
Arguments uniq : clear implicits.
Arguments heap : clear implicits.
Arguments hop : clear implicits.
