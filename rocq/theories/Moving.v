(** * Union, intersection and difference when addresses change during an operation

    In DDModel.v one order of addresses holds during a whole operation.  In the library an SDD that is no longer referenced is
    freed, and may be created again later, at another address, during the same operation.  Here nothing is assumed of
    addresses: whenever the library goes through a container sorted by addresses (arcs of a node, operands, builders,
    flat_map of square_union and alpha_builder) or through a std::unordered_map, it does so in an order given by an oracle,
    which may be different each time.

    An SDD is a tree whose arcs are listed in a reference order, which the library does not know: trees that differ only by
    the order of their arcs are one object (C60: at any time, equality of handles is equality of sets).  Likewise a container
    is the list of its elements in the reference order.  Functions without loop on such containers are those of DDModel.v. *)

From Coq Require Import List Bool NArith Arith Permutation.
From Verif Require Import Base SortedSets Values Sdd DDModel.
Import ListNotations.

(** The order in which a container is gone through: depends on the number of containers gone through so far. *)
Definition oracle : Type := nat -> forall X : Type, list X -> list X.
Definition oracle_ok (O : oracle) : Prop := forall n X (l : list X), Permutation (O n X l) l.

(** What changes during operations: the number of containers gone through, the caches of the operations on SDDs, the cache of
    the homomorphisms (used in MovingHom.v only). *)
Record memory (D H : Type) : Type := { clock : nat; dd_caches : D; hom_cache : H }.
Arguments clock {D H}.
Arguments dd_caches {D H}.
Arguments hom_cache {D H}.

(** A cache as it is used by sdd/mem/cache.hh operator() 205-265: a search, 221-236, that gives also what the insertion will
    need, and an insertion, 241-260. *)
Record memo (Op R E D : Type) : Type := {
  c_find : Op -> D -> res E (option R * N) * D;
  c_store : Op -> R -> N -> D -> res E unit * D
}.
Arguments c_find {Op R E D}.
Arguments c_store {Op R E D}.

(** No cache. *)
Definition no_cache {Op R E : Type} : memo Op R E unit := {|
  c_find := fun _ d => (Ok (None, 0%N), d);
  c_store := fun _ _ _ d => (Ok tt, d)
|}.

Section Model.
  Variable VI : values_impl.
  Variables D H : Type.
  Variable PF : platform VI.                 (* only its order is used, as the reference order *)
  Variable O : oracle.
  Notation V := (vt VI).
  Notation sdd := (sdd V).
  Notation lt := (addr_lt PF).

  (** Computations. *)
  Definition M (A : Type) : Type := memory D H -> res (err V) A * memory D H.
  Definition mret {A : Type} (a : A) : M A := fun s => (Ok a, s).
  Definition mthrow {A : Type} (e : err V) : M A := fun s => (Err e, s).
  Definition mbind {A B : Type} (p : M A) (f : A -> M B) : M B :=
    fun s => match p s with
             | (Ok a, s') => f a s'
             | (Err e, s') => (Err e, s')
             end.
  Definition tick (s : memory D H) : memory D H :=
    {| clock := S (clock s); dd_caches := dd_caches s; hom_cache := hom_cache s |}.
  Definition visit {X : Type} (l : list X) : M (list X) := fun s => (Ok (O (clock s) X l), tick s).
  (** Access to the caches of the operations on SDDs. *)
  Definition on_dd {A : Type} (f : D -> res (err V) A * D) : M A :=
    fun s => let (r, d) := f (dd_caches s) in
             (r, {| clock := clock s; dd_caches := d; hom_cache := hom_cache s |}).

  Notation "x <~ p ;; q" := (mbind p (fun x => q)) (at level 61, p at next level, right associativity).

  (** Evaluation of the cached operations (sdd/mem/cache.hh 205-265). *)
  Variable ask : ddop V -> M sdd.

  (** check_compatibility, sdd/dd/check_compatibility.hh 17-67. *)
  Definition m_check (a b : sdd) : M unit :=
    match a, b with
    | Zero, Zero | One, One => mret tt
    | Flat x _, Flat y _ => if N.eqb x y then mret tt else mthrow (ETop a b)
    | Hier x _, Hier y _ => if N.eqb x y then mret tt else mthrow (ETop a b)
    | _, _ => mthrow (ETop a b)
    end.

  (** dd::sum(cxt, sum_builder<C, SDD<C>>), sdd/dd/sum.hh 321-335. *)
  Definition m_sum (builder : list sdd) : M sdd :=
    match builder with
    | [] => mret Zero
    | [x] => mret x
    | _ => ask (OpSum builder)
    end.
  (** dd::intersection(cxt, intersection_builder<C, SDD<C>>), sdd/dd/intersection.hh 137-151. *)
  Definition m_intersection (builder : bool * list sdd) : M sdd :=
    match snd builder with
    | [] => mret Zero
    | [x] => mret x
    | operands => ask (OpInter operands)
    end.
  (** dd::difference(cxt, SDD, SDD), sdd/dd/difference.hh 179-193. *)
  Definition m_difference (lhs rhs : sdd) : M sdd :=
    if sdd_eqb VI PF lhs rhs || is_zero VI lhs then mret Zero
    else if is_zero VI rhs then mret lhs
    else ask (OpDiff lhs rhs).

  (** The overloads of sum, intersection and difference for valuations; [mo_pure]: emptiness, equality, reference order. *)
  Record mops (W : Type) : Type := {
    mo_pure : valops VI W;
    mo_sum : list W -> M W;
    mo_inter : W -> W -> M W;
    mo_diff : W -> W -> M W
  }.
  Arguments mo_pure {W}.
  Arguments mo_sum {W}.
  Arguments mo_inter {W}.
  Arguments mo_diff {W}.

  (** Sets of values: sdd/dd/sum.hh 342-368, sdd/dd/intersection.hh 157-183, sdd/dd/difference.hh 198-204.  Builders of values
      are sorted by addresses too (unique flat sets). *)
  Definition m_flat : mops V := {|
    mo_pure := flat_ops VI PF;
    mo_sum := fun b => l <~ visit b ;; mret (val_sum VI l);
    mo_inter := fun a b =>
      let builder := ib_add (v_empty VI) (v_lt VI) b (ib_add (v_empty VI) (v_lt VI) a (false, [])) in
      l <~ visit (snd builder) ;; mret (val_intersection VI (fst builder, l));
    mo_diff := fun a b => mret (v_diff VI a b)
  |}.
  Definition m_hier : mops sdd := {|
    mo_pure := hier_ops VI PF;
    mo_sum := m_sum;
    mo_inter := fun a b => m_intersection (sdd_ib_add VI PF b (sdd_ib_add VI PF a (false, [])));
    mo_diff := m_difference
  |}.

  (** ** Square union: sdd/dd/square_union.hh 52-68 and 101-111 *)

  Definition m_su_add {W : Type} (ops : mops W) (succ : sdd) (val : W) (m : list (sdd * list W)) : M (list (sdd * list W)) :=
    let vo := mo_pure ops in
    if is_zero VI succ || vo_empty vo val then mthrow EUB
    else mret (fm_upd lt succ (fun o => sb_add (vo_empty vo) (vo_lt vo) val (match o with Some b => b | None => [] end)) m).
  Fixpoint m_su_loop {W : Type} (ops : mops W) (m : list (sdd * list W)) (alpha : list (sdd * W)) : M (list (sdd * W)) :=
    match m with
    | [] => mret alpha
    | (succ, b) :: r => v <~ mo_sum ops b ;; m_su_loop ops r (alpha_add VI PF v succ alpha)
    end.
  Definition m_su_run {W : Type} (ops : mops W) (m : list (sdd * list W)) : M (list (sdd * W)) :=
    l <~ visit m ;; m_su_loop ops l [].

  (** ** Union: sdd/dd/sum.hh *)

  (** Loop (C): 120-186. *)
  Fixpoint m_sum_C {W : Type} (ops : mops W) (cv : W) (cs : sdd) (todo kept save rem : list (W * list sdd))
    : M (list (W * list sdd) * list (W * list sdd) * list (W * list sdd)) :=
    let vo := mo_pure ops in
    match todo with
    | [] => mret (kept, sum_I VI PF vo cv cs save, rem)
    | (rv, rs) :: t =>
      if vo_empty vo cv then mret (kept ++ todo, sum_I VI PF vo cv cs save, rem)
      else if vo_eqb vo cv rv then                                                  (* (D) *)
        mret (kept ++ t, save ++ [(rv, sdd_sb_add VI PF cs rs)], rem)
      else
        inter <~ mo_inter ops cv rv ;;
        if negb (vo_empty vo inter) then                                            (* (E) *)
          (let save1 := save ++ [(inter, sdd_sb_add VI PF cs rs)] in
           diff <~ mo_diff ops rv inter ;;                                          (* (F) *)
           let rem1 := if negb (vo_empty vo diff) then rem ++ [(diff, rs)] else rem in
           if vo_eqb vo cv inter then                                               (* (G) *)
             mret (kept ++ t, sum_I VI PF vo cv cs save1, rem1)
           else
             cv' <~ mo_diff ops cv inter ;;
             m_sum_C ops cv' cs t kept save1 rem1)
        else m_sum_C ops cv cs t (kept ++ [(rv, rs)]) save rem                      (* (H) *)
    end.
  (** Loop (B): 110-198. *)
  Fixpoint m_sum_B {W : Type} (ops : mops W) (arcs : list (W * sdd)) (res save : list (W * list sdd))
    : M (list (W * list sdd) * list (W * list sdd)) :=
    match arcs with
    | [] => mret (res, save)
    | (v, s) :: r =>
        todo <~ visit res ;;
        krs <~ m_sum_C ops v s todo [] save [] ;;
        m_sum_B ops r (um_insert VI (mo_pure ops) (snd krs) (fst (fst krs))) (snd (fst krs))
    end.
  (** Loop (A): 99-207. *)
  Fixpoint m_sum_A {W : Type} (ops : mops W) (cast : sdd -> option (N * list (W * sdd))) (begin : sdd) (operands : list sdd)
    (res : list (W * list sdd)) : M (list (W * list sdd)) :=
    match operands with
    | [] => mret res
    | x :: r =>
        _ <~ m_check begin x ;;
        match cast x with
        | None => mthrow EUB
        | Some (_, arcs) =>
            l <~ visit arcs ;;
            rs <~ m_sum_B ops l res [] ;;
            m_sum_A ops cast begin r (um_insert VI (mo_pure ops) (snd rs) (fst rs))
        end
    end.
  (** Final square union: 209-215. *)
  Fixpoint m_sum_su {W : Type} (ops : mops W) (res : list (W * list sdd)) (m : list (sdd * list W)) : M (list (sdd * list W)) :=
    match res with
    | [] => mret m
    | (v, succs) :: r =>
        s <~ m_sum succs ;;
        m' <~ m_su_add ops s v m ;;
        m_sum_su ops r m'
    end.
  (** sum_op_impl::work, generic version: 45-218. *)
  Definition m_sum_work {W : Type} (ops : mops W) (mk : N -> list (W * sdd) -> sdd)
    (cast : sdd -> option (N * list (W * sdd))) (operands : list sdd) : M sdd :=
    match operands with
    | [] => mthrow EUB
    | head :: others =>
      match cast head with
      | None => mthrow EUB
      | Some (x, arcs) =>
          l <~ visit arcs ;;
          let res0 := um_insert VI (mo_pure ops) (map (fun a => (fst a, sdd_sb_add VI PF (snd a) [])) l) [] in
          res <~ m_sum_A ops cast head others res0 ;;
          todo <~ visit res ;;
          m <~ m_sum_su ops todo [] ;;
          alpha <~ m_su_run ops m ;;
          mret (create_node VI mk x alpha)
      end
    end.

  (** The fast-iterable union: 242-263, 265-286, 221-296.  The values of a set and the map from values to successors are sorted
      by values, not by addresses. *)
  Fixpoint m_fast_operands (begin : sdd) (operands : list sdd) (m : list (elt VI * list sdd)) : M (list (elt VI * list sdd)) :=
    match operands with
    | [] => mret m
    | x :: r =>
        _ <~ m_check begin x ;;
        match cast_flat VI x with
        | None => mthrow EUB
        | Some (_, arcs) => l <~ visit arcs ;; m_fast_operands begin r (fold_left (fast_add_arc VI PF) l m)
        end
    end.
  Fixpoint m_fast_succs (m : list (elt VI * list sdd)) (acc : list (sdd * list (elt VI))) : M (list (sdd * list (elt VI))) :=
    match m with
    | [] => mret acc
    | (value, succs) :: r =>
        s <~ m_sum succs ;;
        m_fast_succs r (fm_upd lt s (fun o => fs_insert (e_lt VI) value (match o with Some b => b | None => [] end)) acc)
    end.
  Definition m_sum_work_fast (operands : list sdd) : M sdd :=
    match operands with
    | [] => mthrow EUB
    | begin :: _ =>
      match cast_flat VI begin with
      | None => mthrow EUB
      | Some (x, _) =>
          m <~ m_fast_operands begin operands [] ;;
          sv <~ m_fast_succs m [] ;;
          l <~ visit sv ;;
          mret (create_node VI Flat x (fold_left (fun alpha e => alpha_add VI PF (v_build VI (snd e)) (fst e) alpha) l []))
      end
    end.
  (** nary_op<C, sum_op_impl>::operator(), sdd/dd/nary.hh 100-121: the operands are stored by addresses. *)
  Definition m_sum_body (builder : list sdd) : M sdd :=
    operands <~ visit builder ;;
    match operands with
    | Flat _ _ :: _ :: _ =>
        if v_fast VI then m_sum_work_fast operands
        else m_sum_work m_flat Flat (cast_flat VI) operands
    | Hier _ _ :: _ :: _ => m_sum_work m_hier Hier (cast_hier VI) operands
    | a :: b :: _ => mthrow (ETop a b)
    | _ => mthrow EUB
    end.

  (** ** Intersection: sdd/dd/intersection.hh 70-88, 68-89, 57-101, 34-102 *)

  Fixpoint m_inter_rhs {W : Type} (ops : mops W) (lv : W) (ls : sdd) (rhs : list (W * sdd)) (m : list (sdd * list W))
    : M (list (sdd * list W)) :=
    match rhs with
    | [] => mret m
    | (rv, rs) :: r =>
        v <~ mo_inter ops lv rv ;;
        if negb (vo_empty (mo_pure ops) v) then
          (s <~ mo_inter m_hier ls rs ;;
           if negb (is_zero VI s) then
             (m' <~ m_su_add ops s v m ;; m_inter_rhs ops lv ls r m')
           else m_inter_rhs ops lv ls r m)
        else m_inter_rhs ops lv ls r m
    end.
  Fixpoint m_inter_lhs {W : Type} (ops : mops W) (lhs rhs : list (W * sdd)) (m : list (sdd * list W))
    : M (list (sdd * list W)) :=
    match lhs with
    | [] => mret m
    | (lv, ls) :: r =>
        l <~ visit rhs ;;
        m' <~ m_inter_rhs ops lv ls l m ;;
        m_inter_lhs ops r rhs m'
    end.
  Fixpoint m_inter_operands {W : Type} (ops : mops W) (mk : N -> list (W * sdd) -> sdd)
    (cast : sdd -> option (N * list (W * sdd))) (var : N) (res : sdd) (operands : list sdd) : M sdd :=
    match operands with
    | [] => mret res
    | x :: r =>
        _ <~ m_check res x ;;
        match cast res, cast x with
        | Some (_, larcs), Some (_, rarcs) =>
            l <~ visit larcs ;;
            m <~ m_inter_lhs ops l rarcs [] ;;
            match m with
            | [] => mret Zero
            | _ =>
                alpha <~ m_su_run ops m ;;
                m_inter_operands ops mk cast var (create_node VI mk var alpha) r
            end
        | _, _ => mthrow EUB
        end
    end.
  Definition m_inter_work {W : Type} (ops : mops W) (mk : N -> list (W * sdd) -> sdd)
    (cast : sdd -> option (N * list (W * sdd))) (operands : list sdd) : M sdd :=
    match operands with
    | [] => mthrow EUB
    | x :: r =>
        match cast x with
        | None => mthrow EUB
        | Some (var, _) => m_inter_operands ops mk cast var x r
        end
    end.
  (** nary_op<C, intersection_op_impl>::operator(), sdd/dd/nary.hh 100-121. *)
  Definition m_inter_body (builder : list sdd) : M sdd :=
    operands <~ visit builder ;;
    match operands with
    | Flat _ _ :: _ :: _ => m_inter_work m_flat Flat (cast_flat VI) operands
    | Hier _ _ :: _ :: _ => m_inter_work m_hier Hier (cast_hier VI) operands
    | a :: b :: _ => mthrow (ETop a b)
    | _ => mthrow EUB
    end.

  (** ** Difference: sdd/dd/difference.hh 67-75, 78-95, 38-100, 147-152 *)

  Fixpoint m_diff_pass1 {W : Type} (ops : mops W) (runion : W) (lhs : list (W * sdd)) (m : list (sdd * list W))
    : M (list (sdd * list W)) :=
    match lhs with
    | [] => mret m
    | (lv, ls) :: r =>
        v <~ mo_diff ops lv runion ;;
        if negb (vo_empty (mo_pure ops) v) then
          (m' <~ m_su_add ops ls v m ;; m_diff_pass1 ops runion r m')
        else m_diff_pass1 ops runion r m
    end.
  Fixpoint m_diff_rhs {W : Type} (ops : mops W) (lv : W) (ls : sdd) (rhs : list (W * sdd)) (m : list (sdd * list W))
    : M (list (sdd * list W)) :=
    match rhs with
    | [] => mret m
    | (rv, rs) :: r =>
        v <~ mo_inter ops lv rv ;;
        if negb (vo_empty (mo_pure ops) v) then
          (s <~ m_difference ls rs ;;
           if negb (is_zero VI s) then
             (m' <~ m_su_add ops s v m ;; m_diff_rhs ops lv ls r m')
           else m_diff_rhs ops lv ls r m)
        else m_diff_rhs ops lv ls r m
    end.
  Fixpoint m_diff_pass2 {W : Type} (ops : mops W) (lhs rhs : list (W * sdd)) (m : list (sdd * list W))
    : M (list (sdd * list W)) :=
    match lhs with
    | [] => mret m
    | (lv, ls) :: r =>
        l <~ visit rhs ;;
        m' <~ m_diff_rhs ops lv ls l m ;;
        m_diff_pass2 ops r rhs m'
    end.
  Definition m_diff_work {W : Type} (ops : mops W) (mk : N -> list (W * sdd) -> sdd) (x y : N) (lhs rhs : list (W * sdd))
    (lorig rorig : sdd) : M sdd :=
    let vo := mo_pure ops in
    if negb (N.eqb x y) then mthrow (ETop lorig rorig)
    else
      r <~ visit rhs ;;
      runion <~ mo_sum ops (fold_left (fun b a => sb_add (vo_empty vo) (vo_lt vo) (fst a) b) r []) ;;
      l1 <~ visit lhs ;;
      m1 <~ m_diff_pass1 ops runion l1 [] ;;
      l2 <~ visit lhs ;;
      m <~ m_diff_pass2 ops l2 rhs m1 ;;
      match m with
      | [] => mret Zero
      | _ => alpha <~ m_su_run ops m ;; mret (create_node VI mk x alpha)
      end.
  Definition m_diff_body (l r : sdd) : M sdd :=
    match l, r with
    | Flat x la, Flat y ra => m_diff_work m_flat Flat x y la ra l r
    | Hier x la, Hier y ra => m_diff_work m_hier Hier x y la ra l r
    | Zero, Zero => mthrow EUB
    | One, One => mthrow EUB
    | _, _ => mthrow (ETop l r)
    end.

  Definition m_body (op : ddop V) : M sdd :=
    match op with
    | OpSum l => m_sum_body l
    | OpInter l => m_inter_body l
    | OpDiff l r => m_diff_body l r
    end.
End Model.
Arguments mret VI {D H A} a.
Arguments mthrow VI {D H A} e.
Arguments mbind VI {D H A B} p f.
Arguments tick {D H} s.
Arguments visit VI {D H} O {X} l.
Arguments on_dd VI {D H A} f.
Arguments m_check VI {D H} a b.
Arguments m_sum VI {D H} ask builder.
Arguments m_intersection VI {D H} ask builder.
Arguments m_difference VI {D H} PF ask lhs rhs.
Arguments mo_pure {VI D H W}.
Arguments mo_sum {VI D H W}.
Arguments mo_inter {VI D H W}.
Arguments mo_diff {VI D H W}.
Arguments m_flat VI {D H} PF O.
Arguments m_hier VI {D H} PF ask.
Arguments m_su_add VI {D H} PF {W} ops succ val m.
Arguments m_su_loop VI {D H} PF {W} ops m alpha.
Arguments m_su_run VI {D H} PF O {W} ops m.
Arguments m_sum_C VI {D H} PF {W} ops cv cs todo kept save rem.
Arguments m_sum_B VI {D H} PF O {W} ops arcs res save.
Arguments m_sum_A VI {D H} PF O {W} ops cast begin operands res.
Arguments m_sum_su VI {D H} PF ask {W} ops res m.
Arguments m_sum_work VI {D H} PF O ask {W} ops mk cast operands.
Arguments m_fast_operands VI {D H} PF O begin operands m.
Arguments m_fast_succs VI {D H} PF ask m acc.
Arguments m_sum_work_fast VI {D H} PF O ask operands.
Arguments m_sum_body VI {D H} PF O ask builder.
Arguments m_inter_rhs VI {D H} PF ask {W} ops lv ls rhs m.
Arguments m_inter_lhs VI {D H} PF O ask {W} ops lhs rhs m.
Arguments m_inter_operands VI {D H} PF O ask {W} ops mk cast var res operands.
Arguments m_inter_work VI {D H} PF O ask {W} ops mk cast operands.
Arguments m_inter_body VI {D H} PF O ask builder.
Arguments m_diff_pass1 VI {D H} PF {W} ops runion lhs m.
Arguments m_diff_rhs VI {D H} PF ask {W} ops lv ls rhs m.
Arguments m_diff_pass2 VI {D H} PF O ask {W} ops lhs rhs m.
Arguments m_diff_work VI {D H} PF O ask {W} ops mk x y lhs rhs lorig rorig.
Arguments m_diff_body VI {D H} PF O ask l r.
Arguments m_body VI {D H} PF O ask op.

(** Evaluation through the caches, sdd/mem/cache.hh operator() 205-265 (these caches have no filter); recursion bounded by
    [fuel]. *)
Fixpoint m_eval (VI : values_impl) {D H : Type} (PF : platform VI) (O : oracle) (C : memo (ddop (vt VI)) (sdd (vt VI)) (err (vt VI)) D)
  (fuel : nat) (op : ddop (vt VI)) : M VI D H (sdd (vt VI)) :=
  match fuel with
  | 0 => mthrow VI EFuel
  | S n =>
      mbind VI (on_dd VI (c_find C op)) (fun f =>
      match fst f with
      | Some r => mret VI r
      | None =>
          mbind VI (m_body VI PF O (m_eval VI PF O C n) op) (fun r =>
          mbind VI (on_dd VI (c_store C op r (snd f))) (fun _ => mret VI r))
      end)
  end.

(** ** User interface *)

Section Api.
  Variable VI : values_impl.
  Variables D H : Type.
  Variable PF : platform VI.
  Variable O : oracle.
  Variable C : memo (ddop (vt VI)) (sdd (vt VI)) (err (vt VI)) D.
  Notation sdd := (sdd (vt VI)).
  Notation M := (M VI D H).

  (** dd::sum, sdd/dd/sum.hh 321-335; dd::intersection, sdd/dd/intersection.hh 137-151; dd::difference, sdd/dd/difference.hh
      179-193, on builders filled with the listed operands. *)
  Definition mv_sum (l : list sdd) : M sdd :=
    m_sum VI (m_eval VI PF O C (fuel_of VI l)) (fold_left (fun b x => sdd_sb_add VI PF x b) l []).
  Definition mv_inter (l : list sdd) : M sdd :=
    m_intersection VI (m_eval VI PF O C (fuel_of VI l)) (fold_left (fun b x => sdd_ib_add VI PF x b) l (false, [])).
  Definition mv_minus (x y : sdd) : M sdd :=
    m_difference VI PF (m_eval VI PF O C (fuel_of VI [x; y])) x y.
End Api.
Arguments mv_sum VI {D H} PF O C l.
Arguments mv_inter VI {D H} PF O C l.
Arguments mv_minus VI {D H} PF O C x y.

(** At the beginning. *)
Definition start {D H : Type} (d : D) (h : H) : memory D H := {| clock := 0; dd_caches := d; hom_cache := h |}.

(** Without caches. *)
Section Plain.
  Variable VI : values_impl.
  Variable PF : platform VI.
  Variable O : oracle.
  Notation sdd := (sdd (vt VI)).
  Notation res := (res (err (vt VI)) sdd).

  (** sum({...}), sdd/dd/sum.hh 399-422; intersection(begin, end), sdd/dd/intersection.hh 216-239; operator-,
      sdd/dd/difference.hh 210-231. *)
  Definition moving_sum (l : list sdd) : res := fst (mv_sum VI PF O no_cache l (start tt tt)).
  Definition moving_intersection (l : list sdd) : res := fst (mv_inter VI PF O no_cache l (start tt tt)).
  Definition moving_minus (x y : sdd) : res := fst (mv_minus VI PF O no_cache x y (start tt tt)).
End Plain.
