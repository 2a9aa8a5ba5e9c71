(** * Model of sdd/dd: construction, union, intersection, difference

    Every algorithm is a [prog] (see Base.v): its only effect is to call a cached operation. *)

From Coq Require Import List Bool NArith Arith Permutation.
From Verif Require Import Base SortedSets Values Sdd.
Import ListNotations.

(** Errors: [ETop a b] is the exception top<C>(a, b) (sdd/dd/top.hh 20-60); [EUB] is undefined
    behaviour (__builtin_unreachable, a violated assert, a variant_cast to the wrong type);
    [EFuel] is not an outcome of the C++ code, it says that the recursion bound of the model was
    reached; [EUser] is an exception thrown by a function of the user that the library calls while it
    evaluates a homomorphism (MovingHom.v only). *)
Inductive err (V : Type) : Type :=
| ETop (a b : sdd V)
| EUB
| EFuel
| EUser.
Arguments ETop {V} a b.
Arguments EUB {V}.
Arguments EFuel {V}.
Arguments EUser {V}.

(** Cached operations: sum_op and intersection_op (sdd/dd/nary.hh 30-139, operands already stored
    in an array) and difference_op (sdd/dd/difference.hh 135-169). *)
Inductive ddop (V : Type) : Type :=
| OpSum (operands : list (sdd V))
| OpInter (operands : list (sdd V))
| OpDiff (l r : sdd V).
Arguments OpSum {V} operands.
Arguments OpInter {V} operands.
Arguments OpDiff {V} l r.

(** What the library does not control: the order of addresses (operator<, sdd/dd/definition.hh
    389-395) and the iteration order of std::unordered_map (sdd/dd/sum.hh 69-76), for
    flat and hierarchical nodes. *)
Record platform (VI : values_impl) : Type := {
  addr_lt : sdd (vt VI) -> sdd (vt VI) -> bool;
  iter_flat : list (vt VI * list (sdd (vt VI))) -> list (vt VI * list (sdd (vt VI)));
  iter_hier : list (sdd (vt VI) * list (sdd (vt VI))) -> list (sdd (vt VI) * list (sdd (vt VI)))
}.
Arguments addr_lt {VI}.
Arguments iter_flat {VI}.
Arguments iter_hier {VI}.

Section Model.
  Variable VI : values_impl.
  Variable PF : platform VI.
  Notation V := (vt VI).
  Notation sdd := (sdd V).
  Notation P := (prog (ddop V) sdd (err V)).
  Notation lt := (addr_lt PF).

  (** SDD::empty, sdd/dd/definition.hh 221-226 (comparison with the unique |0|). *)
  Definition is_zero (x : sdd) : bool :=
    match x with
    | Zero => true
    | _ => false
    end.

  (** SDD::operator==, sdd/dd/definition.hh 366-372: equality of addresses. *)
  Definition sdd_eqb (x y : sdd) : bool := equivb lt x y.

  (** check_compatibility, sdd/dd/check_compatibility.hh 17-67. *)
  Definition check_compatibility (a b : sdd) : P unit :=
    match a, b with
    | Zero, Zero | One, One => Ret tt
    | Flat x _, Flat y _ => if N.eqb x y then Ret tt else Throw (ETop a b)
    | Hier x _, Hier y _ => if N.eqb x y then Ret tt else Throw (ETop a b)
    | _, _ => Throw (ETop a b)
    end.

  (** ** Builders *)

  (** Operations on valuations, either sets of values or SDDs: the overloads of dd::sum,
      dd::intersection and dd::difference selected by the template parameter Valuation.
      [vo_inter a b] is the recurring sequence "intersection_builder b(cxt); b.add(a); b.add(b);
      intersection(cxt, std::move(b))". *)
  Record valops (W : Type) : Type := {
    vo_empty : W -> bool;                     (* values::empty_values, sdd/values/empty.hh *)
    vo_eqb : W -> W -> bool;
    vo_lt : W -> W -> bool;
    vo_sum : list W -> P W;
    vo_inter : W -> W -> P W;
    vo_diff : W -> W -> P W;
    vo_iter : list (W * list sdd) -> list (W * list sdd)
  }.
  Arguments vo_empty {W}.
  Arguments vo_eqb {W}.
  Arguments vo_lt {W}.
  Arguments vo_sum {W}.
  Arguments vo_inter {W}.
  Arguments vo_diff {W}.
  Arguments vo_iter {W}.

  (** nary_builder::add with sum_builder_policy: sdd/dd/nary.hh 188-199, sdd/dd/sum.hh 303-314. *)
  Definition sb_add {W : Type} (isempty : W -> bool) (wlt : W -> W -> bool) (x : W) (set : list W)
    : list W :=
    if isempty x then set else fs_insert wlt x set.

  (** nary_builder::add with intersection_builder_policy: sdd/dd/intersection.hh 109-131.
      State: (has_zero, set). *)
  Definition ib_add {W : Type} (isempty : W -> bool) (wlt : W -> W -> bool) (x : W)
    (b : bool * list W) : bool * list W :=
    if fst b then b
    else if isempty x then (true, [])
    else (false, fs_insert wlt x (snd b)).

  Definition sdd_sb_add (x : sdd) (set : list sdd) : list sdd := sb_add is_zero lt x set.
  Definition sdd_ib_add (x : sdd) (b : bool * list sdd) : bool * list sdd := ib_add is_zero lt x b.

  (** dd::sum(cxt, sum_builder<C, SDD<C>>), sdd/dd/sum.hh 321-335. *)
  Definition dd_sum (builder : list sdd) : P sdd :=
    match builder with
    | [] => Ret Zero
    | [x] => Ret x
    | _ => call (OpSum builder)
    end.

  (** dd::intersection(cxt, intersection_builder<C, SDD<C>>), sdd/dd/intersection.hh 137-151.
      has_zero is not read: it only prevents further insertions, leaving the set empty. *)
  Definition dd_intersection (builder : bool * list sdd) : P sdd :=
    match snd builder with
    | [] => Ret Zero
    | [x] => Ret x
    | operands => call (OpInter operands)
    end.

  (** dd::difference(cxt, SDD, SDD), sdd/dd/difference.hh 179-193. *)
  Definition dd_difference (lhs rhs : sdd) : P sdd :=
    if sdd_eqb lhs rhs || is_zero lhs then Ret Zero
    else if is_zero rhs then Ret lhs
    else call (OpDiff lhs rhs).

  (** dd::sum(cxt, sum_builder<C, Values>), sdd/dd/sum.hh 342-368. *)
  Definition val_sum (builder : list V) : V :=
    match builder with
    | [] => v_default VI
    | x :: r => fold_left (v_sum VI) r x
    end.

  (** dd::intersection(cxt, intersection_builder<C, Values>), sdd/dd/intersection.hh 157-183. *)
  Fixpoint val_inter_loop (result : V) (l : list V) : V :=
    match l with
    | [] => result
    | x :: r => if v_empty VI result then result else val_inter_loop (v_inter VI result x) r
    end.
  Definition val_intersection (builder : bool * list V) : V :=
    match snd builder with
    | [] => v_default VI
    | x :: r => val_inter_loop x r
    end.

  (** The overloads for sets of values. *)
  Definition flat_ops : valops V := {|
    vo_empty := v_empty VI;
    vo_eqb := v_eqb VI;
    vo_lt := v_lt VI;
    vo_sum := fun b => Ret (val_sum b);
    vo_inter := fun a b =>
      Ret (val_intersection (ib_add (v_empty VI) (v_lt VI) b
                               (ib_add (v_empty VI) (v_lt VI) a (false, []))));
    vo_diff := fun a b => Ret (v_diff VI a b);       (* sdd/dd/difference.hh 198-204 *)
    vo_iter := iter_flat PF
  |}.

  (** The overloads for SDDs. *)
  Definition hier_ops : valops sdd := {|
    vo_empty := is_zero;
    vo_eqb := sdd_eqb;
    vo_lt := lt;
    vo_sum := dd_sum;
    vo_inter := fun a b => dd_intersection (sdd_ib_add b (sdd_ib_add a (false, [])));
    vo_diff := dd_difference;
    vo_iter := iter_hier PF
  |}.

  (** ** Nodes *)

  (** alpha_builder: sdd/dd/alpha.hh 79-162, a flat_map from successors to valuations; add is
      emplace (133-137). *)
  Definition alpha_add {W : Type} (val : W) (succ : sdd) (alpha : list (sdd * W)) : list (sdd * W) :=
    fm_emplace lt succ val alpha.

  (** create_node(var, alpha_builder&&), sdd/dd/definition.hh 454-467, with consolidate
      (sdd/dd/alpha.hh 152-161) which stores the arcs in the order of the map.
      Simplification: the number of arcs is not truncated to alpha_size_type
      (sdd/dd/node.hh 74); see NodeSize.v. *)
  Definition create_node {W : Type} (mk : N -> list (W * sdd) -> sdd) (var : N)
    (alpha : list (sdd * W)) : sdd :=
    match alpha with
    | [] => Zero
    | _ => mk var (map (fun sv => (snd sv, fst sv)) alpha)
    end.

  (** create_node(cxt, var, val, succ), sdd/dd/definition.hh 412-448: SDD(var, val, succ). *)
  Definition create_node1 {W : Type} (isempty : W -> bool) (mk : N -> list (W * sdd) -> sdd)
    (var : N) (val : W) (succ : sdd) : sdd :=
    if is_zero succ || isempty val then Zero
    else create_node mk var (alpha_add val succ []).

  Definition node_flat (x : N) (v : V) (s : sdd) : sdd := create_node1 (v_empty VI) Flat x v s.
  Definition node_hier (x : N) (v : sdd) (s : sdd) : sdd := create_node1 is_zero Hier x v s.

  (** ** Square union: sdd/dd/square_union.hh 25-112 *)

  (** square_union::add, 52-68; the assertion at line 56 is part of the model. *)
  Definition su_add {W : Type} (ops : valops W) (succ : sdd) (val : W) (m : list (sdd * list W))
    : P (list (sdd * list W)) :=
    if is_zero succ || vo_empty ops val then Throw EUB
    else Ret (fm_upd lt succ
                (fun o => sb_add (vo_empty ops) (vo_lt ops) val
                            (match o with Some b => b | None => [] end)) m).

  (** square_union::operator(), 101-111. *)
  Fixpoint su_run {W : Type} (ops : valops W) (m : list (sdd * list W)) (alpha : list (sdd * W))
    : P (list (sdd * W)) :=
    match m with
    | [] => Ret alpha
    | (succ, b) :: r =>
        v <- vo_sum ops b ;;
        su_run ops r (alpha_add v succ alpha)
    end.

  (** ** Union: sdd/dd/sum.hh *)

  (** std::unordered_map::emplace / insert: an existing key is left unchanged. *)
  Definition um_emplace {W : Type} (ops : valops W) (kv : W * list sdd) (m : list (W * list sdd))
    : list (W * list sdd) :=
    if existsb (fun e => vo_eqb ops (fst kv) (fst e)) m then m else m ++ [kv].

  Definition um_insert {W : Type} (ops : valops W) (l : list (W * list sdd)) (m : list (W * list sdd))
    : list (W * list sdd) :=
    fold_left (fun acc kv => um_emplace ops kv acc) l m.

  (** (I) of work: sdd/dd/sum.hh 179-186. *)
  Definition sum_I {W : Type} (ops : valops W) (cv : W) (cs : sdd) (save : list (W * list sdd))
    : list (W * list sdd) :=
    if vo_empty ops cv then save else save ++ [(cv, sdd_sb_add cs [])].

  (** Loop (C) of work: sdd/dd/sum.hh 120-186. [todo] is [res_cit, res_end), [kept] the entries of
      res already passed; result: (res, save, remainder). *)
  Fixpoint sum_C {W : Type} (ops : valops W) (cv : W) (cs : sdd)
    (todo kept save rem : list (W * list sdd))
    : P (list (W * list sdd) * list (W * list sdd) * list (W * list sdd)) :=
    match todo with
    | [] => Ret (kept, sum_I ops cv cs save, rem)
    | (rv, rs) :: t =>
      if vo_empty ops cv then Ret (kept ++ todo, sum_I ops cv cs save, rem)
      else if vo_eqb ops cv rv then                                                 (* (D) *)
        Ret (kept ++ t, save ++ [(rv, sdd_sb_add cs rs)], rem)
      else
        inter <- vo_inter ops cv rv ;;
        if negb (vo_empty ops inter) then                                           (* (E) *)
          (let save1 := save ++ [(inter, sdd_sb_add cs rs)] in
           diff <- vo_diff ops rv inter ;;                                          (* (F) *)
           let rem1 := if negb (vo_empty ops diff) then rem ++ [(diff, rs)] else rem in
           if vo_eqb ops cv inter then                                              (* (G) *)
             Ret (kept ++ t, sum_I ops cv cs save1, rem1)
           else
             cv' <- vo_diff ops cv inter ;;
             sum_C ops cv' cs t kept save1 rem1)
        else sum_C ops cv cs t (kept ++ [(rv, rs)]) save rem                        (* (H) *)
    end.

  (** Loop (B): sdd/dd/sum.hh 110-198. *)
  Fixpoint sum_B {W : Type} (ops : valops W) (arcs : list (W * sdd)) (res save : list (W * list sdd))
    : P (list (W * list sdd) * list (W * list sdd)) :=
    match arcs with
    | [] => Ret (res, save)
    | (v, s) :: r =>
        krs <- sum_C ops v s (vo_iter ops res) [] save [] ;;
        sum_B ops r (um_insert ops (snd krs) (fst (fst krs))) (snd (fst krs))
    end.

  (** Loop (A): sdd/dd/sum.hh 99-207. *)
  Fixpoint sum_A {W : Type} (ops : valops W) (cast : sdd -> option (N * list (W * sdd)))
    (begin : sdd) (operands : list sdd) (res : list (W * list sdd)) : P (list (W * list sdd)) :=
    match operands with
    | [] => Ret res
    | x :: r =>
        _ <- check_compatibility begin x ;;
        match cast x with
        | None => Throw EUB
        | Some (_, arcs) =>
            rs <- sum_B ops arcs res [] ;;
            sum_A ops cast begin r (um_insert ops (snd rs) (fst rs))
        end
    end.

  (** Final square union: sdd/dd/sum.hh 209-215. *)
  Fixpoint sum_su {W : Type} (ops : valops W) (res : list (W * list sdd)) (m : list (sdd * list W))
    : P (list (sdd * list W)) :=
    match res with
    | [] => Ret m
    | (v, succs) :: r =>
        s <- dd_sum succs ;;
        m' <- su_add ops s v m ;;
        sum_su ops r m'
    end.

  (** sum_op_impl::work, generic version: sdd/dd/sum.hh 45-218. *)
  Definition sum_work {W : Type} (ops : valops W) (mk : N -> list (W * sdd) -> sdd)
    (cast : sdd -> option (N * list (W * sdd))) (operands : list sdd) : P sdd :=
    match operands with
    | [] => Throw EUB
    | head :: others =>
      match cast head with
      | None => Throw EUB
      | Some (x, arcs) =>
          let res0 := um_insert ops (map (fun a => (fst a, sdd_sb_add (snd a) [])) arcs) [] in
          res <- sum_A ops cast head others res0 ;;
          m <- sum_su ops (vo_iter ops res) [] ;;
          alpha <- su_run ops m [] ;;
          Ret (create_node mk x alpha)
      end
    end.

  (** mem::variant_cast<flat_node<C>> and mem::variant_cast<hierarchical_node<C>>. *)
  Definition cast_flat (x : sdd) : option (N * list (V * sdd)) :=
    match x with
    | Flat v arcs => Some (v, arcs)
    | _ => None
    end.
  Definition cast_hier (x : sdd) : option (N * list (sdd * sdd)) :=
    match x with
    | Hier v arcs => Some (v, arcs)
    | _ => None
    end.

  (** The loop on operands of the fast-iterable union: sdd/dd/sum.hh 242-263. *)
  Definition fast_add_value (succ : sdd) (m : list (elt VI * list sdd)) (value : elt VI)
    : list (elt VI * list sdd) :=
    fm_upd (e_lt VI) value
      (fun o => sdd_sb_add succ (match o with Some b => b | None => [] end)) m.

  Definition fast_add_arc (m : list (elt VI * list sdd)) (arc : V * sdd) : list (elt VI * list sdd) :=
    fold_left (fast_add_value (snd arc)) (v_iter VI (fst arc)) m.

  Fixpoint fast_operands (begin : sdd) (operands : list sdd) (m : list (elt VI * list sdd))
    : P (list (elt VI * list sdd)) :=
    match operands with
    | [] => Ret m
    | x :: r =>
        _ <- check_compatibility begin x ;;
        match cast_flat x with
        | None => Throw EUB
        | Some (_, arcs) => fast_operands begin r (fold_left fast_add_arc arcs m)
        end
    end.

  (** sdd/dd/sum.hh 265-286. *)
  Fixpoint fast_succs (m : list (elt VI * list sdd)) (acc : list (sdd * list (elt VI)))
    : P (list (sdd * list (elt VI))) :=
    match m with
    | [] => Ret acc
    | (value, succs) :: r =>
        s <- dd_sum succs ;;
        fast_succs r
          (fm_upd lt s (fun o => fs_insert (e_lt VI) value (match o with Some b => b | None => [] end))
             acc)
    end.

  (** sum_op_impl::work, fast-iterable version: sdd/dd/sum.hh 221-296. *)
  Definition sum_work_fast (operands : list sdd) : P sdd :=
    match operands with
    | [] => Throw EUB
    | begin :: _ =>
      match cast_flat begin with
      | None => Throw EUB
      | Some (x, _) =>
          m <- fast_operands begin operands [] ;;
          sv <- fast_succs m [] ;;
          Ret (create_node Flat x
                 (fold_left (fun alpha e => alpha_add (v_build VI (snd e)) (fst e) alpha) sv []))
      end
    end.

  (** nary_op<C, sum_op_impl>::operator(), sdd/dd/nary.hh 100-121; the choice between the two
      versions of work is by std::enable_if (sdd/dd/sum.hh 47-49, 223-225). *)
  Definition sum_body (operands : list sdd) : P sdd :=
    match operands with
    | Flat _ _ :: _ :: _ =>
        if v_fast VI then sum_work_fast operands
        else sum_work flat_ops Flat cast_flat operands
    | Hier _ _ :: _ :: _ => sum_work hier_ops Hier cast_hier operands
    | a :: b :: _ => Throw (ETop a b)
    | _ => Throw EUB
    end.

  (** ** Intersection: sdd/dd/intersection.hh *)

  (** Loop on the arcs of the right operand: 70-88. *)
  Fixpoint inter_rhs {W : Type} (ops : valops W) (lv : W) (ls : sdd) (rhs : list (W * sdd))
    (m : list (sdd * list W)) : P (list (sdd * list W)) :=
    match rhs with
    | [] => Ret m
    | (rv, rs) :: r =>
        v <- vo_inter ops lv rv ;;
        if negb (vo_empty ops v) then
          (s <- vo_inter hier_ops ls rs ;;
           if negb (is_zero s) then
             (m' <- su_add ops s v m ;; inter_rhs ops lv ls r m')
           else inter_rhs ops lv ls r m)
        else inter_rhs ops lv ls r m
    end.

  (** Loop on the arcs of the left operand: 68-89. *)
  Fixpoint inter_lhs {W : Type} (ops : valops W) (lhs rhs : list (W * sdd)) (m : list (sdd * list W))
    : P (list (sdd * list W)) :=
    match lhs with
    | [] => Ret m
    | (lv, ls) :: r =>
        m' <- inter_rhs ops lv ls rhs m ;;
        inter_lhs ops r rhs m'
    end.

  (** Loop on operands: 57-101. *)
  Fixpoint inter_operands {W : Type} (ops : valops W) (mk : N -> list (W * sdd) -> sdd)
    (cast : sdd -> option (N * list (W * sdd))) (var : N) (res : sdd) (operands : list sdd)
    : P sdd :=
    match operands with
    | [] => Ret res
    | x :: r =>
        _ <- check_compatibility res x ;;
        match cast res, cast x with
        | Some (_, larcs), Some (_, rarcs) =>
            m <- inter_lhs ops larcs rarcs [] ;;
            match m with
            | [] => Ret Zero
            | _ =>
                alpha <- su_run ops m [] ;;
                inter_operands ops mk cast var (create_node mk var alpha) r
            end
        | _, _ => Throw EUB
        end
    end.

  (** intersection_op_impl::work, 34-102. *)
  Definition inter_work {W : Type} (ops : valops W) (mk : N -> list (W * sdd) -> sdd)
    (cast : sdd -> option (N * list (W * sdd))) (operands : list sdd) : P sdd :=
    match operands with
    | [] => Throw EUB
    | x :: r =>
        match cast x with
        | None => Throw EUB
        | Some (var, _) => inter_operands ops mk cast var x r
        end
    end.

  (** nary_op<C, intersection_op_impl>::operator(), sdd/dd/nary.hh 100-121. *)
  Definition inter_body (operands : list sdd) : P sdd :=
    match operands with
    | Flat _ _ :: _ :: _ => inter_work flat_ops Flat cast_flat operands
    | Hier _ _ :: _ :: _ => inter_work hier_ops Hier cast_hier operands
    | a :: b :: _ => Throw (ETop a b)
    | _ => Throw EUB
    end.

  (** ** Difference: sdd/dd/difference.hh *)

  (** First pass on the left operand: 67-75. *)
  Fixpoint diff_pass1 {W : Type} (ops : valops W) (runion : W) (lhs : list (W * sdd))
    (m : list (sdd * list W)) : P (list (sdd * list W)) :=
    match lhs with
    | [] => Ret m
    | (lv, ls) :: r =>
        v <- vo_diff ops lv runion ;;
        if negb (vo_empty ops v) then
          (m' <- su_add ops ls v m ;; diff_pass1 ops runion r m')
        else diff_pass1 ops runion r m
    end.

  (** Second pass: 78-95. *)
  Fixpoint diff_rhs {W : Type} (ops : valops W) (lv : W) (ls : sdd) (rhs : list (W * sdd))
    (m : list (sdd * list W)) : P (list (sdd * list W)) :=
    match rhs with
    | [] => Ret m
    | (rv, rs) :: r =>
        v <- vo_inter ops lv rv ;;
        if negb (vo_empty ops v) then
          (s <- dd_difference ls rs ;;
           if negb (is_zero s) then
             (m' <- su_add ops s v m ;; diff_rhs ops lv ls r m')
           else diff_rhs ops lv ls r m)
        else diff_rhs ops lv ls r m
    end.

  Fixpoint diff_pass2 {W : Type} (ops : valops W) (lhs rhs : list (W * sdd)) (m : list (sdd * list W))
    : P (list (sdd * list W)) :=
    match lhs with
    | [] => Ret m
    | (lv, ls) :: r =>
        m' <- diff_rhs ops lv ls rhs m ;;
        diff_pass2 ops r rhs m'
    end.

  (** difference_visitor::operator() on two nodes of the same kind: 38-100. *)
  Definition diff_work {W : Type} (ops : valops W) (mk : N -> list (W * sdd) -> sdd)
    (x y : N) (lhs rhs : list (W * sdd)) (lorig rorig : sdd) : P sdd :=
    if negb (N.eqb x y) then Throw (ETop lorig rorig)
    else
      runion <- vo_sum ops (fold_left (fun b a => sb_add (vo_empty ops) (vo_lt ops) (fst a) b) rhs []) ;;
      m1 <- diff_pass1 ops runion lhs [] ;;
      m <- diff_pass2 ops lhs rhs m1 ;;
      match m with
      | [] => Ret Zero
      | _ => alpha <- su_run ops m [] ;; Ret (create_node mk x alpha)
      end.

  (** difference_op::operator(), 147-152, with the visitor cases 102-128. *)
  Definition diff_body (l r : sdd) : P sdd :=
    match l, r with
    | Flat x la, Flat y ra => diff_work flat_ops Flat x y la ra l r
    | Hier x la, Hier y ra => diff_work hier_ops Hier x y la ra l r
    | Zero, Zero => Throw EUB
    | One, One => Throw EUB
    | _, _ => Throw (ETop l r)
    end.

  (** ** Cached operations *)

  (** Evaluation of a cached operation, called by the cache: sdd/mem/cache.hh 239. *)
  Definition dd_body (op : ddop V) : P sdd :=
    match op with
    | OpSum l => sum_body l
    | OpInter l => inter_body l
    | OpDiff l r => diff_body l r
    end.

  (** Evaluation without caches: recursion bounded by [fuel]. *)
  Fixpoint dd_eval (fuel : nat) (op : ddop V) : res (err V) sdd :=
    match fuel with
    | O => Err EFuel
    | S n => interp (dd_eval n) (dd_body op)
    end.

  (** ** User interface *)

  Definition run (fuel : nat) (p : P sdd) : res (err V) sdd := interp (dd_eval fuel) p.

  (** Enough fuel for operands [l] (proved in DDProofs.v). *)
  Definition fuel_of (l : list sdd) : nat := S (list_max (map height l)).

  (** sum(begin, end) and sum({...}), sdd/dd/sum.hh 399-422; operator+ (374-397) is the case of two
      operands. *)
  Definition api_sum (l : list sdd) : res (err V) sdd :=
    run (fuel_of l) (dd_sum (fold_left (fun b x => sdd_sb_add x b) l [])).
  Definition api_plus (x y : sdd) : res (err V) sdd := api_sum [x; y].

  (** intersection(begin, end), sdd/dd/intersection.hh 216-239; operator& (189-214). *)
  Definition api_intersection (l : list sdd) : res (err V) sdd :=
    run (fuel_of l) (dd_intersection (fold_left (fun b x => sdd_ib_add x b) l (false, []))).
  Definition api_and (x y : sdd) : res (err V) sdd := api_intersection [x; y].

  (** operator-, sdd/dd/difference.hh 210-231. *)
  Definition api_minus (x y : sdd) : res (err V) sdd :=
    run (fuel_of [x; y]) (dd_difference x y).
End Model.
Arguments vo_empty {VI W}.
Arguments vo_eqb {VI W}.
Arguments vo_lt {VI W}.
Arguments vo_sum {VI W}.
Arguments vo_inter {VI W}.
Arguments vo_diff {VI W}.
Arguments vo_iter {VI W}.

(** What is assumed of the platform: addresses are totally ordered, and iterating on an
    unordered_map visits every entry once, in some order. *)
Record platform_ok {VI : values_impl} (PF : platform VI) : Prop := {
  pf_lt : strict_total (addr_lt PF);
  pf_iter_flat : forall m, Permutation (iter_flat PF m) m;
  pf_iter_hier : forall m, Permutation (iter_hier PF m) m
}.
Arguments pf_lt {VI PF}.
Arguments pf_iter_flat {VI PF}.
Arguments pf_iter_hier {VI PF}.
