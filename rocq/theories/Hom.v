(** * Model of sdd/hom: homomorphisms, their constructors and their evaluation

    The evaluation of a homomorphism is a [prog] (see Base.v) whose only effect is to call a cached
    evaluation, identified by an order, a homomorphism and an SDD. *)

From Coq Require Import List Bool NArith Arith Permutation.
From Verif Require Import Base SortedSets Values Sdd Orders DDModel.
Import ListNotations.

(** ** Homomorphisms *)

(** hom_definition: the variant of sdd/hom/definition.hh 45-59. [V] is C::Values, [U] is
    C::Identifier, [F] is the type of the functions of the user (function_base,
    sdd/hom/function.hh 27-67) and [I] the one of their inductive homomorphisms (inductive_base,
    sdd/hom/inductive.hh 26-76).
    Simplifications: handles are identified with the terms they designate (unicity is modelled in
    Heap.v), which takes operator== on [F] and [I] to be Leibniz equality. *)
Inductive hom (V U F I : Type) : Type :=
| HComp (left right : hom V U F I)                     (* composition.hh 20-71 *)
| HConsF (o : order U) (v : V) (next : hom V U F I)        (* cons.hh 23-74, Valuation = Values *)
| HConsH (o : order U) (v : sdd V) (next : hom V U F I)    (* cons.hh 23-74, Valuation = SDD *)
| HConst (x : sdd V)                                   (* constant.hh 23-67 *)
| HFix (h : hom V U F I)                               (* fixpoint.hh 31-82 *)
| HFun (target : N) (f : F)                            (* function.hh 212-326 *)
| HId                                                  (* identity.hh 24-69 *)
| HIte (hif hthen helse : hom V U F I)                 (* if_then_else.hh 24-89 *)
| HInd (i : I)                                         (* inductive.hh 242-325 *)
| HInter (operands : list (hom V U F I))               (* intersection.hh 32-119 *)
| HLocal (target : N) (h : hom V U F I)                (* local.hh 24-122 *)
| HSatFix (x : N) (f : hom V U F I) (g : list (hom V U F I)) (l : hom V U F I)
                                                       (* saturation_fixpoint.hh 28-169 *)
| HSatInter (x : N) (f : option (hom V U F I)) (g : list (hom V U F I)) (l : option (hom V U F I))
                                                       (* saturation_intersection.hh 29-118 *)
| HSatSum (x : N) (f : option (hom V U F I)) (g : list (hom V U F I)) (l : option (hom V U F I))
                                                       (* saturation_sum.hh 29-117 *)
| HSum (operands : list (hom V U F I)).                (* sum.hh 27-151 *)
Arguments HComp {V U F I}.
Arguments HConsF {V U F I}.
Arguments HConsH {V U F I}.
Arguments HConst {V U F I}.
Arguments HFix {V U F I}.
Arguments HFun {V U F I}.
Arguments HId {V U F I}.
Arguments HIte {V U F I}.
Arguments HInd {V U F I}.
Arguments HInter {V U F I}.
Arguments HLocal {V U F I}.
Arguments HSatFix {V U F I}.
Arguments HSatInter {V U F I}.
Arguments HSatSum {V U F I}.
Arguments HSum {V U F I}.

(** Code supplied by the user: functions (sdd/hom/function.hh 27-207; [f_sel] and [f_shift] are
    false when the user does not define selector() and shifter()) and inductive homomorphisms
    (sdd/hom/inductive.hh 26-236; [i_skip] receives the identifier of the head of the order).
    Simplification: they are pure functions. *)
Record user (V U F I : Type) : Type := {
  f_apply : F -> V -> V;
  f_sel : F -> bool;
  f_shift : F -> bool;
  i_skip : I -> oid U -> bool;
  i_sel : I -> bool;
  i_flat : I -> order U -> V -> hom V U F I;
  i_hier : I -> order U -> sdd V -> hom V U F I;
  i_one : I -> sdd V
}.
Arguments f_apply {V U F I}.
Arguments f_sel {V U F I}.
Arguments f_shift {V U F I}.
Arguments i_skip {V U F I}.
Arguments i_sel {V U F I}.
Arguments i_flat {V U F I}.
Arguments i_hier {V U F I}.
Arguments i_one {V U F I}.

(** What the library does not control: the order of the addresses of homomorphisms (operator<,
    sdd/hom/definition.hh 229-238) and the iteration order of the std::unordered_map that regroups
    locals (sdd/hom/sum.hh 163-164, sdd/hom/intersection.hh 130). *)
Record hplatform (V U F I : Type) : Type := {
  h_lt : hom V U F I -> hom V U F I -> bool;
  h_iter : list (N * list (hom V U F I)) -> list (N * list (hom V U F I))
}.
Arguments h_lt {V U F I}.
Arguments h_iter {V U F I}.

Record hplatform_ok {V U F I : Type} (HP : hplatform V U F I) : Prop := {
  hp_lt : strict_total (h_lt HP);
  hp_iter : forall m, Permutation (h_iter HP m) m
}.
Arguments hp_lt {V U F I HP}.
Arguments hp_iter {V U F I HP}.

(** Failures of constructors: [CInvalid] is the exception std::invalid_argument; [COrder e] comes
    from the order; [CFuel] says that the recursion bound of the model was reached. *)
Inductive cerr (U : Type) : Type :=
| CInvalid
| COrder (e : oerr U)
| CUndefined
| CFuel.
Arguments CInvalid {U}.
Arguments COrder {U} e.
Arguments CUndefined {U}.
Arguments CFuel {U}.

Section HomModel.
  Variable VI : values_impl.
  Variable PF : platform VI.
  Variables U F I : Type.
  Variable ueqb : U -> U -> bool.
  Notation V := (vt VI).
  Notation sdd := (sdd V).
  Notation hom := (hom V U F I).
  Variable HP : hplatform V U F I.
  Variable US : user V U F I.
  Notation order := (order U).

  (** homomorphism::operator==, sdd/hom/definition.hh 207-216. *)
  Definition hom_eqb (h k : hom) : bool := equivb (h_lt HP) h k.

  Definition is_id (h : hom) : bool := match h with HId => true | _ => false end.

  (** "x != o.variable()" and "o.variable() != x"; on an empty order the library dereferences a
      null pointer, but skip is only called on non-empty orders (sdd/hom/evaluation.hh 60 and
      sdd/hom/rewrite.hh 217); the value chosen here is not used. *)
  Definition var_neqb (o : order) (x : N) : bool :=
    match o_variable U o with Some y => negb (N.eqb y x) | None => false end.

  (** skip, homomorphism::skip, sdd/hom/definition.hh 125-130, and the members skip of every
      homomorphism: composition.hh 41-47, cons.hh 44-49, constant.hh 38-43, fixpoint.hh 52-58,
      function.hh 287-292, identity.hh 40-45, if_then_else.hh 57-62, inductive.hh 189-211 and
      295-300, intersection.hh 64-70, local.hh 93-98, saturation_fixpoint.hh 108-114,
      saturation_intersection.hh 70-75, saturation_sum.hh 70-75, sum.hh 75-81. *)
  Fixpoint hskip (o : order) (h : hom) : bool :=
    match h with
    | HComp l r => hskip o l && hskip o r
    | HConsF _ _ _ | HConsH _ _ _ | HConst _ => false
    | HFix h => hskip o h
    | HFun t _ => var_neqb o t
    | HId => true
    | HIte p t e => hskip o p && hskip o e && hskip o t
    | HInd i => match o_identifier U o with Some id => i_skip US i id | None => false end
    | HInter l => forallb (hskip o) l
    | HLocal t _ => var_neqb o t
    | HSatFix x _ _ _ | HSatInter x _ _ _ | HSatSum x _ _ _ => var_neqb o x
    | HSum l => forallb (hskip o) l
    end.

  (** selector, homomorphism::selector, sdd/hom/definition.hh 134-139, and the members selector:
      composition.hh 49-55, cons.hh 52-57, constant.hh 46-51, fixpoint.hh 60-66, function.hh
      295-300, identity.hh 48-53, if_then_else.hh 65-71, inductive.hh 303-308, intersection.hh
      73-79, local.hh 101-106, saturation_fixpoint.hh 116-123, saturation_intersection.hh 78-84,
      saturation_sum.hh 78-84, sum.hh 84-90. *)
  Fixpoint hselector (h : hom) : bool :=
    match h with
    | HComp l r => hselector l && hselector r
    | HConsF _ _ _ | HConsH _ _ _ | HConst _ => false
    | HFix h => hselector h
    | HFun _ f => f_sel US f
    | HId => true
    | HIte _ t e => hselector e && hselector t
    | HInd i => i_sel US i
    | HInter l => forallb hselector l
    | HLocal _ h => hselector h
    | HSatFix _ f g l => hselector f && hselector l && forallb hselector g
    | HSatInter _ f g l | HSatSum _ f g l =>
      (match f with Some h => hselector h | None => true end) &&
      (match l with Some h => hselector h | None => true end) && forallb hselector g
    | HSum l => forallb hselector l
    end.

  (** ** Evaluation *)

  (** A cached evaluation: cached_homomorphism, sdd/hom/evaluation.hh 94-126. *)
  Definition hop : Type := (order * hom * sdd)%type.
  Notation P := (prog hop sdd (err V)).

  (** The result of an operation on SDDs. *)
  Definition lift {A : Type} (r : res (err V) A) : P A :=
    match r with Ok a => Ret a | Err e => Throw e end.

  (** homomorphism::operator(), sdd/hom/definition.hh 192-205. *)
  Definition hcall (o : order) (h : hom) (x : sdd) : P sdd :=
    if is_id h || is_zero VI x then Ret x else call (o, h, x).

  (** A square union filled by a loop, then used to build a node: sdd/hom/evaluation.hh 68-80 and
      sdd/hom/local.hh 48-58. Simplification: the pairs are first all computed, then all added. *)
  Fixpoint su_adds {W : Type} (ops : valops VI W) (pairs : list (sdd * W)) (m : list (sdd * list W))
    : prog (ddop V) sdd (err V) (list (sdd * list W)) :=
    match pairs with
    | [] => Ret m
    | (s, v) :: r => m <- su_add VI PF ops s v m ;; su_adds ops r m
    end.
  Definition su_node {W : Type} (ops : valops VI W) (mk : N -> list (W * sdd) -> sdd) (x : N)
    (pairs : list (sdd * W)) : prog (ddop V) sdd (err V) sdd :=
    m <- su_adds ops pairs [] ;;
    alpha <- su_run VI PF ops m [] ;;
    Ret (create_node VI mk x alpha).
  Definition su_flat (x : N) (pairs : list (sdd * V)) : res (err V) sdd :=
    run VI PF (fuel_of VI (map fst pairs)) (su_node (flat_ops VI PF) Flat x pairs).
  Definition su_hier (x : N) (pairs : list (sdd * sdd)) : res (err V) sdd :=
    run VI PF (fuel_of VI (map fst pairs ++ map snd pairs)) (su_node (hier_ops VI PF) Hier x pairs).

  (** The loop of sdd/hom/evaluation.hh 71-79: the homomorphism is applied to the successors. *)
  Fixpoint forward {W : Type} (o : order) (h : hom) (arcs : list (W * sdd)) : P (list (sdd * W)) :=
    match arcs with
    | [] => Ret []
    | (v, s) :: r =>
      s' <- hcall o h s ;;
      rest <- forward o h r ;;
      Ret (if is_zero VI s' then rest else (s', v) :: rest)
    end.

  (** Apply several homomorphisms to the same operand: the loops of sum.hh 69-72,
      saturation_sum.hh 52-65, saturation_intersection.hh 52-65. *)
  Fixpoint hcalls (o : order) (hs : list hom) (x : sdd) : P (list sdd) :=
    match hs with
    | [] => Ret []
    | h :: r => y <- hcall o h x ;; ys <- hcalls o r x ;; Ret (y :: ys)
    end.

  Definition opt_list (o : option hom) : list hom :=
    match o with Some h => [h] | None => [] end.

  (** _intersection::operator(), intersection.hh 45-61: an empty result ends the loop. *)
  Fixpoint inter_loop (o : order) (hs : list hom) (x : sdd) (acc : list sdd) : P sdd :=
    match hs with
    | [] => lift (api_intersection VI PF acc)
    | h :: r =>
      y <- hcall o h x ;;
      if is_zero VI y then Ret Zero else inter_loop o r x (acc ++ [y])
    end.

  (** _fixpoint::operator(), fixpoint.hh 37-50. [n] bounds the number of iterations of the model;
      the loop of the library has no bound. *)
  Fixpoint fix_loop (n : nat) (o : order) (h : hom) (x1 : sdd) : P sdd :=
    match n with
    | 0 => Throw EFuel
    | S n =>
      x <- hcall o h x1 ;;
      if sdd_eqb VI PF x x1 then Ret x else fix_loop n o h x
    end.

  (** The chain of applications of G, saturation_fixpoint.hh 97-101. *)
  Fixpoint g_chain (o : order) (g : list hom) (s : sdd) : P sdd :=
    match g with
    | [] => Ret s
    | h :: r =>
      y <- hcall o h s ;;
      s' <- lift (api_sum VI PF [s; y]) ;;
      g_chain o r s'
    end.

  (** _saturation_fixpoint::operator(), saturation_fixpoint.hh 79-106. *)
  Fixpoint sat_loop (n : nat) (o : order) (f : hom) (g : list hom) (l : hom) (s1 : sdd) : P sdd :=
    match n with
    | 0 => Throw EFuel
    | S n =>
      s2 <- hcall o f s1 ;;
      s3 <- hcall o l s2 ;;
      s4 <- g_chain o g s3 ;;
      if sdd_eqb VI PF s1 s4 then Ret s1 else sat_loop n o f g l s4
    end.

  (** The loop of local.hh 64-68 (the one of lines 50-57 computes the same valuations). *)
  Fixpoint local_vals (o : order) (h : hom) (arcs : list (sdd * sdd)) : P (list (sdd * sdd)) :=
    match arcs with
    | [] => Ret []
    | (v, s) :: r =>
      v' <- hcall o h v ;;
      rest <- local_vals o h r ;;
      Ret ((v', s) :: rest)
    end.

  (** The loop of inductive.hh 277-281. *)
  Fixpoint ind_vals {W : Type} (o : order) (k : W -> hom) (arcs : list (W * sdd)) : P (list sdd) :=
    match arcs with
    | [] => Ret []
    | (v, s) :: r =>
      y <- hcall o (k v) s ;;
      ys <- ind_vals o k r ;;
      Ret (y :: ys)
    end.

  (** Access to the order; undefined behaviour on an empty order. *)
  Definition with_next (o : order) (k : order -> P sdd) : P sdd :=
    match o_next U o with Some o' => k o' | None => Throw EUB end.
  Definition with_nested (o : order) (k : order -> P sdd) : P sdd :=
    match o_nested U o with Some o' => k o' | None => Throw EUB end.
  Definition with_var (o : order) (k : N -> P sdd) : P sdd :=
    match o_variable U o with Some x => k x | None => Throw EUB end.

  (** The member operator() of every homomorphism. *)
  Definition direct (n : nat) (h : hom) (o : order) (x : sdd) : P sdd :=
    match h with
    | HComp l r =>                                                   (* composition.hh 33-39 *)
      y <- hcall o r x ;; hcall o l y
    | HConsF o' v next =>                                            (* cons.hh 36-41 *)
      with_var o' (fun var => with_next o' (fun o'' =>
        y <- hcall o'' next x ;; Ret (node_flat VI PF var v y)))
    | HConsH o' v next =>
      with_var o' (fun var => with_next o' (fun o'' =>
        y <- hcall o'' next x ;; Ret (node_hier VI PF var v y)))
    | HConst y => Ret y                                              (* constant.hh 30-35 *)
    | HFix h => fix_loop n o h x
    | HFun _ f =>                                                    (* function.hh 225-308 *)
      match x with
      | Zero | Hier _ _ => Throw EUB
      | One => Ret One
      | Flat _ arcs =>
        with_var o (fun var =>
        if f_sel US f || f_shift US f then
          Ret (create_node VI Flat var
                 (fold_left (fun alpha arc =>
                    let val := f_apply US f (fst arc) in
                    if v_empty VI val then alpha else alpha_add VI PF val (snd arc) alpha)
                  arcs []))
        else
          lift (api_sum VI PF
                  (map (fun arc => node_flat VI PF var (f_apply US f (fst arc)) (snd arc)) arcs)))
      end
    | HId => Throw EUB                                               (* identity.hh 31-37 *)
    | HIte p t e =>                                                  (* if_then_else.hh 37-54 *)
      tmp <- hcall o p x ;;
      a <- hcall o t tmp ;;
      d <- lift (api_minus VI PF x tmp) ;;
      b <- hcall o e d ;;
      lift (api_sum VI PF [a; b])
    | HInd i =>                                                      (* inductive.hh 249-292 *)
      match x with
      | Zero => Throw EUB
      | One => Ret (i_one US i)
      | Flat _ arcs => with_next o (fun o' =>
          ys <- ind_vals o' (i_flat US i o) arcs ;; lift (api_sum VI PF ys))
      | Hier _ arcs => with_next o (fun o' =>
          ys <- ind_vals o' (i_hier US i o) arcs ;; lift (api_sum VI PF ys))
      end
    | HInter hs => inter_loop o hs x []
    | HLocal _ h =>                                                  (* local.hh 35-90 *)
      match x with
      | Hier var arcs => with_nested o (fun o' =>
          vals <- local_vals o' h arcs ;;
          if hselector h then
            lift (su_hier var (map (fun vs => (snd vs, fst vs))
                                 (filter (fun vs => negb (is_zero VI (fst vs))) vals)))
          else
            lift (api_sum VI PF (map (fun vs => node_hier VI PF var (fst vs) (snd vs)) vals)))
      | _ => Throw EUB
      end
    | HSatFix _ f g l => sat_loop n o f g l x
    | HSatInter _ f g l =>                           (* saturation_intersection.hh 45-67 *)
      ys <- hcalls o (opt_list f ++ g ++ opt_list l) x ;; lift (api_intersection VI PF ys)
    | HSatSum _ f g l =>                             (* saturation_sum.hh 45-67 *)
      ys <- hcalls o (opt_list f ++ g ++ opt_list l) x ;; lift (api_sum VI PF ys)
    | HSum hs => ys <- hcalls o hs x ;; lift (api_sum VI PF ys)      (* sum.hh 62-73 *)
    end.

  (** cached_homomorphism::operator() and evaluation, sdd/hom/evaluation.hh 20-88 and 108-115; the
      assertions of lines 60-61 are part of the model. *)
  Definition hom_body (n : nat) (op : hop) : P sdd :=
    let '(o, h, x) := op in
    match x with
    | Zero => Throw EUB
    | One => direct n h o x
    | Flat var arcs =>
      with_var o (fun y =>
      if N.eqb y var then
        if hskip o h then
          with_next o (fun o' => pairs <- forward o' h arcs ;; lift (su_flat var pairs))
        else direct n h o x
      else Throw EUB)
    | Hier var arcs =>
      with_var o (fun y =>
      if N.eqb y var then
        if hskip o h then
          with_next o (fun o' => pairs <- forward o' h arcs ;; lift (su_hier var pairs))
        else direct n h o x
      else Throw EUB)
    end.

  (** Evaluation without caches: at most [n] iterations per loop, recursion bounded by [fuel]. *)
  Fixpoint heval (n fuel : nat) (op : hop) : res (err V) sdd :=
    match fuel with
    | 0 => Err EFuel
    | S fuel => interp (heval n fuel) (hom_body n op)
    end.

  (** homomorphism::operator()(o, x), sdd/hom/definition.hh 110-119. *)
  Definition happly (n fuel : nat) (o : order) (h : hom) (x : sdd) : res (err V) sdd :=
    interp (heval n fuel) (hcall o h x).

  (** The evaluation of [h] on [x] ends with [y]: no bound on the model's side matters. *)
  Definition evals (o : order) (h : hom) (x y : sdd) : Prop :=
    exists n fuel, happly n fuel o h x = Ok y.

  (** ** Constructors *)
  Notation cres := (res (cerr U)).

  (** local(var, h), local.hh 131-137. *)
  Definition local (x : N) (h : hom) : hom := if is_id h then h else HLocal x h.

  (** local(id, o, h), local.hh 144-150. *)
  Definition local_id (u : U) (o : order) (h : hom) : cres hom :=
    match o_node U ueqb o u with
    | Ok n => Ok (local (n_var _ n) h)
    | Err e => Err (COrder e)
    end.

  (** The size of a homomorphism, to bound the recursion of constructors. *)
  Fixpoint hsize (h : hom) : nat :=
    match h with
    | HComp l r => S (hsize l + hsize r)
    | HConsF _ _ n | HConsH _ _ n => S (hsize n)
    | HConst _ | HFun _ _ | HId | HInd _ => 1
    | HFix h | HLocal _ h => S (hsize h)
    | HIte p t e => S (hsize p + hsize t + hsize e)
    | HInter l | HSum l => S (list_sum (map hsize l))
    | HSatFix _ f g l => S (hsize f + list_sum (map hsize g) + hsize l)
    | HSatInter _ f g l | HSatSum _ f g l =>
      S ((match f with Some h => hsize h | None => 0 end) + list_sum (map hsize g)
         + (match l with Some h => hsize h | None => 0 end))
    end.

  (** composition and composition_builder, composition.hh 75-141. *)
  Fixpoint comp_fuel (fuel : nat) (l r : hom) : cres hom :=
    match fuel with
    | 0 => Err CFuel
    | S fuel =>
      match l, r with
      | HLocal tl hl, HLocal tr hr =>
        if N.eqb tl tr then rbind (comp_fuel fuel hl hr) (fun h => Ok (local tl h))
        else Ok (HComp l r)
      | HComp ll lr, HLocal _ _ => rbind (comp_fuel fuel lr r) (fun h => Ok (HComp ll h))
      | HLocal _ _, HComp rl rr => rbind (comp_fuel fuel l rl) (fun h => Ok (HComp h rr))
      | HComp ll lr, HComp rl rr =>
        rbind (comp_fuel fuel lr rl) (fun h => Ok (HComp ll (HComp h rr)))
      | _, _ => if is_id l then Ok r else if is_id r then Ok l else Ok (HComp l r)
      end
    end.
  Definition composition (l r : hom) : cres hom := comp_fuel (hsize l + hsize r) l r.

  (** cons, cons.hh 92-99; constant, constant.hh 85-92. *)
  Definition cons_flat (o : order) (v : V) (h : hom) : hom := HConsF o v h.
  Definition cons_hier (o : order) (v : sdd) (h : hom) : hom := HConsH o v h.
  Definition constant (x : sdd) : hom := HConst x.

  (** fixpoint and fixpoint_builder, fixpoint.hh 86-125. *)
  Definition fixpoint (h : hom) : hom :=
    match h with
    | HId => h
    | HFix _ => h
    | _ => HFix h
    end.

  (** if_then_else, if_then_else.hh 97-124. *)
  Definition if_then_else (p t e : hom) : cres hom :=
    if negb (hselector p) then Err CInvalid
    else if is_id p then Ok t
    else if hom_eqb t e then Ok t
    else Ok (HIte p t e).

  (** insertion in a boost::container::flat_set<homomorphism<C>>. *)
  Definition hset_add (h : hom) (l : list hom) : list hom := fs_insert (h_lt HP) h l.
  Definition hset (l : list hom) : list hom := fold_left (fun s h => hset_add h s) l [].

  (** locals_.emplace(target, {}).first->second.emplace_back(h), sum.hh 186-188. *)
  Fixpoint add_local (t : N) (h : hom) (m : list (N * list hom)) : list (N * list hom) :=
    match m with
    | [] => [(t, [h])]
    | (x, l) :: r => if N.eqb x t then (x, l ++ [h]) :: r else (x, l) :: add_local t h r
    end.

  (** sum_builder, sum.hh 156-203. State: (operands, locals). *)
  Definition bstate : Type := (list hom * list (N * list hom))%type.
  Fixpoint sum_visit (st : bstate) (h : hom) : bstate :=
    match h with
    | HSum l => fold_left sum_visit l st
    | HLocal t h => (fst st, add_local t h (snd st))
    | _ => (hset_add h (fst st), snd st)
    end.
  (** intersection_builder, intersection.hh 123-163. *)
  Fixpoint inter_visit (st : bstate) (h : hom) : bstate :=
    match h with
    | HInter l => fold_left inter_visit l st
    | HLocal t h => (fst st, add_local t h (snd st))
    | _ => (hset_add h (fst st), snd st)
    end.

  (** "insert remaining locals", sum.hh 229-233 and intersection.hh 192-196. *)
  Fixpoint regroup (build : list hom -> cres hom) (locals : list (N * list hom)) (operands : list hom)
    : cres (list hom) :=
    match locals with
    | [] => Ok operands
    | (t, l) :: r =>
      rbind (build l) (fun h => regroup build r (hset_add (local t h) operands))
    end.

  (** sum(o, begin, end), sum.hh 208-245 (o is only passed to recursive calls). *)
  Fixpoint sum_fuel (fuel : nat) (l : list hom) : cres hom :=
    match fuel with
    | 0 => Err CFuel
    | S fuel =>
      match l with
      | [] => Err CInvalid
      | _ =>
        let '(operands, locals) := fold_left sum_visit l ([], []) in
        rbind (regroup (sum_fuel fuel) (h_iter HP locals) operands) (fun operands =>
        match operands with
        | [h] => Ok h
        | _ => Ok (HSum operands)
        end)
      end
    end.
  Definition mk_sum (l : list hom) : cres hom := sum_fuel (S (list_sum (map hsize l))) l.

  (** intersection(o, begin, end), intersection.hh 169-207. *)
  Fixpoint inter_fuel (fuel : nat) (l : list hom) : cres hom :=
    match fuel with
    | 0 => Err CFuel
    | S fuel =>
      match l with
      | [] => Err CInvalid
      | _ =>
        let '(operands, locals) := fold_left inter_visit l ([], []) in
        rbind (regroup (inter_fuel fuel) (h_iter HP locals) operands) (fun operands =>
        match operands with
        | [h] => Ok h
        | _ => Ok (HInter operands)
        end)
      end
    end.
  Definition mk_inter (l : list hom) : cres hom := inter_fuel (S (list_sum (map hsize l))) l.

  (** saturation_sum and saturation_intersection, saturation_sum.hh 121-140 and
      saturation_intersection.hh 122-143. *)
  Definition saturation_sum (x : N) (f : option hom) (g : list hom) (l : option hom) : hom :=
    match g, f, l with
    | [], Some f, None => f
    | [], None, Some l => l
    | _, _, _ => HSatSum x f (hset g) l
    end.
  Definition saturation_intersection (x : N) (f : option hom) (g : list hom) (l : option hom) : hom :=
    match g, f, l with
    | [], Some f, None => f
    | [], None, Some l => l
    | _, _, _ => HSatInter x f (hset g) l
    end.

  (** saturation_fixpoint, saturation_fixpoint.hh 174-204. *)
  Definition saturation_fixpoint (x : N) (f : hom) (g : list hom) (l : hom) : hom :=
    match g with
    | [] => if negb (is_id f) && is_id l then f
            else if is_id f && negb (is_id l) then l
            else HSatFix x f (hset g) l
    | _ => HSatFix x f (hset g) l
    end.

  (** ** Rewriting *)

  (** rewriter::partition, rewrite.hh 47-76; result: (F, G, L, has_id). *)
  Fixpoint partition (o : order) (hs : list hom) : list hom * list hom * list hom * bool :=
    match hs with
    | [] => ([], [], [], false)
    | h :: r =>
      let '(f, g, l, i) := partition o r in
      if is_id h then (f, g, l, true)
      else if hskip o h then (h :: f, g, l, i)
      else match h with
           | HLocal _ k => (f, g, k :: l, i)
           | _ => (f, h :: g, l, i)
           end
    end.

  Definition nonempty {A : Type} (l : list A) : bool := match l with [] => false | _ => true end.

  (** "l.size() > 0 ? build(l) : optional_homomorphism<C>()", rewrite.hh 99-107. *)
  Definition opt_build (l : list hom) (build : list hom -> cres hom) : cres (option hom) :=
    if nonempty l then rbind (build l) (fun h => Ok (Some h)) else Ok None.

  (** rewrite and rewriter, rewrite.hh 39-218. std::partition of line 186 has no effect: the
      operands are then sorted by their addresses (saturation_fixpoint.hh 199-201). *)
  Fixpoint rewrite_fuel (fuel : nat) (o : order) (h : hom) : cres hom :=
    match fuel with
    | 0 => Err CFuel
    | S fuel =>
      if o_empty U o then Ok h
      else
        match o_variable U o, o_next U o, o_nested U o with
        | Some var, Some next, Some nested =>
          match h with
          | HSum hs =>                                               (* rewrite.hh 78-108 *)
            let '(f, g, l, has_id) := partition o hs in
            if negb (nonempty f) && negb (nonempty l) then Ok h
            else
              let f := if has_id then f ++ [HId] else f in
              rbind (opt_build f (fun f => rbind (mk_sum f) (rewrite_fuel fuel next))) (fun f' =>
              rbind (opt_build l (fun l => rbind (mk_sum l) (fun s =>
                       rbind (rewrite_fuel fuel nested s) (fun s => Ok (local var s))))) (fun l' =>
              Ok (saturation_sum var f' g l')))
          | HInter hs =>                                             (* rewrite.hh 110-143 *)
            let '(f, g, l, has_id) := partition o hs in
            if negb (nonempty f) && negb (nonempty l) then Ok h
            else
              let f := if has_id then f ++ [HId] else f in
              rbind (opt_build f (fun f => rbind (mk_inter f) (rewrite_fuel fuel next))) (fun f' =>
              rbind (opt_build l (fun l => rbind (mk_inter l) (fun s =>
                       rbind (rewrite_fuel fuel nested s) (fun s => Ok (local var s))))) (fun l' =>
              Ok (saturation_intersection var f' g l')))
          | HFix (HSum hs) =>                                        (* rewrite.hh 145-190 *)
            let '(f, g, l, has_id) := partition o hs in
            if negb has_id then Ok h
            else
              rbind (if nonempty f
                     then rbind (mk_sum (f ++ [HId])) (fun s => rewrite_fuel fuel next (fixpoint s))
                     else Ok HId) (fun f' =>
              rbind (if nonempty l
                     then rbind (mk_sum (l ++ [HId])) (fun s =>
                          rbind (rewrite_fuel fuel nested (fixpoint s)) (fun s => Ok (local var s)))
                     else Ok HId) (fun l' =>
              Ok (saturation_fixpoint var f' g l')))
          | _ => Ok h                                                (* rewrite.hh 192-201 *)
          end
        | _, _, _ => Err CUndefined
        end
    end.
  Definition rewrite (o : order) (h : hom) : cres hom :=
    rewrite_fuel (S (length (o_nodes U o))) o h.

  (** ** Functions and locals designated by identifiers *)

  (** The loop of carrier, sdd/order/carrier.hh 26-29, on the reversed path. *)
  Fixpoint carrier_loop (o : order) (rpath : list nat) (h : hom) : cres hom :=
    match rpath with
    | [] => Ok h
    | p :: r =>
      match o_node_from_position U o p with
      | Ok n => carrier_loop o r (local (n_var _ n) h)
      | Err e => Err (COrder e)
      end
    end.

  (** carrier, sdd/order/carrier.hh 16-31. *)
  Definition carrier (o : order) (u : U) (h : hom) : cres hom :=
    match o_node U ueqb o u with
    | Ok n => carrier_loop o (rev (n_path _ n)) h
    | Err e => Err (COrder e)
    end.

  (** function(o, id, u), sdd/hom/function.hh 334-349. *)
  Definition function (o : order) (u : U) (f : F) : cres hom :=
    match o_node U ueqb o u with
    | Ok n => carrier o u (HFun (n_var _ n) f)
    | Err e => Err (COrder e)
    end.

  (** inductive(u), sdd/hom/inductive.hh 332-342. *)
  Definition inductive (i : I) : hom := HInd i.
End HomModel.

(** An induction principle going through the lists of operands. *)
Section HomInd.
  Variables V U F I : Type.
  Notation hom := (hom V U F I).
  Variable P : hom -> Prop.
  Hypothesis PComp : forall l r, P l -> P r -> P (HComp l r).
  Hypothesis PConsF : forall o v n, P n -> P (HConsF o v n).
  Hypothesis PConsH : forall o v n, P n -> P (HConsH o v n).
  Hypothesis PConst : forall x, P (HConst x).
  Hypothesis PFix : forall h, P h -> P (HFix h).
  Hypothesis PFun : forall t f, P (HFun t f).
  Hypothesis PId : P HId.
  Hypothesis PIte : forall p t e, P p -> P t -> P e -> P (HIte p t e).
  Hypothesis PInd : forall i, P (HInd i).
  Hypothesis PInter : forall l, Forall P l -> P (HInter l).
  Hypothesis PLocal : forall t h, P h -> P (HLocal t h).
  Hypothesis PSatFix : forall x f g l, P f -> Forall P g -> P l -> P (HSatFix x f g l).
  Hypothesis PSatInter : forall x f g l,
    (forall h, f = Some h -> P h) -> Forall P g -> (forall h, l = Some h -> P h) ->
    P (HSatInter x f g l).
  Hypothesis PSatSum : forall x f g l,
    (forall h, f = Some h -> P h) -> Forall P g -> (forall h, l = Some h -> P h) ->
    P (HSatSum x f g l).
  Hypothesis PSum : forall l, Forall P l -> P (HSum l).

  Fixpoint hom_ind' (h : hom) : P h :=
    let all := fix all (l : list hom) : Forall P l :=
      match l with
      | [] => Forall_nil P
      | h :: r => Forall_cons h (hom_ind' h) (all r)
      end in
    let opt := fun (o : option hom) => match o return forall h, o = Some h -> P h with
      | Some k => fun h E => match E in _ = o return match o with Some h => P h | None => True end with
                             | eq_refl => hom_ind' k end
      | None => fun h E => match E in _ = o return match o with Some h => P h | None => True end with
                             | eq_refl => Logic.I end
      end in
    match h with
    | HComp l r => PComp l r (hom_ind' l) (hom_ind' r)
    | HConsF o v n => PConsF o v n (hom_ind' n)
    | HConsH o v n => PConsH o v n (hom_ind' n)
    | HConst x => PConst x
    | HFix h => PFix h (hom_ind' h)
    | HFun t f => PFun t f
    | HId => PId
    | HIte p t e => PIte p t e (hom_ind' p) (hom_ind' t) (hom_ind' e)
    | HInd i => PInd i
    | HInter l => PInter l (all l)
    | HLocal t h => PLocal t h (hom_ind' h)
    | HSatFix x f g l => PSatFix x f g l (hom_ind' f) (all g) (hom_ind' l)
    | HSatInter x f g l => PSatInter x f g l (opt f) (all g) (opt l)
    | HSatSum x f g l => PSatSum x f g l (opt f) (all g) (opt l)
    | HSum l => PSum l (all l)
    end.
End HomInd.
