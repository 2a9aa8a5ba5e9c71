(** * Evaluation of homomorphisms when addresses change

    Hom.v evaluates an application of a homomorphism under one order of addresses.  In the library the evaluation creates
    and frees SDDs, so that the order of the addresses of live SDDs changes all the time.  Here, as in Moving.v, each time the
    library goes through the arcs of a node, the operands of an operation or a container sorted by addresses, it does so in an
    order given by an oracle, unrelated to the previous ones.

    The operands of a homomorphism are gone through in the order in which they are stored in it: a homomorphism lives as long
    as it is being evaluated.

    Operations on SDDs go through their caches and applications through the cache of homomorphisms, as in Moving.v. *)

From Coq Require Import List Bool NArith Arith Permutation.
From Verif Require Import Base SortedSets Values Sdd Orders DDModel Hom Moving.
Import ListNotations.

(** A cache with filters, sdd/mem/cache.hh 25-58 and 213-217: [f_accept] is their conjunction, [f_skip] counts the operations
    that are not cached. *)
Record filtered_memo (Op R E D : Type) : Type := {
  f_memo : memo Op R E D;
  f_accept : Op -> bool;
  f_skip : Op -> D -> D
}.
Arguments f_memo {Op R E D}.
Arguments f_accept {Op R E D}.
Arguments f_skip {Op R E D}.
(** No cache. *)
Definition no_filtered {Op R E : Type} : filtered_memo Op R E unit :=
  {| f_memo := no_cache; f_accept := fun _ => false; f_skip := fun _ d => d |}.

Section Model.
  Variable VI : values_impl.
  Variable PF : platform VI.                 (* only its order is used, as the reference order of Moving.v *)
  Variable O : oracle.
  Variables D H : Type.
  Variable C : memo (ddop (vt VI)) (sdd (vt VI)) (err (vt VI)) D.
  Variables U F I : Type.
  Notation V := (vt VI).
  Notation sdd := (sdd V).
  Notation hom := (hom V U F I).
  Notation order := (order U).
  Variable US : user V U F I.
  (** The user's code may throw: the call made when the clock is [t] throws if [alarm t] (tests/hom/test_hom_interrupt.cc). *)
  Variable alarm : nat -> bool.
  Notation M := (M VI D H).
  Notation hop := (hop VI U F I).

  Notation "x <~ p ;; q" := (mbind VI p (fun x => q)) (at level 61, p at next level, right associativity).

  Notation mv_sum := (mv_sum VI PF O C).
  Notation mv_inter := (mv_inter VI PF O C).
  Notation mv_minus := (mv_minus VI PF O C).
  Notation m_eval := (m_eval VI PF O C).

  (** A call to the operator() of a function or of an inductive of the user, that returns [a] unless it throws:
      sdd/hom/function.hh 48-51, 102-109 and sdd/hom/inductive.hh 47-60, 112-135.  Nothing in the library catches what it
      throws.  The other functions of the user (skip(), selector(), shifter(), ==, hash()) are called by noexcept functions. *)
  Definition user_call {A : Type} (a : A) : M A :=
    fun s => (if alarm (clock s) then Err EUser else Ok a,
              {| clock := S (clock s); dd_caches := dd_caches s; hom_cache := hom_cache s |}).
  (** The calls of a function on the valuations of the arcs, sdd/hom/function.hh 263-270 and 277-280: nothing is shared between them. *)
  Fixpoint mh_images (f : F) (arcs : list (V * sdd)) : M (list (V * sdd)) :=
    match arcs with
    | [] => mret VI []
    | (v, s) :: r =>
      v' <~ user_call (f_apply US f v) ;;
      rest <~ mh_images f r ;;
      mret VI ((v', s) :: rest)
    end.

  (** Evaluation of a cached application: sdd/mem/cache.hh 205-265. *)
  Variable ask : hop -> M sdd.

  (** homomorphism::operator(), sdd/hom/definition.hh 192-205. *)
  Definition mh_call (o : order) (h : hom) (x : sdd) : M sdd :=
    if is_id VI U F I h || is_zero VI x then mret VI x else ask (o, h, x).

  (** The loop of sdd/hom/evaluation.hh 71-79: a square union filled as the homomorphism is applied to the successors. *)
  Fixpoint mh_forward {W : Type} (ops : mops VI D H W) (o : order) (h : hom) (arcs : list (W * sdd)) (m : list (sdd * list W))
    : M (list (sdd * list W)) :=
    match arcs with
    | [] => mret VI m
    | (v, s) :: r =>
      s' <~ mh_call o h s ;;
      if is_zero VI s' then mh_forward ops o h r m
      else m' <~ m_su_add VI PF ops s' v m ;; mh_forward ops o h r m'
    end.
  (** The loop of sdd/hom/local.hh 50-57. *)
  Fixpoint mh_local_su (o : order) (h : hom) (arcs : list (sdd * sdd)) (m : list (sdd * list sdd)) (ops : mops VI D H sdd)
    : M (list (sdd * list sdd)) :=
    match arcs with
    | [] => mret VI m
    | (v, s) :: r =>
      v' <~ mh_call o h v ;;
      if is_zero VI v' then mh_local_su o h r m ops
      else m' <~ m_su_add VI PF ops s v' m ;; mh_local_su o h r m' ops
    end.
  (** SDD(variable, square_union()), sdd/dd/square_union.hh 101-111 and sdd/dd/definition.hh 160-170. *)
  Definition mh_su_node {W : Type} (ops : mops VI D H W) (mk : N -> list (W * sdd) -> sdd) (x : N) (m : list (sdd * list W)) : M sdd :=
    alpha <~ m_su_run VI PF O ops m ;; mret VI (create_node VI mk x alpha).
  (** Bound on the recursion of the unions of valuations made by a square union: the height of what was put in it. *)
  Definition su_fuel (m : list (sdd * list sdd)) : nat := fuel_of VI (map fst m ++ concat (map snd m)).

  (** The loop of sdd/hom/local.hh 64-68. *)
  Fixpoint mh_local_vals (x : N) (o : order) (h : hom) (arcs : list (sdd * sdd)) : M (list sdd) :=
    match arcs with
    | [] => mret VI []
    | (v, s) :: r =>
      v' <~ mh_call o h v ;;
      rest <~ mh_local_vals x o h r ;;
      mret VI (node_hier VI PF x v' s :: rest)
    end.
  (** The loop of sdd/hom/inductive.hh 277-281. *)
  Fixpoint mh_ind_vals {W : Type} (o : order) (k : W -> hom) (arcs : list (W * sdd)) : M (list sdd) :=
    match arcs with
    | [] => mret VI []
    | (v, s) :: r =>
      h <~ user_call (k v) ;;
      y <~ mh_call o h s ;;
      ys <~ mh_ind_vals o k r ;;
      mret VI (y :: ys)
    end.
  (** The loops of sum.hh 69-72, saturation_sum.hh 52-65, saturation_intersection.hh 52-65. *)
  Fixpoint mh_calls (o : order) (hs : list hom) (x : sdd) : M (list sdd) :=
    match hs with
    | [] => mret VI []
    | h :: r => y <~ mh_call o h x ;; ys <~ mh_calls o r x ;; mret VI (y :: ys)
    end.
  (** _intersection::operator(), intersection.hh 45-61. *)
  Fixpoint mh_inter_loop (o : order) (hs : list hom) (x : sdd) (acc : list sdd) : M sdd :=
    match hs with
    | [] => mv_inter acc
    | h :: r =>
      y <~ mh_call o h x ;;
      if is_zero VI y then mret VI Zero else mh_inter_loop o r x (acc ++ [y])
    end.
  (** _fixpoint::operator(), fixpoint.hh 37-50; [n] bounds the iterations of the model. *)
  Fixpoint mh_fix (n : nat) (o : order) (h : hom) (x1 : sdd) : M sdd :=
    match n with
    | 0 => mthrow VI EFuel
    | S n =>
      x <~ mh_call o h x1 ;;
      if sdd_eqb VI PF x x1 then mret VI x else mh_fix n o h x
    end.
  (** saturation_fixpoint.hh 97-101. *)
  Fixpoint mh_chain (o : order) (g : list hom) (s : sdd) : M sdd :=
    match g with
    | [] => mret VI s
    | h :: r =>
      y <~ mh_call o h s ;;
      s' <~ mv_sum [s; y] ;;
      mh_chain o r s'
    end.
  (** _saturation_fixpoint::operator(), saturation_fixpoint.hh 79-106. *)
  Fixpoint mh_sat (n : nat) (o : order) (f : hom) (g : list hom) (l : hom) (s1 : sdd) : M sdd :=
    match n with
    | 0 => mthrow VI EFuel
    | S n =>
      s2 <~ mh_call o f s1 ;;
      s3 <~ mh_call o l s2 ;;
      s4 <~ mh_chain o g s3 ;;
      if sdd_eqb VI PF s1 s4 then mret VI s1 else mh_sat n o f g l s4
    end.

  (** Access to the order; undefined behaviour on an empty order. *)
  Definition mh_next (o : order) (k : order -> M sdd) : M sdd :=
    match o_next U o with Some o' => k o' | None => mthrow VI EUB end.
  Definition mh_nested (o : order) (k : order -> M sdd) : M sdd :=
    match o_nested U o with Some o' => k o' | None => mthrow VI EUB end.
  Definition mh_var (o : order) (k : N -> M sdd) : M sdd :=
    match o_variable U o with Some x => k x | None => mthrow VI EUB end.

  (** The member operator() of every homomorphism; the lines are those cited in Hom.v for [direct]. *)
  Definition mh_direct (n : nat) (h : hom) (o : order) (x : sdd) : M sdd :=
    match h with
    | HComp l r => y <~ mh_call o r x ;; mh_call o l y
    | HConsF o' v next =>
      mh_var o' (fun var => mh_next o' (fun o'' =>
        y <~ mh_call o'' next x ;; mret VI (node_flat VI PF var v y)))
    | HConsH o' v next =>
      mh_var o' (fun var => mh_next o' (fun o'' =>
        y <~ mh_call o'' next x ;; mret VI (node_hier VI PF var v y)))
    | HConst y => mret VI y
    | HFix h => mh_fix n o h x
    | HFun _ f =>
      match x with
      | Zero | Hier _ _ => mthrow VI EUB
      | One => mret VI One
      | Flat _ arcs =>
        mh_var o (fun var =>
        l <~ visit VI O arcs ;;
        l <~ mh_images f l ;;
        if f_sel US f || f_shift US f then
          mret VI (create_node VI Flat var
                 (fold_left (fun alpha arc =>
                    if v_empty VI (fst arc) then alpha else alpha_add VI PF (fst arc) (snd arc) alpha)
                  l []))
        else
          mv_sum (map (fun arc => node_flat VI PF var (fst arc) (snd arc)) l))
      end
    | HId => mthrow VI EUB
    | HIte p t e =>
      tmp <~ mh_call o p x ;;
      a <~ mh_call o t tmp ;;
      d <~ mv_minus x tmp ;;
      b <~ mh_call o e d ;;
      mv_sum [a; b]
    | HInd i =>
      match x with
      | Zero => mthrow VI EUB
      | One => user_call (i_one US i)
      | Flat _ arcs => mh_next o (fun o' =>
          l <~ visit VI O arcs ;; ys <~ mh_ind_vals o' (i_flat US i o) l ;; mv_sum ys)
      | Hier _ arcs => mh_next o (fun o' =>
          l <~ visit VI O arcs ;; ys <~ mh_ind_vals o' (i_hier US i o) l ;; mv_sum ys)
      end
    | HInter hs => mh_inter_loop o hs x []
    | HLocal _ h =>
      match x with
      | Hier var arcs => mh_nested o (fun o' =>
          l <~ visit VI O arcs ;;
          if hselector VI U F I US h then
            m <~ mh_local_su o' h l [] (m_hier VI PF (m_eval 0)) ;;
            mh_su_node (m_hier VI PF (m_eval (su_fuel m))) Hier var m
          else
            ys <~ mh_local_vals var o' h l ;; mv_sum ys)
      | _ => mthrow VI EUB
      end
    | HSatFix _ f g l => mh_sat n o f g l x
    | HSatInter _ f g l =>
      ys <~ mh_calls o (opt_list VI U F I f ++ g ++ opt_list VI U F I l) x ;; mv_inter ys
    | HSatSum _ f g l =>
      ys <~ mh_calls o (opt_list VI U F I f ++ g ++ opt_list VI U F I l) x ;; mv_sum ys
    | HSum hs => ys <~ mh_calls o hs x ;; mv_sum ys
    end.

  (** cached_homomorphism::operator() and evaluation, sdd/hom/evaluation.hh 20-88 and 108-115. *)
  Definition mh_body (n : nat) (op : hop) : M sdd :=
    let '(o, h, x) := op in
    match x with
    | Zero => mthrow VI EUB
    | One => mh_direct n h o x
    | Flat var arcs =>
      mh_var o (fun y =>
      if N.eqb y var then
        if hskip VI U F I US o h then
          mh_next o (fun o' =>
            l <~ visit VI O arcs ;;
            m <~ mh_forward (m_flat VI PF O) o' h l [] ;;
            mh_su_node (m_flat VI PF O) Flat var m)
        else mh_direct n h o x
      else mthrow VI EUB)
    | Hier var arcs =>
      mh_var o (fun y =>
      if N.eqb y var then
        if hskip VI U F I US o h then
          mh_next o (fun o' =>
            l <~ visit VI O arcs ;;
            m <~ mh_forward (m_hier VI PF (m_eval 0)) o' h l [] ;;
            mh_su_node (m_hier VI PF (m_eval (su_fuel m))) Hier var m)
        else mh_direct n h o x
      else mthrow VI EUB)
    end.
End Model.

Arguments user_call VI {D H} alarm {A} a.
Arguments mh_images VI {D H} U F I US alarm f arcs.
Arguments mh_call VI {D H} U F I ask o h x.
Arguments mh_forward VI PF {D H} U F I ask {W} ops o h arcs m.
Arguments mh_local_su VI PF {D H} U F I ask o h arcs m ops.
Arguments mh_su_node VI PF O {D H W} ops mk x m.
Arguments mh_local_vals VI PF {D H} U F I ask x o h arcs.
Arguments mh_ind_vals VI {D H} U F I alarm ask {W} o k arcs.
Arguments mh_calls VI {D H} U F I ask o hs x.
Arguments mh_inter_loop VI PF O {D H} C U F I ask o hs x acc.
Arguments mh_fix VI PF {D H} U F I ask n o h x1.
Arguments mh_chain VI PF O {D H} C U F I ask o g s.
Arguments mh_sat VI PF O {D H} C U F I ask n o f g l s1.
Arguments mh_next VI {D H} U o k.
Arguments mh_nested VI {D H} U o k.
Arguments mh_var VI {D H} U o k.
Arguments mh_direct VI PF O {D H} C U F I US alarm ask n h o x.
Arguments mh_body VI PF O {D H} C U F I US alarm ask n op.

(** An access to the cache of homomorphisms. *)
Definition on_hom (VI : values_impl) {D H A : Type} (f : H -> res (err (vt VI)) A * H) : M VI D H A :=
  fun s => (fst (f (hom_cache s)), {| clock := clock s; dd_caches := dd_caches s; hom_cache := snd (f (hom_cache s)) |}).

(** Evaluation through the cache, sdd/mem/cache.hh 205-265: at most [n] iterations per loop, recursion bounded by [fuel]. *)
Fixpoint mh_eval (VI : values_impl) (PF : platform VI) (O : oracle) {D H : Type}
  (C : memo (ddop (vt VI)) (sdd (vt VI)) (err (vt VI)) D) (U F I : Type)
  (K : filtered_memo (hop VI U F I) (sdd (vt VI)) (err (vt VI)) H) (US : user (vt VI) U F I) (alarm : nat -> bool)
  (n fuel : nat) (op : hop VI U F I) : M VI D H (sdd (vt VI)) :=
  match fuel with
  | 0 => mthrow VI EFuel
  | S fuel =>
      let run := mh_body VI PF O C U F I US alarm (mh_eval VI PF O C U F I K US alarm n fuel) n op in
      if f_accept K op then
        mbind VI (on_hom VI (c_find (f_memo K) op)) (fun f =>
        match fst f with
        | Some r => mret VI r
        | None =>
            mbind VI run (fun r =>
            mbind VI (on_hom VI (c_store (f_memo K) op r (snd f))) (fun _ => mret VI r))
        end)
      else mbind VI (on_hom VI (fun h => (Ok tt, f_skip K op h))) (fun _ => run)
  end.

(** homomorphism::operator()(o, x), sdd/hom/definition.hh 110-119. *)
Definition mv_apply (VI : values_impl) (PF : platform VI) (O : oracle) {D H : Type}
  (C : memo (ddop (vt VI)) (sdd (vt VI)) (err (vt VI)) D) (U F I : Type)
  (K : filtered_memo (hop VI U F I) (sdd (vt VI)) (err (vt VI)) H) (US : user (vt VI) U F I) (alarm : nat -> bool)
  (n fuel : nat) (o : order U) (h : hom (vt VI) U F I) (x : sdd (vt VI)) : M VI D H (sdd (vt VI)) :=
  mh_call VI U F I (mh_eval VI PF O C U F I K US alarm n fuel) o h x.

(** Without caches; the user's code does not throw. *)
Definition moving_apply (VI : values_impl) (PF : platform VI) (O : oracle) (U F I : Type) (US : user (vt VI) U F I)
  (n fuel : nat) (o : order U) (h : hom (vt VI) U F I) (x : sdd (vt VI)) : res (err (vt VI)) (sdd (vt VI)) :=
  fst (mv_apply VI PF O no_cache U F I no_filtered US (fun _ => false) n fuel o h x (start tt tt)).
