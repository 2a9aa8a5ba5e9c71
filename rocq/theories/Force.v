(** * The FORCE heuristic

    Model of sdd/order/strategies/force.hh, force_hypergraph.hh, force_hyperedge.hh and
    force_vertex.hh.

    Every std::accumulate of these files starts from the int 0, so that its accumulator is an int
    and each addition is truncated; the divisions by size() are then divisions of integers
    (int / size_t). Locations are thus integers, and so are they here.
    Simplifications: weights are non-negative rationals (a numerator and a positive denominator);
    rounding of doubles is not modelled; overflow of int is in ForceInt.v. *)

From Coq Require Import List Bool Arith NArith Lia Permutation Sorted.
From Verif Require Import Base Orders OrdersProofs OrdersMore.
Import ListNotations.

Section Force.
  Variable U : Type.
  Variable ueqb : U -> U -> bool.

  (** vertex, sdd/order/strategies/force_vertex.hh: pointers to hyperedges are their ranks. *)
  Record vertex : Type := { v_id : U; v_loc : N; v_edges : list nat }.

  (** hyperedge, sdd/order/strategies/force_hyperedge.hh: pointers to vertices are their ranks. *)
  Record weight : Type := { w_num : N; w_den : positive }.
  Record hyperedge : Type := { e_weight : weight; e_cog : N; e_vertices : list nat }.

  (** hypergraph, sdd/order/strategies/force_hypergraph.hh 23-53: the deques of
      vertices and hyperedges; id_to_vertex_ptr_ is the search of an identifier in the vertices. *)
  Record hypergraph : Type := { vertices : list vertex; hyperedges : list hyperedge }.

  (** Errors: std::runtime_error "appears twice", undefined behaviour. *)
  Inductive ferr : Type := FTwice (u : U) | FUndefined.

  (** Constructor of a hypergraph, force_hypergraph.hh 56-78. [location] is the static variable:
      it goes on from one hypergraph to the next. *)
  Fixpoint mk_vertices (ids : list U) (location : N) (acc : list vertex)
    : res ferr (list vertex * N) :=
    match ids with
    | [] => Ok (acc, location)
    | id :: ids =>
      if existsb (fun v => ueqb (v_id v) id) acc then Err (FTwice id)
      else mk_vertices ids (N.succ location)
             (acc ++ [{| v_id := id; v_loc := location; v_edges := [] |}])
    end.
  Definition mk_hypergraph (ids : list U) (location : N) : res ferr (hypergraph * N) :=
    rbind (mk_vertices ids location [])
      (fun r => Ok ({| vertices := fst r; hyperedges := [] |}, snd r)).

  (** id_to_vertex_ptr_->find, force_hypergraph.hh 94. *)
  Fixpoint rank (vs : list vertex) (id : U) : option nat :=
    match vs with
    | [] => None
    | v :: vs => if ueqb (v_id v) id then Some 0 else option_map S (rank vs id)
    end.

  Fixpoint ranks (vs : list vertex) (ids : list U) : option (list nat) :=
    match ids with
    | [] => Some []
    | id :: ids =>
      match rank vs id, ranks vs ids with
      | Some i, Some l => Some (i :: l)
      | _, _ => None
      end
    end.

  (** Add hyperedge [e] to the vertex of rank [i]. *)
  Fixpoint connect (vs : list vertex) (i e : nat) : list vertex :=
    match vs, i with
    | [], _ => []
    | v :: vs, 0 => {| v_id := v_id v; v_loc := v_loc v; v_edges := v_edges v ++ [e] |} :: vs
    | v :: vs, S i => v :: connect vs i e
    end.

  (** add_hyperedge, force_hypergraph.hh 80-111. An unknown identifier is undefined behaviour. *)
  Definition add_hyperedge (ids : list U) (w : weight) (g : hypergraph) : res ferr hypergraph :=
    match ids with
    | [] => Ok g
    | _ =>
      match ranks (vertices g) ids with
      | Some l =>
        let e := length (hyperedges g) in
        Ok {| vertices := fold_left (fun vs i => connect vs i e) l (vertices g);
              hyperedges := hyperedges g ++ [{| e_weight := w; e_cog := 0; e_vertices := l |}] |}
      | None => Err FUndefined
      end
    end.

  Definition loc_of (vs : list vertex) (i : nat) : N :=
    match nth_error vs i with Some v => v_loc v | None => 0 end.

  (** compute_center_of_gravity, force_hyperedge.hh 75-84. *)
  Definition compute_cog (vs : list vertex) (e : hyperedge) : hyperedge :=
    {| e_weight := e_weight e;
       e_cog := (fold_left (fun acc i => acc + loc_of vs i) (e_vertices e) 0
                 / N.of_nat (length (e_vertices e)))%N;
       e_vertices := e_vertices e |}.

  (** One addition of the accumulation of force.hh 80-85, truncated to an integer. *)
  Definition add_cog (es : list hyperedge) (acc : N) (i : nat) : N :=
    match nth_error es i with
    | Some e => ((acc * Npos (w_den (e_weight e)) + e_cog e * w_num (e_weight e))
                 / Npos (w_den (e_weight e)))%N
    | None => acc
    end.

  (** The tentative location of a vertex, force.hh 73-86. *)
  Definition relocate (es : list hyperedge) (v : vertex) : vertex :=
    match v_edges v with
    | [] => v
    | l => {| v_id := v_id v;
              v_loc := (fold_left (add_cog es) l 0 / N.of_nat (length l))%N;
              v_edges := v_edges v |}
    end.

  (** v.location() = pos++ for the vertices in sorted order, force.hh 92-95. *)
  Fixpoint set_loc (vs : list vertex) (i : nat) (l : N) : list vertex :=
    match vs, i with
    | [], _ => []
    | v :: vs, 0 => {| v_id := v_id v; v_loc := l; v_edges := v_edges v |} :: vs
    | v :: vs, S i => v :: set_loc vs i l
    end.
  Fixpoint assign (vs : list vertex) (sorted : list nat) (pos : N) : list vertex :=
    match sorted with
    | [] => vs
    | i :: sorted => assign (set_loc vs i pos) sorted (N.succ pos)
    end.

  (** span, force_hyperedge.hh 86-96. *)
  Definition span (vs : list vertex) (e : hyperedge) : N :=
    match map (loc_of vs) (e_vertices e) with
    | [] => 0
    | l :: ls => fold_left N.max ls l - fold_left N.min ls l
    end%N.

  (** get_total_span, force.hh 133-140. *)
  Definition total_span (vs : list vertex) (es : list hyperedge) : N :=
    fold_left (fun acc e => acc + span vs e)%N es 0%N.

  (** std::sort with the comparison of locations, force.hh 88-90: any function, which may depend on
      everything. *)
  Variable sort : (nat -> N) -> list nat -> list nat.

  (** std::numeric_limits<double>::max(). *)
  Variable dbl_max : N.

  (** The state of operator(): the hypergraph, sorted_vertices, best_order, spans_. *)
  Record wstate : Type := {
    w_graph : hypergraph;
    w_sorted : list nat;
    w_best : list nat;
    w_spans : list N
  }.

  (** The body of the loop of operator(), force.hh 65-104. [smallest_span] is a constant. *)
  Definition iteration (s : wstate) : wstate :=
    let smallest_span := dbl_max in
    let es := map (compute_cog (vertices (w_graph s))) (hyperedges (w_graph s)) in
    let vs := map (relocate es) (vertices (w_graph s)) in
    let sorted := sort (loc_of vs) (w_sorted s) in
    let vs := assign vs sorted 0 in
    let sp := total_span vs es in
    {| w_graph := {| vertices := vs; hyperedges := es |};
       w_sorted := sorted;
       w_best := if (sp <? smallest_span)%N then sorted else w_best s;
       w_spans := w_spans s ++ [sp] |}.

  Definition worker_start (g : hypergraph) : wstate :=
    let l := seq 0 (length (vertices g)) in
    {| w_graph := g; w_sorted := l; w_best := l; w_spans := [] |}.

  Definition worker_loop (g : hypergraph) (iterations : nat) : wstate :=
    Nat.iter iterations iteration (worker_start g).

  Definition id_of (vs : list vertex) (i : nat) : list U :=
    match nth_error vs i with Some v => [v_id v] | None => [] end.

  (** The construction of the order, force.hh 106-121: every push adds at the top. *)
  Definition to_builder (vs : list vertex) (best : list nat) (reverse : bool) : builder U :=
    fold_left (fun ob i => match nth_error vs i with
                           | Some v => b_push (user_id (v_id v)) BNil ob
                           | None => ob
                           end) (if reverse then rev best else best) BNil.

  (** worker::operator(), force.hh 55-122. *)
  Definition worker (g : hypergraph) (reverse : bool) (iterations : nat) : builder U :=
    let s := worker_loop g iterations in
    to_builder (vertices (w_graph s)) (w_best s) reverse.

  (** ** Specification and proofs *)

  (** What std::sort guarantees. *)
  Definition sorts : Prop :=
    forall key l, Permutation (sort key l) l
                  /\ StronglySorted (fun i j => (key i <= key j)%N) (sort key l).

  (** Reading of a builder made by pushes. *)
  Lemma to_builder_ok vs best reverse :
    to_builder vs best reverse =
    b_of_list (concat (map (id_of vs) (if reverse then best else rev best))).
  Proof.
    unfold to_builder.
    assert (forall l ob,
      fold_left (fun ob i => match nth_error vs i with
                             | Some v => b_push (user_id (v_id v)) BNil ob
                             | None => ob end) l ob =
      b_concat (b_of_list (concat (map (id_of vs) (rev l)))) ob) as H.
    { induction l as [|i l IH]; intros ob; [reflexivity|].
      cbn [fold_left rev]. rewrite IH, map_app, concat_app.
      rewrite b_of_list_app. rewrite concat_assoc. f_equal.
      cbn [map concat]. unfold id_of. destruct (nth_error vs i); reflexivity. }
    rewrite H. rewrite concat_nil_r. destruct reverse; [now rewrite rev_involutive|reflexivity].
  Qed.

  Lemma set_loc_ids vs : forall i l, map v_id (set_loc vs i l) = map v_id vs.
  Proof. induction vs as [|v vs IH]; intros [|i] l; cbn; auto. now rewrite IH. Qed.

  Lemma assign_ids : forall sorted vs p, map v_id (assign vs sorted p) = map v_id vs.
  Proof.
    induction sorted as [|i sorted IH]; intros vs p; cbn; auto. now rewrite IH, set_loc_ids.
  Qed.

  Lemma relocate_ids es vs : map v_id (map (relocate es) vs) = map v_id vs.
  Proof.
    rewrite map_map. apply map_ext. intros v. unfold relocate. destruct (v_edges v); reflexivity.
  Qed.

  Lemma id_of_ext vs vs' : map v_id vs = map v_id vs' -> forall i, id_of vs i = id_of vs' i.
  Proof.
    intros H i. unfold id_of.
    pose proof (nth_error_map v_id i vs) as E1. pose proof (nth_error_map v_id i vs') as E2.
    rewrite H in E1. rewrite E1 in E2.
    destruct (nth_error vs i), (nth_error vs' i); cbn in E2; congruence.
  Qed.

  Lemma concat_ids vs : forall p q, vs = p ++ q ->
    concat (map (id_of vs) (seq (length p) (length q))) = map v_id q.
  Proof.
    intros p q. revert p. induction q as [|v q IH]; intros p E; [reflexivity|].
    cbn [length seq map concat].
    unfold id_of at 1. rewrite E at 1. rewrite nth_error_app2, Nat.sub_diag by lia.
    cbn [nth_error app map]. f_equal.
    specialize (IH (p ++ [v])). rewrite app_length in IH. cbn in IH.
    rewrite Nat.add_1_r in IH. apply IH. rewrite E, <- app_assoc. reflexivity.
  Qed.

  (** What the loop preserves, for every sort that permutes. *)
  Definition permutes : Prop := forall key l, Permutation (sort key l) l.

  Lemma worker_loop_ok (SP : permutes) g : forall k,
    map v_id (vertices (w_graph (worker_loop g k))) = map v_id (vertices g)
    /\ Permutation (w_sorted (worker_loop g k)) (seq 0 (length (vertices g)))
    /\ Permutation (w_best (worker_loop g k)) (seq 0 (length (vertices g)))
    /\ length (w_spans (worker_loop g k)) = k.
  Proof.
    induction k as [|k (I1 & I2 & I3 & I4)]; [cbn; auto|].
    change (worker_loop g (S k)) with (iteration (worker_loop g k)).
    set (s := worker_loop g k) in *. unfold iteration.
    cbn [w_graph vertices w_sorted w_best w_spans].
    rewrite assign_ids, relocate_ids. split; [exact I1|].
    assert (Permutation (sort (loc_of (map (relocate (map (compute_cog (vertices (w_graph s)))
              (hyperedges (w_graph s)))) (vertices (w_graph s)))) (w_sorted s))
              (seq 0 (length (vertices g)))) as P
      by (eapply Permutation_trans; [apply SP|exact I2]).
    split; [exact P|]. split.
    - destruct (_ <? _)%N; [exact P|exact I3].
    - rewrite app_length, I4. cbn. lia.
  Qed.

  Lemma worker_flats (SP : permutes) g reverse k :
    exists l, worker g reverse k = b_of_list l /\ Permutation l (map v_id (vertices g)).
  Proof.
    unfold worker. rewrite to_builder_ok. eexists. split; [reflexivity|].
    destruct (worker_loop_ok SP g k) as (I1 & _ & I3 & _).
    set (s := worker_loop g k) in *.
    assert (Permutation (if reverse then w_best s else rev (w_best s))
              (seq 0 (length (vertices g)))) as P.
    { destruct reverse; [exact I3|]. rewrite <- Permutation_rev. exact I3. }
    assert (forall A (a b : list (list A)), Permutation a b ->
              Permutation (concat a) (concat b)) as PC.
    { clear. induction 1 as [|x a b _ IH|x y a|a b c _ IH1 _ IH2]; cbn; auto.
      - now apply Permutation_app_head.
      - rewrite !app_assoc. apply Permutation_app_tail. apply Permutation_app_comm.
      - eapply Permutation_trans; eauto. }
    rewrite (PC _ _ _ (Permutation_map (id_of (vertices (w_graph s))) P)).
    rewrite <- I1.
    replace (length (vertices g)) with (length (vertices (w_graph s)))
      by (rewrite <- (map_length v_id), I1; apply map_length).
    pose proof (concat_ids (vertices (w_graph s)) [] _ eq_refl) as C. cbn in C.
    rewrite C. reflexivity.
  Qed.

  (** The identifiers of a hypergraph. *)
  Hypothesis ueqb_spec : forall a b, ueqb a b = true <-> a = b.

  Lemma mk_vertices_ok : forall ids location acc,
    NoDup (map v_id acc) ->
    match mk_vertices ids location acc with
    | Ok (vs, _) => map v_id vs = map v_id acc ++ ids /\ NoDup (map v_id vs)
    | Err e => exists u, e = FTwice u /\ repeated u (map v_id acc ++ ids)
    end.
  Proof.
    induction ids as [|id ids IH]; intros location acc ND; cbn [mk_vertices].
    - rewrite app_nil_r. auto.
    - destruct (existsb (fun v => ueqb (v_id v) id) acc) eqn:E.
      + exists id. split; [reflexivity|]. apply existsb_exists in E as (v & HI & HE).
        apply ueqb_spec in HE. apply (in_map v_id) in HI. rewrite HE in HI.
        apply in_split in HI as (l1 & l2 & ->). exists (l1 ++ l2 ++ ids).
        rewrite <- app_assoc. cbn. rewrite <- Permutation_middle. apply perm_skip.
        rewrite app_assoc, <- Permutation_middle, <- app_assoc. reflexivity.
      + specialize (IH (N.succ location)
                      (acc ++ [{| v_id := id; v_loc := location; v_edges := [] |}])).
        rewrite map_app in IH. cbn [map v_id] in IH. rewrite <- app_assoc in IH. cbn [app] in IH.
        apply IH.
        apply (Permutation_NoDup (Permutation_cons_append (map v_id acc) id)).
        constructor; [|exact ND]. intros HI. apply in_map_iff in HI as (v & E1 & E2).
        assert (existsb (fun v => ueqb (v_id v) id) acc = true); [|congruence].
        apply existsb_exists. exists v. split; auto. now apply ueqb_spec.
  Qed.

  Lemma connect_ids vs : forall i e, map v_id (connect vs i e) = map v_id vs.
  Proof. induction vs as [|v vs IH]; intros [|i] e; cbn; auto. now rewrite IH. Qed.

  Lemma add_hyperedge_ids ids w g g' :
    add_hyperedge ids w g = Ok g' -> map v_id (vertices g') = map v_id (vertices g).
  Proof.
    unfold add_hyperedge. destruct ids as [|id ids]; [intros [= <-]; reflexivity|].
    destruct (ranks (vertices g) (id :: ids)) as [l|]; [|discriminate].
    intros [= <-]. cbn [vertices].
    generalize (length (hyperedges g)) as e. intros e. generalize (vertices g) as vs.
    induction l as [|i l IH]; intros vs; cbn; auto. now rewrite IH, connect_ids.
  Qed.

  (** The hypergraphs a program can build. *)
  Inductive graph_of (ids : list U) : hypergraph -> Prop :=
  | graph_new l g l' : mk_hypergraph ids l = Ok (g, l') -> graph_of ids g
  | graph_edge g e w g' : graph_of ids g -> add_hyperedge e w g = Ok g' -> graph_of ids g'.

  Lemma graph_ids ids g : graph_of ids g -> map v_id (vertices g) = ids /\ NoDup ids.
  Proof.
    induction 1 as [l g l' H|g e w g' _ [IH1 IH2] H].
    - unfold mk_hypergraph in H. pose proof (mk_vertices_ok ids l [] (NoDup_nil _)) as M.
      destruct (mk_vertices ids l []) as [[vs l2]|]; [|discriminate].
      cbn in H. injection H as <- <-. cbn in *. destruct M as [-> M]. auto.
    - apply add_hyperedge_ids in H. split; congruence.
  Qed.

  (** The last order is the one that is returned, as soon as spans are smaller than the greatest
      double. *)
  Lemma worker_best g k :
    Forall (fun s => (s < dbl_max)%N) (w_spans (worker_loop g k)) ->
    w_best (worker_loop g k) = w_sorted (worker_loop g k).
  Proof.
    destruct k as [|k]; [reflexivity|]. 
    change (worker_loop g (S k)) with (iteration (worker_loop g k)).
    set (s := worker_loop g k). unfold iteration. cbn [w_spans w_best w_sorted].
    intros F. apply Forall_app in F as [_ F]. inversion F as [|? ? L _]; subst.
    apply N.ltb_lt in L. now rewrite L.
  Qed.
End Force.

(** Sorting is deterministic when the keys differ. *)
Lemma sorted_unique (key : nat -> N) : forall l m,
  (forall i j, In i l -> In j l -> key i = key j -> i = j) ->
  StronglySorted (fun i j => (key i <= key j)%N) l ->
  StronglySorted (fun i j => (key i <= key j)%N) m ->
  Permutation l m -> l = m.
Proof.
  induction l as [|x l IH]; intros [|y m] INJ SL SM P; auto.
  - now apply Permutation_nil in P.
  - symmetry in P. now apply Permutation_nil in P.
  - inversion SL as [|? ? SL1 FL]; subst. inversion SM as [|? ? SM1 FM]; subst.
    assert (x = y) as ->.
    { pose proof (Permutation_in x P (or_introl eq_refl)) as HX.
      pose proof (Permutation_in y (Permutation_sym P) (or_introl eq_refl)) as HY.
      rewrite Forall_forall in FL, FM.
      apply INJ; [now left|exact HY|].
      destruct HX as [->|HX]; auto. destruct HY as [<-|HY]; auto.
      apply N.le_antisymm; [apply FL, HY|apply FM, HX]. }
    f_equal. apply IH; auto.
    + intros i j Hi Hj. apply INJ; now right.
    + eapply Permutation_cons_inv; exact P.
Qed.
