(** * FORCE with the int accumulators of the code *)

From Coq Require Import List Bool Arith NArith Lia Permutation Sorted.
From Verif Require Import Base Orders OrdersProofs OrdersMore Force ForceMore.
Import ListNotations.

Section ForceInt.
  Variable U : Type.
  Variable ueqb : U -> U -> bool.
  Variable sort : (nat -> N) -> list nat -> list nat.
  Variable dbl_max : N.
  Variable int_max : N.   (* std::numeric_limits<int>::max() *)
  Notation vertex := (vertex U).
  Notation hypergraph := (hypergraph U).
  Notation v_id := (v_id U).
  Notation v_loc := (v_loc U).
  Notation v_edges := (v_edges U).
  Notation vertices := (vertices U).
  Notation hyperedges := (hyperedges U).
  Notation loc_of := (loc_of U).

  (** std::accumulate with an int as initial value and a function that returns a double, force_hyperedge.hh 81, force.hh
      80-85 and 138-139: each result is converted to int.  [None]: undefined behaviour, the result does not fit. *)
  Fixpoint accumulate {A} (f : N -> A -> N) (l : list A) (acc : N) : option N :=
    match l with
    | [] => Some acc
    | x :: l => if (f acc x <=? int_max)%N then accumulate f l (f acc x) else None
    end.

  Fixpoint each {A B} (f : A -> option B) (l : list A) : option (list B) :=
    match l with
    | [] => Some []
    | x :: l => match f x, each f l with Some y, Some r => Some (y :: r) | _, _ => None end
    end.

  (** compute_center_of_gravity, force_hyperedge.hh 75-84. *)
  Definition compute_cog_int (vs : list vertex) (e : hyperedge) : option hyperedge :=
    option_map (fun s => {| e_weight := e_weight e; e_cog := (s / N.of_nat (length (e_vertices e)))%N; e_vertices := e_vertices e |})
      (accumulate (fun acc i => acc + loc_of vs i)%N (e_vertices e) 0).

  (** The tentative location of a vertex, force.hh 73-86. *)
  Definition relocate_int (es : list hyperedge) (v : vertex) : option vertex :=
    match v_edges v with
    | [] => Some v
    | l => option_map (fun s => {| Force.v_id := v_id v; Force.v_loc := (s / N.of_nat (length l))%N; Force.v_edges := v_edges v |})
             (accumulate (add_cog es) l 0)
    end.

  (** get_total_span, force.hh 133-140. *)
  Definition total_span_int (vs : list vertex) (es : list hyperedge) : option N :=
    accumulate (fun acc e => acc + span U vs e)%N es 0.

  (** The body of the loop of operator(), force.hh 65-104. *)
  Definition iteration_int (s : wstate U) : option (wstate U) :=
    match each (compute_cog_int (vertices (w_graph U s))) (hyperedges (w_graph U s)) with
    | None => None
    | Some es =>
      match each (relocate_int es) (vertices (w_graph U s)) with
      | None => None
      | Some vs =>
        let sorted := sort (loc_of vs) (w_sorted U s) in
        let vs := assign U vs sorted 0 in
        option_map (fun sp => {| w_graph := {| Force.vertices := vs; Force.hyperedges := es |};
                                 w_sorted := sorted;
                                 w_best := if (sp <? dbl_max)%N then sorted else w_best U s;
                                 w_spans := w_spans U s ++ [sp] |})
          (total_span_int vs es)
      end
    end.

  Fixpoint loop_int (k : nat) (s : wstate U) : option (wstate U) :=
    match k with
    | 0 => Some s
    | S k => match loop_int k s with Some s => iteration_int s | None => None end
    end.

  (** worker::operator(), force.hh 55-122. *)
  Definition worker_int (g : hypergraph) (reverse : bool) (iterations : nat) : option (builder U) :=
    option_map (fun s => to_builder U (vertices (w_graph U s)) (w_best U s) reverse) (loop_int iterations (worker_start U g)).

  (** ** The result is the one without overflow *)

  Lemma accumulate_some {A} (f : N -> A -> N) : forall l acc r, accumulate f l acc = Some r -> r = fold_left f l acc.
  Proof.
    induction l as [|x l IH]; intros acc r; cbn; [congruence|]. destruct (_ <=? _)%N; [apply IH|discriminate].
  Qed.

  Lemma each_some {A B} (f : A -> option B) (h : A -> B) : forall l r, (forall x y, f x = Some y -> y = h x) ->
    each f l = Some r -> r = map h l.
  Proof.
    induction l as [|x l IH]; intros r H; cbn; [congruence|]. destruct (f x) as [y|] eqn:E; [|discriminate].
    destruct (each f l) as [s|]; [|discriminate]. intros [= <-]. f_equal; auto.
  Qed.

  Lemma iteration_int_some s s' : iteration_int s = Some s' -> s' = iteration U sort dbl_max s.
  Proof.
    unfold iteration_int. destruct (each (compute_cog_int _) _) as [es|] eqn:E; [|discriminate].
    destruct (each (relocate_int es) _) as [vs|] eqn:V; [|discriminate].
    apply (each_some _ (compute_cog U (vertices (w_graph U s)))) in E.
    2:{ intros e y. unfold compute_cog_int, compute_cog. destruct (accumulate _ _ _) as [r|] eqn:R; [|discriminate].
        apply accumulate_some in R. cbn. intros [= <-]. now rewrite R. }
    apply (each_some _ (relocate U es)) in V.
    2:{ intros v y. unfold relocate_int, relocate. destruct (v_edges v) as [|i l]; [congruence|].
        destruct (accumulate _ _ _) as [r|] eqn:R; [|discriminate]. apply accumulate_some in R. cbn [option_map]. intros [= <-].
        now rewrite R. }
    unfold total_span_int. destruct (accumulate _ es 0) as [sp|] eqn:S; [|discriminate]. apply accumulate_some in S.
    cbn [option_map]. intros [= <-]. unfold iteration, total_span. now rewrite <- E, <- V, <- S.
  Qed.

  Lemma loop_int_some g : forall k s, loop_int k (worker_start U g) = Some s -> s = worker_loop U sort dbl_max g k.
  Proof.
    induction k as [|k IH]; intros s; cbn [loop_int]; [intros [= <-]; reflexivity|].
    destruct (loop_int k (worker_start U g)) as [s1|] eqn:E; [|discriminate]. intros H. apply iteration_int_some in H.
    rewrite H, (IH s1 eq_refl). reflexivity.
  Qed.

  Lemma worker_int_some g reverse k b : worker_int g reverse k = Some b -> b = worker U sort dbl_max g reverse k.
  Proof.
    unfold worker_int, worker. destruct (loop_int k (worker_start U g)) as [s|] eqn:E; [|discriminate].
    apply loop_int_some in E as ->. cbn. now intros [= <-].
  Qed.

  (** ** When it fits *)

  Lemma accumulate_ok {A} (f : N -> A -> N) (b : N) : forall l acc,
    (forall acc x, In x l -> (f acc x <= acc + b)%N) -> (acc + N.of_nat (length l) * b <= int_max)%N ->
    exists r, accumulate f l acc = Some r /\ (r <= acc + N.of_nat (length l) * b)%N.
  Proof.
    induction l as [|x l IH]; intros acc H L; cbn [accumulate].
    - exists acc. split; [reflexivity|]. cbn. lia.
    - cbn [length] in *. pose proof (H acc x (or_introl eq_refl)) as HX.
      destruct (N.leb_spec (f acc x) int_max) as [_|G]; [|lia].
      destruct (IH (f acc x)) as (r & E & R).
      + intros a y I. apply H. now right.
      + lia.
      + exists r. split; [exact E|]. lia.
  Qed.

  Lemma each_ok {A B} (f : A -> option B) (P : B -> Prop) : forall l, Forall (fun x => exists y, f x = Some y /\ P y) l ->
    exists r, each f l = Some r /\ Forall P r.
  Proof.
    induction l as [|x l IH]; intros F; cbn; [exists []; auto|]. inversion F as [|? ? (y & E & Y) F']; subst.
    rewrite E. destruct (IH F') as (r & -> & R). exists (y :: r). auto.
  Qed.

  Variables B T W : N.

  Record fits (n : nat) (vs : list vertex) (es : list hyperedge) : Prop := {
    f_locs : Forall (fun v => (v_loc v <= B)%N) vs;
    f_degree : Forall (fun v => (N.of_nat (length (v_edges v)) <= T)%N) vs;
    f_len : length vs = n;
    f_edges : Forall (fun e => e_vertices e <> [] /\ Forall (fun i => i < n) (e_vertices e)
                               /\ (w_num (e_weight e) <= W * Npos (w_den (e_weight e)))%N) es;
    f_total : (N.of_nat (list_sum (map (fun e => length (e_vertices e)) es)) <= T)%N
  }.

  Hypothesis BTW : (T * B * W <= int_max)%N.
  Hypothesis W1 : (1 <= W)%N.

  Lemma loc_le vs i : Forall (fun v => (v_loc v <= B)%N) vs -> (loc_of vs i <= B)%N.
  Proof.
    intros F. unfold Force.loc_of. destruct (nth_error vs i) as [v|] eqn:E; [|lia].
    rewrite Forall_forall in F. apply F. eapply nth_error_In; eauto.
  Qed.

  Lemma edge_total (es : list hyperedge) e : In e es -> length (e_vertices e) <= list_sum (map (fun e => length (e_vertices e)) es).
  Proof.
    induction es as [|x es IH]; intros I; [destruct I|]. cbn [map]. change (list_sum (?a :: ?l)) with (a + list_sum l).
    destruct I as [->|I]; [lia|]. apply IH in I. lia.
  Qed.

  Lemma edges_total (es : list hyperedge) : Forall (fun e => e_vertices e <> []) es ->
    length es <= list_sum (map (fun e => length (e_vertices e)) es).
  Proof.
    induction 1 as [|e es NE F IH]; [cbn; lia|]. cbn [map length]. change (list_sum (?a :: ?l)) with (a + list_sum l).
    destruct (e_vertices e); [congruence|]. cbn [length]. lia.
  Qed.

  Lemma cog_ok vs e : Forall (fun v => (v_loc v <= B)%N) vs -> e_vertices e <> [] ->
    (N.of_nat (length (e_vertices e)) <= T)%N ->
    exists e', compute_cog_int vs e = Some e' /\ (e_cog e' <= B)%N /\ e_weight e' = e_weight e.
  Proof.
    intros F NE L. unfold compute_cog_int.
    destruct (accumulate_ok (fun acc i => acc + loc_of vs i)%N B (e_vertices e) 0%N) as (r & -> & R).
    - intros a x _. pose proof (loc_le vs x F). lia.
    - assert (N.of_nat (length (e_vertices e)) * B <= T * B)%N by (apply N.mul_le_mono_r; exact L).
      assert (T * B * 1 <= T * B * W)%N by (apply N.mul_le_mono_l; exact W1). lia.
    - cbn [option_map]. eexists. split; [reflexivity|]. cbn [e_cog e_weight]. split; [|reflexivity].
      assert (N.of_nat (length (e_vertices e)) <> 0)%N by (destruct (e_vertices e); [congruence|cbn; lia]).
      apply N.div_le_upper_bound; [assumption|]. lia.
  Qed.

  Lemma add_cog_le es : Forall (fun e => (e_cog e <= B)%N /\ (w_num (e_weight e) <= W * Npos (w_den (e_weight e)))%N) es ->
    forall a i, (add_cog es a i <= a + B * W)%N.
  Proof.
    intros F a i. unfold add_cog. destruct (nth_error es i) as [e|] eqn:E; [|lia].
    rewrite Forall_forall in F. destruct (F e (nth_error_In _ _ E)) as [F1 F2].
    apply N.div_le_upper_bound; [lia|].
    assert (e_cog e * w_num (e_weight e) <= B * (W * Npos (w_den (e_weight e))))%N by (apply N.mul_le_mono; assumption).
    lia.
  Qed.

  Lemma relocate_ok es v : Forall (fun e => (e_cog e <= B)%N /\ (w_num (e_weight e) <= W * Npos (w_den (e_weight e)))%N) es ->
    (N.of_nat (length (v_edges v)) <= T)%N ->
    exists v', relocate_int es v = Some v' /\ (v_edges v' = v_edges v).
  Proof.
    intros F L. unfold relocate_int. destruct (v_edges v) as [|i l] eqn:E; [exists v; auto|]. rewrite <- E in *.
    destruct (accumulate_ok (add_cog es) (B * W)%N (v_edges v) 0%N) as (r & R & _).
    - intros a x _. apply add_cog_le, F.
    - assert (N.of_nat (length (v_edges v)) * (B * W) <= T * (B * W))%N by (apply N.mul_le_mono_r; exact L). lia.
    - rewrite R. cbn [option_map]. eexists. split; [reflexivity|]. reflexivity.
  Qed.

  Lemma span_le vs e m : (forall i, (loc_of vs i <= m)%N) -> (span U vs e <= m)%N.
  Proof.
    intros H. unfold span. destruct (e_vertices e) as [|i l]; cbn [map]; [lia|].
    assert (forall l a, (a <= m)%N -> (fold_left N.max (map (loc_of vs) l) a <= m)%N) as G.
    { clear -H. induction l as [|i l IH]; intros a A; cbn; [exact A|]. apply IH. specialize (H i). lia. }
    specialize (G l (loc_of vs i) (H i)). lia.
  Qed.

  Lemma each_map {A C D} (f : A -> option C) (h : A -> D) (h' : C -> D) : forall l r, (forall x y, f x = Some y -> h' y = h x) ->
    each f l = Some r -> map h' r = map h l.
  Proof.
    induction l as [|x l IH]; intros r H; cbn; [intros [= <-]; reflexivity|]. destruct (f x) as [y|] eqn:E; [|discriminate].
    destruct (each f l) as [s|]; [|discriminate]. intros [= <-]. cbn. f_equal; auto.
  Qed.

  Lemma iteration_int_ok (SP : permutes sort) n s : fits n (vertices (w_graph U s)) (hyperedges (w_graph U s)) ->
    (N.of_nat n <= B)%N -> Permutation (w_sorted U s) (seq 0 n) ->
    exists s', iteration_int s = Some s' /\ fits n (vertices (w_graph U s')) (hyperedges (w_graph U s')) /\
               Permutation (w_sorted U s') (seq 0 n).
  Proof.
    intros [F1 F2 F3 F4 F5] NB P. unfold iteration_int.
    destruct (each_ok (compute_cog_int (vertices (w_graph U s)))
                (fun e => (e_cog e <= B)%N /\ (w_num (e_weight e) <= W * Npos (w_den (e_weight e)))%N)
                (hyperedges (w_graph U s))) as (es & ES & FE).
    { apply Forall_forall. intros e I. rewrite Forall_forall in F4. destruct (F4 e I) as (NE & _ & WE).
      destruct (cog_ok (vertices (w_graph U s)) e F1 NE) as (e' & E1 & E2 & E3).
      - pose proof (edge_total _ _ I). lia.
      - exists e'. rewrite E3. auto. }
    rewrite ES.
    destruct (each_ok (relocate_int es) (fun _ => True) (vertices (w_graph U s))) as (vs & VS & _).
    { apply Forall_forall. intros v I. rewrite Forall_forall in F2. destruct (relocate_ok es v FE (F2 v I)) as (v' & -> & _). eauto. }
    rewrite VS. set (sorted := sort (loc_of vs) (w_sorted U s)).
    assert (MV : map e_vertices es = map e_vertices (hyperedges (w_graph U s))).
    { eapply each_map; [|exact ES]. intros e y. unfold compute_cog_int. destruct (accumulate _ _ _); [|discriminate]. cbn. now intros [= <-]. }
    assert (MW : map e_weight es = map e_weight (hyperedges (w_graph U s))).
    { eapply each_map; [|exact ES]. intros e y. unfold compute_cog_int. destruct (accumulate _ _ _); [|discriminate]. cbn. now intros [= <-]. }
    assert (MD : map v_edges vs = map v_edges (vertices (w_graph U s))).
    { eapply each_map; [|exact VS]. intros v y. unfold relocate_int. destruct (v_edges v) as [|i l] eqn:EV; [intros [= <-]; exact EV|].
      destruct (accumulate _ _ _); [|discriminate]. cbn [option_map]. now intros [= <-]. }
    assert (LV : length vs = n) by (rewrite <- F3, <- (map_length v_edges vs), MD; apply map_length).
    assert (PS : Permutation sorted (seq 0 n)) by (eapply Permutation_trans; [apply SP|exact P]).
    assert (NS : NoDup sorted) by (eapply Permutation_NoDup; [symmetry; exact PS|apply seq_NoDup]).
    assert (AV : forall i v, nth_error (assign U vs sorted 0) i = Some v -> (v_loc v < N.of_nat n)%N /\ exists v0, In v0 vs /\ v_edges v = v_edges v0).
    { intros i v H. destruct (nth_error vs i) as [v0|] eqn:V0; [|rewrite assign_none in H by exact V0; discriminate].
      assert (In i sorted) as I.
      { eapply Permutation_in; [symmetry; exact PS|]. apply in_seq. split; [lia|]. cbn. rewrite <- LV. apply nth_error_Some. congruence. }
      apply In_nth_error in I as (q & Q). rewrite (nth_assign U sorted vs 0 q i v0 NS Q V0) in H. injection H as <-.
      cbn [Force.v_loc Force.v_edges]. split; [|exists v0; split; [eapply nth_error_In; eauto|reflexivity]].
      assert (q < length sorted) by (apply nth_error_Some; congruence).
      rewrite (Permutation_length PS), seq_length in H. lia. }
    assert (AL : forall i, (loc_of (assign U vs sorted 0) i <= N.of_nat n)%N).
    { intros i. unfold Force.loc_of. destruct (nth_error (assign U vs sorted 0) i) as [v|] eqn:E; [|lia].
      apply AV in E as [E _]. lia. }
    assert (LE : length es = length (hyperedges (w_graph U s))) by (rewrite <- (map_length e_vertices es), MV; apply map_length).
    destruct (accumulate_ok (fun acc e => acc + span U (assign U vs sorted 0) e)%N B es 0%N) as (sp & SPE & _).
    { intros a e _. pose proof (span_le _ e _ AL). lia. }
    { assert (length es <= list_sum (map (fun e => length (e_vertices e)) (hyperedges (w_graph U s)))).
      { rewrite LE. apply edges_total. eapply Forall_impl; [|exact F4]. cbn. tauto. }
      assert (N.of_nat (length es) * B <= T * B)%N by (apply N.mul_le_mono_r; lia).
      assert (T * B * 1 <= T * B * W)%N by (apply N.mul_le_mono_l; exact W1). lia. }
    unfold total_span_int. rewrite SPE. cbn [option_map]. eexists. split; [reflexivity|].
    cbn [w_graph w_sorted Force.vertices Force.hyperedges]. split; [|exact PS]. constructor.
    - apply Forall_forall. intros v I. apply In_nth_error in I as (i & I). apply AV in I as [I _]. lia.
    - apply Forall_forall. intros v I. apply In_nth_error in I as (i & I). apply AV in I as (_ & v0 & I & ->).
      assert (F2' : Forall (fun d => (N.of_nat (length d) <= T)%N) (map v_edges vs)) by (rewrite MD, Forall_map; exact F2).
      rewrite Forall_forall in F2'. apply F2'. now apply in_map.
    - rewrite <- LV. clearbody sorted. clear. revert vs. generalize 0%N. induction sorted as [|i l IH]; intros p vs; [reflexivity|]. cbn [assign]. rewrite IH.
      revert i. induction vs as [|v vs IHv]; intros [|i]; cbn; auto.
    - clear -F4 MV MW. revert MV MW F4. generalize (hyperedges (w_graph U s)) as hs.
      induction es as [|e es IH]; intros [|h hs] MV MW F; try discriminate; constructor.
      + cbn in MV, MW. injection MV as E1 _. injection MW as E2 _. inversion F; subst. now rewrite E1, E2.
      + cbn in MV, MW. injection MV as _ E1. injection MW as _ E2. inversion F; subst. eapply IH; eauto.
    - assert (map (fun e => length (e_vertices e)) es = map (fun e => length (e_vertices e)) (hyperedges (w_graph U s))) as ->; [|exact F5].
      rewrite <- (map_map e_vertices (fun l => length l) es), MV. apply map_map.
  Qed.

  Lemma loop_int_ok (SP : permutes sort) n g : fits n (vertices g) (hyperedges g) -> (N.of_nat n <= B)%N -> forall k,
    exists s, loop_int k (worker_start U g) = Some s /\ fits n (vertices (w_graph U s)) (hyperedges (w_graph U s)) /\
              Permutation (w_sorted U s) (seq 0 n).
  Proof.
    intros F NB. induction k as [|k (s & E & IH1 & IH2)]; cbn [loop_int].
    - eexists. split; [reflexivity|]. split; [exact F|]. destruct F as [_ _ <- _ _]. reflexivity.
    - rewrite E. now apply iteration_int_ok.
  Qed.

  Lemma worker_int_ok (SP : permutes sort) n g reverse k : fits n (vertices g) (hyperedges g) -> (N.of_nat n <= B)%N ->
    worker_int g reverse k = Some (worker U sort dbl_max g reverse k).
  Proof.
    intros F NB. destruct (loop_int_ok SP n g F NB k) as (s & E & _).
    assert (exists b, worker_int g reverse k = Some b) as (b & H) by (unfold worker_int; rewrite E; cbn; eauto).
    rewrite H. apply worker_int_some in H. now subst.
  Qed.

  (** Hypergraphs of programs. *)
  Definition size_of (es : list (list U * weight)) : nat := list_sum (map (fun e => length (fst e)) es).

  Hypothesis ueqb_spec : forall a b, ueqb a b = true <-> a = b.

  Record grown (n : nat) (t : nat) (g : hypergraph) : Prop := {
    gr_locs : Forall (fun v => (v_loc v <= B)%N) (vertices g);
    gr_degree : Forall (fun v => length (v_edges v) <= t) (vertices g);
    gr_len : length (vertices g) = n;
    gr_total : list_sum (map (fun e => length (e_vertices e)) (hyperedges g)) <= t
  }.

  Lemma add_all_grown n : forall es t g g', grown n t g -> add_all U ueqb es g = Ok g' -> grown n (t + size_of es) g'.
  Proof.
    induction es as [|[ids w] es IH]; intros t g g' G H; cbn [add_all] in H.
    - injection H as <-. cbn. now rewrite Nat.add_0_r.
    - destruct (add_hyperedge U ueqb ids w g) as [g1|] eqn:E; [|discriminate]. cbn [rbind] in H.
      change (size_of ((ids, w) :: es)) with (length ids + size_of es). rewrite Nat.add_assoc.
      apply (IH _ g1); [|exact H]. unfold add_hyperedge in E. destruct G as [G1 G2 G3 G4].
      destruct ids as [|id ids]; [injection E as <-; cbn; rewrite Nat.add_0_r; constructor; auto|].
      destruct (ranks U ueqb (vertices g) (id :: ids)) as [l|] eqn:R; [|discriminate]. injection E as <-.
      apply (ranks_some U ueqb ueqb_spec) in R. apply Forall2_len in R.
      constructor; cbn [Force.vertices Force.hyperedges].
      + apply Forall_forall. intros v I. apply in_connects in I as (v0 & k & I & -> & _). cbn.
        rewrite Forall_forall in G1. auto.
      + apply Forall_forall. intros v I. apply in_connects in I as (v0 & k & I & -> & K). cbn [Force.v_edges].
        rewrite app_length, repeat_length, R. rewrite Forall_forall in G2. specialize (G2 v0 I). lia.
      + rewrite <- G3. rewrite <- (map_length v_id), connects_ids. apply map_length.
      + rewrite map_app, list_sum_app. change (list_sum (map (fun e => length (e_vertices e))
          [{| e_weight := w; e_cog := 0; e_vertices := l |}])) with (length l + 0). lia.
  Qed.

  Lemma hypergraph_fits location ids es g : hypergraph_at ueqb location ids es = Ok g ->
    (location + N.of_nat (length ids) <= B)%N -> (N.of_nat (size_of es) <= T)%N ->
    (forall e, In e es -> (w_num (snd e) <= W * Npos (w_den (snd e)))%N) ->
    fits (length ids) (vertices g) (hyperedges g).
  Proof.
    intros H LB LT LW. destruct (hypergraph_ok U ueqb ueqb_spec location ids es g H) as [[B1 B2 _ _] _].
    unfold hypergraph_at, mk_hypergraph in H.
    destruct (mk_vertices U ueqb ids location []) as [[vs l1]|e] eqn:E; [|discriminate]. cbn [rbind fst] in H.
    apply mk_vertices_locs in E as (vs' & E1 & L & _ & E2). cbn in E1. subst vs'.
    destruct (add_all_grown (length ids) es 0 {| Force.vertices := vs; Force.hyperedges := [] |} g) as [G1 G2 G3 G4]; [| exact H |].
    { constructor; cbn [Force.vertices Force.hyperedges]; auto.
      - apply Forall_forall. intros v I. apply In_nth_error in I as (i & I).
        assert (i < length vs) by (apply nth_error_Some; congruence). apply E2 in I as [-> _]. lia.
      - apply Forall_forall. intros v I. apply In_nth_error in I as (i & I). apply E2 in I as [_ ->]. cbn. lia. }
    constructor; auto.
    - eapply Forall_impl; [|exact G2]. cbn. lia.
    - eapply Forall_impl; [|exact B2]. cbn. intros e (X1 & X2 & e' & X3 & X4 & _). rewrite <- X4. auto.
    - cbn in G4. lia.
  Qed.
End ForceInt.

(** ** One hyperedge that links everything *)
Section Big.
  Variable U : Type.
  Variable ueqb : U -> U -> bool.
  Hypothesis ueqb_spec : forall a b, ueqb a b = true <-> a = b.
  Variable sort : (nat -> N) -> list nat -> list nat.
  Variable dbl_max int_max : N.

  Lemma accumulate_none {A} (h : A -> N) : forall l acc, (int_max < fold_left (fun a x => a + h x)%N l acc)%N ->
    (acc <= int_max)%N -> accumulate int_max (fun a x => a + h x)%N l acc = None.
  Proof.
    induction l as [|x l IH]; intros acc H L; cbn [fold_left accumulate] in *; [lia|].
    destruct (N.leb_spec (acc + h x) int_max); [apply IH; assumption|reflexivity].
  Qed.

  Lemma rank_nodup : forall vs i id, NoDup (map (v_id U) vs) -> nth_error (map (v_id U) vs) i = Some id -> rank U ueqb vs id = Some i.
  Proof.
    induction vs as [|v vs IH]; intros [|i] id ND H; try discriminate; cbn in *.
    - injection H as ->. assert (ueqb id id = true) as -> by now apply ueqb_spec. reflexivity.
    - inversion ND as [|? ? NI ND']; subst. destruct (ueqb (v_id U v) id) eqn:E.
      + apply ueqb_spec in E. subst id. destruct NI. eapply nth_error_In; eauto.
      + rewrite (IH i id ND' H). reflexivity.
  Qed.

  Lemma ranks_all vs : NoDup (map (v_id U) vs) -> forall p q, map (v_id U) vs = p ++ q ->
    ranks U ueqb vs q = Some (seq (length p) (length q)).
  Proof.
    intros ND p q. revert p. induction q as [|u q IH]; intros p E; [reflexivity|]. cbn [ranks length seq].
    rewrite (rank_nodup vs (length p) u ND) by (rewrite E, nth_error_app2, Nat.sub_diag by lia; reflexivity).
    specialize (IH (p ++ [u])). rewrite app_length in IH. cbn in IH. rewrite Nat.add_1_r in IH.
    rewrite IH; [reflexivity|]. rewrite E, <- app_assoc. reflexivity.
  Qed.

  Lemma sum_locs vs location : (forall i v, nth_error vs i = Some v -> v_loc U v = (location + N.of_nat i)%N) ->
    forall n p a, p + n <= length vs ->
    (2 * fold_left (fun acc i => acc + loc_of U vs i) (seq p n) a + N.of_nat n =
     2 * a + N.of_nat n * (2 * location + 2 * N.of_nat p + N.of_nat n))%N.
  Proof.
    intros H. induction n as [|n IH]; intros p a L; cbn [seq fold_left]; [cbn; lia|].
    assert (loc_of U vs p = location + N.of_nat p)%N as E.
    { unfold loc_of. destruct (nth_error vs p) as [v|] eqn:V; [auto|]. apply nth_error_None in V. lia. }
    specialize (IH (S p) (a + loc_of U vs p)%N ltac:(lia)). rewrite E in IH |- *. rewrite !Nat2N.inj_succ in *. nia.
  Qed.

  Lemma one_edge location ids w reverse k : NoDup ids -> ids <> [] ->
    (2 * int_max + N.of_nat (length ids) < N.of_nat (length ids) * (2 * location + N.of_nat (length ids)))%N ->
    exists g, hypergraph_at ueqb location ids [(ids, w)] = Ok g /\
              worker_int U sort dbl_max int_max g reverse (S k) = None.
  Proof.
    intros ND NE BIG. unfold hypergraph_at, mk_hypergraph.
    pose proof (mk_vertices_ok U ueqb ueqb_spec ids location [] (NoDup_nil _)) as M.
    destruct (mk_vertices U ueqb ids location []) as [[vs l1]|e] eqn:E.
    2:{ destruct M as (u & _ & R). destruct (repeated_not_NoDup _ _ _ R ND). }
    cbn in M. destruct M as [M1 M2].
    apply mk_vertices_locs in E as (vs' & E1 & L & _ & E2). cbn in E1. subst vs'.
    cbn [rbind fst add_all]. unfold add_hyperedge. destruct ids as [|id ids]; [congruence|].
    cbn [vertices hyperedges]. rewrite (ranks_all vs M2 [] (id :: ids)) by exact M1. cbn [rbind]. eexists. split; [reflexivity|].
    assert (iteration_int U sort dbl_max int_max (worker_start U
      {| vertices := fold_left (fun vs i => connect U vs i (length (@nil hyperedge))) (seq 0 (length (id :: ids))) vs;
         hyperedges := [] ++ [{| e_weight := w; e_cog := 0; e_vertices := seq 0 (length (id :: ids)) |}] |}) = None) as IN.
    { unfold iteration_int, worker_start. cbn [w_graph vertices hyperedges app each].
      assert (compute_cog_int U int_max (fold_left (fun vs i => connect U vs i (length (@nil hyperedge))) (seq 0 (length (id :: ids))) vs)
                {| e_weight := w; e_cog := 0; e_vertices := seq 0 (length (id :: ids)) |} = None) as ->; [|reflexivity].
      unfold compute_cog_int. cbn [e_vertices]. rewrite accumulate_none; [reflexivity| |lia].
      set (vs' := fold_left _ _ vs).
      assert (LV : length vs' = length (id :: ids)).
      { unfold vs'. rewrite <- (map_length (v_id U)), connects_ids, map_length. exact L. }
      pose proof (sum_locs vs' location) as S. specialize (S) with (n := length (id :: ids)) (p := 0) (a := 0%N).
      assert (forall i v, nth_error vs' i = Some v -> v_loc U v = (location + N.of_nat i)%N) as HL.
      { intros i v V. destruct (nth_error vs i) as [v0|] eqn:V0.
        - destruct (nth_connects U (length (@nil hyperedge)) (seq 0 (length (id :: ids))) vs i v0 V0) as (k' & C & _).
          unfold vs' in V. rewrite C in V. injection V as <-. cbn. now apply E2 in V0 as [-> _].
        - unfold vs' in V. rewrite nth_connects_none in V by exact V0. discriminate. }
      specialize (S HL ltac:(rewrite LV; lia)). cbn [N.of_nat] in S. lia. }
    unfold worker_int. 
    match goal with |- option_map _ (loop_int _ _ _ _ _ ?s) = None => set (s0 := s) in * end.
    assert (loop_int U sort dbl_max int_max (S k) s0 = None) as ->; [|reflexivity].
    induction k as [|k IH]; [exact IN|]. cbn [loop_int] in IH |- *. now rewrite IH.
  Qed.
End Big.
