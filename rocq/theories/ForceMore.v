(** * What FORCE makes of a hypergraph: history of the program, spans *)

From Coq Require Import List Bool Arith NArith Lia Permutation Sorted.
From Verif Require Import Base Orders OrdersProofs OrdersMore Force.
Import ListNotations.

Section ForceMore.
  Variable U : Type.
  Variable ueqb : U -> U -> bool.
  Variable sort : (nat -> N) -> list nat -> list nat.
  Variable dbl_max : N.
  Notation vertex := (vertex U).
  Notation hypergraph := (hypergraph U).
  Notation v_id := (v_id U).
  Notation v_loc := (v_loc U).
  Notation v_edges := (v_edges U).
  Notation vertices := (vertices U).
  Notation hyperedges := (hyperedges U).
  Notation loc_of := (loc_of U).
  Notation iteration := (iteration U sort dbl_max).

  (** The successive calls of add_hyperedge (force_hypergraph.hh 80-111) by a program. *)
  Fixpoint add_all (es : list (list U * weight)) (g : hypergraph) : res (ferr U) hypergraph :=
    match es with
    | [] => Ok g
    | (ids, w) :: es => rbind (add_hyperedge U ueqb ids w g) (add_all es)
    end.

  (** The construction of a hypergraph (force_hypergraph.hh 56-111), the static variable [location] having this value. *)
  Definition hypergraph_at (location : N) (ids : list U) (es : list (list U * weight)) : res (ferr U) hypergraph :=
    rbind (mk_hypergraph U ueqb ids location) (fun g => add_all es (fst g)).

  Lemma Forall2_len {A B} (R : A -> B -> Prop) l l' : Forall2 R l l' -> length l = length l'.
  Proof. induction 1; cbn; congruence. Qed.

  (** ** Vertices that differ by their locations *)

  Definition shifted (d : N) (v v' : vertex) : Prop :=
    v_id v' = v_id v /\ v_edges v' = v_edges v /\ v_loc v' = (v_loc v + d)%N.

  Lemma shifted_exists d acc acc' id : Forall2 (shifted d) acc acc' ->
    existsb (fun v => ueqb (v_id v) id) acc' = existsb (fun v => ueqb (v_id v) id) acc.
  Proof. induction 1 as [|v v' l l' (E & _ & _) _ IH]; cbn; [reflexivity|]. now rewrite E, IH. Qed.

  Lemma mk_vertices_shifted d : forall ids l acc acc', Forall2 (shifted d) acc acc' ->
    match mk_vertices U ueqb ids l acc, mk_vertices U ueqb ids (l + d) acc' with
    | Ok (vs, _), Ok (vs', _) => Forall2 (shifted d) vs vs'
    | Err e, Err e' => e = e'
    | _, _ => False
    end.
  Proof.
    induction ids as [|id ids IH]; intros l acc acc' A; cbn [mk_vertices]; [exact A|].
    rewrite (shifted_exists d acc acc' id A). destruct (existsb _ acc); [reflexivity|].
    replace (N.succ (l + d)) with (N.succ l + d)%N by lia. apply IH.
    apply Forall2_app; [exact A|]. constructor; [|constructor]. repeat split.
  Qed.

  Lemma rank_shifted d vs vs' id : Forall2 (shifted d) vs vs' -> rank U ueqb vs' id = rank U ueqb vs id.
  Proof. induction 1 as [|v v' l l' (E & _ & _) _ IH]; cbn; [reflexivity|]. now rewrite E, IH. Qed.

  Lemma ranks_shifted d vs vs' ids : Forall2 (shifted d) vs vs' -> ranks U ueqb vs' ids = ranks U ueqb vs ids.
  Proof.
    intros A. induction ids as [|id ids IH]; cbn; [reflexivity|]. now rewrite IH, (rank_shifted d vs vs' id A).
  Qed.

  Lemma connect_shifted d e vs vs' : Forall2 (shifted d) vs vs' -> forall i,
    Forall2 (shifted d) (connect U vs i e) (connect U vs' i e).
  Proof.
    induction 1 as [|v v' l l' (E1 & E2 & E3) A IH]; intros [|i]; cbn; constructor; auto.
    - unfold shifted. cbn. rewrite E1, E2. auto.
    - unfold shifted. auto.
  Qed.

  Lemma connects_shifted d e l : forall vs vs', Forall2 (shifted d) vs vs' ->
    Forall2 (shifted d) (fold_left (fun vs i => connect U vs i e) l vs) (fold_left (fun vs i => connect U vs i e) l vs').
  Proof. induction l as [|i l IH]; intros vs vs' A; cbn; [exact A|]. apply IH, connect_shifted, A. Qed.

  Definition graph_shifted (d : N) (g g' : hypergraph) : Prop :=
    Forall2 (shifted d) (vertices g) (vertices g') /\ hyperedges g' = hyperedges g.

  Lemma add_all_shifted d : forall es g g', graph_shifted d g g' ->
    match add_all es g, add_all es g' with
    | Ok h, Ok h' => graph_shifted d h h'
    | Err e, Err e' => e = e'
    | _, _ => False
    end.
  Proof.
    induction es as [|[ids w] es IH]; intros g g' (A & B); cbn [add_all]; [split; assumption|].
    unfold add_hyperedge. destruct ids as [|id ids]; [cbn [rbind]; apply IH; split; assumption|].
    rewrite (ranks_shifted d (vertices g) (vertices g') _ A).
    destruct (ranks U ueqb (vertices g) (id :: ids)) as [l|]; cbn [rbind]; [|reflexivity].
    apply IH. split; cbn [Force.vertices Force.hyperedges].
    - rewrite B. apply connects_shifted, A.
    - now rewrite B.
  Qed.

  Lemma hypergraph_shifted d l ids es :
    match hypergraph_at l ids es, hypergraph_at (l + d) ids es with
    | Ok g, Ok g' => graph_shifted d g g'
    | Err e, Err e' => e = e'
    | _, _ => False
    end.
  Proof.
    unfold hypergraph_at, mk_hypergraph. pose proof (mk_vertices_shifted d ids l [] [] (Forall2_nil _)) as M.
    destruct (mk_vertices U ueqb ids l []) as [[vs l1]|e], (mk_vertices U ueqb ids (l + d) []) as [[vs' l1']|e'];
      cbn [rbind fst]; try contradiction; [|exact M].
    apply add_all_shifted. split; [exact M|reflexivity].
  Qed.

  (** ** Hypergraphs built by programs *)

  Record built_ok (ids : list U) (es : list (list U * weight)) (g : hypergraph) : Prop := {
    bo_ids : map v_id (vertices g) = ids;
    bo_edges : Forall (fun e => e_vertices e <> [] /\ Forall (fun i => i < length ids) (e_vertices e)
                                /\ exists e', In e' es /\ snd e' = e_weight e
                                              /\ Forall2 (fun u i => nth_error ids i = Some u) (fst e') (e_vertices e))
                 (hyperedges g);
    bo_vertices : Forall (fun v => Forall (fun i => i < length (hyperedges g)) (v_edges v)) (vertices g);
    bo_connected : forall e u, In e es -> In u (fst e) -> exists v, In v (vertices g) /\ v_id v = u /\ v_edges v <> []
  }.

  Hypothesis ueqb_spec : forall a b, ueqb a b = true <-> a = b.

  Lemma rank_some vs id i : rank U ueqb vs id = Some i -> nth_error (map v_id vs) i = Some id.
  Proof.
    revert i. induction vs as [|v vs IH]; intros i; cbn; [discriminate|].
    destruct (ueqb (v_id v) id) eqn:E.
    - intros [= <-]. cbn. apply ueqb_spec in E. now rewrite E.
    - destruct (rank U ueqb vs id) as [j|]; cbn; [|discriminate]. intros [= <-]. cbn. auto.
  Qed.

  Lemma ranks_some vs : forall ids l, ranks U ueqb vs ids = Some l ->
    Forall2 (fun u i => nth_error (map v_id vs) i = Some u) ids l.
  Proof.
    induction ids as [|id ids IH]; intros l; cbn; [intros [= <-]; constructor|].
    destruct (rank U ueqb vs id) as [i|] eqn:E; [|discriminate].
    destruct (ranks U ueqb vs ids) as [k|]; [|discriminate]. intros [= <-].
    constructor; [now apply rank_some|auto].
  Qed.

  Lemma nth_connect vs : forall i e j, nth_error (connect U vs i e) j =
    match nth_error vs j with
    | Some v => Some (if i =? j then {| Force.v_id := v_id v; Force.v_loc := v_loc v; Force.v_edges := v_edges v ++ [e] |} else v)
    | None => None
    end.
  Proof.
    induction vs as [|v vs IH]; intros [|i] e [|j]; cbn; auto.
    destruct (nth_error vs j); reflexivity.
  Qed.

  Lemma nth_connects e : forall l vs j v, nth_error vs j = Some v ->
    exists k, nth_error (fold_left (fun vs i => connect U vs i e) l vs) j =
              Some {| Force.v_id := v_id v; Force.v_loc := v_loc v; Force.v_edges := v_edges v ++ repeat e k |}
              /\ (In j l -> k <> 0) /\ k <= length l.
  Proof.
    induction l as [|i l IH]; intros vs j v H; cbn [fold_left].
    - exists 0. cbn [repeat]. rewrite app_nil_r. destruct v; cbn in *. repeat split; auto.
    - assert (HC := nth_connect vs i e j). rewrite H in HC. apply IH in HC as (k & HC & HI & HK).
      destruct (i =? j) eqn:E; cbn in HC.
      + exists (S k). rewrite <- app_assoc in HC. split; [exact HC|]. cbn. split; [discriminate|lia].
      + exists k. split; [exact HC|]. apply Nat.eqb_neq in E. split; [|cbn; lia]. intros [->|HJ]; [congruence|auto].
  Qed.

  Lemma nth_connects_none e : forall l vs j, nth_error vs j = None ->
    nth_error (fold_left (fun vs i => connect U vs i e) l vs) j = None.
  Proof.
    induction l as [|i l IH]; intros vs j H; cbn [fold_left]; [exact H|]. apply IH. now rewrite nth_connect, H.
  Qed.

  Lemma in_connects e l vs v : In v (fold_left (fun vs i => connect U vs i e) l vs) ->
    exists v0 k, In v0 vs /\ v = {| Force.v_id := v_id v0; Force.v_loc := v_loc v0; Force.v_edges := v_edges v0 ++ repeat e k |}
                 /\ k <= length l.
  Proof.
    intros H. apply In_nth_error in H as (j & H).
    destruct (nth_error vs j) as [v0|] eqn:E.
    - destruct (nth_connects e l vs j v0 E) as (k & H1 & _ & HK). exists v0, k.
      split; [eapply nth_error_In; eauto|]. split; [congruence|exact HK].
    - rewrite nth_connects_none in H by exact E. discriminate.
  Qed.

  Lemma connects_ids e l : forall vs, map v_id (fold_left (fun vs i => connect U vs i e) l vs) = map v_id vs.
  Proof. induction l as [|i l IH]; intros vs; cbn; [reflexivity|]. now rewrite IH, connect_ids. Qed.

  Lemma add_hyperedge_ok ids0 es0 g ids w g' : built_ok ids0 es0 g -> add_hyperedge U ueqb ids w g = Ok g' ->
    built_ok ids0 (es0 ++ [(ids, w)]) g'.
  Proof.
    intros [B1 B2 B3 B4] H. unfold add_hyperedge in H.
    assert (B2' : Forall (fun e => e_vertices e <> [] /\ Forall (fun i => i < length ids0) (e_vertices e)
                                /\ exists e', In e' (es0 ++ [(ids, w)]) /\ snd e' = e_weight e
                                     /\ Forall2 (fun u i => nth_error ids0 i = Some u) (fst e') (e_vertices e))
                 (hyperedges g)).
    { eapply Forall_impl; [|exact B2]. cbn. intros e (E1 & E2 & e' & E3 & E4). split; [exact E1|].
      split; [exact E2|]. exists e'. rewrite in_app_iff. auto. }
    destruct ids as [|id ids].
    - injection H as <-. constructor; auto.
      intros e u I J. apply in_app_or in I as [I|[<-|[]]]; [eauto|destruct J].
    - destruct (ranks U ueqb (vertices g) (id :: ids)) as [l|] eqn:R; [|discriminate]. injection H as <-.
      pose proof (ranks_some _ _ _ R) as RS. rewrite B1 in RS.
      constructor; cbn [Force.vertices Force.hyperedges].
      + now rewrite connects_ids.
      + apply Forall_app. split; [exact B2'|]. constructor; [|constructor]. cbn [e_vertices e_weight].
        split; [intros ->; inversion RS|]. split.
        * clear -RS. induction RS as [|u i us l E _ IH]; constructor; auto.
          apply nth_error_Some. congruence.
        * exists (id :: ids, w). rewrite in_app_iff. cbn. auto.
      + apply Forall_forall. intros v I. apply in_connects in I as (v0 & k & I & -> & _). cbn [Force.v_edges].
        rewrite app_length. cbn [length]. apply Forall_app. split.
        * rewrite Forall_forall in B3. eapply Forall_impl; [|apply B3, I]. cbn. lia.
        * apply Forall_forall. intros x X. apply repeat_spec in X as ->. lia.
      + intros e u I J. apply in_app_or in I as [I|[<-|[]]].
        * destruct (B4 e u I J) as (v & V1 & V2 & V3). apply In_nth_error in V1 as (j & V1).
          destruct (nth_connects (length (hyperedges g)) l _ _ _ V1) as (k & C & _).
          eexists. split; [eapply nth_error_In, C|]. cbn. split; [exact V2|]. destruct (v_edges v); [congruence|discriminate].
        * cbn [fst] in J.
          assert (exists i, In i l /\ nth_error ids0 i = Some u) as (i & I1 & I2).
          { clear -RS J. induction RS as [|u' i us l E _ IH]; [destruct J|].
            destruct J as [->|J]; [exists i; cbn; auto|]. destruct (IH J) as (i' & A & B). exists i'. cbn; auto. }
          rewrite <- B1 in I2. rewrite nth_error_map in I2.
          destruct (nth_error (vertices g) i) as [v|] eqn:V; [|discriminate]. cbn in I2. injection I2 as I2.
          destruct (nth_connects (length (hyperedges g)) l _ _ _ V) as (k & C & K & _).
          eexists. split; [eapply nth_error_In, C|]. cbn. split; [exact I2|].
          specialize (K I1). destruct k; [congruence|]. destruct (v_edges v); discriminate.
  Qed.

  Lemma add_all_ok ids0 : forall es es0 g g', built_ok ids0 es0 g -> add_all es g = Ok g' -> built_ok ids0 (es0 ++ es) g'.
  Proof.
    induction es as [|[ids w] es IH]; intros es0 g g' B H; cbn [add_all] in H.
    - injection H as <-. now rewrite app_nil_r.
    - destruct (add_hyperedge U ueqb ids w g) as [g1|] eqn:E; [|discriminate]. cbn [rbind] in H.
      apply (add_hyperedge_ok ids0 es0 _ _ _ _ B) in E. apply (IH _ _ _ E) in H. now rewrite <- app_assoc in H.
  Qed.

  Lemma mk_vertices_locs : forall ids l acc vs l', mk_vertices U ueqb ids l acc = Ok (vs, l') ->
    exists vs', vs = acc ++ vs' /\ length vs' = length ids /\ l' = (l + N.of_nat (length ids))%N /\
    forall i v, nth_error vs' i = Some v -> v_loc v = (l + N.of_nat i)%N /\ v_edges v = [].
  Proof.
    induction ids as [|id ids IH]; intros l acc vs l'; cbn [mk_vertices].
    - intros [= <- <-]. exists []. rewrite app_nil_r. repeat split; [cbn; lia| |]; destruct i; discriminate.
    - destruct (existsb _ acc); [discriminate|]. intros H. apply IH in H as (vs' & -> & L & -> & N).
      rewrite <- app_assoc. eexists. split; [reflexivity|]. cbn [length app]. split; [lia|]. split; [lia|].
      intros [|i] v; cbn [nth_error].
      + intros [= <-]. cbn. split; [lia|reflexivity].
      + intros H. apply N in H as [-> ->]. split; [lia|reflexivity].
  Qed.

  Lemma hypergraph_ok l ids es g : hypergraph_at l ids es = Ok g -> built_ok ids es g /\ NoDup ids.
  Proof.
    unfold hypergraph_at, mk_hypergraph. intros H.
    destruct (mk_vertices U ueqb ids l []) as [[vs l1]|e] eqn:E; [|discriminate]. cbn [rbind fst] in H.
    pose proof (mk_vertices_ok U ueqb ueqb_spec ids l [] (NoDup_nil _)) as M. rewrite E in M. destruct M as [M1 M2].
    apply mk_vertices_locs in E as (vs' & E1 & _ & _ & E2). cbn in E1. subst vs'. cbn in M1. split; [|now rewrite <- M1].
    apply (add_all_ok ids es [] _ _) with (2 := H). constructor; cbn [Force.vertices Force.hyperedges].
    - exact M1.
    - constructor.
    - apply Forall_forall. intros v I. apply In_nth_error in I as (i & I). apply E2 in I as [_ ->]. constructor.
    - intros e u [].
  Qed.

  (** ** Positions *)

  Lemma nth_set_loc vs : forall i l j, nth_error (set_loc U vs i l) j =
    match nth_error vs j with
    | Some v => Some (if i =? j then {| Force.v_id := v_id v; Force.v_loc := l; Force.v_edges := v_edges v |} else v)
    | None => None
    end.
  Proof.
    induction vs as [|v vs IH]; intros [|i] l [|j]; cbn; auto.
    destruct (nth_error vs j); reflexivity.
  Qed.

  Lemma nth_assign_out : forall sorted vs p i, ~ In i sorted -> nth_error (assign U vs sorted p) i = nth_error vs i.
  Proof.
    induction sorted as [|j sorted IH]; intros vs p i NI; cbn [assign]; [reflexivity|].
    rewrite IH by (intros J; apply NI; now right). rewrite nth_set_loc.
    destruct (j =? i) eqn:E; [apply Nat.eqb_eq in E; destruct NI; now left|]. destruct (nth_error vs i); reflexivity.
  Qed.

  Lemma nth_assign : forall sorted vs p q i v, NoDup sorted -> nth_error sorted q = Some i -> nth_error vs i = Some v ->
    nth_error (assign U vs sorted p) i =
    Some {| Force.v_id := v_id v; Force.v_loc := (p + N.of_nat q)%N; Force.v_edges := v_edges v |}.
  Proof.
    induction sorted as [|j sorted IH]; intros vs p [|q] i v ND S V; try discriminate; cbn [assign].
    - injection S as ->. inversion ND as [|? ? NI ND']; subst. rewrite nth_assign_out by exact NI.
      rewrite nth_set_loc, V, Nat.eqb_refl. now rewrite N.add_0_r.
    - inversion ND as [|? ? NI ND']; subst. cbn in S.
      assert (j <> i) as J by (intros ->; apply NI; eapply nth_error_In; eauto).
      rewrite (IH _ (N.succ p) q i v ND' S); [do 2 f_equal; lia|].
      rewrite nth_set_loc, V. apply Nat.eqb_neq in J. now rewrite J.
  Qed.

  Lemma assign_none sorted vs p i : nth_error vs i = None -> nth_error (assign U vs sorted p) i = None.
  Proof.
    revert vs p. induction sorted as [|j sorted IH]; intros vs p H; cbn [assign]; [exact H|]. apply IH.
    now rewrite nth_set_loc, H.
  Qed.

  Lemma nth_error_ext {A} : forall l l' : list A, (forall i, nth_error l i = nth_error l' i) -> l = l'.
  Proof.
    induction l as [|x l IH]; intros [|y l'] H; auto; try (specialize (H 0); discriminate).
    pose proof (H 0) as H0. injection H0 as ->. f_equal. apply IH. intros i. exact (H (S i)).
  Qed.

  Lemma assign_shifted d vs vs' sorted : Forall2 (shifted d) vs vs' -> Permutation sorted (seq 0 (length vs)) ->
    assign U vs' sorted 0 = assign U vs sorted 0.
  Proof.
    intros A P. apply nth_error_ext. intros i.
    assert (ND : NoDup sorted) by (eapply Permutation_NoDup; [symmetry; exact P|apply seq_NoDup]).
    destruct (nth_error vs i) as [v|] eqn:V.
    - assert (In i sorted) as I.
      { eapply Permutation_in; [symmetry; exact P|]. apply in_seq. split; [lia|]. cbn. apply nth_error_Some. congruence. }
      assert (exists v', nth_error vs' i = Some v' /\ shifted d v v') as (v' & V' & S1 & S2 & _).
      { clear -A V. revert i V. induction A as [|a a' l l' S A IH]; intros [|i] V; try discriminate; cbn in *; eauto.
        injection V as ->. eauto. }
      apply In_nth_error in I as (q & Q).
      rewrite (nth_assign _ _ _ q i v' ND Q V'), (nth_assign _ _ _ q i v ND Q V). now rewrite S1, S2.
    - rewrite !assign_none; auto. apply nth_error_None. apply nth_error_None in V. now rewrite <- (Forall2_len _ _ _ A).
  Qed.

  (** ** The first iteration *)

  (** std::sort is deterministic and only calls the comparison: its result depends on nothing else. *)
  Definition only_compares : Prop := forall k k' l,
    (forall i j, In i l -> In j l -> (k i <? k j)%N = (k' i <? k' j)%N) -> sort k l = sort k' l.

  Lemma loc_shifted d vs vs' i : Forall2 (shifted d) vs vs' -> i < length vs -> loc_of vs' i = (loc_of vs i + d)%N.
  Proof.
    intros A. revert i. induction A as [|v v' l l' (_ & _ & S) A IH]; intros [|i] L; cbn in L; try lia; [exact S|].
    apply (IH i). lia.
  Qed.

  Lemma sum_shifted d vs vs' l : Forall2 (shifted d) vs vs' -> Forall (fun i => i < length vs) l -> forall a a',
    a' = a -> forall b, (fold_left (fun acc i => acc + loc_of vs' i) l (a' + b) =
    fold_left (fun acc i => acc + loc_of vs i) l a + N.of_nat (length l) * d + b)%N.
  Proof.
    intros A F a a' ->. revert a. induction F as [|i l L F IH]; intros a b; cbn [fold_left length]; [lia|].
    rewrite (loc_shifted d vs vs' i A L).
    replace (a + b + (loc_of vs i + d))%N with (a + loc_of vs i + (b + d))%N by lia.
    rewrite IH. lia.
  Qed.

  Definition edge_shifted (d : N) (e e' : hyperedge) : Prop :=
    e_weight e' = e_weight e /\ e_vertices e' = e_vertices e /\ e_cog e' = (e_cog e + d)%N.

  Lemma cog_shifted d vs vs' e : Forall2 (shifted d) vs vs' -> e_vertices e <> [] ->
    Forall (fun i => i < length vs) (e_vertices e) -> edge_shifted d (compute_cog U vs e) (compute_cog U vs' e).
  Proof.
    intros A NE F. repeat split. cbn [e_cog compute_cog].
    pose proof (sum_shifted d vs vs' (e_vertices e) A F 0%N 0%N eq_refl 0%N) as S. rewrite !N.add_0_r in S. rewrite S.
    assert (N.of_nat (length (e_vertices e)) <> 0%N) by (destruct (e_vertices e); [congruence|cbn; lia]).
    rewrite (N.mul_comm _ d), N.div_add by assumption. reflexivity.
  Qed.

  Lemma cogs_shifted d n es es' l : Forall2 (edge_shifted d) es es' ->
    Forall (fun e => w_num (e_weight e) = (n * Npos (w_den (e_weight e)))%N) es ->
    Forall (fun i => i < length es) l -> forall a b,
    (fold_left (add_cog es') l (a + b) = fold_left (add_cog es) l a + N.of_nat (length l) * (d * n) + b)%N.
  Proof.
    intros A W F. induction F as [|i l L F IH]; intros a b; cbn [fold_left length]; [lia|].
    assert (exists e e', nth_error es i = Some e /\ nth_error es' i = Some e' /\ edge_shifted d e e') as (e & e' & E & E' & S1 & S2 & S3).
    { clear -A L. revert i L. induction A as [|x y l l' S A IH]; intros [|i] L; cbn in L |- *; try lia; eauto.
      apply (IH i). lia. }
    assert (w_num (e_weight e) = (n * Npos (w_den (e_weight e)))%N) as WE
      by (rewrite Forall_forall in W; apply W; eapply nth_error_In; eauto).
    assert (add_cog es a i = a + e_cog e * n)%N as ->.
    { unfold add_cog. rewrite E, WE.
      replace (a * N.pos (w_den (e_weight e)) + e_cog e * (n * N.pos (w_den (e_weight e))))%N
        with ((a + e_cog e * n) * N.pos (w_den (e_weight e)))%N by lia. now rewrite N.div_mul. }
    assert (add_cog es' (a + b) i = a + e_cog e * n + (d * n + b))%N as ->.
    { unfold add_cog. rewrite E', S1, S3, WE.
      replace ((a + b) * N.pos (w_den (e_weight e)) + (e_cog e + d) * (n * N.pos (w_den (e_weight e))))%N
        with ((a + e_cog e * n + (d * n + b)) * N.pos (w_den (e_weight e)))%N by lia. now rewrite N.div_mul. }
    rewrite IH. lia.
  Qed.

  Lemma relocate_shifted d n es es' v v' : Forall2 (edge_shifted d) es es' ->
    Forall (fun e => w_num (e_weight e) = (n * Npos (w_den (e_weight e)))%N) es ->
    Forall (fun i => i < length es) (v_edges v) -> n = 1%N \/ v_edges v <> [] ->
    shifted d v v' -> shifted (d * n) (relocate U es v) (relocate U es' v').
  Proof.
    intros A W F C (S1 & S2 & S3). unfold relocate. rewrite S2. destruct (v_edges v) as [|i l] eqn:E.
    - destruct C as [->|C]; [|congruence]. rewrite N.mul_1_r. unfold shifted. rewrite S1, S2, S3, E. auto.
    - rewrite <- E in *. unfold shifted. cbn [Force.v_id Force.v_edges Force.v_loc]. split; [exact S1|]. split; [reflexivity|].
      pose proof (cogs_shifted d n es es' (v_edges v) A W F 0%N 0%N) as H. rewrite !N.add_0_r in H. rewrite H.
      assert (N.of_nat (length (v_edges v)) <> 0%N) by (rewrite E; cbn; lia).
      rewrite (N.mul_comm _ (d * n)), N.div_add by assumption. reflexivity.
  Qed.

  (** States that differ only by centers of gravity, which are computed again before they are used. *)
  Definition same_state (s s' : wstate U) : Prop :=
    vertices (w_graph U s') = vertices (w_graph U s) /\
    Forall2 (fun e e' => e_weight e' = e_weight e /\ e_vertices e' = e_vertices e)
      (hyperedges (w_graph U s)) (hyperedges (w_graph U s')) /\
    w_sorted U s' = w_sorted U s /\ w_best U s' = w_best U s /\ w_spans U s' = w_spans U s.

  Lemma total_span_same vs : forall es es',
    Forall2 (fun e e' => e_weight e' = e_weight e /\ e_vertices e' = e_vertices e) es es' ->
    total_span U vs es' = total_span U vs es.
  Proof.
    unfold total_span. intros es es' A. generalize 0%N. induction A as [|e e' l l' [_ E] A IH]; intros a; cbn; [reflexivity|].
    unfold span at 2. rewrite E. apply IH.
  Qed.

  Lemma iteration_same s s' : same_state s s' -> same_state (iteration s) (iteration s').
  Proof.
    intros (A & B & C & E & G). unfold iteration. rewrite A, C, E, G.
    assert (map (compute_cog U (vertices (w_graph U s))) (hyperedges (w_graph U s')) =
            map (compute_cog U (vertices (w_graph U s))) (hyperedges (w_graph U s))) as ->.
    { induction B as [|e e' l l' [B1 B2] B IH]; cbn; [reflexivity|]. rewrite IH. f_equal.
      unfold compute_cog. now rewrite B1, B2. }
    unfold same_state. cbn. repeat split. induction (map _ _) as [|e l IH]; constructor; auto.
  Qed.

  Lemma first_same (SP : permutes sort) (OC : only_compares) d n ids es g g' :
    built_ok ids es g -> graph_shifted d g g' ->
    (forall e, In e es -> w_num (snd e) = (n * Npos (w_den (snd e)))%N) ->
    n = 1%N \/ (forall u, In u ids -> exists e, In e es /\ In u (fst e)) -> NoDup ids ->
    same_state (iteration (worker_start U g)) (iteration (worker_start U g')).
  Proof.
    intros [B1 B2 B3 B4] (A & E) W C ND. unfold iteration, worker_start.
    cbn [w_graph w_sorted w_best w_spans Force.vertices Force.hyperedges].
    rewrite E, <- (Forall2_len _ _ _ A).
    assert (L : length (vertices g) = length ids) by (rewrite <- B1; symmetry; apply map_length).
    set (c := map (compute_cog U (vertices g)) (hyperedges g)).
    set (c' := map (compute_cog U (vertices g')) (hyperedges g)).
    assert (AE : Forall2 (edge_shifted d) c c').
    { subst c c'. clear -A B2 L. induction B2 as [|e l (NE & R & _) B2 IH]; cbn; constructor; auto.
      apply cog_shifted; auto. now rewrite L. }
    assert (WE : Forall (fun e => w_num (e_weight e) = (n * Npos (w_den (e_weight e)))%N) c).
    { subst c. apply Forall_map. eapply Forall_impl; [|exact B2]. cbn. intros e (_ & _ & e' & I & <- & _). auto. }
    assert (AV : Forall2 (shifted (d * n)) (map (relocate U c) (vertices g)) (map (relocate U c') (vertices g'))).
    { assert (CV : Forall (fun v => n = 1%N \/ v_edges v <> []) (vertices g)).
      { apply Forall_forall. intros v I. destruct C as [->|C]; [now left|right].
        destruct (C (v_id v)) as (e & I1 & I2); [rewrite <- B1; now apply in_map|].
        destruct (B4 e _ I1 I2) as (v1 & J1 & J2 & J3).
        assert (v = v1) as ->; [|exact J3]. rewrite <- B1 in ND. clear -ND I J1 J2.
        induction (vertices g) as [|x l IH]; [destruct I|]. cbn in ND. inversion ND as [|? ? NI ND']; subst.
        destruct I as [->|I], J1 as [->|J1]; auto.
        - destruct NI. rewrite <- J2. now apply in_map.
        - destruct NI. rewrite J2. now apply in_map. }
      assert (LC : length c = length (hyperedges g)) by apply map_length.
      rewrite <- LC in B3. clearbody c c'. clear -AE WE A B3 CV. revert B3 CV.
      induction A as [|v v' l l' S A IH]; intros B3 CV; cbn; [constructor|]. inversion B3; inversion CV; subst.
      constructor; [|auto]. now apply relocate_shifted. }
    assert (SE : sort (loc_of (map (relocate U c') (vertices g'))) (seq 0 (length (vertices g))) =
                 sort (loc_of (map (relocate U c) (vertices g))) (seq 0 (length (vertices g)))).
    { apply OC. intros i j I J. apply in_seq in I as [_ I], J as [_ J]. cbn in I, J.
      rewrite !(loc_shifted _ _ _ _ AV) by (rewrite map_length; assumption).
      destruct (N.ltb_spec (loc_of (map (relocate U c) (vertices g)) i + d * n) (loc_of (map (relocate U c) (vertices g)) j + d * n)),
               (N.ltb_spec (loc_of (map (relocate U c) (vertices g)) i) (loc_of (map (relocate U c) (vertices g)) j)); auto; lia. }
    rewrite SE.
    assert (AS : assign U (map (relocate U c') (vertices g')) (sort (loc_of (map (relocate U c) (vertices g))) (seq 0 (length (vertices g)))) 0 =
                 assign U (map (relocate U c) (vertices g)) (sort (loc_of (map (relocate U c) (vertices g))) (seq 0 (length (vertices g)))) 0).
    { eapply assign_shifted; [exact AV|]. rewrite map_length. apply SP. }
    rewrite AS.
    assert (ES : Forall2 (fun e e' => e_weight e' = e_weight e /\ e_vertices e' = e_vertices e) c c').
    { clear -AE. induction AE as [|e e' l l' (S1 & S2 & _) A IH]; constructor; auto. }
    unfold same_state. cbn. rewrite (total_span_same _ _ _ ES). repeat split; auto.
  Qed.

  Lemma loop_same (SP : permutes sort) (OC : only_compares) d n ids es g g' :
    built_ok ids es g -> graph_shifted d g g' ->
    (forall e, In e es -> w_num (snd e) = (n * Npos (w_den (snd e)))%N) ->
    n = 1%N \/ (forall u, In u ids -> exists e, In e es /\ In u (fst e)) -> NoDup ids -> forall k,
    same_state (worker_loop U sort dbl_max g (S k)) (worker_loop U sort dbl_max g' (S k)).
  Proof.
    intros B A W C ND. induction k as [|k IH].
    - exact (first_same SP OC d n ids es g g' B A W C ND).
    - change (same_state (iteration (worker_loop U sort dbl_max g (S k))) (iteration (worker_loop U sort dbl_max g' (S k)))).
      now apply iteration_same.
  Qed.

  Lemma to_builder_ids vs vs' best reverse : map v_id vs = map v_id vs' ->
    to_builder U vs best reverse = to_builder U vs' best reverse.
  Proof.
    intros E. rewrite !to_builder_ok. f_equal. f_equal. apply map_ext, id_of_ext, E.
  Qed.

  Theorem worker_history (SP : permutes sort) (OC : only_compares) d n l ids es g g' reverse k :
    hypergraph_at l ids es = Ok g -> hypergraph_at (l + d) ids es = Ok g' ->
    (forall e, In e es -> w_num (snd e) = (n * Npos (w_den (snd e)))%N) ->
    n = 1%N \/ (forall u, In u ids -> exists e, In e es /\ In u (fst e)) ->
    worker U sort dbl_max g' reverse k = worker U sort dbl_max g reverse k /\
    w_spans U (worker_loop U sort dbl_max g' k) = w_spans U (worker_loop U sort dbl_max g k).
  Proof.
    intros H H' W C. pose proof (hypergraph_shifted d l ids es) as A. rewrite H, H' in A.
    destruct (hypergraph_ok l ids es g H) as [B ND].
    destruct k as [|k].
    - split; [|reflexivity]. unfold worker, worker_loop, worker_start. cbn [Nat.iter nat_rect w_graph w_best].
      destruct A as [A _]. rewrite <- (Forall2_len _ _ _ A). apply to_builder_ids.
      clear -A. induction A as [|v v' l l' (S & _ & _) A IH]; cbn; [reflexivity|]. now rewrite IH, S.
    - destruct (loop_same SP OC d n ids es g g' B A W C ND k) as (E1 & _ & _ & E2 & E3).
      split; [|exact E3]. unfold worker. now rewrite E1, E2.
  Qed.
  (** ** Spans *)

  (** The place of an identifier in an order. *)
  Fixpoint place_in (l : list U) (u : U) : nat :=
    match l with [] => 0 | v :: l => if ueqb u v then 0 else S (place_in l u) end.

  Definition min_max (n : nat) (ps : list nat) : nat :=
    match ps with [] => 0 | _ => fold_right Nat.max 0 ps - fold_right Nat.min n ps end.

  Lemma place_nth : forall l i u, NoDup l -> nth_error l i = Some u -> place_in l u = i.
  Proof.
    induction l as [|v l IH]; intros [|i] u ND H; try discriminate; cbn in *.
    - injection H as ->. assert (ueqb u u = true) as -> by now apply ueqb_spec. reflexivity.
    - inversion ND as [|? ? NI ND']; subst. destruct (ueqb u v) eqn:E.
      + apply ueqb_spec in E as ->. destruct NI. eapply nth_error_In; eauto.
      + f_equal. auto.
  Qed.

  Lemma place_lt l u : In u l -> place_in l u < length l.
  Proof.
    induction l as [|v l IH]; intros I; [destruct I|]. cbn. destruct (ueqb u v) eqn:E; [lia|].
    destruct I as [->|I]; [|apply IH in I; lia]. assert (ueqb u u = true) by now apply ueqb_spec. congruence.
  Qed.

  Lemma place_rev l u : NoDup l -> In u l -> place_in (rev l) u = length l - 1 - place_in l u.
  Proof.
    intros ND I. apply In_nth_error in I as (i & I). rewrite (place_nth l i u ND I).
    assert (i < length l) by (apply nth_error_Some; congruence).
    apply place_nth; [now apply NoDup_rev|].
    rewrite (nth_error_nth' (rev l) u) by (rewrite rev_length; lia).
    rewrite rev_nth by lia. replace (length l - S (length l - 1 - i)) with i by lia.
    f_equal. now apply nth_error_nth.
  Qed.

  Lemma min_max_rev n ps : Forall (fun p => p < n) ps -> min_max n (map (fun p => n - 1 - p) ps) = min_max n ps.
  Proof.
    intros F. destruct ps as [|p ps]; [reflexivity|]. unfold min_max. cbn [map].
    assert (forall q qs, Forall (fun p => p < n) (q :: qs) ->
      fold_right Nat.max 0 (map (fun p => n - 1 - p) (q :: qs)) = n - 1 - fold_right Nat.min n (q :: qs) /\
      fold_right Nat.min n (map (fun p => n - 1 - p) (q :: qs)) = n - 1 - fold_right Nat.max 0 (q :: qs) /\
      fold_right Nat.max 0 (q :: qs) < n /\ fold_right Nat.min n (q :: qs) < n) as H.
    { clear. intros q qs. revert q. induction qs as [|r qs IH]; intros q F.
      - inversion F; subst. cbn. lia.
      - inversion F as [|? ? Q F']; subst. destruct (IH r F') as (A & B & C & D).
        change (map (fun p => n - 1 - p) (q :: r :: qs)) with (n - 1 - q :: map (fun p => n - 1 - p) (r :: qs)).
        cbn [fold_right] in *. cbn [map fold_right] in A, B |- *. rewrite A, B, Nat.sub_max_distr_l, Nat.sub_min_distr_l.
        split; [reflexivity|]. split; [reflexivity|]. split; [apply Nat.max_lub_lt; auto|].
        eapply Nat.le_lt_trans; [apply Nat.le_min_l|exact Q]. }
    destruct (H p ps F) as (A & B & C & D). cbn [map] in A, B. rewrite A, B. lia.
  Qed.

  Lemma fold_max : forall ps q, fold_left N.max (map N.of_nat ps) (N.of_nat q) = N.of_nat (fold_right Nat.max q ps).
  Proof.
    intros ps q. rewrite fold_symmetric by lia.
    induction ps as [|p ps IH]; cbn [map fold_right]; [reflexivity|]. rewrite IH. lia.
  Qed.

  Lemma fold_min : forall ps q, fold_left N.min (map N.of_nat ps) (N.of_nat q) = N.of_nat (fold_right Nat.min q ps).
  Proof.
    intros ps q. rewrite fold_symmetric by lia.
    induction ps as [|p ps IH]; cbn [map fold_right]; [reflexivity|]. rewrite IH. lia.
  Qed.

  Lemma max_head : forall ps q, fold_right Nat.max q ps = Nat.max q (fold_right Nat.max 0 ps).
  Proof. induction ps as [|p ps IH]; intros q; cbn; [lia|]. rewrite IH. lia. Qed.
  Lemma min_head : forall ps q n, q <= n -> fold_right Nat.min q ps = Nat.min q (fold_right Nat.min n ps).
  Proof. induction ps as [|p ps IH]; intros q n L; cbn; [lia|]. rewrite (IH q n) by lia. lia. Qed.

  Lemma span_places n vs e ps : map (loc_of vs) (e_vertices e) = map N.of_nat ps -> Forall (fun p => p < n) ps ->
    span U vs e = N.of_nat (min_max n ps).
  Proof.
    intros E F. unfold span. rewrite E. destruct ps as [|p ps]; [reflexivity|]. cbn [map].
    rewrite fold_max, fold_min. unfold min_max. cbn [fold_right]. rewrite max_head.
    inversion F; subst. rewrite (min_head ps p n) by lia. lia.
  Qed.

  (** The hyperedges that are stored: those that are not empty. *)
  Definition stored (es : list (list U * weight)) : list (list U * weight) :=
    filter (fun e => match fst e with [] => false | _ => true end) es.

  Definition edges_match (ids : list U) (es : list (list U * weight)) (l : list hyperedge) : Prop :=
    Forall2 (fun e' e => Forall2 (fun u i => nth_error ids i = Some u) (fst e') (e_vertices e)) (stored es) l.

  Lemma add_all_match ids0 : forall es es0 g g', map v_id (vertices g) = ids0 -> edges_match ids0 es0 (hyperedges g) ->
    add_all es g = Ok g' -> edges_match ids0 (es0 ++ es) (hyperedges g').
  Proof.
    induction es as [|[ids w] es IH]; intros es0 g g' I M H; cbn [add_all] in H.
    - injection H as <-. now rewrite app_nil_r.
    - destruct (add_hyperedge U ueqb ids w g) as [g1|] eqn:E; [|discriminate]. cbn [rbind] in H.
      change ((ids, w) :: es) with ([(ids, w)] ++ es). rewrite app_assoc. apply (IH _ g1 _); [| |exact H].
      + now rewrite (add_hyperedge_ids U ueqb ids w g g1 E).
      + unfold edges_match, stored in *. rewrite filter_app.
        unfold add_hyperedge in E. destruct ids as [|id ids]; [injection E as <-; cbn; now rewrite app_nil_r|].
        destruct (ranks U ueqb (vertices g) (id :: ids)) as [l|] eqn:R; [|discriminate]. injection E as <-.
        cbn [Force.hyperedges filter fst]. apply Forall2_app; [exact M|]. constructor; [|constructor].
        apply ranks_some in R. now rewrite I in R.
  Qed.

  Lemma hypergraph_match l ids es g : hypergraph_at l ids es = Ok g -> edges_match ids es (hyperedges g).
  Proof.
    unfold hypergraph_at, mk_hypergraph. intros H.
    destruct (mk_vertices U ueqb ids l []) as [[vs l1]|e] eqn:E; [|discriminate]. cbn [rbind fst] in H.
    pose proof (mk_vertices_ok U ueqb ueqb_spec ids l [] (NoDup_nil _)) as M. rewrite E in M. destruct M as [M1 _].
    apply (add_all_match ids es [] _ _) with (3 := H); [exact M1|constructor].
  Qed.

  (** The identifiers in the order of their ranks. *)
  Definition listed (ids : list U) (sorted : list nat) : list U :=
    concat (map (fun i => match nth_error ids i with Some u => [u] | None => [] end) sorted).

  Lemma listed_nth ids : forall sorted q i u, Forall (fun i => i < length ids) sorted ->
    nth_error sorted q = Some i -> nth_error ids i = Some u -> nth_error (listed ids sorted) q = Some u.
  Proof.
    induction sorted as [|j sorted IH]; intros [|q] i u F S I; try discriminate; cbn in S.
    - injection S as ->. unfold listed. cbn [map concat]. rewrite I. reflexivity.
    - inversion F as [|? ? L F']; subst. unfold listed. cbn [map concat]. apply nth_error_Some in L.
      destruct (nth_error ids j); [|congruence]. cbn. eapply IH; eauto.
  Qed.

  Lemma loop_edges g : forall k, map e_vertices (hyperedges (w_graph U (worker_loop U sort dbl_max g k))) = map e_vertices (hyperedges g).
  Proof.
    induction k as [|k IH]; [reflexivity|]. rewrite <- IH.
    change (worker_loop U sort dbl_max g (S k)) with (iteration (worker_loop U sort dbl_max g k)).
    unfold iteration. cbn [w_graph Force.hyperedges]. rewrite map_map. reflexivity.
  Qed.

  (** The sum of the spans of the hyperedges in an order. *)
  Definition spread (l : list U) (es : list (list U)) : nat :=
    list_sum (map (fun e => min_max (length l) (map (place_in l) e)) es).

  Lemma spread_cons l e es : spread l (e :: es) = min_max (length l) (map (place_in l) e) + spread l es.
  Proof. reflexivity. Qed.

  Lemma total_spread ids l vs : forall es hs, (forall u, In u ids -> In u l) ->
    (forall i u, nth_error ids i = Some u -> loc_of vs i = N.of_nat (place_in l u)) ->
    edges_match ids es hs -> total_span U vs hs = N.of_nat (spread l (map fst es)).
  Proof.
    intros es hs IN L. unfold edges_match. revert hs.
    assert (G : forall hs a, Forall2 (fun e' e => Forall2 (fun u i => nth_error ids i = Some u) (fst e') (e_vertices e)) (stored es) hs ->
       fold_left (fun acc e => (acc + span U vs e)%N) hs a = (a + N.of_nat (spread l (map fst es)))%N).
    { induction es as [|[e w] es IH]; intros hs a F.
      - inversion F; subst. cbn. lia.
      - cbn [stored filter fst] in F. destruct e as [|u e]; [cbn [map fst]; rewrite spread_cons; cbn [map min_max Nat.add]; apply IH, F|].
        inversion F as [|x h y hs' FE FH]; subst. cbn [fst] in FE.
        cbn [fold_left]. rewrite IH by exact FH. cbn [map fst]. rewrite spread_cons.
        rewrite (span_places (length l) vs h (map (place_in l) (u :: e))).
        + lia.
        + rewrite map_map. clear -FE L. induction FE as [|x i xs is H FE IH]; cbn; [reflexivity|]. rewrite IH. f_equal; auto.
        + clear -FE IN ueqb_spec. induction FE as [|x i xs is H FE IH]; constructor; auto.
          apply place_lt, IN. eapply nth_error_In; eauto. }
    intros hs F. unfold total_span. rewrite G by exact F. lia.
  Qed.

  Lemma spread_rev l es : NoDup l -> (forall e u, In e es -> In u e -> In u l) -> spread (rev l) es = spread l es.
  Proof.
    intros ND. unfold spread. rewrite rev_length. induction es as [|e es IH]; intros IN; [reflexivity|].
    cbn [map list_sum fold_right]. change (fold_right Nat.add 0) with list_sum. rewrite IH by (intros; eapply IN; [right|]; eauto). f_equal.
    rewrite <- (min_max_rev (length l) (map (place_in l) e)).
    - rewrite map_map. f_equal. apply map_ext_in. intros u I. apply place_rev; auto. eapply IN; [left; reflexivity|exact I].
    - apply Forall_map, Forall_forall. intros u I. apply place_lt. eapply IN; [left; reflexivity|exact I].
  Qed.

  Lemma stored_in ids es hs : edges_match ids es hs -> forall e u, In e es -> In u (fst e) -> In u ids.
  Proof.
    unfold edges_match. intros F e u I J.
    assert (In e (stored es)) as S by (apply filter_In; split; [exact I|]; destruct (fst e); [destruct J|reflexivity]).
    clear I. induction F as [|x h y hs FE F IH]; [destruct S|]. destruct S as [->|S]; [|auto].
    clear -FE J. induction FE as [|v i vs is H FE IH]; [destruct J|]. destruct J as [->|J]; [|auto]. eapply nth_error_In; eauto.
  Qed.

  Theorem last_span (SP : permutes sort) location ids es g k :
    hypergraph_at location ids es = Ok g -> exists sp s,
    w_spans U (worker_loop U sort dbl_max g (S k)) = w_spans U (worker_loop U sort dbl_max g k) ++ [sp] /\
    s = w_sorted U (worker_loop U sort dbl_max g (S k)) /\
    NoDup (listed ids s) /\
    (forall e u, In e es -> In u (fst e) -> In u (listed ids s)) /\
    sp = N.of_nat (spread (listed ids s) (map fst es)).
  Proof.
    intros H. destruct (hypergraph_ok location ids es g H) as [[B1 _ _ _] ND].
    pose proof (hypergraph_match location ids es g H) as M.
    destruct (worker_loop_ok U sort dbl_max SP g (S k)) as (I1 & I2 & _ & _).
    destruct (worker_loop_ok U sort dbl_max SP g k) as (J1 & J2 & _ & _).
    pose proof (loop_edges g (S k)) as LE.
    change (worker_loop U sort dbl_max g (S k)) with (iteration (worker_loop U sort dbl_max g k)) in *.
    set (s := worker_loop U sort dbl_max g k) in *. unfold iteration in *.
    cbn [w_graph w_sorted w_spans Force.vertices Force.hyperedges] in *.
    set (hs := map (compute_cog U (vertices (w_graph U s))) (hyperedges (w_graph U s))) in *.
    set (vs0 := map (relocate U hs) (vertices (w_graph U s))) in *.
    set (sorted := sort (loc_of vs0) (w_sorted U s)) in *.
    eexists _, _. split; [reflexivity|]. split; [reflexivity|].
    assert (LG : length (vertices g) = length ids) by (rewrite <- B1; symmetry; apply map_length).
    rewrite LG in I2.
    assert (NS : NoDup sorted) by (eapply Permutation_NoDup; [symmetry; exact I2|apply seq_NoDup]).
    assert (FS : Forall (fun i => i < length ids) sorted).
    { apply Forall_forall. intros i I. eapply Permutation_in in I; [|exact I2]. apply in_seq in I. lia. }
    assert (PL : Permutation (listed ids sorted) ids).
    { unfold listed.
      assert (forall A (a b : list (list A)), Permutation a b -> Permutation (concat a) (concat b)) as PC.
      { clear. induction 1 as [|x a b _ IH|x y a|a b c _ IH1 _ IH2]; cbn; auto.
        - now apply Permutation_app_head.
        - rewrite !app_assoc. apply Permutation_app_tail. apply Permutation_app_comm.
        - eapply Permutation_trans; eauto. }
      rewrite (PC _ _ _ (Permutation_map _ I2)).
      assert (forall l p : list U, concat (map (fun i => match nth_error (p ++ l) i with Some u => [u] | None => [] end) (seq (length p) (length l))) = l) as C.
      { clear. induction l as [|u l IH]; intros p; [reflexivity|]. cbn [length seq map concat].
        rewrite nth_error_app2, Nat.sub_diag by lia. cbn [nth_error app]. f_equal.
        specialize (IH (p ++ [u])). rewrite app_length, <- app_assoc in IH. cbn in IH. rewrite Nat.add_1_r in IH. exact IH. }
      pose proof (C ids []) as C0. cbn [app length] in C0. rewrite C0. reflexivity. }
    assert (NL : NoDup (listed ids sorted)) by (eapply Permutation_NoDup; [symmetry; exact PL|exact ND]).
    assert (IL : forall u, In u ids -> In u (listed ids sorted)) by (intros u I; eapply Permutation_in; [symmetry; exact PL|exact I]).
    split; [exact NL|]. split; [intros e u I J; apply IL; eapply stored_in; eauto|].
    apply (total_spread ids (listed ids sorted)); [exact IL| |].
    - intros i u I.
      assert (In i sorted) as IS.
      { eapply Permutation_in; [symmetry; exact I2|]. apply in_seq. split; [lia|]. apply nth_error_Some. congruence. }
      apply In_nth_error in IS as (q & Q).
      assert (V0 : length vs0 = length ids) by (unfold vs0; rewrite map_length, <- LG, <- (map_length v_id (vertices g)), <- J1; symmetry; apply map_length).
      assert (i < length vs0) as L by (rewrite V0; apply nth_error_Some; congruence).
      apply nth_error_Some in L. destruct (nth_error vs0 i) as [v|] eqn:V; [|congruence].
      unfold Force.loc_of. rewrite (nth_assign sorted vs0 0 q i v NS Q V). cbn [Force.v_loc].
      rewrite (place_nth _ q u NL); [reflexivity|]. eapply listed_nth; eauto.
    - unfold edges_match in *. clear -M LE. revert M. generalize (stored es) as l. revert LE. generalize (hyperedges g) as gs.
      induction hs as [|h hs IH]; intros [|x gs] E l M; try discriminate; inversion M; subst; constructor.
      + cbn in E. injection E as E1 _. now rewrite E1.
      + cbn in E. injection E as _ E2. eapply IH; eauto.
  Qed.

  Lemma listed_ids vs sorted : concat (map (id_of U vs) sorted) = listed (map v_id vs) sorted.
  Proof.
    unfold listed. f_equal. apply map_ext. intros i. unfold id_of. rewrite nth_error_map.
    destruct (nth_error vs i); reflexivity.
  Qed.

  Theorem worker_spans (SP : permutes sort) location ids es g k reverse :
    hypergraph_at location ids es = Ok g ->
    Forall (fun s => (s < dbl_max)%N) (w_spans U (worker_loop U sort dbl_max g (S k))) ->
    exists l, worker U sort dbl_max g reverse (S k) = b_of_list l /\
    nth_error (w_spans U (worker_loop U sort dbl_max g (S k))) k = Some (N.of_nat (spread l (map fst es))).
  Proof.
    intros H F. destruct (last_span SP location ids es g k H) as (sp & s & E1 & E2 & ND & IN & E3).
    destruct (worker_loop_ok U sort dbl_max SP g (S k)) as (I1 & _ & _ & _).
    destruct (hypergraph_ok location ids es g H) as [[B1 _ _ _] _].
    unfold worker. rewrite to_builder_ok. eexists. split; [reflexivity|].
    rewrite (worker_best U sort dbl_max g (S k) F), <- E2, E1.
    destruct (worker_loop_ok U sort dbl_max SP g k) as (_ & _ & _ & LK).
    rewrite nth_error_app2, LK, Nat.sub_diag by lia. cbn [nth_error]. f_equal. rewrite E3. f_equal.
    rewrite listed_ids, I1, B1. destruct reverse; [reflexivity|].
    assert (listed ids (rev s) = rev (listed ids s)) as ->.
    { unfold listed. rewrite map_rev. induction s as [|i s IH] using rev_ind; [reflexivity|].
      clear. induction (s ++ [i]) as [|j l IH]; [reflexivity|]. cbn [map rev concat]. rewrite concat_app, IH. cbn [concat].
      rewrite rev_app_distr, app_nil_r. destruct (nth_error ids j); reflexivity. }
    symmetry. apply spread_rev; [exact ND|]. intros e u I J. apply in_map_iff in I as (e' & <- & I). eapply IN; eauto.
  Qed.

  Lemma spans_prefix g j : forall k, j < k ->
    nth_error (w_spans U (worker_loop U sort dbl_max g k)) j = nth_error (w_spans U (worker_loop U sort dbl_max g (S j))) j.
  Proof.
    assert (L : forall k, length (w_spans U (worker_loop U sort dbl_max g k)) = k).
    { induction k as [|k IH]; [reflexivity|].
      change (worker_loop U sort dbl_max g (S k)) with (iteration (worker_loop U sort dbl_max g k)).
      unfold iteration. cbn [w_spans]. rewrite app_length, IH. cbn. lia. }
    induction k as [|k IH]; intros J; [lia|]. destruct (Nat.eq_dec j k) as [->|]; [reflexivity|].
    rewrite <- IH by lia.
    change (worker_loop U sort dbl_max g (S k)) with (iteration (worker_loop U sort dbl_max g k)).
    unfold iteration. cbn [w_spans]. apply nth_error_app1. rewrite L. lia.
  Qed.
End ForceMore.
Arguments hypergraph_at {U}.
