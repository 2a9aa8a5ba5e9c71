(** * Square unions, residuals and basic facts used by the proofs on homomorphisms *)

From Coq Require Import List Bool NArith Arith Lia Permutation Sorted.
From Verif Require Import Base SortedSets Values Sdd SddFacts Orders DDModel DDGeneric DDProofs.
From Verif Require Import DDTheorems Hom.
Import ListNotations.

Section HomFacts.
  Variable VI : values_impl.
  Hypothesis VL : values_laws VI.
  Variable PF : platform VI.
  Hypothesis PO : platform_ok PF.
  Notation V := (vt VI).
  Notation sdd := (sdd V).
  Notation lt := (addr_lt PF).
  Notation canonical := (canonical VI lt).

  (** ** Operations on SDDs following a shape *)

  (** A canonical SDD of a given shape. *)
  Definition fits (s : shape) (x : sdd) : Prop := canonical x /\ follows s x.

  Lemma fits_zero s : fits s Zero.
  Proof. split; constructor. Qed.

  Lemma fits_ext s x y : fits s x -> fits s y -> (forall p, contains x p = contains y p) -> x = y.
  Proof. intros [A _] [B _] H. apply (canonicity VI VL lt (pf_lt PO)); auto. Qed.

  Lemma fits_zero_iff s x : fits s x -> (x = Zero <-> forall p, contains x p = false).
  Proof. intros [A _]. now apply (canonical_zero_iff VI VL lt). Qed.

  Lemma fits_nonempty s x : fits s x -> x <> Zero -> exists p, contains x p = true.
  Proof. intros [A _] H. now apply (canonical_nonempty VI VL lt). Qed.

  Lemma is_zero_iff (x : sdd) : is_zero VI x = true <-> x = Zero.
  Proof. destruct x; cbn; split; congruence. Qed.

  Lemma sum_ok s l : (forall x, In x l -> fits s x) ->
    exists r, api_sum VI PF l = Ok r /\ fits s r
      /\ forall p, contains r p = existsb (fun x => contains x p) l.
  Proof.
    intros H. destruct (api_sum_follows VI VL PF PO s l H) as (r & E & C & D & Hp).
    exists r. split; [auto|split; [split|]]; auto.
  Qed.

  Lemma inter_ok s l : l <> [] -> (forall x, In x l -> fits s x) ->
    exists r, api_intersection VI PF l = Ok r /\ fits s r
      /\ forall p, contains r p = forallb (fun x => contains x p) l.
  Proof.
    intros N H.
    destruct (api_intersection_follows VI VL PF PO s l N H) as (r & E & C & D & Hp).
    exists r. split; [auto|split; [split|]]; auto.
  Qed.

  Lemma minus_ok s a b : fits s a -> fits s b ->
    exists r, api_minus VI PF a b = Ok r /\ fits s r
      /\ forall p, contains r p = contains a p && negb (contains b p).
  Proof.
    intros [A1 A2] [B1 B2].
    destruct (api_minus_follows VI VL PF PO s a b A1 B1 A2 B2) as (r & E & C & D & Hp).
    exists r. split; [auto|split; [split|]]; auto.
  Qed.

  (** ** Square unions *)

  Section SquareUnion.
    Context {K W : Type}.
    Variable mem : W -> K -> bool.
    Variable clash : K -> K -> Prop.
    Variable ops : valops VI W.
    Variable h : ddop V -> res (err V) sdd.
    Variable Ex : err V -> Prop.
    Variable GV : W -> Prop.
    Variable GS : K -> sdd -> Prop.
    Hypothesis OV : ops_ok VI h Ex mem clash ops GV.

    Lemma su_adds_ok : forall pairs m done,
      su_rel VI PF ops m done -> (forall s v, In (s, v) pairs -> gs VI mem GS v s /\ gv VI ops GV v) ->
      hoare h Ex (su_adds VI PF ops pairs m) (fun m' => su_rel VI PF ops m' (done ++ pairs)).
    Proof.
      induction pairs as [|[s v] r IH]; intros m done R G; cbn [su_adds].
      - apply hoare_ret. now rewrite app_nil_r.
      - destruct (G s v (or_introl eq_refl)) as [G1 G2].
        eapply hoare_bind; [apply (su_add_ok VI PF PO h Ex mem clash ops GV GS OV m done s v R G1 G2)|].
        intros m' R'. eapply hoare_conseq; [apply (IH m' (done ++ [(s, v)])); auto|].
        + intros s' v' Hin. apply G. now right.
        + cbn. intros a. now rewrite <- app_assoc.
    Qed.

    Lemma su_node_ok mk x pairs :
      gpairs VI mem clash ops GV GS pairs ->
      hoare h Ex (su_node VI PF ops mk x pairs) (fun r => exists alpha,
        r = create_node VI mk x alpha /\ good_alpha VI PF mem clash ops GV GS alpha /\
        forall k p, acontains VI mem (map swap alpha) k p = true <->
           exists s v, In (s, v) pairs /\ mem v k = true /\ contains s p = true).
    Proof.
      intros G. unfold su_node. eapply hoare_bind.
      { apply (su_adds_ok pairs [] []); [apply su_rel_nil|apply G]. }
      intros m R. cbn in R. eapply hoare_bind.
      { apply (su_run_ok VI PF PO h Ex mem clash ops GV GS OV m pairs R G). }
      intros alpha (A & _ & C). apply hoare_ret. exists alpha. auto.
    Qed.
  End SquareUnion.

  Lemma su_flat_ok x r pairs :
    (forall s v, In (s, v) pairs -> fits r s /\ s <> Zero /\ v_empty VI v = false) ->
    (forall s1 v1 s2 v2, In (s1, v1) pairs -> In (s2, v2) pairs -> s1 <> s2 ->
       disjoint (v_mem VI) v1 v2) ->
    exists y, su_flat VI PF x pairs = Ok y /\ fits (SFlat x r) y /\
      forall p, contains y p = true <-> exists s v a q, In (s, v) pairs /\ p = AVal x a q
                  /\ v_mem VI v a = true /\ contains s q = true.
  Proof.
    intros H1 H2. unfold su_flat.
    set (n := fuel_of VI (map fst pairs)).
    pose proof (dd_eval_ok VI VL PF PO n) as HO.
    set (md := Some (shape_universe VI (SFlat x r))).
    assert (G : gpairs VI (v_mem VI) (fun _ _ => False) (flat_ops VI PF) (fun _ => True)
                  (fun k => good VI PF n (flat_mode VI md x k)) pairs).
    { split; [|auto]. intros s v Hin. destruct (H1 s v Hin) as ([C D] & E1 & E2).
      split; [split; auto|split; auto].
      intros k _. split; [auto|split; [|now apply follows_flat_mode]]. apply fuel_height. apply in_map_iff. exists (s, v). auto. }
    pose proof (su_node_ok (v_mem VI) (fun _ _ => False) (flat_ops VI PF) (dd_eval VI PF n) (Ex VI md) (fun _ => True)
                  (fun k => good VI PF n (flat_mode VI md x k)) (flat_ops_ok VI VL PF PO _ _)
                  Flat x pairs G) as S.
    destruct (ok_ex _ (shape_universe VI (SFlat x r)) _ _ S) as (y & E & alpha & -> & A & C).
    destruct (node_flat_good VI VL PF n md x alpha A) as [(N1 & _ & N2) N3].
    apply (mode_ok_follows VI VL PF) in N2; [|exact N1].
    exists (create_node VI Flat x alpha). split; [exact E|split; [split; auto|]].
    intros p. rewrite N3. split.
    - intros (k & q & -> & Hc). apply C in Hc. destruct Hc as (s & v & ? & ? & ?).
      exists s, v, k, q. auto.
    - intros (s & v & a & q & I1 & -> & I2 & I3). exists a, q. split; auto. apply C. eauto.
  Qed.

  Lemma su_hier_ok x n r pairs :
    (forall s v, In (s, v) pairs -> fits r s /\ s <> Zero /\ fits n v /\ v <> Zero) ->
    (forall s1 v1 s2 v2, In (s1, v1) pairs -> In (s2, v2) pairs -> s1 <> s2 ->
       disjoint contains v1 v2) ->
    exists y, su_hier VI PF x pairs = Ok y /\ fits (SHier x n r) y /\
      forall p, contains y p = true <-> exists s v a q, In (s, v) pairs /\ p = ANest x a q
                  /\ contains v a = true /\ contains s q = true.
  Proof.
    intros H1 H2. unfold su_hier.
    set (k := fuel_of VI (map fst pairs ++ map snd pairs)).
    pose proof (dd_eval_ok VI VL PF PO k) as HO.
    set (md := Some (shape_universe VI (SHier x n r))).
    assert (G : gpairs VI contains aclash (hier_ops VI PF) (good VI PF k (val_mode VI md x))
                  (fun a => good VI PF k (hier_mode VI md x a)) pairs).
    { split; [|split; [auto|]].
      2: { intros s1 v1 s2 v2 k1 k2 I1 I2 M1 M2. destruct (H1 _ _ I1) as (_ & _ & [_ D1] & _).
           destruct (H1 _ _ I2) as (_ & _ & [_ D2] & _).
           exact (shape_free VI n k1 k2 (follows_asg VI n v1 D1 k1 M1) (follows_asg VI n v2 D2 k2 M2)). }
      intros s v Hin. destruct (H1 s v Hin) as ([C D] & E1 & [C' D'] & E2).
      split; [split; auto|split; [|now apply is_zero_false]].
      - intros a Ha. split; [auto|split; [|now apply (follows_hier_mode VI x n r v)]]. apply fuel_height. apply in_or_app. left.
        apply in_map_iff. exists (s, v). auto.
      - split; [auto|split].
        2: { apply (follows_val_mode VI x n r v s); auto. now apply (canonical_nonempty VI VL lt). }
        apply fuel_height. apply in_or_app. right.
        apply in_map_iff. exists (s, v). auto. }
    pose proof (su_node_ok contains aclash (hier_ops VI PF) (dd_eval VI PF k) (Ex VI md)
                  (good VI PF k (val_mode VI md x)) (fun a => good VI PF k (hier_mode VI md x a))
                  (val_ops VI VL PF PO k _ md x HO)
                  Hier x pairs G) as S.
    destruct (ok_ex _ (shape_universe VI (SHier x n r)) _ _ S) as (y & E & alpha & -> & A & C).
    destruct (node_hier_good VI VL PF k md x alpha A) as [(N1 & _ & N2) N3].
    apply (mode_ok_follows VI VL PF) in N2; [|exact N1].
    exists (create_node VI Hier x alpha). split; [exact E|split; [split; auto|]].
    intros p. rewrite N3. split.
    - intros (a & q & -> & Hc). apply C in Hc. destruct Hc as (s & v & ? & ? & ?).
      exists s, v, a, q. auto.
    - intros (s & v & a & q & I1 & -> & I2 & I3). exists a, q. split; auto. apply C. eauto.
  Qed.

  (** ** Residuals *)

  (** The first step of an assignment. *)
  Inductive step : Type :=
  | KVal (a : elt VI)
  | KNest (n : asg (elt VI)).

  Definition acons (x : N) (k : step) (q : asg (elt VI)) : asg (elt VI) :=
    match k with KVal a => AVal x a q | KNest n => ANest x n q end.

  Definition find_arc {K W : Type} (mem : W -> K -> bool) (arcs : list (W * sdd)) (k : K) : sdd :=
    match find (fun arc => mem (fst arc) k) arcs with Some (_, s) => s | None => Zero end.

  (** What remains of an SDD after one step. *)
  Definition residual (x : sdd) (k : step) : sdd :=
    match x, k with
    | Flat _ arcs, KVal a => find_arc (v_mem VI) arcs a
    | Hier _ arcs, KNest n => find_arc contains arcs n
    | _, _ => Zero
    end.

  (** A level of a shape. *)
  Inductive level : Type :=
  | LFlat (x : N)
  | LHier (x : N) (nested : shape).

  Definition lvar (l : level) : N := match l with LFlat x | LHier x _ => x end.
  Definition under (l : level) (s : shape) : shape :=
    match l with LFlat x => SFlat x s | LHier x n => SHier x n s end.

  Lemma find_arc_some {K W} (mem : W -> K -> bool) arcs k v s :
    adisjoint VI mem arcs -> In (v, s) arcs -> mem v k = true -> find_arc mem arcs k = s.
  Proof.
    intros D Hin M. unfold find_arc. destruct (find _ arcs) as [[v' s']|] eqn:E.
    - apply find_some in E. destruct E as [E1 E2].
      pose proof (adisjoint_unique VI mem arcs D v s v' s' k Hin E1 M E2) as X. congruence.
    - apply (find_none _ _ E) in Hin. cbn in Hin. congruence.
  Qed.

  Lemma find_arc_inv {K W} (mem : W -> K -> bool) (arcs : list (W * sdd)) k :
    find_arc mem arcs k = Zero \/ exists v, In (v, find_arc mem arcs k) arcs /\ mem v k = true.
  Proof.
    unfold find_arc. destruct (find _ arcs) as [[v s]|] eqn:E; auto.
    apply find_some in E. right. exists v. auto.
  Qed.

  Lemma find_arc_contains {K W} (mem : W -> K -> bool) (arcs : list (W * sdd)) k q :
    adisjoint VI mem arcs -> acontains VI mem arcs k q = contains (find_arc mem arcs k) q.
  Proof.
    intros D. apply bool_ext. rewrite acontains_spec. split.
    - intros (v & s & Hin & M & C). now rewrite (find_arc_some _ _ _ _ _ D Hin M).
    - intros C. destruct (find_arc_inv mem arcs k) as [E|(v & E & M)].
      + rewrite E in C. discriminate.
      + eauto.
  Qed.

  Lemma fits_flat_inv x r arcs y : fits (SFlat x r) (Flat y arcs) ->
    y = x /\ arcs <> [] /\ adisjoint VI (v_mem VI) arcs
    /\ forall v s, In (v, s) arcs -> v_empty VI v = false /\ s <> Zero /\ fits r s.
  Proof.
    intros [C D]. inversion C as [| |? ? A1 A2 A3 A4 A5|]; subst. inversion D; subst.
    split; [auto|split; [auto|split; [auto|]]].
    intros v s Hin. destruct (A2 v s Hin). split; [auto|split; [auto|split; eauto]].
  Qed.

  Lemma fits_hier_inv x n r arcs y : fits (SHier x n r) (Hier y arcs) ->
    y = x /\ arcs <> [] /\ adisjoint VI contains arcs
    /\ forall v s, In (v, s) arcs -> v <> Zero /\ fits n v /\ s <> Zero /\ fits r s.
  Proof.
    intros [C D]. inversion C as [| | |? ? A1 A2 A3 A4 A5 A6]; subst. inversion D; subst.
    split; [auto|split; [auto|split; [auto|]]].
    intros v s Hin. destruct (A2 v s Hin).
    split; [auto|split; [split; eauto|split; [auto|split; eauto]]].
  Qed.

  Lemma residual_fits l s x k : fits (under l s) x -> fits s (residual x k).
  Proof.
    intros H. destruct x as [| |y arcs|y arcs], k as [a|n]; cbn [residual]; try apply fits_zero.
    - destruct l as [z|z m]; cbn in H; [|destruct H as [_ H]; inversion H].
      destruct (fits_flat_inv _ _ _ _ H) as (_ & _ & _ & G).
      destruct (find_arc_inv (v_mem VI) arcs a) as [E|(v & E & _)].
      + rewrite E. apply fits_zero.
      + now apply (G v).
    - destruct l as [z|z m]; cbn in H; [destruct H as [_ H]; inversion H|].
      destruct (fits_hier_inv _ _ _ _ _ H) as (_ & _ & _ & G).
      destruct (find_arc_inv contains arcs n) as [E|(v & E & _)].
      + rewrite E. apply fits_zero.
      + now apply (G v).
  Qed.

  (** Membership is membership in the residual. *)
  Lemma residual_contains l s x k q : fits (under l s) x ->
    contains x (acons (lvar l) k q) = contains (residual x k) q.
  Proof.
    intros H. destruct x as [| |y arcs|y arcs], k as [a|n]; cbn [residual acons]; auto.
    - destruct l as [z|z m]; cbn in H; [|destruct H as [_ H]; inversion H].
      destruct (fits_flat_inv _ _ _ _ H) as (-> & _ & D & G).
      rewrite contains_flat. cbn [lvar]. rewrite N.eqb_refl. cbn [andb]. now apply find_arc_contains.
    - destruct l as [z|z m]; cbn in H; [destruct H as [_ H]; inversion H|].
      destruct (fits_hier_inv _ _ _ _ _ H) as (-> & _ & D & G).
      rewrite contains_hier. cbn [lvar]. rewrite N.eqb_refl. cbn [andb]. now apply find_arc_contains.
  Qed.

  Lemma contains_step l s x p : fits (under l s) x -> contains x p = true ->
    exists k q, p = acons (lvar l) k q.
  Proof.
    intros H C. destruct x as [| |y arcs|y arcs], l as [z|z m]; cbn in H.
    - discriminate.
    - discriminate.
    - destruct H as [_ H]; inversion H.
    - destruct H as [_ H]; inversion H.
    - destruct (fits_flat_inv _ _ _ _ H) as (-> & _).
      destruct (contains_flat_inv _ _ _ _ C) as (k & q & ->). exists (KVal k), q. reflexivity.
    - destruct H as [_ H]; inversion H.
    - destruct H as [_ H]; inversion H.
    - destruct (fits_hier_inv _ _ _ _ _ H) as (-> & _).
      destruct (contains_hier_inv _ _ _ _ C) as (k & q & ->). exists (KNest k), q. reflexivity.
  Qed.

  Lemma contains_iff l s x p : fits (under l s) x ->
    (contains x p = true <->
     exists k q, p = acons (lvar l) k q /\ contains (residual x k) q = true).
  Proof.
    intros H. split.
    - intros C. destruct (contains_step _ _ _ _ H C) as (k & q & ->).
      exists k, q. split; auto. now rewrite <- (residual_contains _ _ _ _ _ H).
    - intros (k & q & -> & C). now rewrite (residual_contains _ _ _ _ _ H).
  Qed.

  Lemma residual_ext l s x y : fits (under l s) x -> fits (under l s) y ->
    (forall k, residual x k = residual y k) -> x = y.
  Proof.
    intros A B H. apply (fits_ext (under l s)); auto. intros p. apply bool_ext.
    rewrite (contains_iff _ _ _ _ A), (contains_iff _ _ _ _ B).
    split; intros (k & q & -> & C); exists k, q; split; auto.
    - now rewrite <- H.
    - now rewrite H.
  Qed.

  (** A residual is determined by the set. *)
  Lemma residual_eq l s x k y : fits (under l s) x -> fits s y ->
    (forall q, contains x (acons (lvar l) k q) = contains y q) -> residual x k = y.
  Proof.
    intros A B H. apply (fits_ext s); auto.
    - now apply (residual_fits l).
    - intros q. now rewrite <- (residual_contains _ _ _ _ _ A).
  Qed.

  Lemma residual_zero k : residual Zero k = Zero.
  Proof. reflexivity. Qed.

  Lemma acons_inj x y k k' q q' : acons x k q = acons y k' q' -> k = k' /\ q = q'.
  Proof. destruct k, k'; cbn; intros [=]; subst; auto. Qed.

  (** ** Mapping the successors of a node: what forwarding computes *)

  (** [arcwise R x y]: [y] is [x] whose every residual is related by [R]. *)
  Definition arcwise (R : sdd -> sdd -> Prop) (x y : sdd) : Prop :=
    forall k, R (residual x k) (residual y k).

  Definition heads (x : sdd) : list sdd :=
    match x with
    | Flat _ arcs => map snd arcs
    | Hier _ arcs => map snd arcs
    | _ => []
    end.

  Lemma heads_residual l s x z : fits (under l s) x -> In z (heads x) ->
    z <> Zero /\ fits s z /\ exists k, residual x k = z.
  Proof.
    intros H Hin. destruct x as [| |y arcs|y arcs]; cbn in Hin; try tauto.
    - destruct l as [w|w m]; cbn in H; [|destruct H as [_ H]; inversion H].
      destruct (fits_flat_inv _ _ _ _ H) as (-> & _ & D & G).
      apply in_map_iff in Hin. destruct Hin as ([v z'] & E & Hin). cbn in E. subst z'.
      destruct (G v z Hin) as (G1 & G2 & G3). split; [auto|split; [auto|]].
      destruct (v_nonempty VI VL v G1) as [a Ha]. exists (KVal a). cbn.
      now apply (find_arc_some _ _ _ v).
    - destruct l as [w|w m]; cbn in H; [destruct H as [_ H]; inversion H|].
      destruct (fits_hier_inv _ _ _ _ _ H) as (-> & _ & D & G).
      apply in_map_iff in Hin. destruct Hin as ([v z'] & E & Hin). cbn in E. subst z'.
      destruct (G v z Hin) as (G0 & G1 & G2 & G3). split; [auto|split; [auto|]].
      destruct (fits_nonempty _ _ G1 G0) as [a Ha]. exists (KNest a). cbn.
      now apply (find_arc_some _ _ _ v).
  Qed.

  Lemma residual_heads x k : residual x k = Zero \/ In (residual x k) (heads x).
  Proof.
    destruct x as [| |y arcs|y arcs], k as [a|n]; cbn [residual heads]; auto.
    - destruct (find_arc_inv (v_mem VI) arcs a) as [E|(v & E & _)]; auto. right.
      apply in_map_iff. now exists (v, find_arc (v_mem VI) arcs a).
    - destruct (find_arc_inv contains arcs n) as [E|(v & E & _)]; auto. right.
      apply in_map_iff. now exists (v, find_arc contains arcs n).
  Qed.

  (** The pairs computed by the loop of evaluation.hh 71-79, when the successor [s] of an arc gives
      [f s]. *)
  Definition fwd_pairs {W : Type} (f : sdd -> sdd) (arcs : list (W * sdd)) : list (sdd * W) :=
    map (fun a => (f (snd a), fst a)) (filter (fun a => negb (is_zero VI (f (snd a)))) arcs).

  Lemma fwd_pairs_in {W} f (arcs : list (W * sdd)) s v :
    In (s, v) (fwd_pairs f arcs) <-> exists t, In (v, t) arcs /\ s = f t /\ s <> Zero.
  Proof.
    unfold fwd_pairs. rewrite in_map_iff. split.
    - intros ([v' t] & E & Hin). cbn in E. injection E as <- <-. apply filter_In in Hin.
      destruct Hin as [Hin Z]. cbn in Z. exists t. split; [auto|split; [auto|]].
      intros E. apply negb_true_iff in Z. apply is_zero_iff in E. congruence.
    - intros (t & Hin & -> & Z). exists (v, t). split; auto. apply filter_In. split; auto.
      cbn. apply negb_true_iff. now apply is_zero_false.
  Qed.

  Lemma fwd_disj {K W} (mem : W -> K -> bool) f arcs : adisjoint VI mem arcs ->
    forall s1 v1 s2 v2, In (s1, v1) (fwd_pairs f arcs) -> In (s2, v2) (fwd_pairs f arcs) ->
      s1 <> s2 -> disjoint mem v1 v2.
  Proof.
    intros D s1 v1 s2 v2 H1 H2 N k M1 M2.
    apply fwd_pairs_in in H1. apply fwd_pairs_in in H2.
    destruct H1 as (t1 & I1 & E1 & _), H2 as (t2 & I2 & E2 & _).
    pose proof (adisjoint_unique VI mem arcs D v1 t1 v2 t2 k I1 I2 M1 M2). congruence.
  Qed.

  Lemma fwd_flat x r r' arcs f :
    fits (SFlat x r) (Flat x arcs) ->
    (forall s, In s (map snd arcs) -> fits r' (f s)) -> f Zero = Zero ->
    exists y, su_flat VI PF x (fwd_pairs f arcs) = Ok y /\ fits (SFlat x r') y
      /\ forall k, residual y k = f (residual (Flat x arcs) k).
  Proof.
    intros H Hf Hz. destruct (fits_flat_inv _ _ _ _ H) as (_ & _ & D & G).
    destruct (su_flat_ok x r' (fwd_pairs f arcs)) as (y & E & Fy & C).
    - intros s v Hin. apply fwd_pairs_in in Hin. destruct Hin as (t & Hin & -> & Z).
      split; [apply Hf; apply in_map_iff; exists (v, t); auto|split; [auto|now apply (G v t)]].
    - now apply fwd_disj.
    - exists y. split; [auto|split; [auto|]]. intros k.
      assert (R : fits r' (f (residual (Flat x arcs) k))).
      { destruct (residual_heads (Flat x arcs) k) as [->|Hin]; [rewrite Hz; apply fits_zero|now apply Hf]. }
      apply (residual_eq (LFlat x) r' y k _ Fy R).
      intros q. apply bool_ext. rewrite C. cbn [lvar]. split.
      + intros (s & v & a & q' & Hin & E' & M & C'). destruct k as [b|m]; [|discriminate].
        injection E' as <- <-. apply fwd_pairs_in in Hin. destruct Hin as (t & Hin & -> & _).
        cbn [residual]. now rewrite (find_arc_some _ _ _ v t D Hin M).
      + intros C'. destruct k as [b|m]; cbn [residual] in C'; [|rewrite Hz in C'; discriminate].
        destruct (find_arc_inv (v_mem VI) arcs b) as [Z|(v & Hin & M)].
        { rewrite Z, Hz in C'. discriminate. }
        set (t := find_arc (v_mem VI) arcs b) in *.
        exists (f t), v, b, q. split; [|split; [reflexivity|split; [exact M|exact C']]].
        apply fwd_pairs_in. exists t. split; [auto|split; [auto|]]. intros E0. rewrite E0 in C'. discriminate.
  Qed.

  Lemma fwd_hier x n r r' arcs f :
    fits (SHier x n r) (Hier x arcs) ->
    (forall s, In s (map snd arcs) -> fits r' (f s)) -> f Zero = Zero ->
    exists y, su_hier VI PF x (fwd_pairs f arcs) = Ok y /\ fits (SHier x n r') y
      /\ forall k, residual y k = f (residual (Hier x arcs) k).
  Proof.
    intros H Hf Hz. destruct (fits_hier_inv _ _ _ _ _ H) as (_ & _ & D & G).
    destruct (su_hier_ok x n r' (fwd_pairs f arcs)) as (y & E & Fy & C).
    - intros s v Hin. apply fwd_pairs_in in Hin. destruct Hin as (t & Hin & -> & Z).
      destruct (G v t Hin) as (G1 & G2 & _).
      split; [apply Hf; apply in_map_iff; exists (v, t); auto|split; [auto|split; auto]].
    - now apply fwd_disj.
    - exists y. split; [auto|split; [auto|]]. intros k.
      assert (R : fits r' (f (residual (Hier x arcs) k))).
      { destruct (residual_heads (Hier x arcs) k) as [->|Hin]; [rewrite Hz; apply fits_zero|now apply Hf]. }
      apply (residual_eq (LHier x n) r' y k _ Fy R).
      intros q. apply bool_ext. rewrite C. cbn [lvar]. split.
      + intros (s & v & a & q' & Hin & E' & M & C'). destruct k as [b|m]; [discriminate|].
        injection E' as <- <-. apply fwd_pairs_in in Hin. destruct Hin as (t & Hin & -> & _).
        cbn [residual]. now rewrite (find_arc_some _ _ _ v t D Hin M).
      + intros C'. destruct k as [b|m]; cbn [residual] in C'; [rewrite Hz in C'; discriminate|].
        destruct (find_arc_inv contains arcs m) as [Z|(v & Hin & M)].
        { rewrite Z, Hz in C'. discriminate. }
        set (t := find_arc contains arcs m) in *.
        exists (f t), v, m, q. split; [|split; [reflexivity|split; [exact M|exact C']]].
        apply fwd_pairs_in. exists t. split; [auto|split; [auto|]]. intros E0. rewrite E0 in C'. discriminate.
  Qed.
End HomFacts.
