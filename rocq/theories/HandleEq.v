(** * Handles on SDDs: equality of handles is equality of sets

    Puts together the heap of unified data (Heap.v) and the canonical form of SDDs (Sdd.v): nodes of SDDs are unified data,
    handles are pointers to them, and the arcs of a node are sorted by the actual addresses of their successors when the node
    is created.  Addresses may change over time: a destroyed node can be created again elsewhere. *)

From Coq Require Import List Bool NArith Arith Lia Permutation Sorted.
From Verif Require Import Base SortedSets Values Sdd SddFacts Pow2 HashTable Heap HeapProofs HeapTheorems.
Import ListNotations.

(** ** Canonical form for any strict order on successors, total or not *)

Section AlphaGen.
  Variable VI : values_impl.
  Notation V := (vt VI).
  Context {K W : Type}.
  Variable mem : W -> K -> bool.
  Notation acontains := (acontains VI mem).
  Notation adisjoint := (adisjoint VI mem).
  Notation acontains_residual := (acontains_residual VI mem).
  Notation acontains_spec := (acontains_spec VI mem).

  Lemma sorted_inj : forall R : sdd V -> sdd V -> Prop, (forall x, ~ R x x) -> forall (arcs : list (W * sdd V)) v v' s,
    StronglySorted R (map snd arcs) -> In (v, s) arcs -> In (v', s) arcs -> v = v'.
  Proof.
    intros R Irr arcs v v' s HS H1 H2.
    induction arcs as [|[w t] r IH]; simpl in *; [tauto|]. inversion HS as [|? ? HS' HF]; subst. rewrite Forall_forall in HF.
    destruct H1 as [H1|H1], H2 as [H2|H2].
    - congruence.
    - injection H1 as -> ->. exfalso; apply (Irr s), HF. change s with (snd (v', s)) at 1. now apply in_map.
    - injection H2 as -> ->. exfalso; apply (Irr s), HF. change s with (snd (v, s)) at 1. now apply in_map.
    - auto.
  Qed.

  (** An alpha is determined by the set it represents, for any strict order on successors. *)
  Lemma alpha_unique_gen : forall R : sdd V -> sdd V -> Prop,
    (forall x, ~ R x x) -> (forall x y, R x y -> R y x -> False) ->
    forall A B : list (W * sdd V),
    (forall v s, In (v, s) A -> (exists k, mem v k = true) /\ (exists p, contains s p = true)) ->
    (forall v s, In (v, s) B -> (exists k, mem v k = true) /\ (exists p, contains s p = true)) ->
    adisjoint A -> adisjoint B ->
    StronglySorted R (map snd A) -> StronglySorted R (map snd B) ->
    (forall v s w t, In (v, s) A -> In (w, t) B ->
       (forall p, contains s p = contains t p) -> s = t) ->
    (forall v s w t, In (v, s) A -> In (w, t) B ->
       (forall k, mem v k = mem w k) -> v = w) ->
    (forall k p, acontains A k p = acontains B k p) ->
    A = B.
  Proof.
    intros R Irr Asym A B HA HB DA DB SA SB IHs IHv Hsame.
    (* successors of arcs sharing a key are equal *)
    assert (Hsucc : forall v s w t k, In (v, s) A -> In (w, t) B ->
              mem v k = true -> mem w k = true -> s = t).
    { intros v s w t k H1 H2 H3 H4. eapply IHs; eauto. intros p.
      rewrite <- (acontains_residual A DA v s k H1 H3 p).
      rewrite <- (acontains_residual B DB w t k H2 H4 p). apply Hsame. }
    (* every key of an arc of A belongs to some arc of B, and conversely *)
    assert (HkA : forall v s k, In (v, s) A -> mem v k = true ->
              exists w t, In (w, t) B /\ mem w k = true).
    { intros v s k H1 H2. destruct (HA _ _ H1) as [_ [p Hp]].
      assert (acontains A k p = true) as H by (apply acontains_spec; eauto).
      rewrite Hsame in H. apply acontains_spec in H. destruct H as (w & t & H3 & H4 & _).
      eauto. }
    assert (HkB : forall w t k, In (w, t) B -> mem w k = true ->
              exists v s, In (v, s) A /\ mem v k = true).
    { intros w t k H1 H2. destruct (HB _ _ H1) as [_ [p Hp]].
      assert (acontains B k p = true) as H by (apply acontains_spec; eauto).
      rewrite <- Hsame in H. apply acontains_spec in H. destruct H as (v & s & H3 & H4 & _).
      eauto. }
    assert (Hval : forall v w s, In (v, s) A -> In (w, s) B -> v = w).
    { intros v w s H1 H2. eapply IHv; eauto. intros k. apply bool_ext. split; intros Hk.
      - destruct (HkA _ _ _ H1 Hk) as (w' & t' & H3 & H4).
        assert (s = t') by (eapply Hsucc; eauto). subst t'.
        assert (w = w') by exact (sorted_inj R Irr B w w' s SB H2 H3). congruence.
      - destruct (HkB _ _ _ H2 Hk) as (v' & s' & H3 & H4).
        assert (s' = s) by (eapply Hsucc; eauto). subst s'.
        assert (v = v') by exact (sorted_inj R Irr A v v' s SA H1 H3). congruence. }
    pose proof (strongly_sorted_map _ _ (@snd W (sdd V)) _ _ SA) as S1.
    pose proof (strongly_sorted_map _ _ (@snd W (sdd V)) _ _ SB) as S2.
    apply (strongly_sorted_ext _ (fun x y => R (snd x) (snd y))); auto.
    - intros [v s] [w t]; exact (Asym s t).
    - intros [v s]; split; intros Hin.
      + destruct (HA _ _ Hin) as [[k Hk] _].
        destruct (HkA _ _ _ Hin Hk) as (w & t & H3 & H4).
        assert (s = t) by (eapply Hsucc; eauto). subst t.
        rewrite (Hval _ _ _ Hin H3). exact H3.
      + destruct (HB _ _ Hin) as [[k Hk] _].
        destruct (HkB _ _ _ Hin Hk) as (w & t & H3 & H4).
        assert (t = s) by (eapply Hsucc; eauto). subst t.
        rewrite <- (Hval _ _ _ H3 Hin). exact H3.
  Qed.

End AlphaGen.

Section FactsGen.
  Variable VI : values_impl.
  Variable VL : values_laws VI.
  Notation V := (vt VI).
  Variable R : sdd V -> sdd V -> Prop.

  (** As [canonical], Sdd.v. *)
  Inductive rcanonical : sdd V -> Prop :=
  | rcan_zero : rcanonical Zero
  | rcan_one : rcanonical One
  | rcan_flat : forall x arcs,
      arcs <> [] ->
      (forall v s, In (v, s) arcs -> v_empty VI v = false /\ s <> Zero) ->
      (forall v s, In (v, s) arcs -> rcanonical s) ->
      ForallOrdPairs (fun a b => disjoint (v_mem VI) (fst a) (fst b)) arcs ->
      StronglySorted R (map snd arcs) ->
      rcanonical (Flat x arcs)
  | rcan_hier : forall x arcs,
      arcs <> [] ->
      (forall v s, In (v, s) arcs -> v <> Zero /\ s <> Zero) ->
      (forall v s, In (v, s) arcs -> rcanonical v) ->
      (forall v s, In (v, s) arcs -> rcanonical s) ->
      ForallOrdPairs (fun a b => disjoint contains (fst a) (fst b)) arcs ->
      StronglySorted R (map snd arcs) ->
      rcanonical (Hier x arcs).

  (** A canonical SDD is |0| exactly when it contains nothing. *)
  Lemma rcanonical_nonempty : forall t, rcanonical t -> t <> Zero ->
    exists p, contains t p = true.
  Proof.
    intros t H; induction H as [| |x arcs Hne Hnz Hc IH HD HS|x arcs Hne Hnz Hcv IHv Hc IH HD HS];
      intros Hz.
    - congruence.
    - exists ANil; reflexivity.
    - destruct arcs as [|[v s] r]; [congruence|].
      destruct (Hnz v s (or_introl eq_refl)) as [H1 H2].
      destruct (v_nonempty VI VL v H1) as [a Ha].
      destruct (IH v s (or_introl eq_refl) H2) as [q Hq].
      exists (AVal x a q). rewrite (contains_flat VI), N.eqb_refl. rewrite andb_true_l.
      apply acontains_spec. exists v, s; simpl; auto.
    - destruct arcs as [|[v s] r]; [congruence|].
      destruct (Hnz v s (or_introl eq_refl)) as [H1 H2].
      destruct (IHv v s (or_introl eq_refl) H1) as [n Hn].
      destruct (IH v s (or_introl eq_refl) H2) as [q Hq].
      exists (ANest x n q). rewrite (contains_hier VI), N.eqb_refl. rewrite andb_true_l.
      apply acontains_spec. exists v, s; simpl; auto.
  Qed.

  Lemma rcanonical_zero_iff : forall t, rcanonical t ->
    (t = Zero <-> forall p, contains t p = false).
  Proof.
    intros t H; split.
    - intros -> p; reflexivity.
    - intros Hp. destruct t; auto; exfalso.
      all: destruct (rcanonical_nonempty _ H) as [p Hq]; [discriminate|].
      all: rewrite Hp in Hq; discriminate.
  Qed.

  Hypothesis Irr : forall x, ~ R x x.
  Hypothesis Asym : forall x y, R x y -> R y x -> False.

  Theorem rcanonicity : forall x y, rcanonical x -> rcanonical y ->
    (forall p, contains x p = contains y p) -> x = y.
  Proof.
    induction x as [| |x arcs IH|x arcs IH] using sdd_ind'; intros y Hx Hy Hsame.
    - symmetry. apply rcanonical_zero_iff; auto. intros p; rewrite <- Hsame; reflexivity.
    - assert (Hnil : contains y ANil = true) by (rewrite <- Hsame; reflexivity).
      destruct y; simpl in Hnil; try discriminate; reflexivity.
    - destruct (rcanonical_nonempty _ Hx) as [p Hp]; [discriminate|].
      assert (Hp' := Hp). rewrite Hsame in Hp'.
      destruct p as [|x0 a q|x0 n q]; try discriminate.
      destruct y as [| |y arcs'|y arcs']; try discriminate.
      rewrite (contains_flat VI) in *. apply andb_prop in Hp. apply andb_prop in Hp'.
      destruct Hp as [E1 _]. destruct Hp' as [E2 _].
      apply N.eqb_eq in E1. apply N.eqb_eq in E2. subst x0 y.
      inversion Hx as [| |? ? Hne Hnz Hc HD HS|]; subst.
      inversion Hy as [| |? ? Hne' Hnz' Hc' HD' HS'|]; subst.
      f_equal. apply (alpha_unique_gen VI (v_mem VI) R Irr Asym); auto.
      + intros v s Hin. split.
        * apply v_nonempty; auto. apply (Hnz _ _ Hin).
        * apply rcanonical_nonempty; eauto. apply (Hnz _ _ Hin).
      + intros v s Hin. split.
        * apply v_nonempty; auto. apply (Hnz' _ _ Hin).
        * apply rcanonical_nonempty; eauto. apply (Hnz' _ _ Hin).
      + intros v s w t H1 H2 H3. eapply IH; eauto.
      + intros v s w t _ _ H3. apply (vl_ext VL). exact H3.
      + intros k p. specialize (Hsame (AVal x k p)). rewrite !(contains_flat VI), N.eqb_refl in Hsame.
        exact Hsame.
    - destruct (rcanonical_nonempty _ Hx) as [p Hp]; [discriminate|].
      assert (Hp' := Hp). rewrite Hsame in Hp'.
      destruct p as [|x0 a q|x0 n q]; try discriminate.
      destruct y as [| |y arcs'|y arcs']; try discriminate.
      rewrite (contains_hier VI) in *. apply andb_prop in Hp. apply andb_prop in Hp'.
      destruct Hp as [E1 _]. destruct Hp' as [E2 _].
      apply N.eqb_eq in E1. apply N.eqb_eq in E2. subst x0 y.
      inversion Hx as [| | |? ? Hne Hnz Hcv Hc HD HS]; subst.
      inversion Hy as [| | |? ? Hne' Hnz' Hcv' Hc' HD' HS']; subst.
      f_equal. apply (alpha_unique_gen VI contains R Irr Asym); auto.
      + intros v s Hin. split.
        * apply rcanonical_nonempty; eauto. apply (Hnz _ _ Hin).
        * apply rcanonical_nonempty; eauto. apply (Hnz _ _ Hin).
      + intros v s Hin. split.
        * apply rcanonical_nonempty; eauto. apply (Hnz' _ _ Hin).
        * apply rcanonical_nonempty; eauto. apply (Hnz' _ _ Hin).
      + intros v s w t H1 H2 H3. destruct (IH _ _ H1) as [_ IH2]. eapply IH2; eauto.
      + intros v s w t H1 H2 H3. destruct (IH _ _ H1) as [IH1 _]. eapply IH1; eauto.
      + intros k p. specialize (Hsame (ANest x k p)). rewrite !(contains_hier VI), N.eqb_refl in Hsame.
        exact Hsame.
  Qed.
End FactsGen.

(** ** Nodes of SDDs as unified data *)

(** What a node stores besides handles: the variant of |0|, |1|, flat and hierarchical nodes, sdd/dd/definition.hh 51-56, with the
    variable and, for a flat node, the valuations of the arcs, sdd/dd/node.hh 30-80.  The handles stored in a node are, in the
    order of arcs: the successors of a flat node; the valuation and the successor of every arc of a hierarchical node. *)
Inductive label (V : Type) : Type :=
| KZero
| KOne
| KFlat (x : N) (vs : list V)
| KHier (x : N).
Arguments KZero {V}.
Arguments KOne {V}.
Arguments KFlat {V} x vs.
Arguments KHier {V} x.

Fixpoint pairs {A : Type} (l : list A) : list (A * A) :=
  match l with
  | a :: b :: r => (a, b) :: pairs r
  | _ => []
  end.
Definition unpairs {A : Type} (l : list (A * A)) : list A := flat_map (fun p => [fst p; snd p]) l.

Section Handles.
  Variable VI : values_impl.
  Notation V := (vt VI).
  Notation L := (label V).

  (** The SDD stored in unified data. *)
  Fixpoint sdd_of (t : tree L) : sdd V :=
    match t with
    | Node l ts =>
        match l with
        | KZero => Zero
        | KOne => One
        | KFlat x vs => Flat x (combine vs (map sdd_of ts))
        | KHier x => Hier x (pairs (map sdd_of ts))
        end
    end.
  Definition holds (r : vals (L := L)) (v : var) : option (sdd V) := option_map sdd_of (value r v).

  (** *** Programs

      Nodes are created by unify_node, sdd/dd/definition.hh 473-487, from arcs sorted by successor (sdd/dd/alpha.hh 47-112,
      sdd/dd/square_union.hh 49-68, 101-111).  Handles are copied, moved, assigned, destroyed and swapped as in Heap.v. *)
  Inductive sop : Type :=
  | OZero (v : var) (a : ptr)
  | OOne (v : var) (a : ptr)
  | OFlat (v : var) (x : N) (arcs : list (V * var)) (a : ptr)
  | OHier (v : var) (x : N) (arcs : list (var * var)) (a : ptr)
  | OHandle (o : hop L).
  Definition as_hop (o : sop) : hop L :=
    match o with
    | OZero v a => HCreate v KZero [] a
    | OOne v a => HCreate v KOne [] a
    | OFlat v x arcs a => HCreate v (KFlat x (map fst arcs)) (map snd arcs) a
    | OHier v x arcs a => HCreate v (KHier x) (unpairs arcs) a
    | OHandle o => o
    end.

  (** The addresses currently held by [ks] are strictly ascending. *)
  Definition ascending (h : heap L) (ks : list var) : Prop :=
    exists ps, Forall2 (fun k p => get (env h) k = Some (Some p)) ks ps /\ StronglySorted N.lt ps.

  (** What the library ensures before it creates a node (C05, C12): arcs exist, with non-empty and disjoint valuations and
      non-empty successors, in the order of addresses of successors (operator<, sdd/dd/definition.hh 385-395). *)
  Definition legal (o : sop) (h : heap L) (r : vals (L := L)) : Prop :=
    match o with
    | OZero _ _ | OOne _ _ => True
    | OFlat _ _ arcs _ =>
        arcs <> [] /\
        (forall w k, In (w, k) arcs -> v_empty VI w = false /\ holds r k <> Some Zero) /\
        ForallOrdPairs (fun a b => disjoint (v_mem VI) (fst a) (fst b)) arcs /\
        ascending h (map snd arcs)
    | OHier _ _ arcs _ =>
        arcs <> [] /\
        (forall w k, In (w, k) arcs -> holds r w <> Some Zero /\ holds r k <> Some Zero) /\
        ForallOrdPairs (fun a b => forall x y, holds r (fst a) = Some x -> holds r (fst b) = Some y -> disjoint contains x y) arcs /\
        ascending h (map snd arcs)
    | OHandle (HCreate _ _ _ _) => False
    | OHandle _ => True
    end.

  (** operator== on the data of nodes without handles, sdd/dd/node.hh 136-142 and sdd/dd/definition.hh 51-56. *)
  Fixpoint values_eqb (l m : list V) : bool :=
    match l, m with
    | [], [] => true
    | v :: l', w :: m' => v_eqb VI v w && values_eqb l' m'
    | _, _ => false
    end.
  Definition label_eqb (l m : L) : bool :=
    match l, m with
    | KZero, KZero => true
    | KOne, KOne => true
    | KFlat x vs, KFlat y ws => N.eqb x y && values_eqb vs ws
    | KHier x, KHier y => N.eqb x y
    | _, _ => false
    end.
  Lemma label_eqb_spec : values_laws VI -> forall l m, label_eqb l m = true <-> l = m.
  Proof.
    intros VL l m. assert (P : forall a b, values_eqb a b = true <-> a = b).
    { induction a as [|v a IH]; intros [|w b]; cbn; try (split; [discriminate|congruence]); [tauto|].
      rewrite andb_true_iff, (vl_eqb VL), IH. split; [intros [-> ->]; auto|intros E; injection E; auto]. }
    destruct l, m; cbn; try (split; [discriminate|congruence]); try tauto.
    - rewrite andb_true_iff, N.eqb_eq, P. split; [intros [-> ->]; auto|intros E; injection E; auto].
    - rewrite N.eqb_eq. split; [intros ->; auto|intros E; injection E; auto].
  Qed.

  Section History.
    Variable leqb : L -> L -> bool.
    Variable hash bytes : L * list ptr -> N.
    Fixpoint sdd_history (l : list sop) (h : heap L) (r : vals (L := L)) : Prop :=
      match l with
      | [] => True
      | o :: l' => legal o h r /\ proper (as_hop o) r /\ allocator_ok (as_hop o) h /\
                   forall h', h_step leqb hash bytes (as_hop o) h = Ok h' -> sdd_history l' h' (v_step (as_hop o) r)
      end.
  End History.

  (** *** Values of variables *)

  Inductive wf : tree L -> Prop :=
  | wf_zero : wf (Node KZero [])
  | wf_one : wf (Node KOne [])
  | wf_flat : forall x vs ts, ts <> [] -> length vs = length ts -> (forall t, In t ts -> wf t) ->
      (forall v, In v vs -> v_empty VI v = false) -> (forall t, In t ts -> sdd_of t <> Zero) ->
      ForallOrdPairs (disjoint (v_mem VI)) vs -> wf (Node (KFlat x vs) ts)
  | wf_hier : forall x arcs, arcs <> [] -> (forall a b, In (a, b) arcs -> wf a /\ wf b) ->
      (forall a b, In (a, b) arcs -> sdd_of a <> Zero /\ sdd_of b <> Zero) ->
      ForallOrdPairs (fun a b => disjoint contains (sdd_of (fst a)) (sdd_of (fst b))) arcs ->
      wf (Node (KHier x) (unpairs arcs)).

  Lemma pairs_unpairs : forall A (l : list (A * A)), pairs (unpairs l) = l.
  Proof. induction l as [|[a b] r IH]; auto. change (unpairs ((a, b) :: r)) with (a :: b :: unpairs r). cbn [pairs map]. now rewrite IH. Qed.
  Lemma unpairs_inj : forall A (l m : list (A * A)), unpairs l = unpairs m -> l = m.
  Proof. intros A l m H. rewrite <- (pairs_unpairs A l), <- (pairs_unpairs A m). now rewrite H. Qed.
  Lemma pairs_map : forall A B (f : A -> B) l, pairs (map f (unpairs l)) = map (fun p => (f (fst p), f (snd p))) l.
  Proof. induction l as [|[a b] r IH]; auto. change (unpairs ((a, b) :: r)) with (a :: b :: unpairs r). cbn [pairs map]. now rewrite IH. Qed.
  Lemma in_unpairs : forall A (l : list (A * A)) x, In x (unpairs l) <-> exists a b, In (a, b) l /\ (x = a \/ x = b).
  Proof.
    intros A l x. unfold unpairs. rewrite in_flat_map. split.
    - intros ([a b] & H & H'). cbn in H'. exists a, b. intuition.
    - intros (a & b & H & H'). exists (a, b). cbn. intuition.
  Qed.

  Lemma wf_subs : forall t u, wf t -> In u (subs t) -> wf u.
  Proof.
    intros t u H Hu. destruct H as [| |x vs ts _ _ H _ _ _|x arcs _ H _ _]; cbn [subs] in Hu; try (now destruct Hu).
    - auto.
    - apply in_unpairs in Hu. destruct Hu as (a & b & Hin & [->| ->]); apply (H a b Hin).
  Qed.

  Lemma combine_map_inj : forall (vs ws : list V) ts us, length vs = length ts -> length ws = length us ->
    combine vs (map sdd_of ts) = combine ws (map sdd_of us) -> vs = ws /\ map sdd_of ts = map sdd_of us.
  Proof.
    induction vs as [|v vs IH]; intros [|w ws] [|t ts] [|u us]; cbn; intros H1 H2 E; try discriminate; auto.
    injection E as -> E1 E2. destruct (IH ws ts us) as [-> E3]; auto. split; auto. congruence.
  Qed.
  Lemma map_inj_in : forall A B (f : A -> B) l m, (forall a b, In a l -> In b m -> f a = f b -> a = b) -> map f l = map f m -> l = m.
  Proof.
    intros A B f. induction l as [|a l IH]; intros [|b m] H E; cbn in E; try discriminate; auto. injection E as E1 E2. f_equal.
    - apply H; auto; now left.
    - apply IH; auto. intros x y Hx Hy. apply H; now right.
  Qed.

  Lemma sdd_of_inj : forall t, wf t -> forall u, wf u -> sdd_of t = sdd_of u -> t = u.
  Proof.
    induction t as [l ts IH] using tree_ind2. rewrite Forall_forall in IH. intros Ht u Hu E.
    inversion Ht as [| |x vs ts' N1 Ln W1 _ _ _|x arcs N1 W1 _ _]; subst;
    destruct Hu as [| |y ws us N2 Ln2 W2 _ _ _|y brcs N2 W2 _ _]; cbn [sdd_of] in E; try discriminate; auto.
    - injection E as -> E. apply combine_map_inj in E; auto. destruct E as [-> E]. f_equal.
      apply (map_inj_in _ _ sdd_of); auto.
    - injection E as -> E. rewrite !pairs_map in E. f_equal. f_equal.
      apply (map_inj_in _ _ (fun p => (sdd_of (fst p), sdd_of (snd p)))); auto.
      intros [a b] [c d] Hx Hy Exy. cbn [fst snd] in Exy. injection Exy as E1 E2. f_equal; apply IH; auto; try apply in_unpairs; eauto.
      + apply (W1 a b Hx).
      + apply (W2 c d Hy).
      + apply (W1 a b Hx).
      + apply (W2 c d Hy).
  Qed.

  Definition all_wf (r : vals (L := L)) : Prop := forall v t, In (v, Some t) r -> wf t.
  Lemma value_in : forall (r : vals (L := L)) v t, value r v = Some t -> In (v, Some t) r.
  Proof.
    unfold value. induction r as [|[w x] r IH]; cbn; intros v t H; [discriminate|].
    destruct (Nat.eqb_spec v w) as [->|N]; [|auto]. left. destruct x; congruence.
  Qed.
  Lemma put_in : forall A (r : list (var * option A)) v y w x, In (w, x) (put r v y) -> In (w, x) r \/ x = y.
  Proof.
    induction r as [|[u z] r IH]; cbn; intros v y w x H; auto. destruct (Nat.eqb v u); cbn in H.
    - destruct H as [H|H]; auto. right. congruence.
    - destruct H as [H|H]; auto. destruct (IH _ _ _ _ H); auto.
  Qed.
  Lemma drop_in : forall A (r : list (var * option A)) v x, In x (drop r v) -> In x r.
  Proof. induction r as [|[u z] r IH]; cbn; intros v x H; auto. destruct (Nat.eqb v u); cbn in *; intuition. eauto. Qed.
  Lemma source_wf : forall r s t, all_wf r -> source_value r s = Some t -> wf t.
  Proof.
    intros r [v|v i] t W H; cbn [source_value] in H.
    - apply (W v), value_in, H.
    - destruct (value r v) as [u|] eqn:Ev; [|discriminate]. apply value_in in Ev. apply (wf_subs u).
      + apply (W v), Ev.
      + eapply nth_error_In, H.
  Qed.
  Lemma values_of_map : forall (r : vals (L := L)) ks, (forall k, In k ks -> value r k <> None) ->
    exists ts, values_of r ks = ts /\ Forall2 (fun k t => value r k = Some t) ks ts.
  Proof.
    intros r ks H. eexists. split; [reflexivity|]. induction ks as [|k ks IH]; cbn; [constructor|].
    destruct (value r k) as [t|] eqn:E; [|now destruct (H k (or_introl eq_refl))]. constructor; auto.
    apply IH. intros x Hx. apply H. now right.
  Qed.

  (** *** Invariant *)

  Variable leqb : L -> L -> bool.
  Variable hash bytes : L * list ptr -> N.
  Hypothesis leqb_spec : forall a b, leqb a b = true <-> a = b.
  Notation good := (good hash).

  (** Data never changes during the life of a node. *)
  Lemma step_keeps : forall o h r k h', good h r k -> proper o r -> allocator_ok o h -> (N.of_nat (k + cost o) < 2 ^ 32 - 1)%N ->
    h_step leqb hash bytes o h = Ok h' ->
    forall p d, udat (hm h') p = Some d ->
    udat (hm h) p = Some d \/ exists v l ks a ps, o = HCreate v l ks a /\ map_res (held h) ks = Ok ps /\ d = (l, ps).
  Proof.
    intros o h r k h' Gd Pr Al Hb E p d U. pose proof Gd as Gd0. destruct Gd as (els & I & S & Hl).
    assert (Live : forall h1 roots els1, inv hash h1 roots els1 [] [] -> udat (hm h1) p = Some d -> In p els1).
    { intros h1 roots els1 I1 U1. destruct (i_only hash _ _ _ _ _ I1 p) as [H|[]]; auto.
      unfold udat, dat in U1. destruct (hm h1 p); [discriminate|cbn in U1; discriminate]. }
    assert (Rel : forall v h1, declared r v -> release_var leqb hash v h = Ok h1 -> udat (hm h1) p = Some d -> udat (hm h) p = Some d).
    { intros v h1 Dv E1 U1. destruct (release_var_ok leqb hash bytes leqb_spec h r k v Gd0 Dv) as (h2 & els2 & E2 & I2 & V2 & U2 & _).
      rewrite E1 in E2. injection E2 as <-. rewrite <- U2; auto. apply (Live h1 _ _ I2 U1). }
    assert (Inc : forall q (h1 h2 : heap L), incr q h1 = Ok h2 -> udat (hm h2) p = udat (hm h1) p).
    { intros q h1 h2 E1. unfold incr in E1. destruct (deref (hm h1) q) as [c|] eqn:Ed; [|discriminate]. cbn [rbind] in E1.
      destruct (N.eqb _ _); [discriminate|]. injection E1 as <-. cbn [with_mem hm]. apply set_ref_udat. unfold deref in Ed.
      destruct (hm h1 q); congruence. }
    destruct o as [v l ks a|v s|v w|v s|v w|v|v w]; cbn [h_step proper allocator_ok cost] in *.
    - destruct (map_held h r ks S Pr) as (ps & Em & Fd & Kp & Ln). rewrite Em in E. cbn [rbind] in E.
      destruct (make_ok leqb hash bytes leqb_spec h (handles (env h)) els [] [] (l, ps) a I Al (fun H => H)) as (q & h1 & els1 & E1 & I1 & Uq & Ux & V & L1 & Els & _).
      { cbn [snd]. intros x Hx. apply (inv_root hash _ _ _ _ _ x I). auto. }
      { cbn [snd]. rewrite Ln. cbn [length]. lia. }
      rewrite E1 in E. cbn [rbind fst snd] in E. injection E as <-. cbn [with_env hm] in U.
      pose proof (Live h1 _ _ I1 U) as Hp.
      assert (Hq : p = q \/ In p els) by (destruct Els as [-> | ->]; [auto|destruct Hp as [Hp|Hp]; auto]).
      destruct Hq as [-> |Hq].
      + right. exists v, l, ks, a, ps. split; auto. split; auto. congruence.
      + left. rewrite <- (proj2 (Ux p Hq)). exact U.
    - left. destruct (bind_source h s) as [b|]; [|discriminate]. cbn [rbind] in E. destruct (read_source h b) as [q|]; [|discriminate].
      cbn [rbind] in E. destruct (incr q h) as [h1|] eqn:E1; [|discriminate]. cbn [rbind] in E. injection E as <-.
      cbn [with_env hm] in U. now rewrite (Inc _ _ _ E1) in U.
    - left. destruct (get (env h) w); [|discriminate]. injection E as <-. exact U.
    - left. destruct (bind_source h s) as [b|]; [|discriminate]. cbn [rbind] in E. destruct (read_source h b) as [q|]; [|discriminate].
      cbn [rbind] in E. destruct (release_var leqb hash v h) as [h1|] eqn:E1; [|discriminate]. cbn [rbind] in E.
      destruct (read_source h1 b) as [q'|]; [|discriminate]. cbn [rbind] in E. rewrite (Inc _ _ _ E) in U. cbn [with_env hm] in U.
      apply (Rel v h1); auto. apply Pr.
    - left. destruct (release_var leqb hash v h) as [h1|] eqn:E1; [|discriminate]. cbn [rbind] in E.
      destruct (get (env h1) w); [|discriminate]. injection E as <-. apply (Rel v h1); auto. apply Pr.
    - left. destruct (release_var leqb hash v h) as [h1|] eqn:E1; [|discriminate]. cbn [rbind] in E. injection E as <-.
      apply (Rel v h1); auto.
    - left. destruct (get (env h) v); [|discriminate]. destruct (get (env h) w); [|discriminate]. injection E as <-. exact U.
  Qed.

  (** The stored successors are ascending. *)
  Definition sorted_node (d : L * list ptr) : Prop :=
    match fst d with
    | KFlat _ _ => StronglySorted N.lt (snd d)
    | KHier _ => StronglySorted N.lt (map snd (pairs (snd d)))
    | _ => True
    end.
  Definition sorted_heap (h : heap L) : Prop := forall p d, udat (hm h) p = Some d -> sorted_node d.

  Lemma map_held_forall : forall (h : heap L) ks ps qs, map_res (held h) ks = Ok ps ->
    Forall2 (fun k p => get (env h) k = Some (Some p)) ks qs -> ps = qs.
  Proof.
    intros h ks ps qs E F. revert ps E. induction F as [|k q ks qs Hk F IH]; cbn [map_res]; intros ps E; [congruence|].
    unfold held at 1 in E. rewrite Hk in E. cbn [rbind] in E. fold (map_res (held h)) in E.
    destruct (map_res (held h) ks) as [rs|]; [|discriminate]. cbn [rbind] in E. injection E as <-. f_equal. auto.
  Qed.
  Lemma map_held_unpairs : forall (h : heap L) arcs ps qs, map_res (held h) (unpairs arcs) = Ok ps ->
    Forall2 (fun k p => get (env h) k = Some (Some p)) (map snd arcs) qs -> map snd (pairs ps) = qs.
  Proof.
    intros h. induction arcs as [|[a b] arcs IH]; intros ps qs E F.
    - inversion F; subst. cbn in E. injection E as <-. reflexivity.
    - change (unpairs ((a, b) :: arcs)) with (a :: b :: unpairs arcs) in E. cbn [map snd] in F.
      inversion F as [|? q ? qs' Hb F' E1 E2]; subst. cbn [map_res] in E. fold (map_res (held h)) in E.
      destruct (held h a) as [pa|]; [|discriminate]. cbn [rbind] in E. unfold held at 1 in E. rewrite Hb in E. cbn [rbind] in E.
      destruct (map_res (held h) (unpairs arcs)) as [rs|] eqn:Er; [|discriminate]. cbn [rbind] in E. injection E as <-.
      cbn [pairs map snd]. f_equal. eapply IH; eauto.
  Qed.

  Lemma step_sorted : forall o h r k h', good h r k -> legal o h r -> proper (as_hop o) r -> allocator_ok (as_hop o) h ->
    (N.of_nat (k + cost (as_hop o)) < 2 ^ 32 - 1)%N -> h_step leqb hash bytes (as_hop o) h = Ok h' ->
    sorted_heap h -> sorted_heap h'.
  Proof.
    intros o h r k h' G Lg Pr Al Hb E Sh p d U.
    destruct (step_keeps (as_hop o) h r k h' G Pr Al Hb E p d U) as [H|(v & l & ks & a & ps & Eo & Em & ->)]; [eapply Sh; eauto|].
    unfold sorted_node. cbn [fst snd]. destruct o as [v'|v'|v' x arcs a'|v' x arcs a'|o]; cbn [as_hop legal] in *.
    - injection Eo as <- <- <- <-. exact Logic.I.
    - injection Eo as <- <- <- <-. exact Logic.I.
    - injection Eo as <- <- <- <-. destruct Lg as (_ & _ & _ & qs & F & Ss). now rewrite (map_held_forall _ _ _ _ Em F).
    - injection Eo as <- <- <- <-. destruct Lg as (_ & _ & _ & qs & F & Ss). now rewrite (map_held_unpairs _ _ _ _ Em F).
    - rewrite Eo in Lg. destruct Lg.
  Qed.

  Lemma values_of_arcs : forall (r : vals (L := L)) arcs, (forall k, In k (unpairs arcs) -> value r k <> None) ->
    exists ts, values_of r (unpairs arcs) = unpairs ts /\
    Forall2 (fun a t => value r (fst a) = Some (fst t) /\ value r (snd a) = Some (snd t)) arcs ts.
  Proof.
    intros r. induction arcs as [|[a b] arcs IH]; intros H; [exists []; split; [reflexivity|constructor]|].
    change (unpairs ((a, b) :: arcs)) with (a :: b :: unpairs arcs) in *.
    destruct IH as (ts & E & F); [intros k Hk; apply H; now right; right|].
    destruct (value r a) as [ta|] eqn:Ea; [|now destruct (H a (or_introl eq_refl))].
    destruct (value r b) as [tb|] eqn:Eb; [|now destruct (H b (or_intror (or_introl eq_refl)))].
    exists ((ta, tb) :: ts). split; [|constructor; auto].
    change (unpairs ((ta, tb) :: ts)) with (ta :: tb :: unpairs ts). rewrite <- E. unfold values_of. cbn [flat_map]. now rewrite Ea, Eb.
  Qed.

  Lemma forall2_in_r : forall A B (R : A -> B -> Prop) l m b, Forall2 R l m -> In b m -> exists a, In a l /\ R a b.
  Proof. intros A B R l m b F. induction F as [|x y l m H F IH]; intros []; [subst; exists x; cbn; auto|]. destruct IH as (a & ? & ?); auto. exists a. cbn. auto. Qed.
  Lemma forall2_len : forall A B (R : A -> B -> Prop) l m, Forall2 R l m -> length l = length m.
  Proof. intros A B R l m F. induction F; cbn; auto. Qed.
  Lemma pairs_transfer : forall A B (R : A -> B -> Prop) (P : A -> A -> Prop) (Q : B -> B -> Prop) l m, Forall2 R l m ->
    (forall a a' b b', R a b -> R a' b' -> P a a' -> Q b b') -> ForallOrdPairs P l -> ForallOrdPairs Q m.
  Proof.
    intros A B R P Q l m F T H. induction F as [|a b l m Hab F IH]; [constructor|]. inversion H as [|? ? H1 H2]; subst. constructor; auto.
    rewrite Forall_forall in *. intros y Hy. destruct (forall2_in_r _ _ _ _ _ _ F Hy) as (x & Hx & Hr). eapply T; eauto.
  Qed.
  Lemma pairs_map_fst : forall A B (P : A -> A -> Prop) (l : list (A * B)),
    ForallOrdPairs (fun a b => P (fst a) (fst b)) l -> ForallOrdPairs P (map fst l).
  Proof.
    intros A B P l H. induction H as [|a l H1 H2 IH]; cbn; constructor; auto. rewrite Forall_forall in *. intros y Hy.
    apply in_map_iff in Hy. destruct Hy as (x & <- & Hx). auto.
  Qed.

  Lemma step_wf : forall o h r, legal o h r -> proper (as_hop o) r -> all_wf r -> all_wf (v_step (as_hop o) r).
  Proof.
    intros o h r Lg Pr W v t Hin. destruct o as [v'|v'|v' x arcs a'|v' x arcs a'|o].
    - cbn in Hin. destruct Hin as [Hin|Hin]; [|eapply W; eauto]. injection Hin as <- <-. constructor.
    - cbn in Hin. destruct Hin as [Hin|Hin]; [|eapply W; eauto]. injection Hin as <- <-. constructor.
    - cbn [as_hop v_step proper legal] in *. destruct Hin as [Hin|Hin]; [|eapply W; eauto]. injection Hin as <- <-.
      destruct Lg as (Ne & Nz & Dj & _). destruct (values_of_map r (map snd arcs) Pr) as (ts & -> & F).
      pose proof (forall2_len _ _ _ _ _ F) as Ln. rewrite map_length in Ln.
      assert (P : forall t, In t ts -> exists w k, In (w, k) arcs /\ value r k = Some t).
      { intros t Ht. destruct (forall2_in_r _ _ _ _ _ _ F Ht) as (k & Hk & Hv). apply in_map_iff in Hk. destruct Hk as ([w k'] & <- & Hk).
        exists w, k'. auto. }
      apply wf_flat.
      + destruct arcs; [congruence|]. destruct ts; [discriminate|discriminate].
      + now rewrite map_length.
      + intros t Ht. destruct (P t Ht) as (w & k & _ & Hv). apply (W k), value_in, Hv.
      + intros w Hw. apply in_map_iff in Hw. destruct Hw as ([w' k] & <- & Hk). apply (Nz _ _ Hk).
      + intros t Ht. destruct (P t Ht) as (w & k & Hk & Hv). destruct (Nz _ _ Hk) as [_ H]. unfold holds in H. rewrite Hv in H. cbn in H. congruence.
      + now apply pairs_map_fst.
    - cbn [as_hop v_step proper legal] in *. destruct Hin as [Hin|Hin]; [|eapply W; eauto]. injection Hin as <- <-.
      destruct Lg as (Ne & Nz & Dj & _). destruct (values_of_arcs r arcs Pr) as (ts & -> & F).
      pose proof (forall2_len _ _ _ _ _ F) as Ln.
      assert (P : forall a b, In (a, b) ts -> exists w k, In (w, k) arcs /\ value r w = Some a /\ value r k = Some b).
      { intros a b Ht. destruct (forall2_in_r _ _ _ _ _ _ F Ht) as ([w k] & Hk & Hv). exists w, k. auto. }
      apply wf_hier.
      + destruct arcs; [congruence|]. destruct ts; [discriminate|discriminate].
      + intros a b Hab. destruct (P a b Hab) as (w & k & _ & Hv & Hv'). split; [apply (W w)|apply (W k)]; now apply value_in.
      + intros a b Hab. destruct (P a b Hab) as (w & k & Hk & Hv & Hv'). destruct (Nz _ _ Hk) as [H1 H2]. unfold holds in H1, H2.
        rewrite Hv in H1. rewrite Hv' in H2. cbn in H1, H2. split; congruence.
      + eapply pairs_transfer; [exact F| |exact Dj]. intros c c' b b' [Ha _] [Hb _] H. apply H; unfold holds.
        * now rewrite Ha.
        * now rewrite Hb.
    - cbn [as_hop] in *. destruct o as [u l ks a|u s|u w|u s|u w|u|u w]; cbn [v_step legal] in *; [destruct Lg| | | | | |].
      + destruct Hin as [Hin|Hin]; [|eapply W; eauto]. injection Hin as <- Hin. eapply source_wf; eauto.
      + destruct Hin as [Hin|Hin]; [injection Hin as <- Hin; apply (W w), value_in, Hin|].
        apply put_in in Hin. destruct Hin as [Hin|Hin]; [eapply W; eauto|discriminate].
      + apply put_in in Hin. destruct Hin as [Hin|Hin]; [eapply W; eauto|]. eapply source_wf; eauto.
      + apply put_in in Hin. destruct Hin as [Hin|Hin]; [|discriminate]. apply put_in in Hin.
        destruct Hin as [Hin|Hin]; [eapply W; eauto|]. apply (W w), value_in. auto.
      + apply drop_in in Hin. eapply W; eauto.
      + apply put_in in Hin. destruct Hin as [Hin|Hin]; [|apply (W u), value_in; auto]. apply put_in in Hin.
        destruct Hin as [Hin|Hin]; [eapply W; eauto|]. apply (W w), value_in. auto.
  Qed.

  Theorem sdd_run_ok : forall l h r k, good h r k -> sorted_heap h -> all_wf r -> sdd_history leqb hash bytes l h r ->
    (N.of_nat (k + total (map as_hop l)) < 2 ^ 32 - 1)%N ->
    exists h', h_run leqb hash bytes (map as_hop l) h = Ok h' /\ good h' (v_run (map as_hop l) r) (k + total (map as_hop l)) /\
    sorted_heap h' /\ all_wf (v_run (map as_hop l) r).
  Proof.
    induction l as [|o l IH]; intros h r k G Sh W H B; unfold h_run, v_run, total in *; cbn [map fold_left list_sum fold_right] in *.
    - exists h. rewrite Nat.add_0_r. auto.
    - destruct H as (Lg & Pr & Al & H). unfold list_sum in B. cbn [map fold_right] in B.
      destruct (step_ok leqb hash bytes leqb_spec (as_hop o) h r k G Pr Al) as (h1 & E1 & G1); [lia|].
      cbn [rbind]. rewrite E1. destruct (IH h1 (v_step (as_hop o) r) (k + cost (as_hop o)) G1) as (h2 & E2 & G2 & S2 & W2); auto.
      + apply (step_sorted o h r k); auto. lia.
      + eapply step_wf; eauto.
      + unfold list_sum. lia.
      + exists h2. split; auto. split; [|auto]. eapply good_mono; eauto. unfold list_sum. cbn [map fold_right]. lia.
  Qed.

  (** *** Live nodes are canonical for the current addresses *)

  Definition addr_order (h : heap L) (x y : sdd V) : Prop :=
    exists t u p q, wf t /\ wf u /\ sdd_of t = x /\ sdd_of u = y /\ denotes (hm h) t p /\ denotes (hm h) u q /\ (p < q)%N.

  Lemma denotes_live : forall h roots els t p, inv hash h roots els [] [] -> denotes (hm h) t p -> In p els.
  Proof.
    intros h roots els [l ts] p I D. apply denotes_node in D. destruct D as (ks & U & _).
    destruct (i_only hash _ _ _ _ _ I p) as [H|[]]; auto. unfold udat, dat in U. destruct (hm h p); [discriminate|cbn in U; discriminate].
  Qed.
  Lemma addr_order_irr : forall h r k, good h r k -> forall x, ~ addr_order h x x.
  Proof.
    intros h r k (els & I & _) x (t & u & p & q & Wt & Wu & <- & E & Dt & Du & Hpq).
    apply sdd_of_inj in E; auto. subst u.
    assert (p = q) by (eapply (denotes_inj hash); [exact I| | |exact Dt|exact Du]; eapply denotes_live; eauto). lia.
  Qed.
  Lemma addr_order_asym : forall h r k, good h r k -> forall x y, addr_order h x y -> addr_order h y x -> False.
  Proof.
    intros h r k (els & I & _) x y (t & u & p & q & Wt & Wu & <- & <- & Dt & Du & Hpq) (u' & t' & q' & p' & Wu' & Wt' & E1 & E2 & Du' & Dt' & Hqp).
    apply sdd_of_inj in E1; auto. apply sdd_of_inj in E2; auto. subst u' t'.
    assert (p = p') by (eapply (denotes_inj hash); [exact I| | |exact Dt|exact Dt']; eapply denotes_live; eauto).
    assert (q = q') by (eapply (denotes_inj hash); [exact I| | |exact Du|exact Du']; eapply denotes_live; eauto). lia.
  Qed.

  Lemma sorted_of : forall h ts ps, (forall t, In t ts -> wf t) -> Forall2 (denotes (hm h)) ts ps -> StronglySorted N.lt ps ->
    StronglySorted (addr_order h) (map sdd_of ts).
  Proof.
    intros h ts ps W F S. induction F as [|t p ts ps D F IH]; [constructor|]. inversion S as [|? ? S1 S2]; subst. cbn [map]. constructor.
    - apply IH; auto. intros x Hx. apply W. now right.
    - rewrite Forall_forall in *. intros y Hy. apply in_map_iff in Hy. destruct Hy as (u & <- & Hu).
      assert (exists q, In q ps /\ denotes (hm h) u q) as (q & Hq & Dq).
      { clear - F Hu. induction F as [|a b l m H F IH]; [destruct Hu|]. destruct Hu as [->|Hu]; [exists b; cbn; auto|].
        destruct (IH Hu) as (q & ? & ?). exists q. cbn. auto. }
      exists t, u, p, q. repeat split; auto; apply W; [now left|now right].
  Qed.
  Lemma forall2_unpairs : forall A B (R : A -> B -> Prop) arcs ps, Forall2 R (unpairs arcs) ps ->
    exists brcs, ps = unpairs brcs /\ Forall2 (fun a b => R (fst a) (fst b) /\ R (snd a) (snd b)) arcs brcs.
  Proof.
    intros A B R. induction arcs as [|[a b] arcs IH]; intros ps F.
    - inversion F; subst. exists []. split; [reflexivity|constructor].
    - change (unpairs ((a, b) :: arcs)) with (a :: b :: unpairs arcs) in F. inversion F as [|? p ? ps1 Ha F1]; subst.
      inversion F1 as [|? q ? ps2 Hb F2]; subst. destruct (IH _ F2) as (brcs & -> & F3). exists ((p, q) :: brcs). split; [reflexivity|].
      constructor; auto.
  Qed.
  Lemma forall2_map : forall A B A' B' (f : A -> A') (g : B -> B') (R : A' -> B' -> Prop) l m,
    Forall2 (fun a b => R (f a) (g b)) l m -> Forall2 R (map f l) (map g m).
  Proof. intros. induction H; cbn; constructor; auto. Qed.
  Lemma forall2_imp : forall A B (R S : A -> B -> Prop) l m, (forall a b, R a b -> S a b) -> Forall2 R l m -> Forall2 S l m.
  Proof. intros A B R S l m H F. induction F; constructor; auto. Qed.
  Lemma forall2_in_l : forall A B (R : A -> B -> Prop) l m a, Forall2 R l m -> In a l -> exists b, In b m /\ R a b.
  Proof. intros A B R l m a F. induction F as [|x y l m H F IH]; intros []; [subst; exists y; cbn; auto|]. destruct IH as (b & ? & ?); auto. exists b. cbn. auto. Qed.

  Lemma combine_snd : forall (vs : list V) (ss : list (sdd V)), length vs = length ss -> map snd (combine vs ss) = ss.
  Proof. induction vs as [|v vs IH]; intros [|s ss] H; cbn in *; try discriminate; auto. f_equal. auto. Qed.
  Lemma combine_fst : forall (vs : list V) (ss : list (sdd V)), length vs = length ss -> map fst (combine vs ss) = vs.
  Proof. induction vs as [|v vs IH]; intros [|s ss] H; cbn in *; try discriminate; auto. f_equal. auto. Qed.
  Lemma pairs_of_map : forall A B (P : A -> A -> Prop) (l : list (A * B)),
    ForallOrdPairs P (map fst l) -> ForallOrdPairs (fun a b => P (fst a) (fst b)) l.
  Proof.
    intros A B P. induction l as [|a l IH]; cbn; intros H; constructor; inversion H as [|? ? H1 H2]; subst; auto.
    rewrite Forall_forall in *. intros y Hy. apply H1. now apply in_map.
  Qed.

  Lemma wf_canonical : forall h, sorted_heap h -> forall t p, wf t -> denotes (hm h) t p -> rcanonical VI (addr_order h) (sdd_of t).
  Proof.
    intros h Sh. induction t as [l ts IH] using tree_ind2. rewrite Forall_forall in IH. intros p W D.
    apply denotes_node in D. destruct D as (ks & U & F). pose proof (Sh p _ U) as Sn. unfold sorted_node in Sn. cbn [fst snd] in Sn.
    inversion W as [| |x vs ts' Ne Ln Ws Nv Nz Dj|x arcs Ne Ws Nz Dj]; subst; cbn [sdd_of].
    - constructor.
    - constructor.
    - assert (Ln' : length vs = length (map sdd_of ts)) by (now rewrite map_length).
      assert (P : forall v s, In (v, s) (combine vs (map sdd_of ts)) -> In v vs /\ exists t, In t ts /\ s = sdd_of t).
      { intros v s H. split; [eapply in_combine_l; eauto|]. apply in_combine_r in H. apply in_map_iff in H. destruct H as (t & <- & H). eauto. }
      apply rcan_flat.
      + destruct vs, ts; cbn in *; congruence.
      + intros v s H. destruct (P v s H) as (Hv & t & Ht & ->). split; auto.
      + intros v s H. destruct (P v s H) as (Hv & t & Ht & ->). destruct (forall2_in_l _ _ _ _ _ _ F Ht) as (q & _ & Dq). eapply IH; eauto.
      + apply pairs_of_map. now rewrite combine_fst.
      + rewrite combine_snd by auto. eapply sorted_of; eauto.
    - destruct (forall2_unpairs _ _ _ _ _ F) as (brcs & -> & F2). rewrite pairs_unpairs in Sn. rewrite pairs_map.
      assert (P : forall v s, In (v, s) (map (fun p => (sdd_of (fst p), sdd_of (snd p))) arcs) ->
        exists a b, In (a, b) arcs /\ v = sdd_of a /\ s = sdd_of b).
      { intros v s H. apply in_map_iff in H. destruct H as ([a b] & E & H). injection E as <- <-. exists a, b. auto. }
      assert (Q : forall t, In t (unpairs arcs) -> rcanonical VI (addr_order h) (sdd_of t)).
      { intros t Ht. destruct (forall2_in_l _ _ _ _ _ _ F Ht) as (q & _ & Dq). eapply IH; eauto.
        apply in_unpairs in Ht. destruct Ht as (a & b & Hab & [->| ->]); apply (Ws a b Hab). }
      apply rcan_hier.
      + destruct arcs; cbn; congruence.
      + intros v s H. destruct (P v s H) as (a & b & Hab & -> & ->). auto.
      + intros v s H. destruct (P v s H) as (a & b & Hab & -> & ->). apply Q. apply in_unpairs. eauto.
      + intros v s H. destruct (P v s H) as (a & b & Hab & -> & ->). apply Q. apply in_unpairs. eauto.
      + clear - Dj. induction Dj as [|a l H1 H2 IH]; cbn; constructor; auto. rewrite Forall_forall in *. intros y Hy.
        apply in_map_iff in Hy. destruct Hy as (z & <- & Hz). cbn [fst]. auto.
      + rewrite map_map. cbn [snd]. rewrite <- (map_map snd sdd_of). eapply sorted_of; [| |exact Sn].
        * intros t Ht. apply in_map_iff in Ht. destruct Ht as ([a b] & <- & Hab). apply (Ws a b Hab).
        * apply forall2_map. eapply forall2_imp; [|exact F2]. cbn. intuition.
  Qed.
End Handles.
