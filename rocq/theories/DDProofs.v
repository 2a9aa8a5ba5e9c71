(** * Correctness of union, intersection and difference *)

From Coq Require Import List Bool NArith Arith Lia Permutation Sorted.
From Verif Require Import Base SortedSets Values Sdd SddFacts DDModel DDGeneric DDFast.
Import ListNotations.

Section Proofs.
  Variable VI : values_impl.
  Hypothesis VL : values_laws VI.
  Variable PF : platform VI.
  Hypothesis PO : platform_ok PF.
  Notation V := (vt VI).
  Notation sdd := (sdd V).
  Notation lt := (addr_lt PF).

  (** A set of assignments without clash. *)
  Record universe : Type := {
    u_in :> asg (elt VI) -> Prop;
    u_free : forall p q, u_in p -> u_in q -> ~ aclash p q
  }.

  (** Two modes of proof: [Some U], all the assignments of the operands are in the universe [U] and no error is
      possible; [None], no assumption and the only possible error is top with incompatible operands. In both, no two
      assignments of the same operand clash. *)
  Definition mode : Type := option universe.

  Definition within (md : mode) (x : sdd) : Prop :=
    match md with
    | None => True
    | Some U => forall p, contains x p = true -> U p
    end.
  Definition mode_ok (md : mode) (x : sdd) : Prop := coherent x /\ within md x.

  Definition Ex (md : mode) (e : err V) : Prop :=
    match e with
    | ETop a b => md = None /\ incompatible a b
    | _ => False
    end.

  Definition good (n : nat) (md : mode) (x : sdd) : Prop :=
    canonical VI lt x /\ height x <= n /\ mode_ok md x.

  (** What an interpretation [h] of the cached operations must ensure on operands of height
      at most [n]. *)
  Record h_ok (n : nat) (h : ddop V -> res (err V) sdd) : Prop := {
    ho_sum : forall md l, 2 <= length l -> ssorted lt l ->
      (forall x, In x l -> good n md x /\ x <> Zero) ->
      outcome (Ex md) (fun r => good n md r /\ forall p, contains r p = existsb (fun x => contains x p) l)
        (h (OpSum l));
    ho_inter : forall md l, 2 <= length l -> ssorted lt l ->
      (forall x, In x l -> good n md x /\ x <> Zero) ->
      outcome (Ex md) (fun r => good n md r /\ (forall p, contains r p = forallb (fun x => contains x p) l) /\
                        forall a b t, l = a :: b :: t -> agree a b)
        (h (OpInter l));
    ho_diff : forall md a b, good n md a -> good n md b -> a <> b -> a <> Zero -> b <> Zero ->
      outcome (Ex md) (fun r => good n md r /\ (forall p, contains r p = contains a p && negb (contains b p)) /\ agree a b)
        (h (OpDiff a b))
  }.

  Lemma good_zero : forall n md, good n md Zero.
  Proof.
    intros n md. split; [constructor|split; [simpl; lia|split]].
    - intros p q H. discriminate H.
    - destruct md; simpl; auto. discriminate.
  Qed.

  (** Clashes *)
  Lemma aclash_sym : forall T (p q : asg T), aclash p q -> aclash q p.
  Proof.
    intros T. induction p as [|x a p IH|x n IHn p IH]; intros [|y b q|y m q]; simpl; auto.
    - intros [H|[-> H]]; auto.
    - intros [H|[H|[-> H]]]; auto.
  Qed.
  Lemma agree_sym : forall a b : sdd, agree a b -> agree b a.
  Proof. intros a b H p q Hp Hq C. apply (H q p Hq Hp). now apply aclash_sym. Qed.
  Lemma agree_zero : forall b : sdd, @agree VI Zero b.
  Proof. intros b p q H. discriminate H. Qed.

  Lemma incompatible_clash : forall a b : sdd, canonical VI lt a -> canonical VI lt b -> incompatible a b ->
    exists p q, contains a p = true /\ contains b q = true /\ aclash p q.
  Proof.
    intros a b Ca Cb HI.
    assert (Za : a <> Zero) by (intros ->; exact HI).
    assert (Zb : b <> Zero) by (intros ->; destruct a; exact HI).
    destruct (canonical_nonempty VI VL lt a Ca Za) as [p Hp].
    destruct (canonical_nonempty VI VL lt b Cb Zb) as [q Hq].
    exists p, q. split; [auto|split; [auto|]].
    destruct a as [| |x la|x la], b as [| |y lb|y lb]; simpl in HI; try contradiction;
      destruct p as [|px pa p|px pn p]; try discriminate Hp; destruct q as [|qx qa q|qx qn q]; try discriminate Hq;
      simpl; auto; left.
    - rewrite contains_flat in Hp, Hq. apply andb_prop in Hp, Hq. destruct Hp as [Hp _]. destruct Hq as [Hq _].
      apply N.eqb_eq in Hp, Hq. congruence.
    - rewrite contains_hier in Hp, Hq. apply andb_prop in Hp, Hq. destruct Hp as [Hp _]. destruct Hq as [Hq _].
      apply N.eqb_eq in Hp, Hq. congruence.
  Qed.

  Lemma ex_incompatible : forall n md a b, good n md a -> good n md b -> incompatible a b -> Ex md (ETop a b).
  Proof.
    intros n md a b (Ca & _ & _ & Wa) (Cb & _ & _ & Wb) HI. split; [|exact HI].
    destruct md as [U|]; [exfalso|reflexivity].
    destruct (incompatible_clash a b Ca Cb HI) as (p & q & Hp & Hq & C).
    simpl in Wa, Wb. exact (u_free U p q (Wa p Hp) (Wb q Hq) C).
  Qed.

  Lemma outcome_impl : forall E A (X Y : E -> Prop) (Q R : A -> Prop) r,
    outcome X Q r -> (forall e, X e -> Y e) -> (forall a, Q a -> R a) -> outcome Y R r.
  Proof. intros E A X Y Q R [a|e]; simpl; auto. Qed.

  Lemma sdd_eqb_spec : forall x y, sdd_eqb VI PF x y = true <-> x = y.
  Proof. intros; unfold sdd_eqb; apply equivb_spec. apply PO. Qed.

  (** ** Small operand sets *)

  Lemma dd_sum_ok : forall n h md l, h_ok n h -> ssorted lt l ->
    (forall x, In x l -> good n md x /\ x <> Zero) ->
    hoare h (Ex md) (dd_sum VI l)
      (fun r => good n md r /\ forall p, contains r p = existsb (fun x => contains x p) l).
  Proof.
    intros n h md l HO HS HG. unfold dd_sum. destruct l as [|a [|b l]].
    - apply hoare_ret. split; [apply good_zero|]. reflexivity.
    - apply hoare_ret. split; [apply HG; now left|]. intros p; simpl. now rewrite orb_false_r.
    - apply hoare_call. apply (ho_sum _ _ HO); auto. simpl; lia.
  Qed.

  Lemma dd_inter_ok : forall n h md l, h_ok n h -> ssorted lt l -> l <> [] ->
    (forall x, In x l -> good n md x /\ x <> Zero) ->
    hoare h (Ex md) (dd_intersection VI (false, l))
      (fun r => good n md r /\ (forall p, contains r p = forallb (fun x => contains x p) l) /\
                forall a b t, l = a :: b :: t -> agree a b).
  Proof.
    intros n h md l HO HS HN HG. unfold dd_intersection, snd. destruct l as [|a [|b l]].
    - congruence.
    - apply hoare_ret. split; [apply HG; now left|]. split; [intros p; simpl; now rewrite andb_true_r|].
      discriminate.
    - apply hoare_call. apply (ho_inter _ _ HO); auto. simpl; lia.
  Qed.

  Lemma dd_diff_ok : forall n h md a b, h_ok n h -> good n md a -> good n md b ->
    hoare h (Ex md) (dd_difference VI PF a b)
      (fun r => good n md r /\ (forall p, contains r p = contains a p && negb (contains b p)) /\ agree a b).
  Proof.
    intros n h md a b HO Ga Gb. unfold dd_difference.
    destruct (sdd_eqb VI PF a b) eqn:E1; simpl.
    { apply sdd_eqb_spec in E1. subst b. apply hoare_ret. split; [apply good_zero|].
      split; [|apply Ga]. intros p; simpl. now destruct (contains a p). }
    destruct (is_zero VI a) eqn:E2; simpl.
    { apply is_zero_true in E2. subst a. apply hoare_ret. split; [apply good_zero|]. split; [reflexivity|apply agree_zero]. }
    destruct (is_zero VI b) eqn:E3; simpl.
    { apply is_zero_true in E3. subst b. apply hoare_ret. split; [auto|].
      split; [|apply agree_sym, agree_zero]. intros p; simpl. now rewrite andb_true_r. }
    apply hoare_call. apply (ho_diff _ _ HO); auto.
    - intros ->. rewrite (proj2 (sdd_eqb_spec b b) eq_refl) in E1. discriminate.
    - intros ->; discriminate.
    - intros ->; discriminate.
  Qed.

  (** ** Builders *)

  (** intersection_builder: the set of operands, or nothing as soon as one is empty. *)
  Lemma ib_fold : forall l z b,
    let r := fold_left (fun b x => sdd_ib_add VI PF x b) l (z, b) in
    (z = false -> (forall x, In x l -> x <> Zero) ->
       fst r = false /\ (ssorted lt b -> ssorted lt (snd r)) /\
       forall x, In x (snd r) <-> In x b \/ In x l) /\
    (z = true -> b = [] -> snd r = []) /\
    (z = false -> In Zero l -> snd r = []).
  Proof.
    pose proof (pf_lt PO) as ST.
    induction l as [|a l IH]; intros z b; cbn [fold_left].
    - cbv zeta. split; [|split].
      + intros Hz _. cbn [fst snd]. split; [auto|split; auto]. intros x; split; [auto|intros [H|[]]; auto].
      + auto.
      + intros _ [].
    - cbv zeta. unfold sdd_ib_add at 2 4 6 8 10. unfold ib_add. cbn [fst snd].
      destruct z.
      + destruct (IH true b) as (_ & I2 & _). split; [discriminate|split; [|discriminate]].
        intros _ Hb. now apply I2.
      + destruct (is_zero VI a) eqn:E.
        * apply is_zero_true in E. subst a.
          destruct (IH true []) as (_ & I2 & _). split; [|split; [discriminate|]].
          -- intros _ H. exfalso. apply (H Zero); auto. now left.
          -- intros _ _. now apply I2.
        * destruct (IH false (fs_insert lt a b)) as (I1 & _ & I3). split; [|split; [discriminate|]].
          -- intros _ H. destruct I1 as (J1 & J2 & J3); auto.
             { intros x Hx. apply H. now right. }
             split; [auto|split].
             ++ intros Hb. apply J2. apply fs_insert_sorted; auto.
             ++ intros x. rewrite J3, (fs_insert_in lt ST). simpl. intuition.
          -- intros _ [->|Hin]; [discriminate|]. now apply I3.
  Qed.

  (** sum_builder *)
  Lemma sb_fold : forall l b, ssorted lt b ->
    let r := fold_left (fun b x => sdd_sb_add VI PF x b) l b in
    ssorted lt r /\ forall x, In x r <-> In x b \/ (In x l /\ x <> Zero).
  Proof.
    pose proof (pf_lt PO) as ST.
    induction l as [|a l IH]; intros b Hb; cbn [fold_left]; cbv zeta.
    - split; auto. intros x; split; [auto|intros [H|[[] _]]; auto].
    - unfold sdd_sb_add at 2 4. unfold sb_add. destruct (is_zero VI a) eqn:E.
      + apply is_zero_true in E. subst a. destruct (IH b Hb) as [I1 I2]. split; auto.
        intros x. rewrite I2. simpl. intuition congruence.
      + destruct (IH (fs_insert lt a b)) as [I1 I2]; [apply fs_insert_sorted; auto|].
        split; auto. intros x. rewrite I2, (fs_insert_in lt ST). simpl.
        assert (a <> Zero) by (intros ->; discriminate). intuition; subst; auto.
  Qed.

  Lemma inter2_ok : forall n h md a b, h_ok n h -> good n md a -> good n md b ->
    hoare h (Ex md) (vo_inter (hier_ops VI PF) a b)
      (fun r => good n md r /\ (forall p, contains r p = contains a p && contains b p) /\ agree a b).
  Proof.
    intros n h md a b HO Ga Gb.
    change (hoare h (Ex md) (dd_intersection VI (fold_left (fun b x => sdd_ib_add VI PF x b) [a; b] (false, [])))
      (fun r => good n md r /\ (forall p, contains r p = contains a p && contains b p) /\ agree a b)).
    destruct (ib_fold [a; b] false []) as (I1 & _ & I3).
    set (r := fold_left _ _ _) in *.
    destruct (is_zero VI a) eqn:Ea; [|destruct (is_zero VI b) eqn:Eb].
    - apply is_zero_true in Ea. subst a. unfold dd_intersection. rewrite I3 by (simpl; auto).
      apply hoare_ret. split; [apply good_zero|]. split; [reflexivity|apply agree_zero].
    - apply is_zero_true in Eb. subst b. unfold dd_intersection. rewrite I3 by (simpl; auto).
      apply hoare_ret. split; [apply good_zero|]. split; [|apply agree_sym, agree_zero].
      intros p; simpl. now rewrite andb_false_r.
    - assert (a <> Zero) by (intros ->; discriminate). assert (b <> Zero) by (intros ->; discriminate).
      destruct I1 as (J1 & J2 & J3); auto.
      { intros x [<-|[<-|[]]]; auto. }
      destruct r as [z l]. cbn [fst snd] in *. subst z.
      assert (Hin : forall x, In x l <-> x = a \/ x = b).
      { intros x. rewrite J3. simpl. intuition. }
      eapply hoare_conseq.
      + apply (dd_inter_ok n h md l); auto.
        * apply J2. constructor.
        * intros ->. apply (Hin a). auto.
        * intros x Hx. apply Hin in Hx. destruct Hx as [->| ->]; auto.
      + intros r (G & C & A). split; [auto|split].
        * intros p. rewrite C. apply bool_ext.
          rewrite forallb_forall, andb_true_iff. split.
          -- intros H1. split; apply H1; apply Hin; auto.
          -- intros [H1 H2] x Hx. apply Hin in Hx. destruct Hx as [->| ->]; auto.
        * assert (HSl : ssorted lt l) by (apply J2; constructor).
          assert (La : In a l) by (apply Hin; auto). assert (Lb : In b l) by (apply Hin; auto).
          clear - A Hin La Lb Ga HSl PO. destruct l as [|u [|w t]].
          -- destruct La.
          -- destruct La as [<-|[]]. destruct Lb as [<-|[]]. apply Ga.
          -- specialize (A u w t eq_refl).
             assert (Huw : u <> w).
             { intros E. subst w. inversion HSl as [|? ? _ FF]; subst. inversion FF; subst.
               rewrite (st_irrefl (pf_lt PO)) in *. discriminate. }
             destruct (proj1 (Hin u) (or_introl eq_refl)) as [->| ->];
               destruct (proj1 (Hin w) (or_intror (or_introl eq_refl))) as [->| ->];
               first [congruence|exact A|now apply agree_sym].
  Qed.

  (** ** The operations on valuations *)

  Lemma hier_ops_ok : forall n h md, h_ok n h ->
    ops_ok VI h (Ex md) contains aclash (hier_ops VI PF) (good n md).
  Proof.
    intros n h md HO. split.
    - apply aclash_sym.
    - intros a (_ & _ & Ha & _). exact Ha.
    - apply PO.
    - apply sdd_eqb_spec.
    - intros a b Ga Gb H. apply (canonicity VI VL lt (pf_lt PO)); auto; [apply Ga|apply Gb].
    - intros a Ga E. apply is_zero_true in E. subst a. reflexivity.
    - intros a Ga E. apply (canonical_nonempty VI VL lt); [apply Ga|]. intros ->; discriminate.
    - intros l HS HG. apply dd_sum_ok; auto. intros x Hx. destruct (HG _ Hx) as [H1 H2].
      split; auto. intros ->. discriminate.
    - intros a b Ga Gb. now apply inter2_ok.
    - intros a b Ga Gb. now apply dd_diff_ok.
    - intros m. apply (pf_iter_hier PO).
  Qed.

  Lemma val_sum_spec : forall l x, v_mem VI (val_sum VI l) x = existsb (fun v => v_mem VI v x) l.
  Proof.
    intros [|a l] x; simpl.
    - apply (vl_default VL).
    - revert a. induction l as [|b l IH]; intros a; simpl.
      + now rewrite orb_false_r.
      + rewrite IH, (vl_sum VL). now rewrite orb_assoc.
  Qed.

  Lemma val_inter_loop_spec : forall l r x,
    v_mem VI (val_inter_loop VI r l) x = v_mem VI r x && forallb (fun v => v_mem VI v x) l.
  Proof.
    induction l as [|a l IH]; intros r x; simpl.
    - now rewrite andb_true_r.
    - destruct (v_empty VI r) eqn:E.
      + apply (vl_empty VL) with (x := x) in E. now rewrite E.
      + rewrite IH, (vl_inter VL). now rewrite andb_assoc.
  Qed.

  Lemma val_inter2_spec : forall a b x,
    v_mem VI (val_intersection VI (ib_add (v_empty VI) (v_lt VI) b
                (ib_add (v_empty VI) (v_lt VI) a (false, [])))) x = v_mem VI a x && v_mem VI b x.
  Proof.
    intros a b x. unfold ib_add, val_intersection. cbn [fst snd].
    destruct (v_empty VI a) eqn:Ea; cbn [fst snd].
    - apply (vl_empty VL) with (x := x) in Ea. now rewrite (vl_default VL), Ea.
    - destruct (v_empty VI b) eqn:Eb; cbn [fst snd].
      + apply (vl_empty VL) with (x := x) in Eb. rewrite (vl_default VL), Eb. now rewrite andb_false_r.
      + cbn [fs_insert].
        destruct (v_lt VI b a) eqn:L1; [|destruct (v_lt VI a b) eqn:L2];
          rewrite val_inter_loop_spec; simpl; rewrite ?andb_true_r; auto.
        * apply andb_comm.
        * rewrite (st_total (vl_lt VL) _ _ L1 L2). now rewrite andb_diag.
  Qed.

  Notation noclash := (fun _ _ : elt VI => False).
  Lemma flat_ops_ok : forall h X, ops_ok VI h X (v_mem VI) noclash (flat_ops VI PF) (fun _ => True).
  Proof.
    intros h X. split; simpl.
    - auto.
    - auto.
    - apply (vl_lt VL).
    - apply (vl_eqb VL).
    - intros a b _ _ H. now apply (vl_ext VL).
    - intros a _ E. now apply (vl_empty VL).
    - intros a _ E. now apply (v_nonempty VI VL).
    - intros l _ _. apply hoare_ret. split; auto. apply val_sum_spec.
    - intros a b _ _. apply hoare_ret. split; [auto|split; [apply val_inter2_spec|auto]].
    - intros a b _ _. apply hoare_ret. split; [auto|split; [apply (vl_diff VL)|auto]].
    - apply (pf_iter_flat PO).
  Qed.

  (** ** Nodes *)

  (** The assignments that can follow a value of a variable, and the values of a hierarchical variable. *)
  Definition u_flat (U : universe) (x : N) (k : elt VI) : universe.
  Proof.
    refine {| u_in := fun q => U (AVal x k q) |}.
    intros p q Hp Hq C. apply (u_free U _ _ Hp Hq). simpl. auto.
  Defined.
  Definition u_hier (U : universe) (x : N) (k : asg (elt VI)) : universe.
  Proof.
    refine {| u_in := fun q => U (ANest x k q) |}.
    intros p q Hp Hq C. apply (u_free U _ _ Hp Hq). simpl. auto.
  Defined.
  Definition u_nested (U : universe) (x : N) : universe.
  Proof.
    refine {| u_in := fun n => exists q, U (ANest x n q) |}.
    intros p q [p' Hp] [q' Hq] C. apply (u_free U _ _ Hp Hq). simpl. auto.
  Defined.

  Definition flat_mode (md : mode) (x : N) (k : elt VI) : mode := option_map (fun U => u_flat U x k) md.
  Definition hier_mode (md : mode) (x : N) (k : asg (elt VI)) : mode := option_map (fun U => u_hier U x k) md.
  Definition val_mode (md : mode) (x : N) : mode := option_map (fun U => u_nested U x) md.

  Lemma Ex_mode : forall md md', (md = None <-> md' = None) -> forall e, Ex md e <-> Ex md' e.
  Proof. intros md md' H [a b| | |]; simpl; tauto. Qed.

  Lemma flat_mode_None : forall md x k, flat_mode md x k = None <-> md = None.
  Proof. intros [] x k; simpl; split; congruence. Qed.
  Lemma hier_mode_None : forall md x k, hier_mode md x k = None <-> md = None.
  Proof. intros [] x k; simpl; split; congruence. Qed.
  Lemma val_mode_None : forall md x, val_mode md x = None <-> md = None.
  Proof. intros [] x; simpl; split; congruence. Qed.

  Lemma ops_ok_Ex : forall h (X Y : err V -> Prop) K W (mem : W -> K -> bool) cl ops GV, (forall e, X e -> Y e) ->
    ops_ok VI h X mem cl ops GV -> ops_ok VI h Y mem cl ops GV.
  Proof.
    intros h X Y K W mem cl ops GV HXY [].
    assert (W' : forall A (p : prog (ddop V) sdd (err V) A) Q, hoare h X p Q -> hoare h Y p Q).
    { intros A p Q. unfold hoare. intros H. eapply outcome_impl; eauto. }
    split; auto.
  Qed.

  Lemma flat_succ_ops : forall n h md x, h_ok n h -> forall k,
    ops_ok VI h (Ex md) contains aclash (hier_ops VI PF) (good n (flat_mode md x k)).
  Proof.
    intros n h md x HO k. eapply ops_ok_Ex; [|apply hier_ops_ok; auto].
    intros e. apply (proj1 (Ex_mode _ _ (flat_mode_None md x k) e)).
  Qed.
  Lemma hier_succ_ops : forall n h md x, h_ok n h -> forall k,
    ops_ok VI h (Ex md) contains aclash (hier_ops VI PF) (good n (hier_mode md x k)).
  Proof.
    intros n h md x HO k. eapply ops_ok_Ex; [|apply hier_ops_ok; auto].
    intros e. apply (proj1 (Ex_mode _ _ (hier_mode_None md x k) e)).
  Qed.
  Lemma val_ops : forall n h md x, h_ok n h ->
    ops_ok VI h (Ex md) contains aclash (hier_ops VI PF) (good n (val_mode md x)).
  Proof.
    intros n h md x HO. eapply ops_ok_Ex; [|apply hier_ops_ok; auto].
    intros e. apply (proj1 (Ex_mode _ _ (val_mode_None md x) e)).
  Qed.

  Lemma list_max_le_in : forall A (f : A -> nat) l n, list_max (map f l) <= n <->
    forall x, In x l -> f x <= n.
  Proof.
    intros A f l n. rewrite list_max_le, Forall_forall. split.
    - intros H x Hx. apply H. now apply in_map.
    - intros H y Hy. apply in_map_iff in Hy. destruct Hy as (x & <- & Hx). auto.
  Qed.

  Notation gsF n md x := (fun k => good n (flat_mode md x k)).
  Notation gsH n md x := (fun k => good n (hier_mode md x k)).
  Notation garcs_flat n md x := (good_arcs VI (v_mem VI) noclash (flat_ops VI PF) (fun _ => True) (gsF n md x)).
  Notation garcs_hier n md x := (good_arcs VI contains aclash (hier_ops VI PF) (good n (val_mode md x)) (gsH n md x)).

  Lemma contains_flat_in : forall x arcs v s k q, In (v, s) arcs -> v_mem VI v k = true -> contains s q = true ->
    @contains VI (Flat x arcs) (AVal x k q) = true.
  Proof. intros x arcs v s k q H1 H2 H3. rewrite contains_flat, N.eqb_refl. apply acontains_spec. eauto. Qed.
  Lemma contains_hier_in : forall x arcs v s k q, In (v, s) arcs -> @contains VI v k = true -> contains s q = true ->
    @contains VI (Hier x arcs) (ANest x k q) = true.
  Proof. intros x arcs v s k q H1 H2 H3. rewrite contains_hier, N.eqb_refl. apply acontains_spec. eauto. Qed.

  Lemma good_flat : forall n md x arcs, good (S n) md (Flat x arcs) -> garcs_flat n md x arcs.
  Proof.
    intros n md x arcs (HC & HH & HF & HW). inversion HC as [| |? ? Hne Hnz Hc HD HS|]; subst.
    split; [|exact HD|auto].
    intros v s Hin. destruct (Hnz _ _ Hin) as [H1 H2].
    split; [split; auto|split; [|auto]]. intros k Mk. split; [eauto|split; [|split]].
    - simpl in HH. apply le_S_n in HH. rewrite list_max_le_in in HH. exact (HH (v, s) Hin).
    - intros p q Hp Hq C. apply (HF (AVal x k p) (AVal x k q)).
      + apply (contains_flat_in x arcs v s); auto.
      + apply (contains_flat_in x arcs v s); auto.
      + simpl. auto.
    - destruct md as [U|]; simpl; auto. intros p Hp. apply HW. apply (contains_flat_in x arcs v s); auto.
  Qed.

  Lemma good_hier : forall n md x arcs, good (S n) md (Hier x arcs) -> garcs_hier n md x arcs.
  Proof.
    intros n md x arcs (HC & HH & HF & HW). inversion HC as [| | |? ? Hne Hnz Hcv Hc HD HS]; subst.
    assert (NE : forall v s, In (v, s) arcs -> exists q, contains s q = true).
    { intros v s Hin. destruct (Hnz _ _ Hin) as [H1 H2]. apply (canonical_nonempty VI VL lt); eauto. }
    assert (FR : forall v1 s1 v2 s2 k1 k2, In (v1, s1) arcs -> In (v2, s2) arcs ->
               contains v1 k1 = true -> contains v2 k2 = true -> ~ aclash k1 k2).
    { intros v1 s1 v2 s2 k1 k2 I1 I2 M1 M2 C. destruct (NE _ _ I1) as [q1 Q1]. destruct (NE _ _ I2) as [q2 Q2].
      apply (HF (ANest x k1 q1) (ANest x k2 q2)).
      - apply (contains_hier_in x arcs v1 s1); auto.
      - apply (contains_hier_in x arcs v2 s2); auto.
      - simpl. auto. }
    split; [|exact HD|exact FR].
    intros v s Hin. destruct (Hnz _ _ Hin) as [H1 H2].
    simpl in HH. apply le_S_n in HH. rewrite list_max_le_in in HH. specialize (HH (v, s) Hin).
    simpl in HH. split; [split; [|now apply is_zero_false]|split; [|auto]].
    - split; [eauto|split; [lia|split]].
      + intros p q Hp Hq. apply (FR v s v s); auto.
      + destruct md as [U|]; simpl; auto. intros p Hp. destruct (NE _ _ Hin) as [q Hq]. exists q. apply HW.
        apply (contains_hier_in x arcs v s); auto.
    - intros k Mk. split; [eauto|split; [lia|split]].
      + intros p q Hp Hq C. apply (HF (ANest x k p) (ANest x k q)).
        * apply (contains_hier_in x arcs v s); auto.
        * apply (contains_hier_in x arcs v s); auto.
        * simpl. auto.
      + destruct md as [U|]; simpl; auto. intros p Hp. apply HW. apply (contains_hier_in x arcs v s); auto.
  Qed.

  (** A node built from a good alpha is good. *)
  Lemma node_flat_good : forall n md var alpha,
    good_alpha VI PF (v_mem VI) noclash (flat_ops VI PF) (fun _ => True) (gsF n md var) alpha ->
    good (S n) md (create_node VI Flat var alpha) /\
    forall p, contains (create_node VI Flat var alpha) p = true <->
      exists k q, p = AVal var k q /\ acontains VI (v_mem VI) (map swap alpha) k q = true.
  Proof.
    intros n md var alpha [A1 A2 A3 A4].
    destruct alpha as [|e r].
    { simpl. split; [apply good_zero|]. intros p. split; [discriminate|].
      intros (k & q & _ & H). discriminate. }
    set (alpha := e :: r) in *.
    assert (E : create_node VI Flat var alpha = Flat var (map swap alpha)) by reflexivity.
    rewrite E. clear E.
    assert (Hin : forall v s, In (v, s) (map swap alpha) ->
              v_empty VI v = false /\ s <> Zero /\ forall k, v_mem VI v k = true -> good n (flat_mode md var k) s).
    { intros v s H. apply in_map_iff in H. destruct H as ([s0 v0] & E & H). injection E as -> ->.
      destruct (A2 _ _ H) as [[G1 G2] [_ G3]]. auto. }
    assert (Hin' : forall v s, In (v, s) (map swap alpha) -> exists k, v_mem VI v k = true /\ good n (flat_mode md var k) s).
    { intros v s H. destruct (Hin _ _ H) as (H1 & _ & H2). destruct (v_nonempty VI VL v H1) as [k Hk]. eauto. }
    assert (HM : forall p, contains (Flat var (map swap alpha)) p = true <->
      exists k q, p = AVal var k q /\ acontains VI (v_mem VI) (map swap alpha) k q = true).
    { intros p. destruct p as [|y k q|y k q].
      + split; [discriminate|]. intros (? & ? & ? & _); discriminate.
      + rewrite contains_flat, andb_true_iff, N.eqb_eq. split.
        * intros [<- H]. eauto.
        * intros (k' & q' & E & H). injection E as -> -> ->. auto.
      + split; [discriminate|]. intros (? & ? & ? & _); discriminate. }
    split; [|exact HM].
    split; [|split; [|split]].
    - constructor.
      + discriminate.
      + intros v s H. destruct (Hin _ _ H) as (? & ? & _). auto.
      + intros v s H. now destruct (Hin' _ _ H) as (k & _ & ? & _).
      + exact A3.
      + rewrite map_map. exact A1.
    - cbn [height]. apply le_n_S. apply list_max_le_in. intros [v s] H. now destruct (Hin' _ _ H) as (k & _ & _ & ? & _).
    - intros p q Hp Hq C. apply HM in Hp. apply HM in Hq.
      destruct Hp as (k & p' & -> & Hp). destruct Hq as (k' & q' & -> & Hq).
      simpl in C. destruct C as [C|[<- C]]; [congruence|].
      apply acontains_spec in Hp. apply acontains_spec in Hq.
      destruct Hp as (v & s & I1 & M1 & C1). destruct Hq as (v' & s' & I2 & M2 & C2).
      pose proof (adisjoint_unique VI (v_mem VI) _ A3 v s v' s' k I1 I2 M1 M2) as E. injection E as <- <-.
      destruct (Hin _ _ I1) as (_ & _ & G). destruct (G _ M1) as (_ & _ & HF & _). exact (HF p' q' C1 C2 C).
    - destruct md as [U|]; simpl; auto. intros p Hp. apply HM in Hp. destruct Hp as (k & q & -> & Hp).
      apply acontains_spec in Hp. destruct Hp as (v & s & I1 & M1 & C1).
      destruct (Hin _ _ I1) as (_ & _ & G). destruct (G _ M1) as (_ & _ & _ & HW). exact (HW q C1).
  Qed.

  Lemma node_hier_good : forall n md var alpha,
    good_alpha VI PF contains aclash (hier_ops VI PF) (good n (val_mode md var)) (gsH n md var) alpha ->
    good (S n) md (create_node VI Hier var alpha) /\
    forall p, contains (create_node VI Hier var alpha) p = true <->
      exists k q, p = ANest var k q /\ acontains VI contains (map swap alpha) k q = true.
  Proof.
    intros n md var alpha [A1 A2 A3 A4].
    destruct alpha as [|e r].
    { simpl. split; [apply good_zero|]. intros p. split; [discriminate|].
      intros (k & q & _ & H). discriminate. }
    set (alpha := e :: r) in *.
    assert (E : create_node VI Hier var alpha = Hier var (map swap alpha)) by reflexivity.
    rewrite E. clear E.
    assert (Hin : forall v s, In (v, s) (map swap alpha) ->
              v <> Zero /\ s <> Zero /\ good n (val_mode md var) v /\
              forall k, contains v k = true -> good n (hier_mode md var k) s).
    { intros v s H. apply in_map_iff in H. destruct H as ([s0 v0] & E & H). injection E as -> ->.
      destruct (A2 _ _ H) as [[G1 G2] [G4 G3]]. split; [|auto]. intros ->. discriminate. }
    assert (Hin' : forall v s, In (v, s) (map swap alpha) -> exists k, contains v k = true /\ good n (hier_mode md var k) s).
    { intros v s H. destruct (Hin _ _ H) as (H1 & _ & (H2 & _) & H3).
      destruct (canonical_nonempty VI VL lt v H2 H1) as [k Hk]. eauto. }
    assert (HM : forall p, contains (Hier var (map swap alpha)) p = true <->
      exists k q, p = ANest var k q /\ acontains VI contains (map swap alpha) k q = true).
    { intros p. destruct p as [|y k q|y k q].
      + split; [discriminate|]. intros (? & ? & ? & _); discriminate.
      + split; [discriminate|]. intros (? & ? & ? & _); discriminate.
      + rewrite contains_hier, andb_true_iff, N.eqb_eq. split.
        * intros [<- H]. eauto.
        * intros (k' & q' & E & H). injection E as -> -> ->. auto. }
    split; [|exact HM].
    split; [|split; [|split]].
    - constructor.
      + discriminate.
      + intros v s H. destruct (Hin _ _ H) as (? & ? & _). auto.
      + intros v s H. now destruct (Hin _ _ H) as (_ & _ & [? _] & _).
      + intros v s H. now destruct (Hin' _ _ H) as (k & _ & [? _]).
      + exact A3.
      + rewrite map_map. exact A1.
    - cbn [height]. apply le_n_S. apply list_max_le_in. intros [v s] H.
      destruct (Hin _ _ H) as (_ & _ & (_ & H1 & _) & _). destruct (Hin' _ _ H) as (k & _ & (_ & H2 & _)). simpl. lia.
    - intros p q Hp Hq C. apply HM in Hp. apply HM in Hq.
      destruct Hp as (k & p' & -> & Hp). destruct Hq as (k' & q' & -> & Hq).
      apply acontains_spec in Hp. apply acontains_spec in Hq.
      destruct Hp as (v & s & I1 & M1 & C1). destruct Hq as (v' & s' & I2 & M2 & C2).
      simpl in C. destruct C as [C|[C|[<- C]]]; [congruence| |].
      + apply in_map_iff in I1, I2. destruct I1 as ([s1 v1] & E1 & I1). destruct I2 as ([s2 v2] & E2 & I2).
        injection E1 as -> ->. injection E2 as -> ->. exact (A4 s v s' v' k k' I1 I2 M1 M2 C).
      + pose proof (adisjoint_unique VI contains _ A3 v s v' s' k I1 I2 M1 M2) as E. injection E as <- <-.
        destruct (Hin _ _ I1) as (_ & _ & _ & G). destruct (G _ M1) as (_ & _ & HF & _). exact (HF p' q' C1 C2 C).
    - destruct md as [U|]; simpl; auto. intros p Hp. apply HM in Hp. destruct Hp as (k & q & -> & Hp).
      apply acontains_spec in Hp. destruct Hp as (v & s & I1 & M1 & C1).
      destruct (Hin _ _ I1) as (_ & _ & _ & G). destruct (G _ M1) as (_ & _ & _ & HW). exact (HW q C1).
  Qed.

  (** ** check_compatibility *)

  Lemma compat_flat : forall n h md x arcs y,
    good (S n) md (Flat x arcs) -> good (S n) md y -> y <> Zero ->
    hoare h (Ex md) (check_compatibility VI (Flat x arcs) y)
      (fun _ => exists arcs', cast_flat VI y = Some (x, arcs') /\ garcs_flat n md x arcs').
  Proof.
    intros n h md x arcs y Ga Gb Hz.
    pose proof (ex_incompatible _ _ _ _ Ga Gb) as HE.
    destruct y as [| |y arcs'|y arcs']; simpl; try congruence.
    - apply hoare_throw. apply HE. exact I.
    - destruct (N.eqb x y) eqn:E.
      + apply N.eqb_eq in E. subst y. apply hoare_ret. exists arcs'. split; auto.
        eapply good_flat; eauto.
      + apply N.eqb_neq in E. apply hoare_throw. apply HE. exact E.
    - apply hoare_throw. apply HE. exact I.
  Qed.

  Lemma compat_hier : forall n h md x arcs y,
    good (S n) md (Hier x arcs) -> good (S n) md y -> y <> Zero ->
    hoare h (Ex md) (check_compatibility VI (Hier x arcs) y)
      (fun _ => exists arcs', cast_hier VI y = Some (x, arcs') /\ garcs_hier n md x arcs').
  Proof.
    intros n h md x arcs y Ga Gb Hz.
    pose proof (ex_incompatible _ _ _ _ Ga Gb) as HE.
    destruct y as [| |y arcs'|y arcs']; simpl; try congruence.
    - apply hoare_throw. apply HE. exact I.
    - apply hoare_throw. apply HE. exact I.
    - destruct (N.eqb x y) eqn:E.
      + apply N.eqb_eq in E. subst y. apply hoare_ret. exists arcs'. split; auto.
        eapply good_hier; eauto.
      + apply N.eqb_neq in E. apply hoare_throw. apply HE. exact E.
  Qed.

  (** Two distinct non-empty SDDs, one of which is |1|. *)
  Lemma one_incompatible : forall n md b, good n md One -> good n md b -> b <> Zero -> b <> One ->
    Ex md (ETop One b) /\ Ex md (ETop b One).
  Proof.
    intros n md b G1 G2 Hz Ho. split; eapply ex_incompatible; eauto; destruct b; simpl; congruence || exact I.
  Qed.

  (** Membership in a family of flat nodes with the same variable. *)
  Lemma asel_flat : forall var x k q,
    asel VI (v_mem VI) (cast_flat VI) var x k q = contains x (AVal var k q).
  Proof. intros var [] k q; simpl; auto. Qed.
  Lemma asel_hier : forall var x k q,
    asel VI contains (cast_hier VI) var x k q = contains x (ANest var k q).
  Proof. intros var [] k q; simpl; auto. Qed.

  Lemma cast_flat_inv : forall x var arcs, cast_flat VI x = Some (var, arcs) -> x = Flat var arcs.
  Proof. intros x var arcs E. destruct x; simpl in E; try discriminate. congruence. Qed.
  Lemma cast_hier_inv : forall x var arcs, cast_hier VI x = Some (var, arcs) -> x = Hier var arcs.
  Proof. intros x var arcs E. destruct x; simpl in E; try discriminate. congruence. Qed.

  Lemma contains_flat_inv : forall x arcs p, @contains VI (Flat x arcs) p = true ->
    exists k q, p = AVal x k q.
  Proof.
    intros x arcs [|y k q|y k q] H; try discriminate.
    rewrite contains_flat in H. apply andb_prop in H. destruct H as [H _].
    apply N.eqb_eq in H. subst y. eauto.
  Qed.
  Lemma contains_hier_inv : forall x arcs p, @contains VI (Hier x arcs) p = true ->
    exists k q, p = ANest x k q.
  Proof.
    intros x arcs [|y k q|y k q] H; try discriminate.
    rewrite contains_hier in H. apply andb_prop in H. destruct H as [H _].
    apply N.eqb_eq in H. subst y. eauto.
  Qed.

  (** Two nodes whose arcs agree. *)
  Lemma agree_flat : forall x la ra, arcs_agree VI (v_mem VI) noclash la ra -> @agree VI (Flat x la) (Flat x ra).
  Proof.
    intros x la ra H p q Hp Hq C.
    destruct (contains_flat_inv _ _ _ Hp) as (k & p' & ->). destruct (contains_flat_inv _ _ _ Hq) as (k' & q' & ->).
    simpl in C. destruct C as [C|[<- C]]; [congruence|].
    rewrite contains_flat, N.eqb_refl in Hp, Hq. apply acontains_spec in Hp, Hq.
    destruct Hp as (v & s & I1 & M1 & C1). destruct Hq as (v' & s' & I2 & M2 & C2).
    destruct (H v s v' s' I1 I2) as [_ A]. exact (A k M1 M2 p' q' C1 C2 C).
  Qed.
  Lemma agree_hier : forall x la ra, arcs_agree VI contains aclash la ra -> @agree VI (Hier x la) (Hier x ra).
  Proof.
    intros x la ra H p q Hp Hq C.
    destruct (contains_hier_inv _ _ _ Hp) as (k & p' & ->). destruct (contains_hier_inv _ _ _ Hq) as (k' & q' & ->).
    rewrite contains_hier, N.eqb_refl in Hp, Hq. apply acontains_spec in Hp, Hq.
    destruct Hp as (v & s & I1 & M1 & C1). destruct Hq as (v' & s' & I2 & M2 & C2).
    destruct (H v s v' s' I1 I2) as [A1 A2].
    simpl in C. destruct C as [C|[C|[<- C]]]; [congruence|exact (A1 k k' M1 M2 C)|].
    exact (A2 k M1 M2 p' q' C1 C2 C).
  Qed.

  Lemma sorted_two_ne : forall a b l, ssorted lt (a :: b :: l) -> a <> b.
  Proof.
    intros a b l H E. subst b. inversion H as [|? ? _ F]; subst. inversion F; subst.
    rewrite (st_irrefl (pf_lt PO)) in *. discriminate.
  Qed.

  (** ** The bodies of the cached operations *)

  Lemma sum_body_ok : forall n h md l, h_ok n h -> 2 <= length l -> ssorted lt l ->
    (forall x, In x l -> good (S n) md x /\ x <> Zero) ->
    hoare h (Ex md) (sum_body VI PF l)
      (fun r => good (S n) md r /\ forall p, contains r p = existsb (fun x => contains x p) l).
  Proof.
    intros n h md l HO Hlen HS HG.
    destruct l as [|a [|b l]]; simpl in Hlen; try lia.
    destruct (HG a (or_introl eq_refl)) as [Ga Za].
    destruct (HG b (or_intror (or_introl eq_refl))) as [Gb Zb].
    pose proof (sorted_two_ne _ _ _ HS) as Hab.
    destruct a as [| |x arcs|x arcs]; [congruence| | |].
    - simpl. apply hoare_throw. eapply one_incompatible; eauto.
    - (* flat *)
      set (L := b :: l) in *.
      assert (Hpost : hoare h (Ex md) (sum_body VI PF (Flat x arcs :: L)) (fun r =>
         node_post VI PF (v_mem VI) noclash (flat_ops VI PF) (fun _ => True) (gsF n md x) Flat x
           (fun k p => existsb (fun y => asel VI (v_mem VI) (cast_flat VI) x y k p) (Flat x arcs :: L)) r /\
         forall y, In y (Flat x arcs :: L) -> exists arcs, cast_flat VI y = Some (x, arcs))).
      { unfold sum_body, L. destruct (v_fast VI) eqn:EF.
        - apply (sum_work_fast_ok VI VL EF PF PO h (Ex md) (gsF n md x) (flat_succ_ops n h md x HO) x (Flat x arcs) arcs); auto.
          intros y Hy. destruct (HG _ Hy) as [Gy Zy]. apply (compat_flat n h md x arcs y); auto.
        - apply (sum_work_ok VI PF PO h (Ex md) (v_mem VI) noclash (flat_ops VI PF) (fun _ => True) (gsF n md x) (flat_ops_ok h (Ex md)) (flat_succ_ops n h md x HO)
                   (cast_flat VI) Flat x (Flat x arcs) arcs (b :: l)); auto.
          + eapply good_flat; eauto.
          + intros y Hy. destruct (HG y (or_intror Hy)) as [Gy Zy].
            apply (compat_flat n h md x arcs y); auto. }
      eapply hoare_conseq; [exact Hpost|].
      intros r ((alpha & A1 & -> & A2) & A3).
      destruct (node_flat_good n md x alpha A1) as [N1 N2].
      split; auto.
      intros p. apply bool_ext. rewrite N2, existsb_exists. split.
      + intros (k & q & -> & H). rewrite A2 in H. apply existsb_exists in H.
        destruct H as (y & Hy & H). rewrite asel_flat in H. exists y. split; auto.
      + intros (y & Hy & H). destruct (A3 _ Hy) as [arcs' E]. apply cast_flat_inv in E. subst y.
        destruct (contains_flat_inv _ _ _ H) as (k & q & ->). exists k, q. split; auto.
        rewrite A2. apply existsb_exists. exists (Flat x arcs'). split; [exact Hy|now rewrite asel_flat].
    - (* hierarchical *)
      set (L := b :: l) in *.
      assert (Hpost : hoare h (Ex md) (sum_body VI PF (Hier x arcs :: L)) (fun r =>
         node_post VI PF contains aclash (hier_ops VI PF) (good n (val_mode md x)) (gsH n md x) Hier x
           (fun k p => existsb (fun y => asel VI contains (cast_hier VI) x y k p) (Hier x arcs :: L)) r /\
         forall y, In y (Hier x arcs :: L) -> exists arcs, cast_hier VI y = Some (x, arcs))).
      { unfold sum_body, L.
        apply (sum_work_ok VI PF PO h (Ex md) contains aclash (hier_ops VI PF) (good n (val_mode md x)) (gsH n md x) (val_ops n h md x HO) (hier_succ_ops n h md x HO)
                   (cast_hier VI) Hier x (Hier x arcs) arcs (b :: l)); auto.
          + eapply good_hier; eauto.
          + intros y Hy. destruct (HG y (or_intror Hy)) as [Gy Zy].
            apply (compat_hier n h md x arcs y); auto. }
      eapply hoare_conseq; [exact Hpost|].
      intros r ((alpha & A1 & -> & A2) & A3).
      destruct (node_hier_good n md x alpha A1) as [N1 N2].
      split; auto.
      intros p. apply bool_ext. rewrite N2, existsb_exists. split.
      + intros (k & q & -> & H). rewrite A2 in H. apply existsb_exists in H.
        destruct H as (y & Hy & H). rewrite asel_hier in H. exists y. split; auto.
      + intros (y & Hy & H). destruct (A3 _ Hy) as [arcs' E]. apply cast_hier_inv in E. subst y.
        destruct (contains_hier_inv _ _ _ H) as (k & q & ->). exists k, q. split; auto.
        rewrite A2. apply existsb_exists. exists (Hier x arcs'). split; [exact Hy|now rewrite asel_hier].
  Qed.

  (** A good node is its own node_post. *)
  Lemma map_swap_swap : forall A B (l : list (A * B)), map swap (map swap l) = l.
  Proof. intros A B l. rewrite map_map. rewrite <- (map_id l) at 2. apply map_ext. now intros []. Qed.

  Lemma node_post_flat : forall n md x arcs, good (S n) md (Flat x arcs) ->
    node_post VI PF (v_mem VI) noclash (flat_ops VI PF) (fun _ => True) (gsF n md x) Flat x
      (fun k p => acontains VI (v_mem VI) arcs k p) (Flat x arcs).
  Proof.
    intros n md x arcs G. exists (map swap arcs). pose proof (good_flat _ _ _ _ G) as [G1 G2 G3].
    destruct G as (HC & _ & _). inversion HC as [| |? ? Hne Hnz Hc HD HS|]; subst.
    split; [|split].
    - split.
      + unfold ksorted. rewrite map_map. exact HS.
      + intros s v H. apply in_map_iff in H. destruct H as ([v0 s0] & E & H). injection E as -> ->.
        destruct (G1 _ _ H); auto.
      + rewrite map_swap_swap. exact HD.
      + auto.
    - destruct arcs as [|e r]; [congruence|].
      cbn [map create_node]. f_equal. symmetry. exact (map_swap_swap _ _ (e :: r)).
    - intros k p. now rewrite map_swap_swap.
  Qed.

  Lemma node_post_hier : forall n md x arcs, good (S n) md (Hier x arcs) ->
    node_post VI PF contains aclash (hier_ops VI PF) (good n (val_mode md x)) (gsH n md x) Hier x
      (fun k p => acontains VI contains arcs k p) (Hier x arcs).
  Proof.
    intros n md x arcs G. exists (map swap arcs). pose proof (good_hier _ _ _ _ G) as [G1 G2 G3].
    destruct G as (HC & _ & _). inversion HC as [| | |? ? Hne Hnz Hcv Hc HD HS]; subst.
    split; [|split].
    - split.
      + unfold ksorted. rewrite map_map. exact HS.
      + intros s v H. apply in_map_iff in H. destruct H as ([v0 s0] & E & H). injection E as -> ->.
        destruct (G1 _ _ H); auto.
      + rewrite map_swap_swap. exact HD.
      + intros s1 v1 s2 v2 k1 k2 I1 I2. apply in_map_iff in I1, I2. destruct I1 as ([v1' s1'] & E1 & I1).
        destruct I2 as ([v2' s2'] & E2 & I2). injection E1 as -> ->. injection E2 as -> ->. eauto.
    - destruct arcs as [|e r]; [congruence|].
      cbn [map create_node]. f_equal. symmetry. exact (map_swap_swap _ _ (e :: r)).
    - intros k p. now rewrite map_swap_swap.
  Qed.

  Lemma inter_body_ok : forall n h md l, h_ok n h -> 2 <= length l -> (forall t, l <> One :: One :: t) ->
    (forall x, In x l -> good (S n) md x /\ x <> Zero) ->
    hoare h (Ex md) (inter_body VI PF l)
      (fun r => good (S n) md r /\ (forall p, contains r p = forallb (fun x => contains x p) l) /\
                forall a b t, l = a :: b :: t -> agree a b).
  Proof.
    intros n h md l HO Hlen HS HG.
    destruct l as [|a [|b l]]; simpl in Hlen; try lia.
    destruct (HG a (or_introl eq_refl)) as [Ga Za].
    destruct (HG b (or_intror (or_introl eq_refl))) as [Gb Zb].
    assert (Hab : One <> b \/ a <> One) by (destruct a; [right; discriminate|left; intros <-; now apply (HS l)|right; discriminate|right; discriminate]).
    destruct a as [| |x arcs|x arcs]; [congruence| | |].
    - simpl. apply hoare_throw. destruct Hab as [Hab|Hab]; [|congruence]. eapply one_incompatible; eauto.
    - assert (Hne : arcs <> []). { destruct Ga as (HC & _). now inversion HC. }
      unfold inter_body, inter_work. cbn [cast_flat].
      eapply hoare_conseq.
      + apply (inter_operands_ok VI PF PO h (Ex md) (v_mem VI) noclash (flat_ops VI PF) (fun _ => True) (gsF n md x) (flat_ops_ok h (Ex md)) (flat_succ_ops n h md x HO)
                 (cast_flat VI) Flat x) with (larcs := arcs); auto.
        * eapply good_flat; eauto.
        * now apply node_post_flat.
        * intros y r arcs' Hy Ec Hr (alpha & A1 & A2 & A3).
          destruct (HG y (or_intror Hy)) as [Gy Zy].
          destruct (node_flat_good n md x alpha A1) as [N1 N2].
          rewrite <- A2 in N1. apply cast_flat_inv in Ec. subst r.
          apply (compat_flat n h md x arcs' y); auto.
        * discriminate.
      + intros r [(alpha & A1 & -> & A2) (rarcs & Ec & AA)].
        destruct (node_flat_good n md x alpha A1) as [N1 N2].
        split; auto. split.
        2: { intros a0 b0 t0 E0. injection E0 as <- <- <-. apply cast_flat_inv in Ec. subst b. now apply agree_flat. }
        intros p. apply bool_ext. rewrite N2.
        change (forallb (fun y => contains y p) (Flat x arcs :: b :: l))
          with (contains (Flat x arcs) p && forallb (fun y => contains y p) (b :: l)).
        rewrite andb_true_iff. split.
        * intros (k & q & -> & H). rewrite A2 in H. apply andb_prop in H. destruct H as [H1 H2].
          split.
          -- rewrite contains_flat, N.eqb_refl. exact H1.
          -- rewrite forallb_forall in *. intros y Hy. rewrite <- asel_flat. auto.
        * intros [H1 H2]. destruct (contains_flat_inv _ _ _ H1) as (k & q & ->). exists k, q.
          split; auto. rewrite A2. rewrite contains_flat, N.eqb_refl in H1. simpl in H1. rewrite H1.
          rewrite andb_true_l. rewrite forallb_forall in *. intros y Hy. rewrite asel_flat. auto.
    - assert (Hne : arcs <> []). { destruct Ga as (HC & _). now inversion HC. }
      unfold inter_body, inter_work. cbn [cast_hier].
      eapply hoare_conseq.
      + apply (inter_operands_ok VI PF PO h (Ex md) contains aclash (hier_ops VI PF) (good n (val_mode md x)) (gsH n md x) (val_ops n h md x HO) (hier_succ_ops n h md x HO)
                 (cast_hier VI) Hier x) with (larcs := arcs); auto.
        * eapply good_hier; eauto.
        * now apply node_post_hier.
        * intros y r arcs' Hy Ec Hr (alpha & A1 & A2 & A3).
          destruct (HG y (or_intror Hy)) as [Gy Zy].
          destruct (node_hier_good n md x alpha A1) as [N1 N2].
          rewrite <- A2 in N1. apply cast_hier_inv in Ec. subst r.
          apply (compat_hier n h md x arcs' y); auto.
        * discriminate.
      + intros r [(alpha & A1 & -> & A2) (rarcs & Ec & AA)].
        destruct (node_hier_good n md x alpha A1) as [N1 N2].
        split; auto. split.
        2: { intros a0 b0 t0 E0. injection E0 as <- <- <-. apply cast_hier_inv in Ec. subst b. now apply agree_hier. }
        intros p. apply bool_ext. rewrite N2.
        change (forallb (fun y => contains y p) (Hier x arcs :: b :: l))
          with (contains (Hier x arcs) p && forallb (fun y => contains y p) (b :: l)).
        rewrite andb_true_iff. split.
        * intros (k & q & -> & H). rewrite A2 in H. apply andb_prop in H. destruct H as [H1 H2].
          split.
          -- rewrite contains_hier, N.eqb_refl. exact H1.
          -- rewrite forallb_forall in *. intros y Hy. rewrite <- asel_hier. auto.
        * intros [H1 H2]. destruct (contains_hier_inv _ _ _ H1) as (k & q & ->). exists k, q.
          split; auto. rewrite A2. rewrite contains_hier, N.eqb_refl in H1. simpl in H1. rewrite H1.
          rewrite andb_true_l. rewrite forallb_forall in *. intros y Hy. rewrite asel_hier. auto.
  Qed.

  Lemma diff_body_ok : forall n h md a b, h_ok n h ->
    good (S n) md a -> good (S n) md b -> a <> b -> a <> Zero -> b <> Zero ->
    hoare h (Ex md) (diff_body VI PF a b)
      (fun r => good (S n) md r /\ (forall p, contains r p = contains a p && negb (contains b p)) /\ agree a b).
  Proof.
    intros n h md a b HO Ga Gb Hab Za Zb.
    pose proof (ex_incompatible _ _ _ _ Ga Gb) as HE.
    destruct a as [| |x la|x la]; [congruence| | |];
      destruct b as [| |y ra|y ra]; try congruence; cbn [diff_body];
      try (apply hoare_throw; apply HE; exact I).
    - (* flat *)
      destruct (N.eqb x y) eqn:E.
      + apply N.eqb_eq in E. subst y. eapply hoare_conseq.
        * apply (diff_work_ok VI PF PO h (Ex md) (v_mem VI) noclash (flat_ops VI PF) (fun _ => True) (gsF n md x) (flat_ops_ok h (Ex md)) (flat_succ_ops n h md x HO) (cast_flat VI) Flat x la ra).
          -- eapply good_flat; eauto.
          -- eapply good_flat; eauto.
        * intros r [(alpha & A1 & -> & A2) AA].
          destruct (node_flat_good n md x alpha A1) as [N1 N2].
          split; [auto|split; [|now apply agree_flat]]. intros p. apply bool_ext. rewrite N2, andb_true_iff, negb_true_iff. split.
          -- intros (k & q & -> & H). rewrite A2 in H. apply andb_prop in H. destruct H as [H1 H2].
             apply negb_true_iff in H2. rewrite !contains_flat, N.eqb_refl. auto.
          -- intros [H1 H2]. destruct (contains_flat_inv _ _ _ H1) as (k & q & ->).
             exists k, q. split; auto. rewrite A2.
             rewrite contains_flat, N.eqb_refl, andb_true_l in H1.
             rewrite contains_flat, N.eqb_refl, andb_true_l in H2. now rewrite H1, H2.
      + unfold diff_work. rewrite E. simpl. apply hoare_throw.
        apply N.eqb_neq in E. apply HE. exact E.
    - destruct (N.eqb x y) eqn:E.
      + apply N.eqb_eq in E. subst y. eapply hoare_conseq.
        * apply (diff_work_ok VI PF PO h (Ex md) contains aclash (hier_ops VI PF) (good n (val_mode md x)) (gsH n md x) (val_ops n h md x HO) (hier_succ_ops n h md x HO) (cast_hier VI) Hier x la ra).
          -- eapply good_hier; eauto.
          -- eapply good_hier; eauto.
        * intros r [(alpha & A1 & -> & A2) AA].
          destruct (node_hier_good n md x alpha A1) as [N1 N2].
          split; [auto|split; [|now apply agree_hier]]. intros p. apply bool_ext. rewrite N2, andb_true_iff, negb_true_iff. split.
          -- intros (k & q & -> & H). rewrite A2 in H. apply andb_prop in H. destruct H as [H1 H2].
             apply negb_true_iff in H2. rewrite !contains_hier, N.eqb_refl. auto.
          -- intros [H1 H2]. destruct (contains_hier_inv _ _ _ H1) as (k & q & ->).
             exists k, q. split; auto. rewrite A2.
             rewrite contains_hier, N.eqb_refl, andb_true_l in H1.
             rewrite contains_hier, N.eqb_refl, andb_true_l in H2. now rewrite H1, H2.
      + unfold diff_work. rewrite E. simpl. apply hoare_throw.
        apply N.eqb_neq in E. apply HE. exact E.
  Qed.

  (** ** Evaluation *)

  Lemma height0 : forall n md x, good n md x -> n = 0 -> x <> Zero -> x = One.
  Proof.
    intros n md x (_ & H & _) -> Hz. destruct x; simpl in H; try congruence; lia.
  Qed.

  Lemma h_ok_0 : forall h, h_ok 0 h.
  Proof.
    intros h. split.
    - intros md l Hl HS HG. destruct l as [|a [|b l]]; simpl in Hl; try lia. exfalso.
      destruct (HG a) as [G1 Z1]; [now left|]. destruct (HG b) as [G2 Z2]; [right; now left|].
      apply (sorted_two_ne _ _ _ HS).
      rewrite (height0 _ _ _ G1 eq_refl Z1), (height0 _ _ _ G2 eq_refl Z2). reflexivity.
    - intros md l Hl HS HG. destruct l as [|a [|b l]]; simpl in Hl; try lia. exfalso.
      destruct (HG a) as [G1 Z1]; [now left|]. destruct (HG b) as [G2 Z2]; [right; now left|].
      apply (sorted_two_ne _ _ _ HS).
      rewrite (height0 _ _ _ G1 eq_refl Z1), (height0 _ _ _ G2 eq_refl Z2). reflexivity.
    - intros md a b G1 G2 Hne Z1 Z2. exfalso. apply Hne.
      rewrite (height0 _ _ _ G1 eq_refl Z1), (height0 _ _ _ G2 eq_refl Z2). reflexivity.
  Qed.

  (** One level of recursion. *)
  Lemma h_ok_S : forall n h, h_ok n h -> h_ok (S n) (fun op => interp h (dd_body VI PF op)).
  Proof.
    intros n h HO. split.
    - intros md l Hl HS HG. now apply sum_body_ok.
    - intros md l Hl HS HG. apply inter_body_ok; auto.
      intros t ->. exact (sorted_two_ne _ _ _ HS eq_refl).
    - intros md a b G1 G2 Hne Z1 Z2. now apply diff_body_ok.
  Qed.

  Lemma dd_eval_ok : forall n, h_ok n (dd_eval VI PF n).
  Proof.
    induction n as [|n IH]; [apply h_ok_0|].
    exact (h_ok_S n _ IH).
  Qed.

  Lemma fuel_height : forall l x, In x l -> height x <= fuel_of VI l.
  Proof.
    intros l x H. unfold fuel_of. apply le_S. revert x H. apply list_max_le_in. apply le_n.
  Qed.

  (** The result of a n-ary union. *)
  Lemma api_sum_ok : forall md l, (forall x, In x l -> canonical VI lt x /\ mode_ok md x) ->
    outcome (Ex md) (fun r => canonical VI lt r /\ mode_ok md r /\
      forall p, contains r p = existsb (fun x => contains x p) l) (api_sum VI PF l).
  Proof.
    intros md l HG. unfold api_sum, run.
    destruct (sb_fold l [] (SSorted_nil _)) as [H1 H2].
    set (r := fold_left _ _ _) in *.
    eapply outcome_impl; [|intros e He; exact He|].
    - apply (dd_sum_ok (fuel_of VI l) _ md r); [apply dd_eval_ok|exact H1|].
      intros x Hx. apply H2 in Hx. destruct Hx as [[]|[Hx Hz]].
      destruct (HG _ Hx) as [G1 G2]. split; auto. split; [auto|split; [now apply fuel_height|auto]].
    - intros x [(C & _ & F) Hx]. split; [auto|split; [auto|]].
      intros p. rewrite Hx. apply existsb_ext_eq. split.
      + intros (y & Hy & C'). apply H2 in Hy. destruct Hy as [[]|[Hy _]]. eauto.
      + intros (y & Hy & C'). exists y. split; auto. apply H2. right; split; auto.
        intros ->. discriminate.
  Qed.

  (** A n-ary union which returns has inspected all its operands. *)
  Lemma api_sum_agree : forall l r, (forall x, In x l -> canonical VI lt x /\ coherent x) ->
    api_sum VI PF l = Ok r -> forall x y, In x l -> In y l -> agree x y.
  Proof.
    intros l r HG E x y Hx Hy p q Hp Hq.
    pose proof (api_sum_ok None l) as H. rewrite E in H. simpl in H.
    destruct H as (_ & (HF & _) & HC).
    { intros z Hz. destruct (HG z Hz) as [H1 H2]. split; [auto|split; simpl; auto]. }
    apply HF; rewrite HC; apply existsb_exists; eauto.
  Qed.
  Lemma api_sum_compatible : forall l r, (forall x, In x l -> canonical VI lt x /\ coherent x) ->
    api_sum VI PF l = Ok r -> forall x y, In x l -> In y l -> ~ incompatible x y.
  Proof.
    intros l r HG E x y Hx Hy HI. destruct (HG x Hx) as [Cx _]. destruct (HG y Hy) as [Cy _].
    destruct (incompatible_clash x y Cx Cy HI) as (p & q & Hp & Hq & C).
    exact (api_sum_agree l r HG E x y Hx Hy p q Hp Hq C).
  Qed.

  Lemma api_intersection_ok : forall md l, l <> [] ->
    (forall x, In x l -> canonical VI lt x /\ mode_ok md x) ->
    outcome (Ex md) (fun r => canonical VI lt r /\ mode_ok md r /\
      forall p, contains r p = forallb (fun x => contains x p) l) (api_intersection VI PF l).
  Proof.
    intros md l Hne HG. unfold api_intersection, run.
    destruct (ib_fold l false []) as (I1 & _ & I3).
    set (r := fold_left _ _ _) in *.
    destruct (existsb (is_zero VI) l) eqn:EZ.
    - apply existsb_exists in EZ. destruct EZ as (z & Hz & E). apply is_zero_true in E. subst z.
      unfold dd_intersection. rewrite I3 by auto. simpl. split; [constructor|split].
      + split; [apply agree_zero|]. destruct md; simpl; auto. discriminate.
      + intros p. symmetry. apply not_true_is_false. rewrite forallb_forall. intros H.
        specialize (H _ Hz). discriminate.
    - assert (Hnz : forall x, In x l -> x <> Zero).
      { intros x Hx ->. assert (existsb (is_zero VI) l = true); [|congruence].
        apply existsb_exists. exists Zero; auto. }
      destruct (I1 eq_refl Hnz) as (J1 & J2 & J3).
      destruct r as [z r]. cbn [fst snd] in *. subst z.
      eapply outcome_impl; [|intros e He; exact He|].
      + apply (dd_inter_ok (fuel_of VI l) _ md r); [apply dd_eval_ok| | |].
        * apply J2. constructor.
        * intros ->. destruct l as [|a l]; [congruence|]. apply (J3 a). right; now left.
        * intros x Hx. apply J3 in Hx. destruct Hx as [[]|Hx]. destruct (HG _ Hx) as [G1 G2].
          split; auto. split; [auto|split; [now apply fuel_height|auto]].
      + intros x ((C & _ & F) & Hx & _). split; [auto|split; [auto|]].
        intros p. rewrite Hx. apply bool_ext. rewrite !forallb_forall. split.
        * intros H y Hy. apply H. apply J3; auto.
        * intros H y Hy. apply J3 in Hy. destruct Hy as [[]|Hy]; auto.
  Qed.

  Lemma api_minus_ok : forall md a b,
    canonical VI lt a -> canonical VI lt b -> mode_ok md a -> mode_ok md b ->
    outcome (Ex md) (fun r => canonical VI lt r /\ mode_ok md r /\
      (forall p, contains r p = contains a p && negb (contains b p)) /\ agree a b) (api_minus VI PF a b).
  Proof.
    intros md a b Ca Cb Fa Fb. unfold api_minus, run.
    eapply outcome_impl; [|intros e He; exact He|].
    - apply (dd_diff_ok (fuel_of VI [a; b]) _ md a b); [apply dd_eval_ok| |].
      + split; [auto|split; [apply fuel_height; simpl; auto|auto]].
      + split; [auto|split; [apply fuel_height; simpl; auto|auto]].
    - intros x ((C & _ & F) & Hx & A). auto.
  Qed.
  (** The intersection of two operands which returns has compared all their assignments. *)
  Lemma api_intersection_agree : forall a b r,
    canonical VI lt a -> canonical VI lt b -> coherent a -> coherent b ->
    api_intersection VI PF [a; b] = Ok r -> agree a b.
  Proof.
    intros a b r Ca Cb Fa Fb E. unfold api_intersection, run in E.
    pose proof (inter2_ok (fuel_of VI [a; b]) (dd_eval VI PF (fuel_of VI [a; b])) None a b (dd_eval_ok _)) as H.
    unfold hoare in H. change (vo_inter (hier_ops VI PF) a b) with
      (dd_intersection VI (fold_left (fun b x => sdd_ib_add VI PF x b) [a; b] (false, []))) in H.
    rewrite E in H. apply H.
    - split; [auto|split; [apply fuel_height; simpl; auto|split; simpl; auto]].
    - split; [auto|split; [apply fuel_height; simpl; auto|split; simpl; auto]].
  Qed.

  (** ** Shapes *)

  (** The assignments of a shape. *)
  Fixpoint shape_asg (sh : shape) (p : asg (elt VI)) : Prop :=
    match sh, p with
    | SEnd, ANil => True
    | SFlat x r, AVal y _ q => x = y /\ shape_asg r q
    | SHier x n r, ANest y m q => x = y /\ shape_asg n m /\ shape_asg r q
    | _, _ => False
    end.

  Lemma shape_free : forall sh p q, shape_asg sh p -> shape_asg sh q -> ~ aclash p q.
  Proof.
    induction sh as [|x r IH|x n IHn r IH]; intros [|y a p|y a p] [|z b q|z b q]; simpl; try tauto.
    - intros [<- H1] [<- H2] [C|[<- C]]; [congruence|]. exact (IH _ _ H1 H2 C).
    - intros (<- & H1 & H2) (<- & H3 & H4) [C|[C|[<- C]]]; [congruence| |].
      + exact (IHn _ _ H1 H3 C).
      + exact (IH _ _ H2 H4 C).
  Qed.

  Definition shape_universe (sh : shape) : universe := {| u_in := shape_asg sh; u_free := shape_free sh |}.

  Lemma follows_asg : forall sh x, follows sh x -> forall p, @contains VI x p = true -> shape_asg sh p.
  Proof.
    intros sh x H. induction H as [sh| |x rest arcs H IH|x nested rest arcs H1 IH1 H2 IH2]; intros p Hp.
    - discriminate.
    - destruct p; try discriminate. exact I.
    - destruct (contains_flat_inv _ _ _ Hp) as (k & q & ->). rewrite contains_flat, N.eqb_refl in Hp.
      apply acontains_spec in Hp. destruct Hp as (v & s & Hin & M & C). split; [reflexivity|eauto].
    - destruct (contains_hier_inv _ _ _ Hp) as (k & q & ->). rewrite contains_hier, N.eqb_refl in Hp.
      apply acontains_spec in Hp. destruct Hp as (v & s & Hin & M & C). split; [reflexivity|split; eauto].
  Qed.

  Lemma asg_follows : forall x, canonical VI lt x -> forall sh,
    (forall p, @contains VI x p = true -> shape_asg sh p) -> follows sh x.
  Proof.
    intros x HC.
    induction HC as [| |x arcs Hne Hnz Hc IHc HD HS|x arcs Hne Hnz Hcv IHv Hc IHc HD HS];
      intros sh HA.
    - constructor.
    - specialize (HA ANil eq_refl). destruct sh; simpl in HA; try contradiction. constructor.
    - assert (E : exists r, sh = SFlat x r).
      { destruct arcs as [|[v s] arcs]; [congruence|]. destruct (Hnz v s (or_introl eq_refl)) as [N1 N2].
        destruct (v_nonempty VI VL v N1) as [k Hk].
        destruct (canonical_nonempty VI VL lt s (Hc v s (or_introl eq_refl)) N2) as [q Hq].
        specialize (HA (AVal x k q) (contains_flat_in x ((v, s) :: arcs) v s k q (or_introl eq_refl) Hk Hq)).
        destruct sh; simpl in HA; try contradiction. destruct HA as [-> _]. eauto. }
      destruct E as [r ->]. constructor. intros v s Hin. apply (IHc v s Hin). intros q Hq.
      destruct (Hnz v s Hin) as [N1 N2]. destruct (v_nonempty VI VL v N1) as [k Hk].
      exact (proj2 (HA (AVal x k q) (contains_flat_in _ _ _ _ _ _ Hin Hk Hq))).
    - assert (NE : forall v s, In (v, s) arcs -> (exists k, contains v k = true) /\ (exists q, contains s q = true)).
      { intros v s Hin. destruct (Hnz v s Hin) as [N1 N2].
        split; apply (canonical_nonempty VI VL lt); eauto. }
      assert (E : exists m r, sh = SHier x m r).
      { destruct arcs as [|[v s] arcs]; [congruence|]. destruct (NE v s (or_introl eq_refl)) as [[k Hk] [q Hq]].
        specialize (HA (ANest x k q) (contains_hier_in x ((v, s) :: arcs) v s k q (or_introl eq_refl) Hk Hq)).
        destruct sh; simpl in HA; try contradiction. destruct HA as (-> & _). eauto. }
      destruct E as (m & r & ->). constructor.
      + intros v s Hin. apply (IHv v s Hin). intros k Hk. destruct (NE v s Hin) as [_ [q Hq]].
        now destruct (HA (ANest x k q) (contains_hier_in _ _ _ _ _ _ Hin Hk Hq)) as (_ & ? & _).
      + intros v s Hin. apply (IHc v s Hin). intros q Hq. destruct (NE v s Hin) as [[k Hk] _].
        now destruct (HA (ANest x k q) (contains_hier_in _ _ _ _ _ _ Hin Hk Hq)) as (_ & _ & ?).
  Qed.

  Lemma follows_mode_ok : forall sh x, follows sh x -> mode_ok (Some (shape_universe sh)) x.
  Proof.
    intros sh x H. split.
    - intros p q Hp Hq. apply (shape_free sh); eapply follows_asg; eauto.
    - exact (follows_asg sh x H).
  Qed.
  Lemma follows_coherent : forall sh x, @follows VI sh x -> coherent x.
  Proof. intros sh x H. apply (follows_mode_ok sh x H). Qed.
  Lemma mode_ok_follows : forall sh x, canonical VI lt x -> mode_ok (Some (shape_universe sh)) x -> follows sh x.
  Proof. intros sh x HC [_ H]. now apply asg_follows. Qed.

  Lemma follows_flat_mode : forall x r k s, follows r s ->
    mode_ok (flat_mode (Some (shape_universe (SFlat x r))) x k) s.
  Proof.
    intros x r k s H. split; [now apply (follows_coherent r)|]. intros q Hq. split; [reflexivity|].
    exact (follows_asg r s H q Hq).
  Qed.
  Lemma follows_hier_mode : forall x n r v k s, follows n v -> contains v k = true -> follows r s ->
    mode_ok (hier_mode (Some (shape_universe (SHier x n r))) x k) s.
  Proof.
    intros x n r v k s Hv Hk H. split; [now apply (follows_coherent r)|]. intros q Hq. split; [reflexivity|].
    split; [exact (follows_asg n v Hv k Hk)|exact (follows_asg r s H q Hq)].
  Qed.
  Lemma follows_val_mode : forall x n r v s, follows n v -> follows r s -> (exists q, @contains VI s q = true) ->
    mode_ok (val_mode (Some (shape_universe (SHier x n r))) x) v.
  Proof.
    intros x n r v s Hv H [q Hq]. split; [now apply (follows_coherent n)|]. intros k Hk. exists q. split; [reflexivity|].
    split; [exact (follows_asg n v Hv k Hk)|exact (follows_asg r s H q Hq)].
  Qed.

  Lemma api_sum_follows : forall sh l, (forall x, In x l -> canonical VI lt x /\ follows sh x) ->
    exists r, api_sum VI PF l = Ok r /\ canonical VI lt r /\ follows sh r /\
      forall p, contains r p = existsb (fun x => contains x p) l.
  Proof.
    intros sh l H. pose proof (api_sum_ok (Some (shape_universe sh)) l) as K.
    destruct (api_sum VI PF l) as [r|e]; simpl in K.
    - destruct K as (K1 & K2 & K3).
      { intros x Hx. destruct (H x Hx). split; [auto|now apply follows_mode_ok]. }
      exists r. split; [auto|split; [auto|split; [now apply mode_ok_follows|auto]]].
    - exfalso. destruct e; simpl in K; try (destruct K as [K _]; [|discriminate]); try apply K;
        intros x Hx; destruct (H x Hx); (split; [auto|now apply follows_mode_ok]).
  Qed.
  Lemma api_intersection_follows : forall sh l, l <> [] -> (forall x, In x l -> canonical VI lt x /\ follows sh x) ->
    exists r, api_intersection VI PF l = Ok r /\ canonical VI lt r /\ follows sh r /\
      forall p, contains r p = forallb (fun x => contains x p) l.
  Proof.
    intros sh l HN H. pose proof (api_intersection_ok (Some (shape_universe sh)) l HN) as K.
    destruct (api_intersection VI PF l) as [r|e]; simpl in K.
    - destruct K as (K1 & K2 & K3).
      { intros x Hx. destruct (H x Hx). split; [auto|now apply follows_mode_ok]. }
      exists r. split; [auto|split; [auto|split; [now apply mode_ok_follows|auto]]].
    - exfalso. destruct e; simpl in K; try (destruct K as [K _]; [|discriminate]); try apply K;
        intros x Hx; destruct (H x Hx); (split; [auto|now apply follows_mode_ok]).
  Qed.
  Lemma api_minus_follows : forall sh a b, canonical VI lt a -> canonical VI lt b -> follows sh a -> follows sh b ->
    exists r, api_minus VI PF a b = Ok r /\ canonical VI lt r /\ follows sh r /\
      forall p, contains r p = contains a p && negb (contains b p).
  Proof.
    intros sh a b Ca Cb Fa Fb. pose proof (api_minus_ok (Some (shape_universe sh)) a b Ca Cb) as K.
    specialize (K (follows_mode_ok _ _ Fa) (follows_mode_ok _ _ Fb)).
    destruct (api_minus VI PF a b) as [r|e]; simpl in K.
    - destruct K as (K1 & K2 & K3 & _). exists r. split; [auto|split; [auto|split; [now apply mode_ok_follows|auto]]].
    - exfalso. destruct e; simpl in K; try (destruct K as [K _]; discriminate); exact K.
  Qed.
End Proofs.
