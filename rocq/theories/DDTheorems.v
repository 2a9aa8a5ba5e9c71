(** * Consequences of DDProofs.v, in the vocabulary of Spec.v *)

From Coq Require Import List Bool NArith Arith Lia Permutation Sorted.
From Verif Require Import Base SortedSets Values Sdd SddFacts DDModel DDGeneric DDProofs Spec.
Import ListNotations.

(** ** Two representations of one set are the same up to the order of arcs *)

Section Sim.
  Variable VI : values_impl.
  Variable VL : values_laws VI.
  Notation V := (vt VI).
  Notation sdd := (sdd V).
  Context {K W : Type}.
  Variable mem : W -> K -> bool.

  Definition same_succ (s t : sdd) : Prop := forall p, contains s p = contains t p.

  Lemma fop_app_remove : forall A (R : A -> A -> Prop) l1 x l2,
    ForallOrdPairs R (l1 ++ x :: l2) -> ForallOrdPairs R (l1 ++ l2).
  Proof.
    induction l1 as [|a l1 IH]; intros x l2 H; simpl in *.
    - now inversion H.
    - inversion H as [|? ? H1 H2]; subst. constructor; eauto.
      rewrite Forall_forall in *. intros y Hy. apply H1. apply in_app_iff in Hy.
      apply in_app_iff. simpl. tauto.
  Qed.

  Lemma fop_perm : forall A (R : A -> A -> Prop), (forall x y, R x y -> R y x) ->
    forall l m, Permutation l m -> ForallOrdPairs R l -> ForallOrdPairs R m.
  Proof.
    intros A R Hs l m HP. induction HP as [|x l m HP IH|x y l|l m n HP1 IH1 HP2 IH2]; intros H; auto.
    - inversion H; subst. constructor; auto. eapply Permutation_Forall; eauto.
    - inversion H as [|? ? H1 H2]; subst. inversion H2 as [|? ? H3 H4]; subst.
      inversion H1; subst. constructor; [constructor; auto|constructor; auto].
  Qed.

  Lemma alpha_sim : forall A B : list (W * sdd),
    (forall v s, In (v, s) A -> (exists k, mem v k = true) /\ (exists p, contains s p = true)) ->
    (forall v s, In (v, s) B -> (exists k, mem v k = true) /\ (exists p, contains s p = true)) ->
    adisjoint VI mem A -> adisjoint VI mem B ->
    ForallOrdPairs (fun a b => ~ same_succ (snd a) (snd b)) A ->
    ForallOrdPairs (fun a b => ~ same_succ (snd a) (snd b)) B ->
    (forall k p, acontains VI mem A k p = acontains VI mem B k p) ->
    exists B', Permutation B B' /\
      Forall2 (fun a b => (forall k, mem (fst a) k = mem (fst b) k) /\ same_succ (snd a) (snd b)) A B'.
  Proof.
    assert (SYM : forall a b : W * sdd, ~ same_succ (snd a) (snd b) -> ~ same_succ (snd b) (snd a)).
    { intros a b H H'. apply H. intros p. now rewrite H'. }
    induction A as [|[v s] A IH]; intros B HA HB DA DB SA SB HE.
    - destruct B as [|[w t] B].
      + exists []. split; auto.
      + exfalso. destruct (HB w t (or_introl eq_refl)) as [[k Hk] [p Hp]].
        specialize (HE k p). cbn in HE. now rewrite Hk, Hp in HE.
    - assert (HkA : forall v s k, In (v, s) ((v, s) :: A) -> mem v k = true -> True) by auto.
      (* every key of v belongs to one arc of B, with a successor equal to s *)
      assert (Hfind : forall v s k, In (v, s) ((v, s) :: A) -> mem v k = true -> True) by auto.
      clear HkA Hfind.
      assert (HinA : In (v, s) ((v, s) :: A)) by now left.
      assert (F1 : forall k, mem v k = true -> exists w t, In (w, t) B /\ mem w k = true /\ same_succ s t).
      { intros k Hk. destruct (HA _ _ HinA) as [_ [p Hp]].
        assert (E : acontains VI mem ((v, s) :: A) k p = true) by (apply acontains_spec; eauto).
        rewrite HE in E. apply acontains_spec in E. destruct E as (w & t & H1 & H2 & _).
        exists w, t. split; [auto|split; [auto|]]. intros q.
        rewrite <- (acontains_residual VI mem _ DA v s k HinA Hk q).
        rewrite <- (acontains_residual VI mem _ DB w t k H1 H2 q). apply HE. }
      destruct (HA _ _ HinA) as [[k0 Hk0] [p0 Hp0]].
      destruct (F1 k0 Hk0) as (w & t & Hw & Hwk & Hst).
      (* that arc has the same valuation *)
      assert (Hvw : forall k, mem v k = mem w k).
      { intros k. apply bool_ext. split; intros Hk.
        - destruct (F1 k Hk) as (w' & t' & H1 & H2 & H3).
          assert ((w', t') = (w, t)); [|congruence].
          destruct (ForallOrdPairs_In SB _ _ H1 Hw) as [E|[E|E]]; auto.
          + exfalso. apply E. intros p. simpl. now rewrite <- H3, <- Hst.
          + exfalso. apply E. intros p. simpl. now rewrite <- H3, <- Hst.
        - destruct (HB _ _ Hw) as [_ [p Hp]].
          assert (E : acontains VI mem B k p = true) by (apply acontains_spec; eauto).
          rewrite <- HE in E. apply acontains_spec in E. destruct E as (v' & s' & H1 & H2 & _).
          assert (Hs' : same_succ s' t).
          { intros q. rewrite <- (acontains_residual VI mem _ DA v' s' k H1 H2 q).
            rewrite <- (acontains_residual VI mem _ DB w t k Hw Hk q). apply HE. }
          assert ((v', s') = (v, s)); [|congruence].
          destruct (ForallOrdPairs_In SA _ _ H1 HinA) as [E|[E|E]]; auto.
          + exfalso. apply E. intros q. simpl. now rewrite Hs', Hst.
          + exfalso. apply E. intros q. simpl. now rewrite Hs', Hst. }
      apply in_split in Hw. destruct Hw as (B1 & B2 & ->).
      destruct (IH (B1 ++ B2)) as (B' & P1 & P2).
      + intros v' s' H. apply HA. now right.
      + intros v' s' H. apply HB. apply in_app_iff. apply in_app_iff in H. simpl. tauto.
      + inversion DA; auto.
      + eapply fop_app_remove; eauto.
      + inversion SA; auto.
      + eapply fop_app_remove; eauto.
      + intros k p.
        assert (EB : acontains VI mem (B1 ++ (w, t) :: B2) k p =
                     acontains VI mem ((w, t) :: (B1 ++ B2)) k p).
        { apply acontains_perm. apply Permutation_sym. apply Permutation_middle. }
        specialize (HE k p). rewrite EB in HE. clear EB.
        assert (DB' : adisjoint VI mem ((w, t) :: (B1 ++ B2))).
        { eapply fop_perm; [|apply Permutation_sym, Permutation_middle|exact DB].
          intros a b. apply disjoint_sym. }
        assert (X : forall arcs u r, adisjoint VI mem ((u, r) :: arcs) ->
                  acontains VI mem arcs k p =
                  if mem u k then false else acontains VI mem ((u, r) :: arcs) k p).
        { intros arcs u r HD. destruct (mem u k) eqn:Hu.
          - apply acontains_out. intros v' s' Hin. inversion HD as [|? ? H1 _]; subst.
            rewrite Forall_forall in H1. specialize (H1 _ Hin k Hu). simpl in H1.
            destruct (mem v' k); auto. exfalso. auto.
          - unfold acontains. simpl. now rewrite Hu. }
        rewrite (X A v s DA), (X (B1 ++ B2) w t DB'), Hvw, HE. reflexivity.
      + exists ((w, t) :: B'). split.
        * rewrite <- Permutation_middle. now constructor.
        * constructor; auto.
  Qed.
End Sim.

Section Canon2.
  Variable VI : values_impl.
  Variable VL : values_laws VI.
  Notation V := (vt VI).
  Notation sdd := (sdd V).
  Variables lt1 lt2 : sdd -> sdd -> bool.
  Hypothesis ST1 : strict_total lt1.
  Hypothesis ST2 : strict_total lt2.

  Lemma succ_differ : forall lt (W : Type) (arcs : list (W * sdd)), strict_total lt ->
    (forall v s, In (v, s) arcs -> canonical VI lt s) -> ssorted lt (map snd arcs) ->
    ForallOrdPairs (fun a b => ~ same_succ VI (snd a) (snd b)) arcs.
  Proof.
    intros lt W arcs ST HC HS. induction arcs as [|[v s] r IH]; [constructor|].
    simpl in HS. inversion HS as [|? ? H1 H2]; subst. constructor.
    - apply Forall_forall. intros [w t] Hin E. simpl in E.
      rewrite Forall_forall in H2. assert (L : lt s t = true).
      { apply H2. change t with (snd (w, t)). now apply in_map. }
      assert (s = t).
      { apply (canonicity VI VL lt ST); auto.
        - eapply HC; now left.
        - eapply HC; right; eauto. }
      subst t. rewrite (st_irrefl ST) in L. discriminate.
    - apply IH; auto. intros v' s' Hin. eapply HC; right; eauto.
  Qed.

  Lemma canonical_sim : forall x y, canonical VI lt1 x -> canonical VI lt2 y ->
    (forall p, contains x p = contains y p) -> sim x y.
  Proof.
    induction x as [| |x arcs IH|x arcs IH] using sdd_ind'; intros y Hx Hy Hsame.
    - assert (y = Zero) as ->; [|constructor].
      apply (canonical_zero_iff VI VL lt2); auto. intros p; rewrite <- Hsame; reflexivity.
    - assert (Hnil : contains y ANil = true) by (rewrite <- Hsame; reflexivity).
      destruct y; simpl in Hnil; try discriminate; constructor.
    - destruct (canonical_nonempty VI VL lt1 _ Hx) as [p Hp]; [discriminate|].
      assert (Hp' := Hp). rewrite Hsame in Hp'.
      destruct p as [|x0 a q|x0 n q]; try discriminate.
      destruct y as [| |y arcs'|y arcs']; try discriminate.
      rewrite contains_flat in *. apply andb_prop in Hp. apply andb_prop in Hp'.
      destruct Hp as [E1 _]. destruct Hp' as [E2 _].
      apply N.eqb_eq in E1. apply N.eqb_eq in E2. subst x0 y.
      inversion Hx as [| |? ? Hne Hnz Hc HD HS|]; subst.
      inversion Hy as [| |? ? Hne' Hnz' Hc' HD' HS'|]; subst.
      destruct (alpha_sim VI (v_mem VI) arcs arcs') as (B' & P1 & P2); auto.
      + intros v s Hin. split.
        * apply v_nonempty; auto. apply (Hnz _ _ Hin).
        * apply (canonical_nonempty VI VL lt1); eauto. apply (Hnz _ _ Hin).
      + intros v s Hin. split.
        * apply v_nonempty; auto. apply (Hnz' _ _ Hin).
        * apply (canonical_nonempty VI VL lt2); eauto. apply (Hnz' _ _ Hin).
      + apply (succ_differ lt1); auto.
      + apply (succ_differ lt2); auto.
      + intros k p. specialize (Hsame (AVal x k p)). rewrite !contains_flat, N.eqb_refl in Hsame.
        exact Hsame.
      + apply sim_flat with (B' := B'); auto.
        assert (HB : forall b, In b B' -> canonical VI lt2 (snd b)).
        { intros [w t] Hin. apply (Hc' w). eapply Permutation_in; [|exact Hin]. now apply Permutation_sym. }
        clear -P2 VL IH Hc HB. induction P2 as [|[v s] [w t] A B [H1 H2] P2 IHP]; constructor.
        * simpl in *. split.
          -- now apply (vl_ext VL).
          -- apply (IH v s); auto.
             ++ eapply Hc; now left.
             ++ apply (HB (w, t)). now left.
        * apply IHP.
          -- intros v' s' Hin. apply (IH v'). now right.
          -- intros v' s' Hin. apply (Hc v'). now right.
          -- intros b Hin. apply HB. now right.
    - destruct (canonical_nonempty VI VL lt1 _ Hx) as [p Hp]; [discriminate|].
      assert (Hp' := Hp). rewrite Hsame in Hp'.
      destruct p as [|x0 a q|x0 n q]; try discriminate.
      destruct y as [| |y arcs'|y arcs']; try discriminate.
      rewrite contains_hier in *. apply andb_prop in Hp. apply andb_prop in Hp'.
      destruct Hp as [E1 _]. destruct Hp' as [E2 _].
      apply N.eqb_eq in E1. apply N.eqb_eq in E2. subst x0 y.
      inversion Hx as [| | |? ? Hne Hnz Hcv Hc HD HS]; subst.
      inversion Hy as [| | |? ? Hne' Hnz' Hcv' Hc' HD' HS']; subst.
      destruct (alpha_sim VI contains arcs arcs') as (B' & P1 & P2); auto.
      + intros v s Hin. split.
        * apply (canonical_nonempty VI VL lt1); eauto. apply (Hnz _ _ Hin).
        * apply (canonical_nonempty VI VL lt1); eauto. apply (Hnz _ _ Hin).
      + intros v s Hin. split.
        * apply (canonical_nonempty VI VL lt2); eauto. apply (Hnz' _ _ Hin).
        * apply (canonical_nonempty VI VL lt2); eauto. apply (Hnz' _ _ Hin).
      + apply (succ_differ lt1); auto.
      + apply (succ_differ lt2); auto.
      + intros k p. specialize (Hsame (ANest x k p)). rewrite !contains_hier, N.eqb_refl in Hsame.
        exact Hsame.
      + apply sim_hier with (B' := B'); auto.
        assert (HB : forall b, In b B' -> canonical VI lt2 (fst b) /\ canonical VI lt2 (snd b)).
        { intros [w t] Hin. assert (In (w, t) arcs').
          { eapply Permutation_in; [|exact Hin]. now apply Permutation_sym. }
          split; [apply (Hcv' w t)|apply (Hc' w t)]; auto. }
        clear -P2 VL IH Hc Hcv HB. induction P2 as [|[v s] [w t] A B [H1 H2] P2 IHP]; constructor.
        * simpl in *. destruct (IH v s (or_introl eq_refl)) as [IH1 IH2].
          destruct (HB (w, t) (or_introl eq_refl)) as [HB1 HB2]. split.
          -- apply IH1; auto. eapply Hcv; now left.
          -- apply IH2; auto. eapply Hc; now left.
        * apply IHP.
          -- intros v' s' Hin. apply (IH v'). now right.
          -- intros v' s' Hin. apply (Hcv v' s'). now right.
          -- intros v' s' Hin. apply (Hc v' s'). now right.
          -- intros b Hin. apply HB. now right.
  Qed.
End Canon2.

(** Diagrams equal up to the order of arcs contain the same assignments. *)
Lemma sim_same_set : forall VI (x y : sdd (vt VI)), sim x y -> forall p, contains x p = contains y p.
Proof.
  intros VI. induction x as [| |x arcs IH|x arcs IH] using sdd_ind'; intros y H p;
    inversion H as [| |? ? B B' HP HF|? ? B B' HP HF]; subst; auto.
  - destruct p as [|z k q|z k q]; auto. rewrite !contains_flat. f_equal.
    rewrite (acontains_perm VI (v_mem VI) _ _ HP). clear H HP B.
    induction HF as [|[v s] [w t] A B [H1 H2] HF IHF]; auto.
    simpl in *. unfold acontains in *. simpl. rewrite H1. f_equal.
    + f_equal. apply (IH v s); auto.
    + apply IHF. intros v' s' Hin. apply (IH v'). now right.
  - destruct p as [|z k q|z k q]; auto. rewrite !contains_hier. f_equal.
    rewrite (acontains_perm VI contains _ _ HP). clear H HP B.
    induction HF as [|[v s] [w t] A B [H1 H2] HF IHF]; auto.
    simpl in *. unfold acontains in *. simpl. destruct (IH v s (or_introl eq_refl)) as [IH1 IH2].
    rewrite (IH1 w H1 k), (IH2 t H2 q). f_equal. apply IHF. intros v' s' Hin. apply (IH v'). now right.
Qed.

(** ** What built SDDs satisfy *)

Section Built.
  Variable VI : values_impl.
  Variable VL : values_laws VI.
  Variable PF : platform VI.
  Variable PO : platform_ok PF.
  Notation V := (vt VI).
  Notation sdd := (sdd V).
  Notation lt := (addr_lt PF).
  Notation canonical := (canonical VI lt).
  Notation built := (built VI PF).

  Lemma node_flat_canonical : forall x v s, canonical s -> canonical (node_flat VI PF x v s).
  Proof.
    intros x v s HC. unfold node_flat, create_node1.
    destruct (is_zero VI s) eqn:E1; simpl; [constructor|].
    destruct (v_empty VI v) eqn:E2; simpl; [constructor|].
    constructor.
    - discriminate.
    - intros v' s' [E|[]]. injection E as <- <-. split; auto. intros ->. discriminate.
    - intros v' s' [E|[]]. now injection E as <- <-.
    - repeat constructor.
    - repeat constructor.
  Qed.
  Lemma node_hier_canonical : forall x v s, canonical v -> canonical s -> canonical (node_hier VI PF x v s).
  Proof.
    intros x v s HV HC. unfold node_hier, create_node1.
    destruct (is_zero VI s) eqn:E1; simpl; [constructor|].
    destruct (is_zero VI v) eqn:E2; simpl; [constructor|].
    constructor.
    - discriminate.
    - intros v' s' [E|[]]. injection E as <- <-. split; intros ->; discriminate.
    - intros v' s' [E|[]]. now injection E as <- <-.
    - intros v' s' [E|[]]. now injection E as <- <-.
    - repeat constructor.
    - repeat constructor.
  Qed.

  Lemma node_flat_contains : forall x v s p, contains (node_flat VI PF x v s) p = true <->
    exists a q, p = AVal x a q /\ v_mem VI v a = true /\ contains s q = true.
  Proof.
    intros x v s p. unfold node_flat, create_node1.
    destruct (is_zero VI s) eqn:E1; simpl.
    { apply is_zero_true in E1. subst s. split; [discriminate|]. intros (a & q & _ & _ & H). discriminate. }
    destruct (v_empty VI v) eqn:E2; simpl.
    { split; [discriminate|]. intros (a & q & _ & H & _). apply (vl_empty VL) with (x := a) in E2. congruence. }
    destruct p as [|y a q|y a q].
    - split; [discriminate|]. intros (a & q & H & _). discriminate.
    - rewrite orb_false_r, !andb_true_iff, N.eqb_eq. split.
      + intros (<- & H1 & H2). eauto.
      + intros (b & r & E & H1 & H2). injection E as -> -> ->. auto.
    - split; [discriminate|]. intros (b & r & H & _). discriminate.
  Qed.
  Lemma node_hier_contains : forall x v s p, contains (node_hier VI PF x v s) p = true <->
    exists a q, p = ANest x a q /\ contains v a = true /\ contains s q = true.
  Proof.
    intros x v s p. unfold node_hier, create_node1.
    destruct (is_zero VI s) eqn:E1; simpl.
    { apply is_zero_true in E1. subst s. split; [discriminate|]. intros (a & q & _ & _ & H). discriminate. }
    destruct (is_zero VI v) eqn:E2; simpl.
    { apply is_zero_true in E2. subst v. split; [discriminate|]. intros (a & q & _ & H & _). discriminate. }
    destruct p as [|y a q|y a q].
    - split; [discriminate|]. intros (a & q & H & _). discriminate.
    - split; [discriminate|]. intros (b & r & H & _). discriminate.
    - rewrite orb_false_r, !andb_true_iff, N.eqb_eq. split.
      + intros (<- & H1 & H2). eauto.
      + intros (b & r & E & H1 & H2). injection E as -> -> ->. auto.
  Qed.
  Lemma node_flat_zero : forall x v s, node_flat VI PF x v s = Zero <-> v_empty VI v = true \/ s = Zero.
  Proof.
    intros x v s. unfold node_flat, create_node1. destruct (is_zero VI s) eqn:E1; simpl.
    - apply is_zero_true in E1. tauto.
    - destruct (v_empty VI v); simpl; [tauto|]. split; [discriminate|].
      intros [H|H]; [discriminate|]. subst. discriminate.
  Qed.
  Lemma node_hier_zero : forall x v s, node_hier VI PF x v s = Zero <-> v = Zero \/ s = Zero.
  Proof.
    intros x v s. unfold node_hier, create_node1. destruct (is_zero VI s) eqn:E1; simpl.
    - apply is_zero_true in E1. tauto.
    - destruct (is_zero VI v) eqn:E2; simpl; [apply is_zero_true in E2; tauto|]. split; [discriminate|].
      intros [H|H]; subst; discriminate.
  Qed.
  Lemma node_flat_follows : forall x v s sh, follows sh s -> follows (SFlat x sh) (node_flat VI PF x v s).
  Proof.
    intros x v s sh H. unfold node_flat, create_node1. destruct (is_zero VI s || v_empty VI v); simpl.
    - constructor.
    - constructor. intros v' s' [E|[]]. now injection E as <- <-.
  Qed.
  Lemma node_hier_follows : forall x v s n sh, follows n v -> follows sh s ->
    follows (SHier x n sh) (node_hier VI PF x v s).
  Proof.
    intros x v s n sh H1 H2. unfold node_hier, create_node1. destruct (is_zero VI s || is_zero VI v); simpl.
    - constructor.
    - constructor; intros v' s' [E|[]]; now injection E as <- <-.
  Qed.

  Lemma ok_of : forall (A : Type) (X : err V -> Prop) (Q : A -> Prop) r a,
    outcome X Q r -> r = Ok a -> Q a.
  Proof. intros A X Q r a H ->. exact H. Qed.
  Lemma err_of : forall (A : Type) (X : err V -> Prop) (Q : A -> Prop) r e,
    outcome X Q r -> r = Err e -> X e.
  Proof. intros A X Q r e H ->. exact H. Qed.
  Lemma ok_ex : forall U (Q : sdd -> Prop) r,
    outcome (Ex VI (Some U)) Q r -> exists a, r = Ok a /\ Q a.
  Proof. intros sh Q [a|e] H; [eauto|]. destruct e; simpl in H; destruct H; discriminate. Qed.

  Lemma node_flat_coherent : forall x v s, coherent s -> coherent (node_flat VI PF x v s).
  Proof.
    intros x v s H. unfold node_flat, create_node1. destruct (is_zero VI s || v_empty VI v); cbn [fst snd].
    - apply agree_zero.
    - apply agree_flat. intros lv ls rv rs [E1|[]] [E2|[]]. injection E1 as <- <-. injection E2 as <- <-.
      split; [auto|]. intros k _ _. exact H.
  Qed.
  Lemma node_hier_coherent : forall x v s, coherent v -> coherent s -> coherent (node_hier VI PF x v s).
  Proof.
    intros x v s Hv H. unfold node_hier, create_node1. destruct (is_zero VI s || is_zero VI v); cbn [fst snd].
    - apply agree_zero.
    - apply agree_hier. intros lv ls rv rs [E1|[]] [E2|[]]. injection E1 as <- <-. injection E2 as <- <-.
      split; [exact Hv|]. intros k _ _. exact H.
  Qed.

  Lemma built_ok : forall x, built x -> canonical x /\ mode_ok VI None x.
  Proof.
    intros x H. induction H as [| |x v s _ [IH IH']|x v s _ [IHv IHv'] _ [IH IH']|l r _ IH E|l r _ IH E|x y r _ [IHx IHx'] _ [IHy IHy'] E].
    - split; [constructor|split; [apply agree_zero|exact I]].
    - split; [constructor|split; [|exact I]]. intros p q Hp Hq. destruct p; try discriminate. destruct q; try discriminate.
      simpl. auto.
    - split; [now apply node_flat_canonical|split; [|exact I]]. apply node_flat_coherent. apply IH'.
    - split; [now apply node_hier_canonical|split; [|exact I]]. apply node_hier_coherent; [apply IHv'|apply IH'].
    - pose proof (api_sum_ok VI VL PF PO None l) as HO.
      destruct (ok_of _ _ _ _ _ (HO IH) E) as (H1 & H2 & _). auto.
    - destruct l as [|a l].
      + injection E as <-. split; [constructor|split; [apply agree_zero|exact I]].
      + assert (Hne : a :: l <> []) by discriminate.
        pose proof (api_intersection_ok VI VL PF PO None (a :: l) Hne) as HO.
        destruct (ok_of _ _ _ _ _ (HO IH) E) as (H1 & H2 & _). auto.
    - destruct (ok_of _ _ _ _ _ (api_minus_ok VI VL PF PO None x y IHx IHy IHx' IHy') E) as (H1 & H2 & _). auto.
  Qed.
  Lemma built_canonical : forall x, built x -> canonical x.
  Proof. intros x H. apply (built_ok x H). Qed.
  Lemma built_coherent : forall x, built x -> coherent x.
  Proof. intros x H. apply (built_ok x H). Qed.
  Lemma built_both : forall x, built x -> canonical x /\ coherent x.
  Proof. intros x H. split; [now apply built_canonical|now apply built_coherent]. Qed.

  Lemma sdd_eq_same : forall x y, built x -> built y ->
    (sdd_eqb VI PF x y = true <-> same_set x y).
  Proof.
    intros x y Hx Hy. rewrite (sdd_eqb_spec VI PF PO). split.
    - intros ->. unfold same_set. tauto.
    - intros H. apply (canonicity VI VL lt (pf_lt PO)); try apply built_canonical; auto.
      intros p. apply bool_ext. apply H.
  Qed.

  Lemma sum_spec : forall l r, (forall x, In x l -> built x) -> api_sum VI PF l = Ok r ->
    forall p, contains r p = true <-> exists x, In x l /\ contains x p = true.
  Proof.
    intros l r HB E p. pose proof (api_sum_ok VI VL PF PO None l) as HO.
    pose proof (ok_of _ _ _ _ _ (HO (fun x Hx => built_ok x (HB x Hx))) E) as (_ & _ & H).
    rewrite H. apply existsb_exists.
  Qed.
  Lemma inter_spec : forall l r, l <> [] -> (forall x, In x l -> built x) ->
    api_intersection VI PF l = Ok r ->
    forall p, contains r p = true <-> forall x, In x l -> contains x p = true.
  Proof.
    intros l r Hne HB E p. pose proof (api_intersection_ok VI VL PF PO None l Hne) as HO.
    pose proof (ok_of _ _ _ _ _ (HO (fun x Hx => built_ok x (HB x Hx))) E) as (_ & _ & H).
    rewrite H. apply forallb_forall.
  Qed.
  Lemma minus_spec : forall x y r, built x -> built y -> api_minus VI PF x y = Ok r ->
    forall p, contains r p = true <-> contains x p = true /\ contains y p = false.
  Proof.
    intros x y r Bx By E p.
    pose proof (ok_of _ _ _ _ _ (api_minus_ok VI VL PF PO None x y (built_canonical _ Bx)
      (built_canonical _ By) (proj2 (built_ok _ Bx)) (proj2 (built_ok _ By))) E) as (_ & _ & H & _).
    rewrite H, andb_true_iff, negb_true_iff. tauto.
  Qed.

  Lemma sum_total : forall sh l, (forall x, In x l -> built x /\ follows sh x) ->
    exists r, api_sum VI PF l = Ok r /\ follows sh r.
  Proof.
    intros sh l H. 
    destruct (api_sum_follows VI VL PF PO sh l (fun x Hx => conj (built_canonical x (proj1 (H x Hx))) (proj2 (H x Hx))))
      as (r & E & _ & F & _). eauto.
  Qed.
  Lemma inter_total : forall sh l, (forall x, In x l -> built x /\ follows sh x) ->
    exists r, api_intersection VI PF l = Ok r /\ follows sh r.
  Proof.
    intros sh l H. destruct l as [|a l].
    - exists Zero. split; [reflexivity|constructor].
    - assert (Hne : a :: l <> []) by discriminate.
      destruct (api_intersection_follows VI VL PF PO sh (a :: l) Hne
                  (fun x Hx => conj (built_canonical x (proj1 (H x Hx))) (proj2 (H x Hx))))
        as (r & E & _ & F & _). eauto.
  Qed.
  Lemma minus_total : forall sh x y, built x -> built y -> follows sh x -> follows sh y ->
    exists r, api_minus VI PF x y = Ok r /\ follows sh r.
  Proof.
    intros sh x y Bx By Fx Fy.
    destruct (api_minus_follows VI VL PF PO sh x y (built_canonical _ Bx)
      (built_canonical _ By) Fx Fy) as (r & E & _ & F & _). eauto.
  Qed.

  Lemma err_top : forall (e : err V), Ex VI None e -> exists a b, e = ETop a b /\ incompatible a b.
  Proof. intros [a b| | |] H; simpl in H; try contradiction. destruct H. eauto. Qed.

  Lemma sum_err : forall l e, (forall x, In x l -> built x) -> api_sum VI PF l = Err e ->
    exists a b, e = ETop a b /\ incompatible a b.
  Proof.
    intros l e HB E. pose proof (api_sum_ok VI VL PF PO None l) as HO. apply err_top.
    exact (err_of _ _ _ _ _ (HO (fun x Hx => built_ok x (HB x Hx))) E).
  Qed.
  Lemma inter_err : forall l e, (forall x, In x l -> built x) -> api_intersection VI PF l = Err e ->
    exists a b, e = ETop a b /\ incompatible a b.
  Proof.
    intros l e HB E. destruct l as [|a l]; [discriminate|].
    assert (Hne : a :: l <> []) by discriminate.
    pose proof (api_intersection_ok VI VL PF PO None (a :: l) Hne) as HO. apply err_top.
    exact (err_of _ _ _ _ _ (HO (fun x Hx => built_ok x (HB x Hx))) E).
  Qed.
  Lemma minus_err : forall x y e, built x -> built y -> api_minus VI PF x y = Err e ->
    exists a b, e = ETop a b /\ incompatible a b.
  Proof.
    intros x y e Bx By E. apply err_top.
    exact (err_of _ _ _ _ _ (api_minus_ok VI VL PF PO None x y (built_canonical _ Bx)
      (built_canonical _ By) (proj2 (built_ok _ Bx)) (proj2 (built_ok _ By))) E).
  Qed.

  Lemma incompatible_nz : forall x y : sdd, incompatible x y -> x <> Zero /\ y <> Zero /\ x <> y.
  Proof.
    intros x y H. split; [|split].
    - intros ->. destruct H.
    - intros ->. destruct x; destruct H.
    - intros <-. destruct x; simpl in H; auto.
  Qed.

  Lemma sum_incompatible : forall x y l, built x -> built y -> incompatible x y ->
    (forall z, In z l -> built z) -> In x l -> In y l ->
    exists a b, api_sum VI PF l = Err (ETop a b).
  Proof.
    intros x y l Bx By HI HB Hx Hy. destruct (api_sum VI PF l) as [r|e] eqn:E.
    - exfalso. apply (api_sum_compatible VI VL PF PO l r (fun z Hz => built_both z (HB z Hz)) E x y); auto.
    - destruct (sum_err l e HB E) as (a & b & -> & _). eauto.
  Qed.

  Lemma fs_insert_two : forall x y, x <> y -> x <> Zero -> y <> Zero ->
    exists a b, sdd_ib_add VI PF y (sdd_ib_add VI PF x (false, [])) = (false, [a; b]) /\
      ((a = x /\ b = y) \/ (a = y /\ b = x)).
  Proof.
    intros x y Hne Hx Hy. unfold sdd_ib_add, ib_add. cbn [fst snd].
    rewrite (is_zero_false VI x Hx). cbn [fst snd]. rewrite (is_zero_false VI y Hy). cbn [fs_insert].
    destruct (lt y x) eqn:E1; [eauto 10|]. destruct (lt x y) eqn:E2; [eauto 10|].
    exfalso. apply Hne. now apply (st_total (pf_lt PO)).
  Qed.

  Lemma check_incompatible : forall h a b k, incompatible a b ->
    exists c d, interp h (bind (check_compatibility VI a b) k) = Err (ETop (V := V) c d) (A := sdd).
  Proof.
    intros h a b k H. destruct a as [| |x a|x a], b as [| |y b|y b]; simpl in *; try contradiction; eauto.
    - destruct (N.eqb x y) eqn:E; simpl; eauto. apply N.eqb_eq in E. congruence.
    - destruct (N.eqb x y) eqn:E; simpl; eauto. apply N.eqb_eq in E. congruence.
  Qed.

  Lemma incompatible_sym : forall x y : sdd, incompatible x y -> incompatible y x.
  Proof. intros [] []; simpl; auto. Qed.

  Lemma and_incompatible : forall x y, incompatible x y ->
    exists a b, api_and VI PF x y = Err (ETop a b).
  Proof.
    intros x y H. destruct (incompatible_nz _ _ H) as (Zx & Zy & Hne).
    unfold api_and, api_intersection, run. cbn [fold_left].
    destruct (fs_insert_two x y Hne Zx Zy) as (a & b & E & Hab). rewrite E.
    assert (HI : incompatible a b).
    { destruct Hab as [[-> ->]|[-> ->]]; auto using incompatible_sym. }
    cbn [dd_intersection snd]. unfold fuel_of. cbn [interp call dd_eval dd_body].
    set (h := dd_eval VI PF _).
    assert (HE : exists c d, interp h (inter_body VI PF [a; b]) = Err (ETop c d)).
    { destruct a as [| |xa la|xa la];
        unfold inter_body, inter_work; cbn [cast_flat cast_hier inter_operands].
      - destruct HI.
      - simpl. eauto.
      - apply check_incompatible. exact HI.
      - apply check_incompatible. exact HI. }
    destruct HE as (c & d & ->). eauto.
  Qed.

  Lemma minus_incompatible : forall x y, incompatible x y ->
    exists a b, api_minus VI PF x y = Err (ETop a b).
  Proof.
    intros x y H. destruct (incompatible_nz _ _ H) as (Zx & Zy & Hne).
    unfold api_minus, run, dd_difference.
    destruct (sdd_eqb VI PF x y) eqn:E; [apply (sdd_eqb_spec VI PF PO) in E; congruence|].
    rewrite (is_zero_false VI x Zx), (is_zero_false VI y Zy). cbn [orb].
    unfold fuel_of. cbn [interp call dd_eval dd_body]. set (h := dd_eval VI PF _).
    assert (HE : exists c d, interp h (diff_body VI PF x y) = Err (ETop c d)).
    { destruct x as [| |x la|x la], y as [| |y ra|y ra]; simpl in H; try contradiction;
        simpl diff_body; simpl interp; eauto.
      - unfold diff_work. apply N.eqb_neq in H. rewrite H. simpl. eauto.
      - unfold diff_work. apply N.eqb_neq in H. rewrite H. simpl. eauto. }
    destruct HE as (c & d & ->). eauto.
  Qed.

  (** Equality of results from equality of sets. *)
  Lemma built_ext : forall x y, built x -> built y ->
    (forall p, contains x p = true <-> contains y p = true) -> x = y.
  Proof.
    intros x y Bx By H. apply (canonicity VI VL lt (pf_lt PO)); try apply built_canonical; auto.
    intros p. now apply bool_ext.
  Qed.

  Lemma empty_iff : forall x, built x -> (is_zero VI x = true <-> forall p, contains x p = false).
  Proof.
    intros x Bx. rewrite <- (canonical_zero_iff VI VL lt x (built_canonical _ Bx)). split.
    - apply is_zero_true.
    - intros ->. reflexivity.
  Qed.

  (** ** More fuel never changes a result *)

  Lemma interp_mono : forall (h h' : ddop V -> res (err V) sdd) A (p : prog (ddop V) sdd (err V) A),
    (forall op, h op <> Err EFuel -> h' op = h op) -> interp h p <> Err EFuel -> interp h' p = interp h p.
  Proof.
    intros h h' A p Hh. induction p as [a|e|op k IH]; simpl; auto. intros H.
    rewrite Hh.
    - destruct (h op) as [r|e]; auto.
    - intros E. rewrite E in H. congruence.
  Qed.
  Lemma dd_eval_mono : forall n m op, n <= m -> dd_eval VI PF n op <> Err EFuel ->
    dd_eval VI PF m op = dd_eval VI PF n op.
  Proof.
    induction n as [|n IH]; intros m op Hle H; [simpl in H; congruence|].
    destruct m as [|m]; [lia|]. cbn [dd_eval] in *. apply interp_mono; auto.
    intros op' H'. apply IH; auto. lia.
  Qed.
End Built.
