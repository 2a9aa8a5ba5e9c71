(** * The example program examples/hanoi: theorems and examples (C71)

    [move] and [reachable] (HanoiProofs.v) are the rules of the game; [row c] (Rows.v) is the assignment of the
    variables of a flat order by [c]. *)

From Coq Require Import List Bool NArith Arith Lia Relations Permutation Cantor.
From Verif Require Import Base SortedSets Values Sdd SddFacts Orders OrdersProofs OrdersMore OrdersSdd DDModel Spec.
From Verif Require Import DDTheorems FlatSet Bitset Concrete Count CountProps Hom HomFacts HomEval HomConcrete HomInd Rows Hanoi HanoiProofs.
Import ListNotations.

Section HanoiProps.
  Variable plt : fset N.ltb -> fset N.ltb -> bool.
  Hypothesis SP : strict_total plt.
  Notation VI := (flat_set_values N.ltb Nltb_strict plt).
  Notation VL := (flat_set_laws N.ltb Nltb_strict plt SP).
  Variable PF : platform VI.
  Hypothesis PO : platform_ok PF.
  Variable HP : hplatform (fset N.ltb) N Empty_set hind.
  Hypothesis HPO : hplatform_ok HP.
  Notation hanoi_runs := (hanoi_runs plt PF HP).

  (** For all numbers of rings and of poles, the program ends, and it finds the configurations that the rules of the game
      allow, and no other. *)
  Theorem C71_ends n k : exists final printed, hanoi_runs n k final (Some printed).
  Proof.
    destruct (hanoi_main plt SP PF PO HP HPO n k) as (o & m0 & h & E & y & Ey & Fy & _).
    destruct (C14_size VI VL PF PO y (fits_built VI VL PF PO _ y Fy)) as (l & _ & _ & El).
    exists y, (N.of_nat (length l)), o, m0, h. auto.
  Qed.

  Lemma runs_main n k final printed : hanoi_runs n k final printed ->
    printed = size VI PF final /\ built VI PF final /\
    forall p, contains (VI := VI) final p = true <-> exists c, reachable n (N.of_nat k) c /\ p = row c.
  Proof.
    intros (o & m0 & h & E & Ey & Es). destruct (hanoi_main plt SP PF PO HP HPO n k) as (o' & m0' & h' & E' & y & Ey' & Fy & C).
    rewrite E in E'. injection E' as <- <- <-.
    assert (final = y) by exact (evals_fun VI PF _ _ _ _ _ _ _ _ _ Ey Ey'). subst y. split; [auto|].
    split; [exact (fits_built VI VL PF PO _ final Fy)|]. intros p. rewrite C. split; intros (c & X & Y); eauto.
  Qed.

  Theorem C71_states n k final printed : hanoi_runs n k final printed ->
    forall p, contains (VI := VI) final p = true <-> exists c, reachable n (N.of_nat k) c /\ p = row c.
  Proof. intros R. apply (runs_main n k final printed R). Qed.

  (** The number of states that it prints. *)
  Theorem C71_count n k final printed : hanoi_runs n k final printed ->
    printed = Some (N.of_nat (if 3 <=? k then k ^ n else if (k =? 2) && (0 <? n) then 2 else 1)).
  Proof.
    intros R. destruct (runs_main n k final printed R) as (-> & B & C).
    destruct (Nat.leb_spec 3 k) as [K|K].
    - rewrite (size_rows VI VL PF PO final (configs (map N.of_nat (seq 0 k)) n) B).
      + now rewrite configs_length, map_length, seq_length.
      + apply configs_nodup, poles_nodup.
      + intros p. rewrite C. split; intros (c & Hc & ->); exists c; (split; [|auto]).
        * apply reachable_all in Hc; [|lia]. destruct Hc as [L F]. apply configs_in. split; [auto|].
          intros a Ha. apply poles_in. rewrite Forall_forall in F. auto.
        * apply reachable_all; [lia|]. apply configs_in in Hc. destruct Hc as [L F]. split; [auto|].
          apply Forall_forall. intros a Ha. apply poles_in. auto.
    - destruct (Nat.eqb_spec k 2) as [->|D], (Nat.ltb_spec 0 n) as [Hn|Hn]; cbn [andb].
      + destruct n as [|n]; [lia|].
        apply (size_rows VI VL PF PO final [repeat 0%N n ++ [0%N]; repeat 0%N n ++ [1%N]] B).
        * constructor; [|repeat constructor; auto]. intros [X|[]]. apply app_inv_head in X. discriminate.
        * intros p. rewrite C. change (N.of_nat 2) with 2%N. split.
          -- intros (c & Hc & ->). apply reachable_two in Hc. exists c. split; [cbn; intuition|auto].
          -- intros (c & Hc & ->). exists c. split; [|auto]. apply reachable_two. cbn in Hc. intuition.
      + apply (size_rows VI VL PF PO final [repeat 0%N n] B); [repeat constructor; auto|].
        intros p. rewrite C. split; intros (c & Hc & ->); exists c; (split; [|auto]).
        * apply reachable_none in Hc; [cbn; auto|lia].
        * destruct Hc as [<-|[]]. apply reachable_none; [lia|auto].
      + apply (size_rows VI VL PF PO final [repeat 0%N n] B); [repeat constructor; auto|].
        intros p. rewrite C. split; intros (c & Hc & ->); exists c; (split; [|auto]).
        * apply reachable_none in Hc; [cbn; auto|lia].
        * destruct Hc as [<-|[]]. apply reachable_none; [lia|auto].
      + apply (size_rows VI VL PF PO final [repeat 0%N n] B); [repeat constructor; auto|].
        intros p. rewrite C. split; intros (c & Hc & ->); exists c; (split; [|auto]).
        * apply reachable_none in Hc; [cbn; auto|lia].
        * destruct Hc as [<-|[]]. apply reachable_none; [lia|auto].
  Qed.

  (** In particular the game can be won with three poles: all the rings can go to any other pole. *)
  Theorem C71_won n k d final printed : (3 <= k)%nat -> (d < N.of_nat k)%N -> hanoi_runs n k final printed ->
    contains (VI := VI) final (row (repeat d n)) = true.
  Proof.
    intros K Hd R. apply (C71_states n k final printed R). exists (repeat d n). split; [|auto].
    apply reachable_all; [lia|]. split; [apply repeat_length|]. clear - Hd. induction n; cbn; auto.
  Qed.
End HanoiProps.
Print Assumptions C71_ends.
Print Assumptions C71_states.
Print Assumptions C71_count.
Print Assumptions C71_won.

(** ** An order of the addresses of homomorphisms: the one of the example of HomConcrete.v *)

Definition oid_map (i : oid N) : oid nat := {| art := art i; usr := N.to_nat (usr i) |}.
Definition onode_map (n : onode N) : onode nat := {| n_id := oid_map (n_id n); n_var := n_var n; n_pos := n_pos n;
  n_next := n_next n; n_nested := n_nested n; n_path := n_path n |}.
Definition order_map (o : order N) : order nat := {| o_nodes := map (option_map onode_map) (o_nodes o);
  o_map := map (fun x => (oid_map (fst x), snd x)) (o_map o); o_head := o_head o |}.
Definition hind_map (i : hind) : exind :=
  match i with
  | NoRingAbove i j => 2 * to_nat (N.to_nat i, N.to_nat j)
  | SwapPole r s d => 2 * to_nat (N.to_nat r, to_nat (N.to_nat s, N.to_nat d)) + 1
  end.
Notation hhom := (hom natset N Empty_set hind).
Fixpoint hom_map (h : hhom) : exhom :=
  match h with
  | HComp l r => HComp (hom_map l) (hom_map r)
  | HConsF o v n => HConsF (order_map o) v (hom_map n)
  | HConsH o v n => HConsH (order_map o) v (hom_map n)
  | HConst x => HConst x
  | HFix h => HFix (hom_map h)
  | HFun t f => match f : Empty_set with end
  | HId => HId
  | HIte p t e => HIte (hom_map p) (hom_map t) (hom_map e)
  | HInd i => HInd (hind_map i)
  | HInter l => HInter (map hom_map l)
  | HLocal t h => HLocal t (hom_map h)
  | HSatFix x f g l => HSatFix x (hom_map f) (map hom_map g) (hom_map l)
  | HSatInter x f g l => HSatInter x (option_map hom_map f) (map hom_map g) (option_map hom_map l)
  | HSatSum x f g l => HSatSum x (option_map hom_map f) (map hom_map g) (option_map hom_map l)
  | HSum l => HSum (map hom_map l)
  end.

Lemma map_inj_in {A B} (f : A -> B) : forall l m, (forall x y, In x l -> f x = f y -> x = y) -> map f l = map f m -> l = m.
Proof.
  induction l as [|a l IH]; intros [|b m] H E; try discriminate; auto. cbn in E. injection E as E1 E2.
  f_equal; [apply H; cbn; auto|]. apply IH; auto. intros x y Hx. apply H. now right.
Qed.
Lemma oid_map_inj x y : oid_map x = oid_map y -> x = y.
Proof. destruct x, y. unfold oid_map. cbn. intros [= -> E]. apply N2Nat.inj in E. congruence. Qed.
Lemma onode_map_inj x y : onode_map x = onode_map y -> x = y.
Proof.
  destruct x as [i1 a1 b1 c1 d1 e1], y as [i2 a2 b2 c2 d2 e2]. unfold onode_map. cbn. intros E. injection E as Ea Eu -> -> -> -> ->.
  f_equal. apply oid_map_inj. unfold oid_map. congruence.
Qed.
Lemma option_map_inj {A B} (f : A -> B) x y : (forall a b, x = Some a -> f a = f b -> a = b) -> option_map f x = option_map f y -> x = y.
Proof. intros H. destruct x, y; cbn; intros E; try discriminate; auto. injection E as E. f_equal. eauto. Qed.
Lemma order_map_inj x y : order_map x = order_map y -> x = y.
Proof.
  destruct x as [a b c], y as [a' b' c']. unfold order_map. cbn. intros E. injection E as E1 E2 ->. f_equal.
  - apply (map_inj_in (option_map onode_map)); auto. intros u v _. apply option_map_inj. intros. now apply onode_map_inj.
  - apply (map_inj_in (fun x => (oid_map (fst x), snd x))); auto. intros [u1 u2] [v1 v2] _ E. cbn in E.
    assert (u2 = v2) by congruence. assert (E' : oid_map u1 = oid_map v1) by congruence. apply oid_map_inj in E'. congruence.
Qed.
Opaque to_nat.
Lemma to_nat_inj p q : to_nat p = to_nat q -> p = q.
Proof. intros E. rewrite <- (cancel_of_to p), <- (cancel_of_to q). now rewrite E. Qed.
Lemma hind_map_inj x y : hind_map x = hind_map y -> x = y.
Proof.
  destruct x as [i j|r s d], y as [i' j'|r' s' d']; cbn [hind_map]; intros E; try lia.
  - assert (E' : to_nat (N.to_nat i, N.to_nat j) = to_nat (N.to_nat i', N.to_nat j')) by lia.
    apply to_nat_inj in E'. injection E' as E1 E2. f_equal; lia.
  - assert (E' : to_nat (N.to_nat r, to_nat (N.to_nat s, N.to_nat d)) = to_nat (N.to_nat r', to_nat (N.to_nat s', N.to_nat d'))) by lia.
    apply to_nat_inj, pair_equal_spec in E'. destruct E' as [E1 E2]. apply to_nat_inj, pair_equal_spec in E2. destruct E2 as [E2 E3].
    f_equal; lia.
Qed.
Lemma hom_map_inj : forall h k, hom_map h = hom_map k -> h = k.
Proof.
  intros h. induction h as
    [f g IHf IHg|o v n IH|o v n IH|x|h IH|t f| |p t e IHp IHt IHe|i|l IH|t h IH|x f g l IHf IHg IHl
    |x f g l IHf IHg IHl|x f g l IHf IHg IHl|l IH] using hom_ind'; intros k E; try contradiction;
    destruct k; try contradiction; cbn [hom_map] in E; try discriminate; try reflexivity; injection E; intros; subst; f_equal;
    try rewrite Forall_forall in *; eauto 6 using order_map_inj, hind_map_inj, map_inj_in, option_map_inj.
  - apply order_map_inj. unfold order_map. congruence.
  - apply order_map_inj. unfold order_map. congruence.
Qed.

Definition HH_up : hplatform natset N Empty_set hind :=
  {| h_lt := fun h k => lexb (enc_hom (hom_map h)) (enc_hom (hom_map k)); h_iter := fun m => m |}.
Lemma HH_up_ok : hplatform_ok HH_up.
Proof.
  split; cbn; auto. apply (strict_total_inj _ _ lexb (fun h => enc_hom (hom_map h)) lexb_strict).
  intros x y E. now apply hom_map_inj, enc_hom_inj.
Qed.

(** ** Examples *)

(** Five rings and three poles, the default: 243 states. *)
Example C71_example : exists final, hanoi_runs set_lt PF_up HH_up 5 3 final (Some 243%N).
Proof.
  destruct (C71_ends set_lt set_lt_strict PF_up PF_up_ok HH_up HH_up_ok 5 3) as (f & p & R). exists f.
  pose proof (C71_count set_lt set_lt_strict PF_up PF_up_ok HH_up HH_up_ok 5 3 f _ R) as E. now rewrite E in R.
Qed.
(** Two rings on three poles: the large one cannot move first. *)
Example C71_example_moves : move 3 [0; 0]%N [0; 1]%N /\ ~ move 3 [0; 0]%N [1; 0]%N /\ reachable 2 3 [2; 2]%N.
Proof.
  split; [apply (moves 3 [0%N] 0 1 []); auto; lia|]. split.
  - intros H. inversion H as [la s d sm Hs Hd Ne X Y E1 E2]. destruct la as [|a [|b la]].
    + cbn in E1, E2. injection E1 as -> E1. injection E2 as -> E2. subst sm. apply X. now left.
    + cbn in E1, E2. congruence.
    + destruct la; discriminate.
  - apply reachable_all; [lia|]. split; [auto|]. repeat constructor; lia.
Qed.
