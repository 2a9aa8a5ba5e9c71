(** * The example program examples/hanoi: proofs *)

From Coq Require Import List Bool NArith Arith Lia Relations Permutation.
From Verif Require Import Base SortedSets Values Sdd SddFacts Orders OrdersProofs OrdersMore OrdersSdd DDModel Spec.
From Verif Require Import DDTheorems FlatSet Bitset Count CountProps OrdersProps Hom HomFacts HomEval HomTyped HomEqns HomLinear HomSum.
From Verif Require Import HomHalts HomComp HomInter HomFun HomRewrite HomProps HomRewriteProps HomInd Rows Hanoi.
Import ListNotations.

(** ** Specification *)

(** A configuration: the poles of the rings, from the largest ring to the smallest. A move takes a ring that has no smaller
    ring on it from its pole to another one where there is no smaller ring. *)
Inductive move (k : N) : list N -> list N -> Prop :=
| moves large s d small : (s < k)%N -> (d < k)%N -> s <> d -> ~ In s small -> ~ In d small ->
    move k (large ++ s :: small) (large ++ d :: small).

(** The configurations reachable from the one where the [n] rings are on the pole 0. *)
Definition reachable (n : nat) (k : N) (c : list N) : Prop := clos_refl_trans _ (move k) (repeat 0%N n) c.

(** ** Reachable configurations *)

Lemma move_length k c c' : move k c c' -> length c' = length c.
Proof. intros H. destruct H. now rewrite !app_length. Qed.

Lemma move_poles k c c' : move k c c' -> Forall (fun a => a < k)%N c -> Forall (fun a => a < k)%N c'.
Proof.
  intros H. destruct H as [la s d sm Hs Hd]. rewrite !Forall_app. intros [A B]. split; [auto|].
  inversion B; subst. constructor; auto.
Qed.

Lemma reach_length k c c' : clos_refl_trans _ (move k) c c' -> length c' = length c.
Proof. induction 1 as [c c' H|c|c d e _ A _ B]; [now apply (move_length k)|auto|congruence]. Qed.

Lemma reach_poles k c c' : clos_refl_trans _ (move k) c c' -> Forall (fun a => a < k)%N c -> Forall (fun a => a < k)%N c'.
Proof. induction 1 as [c c' H|c|c d e _ A _ B]; auto. now apply (move_poles k). Qed.

Lemma move_under k a c c' : move k c c' -> move k (a :: c) (a :: c').
Proof. intros H. destruct H as [la s d sm]. apply (moves k (a :: la)); auto. Qed.

Lemma reach_under k a c c' : clos_refl_trans _ (move k) c c' -> clos_refl_trans _ (move k) (a :: c) (a :: c').
Proof.
  induction 1 as [c c' H|c|c d e _ A _ B]; [apply rt_step; now apply move_under|apply rt_refl|eapply rt_trans; eauto].
Qed.

(** With three poles, everything can be reached. *)
Lemma reach_all k : (3 <= k)%N -> forall n c c', length c = n -> length c' = n ->
  Forall (fun a => a < k)%N c -> Forall (fun a => a < k)%N c' -> clos_refl_trans _ (move k) c c'.
Proof.
  intros K. induction n as [|n IH]; intros [|a c] [|b c'] L L' H H'; try discriminate; [apply rt_refl|].
  injection L as L. injection L' as L'. inversion H as [|? ? Ha Hc]; inversion H' as [|? ? Hb Hc']; subst.
  destruct (N.eq_dec a b) as [->|D]; [apply reach_under; auto|].
  assert (T : exists e, (e < k)%N /\ e <> a /\ e <> b).
  { destruct (N.eq_dec a 0), (N.eq_dec b 0), (N.eq_dec a 1), (N.eq_dec b 1); subst;
      first [exists 0%N; split; [lia|split; congruence]|exists 1%N; split; [lia|split; congruence]|exists 2%N; split; [lia|split; lia]|lia]. }
  destruct T as (e & He & Ea & Eb).
  assert (R : forall m, Forall (fun x => x < k)%N (repeat e m)) by (induction m; cbn; auto).
  eapply rt_trans; [apply reach_under, (IH _ (repeat e (length c))); auto; apply repeat_length|].
  eapply rt_trans; [apply rt_step, (moves k [] a b); auto; intros X; apply repeat_spec in X; congruence|].
  cbn. apply reach_under, IH; auto. apply repeat_length.
Qed.

Lemma repeat_poles k n : (0 < k)%N -> Forall (fun a => a < k)%N (repeat 0%N n).
Proof. intros H. induction n; cbn; auto. Qed.

Lemma reachable_all n k c : (3 <= k)%N -> (reachable n k c <-> length c = n /\ Forall (fun a => a < k)%N c).
Proof.
  intros K. unfold reachable. split.
  - intros H. split; [rewrite (reach_length _ _ _ H); apply repeat_length|].
    apply (reach_poles _ _ _ H), repeat_poles. lia.
  - intros [L H]. apply (reach_all k K n); auto; [apply repeat_length|apply repeat_poles; lia].
Qed.

(** With two poles, only the smallest ring moves. *)
Lemma reachable_two n c : reachable (S n) 2 c <-> c = repeat 0%N n ++ [0%N] \/ c = repeat 0%N n ++ [1%N].
Proof.
  assert (E0 : repeat 0%N (S n) = repeat 0%N n ++ [0%N]) by (induction n as [|n IH]; [auto|cbn in *; now rewrite IH at 1]).
  assert (M : forall c c', move 2 c c' -> Forall (fun a => a < 2)%N c -> exists la s d, c = la ++ [s] /\ c' = la ++ [d] /\ (d < 2)%N).
  { intros c0 c' H F. destruct H as [la s d sm Hs Hd D Is Id]. apply Forall_app in F. destruct F as [_ F].
    inversion F as [|? ? _ F']; subst. destruct sm as [|b sm]; [eauto 6|]. exfalso.
    inversion F' as [|? ? Hb _]; subst. cbn in Is, Id. lia. }
  unfold reachable. rewrite E0. split.
  - intros H. apply clos_rt_rtn1 in H. induction H as [|c c' Hm _ IH]; [auto|].
    assert (F : Forall (fun a => a < 2)%N c).
    { assert (F0 := repeat_poles 2 n ltac:(lia)). destruct IH as [->| ->]; apply Forall_app; split; auto; repeat constructor. }
    destruct (M _ _ Hm F) as (la & s & d & -> & -> & Hd).
    assert (la = repeat 0%N n) by (destruct IH as [X|X]; now apply app_inj_tail in X). subst la.
    assert (Hd' : d = 0%N \/ d = 1%N) by lia. destruct Hd' as [-> | ->]; auto.
  - intros [->| ->]; [apply rt_refl|]. apply rt_step. apply (moves 2 (repeat 0%N n) 0 1 []); auto; lia.
Qed.

(** With at most one pole, or no ring, nothing moves. *)
Lemma reachable_none n k c : n = 0 \/ (k < 2)%N -> (reachable n k c <-> c = repeat 0%N n).
Proof.
  intros H. unfold reachable. split; [|intros ->; apply rt_refl].
  intros R. apply clos_rt_rtn1 in R. induction R as [|c c' Hm _ IH]; [auto|]. subst c. exfalso.
  destruct H as [->|H].
  - apply move_length in Hm as L. inversion Hm as [la ? ? ? ? ? ? ? ? X]. now destruct la.
  - destruct Hm. lia.
Qed.

(** ** All the configurations *)

Fixpoint configs (poles : list N) (n : nat) : list (list N) :=
  match n with
  | 0 => [[]]
  | S n => flat_map (fun a => map (cons a) (configs poles n)) poles
  end.

Lemma configs_in poles : forall n c, In c (configs poles n) <-> length c = n /\ forall a, In a c -> In a poles.
Proof.
  induction n as [|n IH]; intros c; cbn [configs].
  - split; [intros [<-|[]]; cbn; tauto|]. intros [L _]. destruct c; [now left|discriminate].
  - rewrite in_flat_map. split.
    + intros (a & Ha & H). apply in_map_iff in H. destruct H as (c' & <- & H). apply IH in H. destruct H as [L H].
      split; [cbn; lia|]. intros b [<-|Hb]; auto.
    + intros [L H]. destruct c as [|a c]; [discriminate|]. exists a. split; [apply H; now left|]. apply in_map, IH.
      split; [now injection L|]. intros b Hb. apply H. now right.
Qed.

Lemma nodup_app {A} (l m : list A) : NoDup l -> NoDup m -> (forall x, In x l -> ~ In x m) -> NoDup (l ++ m).
Proof.
  intros H K D. induction H as [|a l Ha H IH]; cbn; [auto|]. constructor.
  - rewrite in_app_iff. intros [X|X]; [auto|]. exact (D a (or_introl eq_refl) X).
  - apply IH. intros x Hx. apply D. now right.
Qed.

Lemma prod_nodup {A} (l : list A) (m : list (list A)) : NoDup l -> NoDup m -> NoDup (flat_map (fun a => map (cons a) m) l).
Proof.
  intros NL NM. induction NL as [|a l Ha NL IH]; cbn; [constructor|]. apply nodup_app; auto.
  - clear - NM. induction NM as [|c m Hc NM IH]; cbn; constructor; auto.
    intros X. apply in_map_iff in X. destruct X as (d & E & Hd). injection E as ->. auto.
  - intros c Hc X. apply in_map_iff in Hc. destruct Hc as (c1 & <- & _). apply in_flat_map in X.
    destruct X as (b & Hb & X). apply in_map_iff in X. destruct X as (c2 & E & _). injection E as -> _. auto.
Qed.

Lemma prod_length {A} (l : list A) (m : list (list A)) : length (flat_map (fun a => map (cons a) m) l) = length l * length m.
Proof. induction l as [|a l IH]; cbn; [auto|]. now rewrite app_length, map_length, IH. Qed.

Lemma configs_nodup poles n : NoDup poles -> NoDup (configs poles n).
Proof. intros ND. induction n as [|n IH]; cbn [configs]; [repeat constructor; auto|now apply prod_nodup]. Qed.

Lemma configs_length poles n : length (configs poles n) = length poles ^ n.
Proof. induction n as [|n IH]; cbn [configs Nat.pow]; [auto|]. now rewrite prod_length, IH. Qed.

(** The poles. *)
Notation ids n := (map N.of_nat (seq 0 n)).
Lemma poles_in k a : In a (ids k) <-> (a < N.of_nat k)%N.
Proof.
  rewrite in_map_iff. split.
  - intros (m & <- & H). apply in_seq in H. lia.
  - intros H. exists (N.to_nat a). split; [apply N2Nat.id|]. apply in_seq. lia.
Qed.
Lemma poles_nodup k : NoDup (ids k).
Proof.
  assert (H := seq_NoDup k 0). induction H as [|a l Ha H IH]; cbn; constructor; auto.
  intros X. apply in_map_iff in X. destruct X as (b & E & Hb). apply Nat2N.inj in E. now subst.
Qed.

(** ** The order *)

Lemma rings_S n : rings (S n) = BNode (user_id (N.of_nat n)) BNil (rings n).
Proof. unfold rings. rewrite seq_S, fold_left_app. reflexivity. Qed.

Lemma rings_list n : rings n = b_of_list (rev (ids n)).
Proof.
  induction n as [|n IH]; [reflexivity|]. rewrite rings_S, seq_S, map_app, rev_app_distr. cbn [map rev app].
  now rewrite b_of_list_cons, IH.
Qed.

Lemma rings_shape n : shape_of N (rings n) = flat_shape n.
Proof. rewrite rings_list, shape_of_list, rev_length, map_length, seq_length. reflexivity. Qed.

Lemma rings_length n : b_length (rings n) = n.
Proof. rewrite rings_list, length_of_list, rev_length, map_length, seq_length. reflexivity. Qed.

(** [at_ring o m]: the rings of the order [o] are those smaller than [m]. *)
Definition at_ring (o : order N) (m : nat) : Prop := exists p path, sees o (rings m) p path.

Lemma at_shape o m : at_ring o m -> oshape N o (flat_shape m).
Proof. intros (p & path & S). rewrite <- rings_shape. exact (sees_oshape N _ _ _ _ S). Qed.

Lemma at_end o : at_ring o 0 -> o_empty o = true.
Proof. intros (p & path & S). now rewrite (sees_empty _ _ _ _ _ S). Qed.

Lemma at_level o m : at_ring o (S m) -> exists o', olevel N o (LFlat (N.of_nat m)) o' /\ at_ring o' m
  /\ o_identifier o = Some (user_id (N.of_nat m)).
Proof.
  intros (p & path & S). rewrite rings_S in S.
  pose proof (sees_head _ _ _ _ _ _ _ S) as H1.
  destruct (sees_next _ _ _ _ _ _ _ S) as (o' & N1 & N2 & _).
  destruct (sees_nested _ _ _ _ _ _ _ S) as (on & M1 & M2 & _).
  exists o'. split; [|split].
  - split; [unfold o_variable; rewrite H1; cbn; now rewrite rings_length|]. split; [auto|].
    exists on. split; [auto|]. exact (sees_empty _ _ _ _ _ M2).
  - exists (p + 1 + b_size (@BNil N)), path. exact N2.
  - unfold o_identifier. now rewrite H1.
Qed.

Lemma flat_follows VI m p : HomRewrite.follows VI (flat_shape m) p <-> exists c, length c = m /\ p = row c.
Proof.
  revert p. induction m as [|m IH]; intros p; cbn [flat_shape].
  - split; [intros H; inversion H; exists []; auto|]. intros (c & L & ->). destruct c; [constructor|discriminate].
  - split.
    + intros H. inversion H as [|? ? a q H'|]; subst. apply IH in H'. destruct H' as (c & L & ->).
      exists (a :: c). split; [cbn; lia|]. cbn. now rewrite L.
    + intros (c & L & ->). destruct c as [|a c]; [discriminate|]. injection L as L. cbn. rewrite L. constructor. apply IH. eauto.
Qed.

Section Hanoi.
  Variable plt : fset N.ltb -> fset N.ltb -> bool.
  Hypothesis SP : strict_total plt.
  Notation VI := (flat_set_values N.ltb Nltb_strict plt).
  Notation VL := (flat_set_laws N.ltb Nltb_strict plt SP).
  Notation V := (vt VI).
  Variable PF : platform VI.
  Hypothesis PO : platform_ok PF.
  Notation hom := (hom V N Empty_set hind).
  Variable HP : hplatform V N Empty_set hind.
  Hypothesis HPO : hplatform_ok HP.
  Notation US := hanoi_user.
  Notation typed := (typed VI PF N Empty_set hind US).
  Notation evals := (evals VI PF N Empty_set hind US).
  Notation acts := (acts VI PF N Empty_set hind US).
  Notation hskip := (hskip VI N Empty_set hind US).
  Notation fits := (fits VI PF).
  Notation asg := (asg N).

  Lemma US_honest : honest VI PF N Empty_set hind US.
  Proof. split; intros; try contradiction; discriminate. Qed.
  Notation HO := US_honest.

  Lemma US_nofix : user_nofix VI N Empty_set hind US.
  Proof.
    split; [|reflexivity]. intros i o v. destruct i as [i j|r s d]; cbn [i_flat hanoi_user on_values]; [reflexivity|].
    destruct (fset_find N.ltb v s); reflexivity.
  Qed.

  (** ** no_ring_above *)

  Lemma nra_skip o i j : o_empty o = false -> hskip o (HInd (NoRingAbove i j)) = false.
  Proof. intros _. cbn [Hom.hskip]. now destruct (o_identifier o). Qed.

  Lemma nra_typed i j : forall m o, at_ring o m -> typed o (HInd (NoRingAbove i j)) (flat_shape m).
  Proof.
    induction m as [|m IH]; intros o A.
    - apply T_ind_end; [now apply at_end|]. split; constructor.
    - destruct (at_level _ _ A) as (o' & L & A' & Id). cbn [flat_shape].
      apply (T_ind_flat VI PF N Empty_set hind US o (N.of_nat m) o' _ _ L).
      + apply nra_skip. exact (olevel_nonempty _ _ _ _ L).
      + intros v _. destruct L as (V1 & N1 & _). 
        apply (T_consF VI PF N Empty_set hind US o' (flat_shape m) o (N.of_nat m) o'); auto; now apply at_shape.
  Qed.

  Lemma erase2_mem i j (v : V) a : v_mem VI (fst (fset_erase N.ltb Nltb_strict j (fst (fset_erase N.ltb Nltb_strict i v)))) a = true <->
    v_mem VI v a = true /\ a <> i /\ a <> j.
  Proof.
    assert (E : forall x (w : V), v_mem VI (fst (fset_erase N.ltb Nltb_strict x w)) a = true <-> v_mem VI w a = true /\ a <> x).
    { intros x w. change (fset_find N.ltb (fst (fset_erase N.ltb Nltb_strict x w)) a = true <-> fset_find N.ltb w a = true /\ a <> x).
      rewrite !(fset_find_in N.ltb Nltb_strict). apply (fs_erase_spec N.ltb Nltb_strict), fset_sorted. }
    rewrite !E. tauto.
  Qed.

  Lemma nra_acts i j : forall m o, at_ring o m ->
    acts o (HInd (NoRingAbove i j)) (fun p q => p = q /\ forall c, p = row c -> ~ In i c /\ ~ In j c).
  Proof.
    induction m as [|m IH]; intros o A.
    - apply (acts_weq VI PF N Empty_set hind US o _ (fun p q => p = ANil /\ contains (VI := VI) (i_one US (NoRingAbove i j)) q = true)).
      + intros p q (s & Os & Fp). assert (s = SEnd) by (apply (oshape_fun _ _ _ Os); constructor; now apply at_end). subst s.
        inversion Fp; subst. cbn. split.
        * intros [_ H]. split; [destruct q; auto; discriminate|]. intros [|a c] X; [auto|discriminate].
        * intros [<- _]. auto.
      + apply (acts_ind_end VI PF N Empty_set hind US). now apply at_end.
    - destruct (at_level _ _ A) as (o' & L & A' & Id).
      apply (acts_weq VI PF N Empty_set hind US o _ (fun p q => exists a p', p = AVal (N.of_nat m) a p' /\
        (a <> i /\ a <> j /\ q = AVal (N.of_nat m) a p' /\ forall c, p' = row c -> ~ In i c /\ ~ In j c))).
      + intros p q (s & Os & Fp). rewrite (oshape_fun _ _ _ Os _ (at_shape _ _ A)) in Fp. apply flat_follows in Fp.
        destruct Fp as (c & Lc & ->). destruct c as [|a c]; [discriminate|]. injection Lc as Lc. cbn [row]. change (elt VI) with N in *. rewrite Lc. split.
        * intros (a' & p' & E & Hi & Hj & -> & H). injection E as <- <-. split; [auto|]. intros c' E.
          destruct c' as [|b c']; [discriminate|]. cbn in E. injection E as _ <- E. apply row_inj in E. subst c'.
          destruct (H c eq_refl). cbn. intuition.
        * intros [<- H]. destruct (H (a :: c)) as [X Y]; [cbn; now rewrite Lc|]. exists a, (row c).
          split; [auto|]. cbn in X, Y. split; [intuition|]. split; [intuition|]. split; [auto|].
          intros c' E. apply row_inj in E. subst c'. intuition.
      + apply (acts_ind_flat VI VL PF PO N Empty_set hind US HO o (N.of_nat m) o' (NoRingAbove i j) (flat_shape (S m))
          (fun a p q => a <> i /\ a <> j /\ q = AVal (N.of_nat m) a p /\ forall c, p = row c -> ~ In i c /\ ~ In j c) L).
        * apply nra_skip. exact (olevel_nonempty _ _ _ _ L).
        * now apply nra_typed.
        * intros v _. cbn [i_flat hanoi_user on_values].
          destruct L as (V1 & N1 & _).
          assert (K := acts_cons_flat VI VL PF N Empty_set hind US o' o
            (fst (fset_erase N.ltb Nltb_strict j (fst (fset_erase N.ltb Nltb_strict i v)))) _ (flat_shape m) (flat_shape m)
            (N.of_nat m) o' _ (at_shape _ _ A') V1 N1 (at_shape _ _ A') (nra_typed i j m o' A') (IH o' A')).
          refine (acts_ext VI PF N Empty_set hind US o' _ _ _ _ K). intros p q. split.
          -- intros (a & q' & -> & M & <- & H). apply erase2_mem in M. exists a. tauto.
          -- intros (a & M & Hi & Hj & -> & H). exists a, p. split; [auto|]. split; [now apply erase2_mem|auto].
  Qed.

  (** ** swap_pole *)

  (** What a swap does at the level of its ring. *)
  Definition RO (_ : order N) (h : hom) (p q : asg) : Prop :=
    match h with
    | HInd (SwapPole r s d) => exists c, N.of_nat (length c) = r /\ p = row (s :: c) /\ q = row (d :: c) /\ ~ In s c /\ ~ In d c
    | _ => False
    end.
  Notation swap r s d := (HInd (SwapPole (N.of_nat r) s d)).
  Notation leaf := (fun o h => acts o h (RO o h) /\ forall s x, oshape N o s -> fits s x -> exists y, evals o h x y).

  Lemma swap_skip o m r s d : o_identifier o = Some (user_id (N.of_nat m)) -> hskip o (swap r s d) = negb (m =? r).
  Proof.
    intros E. cbn [Hom.hskip hanoi_user i_skip usr user_id]. rewrite E. cbn. f_equal.
    destruct (Nat.eqb_spec m r) as [->|D]; [apply N.eqb_refl|apply N.eqb_neq; lia].
  Qed.

  Lemma nra_of s d : exists i j, no_ring_above s d = NoRingAbove i j /\ (i = s /\ j = d \/ i = d /\ j = s).
  Proof. unfold no_ring_above. destruct (s <? d)%N; eauto 6. Qed.

  Lemma swap_typed r s d : forall m o, at_ring o m -> r < m -> typed o (swap r s d) (flat_shape m).
  Proof.
    induction m as [|m IH]; intros o A Lt; [lia|]. destruct (at_level _ _ A) as (o' & L & A' & Id).
    pose proof (swap_skip o m r s d Id) as Sk. destruct (Nat.eqb_spec m r) as [->|D]; cbn [negb] in Sk.
    - apply (T_ind_flat VI PF N Empty_set hind US o (N.of_nat r) o' _ _ L Sk). intros v _.
      change (i_flat US (SwapPole (N.of_nat r) s d) o v) with
        (if fset_find N.ltb v s then HConsF o (fset_of_list N.ltb Nltb_strict [d]) (HInd (no_ring_above s d)) else HConst (@Zero V) : hom).
      destruct (fset_find N.ltb v s).
      + destruct (nra_of s d) as (i & j & -> & _). destruct L as (V1 & N1 & _).
        apply (T_consF VI PF N Empty_set hind US o' (flat_shape r) o (N.of_nat r) o'); auto using at_shape, nra_typed.
      + apply (T_const VI PF N Empty_set hind US o' (flat_shape r)); [now apply at_shape|apply fits_zero].
    - apply (T_ind_next VI PF N Empty_set hind US o (LFlat (N.of_nat m)) o' _ (flat_shape m) L Sk). apply IH; [auto|lia].
  Qed.

  Lemma swap_here r s d o : at_ring o (S r) -> acts o (swap r s d) (RO o (swap r s d)).
  Proof.
    intros A. destruct (at_level _ _ A) as (o' & L & A' & Id).
    pose proof (swap_skip o r r s d Id) as Sk. rewrite Nat.eqb_refl in Sk. cbn [negb] in Sk.
    apply (acts_weq VI PF N Empty_set hind US o _ (fun p q => exists a p', p = AVal (N.of_nat r) a p' /\
      (a = s /\ q = AVal (N.of_nat r) d p' /\ forall c, p' = row c -> ~ In s c /\ ~ In d c))).
    - intros p q (s0 & Os & Fp). rewrite (oshape_fun _ _ _ Os _ (at_shape _ _ A)) in Fp. apply flat_follows in Fp.
      destruct Fp as (c & Lc & ->). destruct c as [|a c]; [discriminate|]. injection Lc as Lc. cbn [row RO].
      change (elt VI) with N in *. split.
      + intros (a' & p' & E & Ea & -> & H). injection E as _ <- <-. subst a.
        destruct (H c eq_refl) as [X Y]. exists c. rewrite Lc. auto.
      + intros (c' & Ec & E & -> & X & Y). injection E as _ <- E. apply row_inj in E. subst c'.
        exists a, (row c). rewrite Lc. split; [auto|]. split; [auto|]. split; [auto|]. intros c' E. apply row_inj in E. now subst c'.
    - apply (acts_ind_flat VI VL PF PO N Empty_set hind US HO o (N.of_nat r) o' (SwapPole (N.of_nat r) s d) (flat_shape (S r))
        (fun a p q => a = s /\ q = AVal (N.of_nat r) d p /\ forall c, p = row c -> ~ In s c /\ ~ In d c) L Sk).
      { apply swap_typed; auto. }
      intros v _. change (i_flat US (SwapPole (N.of_nat r) s d) o v) with
        (if fset_find N.ltb v s then HConsF o (fset_of_list N.ltb Nltb_strict [d]) (HInd (no_ring_above s d)) else HConst (@Zero V) : hom).
      destruct (fset_find N.ltb v s) eqn:M.
      + destruct (nra_of s d) as (i & j & -> & Eij). destruct L as (V1 & N1 & _).
        assert (K := acts_cons_flat VI VL PF N Empty_set hind US o' o
          (fset_of_list N.ltb Nltb_strict [d]) _ (flat_shape r) (flat_shape r)
          (N.of_nat r) o' _ (at_shape _ _ A') V1 N1 (at_shape _ _ A') (nra_typed i j r o' A') (nra_acts i j r o' A')).
        refine (acts_ext VI PF N Empty_set hind US o' _ _ _ _ K). intros p q. split.
        * intros (a & q' & -> & Ma & <- & H). apply (fset_find_of_list N.ltb Nltb_strict) in Ma. destruct Ma as [<-|[]].
          exists s. split; [auto|]. split; [auto|]. split; [auto|]. intros c Ec. destruct (H c Ec).
          destruct Eij as [[-> ->]|[-> ->]]; auto.
        * intros (a & Ma & -> & -> & H). exists d, p. split; [auto|]. split; [now apply (fset_find_of_list N.ltb Nltb_strict); left|].
          split; [auto|]. intros c Ec. destruct (H c Ec). destruct Eij as [[-> ->]|[-> ->]]; auto.
      + refine (acts_ext VI PF N Empty_set hind US o' _ _ _ _ (acts_const VI VL PF N Empty_set hind US o' Zero)). intros p q. split.
        * discriminate.
        * intros (a & Ma & -> & _). exfalso. cbn in Ma. congruence.
  Qed.

  Lemma swap_lin r s d : forall m o, at_ring o m -> r < m -> lin VI N Empty_set hind US RO leaf o (swap r s d).
  Proof.
    induction m as [|m IH]; intros o A Lt; [lia|]. destruct (at_level _ _ A) as (o' & L & A' & Id).
    pose proof (swap_skip o m r s d Id) as Sk. destruct (Nat.eqb_spec m r) as [->|D]; cbn [negb] in Sk.
    - apply lin_leaf; [reflexivity|now left|]. split; [now apply swap_here|].
      apply (halts VI VL PF PO N Empty_set hind US HO US_nofix o _ (flat_shape (S r))); [apply swap_typed; auto|reflexivity].
    - apply (lin_next VI N Empty_set hind US RO leaf o (LFlat (N.of_nat m)) o'); auto. apply IH; [auto|lia].
  Qed.

  Notation den := (den VI N Empty_set hind US RO).
  Lemma swap_den r s d : forall m o, at_ring o m -> r < m -> forall c q, length c = m ->
    (den o (swap r s d) (row c) q <->
     exists la sm, c = la ++ s :: sm /\ length sm = r /\ q = row (la ++ d :: sm) /\ ~ In s sm /\ ~ In d sm).
  Proof.
    induction m as [|m IH]; intros o A Lt c q Lc; [lia|]. destruct (at_level _ _ A) as (o' & L & A' & Id).
    pose proof (swap_skip o m r s d Id) as Sk. destruct (Nat.eqb_spec m r) as [->|D]; cbn [negb] in Sk.
    - rewrite (opaque_here VI N Empty_set hind US RO o (swap r s d) (row c) q eq_refl (or_introl Sk)). cbn [RO]. split.
      + intros (c' & Lc' & E & -> & X & Y). apply row_inj in E. subst c. exists [], c'. split; [auto|]. split; [lia|auto].
      + intros (la & sm & -> & Ls & -> & X & Y). rewrite app_length in Lc. cbn in Lc. destruct la; [|cbn in Lc; lia]. cbn [app].
        exists sm. split; [lia|auto].
    - rewrite (opaque_skip VI N Empty_set hind US RO o (LFlat (N.of_nat m)) o' (swap r s d) (row c) q eq_refl L Sk). cbn [lvar].
      destruct c as [|a c]; [discriminate|]. injection Lc as Lc. split.
      + intros (k & p' & q' & E & -> & H). destruct k as [b|b]; cbn in E; [|discriminate]. injection E as _ <- <-.
        apply IH in H; [|auto|lia|auto]. destruct H as (la & sm & -> & Ls & -> & X & Y).
        exists (a :: la), sm. split; [auto|]. split; [auto|]. split; [|auto]. cbn. f_equal. rewrite <- Lc, !app_length. reflexivity.
      + intros (la & sm & E & Ls & -> & X & Y). destruct la as [|b la].
        { cbn in E. injection E as -> ->. exfalso. lia. }
        cbn in E. injection E as <- E. exists (KVal VI a), (row c), (row (la ++ d :: sm)).
        split; [cbn; now rewrite Lc|]. split.
        * cbn. f_equal. rewrite <- Lc, E, !app_length. reflexivity.
        * apply IH; [auto|lia|auto|]. eauto 8.
  Qed.

  (** ** The events *)

  Lemma swaps_in n k h : In h (swaps n k) <-> exists r s d, h = swap r (N.of_nat s) (N.of_nat d) /\ r < n /\ s < k /\ d < k /\ s <> d.
  Proof.
    unfold swaps. rewrite in_flat_map. split.
    - intros (r & Hr & H). apply in_flat_map in H. destruct H as (s & Hs & H). apply in_flat_map in H.
      destruct H as (d & Hd & H). apply in_seq in Hr, Hs, Hd. destruct (Nat.eqb_spec s d); [destruct H|].
      destruct H as [<-|[]]. exists r, s, d. split; [auto|]. lia.
    - intros (r & s & d & -> & Hr & Hs & Hd & D). exists r. split; [apply in_seq; lia|]. apply in_flat_map.
      exists s. split; [apply in_seq; lia|]. apply in_flat_map. exists d. split; [apply in_seq; lia|].
      destruct (Nat.eqb_spec s d); [contradiction|now left].
  Qed.

  Notation hset := (hset VI N Empty_set hind HP).
  Notation events n k := (hset (swaps n k ++ [HId])).

  Lemma events_in n k h : In h (events n k) <-> h = HId \/ In h (swaps n k).
  Proof. rewrite (hset_in VI N Empty_set hind HP HPO), in_app_iff. cbn. intuition. Qed.

  (** The constructor of sums, for operands that are neither sums nor locals. *)
  Lemma sum_plain l : (forall h, In h l -> match h with HSum _ | HLocal _ _ => False | _ => True end) -> l <> [] ->
    mk_sum VI N Empty_set hind HP l = Ok (match hset l with [h] => h | _ => HSum (hset l) end).
  Proof.
    intros H Ne. assert (E : forall l a, (forall h, In h l -> match h with HSum _ | HLocal _ _ => False | _ => True end) ->
      fold_left (sum_visit VI N Empty_set hind HP) l (a, []) = (fold_left (fun s h => hset_add VI N Empty_set hind HP h s) l a, [])).
    { clear. induction l as [|h l IH]; intros a H; [reflexivity|]. cbn [fold_left].
      rewrite <- IH by (intros k Hk; apply H; now right). f_equal. specialize (H h (or_introl eq_refl)). destruct h; try contradiction; reflexivity. }
    unfold mk_sum. destruct l as [|h l]; [congruence|]. cbn [sum_fuel]. rewrite E by exact H.
    assert (P : h_iter HP [] = []) by (apply Permutation_nil, Permutation_sym, (hp_iter HPO)). rewrite P. cbn [regroup rbind].
    fold (hset (h :: l)). destruct (hset (h :: l)) as [|a [|b t]]; reflexivity.
  Qed.

  Lemma step_iff n k hs o c q : at_ring o n -> length c = n -> (forall h, In h hs <-> h = HId \/ In h (swaps n k)) ->
    ((exists h, In h hs /\ den o h (row c) q) <-> q = row c \/ exists c', move (N.of_nat k) c c' /\ q = row c').
  Proof.
    intros A Lc Hs. split.
    - intros (h & Hh & D). apply Hs in Hh. destruct Hh as [->|Hh].
      + apply den_id_iff in D. auto.
      + apply swaps_in in Hh. destruct Hh as (r & s & d & -> & Hr & H1 & H2 & Ne).
        apply (swap_den r _ _ n o A Hr c q Lc) in D. destruct D as (la & sm & -> & Ls & -> & X & Y).
        right. exists (la ++ N.of_nat d :: sm). split; [|auto]. constructor; auto; lia.
    - intros [->|(c' & M & ->)].
      + exists HId. split; [apply Hs; auto|constructor].
      + destruct M as [la s d sm Hs1 Hd Ne X Y]. rewrite app_length in Lc. cbn in Lc.
        exists (swap (length sm) s d). split.
        * apply Hs. right. apply swaps_in. exists (length sm), (N.to_nat s), (N.to_nat d). rewrite !N2Nat.id.
          split; [auto|]. repeat split; lia.
        * apply (swap_den (length sm) s d n o A); [lia|rewrite app_length; cbn; lia|]. eauto 8.
  Qed.

  Lemma closure_iff n k hs o (Q : asg -> Prop) c q : at_ring o n -> length c = n ->
    (forall h, In h hs <-> h = HId \/ In h (swaps n k)) -> (forall c', length c' = n -> Q (row c')) ->
    (clos_refl_trans _ (fun a b => (exists h, In h hs /\ den o h a b) /\ Q b) (row c) q <->
     exists c', q = row c' /\ clos_refl_trans _ (move (N.of_nat k)) c c').
  Proof.
    intros A Lc Hs HQ. split.
    - intros H. apply clos_rt_rtn1 in H. induction H as [|p q [S _] _ IH]; [exists c; split; [auto|apply rt_refl]|].
      destruct IH as (c1 & -> & R). assert (L1 : length c1 = n) by (etransitivity; [exact (reach_length _ _ _ R)|auto]).
      apply (step_iff n k hs o c1 q A L1 Hs) in S. destruct S as [->|(c2 & M & ->)]; [eauto|].
      exists c2. split; [auto|]. eapply rt_trans; [exact R|now apply rt_step].
    - intros (c' & -> & R). assert (L1 : length c' = n) by (etransitivity; [exact (reach_length _ _ _ R)|auto]).
      apply clos_rt_rtn1 in R. induction R as [|c1 c2 M R IH]; [apply rt_refl|].
      apply clos_rtn1_rt in R. assert (L2 : length c1 = n) by (etransitivity; [exact (reach_length _ _ _ R)|auto]).
      eapply rt_trans; [now apply IH|]. apply rt_step. split; [|now apply HQ].
      apply (step_iff n k hs o c1 _ A L2 Hs). eauto.
  Qed.

  Lemma reach_in n k c : reachable n (N.of_nat k) c -> In c (configs (0%N :: ids k) n).
  Proof.
    intros R. apply configs_in. split; [rewrite (reach_length _ _ _ R); apply repeat_length|].
    unfold reachable in R. apply clos_rt_rtn1 in R. induction R as [|c c' M _ IH].
    - intros a H. apply repeat_spec in H. now left.
    - destruct M as [la s d sm Hs Hd Ne X Y]. intros a H. apply in_app_iff in H. destruct H as [H|[<-|H]].
      + apply IH, in_app_iff. auto.
      + right. now apply poles_in.
      + apply IH, in_app_iff. cbn. auto.
  Qed.

  Lemma initial_state n o : mk_order N N.eqb (rings n) = Ok o ->
    exists m0, sdd_from_order VI PF N (fun _ => fset_of_list N.ltb Nltb_strict [0%N]) o = Ok m0
      /\ fits (flat_shape n) m0 /\ forall p, contains m0 p = true <-> p = row (repeat 0%N n).
  Proof.
    intros Eo. assert (W : well_named (rings n)) by (rewrite rings_list; apply named_of_list).
    destruct (C13_from_order VI VL PF N N.eqb N_is_eqb (fun _ => fset_of_list N.ltb Nltb_strict [0%N]) _ _ Eo W)
      as (m0 & E & C & D & B & _). exists m0. split; [auto|].
    split; [split; [now apply (built_canonical VI VL PF PO)|now rewrite rings_shape in D]|].
    intros p. rewrite C, rings_list.
    rewrite (initial_list N VI (fun _ => fset_of_list N.ltb Nltb_strict [0%N]) (rev (ids n)) p).
    assert (K : forall (l : list N) (w : list (elt VI)),
      Forall2 (fun _ a => v_mem VI (fset_of_list N.ltb Nltb_strict [0%N]) a = true) l w <-> w = repeat 0%N (length l)).
    { clear. induction l as [|u l IH]; intros w; cbn [length repeat].
      - split; [intros H; now inversion H|intros ->; constructor].
      - split.
        + intros H. inversion H as [|? a ? w' M H']; subst. apply IH in H'. subst w'.
          apply (fset_find_of_list N.ltb Nltb_strict) in M. destruct M as [<-|[]]. reflexivity.
        + intros ->. constructor; [now apply (fset_find_of_list N.ltb Nltb_strict); left|]. now apply IH. }
    assert (Ln : length (rev (ids n)) = n) by (rewrite rev_length, map_length; apply seq_length). split.
    - intros (w & -> & H). apply K in H. now rewrite H, Ln.
    - intros ->. exists (repeat 0%N n). split; [auto|]. apply K. now rewrite Ln.
  Qed.

  Lemma hanoi_main n k : exists o m0 h, hanoi_init plt PF HP n k = Ok (o, m0, h) /\
    exists y, evals o h m0 y /\ fits (flat_shape n) y /\
      forall p, contains y p = true <-> exists c, p = row c /\ reachable n (N.of_nat k) c.
  Proof.
    assert (Eo : mk_order N N.eqb (rings n) = Ok (order_of N.eqb (rings n))).
    { rewrite rings_list. apply (order_of_list N N.eqb N_is_eqb). apply NoDup_rev, poles_nodup. }
    set (o := order_of N.eqb (rings n)) in *.
    assert (A : at_ring o n) by (exists 0, []; apply sees_whole).
    assert (O : oshape N o (flat_shape n)) by now apply at_shape.
    destruct (initial_state n o Eo) as (m0 & Em & Fm & Cm).
    set (hs := hset (events n k)).
    assert (Hs : forall h, In h hs <-> h = HId \/ In h (swaps n k)).
    { intros h. unfold hs. rewrite (hset_in VI N Empty_set hind HP HPO). apply events_in. }
    assert (Es : mk_sum VI N Empty_set hind HP (events n k) = Ok (match hs with [h] => h | _ => HSum hs end)).
    { apply sum_plain.
      - intros h Hh. apply events_in in Hh. destruct Hh as [->|Hh]; [exact Logic.I|]. apply swaps_in in Hh.
        destruct Hh as (r & s & d & -> & _). exact Logic.I.
      - intros X. assert (Y : In HId (events n k)) by (apply events_in; auto). rewrite X in Y. destruct Y. }
    assert (Hi : In HId hs) by (apply Hs; auto).
    assert (H : exists h, fixpoint VI N Empty_set hind (match hs with [h] => h | _ => HSum hs end) = h /\
      (h = HId /\ hs = [HId] \/ h = HFix (HSum hs))).
    { destruct hs as [|a [|b t]] eqn:E; [destruct Hi| |eauto]. destruct Hi as [->|[]]. exists HId. auto. }
    destruct H as (h & Ef & Hh).
    destruct (C43_rewrite_total VI N Empty_set hind HP HPO US N.eqb N_is_eqb (rings n) o h Eo) as (h' & Er).
    exists o, m0, h'. split.
    { unfold hanoi_init, hanoi_events. rewrite Eo. cbn [horder rbind].
      change (vt VI) with (fset N.ltb) in *. rewrite Em. cbn [horder rbind]. rewrite Es. cbn [hhom rbind]. rewrite Ef, Er. reflexivity. }
    assert (Ty : typed o h (flat_shape n)).
    { destruct Hh as [[-> _]| ->]; [now constructor|]. constructor; [auto|]. constructor; [intros X; rewrite X in Hi; destruct Hi|].
      intros g Hg. apply Hs in Hg. destruct Hg as [->|Hg]; [now constructor|]. apply swaps_in in Hg.
      destruct Hg as (r & s & d & -> & Hr & _). now apply swap_typed. }
    assert (Li : lin VI N Empty_set hind US RO leaf o h).
    { destruct Hh as [[-> _]| ->]; [constructor|]. apply lin_fix; [now apply id_in|]. apply lin_sum.
      intros g Hg. apply Hs in Hg. destruct Hg as [->|Hg]; [constructor|]. apply swaps_in in Hg.
      destruct Hg as (r & s & d & -> & Hr & _). now apply (swap_lin r _ _ n). }
    assert (Fm' : fits (shape_of N (rings n)) m0) by now rewrite rings_shape.
    assert (De : forall q, den o h (row (repeat 0%N n)) q <-> exists c, q = row c /\ reachable n (N.of_nat k) c).
    { intros q. assert (Lr := repeat_length 0%N n). destruct Hh as [[-> E1]| ->].
      - rewrite den_id_iff. split.
        + intros <-. exists (repeat 0%N n). split; [auto|apply rt_refl].
        + intros (c & -> & R). f_equal. symmetry. unfold reachable in R. apply clos_rt_rtn1 in R.
          induction R as [|c c' M _ IH]; [auto|]. exfalso. destruct M as [la s d sm H1 H2 Ne X Y].
          assert (Z : In (swap (length sm) s d) hs).
          { apply Hs. right. apply swaps_in. exists (length sm), (N.to_nat s), (N.to_nat d). rewrite !N2Nat.id.
            split; [auto|]. apply row_inj, (f_equal (@length N)) in IH. rewrite repeat_length, app_length in IH. cbn in IH. repeat split; lia. }
          rewrite E1 in Z. destruct Z as [Z|[]]. discriminate.
      - rewrite (den_fix_iff VI N Empty_set hind US RO o hs _ q Hi).
        rewrite <- (closure_iff n k hs o (valid VI N o) (repeat 0%N n) q A Lr Hs).
        + split; apply clos_incl; intros a b [X Y]; (split; [|auto]); now apply (den_sum_iff VI N Empty_set hind US RO).
        + intros c' Lc'. exists (flat_shape n). split; [auto|]. apply flat_follows. eauto. }
    assert (Ey : exists y, evals o h' m0 y).
    { assert (Ey : exists y, evals o h m0 y).
      { destruct Hh as [[-> _]| ->]; [exists m0; now apply (C35_identity VI PF N Empty_set hind US)|].
        apply (C38_fixpoint_ends_iff VI VL PF PO N Empty_set hind US HO N.eqb N_is_eqb (rings n) o hs (flat_shape n) RO m0 Eo Ty Hi Li Fm').
        exists (map (@row N) (configs (0%N :: ids k) n)). intros p q Cp R. apply Cm in Cp. subst p.
        apply (closure_iff n k hs o _ _ q A (repeat_length 0%N n) Hs) in R.
        - destruct R as (c & -> & R). apply in_map. now apply reach_in.
        - intros c' Lc'. rewrite rings_shape. apply flat_follows. eauto. }
      destruct Ey as (y & Ey). exists y.
      now apply (C43_rewrite_same VI VL PF PO N Empty_set hind HP HPO US HO N.eqb N_is_eqb (rings n) o h h' (flat_shape n) RO m0 y Eo Er Ty Li Fm'). }
    destruct Ey as (y & Ey). exists y. split; [auto|].
    assert (Li' : lin VI N Empty_set hind US RO (fun o h => acts o h (RO o h)) o h) by
      exact (linear_total_linear VI PF N Empty_set hind US RO o h Li).
    destruct (C43_rewrite_agrees VI VL PF PO N Empty_set hind HP HPO US HO N.eqb N_is_eqb (rings n) o h h' (flat_shape n) RO Eo Er Ty Li') as [Ty' _].
    split; [now apply (evals_fits VI VL PF PO N Empty_set hind US HO o h' (flat_shape n) (flat_shape n) m0)|].
    intros p. rewrite (C43_rewrite_image VI VL PF PO N Empty_set hind HP HPO US HO N.eqb N_is_eqb (rings n) o h h' (flat_shape n) RO m0 y Eo Er Ty Li' Fm' Ey p).
    rewrite <- De. split; [intros (p0 & C0 & D); apply Cm in C0; now subst p0|intros D; exists (row (repeat 0%N n)); split; [now apply Cm|auto]].
  Qed.
End Hanoi.
