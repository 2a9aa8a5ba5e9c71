(** * Statistics of the unicity table: sdd/mem/unique_table.hh 20-56, 158-168; sdd/tools/manager_statistics.hh

    The specification counts on the values of the variables of a program, not on the table. *)

From Coq Require Import List Bool NArith Arith Lia Permutation.
From Verif Require Import Base Pow2 HashTable Heap HeapProofs HeapTheorems.
Import ListNotations.

(** ** Specification *)

Section Spec.
  Context {L : Type}.
  Variable leqb : L -> L -> bool.
  Fixpoint tree_eqb (t u : tree L) : bool :=
    match t, u with
    | Node l ts, Node m us =>
        leqb l m &&
        (fix all (ts us : list (tree L)) : bool :=
           match ts, us with
           | [], [] => true
           | t :: ts', u :: us' => tree_eqb t u && all ts' us'
           | _, _ => false
           end) ts us
    end.
  Definition mem_b (t : tree L) (l : list (tree L)) : bool := existsb (tree_eqb t) l.
  (** All the parts of a value, with repetitions. *)
  Fixpoint parts (t : tree L) : list (tree L) := match t with Node _ ts => t :: flat_map parts ts end.
  (** The parts of the values of the variables. *)
  Definition live (r : vals (L := L)) : list (tree L) :=
    flat_map (fun x => match snd x with Some t => parts t | None => [] end) r.
  Definition distinct (l : list (tree L)) : list (tree L) :=
    fold_right (fun t acc => if mem_b t acc then acc else t :: acc) [] l.
  (** How many different data the variables need. *)
  Definition needed (r : vals (L := L)) : nat := length (distinct (live r)).
  (** Creations, and creations of data that is already a part of the value of a variable. *)
  Definition creations (l : list (hop L)) : nat :=
    length (filter (fun o => match o with HCreate _ _ _ _ => true | _ => false end) l).
  Fixpoint repeated (l : list (hop L)) (r : vals (L := L)) : nat :=
    match l with
    | [] => 0
    | o :: l' =>
        match o with
        | HCreate _ x ks _ => if mem_b (Node x (values_of r ks)) (live r) then 1 else 0
        | _ => 0
        end + repeated l' (v_step o r)
    end.
  (** [needed] before the history and after each operation. *)
  Fixpoint profile (l : list (hop L)) (r : vals (L := L)) : list nat :=
    needed r :: match l with
                | [] => []
                | o :: l' => profile l' (v_step o r)
                end.
End Spec.

(** ** Model *)

Section Model.
  Context {L : Type}.
  (** struct unique_table_statistics, unique_table.hh 20-56, without the load factor (a quotient of two others). *)
  Record table_stats : Type := {
    st_size : N; st_peak : N; st_access : N; st_hits : N; st_misses : N; st_rehash : N;
    st_collisions : N; st_alone : N; st_empty : N; st_buckets : N
  }.
  (** unique_table::stats(), unique_table.hh 158-168; manager_statistics.hh copies it. *)
  Definition table_statistics (h : heap L) : res herr table_stats :=
    rbind (collisions (hm h) (ht h)) (fun cae =>
    let '(c, a, e) := cae in
    Ok {| st_size := size_ (ht h); st_peak := upeak h; st_access := access h; st_hits := uhits h; st_misses := umisses h;
          st_rehash := nb_rehash (ht h); st_collisions := c; st_alone := a; st_empty := e; st_buckets := nb (ht h) |}).
End Model.

(** ** Facts about the specification *)

Section SpecFacts.
  Context {L : Type}.
  Variable leqb : L -> L -> bool.
  Hypothesis leqb_spec : forall a b, leqb a b = true <-> a = b.
  Notation tree_eqb := (tree_eqb leqb).
  Notation mem_b := (mem_b leqb).
  Notation needed := (needed leqb).

  Lemma tree_eqb_spec : forall t u, tree_eqb t u = true <-> t = u.
  Proof.
    induction t as [l ts IH] using tree_ind2. intros [m us]. cbn [Stats.tree_eqb]. rewrite andb_true_iff, leqb_spec.
    assert (G : forall us, (fix all (ts us : list (tree L)) : bool :=
                 match ts, us with
                 | [], [] => true
                 | t :: ts', u :: us' => tree_eqb t u && all ts' us'
                 | _, _ => false
                 end) ts us = true <-> ts = us).
    { clear us. induction IH as [|t ts Ht _ IHl]; intros [|u us]; try (split; congruence).
      rewrite andb_true_iff, Ht, IHl. split; [intros [-> ->]; auto|intros H; injection H; auto]. }
    rewrite G. split; [intros [-> ->]; auto|intros H; injection H; auto].
  Qed.
  Lemma mem_b_spec : forall t l, mem_b t l = true <-> In t l.
  Proof.
    intros t l. unfold Stats.mem_b. rewrite existsb_exists. split.
    - intros (x & Hx & E). apply tree_eqb_spec in E. now subst x.
    - intros H. exists t. split; auto. now apply tree_eqb_spec.
  Qed.
  Lemma distinct_in : forall l t, In t (distinct leqb l) <-> In t l.
  Proof.
    intros l t. unfold distinct. induction l as [|x l IH]; cbn [fold_right]; [tauto|].
    destruct (mem_b x _) eqn:E.
    - rewrite IH. split; [now right|intros [<-|H]; auto]. apply mem_b_spec in E. now apply IH.
    - cbn [In]. now rewrite IH.
  Qed.
  Lemma distinct_nodup : forall l, NoDup (distinct leqb l).
  Proof.
    intros l. unfold distinct. induction l as [|x l IH]; cbn [fold_right]; [constructor|].
    destruct (mem_b x _) eqn:E; auto. constructor; auto. intros H. apply mem_b_spec in H. congruence.
  Qed.
  Lemma parts_subtree : forall t u : tree L, In u (parts t) <-> subtree u t.
  Proof.
    clear leqb leqb_spec.
    intros t. induction t as [l ts IH] using tree_ind2. intros u. cbn [parts In]. rewrite in_flat_map. split.
    - intros [<-|(x & Hx & Hu)]; [constructor|]. rewrite Forall_forall in IH. apply (IH x Hx) in Hu.
      econstructor; [|exact Hu]. exact Hx.
    - intros H. inversion H as [|? x ? Hx Hs]; subst; [now left|]. right. cbn [subs] in Hx. exists x. split; auto.
      rewrite Forall_forall in IH. now apply IH.
  Qed.
  Lemma live_spec : forall (r : vals (L := L)) u, In u (live r) <-> exists v t, In (v, Some t) r /\ subtree u t.
  Proof.
    clear leqb leqb_spec.
    intros r u. unfold live. rewrite in_flat_map. split.
    - intros ([v [t|]] & Hx & Hu); [|destruct Hu]. cbn [snd] in Hu. apply parts_subtree in Hu. eauto.
    - intros (v & t & Hx & Hu). exists (v, Some t). split; auto. cbn [snd]. now apply parts_subtree.
  Qed.
  Lemma needed_incl : forall r r' : vals (L := L), (forall u, In u (live r') -> In u (live r)) -> needed r' <= needed r.
  Proof.
    intros r r' H. unfold Stats.needed. apply NoDup_incl_length; [apply distinct_nodup|].
    intros u Hu. rewrite distinct_in in *. auto.
  Qed.

  Lemma put_in : forall (r : vals (L := L)) v x w t, In (w, Some t) (put r v x) -> In (w, Some t) r \/ x = Some t.
  Proof.
    clear leqb leqb_spec.
    induction r as [|[u y] r IH]; intros v x w t H; cbn [put] in H; [destruct H|].
    destruct (Nat.eqb v u).
    - destruct H as [H|H]; [|left; now right]. injection H as _ ->. now right.
    - destruct H as [H|H]; [left; now left|]. destruct (IH _ _ _ _ H); auto. left. now right.
  Qed.
  Lemma drop_in : forall (r : vals (L := L)) v x, In x (drop r v) -> In x r.
  Proof.
    clear leqb leqb_spec.
    induction r as [|[u y] r IH]; intros v x H; cbn [drop] in H; [destruct H|].
    destruct (Nat.eqb v u); [now right|]. destruct H as [H|H]; [now left|]. right. eauto.
  Qed.
  Lemma get_in : forall (r : vals (L := L)) v t, value r v = Some t -> In (v, Some t) r.
  Proof.
    clear leqb leqb_spec.
    intros r v t. unfold value. induction r as [|[u y] r IH]; cbn [get]; [discriminate|].
    destruct (Nat.eqb v u) eqn:E; [|now right; auto]. apply Nat.eqb_eq in E. subst u. destruct y; [|discriminate].
    intros H. injection H as ->. now left.
  Qed.
  Lemma source_live : forall (r : vals (L := L)) s t, source_value r s = Some t -> exists v u, In (v, Some u) r /\ subtree t u.
  Proof.
    clear leqb leqb_spec.
    intros r [v|v i] t H; cbn [source_value] in H.
    - exists v, t. split; [now apply get_in|constructor].
    - destruct (value r v) as [u|] eqn:E; [|discriminate]. exists v, u. split; [now apply get_in|].
      econstructor; [|constructor]. eapply nth_error_In; eauto.
  Qed.
  Lemma subtree_trans : forall t u w : tree L, subtree t u -> subtree u w -> subtree t w.
  Proof.
    clear leqb leqb_spec.
    intros t u w H1 H2. induction H2 as [|u x w Hx H2 IH]; auto. econstructor; eauto.
  Qed.
  (** Only creations bring new data. *)
  Lemma step_live : forall o (r : vals (L := L)) u, match o with HCreate _ _ _ _ => False | _ => True end ->
    In u (live (v_step o r)) -> In u (live r).
  Proof.
    clear leqb leqb_spec.
    assert (Tr : forall (r : vals (L := L)) t u, (exists v w, In (v, Some w) r /\ subtree t w) -> subtree u t ->
                 exists v w, In (v, Some w) r /\ subtree u w).
    { intros r t u (v & w & H1 & H2) H. exists v, w. split; auto. eapply subtree_trans; eauto. }
    assert (Vl : forall (r : vals (L := L)) v t, value r v = Some t -> exists v w, In (v, Some w) r /\ subtree t w).
    { intros r v t H. exists v, t. split; [now apply get_in|constructor]. }
    intros o r u Ho H. rewrite live_spec in *. destruct H as (v & t & H & Hs).
    destruct o as [x l ks a|x s|x w|x s|x w|x|x w]; cbn [v_step] in H; try contradiction.
    - destruct H as [H|H]; [|eauto]. injection H as _ H. eapply Tr; [eapply source_live|]; eauto.
    - destruct H as [H|H].
      + injection H as _ H. eapply Tr; [eapply Vl|]; eauto.
      + apply put_in in H. destruct H as [H|H]; [eauto|discriminate].
    - apply put_in in H. destruct H as [H|H]; [eauto|]. eapply Tr; [eapply source_live|]; eauto.
    - apply put_in in H. destruct H as [H|H]; [|discriminate]. apply put_in in H. destruct H as [H|H]; [eauto|].
      eapply Tr; [eapply Vl|]; eauto.
    - apply drop_in in H. eauto.
    - apply put_in in H. destruct H as [H|H].
      + apply put_in in H. destruct H as [H|H]; [eauto|]. eapply Tr; [eapply Vl|]; eauto.
      + eapply Tr; [eapply Vl|]; eauto.
  Qed.
End SpecFacts.

(** ** Statistics of the model *)

Lemma matching_length : forall A B (R : A -> B -> Prop) l m, NoDup l -> (forall x, In x l -> exists y, In y m /\ R x y) ->
  (forall x x' y, In x l -> In x' l -> R x y -> R x' y -> x = x') -> length l <= length m.
Proof.
  intros A B R l. induction l as [|x l IH]; intros m ND H J; cbn [length]; [lia|].
  inversion ND as [|? ? N1 N2]; subst. destruct (H x) as (y & Hy & Rxy); [now left|].
  apply in_split in Hy. destruct Hy as (m1 & m2 & ->). rewrite app_length. cbn [length].
  assert (K : length l <= length (m1 ++ m2)).
  { apply IH; auto.
    - intros x' Hx'. destruct (H x') as (y' & Hy' & R'); [now right|]. exists y'. split; auto. apply in_app_iff in Hy'. apply in_app_iff.
      destruct Hy' as [Hy'|[<-|Hy']]; auto. exfalso. apply N1. rewrite (J x x' y); auto; [now left|now right].
    - intros a b c Ha Hb. apply J; now right. }
  rewrite app_length in K. lia.
Qed.

Section Facts.
  Context {L : Type}.
  Variable leqb : L -> L -> bool.
  Variable hash bytes : L * list ptr -> N.
  Hypothesis leqb_spec : forall a b, leqb a b = true <-> a = b.
  Notation heap := (heap L).

  (** Size of the table. *)
  Lemma good_size : forall h r k, good hash h r k -> size_ (ht h) = N.of_nat (needed leqb r).
  Proof.
    intros h r k (els & I & S & _). rewrite (table_size _ hash _ _ _ (i_table hash _ _ _ _ _ I)). f_equal. unfold needed.
    apply Nat.le_antisymm.
    - apply (matching_length _ _ (fun p u => denotes (hm h) u p)).
      + apply (table_nodup _ hash _ _ _ (i_table hash _ _ _ _ _ I)).
      + intros p Hp. destruct (live_reachable hash h r els I S p Hp) as (v & t & u & A & B & C). exists u. split; auto.
        rewrite (distinct_in leqb leqb_spec), live_spec. eauto.
      + intros p q u Hp Hq D1 D2. eapply (denotes_inj hash); eauto.
    - apply (matching_length _ _ (fun u p => In p els /\ denotes (hm h) u p)).
      + apply (distinct_nodup leqb leqb_spec).
      + intros u Hu. rewrite (distinct_in leqb leqb_spec), live_spec in Hu. destruct Hu as (v & t & A & B).
        destruct (value_live hash h r els I S v t u A B) as (p & C & D). eauto.
      + intros u w p _ _ [_ D1] [_ D2]. eapply denotes_fun; eauto.
  Qed.

  (** What handles do not change. *)
  Definition same (h h' : heap) : Prop :=
    access h' = access h /\ uhits h' = uhits h /\ umisses h' = umisses h /\ upeak h' = upeak h /\
    nb (ht h') = nb (ht h) /\ nb_rehash (ht h') = nb_rehash (ht h).
  Lemma same_refl : forall h, same h h.
  Proof. intros h. repeat split. Qed.
  Lemma same_trans : forall h1 h2 h3, same h1 h2 -> same h2 h3 -> same h1 h3.
  Proof. intros h1 h2 h3 (?&?&?&?&?&?) (?&?&?&?&?&?). repeat split; congruence. Qed.
  Lemma incr_same : forall p h h', incr p h = Ok h' -> same h h'.
  Proof.
    intros p h h' E. unfold incr in E. destruct (deref (hm h) p) as [c|]; [|discriminate]. cbn [rbind] in E.
    destruct (N.eqb _ _); [discriminate|]. injection E as <-. repeat split.
  Qed.
  Lemma free_same : forall p h h', free_block p h = Ok h' -> same h h'.
  Proof. intros p h h' E. unfold free_block in E. destruct (blocks h p); [|discriminate]. injection E as <-. repeat split. Qed.
  Lemma erase_same : forall m t p m' t', erase (fun d : uniq L => u_data d) (node_eqb leqb) hash m t p = Ok (m', t') ->
    nb t' = nb t /\ nb_rehash t' = nb_rehash t.
  Proof.
    intros m t p m' t' E. unfold erase in E. destruct (deref m p); [|discriminate]. cbn [rbind] in E.
    destruct (bucket _ _); [|discriminate]. cbn [rbind] in E. destruct (erase_loop _ _ _ _ _ _ _ _ _); [|discriminate]. cbn [rbind] in E.
    injection E as <- <-. auto.
  Qed.
  Lemma fold_same : forall (f : heap -> ptr -> res herr heap) ps h h', (forall x y q, f x q = Ok y -> same x y) ->
    fold_left (fun r q => rbind r (fun h => f h q)) ps (Ok h) = Ok h' -> same h h'.
  Proof.
    intros f ps. induction ps as [|p ps IH]; intros h h' Hf E; cbn [fold_left rbind] in E; [injection E as <-; apply same_refl|].
    destruct (f h p) as [h1|e] eqn:E1.
    - eapply same_trans; [eapply Hf; eauto|]. eapply IH; eauto.
    - exfalso. clear - E. induction ps as [|q ps IH]; cbn [fold_left rbind] in E; [discriminate|auto].
  Qed.
  Lemma release_same : forall n p h h', release leqb hash n p h = Ok h' -> same h h'.
  Proof.
    induction n as [|n IH]; intros p h h' E; cbn [release] in E; [discriminate|].
    destruct (deref (hm h) p) as [c|]; [|discriminate]. cbn [rbind] in E. destruct (N.eqb _ 0); [discriminate|].
    destruct (N.eqb _ 0); [|injection E as <-; repeat split].
    destruct (erase _ _ _ _ _ _) as [[m1 t1]|] eqn:Ee; [|discriminate]. cbn [rbind fst snd] in E. apply erase_same in Ee.
    destruct (deref m1 p) as [c1|]; [|discriminate]. cbn [rbind] in E.
    match type of E with rbind ?x _ = _ => destruct x as [h2|] eqn:Ef; [|discriminate] end. cbn [rbind] in E.
    apply free_same in E. apply (fold_same (fun h q => release leqb hash n q h)) in Ef.
    - destruct Ee as [E1 E2]. cbn [with_mem ht] in E1, E2. destruct E as (?&?&?&?&?&?), Ef as (?&?&?&?&?&?).
      cbn [with_mem with_table access uhits umisses upeak ht] in *. repeat split; congruence.
    - intros x y q. apply IH.
  Qed.
  Lemma release_var_same : forall v h h', release_var leqb hash v h = Ok h' -> same h h'.
  Proof.
    intros v h h' E. unfold release_var in E. destruct (get (env h) v) as [[p|]|]; [| |discriminate].
    - eapply release_same; eauto.
    - injection E as <-. apply same_refl.
  Qed.
  Lemma step_same : forall o h h', match o with HCreate _ _ _ _ => False | _ => True end ->
    h_step leqb hash bytes o h = Ok h' -> same h h'.
  Proof.
    intros o h h' Ho E. destruct o as [v l ks a|v s|v w|v s|v w|v|v w]; cbn [h_step] in E; try contradiction.
    - destruct (bind_source h s) as [b|]; [|discriminate]. cbn [rbind] in E. destruct (read_source h b) as [q|]; [|discriminate].
      cbn [rbind] in E. destruct (incr q h) as [h1|] eqn:E1; [|discriminate]. cbn [rbind] in E. injection E as <-.
      apply incr_same in E1. exact E1.
    - destruct (get (env h) w); [|discriminate]. injection E as <-. repeat split.
    - destruct (bind_source h s) as [b|]; [|discriminate]. cbn [rbind] in E. destruct (read_source h b) as [q|]; [|discriminate].
      cbn [rbind] in E. destruct (release_var leqb hash v h) as [h1|] eqn:E1; [|discriminate]. cbn [rbind] in E.
      destruct (read_source h1 b) as [q'|]; [|discriminate]. cbn [rbind] in E. apply incr_same in E. apply release_var_same in E1.
      eapply same_trans; [exact E1|]. exact E.
    - destruct (release_var leqb hash v h) as [h1|] eqn:E1; [|discriminate]. cbn [rbind] in E.
      destruct (get (env h1) w); [|discriminate]. injection E as <-. apply release_var_same in E1. exact E1.
    - destruct (release_var leqb hash v h) as [h1|] eqn:E1; [|discriminate]. cbn [rbind] in E. injection E as <-.
      apply release_var_same in E1. exact E1.
    - destruct (get (env h) v); [|discriminate]. destruct (get (env h) w); [|discriminate]. injection E as <-. repeat split.
  Qed.

  (** Buckets double at each rehash. *)
  Definition doubled (t t' : table) : Prop :=
    (nb t' = nb t /\ nb_rehash t' = nb_rehash t) \/ (nb t' = nb t * 2 /\ nb_rehash t' = nb_rehash t + 1)%N.
  Lemma insert_doubled : forall m t p m' t' r, (nb t < 2 ^ 63)%N ->
    insert (fun d : uniq L => u_data d) (node_eqb leqb) hash m t p = Ok (m', t', r) -> doubled t t'.
  Proof.
    intros m t p m' t' r Hn E. unfold insert in E. destruct (insert_impl _ _ _ _ _ _ _ _) as [[[[m1 b] sz] ret]|]; [|discriminate].
    cbn [rbind] in E. unfold rehash in E. destruct (overloaded 3 4 _).
    - cbn [nb bks size_ nb_rehash] in E. destruct (rehash_loop _ _ _ _ _ _ _) as [[[m2 b2] sz2]|]; [|discriminate].
      cbn [rbind fst snd] in E. injection E as <- <- <-. right. cbn [nb nb_rehash]. split; auto. unfold u64.
      apply N.mod_small. change (2 ^ 64)%N with (2 ^ 63 * 2)%N. lia.
    - cbn [rbind fst snd] in E. injection E as <- <- <-. left. auto.
  Qed.
  Lemma make_doubled : forall d a h q h', (nb (ht h) < 2 ^ 63)%N -> make leqb hash bytes d a h = Ok (q, h') -> doubled (ht h) (ht h').
  Proof.
    intros d a h q h' Hn E. unfold make in E. destruct (allocate (bytes d) a h) as [[p h1]|] eqn:E1; [|discriminate]. cbn [rbind fst snd] in E.
    assert (T1 : ht h1 = ht h).
    { unfold allocate in E1. destruct (ucache h); [destruct (_ <=? _)%N|]; try (destruct (blocks h a); [discriminate|]); injection E1 as <- <-; auto. }
    destruct (construct bytes p d h1) as [h2|] eqn:E2; [|discriminate]. cbn [rbind] in E.
    assert (T2 : same h1 h2).
    { unfold construct in E2. destruct (blocks h1 p); [|discriminate]. destruct (hm h1 p); [discriminate|]. destruct (_ <=? _)%N; [|discriminate].
      match type of E2 with rbind ?x _ = _ => destruct x as [h3|] eqn:Ef; [|discriminate] end. cbn [rbind] in E2. injection E2 as <-.
      apply (fold_same (fun h q => incr q h)) in Ef; [exact Ef|]. intros x y z. apply incr_same. }
    destruct (unify leqb hash bytes p d h2) as [[q3 h3]|] eqn:E3; [|discriminate]. cbn [rbind fst snd] in E.
    destruct (incr q3 h3) as [h4|] eqn:E4; [|discriminate]. cbn [rbind] in E. injection E as <- <-. apply incr_same in E4.
    assert (T3 : doubled (ht h2) (ht h3)).
    { unfold unify in E3. destruct (insert _ _ _ _ _ _) as [[[m t] [q0 new]]|] eqn:Ei; [|discriminate]. cbn [rbind] in E3.
      apply insert_doubled in Ei; [|destruct T2 as (_&_&_&_&X&_); rewrite X, T1; exact Hn].
      destruct new; [injection E3 as <- <-; exact Ei|].
      match type of E3 with rbind ?x _ = _ => destruct x as [h5|] eqn:Ef; [|discriminate] end. cbn [rbind] in E3.
      apply (fold_same (fun h x => release_all leqb hash h x)) in Ef; [|intros x y z; apply release_same].
      assert (T5 : doubled (ht h2) (ht h5)).
      { destruct Ef as (_&_&_&_&X&Y). cbn [with_table ht] in X, Y. unfold doubled in *. rewrite X, Y. exact Ei. }
      cbn [with_stats with_mem ucsize ucache] in E3. destruct (_ <? _)%N.
      - destruct (ucache h5).
        + destruct (free_block _ _) as [h6|] eqn:E6; [|discriminate]. cbn [rbind] in E3. injection E3 as <- <-. apply free_same in E6.
          destruct E6 as (_&_&_&_&X&Y). cbn [with_stats with_mem with_blocks ht] in *. unfold doubled in *. rewrite X, Y. exact T5.
        + cbn [rbind] in E3. injection E3 as <- <-. exact T5.
      - destruct (free_block _ _) as [h6|] eqn:E6; [|discriminate]. cbn [rbind] in E3. injection E3 as <- <-. apply free_same in E6.
        destruct E6 as (_&_&_&_&X&Y). cbn [with_stats with_mem with_blocks ht] in *. unfold doubled in *. rewrite X, Y. exact T5. }
    destruct T2 as (_&_&_&_&X2&Y2), E4 as (_&_&_&_&X4&Y4). unfold doubled in *. rewrite X4, Y4, <- T1, <- X2, <- Y2. exact T3.
  Qed.

  (** A creation. *)
  Lemma create_stats : forall v l ks a h r k h', good hash h r k -> proper (HCreate v l ks a) r -> allocator_ok (HCreate v l ks a) h ->
    (N.of_nat (k + cost (HCreate v l ks a)) < 2 ^ 32 - 1)%N -> h_step leqb hash bytes (HCreate v l ks a) h = Ok h' ->
    access h' = (access h + 1)%N /\ doubled (ht h) (ht h') /\
    (if mem_b leqb (Node l (values_of r ks)) (live r)
     then uhits h' = (uhits h + 1)%N /\ umisses h' = umisses h /\ upeak h' = upeak h
     else uhits h' = uhits h /\ umisses h' = (umisses h + 1)%N /\ upeak h' = N.max (upeak h) (size_ (ht h'))).
  Proof.
    intros v l ks a h r k h' Gd Pr Al Hb E. destruct Gd as (els & I & S & Hl). cbn [h_step proper allocator_ok cost] in *.
    destruct (map_held h r ks S Pr) as (ps & Em & Fd & Kp & Ln). rewrite Em in E. cbn [rbind] in E.
    destruct (make_ok leqb hash bytes leqb_spec h (handles (env h)) els [] [] (l, ps) a I Al (fun H => H))
      as (q & h1 & els1 & E1 & I1 & Uq & Ux & V & L1 & Els & A1 & St & _).
    { cbn [snd]. intros x Hx. apply (inv_root hash _ _ _ _ _ x I). auto. }
    { cbn [snd]. rewrite Ln. cbn [length]. lia. }
    rewrite E1 in E. cbn [rbind fst snd] in E. injection E as <-. cbn [with_env access uhits umisses upeak ht].
    split; auto. split; [eapply make_doubled; [apply (i_nb hash _ _ _ _ _ I)|exact E1]|].
    assert (K : forall t p, In p els -> denotes (hm h) t p -> denotes (hm h1) t p).
    { intros t p. apply (denotes_keep (hm h) (hm h1) els).
      - intros x Hx. apply Ux, Hx.
      - intros x y Hx Hy. unfold kids in Hy. rewrite (proj2 (Ux x Hx)) in Hy. apply (inv_closed hash _ _ _ _ _ I x y Hx Hy). }
    assert (Fd1 : Forall2 (denotes (hm h1)) (values_of r ks) ps).
    { assert (Kps : forall x, In x ps -> In x els) by (intros x Hx; apply (inv_root hash _ _ _ _ _ x I); auto).
      clear - Fd Kps K. induction Fd as [|t p ts ps H F IH]; constructor; [apply K; auto; apply Kps; now left|].
      apply IH. intros x Hx. apply Kps. now right. }
    assert (Dq : denotes (hm h1) (Node l (values_of r ks)) q) by (apply denotes_node; eauto).
    assert (Hq : In q els <-> In (Node l (values_of r ks)) (live r)).
    { rewrite live_spec. split.
      - intros Hq. destruct (live_reachable hash h r els I S q Hq) as (w & t & u & A & B & C). exists w, t. split; auto.
        rewrite (denotes_fun _ _ _ _ Dq (K _ _ Hq C)). exact B.
      - intros (w & t & A & B). destruct (value_live hash h r els I S w t _ A B) as (p & C & D).
        rewrite (denotes_inj hash h1 _ els1 [] [] (Node l (values_of r ks)) q p I1); auto.
        + apply (inv_root hash _ _ _ _ _ q I1). now left.
        + destruct Els as [-> | ->]; [exact C|now right]. }
    destruct (in_dec N.eq_dec q els) as [Hi|Ho], (mem_b leqb _ (live r)) eqn:Em'; auto.
    - exfalso. apply Hq in Hi. apply (mem_b_spec leqb leqb_spec) in Hi. congruence.
    - exfalso. apply (mem_b_spec leqb leqb_spec) in Em'. apply Ho, Hq, Em'.
  Qed.

  Fixpoint peak_of (l : list nat) : N := match l with [] => 0 | x :: l' => N.max (N.of_nat x) (peak_of l') end.

  Lemma run_stats : forall l h r k h', good hash h r k -> history leqb hash bytes l h r -> (N.of_nat (k + total l) < 2 ^ 32 - 1)%N ->
    h_run leqb hash bytes l h = Ok h' -> (size_ (ht h) <= upeak h)%N ->
    access h' = (access h + N.of_nat (creations l))%N /\ uhits h' = (uhits h + N.of_nat (repeated leqb l r))%N /\
    (umisses h' + N.of_nat (repeated leqb l r) = umisses h + N.of_nat (creations l))%N /\
    upeak h' = N.max (upeak h) (peak_of (profile leqb l r)) /\ (nb (ht h') * 2 ^ nb_rehash (ht h) = nb (ht h) * 2 ^ nb_rehash (ht h'))%N.
  Proof.
    induction l as [|o l IH]; intros h r k h' G H B E Pk.
    - cbn in E. injection E as <-. cbn [creations filter length repeated profile peak_of]. rewrite <- (good_size h r k G).
      repeat split; try lia.
    - destruct H as (P & A & H). unfold total in B. cbn [map list_sum fold_right] in B. fold (list_sum (map cost l)) in B.
      fold (total l) in B. 
      destruct (step_ok leqb hash bytes leqb_spec o h r k G P A) as (h1 & E1 & G1); [lia|].
      unfold h_run in E. cbn [fold_left] in E. cbn [rbind] in E. rewrite E1 in E.
      fold (h_run leqb hash bytes l h1) in E.
      assert (St : access h1 = (access h + match o with HCreate _ _ _ _ => 1 | _ => 0 end)%N /\
        let rp := match o with HCreate _ x ks _ => if mem_b leqb (Node x (values_of r ks)) (live r) then 1 else 0 | _ => 0 end in
        uhits h1 = (uhits h + N.of_nat rp)%N /\
        (umisses h1 + N.of_nat rp = umisses h + match o with HCreate _ _ _ _ => 1 | _ => 0 end)%N /\
        (upeak h1 = N.max (upeak h) (size_ (ht h1)))%N /\
        (nb (ht h1) * 2 ^ nb_rehash (ht h) = nb (ht h) * 2 ^ nb_rehash (ht h1))%N).
      { assert (Sm : match o with HCreate _ _ _ _ => False | _ => True end -> (size_ (ht h1) <= size_ (ht h))%N).
        { intros Ho. rewrite (good_size h r k G), (good_size h1 _ _ G1).
          pose proof (needed_incl leqb leqb_spec r (v_step o r) (fun u => step_live o r u Ho)). lia. }
        destruct o as [v x ks a|v s|v w|v s|v w|v|v w];
          try (pose proof (fun X => step_same _ h h1 X E1) as X; destruct (X Logic.I) as (Q1&Q2&Q3&Q4&Q5&Q6); clear X; specialize (Sm Logic.I); cbv zeta;
               rewrite Q1, Q2, Q3, Q4, Q5, Q6; repeat split; first [reflexivity|lia]).
        clear Sm. destruct (create_stats v x ks a h r k h1 G P A) as (Q1 & Q2 & Q3); auto; [lia|].
        assert (Db : (nb (ht h1) * 2 ^ nb_rehash (ht h) = nb (ht h) * 2 ^ nb_rehash (ht h1))%N).
        { destruct Q2 as [[-> ->]|[-> ->]]; auto. rewrite N.pow_add_r, N.pow_1_r. lia. }
        assert (Le : mem_b leqb (Node x (values_of r ks)) (live r) = true -> (size_ (ht h1) <= size_ (ht h))%N).
        { intros M. rewrite (good_size h r k G), (good_size h1 _ _ G1).
          assert (Q : needed leqb (v_step (HCreate v x ks a) r) <= needed leqb r); [|lia].
          apply (needed_incl leqb leqb_spec). intros u Hu. apply (mem_b_spec leqb leqb_spec) in M. rewrite live_spec in *.
          destruct Hu as (w & t & Hw & Hs). cbn [v_step] in Hw. destruct Hw as [Hw|Hw]; [|eauto]. injection Hw as <- <-.
          destruct M as (w' & t' & Hw' & Hs'). exists w', t'. split; auto. eapply subtree_trans; eauto. }
        cbv zeta. destruct (mem_b leqb _ (live r)).
        - destruct Q3 as (-> & -> & ->). specialize (Le eq_refl). rewrite Q1. repeat split; auto; lia.
        - destruct Q3 as (-> & -> & ->). rewrite Q1. repeat split; auto; lia. }
      destruct St as (S1 & S2 & S3 & S4 & S5).
      destruct (IH h1 (v_step o r) (k + cost o) h' G1 (H h1 E1)) as (T1 & T2 & T3 & T4 & T5); auto; [lia|lia|].
      assert (Cr : creations (o :: l) = match o with HCreate _ _ _ _ => 1 | _ => 0 end + creations l)
        by (unfold creations; cbn [filter]; destruct o; reflexivity).
      cbn [repeated profile peak_of]. rewrite Cr. rewrite T1, T2, T4, S1, S2, S4.
      assert (Hd : exists x, profile leqb l (v_step o r) = needed leqb (v_step o r) :: x) by (destruct l; cbn [profile]; eauto).
      destruct Hd as (x & Hd). rewrite Hd. cbn [peak_of]. rewrite <- (good_size h r k G), <- (good_size h1 _ _ G1).
      repeat split; try (destruct o; lia).
      assert (Z : (2 ^ nb_rehash (ht h1) <> 0)%N) by (apply N.pow_nonzero; discriminate).
      apply (N.mul_cancel_r _ _ _ Z).
      transitivity ((nb (ht h') * 2 ^ nb_rehash (ht h1)) * 2 ^ nb_rehash (ht h))%N; [ring|]. rewrite T5.
      transitivity ((nb (ht h1) * 2 ^ nb_rehash (ht h)) * 2 ^ nb_rehash (ht h'))%N; [ring|]. rewrite S5. ring.
  Qed.

  Lemma good_collisions : forall h r k, good hash h r k ->
    exists c a e, collisions (hm h) (ht h) = Ok (c, a, e) /\ (c + a + e = nb (ht h))%N /\ (a + 2 * c <= size_ (ht h))%N.
  Proof.
    intros h r k (els & I & S & _).
    destruct (collisions_ok _ hash (hm h) (ht h) els (i_table hash _ _ _ _ _ I)) as (bs & R & P & EC). rewrite EC.
    do 3 eexists. split; [reflexivity|].
    assert (Len : length bs = N.to_nat (nb (ht h))).
    { rewrite <- (r_len _ _ _ _ _ _ _ R). pose proof (r_chain _ _ _ _ _ _ _ R) as F. clear - F.
      induction F; simpl; congruence. }
    rewrite (r_size _ _ _ _ _ _ _ R). unfold nb_with. split.
    - transitivity (N.of_nat (length bs)); [|lia]. clear. induction bs as [|l bs IH]; [reflexivity|]. cbn [filter].
      destruct (length l) as [|[|n]]; cbn [Nat.ltb Nat.leb Nat.eqb length] in *; lia.
    - clear. induction bs as [|l bs IH]; [reflexivity|]. cbn [filter concat]. rewrite app_length.
      destruct (length l) as [|[|n]]; cbn [Nat.ltb Nat.leb Nat.eqb length] in *; lia.
  Qed.
End Facts.
