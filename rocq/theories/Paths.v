(** * SDD::paths(): model of sdd/dd/path_generator.hh *)

From Coq Require Import List Bool NArith Arith Lia Permutation.
From Verif Require Import Base SortedSets Values Sdd SddFacts DDModel DDProofs Spec DDTheorems Count.
Import ListNotations.

Section Paths.
  Variable VI : values_impl.
  Notation V := (vt VI).
  Notation sdd := (sdd V).

  (** paths_visitor, 21-72.  The path is a vector shared by all calls (push_back, pop_back): it is
      passed in and out.  The stack (sdd_stack.hh 15-27) is an immutable list.  The result is the
      sequence of the paths given to [yield], and the final path.  [None]: not enough fuel.
      Simplification: the coroutine is run until its end. *)
  Definition yielded : Type := (list (list V) * list V)%type.
  Fixpoint paths_visit (fuel : nat) (t : sdd) (path : list V) (stack : list sdd) : option yielded :=
    match fuel with
    | 0 => None
    | S n =>
        match t with
        | Hier _ arcs =>                                                   (* 27-38 *)
            (fix loop (l : list (sdd * sdd)) (path : list V) : option yielded :=
               match l with
               | [] => Some ([], path)
               | (v, s) :: l' =>
                   match paths_visit n v path (s :: stack) with
                   | None => None
                   | Some (ys, path1) =>
                       match loop l' path1 with
                       | None => None
                       | Some (ys', path2) => Some (ys ++ ys', path2)
                       end
                   end
               end) arcs path
        | Flat _ arcs =>                                                   (* 40-51 *)
            (fix loop (l : list (V * sdd)) (path : list V) : option yielded :=
               match l with
               | [] => Some ([], path)
               | (v, s) :: l' =>
                   match paths_visit n s (path ++ [v]) stack with
                   | None => None
                   | Some (ys, path1) =>
                       match loop l' (removelast path1) with
                       | None => None
                       | Some (ys', path2) => Some (ys ++ ys', path2)
                       end
                   end
               end) arcs path
        | One =>                                                           (* 53-64 *)
            match stack with
            | s :: next => paths_visit n s path next
            | [] => Some ([path], path)
            end
        | Zero => Some ([path], path)                                      (* 66-72 *)
        end
    end.

  (** Upper bound of the depth of recursion. *)
  Fixpoint depth (t : sdd) : nat :=
    match t with
    | Zero | One => 1
    | Flat _ arcs => S (list_max (map (fun a => depth (snd a)) arcs))
    | Hier _ arcs => S (list_max (map (fun a => depth (fst a) + depth (snd a)) arcs))
    end.

  (** SDD::paths, sdd/dd/definition.hh 209-214; paths, 78-84. *)
  Definition paths (x : sdd) : option (list (list V)) :=
    option_map fst (paths_visit (depth x) x [] []).

  (** ** Specification *)

  (** The sequence of values of an assignment, without the structure. *)
  Fixpoint flat (p : asg (elt VI)) : list (elt VI) :=
    match p with
    | ANil => []
    | AVal _ a q => a :: flat q
    | ANest _ n q => flat n ++ flat q
    end.

  (** A sequence of values belongs to the product of a path. *)
  Definition in_product (w : list (elt VI)) (pt : list V) : Prop :=
    Forall2 (fun v a => v_mem VI v a = true) pt w.

  (** Number of sequences in the product of a path. *)
  Fixpoint product_size (pt : list V) : N :=
    match pt with
    | [] => 1%N
    | v :: pt' => (v_size VI v * product_size pt')%N
    end.

  (** ** Proofs *)

  Fixpoint paths_of (t : sdd) : list (list V) :=
    match t with
    | Zero => []
    | One => [[]]
    | Flat _ arcs => flat_map (fun a => map (cons (fst a)) (paths_of (snd a))) arcs
    | Hier _ arcs => flat_map (fun a => flat_map (fun p => map (app p) (paths_of (snd a))) (paths_of (fst a))) arcs
    end.
  Fixpoint paths_stack (t : sdd) (stack : list sdd) : list (list V) :=
    match stack with
    | [] => paths_of t
    | s :: st => flat_map (fun p => map (app p) (paths_stack s st)) (paths_of t)
    end.

  (** No |0| below. *)
  Inductive nz : sdd -> Prop :=
  | nz_one : nz One
  | nz_flat : forall x arcs, (forall v s, In (v, s) arcs -> nz s) -> nz (Flat x arcs)
  | nz_hier : forall x arcs, (forall v s, In (v, s) arcs -> nz v /\ nz s) -> nz (Hier x arcs).

  Lemma canonical_nz : forall lt t, canonical VI lt t -> t <> Zero -> nz t.
  Proof.
    intros lt t H. induction H as [| |x arcs Hne Hnz Hc IH HD HS|x arcs Hne Hnz Hcv IHv Hc IH HD HS];
      intros Hz.
    - congruence.
    - constructor.
    - constructor. intros v s Hin. eapply IH; eauto. apply (Hnz _ _ Hin).
    - constructor. intros v s Hin. split; [eapply IHv; eauto|eapply IH; eauto]; apply (Hnz _ _ Hin).
  Qed.

  Fixpoint stack_depth (stack : list sdd) : nat :=
    match stack with
    | [] => 0
    | s :: st => depth s + stack_depth st
    end.

  Lemma depth_in_flat : forall x arcs v s, In (v, s) arcs -> depth s < depth (Flat x arcs).
  Proof.
    intros x arcs v s H. cbn [depth]. apply Nat.lt_succ_r.
    apply (proj1 (list_max_le_in _ (fun a : V * sdd => depth (snd a)) arcs _) (Nat.le_refl _) (v, s) H).
  Qed.
  Lemma depth_in_hier : forall x arcs v s, In (v, s) arcs -> depth v + depth s < depth (Hier x arcs).
  Proof.
    intros x arcs v s H. cbn [depth]. apply Nat.lt_succ_r.
    apply (proj1 (list_max_le_in _ (fun a : sdd * sdd => depth (fst a) + depth (snd a)) arcs _)
             (Nat.le_refl _) (v, s) H).
  Qed.

  Lemma flat_map_app_assoc : forall (l : list (list V)) (f g : list (list V)),
    flat_map (fun p => map (app p) (flat_map (fun q => map (app q) g) f)) l =
    flat_map (fun p => map (app p) g) (flat_map (fun p => map (app p) f) l).
  Proof.
    intros l f g. induction l as [|p l IH]; simpl; auto.
    rewrite flat_map_app, <- IH. f_equal. clear IH l.
    induction f as [|q f IH]; simpl; auto. rewrite map_app, map_map, IH. f_equal.
    apply map_ext. intros x. now rewrite app_assoc.
  Qed.

  Lemma paths_stack_flat_cons : forall x v s arcs stack,
    paths_stack (Flat x ((v, s) :: arcs)) stack =
    map (cons v) (paths_stack s stack) ++ paths_stack (Flat x arcs) stack.
  Proof.
    intros x v s arcs [|u st]; cbn [paths_stack paths_of flat_map fst snd]; auto.
    rewrite flat_map_app. f_equal. clear. induction (paths_of s) as [|p l IH]; simpl; auto.
    rewrite map_app, map_map, IH. reflexivity.
  Qed.
  Lemma paths_stack_hier_cons : forall x v s arcs stack,
    paths_stack (Hier x ((v, s) :: arcs)) stack =
    paths_stack v (s :: stack) ++ paths_stack (Hier x arcs) stack.
  Proof.
    intros x v s arcs [|u st]; cbn [paths_stack paths_of flat_map fst snd]; auto.
    rewrite flat_map_app. f_equal. symmetry. apply flat_map_app_assoc.
  Qed.

  Lemma visit_paths : forall fuel t stack path, nz t -> Forall nz stack ->
    depth t + stack_depth stack <= fuel ->
    paths_visit fuel t path stack = Some (map (app path) (paths_stack t stack), path).
  Proof.
    induction fuel as [|n IH]; intros t stack path Ht Hs Hf.
    - destruct t; simpl in Hf; lia.
    - destruct t as [| |x arcs|x arcs]; cbn [paths_visit].
      + inversion Ht.
      + destruct stack as [|s st].
        * simpl. now rewrite app_nil_r.
        * inversion Hs; subst. rewrite IH; auto.
          -- cbn [paths_stack paths_of flat_map]. rewrite app_nil_r. now rewrite map_id.
          -- simpl in *. lia.
      + inversion Ht as [|? ? Hnz|]; subst.
        assert (Hd : forall v s, In (v, s) arcs -> depth s + stack_depth stack <= n).
        { intros v s Hin. pose proof (depth_in_flat x _ _ _ Hin). lia. }
        clear Hf Ht. revert path. induction arcs as [|[v s] arcs IHa]; intros path.
        * destruct stack; reflexivity.
        * rewrite IH; auto.
          -- rewrite removelast_last. rewrite IHa.
             ++ rewrite paths_stack_flat_cons, map_app, map_map. do 3 f_equal.
                apply map_ext. intros q. now rewrite <- app_assoc.
             ++ intros v' s' Hin. apply (Hnz v'). now right.
             ++ intros v' s' Hin. apply (Hd v'). now right.
          -- apply (Hnz v). now left.
          -- apply (Hd v). now left.
      + inversion Ht as [| |? ? Hnz]; subst.
        assert (Hd : forall v s, In (v, s) arcs -> depth v + (depth s + stack_depth stack) <= n).
        { intros v s Hin. pose proof (depth_in_hier x _ _ _ Hin). lia. }
        clear Hf Ht. revert path. induction arcs as [|[v s] arcs IHa]; intros path.
        * destruct stack; reflexivity.
        * rewrite IH; auto.
          -- rewrite IHa.
             ++ rewrite paths_stack_hier_cons, map_app. reflexivity.
             ++ intros v' s' Hin. apply (Hnz v' s'). now right.
             ++ intros v' s' Hin. apply (Hd v' s'). now right.
          -- apply (Hnz v s). now left.
          -- constructor; auto. apply (Hnz v s). now left.
          -- apply (Hd v s). now left.
  Qed.

  Lemma paths_correct : forall t, nz t -> paths t = Some (paths_of t).
  Proof.
    intros t H. unfold paths. rewrite visit_paths; auto.
    - cbn [option_map fst paths_stack]. now rewrite map_id.
    - simpl. lia.
  Qed.

  Hypothesis VL : values_laws VI.

  Lemma product_app : forall w p q, in_product w (p ++ q) <->
    exists w1 w2, w = w1 ++ w2 /\ in_product w1 p /\ in_product w2 q.
  Proof.
    intros w p q. split.
    - intros H. apply Forall2_app_inv_l in H. destruct H as (w1 & w2 & H1 & H2 & ->). eauto 6.
    - intros (w1 & w2 & -> & H1 & H2). now apply Forall2_app.
  Qed.

  Lemma paths_of_spec : forall t w, (exists pt, In pt (paths_of t) /\ in_product w pt) <->
    (exists p, contains t p = true /\ flat p = w).
  Proof.
    induction t as [| |x arcs IH|x arcs IH] using sdd_ind'; intros w; cbn [paths_of].
    - split.
      + intros (pt & [] & _).
      + intros (p & H & _). destruct p; discriminate.
    - split.
      + intros (pt & [<-|[]] & H). inversion H; subst. exists ANil. auto.
      + intros (p & H & <-). destruct p; try discriminate. exists []. simpl. split; auto. constructor.
    - split.
      + intros (pt & Hin & H). apply in_flat_map in Hin. destruct Hin as ([v s] & Hin & Hpt).
        cbn [fst snd] in Hpt. apply in_map_iff in Hpt. destruct Hpt as (pt' & <- & Hpt).
        inversion H as [|? a ? w' Ha Hw]; subst.
        destruct (proj1 (IH v s Hin w')) as (q & Hq & Eq); [eauto|].
        exists (AVal x a q). split.
        * rewrite contains_flat, N.eqb_refl. apply acontains_spec. eauto.
        * simpl. now rewrite Eq.
      + intros (p & H & <-). destruct p as [|y a q|y m q]; try discriminate.
        rewrite contains_flat in H. apply andb_prop in H. destruct H as [_ H].
        apply acontains_spec in H. destruct H as (v & s & Hin & Ha & Hq).
        destruct (proj2 (IH v s Hin (flat q))) as (pt & Hpt & Hw); [eauto|].
        exists (v :: pt). split.
        * apply in_flat_map. exists (v, s). split; auto. now apply (in_map (cons v)).
        * simpl. now constructor.
    - split.
      + intros (pt & Hin & H). apply in_flat_map in Hin. destruct Hin as ([v s] & Hin & Hpt).
        cbn [fst snd] in Hpt. apply in_flat_map in Hpt. destruct Hpt as (p1 & Hp1 & Hpt).
        apply in_map_iff in Hpt. destruct Hpt as (p2 & <- & Hp2).
        apply product_app in H. destruct H as (w1 & w2 & -> & H1 & H2).
        destruct (IH v s Hin) as [IHv IHs].
        destruct (proj1 (IHv w1)) as (n & Hn & En); [eauto|].
        destruct (proj1 (IHs w2)) as (q & Hq & Eq); [eauto|].
        exists (ANest x n q). split.
        * rewrite contains_hier, N.eqb_refl. apply acontains_spec. eauto.
        * simpl. now rewrite Eq, En.
      + intros (p & H & <-). destruct p as [|y a q|y m q]; try discriminate.
        rewrite contains_hier in H. apply andb_prop in H. destruct H as [_ H].
        apply acontains_spec in H. destruct H as (v & s & Hin & Ha & Hq).
        destruct (IH v s Hin) as [IHv IHs].
        destruct (proj2 (IHs (flat q))) as (p2 & Hp2 & Hw2); [eauto|].
        destruct (proj2 (IHv (flat m))) as (p1 & Hp1 & Hw1); [eauto|].
        exists (p1 ++ p2). split.
        * apply in_flat_map. exists (v, s). split; auto. cbn [fst snd].
          apply in_flat_map. exists p1. split; auto. now apply (in_map (app p1)).
        * simpl. apply product_app. eauto.
  Qed.

  (** *** Disjointness *)

  (** Assignments that do not clash are told apart by their values. *)
  Lemma flat_prefix : forall p q u v, ~ aclash p q -> flat p ++ u = flat q ++ v -> p = q /\ u = v.
  Proof.
    induction p as [|x a p IH|x n IHn p IH]; intros [|y b q|y m q] u v NC E; cbn [aclash] in NC; try tauto.
    - cbn [flat app] in E. injection E as <- E.
      destruct (N.eq_dec x y) as [<-|NE]; [|tauto].
      destruct (IH q u v) as [<- <-]; [tauto|exact E|auto].
    - cbn [flat] in E. rewrite <- !app_assoc in E.
      destruct (N.eq_dec x y) as [<-|NE]; [|tauto].
      destruct (IHn m (flat p ++ u) (flat q ++ v)) as [<- E']; [tauto|exact E|].
      destruct (IH q u v) as [<- <-]; [tauto|exact E'|auto].
  Qed.

  Definition pdisjoint (a b : list V) : Prop := forall w, in_product w a -> in_product w b -> False.

  Lemma fop_app : forall A (R : A -> A -> Prop) l m, ForallOrdPairs R l -> ForallOrdPairs R m ->
    (forall a b, In a l -> In b m -> R a b) -> ForallOrdPairs R (l ++ m).
  Proof.
    intros A R l m Hl Hm H. induction Hl as [|a l Ha Hl IH]; simpl; auto.
    constructor.
    - rewrite Forall_forall in *. intros b Hb. apply in_app_iff in Hb. destruct Hb; auto.
      apply H; simpl; auto.
    - apply IH. intros x y Hx Hy. apply H; simpl; auto.
  Qed.
  Lemma fop_flat_map : forall A B (R : B -> B -> Prop) (f : A -> list B) l,
    (forall a, In a l -> ForallOrdPairs R (f a)) ->
    ForallOrdPairs (fun a a' => forall b b', In b (f a) -> In b' (f a') -> R b b') l ->
    ForallOrdPairs R (flat_map f l).
  Proof.
    intros A B R f l H F. induction F as [|a l Ha F IH]; simpl; [constructor|].
    apply fop_app.
    - apply H. now left.
    - apply IH. intros x Hx. apply H. now right.
    - intros b b' Hb Hb'. apply in_flat_map in Hb'. destruct Hb' as (a' & Ha' & Hb').
      rewrite Forall_forall in Ha. eapply Ha; eauto.
  Qed.
  Lemma fop_map : forall A B (R : B -> B -> Prop) (f : A -> B) l,
    ForallOrdPairs (fun a b => R (f a) (f b)) l -> ForallOrdPairs R (map f l).
  Proof.
    intros A B R f l H. induction H as [|a l Ha H IH]; simpl; constructor; auto.
    rewrite Forall_forall in *. intros b Hb. apply in_map_iff in Hb. destruct Hb as (x & <- & Hx). auto.
  Qed.

  Lemma paths_disjoint : forall lt t, canonical VI lt t -> coherent t ->
    ForallOrdPairs pdisjoint (paths_of t).
  Proof.
    intros lt t H. induction H as [| |x arcs Hne Hnz Hc IH HD HS|x arcs Hne Hnz Hcv IHv Hc IH HD HS];
      intros CO; cbn [paths_of].
    - constructor.
    - constructor; constructor.
    - apply fop_flat_map.
      + intros [v s] Hin. cbn [fst snd]. apply fop_map. eapply fop_impl; [|eapply IH; eauto].
        * intros a b _ _ Hab w Ha Hb. inversion Ha; subst. inversion Hb; subst. eapply Hab; eauto.
        * destruct (Hnz v s Hin) as [N1 _]. destruct (v_nonempty VI VL v N1) as [k Hk].
          intros p q Hp Hq C.
          apply (CO (AVal x k p) (AVal x k q)); [| |now right];
            rewrite contains_flat, N.eqb_refl; apply acontains_spec; eauto.
      + eapply fop_impl; [|exact HD]. intros [v s] [v' s'] _ _ Hd b b' Hb Hb' w Hw Hw'.
        cbn [fst snd] in *. apply in_map_iff in Hb. apply in_map_iff in Hb'.
        destruct Hb as (p & <- & _). destruct Hb' as (p' & <- & _).
        inversion Hw; subst. inversion Hw'; subst. eapply Hd; eauto.
    - assert (AG : forall v s v' s' n n' q q', In (v, s) arcs -> In (v', s') arcs ->
                contains v n = true -> contains s q = true -> contains v' n' = true -> contains s' q' = true ->
                ~ aclash (ANest x n q) (ANest x n' q')).
      { intros v s v' s' n n' q q' I1 I2 C1 C2 C3 C4. apply CO;
          rewrite contains_hier, N.eqb_refl; apply acontains_spec; eauto. }
      assert (NE : forall v s, In (v, s) arcs -> (exists k, contains v k = true) /\ (exists q, contains s q = true)).
      { intros v s Hin. destruct (Hnz v s Hin). split; apply (canonical_nonempty VI VL lt); eauto. }
      (* the same flat values in two products come from the same nested assignment *)
      assert (SP : forall v s v' s' p q p' q' w, In (v, s) arcs -> In (v', s') arcs ->
                In p (paths_of v) -> In q (paths_of s) -> In p' (paths_of v') -> In q' (paths_of s') ->
                in_product w (p ++ q) -> in_product w (p' ++ q') ->
                exists n w1 w2, contains v n = true /\ contains v' n = true /\
                  in_product w1 p /\ in_product w1 p' /\ in_product w2 q /\ in_product w2 q').
      { intros v s v' s' p q p' q' w I1 I2 Ip Iq Ip' Iq' Ha Hb.
        apply product_app in Ha. apply product_app in Hb.
        destruct Ha as (w1 & w2 & -> & H1 & H2). destruct Hb as (u1 & u2 & E & H3 & H4).
        destruct (proj1 (paths_of_spec v w1)) as (n & Hn & En); [eauto|].
        destruct (proj1 (paths_of_spec v' u1)) as (n' & Hn' & En'); [eauto|].
        destruct (NE _ _ I1) as [_ [k Hk]]. destruct (NE _ _ I2) as [_ [k' Hk']].
        pose proof (AG _ _ _ _ _ _ _ _ I1 I2 Hn Hk Hn' Hk') as NC. cbn [aclash] in NC.
        rewrite <- En, <- En' in E.
        destruct (flat_prefix n n' w2 u2) as [<- <-]; [tauto|exact E|].
        exists n, w1, w2. assert (w1 = u1) as <- by congruence. auto 10. }
      apply fop_flat_map.
      + intros [v s] Hin. cbn [fst snd]. apply fop_flat_map.
        * intros p Hp. apply fop_map. eapply fop_impl; [|eapply IH; eauto].
          -- intros a b Ia Ib Hab w Ha Hb.
             destruct (SP v s v s p a p b w Hin Hin Hp Ia Hp Ib Ha Hb)
               as (n & w1 & w2 & _ & _ & _ & _ & H2 & H4). eapply Hab; eauto.
          -- destruct (NE _ _ Hin) as [[k Hk] _]. intros q q' Hq Hq' C.
             pose proof (AG v s v s k k q q' Hin Hin Hk Hq Hk Hq') as NC. cbn [aclash] in NC. tauto.
        * eapply fop_impl; [|eapply IHv; eauto].
          -- intros a b Ina Inb Hab p p' Hp Hp' w Ha Hb.
             apply in_map_iff in Hp. apply in_map_iff in Hp'.
             destruct Hp as (q & <- & Iq). destruct Hp' as (q' & <- & Iq').
             destruct (SP v s v s a q b q' w Hin Hin Ina Iq Inb Iq' Ha Hb)
               as (n & w1 & w2 & _ & _ & H1 & H3 & _). eapply Hab; eauto.
          -- destruct (NE _ _ Hin) as [_ [k Hk]]. intros q q' Hq Hq' C.
             pose proof (AG v s v s q q' k k Hin Hin Hq Hk Hq' Hk) as NC. cbn [aclash] in NC. tauto.
      + eapply fop_impl; [|exact HD]. intros [v s] [v' s'] Hin Hin' Hd b b' Hb Hb' w Hw Hw'.
        cbn [fst snd] in *. apply in_flat_map in Hb. apply in_flat_map in Hb'.
        destruct Hb as (a & Ina & Hb). destruct Hb' as (a' & Ina' & Hb').
        apply in_map_iff in Hb. apply in_map_iff in Hb'.
        destruct Hb as (q & <- & Iq). destruct Hb' as (q' & <- & Iq').
        destruct (SP v s v' s' a q a' q' w Hin Hin' Ina Iq Ina' Iq' Hw Hw')
          as (n & w1 & w2 & Hn & Hn' & _). eapply Hd; eauto.
  Qed.

  (** *** Number of assignments *)

  Definition total (l : list (list V)) : N := fold_right (fun p n => (product_size p + n)%N) 0%N l.
  Lemma total_cons : forall p l, total (p :: l) = (product_size p + total l)%N.
  Proof. reflexivity. Qed.
  Lemma total_app : forall l m, total (l ++ m) = (total l + total m)%N.
  Proof.
    intros l m. induction l as [|p l IH]; [reflexivity|].
    cbn [app]. rewrite !total_cons, IH. apply N.add_assoc.
  Qed.
  Lemma product_size_app : forall p q, product_size (p ++ q) = (product_size p * product_size q)%N.
  Proof.
    intros p q. induction p as [|v p IH]; cbn [app product_size].
    - now rewrite N.mul_1_l.
    - rewrite IH. apply N.mul_assoc.
  Qed.
  Lemma total_map_cons : forall v l, total (map (cons v) l) = (v_size VI v * total l)%N.
  Proof.
    intros v l. induction l as [|p l IH]; cbn [map].
    - symmetry. apply N.mul_0_r.
    - rewrite !total_cons, IH. cbn [product_size]. symmetry. apply N.mul_add_distr_l.
  Qed.
  Lemma total_map_app : forall p l, total (map (app p) l) = (product_size p * total l)%N.
  Proof.
    intros p l. induction l as [|q l IH]; cbn [map].
    - symmetry. apply N.mul_0_r.
    - rewrite !total_cons, IH, product_size_app. symmetry. apply N.mul_add_distr_l.
  Qed.

  Lemma total_card : forall t, total (paths_of t) = card VI t.
  Proof.
    induction t as [| |x arcs IH|x arcs IH] using sdd_ind'; try reflexivity.
    - induction arcs as [|[v s] arcs IHa]; [reflexivity|].
      rewrite card_flat_cons by auto. rewrite <- IHa.
      + cbn [paths_of flat_map fst snd]. rewrite total_app, total_map_cons. f_equal. f_equal.
        apply (IH v). now left.
      + intros v' s' Hin. apply (IH v'). now right.
    - induction arcs as [|[v s] arcs IHa]; [reflexivity|].
      rewrite card_hier_cons by auto. rewrite <- IHa.
      + cbn [paths_of flat_map fst snd]. rewrite total_app. f_equal.
        destruct (IH v s (or_introl eq_refl)) as [<- <-].
        induction (paths_of v) as [|p l IHl]; cbn [flat_map]; [reflexivity|].
        rewrite total_app, total_map_app, IHl, total_cons. symmetry. apply N.mul_add_distr_r.
      + intros v' s' Hin. apply (IH v' s'). now right.
  Qed.
End Paths.
