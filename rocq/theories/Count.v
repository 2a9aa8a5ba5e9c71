(** * SDD::size(): model of sdd/dd/count_combinations.hh *)

From Coq Require Import List Bool NArith Arith Lia Permutation.
From Verif Require Import Base SortedSets Values Sdd SddFacts DDModel DDProofs Spec DDTheorems.
Import ListNotations.

Section Count.
  Variable VI : values_impl.
  Variable PF : platform VI.
  Notation V := (vt VI).
  Notation sdd := (sdd V).

  (** count_combinations_visitor::cache_ (26): map from addresses of nodes to numbers.  Addresses are
      compared with [sdd_eqb] (equality of addresses).  Numbers are cpp_int: unbounded. *)
  Definition memo : Type := list (sdd * N).
  Fixpoint memo_find (m : memo) (t : sdd) : option N :=
    match m with
    | [] => None
    | (k, n) :: m' => if sdd_eqb VI PF k t then Some n else memo_find m' t
    end.
  (** insertion.first->second += n *)
  Fixpoint memo_add (m : memo) (t : sdd) (n : N) : memo :=
    match m with
    | [] => []
    | (k, i) :: m' => if sdd_eqb VI PF k t then (k, (i + n)%N) :: m' else (k, i) :: memo_add m' t n
    end.

  (** The visitor, 21-78. [None]: the unreachable case 32-38 is reached. *)
  Fixpoint count_visit (t : sdd) (m : memo) {struct t} : option (N * memo) :=
    match t with
    | Zero => None                                                  (* 32-38 *)
    | One => Some (1%N, m)                                          (* 41-46 *)
    | Flat _ arcs =>                                                (* 49-61 *)
        match memo_find m t with
        | Some n => Some (n, m)
        | None =>
            match (fix loop (l : list (V * sdd)) (m : memo) : option memo :=
                     match l with
                     | [] => Some m
                     | (v, s) :: l' =>
                         match count_visit s m with
                         | Some (n, m') => loop l' (memo_add m' t (v_size VI v * n)%N)
                         | None => None
                         end
                     end) arcs ((t, 0%N) :: m)
            with
            | Some m' => Some (match memo_find m' t with Some n => n | None => 0%N end, m')
            | None => None
            end
        end
    | Hier _ arcs =>                                                (* 64-77 *)
        match memo_find m t with
        | Some n => Some (n, m)
        | None =>
            match (fix loop (l : list (sdd * sdd)) (m : memo) : option memo :=
                     match l with
                     | [] => Some m
                     | (v, s) :: l' =>
                         match count_visit v m with
                         | Some (k, m1) =>
                             match count_visit s m1 with
                             | Some (n, m') => loop l' (memo_add m' t (k * n)%N)
                             | None => None
                             end
                         | None => None
                         end
                     end) arcs ((t, 0%N) :: m)
            with
            | Some m' => Some (match memo_find m' t with Some n => n | None => 0%N end, m')
            | None => None
            end
        end
    end.

  (** count_combinations, 87-91; SDD::size, sdd/dd/definition.hh 357-362. *)
  Definition size (x : sdd) : option N :=
    if is_zero VI x then Some 0%N
    else match count_visit x [] with
         | Some (n, _) => Some n
         | None => None
         end.

  (** ** Enumeration of the assignments of an SDD *)

  Fixpoint enum (t : sdd) : list (asg (elt VI)) :=
    match t with
    | Zero => []
    | One => [ANil]
    | Flat x arcs =>
        flat_map (fun a => flat_map (fun e => map (AVal x e) (enum (snd a))) (v_iter VI (fst a))) arcs
    | Hier x arcs =>
        flat_map (fun a => flat_map (fun e => map (ANest x e) (enum (snd a))) (enum (fst a))) arcs
    end.

  Hypothesis VL : values_laws VI.

  Lemma enum_spec : forall t p, In p (enum t) <-> contains t p = true.
  Proof.
    induction t as [| |x arcs IH|x arcs IH] using sdd_ind'; intros p; cbn [enum].
    - destruct p; simpl; split; try tauto; discriminate.
    - destruct p; simpl; split; try tauto; try discriminate; intros [H|[]]; discriminate.
    - rewrite in_flat_map. split.
      + intros ([v s] & Hin & H). apply in_flat_map in H. destruct H as (e & He & H).
        apply in_map_iff in H. destruct H as (q & <- & Hq). cbn [fst snd] in *.
        rewrite contains_flat, N.eqb_refl. apply acontains_spec. exists v, s.
        split; [exact Hin|]. split; [now apply (vl_iter VL)|]. now apply (IH v s).
      + destruct p as [|y e q|y n q]; try (intros H; discriminate H).
        rewrite contains_flat. intros H. apply andb_prop in H. destruct H as [E H].
        apply N.eqb_eq in E. subst y. apply acontains_spec in H. destruct H as (v & s & Hin & He & Hq).
        exists (v, s). split; auto. apply in_flat_map. exists e. split; [now apply (vl_iter VL)|].
        apply in_map. now apply (IH v s).
    - rewrite in_flat_map. split.
      + intros ([v s] & Hin & H). apply in_flat_map in H. destruct H as (e & He & H).
        apply in_map_iff in H. destruct H as (q & <- & Hq). cbn [fst snd] in *.
        rewrite contains_hier, N.eqb_refl. apply acontains_spec. exists v, s.
        split; [exact Hin|]. split; now apply (IH v s).
      + destruct p as [|y e q|y n q]; try (intros H; discriminate H).
        rewrite contains_hier. intros H. apply andb_prop in H. destruct H as [E H].
        apply N.eqb_eq in E. subst y. apply acontains_spec in H. destruct H as (v & s & Hin & He & Hq).
        exists (v, s). split; auto. apply in_flat_map. exists n. split; [now apply (IH v s)|].
        apply in_map. now apply (IH v s).
  Qed.

  Lemma nodup_app : forall A (l m : list A), NoDup l -> NoDup m ->
    (forall x, In x l -> In x m -> False) -> NoDup (l ++ m).
  Proof.
    intros A l m Hl Hm Hd. induction Hl as [|x l Hx Hl IH]; simpl; auto.
    constructor.
    - rewrite in_app_iff. intros [H|H]; auto. apply (Hd x); simpl; auto.
    - apply IH. intros y H1 H2. apply (Hd y); simpl; auto.
  Qed.

  Lemma nodup_flat_map : forall A B (f : A -> list B) l,
    (forall x, In x l -> NoDup (f x)) ->
    ForallOrdPairs (fun a b => forall y, In y (f a) -> In y (f b) -> False) l ->
    NoDup (flat_map f l).
  Proof.
    intros A B f l Hn Hd. induction Hd as [|x l Hx Hd IH]; simpl; [constructor|].
    apply nodup_app.
    - apply Hn. now left.
    - apply IH. intros y Hy. apply Hn. now right.
    - intros y H1 H2. apply in_flat_map in H2. destruct H2 as (b & Hb & H2).
      rewrite Forall_forall in Hx. eapply Hx; eauto.
  Qed.

  Lemma fop_impl : forall A (P Q : A -> A -> Prop) l,
    (forall a b, In a l -> In b l -> P a b -> Q a b) -> ForallOrdPairs P l -> ForallOrdPairs Q l.
  Proof.
    intros A P Q l H F. induction F as [|a l Ha F IH]; constructor.
    - rewrite Forall_forall in *. intros b Hb. apply H; simpl; auto.
    - apply IH. intros x y Hx Hy. apply H; simpl; auto.
  Qed.

  Lemma nodup_fop : forall A (l : list A), NoDup l -> ForallOrdPairs (fun a b => a <> b) l.
  Proof.
    intros A l H. induction H as [|x l Hx H IH]; constructor; auto.
    rewrite Forall_forall. intros y Hy ->. auto.
  Qed.

  Lemma enum_nodup : forall lt t, canonical VI lt t -> NoDup (enum t).
  Proof.
    intros lt t H. induction H as [| |x arcs Hne Hnz Hc IH HD HS|x arcs Hne Hnz Hcv IHv Hc IH HD HS];
      cbn [enum].
    - constructor.
    - constructor; [intros []|constructor].
    - apply nodup_flat_map.
      + intros [v s] Hin. cbn [fst snd]. apply nodup_flat_map.
        * intros e _. apply FinFun.Injective_map_NoDup; [|eauto]. intros q q' E. now injection E.
        * eapply fop_impl; [|apply nodup_fop; apply (vl_iter_nodup VL v)].
          intros a b _ _ Hab y Ha Hb. apply in_map_iff in Ha. apply in_map_iff in Hb.
          destruct Ha as (q & <- & _). destruct Hb as (q' & E & _). injection E as E _. auto.
      + eapply fop_impl; [|exact HD]. intros [v s] [v' s'] _ _ Hd y Ha Hb. cbn [fst snd] in *.
        apply in_flat_map in Ha. apply in_flat_map in Hb. destruct Ha as (a & Ha & Ha').
        destruct Hb as (b & Hb & Hb'). apply in_map_iff in Ha'. apply in_map_iff in Hb'.
        destruct Ha' as (q & <- & _). destruct Hb' as (q' & E & _). injection E as -> _.
        apply (Hd a); now apply (vl_iter VL).
    - apply nodup_flat_map.
      + intros [v s] Hin. cbn [fst snd]. apply nodup_flat_map.
        * intros e _. apply FinFun.Injective_map_NoDup; [|eauto]. intros q q' E. now injection E.
        * eapply fop_impl; [|apply nodup_fop; apply (IHv v s Hin)].
          intros a b _ _ Hab y Ha Hb. apply in_map_iff in Ha. apply in_map_iff in Hb.
          destruct Ha as (q & <- & _). destruct Hb as (q' & E & _). injection E as E _. auto.
      + eapply fop_impl; [|exact HD]. intros [v s] [v' s'] _ _ Hd y Ha Hb. cbn [fst snd] in *.
        apply in_flat_map in Ha. apply in_flat_map in Hb. destruct Ha as (a & Ha & Ha').
        destruct Hb as (b & Hb & Hb'). apply in_map_iff in Ha'. apply in_map_iff in Hb'.
        destruct Ha' as (q & <- & _). destruct Hb' as (q' & E & _). injection E as -> _.
        apply (Hd a); now apply enum_spec.
  Qed.

  (** ** The memoised count *)

  Hypothesis PO : platform_ok PF.

  Definition card (t : sdd) : N := N.of_nat (length (enum t)).

  Lemma flat_map_length : forall A B (f : A -> list B) l n, (forall x, length (f x) = n) ->
    length (flat_map f l) = length l * n.
  Proof. intros A B f l n H. induction l; simpl; auto. rewrite app_length, H, IHl. lia. Qed.

  Lemma card_flat_cons : forall x v s arcs,
    card (Flat x ((v, s) :: arcs)) = (v_size VI v * card s + card (Flat x arcs))%N.
  Proof.
    intros x v s arcs. unfold card. cbn [enum flat_map fst snd]. rewrite app_length.
    rewrite flat_map_length with (n := length (enum s)) by (intros; apply map_length).
    rewrite (vl_size VL). lia.
  Qed.
  Lemma card_hier_cons : forall x v s arcs,
    card (Hier x ((v, s) :: arcs)) = (card v * card s + card (Hier x arcs))%N.
  Proof.
    intros x v s arcs. unfold card. cbn [enum flat_map fst snd]. rewrite app_length.
    rewrite flat_map_length with (n := length (enum s)) by (intros; apply map_length). lia.
  Qed.

  (** Entries are exact, except those of nodes above [h], which are being computed. *)
  Definition memo_ok (h : nat) (m : memo) : Prop :=
    forall k n, memo_find m k = Some n -> height k <= h -> n = card k.

  Lemma eqb_refl : forall t, sdd_eqb VI PF t t = true.
  Proof. intros t. now apply (sdd_eqb_spec VI PF PO). Qed.

  Lemma find_add : forall m t n k, memo_find (memo_add m t n) k =
    if sdd_eqb VI PF t k then option_map (fun i => (i + n)%N) (memo_find m k) else memo_find m k.
  Proof.
    intros m t n k. induction m as [|[k0 i] m IH]; cbn [memo_add memo_find].
    - now destruct (sdd_eqb VI PF t k).
    - destruct (sdd_eqb VI PF k0 t) eqn:E1; cbn [memo_find].
      + apply (sdd_eqb_spec VI PF PO) in E1. subst k0. destruct (sdd_eqb VI PF t k); auto.
      + destruct (sdd_eqb VI PF k0 k) eqn:E2.
        * apply (sdd_eqb_spec VI PF PO) in E2. subst k0.
          destruct (sdd_eqb VI PF t k) eqn:E3; auto.
          apply (sdd_eqb_spec VI PF PO) in E3. subst. rewrite eqb_refl in E1. discriminate.
        * exact IH.
  Qed.

  Lemma height_in_flat : forall x arcs v s, In (v, s) arcs -> height s < height (VI := VI) (Flat x arcs).
  Proof.
    intros x arcs v s H. cbn [height]. apply Nat.lt_succ_r.
    pose proof (proj1 (list_max_le _ _) (Nat.le_refl (list_max (map (fun a => height (snd a)) arcs)))) as F.
    rewrite Forall_forall in F. apply F. now apply (in_map (fun a => height (snd a)) _ (v, s)).
  Qed.
  Lemma height_in_hier : forall x arcs v s, In (v, s) arcs ->
    height v < height (VI := VI) (Hier x arcs) /\ height s < height (VI := VI) (Hier x arcs).
  Proof.
    intros x arcs v s H. cbn [height].
    pose proof (proj1 (list_max_le _ _) (Nat.le_refl
      (list_max (map (fun a => Nat.max (height (fst a)) (height (snd a))) arcs)))) as F.
    rewrite Forall_forall in F.
    specialize (F _ (in_map (fun a => Nat.max (height (fst a)) (height (snd a))) _ (v, s) H)).
    cbn [fst snd] in F. lia.
  Qed.

  Definition visit_ok (t : sdd) : Prop := forall h m, height t <= h -> memo_ok h m ->
    exists m', count_visit t m = Some (card t, m') /\ memo_ok h m' /\
      forall k, h < height k -> memo_find m' k = memo_find m k.

  Lemma visit_correct : forall lt t, canonical VI lt t -> t <> Zero -> visit_ok t.
  Proof.
    intros lt t H. induction H as [| |x arcs Hne Hnz Hc IH HD HS|x arcs Hne Hnz Hcv IHv Hc IH HD HS];
      intros Hz; unfold visit_ok.
    - congruence.
    - intros h m Hh Hm. cbn [count_visit]. exists m. split; auto.
    - intros h m Hh Hm. cbn [count_visit]. set (t := Flat x arcs) in *.
      destruct (memo_find m t) as [n|] eqn:Ef.
      { exists m. split; [rewrite <- (Hm _ _ Ef Hh); reflexivity|auto]. }
      assert (L : forall l done m1, arcs = done ++ l -> memo_ok (height t - 1) m1 ->
        (forall k, height t <= height k -> k <> t -> memo_find m1 k = memo_find m k) ->
        memo_find m1 t = Some (card (Flat x done)) ->
        exists m2, (fix loop (l : list (V * sdd)) (m : memo) : option memo :=
                     match l with
                     | [] => Some m
                     | (v, s) :: l' =>
                         match count_visit s m with
                         | Some (n, m') => loop l' (memo_add m' t (v_size VI v * n)%N)
                         | None => None
                         end
                     end) l m1 = Some m2 /\ memo_ok (height t - 1) m2 /\
          (forall k, height t <= height k -> k <> t -> memo_find m2 k = memo_find m k) /\
          memo_find m2 t = Some (card t)).
      { induction l as [|[v s] l IHl]; intros done m1 Earcs Ok1 Frame1 Find1.
        - exists m1. rewrite app_nil_r in Earcs. subst done. auto.
        - assert (Hin : In (v, s) arcs) by (rewrite Earcs, in_app_iff; simpl; auto).
          pose proof (height_in_flat x _ _ _ Hin) as Hlt. fold t in Hlt.
          destruct (IH v s Hin (proj2 (Hnz _ _ Hin)) (height t - 1) m1) as (m2 & E & Ok2 & Fr2);
            [lia|auto|].
          rewrite E. apply (IHl (done ++ [(v, s)])).
          + now rewrite <- app_assoc.
          + intros k n Hk Hle. rewrite find_add in Hk. destruct (sdd_eqb VI PF t k) eqn:Et.
            * apply (sdd_eqb_spec VI PF PO) in Et. subst k. lia.
            * now apply Ok2.
          + intros k Hk Hkt. rewrite find_add. destruct (sdd_eqb VI PF t k) eqn:Et.
            * apply (sdd_eqb_spec VI PF PO) in Et. congruence.
            * rewrite Fr2 by lia. now apply Frame1.
          + rewrite find_add, eqb_refl, Fr2, Find1 by lia. cbn [option_map]. f_equal.
            clear - VL. induction done as [|[w u] done IHd]; cbn [app].
            * rewrite card_flat_cons. unfold card. simpl. lia.
            * rewrite !card_flat_cons, <- IHd. lia. }
      destruct (L arcs [] ((t, 0%N) :: m)) as (m2 & E & Ok2 & Fr2 & F2).
      + reflexivity.
      + intros k n Hk Hle. cbn [memo_find] in Hk. destruct (sdd_eqb VI PF t k) eqn:Et.
        * apply (sdd_eqb_spec VI PF PO) in Et. subst k.
          assert (0 < height t) by (unfold t; cbn [height]; lia). lia.
        * apply Hm; auto. lia.
      + intros k Hk Hkt. cbn [memo_find]. destruct (sdd_eqb VI PF t k) eqn:Et; auto.
        apply (sdd_eqb_spec VI PF PO) in Et. congruence.
      + cbn [memo_find]. rewrite eqb_refl. reflexivity.
      + rewrite E, F2. exists m2. split; auto. split.
        * intros k n Hk Hle. destruct (sdd_eqb VI PF t k) eqn:Et.
          -- apply (sdd_eqb_spec VI PF PO) in Et. subst k. congruence.
          -- assert (Hkt : k <> t) by (intros ->; rewrite eqb_refl in Et; discriminate).
             destruct (le_lt_dec (height t) (height k)) as [Hge|Hlt].
             ++ rewrite Fr2 in Hk by auto. now apply Hm.
             ++ apply Ok2; auto. lia.
        * intros k Hk. apply Fr2; [lia|]. intros ->. lia.
    - intros h m Hh Hm. cbn [count_visit]. set (t := Hier x arcs) in *.
      destruct (memo_find m t) as [n|] eqn:Ef.
      { exists m. split; [rewrite <- (Hm _ _ Ef Hh); reflexivity|auto]. }
      assert (L : forall l done m1, arcs = done ++ l -> memo_ok (height t - 1) m1 ->
        (forall k, height t <= height k -> k <> t -> memo_find m1 k = memo_find m k) ->
        memo_find m1 t = Some (card (Hier x done)) ->
        exists m2, (fix loop (l : list (sdd * sdd)) (m : memo) : option memo :=
                     match l with
                     | [] => Some m
                     | (v, s) :: l' =>
                         match count_visit v m with
                         | Some (k, m1) =>
                             match count_visit s m1 with
                             | Some (n, m') => loop l' (memo_add m' t (k * n)%N)
                             | None => None
                             end
                         | None => None
                         end
                     end) l m1 = Some m2 /\ memo_ok (height t - 1) m2 /\
          (forall k, height t <= height k -> k <> t -> memo_find m2 k = memo_find m k) /\
          memo_find m2 t = Some (card t)).
      { induction l as [|[v s] l IHl]; intros done m1 Earcs Ok1 Frame1 Find1.
        - exists m1. rewrite app_nil_r in Earcs. subst done. auto.
        - assert (Hin : In (v, s) arcs) by (rewrite Earcs, in_app_iff; simpl; auto).
          pose proof (height_in_hier x _ _ _ Hin) as [Hltv Hlt]. fold t in Hlt, Hltv.
          destruct (IHv v s Hin (proj1 (Hnz _ _ Hin)) (height t - 1) m1) as (m0 & E0 & Ok0 & Fr0);
            [lia|auto|].
          destruct (IH v s Hin (proj2 (Hnz _ _ Hin)) (height t - 1) m0) as (m2 & E & Ok2 & Fr2);
            [lia|auto|].
          rewrite E0, E. apply (IHl (done ++ [(v, s)])).
          + now rewrite <- app_assoc.
          + intros k n Hk Hle. rewrite find_add in Hk. destruct (sdd_eqb VI PF t k) eqn:Et.
            * apply (sdd_eqb_spec VI PF PO) in Et. subst k. lia.
            * now apply Ok2.
          + intros k Hk Hkt. rewrite find_add. destruct (sdd_eqb VI PF t k) eqn:Et.
            * apply (sdd_eqb_spec VI PF PO) in Et. congruence.
            * rewrite Fr2, Fr0 by lia. now apply Frame1.
          + rewrite find_add, eqb_refl, Fr2, Fr0, Find1 by lia. cbn [option_map]. f_equal.
            clear - VL. induction done as [|[w u] done IHd]; cbn [app].
            * rewrite card_hier_cons. unfold card. simpl. lia.
            * rewrite !card_hier_cons, <- IHd. lia. }
      destruct (L arcs [] ((t, 0%N) :: m)) as (m2 & E & Ok2 & Fr2 & F2).
      + reflexivity.
      + intros k n Hk Hle. cbn [memo_find] in Hk. destruct (sdd_eqb VI PF t k) eqn:Et.
        * apply (sdd_eqb_spec VI PF PO) in Et. subst k.
          assert (0 < height t) by (unfold t; cbn [height]; lia). lia.
        * apply Hm; auto. lia.
      + intros k Hk Hkt. cbn [memo_find]. destruct (sdd_eqb VI PF t k) eqn:Et; auto.
        apply (sdd_eqb_spec VI PF PO) in Et. congruence.
      + cbn [memo_find]. rewrite eqb_refl. reflexivity.
      + rewrite E, F2. exists m2. split; auto. split.
        * intros k n Hk Hle. destruct (sdd_eqb VI PF t k) eqn:Et.
          -- apply (sdd_eqb_spec VI PF PO) in Et. subst k. congruence.
          -- assert (Hkt : k <> t) by (intros ->; rewrite eqb_refl in Et; discriminate).
             destruct (le_lt_dec (height t) (height k)) as [Hge|Hlt].
             ++ rewrite Fr2 in Hk by auto. now apply Hm.
             ++ apply Ok2; auto. lia.
        * intros k Hk. apply Fr2; [lia|]. intros ->. lia.
  Qed.

  Lemma size_card : forall x, built VI PF x -> size x = Some (card x).
  Proof.
    intros x B. pose proof (built_canonical VI VL PF PO x B) as C. unfold size.
    destruct (is_zero VI x) eqn:Ez.
    - destruct x; try discriminate. reflexivity.
    - destruct (visit_correct _ x C) with (h := height x) (m := @nil (sdd * N)) as (m' & E & _).
      + intros ->. discriminate.
      + lia.
      + intros k n H. discriminate.
      + now rewrite E.
  Qed.

  Lemma size_spec : forall x, built VI PF x -> exists l, NoDup l /\
    (forall p, In p l <-> contains x p = true) /\ size x = Some (N.of_nat (length l)).
  Proof.
    intros x B. exists (enum x). split; [|split].
    - eapply enum_nodup. apply (built_canonical VI VL PF PO x B).
    - apply enum_spec.
    - now apply size_card.
  Qed.
End Count.
