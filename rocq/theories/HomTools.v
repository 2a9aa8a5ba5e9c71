(** * Model of sdd/tools/dot/homomorphism.hh and sdd/tools/js.hh: exports of homomorphisms

    A homomorphism is identified with its address, as everywhere in Hom.v.  Simplification: the text of a statement is
    replaced by its contents (HomDot.v has the text). *)

From Coq Require Import List Bool NArith Arith Lia.
From Verif Require Import Base SortedSets Values Sdd Orders DDModel Hom Tools.
Import ListNotations.

Section HomTools.
  Variable VI : values_impl.
  Variables U F I : Type.
  Notation V := (vt VI).
  Notation hom := (hom V U F I).
  Variable heqb : hom -> hom -> bool.                   (* equality of addresses *)

  (** Label of an edge. *)
  Inductive elabel : Type :=
  | ELeft | ERight | ENone | ETarget (t : N) | EF | EG (i : nat) | EL | EIf | EThen | EElse.
  (** Name of a node: node("h", &h) (178-186), or "id" and a number (79-80). *)
  Definition name : Type := (hom + N)%type.
  (** Statements: a homomorphism and its label, which depends on its class; an identity; an edge. *)
  Inductive item : Type :=
  | DHom (h : hom)
  | DIdent (k : N)
  | DEdge (h : hom) (l : elabel) (n : name).

  (** os_, visited_ (22-25), and the static counter of 78, an unsigned int: it is [next] modulo 2^32. *)
  Record state : Type := { out : list item; vis : list hom; next : N }.
  Definition emit (i : item) (s : state) : state := {| out := out s ++ [i]; vis := vis s; next := next s |}.
  Definition edge (h : hom) (l : elabel) (r : name * state) : state := emit (DEdge h l (fst r)) (snd r).
  (** visited, 168-175, and the declaration of the node: the body [k] is executed the first time. *)
  Definition enter (h : hom) (k : state -> state) (s : state) : name * state :=
    if existsb (heqb h) (vis s) then (inl h, s)
    else (inl h, k (emit (DHom h) {| out := out s; vis := h :: vis s; next := next s |})).

  (** The visitor, 32-165. *)
  Fixpoint visit (h : hom) (s : state) {struct h} : name * state :=
    match h with
    | HComp l r =>                                                       (* 34-48 *)
        enter h (fun s => let s1 := edge h ELeft (visit l s) in edge h ERight (visit r s1)) s
    | HFix k => enter h (fun s => edge h ENone (visit k s)) s            (* 50-61 *)
    | HFun _ _ => enter h (fun s => s) s                                 (* 63-72 *)
    | HId =>                                                             (* 74-81 *)
        (inr (w32 (next s)), {| out := out s ++ [DIdent (w32 (next s))]; vis := vis s; next := next s + 1 |})
    | HLocal t k => enter h (fun s => edge h (ETarget t) (visit k s)) s  (* 83-94 *)
    | HSatFix x f g l =>                                                 (* 96-121 *)
        enter h (fun s =>
          let s1 := if heqb f HId then s else edge h EF (visit f s) in
          let s2 := (fix loop (i : nat) (g : list hom) (s : state) : state :=
                       match g with
                       | [] => s
                       | k :: r => loop (S i) r (edge h (EG i) (visit k s))
                       end) 0 g s1 in
          if heqb l HId then s2 else edge h EL (visit l s2)) s
    | HSum l =>                                                          (* 123-137 *)
        enter h (fun s =>
          (fix loop (g : list hom) (s : state) : state :=
             match g with
             | [] => s
             | k :: r => loop r (edge h ENone (visit k s))
             end) l s) s
    | HIte p t e =>                                                      (* 139-157 *)
        enter h (fun s =>
          let s1 := edge h EIf (visit p s) in
          let s2 := edge h EThen (visit t s1) in
          edge h EElse (visit e s2)) s
    | _ => (inl h, s)                                                    (* 159-165 *)
    end.
  (** dot, 190-215; [n] is the value of the static counter. *)
  Definition hom_dot (n : N) (h : hom) : list item := out (snd (visit h {| out := []; vis := []; next := n |})).

  (** ** Specification *)

  (** The classes that are drawn, and the operands that are drawn under them. *)
  Definition drawn (h : hom) : bool :=
    match h with
    | HComp _ _ | HFix _ | HFun _ _ | HLocal _ _ | HSatFix _ _ _ _ | HSum _ | HIte _ _ _ => true
    | _ => false
    end.
  Fixpoint numbered (i : nat) (g : list hom) : list (elabel * hom) :=
    match g with
    | [] => []
    | k :: r => (EG i, k) :: numbered (S i) r
    end.
  Definition operands (h : hom) : list (elabel * hom) :=
    match h with
    | HComp l r => [(ELeft, l); (ERight, r)]
    | HFix k => [(ENone, k)]
    | HLocal t k => [(ETarget t, k)]
    | HSatFix _ f g l =>
        (if heqb f HId then [] else [(EF, f)]) ++ numbered 0 g ++ (if heqb l HId then [] else [(EL, l)])
    | HSum l => map (fun k => (ENone, k)) l
    | HIte p t e => [(EIf, p); (EThen, t); (EElse, e)]
    | _ => []
    end.
  Inductive reach : hom -> hom -> Prop :=
  | reach_refl : forall h, reach h h
  | reach_op : forall h l c k, In (l, c) (operands h) -> reach c k -> reach h k.

  Definition node_of (n : name) : hom := match n with inl h => h | inr _ => HId end.
  Fixpoint decls (l : list item) : list hom :=
    match l with
    | [] => []
    | DHom h :: r => h :: decls r
    | _ :: r => decls r
    end.
  Fixpoint idents (l : list item) : list N :=
    match l with
    | [] => []
    | DIdent k :: r => k :: idents r
    | _ :: r => idents r
    end.
  (** Edges that leave [h], in their order of appearance. *)
  Fixpoint edges (h : hom) (l : list item) : list (elabel * hom) :=
    match l with
    | [] => []
    | DEdge k e n :: r => if heqb h k then (e, node_of n) :: edges h r else edges h r
    | _ :: r => edges h r
    end.
  (** Identities designated by edges. *)
  Fixpoint ident_targets (l : list item) : list N :=
    match l with
    | [] => []
    | DEdge _ _ (inr k) :: r => k :: ident_targets r
    | _ :: r => ident_targets r
    end.

  (** ** Proofs *)

  Hypothesis heqb_spec : forall a b, heqb a b = true <-> a = b.

  Definition step (h : hom) (s : state) (lc : elabel * hom) : state := edge h (fst lc) (visit (snd lc) s).
  Lemma loop_numbered : forall h g i s,
    (fix loop (i : nat) (g : list hom) (s : state) : state :=
       match g with
       | [] => s
       | k :: r => loop (S i) r (edge h (EG i) (visit k s))
       end) i g s = fold_left (step h) (numbered i g) s.
  Proof. intros h. induction g as [|k r IH]; intros i s; cbn [numbered fold_left]; [reflexivity|apply IH]. Qed.
  Lemma loop_map : forall h g s,
    (fix loop (g : list hom) (s : state) : state :=
       match g with
       | [] => s
       | k :: r => loop r (edge h ENone (visit k s))
       end) g s = fold_left (step h) (map (fun k => (ENone, k)) g) s.
  Proof. intros h. induction g as [|k r IH]; intros s; cbn [map fold_left]; [reflexivity|apply IH]. Qed.
  Lemma visit_eq : forall h s, visit h s =
    match h with
    | HId => (inr (w32 (next s)), {| out := out s ++ [DIdent (w32 (next s))]; vis := vis s; next := next s + 1 |})
    | _ => if drawn h then enter h (fold_left (step h) (operands h)) s else (inl h, s)
    end.
  Proof.
    intros h s. destruct h; try reflexivity; cbn [visit drawn]; unfold enter;
      match goal with |- (if ?b then _ else _) = _ => destruct b; [reflexivity|] end; f_equal; cbn [operands].
    - rewrite !fold_left_app, loop_numbered. destruct (heqb h1 HId), (heqb h2 HId); reflexivity.
    - apply loop_map.
  Qed.

  Lemma operands_smaller : forall h l c, In (l, c) (operands h) -> hsize VI U F I c < hsize VI U F I h.
  Proof.
    intros h l c H. destruct h; cbn [operands] in H; try contradiction; cbn [hsize];
      repeat match goal with H : In _ (_ :: _) |- _ => destruct H as [H|H]; [injection H as <- <-; lia|] end;
      try contradiction.
    - rewrite !in_app_iff in H. assert (N : In (l, c) (numbered 0 g) -> hsize VI U F I c <= list_sum (map (hsize VI U F I) g)).
      { clear. generalize 0. induction g as [|k r IH]; intros i; cbn [numbered map list_sum fold_right]; [intros []|].
        intros [E|E]; [injection E as <- <-; lia|apply IH in E; unfold list_sum in E; lia]. }
      destruct H as [H|[H|H]].
      + destruct (heqb h1 HId); [destruct H|destruct H as [E|[]]; injection E as <- <-; lia].
      + specialize (N H). lia.
      + destruct (heqb h2 HId); [destruct H|destruct H as [E|[]]; injection E as <- <-; lia].
    - apply in_map_iff in H. destruct H as (k & E & H). injection E as _ ->.
      induction operands0 as [|a r IH]; [destruct H|]. cbn [map list_sum fold_right].
      destruct H as [->|H]; [lia|specialize (IH H); unfold list_sum in IH; lia].
  Qed.
  Lemma reach_size : forall h k, reach h k -> k = h \/ hsize VI U F I k < hsize VI U F I h.
  Proof.
    induction 1 as [h|h l c k H _ IH]; [now left|]. right. apply operands_smaller in H. destruct IH as [->|IH]; lia.
  Qed.
  Lemma reach_trans : forall a b c, reach a b -> reach b c -> reach a c.
  Proof. induction 1 as [h|h l x k H _ IH]; [auto|]. intros H1. eapply reach_op; eauto. Qed.

  Lemma decls_app : forall l m, decls (l ++ m) = decls l ++ decls m.
  Proof. induction l as [|[h|k|h e n] l IH]; intros m; cbn; congruence. Qed.
  Lemma idents_app : forall l m, idents (l ++ m) = idents l ++ idents m.
  Proof. induction l as [|[h|k|h e n] l IH]; intros m; cbn; congruence. Qed.
  Lemma edges_app : forall h l m, edges h (l ++ m) = edges h l ++ edges h m.
  Proof. intros h. induction l as [|[k|k|k e n] l IH]; intros m; cbn; auto. destruct (heqb h k); cbn; congruence. Qed.
  Lemma ident_targets_app : forall l m, ident_targets (l ++ m) = ident_targets l ++ ident_targets m.
  Proof. induction l as [|[h|k|h e [n|n]] l IH]; intros m; cbn; congruence. Qed.
  Lemma heqb_refl : forall h, heqb h h = true.
  Proof. intros h. now apply heqb_spec. Qed.
  Lemma heqb_neq : forall a b, a <> b -> heqb a b = false.
  Proof. intros a b H. destruct (heqb a b) eqn:E; [apply heqb_spec in E; contradiction|reflexivity]. Qed.
  Lemma visited_spec : forall h l, existsb (heqb h) l = true <-> In h l.
  Proof.
    intros h l. rewrite existsb_exists. split; [intros (x & H & E); apply heqb_spec in E; now subst|].
    intros H. exists h. split; [assumption|apply heqb_refl].
  Qed.

  Definition ident_of (n : name) : list N := match n with inl _ => [] | inr k => [k] end.
  (** [k] values of an unsigned int that is incremented, from [n] on. *)
  Fixpoint range (n : N) (k : nat) : list N := match k with O => [] | S k => w32 n :: range (n + 1) k end.
  Lemma range_app : forall k j n, range n (k + j) = range n k ++ range (n + N.of_nat k) j.
  Proof.
    induction k as [|k IH]; intros j n; [cbn [range app Nat.add]; f_equal; lia|].
    cbn [Nat.add range app]. rewrite IH. do 3 f_equal. lia.
  Qed.

  (** What is written between two states: the declarations [nv] of newly visited homomorphisms, all their edges, and
      identities. *)
  Record wrote (s s' : state) (new : list item) (nv : list hom) : Prop := {
    w_out : out s' = out s ++ new;
    w_vis : vis s' = rev nv ++ vis s;
    w_decl : decls new = nv;
    w_nodup : NoDup nv;
    w_fresh : forall v, In v nv -> ~ In v (vis s);
    w_drawn : forall v, In v nv -> drawn v = true;
    w_ids : exists k, idents new = range (next s) k /\ next s' = (next s + N.of_nat k)%N
  }.
  Lemma wrote_app : forall s s1 s2 n1 n2 v1 v2, wrote s s1 n1 v1 -> wrote s1 s2 n2 v2 ->
    wrote s s2 (n1 ++ n2) (v1 ++ v2).
  Proof.
    intros s s1 s2 n1 n2 v1 v2 [a1 a2 a3 a4 a5 a6 (j & a7 & a8)] [b1 b2 b3 b4 b5 b6 (k & b7 & b8)]. constructor.
    - now rewrite b1, a1, app_assoc.
    - now rewrite b2, a2, rev_app_distr, app_assoc.
    - now rewrite decls_app, a3, b3.
    - assert (D : forall v, In v v2 -> ~ In v v1).
      { intros v H2 H1. apply (b5 v H2). rewrite a2. apply in_or_app. left. now apply -> in_rev. }
      clear - a4 b4 D. induction a4 as [|x l N1 _ IH]; [exact b4|]. cbn. constructor.
      + rewrite in_app_iff. intros [H|H]; [contradiction|]. apply (D x H). now left.
      + apply IH. intros v H2 H1. apply (D v H2). now right.
    - intros v H. apply in_app_or in H. destruct H as [H|H]; [auto|]. intros K. apply (b5 v H). rewrite a2.
      apply in_or_app. now right.
    - intros v H. apply in_app_or in H. destruct H; auto.
    - exists (j + k). rewrite idents_app, a7, b7, a8, range_app, b8. split; [reflexivity|lia].
  Qed.

  (** Homomorphisms reachable from [h] that are visited have been completely visited. *)
  Definition settled (h : hom) (s : state) : Prop :=
    forall v w, In v (vis s) -> reach h v -> reach v w -> drawn w = true -> In w (vis s).

  Definition visit_spec (h : hom) : Prop := forall s, settled h s ->
    exists new nv, wrote s (snd (visit h s)) new nv /\ node_of (fst (visit h s)) = h /\
      (forall v, In v nv -> edges v new = operands v) /\ (forall v, ~ In v nv -> edges v new = []) /\
      ident_targets new ++ ident_of (fst (visit h s)) = idents new /\
      (forall v, In v (vis (snd (visit h s))) <-> In v (vis s) \/ reach h v /\ drawn v = true).

  (** The loop on the operands of [h]. *)
  Lemma steps_spec : forall h ops, (forall l c, In (l, c) ops -> visit_spec c /\ ~ reach c h) ->
    forall s, In h (vis s) -> (forall l c, In (l, c) ops -> settled c s) ->
    exists new nv, wrote s (fold_left (step h) ops s) new nv /\
      (forall v, In v nv -> edges v new = operands v) /\ edges h new = ops /\
      (forall v, v <> h -> ~ In v nv -> edges v new = []) /\
      ident_targets new = idents new /\
      (forall v, In v (vis (fold_left (step h) ops s)) <->
                 In v (vis s) \/ drawn v = true /\ exists l c, In (l, c) ops /\ reach c v).
  Proof.
    intros h. induction ops as [|[l c] ops IH]; intros Hops s Hh Hset.
    - exists [], []. cbn [fold_left]. split; [|repeat split; auto; try contradiction].
      + constructor; cbn; auto using NoDup_nil; try contradiction; try now rewrite app_nil_r.
        exists 0. cbn. split; [reflexivity|lia].
      + intros [H|(_ & ? & ? & [] & _)]. exact H.
    - cbn [fold_left]. destruct (Hops l c (or_introl eq_refl)) as [Hc Nc].
      destruct (Hc s (Hset l c (or_introl eq_refl))) as (n1 & v1 & W1 & T1 & E1 & E1' & I1 & V1).
      set (s1 := snd (visit c s)) in *.
      set (s2 := step h s (l, c)). assert (O2 : out s2 = out s1 ++ [DEdge h l (fst (visit c s))]) by reflexivity.
      assert (Hv1 : ~ In h v1). { intros H. exact (w_fresh _ _ _ _ W1 h H Hh). }
      assert (W2 : wrote s s2 (n1 ++ [DEdge h l (fst (visit c s))]) v1).
      { destruct W1 as [a1 a2 a3 a4 a5 a6 (j & a7 & a8)]. constructor; auto.
        - now rewrite O2, a1, app_assoc.
        - now rewrite decls_app, app_nil_r.
        - exists j. rewrite idents_app, app_nil_r. split; assumption. }
      assert (Hs2 : In h (vis s2)). { change (vis s2) with (vis s1). apply V1. now left. }
      destruct (IH (fun l0 c0 H => Hops l0 c0 (or_intror H)) s2 Hs2) as (n2 & v2 & W3 & E2 & E2h & E2' & I2 & V2).
      { intros l0 c0 H v w Hv R1 R2 D. change (vis s2) with (vis s1) in *. apply V1 in Hv. apply V1.
        destruct Hv as [Hv|(Rv & Dv)].
        - left. exact (Hset l0 c0 (or_intror H) v w Hv R1 R2 D).
        - right. split; [exact (reach_trans _ _ _ Rv R2)|assumption]. }
      exists ((n1 ++ [DEdge h l (fst (visit c s))]) ++ n2), (v1 ++ v2). split; [exact (wrote_app _ _ _ _ _ _ _ W2 W3)|].
      assert (Hv2 : ~ In h v2). { intros H. exact (w_fresh _ _ _ _ W3 h H Hs2). }
      assert (Dj : forall v, In v v1 -> ~ In v v2).
      { intros v H1 H2. apply (w_fresh _ _ _ _ W3 v H2). rewrite (w_vis _ _ _ _ W2). apply in_or_app. left. now apply -> in_rev. }
      assert (N1 : forall v, v <> h -> edges v (n1 ++ [DEdge h l (fst (visit c s))]) = edges v n1).
      { intros v Hv. rewrite edges_app. cbn [edges]. rewrite (heqb_neq v h Hv). apply app_nil_r. }
      repeat split.
      + intros v H. assert (v <> h) by (intros ->; apply in_app_or in H; tauto). rewrite edges_app, N1 by assumption.
        apply in_app_or in H. destruct H as [H|H].
        * rewrite (E1 v H), (E2' v); [apply app_nil_r|assumption|now apply Dj].
        * rewrite (E2 v H), (E1' v); [reflexivity|]. intros K. exact (Dj v K H).
      + rewrite !edges_app. cbn [edges]. rewrite heqb_refl, (E1' h Hv1), E2h, T1. reflexivity.
      + intros v Hv H. rewrite edges_app, N1 by assumption. rewrite in_app_iff in H. rewrite E1', E2' by tauto. reflexivity.
      + rewrite !ident_targets_app, !idents_app, I2, <- I1. cbn [ident_targets idents]. rewrite app_nil_r.
        now destruct (fst (visit c s)).
      + intros H. apply V2 in H. change (vis s2) with (vis s1) in H. rewrite V1 in H.
        destruct H as [[H|(R & D)]|(D & l0 & c0 & H & R)]; [now left|right|right].
        * split; [assumption|]. exists l, c. split; [now left|assumption].
        * split; [assumption|]. exists l0, c0. split; [now right|assumption].
      + intros H. apply V2. change (vis s2) with (vis s1). rewrite V1.
        destruct H as [H|(D & l0 & c0 & [E|H] & R)]; [tauto| |].
        * injection E as <- <-. tauto.
        * right. split; [assumption|]. exists l0, c0. tauto.
  Qed.

  Lemma visit_ok : forall n h, hsize VI U F I h < n -> visit_spec h.
  Proof.
    induction n as [|n IH]; [lia|]. intros h Hn s Hset. rewrite visit_eq.
    assert (Undrawn : drawn h = false -> h <> HId -> exists new nv, wrote s (snd (inl h : name, s)) new nv /\
        node_of (fst (inl h : name, s)) = h /\
      (forall v, In v nv -> edges v new = operands v) /\ (forall v, ~ In v nv -> edges v new = []) /\
      ident_targets new ++ ident_of (fst (inl h : name, s)) = idents new /\
      (forall v, In v (vis (snd (inl h : name, s))) <-> In v (vis s) \/ reach h v /\ drawn v = true)).
    { intros Hd Hi. exists [], []. cbn [fst snd]. split; [|repeat split; auto; try contradiction].
      - constructor; cbn; auto using NoDup_nil; try contradiction; try now rewrite app_nil_r.
        exists 0. cbn. split; [reflexivity|lia].
      - intros [H|(R & D)]; [exact H|]. destruct R as [h|h l c k H _]; [congruence|].
        destruct h; cbn in H; try contradiction; discriminate. }
    assert (Drawn : drawn h = true -> exists new nv,
      let r := enter h (fold_left (step h) (operands h)) s in wrote s (snd r) new nv /\ node_of (fst r) = h /\
      (forall v, In v nv -> edges v new = operands v) /\ (forall v, ~ In v nv -> edges v new = []) /\
      ident_targets new ++ ident_of (fst r) = idents new /\
      (forall v, In v (vis (snd r)) <-> In v (vis s) \/ reach h v /\ drawn v = true)).
    { intros Hd. unfold enter. destruct (existsb (heqb h) (vis s)) eqn:Ev.
      - apply visited_spec in Ev. exists [], []. cbn [fst snd]. split; [|repeat split; auto; try contradiction].
        + constructor; cbn; auto using NoDup_nil; try contradiction; try now rewrite app_nil_r.
          exists 0. cbn. split; [reflexivity|lia].
        + intros [H|(R & D)]; [exact H|]. exact (Hset h v Ev (reach_refl h) R D).
      - assert (Nv : ~ In h (vis s)) by (rewrite <- visited_spec, Ev; discriminate).
        set (s0 := emit (DHom h) {| out := out s; vis := h :: vis s; next := next s |}).
        assert (W0 : wrote s s0 [DHom h] [h]).
        { constructor; try reflexivity.
          - constructor; [intros []|constructor].
          - intros v [<-|[]]. exact Nv.
          - intros v [<-|[]]. exact Hd.
          - exists 0. cbn. split; [reflexivity|lia]. }
        destruct (steps_spec h (operands h)) with (s := s0) as (new & nv & W & E & Eh & E' & Id & Vs).
        + intros l c H. split; [apply IH; apply operands_smaller in H; lia|].
          intros R. apply reach_size in R. apply operands_smaller in H. destruct R as [->|R]; lia.
        + now left.
        + intros l c H v w Hv R1 R2 D. cbn [s0 emit vis] in Hv |- *. destruct Hv as [<-|Hv].
          * apply reach_size in R1. apply operands_smaller in H. destruct R1 as [->|R1]; lia.
          * right. exact (Hset v w Hv (reach_op _ _ _ _ H R1) R2 D).
        + assert (Hnv : ~ In h nv). { intros H. apply (w_fresh _ _ _ _ W h H). now left. }
          exists ([DHom h] ++ new), ([h] ++ nv). cbn zeta. cbn [fst snd].
          split; [exact (wrote_app _ _ _ _ _ _ _ W0 W)|]. split; [reflexivity|].
          split; [|split; [|split; [|intros v; split]]].
          * intros v [<-|H]; [exact Eh|]. exact (E v H).
          * intros v H. cbn [app edges]. apply E'; [intros ->; apply H; now left|]. intros K. apply H. now right.
          * cbn [ident_of]. rewrite app_nil_r. exact Id.
          * intros H. apply Vs in H. cbn [s0 emit vis] in H. destruct H as [[<-|H]|(D & l & c & H & R)].
            -- right. split; [constructor|assumption].
            -- now left.
            -- right. split; [eapply reach_op; eauto|assumption].
          * intros H. apply Vs. cbn [s0 emit vis]. destruct H as [H|(R & D)]; [left; now right|].
            destruct R as [h|h l c k H R]; [left; now left|]. right. split; [assumption|]. eauto. }
    destruct h; try (apply Drawn; reflexivity); try (apply Undrawn; [reflexivity|discriminate]).
    exists [DIdent (w32 (next s))], []. cbn [fst snd].
    split; [|split; [reflexivity|split; [intros v []|split; [reflexivity|split; [reflexivity|]]]]].
    - constructor; cbn; auto using NoDup_nil; try contradiction. exists 1. cbn. split; [reflexivity|lia].
    - intros v. cbn [vis]. split; [tauto|]. intros [H|(R & D)]; [exact H|]. inversion R as [|? ? ? ? X Y]; subst; [discriminate|destruct X].
  Qed.

  (** ** js.hh: the JSON tree

      [JObj name children]; "children" is absent when [None].  [fname] is the text of a function, "fun(...)". *)
  Inductive jname : Type := JO | JStar | JId | JPlus | JAt (t : N) | JTodo | JFun (t : N) (f : F).
  Inductive json : Type := JObj (n : jname) (children : option (list json)).
  (** hom_to_json_visitor, 22-110. *)
  Fixpoint hom_js (h : hom) : json :=
    match h with
    | HComp l r => JObj JO (Some [hom_js l; hom_js r])                   (* 27-40 *)
    | HFix h => JObj JStar (Some [hom_js h])                             (* 42-52 *)
    | HFun t f => JObj (JFun t f) None                                   (* 54-63 *)
    | HId => JObj JId None                                               (* 65-70 *)
    | HLocal t h => JObj (JAt t) (Some [hom_js h])                       (* 72-85 *)
    | HSum l => JObj JPlus (Some (map hom_js l))                         (* 87-101 *)
    | _ => JObj JTodo None                                               (* 103-109 *)
    end.
  Inductive exported : hom -> Prop :=
  | ex_comp : forall l r, exported l -> exported r -> exported (HComp l r)
  | ex_fix : forall h, exported h -> exported (HFix h)
  | ex_fun : forall t f, exported (HFun t f)
  | ex_id : exported HId
  | ex_local : forall t h, exported h -> exported (HLocal t h)
  | ex_sum : forall l, Forall exported l -> exported (HSum l).
End HomTools.
