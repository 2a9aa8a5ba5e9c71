(** * Model of sdd/tools: nodes.hh, arcs.hh, size.hh, dot/sdd.hh *)

From Coq Require Import List Bool NArith Arith Lia Permutation.
From Verif Require Import Base SortedSets Values Sdd SddFacts DDModel DDProofs Spec DDTheorems Count.
Import ListNotations.

(** unsigned int and std::size_t arithmetic. *)
Definition w32 (n : N) : N := (n mod 2 ^ 32)%N.
Definition w64 (n : N) : N := (n mod 2 ^ 64)%N.
Definition add32 (a b : N) : N := w32 (a + b).

Section Tools.
  Variable VI : values_impl.
  Variable PF : platform VI.
  Notation V := (vt VI).
  Notation sdd := (sdd V).

  (** visited_: set of addresses. *)
  Definition visited (l : list sdd) (t : sdd) : bool := existsb (fun k => sdd_eqb VI PF k t) l.

  (** ** tools/nodes.hh 17-102: (flat nodes, hierarchical nodes) *)
  Definition accumulate_pair (a b : N * N) : N * N :=
    (add32 (fst a) (fst b), add32 (snd a) (snd b)).                      (* 81-87 *)
  Fixpoint nodes_visit (t : sdd) (vis : list sdd) {struct t} : (N * N) * list sdd :=
    match t with
    | Zero | One => ((0, 0)%N, vis)                                      (* 27-41 *)
    | Flat _ arcs =>                                                     (* 44-60 *)
        if visited vis t then ((0, 0)%N, vis)
        else fold_left (fun st arc =>
               let (r1, vis1) := nodes_visit (snd arc) (snd st) in
               (accumulate_pair (fst st) r1, vis1)) arcs ((1, 0)%N, t :: vis)
    | Hier _ arcs =>                                                     (* 63-79 *)
        if visited vis t then ((0, 0)%N, vis)
        else fold_left (fun st arc =>
               let (r1, vis1) := nodes_visit (fst arc) (snd st) in
               let (r2, vis2) := nodes_visit (snd arc) vis1 in
               (accumulate_pair (accumulate_pair (fst st) r1) r2, vis2)) arcs ((0, 1)%N, t :: vis)
    end.
  Definition nodes (x : sdd) : N * N := fst (nodes_visit x []).

  (** ** tools/arcs.hh 18-112 *)

  (** arcs_frequency_type (18-21): std::map from numbers of arcs to pairs of frequencies. *)
  Definition freq : Type := list (N * (N * N)).
  Definition bump (flat : bool) (c : N * N) : N * N :=
    if flat then (add32 (fst c) 1, snd c) else (fst c, add32 (snd c) 1).
  (** map_[n].first += 1 (58), map_[n].second += 1 (72). *)
  Fixpoint freq_add (flat : bool) (n : N) (m : freq) : freq :=
    match m with
    | [] => [(n, bump flat (0, 0)%N)]
    | (k, c) :: m' => if N.eqb k n then (k, bump flat c) :: m'
                      else if N.ltb n k then (n, bump flat (0, 0)%N) :: m
                      else (k, c) :: freq_add flat n m'
    end.
  (** n.size(): the number of arcs (see NodeSize.v for its type). *)
  Definition nsize {W : Type} (arcs : list (W * sdd)) : N := N.of_nat (length arcs).
  Fixpoint arcs_visit (t : sdd) (st : freq * list sdd) {struct t} : freq * list sdd :=
    match t with
    | Zero | One => st                                                   (* 37-47 *)
    | Flat _ arcs =>                                                     (* 50-63 *)
        if visited (snd st) t then st
        else fold_left (fun st arc => arcs_visit (snd arc) st) arcs
               (freq_add true (nsize arcs) (fst st), t :: snd st)
    | Hier _ arcs =>                                                     (* 65-77 *)
        if visited (snd st) t then st
        else fold_left (fun st arc => arcs_visit (snd arc) (arcs_visit (fst arc) st)) arcs
               (freq_add false (nsize arcs) (fst st), t :: snd st)
    end.
  Definition arcs (x : sdd) : freq := fst (arcs_visit x ([], [])).       (* 86-93 *)
  (** number_of_arcs, 99-112. *)
  Definition number_of_arcs (m : freq) : N * N :=
    fold_left (fun r kv => (add32 (fst r) (w32 (fst kv * fst (snd kv))),
                            add32 (snd r) (w32 (fst kv * snd (snd kv))))) m (0, 0)%N.
  Fixpoint freq_at (m : freq) (n : N) : N * N :=
    match m with
    | [] => (0, 0)%N
    | (k, c) :: m' => if N.eqb k n then c else freq_at m' n
    end.

  (** ** tools/size.hh 17-104: bytes.  [zsz], [osz]: sizes of the terminals, [usz]: of a unique node,
      [fsz], [hsz]: of a flat and of a hierarchical arc. *)
  Variables zsz osz usz fsz hsz : N.
  Definition add64 (a b : N) : N := w64 (a + b).
  Fixpoint size_visit (t : sdd) (vis : list sdd) {struct t} : N * list sdd :=
    match t with
    | Zero => if visited vis t then (0%N, vis) else (w64 zsz, t :: vis)  (* 26-38 *)
    | One => if visited vis t then (0%N, vis) else (w64 osz, t :: vis)   (* 41-53 *)
    | Flat _ arcs =>                                                     (* 56-73 *)
        if visited vis t then (0%N, vis)
        else fold_left (fun st arc =>
               let (r1, vis1) := size_visit (snd arc) (snd st) in (add64 (fst st) r1, vis1))
               arcs (w64 (usz + nsize arcs * fsz), t :: vis)
    | Hier _ arcs =>                                                     (* 76-94 *)
        if visited vis t then (0%N, vis)
        else fold_left (fun st arc =>
               let (r1, vis1) := size_visit (fst arc) (snd st) in
               let (r2, vis2) := size_visit (snd arc) vis1 in (add64 (add64 (fst st) r1) r2, vis2))
               arcs (w64 (usz + nsize arcs * hsz), t :: vis)
    end.
  Definition bytes (x : sdd) : N := fst (size_visit x []).               (* 99-104 *)

  (** ** tools/dot/sdd.hh 19-128.  Output items: declaration of a node; arc of a flat node with its label;
      arc of a hierarchical node (the ghost node and its three edges).
      Simplification: names of nodes ("n" followed by the address) are the nodes themselves, labels
      of nodes (identifiers of the order) are left out. *)
  Inductive item : Type :=
  | DNode (t : sdd)
  | DFlat (t : sdd) (v : V) (succ : sdd)
  | DHier (t : sdd) (v : sdd) (succ : sdd).
  Fixpoint dot_visit (t : sdd) (st : list item * list sdd) {struct t} : list item * list sdd :=
    if visited (snd st) t then st
    else
      match t with
      | Zero | One => (fst st ++ [DNode t], t :: snd st)                 (* 36-61 *)
      | Flat _ arcs =>                                                   (* 64-80 *)
          let st' := fold_left (fun st arc =>
            let st1 := dot_visit (snd arc) st in (fst st1 ++ [DFlat t (fst arc) (snd arc)], snd st1))
            arcs (fst st ++ [DNode t], snd st) in
          (fst st', t :: snd st')
      | Hier _ arcs =>                                                   (* 83-109 *)
          let st' := fold_left (fun st arc =>
            let st1 := dot_visit (fst arc) (dot_visit (snd arc) st) in
            (fst st1 ++ [DHier t (fst arc) (snd arc)], snd st1))
            arcs (fst st ++ [DNode t], snd st) in
          (fst st', t :: snd st')
      end.
  Definition dot (x : sdd) : list item := fst (dot_visit x ([], [])).

  (** ** Specification *)

  (** [sub n t]: n is reachable from t through valuations and successors. *)
  Inductive sub (n : sdd) : sdd -> Prop :=
  | sub_here : sub n n
  | sub_flat : forall x arcs v s, In (v, s) arcs -> sub n s -> sub n (Flat x arcs)
  | sub_hier_val : forall x arcs v s, In (v, s) arcs -> sub n v -> sub n (Hier x arcs)
  | sub_hier_succ : forall x arcs v s, In (v, s) arcs -> sub n s -> sub n (Hier x arcs).

  Definition is_flat (t : sdd) : bool := match t with Flat _ _ => true | _ => false end.
  Definition is_hier (t : sdd) : bool := match t with Hier _ _ => true | _ => false end.
  Definition is_node (t : sdd) : bool := is_flat t || is_hier t.
  Definition degree (t : sdd) : N :=
    match t with
    | Flat _ a => nsize a
    | Hier _ a => nsize a
    | _ => 0%N
    end.
  (** The nodes reachable from [x], each once. *)
  Definition all_nodes (x : sdd) (l : list sdd) : Prop :=
    NoDup l /\ forall n, In n l <-> sub n x /\ is_node n = true.
  Definition all_terms (x : sdd) (l : list sdd) : Prop := NoDup l /\ forall n, In n l <-> sub n x.
  Definition count (f : sdd -> bool) (l : list sdd) : N := N.of_nat (length (filter f l)).
  Definition sum_over (f : sdd -> N) (l : list sdd) : N := fold_right (fun t n => (f t + n)%N) 0%N l.
  Definition term_bytes (t : sdd) : N :=
    match t with
    | Zero => zsz
    | One => osz
    | Flat _ a => (usz + nsize a * fsz)%N
    | Hier _ a => (usz + nsize a * hsz)%N
    end.
  Definition items_of (t : sdd) : list item :=
    DNode t :: match t with
               | Flat _ a => map (fun vs => DFlat t (fst vs) (snd vs)) a
               | Hier _ a => map (fun vs => DHier t (fst vs) (snd vs)) a
               | _ => []
               end.

  (** ** Reference traversal.  [term]: terminals are recorded.  [pre]: a node is recorded before its
      successors are visited; otherwise after, and successors are visited before valuations. *)
  Section Trav.
    Variables term pre : bool.
    Fixpoint trav (t : sdd) (st : list sdd * list sdd) {struct t} : list sdd * list sdd :=
      match t with
      | Zero | One =>
          if term then if visited (snd st) t then st else (fst st ++ [t], t :: snd st) else st
      | Flat _ arcs =>
          if visited (snd st) t then st
          else
            let st' := fold_left (fun st arc => trav (snd arc) st) arcs
                         (fst st ++ [t], if pre then t :: snd st else snd st) in
            (fst st', if pre then snd st' else t :: snd st')
      | Hier _ arcs =>
          if visited (snd st) t then st
          else
            let st' := fold_left (fun st arc =>
                           if pre then trav (snd arc) (trav (fst arc) st)
                           else trav (fst arc) (trav (snd arc) st)) arcs
                         (fst st ++ [t], if pre then t :: snd st else snd st) in
            (fst st', if pre then snd st' else t :: snd st')
      end.

    Hypothesis PO : platform_ok PF.

    Lemma visited_in : forall l t, visited l t = true <-> In t l.
    Proof.
      intros l t. unfold visited. rewrite existsb_exists. split.
      - intros (k & Hk & E). apply (sdd_eqb_spec VI PF PO) in E. now subst.
      - intros H. exists t. split; auto. now apply (sdd_eqb_spec VI PF PO).
    Qed.
    Lemma visited_not : forall l t, visited l t = false <-> ~ In t l.
    Proof. intros l t. rewrite <- visited_in, not_true_iff_false. tauto. Qed.

    Definition wanted (t : sdd) : Prop := term = true \/ is_node t = true.

    (** Recorded terms below [h] are entirely recorded. *)
    Definition closed (h : nat) (vis : list sdd) : Prop :=
      forall k n, In k vis -> height k <= h -> sub n k -> wanted n -> In n vis.

    Lemma sub_height : forall n t, sub n t -> height n <= height t.
    Proof.
      intros n t H. induction H as [|x arcs v s Hin H IH|x arcs v s Hin H IH|x arcs v s Hin H IH]; auto.
      - pose proof (height_in_flat VI x _ _ _ Hin). lia.
      - pose proof (height_in_hier VI x _ _ _ Hin). lia.
      - pose proof (height_in_hier VI x _ _ _ Hin). lia.
    Qed.

    (** What one step of the traversal does; [P] characterises the terms to be recorded. *)
    Definition step_ok (h : nat) (P : sdd -> Prop) (f : list sdd * list sdd -> list sdd * list sdd) : Prop :=
      forall acc vis, closed h vis -> exists l vis', f (acc, vis) = (acc ++ l, vis') /\
      NoDup l /\ (forall n, In n l -> ~ In n vis /\ P n /\ wanted n) /\
      (forall n, In n vis' <-> In n vis \/ In n l) /\
      (forall n, P n -> wanted n -> In n vis') /\
      closed h vis'.
    Definition trav_ok (t : sdd) : Prop := forall h, height t <= h -> step_ok h (fun n => sub n t) (trav t).

    Lemma step_seq : forall h P Q f g, step_ok h P f -> step_ok h Q g ->
      step_ok h (fun n => P n \/ Q n) (fun st => g (f st)).
    Proof.
      intros h P Q f g Hf Hg acc vis Hc.
      destruct (Hf acc vis Hc) as (n1 & vis1 & E1 & D1 & N1 & M1 & A1 & C1).
      destruct (Hg (acc ++ n1) vis1 C1) as (n2 & vis2 & E2 & D2 & N2 & M2 & A2 & C2).
      exists (n1 ++ n2), vis2. split; [now rewrite E1, E2, app_assoc|].
      split; [|split; [|split; [|split; [|exact C2]]]].
      - apply nodup_app; auto. intros n I1 I2. apply (N2 n I2). apply M1. auto.
      - intros n Hn. apply in_app_iff in Hn. destruct Hn as [Hn|Hn].
        + destruct (N1 n Hn) as (X & Y & Z). auto.
        + destruct (N2 n Hn) as (X & Y & Z). split; [intros C; apply X; apply M1; auto|]. auto.
      - intros n. rewrite M2, M1, in_app_iff. tauto.
      - intros n [HP|HQ] Hw; [|now apply A2]. apply M2. left. now apply A1.
    Qed.
    Lemma step_nil : forall h P, (forall n, ~ P n) -> step_ok h P (fun st => st).
    Proof.
      intros h P HP acc vis Hc. exists [], vis. split; [now rewrite app_nil_r|].
      split; [constructor|]. split; [simpl; tauto|]. split; [simpl; tauto|]. split; auto.
      intros n Hn. destruct (HP n Hn).
    Qed.
    Lemma step_conv : forall h P Q f, (forall n, P n <-> Q n) -> step_ok h P f -> step_ok h Q f.
    Proof.
      intros h P Q f HPQ Hf acc vis Hc. destruct (Hf acc vis Hc) as (l & vis' & E & D & N & M & A & C).
      exists l, vis'. split; auto. split; auto. split.
      - intros n Hn. rewrite <- HPQ. auto.
      - split; auto. split; auto. intros n Hn. apply A. now apply HPQ.
    Qed.

    Lemma fold_ok : forall {W : Type} h (P : W -> sdd -> Prop) (f : W -> list sdd * list sdd -> list sdd * list sdd) arcs,
      (forall a, In a arcs -> step_ok h (P a) (f a)) ->
      step_ok h (fun n => exists a, In a arcs /\ P a n) (fun st => fold_left (fun st a => f a st) arcs st).
    Proof.
      intros W h P f arcs. induction arcs as [|a arcs IH]; intros H; cbn [fold_left].
      - apply step_nil. intros n (a & [] & _).
      - eapply step_conv.
        2: { refine (step_seq h (P a) _ (f a) _ (H a (or_introl eq_refl)) (IH _)).
             intros b Hb. apply H. now right. }
        intros n. split.
        + intros [Hn|(b & Hb & Hn)]; [exists a|exists b]; simpl; auto.
        + intros (b & [->|Hb] & Hn); eauto.
    Qed.

    Lemma closed_mono : forall h h' vis, h' <= h -> closed h vis -> closed h' vis.
    Proof. intros h h' vis H C k n Hk Hh. apply C; auto. lia. Qed.

    (** Adding [t] once everything below it is there. *)
    Lemma closed_add : forall h t vis vis',
      closed h vis -> (forall k n, In k vis' -> height k < height t -> sub n k -> wanted n -> In n vis') ->
      (forall n, sub n t -> n <> t -> wanted n -> In n vis') -> In t vis' ->
      (forall n, In n vis -> In n vis') ->
      (forall n, In n vis' -> In n vis \/ n = t \/ height n < height t) ->
      closed h vis'.
    Proof.
      intros h t vis vis' Hc Hlow Hsub Ht Hmono Hnew k n Hk Hh Hn Hw.
      destruct (Hnew k Hk) as [H|[->|H]].
      - apply Hmono. eapply Hc; eauto.
      - destruct (sdd_eqb VI PF n t) eqn:E.
        + apply (sdd_eqb_spec VI PF PO) in E. now subst.
        + apply Hsub; auto. intros ->. rewrite (proj2 (sdd_eqb_spec VI PF PO t t)) in E by auto.
          discriminate.
      - eapply Hlow; eauto.
    Qed.

    Lemma trav_correct : forall t, trav_ok t.
    Proof.
      induction t as [| |x arcs IH|x arcs IH] using sdd_ind'.
      - intros h Hh acc vis Hc. cbn [trav fst snd]. destruct term eqn:Et.
        + destruct (visited vis Zero) eqn:Ev.
          * apply visited_in in Ev. exists [], vis. split; [now rewrite app_nil_r|].
            split; [constructor|]. split; [simpl; tauto|]. split; [simpl; tauto|].
            split; auto. intros n Hn _. inversion Hn; subst. auto.
          * apply visited_not in Ev. exists [Zero], (Zero :: vis). split; [reflexivity|].
            split; [repeat constructor; auto|]. split.
            { intros n [<-|[]]. split; auto. split; [constructor|now left]. }
            split; [simpl; tauto|]. split.
            { intros n Hn _. inversion Hn; subst. now left. }
            intros k n [<-|Hk] Hk' Hn Hw; [inversion Hn; subst; now left|]. right. eapply Hc; eauto.
        + exists [], vis. split; [now rewrite app_nil_r|].
          split; [constructor|]. split; [simpl; tauto|]. split; [simpl; tauto|].
          split; auto. intros n Hn [H|H]; [congruence|]. inversion Hn; subst. discriminate.
      - intros h Hh acc vis Hc. cbn [trav fst snd]. destruct term eqn:Et.
        + destruct (visited vis One) eqn:Ev.
          * apply visited_in in Ev. exists [], vis. split; [now rewrite app_nil_r|].
            split; [constructor|]. split; [simpl; tauto|]. split; [simpl; tauto|].
            split; auto. intros n Hn _. inversion Hn; subst. auto.
          * apply visited_not in Ev. exists [One], (One :: vis). split; [reflexivity|].
            split; [repeat constructor; auto|]. split.
            { intros n [<-|[]]. split; auto. split; [constructor|now left]. }
            split; [simpl; tauto|]. split.
            { intros n Hn _. inversion Hn; subst. now left. }
            intros k n [<-|Hk] Hk' Hn Hw; [inversion Hn; subst; now left|]. right. eapply Hc; eauto.
        + exists [], vis. split; [now rewrite app_nil_r|].
          split; [constructor|]. split; [simpl; tauto|]. split; [simpl; tauto|].
          split; auto. intros n Hn [H|H]; [congruence|]. inversion Hn; subst. discriminate.
      - intros h Hh acc vis Hc. cbn [trav fst snd]. set (t := Flat x arcs) in *. destruct (visited vis t) eqn:Ev.
        { apply visited_in in Ev. exists [], vis. split; [now rewrite app_nil_r|]. split; [constructor|].
          split; [simpl; tauto|]. split; [simpl; tauto|]. split; auto. intros n Hn Hw. eapply Hc; eauto. }
        apply visited_not in Ev.
        assert (H0 : 0 < height t) by (unfold t; cbn [height]; lia).
        set (vis0 := if pre then t :: vis else vis).
        assert (Hc0 : closed (height t - 1) vis0).
        { unfold vis0. destruct pre.
          - intros k n [<-|Hk] Hk' Hn Hw; [lia|]. right. apply (Hc k n); auto. lia.
          - eapply closed_mono; [|exact Hc]. lia. }
        assert (Hv0 : forall n, In n vis0 -> In n vis \/ n = t).
        { unfold vis0. intros n. destruct pre; simpl; intuition. }
        assert (Hv1 : forall n, In n vis -> In n vis0).
        { unfold vis0. intros n. destruct pre; simpl; intuition. }
        assert (L : step_ok (height t - 1) (fun n => exists a, In a arcs /\ sub n (snd a))
          (fun st => fold_left (fun st a => trav (snd a) st) arcs st)).
        { apply (fold_ok (height t - 1) (fun a n => sub n (snd a)) (fun a st => trav (snd a) st)).
          intros [v s] Hin. apply (IH v s Hin).
          pose proof (height_in_flat VI x _ _ _ Hin) as Y. fold t in Y. cbn [snd]. lia. }
        destruct (L (acc ++ [t]) vis0 Hc0) as (l & vis' & E & D & N & M & A & C). rewrite E. cbn [fst snd].
        assert (Hlow : forall n, In n l -> height n < height t).
        { intros n Hn. destruct (N n Hn) as (_ & ([v s] & Hin & Hs) & _).
          pose proof (height_in_flat VI x _ _ _ Hin) as Y. fold t in Y. apply sub_height in Hs. cbn [snd] in Hs. lia. }
        set (vis2 := if pre then vis' else t :: vis').
        assert (M2 : forall n, In n vis2 <-> In n vis \/ n = t \/ In n l).
        { intros n. unfold vis2, vis0 in *. destruct pre; simpl; rewrite M; simpl; intuition. }
        assert (Sub : forall n, sub n t -> n <> t -> wanted n -> In n vis2).
        { intros n Hn Hne Hw. apply M2.
          assert (Hex : exists a, In a arcs /\ sub n (snd a)).
          { inversion Hn as [|? ? v s Hin Hs|? ? v s Hin Hs|? ? v s Hin Hs]; subst; [congruence|]; exists (v, s); simpl; auto. }
          pose proof (A _ Hex Hw) as Hi.
          apply M in Hi. destruct Hi as [Hi|Hi]; auto. apply Hv0 in Hi. tauto. }
        exists (t :: l), vis2. split; [now rewrite <- app_assoc|].
        split; [|split; [|split; [|split]]].
        + constructor; auto. intros Ht. apply Hlow in Ht. lia.
        + intros n [<-|Hn].
          * split; auto. split; [constructor|]. right. reflexivity.
          * destruct (N n Hn) as (X & ([v s] & Hin & Hs) & Z). split; [auto|]. split; auto.
            eapply sub_flat; eauto.
        + intros n. rewrite M2. simpl. intuition.
        + intros n Hn Hw. destruct (sdd_eqb VI PF n t) eqn:Et.
          * apply (sdd_eqb_spec VI PF PO) in Et. subst. apply M2. auto.
          * apply Sub; auto. intros ->. rewrite (proj2 (sdd_eqb_spec VI PF PO t t)) in Et by auto.
            discriminate.
        + apply (closed_add h t vis); auto.
          * intros k n Hk Hkt Hn Hw. apply M2 in Hk.
            assert (Hk' : In k vis').
            { apply M. destruct Hk as [Hk|[->|Hk]]; auto. lia. }
            pose proof (C k n Hk' ltac:(lia) Hn Hw) as Hi. apply M2.
            apply M in Hi. destruct Hi as [Hi|Hi]; auto. apply Hv0 in Hi. tauto.
          * apply M2. auto.
          * intros n Hn. apply M2. auto.
          * intros n Hn. apply M2 in Hn. destruct Hn as [Hn|[Hn|Hn]]; auto.
      - intros h Hh acc vis Hc. cbn [trav fst snd]. set (t := Hier x arcs) in *. destruct (visited vis t) eqn:Ev.
        { apply visited_in in Ev. exists [], vis. split; [now rewrite app_nil_r|]. split; [constructor|].
          split; [simpl; tauto|]. split; [simpl; tauto|]. split; auto. intros n Hn Hw. eapply Hc; eauto. }
        apply visited_not in Ev.
        assert (H0 : 0 < height t) by (unfold t; cbn [height]; lia).
        set (vis0 := if pre then t :: vis else vis).
        assert (Hc0 : closed (height t - 1) vis0).
        { unfold vis0. destruct pre.
          - intros k n [<-|Hk] Hk' Hn Hw; [lia|]. right. apply (Hc k n); auto. lia.
          - eapply closed_mono; [|exact Hc]. lia. }
        assert (Hv0 : forall n, In n vis0 -> In n vis \/ n = t).
        { unfold vis0. intros n. destruct pre; simpl; intuition. }
        assert (Hv1 : forall n, In n vis -> In n vis0).
        { unfold vis0. intros n. destruct pre; simpl; intuition. }
        assert (L : step_ok (height t - 1) (fun n => exists a, In a arcs /\ (sub n (fst a) \/ sub n (snd a)))
          (fun st => fold_left (fun st a => if pre then trav (snd a) (trav (fst a) st)
                                            else trav (fst a) (trav (snd a) st)) arcs st)).
        { apply (fold_ok (height t - 1) (fun a n => sub n (fst a) \/ sub n (snd a))
            (fun a st => if pre then trav (snd a) (trav (fst a) st) else trav (fst a) (trav (snd a) st))).
          intros [v s] Hin. cbn [fst snd]. destruct (IH v s Hin) as [IHv IHs].
          pose proof (height_in_hier VI x _ _ _ Hin) as [Y1 Y2]. fold t in Y1, Y2.
          assert (Ov := IHv (height t - 1) ltac:(lia)). assert (Os := IHs (height t - 1) ltac:(lia)).
          destruct pre.
          - apply (step_seq _ _ _ _ _ Ov Os).
          - eapply step_conv; [|apply (step_seq _ _ _ _ _ Os Ov)]. intros n. simpl. tauto. }
        destruct (L (acc ++ [t]) vis0 Hc0) as (l & vis' & E & D & N & M & A & C). rewrite E. cbn [fst snd].
        assert (Hlow : forall n, In n l -> height n < height t).
        { intros n Hn. destruct (N n Hn) as (_ & ([v s] & Hin & Hs) & _).
          pose proof (height_in_hier VI x _ _ _ Hin) as Y. fold t in Y. cbn [fst snd] in Hs.
          destruct Hs as [Hs|Hs]; apply sub_height in Hs; lia. }
        set (vis2 := if pre then vis' else t :: vis').
        assert (M2 : forall n, In n vis2 <-> In n vis \/ n = t \/ In n l).
        { intros n. unfold vis2, vis0 in *. destruct pre; simpl; rewrite M; simpl; intuition. }
        assert (Sub : forall n, sub n t -> n <> t -> wanted n -> In n vis2).
        { intros n Hn Hne Hw. apply M2.
          assert (Hex : exists a, In a arcs /\ (sub n (fst a) \/ sub n (snd a))).
          { inversion Hn as [|? ? v s Hin Hs|? ? v s Hin Hs|? ? v s Hin Hs]; subst; [congruence| |]; exists (v, s); simpl; auto. }
          pose proof (A _ Hex Hw) as Hi.
          apply M in Hi. destruct Hi as [Hi|Hi]; auto. apply Hv0 in Hi. tauto. }
        exists (t :: l), vis2. split; [now rewrite <- app_assoc|].
        split; [|split; [|split; [|split]]].
        + constructor; auto. intros Ht. apply Hlow in Ht. lia.
        + intros n [<-|Hn].
          * split; auto. split; [constructor|]. right. reflexivity.
          * destruct (N n Hn) as (X & ([v s] & Hin & Hs) & Z). split; [auto|]. split; auto.
            destruct Hs; [eapply sub_hier_val|eapply sub_hier_succ]; eauto.
        + intros n. rewrite M2. simpl. intuition.
        + intros n Hn Hw. destruct (sdd_eqb VI PF n t) eqn:Et.
          * apply (sdd_eqb_spec VI PF PO) in Et. subst. apply M2. auto.
          * apply Sub; auto. intros ->. rewrite (proj2 (sdd_eqb_spec VI PF PO t t)) in Et by auto.
            discriminate.
        + apply (closed_add h t vis); auto.
          * intros k n Hk Hkt Hn Hw. apply M2 in Hk.
            assert (Hk' : In k vis').
            { apply M. destruct Hk as [Hk|[->|Hk]]; auto. lia. }
            pose proof (C k n Hk' ltac:(lia) Hn Hw) as Hi. apply M2.
            apply M in Hi. destruct Hi as [Hi|Hi]; auto. apply Hv0 in Hi. tauto.
          * apply M2. auto.
          * intros n Hn. apply M2. auto.
          * intros n Hn. apply M2 in Hn. destruct Hn as [Hn|[Hn|Hn]]; auto.
    Qed.
  End Trav.
End Tools.
