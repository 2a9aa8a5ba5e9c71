(** * Orders: specification and proofs *)

From Coq Require Import List Bool Arith NArith Lia Permutation.
From Verif Require Import Base Orders.
Import ListNotations.

Arguments art {U} _.
Arguments usr {U} _.
Arguments user_id {U} _.
Arguments is_artificial {U} _.
Arguments BNil {U}.
Arguments BNode {U} _ _ _.
Arguments b_empty {U} _.
Arguments b_single {U} _ _.
Arguments b_push {U} _ _ _.
Arguments b_of_list {U} _.
Arguments b_concat {U} _ _.
Arguments b_size {U} _.
Arguments b_length {U} _.
Arguments b_height {U} _.
Arguments n_id {U} _.
Arguments n_var {U} _.
Arguments n_pos {U} _.
Arguments n_next {U} _.
Arguments n_nested {U} _.
Arguments n_path {U} _.
Arguments Build_onode {U} _ _ _ _ _ _.
Arguments EDuplicate {U} _.
Arguments ENotFound {U} _.
Arguments EUndefined {U}.
Arguments EFuel {U}.
Arguments s_pos {U} _.
Arguments s_nodes {U} _.
Arguments s_unicity {U} _.
Arguments store {U} _ _ _.
Arguments o_nodes {U} _.
Arguments o_map {U} _.
Arguments o_head {U} _.
Arguments deref {U} _ _.
Arguments head {U} _.
Arguments o_empty {U} _.
Arguments o_variable {U} _.
Arguments o_identifier {U} _.
Arguments o_position {U} _.
Arguments with_head {U} _ _.
Arguments o_next {U} _.
Arguments o_nested {U} _.
Arguments o_node_from_position {U} _ _.
Arguments o_contains {U} _ _ _.
Arguments flat_impl {U} _ _ _.
Arguments o_flat {U} _.
Arguments flatten {U} _.
Arguments packetize_impl {U} _ _.
Arguments JId {U} _.
Arguments JArray {U} _.
Arguments dump_items {U} _ _ _.
Arguments dump_order {U} _.

Section Spec.
  Variable U : Type.
  Notation builder := (builder U).

  (** The identifiers of the user in a builder, from top to bottom. *)
  Fixpoint users (b : builder) : list U :=
    match b with
    | BNil => []
    | BNode id nested next =>
      (if is_artificial id then [] else [usr id]) ++ users nested ++ users next
    end.

  (** The flat identifiers (those without a nested order), from top to bottom. *)
  Fixpoint flats (b : builder) : list U :=
    match b with
    | BNil => []
    | BNode id BNil next => usr id :: flats next
    | BNode _ nested next => flats nested ++ flats next
    end.

  (** Only hierarchies have artificial identifiers (sdd/order/order_identifier.hh 17-18). *)
  Fixpoint well_named (b : builder) : Prop :=
    match b with
    | BNil => True
    | BNode id nested next =>
      (nested = BNil -> is_artificial id = false) /\ well_named nested /\ well_named next
    end.

  (** The nodes of an order, from top to bottom, nested nodes before the following ones: the
      first has position [p]; the variable of a node is the number of nodes that follow it in its
      level; [path] are the positions of the hierarchies around it. *)
  Definition first (b : builder) (p : nat) : option nat :=
    match b with BNil => None | BNode _ _ _ => Some p end.

  Fixpoint layout (b : builder) (p : nat) (path : list nat) : list (onode U) :=
    match b with
    | BNil => []
    | BNode id nested next =>
      {| n_id := id; n_var := N.of_nat (b_length next); n_pos := p;
         n_next := first next (p + 1 + b_size nested);
         n_nested := first nested (p + 1); n_path := path |}
      :: layout nested (p + 1) (path ++ [p])
      ++ layout next (p + 1 + b_size nested) path
    end.

  (** [u] occurs at least twice in [l]. *)
  Definition repeated (u : U) (l : list U) : Prop := exists r, Permutation l (u :: u :: r).

  Lemma repeated_not_NoDup u l : repeated u l -> ~ NoDup l.
  Proof.
    intros [r P] ND. pose proof (Permutation_NoDup P ND) as H.
    inversion H as [|? ? H1 _]; subst. apply H1. now left.
  Qed.

  Lemma repeated_perm u l l' : Permutation l l' -> repeated u l -> repeated u l'.
  Proof. intros P [r Q]. exists r. rewrite <- P. exact Q. Qed.

  Lemma repeated_app u l m : repeated u l -> repeated u (m ++ l).
  Proof.
    intros [r P]. exists (m ++ r). rewrite P.
    rewrite <- !Permutation_middle. reflexivity.
  Qed.

  Lemma length_layout b : forall p path, length (layout b p path) = b_size b.
  Proof.
    induction b as [|id n IHn x IHx]; intros p path; cbn; auto.
    rewrite app_length, IHn, IHx. lia.
  Qed.

  Lemma b_empty_nil (b : builder) : b_empty b = true <-> b = BNil.
  Proof. destruct b; cbn; split; congruence. Qed.

  Lemma store_middle (pre : list (option (onode U))) x n rest :
    store (pre ++ x :: rest) (length pre) n = Some (pre ++ Some n :: rest).
  Proof. induction pre as [|y pre IH]; cbn; [reflexivity|]. now rewrite IH. Qed.
End Spec.
Arguments users {U} _.
Arguments flats {U} _.
Arguments well_named {U} _.
Arguments first {U} _ _.
Arguments layout {U} _ _ _.
Arguments repeated {U} _ _.

Section Proofs.
  Variable U : Type.
  Variable ueqb : U -> U -> bool.
  Hypothesis ueqb_spec : forall a b, ueqb a b = true <-> a = b.
  Notation builder := (builder U).
  Notation order := (order U).

  Lemma existsb_ueqb u l : existsb (ueqb u) l = true <-> In u l.
  Proof.
    rewrite existsb_exists. split.
    - intros (x & H & E). apply ueqb_spec in E. now subst.
    - intros H. exists u. split; auto. now apply ueqb_spec.
  Qed.

  Lemma oid_eqb_spec a b : oid_eqb U ueqb a b = true <-> a = b.
  Proof.
    unfold oid_eqb. rewrite andb_true_iff, N.eqb_eq, ueqb_spec.
    destruct a, b; cbn. split; [intros [-> ->]|intros [= -> ->]]; auto.
  Qed.

  Lemma oid_eqb_refl a : oid_eqb U ueqb a a = true.
  Proof. now apply oid_eqb_spec. Qed.

  (** *** Construction *)

  Lemma mk_helper_ok : forall b path pre post un,
    NoDup un ->
    match mk_helper U ueqb b path
            {| s_pos := length pre; s_nodes := pre ++ repeat None (b_size b) ++ post;
               s_unicity := un |} with
    | Ok (ptr, var, st) =>
      ptr = first b (length pre) /\ var = N.of_nat (b_length b)
      /\ s_pos st = length pre + b_size b
      /\ s_nodes st = pre ++ map Some (layout b (length pre) path) ++ post
      /\ Permutation (s_unicity st) (users b ++ un) /\ NoDup (users b ++ un)
    | Err e => exists u, e = EDuplicate u /\ repeated u (users b ++ un)
    end.
  Proof.
    induction b as [|id n IHn x IHx]; intros path pre post un ND.
    { cbn. rewrite Nat.add_0_r. repeat split; auto. }
    cbn [mk_helper s_pos s_nodes s_unicity b_size repeat].
    specialize (IHn (path ++ [length pre]) (pre ++ [None]) (repeat None (b_size x) ++ post) un ND).
    rewrite app_length in IHn. cbn [length] in IHn.
    rewrite repeat_app. cbn [app].
    rewrite <- !app_assoc. rewrite <- (app_assoc pre [None]) in IHn. cbn [app] in IHn.
    replace (length pre + 1) with (S (length pre)) in IHn by lia.
    match type of IHn with match ?t with _ => _ end => destruct t as [[[np nv] st1]|e] end;
      cbn [rbind].
    2:{ destruct IHn as (u & -> & R). exists u. split; [reflexivity|]. cbn [users].
        rewrite <- app_assoc. apply repeated_app.
        eapply repeated_perm; [|exact (repeated_app _ u _ (users x) R)].
        rewrite !app_assoc. apply Permutation_app_tail. apply Permutation_app_comm. }
    destruct IHn as (-> & _ & P1 & N1 & U1 & D1).
    destruct st1 as [p1 n1 u1]. cbn [s_pos s_nodes s_unicity] in *. subst p1 n1.
    set (L1 := layout n (S (length pre)) (path ++ [length pre])).
    assert (NoDup u1) as ND1 by (eapply Permutation_NoDup; [symmetry; exact U1|exact D1]).
    specialize (IHx path (pre ++ [None] ++ map Some L1) post u1 ND1).
    assert (length (pre ++ [None] ++ map Some L1) = S (length pre) + b_size n) as LEN.
    { rewrite !app_length, map_length. unfold L1. rewrite length_layout. cbn. lia. }
    rewrite LEN in IHx. rewrite <- !app_assoc in IHx. cbn [app] in IHx.
    rewrite <- (app_assoc pre [None]). cbn [app].
    match type of IHx with match ?t with _ => _ end => destruct t as [[[xp xv] st2]|e] end;
      cbn [rbind].
    2:{ destruct IHx as (u & -> & R). exists u. split; [reflexivity|]. cbn [users].
        rewrite <- app_assoc. apply repeated_app.
        eapply repeated_perm; [|exact R].
        rewrite U1, !app_assoc. apply Permutation_app_tail. apply Permutation_app_comm. }
    destruct IHx as (-> & -> & P2 & N2 & U2 & D2).
    destruct st2 as [p2 n2 u2]. cbn [s_pos s_nodes s_unicity] in *. subst p2 n2.
    assert (Permutation u2 (users n ++ users x ++ un)) as PU.
    { rewrite U2, U1, !app_assoc. apply Permutation_app_tail. apply Permutation_app_comm. }
    assert (NoDup u2) as ND2 by (eapply Permutation_NoDup; [symmetry; exact U2|exact D2]).
    rewrite store_middle.
    cbn [users]. destruct (is_artificial id) eqn:A; cbn [negb andb].
    - cbn [s_pos s_nodes s_unicity app b_length first layout map].
      repeat split.
      + lia.
      + lia.
      + replace (length pre + 1) with (S (length pre)) by lia.
        rewrite map_app, <- app_assoc. reflexivity.
      + rewrite <- app_assoc. exact PU.
      + rewrite <- app_assoc. eapply Permutation_NoDup; eauto.
    - destruct (existsb (ueqb (usr id)) u2) eqn:E.
      + exists (usr id). split; [reflexivity|].
        apply existsb_ueqb in E. apply in_split in E as (l1 & l2 & E).
        exists (l1 ++ l2). cbn. apply perm_skip. rewrite <- app_assoc, <- PU, E.
        symmetry. apply Permutation_middle.
      + assert (~ In (usr id) u2) as NI
          by (intros H; apply existsb_ueqb in H; congruence).
        cbn [s_pos s_nodes s_unicity app b_length first layout map].
        repeat split.
        * lia.
        * lia.
        * replace (length pre + 1) with (S (length pre)) by lia.
          rewrite map_app, <- app_assoc. reflexivity.
        * apply perm_skip. rewrite <- app_assoc. exact PU.
        * rewrite <- app_assoc. constructor.
          -- intros H. apply NI. eapply Permutation_in; [symmetry; exact PU|exact H].
          -- eapply Permutation_NoDup; eauto.
  Qed.

  Lemma mk_nodes_ok : forall b,
    match mk_nodes U ueqb b with
    | Ok nodes => nodes = map Some (layout b 0 []) /\ NoDup (users b)
    | Err e => exists u, e = EDuplicate u /\ repeated u (users b)
    end.
  Proof.
    intros b. unfold mk_nodes. destruct (b_empty b) eqn:E.
    - apply b_empty_nil in E. subst. cbn. split; [reflexivity|constructor].
    - pose proof (mk_helper_ok b [] [] [] [] (NoDup_nil _)) as H.
      cbn [app length] in H. rewrite app_nil_r in H.
      match type of H with match ?t with _ => _ end => destruct t as [[[p v] st]|e] end;
        cbn [rbind snd].
      + destruct H as (_ & _ & _ & HN & _ & HD). rewrite !app_nil_r in *. auto.
      + destruct H as (u & -> & R). rewrite app_nil_r in R. eauto.
  Qed.

  (** The order made from a builder. *)
  Definition order_of (b : builder) : order :=
    {| o_nodes := map Some (layout b 0 []); o_map := mk_map U ueqb (map Some (layout b 0 []));
       o_head := first b 0 |}.

  Lemma mk_order_ok : forall b,
    match mk_order U ueqb b with
    | Ok o => o = order_of b /\ NoDup (users b)
    | Err e => exists u, e = EDuplicate u /\ repeated u (users b)
    end.
  Proof.
    intros b. unfold mk_order. pose proof (mk_nodes_ok b) as H.
    destruct (mk_nodes U ueqb b) as [nodes|e]; cbn [rbind]; auto.
    destruct H as [-> ND]. split; auto. unfold order_of. f_equal.
    destruct b; reflexivity.
  Qed.

  (** *** Navigation *)

  (** From position [p], the nodes of [o] are those of builder [b], inside the hierarchies
      [path]. *)
  Definition holds (nodes : list (option (onode U))) (b : builder) (p : nat) (path : list nat)
    : Prop :=
    exists pre post, nodes = pre ++ map Some (layout b p path) ++ post /\ length pre = p.

  Lemma holds_whole b : holds (map Some (layout b 0 [])) b 0 [].
  Proof. exists [], []. rewrite app_nil_r. auto. Qed.

  Lemma holds_head nodes id n x p path :
    holds nodes (BNode id n x) p path ->
    nth_error nodes p =
      Some (Some {| n_id := id; n_var := N.of_nat (b_length x); n_pos := p;
                    n_next := first x (p + 1 + b_size n);
                    n_nested := first n (p + 1); n_path := path |}).
  Proof.
    intros (pre & post & -> & L). cbn [layout map app].
    rewrite nth_error_app2 by lia. rewrite L, Nat.sub_diag. reflexivity.
  Qed.

  Lemma holds_nested nodes id n x p path :
    holds nodes (BNode id n x) p path -> holds nodes n (p + 1) (path ++ [p]).
  Proof.
    intros (pre & post & -> & L). cbn [layout map app].
    eexists (pre ++ [_]), _. split.
    - rewrite map_app, <- !app_assoc. cbn [app]. reflexivity.
    - rewrite app_length. cbn. lia.
  Qed.

  Lemma holds_next nodes id n x p path :
    holds nodes (BNode id n x) p path -> holds nodes x (p + 1 + b_size n) path.
  Proof.
    intros (pre & post & -> & L). cbn [layout map app].
    eexists (pre ++ _ :: map Some (layout n (p + 1) (path ++ [p]))), post. split.
    - rewrite map_app, <- !app_assoc. cbn [app]. reflexivity.
    - rewrite app_length. cbn [length]. rewrite map_length, length_layout. lia.
  Qed.

  Lemma holds_size nodes b p path : holds nodes b p path -> p + b_size b <= length nodes.
  Proof.
    intros (pre & post & -> & L). rewrite !app_length, map_length, length_layout. lia.
  Qed.

  (** [sees o b p path]: the order [o], which may be a part of a bigger one, is the one described
      by [b], its head being at position [p]. *)
  Definition sees (o : order) (b : builder) (p : nat) (path : list nat) : Prop :=
    o_head o = first b p /\ holds (o_nodes o) b p path.

  Lemma sees_whole b : sees (order_of b) b 0 [].
  Proof. split; [reflexivity|apply holds_whole]. Qed.

  Lemma sees_empty o b p path : sees o b p path -> o_empty o = b_empty b.
  Proof. intros [H _]. unfold o_empty. rewrite H. destruct b; reflexivity. Qed.

  Lemma sees_head o id n x p path :
    sees o (BNode id n x) p path ->
    head o = Some {| n_id := id; n_var := N.of_nat (b_length x); n_pos := p;
                    n_next := first x (p + 1 + b_size n);
                    n_nested := first n (p + 1); n_path := path |}.
  Proof.
    intros [H1 H2]. unfold head. rewrite H1. cbn. unfold deref.
    now rewrite (holds_head _ _ _ _ _ _ H2).
  Qed.

  Lemma sees_next o id n x p path :
    sees o (BNode id n x) p path ->
    exists o', o_next o = Some o' /\ sees o' x (p + 1 + b_size n) path
               /\ o_map o' = o_map o /\ o_nodes o' = o_nodes o.
  Proof.
    intros H. unfold o_next. rewrite (sees_head _ _ _ _ _ _ H). cbn [option_map n_next].
    eexists. split; [reflexivity|]. split; [|auto]. split; [reflexivity|].
    destruct H as [_ H]. eapply holds_next; exact H.
  Qed.

  Lemma sees_nested o id n x p path :
    sees o (BNode id n x) p path ->
    exists o', o_nested o = Some o' /\ sees o' n (p + 1) (path ++ [p])
               /\ o_map o' = o_map o /\ o_nodes o' = o_nodes o.
  Proof.
    intros H. unfold o_nested. rewrite (sees_head _ _ _ _ _ _ H). cbn [option_map n_nested].
    eexists. split; [reflexivity|]. split; [|auto]. split; [reflexivity|].
    destruct H as [_ H]. eapply holds_nested; exact H.
  Qed.

  Lemma flat_impl_ok : forall fuel b p path o,
    holds (o_nodes o) b p path -> b_size b < fuel ->
    flat_impl fuel o (first b p) = Ok (flats b).
  Proof.
    induction fuel as [|fuel IH]; intros b p path o H L; [lia|].
    destruct b as [|id n x]; [reflexivity|].
    cbn [flat_impl first]. unfold deref. rewrite (holds_head _ _ _ _ _ _ H).
    cbn [n_nested n_next n_id]. cbn [b_size] in L.
    rewrite (IH x (p + 1 + b_size n) path o (holds_next _ _ _ _ _ _ H)) by lia.
    destruct n as [|id' n' x'].
    - reflexivity.
    - cbn [first].
      pose proof (IH (BNode id' n' x') (p + 1) (path ++ [p]) o (holds_nested _ _ _ _ _ _ H)
                    ltac:(lia)) as E.
      cbn [first] in E. rewrite E. reflexivity.
  Qed.

  Lemma order_eqb_ok : forall fuel a b ba bb pa pb patha pathb,
    sees a ba pa patha -> sees b bb pb pathb -> b_size ba < fuel ->
    exists r, order_eqb_impl U ueqb fuel a b = Ok r
              /\ (r = true <-> ba = bb /\ (ba <> BNil -> pa = pb)).
  Proof.
    induction fuel as [|fuel IH]; intros a b ba bb pa pb patha pathb HA HB L; [lia|].
    cbn [order_eqb_impl].
    rewrite (sees_empty _ _ _ _ HA), (sees_empty _ _ _ _ HB).
    destruct ba as [|ida na xa].
    - cbn. eexists; split; [reflexivity|]. destruct bb; cbn; split; auto; try discriminate.
      + split; auto. tauto.
      + intros [[=] _].
    - destruct bb as [|idb nb xb]; cbn [b_empty].
      + eexists; split; [reflexivity|]. split; [discriminate|]. intros [[=] _].
      + rewrite (sees_head _ _ _ _ _ _ HA), (sees_head _ _ _ _ _ _ HB).
        cbn [n_pos n_id n_nested n_next]. cbn [b_size] in L.
        destruct (Nat.eqb_spec pa pb) as [<-|NE]; cbn [andb].
        2:{ eexists; split; [reflexivity|]. split; [discriminate|].
            intros [_ H]. specialize (H ltac:(discriminate)). congruence. }
        destruct (oid_eqb U ueqb ida idb) eqn:E.
        2:{ eexists; split; [reflexivity|]. split; [discriminate|].
            intros [[= -> -> ->] _]. rewrite oid_eqb_refl in E. discriminate. }
        apply oid_eqb_spec in E. subst idb.
        destruct HA as [_ HA], HB as [_ HB].
        destruct (IH (with_head a (first na (pa + 1))) (with_head b (first nb (pa + 1)))
                    na nb (pa + 1) (pa + 1) (patha ++ [pa]) (pathb ++ [pa])) as (r1 & E1 & S1).
        { split; [reflexivity|]. eapply holds_nested; exact HA. }
        { split; [reflexivity|]. eapply holds_nested; exact HB. }
        { lia. }
        rewrite E1. cbn [rbind]. destruct r1.
        * destruct (proj1 S1 eq_refl) as [<- _].
          destruct (IH (with_head a (first xa (pa + 1 + b_size na)))
                       (with_head b (first xb (pa + 1 + b_size na)))
                    xa xb (pa + 1 + b_size na) (pa + 1 + b_size na) patha pathb)
            as (r2 & E2 & S2).
          { split; [reflexivity|]. eapply holds_next; exact HA. }
          { split; [reflexivity|]. eapply holds_next; exact HB. }
          { lia. }
          exists r2. split; [exact E2|]. rewrite S2. split.
          -- intros [<- _]. auto.
          -- intros [[= <-] _]. auto.
        * eexists; split; [reflexivity|]. split; [discriminate|].
          intros [[= <- <-] _]. exfalso. assert (false = true) by (apply S1; auto). discriminate.
  Qed.

  (** *** The mapping from identifiers to nodes *)

  Lemma find_emplace k k' v m :
    find (fun e => oid_eqb U ueqb (fst e) k) (emplace U ueqb k' v m) =
    match find (fun e => oid_eqb U ueqb (fst e) k) m with
    | Some r => Some r
    | None => if oid_eqb U ueqb k' k then Some (k', v) else None
    end.
  Proof.
    unfold emplace.
    assert (forall l1 l2 : list (oid U * nat),
      find (fun e => oid_eqb U ueqb (fst e) k) (l1 ++ l2) =
      match find (fun e => oid_eqb U ueqb (fst e) k) l1 with
      | Some r => Some r | None => find (fun e => oid_eqb U ueqb (fst e) k) l2 end) as FA.
    { intros l1 l2. induction l1 as [|e l1 IH]; cbn; auto.
      destruct (oid_eqb U ueqb (fst e) k); auto. }
    destruct (existsb (fun e => oid_eqb U ueqb (fst e) k') m) eqn:E.
    - destruct (find _ m) eqn:F; [reflexivity|].
      destruct (oid_eqb U ueqb k' k) eqn:K; [|reflexivity].
      apply oid_eqb_spec in K. subst k'.
      apply existsb_exists in E as (e & HI & HE).
      pose proof (find_none _ _ F _ HI) as H. cbn in H. congruence.
    - rewrite FA. destruct (find _ m); [reflexivity|]. cbn.
      destruct (oid_eqb U ueqb k' k); reflexivity.
  Qed.

  Lemma find_mk_map k : forall (l : list (onode U)) m,
    find (fun e => oid_eqb U ueqb (fst e) k)
      (fold_left (fun m n => match n with
                          | Some n => emplace U ueqb (n_id n) (n_pos n) m | None => m end)
         (map Some l) m) =
    match find (fun e => oid_eqb U ueqb (fst e) k) m with
    | Some r => Some r
    | None => option_map (fun n => (n_id n, n_pos n))
                (find (fun n => oid_eqb U ueqb (n_id n) k) l)
    end.
  Proof.
    induction l as [|n l IH]; intros m; cbn [map fold_left].
    - cbn. destruct (find _ m); reflexivity.
    - rewrite IH, find_emplace. destruct (find _ m) eqn:F; [reflexivity|].
      cbn [find]. destruct (oid_eqb U ueqb (n_id n) k); reflexivity.
  Qed.

  Lemma layout_nth : forall (b : builder) p path i n,
    nth_error (layout (U := U) b p path) i = Some n -> n_pos n = p + i.
  Proof.
    induction b as [|id bn IHn x IHx]; intros p path i n H; cbn in H.
    - destruct i; discriminate.
    - destruct i as [|i]; cbn in H.
      + injection H as <-. cbn. lia.
      + destruct (Nat.lt_ge_cases i (length (layout bn (p + 1) (path ++ [p])))) as [L|L].
        * rewrite nth_error_app1 in H by exact L. apply IHn in H. lia.
        * rewrite nth_error_app2 in H by exact L. apply IHx in H.
          rewrite length_layout in *. lia.
  Qed.

  Lemma layout_ids : forall (b : builder) p path u,
    In u (users b) <-> exists n, In n (layout b p path) /\ n_id n = user_id u.
  Proof.
    induction b as [|id bn IHn x IHx]; intros p path u; cbn.
    - split; [tauto|]. intros (n & [] & _).
    - rewrite !in_app_iff, (IHn (p + 1) (path ++ [p])), (IHx (p + 1 + b_size bn) path).
      split.
      + intros [H|[(n & H & E)|(n & H & E)]].
        * eexists. split; [left; reflexivity|]. cbn.
          unfold is_artificial in H. destruct (N.eqb_spec (art id) 0) as [Z|]; [|destruct H].
          destruct H as [<-|[]]. destruct id; cbn in *. subst. reflexivity.
        * exists n. split; auto. right. apply in_app_iff. auto.
        * exists n. split; auto. right. apply in_app_iff. auto.
      + intros (n & [<-|H] & E).
        * cbn in E. subst id. left. cbn. auto.
        * apply in_app_iff in H as [H|H]; eauto.
  Qed.

  Lemma o_node_ok : forall b u,
    match o_node U ueqb (order_of b) u with
    | Ok n => In u (users b) /\ n_id n = user_id u /\ In n (layout b 0 [])
    | Err e => e = ENotFound u /\ ~ In u (users b)
    end.
  Proof.
    intros b u. unfold o_node, order_of, mk_map. cbn [o_map].
    rewrite find_mk_map. cbn [find].
    destruct (find (fun n => oid_eqb U ueqb (n_id n) (user_id u)) (layout b 0 [])) as [n|] eqn:F;
      cbn [option_map].
    - apply find_some in F as [HI HE]. apply oid_eqb_spec in HE.
      pose proof HI as HN. apply In_nth_error in HN as [i HN].
      pose proof (layout_nth _ _ _ _ _ HN) as P. cbn in P. rewrite P.
      unfold deref. cbn [o_nodes]. rewrite (map_nth_error _ _ _ HN).
      split; [|split; auto]. apply (layout_ids b 0 []). eauto.
    - split; [reflexivity|]. intros H. apply (layout_ids b 0 []) in H as (n & HI & HE).
      pose proof (find_none _ _ F _ HI) as E. cbn in E. rewrite HE, oid_eqb_refl in E.
      discriminate.
  Qed.

  (** *** Paths *)

  (** Being in the nested order of a node, by following nested() once, then next() and
      nested(). *)
  Inductive reaches (o : order) : nat -> nat -> Prop :=
  | re_here i : reaches o i i
  | re_next i j n k : deref o i = Some n -> n_next n = Some j -> reaches o j k -> reaches o i k
  | re_nested i j n k : deref o i = Some n -> n_nested n = Some j -> reaches o j k -> reaches o i k.

  Definition inside (o : order) (upper i : nat) : Prop :=
    exists n j, deref o upper = Some n /\ n_nested n = Some j /\ reaches o j i.

  Lemma reaches_range o : forall b p path i,
    holds (o_nodes o) b p path -> b <> BNil ->
    (reaches o p i <-> p <= i < p + b_size b).
  Proof.
    induction b as [|id n IHn x IHx]; intros p path i H NE; [congruence|]. clear NE.
    pose proof (holds_head _ _ _ _ _ _ H) as HD.
    assert (deref o p = Some {| n_id := id; n_var := N.of_nat (b_length x); n_pos := p;
                    n_next := first x (p + 1 + b_size n);
                    n_nested := first n (p + 1); n_path := path |}) as D
      by (unfold deref; now rewrite HD).
    specialize (IHn _ _ i (holds_nested _ _ _ _ _ _ H)).
    specialize (IHx _ _ i (holds_next _ _ _ _ _ _ H)).
    cbn [b_size]. split.
    - intros R. inversion R as [|? j m ? D' E R'|? j m ? D' E R']; subst; [lia| |];
        rewrite D in D'; injection D' as <-; cbn in E.
      + destruct x; [discriminate|]. cbn in E. injection E as <-.
        apply IHx in R'; [lia|discriminate].
      + destruct n; [discriminate|]. cbn in E. injection E as <-.
        apply IHn in R'; [lia|discriminate].
    - intros L. destruct (Nat.eq_dec p i) as [<-|NE]; [constructor|].
      destruct (Nat.lt_ge_cases i (p + 1 + b_size n)) as [L1|L1].
      + destruct n as [|id' n' x'] eqn:EN; [cbn in L1; lia|]. rewrite <- EN in *.
        apply (re_nested o p (p + 1) _ i D); [cbn; rewrite EN; reflexivity|].
        apply IHn; [rewrite EN; discriminate|lia].
      + destruct x as [|id' n' x'] eqn:EX; [cbn in L, L1; lia|]. rewrite <- EX in *.
        apply (re_next o p (p + 1 + b_size n) _ i D); [cbn; rewrite EX; reflexivity|].
        apply IHx; [rewrite EX; discriminate|lia].
  Qed.

  (** The path of a node, inside a builder whose own path is [path], are [path] and the nodes of
      the builder whose nested order contains it. *)
  Lemma path_ok o : forall b p path i m,
    holds (o_nodes o) b p path -> p <= i < p + b_size b -> deref o i = Some m ->
    (forall k, In k path -> k < p) ->
    forall k, In k (n_path m) <-> In k path \/ (p <= k < p + b_size b /\ inside o k i).
  Proof.
    induction b as [|id n IHn x IHx]; intros p path i m H L D PK k; [cbn in L; lia|].
    pose proof (holds_head _ _ _ _ _ _ H) as HD.
    assert (deref o p = Some {| n_id := id; n_var := N.of_nat (b_length x); n_pos := p;
                    n_next := first x (p + 1 + b_size n);
                    n_nested := first n (p + 1); n_path := path |}) as DP
      by (unfold deref; now rewrite HD).
    pose proof (holds_nested _ _ _ _ _ _ H) as HN.
    pose proof (holds_next _ _ _ _ _ _ H) as HX.
    (* the nodes inside [p] are those of the nested builder *)
    assert (forall j, inside o p j <-> p + 1 <= j < p + 1 + b_size n) as IP.
    { intros j. unfold inside. split.
      - intros (m' & q & D' & E & R). rewrite DP in D'. injection D' as <-. cbn in E.
        destruct n as [|id' n' x']; [discriminate|]. cbn in E. injection E as <-.
        apply (reaches_range o _ _ _ j HN) in R; [lia|discriminate].
      - intros R. destruct n as [|id' n' x']; [cbn in R; lia|].
        eexists _, _. split; [exact DP|]. split; [reflexivity|].
        apply (reaches_range o _ _ _ j HN); [discriminate|exact R]. }
    (* what is inside a node of a builder belongs to this builder *)
    assert (forall b p path k j, holds (o_nodes o) b p path -> p <= k < p + b_size b ->
              inside o k j -> p <= j < p + b_size b) as IR.
    { clear. induction b as [|id n IHn x IHx]; intros p path k j H L I; [cbn in L; lia|].
      cbn [b_size] in *.
      destruct (Nat.eq_dec k p) as [->|NE].
      - destruct I as (m' & q & D' & E & R).
        unfold deref in D'. rewrite (holds_head _ _ _ _ _ _ H) in D'. injection D' as <-.
        cbn in E. destruct n as [|id' n' x']; [discriminate|]. cbn in E. injection E as <-.
        apply (reaches_range o _ _ _ j (holds_nested _ _ _ _ _ _ H)) in R; [|discriminate].
        lia.
      - destruct (Nat.lt_ge_cases k (p + 1 + b_size n)) as [L1|L1].
        + assert (p + 1 <= j < p + 1 + b_size n); [|lia].
          eapply IHn; [eapply holds_nested; exact H| |exact I]. lia.
        + assert (p + 1 + b_size n <= j < p + 1 + b_size n + b_size x); [|lia].
          eapply IHx; [eapply holds_next; exact H| |exact I]. lia. }
    cbn [b_size] in *.
    destruct (Nat.eq_dec p i) as [<-|NE].
    { rewrite DP in D. injection D as <-. cbn. split; [auto|].
      intros [|[R I]]; auto. exfalso.
      destruct (Nat.eq_dec k p) as [->|NK]; [apply IP in I; lia|].
      destruct (Nat.lt_ge_cases k (p + 1 + b_size n)) as [L1|L1].
      - pose proof (IR _ _ _ k p HN ltac:(lia) I). lia.
      - pose proof (IR _ _ _ k p HX ltac:(lia) I). lia. }
    destruct (Nat.lt_ge_cases i (p + 1 + b_size n)) as [L1|L1].
    - rewrite (IHn (p + 1) (path ++ [p]) i m HN ltac:(lia) D); [|].
      2:{ intros j Hj. apply in_app_iff in Hj as [Hj|[<-|[]]]; [apply PK in Hj; lia|lia]. }
      rewrite in_app_iff. cbn. split.
      + intros [[|[<-|[]]]|[R I]]; auto.
        * right. split; [lia|]. apply IP. lia.
        * right. split; [lia|exact I].
      + intros [|[R I]]; auto.
        destruct (Nat.eq_dec k p) as [->|NK]; [auto|].
        destruct (Nat.lt_ge_cases k (p + 1 + b_size n)) as [L2|L2].
        * right. split; [lia|exact I].
        * pose proof (IR _ _ _ k i HX ltac:(lia) I). lia.
    - rewrite (IHx (p + 1 + b_size n) path i m HX ltac:(lia) D); [|].
      2:{ intros j Hj. apply PK in Hj. lia. }
      split.
      + intros [|[R I]]; auto. right. split; [lia|exact I].
      + intros [|[R I]]; auto. right. split; [|exact I].
        destruct (Nat.eq_dec k p) as [->|NK]; [apply IP in I; lia|].
        destruct (Nat.lt_ge_cases k (p + 1 + b_size n)) as [L2|L2]; [|lia].
        pose proof (IR _ _ _ k i HN ltac:(lia) I). lia.
  Qed.
End Proofs.
Arguments order_of {U} _ _.
Arguments sees {U} _ _ _ _.
Arguments holds {U} _ _ _ _.
Arguments reaches {U} _ _ _.
Arguments inside {U} _ _ _.
