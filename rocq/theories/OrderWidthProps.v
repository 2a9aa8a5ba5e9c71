(** * Machine integers in orders: theorems (C75) *)

From Coq Require Import List Bool Arith NArith Lia.
From Verif Require Import Base Orders OrdersProofs OrdersProps OrderWidth.
Import ListNotations.

(** ** Specification *)

(** Every level of the order has at most [W] identifiers. *)
Fixpoint levels_fit {U} (W : N) (b : builder U) : Prop :=
  match b with
  | BNil => True
  | BNode _ nested next =>
    (N.of_nat (b_length b) <= W)%N /\ levels_fit W nested /\ levels_fit W next
  end.

(** ** Proofs *)

Section Proofs.
  Variable U : Type.
  Variable ueqb : U -> U -> bool.
  Variable W : N.
  Variable P : nat.
  Hypothesis WP : (0 < W)%N.

  Definition wrap (n : onode U) : onode U :=
    {| n_id := n_id n; n_var := N.modulo (n_var n) W; n_pos := n_pos n; n_next := n_next n;
       n_nested := n_nested n; n_path := n_path n |}.

  Definition wrap_st (st : mkst U) : mkst U :=
    {| s_pos := s_pos st; s_nodes := map (option_map wrap) (s_nodes st);
       s_unicity := s_unicity st |}.

  Lemma store_wrap : forall l i n,
    store (map (option_map wrap) l) i (wrap n)
    = option_map (map (option_map wrap)) (store l i n).
  Proof.
    induction l as [|x l IH]; intros [|i] n; cbn; auto.
    rewrite IH. now destruct (store l i n).
  Qed.

  Lemma helper_pos : forall b path st ptr v st',
    mk_helper U ueqb b path st = Ok (ptr, v, st') -> s_pos st' = s_pos st + b_size b.
  Proof.
    induction b as [|id n IHn x IHx]; intros path st ptr v st' E; cbn [mk_helper] in E.
    { injection E as <- <- <-. cbn. lia. }
    destruct (mk_helper U ueqb n _ _) as [[[p1 v1] st1]|e] eqn:E1; cbn [rbind] in E; [|discriminate].
    destruct (mk_helper U ueqb x _ _) as [[[p2 v2] st2]|e] eqn:E2; cbn [rbind] in E; [|discriminate].
    apply IHn in E1. apply IHx in E2. cbn [s_pos] in E1.
    destruct (negb (is_artificial id) && existsb (ueqb (usr id)) (s_unicity st2)); [discriminate|].
    destruct (store (s_nodes st2) (s_pos st) _); [|discriminate].
    injection E as <- <- <-. cbn [s_pos b_size]. lia.
  Qed.

  (** The narrow construction is the unbounded one, with variables reduced modulo [W]. *)
  Lemma helper_wrap : forall b path st, s_pos st + b_size b < P ->
    mk_helper_w U ueqb W P b path (wrap_st st)
    = match mk_helper U ueqb b path st with
      | Ok (ptr, v, st') => Ok (ptr, N.modulo v W, wrap_st st')
      | Err e => Err e
      end.
  Proof.
    induction b as [|id n IHn x IHx]; intros path st B; cbn [mk_helper mk_helper_w].
    { rewrite N.mod_0_l by lia. reflexivity. }
    cbn [b_size] in B. cbn [wrap_st s_pos s_nodes s_unicity].
    rewrite (Nat.mod_small (S (s_pos st)) P) by lia.
    specialize (IHn (path ++ [s_pos st])
                  {| s_pos := S (s_pos st); s_nodes := s_nodes st; s_unicity := s_unicity st |}).
    unfold wrap_st at 1 in IHn. cbn [s_pos s_nodes s_unicity] in IHn. rewrite IHn by lia. clear IHn.
    destruct (mk_helper U ueqb n _ _) as [[[p1 v1] st1]|e] eqn:E1; cbn [rbind]; [|reflexivity].
    apply helper_pos in E1. cbn [s_pos] in E1.
    rewrite IHx by lia. clear IHx.
    destruct (mk_helper U ueqb x _ _) as [[[p2 v2] st2]|e] eqn:E2; cbn [rbind]; [|reflexivity].
    cbn [wrap_st s_unicity s_nodes s_pos].
    destruct (negb (is_artificial id) && existsb (ueqb (usr id)) (s_unicity st2)); [reflexivity|].
    pose proof (store_wrap (s_nodes st2) (s_pos st)
      {| n_id := id; n_var := v2; n_pos := s_pos st; n_next := p2; n_nested := p1;
         n_path := path |}) as SW.
    unfold wrap in SW at 2. cbn [n_id n_var n_pos n_next n_nested n_path] in SW.
    rewrite SW. destruct (store (s_nodes st2) (s_pos st) _); cbn [option_map]; [|reflexivity].
    unfold wrap_st. cbn [s_pos s_nodes s_unicity].
    do 3 f_equal. rewrite <- !N.add_1_l. now rewrite N.add_mod_idemp_r by lia.
  Qed.

  Definition wrap_order (o : order U) : order U :=
    {| o_nodes := map (option_map wrap) (o_nodes o); o_map := o_map o; o_head := o_head o |}.

  Lemma mk_map_wrap : forall l, mk_map U ueqb (map (option_map wrap) l) = mk_map U ueqb l.
  Proof.
    intros l. unfold mk_map. generalize (@nil (oid U * nat)).
    induction l as [|[n|] l IH]; intros m; cbn [map option_map fold_left]; auto.
  Qed.

  Lemma order_wrap : forall b, b_size b < P ->
    mk_order_w U ueqb W P b
    = match mk_order U ueqb b with Ok o => Ok (wrap_order o) | Err e => Err e end.
  Proof.
    intros b B. unfold mk_order_w, mk_order, mk_nodes_w, mk_nodes.
    destruct (b_empty b); [reflexivity|].
    pose proof (helper_wrap b [] {| s_pos := 0; s_nodes := repeat None (b_size b);
                                    s_unicity := [] |}) as H.
    unfold wrap_st at 1 in H. cbn [s_pos s_nodes s_unicity] in H.
    assert (forall k, map (option_map wrap) (repeat None k) = repeat None k) as RN
      by (induction k; cbn; congruence).
    rewrite RN in H. rewrite H by lia. clear H.
    destruct (mk_helper U ueqb b _ _) as [[[p v] st]|e]; cbn [rbind snd]; [|reflexivity].
    cbn [wrap_st s_nodes]. unfold wrap_order. cbn [o_nodes o_map o_head].
    rewrite mk_map_wrap. now destruct (s_nodes st).
  Qed.

  Lemma layout_fits : forall (b : builder U) p path, levels_fit W b ->
    Forall (fun n => (n_var n < W)%N) (layout b p path).
  Proof.
    induction b as [|id n IHn x IHx]; intros p path F; cbn [layout]; [constructor|].
    cbn [levels_fit b_length] in F. destruct F as (F1 & F2 & F3).
    constructor; [cbn [n_var]; lia|]. apply Forall_app. auto.
  Qed.

  Lemma wrap_small : forall n, (n_var n < W)%N -> wrap n = n.
  Proof. intros [i v p x n q] L. unfold wrap. cbn in *. now rewrite N.mod_small. Qed.

  Lemma wrap_order_fits : forall (b : builder U), levels_fit W b ->
    wrap_order (order_of ueqb b) = order_of ueqb b.
  Proof.
    intros b F. unfold wrap_order, order_of. cbn [o_nodes o_map o_head]. f_equal.
    rewrite map_map. apply map_ext_in. intros n IN. cbn. f_equal. apply wrap_small.
    pose proof (layout_fits b 0 [] F) as FA. rewrite Forall_forall in FA. auto.
  Qed.
End Proofs.

(** ** C75 *)

(** As long as each level fits in the type of variables, and the whole order in an unsigned int,
    the order is the one of Orders.v, for which C28 and all other theorems on orders hold. *)
Theorem C75_width_partial : forall U ueqb (EQ : is_eqb ueqb) W P (b : builder U),
  (0 < W)%N -> levels_fit W b -> b_size b < P ->
  mk_order_w U ueqb W P b = mk_order U ueqb b.
Proof.
  intros U ueqb EQ W P b WP F B. rewrite order_wrap by assumption.
  destruct (mk_order U ueqb b) as [o|e] eqn:E; [|reflexivity].
  rewrite (order_is _ _ EQ _ _ E). now rewrite wrap_order_fits.
Qed.

(** Two nodes with the same path are in the same level: then only one of them has a given
    variable. *)
Lemma layout_path_prefix {U} : forall (b : builder U) p path n,
  In n (layout b p path) -> exists r, n_path n = path ++ r.
Proof.
  induction b as [|id n IHn x IHx]; intros p path m IN; cbn [layout] in IN; [destruct IN|].
  destruct IN as [<-|IN]; [exists []; cbn; now rewrite app_nil_r|].
  apply in_app_or in IN as [IN|IN]; [|eauto].
  apply IHn in IN as [r E]. exists (p :: r). rewrite E, <- app_assoc. reflexivity.
Qed.

Lemma layout_pos_ge {U} : forall (b : builder U) p path n,
  In n (layout b p path) -> p <= n_pos n < p + b_size b.
Proof.
  intros b p path n IN. apply In_nth_error in IN as [i E].
  pose proof (layout_nth _ _ _ _ _ _ E) as Q.
  assert (i < length (layout b p path)) by (apply nth_error_Some; congruence).
  rewrite length_layout in *. lia.
Qed.

Lemma layout_var_lt {U} : forall (b : builder U) p path n,
  In n (layout b p path) -> n_path n = path -> (n_var n < N.of_nat (b_length b))%N.
Proof.
  induction b as [|id n IHn x IHx]; intros p path m IN EP; cbn [layout] in IN; [destruct IN|].
  cbn [b_length].
  destruct IN as [<-|IN]; [cbn [n_var]; lia|].
  apply in_app_or in IN as [IN|IN].
  - apply layout_path_prefix in IN as [r E]. rewrite EP, <- app_assoc in E.
    apply (f_equal (@length nat)) in E. rewrite !app_length in E. cbn in E. lia.
  - apply IHx in IN; auto. lia.
Qed.

(** The path of a node of a nested order starts with the position of the hierarchy. *)
Lemma path_not_next {U} : forall (b : builder U) p path q n r,
  q < p -> In n (layout b p path) -> n_path n = path ++ q :: r -> False.
Proof.
  induction b as [|id n IHn x IHx]; intros p path q m r L IN EP; cbn [layout] in IN; [destruct IN|].
  destruct IN as [<-|IN].
  - cbn [n_path] in EP. apply (f_equal (@length nat)) in EP. rewrite app_length in EP.
    cbn in EP. lia.
  - apply in_app_or in IN as [IN|IN].
    + apply layout_path_prefix in IN as [s E]. rewrite EP, <- app_assoc in E.
      apply app_inv_head in E. cbn in E. injection E as E _. lia.
    + eapply (IHx _ path q m r); [|exact IN|exact EP]. lia.
Qed.

Lemma layout_same_var {U} : forall (b : builder U) p path m n,
  In m (layout b p path) -> In n (layout b p path) -> n_path m = n_path n ->
  n_var m = n_var n -> m = n.
Proof.
  induction b as [|id nb IHn x IHx]; intros p path m n IM IN EP EV; cbn [layout] in IM, IN;
    [destruct IM|].
  set (hd := {| n_id := id; n_var := N.of_nat (b_length x); n_pos := p;
                n_next := first x (p + 1 + b_size nb);
                n_nested := first nb (p + 1); n_path := path |}) in *.
  assert (forall k, In k (layout nb (p + 1) (path ++ [p])
                          ++ layout x (p + 1 + b_size nb) path) ->
                    n_path k = path -> n_var k = N.of_nat (b_length x) -> False) as HD.
  { intros k IK PK VK. apply in_app_or in IK as [IK|IK].
    - apply layout_path_prefix in IK as [s E]. rewrite PK, <- app_assoc in E.
      apply (f_equal (@length nat)) in E. rewrite !app_length in E. cbn in E. lia.
    - pose proof (layout_var_lt _ _ _ _ IK PK). lia. }
  assert (forall j k, In j (layout nb (p + 1) (path ++ [p])) ->
                      In k (layout x (p + 1 + b_size nb) path) -> n_path j = n_path k -> False) as MX.
  { intros j k IJ IK PJ. apply layout_path_prefix in IJ as [s E]. rewrite PJ, <- app_assoc in E.
    eapply (path_not_next x _ path p k s); [|exact IK|exact E]. lia. }
  destruct IM as [<-|IM]; destruct IN as [<-|IN]; auto.
  - destruct (HD n IN); subst hd; cbn in *; congruence.
  - destruct (HD m IM); subst hd; cbn in *; congruence.
  - apply in_app_or in IM as [IM|IM]; apply in_app_or in IN as [IN|IN]; eauto.
    + destruct (MX m n IM IN EP).
    + destruct (MX n m IN IM); auto.
Qed.

Theorem C75_distinct_partial : forall U ueqb (EQ : is_eqb ueqb) W P (b : builder U) o u v m n,
  (0 < W)%N -> levels_fit W b -> b_size b < P ->
  mk_order_w U ueqb W P b = Ok o ->
  o_node U ueqb o u = Ok m -> o_node U ueqb o v = Ok n ->
  n_path m = n_path n -> n_var m = n_var n -> u = v.
Proof.
  intros U ueqb EQ W P b o u v m n WP F B E EM EN EP EV.
  rewrite C75_width_partial in E by assumption.
  pose proof (order_is _ _ EQ _ _ E). subst o.
  pose proof (o_node_ok U ueqb EQ b u) as HM. rewrite EM in HM. destruct HM as (_ & IM & LM).
  pose proof (o_node_ok U ueqb EQ b v) as HN. rewrite EN in HN. destruct HN as (_ & IN & LN).
  pose proof (layout_same_var b 0 [] m n LM LN EP EV). subst n.
  rewrite IM in IN. now injection IN.
Qed.

(** *** Beyond: two identifiers of one level have the same variable *)

Fixpoint flat_ids (k : nat) : builder nat :=
  match k with 0 => BNil | S k => BNode (user_id k) BNil (flat_ids k) end.

Lemma flat_ids_facts k :
  b_size (flat_ids k) = k /\ b_length (flat_ids k) = k /\ NoDup (users (flat_ids k))
  /\ forall u, In u (users (flat_ids k)) <-> u < k.
Proof.
  induction k as [|k (S1 & L1 & N1 & U1)]; cbn.
  { repeat split; auto; try constructor; try lia; intros []. }
  repeat split; auto.
  - constructor; auto. rewrite U1. lia.
  - intros [<-|H]; [lia|]. apply U1 in H. lia.
  - intros H. destruct (Nat.eq_dec u k); [now left|right]. apply U1. lia.
Qed.

Lemma flat_ids_node : forall k p path n, In n (layout (flat_ids k) p path) ->
  n_var n = N.of_nat (usr (n_id n)) /\ n_path n = path.
Proof.
  induction k as [|k IH]; intros p path n IN; cbn [flat_ids layout] in IN; [destruct IN|].
  destruct IN as [<-|IN].
  - cbn [n_var n_id n_path usr user_id]. destruct (flat_ids_facts k) as (_ & -> & _ & _). auto.
  - cbn [app] in IN. eauto.
Qed.

Lemma node_wrap U ueqb W (o : order U) u :
  o_node U ueqb (wrap_order U W o) u
  = match o_node U ueqb o u with Ok n => Ok (wrap U W n) | Err e => Err e end.
Proof.
  unfold o_node. cbn [wrap_order o_map].
  destruct (find _ (o_map o)) as [[k i]|]; [|reflexivity].
  unfold deref. cbn [wrap_order o_nodes]. rewrite nth_error_map.
  destruct (nth_error (o_nodes o) i) as [[n|]|]; reflexivity.
Qed.

(** One identifier more than the type has values is enough, whatever the type: the first and the
    last identifiers of the level have the same variable. *)
Theorem C75_distinct_refuted : forall W P, 0 < W -> S W < P ->
  exists (b : builder nat) o u v m n,
    b_length b = S W /\ b_size b = S W
    /\ mk_order_w nat Nat.eqb (N.of_nat W) P b = Ok o
    /\ o_node nat Nat.eqb o u = Ok m /\ o_node nat Nat.eqb o v = Ok n
    /\ n_path m = n_path n /\ n_var m = n_var n /\ u <> v.
Proof.
  intros W P LW LP.
  destruct (flat_ids_facts (S W)) as (S1 & L1 & N1 & U1).
  apply (C28_built_iff_unique nat Nat.eqb nat_is_eqb) in N1 as [o E].
  destruct (C28_node nat Nat.eqb nat_is_eqb _ _ 0 E) as [M _].
  destruct M as (m & EM & IM & _); [apply U1; lia|].
  destruct (C28_node nat Nat.eqb nat_is_eqb _ _ W E) as [N _].
  destruct N as (n & EN & IN & _); [apply U1; lia|].
  pose proof (order_is _ _ nat_is_eqb _ _ E). subst o.
  pose proof (o_node_ok nat Nat.eqb nat_is_eqb (flat_ids (S W)) 0) as HM. rewrite EM in HM.
  pose proof (o_node_ok nat Nat.eqb nat_is_eqb (flat_ids (S W)) W) as HN. rewrite EN in HN.
  destruct HM as (_ & _ & HM). destruct HN as (_ & _ & HN).
  apply flat_ids_node in HM as [VM PM]. apply flat_ids_node in HN as [VN PN].
  exists (flat_ids (S W)), (wrap_order nat (N.of_nat W) (order_of Nat.eqb (flat_ids (S W)))),
    0, W, (wrap nat (N.of_nat W) m), (wrap nat (N.of_nat W) n).
  repeat split; auto.
  - rewrite order_wrap by lia. now rewrite E.
  - now rewrite node_wrap, EM.
  - now rewrite node_wrap, EN.
  - cbn [wrap n_path]. congruence.
  - cbn [wrap n_var]. rewrite VM, VN, IM, IN. cbn [usr user_id].
    rewrite N.mod_same, N.mod_small by lia. reflexivity.
  - lia.
Qed.

(** The order of OrdersProps fits in a byte. *)
Example C75_example :
  levels_fit 256 ex_b /\ b_size ex_b < 1000
  /\ exists o, mk_order_w nat Nat.eqb 256 1000 ex_b = Ok o.
Proof.
  split; [cbn; lia|]. split; [cbn; lia|].
  vm_compute. eexists. reflexivity.
Qed.

(** With two bits, five identifiers are too many: variables 0, 3, 2, 1, 0. *)
Example C75_example_wraps :
  match mk_order_w nat Nat.eqb 4 1000 (flat_ids 5) with
  | Ok o => map (option_map n_var) (o_nodes o)
            = [Some 0%N; Some 3%N; Some 2%N; Some 1%N; Some 0%N]
  | Err _ => False
  end.
Proof. vm_compute. reflexivity. Qed.

Print Assumptions C75_width_partial.
Print Assumptions C75_distinct_partial.
Print Assumptions C75_distinct_refuted.
