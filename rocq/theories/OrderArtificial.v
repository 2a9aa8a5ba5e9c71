(** * The identifiers of the hierarchies made by strategies (C86)

    Orders.v leaves out that the counter of artificial identifiers (sdd/order/order_identifier.hh 82-90) is a static unsigned
    int, which wraps around, and that the construction of an order makes artificial identifiers too: one for each node. *)

From Coq Require Import List Bool Arith NArith Lia Permutation.
From Verif Require Import Base SortedSets Values Sdd DDModel Spec DDTheorems Concrete.
From Verif Require Import Orders OrdersProofs OrdersMore OrdersSdd OrdersProps.
Import ListNotations.

(** ** Model *)

Section Model.
  Variable U : Type.
  Variable ueqb : U -> U -> bool.
  Variable u0 : U.

  (** next_artificial and the constructor without arguments, sdd/order/order_identifier.hh 42-47, 82-90. *)
  Definition artificial_id32 (counter : N) : oid U * N :=
    let c := ((counter + 1) mod 2 ^ 32)%N in ({| art := c; usr := u0 |}, c).

  (** The loop that pushes the packets, sdd/order/strategies/identifiers_per_hierarchy.hh 44-48. *)
  Fixpoint push_packets32 (packets_rev : list (builder U)) (counter : N) (tmp : builder U) : builder U * N :=
    match packets_rev with
    | [] => (tmp, counter)
    | p :: packets_rev =>
      let '(id, counter) := artificial_id32 counter in
      push_packets32 packets_rev counter (b_push id p tmp)
    end.

  (** The loop of operator(), identifiers_per_hierarchy.hh 41-50. *)
  Fixpoint iph_loop32 (fuel : nat) (nb_variables : nat) (b : builder U) (counter : N) : res (oerr U) (builder U * N) :=
    match fuel with
    | 0 => Err EFuel
    | S fuel =>
      match b_height b with
      | None => Err EUndefined
      | Some h =>
        if nb_variables <? h
        then match packetize_impl nb_variables b with
             | Some (_, packets) =>
               let '(tmp, counter) := push_packets32 (rev packets) counter BNil in
               iph_loop32 fuel nb_variables tmp counter
             | None => Err EUndefined
             end
        else Ok (b, counter)
      end
    end.

  (** operator(), identifiers_per_hierarchy.hh 32-53. *)
  Definition identifiers_per_hierarchy32 (fuel : nat) (nb_variables : nat) (b : builder U) (counter : N)
    : res (oerr U) (builder U * N) :=
    if b_empty b || Nat.eqb nb_variables 1 then Ok (b, counter) else iph_loop32 fuel nb_variables b counter.

  (** load_order_impl, sdd/tools/order.hh 70-91; [readable] as in Orders.v. *)
  Variable readable : U -> bool.
  Fixpoint load_impl32 (j : json U) (counter : N) : res (oerr U) (builder U * N) :=
    match j with
    | JArray l =>
      rbind
        ((fix loop (l : list (json U)) (ob : builder U) (counter : N) : res (oerr U) (builder U * N) :=
            match l with
            | [] => Ok (ob, counter)
            | j :: l => rbind (load_impl32 j counter) (fun r => loop l (b_concat ob (fst r)) (snd r))
            end) l BNil counter)
        (fun r =>
           let '(ob, counter) := r in
           match b_height ob with
           | None => Err EUndefined
           | Some h =>
             if Nat.eqb h 1 then Ok (ob, counter)
             else let '(id, counter) := artificial_id32 counter in Ok (b_single id ob, counter)
           end)
    | JId u => if readable u then Ok (b_single (user_id u) BNil, counter) else Err EUndefined
    end.
  (** load_order, sdd/tools/order.hh 95-114, for a document that is an array. *)
  Definition load_order32 (j : json U) (counter : N) : res (oerr U) (builder U * N) :=
    rbind (load_impl32 j counter) (fun r =>
      let '(ob, counter) := r in
      match b_height ob, ob with
      | Some h, BNode _ nested _ =>
        if Nat.eqb h 1 && negb (b_empty nested) then Ok (nested, counter) else Ok (ob, counter)
      | _, _ => Err EUndefined
      end).

  (** The elements of std::vector<order_node<C>>(n), sdd/order/order.hh 252, made by the default constructor of order_node
      (order_node.hh 76-79), which calls the one of order_identifier. *)
  Fixpoint default_nodes32 (n : nat) (counter : N) : N :=
    match n with
    | 0 => counter
    | S n => default_nodes32 n (snd (artificial_id32 counter))
    end.
  (** The construction of an order, sdd/order/order.hh 80-89, 243-303.  Simplification: the size of the builder fits in
      an unsigned int. *)
  Definition mk_order32 (b : builder U) (counter : N) : res (oerr U) (order U) * N :=
    (mk_order U ueqb b, if b_empty b then counter else default_nodes32 (b_size b) counter).
  (** The counter after the construction of several orders. *)
  Definition mk_orders32 (bs : list (builder U)) (counter : N) : N :=
    fold_left (fun counter b => snd (mk_order32 b counter)) bs counter.
End Model.

(** ** Proofs *)

Section Proofs.
  Variable U : Type.
  Variable ueqb : U -> U -> bool.
  Variable u0 : U.

  (** The identifiers are different, and made when the counter was at most [c]. *)
  Definition upto (c : N) (l : list (oid U)) : Prop := NoDup l /\ forall i, In i l -> (art i <= c)%N.
  Lemma upto_perm : forall c l l', Permutation l l' -> upto c l -> upto c l'.
  Proof.
    intros c l l' P [N F]. split; [exact (Permutation_NoDup P N)|].
    intros i Hi. apply F. exact (Permutation_in _ (Permutation_sym P) Hi).
  Qed.

  Lemma artificial_small : forall c, (c + 1 < 2 ^ 32)%N -> artificial_id32 U u0 c = artificial_id U u0 c.
  Proof.
    intros c H. unfold artificial_id32, artificial_id. rewrite N.mod_small by exact H. now rewrite N.add_1_r.
  Qed.

  Lemma push_packets_small : forall packets c tmp, (c + N.of_nat (length packets) < 2 ^ 32)%N ->
    upto c (concat (map all_ids packets) ++ all_ids tmp) ->
    exists r, push_packets32 U u0 packets c tmp = (r, (c + N.of_nat (length packets))%N) /\
      push_packets U u0 packets c tmp = (r, (c + N.of_nat (length packets))%N) /\
      upto (c + N.of_nat (length packets)) (all_ids r) /\
      (forall i, In i (all_ids r) -> In i (concat (map all_ids packets)) \/ In i (all_ids tmp) \/ (c < art i)%N).
  Proof.
    induction packets as [|p packets IH]; intros c tmp B W; cbn [length push_packets32 push_packets].
    - exists tmp. cbn [length] in B. rewrite N.add_0_r. cbn [map concat app] in *. repeat split; try apply W; auto.
    - cbn [length] in B. rewrite Nat2N.inj_succ in *. rewrite artificial_small by lia. unfold artificial_id.
      destruct (IH (N.succ c) (b_push {| art := N.succ c; usr := u0 |} p tmp)) as (r & E1 & E2 & W' & O); [lia| |].
      + cbn [b_push all_ids map concat] in *.
        apply upto_perm with ({| art := N.succ c; usr := u0 |} :: (all_ids p ++ concat (map all_ids packets)) ++ all_ids tmp).
        * apply Permutation_trans with (({| art := N.succ c; usr := u0 |} :: all_ids p ++ all_ids tmp) ++ concat (map all_ids packets));
            [|apply Permutation_app_comm].
          cbn [app]. constructor. rewrite <- !app_assoc. apply Permutation_app_head, Permutation_app_comm.
        * destruct W as [N F]. split.
          -- constructor; [|exact N]. intros H. specialize (F _ H). cbn [art] in F. lia.
          -- intros i [<-|Hi]; [cbn [art]; lia|]. specialize (F _ Hi). lia.
      + replace (N.succ c + N.of_nat (length packets))%N with (c + N.succ (N.of_nat (length packets)))%N in * by lia.
        exists r. split; [exact E1|]. split; [exact E2|]. split; [exact W'|].
        intros i Hi. cbn [map concat]. rewrite in_app_iff. destruct (O i Hi) as [H|[H|H]].
        * auto.
        * cbn [b_push all_ids] in H. destruct H as [<-|H]; [right; right; cbn [art]; lia|].
          apply in_app_iff in H. tauto.
        * right; right. lia.
  Qed.

  Lemma all_ids_concat : forall a b : builder U, all_ids (b_concat a b) = all_ids a ++ all_ids b.
  Proof.
    induction a as [|id m _ x IH]; intros b; cbn [b_concat all_ids app]; [reflexivity|].
    now rewrite IH, app_assoc.
  Qed.
  Lemma all_ids_concat_all : forall l : list (builder U), all_ids (concat_all l) = concat (map all_ids l).
  Proof.
    induction l as [|p l IH]; [reflexivity|].
    change (concat_all (p :: l)) with (b_concat p (concat_all l)). now rewrite all_ids_concat, IH.
  Qed.
  Lemma concat_rev_perm : forall l : list (builder U),
    Permutation (concat (map all_ids l)) (concat (map all_ids (rev l))).
  Proof.
    induction l as [|p l IH]; [constructor|]. cbn [rev]. rewrite map_app, concat_app. cbn [map concat].
    rewrite app_nil_r. apply Permutation_trans with (concat (map all_ids l) ++ all_ids p); [apply Permutation_app_comm|].
    now apply Permutation_app_tail.
  Qed.

  Lemma iph_loop_small n : 2 <= n -> forall fuel b c, b <> BNil -> b_length b < fuel -> upto c (all_ids b) ->
    (c + N.of_nat (2 * b_length b) < 2 ^ 32)%N ->
    exists r c', iph_loop32 U u0 fuel n b c = Ok (r, c') /\ iph_loop U u0 fuel n b c = Ok (r, c') /\
      (c <= c' <= c + N.of_nat (2 * b_length b))%N /\ upto c' (all_ids r) /\
      (forall i, In i (all_ids r) -> In i (all_ids b) \/ (c < art i)%N).
  Proof.
    intros Hn. induction fuel as [|fuel IH]; intros b c NE L W B; [lia|].
    assert (Hh : b_height b = Some (b_length b)) by (destruct b; [congruence|reflexivity]).
    cbn [iph_loop32 iph_loop]. rewrite Hh. destruct (Nat.ltb_spec n (b_length b)) as [LT|GE].
    - destruct (packetize_ok U n ltac:(lia) b NE) as (front & packets & E & LF & F & C). rewrite E.
      assert (LB : b_length b = b_length front + n * length packets).
      { rewrite <- C, b_length_concat. f_equal. clear - F.
        induction F as [|p packets H F IH]; [cbn; lia|].
        change (concat_all (p :: packets)) with (b_concat p (concat_all packets)).
        rewrite b_length_concat, IH, H. cbn. lia. }
      assert (I : all_ids b = concat (map all_ids (front :: packets))).
      { rewrite <- C, all_ids_concat, all_ids_concat_all. reflexivity. }
      set (k := length (rev (front :: packets))).
      assert (Ek : k = S (length packets)) by (unfold k; rewrite rev_length; reflexivity).
      assert (K : 2 * k <= S (b_length b)) by (rewrite LB, Ek; nia).
      destruct (push_packets_small (rev (front :: packets)) c BNil) as (r & E1 & E2 & W' & O).
      { fold k. lia. }
      { cbn [all_ids]. rewrite app_nil_r. apply upto_perm with (all_ids b); [|exact W]. rewrite I. apply concat_rev_perm. }
      fold k in E1, E2, W'. rewrite E1, E2.
      destruct (push_packets_ok U u0 (rev (front :: packets)) c BNil) as (r' & c' & EP & _ & _ & LR).
      rewrite E2 in EP. injection EP as <- _. fold k in LR. cbn [b_length] in LR. rewrite Nat.add_0_r in LR.
      destruct (IH r (c + N.of_nat k)%N) as (r2 & c2 & G1 & G2 & Hc & W2 & O2).
      { intros ->. cbn [b_length] in LR. lia. }
      { lia. }
      { exact W'. }
      { rewrite LR. lia. }
      exists r2, c2. split; [exact G1|]. split; [exact G2|]. split; [rewrite LR in Hc; lia|]. split; [exact W2|].
      intros i Hi. destruct (O2 i Hi) as [Hr|Hr]; [|right; lia].
      destruct (O i Hr) as [H|[[]|H]]; auto. left. rewrite I.
      exact (Permutation_in _ (Permutation_sym (concat_rev_perm _)) H).
    - exists b, c. split; [reflexivity|]. split; [reflexivity|]. split; [lia|]. auto.
  Qed.

  (** *** Loading *)

  Variable readable : U -> bool.
  (** The number of arrays of a document. *)
  Fixpoint arrays (j : json U) : nat :=
    match j with
    | JId _ => 0
    | JArray l => S (fold_right (fun j n => arrays j + n) 0 l)
    end.
  Definition arrays_in (l : list (json U)) : nat := fold_right (fun j n => arrays j + n) 0 l.
  (** What holds of a document when the counter does not wrap while it is loaded. *)
  Definition loads_small (j : json U) : Prop := forall c, (c + N.of_nat (arrays j) < 2 ^ 32)%N ->
    load_impl32 U u0 readable j c = load_impl U u0 readable j c /\
    forall r c', load_impl U u0 readable j c = Ok (r, c') ->
      (c <= c' <= c + N.of_nat (arrays j))%N /\ NoDup (filter is_artificial (all_ids r)) /\
      forall i, In i (all_ids r) -> is_artificial i = true -> (c < art i <= c')%N.
  Lemma json_ind' : forall P : json U -> Prop, (forall u, P (JId u)) ->
    (forall l, (forall j, In j l -> P j) -> P (JArray l)) -> forall j, P j.
  Proof.
    intros P HI HA. fix IH 1. intros [u|l]; [apply HI|]. apply HA. induction l as [|j l IHl]; intros k Hk; [destruct Hk|].
    destruct Hk as [<-|Hk]; [exact (IH j)|exact (IHl k Hk)].
  Qed.
  Fixpoint load_loop32 (l : list (json U)) (ob : builder U) (counter : N) : res (oerr U) (builder U * N) :=
    match l with
    | [] => Ok (ob, counter)
    | j :: l => rbind (load_impl32 U u0 readable j counter) (fun r => load_loop32 l (b_concat ob (fst r)) (snd r))
    end.
  Lemma load_loop_small : forall l, (forall j, In j l -> loads_small j) -> forall ob c c0,
    (c + N.of_nat (arrays_in l) < 2 ^ 32)%N -> (c0 <= c)%N ->
    NoDup (filter is_artificial (all_ids ob)) -> (forall i, In i (all_ids ob) -> is_artificial i = true -> (c0 < art i <= c)%N) ->
    load_loop32 l ob c = load_loop U u0 readable l ob c /\
    forall r c', load_loop U u0 readable l ob c = Ok (r, c') ->
      (c <= c' <= c + N.of_nat (arrays_in l))%N /\ NoDup (filter is_artificial (all_ids r)) /\
      forall i, In i (all_ids r) -> is_artificial i = true -> (c0 < art i <= c')%N.
  Proof.
    induction l as [|j l IH]; intros H ob c c0 B Lc ND F; cbn [load_loop32 load_loop].
    - split; [reflexivity|]. intros r c' [= <- <-]. split; [cbn; lia|]. auto.
    - change (arrays_in (j :: l)) with (arrays j + arrays_in l) in *. destruct (H j (or_introl eq_refl) c) as [E O]; [lia|]. rewrite E.
      destruct (load_impl U u0 readable j c) as [[r1 c1]|e]; cbn [rbind fst snd]; [|split; [reflexivity|discriminate]].
      destruct (O r1 c1 eq_refl) as (B1 & N1 & F1).
      destruct (IH (fun k Hk => H k (or_intror Hk)) (b_concat ob r1) c1 c0) as [E2 O2]; [lia|lia| | |].
      + rewrite all_ids_concat, filter_app. clear - ND N1 F F1.
        assert (D : forall i, In i (filter is_artificial (all_ids ob)) -> ~ In i (filter is_artificial (all_ids r1))).
        { intros i Hi Hi'. apply filter_In in Hi, Hi'. destruct Hi as [A1 A2], Hi' as [A3 A4].
          specialize (F i A1 A2). specialize (F1 i A3 A4). lia. }
        induction (filter is_artificial (all_ids ob)) as [|i k IHk]; [exact N1|]. inversion ND; subst. cbn [app]. constructor.
        * rewrite in_app_iff. intros [A|A]; [contradiction|]. exact (D i (or_introl eq_refl) A).
        * apply IHk; auto. intros x Hx. apply D. now right.
      + intros i Hi A. rewrite all_ids_concat, in_app_iff in Hi.
        destruct Hi as [Hi|Hi]; [specialize (F i Hi A)|specialize (F1 i Hi A)]; lia.
      + split; [exact E2|]. intros r c' E3. destruct (O2 r c' E3) as (A1 & A2). split; [lia|exact A2].
  Qed.
  Lemma load_small : forall j, loads_small j.
  Proof.
    induction j as [u|l IH] using json_ind'; intros c B.
    - cbn [load_impl32 load_impl]. split; [reflexivity|]. destruct (readable u); [|discriminate].
      intros r c' [= <- <-]. split; [cbn; lia|]. split; [constructor|]. intros i [<-|[]]; discriminate.
    - change (arrays (JArray l)) with (S (arrays_in l)) in *.
      destruct (load_loop_small l IH BNil c c) as [E O]; [lia|lia|constructor|intros i []|].
      rewrite load_array.
      change (load_impl32 U u0 readable (JArray l) c) with
        (rbind (load_loop32 l BNil c) (fun r =>
           let '(ob, counter) := r in
           match b_height ob with
           | None => Err EUndefined
           | Some h => if Nat.eqb h 1 then Ok (ob, counter)
                       else let '(id, counter) := artificial_id32 U u0 counter in Ok (b_single id ob, counter)
           end)).
      rewrite E. destruct (load_loop U u0 readable l BNil c) as [[ob c1]|e]; cbn [rbind]; [|split; [reflexivity|discriminate]].
      destruct (O ob c1 eq_refl) as (B1 & N1 & F1).
      destruct (b_height ob) as [h|]; [|split; [reflexivity|discriminate]].
      destruct (Nat.eqb h 1).
      + split; [reflexivity|]. intros r c' [= <- <-]. split; [lia|]. auto.
      + rewrite artificial_small by lia. unfold artificial_id. split; [reflexivity|]. intros r c' [= <- <-].
        split; [lia|]. unfold b_single. cbn [all_ids]. rewrite app_nil_r. split.
        * cbn [filter]. destruct (is_artificial _); [|exact N1]. constructor; [|exact N1].
          rewrite filter_In. intros [Hi A]. specialize (F1 _ Hi A). cbn [art] in F1. lia.
        * intros i [<-|Hi] A; [cbn [art]; lia|]. specialize (F1 i Hi A). lia.
  Qed.

  Lemma default_nodes_mod : forall n c, (c < 2 ^ 32)%N ->
    default_nodes32 U u0 n c = ((c + N.of_nat n) mod 2 ^ 32)%N.
  Proof.
    induction n as [|n IH]; intros c H; cbn [default_nodes32].
    - rewrite N.add_0_r. now rewrite N.mod_small.
    - unfold artificial_id32. cbn [snd]. rewrite IH by (apply N.mod_lt; discriminate).
      rewrite N.add_mod_idemp_l by discriminate. f_equal. lia.
  Qed.
  Lemma mk_orders_mod : forall bs c, (c < 2 ^ 32)%N ->
    mk_orders32 U ueqb u0 bs c = ((c + N.of_nat (list_sum (map b_size bs))) mod 2 ^ 32)%N.
  Proof.
    induction bs as [|b bs IH]; intros c H.
    - cbn. rewrite N.add_0_r. now rewrite N.mod_small.
    - unfold mk_orders32 in *. cbn [fold_left map]. unfold mk_order32 at 2. cbn [snd].
      assert (E : (if b_empty b then c else default_nodes32 U u0 (b_size b) c) = ((c + N.of_nat (b_size b)) mod 2 ^ 32)%N).
      { destruct b; cbn [b_empty]; [|now apply default_nodes_mod].
        cbn [b_size]. rewrite N.add_0_r. now rewrite N.mod_small. }
      rewrite E, IH by (apply N.mod_lt; discriminate). rewrite N.add_mod_idemp_l by discriminate. f_equal.
      cbn [list_sum fold_right]. unfold list_sum. lia.
  Qed.
End Proofs.

(** ** C86 *)

(** As long as fewer than 2^32 artificial identifiers have been made: [c] of them, and at most two for each identifier
    of the top level of [b] here. *)
Theorem C86_own_identifiers_partial : forall U ueqb (EQ : is_eqb ueqb) u0 n (b : builder U) c fuel,
  2 <= n -> b_length b < fuel -> NoDup (all_ids b) -> (forall i, In i (all_ids b) -> (art i <= c)%N) ->
  (c + N.of_nat (2 * b_length b) < 2 ^ 32)%N ->
  exists r c', identifiers_per_hierarchy32 U u0 fuel n b c = Ok (r, c')
    /\ b_length r <= n /\ regrouped n b r /\ users r = users b
    /\ NoDup (all_ids r)
    /\ (forall i, In i (all_ids r) -> In i (all_ids b) \/ (c < art i <= c')%N)
    /\ (NoDup (users b) -> exists o, mk_order U ueqb r = Ok o).
Proof.
  intros U ueqb EQ u0 n b c fuel Hn L N F B.
  destruct (C31_grouped_partial U u0 n b c fuel Hn L) as (r & c' & E & L' & G & _ & Eu).
  assert (Q : identifiers_per_hierarchy32 U u0 fuel n b c = Ok (r, c') /\ NoDup (all_ids r) /\
    forall i, In i (all_ids r) -> In i (all_ids b) \/ (c < art i <= c')%N).
  { unfold identifiers_per_hierarchy32. unfold identifiers_per_hierarchy in E.
    destruct (b_empty b || Nat.eqb n 1) eqn:D.
    - injection E as <- <-. auto.
    - assert (NE : b <> BNil) by (intros ->; discriminate D).
      destruct (iph_loop_small U ueqb u0 n Hn fuel b c NE L (conj N F) B) as (r2 & c2 & G1 & G2 & _ & [N2 F2] & O).
      rewrite E in G2. injection G2 as <- <-. split; [exact G1|]. split; [exact N2|].
      intros i Hi. destruct (O i Hi) as [H|H]; auto. }
  destruct Q as (Q1 & Q2 & Q3). exists r, c'. repeat (split; [assumption|]).
  intros ND. apply (C28_built_iff_unique U ueqb EQ). now rewrite Eu.
Qed.
Print Assumptions C86_own_identifiers_partial.

(** Applied twice to the same builder, the strategy makes other identifiers: the orders are not equal. *)
Theorem C86_twice : forall U ueqb (EQ : is_eqb ueqb) u0 n (b : builder U) c fuel r1 c1 r2 c2 o1 o2,
  2 <= n -> n < b_length b -> b_length b < fuel -> (forall i, In i (all_ids b) -> is_artificial i = false) ->
  NoDup (all_ids b) -> (c + N.of_nat (2 * b_length b) < 2 ^ 32)%N -> (c1 + N.of_nat (2 * b_length b) < 2 ^ 32)%N ->
  identifiers_per_hierarchy32 U u0 fuel n b c = Ok (r1, c1) ->
  identifiers_per_hierarchy32 U u0 fuel n b c1 = Ok (r2, c2) ->
  mk_order U ueqb r1 = Ok o1 -> mk_order U ueqb r2 = Ok o2 -> order_eqb U ueqb o1 o2 = Ok false.
Proof.
  intros U ueqb EQ u0 n b c fuel r1 c1 r2 c2 o1 o2 Hn LT L A N B1 B2 E1 E2 M1 M2.
  assert (Z : forall i, In i (all_ids b) -> art i = 0%N).
  { intros i Hi. specialize (A i Hi). unfold is_artificial in A. now apply negb_false_iff, N.eqb_eq in A. }
  assert (Z' : forall d i, In i (all_ids b) -> (art i <= d)%N) by (intros d i Hi; rewrite (Z i Hi); lia).
  destruct (C86_own_identifiers_partial U ueqb EQ u0 n b c fuel Hn L N (Z' c) B1) as (r1' & c1' & E1' & _ & _ & _ & _ & I1 & _).
  destruct (C86_own_identifiers_partial U ueqb EQ u0 n b c1 fuel Hn L N (Z' c1) B2) as (r2' & c2' & E2' & L2 & G2 & Eu & _ & I2 & _).
  rewrite E1 in E1'. injection E1' as <- <-. rewrite E2 in E2'. injection E2' as <- <-.
  assert (D : r1 <> r2).
  { intros <-.
    assert (All : forall i, In i (all_ids r1) -> is_artificial i = false).
    { intros i Hi. destruct (I2 i Hi) as [H|[H _]]; [now apply A|].
      destruct (I1 i Hi) as [H'|[_ H']]; [now apply A|lia]. }
    inversion G2 as [|m r G' [F C]]; subst; [lia|].
    destruct r1 as [|id nested next].
    - destruct b as [|id nested next]; cbn [b_length] in LT; [lia|]. cbn [users] in Eu.
      rewrite (A id) in Eu by (left; reflexivity). discriminate Eu.
    - cbn [items] in F. inversion F as [|x l [H _] _]; subst. cbn [fst] in H.
      rewrite (All id) in H by (left; reflexivity). discriminate H. }
  destruct (C54_order_equality U ueqb EQ r1 r2 o1 o2 o1 o2 r1 r2 M1 M2 (sub_root o1) (sub_root o2)
    (C28_structure U ueqb EQ r1 o1 M1) (C28_structure U ueqb EQ r2 o2 M2)) as ([] & -> & H); [|reflexivity].
  destruct (D (proj1 (proj1 H eq_refl))).
Qed.
Print Assumptions C86_twice.

(** The same for the hierarchies of a saved order that is loaded.  [arrays j]: the number of arrays of the document. *)
Theorem C86_loaded_partial : forall U ueqb (EQ : is_eqb ueqb) u0 readable (b : builder U) o c,
  mk_order U ueqb b = Ok o -> b <> BNil -> well_named b -> Forall (fun u => readable u = true) (flats b) ->
  exists j, dump_order o = Ok j /\ ((c + N.of_nat (arrays U j) < 2 ^ 32)%N ->
  exists r c', load_order32 U u0 readable j c = Ok (r, c')
    /\ flats r = flats b /\ (eqv b r \/ exists h, eqv b (BNode h r BNil))
    /\ NoDup (filter is_artificial (all_ids r))
    /\ forall i, In i (all_ids r) -> is_artificial i = true -> (c < art i <= c')%N).
Proof.
  intros U ueqb EQ u0 readable b o c E NE W R.
  destruct (C32_round_trip_partial U ueqb EQ u0 readable b o c E NE W R) as (j & r & c' & D & L & Fl & Q).
  exists j. split; [exact D|]. intros B. exists r, c'.
  destruct (load_small U u0 readable j c B) as [E2 O].
  assert (L2 : load_order32 U u0 readable j c = Ok (r, c')).
  { unfold load_order32. rewrite E2. exact L. }
  split; [exact L2|]. split; [exact Fl|]. split; [exact Q|]. clear L2.
  unfold load_order in L. destruct (load_impl U u0 readable j c) as [[ob c1]|e]; cbn [rbind] in L; [|discriminate L].
  destruct (O ob c1 eq_refl) as (B1 & N1 & F1).
  destruct (b_height ob) as [h|]; [|discriminate L]. destruct ob as [|id nested next]; [discriminate L|].
  destruct (Nat.eqb h 1 && negb (b_empty nested)); injection L as <- <-; [|auto].
  cbn [all_ids filter] in N1, F1. rewrite filter_app in N1.
  assert (N2 : NoDup (filter is_artificial (all_ids nested) ++ filter is_artificial (all_ids next))).
  { destruct (is_artificial id); [inversion N1; assumption|exact N1]. }
  split.
  - clear - N2. induction (filter is_artificial (all_ids nested)) as [|i l IH]; [constructor|].
    inversion N2; subst. constructor; auto. intros H. apply H1. apply in_app_iff. auto.
  - intros i Hi A. apply F1; auto. right. apply in_app_iff. auto.
Qed.
Print Assumptions C86_loaded_partial.

(** With 65537 orders of 65535 identifiers, the next artificial identifier is the default identifier of the user: an order
    over 0, 1 and 2, built with two identifiers per hierarchy, is refused because 0 appears twice. *)
Definition before : list (builder nat) := repeat (b_of_list (seq 0 (N.to_nat 65535))) (N.to_nat 65537).
Theorem C86_own_identifiers_refuted :
  (forall b, In b before -> exists o, mk_order nat Nat.eqb b = Ok o) /\
  let c := mk_orders32 nat Nat.eqb 0 before 0 in
  NoDup (users (b_of_list [0; 1; 2])) /\
  exists r c', identifiers_per_hierarchy32 nat 0 4 2 (b_of_list [0; 1; 2]) c = Ok (r, c') /\
    users r <> users (b_of_list [0; 1; 2]) /\ mk_order nat Nat.eqb r = Err (EDuplicate 0).
Proof.
  assert (S : forall l : list nat, all_ids (b_of_list l) = map user_id l /\ users (b_of_list l) = l).
  { intros l. unfold b_of_list. rewrite <- (rev_involutive l) at 2 4. generalize (rev l). clear l. intros l.
    enough (G : forall (b : builder nat),
      all_ids (fold_left (fun b u => b_push (user_id u) BNil b) l b) = map user_id (rev l) ++ all_ids b /\
      users (fold_left (fun b u => b_push (user_id u) BNil b) l b) = rev l ++ users b).
    { destruct (G BNil) as [G1 G2]. cbn [all_ids users] in G1, G2. now rewrite !app_nil_r in *. }
    induction l as [|u l IH]; intros b; [split; reflexivity|]. cbn [fold_left rev].
    destruct (IH (b_push (user_id u) BNil b)) as [-> ->]. cbn [b_push all_ids users app]. rewrite map_app, <- !app_assoc.
    split; reflexivity. }
  split.
  - intros b Hb. unfold before in Hb. apply repeat_spec in Hb. subst b. apply (C28_built_iff_unique nat Nat.eqb nat_is_eqb).
    rewrite (proj2 (S _)). apply seq_NoDup.
  - assert (C : mk_orders32 nat Nat.eqb 0 before 0 = 4294967295%N).
    { rewrite mk_orders_mod by reflexivity. unfold before.
      assert (R : forall k m, N.of_nat (list_sum (map b_size (repeat (b_of_list (seq 0 m)) k))) = (N.of_nat k * N.of_nat m)%N).
      { intros k m. assert (Em : b_size (b_of_list (seq 0 m)) = m)
          by (rewrite b_size_ids, (proj1 (S _)), map_length, seq_length; reflexivity).
        induction k as [|k IH]; [reflexivity|]. cbn [repeat map]. unfold list_sum in *. cbn [fold_right]. rewrite Em. lia. }
      rewrite (R (N.to_nat 65537) (N.to_nat 65535)).
      rewrite (N2Nat.id 65537), (N2Nat.id 65535). reflexivity. }
    cbv zeta. rewrite C. split; [repeat constructor; simpl; intuition discriminate|].
    eexists _, _. split; [vm_compute; reflexivity|]. split; [vm_compute; discriminate|vm_compute; reflexivity].
Qed.
Print Assumptions C86_own_identifiers_refuted.

Example C86_ex :
  let b := b_of_list [1; 2; 3; 4; 5] in
  NoDup (all_ids b) /\ (forall i, In i (all_ids b) -> (art i <= 7)%N) /\ (7 + N.of_nat (2 * b_length b) < 2 ^ 32)%N /\
  exists r, identifiers_per_hierarchy32 nat 0 8 2 b 7 = Ok (r, 12%N) /\ map art (all_ids r) = [12; 10; 0; 11; 9; 0; 0; 8; 0; 0]%N.
Proof.
  vm_compute. split; [repeat constructor; simpl; intuition discriminate|].
  split; [intuition; subst; discriminate|]. split; [reflexivity|]. eexists. split; reflexivity.
Qed.
Example C86_twice_ex : exists r1 r2 o1 o2,
  identifiers_per_hierarchy32 nat 0 8 2 (b_of_list [1; 2; 3]) 0 = Ok (r1, 2%N) /\
  identifiers_per_hierarchy32 nat 0 8 2 (b_of_list [1; 2; 3]) 2 = Ok (r2, 4%N) /\
  mk_order nat Nat.eqb r1 = Ok o1 /\ mk_order nat Nat.eqb r2 = Ok o2 /\ order_eqb nat Nat.eqb o1 o2 = Ok false /\
  snd (mk_order32 nat Nat.eqb 0 r1 2) = 7%N.
Proof.
  eexists _, _, _, _. split; [vm_compute; reflexivity|]. split; [vm_compute; reflexivity|].
  split; [vm_compute; reflexivity|]. split; [vm_compute; reflexivity|]. split; vm_compute; reflexivity.
Qed.
Example C86_loaded_ex : well_named ex_b /\ exists o j r, mk_order nat Nat.eqb ex_b = Ok o /\ dump_order o = Ok j /\
  arrays nat j = 3 /\ load_order32 nat 0 (fun _ => true) j 7 = Ok (r, 10%N) /\ map art (all_ids r) = [0; 9; 0; 8; 0; 0; 0]%N /\
  exists r', load_order32 nat 0 (fun _ => true) j (2 ^ 32 - 1) = Ok (r', 2%N) /\ users r' = [1; 3; 0; 4; 5; 6].
Proof.
  split; [repeat split; discriminate|]. eexists _, _, _. split; [vm_compute; reflexivity|]. split; [vm_compute; reflexivity|].
  split; [vm_compute; reflexivity|]. split; [vm_compute; reflexivity|]. split; [vm_compute; reflexivity|].
  eexists. split; [vm_compute; reflexivity|vm_compute; reflexivity].
Qed.
