(** * Order builders, strategies and JSON: specification and proofs *)

From Coq Require Import List Bool Arith NArith Lia Permutation.
From Verif Require Import Base Orders OrdersProofs.
Import ListNotations.

Section More.
  Variable U : Type.
  Variable u0 : U.
  Notation builder := (builder U).
  Notation order := (order U).

  (** The top level of a builder: identifiers and their nested builders. *)
  Fixpoint items (b : builder) : list (oid U * builder) :=
    match b with
    | BNil => []
    | BNode id nested next => (id, nested) :: items next
    end.

  (** All the identifiers, from top to bottom. *)
  Fixpoint all_ids (b : builder) : list (oid U) :=
    match b with
    | BNil => []
    | BNode id nested next => id :: all_ids nested ++ all_ids next
    end.

  Lemma items_concat a b : items (b_concat a b) = items a ++ items b.
  Proof. induction a as [|id n _ x IH]; cbn; congruence. Qed.

  Lemma items_inj a : forall b, items a = items b -> a = b.
  Proof.
    induction a as [|id n _ x IH]; intros [|id' n' x']; cbn; try discriminate; auto.
    intros [= -> -> H]. f_equal. now apply IH.
  Qed.

  Lemma b_of_list_cons (u : U) l : b_of_list (u :: l) = BNode (user_id u) BNil (b_of_list l).
  Proof. unfold b_of_list. cbn. now rewrite fold_left_app. Qed.

  Lemma b_of_list_app (l m : list U) : b_of_list (l ++ m) = b_concat (b_of_list l) (b_of_list m).
  Proof.
    induction l as [|u l IH]; [reflexivity|].
    cbn [app]. rewrite !b_of_list_cons, IH. reflexivity.
  Qed.

  Lemma items_of_list (l : list U) : items (b_of_list l) = map (fun u => (user_id u, BNil)) l.
  Proof.
    induction l as [|u l IH]; [reflexivity|]. rewrite b_of_list_cons. cbn. now rewrite IH.
  Qed.

  Lemma b_size_ids (b : builder) : b_size b = length (all_ids b).
  Proof.
    induction b as [|id n IHn x IHx]; cbn; auto. rewrite app_length. lia.
  Qed.

  Lemma b_length_items (b : builder) : b_length b = length (items b).
  Proof. induction b as [|id n _ x IH]; cbn; auto. Qed.

  Lemma b_length_concat (a b : builder) : b_length (b_concat a b) = b_length a + b_length b.
  Proof. rewrite !b_length_items, items_concat, app_length. reflexivity. Qed.

  Lemma flats_concat (a b : builder) : flats (b_concat a b) = flats a ++ flats b.
  Proof.
    induction a as [|id n _ x IH]; [reflexivity|].
    cbn [b_concat]. destruct n; cbn [flats]; rewrite IH; [reflexivity|apply app_assoc].
  Qed.

  Lemma users_concat (a b : builder) : users (b_concat a b) = users a ++ users b.
  Proof.
    induction a as [|id n _ x IH]; [reflexivity|].
    cbn [b_concat users]. rewrite IH, <- !app_assoc. reflexivity.
  Qed.

  Lemma concat_nil_r (a : builder) : b_concat a BNil = a.
  Proof. induction a as [|id n _ x IH]; cbn; congruence. Qed.

  Lemma concat_assoc (a b c : builder) : b_concat (b_concat a b) c = b_concat a (b_concat b c).
  Proof. induction a as [|id n _ x IH]; cbn; congruence. Qed.

  Lemma flats_of_list (l : list U) : flats (b_of_list l) = l.
  Proof. induction l as [|u l IH]; [reflexivity|]. rewrite b_of_list_cons. cbn. now rewrite IH. Qed.

  Lemma users_of_list (l : list U) : users (b_of_list l) = l.
  Proof. induction l as [|u l IH]; [reflexivity|]. rewrite b_of_list_cons. cbn. now rewrite IH. Qed.

  (** *** flatten *)
  Lemma flatten_ok (b : builder) : flatten b = b_of_list (flats b).
  Proof.
    induction b as [|id n IHn x IHx]; [reflexivity|].
    destruct n as [|id' n' x'].
    - cbn [flatten flats]. rewrite IHx, b_of_list_cons. reflexivity.
    - cbn [flatten flats] in *. rewrite IHn, IHx, b_of_list_app. reflexivity.
  Qed.

  (** *** identifiers_per_hierarchy *)

  Definition concat_all (l : list builder) : builder := fold_right b_concat BNil l.

  (** [r] groups the identifiers of the top level of [b], in the same order, under new artificial
      identifiers, at most [n] (and at least one) under each of them. *)
  Definition groups (n : nat) (b r : builder) : Prop :=
    Forall (fun it => is_artificial (fst it) = true
                      /\ 1 <= b_length (snd it) <= n) (items r)
    /\ concat_all (map snd (items r)) = b.

  (** Zero or several groupings. *)
  Inductive regrouped (n : nat) (b : builder) : builder -> Prop :=
  | rg_none : regrouped n b b
  | rg_more m r : regrouped n b m -> groups n m r -> regrouped n b r.

  Lemma flats_concat_all l : flats (concat_all l) = concat (map flats l).
  Proof. induction l as [|b l IH]; [reflexivity|].
    cbn [map concat]. change (concat_all (b :: l)) with (b_concat b (concat_all l)).
    now rewrite flats_concat, IH. Qed.

  Lemma users_concat_all l : users (concat_all l) = concat (map users l).
  Proof. induction l as [|b l IH]; [reflexivity|].
    cbn [map concat]. change (concat_all (b :: l)) with (b_concat b (concat_all l)).
    now rewrite users_concat, IH. Qed.

  Lemma groups_flats n b r : groups n b r -> flats r = flats b /\ users r = users b.
  Proof.
    intros [F E]. subst b. rewrite flats_concat_all, users_concat_all, !map_map.
    revert F. induction r as [|id m _ x IH]; cbn [items map]; [auto|].
    intros F. inversion F as [|? ? [A L] F']; subst. cbn [fst snd] in *.
    destruct (IH F') as [IH1 IH2]. clear IH. split.
    - destruct m as [|id' m' x']; [cbn in L; lia|].
      cbn [flats map concat snd] in *. now rewrite IH1.
    - cbn [users map concat snd]. rewrite A, IH2. reflexivity.
  Qed.

  Lemma regrouped_flats n b r : regrouped n b r -> flats r = flats b /\ users r = users b.
  Proof.
    induction 1 as [|m r H [IH1 IH2] G]; [auto|].
    destruct (groups_flats _ _ _ G). split; congruence.
  Qed.

  (** With [n >= 1], every packet of a non-empty builder has between 1 and [n] identifiers, and all
      but the first have [n] of them. *)
  Lemma packetize_ok n : 1 <= n -> forall (b : builder), b <> BNil ->
    exists front packets,
      packetize_impl n b = Some (b_length front, front :: packets)
      /\ 1 <= b_length front <= n
      /\ Forall (fun p => b_length p = n) packets
      /\ b_concat front (concat_all packets) = b.
  Proof.
    intros Hn. induction b as [|id m _ x IH]; [congruence|]. intros _.
    destruct x as [|id' m' x'].
    - cbn [packetize_impl]. assert (Nat.eqb 0 n = false) as -> by (apply Nat.eqb_neq; lia).
      exists (BNode id m BNil), []. cbn. repeat split; auto; lia.
    - destruct (IH ltac:(discriminate)) as (front & packets & E & L & F & C).
      cbn [packetize_impl] in *. rewrite E.
      destruct (Nat.eqb_spec (b_length front) n) as [EQ|NE].
      + exists (b_single id m), (front :: packets). cbn. repeat split; auto.
        f_equal. exact C.
      + exists (b_push id m front), packets. cbn. repeat split; auto; try lia.
        f_equal. exact C.
  Qed.

  Lemma push_packets_ok : forall packets c tmp,
    exists r c', push_packets U u0 packets c tmp = (r, c')
      /\ map snd (items r) = rev packets ++ map snd (items tmp)
      /\ (Forall (fun it => is_artificial (fst it) = true) (items tmp) ->
          Forall (fun it => is_artificial (fst it) = true) (items r))
      /\ b_length r = length packets + b_length tmp.
  Proof.
    induction packets as [|p packets IH]; intros c tmp.
    - exists tmp, c. cbn. auto.
    - cbn [push_packets artificial_id].
      destruct (IH (N.succ c) (b_push {| art := N.succ c; usr := u0 |} p tmp))
        as (r & c' & E & M & A & L).
      exists r, c'. split; [exact E|]. cbn [b_push items map snd b_length] in *.
      split; [|split].
      + rewrite M. cbn [rev]. rewrite <- app_assoc. reflexivity.
      + intros F. apply A. constructor; [|exact F]. cbn.
        unfold is_artificial. cbn. apply negb_true_iff, N.eqb_neq. lia.
      + rewrite L. cbn. lia.
  Qed.

  Lemma iph_step n b : 2 <= n -> n < b_length b ->
    exists k packets, packetize_impl n b = Some (k, packets)
      /\ forall c, exists r c', push_packets U u0 (rev packets) c BNil = (r, c')
         /\ groups n b r /\ r <> BNil /\ b_length r < b_length b.
  Proof.
    intros Hn L.
    destruct (packetize_ok n ltac:(lia) b) as (front & packets & E & LF & F & C).
    { intros ->. cbn in L. lia. }
    exists (b_length front), (front :: packets). split; [exact E|]. intros c.
    destruct (push_packets_ok (rev (front :: packets)) c BNil) as (r & c' & EP & M & A & LR).
    exists r, c'. split; [exact EP|]. cbn [items map] in *.
    rewrite app_nil_r, rev_involutive in M. rewrite rev_length in LR. cbn in LR.
    rewrite Nat.add_0_r in LR. split; [|split].
    - split.
      + specialize (A (Forall_nil _)). rewrite Forall_forall in *.
        intros [id p] H. split; [exact (A _ H)|]. cbn [snd].
        apply (in_map snd) in H. rewrite M in H. cbn in H.
        destruct H as [<-|H]; [exact LF|]. rewrite (F _ H). lia.
      + rewrite M. exact C.
    - intros ->. discriminate.
    - assert (b_length b = b_length front + n * length packets) as LB.
      { rewrite <- C, b_length_concat. f_equal. clear - F.
        induction F as [|p packets H F IH]; [cbn; lia|].
        change (concat_all (p :: packets)) with (b_concat p (concat_all packets)).
        rewrite b_length_concat, IH, H. cbn. lia. }
      rewrite LR, LB in *. nia.
  Qed.

  Lemma iph_loop_ok n : 2 <= n -> forall fuel b c,
    b <> BNil -> b_length b < fuel ->
    exists r c', iph_loop U u0 fuel n b c = Ok (r, c')
      /\ b_length r <= n /\ regrouped n b r.
  Proof.
    intros Hn. induction fuel as [|fuel IH]; intros b c NE L; [lia|].
    cbn [iph_loop]. destruct b as [|id m x] eqn:EB; [congruence|].
    cbn [b_height]. rewrite <- EB in *.
    assert (S (b_length x) = b_length b) as -> by now rewrite EB.
    destruct (Nat.ltb_spec n (b_length b)) as [LT|GE].
    - destruct (iph_step n b Hn LT) as (k & packets & E & H).
      rewrite E. destruct (H c) as (r & c' & EP & G & NR & LR). rewrite EP.
      destruct (IH r c' NR ltac:(lia)) as (r2 & c2 & E2 & L2 & G2).
      exists r2, c2. split; [exact E2|]. split; [exact L2|].
      clear - G G2. induction G2 as [|m' r' _ IH1 G'].
      + eapply rg_more; [apply rg_none|exact G].
      + eapply rg_more; [exact IH1|exact G'].
    - exists b, c. repeat split; auto. constructor.
  Qed.

  (** [n = 0] never ends. *)
  Lemma iph_zero_packets (b : builder) : b <> BNil ->
    exists k p, packetize_impl 0 b = Some (S k, [p; BNil]).
  Proof.
    induction b as [|id m _ x IH]; [congruence|]. intros _.
    destruct x as [|id' m' x'].
    - cbn. eauto.
    - destruct (IH ltac:(discriminate)) as (k & p & E).
      cbn [packetize_impl] in *. rewrite E. cbn. eauto.
  Qed.

  Lemma iph_zero : forall fuel b c, b <> BNil -> iph_loop U u0 fuel 0 b c = Err EFuel.
  Proof.
    induction fuel as [|fuel IH]; intros b c NE; [reflexivity|].
    cbn [iph_loop]. destruct b as [|id m x] eqn:EB; [congruence|].
    cbn [b_height]. cbn [Nat.ltb Nat.leb]. rewrite <- EB in *.
    destruct (iph_zero_packets b NE) as (k & p & E). rewrite E.
    cbn. apply IH. discriminate.
  Qed.

  (** *** JSON *)

  Variable readable : U -> bool.

  (** The JSON array of a builder. *)
  Fixpoint jitems (b : builder) : list (json U) :=
    match b with
    | BNil => []
    | BNode id nested next =>
      (match nested with BNil => JId (usr id) | _ => JArray (jitems nested) end) :: jitems next
    end.

  Lemma dump_items_ok : forall fuel b p path o,
    holds (o_nodes o) b p path -> b_size b < fuel ->
    dump_items fuel o (first b p) = Ok (jitems b).
  Proof.
    induction fuel as [|fuel IH]; intros b p path o H L; [lia|].
    destruct b as [|id n x]; [reflexivity|].
    cbn [dump_items first]. unfold deref. rewrite (holds_head _ _ _ _ _ _ _ H).
    cbn [n_nested n_next n_id]. cbn [b_size] in L.
    rewrite (IH x (p + 1 + b_size n) path o (holds_next _ _ _ _ _ _ _ H)) by lia.
    destruct n as [|id' n' x'].
    - reflexivity.
    - cbn [first].
      pose proof (IH (BNode id' n' x') (p + 1) (path ++ [p]) o (holds_nested _ _ _ _ _ _ _ H)
                    ltac:(lia)) as E.
      cbn [first] in E. rewrite E. reflexivity.
  Qed.

  (** Equality of builders up to the identifiers of hierarchies, and up to hierarchies that
      contain a single element. *)
  Inductive eqv : builder -> builder -> Prop :=
  | eqv_refl b : eqv b b
  | eqv_sym a b : eqv a b -> eqv b a
  | eqv_trans a b c : eqv a b -> eqv b c -> eqv a c
  | eqv_flat id x x' : eqv x x' -> eqv (BNode id BNil x) (BNode id BNil x')
  | eqv_hier id id' n n' x x' : n <> BNil -> n' <> BNil -> eqv n n' -> eqv x x' ->
                                eqv (BNode id n x) (BNode id' n' x')
  | eqv_single h id n x : eqv (BNode h (BNode id n BNil) x) (BNode id n x).

  Fixpoint load_loop (l : list (json U)) (ob : builder) (counter : N)
    : res (oerr U) (builder * N) :=
    match l with
    | [] => Ok (ob, counter)
    | j :: l =>
      rbind (load_impl U u0 readable j counter) (fun r =>
        load_loop l (b_concat ob (fst r)) (snd r))
    end.

  Lemma load_array l c :
    load_impl U u0 readable (JArray l) c =
    rbind (load_loop l BNil c) (fun r =>
           let '(ob, counter) := r in
           match b_height ob with
           | None => Err EUndefined
           | Some h =>
             if Nat.eqb h 1 then Ok (ob, counter)
             else let '(id, counter) := artificial_id U u0 counter in
                  Ok (b_single id ob, counter)
           end).
  Proof. reflexivity. Qed.

  Lemma load_loop_ok : forall (b : builder) acc c,
    Forall (fun u => readable u = true) (flats b) -> well_named b ->
    exists r c', load_loop (jitems b) acc c = Ok (b_concat acc r, c')
      /\ b_length r = b_length b /\ flats r = flats b /\ eqv b r.
  Proof.
    induction b as [|id n IHn x IHx]; intros acc c R W.
    - exists BNil, c. cbn. rewrite concat_nil_r. repeat split. constructor.
    - cbn [well_named] in W. destruct W as (W1 & W2 & W3).
      destruct n as [|id' n' x'] eqn:EN.
      + cbn [jitems load_loop load_impl].
        cbn [flats] in R. inversion R as [|? ? R1 R2]; subst. rewrite R1. cbn [rbind fst snd].
        destruct (IHx (b_concat acc (b_single (user_id (usr id)) BNil)) c R2 W3)
          as (r & c' & E & L & F & Q).
        exists (BNode (user_id (usr id)) BNil r), c'.
        rewrite E. rewrite concat_assoc. cbn. repeat split; auto; [congruence|].
        assert (user_id (usr id) = id) as ->.
        { specialize (W1 eq_refl). unfold is_artificial in W1.
          apply negb_false_iff, N.eqb_eq in W1. destruct id; cbn in *; subst; reflexivity. }
        now apply eqv_flat.
      + rewrite <- EN in *.
        assert (n <> BNil) as NN by (rewrite EN; discriminate).
        assert (jitems (BNode id n x) = JArray (jitems n) :: jitems x) as EJ
          by (rewrite EN; reflexivity).
        assert (flats (BNode id n x) = flats n ++ flats x) as EF
          by (rewrite EN; reflexivity).
        rewrite EJ. rewrite EF in *. apply Forall_app in R as [R1 R2].
        cbn [load_loop]. rewrite load_array.
        destruct (IHn BNil c R1 W2) as (rn & cn & E & L & F & Q).
        rewrite E. cbn [rbind b_concat].
        destruct rn as [|ri rm rx]; [rewrite EN in L; discriminate|].
        cbn [b_height]. destruct (Nat.eqb_spec (S (b_length rx)) 1) as [E1|NE1].
        * destruct rx; [|discriminate]. cbn [rbind fst snd].
          destruct (IHx (b_concat acc (BNode ri rm BNil)) cn R2 W3) as (r & c' & E2 & L2 & F2 & Q2).
          exists (BNode ri rm r), c'. rewrite E2, concat_assoc. cbn [b_concat].
          split; [reflexivity|]. split; [cbn; congruence|]. split.
          -- change (BNode ri rm r) with (b_concat (BNode ri rm BNil) r).
             rewrite flats_concat. congruence.
          -- eapply eqv_trans; [|apply (eqv_single id)].
             apply eqv_hier; auto. discriminate.
        * unfold artificial_id. cbn [rbind fst snd].
          set (a := {| art := N.succ cn; usr := u0 |}).
          destruct (IHx (b_concat acc (b_single a (BNode ri rm rx))) (N.succ cn) R2 W3)
            as (r & c' & E2 & L2 & F2 & Q2).
          exists (BNode a (BNode ri rm rx) r), c'. rewrite E2, concat_assoc. cbn [b_concat b_single].
          split; [reflexivity|]. split; [cbn; congruence|]. split.
          -- change (flats (BNode a (BNode ri rm rx) r)) with (flats (BNode ri rm rx) ++ flats r).
             congruence.
          -- apply eqv_hier; auto. discriminate.
  Qed.

  Lemma load_order_ok : forall (b : builder) c,
    Forall (fun u => readable u = true) (flats b) -> well_named b -> b <> BNil ->
    exists r c', load_order U u0 readable (JArray (jitems b)) c = Ok (r, c')
      /\ flats r = flats b /\ (eqv b r \/ exists h, eqv b (BNode h r BNil)).
  Proof.
    intros b c R W NE. unfold load_order. rewrite load_array.
    destruct (load_loop_ok b BNil c R W) as (r & c' & E & L & F & Q).
    rewrite E. cbn [rbind b_concat].
    destruct r as [|ri rm rx]; [destruct b; [congruence|discriminate]|].
    cbn [b_height]. destruct (Nat.eqb_spec (S (b_length rx)) 1) as [E1|NE1].
    - destruct rx; [|discriminate]. cbn [rbind b_height b_length Nat.eqb andb].
      destruct rm as [|i2 m2 x2]; cbn [b_empty negb].
      + eexists _, _. split; [reflexivity|]. auto.
      + eexists _, _. split; [reflexivity|]. split; [|eauto].
        rewrite <- F. cbn. now rewrite app_nil_r.
    - unfold artificial_id. cbn [rbind b_single b_height b_length Nat.eqb b_empty negb andb].
      eexists _, _. split; [reflexivity|]. auto.
  Qed.

  Lemma load_empty c : load_order U u0 readable (JArray []) c = Err EUndefined.
  Proof. reflexivity. Qed.
End More.
Arguments items {U} _.
Arguments all_ids {U} _.
Arguments concat_all {U} _.
Arguments groups {U} _ _ _.
Arguments regrouped {U} _ _ _.
Arguments jitems {U} _.
Arguments eqv {U} _ _.
