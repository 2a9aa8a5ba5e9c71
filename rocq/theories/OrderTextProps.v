(** * The text of an order (C74) *)

From Coq Require Import Ascii String List Bool Arith NArith Lia Decimal DecimalString.
From Verif Require Import Base Text Orders OrdersProofs OrdersProps OrderText.
Import ListNotations.

(** The line of a node: two spaces for each hierarchy around it, its identifier, and its variable in parentheses. *)
Definition node_line {U : Type} (pu : U -> text) (n : onode U) : text :=
  repeat space (2 * length (n_path n)) ++ oid_text pu (n_id n) ++ lit " (" ++ decN (n_var n) ++ lit ")" ++ [newline].

(** Identifiers whose texts differ, hold in one line and do not begin with a space or an at sign. *)
Definition one_line {U : Type} (pu : U -> text) : Prop :=
  (forall u v, pu u = pu v -> u = v) /\
  (forall u, ~ In newline (pu u)) /\
  (forall u, exists c t, pu u = c :: t /\ c <> space /\ c <> "@"%char).

(** The artificial identifiers have the default value for user part (order_identifier.hh 42-47). *)
Fixpoint default_users {U : Type} (u0 : U) (b : builder U) : Prop :=
  match b with
  | BNil => True
  | BNode id nested next => (is_artificial id = true -> usr id = u0) /\ default_users u0 nested /\ default_users u0 next
  end.

Section Text.
  Variable U : Type.
  Variable pu : U -> text.

  Definition line (id : oid U) (x : N) (indent : nat) : text :=
    repeat space indent ++ oid_text pu id ++ lit " (" ++ decN x ++ lit ")" ++ [newline].
  Fixpoint builder_text (b : builder U) (indent : nat) : text :=
    match b with
    | BNil => []
    | BNode id n x => line id (N.of_nat (b_length x)) indent ++ builder_text n (indent + 2) ++ builder_text x indent
    end.

  Lemma order_text_impl_ok : forall fuel b p path o indent, sees o b p path -> b_size b < fuel ->
    order_text_impl pu fuel o indent = Ok (builder_text b indent).
  Proof.
    induction fuel as [|fuel IH]; intros b p path o indent Hs Hf; [lia|]. cbn [order_text_impl].
    rewrite (sees_empty _ _ _ _ _ Hs). destruct b as [|id n x]; [reflexivity|]. cbn [b_empty].
    unfold o_identifier, o_variable. rewrite (sees_head _ _ _ _ _ _ _ Hs). cbn [option_map n_id n_var].
    destruct (sees_nested _ _ _ _ _ _ _ Hs) as (on & En & Sn & _).
    destruct (sees_next _ _ _ _ _ _ _ Hs) as (ox & Ex & Sx & _).
    rewrite En, Ex, (sees_empty _ _ _ _ _ Sn), (sees_empty _ _ _ _ _ Sx). cbn [b_size] in Hf.
    assert (A : (if b_empty n then Ok [] else order_text_impl pu fuel on (indent + 2)) = Ok (builder_text n (indent + 2))).
    { destruct n as [|i0 n0 x0]; [reflexivity|]. cbn [b_empty]. apply (IH _ _ _ _ _ Sn). lia. }
    assert (B : (if b_empty x then Ok [] else order_text_impl pu fuel ox indent) = Ok (builder_text x indent)).
    { destruct x as [|i0 n0 x0]; [reflexivity|]. cbn [b_empty]. apply (IH _ _ _ _ _ Sx). lia. }
    rewrite A. cbn [rbind]. rewrite B. reflexivity.
  Qed.

  Lemma builder_text_lines : forall b p path,
    builder_text b (2 * length path) = flat_map (node_line pu) (layout b p path).
  Proof.
    induction b as [|id n IHn x IHx]; intros p path; [reflexivity|]. cbn [builder_text layout flat_map].
    f_equal. rewrite flat_map_app, <- (IHx _ path), <- (IHn _ (path ++ [p])). f_equal. f_equal.
    rewrite app_length. cbn [length]. lia.
  Qed.

  (** ** Injectivity *)

  Hypothesis OL : one_line pu.

  Lemma split_last (A : Type) (c : A) : forall b b' a a', ~ In c b -> ~ In c b' -> a ++ c :: b = a' ++ c :: b' ->
    a = a' /\ b = b'.
  Proof.
    intros b b' a a' Hb Hb' E. revert a' E. induction a as [|d a IH]; intros [|d' a'] E; cbn [app] in E.
    - injection E as ->. auto.
    - injection E as -> E. exfalso. apply Hb. rewrite E. apply in_or_app. right. now left.
    - injection E as -> E. exfalso. apply Hb'. rewrite <- E. apply in_or_app. right. now left.
    - injection E as -> E. destruct (IH a' E) as [-> ->]. auto.
  Qed.

  Lemma split_first (A : Type) (c : A) : forall a a' b b', ~ In c a -> ~ In c a' -> a ++ c :: b = a' ++ c :: b' ->
    a = a' /\ b = b'.
  Proof.
    induction a as [|d a IH]; intros [|d' a'] b b' Ha Ha' E; cbn [app] in E.
    - injection E as ->. auto.
    - injection E as -> E. exfalso. apply Ha'. now left.
    - injection E as -> E. exfalso. apply Ha. now left.
    - injection E as -> E. destruct (IH a' b b') as [-> ->]; auto; intros X; [apply Ha|apply Ha']; now right.
  Qed.

  Lemma decN_chars n c : In c (decN n) -> digit c <> None.
  Proof.
    unfold decN.
    assert (X : forall d, Forall (fun c => digit c <> None) (lit (NilEmpty.string_of_uint d))).
    { induction d; repeat constructor; try exact IHd; vm_compute; discriminate. }
    assert (Y : Forall (fun c => digit c <> None) (lit (NilZero.string_of_uint (N.to_uint n)))).
    { destruct (N.to_uint n) eqn:E; try exact (X _). repeat constructor. vm_compute. discriminate. }
    rewrite Forall_forall in Y. apply Y.
  Qed.
  Lemma decN_not n c : digit c = None -> ~ In c (decN n).
  Proof. intros E H. now apply decN_chars in H. Qed.

  (** The text of an identifier: not empty, without line break and without space at the beginning. *)
  Lemma oid_first id : exists c t, oid_text pu id = c :: t /\ c <> space.
  Proof.
    unfold oid_text. destruct (is_artificial id).
    - eexists _, _. split; [reflexivity|discriminate].
    - destruct OL as (_ & _ & H). destruct (H (usr id)) as (c & t & E & A & _). eauto.
  Qed.
  Lemma oid_line id : ~ In newline (oid_text pu id).
  Proof.
    unfold oid_text. destruct (is_artificial id).
    - rewrite !in_app_iff. intros [[X|[]]|[X|[X|[]]]]; try discriminate. now apply decN_not in X.
    - apply OL.
  Qed.
  Lemma oid_text_inj u0 id id' : (is_artificial id = true -> usr id = u0) -> (is_artificial id' = true -> usr id' = u0) ->
    oid_text pu id = oid_text pu id' -> id = id'.
  Proof.
    intros Hu Hu' E. unfold oid_text in E. destruct OL as (Inj & _ & H).
    destruct id as [a u], id' as [a' u']. cbn [usr art] in *.
    destruct (is_artificial {| art := a; usr := u |}) eqn:A, (is_artificial {| art := a'; usr := u' |}) eqn:A'.
    - cbn [app lit] in E. injection E as E. apply decN_prefix in E; [|reflexivity..]. destruct E as [-> _].
      now rewrite (Hu eq_refl), (Hu' eq_refl).
    - exfalso. destruct (H u') as (c & t & E1 & _ & N). rewrite E1 in E. cbn in E. injection E as E _. congruence.
    - exfalso. destruct (H u) as (c & t & E1 & _ & N). rewrite E1 in E. cbn in E. injection E as E _. congruence.
    - unfold is_artificial in A, A'. cbn [art] in A, A'. apply negb_false_iff, N.eqb_eq in A, A'. subst.
      f_equal. now apply Inj.
  Qed.

  (** Number of spaces at the beginning. *)
  Fixpoint lead (t : text) : nat := match t with c :: r => if Ascii.eqb c space then S (lead r) else 0 | [] => 0 end.
  Lemma lead_repeat n c t : c <> space -> lead (repeat space n ++ c :: t) = n.
  Proof.
    intros N. induction n as [|n IH]; cbn.
    - destruct (Ascii.eqb_spec c space); congruence.
    - now rewrite IH.
  Qed.
  Lemma line_lead id x i t : lead (line id x i ++ t) = i /\ line id x i ++ t <> [].
  Proof.
    destruct (oid_first id) as (c & r & E & N). unfold line. rewrite E. rewrite <- !app_assoc. cbn [app].
    split; [now apply lead_repeat|]. intros X. apply app_eq_nil in X. destruct X as [_ X]. discriminate.
  Qed.

  Lemma line_inj id x id' x' i t t' : line id x i ++ t = line id' x' i ++ t' ->
    oid_text pu id = oid_text pu id' /\ x = x' /\ t = t'.
  Proof.
    unfold line. rewrite <- !app_assoc. intros E. apply app_inv_head in E.
    rewrite !(app_assoc (oid_text _ _)), !(app_assoc (_ ++ lit " (")), !(app_assoc (_ ++ decN _)) in E.
    cbn [app] in E.
    assert (NL : forall id x, ~ In newline (((oid_text pu id ++ lit " (") ++ decN x) ++ lit ")")).
    { intros id1 x1. rewrite !in_app_iff. intros [[[X|X]|X]|X].
      - now apply oid_line in X.
      - repeat destruct X as [X|X]; try discriminate. destruct X.
      - now apply decN_not in X.
      - repeat destruct X as [X|X]; try discriminate. destruct X. }
    apply split_first in E; [|apply NL..]. destruct E as [E ->].
    rewrite <- !app_assoc in E. cbn [app lit list_ascii_of_string] in E.
    change (oid_text pu id ++ space :: ("("%char :: decN x ++ lit ")") =
            oid_text pu id' ++ space :: ("("%char :: decN x' ++ lit ")")) in E.
    assert (NS : forall x, ~ In space ("("%char :: decN x ++ lit ")")).
    { intros x1 [X|X]; [discriminate|]. apply in_app_or in X. destruct X as [X|X]; [now apply decN_not in X|].
      destruct X as [X|[]]. discriminate. }
    apply split_last in E; [|apply NS..]. destruct E as [-> E]. injection E as E.
    apply decN_prefix in E; [|reflexivity..]. destruct E as [-> _]. auto.
  Qed.

  (** What follows an order inside a bigger text: nothing, or a line less indented. *)
  Definition stops (i : nat) (t : text) : Prop := t = [] \/ lead t < i.

  Lemma stops_builder b i t : stops i t -> stops (i + 2) (builder_text b i ++ t).
  Proof.
    intros Hs. destruct b as [|id n x]; cbn [builder_text].
    - destruct Hs as [->|Hs]; [now left|right; cbn; lia].
    - right. rewrite <- !app_assoc. destruct (line_lead id (N.of_nat (b_length x)) i (builder_text n (i + 2) ++ builder_text x i ++ t)) as [-> _].
      lia.
  Qed.

  Theorem builder_text_inj u0 : forall b b' i t t', default_users u0 b -> default_users u0 b' -> stops i t -> stops i t' ->
    builder_text b i ++ t = builder_text b' i ++ t' -> b = b' /\ t = t'.
  Proof.
    assert (Conf : forall id n x i t t', stops i t' -> builder_text (BNode id n x) i ++ t = t' -> False).
    { intros id n x i t t' Hs E. cbn [builder_text] in E. rewrite <- !app_assoc in E.
      destruct (line_lead id (N.of_nat (b_length x)) i (builder_text n (i + 2) ++ builder_text x i ++ t)) as [A B].
      rewrite E in A, B. destruct Hs as [->|Hs]; [congruence|lia]. }
    induction b as [|id n IHn x IHx]; intros [|id' n' x'] i t t' Db Db' Hs Hs' E.
    - auto.
    - exfalso. symmetry in E. now apply Conf in E.
    - exfalso. now apply Conf in E.
    - cbn [builder_text] in E. rewrite <- !app_assoc in E. apply line_inj in E. destruct E as (E1 & _ & E).
      destruct Db as (D1 & D2 & D3), Db' as (D1' & D2' & D3').
      apply (oid_text_inj u0) in E1; auto. subst id'.
      apply IHn in E; auto using stops_builder. destruct E as [-> E].
      apply IHx in E; auto. destruct E as [-> ->]. auto.
  Qed.
End Text.

(** ** C74 *)

(** The text of an order: one line for each of its nodes, in the order of their positions. *)
Theorem C74_lines : forall U (ueqb : U -> U -> bool), is_eqb ueqb -> forall pu b o, mk_order U ueqb b = Ok o ->
  exists nodes, o_nodes o = map Some nodes /\ order_text pu o = Ok (flat_map (node_line pu) nodes).
Proof.
  intros U ueqb EQ pu b o E. rewrite (order_is _ _ EQ _ _ E). exists (layout b 0 []). split; [reflexivity|].
  unfold order_text. cbn [o_nodes order_of]. rewrite (order_text_impl_ok U pu _ b 0 [] _ 0).
  - f_equal. apply (builder_text_lines U pu b 0 []).
  - apply sees_whole.
  - rewrite map_length, length_layout. lia.
Qed.

(** Two orders with the same text are the same.  Missing: identifiers with line breaks, or that begin with a space or an at
    sign; see the refutations. *)
Theorem C74_text_partial : forall U (ueqb : U -> U -> bool), is_eqb ueqb -> forall pu u0, one_line pu ->
  forall b b' o o', default_users u0 b -> default_users u0 b' -> mk_order U ueqb b = Ok o -> mk_order U ueqb b' = Ok o' ->
  order_text pu o = order_text pu o' -> b = b' /\ o = o'.
Proof.
  intros U ueqb EQ pu u0 OL b b' o o' D D' E E' T.
  assert (X : forall b o, mk_order U ueqb b = Ok o -> order_text pu o = Ok (builder_text U pu b 0)).
  { intros b1 o1 E1. rewrite (order_is _ _ EQ _ _ E1). unfold order_text. cbn [o_nodes order_of].
    apply (order_text_impl_ok U pu _ b1 0 []); [apply sees_whole|]. rewrite map_length, length_layout. lia. }
  rewrite (X _ _ E), (X _ _ E') in T. injection T as T.
  destruct (builder_text_inj U pu OL u0 b b' 0 [] []) as [-> _]; auto; try now left.
  - now rewrite !app_nil_r.
  - split; [auto|congruence].
Qed.

(** Identifiers that are strings. *)
Definition string_eqb : string -> string -> bool := String.eqb.
Lemma string_is_eqb : is_eqb string_eqb.
Proof. intros a b. apply String.eqb_eq. Qed.

(** An identifier of the user can have the text of an artificial one. *)
Theorem C74_text_refuted : exists b b' o o',
  default_users ""%string b /\ default_users ""%string b' /\
  mk_order string string_eqb b = Ok o /\ mk_order string string_eqb b' = Ok o' /\
  order_text lit o = order_text lit o' /\ order_eqb string string_eqb o o' = Ok false.
Proof.
  exists (BNode {| art := 1; usr := ""%string |} (b_of_list ["a"%string]) BNil),
         (BNode (user_id "@1@"%string) (b_of_list ["a"%string]) BNil).
  eexists _, _. split; [cbn; repeat split; auto; discriminate|]. split; [cbn; repeat split; auto; discriminate|].
  split; [vm_compute; reflexivity|]. split; [vm_compute; reflexivity|]. split; vm_compute; reflexivity.
Qed.

(** A line break in an identifier gives the text of an order with two identifiers. *)
Theorem C74_text_lines_refuted : exists l l' o o',
  mk_order string string_eqb (b_of_list l) = Ok o /\ mk_order string string_eqb (b_of_list l') = Ok o' /\
  length l <> length l' /\ order_text lit o = order_text lit o'.
Proof.
  exists ["a"%string; "b"%string], [(String "a" (String " " (String "(" (String "1" (String ")" (String newline "b"))))))%string].
  eexists _, _. split; [vm_compute; reflexivity|]. split; [vm_compute; reflexivity|]. split; [discriminate|].
  vm_compute. reflexivity.
Qed.

(** a, h { b, @7@ { c } }, d. *)
Definition ex_tb : builder string :=
  BNode (user_id "a"%string) BNil
    (BNode (user_id "h"%string)
       (BNode (user_id "b"%string) BNil (BNode {| art := 7; usr := ""%string |} (b_of_list ["c"%string]) BNil))
       (b_of_list ["d"%string])).
Definition ex_lines : list string := ["a (2)"; "h (1)"; "  b (1)"; "  @7@ (0)"; "    c (0)"; "d (0)"]%string.
Example C74_example : exists o, mk_order string string_eqb ex_tb = Ok o /\ default_users ""%string ex_tb /\
  order_text lit o = Ok (flat_map (fun l => lit l ++ [newline]) ex_lines).
Proof.
  eexists. split; [vm_compute; reflexivity|]. split; [cbn; repeat split; auto; discriminate|]. vm_compute. reflexivity.
Qed.
(** The usual printer of numbers. *)
Example C74_example_one_line : one_line decN.
Proof.
  split; [|split].
  - intros u v E. apply (decN_prefix u v [] []); cbn; auto. now rewrite !app_nil_r.
  - intros u. now apply decN_not.
  - intros u. destruct (decN_head u) as (c & r & v & E & D). exists c, r. split; [auto|]. split; intros ->; discriminate.
Qed.

Print Assumptions C74_lines.
Print Assumptions C74_text_partial.
Print Assumptions C74_text_refuted.
Print Assumptions C74_text_lines_refuted.
