(** * Concrete homomorphisms, for examples and counter-examples

    Nothing here models the library. *)

From Coq Require Import List Bool NArith Arith Lia Permutation Sorted Relations.
From Verif Require Import Base SortedSets Values Sdd SddFacts Orders OrdersProofs OrdersSdd DDModel.
From Verif Require Import DDGeneric DDProofs DDTheorems FlatSet Bitset Concrete Hom HomFacts HomEval HomTyped HomEqns.
Import ListNotations.

(** ** Prefix codes *)

Definition pcode {A : Type} (enc : A -> list N) : Prop :=
  forall a b r s, enc a ++ r = enc b ++ s -> a = b /\ r = s.

Definition enc_N (n : N) : list N := [n].
Definition enc_nat (n : nat) : list N := [N.of_nat n].
Definition enc_option {A} (e : A -> list N) (o : option A) : list N :=
  match o with Some a => 1%N :: e a | None => [0%N] end.
Definition enc_list {A} (e : A -> list N) (l : list A) : list N := N.of_nat (length l) :: flat_map e l.
Definition enc_pair {A B} (e : A -> list N) (e' : B -> list N) (p : A * B) : list N := e (fst p) ++ e' (snd p).

Lemma pc_N : pcode enc_N.
Proof. intros a b r s H. injection H as -> ->. auto. Qed.
Lemma pc_nat : pcode enc_nat.
Proof. intros a b r s H. injection H as H ->. apply Nat2N.inj in H. auto. Qed.
Lemma pc_option {A} (e : A -> list N) : pcode e -> pcode (enc_option e).
Proof.
  intros P [a|] [b|] r s H; cbn in H; try discriminate.
  - injection H as H. apply P in H. destruct H as [-> ->]. auto.
  - injection H as ->. auto.
Qed.
Lemma pc_flat {A} (e : A -> list N) : forall l l' r s,
  (forall a, In a l -> forall b r s, e a ++ r = e b ++ s -> a = b /\ r = s) ->
  length l = length l' -> flat_map e l ++ r = flat_map e l' ++ s -> l = l' /\ r = s.
Proof.
  induction l as [|a l IH]; intros [|b l'] r s P L H; try discriminate; auto.
  cbn in H. rewrite <- !app_assoc in H. apply (P a (or_introl eq_refl)) in H. destruct H as [-> H].
  destruct (IH l' r s) as [-> ->]; auto. intros a Ha. apply P. now right.
Qed.
Lemma pc_list {A} (e : A -> list N) : pcode e -> pcode (enc_list e).
Proof.
  intros P a b r s H. cbn in H. injection H as H1 H2. apply Nat2N.inj in H1.
  now apply (pc_flat e a b r s (fun a _ => P a)).
Qed.
Lemma pc_pair {A B} (e : A -> list N) (e' : B -> list N) : pcode e -> pcode e' -> pcode (enc_pair e e').
Proof.
  intros P Q [a b] [c d] r s H. unfold enc_pair in H. cbn in H. rewrite <- !app_assoc in H.
  apply P in H. destruct H as [-> H]. apply Q in H. destruct H as [-> ->]. auto.
Qed.
Lemma pc_inj {A B} (e : B -> list N) (f : A -> B) : pcode e -> (forall x y, f x = f y -> x = y) ->
  pcode (fun a => e (f a)).
Proof. intros P Hf a b r s H. apply P in H. destruct H as [H ->]. auto. Qed.

(** ** Orders on natural numbers *)

Definition enc_oid (i : oid nat) : list N := enc_pair enc_N enc_nat (art i, usr i).
Lemma pc_oid : pcode enc_oid.
Proof.
  apply (pc_inj _ (fun i => (art i, usr i)) (pc_pair _ _ pc_N pc_nat)).
  intros [a b] [c d] [=]. cbn in *. congruence.
Qed.
Definition enc_onode (n : onode nat) : list N :=
  enc_pair enc_oid (enc_pair enc_N (enc_pair enc_nat (enc_pair (enc_option enc_nat)
    (enc_pair (enc_option enc_nat) (enc_list enc_nat)))))
    (n_id n, (n_var n, (n_pos n, (n_next n, (n_nested n, n_path n))))).
Lemma pc_onode : pcode enc_onode.
Proof.
  apply (pc_inj _ (fun n => (n_id n, (n_var n, (n_pos n, (n_next n, (n_nested n, n_path n))))))).
  - repeat (apply pc_pair || apply pc_oid || apply pc_N || apply pc_nat || apply pc_option || apply pc_list).
  - intros [a b c d e f] [a' b' c' d' e' f']. cbn. congruence.
Qed.
Definition enc_order (o : order nat) : list N :=
  enc_pair (enc_list (enc_option enc_onode)) (enc_pair (enc_list (enc_pair enc_oid enc_nat)) (enc_option enc_nat))
    (o_nodes o, (o_map o, o_head o)).
Lemma pc_order : pcode enc_order.
Proof.
  apply (pc_inj _ (fun o => (o_nodes o, (o_map o, o_head o)))).
  - repeat (apply pc_pair || apply pc_oid || apply pc_onode || apply pc_nat || apply pc_option || apply pc_list).
  - intros [a b c] [a' b' c']. cbn. congruence.
Qed.

(** ** Functions and inductive homomorphisms of an example program *)

Inductive exfun : Type :=
| Fadd (n : N)                 (* adds n *)
| Fkeep (l : list N)           (* keeps the values of l *)
| Fmap (l : list (N * N))      (* replaces a value by the ones associated to it, if any *)
| Fpair.                       (* {9} when there are two values, otherwise nothing *)

(** Inductive homomorphisms: 0 rebuilds its operand; 1 keeps it when the identifier of the first
    variable is 1, and otherwise gives |0|. *)
Definition exind : Type := nat.

Definition exhom : Type := hom (vt FS) nat exfun exind.

Definition replace (l : list (N * N)) (v : N) : list N :=
  match filter (fun p => N.eqb (fst p) v) l with [] => [v] | m => map snd m end.

Definition ex_apply (f : exfun) (s : natset) : natset :=
  match f with
  | Fadd n => fs (map (N.add n) (proj1_sig s))
  | Fkeep l => fs (filter (fun v => existsb (N.eqb v) l) (proj1_sig s))
  | Fmap l => fs (flat_map (replace l) (proj1_sig s))
  | Fpair => match proj1_sig s with [_; _] => fs [9%N] | _ => fs [] end
  end.

Definition ex_user : user (vt FS) nat exfun exind := {|
  f_apply := ex_apply;
  f_sel := fun f => match f with Fkeep _ => true | _ => false end;
  f_shift := fun f => match f with Fadd _ => true | _ => false end;
  i_skip := fun _ _ => false;
  i_sel := fun _ => false;
  i_flat := fun i o v =>
    match i with
    | 0 => HConsF o v (HInd 0)
    | _ => match o_identifier o with
           | Some id => if Nat.eqb (usr id) 1 then HConsF o v (HInd 0) else HConst Zero
           | None => HConst Zero
           end
    end;
  i_hier := fun i o v => HConsH o v (HInd 0);
  i_one := fun _ => One
|}.

Lemma fs_in l x : v_mem FS (fs l) x = true <-> In x l.
Proof. apply fset_find_of_list. Qed.
Lemma set_in (s : natset) x : v_mem FS s x = true <-> In x (proj1_sig s).
Proof. apply fset_find_in. exact Nltb_strict. Qed.

Lemma ex_honest : honest FS PF_up nat exfun exind ex_user.
Proof.
  split.
  - intros [n|l|l|] v a H; try discriminate. intros M. cbn [f_apply ex_user ex_apply] in M.
    apply fs_in, filter_In in M. now apply set_in.
  - intros [n|l|l|] v w H D; try discriminate. intros a M1 M2. cbn [f_apply ex_user ex_apply] in M1, M2.
    apply fs_in, in_map_iff in M1. apply fs_in, in_map_iff in M2.
    destruct M1 as (b & E1 & H1), M2 as (c & E2 & H2). assert (b = c) by lia. subst c.
    apply (D b); now apply set_in.
  - intros i o s s' x y H. discriminate.
Qed.

(** ** An order of addresses *)

Definition enc_fun (f : exfun) : list N :=
  match f with
  | Fadd n => [0%N; n]
  | Fkeep l => 1%N :: enc_list enc_N l
  | Fmap l => 2%N :: enc_list (enc_pair enc_N enc_N) l
  | Fpair => [3%N]
  end.
Lemma cons_tail {A} (a b : A) l l' : a :: l = b :: l' -> l = l'.
Proof. now intros [=]. Qed.
Lemma cons_both {A} (a b : A) l l' : a :: l = b :: l' -> a = b /\ l = l'.
Proof. now intros [=]. Qed.
Lemma pc_fun : pcode enc_fun.
Proof.
  intros [n|l|l|] [n'|l'|l'|] r s H; cbn [enc_fun app] in H; try discriminate.
  - injection H as -> ->. auto.
  - apply cons_tail in H. apply (pc_list enc_N pc_N) in H; destruct H as [-> ->]; auto.
  - apply cons_tail in H. apply (pc_list _ (pc_pair _ _ pc_N pc_N)) in H; destruct H as [-> ->]; auto.
  - injection H as ->. auto.
Qed.

Definition enc_sdd : sdd (vt FS) -> list N := enc enc_set.
Lemma pc_sdd : pcode enc_sdd.
Proof. intros a b r s. apply enc_inj. exact enc_set_inj. Qed.

Fixpoint enc_hom (h : exhom) : list N :=
  match h with
  | HComp l r => 0%N :: enc_hom l ++ enc_hom r
  | HConsF o v n => 1%N :: enc_order o ++ enc_set v ++ enc_hom n
  | HConsH o v n => 2%N :: enc_order o ++ enc_sdd v ++ enc_hom n
  | HConst x => 3%N :: enc_sdd x
  | HFix h => 4%N :: enc_hom h
  | HFun t f => 5%N :: t :: enc_fun f
  | HId => [6%N]
  | HIte p t e => 7%N :: enc_hom p ++ enc_hom t ++ enc_hom e
  | HInd i => 8%N :: enc_nat i
  | HInter l => 9%N :: N.of_nat (length l) :: flat_map enc_hom l
  | HLocal t h => 10%N :: t :: enc_hom h
  | HSatFix x f g l => 11%N :: x :: enc_hom f ++ N.of_nat (length g) :: flat_map enc_hom g ++ enc_hom l
  | HSatInter x f g l =>
    12%N :: x :: (match f with Some h => 1%N :: enc_hom h | None => [0%N] end) ++
    N.of_nat (length g) :: flat_map enc_hom g ++ (match l with Some h => 1%N :: enc_hom h | None => [0%N] end)
  | HSatSum x f g l =>
    13%N :: x :: (match f with Some h => 1%N :: enc_hom h | None => [0%N] end) ++
    N.of_nat (length g) :: flat_map enc_hom g ++ (match l with Some h => 1%N :: enc_hom h | None => [0%N] end)
  | HSum l => 14%N :: N.of_nat (length l) :: flat_map enc_hom l
  end.

Lemma pc_hom : pcode enc_hom.
Proof.
  intros h. induction h as
    [f g IHf IHg|o v n IH|o v n IH|x|h IH|t f| |p t e IHp IHt IHe|i|l IH|t h IH|x f g l IHf IHg IHl
    |x f g l IHf IHg IHl|x f g l IHf IHg IHl|l IH] using hom_ind'; intros k r s H; destruct k;
    cbn [enc_hom app] in H; try discriminate.
  - apply cons_tail in H. rewrite <- !app_assoc in H. apply IHf in H. destruct H as [-> H].
    apply IHg in H. destruct H as [-> ->]. auto.
  - apply cons_tail in H. rewrite <- !app_assoc in H. apply pc_order in H. destruct H as [-> H].
    apply enc_set_inj in H. destruct H as [-> H]. apply IH in H. destruct H as [-> ->]. auto.
  - apply cons_tail in H. rewrite <- !app_assoc in H. apply pc_order in H. destruct H as [-> H].
    apply pc_sdd in H. destruct H as [-> H]. apply IH in H. destruct H as [-> ->]. auto.
  - apply cons_tail in H. apply pc_sdd in H. destruct H as [-> ->]. auto.
  - apply cons_tail in H. apply IH in H. destruct H as [-> ->]. auto.
  - apply cons_tail, cons_both in H. destruct H as [-> H]. apply pc_fun in H. destruct H as [-> ->]. auto.
  - injection H as ->. auto.
  - apply cons_tail in H. rewrite <- !app_assoc in H. apply IHp in H. destruct H as [-> H].
    apply IHt in H. destruct H as [-> H]. apply IHe in H. destruct H as [-> ->]. auto.
  - injection H as H ->. apply Nat2N.inj in H. subst. auto.
  - apply cons_tail, cons_both in H. destruct H as [L H]. apply Nat2N.inj in L. apply pc_flat in H; auto.
    + destruct H as [-> ->]. auto.
    + rewrite Forall_forall in IH. auto.
  - apply cons_tail, cons_both in H. destruct H as [-> H]. apply IH in H. destruct H as [-> ->]. auto.
  - apply cons_tail, cons_both in H. destruct H as [-> H]. rewrite <- !app_assoc in H. apply IHf in H. destruct H as [-> H].
    cbn [app] in H. apply cons_both in H. destruct H as [L H]. apply Nat2N.inj in L. rewrite <- !app_assoc in H.
    apply pc_flat in H; auto; [|rewrite Forall_forall in IHg; auto].
    destruct H as [-> H]. apply IHl in H. destruct H as [-> ->]. auto.
  - apply cons_tail, cons_both in H. destruct H as [-> H]. rewrite <- !app_assoc in H.
    assert (Of : forall (f f' : option exhom) r s, (forall h, f = Some h -> forall b r s, enc_hom h ++ r = enc_hom b ++ s -> h = b /\ r = s) ->
              (match f with Some h => 1%N :: enc_hom h | None => [0%N] end) ++ r =
              (match f' with Some h => 1%N :: enc_hom h | None => [0%N] end) ++ s -> f = f' /\ r = s).
    { clear. intros [h|] [h'|] r s P H; cbn [app] in H; try discriminate.
      - apply cons_tail in H. apply (P h eq_refl) in H. destruct H as [-> ->]. auto.
      - injection H as ->. auto. }
    apply Of in H; [|exact IHf]. destruct H as [-> H].
    cbn [app] in H. apply cons_both in H. destruct H as [L H]. apply Nat2N.inj in L. rewrite <- !app_assoc in H.
    apply pc_flat in H; auto; [|rewrite Forall_forall in IHg; auto].
    destruct H as [-> H]. apply Of in H; [|exact IHl]. destruct H as [-> ->]. auto.
  - apply cons_tail, cons_both in H. destruct H as [-> H]. rewrite <- !app_assoc in H.
    assert (Of : forall (f f' : option exhom) r s, (forall h, f = Some h -> forall b r s, enc_hom h ++ r = enc_hom b ++ s -> h = b /\ r = s) ->
              (match f with Some h => 1%N :: enc_hom h | None => [0%N] end) ++ r =
              (match f' with Some h => 1%N :: enc_hom h | None => [0%N] end) ++ s -> f = f' /\ r = s).
    { clear. intros [h|] [h'|] r s P H; cbn [app] in H; try discriminate.
      - apply cons_tail in H. apply (P h eq_refl) in H. destruct H as [-> ->]. auto.
      - injection H as ->. auto. }
    apply Of in H; [|exact IHf]. destruct H as [-> H].
    cbn [app] in H. apply cons_both in H. destruct H as [L H]. apply Nat2N.inj in L. rewrite <- !app_assoc in H.
    apply pc_flat in H; auto; [|rewrite Forall_forall in IHg; auto].
    destruct H as [-> H]. apply Of in H; [|exact IHl]. destruct H as [-> ->]. auto.
  - apply cons_tail, cons_both in H. destruct H as [L H]. apply Nat2N.inj in L. apply pc_flat in H; auto.
    + destruct H as [-> ->]. auto.
    + rewrite Forall_forall in IH. auto.
Qed.

Definition HP_up : hplatform (vt FS) nat exfun exind :=
  {| h_lt := fun h k => lexb (enc_hom h) (enc_hom k); h_iter := fun m => m |}.
Definition HP_down : hplatform (vt FS) nat exfun exind :=
  {| h_lt := fun h k => lexb (enc_hom k) (enc_hom h); h_iter := @rev _ |}.
Lemma enc_hom_inj : forall h k, enc_hom h = enc_hom k -> h = k.
Proof. intros h k E. destruct (pc_hom h k [] []) as [X _]; auto. now rewrite !app_nil_r. Qed.
Lemma HP_up_ok : hplatform_ok HP_up.
Proof.
  split; cbn; auto. apply (strict_total_inj _ _ lexb enc_hom lexb_strict enc_hom_inj).
Qed.
Lemma HP_down_ok : hplatform_ok HP_down.
Proof.
  split; cbn.
  - apply strict_total_flip. apply (strict_total_inj _ _ lexb enc_hom lexb_strict enc_hom_inj).
  - intros m. apply Permutation_sym, Permutation_rev.
Qed.

(** ** An order and SDDs: 1, 2 { 3, 4 }, 5 *)

Definition exb : builder nat :=
  BNode (user_id 1) BNil (BNode (user_id 2) (b_of_list [3; 4]) (b_of_list [5])).
Definition exo : order nat := Eval vm_compute in order_of Nat.eqb exb.
Definition exs : shape := Eval vm_compute in shape_of nat exb.
Lemma exo_built : mk_order nat Nat.eqb exb = Ok exo.
Proof. reflexivity. Qed.
Lemma exo_shape : oshape nat exo exs.
Proof. exact (sees_oshape nat exb exo 0 [] (sees_whole nat Nat.eqb exb)). Qed.

(** 1 in a, 3 in b, 4 in c, 5 in d. *)
Definition box (a b c d : list N) : sdd (vt FS) :=
  node_flat FS PF_up 2 (fs a) (node_hier FS PF_up 1
    (node_flat FS PF_up 1 (fs b) (node_flat FS PF_up 0 (fs c) One))
    (node_flat FS PF_up 0 (fs d) One)).
Lemma box_fits a b c d : fits FS PF_up exs (box a b c d).
Proof.
  split; unfold box.
  - repeat (apply node_flat_canonical || apply node_hier_canonical || constructor).
  - repeat (apply node_flat_follows || apply node_hier_follows || constructor).
Qed.
Definition point (a b c d : N) : asg N := AVal 2 a (ANest 1 (AVal 1 b (AVal 0 c ANil)) (AVal 0 d ANil)).
Lemma box_contains a b c d p : contains (VI := FS) (box a b c d) p = true <->
  exists i j k l, p = point i j k l /\ In i a /\ In j b /\ In k c /\ In l d.
Proof.
  unfold box. split.
  - intros C. apply (node_flat_contains FS FS_laws PF_up) in C. destruct C as (i & q & -> & M & C).
    apply (node_hier_contains FS PF_up) in C. destruct C as (n & q' & -> & Cn & C).
    apply (node_flat_contains FS FS_laws PF_up) in C. destruct C as (l & q & -> & M4 & C).
    apply (node_flat_contains FS FS_laws PF_up) in Cn. destruct Cn as (j & q' & -> & M2 & Cn).
    apply (node_flat_contains FS FS_laws PF_up) in Cn. destruct Cn as (k & q'' & -> & M3 & Cn).
    destruct q; try discriminate. destruct q''; try discriminate.
    exists i, j, k, l. split; [reflexivity|]. repeat split; now apply fs_in.
  - intros (i & j & k & l & -> & A & B & C & D). unfold point.
    repeat ((apply (node_flat_contains FS FS_laws PF_up); eexists _, _; split; [reflexivity|split; [now apply fs_in|]])
            || (apply (node_hier_contains FS PF_up); eexists _, _; split; [reflexivity|split]) || reflexivity).
Qed.

(** Running an evaluation and asking for an assignment. *)
Definition ask (o : order nat) (h : exhom) (x : sdd (vt FS)) (p : asg N) : option bool :=
  match happly FS PF_up nat exfun exind ex_user 20 20 o h x with
  | Ok y => Some (contains (VI := FS) y p)
  | Err _ => None
  end.
Lemma ask_spec o h x p b : ask o h x p = Some b ->
  exists y, evals FS PF_up nat exfun exind ex_user o h x y /\ contains (VI := FS) y p = b.
Proof.
  unfold ask. destruct (happly _ _ _ _ _ _ _ _ _ _) as [y|] eqn:E; [|discriminate].
  intros [= <-]. exists y. split; [|reflexivity]. exists 20, 20. exact E.
Qed.
