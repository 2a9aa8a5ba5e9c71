(** * Orders of the addresses of homomorphisms

    The theorems on homomorphisms hold for any order of their addresses. This file gives one, for the examples beside
    theorems on programs whose values, identifiers, functions and inductive homomorphisms have prefix codes: nothing of
    the library is modelled here. *)

From Coq Require Import List Bool NArith Arith Lia Permutation.
From Verif Require Import Base SortedSets Values Sdd SddFacts Orders OrdersProofs DDModel.
From Verif Require Import DDTheorems FlatSet Concrete Hom HomFacts HomConcrete.
Import ListNotations.

Section Code.
  Context {V U F I : Type}.
  Variables (encV : V -> list N) (encU : U -> list N) (encF : F -> list N) (encI : I -> list N).
  Hypothesis pcV : pcode encV.
  Hypothesis pcU : pcode encU.
  Hypothesis pcF : pcode encF.
  Hypothesis pcI : pcode encI.

  Definition code_oid (i : oid U) : list N := enc_pair enc_N encU (art i, usr i).
  Lemma pcode_oid : pcode code_oid.
  Proof.
    apply (pc_inj _ (fun i => (art i, usr i)) (pc_pair _ _ pc_N pcU)).
    intros [a b] [c d] [=]. cbn in *. congruence.
  Qed.
  Definition code_onode (n : onode U) : list N :=
    enc_pair code_oid (enc_pair enc_N (enc_pair enc_nat (enc_pair (enc_option enc_nat)
      (enc_pair (enc_option enc_nat) (enc_list enc_nat)))))
      (n_id n, (n_var n, (n_pos n, (n_next n, (n_nested n, n_path n))))).
  Lemma pcode_onode : pcode code_onode.
  Proof.
    apply (pc_inj _ (fun n => (n_id n, (n_var n, (n_pos n, (n_next n, (n_nested n, n_path n))))))).
    - repeat (apply pc_pair || apply pcode_oid || apply pc_N || apply pc_nat || apply pc_option || apply pc_list).
    - intros [a b c d e f] [a' b' c' d' e' f']. cbn. congruence.
  Qed.
  Definition code_order (o : order U) : list N :=
    enc_pair (enc_list (enc_option code_onode)) (enc_pair (enc_list (enc_pair code_oid enc_nat)) (enc_option enc_nat))
      (o_nodes o, (o_map o, o_head o)).
  Lemma pcode_order : pcode code_order.
  Proof.
    apply (pc_inj _ (fun o => (o_nodes o, (o_map o, o_head o)))).
    - repeat (apply pc_pair || apply pcode_oid || apply pcode_onode || apply pc_nat || apply pc_option || apply pc_list).
    - intros [a b c] [a' b' c']. cbn. congruence.
  Qed.

  Fixpoint code_hom (h : hom V U F I) : list N :=
    match h with
    | HComp l r => 0%N :: code_hom l ++ code_hom r
    | HConsF o v n => 1%N :: code_order o ++ encV v ++ code_hom n
    | HConsH o v n => 2%N :: code_order o ++ enc encV v ++ code_hom n
    | HConst x => 3%N :: enc encV x
    | HFix h => 4%N :: code_hom h
    | HFun t f => 5%N :: t :: encF f
    | HId => [6%N]
    | HIte p t e => 7%N :: code_hom p ++ code_hom t ++ code_hom e
    | HInd i => 8%N :: encI i
    | HInter l => 9%N :: N.of_nat (length l) :: flat_map code_hom l
    | HLocal t h => 10%N :: t :: code_hom h
    | HSatFix x f g l => 11%N :: x :: code_hom f ++ N.of_nat (length g) :: flat_map code_hom g ++ code_hom l
    | HSatInter x f g l =>
      12%N :: x :: (match f with Some h => 1%N :: code_hom h | None => [0%N] end) ++
      N.of_nat (length g) :: flat_map code_hom g ++ (match l with Some h => 1%N :: code_hom h | None => [0%N] end)
    | HSatSum x f g l =>
      13%N :: x :: (match f with Some h => 1%N :: code_hom h | None => [0%N] end) ++
      N.of_nat (length g) :: flat_map code_hom g ++ (match l with Some h => 1%N :: code_hom h | None => [0%N] end)
    | HSum l => 14%N :: N.of_nat (length l) :: flat_map code_hom l
    end.

  Lemma pcode_hom : pcode code_hom.
  Proof.
    intros h. induction h as
      [f g IHf IHg|o v n IH|o v n IH|x|h IH|t f| |p t e IHp IHt IHe|i|l IH|t h IH|x f g l IHf IHg IHl
      |x f g l IHf IHg IHl|x f g l IHf IHg IHl|l IH] using hom_ind'; intros k r s H; destruct k;
      cbn [code_hom app] in H; try discriminate.
    - apply cons_tail in H. rewrite <- !app_assoc in H. apply IHf in H. destruct H as [-> H].
      apply IHg in H. destruct H as [-> ->]. auto.
    - apply cons_tail in H. rewrite <- !app_assoc in H. apply pcode_order in H. destruct H as [-> H].
      apply pcV in H. destruct H as [-> H]. apply IH in H. destruct H as [-> ->]. auto.
    - apply cons_tail in H. rewrite <- !app_assoc in H. apply pcode_order in H. destruct H as [-> H].
      apply (enc_inj encV pcV) in H. destruct H as [-> H]. apply IH in H. destruct H as [-> ->]. auto.
    - apply cons_tail in H. apply (enc_inj encV pcV) in H. destruct H as [-> ->]. auto.
    - apply cons_tail in H. apply IH in H. destruct H as [-> ->]. auto.
    - apply cons_tail, cons_both in H. destruct H as [-> H]. apply pcF in H. destruct H as [-> ->]. auto.
    - injection H as ->. auto.
    - apply cons_tail in H. rewrite <- !app_assoc in H. apply IHp in H. destruct H as [-> H].
      apply IHt in H. destruct H as [-> H]. apply IHe in H. destruct H as [-> ->]. auto.
    - apply cons_tail in H. apply pcI in H. destruct H as [-> ->]. auto.
    - apply cons_tail, cons_both in H. destruct H as [L H]. apply Nat2N.inj in L. apply pc_flat in H; auto.
      + destruct H as [-> ->]. auto.
      + rewrite Forall_forall in IH. auto.
    - apply cons_tail, cons_both in H. destruct H as [-> H]. apply IH in H. destruct H as [-> ->]. auto.
    - apply cons_tail, cons_both in H. destruct H as [-> H]. rewrite <- !app_assoc in H. apply IHf in H. destruct H as [-> H].
      cbn [app] in H. apply cons_both in H. destruct H as [L H]. apply Nat2N.inj in L. rewrite <- !app_assoc in H.
      apply pc_flat in H; auto; [|rewrite Forall_forall in IHg; auto].
      destruct H as [-> H]. apply IHl in H. destruct H as [-> ->]. auto.
    - apply cons_tail, cons_both in H. destruct H as [-> H]. rewrite <- !app_assoc in H.
      assert (Of : forall (f f' : option (hom V U F I)) r s, (forall h, f = Some h -> forall b r s, code_hom h ++ r = code_hom b ++ s -> h = b /\ r = s) ->
                (match f with Some h => 1%N :: code_hom h | None => [0%N] end) ++ r =
                (match f' with Some h => 1%N :: code_hom h | None => [0%N] end) ++ s -> f = f' /\ r = s).
      { clear - pcV. intros [h|] [h'|] r s P H; cbn [app] in H; try discriminate.
        - apply cons_tail in H. apply (P h eq_refl) in H. destruct H as [-> ->]. auto.
        - injection H as ->. auto. }
      apply Of in H; [|exact IHf]. destruct H as [-> H].
      cbn [app] in H. apply cons_both in H. destruct H as [L H]. apply Nat2N.inj in L. rewrite <- !app_assoc in H.
      apply pc_flat in H; auto; [|rewrite Forall_forall in IHg; auto].
      destruct H as [-> H]. apply Of in H; [|exact IHl]. destruct H as [-> ->]. auto.
    - apply cons_tail, cons_both in H. destruct H as [-> H]. rewrite <- !app_assoc in H.
      assert (Of : forall (f f' : option (hom V U F I)) r s, (forall h, f = Some h -> forall b r s, code_hom h ++ r = code_hom b ++ s -> h = b /\ r = s) ->
                (match f with Some h => 1%N :: code_hom h | None => [0%N] end) ++ r =
                (match f' with Some h => 1%N :: code_hom h | None => [0%N] end) ++ s -> f = f' /\ r = s).
      { clear - pcV. intros [h|] [h'|] r s P H; cbn [app] in H; try discriminate.
        - apply cons_tail in H. apply (P h eq_refl) in H. destruct H as [-> ->]. auto.
        - injection H as ->. auto. }
      apply Of in H; [|exact IHf]. destruct H as [-> H].
      cbn [app] in H. apply cons_both in H. destruct H as [L H]. apply Nat2N.inj in L. rewrite <- !app_assoc in H.
      apply pc_flat in H; auto; [|rewrite Forall_forall in IHg; auto].
      destruct H as [-> H]. apply Of in H; [|exact IHl]. destruct H as [-> ->]. auto.
    - apply cons_tail, cons_both in H. destruct H as [L H]. apply Nat2N.inj in L. apply pc_flat in H; auto.
      + destruct H as [-> ->]. auto.
      + rewrite Forall_forall in IH. auto.
  Qed.

  Lemma code_hom_inj : forall h k, code_hom h = code_hom k -> h = k.
  Proof. intros h k E. destruct (pcode_hom h k [] []) as [X _]; auto. now rewrite !app_nil_r. Qed.
  Definition code_hplatform : hplatform V U F I :=
    {| h_lt := fun h k => lexb (code_hom h) (code_hom k); h_iter := fun m => m |}.
  Lemma code_hplatform_ok : hplatform_ok code_hplatform.
  Proof. split; cbn; auto. apply (strict_total_inj _ _ lexb code_hom lexb_strict code_hom_inj). Qed.
End Code.

Section Values.
  Variable VI : values_impl.
  Variable encV : vt VI -> list N.
  Hypothesis pcV : pcode encV.
  Definition code_platform : platform VI := Build_platform VI (enc_lt encV) (fun m => m) (fun m => m).
  Lemma code_platform_ok : platform_ok code_platform.
  Proof. split; simpl; auto. apply enc_lt_strict. exact pcV. Qed.
End Values.

(** A flat_set whose elements have a code. *)
Section Sets.
  Context {A : Type} (lt : A -> A -> bool).
  Variable e : A -> list N.
  Hypothesis pcA : pcode e.
  Definition code_set (s : fset lt) : list N := enc_list e (proj1_sig s).
  Lemma pcode_set : pcode code_set.
  Proof.
    intros [l p] [m q] r s H. unfold code_set in H. cbn [proj1_sig] in H. apply (pc_list e pcA) in H. destruct H as [-> ->].
    split; [|auto]. now apply fset_eq.
  Qed.
  Definition code_lt (a b : fset lt) : bool := lexb (code_set a) (code_set b).
  Lemma code_lt_strict : strict_total code_lt.
  Proof.
    apply (strict_total_inj _ _ lexb code_set lexb_strict). intros x y H. destruct (pcode_set x y [] []) as [E _]; auto.
    now rewrite !app_nil_r.
  Qed.
End Sets.
