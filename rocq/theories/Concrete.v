(** * Concrete platforms, for examples and counter-examples

    Nothing here models the library: these are particular address orders and Values types, used
    to show that the hypotheses of theorems can be met and to compute counter-examples. *)

From Coq Require Import List Bool NArith Arith Lia Permutation Sorted.
From Verif Require Import Base SortedSets Values Sdd SddFacts DDModel FlatSet Bitset.
Import ListNotations.

(** Lexicographic order on lists of numbers. *)
Fixpoint lexb (l m : list N) : bool :=
  match l, m with
  | [], [] => false
  | [], _ :: _ => true
  | _ :: _, [] => false
  | x :: l', y :: m' => N.ltb x y || (N.eqb x y && lexb l' m')
  end.

Lemma lexb_strict : strict_total lexb.
Proof.
  split.
  - induction x as [|x l IH]; simpl; auto. rewrite N.ltb_irrefl, N.eqb_refl, IH. reflexivity.
  - induction x as [|x l IH]; intros [|y m] [|z n]; simpl; try discriminate; auto.
    rewrite !orb_true_iff, !andb_true_iff, !N.ltb_lt, !N.eqb_eq.
    intros [H1|[-> H1]] [H2|[-> H2]]; [left; lia|left; lia|left; lia|right].
    split; auto. eapply IH; eauto.
  - induction x as [|x l IH]; intros [|y m]; simpl; try discriminate; auto.
    rewrite !orb_false_iff, !andb_false_iff, !N.ltb_ge, !N.eqb_neq.
    intros [H1 H2] [H3 H4]. assert (x = y) by lia. subst y. f_equal. apply IH.
    + destruct H2; [congruence|auto].
    + destruct H4; [congruence|auto].
Qed.

Lemma strict_total_inj : forall A B (lt : B -> B -> bool) (f : A -> B),
  strict_total lt -> (forall x y, f x = f y -> x = y) -> strict_total (fun x y => lt (f x) (f y)).
Proof.
  intros A B lt f ST Hf. split.
  - intros x. apply (st_irrefl ST).
  - intros x y z. apply (st_trans ST).
  - intros x y H1 H2. apply Hf. now apply (st_total ST).
Qed.

Lemma strict_total_flip : forall A (lt : A -> A -> bool), strict_total lt ->
  strict_total (fun x y => lt y x).
Proof.
  intros A lt ST. split.
  - intros x. apply (st_irrefl ST).
  - intros x y z H1 H2. eapply (st_trans ST); eauto.
  - intros x y H1 H2. now apply (st_total ST).
Qed.

(** A prefix code of trees. *)
Section Encode.
  Context {V : Type}.
  Variable encV : V -> list N.
  Hypothesis encV_inj : forall v w r s, encV v ++ r = encV w ++ s -> v = w /\ r = s.

  Fixpoint enc (t : sdd V) : list N :=
    match t with
    | Zero => [0%N]
    | One => [1%N]
    | Flat x arcs => 2%N :: x :: N.of_nat (length arcs) ::
                     flat_map (fun a => encV (fst a) ++ enc (snd a)) arcs
    | Hier x arcs => 3%N :: x :: N.of_nat (length arcs) ::
                     flat_map (fun a => enc (fst a) ++ enc (snd a)) arcs
    end.

  Lemma enc_inj : forall t u r s, enc t ++ r = enc u ++ s -> t = u /\ r = s.
  Proof.
    induction t as [| |x arcs IH|x arcs IH] using sdd_ind'; intros u r s H; destruct u as [| |y a|y a];
      simpl in H; try discriminate.
    - injection H as ->. auto.
    - injection H as ->. auto.
    - injection H as -> Hl H. apply Nat2N.inj in Hl.
      assert (G : arcs = a /\ r = s).
      { revert a Hl H. induction arcs as [|[v t] arcs IHa]; intros [|[w u] a] Hl H; try discriminate.
        - auto.
        - simpl in H. rewrite <- !app_assoc in H. apply encV_inj in H. destruct H as [-> H].
          apply (IH w t (or_introl eq_refl)) in H. destruct H as [-> H].
          destruct (IHa (fun v s Hin => IH v s (or_intror Hin)) a) as [-> ->]; auto. }
      destruct G as [-> ->]. auto.
    - injection H as -> Hl H. apply Nat2N.inj in Hl.
      assert (G : arcs = a /\ r = s).
      { revert a Hl H. induction arcs as [|[v t] arcs IHa]; intros [|[w u] a] Hl H; try discriminate.
        - auto.
        - simpl in H. rewrite <- !app_assoc in H.
          destruct (IH v t (or_introl eq_refl)) as [IHv IHt].
          apply IHv in H. destruct H as [-> H]. apply IHt in H. destruct H as [-> H].
          destruct (IHa (fun v s Hin => IH v s (or_intror Hin)) a) as [-> ->]; auto. }
      destruct G as [-> ->]. auto.
  Qed.

  Definition enc_lt (t u : sdd V) : bool := lexb (enc t) (enc u).
  Lemma enc_lt_strict : strict_total enc_lt.
  Proof.
    apply (strict_total_inj _ _ lexb enc lexb_strict). intros x y H.
    destruct (enc_inj x y [] []) as [E _]; auto. now rewrite !app_nil_r.
  Qed.
End Encode.

(** ** flat_set<unsigned int> *)

Definition natset : Type := fset N.ltb.
Definition enc_set (s : natset) : list N := N.of_nat (length (proj1_sig s)) :: proj1_sig s.
Lemma enc_set_inj : forall v w r s, enc_set v ++ r = enc_set w ++ s -> v = w /\ r = s.
Proof.
  intros [l p] [m q] r s H. unfold enc_set in H. simpl in H. injection H as Hl H.
  apply Nat2N.inj in Hl.
  assert (G : l = m /\ r = s).
  { clear p q. revert m Hl H. induction l as [|a l IH]; intros [|b m] Hl H; try discriminate; auto.
    simpl in H. injection H as -> H. destruct (IH m) as [-> ->]; auto. }
  destruct G as [-> ->]. split; auto. now apply fset_eq.
Qed.
Definition set_lt (a b : natset) : bool := lexb (enc_set a) (enc_set b).
Lemma set_lt_strict : strict_total set_lt.
Proof.
  apply (strict_total_inj _ _ lexb enc_set lexb_strict). intros x y H.
  destruct (enc_set_inj x y [] []) as [E _]; auto. now rewrite !app_nil_r.
Qed.

Definition FS : values_impl := flat_set_values N.ltb Nltb_strict set_lt.
Lemma FS_laws : values_laws FS.
Proof. apply flat_set_laws. exact set_lt_strict. Qed.

(** Two address orders, opposite of each other, with opposite iteration orders. *)
Definition PF_up : platform FS :=
  Build_platform FS (enc_lt enc_set) (fun m => m) (fun m => m).
Definition PF_down : platform FS :=
  Build_platform FS (fun x y => enc_lt enc_set y x) (@rev _) (@rev _).
Lemma PF_up_ok : platform_ok PF_up.
Proof. split; simpl; auto. apply enc_lt_strict. exact enc_set_inj. Qed.
Lemma PF_down_ok : platform_ok PF_down.
Proof.
  split; simpl.
  - apply strict_total_flip. apply enc_lt_strict. exact enc_set_inj.
  - intros m. apply Permutation_sym, Permutation_rev.
  - intros m. apply Permutation_sym, Permutation_rev.
Qed.

Definition fs (l : list N) : natset := fset_of_list N.ltb Nltb_strict l.

(** ** bitset<64> (not fast iterable) *)

Definition bset : Type := bitset 64.
Definition enc_bset (s : bset) : list N := [proj1_sig s].
Lemma enc_bset_inj : forall v w r s, enc_bset v ++ r = enc_bset w ++ s -> v = w /\ r = s.
Proof.
  intros v w r s H. unfold enc_bset in H. simpl in H. injection H as H ->. split; auto.
  now apply bitset_eq.
Qed.
Definition BS : values_impl := bitset_values 64.
Lemma BS_laws : values_laws BS.
Proof. apply bitset_laws. Qed.
Definition PB_up : platform BS :=
  Build_platform BS (enc_lt enc_bset) (fun m => m) (fun m => m).
Lemma PB_up_ok : platform_ok PB_up.
Proof. split; simpl; auto. apply enc_lt_strict. exact enc_bset_inj. Qed.
