(** * Assignments of the variables of a flat order

    Shared by the models of the example programs (Dictionary.v, Hanoi.v). *)

From Coq Require Import List Bool NArith Arith Lia.
From Verif Require Import Base SortedSets Values Sdd SddFacts Orders OrdersProofs OrdersMore OrdersSdd DDModel Spec.
From Verif Require Import DDTheorems Count CountProps OrdersProps HomFacts.
Import ListNotations.

(** ** Specification *)

(** The values of the variables of a flat order, from top to bottom. The variable of an identifier is the
    number of identifiers below it. *)
Fixpoint row {E : Type} (l : list E) : asg E :=
  match l with
  | [] => ANil
  | a :: r => AVal (N.of_nat (length r)) a (row r)
  end.

(** The structure of the variables of a flat order with [n] identifiers. *)
Fixpoint flat_shape (n : nat) : shape :=
  match n with
  | 0 => SEnd
  | S n => SFlat (N.of_nat n) (flat_shape n)
  end.

(** ** Proofs *)

Lemma N_is_eqb : is_eqb N.eqb.
Proof. intros x y. apply N.eqb_eq. Qed.

Lemma row_inj {E} : forall l m : list E, row l = row m -> l = m.
Proof.
  induction l as [|a l IH]; intros [|b m] H; cbn [row] in H; try discriminate; auto.
  injection H as _ -> H. f_equal. auto.
Qed.

Section Rows.
  Variable U : Type.
  Notation builder := (builder U).

  Lemma length_of_list (ids : list U) : b_length (b_of_list ids) = length ids.
  Proof. induction ids as [|u l IH]; [reflexivity|]. rewrite b_of_list_cons. cbn. now rewrite IH. Qed.

  Lemma shape_of_list (ids : list U) : shape_of U (b_of_list ids) = flat_shape (length ids).
  Proof.
    induction ids as [|u l IH]; [reflexivity|]. rewrite b_of_list_cons. cbn [shape_of flat_shape length].
    now rewrite length_of_list, IH.
  Qed.

  Lemma named_of_list (ids : list U) : well_named (b_of_list ids).
  Proof. induction ids as [|u l IH]; [exact Logic.I|]. rewrite b_of_list_cons. cbn. auto. Qed.

  Variable ueqb : U -> U -> bool.
  Hypothesis EQ : is_eqb ueqb.

  Lemma order_of_list (ids : list U) : NoDup ids -> mk_order U ueqb (b_of_list ids) = Ok (order_of ueqb (b_of_list ids)).
  Proof.
    intros ND. pose proof (mk_order_ok U ueqb EQ (b_of_list ids)) as H.
    destruct (mk_order U ueqb (b_of_list ids)) as [o|e].
    - destruct H as [-> _]. reflexivity.
    - destruct H as (u & _ & R). rewrite users_of_list in R. destruct (repeated_not_NoDup _ _ _ R ND).
  Qed.

  Variable VI : values_impl.
  Hypothesis VL : values_laws VI.
  Variable PF : platform VI.
  Hypothesis PO : platform_ok PF.

  Lemma initial_list (init : U -> vt VI) : forall (ids : list U) p,
    initial VI U init (b_of_list ids) p <->
    exists l, p = row l /\ Forall2 (fun u a => v_mem VI (init u) a = true) ids l.
  Proof.
    induction ids as [|u ids IH]; intros p.
    - cbn. split.
      + intros H. destruct p; try contradiction. exists []. auto.
      + intros (l & -> & H). inversion H. exact Logic.I.
    - rewrite b_of_list_cons. cbn [initial]. split.
      + intros H. destruct p as [|x a q|x a q]; try contradiction. destruct H as (-> & M & H). cbn in M.
        apply IH in H. destruct H as (l & -> & H). exists (a :: l). split; [|now constructor].
        cbn [row]. rewrite length_of_list. f_equal. f_equal. clear - H. induction H; cbn; congruence.
      + intros (l & -> & H). inversion H as [|? a ? l' M H']; subst. cbn [row].
        rewrite length_of_list. split; [|split; [exact M|]].
        * f_equal. clear - H'. induction H'; cbn; congruence.
        * apply IH. eauto.
  Qed.

  (** The size of an SDD whose assignments are known. *)
  Lemma size_rows x (L : list (list (elt VI))) : built VI PF x -> NoDup L ->
    (forall p, contains x p = true <-> exists w, In w L /\ p = row w) ->
    size VI PF x = Some (N.of_nat (length L)).
  Proof.
    intros B ND H. destruct (C14_size VI VL PF PO x B) as (l & NDl & Hl & ->). do 2 f_equal.
    assert (NDr : NoDup (map row L)).
    { clear - ND. induction ND as [|a l H1 H2 IH]; cbn; constructor; auto.
      intros X. apply in_map_iff in X. destruct X as (b & E & Hb). apply row_inj in E. now subst. }
    transitivity (length (map (@row (elt VI)) L)); [|apply map_length].
    apply Nat.le_antisymm; apply NoDup_incl_length; auto; intros p Hp.
    - apply Hl, H in Hp. destruct Hp as (w & Hw & ->). now apply in_map.
    - apply in_map_iff in Hp. destruct Hp as (w & <- & Hw). apply Hl, H. eauto.
  Qed.
End Rows.
