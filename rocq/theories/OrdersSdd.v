(** * Construction of an SDD from an order

    Model of the constructor SDD(order, initializer), sdd/dd/definition.hh 180-208. *)

From Coq Require Import List Bool Arith NArith Lia.
From Verif Require Import Base SortedSets Values Sdd DDModel Spec DDTheorems.
From Verif Require Import Orders OrdersProofs.
Import ListNotations.

Section OrdersSdd.
  Variable VI : values_impl.
  Variable PF : platform VI.
  Variable U : Type.
  Notation V := (vt VI).
  Notation sdd := (sdd V).
  Variable init : U -> V.

  (** SDD(cxt, o, init), sdd/dd/definition.hh 182-201. The assertion of line 194 is undefined
      behaviour here. *)
  Fixpoint sdd_of_order (fuel : nat) (o : order U) : res (oerr U) sdd :=
    match fuel with
    | 0 => Err EFuel
    | S fuel =>
      if o_empty o then Ok One
      else
        match o_nested o, o_next o, o_variable o, o_identifier o with
        | Some nested, Some next, Some var, Some id =>
          if o_empty nested
          then
            if is_artificial id then Err EUndefined
            else rbind (sdd_of_order fuel next) (fun s =>
                 Ok (node_flat VI PF var (init (usr id)) s))
          else
            rbind (sdd_of_order fuel nested) (fun v =>
            rbind (sdd_of_order fuel next) (fun s => Ok (node_hier VI PF var v s)))
        | _, _, _, _ => Err EUndefined
        end
    end.

  (** SDD(o, init), sdd/dd/definition.hh 203-208. *)
  Definition sdd_from_order (o : order U) : res (oerr U) sdd :=
    sdd_of_order (S (length (o_nodes o))) o.

  (** ** Specification *)

  (** The assignments of the identifiers of a builder by values of the initializer; the variable of
      an identifier is the number of identifiers below it in its level. *)
  Fixpoint initial (b : builder U) (p : asg (elt VI)) : Prop :=
    match b, p with
    | BNil, ANil => True
    | BNode id BNil next, AVal x a q =>
      x = N.of_nat (b_length next) /\ v_mem VI (init (usr id)) a = true /\ initial next q
    | BNode id (BNode _ _ _ as nested) next, ANest x n q =>
      x = N.of_nat (b_length next) /\ initial nested n /\ initial next q
    | _, _ => False
    end.

  (** The structure of variables given by a builder. *)
  Fixpoint shape_of (b : builder U) : shape :=
    match b with
    | BNil => SEnd
    | BNode id BNil next => SFlat (N.of_nat (b_length next)) (shape_of next)
    | BNode id nested next => SHier (N.of_nat (b_length next)) (shape_of nested) (shape_of next)
    end.

  (** ** Proofs *)

  Fixpoint sdd_of_builder (b : builder U) : sdd :=
    match b with
    | BNil => One
    | BNode id BNil next => node_flat VI PF (N.of_nat (b_length next)) (init (usr id)) (sdd_of_builder next)
    | BNode id nested next =>
      node_hier VI PF (N.of_nat (b_length next)) (sdd_of_builder nested) (sdd_of_builder next)
    end.

  Lemma sdd_of_order_ok : forall fuel b o p path,
    sees o b p path -> well_named b -> b_size b < fuel ->
    sdd_of_order fuel o = Ok (sdd_of_builder b).
  Proof.
    induction fuel as [|fuel IH]; intros b o p path S W L; [lia|].
    cbn [sdd_of_order]. rewrite (sees_empty _ _ _ _ _ S).
    destruct b as [|id n x]; [reflexivity|]. cbn [b_empty].
    destruct (sees_nested _ _ _ _ _ _ _ S) as (on & -> & SN & _).
    destruct (sees_next _ _ _ _ _ _ _ S) as (ox & -> & SX & _).
    unfold o_variable, o_identifier. rewrite (sees_head _ _ _ _ _ _ _ S).
    cbn [option_map n_var n_id]. rewrite (sees_empty _ _ _ _ _ SN).
    cbn [b_size] in L. destruct W as (W1 & W2 & W3).
    rewrite (IH x ox _ _ SX W3) by lia.
    destruct n as [|id' n' x'].
    - cbn [b_empty]. rewrite (W1 eq_refl). reflexivity.
    - cbn [b_empty]. rewrite (IH _ on _ _ SN W2) by lia. reflexivity.
  Qed.

  Lemma sdd_of_builder_contains (VL : values_laws VI) : forall b p,
    contains (sdd_of_builder b) p = true <-> initial b p.
  Proof.
    induction b as [|id n IHn x IHx]; intros p.
    - cbn. destruct p; split; auto; try discriminate; tauto.
    - destruct n as [|id' n' x'].
      + cbn [sdd_of_builder]. rewrite (node_flat_contains VI VL). split.
        * intros (a & q & -> & H1 & H2). cbn. rewrite <- IHx. auto.
        * destruct p as [|y a q|y a q]; cbn; try tauto. rewrite <- IHx.
          intros (-> & H1 & H2). eauto.
      + cbn [sdd_of_builder]. rewrite (node_hier_contains VI). split.
        * intros (a & q & -> & H1 & H2). apply IHn in H1. apply IHx in H2. cbn [initial]. auto.
        * destruct p as [|y a q|y a q]; cbn [initial]; try tauto.
          intros (-> & H1 & H2). apply IHn in H1. apply IHx in H2. eauto.
  Qed.

  Lemma sdd_of_builder_follows : forall b, follows (VI := VI) (shape_of b) (sdd_of_builder b).
  Proof.
    induction b as [|id n IHn x IHx]; [constructor|].
    destruct n as [|id' n' x'].
    - cbn [shape_of sdd_of_builder]. now apply node_flat_follows.
    - cbn [shape_of sdd_of_builder]. now apply node_hier_follows.
  Qed.

  Lemma sdd_of_builder_built : forall b, built VI PF (sdd_of_builder b).
  Proof.
    induction b as [|id n IHn x IHx]; [constructor|].
    destruct n as [|id' n' x']; cbn [sdd_of_builder]; now constructor.
  Qed.

  Lemma sdd_of_builder_zero : forall b,
    sdd_of_builder b = Zero <-> exists u, In u (flats b) /\ v_empty VI (init u) = true.
  Proof.
    induction b as [|id n IHn x IHx].
    - cbn. split; [discriminate|]. intros (u & [] & _).
    - destruct n as [|id' n' x'].
      + cbn [sdd_of_builder flats]. rewrite node_flat_zero, IHx. split.
        * intros [H|(u & H1 & H2)]; [exists (usr id)|exists u]; cbn; auto.
        * intros (u & [<-|H1] & H2); eauto.
      + cbn [sdd_of_builder flats]. rewrite node_hier_zero, IHx.
        cbn [sdd_of_builder flats] in IHn. rewrite IHn. clear IHn IHx. split.
        * intros [(u & H1 & H2)|(u & H1 & H2)]; exists u; rewrite in_app_iff; auto.
        * intros (u & H1 & H2). apply in_app_iff in H1 as [H1|H1]; eauto.
  Qed.
End OrdersSdd.
