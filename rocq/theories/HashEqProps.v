(** * Equal objects have equal hashes (C56) *)

From Coq Require Import List Bool NArith Arith Lia.
From Verif Require Import Base HashTable Variant Orders OrdersProofs OrdersProps Hash.
Import ListNotations.

(** The requirement of every hash table: what operator== identifies, std::hash does not separate. *)
Definition hash_law {A : Type} (eq : A -> A -> bool) (hash : A -> N) : Prop := forall a b, eq a b = true -> hash a = hash b.

Section Props.
  Variables hint hptr : N -> N.
  Ltac split_and := repeat match goal with H : _ && _ = true |- _ => apply andb_prop in H; destruct H end.
  Ltac eqbs := repeat match goal with H : N.eqb _ _ = true |- _ => apply N.eqb_eq in H end.

  Lemma N_law : forall h : N -> N, hash_law N.eqb h.
  Proof. intros h a b E. apply N.eqb_eq in E. now subst. Qed.
  Lemma nary_map : forall a b, nary_eq a b = true -> a = b.
  Proof. intros a b E. unfold nary_eq in E. apply andb_prop in E. now apply list_eqb_eq. Qed.
  Lemma opt_eq_ok : forall a b, opt_eq a b = true -> a = b.
  Proof. intros [a|] [b|] E; try discriminate; [|reflexivity]. apply N.eqb_eq in E. now subst. Qed.

  (** SDDs in the unique table; cache keys. *)
  Theorem C56_arc : forall W (weq : W -> W -> bool) whash, hash_law weq whash ->
    hash_law (arc_eq weq) (arc_hash hptr whash).
  Proof.
    intros W weq whash H [v s] [w t] E. unfold arc_eq in E. cbn [fst snd] in E. split_and. eqbs. subst.
    unfold arc_hash. cbn [fst snd]. now rewrite (H v w).
  Qed.
  Theorem C56_node : forall W (weq : W -> W -> bool) whash, hash_law weq whash ->
    hash_law (node_eq weq) (node_hash hint hptr whash).
  Proof.
    intros W weq whash H a b E. unfold node_eq in E. split_and. eqbs. unfold node_hash.
    rewrite (list_eq_map _ _ _ (C56_arc W weq whash H) _ _ H1). congruence.
  Qed.
  Theorem C56_sdd : forall W (weq : W -> W -> bool) whash, hash_law weq whash ->
    hash_law (sdd_obj_eq weq) (sdd_obj_hash hint hptr whash).
  Proof.
    intros W weq whash H [| |a|a] [| |b|b] E; try discriminate; try reflexivity; cbn in E; unfold sdd_obj_hash; cbn [sdd_index];
      f_equal.
    - exact (C56_node W weq whash H a b E).
    - exact (C56_node N N.eqb hptr (N_law hptr) a b E).
  Qed.
  Theorem C56_difference : hash_law pair_eq (pair_hash hptr).
  Proof. intros [a b] [c d] E. unfold pair_eq in E. cbn [fst snd] in E. split_and. eqbs. now subst. Qed.
  Theorem C56_nary : hash_law nary_eq (nary_hash hptr).
  Proof. intros a b E. now rewrite (nary_map a b E). Qed.
  Theorem C56_flat_set : forall A (aeq : A -> A -> bool) ahash, hash_law aeq ahash ->
    hash_law (fset_eq aeq) (fset_hash ahash).
  Proof.
    intros A aeq ahash H a b E. unfold fset_eq in E. split_and. unfold fset_hash. now rewrite (list_eq_map _ _ _ H _ _ H1).
  Qed.
  Theorem C56_identifier : forall U (ueqb : U -> U -> bool) uhash, hash_law ueqb uhash ->
    hash_law (oid_eqb U ueqb) (oid_hash hint U uhash).
  Proof.
    intros U ueqb uhash H a b E. unfold oid_eqb in E. split_and. eqbs. unfold oid_hash. rewrite (H _ _ H1). congruence.
  Qed.

  (** Homomorphisms.  Two equal objects have equal hashes, except [cons]: see below. *)
  Definition same_order {U W F I : Type} (a b : @hom_obj U W F I) : Prop :=
    match a, b with
    | OConsH _ o _ _, OConsH _ o' _ _ | OConsF _ o _ _, OConsF _ o' _ _ =>
        oo_nodes U o = oo_nodes U o' /\ oo_head U o = oo_head U o'
    | _, _ => True
    end.
  Theorem C56_homomorphism_partial : forall U (ueqb : U -> U -> bool) W (weq : W -> W -> bool) whash
      F (feq : F -> F -> bool) fhash I (ieq : I -> I -> bool) ihash,
    hash_law weq whash -> hash_law feq fhash -> hash_law ieq ihash ->
    forall a b, hom_obj_eq U ueqb weq feq ieq a b = Ok true -> same_order a b ->
    hom_obj_hash hint hptr U whash fhash ihash a = hom_obj_hash hint hptr U whash fhash ihash b.
  Proof.
    intros U ueqb W weq whash F feq fhash I ieq ihash HW HF HI a b E SO.
    destruct a, b; cbn in E; try discriminate; try reflexivity; unfold hom_obj_hash; cbn [hom_index]; f_equal;
      try (injection E as E; split_and; eqbs; subst;
           repeat match goal with H : nary_eq _ _ = true |- _ => apply nary_map in H; subst end;
           repeat match goal with H : opt_eq _ _ = true |- _ => apply opt_eq_ok in H; subst end;
           try reflexivity; try (f_equal; now apply HF); try now apply HI).
    - destruct (N.eqb v v0 && N.eqb next next0) eqn:E1; [|discriminate]. split_and. eqbs. subst.
      destruct SO as [S1 S2]. unfold order_obj_hash. now rewrite S1, S2.
    - destruct (weq v v0 && N.eqb next next0) eqn:E1; [|discriminate]. split_and. eqbs. subst.
      destruct SO as [S1 S2]. unfold order_obj_hash. now rewrite S1, S2, (HW _ _ H).
  Qed.
End Props.
Print Assumptions C56_arc.
Print Assumptions C56_node.
Print Assumptions C56_sdd.
Print Assumptions C56_difference.
Print Assumptions C56_nary.
Print Assumptions C56_flat_set.
Print Assumptions C56_identifier.
Print Assumptions C56_homomorphism_partial.

(** With std::hash<T*> the identity (libstdc++): two orders built by the same code are equal, at different addresses;
    their hashes differ. *)
Definition ex_order : order nat :=
  match mk_order nat Nat.eqb (b_of_list [1; 2]) with Ok o => o | Err _ => {| o_nodes := []; o_map := []; o_head := None |} end.
Definition order_at (a : N) : order_obj nat := {| oo_nodes := a; oo_head := a + 64; oo_val := ex_order |}.
Theorem C56_order_refuted : exists a b,
  order_obj_eq nat Nat.eqb a b = Ok true /\ order_obj_hash (fun n => n) nat a <> order_obj_hash (fun n => n) nat b.
Proof. exists (order_at 4096), (order_at 8208). split; [vm_compute; reflexivity|vm_compute; discriminate]. Qed.
Print Assumptions C56_order_refuted.

(** Consequence: two equal homomorphisms cons(o, v, h) are both inserted in the unique table, so that the two
    homomorphisms compare different. *)
Definition cons_at (a : N) : @hom_obj nat N unit unit := OConsF nat (order_at a) 7%N 1024%N.
Definition cons_keq (a b : @hom_obj nat N unit unit) : bool :=
  match hom_obj_eq nat Nat.eqb N.eqb (fun _ _ => true) (fun _ _ => true) a b with Ok r => r | Err _ => false end.
Definition cons_hash : @hom_obj nat N unit unit -> N :=
  hom_obj_hash (fun n => n) (fun n => n) nat (fun v => v) (fun _ => 0%N) (fun _ => 0%N).
Definition cons_mem : @mem (@hom_obj nat N unit unit) := fun p =>
  if N.eqb p 1 then Some {| c_data := cons_at 4096; c_next := None |}
  else if N.eqb p 2 then Some {| c_data := cons_at 8208; c_next := None |} else None.
Theorem C56_cons_refuted : cons_keq (cons_at 4096) (cons_at 8208) = true /\
  exists m1 t1 m2 t2,
    insert (fun d => d) cons_keq cons_hash cons_mem (make_table 64) 1%N = Ok (m1, t1, (1%N, true)) /\
    insert (fun d => d) cons_keq cons_hash m1 t1 2%N = Ok (m2, t2, (2%N, true)).
Proof.
  split; [vm_compute; reflexivity|]. 
  destruct (insert (fun d => d) cons_keq cons_hash cons_mem (make_table 64) 1%N) as [[[m1 t1] r1]|] eqn:E1;
    [|exfalso; revert E1; vm_compute; discriminate].
  assert (r1 = (1%N, true)).
  { assert (R : rbind (insert (fun d => d) cons_keq cons_hash cons_mem (make_table 64) 1%N) (fun x => Ok (snd x)) = Ok r1)
      by now rewrite E1.
    revert R. vm_compute. congruence. }
  subst r1. exists m1, t1.
  assert (R : rbind (rbind (insert (fun d => d) cons_keq cons_hash cons_mem (make_table 64) 1%N)
                (fun x => insert (fun d => d) cons_keq cons_hash (fst (fst x)) (snd (fst x)) 2%N)) (fun x => Ok (snd x))
              = Ok (2%N, true)) by (vm_compute; reflexivity).
  rewrite E1 in R. cbn [rbind fst snd] in R.
  destruct (insert (fun d => d) cons_keq cons_hash m1 t1 2%N) as [[[m2 t2] r2]|]; [|discriminate].
  cbn [rbind snd] in R. injection R as ->. exists m2, t2. split; reflexivity.
Qed.
Print Assumptions C56_cons_refuted.

(** Hypotheses are met: values hashed as integers, and two distinct nodes in memory that are equal. *)
Example C56_example : hash_law N.eqb (fun n : N => n) /\
  let n := OFlat {| nd_var := 3; nd_arcs := [(5, 4096); (6, 8192)] |}%N in
  sdd_obj_eq N.eqb n n = true /\
  sdd_obj_eq N.eqb n (OFlat {| nd_var := 3; nd_arcs := [(5, 4096)] |}%N) = false.
Proof. split; [apply N_law|]. vm_compute. split; reflexivity. Qed.

(** * Comparison of the stored objects (C63)

    Unique tables and caches keep one object per class of operator==.  It is the equality of the contents: two objects of
    different classes, or that differ by one member, are not confused; two objects with the same members are not kept
    twice.  The comparison of values and of the user's homomorphisms is assumed to be an equality. *)
Definition decides {A : Type} (eq : A -> A -> bool) : Prop := forall a b, eq a b = true <-> a = b.

Lemma N_decides : decides N.eqb.
Proof. intros a b. apply N.eqb_eq. Qed.
Lemma list_decides : forall A (eq : A -> A -> bool), decides eq -> decides (list_eq eq).
Proof.
  intros A eq D. intros l. induction l as [|x l IH]; intros [|y m]; cbn [list_eq]; split; try discriminate; try reflexivity.
  - intros E. apply andb_prop in E. destruct E as [E1 E2]. apply D in E1. apply IH in E2. now subst.
  - intros [= -> ->]. apply andb_true_intro. split; [now apply D|now apply IH].
Qed.
Lemma opt_decides : decides opt_eq.
Proof. intros a b. split; [apply opt_eq_ok|]. intros <-. destruct a; [apply N.eqb_refl|reflexivity]. Qed.
Theorem C63_arc : forall W (weq : W -> W -> bool), decides weq -> decides (arc_eq weq).
Proof.
  intros W weq D [v s] [w t]. unfold arc_eq. cbn [fst snd]. rewrite andb_true_iff, N.eqb_eq, (D v w).
  split; [intros [-> ->]; reflexivity|intros [= -> ->]; split; reflexivity].
Qed.
Theorem C63_node : forall W (weq : W -> W -> bool), decides weq -> decides (node_eq weq).
Proof.
  intros W weq D [x l] [y m]. unfold node_eq. cbn [nd_var nd_arcs].
  rewrite !andb_true_iff, N.eqb_eq, Nat.eqb_eq, (list_decides _ _ (C63_arc W weq D) l m).
  split; [intros [[_ ->] ->]; reflexivity|intros [= -> ->]; repeat split; reflexivity].
Qed.
Theorem C63_sdd : forall W (weq : W -> W -> bool), decides weq -> decides (sdd_obj_eq weq).
Proof.
  intros W weq D [| |a|a] [| |b|b]; cbn [sdd_obj_eq]; split; try discriminate; try reflexivity.
  - intros E. apply (C63_node W weq D) in E. now subst.
  - intros [= ->]. now apply (C63_node W weq D).
  - intros E. apply (C63_node N N.eqb N_decides) in E. now subst.
  - intros [= ->]. now apply (C63_node N N.eqb N_decides).
Qed.
Theorem C63_difference : decides pair_eq.
Proof.
  intros [a b] [c d]. unfold pair_eq. cbn [fst snd]. rewrite andb_true_iff, !N.eqb_eq.
  split; [intros [-> ->]; reflexivity|intros [= -> ->]; split; reflexivity].
Qed.
Theorem C63_nary : decides nary_eq.
Proof.
  intros a b. unfold nary_eq. rewrite andb_true_iff, Nat.eqb_eq, list_eqb_eq.
  split; [intros [_ ->]; reflexivity|intros ->; split; reflexivity].
Qed.
Theorem C63_flat_set : forall A (aeq : A -> A -> bool), decides aeq -> decides (fset_eq aeq).
Proof.
  intros A aeq D a b. unfold fset_eq. rewrite andb_true_iff, Nat.eqb_eq, (list_decides A aeq D a b).
  split; [intros [_ ->]; reflexivity|intros ->; split; reflexivity].
Qed.

(** The contents of a homomorphism: everything but the addresses of the order of a cons. *)
Definition same_contents {U W F I : Type} (eq_order : order U -> order U -> Prop) (a b : @hom_obj U W F I) : Prop :=
  match a, b with
  | OConsH _ o v n, OConsH _ o' v' n' => v = v' /\ n = n' /\ eq_order (oo_val U o) (oo_val U o')
  | OConsF _ o v n, OConsF _ o' v' n' => v = v' /\ n = n' /\ eq_order (oo_val U o) (oo_val U o')
  | _, _ => a = b
  end.
Definition orders_compare {U W F I : Type} (ueqb : U -> U -> bool) (a b : @hom_obj U W F I) : Prop :=
  match a, b with
  | OConsH _ o _ _, OConsH _ o' _ _ | OConsF _ o _ _, OConsF _ o' _ _ =>
      exists r, order_eqb U ueqb (oo_val U o) (oo_val U o') = Ok r
  | _, _ => True
  end.
(** Equality of orders: C54.  The comparison answers whenever that of the orders does (always, for orders made from
    builders, C54). *)
Theorem C63_homomorphism : forall U (ueqb : U -> U -> bool) W (weq : W -> W -> bool) F (feq : F -> F -> bool)
    I (ieq : I -> I -> bool), decides weq -> decides feq -> decides ieq ->
  forall a b, orders_compare ueqb a b ->
  exists r, hom_obj_eq U ueqb weq feq ieq a b = Ok r
    /\ (r = true <-> same_contents (fun o o' => order_eqb U ueqb o o' = Ok true) a b).
Proof.
  intros U ueqb W weq F feq I ieq DW DF DI a b OC.
  destruct a, b; cbn [hom_obj_eq same_contents];
    try (eexists; split; [reflexivity|]; split; [discriminate|intros X; discriminate X]);
    try (eexists; split; [reflexivity|];
         rewrite ?andb_true_iff, ?N.eqb_eq;
         repeat match goal with
           | |- context [nary_eq ?x ?y = true] => rewrite (C63_nary x y)
           | |- context [opt_eq ?x ?y = true] => rewrite (opt_decides x y)
           | |- context [feq ?x ?y = true] => rewrite (DF x y)
           | |- context [ieq ?x ?y = true] => rewrite (DI x y)
           end;
         split; [intros Y; decompose [and] Y; subst; reflexivity|intros Y; injection Y; intros; subst; auto 10]).
  - destruct OC as [r E]. unfold order_obj_eq. destruct (N.eqb v v0 && N.eqb next next0) eqn:B.
    + apply andb_prop in B. destruct B as [B1 B2]. apply N.eqb_eq in B1, B2. subst. exists r. split; [exact E|].
      rewrite E. split; [intros ->; auto|]. intros (_ & _ & [= ->]). reflexivity.
    + exists false. split; [reflexivity|]. split; [discriminate|]. intros (-> & -> & _). now rewrite !N.eqb_refl in B.
  - destruct OC as [r E]. unfold order_obj_eq. destruct (weq v v0 && N.eqb next next0) eqn:B.
    + apply andb_prop in B. destruct B as [B1 B2]. apply N.eqb_eq in B2. apply DW in B1. subst. exists r. split; [exact E|].
      rewrite E. split; [intros ->; auto|]. intros (_ & _ & [= ->]). reflexivity.
    + exists false. split; [reflexivity|]. split; [discriminate|]. intros (-> & -> & _).
      rewrite N.eqb_refl in B. now rewrite (proj2 (DW v0 v0) eq_refl) in B.
  - exists true. split; [reflexivity|]. split; reflexivity.
Qed.
Print Assumptions C63_arc.
Print Assumptions C63_node.
Print Assumptions C63_sdd.
Print Assumptions C63_difference.
Print Assumptions C63_nary.
Print Assumptions C63_flat_set.
Print Assumptions C63_homomorphism.

(** A saturation_sum and a saturation_intersection with the same members differ; so do two that differ by F only. *)
Example C63_example :
  let eq := hom_obj_eq nat Nat.eqb (W := N) N.eqb (F := N) N.eqb (I := N) N.eqb in
  let a := OSatSum nat 3%N (Some 16%N) [32%N; 48%N] None in
  decides N.eqb /\ orders_compare Nat.eqb (OConsF (W := N) (F := N) (I := N) nat (order_at 4096) 7%N 1024%N)
                                          (OConsF nat (order_at 8208) 7%N 1024%N)
  /\ eq a a = Ok true /\ eq a (OSatInter nat 3%N (Some 16%N) [32%N; 48%N] None) = Ok false
  /\ eq a (OSatSum nat 3%N None [32%N; 48%N] None) = Ok false
  /\ eq a (OSatSum nat 3%N None [32%N; 48%N] (Some 16%N)) = Ok false.
Proof.
  cbv zeta. split; [exact N_decides|]. split; [exists true; vm_compute; reflexivity|]. repeat split; vm_compute; reflexivity.
Qed.
