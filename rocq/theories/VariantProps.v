(** * Properties of tagged unions (C57) *)

From Coq Require Import List Bool NArith Arith Lia Eqdep_dec.
From Verif Require Import Base Variant.
Import ListNotations.

Section Props.
  Context {Ty : Type}.
  Variable ty_dec : forall a b : Ty, {a = b} + {a <> b}.
  Variable T : Ty -> Type.
  Local Notation construct := (construct ty_dec T).

  (** Each listed type can be stored. *)
  Theorem C57_construct : forall Types t (x : T t), In t Types -> exists v, construct Types t x = Some v.
  Proof.
    intros Types t x H. destruct (index_of_in ty_dec t Types H) as (i & E). unfold Variant.construct. rewrite E. cbn. eauto.
  Qed.

  Lemma construct_index : forall Types t x v, accepted Types -> construct Types t x = Some v ->
    exists i, index_of ty_dec t Types = Some i /\ nth_error Types i = Some t /\ index T Types v = N.of_nat i /\
              N.to_nat (index T Types v) = i /\ v = {| index := index T Types v; dyn := t; storage := x |}.
  Proof.
    intros Types t x v A H. unfold Variant.construct in H. destruct (index_of ty_dec t Types) as [i|] eqn:E; [|discriminate].
    injection H as <-. destruct (index_of_nth ty_dec t Types i E) as [B C]. exists i. cbn [index].
    unfold accepted in A. rewrite N.mod_small by lia. repeat split; auto. lia.
  Qed.
  Lemma read_own : forall Types i t x, read ty_dec T (Types := Types) {| index := i; dyn := t; storage := x |} t = Ok x.
  Proof.
    intros. unfold read. cbn [dyn storage]. destruct (ty_dec t t) as [e|n]; [|now elim n].
    now rewrite (UIP_dec ty_dec e eq_refl).
  Qed.

  (** A visitor is applied to the stored value, by the overload of its type. *)
  (** The index of a type designates this type. *)
  Theorem C57_index : forall Types (t : Ty), In t Types ->
    exists i, index_of ty_dec t Types = Some i /\ nth_ty i Types = Some t /\ i < length Types.
  Proof.
    induction Types as [|h r IH]; intros t H; [now elim H|]. cbn [index_of]. destruct (ty_dec t h) as [->|Hn].
    - exists 0. cbn. split; [auto|split; [auto|lia]].
    - destruct H as [H|H]; [congruence|]. destruct (IH t H) as (i & E & N & L). rewrite E. exists (S i). cbn.
      split; [auto|split; [auto|lia]].
  Qed.

  Theorem C57_visit : forall R (vis : forall t, T t -> res verr R) Types t x v, accepted Types ->
    construct Types t x = Some v -> apply_visitor ty_dec T vis v = vis t x.
  Proof.
    intros R vis Types t x v A H. destruct (construct_index _ _ _ _ A H) as (i & _ & B & _ & C & ->).
    cbn [index] in *. unfold apply_visitor. cbn [index].
    rewrite C, (map_nth_error _ _ _ B). unfold call_as. now rewrite read_own.
  Qed.

  (** Binary visits: the overload of both types, for every pair of variants. *)
  Theorem C57_binary_visit : forall R (vis : forall t u, T t -> T u -> res verr R) Xs Ys t x v u y w,
    accepted Xs -> accepted Ys -> construct Xs t x = Some v -> construct Ys u y = Some w ->
    apply_binary_visitor ty_dec T vis v w = vis t u x y.
  Proof.
    intros R vis Xs Ys t x v u y w A1 A2 H1 H2.
    destruct (construct_index _ _ _ _ A1 H1) as (i & _ & B1 & _ & C1 & ->).
    destruct (construct_index _ _ _ _ A2 H2) as (j & _ & B2 & _ & C2 & ->).
    cbn [index] in *. unfold apply_binary_visitor. cbn [index].
    destruct (join_nth Xs Ys i j t u B1 B2) as (l & -> & E). rewrite C1, C2, (map_nth_error _ _ _ E).
    unfold binary_call. cbn [fst snd]. now rewrite !read_own.
  Qed.

  (** is<T> tells the type of the value. *)
  Theorem C57_is : forall Types t x v u, accepted Types -> construct Types t x = Some v -> In u Types ->
    exists b, is ty_dec T u v = Some b /\ (b = true <-> u = t).
  Proof.
    intros Types t x v u A H Hu. destruct (construct_index _ _ _ _ A H) as (i & E & B & C & _ & _).
    destruct (index_of_in ty_dec u Types Hu) as (j & E'). unfold is. rewrite E'. cbn. eexists. split; [reflexivity|].
    rewrite C, N.eqb_eq. split.
    - intros Hij. apply Nnat.Nat2N.inj in Hij. subst j. exact (index_of_inj ty_dec u t Types i E' E).
    - intros ->. congruence.
  Qed.
  (** A cast to the type given by is<T> is not undefined, and reads the stored value. *)
  Theorem C57_cast : forall Types t x v u, accepted Types -> construct Types t x = Some v ->
    is ty_dec T u v = Some true -> exists e : t = u, variant_cast ty_dec T u v = Ok (eq_rect t T x u e).
  Proof.
    intros Types t x v u A H Hi. assert (Hu : In u Types).
    { unfold is in Hi. destruct (index_of ty_dec u Types) as [j|] eqn:E; [|discriminate].
      apply index_of_nth in E. apply (nth_error_In _ _ (proj1 E)). }
    destruct (C57_is Types t x v u A H Hu) as (b & E & Hb). rewrite E in Hi. injection Hi as ->.
    assert (u = t) as -> by (now apply Hb). exists eq_refl. cbn [eq_rect]. unfold variant_cast.
    destruct (construct_index _ _ _ _ A H) as (i & _ & _ & _ & _ & ->). apply read_own.
  Qed.

  (** Equality: same type and equal values; the unreachable overload is never called. *)
  Theorem C57_equality : forall eqt Types t x v u y w, accepted Types ->
    construct Types t x = Some v -> construct Types u y = Some w ->
    exists b, variant_eq ty_dec T eqt v w = Ok b /\
      (b = true <-> exists e : t = u, eqt u (eq_rect t T x u e) y = true).
  Proof.
    intros eqt Types t x v u y w A H1 H2. unfold variant_eq.
    destruct (construct_index _ _ _ _ A H1) as (i & E1 & _ & C1 & _ & _).
    destruct (construct_index _ _ _ _ A H2) as (j & E2 & _ & C2 & _ & _).
    destruct (N.eqb (index T Types v) (index T Types w)) eqn:E.
    - apply N.eqb_eq in E. rewrite C1, C2 in E. apply Nnat.Nat2N.inj in E. subst j.
      assert (t = u) as <- by exact (index_of_inj ty_dec t u Types i E1 E2).
      rewrite (C57_binary_visit _ _ _ _ _ _ _ _ _ _ A A H1 H2). unfold eq_visitor.
      destruct (ty_dec t t) as [e|n]; [|now elim n]. rewrite (UIP_dec ty_dec e eq_refl). cbn [eq_rect].
      eexists. split; [reflexivity|]. split; [intros He; exists eq_refl; exact He|].
      intros (e' & He). rewrite (UIP_dec ty_dec e' eq_refl) in He. exact He.
    - exists false. split; [reflexivity|]. split; [discriminate|]. intros (e & _). exfalso. subst u.
      apply N.eqb_neq in E. apply E. rewrite C1, C2. congruence.
  Qed.

  (** The storage is large enough and, unless packed, aligned for each type (alignments are powers of 2). *)
  Theorem C57_storage : forall (sizeof alignof : Ty -> N) Types t, In t Types ->
    (forall u, exists e, alignof u = 2 ^ e)%N ->
    exists s a, storage_size sizeof Types = Some s /\ storage_alignment false alignof Types = Some a /\
      (sizeof t <= s)%N /\ (alignof t | a)%N /\
      (exists u, In u Types /\ sizeof u = s) /\ (exists u, In u Types /\ alignof u = a).
  Proof.
    intros sizeof alignof Types t H P. destruct Types as [|h r]; [now elim H|].
    unfold storage_size, storage_alignment. cbn [map]. do 2 eexists. split; [reflexivity|]. split; [reflexivity|].
    assert (M : forall f : Ty -> N, In (f t) (f h :: map f r)) by (intros f; exact (in_map f (h :: r) t H)).
    assert (K : forall f : Ty -> N, exists u, In u (h :: r) /\ f u = largest (f h) (map f r)).
    { intros f. destruct (proj1 (in_map_iff f (h :: r) _) (largest_in (map f r) (f h))) as (u & E & Hu). eauto. }
    repeat split.
    - rewrite N.max_0_l. apply largest_ge, M.
    - destruct (K alignof) as (u & _ & E). rewrite <- E.
      pose proof (largest_ge _ _ _ (M alignof)) as L. rewrite <- E in L.
      destruct (P t) as (a & Ea), (P u) as (b & Eb). rewrite Ea, Eb in *.
      assert (a <= b)%N by (apply (N.pow_le_mono_r_iff 2); [lia|assumption]).
      exists (2 ^ (b - a))%N. rewrite <- N.pow_add_r. f_equal. lia.
    - rewrite N.max_0_l. apply K.
    - apply K.
  Qed.

  (** LIBSDD_PACKED: the storage is not aligned for a type that needs more than a byte. *)
  Theorem C57_packed_refuted : forall (alignof : Ty -> N) Types t a, In t Types -> (1 < alignof t)%N ->
    storage_alignment true alignof Types = Some a -> ~ (alignof t | a)%N.
  Proof.
    intros alignof Types t a H Ht E D. destruct Types as [|h r]; [now elim H|]. injection E as <-.
    apply N.divide_1_r in D. lia.
  Qed.
End Props.
Print Assumptions C57_construct.
Print Assumptions C57_index.
Print Assumptions C57_visit.
Print Assumptions C57_binary_visit.
Print Assumptions C57_is.
Print Assumptions C57_cast.
Print Assumptions C57_equality.
Print Assumptions C57_storage.
Print Assumptions C57_packed_refuted.

(** The data of an SDD (dd/definition.hh 53-54): |0|, |1|, flat nodes, hierarchical nodes. *)
Inductive sdd_ty : Type := TZero | TOne | TFlat | THier.
Definition sdd_ty_dec : forall a b : sdd_ty, {a = b} + {a <> b}.
Proof. decide equality. Defined.
Definition sdd_types : list sdd_ty := [TZero; TOne; TFlat; THier].
Definition sdd_val (t : sdd_ty) : Type := match t with TFlat => nat | THier => list nat | _ => unit end.

Example C57_example : accepted sdd_types /\
  exists f h : variant sdd_val sdd_types,
    construct sdd_ty_dec sdd_val sdd_types TFlat 3 = Some f /\
    construct sdd_ty_dec sdd_val sdd_types THier [4; 5] = Some h /\
    apply_binary_visitor sdd_ty_dec sdd_val (fun t u _ _ => Ok (t, u)) f h = Ok (TFlat, THier) /\
    apply_binary_visitor sdd_ty_dec sdd_val (fun t u _ _ => Ok (t, u)) h f = Ok (THier, TFlat) /\
    variant_eq sdd_ty_dec sdd_val (fun t => match t with TFlat => Nat.eqb | _ => fun _ _ => true end) f f = Ok true /\
    variant_eq sdd_ty_dec sdd_val (fun t => match t with TFlat => Nat.eqb | _ => fun _ _ => true end) f h = Ok false.
Proof.
  split; [unfold accepted; cbn; lia|]. do 2 eexists. split; [reflexivity|]. split; [reflexivity|].
  vm_compute. repeat split; reflexivity.
Qed.

(** The limits: one type is accepted, and 255 are, but neither 0 nor 256. *)
Example C57_limits : accepted [TZero] /\ accepted (repeat TZero 255) /\ ~ accepted (@nil sdd_ty) /\ ~ accepted (repeat TZero 256).
Proof. unfold accepted. rewrite !repeat_length. cbn [length]. lia. Qed.
