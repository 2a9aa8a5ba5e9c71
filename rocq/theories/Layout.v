(** * Layout in memory of unified data, and of what is stored behind them

    A node is followed by its arcs, a sum or a saturated fixpoint by its operands: they are placed by hand in the bytes that
    follow the object (sdd/mem/unique.hh 39-43).  Memory is a function from addresses to bytes; a byte is a position in the
    representation of some object.  Simplification: the layout of classes is the one of the Itanium C++ ABI (each field at the
    next offset suited to its alignment), which is what GCC and Clang use. *)

From Coq Require Import List Bool NArith Arith Lia.
Import ListNotations.
Open Scope N_scope.

(** ** Memory (specification) *)
Section Memory.
  Context {X : Type}.
  Definition memory : Type := N -> option (X * N).

  (** The [len] bytes at [a] are the representation of [x]. *)
  Definition holds (m : memory) (a len : N) (x : X) : Prop := forall j, j < len -> m (a + j) = Some (x, j).

  (** Construction of an object of [len] bytes at [a]. *)
  Definition write (m : memory) (a len : N) (x : X) : memory :=
    fun b => if (a <=? b) && (b <? a + len) then Some (x, b - a) else m b.

  Fixpoint write_all (m : memory) (l : list (N * N * X)) : memory :=
    match l with [] => m | (a, len, x) :: r => write_all (write m a len x) r end.

  Definition apart (a la b lb : N) : Prop := a + la <= b \/ b + lb <= a.
End Memory.
Arguments memory : clear implicits.

(** ** Sizes, alignments, offsets *)

(** A complete type: sizeof and alignof. *)
Record ctype : Type := { csize : N; calign : N }.

Definition proper (c : ctype) : Prop := 0 < csize c /\ 0 < calign c /\ (calign c | csize c).

Definition align_up (n a : N) : N := (n + a - 1) / a * a.

(** With __attribute__((__packed__)) (sdd/util/packed.hh 9-13) a field immediately follows the previous one. *)
Definition field_at (packed : bool) (off : N) (c : ctype) : N := if packed then off else align_up off (calign c).

Fixpoint offsets (packed : bool) (off : N) (l : list ctype) : list N :=
  match l with
  | [] => []
  | c :: r => let o := field_at packed off c in o :: offsets packed (o + csize c) r
  end.

Fixpoint ending (packed : bool) (off : N) (l : list ctype) : N :=
  match l with [] => off | c :: r => ending packed (field_at packed off c + csize c) r end.

Definition largest (l : list N) : N := fold_right N.max 1 l.

(** A class with these fields. *)
Definition struct (packed : bool) (l : list ctype) : ctype :=
  let al := if packed then 1 else largest (map calign l) in
  {| csize := align_up (N.max 1 (ending packed 0 l)) al; calign := al |}.

(** union_storage, sdd/mem/variant_impl.hh 22-72: std::aligned_storage<largest_size, largest_alignment>. *)
Definition union_storage (packed : bool) (types : list ctype) : ctype :=
  let al := if packed then 1 else largest (map calign types) in
  {| csize := align_up (largest (map csize types)) al; calign := al |}.

(** variant, sdd/mem/variant.hh 39-63: const uint8_t index; const storage_type storage. *)
Definition byte : ctype := {| csize := 1; calign := 1 |}.
Definition uint16 : ctype := {| csize := 2; calign := 2 |}.
Definition uint32 : ctype := {| csize := 4; calign := 4 |}.
Definition variant_fields (packed : bool) (types : list ctype) : list ctype := [byte; union_storage packed types].

(** unique, sdd/mem/unique.hh 27-59: hook (hash_table.hh 27-31: one pointer), ref_count_, data_.  The class is packed with
    clang only: [upacked]. *)
Definition unique_fields (upacked packed : bool) (pointer : ctype) (types : list ctype) : list ctype :=
  [struct false [pointer]; uint32; struct packed (variant_fields packed types)].
Definition unique (upacked packed : bool) (pointer : ctype) (types : list ctype) : ctype :=
  struct upacked (unique_fields upacked packed pointer types).

(** Offset, in a unique, of the storage of its variant: where the node or the homomorphism is constructed
    (sdd/mem/variant.hh 69-76). *)
Definition data_at (upacked packed : bool) (pointer : ctype) (types : list ctype) : N :=
  nth 2 (offsets upacked 0 (unique_fields upacked packed pointer types)) 0.
Definition storage_at (upacked packed : bool) (pointer : ctype) (types : list ctype) : N :=
  data_at upacked packed pointer types + nth 1 (offsets packed 0 (variant_fields packed types)) 0.

(** ** Construction *)
Section Construction.
  Context {X : Type}.
  Variable num : N -> X.                     (* integers and null pointers, as contents of fields *)
  Variables upacked packed : bool.
  Variable pointer : ctype.
  Variable types : list ctype.               (* the types of the variant *)

  (** Fields of an object at [a], one after the other. *)
  Fixpoint fields_at (a : N) (offs : list N) (l : list (ctype * X)) : list (N * N * X) :=
    match offs, l with
    | o :: offs', (c, x) :: r => (a + o, csize c, x) :: fields_at a offs' r
    | _, _ => []
    end.

  (** consolidate: sdd/dd/alpha.hh 147-162, sdd/hom/consolidate.hh 17-29. *)
  Fixpoint consolidate (a es : N) (l : list X) : list (N * N * X) :=
    match l with [] => [] | x :: r => (a, es, x) :: consolidate (a + es) es r end.

  (** The node, or homomorphism: an object with fields [fields], constructed at [a], which places the elements [elems] (of
      [es] bytes each) at this + sizeof( *this): node.hh 72-78 and 165-170, sum.hh 46-51 and 143-148,
      saturation_fixpoint.hh 58-68 and 171-177. *)
  Definition object (fields : list (ctype * X)) : ctype := struct packed (map fst fields).
  Definition behind (a : N) (fields : list (ctype * X)) : N := a + csize (object fields).
  Definition object_writes (a : N) (fields : list (ctype * X)) (es : N) (elems : list X) : list (N * N * X) :=
    fields_at a (offsets packed 0 (map fst fields)) fields ++ consolidate (behind a fields) es elems.

  (** new (addr) unique_type(construct<T>(), ...): unique.hh 63-67, then variant.hh 69-76. *)
  Definition construct (m : memory X) (p : N) (index : N) (fields : list (ctype * X)) (es : N) (elems : list X) : memory X :=
    let u := unique_fields upacked packed pointer types in
    let data := p + data_at upacked packed pointer types in
    let storage := p + storage_at upacked packed pointer types in
    write_all m
      ([ (p + nth 0 (offsets upacked 0 u) 0, csize (struct false [pointer]), num 0);
         (p + nth 1 (offsets upacked 0 u) 0, 4, num 0);
         (data + nth 0 (offsets packed 0 (variant_fields packed types)) 0, 1, num index);
         (storage, csize (union_storage packed types), num 0) ]
       ++ object_writes storage fields es elems).

  (** What is asked to the unicity table: sizeof(Unique) + extra_bytes (unique_table.hh 127-142), with extra_bytes the bytes of
      the elements (alpha.hh 139-145; sum.hh 241-242; saturation_fixpoint.hh 207-208). *)
  Definition block_size (es : N) (elems : list X) : N :=
    csize (unique upacked packed pointer types) + N.of_nat (length elems) * es.

  (** The classes followed by elements.  The number of elements is converted to the type of the field. *)
  Definition stored (width : N) (elems : list X) : N := N.of_nat (length elems) mod 2 ^ width.
  (** node, node.hh 59-63: variable_, size_. *)
  Definition node_fields (variable size : ctype) (width x : N) (arcs : list X) : list (ctype * X) :=
    [(variable, num x); (size, num (stored width arcs))].
  (** _sum, sum.hh 42-51: size. *)
  Definition sum_fields (size : ctype) (width : N) (operands : list X) : list (ctype * X) :=
    [(size, num (stored width operands))].
  (** _saturation_fixpoint, saturation_fixpoint.hh 43-68: variable, F, G_size, L. *)
  Definition sat_fields (variable size hom : ctype) (width x : N) (f l : X) (g : list X) : list (ctype * X) :=
    [(variable, num x); (hom, f); (size, num (stored width g)); (hom, l)].

  (** What begin() and end() delimit, for an object at [a] whose [k]th field is the number of elements: node.hh 105-120,
      sum.hh 96-111, saturation_fixpoint.hh 127-141. *)
  Definition exposes (m : memory X) (a : N) (fields : list (ctype * X)) (k : nat) (es : N) (l : list X) : Prop :=
    exists n c x, nth_error fields k = Some (c, x) /\
      holds m (a + nth k (offsets packed 0 (map fst fields)) 0) (csize c) (num n) /\
      length l = N.to_nat n /\
      forall i y, nth_error l i = Some y -> holds m (behind a fields + N.of_nat i * es) es y.
End Construction.

(** ** Memory: lemmas *)
Section MemoryFacts.
  Context {X : Type}.
  Implicit Types (m : memory X).

  Lemma write_same m a len x : holds (write m a len x) a len x.
  Proof.
    intros j Hj. unfold write.
    destruct (N.leb_spec a (a + j)); [|lia]. destruct (N.ltb_spec (a + j) (a + len)); [|lia].
    cbn. do 2 f_equal. lia.
  Qed.

  Lemma write_apart m a la x b lb y : apart b lb a la -> holds m b lb y -> holds (write m a la x) b lb y.
  Proof.
    intros A H j Hj. unfold write.
    destruct (N.leb_spec a (b + j)), (N.ltb_spec (b + j) (a + la)); cbn; try (apply H, Hj).
    destruct A; lia.
  Qed.

  Lemma write_outside m a len x b : b < a \/ a + len <= b -> write m a len x b = m b.
  Proof.
    intros Hb. unfold write. destruct (N.leb_spec a b), (N.ltb_spec b (a + len)); cbn; try reflexivity. lia.
  Qed.

  Lemma write_all_app m l1 l2 : write_all m (l1 ++ l2) = write_all (write_all m l1) l2.
  Proof. revert m. induction l1 as [|[[a n] x] l1 IH]; intros m; cbn; auto. Qed.

  Lemma write_all_apart l : forall m a len x,
    Forall (fun w => apart a len (fst (fst w)) (snd (fst w))) l -> holds m a len x -> holds (write_all m l) a len x.
  Proof.
    induction l as [|[[b n] y] l IH]; intros m a len x HF H; cbn; auto.
    inversion HF as [|? ? H1 H2]; subst. cbn in H1. apply IH; auto. apply write_apart; auto.
  Qed.

  Lemma write_all_outside l : forall m b,
    Forall (fun w => b < fst (fst w) \/ fst (fst w) + snd (fst w) <= b) l -> write_all m l b = m b.
  Proof.
    induction l as [|[[a n] y] l IH]; intros m b HF; cbn; auto.
    inversion HF as [|? ? H1 H2]; subst. cbn in H1. rewrite IH; auto. apply write_outside; auto.
  Qed.

  (** Writes at increasing addresses, from [lo] to [hi]. *)
  Fixpoint increasing (lo : N) (l : list (N * N * X)) (hi : N) : Prop :=
    match l with
    | [] => lo <= hi
    | (a, n, _) :: r => lo <= a /\ increasing (a + n) r hi
    end.

  Lemma increasing_le l : forall lo hi, increasing lo l hi -> lo <= hi.
  Proof. induction l as [|[[a n] x] l IH]; cbn; intros lo hi H; auto. destruct H as [H1 H2]. apply IH in H2. lia. Qed.

  Lemma increasing_in l : forall lo hi, increasing lo l hi ->
    Forall (fun w => lo <= fst (fst w) /\ fst (fst w) + snd (fst w) <= hi) l.
  Proof.
    induction l as [|[[a n] x] l IH]; cbn; intros lo hi H; constructor.
    - cbn. destruct H as [H1 H2]. apply increasing_le in H2. lia.
    - destruct H as [H1 H2]. eapply Forall_impl; [|apply (IH _ _ H2)]. cbn. intros [[b k] y]; cbn. lia.
  Qed.

  Lemma increasing_app l1 : forall lo mid l2 hi, increasing lo l1 mid -> increasing mid l2 hi -> increasing lo (l1 ++ l2) hi.
  Proof.
    induction l1 as [|[[a n] x] l1 IH]; cbn; intros lo mid l2 hi H1 H2.
    - destruct l2 as [|[[b k] y] l2]; cbn in *; lia || (split; [lia|tauto]).
    - destruct H1 as [Ha H1]. split; [exact Ha|]. eapply IH; eauto.
  Qed.

  Lemma write_all_in l : forall m lo hi, increasing lo l hi -> forall a n x, In (a, n, x) l -> holds (write_all m l) a n x.
  Proof.
    induction l as [|[[b k] y] l IH]; cbn [increasing write_all In]; intros m lo hi H1 a n x H; [destruct H|].
    destruct H1 as [H1 H2]. destruct H as [H|H]; [|eapply IH; eauto].
    injection H as -> -> ->. apply write_all_apart; [|apply write_same].
    eapply Forall_impl; [|apply (increasing_in _ _ _ H2)]. intros [[c j] z]; cbn. intros; left; lia.
  Qed.

  Lemma holds_fun m a n x y : 0 < n -> holds m a n x -> holds m a n y -> x = y.
  Proof. intros Hn H1 H2. specialize (H1 0 Hn). specialize (H2 0 Hn). congruence. Qed.
End MemoryFacts.

(** ** Offsets: lemmas *)
Lemma align_up_ge n a : 0 < a -> n <= align_up n a.
Proof.
  intros Ha. unfold align_up.
  pose proof (N.div_mod (n + a - 1) a ltac:(lia)). pose proof (N.mod_lt (n + a - 1) a ltac:(lia)). nia.
Qed.
Lemma align_up_mult n a : (a | align_up n a).
Proof. exists ((n + a - 1) / a). reflexivity. Qed.

Lemma field_at_ge packed off c : 0 < calign c -> off <= field_at packed off c.
Proof. intros Hc. destruct packed; cbn; [lia|apply align_up_ge, Hc]. Qed.

Lemma largest_pos l : 1 <= largest l.
Proof. unfold largest. induction l; cbn; lia. Qed.
Lemma largest_in l x : In x l -> x <= largest l.
Proof. unfold largest. induction l as [|y l IH]; cbn; intros []; subst; [|apply IH in H]; lia. Qed.

Lemma ending_ge packed l : forall off, Forall (fun c => 0 < calign c) l -> off <= ending packed off l.
Proof.
  induction l as [|c l IH]; intros off H; cbn; [lia|]. inversion H; subst.
  pose proof (field_at_ge packed off c H2). pose proof (IH (field_at packed off c + csize c) H3). lia.
Qed.

Lemma struct_size packed l : ending packed 0 l <= csize (struct packed l).
Proof.
  unfold struct; cbn. eapply N.le_trans; [|apply align_up_ge].
  - lia.
  - destruct packed; [lia|pose proof (largest_pos (map calign l)); lia].
Qed.
Lemma struct_size_pos packed l : 0 < csize (struct packed l).
Proof.
  unfold struct; cbn. eapply N.lt_le_trans; [|apply align_up_ge].
  - lia.
  - destruct packed; [lia|pose proof (largest_pos (map calign l)); lia].
Qed.
Lemma struct_align packed l : 0 < calign (struct packed l).
Proof. unfold struct; cbn. destruct packed; [lia|pose proof (largest_pos (map calign l)); lia]. Qed.

Lemma storage_size packed types t : In t types -> csize t <= csize (union_storage packed types).
Proof.
  intros H. unfold union_storage; cbn. eapply N.le_trans; [|apply align_up_ge].
  - apply largest_in, in_map, H.
  - destruct packed; [lia|pose proof (largest_pos (map calign types)); lia].
Qed.

Section ConstructionFacts.
  Context {X : Type}.
  Variable num : N -> X.
  Variables upacked packed : bool.
  Variable pointer : ctype.
  Variable types : list ctype.
  Notation fields_at := (@fields_at X).
  Notation consolidate := (@consolidate X).
  Notation behind := (@behind X packed).

  Lemma fields_increasing a l : forall off, Forall (fun c => 0 < calign c) (map fst l) ->
    increasing (a + off) (fields_at a (offsets packed off (map fst l)) l) (a + ending packed off (map fst l)).
  Proof.
    induction l as [|[c x] l IH]; intros off H; cbn; [lia|]. inversion H; subst.
    pose proof (field_at_ge packed off c H2). split; [lia|].
    rewrite <- N.add_assoc. apply IH, H3.
  Qed.

  Lemma consolidate_increasing es l : forall a, increasing a (consolidate a es l) (a + N.of_nat (length l) * es).
  Proof.
    induction l as [|x l IH]; intros a; cbn [consolidate increasing length]; [lia|].
    split; [lia|]. replace (a + N.of_nat (S (length l)) * es) with ((a + es) + N.of_nat (length l) * es) by lia. apply IH.
  Qed.

  Lemma object_increasing a fields es elems : Forall (fun c => 0 < calign c) (map fst fields) ->
    increasing a (object_writes packed a fields es elems) (behind a fields + N.of_nat (length elems) * es).
  Proof.
    intros H. eapply increasing_app; [|apply consolidate_increasing].
    pose proof (fields_increasing a fields 0 H) as Hi. rewrite N.add_0_r in Hi.
    unfold behind, Layout.behind, object.
    pose proof (struct_size packed (map fst fields)) as Hs.
    clear -Hi Hs. revert Hi. generalize (offsets packed 0 (map fst fields)) as o. intros o Hi.
    assert (forall l lo h1 h2, h1 <= h2 -> increasing (X := X) lo l h1 -> increasing lo l h2) as Hm.
    { induction l as [|[[b n] x] l IH]; cbn; intros lo h1 h2 Hh Hl; [lia|]. destruct Hl. split; auto. eapply IH; eauto. }
    eapply Hm; [|exact Hi]. lia.
  Qed.

  Lemma nth_fields a l : forall offs k c x, length offs = length l -> nth_error l k = Some (c, x) ->
    In (a + nth k offs 0, csize c, x) (fields_at a offs l).
  Proof.
    induction l as [|[d y] l IH]; intros [|o offs] [|k] c x Hl H; cbn in *; try discriminate.
    - injection H as -> ->. left; reflexivity.
    - right. apply IH; [lia|exact H].
  Qed.

  Lemma offsets_length l : forall off, length (offsets packed off l) = length l.
  Proof. induction l; intros off; cbn; auto. Qed.

  Lemma nth_consolidate es l : forall a i x, nth_error l i = Some x -> In (a + N.of_nat i * es, es, x) (consolidate a es l).
  Proof.
    induction l as [|y l IH]; intros a [|i] x H; cbn [nth_error] in H; try discriminate.
    - injection H as ->. cbn. left. f_equal. f_equal. lia.
    - right. specialize (IH (a + es) _ _ H).
      replace (a + N.of_nat (S i) * es) with (a + es + N.of_nat i * es) by lia. exact IH.
  Qed.

  Notation construct := (construct num upacked packed pointer types).
  Notation U := (unique_fields upacked packed pointer types).
  Notation S0 := (storage_at upacked packed pointer types).

  Lemma u_aligned : Forall (fun c => 0 < calign c) U.
  Proof. repeat constructor; auto using struct_align. Qed.

  Definition hook_at (p : N) : N := p + nth 0 (offsets upacked 0 U) 0.
  Definition count_at (p : N) : N := p + nth 1 (offsets upacked 0 U) 0.
  Definition index_at (p : N) : N :=
    p + data_at upacked packed pointer types + nth 0 (offsets packed 0 (variant_fields packed types)) 0.

  Lemma header p :
    p <= hook_at p /\ hook_at p + csize (struct false [pointer]) <= count_at p /\ count_at p + 4 <= index_at p /\
    index_at p + 1 <= p + S0 /\ S0 + csize (union_storage packed types) <= csize (unique upacked packed pointer types).
  Proof.
    pose proof u_aligned as HU.
    pose proof (struct_size upacked U) as H1. change (struct upacked U) with (unique upacked packed pointer types) in H1.
    pose proof (struct_size packed (variant_fields packed types)) as H2.
    unfold hook_at, count_at, index_at, storage_at, data_at.
    unfold unique_fields in *.
    generalize dependent (struct packed (variant_fields packed types)). intros V HU H1 H2.
    cbn [offsets nth ending] in *.
    assert (forall off, off <= field_at packed off (union_storage packed types)) as HS.
    { intros. apply field_at_ge. unfold union_storage; cbn. destruct packed; [lia|]. pose proof (largest_pos (map calign types)). lia. }
    inversion HU as [|? ? A1 HU1]; subst. inversion HU1 as [|? ? A2 HU2]; subst. inversion HU2 as [|? ? A3 _]; subst.
    set (o1 := field_at upacked 0 (struct false [pointer])) in *.
    pose proof (field_at_ge upacked (o1 + csize (struct false [pointer])) uint32 A2) as B2.
    set (o2 := field_at upacked (o1 + csize (struct false [pointer])) uint32) in *.
    pose proof (field_at_ge upacked (o2 + csize uint32) V A3) as B3.
    set (o3 := field_at upacked (o2 + csize uint32) V) in *.
    unfold variant_fields in *. cbn [offsets nth ending] in *.
    set (i := field_at packed 0 byte) in *.
    pose proof (HS (i + csize byte)) as B4. set (s := field_at packed (i + csize byte) (union_storage packed types)) in *.
    change (csize uint32) with 4 in *. change (csize byte) with 1 in *.
    repeat split; lia.
  Qed.

  (** Everything that was written, except the storage, is readable afterwards; nothing else changes. *)
  Lemma construct_spec m p index fields es elems :
    In (object packed fields) types -> Forall (fun c => 0 < calign c) (map fst fields) ->
    let m' := construct m p index fields es elems in
    (forall b, b < p \/ p + block_size upacked packed pointer types es elems <= b -> m' b = m b) /\
    holds m' (hook_at p) (csize (struct false [pointer])) (num 0) /\
    holds m' (count_at p) 4 (num 0) /\
    holds m' (index_at p) 1 (num index) /\
    (forall k c x, nth_error fields k = Some (c, x) ->
       holds m' (p + S0 + nth k (offsets packed 0 (map fst fields)) 0) (csize c) x) /\
    (forall i x, nth_error elems i = Some x -> holds m' (behind (p + S0) fields + N.of_nat i * es) es x).
  Proof.
    intros HT HF m'.
    destruct (header p) as (L1 & L2 & L3 & L4 & L5).
    pose proof (object_increasing (p + S0) fields es elems HF) as HI.
    pose proof (storage_size packed types _ HT) as HS.
    set (ws := object_writes packed (p + S0) fields es elems) in *.
    assert (behind (p + S0) fields + N.of_nat (length elems) * es <= p + block_size upacked packed pointer types es elems) as HB.
    { unfold block_size, behind, Layout.behind. lia. }
    assert (forall a n, a + n <= p + S0 -> Forall (fun w : N * N * X => apart a n (fst (fst w)) (snd (fst w))) ws) as HA.
    { intros a n H. eapply Forall_impl; [|apply (increasing_in _ _ _ HI)]. intros [[b k] y]; cbn. intros; left; lia. }
    unfold construct, Layout.construct in m'. fold ws in m'.
    fold (hook_at p) (count_at p) (index_at p) in m'.
    split; [|split; [|split; [|split; [|split]]]].
    - intros b Hb. unfold m'. apply write_all_outside. apply Forall_app. split.
      + unfold block_size in Hb. repeat (apply Forall_cons; [cbn [fst snd]; lia|]). apply Forall_nil.
      + eapply Forall_impl; [|apply (increasing_in _ _ _ HI)]. intros [[c k] y]; cbn. lia.
    - unfold m'. cbn [app write_all]. apply write_all_apart; [apply HA; lia|].
      apply write_apart; [left; lia|]. apply write_apart; [left; lia|]. apply write_apart; [left; lia|]. apply write_same.
    - unfold m'. cbn [app write_all]. apply write_all_apart; [apply HA; lia|].
      apply write_apart; [left; lia|]. apply write_apart; [left; lia|]. apply write_same.
    - unfold m'. cbn [app write_all]. apply write_all_apart; [apply HA; lia|].
      apply write_apart; [left; lia|]. apply write_same.
    - intros k c x Hk. unfold m'. rewrite write_all_app. eapply write_all_in; [exact HI|].
      unfold ws, object_writes. apply in_or_app. left. apply nth_fields; [|exact Hk].
      rewrite offsets_length, map_length. reflexivity.
    - intros i x Hi. unfold m'. rewrite write_all_app. eapply write_all_in; [exact HI|].
      unfold ws, object_writes. apply in_or_app. right. apply nth_consolidate, Hi.
  Qed.
End ConstructionFacts.
