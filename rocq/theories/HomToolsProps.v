(** * Exports of homomorphisms (C58, C59) *)

From Coq Require Import List Bool NArith Arith Lia.
From Verif Require Import Base SortedSets Values FlatSet Sdd Orders DDModel Concrete Tools Hom HomTools HomConcrete.
Import ListNotations.

Lemma range_length : forall k n, length (range n k) = k.
Proof. induction k as [|k IH]; intros n; cbn [range length]; auto. Qed.
Lemma range_in : forall k n m, In m (range n k) <-> exists i, (i < N.of_nat k)%N /\ m = w32 (n + i).
Proof.
  induction k as [|k IH]; intros n m; cbn [range In]; [split; [intros []|intros (i & H & _); lia]|].
  rewrite IH. split.
  - intros [<-|(i & H & ->)]; [exists 0%N; split; [lia|f_equal; lia]|]. exists (i + 1)%N. split; [lia|f_equal; lia].
  - intros (i & H & ->). destruct (N.eq_dec i 0) as [->|Z]; [left; f_equal; lia|]. right. exists (i - 1)%N.
    split; [lia|f_equal; lia].
Qed.
Lemma w32_shift : forall n i, (0 < i)%N -> (w32 n = w32 (n + i) <-> exists c, (0 < c)%N /\ i = (c * 2 ^ 32)%N).
Proof.
  intros n i Hi. unfold w32. set (p := (2 ^ 32)%N). assert (Hp : p <> 0%N) by (unfold p; discriminate). clearbody p. split.
  - intros E. assert (A := N.div_mod n p Hp). assert (B := N.div_mod (n + i) p Hp). rewrite <- E in B.
    exists ((n + i) / p - n / p)%N. assert (C : (n / p <= (n + i) / p)%N) by (apply N.div_le_mono; lia).
    rewrite N.mul_sub_distr_r. assert (D : ((n + i) / p * p = n / p * p + i)%N) by lia.
    split; [|lia]. destruct (N.eq_dec ((n + i) / p) (n / p)) as [X|X]; [rewrite X in D; lia|lia].
  - intros (c & _ & ->). now rewrite N.mod_add.
Qed.
Lemma range_nodup : forall k n, NoDup (range n k) <-> (N.of_nat k <= 2 ^ 32)%N.
Proof.
  induction k as [|k IH]; intros n; cbn [range]; [split; [discriminate|constructor]|].
  rewrite NoDup_cons_iff, IH, range_in. set (p := (2 ^ 32)%N) in *. split.
  - intros [A B]. destruct (N.le_gt_cases (N.of_nat (S k)) p) as [C|C]; [auto|]. exfalso. apply A.
    exists (p - 1)%N. split; [unfold p in *; lia|]. replace (n + 1 + (p - 1))%N with (n + p)%N by (unfold p; lia).
    apply w32_shift; [unfold p; lia|]. exists 1%N. split; [lia|]. fold p. lia.
  - intros A. split; [|lia]. intros (i & Hi & E). replace (n + 1 + i)%N with (n + (1 + i))%N in E by lia.
    apply w32_shift in E; [|lia]. destruct E as (c & Hc & E). fold p in E. assert (p <= c * p)%N by nia. lia.
Qed.

Section Props.
  Variable VI : values_impl.
  Variables U F I : Type.
  Notation hom := (hom (vt VI) U F I).
  Variable heqb : hom -> hom -> bool.
  Hypothesis heqb_spec : forall a b, heqb a b = true <-> a = b.
  Local Notation drawn := (drawn VI U F I).
  Local Notation operands := (operands VI U F I heqb).
  Local Notation reach := (reach VI U F I heqb).

  Lemma dot_all : forall n h, exists nv k,
    let o := hom_dot VI U F I heqb n h in
    decls VI U F I o = nv /\ NoDup nv /\ (forall v, In v nv <-> reach h v /\ drawn v = true) /\
    (forall v, In v nv -> edges VI U F I heqb v o = operands v) /\
    (forall v, ~ In v nv -> edges VI U F I heqb v o = []) /\
    idents VI U F I o = range n k /\
    (h <> HId -> ident_targets VI U F I o = range n k).
  Proof.
    intros n h. set (s := {| out := []; vis := []; next := n |} : state VI U F I).
    destruct (visit_ok VI U F I heqb heqb_spec _ h (Nat.lt_succ_diag_r _) s) as (new & nv & W & T & E & E' & Id & Vs).
    { intros v w []. }
    unfold hom_dot. fold s. destruct W as [a1 a2 a3 a4 a5 a6 (k & a7 & a8)]. cbn [s out vis next] in *. 
    exists nv, k. cbn zeta. rewrite a1. cbn [app]. 
    assert (Vis : forall v, In v nv <-> reach h v /\ drawn v = true).
    { intros v. specialize (Vs v). rewrite a2, app_nil_r, <- in_rev in Vs. rewrite Vs. cbn. tauto. }
    repeat split; auto; try apply Vis; auto. 
    intros Hid. rewrite <- a7, <- Id. destruct (fst (visit VI U F I heqb h s)) as [m|m]; [now rewrite app_nil_r|].
    cbn in T. congruence.
  Qed.

  (** One node for each drawn homomorphism that is reached, and only for them. *)
  Theorem C58_nodes : forall n h,
    NoDup (decls VI U F I (hom_dot VI U F I heqb n h)) /\
    forall k, In k (decls VI U F I (hom_dot VI U F I heqb n h)) <-> reach h k /\ drawn k = true.
  Proof. intros n h. destruct (dot_all n h) as (nv & k & E & ND & V & _). cbn zeta in *. rewrite E. tauto. Qed.
  (** The edges of a node are its operands, in order, with their labels. *)
  Theorem C58_edges : forall n h k,
    (reach h k /\ drawn k = true -> edges VI U F I heqb k (hom_dot VI U F I heqb n h) = operands k) /\
    (~ (reach h k /\ drawn k = true) -> edges VI U F I heqb k (hom_dot VI U F I heqb n h) = []).
  Proof.
    intros n h k. destruct (dot_all n h) as (nv & j & E & ND & V & E1 & E2 & _). cbn zeta in *. rewrite <- V. auto.
  Qed.
  (** Identities: a new node for each occurrence as an operand, numbered by an unsigned int of 32 bits. *)
  Theorem C58_identities : forall n h, exists k,
    idents VI U F I (hom_dot VI U F I heqb n h) = range n k /\
    (h <> HId -> ident_targets VI U F I (hom_dot VI U F I heqb n h) = range n k).
  Proof. intros n h. destruct (dot_all n h) as (nv & k & _ & _ & _ & _ & _ & A & B). exists k. split; assumption. Qed.

  (** The nodes of identities have different names if and only if there are at most 2^32 of them. *)
  Theorem C58_identities_differ : forall n h,
    let l := idents VI U F I (hom_dot VI U F I heqb n h) in NoDup l <-> (N.of_nat (length l) <= 2 ^ 32)%N.
  Proof.
    intros n h. destruct (C58_identities n h) as (k & E & _). cbn zeta. rewrite E. rewrite range_length. apply range_nodup.
  Qed.

  (** Classes without overload (cons, constant, inductive, intersection, saturation sum and intersection) are not declared
      and their operands do not appear. *)
  Theorem C58_refuted : forall n h, drawn h = false -> h <> HId -> hom_dot VI U F I heqb n h = [].
  Proof. intros n h D N. destruct h; try discriminate; try reflexivity. now elim N. Qed.

  (** ** JSON *)

  Theorem C59_injective_partial : forall a b, exported VI U F I a -> exported VI U F I b ->
    hom_js VI U F I a = hom_js VI U F I b -> a = b.
  Proof.
    intros a. induction a as [l r IHl IHr|o v k IH|o v k IH|x|k IH|t f| |p t e IHp IHt IHe|i|l IH|t k IH|x f g l IHf IHg IHl
                             |x f g l IHf IHg IHl|x f g l IHf IHg IHl|l IH] using hom_ind';
      intros b A B E; inversion A; subst; destruct B as [l' r' B1 B2|k' B|t' f'| |t' k' B|l' B]; cbn [hom_js] in E;
      try discriminate; try reflexivity.
    - injection E as E1 E2. f_equal; auto.
    - injection E as E. f_equal. auto.
    - injection E as -> ->. reflexivity.
    - injection E as -> E. f_equal. auto.
    - injection E as E. f_equal.
      match goal with H : Forall (exported VI U F I) l |- _ => revert l' B E; induction H as [|a l Ha Hl IHl] end; 
        intros [|b l'] B E; try discriminate; [reflexivity|]. cbn [map] in E. injection E as E1 E2.
      inversion B; subst. inversion IH; subst. f_equal; auto. apply IHl; auto. now constructor.
  Qed.
  (** The other classes are all written "TODO": nothing tells them apart. *)
  (** How the text is read: "o" is the application of its second child then of its first one, "*" a fixpoint, "@t" a local on t… *)
  Inductive reads : json F -> hom -> Prop :=
  | rd_comp : forall a b l r, reads a l -> reads b r -> reads (JObj _ (JO _) (Some [a; b])) (HComp l r)
  | rd_fix : forall a h, reads a h -> reads (JObj _ (JStar _) (Some [a])) (HFix h)
  | rd_fun : forall t f, reads (JObj _ (JFun _ t f) None) (HFun t f)
  | rd_id : reads (JObj _ (JId _) None) HId
  | rd_local : forall t a h, reads a h -> reads (JObj _ (JAt _ t) (Some [a])) (HLocal t h)
  | rd_sum : forall l hs, Forall2 reads l hs -> reads (JObj _ (JPlus _) (Some l)) (HSum hs).
  Theorem C59_reads_partial : forall h, exported VI U F I h -> forall k, reads (hom_js VI U F I h) k <-> k = h.
  Proof.
    intros h. induction h as [l r IHl IHr|o v k IH|o v k IH|x|k IH|t f| |p t e IHp IHt IHe|i|l IH|t k IH|x f g l IHf IHg IHl
                             |x f g l IHf IHg IHl|x f g l IHf IHg IHl|l IH] using hom_ind';
      intros E k'; inversion E; subst; cbn [hom_js].
    - split.
      + intros R. inversion R as [? ? l' r' Rl Rr| | | | |]; subst. apply IHl in Rl; auto. apply IHr in Rr; auto. congruence.
      + intros ->. constructor; [now apply IHl|now apply IHr].
    - split.
      + intros R. inversion R as [|? k'' Rk| | | |]; subst. apply IH in Rk; auto. congruence.
      + intros ->. constructor. now apply IH.
    - split; [intros R; inversion R; reflexivity|intros ->; constructor].
    - split; [intros R; inversion R; reflexivity|intros ->; constructor].
    - split.
      + intros R. inversion R as [| | | |? ? k'' Rk|]; subst. apply IH in Rk; auto. congruence.
      + intros ->. constructor. now apply IH.
    - match goal with H : Forall (exported VI U F I) l |- _ => rename H into El end. split.
      + intros R. inversion R as [| | | | |? hs Rl]; subst. f_equal. clear R E. revert hs Rl.
        induction l as [|a l IHl]; intros hs Rl; inversion Rl as [|? b ? bs Ra Rs]; subst; [reflexivity|].
        inversion IH as [|? ? Ia Il]; subst. inversion El as [|? ? Ea Es]; subst. apply Ia in Ra; auto. subst b. f_equal. auto.
      + intros ->. constructor. clear E. induction l as [|a l IHl]; cbn [map]; constructor.
        * inversion IH as [|? ? Ia Il]; subst. inversion El as [|? ? Ea Es]; subst. now apply Ia.
        * inversion IH as [|? ? Ia Il]; subst. inversion El as [|? ? Ea Es]; subst. auto.
  Qed.
  Theorem C59_refuted : forall h, match h with
    | HConsF _ _ _ | HConsH _ _ _ | HConst _ | HIte _ _ _ | HInd _ | HInter _ | HSatFix _ _ _ _ | HSatInter _ _ _ _
    | HSatSum _ _ _ _ => forall l, hom_js VI U F I h = hom_js VI U F I (HInter l)
    | _ => True
    end.
  Proof. intros h. destruct h; auto. Qed.
End Props.
Print Assumptions C58_nodes.
Print Assumptions C58_edges.
Print Assumptions C58_identities.
Print Assumptions C58_identities_differ.
Print Assumptions C58_refuted.
Print Assumptions C59_injective_partial.
Print Assumptions C59_reads_partial.
Print Assumptions C59_refuted.

(** A homomorphism with a shared operand: (f + id) o local(2, f). *)
Definition ex_f : exhom := HFun 1%N (Fadd 1).
Definition ex_dot : exhom := HComp (HSum [ex_f; HId]) (HLocal 2%N ex_f).
Definition ex_eqb (a b : exhom) : bool := equivb (h_lt HP_up) a b.
Example C58_example : (forall a b, ex_eqb a b = true <-> a = b) /\
  hom_dot FS nat exfun exind ex_eqb 0 ex_dot =
    let '(s, l) := (HSum [ex_f; HId], HLocal 2%N ex_f) in
    [DHom _ _ _ _ ex_dot; DHom _ _ _ _ s; DHom _ _ _ _ ex_f; DEdge _ _ _ _ s ENone (inl ex_f); DIdent _ _ _ _ 0%N;
     DEdge _ _ _ _ s ENone (inr 0%N); DEdge _ _ _ _ ex_dot ELeft (inl s); DHom _ _ _ _ l;
     DEdge _ _ _ _ l (ETarget 2) (inl ex_f); DEdge _ _ _ _ ex_dot ERight (inl l)].
Proof. split; [apply (equivb_spec _ (hp_lt HP_up_ok))|vm_compute; reflexivity]. Qed.
Example C59_example : exported FS nat exfun exind ex_dot /\
  hom_js FS nat exfun exind ex_dot =
    JObj _ (JO _) (Some [JObj _ (JPlus _) (Some [JObj _ (JFun _ 1%N (Fadd 1)) None; JObj _ (JId _) None]);
                         JObj _ (JAt _ 2%N) (Some [JObj _ (JFun _ 1%N (Fadd 1)) None])]).
Proof. split; [repeat constructor|reflexivity]. Qed.
