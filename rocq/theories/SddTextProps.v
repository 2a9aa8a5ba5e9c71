(** * Property C68: the textual output of SDDs

    [sdd_text (f) x]: what [os << x] writes, valuations being written by [f]. *)

From Coq Require Import Ascii String List Bool Arith NArith ZArith Lia.
From Verif Require Import Base SortedSets Values FlatSet Bitset Sdd SddFacts DDModel DDProofs Spec DDTheorems Text SddText
  Concrete DDProps.
Import ListNotations.

(** ** There is a text *)

Lemma canonical_text : forall VI lt (pv : vt VI -> text) x, canonical VI lt x -> exists t, sdd_text (vt VI) pv x = Some t.
Proof.
  intros VI lt pv.
  assert (AT : forall (W : Type) (pw : W -> option text) (arcs : list (W * sdd (vt VI))), arcs <> [] ->
    (forall v s, In (v, s) arcs -> (exists t, pw v = Some t) /\ exists t, sdd_text (vt VI) pv s = Some t) ->
    exists t, arcs_text (vt VI) pv pw arcs = Some t).
  { intros W pw. induction arcs as [|[v s] r IH]; intros N P; [congruence|]. cbn [arcs_text].
    destruct (P v s (or_introl eq_refl)) as [[tv ->] [ts ->]]. destruct r as [|a r]; [eauto|].
    destruct IH as [t ->]; [discriminate| |cbn; eauto]. intros v' s' I'. apply P. now right. }
  induction x as [| |x arcs IH|x arcs IH] using sdd_ind'; intros C.
  - cbn. eauto.
  - cbn. eauto.
  - rewrite flat_text. inversion C as [| |x' a' N _ CS _ _ E|]; subst.
    destruct (AT _ (fun v => Some (pv v)) arcs) as [t ->]; [exact N| |cbn; eauto].
    intros v s I'. split; [eauto|]. eapply IH; eauto.
  - rewrite hier_text. inversion C as [| | |x' a' N _ CV CS _ _ E]; subst.
    destruct (AT _ (sdd_text (vt VI) pv) arcs) as [t ->]; [exact N| |cbn; eauto].
    intros v s I'. destruct (IH v s I'). split; eauto.
Qed.

(** Writing an SDD obtained through the library is never undefined behaviour: its nodes have arcs.  For any type of values, and
    whatever is written for them. *)
Theorem C68_writes : forall VI (VL : values_laws VI) PF (PO : platform_ok PF) pv x, built VI PF x ->
  exists t, sdd_text (vt VI) pv x = Some t.
Proof. intros VI VL PF PO pv x B. eapply canonical_text. now apply (built_canonical VI VL PF PO). Qed.
Print Assumptions C68_writes.

(** ** The text determines the SDD *)

(** Sets of unsigned integers, of signed integers, of characters, and bitsets. *)
Definition unsigned_set (v : fset N.ltb) : text := int_set_text decN Z.of_N (proj1_sig v).
Definition signed_set (v : fset Z.ltb) : text := int_set_text dec (fun z => z) (proj1_sig v).
Definition char_set (lt : ascii -> ascii -> bool) (num : ascii -> Z) (v : fset lt) : text :=
  int_set_text (fun c => [c]) num (proj1_sig v).

Lemma text_same : forall V (pv : V -> text), brace_code V pv -> forall x y t,
  sdd_text V pv x = Some t -> sdd_text V pv y = Some t -> x = y.
Proof. intros V pv PV x y t E1 E2. eapply (sdd_text_prefix V pv PV x y t t [] []); eauto. Qed.

Lemma unsigned_code : brace_code (fset N.ltb) unsigned_set.
Proof.
  split; [unfold unsigned_set, int_set_text; eauto|]. intros v w a b E.
  apply int_set_code in E as [E ->]; [|lia|apply decN_code]. split; [now apply fset_eq|reflexivity].
Qed.
Lemma signed_code : brace_code (fset Z.ltb) signed_set.
Proof.
  split; [unfold signed_set, int_set_text; eauto|]. intros v w a b E.
  apply int_set_code in E as [E ->]; [|auto|apply dec_code]. split; [now apply fset_eq|reflexivity].
Qed.
Lemma chars_code : forall lt num, (forall c d, num c = num d -> c = d) -> brace_code (fset lt) (char_set lt num).
Proof.
  intros lt num NI. split; [unfold char_set, int_set_text; eauto|]. intros v w a b E.
  apply int_set_code in E as [E ->]; [|auto|apply char_code]. split; [now apply fset_eq|reflexivity].
Qed.
Lemma bitset_code : forall n, brace_code (bitset n) (@bitset_text n).
Proof.
  intros n. split; [unfold bitset_text, other_set_text; eauto|]. intros v w a b E.
  apply other_set_code in E as [E ->]; [|apply decN_code]. split; [|reflexivity].
  apply bitset_eq. apply N.bits_inj. intros i. apply eq_true_iff_eq.
  rewrite <- !bs_list_spec. now rewrite E.
Qed.

(** Two SDDs of which the texts are the same contain the same assignments, even if they come from different executions of the
    program: the orders of addresses of the values ([plt], [plt']), and of the SDDs (PF, PF'), may be different. *)
Definition texts_determine (A : Type) (lt : A -> A -> bool) (pv : fset lt -> text) : Prop :=
  forall (ST : strict_total lt) plt plt', strict_total plt -> strict_total plt' ->
  let VI := flat_set_values lt ST plt in let VI' := flat_set_values lt ST plt' in
  forall PF (PO : platform_ok PF) PF' (PO' : platform_ok PF') x y t u,
  built VI PF x -> built VI' PF' y ->
  sdd_text (fset lt) pv x = Some t -> sdd_text (fset lt) pv y = Some u ->
  t = u -> forall p, contains (VI := VI) x p = contains (VI := VI) y p.

Lemma code_determines : forall A lt pv, brace_code (fset lt) pv -> texts_determine A lt pv.
Proof.
  intros A lt pv PV ST plt plt' _ _ VI VI' PF PO PF' PO' x y t u _ _ E1 E2 -> p.
  now rewrite (text_same _ _ PV x y u E1 E2).
Qed.

Theorem C68_unsigned_partial : texts_determine N N.ltb unsigned_set.
Proof. apply code_determines, unsigned_code. Qed.
Theorem C68_signed_partial : texts_determine Z Z.ltb signed_set.
Proof. apply code_determines, signed_code. Qed.
(** Whatever the numeric values of characters are ([num]), and also for the characters that the text is made of: , . and }. *)
Theorem C68_characters_partial : forall lt num, (forall c d, num c = num d -> c = d) ->
  texts_determine ascii lt (char_set lt num).
Proof. intros lt num NI. now apply code_determines, chars_code. Qed.
Theorem C68_bitset_partial : forall n PF (PO : platform_ok PF) PF' (PO' : platform_ok PF') x y t u,
  built (bitset_values n) PF x -> built (bitset_values n) PF' y ->
  sdd_text (bitset n) bitset_text x = Some t -> sdd_text (bitset n) bitset_text y = Some u ->
  t = u -> forall p, contains (VI := bitset_values n) x p = contains (VI := bitset_values n) y p.
Proof.
  intros n PF PO PF' PO' x y t u _ _ E1 E2 -> p. now rewrite (text_same _ _ (bitset_code n) x y u E1 E2).
Qed.
Print Assumptions C68_unsigned_partial.
Print Assumptions C68_signed_partial.
Print Assumptions C68_characters_partial.
Print Assumptions C68_bitset_partial.

(** In one execution, two SDDs are == if and only if their texts are the same.  [determined pv]: the text of a set of values begins
    with a brace, and the set can be found again from a text that begins with it and goes on with a space (C68_determined: this
    is so of the four sorts of sets above). *)
Definition determined {V : Type} (pv : V -> text) : Prop :=
  (forall v, exists t, pv v = "{"%char :: t) /\
  (forall v w a b, pv v ++ " "%char :: a = pv w ++ " "%char :: b -> v = w /\ a = b).
Theorem C68_equal_partial : forall VI (VL : values_laws VI) PF (PO : platform_ok PF) (pv : vt VI -> text) x y, determined pv ->
  built VI PF x -> built VI PF y ->
  (sdd_text (vt VI) pv x = sdd_text (vt VI) pv y <-> sdd_eqb VI PF x y = true).
Proof.
  intros VI VL PF PO pv x y PV BX BY. destruct (C68_writes VI VL PF PO pv x BX) as [t E].
  rewrite (sdd_eqb_spec VI PF PO). split.
  - intros E'. eapply (text_same _ _ PV); [exact E|]. now rewrite <- E'.
  - now intros ->.
Qed.
Print Assumptions C68_equal_partial.
Theorem C68_determined : determined unsigned_set /\ determined signed_set /\
  (forall lt num, (forall c d, num c = num d -> c = d) -> determined (char_set lt num)) /\
  (forall n, determined (@bitset_text n)).
Proof.
  split; [apply unsigned_code|]. split; [apply signed_code|]. split; [exact chars_code|exact bitset_code].
Qed.
Print Assumptions C68_determined.

(** Texts can be written one after the other: nothing is needed between them. *)
Theorem C68_concatenate_partial : forall V (pv : V -> text), determined pv -> forall l m a b,
  List.length l = List.length m ->
  Forall2 (fun x t => sdd_text V pv x = Some t) l a -> Forall2 (fun x t => sdd_text V pv x = Some t) m b ->
  concat a = concat b -> l = m.
Proof.
  intros V pv PV. induction l as [|x l IH]; intros [|y m] a b L F G E; try discriminate; [reflexivity|].
  destruct a as [|t a]; [inversion F|]. destruct b as [|u b]; [inversion G|].
  assert (F1 : sdd_text V pv x = Some t) by now inversion F.
  assert (F2 : Forall2 (fun x t => sdd_text V pv x = Some t) l a) by now inversion F.
  assert (G1 : sdd_text V pv y = Some u) by now inversion G.
  assert (G2 : Forall2 (fun x t => sdd_text V pv x = Some t) m b) by now inversion G.
  cbn [concat] in E. apply (sdd_text_prefix V pv PV x y t u) in E as [-> E]; auto.
  f_equal. eapply IH; eauto.
Qed.
Print Assumptions C68_concatenate_partial.

(** *** Examples *)

Example C68_set_ex : unsigned_set (fs [1; 2; 3; 5; 7; 8]%N) = lit "{1..3,5,7..8}".
Proof. reflexivity. Qed.

(** A union with two arcs, on the two platforms of Concrete.v. *)
Definition ex_a (PF : platform FS) : sdd (vt FS) := node_flat FS PF 1 (fs [0; 1]%N) (node_flat FS PF 0 (fs [3]%N) One).
Definition ex_b (PF : platform FS) : sdd (vt FS) := node_flat FS PF 1 (fs [4]%N) (node_flat FS PF 0 (fs [7; 8]%N) One).
Definition ex_union (PF : platform FS) : sdd (vt FS) :=
  match api_sum FS PF [ex_a PF; ex_b PF] with Ok x => x | Err _ => Zero end.
Lemma ex_union_ok : forall PF (PO : platform_ok PF), api_sum FS PF [ex_a PF; ex_b PF] = Ok (ex_union PF).
Proof.
  intros PF PO. unfold ex_union.
  destruct (C06_union_total FS FS_laws PF PO (SFlat 1 (SFlat 0 SEnd)) [ex_a PF; ex_b PF]) as (r & E & _).
  - intros x [<-|[<-|[]]]; (split; [repeat constructor|]);
      repeat (apply node_hier_follows || apply node_flat_follows || constructor).
  - now rewrite E.
Qed.
Lemma ex_union_built : forall PF (PO : platform_ok PF), built FS PF (ex_union PF).
Proof.
  intros PF PO. eapply built_sum; [|now apply ex_union_ok]. intros x [<-|[<-|[]]]; repeat constructor.
Qed.

Definition text_up : text := lit "1[{0..1} --> 0[{3} --> |1|] || {4} --> 0[{7..8} --> |1|]]".
Definition text_down : text := lit "1[{4} --> 0[{7..8} --> |1|] || {0..1} --> 0[{3} --> |1|]]".

(** The claim that the same set of assignments is always written in the same way is false across executions: arcs are written
    in the order of the addresses of their successors. *)
Theorem C68_executions_refuted : exists PF (PO : platform_ok PF) PF' (PO' : platform_ok PF') x y t u,
  built FS PF x /\ built FS PF' y /\ (forall p, contains x p = true <-> contains y p = true) /\
  sdd_text _ unsigned_set x = Some t /\ sdd_text _ unsigned_set y = Some u /\ t <> u.
Proof.
  exists PF_up, PF_up_ok, PF_down, PF_down_ok, (ex_union PF_up), (ex_union PF_down), text_up, text_down.
  split; [apply ex_union_built, PF_up_ok|]. split; [apply ex_union_built, PF_down_ok|]. split.
  - intros p.
    rewrite (C02_union FS FS_laws PF_up PF_up_ok [ex_a PF_up; ex_b PF_up] _); [| |apply ex_union_ok, PF_up_ok].
    2: { intros x [<-|[<-|[]]]; repeat constructor. }
    rewrite (C02_union FS FS_laws PF_down PF_down_ok [ex_a PF_down; ex_b PF_down] _); [| |apply ex_union_ok, PF_down_ok].
    2: { intros x [<-|[<-|[]]]; repeat constructor. }
    reflexivity.
  - split; [vm_compute; reflexivity|]. split; [vm_compute; reflexivity|]. discriminate.
Qed.
Print Assumptions C68_executions_refuted.

(** ** Values of which the text is not delimited *)

(** flat_set<std::string>: strings are written as they are.  The claim that the text determines the SDD is false. *)
Definition str_lt (a b : list ascii) : bool := lexb (map N_of_ascii a) (map N_of_ascii b).
Lemma str_lt_strict : strict_total str_lt.
Proof.
  apply (strict_total_inj _ _ lexb (map N_of_ascii)); [exact lexb_strict|].
  induction x as [|c x IH]; intros [|d y] E; try discriminate; [reflexivity|].
  cbn in E. injection E as E1 E2. f_equal; auto. apply (f_equal ascii_of_N) in E1. now rewrite !ascii_N_embedding in E1.
Qed.
Definition str_set (v : fset str_lt) : text := other_set_text (fun s => s) (proj1_sig v).
Definition set_of (l : list string) : fset str_lt := fset_of_list str_lt str_lt_strict (map lit l).

Theorem C68_strings_refuted : forall plt, strict_total plt ->
  let VI := flat_set_values str_lt str_lt_strict plt in forall PF (PO : platform_ok PF),
  exists x y t, built VI PF x /\ built VI PF y /\
  sdd_text _ str_set x = Some t /\ sdd_text _ str_set y = Some t /\ sdd_eqb VI PF x y = false.
Proof.
  intros plt SP VI PF PO.
  exists (node_flat VI PF 0 (set_of ["a,b"%string]) One), (node_flat VI PF 0 (set_of ["a"%string; "b"%string]) One),
    (lit "0[{a,b} --> |1|]").
  split; [repeat constructor|]. split; [repeat constructor|]. split; [vm_compute; reflexivity|].
  split; [vm_compute; reflexivity|].
  destruct (sdd_eqb VI PF _ _) eqn:E; [|reflexivity]. apply (sdd_eqb_spec VI PF PO) in E. exfalso.
  assert (X : forall a b : fset str_lt, Flat 0 [(a, One)] = Flat 0 [(b, One)] -> proj1_sig a = proj1_sig b)
    by (intros a b Q; now inversion Q).
  apply X in E. vm_compute in E. discriminate.
Qed.
Print Assumptions C68_strings_refuted.
