(** * C67: the text of an order

    dump_order writes the identifiers as they are, so that the text is a JSON document that load_order reads back only if
    the identifiers have no special character (strings) or are representable as int (integers). *)

From Coq Require Import Ascii String List Bool Arith NArith ZArith Lia.
From Verif Require Import Base Orders OrdersProofs OrdersMore OrdersProps Text JsonText JsonTextProofs.
Import ListNotations.

(** ** Specification: the builder described by the elements of an array, from top to bottom. An array is a hierarchy. *)
Inductive describes (ID : identifiers) : list jv -> builder (iU ID) -> Prop :=
| d_nil : describes ID [] BNil
| d_id v u l b : (forall l, v <> VArr l) -> iread ID v = Some u -> describes ID l b ->
    describes ID (v :: l) (BNode (user_id u) BNil b)
| d_array k h l n b : describes ID k n -> n <> BNil -> describes ID l b ->
    describes ID (VArr k :: l) (BNode h n b).

Section Load.
  Variable ID : identifiers.
  Notation U := (iU ID).

  Lemma describes_items l b : describes ID l b -> decode_all ID l = Some (jitems b) /\ well_named b.
  Proof.
    induction 1 as [|v u l b NA R _ [IH W]|k h l n b _ [IHk Wk] NN _ [IHl Wl]].
    - split; [reflexivity|exact Logic.I].
    - cbn [decode_all jitems]. rewrite (decode_leaf ID v NA), R, IH. split; [reflexivity|].
      cbn. repeat split; auto.
    - cbn [decode_all jitems]. rewrite decode_arr, IHk, IHl. destruct n as [|i m x]; [congruence|].
      split; [reflexivity|]. cbn [well_named] in *. repeat split; try tauto; discriminate.
  Qed.

  Fixpoint vsize (v : jv) : nat := match v with VArr l => S (list_sum (map vsize l)) | _ => 1 end.

  Lemma load_describes : forall n l js acc c x, list_sum (map vsize l) <= n ->
    decode_all ID l = Some js -> load_loop U (i0 ID) (fun _ => true) js acc c = Ok x ->
    exists b, describes ID l b /\ (l <> [] -> b <> BNil).
  Proof.
    induction n as [|n IH]; intros l js acc c x L D E.
    { destruct l as [|v l]; [exists BNil; split; [constructor|congruence]|].
      change (list_sum (map vsize (v :: l))) with (vsize v + list_sum (map vsize l)) in L.
      destruct v; cbn in L; lia. }
    destruct l as [|v l]; [exists BNil; split; [constructor|congruence]|].
    change (list_sum (map vsize (v :: l))) with (vsize v + list_sum (map vsize l)) in L.
    cbn [decode_all] in D. destruct (decode ID v) as [j|] eqn:DV; [|discriminate].
    destruct (decode_all ID l) as [js'|] eqn:DL; [|discriminate]. inversion D; subst js.
    cbn [load_loop] in E. destruct (load_impl U (i0 ID) (fun _ => true) j c) as [[b1 c1]|] eqn:E1; [|discriminate].
    cbn [rbind fst snd] in E.
    assert (Hl : list_sum (map vsize l) <= n) by (destruct v; cbn in L; lia).
    destruct (IH l js' _ _ _ Hl DL E) as (b & Db & _).
    assert (LEAF : (forall l, v <> VArr l) -> exists b0, describes ID (v :: l) b0 /\ (v :: l <> [] -> b0 <> BNil)).
    { intros NA. rewrite (decode_leaf ID v NA) in DV. destruct (iread ID v) as [u|] eqn:R; [|discriminate].
      exists (BNode (user_id u) BNil b). split; [now constructor|discriminate]. }
    destruct v as [s|z|k]; try (apply LEAF; discriminate). clear LEAF.
    rewrite decode_arr in DV. destruct (decode_all ID k) as [jk|] eqn:DK; [|discriminate].
    cbn in DV. inversion DV; subst j. rewrite load_array in E1.
    destruct (load_loop U (i0 ID) (fun _ => true) jk BNil c) as [[b2 c2]|] eqn:E2; [|discriminate].
    assert (Hk : list_sum (map vsize k) <= n) by (cbn [vsize] in L; lia).
    destruct (IH k jk _ _ _ Hk DK E2) as (bk & Dk & Nk).
    assert (KN : k <> []).
    { intros ->. cbn in DK. inversion DK; subst jk. cbn in E2. inversion E2; subst. discriminate. }
    exists (BNode (user_id (i0 ID)) bk b). split; [|discriminate]. apply d_array; auto.
  Qed.
End Load.

(** ** C67 *)

(** Loading a text succeeds exactly when it is a JSON array without empty arrays, up to the first null character,
    whose strings and integers are identifiers; the result has these identifiers, in the same order, and the hierarchies
    of the arrays, up to their names and to those with a single element.  Nothing is loaded from an empty text. *)
Theorem C67_load : forall ID t c, t <> [] ->
  (forall l b, document (until_nul t) (VArr l) -> describes ID l b -> b <> BNil ->
     exists r c', load_text ID t c = Ok (Some r, c') /\ flats r = flats b
                  /\ (eqv b r \/ exists h, eqv b (BNode h r BNil))) /\
  (forall x, load_text ID t c = Ok x ->
     exists l b, document (until_nul t) (VArr l) /\ describes ID l b /\ b <> BNil).
Proof.
  intros ID t c NE. split.
  - intros l b DOC DE NB. apply describes_items in DE as [D W].
    destruct (load_order_ok (iU ID) (i0 ID) (fun _ => true) b c) as (r & c' & E & F & Q); auto.
    { induction (flats b); constructor; auto. }
    exists r, c'. split; [|auto]. unfold load_text. destruct t; [congruence|].
    apply json_read_iff in DOC. rewrite DOC, decode_arr, D. cbn [option_map]. rewrite E. reflexivity.
  - intros x E. unfold load_text in E. destruct t as [|ch t]; [congruence|].
    destruct (json_read (ch :: t)) as [v|] eqn:ER; [|discriminate].
    apply json_read_iff in ER. destruct (decode ID v) as [j|] eqn:D; [|discriminate].
    assert (X : exists l, v = VArr l) by (destruct ER as (? & ? & ? & l & _ & _ & _ & _ & ->); eauto).
    destruct X as [l ->]. rewrite decode_arr in D.
    destruct (decode_all ID l) as [js|] eqn:DL; [|discriminate]. cbn in D. inversion D; subst j.
    unfold load_order in E. rewrite load_array in E.
    destruct (load_loop (iU ID) (i0 ID) (fun _ => true) js BNil c) as [[b2 c2]|] eqn:E2; [|discriminate].
    destruct (load_describes ID _ l js BNil c _ (Nat.le_refl _) DL E2) as (b & Db & Nb).
    exists l, b. repeat split; auto. apply Nb. intros ->. cbn in DL. inversion DL; subst js.
    cbn in E2. inversion E2; subst. discriminate.
Qed.

Theorem C67_load_empty : forall ID c, load_text ID [] c = Ok (None, c).
Proof. reflexivity. Qed.

Section RoundTrip.
  Variable ID : identifiers.
  Notation U := (iU ID).
  Variable ueqb : U -> U -> bool.
  Hypothesis EQ : is_eqb ueqb.

  Lemma dump_text_ok : forall (b : builder U) o, mk_order U ueqb b = Ok o ->
    dump_text ID o = Ok ("["%char :: ritems ID true b ++ ["]"%char]).
  Proof.
    intros b o E. rewrite (order_is _ _ EQ _ _ E). unfold dump_text. cbn [o_head order_of].
    rewrite (dump_rest_ok ID _ b 0 []); [reflexivity|apply holds_whole|].
    cbn. rewrite map_length, length_layout. lia.
  Qed.

  Lemma round_trip : forall (b : builder U) o c, mk_order U ueqb b = Ok o -> b <> BNil -> well_named b ->
    Forall (good ID) (flats b) ->
    exists t r c', dump_text ID o = Ok t /\ load_text ID t c = Ok (Some r, c') /\ flats r = flats b
      /\ (eqv b r \/ exists h, eqv b (BNode h r BNil)).
  Proof.
    intros b o c E NB W G. rewrite (dump_text_ok b o E). eexists.
    destruct (good_document ID b NB G) as (v & D & DE).
    destruct (load_order_ok U (i0 ID) (fun _ => true) b c) as (r & c' & E1 & F & Q); auto.
    { clear. induction (flats b); constructor; auto. }
    exists r, c'. split; [reflexivity|]. split; [|auto]. unfold load_text.
    assert (X : json_read ("["%char :: ritems ID true b ++ ["]"%char]) = Some v).
    { apply json_read_iff. rewrite until_nul_id; [assumption|].
      destruct (good_elements ID b NB G) as (l & EL & _).
      apply (proj1 value_no_nul _ (VArr l)). now constructor. }
    rewrite X, DE, E1. reflexivity.
  Qed.

  Lemma no_round_trip : forall (b : builder U) o t c r c', mk_order U ueqb b = Ok o ->
    (forall u, In u (flats b) -> good ID u \/ bad ID u) -> ~ Forall (good ID) (flats b) ->
    dump_text ID o = Ok t -> load_text ID t c = Ok (Some r, c') -> flats r <> flats b.
  Proof.
    intros b o t c r c' E GB NG DT LT. rewrite (dump_text_ok b o E) in DT. inversion DT; subst t.
    assert (NB : b <> BNil) by (intros ->; apply NG; constructor).
    unfold load_text in LT.
    destruct (json_read _) as [v|] eqn:JR; [|discriminate].
    destruct (decode ID v) as [j|] eqn:DV; [|discriminate].
    destruct (load_order U (i0 ID) (fun _ => true) j c) as [[r1 c1]|] eqn:LO; [|discriminate].
    cbn in LT. inversion LT; subst r1 c1. apply load_order_flats in LO. rewrite LO. apply differ_neq.
    unfold json_read in JR. cbn [until_nul] in JR. change (Ascii.eqb "[" "000") with false in JR. cbv iota in JR.
    rewrite skip_head in JR by reflexivity.
    match type of JR with context [pvalue ?N ?T] => destruct (pvalue N T) as [[v' r2]|] eqn:PV; [|discriminate] end.
    assert (v' = v).
    { destruct v'; try discriminate. destruct (skip r2); inversion JR. reflexivity. }
    subst v'. cbn [pvalue] in PV. change (Ascii.eqb "[" quote) with false in PV.
    change (Ascii.eqb "[" "[") with true in PV. cbv iota in PV.
    destruct (ritems_head ID b NB GB) as (c0 & r0 & E0 & W0 & B0 & Z0).
    rewrite E0 in PV. cbn [app until_nul] in PV. rewrite Z0 in PV. rewrite skip_head in PV by assumption.
    rewrite B0 in PV.
    match type of PV with context [pelems _ (c0 :: until_nul ?T)] =>
      assert (EC : c0 :: until_nul T = until_nul (ritems ID true b ++ ["]"%char]))
        by (rewrite E0; cbn [app until_nul]; now rewrite Z0); rewrite EC in PV
    end.
    match type of PV with context [pelems ?N ?T] => destruct (pelems N T) as [[l r3]|] eqn:PE; [|discriminate] end.
    inversion PV; subst v r3. rewrite decode_arr in DV. destruct (decode_all ID l) as [js|] eqn:DL; [|discriminate].
    cbn in DV. inversion DV; subst j. cbn [jleaves].
    eapply bad_elements; eauto.
  Qed.
End RoundTrip.

(** *** Strings *)

Lemma string_good s : forallb plain s = true -> good strings s.
Proof.
  intros P. pose proof (proj1 (forallb_forall _ _) P) as P'. rewrite <- Forall_forall in P'.
  apply plain_chars in P'. exists (VStr s). split; [now constructor|]. split; [discriminate|].
  cbn. f_equal. apply until_nul_id. apply visible_no_nul. eapply chars_visible; eauto.
Qed.

Lemma string_bad s : forallb plain s = false -> bad strings s.
Proof.
  intros NP. split; [eexists _, _; repeat split|].
  intros n rest v r E. cbn [strings iprint] in E. change ((quote :: s ++ [quote]) ++ newline :: rest)
    with (quote :: (s ++ [quote]) ++ newline :: rest) in E. rewrite <- app_assoc in E. cbn [app until_nul] in E.
  change (Ascii.eqb quote "000") with false in E. cbv iota in E.
  destruct n as [|n]; [discriminate|]. cbn [pvalue] in E. rewrite Ascii.eqb_refl in E.
  match type of E with context [pstr ?T] => destruct (pstr T) as [[y r']|] eqn:P; [|discriminate] end.
  inversion E; subst v r'. split; [discriminate|]. cbn. intros X. inversion X as [Y]. clear X.
  apply (pstr_sound _ _ _ _ (Nat.le_refl _)) in P as (raw & C & T).
  pose proof (chars_length raw y C) as [L1 L2]. pose proof (until_nul_length y) as L3. rewrite Y in L3.
  destruct (no_nul_dec s) as [NN|NN].
  - rewrite until_nul_app in T by assumption. cbn [until_nul] in T.
    change (Ascii.eqb quote "000") with false in T. change (Ascii.eqb newline "000") with false in T. cbv iota in T.
    assert (exists z, raw = s ++ z /\ quote :: newline :: until_nul rest = z ++ quote :: r) as (z & -> & TZ).
    { revert T. assert (LL : List.length s <= List.length raw) by lia. clear - LL.
      revert raw LL. induction s as [|c s IH]; intros raw LL T; [exists raw; auto|].
      destruct raw as [|c' raw]; [cbn in LL; lia|]. cbn in T. inversion T; subst c'.
      destruct (IH raw) as (z & -> & TZ); [cbn in LL; lia|assumption|]. exists z. auto. }
    destruct z as [|q [|nl z]].
    + rewrite app_nil_r in *. specialize (L2 ltac:(lia)).
      rewrite (proj2 (forallb_forall plain s)) in NP; [discriminate|]. apply Forall_forall. assumption.
    + cbn in TZ. inversion TZ.
    + cbn in TZ. inversion TZ; subst q nl. apply chars_visible in C. apply Forall_app in C as [_ C].
      inversion C as [|? ? _ C2]; subst. inversion C2 as [|? ? V _]; subst. vm_compute in V. now apply V.
  - destruct (until_nul_cut s (quote :: newline :: rest) NN) as [EC LC]. rewrite EC in T.
    apply (f_equal (@List.length ascii)) in T. rewrite app_length in T. cbn in T. lia.
Qed.

(** A non-empty order of strings without quotes, backslashes and control characters is read back from its text. The full
    statement is for every order. *)
Theorem C67_strings_partial : forall ueqb (EQ : is_eqb ueqb) (b : builder text) o c,
  mk_order text ueqb b = Ok o -> b <> BNil -> well_named b ->
  Forall (fun s => forallb plain s = true) (flats b) ->
  exists t r c', dump_text strings o = Ok t /\ load_text strings t c = Ok (Some r, c') /\ flats r = flats b
    /\ (eqv b r \/ exists h, eqv b (BNode h r BNil)).
Proof.
  intros ueqb EQ b o c E NB W P. apply (round_trip strings ueqb EQ b o c E NB W).
  eapply Forall_impl; [|exact P]. intros s. apply string_good.
Qed.

(** If one of the strings has such a character, the text is never read back with the same identifiers: either it is not
    a JSON document, or the identifiers are others. *)
Theorem C67_strings_refuted : forall ueqb (EQ : is_eqb ueqb) (b : builder text) o,
  mk_order text ueqb b = Ok o -> ~ Forall (fun s => forallb plain s = true) (flats b) ->
  exists t, dump_text strings o = Ok t /\
    forall c r c', load_text strings t c = Ok (Some r, c') -> flats r <> flats b.
Proof.
  intros ueqb EQ b o E NP. eexists. split; [exact (dump_text_ok strings ueqb EQ b o E)|].
  intros c r c'. apply (no_round_trip strings ueqb EQ b o _ c r c' E).
  - intros u _. destruct (forallb plain u) eqn:P; [left; now apply string_good|right; now apply string_bad].
  - intros G. apply NP. eapply Forall_impl; [|exact G]. intros s (v & V & NA & R).
    destruct (forallb plain s) eqn:P; [reflexivity|]. exfalso. apply string_bad in P as [_ B].
    pose proof (proj1 parse_complete _ _ V (2 * List.length (iprint strings s)) [newline] (Nat.le_refl _) (nl_no_digit _)) as PC.
    rewrite <- (until_nul_id (iprint strings s ++ [newline])) in PC.
    + apply B in PC as [_ PC]. contradiction.
    + apply Forall_app. split; [apply (proj1 value_no_nul _ _ V)|repeat constructor].
  - exact (dump_text_ok strings ueqb EQ b o E).
Qed.

Definition text_eqb (a b : text) : bool := if list_eq_dec ascii_dec a b then true else false.
Lemma text_is_eqb : is_eqb text_eqb.
Proof. intros a b. unfold text_eqb. destruct (list_eq_dec ascii_dec a b); split; congruence. Qed.

(** An order of one identifier is read back as an order of two. *)
Theorem C67_injection_refuted : exists b o t r c', mk_order text text_eqb b = Ok o /\ dump_text strings o = Ok t
  /\ flats b = [lit "a"",""b"] /\ load_text strings t 0 = Ok (Some r, c') /\ flats r = [lit "a"; lit "b"].
Proof.
  exists (b_of_list [lit "a"",""b"]). eexists _, _, _, _. repeat (split; [vm_compute; reflexivity|]). vm_compute. reflexivity.
Qed.

(** A hierarchy, in text. *)
Definition ex_text : builder text :=
  BNode (user_id (lit "x")) BNil
    (BNode (user_id (lit "h")) (BNode (user_id (lit "y")) BNil (BNode (user_id (lit "z")) BNil BNil)) BNil).
Example C67_ex : exists o r c', mk_order text text_eqb ex_text = Ok o
  /\ dump_text strings o = Ok (lit ("[""x""" ++ String newline (",[""y""" ++ String newline (",""z""" ++ String newline
        ("]" ++ String newline "]")))))
  /\ load_text strings (lit " [ ""x"", [""\u0079"" ,""z""] ] ") 3 = Ok (Some r, c') /\ flats r = flats ex_text
  /\ b_length r = 2 /\ well_named ex_text /\ Forall (fun s => forallb plain s = true) (flats ex_text).
Proof.
  eexists _, _, _. repeat (split; [vm_compute; reflexivity|]). split; [repeat split; discriminate|].
  repeat constructor.
Qed.

(** *** Integers *)

Lemma number_dec z : number (dec z) z.
Proof.
  rewrite dec_sign. destruct (Z.ltb_spec z 0).
  - replace z with (- Z.of_N (Z.abs_N z))%Z at 2 by lia. constructor.
  - replace z with (Z.of_N (Z.abs_N z)) at 2 by lia. constructor.
Qed.

Lemma int_good bits signed z : wrap bits signed z = z -> is_int z = true -> good (integers bits signed) z.
Proof.
  intros W I. exists (VInt z). split; [constructor; apply number_dec|]. split; [discriminate|].
  cbn [integers iread read_int]. rewrite I. cbn. now rewrite W.
Qed.

Lemma int_bad bits signed z : is_int z = false -> bad (integers bits signed) z.
Proof.
  intros I. assert (V : value (dec z) (VInt z)) by (constructor; apply number_dec).
  pose proof (proj1 value_no_nul _ _ V) as NN.
  split.
  - destruct (value_head _ _ V) as (c & r & E & W & B). exists c, r. rewrite E in NN. inversion NN; subst. auto.
  - intros n rest v r E. cbn [integers iprint] in E. rewrite until_nul_app in E by assumption.
    cbn [until_nul] in E. change (Ascii.eqb newline "000") with false in E. cbv iota in E.
    destruct (value_is_read _ _ _ _ _ _ V (nl_no_digit _) E) as [-> _].
    split; [discriminate|]. cbn [integers iread read_int]. rewrite I. discriminate.
Qed.

(** A non-empty order of integers that are values of int is read back from its text.  [wrap bits signed z = z]: [z] is a value
    of the type of identifiers. *)
Theorem C67_integers_partial : forall bits signed ueqb (EQ : is_eqb ueqb) (b : builder Z) o c,
  mk_order Z ueqb b = Ok o -> b <> BNil -> well_named b ->
  Forall (fun z => wrap bits signed z = z /\ (- 2 ^ 31 <= z < 2 ^ 31)%Z) (flats b) ->
  exists t r c', dump_text (integers bits signed) o = Ok t /\ load_text (integers bits signed) t c = Ok (Some r, c')
    /\ flats r = flats b /\ (eqv b r \/ exists h, eqv b (BNode h r BNil)).
Proof.
  intros bits signed ueqb EQ b o c E NB W P. apply (round_trip (integers bits signed) ueqb EQ b o c E NB W).
  eapply Forall_impl; [|exact P]. intros z (Wz & L). apply int_good; auto.
  unfold is_int. apply andb_true_iff. split; [apply Z.leb_le|apply Z.ltb_lt]; lia.
Qed.

(** If one of the integers is not a value of int (identifiers of type unsigned int or long), loading the text is
    undefined behaviour, or gives other identifiers. *)
Theorem C67_integers_refuted : forall bits signed ueqb (EQ : is_eqb ueqb) (b : builder Z) o,
  mk_order Z ueqb b = Ok o -> Forall (fun z => wrap bits signed z = z) (flats b) ->
  ~ Forall (fun z => (- 2 ^ 31 <= z < 2 ^ 31)%Z) (flats b) ->
  exists t, dump_text (integers bits signed) o = Ok t /\
    forall c r c', load_text (integers bits signed) t c = Ok (Some r, c') -> flats r <> flats b.
Proof.
  intros bits signed ueqb EQ b o E WR NP. eexists. split; [exact (dump_text_ok (integers bits signed) ueqb EQ b o E)|].
  intros c r c'. apply (no_round_trip (integers bits signed) ueqb EQ b o _ c r c' E).
  - intros u HI. rewrite Forall_forall in WR. destruct (is_int u) eqn:P; [left; apply int_good; auto|right; now apply int_bad].
  - intros G. apply NP. eapply Forall_impl; [|exact G]. intros s (v & V & NA & R).
    destruct (is_int s) eqn:P.
    { unfold is_int in P. apply andb_true_iff in P as [P1 P2]. apply Z.leb_le in P1. apply Z.ltb_lt in P2. lia. }
    exfalso. apply (int_bad bits signed) in P as [_ B].
    pose proof (proj1 parse_complete _ _ V (2 * List.length (iprint (integers bits signed) s)) [newline] (Nat.le_refl _)
                  (nl_no_digit _)) as PC.
    rewrite <- (until_nul_id (iprint (integers bits signed) s ++ [newline])) in PC.
    + apply B in PC as [_ PC]. contradiction.
    + apply Forall_app. split; [apply (proj1 value_no_nul _ _ V)|repeat constructor].
  - exact (dump_text_ok (integers bits signed) ueqb EQ b o E).
Qed.

(** An order of one unsigned int: the text is read as a JSON document, but loading is undefined behaviour. *)
Example C67_unsigned : exists o t, mk_order Z Z.eqb (b_of_list [3000000000%Z]) = Ok o
  /\ wrap 32 false 3000000000 = 3000000000%Z
  /\ dump_text (integers 32 false) o = Ok t /\ json_read t = Some (VArr [VInt 3000000000])
  /\ load_text (integers 32 false) t 0 = Err EUndefined.
Proof. eexists _, _. repeat (split; [vm_compute; reflexivity|]). vm_compute. reflexivity. Qed.

Example C67_int_ex : exists o t r c', mk_order Z Z.eqb (b_of_list [-12; 7; 2147483647]%Z) = Ok o
  /\ dump_text (integers 32 true) o = Ok t /\ load_text (integers 32 true) t 0 = Ok (Some r, c')
  /\ flats r = [-12; 7; 2147483647]%Z /\ forallb (fun z => Z.eqb (wrap 32 true z) z) (flats r) = true.
Proof. eexists _, _, _, _. repeat (split; [vm_compute; reflexivity|]). vm_compute. reflexivity. Qed.

(** Integers between quotes are read as well. *)
Theorem C67_quoted : forall bits signed z, (- 2 ^ 31 <= z < 2 ^ 31)%Z ->
  value (quote :: dec z ++ [quote]) (VStr (dec z)) /\
  iread (integers bits signed) (VStr (dec z)) = iread (integers bits signed) (VInt z).
Proof.
  intros bits signed z L.
  assert (I : is_int z = true).
  { unfold is_int. apply andb_true_iff. split; [apply Z.leb_le|apply Z.ltb_lt]; lia. }
  assert (PL : Forall (fun c => plain c = true) (dec z)).
  { assert (D : forall n, Forall (fun c => plain c = true) (decN n)).
    { intros n. unfold decN. assert (X : forall d, Forall (fun c => plain c = true) (lit (DecimalString.NilEmpty.string_of_uint d))).
      { induction d; repeat constructor; exact IHd. }
      destruct (N.to_uint n); try exact (X _). repeat constructor. }
    rewrite dec_sign. destruct (z <? 0)%Z; [constructor; [reflexivity|]|]; apply D. }
  split; [apply g_str, plain_chars, PL|].
  cbn [integers iread read_int]. rewrite I. f_equal.
  rewrite until_nul_id.
  2:{ apply visible_no_nul. eapply chars_visible. apply plain_chars, PL. }
  unfold stoi. rewrite dec_sign.
  destruct (decN_digits (Z.abs_N z) [] Logic.I) as (c & r & v & E & D & _ & DI). rewrite app_nil_r in DI.
  assert (FD : fst (digits (c :: r) 0) = Z.abs_N z).
  { cbn [digits]. rewrite D. change (10 * 0 + v)%N with v. rewrite DI. reflexivity. }
  assert (HC : space c = false /\ Ascii.eqb c "-" = false /\ Ascii.eqb c "+" = false).
  { clear - D. destruct c as [[] [] [] [] [] [] [] []]; vm_compute in D; try discriminate; repeat split. }
  destruct HC as (HS & HM & HP).
  destruct (Z.ltb_spec z 0).
  - cbn [skip_space]. change (space "-") with false. cbv iota. rewrite Ascii.eqb_refl, E, D, FD.
    replace (- Z.of_N (Z.abs_N z))%Z with z by lia. now rewrite I.
  - rewrite E. cbn [skip_space]. rewrite HS, HM, HP, D, FD. replace (Z.of_N (Z.abs_N z)) with z by lia. now rewrite I.
Qed.

(** A string that is not an integer, where identifiers are integers: std::runtime_error is thrown from a function declared
    noexcept, which ends the program instead of reporting the error to the caller. *)
Theorem C67_error_refuted : forall bits signed c,
  load_text (integers bits signed) (lit "[""x""]") c = Err EUndefined
  /\ document (lit "[""x""]") (VArr [VStr (lit "x")]).
Proof.
  intros. split; [reflexivity|].
  exists [], (lit "[""x""]"), [], [VStr (lit "x")]. repeat split; try constructor.
  refine (g_arr (lit """x""") _ (e_one [] (lit """x""") [] _ (Forall_nil _) (g_str (lit "x") (lit "x") _) (Forall_nil _))).
  apply plain_chars. repeat constructor.
Qed.

(** *** Characters: integral identifiers written as they are. *)
Theorem C67_characters_refuted :
  (exists o t, mk_order ascii Ascii.eqb (b_of_list ["a"%char]) = Ok o /\ dump_text characters o = Ok t
     /\ load_text characters t 0 = Err EUndefined) /\
  (exists o t r c', mk_order ascii Ascii.eqb (b_of_list ["1"%char]) = Ok o /\ dump_text characters o = Ok t
     /\ load_text characters t 0 = Ok (Some r, c') /\ flats r = ["001"%char]).
Proof. split; [eexists _, _|eexists _, _, _, _]; repeat (split; [vm_compute; reflexivity|]); vm_compute; reflexivity. Qed.

Print Assumptions C67_load.
Print Assumptions C67_load_empty.
Print Assumptions C67_strings_partial.
Print Assumptions C67_strings_refuted.
Print Assumptions C67_injection_refuted.
Print Assumptions C67_integers_partial.
Print Assumptions C67_integers_refuted.
Print Assumptions C67_quoted.
Print Assumptions C67_error_refuted.
Print Assumptions C67_characters_refuted.
