(** * The JSON texts of orders: proofs *)

From Coq Require Import Ascii String List Bool Arith NArith ZArith Lia DecimalString DecimalN.
From Verif Require Import Base Orders OrdersProofs OrdersMore Text JsonText.
Import ListNotations.

Arguments ws : simpl never.
Arguments digit : simpl never.
Arguments escape : simpl never.
Arguments hex4 : simpl never.
Arguments plain : simpl never.
Arguments high : simpl never.
Arguments low : simpl never.
Arguments utf8 : simpl never.
Arguments N_of_ascii : simpl never.

Scheme value_ind2 := Induction for value Sort Prop
  with elements_ind2 := Induction for elements Sort Prop.
Combined Scheme value_elements_ind from value_ind2, elements_ind2.

(** ** White space *)

Lemma skip_split : forall t, exists w, t = w ++ skip t /\ blank w.
Proof.
  induction t as [|c r (w & E & B)]; [exists []; split; [reflexivity|constructor]|].
  cbn [skip]. destruct (ws c) eqn:W.
  - exists (c :: w). split; [cbn [app]; rewrite <- E; reflexivity|]. now constructor.
  - exists []. split; [reflexivity|constructor].
Qed.

Lemma skip_blank : forall w t, blank w -> skip (w ++ t) = skip t.
Proof. induction 1 as [|c w W _ IH]; [reflexivity|]. cbn. now rewrite W. Qed.

Lemma skip_head : forall c t, ws c = false -> skip (c :: t) = c :: t.
Proof. intros c t W. cbn. now rewrite W. Qed.

Lemma skip_idem : forall t, skip (skip t) = skip t.
Proof. induction t as [|c r IH]; [reflexivity|]. cbn. destruct (ws c) eqn:W; [exact IH|]. cbn. now rewrite W. Qed.

Lemma blank_skip : forall w, blank w -> skip w = [].
Proof. intros w B. rewrite <- (app_nil_r w), skip_blank; auto. Qed.

Lemma skip_nil_blank : forall t, skip t = [] -> blank t.
Proof.
  intros t E. destruct (skip_split t) as (w & E' & B). rewrite E, app_nil_r in E'. now subst.
Qed.

(** ** Strings *)

Lemma eqb_eq c d : Ascii.eqb c d = true -> c = d.
Proof. apply Ascii.eqb_eq. Qed.

Lemma plain_iff c : plain c = true <->
  (32 <= N_of_ascii c)%N /\ Ascii.eqb c quote = false /\ Ascii.eqb c backslash = false.
Proof. unfold plain. rewrite !andb_true_iff, !negb_true_iff, N.leb_le. tauto. Qed.

Lemma pstr_complete : forall raw s, chars raw s -> forall rest, pstr (raw ++ quote :: rest) = Some (s, rest).
Proof.
  induction 1 as [|c raw s P _ IH|e k raw s E _ IH|a b c d n raw s H4 HI _ IH|a b c d n a' b' c' d' n' raw s H4 HI H4' LO _ IH];
    intros rest.
  - reflexivity.
  - apply plain_iff in P as (P1 & P2 & P3). cbn [app pstr]. rewrite P3, P2.
    apply N.leb_le in P1. rewrite P1, IH. reflexivity.
  - cbn [app pstr]. rewrite Ascii.eqb_refl, E, IH. reflexivity.
  - cbn [app pstr]. rewrite Ascii.eqb_refl. change (escape "u") with (@None ascii). rewrite Ascii.eqb_refl.
    rewrite H4, HI, IH. reflexivity.
  - cbn [app pstr]. rewrite Ascii.eqb_refl. change (escape "u") with (@None ascii). rewrite !Ascii.eqb_refl.
    rewrite H4, HI. cbn [andb]. rewrite H4', LO, IH. reflexivity.
Qed.

Lemma prepend_some s x t r : prepend s x = Some (t, r) -> exists t', x = Some (t', r) /\ t = s ++ t'.
Proof. destruct x as [[t' r']|]; cbn; [|discriminate]. intros E. inversion E; subst. eauto. Qed.

Lemma pstr_sound : forall n t s rest, List.length t <= n -> pstr t = Some (s, rest) ->
  exists raw, chars raw s /\ t = raw ++ quote :: rest.
Proof.
  induction n as [|n IH]; intros t s rest L E.
  { destruct t; [discriminate|cbn in L; lia]. }
  destruct t as [|c r]; [discriminate|]. cbn [pstr] in E. cbn in L.
  destruct (Ascii.eqb c backslash) eqn:EB.
  { apply eqb_eq in EB. subst c. destruct r as [|e r]; [discriminate|]. cbn in L.
    destruct (escape e) as [k|] eqn:EE.
    { apply prepend_some in E as (t' & E & ->). apply IH in E as (raw & C & ->); [|lia].
      exists (backslash :: e :: raw). split; [now constructor|reflexivity]. }
    destruct (Ascii.eqb e "u") eqn:EU; [|discriminate]. apply eqb_eq in EU. subst e.
    destruct r as [|a [|b [|c [|d r]]]]; try discriminate. cbn in L.
    destruct (hex4 a b c d) as [m|] eqn:EH; [|discriminate].
    destruct (high m) eqn:HI.
    - destruct r as [|x [|y [|a' [|b' [|c' [|d' r]]]]]]; try discriminate. cbn in L.
      destruct (Ascii.eqb x backslash && Ascii.eqb y "u") eqn:XY; [|discriminate].
      apply andb_true_iff in XY as [X Y]. apply eqb_eq in X, Y. subst x y.
      destruct (hex4 a' b' c' d') as [m'|] eqn:EH'; [|discriminate].
      destruct (low m') eqn:LO; [|discriminate].
      apply prepend_some in E as (t' & E & ->). apply IH in E as (raw & C & ->); [|lia].
      eexists. split; [eapply ch_pair; eauto|reflexivity].
    - apply prepend_some in E as (t' & E & ->). apply IH in E as (raw & C & ->); [|lia].
      eexists. split; [eapply ch_unicode; eauto|reflexivity]. }
  destruct (Ascii.eqb c quote) eqn:EQ.
  { apply eqb_eq in EQ. subst. inversion E; subst. exists []. split; [constructor|reflexivity]. }
  destruct (N.leb_spec 32 (N_of_ascii c)) as [P|]; [|discriminate].
  apply prepend_some in E as (t' & E & ->). apply IH in E as (raw & C & ->); [|lia].
  exists (c :: raw). split; [|reflexivity]. apply ch_plain; [apply plain_iff; auto|assumption].
Qed.

(** ** Integers *)

Lemma digit_char : forall c v, digit c = Some v ->
  exists f : Decimal.uint -> Decimal.uint, (forall d, lit (NilEmpty.string_of_uint (f d)) = c :: lit (NilEmpty.string_of_uint d))
    /\ (v <> 0%N -> forall d, Decimal.unorm (f d) = f d).
Proof.
  intros [[] [] [] [] [] [] [] []] v E; vm_compute in E; try discriminate; inversion E; subst;
    first [ exists Decimal.D0; repeat split; intros; congruence
          | exists Decimal.D1; repeat split; intros; reflexivity
          | exists Decimal.D2; repeat split; intros; reflexivity
          | exists Decimal.D3; repeat split; intros; reflexivity
          | exists Decimal.D4; repeat split; intros; reflexivity
          | exists Decimal.D5; repeat split; intros; reflexivity
          | exists Decimal.D6; repeat split; intros; reflexivity
          | exists Decimal.D7; repeat split; intros; reflexivity
          | exists Decimal.D8; repeat split; intros; reflexivity
          | exists Decimal.D9; repeat split; intros; reflexivity ].
Qed.

Lemma digits_split : forall t acc n r, digits t acc = (n, r) ->
  exists d, t = lit (NilEmpty.string_of_uint d) ++ r /\ no_digit r.
Proof.
  induction t as [|c t IH]; intros acc n r E; cbn [digits] in E.
  - inversion E; subst. exists Decimal.Nil. split; [reflexivity|exact Logic.I].
  - destruct (digit c) as [v|] eqn:EC.
    + apply IH in E as (d & -> & ND). destruct (digit_char c v EC) as (f & F & _).
      exists (f d). rewrite F. auto.
    + inversion E; subst. exists Decimal.Nil. split; [reflexivity|]. exact EC.
Qed.

Lemma digits_dec : forall c v r n r', digit c = Some v -> v <> 0%N -> digits r v = (n, r') ->
  c :: r = decN n ++ r' /\ no_digit r'.
Proof.
  intros c v r n r' EC NZ E. destruct (digits_split r v n r' E) as (d & -> & ND).
  destruct (digit_char c v EC) as (f & F & NO). split; [|assumption].
  specialize (NO NZ d).
  destruct (digits_uint (f d) r' ND NO) as (c' & s & v' & A & B & _ & D).
  assert (A' : lit (NilEmpty.string_of_uint (f d)) = c' :: s).
  { rewrite <- A. destruct (f d) eqn:EF; try reflexivity. specialize (F d). rewrite EF in F. discriminate. }
  rewrite F in A'. inversion A'; subst c' s. assert (v' = v) by congruence. subst v'.
  assert (N0 : n = N.of_uint (f d)) by congruence.
  unfold decN. rewrite N0, Unsigned.to_of, NO, A. reflexivity.
Qed.

Lemma pnum_complete : forall t z, number t z -> forall rest, no_digit rest -> pnum (t ++ rest) = Some (z, rest).
Proof.
  intros t z N rest ND. destruct N as [n|n].
  - destruct (decN_digits n rest ND) as (c & r & v & A & B & C & D).
    rewrite A. unfold pnum. cbn [app].
    destruct (Ascii.eqb c "-") eqn:EM; [apply eqb_eq in EM; subst; discriminate|].
    rewrite B. destruct (N.eqb_spec v 0) as [->|NZ].
    + rewrite C in D by reflexivity. cbn in D. rewrite C by reflexivity. cbn [app].
      destruct rest as [|c' rest]; cbn in D; [|cbn in ND; rewrite ND in D]; inversion D; reflexivity.
    + rewrite D. reflexivity.
  - destruct (decN_digits n rest ND) as (c & r & v & A & B & C & D).
    rewrite A. unfold pnum. cbn [app]. rewrite Ascii.eqb_refl.
    rewrite B. destruct (N.eqb_spec v 0) as [->|NZ].
    + rewrite C in D by reflexivity. cbn in D. rewrite C by reflexivity. cbn [app].
      destruct rest as [|c' rest]; cbn in D; [|cbn in ND; rewrite ND in D]; inversion D; reflexivity.
    + rewrite D. reflexivity.
Qed.

Lemma decN_0 c : digit c = Some 0%N -> decN 0 = [c].
Proof. destruct c as [[] [] [] [] [] [] [] []]; vm_compute; try discriminate. reflexivity. Qed.

Lemma pnum_sound : forall t z rest, pnum t = Some (z, rest) -> exists u, t = u ++ rest /\ number u z.
Proof.
  intros t z rest E. unfold pnum in E.
  assert (X : forall (neg : bool) t', match t' with
    | c :: r => match digit c with
      | None => None
      | Some v => let '(n, r) := if N.eqb v 0 then (0%N, r) else digits r v in
                Some (if neg then - Z.of_N n else Z.of_N n, r)%Z
      end
    | [] => None end = Some (z, rest) ->
    exists n, t' = decN n ++ rest /\ z = if neg then (- Z.of_N n)%Z else Z.of_N n).
  { intros neg [|c r] EX; [discriminate|]. destruct (digit c) as [v|] eqn:EC; [|discriminate].
    destruct (N.eqb_spec v 0) as [->|NZ].
    - inversion EX; subst. exists 0%N. rewrite (decN_0 c EC). auto.
    - destruct (digits r v) as [n r'] eqn:ED. inversion EX; subst. exists n.
      split; [|reflexivity]. now apply digits_dec with (v := v). }
  destruct t as [|c r]; [discriminate|].
  destruct (Ascii.eqb c "-") eqn:EM.
  - apply eqb_eq in EM. subst c. apply (X true) in E as (n & -> & ->).
    exists ("-"%char :: decN n). split; [reflexivity|constructor].
  - apply (X false (c :: r)) in E as (n & -> & ->). exists (decN n). split; [reflexivity|constructor].
Qed.

(** ** Values *)

Lemma number_head : forall t z, number t z ->
  exists c r, t = c :: r /\ ws c = false /\ Ascii.eqb c "]" = false /\ Ascii.eqb c quote = false /\ Ascii.eqb c "[" = false.
Proof.
  intros t z [n|n].
  - destruct (decN_head n) as (c & r & v & E & D). exists c, r. rewrite E. split; [reflexivity|].
    clear E. destruct c as [[] [] [] [] [] [] [] []]; vm_compute in D; try discriminate; repeat split.
  - eexists _, _. repeat split.
Qed.

Lemma value_head : forall t v, value t v ->
  exists c r, t = c :: r /\ ws c = false /\ Ascii.eqb c "]" = false.
Proof.
  intros t v H. destruct H as [raw s H|t z H|w H|t l H]; try (eexists _, _; repeat split; fail).
  destruct (number_head t z H) as (c & r & E & A & B & _). eauto.
Qed.

Lemma blank_no_digit : forall w c r, blank w -> digit c = None -> no_digit (w ++ c :: r).
Proof.
  intros [|b w] c r B D; [exact D|]. inversion B as [|? ? W _]; subst. cbn.
  destruct b as [[] [] [] [] [] [] [] []]; vm_compute in W; try discriminate; reflexivity.
Qed.

Lemma pelems_skip n t : pelems n (skip t) = pelems n t.
Proof. destruct n; [reflexivity|]. cbn [pelems]. now rewrite skip_idem. Qed.

Lemma parse_complete :
  (forall u v, value u v -> forall n rest, 2 * List.length u <= n -> no_digit rest ->
     pvalue n (u ++ rest) = Some (v, rest)) /\
  (forall u l, elements u l -> forall n rest, 2 * List.length u + 1 <= n ->
     pelems n (u ++ "]"%char :: rest) = Some (l, rest)).
Proof.
  apply value_elements_ind.
  - intros raw s H n rest L ND. destruct n; [cbn in L; lia|]. cbn [app pvalue]. rewrite Ascii.eqb_refl.
    rewrite <- app_assoc. cbn [app]. now rewrite (pstr_complete _ _ H).
  - intros t z H n rest L ND. destruct (number_head t z H) as (c & r & E & A & B & C & D).
    pose proof (pnum_complete _ _ H rest ND) as P. rewrite E in *.
    destruct n; [cbn in L; lia|]. cbn [app pvalue] in *. now rewrite C, D, P.
  - intros w H n rest L ND. destruct n; [cbn in L; lia|]. cbn [app pvalue]. cbn [Ascii.eqb Bool.eqb].
    change (Ascii.eqb "[" quote) with false. cbv iota. rewrite <- app_assoc, skip_blank by assumption. reflexivity.
  - intros t l H IH n rest L ND. destruct n; [cbn in L; lia|]. cbn [app pvalue].
    change (Ascii.eqb "[" quote) with false. change (Ascii.eqb "[" "[") with true. cbv iota.
    rewrite <- app_assoc. cbn [app].
    assert (X : exists c r, skip (t ++ "]"%char :: rest) = c :: r /\ Ascii.eqb c "]" = false).
    { destruct H as [w1 t w2 v B1 V B2|w1 t w2 v r l B1 V B2 _];
        destruct (value_head t v V) as (c & r0 & -> & W & NB);
        repeat rewrite <- app_assoc; rewrite skip_blank by assumption; cbn [app];
        rewrite skip_head by assumption; eauto. }
    destruct X as (c & r & EX & NB). rewrite EX, NB, <- EX, pelems_skip.
    rewrite IH; [reflexivity|]. cbn in L. rewrite app_length in L. cbn in L. lia.
  - intros w1 t w2 v B1 V IH B2 n rest L. destruct n; [lia|]. cbn [pelems].
    destruct (value_head t v V) as (c & r0 & E & W & NB).
    repeat rewrite <- app_assoc. rewrite skip_blank by assumption. rewrite E at 1. cbn [app].
    rewrite skip_head by assumption. change (c :: r0 ++ w2 ++ "]"%char :: rest) with ((c :: r0) ++ w2 ++ "]"%char :: rest).
    rewrite <- E, IH.
    + rewrite skip_blank by assumption. reflexivity.
    + rewrite !app_length in L. lia.
    + now apply blank_no_digit.
  - intros w1 t w2 v r l B1 V IH B2 H IHe n rest L. destruct n; [lia|]. cbn [pelems].
    destruct (value_head t v V) as (c & r0 & E & W & NB).
    repeat rewrite <- app_assoc. rewrite skip_blank by assumption. rewrite E at 1. cbn [app].
    rewrite skip_head by assumption.
    change (c :: r0 ++ w2 ++ ","%char :: r ++ "]"%char :: rest) with ((c :: r0) ++ w2 ++ ","%char :: r ++ "]"%char :: rest).
    rewrite <- E. repeat rewrite app_length in L. cbn in L. rewrite IH.
    + rewrite skip_blank by assumption. cbn [skip]. change (ws ",") with false. cbv iota.
      change (Ascii.eqb "," ",") with true. cbv iota. rewrite IHe; [reflexivity|lia].
    + lia.
    + now apply blank_no_digit.
Qed.

Lemma parse_sound : forall n,
  (forall t v rest, pvalue n t = Some (v, rest) -> exists u, t = u ++ rest /\ value u v) /\
  (forall t l rest, pelems n t = Some (l, rest) -> exists u, t = u ++ "]"%char :: rest /\ elements u l).
Proof.
  induction n as [|n [IHv IHe]]; [split; discriminate|]. split.
  - intros t v rest E. cbn [pvalue] in E. destruct t as [|c r]; [discriminate|].
    destruct (Ascii.eqb c quote) eqn:EQ.
    { apply eqb_eq in EQ. subst c. destruct (pstr r) as [[s r']|] eqn:EP; [|discriminate]. inversion E; subst.
      destruct (pstr_sound _ _ _ _ (Nat.le_refl _) EP) as (raw & C & ->).
      exists (quote :: raw ++ [quote]). split; [cbn; now rewrite <- app_assoc|]. now constructor. }
    destruct (Ascii.eqb c "[") eqn:EB.
    { apply eqb_eq in EB. subst c. destruct (skip_split r) as (w & ER & B).
      destruct (skip r) as [|c' r'] eqn:ES; [discriminate|].
      destruct (Ascii.eqb c' "]") eqn:EC.
      - apply eqb_eq in EC. subst c'. inversion E; subst v rest. rewrite ER.
        exists ("["%char :: w ++ ["]"%char]). split; [cbn; now rewrite <- app_assoc|]. now constructor.
      - rewrite <- ES, pelems_skip in E. destruct (pelems n r) as [[l r2]|] eqn:EE; [|discriminate].
        inversion E; subst. apply IHe in EE as (u & -> & H).
        exists ("["%char :: u ++ ["]"%char]). split; [cbn; now rewrite <- app_assoc|]. now constructor. }
    destruct (pnum (c :: r)) as [[z r']|] eqn:EN; [|discriminate]. inversion E; subst.
    apply pnum_sound in EN as (u & EU & N). exists u. split; [assumption|]. now constructor.
  - intros t l rest E. cbn [pelems] in E. destruct (skip_split t) as (w1 & ET & B1).
    destruct (pvalue n (skip t)) as [[v r]|] eqn:EV; [|discriminate].
    apply IHv in EV as (u & EU & V). destruct (skip_split r) as (w2 & ER & B2).
    destruct (skip r) as [|c r'] eqn:ES; [discriminate|].
    destruct (Ascii.eqb c ",") eqn:EC.
    { apply eqb_eq in EC. subst c. destruct (pelems n r') as [[l' r2]|] eqn:EE; [|discriminate].
      inversion E; subst l rest. apply IHe in EE as (u' & -> & H).
      exists (w1 ++ u ++ w2 ++ ","%char :: u'). split; [|now constructor].
      rewrite ET, EU, ER. repeat (rewrite <- app_assoc; cbn [app]). reflexivity. }
    destruct (Ascii.eqb c "]") eqn:EB; [|discriminate]. apply eqb_eq in EB. subst c. inversion E; subst l rest.
    exists (w1 ++ u ++ w2). split; [|now constructor].
    rewrite ET, EU, ER. repeat (rewrite <- app_assoc; cbn [app]). reflexivity.
Qed.

(** More fuel does not change the result. *)
Lemma parse_mono : forall n,
  (forall t x, pvalue n t = Some x -> forall m, n <= m -> pvalue m t = Some x) /\
  (forall t x, pelems n t = Some x -> forall m, n <= m -> pelems m t = Some x).
Proof.
  induction n as [|n [IHv IHe]]; [split; discriminate|]. split; intros t x E m L; (destruct m as [|m]; [lia|]).
  - cbn [pvalue] in *. destruct t as [|c r]; [discriminate|].
    destruct (Ascii.eqb c quote); [exact E|]. destruct (Ascii.eqb c "["); [|exact E].
    destruct (skip r) as [|c' r']; [discriminate|]. destruct (Ascii.eqb c' "]"); [exact E|].
    destruct (pelems n (c' :: r')) as [[l r2]|] eqn:EE; [|discriminate].
    rewrite (IHe _ _ EE m ltac:(lia)). exact E.
  - cbn [pelems] in *. destruct (pvalue n (skip t)) as [[v r]|] eqn:EV; [|discriminate].
    rewrite (IHv _ _ EV m ltac:(lia)). destruct (skip r) as [|c r']; [discriminate|].
    destruct (Ascii.eqb c ","); [|exact E].
    destruct (pelems n r') as [[l r2]|] eqn:EE; [|discriminate].
    rewrite (IHe _ _ EE m ltac:(lia)). exact E.
Qed.

(** The parser accepts exactly the documents. *)
Lemma json_read_iff : forall t v, json_read t = Some v <-> document (until_nul t) v.
Proof.
  intros t v. unfold json_read, document. generalize (until_nul t). clear t. intros t. split.
  - destruct (skip_split t) as (w1 & ET & B1). set (m := S (2 * List.length (skip t))).
    destruct (pvalue m (skip t)) as [[[s|z|l] r]|] eqn:E; try discriminate.
    destruct (skip r) eqn:ER; [|discriminate]. intros X. inversion X; subst v.
    apply (proj1 (parse_sound m)) in E as (u & EU & V).
    exists w1, u, r, l. split; [congruence|]. repeat split; auto. now apply skip_nil_blank.
  - intros (w1 & u & w2 & l & -> & B1 & V & B2 & ->).
    rewrite skip_blank by assumption.
    destruct (value_head u _ V) as (c & r & E & W & _).
    assert (skip (u ++ w2) = u ++ w2) as -> by (rewrite E; now apply skip_head).
    rewrite (proj1 parse_complete u _ V).
    + rewrite blank_skip by assumption. reflexivity.
    + rewrite app_length. lia.
    + destruct w2 as [|c2 w2]; [exact Logic.I|]. inversion B2 as [|? ? W2 _]; subst. cbn.
      destruct c2 as [[] [] [] [] [] [] [] []]; vm_compute in W2; try discriminate; reflexivity.
Qed.

(** ** No null character in a document *)

Definition no_nul (t : text) : Prop := Forall (fun c => Ascii.eqb c "000" = false) t.

Lemma until_nul_app : forall a b, no_nul a -> until_nul (a ++ b) = a ++ until_nul b.
Proof. induction 1 as [|c a E _ IH]; [reflexivity|]. cbn [app until_nul]. now rewrite E, IH. Qed.

Lemma until_nul_id : forall a, no_nul a -> until_nul a = a.
Proof. intros a N. rewrite <- (app_nil_r a) at 1. rewrite until_nul_app by assumption. cbn. apply app_nil_r. Qed.

Lemma until_nul_length : forall a, List.length (until_nul a) <= List.length a.
Proof. induction a as [|c a IH]; [reflexivity|]. cbn. destruct (Ascii.eqb c "000"); cbn; lia. Qed.

Lemma until_nul_cut : forall a b, ~ no_nul a ->
  until_nul (a ++ b) = until_nul a /\ List.length (until_nul a) < List.length a.
Proof.
  induction a as [|c a IH]; intros b N; [exfalso; apply N; constructor|]. cbn [app until_nul].
  destruct (Ascii.eqb c "000") eqn:E; [split; [reflexivity|cbn; lia]|].
  destruct (IH b) as [-> L]; [|split; [reflexivity|cbn; lia]].
  intro X. apply N. now constructor.
Qed.

Lemma no_nul_dec : forall a, no_nul a \/ ~ no_nul a.
Proof.
  induction a as [|c a [IH|IH]]; [left; constructor| |].
  - destruct (Ascii.eqb c "000") eqn:E; [right|left; now constructor].
    intro X. inversion X; congruence.
  - right. intro X. inversion X; contradiction.
Qed.

Definition visible (c : ascii) : Prop := (32 <= N_of_ascii c)%N.

Lemma visible_nul c : visible c -> Ascii.eqb c "000" = false.
Proof.
  intros V. destruct (Ascii.eqb c "000") eqn:E; [|reflexivity]. apply eqb_eq in E. subst.
  exfalso. revert V. unfold visible. vm_compute. intuition.
Qed.

Lemma hex_visible c n : hex c = Some n -> visible c.
Proof.
  unfold hex, visible. intros E. destruct (N.leb_spec 48 (N_of_ascii c)); [lia|]. cbn in E.
  destruct (N.leb_spec 65 (N_of_ascii c)); [lia|]. cbn in E.
  destruct (N.leb_spec 97 (N_of_ascii c)); [lia|]. discriminate.
Qed.

Lemma hex4_visible a b c d n : hex4 a b c d = Some n -> visible a /\ visible b /\ visible c /\ visible d.
Proof.
  unfold hex4. intros E. destruct (hex a) eqn:A; [|discriminate]. destruct (hex b) eqn:B; [|discriminate].
  destruct (hex c) eqn:C; [|discriminate]. destruct (hex d) eqn:D; [|discriminate].
  repeat split; eapply hex_visible; eassumption.
Qed.

Lemma escape_visible e k : escape e = Some k -> visible e.
Proof.
  unfold escape, visible. intros E.
  repeat match type of E with
  | (if ?b then _ else _) = _ =>
      let X := fresh in destruct b eqn:X; [apply eqb_eq in X; subst e; vm_compute; discriminate|]
  end. discriminate.
Qed.

Lemma chars_visible : forall raw s, chars raw s -> Forall visible raw.
Proof.
  assert (VB : visible backslash) by (vm_compute; discriminate).
  assert (VU : visible "u") by (vm_compute; discriminate).
  induction 1 as [|c raw s P _ IH|e k raw s E _ IH|a b c d n raw s H4 HI _ IH|a b c d n a' b' c' d' n' raw s H4 HI H4' LO _ IH].
  - constructor.
  - apply plain_iff in P as (P & _). now constructor.
  - repeat constructor; eauto using escape_visible.
  - apply hex4_visible in H4 as (? & ? & ? & ?). repeat constructor; auto.
  - apply hex4_visible in H4 as (? & ? & ? & ?), H4' as (? & ? & ? & ?). repeat constructor; auto.
Qed.

Lemma digit_visible c v : digit c = Some v -> visible c.
Proof. unfold digit, visible. intros E. destruct (N.leb_spec 48 (N_of_ascii c)); [lia|discriminate]. Qed.

Lemma decN_visible n : Forall visible (decN n).
Proof.
  unfold decN. assert (X : forall d, Forall visible (lit (NilEmpty.string_of_uint d))).
  { induction d; repeat constructor; try exact IHd; vm_compute; discriminate. }
  destruct (N.to_uint n) eqn:E; try exact (X _).
  repeat constructor. vm_compute. discriminate.
Qed.

Lemma visible_no_nul t : Forall visible t -> no_nul t.
Proof. intros V. eapply Forall_impl; [|exact V]. exact visible_nul. Qed.

Lemma blank_no_nul w : blank w -> no_nul w.
Proof.
  intros B. eapply Forall_impl; [|exact B]. intros c W.
  destruct (Ascii.eqb c "000") eqn:E; [|reflexivity]. apply eqb_eq in E. subst. discriminate.
Qed.

Lemma value_no_nul : (forall u v, value u v -> no_nul u) /\ (forall u l, elements u l -> no_nul u).
Proof.
  apply value_elements_ind.
  - intros raw s H. constructor; [reflexivity|]. apply Forall_app. split.
    + apply visible_no_nul. eapply chars_visible; eauto.
    + repeat constructor.
  - intros t z [n|n]; [|constructor; [reflexivity|]]; apply visible_no_nul, decN_visible.
  - intros w B. constructor; [reflexivity|]. apply Forall_app. split; [now apply blank_no_nul|repeat constructor].
  - intros t l _ IH. constructor; [reflexivity|]. apply Forall_app. split; [assumption|repeat constructor].
  - intros w1 t w2 v B1 _ IH B2. unfold no_nul in *.
    repeat (apply Forall_app; split); auto; now apply blank_no_nul.
  - intros w1 t w2 v r l B1 _ IH B2 _ IHe. unfold no_nul in *.
    repeat (apply Forall_app; split); auto; now apply blank_no_nul.
Qed.

(** A string is not longer than what stands for it, and has the same length only if no escape sequence is used. *)
Lemma utf8_length n : List.length (utf8 n) <= 4.
Proof. unfold utf8. repeat match goal with |- context [if ?b then _ else _] => destruct b end; cbn; lia. Qed.

Lemma chars_length : forall raw s, chars raw s ->
  List.length s <= List.length raw /\ (List.length s = List.length raw -> Forall (fun c => plain c = true) raw).
Proof.
  induction 1 as [|c raw s P _ [IH1 IH2]|e k raw s E _ [IH1 IH2]|a b c d n raw s H4 HI _ [IH1 IH2]
                 |a b c d n a' b' c' d' n' raw s H4 HI H4' LO _ [IH1 IH2]];
    cbn [List.length].
  - split; [lia|constructor].
  - split; [lia|]. intros. constructor; [assumption|apply IH2; lia].
  - split; lia.
  - pose proof (utf8_length n). rewrite app_length. split; lia.
  - pose proof (utf8_length (pair_of n n')). rewrite app_length. split; lia.
Qed.

Lemma plain_chars : forall s, Forall (fun c => plain c = true) s -> chars s s.
Proof. induction 1; now constructor. Qed.

(** ** Orders *)

Section Orders.
  Variable ID : identifiers.
  Notation U := (iU ID).
  Notation nul := (@BNil U).

  (** What is between the brackets, for a builder. *)
  Fixpoint ritems (fst : bool) (b : builder U) : text :=
    match b with
    | BNil => []
    | BNode id nested next =>
      (if fst then [] else [","%char])
      ++ (match nested with BNil => iprint ID (usr id) | _ => "["%char :: ritems true nested ++ ["]"%char] end)
      ++ [newline] ++ ritems false next
    end.

  Lemma dump_rest_ok : forall fuel b p path o fst,
    holds (o_nodes o) b p path -> b_size b < fuel ->
    dump_rest ID fuel o (first b p) fst = Ok (ritems fst b).
  Proof.
    induction fuel as [|fuel IH]; intros b p path o fst H L; [lia|].
    destruct b as [|id n x]; [reflexivity|].
    cbn [dump_rest first]. unfold deref. rewrite (holds_head _ _ _ _ _ _ _ H).
    cbn [n_nested n_next n_id]. cbn [b_size] in L.
    rewrite (IH x (p + 1 + b_size n) path o false (holds_next _ _ _ _ _ _ _ H)) by lia.
    destruct n as [|id' n' x'].
    - reflexivity.
    - cbn [first].
      pose proof (IH (BNode id' n' x') (p + 1) (path ++ [p]) o true (holds_nested _ _ _ _ _ _ _ H)
                    ltac:(lia)) as E.
      cbn [first] in E. rewrite E. reflexivity.
  Qed.

  Lemma ritems_false b : b <> nul -> ritems false b = ","%char :: ritems true b.
  Proof. destruct b; [congruence|reflexivity]. Qed.

  (** The identifiers of a JSON value, in the order of the text. *)
  Fixpoint jleaves (j : json U) : list U :=
    match j with
    | JId u => [u]
    | JArray l => flat_map jleaves l
    end.

  Lemma decode_arr l : decode ID (VArr l) = option_map JArray (decode_all ID l).
  Proof. reflexivity. Qed.

  Lemma load_loop_flats : forall l ob c ob' c',
    (forall j, In j l -> forall c ob c', load_impl U (i0 ID) (fun _ => true) j c = Ok (ob, c') -> flats ob = jleaves j) ->
    load_loop U (i0 ID) (fun _ => true) l ob c = Ok (ob', c') -> flats ob' = flats ob ++ flat_map jleaves l.
  Proof.
    induction l as [|j l IH]; intros ob c ob' c' HJ E.
    - cbn in E. inversion E; subst. cbn. now rewrite app_nil_r.
    - cbn [load_loop] in E.
      destruct (load_impl U (i0 ID) (fun _ => true) j c) as [[b1 c1]|] eqn:E1; [|discriminate].
      cbn [rbind fst snd] in E. apply IH in E; [|intros; eapply HJ; [right|]; eauto].
      rewrite E, flats_concat, <- app_assoc. cbn [flat_map].
      now rewrite (HJ j (or_introl eq_refl) _ _ _ E1).
  Qed.

  Lemma flats_hier (id : oid U) (n x : builder U) : n <> nul -> flats (BNode id n x) = flats n ++ flats x.
  Proof. destruct n; [congruence|reflexivity]. Qed.

  Fixpoint jsize (j : json U) : nat :=
    match j with JId _ => 1 | JArray l => S (list_sum (map jsize l)) end.

  Lemma in_jsize j l : In j l -> jsize j <= list_sum (map jsize l).
  Proof. induction l as [|k l IH]; [contradiction|]. change (list_sum (map jsize (k :: l))) with (jsize k + list_sum (map jsize l)).
    intros [->|H]; [lia|]. apply IH in H. lia. Qed.

  Lemma load_flats : forall n j c ob c', jsize j <= n ->
    load_impl U (i0 ID) (fun _ => true) j c = Ok (ob, c') -> flats ob = jleaves j /\ ob <> nul.
  Proof.
    induction n as [|n IH]; intros j c ob c' L E; [destruct j; cbn in L; lia|].
    destruct j as [u|l].
    - cbn in E. inversion E; subst. split; [reflexivity|discriminate].
    - rewrite load_array in E.
      destruct (load_loop U (i0 ID) (fun _ => true) l nul c) as [[b1 c1]|] eqn:E1; [|discriminate].
      cbn [rbind] in E. apply load_loop_flats in E1.
      2:{ intros j H c2 b2 c3 E2. eapply (IH j); [|exact E2]. pose proof (in_jsize j l H). cbn in L. lia. }
      cbn [flats app] in E1. destruct b1 as [|id n1 x1]; [discriminate|].
      cbn [b_height] in E. destruct (Nat.eqb (S (b_length x1)) 1).
      + inversion E; subst. split; [exact E1|discriminate].
      + cbn in E. inversion E; subst. split; [|discriminate].
        unfold b_single. rewrite flats_hier by discriminate. cbn [flats jleaves].
        rewrite app_nil_r. exact E1.
  Qed.

  Lemma load_order_flats : forall j c r c',
    load_order U (i0 ID) (fun _ => true) j c = Ok (r, c') -> flats r = jleaves j.
  Proof.
    intros j c r c' E. unfold load_order in E.
    destruct (load_impl U (i0 ID) (fun _ => true) j c) as [[ob c1]|] eqn:E1; [|discriminate].
    apply (load_flats (jsize j) j _ _ _ (Nat.le_refl _)) in E1 as [F NN]. cbn [rbind] in E.
    destruct ob as [|id n x]; [discriminate|]. cbn [b_height] in E.
    destruct (Nat.eqb_spec (S (b_length x)) 1) as [EX|NX]; cbn [andb] in E.
    - destruct x; [|discriminate]. destruct n as [|i2 n2 x2]; cbn [b_empty negb] in E; inversion E; subst; [exact F|].
      rewrite flats_hier in F by discriminate. cbn [flats] in F. rewrite app_nil_r in F. exact F.
    - inversion E; subst. exact F.
  Qed.

  (** Identifiers that are read back, and those that are not. *)
  Definition good (u : U) : Prop :=
    exists v, value (iprint ID u) v /\ (forall l, v <> VArr l) /\ iread ID v = Some u.
  Definition bad (u : U) : Prop :=
    (exists c r, iprint ID u = c :: r /\ ws c = false /\ Ascii.eqb c "]" = false /\ Ascii.eqb c "000" = false) /\
    forall n rest v r, pvalue n (until_nul (iprint ID u ++ newline :: rest)) = Some (v, r) ->
      (forall l, v <> VArr l) /\ iread ID v <> Some u.

  Lemma decode_leaf v : (forall l, v <> VArr l) -> decode ID v = option_map JId (iread ID v).
  Proof. destruct v; try reflexivity. intros H. now destruct (H l). Qed.

  Lemma good_item : forall id (n : builder U),
    (n <> nul -> exists l, elements (ritems true n) l /\ decode_all ID l = Some (jitems n)) ->
    (n = nul -> good (usr id)) ->
    exists v, value (match n with BNil => iprint ID (usr id) | _ => "["%char :: ritems true n ++ ["]"%char] end) v
      /\ decode ID v = Some (match n with BNil => JId (usr id) | _ => JArray (jitems n) end).
  Proof.
    intros id n IHn G. destruct n as [|i2 n2 x2] eqn:EN.
    - destruct (G eq_refl) as (v & V & NA & R). exists v. split; [assumption|].
      rewrite decode_leaf by assumption. now rewrite R.
    - rewrite <- EN in *. destruct IHn as (l & E & D); [rewrite EN; discriminate|].
      exists (VArr l). split; [now constructor|]. now rewrite decode_arr, D.
  Qed.

  Lemma good_elements : forall b, b <> nul -> Forall good (flats b) ->
    exists l, elements (ritems true b) l /\ decode_all ID l = Some (jitems b).
  Proof.
    induction b as [|id n IHn x IHx]; intros NN G; [congruence|].
    assert (BN : blank [newline]) by (repeat constructor).
    assert (G' : (n <> nul -> Forall good (flats n)) /\ (n = nul -> good (usr id)) /\ Forall good (flats x)).
    { destruct n as [|i2 n2 x2] eqn:EN.
      - cbn [flats] in G. inversion G; subst. split; [congruence|auto].
      - rewrite <- EN in *. rewrite flats_hier in G by (rewrite EN; discriminate).
        apply Forall_app in G as [G1 G2]. split; [auto|]. split; [|auto]. rewrite EN. discriminate. }
    destruct G' as (Gn & Gi & Gx).
    destruct (good_item id n) as (v & V & D); auto.
    cbn [ritems jitems app]. destruct x as [|i2 n2 x2] eqn:EX.
    - exists [v]. split; [|cbn [decode_all]; rewrite D; reflexivity].
      exact (e_one [] _ [newline] v (Forall_nil _) V BN).
    - rewrite <- EX in *. assert (NX : x <> nul) by (rewrite EX; discriminate).
      destruct (IHx NX Gx) as (l & E & DL).
      exists (v :: l). split; [|cbn [decode_all]; now rewrite D, DL].
      rewrite (ritems_false x NX).
      exact (e_more [] _ [newline] v _ l (Forall_nil _) V BN E).
  Qed.

  Lemma good_document : forall b, b <> nul -> Forall good (flats b) ->
    exists v, document ("["%char :: ritems true b ++ ["]"%char]) v /\ decode ID v = Some (JArray (jitems b)).
  Proof.
    intros b NN G. destruct (good_elements b NN G) as (l & E & D).
    exists (VArr l). split; [|now rewrite decode_arr, D].
    exists [], ("["%char :: ritems true b ++ ["]"%char]), [], l.
    rewrite app_nil_r. repeat split; try constructor. assumption.
  Qed.

  Lemma ritems_head : forall b, b <> nul -> (forall u, In u (flats b) -> good u \/ bad u) ->
    exists c r, ritems true b = c :: r /\ ws c = false /\ Ascii.eqb c "]" = false /\ Ascii.eqb c "000" = false.
  Proof.
    intros [|id n x] NN GB; [congruence|]. cbn [ritems app].
    destruct n as [|i2 n2 x2].
    - assert (In (usr id) (flats (BNode id BNil x))) as I0 by (left; reflexivity).
      destruct (GB _ I0) as [(v & V & _)|((c & r & E & W & NB & NZ) & _)].
      + destruct (value_head _ _ V) as (c & r & E & W & NB).
        pose proof (proj1 value_no_nul _ _ V) as NZ. rewrite E in NZ.
        exists c. rewrite E. eexists. repeat split; auto. now inversion NZ.
      + exists c. rewrite E. eexists. repeat split; auto.
    - eexists _, _. repeat split.
  Qed.

  (** The first identifier of [l'] that is not in [l]. *)
  Definition differ (l l' : list U) : Prop :=
    exists pre y post x suf, l = pre ++ y :: post /\ l' = pre ++ x :: suf /\ x <> y.

  Lemma differ_app_l a l l' : differ l l' -> differ (a ++ l) (a ++ l').
  Proof.
    intros (pre & y & post & x & suf & -> & -> & N). exists (a ++ pre), y, post, x, suf.
    rewrite !app_assoc. auto.
  Qed.
  Lemma differ_app_r l l' a b : differ l l' -> differ (l ++ a) (l' ++ b).
  Proof.
    intros (pre & y & post & x & suf & -> & -> & N). exists pre, y, (post ++ a), x, (suf ++ b).
    rewrite <- !app_assoc. cbn. auto.
  Qed.
  Lemma differ_neq l l' : differ l l' -> l <> l'.
  Proof.
    intros (pre & y & post & x & suf & -> & -> & N) E. apply app_inv_head in E. congruence.
  Qed.

  Lemma flat_map_jitems : forall b : builder U, flat_map jleaves (jitems b) = flats b.
  Proof.
    induction b as [|id n IHn x IHx]; [reflexivity|]. cbn [jitems flat_map]. rewrite IHx.
    destruct n as [|i2 n2 x2] eqn:EN; [reflexivity|]. rewrite <- EN in *.
    rewrite flats_hier by (rewrite EN; discriminate). cbn [jleaves]. now rewrite IHn.
  Qed.

  Lemma nl_no_digit r : no_digit (newline :: r).
  Proof. reflexivity. Qed.

  Lemma value_is_read : forall u v n rest v' r, value u v -> no_digit rest ->
    pvalue n (u ++ rest) = Some (v', r) -> v' = v /\ r = rest.
  Proof.
    intros u v n rest v' r V ND E.
    pose proof (proj1 parse_complete u v V (n + 2 * List.length u) rest ltac:(lia) ND) as E1.
    pose proof (proj1 (parse_mono n) _ _ E (n + 2 * List.length u) ltac:(lia)) as E2.
    rewrite E1 in E2. inversion E2. auto.
  Qed.

  Lemma bad_elements : forall b, b <> nul -> (forall u, In u (flats b) -> good u \/ bad u) ->
    ~ Forall good (flats b) ->
    forall n rest l r js, pelems n (until_nul (ritems true b ++ rest)) = Some (l, r) ->
      decode_all ID l = Some js -> differ (flat_map jleaves js) (flats b).
  Proof.
    induction b as [|id m IHm x IHx]; intros NN GB NG n rest l r js E D; [congruence|].
    assert (BN : blank [newline]) by (repeat constructor).
    destruct n as [|n]; [discriminate|]. cbn [pelems] in E.
    destruct (ritems_head _ NN GB) as (c0 & r0 & E0 & W0 & _ & Z0).
    assert (ES : skip (until_nul (ritems true (BNode id m x) ++ rest)) = until_nul (ritems true (BNode id m x) ++ rest)).
    { rewrite E0. cbn [app until_nul]. rewrite Z0. now apply skip_head. }
    rewrite ES in E. clear ES E0 W0 Z0 c0 r0.
    destruct (pvalue n _) as [[v t']|] eqn:EV; [|discriminate].
    assert (HL : exists l1, l = v :: l1 /\ (l1 = [] \/ exists t2, skip t' = ","%char :: t2 /\ exists r2, pelems n t2 = Some (l1, r2))).
    { destruct (skip t') as [|c t2]; [discriminate|]. destruct (Ascii.eqb c ",") eqn:EC.
      - apply eqb_eq in EC. subst c. destruct (pelems n t2) as [[l1 r2]|] eqn:E1; [|discriminate].
        inversion E; subst. exists l1. split; [reflexivity|]. right. eauto.
      - destruct (Ascii.eqb c "]"); [|discriminate]. inversion E; subst. exists []. auto. }
    destruct HL as (l1 & -> & HL). cbn [decode_all] in D.
    destruct (decode ID v) as [j|] eqn:DV; [|discriminate].
    destruct (decode_all ID l1) as [js1|] eqn:DL; [|discriminate]. inversion D; subst js. cbn [flat_map].
    (* the identifiers of the rest *)
    assert (GX : forall u, In u (flats x) -> good u \/ bad u).
    { intros u H. apply GB. destruct m; [right; assumption|]. rewrite flats_hier by discriminate.
      apply in_or_app. auto. }
    assert (REST : t' = newline :: until_nul (ritems false x ++ rest) -> ~ Forall good (flats x) ->
                   differ (flat_map jleaves js1) (flats x)).
    { intros Et NGx. assert (NX : x <> nul) by (intros ->; apply NGx; constructor).
      rewrite Et, (ritems_false x NX) in HL. cbn [app until_nul] in HL. change (Ascii.eqb "," "000") with false in HL.
      cbv iota in HL. change (newline :: ","%char :: until_nul (ritems true x ++ rest)) with
        ([newline] ++ ","%char :: until_nul (ritems true x ++ rest)) in HL.
      rewrite skip_blank in HL by assumption. rewrite skip_head in HL by reflexivity.
      destruct HL as [->|(t2 & Eq & r2 & E2)].
      - (* nothing more is read: impossible, but the list is shorter *)
        exfalso. rewrite Et, (ritems_false x NX) in E. cbn [app until_nul] in E.
        change (Ascii.eqb "," "000") with false in E. cbv iota in E.
        change (newline :: ","%char :: until_nul (ritems true x ++ rest)) with
          ([newline] ++ ","%char :: until_nul (ritems true x ++ rest)) in E.
        rewrite skip_blank in E by assumption. rewrite skip_head in E by reflexivity.
        change (Ascii.eqb "," ",") with true in E. cbv iota in E.
        destruct (pelems n (until_nul (ritems true x ++ rest))) as [[l2 r2]|] eqn:E2; [|discriminate].
        inversion E; subst. destruct n; [discriminate|]. cbn [pelems] in E2.
        destruct (pvalue n _) as [[? t3]|]; [|discriminate]. destruct (skip t3) as [|c ?]; [discriminate|].
        destruct (Ascii.eqb c ","); [destruct (pelems n _) as [[? ?]|]; discriminate|].
        destruct (Ascii.eqb c "]"); discriminate.
      - inversion Eq; subst t2. eapply IHx; eauto. }
    cbn [ritems app] in EV. destruct m as [|i2 n2 x2] eqn:EM.
    - assert (I0 : In (usr id) (flats (BNode id nul x))) by (left; reflexivity).
      change (flats (BNode id nul x)) with (usr id :: flats x) in *.
      rewrite <- app_assoc in EV. cbn [app] in EV.
      destruct (GB _ I0) as [Gu|[_ Bu]].
      + destruct Gu as (w & V & NA & R).
        rewrite until_nul_app in EV by (eapply (proj1 value_no_nul); eauto).
        cbn [until_nul] in EV. change (Ascii.eqb newline "000") with false in EV. cbv iota in EV.
        destruct (value_is_read _ _ _ _ _ _ V (nl_no_digit _) EV) as [-> Et].
        rewrite decode_leaf, R in DV by assumption. cbn in DV. inversion DV; subst j. cbn [jleaves app].
        apply (differ_app_l [usr id]). apply REST; [assumption|].
        intro X. apply NG. constructor; [|assumption]. exists w. auto.
      + destruct (Bu _ _ _ _ EV) as [NA NR]. rewrite decode_leaf in DV by assumption.
        destruct (iread ID v) as [y|] eqn:RY; [|discriminate]. cbn in DV. inversion DV; subst j.
        exists [], y, (flat_map jleaves js1), (usr id), (flats x). repeat split. congruence.
    - rewrite <- EM in *. assert (NM : m <> nul) by (rewrite EM; discriminate).
      rewrite flats_hier in * by assumption.
      assert (EV' : pvalue n (until_nul (("["%char :: ritems true m ++ ["]"%char]) ++ newline :: ritems false x ++ rest)) = Some (v, t')).
      { rewrite <- EV. f_equal. f_equal. rewrite EM. cbn [app]. repeat (rewrite <- app_assoc; cbn [app]). reflexivity. }
      clear EV.
      assert (DG : Forall good (flats m) \/ ~ Forall good (flats m)).
      { assert (GM : forall u, In u (flats m) -> good u \/ bad u).
        { intros u H. apply GB. apply in_or_app. auto. }
        assert (EXB : forall u, bad u -> good u -> False).
        { intros u [_ B] (w & V & NA & R).
          pose proof (proj1 parse_complete _ _ V (2 * List.length (iprint ID u)) [newline] (Nat.le_refl _) (nl_no_digit _)) as P.
          assert (until_nul (iprint ID u ++ [newline]) = iprint ID u ++ [newline]) as EQ.
          { rewrite until_nul_app by (eapply (proj1 value_no_nul); eauto). reflexivity. }
          rewrite <- EQ in P. apply B in P as [_ P]. contradiction. }
        clear - GM EXB. induction (flats m) as [|u l IH]; [left; constructor|].
        destruct (GM u (or_introl eq_refl)) as [G|B].
        - destruct IH as [A|A]; [intros; apply GM; right; assumption|left; now constructor|].
          right. intro X. inversion X; contradiction.
        - right. intro X. inversion X; subst. eauto. }
      destruct DG as [GM|NGM].
      + destruct (good_elements m NM GM) as (lm & EL & DM).
        assert (V : value ("["%char :: ritems true m ++ ["]"%char]) (VArr lm)) by (now constructor).
        rewrite until_nul_app in EV' by (eapply (proj1 value_no_nul); eauto).
        cbn [until_nul] in EV'. change (Ascii.eqb newline "000") with false in EV'. cbv iota in EV'.
        destruct (value_is_read _ _ _ _ _ _ V (nl_no_digit _) EV') as [-> Et].
        rewrite decode_arr, DM in DV. cbn in DV. inversion DV; subst j. cbn [jleaves].
        rewrite flat_map_jitems. apply differ_app_l. apply REST; [assumption|].
        intro X. apply NG. apply Forall_app. auto.
      + assert (GM : forall u, In u (flats m) -> good u \/ bad u).
        { intros u H. apply GB. apply in_or_app. auto. }
        destruct n as [|n]; [discriminate|]. cbn [app until_nul] in EV'.
        change (Ascii.eqb "[" "000") with false in EV'. cbv iota in EV'. cbn [pvalue] in EV'.
        change (Ascii.eqb "[" quote) with false in EV'. change (Ascii.eqb "[" "[") with true in EV'. cbv iota in EV'.
        repeat (rewrite <- app_assoc in EV'; cbn [app] in EV').
        destruct (ritems_head m NM GM) as (c0 & r0 & E0 & W0 & B0 & Z0).
        rewrite E0 in EV'. cbn [app until_nul] in EV'. rewrite Z0 in EV'. rewrite skip_head in EV' by assumption.
        rewrite B0 in EV'.
        match type of EV' with context [pelems n (c0 :: until_nul ?T)] =>
          assert (EC : c0 :: until_nul T = until_nul (ritems true m ++ "]"%char :: newline :: ritems false x ++ rest))
            by (rewrite E0; cbn [app until_nul]; now rewrite Z0); rewrite EC in EV'
        end.
        destruct (pelems n _) as [[lm r2]|] eqn:EL; [|discriminate]. inversion EV'; subst v t'.
        rewrite decode_arr in DV. destruct (decode_all ID lm) as [jm|] eqn:DM; [|discriminate].
        cbn in DV. inversion DV; subst j. cbn [jleaves]. apply differ_app_r.
        eapply IHm; eauto.
  Qed.
End Orders.
