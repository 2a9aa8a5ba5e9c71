(** * C67, continued: the escape sequences of strings, and the integers between quotes, as they are read *)

From Coq Require Import Ascii String List Bool Arith NArith ZArith Lia.
From Verif Require Import Base Text JsonText JsonTextProofs.
Import ListNotations.

(** ** Specification: UTF-8 and UTF-16 *)

(** The code points a text may have. *)
Definition scalar (n : N) : Prop := (n < 0xD800 \/ 0xE000 <= n < 0x110000)%N.

(** A text in UTF-8, in shortest form, and its code points. *)
Definition byte (c : ascii) (prefix width x : N) : Prop := N_of_ascii c = (prefix + x)%N /\ (x < width)%N.
Inductive points : text -> list N -> Prop :=
| p_nil : points [] []
| p_1 a x t l : byte a 0 128 x -> points t l -> points (a :: t) (x :: l)
| p_2 a b x y t l : byte a 192 32 x -> byte b 128 64 y ->
    (128 <= x * 64 + y)%N -> points t l -> points (a :: b :: t) (x * 64 + y :: l)%N
| p_3 a b c x y z t l : byte a 224 16 x -> byte b 128 64 y -> byte c 128 64 z ->
    (2048 <= x * 4096 + y * 64 + z)%N -> points t l -> points (a :: b :: c :: t) (x * 4096 + y * 64 + z :: l)%N
| p_4 a b c d x y z w t l : byte a 240 8 x -> byte b 128 64 y -> byte c 128 64 z -> byte d 128 64 w ->
    (65536 <= x * 262144 + y * 4096 + z * 64 + w)%N -> points t l ->
    points (a :: b :: c :: d :: t) (x * 262144 + y * 4096 + z * 64 + w :: l)%N.

(** A hexadecimal digit, and \uXXXX for a unit of 16 bits. *)
Definition is_hex (c : ascii) (k : N) : Prop :=
  exists i, k = N.of_nat i /\ (String.get i "0123456789abcdef" = Some c \/ String.get i "0123456789ABCDEF" = Some c).
Definition unit16 (t : text) (n : N) : Prop :=
  exists a b c d x y z w, t = lit "\u" ++ [a; b; c; d] /\ is_hex a x /\ is_hex b y /\ is_hex c z /\ is_hex d w
    /\ n = (x * 16 ^ 3 + y * 16 ^ 2 + z * 16 + w)%N.

(** The spellings of a code point: a unit, or a pair of surrogates. *)
Definition spelling (t : text) (n : N) : Prop :=
  unit16 t n \/
  exists u v h k, t = u ++ v /\ unit16 u (0xD800 + h) /\ unit16 v (0xDC00 + k)
    /\ (h < 1024 /\ k < 1024 /\ n = 0x10000 + h * 1024 + k)%N.

(** ** Proofs *)

Lemma is_hex_hex c k : is_hex c k -> hex c = Some k /\ (k < 16)%N.
Proof.
  intros (i & -> & H).
  do 16 (destruct i as [|i]; [destruct H as [H|H]; vm_compute in H; inversion H; subst; split; reflexivity|]).
  exfalso. destruct H as [H|H]; cbn in H; discriminate.
Qed.

Lemma hex_is_hex c k : hex c = Some k -> is_hex c k.
Proof.
  intros E. exists (N.to_nat k).
  destruct c as [[] [] [] [] [] [] [] []]; vm_compute in E; try discriminate; inversion E; subst; split; auto.
Qed.

Lemma unit16_hex4 t n : unit16 t n ->
  exists a b c d, t = backslash :: "u"%char :: [a; b; c; d] /\ hex4 a b c d = Some n /\ (n < 65536)%N.
Proof.
  intros (a & b & c & d & x & y & z & w & -> & A & B & C & D & ->).
  apply is_hex_hex in A as [A LA]. apply is_hex_hex in B as [B LB].
  apply is_hex_hex in C as [C LC]. apply is_hex_hex in D as [D LD].
  exists a, b, c, d. split; [reflexivity|]. unfold hex4. rewrite A, B, C, D.
  change (16 ^ 3)%N with 4096%N. change (16 ^ 2)%N with 256%N. split; [f_equal|]; lia.
Qed.

Lemma byte_of prefix width x : (x < width)%N -> (prefix + width <= 256)%N -> byte (ascii_of_N (prefix + x)) prefix width x.
Proof. intros L P. split; [|assumption]. apply N_ascii_embedding. lia. Qed.

Lemma utf8_points n t l : (n < 0x110000)%N -> points t l -> points (utf8 n ++ t) (n :: l).
Proof.
  intros L P. unfold utf8.
  assert (M : forall k, (k mod 64 < 64)%N) by (intros; apply N.mod_lt; discriminate).
  assert (D1 : (n = 64 * (n / 64) + n mod 64)%N) by (apply N.div_mod; discriminate).
  assert (D2 : (n / 64 = 64 * (n / 4096) + (n / 64) mod 64)%N).
  { change 4096%N with (64 * 64)%N. rewrite <- N.div_div by discriminate. apply N.div_mod; discriminate. }
  assert (D3 : (n / 4096 = 64 * (n / 262144) + (n / 4096) mod 64)%N).
  { change 262144%N with (4096 * 64)%N. rewrite <- N.div_div by discriminate. apply N.div_mod; discriminate. }
  pose proof (M n) as M1. pose proof (M (n / 64)%N) as M2. pose proof (M (n / 4096)%N) as M3.
  clear M. rewrite N.div_1_r. revert D1 D2 D3 M1 M2 M3.
  generalize (n mod 64)%N, (n / 64)%N, ((n / 64) mod 64)%N, (n / 4096)%N, ((n / 4096) mod 64)%N, (n / 262144)%N.
  intros r1 q1 r2 q2 r3 q3 D1 D2 D3 M1 M2 M3.
  destruct (N.ltb_spec n 128); [cbn [app]|destruct (N.ltb_spec n 2048); [cbn [app]|destruct (N.ltb_spec n 65536); cbn [app]]].
  - apply p_1; [|assumption]. apply (byte_of 0 128 n); lia.
  - replace (n :: l) with (q1 * 64 + r1 :: l)%N by (f_equal; lia).
    apply p_2; [apply byte_of; lia|apply byte_of; lia|lia|assumption].
  - replace (n :: l) with (q2 * 4096 + r2 * 64 + r1 :: l)%N by (f_equal; lia).
    apply p_3; [apply byte_of; lia|apply byte_of; lia|apply byte_of; lia|lia|assumption].
  - replace (n :: l) with (q3 * 262144 + r3 * 4096 + r2 * 64 + r1 :: l)%N
      by (f_equal; lia).
    apply p_4; [apply byte_of; lia|apply byte_of; lia|apply byte_of; lia|apply byte_of; lia|lia|assumption].
Qed.

Lemma high_iff n : high n = true <-> (0xD800 <= n < 0xDC00)%N.
Proof. unfold high. rewrite andb_true_iff, N.leb_le, N.leb_le. lia. Qed.
Lemma low_iff n : low n = true <-> (0xDC00 <= n < 0xE000)%N.
Proof. unfold low. rewrite andb_true_iff, N.leb_le, N.leb_le. lia. Qed.

(** ** C67 *)

(** Every code point has a spelling... *)
Lemma has_unit n : (n < 65536)%N -> exists t, unit16 t n.
Proof.
  assert (X : forall k, (k < 16)%N -> exists c, is_hex c k).
  { intros k L. assert (H : exists i, i < 16 /\ k = N.of_nat i) by (exists (N.to_nat k); lia).
    destruct H as (i & Li & ->).
    do 16 (destruct i as [|i]; [eexists; eexists; split; [reflexivity|left; reflexivity]|]). lia. }
  intros L.
  assert (M : forall k, (k mod 16 < 16)%N) by (intros; apply N.mod_lt; discriminate).
  assert (D1 : (n = 16 * (n / 16) + n mod 16)%N) by (apply N.div_mod; discriminate).
  assert (D2 : (n / 16 = 16 * (n / 16 / 16) + (n / 16) mod 16)%N) by (apply N.div_mod; discriminate).
  assert (D3 : (n / 16 / 16 = 16 * (n / 16 / 16 / 16) + (n / 16 / 16) mod 16)%N) by (apply N.div_mod; discriminate).
  pose proof (M n) as M1. pose proof (M (n / 16)%N) as M2. pose proof (M (n / 16 / 16)%N) as M3.
  clear M. revert D1 D2 D3 M1 M2 M3.
  generalize (n mod 16)%N, (n / 16)%N, ((n / 16) mod 16)%N, (n / 16 / 16)%N, ((n / 16 / 16) mod 16)%N, (n / 16 / 16 / 16)%N.
  intros r1 q1 r2 q2 r3 q3 D1 D2 D3 M1 M2 M3.
  destruct (X q3) as [a A]; [lia|]. destruct (X r3 M3) as [b B].
  destruct (X r2 M2) as [c C]. destruct (X r1 M1) as [d D].
  exists (lit "\u" ++ [a; b; c; d]). exists a, b, c, d. do 4 eexists. split; [reflexivity|].
  split; [exact A|]. split; [exact B|]. split; [exact C|]. split; [exact D|].
  change (16 ^ 3)%N with 4096%N. change (16 ^ 2)%N with 256%N. lia.
Qed.

Theorem C67_spelled : forall n, scalar n -> exists t, spelling t n.
Proof.
  intros n [L|[L1 L2]].
  - destruct (has_unit n) as [t U]; [lia|]. exists t. now left.
  - destruct (N.ltb_spec n 65536) as [L|G].
    + destruct (has_unit n L) as [t U]. exists t. now left.
    + set (h := ((n - 65536) / 1024)%N). set (k := ((n - 65536) mod 1024)%N).
      assert (K : (k < 1024)%N) by (apply N.mod_lt; discriminate).
      assert (E : (n - 65536 = 1024 * h + k)%N) by (apply N.div_mod; discriminate).
      clearbody h k. destruct (has_unit (0xD800 + h)) as [u U]; [lia|]. destruct (has_unit (0xDC00 + k)) as [v V]; [lia|].
      exists (u ++ v). right. exists u, v, h, k. repeat split; auto; lia.
Qed.

(** ...and the string between the quotes of a document whose characters are all spelled this way has, in UTF-8, exactly
    their code points. *)
Theorem C67_unicode : forall ts ns, Forall2 spelling ts ns -> Forall scalar ns ->
  exists s, chars (List.concat ts) s /\ points s ns /\ pstr (List.concat ts ++ [quote]) = Some (s, []).
Proof.
  intros ts ns F SC.
  assert (X : exists s, chars (List.concat ts) s /\ points s ns).
  { induction F as [|t n ts ns SP F IH]; [exists []; split; constructor|].
    inversion SC as [|? ? Sn Sns]; subst. destruct (IH Sns) as (s & C & P). cbn [List.concat].
    destruct SP as [U|(u & v & h & k & -> & U & V & Lh & Lk & ->)].
    - apply unit16_hex4 in U as (a & b & c & d & -> & E & L). exists (utf8 n ++ s).
      split; [|apply utf8_points; [unfold scalar in Sn; lia|assumption]]. cbn [app].
      apply ch_unicode; auto. destruct (high n) eqn:H; [|reflexivity]. apply high_iff in H. unfold scalar in Sn. lia.
    - apply unit16_hex4 in U as (a & b & c & d & -> & E & _).
      apply unit16_hex4 in V as (a' & b' & c' & d' & -> & E' & _).
      exists (utf8 (65536 + h * 1024 + k) ++ s).
      split; [|apply utf8_points; [unfold scalar in Sn; lia|assumption]]. cbn [app].
      replace (65536 + h * 1024 + k)%N with (pair_of (55296 + h) (56320 + k)) by (unfold pair_of; lia).
      apply ch_pair; auto; [apply high_iff|apply low_iff]; lia. }
  destruct X as (s & C & P). exists s. split; [assumption|]. split; [assumption|].
  exact (pstr_complete _ _ C []).
Qed.

(** The first half of a pair is refused without the second one. *)
Theorem C67_surrogates : forall t h u n rest, unit16 t (0xD800 + h) -> (h < 1024)%N ->
  (unit16 u n /\ ~ (0xDC00 <= n < 0xE000)%N \/ (exists c, u = [c] /\ c <> "\"%char)) ->
  pstr (t ++ u ++ rest) = None.
Proof.
  intros t h u n rest T L U. apply unit16_hex4 in T as (a & b & c & d & -> & E & _). cbn [app pstr].
  rewrite Ascii.eqb_refl. change (escape "u") with (@None ascii). rewrite Ascii.eqb_refl, E.
  rewrite (proj2 (high_iff _)) by lia.
  destruct U as [[U NL]|(x & -> & NB)].
  - apply unit16_hex4 in U as (a' & b' & c' & d' & -> & E' & _). cbn [app]. rewrite !Ascii.eqb_refl, E'. cbn [andb].
    destruct (low n) eqn:LO; [|reflexivity]. apply low_iff in LO. contradiction.
  - cbn [app]. destruct rest as [|y [|a' [|b' [|c' [|d' rest]]]]]; try reflexivity.
    destruct (Ascii.eqb x backslash) eqn:EB; [|reflexivity]. apply eqb_eq in EB. contradiction.
Qed.

(** *** Integers between quotes *)

(** The value of a sequence of decimal digits. *)
Definition decimal (t : text) (n : N) : Prop :=
  t <> [] /\ Forall (fun c => In c (list_ascii_of_string "0123456789")) t
  /\ n = fold_left (fun a c => 10 * a + (N_of_ascii c - N_of_ascii "0"))%N t 0%N.

(** White space, a sign or nothing, digits, and what follows them. *)
Definition quoted (t : text) (z : Z) : Prop :=
  exists w sign ds rest n, t = w ++ sign ++ ds ++ rest
    /\ Forall (fun c => In c (map ascii_of_nat [32; 9; 10; 11; 12; 13])) w
    /\ decimal ds n /\ (forall c r, rest = c :: r -> ~ In c (list_ascii_of_string "0123456789"))
    /\ (z = Z.of_N n /\ (sign = [] \/ sign = lit "+") \/ z = (- Z.of_N n)%Z /\ sign = lit "-").

Lemma digit_in c : In c (list_ascii_of_string "0123456789") <-> digit c = Some (N_of_ascii c - N_of_ascii "0")%N.
Proof.
  split.
  - intros H. repeat (destruct H as [<-|H]; [reflexivity|]). destruct H.
  - intros E. destruct c as [[] [] [] [] [] [] [] []]; vm_compute in E; try discriminate; vm_compute; tauto.
Qed.
Lemma digit_some c v : digit c = Some v -> In c (list_ascii_of_string "0123456789").
Proof. intros E. destruct c as [[] [] [] [] [] [] [] []]; vm_compute in E; try discriminate; vm_compute; tauto. Qed.

Lemma space_in c : space c = true <-> In c (map ascii_of_nat [32; 9; 10; 11; 12; 13]).
Proof.
  split.
  - intros E. destruct c as [[] [] [] [] [] [] [] []]; vm_compute in E; try discriminate; vm_compute; tauto.
  - intros H. repeat (destruct H as [<-|H]; [reflexivity|]). destruct H.
Qed.

Lemma skip_space_split t : exists w, t = w ++ skip_space t
  /\ Forall (fun c => In c (map ascii_of_nat [32; 9; 10; 11; 12; 13])) w.
Proof.
  induction t as [|c t (w & E & F)]; [exists []; split; [reflexivity|constructor]|].
  cbn [skip_space]. destruct (space c) eqn:SP.
  - exists (c :: w). cbn. rewrite <- E. split; [reflexivity|]. constructor; [now apply space_in|assumption].
  - exists []. split; [reflexivity|constructor].
Qed.
Lemma skip_space_app w t : Forall (fun c => In c (map ascii_of_nat [32; 9; 10; 11; 12; 13])) w ->
  (forall c r, t = c :: r -> space c = false) -> skip_space (w ++ t) = t.
Proof.
  intros F H. induction F as [|c w I F IH].
  - destruct t as [|c t]; [reflexivity|]. cbn [app skip_space]. now rewrite (H c t eq_refl).
  - cbn [app skip_space]. apply space_in in I. now rewrite I.
Qed.

Lemma digits_fold : forall ds rest acc, Forall (fun c => In c (list_ascii_of_string "0123456789")) ds ->
  (forall c r, rest = c :: r -> ~ In c (list_ascii_of_string "0123456789")) ->
  digits (ds ++ rest) acc = (fold_left (fun a c => 10 * a + (N_of_ascii c - N_of_ascii "0"))%N ds acc, rest).
Proof.
  induction ds as [|c ds IH]; intros rest acc F H.
  - destruct rest as [|c r]; [reflexivity|]. cbn [app digits fold_left]. destruct (digit c) eqn:E; [|reflexivity].
    exfalso. apply (H c r eq_refl). eapply digit_some; eauto.
  - inversion F as [|? ? I F']; subst. cbn [app digits fold_left]. rewrite (proj1 (digit_in c) I). apply IH; assumption.
Qed.

Lemma digits_inv : forall t acc, exists ds, t = ds ++ snd (digits t acc)
  /\ Forall (fun c => In c (list_ascii_of_string "0123456789")) ds
  /\ (forall c r, snd (digits t acc) = c :: r -> ~ In c (list_ascii_of_string "0123456789")).
Proof.
  induction t as [|c t IH]; intros acc; [exists []; split; [reflexivity|split; [constructor|discriminate]]|].
  cbn [digits]. destruct (digit c) as [v|] eqn:E.
  - destruct (IH (10 * acc + v)%N) as (ds & E1 & F & H). exists (c :: ds). cbn [app]. rewrite <- E1.
    split; [reflexivity|]. split; [|exact H]. constructor; [|assumption]. eapply digit_some; eauto.
  - exists []. split; [reflexivity|]. split; [constructor|]. cbn [snd]. intros c' r X. inversion X; subst.
    intros IN. apply digit_in in IN. congruence.
Qed.

(** An identifier of an integral type is read from a string that has such a form, and from no other; its value must be one of
    int, and is then converted.  The string is a C string: it ends at the first null character. *)
Theorem C67_quoted_all : forall bits signed s u,
  iread (integers bits signed) (VStr s) = Some u <->
  exists z, quoted (until_nul s) z /\ (- 2 ^ 31 <= z < 2 ^ 31)%Z /\ u = wrap bits signed z.
Proof.
  intros bits signed s u. cbn [integers iread read_int]. set (t := until_nul s). clearbody t. clear s.
  assert (X : forall z, stoi t = Some z <-> quoted t z /\ (- 2 ^ 31 <= z < 2 ^ 31)%Z).
  { intros z. split.
    - intros E. unfold stoi in E. destruct (skip_space_split t) as (w & ET & FW).
      assert (Y : forall (neg : bool) t', match t' with
        | c :: _ => match digit c with
          | None => None
          | Some _ => let n := Z.of_N (fst (digits t' 0)) in
                      let z := if neg then (- n)%Z else n in if is_int z then Some z else None end
        | [] => None end = Some z ->
        exists ds rest n, t' = ds ++ rest /\ decimal ds n
          /\ (forall c r, rest = c :: r -> ~ In c (list_ascii_of_string "0123456789"))
          /\ z = (if neg then - Z.of_N n else Z.of_N n)%Z /\ (- 2 ^ 31 <= z < 2 ^ 31)%Z).
      { intros neg [|c r] EX; [discriminate|]. destruct (digit c) as [v|] eqn:EC; [|discriminate].
        cbv zeta in EX. destruct (digits_inv (c :: r) 0) as (ds & E1 & F & H).
        destruct (is_int _) eqn:II in EX; [|discriminate]. inversion EX as [EZ].
        exists ds, (snd (digits (c :: r) 0)), (fst (digits (c :: r) 0)). split; [exact E1|].
        assert (FD : fst (digits (c :: r) 0) = fold_left (fun a c => 10 * a + (N_of_ascii c - N_of_ascii "0"))%N ds 0%N).
        { rewrite E1 at 1. rewrite digits_fold by assumption. reflexivity. }
        split.
        { split; [|split; [exact F|exact FD]]. intros ->. cbn [app] in E1. symmetry in E1. apply H in E1.
          apply E1. eapply digit_some; eauto. }
        split; [exact H|]. split; [reflexivity|].
        unfold is_int in II. apply andb_true_iff in II as [I1 I2]. apply Z.leb_le in I1. apply Z.ltb_lt in I2. split; assumption. }
      destruct (skip_space t) as [|c r] eqn:ES; [discriminate|].
      destruct (Ascii.eqb c "-") eqn:EM; [|destruct (Ascii.eqb c "+") eqn:EP].
      + apply eqb_eq in EM. subst c. apply (Y true) in E as (ds & rest & n & -> & D & H & -> & L).
        split; [|assumption]. exists w, (lit "-"), ds, rest, n. repeat (split; [assumption|]). right. split; reflexivity.
      + apply eqb_eq in EP. subst c. apply (Y false) in E as (ds & rest & n & -> & D & H & -> & L).
        split; [|assumption]. exists w, (lit "+"), ds, rest, n. repeat (split; [assumption|]). left. split; [reflexivity|now right].
      + apply (Y false (c :: r)) in E as (ds & rest & n & E1 & D & H & -> & L).
        split; [|assumption]. exists w, [], ds, rest, n. rewrite E1 in ET. repeat (split; [assumption|]).
        left. split; [reflexivity|now left].
    - intros [(w & sign & ds & rest & n & -> & FW & (ND & FD & ->) & H & SG) L].
      assert (II : is_int z = true).
      { unfold is_int. apply andb_true_iff. split; [apply Z.leb_le|apply Z.ltb_lt]; lia. }
      assert (HD : exists c r v, ds = c :: r /\ digit c = Some v /\ space c = false
                     /\ Ascii.eqb c "-" = false /\ Ascii.eqb c "+" = false).
      { destruct ds as [|c r]; [congruence|]. inversion FD as [|? ? I _]; subst.
        exists c, r, (N_of_ascii c - N_of_ascii "0")%N. split; [reflexivity|]. split; [now apply digit_in|].
        clear - I. repeat (destruct I as [<-|I]; [repeat split|]). destruct I. }
      destruct HD as (c & r & v & ED & DV & SPc & NM & NP).
      unfold stoi. rewrite skip_space_app; [|assumption|].
      2:{ intros c0 r0 EX. destruct SG as [[_ [->| ->]]|[_ ->]]; cbn [app lit list_ascii_of_string] in EX;
          [rewrite ED in EX; cbn in EX|..]; inversion EX; subst; auto. }
      assert (FDG : fst (digits (ds ++ rest) 0)
                    = fold_left (fun a c => 10 * a + (N_of_ascii c - N_of_ascii "0"))%N ds 0%N)
        by now rewrite digits_fold.
      destruct SG as [[EZ [->| ->]]|[EZ ->]]; cbn [app lit list_ascii_of_string].
      + rewrite ED in *. cbn [app] in *. rewrite NM, NP, DV. cbv zeta. rewrite FDG. rewrite <- EZ, II. reflexivity.
      + change (Ascii.eqb "+" "-") with false. cbv iota. rewrite Ascii.eqb_refl.
        rewrite ED in *. cbn [app] in *. rewrite DV. cbv zeta. rewrite FDG. rewrite <- EZ, II. reflexivity.
      + rewrite Ascii.eqb_refl. rewrite ED in *. cbn [app] in *. rewrite DV. cbv zeta. rewrite FDG. rewrite <- EZ, II. reflexivity. }
  split.
  - destruct (stoi t) as [z|] eqn:E; [|discriminate]. cbn. intros EU. inversion EU; subst. exists z.
    destruct (proj1 (X z) eq_refl) as [Q L]. auto.
  - intros (z & Q & L & ->). rewrite (proj2 (X z) (conj Q L)). reflexivity.
Qed.

Example C67_quoted_ex :
  iread (integers 32 true) (VStr (lit "  +0042abc")) = Some 42%Z
  /\ iread (integers 32 true) (VStr (lit "-7 8")) = Some (-7)%Z
  /\ iread (integers 8 false) (VStr (lit "300")) = Some 44%Z
  /\ iread (integers 32 true) (VStr (lit "+ 1")) = None /\ iread (integers 32 true) (VStr (lit "2147483648")) = None.
Proof. repeat split; vm_compute; reflexivity. Qed.

(** U+0041, U+00E9, U+20AC and U+10FFFF. *)
Example C67_unicode_ex : exists s, chars (lit "\u0041\u00e9\u20aC\udbff\uDFFF") s /\ points s [0x41; 0xe9; 0x20ac; 0x10ffff]%N
  /\ s = map ascii_of_nat [65; 195; 169; 226; 130; 172; 244; 143; 191; 191].
Proof.
  assert (U : forall a b c d i j k l,
    (String.get i "0123456789abcdef" = Some a \/ String.get i "0123456789ABCDEF" = Some a) ->
    (String.get j "0123456789abcdef" = Some b \/ String.get j "0123456789ABCDEF" = Some b) ->
    (String.get k "0123456789abcdef" = Some c \/ String.get k "0123456789ABCDEF" = Some c) ->
    (String.get l "0123456789abcdef" = Some d \/ String.get l "0123456789ABCDEF" = Some d) ->
    unit16 (lit "\u" ++ [a; b; c; d]) (N.of_nat i * 16 ^ 3 + N.of_nat j * 16 ^ 2 + N.of_nat k * 16 + N.of_nat l)).
  { intros a b c d i j k l A B C D. exists a, b, c, d. do 4 eexists. split; [reflexivity|].
    split; [exists i; auto|]. split; [exists j; auto|]. split; [exists k; auto|]. split; [exists l; auto|]. reflexivity. }
  destruct (C67_unicode [lit "\u0041"; lit "\u00e9"; lit "\u20aC"; lit "\udbff\uDFFF"] [0x41; 0xe9; 0x20ac; 0x10ffff]%N)
    as (s & C & P & R).
  - constructor; [|constructor; [|constructor; [|constructor; [|constructor]]]].
    + left. apply (U "0" "0" "4" "1" 0 0 4 1)%char; auto.
    + left. apply (U "0" "0" "e" "9" 0 0 14 9)%char; auto.
    + left. apply (U "2" "0" "a" "C" 2 0 10 12)%char; auto.
    + right. exists (lit "\udbff"), (lit "\uDFFF"), 1023%N, 1023%N. split; [reflexivity|].
      split; [apply (U "d" "b" "f" "f" 13 11 15 15)%char; auto|]. split; [apply (U "D" "F" "F" "F" 13 15 15 15)%char; auto|].
      repeat split.
  - unfold scalar. repeat constructor; lia.
  - exists s. split; [exact C|]. split; [exact P|].
    vm_compute in R. inversion R. reflexivity.
Qed.

Print Assumptions C67_spelled.
Print Assumptions C67_unicode.
Print Assumptions C67_surrogates.
Print Assumptions C67_quoted_all.

(** The escape sequences of one character: the table of RFC 8259. *)
Theorem C67_escapes : forall e k rest, pstr (backslash :: e :: quote :: rest) = Some ([k], rest) <->
  In (N_of_ascii e, N_of_ascii k) [(34, 34); (92, 92); (47, 47); (98, 8); (102, 12); (110, 10); (114, 13); (116, 9)]%N.
Proof.
  intros e k rest.
  assert (T : (pstr (backslash :: e :: quote :: rest) = Some ([k], rest)) <-> escape e = Some k).
  { cbn [pstr]. rewrite Ascii.eqb_refl. destruct (escape e) as [k'|] eqn:E.
    - replace (Ascii.eqb quote backslash) with false by reflexivity. rewrite Ascii.eqb_refl. cbn [prepend app]. split; intros X; inversion X; reflexivity.
    - split; [|discriminate]. destruct (Ascii.eqb e "u"); [|discriminate]. destruct rest as [|b [|c [|d r]]]; try discriminate.
    }
  rewrite T. clear T. assert (B : forall (a : ascii) n, N_of_ascii a = n -> a = ascii_of_N n) by (intros a n <-; symmetry; apply ascii_N_embedding).
  unfold escape, quote, backslash.
  repeat match goal with |- context [Ascii.eqb e ?c] => destruct (Ascii.eqb_spec e c) as [->|?] end;
    (split; [intros X; inversion X; cbn; tauto|]); cbn [In]; intros X;
    repeat (destruct X as [X|X]); try (exact (False_ind _ X)); pose proof (f_equal fst X) as X1; pose proof (f_equal snd X) as X2; cbn [fst snd] in X1, X2; symmetry in X1, X2;
    try (vm_compute in X1; discriminate); try (apply B in X2; subst k; reflexivity);
    apply B in X1; contradiction.
Qed.
Print Assumptions C67_escapes.
