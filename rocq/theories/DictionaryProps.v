(** * The example program examples/dictionary: theorems and examples (C70) *)

From Coq Require Import List Bool NArith Arith Lia.
From Verif Require Import Base SortedSets Values Sdd SddFacts Orders OrdersProofs OrdersMore OrdersSdd DDModel Spec.
From Verif Require Import DDTheorems FlatSet Bitset Concrete Count CountProps OrdersProps HomFacts HomInd Rows Dictionary.
Import ListNotations.

(** ** Specification *)

(** [longest lines n]: no line is longer than [n], and one is as long unless there is none. *)
Definition longest {A} (lines : list (list A)) (n : nat) : Prop :=
  (forall l, In l lines -> length l <= n) /\ (lines = [] /\ n = 0 \/ exists l, In l lines /\ length l = n).

(** A line completed with '#' up to the length [n]. *)
Definition padded {A} (hash : A) (n : nat) (line : list A) : list A := line ++ repeat hash (n - length line).

Section DictionaryProps.
  Variable char : Type.
  Variable lt : char -> char -> bool.
  Hypothesis ST : strict_total lt.
  Variable plt : fset lt -> fset lt -> bool.
  Hypothesis SP : strict_total plt.
  Variable hash : char.
  Notation VI := (flat_set_values lt ST plt).
  Notation VL := (flat_set_laws lt ST plt SP).
  Variable PF : platform VI.
  Hypothesis PO : platform_ok PF.
  Notation max_size := (max_size char).
  Notation ids n := (map N.of_nat (seq 0 n)).

  Lemma max_from : forall lines m, m <= fold_left (fun m line => if length line <? m then m else length line) lines m
    /\ (forall l, In l lines -> length l <= fold_left (fun m line => if @length char line <? m then m else length line) lines m)
    /\ (fold_left (fun m line => if length line <? m then m else length line) lines m = m
        \/ exists l, In l lines /\ length l = fold_left (fun m line => if length line <? m then m else length line) lines m).
  Proof.
    induction lines as [|l lines IH]; intros m; cbn [fold_left].
    - split; [lia|]. split; [intros ? []|auto].
    - destruct (IH (if length l <? m then m else length l)) as (A & B & C).
      destruct (Nat.ltb_spec (length l) m) as [X|X]; (split; [lia|split]).
      + intros l' [<-|H]; [lia|auto].
      + destruct C as [C|(l' & H & C)]; [auto|right; exists l'; cbn; auto].
      + intros l' [<-|H]; [lia|auto].
      + destruct C as [C|(l' & H & C)]; right; [exists l|exists l']; cbn; auto.
  Qed.

  Theorem C70_longest lines : longest lines (max_size lines).
  Proof.
    destruct (max_from lines 0) as (_ & B & C). split; [exact B|].
    destruct C as [C|C]; [|now right]. destruct lines as [|l lines]; [now left|right].
    exists l. split; [now left|]. unfold max_size in *. pose proof (B l (or_introl eq_refl)). lia.
  Qed.

  Lemma letters_mem line pos a : v_mem VI (letters char lt ST plt hash line pos) a = true <-> a = nth (N.to_nat pos) line hash.
  Proof.
    unfold letters. cbn [v_mem flat_set_values].
    destruct (N.ltb_spec pos (N.of_nat (length line))) as [H|H]; rewrite (fset_find_of_list lt ST); cbn.
    - split; [intros [<-|[]]; auto|auto].
    - rewrite nth_overflow by lia. split; [intros [<-|[]]; auto|auto].
  Qed.

  Lemma padded_nth line n k : nth k (padded hash n line) hash = nth k line hash.
  Proof.
    unfold padded. destruct (Nat.lt_ge_cases k (length line)) as [H|H]; [now rewrite app_nth1|].
    rewrite app_nth2, (nth_overflow line) by lia. generalize (k - length line), (n - length line). clear.
    intros k n. revert k. induction n as [|n IH]; intros [|k]; cbn; auto.
  Qed.

  Lemma padded_length line n : length line <= n -> length (padded hash n line) = n.
  Proof. intros H. unfold padded. rewrite app_length, repeat_length. lia. Qed.

  Lemma letters_row line : forall n s w,
    Forall2 (fun u a => v_mem VI (letters char lt ST plt hash line u) a = true) (map N.of_nat (seq s n)) w <->
    length w = n /\ forall k, k < n -> nth k w hash = nth (s + k) line hash.
  Proof.
    induction n as [|n IH]; intros s w; cbn.
    - split; [intros H; inversion H; split; [auto|lia]|]. intros [H _]. destruct w; [constructor|discriminate].
    - split.
      + intros H. inversion H as [|? a ? w' M H']; subst. apply letters_mem in M. rewrite Nnat.Nat2N.id in M.
        apply IH in H'. destruct H' as [L H']. split; [cbn in *; lia|].
        intros [|k] Hk; cbn; [now rewrite Nat.add_0_r|]. rewrite H' by lia. f_equal. lia.
      + intros [L H]. destruct w as [|a w]; [discriminate|]. constructor.
        * apply letters_mem. rewrite Nnat.Nat2N.id. rewrite <- (Nat.add_0_r s). apply (H 0). lia.
        * apply IH. split; [now injection L|]. intros k Hk. assert (X := H (S k) ltac:(lia)). cbn in X. etransitivity; [exact X|]. f_equal. lia.
  Qed.

  Lemma row_line line n : length line <= n -> forall w,
    Forall2 (fun u a => v_mem VI (letters char lt ST plt hash line u) a = true) (ids n) w <-> w = padded hash n line.
  Proof.
    intros H w. rewrite letters_row. split.
    - intros [L E]. assert (E' : length w = length (padded hash n line)) by (rewrite padded_length by auto; exact L).
      apply (nth_ext _ _ hash hash E').
      intros k Hk. rewrite padded_nth. apply E. now rewrite <- L.
    - intros ->. rewrite padded_length by auto. split; [auto|]. intros k _. apply padded_nth.
  Qed.

  Lemma ids_nodup n : NoDup (ids n).
  Proof.
    assert (H := seq_NoDup n 0). induction H as [|a l Ha H IH]; cbn; constructor; auto.
    intros X. apply in_map_iff in X. destruct X as (b & E & Hb). apply Nnat.Nat2N.inj in E. now subst.
  Qed.

  Lemma dict_loop_ok n : forall lines x, (forall l, In l lines -> length l <= n) -> fits VI PF (flat_shape n) x ->
    exists y, dict_loop char lt ST plt hash PF (order_of N.eqb (b_of_list (ids n))) lines x = Ok y /\ fits VI PF (flat_shape n) y
      /\ forall p, contains y p = true <-> contains x p = true \/ exists l, In l lines /\ p = row (padded hash n l).
  Proof.
    assert (Eo := order_of_list N N.eqb N_is_eqb (ids n) (ids_nodup n)).
    induction lines as [|line lines IH]; intros x H Fx.
    - exists x. split; [reflexivity|]. split; [auto|]. intros p. split; [auto|]. intros [A|(l & [] & _)]; auto.
    - cbn [dict_loop].
      destruct (C13_from_order VI VL PF N N.eqb N_is_eqb (letters char lt ST plt hash line) _ _ Eo (named_of_list N (ids n)))
        as (w & -> & Cw & Dw & Bw & _).
      rewrite shape_of_list, map_length, seq_length in Dw.
      assert (Fw : fits VI PF (flat_shape n) w) by (split; [now apply (built_canonical VI VL PF PO)|auto]).
      destruct (sum_ok VI VL PF PO (flat_shape n) [x; w]) as (r & Er & Fr & Cr).
      { intros z [<-|[<-|[]]]; auto. }
      unfold api_plus. rewrite Er. destruct (IH r) as (y & Ey & Fy & Cy); auto.
      { intros l Hl. apply H. now right. }
      exists y. split; [auto|]. split; [auto|]. intros p. rewrite Cy, Cr. cbn. rewrite orb_false_r, orb_true_iff, Cw.
      rewrite (initial_list N VI (letters char lt ST plt hash line) (ids n) p). split.
      + intros [[A|(l & -> & Hl)]|(l & Hl & A)]; auto.
        * apply row_line in Hl; [|apply H; now left]. subst l. eauto.
        * right. eauto.
      + intros [A|(l & [->|Hl] & ->)]; auto.
        * left. right. exists (padded hash n l). split; [auto|]. apply row_line; [apply H; now left|auto].
        * right. eauto.
  Qed.

  Notation dictionary := (dictionary char lt ST plt hash PF).

  (** The program ends without failure, and its dictionary contains the lines of the file completed with '#',
      and nothing else. *)
  Theorem C70_words lines : exists x n, dictionary lines = Ok (x, Some n) /\
    forall p, contains x p = true <-> exists l, In l lines /\ p = row (padded hash (max_size lines) l).
  Proof.
    destruct (C70_longest lines) as [M _].
    destruct (dict_loop_ok (max_size lines) lines Zero M (fits_zero VI PF _)) as (x & Ex & Fx & Cx).
    destruct (C14_size VI VL PF PO x (fits_built VI VL PF PO _ x Fx)) as (l & _ & _ & El).
    exists x, (N.of_nat (length l)). split.
    - unfold dictionary, dict_order. rewrite (order_of_list N N.eqb N_is_eqb _ (ids_nodup _)). cbn [rbind].
      rewrite Ex. cbn [rbind]. now rewrite El.
    - intros p. rewrite Cx. split; [intros [X|X]; [discriminate|auto]|auto].
  Qed.

  (** The number which is printed is the number of distinct completed lines... *)
  Theorem C70_count_padded lines : exists x L, dictionary lines = Ok (x, Some (N.of_nat (length L))) /\ NoDup L /\
    forall w, In w L <-> exists l, In l lines /\ w = padded hash (max_size lines) l.
  Proof.
    destruct (C70_longest lines) as [M _].
    destruct (dict_loop_ok (max_size lines) lines Zero M (fits_zero VI PF _)) as (x & Ex & Fx & Cx).
    assert (D : forall a b : char, {a = b} + {a <> b}).
    { intros a b. destruct (lt a b) eqn:A; [right; intros ->; now rewrite (st_irrefl ST) in A|].
      destruct (lt b a) eqn:B; [right; intros ->; now rewrite (st_irrefl ST) in B|].
      left. now apply (st_total ST). }
    set (L := nodup (list_eq_dec D) (map (padded hash (max_size lines)) lines)).
    assert (HL : forall w, In w L <-> exists l, In l lines /\ w = padded hash (max_size lines) l).
    { intros w. unfold L. rewrite nodup_In, in_map_iff. split; intros (l & A & B); eauto. }
    assert (E : size VI PF x = Some (N.of_nat (length L))).
    { apply (size_rows VI VL PF PO); [now apply (fits_built VI VL PF PO _ x Fx)|apply NoDup_nodup|].
      intros p. rewrite Cx. split.
      - intros [X|(l & Hl & ->)]; [discriminate|]. exists (padded hash (max_size lines) l). split; [|auto].
        apply HL. eauto.
      - intros (w & Hw & ->). apply HL in Hw. destruct Hw as (l & Hl & ->). eauto. }
    exists x, L. split; [|split; [apply NoDup_nodup|exact HL]].
    unfold dictionary, dict_order. rewrite (order_of_list N N.eqb N_is_eqb _ (ids_nodup _)). cbn [rbind].
    rewrite Ex. cbn [rbind]. now rewrite E.
  Qed.

  Lemma ends_hash l m : l ++ repeat hash m = l ++ repeat hash 0 -> m = 0.
  Proof. intros H. apply app_inv_head in H. now destruct m. Qed.

  Lemma padded_inj n l m : (forall l', l <> l' ++ [hash]) -> (forall l', m <> l' ++ [hash]) ->
    padded hash n l = padded hash n m -> l = m.
  Proof.
    assert (K : forall l i m j, (forall l', l <> l' ++ [hash]) -> (forall l', m <> l' ++ [hash]) ->
      l ++ repeat hash i = m ++ repeat hash j -> l = m).
    { assert (R : forall i, repeat hash (S i) = repeat hash i ++ [hash]).
      { induction i as [|i IH]; [reflexivity|]. cbn in *. now rewrite IH at 1. }
      intros l0 i m0 j Hl Hm. revert j. induction i as [|i IH]; intros [|j] E.
      - now rewrite !app_nil_r in E.
      - rewrite R, app_nil_r, app_assoc in E. destruct (Hl _ E).
      - rewrite R, app_nil_r, app_assoc in E. symmetry in E. destruct (Hm _ E).
      - rewrite !R, !app_assoc in E. apply app_inj_tail in E. destruct E as [E _]. eauto. }
    intros Hl Hm. apply K; auto.
  Qed.

  (** ... which is the number of distinct lines if no line ends with '#'. *)
  Theorem C70_count_partial lines L : (forall l, In l lines -> forall l', l <> l' ++ [hash]) ->
    NoDup L -> (forall w, In w L <-> In w lines) ->
    exists x, dictionary lines = Ok (x, Some (N.of_nat (length L))).
  Proof.
    intros Hh ND HL. destruct (C70_count_padded lines) as (x & P & E & NP & HP). exists x. rewrite E. do 4 f_equal.
    transitivity (length (map (padded hash (max_size lines)) L)); [|apply map_length].
    assert (NL : NoDup (map (padded hash (max_size lines)) L)).
    { assert (Hh' : forall w, In w L -> forall l', w <> l' ++ [hash]) by (intros w Hw; apply Hh, HL, Hw).
      clear - ND Hh'. induction ND as [|a l Ha ND IH]; cbn; constructor.
      - intros X. apply in_map_iff in X. destruct X as (b & Eb & Hb). apply padded_inj in Eb; [now subst|..]; apply Hh'; cbn; auto.
      - apply IH. intros w Hw. apply Hh'. now right. }
    apply Nat.le_antisymm; apply NoDup_incl_length; auto; intros w Hw.
    - apply HP in Hw. destruct Hw as (l & Hl & ->). apply in_map, HL, Hl.
    - apply in_map_iff in Hw. destruct Hw as (l & <- & Hl). apply HP. exists l. split; [now apply HL|auto].
  Qed.
End DictionaryProps.
Print Assumptions C70_longest.
Print Assumptions C70_words.
Print Assumptions C70_count_padded.
Print Assumptions C70_count_partial.

(** In general the number of words is wrong: with the two lines "a" and "a#", the program prints 1, for every
    character "a" and every platform. *)
Theorem C70_count_refuted : forall (char : Type) (lt : char -> char -> bool) (ST : strict_total lt) plt (SP : strict_total plt)
  (hash a : char) (PF : platform (flat_set_values lt ST plt)), platform_ok PF ->
  let lines := [[a]; [a; hash]] in
  NoDup lines /\ exists x, dictionary char lt ST plt hash PF lines = Ok (x, Some 1%N).
Proof.
  intros char lt ST plt SP hash a PF PO lines. split.
  { repeat constructor; cbn; intuition discriminate. }
  destruct (C70_count_padded char lt ST plt SP hash PF PO lines) as (x & L & E & ND & H). exists x. rewrite E. do 4 f_equal.
  assert (H1 : forall w, In w L <-> w = [a; hash]).
  { intros w. rewrite H. cbn. split.
    - intros (l & [<-|[<-|[]]] & ->); reflexivity.
    - intros ->. exists [a]. split; [now left|reflexivity]. }
  destruct L as [|w [|w' L]].
  - destruct (proj2 (H1 _) eq_refl).
  - reflexivity.
  - assert (w = w') by (transitivity [a; hash]; [|symmetry]; apply H1; cbn; auto). subst w'.
    inversion ND as [|? ? X]. destruct X. now left.
Qed.
Print Assumptions C70_count_refuted.

(** ** Examples *)

(** "ab", "c", "", "ab": three words. *)
Definition ex_lines : list (list N) := [[97; 98]; [99]; []; [97; 98]]%N.
Example C70_example_count : exists x, dictionary N N.ltb Nltb_strict set_lt 35%N PF_up ex_lines = Ok (x, Some 3%N).
Proof.
  apply (C70_count_partial N N.ltb Nltb_strict set_lt set_lt_strict 35%N PF_up PF_up_ok ex_lines [[99]; []; [97; 98]]%N).
  - intros l Hl l' E. subst l. assert (K : last (l' ++ [35%N]) 35%N = 35%N) by apply last_last.
    destruct Hl as [X|[X|[X|[X|[]]]]]; try (rewrite <- X in K; discriminate). now destruct l'.
  - repeat constructor; cbn; intuition discriminate.
  - intros w. cbn. tauto.
Qed.
Example C70_example_words : exists x n, dictionary N N.ltb Nltb_strict set_lt 35%N PF_up ex_lines = Ok (x, Some n)
  /\ contains x (row [99; 35]%N) = true /\ contains x (row [97; 98]%N) = true /\ contains x (row [35; 35]%N) = true
  /\ contains x (row [98; 97]%N) = false.
Proof.
  destruct (C70_words N N.ltb Nltb_strict set_lt set_lt_strict 35%N PF_up PF_up_ok ex_lines) as (x & n & E & C).
  exists x, n. split; [auto|]. split; [|split; [|split]].
  - apply C. exists [99%N]. split; [cbn; auto|reflexivity].
  - apply C. exists [97; 98]%N. split; [cbn; auto|reflexivity].
  - apply C. exists []. split; [cbn; auto|reflexivity].
  - apply not_true_is_false. intros X. apply C in X. destruct X as (l & Hl & Er). apply row_inj in Er.
    destruct Hl as [<-|[<-|[<-|[<-|[]]]]]; discriminate.
Qed.
