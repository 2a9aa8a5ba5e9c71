(** * The textual output of sets of values and of SDDs, character by character *)

From Coq Require Import Ascii String List Bool Arith NArith ZArith Lia.
From Verif Require Import Base SortedSets Values FlatSet Bitset Sdd Text.
Import ListNotations.

(** ** Sets of values *)

(** What separates and ends the values of a set. *)
Definition comma : ascii := ","%char.
Definition dot : ascii := "."%char.
Definition closing : ascii := "}"%char.

(** operator<< of flat_set of an integral type, sdd/values/flat_set.hh 431-470.  [pe] writes a value: in decimal, or as it is
    for the character types.  [num]: the value as an integer.  The loop is at [cit], the current interval began at [first],
    and [l] are the elements that follow [cit].  [*cit + 1] (449) does not overflow: it is computed only if there is a
    greater element (and in type int for the types smaller than int).  [first == cit] (453) compares positions: the interval
    has one element, [here]. *)
Fixpoint int_set_loop {A : Type} (pe : A -> text) (num : A -> Z) (first cit : A) (here : bool) (l : list A) : text :=
  let shown := if here then pe cit else pe first ++ dot :: dot :: pe cit in
  match l with
  | [] => shown
  | x :: l' => if Z.eqb (num cit + 1) (num x) then int_set_loop pe num first x false l'
               else shown ++ comma :: int_set_loop pe num x x true l'
  end.
Definition int_set_text {A : Type} (pe : A -> text) (num : A -> Z) (l : list A) : text :=
  "{"%char :: (match l with
               | [] => []
               | [x] => pe x
               | x :: l' => int_set_loop pe num x x true l'
               end) ++ [closing].

(** operator<< of flat_set of another type, flat_set.hh 416-428; and of bitset, sdd/values/bitset.hh 177-199, which writes the
    positions of the bits. *)
Fixpoint list_text {A : Type} (pe : A -> text) (l : list A) : text :=
  match l with
  | [] => []
  | [x] => pe x
  | x :: l' => pe x ++ comma :: list_text pe l'
  end.
Definition other_set_text {A : Type} (pe : A -> text) (l : list A) : text :=
  "{"%char :: list_text pe l ++ [closing].
Definition bitset_text {n : N} (b : bitset n) : text := other_set_text decN (bs_list n b).

(** ** SDDs *)

Section Sdd.
  Variable V : Type.
  Variable pv : V -> text.

  (** operator<< of zero_terminal and one_terminal, sdd/dd/terminal.hh 29-34 and 53-58; of node, sdd/dd/node.hh 146-155 (of
      valuations for flat nodes, of SDDs for hierarchical ones); of SDD, sdd/dd/definition.hh 399-404.  [None]: the node has
      no arc, and n.end() - 1 is undefined behaviour. *)
  Fixpoint sdd_text (x : sdd V) : option text :=
    match x with
    | Zero => Some (lit "|0|")
    | One => Some (lit "|1|")
    | Flat n arcs =>
      option_map (fun t => decN n ++ lit "[" ++ t ++ lit "]")
        ((fix go (l : list (V * sdd V)) : option text :=
            match l with
            | [] => None
            | (v, s) :: r =>
              match sdd_text s with
              | None => None
              | Some ts =>
                let a := pv v ++ lit " --> " ++ ts in
                match r with
                | [] => Some a
                | _ => option_map (fun tr => a ++ lit " || " ++ tr) (go r)
                end
              end
            end) arcs)
    | Hier n arcs =>
      option_map (fun t => decN n ++ lit "[" ++ t ++ lit "]")
        ((fix go (l : list (sdd V * sdd V)) : option text :=
            match l with
            | [] => None
            | (v, s) :: r =>
              match sdd_text v, sdd_text s with
              | Some tv, Some ts =>
                let a := tv ++ lit " --> " ++ ts in
                match r with
                | [] => Some a
                | _ => option_map (fun tr => a ++ lit " || " ++ tr) (go r)
                end
              | _, _ => None
              end
            end) arcs)
    end.

  (** The texts of arcs, out of the nested fixpoints. *)
  Fixpoint arcs_text {W : Type} (pw : W -> option text) (l : list (W * sdd V)) : option text :=
    match l with
    | [] => None
    | (v, s) :: r =>
      match pw v, sdd_text s with
      | Some tv, Some ts =>
        let a := tv ++ lit " --> " ++ ts in
        match r with
        | [] => Some a
        | _ => option_map (fun tr => a ++ lit " || " ++ tr) (arcs_text pw r)
        end
      | _, _ => None
      end
    end.

  Lemma flat_text n arcs : sdd_text (Flat n arcs) =
    option_map (fun t => decN n ++ lit "[" ++ t ++ lit "]") (arcs_text (fun v => Some (pv v)) arcs).
  Proof.
    cbn [sdd_text]. f_equal. induction arcs as [|[v s] r IH]; [reflexivity|]. cbn [arcs_text].
    destruct (sdd_text s); [|reflexivity]. destruct r; [reflexivity|]. cbn zeta. f_equal. exact IH.
  Qed.
  Lemma hier_text n arcs : sdd_text (Hier n arcs) =
    option_map (fun t => decN n ++ lit "[" ++ t ++ lit "]") (arcs_text sdd_text arcs).
  Proof.
    cbn [sdd_text]. f_equal. induction arcs as [|[v s] r IH]; [reflexivity|]. cbn [arcs_text].
    destruct (sdd_text v), (sdd_text s); try reflexivity. destruct r; [reflexivity|]. cbn zeta. f_equal. exact IH.
  Qed.

  (** *** No text is the beginning of another one *)

  (** What is written for valuations begins with a brace, and the end of it can be found when a space follows. *)
  Definition brace_code : Prop :=
    (forall v, exists t, pv v = "{"%char :: t) /\
    (forall v w a b, pv v ++ " "%char :: a = pv w ++ " "%char :: b -> v = w /\ a = b).
  Hypothesis PV : brace_code.

  Lemma arcs_text_prefix : forall (W : Type) (pw : W -> option text) (l m : list (W * sdd V)) t u a b,
    (forall v s, In (v, s) l ->
       (forall w tv tw a b, pw v = Some tv -> pw w = Some tw ->
          tv ++ " "%char :: a = tw ++ " "%char :: b -> v = w /\ a = b) /\
       (forall y ts ty a b, sdd_text s = Some ts -> sdd_text y = Some ty -> ts ++ a = ty ++ b -> s = y /\ a = b)) ->
    arcs_text pw l = Some t -> arcs_text pw m = Some u ->
    t ++ "]"%char :: a = u ++ "]"%char :: b -> l = m /\ a = b.
  Proof.
    intros W pw. induction l as [|[v s] l IH]; intros [|[w y] m] t u a b HI E1 E2 E; try discriminate.
    cbn [arcs_text] in E1, E2.
    destruct (pw v) as [tv|] eqn:EV; [|discriminate]. destruct (sdd_text s) as [ts|] eqn:ES; [|discriminate].
    destruct (pw w) as [tw|] eqn:EW; [|discriminate]. destruct (sdd_text y) as [ty|] eqn:EY; [|discriminate].
    destruct (HI v s (or_introl eq_refl)) as [H1 H2].
    assert (X : forall r r', tv ++ lit " --> " ++ ts ++ r = tw ++ lit " --> " ++ ty ++ r' -> v = w /\ s = y /\ r = r').
    { intros r r' EQ. cbn [lit list_ascii_of_string app] in EQ. apply (H1 w tv tw) in EQ as [-> EQ]; auto.
      injection EQ as EQ. apply (H2 y ts ty) in EQ as [-> EQ]; auto. }
    destruct l as [|a1 l'], m as [|a2 m'].
    - inversion E1; inversion E2; subst. repeat rewrite <- app_assoc in E.
      apply X in E as (-> & -> & E). inversion E. auto.
    - exfalso. destruct (arcs_text pw (a2 :: m')) as [tr|]; [|discriminate].
      inversion E1; inversion E2; subst. repeat rewrite <- app_assoc in E.
      apply X in E as (_ & _ & E). discriminate.
    - exfalso. destruct (arcs_text pw (a1 :: l')) as [tr|]; [|discriminate].
      inversion E1; inversion E2; subst. repeat rewrite <- app_assoc in E.
      apply X in E as (_ & _ & E). discriminate.
    - destruct (arcs_text pw (a1 :: l')) as [tr|] eqn:R1; [|discriminate].
      destruct (arcs_text pw (a2 :: m')) as [tr'|] eqn:R2; [|discriminate].
      inversion E1; inversion E2; subst. repeat rewrite <- app_assoc in E.
      apply X in E as (-> & -> & E). cbn [lit list_ascii_of_string app] in E. injection E as E.
      destruct (IH (a2 :: m') tr tr' a b) as [EL EA]; auto; [|now rewrite EL].
      intros v' s' H. apply HI. now right.
  Qed.

  (** What a text begins with: a bar or a digit. *)
  Lemma sdd_text_head : forall x t, sdd_text x = Some t -> exists c r, t = c :: r /\ c <> "{"%char.
  Proof.
    intros [| |n arcs|n arcs] t E.
    - inversion E; subst. eexists _, _. split; [reflexivity|discriminate].
    - inversion E; subst. eexists _, _. split; [reflexivity|discriminate].
    - rewrite flat_text in E. destruct (arcs_text _ arcs); [|discriminate]. inversion E; subst.
      destruct (decN_head n) as (c & r & v & -> & D). eexists _, _. split; [reflexivity|]. now intros ->.
    - rewrite hier_text in E. destruct (arcs_text _ arcs); [|discriminate]. inversion E; subst.
      destruct (decN_head n) as (c & r & v & -> & D). eexists _, _. split; [reflexivity|]. now intros ->.
  Qed.

  Lemma arcs_text_head : forall (W : Type) (pw : W -> option text) l t, arcs_text pw l = Some t ->
    exists v s r tv t', l = (v, s) :: r /\ pw v = Some tv /\ t = tv ++ t'.
  Proof.
    intros W pw [|[v s] r] t E; [discriminate|]. cbn [arcs_text] in E.
    destruct (pw v) as [tv|] eqn:EV; [|discriminate]. destruct (sdd_text s) as [ts|]; [|discriminate].
    destruct r as [|a r']; [inversion E; subst; eauto 10|].
    destruct (arcs_text pw (a :: r')); [|discriminate]. inversion E; subst. rewrite <- app_assoc. eauto 10.
  Qed.

  Lemma sdd_text_prefix : forall x y t u a b,
    sdd_text x = Some t -> sdd_text y = Some u -> t ++ a = u ++ b -> x = y /\ a = b.
  Proof.
    assert (HD : forall n r c s, decN n ++ r = c :: s -> exists v, digit c = Some v).
    { intros n r c s E. destruct (decN_head n) as (d & q & v & Q & D). rewrite Q in E. injection E as <- _. eauto. }
    induction x as [| |n arcs IH|n arcs IH] using sdd_ind'; intros y t u a b E1 E2 E.
    - inversion E1; subst t. destruct y as [| |m arcs'|m arcs'].
      + inversion E2; subst u. cbn in E. inversion E. auto.
      + inversion E2; subst u. cbn in E. inversion E.
      + exfalso. rewrite flat_text in E2. destruct (arcs_text _ arcs'); [|discriminate]. inversion E2; subst u.
        repeat rewrite <- app_assoc in E. cbn [lit list_ascii_of_string app] in E. symmetry in E.
        apply HD in E as (v & E). discriminate.
      + exfalso. rewrite hier_text in E2. destruct (arcs_text _ arcs'); [|discriminate]. inversion E2; subst u.
        repeat rewrite <- app_assoc in E. cbn [lit list_ascii_of_string app] in E. symmetry in E.
        apply HD in E as (v & E). discriminate.
    - inversion E1; subst t. destruct y as [| |m arcs'|m arcs'].
      + inversion E2; subst u. cbn in E. inversion E.
      + inversion E2; subst u. cbn in E. inversion E. auto.
      + exfalso. rewrite flat_text in E2. destruct (arcs_text _ arcs'); [|discriminate]. inversion E2; subst u.
        repeat rewrite <- app_assoc in E. cbn [lit list_ascii_of_string app] in E. symmetry in E.
        apply HD in E as (v & E). discriminate.
      + exfalso. rewrite hier_text in E2. destruct (arcs_text _ arcs'); [|discriminate]. inversion E2; subst u.
        repeat rewrite <- app_assoc in E. cbn [lit list_ascii_of_string app] in E. symmetry in E.
        apply HD in E as (v & E). discriminate.
    - rewrite flat_text in E1. destruct (arcs_text _ arcs) as [ta|] eqn:EA; [|discriminate]. inversion E1; subst t.
      repeat rewrite <- app_assoc in E.
      destruct y as [| |m arcs'|m arcs'].
      + exfalso. inversion E2; subst u. apply HD in E as (v & E). discriminate.
      + exfalso. inversion E2; subst u. apply HD in E as (v & E). discriminate.
      + rewrite flat_text in E2. destruct (arcs_text _ arcs') as [tb|] eqn:EB; [|discriminate]. inversion E2; subst u.
        repeat rewrite <- app_assoc in E. apply decN_prefix in E as [-> E]; [|reflexivity|reflexivity].
        cbn [lit list_ascii_of_string app] in E. injection E as E.
        rewrite <- !app_assoc in E. cbn [app] in E.
        refine ((fun P => match arcs_text_prefix _ _ _ _ _ _ a b P EA EB E with conj X Y => conj (f_equal _ X) Y end) _).
        intros v s H. split.
        * intros w tv tw a' b' X Y. inversion X; inversion Y; subst. apply PV.
        * intros y ts ty a' b' X Y Z. eapply (IH v s H); eauto.
      + exfalso. rewrite hier_text in E2. destruct (arcs_text _ arcs') as [tb|] eqn:EB; [|discriminate]. inversion E2; subst u.
        repeat rewrite <- app_assoc in E. apply decN_prefix in E as [-> E]; [|reflexivity|reflexivity].
        cbn [lit list_ascii_of_string app] in E. injection E as E.
        apply arcs_text_head in EA as (v & s & r & tv & t' & -> & X & ->). inversion X; subst tv.
        destruct (proj1 PV v) as (q & Q). rewrite Q in E.
        apply arcs_text_head in EB as (v' & s' & r' & tv' & t'' & -> & X' & ->).
        apply sdd_text_head in X' as (c & q' & -> & NC). cbn in E. injection E as E _. congruence.
    - rewrite hier_text in E1. destruct (arcs_text _ arcs) as [ta|] eqn:EA; [|discriminate]. inversion E1; subst t.
      repeat rewrite <- app_assoc in E.
      destruct y as [| |m arcs'|m arcs'].
      + exfalso. inversion E2; subst u. apply HD in E as (v & E). discriminate.
      + exfalso. inversion E2; subst u. apply HD in E as (v & E). discriminate.
      + exfalso. rewrite flat_text in E2. destruct (arcs_text _ arcs') as [tb|] eqn:EB; [|discriminate]. inversion E2; subst u.
        repeat rewrite <- app_assoc in E. apply decN_prefix in E as [-> E]; [|reflexivity|reflexivity].
        cbn [lit list_ascii_of_string app] in E. injection E as E.
        apply arcs_text_head in EB as (v & s & r & tv & t' & -> & X & ->). inversion X; subst tv.
        destruct (proj1 PV v) as (q & Q). rewrite Q in E.
        apply arcs_text_head in EA as (v' & s' & r' & tv' & t'' & -> & X' & ->).
        apply sdd_text_head in X' as (c & q' & -> & NC). cbn in E. injection E as E _. congruence.
      + rewrite hier_text in E2. destruct (arcs_text _ arcs') as [tb|] eqn:EB; [|discriminate]. inversion E2; subst u.
        repeat rewrite <- app_assoc in E. apply decN_prefix in E as [-> E]; [|reflexivity|reflexivity].
        cbn [lit list_ascii_of_string app] in E. injection E as E.
        rewrite <- !app_assoc in E. cbn [app] in E.
        refine ((fun P => match arcs_text_prefix _ _ _ _ _ _ a b P EA EB E with conj X Y => conj (f_equal _ X) Y end) _).
        intros v s H. destruct (IH v s H) as [IHv IHs]. split.
        * intros w tv tw a' b' X Y Z. eapply IHv in Z; eauto. destruct Z as [-> Z]. now inversion Z.
        * intros y ts ty a' b' X Y Z. eapply IHs; eauto.
  Qed.
End Sdd.

(** ** The texts of sets of values *)

(** What may follow a value. *)
Definition stops (t : text) : Prop := match t with c :: _ => c = comma \/ c = dot \/ c = closing | [] => False end.
(** The end of a value can be found, and a value does not look like the end of the empty set. *)
Definition value_code {A : Type} (pe : A -> text) : Prop :=
  (forall x y a b, stops a -> stops b -> pe x ++ a = pe y ++ b -> x = y /\ a = b) /\
  (forall x a b, stops a -> pe x ++ a <> closing :: " "%char :: b).

Lemma stops_no_digit a : stops a -> no_digit a.
Proof. destruct a; [easy|]. cbn. intros [->|[->| ->]]; reflexivity. Qed.
Lemma decN_code : value_code decN.
Proof.
  split.
  - intros x y a b SA SB. apply decN_prefix; now apply stops_no_digit.
  - intros x a b _. destruct (decN_head x) as (c & r & v & -> & D). intros E. inversion E; subst. discriminate.
Qed.
Lemma dec_code : value_code dec.
Proof.
  split.
  - intros x y a b SA SB. apply dec_prefix; now apply stops_no_digit.
  - intros x a b _. rewrite dec_sign. destruct (x <? 0)%Z; [discriminate|].
    destruct (decN_head (Z.abs_N x)) as (c & r & v & -> & D). intros E. inversion E; subst. discriminate.
Qed.
Lemma char_code : value_code (fun c : ascii => [c]).
Proof.
  split.
  - intros x y a b _ _ E. cbn in E. now inversion E.
  - intros x [|c a] b S E; [easy|]. cbn in E. inversion E; subst. cbn in S. destruct S as [S|[S|S]]; discriminate.
Qed.

(** *** Intervals *)

Section Intervals.
  Variable A : Type.
  Variable pe : A -> text.
  Variable num : A -> Z.
  Hypothesis num_inj : forall x y, num x = num y -> x = y.
  Hypothesis PE : value_code pe.

  (** (first, None): one element. *)
  Fixpoint intervals (first cit : A) (here : bool) (l : list A) : list (A * option A) :=
    let shown := (first, if here then None else Some cit) in
    match l with
    | [] => [shown]
    | x :: l' => if Z.eqb (num cit + 1) (num x) then intervals first x false l' else shown :: intervals x x true l'
    end.
  Definition interval_text (i : A * option A) : text :=
    match snd i with None => pe (fst i) | Some y => pe (fst i) ++ dot :: dot :: pe y end.

  Lemma intervals_cons f c h l : exists e r, intervals f c h l = (f, e) :: r.
  Proof. revert f c h. induction l as [|x l IH]; intros f c h; cbn; [eauto|]. destruct (Z.eqb (num c + 1) (num x)); eauto. Qed.

  Lemma int_set_loop_text l : forall f c h, (h = true -> f = c) ->
    int_set_loop pe num f c h l = list_text interval_text (intervals f c h l).
  Proof.
    induction l as [|x l IH]; intros f c h E; cbn [int_set_loop intervals].
    - destruct h; [rewrite E|]; reflexivity.
    - destruct (Z.eqb (num c + 1) (num x)); [now apply IH|]. rewrite IH by reflexivity.
      destruct (intervals_cons x x true l) as (e & r & ->). destruct h; [rewrite E|]; reflexivity.
  Qed.

  Definition span (a b : Z) : list Z := map (fun i => a + Z.of_nat i)%Z (seq 0 (Z.to_nat (b - a + 1))).
  Definition of_interval (i : A * option A) : list Z :=
    match snd i with None => [num (fst i)] | Some y => span (num (fst i)) (num y) end.
  Lemma span_one a : span a a = [a].
  Proof. unfold span. replace (a - a + 1)%Z with 1%Z by lia. change (Z.to_nat 1) with 1. cbn [seq map]. now rewrite Z.add_0_r. Qed.
  Lemma span_next a b : (a <= b)%Z -> span a (b + 1) = span a b ++ [(b + 1)%Z].
  Proof.
    intros L. unfold span. replace (Z.to_nat (b + 1 - a + 1)) with (S (Z.to_nat (b - a + 1))) by lia.
    rewrite seq_S, map_app. cbn [map]. f_equal. f_equal. lia.
  Qed.

  Lemma intervals_span l : forall f c h, (num f <= num c)%Z -> (h = true -> f = c) ->
    flat_map of_interval (intervals f c h l) = span (num f) (num c) ++ map num l.
  Proof.
    induction l as [|x l IH]; intros f c h L E; cbn [intervals flat_map].
    - destruct h; [|reflexivity]. rewrite E by reflexivity. now rewrite span_one.
    - destruct (Z.eqb_spec (num c + 1) (num x)) as [EQ|NE].
      + rewrite IH; [|lia|discriminate]. rewrite <- EQ, span_next by assumption. cbn [map]. rewrite <- EQ.
        now rewrite <- app_assoc.
      + cbn [flat_map]. rewrite IH by (reflexivity || lia). cbn [map]. rewrite span_one. f_equal.
        destruct h; [|reflexivity]. rewrite E by reflexivity. now rewrite span_one.
  Qed.

  Lemma interval_code : forall i j a b, (forall t, a <> dot :: t) -> (forall t, b <> dot :: t) -> stops a -> stops b ->
    interval_text i ++ a = interval_text j ++ b -> i = j /\ a = b.
  Proof.
    intros [x [y|]] [z [w|]] a b NA NB SA SB E; unfold interval_text in E; cbn [fst snd] in E.
    - rewrite <- !app_assoc in E. apply PE in E as [-> E]; [|cbn; auto|cbn; auto].
      cbn in E. injection E as E. apply PE in E as [-> ->]; auto.
    - exfalso. rewrite <- app_assoc in E. apply PE in E as [_ E]; auto; [|cbn; auto]. eapply NB. symmetry. exact E.
    - exfalso. rewrite <- app_assoc in E. apply PE in E as [_ E]; auto; [|cbn; auto]. eapply NA. exact E.
    - apply PE in E as [-> ->]; auto.
  Qed.
End Intervals.

Section Lists.
  Variable A : Type.
  Variable pe : A -> text.
  Hypothesis PE : forall x y a b, (forall t, a <> dot :: t) -> (forall t, b <> dot :: t) -> stops a -> stops b ->
    pe x ++ a = pe y ++ b -> x = y /\ a = b.
  Hypothesis PC : forall x a b, stops a -> pe x ++ a <> closing :: " "%char :: b.

  Lemma list_code : forall l m a b, l <> [] -> m <> [] ->
    list_text pe l ++ closing :: a = list_text pe m ++ closing :: b -> l = m /\ a = b.
  Proof.
    induction l as [|x l IH]; intros [|y m] a b NL NM E; try congruence.
    assert (S1 : forall t, stops (closing :: t)) by (intros; cbn; auto).
    assert (S2 : forall t, stops (comma :: t)) by (intros; cbn; auto).
    destruct l as [|x' l], m as [|y' m]; cbn [list_text] in E.
    - apply PE in E as [-> E]; auto; try (intros; discriminate). inversion E. auto.
    - exfalso. rewrite <- app_assoc, <- app_comm_cons in E. apply PE in E as [-> E]; auto; intros; discriminate.
    - exfalso. rewrite <- app_assoc, <- app_comm_cons in E. apply PE in E as [-> E]; auto; intros; discriminate.
    - rewrite <- !app_assoc, <- !app_comm_cons in E. apply PE in E as [-> E]; auto; try (intros; discriminate).
      injection E as E'. destruct (IH (y' :: m) a b) as [EL ->]; try discriminate; [exact E'|]. now rewrite EL.
  Qed.

  Lemma list_closing : forall l a b, l <> [] -> list_text pe l ++ closing :: a <> closing :: " "%char :: b.
  Proof.
    intros [|x [|y l]] a b N; [congruence| |]; cbn [list_text].
    - apply PC. cbn. auto.
    - rewrite <- app_assoc. apply PC. cbn. auto.
  Qed.

  Lemma set_code : forall l m a b,
    "{"%char :: list_text pe l ++ closing :: " "%char :: a = "{"%char :: list_text pe m ++ closing :: " "%char :: b -> l = m /\ a = b.
  Proof.
    intros l m a b E. injection E as E. destruct l as [|x l], m as [|y m].
    - cbn in E. inversion E. auto.
    - exfalso. symmetry in E. revert E. apply list_closing. discriminate.
    - exfalso. revert E. apply list_closing. discriminate.
    - apply list_code in E as [-> E]; try discriminate. now inversion E.
  Qed.
End Lists.

(** *** The texts of sets determine the sets *)

Lemma other_set_code (A : Type) (pe : A -> text) : value_code pe -> forall l m a b,
  other_set_text pe l ++ " "%char :: a = other_set_text pe m ++ " "%char :: b -> l = m /\ a = b.
Proof.
  intros [P1 P2] l m a b E. unfold other_set_text in E. cbn [app] in E. rewrite <- !app_assoc in E.
  apply set_code in E; auto.
Qed.

Lemma int_set_code (A : Type) (pe : A -> text) (num : A -> Z) : (forall x y, num x = num y -> x = y) -> value_code pe ->
  forall l m a b,
  int_set_text pe num l ++ " "%char :: a = int_set_text pe num m ++ " "%char :: b -> l = m /\ a = b.
Proof.
  intros NI PE.
  set (ivs := fun l : list A => match l with [] => [] | x :: l' => intervals A num x x true l' end).
  assert (T : forall l, int_set_text pe num l = "{"%char :: list_text (interval_text A pe) (ivs l) ++ [closing]).
  { intros [|x [|y l]]; [reflexivity|reflexivity|]. unfold int_set_text, ivs. now rewrite int_set_loop_text. }
  assert (X : forall l, flat_map (of_interval A num) (ivs l) = map num l).
  { intros [|x l]; [reflexivity|]. unfold ivs. rewrite intervals_span by (reflexivity || lia). now rewrite span_one. }
  intros l m a b E. rewrite !T in E. cbn [app] in E. rewrite <- !app_assoc in E.
  apply set_code in E as [E ->].
  - split; [|reflexivity]. apply (f_equal (flat_map (of_interval A num))) in E. rewrite !X in E.
    revert m E. induction l as [|x l IH]; intros [|y m] E; try discriminate; [reflexivity|].
    cbn in E. injection E as E1 E2. f_equal; auto.
  - now apply interval_code.
  - intros [x [y|]] c d S; unfold interval_text; cbn [fst snd]; [|now apply PE].
    rewrite <- app_assoc. apply PE. cbn. auto.
Qed.
