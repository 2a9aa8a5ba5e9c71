(** * The text of homomorphisms (C79)

    [hom_text pv pu pf pi h]: what [os << h] writes, [pv], [pu], [pf] and [pi] being what operator<< writes for the sets of
    values, the identifiers, the functions and the inductives of the user. *)

From Coq Require Import Ascii String List Bool Arith NArith ZArith Lia.
From Verif Require Import Base SortedSets Values FlatSet Sdd Orders OrdersProofs DDModel Spec DDTheorems Text SddText SddTextProps
  OrderText Concrete Hom HomFacts HomEval HomTyped HomConcrete HomProps HomText HomTextProofs.
Import ListNotations.

(** ** Which homomorphisms have the same text *)

(** Compositions grouped in another way: (a o b) o c and a o (b o c), anywhere. *)
Inductive regroup {V U F I : Type} : hom V U F I -> hom V U F I -> Prop :=
| R_refl h : regroup h h
| R_sym h k : regroup h k -> regroup k h
| R_trans h k l : regroup h k -> regroup k l -> regroup h l
| R_assoc a b c : regroup (HComp (HComp a b) c) (HComp a (HComp b c))
| R_left h k r : regroup h k -> regroup (HComp h r) (HComp k r)
| R_right h k l : regroup h k -> regroup (HComp l h) (HComp l k)
| R_consF o v h k : regroup h k -> regroup (HConsF o v h) (HConsF o v k)
| R_consH o v h k : regroup h k -> regroup (HConsH o v h) (HConsH o v k)
| R_fix h k : regroup h k -> regroup (HFix h) (HFix k)
| R_if h k t e : regroup h k -> regroup (HIte h t e) (HIte k t e)
| R_then h k p e : regroup h k -> regroup (HIte p h e) (HIte p k e)
| R_else h k p t : regroup h k -> regroup (HIte p t h) (HIte p t k)
| R_inter h k a b : regroup h k -> regroup (HInter (a ++ h :: b)) (HInter (a ++ k :: b))
| R_local x h k : regroup h k -> regroup (HLocal x h) (HLocal x k)
| R_satfix_f x h k g l : regroup h k -> regroup (HSatFix x h g l) (HSatFix x k g l)
| R_satfix_g x h k a b f l : regroup h k -> regroup (HSatFix x f (a ++ h :: b) l) (HSatFix x f (a ++ k :: b) l)
| R_satfix_l x h k f g : regroup h k -> regroup (HSatFix x f g h) (HSatFix x f g k)
| R_satinter_f x h k g l : regroup h k -> regroup (HSatInter x (Some h) g l) (HSatInter x (Some k) g l)
| R_satinter_g x h k a b f l : regroup h k -> regroup (HSatInter x f (a ++ h :: b) l) (HSatInter x f (a ++ k :: b) l)
| R_satinter_l x h k f g : regroup h k -> regroup (HSatInter x f g (Some h)) (HSatInter x f g (Some k))
| R_satsum_f x h k g l : regroup h k -> regroup (HSatSum x (Some h) g l) (HSatSum x (Some k) g l)
| R_satsum_g x h k a b f l : regroup h k -> regroup (HSatSum x f (a ++ h :: b) l) (HSatSum x f (a ++ k :: b) l)
| R_satsum_l x h k f g : regroup h k -> regroup (HSatSum x f g (Some h)) (HSatSum x f g (Some k))
| R_sum h k a b : regroup h k -> regroup (HSum (a ++ h :: b)) (HSum (a ++ k :: b)).

Lemma regroup_norm (V U F I : Type) (h k : hom V U F I) : regroup h k -> norm h = norm k.
Proof.
  induction 1; cbn [norm option_map]; rewrite ?map_app; cbn [map]; try congruence.
  apply comp_app_assoc.
Qed.

Section Regroup.
  Context {V U F I : Type}.
  Notation hom := (hom V U F I).
  Lemma regroup_list (c : list hom -> hom) :
    (forall h k a b, regroup h k -> regroup (c (a ++ h :: b)) (c (a ++ k :: b))) ->
    forall l, Forall (fun h => regroup h (norm h)) l -> regroup (c l) (c (map norm l)).
  Proof.
    intros C l H. assert (G : forall l, Forall (fun h => regroup h (norm h)) l -> forall a, regroup (c (a ++ l)) (c (a ++ map norm l))).
    { induction 1 as [|h r Hh Hr IH]; intros a; [apply R_refl|]. cbn [map]. eapply R_trans; [apply C, Hh|].
      specialize (IH (a ++ [norm h])). rewrite <- !app_assoc in IH. exact IH. }
    exact (G l H []).
  Qed.
  Lemma regroup_comp_app (h k : hom) : regroup (HComp h k) (comp_app h k).
  Proof.
    revert k. induction h; intros k; cbn [comp_app]; try apply R_refl.
    eapply R_trans; [apply R_assoc|]. apply R_right. apply IHh2.
  Qed.
  Lemma norm_regroup : forall h : hom, regroup h (norm h).
  Proof.
    induction h as [l r IHl IHr|o v n IH|o v n IH|x|k IH|t f| |p t e IHp IHt IHe|i|l IH|x k IH|x f g l IHf IHg IHl
      |x f g l IHf IHg IHl|x f g l IHf IHg IHl|l IH] using hom_ind'; cbn [norm]; try (constructor; assumption).
    - eapply R_trans; [apply R_left, IHl|]. eapply R_trans; [apply R_right, IHr|]. apply regroup_comp_app.
    - eapply R_trans; [apply R_if, IHp|]. eapply R_trans; [apply R_then, IHt|]. apply R_else, IHe.
    - apply (regroup_list HInter); auto. intros. now apply R_inter.
    - eapply R_trans; [apply R_satfix_f, IHf|]. eapply R_trans; [apply R_satfix_l, IHl|].
      apply (regroup_list (fun g => HSatFix x (norm f) g (norm l))); auto. intros. now apply R_satfix_g.
    - eapply R_trans; [apply (regroup_list (fun g => HSatInter x f g l)); auto; intros; now apply R_satinter_g|]. cbv beta.
      eapply R_trans.
      + instantiate (1 := HSatInter x (option_map norm f) (map norm g) l).
        destruct f as [f|]; cbn [option_map]; [apply R_satinter_f; auto|apply R_refl].
      + destruct l as [l|]; cbn [option_map]; [apply R_satinter_l; auto|apply R_refl].
    - eapply R_trans; [apply (regroup_list (fun g => HSatSum x f g l)); auto; intros; now apply R_satsum_g|]. cbv beta.
      eapply R_trans.
      + instantiate (1 := HSatSum x (option_map norm f) (map norm g) l).
        destruct f as [f|]; cbn [option_map]; [apply R_satsum_f; auto|apply R_refl].
      + destruct l as [l|]; cbn [option_map]; [apply R_satsum_l; auto|apply R_refl].
    - apply (regroup_list HSum); auto. intros. now apply R_sum.
  Qed.
End Regroup.

(** Grouping compositions in another way does not change the text: it has no parentheses for them.  For all homomorphisms. *)
Theorem C79_regrouped : forall V U F I (pv : V -> text) (pu : U -> text) (pf : F -> text) (pi : I -> text) (h k : hom V U F I),
  regroup h k -> hom_text pv pu pf pi h = hom_text pv pu pf pi k.
Proof.
  intros V U F I pv pu pf pi h k R. rewrite <- (norm_text V U F I pv pu pf pi h), (regroup_norm V U F I h k R). apply norm_text.
Qed.
Print Assumptions C79_regrouped.

(** *** Texts of the user of which the end can be found *)

(** When a comma follows; when a closing parenthesis follows. *)
Definition ends_at_comma {A : Type} (p : A -> text) : Prop :=
  forall x y a b, p x ++ ","%char :: a = p y ++ ","%char :: b -> x = y /\ a = b.
Definition ends_at_parenthesis {A : Type} (p : A -> text) : Prop :=
  forall x y a b, p x ++ ")"%char :: a = p y ++ ")"%char :: b -> x = y /\ a = b.
(** What follows a homomorphism in a text: the end, a parenthesis, a comma, or an operator. *)
Definition follows_operand (t : text) : Prop :=
  t = [] \/ exists s r, In s [")"; ","; " + "; " & "; " o "]%string /\ t = lit s ++ r.
(** What the texts of the homomorphisms of the library begin with. *)
Definition library_text (t : text) : Prop :=
  exists s r, In s ["("; "cons("; "const("; "fun("; "Id"; "ite("; "@("; "Sat"]%string /\ t = lit s ++ r.
Definition inductives_apart {A : Type} (p : A -> text) : Prop :=
  (forall i j a b, follows_operand a -> follows_operand b -> p i ++ a = p j ++ b -> i = j /\ a = b) /\
  (forall i a, follows_operand a -> ~ library_text (p i ++ a) /\ ~ follows_operand (p i ++ a)).

(** *** The homomorphisms of which the text can be read

    Those of the library: sums and intersections have two operands or more, constants have a text, and local homomorphisms (of
    the saturations) are not compositions.  Excluded: saturation fixpoints without part G.  The orders of the conses are given by
    their first identifiers, [ord]: this is so of the suborders of one order; the user part of artificial identifiers is always
    the same, [u0]. *)
Section Readable.
  Context {V U F I : Type}.
  Variable pv : V -> text.
  Variable u0 : U.
  Variable ord : oid U -> order U.
  Definition order_named (o : order U) : Prop :=
    exists id, o_identifier o = Some id /\ (is_artificial id = true -> usr id = u0) /\ o = ord id.
  Inductive can_read : hom V U F I -> Prop :=
  | Can_comp l r : can_read l -> can_read r -> can_read (HComp l r)
  | Can_consF o v n : order_named o -> can_read n -> can_read (HConsF o v n)
  | Can_consH o x n : order_named o -> sdd_text V pv x <> None -> can_read n -> can_read (HConsH o x n)
  | Can_const x : sdd_text V pv x <> None -> can_read (HConst x)
  | Can_fix h : can_read h -> can_read (HFix h)
  | Can_fun x f : can_read (HFun x f)
  | Can_id : can_read HId
  | Can_ite p t e : can_read p -> can_read t -> can_read e -> can_read (HIte p t e)
  | Can_ind i : can_read (HInd i)
  | Can_inter l : 2 <= length l -> (forall h, In h l -> can_read h) -> can_read (HInter l)
  | Can_local x h : can_read h -> can_read (HLocal x h)
  | Can_satfix x f g l : can_read f -> g <> [] -> (forall h, In h g -> can_read h) -> can_read l -> can_read (HSatFix x f g l)
  | Can_satinter x f g l : (forall h, f = Some h -> can_read h) -> (forall h, In h g -> can_read h) ->
      (forall h, l = Some h -> can_read h) -> can_read (HSatInter x f g l)
  | Can_satsum x f g l : (forall h, f = Some h -> can_read h) -> (forall h, In h g -> can_read h) ->
      (forall h, l = Some h -> can_read h /\ forall a b, h <> HComp a b) -> can_read (HSatSum x f g l)
  | Can_sum l : 2 <= length l -> (forall h, In h l -> can_read h) -> can_read (HSum l).

  Lemma can_read_readable : forall h, can_read h -> readable V U F I pv u0 ord h.
  Proof.
    assert (A : forall l : list (hom V U F I), Forall (fun h => can_read h -> readable V U F I pv u0 ord h) l ->
      (forall h, In h l -> can_read h) -> fold_right (fun k p => readable V U F I pv u0 ord k /\ p) True l).
    { intros l H C. apply all_readable. rewrite Forall_forall in *. auto. }
    induction h as [l r IHl IHr|o v n IH|o v n IH|x|k IH|t f| |p t e IHp IHt IHe|i|l IH|x k IH|x f g l IHf IHg IHl
      |x f g l IHf IHg IHl|x f g l IHf IHg IHl|l IH] using hom_ind'; intros C; inversion C; subst; cbn [readable]; auto.
    - split; [|split]; [destruct f; auto|now apply A|destruct l; auto].
    - split; [destruct f; auto|split; [now apply A|]]. destruct l as [l|]; auto.
      match goal with X : forall h, Some l = Some h -> _ |- _ => destruct (X l eq_refl) as [X1 X2] end.
      split; [destruct l; try reflexivity; exfalso; eapply X2; reflexivity|auto].
  Qed.
End Readable.

(** The text determines the homomorphism, up to the grouping of compositions. *)
Theorem C79_text_partial : forall V U F I (pv : V -> text) (pu : U -> text) (pf : F -> text) (pi : I -> text),
  determined pv -> ends_at_comma pv -> ends_at_comma pu -> (forall u t, pu u <> "@"%char :: t) ->
  ends_at_parenthesis pf -> inductives_apart pi ->
  forall u0 ord (h k : hom V U F I), can_read pv u0 ord h -> can_read pv u0 ord k ->
  (exists t, hom_text pv pu pf pi h = Some t) /\
  (hom_text pv pu pf pi h = hom_text pv pu pf pi k <-> regroup h k).
Proof.
  intros V U F I pv pu pf pi PV PVC PU PA PF PI u0 ord h k CH CK.
  apply can_read_readable in CH, CK. split; [eapply readable_text; eauto|]. split; [|apply C79_regrouped].
  intros E. eapply R_trans; [apply norm_regroup|]. apply R_sym.
  assert (PI' : inductive_code I pi).
  { assert (X : forall t, stop_o t -> follows_operand t).
    { intros t [[->|(s & r & H & ->)]|(r & ->)]; [now left|right; exists s, r; split; [cbn in *; tauto|reflexivity]|].
      right. exists " o "%string, r. split; [cbn; tauto|reflexivity]. }
    assert (Y : forall t, follows_operand t -> stop_o t).
    { intros t [->|(s & r & H & ->)]; [left; now left|]. cbn in H.
      decompose [or] H; subst; try contradiction; try (left; right; eexists _, r; split; [|reflexivity]; cbn; tauto).
      right. eauto. }
    split; [intros i j a b A B; apply PI; auto|]. intros i a A. destruct PI as [_ P]. destruct (P i a (X a A)) as [P1 P2].
    split; [exact P1|]. intros B. apply P2. auto. }
  rewrite (text_norm V U F I pv pu pf pi u0 ord PV PVC PU PA PF PI' h k CH CK E). apply norm_regroup.
Qed.
Print Assumptions C79_text_partial.

(** ** Parentheses *)

(** [matched n t]: the number of open parentheses after [t], [n] before it; none if one is closed that is not open. *)
Fixpoint matched (n : nat) (t : text) : option nat :=
  match t with
  | [] => Some n
  | c :: r => if Ascii.eqb c "("%char then matched (S n) r
              else if Ascii.eqb c ")"%char then match n with 0 => None | S n => matched n r end
              else matched n r
  end.
Definition balanced (t : text) : Prop := forall n, matched n t = Some n.

Lemma matched_app n t u : matched n (t ++ u) = match matched n t with None => None | Some m => matched m u end.
Proof.
  revert n. induction t as [|c t IH]; intros n; cbn [matched app]; [reflexivity|].
  destruct (Ascii.eqb c "("%char); [apply IH|]. destruct (Ascii.eqb c ")"%char); [|apply IH]. destruct n; [reflexivity|apply IH].
Qed.
Lemma balanced_app t u : balanced t -> balanced u -> balanced (t ++ u).
Proof. intros A B n. rewrite matched_app, A. apply B. Qed.
Lemma balanced_in s t e : (forall n, matched n s = Some (S n)) -> (forall n, matched (S n) e = Some n) -> balanced t -> balanced (s ++ t ++ e).
Proof. intros A B C n. rewrite !matched_app, A, matched_app, C. apply B. Qed.
Lemma balanced_decN n : balanced (decN n).
Proof.
  intros m. unfold decN.
  assert (X : forall d m, matched m (lit (DecimalString.NilEmpty.string_of_uint d)) = Some m) by (induction d; intros m'; cbn; auto).
  destruct (N.to_uint n) eqn:E; try exact (X _ m). reflexivity.
Qed.
Lemma balanced_lit s : forallb (fun c => negb (Ascii.eqb c "("%char) && negb (Ascii.eqb c ")"%char)) (lit s) = true -> balanced (lit s).
Proof.
  generalize (lit s). clear s. induction t as [|c t IH]; intros H n; [reflexivity|]. cbn [forallb] in H.
  apply andb_true_iff in H as [H1 H2]. apply andb_true_iff in H1 as [H1 H3]. cbn [matched].
  destruct (Ascii.eqb c "("%char); [discriminate|]. destruct (Ascii.eqb c ")"%char); [discriminate|]. now apply IH.
Qed.

Section Parentheses.
  Context {V U F I : Type}.
  Variable pv : V -> text.
  Variable pu : U -> text.
  Variable pf : F -> text.
  Variable pi : I -> text.
  Hypothesis BV : forall v, balanced (pv v).
  Hypothesis BU : forall u, balanced (pu u).
  Hypothesis BF : forall f, balanced (pf f).
  Hypothesis BI : forall i, balanced (pi i).
  Notation hom_text := (@hom_text V U F I pv pu pf pi).

  Ltac lits := apply balanced_lit; reflexivity.
  Lemma balanced_arcs (W : Type) (pw : W -> option text) (l : list (W * sdd V)) :
    (forall v s, In (v, s) l -> (forall t, pw v = Some t -> balanced t) /\ (forall t, sdd_text V pv s = Some t -> balanced t)) ->
    forall t, arcs_text V pv pw l = Some t -> balanced t.
  Proof.
    induction l as [|[v s] l IH]; intros H t E; [discriminate|]. cbn [arcs_text] in E.
    destruct (H v s (or_introl eq_refl)) as [H1 H2]. destruct (pw v) as [tv|]; [|discriminate].
    destruct (sdd_text V pv s) as [ts|]; [|discriminate].
    assert (B : balanced (tv ++ lit " --> " ++ ts)) by (apply balanced_app; auto; apply balanced_app; auto; lits).
    destruct l as [|a l]; [apply some_inj in E; subst t; exact B|].
    destruct (arcs_text V pv pw (a :: l)) as [tr|]; [|discriminate]. apply some_inj in E; subst t.
    apply balanced_app; [exact B|]. apply balanced_app; [lits|]. apply IH; auto. intros v' s' X. apply H. now right.
  Qed.
  Lemma balanced_sdd : forall x t, sdd_text V pv x = Some t -> balanced t.
  Proof.
    induction x as [| |n arcs IH|n arcs IH] using sdd_ind'; intros t E.
    - apply some_inj in E; subst t. lits.
    - apply some_inj in E; subst t. lits.
    - rewrite flat_text in E. destruct (arcs_text V pv _ arcs) as [ta|] eqn:A; [|discriminate]. apply some_inj in E; subst t.
      apply balanced_app; [apply balanced_decN|]. apply balanced_app; [lits|]. apply balanced_app; [|lits].
      revert A. apply balanced_arcs. intros v s X. split; [intros t T; apply some_inj in T; subst t; apply BV|intros t; eapply IH; eauto].
    - rewrite hier_text in E. destruct (arcs_text V pv _ arcs) as [ta|] eqn:A; [|discriminate]. apply some_inj in E; subst t.
      apply balanced_app; [apply balanced_decN|]. apply balanced_app; [lits|]. apply balanced_app; [|lits].
      revert A. apply balanced_arcs. intros v s X. destruct (IH v s X). split; auto.
  Qed.
  Lemma balanced_oid i : balanced (oid_text pu i).
  Proof.
    unfold oid_text. destruct (is_artificial i); [|apply BU].
    apply balanced_app; [lits|]. apply balanced_app; [apply balanced_decN|lits].
  Qed.
  Lemma balanced_join s l : balanced (lit s) -> Forall balanced l -> balanced (join (lit s) l).
  Proof.
    intros B. induction 1 as [|t l Bt Bl IH]; [intros n; reflexivity|]. destruct l as [|u l]; [exact Bt|].
    cbn [join]. apply balanced_app; [exact Bt|]. apply balanced_app; [exact B|]. exact IH.
  Qed.

  (** Homomorphisms without saturations, but intersections of which the part G is empty. *)
  Fixpoint parenthesized (h : hom V U F I) : Prop :=
    let all := fun l => fold_right (fun k p => parenthesized k /\ p) True l in
    match h with
    | HComp l r => parenthesized l /\ parenthesized r
    | HConsF _ _ n | HConsH _ _ n => parenthesized n
    | HConst _ | HFun _ _ | HId | HInd _ => True
    | HFix k | HLocal _ k => parenthesized k
    | HIte p t e => parenthesized p /\ parenthesized t /\ parenthesized e
    | HInter l | HSum l => all l
    | HSatFix _ _ _ _ => False
    | HSatInter _ f g l => g = [] /\ match f with Some k => parenthesized k | None => True end
                                  /\ match l with Some k => parenthesized k | None => True end
    | HSatSum _ _ _ _ => False
    end.

  Lemma balanced_hom : forall h t, parenthesized h -> hom_text h = Some t -> balanced t.
  Proof.
    assert (A : forall (l : list (hom V U F I)) ts, Forall (fun h => forall t, parenthesized h -> hom_text h = Some t -> balanced t) l ->
      fold_right (fun k p => parenthesized k /\ p) True l -> all_texts (map hom_text l) = Some ts -> Forall balanced ts).
    { intros l ts H P E. apply all_texts_inv in E. apply fold_forall in P. revert H P.
      induction E as [|h t l ts Et _ IH]; intros H P; constructor; inversion H; inversion P; subst; eauto. }
    assert (O : forall s, (forall n, matched n (lit s) = Some (S n)) -> forall t, balanced t -> balanced (lit s ++ t ++ lit ")")).
    { intros s H t B. apply balanced_in; auto. }
    induction h as [l r IHl IHr|o v n IH|o v n IH|x|k IH|x f| |p q e IHp IHq IHe|i|l IH|x k IH|x f g l IHf IHg IHl
      |x f g l IHf IHg IHl|x f g l IHf IHg IHl|l IH] using hom_ind'; intros t P E; cbn [parenthesized] in P; cbn [HomText.hom_text] in E.
    - destruct (hom_text l) as [tl|]; [|discriminate]. destruct (hom_text r) as [tr|]; [|discriminate].
      apply some_inj in E; subst t. apply balanced_app; [now apply IHl|]. apply balanced_app; [lits|now apply IHr].
    - destruct (o_identifier o) as [id|]; [|discriminate]. destruct (hom_text n) as [tn|]; [|discriminate].
      apply some_inj in E; subst t.
      replace (lit "cons(" ++ oid_text pu id ++ lit ", " ++ pv v ++ lit ", " ++ tn ++ lit ")")
        with (lit "cons(" ++ (oid_text pu id ++ lit ", " ++ pv v ++ lit ", " ++ tn) ++ lit ")") by now rewrite <- !app_assoc.
      apply O; [reflexivity|]. repeat (apply balanced_app; [auto using balanced_oid; lits|]). auto.
    - destruct (o_identifier o) as [id|]; [|discriminate]. destruct (sdd_text V pv v) as [tv|] eqn:EV; [|discriminate].
      destruct (hom_text n) as [tn|]; [|discriminate]. apply some_inj in E; subst t.
      replace (lit "cons(" ++ oid_text pu id ++ lit ", " ++ tv ++ lit ", " ++ tn ++ lit ")")
        with (lit "cons(" ++ (oid_text pu id ++ lit ", " ++ tv ++ lit ", " ++ tn) ++ lit ")") by now rewrite <- !app_assoc.
      apply O; [reflexivity|]. apply balanced_sdd in EV. repeat (apply balanced_app; [auto using balanced_oid; lits|]). auto.
    - destruct (sdd_text V pv x) as [tx|] eqn:EX; [|discriminate]. apply some_inj in E; subst t. apply O; [reflexivity|].
      eapply balanced_sdd; eauto.
    - destruct (hom_text k) as [tk|]; [|discriminate]. apply some_inj in E; subst t.
      apply balanced_in; [reflexivity|reflexivity|now apply IH].
    - apply some_inj in E; subst t.
      replace (lit "fun(" ++ decN x ++ lit ", " ++ pf f ++ lit ")") with (lit "fun(" ++ (decN x ++ lit ", " ++ pf f) ++ lit ")")
        by now rewrite <- !app_assoc.
      apply O; [reflexivity|]. apply balanced_app; [apply balanced_decN|]. apply balanced_app; [lits|apply BF].
    - apply some_inj in E; subst t. lits.
    - destruct (hom_text p) as [tp|]; [|discriminate]. destruct (hom_text q) as [tq|]; [|discriminate].
      destruct (hom_text e) as [te|]; [|discriminate]. apply some_inj in E; subst t.
      replace (lit "ite(" ++ tp ++ lit ", " ++ tq ++ lit "," ++ te ++ lit ")")
        with (lit "ite(" ++ (tp ++ lit ", " ++ tq ++ lit "," ++ te) ++ lit ")") by now rewrite <- !app_assoc.
      destruct P as (P1 & P2 & P3).
      apply O; [reflexivity|]. apply balanced_app; [now apply IHp|]. apply balanced_app; [lits|].
      apply balanced_app; [now apply IHq|]. apply balanced_app; [lits|now apply IHe].
    - apply some_inj in E; subst t. apply BI.
    - destruct l as [|h l]; [discriminate|]. destruct (all_texts (map hom_text (h :: l))) as [ts|] eqn:TS; [|discriminate].
      apply some_inj in E; subst t. apply O; [reflexivity|]. apply balanced_join; [lits|]. eapply A; eauto.
    - destruct (hom_text k) as [tk|]; [|discriminate]. apply some_inj in E; subst t.
      replace (lit "@(" ++ decN x ++ lit ", " ++ tk ++ lit ")") with (lit "@(" ++ (decN x ++ lit ", " ++ tk) ++ lit ")")
        by now rewrite <- !app_assoc.
      apply O; [reflexivity|]. apply balanced_app; [apply balanced_decN|]. apply balanced_app; [lits|now apply IH].
    - contradiction.
    - destruct P as (-> & Pf & Pl). cbn [map all_texts] in E.
      assert (OT : forall o : option (hom V U F I), (forall h, o = Some h -> forall t, parenthesized h -> hom_text h = Some t -> balanced t) ->
        match o with Some k => parenthesized k | None => True end ->
        forall t, match o with None => Some [] | Some k => hom_text k end = Some t -> balanced t).
      { intros [h|] H Ph t' Et; [eapply H; eauto|]. apply some_inj in Et; subst t'. intros n. reflexivity. }
      pose proof (OT f IHf Pf) as Bf. pose proof (OT l IHl Pl) as Bl.
      destruct (match f with None => Some [] | Some k => hom_text k end) as [tf|]; [|discriminate].
      destruct (match l with None => Some [] | Some k => hom_text k end) as [tl|]; [|discriminate].
      apply some_inj in E; subst t. cbn [group_text]. cbn [app].
      match goal with |- balanced ?t => replace t with (lit "SatInter(@" ++ (decN x ++ lit ", F=" ++ tf ++ lit ", G=" ++ lit ", L=" ++ tl) ++ lit ")") end.
      2: { rewrite <- !app_assoc. reflexivity. }
      apply O; [reflexivity|]. apply balanced_app; [apply balanced_decN|]. apply balanced_app; [lits|].
      apply balanced_app; [now apply Bf|]. apply balanced_app; [lits|]. apply balanced_app; [lits|now apply Bl].
    - contradiction.
    - destruct l as [|h l]; [discriminate|]. destruct (all_texts (map hom_text (h :: l))) as [ts|] eqn:TS; [|discriminate].
      apply some_inj in E; subst t. apply O; [reflexivity|]. apply balanced_join; [lits|]. eapply A; eauto.
  Qed.
End Parentheses.

(** The parentheses of a text match, if those of the texts of the user do, for homomorphisms that were not rewritten. *)
Theorem C79_parentheses_partial : forall V U F I (pv : V -> text) (pu : U -> text) (pf : F -> text) (pi : I -> text),
  (forall v, balanced (pv v)) -> (forall u, balanced (pu u)) -> (forall f, balanced (pf f)) -> (forall i, balanced (pi i)) ->
  forall (h : hom V U F I) t, parenthesized h -> hom_text pv pu pf pi h = Some t -> balanced t.
Proof. intros V U F I pv pu pf pi BV BU BF BI h t. apply (balanced_hom pv pu pf pi BV BU BF BI). Qed.
Print Assumptions C79_parentheses_partial.

(** ** Concrete cases *)

Lemma unsigned_comma : ends_at_comma unsigned_set.
Proof.
  set (ivs := fun l : list N => match l with [] => [] | x :: l' => intervals N Z.of_N x x true l' end).
  assert (T : forall l, int_set_text decN Z.of_N l = "{"%char :: list_text (interval_text N decN) (ivs l) ++ [closing]).
  { intros [|x [|y l]]; [reflexivity|reflexivity|]. unfold int_set_text, ivs. now rewrite int_set_loop_text. }
  assert (X : forall l, flat_map (of_interval N Z.of_N) (ivs l) = map Z.of_N l).
  { intros [|x l]; [reflexivity|]. unfold ivs. rewrite intervals_span by (reflexivity || lia). now rewrite span_one. }
  assert (Y : forall i l a b, list_text (interval_text N decN) (i :: l) ++ a <> closing :: b).
  { intros [x e] l a b E. destruct (decN_head x) as (c & r & v & Q & D).
    assert (H : exists q, list_text (interval_text N decN) ((x, e) :: l) ++ a = c :: q).
    { destruct l as [|j l]; destruct e as [e|]; cbn [list_text interval_text fst snd]; unfold interval_text; cbn [fst snd];
        rewrite Q; cbn [app]; eauto. }
    destruct H as [q H]. rewrite H in E. injection E as -> _. discriminate. }
  intros v w a b E. unfold unsigned_set in E. rewrite !T in E. cbn [app] in E. rewrite <- !app_assoc in E.
  injection E as E. cbn [app] in E.
  assert (H : ivs (proj1_sig v) = ivs (proj1_sig w) /\ a = b).
  { destruct (ivs (proj1_sig v)) as [|i l], (ivs (proj1_sig w)) as [|j m].
    - cbn in E. injection E as ->. auto.
    - exfalso. symmetry in E. now apply Y in E.
    - exfalso. now apply Y in E.
    - apply list_code in E as [-> E]; [injection E as ->; auto| |discriminate|discriminate].
      apply interval_code, decN_code. }
  destruct H as [H ->]. split; [|reflexivity]. apply fset_eq.
  apply (f_equal (flat_map (of_interval N Z.of_N))) in H. rewrite !X in H. revert H.
  generalize (proj1_sig v), (proj1_sig w). clear. induction l as [|x l IH]; intros [|y m] E; try discriminate; [reflexivity|].
  cbn [map] in E. injection E as E1 E2. apply N2Z.inj in E1. subst. f_equal. auto.
Qed.

(** A program of which the functions and the inductives are numbers. *)
Definition t_hom : Type := hom (fset N.ltb) nat N N.
Definition t_id (n : nat) : text := decN (N.of_nat n).
Definition t_ind (n : N) : text := lit "#" ++ decN n.
Notation t_text := (hom_text unsigned_set t_id decN t_ind).
Lemma follows_no_digit a : follows_operand a -> no_digit a.
Proof. intros [->|(s & r & H & ->)]; [exact Logic.I|]. cbn in H. decompose [or] H; subst; reflexivity || contradiction. Qed.
Lemma t_ind_apart : inductives_apart t_ind.
Proof.
  split.
  - intros i j a b A B E. unfold t_ind in E. rewrite <- !app_assoc in E. injection E as E.
    apply decN_prefix in E; auto using follows_no_digit.
  - intros i a A. unfold t_ind. split.
    + intros (s & r & H & E). cbn in H. decompose [or] H; subst; try contradiction; discriminate.
    + intros [E|(s & r & H & E)]; [discriminate|]. cbn in H. decompose [or] H; subst; try contradiction; discriminate.
Qed.
Lemma t_id_comma : ends_at_comma t_id.
Proof.
  intros x y a b E. apply decN_prefix in E as [E1 E2]; [|reflexivity..]. apply Nat2N.inj in E1. injection E2 as ->. auto.
Qed.
Lemma t_id_user u t : t_id u <> "@"%char :: t.
Proof. unfold t_id. destruct (decN_head (N.of_nat u)) as (c & r & v & -> & D). intros E. injection E as -> _. discriminate. Qed.
Lemma t_fun : ends_at_parenthesis decN.
Proof. intros x y a b E. apply decN_prefix in E as [-> E2]; [|reflexivity..]. injection E2 as ->. auto. Qed.

(** Two orders: the second one has one more variable. *)
Definition t_oid (n : nat) : oid nat := {| art := 0; usr := n |}.
Definition t_order (l : list nat) : order nat :=
  match mk_order nat Nat.eqb (fold_right (fun n b => BNode (t_oid n) BNil b) BNil l) with Ok o => o | Err _ => {| o_nodes := []; o_map := []; o_head := None |} end.
Definition t_h : t_hom :=
  HComp (HComp (HFun 1 5%N) (HLocal 2 (HFix (HSum [HId; HInd 3%N]))))
        (HIte (HConst (Flat 0 [(fs [4]%N, One)])) (HInter [HId; HConsF (t_order [7; 8]) (fs [1; 2]%N) HId])
              (HSatSum 3 (Some HId) [HSatFix 2 HId [HInd 6%N] HId] (Some (HLocal 3 HId)))).
Definition t_named (id : oid nat) : order nat := t_order [7; 8].
Lemma t_h_can_read : can_read unsigned_set 0 t_named t_h.
Proof.
  unfold t_h.
  repeat (match goal with
          | |- forall h, In h _ -> _ => let h := fresh in let H := fresh in intros h H; cbn [In] in H; decompose [or] H; subst; try contradiction
          | |- forall a b, _ <> _ => intros; discriminate
          | |- _ <= _ => cbn; lia
          | |- forall h, Some _ = Some h -> _ => let h := fresh in let H := fresh in intros h H; injection H as <-
          end || constructor || discriminate).
  - exists (t_oid 7). split; [reflexivity|]. split; [discriminate|reflexivity].
Qed.
Example C79_ex : determined unsigned_set /\ ends_at_comma unsigned_set /\ ends_at_comma t_id /\ (forall u t, t_id u <> "@"%char :: t) /\
  ends_at_parenthesis decN /\ inductives_apart t_ind /\ can_read unsigned_set 0 t_named t_h /\
  t_text t_h = Some (lit ("fun(1, 5) o @(2, ((Id + #3))*) o ite(const(0[{4} --> |1|]), (Id & cons(7, {1..2}, Id))," ++
                          "SatSum(@3, F=Id, G=Sat(@2,  Id + Id + #6)*), L=@(3, Id))")).
Proof.
  split; [apply unsigned_code|]. split; [exact unsigned_comma|]. split; [exact t_id_comma|]. split; [exact t_id_user|].
  split; [exact t_fun|]. split; [exact t_ind_apart|]. split; [exact t_h_can_read|]. vm_compute. reflexivity.
Qed.

(** ** What is false *)

(** The text of a cons has the first identifier of its order, not the order: the claim that the text determines the homomorphism
    is false.  Whatever the texts of the user are. *)
Theorem C79_cons_refuted : forall pv pu pf pi, exists (o o' : order nat) (v : vt FS) y y',
  let h : exhom := cons_flat FS nat exfun exind o v HId in
  let k : exhom := cons_flat FS nat exfun exind o' v HId in
  hom_text pv pu pf pi h = hom_text pv pu pf pi k /\ hom_text pv pu pf pi h <> None /\
  ex_evals h One y /\ ex_evals k One y' /\ y <> y'.
Proof.
  intros pv pu pf pi. exists (t_order [7]), (t_order [7; 8]), (fs [1%N]), (Flat 0 [(fs [1%N], One)]), (Flat 1 [(fs [1%N], One)]).
  cbv zeta. split; [reflexivity|]. split; [discriminate|].
  split; [exists 20, 20; vm_compute; reflexivity|]. split; [exists 20, 20; vm_compute; reflexivity|]. discriminate.
Qed.
Print Assumptions C79_cons_refuted.

(** Rewriting: two sums of homomorphisms that rewrite returned.  The text of a saturation fixpoint without part G is not closed, so
    that the operands that follow it can be those of the sum as well as its own part G.  The results are different. *)
Definition get (r : res (cerr nat) exhom) : exhom := match r with Ok h => h | Err _ => HId end.
Notation rewritten h := (get (rewrite FS nat exfun exind HP_up ex_user exo h)).
Notation summed l := (get (mk_sum FS nat exfun exind HP_up l)).
Notation fixed l := (rewritten (fixpoint FS nat exfun exind (summed l))).
Definition z_l : exhom := HLocal 1 (HFun 1 (Fmap [(20, 21)]%N)).
Definition z_f (a b : N) : exhom := HFun 0 (Fmap [(a, b)]).
Definition z_c : exhom := fixed [HId; z_l; z_f 30 31; HComp (z_f 40 41) z_l].
Definition z_h : exhom := summed [HId; fixed [HId; z_l; z_f 6 7]; fixed [HId; z_l; z_f 7 8; z_c]].
Definition z_k : exhom := summed [HId; fixed [HId; z_l; z_f 6 7; fixed [HId; z_l; z_f 7 8]; z_c]].

(** Homomorphisms obtained through the library. *)
Inductive made : exhom -> Prop :=
| M_id : made HId
| M_fun x f : made (HFun x f)
| M_local x h : made h -> made (local FS nat exfun exind x h)
| M_comp l r h : made l -> made r -> composition FS nat exfun exind l r = Ok h -> made h
| M_sum l h : (forall k, In k l -> made k) -> mk_sum FS nat exfun exind HP_up l = Ok h -> made h
| M_inter l h : (forall k, In k l -> made k) -> mk_inter FS nat exfun exind HP_up l = Ok h -> made h
| M_fix h : made h -> made (fixpoint FS nat exfun exind h)
| M_rewrite h k : made h -> rewrite FS nat exfun exind HP_up ex_user exo h = Ok k -> made k.
Lemma made_get r (P : exhom -> Prop) : (exists h, r = Ok h /\ P h) -> P (get r).
Proof. intros (h & -> & H). exact H. Qed.
Lemma made_summed l : (exists h, mk_sum FS nat exfun exind HP_up l = Ok h) -> (forall k, In k l -> made k) -> made (summed l).
Proof. intros (h & E) H. apply made_get. exists h. split; [exact E|]. eapply M_sum; eauto. Qed.
Lemma made_rewritten h : (exists k, rewrite FS nat exfun exind HP_up ex_user exo h = Ok k) -> made h -> made (rewritten h).
Proof. intros (k & E) H. apply made_get. exists k. split; [exact E|]. eapply M_rewrite; eauto. Qed.
Lemma made_z_l : made z_l.
Proof. apply (M_local 1 (HFun 1 (Fmap [(20, 21)]%N))), M_fun. Qed.
Ltac made :=
  match goal with
  | |- made HId => apply M_id
  | |- made z_l => exact made_z_l
  | |- made (z_f _ _) => apply M_fun
  | |- made z_c => unfold z_c; made
  | |- made (HComp ?l ?r) => apply (M_comp l r); [made|made|vm_compute; reflexivity]
  | |- made (rewritten _) => apply made_rewritten; [eexists; vm_compute; reflexivity|made]
  | |- made (fixpoint _ _ _ _ _) => apply M_fix; made
  | |- made (summed _) => apply made_summed; [eexists; vm_compute; reflexivity|
      let k := fresh in let H := fresh in intros k H; cbn [In] in H; repeat (destruct H as [<-|H]; [made|]); destruct H]
  end.

Lemma two_readings V U F I pv pu pf pi (z f l a b c : hom V U F I) x y :
  hom_text pv pu pf pi (HSum [z; f; l; a; b; c]) <> None ->
  hom_text pv pu pf pi (HSum [z; HSatFix x f [] l; HSatFix y a [c] b]) = hom_text pv pu pf pi (HSum [z; HSatFix x f [HSatFix y a [] b; c] l]) /\
  hom_text pv pu pf pi (HSum [z; HSatFix x f [] l; HSatFix y a [c] b]) <> None.
Proof.
  cbn [hom_text map all_texts].
  destruct (hom_text pv pu pf pi z) as [tz|]; [|intros X; now elim X]. destruct (hom_text pv pu pf pi f) as [tf|]; [|intros X; now elim X].
  destruct (hom_text pv pu pf pi l) as [tl|]; [|intros X; now elim X]. destruct (hom_text pv pu pf pi a) as [ta|]; [|intros X; now elim X].
  destruct (hom_text pv pu pf pi b) as [tb|]; [|intros X; now elim X]. destruct (hom_text pv pu pf pi c) as [tc|]; [|intros X; now elim X].
  intros _. cbn [option_map text2 join]. split; [|discriminate]. rewrite <- !app_assoc. reflexivity.
Qed.
Definition z_fix (a b : N) : exhom := HSatFix 0 HId [z_f a b] HId.
Definition z_loc : exhom := HLocal 1 (HSatFix 1 HId [HFun 1 (Fmap [(20, 21)]%N)] HId).
Definition z_c' : exhom := HSatFix 1 (z_fix 30 31) [HComp (z_f 40 41) z_l] z_loc.
Lemma z_h_shape : z_h = HSum [HId; HSatFix 1 (z_fix 6 7) [] z_loc; HSatFix 1 (z_fix 7 8) [z_c'] z_loc].
Proof. vm_compute. reflexivity. Qed.
Lemma z_k_shape : z_k = HSum [HId; HSatFix 1 (z_fix 6 7) [HSatFix 1 (z_fix 7 8) [] z_loc; z_c'] z_loc].
Proof. vm_compute. reflexivity. Qed.

Theorem C79_saturation_refuted : exists h k x y z p, made h /\ made k /\
  (forall pv pu pf pi, hom_text pv pu pf pi h = hom_text pv pu pf pi k /\ hom_text pv pu pf pi h <> None) /\
  ex_evals h x y /\ ex_evals k x z /\ contains y p = false /\ contains z p = true.
Proof.
  destruct (ask_spec exo z_h (box [0] [3] [5] [6])%N (point 0 3 5 8) false) as (y & Ey & Cy); [vm_compute; reflexivity|].
  destruct (ask_spec exo z_k (box [0] [3] [5] [6])%N (point 0 3 5 8) true) as (z & Ez & Cz); [vm_compute; reflexivity|].
  exists z_h, z_k, (box [0] [3] [5] [6])%N, y, z, (point 0 3 5 8). split; [unfold z_h; made|]. split; [unfold z_k; made|].
  split; [|auto]. intros pv pu pf pi. rewrite z_h_shape, z_k_shape. apply two_readings. vm_compute. discriminate.
Qed.
Print Assumptions C79_saturation_refuted.

(** After a rewriting, parentheses do not match: one is missing after a saturation fixpoint or a saturation sum without part G, and
    there is one too many after a saturation intersection with a part G. *)
Theorem C79_parentheses_refuted : exists (pv : vt FS -> text) (pu : nat -> text) (pf : exfun -> text) (pi : exind -> text),
  (forall v, balanced (pv v)) /\ (forall u, balanced (pu u)) /\ (forall f, balanced (pf f)) /\ (forall i, balanced (pi i)) /\
  exists h k l t u v, made h /\ made k /\ made l /\
  hom_text pv pu pf pi h = Some t /\ hom_text pv pu pf pi k = Some u /\ hom_text pv pu pf pi l = Some v /\
  matched 0 t = Some 1 /\ matched 0 u = Some 1 /\ matched 0 v = None.
Proof.
  exists (fun _ => lit "{}"), (fun _ => lit "x"), (fun _ => lit "f"), (fun _ => lit "i"). split; [intros _; now apply balanced_lit|].
  split; [intros _; now apply balanced_lit|]. split; [intros _; now apply balanced_lit|]. split; [intros _; now apply balanced_lit|].
  exists (fixed [HId; z_l; z_f 6 7]), (rewritten (summed [z_l; z_f 6 7])), (rewritten (get (mk_inter FS nat exfun exind HP_up [z_f 6 7; HFun 2 (Fadd 1)]))).
  do 3 eexists. split; [made|]. split; [made|]. split.
  { apply made_rewritten; [eexists; vm_compute; reflexivity|]. apply made_get. eexists. split; [vm_compute; reflexivity|].
    eapply (M_inter [z_f 6 7; HFun 2 (Fadd 1)]); [|vm_compute; reflexivity]. intros k [<-|[<-|[]]]; apply M_fun. }
  split; [vm_compute; reflexivity|]. split; [vm_compute; reflexivity|]. split; [vm_compute; reflexivity|].
  split; [vm_compute; reflexivity|]. split; vm_compute; reflexivity.
Qed.
Print Assumptions C79_parentheses_refuted.

(** An example of [C79_parentheses_partial]. *)
Example C79_parentheses_ex : let h : t_hom := HComp (HFix (HSum [HId; HLocal 1 (HFun 0 2%N)])) (HIte (HConst One) HId (HInd 4%N)) in
  parenthesized h /\ (forall n, balanced (decN n)) /\ t_text h = Some (lit "((Id + @(1, fun(0, 2))))* o ite(const(|1|), Id,#4)").
Proof. cbv zeta. split; [cbn; tauto|]. split; [exact balanced_decN|]. vm_compute. reflexivity. Qed.
