(** * The texts of homomorphisms: proofs *)

From Coq Require Import Ascii String List Bool Arith NArith Lia.
From Verif Require Import Base Sdd Text SddText Orders OrdersProofs OrderText Hom HomText.
Import ListNotations.

(** ** Compositions nested to the right *)

Section Nesting.
  Variables V U F I : Type.
  Notation hom := (hom V U F I).

  Definition is_comp (h : hom) : bool := match h with HComp _ _ => true | _ => false end.
  Fixpoint comp_app (h k : hom) : hom :=
    match h with HComp a b => HComp a (comp_app b k) | _ => HComp h k end.
  Fixpoint norm (h : hom) : hom :=
    match h with
    | HComp l r => comp_app (norm l) (norm r)
    | HConsF o v n => HConsF o v (norm n)
    | HConsH o v n => HConsH o v (norm n)
    | HConst x => HConst x
    | HFix k => HFix (norm k)
    | HFun t f => HFun t f
    | HId => HId
    | HIte p t e => HIte (norm p) (norm t) (norm e)
    | HInd i => HInd i
    | HInter l => HInter (map norm l)
    | HLocal x k => HLocal x (norm k)
    | HSatFix x f g l => HSatFix x (norm f) (map norm g) (norm l)
    | HSatInter x f g l => HSatInter x (option_map norm f) (map norm g) (option_map norm l)
    | HSatSum x f g l => HSatSum x (option_map norm f) (map norm g) (option_map norm l)
    | HSum l => HSum (map norm l)
    end.

  (** The left operands of compositions are not compositions. *)
  Fixpoint nested_right (h : hom) : Prop :=
    let all := fun l => fold_right (fun k p => nested_right k /\ p) True l in
    let opt := fun o : option hom => match o with None => True | Some k => nested_right k end in
    match h with
    | HComp l r => is_comp l = false /\ nested_right l /\ nested_right r
    | HConsF _ _ n | HConsH _ _ n => nested_right n
    | HConst _ | HFun _ _ | HId | HInd _ => True
    | HFix k | HLocal _ k => nested_right k
    | HIte p t e => nested_right p /\ nested_right t /\ nested_right e
    | HInter l | HSum l => all l
    | HSatFix _ f g l => nested_right f /\ all g /\ nested_right l
    | HSatInter _ f g l | HSatSum _ f g l => opt f /\ all g /\ opt l
    end.

  Lemma fold_forall (A : Type) (P : A -> Prop) l : fold_right (fun k p => P k /\ p) True l <-> Forall P l.
  Proof. induction l as [|a l IH]; cbn; [intuition|]. rewrite IH. split; [intros []; now constructor|intros X; inversion X; auto]. Qed.

  Lemma comp_app_nested : forall h k, nested_right h -> nested_right k -> nested_right (comp_app h k).
  Proof.
    induction h; intros k Hh Hk; cbn [comp_app]; try (cbn [nested_right is_comp]; split; [reflexivity|]; split; assumption).
    cbn [nested_right] in *. destruct Hh as (A & B & C). auto.
  Qed.
  Lemma norm_nested : forall h, nested_right (norm h).
  Proof.
    induction h as [l r IHl IHr|o v n IH|o v n IH|x|k IH|t f| |p t e IHp IHt IHe|i|l IH|x k IH|x f g l IHf IHg IHl
      |x f g l IHf IHg IHl|x f g l IHf IHg IHl|l IH] using hom_ind'; cbn [norm nested_right];
      rewrite ?fold_forall, ?Forall_map; auto.
    - now apply comp_app_nested.
    - split; [|split; [exact IHg|]].
      + destruct f as [f|]; cbn [option_map]; auto.
      + destruct l as [l|]; cbn [option_map]; auto.
    - split; [|split; [exact IHg|]].
      + destruct f as [f|]; cbn [option_map]; auto.
      + destruct l as [l|]; cbn [option_map]; auto.
  Qed.
  Lemma comp_app_assoc : forall a b c, comp_app (comp_app a b) c = comp_app a (comp_app b c).
  Proof. induction a; intros b c; cbn [comp_app]; try reflexivity. now rewrite IHa2. Qed.
End Nesting.
Arguments norm {V U F I}.
Arguments nested_right {V U F I}.
Arguments is_comp {V U F I}.
Arguments comp_app {V U F I}.

Section Proofs.
  Variables V U F I : Type.
  Variable pv : V -> text.
  Variable pu : U -> text.
  Variable pf : F -> text.
  Variable pi : I -> text.
  Notation hom := (hom V U F I).
  Notation hom_text := (@hom_text V U F I pv pu pf pi).

  (** *** Nesting the compositions to the right does not change the text *)

  Lemma comp_app_text : forall h k, hom_text (comp_app h k) = text2 (hom_text h) (hom_text k) (fun a b => a ++ lit " o " ++ b).
  Proof.
    induction h; intros k; try reflexivity. cbn [comp_app]. cbn [HomText.hom_text]. rewrite IHh2.
    destruct (hom_text h1), (hom_text h2), (hom_text k); cbn [text2]; try reflexivity. now rewrite <- !app_assoc.
  Qed.
  Lemma map_same (A B : Type) (f g : A -> B) l : Forall (fun x => f x = g x) l -> map f l = map g l.
  Proof. induction 1; cbn; congruence. Qed.
  Lemma norm_text : forall h, hom_text (norm h) = hom_text h.
  Proof.
    assert (M : forall l : list hom, Forall (fun h => hom_text (norm h) = hom_text h) l ->
                map hom_text (map norm l) = map hom_text l).
    { intros l H. rewrite map_map. now apply map_same. }
    assert (N : forall (W : Type) (l : list hom) (a b : W),
                match map norm l with [] => a | _ => b end = match l with [] => a | _ => b end) by (intros W [|]; reflexivity).
    induction h as [l r IHl IHr|o v n IH|o v n IH|x|k IH|t f| |p t e IHp IHt IHe|i|l IH|x k IH|x f g l IHf IHg IHl
      |x f g l IHf IHg IHl|x f g l IHf IHg IHl|l IH] using hom_ind'; cbn [norm]; cbn [HomText.hom_text]; auto.
    - rewrite comp_app_text, IHl, IHr. reflexivity.
    - now rewrite IH.
    - now rewrite IH.
    - now rewrite IH.
    - now rewrite IHp, IHt, IHe.
    - now rewrite N, M.
    - now rewrite IH.
    - now rewrite M, IHf, IHl.
    - rewrite M by assumption. destruct f as [f|], l as [l|]; cbn [option_map]; rewrite ?(IHf _ eq_refl), ?(IHl _ eq_refl); reflexivity.
    - rewrite M by assumption. destruct f as [f|], l as [l|]; cbn [option_map]; rewrite ?(IHf _ eq_refl), ?(IHl _ eq_refl); reflexivity.
    - now rewrite N, M.
  Qed.

  (** ** The text determines the homomorphism *)

  Definition comma_code {A : Type} (p : A -> text) : Prop :=
    forall x y a b, p x ++ ","%char :: a = p y ++ ","%char :: b -> x = y /\ a = b.
  Definition paren_code {A : Type} (p : A -> text) : Prop :=
    forall x y a b, p x ++ ")"%char :: a = p y ++ ")"%char :: b -> x = y /\ a = b.

  (** What may follow an operand. *)
  Definition stop (t : text) : Prop :=
    t = [] \/ exists s r, In s [")"; ","; " + "; " & "]%string /\ t = lit s ++ r.
  (** What may follow an operand of a composition. *)
  Definition stop_o (t : text) : Prop := stop t \/ exists r, t = lit " o " ++ r.
  (** What the texts of the library begin with. *)
  Definition keyword (t : text) : Prop :=
    exists s r, In s ["("; "cons("; "const("; "fun("; "Id"; "ite("; "@("; "Sat"]%string /\ t = lit s ++ r.

  Definition inductive_code : Prop :=
    (forall i j a b, stop_o a -> stop_o b -> pi i ++ a = pi j ++ b -> i = j /\ a = b) /\
    (forall i a, stop_o a -> ~ keyword (pi i ++ a) /\ ~ stop_o (pi i ++ a)).

  Variable u0 : U.
  Variable ord : oid U -> order U.
  Hypothesis PV : brace_code V pv.
  Hypothesis PVC : comma_code pv.
  Hypothesis PU : comma_code pu.
  Hypothesis PA : forall u t, pu u <> "@"%char :: t.
  Hypothesis PFC : paren_code pf.
  Hypothesis PI : inductive_code.

  Definition cons_order (o : order U) : Prop :=
    exists id, o_identifier o = Some id /\ (is_artificial id = true -> usr id = u0) /\ o = ord id.

  Fixpoint readable (h : hom) : Prop :=
    let all := fun l => fold_right (fun k p => readable k /\ p) True l in
    let opt := fun o : option hom => match o with None => True | Some k => readable k end in
    match h with
    | HComp l r => readable l /\ readable r
    | HConsF o _ n => cons_order o /\ readable n
    | HConsH o x n => cons_order o /\ sdd_text V pv x <> None /\ readable n
    | HConst x => sdd_text V pv x <> None
    | HFun _ _ | HId | HInd _ => True
    | HFix k | HLocal _ k => readable k
    | HIte p t e => readable p /\ readable t /\ readable e
    | HInter l | HSum l => 2 <= length l /\ all l
    | HSatFix _ f g l => readable f /\ (g <> [] /\ all g) /\ readable l
    | HSatInter _ f g l => opt f /\ all g /\ opt l
    | HSatSum _ f g l => opt f /\ all g /\ match l with None => True | Some k => is_comp k = false /\ readable k end
    end.

  Lemma all_readable (l : list hom) : fold_right (fun k p => readable k /\ p) True l <-> Forall readable l.
  Proof. apply fold_forall. Qed.

  Lemma all_texts_some (l : list hom) : Forall (fun h => exists t, hom_text h = Some t) l ->
    exists ts, all_texts (map hom_text l) = Some ts /\ Forall2 (fun h t => hom_text h = Some t) l ts.
  Proof.
    induction 1 as [|h l (t & E) _ (ts & E2 & F2)]; [exists []; split; [reflexivity|constructor]|].
    exists (t :: ts). split; [|now constructor]. cbn. now rewrite E, E2.
  Qed.

  Lemma readable_text : forall h, readable h -> exists t, hom_text h = Some t.
  Proof.
    assert (A : forall l : list hom, Forall (fun h => readable h -> exists t, hom_text h = Some t) l ->
                fold_right (fun k p => readable k /\ p) True l -> exists ts, all_texts (map hom_text l) = Some ts).
    { intros l H R. apply all_readable in R.
      destruct (all_texts_some l) as (ts & E & _); eauto. rewrite Forall_forall in *. auto. }
    induction h as [l r IHl IHr|o v n IH|o v n IH|x|k IH|t f| |p t e IHp IHt IHe|i|l IH|x k IH|x f g l IHf IHg IHl
      |x f g l IHf IHg IHl|x f g l IHf IHg IHl|l IH] using hom_ind'; cbn [readable]; intros R; cbn [HomText.hom_text]; eauto.
    - destruct R as [R1 R2]. destruct (IHl R1) as [t ->], (IHr R2) as [u ->]. cbn. eauto.
    - destruct R as [(id & -> & _) R]. destruct (IH R) as [t ->]. cbn. eauto.
    - destruct R as [(id & -> & _) [X R]]. destruct (sdd_text V pv v); [|congruence]. destruct (IH R) as [t' ->]. cbn. eauto.
    - destruct (sdd_text V pv x); [|congruence]. cbn. eauto.
    - destruct (IH R) as [t ->]. cbn. eauto.
    - destruct R as (R1 & R2 & R3). destruct (IHp R1) as [? ->], (IHt R2) as [? ->], (IHe R3) as [? ->]. cbn. eauto.
    - destruct R as [L R]. destruct (A l IH R) as [ts ->]. destruct l; [cbn in L; lia|]. cbn. eauto.
    - destruct (IH R) as [t ->]. cbn. eauto.
    - destruct R as (R1 & [_ R2] & R3). destruct (A g IHg R2) as [ts ->], (IHf R1) as [? ->], (IHl R3) as [? ->]. cbn. eauto.
    - destruct R as (R1 & R2 & R3). destruct (A g IHg R2) as [ts ->].
      destruct f as [f|]; [destruct (IHf _ eq_refl R1) as [? ->]|]; (destruct l as [l|]; [destruct (IHl _ eq_refl R3) as [? ->]|]);
        cbn; eauto.
    - destruct R as (R1 & R2 & R3). destruct (A g IHg R2) as [ts ->].
      destruct f as [f|]; [destruct (IHf _ eq_refl R1) as [? ->]|];
        (destruct l as [l|]; [destruct (IHl _ eq_refl (proj2 R3)) as [? ->]|]); cbn; eauto.
    - destruct R as [L R]. destruct (A l IH R) as [ts ->]. destruct l; [cbn in L; lia|]. cbn. eauto.
  Qed.

  Lemma comp_app_readable : forall h k, readable h -> readable k -> readable (comp_app h k).
  Proof.
    induction h; intros k Hh Hk; cbn [comp_app]; try (cbn [readable] in *; split; assumption).
    cbn [readable] in *. destruct Hh as (A & B). auto.
  Qed.
  Lemma norm_comp : forall h : hom, is_comp (norm h) = is_comp h.
  Proof. intros [l r| | | | | | | | | | | | | |]; try reflexivity. cbn [norm is_comp]. now destruct (norm l). Qed.
  Lemma norm_readable : forall h, readable h -> readable (norm h).
  Proof.
    assert (A : forall l : list hom, Forall (fun h => readable h -> readable (norm h)) l ->
                fold_right (fun k p => readable k /\ p) True l -> fold_right (fun k p => readable k /\ p) True (map norm l)).
    { intros l H R. apply all_readable in R. apply all_readable. rewrite Forall_map, Forall_forall in *. auto. }
    induction h as [l r IHl IHr|o v n IH|o v n IH|x|k IH|t f| |p t e IHp IHt IHe|i|l IH|x k IH|x f g l IHf IHg IHl
      |x f g l IHf IHg IHl|x f g l IHf IHg IHl|l IH] using hom_ind'; cbn [readable norm]; intros R; auto; try tauto.
    - destruct R. apply comp_app_readable; auto.
    - rewrite map_length. destruct R. auto.
    - destruct R as (R1 & [N R2] & R3). repeat split; auto. destruct g; [congruence|discriminate].
    - destruct R as (R1 & R2 & R3). split; [|split; [auto|]].
      + destruct f; cbn [option_map]; auto.
      + destruct l; cbn [option_map]; auto.
    - destruct R as (R1 & R2 & R3). split; [|split; [auto|]].
      + destruct f; cbn [option_map]; auto.
      + destruct l; cbn [option_map]; auto. rewrite norm_comp. destruct R3. auto.
    - rewrite map_length. destruct R. auto.
  Qed.

  (** *** Beginnings and ends *)

  Lemma stop_o_stop a : stop a -> stop_o a.
  Proof. now left. Qed.
  Lemma stop_lit s r : In s [")"; ","; " + "; " & "]%string -> stop (lit s ++ r).
  Proof. right. eauto. Qed.

  Definition reads (h : hom) : Prop := forall k t u a b, readable k -> nested_right k ->
    hom_text h = Some t -> hom_text k = Some u -> stop a -> stop b -> t ++ a = u ++ b -> h = k /\ a = b.
  Definition reads_o (h : hom) : Prop := forall k t u a b, is_comp h = false -> is_comp k = false -> readable k -> nested_right k ->
    hom_text h = Some t -> hom_text k = Some u -> stop_o a -> stop_o b -> t ++ a = u ++ b -> h = k /\ a = b.

  Lemma stop_not_o r : ~ stop (lit " o " ++ r).
  Proof.
    intros [X|(s & r' & X & E)]; [discriminate|].
    cbn in X. decompose [or] X; subst; cbn in E; try discriminate. contradiction.
  Qed.

  Lemma some_inj (A : Type) (x y : A) : Some x = Some y -> y = x.
  Proof. congruence. Qed.
  Lemma cancel (A : Type) (s : list A) a b : s ++ a = s ++ b -> a = b.
  Proof. apply app_inv_head. Qed.

  (** A homomorphism that is not a composition, then a composition. *)
  Lemma reads_not_comp h : is_comp h = false -> reads_o h -> reads h.
  Proof.
    intros NC R k t u a b RK NK ET EU SA SB E.
    destruct (is_comp k) eqn:CK; [|apply (R k t u a b); auto using stop_o_stop].
    destruct k as [l r| | | | | | | | | | | | | |]; try discriminate. clear CK.
    exfalso. cbn [HomText.hom_text] in EU. cbn [readable nested_right] in RK, NK.
    destruct (hom_text l) as [tl|] eqn:EL; [|discriminate]. destruct (hom_text r) as [tr|] eqn:ER; [|discriminate].
    unfold text2 in EU. apply some_inj in EU; subst u. rewrite <- !app_assoc in E.
    apply (R l t tl) in E as [_ E]; try tauto; auto using stop_o_stop; [|right; eauto].
    subst a. now apply stop_not_o in SA.
  Qed.
  Lemma reads_comp l r : is_comp l = false -> reads_o l -> reads r -> reads (HComp l r).
  Proof.
    intros NC RL RR k t u a b RK NK ET EU SA SB E.
    cbn [HomText.hom_text] in ET. destruct (hom_text l) as [tl|] eqn:EL; [|discriminate].
    destruct (hom_text r) as [tr|] eqn:ER; [|discriminate]. unfold text2 in ET. apply some_inj in ET; subst t.
    rewrite <- !app_assoc in E.
    destruct (is_comp k) eqn:CK.
    - destruct k as [l' r'| | | | | | | | | | | | | |]; try discriminate. clear CK. cbn [HomText.hom_text] in EU.
      destruct (hom_text l') as [tl'|] eqn:EL'; [|discriminate].
      destruct (hom_text r') as [tr'|] eqn:ER'; [|discriminate]. unfold text2 in EU. apply some_inj in EU; subst u.
      rewrite <- !app_assoc in E. cbn [readable nested_right] in RK, NK.
      apply (RL l' tl tl') in E as [-> E]; try tauto; [|right; eauto|right; eauto].
      apply cancel in E. apply (RR r' tr tr') in E as [-> ->]; tauto.
    - exfalso. apply (RL k tl u) in E as [_ E]; auto using stop_o_stop; [|right; eauto].
      subst b. now apply stop_not_o in SB.
  Qed.

  (** The text of an operand is not empty and does not look like what may follow an operand. *)
  Lemma keyword_not_stop t : keyword t -> ~ stop_o t.
  Proof.
    intros (s & r & H & E) [[X|(s' & r' & X & E')]|(r' & E')]; subst t.
    - cbn in H. decompose [or] H; subst; discriminate || contradiction.
    - cbn in H, X. decompose [or] H; clear H; subst; try contradiction;
        decompose [or] X; clear X; subst; try contradiction; cbn in E'; discriminate.
    - cbn in H. decompose [or] H; clear H; subst; try contradiction; cbn in E'; discriminate.
  Qed.

  (** What begins the text of an operand: a keyword, or the text of an inductive. *)
  Definition kw (h : hom) : option string :=
    match h with
    | HComp _ _ | HInd _ => None
    | HConsF _ _ _ | HConsH _ _ _ => Some "cons("
    | HConst _ => Some "const("
    | HFix _ | HInter _ | HSum _ => Some "("
    | HFun _ _ => Some "fun("
    | HId => Some "Id"
    | HIte _ _ _ => Some "ite("
    | HLocal _ _ => Some "@("
    | HSatFix _ _ _ _ => Some "Sat(@"
    | HSatInter _ _ _ _ => Some "SatInter(@"
    | HSatSum _ _ _ _ => Some "SatSum(@"
    end%string.
  Lemma kw_text h s t : kw h = Some s -> hom_text h = Some t -> exists r, t = lit s ++ r.
  Proof.
    destruct h as [l r|o v n|o v n|x|k|x f| |p q e|i|l|x k|x f g l|x f g l|x f g l|l]; cbn [kw HomText.hom_text]; intros K E;
      try discriminate; injection K as <-;
      repeat match goal with
      | E : match ?x with _ => _ end = Some _ |- _ => destruct x eqn:?; try discriminate E
      | E : option_map _ ?x = Some _ |- _ => destruct x eqn:?; cbn [option_map] in E; try discriminate E
      | E : text2 ?x ?y _ = Some _ |- _ => destruct x eqn:?; [destruct y eqn:?; [cbn [text2] in E|discriminate E]|discriminate E]
      | E : text3 ?x ?y ?z _ = Some _ |- _ =>
        destruct x eqn:?; [destruct y eqn:?; [destruct z eqn:?; [cbn [text3] in E|discriminate E]|discriminate E]|discriminate E]
      | E : Some _ = Some _ |- _ => apply some_inj in E; subst t
      end; eauto.
    all: exists []; reflexivity.
  Qed.
  Lemma kw_keyword h s r : kw h = Some s -> keyword (lit s ++ r).
  Proof.
    destruct h; intros K; try discriminate; injection K as <-;
      try (eexists _, r; split; [|reflexivity]; cbn; tauto).
    - exists "Sat"%string, (lit "(@" ++ r). split; [cbn; tauto|reflexivity].
    - exists "Sat"%string, (lit "Inter(@" ++ r). split; [cbn; tauto|reflexivity].
    - exists "Sat"%string, (lit "Sum(@" ++ r). split; [cbn; tauto|reflexivity].
  Qed.
  Lemma text_not_stop : forall h t a, hom_text h = Some t -> stop_o a -> ~ stop_o (t ++ a).
  Proof.
    assert (X : forall h s t a, kw h = Some s -> hom_text h = Some t -> ~ stop_o (t ++ a)).
    { intros h s t a K E. destruct (kw_text h s t K E) as [r ->]. rewrite <- app_assoc.
      apply keyword_not_stop. eapply kw_keyword; eauto. }
    assert (Y : forall h t a, is_comp h = false -> hom_text h = Some t -> stop_o a -> ~ stop_o (t ++ a)).
    { intros h t a C E SA. destruct (kw h) as [s|] eqn:K; [eapply X; eauto|].
      destruct h; try discriminate. cbn in E. injection E as <-. now apply PI. }
    induction h as [l IHl r IHr|o v n|o v n|x|k|x f| |p ? q ? e|i|l|x k|x f ? g l|x f g l|x f g l|l]; intros t a E SA;
      try (eapply Y; eauto; reflexivity).
    cbn [HomText.hom_text] in E. destruct (hom_text l) as [tl|]; [|discriminate]. destruct (hom_text r) as [tr|]; [|discriminate].
    apply some_inj in E; subst t. rewrite <- app_assoc. apply IHl; auto. right. rewrite <- app_assoc. eauto.
  Qed.

  (** *** Lists of operands *)

  Lemma join_reads sep (HS : In sep [" + "; " & "]%string) end_ (HE : exists r, end_ = ")"%char :: r) :
    forall l m tl tm a b, Forall reads l -> Forall readable m -> Forall nested_right m ->
    Forall2 (fun h t => hom_text h = Some t) l tl -> Forall2 (fun h t => hom_text h = Some t) m tm ->
    l <> [] -> m <> [] ->
    join (lit sep) tl ++ end_ ++ a = join (lit sep) tm ++ end_ ++ b -> l = m /\ a = b.
  Proof.
    assert (SE : forall r, stop (end_ ++ r)).
    { intros r. destruct HE as (r' & ->). apply (stop_lit ")" (r' ++ r)). now left. }
    assert (SS : forall r, stop (lit sep ++ r)).
    { intros r. apply stop_lit. cbn in HS. destruct HS as [<-|[<-|[]]]; cbn; tauto. }
    assert (D : forall r r', end_ ++ r <> lit sep ++ r').
    { intros r r'. destruct HE as (r'' & ->). cbn in HS. destruct HS as [<-|[<-|[]]]; discriminate. }
    induction l as [|h l IH]; intros [|k m] tl tm a b RL RM NM FL FM NL NM' E; try congruence.
    inversion FL as [|? t ? tl' Et FL']; subst. inversion FM as [|? u ? tm' Eu FM']; subst.
    apply Forall_cons_iff in RL as [Rh RL], RM as [Rk RM], NM as [Nk NM].
    destruct FL' as [|h' t' l' tl'' Et' FL'], FM' as [|k' u' m' tm'' Eu' FM']; cbn [join] in E.
    - apply (Rh k t u) in E as [-> E]; auto. now apply cancel in E as ->.
    - exfalso. rewrite <- !app_assoc in E. apply (Rh k t u) in E as [_ E]; auto. now apply D in E.
    - exfalso. rewrite <- !app_assoc in E. apply (Rh k t u) in E as [_ E]; auto. symmetry in E. now apply D in E.
    - rewrite <- !app_assoc in E. apply (Rh k t u) in E as [-> E]; auto. apply cancel in E.
      destruct (IH (k' :: m') (t' :: tl'') (u' :: tm'') a b) as [-> ->]; auto; try discriminate; constructor; auto.
  Qed.

  Lemma all_texts_inv : forall (l : list hom) ts, all_texts (map hom_text l) = Some ts ->
    Forall2 (fun h t => hom_text h = Some t) l ts.
  Proof.
    induction l as [|h l IH]; intros ts E; cbn [map all_texts] in E.
    - apply some_inj in E; subst. constructor.
    - destruct (hom_text h) as [t|] eqn:ET; [|discriminate]. destruct (all_texts (map hom_text l)) as [r|]; [|discriminate].
      apply some_inj in E; subst. constructor; auto.
  Qed.

  Definition opt_text (o : option hom) : option text := match o with None => Some [] | Some k => hom_text k end.
  Lemma opt_reads f k t u a b : (forall h, f = Some h -> reads h) -> (forall h, k = Some h -> readable h /\ nested_right h) ->
    opt_text f = Some t -> opt_text k = Some u -> stop a -> stop b -> t ++ a = u ++ b -> f = k /\ a = b.
  Proof.
    intros RF RK ET EU SA SB E. destruct f as [f|], k as [k|]; cbn [opt_text] in ET, EU.
    - destruct (RK k eq_refl). apply (RF f eq_refl k t u) in E as [-> ->]; auto.
    - exfalso. apply some_inj in EU; subst u. cbn [app] in E. eapply text_not_stop; [exact ET| |rewrite E]; now apply stop_o_stop.
    - exfalso. apply some_inj in ET; subst t. cbn [app] in E. eapply text_not_stop; [exact EU| |rewrite <- E]; now apply stop_o_stop.
    - apply some_inj in ET, EU; subst t u. auto.
  Qed.

  Lemma opt_reads_o f k t u a b : (forall h, f = Some h -> is_comp h = false /\ reads_o h) ->
    (forall h, k = Some h -> is_comp h = false /\ readable h /\ nested_right h) ->
    opt_text f = Some t -> opt_text k = Some u -> stop_o a -> stop_o b -> t ++ a = u ++ b -> f = k /\ a = b.
  Proof.
    intros RF RK ET EU SA SB E. destruct f as [f|], k as [k|]; cbn [opt_text] in ET, EU.
    - destruct (RK k eq_refl) as (A & B & C), (RF f eq_refl) as (D & R). apply (R k t u) in E as [-> ->]; auto.
    - exfalso. apply some_inj in EU; subst u. cbn [app] in E. eapply text_not_stop; [exact ET| |rewrite E]; assumption.
    - exfalso. apply some_inj in ET; subst t. cbn [app] in E. eapply text_not_stop; [exact EU| |rewrite <- E]; assumption.
    - apply some_inj in ET, EU; subst t u. auto.
  Qed.

  Lemma same_kw h k s t u a b : kw h = Some s -> is_comp k = false -> hom_text h = Some t -> hom_text k = Some u ->
    stop_o b -> t ++ a = u ++ b -> kw k = Some s.
  Proof.
    intros K C ET EU SB E. destruct (kw_text h s t K ET) as [r ->]. rewrite <- app_assoc in E.
    destruct (kw k) as [s'|] eqn:K'.
    - destruct (kw_text k s' u K' EU) as [r' ->]. rewrite <- app_assoc in E.
      destruct h; cbn [kw] in K; try discriminate; apply some_inj in K; subst s;
        destruct k; cbn [kw] in K'; try discriminate; apply some_inj in K'; subst s'; try reflexivity; discriminate E.
    - exfalso. destruct k; try discriminate. cbn [HomText.hom_text] in EU. apply some_inj in EU; subst u.
      destruct PI as [_ P]. apply (proj1 (P i b SB)). rewrite <- E. eapply kw_keyword; eauto.
  Qed.

  Lemma oid_code i j a b : (is_artificial i = true -> usr i = u0) -> (is_artificial j = true -> usr j = u0) ->
    oid_text pu i ++ ","%char :: a = oid_text pu j ++ ","%char :: b -> i = j /\ a = b.
  Proof.
    intros Hi Hj E. unfold oid_text in E. destruct i as [x u], j as [y w]. cbn [usr art] in *.
    destruct (is_artificial {| art := x; usr := u |}) eqn:A, (is_artificial {| art := y; usr := w |}) eqn:B.
    - rewrite <- !app_assoc in E. apply cancel in E. apply decN_prefix in E as [-> E]; [|reflexivity..].
      rewrite (Hi eq_refl), (Hj eq_refl). apply cancel in E. injection E as ->. auto.
    - exfalso. symmetry in E. cbn in E. destruct (pu w) as [|c t] eqn:EW; [discriminate|]. cbn in E. injection E as -> _. now apply PA in EW.
    - exfalso. cbn in E. destruct (pu u) as [|c t] eqn:EW; [discriminate|]. cbn in E. injection E as -> _. now apply PA in EW.
    - apply PU in E as [-> ->]. unfold is_artificial in A, B. cbn [art] in A, B.
      apply negb_false_iff, N.eqb_eq in A, B. now subst.
  Qed.

  Ltac texts :=
    repeat match goal with
    | E : match ?x with _ => _ end = Some _ |- _ => destruct x eqn:?; try discriminate E
    | E : option_map _ ?x = Some _ |- _ => destruct x eqn:?; cbn [option_map] in E; try discriminate E
    | E : text2 ?x ?y _ = Some _ |- _ => destruct x eqn:?; [destruct y eqn:?; [cbn [text2] in E|discriminate E]|discriminate E]
    | E : text3 ?x ?y ?z _ = Some _ |- _ =>
      destruct x eqn:?; [destruct y eqn:?; [destruct z eqn:?; [cbn [text3] in E|discriminate E]|discriminate E]|discriminate E]
    end.

  Lemma reads_paren_list sep (HS : In sep [" + "; " & "]%string) (l : list hom) ts a k u b :
    Forall reads l -> 2 <= length l -> Forall2 (fun h t => hom_text h = Some t) l ts ->
    readable k -> nested_right k -> hom_text k = Some u ->
    forall c r, In c [")"; ","; " + "; " & "]%string -> b = lit c ++ r -> c <> sep -> stop b ->
    join (lit sep) ts ++ a <> u ++ b.
  Proof.
    intros RL L FL RK NK EU c r HC EB NE SB E. destruct FL as [|h t l ts Et FL]; [cbn in L; lia|].
    destruct FL as [|h' t' l ts Et' FL]; [cbn in L; lia|]. cbn [join] in E. rewrite <- !app_assoc in E.
    apply Forall_cons_iff in RL as [Rh _]. apply (Rh k t u) in E as [_ E]; auto.
    - subst b. cbn in HS, HC. decompose [or] HS; clear HS; try contradiction; subst; decompose [or] HC; clear HC; try contradiction;
        subst; try congruence; discriminate E.
    - apply stop_lit. cbn in HS. cbn. tauto.
  Qed.

  Lemma reads_all : forall h, readable h -> nested_right h -> reads h /\ reads_o h.
  Proof.
    assert (W : forall h, (is_comp h = false -> reads_o h) -> is_comp h = false -> reads h /\ reads_o h).
    { intros h R C. split; auto. now apply reads_not_comp; auto. }
    assert (AL : forall l : list hom, Forall (fun h => readable h -> nested_right h -> reads h /\ reads_o h) l ->
      fold_right (fun k p => readable k /\ p) True l -> fold_right (fun k p => nested_right k /\ p) True l -> Forall reads l).
    { intros l H R N. rewrite fold_forall in R, N. rewrite Forall_forall in *. intros h X. now apply H; auto. }
    assert (S1 : forall r, stop (")"%char :: r)) by (intros r; apply (stop_lit ")" r); cbn; tauto).
    assert (S2 : forall r, stop (","%char :: r)) by (intros r; apply (stop_lit "," r); cbn; tauto).
    assert (S3 : forall r, stop (lit " + " ++ r)) by (intros r; apply (stop_lit " + " r); cbn; tauto).
    assert (S4 : forall r, stop (lit " & " ++ r)) by (intros r; apply (stop_lit " & " r); cbn; tauto).
    assert (JH : forall s t ts r, (s = " & " \/ s = " + ")%string ->
      exists q, stop_o q /\ join (lit s) (t :: ts) ++ lit ")" ++ r = t ++ q).
    { intros s t [|t2 ts] r HS; [exists (lit ")" ++ r); split; [left; apply S1|reflexivity]|].
      exists (lit s ++ join (lit s) (t2 :: ts) ++ lit ")" ++ r). split; [left; destruct HS as [->| ->]; [apply S4|apply S3]|].
      cbn [join]. now rewrite <- !app_assoc. }
    assert (FA : forall (P : hom -> Prop) l, fold_right (fun k p => P k /\ p) True l -> Forall P l) by (intros P l; apply fold_forall).
    induction h as [l r IHl IHr|o v n IH|o v n IH|x|h IH|x f| |p q e IHp IHq IHe|i|l IH|x h IH|x f g l IHf IHg IHl
      |x f g l IHf IHg IHl|x f g l IHf IHg IHl|l IH] using hom_ind'; intros RH NH.
    - cbn [readable nested_right] in RH, NH. destruct RH as [R1 R2], NH as (C & N1 & N2). split; [|discriminate].
      apply reads_comp; auto; [now apply IHl|now apply IHr].
    - apply W; [|reflexivity]. intros _ k t u a b _ CK RK NK ET EU SA SB E.
      assert (HK : kw k = Some "cons("%string) by (eapply (same_kw (HConsF o v n)); eauto; reflexivity).
      destruct k as [|o' v' n'|o' v' n'| | | | | | | | | | | |]; try discriminate; cbn [HomText.hom_text] in ET, EU;
        cbn [readable nested_right] in RK, NK, RH, NH.
      + destruct RH as [(id & EI & AI & EO) RH], RK as [(id' & EI' & AI' & EO') RK]. rewrite EI in ET. rewrite EI' in EU. texts.
        apply some_inj in ET, EU; subst t u. rewrite <- !app_assoc in E. apply cancel in E. apply oid_code in E as [-> E]; auto.
        injection E as E. apply PVC in E as [-> E]. injection E as E.
        eapply (proj1 (IH RH NH)) in E as [-> E]; eauto. cbn in E. injection E as ->. split; congruence.
      + exfalso. destruct RH as [(id & EI & AI & EO) RH], RK as [(id' & EI' & AI' & EO') RK]. rewrite EI in ET. rewrite EI' in EU. texts.
        apply some_inj in ET, EU; subst t u. rewrite <- !app_assoc in E. apply cancel in E. apply oid_code in E as [-> E]; auto.
        injection E as E. destruct (proj1 PV v) as [r Q]. rewrite Q in E.
        match goal with X : sdd_text V pv v' = Some _ |- _ => apply sdd_text_head in X as (c & q & -> & NC) end.
        cbn in E. congruence.
    - apply W; [|reflexivity]. intros _ k t u a b _ CK RK NK ET EU SA SB E.
      assert (HK : kw k = Some "cons("%string) by (eapply (same_kw (HConsH o v n)); eauto; reflexivity).
      destruct k as [|o' v' n'|o' v' n'| | | | | | | | | | | |]; try discriminate; cbn [HomText.hom_text] in ET, EU;
        cbn [readable nested_right] in RK, NK, RH, NH.
      + exfalso. destruct RH as [(id & EI & AI & EO) RH], RK as [(id' & EI' & AI' & EO') RK]. rewrite EI in ET. rewrite EI' in EU. texts.
        apply some_inj in ET, EU; subst t u. rewrite <- !app_assoc in E. apply cancel in E. apply oid_code in E as [-> E]; auto.
        injection E as E. destruct (proj1 PV v') as [r Q]. rewrite Q in E.
        match goal with X : sdd_text V pv v = Some _ |- _ => apply sdd_text_head in X as (c & q & -> & NC) end.
        cbn in E. congruence.
      + destruct RH as [(id & EI & AI & EO) [_ RH]], RK as [(id' & EI' & AI' & EO') [_ RK]]. rewrite EI in ET. rewrite EI' in EU. texts.
        apply some_inj in ET, EU; subst t u. rewrite <- !app_assoc in E. apply cancel in E. apply oid_code in E as [-> E]; auto.
        injection E as E. eapply (sdd_text_prefix V pv PV) in E as [-> E]; eauto. injection E as E.
        eapply (proj1 (IH RH NH)) in E as [-> E]; eauto. cbn in E. injection E as ->. split; congruence.
    - apply W; [|reflexivity]. intros _ k t u a b _ CK RK NK ET EU SA SB E.
      assert (HK : kw k = Some "const("%string) by (eapply (same_kw (HConst x)); eauto; reflexivity).
      destruct k; try discriminate. cbn [HomText.hom_text] in ET, EU. texts. apply some_inj in ET, EU; subst t u.
      rewrite <- !app_assoc in E. apply cancel in E. eapply (sdd_text_prefix V pv PV) in E as [-> E]; eauto.
      apply cancel in E as ->. auto.
    - apply W; [|reflexivity]. intros _ k t u a b _ CK RK NK ET EU SA SB E.
      assert (HK : kw k = Some "("%string) by (eapply (same_kw (HFix h)); eauto; reflexivity).
      cbn [readable nested_right] in RH, NH.
      destruct k as [ | | | |k| | | | |m| | | | |m]; try discriminate; cbn [HomText.hom_text] in ET, EU;
        cbn [readable nested_right] in RK, NK.
      + texts. apply some_inj in ET, EU; subst t u. rewrite <- !app_assoc in E. apply cancel in E.
        eapply (proj1 (IH RH NH)) in E as [-> E]; eauto; try apply S1. apply cancel in E as ->. auto.
      + exfalso. destruct m as [|m1 m]; [discriminate|]. destruct (all_texts (map hom_text (m1 :: m))) as [ts|] eqn:TS; [|discriminate].
        texts. apply some_inj in ET, EU; subst t u. rewrite <- !app_assoc in E. apply cancel in E.
        apply all_texts_inv in TS. destruct RK as [L RK]. destruct TS as [|k1 t1 r1 ts1 E1 TS]; [cbn in L; lia|].
        destruct TS as [|k2 t2 r2 ts2 E2 TS]; [cbn in L; lia|]. cbn [join] in E. rewrite <- !app_assoc in E.
        cbn [fold_right] in RK, NK. eapply (proj1 (IH RH NH) k1) in E as [_ E]; [discriminate E|tauto|tauto|eassumption|eassumption|apply S1|apply S4].
      + exfalso. destruct m as [|m1 m]; [discriminate|]. destruct (all_texts (map hom_text (m1 :: m))) as [ts|] eqn:TS; [|discriminate].
        texts. apply some_inj in ET, EU; subst t u. rewrite <- !app_assoc in E. apply cancel in E.
        apply all_texts_inv in TS. destruct RK as [L RK]. destruct TS as [|k1 t1 r1 ts1 E1 TS]; [cbn in L; lia|].
        destruct TS as [|k2 t2 r2 ts2 E2 TS]; [cbn in L; lia|]. cbn [join] in E. rewrite <- !app_assoc in E.
        cbn [fold_right] in RK, NK. eapply (proj1 (IH RH NH) k1) in E as [_ E]; [discriminate E|tauto|tauto|eassumption|eassumption|apply S1|apply S3].
    - apply W; [|reflexivity]. intros _ k t u a b _ CK RK NK ET EU SA SB E.
      assert (HK : kw k = Some "fun("%string) by (eapply (same_kw (HFun x f)); eauto; reflexivity).
      destruct k; try discriminate. cbn [HomText.hom_text] in ET, EU. apply some_inj in ET, EU; subst t u.
      rewrite <- !app_assoc in E. apply cancel in E. apply decN_prefix in E as [-> E]; [|reflexivity..]. apply cancel in E.
      apply PFC in E as [-> ->]. auto.
    - apply W; [|reflexivity]. intros _ k t u a b _ CK RK NK ET EU SA SB E.
      assert (HK : kw k = Some "Id"%string) by (eapply (same_kw HId); eauto; reflexivity).
      destruct k; try discriminate. cbn [HomText.hom_text] in ET, EU. apply some_inj in ET, EU; subst t u.
      apply cancel in E as ->. auto.
    - apply W; [|reflexivity]. intros _ k t u a b _ CK RK NK ET EU SA SB E.
      assert (HK : kw k = Some "ite("%string) by (eapply (same_kw (HIte p q e)); eauto; reflexivity).
      destruct k as [| | | | | | |p' q' e'| | | | | | |]; try discriminate. cbn [HomText.hom_text] in ET, EU.
      cbn [readable nested_right] in RK, NK, RH, NH. destruct RH as (R1 & R2 & R3), NH as (N1 & N2 & N3).
      destruct RK as (K1 & K2 & K3), NK as (M1 & M2 & M3). texts. apply some_inj in ET, EU; subst t u.
      rewrite <- !app_assoc in E. apply cancel in E. eapply (proj1 (IHp R1 N1) p') in E as [-> E]; eauto; try apply S2.
      apply cancel in E. eapply (proj1 (IHq R2 N2) q') in E as [-> E]; eauto; try apply S2.
      apply cancel in E. eapply (proj1 (IHe R3 N3) e') in E as [-> E]; eauto; try apply S1. apply cancel in E as ->. auto.
    - apply W; [|reflexivity]. intros _ k t u a b _ CK RK NK ET EU SA SB E.
      destruct (kw k) as [s|] eqn:HK.
      + exfalso. destruct (kw_text k s u HK EU) as [r ->]. cbn [HomText.hom_text] in ET. apply some_inj in ET; subst t.
        destruct PI as [_ P]. apply (proj1 (P i a SA)). rewrite E, <- app_assoc. eapply kw_keyword; eauto.
      + destruct k; try discriminate. cbn [HomText.hom_text] in ET, EU. apply some_inj in ET, EU; subst t u.
        apply PI in E as [-> ->]; auto.
    - apply W; [|reflexivity]. intros _ k t u a b _ CK RK NK ET EU SA SB E.
      assert (HK : kw k = Some "("%string) by (eapply (same_kw (HInter l)); eauto; reflexivity).
      cbn [readable nested_right] in RH, NH. destruct RH as [L RH]. pose proof (AL l IH RH NH) as RL.
      cbn [HomText.hom_text] in ET. destruct l as [|l1 l]; [discriminate|].
      destruct (all_texts (map hom_text (l1 :: l))) as [ts|] eqn:TS; [|discriminate]. apply some_inj in ET; subst t.
      apply all_texts_inv in TS. rewrite <- !app_assoc in E.
      destruct k as [ | | | |k| | | | |m| | | | |m]; try discriminate; cbn [HomText.hom_text] in EU;
        cbn [readable nested_right] in RK, NK.
      + exfalso. texts. apply some_inj in EU; subst u. rewrite <- !app_assoc in E. apply cancel in E. revert E.
        refine (reads_paren_list " & " _ (l1 :: l) ts _ k _ _ RL L TS RK NK _ ")" ("*"%char :: b) _ eq_refl _ (S1 _));
          [cbn; tauto|eassumption|cbn; tauto|discriminate].
      + destruct m as [|m1 m]; [discriminate|]. destruct (all_texts (map hom_text (m1 :: m))) as [ts'|] eqn:TS'; [|discriminate].
        apply some_inj in EU; subst u. apply all_texts_inv in TS'. rewrite <- !app_assoc in E. apply cancel in E.
        apply (join_reads " & " (or_intror (or_introl eq_refl)) (lit ")") (ex_intro _ [] eq_refl) (l1 :: l) (m1 :: m)) in E as [-> ->]; auto;
          try discriminate; apply FA; tauto.
      + exfalso. destruct m as [|m1 m]; [discriminate|]. destruct (all_texts (map hom_text (m1 :: m))) as [ts'|] eqn:TS'; [|discriminate].
        apply some_inj in EU; subst u. apply all_texts_inv in TS'. rewrite <- !app_assoc in E. apply cancel in E. destruct RK as [L' RK].
        destruct TS' as [|k1 t1 r1 ts1 E1 TS']; [cbn in L'; lia|].
        destruct TS' as [|k2 t2 r2 ts2 E2 TS']; [cbn in L'; lia|]. cbn [join] in E. rewrite <- !app_assoc in E. revert E.
        cbn [fold_right] in RK, NK. destruct RK as [RK _], NK as [NK _].
        refine (reads_paren_list " & " _ (l1 :: l) ts _ k1 _ _ RL L TS RK NK E1 " + " _ _ eq_refl _ (S3 _));
          [cbn; tauto|cbn; tauto|discriminate].
    - apply W; [|reflexivity]. intros _ k t u a b _ CK RK NK ET EU SA SB E.
      assert (HK : kw k = Some "@("%string) by (eapply (same_kw (HLocal x h)); eauto; reflexivity).
      destruct k; try discriminate. cbn [HomText.hom_text] in ET, EU. cbn [readable nested_right] in RK, NK, RH, NH.
      texts. apply some_inj in ET, EU; subst t u.
      rewrite <- !app_assoc in E. apply cancel in E. apply decN_prefix in E as [-> E]; [|reflexivity..]. apply cancel in E.
      eapply (proj1 (IH RH NH)) in E as [-> E]; eauto; try apply S1. apply cancel in E as ->. auto.
    - apply W; [|reflexivity]. intros _ k t u a b _ CK RK NK ET EU SA SB E.
      assert (HK : kw k = Some "Sat(@"%string) by (eapply (same_kw (HSatFix x f g l)); eauto; reflexivity).
      destruct k as [ | | | | | | | | | | |x' f' g' l'| | |]; try discriminate. cbn [HomText.hom_text] in ET, EU.
      cbn [readable nested_right] in RK, NK, RH, NH.
      destruct RH as (R1 & [G R2] & R3), NH as (N1 & N2 & N3), RK as (K1 & [G' K2] & K3), NK as (M1 & M2 & M3).
      pose proof (AL g IHg R2 N2) as RL.
      destruct (all_texts (map hom_text g)) as [ts|] eqn:TS; [|discriminate].
      destruct (all_texts (map hom_text g')) as [ts'|] eqn:TS'; [|discriminate].
      apply all_texts_inv in TS, TS'. destruct ts as [|t1 ts]; [inversion TS; congruence|].
      destruct ts' as [|t1' ts']; [inversion TS'; congruence|]. texts. apply some_inj in ET, EU; subst t u.
      rewrite <- !app_assoc in E. apply cancel in E. apply decN_prefix in E as [-> E]; [|reflexivity..]. apply cancel in E.
      eapply (proj1 (IHf R1 N1) f') in E as [-> E]; eauto; try apply S3. apply cancel in E.
      eapply (proj1 (IHl R3 N3) l') in E as [-> E]; eauto; try apply S3. apply cancel in E.
      apply (join_reads " + " (or_introl eq_refl) (lit ")*") (ex_intro _ _ eq_refl) g g') in E as [-> ->]; auto.
    - apply W; [|reflexivity]. intros _ k t u a b _ CK RK NK ET EU SA SB E.
      assert (HK : kw k = Some "SatInter(@"%string) by (eapply (same_kw (HSatInter x f g l)); eauto; reflexivity).
      destruct k as [ | | | | | | | | | | | |x' f' g' l'| |]; try discriminate. cbn [HomText.hom_text] in ET, EU.
      cbn [readable nested_right] in RK, NK, RH, NH.
      destruct RH as (R1 & R2 & R3), NH as (N1 & N2 & N3), RK as (K1 & K2 & K3), NK as (M1 & M2 & M3).
      pose proof (AL g IHg R2 N2) as RL.
      destruct (all_texts (map hom_text g)) as [ts|] eqn:TS; [|discriminate].
      destruct (all_texts (map hom_text g')) as [ts'|] eqn:TS'; [|discriminate].
      apply all_texts_inv in TS, TS'.
      change (text2 (opt_text f) (opt_text l) (fun a b => lit "SatInter(@" ++ decN x ++ lit ", F=" ++ a ++ lit ", G=" ++
                group_text (lit " & ") ts ++ lit ", L=" ++ b ++ lit ")") = Some t) in ET.
      change (text2 (opt_text f') (opt_text l') (fun a b => lit "SatInter(@" ++ decN x' ++ lit ", F=" ++ a ++ lit ", G=" ++
                group_text (lit " & ") ts' ++ lit ", L=" ++ b ++ lit ")") = Some u) in EU.
      destruct (opt_text f) as [tf|] eqn:Ef; [|discriminate]. destruct (opt_text l) as [tl|] eqn:El; [|discriminate].
      destruct (opt_text f') as [tf'|] eqn:Ef'; [|discriminate]. destruct (opt_text l') as [tl'|] eqn:El'; [|discriminate].
      unfold text2 in ET, EU. apply some_inj in ET, EU; subst t u.
      rewrite <- !app_assoc in E. apply cancel in E. apply decN_prefix in E as [-> E]; [|reflexivity..]. apply cancel in E.
      apply (opt_reads f f' tf tf') in E as [-> E]; auto; try apply S2;
        [|intros h ->; now apply IHf|intros h ->; auto]. apply cancel in E.
      assert (EG : g = g' /\ lit ", L=" ++ tl ++ lit ")" ++ a = lit ", L=" ++ tl' ++ lit ")" ++ b).
      { destruct TS as [|g1 t1 g ts E1 TS], TS' as [|g1' t1' g' ts' E1' TS']; cbn [group_text] in E.
        - auto.
        - exfalso. rewrite <- app_assoc in E. destruct (JH " & "%string t1' ts' (lit ", L=" ++ tl' ++ lit ")" ++ b) (or_introl eq_refl)) as (r & SR & ER).
          rewrite ER in E. apply (text_not_stop g1' t1' r E1' SR). rewrite <- E. left. apply S2.
        - exfalso. rewrite <- app_assoc in E. destruct (JH " & "%string t1 ts (lit ", L=" ++ tl ++ lit ")" ++ a) (or_introl eq_refl)) as (r & SR & ER).
          rewrite ER in E. apply (text_not_stop g1 t1 r E1 SR). rewrite E. left. apply S2.
        - rewrite <- !app_assoc in E.
          apply (join_reads " & " (or_intror (or_introl eq_refl)) (lit ")") (ex_intro _ [] eq_refl) (g1 :: g) (g1' :: g')) in E; auto;
            try discriminate; constructor; auto. }
      destruct EG as [-> EG]. apply cancel in EG.
      apply (opt_reads l l' tl tl') in EG as [-> EG]; auto; try apply S1;
        [|intros h ->; now apply IHl|intros h ->; auto]. apply cancel in EG as ->. auto.
    - apply W; [|reflexivity]. intros _ k t u a b _ CK RK NK ET EU SA SB E.
      assert (HK : kw k = Some "SatSum(@"%string) by (eapply (same_kw (HSatSum x f g l)); eauto; reflexivity).
      destruct k as [ | | | | | | | | | | | | |x' f' g' l'|]; try discriminate. cbn [HomText.hom_text] in ET, EU.
      cbn [readable nested_right] in RK, NK, RH, NH.
      destruct RH as (R1 & R2 & R3), NH as (N1 & N2 & N3), RK as (K1 & K2 & K3), NK as (M1 & M2 & M3).
      pose proof (AL g IHg R2 N2) as RL.
      destruct (all_texts (map hom_text g)) as [ts|] eqn:TS; [|discriminate].
      destruct (all_texts (map hom_text g')) as [ts'|] eqn:TS'; [|discriminate].
      apply all_texts_inv in TS, TS'.
      change (text2 (opt_text f) (opt_text l) (fun a b => lit "SatSum(@" ++ decN x ++ lit ", F=" ++ a ++ lit ", G=" ++
                group_text (lit " + ") ts ++ lit ", L=" ++ b) = Some t) in ET.
      change (text2 (opt_text f') (opt_text l') (fun a b => lit "SatSum(@" ++ decN x' ++ lit ", F=" ++ a ++ lit ", G=" ++
                group_text (lit " + ") ts' ++ lit ", L=" ++ b) = Some u) in EU.
      destruct (opt_text f) as [tf|] eqn:Ef; [|discriminate]. destruct (opt_text l) as [tl|] eqn:El; [|discriminate].
      destruct (opt_text f') as [tf'|] eqn:Ef'; [|discriminate]. destruct (opt_text l') as [tl'|] eqn:El'; [|discriminate].
      unfold text2 in ET, EU. apply some_inj in ET, EU; subst t u.
      rewrite <- !app_assoc in E. apply cancel in E. apply decN_prefix in E as [-> E]; [|reflexivity..]. apply cancel in E.
      apply (opt_reads f f' tf tf') in E as [-> E]; auto; try apply S2;
        [|intros h ->; now apply IHf|intros h ->; auto]. apply cancel in E.
      assert (EG : g = g' /\ lit ", L=" ++ tl ++ a = lit ", L=" ++ tl' ++ b).
      { destruct TS as [|g1 t1 g ts E1 TS], TS' as [|g1' t1' g' ts' E1' TS']; cbn [group_text] in E.
        - auto.
        - exfalso. rewrite <- app_assoc in E. destruct (JH " + "%string t1' ts' (lit ", L=" ++ tl' ++ b) (or_intror eq_refl)) as (r & SR & ER).
          rewrite ER in E. apply (text_not_stop g1' t1' r E1' SR). rewrite <- E. left. apply S2.
        - exfalso. rewrite <- app_assoc in E. destruct (JH " + "%string t1 ts (lit ", L=" ++ tl ++ a) (or_intror eq_refl)) as (r & SR & ER).
          rewrite ER in E. apply (text_not_stop g1 t1 r E1 SR). rewrite E. left. apply S2.
        - rewrite <- !app_assoc in E.
          apply (join_reads " + " (or_introl eq_refl) (lit ")") (ex_intro _ [] eq_refl) (g1 :: g) (g1' :: g')) in E; auto;
            try discriminate; constructor; auto. }
      destruct EG as [-> EG]. apply cancel in EG.
      apply (opt_reads_o l l' tl tl') in EG as [-> ->]; auto; [intros h ->|intros h ->; tauto].
      split; [apply R3|]. apply (IHl h eq_refl); [apply R3|exact N3].
    - apply W; [|reflexivity]. intros _ k t u a b _ CK RK NK ET EU SA SB E.
      assert (HK : kw k = Some "("%string) by (eapply (same_kw (HSum l)); eauto; reflexivity).
      cbn [readable nested_right] in RH, NH. destruct RH as [L RH]. pose proof (AL l IH RH NH) as RL.
      cbn [HomText.hom_text] in ET. destruct l as [|l1 l]; [discriminate|].
      destruct (all_texts (map hom_text (l1 :: l))) as [ts|] eqn:TS; [|discriminate]. apply some_inj in ET; subst t.
      apply all_texts_inv in TS. rewrite <- !app_assoc in E.
      destruct k as [ | | | |k| | | | |m| | | | |m]; try discriminate; cbn [HomText.hom_text] in EU;
        cbn [readable nested_right] in RK, NK.
      + exfalso. texts. apply some_inj in EU; subst u. rewrite <- !app_assoc in E. apply cancel in E. revert E.
        refine (reads_paren_list " + " _ (l1 :: l) ts _ k _ _ RL L TS RK NK _ ")" ("*"%char :: b) _ eq_refl _ (S1 _));
          [cbn; tauto|eassumption|cbn; tauto|discriminate].
      + exfalso. destruct m as [|m1 m]; [discriminate|]. destruct (all_texts (map hom_text (m1 :: m))) as [ts'|] eqn:TS'; [|discriminate].
        apply some_inj in EU; subst u. apply all_texts_inv in TS'. rewrite <- !app_assoc in E. apply cancel in E. destruct RK as [L' RK].
        destruct TS' as [|k1 t1 r1 ts1 E1 TS']; [cbn in L'; lia|].
        destruct TS' as [|k2 t2 r2 ts2 E2 TS']; [cbn in L'; lia|]. cbn [join] in E. rewrite <- !app_assoc in E. revert E.
        cbn [fold_right] in RK, NK. destruct RK as [RK _], NK as [NK _].
        refine (reads_paren_list " + " _ (l1 :: l) ts _ k1 _ _ RL L TS RK NK E1 " & " _ _ eq_refl _ (S4 _));
          [cbn; tauto|cbn; tauto|discriminate].
      + destruct m as [|m1 m]; [discriminate|]. destruct (all_texts (map hom_text (m1 :: m))) as [ts'|] eqn:TS'; [|discriminate].
        apply some_inj in EU; subst u. apply all_texts_inv in TS'. rewrite <- !app_assoc in E. apply cancel in E.
        apply (join_reads " + " (or_introl eq_refl) (lit ")") (ex_intro _ [] eq_refl) (l1 :: l) (m1 :: m)) in E as [-> ->]; auto;
          try discriminate; apply FA; tauto.
  Qed.

  Lemma text_norm h k : readable h -> readable k -> hom_text h = hom_text k -> norm h = norm k.
  Proof.
    intros RH RK E. destruct (readable_text h RH) as [t ET].
    destruct (reads_all (norm h) (norm_readable h RH) (norm_nested _ _ _ _ h)) as [R _].
    apply (R (norm k) t t [] []); auto using norm_readable, norm_nested.
    - now rewrite norm_text.
    - now rewrite norm_text, <- E.
    - now left.
    - now left.
  Qed.
End Proofs.
