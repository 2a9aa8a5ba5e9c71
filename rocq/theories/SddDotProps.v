(** * The DOT export of SDDs (C84) *)

From Coq Require Import Ascii String List Bool Arith NArith Lia Permutation.
From Verif Require Import Base SortedSets Values FlatSet Sdd SddFacts DDModel DDProofs Spec DDTheorems Concrete Tools ToolsProofs.
From Verif Require Import Orders OrdersProofs OrdersProps OrdersSdd Text OrderText OrderTextProps SddText ForceDot ForceDotProps SddDot.
Import ListNotations.

(** ** Specification *)

(** [occurs b x c t]: [t] is in [x], at the level of the order [b] that begins [c]. *)
Inductive occurs {U V} : builder U -> sdd V -> builder U -> sdd V -> Prop :=
| occ_here : forall b x, occurs b x b x
| occ_flat : forall id nested next n arcs v s c t, In (v, s) arcs -> occurs next s c t ->
    occurs (BNode id nested next) (Flat n arcs) c t
| occ_succ : forall id nested next n arcs v s c t, In (v, s) arcs -> occurs next s c t ->
    occurs (BNode id nested next) (Hier n arcs) c t
| occ_val : forall id nested next n arcs v s c t, In (v, s) arcs -> occurs nested v c t ->
    occurs (BNode id nested next) (Hier n arcs) c t.

(** No hierarchy. *)
Fixpoint flat_builder {U} (b : builder U) : Prop :=
  match b with
  | BNil => True
  | BNode _ nested next => nested = BNil /\ flat_builder next
  end.

(** The addresses of the nodes of [x]: hexadecimal digits and the letter x, different for different nodes. *)
Definition address_char (c : ascii) : bool :=
  let n := N_of_ascii c in ((48 <=? n) && (n <=? 57) || (97 <=? n) && (n <=? 102) || (n =? 120))%N.
Definition node_addresses {VI} (pa : sdd (vt VI) -> text) (x : sdd (vt VI)) : Prop :=
  (forall t c, sub VI t x -> In c (pa t) -> address_char c = true) /\ forall t t', sub VI t x -> sub VI t' x -> pa t = pa t' -> t = t'.

(** The names of the nodes that are declared. *)
Definition declared {VI U} (pa : sdd (vt VI) -> text) (items : list (ditem VI U)) : list text :=
  concat (map (fun i => match i with
                        | XTerm t | XNode t _ => [lit "n" ++ pa t]
                        | XFlat _ _ _ => []
                        | XHier t _ s => [lit "g" ++ pa t ++ lit "n" ++ pa s]
                        end) items).

(** ** Proofs *)

Section Proofs.
  Variable VI : values_impl.
  Variable PF : platform VI.
  Variable U : Type.
  Variable ueqb : U -> U -> bool.
  Notation V := (vt VI).
  Notation sdd := (sdd V).
  Notation ditem := (ditem VI U).
  Notation sdot_visit := (sdot_visit VI PF U).
  Notation sdot := (sdot VI PF U).

  Definition erase (i : ditem) : item VI :=
    match i with
    | XTerm t => DNode VI t
    | XNode t _ => DNode VI t
    | XFlat t v s => DFlat VI t v s
    | XHier t v s => DHier VI t v s
    end.

  Notation erases := (fun (st : list ditem * list sdd) => (map erase (fst st), snd st)).
  Lemma loop_erase {A E} (f : list ditem * list sdd -> A -> res E (list ditem * list sdd))
    (g : list (item VI) * list sdd -> A -> list (item VI) * list sdd) : forall l,
    (forall a, In a l -> forall st st', f st a = Ok st' -> g (erases st) a = erases st') ->
    forall st st', loop_res f l st = Ok st' -> fold_left g l (erases st) = erases st'.
  Proof.
    induction l as [|a l IH]; intros Hf st st' E0; cbn [loop_res fold_left] in *.
    - now injection E0 as <-.
    - destruct (f st a) as [st1|] eqn:E1; cbn [rbind] in E0; [|discriminate].
      rewrite (Hf a (or_introl eq_refl) _ _ E1). apply IH; auto. intros b Hb. apply Hf. now right.
  Qed.

  Lemma visit_erase : forall t o st st', sdot_visit t o st = Ok st' -> dot_visit VI PF t (erases st) = erases st'.
  Proof.
    induction t as [| |x arcs IH|x arcs IH] using sdd_ind'; intros o st st' E0; cbn [SddDot.sdot_visit dot_visit] in *;
      cbn [fst snd] in *; destruct (visited VI PF (snd st) _); try (injection E0 as <-; reflexivity).
    - injection E0 as <-. cbn [fst snd]. now rewrite map_app.
    - injection E0 as <-. cbn [fst snd]. now rewrite map_app.
    - destruct (o_identifier o) as [id|], (o_next o) as [next|]; try discriminate.
      match type of E0 with rbind ?a _ = _ => destruct a as [st1|] eqn:E1 end; cbn [rbind] in E0; [|discriminate].
      injection E0 as <-. 
      unshelve epose proof (loop_erase _ (fun st arc => let st1 := dot_visit VI PF (snd arc) st in
               (fst st1 ++ [DFlat VI (Flat x arcs) (fst arc) (snd arc)], snd st1)) arcs _ _ _ E1) as H.
      + intros [v s] Hin st2 st3 E2. cbn [fst snd] in *. destruct (sdot_visit s next st2) as [st4|] eqn:E3; cbn [rbind] in E2; [|discriminate].
        injection E2 as <-. rewrite (IH v s Hin _ _ _ E3). cbn [fst snd]. now rewrite map_app.
      + cbn [fst snd] in H. rewrite map_app in H. cbn [map erase] in H. rewrite H. reflexivity.
    - destruct (o_identifier o) as [id|], (o_next o) as [next|], (o_nested o) as [nested|]; try discriminate.
      match type of E0 with rbind ?a _ = _ => destruct a as [st1|] eqn:E1 end; cbn [rbind] in E0; [|discriminate].
      injection E0 as <-. 
      unshelve epose proof (loop_erase _ (fun st arc => let st1 := dot_visit VI PF (fst arc) (dot_visit VI PF (snd arc) st) in
               (fst st1 ++ [DHier VI (Hier x arcs) (fst arc) (snd arc)], snd st1)) arcs _ _ _ E1) as H.
      + intros [v s] Hin st2 st3 E2. cbn [fst snd] in *. destruct (IH v s Hin) as [IHv IHs].
        destruct (sdot_visit s next st2) as [st4|] eqn:E3; cbn [rbind] in E2; [|discriminate].
        destruct (sdot_visit v nested st4) as [st5|] eqn:E4; cbn [rbind] in E2; [|discriminate].
        injection E2 as <-. rewrite (IHs _ _ _ E3). rewrite (IHv _ _ _ E4). cbn [fst snd]. now rewrite map_app.
      + cbn [fst snd] in H. rewrite map_app in H. cbn [map erase] in H. rewrite H. reflexivity.
  Qed.
  Lemma sdot_erase : forall x o items, sdot x o = Ok items -> map erase items = Tools.dot VI PF x.
  Proof.
    intros x o items E0. unfold SddDot.sdot in E0. destruct (sdot_visit x o ([], [])) as [st|] eqn:E1; [|discriminate].
    injection E0 as <-. apply visit_erase in E1. unfold Tools.dot. cbn [map fst snd] in E1. now rewrite E1.
  Qed.

  (** Labels. *)
  Notation labels := (fun (l : list ditem) t id => In (XNode t id) l).
  Lemma loop_labels {A E} (f : list ditem * list sdd -> A -> res E (list ditem * list sdd)) (P : sdd -> oid U -> Prop) : forall l,
    (forall a, In a l -> forall st, exists st', f st a = Ok st' /\
      forall t id, labels (fst st') t id -> labels (fst st) t id \/ P t id) ->
    forall st, exists st', loop_res f l st = Ok st' /\ forall t id, labels (fst st') t id -> labels (fst st) t id \/ P t id.
  Proof.
    induction l as [|a l IH]; intros Hf st; cbn [loop_res].
    - exists st. auto.
    - destruct (Hf a (or_introl eq_refl) st) as (st1 & -> & H1). cbn [rbind].
      destruct (IH (fun b Hb => Hf b (or_intror Hb)) st1) as (st2 & -> & H2). exists st2. split; auto.
      intros t id L. apply H2 in L as [L|L]; auto.
  Qed.

  Lemma visit_labels : forall t b o p path, sees o b p path -> follows (shape_of U b) t -> forall st,
    exists st', sdot_visit t o st = Ok st' /\ forall n id, labels (fst st') n id ->
      labels (fst st) n id \/ exists nested next, occurs b t (BNode id nested next) n.
  Proof.
    induction t as [| |x arcs IH|x arcs IH] using sdd_ind'; intros b o p path Se Fo st; cbn [SddDot.sdot_visit];
      destruct (visited VI PF (snd st) _); try (exists st; auto; fail).
    - eexists. split; [reflexivity|]. intros n id L. cbn [fst] in L. apply in_app_or in L as [L|[L|[]]]; [auto|discriminate].
    - eexists. split; [reflexivity|]. intros n id L. cbn [fst] in L. apply in_app_or in L as [L|[L|[]]]; [auto|discriminate].
    - destruct b as [|id0 nested next]; [inversion Fo|]. unfold o_identifier. rewrite (sees_head _ _ _ _ _ _ _ Se). cbn [option_map n_id].
      destruct (sees_next _ _ _ _ _ _ _ Se) as (o' & -> & Se' & _).
      assert (Fs : forall v s, In (v, s) arcs -> follows (shape_of U next) s).
      { destruct nested; cbn [shape_of] in Fo; inversion Fo; subst; auto. }
      edestruct (loop_labels (A := V * sdd) (E := oerr U)) as (st1 & E1 & H1); [|rewrite E1; cbn [rbind]].
      + intros [v s] Hin st1. cbn [fst snd]. destruct (IH v s Hin _ _ _ _ Se' (Fs v s Hin) st1) as (st2 & E2 & H2).
        rewrite E2. cbn [rbind]. eexists. split; [reflexivity|]. cbn [fst snd]. intros n id L.
        apply in_app_or in L as [L|[L|[]]]; [|discriminate]. apply H2 in L as [L|(nd & nx & L)]; [auto|right].
        refine (_ : (fun n id => exists nested' next', occurs (BNode id0 nested next) (Flat x arcs) (BNode id nested' next') n) n id).
        exists nd, nx. eapply occ_flat; eauto.
      + eexists. split; [reflexivity|]. cbn [fst]. intros n id L. apply H1 in L as [L|L]; [|auto]. cbn [fst] in L.
        apply in_app_or in L as [L|[L|[]]]; auto. injection L as <- <-. right. exists nested, next. constructor.
    - destruct b as [|id0 nested next]; [inversion Fo|]. unfold o_identifier. rewrite (sees_head _ _ _ _ _ _ _ Se). cbn [option_map n_id].
      destruct (sees_next _ _ _ _ _ _ _ Se) as (o' & -> & Se' & _). destruct (sees_nested _ _ _ _ _ _ _ Se) as (o2 & -> & Se2 & _).
      assert (Fs : forall v s, In (v, s) arcs -> follows (shape_of U nested) v /\ follows (shape_of U next) s).
      { destruct nested; cbn [shape_of] in *; inversion Fo; subst; eauto. }
      edestruct (loop_labels (A := sdd * sdd) (E := oerr U)) as (st1 & E1 & H1); [|rewrite E1; cbn [rbind]].
      + intros [v s] Hin st1. cbn [fst snd]. destruct (IH v s Hin) as [IHv IHs]. destruct (Fs v s Hin) as [Fv Fs'].
        destruct (IHs _ _ _ _ Se' Fs' st1) as (st2 & E2 & H2).
        rewrite E2. cbn [rbind]. destruct (IHv _ _ _ _ Se2 Fv st2) as (st3 & E3 & H3). rewrite E3. cbn [rbind].
        eexists. split; [reflexivity|]. cbn [fst snd]. intros n id L.
        apply in_app_or in L as [L|[L|[]]]; [|discriminate].
        refine (_ : _ \/ (fun n id => exists nested' next', occurs (BNode id0 nested next) (Hier x arcs) (BNode id nested' next') n) n id).
        apply H3 in L as [L|(nd & nx & L)]; [|right; exists nd, nx; eapply occ_val; eauto].
        apply H2 in L as [L|(nd & nx & L)]; [auto|right]. exists nd, nx. eapply occ_succ; eauto.
      + eexists. split; [reflexivity|]. cbn [fst]. intros n id L. apply H1 in L as [L|L]; [|auto]. cbn [fst] in L.
        apply in_app_or in L as [L|[L|[]]]; auto. injection L as <- <-. right. exists nested, next. constructor.
  Qed.

  (** Declarations: terminals and nodes, and the first one. *)
  Notation proper := (fun i : ditem => match i with XTerm t => is_node VI t = false | XNode t _ => is_node VI t = true | _ => True end).
  Notation grows := (fun (st st' : list ditem * list sdd) => exists l, fst st' = fst st ++ l /\ forall i, In i l -> proper i).
  Lemma grows_trans a b c : grows a b -> grows b c -> grows a c.
  Proof.
    intros (l & -> & H1) (l' & -> & H2). exists (l ++ l'). split; [now rewrite app_assoc|].
    intros i J. apply in_app_or in J as [J|J]; [exact (H1 i J)|exact (H2 i J)].
  Qed.
  Lemma grows_emit a i : proper i -> grows a (fst a ++ [i], snd a).
  Proof. intros H. exists [i]. split; auto. intros j [<-|[]]; auto. Qed.
  Lemma loop_grows {A E} (f : list ditem * list sdd -> A -> res E (list ditem * list sdd)) : forall l,
    (forall a, In a l -> forall st st', f st a = Ok st' -> grows st st') ->
    forall st st', loop_res f l st = Ok st' -> grows st st'.
  Proof.
    induction l as [|a l IH]; intros Hf st st' E0; cbn [loop_res] in E0.
    - injection E0 as <-. exists []. split; [now rewrite app_nil_r|intros i []].
    - destruct (f st a) as [st1|] eqn:E1; cbn [rbind] in E0; [|discriminate].
      apply (grows_trans _ st1); [apply (Hf a); [now left|exact E1]|]. apply IH; auto. intros b Hb. apply Hf. now right.
  Qed.
  Definition declares (t : sdd) (i : ditem) : Prop := match i with XTerm t' | XNode t' _ => t' = t | _ => False end.
  Lemma visit_grows : forall t o st st', sdot_visit t o st = Ok st' -> grows st st' /\
    (visited VI PF (snd st) t = false -> exists i l, fst st' = fst st ++ i :: l /\ declares t i).
  Proof.
    induction t as [| |x arcs IH|x arcs IH] using sdd_ind'; intros o st st' E0; cbn [SddDot.sdot_visit] in E0;
      destruct (visited VI PF (snd st) _);
      try (injection E0 as <-; split; [exists []; split; [now rewrite app_nil_r|intros i []]|discriminate]).
    - injection E0 as <-. split; [now apply (grows_emit st (XTerm Zero))|]. intros _. exists (XTerm Zero), []. now split.
    - injection E0 as <-. split; [now apply (grows_emit st (XTerm One))|]. intros _. exists (XTerm One), []. now split.
    - destruct (o_identifier o) as [id|], (o_next o) as [next|]; try discriminate.
      match type of E0 with rbind ?a _ = _ => destruct a as [st1|] eqn:E1 end; cbn [rbind] in E0; [|discriminate].
      injection E0 as <-. cbn [fst].
      assert (G : grows (fst st ++ [XNode (Flat x arcs) id], snd st) st1).
      { eapply loop_grows; [|exact E1]. intros [v s] Hin st2 st3 E2. cbn [fst snd] in E2.
        destruct (sdot_visit s next st2) as [st4|] eqn:E3; cbn [rbind] in E2; [|discriminate]. injection E2 as <-.
        apply (grows_trans _ st4); [exact (proj1 (IH v s Hin _ _ _ E3))|]. now apply grows_emit. }
      split; [apply (grows_trans _ _ _ (grows_emit st (XNode (Flat x arcs) id) eq_refl) G)|].
      intros _. destruct G as (l & E2 & _). cbn [fst] in E2. exists (XNode (Flat x arcs) id), l. split; [|reflexivity].
      now rewrite E2, <- app_assoc.
    - destruct (o_identifier o) as [id|], (o_next o) as [next|], (o_nested o) as [nested|]; try discriminate.
      match type of E0 with rbind ?a _ = _ => destruct a as [st1|] eqn:E1 end; cbn [rbind] in E0; [|discriminate].
      injection E0 as <-. cbn [fst].
      assert (G : grows (fst st ++ [XNode (Hier x arcs) id], snd st) st1).
      { eapply loop_grows; [|exact E1]. intros [v s] Hin st2 st3 E2. cbn [fst snd] in E2. destruct (IH v s Hin) as [IHv IHs].
        destruct (sdot_visit s next st2) as [st4|] eqn:E3; cbn [rbind] in E2; [|discriminate].
        destruct (sdot_visit v nested st4) as [st5|] eqn:E4; cbn [rbind] in E2; [|discriminate]. injection E2 as <-.
        apply (grows_trans _ st4); [exact (proj1 (IHs _ _ _ E3))|]. apply (grows_trans _ st5); [exact (proj1 (IHv _ _ _ E4))|].
        now apply grows_emit. }
      split; [apply (grows_trans _ _ _ (grows_emit st (XNode (Hier x arcs) id) eq_refl) G)|].
      intros _. destruct G as (l & E2 & _). cbn [fst] in E2. exists (XNode (Hier x arcs) id), l. split; [|reflexivity].
      now rewrite E2, <- app_assoc.
  Qed.
  Lemma sdot_first : forall x o items, sdot x o = Ok items -> (forall i, In i items -> proper i) /\
    exists i l, items = i :: l /\ declares x i.
  Proof.
    intros x o items E0. unfold SddDot.sdot in E0. destruct (sdot_visit x o ([], [])) as [st|] eqn:E1; [|discriminate].
    injection E0 as <-. apply visit_grows in E1 as [(l & E2 & P) F]. cbn [fst snd app] in *. split; [now rewrite E2|auto].
  Qed.

  (** What is drawn. *)
  Hypothesis PO : platform_ok PF.
  Lemma drawn_in x o items : sdot x o = Ok items -> forall i, In i (map erase items) <-> exists t, sub VI t x /\ In i (items_of VI t).
  Proof.
    intros E0 i. rewrite (sdot_erase _ _ _ E0). destruct (dot_spec VI PF PO x) as (l & [_ L] & P). split.
    - intros I. apply (Permutation_in _ P), in_flat_map in I as (t & I & J). apply L in I. eauto.
    - intros (t & I & J). apply (Permutation_in _ (Permutation_sym P)), in_flat_map. exists t. split; auto. now apply L.
  Qed.
  Lemma items_node t i : In i (items_of VI t) -> forall n, i = DNode VI n -> n = t.
  Proof.
    intros I n ->. cbn in I. destruct I as [I|I]; [congruence|]. destruct t; try destruct I;
      apply in_map_iff in I as (a & [=] & _).
  Qed.
  Lemma erased x o items : sdot x o = Ok items ->
    (forall t, In (XTerm t) items <-> sub VI t x /\ is_node VI t = false) /\
    (forall t, (exists id, In (XNode t id) items) <-> sub VI t x /\ is_node VI t = true) /\
    (forall t v s, In (XFlat t v s) items <-> sub VI t x /\ exists n arcs, t = Flat n arcs /\ In (v, s) arcs) /\
    (forall t v s, In (XHier t v s) items <-> sub VI t x /\ exists n arcs, t = Hier n arcs /\ In (v, s) arcs).
  Proof.
    intros E0. pose proof (drawn_in _ _ _ E0) as DI. destruct (sdot_first _ _ _ E0) as [P _].
    assert (D1 : forall i, In i items -> exists t, sub VI t x /\ In (erase i) (items_of VI t)).
    { intros i I. apply DI. now apply in_map. }
    assert (DN : forall t, sub VI t x -> exists i, In i items /\ erase i = DNode VI t).
    { intros t St. assert (I : In (DNode VI t) (map erase items)) by (apply DI; exists t; split; [auto|now left]).
      apply in_map_iff in I as (i & I1 & I2). eauto. }
    split; [|split; [|split]].
    - intros t. split.
      + intros I. split; [|exact (P _ I)]. apply D1 in I as (t' & I & J). now rewrite (items_node _ _ J t eq_refl).
      + intros [I J]. destruct (DN t I) as (i & Ii & Ei). destruct i as [t'|t' id|t' v s|t' v s]; try discriminate; injection Ei as ->; auto.
        specialize (P _ Ii). cbn in P. congruence.
    - intros t. split.
      + intros (id & I). split; [|exact (P _ I)]. apply D1 in I as (t' & I & J). now rewrite (items_node _ _ J t eq_refl).
      + intros [I J]. destruct (DN t I) as (i & Ii & Ei). destruct i as [t'|t' id|t' v s|t' v s]; try discriminate; injection Ei as ->; eauto.
        specialize (P _ Ii). cbn in P. congruence.
    - intros t v s. split.
      + intros I. apply D1 in I as (t' & I & J). cbn [erase] in J. destruct J as [J|J]; [discriminate|].
        destruct t' as [| |n arcs|n arcs]; try destruct J; apply in_map_iff in J as ([v' s'] & J & K); [|discriminate].
        injection J as <- <- <-. split; eauto.
      + intros (I & n & arcs & -> & J). assert (K : In (DFlat VI (Flat n arcs) v s) (map erase items)).
        { apply DI. exists (Flat n arcs). split; auto. right. apply in_map_iff. exists (v, s). auto. }
        apply in_map_iff in K as (i & Ei & Ii). destruct i; try discriminate. injection Ei as -> -> ->. auto.
    - intros t v s. split.
      + intros I. apply D1 in I as (t' & I & J). cbn [erase] in J. destruct J as [J|J]; [discriminate|].
        destruct t' as [| |n arcs|n arcs]; try destruct J; apply in_map_iff in J as ([v' s'] & J & K); [discriminate|].
        injection J as <- <- <-. split; eauto.
      + intros (I & n & arcs & -> & J). assert (K : In (DHier VI (Hier n arcs) v s) (map erase items)).
        { apply DI. exists (Hier n arcs). split; auto. right. apply in_map_iff. exists (v, s). auto. }
        apply in_map_iff in K as (i & Ei & Ii). destruct i; try discriminate. injection Ei as -> -> ->. auto.
  Qed.
End Proofs.

(** Texts of lines. *)
Lemma word_split : forall (a a' b b' : text), word a -> word a' ->
  match b with c :: _ => word_char c = false | [] => False end -> match b' with c :: _ => word_char c = false | [] => False end ->
  a ++ b = a' ++ b' -> a = a' /\ b = b'.
Proof.
  induction a as [|x a IH]; intros [|y a'] b b' WA WA' NB NB' E; cbn in E.
  - auto.
  - subst b. specialize (WA' y (or_introl eq_refl)). congruence.
  - subst b'. specialize (WA x (or_introl eq_refl)). congruence.
  - injection E as -> E. apply IH in E as [-> ->]; auto; intros z Z; [apply WA|apply WA']; now right.
Qed.
Lemma address_word t : (forall c, In c t -> address_char c = true) -> word t.
Proof.
  intros A c I. apply A in I. unfold address_char, word_char in *. cbv zeta in *.
  destruct (48 <=? N_of_ascii c)%N eqn:E1, (N_of_ascii c <=? 57)%N eqn:E2; cbn [andb orb] in *; auto;
    destruct (97 <=? N_of_ascii c)%N eqn:E3, (N_of_ascii c <=? 102)%N eqn:E4, (N_of_ascii c =? 120)%N eqn:E5; cbn [andb orb] in I; try discriminate;
    rewrite ?N.leb_le, ?N.leb_gt, ?N.eqb_eq in *; rewrite !orb_true_iff, !andb_true_iff, !N.leb_le; lia.
Qed.

(** A line: a name, then one of seven sentences. *)
Inductive sentence : Type :=
| STerm (one : bool) | SLabel (l : text) | SArc (target l : text) | SPoint | SGhost (target : text) | SSucc (target : text) | SVal (target : text).
Definition sentence_text (s : sentence) : text :=
  match s with
  | STerm one => lit "[shape=square,label=""" ++ lit (if one then "1" else "0") ++ lit """];"
  | SLabel l => lit "[label=""" ++ l ++ lit """];"
  | SArc target l => lit "-> " ++ target ++ lit " [label=""" ++ l ++ lit """];"
  | SPoint => lit "[shape=point,label="""",height=0,width=0];"
  | SGhost target => lit "-> " ++ target ++ lit " [arrowhead=none];"
  | SSucc target => lit "-> " ++ target ++ lit ";"
  | SVal target => lit "-> " ++ target ++ lit " [style=dotted];"
  end.
Definition target_word (s : sentence) : Prop :=
  match s with SArc t _ | SGhost t | SSucc t | SVal t => word t | _ => True end.
Definition sentence_one_line (s : sentence) : Prop :=
  match s with SLabel l | SArc _ l => ~ In newline l | _ => True end.

Definition target_of (s : sentence) : option (text * text) :=
  match s with
  | SArc t l => Some (t, lit " [label=""" ++ l ++ lit """];")
  | SGhost t => Some (t, lit " [arrowhead=none];")
  | SSucc t => Some (t, lit ";")
  | SVal t => Some (t, lit " [style=dotted];")
  | _ => None
  end.
Lemma sentence_inj s s' : target_word s -> target_word s' -> sentence_text s = sentence_text s' -> s = s'.
Proof.
  assert (T : forall s t r, target_of s = Some (t, r) -> sentence_text s = lit "-> " ++ t ++ r /\
    (target_word s -> word t) /\ match r with c :: _ => word_char c = false | [] => False end).
  { intros [o|l|u l| |u|u|u] t r; cbn [target_of]; try discriminate; intros Eo; injection Eo as <- <-; repeat split; auto. }
  assert (B : forall s, target_of s = None -> exists r, sentence_text s = "["%char :: r).
  { intros [o|l|u l| |u|u|u]; cbn [target_of]; try discriminate; intros _; eexists; reflexivity. }
  intros W W' E. destruct (target_of s) as [[t r]|] eqn:E1, (target_of s') as [[t' r']|] eqn:E2.
  - destruct (T _ _ _ E1) as (X1 & X2 & X3), (T _ _ _ E2) as (Y1 & Y2 & Y3). rewrite X1, Y1 in E. apply app_inv_head in E.
    apply word_split in E as [-> ->]; auto.
    clear X1 X2 X3 Y1 Y2 Y3 B T W W'.
    assert (SP : forall a b c d : text, Some (a, b) = Some (c, d) -> a = c /\ b = d) by (clear; intros a b c d [= -> ->]; auto).
    destruct s as [o|l|u l| |u|u|u], s' as [o'|l'|u' l'| |u'|u'|u']; cbn [target_of] in *; try discriminate E1; try discriminate E2; rewrite <- E2 in E1; clear E2; apply SP in E1 as [-> E1];
      try (discriminate E1); auto.
    f_equal. apply (app_inv_head (lit " [label=""")) in E1. now apply app_inv_tail in E1.
  - destruct (T _ _ _ E1) as (X1 & _), (B _ E2) as (q & X2). rewrite X1, X2 in E. discriminate.
  - destruct (T _ _ _ E2) as (X1 & _), (B _ E1) as (q & X2). rewrite X1, X2 in E. discriminate.
  - destruct s as [o|l|u l| |u|u|u], s' as [o'|l'|u' l'| |u'|u'|u']; try discriminate; auto.
    + f_equal. destruct o, o'; auto; discriminate.
    + f_equal. cbn [sentence_text] in E. apply app_inv_head in E. now apply app_inv_tail in E.
Qed.
Definition pline_text (l : text * sentence) : text := fst l ++ space :: sentence_text (snd l).
Definition pline_ok (l : text * sentence) : Prop := word (fst l) /\ target_word (snd l) /\ sentence_one_line (snd l).
Lemma pline_inj l l' : pline_ok l -> pline_ok l' -> pline_text l = pline_text l' -> l = l'.
Proof.
  intros (W & T & _) (W' & T' & _) E. destruct l as [a s], l' as [a' s']. unfold pline_text in E. cbn [fst snd] in *.
  apply word_split in E as [-> E]; auto. apply cons_inv in E as [_ E]. apply sentence_inj in E; auto. now rewrite E.
Qed.
Lemma lit_one_line : forall l, forallb (fun c => negb (Ascii.eqb c newline)) (lit l) = true -> ~ In newline (lit l).
Proof. intros l A I. rewrite forallb_forall in A. apply A in I. rewrite Ascii.eqb_refl in I. discriminate. Qed.
Lemma pline_one_line l : pline_ok l -> ~ In newline (pline_text l).
Proof.
  intros (W & T & O) I. unfold pline_text in I. apply in_app_or in I as [I|[I|I]].
  - apply W in I. discriminate.
  - discriminate.
  - assert (NW : forall t, word t -> ~ In newline t) by (intros t X Y; apply X in Y; discriminate).
    destruct (snd l) as [o|t|u t| |u|u|u]; cbn [sentence_text target_word sentence_one_line] in *;
      repeat (apply in_app_or in I as [I|I]); try (now apply NW in I); try contradiction;
      try (destruct o); revert I; apply lit_one_line; reflexivity.
Qed.
Lemma plines_inj : forall l l', (forall x, In x l -> pline_ok x) -> (forall x, In x l' -> pline_ok x) ->
  map pline_text l = map pline_text l' -> l = l'.
Proof.
  induction l as [|a l IH]; intros [|a' l'] A A' E; try discriminate; auto. cbn [map] in E. injection E as E1 E2.
  f_equal; [apply pline_inj; auto; [apply A|apply A']; now left|]. apply IH; auto; intros x X; [apply A|apply A']; now right.
Qed.

Section Plines.
  Variable VI : values_impl.
  Variable U : Type.
  Notation sdd := (sdd (vt VI)).
  Variable pa : sdd -> text.
  Variable pv : vt VI -> text.
  Variable pu : U -> text.

  Definition plines (i : ditem VI U) : list (text * sentence) :=
    let name t := lit "n" ++ pa t in
    let ghost t s := lit "g" ++ pa t ++ lit "n" ++ pa s in
    match i with
    | XTerm t => [(name t, STerm (match t with Zero => false | _ => true end))]
    | XNode t id => [(name t, SLabel (oid_text pu id))]
    | XFlat t v s => [(name t, SArc (name s) (pv v))]
    | XHier t v s => [(ghost t s, SPoint); (name t, SGhost (ghost t s)); (ghost t s, SSucc (name s)); (ghost t s, SVal (name v))]
    end.
  Lemma plines_lines i : ditem_lines VI U pa pv pu i = map pline_text (plines i).
  Proof. destruct i as [[| |n a|n a]|t id|t v s|t v s]; reflexivity. Qed.
  Lemma plines_all l : concat (map (ditem_lines VI U pa pv pu) l) = map pline_text (concat (map plines l)).
  Proof.
    rewrite concat_map, map_map. f_equal. apply map_ext. apply plines_lines.
  Qed.

  Hypothesis Nu : forall u, ~ In newline (pu u).
  Hypothesis Nv : forall v, ~ In newline (pv v).
  Lemma oid_one_line id : ~ In newline (oid_text pu id).
  Proof.
    unfold oid_text. destruct (is_artificial id); [|apply Nu]. intros J.
    apply in_app_or in J as [[J|[]]|J]; [discriminate|]. apply in_app_or in J as [J|[J|[]]]; [|discriminate].
    apply decN_chars in J. apply J. reflexivity.
  Qed.
  Lemma plines_ok x items : (forall t c, sub VI t x -> In c (pa t) -> address_char c = true) ->
    (forall i, In i items -> match i with
                             | XTerm t | XNode t _ => sub VI t x
                             | XFlat t _ s => sub VI t x /\ sub VI s x
                             | XHier t v s => sub VI t x /\ sub VI v x /\ sub VI s x end) ->
    forall l, In l (concat (map plines items)) -> pline_ok l.
  Proof.
    intros A D l J. apply in_concat in J as (k & J & K). apply in_map_iff in J as (i & <- & J). apply D in J.
    assert (W : forall t, sub VI t x -> word (pa t)) by (intros t St; apply address_word; intros c; now apply A).
    assert (W1 : forall t, sub VI t x -> word (lit "n" ++ pa t)).
    { intros t St c Hc. apply in_app_or in Hc as [[<-|[]]|Hc]; [reflexivity|]. now apply (W t St). }
    assert (W2 : forall t s, sub VI t x -> sub VI s x -> word (lit "g" ++ pa t ++ lit "n" ++ pa s)).
    { intros t s St Ss c Hc. apply in_app_or in Hc as [[<-|[]]|Hc]; [reflexivity|]. apply in_app_or in Hc as [Hc|Hc]; [now apply (W t St)|].
      now apply (W1 s Ss). }
    unfold pline_ok. destruct i as [t|t id|t v s|t v s]; cbn [plines] in K.
    - destruct K as [<-|[]]. cbn [fst snd]. repeat split; auto.
    - destruct K as [<-|[]]. cbn [fst snd]. repeat split; auto. apply oid_one_line.
    - destruct J as [J1 J2]. destruct K as [<-|[]]. cbn [fst snd]. repeat split; [apply W1; auto|apply W1; auto|apply Nv].
    - destruct J as (J1 & J2 & J3). destruct K as [<-|[<-|[<-|[<-|[]]]]]; cbn [fst snd]; repeat split;
        try (apply W1; auto; fail); try (apply W2; auto; fail).
  Qed.
End Plines.

Lemma sub_trans VI : forall y x z, sub VI z y -> sub VI y x -> sub VI z x.
Proof.
  intros y x z A B. induction B as [|n arcs v s I B IH|n arcs v s I B IH|n arcs v s I B IH]; auto.
  - eapply sub_flat; eauto.
  - eapply sub_hier_val; eauto.
  - eapply sub_hier_succ; eauto.
Qed.

Lemma address_split : forall (a a' b b' : text), (forall c, In c a -> address_char c = true) -> (forall c, In c a' -> address_char c = true) ->
  a ++ lit "n" ++ b = a' ++ lit "n" ++ b' -> a = a' /\ b = b'.
Proof.
  induction a as [|x a IH]; intros [|y a'] b b' WA WA' E; cbn in E.
  - injection E as ->. auto.
  - injection E as E1 E2. specialize (WA' y (or_introl eq_refl)). rewrite <- E1 in WA'. discriminate.
  - injection E as E1 E2. specialize (WA x (or_introl eq_refl)). rewrite E1 in WA. discriminate.
  - injection E as -> E. apply (IH a') in E as [-> ->]; auto; intros z Z; [apply WA|apply WA']; now right.
Qed.

(** Two drawings with the same lines. *)
Section Same.
  Variable VI : values_impl.
  Variable U : Type.
  Notation sdd := (sdd (vt VI)).
  Variable pv : vt VI -> text.
  Variable pu : U -> text.
  Hypothesis Iv : forall v w, pv v = pv w -> forall k, v_mem VI v k = v_mem VI w k.
  Variables pa1 pa2 : sdd -> text.
  Variables x y : sdd.
  Hypothesis A1 : node_addresses pa1 x.
  Hypothesis A2 : node_addresses pa2 y.
  Variables items1 items2 : list (ditem VI U).
  Notation graph x items := (
    (forall t, In (XTerm t) items <-> sub VI t x /\ is_node VI t = false) /\
    (forall t, (exists id, In (XNode t id) items) <-> sub VI t x /\ is_node VI t = true) /\
    (forall t v s, In (XFlat t v s) items <-> sub VI t x /\ exists n arcs, t = Flat n arcs /\ In (v, s) arcs) /\
    (forall t v s, In (XHier t v s) items <-> sub VI t x /\ exists n arcs, t = Hier n arcs /\ In (v, s) arcs)).
  Hypothesis G1 : graph x items1.
  Hypothesis G2 : graph y items2.
  Hypothesis Same : concat (map (plines VI U pa1 pv pu) items1) = concat (map (plines VI U pa2 pv pu) items2).

  Lemma moved i l : In i items1 -> In l (plines VI U pa1 pv pu i) -> exists j, In j items2 /\ In l (plines VI U pa2 pv pu j).
  Proof.
    intros J K. assert (M : In l (concat (map (plines VI U pa1 pv pu) items1))).
    { apply in_concat. exists (plines VI U pa1 pv pu i). split; auto. now apply in_map. }
    rewrite Same in M. apply in_concat in M as (q & M & N). apply in_map_iff in M as (j & <- & M). eauto.
  Qed.
  Lemma one_way : forall t1, sub VI t1 x -> forall sh t2, sub VI t2 y -> pa1 t1 = pa2 t2 -> follows sh t1 -> follows sh t2 ->
    forall p, contains t1 p = true -> contains t2 p = true.
  Proof.
    destruct G1 as (T1 & _ & F1 & H1), G2 as (T2 & _ & F2 & H2). destruct A1 as [C1 _], A2 as [C2 I2].
    induction t1 as [| |n arcs IH|n arcs IH] using sdd_ind'; intros S1 sh t2 S2 EA Fo1 Fo2 p C; cbn [contains] in C.
    - destruct p; discriminate.
    - destruct (moved (XTerm One) _ (proj2 (T1 One) (conj S1 eq_refl)) (or_introl eq_refl)) as (j & J & K).
      destruct j as [t|t id|t v s|t v s]; cbn [plines] in K.
      + destruct K as [K|[]]. apply T2 in J as [J1 J2].
        assert (t2 = t). { apply I2; auto. rewrite <- EA. apply (f_equal fst) in K. cbn [fst] in K. now apply app_inv_head in K. }
        subst t2. apply (f_equal snd) in K. cbn [snd] in K. destruct t; cbn in K, J2; try discriminate. destruct p; auto; discriminate.
      + destruct K as [K|[]]. discriminate.
      + destruct K as [K|[]]. discriminate.
      + destruct K as [K|[K|[K|[K|[]]]]]; discriminate.
    - destruct p as [|z a q|]; try discriminate. apply andb_prop in C as [C0 C]. apply existsb_exists in C as ([v s] & Ia & C).
      apply andb_prop in C as [Ca Cs]. cbn [fst snd] in *.
      destruct (moved (XFlat (Flat n arcs) v s) _ (proj2 (F1 _ v s) (conj S1 (ex_intro _ n (ex_intro _ arcs (conj eq_refl Ia))))) (or_introl eq_refl))
        as (j & J & K).
      destruct j as [t|t id|t v' s'|t v' s']; cbn [plines] in K.
      + destruct K as [K|[]]. discriminate.
      + destruct K as [K|[]]. discriminate.
      + destruct K as [K|[]]. apply F2 in J as (J1 & n2 & arcs2 & -> & J2).
        assert (t2 = Flat n2 arcs2).
        { apply I2; auto. rewrite <- EA. apply (f_equal fst) in K. cbn [fst] in K. now apply app_inv_head in K. }
        subst t2. apply (f_equal snd) in K. cbn [snd] in K. injection K as K1 K2.
        inversion Fo1 as [| |? ? ? Fs1|]; subst. inversion Fo2 as [| |? ? ? Fs2|]; subst.
        cbn [contains]. rewrite C0. cbn [andb]. apply existsb_exists. exists (v', s'). split; auto. cbn [fst snd].
        rewrite (Iv _ _ K2) in Ca || rewrite <- (Iv _ _ K2) in Ca. rewrite Ca. cbn [andb].
        eapply (IH v s Ia); [|..|exact Cs].
        * eapply sub_trans; [|exact S1]. eapply sub_flat; eauto. constructor.
        * eapply sub_trans; [|exact J1]. eapply sub_flat; eauto. constructor.
        * auto.
        * eauto.
        * eauto.
      + destruct K as [K|[K|[K|[K|[]]]]]; discriminate.
    - destruct p as [| |z m q]; try discriminate. apply andb_prop in C as [C0 C]. apply existsb_exists in C as ([v s] & Ia & C).
      apply andb_prop in C as [Ca Cs]. cbn [fst snd] in *.
      destruct (moved (XHier (Hier n arcs) v s) (lit "g" ++ pa1 (Hier n arcs) ++ lit "n" ++ pa1 s, SVal (lit "n" ++ pa1 v))
        (proj2 (H1 _ v s) (conj S1 (ex_intro _ n (ex_intro _ arcs (conj eq_refl Ia)))))
        (or_intror (or_intror (or_intror (or_introl eq_refl))))) as (j & J & K).
      assert (Sv : sub VI v x) by (eapply sub_trans; [|exact S1]; eapply sub_hier_val; eauto; constructor).
      assert (Ss : sub VI s x) by (eapply sub_trans; [|exact S1]; eapply sub_hier_succ; eauto; constructor).
      destruct j as [t|t id|t v' s'|t v' s']; cbn [plines] in K.
      + destruct K as [K|[]]. discriminate.
      + destruct K as [K|[]]. discriminate.
      + destruct K as [K|[]]. discriminate.
      + destruct K as [K|[K|[K|[K|[]]]]]; try discriminate. apply H2 in J as (J1 & n2 & arcs2 & -> & J2).
        assert (Sv' : sub VI v' y) by (eapply sub_trans; [|exact J1]; eapply sub_hier_val; eauto; constructor).
        assert (Ss' : sub VI s' y) by (eapply sub_trans; [|exact J1]; eapply sub_hier_succ; eauto; constructor).
        assert (K1 := f_equal fst K). apply (f_equal snd) in K. cbn [fst snd] in K, K1. apply app_inv_head in K1.
        apply address_split in K1 as [K1 K2]; [|intros c; now apply C2|intros c; now apply C1].
        injection K as K.
        assert (t2 = Hier n2 arcs2) by (apply I2; auto; congruence).
        subst t2.
        inversion Fo1 as [| | |? ? ? ? Fv1 Fs1]; subst. inversion Fo2 as [| | |? ? ? ? Fv2 Fs2]; subst.
        cbn [contains]. rewrite C0. cbn [andb]. apply existsb_exists. exists (v', s'). split; auto. cbn [fst snd].
        destruct (IH v s Ia) as [IHv IHs].
        rewrite (IHv Sv _ v' Sv' (eq_sym K) (Fv1 _ _ Ia) (Fv2 _ _ J2) _ Ca). cbn [andb].
        exact (IHs Ss _ s' Ss' (eq_sym K2) (Fs1 _ _ Ia) (Fs2 _ _ J2) _ Cs).
  Qed.
End Same.

(** Levels. *)
Inductive later {U} (c : builder U) : builder U -> Prop :=
| later_here : later c c
| later_next : forall id nested next, later c next -> later c (BNode id nested next).
Lemma later_length {U} (c b : builder U) : later c b -> b_length c <= b_length b.
Proof. induction 1; cbn [b_length]; lia. Qed.
Lemma later_same {U} (b : builder U) : forall c c', later c b -> later c' b -> b_length c = b_length c' -> c = c'.
Proof.
  induction b as [|id nested _ next IH]; intros c c' A B E; inversion A; inversion B; subst; auto.
  - match goal with H : later c' next |- _ => apply later_length in H end. cbn [b_length] in E. lia.
  - match goal with H : later c next |- _ => apply later_length in H end. cbn [b_length] in E. lia.
Qed.
Lemma later_flat {U} (c b : builder U) : later c b -> flat_builder b -> flat_builder c.
Proof. induction 1; auto. intros [_ F]. auto. Qed.
Lemma occurs_flat VI U : forall (b : builder U) (x : sdd (vt VI)) c t, occurs b x c t -> flat_builder b -> follows (shape_of U b) x ->
  later c b /\ follows (shape_of U c) t.
Proof.
  induction 1 as [b x|id nested next n arcs v s c t I O IH|id nested next n arcs v s c t I O IH|id nested next n arcs v s c t I O IH];
    intros Fl Fo.
  - split; [constructor|auto].
  - destruct Fl as [-> Fl]. cbn [shape_of] in Fo. inversion Fo; subst. destruct IH as [L F]; eauto. split; auto. now constructor.
  - destruct Fl as [-> Fl]. cbn [shape_of] in Fo. inversion Fo.
  - destruct Fl as [-> Fl]. cbn [shape_of] in Fo. inversion Fo.
Qed.

Lemma NoDup_flat_map {A B} (f : A -> list B) : forall l, NoDup l -> (forall a, In a l -> NoDup (f a)) ->
  (forall a b z, In a l -> In b l -> In z (f a) -> In z (f b) -> a = b) -> NoDup (flat_map f l).
Proof.
  induction l as [|a l IH]; intros N F D; [constructor|]. cbn [flat_map]. inversion N as [|? ? N1 N2]; subst.
  assert (J : forall u v, NoDup u -> NoDup v -> (forall z : B, In z u -> In z v -> False) -> NoDup (u ++ v)).
  { clear. induction u as [|z u IH]; intros v Nu Nv D; auto. cbn [app]. inversion Nu; subst. constructor.
    - intros I. apply in_app_or in I as [I|I]; [auto|]. apply (D z); [now left|auto].
    - apply IH; auto. intros w Hw. apply D. now right. }
  apply J.
  - apply F. now left.
  - apply IH; auto; [intros b Hb; apply F; now right|]. intros b c z Hb Hc. apply D; now right.
  - intros z Z1 Z2. apply in_flat_map in Z2 as (b & Hb & Zb). apply N1.
    rewrite (D a b z); auto; [now left|now right].
Qed.
Lemma canonical_sub VI lt : forall x t, canonical VI lt x -> sub VI t x -> canonical VI lt t.
Proof.
  intros x t C S. induction S as [|n arcs v s I S IH|n arcs v s I S IH|n arcs v s I S IH]; auto; inversion C; subst; eauto.
Qed.

(** ** Theorems *)

(** An SDD on an order is exported: the terminals and the nodes that are reachable, all the arcs; each node has the identifier
    of a level of the order where it is. *)
Theorem C84_exported : forall VI PF (PO : platform_ok PF) U ueqb (EQ : is_eqb ueqb) (b : builder U) o (x : sdd (vt VI)),
  mk_order U ueqb b = Ok o -> follows (shape_of U b) x -> exists items, sdot VI PF U x o = Ok items /\
    (forall t, In (XTerm t) items <-> sub VI t x /\ is_node VI t = false) /\
    (forall t, (exists id, In (XNode t id) items) <-> sub VI t x /\ is_node VI t = true) /\
    (forall t v s, In (XFlat t v s) items <-> sub VI t x /\ exists n arcs, t = Flat n arcs /\ In (v, s) arcs) /\
    (forall t v s, In (XHier t v s) items <-> sub VI t x /\ exists n arcs, t = Hier n arcs /\ In (v, s) arcs) /\
    (forall t id, In (XNode t id) items -> exists nested next, occurs b x (BNode id nested next) t).
Proof.
  intros VI PF PO U ueqb EQ b o x E F. rewrite (order_is _ _ EQ _ _ E) in *. clear E.
  destruct (visit_labels VI PF U x b _ 0 [] (sees_whole U ueqb b) F ([], [])) as (st & E1 & L). exists (fst st).
  assert (E2 : sdot VI PF U x (order_of ueqb b) = Ok (fst st)) by (unfold sdot; now rewrite E1).
  split; auto. destruct (erased VI PF U PO _ _ _ E2) as (R1 & R2 & R3 & R4). repeat (split; auto).
  intros t id J. apply L in J as [[]|J]. exact J.
Qed.
Print Assumptions C84_exported.

(** Without hierarchy, each node has the identifier of its only level. *)
Theorem C84_labels_partial : forall VI PF (PO : platform_ok PF) U ueqb (EQ : is_eqb ueqb) (b : builder U) o (x : sdd (vt VI)) items,
  mk_order U ueqb b = Ok o -> follows (shape_of U b) x -> flat_builder b -> sdot VI PF U x o = Ok items ->
  forall t id, In (XNode t id) items -> forall id' nested next, occurs b x (BNode id' nested next) t -> id' = id.
Proof.
  intros VI PF PO U ueqb EQ b o x items E F Fl E1 t id J id' nested next O.
  destruct (C84_exported VI PF PO U ueqb EQ b o x E F) as (items' & E2 & _ & R & _ & _ & L). rewrite E1 in E2. injection E2 as <-.
  assert (N : is_node VI t = true) by (apply (R t); eauto).
  destruct (L _ _ J) as (nd & nx & O').
  destruct (occurs_flat _ _ _ _ _ _ O Fl F) as [L1 F1], (occurs_flat _ _ _ _ _ _ O' Fl F) as [L2 F2].
  pose proof (later_flat _ _ L1 Fl) as [-> _]. pose proof (later_flat _ _ L2 Fl) as [-> _].
  cbn [shape_of] in F1, F2. destruct t as [| |n a|n a]; try discriminate; [|inversion F1].
  assert (X1 : n = N.of_nat (b_length next)) by now inversion F1. assert (X2 : n = N.of_nat (b_length nx)) by now inversion F2.
  assert (BNode id' BNil next = BNode id BNil nx).
  { apply (later_same b); auto. cbn [b_length]. lia. }
  congruence.
Qed.
Print Assumptions C84_labels_partial.

(** The names of the nodes, and of the points of the arcs of hierarchical nodes, are all different. *)
Theorem C84_names : forall VI PF (PO : platform_ok PF) U o (x : sdd (vt VI)) items pa,
  canonical VI (addr_lt PF) x -> node_addresses pa x -> sdot VI PF U x o = Ok items -> NoDup (declared pa items).
Proof.
  intros VI PF PO U o x items pa C [A I] E.
  set (dn := fun i : item VI => match i with DNode _ t => [lit "n" ++ pa t] | DFlat _ _ _ _ => []
                                | DHier _ t _ s => [lit "g" ++ pa t ++ lit "n" ++ pa s] end).
  assert (D : declared pa items = flat_map dn (map (erase VI U) items)).
  { unfold declared. clear. induction items as [|i items IH]; auto. cbn [map concat flat_map]. rewrite IH. f_equal. now destruct i. }
  rewrite D, (sdot_erase _ _ _ _ _ _ E). destruct (dot_spec VI PF PO x) as (l & [ND L] & P).
  assert (P' : Permutation (flat_map dn (flat_map (items_of VI) l)) (flat_map dn (Tools.dot VI PF x))) by (apply Permutation_flat_map; now symmetry).
  apply (Permutation_NoDup P').
  assert (FF : forall k, flat_map dn (flat_map (items_of VI) k) = flat_map (fun t => flat_map dn (items_of VI t)) k).
  { induction k as [|t k IH]; auto. cbn [flat_map]. now rewrite flat_map_app, IH. }
  rewrite FF. clear P P' D FF E.
  assert (S : forall t, flat_map dn (items_of VI t) = (lit "n" ++ pa t) ::
    match t with Hier _ arcs => map (fun a => lit "g" ++ pa t ++ lit "n" ++ pa (snd a)) arcs | _ => [] end).
  { intros t. unfold items_of. cbn [flat_map dn app]. f_equal. destruct t as [| |n arcs|n arcs]; auto.
    - generalize (Flat n arcs). intros t. clear. induction arcs as [|[v s] arcs IH]; auto.
    - generalize (Hier n arcs). intros t. clear. induction arcs as [|[v s] arcs IH]; auto. cbn [map flat_map]. now rewrite IH. }
  assert (NG : forall a b, lit "n" ++ a <> lit "g" ++ b) by (intros a b; discriminate).
  assert (G : forall t v s arcs n, t = Hier n arcs -> sub VI t x -> In (v, s) arcs -> sub VI s x).
  { intros t v s arcs n -> St J. eapply sub_trans; [|exact St]. eapply sub_hier_succ; eauto. constructor. }
  apply NoDup_flat_map; auto.
  - intros t Ht. rewrite S. apply L in Ht. destruct t as [| |n arcs|n arcs]; try (constructor; [intros []|constructor]).
    constructor.
    + intros J. apply in_map_iff in J as (a & J & _). exact (NG _ _ (eq_sym J)).
    + pose proof (canonical_sub _ _ _ _ C Ht) as Ct. inversion Ct as [| | |? ? _ _ _ _ _ SS]; subst.
      apply ssorted_nodup in SS; [|exact (pf_lt PO)]. revert SS.
      assert (In2 : forall a, In a arcs -> sub VI (snd a) x) by (intros [v s] J; eapply G; eauto).
      generalize (pa (Hier n arcs)). clear -In2 I A. intros p. induction arcs as [|[v s] arcs IH]; intros SS; constructor; inversion SS as [|? ? N1 N2]; subst.
      * intros J. apply in_map_iff in J as ([v' s'] & J & K). apply app_inv_head, app_inv_head, app_inv_head in J. cbn [fst snd] in *.
        apply I in J; [|apply (In2 (v', s')); now right|apply (In2 (v, s)); now left]. subst s'. apply N1.
        apply in_map_iff. exists (v', s). auto.
      * apply IH; auto. intros a Ha. apply In2. now right.
  - intros t t' z Ht Ht' J J'. rewrite S in J, J'. apply L in Ht, Ht'. destruct J as [J|J], J' as [J'|J'].
    + apply I; auto. rewrite <- J in J'. now apply app_inv_head in J'.
    + exfalso. destruct t' as [| |n arcs|n arcs]; try destruct J'. apply in_map_iff in J' as (a & <- & _). exact (NG _ _ J).
    + exfalso. destruct t as [| |n arcs|n arcs]; try destruct J. apply in_map_iff in J as (a & <- & _). exact (NG _ _ J').
    + destruct t as [| |n arcs|n arcs]; try destruct J. destruct t' as [| |n' arcs'|n' arcs']; try destruct J'.
      apply in_map_iff in J as (a & <- & _). apply in_map_iff in J' as (a' & J' & _). apply app_inv_head in J'.
      apply address_split in J' as [J' _]; [|intros c Hc; eapply A; [exact Ht'|exact Hc]|intros c Hc; eapply A; [exact Ht|exact Hc]].
      symmetry. now apply I.
Qed.
Print Assumptions C84_names.

Lemma NoDup_app_r {A} (u v : list A) : NoDup (u ++ v) -> NoDup v.
Proof. induction u as [|a u IH]; auto. intros N. inversion N; auto. Qed.
Lemma NoDup_flat_map_inv {A B} (g : A -> list B) : forall l, NoDup (flat_map g l) -> forall a b z, In a l -> In b l -> In z (g a) -> In z (g b) -> a = b.
Proof.
  induction l as [|c l IH]; intros N a b z Ha Hb Za Zb; [destruct Ha|]. cbn [flat_map] in N. destruct Ha as [<-|Ha].
  - destruct Hb as [<-|Hb]; auto. exfalso. assert (X : In z (flat_map g l)) by (apply in_flat_map; eauto).
    apply in_split in Za as (u & v & E). rewrite E, <- app_assoc in N. cbn [app] in N. apply NoDup_remove_2 in N. apply N.
    apply in_or_app. right. apply in_or_app. now right.
  - destruct Hb as [<-|Hb].
    + exfalso. assert (X : In z (flat_map g l)) by (apply in_flat_map; eauto).
      apply in_split in Zb as (u & v & E). rewrite E, <- app_assoc in N. cbn [app] in N. apply NoDup_remove_2 in N. apply N.
      apply in_or_app. right. apply in_or_app. now right.
    + apply (IH (NoDup_app_r _ _ N) a b z); auto.
Qed.
Lemma one_label VI PF (PO : platform_ok PF) U o (x : sdd (vt VI)) items : sdot VI PF U x o = Ok items ->
  forall t id id', In (XNode t id) items -> In (XNode t id') items -> id = id'.
Proof.
  intros E t id id' J J'. set (g := fun i : item VI => match i with DNode _ t => [t] | _ => [] end).
  assert (N : NoDup (flat_map (fun i => g (erase VI U i)) items)).
  { assert (FM : forall k, flat_map (fun i => g (erase VI U i)) k = flat_map g (map (erase VI U) k)).
    { induction k as [|i k IH]; auto. cbn [map flat_map]. now rewrite IH. }
    rewrite FM, (sdot_erase _ _ _ _ _ _ E). destruct (dot_spec VI PF PO x) as (l & [ND _] & P).
    apply (Permutation_NoDup (l := l)); auto. rewrite P. apply Permutation_refl'. clear.
    change (l = flat_map g (flat_map (items_of VI) l)). induction l as [|t l IH]; auto.
    change (flat_map (items_of VI) (t :: l)) with (items_of VI t ++ flat_map (items_of VI) l). rewrite flat_map_app, <- IH. assert (X : flat_map g (items_of VI t) = [t]); [|now rewrite X].
    unfold items_of. cbn [flat_map g app]. f_equal. destruct t as [| |n arcs|n arcs]; auto.
    - generalize (Flat n arcs). intros t. induction arcs; auto.
    - generalize (Hier n arcs). intros t. induction arcs; auto. }
  assert (X : XNode t id = XNode t id' :> ditem VI U).
  { apply (NoDup_flat_map_inv _ _ N _ _ t); auto; now left. }
  congruence.
Qed.

(** The lines of the text, in terms of the SDD: the terminals, the nodes (each one has one line, with the identifier of a level
    where it is), the arcs of flat nodes, and four lines for each arc of a hierarchical node. *)
Theorem C84_lines : forall VI PF (PO : platform_ok PF) U ueqb (EQ : is_eqb ueqb) (b : builder U) o (x : sdd (vt VI)) pa pv pu,
  mk_order U ueqb b = Ok o -> follows (shape_of U b) x -> exists lines (labelled : sdd (vt VI) -> oid U -> Prop),
  sdot_text VI PF U pa pv pu x o = Ok (unlines (lit "digraph sdd {" :: lines ++ [lit "}"])) /\
  (forall t, sub VI t x -> is_node VI t = true -> exists id nested next, occurs b x (BNode id nested next) t /\ labelled t id) /\
  (forall t id id', labelled t id -> labelled t id' -> id = id') /\
  forall l, In l lines <->
    (sub VI Zero x /\ l = lit "n" ++ pa Zero ++ lit " [shape=square,label=""0""];") \/
    (sub VI One x /\ l = lit "n" ++ pa One ++ lit " [shape=square,label=""1""];") \/
    (exists t id nested next, is_node VI t = true /\ occurs b x (BNode id nested next) t /\ labelled t id /\
       l = lit "n" ++ pa t ++ lit " [label=""" ++ oid_text pu id ++ lit """];") \/
    (exists n arcs v s, sub VI (Flat n arcs) x /\ In (v, s) arcs /\
       l = lit "n" ++ pa (Flat n arcs) ++ lit " -> n" ++ pa s ++ lit " [label=""" ++ pv v ++ lit """];") \/
    (exists n arcs v s, sub VI (Hier n arcs) x /\ In (v, s) arcs /\
       let ghost := lit "g" ++ pa (Hier n arcs) ++ lit "n" ++ pa s in
       (l = ghost ++ lit " [shape=point,label="""",height=0,width=0];" \/
        l = lit "n" ++ pa (Hier n arcs) ++ lit " -> " ++ ghost ++ lit " [arrowhead=none];" \/
        l = ghost ++ lit " -> n" ++ pa s ++ lit ";" \/
        l = ghost ++ lit " -> n" ++ pa v ++ lit " [style=dotted];")).
Proof.
  intros VI PF PO U ueqb EQ b o x pa pv pu E F.
  destruct (C84_exported VI PF PO U ueqb EQ b o x E F) as (items & E1 & R1 & R2 & R3 & R4 & R5).
  exists (concat (map (ditem_lines VI U pa pv pu) items)), (fun t id => In (XNode t id) items).
  split; [unfold sdot_text; now rewrite E1|]. split.
  - intros t St N. destruct (proj2 (R2 t) (conj St N)) as (id & J). destruct (R5 _ _ J) as (nd & nx & O). exists id, nd, nx. auto.
  - split; [exact (one_label VI PF PO U o x items E1)|]. assert (Put : forall i l, In i items -> In l (ditem_lines VI U pa pv pu i) -> In l (concat (map (ditem_lines VI U pa pv pu) items))).
    { intros i l J K. apply in_concat. exists (ditem_lines VI U pa pv pu i). split; auto. now apply in_map. }
    intros l. split.
    + intros J. apply in_concat in J as (k & J & K). apply in_map_iff in J as (i & <- & J).
      destruct i as [t|t id|t v s|t v s]; cbn [ditem_lines] in K.
      * apply R1 in J as [St N]. destruct K as [<-|[]]. destruct t; try discriminate; [left|right; left]; auto.
      * destruct K as [<-|[]]. right. right. left. destruct (R5 _ _ J) as (nd & nx & O). exists t, id, nd, nx.
        split; [|split; [exact O|split; [exact J|reflexivity]]]. apply (R2 t). eauto.
      * apply R3 in J as (St & n & arcs & -> & J). destruct K as [<-|[]]. right. right. right. left. exists n, arcs, v, s. auto.
      * apply R4 in J as (St & n & arcs & -> & J). right. right. right. right. exists n, arcs, v, s. split; auto. split; auto. cbv zeta.
        destruct K as [<-|[<-|[<-|[<-|[]]]]]; [left|right; left|right; right; left|right; right; right]; reflexivity.
    + intros [[S ->]|[[S ->]|[(t & id & nd & nx & N & O & L & ->)|[(n & arcs & v & s & S & J & ->)|(n & arcs & v & s & S & J & K)]]]].
      * apply (Put (XTerm Zero)); [now apply R1|left; reflexivity].
      * apply (Put (XTerm One)); [now apply R1|left; reflexivity].
      * apply (Put (XNode t id)); [exact L|left; reflexivity].
      * apply (Put (XFlat (Flat n arcs) v s)); [apply R3; eauto|left; reflexivity].
      * apply (Put (XHier (Hier n arcs) v s)); [apply R4; eauto|].
        destruct K as [->|[->|[->| ->]]]; cbn [ditem_lines]; [left|right; left|right; right; left|right; right; right; left]; reflexivity.
Qed.
Print Assumptions C84_lines.

(** The text determines the set: two SDDs on the same order, which may come from two executions, with the same text have the
    same elements, if identifiers and values are written on one line and the text of a set of values determines it. *)
Theorem C84_text : forall VI PF1 PF2 (PO1 : platform_ok PF1) (PO2 : platform_ok PF2) U ueqb (EQ : is_eqb ueqb) (b : builder U) o
  (x y : sdd (vt VI)) pa1 pa2 pv pu text,
  mk_order U ueqb b = Ok o -> follows (shape_of U b) x -> follows (shape_of U b) y ->
  node_addresses pa1 x -> node_addresses pa2 y ->
  (forall u, ~ In newline (pu u)) -> (forall v, ~ In newline (pv v)) ->
  (forall v w, pv v = pv w -> forall k, v_mem VI v k = v_mem VI w k) ->
  sdot_text VI PF1 U pa1 pv pu x o = Ok text -> sdot_text VI PF2 U pa2 pv pu y o = Ok text ->
  forall p, contains x p = contains y p.
Proof.
  intros VI PF1 PF2 PO1 PO2 U ueqb EQ b o x y pa1 pa2 pv pu T E F1 F2 A1 A2 Nu Nv Iv T1 T2.
  destruct (C84_exported VI PF1 PO1 U ueqb EQ b o x E F1) as (i1 & E1 & R1 & R2 & R3 & R4 & _).
  destruct (C84_exported VI PF2 PO2 U ueqb EQ b o y E F2) as (i2 & E2 & Q1 & Q2 & Q3 & Q4 & _).
  unfold sdot_text in T1, T2. rewrite E1 in T1. rewrite E2 in T2. cbn [rbind] in T1, T2.
  rewrite plines_all in T1, T2. rewrite <- T2 in T1. clear T2.
  apply (f_equal (fun r => match r with Ok t => t | Err _ => [] end)) in T1. cbv beta iota in T1.
  assert (SV : forall z i, (forall t, In (XTerm t) i <-> sub VI t z /\ is_node VI t = false) ->
    (forall t, (exists id, In (XNode t id) i) <-> sub VI t z /\ is_node VI t = true) ->
    (forall t v s, In (XFlat t v s) i <-> sub VI t z /\ exists n arcs, t = Flat n arcs /\ In (v, s) arcs) ->
    (forall t v s, In (XHier t v s) i <-> sub VI t z /\ exists n arcs, t = Hier n arcs /\ In (v, s) arcs) ->
    forall j : ditem VI U, In j i -> match j with
                 | XTerm t | XNode t _ => sub VI t z
                 | XFlat t _ s => sub VI t z /\ sub VI s z
                 | XHier t v s => sub VI t z /\ sub VI v z /\ sub VI s z end).
  { clear. intros z i R1 R2 R3 R4 [t|t id|t v s|t v s] J.
    - now apply R1 in J.
    - assert (X : exists id, In (XNode t id) i) by eauto. now apply R2 in X.
    - apply R3 in J as (J & n & arcs & -> & K). split; auto. eapply sub_trans; [|exact J]. eapply sub_flat; eauto. constructor.
    - apply R4 in J as (J & n & arcs & -> & K). split; [auto|split]; (eapply sub_trans; [|exact J]).
      + eapply sub_hier_val; eauto. constructor.
      + eapply sub_hier_succ; eauto. constructor. }
  pose proof (plines_ok VI U pa1 pv pu Nu Nv x i1 (proj1 A1) (SV x i1 R1 R2 R3 R4)) as O1.
  pose proof (plines_ok VI U pa2 pv pu Nu Nv y i2 (proj1 A2) (SV y i2 Q1 Q2 Q3 Q4)) as O2.
  assert (LN : forall s, s = "digraph sdd {"%string \/ s = "}"%string -> ~ In newline (lit s)).
  { intros s [-> | ->]; apply lit_one_line; reflexivity. }
  assert (Same : concat (map (plines VI U pa1 pv pu) i1) = concat (map (plines VI U pa2 pv pu) i2)).
  { apply plines_inj; auto. apply unlines_inj in T1.
    - apply cons_inv in T1 as [_ T1]. now apply app_inv_tail in T1.
    - intros t [<-|J]; [apply LN; auto|]. apply in_app_or in J as [J|[<-|[]]]; [|apply LN; auto].
      apply in_map_iff in J as (l & <- & J). apply pline_one_line. auto.
    - intros t [<-|J]; [apply LN; auto|]. apply in_app_or in J as [J|[<-|[]]]; [|apply LN; auto].
      apply in_map_iff in J as (l & <- & J). apply pline_one_line. auto. }
  assert (Root : pa1 x = pa2 y).
  { destruct (sdot_first _ _ _ _ _ _ E1) as (_ & d1 & l1 & -> & D1), (sdot_first _ _ _ _ _ _ E2) as (_ & d2 & l2 & -> & D2).
    clear -Same D1 D2. cbn [map concat] in Same.
    destruct d1 as [t|t id|? ? ?|? ? ?], d2 as [t'|t' id'|? ? ?|? ? ?]; try contradiction; cbn [declares] in D1, D2; subst; cbn [plines app] in Same;
      apply cons_inv in Same as [Same _]; apply (f_equal fst) in Same; cbn [fst] in Same; now apply app_inv_head in Same. }
  intros p. apply eq_true_iff_eq. split.
  - apply (one_way VI U pv pu Iv pa1 pa2 x y A1 A2 i1 i2 (conj R1 (conj R2 (conj R3 R4))) (conj Q1 (conj Q2 (conj Q3 Q4))) Same x (sub_here VI x) _ y
      (sub_here VI y) Root F1 F2).
  - apply (one_way VI U pv pu Iv pa2 pa1 y x A2 A1 i2 i1 (conj Q1 (conj Q2 (conj Q3 Q4))) (conj R1 (conj R2 (conj R3 R4))) (eq_sym Same) y (sub_here VI y) _ x
      (sub_here VI x) (eq_sym Root) F2 F1).
Qed.
Print Assumptions C84_text.

(** An order without the levels of the SDD: a null pointer is dereferenced. *)
Theorem C84_short_refuted : forall VI PF U o (x : sdd (vt VI)), is_node VI x = true -> o_empty o = true -> sdot VI PF U x o = Err EUndefined.
Proof.
  intros VI PF U o x N E. unfold o_empty in E. unfold sdot. destruct (o_head o) eqn:H; [discriminate|].
  assert (Hd : head o = None) by (unfold head; now rewrite H).
  destruct x; try discriminate; cbn [sdot_visit]; unfold o_identifier, o_next; rewrite Hd; reflexivity.
Qed.
Print Assumptions C84_short_refuted.

(** A node that is in two hierarchies has the identifier of one of them: for the SDD made from an order in which the hierarchies
    1 and 2 contain 11 and 21, with the same values, the node of both is labelled 21. *)
Definition ex_levels : builder nat :=
  let id (u : nat) : oid nat := {| art := 0; usr := u |} in
  BNode (id 1) (BNode (id 11) BNil BNil) (BNode (id 2) (BNode (id 21) BNil BNil) BNil).
Definition ex_inner : sdd (vt FS) := Flat 0 [(fs [5%N], One)].
Definition ex_last : sdd (vt FS) := Hier 0 [(ex_inner, One)].
Definition ex_first : sdd (vt FS) := Hier 1 [(ex_inner, ex_last)].
Definition ex_items : list (ditem FS nat) :=
  let id (u : nat) : oid nat := {| art := 0; usr := u |} in
  [XNode ex_first (id 1); XNode ex_last (id 2); XTerm One; XNode ex_inner (id 21); XFlat ex_inner (fs [5%N]) One;
   XHier ex_last ex_inner One; XHier ex_first ex_inner ex_last].
Definition ex_order : order nat := order_of Nat.eqb ex_levels.
Theorem C84_shared_refuted :
  mk_order nat Nat.eqb ex_levels = Ok ex_order /\ sdd_from_order FS PF_up nat (fun _ => fs [5%N]) ex_order = Ok ex_first /\
  sdot FS PF_up nat ex_first ex_order = Ok ex_items /\
  (exists nested next, occurs ex_levels ex_first (BNode {| art := 0; usr := 11 |} nested next) ex_inner) /\
  In (XNode ex_inner {| art := 0; usr := 21 |}) ex_items /\ ~ In (XNode ex_inner {| art := 0; usr := 11 |}) ex_items.
Proof.
  split; [reflexivity|]. split; [reflexivity|]. split; [reflexivity|].
  split; [|split].
  - exists BNil, BNil. eapply occ_val; [now left|]. constructor.
  - unfold ex_items. right. right. right. left. reflexivity.
  - unfold ex_items. intros [J|[J|[J|[J|[J|[J|[J|[]]]]]]]]; discriminate.
Qed.
Print Assumptions C84_shared_refuted.

(** Its text. *)
Definition ex_address (t : sdd (vt FS)) : text :=
  lit "0x" ++ match t with One => lit "a" | Hier n _ => decN n | _ => lit "f" end.
Definition ex_value (v : vt FS) : text := other_set_text decN (proj1_sig v).
Definition ex_dot : list string :=
  ["digraph sdd {"; "n0x1 [label=""1""];"; "n0x0 [label=""2""];"; "n0xa [shape=square,label=""1""];"; "n0xf [label=""21""];";
   "n0xf -> n0xa [label=""{5}""];"; "g0x0n0xa [shape=point,label="""",height=0,width=0];"; "n0x0 -> g0x0n0xa [arrowhead=none];";
   "g0x0n0xa -> n0xa;"; "g0x0n0xa -> n0xf [style=dotted];"; "g0x1n0x0 [shape=point,label="""",height=0,width=0];";
   "n0x1 -> g0x1n0x0 [arrowhead=none];"; "g0x1n0x0 -> n0x0;"; "g0x1n0x0 -> n0xf [style=dotted];"; "}"]%string.
Lemma sub_inv t x : sub FS t x -> t = x \/ match x with
  | Flat _ arcs => exists a, In a arcs /\ sub FS t (snd a)
  | Hier _ arcs => exists a, In a arcs /\ (sub FS t (fst a) \/ sub FS t (snd a))
  | _ => False end.
Proof. intros S. destruct S as [|n arcs v s I S|n arcs v s I S|n arcs v s I S]; [now left| | |]; right; exists (v, s); cbn [fst snd]; auto. Qed.
Lemma ex_subs t : sub FS t ex_first -> In t [ex_first; ex_last; ex_inner; One].
Proof.
  assert (A : sub FS t One -> t = One) by (intros S; now apply sub_inv in S as [S|[]]).
  assert (B : sub FS t ex_inner -> t = ex_inner \/ t = One).
  { intros S. apply sub_inv in S as [S|(a & [<-|[]] & S)]; auto. }
  assert (C : sub FS t ex_last -> t = ex_last \/ t = ex_inner \/ t = One).
  { intros S. apply sub_inv in S as [S|(a & [<-|[]] & [S|S])]; auto. }
  intros S. apply sub_inv in S as [S|(a & [<-|[]] & [S|S])]; [left; auto|apply B in S as [S|S]|apply C in S as [S|[S|S]]]; rewrite S; cbn [In]; auto.
Qed.
Example C84_ex : mk_order nat Nat.eqb ex_levels = Ok ex_order /\ follows (shape_of nat ex_levels) ex_first /\
  canonical FS (addr_lt PF_up) ex_first /\ node_addresses ex_address ex_first /\
  sdot_text FS PF_up nat ex_address ex_value print_nat ex_first ex_order = Ok (unlines (map lit ex_dot)) /\
  (forall u, ~ In newline (print_nat u)) /\ (forall v, ~ In newline (ex_value v)) /\
  (forall v w, ex_value v = ex_value w -> forall k, v_mem FS v k = v_mem FS w k) /\
  flat_builder (BNode {| art := 0; usr := 1 |} BNil (BNode {| art := 0; usr := 2 |} BNil BNil)).
Proof.
  split; [vm_compute; reflexivity|].
  assert (Fo : follows (VI := FS) (shape_of nat ex_levels) ex_first).
  { constructor; intros v s [E|[]]; injection E as <- <-.
    - constructor. intros v s [E|[]]. injection E as <- <-. constructor.
    - constructor; intros v s [E|[]]; injection E as <- <-; constructor. intros v s [E|[]]. injection E as <- <-. constructor. }
  split; auto. split.
  { apply (built_canonical FS FS_laws PF_up PF_up_ok).
    destruct (C13_from_order FS FS_laws PF_up nat Nat.eqb Nat.eqb_eq (fun _ => fs [5%N]) ex_levels ex_order eq_refl) as (z & E & _ & _ & B & _).
    - cbn. intuition discriminate.
    - rewrite (proj1 (proj2 C84_shared_refuted)) in E. injection E as <-. exact B. }
  split.
  { split.
    - intros t c S. apply ex_subs in S. revert c. apply forallb_forall. destruct S as [<-|[<-|[<-|[<-|[]]]]]; vm_compute; reflexivity.
    - intros t t' S S'. apply ex_subs in S, S'.
      destruct S as [<-|[<-|[<-|[<-|[]]]]], S' as [<-|[<-|[<-|[<-|[]]]]]; try (intros _; reflexivity); intros E; vm_compute in E; discriminate E. }
  split; [vm_compute; reflexivity|]. split; [exact (proj1 C82_one_line)|]. split; [|split; [|cbn; auto]].
  - intros v I. unfold ex_value, other_set_text in I. destruct I as [I|I]; [discriminate|].
    apply in_app_or in I as [I|[I|[]]]; [|discriminate]. revert I. generalize (proj1_sig v). clear.
    induction l as [|a l IH]; [intros []|]. intros I. assert (D : In newline (decN a) -> False).
    { intros J. apply decN_chars in J. apply J. reflexivity. }
    destruct l as [|c l]; [exact (D I)|]. cbn [list_text] in I. apply in_app_or in I as [I|[I|I]]; [exact (D I)|discriminate|exact (IH I)].
  - intros v w E k. apply (f_equal (fun t => t ++ [" "%char])) in E. apply (other_set_code N decN) in E as [E _]; [|apply decN_code].
    destruct v as [l1 s1], w as [l2 s2]. cbn [proj1_sig] in E. subst l2. reflexivity.
Qed.
