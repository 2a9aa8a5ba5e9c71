(** * The text of the DOT export of homomorphisms (C85) *)

From Coq Require Import Ascii String List Bool Arith NArith Lia.
From Verif Require Import Base SortedSets Values FlatSet Sdd Orders DDModel Concrete Tools Hom HomTools HomConcrete HomToolsProps.
From Verif Require Import Text OrderText OrderTextProps ForceDot ForceDotProps SddDotProps HomDot.
Import ListNotations.

(** ** Specification *)

(** Everything that is reached is drawn: no cons, constant, inductive, intersection, saturation sum and saturation
    intersection. *)
Definition drawable {VI U F I} heqb (h : hom (vt VI) U F I) : Prop :=
  forall k, reach VI U F I heqb h k -> drawn VI U F I k = true \/ k = HId.

(** The addresses of the operations of [h]: hexadecimal digits and the letter x, different for different operations. *)
Definition hom_addresses {VI U F I} heqb (pa : hom (vt VI) U F I -> text) (h : hom (vt VI) U F I) : Prop :=
  (forall k c, reach VI U F I heqb h k -> In c (pa k) -> address_char c = true) /\
  forall k k', reach VI U F I heqb h k -> reach VI U F I heqb h k' -> pa k = pa k' -> k = k'.

(** The same homomorphism, whatever the variables of the saturation fixpoints. *)
Fixpoint forget {V U F I} (h : hom V U F I) : hom V U F I :=
  match h with
  | HComp l r => HComp (forget l) (forget r)
  | HFix k => HFix (forget k)
  | HLocal t k => HLocal t (forget k)
  | HSatFix _ f g l => HSatFix 0 (forget f) (map forget g) (forget l)
  | HSum l => HSum (map forget l)
  | HIte p t e => HIte (forget p) (forget t) (forget e)
  | _ => h
  end.
Definition saturated {V U F I} (h : hom V U F I) : bool := match h with HSatFix _ _ _ _ => true | _ => false end.

(** The names that are declared, and the names at the two ends of edges. *)
Definition names {VI U F I} (pa : hom (vt VI) U F I -> text) (items : list (item VI U F I)) : list text :=
  concat (map (fun i => match i with
                        | DHom _ _ _ _ h => [lit "h" ++ pa h]
                        | DIdent _ _ _ _ k => [lit "id" ++ decN k]
                        | DEdge _ _ _ _ _ _ _ => []
                        end) items).
Definition ends {VI U F I} (pa : hom (vt VI) U F I -> text) (items : list (item VI U F I)) : list text :=
  concat (map (fun i => match i with
                        | DEdge _ _ _ _ h _ n => [lit "h" ++ pa h; match n with inl k => lit "h" ++ pa k | inr k => lit "id" ++ decN k end]
                        | _ => []
                        end) items).

(** How a line is read.  The label of an operation; the label of an edge, if any. *)
Definition operation_label {V U F I} (pf : F -> text) (h : hom V U F I) : text :=
  match h with
  | HComp _ _ => lit "o"
  | HFix _ => lit "*"
  | HFun t f => lit "fun(" ++ decN t ++ lit ", " ++ pf f ++ lit ")"
  | HLocal _ _ => lit "@"
  | HSatFix _ _ _ _ => lit "$*"
  | HSum _ => lit "+"
  | HIte _ _ _ => lit "ITE"
  | _ => []
  end.
Definition operand_label (l : elabel) : option text :=
  match l with
  | ELeft => Some (lit "l")
  | ERight => Some (lit "r")
  | ENone => None
  | ETarget t => Some (decN t)
  | EF => Some (lit "F")
  | EG i => Some (lit "g" ++ decN (N.of_nat i))
  | EL => Some (lit "L")
  | EIf => Some (lit "if")
  | EThen => Some (lit "then")
  | EElse => Some (lit "else")
  end.
(** Attributes: [label="…"], with or without a space before, and a semicolon after. *)
Definition labelled (label : option text) (t : text) : Prop :=
  exists before after, (before = [] \/ before = lit " ") /\ (after = [] \/ after = lit ";") /\
    t = match label with Some l => before ++ lit "[label=""" ++ l ++ lit """]" ++ after | None => after end.
Definition declares_line (name label line : text) : Prop := exists t, labelled (Some label) t /\ line = name ++ t.
Definition edge_line (name : text) (label : option text) (target line : text) : Prop :=
  exists t, labelled label t /\ line = name ++ lit " -> " ++ target ++ t.

(** ** Proofs *)

(** Lines: a declaration or an edge. *)
Inductive aline : Type :=
| ADecl (name tail : text)
| AEdge (source target tail : text).
Definition aline_text (l : aline) : text :=
  match l with
  | ADecl n t => n ++ t
  | AEdge s d t => s ++ lit " -> " ++ d ++ t
  end.
Definition stops (t : text) : Prop := match t with c :: _ => word_char c = false | [] => True end.
Definition bracket (t : text) : Prop := exists r, t = "["%char :: r \/ t = space :: "["%char :: r.
Definition aline_ok (l : aline) : Prop :=
  match l with
  | ADecl n t => word n /\ bracket t
  | AEdge s d t => word s /\ word d /\ stops t
  end.
Lemma stop_split : forall (a a' b b' : text), word a -> word a' -> stops b -> stops b' -> a ++ b = a' ++ b' -> a = a' /\ b = b'.
Proof.
  induction a as [|x a IH]; intros [|y a'] b b' WA WA' NB NB' E; cbn in E.
  - auto.
  - subst b. specialize (WA' y (or_introl eq_refl)). cbn in NB. congruence.
  - subst b'. specialize (WA x (or_introl eq_refl)). cbn in NB'. congruence.
  - injection E as -> E. apply IH in E as [-> ->]; auto; intros z Z; [apply WA|apply WA']; now right.
Qed.
Lemma bracket_stops t : bracket t -> stops t.
Proof. intros (r & [->| ->]); reflexivity. Qed.
Lemma aline_inj l l' : aline_ok l -> aline_ok l' -> aline_text l = aline_text l' -> l = l'.
Proof.
  destruct l as [n t|s d t], l' as [n' t'|s' d' t']; cbn [aline_ok aline_text]; intros A A' E.
  - destruct A as [A B], A' as [A' B']. apply stop_split in E as [-> ->]; auto using bracket_stops.
  - exfalso. destruct A as [A B], A' as (A' & _). apply stop_split in E as [_ E]; auto using bracket_stops; [|reflexivity].
    destruct B as (r & [->| ->]); discriminate.
  - exfalso. destruct A as (A & _), A' as [A' B']. apply stop_split in E as [_ E]; auto using bracket_stops; [|reflexivity].
    destruct B' as (r & [->| ->]); discriminate.
  - destruct A as (A & B & C), A' as (A' & B' & C'). apply stop_split in E as [-> E]; auto; try reflexivity.
    apply app_inv_head in E. apply stop_split in E as [-> ->]; auto.
Qed.
Lemma alines_inj : forall l l', (forall x, In x l -> aline_ok x) -> (forall x, In x l' -> aline_ok x) ->
  map aline_text l = map aline_text l' -> l = l'.
Proof.
  induction l as [|a l IH]; intros [|a' l'] A A' E; try discriminate; auto. cbn [map] in E. injection E as E1 E2.
  f_equal; [apply aline_inj; auto; [apply A|apply A']; now left|]. apply IH; auto; intros x X; [apply A|apply A']; now right.
Qed.

Lemma dec_word n : word (decN n).
Proof.
  intros c I. apply decN_chars in I. unfold digit in I. unfold word_char.
  destruct ((48 <=? N_of_ascii c) && (N_of_ascii c <=? 57))%N; [reflexivity|congruence].
Qed.
Lemma dec_inj n m : decN n = decN m -> n = m.
Proof. intros E. apply (f_equal (fun t => t ++ [])) in E. apply decN_prefix in E as [E _]; auto; exact Logic.I. Qed.

(** What the lines say of the edges of a node. *)
Definition text_eqb (a b : text) : bool := if list_eq_dec ascii_dec a b then true else false.
Lemma text_eqb_spec a b : text_eqb a b = true <-> a = b.
Proof. unfold text_eqb. destruct (list_eq_dec ascii_dec a b); split; congruence. Qed.
(** The address of a target, or nothing for an identity. *)
Definition target_address (t : text) : option text := match t with "h"%char :: r => Some r | _ => None end.
Definition aedges (n : text) (l : list aline) : list (text * option text) :=
  concat (map (fun x => match x with
                        | AEdge s d t => if text_eqb n s then [(t, target_address d)] else []
                        | ADecl _ _ => []
                        end) l).

Section Proofs.
  Variable VI : values_impl.
  Variables U F I : Type.
  Notation hom := (hom (vt VI) U F I).
  Notation item := (item VI U F I).
  Variable heqb : hom -> hom -> bool.
  Hypothesis heqb_spec : forall a b, heqb a b = true <-> a = b.
  Variable pf : F -> text.
  Notation drawn := (drawn VI U F I).
  Notation operands := (operands VI U F I heqb).
  Notation reach := (reach VI U F I heqb).
  Notation hom_dot := (hom_dot VI U F I heqb).
  Notation visit := (visit VI U F I heqb).

  Lemma visit_name h s : h <> HId -> fst (visit h s) = inl h.
  Proof.
    intros N. rewrite visit_eq by exact heqb_spec.
    destruct h; try (now elim N); cbn [HomTools.drawn]; auto; unfold enter; destruct (existsb _ _); reflexivity.
  Qed.

  (** Targets of edges are not the address of the identity; the first line is about the homomorphism. *)
  Notation good := (fun i : item => match i with DEdge _ _ _ _ _ _ (inl c) => c <> HId | _ => True end).
  Notation grows := (fun (s s' : state VI U F I) => exists l, out _ _ _ _ s' = out _ _ _ _ s ++ l /\ forall i, In i l -> good i).
  Lemma steps_grow h : forall ops, (forall l c, In (l, c) ops -> forall s, grows s (snd (visit c s))) ->
    forall s, grows s (fold_left (step VI U F I heqb h) ops s).
  Proof.
    induction ops as [|[l c] ops IH]; intros A s; cbn [fold_left].
    - exists []. split; [now rewrite app_nil_r|intros i []].
    - destruct (A l c (or_introl eq_refl) s) as (l1 & E1 & G1).
      destruct (IH (fun l0 c0 H => A l0 c0 (or_intror H)) (step VI U F I heqb h s (l, c))) as (l2 & E2 & G2).
      exists (l1 ++ [DEdge _ _ _ _ h l (fst (visit c s))] ++ l2). split.
      + rewrite E2. unfold step, edge, emit. cbn [out fst snd]. rewrite E1, <- !app_assoc. reflexivity.
      + intros i J. apply in_app_or in J as [J|[<-|J]]; [exact (G1 i J)| |exact (G2 i J)].
        destruct (fst (visit c s)) as [c'|k] eqn:E; auto. intros ->.
        assert (D : c = HId \/ c <> HId) by (destruct c; auto; right; discriminate).
        destruct D as [->|D]; [cbn in E; discriminate|]. rewrite visit_name in E by auto. congruence.
  Qed.
  Lemma visit_grow : forall n h, hsize VI U F I h < n -> forall s, grows s (snd (visit h s)).
  Proof.
    induction n as [|n IH]; [lia|]. intros h Hn s. rewrite visit_eq by exact heqb_spec.
    assert (G : grows s (snd (enter VI U F I heqb h (fold_left (step VI U F I heqb h) (operands h)) s))).
    { unfold enter. destruct (existsb _ _); cbn [snd].
      - exists []. split; [now rewrite app_nil_r|intros i []].
      - edestruct (steps_grow h (operands h)) as (l & E & G); [|rewrite E].
        + intros l c J. apply IH. apply operands_smaller in J. lia.
        + cbn [emit out]. rewrite <- app_assoc. eexists. split; [reflexivity|]. intros i [<-|J]; [exact Logic.I|exact (G i J)]. }
    assert (N : grows s s) by (exists []; split; [now rewrite app_nil_r|intros i []]).
    destruct h; cbn [HomTools.drawn]; try exact G; cbn [snd]; try exact N.
    cbn [out]. eexists. split; [reflexivity|]. intros i [<-|[]]. exact Logic.I.
  Qed.
  Lemma dot_good n h i : In i (hom_dot n h) -> good i.
  Proof.
    unfold HomTools.hom_dot. destruct (visit_grow _ h (Nat.lt_succ_diag_r _) {| out := []; vis := []; next := n |}) as (l & E & G).
    rewrite E. cbn [out app]. exact (G i).
  Qed.
  Lemma dot_first n h : (h = HId /\ hom_dot n h = [DIdent _ _ _ _ (w32 n)]) \/
    (drawn h = true /\ exists l, hom_dot n h = DHom _ _ _ _ h :: l) \/ (drawn h = false /\ h <> HId).
  Proof.
    assert (D : h = HId \/ h <> HId) by (destruct h; auto; right; discriminate).
    destruct D as [->|D]; [left; split; reflexivity|right]. destruct (drawn h) eqn:Dr; [left|right; auto]. split; auto.
    assert (N : forall n h, hsize VI U F I h < n -> forall s, grows s (snd (visit h s))) by exact visit_grow.
    unfold HomTools.hom_dot. rewrite visit_eq by exact heqb_spec.
    assert (X : exists l, out _ _ _ _ (snd (enter VI U F I heqb h (fold_left (step VI U F I heqb h) (operands h)) {| out := []; vis := []; next := n |}))
                = DHom _ _ _ _ h :: l).
    { unfold enter. cbn [vis existsb snd].
      edestruct (steps_grow h (operands h)) as (l & E & G); [|rewrite E; cbn [emit out app]; eauto].
      intros l c J. apply (N (hsize VI U F I h)). apply operands_smaller in J; auto. }
    destruct h; try discriminate Dr; exact X.
  Qed.

  Lemma in_decls : forall (l : list item) k, In (DHom _ _ _ _ k) l <-> In k (decls VI U F I l).
  Proof.
    induction l as [|[h|j|h e n] l IH]; intros k; cbn [decls In]; [tauto| | |]; rewrite <- IH; intuition congruence.
  Qed.
  Lemma in_idents : forall (l : list item) k, In (DIdent _ _ _ _ k) l <-> In k (idents VI U F I l).
  Proof.
    induction l as [|[h|j|h e n] l IH]; intros k; cbn [idents In]; [tauto| | |]; rewrite <- IH; intuition congruence.
  Qed.
  Lemma in_edges : forall (l : list item) k e n, In (DEdge _ _ _ _ k e n) l -> In (e, node_of VI U F I n) (edges VI U F I heqb k l).
  Proof.
    induction l as [|[h|j|h e n] l IH]; intros k e' n' J; cbn [edges In] in *; [auto| | |].
    - destruct J as [J|J]; [discriminate|auto].
    - destruct J as [J|J]; [discriminate|auto].
    - destruct J as [J|J].
      + injection J as -> -> ->. rewrite (proj2 (heqb_spec k k) eq_refl). now left.
      + destruct (heqb k h); [right|]; auto.
  Qed.
  Lemma in_ident_targets : forall (l : list item) h e k, In (DEdge _ _ _ _ h e (inr k)) l -> In k (ident_targets VI U F I l).
  Proof.
    induction l as [|[h|j|h e [n|n]] l IH]; intros h' e' k' J; cbn [ident_targets In] in *; auto; destruct J as [J|J]; try discriminate; eauto.
    injection J as _ _ ->. auto.
  Qed.
  Lemma edge_in n h k e m : In (DEdge _ _ _ _ k e m) (hom_dot n h) ->
    reach h k /\ drawn k = true /\ In (e, node_of VI U F I m) (operands k) /\ reach h (node_of VI U F I m).
  Proof.
    intros J. pose proof (in_edges _ _ _ _ J) as K. destruct (C58_edges VI U F I heqb heqb_spec n h k) as [A B].
    assert (D : reach h k /\ drawn k = true).
    { destruct (C58_nodes VI U F I heqb heqb_spec n h) as [_ C].
      destruct (existsb (heqb k) (decls VI U F I (hom_dot n h))) eqn:E.
      - apply existsb_exists in E as (x & E & X). apply heqb_spec in X. subst x. now apply C.
      - exfalso. rewrite B in K; [destruct K|]. rewrite <- C. intros X. rewrite <- not_true_iff_false in E. apply E.
        apply existsb_exists. exists k. split; auto. now apply heqb_spec. }
    rewrite A in K by auto. destruct D as [D1 D2]. repeat split; auto.
    eapply (reach_trans VI U F I heqb); [exact D1|]. eapply reach_op; [exact K|constructor].
  Qed.

  Definition aline_of (pa : hom -> text) (i : item) : aline :=
    match i with
    | DHom _ _ _ _ h => ADecl (lit "h" ++ pa h) (decl_tail VI U F I pf h)
    | DIdent _ _ _ _ k => ADecl (lit "id" ++ decN k) (lit " [label=""id""];")
    | DEdge _ _ _ _ h l n => AEdge (lit "h" ++ pa h) (match n with inl k => lit "h" ++ pa k | inr k => lit "id" ++ decN k end)
                                   (edge_tail VI U F I h l)
    end.
  Lemma aline_line pa i : item_line VI U F I pa pf i = aline_text (aline_of pa i).
  Proof.
    destruct i as [h|k|h l [n|n]]; cbn [item_line aline_of aline_text name_text]; unfold hnode; rewrite <- ?app_assoc; auto.
  Qed.
  Lemma tail_bracket h : drawn h = true -> bracket (decl_tail VI U F I pf h).
  Proof. destruct h; intros D; try discriminate; eexists; ((left; reflexivity) || (right; reflexivity)). Qed.
  Lemma edge_stops h l : stops (edge_tail VI U F I h l).
  Proof. destruct l; try reflexivity. destruct h; reflexivity || exact Logic.I. Qed.
  Lemma id_word k : word (lit "id" ++ decN k).
  Proof. intros c [<-|[<-|J]]; [reflexivity..|]. now apply dec_word in J. Qed.

  Hypothesis Nf : forall f, ~ In newline (pf f).

  Section Of.
    Variable pa : hom -> text.
    Variable h : hom.
    Variable n : N.
    Hypothesis A : hom_addresses heqb pa h.
    Lemma address_word' k : reach h k -> word (lit "h" ++ pa k).
    Proof. intros R c [<-|J]; [reflexivity|]. revert J. apply address_word. intros d. now apply (proj1 A). Qed.
    Lemma alines_ok : forall l, In l (map (aline_of pa) (hom_dot n h)) -> aline_ok l.
    Proof.
      intros l J. apply in_map_iff in J as (i & <- & J). destruct i as [k|k|k e m]; cbn [aline_of aline_ok].
      - apply in_decls, (C58_nodes VI U F I heqb heqb_spec n h) in J as [R D]. split; [now apply address_word'|now apply tail_bracket].
      - split; [apply id_word|eexists; right; reflexivity].
      - apply edge_in in J as (R & D & _ & R'). split; [now apply address_word'|]. split; [|apply edge_stops].
        destruct m as [c|c]; [now apply address_word'|apply id_word].
    Qed.
    Lemma lines_one : forall l, In l (map (item_line VI U F I pa pf) (hom_dot n h)) -> ~ In newline l.
    Proof.
      intros l J K. apply in_map_iff in J as (i & <- & J). 
      assert (W : forall t, word t -> ~ In newline t) by (intros t W X; apply W in X; discriminate).
      assert (O : aline_ok (aline_of pa i)) by (apply alines_ok; now apply in_map).
      rewrite aline_line in K. destruct i as [k|k|k e m]; cbn [aline_of aline_text aline_ok] in *.
      - destruct O as [O _]. apply in_app_or in K as [K|K]; [exact (W _ O K)|]. clear -K Nf.
        destruct k; cbn [decl_tail] in K; try (revert K; apply lit_one_line; reflexivity); auto.
        repeat (apply in_app_or in K as [K|K]); try (revert K; apply lit_one_line; reflexivity).
        + apply decN_chars in K. apply K. reflexivity.
        + exact (Nf _ K).
      - destruct O as [O _]. apply in_app_or in K as [K|K]; [exact (W _ O K)|]. revert K; apply lit_one_line; reflexivity.
      - destruct O as (O1 & O2 & _). apply in_app_or in K as [K|K]; [exact (W _ O1 K)|]. apply in_app_or in K as [K|K].
        { revert K; apply lit_one_line; reflexivity. }
        apply in_app_or in K as [K|K]; [exact (W _ O2 K)|].
        destruct e; cbn [edge_tail] in K; try (revert K; apply lit_one_line; reflexivity).
        + destruct k; cbn [In] in K; auto; destruct K as [K|[]]; discriminate.
        + repeat (apply in_app_or in K as [K|K]); try (revert K; apply lit_one_line; reflexivity).
          apply decN_chars in K. apply K. reflexivity.
        + repeat (apply in_app_or in K as [K|K]); try (revert K; apply lit_one_line; reflexivity).
          apply decN_chars in K. apply K. reflexivity.
    Qed.

    Definition address_of (c : hom) : option text := match c with HId => None | _ => Some (pa c) end.
    Lemma address_of_not c : c <> HId -> address_of c = Some (pa c).
    Proof. intros N. destruct c; auto. now elim N. Qed.
    Lemma aedges_edges k : reach h k -> drawn k = true ->
      aedges (lit "h" ++ pa k) (map (aline_of pa) (hom_dot n h)) =
      map (fun lc => (edge_tail VI U F I k (fst lc), address_of (snd lc))) (operands k).
    Proof.
      intros R D. rewrite <- (proj1 (C58_edges VI U F I heqb heqb_spec n h k) (conj R D)).
      assert (G : forall i, In i (hom_dot n h) -> good i /\ match i with DEdge _ _ _ _ j _ _ => reach h j | _ => True end).
      { intros i J. split; [exact (dot_good _ _ _ J)|]. destruct i as [j|j|j e m]; auto. now apply edge_in in J. }
      revert G. generalize (hom_dot n h). unfold aedges. induction l as [|i l IH]; intros G; auto.
      cbn [map concat]. rewrite IH by (intros j J; apply G; now right).
      destruct (G i (or_introl eq_refl)) as [G1 G2]. destruct i as [j|j|j e m]; cbn [aline_of edges app]; auto.
      destruct (heqb k j) eqn:E.
      - apply heqb_spec in E. subst j. rewrite (proj2 (text_eqb_spec _ _) eq_refl). cbn [app map fst snd]. f_equal. f_equal.
        destruct m as [c|c]; cbn [node_of]; [rewrite address_of_not by auto|]; reflexivity.
      - destruct (text_eqb (lit "h" ++ pa k) (lit "h" ++ pa j)) eqn:E'; auto. apply text_eqb_spec, app_inv_head in E'.
        apply (proj2 A) in E'; auto. subst j. rewrite (proj2 (heqb_spec k k) eq_refl) in E. discriminate.
    Qed.
  End Of.
End Proofs.

(** Two exports with the same lines. *)
Section Same.
  Variable VI : values_impl.
  Variables U F I : Type.
  Notation hom := (hom (vt VI) U F I).
  Variable heqb : hom -> hom -> bool.
  Hypothesis heqb_spec : forall a b, heqb a b = true <-> a = b.
  Variable pf : F -> text.
  Hypothesis If : forall f g, pf f = pf g -> f = g.
  Notation drawn := (drawn VI U F I).
  Notation operands := (operands VI U F I heqb).
  Notation reach := (reach VI U F I heqb).
  Notation hom_dot := (hom_dot VI U F I heqb).
  Notation tail := (edge_tail VI U F I).

  Definition same_class (h h' : hom) : Prop :=
    match h, h' with
    | HComp _ _, HComp _ _ | HFix _, HFix _ | HLocal _ _, HLocal _ _ | HSatFix _ _ _ _, HSatFix _ _ _ _ | HSum _, HSum _
    | HIte _ _ _, HIte _ _ _ => True
    | HFun t f, HFun t' f' => t = t' /\ f = f'
    | _, _ => False
    end.
  Lemma same_tail h h' : drawn h = true -> drawn h' = true ->
    decl_tail VI U F I pf h = decl_tail VI U F I pf h' -> same_class h h'.
  Proof.
    intros D D' E. destruct h; try discriminate D; destruct h'; try discriminate D'; cbn [same_class]; auto; try discriminate E.
    cbn [decl_tail] in E. apply app_inv_head in E. rewrite <- !app_assoc in E. apply app_inv_head in E.
    apply decN_prefix in E as [-> E]; [|exact eq_refl|exact eq_refl].
    rewrite !app_assoc in E. apply app_inv_tail, app_inv_tail, app_inv_head in E. auto.
  Qed.

  Lemma in_numbered : forall g i l c, In (l, c) (numbered VI U F I i g) -> exists j, l = EG j.
  Proof. induction g as [|a g IH]; intros i l c; cbn [numbered]; [intros []|]. intros [E|J]; [injection E as <- <-; eauto|eauto]. Qed.
  Lemma sat_labels x f g l e c : In (e, c) (operands (HSatFix x f g l)) -> e = EF \/ e = EL \/ exists j, e = EG j.
  Proof.
    cbn [HomTools.operands]. intros J. apply in_app_or in J as [J|J].
    - destruct (heqb f HId); [destruct J|]. destruct J as [J|[]]. injection J as <- _. auto.
    - apply in_app_or in J as [J|J]; [right; right; eapply in_numbered; eauto|].
      destruct (heqb l HId); [destruct J|]. destruct J as [J|[]]. injection J as <- _. auto.
  Qed.
  Lemma sat_tail h h' e e' : (e = EF \/ e = EL \/ exists j, e = EG j) -> (e' = EF \/ e' = EL \/ exists j, e' = EG j) ->
    tail h e = tail h' e' -> e = e'.
  Proof.
    intros [->|[->|(j & ->)]] [->|[->|(k & ->)]] E; auto; try discriminate E. cbn [edge_tail] in E. apply app_inv_head in E.
    apply app_inv_tail, dec_inj, Nat2N.inj in E. now subst.
  Qed.
  Definition pick (p : elabel -> bool) (l : list (elabel * hom)) : list hom := map snd (filter (fun x => p (fst x)) l).
  Definition isF e := match e with EF => true | _ => false end.
  Definition isG e := match e with EG _ => true | _ => false end.
  Definition isL e := match e with EL => true | _ => false end.
  Notation forgets := (map (fun lc : elabel * hom => (fst lc, forget (snd lc)))).
  Lemma pick_app p a b : pick p (a ++ b) = pick p a ++ pick p b.
  Proof. unfold pick. now rewrite filter_app, map_app. Qed.
  Lemma pick_numbered : forall g i, pick isG (forgets (numbered VI U F I i g)) = map forget g /\
    pick isF (forgets (numbered VI U F I i g)) = [] /\ pick isL (forgets (numbered VI U F I i g)) = [].
  Proof.
    induction g as [|a g IH]; intros i; [repeat split|]. destruct (IH (S i)) as (A & B & C). cbn [numbered map]. unfold pick in *. cbn.
    repeat split; auto. now f_equal.
  Qed.
  Lemma forget_id (h : hom) : forget h = HId -> h = HId.
  Proof. destruct h; try discriminate; auto. Qed.
  Lemma sat_operands x f g l x' f' g' l' :
    forgets (operands (HSatFix x f g l)) = forgets (operands (HSatFix x' f' g' l')) ->
    forget f = forget f' /\ map forget g = map forget g' /\ forget l = forget l'.
  Proof.
    assert (P : forall x f g l, let o := forgets (operands (HSatFix x f g l)) in
      pick isF o = (if heqb f HId then [] else [forget f]) /\ pick isG o = map forget g /\
      pick isL o = (if heqb l HId then [] else [forget l])).
    { clear -heqb_spec. intros x f g l. cbn zeta. cbn [HomTools.operands]. rewrite !map_app. destruct (pick_numbered g 0) as (A & B & C).
      rewrite !pick_app, A, B, C. destruct (heqb f HId), (heqb l HId); cbn; now rewrite ?app_nil_r. }
    intros E. destruct (P x f g l) as (A & B & C), (P x' f' g' l') as (A' & B' & C'). cbn zeta in *. rewrite E in A, B, C.
    rewrite A in A'. rewrite B in B'. rewrite C in C'. clear -A' B' C' heqb_spec.
    assert (Q : forall a b : hom, (if heqb a HId then [] else [forget a]) = (if heqb b HId then [] else [forget b]) -> forget a = forget b).
    { clear -heqb_spec. intros a b E. destruct (heqb a HId) eqn:A, (heqb b HId) eqn:B; try discriminate.
      - apply heqb_spec in A, B. now subst.
      - now injection E. }
    auto.
  Qed.

  Variables pa pa' : hom -> text.
  Variables h h' : hom.
  Variables n n' : N.
  Hypothesis A : hom_addresses heqb pa h.
  Hypothesis A' : hom_addresses heqb pa' h'.
  Hypothesis D : drawable heqb h.
  Hypothesis D' : drawable heqb h'.
  Notation L := (map (aline_of VI U F I pf pa) (hom_dot n h)).
  Notation L' := (map (aline_of VI U F I pf pa') (hom_dot n' h')).
  Hypothesis Same : L = L'.

  Lemma map_Forall2 {X Y Z} (f : X -> Z) (g : Y -> Z) : forall l l', map f l = map g l' -> Forall2 (fun a b => f a = g b) l l'.
  Proof. induction l as [|a l IH]; intros [|b l'] E; try discriminate; constructor; cbn [map] in E; apply cons_inv in E as [E1 E2]; auto. Qed.
  Lemma Forall2_in {X Y} (P Q : X -> Y -> Prop) : forall l l', Forall2 P l l' ->
    (forall a b, In a l -> In b l' -> P a b -> Q a b) -> Forall2 Q l l'.
  Proof. induction 1 as [|a b l l' H _ IH]; intros G; constructor; [apply G; auto; now left|]. apply IH. intros; apply G; auto; now right. Qed.
  Lemma Forall2_map {X Y Z} (f : X -> Z) (g : Y -> Z) : forall l l', Forall2 (fun a b => f a = g b) l l' -> map f l = map g l'.
  Proof. induction 1; cbn [map]; congruence. Qed.

  Lemma same_node : forall m k k', hsize VI U F I k < m -> reach h k -> reach h' k' ->
    address_of VI U F I pa k = address_of VI U F I pa' k' -> forget k = forget k'.
  Proof.
    induction m as [|m IH]; [lia|]. intros k k' Hm R R' E.
    destruct (D k R) as [Dk| ->]; [|destruct (D' k' R') as [Dk'| ->]; auto; destruct k'; discriminate].
    destruct (D' k' R') as [Dk'| ->]; [|destruct k; discriminate].
    assert (Ea : pa k = pa' k').
    { rewrite !address_of_not in E by (intros ->; discriminate). now injection E. }
    assert (SC : same_class k k').
    { assert (J : In (aline_of VI U F I pf pa (DHom _ _ _ _ k)) L).
      { apply in_map. apply in_decls. now apply (C58_nodes VI U F I heqb heqb_spec n h). }
      rewrite Same in J. apply in_map_iff in J as (i & Ei & J). destruct i as [j|j|j e t]; cbn [aline_of] in Ei.
      - apply in_decls, (C58_nodes VI U F I heqb heqb_spec n' h') in J as [Rj Dj].
        assert (E1 : lit "h" ++ pa' j = lit "h" ++ pa k) by exact (f_equal (fun l => match l with ADecl a _ => a | AEdge a _ _ => a end) Ei).
        assert (E2 : decl_tail VI U F I pf j = decl_tail VI U F I pf k) by exact (f_equal (fun l => match l with ADecl _ a => a | AEdge a _ _ => a end) Ei).
        apply app_inv_head in E1. assert (j = k') by (apply (proj2 A'); congruence). subst j.
        apply same_tail; auto.
      - exfalso. assert (E1 : lit "id" ++ decN j = lit "h" ++ pa k) by exact (f_equal (fun l => match l with ADecl a _ => a | AEdge a _ _ => a end) Ei).
        discriminate.
      - discriminate. }
    assert (Ops : Forall2 (fun a b => tail k (fst a) = tail k' (fst b) /\ forget (snd a) = forget (snd b)) (operands k) (operands k')).
    { pose proof (aedges_edges VI U F I heqb heqb_spec pf pa h n A k R Dk) as G.
      pose proof (aedges_edges VI U F I heqb heqb_spec pf pa' h' n' A' k' R' Dk') as G'.
      rewrite Same, Ea, G' in G. symmetry in G. apply map_Forall2 in G. eapply Forall2_in; [exact G|].
      intros [l c] [l' c'] J J' Eq. cbn [fst snd] in *.
      assert (E1 : tail k l = tail k' l') by exact (f_equal fst Eq).
      assert (E2 : address_of VI U F I pa c = address_of VI U F I pa' c') by exact (f_equal snd Eq). split; auto.
      apply IH; auto.
      - apply operands_smaller in J. lia.
      - eapply reach_trans; [exact R|]. eapply reach_op; [exact J|constructor].
      - eapply reach_trans; [exact R'|]. eapply reach_op; [exact J'|constructor]. }
    clear IH Hm R R' E Ea.
    destruct k; try discriminate Dk; destruct k'; try contradiction; cbn [same_class] in SC.
    - cbn [HomTools.operands] in Ops. inversion Ops as [|a b la lb [_ X1] Y]; subst. inversion Y as [|a b la lb [_ X2] Z]; subst.
      cbn [snd forget] in *. congruence.
    - cbn [HomTools.operands] in Ops. inversion Ops as [|a b la lb [_ X1] Y]; subst. cbn [snd forget] in *. congruence.
    - destruct SC as [-> ->]. reflexivity.
    - cbn [HomTools.operands] in Ops. inversion Ops as [|a b la lb [_ X1] Y]; subst. inversion Y as [|a b la lb [_ X2] Z]; subst.
      inversion Z as [|a b la lb [_ X3] Z']; subst. cbn [snd forget] in *. congruence.
    - cbn [HomTools.operands] in Ops. inversion Ops as [|a b la lb [X0 X1] Y]; subst. cbn [fst snd forget edge_tail] in *.
      apply app_inv_head, app_inv_tail, dec_inj in X0. congruence.
    - destruct (sat_operands x k1 g k2 x0 k'1 g0 k'2) as (X1 & X2 & X3); [|cbn [forget]; rewrite X1, X2, X3; reflexivity].
      apply Forall2_map. eapply Forall2_in; [exact Ops|]. intros [l c] [l' c'] J J' [E1 E2]. cbn [fst snd] in *.
      apply sat_labels in J, J'. f_equal; auto. eapply sat_tail; eauto.
    - pose proof (Forall2_in _ (fun a b : elabel * hom => forget (snd a) = forget (snd b)) _ _ Ops (fun a b _ _ X => proj2 X)) as X.
      apply (Forall2_map (fun a : elabel * hom => forget (snd a)) (fun a : elabel * hom => forget (snd a))) in X.
      cbn [HomTools.operands] in X. rewrite !map_map in X. cbn [forget]. f_equal. exact X.
  Qed.

  Lemma same_whole : forget h = forget h'.
  Proof.
    assert (R : reach h h) by constructor. assert (R' : reach h' h') by constructor.
    apply (same_node (S (hsize VI U F I h))); [lia|auto|auto|].
    pose proof Same as E.
    destruct (dot_first VI U F I heqb n h) as [[H1 E1]|[(Dr & l & E1)|[Dr N]]], 
      (dot_first VI U F I heqb n' h') as [[H2 E2]|[(Dr' & l' & E2)|[Dr' N']]];
      try (exfalso; destruct (D _ R); congruence); try (exfalso; destruct (D' _ R'); congruence); rewrite E1, E2 in E; cbn [map aline_of] in E;
      apply cons_inv in E as [E _]; apply (f_equal (fun l => match l with ADecl a _ => a | AEdge a _ _ => a end)) in E; try discriminate E.
    - now rewrite H1, H2.
    - apply app_inv_head in E. rewrite !address_of_not by (intros X; rewrite X in *; discriminate). now rewrite E.
  Qed.
End Same.

Lemma forget_same VI U F I heqb : forall h : hom (vt VI) U F I, drawable heqb h ->
  (forall k, reach VI U F I heqb h k -> saturated k = false) -> forget h = h.
Proof.
  assert (X : forall n (h : hom (vt VI) U F I), hsize VI U F I h < n -> drawable heqb h ->
    (forall k, reach VI U F I heqb h k -> saturated k = false) -> forget h = h).
  { induction n as [|n IH]; [lia|]. intros h Hn D S.
    assert (O : forall l c, In (l, c) (operands VI U F I heqb h) -> forget c = c).
    { intros l c J. apply IH.
      - apply operands_smaller in J. lia.
      - intros k R. apply D. eapply reach_op; eauto.
      - intros k R. apply S. eapply reach_op; eauto. }
    specialize (S h (reach_refl _ _ _ _ _ h)).
    destruct h; try discriminate S; auto; cbn [forget HomTools.operands] in *.
    - rewrite (O ELeft), (O ERight); cbn; auto.
    - rewrite (O ENone); cbn; auto.
    - rewrite (O EIf), (O EThen), (O EElse); cbn; auto.
    - rewrite (O (ETarget target)); cbn; auto.
    - f_equal. rewrite <- (map_id operands) at 2. apply map_ext_in. intros c J. apply (O ENone).
      apply in_map_iff. eauto. }
  intros h. apply (X (S (hsize VI U F I h))). lia.
Qed.

(** ** Theorems *)

(** The text determines the homomorphism, whatever the addresses and the number of the first identity, when all its operations
    are drawn, except the variables of saturation fixpoints. *)
Theorem C85_text_partial : forall VI U F I heqb pf pa pa' n n' (h h' : hom (vt VI) U F I),
  (forall a b, heqb a b = true <-> a = b) -> on_one_line pf ->
  drawable heqb h -> drawable heqb h' -> hom_addresses heqb pa h -> hom_addresses heqb pa' h' ->
  hom_dot_text VI U F I heqb pa pf n h = hom_dot_text VI U F I heqb pa' pf n' h' ->
  forget h = forget h' /\
  ((forall k, reach VI U F I heqb h k \/ reach VI U F I heqb h' k -> saturated k = false) -> h = h').
Proof.
  intros VI U F I heqb pf pa pa' n n' h h' Q [Nf If] D D' A A' E.
  assert (G : forget h = forget h').
  { unfold hom_dot_text in E.
    assert (B : forall pa n h, hom_addresses heqb pa h -> forall l, 
      In l (lit "digraph homomorphism {" :: map (item_line VI U F I pa pf) (hom_dot VI U F I heqb n h) ++ [lit "}"]) -> ~ In newline l).
    { clear -Q Nf. intros pa n h A l [<-|J]; [apply lit_one_line; reflexivity|]. apply in_app_or in J as [J|[<-|[]]]; [|apply lit_one_line; reflexivity].
      eapply lines_one; eauto. }
    apply unlines_inj in E; [|now apply B|now apply B]. apply cons_inv in E as [_ E]. apply app_inv_tail in E.
    rewrite (map_ext _ _ (aline_line VI U F I pf pa)), (map_ext _ _ (aline_line VI U F I pf pa')) in E. rewrite <- (map_map (aline_of VI U F I pf pa) aline_text), <- (map_map (aline_of VI U F I pf pa') aline_text) in E.
    apply alines_inj in E; [|eapply alines_ok; eauto|eapply alines_ok; eauto].
    eapply same_whole; eauto. }
  split; auto. intros S. rewrite (forget_same VI U F I heqb h), (forget_same VI U F I heqb h') in G; auto.
Qed.
Print Assumptions C85_text_partial.

(** The lines: one that declares each operation that is reached, with its label; one for each of its operands, with its label; and
    the declarations of identities. *)
Theorem C85_lines : forall VI U F I heqb pa pf n (h : hom (vt VI) U F I), (forall a b, heqb a b = true <-> a = b) ->
  exists lines, hom_dot_text VI U F I heqb pa pf n h = unlines (lit "digraph homomorphism {" :: lines ++ [lit "}"]) /\
    (forall k, reach VI U F I heqb h k -> drawn VI U F I k = true ->
       exists line, In line lines /\ declares_line (lit "h" ++ pa k) (operation_label pf k) line) /\
    (forall k l c, reach VI U F I heqb h k -> drawn VI U F I k = true -> In (l, c) (operands VI U F I heqb k) -> c <> HId ->
       exists line, In line lines /\ edge_line (lit "h" ++ pa k) (operand_label l) (lit "h" ++ pa c) line) /\
    (forall k l, reach VI U F I heqb h k -> drawn VI U F I k = true -> In (l, HId) (operands VI U F I heqb k) ->
       exists line i, In line lines /\ edge_line (lit "h" ++ pa k) (operand_label l) (lit "id" ++ decN i) line /\
         exists line', In line' lines /\ declares_line (lit "id" ++ decN i) (lit "id") line') /\
    (forall line, In line lines ->
       (exists k, reach VI U F I heqb h k /\ drawn VI U F I k = true /\ declares_line (lit "h" ++ pa k) (operation_label pf k) line) \/
       (exists i, declares_line (lit "id" ++ decN i) (lit "id") line) \/
       (exists k l c target, reach VI U F I heqb h k /\ drawn VI U F I k = true /\ In (l, c) (operands VI U F I heqb k) /\
          edge_line (lit "h" ++ pa k) (operand_label l) target line /\
          ((c <> HId /\ target = lit "h" ++ pa c) \/ (c = HId /\ exists i, target = lit "id" ++ decN i)))).
Proof.
  intros VI U F I heqb pa pf n h Q. exists (map (item_line VI U F I pa pf) (hom_dot VI U F I heqb n h)). split; [reflexivity|].
  assert (TD : forall k, drawn VI U F I k = true -> declares_line (lit "h" ++ pa k) (operation_label pf k) (item_line VI U F I pa pf (DHom _ _ _ _ k))).
  { intros k D. exists (decl_tail VI U F I pf k). split; [|reflexivity].
    destruct k; try discriminate D; cbn [operation_label decl_tail];
      ((exists [], (lit ";"); split; [auto|]; split; [auto|]; rewrite <- ?app_assoc; reflexivity) ||
       (exists (lit " "), (lit ";"); split; [auto|]; split; [auto|]; rewrite <- ?app_assoc; reflexivity)). }
  assert (TI : forall k, declares_line (lit "id" ++ decN k) (lit "id") (item_line VI U F I pa pf (DIdent _ _ _ _ k))).
  { intros k. exists (lit " [label=""id""];"). split; [|cbn [item_line]; now rewrite <- ?app_assoc].
    exists (lit " "), (lit ";"). repeat split; auto. }
  assert (TE : forall k l m, edge_line (lit "h" ++ pa k) (operand_label l) (name_text VI U F I pa m) (item_line VI U F I pa pf (DEdge _ _ _ _ k l m))).
  { intros k l m. exists (edge_tail VI U F I k l). split; [|reflexivity].
    destruct l; cbn [operand_label edge_tail];
      try (exists [], (lit ";"); split; [auto|]; split; [auto|]; rewrite <- ?app_assoc; reflexivity);
      try (exists (lit " "), (lit ";"); split; [auto|]; split; [auto|]; rewrite <- ?app_assoc; reflexivity).
    - destruct k; ((exists [], []; split; [auto|]; split; [auto|]; reflexivity) || (exists [], (lit ";"); split; [auto|]; split; [auto|]; reflexivity)).
    - exists (lit " "), []. split; [auto|]. split; [auto|]. rewrite <- ?app_assoc. reflexivity. }
  assert (DH : forall k, reach VI U F I heqb h k -> drawn VI U F I k = true -> In (DHom _ _ _ _ k) (hom_dot VI U F I heqb n h)).
  { intros k R D. apply in_decls. now apply (C58_nodes VI U F I heqb Q). }
  assert (DE : forall k l c, reach VI U F I heqb h k -> drawn VI U F I k = true -> In (l, c) (operands VI U F I heqb k) ->
    exists m, In (DEdge _ _ _ _ k l m) (hom_dot VI U F I heqb n h) /\ node_of VI U F I m = c).
  { intros k l c R D J. rewrite <- (proj1 (C58_edges VI U F I heqb Q n h k) (conj R D)) in J. revert J. generalize (hom_dot VI U F I heqb n h).
    clear -Q. induction l0 as [|[j|j|j e m] l0 IH]; cbn [edges]; intros J; [destruct J|..]; try (destruct (IH J) as (m' & A & B); exists m'; split; [now right|auto]; fail).
    destruct (heqb k j) eqn:E; [|destruct (IH J) as (m' & A & B); exists m'; split; [now right|auto]].
    destruct J as [J|J]; [|destruct (IH J) as (m' & A & B); exists m'; split; [now right|auto]].
    apply Q in E. subst j. injection J as -> E. exists m. split; [now left|auto]. }
  split; [|split; [|split]].
  - intros k R D. eexists. split; [apply in_map; exact (DH k R D)|auto].
  - intros k l c R D J N. destruct (DE k l c R D J) as ([c'|i] & K & E); cbn [node_of] in E; [subst c'|congruence].
    eexists. split; [apply in_map; exact K|exact (TE k l (inl c))].
  - intros k l R D J. destruct (DE k l HId R D J) as ([c'|i] & K & E); cbn [node_of] in E.
    + subst c'. exfalso. exact (dot_good VI U F I heqb _ _ _ K eq_refl).
    + eexists. exists i. split; [apply in_map; exact K|]. split; [exact (TE k l (inr i))|].
      eexists. split; [|exact (TI i)]. apply in_map. apply in_idents.
      destruct (C58_identities VI U F I heqb Q n h) as (j & E1 & E2). rewrite E1, <- E2; [eapply in_ident_targets; eauto|].
      intros ->. cbn in K. destruct K as [K|[]]. discriminate.
  - intros line J. apply in_map_iff in J as (i & <- & J). destruct i as [k|k|k l m].
    + left. exists k. apply in_decls, (C58_nodes VI U F I heqb Q n h) in J as [R D]. auto.
    + right. left. eauto.
    + right. right. pose proof (dot_good VI U F I heqb _ _ _ J) as G. apply (edge_in VI U F I heqb Q) in J as (R & D & O & _).
      exists k, l, (node_of VI U F I m), (name_text VI U F I pa m). repeat (split; auto). destruct m as [c|c]; cbn [node_of name_text] in *; eauto.
Qed.
Print Assumptions C85_lines.

(** The names that are declared are different if and only if there are at most 2^32 identities. *)
Theorem C85_names : forall VI U F I heqb pa n (h : hom (vt VI) U F I),
  (forall a b, heqb a b = true <-> a = b) -> hom_addresses heqb pa h ->
  let items := hom_dot VI U F I heqb n h in
  NoDup (names pa items) <-> (N.of_nat (length (idents VI U F I items)) <= 2 ^ 32)%N.
Proof.
  intros VI U F I heqb pa n h Q [_ A]. cbn zeta. rewrite <- (C58_identities_differ VI U F I heqb Q n h).
  destruct (C58_nodes VI U F I heqb Q n h) as [ND R].
  assert (R' : forall k, In k (decls VI U F I (hom_dot VI U F I heqb n h)) -> reach VI U F I heqb h k) by (intros k J; now apply R).
  clear R. revert ND R'. generalize (hom_dot VI U F I heqb n h) as l. unfold names.
  assert (Nm : forall (l : list (item VI U F I)) t, In t (names pa l) <->
    (exists k, In k (decls VI U F I l) /\ t = lit "h" ++ pa k) \/ exists k, In k (idents VI U F I l) /\ t = lit "id" ++ decN k).
  { unfold names. induction l as [|[k|k|k e m] l IH]; intros t; cbn [map concat app decls idents In].
    - split; [intros []|intros [(k & [] & _)|(k & [] & _)]].
    - rewrite IH. split.
      + intros [<-|[(j & J & K)|B]]; [left; exists k; auto|left; exists j; auto|right; exact B].
      + intros [(j & [<-|J] & ->)|B]; [left; reflexivity|right; left; exists j; auto|right; right; exact B].
    - rewrite IH. split.
      + intros [<-|[B|(j & J & K)]]; [right; exists k; auto|left; exact B|right; exists j; auto].
      + intros [B|(j & [<-|J] & ->)]; [right; left; exact B|left; reflexivity|right; right; exists j; auto].
    - apply IH. }
  induction l as [|[k|k|k e m] l IH]; intros ND R; cbn [map concat app decls idents] in *.
  - split; constructor.
  - inversion ND as [|? ? N1 N2]; subst. rewrite NoDup_cons_iff. rewrite (IH N2 (fun x X => R x (or_intror X))). split; [tauto|]. intros X. split; auto.
    intros J. apply (Nm l) in J as [(j & J & K)|(j & J & K)]; [|discriminate]. apply app_inv_head in K. apply A in K; [now subst|apply R; now left|apply R; now right].
  - rewrite !NoDup_cons_iff, IH by auto. split; intros [X Y]; split; auto.
    + intros J. apply X. apply (Nm l). eauto.
    + intros J. apply (Nm l) in J as [(j & J & K)|(j & J & K)]; [discriminate|]. apply app_inv_head, dec_inj in K. now subst.
  - auto.
Qed.
Print Assumptions C85_names.

(** When all the operations are drawn, the ends of edges are declared. *)
Theorem C85_closed_partial : forall VI U F I heqb pa n (h : hom (vt VI) U F I),
  (forall a b, heqb a b = true <-> a = b) -> drawable heqb h ->
  let items := hom_dot VI U F I heqb n h in forall t, In t (ends pa items) -> In t (names pa items).
Proof.
  intros VI U F I heqb pa n h Q D. cbn zeta. intros t J. apply in_concat in J as (q & J & K). apply in_map_iff in J as (i & <- & J).
  destruct i as [k|k|k e m]; try destruct K.
  - subst t. apply (edge_in VI U F I heqb Q) in J as (R & Dr & _). apply in_concat.
    exists [lit "h" ++ pa k]. split; [|now left]. apply in_map_iff. exists (DHom _ _ _ _ k). split; auto.
    apply in_decls. now apply (C58_nodes VI U F I heqb Q).
  - destruct H as [<-|[]]. pose proof (dot_good VI U F I heqb _ _ _ J) as G. pose proof (edge_in VI U F I heqb Q _ _ _ _ _ J) as (_ & _ & O & R).
    destruct m as [c|c]; cbn [node_of] in *.
    + apply in_concat. exists [lit "h" ++ pa c]. split; [|now left]. apply in_map_iff. exists (DHom _ _ _ _ c). split; auto.
      apply in_decls. apply (C58_nodes VI U F I heqb Q). destruct (D c R); [auto|contradiction].
    + apply in_concat. exists [lit "id" ++ decN c]. split; [|now left]. apply in_map_iff. exists (DIdent _ _ _ _ c). split; auto.
      apply in_idents. destruct (C58_identities VI U F I heqb Q n h) as (j & E1 & E2). rewrite E1, <- E2.
      * eapply in_ident_targets; eauto.
      * intros ->. cbn in J. destruct J as [J|[]]. discriminate.
Qed.
Print Assumptions C85_closed_partial.

(** ** Examples *)

Fixpoint ex_numbers (l : list N) : text := match l with [] => [] | a :: l => lit "," ++ decN a ++ ex_numbers l end.
Fixpoint ex_pairs (l : list (N * N)) : text :=
  match l with [] => [] | (a, b) :: l => lit "," ++ decN a ++ lit ":" ++ decN b ++ ex_pairs l end.
Definition ex_print (f : exfun) : text :=
  match f with
  | Fadd k => lit "add" ++ decN k
  | Fkeep l => lit "keep" ++ ex_numbers l
  | Fmap l => lit "map" ++ ex_pairs l
  | Fpair => lit "pair"
  end.
Lemma ex_one_line : on_one_line ex_print.
Proof.
  assert (D : forall n, ~ In newline (decN n)) by (intros n J; apply decN_chars in J; apply J; reflexivity).
  assert (P : forall n m, decN n = decN m -> n = m) by exact dec_inj.
  split.
  - assert (N1 : forall l, ~ In newline (ex_numbers l)).
    { induction l as [|a l IH]; intros J; [destruct J|]. cbn [ex_numbers] in J.
      repeat (apply in_app_or in J as [J|J]); [|now apply D in J|auto]. revert J; apply lit_one_line; reflexivity. }
    assert (N2 : forall l, ~ In newline (ex_pairs l)).
    { induction l as [|[a b] l IH]; intros J; [destruct J|]. cbn [ex_pairs] in J.
      repeat (apply in_app_or in J as [J|J]); try (now apply D in J); auto; revert J; apply lit_one_line; reflexivity. }
    intros [k|l|l|] J; cbn [ex_print] in J; try (apply in_app_or in J as [J|J]);
      try (now apply D in J); try (now apply N1 in J); try (now apply N2 in J); revert J; apply lit_one_line; reflexivity.
  - assert (S1 : forall l, no_digit (ex_numbers l)) by (intros [|a l]; [exact Logic.I|reflexivity]).
    assert (S2 : forall l, no_digit (ex_pairs l)) by (intros [|[a b] l]; [exact Logic.I|reflexivity]).
    assert (N1 : forall l l', ex_numbers l = ex_numbers l' -> l = l').
    { induction l as [|a l IH]; intros [|a' l'] E; try discriminate; auto. cbn [ex_numbers] in E. apply app_inv_head in E.
      apply decN_prefix in E as [-> E]; auto. f_equal. auto. }
    assert (N2 : forall l l', ex_pairs l = ex_pairs l' -> l = l').
    { induction l as [|[a b] l IH]; intros [|[a' b'] l'] E; try discriminate; auto. cbn [ex_pairs] in E. apply app_inv_head in E.
      apply decN_prefix in E as [-> E]; try reflexivity. apply app_inv_head in E.
      apply decN_prefix in E as [-> E]; auto. f_equal. auto. }
    intros [k|l|l|] [k'|l'|l'|] E; cbn [ex_print] in E; try discriminate E; auto; apply app_inv_head in E; f_equal; auto.
Qed.
Lemma reach_closed VI U F I heqb (P : hom (vt VI) U F I -> Prop) :
  (forall h l c, P h -> In (l, c) (operands VI U F I heqb h) -> P c) -> forall h k, reach VI U F I heqb h k -> P h -> P k.
Proof. intros C h k R. induction R as [h|h l c k J R IH]; eauto. Qed.

Definition ex_hom_address (h : exhom) : text :=
  match h with
  | HComp _ _ => lit "0x7f10"
  | HSum _ => lit "0x7f20"
  | HLocal _ _ => lit "0x7f30"
  | HSatFix _ _ _ _ => lit "0x7f50"
  | HFix _ => lit "0x7f60"
  | HId => lit "0x7f70"
  | _ => lit "0x7f40"
  end.
Definition ex_dot_lines : list string :=
  ["digraph homomorphism {"; "h0x7f10[label=""o""];"; "h0x7f20 [label=""+""];"; "h0x7f40 [label=""fun(1, add1)""];"; "h0x7f20 -> h0x7f40;";
   "id0 [label=""id""];"; "h0x7f20 -> id0;"; "h0x7f10 -> h0x7f20[label=""l""];"; "h0x7f30 [label=""@""];";
   "h0x7f30 -> h0x7f40 [label=""2""]"; "h0x7f10 -> h0x7f30[label=""r""];"; "}"]%string.

Lemma ex_dot_reach : forall k, reach FS nat exfun exind ex_eqb HomToolsProps.ex_dot k -> In k [HomToolsProps.ex_dot; HSum [ex_f; HId]; HLocal 2%N ex_f; ex_f; HId].
Proof.
  intros k R. eapply (reach_closed FS nat exfun exind ex_eqb (fun k => In k _)); [|exact R|now left].
  intros h l c [<-|[<-|[<-|[<-|[<-|[]]]]]] J; cbn in J; repeat destruct J as [J|J]; try contradiction; injection J as _ <-; cbn; auto 6.
Qed.
Lemma ex_sat_reach x : forall k, reach FS nat exfun exind ex_eqb (HSatFix x HId [] ex_f) k -> In k [HSatFix x HId [] ex_f; ex_f; HId].
Proof.
  intros k R. eapply (reach_closed FS nat exfun exind ex_eqb (fun k => In k _)); [|exact R|now left].
  intros h l c [<-|[<-|[<-|[]]]] J; cbn in J; repeat destruct J as [J|J]; try contradiction; injection J as _ <-; cbn; auto 6.
Qed.
Lemma ex_found l (h : exhom) : (forall k, reach FS nat exfun exind ex_eqb h k -> In k l) ->
  forallb (fun k => forallb address_char (ex_hom_address k)) l = true ->
  (forall k k', In k l -> In k' l -> ex_hom_address k = ex_hom_address k' -> k = k') -> hom_addresses ex_eqb ex_hom_address h.
Proof.
  intros R A B. split; [|auto]. intros k c Rk J. apply R in Rk. rewrite forallb_forall in A. apply A in Rk.
  rewrite forallb_forall in Rk. auto.
Qed.

(** Two saturation fixpoints, of different variables, with the same text: the variable is not written. *)
Theorem C85_text_refuted : exists h h' : exhom, h <> h' /\ drawable ex_eqb h /\ drawable ex_eqb h' /\
  hom_addresses ex_eqb ex_hom_address h /\ hom_addresses ex_eqb ex_hom_address h' /\
  hom_dot_text FS nat exfun exind ex_eqb ex_hom_address ex_print 0 h = hom_dot_text FS nat exfun exind ex_eqb ex_hom_address ex_print 0 h'.
Proof.
  exists (HSatFix 1%N HId [] ex_f), (HSatFix 2%N HId [] ex_f). split; [discriminate|].
  assert (D : forall x, drawable (VI := FS) ex_eqb (HSatFix x HId [] ex_f)).
  { intros x k R. apply ex_sat_reach in R as [<-|[<-|[<-|[]]]]; auto. }
  assert (A : forall x, hom_addresses (VI := FS) ex_eqb ex_hom_address (HSatFix x HId [] ex_f)).
  { intros x. eapply ex_found; [apply ex_sat_reach|vm_compute; reflexivity|].
    intros k k' [<-|[<-|[<-|[]]]] [<-|[<-|[<-|[]]]] E; try reflexivity; vm_compute in E; discriminate E. }
  repeat (split; auto).
Qed.
Print Assumptions C85_text_refuted.

(** An operation that is not drawn is the end of an edge, and its name is not declared. *)
Theorem C85_closed_refuted : exists h : exhom, exists t,
  In t (ends ex_hom_address (hom_dot FS nat exfun exind ex_eqb 0 h)) /\ ~ In t (names ex_hom_address (hom_dot FS nat exfun exind ex_eqb 0 h)).
Proof.
  exists (HFix (HConst One)), (lit "h0x7f40"). split; [vm_compute; auto|]. vm_compute. intros [E|[]]. discriminate E.
Qed.
Print Assumptions C85_closed_refuted.

Example C85_ex : (forall a b, ex_eqb a b = true <-> a = b) /\ on_one_line ex_print /\ drawable (VI := FS) ex_eqb HomToolsProps.ex_dot /\
  hom_addresses (VI := FS) ex_eqb ex_hom_address HomToolsProps.ex_dot /\
  (forall k, reach FS nat exfun exind ex_eqb HomToolsProps.ex_dot k -> saturated k = false) /\
  hom_dot_text FS nat exfun exind ex_eqb ex_hom_address ex_print 0 HomToolsProps.ex_dot = unlines (map lit ex_dot_lines).
Proof.
  split; [apply (equivb_spec _ (hp_lt HP_up_ok))|]. split; [exact ex_one_line|]. split; [|split; [|split]].
  - intros k R. apply ex_dot_reach in R as [<-|[<-|[<-|[<-|[<-|[]]]]]]; auto.
  - eapply ex_found; [apply ex_dot_reach|vm_compute; reflexivity|].
    intros k k' [<-|[<-|[<-|[<-|[<-|[]]]]]] [<-|[<-|[<-|[<-|[<-|[]]]]]] E; try reflexivity; vm_compute in E; discriminate E.
  - intros k R. apply ex_dot_reach in R as [<-|[<-|[<-|[<-|[<-|[]]]]]]; auto.
  - vm_compute. reflexivity.
Qed.
