(** * The names in the JSON export of homomorphisms, character by character (C59)

    sdd/tools/js.hh builds a document of RapidJSON, then writes it with rapidjson::PrettyWriter.  RapidJSON is not in the
    repository: what is modelled is the document. *)

From Coq Require Import Ascii String List Bool Arith NArith Lia.
From Verif Require Import Base SortedSets Values FlatSet Sdd Orders DDModel Concrete Hom Tools HomTools HomConcrete HomToolsProps.
From Verif Require Import Text OrderText OrderTextProps ForceDot ForceDotProps SddDotProps HomDotProps.
Import ListNotations.

(** An object with a member "name", a string, then maybe a member "children", an array. *)
Inductive sjson : Type := SObj (name : text) (children : option (list sjson)).

Section HomJson.
  Variable VI : values_impl.
  Variables U F I : Type.
  Notation hom := (hom (vt VI) U F I).
  Variable pf : F -> text.               (* what print (function.hh 186-206) writes for the functions of the user *)

  (** hom_to_json_visitor, sdd/tools/js.hh 22-110.  The name of a function is what operator<< writes (sdd/hom/function.hh
      318-325).  Simplification: its length fits in rapidjson::SizeType (60). *)
  Fixpoint hom_document (h : hom) : sjson :=
    match h with
    | HComp l r => SObj (lit "o") (Some [hom_document l; hom_document r])                              (* 27-40 *)
    | HFix h => SObj (lit "*") (Some [hom_document h])                                                 (* 42-52 *)
    | HFun t f => SObj (lit "fun(" ++ decN t ++ lit ", " ++ pf f ++ lit ")") None                      (* 54-63 *)
    | HId => SObj (lit "id") None                                                                      (* 65-70 *)
    | HLocal t h => SObj (lit "@ " ++ decN t) (Some [hom_document h])                                  (* 72-85 *)
    | HSum l => SObj (lit "+") (Some (map hom_document l))                                             (* 87-101 *)
    | _ => SObj (lit "TODO") None                                                                      (* 103-109 *)
    end.

  (** How names are read. *)
  Definition name_reads (j : jname F) (t : text) : Prop :=
    t = match j with
        | JO _ => lit "o" | JStar _ => lit "*" | JId _ => lit "id" | JPlus _ => lit "+" | JTodo _ => lit "TODO"
        | JAt _ x => lit "@ " ++ decN x
        | JFun _ x f => lit "fun(" ++ decN x ++ lit ", " ++ pf f ++ lit ")"
        end.
  Inductive same_tree : json F -> sjson -> Prop :=
  | st_leaf : forall j t, name_reads j t -> same_tree (JObj _ j None) (SObj t None)
  | st_node : forall j t l l', name_reads j t -> Forall2 same_tree l l' -> same_tree (JObj _ j (Some l)) (SObj t (Some l')).
End HomJson.

(** The document is the tree of C59, with names as strings. *)
Theorem C59_document : forall VI U F I (pf : F -> text) (h : hom (vt VI) U F I), same_tree F pf (hom_js VI U F I h) (hom_document VI U F I pf h).
Proof.
  intros VI U F I pf h. induction h as [l r IHl IHr|o v k IH|o v k IH|x|k IH|t f| |p t e IHp IHt IHe|i|l IH|t k IH|x f g l IHf IHg IHl
                           |x f g l IHf IHg IHl|x f g l IHf IHg IHl|l IH] using hom_ind'; cbn [hom_js hom_document]; try (constructor; reflexivity).
  - constructor; [reflexivity|]. repeat constructor; auto.
  - constructor; [reflexivity|]. repeat constructor; auto.
  - constructor; [reflexivity|]. repeat constructor; auto.
  - constructor; [reflexivity|]. induction IH; cbn [map]; constructor; auto.
Qed.
Print Assumptions C59_document.

(** The names as strings are enough to tell the homomorphisms that are exported apart. *)
Theorem C59_document_partial : forall VI U F I (pf : F -> text), (forall f g, pf f = pf g -> f = g) ->
  forall a b : hom (vt VI) U F I, exported VI U F I a -> exported VI U F I b ->
  hom_document VI U F I pf a = hom_document VI U F I pf b -> a = b.
Proof.
  intros VI U F I pf If.
  assert (N : forall s c s' c', SObj s c = SObj s' c' -> s = s' /\ c = c') by (intros s c s' c' [= -> ->]; auto).
  assert (C : forall l l' : list sjson, Some l = Some l' -> l = l') by (intros l l' [= ->]; auto).
  intros a. induction a as [l r IHl IHr|o v k IH|o v k IH|x|k IH|t f| |p t e IHp IHt IHe|i|l IH|t k IH|x f g l IHf IHg IHl
                           |x f g l IHf IHg IHl|x f g l IHf IHg IHl|l IH] using hom_ind';
    intros b A B E; inversion A; subst; destruct B as [l' r' B1 B2|k' B|t' f'| |t' k' B|l' B]; cbn [hom_document] in E;
    apply N in E as [E1 E2]; try discriminate E1; try discriminate E2; try reflexivity.
  - apply C in E2. injection E2 as X Y. f_equal; auto.
  - apply C in E2. injection E2 as X. f_equal; auto.
  - apply app_inv_head in E1. apply decN_prefix in E1 as [-> E1]; try reflexivity.
    apply app_inv_head, app_inv_tail, If in E1. now subst.
  - apply app_inv_head, dec_inj in E1. subst t'. apply C in E2. injection E2 as X. f_equal; auto.
  - apply C in E2. f_equal.
    match goal with H : Forall (exported VI U F I) l |- _ => revert l' B E2; induction H as [|a l Ha Hl IHl] end;
      intros [|b l'] B E; try discriminate; [reflexivity|]. cbn [map] in E. apply cons_inv in E as [X Y].
    inversion B; subst. inversion IH; subst. f_equal; auto. apply IHl; auto. now constructor.
Qed.
Print Assumptions C59_document_partial.

Example C59_document_ex : exported FS nat exfun exind HomToolsProps.ex_dot /\ (forall f g, ex_print f = ex_print g -> f = g) /\
  hom_document FS nat exfun exind ex_print HomToolsProps.ex_dot =
    SObj (lit "o") (Some [SObj (lit "+") (Some [SObj (lit "fun(1, add1)") None; SObj (lit "id") None]);
                          SObj (lit "@ 2") (Some [SObj (lit "fun(1, add1)") None])]).
Proof. split; [repeat constructor|]. split; [exact (proj2 ex_one_line)|vm_compute; reflexivity]. Qed.
