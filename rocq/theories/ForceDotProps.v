(** * The DOT export of hypergraphs (C82) *)

From Coq Require Import Ascii String List Bool Arith NArith Lia Permutation.
From Verif Require Import Base Orders OrdersProofs OrdersMore OrdersProps Force ForceMore Text OrderText OrderTextProps ForceDot ForceProps.
Import ListNotations.

(** ** Specification *)

(** The hyperedges that have vertices. *)
Definition drawn_edges {U} (es : list (list U * weight)) : list (list U) :=
  filter (fun e => match e with [] => false | _ => true end) (map fst es).

(** The lines of a drawing of [edges]: one for the point of the hyperedge, named from its address, and one for each link from it. *)
Fixpoint edge_drawing {U} (pu : U -> text) (pa : nat -> text) (k : nat) (edges : list (list U)) : list text :=
  match edges with
  | [] => []
  | e :: edges =>
    (lit "h" ++ pa k ++ lit " [label="""",shape=point]")
    :: map (fun u => lit "h" ++ pa k ++ lit " -- v" ++ pu u ++ lit ";") e
    ++ edge_drawing pu pa (S k) edges
  end.

(** The names of the nodes. *)
Definition node_names {U} (pu : U -> text) (pa : nat -> text) (ids : list U) (edges : nat) : list text :=
  map (fun u => lit "v" ++ pu u) ids ++ map (fun k => lit "h" ++ pa k) (seq 0 edges).

(** Names that DOT accepts without quotes: letters, digits and underscores, not starting with a digit. *)
Definition word_char (c : ascii) : bool :=
  let n := N_of_ascii c in
  ((48 <=? n) && (n <=? 57) || (65 <=? n) && (n <=? 90) || (97 <=? n) && (n <=? 122) || (n =? 95))%N.
Definition word (t : text) : Prop := forall c, In c t -> word_char c = true.
Definition dot_name (t : text) : Prop :=
  word t /\ match t with [] => False | c :: _ => digit c = None end.

(** The text of an address: not empty, letters and digits, as 0x55d2c8. *)
Definition addresses (pa : nat -> text) : Prop := (forall k, word (pa k)) /\ forall j k, pa j = pa k -> j = k.

Definition on_one_line {U} (pu : U -> text) : Prop :=
  (forall u, ~ In newline (pu u)) /\ forall u v, pu u = pu v -> u = v.

(** ** Proofs *)

Lemma unlines_inj : forall l l', (forall t, In t l -> ~ In newline t) -> (forall t, In t l' -> ~ In newline t) ->
  unlines l = unlines l' -> l = l'.
Proof.
  unfold unlines. induction l as [|t l IH]; intros [|t' l'] A A' E; auto.
  - destruct t'; discriminate.
  - destruct t; discriminate.
  - cbn [map concat] in E. rewrite <- !app_assoc in E. cbn [app] in E.
    assert (S : forall (a a' b b' : text), ~ In newline a -> ~ In newline a' -> a ++ newline :: b = a' ++ newline :: b' -> a = a' /\ b = b').
    { clear. induction a as [|x a IH]; intros [|y a'] b b' NA NA' E; cbn in E.
      - injection E as <-. auto.
      - injection E as E1 _. destruct NA'. left. now symmetry.
      - injection E as E1 _. destruct NA. now left.
      - injection E as -> E. apply IH in E as [-> ->]; auto; intros I; [apply NA|apply NA']; now right. }
    apply S in E as [-> E]; [|apply A; now left|apply A'; now left]. f_equal.
    apply IH; auto; intros x I; [apply A|apply A']; now right.
Qed.

Lemma space_split : forall (a a' b b' : text), ~ In space a -> ~ In space a' -> a ++ space :: b = a' ++ space :: b' -> a = a' /\ b = b'.
Proof.
  induction a as [|x a IH]; intros [|y a'] b b' NA NA' E; cbn in E.
  - injection E as <-. auto.
  - injection E as E1 _. destruct NA'. left. now symmetry.
  - injection E as E1 _. destruct NA. now left.
  - injection E as -> E. apply IH in E as [-> ->]; auto; intros I; [apply NA|apply NA']; now right.
Qed.

Lemma cons_inv {A} (x y : A) l l' : x :: l = y :: l' -> x = y /\ l = l'.
Proof. intros [= -> ->]. auto. Qed.

Lemma word_not t c : word t -> word_char c = false -> ~ In c t.
Proof. intros W C I. apply W in I. congruence. Qed.

Section Proofs.
  Variable U : Type.
  Variable pu : U -> text.
  Hypothesis one : on_one_line pu.

  Lemma vertex_line_inj u v : vertex_line U pu u = vertex_line U pu v -> u = v.
  Proof.
    unfold vertex_line. intros E. apply (proj2 one). apply app_inv_head in E.
    assert (L : length (pu u) = length (pu v)).
    { apply (f_equal (@length ascii)) in E. rewrite !app_length in E. lia. }
    clear one. revert E L. generalize (lit "[label=""" ++ pu u ++ lit """];") (lit "[label=""" ++ pu v ++ lit """];").
    generalize (pu u) (pu v). induction t as [|x t IH]; intros [|y t'] b b' E L; try discriminate; [reflexivity|].
    cbn in E, L. injection E as -> E. f_equal. eapply IH; [exact E|]. congruence.
  Qed.

  Definition tok_line (x : text * option U) : text :=
    match snd x with None => edge_line (fst x) | Some u => link_line U pu (fst x) u end.

  Lemma tok_shape x : exists b, tok_line x = "h"%char :: fst x ++ space :: b.
  Proof. destruct x as [a [u|]]; eexists; reflexivity. Qed.

  Lemma tok_inj x y : word (fst x) -> word (fst y) -> tok_line x = tok_line y -> snd x = snd y.
  Proof.
    intros WX WY E. apply word_not with (c := space) in WX; [|reflexivity]. apply word_not with (c := space) in WY; [|reflexivity].
    destruct x as [a [u|]], y as [b [v|]]; cbn [fst snd] in *; unfold tok_line, edge_line, link_line in E; cbn [fst snd] in E.
    - change (lit "h" ++ a ++ lit " -- v" ++ pu u ++ lit ";") with ("h"%char :: a ++ space :: (lit "-- v" ++ pu u ++ lit ";")) in E.
      change (lit "h" ++ b ++ lit " -- v" ++ pu v ++ lit ";") with ("h"%char :: b ++ space :: (lit "-- v" ++ pu v ++ lit ";")) in E.
      injection E as E. apply space_split in E as [_ E]; auto. apply (app_inv_head (lit "-- v")) in E. apply app_inv_tail in E.
      f_equal. now apply (proj2 one).
    - change (lit "h" ++ a ++ lit " -- v" ++ pu u ++ lit ";") with ("h"%char :: a ++ space :: (lit "-- v" ++ pu u ++ lit ";")) in E.
      change (lit "h" ++ b ++ lit " [label="""",shape=point]") with ("h"%char :: b ++ space :: lit "[label="""",shape=point]") in E.
      injection E as E. apply space_split in E as [_ E]; auto. discriminate.
    - change (lit "h" ++ a ++ lit " [label="""",shape=point]") with ("h"%char :: a ++ space :: lit "[label="""",shape=point]") in E.
      change (lit "h" ++ b ++ lit " -- v" ++ pu v ++ lit ";") with ("h"%char :: b ++ space :: (lit "-- v" ++ pu v ++ lit ";")) in E.
      injection E as E. apply space_split in E as [_ E]; auto. discriminate.
    - reflexivity.
  Qed.

  Fixpoint toks (pa : nat -> text) (k : nat) (edges : list (list U)) : list (text * option U) :=
    match edges with
    | [] => []
    | e :: edges => (pa k, None) :: map (fun u => (pa k, Some u)) e ++ toks pa (S k) edges
    end.

  Lemma drawing_toks pa : forall edges k, edge_drawing pu pa k edges = map tok_line (toks pa k edges).
  Proof.
    induction edges as [|e edges IH]; intros k; [reflexivity|]. cbn [edge_drawing toks map]. rewrite map_app, map_map, IH. reflexivity.
  Qed.

  Lemma toks_word pa : (forall k, word (pa k)) -> forall edges k x, In x (toks pa k edges) -> word (fst x).
  Proof.
    intros W. induction edges as [|e edges IH]; intros k x I; [destruct I|]. cbn [toks] in I.
    destruct I as [<-|I]; [apply W|]. apply in_app_or in I as [I|I]; [|eauto].
    apply in_map_iff in I as (u & <- & _). apply W.
  Qed.

  Lemma toks_snd pa : forall edges k, map snd (toks pa k edges) = concat (map (fun e => None :: map Some e) edges).
  Proof.
    induction edges as [|e edges IH]; intros k; [reflexivity|]. cbn [toks map concat app]. rewrite map_app, map_map, IH. reflexivity.
  Qed.

  Lemma groups_inj : forall (l l' : list (list U)),
    concat (map (fun e => None :: map Some e) l) = concat (map (fun e => None :: map Some e) l') -> l = l'.
  Proof.
    induction l as [|e l IH]; intros [|e' l'] E; try discriminate; auto.
    cbn [map concat app] in E. injection E as E.
    assert (H : e = e' /\ concat (map (fun e => None :: map Some e) l) = concat (map (fun e => None :: map Some e) l')).
    { revert e' E. induction e as [|u e IHe]; intros [|u' e'] E; cbn [map app] in E.
      - auto.
      - destruct l; cbn in E; discriminate.
      - destruct l'; cbn in E; discriminate.
      - injection E as -> E. apply IHe in E as [-> E]. auto. }
    destruct H as [-> H]. f_equal. auto.
  Qed.

  Lemma lines_inj : forall ids ids' x x', (forall t, In t x -> word (fst t)) -> (forall t, In t x' -> word (fst t)) ->
    map (vertex_line U pu) ids ++ map tok_line x ++ [lit "}"] = map (vertex_line U pu) ids' ++ map tok_line x' ++ [lit "}"] ->
    ids = ids' /\ map snd x = map snd x'.
  Proof.
    assert (NV : forall u (x : list (text * option U)) l, vertex_line U pu u :: l <> map tok_line x ++ [lit "}"]).
    { intros u x l E. destruct x as [|t x]; cbn [map app] in E; [discriminate|].
      apply cons_inv in E as [E _]. destruct (tok_shape t) as (b & S). rewrite S in E. discriminate. }
    induction ids as [|u ids IH]; intros [|u' ids'] x x' W W' E; cbn [map app] in E.
    - split; [reflexivity|]. revert x' W' E. induction x as [|t x IH]; intros [|t' x'] W' E; cbn [map app] in E.
      + reflexivity.
      + apply cons_inv in E as [E _]. destruct (tok_shape t') as (b & S). rewrite S in E. discriminate.
      + apply cons_inv in E as [E _]. destruct (tok_shape t) as (b & S). rewrite S in E. discriminate.
      + apply cons_inv in E as [E1 E2]. cbn [map]. f_equal.
        * apply tok_inj; auto; [apply W; now left|apply W'; now left].
        * apply IH; auto; intros y I; [apply W|apply W']; now right.
    - symmetry in E. destruct (NV _ _ _ E).
    - destruct (NV _ _ _ E).
    - apply cons_inv in E as [E1 E2]. apply vertex_line_inj in E1 as ->. apply IH in E2 as [-> E2]; auto.
  Qed.

  Lemma drawing_one_line pa ids edges : (forall k, word (pa k)) ->
    forall t, In t ([lit "graph hypergraph { layout=fdp; splines=true;"] ++ map (vertex_line U pu) ids ++ edge_drawing pu pa 0 edges ++ [lit "}"]) ->
    ~ In newline t.
  Proof.
    intros W t I. apply in_app_or in I as [[<-|[]]|I]; [vm_compute; intuition discriminate|].
    apply in_app_or in I as [I|I]; [|apply in_app_or in I as [I|[<-|[]]]; [|vm_compute; intuition discriminate]].
    - apply in_map_iff in I as (u & <- & _). unfold vertex_line. rewrite !in_app_iff. pose proof (proj1 one u).
      intros [X|[X|[X|[X|X]]]]; try tauto; vm_compute in X; intuition discriminate.
    - rewrite drawing_toks in I. apply in_map_iff in I as (x & <- & I). apply (toks_word pa W) in I.
      apply word_not with (c := newline) in I; [|reflexivity].
      destruct x as [a [u|]]; cbn [fst] in I; unfold tok_line, edge_line, link_line; cbn [fst snd]; rewrite !in_app_iff.
      + pose proof (proj1 one u). intros [X|[X|[X|[X|X]]]]; try tauto; vm_compute in X; intuition discriminate.
      + intros [X|[X|X]]; try tauto; vm_compute in X; intuition discriminate.
  Qed.
End Proofs.

Lemma drawn_stored {U} (es : list (list U * weight)) : drawn_edges es = map fst (stored U es).
Proof.
  unfold drawn_edges, stored. induction es as [|[e w] es IH]; [reflexivity|]. cbn [map filter fst]. destruct e; cbn [map fst]; now rewrite IH.
Qed.

(** ** C82 *)

(** The export has one line for each identifier given to the constructor, then for each hyperedge its point and one line for each of
    its identifiers. *)
Theorem C82_drawing : forall U ueqb (EQ : is_eqb ueqb) pu pa location ids es g,
  hypergraph_at ueqb location ids es = Ok g ->
  hypergraph_dot U pu pa g =
  unlines ([lit "graph hypergraph { layout=fdp; splines=true;"]
           ++ map (fun u => lit "v" ++ pu u ++ lit "[label=""" ++ pu u ++ lit """];") ids
           ++ edge_drawing pu pa 0 (drawn_edges es) ++ [lit "}"]).
Proof.
  intros U ueqb EQ pu pa location ids es g H. destruct (hypergraph_ok U ueqb EQ location ids es g H) as [[B1 _ _ _] _].
  pose proof (hypergraph_match U ueqb EQ location ids es g H) as M. unfold hypergraph_dot. f_equal. f_equal.
  f_equal; [rewrite <- B1, map_map; reflexivity|]. f_equal. rewrite drawn_stored. unfold edges_match in M.
  generalize 0. induction M as [|e h l hs F M IH]; intros k; [reflexivity|]. cbn [edges_lines map edge_drawing].
  unfold edge_lines. cbn [app]. f_equal. rewrite IH. f_equal.
  clear -F B1. induction F as [|u i us is E F IH]; [reflexivity|]. cbn [map concat]. rewrite IH.
  rewrite <- B1, nth_error_map in E. destruct (nth_error (vertices U g) i); [|discriminate]. cbn in E. injection E as ->. reflexivity.
Qed.
Print Assumptions C82_drawing.

(** Two hypergraphs with the same export, in two executions, have the same identifiers and the same hyperedges, if the texts of
    identifiers differ and are on one line. *)
Theorem C82_text_partial : forall U ueqb (EQ : is_eqb ueqb) pu pa pa' location location' ids ids' es es' g g',
  on_one_line pu -> addresses pa -> addresses pa' ->
  hypergraph_at ueqb location ids es = Ok g -> hypergraph_at ueqb location' ids' es' = Ok g' ->
  hypergraph_dot U pu pa g = hypergraph_dot U pu pa' g' ->
  ids = ids' /\ drawn_edges es = drawn_edges es'.
Proof.
  intros U ueqb EQ pu pa pa' l l' ids ids' es es' g g' O [P _] [P' _] H H' E.
  rewrite (C82_drawing U ueqb EQ pu pa l ids es g H), (C82_drawing U ueqb EQ pu pa' l' ids' es' g' H') in E.
  apply unlines_inj in E; [|now apply drawing_one_line|now apply drawing_one_line].
  apply app_inv_head in E. rewrite !drawing_toks in E.
  apply (lines_inj U pu O) in E as [-> E].
  - rewrite !toks_snd in E. split; [reflexivity|]. now apply groups_inj in E.
  - apply toks_word, P.
  - apply toks_word, P'.
Qed.
Print Assumptions C82_text_partial.

(** All nodes have different names. *)
Theorem C82_names_differ : forall U (ueqb : U -> U -> bool) (EQ : is_eqb ueqb) pu pa location ids es g,
  on_one_line pu -> addresses pa -> hypergraph_at ueqb location ids es = Ok g ->
  NoDup (node_names pu pa ids (length (drawn_edges es))).
Proof.
  intros U ueqb EQ pu pa location ids es g [_ O] [_ P] H.
  destruct (hypergraph_ok U ueqb EQ location ids es g H) as [_ ND].
  assert (G : forall A (f : A -> text) l, (forall a b, f a = f b -> a = b) -> NoDup l -> NoDup (map f l)).
  { intros A f l I N. induction N as [|x l NI N IH]; cbn; constructor; auto.
    intros J. apply in_map_iff in J as (y & E & J). apply I in E as ->. auto. }
  unfold node_names. 
  assert (forall a b : list text, NoDup a -> NoDup b -> (forall x, In x a -> ~ In x b) -> NoDup (a ++ b)) as NA.
  { induction a as [|x a IH]; intros b NA NB D; [exact NB|]. inversion NA; subst. cbn. constructor.
    - rewrite in_app_iff. intros [I|I]; [auto|]. eapply D; [left; reflexivity|exact I].
    - apply IH; auto. intros y I. apply D. now right. }
  apply NA.
  - apply G; [|exact ND]. intros a b E. apply app_inv_head in E. auto.
  - apply G; [|apply seq_NoDup]. intros a b E. apply app_inv_head in E. auto.
  - intros x I J. apply in_map_iff in I as (u & <- & _). apply in_map_iff in J as (k & E & _). discriminate.
Qed.
Print Assumptions C82_names_differ.

(** Names are not quoted: they are accepted by DOT exactly when the texts of identifiers are made of letters, digits and
    underscores. *)
Theorem C82_names : forall U pu pa (ids : list U) edges, addresses pa ->
  (forall n, In n (node_names pu pa ids edges) -> dot_name n) <-> (forall u, In u ids -> word (pu u)).
Proof.
  intros U pu pa ids edges [P _]. unfold node_names. split.
  - intros H u I. destruct (H (lit "v" ++ pu u)) as [W _].
    + apply in_or_app. left. now apply (in_map (fun u => lit "v" ++ pu u)).
    + intros c C. apply W. now right.
  - intros H n I. apply in_app_or in I as [I|I].
    + apply in_map_iff in I as (u & <- & I). split; [|reflexivity]. intros c [<-|C]; [reflexivity|]. now apply (H u I).
    + apply in_map_iff in I as (k & <- & I). split; [|reflexivity]. intros c [<-|C]; [reflexivity|]. now apply (P k).
Qed.
Print Assumptions C82_names.

(** Weights are not in the export. *)
Theorem C82_weights_refuted : exists g g' : hypergraph nat,
  hypergraph_at Nat.eqb 0 [1; 2] [([1; 2], weighs 1)] = Ok g /\ hypergraph_at Nat.eqb 0 [1; 2] [([1; 2], weighs 2)] = Ok g' /\
  (forall pu pa, hypergraph_dot nat pu pa g = hypergraph_dot nat pu pa g') /\ g <> g'.
Proof. eexists _, _. split; [vm_compute; reflexivity|]. split; [vm_compute; reflexivity|]. split; [reflexivity|discriminate]. Qed.
Print Assumptions C82_weights_refuted.

(** Identifiers are not escaped: the export of one identifier, which has two lines, is the export of three others. *)
Definition text_eqb (a b : text) : bool := if list_eq_dec ascii_dec a b then true else false.
Lemma text_is_eqb : is_eqb text_eqb.
Proof. intros a b. unfold text_eqb. destruct (list_eq_dec ascii_dec a b); split; auto; discriminate. Qed.

Definition label : text := lit "[label=""".
Definition two_lines : text := label ++ lit """];" ++ [newline] ++ lit "v" ++ label ++ label ++ label.

Theorem C82_lines_refuted : exists g g' : hypergraph text,
  hypergraph_at text_eqb 0 [two_lines] [] = Ok g /\ hypergraph_at text_eqb 0 [[]; label ++ label; label] [] = Ok g' /\
  (forall pa, hypergraph_dot text (fun u => u) pa g = hypergraph_dot text (fun u => u) pa g').
Proof. eexists _, _. split; [vm_compute; reflexivity|]. split; [vm_compute; reflexivity|]. reflexivity. Qed.
Print Assumptions C82_lines_refuted.

(** Names with other characters are refused by DOT. *)
Theorem C82_names_refuted : ~ (forall n, In n (node_names (fun u : text => u) (fun k => lit "0x" ++ decN (N.of_nat k)) [lit "p-1"] 0) -> dot_name n).
Proof. intros H. destruct (H (lit "vp-1")) as [W _]; [now left|]. discriminate (W "-"%char). cbn. auto. Qed.
Print Assumptions C82_names_refuted.

Example C82_addresses : addresses (fun k => lit "0x" ++ decN (N.of_nat k)).
Proof.
  split.
  - intros k c I. apply in_app_or in I as [I|I]; [destruct I as [<-|[<-|[]]]; reflexivity|].
    apply decN_chars in I. unfold digit in I. unfold word_char.
    destruct ((48 <=? N_of_ascii c)%N && (N_of_ascii c <=? 57)%N); [reflexivity|congruence].
  - intros j k E. apply app_inv_head in E. apply (f_equal (fun t => t ++ [])) in E.
    apply decN_prefix in E as [E _]; [|exact Logic.I|exact Logic.I]. now apply Nat2N.inj.
Qed.
Example C82_one_line : on_one_line (fun u : nat => decN (N.of_nat u)).
Proof.
  split.
  - intros u I. apply decN_chars in I. apply I. reflexivity.
  - intros u v E. apply (f_equal (fun t => t ++ [])) in E.
    apply decN_prefix in E as [E _]; [|exact Logic.I|exact Logic.I]. now apply Nat2N.inj.
Qed.

Definition print_nat (u : nat) : text := decN (N.of_nat u).
Definition ex_lines : list string :=
  ["graph hypergraph { layout=fdp; splines=true;"; "v1[label=""1""];"; "v2[label=""2""];"; "v3[label=""3""];";
   "h0x0 [label="""",shape=point]"; "h0x0 -- v1;"; "h0x0 -- v3;"; "h0x1 [label="""",shape=point]"; "h0x1 -- v2;"; "}"]%string.
Example C82_ex : exists g, hypergraph_at Nat.eqb 0 [1; 2; 3] [([1; 3], weighs 1); ([], weighs 1); ([2], weighs 4)] = Ok g /\
  hypergraph_dot nat print_nat (fun k => lit "0x" ++ decN (N.of_nat k)) g = unlines (map lit ex_lines).
Proof. eexists. split; vm_compute; reflexivity. Qed.
