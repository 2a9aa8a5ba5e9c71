(** * Histories of operations on handles, against values

    The specification: a variable holds a value (a finite tree) or nothing. *)

From Coq Require Import List Bool NArith Arith Lia Permutation.
From Verif Require Import Base Pow2 HashTable Heap HeapProofs.
Import ListNotations.

(** ** Specification *)

Inductive tree {L : Type} : Type := Node (l : L) (subs : list tree).
Arguments tree : clear implicits.

Section Spec.
  Context {L : Type}.
  Definition subs (t : tree L) : list (tree L) := match t with Node _ ts => ts end.
  Inductive subtree : tree L -> tree L -> Prop :=
  | sub_refl : forall t, subtree t t
  | sub_step : forall t u w, In u (subs w) -> subtree t u -> subtree t w.

  (** Values of variables. *)
  Definition vals : Type := list (var * option (tree L)).
  Definition value (r : vals) (v : var) : option (tree L) :=
    match get r v with
    | Some (Some t) => Some t
    | _ => None
    end.
  Definition source_var (s : source) : var := match s with SVar v => v | SNested v _ => v end.
  Definition source_value (r : vals) (s : source) : option (tree L) :=
    match s with
    | SVar v => value r v
    | SNested v i => match value r v with Some t => nth_error (subs t) i | None => None end
    end.
  Definition declared (r : vals) (v : var) : Prop := get r v <> None.
  Definition values_of (r : vals) (ks : list var) : list (tree L) :=
    flat_map (fun k => match value r k with Some t => [t] | None => [] end) ks.

  (** Effect of operations on values. *)
  Definition v_step (o : hop L) (r : vals) : vals :=
    match o with
    | HCreate v l ks _ => (v, Some (Node l (values_of r ks))) :: r
    | HCopy v s => (v, source_value r s) :: r
    | HMove v w => (v, value r w) :: put r w None
    | HAssign v s => put r v (source_value r s)
    | HMoveAssign v w => put (put r v (value r w)) w None
    | HDestroy v => drop r v
    | HSwap v w => put (put r v (value r w)) w (value r v)
    end.
  Definition v_run (l : list (hop L)) (r : vals) : vals := fold_left (fun r o => v_step o r) l r.
  (** Correct uses.  An assignment x = e where e is x, or is inside the value of x, is allowed only when another variable
      holds the value of x (see C24). *)
  Definition proper (o : hop L) (r : vals) : Prop :=
    match o with
    | HCreate _ _ ks _ => forall k, In k ks -> value r k <> None
    | HCopy _ s => source_value r s <> None
    | HMove _ w => declared r w
    | HAssign v s => declared r v /\ source_value r s <> None /\
                     (source_var s <> v \/ exists w, w <> v /\ value r w = value r v)
    | HMoveAssign v w => declared r v /\ declared r w /\ v <> w
    | HDestroy v => declared r v
    | HSwap v w => declared r v /\ declared r w
    end.
  (** new char[] returns a block that is not allocated. *)
  Definition allocator_ok (o : hop L) (h : heap L) : Prop :=
    match o with
    | HCreate _ _ _ a => blocks h a = None
    | _ => True
    end.
  (** A bound on the references added by an operation. *)
  Definition cost (o : hop L) : nat :=
    match o with
    | HCreate _ _ ks _ => length ks + 1
    | HCopy _ _ | HAssign _ _ => 1
    | _ => 0
    end.
  Definition total (l : list (hop L)) : nat := list_sum (map cost l).
  Section History.
    Variable leqb : L -> L -> bool.
    Variable hash bytes : L * list ptr -> N.
    Fixpoint history (l : list (hop L)) (h : heap L) (r : vals) : Prop :=
      match l with
      | [] => True
      | o :: l' => proper o r /\ allocator_ok o h /\
                   forall h', h_step leqb hash bytes o h = Ok h' -> history l' h' (v_step o r)
      end.
  End History.

  (** The data designated by a pointer. *)
  Fixpoint denotes (m : @mem (uniq L)) (t : tree L) (p : ptr) : Prop :=
    match t with
    | Node l ts =>
        exists ks, udat m p = Some (l, ks) /\
        (fix all (ts : list (tree L)) (ks : list ptr) : Prop :=
           match ts, ks with
           | [], [] => True
           | t :: ts', k :: ks' => denotes m t k /\ all ts' ks'
           | _, _ => False
           end) ts ks
    end.
End Spec.

(** ** Simulation *)

Section Sim.
  Context {L : Type}.
  Variable leqb : L -> L -> bool.
  Variable hash bytes : L * list ptr -> N.
  Hypothesis leqb_spec : forall a b, leqb a b = true <-> a = b.
  Notation heap := (heap L).
  Notation inv := (inv hash).
  Notation release_all_ok := (release_all_ok leqb hash bytes leqb_spec).

  Lemma tree_ind2 : forall P : tree L -> Prop, (forall l ts, Forall P ts -> P (Node l ts)) -> forall t, P t.
  Proof.
    intros P H. fix IH 1. intros [l ts]. apply H. induction ts as [|t ts IHts]; constructor; auto.
  Qed.
  Lemma denotes_node : forall m l ts p, denotes m (Node l ts) p <->
    exists ks, udat m p = Some (l, ks) /\ Forall2 (denotes (L := L) m) ts ks.
  Proof.
    clear leqb_spec leqb hash bytes.
    intros m l ts p. cbn [denotes]. split; intros (ks & H1 & H2); exists ks; split; auto; clear H1.
    - revert ks H2. induction ts as [|t ts IH]; intros [|k ks] H; try contradiction; constructor; [tauto|]. apply IH. tauto.
    - induction H2; auto.
  Qed.
  Lemma denotes_same : forall m m' t p, (forall q, udat m' q = udat m q) -> denotes m t p -> denotes (L := L) m' t p.
  Proof.
    clear leqb_spec leqb hash bytes.
    intros m m' t p H. revert p. induction t as [l ts IH] using tree_ind2. intros p. rewrite !denotes_node.
    intros (ks & U & F). exists ks. rewrite H. split; auto. clear U. revert ks F.
    induction IH as [|t ts Ht _ IHl]; intros ks F; inversion F; subst; constructor; auto.
  Qed.
  (** Content is kept on a set closed under nested pointers. *)
  Lemma denotes_keep : forall m m' els t p, (forall q, In q els -> udat m' q = udat m q) ->
    (forall p q, In p els -> In q (kids m' p) -> In q els) -> In p els -> denotes m t p -> denotes (L := L) m' t p.
  Proof.
    clear leqb_spec leqb hash bytes.
    intros m m' els t p H C. revert p. induction t as [l ts IH] using tree_ind2. intros p Hp. rewrite !denotes_node.
    intros (ks & U & F). exists ks. rewrite H by auto. split; auto.
    assert (K : forall q, In q ks -> In q els).
    { intros q Hq. apply (C p); auto. unfold kids. rewrite H by auto. rewrite U. auto. }
    clear U. revert ks F K. induction IH as [|t ts Ht _ IHl]; intros ks F K; inversion F; subst; constructor.
    - apply Ht; auto. apply K. now left.
    - apply IHl; auto. intros q Hq. apply K. now right.
  Qed.
  (** A pointer designates one value, and a value has one pointer. *)
  Lemma denotes_fun : forall m t u p, denotes (L := L) m t p -> denotes m u p -> t = u.
  Proof.
    clear leqb_spec leqb hash bytes.
    intros m t. induction t as [l ts IH] using tree_ind2. intros [l' us] p. rewrite !denotes_node.
    intros (ks & U & F) (ks' & U' & F'). rewrite U in U'. injection U' as <- <-. f_equal. clear U. revert us ks F F'.
    induction IH as [|t ts Ht _ IHl]; intros us ks F F'; inversion F; subst; inversion F'; subst; auto. f_equal; eauto.
  Qed.
  Lemma denotes_inj : forall h roots els dying ex t p q, inv h roots els dying ex -> In p els -> In q els ->
    denotes (hm h) t p -> denotes (hm h) t q -> p = q.
  Proof.
    clear leqb_spec leqb bytes.
    intros h roots els dying ex t p q I. revert p q. induction t as [l ts IH] using tree_ind2. intros p q Hp Hq.
    rewrite !denotes_node. intros (ks & U & F) (ks' & U' & F').
    assert (E : ks = ks').
    { assert (Kp : forall x, In x ks -> In x els).
      { intros x Hx. apply (inv_kid hash _ _ _ _ _ p x I Hp). unfold kids. now rewrite U. }
      assert (Kq : forall x, In x ks' -> In x els).
      { intros x Hx. apply (inv_kid hash _ _ _ _ _ q x I Hq). unfold kids. now rewrite U'. }
      clear U U'. revert ks ks' F F' Kp Kq.
      induction IH as [|t ts Ht _ IHl]; intros ks ks' F F' Kp Kq; inversion F; subst; inversion F'; subst; auto. f_equal.
      - apply Ht; auto; [apply Kp|apply Kq]; now left.
      - apply IHl; auto; intros x Hx; [apply Kp|apply Kq]; now right. }
    subst ks'. unfold udat in U, U'.
    destruct (dat (hm h) p) as [d|] eqn:Ed; [|discriminate]. destruct (dat (hm h) q) as [e|] eqn:Ee; [|discriminate].
    cbn [option_map] in U, U'. apply (table_keys _ hash _ _ _ p q d e (i_table hash _ _ _ _ _ I) Hp Hq Ed Ee). congruence.
  Qed.

  (** *** Variables *)

  Definition opt {A} (x : option A) : list A := match x with Some a => [a] | None => [] end.
  Definition handles (e : list (var * option ptr)) : list ptr := flat_map (fun x => opt (snd x)) e.

  Lemma get_put_same : forall A (e : list (var * option A)) v x, get e v <> None -> get (put e v x) v = Some x.
  Proof.
    intros A e v x. induction e as [|[w y] e IH]; intros H; cbn [get put] in *; [congruence|].
    destruct (Nat.eqb v w) eqn:E; cbn [get]; rewrite E; auto.
  Qed.
  Lemma get_put_other : forall A (e : list (var * option A)) v w x, v <> w -> get (put e v x) w = get e w.
  Proof.
    intros A e v w x Hn. induction e as [|[u y] e IH]; cbn [get put]; auto.
    destruct (Nat.eqb v u) eqn:E; cbn [get]; auto.
    - apply Nat.eqb_eq in E. subst u. assert (Nat.eqb w v = false) by (apply Nat.eqb_neq; congruence). now rewrite H.
    - destruct (Nat.eqb w u); auto.
  Qed.
  Lemma put_put : forall A (e : list (var * option A)) v x y, put (put e v x) v y = put e v y.
  Proof.
    intros A e v x y. induction e as [|[w z] e IH]; cbn [put]; auto.
    destruct (Nat.eqb v w) eqn:E; cbn [put]; rewrite E; auto. now rewrite IH.
  Qed.
  Lemma put_same : forall A (e : list (var * option A)) v x, get e v = Some x -> put e v x = e.
  Proof.
    intros A e v x. induction e as [|[w z] e IH]; cbn [put get]; auto.
    destruct (Nat.eqb v w) eqn:E; [congruence|]. intros H. now rewrite IH.
  Qed.
  Lemma put_comm : forall A (e : list (var * option A)) v w x y, v <> w -> put (put e v x) w y = put (put e w y) v x.
  Proof.
    intros A e v w x y Hn. induction e as [|[u z] e IH]; cbn [put]; auto.
    destruct (Nat.eqb v u) eqn:E1, (Nat.eqb w u) eqn:E2; cbn [put]; rewrite ?E1, ?E2; auto.
    - apply Nat.eqb_eq in E1, E2. congruence.
    - now rewrite IH.
  Qed.
  Lemma handles_take : forall e v x, get e v = Some x -> Permutation (handles e) (opt x ++ handles (put e v None)).
  Proof.
    intros e v x. unfold handles. induction e as [|[w y] e IH]; cbn [get put flat_map snd]; [discriminate|].
    destruct (Nat.eqb v w) eqn:E; intros H; cbn [flat_map snd].
    - injection H as ->. reflexivity.
    - rewrite (IH H). rewrite !app_assoc. apply Permutation_app_tail. apply Permutation_app_comm.
  Qed.
  Lemma handles_put : forall e v x, get e v <> None -> Permutation (handles (put e v x)) (opt x ++ handles (put e v None)).
  Proof.
    intros e v x H. rewrite (handles_take (put e v x) v x) by now apply get_put_same. now rewrite put_put.
  Qed.
  Lemma handles_drop : forall e v, get e v <> None -> handles (drop e v) = handles (put e v None).
  Proof.
    intros e v. unfold handles. induction e as [|[w y] e IH]; cbn [get put drop flat_map snd]; auto.
    destruct (Nat.eqb v w) eqn:E; intros H; cbn [flat_map snd opt app]; auto. now rewrite IH.
  Qed.
  Lemma handles_in : forall e v p, get e v = Some (Some p) -> In p (handles e).
  Proof.
    intros e v p H. apply (Permutation_in _ (Permutation_sym (handles_take _ _ _ H))). now left.
  Qed.

  (** *** The simulation relation *)

  Definition agree (m : @mem (uniq L)) (x : var * option ptr) (y : var * option (tree L)) : Prop :=
    fst x = fst y /\
    match snd x, snd y with
    | Some p, Some t => denotes m t p
    | None, None => True
    | _, _ => False
    end.
  Definition agree1 (m : @mem (uniq L)) (x : option ptr) (y : option (tree L)) : Prop :=
    match x, y with
    | Some p, Some t => denotes m t p
    | None, None => True
    | _, _ => False
    end.
  Definition sim (h : heap) (r : vals) : Prop := Forall2 (agree (hm h)) (env h) r.

  Lemma sim_get : forall m e r v, Forall2 (agree m) e r ->
    match get e v, get r v with
    | Some x, Some y => agree1 m x y
    | None, None => True
    | _, _ => False
    end.
  Proof.
    intros m e r v F. induction F as [|[w x] [w' y] e r [H1 H2] F IH]; cbn [get]; auto. cbn [fst snd] in *. subst w'.
    destruct (Nat.eqb v w); auto.
  Qed.
  Lemma sim_put : forall m e r v x y, Forall2 (agree m) e r -> agree1 m x y -> Forall2 (agree m) (put e v x) (put r v y).
  Proof.
    intros m e r v x y F H. induction F as [|[w a] [w' b] e r [H1 H2] F IH]; cbn [put]; auto. cbn [fst snd] in *. subst w'.
    destruct (Nat.eqb v w); constructor; auto; split; auto.
  Qed.
  Lemma sim_drop : forall m e r v, Forall2 (agree m) e r -> Forall2 (agree m) (drop e v) (drop r v).
  Proof.
    intros m e r v F. induction F as [|[w a] [w' b] e r [H1 H2] F IH]; cbn [drop]; auto. cbn [fst snd] in *. subst w'.
    destruct (Nat.eqb v w); auto. constructor; auto; split; auto.
  Qed.
  Lemma sim_value : forall m e r v t, Forall2 (agree m) e r -> value r v = Some t ->
    exists p, get e v = Some (Some p) /\ denotes m t p.
  Proof.
    intros m e r v t F H. pose proof (sim_get m e r v F) as G. unfold value in H.
    destruct (get r v) as [[u|]|]; try discriminate. injection H as ->.
    destruct (get e v) as [[p|]|]; try contradiction. eauto.
  Qed.
  Lemma sim_declared : forall m e r v, Forall2 (agree m) e r -> declared r v -> exists x, get e v = Some x /\ agree1 m x (value r v).
  Proof.
    intros m e r v F H. pose proof (sim_get m e r v F) as G. unfold value, declared in *.
    destruct (get r v) as [[u|]|]; [| |congruence]; destruct (get e v) as [x|]; try contradiction; exists x; split; auto.
  Qed.
  Lemma sim_keep : forall m m' els e r, Forall2 (agree m) e r -> (forall q, In q els -> udat m' q = udat m q) ->
    (forall p q, In p els -> In q (kids m' p) -> In q els) -> (forall p, In p (handles e) -> In p els) -> Forall2 (agree m') e r.
  Proof.
    intros m m' els e r F H C K. induction F as [|[w x] [w' y] e r [H1 H2] F IH]; constructor.
    - split; auto. cbn [fst snd] in *. destruct x as [p|], y as [t|]; auto. eapply denotes_keep; eauto. apply K.
      unfold handles. cbn [flat_map snd opt]. now left.
    - apply IH. intros p Hp. apply K. unfold handles in *. cbn [flat_map]. apply in_app_iff. auto.
  Qed.
  (** The same, for all variables but one. *)
  Lemma sim_keep_but : forall m m' els e r v x y, Forall2 (agree m) e r -> (forall q, In q els -> udat m' q = udat m q) ->
    (forall p q, In p els -> In q (kids m' p) -> In q els) -> (forall p, In p (handles (put e v None)) -> In p els) ->
    agree1 m' x y -> Forall2 (agree m') (put e v x) (put r v y).
  Proof.
    intros m m' els e r v x y F H C K A.
    assert (F1 : Forall2 (agree m') (put e v None) (put r v None)).
    { apply (sim_keep m m' els); auto. apply sim_put; auto; exact I. }
    rewrite <- (put_put _ e v None x), <- (put_put _ r v None y). now apply sim_put.
  Qed.

  (** A state that corresponds to values, with at most [k] references.  [extra]: references that belong to no variable;
      [dying]: nodes that are not in the table; [ex]: nodes of the table that may have no reference (see Oom.v). *)
  Definition good_with (extra dying ex : list ptr) (h : heap) (r : vals) (k : nat) : Prop :=
    exists els, inv h (extra ++ handles (env h)) els dying ex /\ sim h r /\
    length ex + length (refs (hm h) (extra ++ handles (env h)) els) <= k /\
    (forall p, In p dying -> blocks h p <> None).
  Definition good (h : heap) (r : vals) (k : nat) : Prop :=
    exists els, inv h (handles (env h)) els [] [] /\ sim h r /\ length (refs (hm h) (handles (env h)) els) <= k.
  Lemma good_with_nil : forall h r k, good_with [] [] [] h r k <-> good h r k.
  Proof.
    intros h r k. split.
    - intros (els & A & B & C & _). exists els. auto.
    - intros (els & A & B & C). exists els. split; [auto|]. split; [auto|]. split; [auto|]. intros p [].
  Qed.

  Lemma inv_env : forall e h roots els dying ex, inv h roots els dying ex -> inv (with_env e h) roots els dying ex.
  Proof. intros e h roots els dying ex I. destruct I. constructor; auto. Qed.
  Lemma inv_closed : forall h roots els dying ex, inv h roots els dying ex ->
    forall p q, In p els -> In q (kids (hm h) p) -> In q els.
  Proof. intros h roots els dying ex I p q. now apply (inv_kid hash _ _ _ _ _ p q I). Qed.

  Lemma map_held : forall h r ks, sim h r -> (forall k, In k ks -> value r k <> None) ->
    exists ps, map_res (held h) ks = Ok ps /\ Forall2 (denotes (hm h)) (values_of r ks) ps /\
    (forall p, In p ps -> In p (handles (env h))) /\ length ps = length ks.
  Proof.
    intros h r ks S. induction ks as [|k ks IH]; intros H.
    - exists []. split; [reflexivity|]. split; [constructor|]. split; [intros p []|reflexivity].
    - destruct IH as (ps & E & F & K & Ln); [intros x Hx; apply H; now right|].
      destruct (value r k) as [t|] eqn:Ev; [|exfalso; apply (H k); [now left|auto]].
      destruct (sim_value _ _ _ _ _ S Ev) as (p & G & D). exists (p :: ps). unfold map_res in *. 
      unfold held at 1. rewrite G. cbn [rbind]. rewrite E. cbn [rbind]. split; [reflexivity|]. split; [|split].
      + unfold values_of. cbn [flat_map]. rewrite Ev. cbn [app]. constructor; auto.
      + intros q [<-|Hq]; auto. eapply handles_in; eauto.
      + simpl. lia.
  Qed.

  Lemma released_refs : forall (h h' : heap) els els' roots roots', released h h' els els' -> length roots' <= length roots ->
    length (refs (hm h') roots' els') <= length (refs (hm h) roots els).
  Proof.
    intros h h' els els' roots roots' Re Hl. rewrite (refs_ext (hm h)) by apply (re_dat _ _ _ _ Re).
    unfold refs. rewrite !app_length. destruct (re_els _ _ _ _ Re) as (dead & P).
    pose proof (Permutation_length (Permutation_flat_map (kids (hm h)) P)) as Q. rewrite flat_map_app, app_length in Q. lia.
  Qed.

  Lemma forward_root : forall (extra : list ptr) q l, Permutation (q :: extra ++ l) (extra ++ q :: l).
  Proof. intros. apply Permutation_middle. Qed.

  (** Release of what a variable holds. *)
  Lemma release_var_with : forall extra dying ex h r k v, good_with extra dying ex h r k -> declared r v ->
    exists h1 els1, release_var leqb hash v h = Ok h1 /\ inv h1 (extra ++ handles (put (env h) v None)) els1 dying ex /\ env h1 = env h /\
    (forall q, In q els1 -> udat (hm h1) q = udat (hm h) q) /\
    length ex + length (refs (hm h1) (extra ++ handles (put (env h) v None)) els1) <= k /\
    (forall p, In p dying -> blocks h1 p <> None).
  Proof.
    intros extra dying ex h r k v (els & I & S & Hl & Hd) Hv. destruct (sim_declared _ _ _ _ S Hv) as (x & G & _).
    pose proof (handles_take _ _ _ G) as P. apply (Permutation_app_head extra) in P.
    unfold release_var. rewrite G. destruct x as [p|]; cbn [opt app] in P.
    - rewrite <- forward_root in P. pose proof (inv_perm hash _ _ _ _ _ _ _ I P (Permutation_refl _)) as I1.
      destruct (release_all_ok h _ els dying ex p I1) as (h1 & els1 & E & I2 & Re). exists h1, els1.
      split; [exact E|]. split; [exact I2|]. split; [apply (re_env _ _ _ _ Re)|]. split; [apply (re_dat _ _ _ _ Re)|].
      split.
      + etransitivity; [|exact Hl]. apply Nat.add_le_mono_l. eapply released_refs; eauto. apply Permutation_length in P. simpl in P. lia.
      + intros q Hq. rewrite (re_block _ _ _ _ Re); auto. apply (i_dying hash _ _ _ _ _ I). exact Hq.
    - exists h, els. split; [reflexivity|]. split; [eapply inv_perm; eauto|]. split; [reflexivity|]. split; [auto|].
      rewrite (Permutation_length (refs_perm (hm h) _ _ _ _ (Permutation_sym P) (Permutation_refl els))). auto.
  Qed.
  Lemma release_var_ok : forall h r k v, good h r k -> declared r v ->
    exists h1 els1, release_var leqb hash v h = Ok h1 /\ inv h1 (handles (put (env h) v None)) els1 [] [] /\ env h1 = env h /\
    (forall q, In q els1 -> udat (hm h1) q = udat (hm h) q) /\
    length (refs (hm h1) (handles (put (env h) v None)) els1) <= k.
  Proof.
    intros h r k v G Hv. apply good_with_nil in G.
    destruct (release_var_with [] [] [] h r k v G Hv) as (h1 & els1 & A & B & C & D & E & _). exists h1, els1. auto.
  Qed.

  Lemma denotes_nth : forall m t p i u, denotes (L := L) m t p -> nth_error (subs t) i = Some u ->
    exists c q, m p = Some c /\ nth_error (snd (u_data (c_data c))) i = Some q /\ denotes m u q /\ In q (kids m p).
  Proof.
    clear leqb_spec leqb hash bytes.
    intros m [l ts] p i u D Hn. apply denotes_node in D. destruct D as (ks & U & F). cbn [subs] in Hn.
    assert (G : exists q, nth_error ks i = Some q /\ denotes m u q).
    { clear U. revert i Hn. induction F as [|t k ts ks H F IH]; intros [|i] Hn; try discriminate; cbn [nth_error] in *; eauto.
      injection Hn as ->. eauto. }
    destruct G as (q & Hq & Dq). unfold udat, dat in U. destruct (m p) as [c|] eqn:Em; [|discriminate]. cbn [option_map] in U.
    injection U as U. exists c, q. rewrite U. cbn [snd]. repeat split; auto. unfold kids, udat, dat. rewrite Em. cbn [option_map].
    rewrite U. cbn [snd]. eapply nth_error_In; eauto.
  Qed.

  (** Reading a source. *)
  Lemma read_ok : forall h r s t, sim h r -> source_value r s = Some t ->
    exists b p pw, bind_source h s = Ok b /\ read_source h b = Ok p /\ denotes (hm h) t p /\
    get (env h) (source_var s) = Some (Some pw) /\
    match s with
    | SVar v => b = inl v /\ pw = p
    | SNested v i => b = inr (pw, i) /\ (exists c, hm h pw = Some c /\ nth_error (snd (u_data (c_data c))) i = Some p) /\ In p (kids (hm h) pw)
    end.
  Proof.
    intros h r [v|v i] t S H; cbn [source_value] in H.
    - destruct (sim_value _ _ _ _ _ S H) as (p & G & D). exists (inl v), p, p. cbn [bind_source read_source source_var]. unfold held.
      rewrite G. repeat split; auto.
    - destruct (value r v) as [u|] eqn:Ev; [|discriminate]. destruct (sim_value _ _ _ _ _ S Ev) as (pw & G & D).
      destruct (denotes_nth _ _ _ _ _ D H) as (c & q & Em & En & Dq & Kq).
      exists (inr (pw, i)), q, pw. cbn [bind_source read_source source_var]. unfold held, deref. rewrite G, Em. cbn [rbind]. rewrite En.
      repeat split; eauto.
  Qed.

  Lemma refs_cons : forall m p roots els, length (refs (L := L) m (p :: roots) els) = S (length (refs m roots els)).
  Proof. reflexivity. Qed.

  (** *** One step *)

  Theorem step_with : forall extra dying ex o h r k, good_with extra dying ex h r k -> proper o r -> allocator_ok o h -> (N.of_nat (k + cost o) < 2 ^ 32 - 1)%N ->
    exists h', h_step leqb hash bytes o h = Ok h' /\ good_with extra dying ex h' (v_step o r) (k + cost o).
  Proof.
    intros extra dying ex o h r k Gd Pr Al Hb. pose proof Gd as Gd0. destruct Gd as (els & I & S & Hl & Hd).
    assert (Hroots : forall p, In p (handles (env h)) -> In p els).
    { intros p Hp. apply (inv_root hash _ _ _ _ _ p I). apply in_app_iff. auto. }
    destruct o as [v l ks a|v s|v w|v s|v w|v|v w]; cbn [h_step v_step proper allocator_ok cost] in *.
    - (* create *)
      destruct (map_held h r ks S Pr) as (ps & Em & Fd & Kp & Ln). rewrite Em. cbn [rbind].
      destruct (make_ok leqb hash bytes leqb_spec h (extra ++ handles (env h)) els dying ex (l, ps) a I Al)
        as (q & h1 & els1 & E & I1 & Uq & Ux & V & L1 & _ & _ & _ & Kb).
      { intros H. now apply (Hd a). }
      { cbn [snd]. auto. }
      { cbn [snd]. rewrite Ln. lia. }
      rewrite E. cbn [rbind fst snd]. eexists. split; [reflexivity|]. exists els1.
      cbn [with_env env hm blocks]. rewrite V. cbn [snd] in L1.
      change (handles ((v, Some q) :: env h)) with (q :: handles (env h)).
      pose proof (forward_root extra q (handles (env h))) as P. split; [|split; [|split]].
      + apply inv_env. eapply inv_perm; [exact I1|exact P|reflexivity].
      + unfold sim. cbn [with_env env hm].
        assert (K : forall t p, In p els -> denotes (hm h) t p -> denotes (hm h1) t p).
        { intros t p. apply (denotes_keep (hm h) (hm h1) els).
          - intros x Hx. apply Ux, Hx.
          - intros x y Hx Hy. unfold kids in Hy. rewrite (proj2 (Ux x Hx)) in Hy. apply (inv_closed _ _ _ _ _ I x y Hx Hy). }
        constructor.
        * split; auto. cbn [snd]. apply denotes_node. exists ps. split; auto.
          clear - Fd Kp K Hroots. induction Fd as [|t p ts ps H F IH]; constructor.
          -- apply K; auto. apply Hroots, Kp. now left.
          -- apply IH. intros x Hx. apply Kp. now right.
        * apply (sim_keep (hm h) (hm h1) els); auto.
          -- intros x Hx. apply Ux, Hx.
          -- intros x y Hx Hy. unfold kids in Hy. rewrite (proj2 (Ux x Hx)) in Hy. apply (inv_closed _ _ _ _ _ I x y Hx Hy).
      + rewrite (Permutation_length (refs_perm (hm h1) _ _ _ _ (Permutation_sym P) (Permutation_refl els1))). lia.
      + intros x Hx. apply Kb; auto.
    - (* copy *)
      destruct (source_value r s) as [t|] eqn:Es; [|congruence].
      destruct (read_ok h r s t S Es) as (b & p & pw & Eb & Er & D & Gw & Hs). rewrite Eb. cbn [rbind]. rewrite Er. cbn [rbind].
      assert (Hp : In p els).
      { destruct s as [x|x i]; cbn [source_var] in Gw.
        - destruct Hs as [_ ->]. apply Hroots. eapply handles_in; eauto.
        - destruct Hs as (_ & _ & Kp). apply (inv_closed _ _ _ _ _ I pw p); auto. apply Hroots. eapply handles_in; eauto. }
      destruct (incr_ok hash h _ els dying ex p I Hp) as (m1 & E1 & I1 & U1 & M1); [lia|].
      rewrite E1. cbn [rbind]. eexists. split; [reflexivity|]. exists els. cbn [with_env with_mem env hm].
      change (handles ((v, Some p) :: env h)) with (p :: handles (env h)).
      pose proof (forward_root extra p (handles (env h))) as P. split; [|split; [|split; [|exact Hd]]].
      + apply inv_env. eapply inv_perm; [exact I1|exact P|reflexivity].
      + unfold sim. cbn [with_env with_mem env hm]. constructor.
        * split; auto. cbn [snd]. now apply (denotes_same (hm h)).
        * apply (sim_keep (hm h) m1 els); auto. intros x y Hx Hy. unfold kids in Hy. rewrite U1 in Hy. apply (inv_closed _ _ _ _ _ I x y Hx Hy).
      + rewrite (Permutation_length (refs_perm m1 _ _ _ _ (Permutation_sym P) (Permutation_refl els))), refs_cons.
        rewrite (refs_ext (hm h)) by auto. lia.
    - (* move constructor *)
      destruct (sim_declared _ _ _ _ S Pr) as (x & G & Ax). rewrite G. eexists. split; [reflexivity|]. exists els.
      pose proof (handles_take _ _ _ G) as P.
      assert (P' : Permutation (extra ++ handles (env h)) (extra ++ handles ((v, x) :: put (env h) w None))).
      { apply Permutation_app_head. exact P. }
      cbn [with_env env hm]. split; [|split; [|split; [|exact Hd]]].
      + apply inv_env. eapply inv_perm; eauto.
      + unfold sim. cbn [with_env env hm]. constructor.
        * split; auto.
        * apply sim_put; auto; exact Logic.I.
      + rewrite (Permutation_length (refs_perm (hm h) _ _ _ _ (Permutation_sym P') (Permutation_refl els))). lia.
    - (* copy assignment *)
      destruct Pr as (Dv & Sv & Nv). destruct (source_value r s) as [t|] eqn:Es; [|congruence].
      destruct (read_ok h r s t S Es) as (b & p & pw & Eb & Er & D & Gw & Hs). rewrite Eb. cbn [rbind]. rewrite Er. cbn [rbind].
      destruct (release_var_with extra dying ex h r k v Gd0 Dv) as (h1 & els1 & E1 & I1 & V1 & U1 & L1 & D1). rewrite E1. cbn [rbind].
      assert (Hgv : get (env h) v <> None) by (destruct (sim_declared _ _ _ _ S Dv) as (x & -> & _); discriminate).
      (* the node of the source is still alive *)
      assert (Hw : In pw (handles (put (env h) v None))).
      { destruct (Nat.eq_dec (source_var s) v) as [Ew|Ew].
        - destruct Nv as [Nv|(w' & Nw & Vw)]; [contradiction|].
          assert (Vv : exists u, value r v = Some u).
          { destruct s as [x|x i]; cbn [source_value source_var] in *; subst x; destruct (value r v); eauto; discriminate. }
          destruct Vv as (u & Vv). rewrite Vv in Vw.
          destruct (sim_value _ _ _ _ _ S Vv) as (p1 & G1 & Dp1). destruct (sim_value _ _ _ _ _ S Vw) as (p2 & G2 & D2).
          rewrite Ew in Gw. assert (pw = p1) by congruence. subst p1.
          assert (pw = p2).
          { eapply denotes_inj; [exact I| | |exact Dp1|exact D2]; apply Hroots; eapply handles_in; eauto. }
          subst p2. apply (handles_in _ w'). rewrite get_put_other; auto.
        - apply (handles_in _ (source_var s)). rewrite get_put_other; auto. }
      assert (Hw1 : In pw els1) by (apply (inv_root hash _ _ _ _ _ pw I1); apply in_app_iff; auto).
      assert (Er1 : read_source h1 b = Ok p /\ In p els1).
      { destruct s as [x|x i]; cbn [source_var] in Gw.
        - destruct Hs as (-> & ->). cbn [read_source]. unfold held. rewrite V1, Gw. auto.
        - destruct Hs as (-> & (c & Hc & Hn) & Kp). cbn [read_source]. unfold deref.
          destruct (inv_live hash _ _ _ _ _ pw I1 Hw1) as (c1 & Hc1). rewrite Hc1. cbn [rbind].
          pose proof (U1 pw Hw1) as Eu. unfold udat, dat in Eu. rewrite Hc1, Hc in Eu. cbn [option_map] in Eu. injection Eu as Eu.
          rewrite Eu, Hn. split; auto. apply (inv_closed _ _ _ _ _ I1 pw p); auto. unfold kids in *. rewrite U1; auto. }
      destruct Er1 as [Er1 Hp1]. rewrite Er1. cbn [rbind].
      pose proof (inv_env (put (env h1) v (Some p)) _ _ _ _ _ I1) as I2.
      destruct (incr_ok hash _ _ els1 dying ex p I2 Hp1) as (m2 & E2 & I3 & U2 & M2).
      { cbn [with_env hm]. lia. }
      rewrite E2. eexists. split; [reflexivity|]. exists els1. cbn [with_env with_mem env hm] in *. rewrite V1.
      pose proof (handles_put (env h) v (Some p) Hgv) as P. cbn [opt app] in P. apply (Permutation_app_head extra) in P.
      rewrite <- forward_root in P. split; [|split; [|split; [|exact D1]]].
      + rewrite V1 in I3. eapply inv_perm; [exact I3|symmetry; exact P|reflexivity].
      + unfold sim. cbn [with_env with_mem env hm]. rewrite ?V1.
        assert (K : forall x, In x els1 -> udat m2 x = udat (hm h) x) by (intros x Hx; rewrite U2; auto).
        assert (C : forall x y, In x els1 -> In y (kids m2 x) -> In y els1).
        { intros x y Hx Hy. unfold kids in Hy. rewrite U2 in Hy. apply (inv_closed _ _ _ _ _ I1 x y Hx Hy). }
        apply (sim_keep_but (hm h) m2 els1); auto.
        * intros x Hx. apply (inv_root hash _ _ _ _ _ x I1). apply in_app_iff. auto.
        * cbn [agree1]. apply (denotes_keep (hm h) m2 els1); auto.
      + rewrite (Permutation_length (refs_perm m2 _ _ _ _ P (Permutation_refl els1))), refs_cons.
        rewrite (refs_ext (hm h1)) by auto. lia.
    - (* move assignment *)
      destruct Pr as (Dv & Dw & Nvw). destruct (release_var_with extra dying ex h r k v Gd0 Dv) as (h1 & els1 & E1 & I1 & V1 & U1 & L1 & D1).
      rewrite E1. cbn [rbind]. rewrite V1. destruct (sim_declared _ _ _ _ S Dw) as (x & G & Ax). rewrite G.
      assert (Hgv : get (env h) v <> None) by (destruct (sim_declared _ _ _ _ S Dv) as (y & -> & _); discriminate).
      eexists. split; [reflexivity|]. exists els1. cbn [with_env env hm].
      assert (P : Permutation (handles (put (put (env h) v x) w None)) (handles (put (env h) v None))).
      { rewrite put_comm by auto. rewrite (handles_put (put (env h) w None) v x) by (rewrite get_put_other; auto).
        rewrite <- (put_comm _ _ v w) by auto. symmetry. apply handles_take. rewrite get_put_other; auto. }
      apply (Permutation_app_head extra) in P. split; [|split; [|split; [|exact D1]]].
      + apply inv_env. eapply inv_perm; [exact I1|symmetry; exact P|reflexivity].
      + unfold sim. cbn [with_env env hm].
        assert (F : Forall2 (agree (hm h1)) (put (env h) v None) (put r v None)).
        { apply (sim_keep_but (hm h) (hm h1) els1); auto.
          - intros y z Hy Hz. apply (inv_closed _ _ _ _ _ I1 y z Hy Hz).
          - intros y Hy. apply (inv_root hash _ _ _ _ _ y I1). apply in_app_iff. auto. }

        assert (Ax1 : agree1 (hm h1) x (value r w)).
        { assert (Dw' : declared (put r v None) w) by (unfold declared in *; rewrite get_put_other; auto).
          destruct (sim_declared _ _ _ _ F Dw') as (x' & G' & A'). rewrite get_put_other in G' by auto.
          assert (x' = x) by congruence. subst x'. unfold value in *. rewrite get_put_other in A' by auto. exact A'. }
        apply sim_put; [|exact Logic.I]. rewrite <- (put_put _ (env h) v None x), <- (put_put _ r v None (value r w)). now apply sim_put.
      + rewrite (Permutation_length (refs_perm (hm h1) _ _ _ _ P (Permutation_refl els1))). lia.
    - (* destructor *)
      destruct (release_var_with extra dying ex h r k v Gd0 Pr) as (h1 & els1 & E1 & I1 & V1 & U1 & L1 & D1). rewrite E1. cbn [rbind].
      assert (Hgv : get (env h) v <> None) by (destruct (sim_declared _ _ _ _ S Pr) as (y & -> & _); discriminate).
      eexists. split; [reflexivity|]. exists els1. cbn [with_env env hm]. rewrite V1, handles_drop by auto. split; [|split; [|split; [|exact D1]]].
      + now apply inv_env.
      + unfold sim. cbn [with_env env hm].
        apply (sim_keep (hm h) (hm h1) els1); auto.
        * now apply sim_drop.
        * intros y z Hy Hz. apply (inv_closed _ _ _ _ _ I1 y z Hy Hz).
        * rewrite handles_drop by auto. intros y Hy. apply (inv_root hash _ _ _ _ _ y I1). apply in_app_iff. auto.
      + lia.
    - (* swap *)
      destruct Pr as (Dv & Dw). destruct (sim_declared _ _ _ _ S Dv) as (x & Gv & Av). destruct (sim_declared _ _ _ _ S Dw) as (y & Gw & Aw).
      rewrite Gv, Gw. eexists. split; [reflexivity|]. exists els. cbn [with_env env hm].
      assert (P : Permutation (handles (put (put (env h) v y) w x)) (handles (env h))).
      { destruct (Nat.eq_dec v w) as [->|Hn].
        - assert (x = y) by congruence. subst y. rewrite put_put, put_same; auto.
        - rewrite (handles_put (put (env h) v y) w x) by (rewrite get_put_other; congruence).
          rewrite (put_comm _ (env h) v w y None) by auto.
          rewrite (handles_put (put (env h) w None) v y) by (rewrite get_put_other; congruence).
          rewrite (handles_take (env h) w y Gw).
          rewrite (handles_take (put (env h) w None) v x) by (rewrite get_put_other; auto).
          rewrite !app_assoc. apply Permutation_app_tail. apply Permutation_app_comm. }
      apply (Permutation_app_head extra) in P. split; [|split; [|split; [|exact Hd]]].
      + apply inv_env. eapply inv_perm; [exact I|symmetry; exact P|reflexivity].
      + unfold sim. cbn [with_env env hm]. apply sim_put; auto. apply sim_put; auto.
      + rewrite (Permutation_length (refs_perm (hm h) _ _ _ _ P (Permutation_refl els))). lia.
  Qed.

  Theorem step_ok : forall o h r k, good h r k -> proper o r -> allocator_ok o h -> (N.of_nat (k + cost o) < 2 ^ 32 - 1)%N ->
    exists h', h_step leqb hash bytes o h = Ok h' /\ good h' (v_step o r) (k + cost o).
  Proof.
    intros o h r k G Pr Al Hb. apply good_with_nil in G.
    destruct (step_with [] [] [] o h r k G Pr Al Hb) as (h' & E & G'). exists h'. split; auto. now apply good_with_nil.
  Qed.

  Lemma good_mono : forall h r k k', good h r k -> k <= k' -> good h r k'.
  Proof. intros h r k k' (els & A & B & C) H. exists els. split; auto. split; auto. lia. Qed.

  Theorem run_ok : forall l h r k, good h r k -> history leqb hash bytes l h r -> (N.of_nat (k + total l) < 2 ^ 32 - 1)%N ->
    exists h', h_run leqb hash bytes l h = Ok h' /\ good h' (v_run l r) (k + total l).
  Proof.
    induction l as [|o l IH]; intros h r k G H B; unfold h_run, v_run, total in *; cbn [fold_left map list_sum fold_right] in *.
    - exists h. split; auto. now rewrite Nat.add_0_r.
    - destruct H as (P & A & H). destruct (step_ok o h r k G P A) as (h1 & E1 & G1); [unfold list_sum in B; cbn [map fold_right] in B; lia|].
      cbn [rbind]. rewrite E1. destruct (IH h1 (v_step o r) (k + cost o) G1 (H h1 E1)) as (h2 & E2 & G2).
      + unfold list_sum in *. cbn [map fold_right] in B. lia.
      + exists h2. split; auto. eapply good_mono; eauto. unfold list_sum. cbn [map fold_right]. lia.
  Qed.

  Lemma good_empty : forall size, (1 <= size <= 2 ^ 62)%N -> good (empty_heap size) [] 0.
  Proof.
    intros size [H1 H2]. exists []. split; [|split].
    - constructor; cbn [empty_heap hm ht blocks ucache ucsize env]; try (intros; contradiction); try discriminate; try congruence; auto.
      + apply make_table_ok; auto. lia.
      + unfold make_table. cbn [nb]. destruct (np64_spec size H1) as (e & E & _ & _ & M); [lia|]. rewrite E. specialize (M 62%N H2).
        lia.
      + exists (fun _ => 0). intros p q [].
    - constructor.
    - simpl. lia.
  Qed.

  (** *** Consequences *)

  Lemma sim_in : forall m e r v t, Forall2 (agree m) e r -> In (v, Some t) r -> exists p, In (v, Some p) e /\ denotes m t p.
  Proof.
    intros m e r v t F. induction F as [|[w x] [w' y] e r [H1 H2] F IH]; intros []; cbn [fst snd] in *.
    - subst w'. injection H as -> ->. destruct x as [p|]; [|contradiction]. exists p. split; [now left|auto].
    - destruct (IH H) as (p & A & B). exists p. split; [now right|auto].
  Qed.
  Lemma sim_in_r : forall m e r v p, Forall2 (agree m) e r -> In (v, Some p) e -> exists t, In (v, Some t) r /\ denotes m t p.
  Proof.
    intros m e r v p F. induction F as [|[w x] [w' y] e r [H1 H2] F IH]; intros []; cbn [fst snd] in *.
    - subst w'. injection H as -> ->. destruct y as [t|]; [|contradiction]. exists t. split; [now left|auto].
    - destruct (IH H) as (t & A & B). exists t. split; [now right|auto].
  Qed.
  Lemma handles_in_env : forall e p, In p (handles e) -> exists v, In (v, Some p) e.
  Proof.
    intros e p H. unfold handles in H. apply in_flat_map in H. destruct H as ([v [q|]] & A & B); cbn [snd opt] in B.
    - destruct B as [->|[]]. eauto.
    - destruct B.
  Qed.
  Lemma in_env_handles : forall e v p, In (v, Some p) e -> In p (handles e).
  Proof. intros e v p H. unfold handles. apply in_flat_map. exists (v, Some p). split; auto. now left. Qed.

  (** Every live node is part of the value of a variable. *)
  Lemma live_reachable : forall h r els, inv h (handles (env h)) els [] [] -> sim h r ->
    forall p, In p els -> exists v t u, In (v, Some t) r /\ subtree u t /\ denotes (hm h) u p.
  Proof.
    clear leqb_spec leqb bytes.
    intros h r els I S. destruct (i_rank hash _ _ _ _ _ I) as (rank & Hr).
    destruct (rank_bound rank els) as (b & Hbd).
    assert (G : forall n p, b - rank p <= n -> In p els -> exists v t u, In (v, Some t) r /\ subtree u t /\ denotes (hm h) u p).
    { induction n as [|n IH]; intros p Hn Hp.
      - specialize (Hbd p Hp). lia.
      - destruct (i_pos hash _ _ _ _ _ I p Hp) as [H|[]]. unfold refs in H. apply in_app_iff in H. destruct H as [H|H].
        + apply handles_in_env in H. destruct H as (v & H). destruct (sim_in_r _ _ _ _ _ S H) as (t & A & B).
          exists v, t, t. repeat split; auto. constructor.
        + apply in_flat_map in H. destruct H as (q & Hq & Hk). pose proof (Hr q p Hq Hk) as Hlt.
          pose proof (Hbd q Hq) as Hb2. destruct (IH q ltac:(lia) Hq) as (v & t & u & A & B & C).
          assert (G : exists w, In w (subs u) /\ denotes (hm h) w p).
          { destruct u as [l ts]. apply denotes_node in C. destruct C as (ks & U & F). unfold kids in Hk. rewrite U in Hk. cbn [snd subs] in *.
            clear - F Hk. induction F as [|t k ts ks D F IH]; destruct Hk.
            - subst k. exists t. split; [now left|auto].
            - destruct (IH H) as (w & X & Y). exists w. split; [now right|auto]. }
          destruct G as (w & W1 & W2). exists v, t, w. repeat split; auto.
          clear - B W1. induction B; [econstructor; eauto; constructor|]. econstructor; eauto. }
    intros p Hp. apply (G (b - rank p)); auto.
  Qed.
  (** Every part of the value of a variable is a live node. *)
  Lemma value_live : forall h r els, inv h (handles (env h)) els [] [] -> sim h r ->
    forall v t u, In (v, Some t) r -> subtree u t -> exists p, In p els /\ denotes (hm h) u p.
  Proof.
    clear leqb_spec leqb bytes.
    intros h r els I S v t u H Hs. destruct (sim_in _ _ _ _ _ S H) as (p & A & B).
    assert (Hp : In p els) by (apply (inv_root hash _ _ _ _ _ p I); eapply in_env_handles; eauto).
    clear H A. revert p B Hp. induction Hs as [t|t u w Hu Hs IH]; intros p B Hp; eauto.
    destruct w as [l ts]. apply denotes_node in B. destruct B as (ks & U & F). cbn [subs] in Hu.
    assert (G : exists q, In q ks /\ denotes (hm h) u q).
    { clear - F Hu. induction F as [|x k ts ks D F IH]; destruct Hu.
      - subst x. exists k. split; [now left|auto].
      - destruct (IH H) as (q & X & Y). exists q. split; [now right|auto]. }
    destruct G as (q & Hq & Dq). apply (IH q Dq). apply (inv_closed _ _ _ _ _ I p q Hp). unfold kids. now rewrite U.
  Qed.
End Sim.
