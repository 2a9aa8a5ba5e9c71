(** * Well-typed homomorphisms

    The library checks no correspondence between an order, a homomorphism and its operand. This file
    says which homomorphisms can be applied with a given order ([typed]), and proves that the
    evaluation of these ones never fails: it only ends with an SDD of the announced shape, or does
    not end. *)

From Coq Require Import List Bool NArith Arith Lia Permutation Sorted.
From Verif Require Import Base SortedSets Values Sdd SddFacts Orders OrdersProofs OrdersSdd DDModel.
From Verif Require Import DDGeneric DDProofs DDTheorems Hom HomFacts HomEval.
Import ListNotations.

(** ** Shapes of orders *)

Section Shapes.
  Variable U : Type.
  Notation order := (order U).

  (** The shape of the SDDs described by an order: a position without nested order is flat. *)
  Inductive oshape : order -> shape -> Prop :=
  | os_end o : o_empty o = true -> oshape o SEnd
  | os_flat o x o' on r : o_variable o = Some x -> o_next o = Some o' -> o_nested o = Some on ->
      o_empty on = true -> oshape o' r -> oshape o (SFlat x r)
  | os_hier o x o' on n r : o_variable o = Some x -> o_next o = Some o' -> o_nested o = Some on ->
      o_empty on = false -> oshape on n -> oshape o' r -> oshape o (SHier x n r).

  (** [olevel o l o']: the head of [o] is the level [l]; [o'] is what follows. *)
  Definition olevel (o : order) (l : level) (o' : order) : Prop :=
    o_variable o = Some (lvar l) /\ o_next o = Some o' /\
    exists on, o_nested o = Some on /\
      match l with
      | LFlat _ => o_empty on = true
      | LHier _ n => o_empty on = false /\ oshape on n
      end.

  Lemma variable_nonempty (o : order) x : o_variable o = Some x -> o_empty o = false.
  Proof. unfold o_variable, o_empty, head. destruct (o_head o); [auto|discriminate]. Qed.

  Lemma oshape_level o l o' s : olevel o l o' -> (oshape o (under l s) <-> oshape o' s).
  Proof.
    intros (A & B & on & C & D). split.
    - intros H. destruct l as [x|x n]; cbn in H; inversion H; subst; congruence.
    - intros H. destruct l as [x|x n]; cbn [under].
      + econstructor; eauto.
      + destruct D. econstructor; eauto.
  Qed.

  Lemma oshape_inv o s : oshape o s ->
    (o_empty o = true /\ s = SEnd) \/
    (o_empty o = false /\ exists l o' r, olevel o l o' /\ s = under l r /\ oshape o' r).
  Proof.
    intros H. inversion H as [? E|? x o' on r A B C D E|? x o' on n r A B C D E G]; subst.
    - left. auto.
    - right. split; [eapply variable_nonempty; eauto|]. exists (LFlat x), o', r. split; [|auto].
      split; [auto|split; [auto|exists on; auto]].
    - right. split; [eapply variable_nonempty; eauto|]. exists (LHier x n), o', r. split; [|auto].
      split; [auto|split; [auto|exists on; auto]].
  Qed.

  Lemma oshape_fun o s : oshape o s -> forall s', oshape o s' -> s = s'.
  Proof.
    induction 1 as [? E|? x o' on r A B C D E IH|? x o' on n r A B C D E IH1 G IH2]; intros s' H'.
    - inversion H' as [? E'|? x' o'' on' r' A' B' C' D' E'|? x' o'' on' n' r' A' B' C' D' E' G']; subst; auto.
      + apply variable_nonempty in A'. congruence.
      + apply variable_nonempty in A'. congruence.
    - inversion H' as [? E'|? x' o'' on' r' A' B' C' D' E'|? x' o'' on' n' r' A' B' C' D' E' G']; subst.
      + apply variable_nonempty in A. congruence.
      + rewrite A in A'. rewrite B in B'. injection A' as <-. injection B' as <-. f_equal. auto.
      + congruence.
    - inversion H' as [? E'|? x' o'' on' r' A' B' C' D' E'|? x' o'' on' n' r' A' B' C' D' E' G']; subst.
      + apply variable_nonempty in A. congruence.
      + congruence.
      + rewrite A in A'. rewrite B in B'. rewrite C in C'. injection A' as <-. injection B' as <-.
        injection C' as <-. f_equal; auto.
  Qed.

  Lemma olevel_fun o l o' : olevel o l o' -> forall l' o'', olevel o l' o'' -> l = l' /\ o' = o''.
  Proof.
    intros (A & B & on & C & D) l' o'' (A' & B' & on' & C' & D').
    rewrite A in A'. rewrite B in B'. rewrite C in C'. injection B' as <-. injection C' as <-.
    split; auto. injection A' as A'. destruct l as [x|x n], l' as [x'|x' n']; cbn in A'; subst; auto.
    - destruct D'. congruence.
    - destruct D. congruence.
    - destruct D as [_ D], D' as [_ D']. f_equal. eapply oshape_fun; eauto.
  Qed.

  Lemma olevel_nonempty o l o' : olevel o l o' -> o_empty o = false.
  Proof. intros (A & _). eapply variable_nonempty; eauto. Qed.

  Lemma under_inj l l' s s' : under l s = under l' s' -> l = l' /\ s = s'.
  Proof. destruct l, l'; cbn; intros [=]; subst; auto. Qed.

  (** The orders built by the library have a shape. *)
  Lemma sees_oshape : forall b o p path, sees o b p path -> oshape o (shape_of U b).
  Proof.
    induction b as [|id n IHn x IHx]; intros o p path S.
    - constructor. now rewrite (sees_empty _ _ _ _ _ S).
    - pose proof (sees_head _ _ _ _ _ _ _ S) as H1.
      destruct (sees_next _ _ _ _ _ _ _ S) as (o' & N1 & N2 & _).
      destruct (sees_nested _ _ _ _ _ _ _ S) as (on & M1 & M2 & _).
      pose proof (sees_empty _ _ _ _ _ M2) as E.
      assert (A : o_variable o = Some (N.of_nat (b_length x))).
      { unfold o_variable. now rewrite H1. }
      destruct n as [|id' n' x']; cbn [shape_of].
      + eapply os_flat; eauto.
      + eapply os_hier; eauto.
  Qed.
End Shapes.

(** ** Well-typed homomorphisms *)

Section Typed.
  Variable VI : values_impl.
  Hypothesis VL : values_laws VI.
  Variable PF : platform VI.
  Hypothesis PO : platform_ok PF.
  Variables U F I : Type.
  Notation V := (vt VI).
  Notation sdd := (sdd V).
  Notation hom := (hom V U F I).
  Variable US : user V U F I.
  Notation order := (order U).
  Notation fits := (fits VI PF).
  Notation oshape := (oshape U).
  Notation olevel := (olevel U).
  Notation hskip := (hskip VI U F I US).
  Notation hselector := (hselector VI U F I US).
  Notation heval := (heval VI PF U F I US).
  Notation evals := (evals VI PF U F I US).
  Notation hcall := (hcall VI U F I).
  Notation hop := (hop VI U F I).
  Notation direct := (direct VI PF U F I US).
  Notation hom_body := (hom_body VI PF U F I US).

  (** [typed o h s']: applied with the order [o] to an SDD of the shape of [o], [h] gives an SDD of
      the shape [s']. *)
  Inductive typed : order -> hom -> shape -> Prop :=
  | T_id o s : oshape o s -> typed o HId s
  | T_comp o l r s s' : oshape o s -> typed o r s -> typed o l s' -> typed o (HComp l r) s'
  | T_consF o s o' x o'' v n r : oshape o s -> o_variable o' = Some x -> o_next o' = Some o'' ->
      oshape o'' s -> typed o'' n r -> typed o (HConsF o' v n) (SFlat x r)
  | T_consH o s o' x o'' v nv n r : oshape o s -> o_variable o' = Some x -> o_next o' = Some o'' ->
      oshape o'' s -> fits nv v -> typed o'' n r -> typed o (HConsH o' v n) (SHier x nv r)
  | T_const o s x s' : oshape o s -> fits s' x -> typed o (HConst x) s'
  | T_fix o h s : oshape o s -> typed o h s -> typed o (HFix h) s
  | T_fun_end o t f : o_empty o = true -> typed o (HFun t f) SEnd
  | T_fun_here o t f r : oshape o (SFlat t r) -> typed o (HFun t f) (SFlat t r)
  | T_fun_next o l o' t f s' : olevel o l o' -> lvar l <> t -> typed o' (HFun t f) s' ->
      typed o (HFun t f) (under l s')
  | T_ite o p t e s s' : oshape o s -> hselector p = true -> typed o p s -> typed o t s' ->
      typed o e s' -> typed o (HIte p t e) s'
  | T_ind_end o i s' : o_empty o = true -> fits s' (i_one US i) -> typed o (HInd i) s'
  | T_ind_next o l o' i s' : olevel o l o' -> hskip o (HInd i) = true -> typed o' (HInd i) s' ->
      typed o (HInd i) (under l s')
  | T_ind_flat o x o' i s' : olevel o (LFlat x) o' -> hskip o (HInd i) = false ->
      (forall v, v_empty VI v = false -> typed o' (i_flat US i o v) s') -> typed o (HInd i) s'
  | T_ind_hier o x n o' i s' : olevel o (LHier x n) o' -> hskip o (HInd i) = false ->
      (forall v, fits n v -> v <> Zero -> typed o' (i_hier US i o v) s') -> typed o (HInd i) s'
  | T_inter o l s' : l <> [] -> (forall h, In h l -> typed o h s') -> typed o (HInter l) s'
  | T_local_here o t n o' on h n' r : olevel o (LHier t n) o' -> o_nested o = Some on -> oshape o' r ->
      typed on h n' -> typed o (HLocal t h) (SHier t n' r)
  | T_local_next o l o' t h s' : olevel o l o' -> lvar l <> t -> typed o' (HLocal t h) s' ->
      typed o (HLocal t h) (under l s')
  | T_satfix_here o l o' s f g k : olevel o l o' -> oshape o s -> typed o f s ->
      (forall h, In h g -> typed o h s) -> typed o k s -> typed o (HSatFix (lvar l) f g k) s
  | T_satfix_next o l o' x f g k s' : olevel o l o' -> lvar l <> x -> typed o' (HSatFix x f g k) s' ->
      typed o (HSatFix x f g k) (under l s')
  | T_satinter_here o l o' s' f g k : olevel o l o' ->
      opt_list VI U F I f ++ g ++ opt_list VI U F I k <> [] ->
      (forall h, In h (opt_list VI U F I f ++ g ++ opt_list VI U F I k) -> typed o h s') ->
      typed o (HSatInter (lvar l) f g k) s'
  | T_satinter_next o l o' x f g k s' : olevel o l o' -> lvar l <> x ->
      typed o' (HSatInter x f g k) s' -> typed o (HSatInter x f g k) (under l s')
  | T_satsum_here o l o' s' f g k : olevel o l o' ->
      opt_list VI U F I f ++ g ++ opt_list VI U F I k <> [] ->
      (forall h, In h (opt_list VI U F I f ++ g ++ opt_list VI U F I k) -> typed o h s') ->
      typed o (HSatSum (lvar l) f g k) s'
  | T_satsum_next o l o' x f g k s' : olevel o l o' -> lvar l <> x ->
      typed o' (HSatSum x f g k) s' -> typed o (HSatSum x f g k) (under l s')
  | T_sum o l s' : l <> [] -> (forall h, In h l -> typed o h s') -> typed o (HSum l) s'.

  Definition sub (y x : sdd) : Prop := forall p, contains y p = true -> contains x p = true.

  (** What the library assumes of the code of its user: a function declared as a selector filters
      values, a function declared as a shifter keeps disjoint sets disjoint, and the evaluation of an
      inductive homomorphism declared as a selector gives a subset of its operand. *)
  Record honest : Prop := {
    ho_sel : forall f v a, f_sel US f = true -> v_mem VI (f_apply US f v) a = true -> v_mem VI v a = true;
    ho_shift : forall f v w, f_shift US f = true -> disjoint (v_mem VI) v w ->
      disjoint (v_mem VI) (f_apply US f v) (f_apply US f w);
    ho_ind : forall i o s s' x y, i_sel US i = true -> oshape o s -> typed o (HInd i) s' ->
      fits s x -> evals o (HInd i) x y -> sub y x
  }.

  Lemma typed_id_inv o s : typed o HId s -> oshape o s.
  Proof. intros H. now inversion H. Qed.

  Lemma var_neqb_level o l o' t : olevel o l o' ->
    (var_neqb U o t = true <-> lvar l <> t) .
  Proof.
    intros (A & _). unfold var_neqb. rewrite A, negb_true_iff. apply N.eqb_neq.
  Qed.

  Lemma var_neqb_here o l o' : olevel o l o' -> var_neqb U o (lvar l) = false.
  Proof. intros (A & _). unfold var_neqb. now rewrite A, N.eqb_refl. Qed.

  Lemma oshape_flat_level o t r : oshape o (SFlat t r) -> exists o', olevel o (LFlat t) o'.
  Proof.
    intros H. inversion H as [|? x o' on r' A B C D E|]; subst. exists o'.
    split; [auto|split; [auto|exists on; auto]].
  Qed.

  Lemma under_all {A} l o' (P : A -> shape -> Prop) (hs : list A) s' (Ne : hs <> []) :
    (forall h, In h hs -> exists r', s' = under l r' /\ P h r') ->
    exists r', s' = under l r' /\ (forall h, In h hs -> P h r' : Prop) /\ o' = o' :> order.
  Proof.
    intros H. destruct hs as [|h0 hs]; [congruence|].
    destruct (H h0 (or_introl eq_refl)) as (r' & -> & _). exists r'. split; [auto|split; [|auto]].
    intros h Hin. destruct (H h Hin) as (r'' & E & Hp). apply under_inj in E. now destruct E as [_ <-].
  Qed.

  (** Below a level that it skips, a homomorphism is still well-typed. *)
  Lemma typed_next o h s' : typed o h s' -> forall l o', olevel o l o' -> hskip o h = true ->
    exists r', s' = under l r' /\ typed o' h r'.
  Proof.
    induction 1 as
      [o s O|o hl r s s' O H1 IH1 H2 IH2|o s o1 x o'' v n r O A1 A2 O' T IH
      |o s o1 x o'' v nv n r O A1 A2 O' A3 T IH|o s x s' O Fx|o h s O T IH|o t f E|o t f r O
      |o k o1 t f s' L N T IH|o p t e s s' O Sel T1 IH1 T2 IH2 T3 IH3|o i s' E Fx
      |o k o1 i s' L Sk T IH|o x o1 i s' L Sk T IH|o x n o1 i s' L Sk T IH|o hs s' Ne T IH
      |o t n o1 on h n' r L M O T IH|o k o1 t h s' L N T IH
      |o k o1 s f g q L O T1 IH1 T2 IH2 T3 IH3|o k o1 x f g q s' L N T IH
      |o k o1 s' f g q L Ne T IH|o k o1 x f g q s' L N T IH
      |o k o1 s' f g q L Ne T IH|o k o1 x f g q s' L N T IH|o hs s' Ne T IH];
      intros l o' Lo Hs; cbn [Hom.hskip] in Hs; try discriminate Hs.
    - destruct (oshape_inv _ _ _ O) as [[E _]|(_ & k & o1 & r & L & -> & O1)].
      + rewrite (olevel_nonempty _ _ _ _ Lo) in E. discriminate.
      + destruct (olevel_fun _ _ _ _ L _ _ Lo) as [-> ->]. exists r. split; [auto|now constructor].
    - apply andb_true_iff in Hs. destruct Hs as [Hs1 Hs2].
      destruct (IH1 _ _ Lo Hs2) as (r1 & -> & T1). destruct (IH2 _ _ Lo Hs1) as (r2 & -> & T2).
      exists r2. split; [auto|]. apply (T_comp _ _ _ r1); auto. now apply (oshape_level _ _ _ _ r1 Lo).
    - destruct (IH _ _ Lo Hs) as (r1 & -> & T1). exists r1. split; [auto|]. constructor; auto.
      now apply (oshape_level _ _ _ _ r1 Lo).
    - rewrite (olevel_nonempty _ _ _ _ Lo) in E. discriminate.
    - destruct (oshape_flat_level _ _ _ O) as (o1 & L).
      pose proof (var_neqb_here _ _ _ L) as X. cbn [lvar] in X. congruence.
    - destruct (olevel_fun _ _ _ _ L _ _ Lo) as [-> ->]. eauto.
    - apply andb_true_iff in Hs. destruct Hs as [Hs Hs3].
      apply andb_true_iff in Hs. destruct Hs as [Hs1 Hs2].
      destruct (IH1 _ _ Lo Hs1) as (r1 & -> & X1). destruct (IH2 _ _ Lo Hs3) as (r2 & -> & X2).
      destruct (IH3 _ _ Lo Hs2) as (r3 & E & X3). apply under_inj in E. destruct E as [_ <-].
      exists r2. split; [auto|]. apply (T_ite _ _ _ _ r1); auto. now apply (oshape_level _ _ _ _ r1 Lo).
    - rewrite (olevel_nonempty _ _ _ _ Lo) in E. discriminate.
    - destruct (olevel_fun _ _ _ _ L _ _ Lo) as [-> ->]. eauto.
    - cbn [Hom.hskip] in Sk. congruence.
    - cbn [Hom.hskip] in Sk. congruence.
    - rewrite forallb_forall in Hs.
      destruct (under_all l o' (fun h r' => typed o' h r') hs s' Ne) as (r' & -> & Hr & _).
      { intros h Hin. apply (IH h Hin l o' Lo). now apply Hs. }
      exists r'. split; [auto|now constructor].
    - pose proof (var_neqb_here _ _ _ L) as X. cbn [lvar] in X. congruence.
    - destruct (olevel_fun _ _ _ _ L _ _ Lo) as [-> ->]. eauto.
    - pose proof (var_neqb_here _ _ _ L) as X. congruence.
    - destruct (olevel_fun _ _ _ _ L _ _ Lo) as [-> ->]. eauto.
    - pose proof (var_neqb_here _ _ _ L) as X. congruence.
    - destruct (olevel_fun _ _ _ _ L _ _ Lo) as [-> ->]. eauto.
    - pose proof (var_neqb_here _ _ _ L) as X. congruence.
    - destruct (olevel_fun _ _ _ _ L _ _ Lo) as [-> ->]. eauto.
    - rewrite forallb_forall in Hs.
      destruct (under_all l o' (fun h r' => typed o' h r') hs s' Ne) as (r' & -> & Hr & _).
      { intros h Hin. apply (IH h Hin l o' Lo). now apply Hs. }
      exists r'. split; [auto|now constructor].
  Qed.

  (** ** Functions *)

  Definition fun_fast (g : V -> V) (arcs : list (V * sdd)) : list (sdd * V) :=
    fold_left (fun alpha arc =>
      let val := g (fst arc) in
      if v_empty VI val then alpha else alpha_add VI PF val (snd arc) alpha) arcs [].

  Lemma fun_fast_ok x r g arcs : fits (SFlat x r) (Flat x arcs) ->
    (forall v w, disjoint (v_mem VI) v w -> disjoint (v_mem VI) (g v) (g w)) ->
    let y := create_node VI Flat x (fun_fast g arcs) in
    fits (SFlat x r) y /\
    forall p, contains y p = true <-> exists v s a q, In (v, s) arcs /\ p = AVal x a q
                  /\ v_mem VI (g v) a = true /\ contains s q = true.
  Proof.
    intros H Hg y. destruct (fits_flat_inv VI PF _ _ _ _ H) as (_ & _ & D & G).
    pose proof (pf_lt PO) as ST.
    assert (Srt : ssorted (addr_lt PF) (map snd arcs)).
    { destruct H as [H _]. now inversion H. }
    assert (Loop : forall l al, NoDup (map snd l) -> ksorted (addr_lt PF) al ->
              (forall s v, In (s, v) al -> ~ In s (map snd l)) ->
              let al' := fold_left (fun alpha arc =>
                let val := g (fst arc) in
                if v_empty VI val then alpha else alpha_add VI PF val (snd arc) alpha) l al in
              ksorted (addr_lt PF) al' /\ forall s v, In (s, v) al' <->
                In (s, v) al \/ exists w, In (w, s) l /\ v = g w /\ v_empty VI v = false).
    { clear Srt D G H y. induction l as [|[w s] l IH]; intros al Nd Ks Fr; cbn [fold_left fst snd].
      - split; [auto|]. intros s v. split; [auto|intros [X|(w & [] & _)]; auto].
      - inversion Nd as [|? ? N1 N2]; subst. destruct (v_empty VI (g w)) eqn:E.
        + destruct (IH al N2 Ks) as [I1 I2].
          { intros s' v' Hin Hl. apply (Fr _ _ Hin). now right. }
          split; [auto|]. intros s' v'. rewrite I2. split.
          * intros [X|(w' & X & Y)]; [auto|right; exists w'; split; [now right|auto]].
          * intros [X|(w' & [X|X] & Y1 & Y2)]; [auto| |right; exists w'; auto].
            injection X as -> ->. congruence.
        + assert (Hadd : forall s' v', In (s', v') (alpha_add VI PF (g w) s al) <->
                    In (s', v') al \/ (s', v') = (s, g w)).
          { intros s' v'. unfold alpha_add, fm_emplace. rewrite (fm_upd_in _ ST) by auto. split.
            - intros [[_ Hin]|[-> [(b' & Hin & ->)|[_ ->]]]]; auto.
            - intros [Hin|E'].
              + left; split; auto. intros ->. apply (Fr _ _ Hin). now left.
              + injection E' as -> ->. right; split; auto. right; split; auto.
                intros v Hin. apply (Fr _ _ Hin). now left. }
          destruct (IH (alpha_add VI PF (g w) s al) N2) as [I1 I2].
          { apply fm_upd_sorted; auto. }
          { intros s' v' Hin. apply Hadd in Hin. destruct Hin as [Hin|E'].
            - intros Hl. apply (Fr _ _ Hin). now right.
            - injection E' as -> ->. auto. }
          split; [auto|]. intros s' v'. rewrite I2, Hadd. split.
          * intros [[X|X]|(w' & X & Y)]; [auto| |right; exists w'; split; [now right|auto]].
            injection X as -> ->. right. exists w. split; [now left|auto].
          * intros [X|(w' & [X|X] & Y1 & Y2)]; [auto| |right; exists w'; auto].
            injection X as -> ->. subst v'. auto. }
    destruct (Loop arcs []) as [L1 L2].
    { apply (ssorted_nodup _ ST); auto. }
    { constructor. }
    { intros s v []. }
    fold (fun_fast g arcs) in L1, L2.
    assert (Hin : forall s v, In (s, v) (fun_fast g arcs) <->
              exists w, In (w, s) arcs /\ v = g w /\ v_empty VI v = false).
    { intros s v. rewrite L2. split; [intros [[]|X]; auto|auto]. }
    clear Loop L2.
    set (n := S (fuel_of VI (map snd arcs))).
    set (md := Some (shape_universe VI (SFlat x r))).
    assert (A : good_alpha VI PF (v_mem VI) (fun _ _ => False) (flat_ops VI PF) (fun _ => True)
                  (fun k => good VI PF n (flat_mode VI md x k))
                  (fun_fast g arcs)).
    { split; [| | |auto].
      - exact L1.
      - intros s v Hv. apply Hin in Hv. destruct Hv as (w & Hw & -> & Hv).
        destruct (G _ _ Hw) as (G1 & G2 & [G3 G4]). split; [split; auto|split; auto].
        intros k _. split; [auto|split; [|now apply follows_flat_mode]].
        assert (X : height s <= fuel_of VI (map snd arcs)); [|unfold n; lia].
        apply fuel_height. apply in_map_iff. exists (w, s). auto.
      - apply (fop_map_swap VI (v_mem VI)); [|apply (ksorted_nodup _ ST); auto].
        intros s1 v1 s2 v2 I1 I2 Hne. apply Hin in I1. apply Hin in I2.
        destruct I1 as (w1 & I1 & -> & _), I2 as (w2 & I2 & -> & _). apply Hg.
        intros k M1 M2. pose proof (adisjoint_unique VI _ _ D _ _ _ _ _ I1 I2 M1 M2). congruence. }
    destruct (node_flat_good VI VL PF n md x _ A) as [(N1 & _ & N2) N3].
    apply (mode_ok_follows VI VL PF) in N2; [|exact N1].
    fold y in N1, N2, N3. split; [split; auto|]. intros p. rewrite N3. split.
    - intros (k & q & -> & Hc). apply acontains_spec in Hc. destruct Hc as (v & s & Hv & M & C).
      apply in_map_iff in Hv. destruct Hv as ([s0 v0] & E & Hv). injection E as -> ->.
      apply Hin in Hv. destruct Hv as (w & Hw & -> & _). exists w, s, k, q. auto.
    - intros (v & s & a & q & Hv & -> & M & C). exists a, q. split; [auto|].
      apply acontains_spec. exists (g v), s. split; [|auto].
      apply in_map_iff. exists (s, g v). split; [auto|]. apply Hin. exists v. split; [auto|split; [auto|]].
      destruct (v_empty VI (g v)) eqn:E; auto.
      apply (vl_empty VL) with (x := a) in E. congruence.
  Qed.

  Lemma node_flat_fits x v s r : fits r s -> fits (SFlat x r) (node_flat VI PF x v s).
  Proof. intros [A B]. split; [now apply node_flat_canonical|now apply node_flat_follows]. Qed.

  Lemma node_hier_fits x v s n r : fits n v -> fits r s -> fits (SHier x n r) (node_hier VI PF x v s).
  Proof.
    intros [A B] [C D]. split; [now apply node_hier_canonical|now apply node_hier_follows].
  Qed.

  Lemma fun_slow_ok x r g arcs : fits (SFlat x r) (Flat x arcs) ->
    exists y, api_sum VI PF (map (fun arc => node_flat VI PF x (g (fst arc)) (snd arc)) arcs) = Ok y /\
    fits (SFlat x r) y /\
    forall p, contains y p = true <-> exists v s a q, In (v, s) arcs /\ p = AVal x a q
                  /\ v_mem VI (g v) a = true /\ contains s q = true.
  Proof.
    intros H. destruct (fits_flat_inv VI PF _ _ _ _ H) as (_ & _ & D & G).
    destruct (sum_ok VI VL PF PO (SFlat x r)
                (map (fun arc => node_flat VI PF x (g (fst arc)) (snd arc)) arcs)) as (y & E & Fy & C).
    - intros z Hz. apply in_map_iff in Hz. destruct Hz as ([v s] & <- & Hv). cbn.
      apply node_flat_fits. now apply (G v s).
    - exists y. split; [auto|split; [auto|]]. intros p. rewrite C, existsb_exists. split.
      + intros (z & Hz & Cz). apply in_map_iff in Hz. destruct Hz as ([v s] & <- & Hv). cbn in Cz.
        apply node_flat_contains in Cz; auto. destruct Cz as (a & q & -> & M & C').
        exists v, s, a, q. auto.
      + intros (v & s & a & q & Hv & -> & M & C').
        exists (node_flat VI PF x (g v) s). split; [apply in_map_iff; now exists (v, s)|].
        apply node_flat_contains; eauto.
  Qed.

  (** ** Safety *)

  Section Safety.
    Hypothesis HO : honest.

    (** The outcome of the evaluation of a well-typed homomorphism. *)
    Definition result_ok (h : hom) (s' : shape) (x y : sdd) : Prop :=
      fits s' y /\ (hselector h = true -> sub y x).

    Definition safe (k : hop -> res (err V) sdd) : Prop :=
      forall o h s s' x, typed o h s' -> oshape o s -> fits s x -> x <> Zero -> h <> HId ->
        outcome (eq EFuel) (result_ok h s' x) (k (o, h, x)).

    Variable k : hop -> res (err V) sdd.
    Hypothesis K : safe k.
    Notation hoare := (hoare k (eq EFuel)).

    Lemma hcall_safe o h s s' x : typed o h s' -> oshape o s -> fits s x ->
      hoare (hcall o h x) (result_ok h s' x).
    Proof.
      intros T O Fx. unfold Hom.hcall.
      destruct (is_id VI U F I h) eqn:E1; cbn [orb].
      { apply is_id_iff in E1. subst h. apply typed_id_inv in T.
        rewrite (oshape_fun _ _ _ T _ O). apply hoare_ret. split; [auto|intros _ p; auto]. }
      destruct (is_zero VI x) eqn:E2.
      { apply is_zero_iff in E2. subst x. apply hoare_ret. split; [apply fits_zero|intros _ p; auto]. }
      apply hoare_call. apply (K o h s s' x); auto.
      - intros ->. discriminate.
      - intros ->. discriminate.
    Qed.

    Lemma lift_ok A (r : res (err V) A) (Q : A -> Prop) : outcome (eq EFuel) Q r ->
      hoare (lift VI U F I r) Q.
    Proof. intros H. destruct r; exact H. Qed.

    Lemma lift_ex A (r : res (err V) A) (Q : A -> Prop) : (exists a, r = Ok a /\ Q a) ->
      hoare (lift VI U F I r) Q.
    Proof. intros (a & -> & H). exact H. Qed.

    Definition call_fun (o : order) (h : hom) (x : sdd) : sdd :=
      match interp k (hcall o h x) with Ok y => y | Err _ => Zero end.

    Lemma call_fun_zero o h : call_fun o h Zero = Zero.
    Proof. unfold call_fun, Hom.hcall. rewrite orb_true_r. reflexivity. Qed.

    Lemma forward_safe {W} o h s r' (arcs : list (W * sdd)) : typed o h r' -> oshape o s ->
      (forall z, In z (map snd arcs) -> fits s z) ->
      hoare (forward VI U F I o h arcs) (fun pairs =>
        pairs = fwd_pairs VI (call_fun o h) arcs /\
        forall z, In z (map snd arcs) -> result_ok h r' z (call_fun o h z)).
    Proof.
      intros T O. induction arcs as [|[v z] arcs IH]; intros H; cbn [forward].
      - apply hoare_ret. split; [auto|intros z []].
      - assert (X : hoare (hcall o h z) (fun y => y = call_fun o h z /\ result_ok h r' z y)).
        { pose proof (hcall_safe o h s r' z T O (H z (or_introl eq_refl))) as X.
          unfold Base.hoare, outcome in *. unfold call_fun. destruct (interp k (hcall o h z)); auto. }
        eapply hoare_bind; [exact X|]. intros y [-> Hy]. cbn.
        eapply hoare_bind; [apply IH; intros z' Hz'; apply H; now right|].
        intros rest [-> Hr]. apply hoare_ret. split.
        + unfold fwd_pairs. cbn [filter snd]. destruct (is_zero VI (call_fun o h z)); reflexivity.
        + cbn [map snd]. intros z' [<-|Hz']; auto.
    Qed.

    Lemma body_skip n o l o' h s r' x : olevel o l o' -> oshape o' s -> fits (under l s) x ->
      x <> Zero -> hskip o h = true -> typed o' h r' ->
      hoare (hom_body n (o, h, x)) (result_ok h (under l r') x).
    Proof.
      intros L O Fx Nz Hs T. pose proof L as (Lv & Ln & _).
      unfold Hom.hom_body. unfold with_var, with_next. rewrite Lv, Ln, Hs.
      assert (Fin : forall y, fits (under l r') y ->
                (forall z, In z (heads VI x) -> result_ok h r' z (call_fun o' h z)) ->
                (forall e, residual VI y e = call_fun o' h (residual VI x e)) ->
                result_ok h (under l r') x y).
      { intros y Fy Hc Hr. split; [auto|]. intros Sel p Cp.
        apply (contains_iff VI PF _ _ _ _ Fy) in Cp. destruct Cp as (e & q & -> & Cq).
        apply (contains_iff VI PF _ _ _ _ Fx). exists e, q. split; [auto|].
        rewrite Hr in Cq. destruct (residual_heads VI x e) as [E|E].
        - rewrite E, call_fun_zero in Cq. discriminate.
        - now apply (proj2 (Hc _ E) Sel). }
      destruct x as [| |var arcs|var arcs]; destruct l as [z|z m]; cbn [under] in *;
        try congruence; try (destruct Fx as [_ Fx]; now inversion Fx).
      - destruct (fits_flat_inv VI PF _ _ _ _ Fx) as (-> & _ & D & G). cbn [lvar]. rewrite N.eqb_refl.
        eapply hoare_bind; [apply (forward_safe o' h s r' arcs T O)|].
        + intros z' Hz. apply in_map_iff in Hz. destruct Hz as ([v w] & <- & Hv). now apply (G v w).
        + intros pairs [-> Hc]. apply lift_ex.
          destruct (fwd_flat VI VL PF PO z s r' arcs (call_fun o' h) Fx) as (y & E & Fy & Hy).
          * intros w Hw. now apply Hc.
          * apply call_fun_zero.
          * exists y. split; [auto|]. apply Fin; auto.
      - destruct (fits_hier_inv VI PF _ _ _ _ _ Fx) as (-> & _ & D & G). cbn [lvar]. rewrite N.eqb_refl.
        eapply hoare_bind; [apply (forward_safe o' h s r' arcs T O)|].
        + intros z' Hz. apply in_map_iff in Hz. destruct Hz as ([v w] & <- & Hv). now apply (G v w).
        + intros pairs [-> Hc]. apply lift_ex.
          destruct (fwd_hier VI VL PF PO z m s r' arcs (call_fun o' h) Fx) as (y & E & Fy & Hy).
          * intros w Hw. now apply Hc.
          * apply call_fun_zero.
          * exists y. split; [auto|]. apply Fin; auto.
    Qed.

    Lemma sub_trans x y z : sub z y -> sub y x -> sub z x.
    Proof. intros A B p C. auto. Qed.

    Lemma sub_refl x : sub x x.
    Proof. intros p C. exact C. Qed.

    Lemma fix_safe o h s : typed o h s -> oshape o s -> forall n x, fits s x ->
      hoare (fix_loop VI PF U F I n o h x) (result_ok h s x).
    Proof.
      intros T O. induction n as [|n IH]; intros x Fx; cbn [fix_loop].
      - now apply hoare_throw.
      - eapply hoare_bind; [apply (hcall_safe o h s s x T O Fx)|].
        intros y [Fy Sy]. destruct (sdd_eqb VI PF y x) eqn:E.
        + apply hoare_ret. split; auto.
        + eapply hoare_conseq; [apply (IH y Fy)|]. intros z [Fz Sz]. split; [auto|].
          intros Sel. eapply sub_trans; eauto.
    Qed.

    Lemma hcalls_safe o s s' x hs : oshape o s -> fits s x -> (forall h, In h hs -> typed o h s') ->
      hoare (hcalls VI U F I o hs x) (fun ys => length ys = length hs /\ forall y, In y ys ->
        fits s' y /\ (forallb hselector hs = true -> sub y x)).
    Proof.
      intros O Fx. induction hs as [|h hs IH]; intros T; cbn [hcalls].
      - apply hoare_ret. split; [auto|intros y []].
      - eapply hoare_bind; [apply (hcall_safe o h s s' x (T h (or_introl eq_refl)) O Fx)|].
        intros y [Fy Sy]. eapply hoare_bind; [apply IH; intros h' Hh; apply T; now right|].
        intros ys [Hl Hy]. apply hoare_ret. split; [cbn; now rewrite Hl|].
        cbn [forallb]. intros z [<-|Hz].
        + split; [auto|]. intros Sel. apply andb_true_iff in Sel. now apply Sy.
        + destruct (Hy z Hz) as [Fz Sz]. split; [auto|].
          intros Sel. apply andb_true_iff in Sel. now apply Sz.
    Qed.

    Lemma inter_safe o s s' x hs : oshape o s -> fits s x -> (forall h, In h hs -> typed o h s') ->
      forall acc sel, (forallb hselector hs = false -> sel = false) ->
      (forall y, In y acc -> fits s' y /\ (sel = true -> sub y x)) -> (hs <> [] \/ acc <> []) ->
      hoare (inter_loop VI PF U F I o hs x acc) (fun y => fits s' y /\ (sel = true -> sub y x)).
    Proof.
      intros O Fx. induction hs as [|h hs IH]; intros T acc sel Hsel Hacc Ne; cbn [inter_loop].
      - destruct Ne as [Ne|Ne]; [congruence|]. apply lift_ex.
        destruct (inter_ok VI VL PF PO s' acc Ne) as (r & E & Fr & C).
        + intros y Hy. now apply Hacc.
        + exists r. split; [auto|split; [auto|]]. intros Sel p Cp. rewrite C, forallb_forall in Cp.
          destruct acc as [|a acc]; [congruence|].
          apply (proj2 (Hacc a (or_introl eq_refl)) Sel). apply Cp. now left.
      - eapply hoare_bind; [apply (hcall_safe o h s s' x (T h (or_introl eq_refl)) O Fx)|].
        intros y [Fy Sy]. destruct (is_zero VI y) eqn:E.
        + apply hoare_ret. split; [apply fits_zero|]. intros _ p Cp. discriminate.
        + apply IH.
          * intros h' Hh. apply T. now right.
          * intros X. apply Hsel. cbn [forallb]. rewrite X. apply andb_false_r.
          * intros z Hz. apply in_app_iff in Hz. destruct Hz as [Hz|[<-|[]]]; [auto|].
            split; [auto|]. intros ->. apply Sy.
            destruct (hselector h) eqn:Eh; auto.
            cbn [forallb] in Hsel. rewrite Eh in Hsel. now specialize (Hsel eq_refl).
          * right. destruct acc; discriminate.
    Qed.

    Lemma chain_safe o s g : oshape o s -> (forall h, In h g -> typed o h s) ->
      forall x, fits s x -> hoare (g_chain VI PF U F I o g x)
        (fun y => fits s y /\ (forallb hselector g = true -> sub y x)).
    Proof.
      intros O. induction g as [|h g IH]; intros T x Fx; cbn [g_chain].
      - apply hoare_ret. split; [auto|intros _; apply sub_refl].
      - eapply hoare_bind; [apply (hcall_safe o h s s x (T h (or_introl eq_refl)) O Fx)|].
        intros y [Fy Sy].
        destruct (sum_ok VI VL PF PO s [x; y]) as (z & E & Fz & C).
        { intros w [<-|[<-|[]]]; auto. }
        rewrite E. cbn [lift bind]. eapply hoare_conseq.
        + apply IH; [intros h' Hh; apply T; now right|exact Fz].
        + intros w [Fw Sw]. split; [auto|]. cbn [forallb]. intros Sel. apply andb_true_iff in Sel.
          intros p Cp. apply Sw in Cp; [|apply Sel]. rewrite C in Cp. cbn in Cp.
          rewrite orb_false_r in Cp. apply orb_true_iff in Cp. destruct Cp as [Cp|Cp]; auto.
          now apply Sy.
    Qed.

    Lemma sat_safe o s f g l : oshape o s -> typed o f s -> (forall h, In h g -> typed o h s) ->
      typed o l s -> forall n x, fits s x -> hoare (sat_loop VI PF U F I n o f g l x)
        (fun y => fits s y /\ (hselector f && hselector l && forallb hselector g = true -> sub y x)).
    Proof.
      intros O Tf Tg Tl. induction n as [|n IH]; intros x Fx; cbn [sat_loop].
      - now apply hoare_throw.
      - eapply hoare_bind; [apply (hcall_safe o f s s x Tf O Fx)|]. intros x2 [F2 S2].
        eapply hoare_bind; [apply (hcall_safe o l s s x2 Tl O F2)|]. intros x3 [F3 S3].
        eapply hoare_bind; [apply (chain_safe o s g O Tg x3 F3)|]. intros x4 [F4 S4].
        destruct (sdd_eqb VI PF x x4) eqn:E.
        + apply hoare_ret. split; [auto|intros _; apply sub_refl].
        + eapply hoare_conseq; [apply (IH x4 F4)|]. intros y [Fy Sy]. split; [auto|].
          intros Sel. specialize (Sy Sel). apply andb_true_iff in Sel. destruct Sel as [Sel Sg].
          apply andb_true_iff in Sel. destruct Sel as [Sf Sl].
          intros p Cp. apply S2; auto. apply S3; auto. apply S4; auto.
    Qed.

    Lemma local_vals_safe o h n s' arcs : oshape o n -> typed o h s' ->
      (forall v z, In (v, z) arcs -> fits n v) ->
      hoare (local_vals VI U F I o h arcs) (fun vals =>
        Forall2 (fun (a : sdd * sdd) (b : sdd * sdd) => snd b = snd a /\ result_ok h s' (fst a) (fst b))
          arcs vals).
    Proof.
      intros O T. induction arcs as [|[v z] arcs IH]; intros H; cbn [local_vals].
      - apply hoare_ret. constructor.
      - eapply hoare_bind; [apply (hcall_safe o h n s' v T O (H v z (or_introl eq_refl)))|].
        intros v' Hv. eapply hoare_bind; [apply IH; intros v0 z0 Hin; apply (H v0 z0); now right|].
        intros vals Hvals. apply hoare_ret. constructor; auto.
    Qed.

    Lemma Forall2_in_r A B (R : A -> B -> Prop) l m b : Forall2 R l m -> In b m ->
      exists a, In a l /\ R a b.
    Proof.
      induction 1 as [|x y l m H1 H2 IH]; intros []; subst.
      - exists x. split; [now left|auto].
      - destruct (IH H) as (a & A1 & A2). exists a. split; [now right|auto].
    Qed.

    Lemma local_safe n o t nn o' on h n' r x : olevel o (LHier t nn) o' -> o_nested o = Some on ->
      oshape o' r -> typed on h n' -> fits (SHier t nn r) x -> x <> Zero ->
      hoare (direct n (HLocal t h) o x) (result_ok (HLocal t h) (SHier t n' r) x).
    Proof.
      intros L M O T Fx Nz. destruct L as (_ & _ & on' & M' & _ & On).
      rewrite M in M'. injection M' as <-.
      destruct x as [| |var arcs|var arcs]; try congruence; try (destruct Fx as [_ Fx]; now inversion Fx).
      destruct (fits_hier_inv VI PF _ _ _ _ _ Fx) as (-> & _ & D & G).
      cbn [Hom.direct]. unfold with_nested. rewrite M.
      eapply hoare_bind; [apply (local_vals_safe on h nn n' arcs On T)|].
      { intros v z Hin. now apply (G v z). }
      intros vals Hv.
      assert (Sub : forall y, (forall p, contains y p = true -> exists v v' s a q, In (v, s) arcs /\
                  result_ok h n' v v' /\ p = ANest t a q /\ contains v' a = true /\ contains s q = true) ->
                hselector h = true -> sub y (Hier t arcs)).
      { intros y Hy Sel p Cp. apply Hy in Cp. destruct Cp as (v & v' & s & a & q & Hin & [_ Hs] & -> & C1 & C2).
        rewrite contains_hier, N.eqb_refl. cbn [andb]. apply acontains_spec. exists v, s.
        split; [auto|split; [|auto]]. now apply Hs. }
      destruct (hselector h) eqn:Sel; apply lift_ex.
      - set (pairs := map (fun vs => (snd vs, fst vs))
                        (filter (fun vs => negb (is_zero VI (fst vs))) vals)).
        assert (Hp : forall s v', In (s, v') pairs -> v' <> Zero /\ exists v, In (v, s) arcs /\ result_ok h n' v v').
        { intros s v' Hin. unfold pairs in Hin. apply in_map_iff in Hin.
          destruct Hin as ([v0 s0] & E & Hin). injection E as -> ->. apply filter_In in Hin.
          destruct Hin as [Hin Z]. cbn in Z. apply negb_true_iff in Z.
          split; [intros ->; discriminate|].
          destruct (Forall2_in_r _ _ _ _ _ _ Hv Hin) as ([v z] & Hin' & E & Hr). cbn in E. subst z. eauto. }
        destruct (su_hier_ok VI VL PF PO t n' r pairs) as (y & E & Fy & C).
        + intros s v' Hin. destruct (Hp _ _ Hin) as (Z & v & Hin' & [Hf _]).
          destruct (G _ _ Hin') as (_ & _ & G3 & G4). auto.
        + intros s1 v1 s2 v2 I1 I2 Ne a M1 M2.
          destruct (Hp _ _ I1) as (_ & w1 & J1 & [_ R1]), (Hp _ _ I2) as (_ & w2 & J2 & [_ R2]).
          apply (R1 Sel) in M1. apply (R2 Sel) in M2.
          pose proof (adisjoint_unique VI _ _ D _ _ _ _ _ J1 J2 M1 M2). congruence.
        + exists y. split; [auto|split; [auto|]]. cbn [Hom.hselector]. intros _. apply Sub; [|auto].
          intros p Cp. apply C in Cp. destruct Cp as (s & v' & a & q & Hin & -> & C1 & C2).
          destruct (Hp _ _ Hin) as (_ & v & Hin' & Hr). exists v, v', s, a, q. auto.
      - destruct (sum_ok VI VL PF PO (SHier t n' r)
                    (map (fun vs => node_hier VI PF t (fst vs) (snd vs)) vals)) as (y & E & Fy & C).
        + intros z Hz. apply in_map_iff in Hz. destruct Hz as ([v' s] & <- & Hin). cbn.
          destruct (Forall2_in_r _ _ _ _ _ _ Hv Hin) as ([v z] & Hin' & E & [Hr _]). cbn in E, Hr. subst z.
          apply node_hier_fits; [auto|]. now apply (G v s).
        + exists y. split; [auto|split; [auto|]]. cbn [Hom.hselector]. congruence.
    Qed.

    Lemma ind_vals_safe {W} o s s' (kk : W -> hom) (arcs : list (W * sdd)) : oshape o s ->
      (forall v z, In (v, z) arcs -> typed o (kk v) s' /\ fits s z) ->
      hoare (ind_vals VI U F I o kk arcs) (fun ys => forall y, In y ys -> fits s' y).
    Proof.
      intros O. induction arcs as [|[v z] arcs IH]; intros H; cbn [ind_vals].
      - apply hoare_ret. intros y [].
      - destruct (H v z (or_introl eq_refl)) as [T Fz].
        eapply hoare_bind; [apply (hcall_safe o (kk v) s s' z T O Fz)|]. intros y [Fy _].
        eapply hoare_bind; [apply IH; intros v' z' Hin; apply H; now right|].
        intros ys Hys. apply hoare_ret. intros w [<-|Hw]; auto.
    Qed.

    Lemma sum_sub o s s' x hs : oshape o s -> fits s x -> (forall h, In h hs -> typed o h s') ->
      hoare (ys <- hcalls VI U F I o hs x ;; lift VI U F I (api_sum VI PF ys))
        (fun y => fits s' y /\ (forallb hselector hs = true -> sub y x)).
    Proof.
      intros O Fx T. eapply hoare_bind; [apply (hcalls_safe o s s' x hs O Fx T)|].
      intros ys [_ Hys]. apply lift_ex.
      destruct (sum_ok VI VL PF PO s' ys) as (y & E & Fy & C).
      { intros z Hz. now apply Hys. }
      exists y. split; [auto|split; [auto|]]. intros Sel p Cp. rewrite C, existsb_exists in Cp.
      destruct Cp as (z & Hz & Cz). now apply (proj2 (Hys z Hz) Sel).
    Qed.

    Lemma sel_opt_list f g l :
      (match f with Some h => hselector h | None => true end) &&
      (match l with Some h => hselector h | None => true end) && forallb hselector g = true ->
      forallb hselector (opt_list VI U F I f ++ g ++ opt_list VI U F I l) = true.
    Proof.
      intros H. apply andb_true_iff in H. destruct H as [H H3]. apply andb_true_iff in H.
      destruct H as [H1 H2]. rewrite !forallb_app, H3.
      destruct f, l; cbn [opt_list forallb]; rewrite ?H1, ?H2; reflexivity.
    Qed.

    (** Selectors are checked on the whole evaluation for inductive homomorphisms. *)
    Definition weak_ok (h : hom) (s' : shape) (x y : sdd) : Prop :=
      fits s' y /\ match h with HInd _ => True | _ => hselector h = true -> sub y x end.

    Lemma weaken h s' x y : result_ok h s' x y -> weak_ok h s' x y.
    Proof. intros [A B]. split; [auto|]. destruct h; auto. Qed.

    Lemma direct_safe n o h s s' x : typed o h s' -> oshape o s -> fits s x -> x <> Zero -> h <> HId ->
      (o_empty o = false -> hskip o h = false) ->
      hoare (direct n h o x) (weak_ok h s' x).
    Proof.
      intros T O Fx Nz Ni Hs.
      assert (Down : forall l o' t, olevel o l o' -> lvar l <> t -> hskip o h = var_neqb U o t -> False).
      { intros l o' t L Nt E. rewrite (proj2 (var_neqb_level o l o' t L) Nt) in E.
        rewrite Hs in E; [discriminate|]. eapply olevel_nonempty; eauto. }
      inversion T as
      [? s1 O1|? hl r s1 ? O1 H1 H2|? s1 o1 x1 o'' v n1 r O1 A1 A2 O' T1
      |? s1 o1 x1 o'' v nv n1 r O1 A1 A2 O' A3 T1|? s1 x1 ? O1 Fx1|? h1 ? O1 T1|? t f E|? t f r O1
      |? l o1 t f s1 L N T1|? p t e s1 ? O1 Sel T1 T2 T3|? i ? E Fx1
      |? l o1 i s1 L Sk T1|? x1 o1 i ? L Sk T1|? x1 n1 o1 i ? L Sk T1|? hs ? Ne T1
      |? t n1 o1 on h1 n' r L M O1 T1|? l o1 t h1 s1 L N T1
      |? l o1 ? f g q L O1 T1 T2 T3|? l o1 x1 f g q s1 L N T1
      |? l o1 ? f g q L Ne T1|? l o1 x1 f g q s1 L N T1
      |? l o1 ? f g q L Ne T1|? l o1 x1 f g q s1 L N T1|? hs ? Ne T1]; subst; try congruence.
      - (* composition *)
        rewrite (oshape_fun _ _ _ O1 _ O) in *. cbn [Hom.direct].
        eapply hoare_bind; [apply (hcall_safe o r s s x H1 O Fx)|]. intros y [Fy Sy].
        eapply hoare_conseq; [apply (hcall_safe o hl s s' y H2 O Fy)|]. intros z [Fz Sz].
        split; [auto|]. cbn [Hom.hselector]. intros Sel. apply andb_true_iff in Sel.
        apply (sub_trans x y z); [now apply Sz|now apply Sy].
      - (* cons, flat *)
        cbn [Hom.direct]. unfold with_var, with_next. rewrite A1, A2.
        rewrite (oshape_fun _ _ _ O1 _ O) in *.
        eapply hoare_bind; [apply (hcall_safe o'' n1 s r x T1 O' Fx)|]. intros y [Fy Sy].
        apply hoare_ret. split; [now apply node_flat_fits|]. cbn [Hom.hselector]. discriminate.
      - (* cons, hierarchical *)
        cbn [Hom.direct]. unfold with_var, with_next. rewrite A1, A2.
        rewrite (oshape_fun _ _ _ O1 _ O) in *.
        eapply hoare_bind; [apply (hcall_safe o'' n1 s r x T1 O' Fx)|]. intros y [Fy Sy].
        apply hoare_ret. split; [now apply node_hier_fits|]. cbn [Hom.hselector]. discriminate.
      - (* constant *)
        cbn [Hom.direct]. apply hoare_ret. split; [auto|]. cbn [Hom.hselector]. discriminate.
      - (* fixpoint *)
        cbn [Hom.direct]. rewrite (oshape_fun _ _ _ O1 _ O) in *.
        eapply hoare_conseq; [apply (fix_safe o h1 s T1 O n x Fx)|]. intros y Hy.
        split; [apply Hy|]. cbn [Hom.hselector]. apply Hy.
      - (* function, terminal *)
        destruct (oshape_inv _ _ _ O) as [[_ ->]|[E' _]]; [|congruence].
        destruct x as [| |v a|v a]; try congruence; try (destruct Fx as [_ Fx]; now inversion Fx).
        cbn [Hom.direct]. apply hoare_ret. split; [auto|]. intros _. apply sub_refl.
      - (* function, target *)
        rewrite (oshape_fun _ _ _ O _ O1) in *.
        destruct x as [| |v arcs|v arcs]; try congruence; try (destruct Fx as [_ Fx]; now inversion Fx).
        destruct (fits_flat_inv VI PF _ _ _ _ Fx) as (-> & _ & D & G).
        inversion O1 as [|? ? ? ? ? A1|]; subst. cbn [Hom.direct]. unfold with_var. rewrite A1.
        set (g := f_apply US f).
        assert (Sub : forall y, f_sel US f = true -> (forall p, contains y p = true ->
                  exists v s a q, In (v, s) arcs /\ p = AVal t a q /\ v_mem VI (g v) a = true
                    /\ contains s q = true) -> sub y (Flat t arcs)).
        { intros y Sel Hy p Cp. apply Hy in Cp. destruct Cp as (v & z & a & q & Hin & -> & M & C).
          rewrite contains_flat, N.eqb_refl. cbn [andb]. apply acontains_spec. exists v, z.
          split; [auto|split; [|auto]]. now apply (ho_sel HO f). }
        destruct (f_sel US f || f_shift US f) eqn:E.
        + assert (Hg : forall v w, disjoint (v_mem VI) v w -> disjoint (v_mem VI) (g v) (g w)).
          { intros v w Dvw. apply orb_true_iff in E. destruct E as [E|E].
            - intros a M1 M2. apply (Dvw a); now apply (ho_sel HO f).
            - now apply (ho_shift HO f). }
          destruct (fun_fast_ok t r g arcs Fx Hg) as [Fy C].
          apply hoare_ret. split; [exact Fy|]. cbn [Hom.hselector]. intros Sel. apply Sub; auto.
          intros p Cp. now apply C.
        + destruct (fun_slow_ok t r g arcs Fx) as (y & Ey & Fy & C). apply lift_ex.
          exists y. split; [exact Ey|]. split; [exact Fy|]. cbn [Hom.hselector].
          apply orb_false_iff in E. destruct E. congruence.
      - exfalso. apply (Down l o1 t); auto.
      - (* if_then_else *)
        cbn [Hom.direct]. rewrite (oshape_fun _ _ _ O1 _ O) in *.
        eapply hoare_bind; [apply (hcall_safe o p s s x T1 O Fx)|]. intros y [Fy Sy].
        eapply hoare_bind; [apply (hcall_safe o t s s' y T2 O Fy)|]. intros a [Fa Sa].
        destruct (minus_ok VI VL PF PO s x y Fx Fy) as (d & E & Fd & Cd). rewrite E. cbn [lift bind].
        eapply hoare_bind; [apply (hcall_safe o e s s' d T3 O Fd)|]. intros b [Fb Sb].
        destruct (sum_ok VI VL PF PO s' [a; b]) as (z & E' & Fz & C).
        { intros w [<-|[<-|[]]]; auto. }
        apply lift_ex. exists z. split; [auto|split; [auto|]]. cbn [Hom.hselector]. intros Se.
        apply andb_true_iff in Se. destruct Se as [Se St]. intros q Cq. rewrite C in Cq. cbn in Cq.
        rewrite orb_false_r in Cq. apply orb_true_iff in Cq. destruct Cq as [Cq|Cq].
        + apply Sa in Cq; auto. now apply Sy.
        + apply Sb in Cq; auto. rewrite Cd in Cq. now apply andb_true_iff in Cq.
      - (* inductive, terminal *)
        destruct (oshape_inv _ _ _ O) as [[_ ->]|[E' _]]; [|congruence].
        destruct x as [| |v a|v a]; [congruence| |destruct Fx as [_ Fx]; inversion Fx..].
        cbn [Hom.direct]. apply hoare_ret. split; [auto|]. exact Logic.I.
      - rewrite Hs in Sk; [discriminate|]. eapply olevel_nonempty; eauto.
      - (* inductive, flat *)
        destruct (oshape_inv _ _ _ O) as [[E' _]|(_ & l & o' & r & L' & -> & O')].
        { rewrite (olevel_nonempty _ _ _ _ L) in E'. discriminate. }
        destruct (olevel_fun _ _ _ _ L' _ _ L) as [-> ->]. cbn [under] in *.
        destruct x as [| |v arcs|v arcs]; try congruence; try (destruct Fx as [_ Fx]; now inversion Fx).
        destruct (fits_flat_inv VI PF _ _ _ _ Fx) as (-> & _ & D & G).
        cbn [Hom.direct]. unfold with_next. rewrite (proj1 (proj2 L)).
        eapply hoare_bind; [apply (ind_vals_safe o1 r s' (i_flat US i o) arcs O')|].
        + intros v z Hin. destruct (G v z Hin) as (G1 & G2 & G3). auto.
        + intros ys Hys. apply lift_ex.
          destruct (sum_ok VI VL PF PO s' ys Hys) as (y & E & Fy & C). exists y. split; [auto|].
          split; [auto|]. exact Logic.I.
      - (* inductive, hierarchical *)
        destruct (oshape_inv _ _ _ O) as [[E' _]|(_ & l & o' & r & L' & -> & O')].
        { rewrite (olevel_nonempty _ _ _ _ L) in E'. discriminate. }
        destruct (olevel_fun _ _ _ _ L' _ _ L) as [-> ->]. cbn [under] in *.
        destruct x as [| |v arcs|v arcs]; try congruence; try (destruct Fx as [_ Fx]; now inversion Fx).
        destruct (fits_hier_inv VI PF _ _ _ _ _ Fx) as (-> & _ & D & G).
        cbn [Hom.direct]. unfold with_next. rewrite (proj1 (proj2 L)).
        eapply hoare_bind; [apply (ind_vals_safe o1 r s' (i_hier US i o) arcs O')|].
        + intros v z Hin. destruct (G v z Hin) as (G1 & G2 & G3 & G4). auto.
        + intros ys Hys. apply lift_ex.
          destruct (sum_ok VI VL PF PO s' ys Hys) as (y & E & Fy & C). exists y. split; [auto|].
          split; [auto|]. exact Logic.I.
      - (* intersection *)
        cbn [Hom.direct]. apply (inter_safe o s s' x hs O Fx T1 [] (forallb hselector hs)); auto.
        intros y [].
      - (* local, target *)
        assert (E : s = SHier t n1 r).
        { apply (oshape_fun _ _ _ O). now apply (oshape_level _ _ (LHier t n1) _ r L). }
        rewrite E in *.
        eapply hoare_conseq; [apply (local_safe n o t n1 o1 on h1 n' r x L M O1 T1 Fx Nz)|].
        intros y Hy. exact Hy.
      - exfalso. apply (Down l o1 t); auto.
      - (* saturation fixpoint *)
        cbn [Hom.direct]. rewrite (oshape_fun _ _ _ O1 _ O) in *.
        eapply hoare_conseq; [apply (sat_safe o s f g q O T1 T2 T3 n x Fx)|]. intros y Hy. exact Hy.
      - exfalso. apply (Down l o1 x1); auto.
      - (* saturation intersection *)
        cbn [Hom.direct]. eapply hoare_bind; [apply (hcalls_safe o s s' x _ O Fx T1)|].
        intros ys [Hl Hys]. apply lift_ex.
        assert (Ney : ys <> []).
        { intros ->. apply Ne. destruct (opt_list VI U F I f ++ g ++ opt_list VI U F I q); [auto|discriminate]. }
        destruct (inter_ok VI VL PF PO s' ys Ney) as (y & E & Fy & C).
        { intros z Hz. now apply Hys. }
        exists y. split; [auto|split; [auto|]]. cbn [Hom.hselector]. intros Sel p Cp.
        apply sel_opt_list in Sel. rewrite C, forallb_forall in Cp.
        destruct ys as [|a ys]; [congruence|].
        apply (proj2 (Hys a (or_introl eq_refl)) Sel). apply Cp. now left.
      - exfalso. apply (Down l o1 x1); auto.
      - (* saturation sum *)
        cbn [Hom.direct]. eapply hoare_conseq; [apply (sum_sub o s s' x _ O Fx T1)|].
        intros y [Fy Sy]. split; [auto|]. cbn [Hom.hselector]. intros Sel. apply Sy. now apply sel_opt_list.
      - exfalso. apply (Down l o1 x1); auto.
      - (* sum *)
        cbn [Hom.direct]. eapply hoare_conseq; [apply (sum_sub o s s' x _ O Fx T1)|].
        intros y [Fy Sy]. split; [auto|]. cbn [Hom.hselector]. exact Sy.
    Qed.

    Lemma body_safe n o h s s' x : typed o h s' -> oshape o s -> fits s x -> x <> Zero -> h <> HId ->
      hoare (hom_body n (o, h, x)) (weak_ok h s' x).
    Proof.
      intros T O Fx Nz Ni. destruct (oshape_inv _ _ _ O) as [[E ->]|(E & l & o' & r & L & -> & O')].
      - destruct x as [| |v a|v a]; try congruence; try (destruct Fx as [_ Fx]; now inversion Fx).
        cbn [Hom.hom_body]. apply (direct_safe n o h SEnd s' One); auto. congruence.
      - destruct (hskip o h) eqn:Hs.
        + destruct (typed_next o h s' T l o' L Hs) as (r' & -> & T').
          eapply hoare_conseq; [apply (body_skip n o l o' h r r' x L O' Fx Nz Hs T')|].
          intros y Hy. now apply weaken.
        + pose proof (direct_safe n o h _ s' x T O Fx Nz Ni (fun _ => Hs)) as X.
          unfold Hom.hom_body. unfold with_var. rewrite (proj1 L), Hs.
          destruct x as [| |var arcs|var arcs]; destruct l as [z|z m]; cbn [under] in *;
            try congruence; try (destruct Fx as [_ Fx]; now inversion Fx).
          * destruct (fits_flat_inv VI PF _ _ _ _ Fx) as (-> & _). cbn [lvar]. now rewrite N.eqb_refl.
          * destruct (fits_hier_inv VI PF _ _ _ _ _ Fx) as (-> & _). cbn [lvar]. now rewrite N.eqb_refl.
    Qed.
  End Safety.

  Theorem heval_safe (HO : honest) n : forall fuel, safe (heval n fuel).
  Proof.
    induction fuel as [|fuel IH]; intros o h s s' x T O Fx Nz Ni.
    - reflexivity.
    - pose proof (body_safe HO (heval n fuel) IH n o h s s' x T O Fx Nz Ni) as B.
      unfold hoare in B. change (interp (heval n fuel) (hom_body n (o, h, x)))
        with (heval n (S fuel) (o, h, x)) in B.
      destruct (heval n (S fuel) (o, h, x)) as [y|e] eqn:E; cbn in *; [|auto].
      destruct B as [Fy Sy]. split; [auto|].
      destruct h as [| | | | | | | |i| | | | | |]; auto. cbn [Hom.hselector]. intros Sel.
      apply (ho_ind HO i o s s' x y Sel O T Fx).
      apply evals_ends; auto. exists n, (S fuel). exact E.
  Qed.

  (** The evaluation of a well-typed homomorphism gives an SDD of the announced shape. *)
  Theorem evals_fits (HO : honest) o h s s' x y : typed o h s' -> oshape o s -> fits s x ->
    evals o h x y -> fits s' y.
  Proof.
    intros T O Fx (n & fuel & E).
    pose proof (hcall_safe (heval n fuel) (heval_safe HO n fuel) o h s s' x T O Fx) as X.
    unfold hoare in X. unfold happly in E. rewrite E in X. apply X.
  Qed.

  (** The result of a selector is a subset of its operand. *)
  Theorem evals_selector (HO : honest) o h s s' x y : typed o h s' -> oshape o s -> fits s x ->
    hselector h = true -> evals o h x y -> sub y x.
  Proof.
    intros T O Fx Sel (n & fuel & E).
    pose proof (hcall_safe (heval n fuel) (heval_safe HO n fuel) o h s s' x T O Fx) as X.
    unfold hoare in X. unfold happly in E. rewrite E in X. now apply X.
  Qed.

  (** Evaluation never fails; it may only not end. *)
  Theorem happly_safe (HO : honest) o h s s' x n fuel : typed o h s' -> oshape o s -> fits s x ->
    (exists y, happly VI PF U F I US n fuel o h x = Ok y) \/
    happly VI PF U F I US n fuel o h x = Err EFuel.
  Proof.
    intros T O Fx.
    pose proof (hcall_safe (heval n fuel) (heval_safe HO n fuel) o h s s' x T O Fx) as X.
    unfold hoare, happly in *. destruct (interp (heval n fuel) (hcall o h x)) as [y|e]; cbn in X; eauto.
    right. now subst e.
  Qed.
End Typed.
