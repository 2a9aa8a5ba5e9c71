(** * Properties C07 and C11: when union, intersection and difference throw

    Sdd.v's [aclash p q]: the assignments p and q, followed together as long as they give the same values, come to different
    variables, to a flat and to a hierarchical variable, or to the end of only one of them. *)

From Coq Require Import List Bool NArith Arith Permutation Lia.
From Verif Require Import Base SortedSets Values Sdd SddFacts DDModel DDProofs Spec DDTheorems DDAlgebra FlatSet Bitset Concrete
  DDProps Count Moving MovingProofs MovingProps.
Import ListNotations.

(** Some assignment of [x] clashes with some assignment of [y]. *)
Definition clashing {VI : values_impl} (x y : sdd (vt VI)) : Prop :=
  exists p q, contains x p = true /\ contains y q = true /\ aclash p q.
(** The exception sdd::top. *)
Definition throws_top {VI : values_impl} (r : res (err (vt VI)) (sdd (vt VI))) : Prop := exists a b, r = Err (ETop a b).
Definition returns {VI : values_impl} (r : res (err (vt VI)) (sdd (vt VI))) : Prop := exists x, r = Ok x.

(** ** Lemmas *)

Section Clash.
  Variable VI : values_impl.
  Variable VL : values_laws VI.
  Notation V := (vt VI).
  Notation sdd := (sdd V).
  Notation res := (res (err V) sdd).
  Variable PF : platform VI.
  Variable PO : platform_ok PF.

  (** The assignments of a list of SDDs. *)
  Definition list_universe (l : list sdd) (H : forall x y, In x l -> In y l -> ~ clashing x y) : universe VI.
  Proof.
    refine {| u_in := fun p => exists x, In x l /\ contains x p = true |}.
    intros p q (x & Hx & Cx) (y & Hy & Cy) C. apply (H x y Hx Hy). exists p, q. auto.
  Defined.

  Lemma list_mode : forall l H, (forall x, In x l -> built VI PF x) ->
    forall x, In x l -> canonical VI (addr_lt PF) x /\ mode_ok VI (Some (list_universe l H)) x.
  Proof.
    intros l H HB x Hx. destruct (built_ok VI VL PF PO x (HB x Hx)) as [C [K _]].
    split; [auto|split; [auto|]]. intros p Hp. exists x. auto.
  Qed.
  Lemma none_mode : forall l, (forall x, In x l -> built VI PF x) ->
    forall x, In x l -> canonical VI (addr_lt PF) x /\ mode_ok VI None x.
  Proof. intros l HB x Hx. apply (built_ok VI VL PF PO). auto. Qed.
  Lemma coherent_list : forall l, (forall x, In x l -> built VI PF x) ->
    forall x, In x l -> canonical VI (addr_lt PF) x /\ coherent x.
  Proof. intros l HB x Hx. destruct (none_mode l HB x Hx) as [C [K _]]. auto. Qed.

  Lemma outcome_some : forall U (P : sdd -> Prop) (r : res), outcome (Ex VI (Some U)) P r -> exists x, r = Ok x /\ P x.
  Proof.
    intros U P [x|e] H; simpl in H; [eauto|]. exfalso. destruct e; simpl in H; try (destruct H; discriminate); exact H.
  Qed.
  Lemma outcome_none : forall (P : sdd -> Prop) (r : res), outcome (Ex VI None) P r -> (exists x, r = Ok x /\ P x) \/ throws_top r.
  Proof.
    intros P [x|e] H; simpl in H; [eauto|]. right. destruct e as [a b| | |]; simpl in H; try destruct H. now exists a, b.
  Qed.

  Lemma pair_free : forall x y, built VI PF x -> built VI PF y -> ~ clashing x y ->
    forall a b, In a [x; y] -> In b [x; y] -> ~ clashing a b.
  Proof.
    intros x y Bx By H a b Ha Hb (p & q & Cp & Cq & C).
    assert (HC : forall z, In z [x; y] -> built VI PF z) by (intros z [<-|[<-|[]]]; auto).
    destruct Ha as [<-|[<-|[]]]; destruct Hb as [<-|[<-|[]]].
    - apply (proj2 (coherent_list _ HC x (or_introl eq_refl)) p q Cp Cq C).
    - apply H. exists p, q. auto.
    - apply H. exists q, p. split; [auto|split; [auto|]]. now apply aclash_sym.
    - apply (proj2 (coherent_list _ HC y (or_intror (or_introl eq_refl))) p q Cp Cq C).
  Qed.

  Lemma asg_eq_dec : forall p q : asg (elt VI), p = q \/ p <> q.
  Proof.
    assert (ED : forall a b : elt VI, a = b \/ a <> b).
    { intros a b. destruct (equivb (e_lt VI) a b) eqn:E.
      - left. now apply (equivb_spec _ (vl_elt VL)).
      - right. intros ->. rewrite (proj2 (equivb_spec _ (vl_elt VL) b b) eq_refl) in E. discriminate. }
    induction p as [|x a p IH|x n IHn p IH]; intros [|y b q|y m q]; try (right; discriminate); [now left| |].
    - destruct (N.eq_dec x y) as [->|NE]; [|right; congruence].
      destruct (ED a b) as [->|NE]; [|right; congruence].
      destruct (IH q) as [->|NE]; [now left|right; congruence].
    - destruct (N.eq_dec x y) as [->|NE]; [|right; congruence].
      destruct (IHn m) as [->|NE]; [|right; congruence].
      destruct (IH q) as [->|NE]; [now left|right; congruence].
  Qed.
  Lemma aclash_dec : forall p q : asg (elt VI), aclash p q \/ ~ aclash p q.
  Proof.
    assert (ED : forall a b : elt VI, a = b \/ a <> b).
    { intros a b. destruct (asg_eq_dec (AVal 0 a ANil) (AVal 0 b ANil)) as [E|E]; [left|right]; congruence. }
    induction p as [|x a p IH|x n IHn p IH]; intros [|y b q|y m q]; simpl; try tauto.
    - destruct (N.eq_dec x y), (ED a b), (IH q); tauto.
    - destruct (N.eq_dec x y), (IHn m), (asg_eq_dec n m), (IH q); tauto.
  Qed.
  Lemma list_dec : forall A (P : A -> Prop) l, (forall x, P x \/ ~ P x) ->
    (exists x, In x l /\ P x) \/ (forall x, In x l -> ~ P x).
  Proof.
    intros A P l D. induction l as [|a l [(x & Hx & Px)|IH]].
    - right. intros x [].
    - left. exists x. split; [now right|auto].
    - destruct (D a) as [Pa|Na]; [left; exists a; split; [now left|auto]|].
      right. intros x [<-|Hx]; auto.
  Qed.
  (** SDDs denote finite sets, hence: *)
  Lemma clashing_dec : forall x y : sdd, clashing x y \/ ~ clashing x y.
  Proof.
    intros x y.
    destruct (list_dec _ (fun p => exists q, In q (enum VI y) /\ aclash p q) (enum VI x)) as [(p & Hp & q & Hq & C)|H].
    - intros p. destruct (list_dec _ (aclash p) (enum VI y) (aclash_dec p)) as [(q & Hq & C)|H]; [left; eauto|].
      right. intros (q & Hq & C). exact (H q Hq C).
    - left. exists p, q. rewrite (enum_spec VI VL) in Hp, Hq. auto.
    - right. intros (p & q & Hp & Hq & C). apply (H p); [now apply (enum_spec VI VL)|].
      exists q. split; [now apply (enum_spec VI VL)|auto].
  Qed.
  Lemma clash_list_dec : forall l : list sdd, (exists x y, In x l /\ In y l /\ clashing x y) \/
    (forall x y, In x l -> In y l -> ~ clashing x y).
  Proof.
    intros l. destruct (list_dec _ (fun x => exists y, In y l /\ clashing x y) l) as [(x & Hx & y & Hy & C)|H].
    - intros x. destruct (list_dec _ (fun y => clashing x y) l (clashing_dec x)) as [(y & Hy & C)|H]; [left; eauto|].
      right. intros (y & Hy & C). exact (H y Hy C).
    - left. exists x, y. auto.
    - right. intros x y Hx Hy C. apply (H x Hx). eauto.
  Qed.

  Lemma is_zero_true : forall x : sdd, is_zero VI x = true -> x = Zero.
  Proof. intros []; simpl; congruence. Qed.
  Lemma not_both : forall (r : res) x, r = Ok x -> ~ throws_top r.
  Proof. intros r x -> (a & b & E). discriminate. Qed.

  (** ** For one order of addresses *)

  Lemma sum_returns : forall l, (forall x, In x l -> built VI PF x) ->
    (forall x y, In x l -> In y l -> ~ clashing x y) -> returns (api_sum VI PF l).
  Proof.
    intros l HB H. destruct (outcome_some _ _ _ (api_sum_ok VI VL PF PO _ l (list_mode l H HB))) as (r & E & _). now exists r.
  Qed.
  Lemma inter_returns : forall l, (forall x, In x l -> built VI PF x) ->
    (forall x y, In x l -> In y l -> ~ clashing x y) -> returns (api_intersection VI PF l).
  Proof.
    intros [|a l] HB H; [exists Zero; reflexivity|].
    destruct (outcome_some _ _ _ (api_intersection_ok VI VL PF PO _ (a :: l) ltac:(discriminate) (list_mode _ H HB)))
      as (r & E & _). now exists r.
  Qed.
  Lemma minus_returns : forall x y, built VI PF x -> built VI PF y -> ~ clashing x y -> returns (api_minus VI PF x y).
  Proof.
    intros x y Bx By H. pose proof (pair_free x y Bx By H) as H'.
    assert (HC : forall z, In z [x; y] -> built VI PF z) by (intros z [<-|[<-|[]]]; auto).
    destruct (list_mode [x; y] H' HC x (or_introl eq_refl)) as [C1 M1].
    destruct (list_mode [x; y] H' HC y (or_intror (or_introl eq_refl))) as [C2 M2].
    destruct (outcome_some _ _ _ (api_minus_ok VI VL PF PO _ x y C1 C2 M1 M2)) as (r & E & _). now exists r.
  Qed.

  Lemma sum_throws : forall l, (forall x, In x l -> built VI PF x) ->
    forall x y, In x l -> In y l -> clashing x y -> throws_top (api_sum VI PF l).
  Proof.
    intros l HB x y Hx Hy (p & q & Cp & Cq & C).
    destruct (outcome_none _ _ (api_sum_ok VI VL PF PO None l (none_mode l HB))) as [(r & E & _)|H]; [|exact H].
    exfalso. exact (api_sum_agree VI VL PF PO l r (coherent_list l HB) E x y Hx Hy p q Cp Cq C).
  Qed.
  Lemma and_throws : forall x y, built VI PF x -> built VI PF y -> clashing x y -> throws_top (api_and VI PF x y).
  Proof.
    intros x y Bx By (p & q & Cp & Cq & C).
    assert (HC : forall z, In z [x; y] -> built VI PF z) by (intros z [<-|[<-|[]]]; auto).
    destruct (outcome_none _ _ (api_intersection_ok VI VL PF PO None [x; y] ltac:(discriminate) (none_mode _ HC))) as [(r & E & _)|H];
      [|exact H].
    destruct (coherent_list _ HC x (or_introl eq_refl)) as [C1 K1].
    destruct (coherent_list _ HC y (or_intror (or_introl eq_refl))) as [C2 K2].
    exfalso. exact (api_intersection_agree VI VL PF PO x y r C1 C2 K1 K2 E p q Cp Cq C).
  Qed.
  Lemma minus_throws : forall x y, built VI PF x -> built VI PF y -> clashing x y -> throws_top (api_minus VI PF x y).
  Proof.
    intros x y Bx By (p & q & Cp & Cq & C).
    destruct (built_ok VI VL PF PO x Bx) as [C1 M1]. destruct (built_ok VI VL PF PO y By) as [C2 M2].
    destruct (outcome_none _ _ (api_minus_ok VI VL PF PO None x y C1 C2 M1 M2)) as [(r & E & _ & _ & _ & A)|H]; [|exact H].
    exfalso. exact (A p q Cp Cq C).
  Qed.

  (** ** n-ary intersections *)

  (** Some operand clashes with the intersection of the operands before it. *)
  Definition clash_with_previous (l : list sdd) : Prop :=
    exists l1 x l2 p q, l = l1 ++ x :: l2 /\ l1 <> [] /\
      (forall y, In y l1 -> contains y p = true) /\ contains x q = true /\ aclash p q.

  Lemma previous_dec : forall l, clash_with_previous l \/ ~ clash_with_previous l.
  Proof.
    (* the intersection of the first operands is a finite set *)
    assert (D : forall (l1 : list sdd) (x : sdd), (exists p q, (forall y, In y l1 -> contains y p = true) /\ contains x q = true /\ aclash p q) \/
      l1 = [] \/ ~ exists p q, (forall y, In y l1 -> contains y p = true) /\ contains x q = true /\ aclash p q).
    { intros [|a l1] x; [auto|].
      destruct (list_dec _ (fun p => forallb (fun y => contains y p) (a :: l1) = true /\ exists q, In q (enum VI x) /\ aclash p q)
        (enum VI a)) as [(p & Hp & Hl & q & Hq & C)|H].
      - intros p. destruct (forallb (fun y => contains y p) (a :: l1)); [|right; intros [H _]; discriminate].
        destruct (list_dec _ (aclash p) (enum VI x) (aclash_dec p)) as [(q & Hq & C)|H]; [left; eauto|].
        right. intros (_ & q & Hq & C). exact (H q Hq C).
      - left. exists p, q. rewrite forallb_forall in Hl. split; [exact Hl|split; [now apply (enum_spec VI VL)|auto]].
      - right. right. intros (p & q & Hl & Hq & C). apply (H p); [apply (enum_spec VI VL), Hl; now left|].
        split; [now apply forallb_forall|]. exists q. split; [now apply (enum_spec VI VL)|auto]. }
    assert (G : forall l2 l1, l1 <> [] -> (exists (m : list sdd) x n p q, l2 = m ++ x :: n /\
        (forall y, In y (l1 ++ m) -> contains y p = true) /\ contains x q = true /\ aclash p q) \/
      ~ exists (m : list sdd) x n p q, l2 = m ++ x :: n /\
        (forall y, In y (l1 ++ m) -> contains y p = true) /\ contains x q = true /\ aclash p q).
    { induction l2 as [|x l2 IH]; intros l1 Hl1.
      - right. intros (m & x & n & p & q & E & _). destruct m; discriminate E.
      - destruct (D l1 x) as [(p & q & H)|[E|H]]; [|congruence|].
        + left. exists [], x, l2, p, q. rewrite app_nil_r. auto.
        + destruct (IH (l1 ++ [x])) as [(m & y & n & p & q & E & K)|NK]; [now destruct l1| |].
          * left. exists (x :: m), y, n, p, q. rewrite <- app_assoc in K. split; [now rewrite E|exact K].
          * right. intros (m & y & n & p & q & E & K & Hq & C). destruct m as [|z m].
            -- injection E as <- <-. rewrite app_nil_r in K. apply H. exists p, q. auto.
            -- injection E as <- E. apply NK. exists m, y, n, p, q. rewrite <- app_assoc. auto. }
    intros [|a l].
    - right. intros (l1 & x & l2 & p & q & E & _). destruct l1; discriminate E.
    - destruct (G l [a]) as [(m & x & n & p & q & E & K & Hq & C)|NK]; [discriminate| |].
      + left. exists (a :: m), x, n, p, q. split; [now rewrite E|split; [discriminate|auto]].
      + right. intros (l1 & x & l2 & p & q & E & Hl1 & K & Hq & C). destruct l1 as [|u l1]; [congruence|].
        injection E as <- E. apply NK. exists l1, x, l2, p, q. auto.
  Qed.

  Lemma su_run_nonempty : forall W (ops : valops VI W) h m alpha r,
    interp h (su_run VI PF ops m alpha) = Ok r -> m <> [] \/ alpha <> [] -> r <> [].
  Proof.
    intros W ops h. induction m as [|[s b] m IH]; intros alpha r E H; cbn [su_run] in E.
    - injection E as <-. destruct H; congruence.
    - rewrite interp_bind in E. destruct (interp h (vo_sum ops b)) as [v|e]; [|discriminate].
      apply (IH _ _ E). right. unfold alpha_add, fm_emplace. destruct alpha as [|[s0 v0] alpha]; cbn; [discriminate|].
      destruct (addr_lt PF s s0), (addr_lt PF s0 s); discriminate.
  Qed.

  Lemma inter_body_split : forall h a b c r,
    interp h (inter_body VI PF (a :: b :: c :: r)) =
    rbind (interp h (inter_body VI PF [a; b]))
      (fun d => if is_zero VI d then Ok Zero else interp h (inter_body VI PF (d :: c :: r))).
  Proof.
    assert (G : forall W (ops : valops VI W) mk cast h var a b c r,
      (forall alpha, mk var alpha <> Zero) ->
      (forall alpha, interp h (inter_body VI PF (mk var alpha :: c :: r)) =
                     interp h (inter_operands VI PF ops mk cast var (mk var alpha) (c :: r))) ->
      interp h (inter_operands VI PF ops mk cast var a (b :: c :: r)) =
      rbind (interp h (inter_operands VI PF ops mk cast var a [b]))
        (fun d => if is_zero VI d then Ok Zero else interp h (inter_body VI PF (d :: c :: r)))).
    { intros W ops mk cast h var a b c r Hz Hb. cbn [inter_operands]. rewrite !interp_bind.
      destruct (interp h (check_compatibility VI a b)) as [[]|e]; cbn [rbind]; [|reflexivity].
      destruct (cast a) as [[va la]|]; [|reflexivity]. destruct (cast b) as [[vb lb]|]; [|reflexivity].
      rewrite !interp_bind. destruct (interp h (inter_lhs VI PF ops la lb [])) as [m|e]; cbn [rbind]; [|reflexivity].
      destruct m as [|e m]; [reflexivity|]. rewrite !interp_bind.
      destruct (interp h (su_run VI PF ops (e :: m) [])) as [alpha|e'] eqn:E; cbn [rbind]; [|reflexivity].
      apply su_run_nonempty in E; [|left; discriminate].
      destruct alpha as [|u alpha]; [congruence|]. cbn [create_node].
      cbn [interp rbind]. set (al := map _ _). specialize (Hz al). specialize (Hb al).
      destruct (is_zero VI (mk var al)) eqn:EZ.
      - exfalso. apply Hz. now apply is_zero_true.
      - now rewrite Hb. }
    intros h [| |x la|x la] b c r; [reflexivity|reflexivity| |].
    - apply (G _ (flat_ops VI PF) Flat (cast_flat VI)); [discriminate|reflexivity].
    - apply (G _ (hier_ops VI PF) Hier (cast_hier VI)); [discriminate|reflexivity].
  Qed.

  Lemma inter_body_not_one : forall h a b d, interp h (inter_body VI PF [a; b]) = Ok d -> a <> One.
  Proof. intros h a b d E ->. discriminate. Qed.
  Lemma inter_body_not_one_r : forall h a b d, interp h (inter_body VI PF [a; b]) = Ok d -> d <> One.
  Proof.
    assert (G : forall W (ops : valops VI W) mk cast h var a b d, (forall alpha, mk var alpha <> One) ->
      interp h (inter_operands VI PF ops mk cast var a [b]) = Ok d -> d <> One).
    { intros W ops mk cast h var a b d Hm E. cbn [inter_operands] in E. rewrite interp_bind in E.
      destruct (interp h (check_compatibility VI a b)) as [[]|e]; [|discriminate E]. cbn [rbind] in E.
      destruct (cast a) as [[va la]|]; [|discriminate E]. destruct (cast b) as [[vb lb]|]; [|discriminate E].
      rewrite interp_bind in E. destruct (interp h (inter_lhs VI PF ops la lb [])) as [m|e]; [|discriminate E].
      cbn [rbind] in E. destruct m as [|e m]; [injection E as <-; discriminate|]. rewrite interp_bind in E.
      destruct (interp h (su_run VI PF ops (e :: m) [])) as [alpha|e']; [|discriminate E].
      cbn [rbind interp] in E. injection E as <-. destruct alpha; [discriminate|apply Hm]. }
    intros h [| |x la|x la] b d E; try discriminate E.
    - apply (G _ (flat_ops VI PF) Flat (cast_flat VI) h x (Flat x la) b d); [discriminate|exact E].
    - apply (G _ (hier_ops VI PF) Hier (cast_hier VI) h x (Hier x la) b d); [discriminate|exact E].
  Qed.

  Notation good := (good VI PF).
  Lemma pair_returns : forall n h a b, h_ok VI PF n h ->
    (forall x, In x [a; b] -> good (S n) None x /\ x <> Zero) -> (a = One -> b <> One) ->
    ~ clashing a b -> returns (interp h (inter_body VI PF [a; b])).
  Proof.
    intros n h a b HO HG H1 NC.
    assert (HN : forall t, [a; b] <> One :: One :: t) by (intros t E; injection E as -> -> _; now apply H1).
    assert (F : forall x y, In x [a; b] -> In y [a; b] -> ~ clashing x y).
    { intros x y Hx Hy (p & q & Cp & Cq & C).
      destruct (HG a (or_introl eq_refl)) as [(_ & _ & Ka & _) _].
      destruct (HG b (or_intror (or_introl eq_refl))) as [(_ & _ & Kb & _) _].
      destruct Hx as [<-|[<-|[]]], Hy as [<-|[<-|[]]].
      - exact (Ka p q Cp Cq C).
      - apply NC. exists p, q. auto.
      - apply NC. exists q, p. split; [auto|split; [auto|now apply aclash_sym]].
      - exact (Kb p q Cp Cq C). }
    pose proof (inter_body_ok VI VL PF PO n h (Some (list_universe [a; b] F)) [a; b] HO (le_n _) HN) as K.
    assert (HG' : forall x, In x [a; b] -> good (S n) (Some (list_universe [a; b] F)) x /\ x <> Zero).
    { intros x Hx. destruct (HG x Hx) as [(C & Hh & K1 & _) Z]. split; [|auto]. split; [auto|split; [auto|split; [auto|]]].
      intros p Hp. exists x. auto. }
    destruct (outcome_some _ _ _ (K HG')) as (d & E & _). now exists d.
  Qed.
  Lemma inter_body_throws : forall n h r a b, h_ok VI PF n h ->
    (forall x, In x (a :: b :: r) -> good (S n) None x /\ x <> Zero) -> (a = One -> b <> One) ->
    (clash_with_previous (a :: b :: r) -> throws_top (interp h (inter_body VI PF (a :: b :: r)))) /\
    (~ clash_with_previous (a :: b :: r) -> returns (interp h (inter_body VI PF (a :: b :: r)))).
  Proof.
    intros n h r. induction r as [|c r IH]; intros a b HO HG H1.
    - (* two operands *)
      assert (HN : forall t, [a; b] <> One :: One :: t) by (intros t E; injection E as -> -> _; now apply H1).
      pose proof (pair_returns n h a b HO HG H1) as R.
      split.
      + intros (l1 & x & l2 & p & q & E & Hl1 & Hp & Hq & C).
        destruct l1 as [|u [|v l1]]; [congruence| |].
        * injection E as <- <- <-.
          destruct (outcome_none _ _ (inter_body_ok VI VL PF PO n h None [a; b] HO (le_n _) HN HG)) as [(d & Ed & _ & _ & A)|T];
            [|exact T].
          exfalso. exact (A a b [] eq_refl p q (Hp a (or_introl eq_refl)) Hq C).
        * injection E as _ _ E. destruct l1; discriminate E.
      + intros NC. apply R. intros (p & q & Cp & Cq & C). apply NC. exists [a], b, [], p, q.
        split; [reflexivity|split; [discriminate|split; [|auto]]]. intros y [<-|[]]. auto.
    - (* more operands *)
      rewrite inter_body_split.
      assert (HN : forall t, [a; b] <> One :: One :: t) by (intros t E; injection E as -> -> _; now apply H1).
      assert (HG2 : forall x, In x [a; b] -> good (S n) None x /\ x <> Zero).
      { intros x [<-|[<-|[]]]; apply HG; simpl; auto. }
      destruct (outcome_none _ _ (inter_body_ok VI VL PF PO n h None [a; b] HO (le_n _) HN HG2)) as [(d & Ed & Gd & Cd & A)|T].
      + rewrite Ed. cbn [rbind]. specialize (A a b [] eq_refl).
        assert (EQ : clash_with_previous (a :: b :: c :: r) <-> clash_with_previous (d :: c :: r)).
        { split; intros (l1 & x & l2 & p & q & E & Hl1 & Hp & Hq & C).
          - destruct l1 as [|u [|v l1]]; [congruence| |].
            + injection E as <- <- <-. exfalso. exact (A p q (Hp a (or_introl eq_refl)) Hq C).
            + injection E as <- <- E. exists (d :: l1), x, l2, p, q. split; [now rewrite E|split; [discriminate|split; [|auto]]].
              intros y [<-|Hy]; [|apply Hp; simpl; auto].
              rewrite Cd. simpl. rewrite (Hp a), (Hp b); simpl; auto.
          - destruct l1 as [|u l1]; [congruence|]. injection E as <- E.
            exists (a :: b :: l1), x, l2, p, q. split; [simpl; now rewrite E|split; [discriminate|split; [|auto]]].
            assert (Hd : contains d p = true) by (apply Hp; now left).
            rewrite Cd in Hd. simpl in Hd. rewrite andb_true_r in Hd. apply andb_prop in Hd. destruct Hd as [Ha Hb].
            intros y [<-|[<-|Hy]]; auto. apply Hp. now right. }
        destruct (is_zero VI d) eqn:EZ.
        * apply is_zero_true in EZ. subst d. split; [|intros _; now exists Zero].
          intros K. apply EQ in K. destruct K as (l1 & x & l2 & p & q & E & Hl1 & Hp & _).
          destruct l1 as [|u l1]; [congruence|]. injection E as <- _.
          specialize (Hp Zero (or_introl eq_refl)). discriminate.
        * rewrite EQ. apply (IH d c HO).
          -- intros x [<-|Hx]; [split; [exact Gd|intros ->; discriminate]|]. apply HG. right. right. exact Hx.
          -- intros E. destruct (inter_body_not_one_r h a b d Ed E).
      + split.
        * intros _. destruct T as (u & v & E). exists u, v. now rewrite E.
        * intros NC. exfalso.
          destruct (clashing_dec a b) as [C|C].
          -- apply NC. destruct C as (p & q & Cp & Cq & C). exists [a], b, (c :: r), p, q.
             split; [reflexivity|split; [discriminate|split; [|auto]]]. intros y [<-|[]]. auto.
          -- destruct (pair_returns n h a b HO HG2 H1 C) as [d E]. exact (not_both _ _ E T).
  Qed.

  Lemma inter_throws : forall l l', (forall x, In x l -> built VI PF x) ->
    ssorted (addr_lt PF) l' -> (forall x, In x l <-> In x l') ->
    (~ In Zero l -> clash_with_previous l' -> throws_top (api_intersection VI PF l)) /\
    (In Zero l \/ ~ clash_with_previous l' -> returns (api_intersection VI PF l)).
  Proof.
    intros l l' HB HS HE. unfold api_intersection, run.
    destruct (ib_fold VI PF PO l false []) as (I1 & _ & I3).
    set (r := fold_left _ _ _) in *.
    destruct (existsb (is_zero VI) l) eqn:EZ.
    - apply existsb_exists in EZ. destruct EZ as (z & Hz & E). apply is_zero_true in E. subst z.
      unfold dd_intersection. rewrite I3 by auto. split; [intros H; now destruct H|]. intros _. now exists Zero.
    - assert (Hnz : forall x, In x l -> x <> Zero).
      { intros x Hx ->. assert (existsb (is_zero VI) l = true); [|congruence]. apply existsb_exists. exists Zero; auto. }
      destruct (I1 eq_refl Hnz) as (J1 & J2 & J3).
      assert (Er : snd r = l').
      { apply (ssorted_ext _ (pf_lt PO)); [apply J2; constructor|exact HS|]. intros x. rewrite J3, <- HE. simpl. tauto. }
      unfold dd_intersection. rewrite Er. destruct l' as [|a [|b t]].
      + split; [|intros _; now exists Zero]. intros _ (l1 & x & l2 & p & q & E & _). destruct l1; discriminate E.
      + split; [|intros _; now exists a]. intros _ (l1 & x & l2 & p & q & E & Hl1 & _).
        destruct l1 as [|u [|v l1]]; [congruence| |]; discriminate E.
      + unfold fuel_of. cbn [call interp]. cbn [dd_eval].
        set (n := list_max (map height l)).
        change (dd_body VI PF (OpInter (a :: b :: t))) with (inter_body VI PF (a :: b :: t)).
        assert (HG : forall x, In x (a :: b :: t) -> good (S n) None x /\ x <> Zero).
        { intros x Hx. apply HE in Hx. destruct (built_ok VI VL PF PO x (HB x Hx)) as [C M].
          split; [|auto]. split; [auto|split; [|auto]]. exact (fuel_height VI l x Hx). }
        destruct (inter_body_throws n (dd_eval VI PF n) t a b (dd_eval_ok VI VL PF PO n) HG) as [T R].
        { intros -> ->. inversion HS as [|? ? _ FF]; subst. inversion FF; subst.
          rewrite (st_irrefl (pf_lt PO)) in *. discriminate. }
        split.
        * intros _ C. destruct (T C) as (u & v & E). rewrite E. now exists u, v.
        * intros [Hz|NC]; [destruct (Hnz Zero Hz eq_refl)|]. destruct (R NC) as [d E]. rewrite E. now exists d.
  Qed.

  (** ** For addresses that change during the operation *)

  Variable O : oracle.
  Variable OO : oracle_ok O.

  Lemma moving_sum_returns : forall l, (forall x, In x l -> built VI PF x) ->
    (forall x y, In x l -> In y l -> ~ clashing x y) -> returns (moving_sum VI PF O l).
  Proof.
    intros l HB H. destruct (outcome_some _ _ _ (moving_sum_ok VI VL PF PO O OO _ l (list_mode l H HB))) as (r & E & _). now exists r.
  Qed.
  Lemma moving_inter_returns : forall l, (forall x, In x l -> built VI PF x) ->
    (forall x y, In x l -> In y l -> ~ clashing x y) -> returns (moving_intersection VI PF O l).
  Proof.
    intros [|a l] HB H; [exists Zero; reflexivity|].
    destruct (outcome_some _ _ _ (moving_intersection_ok VI VL PF PO O OO _ (a :: l) ltac:(discriminate) (list_mode _ H HB)))
      as (r & E & _). now exists r.
  Qed.
  Lemma moving_minus_returns : forall x y, built VI PF x -> built VI PF y -> ~ clashing x y -> returns (moving_minus VI PF O x y).
  Proof.
    intros x y Bx By H. pose proof (pair_free x y Bx By H) as H'.
    assert (HC : forall z, In z [x; y] -> built VI PF z) by (intros z [<-|[<-|[]]]; auto).
    destruct (list_mode [x; y] H' HC x (or_introl eq_refl)) as [C1 M1].
    destruct (list_mode [x; y] H' HC y (or_intror (or_introl eq_refl))) as [C2 M2].
    destruct (outcome_some _ _ _ (moving_minus_ok VI VL PF PO O OO _ x y C1 C2 M1 M2)) as (r & E & _). now exists r.
  Qed.
  Lemma moving_sum_throws : forall l, (forall x, In x l -> built VI PF x) ->
    forall x y, In x l -> In y l -> clashing x y -> throws_top (moving_sum VI PF O l).
  Proof.
    intros l HB x y Hx Hy (p & q & Cp & Cq & C).
    destruct (outcome_none _ _ (moving_sum_ok VI VL PF PO O OO None l (none_mode l HB))) as [(r & E & _)|H]; [|exact H].
    exfalso. exact (moving_sum_agree VI VL PF PO O OO l r (coherent_list l HB) E x y Hx Hy p q Cp Cq C).
  Qed.
  Lemma moving_and_throws : forall x y, built VI PF x -> built VI PF y -> clashing x y ->
    throws_top (moving_intersection VI PF O [x; y]).
  Proof.
    intros x y Bx By (p & q & Cp & Cq & C).
    assert (HC : forall z, In z [x; y] -> built VI PF z) by (intros z [<-|[<-|[]]]; auto).
    destruct (outcome_none _ _ (moving_intersection_ok VI VL PF PO O OO None [x; y] ltac:(discriminate) (none_mode _ HC)))
      as [(r & E & _)|H]; [|exact H].
    destruct (coherent_list _ HC x (or_introl eq_refl)) as [C1 K1].
    destruct (coherent_list _ HC y (or_intror (or_introl eq_refl))) as [C2 K2].
    exfalso. exact (moving_intersection_agree VI VL PF PO O OO x y r C1 C2 K1 K2 E p q Cp Cq C).
  Qed.
  Lemma moving_minus_throws : forall x y, built VI PF x -> built VI PF y -> clashing x y ->
    throws_top (moving_minus VI PF O x y).
  Proof.
    intros x y Bx By (p & q & Cp & Cq & C).
    destruct (built_ok VI VL PF PO x Bx) as [C1 M1]. destruct (built_ok VI VL PF PO y By) as [C2 M2].
    destruct (outcome_none _ _ (moving_minus_ok VI VL PF PO O OO None x y C1 C2 M1 M2)) as [(r & E & _ & _ & _ & A)|H]; [|exact H].
    exfalso. exact (A p q Cp Cq C).
  Qed.
End Clash.

(** ** Statements *)

(** The SDDs a user can build mix no two incompatible assignments. *)
Theorem C07_never_mixed : forall VI (VL : values_laws VI) PF (PO : platform_ok PF) x p q,
  built VI PF x -> contains x p = true -> contains x q = true -> ~ aclash p q.
Proof. intros VI VL PF PO x p q B. apply (proj1 (proj2 (built_ok VI VL PF PO x B)) p q). Qed.
Print Assumptions C07_never_mixed.

(** A union throws exactly when two of its operands have assignments that clash, at any depth. *)
Theorem C07_union_throws_iff : forall VI (VL : values_laws VI) PF (PO : platform_ok PF) l,
  (forall x, In x l -> built VI PF x) ->
  (returns (api_sum VI PF l) <-> forall x y, In x l -> In y l -> ~ clashing x y) /\
  (throws_top (api_sum VI PF l) <-> exists x y, In x l /\ In y l /\ clashing x y).
Proof.
  intros VI VL PF PO l HB.
  assert (T : forall x y, In x l -> In y l -> clashing x y -> throws_top (api_sum VI PF l)) by exact (sum_throws VI VL PF PO l HB).
  split; split.
  - intros [r E] x y Hx Hy C. exact (not_both VI _ _ E (T x y Hx Hy C)).
  - now apply (sum_returns VI VL).
  - intros HT. destruct (clash_list_dec VI VL l) as [H|H]; [exact H|].
    destruct (sum_returns VI VL PF PO l HB H) as [r E]. destruct (not_both VI _ _ E HT).
  - intros (x & y & Hx & Hy & C). exact (T x y Hx Hy C).
Qed.
Print Assumptions C07_union_throws_iff.

(** So does a binary intersection, and a difference. *)
Theorem C07_intersection_throws_iff : forall VI (VL : values_laws VI) PF (PO : platform_ok PF) x y,
  built VI PF x -> built VI PF y ->
  (returns (api_and VI PF x y) <-> ~ clashing x y) /\ (throws_top (api_and VI PF x y) <-> clashing x y).
Proof.
  intros VI VL PF PO x y Bx By. pose proof (and_throws VI VL PF PO x y Bx By) as T.
  assert (R : ~ clashing x y -> returns (api_and VI PF x y)).
  { intros H. apply (inter_returns VI VL PF PO [x; y]); [intros z [<-|[<-|[]]]; auto|].
    exact (pair_free VI VL PF PO x y Bx By H). }
  split; split; auto.
  - intros [r E] C. exact (not_both VI _ _ E (T C)).
  - intros HT. destruct (clashing_dec VI VL x y) as [H|H]; [exact H|].
    destruct (R H) as [r E]. destruct (not_both VI _ _ E HT).
Qed.
Print Assumptions C07_intersection_throws_iff.
Theorem C07_difference_throws_iff : forall VI (VL : values_laws VI) PF (PO : platform_ok PF) x y,
  built VI PF x -> built VI PF y ->
  (returns (api_minus VI PF x y) <-> ~ clashing x y) /\ (throws_top (api_minus VI PF x y) <-> clashing x y).
Proof.
  intros VI VL PF PO x y Bx By. pose proof (minus_throws VI VL PF PO x y Bx By) as T.
  pose proof (minus_returns VI VL PF PO x y Bx By) as R.
  split; split; auto.
  - intros [r E] C. exact (not_both VI _ _ E (T C)).
  - intros HT. destruct (clashing_dec VI VL x y) as [H|H]; [exact H|].
    destruct (R H) as [r E]. destruct (not_both VI _ _ E HT).
Qed.
Print Assumptions C07_difference_throws_iff.

(** Hence the three operators throw on the same pairs of operands. *)
Theorem C07_operators_throw_alike : forall VI (VL : values_laws VI) PF (PO : platform_ok PF) x y,
  built VI PF x -> built VI PF y ->
  (throws_top (api_plus VI PF x y) <-> throws_top (api_and VI PF x y)) /\
  (throws_top (api_and VI PF x y) <-> throws_top (api_minus VI PF x y)) /\
  (throws_top (api_minus VI PF x y) <-> throws_top (api_minus VI PF y x)).
Proof.
  intros VI VL PF PO x y Bx By.
  assert (SY : clashing x y <-> clashing y x).
  { split; intros (p & q & Cp & Cq & C); exists q, p; (split; [auto|split; [auto|now apply aclash_sym]]). }
  assert (HC : forall z, In z [x; y] -> built VI PF z) by (intros z [<-|[<-|[]]]; auto).
  assert (P : throws_top (api_plus VI PF x y) <-> clashing x y).
  { split.
    - intros HT. destruct (clashing_dec VI VL x y) as [H|H]; [exact H|].
      destruct (sum_returns VI VL PF PO [x; y] HC (pair_free VI VL PF PO x y Bx By H)) as [r E].
      destruct (not_both VI _ _ E HT).
    - apply (sum_throws VI VL PF PO [x; y] HC); simpl; auto. }
  rewrite P, (proj2 (C07_intersection_throws_iff VI VL PF PO x y Bx By)),
    (proj2 (C07_difference_throws_iff VI VL PF PO x y Bx By)), (proj2 (C07_difference_throws_iff VI VL PF PO y x By Bx)).
  tauto.
Qed.
Print Assumptions C07_operators_throw_alike.

(** The same holds when addresses change at each visit of a container: whether an operation throws depends on the operands
    alone. *)
Theorem C09_moving_throws_iff : forall VI (VL : values_laws VI) PF (PO : platform_ok PF) O (OO : oracle_ok O) l x y,
  (forall z, In z l -> built VI PF z) -> built VI PF x -> built VI PF y ->
  (throws_top (moving_sum VI PF O l) <-> exists a b, In a l /\ In b l /\ clashing a b) /\
  (throws_top (moving_intersection VI PF O [x; y]) <-> clashing x y) /\
  (throws_top (moving_minus VI PF O x y) <-> clashing x y).
Proof.
  intros VI VL PF PO O OO l x y HB Bx By. split; [|split]; split.
  - intros HT. destruct (clash_list_dec VI VL l) as [H|H]; [exact H|].
    destruct (moving_sum_returns VI VL PF PO O OO l HB H) as [r E]. destruct (not_both VI _ _ E HT).
  - intros (a & b & Ha & Hb & C). exact (moving_sum_throws VI VL PF PO O OO l HB a b Ha Hb C).
  - intros HT. destruct (clashing_dec VI VL x y) as [H|H]; [exact H|].
    assert (HC : forall z, In z [x; y] -> built VI PF z) by (intros z [<-|[<-|[]]]; auto).
    destruct (moving_inter_returns VI VL PF PO O OO [x; y] HC (pair_free VI VL PF PO x y Bx By H)) as [r E].
    destruct (not_both VI _ _ E HT).
  - apply (moving_and_throws VI VL PF PO O OO x y Bx By).
  - intros HT. destruct (clashing_dec VI VL x y) as [H|H]; [exact H|].
    destruct (moving_minus_returns VI VL PF PO O OO x y Bx By H) as [r E]. destruct (not_both VI _ _ E HT).
  - apply (moving_minus_throws VI VL PF PO O OO x y Bx By).
Qed.
Print Assumptions C09_moving_throws_iff.

(** n-ary intersections: if no two operands clash, the intersection returns whatever the addresses. The converse is false
    (C11_intersection_throw_depends_on_addresses_refuted). *)
Theorem C11_intersection_returns_partial : forall VI (VL : values_laws VI) PF (PO : platform_ok PF) O (OO : oracle_ok O) l,
  (forall x, In x l -> built VI PF x) -> (forall x y, In x l -> In y l -> ~ clashing x y) ->
  returns (api_intersection VI PF l) /\ returns (moving_intersection VI PF O l).
Proof.
  intros VI VL PF PO O OO l HB H. split.
  - now apply (inter_returns VI VL).
  - now apply (moving_inter_returns VI VL).
Qed.
Print Assumptions C11_intersection_returns_partial.

(** Exactly when a n-ary intersection throws: in the order of addresses, some operand clashes with the intersection of the
    operands before it; and no operand is |0|.  This is the only way the addresses matter. *)
Theorem C11_intersection_throws_iff_partial : forall VI (VL : values_laws VI) PF (PO : platform_ok PF) l by_address,
  (forall x, In x l -> built VI PF x) ->
  ssorted (addr_lt PF) by_address -> (forall x, In x l <-> In x by_address) ->
  (throws_top (api_intersection VI PF l) <-> ~ In Zero l /\ clash_with_previous VI by_address) /\
  (returns (api_intersection VI PF l) <-> In Zero l \/ ~ clash_with_previous VI by_address).
Proof.
  intros VI VL PF PO l l' HB HS HE. destruct (inter_throws VI VL PF PO l l' HB HS HE) as [T R].
  assert (Z : In Zero l \/ ~ In Zero l).
  { destruct (existsb (is_zero VI) l) eqn:E.
    - left. apply existsb_exists in E. destruct E as (z & Hz & E). apply is_zero_true in E. now subst z.
    - right. intros H. assert (existsb (is_zero VI) l = true); [|congruence]. apply existsb_exists. exists Zero; auto. }
  assert (D : throws_top (api_intersection VI PF l) \/ returns (api_intersection VI PF l)).
  { destruct l as [|a l]; [right; exists Zero; reflexivity|].
    destruct (outcome_none VI _ _ (api_intersection_ok VI VL PF PO None (a :: l) ltac:(discriminate) (none_mode VI VL PF PO _ HB)))
      as [(r & E & _)|H]; [right; now exists r|now left]. }
  split; split.
  - intros HT.
    assert (NZ : ~ In Zero l). { intros H. destruct (R (or_introl H)) as [r E]. exact (not_both VI _ _ E HT). }
    split; [exact NZ|]. destruct (previous_dec VI VL l') as [C|C]; [exact C|].
    destruct (R (or_intror C)) as [r E]. destruct (not_both VI _ _ E HT).
  - intros [H1 H2]. auto.
  - intros [r E]. destruct Z as [Z|Z]; [now left|right]. intros C. exact (not_both VI _ _ E (T Z C)).
  - exact R.
Qed.
Print Assumptions C11_intersection_throws_iff_partial.

(** Operands whose heads are compatible: the first two clash below the head, the first and the third have different variables
    below the head but do not clash. *)
Definition ex_deep (v w : N) : sdd (vt FS) := node_flat FS PF_up 0 (fs [v]) (node_flat FS PF_up w (fs [0]%N) One).
Example C07_clash_ex :
  (forall v w, built FS PF_up (ex_deep v w)) /\
  clashing (ex_deep 0 1) (ex_deep 0 2) /\ ~ incompatible (VI := FS) (ex_deep 0 1) (ex_deep 0 2) /\
  ~ clashing (ex_deep 0 1) (ex_deep 1 2) /\
  throws_top (api_minus FS PF_up (ex_deep 0 1) (ex_deep 0 2)) /\
  returns (api_plus FS PF_up (ex_deep 0 1) (ex_deep 1 2)).
Proof.
  assert (B : forall v w, built FS PF_up (ex_deep v w)) by (intros; repeat constructor).
  assert (C : clashing (ex_deep 0 1) (ex_deep 0 2)).
  { exists (AVal 0 0%N (AVal 1 0%N ANil)), (AVal 0 0%N (AVal 2 0%N ANil)). vm_compute. repeat split; auto.
    right. split; [auto|]. left. discriminate. }
  assert (D : ~ clashing (ex_deep 0 1) (ex_deep 1 2)).
  { intros (p & q & Hp & Hq & K). apply (enum_spec FS FS_laws) in Hp, Hq. vm_compute in Hp, Hq.
    destruct Hp as [<-|[]], Hq as [<-|[]]. vm_compute in K. destruct K as [K|[K _]]; [now apply K|discriminate]. }
  split; [exact B|split; [exact C|split; [|split; [exact D|split]]]].
  - vm_compute. intros H. now apply H.
  - apply (C07_difference_throws_iff FS FS_laws PF_up PF_up_ok); auto.
  - apply (C07_union_throws_iff FS FS_laws PF_up PF_up_ok [ex_deep 0 1; ex_deep 1 2]).
    + intros x [<-|[<-|[]]]; auto.
    + exact (pair_free FS FS_laws PF_up PF_up_ok _ _ (B _ _) (B _ _) D).
Qed.

(** The operands of C11_intersection_throw_depends_on_addresses_refuted, in the two orders. *)
Example C11_ex :
  let x := node_flat FS PF_up 0 (fs [0]%N) One in let y := node_flat FS PF_up 0 (fs [1]%N) One in
  let z := node_flat FS PF_up 1 (fs [1]%N) One in
  ssorted (addr_lt PF_up) [x; y; z] /\ ssorted (addr_lt PF_down) [z; y; x] /\
  ~ clash_with_previous FS [x; y; z] /\ clash_with_previous FS [z; y; x] /\
  returns (api_intersection FS PF_up [x; y; z]) /\ throws_top (api_intersection FS PF_down [x; y; z]).
Proof.
  intros x y z.
  assert (S1 : ssorted (addr_lt PF_up) [x; y; z]) by (repeat constructor).
  assert (S2 : ssorted (addr_lt PF_down) [z; y; x]) by (repeat constructor).
  assert (P : ~ clash_with_previous FS [x; y; z]).
  { intros (l1 & u & l2 & p & q & E & Hl1 & Hp & Hq & C).
    assert (K : forall t, In t l1 -> In p (enum FS t)) by (intros t Ht; apply (enum_spec FS FS_laws); auto).
    apply (enum_spec FS FS_laws) in Hq.
    destruct l1 as [|a1 [|a2 l1]]; [congruence| |].
    - injection E as <- <- _. specialize (K _ (or_introl eq_refl)). vm_compute in K, Hq.
      destruct K as [<-|[]], Hq as [<-|[]]. vm_compute in C. destruct C as [C|[C _]]; [now apply C|discriminate].
    - injection E as <- <- _. pose proof (K _ (or_introl eq_refl)) as K1. pose proof (K _ (or_intror (or_introl eq_refl))) as K2.
      vm_compute in K1, K2. destruct K1 as [<-|[]], K2 as [K2|[]]. discriminate. }
  assert (Q : clash_with_previous FS [z; y; x]).
  { exists [z], y, [x], (AVal 1 1%N ANil), (AVal 0 1%N ANil). split; [reflexivity|split; [discriminate|split; [|split; [reflexivity|]]]].
    - intros t [<-|[]]. reflexivity.
    - left. discriminate. }
  split; [exact S1|split; [exact S2|split; [exact P|split; [exact Q|split]]]].
  - apply (C11_intersection_throws_iff_partial FS FS_laws PF_up PF_up_ok _ [x; y; z]); auto; try reflexivity.
    intros t [<-|[<-|[<-|[]]]]; repeat constructor.
  - apply (C11_intersection_throws_iff_partial FS FS_laws PF_down PF_down_ok _ [z; y; x]); auto.
    + intros t [<-|[<-|[<-|[]]]].
      * change (built FS PF_down (node_flat FS PF_down 0 (fs [0%N]) One)). repeat constructor.
      * change (built FS PF_down (node_flat FS PF_down 0 (fs [1%N]) One)). repeat constructor.
      * change (built FS PF_down (node_flat FS PF_down 1 (fs [1%N]) One)). repeat constructor.
    + intros t. simpl. tauto.
    + split; [|exact Q]. intros [H|[H|[H|[]]]]; discriminate H.
Qed.
