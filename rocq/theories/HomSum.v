(** * The constructor of sums: flattening and regrouping of locals preserve the result *)

From Coq Require Import List Bool NArith Arith Lia Permutation Sorted Relations.
From Verif Require Import Base SortedSets Values Sdd SddFacts Orders OrdersProofs OrdersSdd DDModel.
From Verif Require Import DDGeneric DDProofs DDTheorems Hom HomFacts HomEval HomTyped HomEqns HomLinear.
Import ListNotations.

Section HomSum.
  Variable VI : values_impl.
  Hypothesis VL : values_laws VI.
  Variable PF : platform VI.
  Hypothesis PO : platform_ok PF.
  Variables U F I : Type.
  Notation V := (vt VI).
  Notation sdd := (sdd V).
  Notation hom := (hom V U F I).
  Variable HP : hplatform V U F I.
  Hypothesis HPO : hplatform_ok HP.
  Variable US : user V U F I.
  Notation order := (order U).
  Notation fits := (fits VI PF).
  Notation oshape := (oshape U).
  Notation olevel := (olevel U).
  Notation typed := (typed VI PF U F I US).
  Notation hskip := (hskip VI U F I US).
  Notation evals := (evals VI PF U F I US).
  Notation residual := (residual VI).
  Notation sum_of := (sum_of VI PF U F I US).
  Notation asg := (asg (elt VI)).
  Notation is_id := (is_id VI U F I).
  Notation local := (local VI U F I).
  Notation hsize := (hsize VI U F I).
  Notation hset_add := (hset_add VI U F I HP).
  Notation sum_visit := (sum_visit VI U F I HP).
  Notation sum_fuel := (sum_fuel VI U F I HP).
  Notation mk_sum := (mk_sum VI U F I HP).
  Notation regroup := (regroup VI U F I HP).
  Notation add_local := (add_local VI U F I).
  Notation target := (target U).
  Notation harcs := (harcs VI).
  Hypothesis HO : honest VI PF U F I US.

  Lemma hset_add_in h l k : In k (hset_add h l) <-> k = h \/ In k l.
  Proof. apply (fs_insert_in _ (hp_lt HPO)). Qed.

  (** ** Lists of homomorphisms with the same sum *)

  Definition all_ev (o : order) (hs : list hom) (x : sdd) : Prop :=
    forall h, In h hs -> exists z, evals o h x z.
  Definition un (o : order) (hs : list hom) (x : sdd) (q : asg) : Prop :=
    exists h z, In h hs /\ evals o h x z /\ contains z q = true.
  Definition same (o : order) (hs hs' : list hom) : Prop :=
    forall s x, oshape o s -> fits s x ->
      (all_ev o hs x <-> all_ev o hs' x) /\ (all_ev o hs x -> forall q, un o hs x q <-> un o hs' x q).

  Lemma same_refl o hs : same o hs hs.
  Proof. intros s x O Fx. split; [|intros _ q]; reflexivity. Qed.

  Lemma same_sym o hs hs' : same o hs hs' -> same o hs' hs.
  Proof.
    intros H s x O Fx. destruct (H s x O Fx) as [A B]. split; [now rewrite A|].
    intros C q. symmetry. apply B. now apply A.
  Qed.

  Lemma same_trans o a b c : same o a b -> same o b c -> same o a c.
  Proof.
    intros H K s x O Fx. destruct (H s x O Fx) as [A B]. destruct (K s x O Fx) as [C D].
    split; [now rewrite A|]. intros E q. rewrite (B E). apply D. now apply A.
  Qed.

  Lemma same_mem o hs hs' : (forall h, In h hs <-> In h hs') -> same o hs hs'.
  Proof.
    intros H s x O Fx. split; [|intros _ q].
    - split; intros A h Hh; apply A; now apply H.
    - split; intros (h & z & Hh & X); exists h, z; (split; [now apply H|auto]).
  Qed.

  Lemma all_ev_app o a b x : all_ev o (a ++ b) x <-> all_ev o a x /\ all_ev o b x.
  Proof.
    split.
    - intros H. split; intros h Hh; apply H; apply in_or_app; auto.
    - intros [A B] h Hh. apply in_app_or in Hh. destruct Hh; auto.
  Qed.

  Lemma un_app o a b x q : un o (a ++ b) x q <-> un o a x q \/ un o b x q.
  Proof.
    split.
    - intros (h & z & Hh & X). apply in_app_or in Hh. destruct Hh; [left|right]; exists h, z; auto.
    - intros [(h & z & Hh & X)|(h & z & Hh & X)]; exists h, z; (split; [apply in_or_app; auto|auto]).
  Qed.

  Lemma same_app o a b c d : same o a c -> same o b d -> same o (a ++ b) (c ++ d).
  Proof.
    intros H K s x O Fx. destruct (H s x O Fx) as [A B]. destruct (K s x O Fx) as [C D].
    rewrite !all_ev_app. split; [now rewrite A, C|]. intros [E G] q.
    rewrite !un_app, (B E), (D G). reflexivity.
  Qed.

  (** One homomorphism and the list of operands it is the sum of. *)
  Lemma same_one o s h hs s' : oshape o s -> typed o h s' -> (forall k, In k hs -> typed o k s') ->
    (same o [h] hs <-> forall x y, fits s x -> (evals o h x y <-> sum_of o hs x y)).
  Proof.
    intros O Th Ths. split.
    - intros H x y Fx. destruct (H s x O Fx) as [A B]. split.
      + intros E. assert (E1 : all_ev o [h] x) by (intros k [<-|[]]; eauto).
        destruct (evals_all_ex VI PF U F I US o hs x (proj1 A E1)) as (ys & Hys).
        assert (Fys := evals_all_fits VI VL PF PO U F I US HO o hs s s' x ys O Fx Ths Hys).
        destruct (sum_ok VI VL PF PO s' ys Fys) as (z & Ez & Fz & C).
        assert (y = z).
        { apply (fits_ext VI VL PF PO s'); auto.
          { apply (evals_fits VI VL PF PO U F I US HO o h s s' x); auto. }
          intros q. apply bool_ext. rewrite C, existsb_exists. split.
          - intros Cy. assert (X : un o [h] x q) by (exists h, y; split; [now left|auto]).
            apply (B E1) in X. destruct X as (k & w & Hk & Ew & Cw). exists w. split; [|auto].
            clear - Hys Hk Ew. induction Hys as [|k0 w0 hs ys A H IH]; [destruct Hk|].
            destruct Hk as [->|Hk]; [left; apply (evals_fun VI PF U F I US _ _ _ _ _ A Ew)|right; auto].
          - intros (w & Hw & Cw). destruct (evals_all_in VI PF U F I US _ _ _ _ Hys w Hw) as (k & Hk & Ew).
            assert (X : un o hs x q) by (exists k, w; auto). apply (B E1) in X.
            destruct X as (h' & w' & [<-|[]] & Ew' & Cw').
            now rewrite (evals_fun VI PF U F I US _ _ _ _ _ E Ew'). }
        subst z. exists ys. auto.
      + intros (ys & Hys & Ey).
        assert (E2 : all_ev o hs x) by exact (evals_all_ex_inv VI PF U F I US _ _ _ _ Hys).
        destruct (proj2 A E2 h (or_introl eq_refl)) as (z & Ez).
        assert (E1 : all_ev o [h] x) by (intros k [<-|[]]; eauto).
        assert (Fys := evals_all_fits VI VL PF PO U F I US HO o hs s s' x ys O Fx Ths Hys).
        destruct (sum_ok VI VL PF PO s' ys Fys) as (w & Ew & Fw & C). rewrite Ey in Ew. injection Ew as <-.
        assert (z = y); [|subst z; exact Ez].
        apply (fits_ext VI VL PF PO s'); auto.
        { apply (evals_fits VI VL PF PO U F I US HO o h s s' x); auto. }
        intros q. apply bool_ext. rewrite C, existsb_exists. split.
        * intros Cz. assert (X : un o [h] x q) by (exists h, z; split; [now left|auto]).
          apply (B E1) in X. destruct X as (k & w & Hk & Ew & Cw). exists w. split; [|auto].
          clear - Hys Hk Ew. induction Hys as [|k0 w0 hs ys A H IH]; [destruct Hk|].
          destruct Hk as [->|Hk]; [left; apply (evals_fun VI PF U F I US _ _ _ _ _ A Ew)|right; auto].
        * intros (w & Hw & Cw). destruct (evals_all_in VI PF U F I US _ _ _ _ Hys w Hw) as (k & Hk & Ew).
          assert (X : un o hs x q) by (exists k, w; auto). apply (B E1) in X.
          destruct X as (h' & w' & [<-|[]] & Ew' & Cw').
          now rewrite (evals_fun VI PF U F I US _ _ _ _ _ Ez Ew').
    - intros H s1 x O1 Fx. rewrite (oshape_fun _ _ _ O1 _ O) in *. clear O1. 
      assert (A : all_ev o [h] x <-> all_ev o hs x).
      { split.
        - intros E. destruct (E h (or_introl eq_refl)) as (y & Ey). apply (H x y Fx) in Ey.
          destruct Ey as (ys & Hys & _). exact (evals_all_ex_inv VI PF U F I US _ _ _ _ Hys).
        - intros E. destruct (evals_all_ex VI PF U F I US o hs x E) as (ys & Hys).
          assert (Fys := evals_all_fits VI VL PF PO U F I US HO o hs s s' x ys O Fx Ths Hys).
          destruct (sum_ok VI VL PF PO s' ys Fys) as (z & Ez & Fz & C).
          intros k [<-|[]]. exists z. apply (H x z Fx). exists ys. auto. }
      split; [exact A|]. intros E q. destruct (E h (or_introl eq_refl)) as (y & Ey).
      pose proof Ey as Ey'. apply (H x y Fx) in Ey'. destruct Ey' as (ys & Hys & Es).
      assert (Fys := evals_all_fits VI VL PF PO U F I US HO o hs s s' x ys O Fx Ths Hys).
      destruct (sum_ok VI VL PF PO s' ys Fys) as (z & Ez & Fz & C). rewrite Es in Ez. injection Ez as <-.
      split.
      + intros (h' & z & [<-|[]] & Ez & Cz). rewrite (evals_fun VI PF U F I US _ _ _ _ _ Ez Ey) in Cz.
        rewrite C, existsb_exists in Cz. destruct Cz as (w & Hw & Cw).
        destruct (evals_all_in VI PF U F I US _ _ _ _ Hys w Hw) as (k & Hk & Ew). exists k, w. auto.
      + intros (k & w & Hk & Ew & Cw). exists h, y. split; [now left|]. split; [auto|].
        rewrite C, existsb_exists. exists w. split; [|auto].
        clear - Hys Hk Ew. induction Hys as [|k0 w0 hs ys A H IH]; [destruct Hk|].
        destruct Hk as [->|Hk]; [left; apply (evals_fun VI PF U F I US _ _ _ _ _ A Ew)|right; auto].
  Qed.

  Lemma same_sum o hs s' : typed o (HSum hs) s' -> same o [HSum hs] hs.
  Proof.
    intros T s x O Fx. destruct (typed_sum_inv VI PF U F I US _ _ _ T) as [_ Th].
    apply (same_one o s (HSum hs) hs s' O T Th) with (s := s); auto.
    intros x1 y F1. now apply (E_sum VI VL PF PO U F I US HO o s O hs s').
  Qed.

  (** ** Below a skipped variable *)

  Lemma same_skip o l o' hs hs' r' : olevel o l o' ->
    (forall h, In h hs -> hskip o h = true /\ typed o' h r') ->
    (forall h, In h hs' -> hskip o h = true /\ typed o' h r') ->
    same o' hs hs' -> same o hs hs'.
  Proof.
    intros L A B H s x O Fx.
    destruct (oshape_inv _ _ _ O) as [[X _]|(_ & l' & o'' & r & L' & -> & O')].
    { rewrite (olevel_nonempty _ _ _ _ L) in X. discriminate. }
    destruct (olevel_fun _ _ _ _ L' _ _ L) as [-> ->]. clear L'.
    assert (D : forall hs, (forall h, In h hs -> hskip o h = true /\ typed o' h r') ->
              (all_ev o hs x <-> forall k, all_ev o' hs (residual x k))).
    { intros l0 A0. split.
      - intros E k h Hh. destruct (A0 h Hh) as [S T]. destruct (E h Hh) as (z & Ez).
        apply (ev_skip VI VL PF PO U F I US HO o l o' h r r' x z L O' Fx S T) in Ez. exists (residual z k). apply Ez.
      - intros E h Hh. destruct (A0 h Hh) as [S T].
        apply (skip_exists VI VL PF PO U F I US HO o l o' h r r' x L O' Fx S T). intros k. now apply E. }
    assert (Q : forall hs, (forall h, In h hs -> hskip o h = true /\ typed o' h r') -> all_ev o hs x ->
              forall q, un o hs x q <-> exists k q', q = acons VI (lvar l) k q' /\ un o' hs (residual x k) q').
    { intros l0 A0 E q. split.
      - intros (h & z & Hh & Ez & Cz). destruct (A0 h Hh) as [S T].
        apply (ev_skip VI VL PF PO U F I US HO o l o' h r r' x z L O' Fx S T) in Ez. destruct Ez as [Fz Ez].
        apply (contains_iff VI PF l r' z q Fz) in Cz. destruct Cz as (k & q' & -> & Cz).
        exists k, q'. split; [auto|]. exists h, (residual z k). auto.
      - intros (k & q' & -> & h & w & Hh & Ew & Cw). destruct (A0 h Hh) as [S T].
        destruct (E h Hh) as (z & Ez). exists h, z. split; [auto|split; [auto|]].
        apply (ev_skip VI VL PF PO U F I US HO o l o' h r r' x z L O' Fx S T) in Ez. destruct Ez as [Fz Ez].
        apply (contains_iff VI PF l r' z _ Fz). exists k, q'. split; [auto|].
        now rewrite <- (evals_fun VI PF U F I US _ _ _ _ _ Ew (Ez k)). }
    assert (R : forall k, fits r (residual x k)) by (intros k; now apply (residual_fits VI PF l)).
    split.
    - rewrite (D hs A), (D hs' B). split; intros E k; now apply (H r (residual x k) O' (R k)).
    - intros E q. assert (E' : all_ev o hs' x).
      { apply (D hs' B). intros k. apply (H r (residual x k) O' (R k)). now apply (D hs A). }
      rewrite (Q hs A E), (Q hs' B E'). split; intros (k & q' & -> & X); exists k, q'; (split; [auto|]);
        apply (H r (residual x k) O' (R k)); auto; now apply (D hs A).
  Qed.

  (** ** Locals *)

  (** Where the local part of local(t, _) lives: [on] is the nested order of the variable [t], and
      [s'] the shape of the result when the one of the local part is [n']. *)
  Inductive local_at : order -> N -> shape -> order -> shape -> Prop :=
  | la_here o t n o' on n' r : olevel o (LHier t n) o' -> o_nested o = Some on -> oshape o' r ->
      local_at o t (SHier t n' r) on n'
  | la_next o l o' t s' on n' : olevel o l o' -> lvar l <> t -> local_at o' t s' on n' ->
      local_at o t (under l s') on n'.

  Lemma typed_local_iff o t h s' :
    typed o (HLocal t h) s' <-> exists on n', local_at o t s' on n' /\ typed on h n'.
  Proof.
    split.
    - remember (HLocal t h) as k eqn:Ek. induction 1; try discriminate; injection Ek as -> ->.
      + exists on, n'. split; [|auto]. econstructor; eauto.
      + destruct (IHtyped eq_refl) as (on & n' & A & B). exists on, n'. split; [|auto].
        econstructor; eauto.
    - intros (on & n' & L & T). induction L.
      + eapply T_local_here; eauto.
      + eapply T_local_next; eauto.
  Qed.

  Lemma local_at_fun o t s' on n' : local_at o t s' on n' -> forall on2 n2,
    local_at o t s' on2 n2 -> on2 = on /\ n2 = n'.
  Proof.
    induction 1 as [o t n o' on n' r L M O|o l o' t s' on n' L N H IH]; intros on2 n2 K.
    - inversion K as [? ? ? ? ? ? ? L2 M2 O2|? l2 o2 ? ? ? ? L2 N2 K2]; subst.
      + split; congruence.
      + destruct (olevel_fun _ _ _ _ L _ _ L2) as [<- _]. now cbn in N2.
    - remember (under l s') as s2 eqn:Es.
      destruct K as [o t n o2 on2 n2 r L2 M2 O2|o l2 o2 t s2 on2 n2 L2 N2 K2].
      + destruct (olevel_fun _ _ _ _ L _ _ L2) as [-> _]. now cbn in N.
      + destruct (olevel_fun _ _ _ _ L _ _ L2) as [-> ->]. apply under_inj in Es. destruct Es as [_ ->]. now apply IH.
  Qed.

  Lemma local_at_target o t s' on n' : local_at o t s' on n' -> exists o1, target o t o1 /\ o_nested o1 = Some on.
  Proof.
    induction 1 as [o t n o' on n' r L M O|o l o' t s' on n' L N H IH].
    - exists o. split; [|auto]. constructor. apply L.
    - destruct IH as (o1 & A & B). exists o1. split; [|auto]. now apply (tg_next U o l o').
  Qed.

  Lemma local_at_nested o t s' on n' : local_at o t s' on n' -> exists n, oshape on n /\ o_empty on = false.
  Proof.
    induction 1 as [o t n o' on n' r L M O|o l o' t s' on n' L N H IH]; [|auto].
    destruct L as (_ & _ & on' & M' & E & On). exists n. split; congruence.
  Qed.

  Lemma fits_harcs t n r x v s : fits (SHier t n r) x -> In (v, s) (harcs x) -> fits n v /\ v <> Zero /\ fits r s /\ s <> Zero.
  Proof.
    intros Fx Hin. destruct x as [| |v0 arcs|v0 arcs]; cbn [HomLinear.harcs] in Hin; [destruct Hin..|].
    destruct (fits_hier_inv VI PF _ _ _ _ _ Fx) as (_ & _ & _ & G). destruct (G v s Hin) as (A & B & C & D). auto.
  Qed.

  Theorem same_local o t s' on n' h hs : local_at o t s' on n' -> typed on h n' ->
    (forall k, In k hs -> typed on k n') -> same on [h] hs ->
    same o [HLocal t h] (map (HLocal t) hs).
  Proof.
    intros L. induction L as [o t n o' on n' r L M O|o l o' t s' on n' L N H IH]; intros Th Ths Hs.
    - intros s x Os Fx.
      assert (Es : s = SHier t n r).
      { apply (oshape_fun _ _ _ Os). now apply (oshape_level _ _ (LHier t n) _ r L). }
      subst s. clear Os.
      assert (On : oshape on n).
      { destruct L as (_ & _ & on' & M' & _ & On). congruence. }
      assert (Dn : forall k, typed on k n' -> ((exists y, evals o (HLocal t k) x y) <->
                 forall v s, In (v, s) (harcs x) -> exists w, evals on k v w)).
      { intros k Tk. split.
        - intros (y & Ey). now destruct (local_here_fwd VI VL PF PO U F I US HO o t n o' on k n' r x y L M O Tk Fx Ey) as (_ & A & _).
        - apply (local_here_ex VI VL PF PO U F I US HO o t n o' on k n' r x L M O Tk Fx). }
      assert (Cn : forall k y, typed on k n' -> evals o (HLocal t k) x y -> forall q, contains y q = true <->
                exists v w s a q', q = ANest t a q' /\ In (v, s) (harcs x) /\ evals on k v w /\
                  contains w a = true /\ contains s q' = true).
      { intros k y Tk Ey q.
        destruct (local_here_fwd VI VL PF PO U F I US HO o t n o' on k n' r x y L M O Tk Fx Ey) as (Fy & _ & C).
        split.
        - intros Cq. destruct (contains_step VI PF (LHier t n') r _ _ Fy Cq) as ([a|a] & q' & ->); cbn [acons lvar] in *.
          { exfalso. destruct y as [| |v arcs|v arcs]; try discriminate. destruct Fy as [_ Fy]. inversion Fy. }
          apply C in Cq. destruct Cq as (v & w & s & X). exists v, w, s, a, q'. auto.
        - intros (v & w & s & a & q' & -> & X). apply C. eauto. }
      assert (Ev : all_ev o [HLocal t h] x <-> all_ev o (map (HLocal t) hs) x).
      { split.
        - intros E k Hk. apply in_map_iff in Hk. destruct Hk as (k0 & <- & Hk). apply (Dn k0 (Ths k0 Hk)).
          intros v s Hin. destruct (fits_harcs t n r x v s Fx Hin) as (Fv & _).
          apply (proj1 (proj1 (Hs n v On Fv))); [|auto]. intros h' [<-|[]].
          apply (proj1 (Dn h Th) (E _ (or_introl eq_refl)) v s Hin).
        - intros E k [<-|[]]. apply (Dn h Th). intros v s Hin.
          destruct (fits_harcs t n r x v s Fx Hin) as (Fv & _).
          apply (proj2 (proj1 (Hs n v On Fv))); [|now left].
          intros k Hk. apply (proj1 (Dn k (Ths k Hk))) with (v := v) (s := s); [|auto].
          apply E. apply in_map_iff. now exists k. }
      split; [exact Ev|]. intros E q.
      assert (Eh : forall v s, In (v, s) (harcs x) -> all_ev on [h] v).
      { intros v s Hin k [<-|[]]. apply (proj1 (Dn h Th) (E _ (or_introl eq_refl)) v s Hin). }
      split.
      + intros (h' & y & [<-|[]] & Ey & Cy). apply (Cn h y Th Ey) in Cy.
        destruct Cy as (v & w & s & a & q' & -> & Hin & Ew & Cw & Cs).
        destruct (fits_harcs t n r x v s Fx Hin) as (Fv & _).
        assert (X : un on [h] v a) by (exists h, w; split; [now left|auto]).
        apply (Hs n v On Fv) in X; [|now apply (Eh v s)].
        destruct X as (k & w' & Hk & Ew' & Cw').
        assert (Hk' : In (HLocal t k) (map (HLocal t) hs)) by (apply in_map_iff; now exists k).
        destruct (proj1 Ev E _ Hk') as (z & Ez). exists (HLocal t k), z. split; [auto|split; [auto|]].
        apply (Cn k z (Ths k Hk) Ez). exists v, w', s, a, q'. auto.
      + intros (h' & z & Hk & Ez & Cz). apply in_map_iff in Hk. destruct Hk as (k & <- & Hk).
        apply (Cn k z (Ths k Hk) Ez) in Cz. destruct Cz as (v & w & s & a & q' & -> & Hin & Ew & Cw & Cs).
        destruct (fits_harcs t n r x v s Fx Hin) as (Fv & _).
        assert (X : un on hs v a) by (exists k, w; auto).
        apply (Hs n v On Fv) in X; [|now apply (Eh v s)].
        destruct X as (h' & w' & [<-|[]] & Ew' & Cw').
        destruct (E _ (or_introl eq_refl)) as (y & Ey). exists (HLocal t h), y. split; [now left|split; [auto|]].
        apply (Cn h y Th Ey). exists v, w', s, a, q'. auto.
    - assert (Sk : forall k, hskip o (HLocal t k) = true).
      { intros k. cbn [Hom.hskip]. now apply (var_neqb_level U o l o' t L). }
      apply (same_skip o l o' _ _ s' L); [| |now apply IH].
      + intros k [<-|[]]. split; [apply Sk|]. apply typed_local_iff. eauto.
      + intros k Hk. apply in_map_iff in Hk. destruct Hk as (k0 & <- & Hk).
        split; [apply Sk|]. apply typed_local_iff. eauto.
  Qed.

  (** local(t, Id) is Id. *)
  Lemma typed_local_id o t s' : typed o (HLocal t HId) s' -> typed o HId s'.
  Proof.
    intros T. apply typed_local_iff in T. destruct T as (on & n' & L & T). constructor.
    apply typed_id_inv in T. induction L as [o t n o' on n' r L M O|o l o' t s' on n' L N H IH].
    - assert (n' = n); [|subst n'; now apply (oshape_level _ _ (LHier t n) _ r L)].
      destruct L as (_ & _ & on' & M' & _ & On). apply (oshape_fun _ _ _ T). congruence.
    - apply (oshape_level _ _ l _ s' L). now apply IH.
  Qed.

  Lemma same_local_id o t s' : typed o (HLocal t HId) s' -> same o [HLocal t HId] [HId].
  Proof.
    intros T. apply typed_local_iff in T. destruct T as (on & n' & L & T). apply typed_id_inv in T.
    induction L as [o t n o' on n' r L M O|o l o' t s' on n' L N H IH].
    - intros s x Os Fx.
      assert (Es : s = SHier t n r).
      { apply (oshape_fun _ _ _ Os). now apply (oshape_level _ _ (LHier t n) _ r L). }
      assert (n' = n).
      { destruct L as (_ & _ & on' & M' & _ & On). apply (oshape_fun _ _ _ T). congruence. }
      subst s n'. clear Os.
      assert (Ti : typed on HId n) by now constructor.
      assert (E : evals o (HLocal t HId) x x).
      { destruct (local_here_ex VI VL PF PO U F I US HO o t n o' on HId n r x L M O Ti Fx) as (y & Ey).
        { intros v s _. exists v. now apply evals_id. }
        destruct (local_here_fwd VI VL PF PO U F I US HO o t n o' on HId n r x y L M O Ti Fx Ey) as (Fy & _ & C).
        assert (y = x); [|subst y; exact Ey]. apply (fits_ext VI VL PF PO (SHier t n r)); auto.
        intros p. apply bool_ext.
        assert (X : forall a q, contains y (ANest t a q) = true <-> contains x (ANest t a q) = true).
        { intros a q. rewrite C.
          destruct x as [| |v0 arcs|v0 arcs]; try (destruct Fx as [_ Fx]; now inversion Fx).
          - cbn [HomLinear.harcs]. split; [intros (v & w & s & [] & _)|discriminate].
          - destruct (fits_hier_inv VI PF _ _ _ _ _ Fx) as (-> & _).
            rewrite contains_hier, N.eqb_refl. cbn [andb HomLinear.harcs]. rewrite acontains_spec. split.
            + intros (v & w & s & Hin & Ew & X). apply evals_id in Ew. subst w. eauto.
            + intros (v & s & Hin & X). exists v, v, s. split; [auto|]. split; [now apply evals_id|auto]. }
        split; intros Cp.
        - destruct (contains_step VI PF (LHier t n) r _ _ Fy Cp) as ([a|a] & q & ->); cbn [acons lvar] in *.
          { exfalso. destruct y as [| |v arcs|v arcs]; try discriminate. destruct Fy as [_ Fy]. inversion Fy. }
          now apply X.
        - destruct (contains_step VI PF (LHier t n) r _ _ Fx Cp) as ([a|a] & q & ->); cbn [acons lvar] in *.
          { exfalso. destruct x as [| |v arcs|v arcs]; try discriminate. destruct Fx as [_ Fx]. inversion Fx. }
          now apply X. }
      split.
      + split; intros _ k [<-|[]]; exists x; [now apply evals_id|auto].
      + intros _ q. split.
        * intros (h & z & [<-|[]] & Ez & Cz). exists HId, x. split; [now left|]. split; [now apply evals_id|].
          now rewrite <- (evals_fun VI PF U F I US _ _ _ _ _ Ez E).
        * intros (h & z & [<-|[]] & Ez & Cz). apply evals_id in Ez. subst z.
          exists (HLocal t HId), x. split; [now left|auto].
    - assert (Tl : typed o' (HLocal t HId) s').
      { apply typed_local_iff. exists on, n'. split; [auto|now constructor]. }
      apply (same_skip o l o' _ _ s' L); [| |now apply IH].
      + intros k [<-|[]]. split; [|auto]. cbn [Hom.hskip]. now apply (var_neqb_level U o l o' t L).
      + intros k [<-|[]]. split; [reflexivity|]. now apply (typed_local_id _ t).
  Qed.

  (** The constructor of locals. *)
  Lemma typed_mk_local o t h s' : typed o (HLocal t h) s' -> typed o (local t h) s'.
  Proof.
    intros T. unfold Hom.local. destruct (is_id h) eqn:E; [|auto].
    apply is_id_iff in E. subst h. now apply (typed_local_id _ t).
  Qed.

  Lemma same_mk_local o t h s' : typed o (HLocal t h) s' -> same o [local t h] [HLocal t h].
  Proof.
    intros T. unfold Hom.local. destruct (is_id h) eqn:E; [|apply same_refl].
    apply is_id_iff in E. subst h. apply same_sym. now apply (same_local_id o t s').
  Qed.

  (** ** The state of the builder *)

  Definition locals_of (m : list (N * list hom)) : list hom :=
    flat_map (fun tl => map (HLocal (fst tl)) (snd tl)) m.
  Definition repr (st : bstate VI U F I) : list hom := fst st ++ locals_of (snd st).

  Lemma add_local_repr t h m k : In k (locals_of (add_local t h m)) <-> k = HLocal t h \/ In k (locals_of m).
  Proof.
    induction m as [|[x l] m IH].
    - cbn. intuition congruence.
    - cbn [Hom.add_local]. destruct (N.eqb x t) eqn:E.
      + apply N.eqb_eq in E. subst x. unfold locals_of. cbn [flat_map fst snd]. rewrite map_app, !in_app_iff.
        cbn. intuition congruence.
      + unfold locals_of in *. cbn [flat_map fst snd]. rewrite !in_app_iff, IH. intuition.
  Qed.

  Lemma locals_iter m k : In k (locals_of (h_iter HP m)) <-> In k (locals_of m).
  Proof.
    unfold locals_of. rewrite !in_flat_map.
    split; intros (tl & Hin & X); exists tl; (split; [|auto]).
    - now apply (Permutation_in _ (hp_iter HPO m)).
    - now apply (Permutation_in _ (Permutation_sym (hp_iter HPO m))).
  Qed.

  (** The operands seen through nested sums. *)
  Fixpoint leaves (h : hom) : list hom :=
    match h with
    | HSum l => flat_map leaves l
    | _ => [h]
    end.

  Lemma sum_visit_repr h : forall st k, In k (repr (sum_visit st h)) <-> In k (repr st) \/ In k (leaves h).
  Proof.
    induction h as [| | | | | | | | | |t h IH| | | |l IH] using hom_ind'; intros st k;
      try (cbn [Hom.sum_visit leaves]; unfold repr; cbn [fst snd]; rewrite in_app_iff, hset_add_in, in_app_iff;
           cbn [In]; intuition congruence).
    - cbn [Hom.sum_visit leaves]. unfold repr. cbn [fst snd]. rewrite !in_app_iff, add_local_repr. cbn [In].
      intuition congruence.
    - cbn [Hom.sum_visit leaves]. revert st. induction IH as [|h l Hh Hl IHl]; intros st.
      + cbn. intuition.
      + cbn [fold_left flat_map]. rewrite IHl, Hh, in_app_iff. intuition.
  Qed.

  Lemma sum_fold_repr l : forall st k,
    In k (repr (fold_left sum_visit l st)) <-> In k (repr st) \/ In k (flat_map leaves l).
  Proof.
    induction l as [|h l IH]; intros st k; cbn [fold_left flat_map].
    - cbn. intuition.
    - rewrite IH, sum_visit_repr, in_app_iff. intuition.
  Qed.

  Lemma leaves_typed h : forall oo s', typed oo h s' ->
    (forall k, In k (leaves h) -> typed oo k s') /\ leaves h <> [] /\ same oo [h] (leaves h).
  Proof.
    induction h as [| | | | | | | | | |t h IH| | | |l IH] using hom_ind'; intros oo s' T;
      try (cbn [leaves]; split; [intros k [<-|[]]; auto|split; [discriminate|apply same_refl]]).
    destruct (typed_sum_inv VI PF U F I US _ _ _ T) as [Ne Th]. cbn [leaves].
    assert (H : (forall k, In k (flat_map leaves l) -> typed oo k s') /\ (l <> [] -> flat_map leaves l <> []) /\
              same oo l (flat_map leaves l)).
    { clear Ne T. induction IH as [|h l Hh Hl IHl].
      - split; [intros k []|split; [auto|apply same_refl]].
      - destruct (Hh oo s' (Th h (or_introl eq_refl))) as (A & B & C).
        destruct IHl as (A' & B' & C'); [intros k Hk; apply Th; now right|]. cbn [flat_map].
        split; [|split].
        + intros k Hk. apply in_app_or in Hk. destruct Hk; auto.
        + intros _ X. apply app_eq_nil in X. now apply B.
        + now apply (same_app oo [h] l). }
    destruct H as (A & B & C). split; [auto|split; [auto|]].
    apply (same_trans _ _ l); [|auto]. now apply (same_sum oo l s').
  Qed.

  Lemma leaves_list l o s' : (forall k, In k l -> typed o k s') ->
    (forall k, In k (flat_map leaves l) -> typed o k s') /\ (l <> [] -> flat_map leaves l <> []) /\
      same o l (flat_map leaves l).
  Proof.
    induction l as [|h l IHl]; intros Th.
    - split; [intros k []|split; [auto|apply same_refl]].
    - destruct (leaves_typed h o s' (Th h (or_introl eq_refl))) as (A & B & C).
      destruct IHl as (A' & B' & C'); [intros k Hk; apply Th; now right|]. cbn [flat_map].
      split; [|split].
      + intros k Hk. apply in_app_or in Hk. destruct Hk; auto.
      + intros _ X. apply app_eq_nil in X. now apply B.
      + now apply (same_app o [h] l).
  Qed.

  Lemma regroup_ok (build : list hom -> res (cerr U) hom) o s' :
    (forall l h on n', build l = Ok h -> (forall k, In k l -> typed on k n') ->
       (exists n, oshape on n) -> typed on h n' /\ same on [h] l) ->
    forall m ops ops', (forall t l, In (t, l) m -> l <> []) ->
      (forall k, In k ops \/ In k (locals_of m) -> typed o k s') ->
      regroup build m ops = Ok ops' ->
      (forall k, In k ops' -> typed o k s') /\ same o ops' (ops ++ locals_of m) /\
      (ops ++ locals_of m <> [] -> ops' <> []).
  Proof.
    intros Hb. induction m as [|[t l] m IH]; intros ops ops' Hne Ht E.
    - cbn in E. injection E as <-. rewrite app_nil_r. split; [auto|split; [apply same_refl|auto]].
    - cbn [Hom.regroup] in E. destruct (build l) as [h|] eqn:Eh; [|discriminate]. cbn [rbind] in E.
      assert (Hl : forall k, In k l -> typed o (HLocal t k) s').
      { intros k Hk. apply Ht. right. unfold locals_of. cbn [flat_map fst snd]. apply in_or_app. left.
        apply in_map_iff. now exists k. }
      assert (L : exists on n', local_at o t s' on n' /\ (forall k, In k l -> typed on k n')).
      { pose proof (Hne t l (or_introl eq_refl)) as Nl. destruct l as [|k0 l0]; [congruence|].
        pose proof (Hl k0 (or_introl eq_refl)) as T0. apply typed_local_iff in T0.
        destruct T0 as (on & n' & L & T0). exists on, n'. split; [auto|]. intros k Hk.
        pose proof (Hl k Hk) as T1. apply typed_local_iff in T1. destruct T1 as (on1 & n1 & L1 & T1).
        destruct (local_at_fun _ _ _ _ _ L _ _ L1) as [-> ->]. auto. }
      destruct L as (on & n' & L & Tl).
      destruct (local_at_nested _ _ _ _ _ L) as (n & On & _).
      destruct (Hb l h on n' Eh Tl (ex_intro _ n On)) as [Th Sh].
      assert (TL : typed o (HLocal t h) s') by (apply typed_local_iff; eauto).
      assert (S1 : same o [local t h] (map (HLocal t) l)).
      { apply (same_trans _ _ [HLocal t h]); [now apply (same_mk_local o t h s')|].
        now apply (same_local o t s' on n'). }
      destruct (IH (hset_add (local t h) ops) ops') as (A & B & C); auto.
      { intros t' l' Hin. apply (Hne t' l'). now right. }
      { intros k [Hk|Hk].
        - apply hset_add_in in Hk. destruct Hk as [->|Hk]; [now apply typed_mk_local|auto].
        - apply Ht. right. unfold locals_of in *. cbn [flat_map]. apply in_or_app. auto. }
      split; [auto|split].
      + apply (same_trans _ _ _ _ B).
        apply (same_trans _ _ ((ops ++ [local t h]) ++ locals_of m)).
        { apply same_mem. intros k. rewrite !in_app_iff, hset_add_in. cbn. intuition. }
        unfold locals_of at 2. cbn [flat_map fst snd]. rewrite app_assoc.
        apply same_app; [|apply same_refl]. apply same_app; [apply same_refl|exact S1].
      + intros _. apply C. intros X. apply app_eq_nil in X. destruct X as [X _].
        assert (Y : In (local t h) (hset_add (local t h) ops)) by (apply hset_add_in; auto).
        rewrite X in Y. destruct Y.
  Qed.

  Lemma add_local_ne t h m : (forall t l, In (t, l) m -> l <> []) -> forall t' l', In (t', l') (add_local t h m) -> l' <> [].
  Proof.
    induction m as [|[x l] m IH]; intros H t' l' Hin.
    - destruct Hin as [X|[]]. injection X as <- <-. discriminate.
    - cbn [Hom.add_local] in Hin. destruct (N.eqb x t).
      + destruct Hin as [X|Hin].
        * injection X as <- <-. intros X. apply app_eq_nil in X. now destruct X.
        * apply (H t' l'). now right.
      + destruct Hin as [X|Hin].
        * injection X as <- <-. apply (H x l). now left.
        * apply (IH (fun t l Hin => H t l (or_intror Hin)) t' l' Hin).
  Qed.

  Lemma sum_visit_ne h : forall st, (forall t l, In (t, l) (snd st) -> l <> []) ->
    forall t l, In (t, l) (snd (sum_visit st h)) -> l <> [].
  Proof.
    induction h as [| | | | | | | | | |t h IH| | | |l IH] using hom_ind'; intros st Hst; cbn [Hom.sum_visit snd]; auto.
    - now apply add_local_ne.
    - revert st Hst. induction IH as [|h l Hh Hl IHl]; intros st Hst; cbn [fold_left]; [auto|].
      apply IHl. now apply Hh.
  Qed.

  Lemma sum_fold_ne l : forall st, (forall t l, In (t, l) (snd st) -> l <> []) ->
    forall t l', In (t, l') (snd (fold_left sum_visit l st)) -> l' <> [].
  Proof.
    induction l as [|h l IH]; intros st Hst; cbn [fold_left]; [auto|]. apply IH. now apply sum_visit_ne.
  Qed.

  Theorem sum_fuel_ok : forall fuel l h o s', sum_fuel fuel l = Ok h -> (forall k, In k l -> typed o k s') ->
    (exists s, oshape o s) -> typed o h s' /\ same o [h] l.
  Proof.
    induction fuel as [|fuel IH]; intros l h o s' E Th O; [discriminate|].
    cbn [Hom.sum_fuel] in E. destruct l as [|h0 l0]; [discriminate|]. set (l := h0 :: l0) in *.
    destruct (fold_left sum_visit l ([], [])) as [ops locals] eqn:Ef.
    destruct (regroup (sum_fuel fuel) (h_iter HP locals) ops) as [ops'|] eqn:Er; [|discriminate].
    cbn [rbind] in E.
    destruct (leaves_list l o s' Th) as (A & B & C).
    assert (R : forall k, In k (ops ++ locals_of (h_iter HP locals)) <-> In k (flat_map leaves l)).
    { intros k. rewrite in_app_iff, locals_iter, <- in_app_iff.
      change (ops ++ locals_of locals) with (repr (ops, locals)). rewrite <- Ef, sum_fold_repr. cbn. intuition. }
    destruct (regroup_ok (sum_fuel fuel) o s') with (m := h_iter HP locals) (ops := ops) (ops' := ops')
      as (A' & B' & C'); auto.
    { intros t l' Hin. apply (sum_fold_ne l ([], [])) with (t := t).
      - intros t1 l1 [].
      - rewrite Ef. cbn [snd]. now apply (Permutation_in _ (hp_iter HPO locals)). }
    { intros k Hk. apply A. apply R. now apply in_or_app. }
    assert (Ne : ops' <> []).
    { apply C'. intros X. destruct (flat_map leaves l) as [|k ks] eqn:El; [now apply B|].
      assert (Y : In k (ops ++ locals_of (h_iter HP locals))) by (apply R; now left).
      rewrite X in Y. destruct Y. }
    assert (S : same o ops' l).
    { apply (same_trans _ _ _ _ B'). apply (same_trans _ _ (flat_map leaves l)); [now apply same_mem|].
      now apply same_sym. }
    assert (Ts : typed o (HSum ops') s') by (constructor; auto).
    destruct ops' as [|h1 [|h2 r]].
    - congruence.
    - injection E as <-. split; [apply A'; now left|exact S].
    - injection E as <-. split; [exact Ts|]. apply (same_trans _ _ _ _ (same_sum o _ s' Ts) S).
  Qed.

  (** ** The bound of the model is never reached *)

  Fixpoint lsize (l : list hom) : nat := match l with [] => 0 | h :: r => S (hsize h) + lsize r end.
  Fixpoint gsize (m : list (N * list hom)) : nat :=
    match m with [] => 0 | tl :: r => lsize (snd tl) + gsize r end.

  Lemma lsize_app a b : lsize (a ++ b) = lsize a + lsize b.
  Proof. induction a; cbn; lia. Qed.

  Lemma sizes_cons h l : list_sum (map hsize (h :: l)) = hsize h + list_sum (map hsize l).
  Proof. reflexivity. Qed.

  Lemma add_local_size t h m : gsize (add_local t h m) = S (hsize h) + gsize m.
  Proof.
    induction m as [|[x l] m IH]; [cbn; lia|]. cbn [Hom.add_local]. destruct (N.eqb x t); cbn [gsize snd].
    - rewrite lsize_app. cbn. lia.
    - rewrite IH. lia.
  Qed.

  Lemma sum_visit_size h : forall st, gsize (snd (sum_visit st h)) <= gsize (snd st) + hsize h.
  Proof.
    induction h as [| | | | | | | | | |t h IH| | | |l IH] using hom_ind'; intros st;
      try (cbn [Hom.sum_visit snd]; lia).
    - cbn [Hom.sum_visit snd Hom.hsize]. rewrite add_local_size. lia.
    - assert (X : forall st, gsize (snd (fold_left sum_visit l st)) <= gsize (snd st) + list_sum (map hsize l)).
      { clear st. induction IH as [|h l Hh Hl IHl]; intros st; cbn [fold_left]; [cbn; lia|].
        specialize (IHl (sum_visit st h)). specialize (Hh st). rewrite sizes_cons. lia. }
      specialize (X st). cbn [Hom.sum_visit Hom.hsize]. lia.
  Qed.

  Lemma sum_fold_size l : forall st,
    gsize (snd (fold_left sum_visit l st)) <= gsize (snd st) + list_sum (map hsize l).
  Proof.
    induction l as [|h l IHl]; intros st; cbn [fold_left]; [cbn; lia|].
    specialize (IHl (sum_visit st h)). pose proof (sum_visit_size h st). rewrite sizes_cons. lia.
  Qed.

  Lemma gsize_in m t l : In (t, l) m -> lsize l <= gsize m.
  Proof.
    induction m as [|[x l'] m IH]; [intros []|]. intros [X|H]; cbn [gsize snd].
    - injection X as -> ->. lia.
    - specialize (IH H). lia.
  Qed.

  Lemma lsize_lt (l : list hom) : l <> [] -> list_sum (map hsize l) < lsize l.
  Proof.
    destruct l as [|h l]; [congruence|]. intros _. rewrite sizes_cons. cbn [lsize].
    assert (list_sum (map hsize l) <= lsize l); [|lia].
    induction l as [|k l IH]; [cbn; lia|]. rewrite sizes_cons. cbn [lsize]. lia.
  Qed.

  Lemma regroup_total (build : list hom -> res (cerr U) hom) : forall m ops,
    (forall t l, In (t, l) m -> exists h, build l = Ok h) -> exists ops', regroup build m ops = Ok ops'.
  Proof.
    induction m as [|[t l] m IH]; intros ops H; [now exists ops|].
    cbn [Hom.regroup]. destruct (H t l (or_introl eq_refl)) as (h & ->). cbn [rbind].
    apply IH. intros t' l' Hin. apply (H t' l'). now right.
  Qed.

  Lemma sum_fuel_total : forall fuel l, l <> [] -> list_sum (map hsize l) < fuel -> exists h, sum_fuel fuel l = Ok h.
  Proof.
    induction fuel as [|fuel IH]; intros l Ne Hf; [lia|]. cbn [Hom.sum_fuel].
    destruct l as [|h0 l0]; [congruence|]. set (l := h0 :: l0) in *.
    destruct (fold_left sum_visit l ([], [])) as [ops locals] eqn:Ef.
    destruct (regroup_total (sum_fuel fuel) (h_iter HP locals) ops) as (ops' & ->).
    - intros t l' Hin. assert (Hin' : In (t, l') locals) by now apply (Permutation_in _ (hp_iter HPO locals)).
      assert (Nl : l' <> []).
      { apply (sum_fold_ne l ([], [])) with (t := t); [intros t1 l1 []|]. now rewrite Ef. }
      apply IH; [auto|]. pose proof (sum_fold_size l ([], [])) as X. rewrite Ef in X. cbn [snd] in X.
      pose proof (gsize_in locals t l' Hin'). pose proof (lsize_lt l' Nl). cbn [gsize] in X. lia.
    - cbn [rbind]. destruct ops' as [|h1 [|h2 r]]; eauto.
  Qed.

  (** ** sum(o, operands) *)

  Theorem mk_sum_ok o s l h s' : mk_sum l = Ok h -> oshape o s -> (forall k, In k l -> typed o k s') ->
    typed o h s' /\ forall x y, fits s x -> (evals o h x y <-> sum_of o l x y).
  Proof.
    intros E O Th. destruct (sum_fuel_ok _ l h o s' E Th (ex_intro _ s O)) as [T S]. split; [auto|].
    now apply (same_one o s h l s').
  Qed.

  Theorem mk_sum_total l : l <> [] -> exists h, mk_sum l = Ok h.
  Proof. intros Ne. apply sum_fuel_total; [auto|]. lia. Qed.

  Lemma mk_sum_invalid : mk_sum [] = Err CInvalid.
  Proof. reflexivity. Qed.
End HomSum.
