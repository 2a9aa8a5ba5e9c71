(** * Functions and locals as operations on sets of assignments, and the path to an identifier *)

From Coq Require Import List Bool NArith Arith Lia Permutation Sorted Relations.
From Verif Require Import Base SortedSets Values Sdd SddFacts Orders OrdersProofs OrdersSdd DDModel.
From Verif Require Import DDGeneric DDProofs DDTheorems Hom HomFacts HomEval HomTyped HomEqns HomLinear.
From Verif Require Import HomSum HomHalts HomComp HomInter.
Import ListNotations.

(** ** Operations on sets of assignments *)

Section Sets.
  Variable VI : values_impl.
  Notation asg := (asg (elt VI)).
  Notation set := (asg -> Prop).

  (** The values that can replace [b] for the variable at the head, in every assignment. *)
  Definition alike (S : set) (x : N) (b : elt VI) : elt VI -> Prop :=
    fun b' => forall q, S (AVal x b' q) <-> S (AVal x b q).
  (** The same for nested assignments. *)
  Definition nalike (S : set) (x : N) (b : asg) : set :=
    fun b' => forall q, S (ANest x b' q) <-> S (ANest x b q).

  (** [changed t f S]: in [S], the set [v] of the values of [t] with the same continuations is
      replaced by [f v]; everything else is kept. *)
  Inductive changed (t : N) (f : vt VI -> vt VI) : set -> set :=
  | ch_end (S : set) : S ANil -> changed t f S ANil
  | ch_here (S : set) v a b q : S (AVal t b q) -> (forall b', v_mem VI v b' = true <-> alike S t b b') ->
      v_mem VI (f v) a = true -> changed t f S (AVal t a q)
  | ch_val (S : set) x a q : x <> t -> changed t f (fun q => S (AVal x a q)) q -> changed t f S (AVal x a q)
  | ch_nest (S : set) x a q : x <> t -> changed t f (fun q => S (ANest x a q)) q -> changed t f S (ANest x a q).

  (** [inside t op S]: in [S], the set of the nested assignments of [t] with the same continuations
      is replaced by its image by [op]; everything else is kept. *)
  Inductive inside (t : N) (op : set -> set) : set -> set :=
  | in_here (S : set) a b q : S (ANest t b q) -> op (nalike S t b) a -> inside t op S (ANest t a q)
  | in_val (S : set) x a q : x <> t -> inside t op (fun q => S (AVal x a q)) q -> inside t op S (AVal x a q)
  | in_nest (S : set) x a q : x <> t -> inside t op (fun q => S (ANest x a q)) q -> inside t op S (ANest x a q).

  (** Through several hierarchies. *)
  Definition along (path : list N) (op : set -> set) : set -> set := fold_right inside op path.

  Definition extensional (op : set -> set) : Prop :=
    forall S S' q, (forall p, S p <-> S' p) -> op S q -> op S' q.

  Lemma changed_ext t f : extensional (changed t f).
  Proof.
    intros S S' q E H. revert S' E.
    induction H as [S H|S v a b q H1 H2 H3|S x a q N H IH|S x a q N H IH]; intros S' E.
    - constructor. now apply E.
    - apply (ch_here t f S' v a b); auto.
      + now apply E.
      + intros b'. rewrite H2. unfold alike. split; intros X q'.
        * now rewrite <- !E.
        * now rewrite !E.
    - apply ch_val; auto.
    - apply ch_nest; auto.
  Qed.

  Lemma inside_ext t op : extensional op -> extensional (inside t op).
  Proof.
    intros Eo S S' q E H. revert S' E.
    induction H as [S a b q H1 H2|S x a q N H IH|S x a q N H IH]; intros S' E.
    - apply (in_here t op S' a b); [now apply E|]. apply (Eo (nalike S t b)); [|auto].
      intros b'. unfold nalike. split; intros X q'.
      + now rewrite <- !E.
      + now rewrite !E.
    - apply in_val; auto.
    - apply in_nest; auto.
  Qed.

  Lemma along_ext path op : extensional op -> extensional (along path op).
  Proof. intros E. induction path; cbn; [auto|now apply inside_ext]. Qed.

  Lemma inside_mono t (op op' : set -> set) : (forall S q, op S q -> op' S q) ->
    forall S q, inside t op S q -> inside t op' S q.
  Proof.
    intros Ho S q H. induction H as [S a b q H1 H2|S x a q N H IH|S x a q N H IH].
    - apply (in_here t op' S a b); auto.
    - now apply in_val.
    - now apply in_nest.
  Qed.

  Lemma inside_acons t op S x k q : x <> t ->
    (inside t op S (acons VI x k q) <-> inside t op (fun q => S (acons VI x k q)) q).
  Proof.
    intros N. destruct k as [a|a]; cbn [acons]; split; intros H.
    - now inversion H; subst.
    - now apply in_val.
    - inversion H; subst; [congruence|auto].
    - now apply in_nest.
  Qed.
  Lemma changed_acons t f S x k q : x <> t ->
    (changed t f S (acons VI x k q) <-> changed t f (fun q => S (acons VI x k q)) q).
  Proof.
    intros N. destruct k as [a|a]; cbn [acons]; split; intros H.
    - inversion H; subst; [congruence|auto].
    - now apply ch_val.
    - now inversion H; subst.
    - now apply ch_nest.
  Qed.
End Sets.

(** ** Evaluation *)

Section HomFun.
  Variable VI : values_impl.
  Hypothesis VL : values_laws VI.
  Variable PF : platform VI.
  Hypothesis PO : platform_ok PF.
  Variables U F I : Type.
  Notation V := (vt VI).
  Notation sdd := (sdd V).
  Notation hom := (hom V U F I).
  Variable US : user V U F I.
  Notation order := (order U).
  Notation fits := (fits VI PF).
  Notation oshape := (oshape U).
  Notation olevel := (olevel U).
  Notation typed := (typed VI PF U F I US).
  Notation hskip := (hskip VI U F I US).
  Notation evals := (evals VI PF U F I US).
  Notation residual := (residual VI).
  Notation asg := (asg (elt VI)).
  Notation set := (asg -> Prop).
  Notation harcs := (harcs VI).
  Notation farcs := (farcs VI).
  Notation local_at := (local_at U).
  Notation tot := (tot VI PF U F I US).
  Notation changed := (changed VI).
  Notation inside := (inside VI).
  Notation along := (along VI).
  Hypothesis HO : honest VI PF U F I US.

  Definition mset (x : sdd) : set := fun p => contains x p = true.

  (** The image of a set by a homomorphism. *)
  Definition img (o : order) (h : hom) : set -> set :=
    fun S a => exists s v w, oshape o s /\ fits s v /\ (forall b, mset v b <-> S b) /\ evals o h v w /\ mset w a.

  Lemma img_ext o h : extensional VI (img o h).
  Proof.
    intros S S' q E (s & v & w & O & Fv & Hv & Ew & M). exists s, v, w. split; [auto|split; [auto|split; [|auto]]].
    intros b. now rewrite Hv.
  Qed.

  Lemma residual_same_flat t r x v s b b' : fits (SFlat t r) x -> In (v, s) (farcs x) -> v_mem VI v b = true ->
    (v_mem VI v b' = true <-> residual x (KVal VI b') = s).
  Proof.
    intros Fx Hin Hb. destruct x as [| |v0 arcs|v0 arcs]; cbn [HomLinear.farcs] in Hin; [destruct Hin..| |destruct Hin].
    assert (Srt : ssorted (addr_lt PF) (map snd arcs)) by (destruct Fx as [H _]; now inversion H).
    destruct (fits_flat_inv VI PF _ _ _ _ Fx) as (-> & _ & D & G). cbn [HomFacts.residual]. split.
    - intros M. now apply (find_arc_some VI (v_mem VI) arcs b' v s).
    - intros E. destruct (find_arc_inv VI (v_mem VI) arcs b') as [X|(v' & Hin' & M)].
      + destruct (G v s Hin) as (_ & N & _). congruence.
      + rewrite E in Hin'. assert (v' = v); [|now subst].
        apply (ssorted_nodup _ (pf_lt PO)) in Srt. clear - Srt Hin Hin'.
        induction arcs as [|[w u] arcs IH]; [destruct Hin|]. cbn in Srt. inversion Srt; subst.
        destruct Hin as [X|Hin], Hin' as [Y|Hin'].
        * congruence.
        * injection X as -> ->. exfalso. apply H1. apply in_map_iff. exists (v', s). auto.
        * injection Y as -> ->. exfalso. apply H1. apply in_map_iff. exists (v, s). auto.
        * auto.
  Qed.

  Lemma residual_same_hier t n r x v s b b' : fits (SHier t n r) x -> In (v, s) (harcs x) -> contains v b = true ->
    (contains v b' = true <-> residual x (KNest VI b') = s).
  Proof.
    intros Fx Hin Hb. destruct x as [| |v0 arcs|v0 arcs]; cbn [HomLinear.harcs] in Hin; [destruct Hin..|].
    assert (Srt : ssorted (addr_lt PF) (map snd arcs)) by (destruct Fx as [H _]; now inversion H).
    destruct (fits_hier_inv VI PF _ _ _ _ _ Fx) as (-> & _ & D & G). cbn [HomFacts.residual]. split.
    - intros M. now apply (find_arc_some VI contains arcs b' v s).
    - intros E. destruct (find_arc_inv VI contains arcs b') as [X|(v' & Hin' & M)].
      + destruct (G v s Hin) as (_ & _ & N & _). congruence.
      + rewrite E in Hin'. assert (v' = v); [|now subst].
        apply (ssorted_nodup _ (pf_lt PO)) in Srt. clear - Srt Hin Hin'.
        induction arcs as [|[w u] arcs IH]; [destruct Hin|]. cbn in Srt. inversion Srt; subst.
        destruct Hin as [X|Hin], Hin' as [Y|Hin'].
        * congruence.
        * injection X as -> ->. exfalso. apply H1. apply in_map_iff. exists (v', s). auto.
        * injection Y as -> ->. exfalso. apply H1. apply in_map_iff. exists (v, s). auto.
        * auto.
  Qed.

  Lemma residual_iff l r x k k' : fits (under l r) x ->
    (residual x k = residual x k' <->
     forall q, mset x (acons VI (lvar l) k q) <-> mset x (acons VI (lvar l) k' q)).
  Proof.
    intros Fx. unfold mset. split.
    - intros E q. rewrite !(residual_contains VI PF l r x _ q Fx), E. reflexivity.
    - intros H. apply (fits_ext VI VL PF PO r); [now apply (residual_fits VI PF l)..|].
      intros q. apply bool_ext. rewrite <- !(residual_contains VI PF l r x _ q Fx). apply H.
  Qed.

  Lemma alike_flat t r x v s b : fits (SFlat t r) x -> In (v, s) (farcs x) -> v_mem VI v b = true ->
    forall b', v_mem VI v b' = true <-> alike VI (mset x) t b b'.
  Proof.
    intros Fx Hin Hb b'. rewrite (residual_same_flat t r x v s b b' Fx Hin Hb).
    rewrite <- (proj1 (residual_same_flat t r x v s b b Fx Hin Hb) Hb).
    apply (residual_iff (LFlat t) r x (KVal VI b') (KVal VI b) Fx).
  Qed.
  Lemma alike_hier t n r x v s b : fits (SHier t n r) x -> In (v, s) (harcs x) -> contains v b = true ->
    forall b', contains v b' = true <-> nalike VI (mset x) t b b'.
  Proof.
    intros Fx Hin Hb b'. rewrite (residual_same_hier t n r x v s b b' Fx Hin Hb).
    rewrite <- (proj1 (residual_same_hier t n r x v s b b Fx Hin Hb) Hb).
    apply (residual_iff (LHier t n) r x (KNest VI b') (KNest VI b) Fx).
  Qed.

  Lemma in_flat t r x b q : fits (SFlat t r) x ->
    (contains x (AVal t b q) = true <-> exists v s, In (v, s) (farcs x) /\ v_mem VI v b = true /\ contains s q = true).
  Proof.
    intros Fx. destruct x as [| |v0 arcs|v0 arcs]; try (destruct Fx as [_ Fx]; now inversion Fx).
    - cbn. split; [discriminate|intros (v & s & [] & _)].
    - destruct (fits_flat_inv VI PF _ _ _ _ Fx) as (-> & _).
      rewrite contains_flat, N.eqb_refl. cbn [andb HomLinear.farcs]. apply acontains_spec.
  Qed.
  Lemma in_hier t n r x b q : fits (SHier t n r) x ->
    (contains x (ANest t b q) = true <-> exists v s, In (v, s) (harcs x) /\ contains v b = true /\ contains s q = true).
  Proof.
    intros Fx. destruct x as [| |v0 arcs|v0 arcs]; try (destruct Fx as [_ Fx]; now inversion Fx).
    - cbn. split; [discriminate|intros (v & s & [] & _)].
    - destruct (fits_hier_inv VI PF _ _ _ _ _ Fx) as (-> & _).
      rewrite contains_hier, N.eqb_refl. cbn [andb HomLinear.harcs]. apply acontains_spec.
  Qed.

  (** ** Local *)

  Theorem local_sem o t h s' on n' : local_at o t s' on n' -> typed on h n' ->
    forall s x y, oshape o s -> fits s x -> evals o (HLocal t h) x y ->
    forall q, mset y q <-> inside t (img on h) (mset x) q.
  Proof.
    intros L T. induction L as [o t n o' on n' r L M O|o l o' t s' on n' L N H IH]; intros s x y Os Fx E q.
    - assert (Es : s = SHier t n r).
      { apply (oshape_fun _ _ _ Os). now apply (oshape_level _ _ (LHier t n) _ r L). }
      subst s.
      assert (On : oshape on n).
      { destruct L as (_ & _ & on' & M' & _ & On). congruence. }
      destruct (local_here_fwd VI VL PF PO U F I US HO o t n o' on h n' r x y L M O T Fx E) as (Fy & All & C).
      split.
      + intros Cq. unfold mset in Cq.
        destruct (contains_step VI PF (LHier t n') r _ _ Fy Cq) as ([a|a] & q' & ->); cbn [acons lvar] in *.
        { exfalso. destruct y as [| |v arcs|v arcs]; try discriminate. destruct Fy as [_ Fy]. inversion Fy. }
        apply C in Cq. destruct Cq as (v & w & s & Hin & Ew & C1 & C2).
        destruct (fits_harcs VI PF _ _ _ _ _ _ Fx Hin) as (Fv & Nv & _).
        destruct (fits_nonempty VI VL PF _ _ Fv Nv) as (b & Cb).
        apply (in_here VI t _ (mset x) a b).
        * apply (in_hier t n r x b q' Fx). eauto.
        * exists n, v, w. split; [auto|split; [auto|split; [|auto]]].
          now apply (alike_hier t n r x v s b).
      + intros H. inversion H as [S0 a b q' H1 (n2 & v' & w & On2 & Fv' & Hv' & Ew & Cw)|S0 z a q' N H1|S0 z a q' N H1]; subst.
        * assert (n2 = n) by apply (oshape_fun _ _ _ On2 _ On). subst n2.
          apply (in_hier t n r x b q' Fx) in H1. destruct H1 as (v & s & Hin & Cb & Cs).
          assert (v' = v).
          { destruct (fits_harcs VI PF _ _ _ _ _ _ Fx Hin) as (Fv & _).
            apply (fits_ext VI VL PF PO n); auto. intros b'. apply bool_ext.
            rewrite (alike_hier t n r x v s b Fx Hin Cb b'). apply Hv'. }
          subst v'. apply C. exists v, w, s. auto.
        * exfalso. assert (X : forall q S, inside t (img on h) S q -> exists p, S p).
          { clear. intros q S. induction 1 as [S a b q H _|S z a q _ _ [p IH]|S z a q _ _ [p IH]]; eauto. }
          destruct (X _ _ H) as (p & Cp). apply X in H1. destruct H1 as (p' & Cp').
          destruct (contains_step VI PF (LHier t n) r _ _ Fx Cp') as (k & q0 & E0). destruct k; cbn in E0; congruence.
        * exfalso. assert (X : forall q S, inside t (img on h) S q -> exists p, S p).
          { clear. intros q S. induction 1 as [S a b q H _|S z a q _ _ [p IH]|S z a q _ _ [p IH]]; eauto. }
          apply X in H1. destruct H1 as (p' & Cp').
          destruct (contains_step VI PF (LHier t n) r _ _ Fx Cp') as (k & q0 & E0). destruct k; cbn in E0; congruence.
    - destruct (oshape_inv _ _ _ Os) as [[X1 _]|(_ & l' & o'' & r & L' & -> & O')].
      { rewrite (olevel_nonempty _ _ _ _ L) in X1. discriminate. }
      destruct (olevel_fun _ _ _ _ L' _ _ L) as [-> ->]. clear L'.
      assert (Hs : hskip o (HLocal t h) = true) by (cbn [Hom.hskip]; now apply (var_neqb_level U o l o' t L)).
      assert (T' : typed o' (HLocal t h) s') by (apply typed_local_iff; eauto).
      apply (ev_skip VI VL PF PO U F I US HO o l o' _ r s' x y L O' Fx Hs T') in E. destruct E as [Fy E].
      assert (Q : forall k q', mset y (acons VI (lvar l) k q') <-> inside t (img on h) (mset x) (acons VI (lvar l) k q')).
      { intros k q'. rewrite inside_acons by auto. unfold mset at 1. rewrite (residual_contains VI PF l s' y k q' Fy).
        assert (Fr : fits r (residual x k)) by now apply (residual_fits VI PF l).
        pose proof (IH T r (residual x k) (residual y k) O' Fr (E k) q') as Y. unfold mset at 1 in Y. rewrite Y.
        assert (X : forall p, mset (residual x k) p <-> mset x (acons VI (lvar l) k p)).
        { intros p. unfold mset. now rewrite (residual_contains VI PF l r x k p Fx). }
        split; intros Z.
        - apply (inside_ext VI t _ (img_ext on h) (mset (residual x k))); auto.
        - apply (inside_ext VI t _ (img_ext on h) (fun q => mset x (acons VI (lvar l) k q))); auto.
          intros p. symmetry. apply X. }
      split.
      + intros C. destruct (contains_step VI PF l s' _ _ Fy C) as (k & q' & ->). now apply Q.
      + intros C. assert (X : exists k q', q = acons VI (lvar l) k q'); [|destruct X as (k & q' & ->); now apply Q].
        assert (Y : forall q S, inside t (img on h) S q -> exists p, S p).
        { clear. intros q S. induction 1 as [S a b q H _|S z a q _ _ [p IH]|S z a q _ _ [p IH]]; eauto. }
        inversion C as [S0 a b q' H1 H2|S0 z a q' Nz H1|S0 z a q' Nz H1]; subst.
        * destruct (contains_step VI PF l r _ _ Fx H1) as (k & q0 & E0). destruct k; cbn in E0; congruence.
        * apply Y in H1. destruct H1 as (p & Cp). destruct (contains_step VI PF l r _ _ Fx Cp) as (k & q0 & E0).
          exists (KVal VI a), q'. destruct k; cbn in E0; [injection E0 as -> _ _; reflexivity|discriminate].
        * apply Y in H1. destruct H1 as (p & Cp). destruct (contains_step VI PF l r _ _ Fx Cp) as (k & q0 & E0).
          exists (KNest VI a), q'. destruct k; cbn in E0; [discriminate|injection E0 as -> _ _; reflexivity].
  Qed.

  (** ** Functions *)

  Lemma changed_nonempty t f q S : changed t f S q -> exists p, S p.
  Proof.
    induction 1 as [S H|S v a b q H _ _|S z a q _ _ [p IH]|S z a q _ _ [p IH]]; eauto.
  Qed.

  Theorem fun_sem o t f s' : typed o (HFun t f) s' ->
    forall s x y, oshape o s -> fits s x -> evals o (HFun t f) x y ->
    forall q, mset y q <-> changed t (f_apply US f) (mset x) q.
  Proof.
    intros T. remember (HFun t f) as k eqn:Ek.
    induction T as
      [o s O|o hl r s s' O H1 IH1 H2 IH2|o s o1 x o'' v n r O A1 A2 O' T IH
      |o s o1 x o'' v nv n r O A1 A2 O' A3 T IH|o s x s' O Fx|o h1 s O T IH|o t1 f1 E|o t1 f1 r O
      |o k1 o1 t1 f1 s' L N T IH|o p t1 e s s' O Sel T1 IH1 T2 IH2 T3 IH3|o i s' E Fx
      |o k1 o1 i s' L Sk T IH|o x o1 i s' L Sk T IH|o x n o1 i s' L Sk T IH|o hs s' Ne T IH
      |o t1 n o0 on0 h1 n' r L M O T IH|o k1 o0 t1 h1 s' L N T IH
      |o k1 o1 s f1 g q L O T1 IH1 T2 IH2 T3 IH3|o k1 o1 x f1 g q s' L N T IH
      |o k1 o1 s' f1 g q L Ne T IH|o k1 o1 x f1 g q s' L N T IH
      |o k1 o1 s' f1 g q L Ne T IH|o k1 o1 x f1 g q s' L N T IH|o hs s' Ne T IH];
      try discriminate Ek; injection Ek as -> ->; intros s x y Os Fx E1 q.
    - destruct (oshape_inv _ _ _ Os) as [[_ ->]|[X _]]; [|congruence].
      destruct x as [| |v arcs|v arcs]; [| |destruct Fx as [_ Fx]; inversion Fx..].
      { apply evals_zero in E1. subst y. split; [discriminate|].
        intros X. apply changed_nonempty in X. destruct X as (p & X). discriminate. }
      apply (ev_direct VI PF U F I US o (HFun t f) SEnd) in E1; auto; try discriminate; [|congruence].
      destruct E1 as (n & E1). cbn [Hom.direct] in E1. apply runs_ret_iff in E1. subst y.
      unfold mset at 1. split.
      + intros C. destruct q; cbn in C; try discriminate. constructor. reflexivity.
      + intros X. inversion X as [S0 H|S0 v a b q' H1 H2 H3|S0 z a q' N H1|S0 z a q' N H1]; subst.
        * reflexivity.
        * discriminate.
        * apply changed_nonempty in H1. destruct H1 as (p & H1). discriminate.
        * apply changed_nonempty in H1. destruct H1 as (p & H1). discriminate.
    - assert (s = SFlat t r) by apply (oshape_fun _ _ _ Os _ O). subst s.
      apply (fun_here VI VL PF PO U F I US HO o t f r x y O Fx) in E1. destruct E1 as [Fy C].
      split.
      + intros Cq. unfold mset in Cq.
        destruct (contains_step VI PF (LFlat t) r _ _ Fy Cq) as ([a|a] & q' & ->); cbn [acons lvar] in *.
        2:{ exfalso. destruct y as [| |v arcs|v arcs]; try discriminate. destruct Fy as [_ Fy]. inversion Fy. }
        apply C in Cq. destruct Cq as (v & s & Hin & C1 & C2).
        assert (Nv : exists b, v_mem VI v b = true).
        { destruct x as [| |v0 arcs|v0 arcs]; cbn [HomLinear.farcs] in Hin; [destruct Hin..| |destruct Hin].
          destruct (fits_flat_inv VI PF _ _ _ _ Fx) as (_ & _ & _ & G). destruct (G v s Hin) as (X & _).
          now apply (v_nonempty VI VL). }
        destruct Nv as (b & Cb). apply (ch_here VI t _ (mset x) v a b); auto.
        * apply (in_flat t r x b q' Fx). eauto.
        * now apply (alike_flat t r x v s b).
      + intros H. inversion H as [S0 H1|S0 v' a b q' H1 H2 H3|S0 z a q' N H1|S0 z a q' N H1]; subst.
        * unfold mset in H1. destruct (contains_step VI PF (LFlat t) r _ _ Fx H1) as (k & q0 & E0). destruct k; discriminate.
        * apply (in_flat t r x b q' Fx) in H1. destruct H1 as (v & s & Hin & Cb & Cs).
          assert (v' = v).
          { apply (vl_ext VL). intros b'. apply bool_ext. rewrite H2.
            now rewrite (alike_flat t r x v s b Fx Hin Cb b'). }
          subst v'. apply C. exists v, s. auto.
        * apply changed_nonempty in H1. destruct H1 as (p & Cp).
          destruct (contains_step VI PF (LFlat t) r _ _ Fx Cp) as (k & q0 & E0). destruct k; cbn in E0; congruence.
        * apply changed_nonempty in H1. destruct H1 as (p & Cp).
          destruct (contains_step VI PF (LFlat t) r _ _ Fx Cp) as (k & q0 & E0). destruct k; cbn in E0; congruence.
    - destruct (oshape_inv _ _ _ Os) as [[X1 _]|(_ & l' & o'' & r & L' & -> & O')].
      { rewrite (olevel_nonempty _ _ _ _ L) in X1. discriminate. }
      destruct (olevel_fun _ _ _ _ L' _ _ L) as [-> ->]. clear L'.
      assert (Hs : hskip o (HFun t f) = true) by (cbn [Hom.hskip]; now apply (var_neqb_level U o k1 o1 t L)).
      apply (ev_skip VI VL PF PO U F I US HO o k1 o1 _ r s' x y L O' Fx Hs T) in E1. destruct E1 as [Fy E].
      assert (Q : forall k q', mset y (acons VI (lvar k1) k q') <->
                changed t (f_apply US f) (mset x) (acons VI (lvar k1) k q')).
      { intros k q'. rewrite changed_acons by auto. unfold mset at 1. rewrite (residual_contains VI PF k1 s' y k q' Fy).
        assert (Fr : fits r (residual x k)) by now apply (residual_fits VI PF k1).
        pose proof (IH eq_refl r (residual x k) (residual y k) O' Fr (E k) q') as Y. unfold mset at 1 in Y. rewrite Y.
        assert (X : forall p, mset (residual x k) p <-> mset x (acons VI (lvar k1) k p)).
        { intros p. unfold mset. now rewrite (residual_contains VI PF k1 r x k p Fx). }
        split; intros Z.
        - apply (changed_ext VI t _ (mset (residual x k))); auto.
        - apply (changed_ext VI t _ (fun q => mset x (acons VI (lvar k1) k q))); auto.
          intros p. symmetry. apply X. }
      split.
      + intros C. destruct (contains_step VI PF k1 s' _ _ Fy C) as (k & q' & ->). now apply Q.
      + intros C. assert (X : exists k q', q = acons VI (lvar k1) k q'); [|destruct X as (k & q' & ->); now apply Q].
        inversion C as [S0 H1|S0 v' a b q' H1 H2 H3|S0 z a q' Nz H1|S0 z a q' Nz H1]; subst.
        * unfold mset in H1. destruct (contains_step VI PF k1 r _ _ Fx H1) as (k & q0 & E0). destruct k; discriminate.
        * destruct (contains_step VI PF k1 r _ _ Fx H1) as (k & q0 & E0). destruct k; cbn in E0; congruence.
        * apply changed_nonempty in H1. destruct H1 as (p & Cp). destruct (contains_step VI PF k1 r _ _ Fx Cp) as (k & q0 & E0).
          exists (KVal VI a), q'. destruct k; cbn in E0; [injection E0 as -> _ _; reflexivity|discriminate].
        * apply changed_nonempty in H1. destruct H1 as (p & Cp). destruct (contains_step VI PF k1 r _ _ Fx Cp) as (k & q0 & E0).
          exists (KNest VI a), q'. destruct k; cbn in E0; [discriminate|injection E0 as -> _ _; reflexivity].
  Qed.

  Lemma fun_tot o t f s' : typed o (HFun t f) s' -> tot o (HFun t f).
  Proof.
    intros T. remember (HFun t f) as k eqn:Ek.
    induction T as
      [o s O|o hl r s s' O H1 IH1 H2 IH2|o s o1 x o'' v n r O A1 A2 O' T IH
      |o s o1 x o'' v nv n r O A1 A2 O' A3 T IH|o s x s' O Fx|o h1 s O T IH|o t1 f1 E|o t1 f1 r O
      |o k1 o1 t1 f1 s' L N T IH|o p t1 e s s' O Sel T1 IH1 T2 IH2 T3 IH3|o i s' E Fx
      |o k1 o1 i s' L Sk T IH|o x o1 i s' L Sk T IH|o x n o1 i s' L Sk T IH|o hs s' Ne T IH
      |o t1 n o0 on0 h1 n' r L M O T IH|o k1 o0 t1 h1 s' L N T IH
      |o k1 o1 s f1 g q L O T1 IH1 T2 IH2 T3 IH3|o k1 o1 x f1 g q s' L N T IH
      |o k1 o1 s' f1 g q L Ne T IH|o k1 o1 x f1 g q s' L N T IH
      |o k1 o1 s' f1 g q L Ne T IH|o k1 o1 x f1 g q s' L N T IH|o hs s' Ne T IH];
      try discriminate Ek; injection Ek as -> ->.
    - intros s x Os Fx. destruct (oshape_inv _ _ _ Os) as [[_ ->]|[X _]]; [|congruence].
      destruct x as [| |v arcs|v arcs]; [| |destruct Fx as [_ Fx]; inversion Fx..].
      { exists Zero. now apply evals_zero. }
      exists One. apply (ev_direct VI PF U F I US o (HFun t f) SEnd); auto; try discriminate; [congruence|].
      exists 0. cbn [Hom.direct]. now apply runs_ret_iff.
    - intros s x Os Fx. assert (s = SFlat t r) by apply (oshape_fun _ _ _ Os _ O). subst s.
      destruct (oshape_flat_level _ _ _ _ O) as (o' & L).
      assert (X : forall l, (forall v s, In (v, s) l -> v_empty VI v = false /\ s <> Zero /\ fits r s) ->
                exists y, fits (SFlat t r) y /\ forall a q, contains y (AVal t a q) = true <->
                  exists v s, In (v, s) l /\ v_mem VI (f_apply US f v) a = true /\ contains s q = true).
      { induction l as [|[v s] l IH]; intros G.
        - exists Zero. split; [apply fits_zero|]. intros a q. split; [discriminate|intros (v & s & [] & _)].
        - destruct IH as (y & Fy & C); [intros v' s' Hin; apply G; now right|].
          destruct (G v s (or_introl eq_refl)) as (_ & _ & Fs).
          assert (Fn : fits (SFlat t r) (node_flat VI PF t (f_apply US f v) s)) by (destruct Fs; split; [now apply node_flat_canonical|now apply node_flat_follows]).
          destruct (sum_ok VI VL PF PO (SFlat t r) [node_flat VI PF t (f_apply US f v) s; y]) as (z & _ & Fz & Cz).
          { intros w [<-|[<-|[]]]; auto. }
          exists z. split; [auto|]. intros a q. rewrite Cz. cbn [existsb]. rewrite orb_false_r, orb_true_iff, C.
          rewrite (node_flat_contains VI VL PF). split.
          + intros [(a' & q' & Eq & X)|(v' & s' & Hin & X)].
            * injection Eq as <- <-. exists v, s. split; [now left|auto].
            * exists v', s'. split; [now right|auto].
          + intros (v' & s' & [Eq|Hin] & X); [injection Eq as <- <-; left; eauto|right; eauto]. }
      destruct x as [| |v arcs|v arcs]; try (destruct Fx as [_ Fx]; now inversion Fx).
      { exists Zero. now apply evals_zero. }
      destruct (fits_flat_inv VI PF _ _ _ _ Fx) as (-> & _ & D & G).
      destruct (X arcs G) as (y & Fy & C). exists y.
      apply (fun_here VI VL PF PO U F I US HO o t f r _ y O Fx). auto.
    - apply (skip_tot VI VL PF PO U F I US HO o k1 o1 (HFun t f) s' L); auto.
      cbn [Hom.hskip]. now apply (var_neqb_level U o k1 o1 t L).
  Qed.
End HomFun.
