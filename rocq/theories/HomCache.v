(** * The cache of homomorphisms

    An entry is found from the homomorphism and the operand only: the order is not part of the key
    (sdd/hom/evaluation.hh 115-121 and 160-171). This is justified for homomorphisms that do not
    contain inductive homomorphisms. *)

From Coq Require Import List Bool NArith Arith Lia.
From Verif Require Import Base SortedSets Values Sdd SddFacts Orders OrdersProofs OrdersSdd DDModel.
From Verif Require Import DDGeneric DDProofs DDTheorems Hom HomFacts HomEval HomTyped HomEqns.
From Verif Require Import Pow2 HashTable Cached Cache CacheProofs CacheTheorems CacheProps.
Import ListNotations.

Section HomCache.
  Variable VI : values_impl.
  Hypothesis VL : values_laws VI.
  Variable PF : platform VI.
  Hypothesis PO : platform_ok PF.
  Variables U F I : Type.
  Notation V := (vt VI).
  Notation sdd := (sdd V).
  Notation hom := (hom V U F I).
  Variable US : user V U F I.
  Notation order := (order U).
  Notation fits := (fits VI PF).
  Notation oshape := (oshape U).
  Notation olevel := (olevel U).
  Notation typed := (typed VI PF U F I US).
  Notation hskip := (hskip VI U F I US).
  Notation hselector := (hselector VI U F I US).
  Notation evals := (evals VI PF U F I US).
  Notation heval := (heval VI PF U F I US).
  Notation hom_body := (hom_body VI PF U F I US).
  Notation direct := (direct VI PF U F I US).
  Notation hcall := (hcall VI U F I).
  Notation opt_list := (opt_list VI U F I).
  Notation hop := (hop VI U F I).
  Notation P := (prog hop sdd (err V)).
  Hypothesis HO : honest VI PF U F I US.

  (** Two orders of the same shape. *)
  Definition osame (o o' : order) : Prop := exists s, oshape o s /\ oshape o' s.

  Lemma osame_level o o' l o1 : osame o o' -> olevel o l o1 -> exists o1', olevel o' l o1' /\ osame o1 o1'.
  Proof.
    intros (s & O & O') L. destruct (oshape_inv _ _ _ O) as [[X _]|(_ & l1 & o2 & r & L1 & -> & O2)].
    { rewrite (olevel_nonempty _ _ _ _ L) in X. discriminate. }
    destruct (olevel_fun _ _ _ _ L1 _ _ L) as [-> ->].
    destruct (oshape_inv _ _ _ O') as [[_ X]|(_ & l2 & o3 & r' & L2 & E & O3)].
    { destruct l; discriminate. }
    apply under_inj in E. destruct E as [<- <-]. exists o3. split; [auto|]. exists r. auto.
  Qed.

  Lemma osame_empty o o' : osame o o' -> o_empty o = o_empty o'.
  Proof.
    intros (s & O & O'). destruct (oshape_inv _ _ _ O) as [[X E]|(X & l1 & o2 & r & L1 & E & O2)],
      (oshape_inv _ _ _ O') as [[X' E']|(X' & l1' & o2' & r' & L1' & E' & O2')]; try congruence.
    - subst s. destruct l1'; discriminate.
    - subst s. destruct l1; discriminate.
  Qed.

  Lemma osame_variable o o' : osame o o' -> o_variable o = o_variable o'.
  Proof.
    intros H. pose proof (osame_empty o o' H) as E. destruct H as (s & O & O').
    destruct (oshape_inv _ _ _ O) as [[X _]|(_ & l1 & o2 & r & L1 & -> & O2)].
    - rewrite X in E. symmetry in E. revert X E. unfold o_empty, o_variable, head.
      destruct (o_head o), (o_head o'); try discriminate. reflexivity.
    - destruct (oshape_inv _ _ _ O') as [[_ X]|(_ & l2 & o3 & r' & L2 & Es & O3)].
      { destruct l1; discriminate. }
      apply under_inj in Es. destruct Es as [<- <-]. destruct L1 as [-> _], L2 as [-> _]. reflexivity.
  Qed.

  Lemma osame_nested o o' x n o1 on : osame o o' -> olevel o (LHier x n) o1 -> o_nested o = Some on ->
    exists on', o_nested o' = Some on' /\ osame on on'.
  Proof.
    intros H L M. destruct (osame_level o o' _ _ H L) as (o1' & L' & _).
    destruct L as (_ & _ & m & M1 & _ & On), L' as (_ & _ & m' & M1' & _ & On').
    rewrite M in M1. injection M1 as <-. exists m'. split; [auto|]. exists n. auto.
  Qed.

  Lemma osame_refl o s : oshape o s -> osame o o.
  Proof. intros O. exists s. auto. Qed.

  Lemma osame_shape o o' s : osame o o' -> oshape o s -> oshape o' s.
  Proof. intros (s' & O & O') Os. now rewrite (oshape_fun _ _ _ Os _ O). Qed.


  (** ** Homomorphisms equal up to the orders they carry *)

  (** The orders of two Cons have the same position and the same rest. *)
  Definition osame_next (o o' : order) : Prop :=
    o_variable o = o_variable o' /\ exists a b, o_next o = Some a /\ o_next o' = Some b /\ osame a b.

  (** [J]: the inductive homomorphisms that may occur. *)
  Variable J : I -> Prop.

  Inductive hsim : hom -> hom -> Prop :=
  | S_comp l r l' r' : hsim l l' -> hsim r r' -> hsim (HComp l r) (HComp l' r')
  | S_consF o o' v n n' : osame_next o o' -> hsim n n' -> hsim (HConsF o v n) (HConsF o' v n')
  | S_consH o o' v n n' : osame_next o o' -> hsim n n' -> hsim (HConsH o v n) (HConsH o' v n')
  | S_const x : hsim (HConst x) (HConst x)
  | S_fix h h' : hsim h h' -> hsim (HFix h) (HFix h')
  | S_fun t f : hsim (HFun t f) (HFun t f)
  | S_id : hsim HId HId
  | S_ite p t e p' t' e' : hsim p p' -> hsim t t' -> hsim e e' -> hsim (HIte p t e) (HIte p' t' e')
  | S_ind i : J i -> hsim (HInd i) (HInd i)
  | S_inter l l' : Forall2 hsim l l' -> hsim (HInter l) (HInter l')
  | S_local t h h' : hsim h h' -> hsim (HLocal t h) (HLocal t h')
  | S_satfix x f g l f' g' l' : hsim f f' -> Forall2 hsim g g' -> hsim l l' ->
      hsim (HSatFix x f g l) (HSatFix x f' g' l')
  | S_satinter x f g l f' g' l' : Forall2 hsim (opt_list f) (opt_list f') -> Forall2 hsim g g' ->
      Forall2 hsim (opt_list l) (opt_list l') -> hsim (HSatInter x f g l) (HSatInter x f' g' l')
  | S_satsum x f g l f' g' l' : Forall2 hsim (opt_list f) (opt_list f') -> Forall2 hsim g g' ->
      Forall2 hsim (opt_list l) (opt_list l') -> hsim (HSatSum x f g l) (HSatSum x f' g' l')
  | S_sum l l' : Forall2 hsim l l' -> hsim (HSum l) (HSum l').

  (** The inductive homomorphisms of [J] use the order only to know the positions: with two orders of
      the same shape, they skip the same positions and give the same homomorphisms, up to the orders
      of the Cons. *)
  Definition oblivious : Prop := forall i o o', J i -> osame o o' -> o_empty o = false ->
    hskip o (HInd i) = hskip o' (HInd i) /\
    (forall v, hsim (i_flat US i o v) (i_flat US i o' v)) /\
    (forall v, hsim (i_hier US i o v) (i_hier US i o' v)).
  Hypothesis OB : oblivious.

  Lemma forall2_in (R : hom -> hom -> Prop) l l' b : Forall2 R l l' -> In b l' -> exists a, In a l /\ R a b.
  Proof.
    induction 1 as [|x y l l' H1 H2 IH]; intros []; subst.
    - exists x. split; [now left|auto].
    - destruct (IH H) as (a & A1 & A2). exists a. split; [now right|auto].
  Qed.

  Lemma forall2_forallb (p q : hom -> bool) l l' : Forall2 hsim l l' ->
    (forall h, In h l -> forall h', hsim h h' -> p h = q h') -> forallb p l = forallb q l'.
  Proof.
    induction 1 as [|x y l l' H1 H2 IH]; intros H; cbn; auto.
    rewrite (H x (or_introl eq_refl) y H1), IH; auto. intros h Hh. apply H. now right.
  Qed.

  Lemma hskip_sim o o' h : osame o o' -> forall h', hsim h h' -> hskip o h = hskip o' h'.
  Proof.
    intros H. assert (V : forall t, var_neqb U o t = var_neqb U o' t).
    { intros t. unfold var_neqb. now rewrite (osame_variable o o' H). }
    induction h as [f g IHf IHg| | | |h IH| | |p t e IHp IHt IHe|i|l IH|t h IH| | | |l IH] using hom_ind';
      intros h' S; inversion S as
      [l1 r1 l1' r1' A B|o1 o1' v1 n1 n1' A B|o1 o1' v1 n1 n1' A B|x1|k1 k1' A|t1 f1| |p1 t1 e1 p1' t1' e1' A B C
      |i1 A|l1 l1' A|t1 k1 k1' A|x1 f1 g1 l1 f1' g1' l1' A B C|x1 f1 g1 l1 f1' g1' l1' A B C
      |x1 f1 g1 l1 f1' g1' l1' A B C|l1 l1' A]; subst; cbn [Hom.hskip]; auto.
    - now rewrite (IHf _ A), (IHg _ B).
    - now rewrite (IHp _ A), (IHt _ B), (IHe _ C).
    - destruct (o_empty o) eqn:E.
      + pose proof (osame_empty o o' H) as E'. rewrite E in E'. symmetry in E'. revert E E'. unfold o_empty, o_identifier, head.
        destruct (o_head o), (o_head o'); try discriminate. reflexivity.
      + destruct (OB i o o' A H E) as (X & _). exact X.
    - apply (forall2_forallb _ _ _ _ A). rewrite Forall_forall in IH. auto.
    - apply (forall2_forallb _ _ _ _ A). rewrite Forall_forall in IH. auto.
  Qed.

  Lemma hselector_sim h : forall h', hsim h h' -> hselector h = hselector h'.
  Proof.
    assert (OPT : forall f f', (forall h, f = Some h -> forall h', hsim h h' -> hselector h = hselector h') ->
       Forall2 hsim (opt_list f) (opt_list f') ->
       match f with Some h => hselector h | None => true end = match f' with Some h => hselector h | None => true end).
    { intros f f' Hf A. destruct f, f'; cbn [Hom.opt_list] in A; inversion A; subst; auto. }
    induction h as [f g IHf IHg| | | |h IH| | |p t e IHp IHt IHe|i|l IH|t h IH|x f g l IHf IHg IHl
      |x f g l IHf IHg IHl|x f g l IHf IHg IHl|l IH] using hom_ind';
      intros h' S; inversion S as
      [l1 r1 l1' r1' A B|o1 o1' v1 n1 n1' A B|o1 o1' v1 n1 n1' A B|x1|k1 k1' A|t1 f1| |p1 t1 e1 p1' t1' e1' A B C
      |i1 A|l1 l1' A|t1 k1 k1' A|x1 f1 g1 l1 f1' g1' l1' A B C|x1 f1 g1 l1 f1' g1' l1' A B C
      |x1 f1 g1 l1 f1' g1' l1' A B C|l1 l1' A]; subst; cbn [Hom.hselector]; auto.
    - now rewrite (IHf _ A), (IHg _ B).
    - now rewrite (IHt _ B), (IHe _ C).
    - apply (forall2_forallb _ _ _ _ A). rewrite Forall_forall in IH. auto.
    - rewrite Forall_forall in IHg. now rewrite (IHf _ A), (IHl _ C), (forall2_forallb hselector hselector _ _ B).
    - rewrite Forall_forall in IHg. now rewrite (OPT _ _ IHf A), (OPT _ _ IHl C), (forall2_forallb hselector hselector _ _ B).
    - rewrite Forall_forall in IHg. now rewrite (OPT _ _ IHf A), (OPT _ _ IHl C), (forall2_forallb hselector hselector _ _ B).
    - apply (forall2_forallb _ _ _ _ A). rewrite Forall_forall in IH. auto.
  Qed.

  Lemma forall2_nil (R : hom -> hom -> Prop) l l' : Forall2 R l l' -> l <> [] -> l' <> [].
  Proof. intros A N. destruct A; [congruence|discriminate]. Qed.

  Ltac inv_sim S := inversion S as
      [l1 r1 l1' r1' A B|o1' o2' v1 n1 n1' A B|o1' o2' v1 n1 n1' A B|x1|k1 k1' A|t1 f1| |p1 t1 e1 p1' t1' e1' A B C
      |i1 A|l1 l1' A|t1 k1 k1' A|x1 f1 g1 l1 f1' g1' l1' A B C|x1 f1 g1 l1 f1' g1' l1' A B C
      |x1 f1 g1 l1 f1' g1' l1' A B C|l1 l1' A]; subst.

  Lemma typed_sim o h s' : typed o h s' -> forall o', osame o o' -> forall h', hsim h h' -> typed o' h' s'.
  Proof.
    induction 1 as
      [o s O|o hl r s s' O H1 IH1 H2 IH2|o s o1 x o'' v n r O A1 A2 O' T IH
      |o s o1 x o'' v nv n r O A1 A2 O' A3 T IH|o s x s' O Fx|o h s O T IH|o t f E|o t f r O
      |o k o1 t f s' L N T IH|o p t e s s' O Sel T1 IH1 T2 IH2 T3 IH3|o i s' E Fx
      |o k o1 i s' L Sk T IH|o x o1 i s' L Sk T IH|o x n o1 i s' L Sk T IH|o hs s' Ne T IH
      |o t n o1 on h n' r L M O T IH|o k o1 t h s' L N T IH
      |o k o1 s f g q L O T1 IH1 T2 IH2 T3 IH3|o k o1 x f g q s' L N T IH
      |o k o1 s' f g q L Ne T IH|o k o1 x f g q s' L N T IH
      |o k o1 s' f g q L Ne T IH|o k o1 x f g q s' L N T IH|o hs s' Ne T IH];
      intros oo Same hh Sim; inv_sim Sim.
    - constructor. now apply (osame_shape o).
    - apply (T_comp _ _ _ _ _ _ _ _ _ s); auto. now apply (osame_shape o).
    - destruct A as (E1 & a & b & E2 & E3 & Sab). assert (a = o'') by congruence. subst a.
      apply (T_consF _ _ _ _ _ _ oo s o2' x b); auto; try congruence.
      + now apply (osame_shape o).
      + now apply (osame_shape o'').
    - destruct A as (E1 & a & b & E2 & E3 & Sab). assert (a = o'') by congruence. subst a.
      apply (T_consH _ _ _ _ _ _ oo s o2' x b); auto; try congruence.
      + now apply (osame_shape o).
      + now apply (osame_shape o'').
    - apply (T_const _ _ _ _ _ _ oo s); auto. now apply (osame_shape o).
    - constructor; auto. now apply (osame_shape o).
    - constructor. now rewrite <- (osame_empty o oo Same).
    - constructor. now apply (osame_shape o).
    - destruct (osame_level o oo _ _ Same L) as (o1' & L' & S'). apply (T_fun_next _ _ _ _ _ _ oo k o1'); auto.
    - apply (T_ite _ _ _ _ _ _ oo p1' t1' e1' s); auto; [now apply (osame_shape o)|].
      rewrite <- (hselector_sim p p1' A). exact Sel.
    - constructor; auto. now rewrite <- (osame_empty o oo Same).
    - destruct (osame_level o oo _ _ Same L) as (o1' & L' & S'). apply (T_ind_next _ _ _ _ _ _ oo k o1'); auto.
      rewrite <- (hskip_sim o oo _ Same (HInd i) Sim). exact Sk.
    - destruct (osame_level o oo _ _ Same L) as (o1' & L' & S').
      destruct (OB i o oo A Same (olevel_nonempty _ _ _ _ L)) as (_ & X & _).
      apply (T_ind_flat _ _ _ _ _ _ oo x o1'); auto.
      + rewrite <- (hskip_sim o oo _ Same (HInd i) Sim). exact Sk.
      + intros v Hv. now apply (IH v Hv).
    - destruct (osame_level o oo _ _ Same L) as (o1' & L' & S').
      destruct (OB i o oo A Same (olevel_nonempty _ _ _ _ L)) as (_ & _ & X).
      apply (T_ind_hier _ _ _ _ _ _ oo x n o1'); auto.
      + rewrite <- (hskip_sim o oo _ Same (HInd i) Sim). exact Sk.
      + intros v Hv Nz. now apply (IH v Hv Nz).
    - constructor; [now apply (forall2_nil _ _ _ A)|]. intros h Hh. destruct (forall2_in _ _ _ _ A Hh) as (a & Ha & Sa).
      now apply (IH a).
    - destruct (osame_level o oo _ _ Same L) as (o1' & L' & S').
      destruct (osame_nested o oo _ _ _ _ Same L M) as (on' & M' & Sn).
      apply (T_local_here _ _ _ _ _ _ oo t n o1' on'); auto. now apply (osame_shape o1).
    - destruct (osame_level o oo _ _ Same L) as (o1' & L' & S'). apply (T_local_next _ _ _ _ _ _ oo k o1'); auto.
    - destruct (osame_level o oo _ _ Same L) as (o1' & L' & S').
      apply (T_satfix_here _ _ _ _ _ _ oo k o1'); auto; [now apply (osame_shape o)|].
      intros h Hh. destruct (forall2_in _ _ _ _ B Hh) as (a & Ha & Sa). now apply (IH2 a).
    - destruct (osame_level o oo _ _ Same L) as (o1' & L' & S'). apply (T_satfix_next _ _ _ _ _ _ oo k o1'); auto.
    - destruct (osame_level o oo _ _ Same L) as (o1' & L' & S').
      assert (X : Forall2 hsim (opt_list f ++ g ++ opt_list q) (opt_list f1' ++ g1' ++ opt_list l1')) by
        (apply Forall2_app; [auto|apply Forall2_app; auto]).
      apply (T_satinter_here _ _ _ _ _ _ oo k o1'); auto; [now apply (forall2_nil _ _ _ X)|].
      intros h Hh. destruct (forall2_in _ _ _ _ X Hh) as (a & Ha & Sa). now apply (IH a).
    - destruct (osame_level o oo _ _ Same L) as (o1' & L' & S'). apply (T_satinter_next _ _ _ _ _ _ oo k o1'); auto.
    - destruct (osame_level o oo _ _ Same L) as (o1' & L' & S').
      assert (X : Forall2 hsim (opt_list f ++ g ++ opt_list q) (opt_list f1' ++ g1' ++ opt_list l1')) by
        (apply Forall2_app; [auto|apply Forall2_app; auto]).
      apply (T_satsum_here _ _ _ _ _ _ oo k o1'); auto; [now apply (forall2_nil _ _ _ X)|].
      intros h Hh. destruct (forall2_in _ _ _ _ X Hh) as (a & Ha & Sa). now apply (IH a).
    - destruct (osame_level o oo _ _ Same L) as (o1' & L' & S'). apply (T_satsum_next _ _ _ _ _ _ oo k o1'); auto.
    - constructor; [now apply (forall2_nil _ _ _ A)|]. intros h Hh. destruct (forall2_in _ _ _ _ A Hh) as (a & Ha & Sa).
      now apply (IH a).
  Qed.

  (** A homomorphism whose inductive homomorphisms are all in [J]. *)
  Inductive only : hom -> Prop :=
  | N_comp l r : only l -> only r -> only (HComp l r)
  | N_consF o v n : only n -> only (HConsF o v n)
  | N_consH o v n : only n -> only (HConsH o v n)
  | N_const x : only (HConst x)
  | N_fix h : only h -> only (HFix h)
  | N_fun t f : only (HFun t f)
  | N_id : only HId
  | N_ite p t e : only p -> only t -> only e -> only (HIte p t e)
  | N_ind i : J i -> only (HInd i)
  | N_inter l : (forall h, In h l -> only h) -> only (HInter l)
  | N_local t h : only h -> only (HLocal t h)
  | N_satfix x f g l : only f -> (forall h, In h g -> only h) -> only l -> only (HSatFix x f g l)
  | N_satinter x f g l : (forall h, In h (opt_list f ++ g ++ opt_list l) -> only h) -> only (HSatInter x f g l)
  | N_satsum x f g l : (forall h, In h (opt_list f ++ g ++ opt_list l) -> only h) -> only (HSatSum x f g l)
  | N_sum l : (forall h, In h l -> only h) -> only (HSum l).

  Lemma forall2_refl l : (forall h, In h l -> hsim h h) -> Forall2 hsim l l.
  Proof.
    induction l as [|h l IH]; intros H; constructor.
    - apply H. now left.
    - apply IH. intros k Hk. apply H. now right.
  Qed.

  Lemma typed_refl o h s' : typed o h s' -> only h -> hsim h h.
  Proof.
    induction 1 as
      [o s O|o hl r s s' O H1 IH1 H2 IH2|o s o1 x o'' v n r O A1 A2 O' T IH
      |o s o1 x o'' v nv n r O A1 A2 O' A3 T IH|o s x s' O Fx|o h s O T IH|o t f E|o t f r O
      |o k o1 t f s' L N T IH|o p t e s s' O Sel T1 IH1 T2 IH2 T3 IH3|o i s' E Fx
      |o k o1 i s' L Sk T IH|o x o1 i s' L Sk T IH|o x n o1 i s' L Sk T IH|o hs s' Ne T IH
      |o t n o1 on h n' r L M O T IH|o k o1 t h s' L N T IH
      |o k o1 s f g q L O T1 IH1 T2 IH2 T3 IH3|o k o1 x f g q s' L N T IH
      |o k o1 s' f g q L Ne T IH|o k o1 x f g q s' L N T IH
      |o k o1 s' f g q L Ne T IH|o k o1 x f g q s' L N T IH|o hs s' Ne T IH];
      intros Hn; try (now constructor); auto.
    - inversion Hn; subst. constructor; auto.
    - inversion Hn; subst. constructor; auto. split; [auto|]. exists o'', o''. split; [auto|split; [auto|]]. now exists s.
    - inversion Hn; subst. constructor; auto. split; [auto|]. exists o'', o''. split; [auto|split; [auto|]]. now exists s.
    - inversion Hn; subst. constructor; auto.
    - inversion Hn; subst. constructor; auto.
    - inversion Hn; subst. constructor; auto.
    - inversion Hn; subst. constructor; auto.
    - inversion Hn; subst. constructor; auto.
    - inversion Hn; subst. constructor. apply forall2_refl. auto.
    - inversion Hn; subst. constructor; auto.
    - inversion Hn; subst. constructor; auto. apply forall2_refl. auto.
    - inversion Hn as [| | | | | | | | | | | |? ? ? ? N| |]; subst. constructor; apply forall2_refl; intros h Hh; (apply IH; [|apply N]);
        rewrite !in_app_iff; auto.
    - inversion Hn as [| | | | | | | | | | | | |? ? ? ? N|]; subst. constructor; apply forall2_refl; intros h Hh; (apply IH; [|apply N]);
        rewrite !in_app_iff; auto.
    - inversion Hn; subst. constructor. apply forall2_refl. auto.
  Qed.

  (** A diagram other than |0| has one shape. *)
  Lemma fits_shape x : forall s s', x <> Zero -> fits s x -> fits s' x -> s = s'.
  Proof.
    induction x as [| |v arcs IH|v arcs IH] using sdd_ind'; intros s s' Nz Fx Fx'; [congruence| | |].
    - destruct Fx as [_ Fx], Fx' as [_ Fx']. inversion Fx; inversion Fx'; subst; auto.
    - destruct s as [|y r|y n r]; try (destruct Fx as [_ Fx]; now inversion Fx).
      destruct s' as [|y' r'|y' n' r']; try (destruct Fx' as [_ Fx']; now inversion Fx').
      destruct (fits_flat_inv VI PF _ _ _ _ Fx) as (-> & Ne & _ & G).
      destruct (fits_flat_inv VI PF _ _ _ _ Fx') as (-> & _ & _ & G').
      destruct arcs as [|[w z] arcs]; [congruence|].
      destruct (G w z (or_introl eq_refl)) as (_ & G1 & G2). destruct (G' w z (or_introl eq_refl)) as (_ & _ & G2').
      f_equal. apply (IH w z (or_introl eq_refl)); auto.
    - destruct s as [|y r|y n r]; try (destruct Fx as [_ Fx]; now inversion Fx).
      destruct s' as [|y' r'|y' n' r']; try (destruct Fx' as [_ Fx']; now inversion Fx').
      destruct (fits_hier_inv VI PF _ _ _ _ _ Fx) as (-> & Ne & _ & G).
      destruct (fits_hier_inv VI PF _ _ _ _ _ Fx') as (-> & _ & _ & G').
      destruct arcs as [|[w z] arcs]; [congruence|].
      destruct (G w z (or_introl eq_refl)) as (G0 & G1 & G2 & G3).
      destruct (G' w z (or_introl eq_refl)) as (_ & G1' & _ & G3').
      destruct (IH w z (or_introl eq_refl)) as [I1 I2]. f_equal; auto.
  Qed.

  (** ** Two evaluations in lockstep *)

  Definition gpair (op op' : hop) : Prop :=
    let '(o, h, x) := op in let '(o', h', x') := op' in
    x = x' /\ x <> Zero /\ h <> HId /\ hsim h h' /\ exists s s', typed o h s' /\ oshape o s /\ oshape o' s /\ fits s x.

  Section Coupled.
    Variable k : hop -> res (err V) sdd.
    Hypothesis K : safe VI PF U F I US k.
    Notation hoare := (hoare k (eq EFuel)).

    Fixpoint coupled {A : Type} (p p' : P A) : Prop :=
      match p, p' with
      | Ret a, Ret a' => a = a'
      | Throw e, Throw e' => e = e'
      | Call op c, Call op' c' => gpair op op' /\ forall r, k op = Ok r -> coupled (c r) (c' r)
      | _, _ => False
      end.

    Lemma coupled_bind {A B} (p p' : P A) (f f' : A -> P B) (Q : A -> Prop) : coupled p p' -> hoare p Q ->
      (forall a, Q a -> coupled (f a) (f' a)) -> coupled (bind p f) (bind p' f').
    Proof.
      intros C H Hf. revert p' C H. induction p as [a|e|op c IH]; intros [a'|e'|op' c'] C H; cbn in *; try contradiction; auto.
      - subst a'. now apply Hf.
      - destruct C as [G C]. split; [auto|]. intros r Hr. apply IH; auto. unfold Base.hoare in H. cbn in H. now rewrite Hr in H.
    Qed.

    Lemma coupled_lift {A} (r : res (err V) A) : coupled (Hom.lift VI U F I r) (Hom.lift VI U F I r).
    Proof. destruct r; reflexivity. Qed.

    Lemma hcall_coupled o o' h h' s s' x : typed o h s' -> oshape o s -> oshape o' s -> fits s x -> hsim h h' ->
      coupled (hcall o h x) (hcall o' h' x).
    Proof.
      intros T O O' Fx S. unfold Hom.hcall.
      assert (E : is_id VI U F I h = is_id VI U F I h') by (destruct S; reflexivity). rewrite <- E.
      destruct (is_id VI U F I h) eqn:E1; cbn [orb]; [reflexivity|].
      destruct (is_zero VI x) eqn:E2; [reflexivity|]. cbn. split; [|auto].
      split; [auto|]. split; [intros ->; discriminate|]. split; [intros ->; discriminate|]. split; [auto|].
      exists s, s'. auto.
    Qed.

    Lemma forward_coupled {W} o o' h h' s r' (arcs : list (W * sdd)) : typed o h r' -> oshape o s -> oshape o' s ->
      hsim h h' -> (forall z, In z (map snd arcs) -> fits s z) ->
      coupled (forward VI U F I o h arcs) (forward VI U F I o' h' arcs).
    Proof.
      intros T O O' S. induction arcs as [|[v z] arcs IH]; intros H; cbn [forward]; [reflexivity|].
      eapply coupled_bind.
      - apply (hcall_coupled o o' h h' s r'); auto. apply H. now left.
      - apply (hcall_safe VI PF U F I US k K o h s r'); auto. apply H. now left.
      - intros y _. cbn. eapply coupled_bind.
        + apply IH. intros w Hw. apply H. now right.
        + apply (forward_safe VI PF U F I US k K o h s r'); auto. intros w Hw. apply H. now right.
        + intros rest _. reflexivity.
    Qed.

    Lemma hcalls_coupled o o' s s' x hs hs' : oshape o s -> oshape o' s -> fits s x -> Forall2 hsim hs hs' ->
      (forall h, In h hs -> typed o h s') -> coupled (hcalls VI U F I o hs x) (hcalls VI U F I o' hs' x).
    Proof.
      intros O O' Fx S. induction S as [|h h' hs hs' S1 S2 IH]; intros T; cbn [hcalls]; [reflexivity|].
      eapply coupled_bind.
      - apply (hcall_coupled o o' h h' s s'); auto. apply T. now left.
      - apply (hcall_safe VI PF U F I US k K o h s s'); auto. apply T. now left.
      - intros y _. eapply coupled_bind.
        + apply IH. intros w Hw. apply T. now right.
        + apply (hcalls_safe VI PF U F I US k K o s s'); auto. intros w Hw. apply T. now right.
        + intros ys _. reflexivity.
    Qed.

    Lemma inter_coupled o o' s s' x hs hs' : oshape o s -> oshape o' s -> fits s x -> Forall2 hsim hs hs' ->
      (forall h, In h hs -> typed o h s') ->
      forall acc, coupled (inter_loop VI PF U F I o hs x acc) (inter_loop VI PF U F I o' hs' x acc).
    Proof.
      intros O O' Fx S. induction S as [|h h' hs hs' S1 S2 IH]; intros T acc; cbn [inter_loop]; [apply coupled_lift|].
      eapply coupled_bind.
      - apply (hcall_coupled o o' h h' s s'); auto. apply T. now left.
      - apply (hcall_safe VI PF U F I US k K o h s s'); auto. apply T. now left.
      - intros y _. destruct (is_zero VI y); [reflexivity|]. apply IH. intros w Hw. apply T. now right.
    Qed.

    Lemma fix_coupled o o' h h' s : typed o h s -> oshape o s -> oshape o' s -> hsim h h' -> forall n x, fits s x ->
      coupled (fix_loop VI PF U F I n o h x) (fix_loop VI PF U F I n o' h' x).
    Proof.
      intros T O O' S. induction n as [|n IH]; intros x Fx; cbn [fix_loop]; [reflexivity|].
      eapply coupled_bind.
      - now apply (hcall_coupled o o' h h' s s).
      - now apply (hcall_safe VI PF U F I US k K o h s s).
      - intros y [Fy _]. destruct (sdd_eqb VI PF y x); [reflexivity|]. now apply IH.
    Qed.

    Lemma chain_coupled o o' s g g' : oshape o s -> oshape o' s -> Forall2 hsim g g' -> (forall h, In h g -> typed o h s) ->
      forall x, fits s x -> coupled (g_chain VI PF U F I o g x) (g_chain VI PF U F I o' g' x).
    Proof.
      intros O O' S. induction S as [|h h' g g' S1 S2 IH]; intros T x Fx; cbn [g_chain]; [reflexivity|].
      eapply coupled_bind.
      - apply (hcall_coupled o o' h h' s s); auto. apply T. now left.
      - apply (hcall_safe VI PF U F I US k K o h s s); auto. apply T. now left.
      - intros y [Fy _]. destruct (sum_ok VI VL PF PO s [x; y]) as (z & E & Fz & C).
        { intros w [<-|[<-|[]]]; auto. }
        rewrite E. cbn [Hom.lift bind]. apply IH; auto. intros w Hw. apply T. now right.
    Qed.

    Lemma sat_coupled o o' s f g l f' g' l' : oshape o s -> oshape o' s -> hsim f f' -> Forall2 hsim g g' -> hsim l l' ->
      typed o f s -> (forall h, In h g -> typed o h s) -> typed o l s -> forall n x, fits s x ->
      coupled (sat_loop VI PF U F I n o f g l x) (sat_loop VI PF U F I n o' f' g' l' x).
    Proof.
      intros O O' Sf Sg Sl Tf Tg Tl. induction n as [|n IH]; intros x Fx; cbn [sat_loop]; [reflexivity|].
      eapply coupled_bind; [now apply (hcall_coupled o o' f f' s s)|now apply (hcall_safe VI PF U F I US k K o f s s)|].
      intros x2 [F2 _].
      eapply coupled_bind; [now apply (hcall_coupled o o' l l' s s)|now apply (hcall_safe VI PF U F I US k K o l s s)|].
      intros x3 [F3 _].
      eapply coupled_bind; [now apply (chain_coupled o o' s g g')|now apply (chain_safe VI VL PF PO U F I US k K o s g)|].
      intros x4 [F4 _]. destruct (sdd_eqb VI PF x x4); [reflexivity|]. now apply IH.
    Qed.

    Lemma local_vals_coupled o o' h h' n s' arcs : oshape o n -> oshape o' n -> typed o h s' -> hsim h h' ->
      (forall v z, In (v, z) arcs -> fits n v) ->
      coupled (local_vals VI U F I o h arcs) (local_vals VI U F I o' h' arcs).
    Proof.
      intros O O' T S. induction arcs as [|[v z] arcs IH]; intros H; cbn [local_vals]; [reflexivity|].
      eapply coupled_bind.
      - apply (hcall_coupled o o' h h' n s'); auto. apply (H v z). now left.
      - apply (hcall_safe VI PF U F I US k K o h n s'); auto. apply (H v z). now left.
      - intros y _. eapply coupled_bind.
        + apply IH. intros v' z' Hw. apply (H v' z'). now right.
        + apply (local_vals_safe VI PF U F I US k K o h n s'); auto. intros v' z' Hw. apply (H v' z'). now right.
        + intros ys _. reflexivity.
    Qed.

    Lemma ind_vals_coupled {W} o o' s s' (kk kk' : W -> hom) (arcs : list (W * sdd)) : oshape o s -> oshape o' s ->
      (forall v, hsim (kk v) (kk' v)) -> (forall v z, In (v, z) arcs -> typed o (kk v) s' /\ fits s z) ->
      coupled (ind_vals VI U F I o kk arcs) (ind_vals VI U F I o' kk' arcs).
    Proof.
      intros O O' S. induction arcs as [|[v z] arcs IH]; intros H; cbn [ind_vals]; [reflexivity|].
      destruct (H v z (or_introl eq_refl)) as [T Fz]. eapply coupled_bind.
      - now apply (hcall_coupled o o' (kk v) (kk' v) s s').
      - now apply (hcall_safe VI PF U F I US k K o (kk v) s s').
      - intros y _. eapply coupled_bind.
        + apply IH. intros v' z' Hw. apply (H v' z'). now right.
        + apply (ind_vals_safe VI PF U F I US k K o s s' kk); auto. intros v' z' Hw. apply (H v' z'). now right.
        + intros ys _. reflexivity.
    Qed.

    Lemma direct_coupled n o o' h h' s s' x : typed o h s' -> oshape o s -> oshape o' s -> fits s x -> x <> Zero ->
      h <> HId -> (o_empty o = false -> hskip o h = false) -> hsim h h' ->
      coupled (direct n h o x) (direct n h' o' x).
    Proof.
      intros T O O2 Fx Nz Ni Hs Sim.
      assert (Same : osame o o') by (exists s; auto).
      assert (Down : forall l o' t, olevel o l o' -> lvar l <> t -> hskip o h = var_neqb U o t -> False).
      { intros l o1 t L Nt E. rewrite (proj2 (var_neqb_level U o l o1 t L) Nt) in E.
        rewrite Hs in E; [discriminate|]. eapply olevel_nonempty; eauto. }
      inversion T as
      [? s1 O1|? hl r s1 ? O1 H1 H2|? s1 o1 xx o'' v nn r O1 A1 A2 O' T1
      |? s1 o1 xx o'' v nv nn r O1 A1 A2 O' A3 T1|? s1 xx ? O1 Fx1|? hh ? O1 T1|? t f E|? t f r O1
      |? l o1 t f s1 L N T1|? p t e s1 ? O1 Sel T1 T2 T3|? i ? E Fx1
      |? l o1 i s1 L Sk T1|? xx o1 i ? L Sk T1|? xx nn o1 i ? L Sk T1|? hs ? Ne T1
      |? t nn o1 on hh n' r L M O1 T1|? l o1 t hh s1 L N T1
      |? l o1 ? f g q L O1 T1 T2 T3|? l o1 xx f g q s1 L N T1
      |? l o1 ? f g q L Ne T1|? l o1 xx f g q s1 L N T1
      |? l o1 ? f g q L Ne T1|? l o1 xx f g q s1 L N T1|? hs ? Ne T1]; subst; inv_sim Sim;
        try congruence; cbn [Hom.direct].
      - (* composition *)
        assert (s1 = s) by apply (oshape_fun _ _ _ O1 _ O). subst s1.
        eapply coupled_bind; [now apply (hcall_coupled o o' r r1' s s)|now apply (hcall_safe VI PF U F I US k K o r s s)|].
        intros y [Fy _]. now apply (hcall_coupled o o' hl l1' s s').
      - (* cons *)
        destruct A as (E1 & a & b & E2 & E3 & Sab). assert (a = o'') by congruence. subst a.
        assert (s1 = s) by apply (oshape_fun _ _ _ O1 _ O). subst s1.
        unfold with_var, with_next. rewrite <- E1, A1, A2, E3.
        eapply coupled_bind; [apply (hcall_coupled o'' b nn n1' s r); auto; now apply (osame_shape o'')
          |now apply (hcall_safe VI PF U F I US k K o'' nn s r)|]. reflexivity.
      - destruct A as (E1 & a & b & E2 & E3 & Sab). assert (a = o'') by congruence. subst a.
        assert (s1 = s) by apply (oshape_fun _ _ _ O1 _ O). subst s1.
        unfold with_var, with_next. rewrite <- E1, A1, A2, E3.
        eapply coupled_bind; [apply (hcall_coupled o'' b nn n1' s r); auto; now apply (osame_shape o'')
          |now apply (hcall_safe VI PF U F I US k K o'' nn s r)|]. reflexivity.
      - (* fixpoint *)
        assert (s' = s) by apply (oshape_fun _ _ _ O1 _ O). subst s'. now apply (fix_coupled o o' hh k1' s).
      - (* function *)
        destruct x as [| |v arcs|v arcs]; try reflexivity. unfold with_var. rewrite <- (osame_variable o o' Same).
        destruct (o_variable o); [|reflexivity]. destruct (f_sel US f || f_shift US f); [reflexivity|apply coupled_lift].
      - destruct x as [| |v arcs|v arcs]; try reflexivity. unfold with_var. rewrite <- (osame_variable o o' Same).
        destruct (o_variable o); [|reflexivity]. destruct (f_sel US f || f_shift US f); [reflexivity|apply coupled_lift].
      - destruct x as [| |v arcs|v arcs]; try reflexivity. unfold with_var. rewrite <- (osame_variable o o' Same).
        destruct (o_variable o); [|reflexivity]. destruct (f_sel US f || f_shift US f); [reflexivity|apply coupled_lift].
      - (* if_then_else *)
        assert (s1 = s) by apply (oshape_fun _ _ _ O1 _ O). subst s1.
        eapply coupled_bind; [now apply (hcall_coupled o o' p p1' s s)|now apply (hcall_safe VI PF U F I US k K o p s s)|].
        intros y [Fy _].
        eapply coupled_bind; [now apply (hcall_coupled o o' t t1' s s')|now apply (hcall_safe VI PF U F I US k K o t s s')|].
        intros a _.
        destruct (minus_ok VI VL PF PO s x y Fx Fy) as (d & E & Fd & Cd). rewrite E. cbn [Hom.lift bind].
        eapply coupled_bind; [now apply (hcall_coupled o o' e e1' s s')|now apply (hcall_safe VI PF U F I US k K o e s s')|].
        intros b _. apply coupled_lift.
      - (* inductive *)
        destruct (oshape_inv _ _ _ O) as [[_ ->]|[E' _]]; [|congruence].
        destruct x as [| |v a|v a]; [congruence| |destruct Fx as [_ Fx]; inversion Fx..]. reflexivity.
      - rewrite Hs in Sk; [discriminate|]. eapply olevel_nonempty; eauto.
      - destruct (oshape_inv _ _ _ O) as [[E' _]|(_ & l & o3 & r & L' & -> & O')].
        { rewrite (olevel_nonempty _ _ _ _ L) in E'. discriminate. }
        destruct (olevel_fun _ _ _ _ L' _ _ L) as [-> ->]. cbn [under] in *.
        destruct x as [| |v arcs|v arcs]; try congruence; try (destruct Fx as [_ Fx]; now inversion Fx).
        destruct (fits_flat_inv VI PF _ _ _ _ Fx) as (-> & _ & D & G).
        destruct (osame_level o o' _ _ Same L) as (o1' & L1' & S').
        destruct (OB i o o' A Same (olevel_nonempty _ _ _ _ L)) as (_ & X & _).
        unfold with_next. rewrite (proj1 (proj2 L)), (proj1 (proj2 L1')).
        eapply coupled_bind.
        + apply (ind_vals_coupled o1 o1' r s' _ _ arcs O'); [now apply (osame_shape o1)|exact X|].
          intros v z Hin. destruct (G v z Hin) as (G1 & G2 & G3). auto.
        + apply (ind_vals_safe VI PF U F I US k K o1 r s' (i_flat US i o) arcs O').
          intros v z Hin. destruct (G v z Hin) as (G1 & G2 & G3). auto.
        + intros ys _. apply coupled_lift.
      - destruct (oshape_inv _ _ _ O) as [[E' _]|(_ & l & o3 & r & L' & -> & O')].
        { rewrite (olevel_nonempty _ _ _ _ L) in E'. discriminate. }
        destruct (olevel_fun _ _ _ _ L' _ _ L) as [-> ->]. cbn [under] in *.
        destruct x as [| |v arcs|v arcs]; try congruence; try (destruct Fx as [_ Fx]; now inversion Fx).
        destruct (fits_hier_inv VI PF _ _ _ _ _ Fx) as (-> & _ & D & G).
        destruct (osame_level o o' _ _ Same L) as (o1' & L1' & S').
        destruct (OB i o o' A Same (olevel_nonempty _ _ _ _ L)) as (_ & _ & X).
        unfold with_next. rewrite (proj1 (proj2 L)), (proj1 (proj2 L1')).
        eapply coupled_bind.
        + apply (ind_vals_coupled o1 o1' r s' _ _ arcs O'); [now apply (osame_shape o1)|exact X|].
          intros v z Hin. destruct (G v z Hin) as (G1 & G2 & G3 & G4). auto.
        + apply (ind_vals_safe VI PF U F I US k K o1 r s' (i_hier US i o) arcs O').
          intros v z Hin. destruct (G v z Hin) as (G1 & G2 & G3 & G4). auto.
        + intros ys _. apply coupled_lift.
      - now apply (inter_coupled o o' s s').
      - (* local *)
        assert (E : s = SHier t nn r).
        { apply (oshape_fun _ _ _ O). now apply (oshape_level _ _ (LHier t nn) _ r L). }
        subst s. destruct (osame_nested o o' _ _ _ _ Same L M) as (on' & M' & Sn).
        destruct L as (_ & _ & on0 & M0 & _ & On). rewrite M in M0. injection M0 as <-.
        destruct x as [| |var arcs|var arcs]; try congruence; try (destruct Fx as [_ Fx]; now inversion Fx).
        destruct (fits_hier_inv VI PF _ _ _ _ _ Fx) as (-> & _ & D & G).
        unfold with_nested. rewrite M, M'. rewrite <- (hselector_sim hh k1' A).
        eapply coupled_bind.
        + apply (local_vals_coupled on on' hh k1' nn n' arcs On); auto; [now apply (osame_shape on)|].
          intros v z Hin. now apply (G v z).
        + apply (local_vals_safe VI PF U F I US k K on hh nn n' arcs On T1). intros v z Hin. now apply (G v z).
        + intros vals _. destruct (hselector hh); apply coupled_lift.
      - exfalso. apply (Down l o1 t); auto.
      - (* saturation *)
        assert (s' = s) by apply (oshape_fun _ _ _ O1 _ O). subst s'. now apply (sat_coupled o o' s).
      - exfalso. apply (Down l o1 xx); auto.
      - assert (X : Forall2 hsim (opt_list f ++ g ++ opt_list q) (opt_list f1' ++ g1' ++ opt_list l1')) by
          (apply Forall2_app; [auto|apply Forall2_app; auto]).
        eapply coupled_bind; [now apply (hcalls_coupled o o' s s')|now apply (hcalls_safe VI PF U F I US k K o s s')|].
        intros ys _. apply coupled_lift.
      - exfalso. apply (Down l o1 xx); auto.
      - assert (X : Forall2 hsim (opt_list f ++ g ++ opt_list q) (opt_list f1' ++ g1' ++ opt_list l1')) by
          (apply Forall2_app; [auto|apply Forall2_app; auto]).
        eapply coupled_bind; [now apply (hcalls_coupled o o' s s')|now apply (hcalls_safe VI PF U F I US k K o s s')|].
        intros ys _. apply coupled_lift.
      - exfalso. apply (Down l o1 xx); auto.
      - eapply coupled_bind; [now apply (hcalls_coupled o o' s s')|now apply (hcalls_safe VI PF U F I US k K o s s')|].
        intros ys _. apply coupled_lift.
    Qed.

    Lemma body_coupled n o o' h h' x : gpair (o, h, x) (o', h', x) ->
      coupled (hom_body n (o, h, x)) (hom_body n (o', h', x)).
    Proof.
      intros (_ & Nz & Ni & Sim & s & s' & T & O & O2 & Fx).
      assert (Same : osame o o') by (exists s; auto).
      destruct (oshape_inv _ _ _ O) as [[E ->]|(E & l & o1 & r & L & -> & O')].
      - destruct x as [| |v a|v a]; try congruence; try (destruct Fx as [_ Fx]; now inversion Fx).
        cbn [Hom.hom_body]. apply (direct_coupled n o o' h h' SEnd s' One); auto. congruence.
      - destruct (osame_level o o' _ _ Same L) as (o1' & L' & S1).
        unfold Hom.hom_body. unfold with_var, with_next. rewrite <- (hskip_sim o o' h Same h' Sim).
        rewrite (proj1 L), (proj1 L'), (proj1 (proj2 L)), (proj1 (proj2 L')).
        destruct (hskip o h) eqn:Hs.
        + destruct (typed_next VI PF U F I US o h s' T l o1 L Hs) as (r' & -> & T').
          destruct x as [| |var arcs|var arcs]; destruct l as [z|z m]; cbn [under lvar] in *;
            try congruence; try (destruct Fx as [_ Fx]; now inversion Fx).
          * destruct (fits_flat_inv VI PF _ _ _ _ Fx) as (-> & _ & D & G). rewrite N.eqb_refl.
            assert (G' : forall w, In w (map snd arcs) -> fits r w).
            { intros w Hw. apply in_map_iff in Hw. destruct Hw as ([v y] & <- & Hv). now apply (G v y). }
            eapply coupled_bind; [apply (forward_coupled o1 o1' h h' r r' arcs); auto; now apply (osame_shape o1)
              |apply (forward_safe VI PF U F I US k K o1 h r r' arcs T' O' G')|].
            intros pairs _. apply coupled_lift.
          * destruct (fits_hier_inv VI PF _ _ _ _ _ Fx) as (-> & _ & D & G). rewrite N.eqb_refl.
            assert (G' : forall w, In w (map snd arcs) -> fits r w).
            { intros w Hw. apply in_map_iff in Hw. destruct Hw as ([v y] & <- & Hv). now apply (G v y). }
            eapply coupled_bind; [apply (forward_coupled o1 o1' h h' r r' arcs); auto; now apply (osame_shape o1)
              |apply (forward_safe VI PF U F I US k K o1 h r r' arcs T' O' G')|].
            intros pairs _. apply coupled_lift.
        + pose proof (direct_coupled n o o' h h' _ s' x T O O2 Fx Nz Ni (fun _ => Hs) Sim) as X.
          destruct x as [| |var arcs|var arcs]; destruct l as [z|z m]; cbn [under lvar] in *;
            try congruence; try (destruct Fx as [_ Fx]; now inversion Fx).
          * destruct (fits_flat_inv VI PF _ _ _ _ Fx) as (-> & _). now rewrite N.eqb_refl.
          * destruct (fits_hier_inv VI PF _ _ _ _ _ Fx) as (-> & _). now rewrite N.eqb_refl.
    Qed.

    Lemma coupled_interp {A} (p p' : P A) : coupled p p' -> (forall op op', gpair op op' -> k op = k op') ->
      interp k p = interp k p'.
    Proof.
      intros C H. revert p' C. induction p as [a|e|op c IH]; intros [a'|e'|op' c'] C; cbn in *; try contradiction; try congruence.
      destruct C as [G C]. rewrite <- (H op op' G). destruct (k op); auto.
    Qed.

    Lemma coupled_calls (p p' : P sdd) op : coupled p p' -> calls k p op -> exists op', gpair op op'.
    Proof.
      intros C L. revert p' C. induction L as [op c|op c r op1 Hr L IH]; intros [a'|e'|op' c'] C; cbn in *; try contradiction.
      - destruct C as [G _]. eauto.
      - destruct C as [_ C]. apply (IH (c' r)). now apply C.
    Qed.
  End Coupled.

  Lemma heval_coupled n : forall fuel op op', gpair op op' -> heval n fuel op = heval n fuel op'.
  Proof.
    induction fuel as [|fuel IH]; intros op op' G; [reflexivity|].
    destruct op as [[o h] x], op' as [[o' h'] x']. assert (x = x') by apply G. subst x'.
    cbn [Hom.heval]. apply coupled_interp; [|exact IH].
    apply body_coupled; [|exact G]. apply (heval_safe VI VL PF PO U F I US HO).
  Qed.

  (** The evaluation depends on the shape of the order only. *)
  Theorem evals_same_shape o o' h s s' x y : typed o h s' -> oshape o s -> oshape o' s -> only h -> fits s x ->
    (evals o h x y <-> evals o' h x y).
  Proof.
    intros T O O' N Fx. pose proof (typed_refl o h s' T N) as R.
    assert (E : forall n fuel, happly VI PF U F I US n fuel o h x = happly VI PF U F I US n fuel o' h x).
    { intros n fuel. unfold happly. apply (coupled_interp (heval n fuel)).
      - now apply (hcall_coupled (heval n fuel) o o' h h s s').
      - apply heval_coupled. }
    split; intros (n & fuel & Ev); exists n, fuel; [now rewrite <- E|now rewrite E].
  Qed.

  Lemma hsim_only h : forall h', hsim h h' -> only h.
  Proof.
    assert (FA : forall l l', (forall h, In h l -> forall h', hsim h h' -> only h) -> Forall2 hsim l l' ->
              forall h, In h l -> only h).
    { intros l l' H A. induction A as [|a b l l' A1 A2 IH]; intros hh []; subst.
      - now apply (H hh (or_introl eq_refl) b).
      - apply IH; auto. intros k Hk. apply H. now right. }
    assert (OPT : forall f f', (forall h, f = Some h -> forall h', hsim h h' -> only h) ->
       Forall2 hsim (opt_list f) (opt_list f') -> forall h, In h (opt_list f) -> only h).
    { intros f f' Hf A hh Hh. destruct f as [k|]; [|destruct Hh]. destruct Hh as [<-|[]].
      inversion A; subst. eauto. }
    induction h as [f g IHf IHg| | | |h IH| | |p t e IHp IHt IHe|i|l IH|t h IH|x f g l IHf IHg IHl
      |x f g l IHf IHg IHl|x f g l IHf IHg IHl|l IH] using hom_ind';
      intros h' S; inv_sim S; rewrite ?Forall_forall in *; constructor; eauto.
    - intros hh Hh. rewrite !in_app_iff in Hh. destruct Hh as [Hh|[Hh|Hh]]; eauto.
    - intros hh Hh. rewrite !in_app_iff in Hh. destruct Hh as [Hh|[Hh|Hh]]; eauto.
  Qed.

  (** ** The cache *)

  Definition hgood (op : hop) : Prop :=
    let '(o, h, x) := op in
    x <> Zero /\ h <> HId /\ only h /\ exists s s', typed o h s' /\ oshape o s /\ fits s x.

  Lemma hgood_gpair o o' h x : hgood (o, h, x) -> hgood (o', h, x) -> gpair (o, h, x) (o', h, x).
  Proof.
    intros (Nz & Ni & N & s & s' & T & O & Fx) (_ & _ & _ & s2 & s2' & _ & O2 & Fx2).
    pose proof (fits_shape x s s2 Nz Fx Fx2). subst s2.
    split; [auto|]. split; [auto|]. split; [auto|]. split; [now apply (typed_refl o h s')|]. exists s, s'. auto.
  Qed.

  Lemma peval_heval n : forall fuel op, peval EFuel (hom_body n) fuel op = heval n fuel op.
  Proof.
    induction fuel as [|fuel IH]; intros op; [reflexivity|]. cbn [peval Hom.heval].
    generalize (hom_body n op). intros p. induction p as [a|e|op' c IHc]; cbn [interp]; auto.
    rewrite IH. destruct (heval n fuel op'); auto.
  Qed.

  Lemma calls_ext (k k' : hop -> res (err V) sdd) p op : (forall a, k a = k' a) -> calls k p op -> calls k' p op.
  Proof.
    intros E H. induction H as [op c|op c r op' Hr H IH]; [constructor|]. apply calls_later with (r := r); [now rewrite <- E|auto].
  Qed.

  Lemma hgood_calls n fuel op op' : hgood op -> calls (peval EFuel (hom_body n) fuel) (hom_body n op) op' -> hgood op'.
  Proof.
    intros G C. apply (calls_ext _ (heval n fuel)) in C; [|apply peval_heval].
    destruct op as [[o h] x]. pose proof (hgood_gpair o o h x G G) as GP.
    pose proof (body_coupled (heval n fuel) (heval_safe VI VL PF PO U F I US HO n fuel) n o o h h x GP) as B.
    destruct (coupled_calls (heval n fuel) _ _ op' B C) as (op'' & Gp).
    destruct op' as [[o1 h1] x1], op'' as [[o2 h2] x2].
    destruct Gp as (_ & Nz & Ni & Sim & s & s' & T & O & _ & Fx).
    split; [auto|]. split; [auto|]. split; [now apply (hsim_only h1 h2)|]. exists s, s'. auto.
  Qed.

  Lemma hgood_eval n fuel o o' h x : hgood (o, h, x) -> hgood (o', h, x) ->
    peval EFuel (hom_body n) fuel (o, h, x) = peval EFuel (hom_body n) fuel (o', h, x).
  Proof. intros A B. rewrite !peval_heval. apply heval_coupled. now apply hgood_gpair. Qed.
End HomCache.
