(** * Parts of homomorphisms may be replaced by equivalent ones (C83) *)

From Coq Require Import Ascii String List Bool Arith NArith Lia.
From Verif Require Import Base SortedSets Values FlatSet Sdd SddFacts Orders OrdersProofs OrdersSdd DDModel DDProofs Spec DDTheorems Text SddText
  SddTextProps OrderText Concrete Hom HomFacts HomEval HomTyped HomEqns HomLinear HomConcrete HomProps HomRewrite HomText HomTextProofs HomTextProps
  HomReplace.
Import ListNotations.

(** ** Specification *)

(** [replaced B h k]: [k] is [h] where some parts, anywhere, are replaced as [B] says. *)
Inductive replaced {V U F I : Type} (B : hom V U F I -> hom V U F I -> Prop) : hom V U F I -> hom V U F I -> Prop :=
| P_none h : replaced B h h
| P_here h k : B h k -> replaced B h k
| P_then h k l : replaced B h k -> replaced B k l -> replaced B h l
| P_comp h k r t : replaced B h k -> replaced B r t -> replaced B (HComp h r) (HComp k t)
| P_consF o v h k : replaced B h k -> replaced B (HConsF o v h) (HConsF o v k)
| P_consH o v h k : replaced B h k -> replaced B (HConsH o v h) (HConsH o v k)
| P_fix h k : replaced B h k -> replaced B (HFix h) (HFix k)
| P_ite p p' t t' e e' : replaced B p p' -> replaced B t t' -> replaced B e e' -> replaced B (HIte p t e) (HIte p' t' e')
| P_inter h k a b : replaced B h k -> replaced B (HInter (a ++ h :: b)) (HInter (a ++ k :: b))
| P_local x h k : replaced B h k -> replaced B (HLocal x h) (HLocal x k)
| P_satfix x f f' g l l' : replaced B f f' -> replaced B l l' -> replaced B (HSatFix x f g l) (HSatFix x f' g l')
| P_satfix_g x h k a b f l : replaced B h k -> replaced B (HSatFix x f (a ++ h :: b) l) (HSatFix x f (a ++ k :: b) l)
| P_satinter_f x h k g l : replaced B h k -> replaced B (HSatInter x (Some h) g l) (HSatInter x (Some k) g l)
| P_satinter_g x h k a b f l : replaced B h k -> replaced B (HSatInter x f (a ++ h :: b) l) (HSatInter x f (a ++ k :: b) l)
| P_satinter_l x h k f g : replaced B h k -> replaced B (HSatInter x f g (Some h)) (HSatInter x f g (Some k))
| P_satsum_f x h k g l : replaced B h k -> replaced B (HSatSum x (Some h) g l) (HSatSum x (Some k) g l)
| P_satsum_g x h k a b f l : replaced B h k -> replaced B (HSatSum x f (a ++ h :: b) l) (HSatSum x f (a ++ k :: b) l)
| P_satsum_l x h k f g : replaced B h k -> replaced B (HSatSum x f g (Some h)) (HSatSum x f g (Some k))
| P_sum h k a b : replaced B h k -> replaced B (HSum (a ++ h :: b)) (HSum (a ++ k :: b)).

Section Props.
  Variable VI : values_impl.
  Hypothesis VL : values_laws VI.
  Variable PF : platform VI.
  Hypothesis PO : platform_ok PF.
  Variables U F I : Type.
  Notation hom := (hom (vt VI) U F I).
  Variable US : user (vt VI) U F I.
  Hypothesis HO : honest VI PF U F I US.
  Notation typed := (typed VI PF U F I US).
  Notation evals := (evals VI PF U F I US).
  Notation alike := (alike VI PF U F I US).
  Local Hint Resolve alike_refl alike_sym forall2_refl forall2_sym alike_list alike_opt_refl : core.

  (** Replacement by homomorphisms that are alike gives a homomorphism that is alike. *)
  Theorem C83_replaced (B : hom -> hom -> Prop) : (forall h k, B h k -> alike h k) -> forall h k, replaced B h k -> alike h k.
  Proof.
    intros HB h k R.
    induction R as [h|h k H|h k l _ IH1 _ IH2|h k r t _ IH1 _ IH2|o v h k _ IH|o v h k _ IH|h k _ IH|p p' t t' e e' _ IH1 _ IH2 _ IH3
      |h k a b _ IH|x h k _ IH|x f f' g l l' _ IH1 _ IH2|x h k a b f l _ IH|x h k g l _ IH|x h k a b f l _ IH|x h k f g _ IH
      |x h k g l _ IH|x h k a b f l _ IH|x h k f g _ IH|h k a b _ IH]; auto.
    - eapply alike_trans; eauto.
    - apply sim_alike; apply sim_comp; auto.
    - apply sim_alike; apply sim_consF; auto.
    - apply sim_alike; apply sim_consH; auto.
    - apply sim_alike; apply sim_fix; auto.
    - apply sim_alike; apply sim_ite; auto.
    - apply sim_alike; apply sim_inter; auto.
    - apply sim_alike; apply sim_local; auto.
    - apply sim_alike; apply sim_satfix; auto.
    - apply sim_alike; apply sim_satfix; auto.
    - apply sim_alike; apply sim_satinter; auto; cbn; auto.
    - apply sim_alike; apply sim_satinter; auto.
    - apply sim_alike; apply sim_satinter; auto; cbn; auto.
    - apply sim_alike; apply sim_satsum; auto; cbn; auto.
    - apply sim_alike; apply sim_satsum; auto.
    - apply sim_alike; apply sim_satsum; auto; cbn; auto.
    - apply sim_alike; apply sim_sum; auto.
  Qed.

  (** In plain words, for one order and one diagram. *)
  Theorem C83_results (B : hom -> hom -> Prop) : (forall h k, B h k -> alike h k) -> forall h k, replaced B h k ->
    forall o s s' x y, oshape U o s -> typed o h s' -> fits VI PF s x -> (typed o k s' /\ (evals o h x y <-> evals o k x y)).
  Proof.
    intros HB h k R o s s' x y O T Fx. assert (A := C83_replaced B HB h k R). split; [now apply A|]. now apply (al_evals _ _ _ _ _ _ _ _ A o s s').
  Qed.

  (** Compositions grouped in another way, anywhere. *)
  Theorem C83_associative : forall h k : hom, regroup h k -> alike h k.
  Proof.
    induction 1; eauto using alike_trans, alike_assoc;
      match goal with H : alike ?h ?k |- alike ?a ?b => apply (C83_replaced alike); auto end;
      try (constructor; constructor; assumption).
  Qed.

  (** A fixpoint of a fixpoint is this fixpoint. *)
  Theorem C83_fixpoint : forall h : hom, alike (HFix (HFix h)) (HFix h).
  Proof.
    intros h. split; auto.
    - intros o s'. split; intros T; [apply typed_fix_inv in T; apply T|]. apply T_fix; auto. now apply typed_fix_inv in T.
    - intros o s s' x y O T Fx. assert (T1 := T). apply typed_fix_inv in T1. destruct T1 as [O1 T1].
      assert (s' = s) by apply (oshape_fun _ _ _ O1 _ O). subst s'.
      rewrite (E_fix VI VL PF PO U F I US HO o s O (HFix h) s x y T Fx).
      assert (Idem : forall x y, fits VI PF s x -> evals o (HFix h) x y -> evals o (HFix h) y y).
      { intros x0 y0 F0 E. assert (F1 := evals_fits VI VL PF PO U F I US HO o (HFix h) s s x0 y0 T1 O F0 E).
        apply (E_fix VI VL PF PO U F I US HO o s O h s) in E; auto. destruct E as (k & _ & E).
        apply (E_fix VI VL PF PO U F I US HO o s O h s); auto. exists 0. split; [reflexivity|auto]. }
      split.
      + intros (k & A & B). destruct k as [|k]; cbn [HomEval.iter] in A; [now subst|].
        destruct A as (z & A1 & A2).
        rewrite (iter_stays (evals o (HFix h)) (evals_fun VI PF U F I US o (HFix h)) k z y (Idem x z Fx A1) A2). exact A1.
      + intros E. exists 1. split; [exists y; split; [auto|reflexivity]|eauto].
  Qed.

  (** Two homomorphisms with the same text give the same results. *)
  Theorem C83_text (pv : vt VI -> text) (pu : U -> text) (pf : F -> text) (pi : I -> text) :
    determined pv -> ends_at_comma pv -> ends_at_comma pu -> (forall u t, pu u <> "@"%char :: t) ->
    ends_at_parenthesis pf -> inductives_apart pi ->
    forall u0 ord (h k : hom), can_read pv u0 ord h -> can_read pv u0 ord k ->
    hom_text pv pu pf pi h = hom_text pv pu pf pi k -> alike h k.
  Proof.
    intros A1 A2 A3 A4 A5 A6 u0 ord h k R1 R2 E. apply C83_associative.
    now apply (C79_text_partial (vt VI) U F I pv pu pf pi A1 A2 A3 A4 A5 A6 u0 ord h k R1 R2).
  Qed.
End Props.
Print Assumptions C83_replaced.
Print Assumptions C83_results.
Print Assumptions C83_associative.
Print Assumptions C83_fixpoint.
Print Assumptions C83_text.

(** ** Levels that are skipped *)

(** Keeping 3 at the last variable, after a change of nothing of the last variable, or of the first one: the first
    homomorphism skips the first variable, the second one does not. *)
Definition rp_a : exhom := HComp (HFun 0 (Fkeep [3]%N)) (HFun 0 (Fmap [])).
Definition rp_a' : exhom := HComp (HFun 0 (Fkeep [3]%N)) (HFun 2 (Fmap [])).
(** Exchanges 1 and 2 again and again. *)
Definition rp_b : exhom := HFix (HFun 0 (Fmap [(1, 2); (2, 1)]%N)).
Definition rp_x : sdd (vt FS) := plus (box [0] [0] [5] [1])%N (box [1] [0] [5] [3])%N.
Lemma rp_x_fits : fits FS PF_up exs rp_x.
Proof. apply plus_fits; apply box_fits. Qed.
Lemma rp_typed : ex_typed rp_a exs /\ ex_typed rp_a' exs /\ ex_typed (HInter [rp_a; rp_b]) exs /\ ex_typed (HInter [rp_a'; rp_b]) exs.
Proof.
  assert (A : ex_typed rp_a exs) by (unfold exs, rp_a; ty). assert (A' : ex_typed rp_a' exs) by (unfold exs, rp_a'; ty).
  assert (B : ex_typed rp_b exs) by (unfold exs, rp_b; ty).
  split; [auto|]. split; [auto|]. split; apply T_inter; try discriminate; intros h [<-|[<-|[]]]; auto.
Qed.

(** Homomorphisms with the same types, both selectors or not, and the same results on all diagrams may still not be
    replaced: with other levels skipped, an intersection does not end any more. *)
Theorem C83_skip_refuted : exists h k l x,
  ex_typed h exs /\ ex_typed k exs /\ hselector FS nat exfun exind ex_user h = hselector FS nat exfun exind ex_user k /\
  (forall z y, fits FS PF_up exs z -> (ex_evals h z y <-> ex_evals k z y)) /\
  ex_typed (HInter [h; l]) exs /\ ex_typed (HInter [k; l]) exs /\ fits FS PF_up exs x /\
  (exists y, ex_evals (HInter [h; l]) x y) /\ ~ exists y, ex_evals (HInter [k; l]) x y.
Proof.
  destruct rp_typed as (T1 & T2 & T3 & T4). exists rp_a, rp_a', rp_b, rp_x.
  assert (E1 : forall t z y, t = 0%N \/ t = 2%N -> fits FS PF_up exs z -> (ex_evals (HFun t (Fmap [])) z y <-> y = z)).
  { intros t z y Ht Fz.
    assert (T : ex_typed (HFun t (Fmap [])) exs) by (destruct Ht as [-> | ->]; unfold exs; ty).
    assert (G : forall y, ex_evals (HFun t (Fmap [])) z y -> y = z).
    { clear y. intros y E. apply (fits_ext FS FS_laws PF_up PF_up_ok exs); [|exact Fz|].
      - apply (evals_fits FS FS_laws PF_up PF_up_ok nat exfun exind ex_user ex_honest exo _ exs exs z y T exo_shape Fz E).
      - intros q. assert (A := C41_pointwise FS FS_laws PF_up PF_up_ok nat exfun exind ex_user ex_honest exo t (Fmap []) exs exs
                                 _ z y exo_shape T (fmap_pointwise []) Fz E q).
        apply bool_ext. rewrite A. split.
        + intros (p & C & R). replace q with p; [exact C|].
          clear -R. induction R as [|a b q H|x a q q' _ _ IH|x a q q' _ _ IH]; [auto|destruct H as [<-|[]]; auto|now rewrite IH|now rewrite IH].
        + intros C. exists q. split; [auto|]. apply (contains_follows FS PF_up exs z) in C; auto.
          unfold exs in C. inversion C as [|x r a q1 C1|]; subst. inversion C1 as [| |x n r b q2 C2 C3]; subst.
          inversion C3 as [|x r c q3 C4|]; subst. inversion C4; subst.
          destruct Ht as [-> | ->].
          * apply rf_val; [discriminate|]. apply rf_nest; [discriminate|]. apply rf_here. now left.
          * apply rf_here. now left. }
    split; [apply G|]. intros ->.
    destruct (C55_terminates FS FS_laws PF_up PF_up_ok nat exfun exind ex_user ex_honest ex_user_nofix
                exo _ exs exs z T eq_refl exo_shape Fz) as (w & E). now rewrite <- (G w E) at 2. }
  assert (Same : forall z y, fits FS PF_up exs z -> (ex_evals rp_a z y <-> ex_evals rp_a' z y)).
  { intros z y Fz. unfold rp_a, rp_a'.
    rewrite (E_comp FS FS_laws PF_up PF_up_ok nat exfun exind ex_user ex_honest exo exs exo_shape _ _ exs z y T1 Fz).
    rewrite (E_comp FS FS_laws PF_up PF_up_ok nat exfun exind ex_user ex_honest exo exs exo_shape _ _ exs z y T2 Fz).
    split; intros (w & A & B); exists w; (split; [|exact B]).
    - apply E1; auto. apply E1 in A; auto.
    - apply E1; auto. apply E1 in A; auto. }
  split; [auto|]. split; [auto|]. split; [reflexivity|]. split; [exact Same|]. split; [auto|]. split; [auto|].
  split; [exact rp_x_fits|]. split.
  { destruct (ask_spec exo (HInter [rp_a; rp_b]) rp_x (point 1 0 5 3) true) as (y & E & _); [vm_compute; reflexivity|]. eauto. }
  intros (y & E). 
  apply (ev_direct FS PF_up nat exfun exind ex_user exo (HInter [rp_a'; rp_b]) exs rp_x y exo_shape rp_x_fits) in E;
    [|discriminate|discriminate|reflexivity].
  destruct E as (n & E). cbn [direct inter_loop] in E. apply runs_bind_iff in E. destruct E as (z & Ez & E).
  apply runs_hcall in Ez. destruct (ask_spec exo rp_a' rp_x (point 1 0 5 3) true) as (z' & Ez' & Cz'); [vm_compute; reflexivity|].
  rewrite <- (evals_fun FS PF_up nat exfun exind ex_user exo rp_a' rp_x z z' Ez Ez') in Cz'. clear z' Ez'.
  destruct (is_zero FS z) eqn:Z; [apply is_zero_iff in Z; subst z; discriminate|].
  apply runs_bind_iff in E. destruct E as (w & Ew & _). apply runs_hcall in Ew.
  set (f := HFun 0 (Fmap [(1, 2); (2, 1)]%N) : exhom).
  apply (E_fix FS FS_laws PF_up PF_up_ok nat exfun exind ex_user ex_honest exo exs exo_shape f exs rp_x w) in Ew;
    [|unfold exs, f; ty|exact rp_x_fits].
  destruct Ew as (k & Ik & Wk).
  set (x1 := match happly FS PF_up nat exfun exind ex_user 20 20 exo f rp_x with Ok v => v | Err _ => Zero end).
  assert (S1 : ex_evals f rp_x x1) by (exists 20, 20; vm_compute; reflexivity).
  assert (S2 : ex_evals f x1 rp_x).
  { assert (G : match happly FS PF_up nat exfun exind ex_user 20 20 exo f x1 with
                | Ok v => sdd_eqb FS PF_up v rp_x | Err _ => false end = true) by (vm_compute; reflexivity).
    destruct (happly FS PF_up nat exfun exind ex_user 20 20 exo f x1) as [v|] eqn:Ev; [|discriminate].
    apply (sdd_eqb_spec FS PF_up PF_up_ok) in G. subst v. exists 20, 20. exact Ev. }
  assert (Ne : rp_x <> x1).
  { intros X. assert (C : contains (VI := FS) rp_x (point 0 0 5 1) <> contains x1 (point 0 0 5 1)) by (vm_compute; discriminate).
    apply C. now rewrite <- X. }
  assert (Inv : forall k u, u = rp_x \/ u = x1 -> HomEval.iter (ex_evals f) k u w -> w = rp_x \/ w = x1).
  { clear -S1 S2. induction k as [|k IH]; intros u Hu X; cbn [HomEval.iter] in X; [now subst|].
    destruct X as (v & X1 & X2). apply (IH v); [|auto]. destruct Hu as [-> | ->].
    - right. apply (evals_fun FS PF_up nat exfun exind ex_user exo f rp_x); auto.
    - left. apply (evals_fun FS PF_up nat exfun exind ex_user exo f x1); auto. }
  destruct (Inv k rp_x (or_introl eq_refl) Ik) as [-> | ->]; apply Ne.
  - apply (evals_fun FS PF_up nat exfun exind ex_user exo f rp_x); auto.
  - apply (evals_fun FS PF_up nat exfun exind ex_user exo f x1); auto.
Qed.
Print Assumptions C83_skip_refuted.

(** A fixpoint of a fixpoint, and compositions, under a sum and a hierarchy. *)
Definition rp_f (a b : N) : exhom := HFun 1 (Fmap [(a, b)]).
Definition rp_h : exhom := HSum [HId; HLocal 1 (HComp (HComp (rp_f 5 6) (rp_f 4 5)) (HFix (HFix (rp_f 3 4))))]%N.
Definition rp_k : exhom := HSum [HId; HLocal 1 (HComp (rp_f 5 6) (HComp (rp_f 4 5) (HFix (rp_f 3 4))))]%N.
Example C83_ex : ex_typed rp_h exs /\ fits FS PF_up exs ex_x /\
  replaced (fun h k => h = HFix (HFix (rp_f 3 4)) /\ k = HFix (rp_f 3 4) \/ regroup h k)%N rp_h rp_k /\
  (forall h k, (h = HFix (HFix (rp_f 3 4)) /\ k = HFix (rp_f 3 4) \/ regroup h k)%N -> alike FS PF_up nat exfun exind ex_user h k) /\
  (exists y, ex_evals rp_h ex_x y /\ contains y (point 0 6 5 6) = true) /\
  (exists y, ex_evals rp_k ex_x y /\ contains y (point 0 6 5 6) = true).
Proof.
  split; [unfold exs, rp_h; ty|]. split; [exact ex_x_fits|]. split.
  { apply (P_sum _ _ _ [HId] []). apply P_local. eapply P_then; [|apply P_here; right; apply R_assoc].
    apply P_comp; [apply P_none|]. apply P_here. left. auto. }
  split.
  { intros h k [[-> ->]|R].
    - apply (C83_fixpoint FS FS_laws PF_up PF_up_ok nat exfun exind ex_user ex_honest).
    - now apply (C83_associative FS FS_laws PF_up PF_up_ok nat exfun exind ex_user ex_honest). }
  split; run.
Qed.
