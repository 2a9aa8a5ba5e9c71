(** * Evaluation of homomorphisms as a relation

    [evals o h x y] says that the evaluation of [h] on [x] ends with [y]; the bounds of the model
    are irrelevant, and each homomorphism has the expected evaluation rule. *)

From Coq Require Import List Bool NArith Arith Lia Permutation Sorted.
From Verif Require Import Base SortedSets Values Sdd SddFacts Orders DDModel DDGeneric DDProofs.
From Verif Require Import DDTheorems Hom HomFacts.
Import ListNotations.

(** ** Runs of a program, the calls being given by a relation *)

Inductive runs {Op R E A : Type} (C : Op -> R -> Prop) : prog Op R E A -> A -> Prop :=
| runs_ret a : runs C (Ret a) a
| runs_op op k r a : C op r -> runs C (k r) a -> runs C (Call op k) a.

Section Runs.
  Context {Op R E : Type}.
  Variable C : Op -> R -> Prop.

  Lemma runs_ret_iff A (a b : A) : runs (E := E) C (Ret a) b <-> a = b.
  Proof. split; [intros H; now inversion H|intros ->; constructor]. Qed.

  Lemma runs_throw_iff A e (b : A) : runs C (Throw (E := E) e) b <-> False.
  Proof. split; [intros H; inversion H|tauto]. Qed.

  Lemma runs_call_iff op b : runs (E := E) C (call op) b <-> C op b.
  Proof.
    split.
    - intros H. inversion H as [|? ? r ? H1 H2]; subst. now inversion H2; subst.
    - intros H. econstructor; [exact H|constructor].
  Qed.

  Lemma runs_bind_iff A B (p : prog Op R E A) (f : A -> prog Op R E B) b :
    runs C (bind p f) b <-> exists a, runs C p a /\ runs C (f a) b.
  Proof.
    split.
    - induction p as [a|e|op k IH]; cbn [bind]; intros H.
      + exists a. split; [constructor|auto].
      + inversion H.
      + inversion H as [|? ? r ? H1 H2]; subst. destruct (IH r H2) as (a & A1 & A2).
        exists a. split; auto. econstructor; eauto.
    - intros (a & H1 & H2). induction H1; cbn [bind]; auto. econstructor; eauto.
  Qed.

  Lemma interp_runs A (h : Op -> res E R) (p : prog Op R E A) a :
    (forall op r, h op = Ok r -> C op r) -> interp h p = Ok a -> runs C p a.
  Proof.
    intros H. induction p as [b|e|op k IH]; cbn [interp]; intros X.
    - injection X as ->. constructor.
    - discriminate.
    - destruct (h op) as [r|e] eqn:Eo; [|discriminate]. econstructor; eauto.
  Qed.
End Runs.

Section HomEval.
  Variable VI : values_impl.
  Hypothesis VL : values_laws VI.
  Variable PF : platform VI.
  Hypothesis PO : platform_ok PF.
  Variables U F I : Type.
  Notation V := (vt VI).
  Notation sdd := (sdd V).
  Notation hom := (hom V U F I).
  Variable US : user V U F I.
  Notation order := (order U).
  Notation heval := (heval VI PF U F I US).
  Notation happly := (happly VI PF U F I US).
  Notation evals := (evals VI PF U F I US).
  Notation hcall := (hcall VI U F I).
  Notation hop := (hop VI U F I).
  Notation direct := (direct VI PF U F I US).
  Notation hom_body := (hom_body VI PF U F I US).

  (** ** The bounds are irrelevant *)

  Lemma interp_le A (h h' : hop -> res (err V) sdd) (p : prog hop sdd (err V) A) a :
    (forall op y, h op = Ok y -> h' op = Ok y) -> interp h p = Ok a -> interp h' p = Ok a.
  Proof.
    intros H. induction p as [b|e|op k IH]; cbn [interp]; auto.
    destruct (h op) as [r|e] eqn:E; [|discriminate]. rewrite (H _ _ E). apply IH.
  Qed.

  (** Programs whose successful runs are preserved when the bound grows. *)
  Definition grows {A} (p p' : prog hop sdd (err V) A) : Prop :=
    forall h a, interp h p = Ok a -> interp h p' = Ok a.

  Lemma grows_refl A (p : prog hop sdd (err V) A) : grows p p.
  Proof. intros h a E. exact E. Qed.

  Lemma grows_bind A B (p p' : prog hop sdd (err V) A) (f f' : A -> prog hop sdd (err V) B) :
    grows p p' -> (forall a, grows (f a) (f' a)) -> grows (bind p f) (bind p' f').
  Proof.
    intros H1 H2 h b. rewrite !interp_bind. destruct (interp h p) as [a|e] eqn:E; cbn; [|discriminate].
    rewrite (H1 _ _ E). cbn. apply H2.
  Qed.

  Lemma fix_loop_grows o h : forall n n' x, n <= n' ->
    grows (fix_loop VI PF U F I n o h x) (fix_loop VI PF U F I n' o h x).
  Proof.
    induction n as [|n IH]; intros n' x L.
    - intros k a E. discriminate.
    - destruct n' as [|n']; [lia|]. cbn [fix_loop]. apply grows_bind; [apply grows_refl|].
      intros y. destruct (sdd_eqb VI PF y x); [apply grows_refl|apply IH; lia].
  Qed.

  Lemma sat_loop_grows o f g l : forall n n' x, n <= n' ->
    grows (sat_loop VI PF U F I n o f g l x) (sat_loop VI PF U F I n' o f g l x).
  Proof.
    induction n as [|n IH]; intros n' x L.
    - intros k a E. discriminate.
    - destruct n' as [|n']; [lia|]. cbn [sat_loop].
      apply grows_bind; [apply grows_refl|]. intros s2.
      apply grows_bind; [apply grows_refl|]. intros s3.
      apply grows_bind; [apply grows_refl|]. intros s4.
      destruct (sdd_eqb VI PF x s4); [apply grows_refl|apply IH; lia].
  Qed.

  Lemma direct_grows n n' h o x : n <= n' -> grows (direct n h o x) (direct n' h o x).
  Proof.
    intros L. destruct h; try apply grows_refl.
    - now apply fix_loop_grows.
    - now apply sat_loop_grows.
  Qed.

  Lemma body_grows n n' op : n <= n' -> grows (hom_body n op) (hom_body n' op).
  Proof.
    intros L. destruct op as [[o h] x]. unfold Hom.hom_body, with_var.
    destruct x as [| |var arcs|var arcs]; try apply grows_refl.
    - now apply direct_grows.
    - destruct (o_variable U o) as [y|]; [|apply grows_refl].
      destruct (N.eqb y var); [|apply grows_refl].
      destruct (hskip VI U F I US o h); [apply grows_refl|now apply direct_grows].
    - destruct (o_variable U o) as [y|]; [|apply grows_refl].
      destruct (N.eqb y var); [|apply grows_refl].
      destruct (hskip VI U F I US o h); [apply grows_refl|now apply direct_grows].
  Qed.

  Lemma heval_mono : forall fuel n n' fuel' op y, n <= n' -> fuel <= fuel' ->
    heval n fuel op = Ok y -> heval n' fuel' op = Ok y.
  Proof.
    induction fuel as [|fuel IH]; intros n n' fuel' op y L1 L2 E; [discriminate|].
    destruct fuel' as [|fuel']; [lia|]. cbn [Hom.heval] in *.
    apply (body_grows n n' op L1). eapply interp_le; [|exact E].
    intros op' y' E'. eapply IH; [exact L1| |exact E']. lia.
  Qed.

  Lemma happly_mono n n' fuel fuel' o h x y : n <= n' -> fuel <= fuel' ->
    happly n fuel o h x = Ok y -> happly n' fuel' o h x = Ok y.
  Proof.
    intros L1 L2. unfold Hom.happly. apply interp_le. intros op z. now apply heval_mono.
  Qed.

  (** The evaluation of a homomorphism has at most one result. *)
  Lemma evals_fun o h x y z : evals o h x y -> evals o h x z -> y = z.
  Proof.
    intros (n1 & f1 & E1) (n2 & f2 & E2).
    apply (happly_mono n1 (Nat.max n1 n2) f1 (Nat.max f1 f2)) in E1; [|lia|lia].
    apply (happly_mono n2 (Nat.max n1 n2) f2 (Nat.max f1 f2)) in E2; [|lia|lia].
    congruence.
  Qed.

  (** ** The rules of evaluation *)

  Definition ends (op : hop) (y : sdd) : Prop := exists n fuel, heval n fuel op = Ok y.

  Lemma evals_zero o h y : evals o h Zero y <-> y = Zero.
  Proof.
    unfold Hom.evals, Hom.happly, Hom.hcall.
    replace (is_id VI U F I h || is_zero VI Zero) with true by (now rewrite orb_true_r).
    cbn [interp]. split.
    - intros (n & f & E). congruence.
    - intros ->. exists 0, 0. reflexivity.
  Qed.

  Lemma evals_id o x y : evals o HId x y <-> y = x.
  Proof.
    unfold Hom.evals, Hom.happly, Hom.hcall. cbn. split.
    - intros (n & f & E). congruence.
    - intros ->. exists 0, 0. reflexivity.
  Qed.

  Lemma is_id_iff (h : hom) : is_id VI U F I h = true <-> h = HId.
  Proof. destruct h; cbn; split; congruence. Qed.

  Lemma evals_ends o h x y : h <> HId -> x <> Zero -> (evals o h x y <-> ends (o, h, x) y).
  Proof.
    intros H1 H2. unfold Hom.evals, ends, Hom.happly, Hom.hcall.
    assert (E : is_id VI U F I h || is_zero VI x = false).
    { apply orb_false_iff. split.
      - destruct (is_id VI U F I h) eqn:E; auto. apply is_id_iff in E. contradiction.
      - now apply is_zero_false. }
    rewrite E. cbn [call interp].
    split; intros (n & f & X); exists n, f.
    - destruct (heval n f (o, h, x)); [exact X|discriminate].
    - now rewrite X.
  Qed.

  Lemma runs_hcall o h x y : runs ends (hcall o h x) y <-> evals o h x y.
  Proof.
    unfold Hom.hcall. destruct (is_id VI U F I h) eqn:E1; cbn [orb].
    { apply is_id_iff in E1. subst h. rewrite runs_ret_iff, evals_id. split; congruence. }
    destruct (is_zero VI x) eqn:E2.
    { apply is_zero_iff in E2. subst x. rewrite runs_ret_iff, evals_zero. split; congruence. }
    rewrite runs_call_iff. symmetry. apply evals_ends.
    - intros ->. discriminate.
    - intros ->. discriminate.
  Qed.

  Lemma runs_lift A (r : res (err V) A) a : runs ends (lift VI U F I r) a <-> r = Ok a.
  Proof.
    destruct r as [b|e]; cbn [Hom.lift].
    - rewrite runs_ret_iff. split; congruence.
    - rewrite runs_throw_iff. split; [tauto|discriminate].
  Qed.

  Lemma runs_interp A (p : prog hop sdd (err V) A) a : runs ends p a ->
    exists n fuel, forall n' fuel', n <= n' -> fuel <= fuel' -> interp (heval n' fuel') p = Ok a.
  Proof.
    intros H. induction H as [a|op k r a (n1 & f1 & E1) H2 (n2 & f2 & IH)].
    - exists 0, 0. reflexivity.
    - exists (Nat.max n1 n2), (Nat.max f1 f2). intros n' f' L1 L2. cbn [interp].
      rewrite (heval_mono f1 n1 n' f' _ _ ltac:(lia) ltac:(lia) E1). apply IH; lia.
  Qed.

  Lemma ends_iff op y : ends op y <-> exists n, runs ends (hom_body n op) y.
  Proof.
    split.
    - intros (n & [|f] & E); [discriminate|]. exists n. cbn [Hom.heval] in E.
      eapply interp_runs; [|exact E]. intros op' r E'. exists n, f. exact E'.
    - intros (n & H). apply runs_interp in H. destruct H as (n' & f' & H).
      exists (Nat.max n n'), (S f'). cbn [Hom.heval].
      apply (body_grows n _ op); [lia|]. apply H; lia.
  Qed.

  Lemma evals_iff o h x y : h <> HId -> x <> Zero ->
    (evals o h x y <-> exists n, runs ends (hom_body n (o, h, x)) y).
  Proof. intros A B. rewrite (evals_ends o h x y A B). apply ends_iff. Qed.

  (** *** Loops *)

  Lemma runs_forward {W} o h (arcs : list (W * sdd)) pairs :
    runs ends (forward VI U F I o h arcs) pairs <->
    exists ss, Forall2 (fun a s => evals o h (snd a) s) arcs ss /\
      pairs = map (fun p => (snd p, fst (fst p)))
                (filter (fun p => negb (is_zero VI (snd p))) (combine arcs ss)).
  Proof.
    revert pairs. induction arcs as [|[v s] r IH]; intros pairs; cbn [forward].
    - rewrite runs_ret_iff. split.
      + intros <-. exists []. split; [constructor|reflexivity].
      + intros (ss & H & ->). now inversion H.
    - rewrite runs_bind_iff. setoid_rewrite runs_hcall. setoid_rewrite runs_bind_iff.
      setoid_rewrite runs_ret_iff. setoid_rewrite IH. split.
      + intros (s' & H1 & rest & (ss & H2 & ->) & <-). exists (s' :: ss). split; [constructor; auto|].
        cbn [combine filter snd]. destruct (is_zero VI s'); reflexivity.
      + intros (ss & H & ->). inversion H as [|? s' ? ss' H1 H2]; subst. cbn in H1.
        exists s'. split; auto. eexists. split; [exists ss'; split; [auto|reflexivity]|].
        cbn [combine filter snd]. destruct (is_zero VI s'); reflexivity.
  Qed.

  Lemma runs_hcalls o hs x ys : runs ends (hcalls VI U F I o hs x) ys <->
    Forall2 (fun h y => evals o h x y) hs ys.
  Proof.
    revert ys. induction hs as [|h r IH]; intros ys; cbn [hcalls].
    - rewrite runs_ret_iff. split; [intros <-; constructor|intros H; now inversion H].
    - rewrite runs_bind_iff. setoid_rewrite runs_hcall. setoid_rewrite runs_bind_iff.
      setoid_rewrite runs_ret_iff. setoid_rewrite IH. split.
      + intros (y & H1 & ys' & H2 & <-). now constructor.
      + intros H. inversion H as [|? y ? ys' H1 H2]; subst. eauto.
  Qed.

  Lemma runs_local_vals o h arcs vals : runs ends (local_vals VI U F I o h arcs) vals <->
    exists ws, Forall2 (fun a w => evals o h (fst a) w) arcs ws
      /\ vals = map (fun p => (snd p, snd (fst p))) (combine arcs ws).
  Proof.
    revert vals. induction arcs as [|[v s] r IH]; intros vals; cbn [local_vals].
    - rewrite runs_ret_iff. split.
      + intros <-. exists []. split; [constructor|reflexivity].
      + intros (ws & H & ->). now inversion H.
    - rewrite runs_bind_iff. setoid_rewrite runs_hcall. setoid_rewrite runs_bind_iff.
      setoid_rewrite runs_ret_iff. setoid_rewrite IH. split.
      + intros (v' & H1 & rest & (ws & H2 & ->) & <-). exists (v' :: ws).
        split; [constructor; auto|reflexivity].
      + intros (ws & H & ->). inversion H as [|? v' ? ws' H1 H2]; subst. cbn in H1.
        exists v'. split; auto. eexists. split; [exists ws'; split; [auto|reflexivity]|reflexivity].
  Qed.

  Lemma runs_ind_vals {W} o k (arcs : list (W * sdd)) ys :
    runs ends (ind_vals VI U F I o k arcs) ys <->
    Forall2 (fun a y => evals o (k (fst a)) (snd a) y) arcs ys.
  Proof.
    revert ys. induction arcs as [|[v s] r IH]; intros ys; cbn [ind_vals].
    - rewrite runs_ret_iff. split; [intros <-; constructor|intros H; now inversion H].
    - rewrite runs_bind_iff. setoid_rewrite runs_hcall. setoid_rewrite runs_bind_iff.
      setoid_rewrite runs_ret_iff. setoid_rewrite IH. split.
      + intros (y & H1 & ys' & H2 & <-). now constructor.
      + intros H. inversion H as [|? y ? ys' H1 H2]; subst. cbn in H1. eauto.
  Qed.

  (** [iter R k x y]: [k] steps of [R] lead from [x] to [y]. *)
  Fixpoint iter {A : Type} (R : A -> A -> Prop) (k : nat) (x y : A) : Prop :=
    match k with
    | 0 => y = x
    | S k => exists z, R x z /\ iter R k z y
    end.

  Lemma sdd_eqb_iff x y : sdd_eqb VI PF x y = true <-> x = y.
  Proof. apply sdd_eqb_spec, PO. Qed.

  Lemma runs_fix o h x y :
    (exists n, runs ends (fix_loop VI PF U F I n o h x) y) <->
    exists k, iter (evals o h) k x y /\ evals o h y y.
  Proof.
    split.
    - intros (n & H). revert x H. induction n as [|n IH]; intros x H; cbn [fix_loop] in H.
      + now apply runs_throw_iff in H.
      + apply runs_bind_iff in H. destruct H as (z & H1 & H2). apply runs_hcall in H1.
        destruct (sdd_eqb VI PF z x) eqn:E.
        * apply sdd_eqb_iff in E. subst z. apply runs_ret_iff in H2. subst y. exists 0. cbn. auto.
        * apply IH in H2. destruct H2 as (k & H2 & H3). exists (S k). cbn. eauto.
    - intros (k & H1 & H2). revert x H1. induction k as [|k IH]; intros x H1; cbn [iter] in H1.
      + subst y. exists 1. cbn [fix_loop]. apply runs_bind_iff. exists x. split; [now apply runs_hcall|].
        rewrite (proj2 (sdd_eqb_iff x x) eq_refl). constructor.
      + destruct H1 as (z & H1 & H3). destruct (sdd_eqb VI PF z x) eqn:E.
        * apply sdd_eqb_iff in E. subst z.
          (* the sequence is stationary from x *)
          apply IH. exact H3.
        * destruct (IH _ H3) as (n & Hn). exists (S n). cbn [fix_loop]. apply runs_bind_iff.
          exists z. split; [now apply runs_hcall|]. now rewrite E.
  Qed.

  (** One application of every homomorphism of G, each one to the union of the previous results. *)
  Fixpoint chain (o : order) (g : list hom) (s t : sdd) : Prop :=
    match g with
    | [] => t = s
    | h :: r => exists y s', evals o h s y /\ api_sum VI PF [s; y] = Ok s' /\ chain o r s' t
    end.

  Lemma runs_chain o g s t : runs ends (g_chain VI PF U F I o g s) t <-> chain o g s t.
  Proof.
    revert s. induction g as [|h r IH]; intros s; cbn [g_chain chain].
    - rewrite runs_ret_iff. split; congruence.
    - rewrite runs_bind_iff. setoid_rewrite runs_hcall. setoid_rewrite runs_bind_iff.
      setoid_rewrite runs_lift. setoid_rewrite IH. split.
      + intros (y & H1 & s' & H2 & H3). eauto.
      + intros (y & s' & H1 & H2 & H3). eauto.
  Qed.

  (** One iteration of the loop of a saturation fixpoint. *)
  Definition sat_step (o : order) (f : hom) (g : list hom) (l : hom) (s t : sdd) : Prop :=
    exists s2 s3, evals o f s s2 /\ evals o l s2 s3 /\ chain o g s3 t.

  Lemma runs_sat o f g l x y :
    (exists n, runs ends (sat_loop VI PF U F I n o f g l x) y) <->
    exists k, iter (sat_step o f g l) k x y /\ sat_step o f g l y y.
  Proof.
    split.
    - intros (n & H). revert x H. induction n as [|n IH]; intros x H; cbn [sat_loop] in H.
      + now apply runs_throw_iff in H.
      + apply runs_bind_iff in H. destruct H as (s2 & H1 & H). apply runs_hcall in H1.
        apply runs_bind_iff in H. destruct H as (s3 & H2 & H). apply runs_hcall in H2.
        apply runs_bind_iff in H. destruct H as (s4 & H3 & H). apply runs_chain in H3.
        assert (St : sat_step o f g l x s4) by (exists s2, s3; auto).
        destruct (sdd_eqb VI PF x s4) eqn:E.
        * apply sdd_eqb_iff in E. subst s4. apply runs_ret_iff in H. subst y. exists 0. cbn. auto.
        * apply IH in H. destruct H as (k & H4 & H5). exists (S k). cbn. eauto.
    - intros (k & H1 & H2). revert x H1.
      assert (Step : forall n x z, sat_step o f g l x z ->
                (if sdd_eqb VI PF x z then x = y else runs ends (sat_loop VI PF U F I n o f g l z) y) ->
                runs ends (sat_loop VI PF U F I (S n) o f g l x) y).
      { intros n x z (s2 & s3 & A1 & A2 & A3) B. cbn [sat_loop].
        apply runs_bind_iff. exists s2. split; [now apply runs_hcall|].
        apply runs_bind_iff. exists s3. split; [now apply runs_hcall|].
        apply runs_bind_iff. exists z. split; [now apply runs_chain|].
        destruct (sdd_eqb VI PF x z); [subst; constructor|auto]. }
      induction k as [|k IH]; intros x H1; cbn [iter] in H1.
      + subst y. exists 1. apply (Step 0 x x H2). now rewrite (proj2 (sdd_eqb_iff x x) eq_refl).
      + destruct H1 as (z & H1 & H3). destruct (sdd_eqb VI PF x z) eqn:E.
        * apply sdd_eqb_iff in E. subst z. now apply IH.
        * destruct (IH _ H3) as (n & Hn). exists (S n). apply (Step n x z H1). now rewrite E.
  Qed.

  Lemma iter_stays {A} (R : A -> A -> Prop) (Fun : forall x y z, R x y -> R x z -> y = z) :
    forall k x y, R x x -> iter R k x y -> y = x.
  Proof.
    induction k as [|k IH]; cbn [iter]; intros x y H1 H2; auto.
    destruct H2 as (z & H2 & H3). rewrite <- (Fun _ _ _ H1 H2) in H3. auto.
  Qed.

  Lemma iter_app {A} (R : A -> A -> Prop) : forall j k x y z,
    iter R j x y -> iter R k y z -> iter R (j + k) x z.
  Proof.
    induction j as [|j IH]; cbn [iter Nat.add]; intros k x y z H1 H2.
    - now subst y.
    - destruct H1 as (w & H1 & H3). exists w. split; eauto.
  Qed.

  Lemma iter_fix_unique {A} (R : A -> A -> Prop) (Fun : forall x y z, R x y -> R x z -> y = z) :
    forall j k x y z, iter R j x y -> R y y -> iter R k x z -> R z z -> y = z.
  Proof.
    induction j as [|j IH]; cbn [iter]; intros k x y z H1 H2 H3 H4.
    - subst y. symmetry. now apply (iter_stays R Fun k).
    - destruct H1 as (w & H1 & H5). destruct k as [|k]; cbn [iter] in H3.
      + subst z. rewrite <- (Fun _ _ _ H4 H1) in H5. now apply (iter_stays R Fun j).
      + destruct H3 as (w' & H3 & H6). rewrite (Fun _ _ _ H1 H3) in H5.
        apply (IH k w' y z); auto.
  Qed.
End HomEval.
