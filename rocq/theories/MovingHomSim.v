(** * Runs that differ by the user's code only

    Two runs of the same application, through the same caches and with the same movements of addresses, in which the code of the user
    returns different things or throws at different times. *)

From Coq Require Import List Bool NArith Arith.
From Verif Require Import Base SortedSets Values Sdd Orders DDModel Hom Moving MovingHom.
Import ListNotations.

(** The same declarations of the user, with another code. *)
Definition recode {V U F I : Type} (US : user V U F I) (fa : F -> V -> V) (fl : I -> order U -> V -> hom V U F I)
    (hi : I -> order U -> sdd V -> hom V U F I) (one : I -> sdd V) : user V U F I :=
  {| f_apply := fa; f_sel := f_sel US; f_shift := f_shift US; i_skip := i_skip US; i_sel := i_sel US;
     i_flat := fl; i_hier := hi; i_one := one |}.

Section Sim.
  Variable VI : values_impl.
  Variable PF : platform VI.
  Variable O : oracle.
  Notation V := (vt VI).
  Notation sdd := (sdd V).
  Variables D H : Type.
  Notation M := (M VI D H).
  Variable C : memo (ddop V) sdd (err V) D.
  Variables U F I : Type.
  Notation hom := (hom V U F I).
  Notation order := (order U).
  Notation hop := (hop VI U F I).
  Variable US : user V U F I.
  Variable fa : F -> V -> V.
  Variable fl : I -> order -> V -> hom.
  Variable hi : I -> order -> sdd -> hom.
  Variable one : I -> sdd.
  Notation US' := (recode US fa fl hi one).
  Variables alarm alarm' : nat -> bool.
  (** Whether the first run may be stopped by an exception when the second goes on. *)
  Variable esc : Prop.

  Definition sim {A : Type} (p q : M A) : Prop := forall s, p s = q s \/ esc /\ fst (p s) = Err EUser.

  Lemma sim_refl A (p : M A) : sim p p.
  Proof. intros s. now left. Qed.
  Lemma sim_bind A B (p q : M A) (f g : A -> M B) : sim p q -> (forall a, sim (f a) (g a)) -> sim (mbind VI p f) (mbind VI q g).
  Proof.
    intros H1 H2 s. unfold mbind. destruct (H1 s) as [E|[E1 E2]].
    - rewrite E. destruct (q s) as [[a|e] s']; [apply H2|now left].
    - destruct (p s) as [r s']. cbn [fst] in E2. subst r. right. auto.
  Qed.
  Hypothesis UF : forall f v, sim (user_call VI alarm (f_apply US f v)) (user_call VI alarm' (fa f v)).
  Hypothesis UI : forall i o v, sim (user_call VI alarm (i_flat US i o v)) (user_call VI alarm' (fl i o v)).
  Hypothesis UH : forall i o v, sim (user_call VI alarm (i_hier US i o v)) (user_call VI alarm' (hi i o v)).
  Hypothesis UO : forall i, sim (user_call VI alarm (i_one US i)) (user_call VI alarm' (one i)).

  Ltac sb := eapply sim_bind; [|intros ?].

  Lemma sim_images f arcs : sim (mh_images VI U F I US alarm f arcs) (mh_images VI U F I US' alarm' f arcs).
  Proof.
    induction arcs as [|[v s] r IH]; cbn [mh_images]; [apply sim_refl|]. sb; [exact (UF _ _)|]. sb; [exact IH|]. apply sim_refl.
  Qed.

  Section Body.
    Variables ask ask' : hop -> M sdd.
    Hypothesis AK : forall op, sim (ask op) (ask' op).

    Lemma sim_call o h x : sim (mh_call VI U F I ask o h x) (mh_call VI U F I ask' o h x).
    Proof. unfold mh_call. destruct (_ || _); [apply sim_refl|apply AK]. Qed.
    Hint Resolve sim_refl sim_call : sim.
    Lemma sim_forward W (ops : mops VI D H W) o h arcs : forall m,
      sim (mh_forward VI PF U F I ask ops o h arcs m) (mh_forward VI PF U F I ask' ops o h arcs m).
    Proof.
      induction arcs as [|[v s] r IH]; intros m; cbn [mh_forward]; auto with sim. sb; auto with sim.
      destruct (is_zero VI a); auto. sb; auto with sim.
    Qed.
    Lemma sim_local_su o h ops arcs : forall m,
      sim (mh_local_su VI PF U F I ask o h arcs m ops) (mh_local_su VI PF U F I ask' o h arcs m ops).
    Proof.
      induction arcs as [|[v s] r IH]; intros m; cbn [mh_local_su]; auto with sim. sb; auto with sim.
      destruct (is_zero VI a); auto. sb; auto with sim.
    Qed.
    Lemma sim_local_vals x o h arcs : sim (mh_local_vals VI PF U F I ask x o h arcs) (mh_local_vals VI PF U F I ask' x o h arcs).
    Proof.
      induction arcs as [|[v s] r IH]; cbn [mh_local_vals]; auto with sim. sb; auto with sim. sb; auto with sim.
    Qed.
    Lemma sim_ind_vals W o (k k' : W -> hom) arcs : (forall v, sim (user_call VI alarm (k v)) (user_call VI alarm' (k' v))) ->
      sim (mh_ind_vals VI U F I alarm ask o k arcs) (mh_ind_vals VI U F I alarm' ask' o k' arcs).
    Proof.
      intros Hk. induction arcs as [|[v s] r IH]; cbn [mh_ind_vals]; auto with sim. sb; auto. sb; auto with sim. sb; auto with sim.
    Qed.
    Lemma sim_calls o hs x : sim (mh_calls VI U F I ask o hs x) (mh_calls VI U F I ask' o hs x).
    Proof. induction hs as [|h r IH]; cbn [mh_calls]; auto with sim. sb; auto with sim. sb; auto with sim. Qed.
    Lemma sim_inter o hs x : forall acc, sim (mh_inter_loop VI PF O C U F I ask o hs x acc) (mh_inter_loop VI PF O C U F I ask' o hs x acc).
    Proof.
      induction hs as [|h r IH]; intros acc; cbn [mh_inter_loop]; auto with sim. sb; auto with sim. destruct (is_zero VI a); auto with sim.
    Qed.
    Lemma sim_fix o h : forall n x, sim (mh_fix VI PF U F I ask n o h x) (mh_fix VI PF U F I ask' n o h x).
    Proof.
      induction n as [|n IH]; intros x; cbn [mh_fix]; auto with sim. sb; auto with sim. destruct (sdd_eqb VI PF a x); auto with sim.
    Qed.
    Lemma sim_chain o : forall g s, sim (mh_chain VI PF O C U F I ask o g s) (mh_chain VI PF O C U F I ask' o g s).
    Proof. induction g as [|h r IH]; intros s; cbn [mh_chain]; auto with sim. sb; auto with sim. sb; auto with sim. Qed.
    Lemma sim_sat o f g l : forall n s, sim (mh_sat VI PF O C U F I ask n o f g l s) (mh_sat VI PF O C U F I ask' n o f g l s).
    Proof.
      induction n as [|n IH]; intros s; cbn [mh_sat]; auto with sim.
      sb; auto with sim. sb; auto with sim. sb; [apply sim_chain|]. destruct (sdd_eqb VI PF s _); auto with sim.
    Qed.
    Lemma sim_next o (f g : order -> M sdd) : (forall o', sim (f o') (g o')) -> sim (mh_next VI U o f) (mh_next VI U o g).
    Proof. intros E. unfold mh_next. destruct (o_next U o); auto with sim. Qed.
    Lemma sim_nested o (f g : order -> M sdd) : (forall o', sim (f o') (g o')) -> sim (mh_nested VI U o f) (mh_nested VI U o g).
    Proof. intros E. unfold mh_nested. destruct (o_nested U o); auto with sim. Qed.
    Lemma sim_var o (f g : N -> M sdd) : (forall x, sim (f x) (g x)) -> sim (mh_var VI U o f) (mh_var VI U o g).
    Proof. intros E. unfold mh_var. destruct (o_variable U o); auto with sim. Qed.

    Lemma sim_direct n h o x : sim (mh_direct VI PF O C U F I US alarm ask n h o x) (mh_direct VI PF O C U F I US' alarm' ask' n h o x).
    Proof.
      destruct h; cbn [mh_direct]; auto with sim.
      - sb; auto with sim.
      - apply sim_var. intros v'. apply sim_next. intros o'. sb; auto with sim.
      - apply sim_var. intros v'. apply sim_next. intros o'. sb; auto with sim.
      - apply sim_fix.
      - destruct x; auto with sim. apply sim_var. intros v'. sb; auto with sim. sb; [apply sim_images|].
        cbn [recode f_sel f_shift]. auto with sim.
      - sb; auto with sim. sb; auto with sim. sb; auto with sim. sb; auto with sim.
      - destruct x; auto with sim.
        + apply sim_next. intros o'. sb; auto with sim. sb; [apply sim_ind_vals; intros v'; exact (UI _ _ _)|]. auto with sim.
        + apply sim_next. intros o'. sb; auto with sim. sb; [apply sim_ind_vals; intros v'; exact (UH _ _ _)|]. auto with sim.
      - apply sim_inter.
      - destruct x; auto with sim. apply sim_nested. intros o'. sb; auto with sim.
        change (hselector VI U F I US') with (hselector VI U F I US). destruct (hselector VI U F I US h).
        + sb; [apply sim_local_su|]. auto with sim.
        + sb; [apply sim_local_vals|]. auto with sim.
      - apply sim_sat.
      - sb; [apply sim_calls|]. auto with sim.
      - sb; [apply sim_calls|]. auto with sim.
      - sb; [apply sim_calls|]. auto with sim.
    Qed.
    Lemma sim_body n op : sim (mh_body VI PF O C U F I US alarm ask n op) (mh_body VI PF O C U F I US' alarm' ask' n op).
    Proof.
      destruct op as [[o h] x]. unfold mh_body. change (hskip VI U F I US') with (hskip VI U F I US).
      destruct x; auto with sim.
      - apply sim_direct.
      - apply sim_var. intros v'. destruct (N.eqb v' _); auto with sim. destruct (hskip VI U F I US o h); [|apply sim_direct].
        apply sim_next. intros o'. sb; auto with sim. sb; [apply sim_forward|]. auto with sim.
      - apply sim_var. intros v'. destruct (N.eqb v' _); auto with sim. destruct (hskip VI U F I US o h); [|apply sim_direct].
        apply sim_next. intros o'. sb; auto with sim. sb; [apply sim_forward|]. auto with sim.
    Qed.
  End Body.

  Variable K : filtered_memo hop sdd (err V) H.
  Lemma sim_eval n : forall fuel op, sim (mh_eval VI PF O C U F I K US alarm n fuel op) (mh_eval VI PF O C U F I K US' alarm' n fuel op).
  Proof.
    induction fuel as [|fuel IH]; intros op; cbn [mh_eval]; [apply sim_refl|].
    pose proof (sim_body _ _ IH n op) as B. destruct (f_accept K op).
    - sb; [apply sim_refl|]. destruct (fst a); [apply sim_refl|]. sb; [exact B|]. apply sim_refl.
    - sb; [apply sim_refl|]. exact B.
  Qed.
  Theorem sim_apply n fuel o h x :
    sim (mv_apply VI PF O C U F I K US alarm n fuel o h x) (mv_apply VI PF O C U F I K US' alarm' n fuel o h x).
  Proof. unfold mv_apply. apply sim_call. apply sim_eval. Qed.
End Sim.
