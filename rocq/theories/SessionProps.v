(** * C65: sessions

    A session is a list of commands: unions, intersections, differences, applications of homomorphisms and clears, run one after
    the other through the caches of the library, which keep some of the former results, while addresses change in any manner. *)

From Coq Require Import List Bool NArith Arith Lia.
From Verif Require Import Base SortedSets Values Sdd SddFacts Orders OrdersSdd DDModel DDGeneric DDProofs Spec DDTheorems.
From Verif Require Import FlatSet Bitset Concrete DDProps.
From Verif Require Import Hom HomFacts HomEval HomTyped HomEqns HomConcrete HomProps HomCache.
From Verif Require Import Pow2 HashTable Cached Cache CacheProofs CacheTheorems CacheProps HomCacheProps.
From Verif Require Import Moving MovingProofs MovingProps MovingHom MovingHomProofs MovingHomProps Session SessionProofs.
Import ListNotations.

Section SessionProps.
  Variable VI : values_impl.
  Hypothesis VL : values_laws VI.
  Variable PF : platform VI.
  Hypothesis PO : platform_ok PF.
  Variables U F I : Type.
  Notation V := (vt VI).
  Notation sdd := (sdd V).
  Notation hom := (hom V U F I).
  Notation hop := (hop VI U F I).
  Variable US : user V U F I.
  Hypothesis HO : honest VI PF U F I US.
  Variable HP : hplatform V U F I.
  Hypothesis HPO : hplatform_ok HP.
  Notation order := (order U).
  Notation command := (command VI U F I).

  (** The SDDs that a command can receive: SDDs built by a user, SDDs for an order, results of former commands. *)
  Definition usable (x : sdd) : Prop := canonical VI (addr_lt PF) x /\ coherent x.
  Theorem C65_usable : forall x,
    (built VI PF x -> usable x) /\ (forall s, fits VI PF s x -> usable x).
  Proof.
    intros x. split.
    - intros H. now apply (built_both VI VL PF PO).
    - intros s [H1 H2]. split; [auto|]. now apply (follows_coherent VI s).
  Qed.

  (** The commands of a user: in an application, types are right, inductive homomorphisms are in [J], the evaluation ends and user code
      throws nothing (C66 is about the other cases). *)
  Definition legal (J : I -> Prop) (c : command) : Prop :=
    match c with
    | SUnion _ _ _ _ l => forall x, In x l -> usable x
    | SIntersection _ _ _ _ l => l <> [] /\ forall x, In x l -> usable x
    | SDifference _ _ _ _ x y => usable x /\ usable y
    | SApply _ _ _ _ alarm o h x => only VI U F I J h /\
        (exists s s', typed VI PF U F I US o h s' /\ oshape U o s /\ fits VI PF s x) /\
        (forall t, alarm t = false) /\ exists y, evals VI PF U F I US o h x y
    | SClearOperations _ _ _ _ | SClearHomomorphisms _ _ _ _ => True
    end.

  (** An operation on [l] returns the set of the [p] such that [P p], or throws top on two incompatible SDDs; if no assignments of the
      operands clash, it returns, and returns what the operation returns alone, without cache. *)
  Definition gives (l : list sdd) (P : asg (elt VI) -> Prop) (alone : res (err V) sdd) (r : res (err V) (option sdd)) : Prop :=
    match r with
    | Ok (Some y) => usable y /\ forall p, contains y p = true <-> P p
    | Err (ETop a b) => incompatible a b
    | _ => False
    end /\
    ((forall x y, In x l -> In y l -> Sdd.agree x y) -> exists y, r = Ok (Some y) /\ alone = Ok y).
  Definition right_answer (c : command) (r : res (err V) (option sdd)) : Prop :=
    match c with
    | SUnion _ _ _ _ l => gives l (fun p => exists x, In x l /\ contains x p = true) (api_sum VI PF l) r
    | SIntersection _ _ _ _ l => gives l (fun p => forall x, In x l -> contains x p = true) (api_intersection VI PF l) r
    | SDifference _ _ _ _ x y => gives [x; y] (fun p => contains x p = true /\ contains y p = false) (api_minus VI PF x y) r
    | SApply _ _ _ _ alarm o h x => exists y, r = Ok (Some y) /\ evals VI PF U F I US o h x y
    | SClearOperations _ _ _ _ | SClearHomomorphisms _ _ _ _ => r = Ok None
    end.

  (** [session O …]: the results of the commands, starting with empty caches of the given sizes. *)
  Definition session (O : oracle) (dd_hash : ddop V -> N) (hom_hash : hom * sdd -> N) (dd_sizes : nat -> N) (hom_size : N)
      (n fuel : nat) (l : list command) (rs : list (res (err V) (option sdd))) : Prop :=
    exists d h, (forall i, make_cache (dd_sizes i) = Ok (d i)) /\ make_cache hom_size = Ok h /\
      fst (run_session VI PF O U F I US HP dd_hash hom_hash n fuel l (start d (fun _ => h))) = rs.

  Section Proof.
    Variable O : oracle.
    Hypothesis OO : oracle_ok O.
    Variable J : I -> Prop.
    Hypothesis OB : oblivious VI U F I US J.
    Variable dd_hash : ddop V -> N.
    Variable hom_hash : hom * sdd -> N.
    Variables dd_sizes hom_sizes : nat -> N.
    Notation steady := (steady VI PF U F I US J dd_hash hom_hash dd_sizes hom_sizes).
    Notation memo := (dd_memo VI PF dd_hash).
    Notation run := (run_command VI PF O U F I US HP dd_hash hom_hash).

    Lemma hm_at st A Q md (p : M VI (caches (ddop V) sdd) (caches hop sdd) A) : hm VI steady (Ex VI md) p Q -> steady st ->
      outcome (Ex VI md) Q (fst (p st)).
    Proof. intros H1 H2. apply (H1 st H2). Qed.
    Lemma gives_ok st (p : M VI (caches (ddop V) sdd) (caches hop sdd) sdd) l (P : asg (elt VI) -> Prop) alone :
      (forall x, In x l -> usable x) ->
      (forall md, (forall x, In x l -> mode_ok VI md x) ->
        hm VI steady (Ex VI md) p (fun r => canonical VI (addr_lt PF) r /\ mode_ok VI md r /\
          forall q, contains r q = true <-> P q)) ->
      (forall md, (forall x, In x l -> mode_ok VI md x) ->
        outcome (Ex VI md) (fun r => canonical VI (addr_lt PF) r /\ mode_ok VI md r /\
          forall q, contains r q = true <-> P q) alone) ->
      steady st -> gives l P alone (fst (answer VI U F I p st)) /\ steady (snd (answer VI U F I p st)).
    Proof.
      intros HU HM HA St. rewrite answer_fst, answer_snd.
      assert (M0 : forall x, In x l -> mode_ok VI None x).
      { intros x Hx. split; [apply (HU x Hx)|exact Logic.I]. }
      pose proof (HM None M0 st St) as [H1 H2]. split; [|exact H2]. split.
      - destruct (fst (p st)) as [y|[]]; cbn in H1 |- *; try tauto.
        destruct H1 as (C1 & [C2 _] & S1). split; [split; auto|exact S1].
      - intros Ag. set (u := {| u_in := fun q => exists x, In x l /\ contains x q = true;
          u_free := fun q q' '(ex_intro _ x (conj Hx Cx)) '(ex_intro _ y (conj Hy Cy)) => Ag x y Hx Hy q q' Cx Cy |}).
        assert (M1 : forall x, In x l -> mode_ok VI (Some u) x).
        { intros x Hx. split; [apply (HU x Hx)|]. intros q Hq. exists x. auto. }
        pose proof (HA (Some u) M1) as H4. pose proof (hm_at st _ _ _ p (HM (Some u) M1) St) as H3.
        destruct alone as [r|[]]; cbn in H4; try tauto; [|now destruct H4]. exists r.
        destruct (fst (p st)) as [y|[]]; cbn in H3; try tauto; [|now destruct H3].
        destruct H3 as (C2 & _ & S2). destruct H4 as (C1 & _ & S1). split; [|reflexivity]. cbn. do 2 f_equal.
        apply (canonicity VI VL _ (pf_lt PO)); auto. intros q. apply bool_ext. now rewrite S1, S2.
    Qed.

    Definition is_apply (c : command) : Prop := match c with SApply _ _ _ _ _ _ _ _ => True | _ => False end.
    Lemma simple_ok c n fuel st : ~ is_apply c -> legal J c -> steady st ->
      right_answer c (fst (run n fuel c st)) /\ steady (snd (run n fuel c st)).
    Proof.
      destruct c as [l|l|x y|alarm o h x| |]; cbn [is_apply legal right_answer run_command]; intros Na.
      - intros L. intros St. apply gives_ok; auto.
        + intros md Md. eapply hm_conseq.
          * refine (s_sum_ok VI VL PF PO O OO U F I US J dd_hash hom_hash dd_sizes hom_sizes md l _). intros x Hx. split; [apply (L x Hx)|auto].
          * intros r (H1 & H2 & H3). split; [auto|split; [auto|]]. intros q. rewrite H3. apply existsb_exists.
        + intros md Md. eapply outcome_impl; [|intros e He; exact He|].
          1:{ apply (api_sum_ok VI VL PF PO md l). intros x Hx. split; [apply (L x Hx)|auto]. }
          intros r (H1 & H2 & H3). split; [auto|split; [auto|]]. intros q. rewrite H3. apply existsb_exists.
      - intros [Ne L]. intros St. apply gives_ok; auto.
        + intros md Md. eapply hm_conseq.
          * refine (s_inter_ok VI VL PF PO O OO U F I US J dd_hash hom_hash dd_sizes hom_sizes md l Ne _). intros x Hx. split; [apply (L x Hx)|auto].
          * intros r (H1 & H2 & H3). split; [auto|split; [auto|]]. intros q. rewrite H3. apply forallb_forall.
        + intros md Md. eapply outcome_impl; [|intros e He; exact He|].
          1:{ apply (api_intersection_ok VI VL PF PO md l Ne). intros x Hx. split; [apply (L x Hx)|auto]. }
          intros r (H1 & H2 & H3). split; [auto|split; [auto|]]. intros q. rewrite H3. apply forallb_forall.
      - intros [Lx Ly]. intros St. apply gives_ok; auto.
        + intros z [<-|[<-|[]]]; auto.
        + intros md Md. eapply hm_conseq.
          * refine (s_minus_ok VI VL PF PO O OO U F I US J dd_hash hom_hash dd_sizes hom_sizes md x y _ _ _ _); [apply Lx|apply Ly| |]; apply Md; cbn; auto.
          * intros r (H1 & H2 & H3 & _). split; [auto|split; [auto|]]. intros q.
            rewrite H3, andb_true_iff, negb_true_iff. reflexivity.
        + intros md Md. eapply outcome_impl; [|intros e He; exact He|].
          1:{ apply (api_minus_ok VI VL PF PO md x y); [apply Lx|apply Ly| |]; apply Md; cbn; auto. }
          intros r (H1 & H2 & H3 & _). split; [auto|split; [auto|]]. intros q.
          rewrite H3, andb_true_iff, negb_true_iff. reflexivity.
      - now destruct Na.
      - intros _. intros St. unfold mbind.
        destruct (s_clear_dd VI PF U F I US J dd_hash hom_hash dd_sizes hom_sizes 2 st St) as (s1 & -> & S1).
        destruct (s_clear_dd VI PF U F I US J dd_hash hom_hash dd_sizes hom_sizes 1 s1 S1) as (s2 & -> & S2).
        destruct (s_clear_dd VI PF U F I US J dd_hash hom_hash dd_sizes hom_sizes 0 s2 S2) as (s3 & -> & S3). auto.
      - intros _. intros St. unfold mbind.
        destruct (s_clear_hom VI PF U F I US J dd_hash hom_hash dd_sizes hom_sizes 0 st St) as (s1 & -> & S1). auto.
    Qed.

    Lemma command_ok c : legal J c -> exists b, forall n fuel, b <= n -> b <= fuel -> forall st, steady st ->
      right_answer c (fst (run n fuel c st)) /\ steady (snd (run n fuel c st)).
    Proof.
      destruct c as [l|l|x y|alarm o h x| |]; try (intros L; exists 0; intros n fuel _ _ st St; apply simple_ok; cbn; auto; fail).
      cbn [legal right_answer run_command].
      intros (Hn & (s & s' & T & Os & Fx) & Qu & y & (n0 & k0 & E)). exists (Nat.max n0 k0). intros n fuel H1 H2 st St.
      assert (E' : happly VI PF U F I US n k0 o h x = Ok y).
      { apply (happly_mono VI PF U F I US n0 n k0 k0 o h x y); auto; lia. }
      rewrite answer_fst, answer_snd.
      destruct (s_apply_ok VI VL PF PO O OO U F I US HO HP HPO J OB dd_hash hom_hash dd_sizes hom_sizes alarm n k0 fuel o h s s' x y
                  T Hn Os Fx E' ltac:(lia) st St) as [[A1|(e & [(t & A1) _] & _)] A2]; [|rewrite Qu in A1; discriminate].
      rewrite A1. split; [|exact A2]. exists y. split; [reflexivity|]. now exists n0, k0.
    Qed.

    Lemma session_ok l : Forall (legal J) l -> exists b, forall n fuel, b <= n -> b <= fuel -> forall st, steady st ->
      Forall2 right_answer l (fst (run_session VI PF O U F I US HP dd_hash hom_hash n fuel l st)).
    Proof.
      induction 1 as [|c l L H (b & IH)].
      - exists 0. intros n fuel _ _ st _. constructor.
      - destruct (command_ok c L) as (b1 & H1). exists (Nat.max b b1). intros n fuel Hn Hf st St. cbn [run_session].
        destruct (H1 n fuel) with (st := st) as [A1 A2]; [lia|lia|auto|].
        destruct (run n fuel c st) as [r s1]. cbn [fst snd] in A1, A2.
        specialize (IH n fuel ltac:(lia) ltac:(lia) s1 A2).
        destruct (run_session VI PF O U F I US HP dd_hash hom_hash n fuel l s1) as [rs s2]. cbn [fst] in *. now constructor.
    Qed.
  End Proof.

  (** Whatever the commands before it and what they left in the caches, whatever the sizes of the caches, the values of hash() and
      the addresses, each command gives the right answer.  The bounds of the model are the only restriction on [n] and [fuel]. *)
  Theorem C65_session : forall O, oracle_ok O -> forall J, oblivious VI U F I US J ->
    forall dd_hash hom_hash dd_sizes hom_size,
    (forall i, (2 <= dd_sizes i <= 2 ^ 63)%N) -> (2 <= hom_size <= 2 ^ 63)%N ->
    forall l, Forall (legal J) l ->
    exists b, forall n fuel, b <= n -> b <= fuel ->
    exists rs, session O dd_hash hom_hash dd_sizes hom_size n fuel l rs /\ Forall2 right_answer l rs.
  Proof.
    intros O OO J OB dd_hash hom_hash dd_sizes hom_size SD SH l L.
    destruct (session_ok O OO J OB dd_hash hom_hash dd_sizes (fun _ => hom_size) l L) as (b & H). exists b. intros n fuel Hn Hf.
    destruct (new_exists (Op := ddop V) (R := sdd) (EFuel (V := V)) (fun _ => Ret Zero) (fun op => op) dd_hash (dd_kind VI)
                (fun _ => true) (fun _ => True) dd_sizes SD) as (d & Hd).
    destruct (make_cache (Op := hop) (R := sdd) hom_size) as [h|e] eqn:Eh.
    2:{ destruct (new_exists (Op := hop) (R := sdd) (EFuel (V := V)) (fun _ => Ret Zero) (hkey VI U F I) hom_hash (fun _ => 0)
                    (fun _ => true) (fun _ => True) (fun _ => hom_size) (fun _ => SH)) as (s & Hs).
        specialize (Hs 0). cbn in Hs. congruence. }
    eexists. split.
    - exists d, h. split; [exact Hd|]. split; [auto|reflexivity].
    - apply H; auto. apply s_start; auto. intros i. exact Eh.
  Qed.

  (** Operands without clash, for instance of a common shape: the answers do not depend on the sizes of the caches, on hash() or on
      the addresses. *)
  Definition operands (c : command) : list sdd :=
    match c with
    | SUnion _ _ _ _ l | SIntersection _ _ _ _ l => l
    | SDifference _ _ _ _ x y => [x; y]
    | _ => []
    end.
  Definition uniform (c : command) : Prop := forall x y, In x (operands c) -> In y (operands c) -> Sdd.agree x y.
  Theorem C65_common_shape : forall c sh, (forall x, In x (operands c) -> follows sh x) -> uniform c.
  Proof.
    intros c sh H x y Hx Hy p q Cp Cq.
    apply (u_free VI (shape_universe VI sh)); [exact (follows_asg VI sh x (H x Hx) p Cp)|exact (follows_asg VI sh y (H y Hy) q Cq)].
  Qed.
  Lemma answers_fun c r r' : uniform c -> right_answer c r -> right_answer c r' -> r = r'.
  Proof.
    assert (G : forall l P alone, (forall x y, In x l -> In y l -> Sdd.agree x y) ->
              gives l P alone r -> gives l P alone r' -> r = r').
    { intros l P alone Ag [_ H1] [_ H2]. destruct (H1 Ag) as (y & -> & E1). destruct (H2 Ag) as (y' & -> & E2). congruence. }
    destruct c as [l|l|x y|alarm o h x| |]; unfold uniform; cbn [operands right_answer].
    - apply G.
    - apply G.
    - apply G.
    - intros _ (y & -> & E1) (y' & -> & E2). now rewrite (evals_fun VI PF U F I US o h x y y' E1 E2).
    - congruence.
    - congruence.
  Qed.
  Theorem C65_deterministic : forall O O', oracle_ok O -> oracle_ok O' -> forall J, oblivious VI U F I US J ->
    forall dd_hash hom_hash dd_sizes hom_size dd_hash' hom_hash' dd_sizes' hom_size',
    (forall i, (2 <= dd_sizes i <= 2 ^ 63)%N) -> (2 <= hom_size <= 2 ^ 63)%N ->
    (forall i, (2 <= dd_sizes' i <= 2 ^ 63)%N) -> (2 <= hom_size' <= 2 ^ 63)%N ->
    forall l, Forall (legal J) l -> Forall uniform l ->
    exists b, forall n fuel, b <= n -> b <= fuel ->
    exists rs, session O dd_hash hom_hash dd_sizes hom_size n fuel l rs /\
      session O' dd_hash' hom_hash' dd_sizes' hom_size' n fuel l rs.
  Proof.
    intros O O' OO OO' J OB h1 h2 s1 s2 h1' h2' s1' s2' A1 A2 A1' A2' l L Un.
    destruct (C65_session O OO J OB h1 h2 s1 s2 A1 A2 l L) as (b & B).
    destruct (C65_session O' OO' J OB h1' h2' s1' s2' A1' A2' l L) as (b' & B').
    exists (Nat.max b b'). intros n fuel Hn Hf.
    destruct (B n fuel ltac:(lia) ltac:(lia)) as (rs & S & R). destruct (B' n fuel ltac:(lia) ltac:(lia)) as (rs' & S' & R').
    assert (rs = rs').
    { clear - R R' Un. revert rs' R'. induction R as [|c r l rs H R IH]; intros rs' R'; inversion R' as [|? ? ? ? H' R'']; subst; auto.
      inversion Un; subst. f_equal; [eapply answers_fun; eauto|auto]. }
    subst rs'. eauto.
  Qed.
End SessionProps.
Print Assumptions C65_usable.
Print Assumptions C65_session.
Print Assumptions C65_common_shape.
Print Assumptions C65_deterministic.

(** ** Example *)

Notation excommand := (command FS nat exfun exind).
(** The second union and the second application find what the first ones left; the union of SDDs of two shapes throws top; the
    fixpoint is asked again after the clears. *)
Definition calm (t : nat) : bool := false.
Definition ex_session : list excommand :=
  [SUnion _ _ _ _ [ex_two; ex_x]; SApply _ _ _ _ calm exo ex_moving_hom ex_two; SUnion _ _ _ _ [ex_x; ex_two];
   SUnion _ _ _ _ [node_flat FS PF_up 0 (fs [0]%N) One; node_flat FS PF_up 1 (fs [0]%N) One];
   SApply _ _ _ _ calm two (two_l 0) two_x; SApply _ _ _ _ calm exo ex_moving_hom ex_two;
   SClearOperations _ _ _ _; SClearHomomorphisms _ _ _ _;
   SDifference _ _ _ _ ex_two ex_x; SIntersection _ _ _ _ [ex_two; ex_x]; SApply _ _ _ _ calm exo ex_moving_hom ex_two].
Example C65_example :
  Forall (legal FS PF_up nat exfun exind ex_user (fun i => i = 0)) ex_session /\
  oracle_ok ex_oracle /\ oblivious FS nat exfun exind ex_user (fun i => i = 0).
Proof.
  split; [|split; [exact ex_oracle_ok|exact ex_oblivious]].
  pose proof (fun x => proj2 (C65_usable FS FS_laws PF_up PF_up_ok x) exs) as Fi.
  assert (Nd : forall k, usable FS PF_up (node_flat FS PF_up k (fs [0]%N) One)).
  { intros k. apply (C65_usable FS FS_laws PF_up PF_up_ok). repeat constructor. }
  assert (Ux : forall x, In x [ex_two; ex_x] -> usable FS PF_up x).
  { intros x [<-|[<-|[]]]; apply Fi; [exact ex_two_fits|exact ex_x_fits]. }
  assert (Ap : legal FS PF_up nat exfun exind ex_user (fun i => i = 0) (SApply FS nat exfun exind calm exo ex_moving_hom ex_two)).
  { split; [unfold ex_moving_hom; constructor; constructor; intros h [<-|[<-|[<-|[<-|[]]]]]; repeat constructor|].
    split; [exists exs, exs; split; [unfold exs; ty|split; [exact exo_shape|exact ex_two_fits]]|].
    split; [reflexivity|]. destruct (ask_spec exo ex_moving_hom ex_two (point 9 9 9 9) false) as (y & Ey & _); [vm_compute; reflexivity|].
    eauto. }
  repeat (apply Forall_cons || apply Forall_nil); try exact Ap; try exact Logic.I; cbn [legal].
  - exact Ux.
  - intros x [<-|[<-|[]]]; apply Ux; cbn; auto.
  - intros x [<-|[<-|[]]]; apply Nd.
  - split; [now repeat constructor|]. split.
    + exists twos, twos. split; [apply two_l_typed|split; [exact two_shape|exact two_fits]].
    + split; [reflexivity|]. destruct (ask_spec two (two_l 0) two_x two_p true) as (y & Ey & _); [vm_compute; reflexivity|]. eauto.
  - split; apply Ux; cbn; auto.
  - split; [discriminate|exact Ux].
Qed.

(** The results of the session, with caches of two entries and a hash() without information. *)
Definition ex_results : list (option (list N)) :=
  match make_cache (Op := ddop (vt FS)) (R := sdd (vt FS)) 2, make_cache (Op := hop FS nat exfun exind) (R := sdd (vt FS)) 2 with
  | Ok d, Ok h =>
      map (fun r => match r with Ok (Some y) => Some (enc enc_set y) | Ok None => Some [] | Err _ => None end)
        (fst (run_session FS PF_up ex_oracle nat exfun exind ex_user HP_up (fun _ => 7%N) (fun _ => 7%N) 20 20 ex_session
          (start (fun _ => d) (fun _ => h))))
  | _, _ => []
  end.
Example C65_run : ex_results =
  [ok_enc (api_sum FS PF_up [ex_two; ex_x]); moving_enc ex_oracle; ok_enc (api_sum FS PF_up [ex_two; ex_x]); None;
   ok_enc (moving_apply FS PF_up ex_oracle nat exfun exind ex_user 8 20 two (two_l 0) two_x); moving_enc ex_oracle;
   Some []; Some []; ok_enc (api_minus FS PF_up ex_two ex_x); ok_enc (api_intersection FS PF_up [ex_two; ex_x]);
   moving_enc ex_oracle].
Proof. vm_compute. reflexivity. Qed.
