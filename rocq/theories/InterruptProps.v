(** * C66: applications that an exception stops

    A function or an inductive homomorphism of the user may throw at any of its calls, to interrupt an evaluation
    (tests/hom/test_hom_interrupt.cc); the application may be one that would not end otherwise. *)

From Coq Require Import List Bool NArith Arith Lia.
From Verif Require Import Base SortedSets Values Sdd SddFacts Orders OrdersSdd DDModel DDGeneric DDProofs Spec DDTheorems.
From Verif Require Import FlatSet Bitset Concrete DDProps.
From Verif Require Import Hom HomFacts HomEval HomTyped HomEqns HomConcrete HomProps HomCache.
From Verif Require Import Pow2 HashTable Cached Cache CacheProofs CacheTheorems CacheProps HomCacheProps.
From Verif Require Import Moving MovingProofs MovingProps MovingHom MovingHomProofs MovingHomSafe MovingHomSim MovingHomProps.
From Verif Require Import Session SessionProofs SessionProps.
Import ListNotations.

Section InterruptProps.
  Variable VI : values_impl.
  Hypothesis VL : values_laws VI.
  Variable PF : platform VI.
  Hypothesis PO : platform_ok PF.
  Variables U F I : Type.
  Notation V := (vt VI).
  Notation sdd := (sdd V).
  Notation hom := (hom V U F I).
  Notation hop := (hop VI U F I).
  Variable US : user V U F I.
  Hypothesis HO : honest VI PF U F I US.
  Variable HP : hplatform V U F I.
  Hypothesis HPO : hplatform_ok HP.
  Notation order := (order U).
  Notation command := (command VI U F I).
  Notation legal := (legal VI PF U F I US).
  Notation right_answer := (right_answer VI PF U F I US).
  Notation session := (session VI PF U F I US HP).

  (** The commands of C65, and applications of which nothing is known but their types: user code may throw at any call, and without
      that the evaluation may go on forever. *)
  Definition possible (J : I -> Prop) (c : command) : Prop :=
    match c with
    | SApply _ _ _ _ alarm o h x => only VI U F I J h /\
        exists s s', typed VI PF U F I US o h s' /\ oshape U o s /\ fits VI PF s x
    | _ => legal J c
    end.
  (** What such a command may give: the right answer, or the exception of the user if there is one, or nothing yet when the bounds of
      the model are reached. *)
  Definition safe_answer (c : command) (r : res (err V) (option sdd)) : Prop :=
    match c with
    | SApply _ _ _ _ alarm o h x =>
        match r with
        | Ok (Some y) => evals VI PF U F I US o h x y
        | Err EUser => exists t, alarm t = true
        | Err EFuel => True
        | _ => False
        end
    | _ => right_answer c r
    end.
  (** An application of which the evaluation ends, if no exception stops it. *)
  Definition ending (c : command) : Prop :=
    match c with SApply _ _ _ _ _ o h x => exists y, evals VI PF U F I US o h x y | _ => True end.
  Definition final_answer (c : command) (r : res (err V) (option sdd)) : Prop :=
    right_answer c r \/
    match c with SApply _ _ _ _ alarm o h x => (exists t, alarm t = true) /\ r = Err EUser | _ => False end.

  Section Proof.
    Variable O : oracle.
    Hypothesis OO : oracle_ok O.
    Variable J : I -> Prop.
    Hypothesis OB : oblivious VI U F I US J.
    Variable dd_hash : ddop V -> N.
    Variable hom_hash : hom * sdd -> N.
    Variables dd_sizes hom_sizes : nat -> N.
    Notation steady := (steady VI PF U F I US J dd_hash hom_hash dd_sizes hom_sizes).
    Notation run := (run_command VI PF O U F I US HP dd_hash hom_hash).
    Notation runs := (run_session VI PF O U F I US HP dd_hash hom_hash).

    Lemma other_ok c n fuel st : ~ is_apply VI U F I c -> legal J c -> steady st ->
      right_answer c (fst (run n fuel c st)) /\ steady (snd (run n fuel c st)).
    Proof. now apply simple_ok. Qed.
    Lemma possible_ok c n fuel st : possible J c -> steady st ->
      safe_answer c (fst (run n fuel c st)) /\ steady (snd (run n fuel c st)).
    Proof.
      destruct c as [l|l|x y|alarm o h x| |]; try (intros L St; apply other_ok; cbn; auto; fail).
      cbn [possible safe_answer run_command]. intros (Hn & s & s' & T & Os & Fx) St. rewrite answer_fst, answer_snd.
      destruct (s_apply_safe VI VL PF PO O OO U F I US HO HP HPO J OB dd_hash hom_hash dd_sizes hom_sizes alarm n fuel o h s s' x
                  T Hn Os Fx st St) as [A1 A2].
      split; [|exact A2]. destruct (fst (mv_apply _ _ _ _ _ _ _ _ _ _ _ _ _ _ _ st)) as [y|e]; cbn in A1 |- *; [exact A1|].
      destruct A1 as [->|[A1 ->]]; cbn; auto.
    Qed.
    Lemma possible_session l : Forall (possible J) l -> forall n fuel st, steady st ->
      Forall2 safe_answer l (fst (runs n fuel l st)) /\ steady (snd (runs n fuel l st)).
    Proof.
      induction 1 as [|c l L H IH]; intros n fuel st St; cbn [run_session]; [split; [constructor|exact St]|].
      destruct (possible_ok c n fuel st L St) as [A1 A2]. destruct (run n fuel c st) as [r s1]. cbn [fst snd] in A1, A2.
      destruct (IH n fuel s1 A2) as [B1 B2]. destruct (runs n fuel l s1) as [rs s2]. cbn [fst snd] in *. split; [now constructor|exact B2].
    Qed.
    Lemma ending_ok c : possible J c -> ending c -> exists b, forall n fuel, b <= n -> b <= fuel -> forall st, steady st ->
      final_answer c (fst (run n fuel c st)).
    Proof.
      destruct c as [l|l|x y|alarm o h x| |];
        try (intros L _; exists 0; intros n fuel _ _ st St; left; apply other_ok; cbn; auto; fail).
      cbn [possible ending run_command]. intros (Hn & s & s' & T & Os & Fx) (y & n0 & k0 & E).
      exists (Nat.max n0 k0). intros n fuel H1 H2 st St. rewrite answer_fst.
      assert (E' : happly VI PF U F I US n k0 o h x = Ok y).
      { apply (happly_mono VI PF U F I US n0 n k0 k0 o h x y); auto; lia. }
      destruct (s_apply_ok VI VL PF PO O OO U F I US HO HP HPO J OB dd_hash hom_hash dd_sizes hom_sizes alarm n k0 fuel o h s s' x y
                  T Hn Os Fx E' ltac:(lia) st St) as [[A1|(e & [A1 ->] & A2)] _].
      - left. rewrite A1. exists y. split; [reflexivity|]. now exists n0, k0.
      - right. rewrite A2. auto.
    Qed.
    Lemma run_session_app n fuel l c : forall st,
      fst (runs n fuel (l ++ [c]) st) = fst (runs n fuel l st) ++ [fst (run n fuel c (snd (runs n fuel l st)))].
    Proof.
      induction l as [|c' l IH]; intros st; cbn [app run_session].
      - cbn [fst snd app]. destruct (run n fuel c st). reflexivity.
      - destruct (run n fuel c' st) as [r s1]. specialize (IH s1). destruct (runs n fuel (l ++ [c]) s1) as [rs s2].
        destruct (runs n fuel l s1) as [rs' s3]. cbn [fst snd app] in *. now rewrite IH.
    Qed.
  End Proof.

  Lemma new_session O dd_hash hom_hash dd_sizes hom_size n fuel l :
    (forall i, (2 <= dd_sizes i <= 2 ^ 63)%N) -> (2 <= hom_size <= 2 ^ 63)%N ->
    exists st, (forall J, steady VI PF U F I US J dd_hash hom_hash dd_sizes (fun _ => hom_size) st) /\
      session O dd_hash hom_hash dd_sizes hom_size n fuel l (fst (run_session VI PF O U F I US HP dd_hash hom_hash n fuel l st)).
  Proof.
    intros SD SH.
    destruct (new_exists (Op := ddop V) (R := sdd) (EFuel (V := V)) (fun _ => Ret Zero) (fun op => op) dd_hash (dd_kind VI)
                (fun _ => true) (fun _ => True) dd_sizes SD) as (d & Hd).
    destruct (make_cache (Op := hop) (R := sdd) hom_size) as [h|e] eqn:Eh.
    2:{ destruct (new_exists (Op := hop) (R := sdd) (EFuel (V := V)) (fun _ => Ret Zero) (hkey VI U F I) hom_hash (fun _ => 0)
                    (fun _ => true) (fun _ => True) (fun _ => hom_size) (fun _ => SH)) as (s & Hs).
        specialize (Hs 0). cbn in Hs. congruence. }
    exists (start d (fun _ => h)). split.
    - intros J. apply s_start; auto. intros i. exact Eh.
    - exists d, h. split; [exact Hd|]. split; [exact Eh|reflexivity].
  Qed.

  (** In every session of possible commands, whatever is thrown and wherever the model stops, what is answered is right. *)
  Theorem C66_safe : forall O, oracle_ok O -> forall J, oblivious VI U F I US J ->
    forall dd_hash hom_hash dd_sizes hom_size,
    (forall i, (2 <= dd_sizes i <= 2 ^ 63)%N) -> (2 <= hom_size <= 2 ^ 63)%N ->
    forall l, Forall (possible J) l -> forall n fuel,
    exists rs, session O dd_hash hom_hash dd_sizes hom_size n fuel l rs /\ Forall2 safe_answer l rs.
  Proof.
    intros O OO J OB dd_hash hom_hash dd_sizes hom_size SD SH l L n fuel.
    destruct (new_session O dd_hash hom_hash dd_sizes hom_size n fuel l SD SH) as (st & St & Se). eexists. split; [exact Se|].
    apply (possible_session O OO J OB dd_hash hom_hash dd_sizes (fun _ => hom_size) l L n fuel st (St J)).
  Qed.

  (** After any of these sessions, a command of which the evaluation ends gives the right answer or the exception of its own user code;
      the right answer if it throws nothing.  So an interrupted application can be asked again. *)
  Theorem C66_after : forall O, oracle_ok O -> forall J, oblivious VI U F I US J ->
    forall dd_hash hom_hash dd_sizes hom_size,
    (forall i, (2 <= dd_sizes i <= 2 ^ 63)%N) -> (2 <= hom_size <= 2 ^ 63)%N ->
    forall l c, Forall (possible J) l -> possible J c -> ending c ->
    exists b, forall n fuel, b <= n -> b <= fuel ->
    exists rs r, session O dd_hash hom_hash dd_sizes hom_size n fuel (l ++ [c]) (rs ++ [r]) /\
      Forall2 safe_answer l rs /\ final_answer c r /\ (legal J c -> right_answer c r).
  Proof.
    intros O OO J OB dd_hash hom_hash dd_sizes hom_size SD SH l c L Lc E.
    destruct (ending_ok O OO J OB dd_hash hom_hash dd_sizes (fun _ => hom_size) c Lc E) as (b & B). exists b. intros n fuel Hn Hf.
    destruct (new_session O dd_hash hom_hash dd_sizes hom_size n fuel (l ++ [c]) SD SH) as (st & St & Se).
    rewrite run_session_app in Se.
    destruct (possible_session O OO J OB dd_hash hom_hash dd_sizes (fun _ => hom_size) l L n fuel st (St J)) as [P1 P2].
    specialize (B n fuel Hn Hf _ P2). do 2 eexists. split; [exact Se|]. split; [exact P1|]. split; [exact B|].
    intros Le. destruct B as [B|B]; [exact B|]. destruct c as [l1|l1|x y|alarm o h x| |]; try contradiction.
    destruct B as [[t Ht] _]. destruct Le as (_ & _ & Q & _). rewrite Q in Ht. discriminate.
  Qed.

  (** The answer does not depend on what happened before: two sessions, with other caches, addresses and interruptions. *)
  Theorem C66_history : forall O O', oracle_ok O -> oracle_ok O' -> forall J, oblivious VI U F I US J ->
    forall dd_hash hom_hash dd_sizes hom_size dd_hash' hom_hash' dd_sizes' hom_size',
    (forall i, (2 <= dd_sizes i <= 2 ^ 63)%N) -> (2 <= hom_size <= 2 ^ 63)%N ->
    (forall i, (2 <= dd_sizes' i <= 2 ^ 63)%N) -> (2 <= hom_size' <= 2 ^ 63)%N ->
    forall l l' c, Forall (possible J) l -> Forall (possible J) l' -> legal J c -> uniform VI U F I c ->
    exists b, forall n fuel, b <= n -> b <= fuel ->
    exists rs rs' r, session O dd_hash hom_hash dd_sizes hom_size n fuel (l ++ [c]) (rs ++ [r]) /\
      session O' dd_hash' hom_hash' dd_sizes' hom_size' n fuel (l' ++ [c]) (rs' ++ [r]).
  Proof.
    intros O O' OO OO' J OB h1 h2 s1 s2 h1' h2' s1' s2' A1 A2 A1' A2' l l' c L L' Lc Un.
    assert (Pc : possible J c) by (destruct c; try exact Lc; destruct Lc as (H1 & H2 & _); split; auto).
    assert (Ec : ending c) by (destruct c; try exact Logic.I; now destruct Lc as (_ & _ & _ & H2)).
    destruct (C66_after O OO J OB h1 h2 s1 s2 A1 A2 l c L Pc Ec) as (b & B).
    destruct (C66_after O' OO' J OB h1' h2' s1' s2' A1' A2' l' c L' Pc Ec) as (b' & B').
    exists (Nat.max b b'). intros n fuel Hn Hf.
    destruct (B n fuel ltac:(lia) ltac:(lia)) as (rs & r & S & _ & _ & R).
    destruct (B' n fuel ltac:(lia) ltac:(lia)) as (rs' & r' & S' & _ & _ & R').
    rewrite (answers_fun VI PF U F I US c r' r Un (R' Lc) (R Lc)) in S'. eauto.
  Qed.

  (** ** One run *)

  Notation run O dd_hash hom_hash := (run_command VI PF O U F I US HP dd_hash hom_hash).
  (** An exception changes nothing else: from the same state, the application throws it, or runs exactly as if nothing could throw. *)
  Theorem C66_thrown : forall O dd_hash hom_hash n fuel alarm o h x st,
    fst (run O dd_hash hom_hash n fuel (SApply VI U F I alarm o h x) st) = Err EUser \/
    run O dd_hash hom_hash n fuel (SApply VI U F I alarm o h x) st =
    run O dd_hash hom_hash n fuel (SApply VI U F I (fun _ => false) o h x) st.
  Proof.
    intros O dd_hash hom_hash n fuel alarm o h x st. cbn [run_command].
    destruct (sim_apply VI PF O (caches (ddop V) sdd) (caches hop sdd) (dd_memo VI PF dd_hash) U F I US (f_apply US) (i_flat US) (i_hier US) (i_one US)
                alarm (fun _ => false) True) with (K := hom_memo VI PF U F I HP hom_hash) (n := n) (fuel := fuel) (o := o) (h := h) (x := x)
                (s := st) as [E|[_ E]].
    1-4: intros; intros s; unfold user_call; destruct (alarm (clock s)); auto.
    - right. assert (X : recode US (f_apply US) (i_flat US) (i_hier US) (i_one US) = US) by (now destruct US).
      rewrite X in E. unfold answer, mbind. now rewrite E.
    - left. rewrite answer_fst, E. reflexivity.
  Qed.
  (** An exception is never lost: when every call throws, the run does not depend on what the user's code would have returned. *)
  Theorem C66_not_lost : forall O dd_hash hom_hash n fuel alarm o h x st fa fl hi one, (forall t, alarm t = true) ->
    run O dd_hash hom_hash n fuel (SApply VI U F I alarm o h x) st =
    run_command VI PF O U F I (recode US fa fl hi one) HP dd_hash hom_hash n fuel (SApply VI U F I alarm o h x) st.
  Proof.
    intros O dd_hash hom_hash n fuel alarm o h x st fa fl hi one Al. cbn [run_command].
    destruct (sim_apply VI PF O (caches (ddop V) sdd) (caches hop sdd) (dd_memo VI PF dd_hash) U F I US fa fl hi one
                alarm alarm False) with (K := hom_memo VI PF U F I HP hom_hash) (n := n) (fuel := fuel) (o := o) (h := h) (x := x)
                (s := st) as [E|[[] _]].
    1-4: intros; intros s; unfold user_call; rewrite Al; auto.
    unfold answer, mbind. now rewrite E.
  Qed.
End InterruptProps.
Print Assumptions C66_safe.
Print Assumptions C66_after.
Print Assumptions C66_history.
Print Assumptions C66_thrown.
Print Assumptions C66_not_lost.

(** ** Example *)

(** A fixpoint that adds values forever, stopped by an exception; an application stopped at one of its calls and asked again. *)
Definition ex_forever : exhom := HFix (HSum [HId; HFun 2 (Fadd 1)]).
Definition ex_interrupted : list excommand :=
  [SApply _ _ _ _ (fun t => Nat.leb 30 t) exo ex_forever ex_two;
   SApply _ _ _ _ (fun _ => true) exo ex_moving_hom ex_two;
   SUnion _ _ _ _ [ex_two; ex_x];
   SApply _ _ _ _ (fun t => Nat.even t) two (two_l 0) two_x;
   SApply _ _ _ _ calm two (two_l 0) two_x].
Example C66_example :
  Forall (possible FS PF_up nat exfun exind ex_user (fun i => i = 0)) ex_interrupted /\
  possible FS PF_up nat exfun exind ex_user (fun i => i = 0) (SApply _ _ _ _ calm exo ex_moving_hom ex_two) /\
  ending FS PF_up nat exfun exind ex_user (SApply _ _ _ _ calm exo ex_moving_hom ex_two).
Proof.
  pose proof (fun x => proj2 (C65_usable FS FS_laws PF_up PF_up_ok x) exs) as Fi.
  assert (Ap : forall alarm, possible FS PF_up nat exfun exind ex_user (fun i => i = 0) (SApply FS nat exfun exind alarm exo ex_moving_hom ex_two)).
  { intros alarm. split; [unfold ex_moving_hom; constructor; constructor; intros h [<-|[<-|[<-|[<-|[]]]]]; repeat constructor|].
    exists exs, exs. split; [unfold exs; ty|split; [exact exo_shape|exact ex_two_fits]]. }
  assert (Tw : forall alarm, possible FS PF_up nat exfun exind ex_user (fun i => i = 0) (SApply FS nat exfun exind alarm two (two_l 0) two_x)).
  { intros alarm. split; [now repeat constructor|].
    exists twos, twos. split; [apply two_l_typed|split; [exact two_shape|exact two_fits]]. }
  split; [|split; [apply Ap|]].
  - repeat (apply Forall_cons || apply Forall_nil); auto.
    + split; [unfold ex_forever; constructor; constructor; intros h [<-|[<-|[]]]; repeat constructor|].
      exists exs, exs. split; [unfold ex_forever, exs; ty|split; [exact exo_shape|exact ex_two_fits]].
    + intros x [<-|[<-|[]]]; apply Fi; [exact ex_two_fits|exact ex_x_fits].
  - destruct (ask_spec exo ex_moving_hom ex_two (point 9 9 9 9) false) as (y & Ey & _); [vm_compute; reflexivity|]. cbn. eauto.
Qed.

(** 0: the bounds of the model; 1: thrown by the user; 2: top or undefined behaviour; otherwise the result. *)
Definition ex_outcomes (n fuel : nat) (l : list excommand) : list (N + list N) :=
  match make_cache (Op := ddop (vt FS)) (R := sdd (vt FS)) 2, make_cache (Op := hop FS nat exfun exind) (R := sdd (vt FS)) 2 with
  | Ok d, Ok h =>
      map (fun r => match r with
                    | Ok (Some y) => inr (enc enc_set y)
                    | Ok None => inr []
                    | Err EFuel => inl 0%N
                    | Err EUser => inl 1%N
                    | Err _ => inl 2%N
                    end)
        (fst (run_session FS PF_up ex_oracle nat exfun exind ex_user HP_up (fun _ => 7%N) (fun _ => 7%N) n fuel l
          (start (fun _ => d) (fun _ => h))))
  | _, _ => []
  end.
Definition ex_right (r : option (list N)) : N + list N := match r with Some l => inr l | None => inl 9%N end.
Example C66_run : ex_outcomes 20 20 (ex_interrupted ++ [SApply _ _ _ _ calm exo ex_moving_hom ex_two]) =
  [inl 1%N; inl 1%N; ex_right (ok_enc (api_sum FS PF_up [ex_two; ex_x])); inl 1%N;
   ex_right (ok_enc (moving_apply FS PF_up ex_oracle nat exfun exind ex_user 8 20 two (two_l 0) two_x));
   ex_right (moving_enc ex_oracle)] /\
  ex_outcomes 20 20 [SApply _ _ _ _ calm exo ex_forever ex_two] = [inl 0%N].
Proof. vm_compute. auto. Qed.
