(** * C45: the cache of homomorphisms ignores the order *)

From Coq Require Import List Bool NArith Arith Lia.
From Verif Require Import Base SortedSets Values Sdd SddFacts Orders OrdersProofs OrdersSdd DDModel.
From Verif Require Import OrdersProps DDGeneric DDProofs DDTheorems FlatSet Bitset Concrete.
From Verif Require Import Hom HomFacts HomEval HomTyped HomEqns HomConcrete HomProps HomCache.
From Verif Require Import Pow2 HashTable Cached Cache CacheProofs CacheTheorems CacheProps.
Import ListNotations.

Section HomCacheProps.
  Variable VI : values_impl.
  Hypothesis VL : values_laws VI.
  Variable PF : platform VI.
  Hypothesis PO : platform_ok PF.
  Variables U F I : Type.
  Notation V := (vt VI).
  Notation sdd := (sdd V).
  Notation hom := (hom V U F I).
  Variable US : user V U F I.
  Variable HP : hplatform V U F I.
  Hypothesis HPO : hplatform_ok HP.
  Notation order := (order U).
  Notation fits := (fits VI PF).
  Notation oshape := (oshape U).
  Notation typed := (typed VI PF U F I US).
  Notation evals := (evals VI PF U F I US).
  Notation hop := (hop VI U F I).

  (** What a cached evaluation is compared by: sdd/hom/evaluation.hh 117-123. The order is not there. *)
  Definition hkey (op : hop) : hom * sdd := let '(_, h, x) := op in (h, x).
  (** operator== of homomorphisms and SDDs compare addresses of unified nodes. *)
  Definition hkey_eqb (a b : hom * sdd) : bool :=
    hom_eqb VI U F I HP (fst a) (fst b) && sdd_eqb VI PF (snd a) (snd b).
  (** homomorphism_traits<T>::should_cache: sdd/hom/traits.hh 18, sdd/hom/cons.hh 83,
      sdd/hom/constant.hh 76. *)
  Definition should_cache (op : hop) : bool :=
    let '(_, h, _) := op in
    match h with HConsF _ _ _ | HConsH _ _ _ | HConst _ => false | _ => true end.

  Lemma hkey_eqb_spec a b : hkey_eqb a b = true <-> a = b.
  Proof.
    destruct a as [h x], b as [k y]. unfold hkey_eqb. cbn [fst snd].
    rewrite andb_true_iff, (sdd_eqb_spec VI PF PO). unfold hom_eqb.
    rewrite (equivb_spec (h_lt HP) (hp_lt HPO)). split; [intros [-> ->]; auto|intros H; injection H; auto].
  Qed.

  (** One evaluation h(o, x), or cache.clear(). *)
  Inductive hstep : Type :=
  | HApply (o : order) (h : hom) (x : sdd)
  | HClear.
  Definition hstep_cop (d : hstep) : cop (Op := hop) (R := sdd) (E := err V) :=
    match d with
    | HApply o h x => CRun (hcall VI U F I o h x)
    | HClear => CClear 0
    end.
  (** [through_cache n fuel hash size l rs]: [rs] are the results of the history [l] with a cache of
      the given size, empty at the beginning ([None] for a clear). *)
  Definition through_cache (n fuel : nat) (hash : hom * sdd -> N) (size : N) (l : list hstep)
      (rs : list (res (cerr (err V) herr) (option sdd))) : Prop :=
    exists c, make_cache size = Ok c /\
      fst (run_history (hom_body VI PF U F I US n) hkey hkey_eqb hash (fun _ => 0) should_cache fuel
             (map hstep_cop l) (fun _ => c)) = rs.

  (** [h(o, x)] is well-typed, has only inductive homomorphisms of [J] and, evaluated without cache,
      returns [y]. *)
  Definition plain_result (J : I -> Prop) (d : hstep) (r : res (cerr (err V) herr) (option sdd)) : Prop :=
    match d with
    | HApply o h x => exists y, r = Ok (Some y) /\ evals o h x y /\ only VI U F I J h /\
        exists s s', typed o h s' /\ oshape o s /\ fits s x
    | HClear => r = Ok None
    end.

  (** Whatever the orders used, the size of the cache and the values of hash(), the results are those
      of the evaluations without cache, provided that inductive homomorphisms only use the shape of the
      order. The bounds of the model are the only restriction on [n] and [fuel]. *)
  Theorem C45_history_partial : honest VI PF U F I US ->
    forall J, oblivious VI U F I US J ->
    forall hash size, (2 <= size <= 2 ^ 63)%N ->
    forall l rs, Forall2 (plain_result J) l rs ->
    exists b, forall n fuel, b <= n -> b <= fuel -> through_cache n fuel hash size l rs.
  Proof.
    intros HO J OB hash size SZ l rs H.
    assert (X : exists b, forall n fuel, b <= n -> b <= fuel ->
       Forall (legal_cop EFuel (hom_body VI PF U F I US n) (hgood VI PF U F I US J) fuel) (map hstep_cop l) /\
       map (expected EFuel (hom_body VI PF U F I US n) fuel) (map hstep_cop l) = rs).
    { induction H as [|d r l rs Hd H (b & IH)].
      - exists 0. intros n fuel _ _. split; [constructor|reflexivity].
      - destruct d as [o h x|].
        + destruct Hd as (y & -> & (n0 & fuel0 & E) & On & s & s' & T & O & Fx).
          exists (Nat.max b (Nat.max n0 fuel0)). intros n fuel Hn Hf.
          destruct (IH n fuel) as [IH1 IH2]; [lia|lia|].
          pose proof (happly_mono VI PF U F I US n0 n fuel0 fuel o h x y) as M.
          assert (M' : happly VI PF U F I US n fuel o h x = Ok y) by (apply M; auto; lia).
          assert (EX : interp (peval EFuel (hom_body VI PF U F I US n) fuel) (hcall VI U F I o h x) = Ok y).
          { rewrite <- M'. unfold happly, hcall. destruct (is_id VI U F I h || is_zero VI x); [reflexivity|].
            cbn. now rewrite peval_heval. }
          cbn [map hstep_cop expected]. rewrite EX, IH2. split; [|reflexivity].
          constructor; [|exact IH1]. cbn [legal_cop]. rewrite EX. split; [discriminate|].
          intros op C. unfold hcall in C.
          destruct (is_id VI U F I h) eqn:E1; cbn [orb] in C; [inversion C|].
          destruct (is_zero VI x) eqn:E2; [inversion C|].
          inversion C as [? ? A1|? ? ? ? ? C']; subst; [|inversion C'].
          split; [intros ->; discriminate|]. split; [intros ->; discriminate|]. split; [auto|]. exists s, s'. auto.
        + cbn in Hd. subst r. exists b. intros n fuel Hn Hf. destruct (IH n fuel Hn Hf) as [IH1 IH2].
          cbn [map hstep_cop expected]. rewrite IH2. split; [|reflexivity]. constructor; [exact Logic.I|exact IH1]. }
    destruct X as (b & X). exists b. intros n fuel Hn Hf. destruct (X n fuel Hn Hf) as [X1 X2].
    destruct (make_cache (Op := hop) (R := sdd) size) as [c|e] eqn:Ec.
    2:{ destruct (new_exists (EFuel (V := V)) (hom_body VI PF U F I US n) hkey hash (fun _ => 0) should_cache (fun _ => True)
                    (fun _ => size) (fun _ => SZ)) as (s & Hs).
        specialize (Hs 0). cbn in Hs. congruence. }
    exists c. split; [auto|].
    destruct (C18_transparent hop (hom * sdd) sdd (err V) EFuel (efuel_dec VI) (hom_body VI PF U F I US n) hkey hkey_eqb
                hash hkey_eqb_spec (fun _ => 0) should_cache (hgood VI PF U F I US J)) with
      (sizes := fun _ : nat => size) (fuel := fuel) (h := map hstep_cop l) (s := fun _ : nat => c) as (s' & R).
    - intros m op op' G C. exact (hgood_calls VI VL PF PO U F I US HO J OB n m op op' G C).
    - intros [[o h] x] [[o' h'] x'] _ K G G' m. cbn in K. injection K as <- <-.
      apply (hgood_eval VI VL PF PO U F I US HO J OB); auto.
    - intros _. exact SZ.
    - intros i. exact Ec.
    - exact X1.
    - rewrite R, X2. reflexivity.
  Qed.

  (** Without cache too, the result depends on the shape of the order only. *)
  Theorem C45_order_partial : honest VI PF U F I US ->
    forall J, oblivious VI U F I US J ->
    forall o o' h s s' x y, typed o h s' -> oshape o s -> oshape o' s -> only VI U F I J h -> fits s x ->
    (evals o h x y <-> evals o' h x y).
  Proof. intros HO J OB o o' h s s' x y. apply (evals_same_shape VI VL PF PO U F I US HO J OB). Qed.
End HomCacheProps.
Print Assumptions C45_history_partial.
Print Assumptions C45_order_partial.

(** ** Examples: two hierarchies with the same variables, 7 { 1 }, 8 { 5 } *)

Definition twob : builder nat := BNode (user_id 7) (b_of_list [1]) (BNode (user_id 8) (b_of_list [5]) BNil).
Definition two : order nat := Eval vm_compute in order_of Nat.eqb twob.
Definition twos : shape := Eval vm_compute in shape_of nat twob.
Lemma two_built : mk_order nat Nat.eqb twob = Ok two.
Proof. reflexivity. Qed.
Lemma two_shape : oshape nat two twos.
Proof. exact (sees_oshape nat twob two 0 [] (sees_whole nat Nat.eqb twob)). Qed.
Definition leaf (a : list N) : sdd (vt FS) := node_flat FS PF_up 0 (fs a) One.
Definition two_x : sdd (vt FS) := node_hier FS PF_up 1 (leaf [3; 4]%N) (node_hier FS PF_up 0 (leaf [3; 4]%N) One).
Lemma two_fits : fits FS PF_up twos two_x.
Proof.
  split; unfold two_x, leaf.
  - repeat (apply node_flat_canonical || apply node_hier_canonical || constructor).
  - repeat (apply node_flat_follows || apply node_hier_follows || constructor).
Qed.
Definition two_p : asg N := ANest 1 (AVal 0 3%N ANil) (ANest 0 (AVal 0 4%N ANil) ANil).

(** The inductive homomorphism 0 of the example uses the order in its Cons only. *)
Lemma ex_oblivious : oblivious FS nat exfun exind ex_user (fun i => i = 0).
Proof.
  intros i o o' -> (s & O & O') E. split.
  { cbn [hskip]. destruct (o_identifier o), (o_identifier o'); reflexivity. }
  assert (X : osame_next nat o o').
  { destruct (oshape_inv _ _ _ O) as [[X _]|(_ & l1 & o2 & r & L1 & -> & O2)]; [congruence|].
    destruct (oshape_inv _ _ _ O') as [[_ X]|(_ & l2 & o3 & r' & L2 & Es & O3)].
    { destruct l1; discriminate. }
    apply under_inj in Es. destruct Es as [<- <-]. destruct L1 as (V1 & N1 & _), L2 as (V2 & N2 & _).
    split; [congruence|]. exists o2, o3. split; [auto|split; [auto|]]. exists r. auto. }
  split; intros v; cbn [i_flat i_hier ex_user]; constructor; auto; now constructor.
Qed.

Lemma ex_ind_typed o s : oshape nat o s -> forall i, typed FS PF_up nat exfun exind ex_user o (HInd i) s.
Proof.
  induction 1 as [o E|o x o' on r A B C D O IH|o x o' on n r A B C D On IHn O IH]; intros i.
  - apply T_ind_end; auto. cbn. split; constructor.
  - assert (L : olevel nat o (LFlat x) o') by (split; [auto|split; [auto|exists on; auto]]).
    eapply T_ind_flat; [exact L| |].
    { cbn [hskip]. destruct (o_identifier o); reflexivity. }
    intros v Hv. cbn [i_flat ex_user].
    assert (X : typed FS PF_up nat exfun exind ex_user o' (HConsF o v (HInd 0)) (SFlat x r))
      by (apply (T_consF _ _ _ _ _ _ o' r o x o'); auto).
    assert (Y : typed FS PF_up nat exfun exind ex_user o' (HConst Zero) (SFlat x r))
      by (apply (T_const _ _ _ _ _ _ o' r); auto; apply fits_zero).
    destruct i; [exact X|]. destruct (o_identifier o) as [id|]; [|exact Y]. destruct (usr id =? 1); auto.
  - assert (L : olevel nat o (LHier x n) o') by (split; [auto|split; [auto|exists on; auto]]).
    eapply T_ind_hier; [exact L| |].
    { cbn [hskip]. destruct (o_identifier o); reflexivity. }
    intros v Hv Nz. cbn [i_hier ex_user]. apply (T_consH FS PF_up nat exfun exind ex_user o' r o x o'); auto.
Qed.

Definition two_l (i : exind) : exhom := HLocal 1 (HInd i).
Definition two_r (i : exind) : exhom := HLocal 0 (HInd i).
Lemma two_l_typed i : typed FS PF_up nat exfun exind ex_user two (two_l i) twos.
Proof.
  unfold two_l. eapply (T_local_here _ _ _ _ _ _ two 1 _ _ _); [lv|reflexivity|sh|]. apply ex_ind_typed. sh.
Qed.
Lemma two_r_typed i : typed FS PF_up nat exfun exind ex_user two (two_r i) twos.
Proof.
  unfold two_r. apply (ty_local_next ex_user two (LHier 1 (SFlat 0 SEnd))
    (match o_next two with Some o => o | None => two end) 0 _ _ (SHier 0 (SFlat 0 SEnd) SEnd)).
  - lv.
  - discriminate.
  - reflexivity.
  - eapply T_local_here; [lv|reflexivity|sh|]. apply ex_ind_typed. sh.
Qed.

(** Reading one result of a history. *)
Definition ask_cache (l : list (hstep FS nat exfun exind)) (i : nat) (p : asg N) : option bool :=
  match make_cache (Op := hop FS nat exfun exind) (R := sdd (vt FS)) 64 with
  | Ok c =>
    match nth_error (fst (run_history (hom_body FS PF_up nat exfun exind ex_user 20) (hkey FS nat exfun exind)
      (hkey_eqb FS PF_up nat exfun exind HP_up) (fun _ => 7%N) (fun _ => 0) (should_cache FS nat exfun exind) 20
             (map (hstep_cop FS nat exfun exind) l) (fun _ => c))) i with
    | Some (Ok (Some y)) => Some (contains (VI := FS) y p)
    | _ => None
    end
  | Err _ => None
  end.

Lemma ask_cache_spec o h x p b : ask_cache [HApply FS nat exfun exind o h x] 0 p = Some b ->
  exists z, through_cache FS PF_up nat exfun exind ex_user HP_up 20 20 (fun _ => 7%N) 64
    [HApply FS nat exfun exind o h x] [Ok (Some z)] /\ contains (VI := FS) z p = b.
Proof.
  unfold ask_cache, through_cache. intros A.
  destruct (make_cache (Op := hop FS nat exfun exind) (R := sdd (vt FS)) 64) as [c|]; [|discriminate].
  cbn [map hstep_cop run_history] in *.
  match type of A with context [exec ?a ?b ?d] => destruct (exec a b d) as [r s'] eqn:Ex end.
  cbn [fst nth_error] in *. destruct r as [z|]; [|discriminate]. injection A as A.
  exists z. split; [|exact A]. exists c. split; [auto|]. now rewrite Ex.
Qed.

(** In a single evaluation and a single order, the results for the nested order { 1 } are used for the
    nested order { 5 }: the homomorphism "at the top of hierarchies 7 and 8, stop unless the first
    variable is 1" keeps everything, whereas its evaluation without cache gives |0|. *)
Theorem C45_history_refuted : exists o h x s, (exists b, mk_order nat Nat.eqb b = Ok o) /\ oshape nat o s /\
  (exists l r, composition FS nat exfun exind l r = Ok h) /\
  typed FS PF_up nat exfun exind ex_user o h s /\ fits FS PF_up s x /\ honest FS PF_up nat exfun exind ex_user /\
  exists y z p, evals FS PF_up nat exfun exind ex_user o h x y /\ contains (VI := FS) y p = false /\
  through_cache FS PF_up nat exfun exind ex_user HP_up 20 20 (fun _ => 7%N) 64
    [HApply FS nat exfun exind o h x] [Ok (Some z)] /\ contains (VI := FS) z p = true.
Proof.
  exists two, (HComp (two_r 1) (two_l 1)), two_x, twos.
  split; [exists twob; exact two_built|]. split; [exact two_shape|].
  split; [exists (two_r 1), (two_l 1); reflexivity|].
  split; [apply (T_comp _ _ _ _ _ _ two _ _ twos); [exact two_shape|apply two_l_typed|apply two_r_typed]|].
  split; [exact two_fits|]. split; [exact ex_honest|].
  destruct (ask_spec two (HComp (two_r 1) (two_l 1)) two_x two_p false) as (y & Ey & Cy).
  { vm_compute. reflexivity. }
  assert (A : ask_cache [HApply FS nat exfun exind two (HComp (two_r 1) (two_l 1)) two_x] 0 two_p = Some true).
  { vm_compute. reflexivity. }
  apply ask_cache_spec in A. destruct A as (z & R & A). exists y, z, two_p. auto.
Qed.
Print Assumptions C45_history_refuted.

(** The hypotheses of C45_history_partial are met, with inductive homomorphisms in two orders. *)
Example C45_example : exists rs,
  Forall2 (plain_result FS PF_up nat exfun exind ex_user (fun i => i = 0))
    [HApply FS nat exfun exind two (two_l 0) two_x; HApply FS nat exfun exind two (two_r 0) two_x;
     HClear FS nat exfun exind; HApply FS nat exfun exind exo ex_h2 ex_x] rs /\
  exists b, forall n fuel, b <= n -> b <= fuel ->
    through_cache FS PF_up nat exfun exind ex_user HP_up n fuel (fun _ => 7%N) 2
      [HApply FS nat exfun exind two (two_l 0) two_x; HApply FS nat exfun exind two (two_r 0) two_x;
       HClear FS nat exfun exind; HApply FS nat exfun exind exo ex_h2 ex_x] rs.
Proof.
  destruct (ask_spec two (two_l 0) two_x two_p true) as (y1 & E1 & _); [vm_compute; reflexivity|].
  destruct (ask_spec two (two_r 0) two_x two_p true) as (y2 & E2 & _); [vm_compute; reflexivity|].
  destruct (ask_spec exo ex_h2 ex_x (point 0 4 5 6) true) as (y3 & E3 & _); [vm_compute; reflexivity|].
  exists [Ok (Some y1); Ok (Some y2); Ok None; Ok (Some y3)].
  match goal with |- ?A /\ _ => assert (X : A) end.
  { repeat constructor.
    - exists y1. split; [auto|split; [auto|split; [now repeat constructor|]]]. exists twos, twos.
      split; [apply two_l_typed|split; [exact two_shape|exact two_fits]].
    - exists y2. split; [auto|split; [auto|split; [now repeat constructor|]]]. exists twos, twos.
      split; [apply two_r_typed|split; [exact two_shape|exact two_fits]].
    - exists y3. split; [auto|split; [auto|split; [now repeat constructor|]]]. exists exs, exs.
      split; [exact ex_h2_typed|split; [exact exo_shape|exact ex_x_fits]]. }
  split; [exact X|].
  apply (C45_history_partial FS FS_laws PF_up PF_up_ok nat exfun exind ex_user HP_up HP_up_ok ex_honest
           (fun i => i = 0) ex_oblivious); auto. lia.
Qed.
