(** * Cost of operations through caches (C73) *)

From Coq Require Import List Bool NArith Arith Lia Permutation Sorted.
From Verif Require Import Base Pow2 HashTable Cached Cache CacheProofs CacheTheorems CacheProps StatsProps.
From Verif Require Import SortedSets Values Sdd SddFacts DDModel DDProofs FlatSet Concrete Spec DDTheorems DDProps Tools ToolsProofs Rows.
Import ListNotations.

(** ** Any operations *)

Section Once.
  Context {Op K R E : Type}.
  Variable efuel : E.
  Hypothesis efuel_dec : forall e : E, {e = efuel} + {e <> efuel}.
  Variable body : Op -> prog Op R E R.
  Variable key : Op -> K.
  Variable keq : K -> K -> bool.
  Hypothesis keq_spec : forall a b, keq a b = true <-> a = b.
  Variable kind : Op -> nat.
  Variable accept : Op -> bool.
  Variable good : Op -> Prop.
  Hypothesis good_calls : forall n op op', good op -> calls (peval efuel body n) (body op) op' -> good op'.
  Hypothesis same_eval : forall a b, kind a = kind b -> key a = key b -> good a -> good b ->
    forall n, peval efuel body n a = peval efuel body n b.
  Variable i : nat.
  Variable L : list Op.                       (* the operations that may use the cache [i] *)
  Hypothesis L_all : forall op, good op -> kind op = i -> In op L.

  Notation linv := (linv efuel body key kind accept good).
  Notation lhas := (lhas kind).
  Definition kinv (a : lru_caches Op R) : Prop :=
    linv a /\ (N.of_nat (length L) <= capacity (a i))%N /\ l_discarded (a i) = 0%N.

  Lemma k_entries a : linv a -> length (entries (a i)) <= length L.
  Proof.
    intros I. destruct (I i) as (_ & _ & _ & ND & H).
    rewrite <- (map_length fst (entries (a i))). apply NoDup_incl_length.
    - clear - ND. induction (entries (a i)) as [|e l IH]; cbn [map] in *; [constructor|]. inversion ND as [|? ? N1 N2]; subst.
      constructor; auto. intros X. apply N1. apply in_map_iff in X. destruct X as (e' & X1 & X2). apply in_map_iff.
      exists e'. split; auto. now rewrite X1.
    - intros o Ho. apply in_map_iff in Ho. destruct Ho as ([o' r] & <- & Ho). destruct (H o' r Ho) as (V1 & V2 & _).
      cbn [fst]. now apply L_all.
  Qed.

  Lemma k_run fuel p a : kinv a -> (forall op, calls (peval efuel body fuel) p op -> good op) ->
    interp (peval efuel body fuel) p <> Err efuel ->
    kinv (snd (exec (lookup (H := herr) body accept (l_note_filtered kind) (l_find_op key keq kind) (l_store_op key keq kind) fuel) p a)).
  Proof.
    intros I0 G T.
    assert (SE : forall a b, kind a = kind b /\ key a = key b -> good a -> good b -> forall n, peval efuel body n a = peval efuel body n b).
    { intros x b [H1 H2]. now apply same_eval. }
    set (sm := fun a b : Op => kind a = kind b /\ key a = key b).
    assert (X1 : forall op s, kinv s -> kinv (l_note_filtered kind op s) /\
      (forall o, lhas (l_note_filtered kind op s) o <-> lhas s o)).
    { intros op s (J1 & J2 & J3).
      destruct (l_filtered_ok efuel body key kind accept good op s J1) as [J4 J5]. split; auto. split; auto.
      unfold l_note_filtered, l_set. destruct (Nat.eqb i (kind op)) eqn:Q; auto.
      apply Nat.eqb_eq in Q. rewrite Q in J2, J3. cbn. auto. }
    assert (X2 : forall op s, kinv s -> good op -> accept op = true -> exists r s', l_find_op key keq kind op s = Ok (r, 0%N, s') /\
      kinv s' /\ (forall o, lhas s' o <-> lhas s o) /\
      match r with
      | Some v => stored sm lhas s op /\ exists n, peval efuel body n op = Ok v
      | None => ~ stored sm lhas s op
      end).
    { intros op s (J1 & J2 & J3) Go Ac.
      destruct (l_find_ok efuel body key keq keq_spec kind accept good same_eval op s J1 Go Ac) as (r & s' & Q1 & Q2 & Q3 & Q4).
      exists r, s'. split; auto. split; [|split; auto]. split; auto.
      unfold l_find_op in Q1. injection Q1 as _ <-. unfold l_set. destruct (Nat.eqb i (kind op)) eqn:Q; auto.
      apply Nat.eqb_eq in Q. rewrite Q in J2, J3. unfold l_find. destruct (find _ _); cbn; auto. }
    assert (X3 : forall op v n s, kinv s -> good op -> accept op = true -> ~ stored sm lhas s op -> peval efuel body n op = Ok v ->
      exists s', l_store_op key keq kind op v 0 s = Ok s' /\ kinv s' /\ (forall o, lhas s' o -> lhas s o \/ o = op)).
    { intros op v n s (J1 & J2 & J3) Go Ac Ns Ev.
      destruct (l_store_ok efuel body key keq keq_spec kind accept good op v n s J1 Go Ac Ns Ev) as (s' & Q1 & Q2 & Q3).
      exists s'. split; auto. split; auto. split; auto. unfold l_store_op, l_store in Q1.
      destruct (existsb _ _); [discriminate|].
      destruct (N.eqb_spec (N.of_nat (length (entries (s (kind op))))) (capacity (s (kind op)))) as [Ef|Ef]; cbn [rbind] in Q1;
        injection Q1 as <-; unfold l_set; destruct (Nat.eqb i (kind op)) eqn:Q; auto; apply Nat.eqb_eq in Q; cbn [capacity l_discarded];
        try rewrite <- Q; auto.
      (* the cache is full of operations of [L], different from [op] *)
      exfalso. rewrite <- Q in Ef.
      assert (ND : NoDup (op :: map fst (entries (s i)))).
      { destruct (J1 i) as (_ & _ & _ & ND & H). constructor.
        - intros Hin. apply in_map_iff in Hin. destruct Hin as ([o r] & <- & Ho). apply Ns. exists o. split; [|split; reflexivity].
          exists r. cbn [fst] in Q. now rewrite <- Q.
        - clear - ND. induction (entries (s i)) as [|e l IH]; cbn [map] in *; [constructor|]. inversion ND as [|? ? N1 N2]; subst.
          constructor; auto. intros X. apply N1. apply in_map_iff in X. destruct X as (e' & X1 & X2). apply in_map_iff.
          exists e'. split; auto. now rewrite X1. }
      apply (NoDup_incl_length (l' := L)) in ND.
      - cbn [length] in ND. rewrite map_length in ND. lia.
      - intros o [<-|Ho]; [now apply L_all|]. apply in_map_iff in Ho. destruct Ho as ([o' r] & <- & Ho).
        destruct (J1 i) as (_ & _ & _ & _ & H). destruct (H o' r Ho) as (V1 & V2 & _). cbn [fst]. now apply L_all. }
    assert (X4 : forall s o, kinv s -> lhas s o -> good o).
    { intros s o (J1 & _). now apply (l_has_good efuel body key kind accept good). }
    pose proof (lookup_ok efuel efuel_dec body accept (l_note_filtered kind) (l_find_op key keq kind)
      (l_store_op key keq kind) sm good good_calls SE kinv lhas X1 (fun _ => 0%N) X2 X3 X4 fuel) as LO.
    destruct (exec_correct efuel body accept (l_note_filtered kind) (l_find_op key keq kind)
      (l_store_op key keq kind) good kinv lhas fuel fuel LO (le_n _) p a I0 G T) as (a' & E1 & I1 & _). now rewrite E1.
  Qed.
  Lemma k_runs fuel : forall h a, kinv a -> Forall (fun p => legal_cop efuel body good fuel (CRun p)) h ->
    kinv (lru_progs body key keq kind accept h fuel a).
  Proof.
    induction h as [|p h IH]; intros a I H; cbn [lru_progs]; auto. inversion H as [|? ? [H1 H2] H3]; subst.
    apply IH; auto. now apply k_run.
  Qed.
End Once.

(** If the cache [i] is large enough for the operations [L], the only ones that may use it, no entry is ever discarded
    and, when the evaluations of the history succeed, every operation is evaluated at most once. *)
Theorem C73_once : forall (Op K R E : Type) (efuel : E), (forall e : E, {e = efuel} + {e <> efuel}) ->
  forall (body : Op -> prog Op R E R) (key : Op -> K) keq (hash : K -> N),
  (forall a b, keq a b = true <-> a = b) ->
  forall (kind : Op -> nat) (accept : Op -> bool) (good : Op -> Prop),
  (forall n op op', good op -> calls (peval efuel body n) (body op) op' -> good op') ->
  (forall a b, kind a = kind b -> key a = key b -> good a -> good b -> forall n, peval efuel body n a = peval efuel body n b) ->
  forall (sizes : nat -> N), (forall i, (2 <= sizes i <= 2 ^ 63)%N) ->
  forall fuel h s, new_caches sizes s -> Forall (fun p => legal_cop efuel body good fuel (CRun p)) h ->
  forall i L, (forall op, good op -> kind op = i -> In op L) ->
  (N.of_nat (length L) <= max_load (next_power_of_2_64 (sizes i)))%N ->
  let c := run_progs body key keq hash kind accept h fuel s i in
  discarded c = 0%N /\
  (Forall (fun p => exists r, interp (peval efuel body fuel) p = Ok r) h -> (misses c <= N.of_nat (length L))%N).
Proof.
  intros Op K R E efuel ED body key keq hash KS kind accept good GC SE sizes SZ fuel h s HN HL i L LA LC. cbv zeta.
  pose proof (C19_lru Op K R E efuel ED body key keq hash KS kind accept good GC SE sizes SZ fuel h s HN HL i) as H.
  cbv zeta in H. destruct H as (H1 & H2 & H3 & H4 & H5 & H6 & H7).
  destruct (new_rel efuel body key hash kind accept good sizes SZ s HN) as [R0 I0]. unfold NB in *.
  assert (K0 : kinv efuel body key kind accept good i L (fun i => l_empty (max_load (next_power_of_2_64 (sizes i))))).
  { split; [exact I0|]. cbn. auto. }
  destruct (k_runs efuel ED body key keq KS kind accept good GC SE i L LA fuel h _ K0 HL) as (K1 & K2 & K3).
  split; [rewrite H7; exact K3|]. intros Hh.
  destruct (C61_cache Op K R E efuel ED body key keq hash KS kind accept good GC SE sizes SZ fuel h s HN HL i) as (_ & Q & _).
  specialize (Q Hh). rewrite <- Q, H7, K3, H2. rewrite N.add_0_r.
  pose proof (k_entries efuel body key kind accept good i L LA _ K1). lia.
Qed.
Print Assumptions C73_once.

(** ** Union, intersection and difference of flat diagrams *)

Lemma filter_le {A} (f : A -> bool) l : length (filter f l) <= length l.
Proof. induction l as [|a l IH]; cbn [filter length]; auto. destruct (f a); cbn [length]; lia. Qed.

(** What a computation may ask, whatever the answers. *)
Fixpoint asks {Op R E A : Type} (P : Op -> Prop) (Q : A -> Prop) (p : prog Op R E A) : Prop :=
  match p with
  | Ret a => Q a
  | Throw _ => True
  | Call op k => P op /\ forall r, asks P Q (k r)
  end.
Lemma asks_bind {Op R E A B} (P : Op -> Prop) (Q : A -> Prop) (Q' : B -> Prop) (p : prog Op R E A) f :
  asks P Q p -> (forall a, Q a -> asks P Q' (f a)) -> asks P Q' (bind p f).
Proof.
  intros H Hf. induction p as [a|e|op k IH]; cbn [asks bind] in *; auto. destruct H as [H1 H2]. split; auto.
Qed.
Lemma asks_weaken {Op R E A} (P P' : Op -> Prop) (Q Q' : A -> Prop) (p : prog Op R E A) :
  (forall o, P o -> P' o) -> (forall a, Q a -> Q' a) -> asks P Q p -> asks P' Q' p.
Proof. intros HP HQ. induction p as [a|e|op k IH]; cbn [asks]; auto. intros [H1 H2]. split; auto. Qed.
Lemma asks_calls {Op R E} (h : Op -> res E R) P Q (p : prog Op R E R) op : calls h p op -> asks P Q p -> P op.
Proof. intros C. induction C as [op k|op k r op' Hr C IH]; cbn [asks]; intros [H1 H2]; auto. Qed.

Section Flat.
  Variable VI : values_impl.
  Variable VL : values_laws VI.
  Variable PF : platform VI.
  Variable PO : platform_ok PF.
  Notation V := (vt VI).
  Notation sdd := (sdd V).
  Notation lt := (addr_lt PF).
  Notation any := (fun _ => True).

  (** The pair of two different diagrams, in the order of addresses. *)
  Definition pair_of (a b : sdd) : list sdd := if lt a b then [a; b] else [b; a].
  Lemma pair_sym a b : pair_of a b = pair_of b a \/ a = b.
  Proof.
    unfold pair_of. destruct (lt a b) eqn:X; destruct (lt b a) eqn:Y; auto.
    - rewrite (lt_asym lt (pf_lt PO) _ _ X) in Y. discriminate.
    - right. now apply (st_total (pf_lt PO)).
  Qed.
  Lemma pair_elems a b : forall p q, pair_of a b = [p; q] -> (p = a /\ q = b) \/ (p = b /\ q = a).
  Proof. intros p q. unfold pair_of. destruct (lt a b); intros H; injection H as <- <-; auto. Qed.

  (** Two operands in a builder. *)
  Lemma two_added a b : is_zero VI a = false -> is_zero VI b = false -> a <> b ->
    sdd_sb_add VI PF b (sdd_sb_add VI PF a []) = pair_of a b.
  Proof.
    intros Za Zb Hn. unfold sdd_sb_add, sb_add. rewrite Za, Zb. cbn [fs_insert]. unfold pair_of.
    destruct (lt b a) eqn:X.
    - destruct (lt a b) eqn:Y; auto. rewrite (lt_asym lt (pf_lt PO) _ _ X) in Y. discriminate.
    - destruct (lt a b) eqn:Y; auto. exfalso. apply Hn. now apply (st_total (pf_lt PO)).
  Qed.
  Lemma same_added a : sdd_sb_add VI PF a (sdd_sb_add VI PF a []) = sdd_sb_add VI PF a [].
  Proof.
    unfold sdd_sb_add, sb_add. destruct (is_zero VI a); auto. cbn [fs_insert]. now rewrite (st_irrefl (pf_lt PO)).
  Qed.
  (** Sorted lists of at most two diagrams. *)
  Lemma sorted_pair b s t : ssorted lt b -> (forall z, In z b -> z = s \/ z = t) ->
    b = [] \/ (exists z, b = [z]) \/ (s <> t /\ b = pair_of s t).
  Proof.
    intros SS HI. destruct b as [|x [|y r]]; eauto. right. right.
    assert (Hxy : lt x y = true) by (inversion SS as [|? ? _ F]; subst; now inversion F).
    assert (Hne : x <> y) by (intros ->; rewrite (st_irrefl (pf_lt PO)) in Hxy; discriminate).
    assert (ND : NoDup (x :: y :: r)) by (now apply (ssorted_nodup lt (pf_lt PO))).
    assert (Hr : r = []).
    { destruct r as [|z r]; auto. exfalso. inversion ND as [|? ? N1 N2]; subst. inversion N2 as [|? ? N3 _]; subst.
      destruct (HI x) as [Ex|Ex], (HI y) as [Ey|Ey], (HI z) as [Ez|Ez]; cbn; auto; subst; try congruence;
        try (apply N1; cbn; auto; fail); try (apply N3; cbn; auto; fail). }
    subst r. destruct (HI x) as [Ex|Ex], (HI y) as [Ey|Ey]; cbn; auto; try congruence; subst x y.
    - split; auto. unfold pair_of. now rewrite Hxy.
    - split; [congruence|]. unfold pair_of. now rewrite (lt_asym lt (pf_lt PO) _ _ Hxy).
  Qed.

  (** *** What one evaluation asks *)

  Definition asked (mk : list sdd -> ddop V) (la ra : list (V * sdd)) (op : ddop V) : Prop :=
    exists v s w t, In (v, s) la /\ In (w, t) ra /\ s <> t /\ op = mk (pair_of s t).

  Lemma inter_asks v s w t la ra : In (v, s) la -> In (w, t) ra ->
    asks (asked OpInter la ra) any (vo_inter (hier_ops VI PF) s t).
  Proof.
    intros Hs Ht. cbn [vo_inter hier_ops]. unfold dd_intersection, sdd_ib_add, ib_add. cbn [fst snd].
    destruct (is_zero VI s) eqn:Zs; cbn [fst snd]; [cbn; auto|]. destruct (is_zero VI t) eqn:Zt; cbn [fst snd]; [cbn; auto|].
    cbn [fs_insert]. destruct (lt t s) eqn:X; [|destruct (lt s t) eqn:Y]; cbn [snd call asks]; auto.
    - split; auto. exists v, s, w, t. repeat split; auto.
      + intros ->. rewrite (st_irrefl (pf_lt PO)) in X. discriminate.
      + unfold pair_of. now rewrite (lt_asym lt (pf_lt PO) _ _ X).
    - split; auto. exists v, s, w, t. repeat split; auto.
      + intros ->. rewrite (st_irrefl (pf_lt PO)) in Y. discriminate.
      + unfold pair_of. now rewrite Y.
  Qed.
  Lemma su_add_asks P s v m : asks P any (su_add VI PF (flat_ops VI PF) s v m).
  Proof. unfold su_add. destruct (_ || _); cbn; auto. Qed.
  Lemma su_run_asks P : forall m alpha, asks P any (su_run VI PF (flat_ops VI PF) m alpha).
  Proof. induction m as [|[s b] m IH]; intros alpha; cbn [su_run vo_sum flat_ops bind asks]; auto. Qed.
  Lemma inter_rhs_asks la ra v s : In (v, s) la -> forall r m, incl r ra ->
    asks (asked OpInter la ra) any (inter_rhs VI PF (flat_ops VI PF) v s r m).
  Proof.
    intros Hs. induction r as [|[w t] r IH]; intros m Hr; [cbn; auto|].
    cbn [inter_rhs]. cbn [vo_inter flat_ops bind].
    assert (Hr' : incl r ra) by (intros z Hz; apply Hr; now right). cbn [vo_empty flat_ops].
    destruct (negb _); auto. eapply asks_bind; [eapply inter_asks; [exact Hs|apply Hr; left; reflexivity]|].
    intros s' _. destruct (negb (is_zero VI s')); auto.
    eapply asks_bind; [apply su_add_asks|]. intros m' _. auto.
  Qed.
  Lemma inter_lhs_asks la ra : forall l m, incl l la ->
    asks (asked OpInter la ra) any (inter_lhs VI PF (flat_ops VI PF) l ra m).
  Proof.
    induction l as [|[v s] l IH]; intros m Hl; [cbn; auto|]. cbn [inter_lhs].
    eapply asks_bind; [apply inter_rhs_asks; [apply Hl; left; reflexivity|apply incl_refl]|].
    intros m' _. apply IH. intros z Hz. apply Hl. now right.
  Qed.
  Lemma inter_body_asks x y la ra :
    asks (asked OpInter la ra) any (inter_body VI PF [Flat x la; Flat y ra]).
  Proof.
    cbn [inter_body inter_work cast_flat inter_operands check_compatibility].
    eapply asks_bind with (Q := any); [destruct (N.eqb x y); cbn; auto|]. intros _ _.
    eapply asks_bind; [apply inter_lhs_asks, incl_refl|]. intros m _. destruct m as [|e m]; [cbn; auto|].
    eapply asks_bind; [apply su_run_asks|]. intros alpha _. cbn; auto.
  Qed.

  Definition asked_diff (la ra : list (V * sdd)) (op : ddop V) : Prop :=
    exists v s w t, In (v, s) la /\ In (w, t) ra /\ s <> t /\ op = OpDiff s t.
  Lemma diff_pass1_asks P u : forall l m, asks P any (diff_pass1 VI PF (flat_ops VI PF) u l m).
  Proof.
    induction l as [|[v s] l IH]; intros m; [cbn; auto|]. cbn [diff_pass1]. cbn [vo_diff flat_ops bind].
    destruct (negb _); auto. eapply asks_bind; [apply su_add_asks|]. intros m' _. auto.
  Qed.
  Lemma difference_asks v s w t la ra : In (v, s) la -> In (w, t) ra ->
    asks (asked_diff la ra) any (dd_difference VI PF s t).
  Proof.
    intros Hs Ht. unfold dd_difference. destruct (sdd_eqb VI PF s t) eqn:X; cbn [orb]; [cbn; auto|].
    destruct (is_zero VI s); [cbn; auto|]. destruct (is_zero VI t); cbn; auto. split; auto.
    exists v, s, w, t. repeat split; auto. intros ->. assert (Y : sdd_eqb VI PF t t = true) by (now apply (sdd_eqb_spec VI PF PO)). congruence.
  Qed.
  Lemma diff_rhs_asks la ra v s : In (v, s) la -> forall r m, incl r ra ->
    asks (asked_diff la ra) any (diff_rhs VI PF (flat_ops VI PF) v s r m).
  Proof.
    intros Hs. induction r as [|[w t] r IH]; intros m Hr; [cbn; auto|].
    cbn [diff_rhs]. cbn [vo_inter flat_ops bind].
    assert (Hr' : incl r ra) by (intros z Hz; apply Hr; now right).
    destruct (negb _); auto. eapply asks_bind; [eapply difference_asks; [exact Hs|apply Hr; left; reflexivity]|].
    intros s' _. destruct (negb (is_zero VI s')); auto.
    eapply asks_bind; [apply su_add_asks|]. intros m' _. auto.
  Qed.
  Lemma diff_pass2_asks la ra : forall l m, incl l la ->
    asks (asked_diff la ra) any (diff_pass2 VI PF (flat_ops VI PF) l ra m).
  Proof.
    induction l as [|[v s] l IH]; intros m Hl; [cbn; auto|]. cbn [diff_pass2].
    eapply asks_bind; [apply diff_rhs_asks; [apply Hl; left; reflexivity|apply incl_refl]|].
    intros m' _. apply IH. intros z Hz. apply Hl. now right.
  Qed.
  Lemma diff_body_asks x y la ra :
    asks (asked_diff la ra) any (diff_body VI PF (Flat x la) (Flat y ra)).
  Proof.
    cbn [diff_body]. unfold diff_work. destruct (negb (N.eqb x y)); [cbn; auto|]. cbn [vo_sum flat_ops bind].
    eapply asks_bind; [apply diff_pass1_asks|]. intros m1 _.
    eapply asks_bind; [apply diff_pass2_asks, incl_refl|]. intros m _. destruct m as [|e m]; [cbn; auto|].
    eapply asks_bind; [apply su_run_asks|]. intros alpha _. cbn; auto.
  Qed.

  (** *** Union *)

  Definition from1 (la : list (V * sdd)) (b : list sdd) : Prop := exists v s, In (v, s) la /\ b = sdd_sb_add VI PF s [].
  Definition from2 (la ra : list (V * sdd)) (b : list sdd) : Prop :=
    from1 la b \/ from1 ra b \/
    exists v s w t, In (v, s) la /\ In (w, t) ra /\ b = sdd_sb_add VI PF t (sdd_sb_add VI PF s []).
  Lemma sum_asks la ra b : from2 la ra b -> asks (asked OpSum la ra) any (dd_sum VI b).
  Proof.
    assert (X1 : forall s, asks (asked OpSum la ra) any (dd_sum VI (sdd_sb_add VI PF s []))).
    { intros s. unfold sdd_sb_add, sb_add. destruct (is_zero VI s); cbn; auto. }
    intros [(v & s & Hs & ->)|[(v & s & Hs & ->)|(v & s & w & t & Hs & Ht & ->)]]; auto.
    destruct (is_zero VI s) eqn:Zs.
    { replace (sdd_sb_add VI PF s []) with (@nil sdd); auto. unfold sdd_sb_add, sb_add. now rewrite Zs. }
    destruct (is_zero VI t) eqn:Zt.
    { replace (sdd_sb_add VI PF t (sdd_sb_add VI PF s [])) with (sdd_sb_add VI PF s []); auto.
      unfold sdd_sb_add at 2. unfold sb_add. now rewrite Zt. }
    destruct (st_eq_dec lt (pf_lt PO) s t) as [->|Hn]; [rewrite same_added; auto|].
    rewrite two_added by auto. unfold pair_of at 1. unfold dd_sum.
    assert (Y : asked OpSum la ra (OpSum (pair_of s t))) by (exists v, s, w, t; auto). unfold pair_of in Y.
    destruct (lt s t); cbn [call asks]; split; auto.
  Qed.

  Notation entries_of P m := (Forall (fun e : V * list sdd => P (snd e)) m).
  Lemma um_emplace_all (P : list sdd -> Prop) kv m : P (snd kv) -> entries_of P m ->
    entries_of P (um_emplace VI (flat_ops VI PF) kv m).
  Proof. intros H1 H2. unfold um_emplace. destruct (existsb _ _); auto. apply Forall_app. split; auto. Qed.
  Lemma um_insert_all (P : list sdd -> Prop) : forall l m, entries_of P l -> entries_of P m ->
    entries_of P (um_insert VI (flat_ops VI PF) l m).
  Proof.
    unfold um_insert. induction l as [|kv l IH]; intros m H1 H2; cbn [fold_left]; auto. inversion H1; subst.
    apply IH; auto. now apply um_emplace_all.
  Qed.
  Lemma iter_all (P : list sdd -> Prop) m : entries_of P m -> entries_of P (vo_iter (flat_ops VI PF) m).
  Proof.
    intros H. cbn [vo_iter flat_ops]. eapply Permutation_Forall; [symmetry; apply (pf_iter_flat PO)|auto].
  Qed.
  Lemma sum_I_all la ra cv w cs save : In (w, cs) ra -> entries_of (from2 la ra) save ->
    entries_of (from2 la ra) (sum_I VI PF (flat_ops VI PF) cv cs save).
  Proof.
    intros H1 H2. unfold sum_I. destruct (vo_empty _ cv); auto. apply Forall_app. split; auto. constructor; auto.
    right. left. exists w, cs. auto.
  Qed.
  Lemma from2_add la ra w cs rs : In (w, cs) ra -> from1 la rs -> from2 la ra (sdd_sb_add VI PF cs rs).
  Proof. intros H1 (v & s & H2 & ->). right. right. exists v, s, w, cs. auto. Qed.
  Definition three (la ra : list (V * sdd)) (x : list (V * list sdd) * list (V * list sdd) * list (V * list sdd)) : Prop :=
    entries_of (from1 la) (fst (fst x)) /\ entries_of (from2 la ra) (snd (fst x)) /\ entries_of (from1 la) (snd x).
  Lemma sum_C_asks P la ra w cs : In (w, cs) ra -> forall todo cv kept save rem,
    entries_of (from1 la) todo -> entries_of (from1 la) kept -> entries_of (from2 la ra) save -> entries_of (from1 la) rem ->
    asks P (three la ra) (sum_C VI PF (flat_ops VI PF) cv cs todo kept save rem).
  Proof.
    intros Hc. induction todo as [|[rv rs] todo IH]; intros cv kept save rem H1 H2 H3 H4; cbn [sum_C].
    - cbn [asks]. split; [|split]; auto. cbn [fst snd]. eapply sum_I_all; eauto.
    - inversion H1 as [|? ? H5 H6]; subst. cbn [snd] in H5.
      destruct (vo_empty _ cv).
      { cbn [asks]. split; [|split]; auto; cbn [fst snd].
        - apply Forall_app. split; auto.
        - eapply sum_I_all; eauto. }
      destruct (vo_eqb _ cv rv).
      { cbn [asks]. split; [|split]; auto; cbn [fst snd].
        - apply Forall_app. split; auto.
        - apply Forall_app. split; auto. constructor; auto. cbn [snd]. eapply from2_add; eauto. }
      cbn [vo_inter flat_ops bind]. set (it := val_intersection _ _).
      destruct (negb _).
      + cbn [vo_diff flat_ops bind]. set (df := v_diff VI rv it). set (save1 := save ++ _).
        assert (S1 : entries_of (from2 la ra) save1).
        { apply Forall_app. split; auto. constructor; auto. cbn [snd]. eapply from2_add; eauto. }
        set (rem1 := if negb _ then _ else _).
        assert (R1 : entries_of (from1 la) rem1).
        { unfold rem1. destruct (negb _); auto. apply Forall_app. split; auto. }
        destruct (vo_eqb _ cv it).
        * cbn [asks]. split; [|split]; auto; cbn [fst snd].
          -- apply Forall_app. split; auto.
          -- eapply sum_I_all; eauto.
        * apply IH; auto.
      + apply IH; auto. apply Forall_app. split; auto.
  Qed.
  Lemma sum_B_asks P la ra : forall arcs res save, incl arcs ra ->
    entries_of (from1 la) res -> entries_of (from2 la ra) save ->
    asks P (fun x => entries_of (from1 la) (fst x) /\ entries_of (from2 la ra) (snd x)) (sum_B VI PF (flat_ops VI PF) arcs res save).
  Proof.
    induction arcs as [|[v s] arcs IH]; intros res save Hi H1 H2; cbn [sum_B]; [cbn; auto|].
    eapply asks_bind.
    - apply (sum_C_asks P la ra v s (Hi _ (or_introl eq_refl)) (vo_iter (flat_ops VI PF) res) v [] save []); auto. now apply iter_all.
    - intros [[k sv] rm] (K1 & K2 & K3). cbn [fst snd] in *. apply IH; auto.
      + intros z Hz. apply Hi. now right.
      + now apply um_insert_all.
  Qed.
  Lemma sum_su_asks la ra : forall res m, entries_of (from2 la ra) res ->
    asks (asked OpSum la ra) any (sum_su VI PF (flat_ops VI PF) res m).
  Proof.
    induction res as [|[v b] res IH]; intros m H; [cbn; auto|]. inversion H as [|? ? H1 H2]; subst. cbn [sum_su].
    eapply asks_bind; [apply sum_asks; exact H1|]. intros s _. eapply asks_bind; [apply su_add_asks|]. intros m' _. auto.
  Qed.
  Lemma sum_work_asks x y la ra :
    asks (asked OpSum la ra) any (sum_work VI PF (flat_ops VI PF) Flat (cast_flat VI) [Flat x la; Flat y ra]).
  Proof.
    cbn [sum_work cast_flat sum_A check_compatibility]. set (res0 := um_insert _ _ _ _).
    assert (R0 : entries_of (from1 la) res0).
    { apply um_insert_all; [|constructor]. apply Forall_forall. intros e He. apply in_map_iff in He. destruct He as ([v s] & <- & He).
      exists v, s. auto. }
    eapply asks_bind with (Q := fun r => entries_of (from2 la ra) r).
    - eapply asks_bind with (Q := any); [destruct (N.eqb x y); cbn; auto|]. intros _ _.
      eapply asks_bind; [apply (sum_B_asks _ la ra ra res0 [] (incl_refl _) R0); constructor|].
      intros [r sv] [Q1 Q2]. cbn [asks fst snd] in *. apply um_insert_all; auto.
      eapply Forall_impl; [|exact Q1]. intros e He. left. exact He.
    - intros r Hr. eapply asks_bind; [apply sum_su_asks, iter_all, Hr|]. intros m _.
      eapply asks_bind; [apply su_run_asks|]. intros alpha _. cbn; auto.
  Qed.

  (** Fast-iterable sets of values: the successors of every value. *)
  Definition succ_of (la ra : list (V * sdd)) (e : elt VI) (s : sdd) : Prop :=
    (exists v, In (v, s) la /\ v_mem VI v e = true) \/ (exists v, In (v, s) ra /\ v_mem VI v e = true).
  Definition vmap_ok (la ra : list (V * sdd)) (m : list (elt VI * list sdd)) : Prop :=
    ksorted (e_lt VI) m /\ forall e b, In (e, b) m -> ssorted lt b /\ forall s, In s b -> succ_of la ra e s.
  Lemma value_ok la ra s e m : succ_of la ra e s -> vmap_ok la ra m -> vmap_ok la ra (fast_add_value VI PF s m e).
  Proof.
    intros Hs [H1 H2]. unfold fast_add_value. split; [now apply (fm_upd_sorted _ (vl_elt VL))|].
    intros e' b' Hin. apply (fm_upd_in _ (vl_elt VL)) in Hin; auto.
    assert (Y : forall b, ssorted lt b -> (forall t, In t b -> succ_of la ra e t) ->
      ssorted lt (sdd_sb_add VI PF s b) /\ forall t, In t (sdd_sb_add VI PF s b) -> succ_of la ra e t).
    { intros b S1 S2. unfold sdd_sb_add, sb_add. destruct (is_zero VI s); auto. split; [now apply (fs_insert_sorted lt (pf_lt PO))|].
      intros t Ht. apply (fs_insert_in lt (pf_lt PO)) in Ht. destruct Ht as [->|Ht]; auto. }
    destruct Hin as [[_ Hin]|[-> [(b & Hb & ->)|[_ ->]]]]; auto.
    - destruct (H2 e b Hb). now apply Y.
    - apply Y; [constructor|intros t []].
  Qed.
  Lemma arc_ok la ra v s m : (forall e, v_mem VI v e = true -> succ_of la ra e s) -> vmap_ok la ra m ->
    vmap_ok la ra (fast_add_arc VI PF m (v, s)).
  Proof.
    intros Hs. unfold fast_add_arc. cbn [fst snd].
    assert (HI : forall e, In e (v_iter VI v) -> succ_of la ra e s).
    { intros e He. apply Hs. now apply (vl_iter VL). }
    revert m HI. induction (v_iter VI v) as [|e l IH]; intros m HI Hm; cbn [fold_left]; auto.
    apply IH; [intros e' He'; apply HI; now right|]. apply value_ok; auto. apply HI. now left.
  Qed.
  Lemma arcs_ok la ra : forall arcs m, (forall v s e, In (v, s) arcs -> v_mem VI v e = true -> succ_of la ra e s) ->
    vmap_ok la ra m -> vmap_ok la ra (fold_left (fast_add_arc VI PF) arcs m).
  Proof.
    induction arcs as [|[v s] arcs IH]; intros m H Hm; cbn [fold_left]; auto.
    apply IH; [intros; eapply H; [right|]; eauto|]. apply arc_ok; auto. intros e He. eapply H; [left; reflexivity|auto].
  Qed.
  Notation disj l := (ForallOrdPairs (fun a b : V * sdd => disjoint (v_mem VI) (fst a) (fst b)) l).
  Lemma fast_succs_asks la ra : disj la -> disj ra -> forall m acc, vmap_ok la ra m ->
    asks (asked OpSum la ra) any (fast_succs VI PF m acc).
  Proof.
    intros Dl Dr. induction m as [|[e b] m IH]; intros acc Hm; [cbn; auto|]. cbn [fast_succs].
    assert (Hm' : vmap_ok la ra m).
    { destruct Hm as [H1 H2]. split; [now inversion H1|]. intros e' b' Hin. apply H2. now right. }
    eapply asks_bind with (Q := any); [|intros s _; now apply IH].
    destruct Hm as [_ Hm]. destruct (Hm e b (or_introl eq_refl)) as [S1 S2].
    assert (U : forall arcs, disj arcs -> forall v s v' s', In (v, s) arcs -> In (v', s') arcs -> v_mem VI v e = true -> v_mem VI v' e = true -> s = s').
    { intros arcs D v s v' s' I1 I2 M1 M2. pose proof (adisjoint_unique VI (v_mem VI) arcs D v s v' s' e I1 I2 M1 M2) as X. congruence. }
    destruct b as [|s [|t r]]; [exact I|exact I|].
    assert (Hlt : lt s t = true) by (inversion S1 as [|? ? _ F]; subst; now inversion F).
    assert (Hst : s <> t) by (intros ->; rewrite (st_irrefl (pf_lt PO)) in Hlt; discriminate).
    assert (ND : NoDup (s :: t :: r)) by (now apply (ssorted_nodup lt (pf_lt PO))).
    assert (Z : exists v p w q, In (v, p) la /\ In (w, q) ra /\ p <> q /\ forall z, In z (s :: t :: r) -> z = p \/ z = q).
    { destruct (S2 s (or_introl eq_refl)) as [(v & I1 & M1)|(v & I1 & M1)], (S2 t (or_intror (or_introl eq_refl))) as [(w & I2 & M2)|(w & I2 & M2)].
      - exfalso. apply Hst. eapply (U la); eauto.
      - exists v, s, w, t. repeat split; auto. intros z Hz. destruct (S2 z Hz) as [(u & I3 & M3)|(u & I3 & M3)];
          [left; eapply (U la)|right; eapply (U ra)]; eauto.
      - exists w, t, v, s. repeat split; auto. intros z Hz. destruct (S2 z Hz) as [(u & I3 & M3)|(u & I3 & M3)];
          [left; eapply (U la)|right; eapply (U ra)]; eauto.
      - exfalso. apply Hst. eapply (U ra); eauto. }
    destruct Z as (v & p & w & q & I1 & I2 & Hpq & HI).
    destruct (sorted_pair (s :: t :: r) p q S1 HI) as [X|[[z X]|[_ X]]]; [discriminate|discriminate|].
    cbn [dd_sum call asks]. split; auto. exists v, p, w, q. rewrite <- X. auto.
  Qed.
  Lemma sum_work_fast_asks x y la ra : disj la -> disj ra ->
    asks (asked OpSum la ra) any (sum_work_fast VI PF [Flat x la; Flat y ra]).
  Proof.
    intros Dl Dr. cbn [sum_work_fast cast_flat fast_operands].
    eapply asks_bind with (Q := vmap_ok la ra).
    - eapply asks_bind with (Q := any); [cbn [check_compatibility]; destruct (N.eqb x x); cbn; auto|]. intros _ _.
      eapply asks_bind with (Q := any); [cbn [check_compatibility]; destruct (N.eqb x y); cbn; auto|]. intros _ _.
      cbn [asks]. apply arcs_ok; [|apply arcs_ok].
      + intros v s e H1 H2. right. eauto.
      + intros v s e H1 H2. left. eauto.
      + split; [constructor|intros e b []].
    - intros m Hm. eapply asks_bind; [now apply fast_succs_asks|]. intros sv _. cbn; auto.
  Qed.
  Lemma sum_body_asks x y la ra : disj la -> disj ra ->
    asks (asked OpSum la ra) any (sum_body VI PF [Flat x la; Flat y ra]).
  Proof.
    intros Dl Dr. cbn [sum_body]. destruct (v_fast VI); [now apply sum_work_fast_asks|apply sum_work_asks].
  Qed.

  (** *** The operations of the evaluation of x + y, x & y and x - y *)

  Fixpoint flat_only (sh : shape) : Prop :=
    match sh with
    | SEnd => True
    | SFlat _ rest => flat_only rest
    | SHier _ _ _ => False
    end.
  Definition same_variable (a b : sdd) : bool :=
    match a, b with
    | Flat x _, Flat y _ => N.eqb x y
    | Hier x _, Hier y _ => N.eqb x y
    | _, _ => false
    end.
  (** The pairs of a node of the first list and of a node of the second one, on the same variable. *)
  Definition meetings (lx ly : list sdd) : list (sdd * sdd) :=
    filter (fun p => same_variable (fst p) (snd p)) (list_prod lx ly).
  Definition call_kind (c : dd_call VI) : nat :=
    match c with
    | USum _ _ => 0
    | UInter _ _ => 1
    | UMinus _ _ _ => 2
    end.

  Section Two.
    Variables x y : sdd.
    Variable ks : list nat.                                (* the kinds of operations asked *)
    Definition node_pair (a b : sdd) : Prop :=
      exists sh v la ra, a = Flat v la /\ b = Flat v ra /\ flat_only sh /\ sub VI a x /\ sub VI b y /\
        follows sh a /\ follows sh b /\ canonical VI lt a /\ canonical VI lt b.
    Definition pgood (op : ddop V) : Prop := In (dd_kind VI op) ks /\
      exists a b, node_pair a b /\ (op = OpSum (pair_of a b) \/ op = OpInter (pair_of a b) \/ op = OpDiff a b).

    Lemma sub_step a : forall z, sub VI a z -> forall v s arcs w, a = Flat v arcs -> In (w, s) arcs -> sub VI s z.
    Proof.
      intros z Hs. induction Hs; intros; subst.
      - econstructor; [eassumption|constructor].
      - eapply sub_flat; eauto.
      - eapply sub_hier_val; eauto.
      - eapply sub_hier_succ; eauto.
    Qed.
    Lemma pair_step a b v la ra : node_pair a b -> a = Flat v la -> b = Flat v ra ->
      forall w s w' t, In (w, s) la -> In (w', t) ra -> s <> t -> node_pair s t.
    Proof.
      intros (sh & v' & la' & ra' & Ea & Eb & Fs & Sa & Sb & Fa & Fb & Ca & Cb) E1 E2 w s w' t Hs Ht Hn. subst a b.
      injection E1 as -> ->. injection E2 as ->.
      inversion Fa as [| |? rest ? Fa' |]; subst. inversion Fb as [| |? ? ? Fb' |]; subst. cbn [flat_only] in Fs.
      inversion Ca as [| |? ? _ Ha1 Ha2 _ _|]; subst. inversion Cb as [| |? ? _ Hb1 Hb2 _ _|]; subst.
      destruct (Ha1 _ _ Hs) as [_ Zs]. destruct (Hb1 _ _ Ht) as [_ Zt]. specialize (Fa' _ _ Hs). specialize (Fb' _ _ Ht).
      assert (Ss : sub VI s x) by (eapply sub_step; eauto). assert (St : sub VI t y) by (eapply sub_step; eauto).
      specialize (Ha2 _ _ Hs). specialize (Hb2 _ _ Ht).
      destruct rest as [|z rest|]; [|exists (SFlat z rest), z|contradiction].
      - inversion Fa' as [Q|Q| |]; inversion Fb' as [Q'|Q'| |]; subst; congruence.
      - inversion Fa' as [Q|Q|? ? la2 Q Q2|]; subst; [congruence|]. inversion Fb' as [Q'|Q'|? ? ra2 Q' Q2'|]; subst; [congruence|].
        exists la2, ra2. repeat split; auto.
    Qed.
    Lemma disj_of a v la : canonical VI lt a -> a = Flat v la -> disj la.
    Proof. intros C ->. inversion C; subst; auto. Qed.

    Lemma asked_good (mk : list sdd -> ddop V) k a b v la ra : (mk = OpSum /\ k = 0 \/ mk = OpInter /\ k = 1) -> In k ks ->
      node_pair a b -> a = Flat v la -> b = Flat v ra -> forall op, asked mk la ra op -> pgood op.
    Proof.
      intros Hm Hk Hp Ea Eb op (w & s & w' & t & H1 & H2 & H3 & ->).
      split; [destruct Hm as [[-> ->]|[-> ->]]; exact Hk|]. exists s, t.
      split; [eapply pair_step; eauto|]. destruct Hm as [[-> _]|[-> _]]; auto.
    Qed.
    Lemma asked_sym mk la ra op : asked mk la ra op -> asked mk ra la op.
    Proof.
      intros (w & s & w' & t & H1 & H2 & H3 & ->). exists w', t, w, s. repeat split; auto.
      destruct (pair_sym s t) as [->|]; [reflexivity|contradiction].
    Qed.
    Lemma pgood_calls : forall n op op', pgood op -> calls (peval EFuel (dd_body VI PF) n) (dd_body VI PF op) op' -> pgood op'.
    Proof.
      intros n op op' (Hk & a & b & Hp & Hop) Hc.
      pose proof Hp as (sh & v & la & ra & Ea & Eb & _ & _ & _ & _ & _ & Ca & Cb).
      pose proof (disj_of a v la Ca Ea) as Da. pose proof (disj_of b v ra Cb Eb) as Db.
      destruct Hop as [->|[->| ->]]; cbn [dd_body dd_kind] in *.
      - assert (Q : asked OpSum la ra op').
        { unfold pair_of in Hc. destruct (lt a b); subst a b.
          - eapply asks_calls; [exact Hc|]. now apply sum_body_asks.
          - apply asked_sym. eapply asks_calls; [exact Hc|]. now apply sum_body_asks. }
        eapply (asked_good OpSum 0); eauto.
      - assert (Q : asked OpInter la ra op').
        { unfold pair_of in Hc. destruct (lt a b); subst a b.
          - eapply asks_calls; [exact Hc|]. apply inter_body_asks.
          - apply asked_sym. eapply asks_calls; [exact Hc|]. apply inter_body_asks. }
        eapply (asked_good OpInter 1); eauto.
      - assert (Q : asked_diff la ra op').
        { subst a b. eapply asks_calls; [exact Hc|]. apply diff_body_asks. }
        destruct Q as (w & s & w' & t & H1 & H2 & H3 & ->). split; [exact Hk|]. exists s, t.
        split; auto. eapply pair_step; eauto.
    Qed.

    Variable sh : shape.
    Hypothesis FS_sh : flat_only sh.
    Hypothesis Cx : canonical VI lt x.
    Hypothesis Cy : canonical VI lt y.
    Hypothesis Fx : follows sh x.
    Hypothesis Fy : follows sh y.
    Lemma root_pair : is_zero VI x = false -> is_zero VI y = false -> x <> y -> node_pair x y.
    Proof.
      intros Zx Zy Hn.
      assert (X : forall z, follows sh z -> is_zero VI z = false -> z = One /\ sh = SEnd \/ exists v r arcs, z = Flat v arcs /\ sh = SFlat v r).
      { clear - FS_sh. intros z Hz Z. destruct Hz; cbn in *; try discriminate; try contradiction; auto. right. eauto. }
      destruct (X x Fx Zx) as [[Ex Es]|(v & r & la & Ex & Es)], (X y Fy Zy) as [[Ey Es']|(v' & r' & ra & Ey & Es')]; try congruence.
      rewrite Es in Es'. injection Es' as <- <-. exists sh, v, la, ra. repeat split; auto; constructor.
    Qed.
    Lemma call_good h c : In c [USum VI [x; y]; UInter VI [x; y]; UMinus VI x y] -> In (call_kind c) ks ->
      forall op, calls h (call_prog VI PF c) op -> pgood op.
    Proof.
      intros Hc Hk op Ho.
      assert (Rt : forall mk k, (mk = OpSum /\ k = 0 \/ mk = OpInter /\ k = 1) -> In k ks ->
        is_zero VI x = false -> is_zero VI y = false -> x <> y -> pgood (mk (pair_of x y))).
      { intros mk k Hm Hk' Zx Zy Hn. split; [destruct Hm as [[-> ->]|[-> ->]]; exact Hk'|].
        exists x, y. split; [now apply root_pair|]. destruct Hm as [[-> _]|[-> _]]; auto. }
      destruct Hc as [<-|[<-|[<-|[]]]]; cbn [call_prog call_kind fold_left] in *.
      - destruct (is_zero VI x) eqn:Zx.
        { exfalso. unfold sdd_sb_add, sb_add in Ho. rewrite Zx in Ho. destruct (is_zero VI y); inversion Ho. }
        destruct (is_zero VI y) eqn:Zy.
        { exfalso. unfold sdd_sb_add, sb_add in Ho. rewrite Zx, Zy in Ho. inversion Ho. }
        destruct (st_eq_dec lt (pf_lt PO) x y) as [Q|Hn].
        { exfalso. rewrite <- Q, same_added in Ho. unfold sdd_sb_add, sb_add in Ho. rewrite Zx in Ho. inversion Ho. }
        rewrite two_added in Ho by auto. specialize (Rt OpSum 0 (or_introl (conj eq_refl eq_refl)) Hk eq_refl eq_refl Hn).
        unfold pair_of in *. destruct (lt x y); cbn [dd_sum call] in Ho; inversion Ho as [|? ? ? ? _ B]; subst; auto; inversion B.
      - unfold dd_intersection, sdd_ib_add, ib_add in Ho. cbn [fst snd] in Ho.
        destruct (is_zero VI x) eqn:Zx; cbn [fst snd] in Ho; [inversion Ho|].
        destruct (is_zero VI y) eqn:Zy; cbn [fst snd] in Ho; [inversion Ho|].
        destruct (st_eq_dec lt (pf_lt PO) x y) as [Q|Hn].
        { exfalso. rewrite <- Q in Ho. cbn [fs_insert] in Ho. rewrite (st_irrefl (pf_lt PO)) in Ho. inversion Ho. }
        specialize (Rt OpInter 1 (or_intror (conj eq_refl eq_refl)) Hk eq_refl eq_refl Hn).
        pose proof (two_added x y Zx Zy Hn) as Q. unfold sdd_sb_add, sb_add in Q. rewrite Zx, Zy in Q. rewrite Q in Ho.
        unfold pair_of in *. destruct (lt x y); cbn [call] in Ho; inversion Ho as [|? ? ? ? _ B]; subst; auto; inversion B.
      - unfold dd_difference in Ho. destruct (sdd_eqb VI PF x y) eqn:Q; cbn [orb] in Ho; [inversion Ho|].
        destruct (is_zero VI x) eqn:Zx; [inversion Ho|]. destruct (is_zero VI y) eqn:Zy; [inversion Ho|].
        assert (Hn : x <> y).
        { intros Z. assert (Y : sdd_eqb VI PF x y = true) by (now apply (sdd_eqb_spec VI PF PO)). congruence. }
        cbn [call] in Ho. inversion Ho as [|? ? ? ? _ B]; subst; [|inversion B].
        split; [exact Hk|]. exists x, y. split; [now apply root_pair|auto].
    Qed.
  End Two.

  Lemma meetings_in x y lx ly a b : all_nodes VI x lx -> all_nodes VI y ly -> node_pair x y a b -> In (a, b) (meetings lx ly).
  Proof.
    intros [_ Ax] [_ Ay] (sh & v & la & ra & -> & -> & _ & Sa & Sb & _). unfold meetings. apply filter_In. split.
    - apply in_prod; [apply Ax|apply Ay]; auto.
    - cbn. apply N.eqb_refl.
  Qed.

  (** [h]: any sequence of evaluations of x + y, x & y and x - y.  The caches, new and large enough, discard nothing; no
      cache evaluates more operations than there are pairs of a node of [x] and a node of [y] on the same variable; a cache
      whose operation is not in [h] evaluates nothing. *)
  Theorem C73_operations : forall sh x y lx ly, flat_only sh -> built VI PF x -> built VI PF y ->
    follows sh x -> follows sh y -> all_nodes VI x lx -> all_nodes VI y ly ->
    forall hash sizes s, (forall i, (2 <= sizes i <= 2 ^ 63)%N) -> new_caches sizes s ->
    (forall i, (N.of_nat (length (meetings lx ly)) <= max_load (next_power_of_2_64 (sizes i)))%N) ->
    forall h fuel, Forall (fun c => In c [USum VI [x; y]; UInter VI [x; y]; UMinus VI x y]) h -> fuel_of VI [x; y] <= fuel ->
    forall i, let c := run_progs (dd_body VI PF) (fun op => op) (ddop_eqb VI PF) hash (dd_kind VI) (fun _ => true)
                         (map (call_prog VI PF) h) fuel s i in
    discarded c = 0%N /\
    (misses c <= N.of_nat (length (meetings lx ly)) <= N.of_nat (length lx * length ly))%N /\
    (~ In i (map call_kind h) -> misses c = 0%N).
  Proof.
    intros sh x y lx ly Hsh Bx By Fx Fy Ax Ay hash sizes s SZ HN Cap h fuel Hh Hf i. cbv zeta.
    pose proof (built_canonical VI VL PF PO x Bx) as Cx. pose proof (built_canonical VI VL PF PO y By) as Cy.
    set (ks := map call_kind h).
    assert (HO : forall c, In c h -> (exists r, call_result VI PF c = Ok r) /\ operands VI c = [x; y]).
    { intros c Hc. rewrite Forall_forall in Hh. destruct (Hh c Hc) as [<-|[<-|[<-|[]]]]; cbn [call_result operands]; split; auto.
      - destruct (api_sum_follows VI VL PF PO sh [x; y]) as (r & Er & _); [intros z [<-|[<-|[]]]; auto|eauto].
      - destruct (api_intersection_follows VI VL PF PO sh [x; y]) as (r & Er & _); [discriminate|intros z [<-|[<-|[]]]; auto|eauto].
      - destruct (api_minus_follows VI VL PF PO sh x y Cx Cy Fx Fy) as (r & Er & _). eauto. }
    assert (HE : forall c, In c h -> exists r, interp (peval EFuel (dd_body VI PF) fuel) (call_prog VI PF c) = Ok r).
    { intros c Hc. destruct (HO c Hc) as [[r Er] Eo]. exists r. rewrite (call_deep VI VL PF PO fuel c); auto.
      - rewrite Eo. intros z [<-|[<-|[]]]; auto.
      - now rewrite Eo. }
    assert (HL : Forall (fun p => legal_cop EFuel (dd_body VI PF) (pgood x y ks) fuel (CRun p)) (map (call_prog VI PF) h)).
    { apply Forall_forall. intros p Hp. apply in_map_iff in Hp. destruct Hp as (c & <- & Hc). split.
      - destruct (HE c Hc) as [r ->]. discriminate.
      - intros op Ho. rewrite Forall_forall in Hh. eapply (call_good x y ks sh); eauto. apply in_map. exact Hc. }
    assert (HR : Forall (fun p => exists r, interp (peval EFuel (dd_body VI PF) fuel) p = Ok r) (map (call_prog VI PF) h)).
    { apply Forall_forall. intros p Hp. apply in_map_iff in Hp. destruct Hp as (c & <- & Hc). auto. }
    assert (SE : forall a b : ddop V, dd_kind VI a = dd_kind VI b -> a = b -> pgood x y ks a -> pgood x y ks b ->
      forall n, peval EFuel (dd_body VI PF) n a = peval EFuel (dd_body VI PF) n b) by (intros a b _ -> _ _ n; reflexivity).
    pose (Li := match i with
                | 0 => map (fun p => OpSum (pair_of (fst p) (snd p))) (meetings lx ly)
                | 1 => map (fun p => OpInter (pair_of (fst p) (snd p))) (meetings lx ly)
                | _ => map (fun p => OpDiff (fst p) (snd p)) (meetings lx ly)
                end : list (ddop V)).
    assert (LA : forall op, pgood x y ks op -> dd_kind VI op = i -> In op Li).
    { intros op (_ & a & b & Hp & Ho) <-. pose proof (meetings_in x y lx ly a b Ax Ay Hp) as Hm. unfold Li.
      destruct Ho as [->|[->| ->]]; cbn [dd_kind]; apply in_map_iff; exists (a, b); auto. }
    assert (LL : length Li = length (meetings lx ly)) by (unfold Li; destruct i as [|[|]]; apply map_length).
    destruct (C73_once (ddop V) (ddop V) sdd (err V) EFuel (efuel_dec VI) (dd_body VI PF) (fun op => op) (ddop_eqb VI PF) hash
      (ddop_eqb_spec VI PF PO) (dd_kind VI) (fun _ => true) (pgood x y ks) (pgood_calls x y ks) SE sizes SZ fuel _ s HN HL i Li LA) as [D1 D2].
    { rewrite LL. apply Cap. }
    specialize (D2 HR). rewrite LL in D2. split; [exact D1|]. split; [split; [exact D2|]|].
    - unfold meetings. pose proof (filter_le (fun p => same_variable (fst p) (snd p)) (list_prod lx ly)) as Q.
      rewrite prod_length in Q. lia.
    - intros Hi.
      destruct (C73_once (ddop V) (ddop V) sdd (err V) EFuel (efuel_dec VI) (dd_body VI PF) (fun op => op) (ddop_eqb VI PF) hash
        (ddop_eqb_spec VI PF PO) (dd_kind VI) (fun _ => true) (pgood x y ks) (pgood_calls x y ks) SE sizes SZ fuel _ s HN HL i []) as [_ D3].
      + intros op (Hk & _) Ei. rewrite Ei in Hk. contradiction.
      + cbn. lia.
      + specialize (D3 HR). cbn [length] in D3. lia.
  Qed.
End Flat.
Print Assumptions C73_operations.

(** The words of [n] letters in {0, 1} whose sum is [r] modulo [k]: at most [k] nodes for each letter. *)
Fixpoint words (k : N) (n : nat) (r : N) : sdd (vt FS) :=
  match n with
  | 0 => if N.eqb r 0 then One else Zero
  | S m => match api_plus FS PF_up (node_flat FS PF_up (N.of_nat m) (fs [0%N]) (words k m r))
                                   (node_flat FS PF_up (N.of_nat m) (fs [1%N]) (words k m ((r + k - 1) mod k)%N)) with
           | Ok x => x
           | Err _ => Zero
           end
  end.
Lemma words_ok k n : forall r, built FS PF_up (words k n r) /\ follows (flat_shape n) (words k n r).
Proof.
  induction n as [|n IH]; intros r; cbn [words flat_shape].
  - destruct (N.eqb r 0); split; constructor.
  - set (a := node_flat _ _ _ _ _). set (b := node_flat _ _ _ _ _).
    assert (HF : forall v z, built FS PF_up z /\ follows (flat_shape n) z ->
      built FS PF_up (node_flat FS PF_up (N.of_nat n) v z) /\
      follows (SFlat (N.of_nat n) (flat_shape n)) (node_flat FS PF_up (N.of_nat n) v z)).
    { intros v z [B F]. split; [now constructor|]. unfold node_flat, create_node1. destruct (_ || _); [constructor|].
      cbn [create_node alpha_add fm_emplace fm_upd map fst snd]. constructor. intros v' s [Q|[]]. injection Q as <- <-. exact F. }
    destruct (HF (fs [0%N]) _ (IH r)) as [Ba Fa]. destruct (HF (fs [1%N]) _ (IH ((r + k - 1) mod k)%N)) as [Bb Fb]. fold a in Ba, Fa. fold b in Bb, Fb.
    destruct (C06_union_total FS FS_laws PF_up PF_up_ok (SFlat (N.of_nat n) (flat_shape n)) [a; b]) as (z & E & F).
    { intros z [<-|[<-|[]]]; auto. }
    unfold api_plus. rewrite E. split; auto. eapply built_sum; [|exact E]. intros z' [<-|[<-|[]]]; auto.
Qed.
Lemma flat_shape_only n : flat_only (flat_shape n).
Proof. induction n; cbn; auto. Qed.

Definition ex_count (accept : bool) (c : dd_call FS) (i : nat) (f : cache (ddop (vt FS)) (sdd (vt FS)) -> N) : option N :=
  match make_cache 64 with
  | Ok c0 => Some (f (run_progs (dd_body FS PF_up) (fun op => op) (ddop_eqb FS PF_up) (fun _ => 7%N) (dd_kind FS) (fun _ => accept)
                        [call_prog FS PF_up c] 7 (fun _ => c0) i))
  | Err _ => None
  end.
(** The hypotheses are met for any number of letters.  For 6 letters: 11 and 14 nodes, 27 pairs on the same variable.  The
    operations on the words whose sum is even and those whose sum is a multiple of 3 evaluate 16 or 17 operations, and 51
    when a filter bypasses the caches. *)
Example C73_ex : (forall k n r, built FS PF_up (words k n r) /\ follows (flat_shape n) (words k n r) /\ flat_only (flat_shape n)) /\
  exists lx ly, all_nodes FS (words 2 6 0) lx /\ all_nodes FS (words 3 6 0) ly /\
  length lx = 11 /\ length ly = 14 /\ length (meetings FS lx ly) = 27 /\ (27 <= max_load (next_power_of_2_64 64))%N /\
  fuel_of FS [words 2 6 0; words 3 6 0] <= 7 /\
  let x := words 2 6 0 in let y := words 3 6 0 in
  (ex_count true (USum FS [x; y]) 0 misses, ex_count true (UInter FS [x; y]) 1 misses, ex_count true (UMinus FS x y) 2 misses) =
    (Some 16%N, Some 16%N, Some 17%N) /\
  (ex_count false (USum FS [x; y]) 0 filtered, ex_count false (UInter FS [x; y]) 1 filtered, ex_count false (UMinus FS x y) 2 filtered) =
    (Some 51%N, Some 51%N, Some 51%N).
Proof.
  split; [intros k n r; destruct (words_ok k n r); auto using flat_shape_only|].
  destruct (trav_all FS PF_up PF_up_ok false true (words 2 6 0)) as (lx & Ex & Nx & Ix).
  destruct (trav_all FS PF_up PF_up_ok false true (words 3 6 0)) as (ly & Ey & Ny & Iy).
  assert (Ax : all_nodes FS (words 2 6 0) lx).
  { split; [exact Nx|]. intros t. rewrite Ix. clear. intuition discriminate. }
  assert (Ay : all_nodes FS (words 3 6 0) ly).
  { split; [exact Ny|]. intros t. rewrite Iy. clear. intuition discriminate. }
  exists lx, ly. split; [exact Ax|]. split; [exact Ay|].
  rewrite <- Ex, <- Ey. clear.
  split; [vm_compute; reflexivity|]. split; [vm_compute; reflexivity|]. split; [vm_compute; reflexivity|].
  split; [apply N.leb_le; vm_compute; reflexivity|]. split; [apply Nat.leb_le; vm_compute; reflexivity|].
  cbv zeta. split; vm_compute; reflexivity.
Qed.
