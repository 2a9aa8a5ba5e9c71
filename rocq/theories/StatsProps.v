(** * Statistics say what they claim (C61) *)

From Coq Require Import List Bool NArith Arith Lia Permutation.
From Verif Require Import Base Pow2 HashTable Heap HeapProofs HeapTheorems HeapProps Stats Cached Cache CacheProofs CacheTheorems CacheProps.
Import ListNotations.

Section TableStatistics.
  Context {L : Type}.
  Variable leqb : L -> L -> bool.
  Variable hash bytes : L * list ptr -> N.             (* any hash function, any size of nodes *)
  Hypothesis leqb_spec : forall a b, leqb a b = true <-> a = b.

  (** After any history of handles: every creation is an access; it is a hit exactly when its data was a part of the value of
      a variable; the size is the number of different parts of the values of the variables; the peak is the maximum of this
      number over the history; each rehash doubled the number of buckets; the buckets are partitioned. *)
  Theorem C61_unicity_table : forall l size, (1 <= size <= 2 ^ 62)%N ->
    history leqb hash bytes l (empty_heap size) [] -> (N.of_nat (total l) < 2 ^ 32 - 1)%N ->
    exists h st, h_run leqb hash bytes l (empty_heap size) = Ok h /\ table_statistics h = Ok st /\
    st_access st = N.of_nat (creations l) /\
    st_hits st = N.of_nat (repeated leqb l []) /\
    (st_hits st + st_misses st = st_access st)%N /\
    st_size st = N.of_nat (needed leqb (v_run l [])) /\
    st_peak st = N.of_nat (list_max (profile leqb l [])) /\
    st_buckets st = (next_power_of_2_64 size * 2 ^ st_rehash st)%N /\
    (st_collisions st + st_alone st + st_empty st = st_buckets st)%N /\
    (st_alone st + 2 * st_collisions st <= st_size st)%N.
  Proof.
    intros l size Hs H B. pose proof (good_empty hash size Hs) as G0.
    destruct (run_ok leqb hash bytes leqb_spec l _ _ 0 G0 H B) as (h & E & G). exists h.
    destruct (run_stats leqb hash bytes leqb_spec l _ _ 0 h G0 H B E) as (S1 & S2 & S3 & S4 & S5); [cbn; lia|].
    destruct (good_collisions hash h _ _ G) as (c & a & e & C1 & C2 & C3). unfold table_statistics. rewrite C1. cbn [rbind].
    eexists. split; auto. split; [reflexivity|].
    cbn [st_access st_hits st_misses st_size st_peak st_buckets st_rehash st_collisions st_alone st_empty].
    cbn [empty_heap access uhits umisses upeak ht] in S1, S2, S3, S4, S5. unfold make_table in S5. cbn [nb nb_rehash] in S5.
    assert (P : forall x, peak_of x = N.of_nat (list_max x)).
    { induction x as [|n x IH]; cbn [peak_of list_max fold_right]; auto. unfold list_max in IH. rewrite IH, Nnat.Nat2N.inj_max. reflexivity. }
    rewrite P in S4. rewrite (good_size leqb hash leqb_spec h _ _ G) in *. rewrite N.pow_0_r, N.mul_1_r in S5. repeat split; auto; lia.
  Qed.
End TableStatistics.
Print Assumptions C61_unicity_table.

(** The history of C22: 5 creations, 2 of them of data that exists; at most 3 different data, 3 at the end. *)
Example C61_example : history Nat.eqb ex_hash ex_bytes ex_history (empty_heap 2) [] /\
  creations ex_history = 5 /\ repeated Nat.eqb ex_history [] = 2 /\ needed Nat.eqb (v_run ex_history []) = 3 /\
  profile Nat.eqb (ex_history ++ ex_destroy) [] = [0; 1; 2; 2; 3; 3; 3; 3; 3; 3; 3; 3; 3; 3; 2; 1; 1; 1; 0].
Proof. split; [apply history_b_ok; vm_compute; reflexivity|]. vm_compute. repeat split. Qed.

(** ** Caches *)

(** Every miss is an entry, an entry that was discarded, or an evaluation that failed. *)
Section Balance.
  Context {Op K R E : Type}.
  Variable body : Op -> prog Op R E R.
  Variable key : Op -> K.
  Variable keq : K -> K -> bool.
  Hypothesis keq_spec : forall a b, keq a b = true <-> a = b.
  Variable kind : Op -> nat.
  Variable accept : Op -> bool.
  Notation llook := (lookup (H := herr) body accept (l_note_filtered kind) (l_find_op key keq kind) (l_store_op key keq kind)).
  Notation lcs := (lru_caches Op R).

  Definition binv (a : lcs) : Prop := forall i, (1 <= capacity (a i))%N /\ NoDup (map (fun e => key (fst e)) (entries (a i))).
  Definition used (c : lru_cache Op R) : N := (N.of_nat (length (entries c)) + l_discarded c)%N.
  Definition more (a a' : lcs) : Prop := forall i, (l_misses (a i) + used (a' i) <= l_misses (a' i) + used (a i))%N.
  Definition exact (a a' : lcs) : Prop := forall i, (l_misses (a i) + used (a' i) = l_misses (a' i) + used (a i))%N.
  Lemma more_trans : forall a b c, more a b -> more b c -> more a c.
  Proof. intros a b c H1 H2 i. specialize (H1 i). specialize (H2 i). lia. Qed.
  Lemma exact_trans : forall a b c, exact a b -> exact b c -> exact a c.
  Proof. intros a b c H1 H2 i. specialize (H1 i). specialize (H2 i). lia. Qed.
  Lemma exact_more : forall a b, exact a b -> more a b.
  Proof. intros a b H i. specialize (H i). lia. Qed.

  Lemma note_binv : forall op a, binv a -> binv (l_note_filtered kind op a) /\ exact a (l_note_filtered kind op a).
  Proof.
    intros op a I. unfold l_note_filtered, l_set. split; intros i; destruct (Nat.eqb i (kind op)) eqn:X; auto;
      apply Nat.eqb_eq in X; subst i; [apply (I (kind op))|reflexivity].
  Qed.
  Lemma find_binv : forall op a r b a', binv a -> l_find_op key keq kind op a = Ok (r, b, a') -> binv a' /\
    match r with
    | Some _ => exact a a'
    | None => forall i, (l_misses (a i) + used (a' i) + (if Nat.eqb i (kind op) then 1 else 0) = l_misses (a' i) + used (a i))%N
    end.
  Proof.
    intros op a r b a' I E1. unfold l_find_op in E1. injection E1 as <- <- <-.
    destruct (I (kind op)) as [I1 I2].
    pose proof (l_find_perm key keq keq_spec op (l_call (a (kind op))) I2) as P. cbn [l_call entries] in P.
    unfold l_find in *. cbn [l_call entries] in *. destruct (find (is_op key keq op) (entries (a (kind op)))) as [e|] eqn:F; cbn [fst snd entries] in *.
    - split.
      + intros i. unfold l_set. destruct (Nat.eqb i (kind op)); [|apply I]. cbn [capacity entries]. split; auto.
        eapply Permutation_NoDup; [apply Permutation_map; symmetry; exact P|auto].
      + intros i. unfold l_set. destruct (Nat.eqb i (kind op)) eqn:X; [|reflexivity]. apply Nat.eqb_eq in X. subst i.
        unfold used. cbn [l_call l_misses entries l_discarded]. apply Permutation_length in P. rewrite P. reflexivity.
    - split.
      + intros i. unfold l_set. destruct (Nat.eqb i (kind op)); [|apply I]. cbn [capacity entries]. auto.
      + intros i. unfold l_set. destruct (Nat.eqb i (kind op)) eqn:X; [|lia]. apply Nat.eqb_eq in X. subst i.
        unfold used. cbn [l_call l_misses entries l_discarded]. lia.
  Qed.
  Lemma store_binv : forall op r b a a', binv a -> l_store_op key keq kind op r b a = Ok a' -> binv a' /\
    forall i, (l_misses (a i) + used (a' i) = l_misses (a' i) + used (a i) + (if Nat.eqb i (kind op) then 1 else 0))%N.
  Proof.
    intros op r b a a' I E1. unfold l_store_op, l_store in E1. destruct (I (kind op)) as [I1 I2].
    destruct (existsb (is_op key keq op) (entries (a (kind op)))) eqn:X; [discriminate|].
    assert (Hn : ~ In (key op) (map (fun e => key (fst e)) (entries (a (kind op))))).
    { intros H. apply in_map_iff in H. destruct H as (e & H1 & H2).
      assert (Y : existsb (is_op key keq op) (entries (a (kind op))) = true); [|congruence].
      apply existsb_exists. exists e. split; auto. unfold is_op. apply keq_spec. auto. }
    destruct (N.eqb_spec (N.of_nat (length (entries (a (kind op))))) (capacity (a (kind op)))) as [Q|Q]; cbn [rbind] in E1; injection E1 as <-.
    - assert (Hl : exists e es, entries (a (kind op)) = e :: es) by (destruct (entries (a (kind op))); [cbn in Q; lia|eauto]).
      destruct Hl as (e & es & Hl). split; intros i; unfold l_set; destruct (Nat.eqb i (kind op)) eqn:Y; try apply I; try lia.
      + cbn [capacity entries]. split; auto. rewrite Hl in *. cbn [tl map] in *. inversion I2; subst. rewrite map_app. cbn [map fst].
        eapply Permutation_NoDup; [apply Permutation_app_comm|]. cbn [app]. constructor; auto. intros H. apply Hn. now right.
      + apply Nat.eqb_eq in Y. subst i. unfold used. cbn [l_misses entries l_discarded]. rewrite Hl. cbn [tl]. rewrite app_length. cbn [length]. lia.
    - split; intros i; unfold l_set; destruct (Nat.eqb i (kind op)) eqn:Y; try apply I; try lia.
      + cbn [capacity entries]. split; auto. rewrite map_app. cbn [map fst].
        eapply Permutation_NoDup; [apply Permutation_app_comm|]. cbn [app]. constructor; auto.
      + apply Nat.eqb_eq in Y. subst i. unfold used. cbn [l_misses entries l_discarded]. rewrite app_length. cbn [length]. lia.
  Qed.

  Definition balanced {A : Type} (a : lcs) (x : res (cerr E herr) A * lcs) : Prop :=
    binv (snd x) /\ more a (snd x) /\ forall v, fst x = Ok v -> exact a (snd x).
  Lemma exec_balance : forall (f : Op -> lcs -> res (cerr E herr) R * lcs), (forall op a, binv a -> balanced a (f op a)) ->
    forall A (p : prog Op R E A) a, binv a -> balanced a (exec f p a).
  Proof.
    intros f Hf A p. induction p as [x|e|op k IH]; intros a I; cbn [exec].
    - split; [exact I|]. split; [intros i; cbn; lia|]. intros v _ i. reflexivity.
    - split; [exact I|]. split; [intros i; cbn; lia|]. intros v X. discriminate.
    - destruct (Hf op a I) as (J1 & J2 & J3). destruct (f op a) as [[r|e] a'] eqn:Ef; cbn [fst snd] in *.
      + destruct (IH r a' J1) as (J4 & J5 & J6). split; auto. split; [eapply more_trans; eauto|]. intros v X.
        eapply exact_trans; [apply (J3 r); auto|]. eauto.
      + split; auto. split; auto. intros v X. discriminate.
  Qed.
  Lemma look_balance : forall n op a, binv a -> balanced a (llook n op a).
  Proof.
    induction n as [|n IH]; intros op a I; cbn [lookup].
    - split; [exact I|]. split; [intros i; cbn; lia|]. intros v X. discriminate.
    - destruct (accept op).
      + destruct (l_find_op key keq kind op a) as [[[r b] a1]|] eqn:Ef.
        * destruct (find_binv op a r b a1 I Ef) as [I1 Q]. destruct r as [r|].
          -- split; [exact I1|]. split; [apply exact_more; exact Q|]. intros v _. exact Q.
          -- destruct (exec_balance (llook n) IH _ (body op) a1 I1) as (J1 & J2 & J3).
             destruct (exec (llook n) (body op) a1) as [[r|e] a2]; cbn [fst snd] in *.
             ++ destruct (l_store_op key keq kind op r b a2) as [a3|] eqn:Es.
                ** destruct (store_binv op r b a2 a3 J1 Es) as [I3 Q3].
                   assert (X : exact a a3).
                   { intros i. specialize (Q i). specialize (Q3 i). specialize (J3 r eq_refl i). lia. }
                   split; [exact I3|]. split; [apply exact_more; exact X|]. intros v _. exact X.
                ** split; [exact J1|]. split; [|intros v X; discriminate]. intros i. specialize (Q i). specialize (J2 i). cbn [snd]. lia.
             ++ split; [exact J1|]. split; [|intros v X; discriminate]. intros i. specialize (Q i). specialize (J2 i). cbn [snd]. lia.
        * split; [exact I|]. split; [intros i; cbn; lia|]. intros v X. discriminate.
      + destruct (note_binv op a I) as [I1 Q]. destruct (exec_balance (llook n) IH _ (body op) _ I1) as (J1 & J2 & J3).
        split; [exact J1|]. split; [eapply more_trans; [apply exact_more; exact Q|exact J2]|]. intros v X.
        eapply exact_trans; [exact Q|eauto].
  Qed.
  Lemma progs_balance : forall fuel h a, binv a ->
    binv (lru_progs body key keq kind accept h fuel a) /\ more a (lru_progs body key keq kind accept h fuel a).
  Proof.
    intros fuel h. induction h as [|p h IH]; intros a I; cbn [lru_progs]; [split; auto; intros i; lia|].
    destruct (exec_balance (llook fuel) (look_balance fuel) _ p a I) as (J1 & J2 & _).
    destruct (IH _ J1) as [J3 J4]. split; auto. eapply more_trans; eauto.
  Qed.
  Lemma progs_exact : forall efuel (efuel_dec : forall e : E, {e = efuel} + {e <> efuel}) (good : Op -> Prop),
    (forall n op op', good op -> calls (peval efuel body n) (body op) op' -> good op') ->
    (forall a b, kind a = kind b -> key a = key b -> good a -> good b -> forall n, peval efuel body n a = peval efuel body n b) ->
    forall fuel h a, binv a -> linv efuel body key kind accept good a -> Forall (fun p => legal_cop efuel body good fuel (CRun p)) h ->
    Forall (fun p => exists r, interp (peval efuel body fuel) p = Ok r) h ->
    exact a (lru_progs body key keq kind accept h fuel a).
  Proof.
    intros efuel ED good GC SE fuel h. induction h as [|p h IH]; intros a I Li L Hh; cbn [lru_progs]; [intros i; reflexivity|].
    inversion L as [|? ? [L1 L2] L3]; subst. inversion Hh as [|? ? [r Hr] H2]; subst.
    destruct (l_run_correct efuel ED body key keq keq_spec kind accept good GC SE fuel fuel p a (le_n _) Li L2 L1) as (a' & E1 & Li').
    destruct (exec_balance (llook fuel) (look_balance fuel) _ p a I) as (J1 & J2 & J3). rewrite E1 in *. cbn [fst snd] in *.
    eapply exact_trans; [apply (J3 r); rewrite Hr; reflexivity|]. now apply IH.
  Qed.
End Balance.

(** Without clear(), entries and discarded entries are misses; all misses, if no evaluation of the history fails. *)
Theorem C61_cache : forall (Op K R E : Type) (efuel : E), (forall e : E, {e = efuel} + {e <> efuel}) ->
  forall (body : Op -> prog Op R E R) (key : Op -> K) keq (hash : K -> N),
  (forall a b, keq a b = true <-> a = b) ->
  forall (kind : Op -> nat) (accept : Op -> bool) (good : Op -> Prop),
  (forall n op op', good op -> calls (peval efuel body n) (body op) op' -> good op') ->
  (forall a b, kind a = kind b -> key a = key b -> good a -> good b -> forall n, peval efuel body n a = peval efuel body n b) ->
  forall (sizes : nat -> N), (forall i, (2 <= sizes i <= 2 ^ 63)%N) ->
  forall fuel h s, new_caches sizes s -> Forall (fun p => legal_cop efuel body good fuel (CRun p)) h ->
  forall i, let c := run_progs body key keq hash kind accept h fuel s i in
  (size_ (tab c) + discarded c <= misses c)%N /\
  (Forall (fun p => exists r, interp (peval efuel body fuel) p = Ok r) h -> (size_ (tab c) + discarded c = misses c)%N) /\
  exists cl al em, collisions (cmem c) (tab c) = Ok (cl, al, em) /\ (cl + al + em = nb (tab c))%N /\
                   nb (tab c) = next_power_of_2_64 (sizes i).
Proof.
  intros Op K R E efuel ED body key keq hash KS kind accept good GC SE sizes SZ fuel h s HN L i.
  pose proof (C19_lru Op K R E efuel ED body key keq hash KS kind accept good GC SE sizes SZ fuel h s HN L i) as H.
  cbv zeta in *. destruct H as (H1 & H2 & H3 & H4 & H5 & H6 & H7).
  destruct (new_rel efuel body key hash kind accept good sizes SZ s HN) as [R0 I0].
  assert (B0 : binv key (fun i => l_empty (max_load (next_power_of_2_64 (sizes i))) : lru_cache Op R)).
  { intros j. destruct (I0 j) as (A & _ & _ & D & _). split; auto. }
  split; [|split].
  - destruct (progs_balance body key keq KS kind accept fuel h _ B0) as [_ Q]. specialize (Q i). unfold used in Q at 2.
    cbn [l_empty l_misses entries length l_discarded] in Q. unfold used in Q. rewrite H2, H5, H7. lia.
  - intros Hh. pose proof (progs_exact body key keq KS kind accept efuel ED good GC SE fuel h _ B0 I0 L Hh i) as Q. unfold used in Q at 2.
    cbn [l_empty l_misses entries length l_discarded] in Q. unfold used in Q. rewrite H2, H5, H7. lia.
  - destruct (progs_sim efuel ED body key keq hash KS kind accept good GC SE sizes fuel h s _ R0 I0 L) as [R1 _].
    destruct (R1 i) as (N1 & (els & fl & C1 & _) & _).
    destruct (collisions_ok _ hash _ _ els (k_table _ _ _ _ _ _ C1)) as (bs & Rp & P & EC). rewrite EC. do 3 eexists. split; [reflexivity|].
    split; [|exact N1].
    rewrite <- (N2Nat.id (nb _)), <- (r_len _ _ _ _ _ _ _ Rp). pose proof (r_chain _ _ _ _ _ _ _ Rp) as F. clear - F. unfold nb_with.
    induction F as [|x l b bs _ _ IH]; [reflexivity|]. cbn [filter].
    destruct (length l) as [|[|n]]; cbn [Nat.ltb Nat.leb Nat.eqb length] in *; lia.
Qed.
Print Assumptions C61_cache.

(** The cache of integers of C19: 32 misses, 3 entries, 29 discarded entries. *)
Example C61_cache_example :
  let l := lru_progs fib_body (fun n => n) N.eqb (fun _ => 0) (fun n => negb (n =? 3)%N)
             [Call 10 (fun r => Ret r); Call 4 (fun r => Ret r)]%N 20 (fun _ => l_empty (max_load 4)) 0 in
  Forall (fun p => exists r, interp (peval tt fib_body 20) p = Ok r) [Call 10 (fun r => Ret r); Call 4 (fun r => Ret r)]%N /\
  length (entries l) = 3 /\ l_misses l = 32%N /\ l_discarded l = 29%N.
Proof.
  split.
  - repeat constructor; eexists; vm_compute; reflexivity.
  - vm_compute. repeat split.
Qed.
