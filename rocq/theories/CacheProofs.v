(** * Invariant of the cache *)

From Coq Require Import List Bool NArith Arith Lia Permutation.
From Verif Require Import Base Pow2 HashTable Cached Cache.
Import ListNotations.

Section CacheProofs.
  Context {Op K R : Type}.
  Variable key : Op -> K.
  Variable keq : K -> K -> bool.
  Variable hash : K -> N.
  Hypothesis keq_spec : forall a b, keq a b = true <-> a = b.
  Notation ekey := (ekey (R := R) key).
  Notation cache := (cache Op R).
  (** What is known of stored results. *)
  Variable P : Op -> R -> Prop.

  Fixpoint fchain (lk : ptr -> option ptr) (cur : option ptr) (l : list ptr) : Prop :=
    match l with
    | [] => cur = None
    | p :: r => cur = Some p /\ fchain lk (lk p) r
    end.
  Lemma fchain_ext : forall lk lk' l cur, (forall p, In p l -> lk' p = lk p) -> fchain lk cur l -> fchain lk' cur l.
  Proof.
    intros lk lk' l. induction l as [|p l IH]; intros cur H F; cbn [fchain] in *; auto.
    destruct F as [-> F]. split; auto. rewrite H by (simpl; auto). apply IH; auto. intros q Hq. apply H. now right.
  Qed.

  Record cache_ok (c : cache) (els fl : list ptr) : Prop := {
    k_table : table_ok ekey hash (cmem c) (tab c) els;
    k_pos : (1 <= max_size c)%N;
    k_free : fchain (links c) (free c) fl;
    k_slots : Permutation (els ++ fl) (slots (max_size c));
    k_only : forall p ce, cmem c p = Some ce -> In p els;
    k_ids : NoDup (map fst (lru c));
    k_fresh : forall x, In x (lru c) -> (fst x < fresh c)%N;
    k_ptrs : forall x, In x (lru c) -> In (snd x) (slots (max_size c));
    k_own : forall p d, In p els -> dat (cmem c) p = Some d -> In (e_cit d, p) (lru c);
    k_val : forall p d, In p els -> dat (cmem c) p = Some d -> P (e_op d) (e_res d)
  }.

  Lemma slots_nodup : forall n, NoDup (slots n).
  Proof.
    intros n. unfold slots. apply FinFun.Injective_map_NoDup; [|apply seq_NoDup]. intros a b H. now apply Nnat.Nat2N.inj.
  Qed.
  Lemma slots_length : forall n, length (slots n) = N.to_nat n.
  Proof. intros n. unfold slots. now rewrite map_length, seq_length. Qed.

  Lemma ok_nodup : forall c els fl, cache_ok c els fl -> NoDup (els ++ fl).
  Proof. intros c els fl I. eapply Permutation_NoDup; [symmetry; apply (k_slots _ _ _ I)|apply slots_nodup]. Qed.
  Lemma ok_length : forall c els fl, cache_ok c els fl -> length els + length fl = N.to_nat (max_size c).
  Proof.
    intros c els fl I. rewrite <- app_length, (Permutation_length (k_slots _ _ _ I)). apply slots_length.
  Qed.
  Lemma ok_size : forall c els fl, cache_ok c els fl -> size_ (tab c) = N.of_nat (length els).
  Proof. intros c els fl I. apply (table_size ekey hash (cmem c)). apply (k_table _ _ _ I). Qed.
  Lemma ok_free_none : forall c els fl p, cache_ok c els fl -> In p fl -> cmem c p = None.
  Proof.
    intros c els fl p I H. destruct (cmem c p) as [ce|] eqn:E1; auto.
    pose proof (k_only _ _ _ I p ce E1) as He. pose proof (ok_nodup _ _ _ I) as ND.
    now destruct (nodup_app_inv _ els fl p ND He).
  Qed.
  Lemma ok_cell : forall c els fl p, cache_ok c els fl -> In p els -> exists ce, cmem c p = Some ce.
  Proof.
    intros c els fl p I H. destruct (table_dat ekey hash _ _ els p (k_table _ _ _ I) H) as (d & Hd).
    unfold dat in Hd. destruct (cmem c p); [eauto|discriminate].
  Qed.

  Lemma find_id : forall (l : list (N * ptr)) id p, NoDup (map fst l) -> In (id, p) l ->
    find (fun x => N.eqb (fst x) id) l = Some (id, p).
  Proof.
    induction l as [|[i q] l IH]; intros id p ND []; cbn [find fst map] in *; inversion ND as [|? ? N1 N2]; subst.
    - injection H as -> ->. now rewrite N.eqb_refl.
    - destruct (N.eqb_spec i id) as [->|]; auto. exfalso. apply N1. apply in_map_iff. now exists (id, p).
  Qed.
  Lemma filter_perm : forall (l : list (N * ptr)) id p, NoDup (map fst l) -> In (id, p) l ->
    Permutation l (filter (fun y => negb (N.eqb (fst y) id)) l ++ [(id, p)]).
  Proof.
    intros l id p ND H. rewrite Permutation_app_comm. cbn [app].
    induction l as [|[i q] l IH]; [contradiction|]. cbn [filter fst map] in *. inversion ND as [|? ? N1 N2]; subst.
    destruct (N.eqb_spec i id) as [->|Hi]; cbn [negb].
    - destruct H as [H|H].
      + injection H as ->. constructor. replace (filter _ l) with l; auto. symmetry.
        clear - N1. induction l as [|[j r] l IH]; [reflexivity|]. cbn [filter fst].
        destruct (N.eqb_spec j id) as [->|]; cbn [negb].
        * exfalso. apply N1. now left.
        * rewrite IH; auto. intros H. apply N1. now right.
      + exfalso. apply N1. apply in_map_iff. now exists (id, p).
    - destruct H as [H|H]; [congruence|]. rewrite (IH N2 H) at 1. constructor.
  Qed.

  (** The node of an entry is moved at the end. *)
  Lemma hit_ok : forall c els fl p d, cache_ok c els fl -> In p els -> dat (cmem c) p = Some d ->
    exists c', hit p c = Ok (e_res d, c') /\ cache_ok c' els fl /\ cmem c' = cmem c /\ tab c' = tab c /\
      max_size c' = max_size c /\
      lru c' = filter (fun y => negb (N.eqb (fst y) (e_cit d))) (lru c) ++ [(e_cit d, p)] /\
      hits c' = (hits c + 1)%N /\ misses c' = misses c /\ filtered c' = filtered c /\ discarded c' = discarded c.
  Proof.
    intros c els fl p d I Hp Hd. unfold hit, deref. unfold dat in Hd. destruct (cmem c p) as [ce|] eqn:Ec; [|discriminate].
    injection Hd as Hd. cbn [rbind]. rewrite Hd.
    assert (Hown : In (e_cit d, p) (lru c)).
    { apply (k_own _ _ _ I); auto. unfold dat. rewrite Ec. simpl. now rewrite Hd. }
    rewrite (find_id _ _ p (k_ids _ _ _ I) Hown). eexists. split; [reflexivity|].
    pose proof (filter_perm _ _ p (k_ids _ _ _ I) Hown) as PL.
    split; [|cbn; repeat split; reflexivity].
    destruct I as [i1 i2 i3 i4 i5 i6 i7 i8 i9 i10].
    split; cbn [tab cmem lru fresh free links max_size]; auto.
    - eapply Permutation_NoDup; [apply Permutation_map, PL|auto].
    - intros x Hx. apply i7. eapply Permutation_in; [symmetry; exact PL|auto].
    - intros x Hx. apply i8. eapply Permutation_in; [symmetry; exact PL|auto].
    - intros q e Hq He. eapply Permutation_in; [exact PL|auto].
  Qed.

  Lemma find_none_ok : forall c els fl op, cache_ok c els fl -> 
    (forall p d, In p els -> dat (cmem c) p = Some d -> key (e_op d) <> key op) ->
    cache_find key keq hash op c = Ok (None, pos hash (key op) (nb (tab c)), count_miss c) /\
    cache_ok (count_miss c) els fl.
  Proof.
    intros c els fl op I H. unfold cache_find.
    destruct (insert_check_ok ekey keq hash keq_spec _ _ els (key op) (k_table _ _ _ I)) as (r & Er & Hr).
    rewrite Er. cbn [rbind]. destruct r as [p|].
    - destruct Hr as [H1 (d & H2 & H3)]. exfalso. now apply (H p d).
    - split; auto. destruct I. split; auto.
  Qed.
  Lemma find_some_ok : forall c els fl op p d, cache_ok c els fl -> In p els -> dat (cmem c) p = Some d ->
    key (e_op d) = key op ->
    exists c', cache_find key keq hash op c = Ok (Some (e_res d), pos hash (key op) (nb (tab c)), c') /\ cache_ok c' els fl /\
      cmem c' = cmem c /\ tab c' = tab c /\ max_size c' = max_size c /\
      lru c' = filter (fun y => negb (N.eqb (fst y) (e_cit d))) (lru c) ++ [(e_cit d, p)] /\
      hits c' = (hits c + 1)%N /\ misses c' = misses c /\ filtered c' = filtered c /\ discarded c' = discarded c.
  Proof.
    intros c els fl op p d I Hp Hd Hk. unfold cache_find.
    destruct (insert_check_ok ekey keq hash keq_spec _ _ els (key op) (k_table _ _ _ I)) as (r & Er & Hr).
    rewrite Er. cbn [rbind]. destruct r as [q|].
    - destruct Hr as [H1 (e & H2 & H3)].
      assert (q = p).
      { eapply (table_keys ekey hash _ _ els q p e d (k_table _ _ _ I)); auto. unfold Cache.ekey in *. congruence. }
      subst q. destruct (hit_ok c els fl p d I Hp Hd) as (c' & E1 & H'). rewrite E1. cbn [rbind fst snd]. eauto.
    - exfalso. apply (Hr p). split; auto. exists d. auto.
  Qed.

  Lemma destroy_mem : forall (c : cache) p ce, cmem c p = Some ce -> exists c', destroy p c = Ok c' /\
    tab c' = tab c /\ cmem c' = upd (cmem c) p None /\ lru c' = lru c /\ fresh c' = fresh c /\ free c' = Some p /\
    links c' = (fun q => if N.eqb q p then free c else links c q) /\ max_size c' = max_size c /\
    hits c' = hits c /\ misses c' = misses c /\ filtered c' = filtered c /\ discarded c' = discarded c.
  Proof. intros c p ce H. unfold destroy, deref. rewrite H. cbn [rbind]. eexists. split; [reflexivity|]. cbn. repeat split; reflexivity. Qed.

  (** When the table is full, every slot is in use: the oldest node designates an entry. *)
  Lemma evict_ok : forall c els, cache_ok c els [] ->
    exists id p rest els' c', lru c = (id, p) :: rest /\ Permutation els (p :: els') /\ evict key keq hash c = Ok c' /\
      cache_ok c' els' [p] /\ lru c' = rest /\ (forall q, q <> p -> dat (cmem c') q = dat (cmem c) q) /\
      cmem c' p = None /\ nb (tab c') = nb (tab c) /\ max_size c' = max_size c /\
      hits c' = hits c /\ misses c' = misses c /\ filtered c' = filtered c /\ discarded c' = (discarded c + 1)%N.
  Proof.
    intros c els I. pose proof (ok_length _ _ _ I) as HL. pose proof (k_pos _ _ _ I) as HP.
    assert (HPS : Permutation els (slots (max_size c))).
    { rewrite <- (k_slots _ _ _ I). now rewrite app_nil_r. }
    destruct (lru c) as [|[id p] rest] eqn:El.
    - exfalso. destruct els as [|q els]; [simpl in HL; lia|].
      destruct (table_dat ekey hash _ _ (q :: els) q (k_table _ _ _ I)) as (d & Hd); [now left|].
      pose proof (k_own _ _ _ I q d (or_introl eq_refl) Hd) as H. rewrite El in H. contradiction.
    - assert (Hp : In p els).
      { eapply Permutation_in; [symmetry; exact HPS|]. change p with (snd (id, p)). apply (k_ptrs _ _ _ I). rewrite El. now left. }
      destruct (in_split _ _ Hp) as (l1 & l2 & Es). 
      assert (PE : Permutation els (p :: l1 ++ l2)) by (rewrite Es; symmetry; apply Permutation_middle).
      destruct (ok_cell _ _ _ p I Hp) as (ce & Hce).
      pose proof (table_perm ekey hash _ _ _ _ (k_table _ _ _ I) PE) as T'.
      destruct (erase_ok ekey keq hash keq_spec _ _ _ p ce T' Hce) as (m2 & t2 & E2 & T2 & D2 & M2 & N2 & S2).
      assert (Hp2 : ~ In p (l1 ++ l2)).
      { pose proof (table_nodup _ _ _ _ _ T') as ND. now inversion ND. }
      exists id, p, rest, (l1 ++ l2). unfold evict. rewrite El, E2. cbn [rbind fst snd].
      set (c0 := {| tab := t2; cmem := m2; lru := (id, p) :: rest; fresh := fresh c; free := free c; links := links c;
                    max_size := max_size c; hits := hits c; misses := misses c; filtered := filtered c;
                    discarded := discarded c |}).
      assert (Hm2 : m2 p = Some ce) by (rewrite M2; auto).
      destruct (destroy_mem c0 p ce Hm2) as (c1 & E3 & A1 & A2 & A3 & A4 & A5 & A6 & A7 & A8 & A9 & A10 & A11).
      rewrite E3. cbn [rbind]. eexists. split; [reflexivity|]. split; [auto|]. split; [reflexivity|].
      cbn [tab cmem lru fresh free links max_size hits misses filtered discarded] in *.
      subst c0. cbn [tab cmem lru fresh free links max_size hits misses filtered discarded] in *.
      assert (DD : forall q, q <> p -> dat (cmem c1) q = dat (cmem c) q).
      { intros q Hq. rewrite A2. unfold dat. rewrite upd_other by auto. fold (dat m2 q). now rewrite D2. }
      pose proof (k_free _ _ _ I) as HF. cbn [fchain] in HF.
      assert (NDI : NoDup (map fst ((id, p) :: rest))) by (rewrite <- El; apply (k_ids _ _ _ I)).
      split; [|repeat split; auto; try congruence; rewrite A2; apply upd_same].
      split; cbn [tab cmem lru fresh free links max_size hits misses filtered discarded]; rewrite ?A1, ?A4, ?A5, ?A6, ?A7.
      + rewrite A2. apply (table_ext ekey hash m2); auto. intros q Hq. apply upd_other. congruence.
      + exact HP.
      + cbn [fchain]. split; auto. rewrite N.eqb_refl. exact HF.
      + rewrite Permutation_app_comm. cbn [app]. now rewrite <- PE.
      + intros q cq Hq. rewrite A2 in Hq. destruct (N.eq_dec q p) as [->|Hn]; [rewrite upd_same in Hq; discriminate|].
        rewrite upd_other in Hq by auto.
        assert (Hq' : In q els).
        { destruct (cmem c q) as [cq'|] eqn:X; [now apply (k_only _ _ _ I q cq')|].
          assert (Y : dat m2 q = dat (cmem c) q) by apply D2. unfold dat in Y. rewrite Hq, X in Y. discriminate. }
        eapply Permutation_in in Hq'; [|exact PE]. destruct Hq' as [->|]; [congruence|auto].
      + now inversion NDI.
      + intros x Hx. apply (k_fresh _ _ _ I). rewrite El. now right.
      + intros x Hx. apply (k_ptrs _ _ _ I). rewrite El. now right.
      + intros q d Hq Hd. assert (q <> p) by congruence. rewrite DD in Hd by auto.
        assert (Hq' : In q els) by (eapply Permutation_in; [symmetry; exact PE|now right]).
        pose proof (k_own _ _ _ I q d Hq' Hd) as HO. rewrite El in HO. destruct HO as [HO|]; auto. congruence.
      + intros q d Hq Hd. assert (q <> p) by congruence. rewrite DD in Hd by auto.
        assert (Hq' : In q els) by (eapply Permutation_in; [symmetry; exact PE|now right]).
        now apply (k_val _ _ _ I q d).
  Qed.

  (** Room for one entry: it takes the head of the free list. *)
  Definition push (op : Op) (r : R) (b : N) (c1 : cache) : res herr cache :=
    rbind (pool_allocate c1) (fun pc =>
    let '(p, c2) := pc in
    let id := fresh c2 in
    let m := upd (cmem c2) p (Some {| c_data := {| e_op := op; e_res := r; e_cit := id |}; c_next := None |}) in
    rbind (insert_commit m (tab c2) p b) (fun mt =>
    Ok {| tab := snd mt; cmem := fst mt; lru := lru c2 ++ [(id, p)]; fresh := (id + 1)%N; free := free c2;
          links := links c2; max_size := max_size c2; hits := hits c2; misses := misses c2;
          filtered := filtered c2; discarded := discarded c2 |})).
  Lemma push_ok : forall c els p fl op r, cache_ok c els (p :: fl) -> P op r ->
    (forall q d, In q els -> dat (cmem c) q = Some d -> key (e_op d) <> key op) ->
    exists c', push op r (pos hash (key op) (nb (tab c))) c = Ok c' /\ cache_ok c' (p :: els) fl /\
      lru c' = lru c ++ [(fresh c, p)] /\
      dat (cmem c') p = Some {| e_op := op; e_res := r; e_cit := fresh c |} /\
      (forall q, q <> p -> dat (cmem c') q = dat (cmem c) q) /\ nb (tab c') = nb (tab c) /\ max_size c' = max_size c /\
      hits c' = hits c /\ misses c' = misses c /\ filtered c' = filtered c /\ discarded c' = discarded c.
  Proof.
    intros c els p fl op r I HP HK.
    pose proof (ok_nodup _ _ _ I) as ND.
    assert (Hpe : ~ In p els).
    { intros H. apply (nodup_app_inv _ _ _ p ND H). now left. }
    assert (Hnone : cmem c p = None) by (apply (ok_free_none _ _ _ p I); now left).
    pose proof (k_free _ _ _ I) as HF. cbn [fchain] in HF. destruct HF as [HF1 HF2].
    unfold push, pool_allocate. rewrite HF1, Hnone. cbn [rbind tab cmem lru fresh free links max_size].
    set (d0 := {| e_op := op; e_res := r; e_cit := fresh c |}).
    set (cx := {| c_data := d0; c_next := None |}). set (m1 := upd (cmem c) p (Some cx)).
    assert (T1 : table_ok ekey hash m1 (tab c) els).
    { apply (table_ext ekey hash (cmem c)); [apply (k_table _ _ _ I)|]. intros q Hq. apply upd_other. congruence. }
    assert (Hm1 : m1 p = Some cx) by apply upd_same.
    assert (D1 : forall q, q <> p -> dat m1 q = dat (cmem c) q) by (intros q Hq; unfold dat, m1; now rewrite upd_other).
    destruct (insert_commit_ok ekey hash m1 (tab c) els p cx T1 Hm1 eq_refl Hpe) as (m2 & t2 & E2 & T2 & D2 & M2 & N2 & S2).
    { intros q [Hq (d & Hd & Hkd)]. apply (HK q d Hq); [|exact Hkd]. rewrite <- D1; auto. congruence. }
    cbn [c_data cx] in E2. change (ekey d0) with (key op) in E2. rewrite E2. cbn [rbind fst snd].
    assert (Dp : dat m2 p = Some d0) by (rewrite D2; unfold dat; now rewrite Hm1).
    assert (Dq : forall q, q <> p -> dat m2 q = dat (cmem c) q) by (intros q Hq; rewrite D2; auto).
    eexists. split; [reflexivity|]. cbn [tab cmem lru fresh free links max_size hits misses filtered discarded].
    split; [|repeat split; auto].
    destruct I as [i1 i2 i3 i4 i5 i6 i7 i8 i9 i10].
    split; cbn [tab cmem lru fresh free links max_size]; auto.
    - rewrite <- i4. cbn [app]. apply Permutation_middle.
    - intros q cq Hq. destruct (N.eq_dec q p) as [->|Hn]; [now left|right].
      assert (X : dat (cmem c) q = Some (c_data cq)) by (rewrite <- Dq by auto; unfold dat; now rewrite Hq).
      unfold dat in X. destruct (cmem c q) as [cq'|] eqn:Y; [now apply (i5 q cq')|discriminate].
    - rewrite map_app. cbn [map fst]. apply Permutation_NoDup with (fresh c :: map fst (lru c)).
      + rewrite Permutation_app_comm. reflexivity.
      + constructor; auto. intros H. apply in_map_iff in H. destruct H as (x & Ex & Hx). pose proof (i7 x Hx). lia.
    - intros x Hx. apply in_app_iff in Hx. destruct Hx as [Hx|[<-|[]]]; [pose proof (i7 x Hx); lia|cbn [fst]; lia].
    - intros x Hx. apply in_app_iff in Hx. destruct Hx as [Hx|[<-|[]]]; [now apply i8|]. cbn [snd].
      eapply Permutation_in; [exact i4|]. apply in_app_iff. right. now left.
    - intros q d Hq Hd. apply in_app_iff. destruct (N.eq_dec q p) as [->|Hn].
      + right. rewrite Dp in Hd. injection Hd as <-. now left.
      + left. rewrite Dq in Hd by auto. destruct Hq as [->|Hq]; [congruence|]. now apply i9.
    - intros q d Hq Hd. destruct (N.eq_dec q p) as [->|Hn].
      + rewrite Dp in Hd. injection Hd as <-. exact HP.
      + rewrite Dq in Hd by auto. destruct Hq as [->|Hq]; [congruence|]. now apply (i10 q d).
  Qed.
  Lemma store_push : forall op r b c, cache_store key keq hash op r b c =
    rbind (if N.eqb (size_ (tab c)) (max_size c) then evict key keq hash c else Ok c) (push op r b).
  Proof. reflexivity. Qed.

  Lemma full_iff : forall c els fl, cache_ok c els fl -> N.eqb (size_ (tab c)) (max_size c) = true <-> fl = [].
  Proof.
    intros c els fl I. pose proof (ok_length _ _ _ I) as HL. pose proof (ok_size _ _ _ I) as HS.
    rewrite N.eqb_eq, HS. destruct fl; simpl in HL; split; intros H; try discriminate; auto; lia.
  Qed.

  Lemma store_ok : forall c els fl op r, cache_ok c els fl -> P op r ->
    (forall q d, In q els -> dat (cmem c) q = Some d -> key (e_op d) <> key op) ->
    exists c' els' fl' p, cache_store key keq hash op r (pos hash (key op) (nb (tab c))) c = Ok c' /\
      cache_ok c' els' fl' /\ nb (tab c') = nb (tab c) /\ max_size c' = max_size c /\
      (exists d, dat (cmem c') p = Some d /\ e_op d = op /\ e_res d = r) /\
      (forall q d, q <> p -> dat (cmem c') q = Some d -> dat (cmem c) q = Some d).
  Proof.
    intros c els fl op r I HP HK. rewrite store_push. destruct (full_iff _ _ _ I) as [HF1 HF2].
    destruct (N.eqb (size_ (tab c)) (max_size c)) eqn:Ef.
    - assert (fl = []) by auto. subst fl.
      destruct (evict_ok c els I) as (id & p & rest & els' & c1 & El & PE & E1 & I1 & L1 & D1 & M1 & N1 & X1 & _).
      rewrite E1. cbn [rbind]. rewrite <- N1.
      assert (Hnp : forall q, In q els' -> q <> p).
      { intros q Hq. pose proof (ok_nodup _ _ _ I1) as ND. intros ->. apply (nodup_app_inv _ _ _ p ND Hq). now left. }
      destruct (push_ok c1 els' p [] op r I1 HP) as (c2 & E2 & I2 & L2 & D2 & D2' & N2 & X2 & _).
      { intros q d Hq Hd. apply (HK q d).
        - eapply Permutation_in; [symmetry; exact PE|now right].
        - rewrite <- D1; auto. }
      rewrite E2. exists c2, (p :: els'), [], p. split; [reflexivity|]. split; [exact I2|]. split; [congruence|]. split; [congruence|]. split.
      + eexists. split; [exact D2|]. auto.
      + intros q d Hq Hd. rewrite D2' in Hd by auto. now rewrite <- D1.
    - destruct fl as [|p fl]; [now specialize (HF2 eq_refl)|]. cbn [rbind].
      destruct (push_ok c els p fl op r I HP HK) as (c2 & E2 & I2 & L2 & D2 & D2' & N2 & X2 & _).
      rewrite E2. exists c2, (p :: els), fl, p. split; [reflexivity|]. split; [exact I2|]. split; [congruence|]. split; [congruence|]. split.
      + eexists. split; [exact D2|]. auto.
      + intros q d Hq Hd. rewrite D2' in Hd by auto. auto.
  Qed.

  (** *** Clearing *)

  Definition clearing (c0 : cache) (els : list ptr) (c : cache) : Prop :=
    NoDup els /\ tab c = tab c0 /\ lru c = lru c0 /\ fresh c = fresh c0 /\ max_size c = max_size c0 /\
    (forall p, In p els <-> exists ce, cmem c p = Some ce) /\
    exists fl, fchain (links c) (free c) fl /\ Permutation (els ++ fl) (slots (max_size c0)).
  Lemma clear_ok : forall c els fl, cache_ok c els fl ->
    exists c' fl', clear c = Ok c' /\ cache_ok c' [] fl' /\ nb (tab c') = nb (tab c) /\ max_size c' = max_size c /\
      (forall p, cmem c' p = None) /\ lru c' = lru c.
  Proof.
    intros c els fl I. unfold clear.
    pose proof I as [i1 i2 i3 i4 i5 i6 i7 i8 i9 i10].
    destruct (HashTable.clear_ok ekey hash (cmem (R := R)) destroy (clearing c)) with (t := tab c) (els := els) (s := c)
      as (c1 & t1 & E1 & C1 & T1 & N1 & S1); auto.
    - intros p l s (ND & A1 & A2 & A3 & A4 & A5 & f & A6 & A7) _.
      destruct (proj1 (A5 p)) as (ce & Hce); [now left|].
      destruct (destroy_mem s p ce Hce) as (s' & E1 & B1 & B2 & B3 & B4 & B5 & B6 & B7 & _).
      inversion ND as [|? ? ND1 ND2]; subst.
      exists s'. split; auto. split.
      + split; auto. split; [congruence|]. split; [congruence|]. split; [congruence|]. split; [congruence|]. split.
        * intros q. rewrite B2. destruct (N.eq_dec q p) as [->|Hn].
          -- rewrite upd_same. split; [tauto|]. intros (ce' & X). discriminate.
          -- rewrite upd_other by auto. rewrite <- A5. simpl. split; auto. intros [->|]; [congruence|auto].
        * exists (p :: f). rewrite B5, B6. cbn [fchain]. split.
          -- split; auto. rewrite N.eqb_refl. apply (fchain_ext (links s)); auto.
             intros q Hq. destruct (N.eqb_spec q p) as [->|]; auto. exfalso.
             assert (NDA : NoDup ((p :: l) ++ f)) by (eapply Permutation_NoDup; [symmetry; exact A7|apply slots_nodup]).
             apply (nodup_app_inv _ (p :: l) f p NDA); [now left|auto].
          -- rewrite <- A7. cbn [app]. symmetry. apply Permutation_middle.
      + intros q Hq. rewrite B2. apply upd_other. congruence.
    - intros l PL. split; [|split; [|split; [|split; [|split; [|split]]]]]; auto.
      + eapply Permutation_NoDup; [exact PL|]. apply (table_nodup _ _ _ _ _ i1).
      + intros p. split.
        * intros Hp. apply (ok_cell c els fl); auto. eapply Permutation_in; [symmetry; exact PL|auto].
        * intros (ce & Hce). eapply Permutation_in; [exact PL|]. now apply (i5 p ce).
      + exists fl. split; auto. now rewrite <- PL.
    - rewrite E1. cbn [rbind fst snd]. destruct C1 as (_ & A1 & A2 & A3 & A4 & A5 & f & A6 & A7).
      assert (MN : forall p, cmem c1 p = None).
      { intros p. destruct (cmem c1 p) as [ce|] eqn:X; auto. exfalso. apply (proj2 (A5 p)). eauto. }
      eexists _, f. split; [reflexivity|]. cbn [tab cmem lru fresh free links max_size].
      split; [|repeat split; auto].
      split; cbn [tab cmem lru fresh free links max_size]; rewrite ?A2, ?A3, ?A4; auto.
      + intros p ce Hp. now rewrite MN in Hp.
      + intros p d [].
      + intros p d [].
  Qed.

  (** *** A new cache *)

  Lemma pool_chain : forall n k i, (i + N.of_nat k = n)%N -> (0 < k)%nat ->
    fchain (pool_links n) (Some i) (map (fun j => i + N.of_nat j)%N (seq 0 k)).
  Proof.
    intros n k. induction k as [|k IH]; intros i Hi Hk; [lia|]. cbn [seq map fchain]. split; [now rewrite N.add_0_r|].
    rewrite N.add_0_r. unfold pool_links at 2.
    destruct (N.eqb_spec (i + 1) n) as [He|Hne].
    - assert (k = 0) by lia. subst k. reflexivity.
    - rewrite <- seq_shift, map_map.
      replace (map (fun x => i + N.of_nat (S x))%N (seq 0 k)) with (map (fun j => i + 1 + N.of_nat j)%N (seq 0 k)).
      + apply IH; lia.
      + apply map_ext. intros a. lia.
  Qed.
  Lemma make_cache_ok : forall size, (2 <= size)%N -> (size <= 2 ^ 63)%N ->
    exists c, make_cache size = Ok c /\ cache_ok c [] (slots (max_size c)) /\ nb (tab c) = next_power_of_2_64 size /\
      max_size c = max_load (next_power_of_2_64 size) /\ (forall p, cmem c p = None) /\ lru c = [] /\
      hits c = 0%N /\ misses c = 0%N /\ filtered c = 0%N /\ discarded c = 0%N.
  Proof.
    intros size H1 H2. unfold make_cache.
    destruct (np64_spec size) as (e & Ee & He & Hle & _); [lia|auto|].
    assert (Hm : (1 <= max_load (next_power_of_2_64 size))%N).
    { unfold max_load. rewrite Ee. apply N.div_le_lower_bound; [lia|].
      assert (2 <= 2 ^ e)%N by lia. lia. }
    cbn [nb make_table]. destruct (N.eqb_spec (max_load (next_power_of_2_64 size)) 0) as [X|_]; [lia|].
    eexists. split; [reflexivity|]. cbn [tab cmem lru fresh free links max_size hits misses filtered discarded nb make_table].
    split; [|repeat split; auto].
    split; cbn [tab cmem lru fresh free links max_size]; auto.
    - apply make_table_ok; lia.
    - replace (slots (max_load (next_power_of_2_64 size))) with
        (map (fun j => 0 + N.of_nat j)%N (seq 0 (N.to_nat (max_load (next_power_of_2_64 size))))).
      + apply pool_chain; lia.
      + unfold slots. apply map_ext. intros a. lia.
    - discriminate.
    - constructor.
    - intros x [].
    - intros x [].
    - intros p d [].
  Qed.
End CacheProofs.
