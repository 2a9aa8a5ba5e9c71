(** * Failures of memory allocation (std::bad_alloc) in the unicity table

    A creation of a node calls the allocator at two places: new char[] in unique_table::allocate, and new Data*[] when the
    hash table grows.  Both may throw std::bad_alloc; the exception goes through unify_node and the constructor of the
    handle, and is caught by the program.  Nothing between has a handler or a destructor that undoes what was done. *)

From Coq Require Import List Bool NArith Arith Lia Permutation.
From Verif Require Import Base Pow2 HashTable Heap HeapProofs HeapTheorems Cached Cache CacheProofs.
Import ListNotations.

Section Model.
  Context {L : Type}.
  Variable leqb : L -> L -> bool.
  Variable hash bytes : L * list ptr -> N.
  Notation heap := (heap L).
  Notation mem := (@mem (uniq L)).

  (** hash_table.hh 247-258, when the allocation of the new buckets throws: nb_rehash_ is already incremented.  [None]:
      no allocation is needed. *)
  Definition rehash_throws (num den : N) (t : table) : option table :=
    if overloaded num den t
    then Some {| nb := nb t; size_ := size_ t; bks := bks t; nb_rehash := nb_rehash t + 1 |}
    else None.
  (** hash_table.hh 135-141: the element is inserted (or found) before the call of rehash.  [None]: thrown. *)
  Definition insert_throws (m : mem) (t : table) (x : ptr) : res herr (mem * table * option (ptr * bool)) :=
    rbind (insert_impl (fun d => u_data d) (node_eqb leqb) hash m (bks t) (nb t) (size_ t) x) (fun r =>
    let '(m1, b, sz, ret) := r in
    let t1 := {| nb := nb t; size_ := sz; bks := b; nb_rehash := nb_rehash t |} in
    match rehash_throws 3 4 t1 with
    | Some t2 => Ok (m1, t2, None)
    | None => Ok (m1, t1, Some ret)
    end).
  (** unique_table.hh 94-123: access is incremented, then the exception leaves the function.  When the table does not grow,
      nothing can throw. *)
  Definition unify_throws (p : ptr) (d : L * list ptr) (h : heap) : res herr (option ptr * heap) :=
    rbind (insert_throws (hm h) (ht h) p) (fun r =>
    let '(m, t, ret) := r in
    match ret with
    | None => Ok (None, with_stats (access h + 1) (uhits h) (umisses h) (upeak h) (with_table m t h))
    | Some _ => rbind (unify leqb hash bytes p d h) (fun qh => Ok (Some (fst qh), snd qh))
    end).
  (** unique_table.hh 126-142: the block in reserve is used if it is large enough; [a]: what new char[] does. *)
  Definition allocate_throws (n : N) (a : option ptr) (h : heap) : res herr (option ptr * heap) :=
    match a with
    | Some b => rbind (allocate n b h) (fun ph => Ok (Some (fst ph), snd ph))
    | None =>
        match ucache h with
        | Some p => if (n <=? ucsize h)%N then Ok (Some p, with_blocks (blocks h) None 0%N h) else Ok (None, h)
        | None => Ok (None, h)
        end
    end.
  (** unify_node, sdd/dd/definition.hh 473-487, and ptr(Unique* ), ptr.hh 77-83, when the allocations throw: that of the
      node ([a = None]), or that of the buckets. *)
  Definition make_throws (d : L * list ptr) (a : option ptr) (h : heap) : res herr (option ptr * heap) :=
    rbind (allocate_throws (bytes d) a h) (fun ph =>
    match fst ph with
    | None => Ok (None, snd ph)
    | Some p =>
        rbind (construct bytes p d (snd ph)) (fun h1 =>
        rbind (unify_throws p d h1) (fun qh =>
        match fst qh with
        | None => Ok (None, snd qh)
        | Some q => rbind (incr q (snd qh)) (fun h2 => Ok (Some q, h2))
        end))
    end).

  (** Operations of a program: [OFail]: creation while the allocator refuses memory for the node ([None]), or gives the block
      of the node and refuses the buckets. *)
  Inductive oop : Type :=
  | OOp (o : hop L)
  | OFail (v : var) (l : L) (kids : list var) (a : option ptr).
  (** The boolean: did the operation throw? *)
  Definition o_step (o : oop) (h : heap) : res herr (bool * heap) :=
    match o with
    | OOp o => rbind (h_step leqb hash bytes o h) (fun h1 => Ok (false, h1))
    | OFail v l kids a =>
        rbind (map_res (held h) kids) (fun ks =>
        rbind (make_throws (l, ks) a h) (fun qh =>
        match fst qh with
        | None => Ok (true, snd qh)
        | Some q => Ok (false, with_env ((v, Some q) :: env (snd qh)) (snd qh))
        end))
    end.
  Fixpoint o_run (l : list oop) (h : heap) : res herr (list bool * heap) :=
    match l with
    | [] => Ok ([], h)
    | o :: l' => rbind (o_step o h) (fun bh => rbind (o_run l' (snd bh)) (fun r => Ok (fst bh :: fst r, snd r)))
    end.

  (** ** Specification: an operation that throws has no effect on the values of the variables. *)

  (** The operation, had no allocation failed. *)
  Definition plain (o : oop) : hop L :=
    match o with
    | OOp o => o
    | OFail v l kids a => HCreate v l kids match a with Some b => b | None => 0%N end
    end.
  (** The operations that did not throw. *)
  Fixpoint done (l : list oop) (thrown : list bool) : list (hop L) :=
    match l, thrown with
    | o :: l', b :: bs => if b then done l' bs else plain o :: done l' bs
    | _, _ => []
    end.
  Definition fresh_block (o : oop) (h : heap) : Prop :=
    match o with
    | OOp o => allocator_ok o h
    | OFail _ _ _ (Some a) => blocks h a = None
    | OFail _ _ _ None => True
    end.
  Fixpoint o_history (l : list oop) (h : heap) (r : vals (L := L)) : Prop :=
    match l with
    | [] => True
    | o :: l' => proper (plain o) r /\ fresh_block o h /\
                 forall b h', o_step o h = Ok (b, h') -> o_history l' h' (if b then r else v_step (plain o) r)
    end.
  Definition o_total (l : list oop) : nat := list_sum (map (fun o => cost (plain o)) l).

  (** ** The caches *)

  (** cache.hh 242-255, when the insertion in the LRU list (a std::list, lru_list.hh 16-17) throws: an entry may have been
      evicted, the new entry is constructed in a slot of the pool, and is in no list. *)
  Definition store_throws {Op K R : Type} (key : Op -> K) (keq : K -> K -> bool) (hash : K -> N) (op : Op) (r : R)
      (c : cache Op R) : res herr (cache Op R) :=
    rbind (if N.eqb (size_ (tab c)) (max_size c) then evict key keq hash c else Ok c) (fun c1 =>
    rbind (pool_allocate c1) (fun pc =>
    let '(p, c2) := pc in
    Ok {| tab := tab c2;
          cmem := upd (cmem c2) p (Some {| c_data := {| e_op := op; e_res := r; e_cit := 0 |}; c_next := None |});
          lru := lru c2; fresh := fresh c2; free := free c2; links := links c2; max_size := max_size c2; hits := hits c2;
          misses := misses c2; filtered := filtered c2; discarded := discarded c2 |})).
End Model.
Arguments oop : clear implicits.

Section Proofs.
  Context {L : Type}.
  Variable leqb : L -> L -> bool.
  Variable hash bytes : L * list ptr -> N.
  Hypothesis leqb_spec : forall a b, leqb a b = true <-> a = b.
  Notation heap := (heap L).
  Notation inv := (inv hash).
  Notation key := (fun d : uniq L => u_data d).
  Notation insert_throws := (insert_throws leqb hash).
  Notation unify_throws := (unify_throws leqb hash bytes).
  Notation make_throws := (make_throws leqb hash bytes).
  Notation good_with := (good_with hash).

  (** What remains after a failed creation: a linked node without reference, or a node that is not in the table. *)
  Lemma unify_throws_ok : forall h roots els dying ex p d n, inv h (snd d ++ roots) els (p :: dying) ex -> ~ In p dying ->
    blocks h p = Some n -> (bytes d <= n)%N ->
    hm h p = Some {| c_data := {| u_ref := 0; u_data := d |}; c_next := None |} ->
    (N.of_nat (length els) + 1 < 2 ^ 60)%N ->
    (exists q h1, unify_throws p d h = Ok (Some q, h1) /\ unify leqb hash bytes p d h = Ok (q, h1)) \/
    (exists h1 extra els1 dying1 ex1, unify_throws p d h = Ok (None, h1) /\ inv h1 (extra ++ roots) els1 dying1 ex1 /\
     (forall x, In x els -> In x els1 /\ udat (hm h1) x = udat (hm h) x) /\ env h1 = env h /\ blocks h1 = blocks h /\
     incl dying1 (p :: dying) /\
     length ex1 + length (refs (hm h1) (extra ++ roots) els1) <= length ex + length (refs (hm h) (snd d ++ roots) els) + 1).
  Proof.
    intros h roots els dying ex p d n I Hpd Hb Hn Hm Hsz.
    assert (Hp : ~ In p els) by (apply (i_dying hash _ _ _ _ _ I); now left).
    pose proof (i_table hash _ _ _ _ _ I) as (bs & R & P).
    destruct (insert_impl_ok key (node_eqb leqb) hash (node_eqb_spec leqb leqb_spec) (hm h) (nb (ht h)) (bks (ht h)) (size_ (ht h)) bs p _ R Hm)
      as (m1 & b1 & sz1 & ret & bs1 & E & R1 & D1 & M1 & Cases).
    { intros H. apply Hp. eapply Permutation_in; [symmetry; exact P|exact H]. }
    set (t1 := {| nb := nb (ht h); size_ := sz1; bks := b1; nb_rehash := nb_rehash (ht h) |}).
    destruct (overloaded 3 4 t1) eqn:Eo.
    - right. unfold Oom.unify_throws, Oom.insert_throws, rehash_throws. rewrite E. cbn [rbind]. fold t1. rewrite Eo. cbn [rbind].
      destruct Cases as [(q & Hq & -> & -> & -> & -> & ->)|(Habs & -> & M1' & -> & P1)].
      + (* found: the node is lost, with its references *)
        eexists _, (snd d), els, (p :: dying), ex. split; [reflexivity|].
        cbn [with_stats with_table hm env blocks]. split; [|split; [|split; [|split; [|split]]]]; auto.
        * destruct I. constructor; cbn [with_stats with_table hm ht blocks ucache ucsize]; auto.
        * apply incl_refl.
        * lia.
      + (* linked *)
        match goal with |- context [with_table m1 ?t h] => set (t2 := t) end.
        destruct (inv_linked hash h roots els dying ex p d m1 t2 (access h + 1)%N (uhits h) (umisses h) (upeak h) I Hpd Hm D1) as [I1 RP].
        { exists bs1. split; [exact R1|]. rewrite P1. now constructor. }
        { apply (i_nb hash _ _ _ _ _ I). }
        eexists _, [], (p :: els), dying, (p :: ex). split; [reflexivity|]. split; [exact I1|].
        cbn [with_stats with_table hm env blocks app]. split; [|split; [|split; [|split]]]; auto.
        * intros x Hx. split; [now right|]. unfold udat. now rewrite D1.
        * intros x Hx. now right.
        * rewrite (Permutation_length RP). cbn [length]. lia.
    - left. destruct (unify_ok leqb hash bytes leqb_spec h roots els dying ex p d n I Hpd Hb Hn Hm Hsz) as (q & h1 & els1 & ex1 & Eu & _).
      exists q, h1. split; [|exact Eu]. unfold Oom.unify_throws, Oom.insert_throws, rehash_throws. rewrite E. cbn [rbind]. fold t1. rewrite Eo.
      cbn [rbind]. rewrite Eu. reflexivity.
  Qed.

  Lemma make_throws_ok : forall h roots els dying ex d a, inv h roots els dying ex ->
    (forall b, a = Some b -> blocks h b = None /\ ~ In b dying) -> (forall k, In k (snd d) -> In k els) ->
    (forall p, In p dying -> blocks h p <> None) ->
    (N.of_nat (length ex + length (refs (hm h) roots els) + length (snd d) + 1) < 2 ^ 32)%N ->
    (exists q h1 els1, make_throws d a h = Ok (Some q, h1) /\ inv h1 (q :: roots) els1 dying ex /\
     udat (hm h1) q = Some d /\ (forall x, In x els -> In x els1 /\ udat (hm h1) x = udat (hm h) x) /\
     env h1 = env h /\ length (refs (hm h1) (q :: roots) els1) <= length (refs (hm h) roots els) + length (snd d) + 1 /\
     (forall p, In p dying -> blocks h1 p <> None)) \/
    (exists h1 extra els1 dying1 ex1, make_throws d a h = Ok (None, h1) /\ inv h1 (extra ++ roots) els1 dying1 ex1 /\
     (forall x, In x els -> In x els1 /\ udat (hm h1) x = udat (hm h) x) /\ env h1 = env h /\
     (forall p, In p dying1 -> blocks h1 p <> None) /\
     length ex1 + length (refs (hm h1) (extra ++ roots) els1) <= length ex + length (refs (hm h) roots els) + length (snd d) + 1).
  Proof.
    intros h roots els dying ex d a I Ha Hk Hd Hl. unfold Oom.make_throws.
    (* the block *)
    assert (A : (allocate_throws (bytes d) a h = Ok (None, h)) \/
      exists p h1, allocate_throws (bytes d) a h = Ok (Some p, h1) /\ inv h1 roots els (p :: dying) ex /\ hm h1 = hm h /\ env h1 = env h /\
      hm h p = None /\ ~ In p dying /\ (forall x, blocks h x <> None -> blocks h1 x <> None) /\
      exists n, blocks h1 p = Some n /\ (bytes d <= n)%N).
    { unfold allocate_throws. destruct a as [b|].
      - right. destruct (Ha b eq_refl) as [Hb1 Hb2].
        destruct (allocate_ok hash bytes h roots els dying ex d b I Hb1 Hb2) as (p & h1 & E1 & R1).
        exists p, h1. split; [|exact R1]. now rewrite E1.
      - destruct (ucache h) as [p|] eqn:Eu; [|now left]. destruct (bytes d <=? ucsize h)%N eqn:El; [|now left].
        right. apply N.leb_le in El. destruct (i_cache hash _ _ _ _ _ I p Eu) as (A1 & B1 & n & C1 & D1).
        exists p. eexists. split; [reflexivity|]. split; [|cbn [with_blocks hm env blocks]; repeat split; auto; exists n; split; auto; lia].
        destruct I. constructor; cbn [with_blocks hm ht blocks ucache ucsize]; auto.
        + intros q Hq. destruct (i_only q Hq) as [H|H]; [left|right; right]; auto.
        + intros q [<-|Hq]; auto. intros Hin. destruct i_table as (bs & R & P).
          assert (Hc : exists c, hm h p = Some c); [|destruct Hc; congruence].
          assert (Hin' : In p (concat bs)) by (eapply Permutation_in; eauto).
          apply in_concat in Hin'. destruct Hin' as (l & Hl1 & Hl2). pose proof (r_chain _ _ _ _ _ _ _ R) as F. clear - F Hl1 Hl2.
          revert Hl1. induction F as [|x y l1 l2 Hc F IH]; [intros []|]. intros [->|Hl1]; auto.
          destruct (chain_dat _ _ _ _ Hc Hl2) as (e & He). unfold dat in He. destruct (hm h p); [eauto|discriminate].
        + intros q Hq. destruct (i_alloc q Hq) as [H|[H|H]]; auto; right; right; [left; congruence|now right].
        + intros q Hq. discriminate. }
    destruct A as [A|(p & h1 & E1 & I1 & M1 & V1 & Hp & Hpd & Kb & n & Bp & Hn)].
    { right. rewrite A. cbn [rbind fst snd]. exists h, [], els, dying, ex. cbn [app]. split; [reflexivity|]. split; [exact I|].
      split; [intros x Hx; auto|]. split; [reflexivity|]. split; [exact Hd|]. lia. }
    rewrite E1. cbn [rbind fst snd].
    destruct (construct_ok hash bytes h1 roots els dying ex p d n I1 Hk) as (m2 & E2 & I2 & U2 & Mp); auto.
    { rewrite M1. lia. }
    { now rewrite M1. }
    rewrite E2. cbn [rbind].
    assert (Hpe : ~ In p els) by (apply (i_dying hash _ _ _ _ _ I1); now left).
    assert (L2 : length (refs m2 (snd d ++ roots) els) = length (refs (hm h) roots els) + length (snd d)).
    { rewrite (refs_ext (hm h)).
      - unfold refs. rewrite !app_length. lia.
      - intros x Hx. rewrite <- M1. apply U2. congruence. }
    assert (Hsz : (N.of_nat (length els) + 1 < 2 ^ 60)%N).
    { pose proof (inv_small hash _ _ _ _ _ I) as Sm. change (2 ^ 60)%N with (2 ^ 28 * 2 ^ 32)%N.
      assert (1 <= 2 ^ 28)%N by (vm_compute; discriminate). nia. }
    assert (K2 : forall x, In x els -> udat m2 x = udat (hm h) x) by (intros x Hx; rewrite <- M1; apply U2; congruence).
    destruct (unify_throws_ok (with_mem m2 h1) roots els dying ex p d n I2 Hpd Bp Hn Mp Hsz)
      as [(q & h3 & E3 & E3')|(h3 & extra & els3 & dying3 & ex3 & E3 & I3 & Ux & V3 & B3 & Hd3 & L3)]; rewrite E3; cbn [rbind fst snd].
    - left. destruct (unify_ok leqb hash bytes leqb_spec (with_mem m2 h1) roots els dying ex p d n I2 Hpd Bp Hn Mp Hsz)
        as (q' & h3' & els3 & ex1 & E4 & I3 & Hex & Hq & Uq & Ux & V3 & L3 & _ & _ & _ & K3).
      rewrite E3' in E4. injection E4 as <- <-.
      destruct (incr_ok hash h3 roots els3 dying ex1 q I3 Hq) as (m4 & E4 & I4 & U4 & M4).
      { cbn [with_mem hm] in L3. rewrite L2 in L3. lia. }
      rewrite E4. cbn [rbind]. exists q, (with_mem m4 h3), els3. cbn [with_mem hm env blocks] in *. split; [reflexivity|].
      split; [|split; [|split; [|split; [|split]]]].
      + destruct Hex as [-> | ->]; auto. now apply inv_unex.
      + now rewrite U4.
      + intros x Hx. destruct (Ux x Hx) as [B1 B2]. split; auto. rewrite U4, B2. auto.
      + congruence.
      + rewrite (refs_ext (hm h3)) by auto. unfold refs in *. cbn [app length]. rewrite L2 in L3. lia.
      + intros x Hx. rewrite K3 by auto. auto.
    - right. exists h3, extra, els3, dying3, ex3. cbn [with_mem hm env blocks] in *. split; [reflexivity|]. split; [exact I3|].
      split; [|split; [|split]].
      + intros x Hx. destruct (Ux x Hx) as [B1 B2]. split; auto. rewrite B2. auto.
      + congruence.
      + intros x Hx. rewrite B3. destruct (Hd3 x Hx) as [<-|H]; [congruence|auto].
      + rewrite L2 in L3. lia.
  Qed.

  (** One operation. *)
  Lemma o_step_ok : forall extra dying ex o h r k, good_with extra dying ex h r k -> proper (plain o) r -> fresh_block o h ->
    (N.of_nat (k + cost (plain o)) < 2 ^ 32 - 1)%N ->
    exists b h' extra' dying' ex', o_step leqb hash bytes o h = Ok (b, h') /\
    good_with extra' dying' ex' h' (if b then r else v_step (plain o) r) (k + cost (plain o)).
  Proof.
    intros extra dying ex o h r k Gd Pr Al Hb. destruct o as [o|v l ks a]; cbn [o_step plain fresh_block] in *.
    - destruct (step_with leqb hash bytes leqb_spec extra dying ex o h r k Gd Pr Al Hb) as (h' & E & G). rewrite E. cbn [rbind].
      exists false, h', extra, dying, ex. auto.
    - cbn [proper cost] in *. destruct Gd as (els & I & S & Hl & Hd).
      assert (Hroots : forall p, In p (handles (env h)) -> In p els).
      { intros p Hp. apply (inv_root hash _ _ _ _ _ p I). apply in_app_iff. auto. }
      destruct (map_held h r ks S Pr) as (ps & Em & Fd & Kp & Ln). rewrite Em. cbn [rbind].
      destruct (make_throws_ok h (extra ++ handles (env h)) els dying ex (l, ps) a I)
        as [(q & h1 & els1 & E & I1 & Uq & Ux & V & L1 & Kb)|(h1 & extra1 & els1 & dying1 & ex1 & E & I1 & Ux & V & Kb & L1)]; auto.
      { intros b ->. split; auto. intros H. now apply (Hd b). }
      { cbn [snd]. rewrite Ln. lia. }
      + rewrite E. cbn [rbind fst snd] in *. eexists false, _, extra, dying, ex. split; [reflexivity|]. exists els1.
        cbn [with_env env hm blocks]. rewrite V. change (handles ((v, Some q) :: env h)) with (q :: handles (env h)).
        pose proof (forward_root extra q (handles (env h))) as P.
        assert (C : forall x y, In x els -> In y (kids (hm h1) x) -> In y els).
        { intros x y Hx Hy. unfold kids in Hy. rewrite (proj2 (Ux x Hx)) in Hy. apply (inv_closed hash _ _ _ _ _ I x y Hx Hy). }
        split; [|split; [|split]]; auto.
        * apply inv_env. eapply inv_perm; [exact I1|exact P|reflexivity].
        * unfold sim. cbn [v_step with_env env hm]. constructor.
          -- split; auto. cbn [snd]. apply denotes_node. exists ps. split; auto.
             clear - Fd Kp C Ux Hroots. induction Fd as [|t p ts ps H F IH]; constructor.
             ++ apply (denotes_keep (hm h) (hm h1) els); auto; [intros x Hx; apply Ux, Hx|]. apply Hroots, Kp. now left.
             ++ apply IH. intros x Hx. apply Kp. now right.
          -- apply (sim_keep (hm h) (hm h1) els); auto. intros x Hx. apply Ux, Hx.
        * rewrite (Permutation_length (refs_perm (hm h1) _ _ _ _ (Permutation_sym P) (Permutation_refl els1))). lia.
      + rewrite E. cbn [rbind fst snd] in *. eexists true, _, (extra1 ++ extra), dying1, ex1. split; [reflexivity|]. exists els1.
        rewrite V. rewrite <- app_assoc. split; [exact I1|]. split; [|split]; auto; [|lia].
        unfold sim. rewrite V. apply (sim_keep (hm h) (hm h1) els); auto.
        * intros x Hx. apply Ux, Hx.
        * intros x y Hx Hy. unfold kids in Hy. rewrite (proj2 (Ux x Hx)) in Hy. apply (inv_closed hash _ _ _ _ _ I x y Hx Hy).
  Qed.

  Lemma good_with_mono : forall extra dying ex h r k k', good_with extra dying ex h r k -> k <= k' -> good_with extra dying ex h r k'.
  Proof. intros extra dying ex h r k k' (els & A & B & C & D) H. exists els. repeat (split; auto). lia. Qed.

  Lemma o_run_ok : forall l extra dying ex h r k, good_with extra dying ex h r k -> o_history leqb hash bytes l h r ->
    (N.of_nat (k + o_total l) < 2 ^ 32 - 1)%N ->
    exists bs h' extra' dying' ex', o_run leqb hash bytes l h = Ok (bs, h') /\ length bs = length l /\
    good_with extra' dying' ex' h' (v_run (done l bs) r) (k + o_total l).
  Proof.
    induction l as [|o l IH]; intros extra dying ex h r k G H B; cbn [o_run o_history] in *.
    - exists [], h, extra, dying, ex. split; auto. split; auto. cbn [done v_run fold_left]. eapply good_with_mono; eauto. lia.
    - destruct H as (Pr & Al & H). unfold o_total in *. cbn [map list_sum fold_right] in *. unfold list_sum in *. cbn [fold_right] in *.
      destruct (o_step_ok extra dying ex o h r k G Pr Al) as (b & h1 & ea & da & xa & E & G1); [lia|].
      rewrite E. cbn [rbind fst snd].
      destruct (IH ea da xa h1 _ _ G1 (H b h1 E)) as (bs & h2 & e2 & d2 & x2 & E2 & Ln & G2); [lia|].
      rewrite E2. cbn [rbind fst snd]. exists (b :: bs), h2, e2, d2, x2. split; auto. split; [cbn; lia|].
      rewrite <- Nat.add_assoc in G2. destruct b; exact G2.
  Qed.
End Proofs.
