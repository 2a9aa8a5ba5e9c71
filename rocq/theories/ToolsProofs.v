(** * Correctness of sdd/tools *)

From Coq Require Import List Bool NArith Arith Lia Permutation.
From Verif Require Import Base SortedSets Values Sdd SddFacts DDModel DDProofs Spec DDTheorems Count Tools.
Import ListNotations.

Lemma w32_add : forall a b, add32 (w32 a) (w32 b) = w32 (a + b).
Proof. intros. unfold add32, w32. now rewrite <- N.add_mod by discriminate. Qed.
Lemma w64_add : forall a b, add64 (w64 a) (w64 b) = w64 (a + b).
Proof. intros. unfold add64, w64. now rewrite <- N.add_mod by discriminate. Qed.

(** Simulation of folds. *)
Lemma fold_sim : forall A S T (R : S -> T -> Prop) (f : S -> A -> S) (g : T -> A -> T) l s t,
  (forall a s t, In a l -> R s t -> R (f s a) (g t a)) -> R s t -> R (fold_left f l s) (fold_left g l t).
Proof.
  intros A S T R f g l. induction l as [|a l IH]; intros s t H HR; simpl; auto.
  apply IH; [|apply H; simpl; auto]. intros b s' t' Hb. apply H. now right.
Qed.

Section ToolsProofs.
  Variable VI : values_impl.
  Variable PF : platform VI.
  Hypothesis PO : platform_ok PF.
  Notation V := (vt VI).
  Notation sdd := (sdd V).
  Notation visited := (visited VI PF).

  Lemma trav_all : forall term pre x, exists l, fst (trav VI PF term pre x ([], [])) = l /\
    NoDup l /\ forall n, In n l <-> sub VI n x /\ (term = true \/ is_node VI n = true).
  Proof.
    intros term pre x.
    assert (Hc : closed VI term (height x) []) by (intros k n []).
    destruct (trav_correct VI PF term pre PO x (height x) (Nat.le_refl _) [] [] Hc)
      as (l & vis & E & D & N & M & A & _).
    exists l. rewrite E. split; auto. split; auto. intros n. split.
    - intros Hn. destruct (N n Hn) as (_ & H1 & H2). auto.
    - intros [H1 H2]. pose proof (A n H1 H2) as Hi. apply M in Hi. simpl in Hi. tauto.
  Qed.

  (** The accumulator is only extended. *)
  Lemma trav_acc : forall term pre t acc vis, trav VI PF term pre t (acc, vis) =
    (acc ++ fst (trav VI PF term pre t ([], vis)), snd (trav VI PF term pre t ([], vis))).
  Proof.
    intros term pre.
    pose (app_to := fun acc (s u : list sdd * list sdd) => s = (acc ++ fst u, snd u)).
    assert (F : forall W (f : list sdd * list sdd -> W -> list sdd * list sdd) arcs acc s u,
      (forall a acc vis, In a arcs -> f (acc, vis) a = (acc ++ fst (f ([], vis) a), snd (f ([], vis) a))) ->
      app_to acc s u -> app_to acc (fold_left f arcs s) (fold_left f arcs u)).
    { intros W f arcs acc s u Hf. apply fold_sim. unfold app_to. intros a [s1 s2] [u1 u2] Hin E.
      cbn [fst snd] in E. injection E as -> ->.
      rewrite Hf, (Hf a u1) by auto. cbn [fst snd]. now rewrite app_assoc. }
    induction t as [| |x arcs IH|x arcs IH] using sdd_ind'; intros acc vis; cbn [trav fst snd].
    - destruct term; [|simpl; now rewrite app_nil_r].
      destruct (visited vis Zero); simpl; [now rewrite app_nil_r|reflexivity].
    - destruct term; [|simpl; now rewrite app_nil_r].
      destruct (visited vis One); simpl; [now rewrite app_nil_r|reflexivity].
    - destruct (visited vis (Flat x arcs)); [simpl; now rewrite app_nil_r|].
      set (v0 := if pre then Flat x arcs :: vis else vis).
      pose proof (F _ (fun st (arc : V * sdd) => trav VI PF term pre (snd arc) st) arcs acc
                    (acc ++ [Flat x arcs], v0) ([] ++ [Flat x arcs], v0)) as G.
      unfold app_to in G. rewrite G; [reflexivity| |reflexivity].
      intros [v s] acc' vis' Hin. cbn [snd]. apply (IH v s Hin).
    - destruct (visited vis (Hier x arcs)); [simpl; now rewrite app_nil_r|].
      set (v0 := if pre then Hier x arcs :: vis else vis).
      match goal with |- context [fold_left ?f arcs _] =>
        pose proof (F _ f arcs acc (acc ++ [Hier x arcs], v0) ([] ++ [Hier x arcs], v0)) as G end.
      unfold app_to in G. rewrite G; [reflexivity| |reflexivity].
      intros [v s] acc' vis' Hin. cbn [fst snd]. destruct (IH v s Hin) as [IHv IHs].
      destruct pre.
      + rewrite (IHv acc'), (IHs (acc' ++ _)). 
        destruct (trav VI PF term true v ([], vis')) as [a b]. cbn [fst snd].
        rewrite (IHs a b). cbn [fst snd]. now rewrite app_assoc.
      + rewrite (IHs acc'), (IHv (acc' ++ _)). 
        destruct (trav VI PF term false s ([], vis')) as [a b]. cbn [fst snd].
        rewrite (IHv a b). cbn [fst snd]. now rewrite app_assoc.
  Qed.

  (** ** nodes *)

  Lemma count_app : forall f l m, count VI f (l ++ m) = (count VI f l + count VI f m)%N.
  Proof. intros. unfold count. rewrite filter_app, app_length. lia. Qed.
  Definition totals (l : list sdd) : N * N := (w32 (count VI (is_flat VI) l), w32 (count VI (is_hier VI) l)).
  Lemma totals_app : forall l m, accumulate_pair (totals l) (totals m) = totals (l ++ m).
  Proof.
    intros. unfold accumulate_pair, totals. cbn [fst snd]. now rewrite !w32_add, !count_app.
  Qed.

  Definition same {A : Type} (f : list sdd -> A) (s : A * list sdd) (u : list sdd * list sdd) : Prop :=
    s = (f (fst u), snd u).

  Lemma nodes_trav : forall t vis, same totals (nodes_visit VI PF t vis) (trav VI PF false true t ([], vis)).
  Proof.
    unfold same.
    induction t as [| |x arcs IH|x arcs IH] using sdd_ind'; intros vis; cbn [nodes_visit trav fst snd]; try reflexivity.
    - destruct (visited vis (Flat x arcs)); [reflexivity|].
      rewrite (surjective_pairing (fold_left _ arcs ([] ++ _, _))).
      apply (fold_sim _ _ _ (same totals)); [|reflexivity].
      intros [v s] [r vs] [l vs'] Hin E. unfold same in *. cbn [fst snd] in *. injection E as -> ->.
      rewrite (IH v s Hin), (trav_acc _ _ s l). cbn [fst snd]. now rewrite totals_app.
    - destruct (visited vis (Hier x arcs)); [reflexivity|].
      rewrite (surjective_pairing (fold_left _ arcs ([] ++ _, _))).
      apply (fold_sim _ _ _ (same totals)); [|reflexivity].
      intros [v s] [r vs] [l vs'] Hin E. unfold same in *. cbn [fst snd] in *. injection E as -> ->.
      destruct (IH v s Hin) as [IHv IHs].
      rewrite IHv, IHs, (trav_acc _ _ v l), (trav_acc _ _ s (l ++ _)). cbn [fst snd]. now rewrite !totals_app.
  Qed.

  Lemma nodes_spec : forall x, exists l, all_nodes VI x l /\
    nodes VI PF x = (w32 (count VI (is_flat VI) l), w32 (count VI (is_hier VI) l)).
  Proof.
    intros x. destruct (trav_all false true x) as (l & E & D & H). exists l. split.
    - split; auto. intros n. rewrite H. intuition.
    - unfold nodes. rewrite (nodes_trav x []). cbn [fst]. now rewrite E.
  Qed.

  (** ** arcs *)

  Definition freqs (l : list sdd) : freq :=
    fold_left (fun m t => freq_add (is_flat VI t) (degree VI t) m) l [].
  Lemma freqs_snoc : forall l t, freqs (l ++ [t]) = freq_add (is_flat VI t) (degree VI t) (freqs l).
  Proof. intros. unfold freqs. now rewrite fold_left_app. Qed.

  Lemma arcs_trav : forall t st u, same freqs st u ->
    same freqs (arcs_visit VI PF t st) (trav VI PF false true t u).
  Proof.
    induction t as [| |x arcs IH|x arcs IH] using sdd_ind'; intros [m vs] [l vs'] E;
      unfold same in E; cbn [fst snd] in E; injection E as -> ->; cbn [arcs_visit trav fst snd]; try reflexivity.
    - destruct (visited vs' (Flat x arcs)); [reflexivity|].
      assert (G : same freqs
        (fold_left (fun st a => arcs_visit VI PF (snd a) st) arcs
           (freq_add true (nsize VI arcs) (freqs l), Flat x arcs :: vs'))
        (fold_left (fun st a => trav VI PF false true (snd a) st) arcs
           (l ++ [Flat x arcs], Flat x arcs :: vs'))).
      { apply (fold_sim _ _ _ (same freqs)).
        - intros [v s] st u Hin. apply (IH v s Hin).
        - unfold same. cbn [fst snd]. now rewrite freqs_snoc. }
      unfold same in *. exact G.
    - destruct (visited vs' (Hier x arcs)); [reflexivity|].
      assert (G : same freqs
        (fold_left (fun st a => arcs_visit VI PF (snd a) (arcs_visit VI PF (fst a) st)) arcs
           (freq_add false (nsize VI arcs) (freqs l), Hier x arcs :: vs'))
        (fold_left (fun st a => trav VI PF false true (snd a) (trav VI PF false true (fst a) st)) arcs
           (l ++ [Hier x arcs], Hier x arcs :: vs'))).
      { apply (fold_sim _ _ _ (same freqs)).
        - intros [v s] st u Hin Hs. destruct (IH v s Hin) as [IHv IHs]. cbn [fst snd]. auto.
        - unfold same. cbn [fst snd]. now rewrite freqs_snoc. }
      unfold same in *. exact G.
  Qed.

  Definition freq_keys (m : freq) : list N := map fst m.
  Lemma freq_add_keys : forall b n m, (forall k, In k (freq_keys (freq_add b n m)) <-> k = n \/ In k (freq_keys m)) /\
    (ssorted N.ltb (freq_keys m) -> ssorted N.ltb (freq_keys (freq_add b n m))).
  Proof.
    intros b n m. unfold freq_keys. induction m as [|[k c] m IH]; cbn [freq_add map fst].
    - split; [simpl; intuition|]. intros _. repeat constructor.
    - destruct (N.eqb_spec k n) as [->|Hne]; cbn [map fst].
      + split; [simpl; intuition|auto].
      + destruct (N.ltb_spec n k); cbn [map fst].
        * split; [simpl; intuition|]. intros Hs. constructor; auto. constructor; [now apply N.ltb_lt|].
          inversion Hs; subst. eapply Forall_impl; [|eassumption]. intros a Ha. cbn beta in *.
          rewrite N.ltb_lt in *. lia.
        * destruct IH as [IH1 IH2]. split.
          -- intros k0. simpl. rewrite IH1. intuition.
          -- intros Hs. inversion Hs as [|? ? Hs' HF]; subst. constructor; [apply IH2; exact Hs'|].
             apply Forall_forall. rewrite Forall_forall in HF.
             intros k0 Hk0. apply IH1 in Hk0. destruct Hk0 as [->|Hk0]; auto. apply N.ltb_lt. lia.
  Qed.
  Lemma freq_at_none : forall m k, ~ In k (freq_keys m) -> freq_at m k = (0, 0)%N.
  Proof.
    intros m k. induction m as [|[a c] m IH]; simpl; auto. intros H.
    destruct (N.eqb_spec a k) as [->|]; [tauto|]. auto.
  Qed.
  Lemma freq_at_add : forall b n m k, ssorted N.ltb (freq_keys m) ->
    freq_at (freq_add b n m) k = if N.eqb k n then bump b (freq_at m k) else freq_at m k.
  Proof.
    intros b n m k. induction m as [|[a c] m IH]; cbn [freq_add freq_at freq_keys map fst]; intros Hs.
    - rewrite N.eqb_sym. now destruct (N.eqb k n).
    - destruct (N.eqb_spec a n) as [->|Hne]; cbn [freq_at].
      + rewrite (N.eqb_sym n k). destruct (N.eqb k n); auto.
      + destruct (N.ltb_spec n a); cbn [freq_at].
        * rewrite (N.eqb_sym n k). destruct (N.eqb_spec k n) as [Ekn|Hkn]; auto. subst k.
          destruct (N.eqb_spec a n); [congruence|]. rewrite freq_at_none; auto.
          inversion Hs as [|? ? _ HF]; subst. rewrite Forall_forall in HF. intros Hin.
          apply HF in Hin. rewrite N.ltb_lt in Hin. lia.
        * inversion Hs as [|? ? Hs' HF]; subst. destruct (N.eqb_spec a k) as [Eak|Hak].
          -- subst k. destruct (N.eqb_spec a n); [congruence|auto].
          -- apply IH. exact Hs'.
  Qed.

  Lemma freqs_sorted : forall l, ssorted N.ltb (freq_keys (freqs l)).
  Proof.
    intros l. induction l as [|t l IH] using rev_ind; [constructor|].
    rewrite freqs_snoc. now apply freq_add_keys.
  Qed.

  Definition with_degree (f : sdd -> bool) (k : N) (t : sdd) : bool := f t && N.eqb (degree VI t) k.

  Lemma freqs_at : forall l k, (forall t, In t l -> is_node VI t = true) -> freq_at (freqs l) k =
    (w32 (count VI (with_degree (is_flat VI) k) l), w32 (count VI (with_degree (is_hier VI) k) l)).
  Proof.
    intros l k. induction l as [|t l IH] using rev_ind; intros Hn; [reflexivity|].
    rewrite freqs_snoc, freq_at_add by apply freqs_sorted.
    rewrite IH by (intros u Hu; apply Hn; apply in_app_iff; auto).
    rewrite !count_app.
    assert (C1 : forall f, count VI (with_degree f k) [t] =
      if N.eqb k (degree VI t) then (if f t then 1 else 0)%N else 0%N).
    { intros f. unfold count, with_degree. cbn [filter]. rewrite (N.eqb_sym k).
      destruct (N.eqb (degree VI t) k); destruct (f t); reflexivity. }
    rewrite !C1. assert (Ht : is_node VI t = true) by (apply Hn; apply in_app_iff; simpl; auto).
    destruct (N.eqb k (degree VI t)).
    - unfold bump. destruct t; try discriminate Ht; cbn [is_flat is_hier fst snd];
        rewrite ?N.add_0_r; change 1%N with (w32 1) at 1; now rewrite w32_add.
    - now rewrite !N.add_0_r.
  Qed.

  Lemma arcs_spec : forall x, exists l, all_nodes VI x l /\
    forall k, freq_at (arcs VI PF x) k =
      (w32 (count VI (with_degree (is_flat VI) k) l), w32 (count VI (with_degree (is_hier VI) k) l)).
  Proof.
    intros x. destruct (trav_all false true x) as (l & E & D & H). exists l. split.
    - split; auto. intros n. rewrite H. intuition.
    - intros k. unfold arcs.
      pose proof (arcs_trav x ([], []) ([], []) eq_refl) as G. unfold same in G. rewrite G. cbn [fst].
      rewrite E. apply freqs_at. intros t Ht. apply H in Ht. destruct Ht as [_ [Ht|Ht]]; [discriminate|auto].
  Qed.

  (** *** number_of_arcs *)

  Definition sum_freq (g : N * N -> N) (m : freq) : N := fold_right (fun kv n => (fst kv * g (snd kv) + n)%N) 0%N m.
  Lemma number_of_arcs_sum : forall m, number_of_arcs m = (w32 (sum_freq fst m), w32 (sum_freq snd m)).
  Proof.
    intros m. unfold number_of_arcs.
    assert (G : forall m a b,
      fold_left (fun r kv => (add32 (fst r) (w32 (fst kv * fst (snd kv))),
                            add32 (snd r) (w32 (fst kv * snd (snd kv))))) m (w32 a, w32 b) =
      (w32 (a + sum_freq fst m), w32 (b + sum_freq snd m))).
    { clear m. induction m as [|kv m IH]; intros a b; cbn [fold_left sum_freq fold_right fst snd].
      - now rewrite !N.add_0_r.
      - rewrite !w32_add, IH. now rewrite !N.add_assoc. }
    apply (G m 0%N 0%N).
  Qed.

  Lemma w32_mod : forall a b, w32 a = w32 b <-> (a mod 2 ^ 32 = b mod 2 ^ 32)%N.
  Proof. reflexivity. Qed.

  Lemma sum_over_app : forall f l m, sum_over VI f (l ++ m) = (sum_over VI f l + sum_over VI f m)%N.
  Proof.
    intros f l m. unfold sum_over. induction l as [|t l IH]; cbn [app fold_right]; auto.
    rewrite IH. apply N.add_assoc.
  Qed.
  Definition arcs_of (f : sdd -> bool) (t : sdd) : N := if f t then degree VI t else 0%N.

  Lemma sum_freq_add : forall (g : N * N -> N) b n m, g (0, 0)%N = 0%N ->
    (forall c, w32 (g (bump b c)) = w32 (g c + g (bump b (0, 0)%N))) ->
    w32 (sum_freq g (freq_add b n m)) = w32 (sum_freq g m + n * g (bump b (0, 0)%N)).
  Proof.
    intros g b n m Hg Hb. induction m as [|[k c] m IH]; cbn [freq_add].
    - unfold sum_freq. cbn [fold_right fst snd]. f_equal. lia.
    - destruct (N.eqb_spec k n) as [->|Hne].
      + unfold sum_freq. cbn [fold_right fst snd]. fold (sum_freq g m).
        rewrite <- (w32_add (n * g (bump b c))).
        assert (E : w32 (n * g (bump b c)) = w32 (n * (g c + g (bump b (0, 0)%N)))).
        { unfold w32 in *. rewrite N.mul_mod, Hb, <- N.mul_mod; [reflexivity|discriminate..]. }
        rewrite E, w32_add. f_equal. lia.
      + destruct (N.ltb n k).
        * unfold sum_freq. cbn [fold_right fst snd]. fold (sum_freq g m). f_equal. lia.
        * unfold sum_freq in *. cbn [fold_right fst snd]. rewrite <- w32_add, IH, w32_add. f_equal. lia.
  Qed.

  Lemma freqs_sum : forall l, (forall t, In t l -> is_node VI t = true) ->
    w32 (sum_freq fst (freqs l)) = w32 (sum_over VI (arcs_of (is_flat VI)) l) /\
    w32 (sum_freq snd (freqs l)) = w32 (sum_over VI (arcs_of (is_hier VI)) l).
  Proof.
    assert (B1 : forall b c, w32 (fst (bump b c)) = w32 (fst c + fst (bump b (0, 0)%N))).
    { intros [] c; cbn [bump fst snd].
      - unfold add32, w32. rewrite N.mod_mod by discriminate. reflexivity.
      - now rewrite N.add_0_r. }
    assert (B2 : forall b c, w32 (snd (bump b c)) = w32 (snd c + snd (bump b (0, 0)%N))).
    { intros [] c; cbn [bump fst snd].
      - now rewrite N.add_0_r.
      - unfold add32, w32. rewrite N.mod_mod by discriminate. reflexivity. }
    intros l. induction l as [|t l IH] using rev_ind; intros Hn; [split; reflexivity|].
    destruct IH as [IH1 IH2]; [intros u Hu; apply Hn; apply in_app_iff; auto|].
    assert (Ht : is_node VI t = true) by (apply Hn; apply in_app_iff; simpl; auto).
    rewrite freqs_snoc, !sum_freq_add by auto. rewrite !sum_over_app.
    unfold sum_over at 2 4. cbn [fold_right]. rewrite !N.add_0_r.
    split; [rewrite <- w32_add, IH1, w32_add|rewrite <- w32_add, IH2, w32_add];
      destruct t; try discriminate Ht; unfold arcs_of; cbn [is_flat is_hier degree bump fst snd];
      change (add32 0 1) with 1%N; rewrite ?N.mul_1_r, ?N.mul_0_r; reflexivity.
  Qed.

  Lemma number_of_arcs_spec : forall x, exists l, all_nodes VI x l /\
    number_of_arcs (arcs VI PF x) =
      (w32 (sum_over VI (arcs_of (is_flat VI)) l), w32 (sum_over VI (arcs_of (is_hier VI)) l)).
  Proof.
    intros x. destruct (trav_all false true x) as (l & E & D & H). exists l. split.
    - split; auto. intros n. rewrite H. intuition.
    - unfold arcs. pose proof (arcs_trav x ([], []) ([], []) eq_refl) as G. unfold same in G. rewrite G.
      cbn [fst]. rewrite E, number_of_arcs_sum.
      destruct (freqs_sum l) as [-> ->]; auto.
      intros t Ht. apply H in Ht. destruct Ht as [_ [Ht|Ht]]; [discriminate|auto].
  Qed.

  (** ** bytes *)

  Variables zsz osz usz fsz hsz : N.
  Notation tb := (term_bytes VI zsz osz usz fsz hsz).
  Definition tbytes (l : list sdd) : N := w64 (sum_over VI tb l).
  Lemma tbytes_app : forall l m, add64 (tbytes l) (tbytes m) = tbytes (l ++ m).
  Proof. intros. unfold tbytes. now rewrite w64_add, sum_over_app. Qed.

  Lemma size_trav : forall t vis, same tbytes (size_visit VI PF zsz osz usz fsz hsz t vis)
    (trav VI PF true true t ([], vis)).
  Proof.
    unfold same.
    induction t as [| |x arcs IH|x arcs IH] using sdd_ind'; intros vis; cbn [size_visit trav fst snd].
    - destruct (visited vis Zero); [reflexivity|]. unfold tbytes, sum_over. cbn. now rewrite N.add_0_r.
    - destruct (visited vis One); [reflexivity|]. unfold tbytes, sum_over. cbn. now rewrite N.add_0_r.
    - destruct (visited vis (Flat x arcs)); [reflexivity|].
      rewrite (surjective_pairing (fold_left _ arcs ([] ++ _, _))).
      apply (fold_sim _ _ _ (same tbytes)).
      + intros [v s] [r vs] [l vs'] Hin E. unfold same in *. cbn [fst snd] in *. injection E as -> ->.
        rewrite (IH v s Hin), (trav_acc _ _ s l). cbn [fst snd]. now rewrite tbytes_app.
      + unfold same, tbytes, sum_over. cbn [fst snd app fold_right]. now rewrite N.add_0_r.
    - destruct (visited vis (Hier x arcs)); [reflexivity|].
      rewrite (surjective_pairing (fold_left _ arcs ([] ++ _, _))).
      apply (fold_sim _ _ _ (same tbytes)).
      + intros [v s] [r vs] [l vs'] Hin E. unfold same in *. cbn [fst snd] in *. injection E as -> ->.
        destruct (IH v s Hin) as [IHv IHs].
        rewrite IHv, IHs, (trav_acc _ _ v l), (trav_acc _ _ s (l ++ _)). cbn [fst snd]. now rewrite !tbytes_app.
      + unfold same, tbytes, sum_over. cbn [fst snd app fold_right]. now rewrite N.add_0_r.
  Qed.

  Lemma bytes_spec : forall x, exists l, all_terms VI x l /\
    bytes VI PF zsz osz usz fsz hsz x = w64 (sum_over VI tb l).
  Proof.
    intros x. destruct (trav_all true true x) as (l & E & D & H). exists l. split.
    - split; auto. intros n. rewrite H. intuition.
    - unfold bytes. rewrite (size_trav x []). cbn [fst]. now rewrite E.
  Qed.

  (** ** dot *)

  (** While arcs are being drawn: those of [todo] are missing. *)
  Definition drawing (todo : list (item VI)) (s : list (item VI) * list sdd) (u : list sdd * list sdd) : Prop :=
    snd s = snd u /\ Permutation (fst s ++ todo) (flat_map (items_of VI) (fst u)).

  Lemma drawing_arcs : forall W (ar : list W) (draw : W -> item VI)
    (f : W -> list (item VI) * list sdd -> list (item VI) * list sdd)
    (g : W -> list sdd * list sdd -> list sdd * list sdd) todo,
    (forall a st u td, In a ar -> drawing td st u -> drawing td (f a st) (g a u)) ->
    forall st u, drawing (map draw ar ++ todo) st u ->
    drawing todo (fold_left (fun st a => let st1 := f a st in (fst st1 ++ [draw a], snd st1)) ar st)
                 (fold_left (fun u a => g a u) ar u).
  Proof.
    intros W ar draw f g todo. induction ar as [|a ar IH]; intros H st u HD; cbn [fold_left map app] in *; auto.
    apply IH; [intros b st' u' td Hb; apply H; now right|].
    destruct (H a st u _ (or_introl eq_refl) HD) as [E P]. split; cbn [fst snd]; auto.
    now rewrite <- app_assoc.
  Qed.

  Lemma drawing_start : forall (t : sdd) m l vs todo arcs, items_of VI t = DNode VI t :: arcs ->
    drawing todo (m, vs) (l, vs) -> drawing (arcs ++ todo) (m ++ [DNode VI t], vs) (l ++ [t], vs).
  Proof.
    intros t m l vs todo arcs E [_ P]. split; auto. cbn [fst snd] in *.
    rewrite flat_map_app. cbn [flat_map]. rewrite E, app_nil_r, <- P, <- !app_assoc.
    apply Permutation_app_head. cbn [app]. rewrite <- Permutation_middle. constructor.
    apply Permutation_app_comm.
  Qed.
  Lemma drawing_end : forall (t : sdd) todo s u, drawing todo s u ->
    drawing todo (fst s, t :: snd s) (fst u, t :: snd u).
  Proof. intros t todo s u [E P]. split; cbn [fst snd]; auto. now rewrite E. Qed.

  Lemma dot_trav : forall t st u todo, drawing todo st u ->
    drawing todo (dot_visit VI PF t st) (trav VI PF true false t u).
  Proof.
    induction t as [| |x arcs IH|x arcs IH] using sdd_ind'; intros [m vs] [l vs'] todo HD;
      pose proof (proj1 HD) as E; cbn [fst snd] in E; subst vs; cbn [dot_visit trav fst snd].
    - destruct (visited vs' Zero); auto.
      exact (drawing_end Zero _ _ _ (drawing_start Zero m l vs' todo [] eq_refl HD)).
    - destruct (visited vs' One); auto.
      exact (drawing_end One _ _ _ (drawing_start One m l vs' todo [] eq_refl HD)).
    - destruct (visited vs' (Flat x arcs)); auto. apply drawing_end.
      apply (drawing_arcs _ arcs (fun a => DFlat VI (Flat x arcs) (fst a) (snd a))
               (fun a => dot_visit VI PF (snd a)) (fun a => trav VI PF true false (snd a))).
      + intros [v s] st u td Hin. apply (IH v s Hin).
      + apply drawing_start; auto.
    - destruct (visited vs' (Hier x arcs)); auto. apply drawing_end.
      apply (drawing_arcs _ arcs (fun a => DHier VI (Hier x arcs) (fst a) (snd a))
               (fun a st => dot_visit VI PF (fst a) (dot_visit VI PF (snd a) st))
               (fun a u => trav VI PF true false (fst a) (trav VI PF true false (snd a) u))).
      + intros [v s] st u td Hin Hd. destruct (IH v s Hin) as [IHv IHs]. cbn [fst snd]. auto.
      + apply drawing_start; auto.
  Qed.

  Lemma dot_spec : forall x, exists l, all_terms VI x l /\
    Permutation (dot VI PF x) (flat_map (items_of VI) l).
  Proof.
    intros x. destruct (trav_all true false x) as (l & E & D & H). exists l. split.
    - split; auto. intros n. rewrite H. intuition.
    - unfold dot. destruct (dot_trav x ([], []) ([], []) []) as [_ P]; [split; auto|].
      now rewrite app_nil_r, E in P.
  Qed.
End ToolsProofs.
