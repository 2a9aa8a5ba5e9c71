(** * The statistics of an SDD, and what is saved of them (C46) *)

From Coq Require Import Ascii String List Bool Arith NArith Lia Permutation.
From Verif Require Import Base SortedSets Values FlatSet Sdd DDModel DDProofs Spec Concrete DDProps Tools ToolsProofs CountProps Text.
Import ListNotations.

Section SddStats.
  Variable VI : values_impl.
  Variable PF : platform VI.
  Variables zsz osz usz fsz hsz : N.     (* as in Tools.v *)
  Notation sdd := (sdd (vt VI)).

  (** sdd_statistics, sdd/tools/sdd_statistics.hh 19-44. *)
  Record sdd_statistics : Type := mk_statistics
    { s_bytes : N; s_frequency : freq; s_nodes : N * N; s_arcs : N * N }.
  (** The constructor (31-36): the arcs are computed from the frequencies kept; statistics (48-53). *)
  Definition statistics (x : sdd) : sdd_statistics :=
    let f := arcs VI PF x in
    mk_statistics (bytes VI PF zsz osz usz fsz hsz x) f (nodes VI PF x) (number_of_arcs f).

  (** The values given to the archive: a number, or a map. *)
  Inductive saved : Type := SNum (n : N) | SMap (m : freq).
  (** save, sdd/tools/serialization.hh 86-97: named values, in this order.  Simplification: the archive (cereal, not in the
      repository) keeps them as they are given. *)
  Definition save_statistics (s : sdd_statistics) : list (text * saved) :=
    [ (lit "bytes", SNum (s_bytes s));
      (lit "flat nodes", SNum (fst (s_nodes s)));
      (lit "hierarchical nodes", SNum (snd (s_nodes s)));
      (lit "flat arcs", SNum (fst (s_arcs s)));
      (lit "hierarchical arcs", SNum (snd (s_arcs s)));
      (lit "arcs frequency", SMap (s_frequency s)) ].

  (** ** Proofs *)

  Hypothesis PO : platform_ok PF.

  Lemma filter_perm : forall (f : sdd -> bool) l l', Permutation l l' -> Permutation (filter f l) (filter f l').
  Proof.
    intros f l l' P. induction P; cbn [filter]; auto.
    - destruct (f x); auto.
    - destruct (f x), (f y); auto. constructor.
    - eapply Permutation_trans; eauto.
  Qed.
  Lemma count_perm : forall f l l', Permutation l l' -> count VI f l = count VI f l'.
  Proof. intros f l l' P. unfold count. now rewrite (Permutation_length (filter_perm f l l' P)). Qed.
  Lemma sum_perm : forall f l l', Permutation l l' -> sum_over VI f l = sum_over VI f l'.
  Proof.
    intros f l l' P. unfold sum_over. induction P; cbn [fold_right]; try lia; congruence.
  Qed.
  Lemma nodes_perm : forall x l l', all_nodes VI x l -> all_nodes VI x l' -> Permutation l l'.
  Proof. intros x l l' [D H] [D' H']. apply NoDup_Permutation; auto. intros n. now rewrite H, H'. Qed.
  Lemma terms_perm : forall x l l', all_terms VI x l -> all_terms VI x l' -> Permutation l l'.
  Proof. intros x l l' [D H] [D' H']. apply NoDup_Permutation; auto. intros n. now rewrite H, H'. Qed.

  Lemma arcs_freqs : forall x, exists l, all_nodes VI x l /\ arcs VI PF x = freqs VI l.
  Proof.
    intros x. destruct (trav_all VI PF PO false true x) as (l & E & D & H). exists l. split.
    - split; auto. intros n. rewrite H. intuition.
    - unfold arcs. pose proof (arcs_trav VI PF x ([], []) ([], []) eq_refl) as G. unfold same in G. rewrite G.
      cbn [fst]. now rewrite E.
  Qed.
  Lemma freqs_keys : forall l k, In k (map fst (freqs VI l)) <-> exists n, In n l /\ degree VI n = k.
  Proof.
    intros l k. induction l as [|t l IH] using rev_ind; [split; [intros []|intros (n & [] & _)]|].
    rewrite freqs_snoc.
    destruct (freq_add_keys (is_flat VI t) (degree VI t) (freqs VI l)) as [K _].
    unfold freq_keys in K. rewrite K, IH. split.
    - intros [->|(n & Hn & E)]; [exists t|exists n]; split; auto; apply in_app_iff; simpl; auto.
    - intros (n & Hn & E). apply in_app_iff in Hn. destruct Hn as [Hn|[<-|[]]]; eauto.
  Qed.
  Lemma freq_at_in : forall (m : freq) k c, ssorted N.ltb (map fst m) -> In (k, c) m -> freq_at m k = c.
  Proof.
    induction m as [|[a d] m IH]; intros k c S Hin; [destruct Hin|]. cbn [map fst] in S.
    inversion S as [|? ? S' HF]; subst. cbn [freq_at]. destruct Hin as [E|Hin].
    - injection E as -> ->. now rewrite N.eqb_refl.
    - destruct (N.eqb_spec a k) as [->|_]; [|auto].
      rewrite Forall_forall in HF. specialize (HF k (in_map fst _ _ Hin)). rewrite N.ltb_lt in HF. lia.
  Qed.
End SddStats.

(** What is saved, for any enumeration [l] of the nodes and [ts] of the nodes and terminals, each once.  The map has an
    entry for each number of arcs some node has, and no other, in increasing order. *)
Definition frequencies VI (l : list (sdd (vt VI))) (m : freq) : Prop :=
  ssorted N.ltb (map fst m) /\
  forall k c, In (k, c) m <->
    (exists n, In n l /\ degree VI n = k) /\
    c = (w32 (count VI (fun t => is_flat VI t && N.eqb (degree VI t) k) l),
         w32 (count VI (fun t => is_hier VI t && N.eqb (degree VI t) k) l)).

Theorem C46_statistics : forall VI PF (PO : platform_ok PF) zsz osz usz fsz hsz x l ts,
  all_nodes VI x l -> all_terms VI x ts ->
  exists m, frequencies VI l m /\
  save_statistics (statistics VI PF zsz osz usz fsz hsz x) =
    [ (lit "bytes", SNum (w64 (sum_over VI (term_bytes VI zsz osz usz fsz hsz) ts)));
      (lit "flat nodes", SNum (w32 (count VI (is_flat VI) l)));
      (lit "hierarchical nodes", SNum (w32 (count VI (is_hier VI) l)));
      (lit "flat arcs", SNum (w32 (sum_over VI (fun t => if is_flat VI t then degree VI t else 0%N) l)));
      (lit "hierarchical arcs", SNum (w32 (sum_over VI (fun t => if is_hier VI t then degree VI t else 0%N) l)));
      (lit "arcs frequency", SMap m) ].
Proof.
  intros VI PF PO zsz osz usz fsz hsz x l ts Hl Hts. exists (arcs VI PF x). split.
  - destruct (arcs_freqs VI PF PO x) as (l' & Hl' & E).
    pose proof (nodes_perm VI x l l' Hl Hl') as P.
    assert (S : ssorted N.ltb (map fst (arcs VI PF x))) by (rewrite E; apply (freqs_sorted VI l')).
    split; [exact S|]. intros k c.
    assert (A : freq_at (arcs VI PF x) k =
      (w32 (count VI (fun t => is_flat VI t && N.eqb (degree VI t) k) l),
       w32 (count VI (fun t => is_hier VI t && N.eqb (degree VI t) k) l))).
    { rewrite E, !(count_perm VI _ l l' P). apply (freqs_at VI l' k).
      intros t Ht. apply Hl' in Ht. tauto. }
    assert (K : In k (map fst (arcs VI PF x)) <-> exists n, In n l /\ degree VI n = k).
    { rewrite E. rewrite (freqs_keys VI l' k). split; intros (n & Hn & D); exists n; (split; [|exact D]).
      - apply (Permutation_in _ (Permutation_sym P)). exact Hn.
      - apply (Permutation_in _ P). exact Hn. }
    split.
    + intros Hin. split; [apply K; exact (in_map fst _ _ Hin)|].
      rewrite <- A. symmetry. now apply freq_at_in.
    + intros [Hk ->]. apply K in Hk. apply in_map_iff in Hk. destruct Hk as ([k' c] & Ek & Hin).
      cbn [fst] in Ek. subst k'. rewrite <- A, (freq_at_in _ k c S Hin). exact Hin.
  - unfold save_statistics, statistics. cbn [s_bytes s_nodes s_arcs s_frequency].
    destruct (bytes_spec VI PF PO zsz osz usz fsz hsz x) as (l1 & H1 & ->).
    destruct (nodes_spec VI PF PO x) as (l2 & H2 & ->).
    destruct (number_of_arcs_spec VI PF PO x) as (l3 & H3 & ->). cbn [fst snd].
    rewrite (sum_perm VI _ _ _ (terms_perm VI x l1 ts H1 Hts)).
    pose proof (nodes_perm VI x l2 l H2 Hl) as P2. pose proof (nodes_perm VI x l3 l H3 Hl) as P3.
    rewrite !(count_perm VI _ _ _ P2), !(sum_perm VI _ _ _ P3). reflexivity.
Qed.
Print Assumptions C46_statistics.

(** Such enumerations exist for every SDD; on the sum of two SDDs, what is saved is computed. *)
Example C46_statistics_ex :
  (forall x, exists l ts, all_nodes FS x l /\ all_terms FS x ts) /\
  match api_plus FS PF_up ex_x ex_y with
  | Ok z => save_statistics (statistics FS PF_up 1 1 10 3 3 z)
  | Err _ => []
  end = [ (lit "bytes", SNum 111); (lit "flat nodes", SNum 7); (lit "hierarchical nodes", SNum 1);
          (lit "flat arcs", SNum 8); (lit "hierarchical arcs", SNum 2);
          (lit "arcs frequency", SMap [(1, (6, 0)); (2, (1, 1))]) ]%N.
Proof.
  split.
  - intros x. destruct (C46_nodes FS PF_up PF_up_ok x) as (l & Hl & _).
    destruct (C46_bytes FS PF_up PF_up_ok 1 1 10 3 3 x) as (ts & Hts & _). eauto.
  - vm_compute. reflexivity.
Qed.
