(** * C72: iterators of hash maps are used while they are valid *)

From Coq Require Import List Bool NArith Arith Lia Permutation.
From Verif Require Import Base SortedSets Values Sdd SddFacts DDModel Spec DDProofs DDTheorems Concrete DDProps Count
  Tools ToolsProofs Iterators.
Import ListNotations.

(** ** The union *)

Section SumProofs.
  Variable VI : values_impl.
  Variable PF : platform VI.
  Variable G : growth.
  Hypothesis GO : growth_ok G.
  Notation V := (vt VI).
  Notation sdd := (sdd V).

  Definition roomy {E} (m : umap E) : Prop := full G (buckets m) (length (elems m)) = false.

  Lemma full_le b n n' : n <= n' -> full G b n' = false -> full G b n = false.
  Proof.
    intros L F. destruct (full G b n) eqn:E; [|reflexivity]. rewrite (full_mono G GO b n n' L E) in F. discriminate.
  Qed.

  Lemma inserted_roomy {E} (l : list E) m : roomy (inserted G l m).
  Proof.
    unfold roomy, inserted. destruct (full G (buckets m) (length l)) eqn:F; cbn [elems buckets]; [|assumption].
    now apply (grow_enough G GO).
  Qed.
  Lemma inserted_elems {E} (l : list E) m : elems (inserted G l m) = l.
  Proof. unfold inserted. now destruct (full G (buckets m) (length l)). Qed.
  Lemma inserted_same {E} (l : list E) m : full G (buckets m) (length l) = false -> inserted G l m = set_elems l m.
  Proof. intros F. unfold inserted. now rewrite F. Qed.

  Section Work.
    Variable W : Type.
    Variable ops : valops VI W.
    Hypothesis IT : forall m, length (vo_iter ops m) = length m.
    Notation map := (umap (W * list sdd)).
    Variable ask : ddop V -> res (err V) sdd.

    Lemma it_insert_elems l : forall m : map, elems (it_insert VI G W ops l m) = um_insert VI ops l (elems m).
    Proof.
      induction l as [|kv l IH]; intros m; [reflexivity|].
      unfold it_insert, um_insert in *. cbn [fold_left]. rewrite IH. f_equal. unfold it_emplace, um_emplace.
      destruct (existsb _ (elems m)); [reflexivity|]. apply inserted_elems.
    Qed.
    Lemma it_insert_roomy l : forall m : map, roomy m -> roomy (it_insert VI G W ops l m).
    Proof.
      induction l as [|kv l IH]; intros m R; [assumption|]. unfold it_insert in *. cbn [fold_left]. apply IH.
      unfold it_emplace. destruct (existsb _ (elems m)); [assumption|]. apply inserted_roomy.
    Qed.
    Lemma um_insert_length l : forall m, length m <= length (um_insert VI ops l m) <= length l + length m.
    Proof.
      induction l as [|kv l IH]; intros m; [cbn; lia|]. unfold um_insert in *. cbn [fold_left].
      specialize (IH (um_emplace VI ops kv m)). unfold um_emplace in *.
      destruct (existsb _ m); [cbn; lia|]. rewrite app_length in IH. cbn in *. lia.
    Qed.
    (** No rehash when there is room for all the elements. *)
    Lemma it_insert_same l : forall m : map, full G (buckets m) (length l + length (elems m)) = false ->
      it_insert VI G W ops l m = set_elems (um_insert VI ops l (elems m)) m.
    Proof.
      induction l as [|kv l IH]; intros m F; [destruct m; reflexivity|].
      unfold it_insert, um_insert in *. cbn [fold_left].
      unfold it_emplace, um_emplace. destruct (existsb _ (elems m)) eqn:E.
      - apply IH. eapply full_le; [|exact F]. cbn. lia.
      - rewrite inserted_same.
        + rewrite IH; [reflexivity|]. cbn [set_elems elems buckets]. rewrite app_length. cbn [length] in *.
          eapply full_le; [|exact F]. lia.
        + rewrite app_length. cbn [length] in *. eapply full_le; [|exact F]. lia.
    Qed.

    (** Loop (C) removes at least as many elements as it keeps aside. *)
    Lemma sum_C_length : forall todo cv cs kept save rem k s r,
      interp ask (sum_C VI PF ops cv cs todo kept save rem) = Ok (k, s, r) ->
      length r + length k <= length todo + length kept + length rem.
    Proof.
      induction todo as [|[rv rs] t IH]; intros cv cs kept save rem k s r E; cbn [sum_C] in E.
      - cbn in E. inversion E; subst. cbn. lia.
      - destruct (vo_empty ops cv).
        { cbn in E. inversion E; subst. rewrite app_length. cbn. lia. }
        destruct (vo_eqb ops cv rv).
        { cbn in E. inversion E; subst. rewrite app_length. cbn. lia. }
        rewrite interp_bind in E. destruct (interp ask (vo_inter ops cv rv)) as [inter|]; [|discriminate]. cbn [rbind] in E.
        destruct (negb (vo_empty ops inter)).
        + rewrite interp_bind in E. destruct (interp ask (vo_diff ops rv inter)) as [diff|]; [|discriminate]. cbn [rbind] in E.
          assert (L : length (if negb (vo_empty ops diff) then rem ++ [(diff, rs)] else rem) <= S (length rem)).
          { destruct (negb (vo_empty ops diff)); [rewrite app_length; cbn|]; lia. }
          cbv zeta in E. revert E L. generalize (if negb (vo_empty ops diff) then rem ++ [(diff, rs)] else rem).
          intros rem1 E L. destruct (vo_eqb ops cv inter).
          * cbn in E. inversion E; subst. rewrite app_length. cbn [length]. lia.
          * rewrite interp_bind in E. destruct (interp ask (vo_diff ops cv inter)) as [cv'|]; [|discriminate]. cbn [rbind] in E.
            apply IH in E. cbn [length]. lia.
        + apply IH in E. rewrite app_length in E. cbn in *. lia.
    Qed.

    Lemma it_sum_B_same : forall arcs (res : map) save,
      roomy res ->
      interp ask (it_sum_B VI PF G W ops (epoch res) arcs res save)
      = rbind (interp ask (sum_B VI PF ops arcs (elems res) save)) (fun rs => Ok (set_elems (fst rs) res, snd rs))
      /\ forall rs, interp ask (sum_B VI PF ops arcs (elems res) save) = Ok rs -> length (fst rs) <= length (elems res).
    Proof.
      induction arcs as [|[v s] arcs IH]; intros res save R; cbn [it_sum_B sum_B].
      - split; [destruct res; reflexivity|]. cbn. intros rs E. inversion E; subst. cbn. lia.
      - unfold valid. rewrite Nat.eqb_refl. rewrite !interp_bind.
        destruct (interp ask (sum_C VI PF ops v s (vo_iter ops (elems res)) [] save [])) as [[[k sv] rem]|e] eqn:EC;
          [|split; [reflexivity|discriminate]].
        cbn [rbind fst snd]. pose proof (sum_C_length _ _ _ _ _ _ _ _ _ EC) as L. rewrite IT in L. cbn [length] in L.
        pose proof (um_insert_length rem k) as U.
        rewrite it_insert_same; cbn [set_elems elems buckets].
        2:{ eapply full_le; [|exact R]. lia. }
        specialize (IH {| elems := um_insert VI ops rem k; buckets := buckets res; epoch := epoch res |} sv).
        cbn [epoch elems buckets set_elems] in IH. destruct IH as [IH1 IH2].
        { unfold roomy. cbn [elems buckets]. eapply full_le; [|exact R]. lia. }
        split; [exact IH1|]. intros rs E. apply IH2 in E. lia.
    Qed.

    Lemma it_sum_A_same : forall cast begin operands (res : map), roomy res ->
      match interp ask (sum_A VI PF ops cast begin operands (elems res)) with
      | Ok l => exists res', interp ask (it_sum_A VI PF G W ops cast begin operands res) = Ok res' /\ elems res' = l
      | Err e => interp ask (it_sum_A VI PF G W ops cast begin operands res) = Err e
      end.
    Proof.
      intros cast begin. induction operands as [|x r IH]; intros res R; cbn [sum_A it_sum_A].
      - cbn. eauto.
      - rewrite !interp_bind. destruct (interp ask (check_compatibility VI begin x)) as [u|e]; [|reflexivity].
        cbn [rbind]. destruct (cast x) as [[y arcs]|]; [|reflexivity].
        rewrite !interp_bind. destruct (it_sum_B_same arcs res [] R) as [-> B].
        destruct (interp ask (sum_B VI PF ops arcs (elems res) [])) as [[k sv]|e] eqn:EB; [|reflexivity].
        cbn [rbind fst snd]. specialize (B _ eq_refl). cbn [fst] in B.
        specialize (IH (it_insert VI G W ops sv (set_elems k res))). rewrite it_insert_elems in IH. apply IH.
        apply it_insert_roomy. unfold roomy. cbn [set_elems elems buckets]. eapply full_le; [|exact R]. lia.
    Qed.

    Lemma it_sum_work_same mk cast operands :
      interp ask (it_sum_work VI PF G W ops mk cast operands) = interp ask (sum_work VI PF ops mk cast operands).
    Proof.
      unfold it_sum_work, sum_work. destruct operands as [|h r]; [reflexivity|].
      destruct (cast h) as [[x arcs]|]; [|reflexivity]. cbv zeta. rewrite !interp_bind.
      set (l0 := List.map _ arcs).
      pose proof (it_sum_A_same cast h r (it_insert VI G W ops l0 (created G (length arcs)))) as A.
      rewrite it_insert_elems in A. cbn [created elems] in A.
      specialize (A (it_insert_roomy l0 (created G (length arcs)) (full_none G GO _))).
      destruct (interp ask (sum_A VI PF ops cast h r (um_insert VI ops l0 []))) as [l|e].
      - destruct A as (res' & -> & <-). reflexivity.
      - rewrite A. reflexivity.
    Qed.
  End Work.

  Hypothesis PO : platform_ok PF.

  Lemma it_eval_same : forall n op, it_eval VI PF G n op = dd_eval VI PF n op.
  Proof.
    induction n as [|n IH]; intros op; [reflexivity|]. cbn [it_eval dd_eval].
    assert (X : interp (it_eval VI PF G n) (dd_body VI PF op) = interp (dd_eval VI PF n) (dd_body VI PF op)).
    { generalize (dd_body VI PF op). induction p as [a|e|o k IHp]; cbn [interp]; auto.
      rewrite IH. destruct (dd_eval VI PF n o); auto. }
    destruct op as [l|l|l r]; try exact X. cbn [it_body dd_body] in *.
    destruct l as [|[| |x a|x a] [|b l]]; try exact X; unfold it_sum_body, sum_body in *.
    - destruct (v_fast VI); [exact X|]. rewrite <- X. apply it_sum_work_same.
      intros m. apply Permutation_length. apply (pf_iter_flat PO).
    - rewrite <- X. apply it_sum_work_same. intros m. apply Permutation_length. apply (pf_iter_hier PO).
  Qed.
  Lemma it_interp_same {A} n (p : prog (ddop V) sdd (err V) A) : interp (it_eval VI PF G n) p = interp (dd_eval VI PF n) p.
  Proof. induction p as [a|e|o k IHp]; cbn [interp]; auto. rewrite it_eval_same. destruct (dd_eval VI PF n o); auto. Qed.
End SumProofs.

(** ** The count of combinations *)

Section CountProofs.
  Variable VI : values_impl.
  Variable PF : platform VI.
  Hypothesis PO : platform_ok PF.
  Variable G : growth.
  Hypothesis GO : growth_ok G.
  Variable late : bool.
  Notation V := (vt VI).
  Notation sdd := (sdd V).
  Notation umap := (umap (sdd * N)).
  Notation visit := (it_visit VI PF G late).
  Notation roomy := (roomy G).

  (** How a step of the visitor with iterators follows one without. *)
  Definition follows {T} (f : memo VI -> option (T * memo VI)) (g : umap -> res cerr (T * umap)) : Prop :=
    forall m n l, roomy m -> f (elems m) = Some (n, l) ->
      length (elems m) <= length l /\
      if full G (buckets m) (length l)
      then g m = Err CIterator \/ exists m', g m = Ok (n, m') /\ elems m' = l /\ roomy m' /\ epoch m < epoch m'
      else g m = Ok (n, set_elems l m).

  Lemma add_length l t n : length (memo_add VI PF l t n) = length l.
  Proof. induction l as [|[k i] l IH]; cbn; auto. destruct (sdd_eqb VI PF k t); cbn; auto. Qed.

  Lemma roomy_set (m : umap) l : full G (buckets m) (length l) = false -> roomy (set_elems l m).
  Proof. exact (fun H => H). Qed.

  (** The arcs of a node: [it] is the iterator of the node. *)
  Section Loop.
    Variable A : Type.
    Variable t : sdd.
    Variable f : A -> memo VI -> option (N * memo VI).
    Variable g : A -> umap -> res cerr (N * umap).
    Fixpoint loop_f (l : list A) (m : memo VI) : option (memo VI) :=
      match l with
      | [] => Some m
      | a :: l' => match f a m with Some (n, m') => loop_f l' (memo_add VI PF m' t n) | None => None end
      end.
    Fixpoint loop_g (it : nat) (l : list A) (m : umap) : res cerr umap :=
      match l with
      | [] => Ok m
      | a :: l' => rbind (g a m) (fun nm => rbind (it_add VI PF late it t (fst nm) (snd nm)) (loop_g it l'))
      end.
    (** After the loop: [it] is still valid if and only if there is room for every element. *)
    Definition after (it : nat) (m : umap) (l : memo VI) (r : res cerr umap) : Prop :=
      if full G (buckets m) (length l)
      then r = Err CIterator \/ exists m', r = Ok m' /\ elems m' = l /\ roomy m' /\ epoch m < epoch m'
      else (it = epoch m -> r = Ok (set_elems l m)) /\ (r = Err CIterator \/ r = Ok (set_elems l m)).
    Lemma loop_follows it : forall l, (forall a, In a l -> follows (f a) (g a)) -> forall m l', it <= epoch m ->
      roomy m -> loop_f l (elems m) = Some l' -> length (elems m) <= length l' /\ after it m l' (loop_g it l m).
    Proof.
      unfold after. induction l as [|a l IH]; intros FL m l' Le R E; cbn [loop_f loop_g] in *.
      - inversion E; subst l'. split; [lia|]. unfold IteratorsProps.roomy in R. rewrite R. destruct m; cbn. auto.
      - destruct (f a (elems m)) as [[n l1]|] eqn:Ef; [|discriminate].
        destruct (FL a (or_introl eq_refl) m n l1 R Ef) as [L1 F1].
        assert (FL' : forall b, In b l -> follows (f b) (g b)) by (intros b Hb; apply FL; now right).
        specialize (IH FL').
        assert (Step : forall m1, elems m1 = l1 -> roomy m1 -> it <= epoch m1 ->
                  length l1 <= length l' /\
                  ((late && negb (valid it m1) = false ->
                   after it m1 l' (rbind (it_add VI PF late it t n m1) (loop_g it l))) /\
                  (late && negb (valid it m1) = true -> rbind (it_add VI PF late it t n m1) (loop_g it l) = Err CIterator))).
        { intros m1 E1 R1 Le1. destruct (IH (set_elems (memo_add VI PF (elems m1) t n) m1) l') as [L2 F2].
          { exact Le1. }
          { apply roomy_set. rewrite add_length. exact R1. }
          { cbn [set_elems elems]. now rewrite E1. }
          cbn [set_elems elems] in L2. rewrite add_length, E1 in L2. split; [exact L2|].
          unfold it_add. split; intros ->; [exact F2|reflexivity]. }
        destruct (full G (buckets m) (length l1)) eqn:Fu.
        + assert (L : length l1 <= length l').
          { destruct (Step {| elems := l1; buckets := grow G (buckets m) (length l1); epoch := epoch m |}) as [L _]; auto.
            unfold IteratorsProps.roomy. cbn [elems buckets]. now apply (grow_enough G GO). }
          split; [lia|]. rewrite (full_mono G GO _ _ _ L Fu).
          destruct F1 as [Eg|(m' & Eg & E1 & R1 & P1)]; rewrite Eg; cbn [rbind fst snd]; [auto|].
          destruct (Step m' E1 R1 ltac:(lia)) as [_ [S1 S2]].
          destruct (late && negb (valid it m')); [left; auto|]. specialize (S1 eq_refl). unfold after in S1.
          destruct (full G (buckets m') (length l')) eqn:Fu'.
          * destruct S1 as [->|(m2 & -> & E2 & R2 & P2)]; [auto|]. right. exists m2. repeat split; auto. lia.
          * destruct S1 as [_ [->| ->]]; [auto|]. right. eexists. split; [reflexivity|]. repeat split; auto.
        + rewrite F1. cbn [rbind fst snd].
          destruct (Step (set_elems l1 m) eq_refl Fu Le) as [L [S1 S2]]. split; [lia|].
          unfold after in S1. cbn [set_elems buckets epoch elems] in S1.
          unfold valid in *. cbn [set_elems epoch] in *.
          destruct (late && negb (Nat.eqb it (epoch m))) eqn:La.
          * specialize (S2 eq_refl). rewrite S2. destruct (full G (buckets m) (length l')); [auto|]. split; [|auto].
            intros ->. rewrite Nat.eqb_refl, andb_false_r in La. discriminate.
          * exact (S1 eq_refl).
    Qed.

    (** A node: insertion, loop, use of the iterator. *)
    Definition node_f (l : list A) (m : memo VI) : option (N * memo VI) :=
      match memo_find VI PF m t with
      | Some n => Some (n, m)
      | None =>
          match loop_f l ((t, 0%N) :: m) with
          | Some m' => Some (match memo_find VI PF m' t with Some n => n | None => 0%N end, m')
          | None => None
          end
      end.
    Definition node_g (l : list A) (m : umap) : res cerr (N * umap) :=
      match memo_find VI PF (elems m) t with
      | Some n => Ok (n, m)
      | None =>
          let m1 := inserted G ((t, 0%N) :: elems m) m in
          rbind (loop_g (epoch m1) l m1) (it_get VI PF (epoch m1) t)
      end.
    Lemma node_exact (l : list A) : (forall a, In a l -> follows (f a) (g a)) -> forall m n l',
      memo_find VI PF (elems m) t = None -> node_f l (elems m) = Some (n, l') ->
      let m1 := inserted G ((t, 0%N) :: elems m) m in
      S (length (elems m)) <= length l' /\
      node_g l m = if full G (buckets m1) (length l') then Err CIterator else Ok (n, set_elems l' m1).
    Proof.
      intros FL m n l' Ef E. cbv zeta. unfold node_f, node_g in *. rewrite Ef in *. cbv zeta.
      destruct (loop_f l ((t, 0%N) :: elems m)) as [l1|] eqn:El; [|discriminate].
      assert (l1 = l') by (inversion E; reflexivity). subst l1.
      assert (En : match memo_find VI PF l' t with Some n => n | None => 0%N end = n) by (inversion E; reflexivity).
      set (m1 := inserted G ((t, 0%N) :: elems m) m).
      assert (R1 : roomy m1) by (apply (inserted_roomy G GO)).
      assert (E1 : elems m1 = (t, 0%N) :: elems m) by apply inserted_elems.
      rewrite <- E1 in El. destruct (loop_follows (epoch m1) l FL m1 l' (le_n _) R1 El) as [L F].
      rewrite E1 in L. cbn [length] in L. split; [exact L|]. unfold after in F.
      assert (Get : forall m', elems m' = l' -> it_get VI PF (epoch m1) t m' =
                      if valid (epoch m1) m' then Ok (n, m') else Err CIterator).
      { intros m' E2. unfold it_get. now rewrite E2, En. }
      destruct (full G (buckets m1) (length l')) eqn:Fu.
      - destruct F as [->|(m' & -> & E2 & _ & P2)]; [reflexivity|]. cbn [rbind].
        rewrite (Get m' E2). unfold valid. replace (Nat.eqb (epoch m1) (epoch m')) with false; [reflexivity|].
        symmetry. apply Nat.eqb_neq. lia.
      - rewrite (proj1 F eq_refl). cbn [rbind]. rewrite Get by reflexivity.
        unfold valid. cbn [set_elems epoch]. now rewrite Nat.eqb_refl.
    Qed.
    Lemma node_follows (l : list A) : (forall a, In a l -> follows (f a) (g a)) -> follows (node_f l) (node_g l).
    Proof.
      intros FL m n l' R E. destruct (memo_find VI PF (elems m) t) as [k|] eqn:Ef.
      - unfold node_f, node_g in *. rewrite Ef in *. inversion E; subst k l'. split; [lia|].
        unfold IteratorsProps.roomy in R. rewrite R. destruct m; reflexivity.
      - destruct (node_exact l FL m n l' Ef E) as [L ->]. split; [lia|].
        assert (L' : length ((t, 0%N) :: elems m) <= length l') by exact L.
        unfold inserted. destruct (full G (buckets m) (length ((t, 0%N) :: elems m))) eqn:Fu0; cbn [buckets].
        + rewrite (full_mono G GO _ _ _ L' Fu0).
          destruct (full G (grow G (buckets m) (length ((t, 0%N) :: elems m))) (length l')) eqn:Fu; [auto|].
          right. eexists. split; [reflexivity|]. cbn [set_elems elems buckets epoch]. repeat split; auto.
        + destruct (full G (buckets m) (length l')) eqn:Fu; auto.
    Qed.
  End Loop.

  Lemma follows_bind {T U W} (f : memo VI -> option (T * memo VI)) g (f' : memo VI -> option (U * memo VI)) g'
    (h : T -> U -> W) : follows f g -> follows f' g' ->
    follows (fun m => match f m with
                      | Some (k, m1) => match f' m1 with Some (n, m2) => Some (h k n, m2) | None => None end
                      | None => None
                      end)
            (fun m => rbind (g m) (fun km => rbind (g' (snd km)) (fun nm => Ok (h (fst km) (fst nm), snd nm)))).
  Proof.
    intros F F' m n l R E. destruct (f (elems m)) as [[k l1]|] eqn:E1; [|discriminate].
    destruct (f' l1) as [[u l2]|] eqn:E2; [|discriminate].
    assert (h k u = n) by (inversion E; reflexivity). assert (l2 = l) by (inversion E; reflexivity). subst n l2.
    destruct (F m k l1 R E1) as [L1 P1]. destruct (full G (buckets m) (length l1)) eqn:Fu.
    - assert (L2 : length l1 <= length l).
      { apply (F' {| elems := l1; buckets := grow G (buckets m) (length l1); epoch := 0 |} u l); auto.
        unfold IteratorsProps.roomy. cbn [elems buckets]. now apply (grow_enough G GO). }
      split; [lia|]. rewrite (full_mono G GO _ _ _ L2 Fu).
      destruct P1 as [->|(m' & -> & Em & Rm & Pm)]; cbn [rbind fst snd]; [auto|].
      destruct (F' m' u l Rm ltac:(now rewrite Em)) as [_ P2].
      destruct (full G (buckets m') (length l)) eqn:Fu'.
      + destruct P2 as [->|(m2 & -> & Em2 & Rm2 & Pm2)]; cbn [rbind fst snd]; [auto|].
        right. exists m2. repeat split; auto. lia.
      + rewrite P2. cbn [rbind fst snd]. right. eexists. split; [reflexivity|]. repeat split; auto.
    - rewrite P1. cbn [rbind fst snd].
      destruct (F' (set_elems l1 m) u l Fu E2) as [L2 P2]. cbn [set_elems elems buckets epoch] in *.
      split; [lia|]. destruct (full G (buckets m) (length l)).
      + destruct P2 as [->|(m2 & -> & Em2 & Rm2 & Pm2)]; cbn [rbind fst snd]; [auto|].
        right. exists m2. repeat split; auto.
      + rewrite P2. reflexivity.
  Qed.

  Lemma follows_ret {T U} (f : memo VI -> option (T * memo VI)) g (h : T -> U) : follows f g ->
    follows (fun m => match f m with Some (n, m1) => Some (h n, m1) | None => None end)
            (fun m => rbind (g m) (fun nm => Ok (h (fst nm), snd nm))).
  Proof.
    intros F m n l R E. destruct (f (elems m)) as [[k l1]|] eqn:E1; [|discriminate].
    assert (h k = n) by (inversion E; reflexivity). assert (l1 = l) by (inversion E; reflexivity). subst n l1.
    destruct (F m k l R E1) as [L1 P1]. split; [exact L1|]. destruct (full G (buckets m) (length l)).
    - destruct P1 as [->|(m2 & -> & Em2 & Rm2 & Pm2)]; cbn [rbind fst snd]; [auto|]. right. exists m2. repeat split; auto.
    - rewrite P1. reflexivity.
  Qed.

  Lemma follows_ext {T} (f f' : memo VI -> option (T * memo VI)) g g' :
    (forall m, f m = f' m) -> (forall m, g m = g' m) -> follows f' g' -> follows f g.
  Proof. intros Ef Eg F m n l R E. rewrite Eg. apply F; auto. now rewrite <- Ef. Qed.

  (** The arcs of flat and of hierarchical nodes. *)
  Definition flat_f (a : V * sdd) (m : memo VI) : option (N * memo VI) :=
    match count_visit VI PF (snd a) m with Some (n, m') => Some (v_size VI (fst a) * n, m')%N | None => None end.
  Definition flat_g (a : V * sdd) (m : umap) : res cerr (N * umap) :=
    rbind (visit (snd a) m) (fun nm => Ok (v_size VI (fst a) * fst nm, snd nm)%N).
  Definition hier_f (a : sdd * sdd) (m : memo VI) : option (N * memo VI) :=
    match count_visit VI PF (fst a) m with
    | Some (k, m1) => match count_visit VI PF (snd a) m1 with Some (n, m2) => Some (k * n, m2)%N | None => None end
    | None => None
    end.
  Definition hier_g (a : sdd * sdd) (m : umap) : res cerr (N * umap) :=
    rbind (visit (fst a) m) (fun km => rbind (visit (snd a) (snd km)) (fun nm => Ok (fst km * fst nm, snd nm)%N)).

  Lemma count_flat x arcs m : count_visit VI PF (Flat x arcs) m = node_f _ (Flat x arcs) flat_f arcs m.
  Proof.
    unfold node_f. cbn [count_visit]. destruct (memo_find VI PF m (Flat x arcs)); [reflexivity|].
    match goal with |- match ?a with _ => _ end = match ?b with _ => _ end => assert (Q : a = b); [|now rewrite Q] end.
    generalize ((Flat x arcs, 0%N) :: m). generalize (Flat x arcs). intros t.
    induction arcs as [|[v s] arcs IHa]; intros m0; cbn [loop_f]; [reflexivity|]. unfold flat_f at 1. cbn [fst snd].
    destruct (count_visit VI PF s m0) as [[n m']|]; [|reflexivity]. apply IHa.
  Qed.
  Lemma count_hier x arcs m : count_visit VI PF (Hier x arcs) m = node_f _ (Hier x arcs) hier_f arcs m.
  Proof.
    unfold node_f. cbn [count_visit]. destruct (memo_find VI PF m (Hier x arcs)); [reflexivity|].
    match goal with |- match ?a with _ => _ end = match ?b with _ => _ end => assert (Q : a = b); [|now rewrite Q] end.
    generalize ((Hier x arcs, 0%N) :: m). generalize (Hier x arcs). intros t.
    induction arcs as [|[v s] arcs IHa]; intros m0; cbn [loop_f]; [reflexivity|]. unfold hier_f at 1. cbn [fst snd].
    destruct (count_visit VI PF v m0) as [[k m1]|]; [|reflexivity].
    destruct (count_visit VI PF s m1) as [[n m']|]; [|reflexivity]. apply IHa.
  Qed.
  Lemma visit_flat x arcs m : visit (Flat x arcs) m = node_g _ (Flat x arcs) flat_g arcs m.
  Proof.
    unfold node_g. cbn [it_visit]. destruct (memo_find VI PF (elems m) (Flat x arcs)); [reflexivity|]. cbv zeta.
    match goal with |- rbind ?a _ = rbind ?b _ => assert (Q : a = b); [|now rewrite Q] end.
    generalize (inserted G ((Flat x arcs, 0%N) :: elems m) m). intros m1. generalize (epoch m1). intros it.
    revert m1. generalize (Flat x arcs). intros t.
    induction arcs as [|[v s] arcs IHa]; intros m0; cbn [loop_g]; [reflexivity|]. unfold flat_g at 1. cbn [fst snd].
    destruct (visit s m0) as [[n m']|]; cbn [rbind fst snd]; [|reflexivity].
    destruct (it_add VI PF late it t (v_size VI v * n) m'); cbn [rbind]; [|reflexivity]. apply IHa.
  Qed.
  Lemma visit_hier x arcs m : visit (Hier x arcs) m = node_g _ (Hier x arcs) hier_g arcs m.
  Proof.
    unfold node_g. cbn [it_visit]. destruct (memo_find VI PF (elems m) (Hier x arcs)); [reflexivity|]. cbv zeta.
    match goal with |- rbind ?a _ = rbind ?b _ => assert (Q : a = b); [|now rewrite Q] end.
    generalize (inserted G ((Hier x arcs, 0%N) :: elems m) m). intros m1. generalize (epoch m1). intros it.
    revert m1. generalize (Hier x arcs). intros t.
    induction arcs as [|[v s] arcs IHa]; intros m0; cbn [loop_g]; [reflexivity|]. unfold hier_g at 1. cbn [fst snd].
    destruct (visit v m0) as [[k m1]|]; cbn [rbind fst snd]; [|reflexivity].
    destruct (visit s m1) as [[n m']|]; cbn [rbind fst snd]; [|reflexivity].
    destruct (it_add VI PF late it t (k * n) m'); cbn [rbind]; [|reflexivity]. apply IHa.
  Qed.

  Lemma visit_follows : forall t, follows (count_visit VI PF t) (visit t).
  Proof.
    induction t as [| |x arcs IH|x arcs IH] using sdd_ind'.
    - intros m n l R E. discriminate.
    - intros m n l R E. cbn in E. inversion E; subst. split; [lia|]. unfold IteratorsProps.roomy in R. rewrite R.
      destruct m; reflexivity.
    - refine (follows_ext _ _ _ _ (count_flat x arcs) (visit_flat x arcs) (node_follows _ _ _ _ arcs _)).
      intros [v s] Hin. apply (follows_ret _ _ (fun n => v_size VI v * n)%N). exact (IH v s Hin).
    - refine (follows_ext _ _ _ _ (count_hier x arcs) (visit_hier x arcs) (node_follows _ _ _ _ arcs _)).
      intros [v s] Hin. apply (follows_bind _ _ _ _ N.mul); apply (IH v s Hin).
  Qed.

  (** The keys of the map are the nodes. *)
  Definition keys (m : memo VI) : list sdd := map fst m.
  Definition locked (t : sdd) : Prop := forall m n m', count_visit VI PF t m = Some (n, m') ->
    trav VI PF false true t (rev (keys m), keys m) = (rev (keys m'), keys m').
  Lemma add_keys l t n : keys (memo_add VI PF l t n) = keys l.
  Proof. induction l as [|[k i] l IH]; cbn; auto. destruct (sdd_eqb VI PF k t); cbn; auto. f_equal; exact IH. Qed.
  Lemma find_keys m t : visited VI PF (keys m) t = match memo_find VI PF m t with Some _ => true | None => false end.
  Proof. induction m as [|[k i] m IH]; cbn; auto. destruct (sdd_eqb VI PF k t); cbn; auto. Qed.

  Lemma visit_keys : forall t, locked t.
  Proof.
    induction t as [| |x arcs IH|x arcs IH] using sdd_ind'; intros m n m' E.
    - discriminate.
    - cbn in *. now inversion E.
    - cbn [count_visit trav fst snd] in *. rewrite find_keys.
      destruct (memo_find VI PF m (Flat x arcs)) eqn:Ef; [now inversion E|].
      match type of E with match ?a with _ => _ end = _ => destruct a as [m1|] eqn:El; [|discriminate] end.
      assert (m1 = m') by (inversion E; reflexivity). subst m1. clear E Ef.
      change (rev (keys m) ++ [Flat x arcs]) with (rev (keys ((Flat x arcs, 0%N) :: m))).
      change (Flat x arcs :: keys m) with (keys ((Flat x arcs, 0%N) :: m)).
      revert El. generalize ((Flat x arcs, 0%N) :: m). generalize (Flat x arcs). intros t.
      assert (IH' : forall a, In a arcs -> locked (snd a)) by (intros [v s] Hin; exact (IH v s Hin)). clear IH.
      induction arcs as [|[v s] arcs IHa]; intros m0 El.
      + inversion El. reflexivity.
      + destruct (count_visit VI PF s m0) as [[k m1]|] eqn:Ec; [|discriminate]. cbn [fold_left snd].
        pose proof (IH' (v, s) (or_introl eq_refl) m0 k m1 Ec) as T. cbn [snd] in T. rewrite T, <- (add_keys m1 t (v_size VI v * k)).
        apply IHa; auto. intros a Ha. apply IH'. now right.
    - cbn [count_visit trav fst snd] in *. rewrite find_keys.
      destruct (memo_find VI PF m (Hier x arcs)) eqn:Ef; [now inversion E|].
      match type of E with match ?a with _ => _ end = _ => destruct a as [m1|] eqn:El; [|discriminate] end.
      assert (m1 = m') by (inversion E; reflexivity). subst m1. clear E Ef.
      change (rev (keys m) ++ [Hier x arcs]) with (rev (keys ((Hier x arcs, 0%N) :: m))).
      change (Hier x arcs :: keys m) with (keys ((Hier x arcs, 0%N) :: m)).
      revert El. generalize ((Hier x arcs, 0%N) :: m). generalize (Hier x arcs). intros t.
      assert (IH' : forall a, In a arcs -> locked (fst a) /\ locked (snd a)) by (intros [v s] Hin; exact (IH v s Hin)). clear IH.
      induction arcs as [|[v s] arcs IHa]; intros m0 El.
      + inversion El. reflexivity.
      + destruct (count_visit VI PF v m0) as [[j m1]|] eqn:Ec; [|discriminate].
        destruct (count_visit VI PF s m1) as [[k m2]|] eqn:Ed; [|discriminate]. cbn [fold_left fst snd].
        destruct (IH' (v, s) (or_introl eq_refl)) as [Iv Is]. cbn [fst snd] in Iv, Is.
        rewrite (Iv m0 j m1 Ec), (Is m1 k m2 Ed), <- (add_keys m2 t (j * k)).
        apply IHa; auto. intros a Ha. apply IH'. now right.
  Qed.

  Lemma visit_nodes x n m l : count_visit VI PF x [] = Some (n, m) -> all_nodes VI x l -> length m = length l.
  Proof.
    intros E [Nd In_l]. pose proof (visit_keys x [] n m E) as T. cbn [keys map rev] in T.
    destruct (trav_all VI PF PO false true x) as (l0 & E0 & Nd0 & In0).
    change (rev (keys [])) with (@nil sdd) in T. change (keys []) with (@nil sdd) in T.
    rewrite T in E0. cbn [fst] in E0.
    assert (P : Permutation l l0).
    { apply NoDup_Permutation; auto. intros k. rewrite In_l, In0. intuition congruence. }
    rewrite (Permutation_length P), <- E0, rev_length. unfold keys. now rewrite map_length.
  Qed.

  (** Exactly when the count dereferences an iterator that is not valid any more. *)
  Lemma size_exact x l n : is_node VI x = true -> size VI PF x = Some n -> all_nodes VI x l ->
    it_size VI PF G late x =
    if full G (buckets (inserted G [(x, 0%N)] (created G 0))) (length l) then Err CIterator else Ok n.
  Proof.
    intros Nx Ex Al. unfold size in Ex. unfold it_size.
    destruct (is_zero VI x) eqn:Z; [destruct x; discriminate|].
    destruct (count_visit VI PF x []) as [[k m]|] eqn:Ec; [|discriminate]. inversion Ex; subst k. clear Ex.
    rewrite <- (visit_nodes x n m l Ec Al). clear Al l.
    destruct x as [| |y arcs|y arcs]; try discriminate.
    - rewrite visit_flat. rewrite count_flat in Ec.
      assert (FL : forall a, In a arcs -> follows (flat_f a) (flat_g a)).
      { intros [v s] _. apply (follows_ret _ _ (fun n => v_size VI v * n)%N). apply visit_follows. }
      destruct (node_exact _ _ _ _ arcs FL (created G 0) n m eq_refl Ec) as [_ Q].
      cbv zeta in Q. cbn [elems created] in Q. rewrite Q.
      destruct (full G (buckets (inserted G [(Flat y arcs, 0%N)] (created G 0))) (length m)); reflexivity.
    - rewrite visit_hier. rewrite count_hier in Ec.
      assert (FL : forall a, In a arcs -> follows (hier_f a) (hier_g a)).
      { intros [v s] _. apply (follows_bind _ _ _ _ N.mul); apply visit_follows. }
      destruct (node_exact _ _ _ _ arcs FL (created G 0) n m eq_refl Ec) as [_ Q].
      cbv zeta in Q. cbn [elems created] in Q. rewrite Q.
      destruct (full G (buckets (inserted G [(Hier y arcs, 0%N)] (created G 0))) (length m)); reflexivity.
  Qed.
End CountProofs.

(** ** The export to DOT *)

Section DotProofs.
  Variable VI : values_impl.
  Variable PF : platform VI.
  Hypothesis PO : platform_ok PF.
  Variable G : growth.
  Hypothesis GO : growth_ok G.
  Notation V := (vt VI).
  Notation sdd := (sdd V).
  Notation items := (list (item VI)).
  Notation roomy := (roomy G).

  Definition keeps (f : items * list sdd -> items * list sdd) (g : items * umap sdd -> res cerr (items * umap sdd)) : Prop :=
    forall i m, roomy m ->
      let r := f (i, elems m) in
      length (elems m) <= length (snd r) /\
      if full G (buckets m) (length (snd r))
      then g (i, m) = Err CIterator \/
           exists m', g (i, m) = Ok (fst r, m') /\ elems m' = snd r /\ roomy m' /\ epoch m < epoch m'
      else g (i, m) = Ok (fst r, set_elems (snd r) m).

  Lemma keeps_ret (h : items -> items) : keeps (fun st => (h (fst st), snd st)) (fun st => Ok (h (fst st), snd st)).
  Proof.
    intros i m R. cbn [fst snd]. split; [lia|]. unfold IteratorsProps.roomy in R. rewrite R. destruct m; reflexivity.
  Qed.
  Lemma keeps_bind f g f' g' : keeps f g -> keeps f' g' -> keeps (fun st => f' (f st)) (fun st => rbind (g st) g').
  Proof.
    intros F F' i m R. cbv zeta. destruct (F i m R) as [L1 P1].
    destruct (f (i, elems m)) as [i1 l1]. cbn [fst snd] in *.
    destruct (full G (buckets m) (length l1)) eqn:Fu.
    - assert (L2 : length l1 <= length (snd (f' (i1, l1)))).
      { apply (F' i1 {| elems := l1; buckets := grow G (buckets m) (length l1); epoch := 0 |}).
        unfold IteratorsProps.roomy. cbn [elems buckets]. now apply (grow_enough G GO). }
      split; [lia|]. rewrite (full_mono G GO _ _ _ L2 Fu).
      destruct P1 as [->|(m' & -> & Em & Rm & Pm)]; cbn [rbind]; [auto|].
      destruct (F' i1 m' Rm) as [_ P2]. rewrite Em in P2. cbv zeta in P2.
      destruct (full G (buckets m') (length (snd (f' (i1, l1))))) eqn:Fu'.
      + destruct P2 as [->|(m2 & -> & Em2 & Rm2 & Pm2)]; [auto|]. right. exists m2. repeat split; auto. lia.
      + rewrite P2. right. eexists. split; [reflexivity|]. repeat split; auto.
    - rewrite P1. cbn [rbind]. destruct (F' i1 (set_elems l1 m) Fu) as [L2 P2]. cbn [set_elems elems buckets epoch] in *.
      cbv zeta in P2. split; [lia|]. destruct (full G (buckets m) (length (snd (f' (i1, l1))))).
      + destruct P2 as [->|(m2 & -> & Em2 & Rm2 & Pm2)]; [auto|]. right. exists m2. repeat split; auto.
      + rewrite P2. reflexivity.
  Qed.
  Lemma keeps_ext f f' g g' : (forall st, f st = f' st) -> (forall st, g st = g' st) -> keeps f' g' -> keeps f g.
  Proof. intros Ef Eg F i m R. rewrite Ef, Eg. apply F. exact R. Qed.

  (** A term: search, visit, insertion with the result of the search as a hint. *)
  Definition term_f (t : sdd) (f : items * list sdd -> items * list sdd) (st : items * list sdd) : items * list sdd :=
    if visited VI PF (snd st) t then st
    else let st' := f (fst st ++ [DNode VI t], snd st) in (fst st', t :: snd st').
  Definition term_g (t : sdd) (g : items * umap sdd -> res cerr (items * umap sdd)) (st : items * umap sdd)
    : res cerr (items * umap sdd) :=
    if visited VI PF (elems (snd st)) t then Ok st
    else rbind (g (fst st ++ [DNode VI t], snd st)) (it_hint VI G (epoch (snd st)) t).
  Lemma term_exact t f g i m : keeps f g -> roomy m -> visited VI PF (elems m) t = false ->
    let r := f (i ++ [DNode VI t], elems m) in
    length (elems m) <= length (snd r) /\
    term_g t g (i, m) =
    if full G (buckets m) (length (snd r)) then Err CIterator else Ok (fst r, inserted G (t :: snd r) m).
  Proof.
    intros K R Vi. cbv zeta. unfold term_g. cbn [fst snd]. rewrite Vi.
    destruct (K (i ++ [DNode VI t]) m R) as [L P]. split; [exact L|].
    destruct (f (i ++ [DNode VI t], elems m)) as [i1 l1]. cbn [fst snd] in *.
    destruct (full G (buckets m) (length l1)) eqn:Fu.
    - destruct P as [->|(m' & -> & Em & Rm & Pm)]; [reflexivity|]. cbn [rbind]. unfold it_hint, valid. cbn [fst snd].
      replace (Nat.eqb (epoch m) (epoch m')) with false; [reflexivity|]. symmetry. apply Nat.eqb_neq. lia.
    - rewrite P. cbn [rbind]. unfold it_hint, valid. cbn [fst snd set_elems epoch]. rewrite Nat.eqb_refl. reflexivity.
  Qed.
  Lemma term_keeps t f g : keeps f g -> keeps (term_f t f) (term_g t g).
  Proof.
    intros K i m R. cbv zeta. unfold term_f. cbn [fst snd].
    destruct (visited VI PF (elems m) t) eqn:Vi.
    - unfold term_g. cbn [fst snd]. rewrite Vi. split; [lia|]. unfold IteratorsProps.roomy in R. rewrite R.
      destruct m; reflexivity.
    - destruct (term_exact t f g i m K R Vi) as [L ->].
      destruct (f (i ++ [DNode VI t], elems m)) as [i1 l1]. cbn [fst snd length] in *. split; [lia|].
      destruct (full G (buckets m) (length l1)) eqn:Fu.
      + rewrite (full_mono G GO _ _ (S (length l1)) (Nat.le_succ_diag_r _) Fu). auto.
      + unfold inserted. cbn [length]. destruct (full G (buckets m) (S (length l1))) eqn:Fu'.
        * right. eexists. split; [reflexivity|]. cbn [elems buckets epoch]. repeat split; auto.
          unfold IteratorsProps.roomy. cbn [elems buckets length]. now apply (grow_enough G GO).
        * reflexivity.
  Qed.

  Section Arcs.
    Variable W : Type.
    Variable sf : W * sdd -> items * list sdd -> items * list sdd.
    Variable sg : W * sdd -> items * umap sdd -> res cerr (items * umap sdd).
    Fixpoint arcs_g (l : list (W * sdd)) (st : items * umap sdd) : res cerr (items * umap sdd) :=
      match l with [] => Ok st | a :: l' => rbind (sg a st) (arcs_g l') end.
    Lemma arcs_keep l : (forall a, In a l -> keeps (sf a) (sg a)) ->
      keeps (fun st => fold_left (fun st a => sf a st) l st) (arcs_g l).
    Proof.
      induction l as [|a l IH]; intros K.
      - refine (keeps_ext _ _ _ _ _ _ (keeps_ret (fun i => i))); intros [i m]; reflexivity.
      - cbn [fold_left arcs_g]. refine (keeps_bind (sf a) (sg a) _ _ _ _); [apply K; now left|].
        apply IH. intros b Hb. apply K. now right.
    Qed.
  End Arcs.

  Definition flat_sf (t : sdd) (a : V * sdd) (st : items * list sdd) : items * list sdd :=
    let st1 := dot_visit VI PF (snd a) st in (fst st1 ++ [DFlat VI t (fst a) (snd a)], snd st1).
  Definition flat_sg (t : sdd) (a : V * sdd) (st : items * umap sdd) : res cerr (items * umap sdd) :=
    rbind (it_dot_visit VI PF G (snd a) st) (fun st1 => Ok (fst st1 ++ [DFlat VI t (fst a) (snd a)], snd st1)).
  Definition hier_sf (t : sdd) (a : sdd * sdd) (st : items * list sdd) : items * list sdd :=
    let st1 := dot_visit VI PF (fst a) (dot_visit VI PF (snd a) st) in (fst st1 ++ [DHier VI t (fst a) (snd a)], snd st1).
  Definition hier_sg (t : sdd) (a : sdd * sdd) (st : items * umap sdd) : res cerr (items * umap sdd) :=
    rbind (it_dot_visit VI PF G (snd a) st) (fun st1 => rbind (it_dot_visit VI PF G (fst a) st1) (fun st2 =>
    Ok (fst st2 ++ [DHier VI t (fst a) (snd a)], snd st2))).

  (** What is done between the search and the insertion. *)
  Definition body_f (t : sdd) : items * list sdd -> items * list sdd :=
    match t with
    | Zero | One => fun st => st
    | Flat _ arcs => fun st => fold_left (fun st a => flat_sf t a st) arcs st
    | Hier _ arcs => fun st => fold_left (fun st a => hier_sf t a st) arcs st
    end.
  Definition body_g (t : sdd) : items * umap sdd -> res cerr (items * umap sdd) :=
    match t with
    | Zero | One => fun st => Ok st
    | Flat _ arcs => arcs_g _ (flat_sg t) arcs
    | Hier _ arcs => arcs_g _ (hier_sg t) arcs
    end.
  Lemma dot_term t st : dot_visit VI PF t st = term_f t (body_f t) st.
  Proof. destruct t; unfold term_f; cbn [dot_visit body_f]; destruct (visited VI PF (snd st) _); reflexivity. Qed.
  Lemma it_dot_term t st : it_dot_visit VI PF G t st = term_g t (body_g t) st.
  Proof.
    destruct t as [| |x arcs|x arcs]; unfold term_g; cbn [it_dot_visit body_g];
      destruct (visited VI PF (elems (snd st)) _); try reflexivity; cbv zeta.
    - match goal with |- rbind ?a _ = rbind ?b _ => assert (Q : a = b); [|now rewrite Q] end.
      generalize (fst st ++ [DNode VI (Flat x arcs)], snd st). generalize (Flat x arcs). intros t.
      induction arcs as [|a arcs IH]; intros st0; cbn [arcs_g]; [reflexivity|]. unfold flat_sg at 1.
      destruct (it_dot_visit VI PF G (snd a) st0); cbn [rbind]; [|reflexivity]. apply IH.
    - match goal with |- rbind ?a _ = rbind ?b _ => assert (Q : a = b); [|now rewrite Q] end.
      generalize (fst st ++ [DNode VI (Hier x arcs)], snd st). generalize (Hier x arcs). intros t.
      induction arcs as [|a arcs IH]; intros st0; cbn [arcs_g]; [reflexivity|]. unfold hier_sg at 1.
      destruct (it_dot_visit VI PF G (snd a) st0) as [st1|]; cbn [rbind]; [|reflexivity].
      destruct (it_dot_visit VI PF G (fst a) st1) as [st2|]; cbn [rbind]; [|reflexivity]. apply IH.
  Qed.

  Lemma dot_keeps : forall t, keeps (body_f t) (body_g t) /\ keeps (dot_visit VI PF t) (it_dot_visit VI PF G t).
  Proof.
    assert (T : forall t, keeps (body_f t) (body_g t) ->
              keeps (body_f t) (body_g t) /\ keeps (dot_visit VI PF t) (it_dot_visit VI PF G t)).
    { intros t K. split; [exact K|]. exact (keeps_ext _ _ _ _ (dot_term t) (it_dot_term t) (term_keeps t _ _ K)). }
    induction t as [| |x arcs IH|x arcs IH] using sdd_ind'; apply T.
    - refine (keeps_ext _ _ _ _ _ _ (keeps_ret (fun i => i))); intros [i m]; reflexivity.
    - refine (keeps_ext _ _ _ _ _ _ (keeps_ret (fun i => i))); intros [i m]; reflexivity.
    - apply (arcs_keep _ (flat_sf (Flat x arcs)) (flat_sg (Flat x arcs))). intros [v s] Hin.
      exact (keeps_bind _ _ _ _ (proj2 (IH v s Hin)) (keeps_ret (fun i => i ++ [DFlat VI (Flat x arcs) v s]))).
    - apply (arcs_keep _ (hier_sf (Hier x arcs)) (hier_sg (Hier x arcs))). intros [v s] Hin.
      destruct (IH v s Hin) as [[_ Kv] [_ Ks]].
      exact (keeps_bind _ _ _ _ Ks (keeps_bind _ _ _ _ Kv (keeps_ret (fun i => i ++ [DHier VI (Hier x arcs) v s])))).
  Qed.

  (** As many terms are recorded as visited. *)
  Lemma trav_lengths : forall t d st, length (fst st) = d + length (snd st) ->
    length (fst (trav VI PF true false t st)) = d + length (snd (trav VI PF true false t st)).
  Proof.
    assert (Fo : forall W (f : list sdd * list sdd -> W -> list sdd * list sdd) l d,
      (forall a st, In a l -> length (fst st) = d + length (snd st) -> length (fst (f st a)) = d + length (snd (f st a))) ->
      forall st, length (fst st) = d + length (snd st) ->
      length (fst (fold_left f l st)) = d + length (snd (fold_left f l st))).
    { intros W f l d. induction l as [|a l IHl]; intros K st E; [exact E|]. cbn [fold_left]. apply IHl.
      - intros b st0 Hb. apply K. now right.
      - apply K; [now left|exact E]. }
    induction t as [| |x arcs IH|x arcs IH] using sdd_ind'; intros d st E; cbn [trav].
    - destruct (visited VI PF (snd st) Zero); [exact E|]. cbn [fst snd length]. rewrite app_length. cbn. lia.
    - destruct (visited VI PF (snd st) One); [exact E|]. cbn [fst snd length]. rewrite app_length. cbn. lia.
    - destruct (visited VI PF (snd st) (Flat x arcs)); [exact E|]. cbv zeta. cbn [fst snd length].
      rewrite (Fo _ _ arcs (S d)); [lia| |].
      + intros [v s] st0 Hin. cbn [snd]. apply (IH v s Hin).
      + cbn [fst snd]. rewrite app_length. cbn. lia.
    - destruct (visited VI PF (snd st) (Hier x arcs)); [exact E|]. cbv zeta. cbn [fst snd length].
      rewrite (Fo _ _ arcs (S d)); [lia| |].
      + intros [v s] st0 Hin E0. cbn [fst snd]. destruct (IH v s Hin) as [Iv Is]. apply Iv. now apply Is.
      + cbn [fst snd]. rewrite app_length. cbn. lia.
  Qed.

  Lemma dot_terms x l : all_terms VI x l -> length (snd (dot_visit VI PF x ([], []))) = length l.
  Proof.
    intros [Nd I].
    destruct (dot_trav VI PF x ([], []) ([], []) []) as [E _]; [split; auto|]. rewrite E.
    destruct (trav_all VI PF PO true false x) as (l0 & E0 & Nd0 & In0).
    pose proof (trav_lengths x 0 ([], []) eq_refl) as Q. cbn [plus] in Q. rewrite <- Q, E0.
    apply Permutation_length, NoDup_Permutation; auto. intros n. rewrite I, In0. intuition.
  Qed.

  Lemma dot_exact x l : all_terms VI x l ->
    it_dot VI PF G x = if full G (initial G 0) (length l - 1) then Err CIterator else Ok (dot VI PF x).
  Proof.
    intros Al. unfold it_dot, dot. rewrite it_dot_term.
    destruct (term_exact x (body_f x) (body_g x) [] (created G 0) (proj1 (dot_keeps x))) as [_ Q];
      [apply (full_none G GO)|reflexivity|].
    rewrite Q. pose proof (dot_terms x l Al) as Len. rewrite dot_term in Len |- *. unfold term_f in Len |- *.
    cbn [fst snd visited existsb created elems buckets length] in Len |- *.
    rewrite <- Len. replace (S (length (snd (body_f x ([] ++ [DNode VI x], [])))) - 1)
      with (length (snd (body_f x ([] ++ [DNode VI x], [])))) by lia.
    destruct (full G (initial G 0) (length (snd (body_f x ([] ++ [DNode VI x], []))))); reflexivity.
  Qed.
End DotProofs.

(** ** C72 *)

(** [growth_ok G]: how hash maps grow is arbitrary. *)

(** With the validity of iterators checked at each of their uses, the operations return what they return without: the
    iterators kept by unions, of all depths, are always valid. *)
Theorem C72_operations : forall VI PF (PO : platform_ok PF) G (GO : growth_ok G),
  (forall l, it_api_sum VI PF G l = api_sum VI PF l) /\
  (forall l, it_api_intersection VI PF G l = api_intersection VI PF l) /\
  (forall x y, it_api_minus VI PF G x y = api_minus VI PF x y).
Proof.
  intros VI PF PO G GO. repeat split; intros; unfold it_api_sum, it_api_intersection, it_api_minus, api_sum, api_intersection, api_minus;
  apply (it_interp_same VI PF G GO PO).
Qed.
Print Assumptions C72_operations.

(** The buckets of a map created without size when it has one element. *)
Definition buckets_of_one (G : growth) : nat :=
  if full G (initial G 0) 1 then grow G (initial G 0) 1 else initial G 0.

(** size() is right, and its iterators valid, exactly when the nodes of the diagram are so few that the map is not rehashed
    once it has an element.  [p]: the assignments of the diagram, each once; [l]: its nodes, each once. *)
Theorem C72_size_exact : forall VI (VL : values_laws VI) PF (PO : platform_ok PF) G (GO : growth_ok G) late x p l,
  built VI PF x -> is_node VI x = true ->
  NoDup p -> (forall a, In a p <-> contains x a = true) -> all_nodes VI x l ->
  it_size VI PF G late x =
  if full G (buckets_of_one G) (length l) then Err CIterator else Ok (N.of_nat (length p)).
Proof.
  intros VI VL PF PO G GO late x p l B Nx Np Ip Al.
  destruct (size_spec VI PF VL PO x B) as (q & Nq & Iq & E).
  assert (P : Permutation p q) by (apply NoDup_Permutation; auto; intros a; rewrite Ip, Iq; reflexivity).
  rewrite (Permutation_length P). rewrite (size_exact VI PF PO G GO late x l _ Nx E Al).
  unfold buckets_of_one, inserted, created. cbn [length buckets].
  destruct (full G (initial G 0) 1); reflexivity.
Qed.
Print Assumptions C72_size_exact.
(** What is missing: the diagrams with more nodes. *)
Theorem C72_size_partial : forall VI (VL : values_laws VI) PF (PO : platform_ok PF) G (GO : growth_ok G) late x p l,
  built VI PF x -> NoDup p -> (forall a, In a p <-> contains x a = true) -> all_nodes VI x l ->
  full G (buckets_of_one G) (length l) = false -> it_size VI PF G late x = Ok (N.of_nat (length p)).
Proof.
  intros VI VL PF PO G GO late x p l B Np Ip Al F. destruct (is_node VI x) eqn:Nx.
  - rewrite (C72_size_exact VI VL PF PO G GO late x p l B Nx Np Ip Al), F. reflexivity.
  - destruct (size_spec VI PF VL PO x B) as (q & Nq & Iq & E).
    assert (P : Permutation p q) by (apply NoDup_Permutation; auto; intros a; rewrite Ip, Iq; reflexivity).
    rewrite (Permutation_length P). destruct x; try discriminate; cbn in *; inversion E; reflexivity.
Qed.
Print Assumptions C72_size_partial.

(** A chain of [n] nodes. *)
Fixpoint chain (n : nat) : sdd (vt FS) :=
  match n with
  | 0 => One
  | S m => node_flat FS PF_up (N.of_nat m) (fs [1%N]) (chain m)
  end.
Fixpoint chain_nodes (n : nat) : list (sdd (vt FS)) :=
  match n with
  | 0 => []
  | S m => chain n :: chain_nodes m
  end.
Lemma chain_flat n : chain (S n) = Flat (N.of_nat n) [(fs [1%N], chain n)].
Proof.
  change (chain (S n)) with (node_flat FS PF_up (N.of_nat n) (fs [1%N]) (chain n)).
  assert (Z : is_zero FS (chain n) = false).
  { induction n as [|n IH]; [reflexivity|]. cbn [chain]. unfold node_flat, create_node1. rewrite IH. reflexivity. }
  unfold node_flat, create_node1. rewrite Z. reflexivity.
Qed.
Lemma chain_built n : built FS PF_up (chain n).
Proof. induction n; cbn [chain]; constructor; auto. Qed.
Lemma chain_nodes_in n k : In k (chain_nodes n) -> exists j, j < n /\ k = chain (S j).
Proof.
  induction n as [|n IH]; cbn [chain_nodes In]; [tauto|]. intros [<-|Hk].
  - exists n. split; [lia|reflexivity].
  - destruct (IH Hk) as (j & L & ->). exists j. split; [lia|reflexivity].
Qed.
Lemma chain_all n : all_nodes FS (chain n) (chain_nodes n).
Proof.
  induction n as [|n [Nd I]].
  - split; [constructor|]. intros k. cbn. split; [tauto|]. intros [H H']. inversion H; subst. discriminate.
  - split.
    + change (chain_nodes (S n)) with (chain (S n) :: chain_nodes n). constructor; [|exact Nd]. intros H.
      destruct (chain_nodes_in _ _ H) as (j & L & E). rewrite !chain_flat in E.
      assert (N.of_nat n = N.of_nat j) by (now injection E). lia.
    + intros k. change (chain_nodes (S n)) with (chain (S n) :: chain_nodes n). cbn [In]. rewrite I. split.
      * intros [<-|[H1 H2]].
        -- split; [constructor|]. rewrite chain_flat. reflexivity.
        -- split; [|exact H2]. rewrite chain_flat. econstructor; [now left|exact H1].
      * intros [H1 H2]. rewrite chain_flat in H1.
        inversion H1 as [E|? ? v s Hin Hs| |]; subst.
        -- left. apply chain_flat.
        -- destruct Hin as [E|[]]. inversion E; subst. auto.
Qed.
Lemma chain_length n : length (chain_nodes n) = n.
Proof. induction n; cbn [chain_nodes length]; auto. Qed.

(** However maps grow, there is a diagram whose size() dereferences an iterator that a rehash has invalidated. *)
Theorem C72_size_refuted : forall G (GO : growth_ok G) late, exists x, built FS PF_up x /\
  it_size FS PF_up G late x = Err CIterator.
Proof.
  intros G GO late. destruct (full_some G GO (buckets_of_one G)) as [n Fu].
  exists (chain n). split; [apply chain_built|].
  destruct (size_spec FS PF_up FS_laws PF_up_ok _ (chain_built n)) as (p & Np & Ip & _).
  rewrite (C72_size_exact FS FS_laws PF_up PF_up_ok G GO late (chain n) p (chain_nodes n) (chain_built n)); auto.
  - rewrite chain_length, Fu. reflexivity.
  - destruct n; [|now rewrite chain_flat]. rewrite (full_none G GO) in Fu. discriminate.
  - apply chain_all.
Qed.
Print Assumptions C72_size_refuted.

(** The export to DOT is right, and its hints valid, exactly when the terms of the diagram but one fit in the buckets of
    a map created without size.  [l]: the terms of the diagram, each once; [C51_dot] tells what [dot] writes. *)
Theorem C72_dot_exact : forall VI PF (PO : platform_ok PF) G (GO : growth_ok G) x l, all_terms VI x l ->
  it_dot VI PF G x = if full G (initial G 0) (length l - 1) then Err CIterator else Ok (dot VI PF x).
Proof. exact dot_exact. Qed.
Print Assumptions C72_dot_exact.
Theorem C72_dot_partial : forall VI PF (PO : platform_ok PF) G (GO : growth_ok G) x l, all_terms VI x l ->
  full G (initial G 0) (length l - 1) = false -> it_dot VI PF G x = Ok (dot VI PF x).
Proof. intros VI PF PO G GO x l Al E. now rewrite (dot_exact VI PF PO G GO x l Al), E. Qed.
Print Assumptions C72_dot_partial.
Theorem C72_dot_refuted : forall G (GO : growth_ok G), exists x, built FS PF_up x /\ it_dot FS PF_up G x = Err CIterator.
Proof.
  intros G GO. destruct (full_some G GO (initial G 0)) as [n Fu]. exists (chain n). split; [apply chain_built|].
  destruct (trav_all FS PF_up PF_up_ok true false (chain n)) as (l & _ & Nd & I).
  assert (Al : all_terms FS (chain n) l) by (split; [exact Nd|]; intros k; rewrite I; intuition).
  rewrite (dot_exact FS PF_up PF_up_ok G GO _ l Al).
  assert (L : n <= length l - 1).
  { enough (length (One :: chain_nodes n) <= length l) by (cbn [length] in *; rewrite chain_length in *; lia).
    apply NoDup_incl_length.
    - constructor; [|apply chain_all]. intros H. destruct (chain_nodes_in _ _ H) as (j & _ & E).
      rewrite chain_flat in E. discriminate.
    - intros k [<-|Hk]; apply I; (split; [|now left]).
      + clear. induction n as [|n IH]; [constructor|]. rewrite chain_flat. econstructor; [now left|exact IH].
      + now apply (proj2 (chain_all n)). }
  now rewrite (full_mono G GO _ _ _ L Fu).
Qed.
Print Assumptions C72_dot_refuted.

(** A growth like that of libstdc++: no bucket at first, then 13, then at least twice as many. *)
Definition ex_growth : growth :=
  {| initial := fun n => n; full := fun b n => b <? n; grow := fun b n => Nat.max 13 (Nat.max (2 * b) n) |}.
Lemma ex_growth_ok : growth_ok ex_growth.
Proof.
  constructor; cbn [full grow initial ex_growth]; intros.
  - apply Nat.ltb_lt in H0. apply Nat.ltb_lt. lia.
  - apply Nat.ltb_ge. lia.
  - reflexivity.
  - exists (S b). apply Nat.ltb_lt. lia.
Qed.
Example C72_ex : growth_ok ex_growth /\
  it_size FS PF_up ex_growth true (chain 13) = Ok 1%N /\ it_size FS PF_up ex_growth false (chain 14) = Err CIterator /\
  it_size FS PF_up ex_growth true ex_x = Ok 4%N /\
  (exists l, it_dot FS PF_up ex_growth One = Ok l) /\ it_dot FS PF_up ex_growth ex_x = Err CIterator /\
  (exists z, it_api_sum FS PF_up ex_growth [ex_x; ex_y; ex_z] = Ok z /\ api_sum FS PF_up [ex_x; ex_y; ex_z] = Ok z).
Proof.
  split; [apply ex_growth_ok|]. split; [vm_compute; reflexivity|]. split; [vm_compute; reflexivity|].
  split; [vm_compute; reflexivity|]. split; [eexists; reflexivity|]. split; [vm_compute; reflexivity|].
  destruct (sum_total FS FS_laws PF_up PF_up_ok ex_shape [ex_x; ex_y; ex_z]) as (a & Ea & Fa).
  { intros x [<-|[<-|[<-|[]]]]; split; exs. }
  exists a. split; [|exact Ea]. now rewrite (proj1 (C72_operations FS PF_up PF_up_ok ex_growth ex_growth_ok)).
Qed.
