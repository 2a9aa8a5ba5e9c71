(** * What a homomorphism does to the rows of a flat order

    Rules for evaluating a homomorphism on the operands that meet a precondition. Unlike the equations of
    HomEqns.v, they do not suppose that the declarations of the functions of the user (selector, shifter) are
    honest: the program of examples/scheduling declares as a selector a function which is not one. *)

From Coq Require Import Permutation List Bool NArith Arith Lia Relations.
From Verif Require Import Base SortedSets Values Sdd SddFacts Orders OrdersProofs OrdersSdd DDModel.
From Verif Require Import DDGeneric DDProofs DDTheorems Hom HomFacts HomEval HomTyped HomEqns Rows.
Import ListNotations.

Section Maps.
  Variable VI : values_impl.
  Hypothesis VL : values_laws VI.
  Variable PF : platform VI.
  Hypothesis PO : platform_ok PF.
  Variables U F I : Type.
  Notation V := (vt VI).
  Notation E := (elt VI).
  Notation sdd := (sdd V).
  Notation hom := (hom V U F I).
  Variable US : user V U F I.
  Notation order := (order U).
  Notation fits := (fits VI PF).
  Notation oshape := (oshape U).
  Notation olevel := (olevel U).
  Notation hskip := (hskip VI U F I US).
  Notation evals := (evals VI PF U F I US).
  Notation ends := (ends VI PF U F I US).
  Notation direct := (direct VI PF U F I US).
  Notation residual := (residual VI).
  Notation heads := (heads VI).
  Notation opt_list := (opt_list VI U F I).

  (** ** The rows of an SDD *)

  Definition has (x : sdd) (c : list E) : Prop := contains x (row c) = true.

  Lemma rows_of m : forall x p, fits (flat_shape m) x -> contains x p = true -> exists c, p = row c /\ length c = m.
  Proof.
    induction m as [|m IH]; intros x p Fx C.
    - destruct Fx as [_ Fx]. inversion Fx; subst; [discriminate|]. destruct p; try discriminate. now exists [].
    - change (flat_shape (S m)) with (under (LFlat (N.of_nat m)) (flat_shape m)) in Fx.
      pose proof Fx as Fx'. apply (contains_iff VI PF _ _ _ _ Fx) in C. destruct C as (k & q & -> & C).
      pose proof (residual_fits VI PF _ _ x k Fx) as Fr. destruct (IH _ _ Fr C) as (c & -> & L).
      destruct k as [a|n].
      + exists (a :: c). cbn. now rewrite L.
      + exfalso. destruct x as [| |y arcs|y arcs]; cbn in C; try discriminate.
        destruct Fx' as [_ X]. inversion X.
  Qed.

  Lemma has_length m x c : fits (flat_shape m) x -> has x c -> length c = m.
  Proof. intros Fx H. destruct (rows_of _ _ _ Fx H) as (d & Ed & L). apply row_inj in Ed. now subst. Qed.

  Lemma has_ext m x y : fits (flat_shape m) x -> fits (flat_shape m) y -> (forall c, has x c <-> has y c) -> x = y.
  Proof.
    intros Fx Fy H. apply (fits_ext VI VL PF PO (flat_shape m)); auto. intros p. apply bool_ext. split; intros C.
    - destruct (rows_of _ _ _ Fx C) as (c & -> & _). now apply H.
    - destruct (rows_of _ _ _ Fy C) as (c & -> & _). now apply H.
  Qed.

  Lemma has_some m x : fits (flat_shape m) x -> x <> Zero -> exists c, has x c.
  Proof.
    intros Fx Nz. destruct (fits_nonempty VI VL PF _ _ Fx Nz) as (p & C). destruct (rows_of _ _ _ Fx C) as (c & -> & _).
    now exists c.
  Qed.

  Lemma has_zero c : ~ has Zero c.
  Proof. unfold has. discriminate. Qed.

  Lemma has_res m x a c : fits (flat_shape (S m)) x -> (has x (a :: c) <-> has (residual x (KVal _ a)) c).
  Proof.
    intros Fx. unfold has. cbn [row].
    change (flat_shape (S m)) with (under (LFlat (N.of_nat m)) (flat_shape m)) in Fx.
    destruct (Nat.eq_dec (length c) m) as [<-|D].
    - change (AVal (N.of_nat (length c)) a (row c)) with (acons VI (lvar (LFlat (N.of_nat (length c)))) (KVal _ a) (row c)).
      now rewrite (residual_contains VI PF _ _ x (KVal _ a) (row c) Fx).
    - split; intros H; exfalso; apply D.
      + change (has x (a :: c)) in H. change (under (LFlat (N.of_nat m)) (flat_shape m)) with (flat_shape (S m)) in Fx.
        apply (has_length _ _ _ Fx) in H. cbn in H. lia.
      + apply (has_length m (residual x (KVal _ a))); auto. now apply (residual_fits VI PF (LFlat (N.of_nat m))).
  Qed.

  Lemma has_flat m v arcs c : fits (flat_shape (S m)) (Flat v arcs) ->
    (has (Flat v arcs) c <-> exists a r w s, c = a :: r /\ In (w, s) arcs /\ v_mem VI w a = true /\ has s r).
  Proof.
    intros Fx. pose proof Fx as Fx'. cbn [flat_shape] in Fx'. destruct (fits_flat_inv VI PF _ _ _ _ Fx') as (-> & _ & _ & G).
    split.
    - intros H. pose proof (has_length _ _ _ Fx H) as L. destruct c as [|a r]; [discriminate|].
      unfold has in H. cbn [row] in H. injection L as L. cbn [Sdd.contains] in H. apply andb_true_iff in H.
      destruct H as [_ H]. apply existsb_exists in H. destruct H as ([w s] & Hin & M). cbn in M.
      apply andb_true_iff in M. destruct M as [M1 M2]. exists a, r, w, s. auto.
    - intros (a & r & w & s & -> & Hin & M & H). destruct (G w s Hin) as (_ & _ & Fs).
      pose proof (has_length _ _ _ Fs H) as L. unfold has. cbn [row Sdd.contains]. rewrite L, N.eqb_refl. cbn [andb].
      apply existsb_exists. exists (w, s). split; [auto|]. cbn. now rewrite M, H.
  Qed.

  (** ** The rules *)

  (** On the SDDs whose rows satisfy [P], [h] computes the image of the rows by [R]. *)
  Definition maps (o : order) (m : nat) (h : hom) (P : list E -> Prop) (R : list E -> list E -> Prop) : Prop :=
    forall x, fits (flat_shape m) x -> (forall c, has x c -> P c) ->
    exists y, evals o h x y /\ fits (flat_shape m) y /\ forall d, has y d <-> exists c, has x c /\ R c d.

  Definition filters (o : order) (m : nat) (h : hom) (P : list E -> Prop) (Q : list E -> Prop) : Prop :=
    maps o m h P (fun c d => c = d /\ Q c).

  Lemma maps_weaken o m h (P P' : list E -> Prop) (R R' : list E -> list E -> Prop) : maps o m h P R ->
    (forall c, length c = m -> P' c -> P c) ->
    (forall c d, length c = m -> P' c -> (R c d <-> R' c d)) -> maps o m h P' R'.
  Proof.
    intros M Hp Hr x Fx Px. destruct (M x Fx) as (y & Ey & Fy & Hy).
    { intros c Hc. apply Hp; auto. now apply (has_length _ _ _ Fx). }
    exists y. split; [auto|split; [auto|]]. intros d. rewrite Hy. split; intros (c & Hc & Rc); exists c; split; auto;
      apply (Hr c d); auto; now apply (has_length _ _ _ Fx).
  Qed.

  Lemma maps_id o m (P : list E -> Prop) : maps o m HId P eq.
  Proof.
    intros x Fx Px. exists x. split; [now apply evals_id|split; [auto|]]. intros d. split; [eauto|]. now intros (c & Hc & <-).
  Qed.

  (** The empty set is never evaluated. *)
  Lemma maps_nonzero o m h (P : list E -> Prop) (R : list E -> list E -> Prop) :
    (forall x, x <> Zero -> fits (flat_shape m) x -> (forall c, has x c -> P c) ->
       exists y, evals o h x y /\ fits (flat_shape m) y /\ forall d, has y d <-> exists c, has x c /\ R c d) ->
    maps o m h P R.
  Proof.
    intros H x Fx Px. destruct (is_zero VI x) eqn:Z.
    - apply is_zero_iff in Z. subst x. exists Zero. split; [now apply evals_zero|split; [auto|]].
      intros d. split; [intros X; now apply has_zero in X|intros (c & X & _); now apply has_zero in X].
    - apply H; auto. intros ->. discriminate.
  Qed.

  Lemma maps_skip o m o' h (P P' : list E -> Prop) (R R' : list E -> list E -> Prop) : olevel o (LFlat (N.of_nat m)) o' -> hskip o h = true -> h <> HId ->
    maps o' m h P R -> (forall a c, P' (a :: c) -> P c) ->
    (forall a c d, length c = m -> P' (a :: c) -> (R' (a :: c) d <-> exists r, d = a :: r /\ R c r)) ->
    maps o (S m) h P' R'.
  Proof.
    intros L Hs Ni M Hp Hr. apply maps_nonzero. intros x Nz Fx Px.
    pose proof Fx as Fx0. change (flat_shape (S m)) with (under (LFlat (N.of_nat m)) (flat_shape m)) in Fx.
    assert (Hk : forall z, In z (heads x) -> z <> Zero /\ fits (flat_shape m) z /\ exists a, residual x (KVal _ a) = z).
    { intros z Hz. destruct (heads_residual VI VL PF _ _ _ _ Fx Hz) as (A & B & k & Ek). split; [auto|split; [auto|]].
      destruct k as [a|n]; [now exists a|]. exfalso. apply A. rewrite <- Ek.
      destruct x as [| |y arcs|y arcs]; auto. destruct Fx as [_ X]. inversion X. }
    assert (Hres : forall a c, has (residual x (KVal _ a)) c -> P c).
    { intros a c Hc. apply (Hp a). apply Px. now apply (has_res m). }
    destruct (choice_list VI PF PO
                (fun z w => evals o' h z w /\ fits (flat_shape m) w /\ forall d, has w d <-> exists c, has z c /\ R c d)
                (heads x)) as (f & F0 & Hf).
    { intros z Hz. now destruct (Hk z Hz). }
    { intros z Hz. destruct (Hk z Hz) as (_ & Fz & a & <-). apply M; auto. intros c Hc. now apply (Hres a). }
    assert (Y : exists y, evals o h x y /\ fits (flat_shape (S m)) y /\ forall k, residual y k = f (residual x k)).
    { destruct (fits_cases VI PF _ _ _ Fx) as [X|[(arcs & -> & El)|(n' & arcs & -> & El)]]; [congruence| |discriminate].
      cbn [lvar] in *. cbn [under] in Fx.
      destruct (fwd_flat VI VL PF PO _ (flat_shape m) (flat_shape m) arcs f Fx) as (y & Ey & Fy & Hy); auto.
      { intros z Hz. now apply Hf. }
      exists y. split; [|split; [exact Fy|exact Hy]].
      apply (evals_iff VI PF U F I US); auto. exists 0.
      rewrite (body_forward VI PF U F I US 0 o (LFlat (N.of_nat m)) o' h (flat_shape m)); auto.
      exists (fwd_pairs VI f arcs). split; [|exact Ey]. apply forward_fun. intros z Hz. now apply Hf. }
    destruct Y as (y & Ey & Fy & Hy). exists y. split; [auto|split; [auto|]]. intros d.
    assert (Fz : forall a, forall r, has (f (residual x (KVal _ a))) r <-> exists c, has (residual x (KVal _ a)) c /\ R c r).
    { intros a r. destruct (residual_heads VI x (KVal _ a)) as [->|Hin].
      - rewrite F0. split; [intros X; now apply has_zero in X|intros (c & X & _); now apply has_zero in X].
      - now apply Hf. }
    split.
    - intros H. pose proof (has_length _ _ _ Fy H) as Ld. destruct d as [|a r]; [discriminate|].
      apply (has_res m) in H; auto. rewrite Hy in H. apply Fz in H. destruct H as (c & Hc & Rc).
      assert (Hac : has x (a :: c)) by now apply (has_res m).
      exists (a :: c). split; [auto|]. apply Hr; [|auto|eauto].
      apply (has_length _ _ _ Fx0) in Hac. now injection Hac.
    - intros (c & Hc & Rc). pose proof (has_length _ _ _ Fx0 Hc) as Lc. destruct c as [|a c]; [discriminate|].
      injection Lc as Lc. apply Hr in Rc; auto. destruct Rc as (r & -> & Rr). apply (has_res m); auto. rewrite Hy. apply Fz.
      exists c. split; [|auto]. now apply (has_res m).
  Qed.

  Lemma maps_comp o m f g (P Q : list E -> Prop) (R1 R2 R : list E -> list E -> Prop) : oshape o (flat_shape m) -> (o_empty o = false -> hskip o (HComp f g) = false) ->
    maps o m g P R1 -> (forall c d, P c -> R1 c d -> Q d) -> maps o m f Q R2 ->
    (forall c d, length c = m -> P c -> (R c d <-> exists e, R1 c e /\ R2 e d)) -> maps o m (HComp f g) P R.
  Proof.
    intros O Hs Mg Hq Mf Hr. apply maps_nonzero. intros x Nz Fx Px.
    destruct (Mg x Fx Px) as (z & Ez & Fz & Hz).
    destruct (Mf z Fz) as (y & Ey & Fy & Hy).
    { intros d Hd. apply Hz in Hd. destruct Hd as (c & Hc & Rc). eauto. }
    exists y. split; [|split; [auto|]].
    - apply (ev_direct VI PF U F I US o (HComp f g) (flat_shape m)); auto; [discriminate|]. exists 0. cbn [Hom.direct].
      rewrite runs_bind_iff. exists z. rewrite !runs_hcall. auto.
    - intros d. rewrite Hy. split.
      + intros (e & He & R2e). apply Hz in He. destruct He as (c & Hc & R1c). exists c. split; [auto|].
        apply Hr; eauto. now apply (has_length _ _ _ Fx).
      + intros (c & Hc & Rc). apply Hr in Rc; [|now apply (has_length _ _ _ Fx)|auto]. destruct Rc as (e & R1c & R2e).
        exists e. split; [|auto]. apply Hz. eauto.
  Qed.

  (** An intersection of filters. *)
  Lemma filters_loop o m (P : list E -> Prop) (Q : hom -> list E -> Prop) x : fits (flat_shape m) x -> (forall c, has x c -> P c) ->
    forall hs, (forall h, In h hs -> filters o m h P (Q h)) ->
    forall acc, acc ++ map (fun _ => x) hs <> [] -> (forall z, In z acc -> fits (flat_shape m) z) ->
    exists y, runs ends (inter_loop VI PF U F I o hs x acc) y /\ fits (flat_shape m) y /\
      forall c, has y c <-> (forall z, In z acc -> has z c) /\ (forall h, In h hs -> has x c /\ Q h c).
  Proof.
    intros Fx Px. induction hs as [|h hs IH]; intros Hm acc Ne Fa; cbn [inter_loop].
    - cbn [map] in Ne. rewrite app_nil_r in Ne. destruct (inter_ok VI VL PF PO (flat_shape m) acc Ne Fa) as (y & Ey & Fy & Cy).
      exists y. split; [now apply runs_lift|split; [auto|]]. intros c. unfold has. rewrite Cy, forallb_forall.
      split; [intros X; split; [auto|intros h []]|now intros [X _]].
    - destruct (Hm h (or_introl eq_refl) x Fx Px) as (z & Ez & Fz & Hz).
      assert (Hz' : forall c, has z c <-> has x c /\ Q h c).
      { intros c. rewrite Hz. split; [intros (d & Hd & -> & Q0); auto|intros [A B]; exists c; auto]. }
      destruct (is_zero VI z) eqn:Zz.
      + exists Zero. split.
        * apply runs_bind_iff. exists z. split; [now apply runs_hcall|]. rewrite Zz. constructor.
        * split; [apply fits_zero|]. apply is_zero_iff in Zz. subst z. intros c. split; [intros X; now apply has_zero in X|].
          intros [_ X]. specialize (X h (or_introl eq_refl)). apply Hz' in X. now apply has_zero in X.
      + destruct (IH (fun h' Hi => Hm h' (or_intror Hi)) (acc ++ [z])) as (y & Ey & Fy & Hy).
        * intros X. destruct acc; discriminate.
        * intros w Hw. apply in_app_iff in Hw. destruct Hw as [Hw|[<-|[]]]; auto.
        * exists y. split; [apply runs_bind_iff; exists z; split; [now apply runs_hcall|]; now rewrite Zz|].
          split; [auto|]. intros c. rewrite Hy. split.
          -- intros [A B]. split; [intros w Hw; apply A, in_app_iff; auto|]. intros h' [<-|Hi]; [|auto].
             apply Hz', A, in_app_iff. right. now left.
          -- intros [A B]. split; [|intros h' Hi; apply B; now right]. intros w Hw. apply in_app_iff in Hw.
             destruct Hw as [Hw|[<-|[]]]; auto. apply Hz', B. now left.
  Qed.

  Lemma filters_inter o m hs (P : list E -> Prop) (Q : hom -> list E -> Prop) : oshape o (flat_shape m) -> (o_empty o = false -> hskip o (HInter hs) = false) ->
    hs <> [] -> (forall h, In h hs -> filters o m h P (Q h)) ->
    filters o m (HInter hs) P (fun c => forall h, In h hs -> Q h c).
  Proof.
    intros O Hs Ne Hm. apply maps_nonzero. intros x Nz Fx Px.
    destruct (filters_loop o m P Q x Fx Px hs Hm []) as (y & Ey & Fy & Hy).
    { destruct hs; [congruence|discriminate]. }
    { intros z []. }
    exists y. split; [|split; [auto|]].
    - apply (ev_direct VI PF U F I US o (HInter hs) (flat_shape m)); auto; [discriminate|]. now exists 0.
    - intros d. rewrite Hy. split.
      + intros [_ A]. exists d. destruct hs as [|h hs]; [congruence|]. split; [apply (A h (or_introl eq_refl))|].
        split; [auto|]. intros h' Hi. now apply A.
      + intros (c & Hc & -> & A). split; [intros z []|]. auto.
  Qed.

  (** A saturated intersection of filters. *)
  Lemma filters_satinter o m v f g l (P : list E -> Prop) (Q : hom -> list E -> Prop) : oshape o (flat_shape m) ->
    (o_empty o = false -> hskip o (HSatInter v f g l) = false) -> opt_list f ++ g ++ opt_list l <> [] ->
    (forall h, In h (opt_list f ++ g ++ opt_list l) -> filters o m h P (Q h)) ->
    filters o m (HSatInter v f g l) P (fun c => forall h, In h (opt_list f ++ g ++ opt_list l) -> Q h c).
  Proof.
    intros O Hs Ne Hm. apply maps_nonzero. intros x Nz Fx Px.
    set (hs := opt_list f ++ g ++ opt_list l) in *.
    assert (A : exists ys, Forall2 (fun h y => evals o h x y /\ fits (flat_shape m) y /\ forall c, has y c <-> has x c /\ Q h c) hs ys).
    { clear Ne Hs. clearbody hs. induction hs as [|h hs IH]; [exists []; constructor|].
      destruct (IH (fun h' Hi => Hm h' (or_intror Hi))) as (ys & A).
      destruct (Hm h (or_introl eq_refl) x Fx Px) as (z & Ez & Fz & Hz). exists (z :: ys). constructor; [|auto].
      split; [auto|split; [auto|]]. intros c. rewrite Hz. split; [intros (d & Hd & -> & Q0); auto|intros [B1 B2]; exists c; auto]. }
    destruct A as (ys & A).
    destruct (inter_ok VI VL PF PO (flat_shape m) ys) as (y & Ey & Fy & Cy).
    { intros ->. inversion A. congruence. }
    { intros y Hy. clear Ne Hs Hm. clearbody hs. induction A as [|h z hs ys B A IH]; [destruct Hy|].
      destruct Hy as [<-|Hy]; [apply B|auto]. }
    exists y. split; [|split; [auto|]].
    - apply (ev_direct VI PF U F I US o (HSatInter v f g l) (flat_shape m)); auto; [discriminate|]. exists 0. cbn [Hom.direct].
      rewrite runs_bind_iff. exists ys. split; [|now apply runs_lift]. apply runs_hcalls. fold hs. clear - A.
      induction A as [|h z hs ys B A IH]; constructor; [apply B|auto].
    - intros d. assert (B : has y d <-> forall h, In h hs -> has x d /\ Q h d).
      { unfold has at 1. rewrite Cy, forallb_forall. clear - A. induction A as [|h z hs ys B A IH].
        - split; [intros _ h []|intros _ z []].
        - split.
          + intros C h' [<-|Hi]; [apply B, C; now left|]. apply IH; auto. intros w Hw. apply C. now right.
          + intros C w [<-|Hi]; [apply B, C; now left|]. apply IH; auto. intros h' Hh. apply C. now right. }
      rewrite B. split.
      + intros C. exists d. clear - Ne C. destruct hs as [|h hs]; [congruence|].
        split; [apply (C h (or_introl eq_refl))|]. split; [auto|]. intros h' Hi. now apply C.
      + intros (c & Hc & -> & C). auto.
  Qed.

  (** A function declared as a selector or as a shifter, at the level of its variable. *)
  Lemma maps_fun o m o' f (P : list E -> Prop) (R : list E -> list E -> Prop) (g : V -> V) (phi : E -> E -> Prop) : olevel o (LFlat (N.of_nat m)) o' -> oshape o' (flat_shape m) ->
    f_sel US f || f_shift US f = true ->
    (forall v w, disjoint (v_mem VI) v w -> disjoint (v_mem VI) (g v) (g w)) ->
    (forall v c, length c = m -> v_empty VI v = false -> (forall a, v_mem VI v a = true -> P (a :: c)) ->
       f_apply US f v = g v /\ forall b, v_mem VI (g v) b = true <-> exists a, v_mem VI v a = true /\ phi a b) ->
    (forall a c d, length c = m -> P (a :: c) -> (R (a :: c) d <-> exists b, d = b :: c /\ phi a b)) ->
    maps o (S m) (HFun (N.of_nat m) f) P R.
  Proof.
    intros L O Fs Dg Hg Hr. apply maps_nonzero. intros x Nz Fx Px. pose proof Fx as Fx0.
    assert (Os : oshape o (flat_shape (S m))).
    { change (flat_shape (S m)) with (under (LFlat (N.of_nat m)) (flat_shape m)). now apply (oshape_level U o _ o' _ L). }
    cbn [flat_shape] in Fx.
    destruct (fits_cases VI PF (LFlat (N.of_nat m)) _ _ Fx) as [X|[(arcs & -> & _)|(n' & arcs & -> & X)]]; [congruence| |discriminate].
    cbn [lvar] in *.
    destruct (fits_flat_inv VI PF _ _ _ _ Fx) as (_ & _ & D & G).
    assert (Ha : forall v s, In (v, s) arcs -> exists c, length c = m /\ v_empty VI v = false /\ forall a, v_mem VI v a = true -> P (a :: c)).
    { intros v s Hin. destruct (G v s Hin) as (Ve & Ns & Fs'). destruct (has_some m s Fs' Ns) as (c & Hc). exists c.
      split; [now apply (has_length _ _ _ Fs')|]. split; [auto|]. intros a Ma. apply Px. apply (has_flat m); auto. exists a, c, v, s. auto. }
    destruct (fun_fast_ok VI VL PF PO (N.of_nat m) (flat_shape m) g arcs Fx Dg) as [Fy Cy].
    exists (create_node VI Flat (N.of_nat m) (fun_fast VI PF g arcs)). split; [|split; [exact Fy|]].
    - apply (ev_direct VI PF U F I US o _ (flat_shape (S m))); auto; [discriminate| |].
      { intros _. cbn [Hom.hskip]. now apply (var_neqb_here U o _ o' L). }
      exists 0. cbn [Hom.direct]. unfold with_var. rewrite (proj1 L), Fs. apply runs_ret_iff. f_equal.
      unfold fun_fast. clear - Ha Hg. change (@nil (Sdd.sdd V * V)) with (@nil (Sdd.sdd V * V)).
      generalize (@nil (Sdd.sdd V * V)) as al. induction arcs as [|[v s] arcs IH]; intros al; cbn [fold_left fst snd]; [auto|].
      destruct (Ha v s (or_introl eq_refl)) as (c & Lc & Ve & Hp). destruct (Hg v c Lc Ve Hp) as [-> _]. apply IH.
      intros v' s' Hi. apply (Ha v' s'). now right.
    - intros d. unfold has at 1. rewrite Cy. split.
      + intros (v & s & b & q & Hin & Eq & Mb & Cq). destruct (G v s Hin) as (Ve & Ns & Fs').
        destruct (rows_of m s q Fs' Cq) as (r & -> & Lr).
        assert (d = b :: r) as ->. { apply row_inj. cbn [row]. now rewrite Eq, Lr. }
        destruct (Ha v s Hin) as (c & Lc & _ & Hp). destruct (Hg v c Lc Ve Hp) as [_ Hb]. apply Hb in Mb. destruct Mb as (a & Ma & Pab).
        assert (Hx : has (Flat (N.of_nat m) arcs) (a :: r)). { apply (has_flat m); auto. exists a, r, v, s. auto. }
        exists (a :: r). split; [auto|]. apply Hr; eauto.
      + intros (c & Hc & Rc). pose proof (Px c Hc) as Pc. apply (has_flat m) in Hc; auto.
        destruct Hc as (a & r & v & s & -> & Hin & Ma & Hs). destruct (G v s Hin) as (Ve & Ns & Fs').
        pose proof (has_length _ _ _ Fs' Hs) as Lr. apply Hr in Rc; auto. destruct Rc as (b & -> & Pab).
        exists v, s, b, (row r). split; [auto|]. split; [cbn [row]; now rewrite Lr|]. split; [|auto].
        destruct (Ha v s Hin) as (c & Lc & _ & Hp). destruct (Hg v c Lc Ve Hp) as [_ Hb]. apply Hb. eauto.
  Qed.

  (** An inductive homomorphism, at a level that it does not skip. *)
  Lemma maps_ind o m o' i (P : list E -> Prop) (R : list E -> list E -> Prop) : olevel o (LFlat (N.of_nat m)) o' -> oshape o' (flat_shape m) ->
    hskip o (HInd i) = false ->
    (forall v s, v_empty VI v = false -> s <> Zero -> fits (flat_shape m) s ->
       (forall a c, v_mem VI v a = true -> has s c -> P (a :: c)) ->
       exists y, evals o' (i_flat US i o v) s y /\ fits (flat_shape (S m)) y /\
         forall d, has y d <-> exists a c, v_mem VI v a = true /\ has s c /\ R (a :: c) d) ->
    maps o (S m) (HInd i) P R.
  Proof.
    intros L O Hs Hi. apply maps_nonzero. intros x Nz Fx Px. pose proof Fx as Fx0.
    assert (Os : oshape o (flat_shape (S m))).
    { change (flat_shape (S m)) with (under (LFlat (N.of_nat m)) (flat_shape m)). now apply (oshape_level U o _ o' _ L). }
    cbn [flat_shape] in Fx.
    destruct (fits_cases VI PF (LFlat (N.of_nat m)) _ _ Fx) as [X|[(arcs & -> & _)|(n' & arcs & -> & X)]]; [congruence| |discriminate].
    cbn [lvar] in *.
    destruct (fits_flat_inv VI PF _ _ _ _ Fx) as (_ & _ & D & G).
    assert (A : exists ys, Forall2 (fun (arc : V * sdd) y => evals o' (i_flat US i o (fst arc)) (snd arc) y /\ fits (flat_shape (S m)) y
               /\ forall d, has y d <-> exists a c, v_mem VI (fst arc) a = true /\ has (snd arc) c /\ R (a :: c) d) arcs ys).
    { assert (B : forall v s, In (v, s) arcs -> v_empty VI v = false /\ s <> Zero /\ fits (flat_shape m) s /\
        forall a c, v_mem VI v a = true -> has s c -> P (a :: c)).
      { intros v s Hin. destruct (G v s Hin) as (G1 & G2 & G3). split; [auto|split; [auto|split; [auto|]]].
        intros a c Ma Hc. apply Px. apply (has_flat m); auto. exists a, c, v, s. auto. }
      clear - B Hi. induction arcs as [|[v s] arcs IH]; [exists []; constructor|].
      destruct IH as (ys & A); [intros v' s' X; apply B; now right|].
      destruct (B v s (or_introl eq_refl)) as (B1 & B2 & B3 & B4). destruct (Hi v s B1 B2 B3 B4) as (y & Hy).
      exists (y :: ys). constructor; auto. }
    destruct A as (ys & A).
    destruct (sum_ok VI VL PF PO (flat_shape (S m)) ys) as (y & Ey & Fy & Cy).
    { intros y Hy. clear - A Hy. induction A as [|arc z arcs ys B A IH]; [destruct Hy|]. destruct Hy as [<-|Hy]; [apply B|auto]. }
    exists y. split; [|split; [auto|]].
    - apply (ev_direct VI PF U F I US o _ (flat_shape (S m))); auto; [discriminate|]. exists 0. cbn [Hom.direct].
      unfold with_next. destruct L as (_ & Ln & _). rewrite Ln. apply runs_bind_iff. exists ys. split; [|now apply runs_lift].
      apply runs_ind_vals. clear - A. induction A as [|arc z arcs ys B A IH]; constructor; [apply B|auto].
    - intros d. assert (B : has y d <-> exists v s a c, In (v, s) arcs /\ v_mem VI v a = true /\ has s c /\ R (a :: c) d).
      { unfold has at 1. rewrite Cy, existsb_exists. clear - A. induction A as [|[v s] z arcs ys B A IH].
        - split; [intros (z & [] & _)|intros (v & s & a & c & [] & _)].
        - destruct B as (_ & _ & B). cbn [fst snd] in B. split.
          + intros (w & [<-|Hw] & C).
            * apply B in C. destruct C as (a & c & C). exists v, s, a, c. split; [now left|auto].
            * destruct (proj1 IH (ex_intro _ w (conj Hw C))) as (v' & s' & a & c & X & Y). exists v', s', a, c. split; [now right|auto].
          + intros (v' & s' & a & c & [X|X] & Y).
            * injection X as <- <-. exists z. split; [now left|]. apply B. eauto.
            * destruct (proj2 IH) as (w & Hw & C); [exists v', s', a, c; auto|]. exists w. split; [now right|auto]. }
      rewrite B. split.
      + intros (v & s & a & c & Hin & Ma & Hc & Rc). exists (a :: c). split; [|auto]. apply (has_flat m); auto. exists a, c, v, s. auto.
      + intros (c' & Hc & Rc). apply (has_flat m) in Hc; auto. destruct Hc as (a & c & v & s & -> & Hin & Ma & Hs').
        exists v, s, a, c. auto.
  Qed.

  (** Cons puts a valuation above what the successor computes. *)
  Lemma cons_eval o m o' v h (P : list E -> Prop) (R : list E -> list E -> Prop) s : olevel o (LFlat (N.of_nat m)) o' -> oshape o' (flat_shape m) ->
    maps o' m h P R -> fits (flat_shape m) s -> s <> Zero -> (forall c, has s c -> P c) ->
    exists y, evals o' (HConsF o v h) s y /\ fits (flat_shape (S m)) y /\
      forall d, has y d <-> exists b r c, d = b :: r /\ v_mem VI v b = true /\ has s c /\ R c r.
  Proof.
    intros L O M Fs Nz Ps. destruct (M s Fs Ps) as (z & Ez & Fz & Hz).
    exists (node_flat VI PF (N.of_nat m) v z). split; [|split].
    - apply (ev_direct VI PF U F I US o' _ (flat_shape m)); auto; [discriminate|]. exists 0. cbn [Hom.direct].
      unfold with_var, with_next. rewrite (proj1 L), (proj1 (proj2 L)). apply runs_bind_iff. exists z.
      split; [now apply runs_hcall|apply runs_ret_iff; auto].
    - cbn [flat_shape]. now apply node_flat_fits.
    - intros d. unfold has at 1. rewrite node_flat_contains; auto. split.
      + intros (b & q & Eq & Mb & Cq). destruct (rows_of m z q Fz Cq) as (r & -> & Lr).
        assert (d = b :: r) as ->. { apply row_inj. cbn [row]. now rewrite Eq, Lr. }
        apply Hz in Cq. destruct Cq as (c & Hc & Rc). exists b, r, c. auto.
      + intros (b & r & c & -> & Mb & Hc & Rc). assert (Hr : has z r) by (apply Hz; eauto).
        exists b, (row r). pose proof (has_length _ _ _ Fz Hr) as Lr. cbn [row]. rewrite Lr. auto.
  Qed.

  (** A saturated fixpoint whose steps make a measure decrease. *)
  Section Sat.
    Variables (o : order) (m : nat) (f : hom) (g : list hom).
    Variables (P : list E -> Prop) (RF : list E -> list E -> Prop) (RG : hom -> list E -> list E -> Prop).
    Variables (mu : list E -> nat) (K : nat).
    Hypothesis Hf : maps o m f P RF.
    Hypothesis Hg : forall h, In h g -> maps o m h P (RG h).
    Hypothesis Refl : forall c, P c -> RF c c.
    Hypothesis PF1 : forall c d, P c -> RF c d -> P d.
    Hypothesis PG1 : forall h c d, In h g -> P c -> RG h c d -> P d.

    Definition round (c d : list E) : Prop := RF c d \/ exists h, In h g /\ RG h c d.

    Hypothesis Down : forall c d, P c -> round c d -> c = d \/ mu d < mu c.
    Hypothesis Bound : forall c, P c -> mu c <= K.

    Lemma P_rounds c d : P c -> clos_refl_trans _ round c d -> P d.
    Proof.
      intros Pc H. induction H as [c d [H|(h & Hi & H)]|c|c d e _ IH1 _ IH2]; eauto.
    Qed.

    Lemma chain_ok : forall gs s, (forall h, In h gs -> In h g) -> fits (flat_shape m) s -> (forall c, has s c -> P c) ->
      exists t, chain VI PF U F I US o gs s t /\ fits (flat_shape m) t
        /\ (forall c, has s c -> has t c)
        /\ (forall h c d, In h gs -> has s c -> RG h c d -> has t d)
        /\ (forall d, has t d -> exists c, has s c /\ clos_refl_trans _ round c d).
    Proof.
      induction gs as [|h gs IH]; intros s Hin Fs Ps; cbn [chain].
      - exists s. split; [auto|split; [auto|split; [auto|split]]]; [intros h c d []|]. intros d Hd. exists d. split; [auto|apply rt_refl].
      - destruct (Hg h (Hin h (or_introl eq_refl)) s Fs Ps) as (y & Ey & Fy & Hy).
        destruct (sum_ok VI VL PF PO (flat_shape m) [s; y]) as (s' & Es & Fs' & Cs).
        { intros z [<-|[<-|[]]]; auto. }
        assert (Hs' : forall c, has s' c <-> has s c \/ has y c).
        { intros c. unfold has. rewrite Cs. cbn [existsb]. rewrite orb_false_r. apply orb_true_iff. }
        destruct (IH s') as (t & Ct & Ft & T1 & T2 & T3); auto.
        { intros h' Hi. apply Hin. now right. }
        { intros c Hc. apply Hs' in Hc. destruct Hc as [Hc|Hc]; [auto|]. apply Hy in Hc. destruct Hc as (c0 & Hc0 & R0).
          apply (PG1 h c0 c); auto. apply Hin. now left. }
        exists t. split; [eauto|split; [auto|split; [|split]]].
        + intros c Hc. apply T1, Hs'. auto.
        + intros h' c d [<-|Hi] Hc Rc.
          * apply T1, Hs'. right. apply Hy. eauto.
          * apply (T2 h' c d); auto. apply Hs'. auto.
        + intros d Hd. destruct (T3 d Hd) as (c & Hc & Rc). apply Hs' in Hc. destruct Hc as [Hc|Hc]; [eauto|].
          apply Hy in Hc. destruct Hc as (c0 & Hc0 & R0). exists c0. split; [auto|]. eapply rt_trans; [apply rt_step|exact Rc].
          right. exists h. split; [apply Hin; now left|auto].
    Qed.

    Lemma step_ok s : fits (flat_shape m) s -> (forall c, has s c -> P c) ->
      exists t, sat_step VI PF U F I US o f g HId s t /\ fits (flat_shape m) t
        /\ (forall c, has s c -> has t c)
        /\ (forall c d, has s c -> round c d -> has t d)
        /\ (forall d, has t d -> exists c, has s c /\ clos_refl_trans _ round c d).
    Proof.
      intros Fs Ps. destruct (Hf s Fs Ps) as (s2 & E2 & F2 & H2).
      assert (Sub : forall c, has s c -> has s2 c) by (intros c Hc; apply H2; exists c; auto).
      destruct (chain_ok g s2) as (t & Ct & Ft & T1 & T2 & T3); auto.
      { intros c Hc. apply H2 in Hc. destruct Hc as (c0 & Hc0 & R0). eauto. }
      exists t. split; [exists s2, s2; split; [auto|split; [now apply evals_id|auto]]|]. split; [auto|split; [auto|split]].
      - intros c d Hc [R|(h & Hi & R)].
        + apply T1, H2. eauto.
        + apply (T2 h c d); auto.
      - intros d Hd. destruct (T3 d Hd) as (c & Hc & Rc). apply H2 in Hc. destruct Hc as (c0 & Hc0 & R0).
        exists c0. split; [auto|]. eapply rt_trans; [apply rt_step; left; exact R0|exact Rc].
    Qed.

    (** Rows reachable in at most [k] rounds. *)
    Fixpoint within (k : nat) (c d : list E) : Prop :=
      match k with
      | 0 => c = d
      | S k => within k c d \/ exists e, within k c e /\ round e d
      end.

    Lemma within_le k k' c d : k <= k' -> within k c d -> within k' c d.
    Proof. intros H W. induction H as [|k' H IH]; [auto|]. cbn. auto. Qed.

    Lemma within_trans k k' c d e : within k c d -> within k' d e -> within (k + k') c e.
    Proof.
      revert e. induction k' as [|k' IH]; intros e A B; cbn [within] in B.
      - subst e. now rewrite Nat.add_0_r.
      - rewrite Nat.add_succ_r. cbn [within]. destruct B as [B|(z & B1 & B2)]; [left; auto|right; exists z; auto].
    Qed.

    Lemma rounds_within c d : P c -> clos_refl_trans _ round c d -> c = d \/ exists k, k <= mu c - mu d /\ mu d < mu c /\ within k c d.
    Proof.
      intros Pc H. induction H as [c d H|c|c d e H1 IH1 H2 IH2]; auto.
      - destruct (Down c d Pc H) as [->|L]; [auto|]. right. exists 1. split; [lia|]. split; [lia|]. cbn. eauto.
      - specialize (IH1 Pc). specialize (IH2 (P_rounds _ _ Pc H1)).
        destruct IH1 as [->|(k1 & K1 & L1 & W1)]; [auto|]. destruct IH2 as [<-|(k2 & K2 & L2 & W2)]; [right; exists k1; auto|].
        right. exists (k1 + k2). split; [lia|split; [lia|]]. now apply (within_trans _ _ _ d).
    Qed.

    Lemma rounds_bound c d : P c -> clos_refl_trans _ round c d -> within K c d.
    Proof.
      intros Pc H. pose proof (Bound c Pc). destruct (rounds_within c d Pc H) as [->|(k & Hk & _ & W)].
      - apply (within_le 0); [lia|reflexivity].
      - apply (within_le k); [lia|auto].
    Qed.

    Lemma within_rounds k c d : within k c d -> clos_refl_trans _ round c d.
    Proof.
      revert d. induction k as [|k IH]; cbn; intros d; [intros ->; apply rt_refl|]. intros [H|(e & H & R)]; [auto|].
      eapply rt_trans; [eauto|]. now apply rt_step.
    Qed.

    Lemma iter_snoc {A} (R : A -> A -> Prop) k x y z : HomEval.iter R k x y -> R y z -> HomEval.iter R (S k) x z.
    Proof.
      revert x. induction k as [|k IH]; cbn; intros x; [intros -> H; eauto|]. intros (w & H1 & H2) H3. exists w. split; [auto|]. now apply IH.
    Qed.

    Lemma maps_satfix v (R : list E -> list E -> Prop) : oshape o (flat_shape m) -> (o_empty o = false -> hskip o (HSatFix v f g HId) = false) ->
      (forall c d, length c = m -> P c -> (R c d <-> clos_refl_trans _ round c d)) -> maps o m (HSatFix v f g HId) P R.
    Proof.
      intros O Hs Hr. apply maps_nonzero. intros x Nz Fx Px.
      assert (It : forall k, exists y, HomEval.iter (sat_step VI PF U F I US o f g HId) k x y /\ fits (flat_shape m) y
                /\ (forall c d, has x c -> within k c d -> has y d)
                /\ (forall d, has y d -> exists c, has x c /\ clos_refl_trans _ round c d)).
      { induction k as [|k (y & I1 & F1 & A1 & B1)].
        - exists x. split; [reflexivity|split; [auto|split]].
          + intros c d Hc W. cbn in W. now subst.
          + intros d Hd. exists d. split; [auto|apply rt_refl].
        - destruct (step_ok y F1) as (t & St & Ft & T1 & T2 & T3).
          { intros d Hd. destruct (B1 d Hd) as (c & Hc & Rc). apply (P_rounds c); auto. }
          exists t. split; [now apply (iter_snoc _ k x y t)|split; [auto|split]].
          + intros c d Hc [W|(e & W & Re)]; [eauto|]. apply (T2 e d); eauto.
          + intros d Hd. destruct (T3 d Hd) as (e & He & Re). destruct (B1 e He) as (c & Hc & Rc). exists c. split; [auto|].
            eapply rt_trans; eauto. }
      destruct (It K) as (y & I1 & F1 & A1 & B1).
      assert (Hy : forall d, has y d <-> exists c, has x c /\ clos_refl_trans _ round c d).
      { intros d. split; [auto|]. intros (c & Hc & Rc). apply (A1 c d); auto. now apply rounds_bound; auto. }
      exists y. split; [|split; [auto|]].
      - apply (ev_direct VI PF U F I US o _ (flat_shape m)); auto; [discriminate|]. cbn [Hom.direct].
        apply (runs_sat VI PF PO U F I US o f g HId x y). exists K. split; [auto|].
        destruct (step_ok y F1) as (t & St & Ft & T1 & T2 & T3).
        { intros d Hd. destruct (B1 d Hd) as (c & Hc & Rc). apply (P_rounds c); auto. }
        assert (t = y) as ->; [|auto]. apply (has_ext m); auto. intros c. split; [|auto]. intros Hc. destruct (T3 c Hc) as (e & He & Re).
        apply Hy in He. destruct He as (c0 & Hc0 & R0). apply Hy. exists c0. split; [auto|]. eapply rt_trans; eauto.
      - intros d. rewrite Hy. split; intros (c & Hc & Rc); exists c; split; auto; apply (Hr c d); auto; now apply (has_length _ _ _ Fx).
    Qed.
  End Sat.
End Maps.

(** ** The constructors, for operands that are neither of the same kind nor locals *)

Section Plain.
  Variable VI : values_impl.
  Variables U F I : Type.
  Variable HP : hplatform (vt VI) U F I.
  Hypothesis HPO : hplatform_ok HP.
  Notation hset := (hset VI U F I HP).

  Lemma sum_plain l : (forall h, In h l -> match h with HSum _ | HLocal _ _ => False | _ => True end) -> l <> [] ->
    mk_sum VI U F I HP l = Ok (match hset l with [h] => h | _ => HSum (hset l) end).
  Proof.
    intros H Ne. assert (E : forall l a, (forall h, In h l -> match h with HSum _ | HLocal _ _ => False | _ => True end) ->
      fold_left (sum_visit VI U F I HP) l (a, []) = (fold_left (fun s h => hset_add VI U F I HP h s) l a, [])).
    { clear. induction l as [|h l IH]; intros a H; [reflexivity|]. cbn [fold_left].
      rewrite <- IH by (intros k Hk; apply H; now right). f_equal. specialize (H h (or_introl eq_refl)). destruct h; try contradiction; reflexivity. }
    unfold mk_sum. destruct l as [|h l]; [congruence|]. cbn [sum_fuel]. rewrite E by exact H.
    assert (P : h_iter HP [] = []) by (apply Permutation_nil, Permutation_sym, (hp_iter HPO)). rewrite P. cbn [regroup rbind].
    fold (hset (h :: l)). destruct (hset (h :: l)) as [|a [|b t]]; reflexivity.
  Qed.

  Lemma inter_plain l : (forall h, In h l -> match h with HInter _ | HLocal _ _ => False | _ => True end) -> l <> [] ->
    mk_inter VI U F I HP l = Ok (match hset l with [h] => h | _ => HInter (hset l) end).
  Proof.
    intros H Ne. assert (E : forall l a, (forall h, In h l -> match h with HInter _ | HLocal _ _ => False | _ => True end) ->
      fold_left (inter_visit VI U F I HP) l (a, []) = (fold_left (fun s h => hset_add VI U F I HP h s) l a, [])).
    { clear. induction l as [|h l IH]; intros a H; [reflexivity|]. cbn [fold_left].
      rewrite <- IH by (intros k Hk; apply H; now right). f_equal. specialize (H h (or_introl eq_refl)). destruct h; try contradiction; reflexivity. }
    unfold mk_inter. destruct l as [|h l]; [congruence|]. cbn [inter_fuel]. rewrite E by exact H.
    assert (P : h_iter HP [] = []) by (apply Permutation_nil, Permutation_sym, (hp_iter HPO)). rewrite P. cbn [regroup rbind].
    fold (hset (h :: l)). destruct (hset (h :: l)) as [|a [|b t]]; reflexivity.
  Qed.

  (** The operands of a sum, without the inner sums. *)
  Definition parts (h : hom (vt VI) U F I) : list (hom (vt VI) U F I) := match h with HSum l => l | _ => [h] end.

  Lemma sum_parts l : (forall h p, In h l -> In p (parts h) -> match p with HSum _ | HLocal _ _ => False | _ => True end) -> l <> [] ->
    mk_sum VI U F I HP l = Ok (match hset (flat_map parts l) with [h] => h | _ => HSum (hset (flat_map parts l)) end).
  Proof.
    intros H Ne. assert (E : forall l a, (forall h, In h l -> match h with HSum _ | HLocal _ _ => False | _ => True end) ->
      fold_left (sum_visit VI U F I HP) l (a, []) = (fold_left (fun s h => hset_add VI U F I HP h s) l a, [])).
    { clear. induction l as [|h l IH]; intros a H; [reflexivity|]. cbn [fold_left].
      rewrite <- IH by (intros k Hk; apply H; now right). f_equal. specialize (H h (or_introl eq_refl)). destruct h; try contradiction; reflexivity. }
    assert (E2 : forall l a, (forall h p, In h l -> In p (parts h) -> match p with HSum _ | HLocal _ _ => False | _ => True end) ->
      fold_left (sum_visit VI U F I HP) l (a, []) = (fold_left (fun s h => hset_add VI U F I HP h s) (flat_map parts l) a, [])).
    { clear - E. induction l as [|h l IH]; intros a H; [reflexivity|]. cbn [fold_left flat_map]. rewrite fold_left_app.
      rewrite <- IH by (intros k p Hk; apply H; now right). f_equal. specialize (H h).
      assert (X := E (parts h) a (fun p Hp => H p (or_introl eq_refl) Hp)). rewrite <- X.
      destruct h; reflexivity. }
    unfold mk_sum. destruct l as [|h l]; [congruence|]. cbn [sum_fuel]. rewrite E2 by exact H.
    assert (P : h_iter HP [] = []) by (apply Permutation_nil, Permutation_sym, (hp_iter HPO)). rewrite P. cbn [regroup rbind].
    fold (hset (flat_map parts (h :: l))). destruct (hset (flat_map parts (h :: l))) as [|a [|b t]]; reflexivity.
  Qed.
End Plain.
