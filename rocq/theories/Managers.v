(** * Managers: initialisation of the library, global pointers and deletion handlers.

    Model of sdd/manager.hh, of the global state of sdd/internal_manager.hh,
    sdd/values_manager.hh and sdd/values/flat_set.hh, and of the deletion handlers of
    sdd/mem/ptr.hh. *)

From Coq Require Import List Arith Bool Lia.
Import ListNotations.

(** Configurations and types of sets of values are types of C++; they are named by numbers here.
    A manager is named by the rank of the call to init that created it. *)
Definition conf := nat.
Definition vtype := nat.
Definition mgr := nat.

(** The two facts about the types of a program that matter:
    - [values_of c] is C::Values (sdd/manager.hh:38);
    - [stateful v] is values_traits<v>::stateful (sdd/values_manager.hh:74-77). *)
Record types := { values_of : conf -> vtype; stateful : vtype -> bool }.

(** One entry of the static variables of a template function. *)
Definition slots := nat -> option mgr.
Definition set (t : slots) (i : nat) (v : option mgr) : slots :=
  fun j => if Nat.eqb j i then v else t j.

(** The static variables of the library, and the existing managers.
    - [g_internal c]: *global_ptr<c>(), sdd/internal_manager.hh:134-142;
    - [g_internal_values v]: *global_ptr<v>() for a type of values [v]: the same template, at
      another type, read by sdd/manager.hh:39;
    - [g_values v]: *global_values_ptr<v>(), sdd/values_manager.hh:99-107;
    - [h_internal c]: which manager's unique tables are captured by the deletion handlers of the
      SDD and of the homomorphisms of [c], sdd/internal_manager.hh:51-65, sdd/mem/ptr.hh:28-54
      ([None]: the handler that asserts false);
    - [h_values v]: the same for the values, sdd/values/flat_set.hh:340-351;
    - [alive]: the manager_impl objects, their configuration and the number of copies of the
      shared_ptr that designate them (sdd/manager.hh:69);
    - [fresh]: the name of the next manager. *)
Record world := {
  g_internal : slots;
  g_internal_values : slots;
  g_values : slots;
  h_internal : slots;
  h_values : slots;
  alive : list (mgr * (conf * nat));
  fresh : mgr
}.

(** The state of a program before the first call to init. *)
Definition start : world :=
  {| g_internal := fun _ => None; g_internal_values := fun _ => None; g_values := fun _ => None;
     h_internal := fun _ => None; h_values := fun _ => None; alive := []; fresh := 0 |}.

Section managers.
  Variable T : types.

  (** init<C>, sdd/manager.hh:34-53. [None]: std::runtime_error.
      The construction of values_manager installs the deletion handler of the values when they
      are stateful (sdd/values/flat_set.hh:340-351), the one of internal_manager installs the
      handlers of SDD and homomorphisms (sdd/internal_manager.hh:93).
      Simplification: the allocations are supposed to succeed. *)
  Definition init (c : conf) (w : world) : option (mgr * world) :=
    match g_internal w c, g_internal_values w (values_of T c) with
    | None, None =>
      let v := values_of T c in
      let m := fresh w in
      Some (m,
        {| g_internal := set (g_internal w) c (Some m);
           g_internal_values := g_internal_values w;
           g_values := set (g_values w) v (Some m);
           h_internal := set (h_internal w) c (Some m);
           h_values := if stateful T v then set (h_values w) v (Some m) else h_values w;
           alive := (m, (c, 1)) :: alive w;
           fresh := S m |})
    | _, _ => None
    end.

  Fixpoint lookup (m : mgr) (l : list (mgr * (conf * nat))) : option (conf * nat) :=
    match l with
    | [] => None
    | (m', x) :: l => if Nat.eqb m m' then Some x else lookup m l
    end.

  Fixpoint update (m : mgr) (x : option (conf * nat)) (l : list (mgr * (conf * nat)))
    : list (mgr * (conf * nat)) :=
    match l with
    | [] => []
    | (m', y) :: l =>
      if Nat.eqb m m'
      then match x with Some x => (m', x) :: l | None => l end
      else (m', y) :: update m x l
    end.

  Definition with_alive (w : world) (l : list (mgr * (conf * nat))) : world :=
    {| g_internal := g_internal w; g_internal_values := g_internal_values w;
       g_values := g_values w; h_internal := h_internal w; h_values := h_values w;
       alive := l; fresh := fresh w |}.

  (** Copy of a manager: copy of the shared_ptr, sdd/manager.hh:62-69. *)
  Definition copy (m : mgr) (w : world) : world :=
    match lookup m (alive w) with
    | Some (c, n) => with_alive w (update m (Some (c, S n)) (alive w))
    | None => w
    end.

  (** ~manager_impl, sdd/manager.hh:183-187, then the destruction of its members, m_ before
      values_: ~ptr_handlers (sdd/internal_manager.hh:60-64) and ~ptr_handler
      (sdd/values/flat_set.hh:347-350). *)
  Definition destroy (c : conf) (w : world) : world :=
    let v := values_of T c in
    {| g_internal := set (g_internal w) c None;
       g_internal_values := g_internal_values w;
       g_values := set (g_values w) v None;
       h_internal := set (h_internal w) c None;
       h_values := if stateful T v then set (h_values w) v None else h_values w;
       alive := alive w;
       fresh := fresh w |}.

  (** Destruction of one copy of a manager: ~shared_ptr, sdd/manager.hh:69. *)
  Definition drop (m : mgr) (w : world) : world :=
    match lookup m (alive w) with
    | Some (c, n) =>
      if n <=? 1
      then let w' := destroy c w in with_alive w' (update m None (alive w'))
      else with_alive w (update m (Some (c, pred n)) (alive w))
    | None => w
    end.

  (** What a program does with managers. *)
  Inductive mop := MInit (c : conf) | MCopy (m : mgr) | MDrop (m : mgr).

  (** A call to init that throws leaves everything unchanged. *)
  Definition m_step (o : mop) (w : world) : world :=
    match o with
    | MInit c => match init c w with Some (_, w') => w' | None => w end
    | MCopy m => copy m w
    | MDrop m => drop m w
    end.

  Definition m_run (l : list mop) : world := fold_left (fun w o => m_step o w) l start.

  (** ** Specification *)

  (** A manager of [c] is alive. *)
  Definition manager_alive (c : conf) (w : world) : Prop :=
    exists m n, In (m, (c, n)) (alive w).

  (** The library, used at configuration [c], works on the state of manager [m]: global<C>(), the
      deletion handlers and, when the values have a state, global_values<Values>() and their
      deletion handler all designate [m]. *)
  Definition serves (m : mgr) (c : conf) (w : world) : Prop :=
    g_internal w c = Some m
    /\ h_internal w c = Some m
    /\ (stateful T (values_of T c) = true ->
        g_values w (values_of T c) = Some m /\ h_values w (values_of T c) = Some m).

  (** Histories where a stateful type of values is never used by two configurations at once. *)
  Definition apart (o : mop) (w : world) : Prop :=
    match o with
    | MInit c =>
      stateful T (values_of T c) = true ->
      forall c', c' <> c -> values_of T c' = values_of T c -> ~ manager_alive c' w
    | _ => True
    end.

  Inductive apart_history : list mop -> Prop :=
  | ap_nil : apart_history []
  | ap_snoc l o : apart_history l -> apart o (m_run l) -> apart_history (l ++ [o]).

  (** ** Proofs *)

  Lemma m_run_snoc l o : m_run (l ++ [o]) = m_step o (m_run l).
  Proof. unfold m_run. now rewrite fold_left_app. Qed.

  Lemma set_same t i v : set t i v i = v.
  Proof. unfold set. now rewrite Nat.eqb_refl. Qed.

  Lemma set_other t i v j : j <> i -> set t i v j = t j.
  Proof. unfold set. intros H. apply Nat.eqb_neq in H. now rewrite H. Qed.

  Lemma lookup_In m x l : lookup m l = Some x -> In (m, x) l.
  Proof.
    induction l as [|[m' y] l IH]; cbn; [discriminate|].
    destruct (Nat.eqb_spec m m') as [<-|]; [intros [= <-]; auto|auto].
  Qed.

  Lemma lookup_None m x l : lookup m l = None -> ~ In (m, x) l.
  Proof.
    induction l as [|[m' y] l IH]; cbn; [tauto|].
    destruct (Nat.eqb_spec m m') as [<-|]; [discriminate|].
    intros H [[= -> ->]|H']; [congruence|exact (IH H H')].
  Qed.

  Lemma update_In m x l m' y :
    NoDup (map fst l) -> In m (map fst l) ->
    (In (m', y) (update m x l) <-> (m' = m /\ x = Some y) \/ (m' <> m /\ In (m', y) l)).
  Proof.
    induction l as [|[m1 y1] l IH]; cbn; intros ND HI; [tauto|].
    inversion ND as [|? ? N1 N2]; subst.
    destruct (Nat.eqb_spec m m1) as [<-|NE].
    - assert (forall z, ~ In (m, z) l) as NI
        by (intros z Hz; apply N1; apply in_map_iff; exists (m, z); auto).
      assert (forall z, In (m', z) l -> m' <> m) as NI' by (intros z Hz ->; exact (NI _ Hz)).
      destruct x as [x|]; cbn.
      + split.
        * intros [[= <- <-]|H]; [auto|right; split; eauto].
        * intros [[-> [= ->]]|[H [[= <- <-]|H']]]; auto. now destruct H.
      + split.
        * intros H. right. split; eauto.
        * intros [[_ [=]]|[H [[= <- <-]|H']]]; auto. now destruct H.
    - destruct HI as [HI|HI]; [congruence|].
      cbn. rewrite (IH N2 HI). split.
      + intros [[= <- <-]|[H|[H H']]]; auto.
      + intros [[H1 H2]|[H [[= <- <-]|H']]]; auto.
  Qed.

  Lemma update_keys m x l k : In k (map fst (update m x l)) -> In k (map fst l).
  Proof.
    induction l as [|[m1 y1] l IH]; cbn; [tauto|].
    destruct (Nat.eqb m m1); [destruct x; cbn; tauto|cbn; tauto].
  Qed.

  Lemma update_NoDup m x l : NoDup (map fst l) -> NoDup (map fst (update m x l)).
  Proof.
    induction l as [|[m1 y1] l IH]; cbn; intros H; [constructor|].
    inversion H as [|? ? N1 N2]; subst.
    destruct (Nat.eqb m m1); [destruct x; auto|].
    cbn. constructor; auto. intros H'. apply N1. eapply update_keys; eauto.
  Qed.

  Record winv (w : world) : Prop := {
    wi_nodup : NoDup (map fst (alive w));
    wi_fresh : forall m x, In (m, x) (alive w) -> m < fresh w;
    wi_count : forall m c n, In (m, (c, n)) (alive w) -> 1 <= n;
    wi_null : forall v, g_internal_values w v = None;
    wi_alive : forall m c n, In (m, (c, n)) (alive w) ->
                             g_internal w c = Some m /\ h_internal w c = Some m;
    wi_ptr : forall m c, g_internal w c = Some m -> exists n, In (m, (c, n)) (alive w)
  }.

  Lemma winv_start : winv start.
  Proof. split; cbn; try tauto; try congruence. constructor. Qed.

  Lemma in_keys {A B} (k : A) (x : B) l : In (k, x) l -> In k (map fst l).
  Proof. intros H. apply in_map_iff. exists (k, x). auto. Qed.

  Lemma NoDup_key (l : list (mgr * (conf * nat))) m x y :
    NoDup (map fst l) -> In (m, x) l -> In (m, y) l -> x = y.
  Proof.
    induction l as [|[m1 z] l IH]; cbn; [tauto|].
    intros ND. inversion ND as [|? ? N1 N2]; subst.
    intros [[= -> ->]|H1] [[= <-]|H2]; auto.
    - now apply in_keys in H2.
    - subst. now apply in_keys in H1.
  Qed.

  Lemma winv_step o w : winv w -> winv (m_step o w).
  Proof.
    intros I. pose proof I as I0. destruct I0 as [ND FR CN NU AL PT].
    destruct o as [c|m|m]; cbn [m_step].
    - unfold init. destruct (g_internal w c) as [m0|] eqn:E; [exact I|].
      rewrite NU. cbn. split; cbn.
      + constructor; auto. intros H. apply in_map_iff in H as ([m' x] & H1 & H2).
        cbn in H1. subst. apply FR in H2. lia.
      + intros m x [[= <- _]|H]; [lia|]. apply FR in H. lia.
      + intros m c' n [[= <- <- <-]|H]; [lia|eauto].
      + auto.
      + intros m c' n [[= <- <- <-]|H].
        * now rewrite !set_same.
        * destruct (AL _ _ _ H) as [H1 H2].
          rewrite !set_other by congruence. auto.
      + intros m c'. unfold set. destruct (Nat.eqb_spec c' c) as [->|NE].
        * intros [= <-]. eauto.
        * intros H. destruct (PT _ _ H) as [n Hn]. eauto.
    - unfold copy. destruct (lookup m (alive w)) as [[c n]|] eqn:E; [|exact I].
      apply lookup_In in E. pose proof (in_keys _ _ _ E) as K.
      split; cbn.
      + now apply update_NoDup.
      + intros m' x H. apply update_In in H; auto. destruct H as [[-> _]|[_ H]]; eauto.
      + intros m' c' n' H. apply update_In in H; auto.
        destruct H as [[-> [= <- <-]]|[_ H]]; [lia|eauto].
      + auto.
      + intros m' c' n' H. apply update_In in H; auto.
        destruct H as [[-> [= <- <-]]|[_ H]]; eauto.
      + intros m' c' H. destruct (PT _ _ H) as [n' Hn].
        destruct (Nat.eq_dec m' m) as [->|NE].
        * pose proof (NoDup_key _ _ _ _ ND E Hn) as [= <- <-].
          exists (S n). apply update_In; auto.
        * exists n'. apply update_In; auto.
    - unfold drop. destruct (lookup m (alive w)) as [[c n]|] eqn:E; [|exact I].
      apply lookup_In in E. pose proof (in_keys _ _ _ E) as K.
      destruct (n <=? 1) eqn:L.
      + split; cbn.
        * now apply update_NoDup.
        * intros m' x H. apply update_In in H; auto. destruct H as [[-> _]|[_ H]]; eauto.
        * intros m' c' n' H. apply update_In in H; auto.
          destruct H as [[_ [=]]|[_ H]]; eauto.
        * auto.
        * intros m' c' n' H. apply update_In in H; auto.
          destruct H as [[_ [=]]|[NE H]].
          destruct (AL _ _ _ H) as [H1 H2]. destruct (AL _ _ _ E) as [H3 H4].
          assert (c' <> c) by congruence. now rewrite !set_other.
        * intros m' c'. unfold set. destruct (Nat.eqb_spec c' c) as [->|NE]; [discriminate|].
          intros H. destruct (PT _ _ H) as [n' Hn]. exists n'. apply update_In; auto.
          right. split; auto. intros ->.
          pose proof (NoDup_key _ _ _ _ ND E Hn) as [= <- <-]. congruence.
      + apply Nat.leb_gt in L. split; cbn.
        * now apply update_NoDup.
        * intros m' x H. apply update_In in H; auto. destruct H as [[-> _]|[_ H]]; eauto.
        * intros m' c' n' H. apply update_In in H; auto.
          destruct H as [[-> [= <- <-]]|[_ H]]; [lia|eauto].
        * auto.
        * intros m' c' n' H. apply update_In in H; auto.
          destruct H as [[-> [= <- <-]]|[_ H]]; eauto.
        * intros m' c' H. destruct (PT _ _ H) as [n' Hn].
          destruct (Nat.eq_dec m' m) as [->|NE].
          -- pose proof (NoDup_key _ _ _ _ ND E Hn) as [= <- <-].
             exists (pred n). apply update_In; auto.
          -- exists n'. apply update_In; auto.
  Qed.

  Lemma winv_run l : winv (m_run l).
  Proof.
    induction l as [|o l IH] using rev_ind; [apply winv_start|].
    rewrite m_run_snoc. now apply winv_step.
  Qed.

  (** The values are served to the managers alive as well. *)
  Definition vinv (w : world) : Prop :=
    forall m c n, In (m, (c, n)) (alive w) -> stateful T (values_of T c) = true ->
      g_values w (values_of T c) = Some m /\ h_values w (values_of T c) = Some m.

  Lemma vinv_step o w : winv w -> vinv w -> apart o w -> vinv (m_step o w).
  Proof.
    intros I V A. pose proof I as I0. destruct I0 as [ND FR CN NU AL PT].
    destruct o as [c|m|m]; cbn [m_step].
    - unfold init. destruct (g_internal w c) as [m0|] eqn:E; [exact V|].
      rewrite NU. cbn. intros m c' n [[= <- <- <-]|H] ST; cbn.
      + rewrite ST. now rewrite !set_same.
      + assert (values_of T c' <> values_of T c) as NE.
        { intros EQ. assert (c' <> c) as D.
          { intros ->. destruct (AL _ _ _ H). congruence. }
          cbn in A. rewrite EQ in ST. apply (A ST c' D EQ). exists m, n. exact H. }
        destruct (V _ _ _ H ST) as [H1 H2].
        destruct (stateful T (values_of T c)); rewrite !set_other by auto; auto.
    - unfold copy. destruct (lookup m (alive w)) as [[c n]|] eqn:E; [|exact V].
      apply lookup_In in E. pose proof (in_keys _ _ _ E) as K.
      intros m' c' n' H ST. cbn in *. apply update_In in H; auto.
      destruct H as [[-> [= <- <-]]|[_ H]]; eauto.
    - unfold drop. destruct (lookup m (alive w)) as [[c n]|] eqn:E; [|exact V].
      apply lookup_In in E. pose proof (in_keys _ _ _ E) as K.
      destruct (n <=? 1) eqn:L.
      + intros m' c' n' H ST. cbn in *. apply update_In in H; auto.
        destruct H as [[_ [=]]|[NE H]].
        destruct (V _ _ _ H ST) as [H1 H2].
        assert (values_of T c' <> values_of T c) as D.
        { intros EQ. pose proof ST as ST'. rewrite EQ in ST'.
          destruct (V _ _ _ E ST') as [H3 H4]. rewrite EQ in H1. congruence. }
        destruct (stateful T (values_of T c)); rewrite !set_other by auto; auto.
      + intros m' c' n' H ST. cbn in *. apply update_In in H; auto.
        destruct H as [[-> [= <- <-]]|[_ H]]; eauto.
  Qed.

  Lemma vinv_run l : apart_history l -> vinv (m_run l).
  Proof.
    induction 1 as [|l o H IH A].
    - intros m c n [].
    - rewrite m_run_snoc. apply vinv_step; auto. apply winv_run.
  Qed.
  (** Nothing designates a destroyed manager. *)
  Record sinv (w : world) : Prop := {
    si_h : forall c m, h_internal w c = Some m -> exists n, In (m, (c, n)) (alive w);
    si_gv : forall v m, g_values w v = Some m -> exists c n, In (m, (c, n)) (alive w) /\ values_of T c = v;
    si_hv : forall v m, h_values w v = Some m -> exists c n, In (m, (c, n)) (alive w) /\ values_of T c = v;
    si_none : forall v, stateful T v = false -> h_values w v = None
  }.

  Lemma sinv_alive w w' : sinv w -> h_internal w' = h_internal w -> g_values w' = g_values w ->
    h_values w' = h_values w ->
    (forall m c n, In (m, (c, n)) (alive w) -> exists n', In (m, (c, n')) (alive w')) -> sinv w'.
  Proof.
    intros [A B C D] E1 E2 E3 K. split; rewrite ?E1, ?E2, ?E3; auto.
    - intros c m H. destruct (A _ _ H) as [n Hn]. eauto.
    - intros v m H. destruct (B _ _ H) as (c & n & Hn & V). destruct (K _ _ _ Hn). eauto.
    - intros v m H. destruct (C _ _ H) as (c & n & Hn & V). destruct (K _ _ _ Hn). eauto.
  Qed.

  Lemma sinv_step o w : winv w -> sinv w -> sinv (m_step o w).
  Proof.
    intros I Sw. pose proof I as I0. destruct I0 as [ND FR CN NU AL PT].
    destruct o as [c|m|m]; cbn [m_step].
    - unfold init. destruct (g_internal w c) as [m0|] eqn:E; [exact Sw|]. rewrite NU.
      destruct Sw as [A B C D]. split; cbn.
      + intros c' m'. unfold set. destruct (Nat.eqb_spec c' c) as [->|NE].
        * intros [= <-]. eauto.
        * intros H. destruct (A _ _ H) as [n Hn]. eauto.
      + intros v m'. unfold set. destruct (Nat.eqb_spec v (values_of T c)) as [->|NE].
        * intros [= <-]. exists c, 1. auto.
        * intros H. destruct (B _ _ H) as (c' & n & Hn & V). exists c', n. auto.
      + intros v m'. assert (Old : h_values w v = Some m' -> exists c' n, ((fresh w, (c, 1)) = (m', (c', n)) \/
            In (m', (c', n)) (alive w)) /\ values_of T c' = v).
        { intros H. destruct (C _ _ H) as (c' & n & Hn & V). exists c', n. auto. }
        destruct (stateful T (values_of T c)); auto. unfold set.
        destruct (Nat.eqb_spec v (values_of T c)) as [->|NE]; auto.
        intros [= <-]. exists c, 1. auto.
      + intros v H. destruct (stateful T (values_of T c)) eqn:ST; auto. rewrite set_other; [auto|congruence].
    - unfold copy. destruct (lookup m (alive w)) as [[c n]|] eqn:E; [|exact Sw].
      apply lookup_In in E. apply (sinv_alive w); auto. intros m' c' n' H. cbn.
      destruct (Nat.eq_dec m' m) as [->|NE].
      + pose proof (NoDup_key _ _ _ _ ND E H) as [= <- <-]. exists (S n). apply update_In; eauto using in_keys.
      + exists n'. apply update_In; eauto using in_keys.
    - unfold drop. destruct (lookup m (alive w)) as [[c n]|] eqn:E; [|exact Sw].
      apply lookup_In in E. pose proof (in_keys _ _ _ E) as K.
      destruct (n <=? 1).
      + destruct Sw as [A B C D]. assert (Keep : forall m' c' n', c' <> c -> In (m', (c', n')) (alive w) ->
          In (m', (c', n')) (update m None (alive w))).
        { intros m' c' n' NE H. apply update_In; auto. right. split; auto.
          intros ->. pose proof (NoDup_key _ _ _ _ ND E H) as [= <- <-]. congruence. }
        split; cbn.
        * intros c' m'. unfold set. destruct (Nat.eqb_spec c' c) as [->|NE]; [discriminate|].
          intros H. destruct (A _ _ H) as [n' Hn]. eauto.
        * intros v m'. unfold set. destruct (Nat.eqb_spec v (values_of T c)) as [->|NE]; [discriminate|].
          intros H. destruct (B _ _ H) as (c' & n' & Hn & V). exists c', n'. split; auto.
          apply Keep; auto. congruence.
        * intros v m' H. assert (H' : h_values w v = Some m' /\ v <> values_of T c).
          { destruct (stateful T (values_of T c)) eqn:ST.
            - revert H. unfold set. destruct (Nat.eqb_spec v (values_of T c)); [discriminate|auto].
            - split; auto. intros ->. rewrite (D _ ST) in H. discriminate. }
          destruct H' as [H' NE]. destruct (C _ _ H') as (c' & n' & Hn & V). exists c', n'. split; auto.
          apply Keep; auto. congruence.
        * intros v H. destruct (stateful T (values_of T c)) eqn:ST; auto. rewrite set_other; [auto|congruence].
      + apply (sinv_alive w); auto. intros m' c' n' H. cbn.
        destruct (Nat.eq_dec m' m) as [->|NE].
        * pose proof (NoDup_key _ _ _ _ ND E H) as [= <- <-]. exists (pred n). apply update_In; auto.
        * exists n'. apply update_In; auto.
  Qed.

  Lemma sinv_run l : sinv (m_run l).
  Proof.
    induction l as [|o l IH] using rev_ind; [split; cbn; [discriminate|discriminate|discriminate|auto]|].
    rewrite m_run_snoc. apply sinv_step; auto. apply winv_run.
  Qed.
End managers.
