(** * Properties of the operation caches (C18-C21) *)

From Coq Require Import List Bool NArith Arith Lia Permutation.
From Verif Require Import Base Pow2 HashTable Cached Cache CacheProofs CacheTheorems.
From Verif Require Import SortedSets Values Sdd SddFacts DDModel DDProofs FlatSet Concrete Spec DDTheorems DDProps.
Import ListNotations.

Lemma forall2_len : forall A B (P : A -> B -> Prop) l m, Forall2 P l m -> length l = length m.
Proof. intros A B P l m H. induction H; simpl; congruence. Qed.

(** ** C18: caches are transparent *)

(** Any operations [body] whose equality implies the same result, any hash, any filter, any capacities from 2 to
    2^63, any sequence of evaluations and clear(): each outcome is the one obtained without caches. *)
Theorem C18_transparent : forall (Op K R E : Type) (efuel : E), (forall e : E, {e = efuel} + {e <> efuel}) ->
  forall (body : Op -> prog Op R E R) (key : Op -> K) keq (hash : K -> N),
  (forall a b, keq a b = true <-> a = b) ->
  forall (kind : Op -> nat) (accept : Op -> bool) (good : Op -> Prop),
  (forall n op op', good op -> calls (peval efuel body n) (body op) op' -> good op') ->
  (forall a b, kind a = kind b -> key a = key b -> good a -> good b -> forall n, peval efuel body n a = peval efuel body n b) ->
  forall (sizes : nat -> N), (forall i, (2 <= sizes i <= 2 ^ 63)%N) ->
  forall fuel h s, new_caches sizes s -> Forall (legal_cop efuel body good fuel) h ->
  exists s', run_history body key keq hash kind accept fuel h s = (map (expected efuel body fuel) h, s').
Proof.
  intros Op K R E efuel ED body key keq hash KS kind accept good GC SE sizes SZ fuel h s HN L.
  pose proof (new_inv efuel body key hash kind accept good sizes SZ s HN) as I.
  destruct (history_ok efuel ED body key keq hash KS kind accept good GC SE sizes fuel h s I L) as (s' & E1 & _). eauto.
Qed.
Print Assumptions C18_transparent.

(** Every entry of a cache, at any time, holds the result of its operation: an evaluation that throws leaves none. *)
Theorem C18_entries : forall (Op K R E : Type) (efuel : E), (forall e : E, {e = efuel} + {e <> efuel}) ->
  forall (body : Op -> prog Op R E R) (key : Op -> K) keq (hash : K -> N),
  (forall a b, keq a b = true <-> a = b) ->
  forall (kind : Op -> nat) (accept : Op -> bool) (good : Op -> Prop),
  (forall n op op', good op -> calls (peval efuel body n) (body op) op' -> good op') ->
  (forall a b, kind a = kind b -> key a = key b -> good a -> good b -> forall n, peval efuel body n a = peval efuel body n b) ->
  forall (sizes : nat -> N), (forall i, (2 <= sizes i <= 2 ^ 63)%N) ->
  forall fuel h s rs s', new_caches sizes s -> Forall (legal_cop efuel body good fuel) h ->
  run_history body key keq hash kind accept fuel h s = (rs, s') ->
  forall i p d, dat (cmem (s' i)) p = Some d ->
  accept (e_op d) = true /\ exists n, peval efuel body n (e_op d) = Ok (e_res d).
Proof.
  intros Op K R E efuel ED body key keq hash KS kind accept good GC SE sizes SZ fuel h s rs s' HN L E1 i p d Hd.
  pose proof (new_inv efuel body key hash kind accept good sizes SZ s HN) as I.
  destruct (history_ok efuel ED body key keq hash KS kind accept good GC SE sizes fuel h s I L) as (s2 & E2 & I2).
  rewrite E1 in E2. injection E2 as _ ->. destruct (I2 i) as (_ & _ & els & fl & C).
  destruct (k_val _ _ _ _ _ _ C p d) as (_ & _ & H1 & H2); auto. eapply in_els; eauto.
Qed.
Print Assumptions C18_entries.

(** *** The caches of decision diagrams (sdd/dd/context.hh 20-80) *)

Section DD.
  Variable VI : values_impl.
  Variable VL : values_laws VI.
  Variable PF : platform VI.
  Variable PO : platform_ok PF.
  Notation V := (vt VI).
  Notation sdd := (sdd V).

  (** operator== of the operations: nary.hh 102-119, difference.hh 154-160. *)
  Fixpoint sdds_eqb (l m : list sdd) : bool :=
    match l, m with
    | [], [] => true
    | x :: l', y :: m' => sdd_eqb VI PF x y && sdds_eqb l' m'
    | _, _ => false
    end.
  Definition ddop_eqb (a b : ddop V) : bool :=
    match a, b with
    | OpSum l, OpSum m => sdds_eqb l m
    | OpInter l, OpInter m => sdds_eqb l m
    | OpDiff x y, OpDiff z t => sdd_eqb VI PF x z && sdd_eqb VI PF y t
    | _, _ => false
    end.
  Lemma sdds_eqb_spec : forall l m, sdds_eqb l m = true <-> l = m.
  Proof.
    induction l as [|x l IH]; intros [|y m]; cbn [sdds_eqb]; try (split; [discriminate|discriminate]); try tauto.
    rewrite andb_true_iff, IH, (sdd_eqb_spec VI PF PO). split; [intros [-> ->]; auto|intros H; injection H; auto].
  Qed.
  Lemma ddop_eqb_spec : forall a b, ddop_eqb a b = true <-> a = b.
  Proof.
    intros [l|l|x y] [m|m|z t]; cbn [ddop_eqb]; try (split; discriminate).
    - rewrite sdds_eqb_spec. split; [now intros ->|intros H; now injection H].
    - rewrite sdds_eqb_spec. split; [now intros ->|intros H; now injection H].
    - rewrite andb_true_iff, !(sdd_eqb_spec VI PF PO). split; [now intros [-> ->]|intros H; injection H; auto].
  Qed.
  (** One cache for each kind of operation. *)
  Definition dd_kind (op : ddop V) : nat :=
    match op with
    | OpSum _ => 0
    | OpInter _ => 1
    | OpDiff _ _ => 2
    end.
  Definition efuel_dec : forall e : err V, {e = EFuel} + {e <> EFuel}.
  Proof. intros [a b| | |]; [right|right|left|right]; congruence. Defined.
  Lemma peval_dd : forall n op, peval EFuel (dd_body VI PF) n op = dd_eval VI PF n op.
  Proof. reflexivity. Qed.

  (** Calls of a user: union, intersection, difference. *)
  Inductive dd_call : Type :=
  | USum (l : list sdd)
  | UInter (l : list sdd)
  | UMinus (x y : sdd).
  Definition operands (c : dd_call) : list sdd :=
    match c with
    | USum l => l
    | UInter l => l
    | UMinus x y => [x; y]
    end.
  Definition call_prog (c : dd_call) : prog (ddop V) sdd (err V) sdd :=
    match c with
    | USum l => dd_sum VI (fold_left (fun b x => sdd_sb_add VI PF x b) l [])
    | UInter l => dd_intersection VI (fold_left (fun b x => sdd_ib_add VI PF x b) l (false, []))
    | UMinus x y => dd_difference VI PF x y
    end.
  (** The result without caches. *)
  Definition call_result (c : dd_call) : res (err V) sdd :=
    match c with
    | USum l => api_sum VI PF l
    | UInter l => api_intersection VI PF l
    | UMinus x y => api_minus VI PF x y
    end.
  Lemma call_run : forall c, call_result c = interp (dd_eval VI PF (fuel_of VI (operands c))) (call_prog c).
  Proof. intros [l|l|x y]; reflexivity. Qed.
  Lemma call_no_fuel : forall c, (forall x, In x (operands c) -> built VI PF x) -> call_result c <> Err EFuel.
  Proof.
    intros c B E1. destruct c as [l|l|x y]; cbn [call_result operands] in *.
    - destruct (sum_err VI VL PF PO l EFuel B E1) as (a & b & X & _). discriminate.
    - destruct (inter_err VI VL PF PO l EFuel B E1) as (a & b & X & _). discriminate.
    - destruct (minus_err VI VL PF PO x y EFuel) as (a & b & X & _); auto; [apply B; simpl; auto|apply B; simpl; auto|discriminate].
  Qed.

  Inductive dd_step : Type :=
  | DCall (c : dd_call)
  | DClear (i : nat).
  Definition step_cop (d : dd_step) : cop :=
    match d with
    | DCall c => CRun (call_prog c)
    | DClear i => CClear i
    end.
  Definition step_result (d : dd_step) : res (cerr (err V) herr) (option sdd) :=
    match d with
    | DCall c => match call_result c with Ok r => Ok (Some r) | Err e => Err (CThrow e) end
    | DClear _ => Ok None
    end.
  Definition step_ok (fuel : nat) (d : dd_step) : Prop :=
    match d with
    | DCall c => (forall x, In x (operands c) -> built VI PF x) /\ fuel_of VI (operands c) <= fuel
    | DClear _ => True
    end.

  Variable hash : ddop V -> N.
  Variable accept : ddop V -> bool.
  Variable sizes : nat -> N.

  Lemma call_deep : forall fuel c, (forall x, In x (operands c) -> built VI PF x) -> fuel_of VI (operands c) <= fuel ->
    interp (peval EFuel (dd_body VI PF) fuel) (call_prog c) = call_result c.
  Proof.
    intros fuel c B Hf. rewrite call_run. apply (Cached.interp_mono EFuel).
    - intros op H. apply (peval_mono EFuel (dd_body VI PF) _ _ op Hf H).
    - change (interp (dd_eval VI PF (fuel_of VI (operands c))) (call_prog c) <> Err EFuel). rewrite <- call_run.
      now apply call_no_fuel.
  Qed.
  Lemma steps_legal : forall fuel h, Forall (step_ok fuel) h ->
    Forall (legal_cop EFuel (dd_body VI PF) (fun _ => True) fuel) (map step_cop h) /\
    map (expected EFuel (dd_body VI PF) fuel) (map step_cop h) = map step_result h.
  Proof.
    intros fuel h. induction h as [|d h IH]; intros H; [split; [constructor|reflexivity]|].
    inversion H as [|? ? Hd H']; subst. destruct (IH H') as [IH1 IH2]. cbn [map]. rewrite IH2. destruct d as [c|i].
    - destruct Hd as [B Hf]. cbn [step_cop expected step_result]. rewrite (call_deep fuel c B Hf). split.
      + constructor; auto. cbn [legal_cop]. split; auto. rewrite (call_deep fuel c B Hf). now apply call_no_fuel.
      + destruct (call_result c); reflexivity.
    - split; [|reflexivity]. constructor; auto.
  Qed.

  (** Union, intersection and difference on any diagrams: the same results (or exceptions) through the caches of any
      capacity, after any history, even with filters. *)
  Theorem C18_operations : (forall i, (2 <= sizes i <= 2 ^ 63)%N) ->
    forall fuel h s, new_caches sizes s -> Forall (step_ok fuel) h ->
    exists s', run_history (dd_body VI PF) (fun op => op) ddop_eqb hash dd_kind accept fuel (map step_cop h) s =
               (map step_result h, s').
  Proof.
    intros SZ fuel h s HN HS. destruct (steps_legal fuel h HS) as [L E1]. rewrite <- E1.
    apply (C18_transparent (ddop V) (ddop V) sdd (err V) EFuel efuel_dec (dd_body VI PF) (fun op => op) ddop_eqb hash
             ddop_eqb_spec dd_kind accept (fun _ => True)) with (sizes := sizes); auto. intros a b _ -> _ _ n. reflexivity.
  Qed.
End DD.
Print Assumptions C18_operations.

(** The hypotheses are met: unions and differences, a clear and a failing union, through tiny caches. *)
Example C18_ex :
  let h := [DCall FS (USum FS [ex_x; ex_y; ex_z]); DCall FS (UMinus FS ex_x ex_y); DClear FS 0; DCall FS (UInter FS [ex_x; ex_y]);
            DCall FS (USum FS [ex_x; One]); DCall FS (USum FS [ex_x; ex_y; ex_z])] in
  Forall (step_ok FS PF_up 5) h /\
  exists s : caches (ddop (vt FS)) (sdd (vt FS)), new_caches (fun _ => 2%N) s /\
    map (fun r => match r with Ok (Some _) => 1 | Ok None => 2 | Err (CThrow _) => 3 | Err _ => 4 end)
        (fst (run_history (dd_body FS PF_up) (fun op => op) (ddop_eqb FS PF_up) (fun _ => 7%N) (dd_kind FS) (fun _ => true) 5
           (map (step_cop FS PF_up) h) s)) = [1; 1; 2; 1; 3; 1].
Proof.
  split.
  - assert (B : forall x, In x [ex_x; ex_y; ex_z] -> built FS PF_up x /\ follows ex_shape x).
    { apply C06_ex. }
    assert (B1 : built FS PF_up One) by constructor.
    assert (S1 : forall c, (forall x, In x (operands FS c) -> In x [ex_x; ex_y; ex_z; One]) ->
      (fuel_of FS (operands FS c) <=? 5) = true -> step_ok FS PF_up 5 (DCall FS c)).
    { intros c H1 H2. split; [|now apply Nat.leb_le]. intros x Hx. specialize (H1 x Hx). simpl in H1.
      destruct H1 as [<-|[<-|[<-|[<-|[]]]]]; auto; apply B; simpl; auto. }
    repeat (constructor; [first [exact I|apply S1; [simpl; tauto|vm_compute; reflexivity]]|]). constructor.
  - destruct (make_cache (Op := ddop (vt FS)) (R := sdd (vt FS)) 2) as [c|] eqn:E; [|vm_compute in E; discriminate].
    exists (fun _ => c). split; [intros i; exact E|]. vm_compute in E. injection E as <-. vm_compute. reflexivity.
Qed.

(** ** C19: a cache is a least recently used cache *)

(** Without clear(): the contents (from the oldest entry to the most recent one), size and statistics are those of the
    least recently used cache [lru_cache], whose capacity is 0.85 * number of buckets, and no operation faults. *)
Theorem C19_lru : forall (Op K R E : Type) (efuel : E), (forall e : E, {e = efuel} + {e <> efuel}) ->
  forall (body : Op -> prog Op R E R) (key : Op -> K) keq (hash : K -> N),
  (forall a b, keq a b = true <-> a = b) ->
  forall (kind : Op -> nat) (accept : Op -> bool) (good : Op -> Prop),
  (forall n op op', good op -> calls (peval efuel body n) (body op) op' -> good op') ->
  (forall a b, kind a = kind b -> key a = key b -> good a -> good b -> forall n, peval efuel body n a = peval efuel body n b) ->
  forall (sizes : nat -> N), (forall i, (2 <= sizes i <= 2 ^ 63)%N) ->
  forall fuel h s, new_caches sizes s -> Forall (fun p => legal_cop efuel body good fuel (CRun p)) h ->
  forall i, let c := run_progs body key keq hash kind accept h fuel s i in
            let l := lru_progs body key keq kind accept h fuel (fun i => l_empty (max_load (next_power_of_2_64 (sizes i)))) i in
  contents c = entries l /\ size_ (tab c) = N.of_nat (length (entries l)) /\ max_size c = capacity l /\
  hits c = l_hits l /\ misses c = l_misses l /\ filtered c = l_filtered l /\ discarded c = l_discarded l.
Proof.
  intros Op K R E efuel ED body key keq hash KS kind accept good GC SE sizes SZ fuel h s HN L i.
  destruct (new_rel efuel body key hash kind accept good sizes SZ s HN) as [R0 I0].
  destruct (progs_sim efuel ED body key keq hash KS kind accept good GC SE sizes fuel h s _ R0 I0 L) as [R1 I1].
  destruct (R1 i) as (_ & H). pose proof (rel_contents key hash _ _ H) as HC.
  destruct H as ((els & fl & H2 & H3) & H4 & H5 & H6 & H7 & H8 & H9). cbv zeta. repeat split; auto.
  rewrite (ok_size key hash _ _ _ _ H2), <- (Permutation_length H3), map_length. f_equal.
  now apply forall2_len in H4.
Qed.
Print Assumptions C19_lru.

(** Bound and counters. *)
Theorem C19_bound : forall (Op K R E : Type) (efuel : E), (forall e : E, {e = efuel} + {e <> efuel}) ->
  forall (body : Op -> prog Op R E R) (key : Op -> K) keq (hash : K -> N),
  (forall a b, keq a b = true <-> a = b) ->
  forall (kind : Op -> nat) (accept : Op -> bool) (good : Op -> Prop),
  (forall n op op', good op -> calls (peval efuel body n) (body op) op' -> good op') ->
  (forall a b, kind a = kind b -> key a = key b -> good a -> good b -> forall n, peval efuel body n a = peval efuel body n b) ->
  forall (sizes : nat -> N), (forall i, (2 <= sizes i <= 2 ^ 63)%N) ->
  forall fuel h s, new_caches sizes s -> Forall (fun p => legal_cop efuel body good fuel (CRun p)) h ->
  forall i, let c := run_progs body key keq hash kind accept h fuel s i in
            let l := lru_progs body key keq kind accept h fuel (fun i => l_empty (max_load (next_power_of_2_64 (sizes i)))) i in
  (size_ (tab c) <= max_size c)%N /\ (hits c + misses c + filtered c = l_calls l)%N.
Proof.
  intros Op K R E efuel ED body key keq hash KS kind accept good GC SE sizes SZ fuel h s HN L i.
  pose proof (C19_lru Op K R E efuel ED body key keq hash KS kind accept good GC SE sizes SZ fuel h s HN L i) as H.
  cbv zeta in *. destruct H as (H1 & H2 & H3 & H4 & H5 & H6 & _).
  destruct (new_rel efuel body key hash kind accept good sizes SZ s HN) as [R0 I0].
  destruct (progs_sim efuel ED body key keq hash KS kind accept good GC SE sizes fuel h s _ R0 I0 L) as [_ I1].
  destruct (I1 i) as (_ & X1 & X2 & _). unfold NB in *. rewrite H2, H3, H4, H5, H6. auto.
Qed.
Print Assumptions C19_bound.

(** A cache of integers: [n] is computed from [n - 1] and [n - 2]. *)
Definition fib_body (n : N) : prog N N unit N :=
  if (n <=? 1)%N then Ret n else Call (n - 1)%N (fun a => Call (n - 2)%N (fun b => Ret (a + b)%N)).
Lemma unit_dec : forall e : unit, {e = tt} + {e <> tt}.
Proof. intros []. now left. Qed.
Example C19_ex :
  Forall (fun p => legal_cop tt fib_body (fun _ => True) 20 (CRun p)) [Call 10 (fun r => Ret r); Call 4 (fun r => Ret r)]%N /\
  let l := lru_progs fib_body (fun n => n) N.eqb (fun _ => 0) (fun n => negb (n =? 3)%N)
             [Call 10 (fun r => Ret r); Call 4 (fun r => Ret r)]%N 20 (fun _ => l_empty (max_load 4)) 0 in
  entries l = [(1, 1); (2, 1); (4, 3)]%N /\ l_calls l = 62%N /\ l_hits l = 22%N /\ l_filtered l = 8%N.
Proof.
  split.
  - repeat constructor; cbn [interp]; vm_compute; discriminate.
  - vm_compute. repeat split.
Qed.

(** ** C20: clear() does not empty the LRU list *)

Definition id_body (n : N) : prog N N unit N := Ret n.
Notation id_run h s := (run_history id_body (fun n : N => n) N.eqb (fun n : N => n) (fun _ => 0) (fun _ => true) 2 h s).
Definition ask (n : N) : cop (Op := N) (R := N) (E := unit) := CRun (Call n (fun r => Ret r)).

(** After clear(), the same operations do not leave the same entries as in a new cache: the evicted entry is not the
    least recently used one. *)
Theorem C20_clear_refuted : exists (sizes : nat -> N) (before after : list cop) (s : caches N N),
  (forall i, (2 <= sizes i <= 2 ^ 63)%N) /\ new_caches sizes s /\
  Forall (legal_cop tt id_body (fun _ => True) 2) (before ++ after) /\
  let used := snd (id_run (before ++ [CClear 0] ++ after) s) 0 in
  let new := snd (id_run after s) 0 in
  hits new = 1%N /\ discarded new = 1%N /\ hits used = 0%N /\ discarded used = 2%N.
Proof.
  destruct (make_cache (Op := N) (R := N) 4) as [c|] eqn:E; [|vm_compute in E; discriminate].
  exists (fun _ => 4%N), (map ask [1; 2]%N), (map ask [5; 6; 7; 8; 6]%N), (fun _ => c).
  split; [intros i; lia|]. split; [intros i; exact E|]. split.
  - repeat constructor; vm_compute; discriminate.
  - vm_compute in E. injection E as <-. vm_compute. repeat split.
Qed.
Print Assumptions C20_clear_refuted.

(** Nodes of the LRU list accumulate: for every [n] there is a history after which an empty cache, of capacity 3,
    holds [n] nodes. *)
Lemma clear_grows : forall n (c : cache N N) fl,
  cache_ok (fun n : N => n) (fun n : N => n) (fun _ _ => True) c [] fl ->
  exists c' fl', snd (id_run (concat (repeat [ask 0; CClear 0] n)) (fun _ => c)) 0 = c' /\
    cache_ok (fun n : N => n) (fun n : N => n) (fun _ _ => True) c' [] fl' /\ length (lru c') = (length (lru c) + n)%nat.
Proof.
  assert (X : forall n (c : cache N N) (s : caches N N) fl, s 0 = c ->
    cache_ok (fun n : N => n) (fun n : N => n) (fun _ _ => True) c [] fl ->
    exists c' fl', snd (id_run (concat (repeat [ask 0; CClear 0] n)) s) 0 = c' /\
      cache_ok (fun n : N => n) (fun n : N => n) (fun _ _ => True) c' [] fl' /\ length (lru c') = (length (lru c) + n)%nat).
  { induction n as [|n IH]; intros c s fl Hs I.
    - exists c, fl. cbn. rewrite Hs. split; [reflexivity|]. split; [exact I|lia].
    - set (k := fun n : N => n) in *.
      destruct (find_none_ok k N.eqb k N.eqb_eq _ c [] fl 0%N I) as [E1 I1]; [intros p d []|].
      destruct fl as [|p fl].
      { exfalso. pose proof (ok_length _ _ _ _ _ _ I) as HL. pose proof (k_pos _ _ _ _ _ _ I). simpl in HL. lia. }
      destruct (push_ok k k (fun _ _ => True) (count_miss c) [] p fl 0%N 0%N I1 Logic.I)
        as (c1 & E2 & I2 & L2 & _); [intros q d []|].
      assert (E3 : cache_store k N.eqb k 0%N 0%N (pos k (k 0%N) (nb (tab (count_miss c)))) (count_miss c) = Ok c1).
      { rewrite store_push. destruct (full_iff _ _ _ _ _ _ I1) as [F _].
        destruct (N.eqb (size_ (tab (count_miss c))) (max_size (count_miss c))); [discriminate (F eq_refl)|]. exact E2. }
      destruct (clear_ok k k _ _ _ _ I2) as (c2 & fl2 & E4 & I4 & _ & _ & _ & L4).
      cbn [repeat concat app]. unfold ask at 1. cbn [run_history exec lookup]. unfold find_op at 1. rewrite Hs. fold k.
      rewrite E1. cbn [rbind fst snd exec id_body]. unfold store_op at 1.
      rewrite set_same. cbn [nb tab count_miss] in E3. rewrite E3. cbn [rbind].
      unfold clear_op at 1. rewrite set_same. rewrite E4. cbn [rbind].
      destruct (IH c2 (set_cache (set_cache (set_cache s 0 (count_miss c)) 0 c1) 0 c2) fl2) as (c3 & fl3 & E5 & I5 & L5).
      + apply set_same.
      + exact I4.
      + destruct (run_history id_body k N.eqb k (fun _ => 0) (fun _ => true) 2 (concat (repeat [ask 0; CClear 0] n))
          (set_cache (set_cache (set_cache s 0 (count_miss c)) 0 c1) 0 c2)) as [rs s'].
        cbn [snd] in *. exists c3, fl3. split; auto. split; auto. rewrite L5, L4, L2, app_length. cbn [length count_miss lru]. lia. }
  intros n c fl I. now apply (X n c _ fl).
Qed.
Theorem C20_growth_refuted : forall n, exists (h : list cop) (s : caches N N),
  new_caches (fun _ => 4%N) s /\ let c := snd (id_run h s) 0 in size_ (tab c) = 0%N /\ length (lru c) = n.
Proof.
  intros n. destruct (make_cache_ok (fun n : N => n) (fun n : N => n) (fun (_ : N) (_ : N) => True) 4) as (c & E & I & _ & _ & _ & L & _);
    [lia|lia|].
  exists (concat (repeat [ask 0; CClear 0] n)), (fun _ => c). split; [intros i; exact E|].
  destruct (clear_grows n c _ I) as (c' & fl & E1 & I1 & L1). cbv zeta. rewrite E1. split.
  - now rewrite (ok_size _ _ _ _ _ _ I1).
  - rewrite L1, L. reflexivity.
Qed.
Print Assumptions C20_growth_refuted.

(** What remains true: after clear() there is no entry, and any later operation has the outcome it has with new
    caches, without fault. *)
Theorem C20_clear_partial : forall (Op K R E : Type) (efuel : E), (forall e : E, {e = efuel} + {e <> efuel}) ->
  forall (body : Op -> prog Op R E R) (key : Op -> K) keq (hash : K -> N),
  (forall a b, keq a b = true <-> a = b) ->
  forall (kind : Op -> nat) (accept : Op -> bool) (good : Op -> Prop),
  (forall n op op', good op -> calls (peval efuel body n) (body op) op' -> good op') ->
  (forall a b, kind a = kind b -> key a = key b -> good a -> good b -> forall n, peval efuel body n a = peval efuel body n b) ->
  forall (sizes : nat -> N), (forall i, (2 <= sizes i <= 2 ^ 63)%N) ->
  forall fuel before after i s, new_caches sizes s -> Forall (legal_cop efuel body good fuel) (before ++ after) ->
  exists s1 s2 s3,
    run_history body key keq hash kind accept fuel (before ++ [CClear i]) s =
      (map (expected efuel body fuel) before ++ [Ok None], s1) /\
    (forall p, cmem (s1 i) p = None) /\ size_ (tab (s1 i)) = 0%N /\
    run_history body key keq hash kind accept fuel after s1 = (map (expected efuel body fuel) after, s2) /\
    run_history body key keq hash kind accept fuel after s = (map (expected efuel body fuel) after, s3).
Proof.
  intros Op K R E efuel ED body key keq hash KS kind accept good GC SE sizes SZ fuel before after i s HN L.
  pose proof (new_inv efuel body key hash kind accept good sizes SZ s HN) as I.
  apply Forall_app in L. destruct L as [L1 L2].
  assert (L1' : Forall (legal_cop efuel body good fuel) (before ++ [CClear i])).
  { apply Forall_app. split; auto. repeat constructor. }
  destruct (history_ok efuel ED body key keq hash KS kind accept good GC SE sizes fuel _ s I L1') as (s1 & E1 & I1).
  destruct (history_ok efuel ED body key keq hash KS kind accept good GC SE sizes fuel after s1 I1 L2) as (s2 & E2 & _).
  destruct (history_ok efuel ED body key keq hash KS kind accept good GC SE sizes fuel after s I L2) as (s3 & E3 & _).
  exists s1, s2, s3. rewrite map_app in E1. split; auto.
  assert (HC : (forall p, cmem (s1 i) p = None) /\ size_ (tab (s1 i)) = 0%N).
  { destruct (history_ok efuel ED body key keq hash KS kind accept good GC SE sizes fuel before s I L1) as (s0 & E0 & I0).
    assert (E1' : run_history body key keq hash kind accept fuel (before ++ [CClear i]) s =
      (fst (run_history body key keq hash kind accept fuel before s) ++
       fst (run_history body key keq hash kind accept fuel [CClear i] (snd (run_history body key keq hash kind accept fuel before s))),
       snd (run_history body key keq hash kind accept fuel [CClear i] (snd (run_history body key keq hash kind accept fuel before s))))).
    { clear - I L1 ED KS GC SE. revert s I L1. induction before as [|o h IH]; intros s I L1.
      - cbn [app run_history fst snd]. unfold clear_op. destruct (rbind _ _); reflexivity.
      - inversion L1 as [|? ? L3 L4]; subst. destruct o as [p|j]; cbn [app run_history].
        + destruct L3 as [T G]. 
          destruct (run_correct efuel ED body key keq hash KS kind accept good GC SE sizes fuel fuel p s (le_n _) I G T) as (s1 & E1 & I1).
          rewrite E1. rewrite (IH s1 I1 L4). destruct (run_history body key keq hash kind accept fuel h s1) as [rs s']. reflexivity.
        + destruct (clear_inv efuel body key hash kind accept good sizes j s I) as (s1 & E1 & I1). rewrite E1.
          rewrite (IH s1 I1 L4). destruct (run_history body key keq hash kind accept fuel h s1) as [rs s']. reflexivity. }
    rewrite E0 in E1'. cbn [fst snd] in E1'. rewrite E1 in E1'. cbn [run_history] in E1'.
    destruct (I0 i) as (_ & _ & els & fl & C).
    destruct (clear_ok key hash _ _ _ _ C) as (c' & fl' & Ec & Ic & _ & _ & Mc & _).
    unfold clear_op in E1'. rewrite Ec in E1'. cbn [rbind snd] in E1'. apply (f_equal snd) in E1'. cbn [snd] in E1'. rewrite E1'.
    rewrite set_same. split; auto. now rewrite (ok_size key hash _ _ _ _ Ic). }
  destruct HC. split; auto.
Qed.
Print Assumptions C20_clear_partial.

(** ** C21: capacities *)

(** From 2 to 2^63, a cache is built and usable (C18, C19). *)
Theorem C21_capacity_partial : forall (Op R : Type) size, (2 <= size <= 2 ^ 63)%N ->
  exists c : cache Op R, make_cache size = Ok c /\ (1 <= max_size c)%N.
Proof.
  intros Op R size [H1 H2].
  destruct (make_cache_ok (K := unit) (fun _ : Op => tt) (fun _ => 0%N) (fun (_ : Op) (_ : R) => True) size H1 H2) as (c & E & I & _).
  exists c. split; auto. apply (k_pos _ _ _ _ _ _ I).
Qed.
Print Assumptions C21_capacity_partial.
(** For 0, 1, and above 2^63, the constructor writes outside of the pool. *)
Theorem C21_capacity_refuted : forall (Op R : Type) size, (size < 2 \/ 2 ^ 63 < size < 2 ^ 64)%N ->
  make_cache (Op := Op) (R := R) size = Err HUB.
Proof.
  intros Op R size H. unfold make_cache. cbn [nb make_table].
  assert (E : next_power_of_2_64 size = 0%N \/ next_power_of_2_64 size = 1%N).
  { destruct H as [H|[H1 H2]].
    - assert (S : (size = 0 \/ size = 1)%N) by lia. destruct S as [-> | ->]; vm_compute; auto.
    - left. now apply np64_big. }
  destruct E as [->| ->]; reflexivity.
Qed.
Print Assumptions C21_capacity_refuted.
(** Unique table: from 1 to 2^62 it behaves as a set (C25_set); with 0 or above 2^63 the first insertion is out of
    bounds, whatever the element. *)
Theorem C21_unique_table_refuted : forall (D K : Type) (key : D -> K) keq (hash : K -> N) size m x d,
  (size = 0 \/ 2 ^ 63 < size < 2 ^ 64)%N -> insert key keq hash (upd m x (Some {| c_data := d; c_next := None |})) (make_table size) x = Err HUB.
Proof.
  intros D K key keq hash size m x d H.
  assert (E : next_power_of_2_64 size = 0%N).
  { destruct H as [->|[H1 H2]]; [exact np64_zero|now apply np64_big]. }
  unfold insert, insert_impl, deref, make_table. rewrite upd_same, E. cbn [rbind c_data nb bks size_ N.to_nat repeat].
  unfold bucket. destruct (N.to_nat _); reflexivity.
Qed.
Print Assumptions C21_unique_table_refuted.
