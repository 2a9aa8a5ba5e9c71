(** * The concept "Values": sets of values labelling the arcs of flat nodes

    libsdd is parameterised by [C::Values].  [values_impl] lists the operations the library uses;
    [values_laws] is what a Values type has to satisfy.  The two implementations shipped with
    the library are shown to satisfy it in [FlatSet.v] and [Bitset.v]. *)

From Coq Require Import List Bool NArith.
From Verif Require Import SortedSets.
Import ListNotations.

(** Operations of a Values type used by sdd/dd:
    - [v_empty]    : values::empty_values / empty()               (sdd/values/empty.hh)
    - [v_default]  : Values()                                     (sdd/dd/sum.hh 349)
    - [v_eqb],[v_lt] : operator==, operator<
    - [v_sum],[v_inter],[v_diff] : sum, intersection, difference  (sdd/values/*.hh)
    - [v_size]     : values::size                                 (sdd/values/size.hh)
    - [v_fast]     : values_traits<Values>::fast_iterable         (sdd/values/values_traits.hh)
    - [v_iter]     : iteration begin()/end()
    - [v_build]    : Values(values_traits<Values>::builder&&)     (sdd/dd/sum.hh 292)
    - [e_lt]       : std::less<value_type>                        (sdd/dd/sum.hh 236)
    - [v_mem]      : membership (find / test) *)
Record values_impl : Type := {
  vt : Type;
  elt : Type;
  v_mem : vt -> elt -> bool;
  v_default : vt;
  v_empty : vt -> bool;
  v_eqb : vt -> vt -> bool;
  v_lt : vt -> vt -> bool;
  v_sum : vt -> vt -> vt;
  v_inter : vt -> vt -> vt;
  v_diff : vt -> vt -> vt;
  v_size : vt -> N;
  v_fast : bool;
  v_iter : vt -> list elt;
  v_build : list elt -> vt;
  e_lt : elt -> elt -> bool
}.

(** What the library needs from a Values type. *)
Record values_laws (VI : values_impl) : Prop := {
  vl_ext : forall a b, (forall x, v_mem VI a x = v_mem VI b x) -> a = b;
  vl_eqb : forall a b, v_eqb VI a b = true <-> a = b;
  vl_lt : strict_total (v_lt VI);
  vl_elt : strict_total (e_lt VI);
  vl_default : forall x, v_mem VI (v_default VI) x = false;
  vl_empty : forall a, v_empty VI a = true <-> (forall x, v_mem VI a x = false);
  vl_sum : forall a b x, v_mem VI (v_sum VI a b) x = v_mem VI a x || v_mem VI b x;
  vl_inter : forall a b x, v_mem VI (v_inter VI a b) x = v_mem VI a x && v_mem VI b x;
  vl_diff : forall a b x, v_mem VI (v_diff VI a b) x = v_mem VI a x && negb (v_mem VI b x);
  vl_iter : forall a x, In x (v_iter VI a) <-> v_mem VI a x = true;
  vl_iter_nodup : forall a, NoDup (v_iter VI a);
  vl_size : forall a, v_size VI a = N.of_nat (length (v_iter VI a));
  vl_build : v_fast VI = true ->
    forall l, ssorted (e_lt VI) l -> forall x, v_mem VI (v_build VI l) x = true <-> In x l
}.
Arguments vl_ext {VI}.
Arguments vl_eqb {VI}.
Arguments vl_lt {VI}.
Arguments vl_elt {VI}.
Arguments vl_default {VI}.
Arguments vl_empty {VI}.
Arguments vl_sum {VI}.
Arguments vl_inter {VI}.
Arguments vl_diff {VI}.
Arguments vl_iter {VI}.
Arguments vl_iter_nodup {VI}.
Arguments vl_size {VI}.
Arguments vl_build {VI}.

Lemma v_nonempty : forall VI (L : values_laws VI) a, v_empty VI a = false ->
  exists x, v_mem VI a x = true.
Proof.
  intros VI L a H.
  destruct (v_iter VI a) as [|x l] eqn:Hi.
  - assert (v_empty VI a = true); [|congruence].
    apply (vl_empty L). intros x. destruct (v_mem VI a x) eqn:Hx; auto.
    apply (vl_iter L) in Hx. rewrite Hi in Hx. destruct Hx.
  - exists x. apply (vl_iter L). rewrite Hi. now left.
Qed.
