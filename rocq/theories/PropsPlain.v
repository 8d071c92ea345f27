(** * PropsPlain: a NoditMap that is never cut or merged needs nothing of
      [From<Interval<I>> for K] (C86, C54). *)
From Coq Require Import List ZArith Bool Lia Sorting.Sorted.
From Verif Require Import Base BTree UtilsModel IntervalModel NoditModel NoditOps Spec InstancesModel Instances
  PointFacts IntervalFacts ListFacts NoditFacts NoditQueries NoditMutations NoditMerges NoditInv PropsNodit.
Import ListNotations.
Open Scope nat_scope.

Section Props.
  Context {I : Type} `{PL : PointLaws I}.
  (** No law about [ifrom]. *)
  Context {K : Type} {IK : InclusiveInterval I K}.
  Context {Q : Type} {IQ : InclusiveInterval I Q}.
  Context {V : Type}.
  Implicit Types (m : NoditMap K V) (q : Q) (k : K) (v : V) (p : I).

  (** A map that some program holds that never called a method that converts. *)
  Definition plain m : Prop := exists ops, Forall converts_nothing ops /\ m = run ops.
  Lemma plain_WF m : plain m -> WF m.
  Proof. intros (ops & F & ->). apply plain_run_WF, F. Qed.

  Theorem C86_entries_ascending_disjoint : forall m, plain m ->
    ascending (map fst (iter m)) /\ Forall valid (map fst (iter m)).
  Proof. intros m P. apply ascending_WF, plain_WF, P. Qed.
  Theorem C86_point_queries : forall m, plain m -> forall p,
    (forall k v, get_key_value_at_point m p = Val (Ok (k, v)) <-> In (k, v) (iter m) /\ covers k p) /\
    (forall v, get_at_point m p = Val (Some v) <-> exists k, In (k, v) (iter m) /\ covers k p) /\
    (get_at_point m p = Val None <-> ~ covered (iter m) p) /\
    (map_contains_point m p = Val true <-> covered (iter m) p) /\
    (map_contains_point m p = Val false <-> ~ covered (iter m) p).
  Proof.
    intros m P p. pose proof (plain_WF m P) as W.
    split; [intros k v; apply get_key_value_at_point_Ok, W|]. split; [intros v; apply get_at_point_Some, W|].
    split; [apply get_at_point_None, W|]. destruct (map_contains_point_spec m p W) as (b & E & Hb). rewrite E.
    unfold iter. rewrite <- Hb. destruct b; split; split; intros X; try congruence; try (exfalso; apply X; reflexivity).
  Qed.
  (** The gap handed to [K::from] is the maximal one. *)
  Theorem C86_gap_at_point : forall m, plain m -> forall p, ~ covered (iter m) p ->
    exists gap : Interval I, get_key_value_at_point m p = Val (Err (ifrom gap)) /\ covers gap p /\
      max_run (fun x => ~ covered (iter m) x) gap.
  Proof. intros m P p. apply get_key_value_at_point_gap, plain_WF, P. Qed.
  Theorem C86_overlap_queries : forall m q, plain m -> valid q ->
    (exists l, overlapping m q = Val l /\ sub (fun e => overlap (fst e) q) (iter m) l) /\
    (exists b, map_overlaps m q = Val b /\ (b = true <-> exists e, In e (iter m) /\ overlap (fst e) q)).
  Proof.
    intros m q P Vq. pose proof (plain_WF m P) as W. split; [apply overlapping_spec; assumption|].
    destruct (map_overlaps_spec m q W Vq) as (b & E & Hb). exists b. split; [exact E|]. rewrite Hb. unfold iter. split.
    - intros (k & v & A & B). exists (k, v). auto.
    - intros ([k v] & A & B). exists k, v. auto.
  Qed.
  Theorem C86_insert_strict : forall m k v, plain m -> valid k ->
    ((exists e, In e (iter m) /\ overlap (fst e) k) -> insert_strict k v m = (m, Val (Err v))) /\
    (~ (exists e, In e (iter m) /\ overlap (fst e) k) ->
     exists m' l1 l2, insert_strict k v m = (m', Val (Ok tt)) /\ plain m' /\ iter m = l1 ++ l2 /\ iter m' = l1 ++ (k, v) :: l2).
  Proof.
    intros m k v P Vk. pose proof (plain_WF m P) as W. split.
    - intros ([k' v'] & A & B). apply insert_strict_refused; [exact W|exact Vk|]. exists k', v'. auto.
    - intros N. destruct (insert_strict_done m k v W Vk) as (l1 & l2 & E1 & E2 & _).
      { intros k' v' A B. apply N. exists (k', v'). auto. }
      exists (l1 ++ (k, v) :: l2), l1, l2. split; [exact E2|]. split; [|auto].
      destruct P as (ops & F & ->). exists (ops ++ [OpInsertStrict k v]). split; [apply Forall_app; split; [exact F|repeat constructor]|].
      unfold run in *. rewrite fold_left_app. cbn. rewrite E2. reflexivity.
  Qed.
  Theorem C86_remove_overlapping : forall m q, plain m -> valid q ->
    exists m' removed, remove_overlapping q m = (m', Val removed) /\
      sub (fun e => overlap (fst e) q) (iter m) removed /\ sub (fun e => ~ overlap (fst e) q) (iter m) (iter m').
  Proof.
    intros m q P Vq. destruct (remove_overlapping_spec m q (plain_WF m P) Vq) as (m' & o & E & H1 & H2 & _).
    exists m', o. auto.
  Qed.
End Props.

(** ** C54: the README's [Reservation] is one such type. *)
Theorem C54_without_conversion_partial : forall (V : Type) (ops : list (op i8 Reservation V)),
  Forall converts_nothing ops -> ascending (map fst (iter (run ops))) /\ Forall valid (map fst (iter (run ops))).
Proof. intros V ops F. apply C86_entries_ascending_disjoint. exists ops. auto. Qed.
(** Every converted interval that does not end at [i8::MAX] reaches one point
    too far. *)
Theorem C54_conversion_partial : forall (i : Interval i8) (p : i8), valid i ->
  (covers (ifrom i : Reservation) p <->
   covers i p \/ (up (ivl_end i) = Some p)).
Proof.
  assert (S : forall a b : i8, ple a b <-> (ival a <= ival b)%Z)
    by (intros a b; unfold ple; rewrite cmp_int; apply Z.compare_le_iff).
  assert (M : ival (MAX : i8) = 127%Z) by reflexivity.
  intros [s e] p (x & X1 & X2). unfold covers in *. apply S in X1, X2. rewrite !S.
  cbn [istart iend ivl_start ivl_end Interval_InclusiveInterval] in *.
  change (ival s <= ival x)%Z in X1. change (ival x <= ival e)%Z in X2.
  pose proof (int_range s) as Rs. pose proof (int_range e) as Re. pose proof (int_range p) as Rp.
  unfold ifrom, InclusiveInterval_Reservation. cbn [ivl_start ivl_end].
  destruct (eqb e MAX) eqn:E.
  - apply eqb_true in E. subst e. cbn [istart iend].
    assert (N : up (MAX : i8) = None) by reflexivity. rewrite N.
    split; [auto|intros [A|A]; [exact A|discriminate]].
  - assert (L : (ival e < 127)%Z).
    { destruct (Z.eq_dec (ival e) 127) as [C|C]; [|lia].
      assert (X : e = MAX) by (apply int_eq; rewrite M; exact C). apply eqb_true in X. congruence. }
    destruct (of_Z_fits (lo := -128) (hi := 127) (ival e + 1)) as (y & Ey & Vy); [lia|].
    change (up e) with (of_Z (ival e + 1) : option i8). rewrite Ey. cbn [istart iend]. rewrite Vy. split.
    + intros [A B]. destruct (Z.eq_dec (ival p) (ival e + 1)) as [C|C]; [right; f_equal; apply int_eq; lia|left; lia].
    + intros [A|A]; [lia|injection A as A]. rewrite <- A, Vy. lia.
Qed.

(** ** Examples: a map of the README's reservations that is never cut. *)
Example C86_example :
  let ops : list (op i8 Reservation nat) :=
    [OpInsertStrict (ResFinite '0 '10) 1; OpInsertStrict (ResFinite '5 '7) 2; OpInsertStrict (ResInfinite '20) 3;
     OpInsertStrict (ResFinite '12 '14) 4; OpRemoveOverlapping (ResFinite '14 '18)] in
  let m := run ops in
  plain m /\ iter m = [(ResFinite '0 '10, 1); (ResInfinite '20, 3)] /\
  get_at_point m ('10 : i8) = Val (Some 1) /\ get_at_point m ('11 : i8) = Val None /\
  (** the gap is 11..=19, and the README's [From] makes 11..=20 of it *)
  get_key_value_at_point m ('15 : i8) = Val (Err (ResFinite '11 '20)) /\
  overlapping m (ResFinite '3 '30) = Val (iter m) /\
  insert_strict (ResInfinite '9) 5 m = (m, Val (Err 5)) /\
  snd (insert_strict (ResFinite '11 '19) 5 m) = Val (Ok tt) /\
  remove_overlapping (ResInfinite '127) m = ([(ResFinite '0 '10, 1)], Val [(ResInfinite '20, 3)]).
Proof.
  intros ops m. split; [exists ops; split; [repeat constructor|reflexivity]|]. vm_compute. repeat split; reflexivity.
Qed.
Example C54_partial_example :
  let i : Interval i8 := 3 --> 6 in
  valid i /\ (ifrom i : Reservation) = ResFinite '3 '7 /\ contains_point (ifrom i : Reservation) '7 = true /\
  contains_point i '7 = false /\ (ifrom (3 --> 127 : Interval i8) : Reservation) = ResInfinite '3.
Proof.
  intros i. split; [exists '3; split; vm_compute; discriminate|]. vm_compute. repeat split; reflexivity.
Qed.

Print Assumptions C86_entries_ascending_disjoint.
Print Assumptions C86_point_queries.
Print Assumptions C86_gap_at_point.
Print Assumptions C86_overlap_queries.
Print Assumptions C86_insert_strict.
Print Assumptions C86_remove_overlapping.
Print Assumptions C54_without_conversion_partial.
Print Assumptions C54_conversion_partial.
