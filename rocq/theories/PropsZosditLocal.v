(** * PropsZosditLocal: an insertion and the calls about other places (C114). *)
From Coq Require Import List ZArith Bool.
From Verif Require Import Base IntervalModel NoditModel ZosditModel ZosditOps Spec InstancesModel Instances
  PointFacts IntervalFacts ZosditFacts ZosditMut ZosditProofs ZosditLocal.
Import ListNotations.
Open Scope nat_scope.

Section Props.
  Context {I : Type} `{PL : PointLaws I}.
  Context {K : Type} {IK : InclusiveInterval I K} {IL : IntervalLaws I K}.
  Context {V : Type}.
  Context {Q : Type} {IQ : InclusiveInterval I Q}.
  Implicit Types (z : ZosditMap K V) (k : K) (q : Q) (p : I) (v : V).

  (** ** C114 *)
  (** [overlapping] and [is_zero_overlap] about an interval that shares no point with [k]. *)
  Theorem C114_interval_queries : forall z z' k v q, zreachable z -> insert_strict_back k v z = (z', Val (Ok tt)) -> ~ overlap k q ->
    zosdit_overlapping z' q = zosdit_overlapping z q /\ is_zero_overlap z' q = is_zero_overlap z q.
  Proof.
    intros z z' k v q R E N. apply zreachable_ZWF in R.
    split; [exact (overlapping_elsewhere z z' k v q R E N)|exact (zero_overlap_elsewhere z z' k v q R E N)].
  Qed.
  (** The calls about a point outside [k]: exactly when the answer stays. *)
  Theorem C114_point_calls_partial : forall z z' k v p, zreachable z -> insert_strict_back k v z = (z', Val (Ok tt)) ->
    let reached := exists e x, In e (zosdit_iter z) /\ covers (fst e) p /\ covers (fst e) x /\ plt p x in
    ((forall x, covers k x -> plt x p) \/ (forall x, covers k x -> plt p x) /\ reached ->
       get_last_value_at_point z' p = get_last_value_at_point z p /\
       snd (remove_last_value_at_point p z') = snd (remove_last_value_at_point p z)) /\
    ((forall x, covers k x -> plt p x) /\ ~ reached ->
       get_last_value_at_point z' p = None /\ remove_last_value_at_point p z' = (z', Val None)).
  Proof. intros z z' k v p R. apply point_calls_elsewhere, zreachable_ZWF, R. Qed.
  (** [cut] of an interval that shares no point with [k]: exactly when it yields the same. *)
  Theorem C114_cut_partial : forall z z' k v q, zreachable z -> insert_strict_back k v z = (z', Val (Ok tt)) -> valid q ->
    let reached := exists e x, In e (zosdit_iter z) /\ overlap (fst e) q /\ covers (fst e) x /\ (forall y, covers q y -> plt x y) in
    (before q k \/ before k q /\ reached -> snd (zosdit_cut q z') = snd (zosdit_cut q z)) /\
    (before k q /\ ~ reached -> zosdit_cut q z' = (z', Val [])).
  Proof. intros z z' k v q R. apply cut_calls_elsewhere, zreachable_ZWF, R. Qed.
End Props.

(** As stated, for every call, it is false: after inserting [10..=12] the value at 8 is
    no longer found, and after inserting [1..=2] cutting [4..=8] removes nothing. *)
Theorem C114_point_calls_refuted : exists (z z' : ZosditMap (Interval u8) nat) k p,
  zreachable z /\ insert_strict_back k 2 z = (z', Val (Ok tt)) /\ ~ covers k p /\
  get_last_value_at_point z p = Some 1 /\ get_last_value_at_point z' p = None.
Proof.
  exists (zrun [ZInsertStrictBack (4 --> 8) 1]), (zrun [ZInsertStrictBack (4 --> 8) 1; ZInsertStrictBack (10 --> 12) 2]), (10 --> 12), ('8 : u8).
  split; [eexists; reflexivity|]. split; [vm_compute; reflexivity|]. split; [|vm_compute; auto].
  intros [A _]. vm_compute in A. apply A. reflexivity.
Qed.
Theorem C114_cut_refuted : exists (z z' : ZosditMap (Interval u8) nat) k (q : Interval u8),
  zreachable z /\ insert_strict_back k 2 z = (z', Val (Ok tt)) /\ ~ overlap k q /\
  snd (zosdit_cut q z) = Val [(4 --> 8, 1)] /\ zosdit_cut q z' = (z', Val []).
Proof.
  exists (zrun [ZInsertStrictBack (4 --> 8) 1]), (zrun [ZInsertStrictBack (4 --> 8) 1; ZInsertStrictBack (1 --> 2) 2]), (1 --> 2), (4 --> 8).
  split; [eexists; reflexivity|]. split; [vm_compute; reflexivity|]. split; [|vm_compute; auto].
  intros (x & (_ & A) & (B & _)). rewrite ple_rk in A, B. pose proof (Z.le_trans _ _ _ B A) as C. rewrite <- ple_rk in C. apply C. vm_compute. reflexivity.
Qed.

(** [20..=30] is inserted; calls about [4..=8], 5 and [5..=6] are not affected. *)
Example C114_example :
  let z := zrun [ZInsertStrictBack (4 --> 8) 1; ZInsertStrictBack (8 --> 8) 2] : ZosditMap (Interval u8) nat in
  let z' := fst (insert_strict_back (20 --> 30) 3 z) in
  zreachable z /\ insert_strict_back (20 --> 30) 3 z = (z', Val (Ok tt)) /\
  zosdit_overlapping z' (4 --> 8 : Interval u8) = Val [(4 --> 8, 1); (8 --> 8, 2)] /\
  zosdit_overlapping z (4 --> 8 : Interval u8) = Val [(4 --> 8, 1); (8 --> 8, 2)] /\
  is_zero_overlap z' (8 --> 9 : Interval u8) = Val true /\ is_zero_overlap z' (7 --> 9 : Interval u8) = Val false /\
  get_last_value_at_point z' '5 = Some 1 /\ get_last_value_at_point z '5 = Some 1 /\
  snd (zosdit_cut (5 --> 6 : Interval u8) z') = Val [(5 --> 6, 1)] /\
  snd (zosdit_cut (5 --> 6 : Interval u8) z) = Val [(5 --> 6, 1)].
Proof. split; [eexists; reflexivity|]. vm_compute. repeat split; reflexivity. Qed.
Print Assumptions C114_interval_queries.
Print Assumptions C114_point_calls_partial.
Print Assumptions C114_cut_partial.
Print Assumptions C114_point_calls_refuted.
Print Assumptions C114_cut_refuted.
