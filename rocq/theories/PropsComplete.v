(** * PropsComplete: the documented effects determine the methods of NoditMap (C127) and of
      Gqdit (C128).

    Each theorem says that the documented effect of a method (CompleteOps) is met by the
    model's result and by no other: a method returning anything else, or leaving any
    other entries, on any map a program can hold and any arguments, contradicts it. *)
From Coq Require Import List ZArith Bool.
From Verif Require Import Base BTree UtilsModel IntervalModel NoditModel NoditOps GqditModel GqditOps Spec CompleteOps
  InstancesModel Instances PointFacts IntervalFacts NoditInv GqditFacts GqditProofs CompleteProofs PropsNodit PropsGqdit.
Import ListNotations.
Open Scope nat_scope.

Section Props.
  Context {I : Type} `{PL : PointLaws I}.
  Context {K : Type} {IK : InclusiveInterval I K} {IL : IntervalLaws I K} {FI : FromInvalid I K}.
  Context {Q : Type} {IQ : InclusiveInterval I Q}.
  Context {V : Type}.
  Implicit Types (m : NoditMap K V) (k : K) (q : Q) (v : V) (p : I).

  (** ** C127 *)
  (** The point queries. *)
  Theorem C127_point_queries : determined_by_points I K -> forall m p, reachable m ->
    (forall o, doc_get_at_point p (iter m) o <-> o = get_at_point m p) /\
    (forall o, doc_contains_point p (iter m) o <-> o = map_contains_point m p) /\
    (forall o, doc_get_key_value_at_point p (iter m) o <-> o = get_key_value_at_point m p).
  Proof.
    intros D m p R. apply reachable_WF in R.
    split; [apply get_at_point_iff, R|]. split; [apply contains_point_iff, R|apply get_key_value_iff; assumption].
  Qed.
  (** The interval queries. *)
  Theorem C127_interval_queries : determined_by_points I K -> forall m q, reachable m ->
    (forall o, doc_overlapping q (iter m) o <-> o = overlapping m q) /\
    (forall o, doc_overlaps q (iter m) o <-> o = map_overlaps m q) /\
    (forall o, doc_contains_interval q (iter m) o <-> o = map_contains_interval m q) /\
    (forall o, doc_gaps_untrimmed q (iter m) o <-> o = gaps_untrimmed m q) /\
    (forall o, doc_gaps_trimmed q (iter m) o <-> o = gaps_trimmed m q).
  Proof.
    intros D m q R. apply reachable_WF in R.
    split; [apply overlapping_iff, R|]. split; [apply overlaps_iff, R|]. split; [apply contains_interval_iff, R|].
    split; [apply gaps_untrimmed_iff; assumption|apply gaps_trimmed_iff; assumption].
  Qed.
  (** The removals. *)
  Theorem C127_removals : determined_by_points I K -> forall m q, reachable m ->
    (forall o, doc_remove_overlapping q (iter m) o <-> o = remove_overlapping q m) /\
    (forall o, doc_cut q (iter m) o <-> o = cut q m).
  Proof.
    intros D m q R. apply reachable_WF in R. split; [apply remove_overlapping_iff, R|apply cut_iff; assumption].
  Qed.
  (** The insertions. *)
  Theorem C127_insertions : determined_by_points I K -> forall m k v veq, reachable m ->
    (forall o, doc_insert_strict k v (iter m) o <-> o = insert_strict k v m) /\
    (forall o, doc_insert_overwrite k v (iter m) o <-> o = insert_overwrite k v m) /\
    (forall o, doc_insert_merge_touching k v (iter m) o <-> o = insert_merge_touching k v m) /\
    (forall o, doc_insert_merge_touching_if_values_equal veq k v (iter m) o <->
               o = insert_merge_touching_if_values_equal veq k v m) /\
    (forall o, doc_insert_merge_overlapping k v (iter m) o <-> o = insert_merge_overlapping k v m) /\
    (forall o, doc_insert_merge_touching_or_overlapping k v (iter m) o <->
               o = insert_merge_touching_or_overlapping k v m).
  Proof.
    intros D m k v veq R. apply reachable_WF in R.
    split; [apply insert_strict_iff, R|]. split; [apply insert_overwrite_iff; assumption|].
    split; [apply insert_merge_touching_iff; assumption|]. split; [apply insert_merge_touching_if_equal_iff; assumption|].
    split; [apply insert_merge_overlapping_iff; assumption|apply insert_merge_tor_iff; assumption].
  Qed.
  (** The bulk constructors. *)
  Theorem C127_bulk_constructors : forall (l : list (K * V)),
    (forall o, doc_from_iter_strict l o <-> o = from_iter_strict l) /\
    (forall o, doc_from_iter_strict l o <-> o = from_slice_strict l).
  Proof. intros l. split; apply from_iter_strict_iff. Qed.
End Props.

(** The condition on the interval type holds for [Interval] over any lawful points. *)
Theorem C127_interval_determined_by_its_points : forall {I : Type} `{PL : PointLaws I} {OL : OrdLaws I},
  determined_by_points I (Interval I).
Proof. intros. apply interval_determined. Qed.

(** The hypotheses are met, non-trivially: [ex_map] is reachable, the arguments valid, and a
    cut that forgets the right-hand piece does not meet the documented effect. *)
Example C127_example :
  doc_cut (22 --> 24 : Interval u8) (iter ex_map) (cut (22 --> 24 : Interval u8) ex_map) /\
  ~ doc_cut (22 --> 24 : Interval u8) (iter ex_map)
      ([(2 --> 4, 1); (6 --> 7, 2); (8 --> 9, 2); (20 --> 21, 3)], Val [(22 --> 24, 3)]).
Proof.
  assert (X := proj2 (C127_removals C127_interval_determined_by_its_points ex_map (22 --> 24 : Interval u8) ex_map_reachable)).
  split; [apply X; reflexivity|]. rewrite X. vm_compute. discriminate.
Qed.
Example C127_example_invalid : doc_insert_strict (9 --> 7 : Interval u8) 1 (iter ex_map) (ex_map, Panic) /\
  ~ doc_insert_strict (9 --> 7 : Interval u8) 1 (iter ex_map) (ex_map, Val (Ok tt)).
Proof.
  assert (X := proj1 (C127_insertions C127_interval_determined_by_its_points ex_map (9 --> 7 : Interval u8) 1 Nat.eqb ex_map_reachable)).
  split; [apply X; vm_compute; reflexivity|]. rewrite X. vm_compute. discriminate.
Qed.

Section PropsGqdit.
  Context {I : Type} `{PL : PointLaws I} {OLI : OrdLaws I}.
  Context {K : Type} {IK : InclusiveInterval I K} {IL : IntervalLaws I K} {FI : FromInvalid I K}.
  Context {D : Type} {OD : Ord D} {OL : OrdLaws D}.
  Context {Q : Type} {IQ : InclusiveInterval I Q}.
  Implicit Types (g : Gqdit K D) (k : K) (q : Q) (p : I) (d : D) (ids : list D).

  (** ** C128 *)
  (** The queries. *)
  Theorem C128_identifiers_at_point : forall g p, greachable g ->
    forall o, doc_identifiers_at_point p g o <-> o = identifiers_at_point g p.
  Proof. intros g p R. apply identifiers_iff, greachable_GWF, R. Qed.
  Theorem C128_gap_queries : determined_by_points I K -> forall g d q, greachable g ->
    (forall o, doc_gaps_no_identifier q g o <-> o = gaps_no_identifier g q) /\
    (forall o, doc_gaps_with_identifier d q g o <-> o = gaps_with_identifier g d q).
  Proof.
    intros X g d q R. apply greachable_GWF in R. split; [apply gaps_no_iff; assumption|apply gaps_with_iff; assumption].
  Qed.
  (** The calls that change the Gqdit. *)
  Theorem C128_changes : forall g ids k q, greachable g ->
    (forall o, doc_gqdit_insert ids k g o <-> o = gqdit_insert (collect ids) k g) /\
    (forall o, doc_cut_with_identifiers ids q g o <-> o = cut_with_identifiers (collect ids) q g) /\
    (forall o, doc_cut_all_identifiers q g o <-> o = cut_all_identifiers q g).
  Proof.
    intros g ids k q R. apply greachable_GWF in R.
    split; [apply gqdit_insert_iff, R|]. split; [apply cut_with_iff, R|apply cut_all_iff, R].
  Qed.
  Theorem C128_append : forall g g2, greachable g -> greachable g2 ->
    forall o, doc_append g g2 o <-> o = append g g2.
  Proof. intros g g2 R R2. apply append_iff; apply greachable_GWF; assumption. Qed.
  (** The lists of entries a Gqdit can have. *)
  Theorem C128_proper_is_reachable : forall g, proper g <-> greachable g.
  Proof.
    intros g. rewrite proper_GWF. split; [apply GWF_greachable|apply greachable_GWF].
  Qed.
End PropsGqdit.

(** The hypotheses are met, non-trivially: an insert that leaves the entries it filled
    unmerged with their neighbours does not meet the documented effect. *)
Example C128_example :
  doc_gqdit_insert ['5] (1 --> 5) (gnew : Gqdit (Interval u8) u8)
    ([(0 --> 0, []); (1 --> 5, ['5]); (6 --> 255, [])], Val tt) /\
  ~ doc_gqdit_insert ['5] (1 --> 5) (gnew : Gqdit (Interval u8) u8)
    ([(0 --> 0, []); (1 --> 5, ['5]); (6 --> 9, []); (10 --> 255, [])], Val tt).
Proof.
  assert (R : greachable (gnew : Gqdit (Interval u8) u8)) by (exists []; reflexivity).
  assert (X := proj1 (C128_changes (gnew : Gqdit (Interval u8) u8) ['5] (1 --> 5) (1 --> 5 : Interval u8) R)).
  split; [apply X; vm_compute; reflexivity|]. rewrite X. vm_compute. discriminate.
Qed.

Print Assumptions C127_point_queries.
Print Assumptions C127_interval_queries.
Print Assumptions C127_removals.
Print Assumptions C127_insertions.
Print Assumptions C127_bulk_constructors.
Print Assumptions C127_interval_determined_by_its_points.
Print Assumptions C128_identifiers_at_point.
Print Assumptions C128_gap_queries.
Print Assumptions C128_changes.
Print Assumptions C128_append.
Print Assumptions C128_proper_is_reachable.
