(** * PropsIntervalEq: [==] and [Hash] of [Interval] (C103). *)
From Coq Require Import List ZArith Bool Lia.
From Verif Require Import Base BTree UtilsModel IntervalModel NoditModel NoditSetModel NoditOps NoditSetOps EqModel
  Spec InstancesModel Instances PointFacts IntervalFacts PropsNodit PropsEq.
Import ListNotations.
Open Scope nat_scope.

Section Props.
  Context {I : Type} `{PL : PointLaws I}.
  Implicit Types (ieq : I -> I -> bool) (a b : Interval I).

  (** [I]'s [==] agrees with its order, as [Eq] and [Ord] require of each
      other. *)
  Definition eq_agrees ieq : Prop := forall p q, ieq p q = true <-> cmp p q = Eq.

  Lemma contains_point_covers a p : contains_point a p = true <-> covers a p.
  Proof. rewrite contains_point_rk, covers_rk, andb_true_iff, !Z.leb_le. reflexivity. Qed.

  (** ** C103 *)
  Theorem C103_equality : forall ieq a b, eq_agrees ieq -> valid a -> valid b ->
    (interval_eqb ieq a b = true <-> forall p, contains_point a p = contains_point b p).
  Proof.
    intros ieq a b E Va Vb. unfold eq_agrees in E. unfold interval_eqb. rewrite andb_true_iff, !E, !rk_eq.
    pose proof (same_points_rk a b (proj1 (valid_rk _) Va) (proj1 (valid_rk _) Vb)) as S.
    change (rk (ivl_start a)) with (lo a). change (rk (ivl_start b)) with (lo b).
    change (rk (ivl_end a)) with (hi a). change (rk (ivl_end b)) with (hi b).
    rewrite <- S. unfold same_points. split; intros X p; specialize (X p).
    - apply eq_true_iff_eq. rewrite !contains_point_covers. exact X.
    - rewrite <- !contains_point_covers, X. reflexivity.
  Qed.
  (** also for invalid intervals, the fields decide *)
  Theorem C103_equality_of_ends : forall ieq a b, eq_agrees ieq ->
    (interval_eqb ieq a b = true <-> cmp (istart a) (istart b) = Eq /\ cmp (iend a) (iend b) = Eq).
  Proof. intros ieq a b E. unfold eq_agrees in E. unfold interval_eqb. rewrite andb_true_iff, !E. reflexivity. Qed.
  Theorem C103_equivalence : forall ieq a b c, eq_agrees ieq ->
    interval_eqb ieq a a = true /\ interval_eqb ieq a b = interval_eqb ieq b a /\
    (interval_eqb ieq a b = true -> interval_eqb ieq b c = true -> interval_eqb ieq a c = true).
  Proof.
    intros ieq a b c E. unfold eq_agrees in E. split; [|split].
    - unfold interval_eqb. rewrite andb_true_iff, !E, !rk_eq. auto.
    - apply eq_true_iff_eq. unfold interval_eqb. rewrite !andb_true_iff, !E, !rk_eq. intuition congruence.
    - unfold interval_eqb. rewrite !andb_true_iff, !E, !rk_eq. intuition congruence.
  Qed.
  (** Equal intervals hash alike, if equal points do. *)
  Theorem C103_equal_intervals_hash_alike : forall ieq {W : Type} (feed : I -> list W) a b,
    (forall p q, ieq p q = true -> feed p = feed q) -> interval_eqb ieq a b = true -> interval_hash feed a = interval_hash feed b.
  Proof.
    intros ieq W feed a b F. unfold interval_eqb, interval_hash. rewrite andb_true_iff. intros [A B].
    rewrite (F _ _ A), (F _ _ B). reflexivity.
  Qed.
  (** and different ones differently, when different points do and no point's
      writes begin another's *)
  Theorem C103_different_intervals_hash_differently : forall ieq {W : Type} (feed : I -> list W) a b,
    (forall p q, feed p = feed q -> ieq p q = true) -> (forall p q t, feed p = feed q ++ t -> t = []) ->
    interval_hash feed a = interval_hash feed b -> interval_eqb ieq a b = true.
  Proof.
    intros ieq W feed a b F P. unfold interval_hash, interval_eqb. intros E.
    assert (X : feed (ivl_start a) = feed (ivl_start b)).
    { apply app_eq_app in E. destruct E as (t & [[E1 E2]|[E1 E2]]); pose proof (P _ _ _ E1) as ->; rewrite app_nil_r in E1; congruence. }
    rewrite X in E. apply app_inv_head in E. rewrite andb_true_iff. auto.
  Qed.
End Props.

(** ** Examples: the hypotheses are met, non-trivially; and what [==] on the
    points means for the containers: [C80_set_equality] and [C81] apply to
    [Interval]'s own [==]. *)
Example ex_C103_u8 : eq_agrees (I := u8) eqb.
Proof. intros p q. unfold eqb. destruct (cmp p q); split; congruence. Qed.
Example ex_C103_hash : interval_eqb eqb (2 --> 5) (2 --> 6) = false /\
  interval_hash (fun p : u8 => [ival p]) (2 --> 5) = [2; 5]%Z /\ interval_eqb eqb (2 --> 5) (2 --> 5) = true.
Proof. vm_compute. auto. Qed.
Theorem C103_containers : forall {I : Type} {OI : Ord I} {DI : DiscreteFinite I} {PL : PointLaws I} ieq (os os' : list (set_op I (Interval I))),
  eq_agrees ieq -> Forall merging os -> Forall merging os' ->
  (set_eqb (interval_eqb ieq) (set_run os) (set_run os') = true <->
   forall p, set_contains_point (set_run os) p = set_contains_point (set_run os') p).
Proof.
  intros I OI DI PL ieq os os' E M M'. apply C80_set_equality; [|assumption..].
  intros k k' V V'. rewrite (C103_equality ieq k k' E V V'). unfold same_points. split; intros X p; specialize (X p).
  - rewrite <- !contains_point_covers, X. reflexivity.
  - apply eq_true_iff_eq. rewrite !contains_point_covers. exact X.
Qed.
Print Assumptions C103_equality.
Print Assumptions C103_equality_of_ends.
Print Assumptions C103_equivalence.
Print Assumptions C103_equal_intervals_hash_alike.
Print Assumptions C103_different_intervals_hash_differently.
Print Assumptions C103_containers.
