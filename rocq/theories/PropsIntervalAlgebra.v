(** * PropsIntervalAlgebra: the laws of Interval's methods among each other (C123) and of
      [translate] (C124). *)
From Coq Require Import List ZArith Bool Lia ZifyBool.
From Verif Require Import Base UtilsModel IntervalModel Spec InstancesModel Instances PointFacts IntervalFacts IntervalProofs IntervalRelease.
Import ListNotations.
Open Scope Z_scope.

Section Algebra.
  Context {I : Type} `{PL : PointLaws I} {OL : OrdLaws I}.
  Implicit Types (i j k : Interval I) (p : I).

  Lemma interval_eq i j : rk (istart i) = rk (istart j) -> rk (iend i) = rk (iend j) -> i = j.
  Proof. intros A B. apply rk_inj in A, B. destruct i, j. cbn in *. congruence. Qed.
  Lemma intersection_cases i j :
    (exists x, intersection i j = Some x /\ rk (istart x) = Z.max (rk (istart i)) (rk (istart j)) /\
       rk (iend x) = Z.min (rk (iend i)) (rk (iend j)) /\ rk (istart x) <= rk (iend x)) \/
    (intersection i j = None /\ Z.min (rk (iend i)) (rk (iend j)) < Z.max (rk (istart i)) (rk (istart j))).
  Proof.
    unfold intersection. rewrite leb_rk, omax_rk, omin_rk.
    destruct (Z.leb_spec (Z.max (rk (istart i)) (rk (istart j))) (Z.min (rk (iend i)) (rk (iend j)))) as [L|L]; [left|right; auto].
    eexists. split; [reflexivity|]. cbn. rewrite omax_rk, omin_rk. auto.
  Qed.

  (** ** C123 *)
  (** [intersection] is commutative, associative and idempotent, ... *)
  Theorem C123_intersection_commutes : forall i j, intersection i j = intersection j i.
  Proof.
    intros i j. destruct (intersection_cases i j) as [(x & -> & A & B & L)|[-> L]], (intersection_cases j i) as [(y & -> & A' & B' & L')|[-> L']];
      [|lia|lia|reflexivity]. f_equal. apply interval_eq; lia.
  Qed.
  Definition meet (a b : option (Interval I)) : option (Interval I) :=
    match a, b with Some i, Some j => intersection i j | _, _ => None end.
  Theorem C123_intersection_associates : forall i j k, meet (intersection i j) (Some k) = meet (Some i) (intersection j k).
  Proof.
    intros i j k. destruct (intersection_cases i j) as [(x & -> & A & B & L)|[-> L]], (intersection_cases j k) as [(y & -> & A' & B' & L')|[-> L']];
      cbn [meet].
    - destruct (intersection_cases x k) as [(u & -> & A1 & B1 & L1)|[-> L1]], (intersection_cases i y) as [(w & -> & A2 & B2 & L2)|[-> L2]];
        [|lia|lia|reflexivity]. f_equal. apply interval_eq; lia.
    - destruct (intersection_cases x k) as [(u & -> & A1 & B1 & L1)|[-> L1]]; [lia|reflexivity].
    - destruct (intersection_cases i y) as [(w & -> & A2 & B2 & L2)|[-> L2]]; [lia|reflexivity].
    - reflexivity.
  Qed.
  Theorem C123_intersection_idempotent : forall i, valid i -> intersection i i = Some i.
  Proof.
    intros i V. apply valid_rk in V. unfold IntervalFacts.lo, IntervalFacts.hi in V. destruct (intersection_cases i i) as [(x & -> & A & B & L)|[-> L]]; [|lia]. f_equal. apply interval_eq; lia.
  Qed.
  (** ... [contains_interval] is the order that goes with it, ... *)
  Theorem C123_contains_iff_intersection : forall i j, valid j -> (contains_interval i j = true <-> intersection i j = Some j).
  Proof.
    intros i j V. apply valid_rk in V. unfold IntervalFacts.lo, IntervalFacts.hi in V. unfold contains_interval. rewrite leb_rk, geb_rk, andb_true_iff.
    destruct (intersection_cases i j) as [(x & -> & A & B & L)|[-> L]].
    - split; [intros C; f_equal; apply interval_eq; lia|]. intros E. injection E as ->. lia.
    - split; [lia|discriminate].
  Qed.
  Theorem C123_contains_reflexive : forall i, contains_interval i i = true.
  Proof. intros i. unfold contains_interval. rewrite leb_rk, geb_rk. lia. Qed.
  Theorem C123_contains_transitive : forall i j k, contains_interval i j = true -> contains_interval j k = true -> contains_interval i k = true.
  Proof. intros i j k. unfold contains_interval. rewrite !leb_rk, !geb_rk. lia. Qed.
  Theorem C123_contains_antisymmetric : forall i j, contains_interval i j = true -> contains_interval j i = true -> i = j.
  Proof. intros i j. unfold contains_interval. rewrite !leb_rk, !geb_rk. intros A B. apply interval_eq; lia. Qed.
  (** ... the intersection being the largest interval in both. *)
  Theorem C123_largest_common : forall i j x, intersection i j = Some x ->
    contains_interval i x = true /\ contains_interval j x = true /\
    forall k, contains_interval i k = true -> contains_interval j k = true -> contains_interval x k = true.
  Proof.
    intros i j x E. destruct (intersection_cases i j) as [(x' & E' & A & B & L)|[E' _]]; rewrite E in E'; [|discriminate]. injection E' as <-.
    unfold contains_interval. rewrite !leb_rk, !geb_rk. split; [lia|]. split; [lia|]. intros k. rewrite !leb_rk, !geb_rk. lia.
  Qed.
  (** [overlaps] says whether there is one; [contains_point] and [is_singular] are about
      intervals with one point. *)
  Theorem C123_overlaps_iff_intersection : forall i j, valid i -> valid j ->
    overlaps i j = Val (match intersection i j with Some _ => true | None => false end).
  Proof.
    intros i j V1 V2. apply valid_rk in V1, V2. rewrite overlaps_true by assumption. f_equal. unfold IntervalFacts.lo, IntervalFacts.hi in *.
    destruct (intersection_cases i j) as [(x & -> & A & B & L)|[-> L]]; lia.
  Qed.
  Theorem C123_contains_point_iff : forall i p,
    contains_point i p = contains_interval i (mkInterval p p) /\ is_singular (mkInterval p p) = true /\
    (contains_point i p = true <-> intersection i (mkInterval p p) = Some (mkInterval p p)).
  Proof.
    intros i p. assert (E : contains_point i p = contains_interval i (mkInterval p p)).
    { unfold contains_point, contains_interval. rewrite !leb_rk, !geb_rk. reflexivity. }
    split; [exact E|]. split; [unfold is_singular; rewrite eqb_rk; cbn; apply Z.eqb_refl|].
    rewrite E. apply C123_contains_iff_intersection. apply valid_rk. unfold IntervalFacts.lo, IntervalFacts.hi. cbn. lia.
  Qed.
  Theorem C123_singular_iff : forall i, valid i -> (is_singular i = true <-> forall j, valid j -> contains_interval i j = true -> j = i).
  Proof.
    intros i V. apply valid_rk in V. unfold IntervalFacts.lo, IntervalFacts.hi in V. unfold is_singular. rewrite eqb_rk. split.
    - intros E j Vj. apply valid_rk in Vj. unfold IntervalFacts.lo, IntervalFacts.hi in Vj. unfold contains_interval. rewrite leb_rk, geb_rk. intros C. apply interval_eq; lia.
    - intros F. assert (E : mkInterval (istart i) (istart i) = i).
      { apply F; [apply valid_rk; unfold IntervalFacts.lo, IntervalFacts.hi; cbn; lia|]. unfold contains_interval. rewrite leb_rk, geb_rk. cbn in *. lia. }
      rewrite <- E at 2. cbn. apply Z.eqb_refl.
  Qed.
End Algebra.

(** ** C124: [add_debug] panics on overflow, [add_release] wraps around. *)
Section Translate.
  Context {lo hi : Z} `{IntType lo hi}.
  Implicit Types (i j : Interval (int lo hi)) (a b d p : int lo hi).

  Lemma checked_iff z (x : int lo hi) : checked z = Val x <-> ival x = z.
  Proof.
    unfold checked. rewrite <- of_Z_some. destruct (of_Z z) as [y|]; [|split; discriminate]. split; intros E; injection E as ->; reflexivity.
  Qed.
  Lemma translate_iff i d j : translate add_debug i d = Val j <->
    ival (istart j) = ival (istart i) + ival d /\ ival (iend j) = ival (iend i) + ival d.
  Proof.
    unfold translate, add_debug. split.
    - destruct (checked (ival (istart i) + ival d)) as [s|] eqn:E1; [|discriminate]. destruct (checked (ival (iend i) + ival d)) as [e|] eqn:E2; [|discriminate].
      apply checked_iff in E1, E2. cbn. intros E. injection E as <-. cbn. auto.
    - intros [A B]. apply checked_iff in A, B. rewrite A, B. cbn. destruct j. reflexivity.
  Qed.
  Lemma wrapping_iff z (x : int lo hi) : wrapping z = Val x <-> ival x = wrap_Z (lo := lo) (hi := hi) z.
  Proof.
    destruct (wrapping_val (lo := lo) (hi := hi) z) as (y & E & V). rewrite E. split; [intros X; injection X as <-; exact V|].
    intros X. f_equal. apply int_eq. congruence.
  Qed.
  Lemma translate_release_iff i d j : translate add_release i d = Val j <->
    ival (istart j) = wrap_Z (lo := lo) (hi := hi) (ival (istart i) + ival d) /\ ival (iend j) = wrap_Z (lo := lo) (hi := hi) (ival (iend i) + ival d).
  Proof.
    unfold translate, add_release. split.
    - destruct (wrapping (ival (istart i) + ival d)) as [s|] eqn:E1; [|discriminate]. destruct (wrapping (ival (iend i) + ival d)) as [e|] eqn:E2; [|discriminate].
      apply wrapping_iff in E1, E2. cbn. intros E. injection E as <-. cbn. auto.
    - intros [A B]. apply wrapping_iff in A, B. rewrite A, B. cbn. destruct j. reflexivity.
  Qed.
  Lemma wrap_in x : wrap_Z (lo := lo) (hi := hi) (ival (x : int lo hi)) = ival x.
  Proof. pose proof (int_range x). unfold wrap_Z. rewrite Z.mod_small; lia. Qed.
  Lemma wrap_wrap x y : wrap_Z (lo := lo) (hi := hi) (wrap_Z (lo := lo) (hi := hi) x + y) = wrap_Z (lo := lo) (hi := hi) (x + y).
  Proof.
    unfold wrap_Z. f_equal. replace (lo + (x - lo) mod (hi - lo + 1) + y - lo) with ((x - lo) mod (hi - lo + 1) + y) by lia.
    rewrite Zplus_mod_idemp_l. f_equal. lia.
  Qed.

  (** Translating by 0 changes nothing; translating twice is translating by the sum. *)
  Theorem C124_zero : forall i d, ival d = 0 -> translate add_debug i d = Val i /\ translate add_release i d = Val i.
  Proof.
    intros i d E. rewrite translate_iff, translate_release_iff, E, !Z.add_0_r, !wrap_in. auto.
  Qed.
  Theorem C124_twice_debug : forall i j a b d, ival d = ival a + ival b -> translate add_debug i a = Val j ->
    translate add_debug j b = translate add_debug i d.
  Proof.
    intros i j a b d E T. apply translate_iff in T. unfold translate, add_debug.
    replace (ival (istart j) + ival b) with (ival (istart i) + ival d) by lia.
    replace (ival (iend j) + ival b) with (ival (iend i) + ival d) by lia. reflexivity.
  Qed.
  Theorem C124_twice_release : forall i j a b d, add_release a b = Val d -> translate add_release i a = Val j ->
    translate add_release j b = translate add_release i d.
  Proof.
    intros i j a b d E T. apply translate_release_iff in T. unfold add_release in E. apply wrapping_iff in E.
    destruct T as [T1 T2]. unfold translate, add_release, wrapping.
    rewrite T1, T2, E, !wrap_wrap.
    rewrite (Z.add_comm (ival (istart i)) (wrap_Z _)), (Z.add_comm (ival (iend i)) (wrap_Z _)), !wrap_wrap.
    replace (ival a + ival b + ival (istart i)) with (ival (istart i) + ival a + ival b) by lia.
    replace (ival a + ival b + ival (iend i)) with (ival (iend i) + ival a + ival b) by lia. reflexivity.
  Qed.
  (** The opposite translation undoes it. *)
  Theorem C124_undo : forall i j a b, ival b = - ival a -> translate add_debug i a = Val j -> translate add_debug j b = Val i.
  Proof. intros i j a b E T. apply translate_iff in T. apply translate_iff. lia. Qed.
  (** [sub_release 0 a] is the opposite in a release build, also of numbers without one. *)
  Theorem C124_undo_release : forall i j z a b, ival z = 0 -> sub_release z a = Val b -> translate add_release i a = Val j ->
    translate add_release j b = Val i.
  Proof.
    intros i j z a b Z0 E T. unfold sub_release in E. apply wrapping_iff in E. rewrite Z0 in E. apply translate_release_iff in T. destruct T as [T1 T2].
    apply translate_release_iff. rewrite T1, T2, E, !wrap_wrap.
    rewrite (Z.add_comm (ival (istart i) + ival a)), (Z.add_comm (ival (iend i) + ival a)), !wrap_wrap.
    replace (0 - ival a + (ival (istart i) + ival a)) with (ival (istart i)) by lia.
    replace (0 - ival a + (ival (iend i) + ival a)) with (ival (iend i)) by lia. rewrite !wrap_in. auto.
  Qed.
  (** Where nothing overflows, it commutes with everything else. *)
  Lemma cmp_shift (x y x' y' d : int lo hi) : ival x' = ival x + ival d -> ival y' = ival y + ival d -> cmp x' y' = cmp x y.
  Proof. intros A B. cbn. rewrite A, B. destruct (Z.compare_spec (ival x + ival d) (ival y + ival d)), (Z.compare_spec (ival x) (ival y)); lia || reflexivity. Qed.
  Theorem C124_points : forall i i' d p p', translate add_debug i d = Val i' -> add_debug p d = Val p' ->
    contains_point i' p' = contains_point i p.
  Proof.
    intros i i' d p p' T P. apply translate_iff in T. apply checked_iff in P. destruct T as [T1 T2]. unfold contains_point, geb, leb.
    rewrite (cmp_shift _ _ _ _ _ P T1), (cmp_shift _ _ _ _ _ P T2). reflexivity.
  Qed.
  Theorem C124_predicates : forall i j i' j' d, translate add_debug i d = Val i' -> translate add_debug j d = Val j' ->
    contains_interval i' j' = contains_interval i j /\ overlaps i' j' = overlaps i j /\
    is_singular i' = is_singular i /\ width sub_debug i' = width sub_debug i.
  Proof.
    intros i j i' j' d T T'. apply translate_iff in T, T'. destruct T as [T1 T2], T' as [T1' T2'].
    split; [unfold contains_interval, leb, geb; rewrite (cmp_shift _ _ _ _ _ T1 T1'), (cmp_shift _ _ _ _ _ T2 T2'); reflexivity|].
    split.
    { unfold overlaps, sorted_config, config, utils_contains_point, cmp_point_with_interval, inclusive_comp, ltb, gtb.
      rewrite ?(cmp_shift _ _ _ _ _ T1 T1'), ?(cmp_shift _ _ _ _ _ T1' T1), ?(cmp_shift _ _ _ _ _ T1' T2), ?(cmp_shift _ _ _ _ _ T2' T1), ?(cmp_shift _ _ _ _ _ T2' T2),
        ?(cmp_shift _ _ _ _ _ T1 T2'), ?(cmp_shift _ _ _ _ _ T2 T1'), ?(cmp_shift _ _ _ _ _ T2 T2').
      repeat (match goal with |- context [cmp ?a ?b] => destruct (cmp a b) end; cbv beta iota; try reflexivity). }
    split; [unfold is_singular, eqb; rewrite (cmp_shift _ _ _ _ _ T1 T2); reflexivity|].
    unfold width, sub_debug. f_equal. lia.
  Qed.
  Theorem C124_intersection : forall i j i' j' d, translate add_debug i d = Val i' -> translate add_debug j d = Val j' ->
    match intersection i j with
    | Some x => exists x', translate add_debug x d = Val x' /\ intersection i' j' = Some x'
    | None => intersection i' j' = None
    end.
  Proof.
    intros i j i' j' d T T'. apply translate_iff in T, T'. destruct T as [T1 T2], T' as [T1' T2'].
    unfold intersection.
    assert (A : ival (omax (istart i') (istart j')) = ival (omax (istart i) (istart j)) + ival d).
    { unfold omax. rewrite (cmp_shift _ _ _ _ _ T1 T1'). destruct (cmp (istart i) (istart j)); assumption. }
    assert (B : ival (omin (iend i') (iend j')) = ival (omin (iend i) (iend j)) + ival d).
    { unfold omin. rewrite (cmp_shift _ _ _ _ _ T2 T2'). destruct (cmp (iend i) (iend j)); assumption. }
    unfold leb. rewrite (cmp_shift _ _ _ _ _ A B). destruct (cmp (omax (istart i) (istart j)) (omin (iend i) (iend j))); try reflexivity;
      (eexists; split; [|reflexivity]; apply translate_iff; split; [exact A|exact B]).
  Qed.
End Translate.

(** ** Instances of the hypotheses *)
Example C123_used :
  intersection (1 --> 9 : Interval u8) (4 --> 20 : Interval u8) = Some (4 --> 9) /\
  meet (intersection (1 --> 9 : Interval u8) (4 --> 20 : Interval u8)) (Some (7 --> 30)) = Some (7 --> 9) /\
  contains_interval (1 --> 9 : Interval u8) (4 --> 7 : Interval u8) = true /\
  overlaps (1 --> 9 : Interval u8) (10 --> 20 : Interval u8) = Val false /\
  is_singular (5 --> 5 : Interval u8) = true.
Proof. vm_compute. repeat split. Qed.
Example C124_used :
  translate add_debug (1 --> 9 : Interval u8) '5 = Val (6 --> 14) /\
  translate add_debug (6 --> 14 : Interval u8) '10 = Val (16 --> 24) /\
  translate add_debug (1 --> 9 : Interval u8) '15 = Val (16 --> 24) /\
  (sub_release '0 '5 : outcome u8) = Val '251 /\
  translate add_release (6 --> 14 : Interval u8) '251 = Val (1 --> 9) /\
  translate add_debug (6 --> 14 : Interval u8) '251 = Panic.
Proof. vm_compute. repeat split. Qed.

Print Assumptions C123_intersection_commutes.
Print Assumptions C123_intersection_associates.
Print Assumptions C123_intersection_idempotent.
Print Assumptions C123_contains_iff_intersection.
Print Assumptions C123_contains_reflexive.
Print Assumptions C123_contains_transitive.
Print Assumptions C123_contains_antisymmetric.
Print Assumptions C123_largest_common.
Print Assumptions C123_overlaps_iff_intersection.
Print Assumptions C123_contains_point_iff.
Print Assumptions C123_singular_iff.
Print Assumptions C124_zero.
Print Assumptions C124_twice_debug.
Print Assumptions C124_twice_release.
Print Assumptions C124_undo.
Print Assumptions C124_undo_release.
Print Assumptions C124_points.
Print Assumptions C124_predicates.
Print Assumptions C124_intersection.
