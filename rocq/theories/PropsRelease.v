(** * PropsRelease: what [translate] and [width] do in release builds, exactly
      (C60, C61).  [lo ..= hi] is the range of the integer type;
      [wrapped lo hi z] is [z] brought back into that range by adding or
      subtracting the number of values of the type once. *)
From Coq Require Import List ZArith Bool Lia.
From Verif Require Import Base IntervalModel UtilsModel Spec InstancesModel Instances PointFacts IntervalFacts IntervalProofs IntervalRelease RepoTests.
Import ListNotations.
Open Scope Z_scope.

Section Props.
  Context {lo hi : Z} `{IntType lo hi}.
  Context {K : Type} {IK : InclusiveInterval (int lo hi) K} {IL : IntervalLaws (int lo hi) K} {FI : FromInvalid (int lo hi) K}.
  Implicit Types (k : K) (d w : int lo hi).

  (** ** C60: "[translate] and [width] give a result for every valid interval,
      the result of [translate] is a valid interval of the same width, and
      [width] is never negative".  In a release build there is always a result.
      Missing: [translate] gives a valid interval exactly when both ends
      overflow or neither does, and then it keeps the distance of the ends;
      [width] is the distance of the ends exactly when that fits. *)
  Theorem C60_translate_release_valid_partial : forall k d, lo <= 0 <= hi -> valid k ->
    (lo <= ival (istart k) + ival d <= hi <-> lo <= ival (iend k) + ival d <= hi) ->
    exists k', translate add_release k d = Val k' /\ valid k' /\
      ival (istart k') = wrapped lo hi (ival (istart k) + ival d) /\
      ival (iend k') = wrapped lo hi (ival (iend k) + ival d) /\
      ival (iend k') - ival (istart k') = ival (iend k) - ival (istart k).
  Proof. exact translate_release_together. Qed.
  Theorem C60_translate_release_invalid_partial : forall k d, lo <= 0 <= hi -> valid k ->
    ~ (lo <= ival (istart k) + ival d <= hi <-> lo <= ival (iend k) + ival d <= hi) ->
    exists k', translate add_release k d = Val k' /\ ~ valid k'.
  Proof. exact translate_release_apart. Qed.
  Theorem C60_width_release_partial : forall k, lo <= 0 <= hi -> valid k ->
    exists w, width sub_release k = Val w /\
      (ival (iend k) - ival (istart k) <= hi -> ival w = ival (iend k) - ival (istart k)) /\
      (hi < ival (iend k) - ival (istart k) -> ival w = ival (iend k) - ival (istart k) - (hi - lo + 1) /\ ival w < 0).
  Proof.
    intros k L Vk. destruct (width_release_val k L) as (w & E & V). exists w. split; [exact E|]. apply valid_int in Vk.
    pose proof (int_range (istart k)). pose proof (int_range (iend k)). rewrite V. unfold wrapped.
    destruct (Z.ltb_spec (ival (iend k) - ival (istart k)) lo); destruct (Z.ltb_spec hi (ival (iend k) - ival (istart k))); lia.
  Qed.
  (** In a debug build [translate] and [width] give a result exactly when
      nothing overflows. *)
  Theorem C60_debug_iff_partial : forall k d, lo <= 0 -> valid k ->
    (translate add_debug k d <> Panic <-> lo <= ival (istart k) + ival d /\ ival (iend k) + ival d <= hi) /\
    (width sub_debug k <> Panic <-> ival (iend k) - ival (istart k) <= hi).
  Proof.
    intros k d L Vk. split; split.
    - intros E. destruct (Z_le_dec lo (ival (istart k) + ival d)); [destruct (Z_le_dec (ival (iend k) + ival d) hi)|]; try (split; assumption);
        exfalso; apply E, translate_overflows; try assumption; lia.
    - intros [E1 E2]. destruct (translate_fits k d Vk E1 E2) as (k' & E & _). congruence.
    - intros E. destruct (Z_le_dec (ival (iend k) - ival (istart k)) hi); [assumption|]. exfalso. apply E, width_overflows. lia.
    - intros E1. destruct (width_fits k Vk E1 L) as (w & E & _). congruence.
  Qed.
End Props.

(** The width reported in a release build survives every translation of an
    [Interval], also one that gives an invalid interval. *)
Theorem C60_translate_release_keeps_width_partial : forall lo hi (T : IntType lo hi) (i : Interval (int lo hi)) d,
  exists j, translate add_release i d = Val j /\ width sub_release j = width sub_release i.
Proof.
  intros lo hi T i d. destruct (wrapping_val (ival (istart i) + ival d)) as (s & Es & _).
  destruct (wrapping_val (ival (iend i) + ival d)) as (e & Ee & _).
  assert (E : translate add_release i d = Val (mkInterval s e)) by (unfold translate, add_release; rewrite Es, Ee; reflexivity).
  exists (mkInterval s e). split; [exact E|]. apply (translate_release_width _ _ _ E).
Qed.
Example C60_release_example :
  translate add_release (250 --> 252 : Interval u8) '10 = Val (4 --> 6) /\
  translate add_release (250 --> 252 : Interval u8) '4 = Val (254 --> 0) /\
  translate add_release ((-127) --> (-100) : Interval i8) ('(-100)) = Val (29 --> 56) /\
  width sub_release (254 --> 0 : Interval u8) = width sub_release (250 --> 252 : Interval u8) /\
  width sub_release (254 --> 0 : Interval u8) = Val '2 /\
  width sub_release ((-100) --> 100 : Interval i8) = Val ('(-56)) /\
  (0 <= 250 + 10 <= 255 <-> 0 <= 252 + 10 <= 255) /\ ~ (0 <= 250 + 4 <= 255 <-> 0 <= 252 + 4 <= 255).
Proof. do 6 (split; [vm_compute; reflexivity|]). lia. Qed.

(** ** C61: "every [Interval] obtained by translating a valid one is valid": in
    a release build exactly when both ends overflow or neither does; and one
    obtained by deserializing exactly when the serialized ends are in order. *)
Theorem C61_translated_interval_release_partial : forall lo hi (T : IntType lo hi) (i j : Interval (int lo hi)) d,
  lo <= 0 <= hi -> valid i -> translate add_release i d = Val j ->
  (valid j <-> (lo <= ival (istart i) + ival d <= hi <-> lo <= ival (iend i) + ival d <= hi)).
Proof.
  intros lo hi T i j d L Vi E. destruct (translate_release_val i d L) as (s & e & E' & Vs & Ve).
  assert (j = mkInterval s e) as -> by (rewrite E' in E; injection E as <-; reflexivity).
  rewrite valid_int. cbn [istart iend Interval_InclusiveInterval ivl_start ivl_end]. rewrite Vs, Ve.
  apply wrapped_order; [exact L|]. exact (proj1 (valid_int i) Vi).
Qed.
Theorem C61_deserialized_interval_partial : forall (I : Type) (OI : Ord I) (DI : DiscreteFinite I) (PL : PointLaws I) (s e : I),
  valid (interval_deserialize s e) <-> ple s e.
Proof.
  intros I OI DI PL s e. rewrite valid_rk, ple_rk. reflexivity.
Qed.
Example C61_release_example :
  translate add_release (250 --> 255 : Interval u8) '6 = Val (0 --> 5) /\
  translate add_release (250 --> 255 : Interval u8) '5 = Val (255 --> 4) /\
  is_valid (interval_deserialize (I := u8) '3 '9) = true /\ is_valid (interval_deserialize (I := u8) '9 '3) = false.
Proof. vm_compute. repeat split; reflexivity. Qed.
Print Assumptions C60_translate_release_valid_partial.
Print Assumptions C60_translate_release_invalid_partial.
Print Assumptions C60_width_release_partial.
Print Assumptions C60_debug_iff_partial.
Print Assumptions C60_translate_release_keeps_width_partial.
Print Assumptions C61_translated_interval_release_partial.
Print Assumptions C61_deserialized_interval_partial.
