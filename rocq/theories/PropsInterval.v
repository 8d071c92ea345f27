(** * PropsInterval: interval constructors, predicates, conversions and the
      provided point types (C23-C27, C54, C55, C59-C61). *)
From Coq Require Import List ZArith Bool Lia ZifyBool.
From Verif Require Import Base UtilsModel IntervalModel NoditModel NoditOps Spec InstancesModel Instances
  PointFacts IntervalFacts NoditFacts NoditQueries NoditInv IntervalProofs.
Import ListNotations.
Open Scope Z_scope.

Section Props.
  Context {I : Type} `{PL : PointLaws I}.
  Implicit Types (a b p : I) (i : Interval I).

  (** ** C23: [builds o P] (Spec): [o] is the interval with exactly the points [P]
      if there are any, and a panic otherwise. *)
  Theorem C23_uu : builds uu (fun _ : I => True).
  Proof. exact uu_builds. Qed.
  Theorem C23_ui : forall b, builds (ui b) (fun p => ple p b).
  Proof. exact ui_builds. Qed.
  Theorem C23_ue : forall b, builds (ue b) (fun p => plt p b).
  Proof. exact ue_builds. Qed.
  Theorem C23_iu : forall a, builds (iu a) (fun p => ple a p).
  Proof. exact iu_builds. Qed.
  Theorem C23_eu : forall a, builds (eu a) (fun p => plt a p).
  Proof. exact eu_builds. Qed.
  Theorem C23_ii : forall a b, builds (ii a b) (fun p => ple a p /\ ple p b).
  Proof. exact ii_builds. Qed.
  Theorem C23_ie : forall a b, builds (ie a b) (fun p => ple a p /\ plt p b).
  Proof. exact ie_builds. Qed.
  Theorem C23_ei : forall a b, builds (ei a b) (fun p => plt a p /\ ple p b).
  Proof. exact ei_builds. Qed.
  Theorem C23_ee : forall a b, builds (ee a b) (fun p => plt a p /\ plt p b).
  Proof. exact ee_builds. Qed.
  Example C23_example : (ee '3 '5 : outcome (Interval u8)) = Val (4 --> 4) /\
    (ee '3 '4 : outcome (Interval u8)) = Panic /\ (ue '0 : outcome (Interval u8)) = Panic /\
    (ei '255 '255 : outcome (Interval u8)) = Panic /\ (uu : outcome (Interval u8)) = Val (0 --> 255).
  Proof. vm_compute. repeat split; reflexivity. Qed.

  (** ** C24 *)
  Section Pair.
    Context {A B : Type} {IA : InclusiveInterval I A} {IB : InclusiveInterval I B}.
    Theorem C24_contains_point : forall (k : A) p, contains_point k p = true <-> covers k p.
    Proof. intros k p. rewrite contains_point_true, covers_rk. lia. Qed.
    Theorem C24_is_valid : forall k : A, is_valid k = true <-> valid k.
    Proof. exact is_valid_true. Qed.
    Theorem C24_contains_interval : forall (k : A) (q : B), valid q ->
      (contains_interval k q = true <-> forall p, covers q p -> covers k p).
    Proof. exact contains_interval_spec. Qed.
    Theorem C24_is_singular : forall k : A, valid k -> (is_singular k = true <-> singular k).
    Proof. exact is_singular_spec. Qed.
    Theorem C24_overlaps : forall (k : A) (q : B), valid k -> valid q ->
      exists r, overlaps k q = Val r /\ (r = true <-> overlap k q).
    Proof. exact overlaps_spec. Qed.
    Theorem C24_overlaps_symmetric : forall (k : A) (q : B), valid k -> valid q -> overlaps k q = overlaps q k.
    Proof.
      intros k q Vk Vq. apply valid_rk in Vk, Vq. rewrite !overlaps_true by assumption. f_equal. lia.
    Qed.
    Context {LA : IntervalLaws I A}.
    Theorem C24_intersection_Some : forall (k : A) (q : B), overlap k q ->
      exists r, intersection k q = Some r /\ forall p, covers r p <-> covers k p /\ covers q p.
    Proof. exact intersection_Some. Qed.
    Theorem C24_intersection_None : forall (k : A) (q : B), ~ overlap k q -> intersection k q = None.
    Proof. exact intersection_None. Qed.
    Context {LB : IntervalLaws I B}.
    Theorem C24_intersection_symmetric : forall (k : A) (q : B),
      (intersection k q = None <-> intersection q k = None) /\
      (forall r s, intersection k q = Some r -> intersection q k = Some s -> forall p, covers r p <-> covers s p).
    Proof.
      intros k q. destruct (overlap_dec2 k q) as [O|O].
      - assert (O' : overlap q k) by (destruct O as (p & P1 & P2); exists p; auto).
        destruct (intersection_Some k q O) as (r & -> & Hr).
        destruct (intersection_Some q k O') as (s & -> & Hs).
        split; [split; discriminate|]. intros r' s' E1 E2 p. injection E1 as <-. injection E2 as <-.
        rewrite Hr, Hs. tauto.
      - assert (O' : ~ overlap q k) by (intros (p & P1 & P2); apply O; exists p; auto).
        rewrite !intersection_None by assumption. split; [tauto|discriminate].
    Qed.
  End Pair.
  Example C24_example : overlaps (2 --> 5 : Interval u8) (5 --> 9 : Interval u8) = Val true /\
    overlaps (2 --> 4 : Interval u8) (5 --> 9 : Interval u8) = Val false /\
    intersection (2 --> 5 : Interval u8) (4 --> 9 : Interval u8) = Some (4 --> 5) /\
    contains_interval (2 --> 5 : Interval u8) (3 --> 5 : Interval u8) = true /\
    is_singular (5 --> 5 : Interval u8) = true /\ is_valid (5 --> 4 : Interval u8) = false.
  Proof. vm_compute. repeat split; reflexivity. Qed.

  (** ** C25 *)
  Theorem C25_from_range_inclusive : forall r : RangeInclusive I,
    builds (interval_from_range_inclusive r) (fun p => ple (ri_start r) p /\ ple p (ri_end r)).
  Proof. exact from_ri_builds. Qed.
  Theorem C25_from_range : forall r : Range I,
    builds (interval_from_range r) (fun p => ple (r_start r) p /\ plt p (r_end r)).
  Proof. exact from_r_builds. Qed.
  Theorem C25_to_range_inclusive : forall i p,
    ple (ri_start (range_inclusive_from i)) p /\ ple p (ri_end (range_inclusive_from i)) <-> covers i p.
  Proof. intros i p. reflexivity. Qed.
  Theorem C25_range_inclusive_round_trip : forall i, valid i ->
    interval_from_range_inclusive (range_inclusive_from i) = Val i.
  Proof. exact ri_round_trip. Qed.
  (** [cmp x MAX = Eq] is [x = MAX] for points where only identical ones compare Equal. *)
  Theorem C25_range_round_trip : forall i, valid i -> cmp (iend i) MAX <> Eq ->
    exists r j, range_from i = Val r /\ (forall p, ple (r_start r) p /\ plt p (r_end r) <-> covers i p) /\
      interval_from_range r = Val j /\ istart j = istart i /\ cmp (iend j) (iend i) = Eq.
  Proof. exact range_round_trip. Qed.
  Theorem C25_range_round_trip_identity : forall {OL : OrdLaws I} i, valid i -> iend i <> MAX ->
    exists r, range_from i = Val r /\ interval_from_range r = Val i.
  Proof.
    intros OL i Vi Hm. destruct (range_round_trip i Vi) as (r & j & E & _ & E' & E1 & E2).
    - intros X. apply Hm, cmp_eq, X.
    - exists r. split; [exact E|]. rewrite E'. apply cmp_eq in E2. destruct i, j. cbn in *. congruence.
  Qed.
  Theorem C25_range_panics_exactly_at_MAX : forall i, range_from i = Panic <-> cmp (iend i) MAX = Eq.
  Proof. exact range_from_Panic. Qed.
  Theorem C25_bounds : forall i p, covers i p <->
    match start_bound i with Included s => ple s p | Excluded s => plt s p | Unbounded => True end /\
    match end_bound i with Included e => ple p e | Excluded e => plt p e | Unbounded => True end.
  Proof. intros i p. reflexivity. Qed.
  Example C25_example : range_from (3 --> 254 : Interval u8) = Val (mkRange '3 '255) /\
    interval_from_range (mkRange '3 '255 : Range u8) = Val (3 --> 254) /\
    interval_from_range (mkRange '3 '3 : Range u8) = Panic.
  Proof. vm_compute. repeat split; reflexivity. Qed.

  (** ** C59: conversion to [Range] succeeds on every interval: false. *)
  Theorem C59_range_conversion_partial : forall i, valid i -> cmp (iend i) MAX <> Eq -> exists r, range_from i = Val r.
  Proof. intros i Vi Hm. destruct (range_round_trip i Vi Hm) as (r & _ & E & _). exists r. exact E. Qed.
End Props.
Theorem C59_range_conversion_refuted : exists i : Interval u8, is_valid i = true /\ range_from i = Panic.
Proof. exists (3 --> 255). vm_compute. split; reflexivity. Qed.
Example C59_example : let i := 254 --> 254 : Interval u8 in
  valid i /\ cmp (iend i) MAX <> Eq /\ range_from i = Val (mkRange '254 '255).
Proof.
  cbv zeta. split; [exists '254; split; vm_compute; discriminate|]. split; [vm_compute; discriminate|]. vm_compute. reflexivity.
Qed.

(** ** C26: integers; [add_debug] panics on overflow, [add_release] wraps. *)
Section Ints.
  Context {lo hi : Z} `{IntType lo hi}.
  Context {K : Type} {IK : InclusiveInterval (int lo hi) K} {IL : IntervalLaws (int lo hi) K}.
  Implicit Types (k : K) (d : int lo hi).
  Theorem C26_translate : forall k d, valid k ->
    lo <= ival (istart k) + ival d -> ival (iend k) + ival d <= hi ->
    exists k', translate add_debug k d = Val k' /\ translate add_release k d = Val k' /\
      ival (istart k') = ival (istart k) + ival d /\ ival (iend k') = ival (iend k) + ival d /\ valid k'.
  Proof. exact translate_fits. Qed.
  Theorem C26_translate_debug_overflow : forall k d, valid k ->
    ~ (lo <= ival (istart k) + ival d /\ ival (iend k) + ival d <= hi) -> translate add_debug k d = Panic.
  Proof. exact translate_overflows. Qed.
  Theorem C26_width : forall k, valid k -> lo <= 0 -> ival (iend k) - ival (istart k) <= hi ->
    exists w, width sub_debug k = Val w /\ width sub_release k = Val w /\
      ival w = ival (iend k) - ival (istart k).
  Proof. intros k Vk L1 L2. apply width_fits; assumption. Qed.
  Theorem C26_width_debug_overflow : forall k, hi < ival (iend k) - ival (istart k) -> width sub_debug k = Panic.
  Proof. exact width_overflows. Qed.
  (** The width survives a translation. *)
  Theorem C26_translate_keeps_width : forall k d, valid k -> lo <= 0 ->
    lo <= ival (istart k) + ival d -> ival (iend k) + ival d <= hi ->
    exists k', translate add_debug k d = Val k' /\ width sub_debug k' = width sub_debug k.
  Proof.
    intros k d Vk L0 L1 L2. destruct (translate_fits k d Vk L1 L2) as (k' & E & _ & Es & Ee & _).
    exists k'. split; [exact E|]. unfold width, sub_debug. f_equal. lia.
  Qed.
End Ints.
Example C26_example :
  translate add_debug (100 --> 120 : Interval i8) '7 = Val (107 --> 127) /\
  translate add_debug (100 --> 120 : Interval i8) '8 = Panic /\
  width sub_debug ((-100) --> 27 : Interval i8) = Val '127 /\
  width sub_debug ((-100) --> 28 : Interval i8) = Panic.
Proof. vm_compute. repeat split; reflexivity. Qed.

(** ** C60: [translate] and [width] always give a result, the result of
    [translate] is valid and has the same width: false for overflow. *)
Theorem C60_translate_debug_refuted : exists (k : Interval u8) d,
  is_valid k = true /\ translate add_debug k d = Panic.
Proof. exists (100 --> 200), '100. vm_compute. split; reflexivity. Qed.
Theorem C60_translate_release_refuted : exists (k k' : Interval u8) d,
  is_valid k = true /\ translate add_release k d = Val k' /\ is_valid k' = false /\
  width sub_debug k' = Panic.
Proof. exists (100 --> 200), (200 --> 44), '100. vm_compute. repeat split; reflexivity. Qed.
Theorem C60_width_refuted : exists k : Interval i8, is_valid k = true /\ width sub_debug k = Panic /\
  exists w, width sub_release k = Val w /\ ival w < 0.
Proof. exists ((-100) --> 100). vm_compute. split; [reflexivity|]. split; [reflexivity|]. eexists. split; reflexivity. Qed.
(** For unsigned types [width] never fails. *)
Theorem C60_width_partial : forall (hi : Z) (T : IntType 0 hi) (K : Type) (IK : InclusiveInterval (int 0 hi) K),
  forall k : K, valid k -> exists w, width sub_debug k = Val w /\ ival w = ival (iend k) - ival (istart k).
Proof.
  intros hi T K IK k Vk. destruct (width_fits k Vk) as (w & E & _ & Hw); [|lia|exists w; split; assumption].
  pose proof (int_range (istart k)). pose proof (int_range (iend k)). lia.
Qed.

(** ** C27 *)
Theorem C27_integers : forall lo hi, lo <= hi -> exists T : IntType lo hi,
  discrete_finite_contract (I := int lo hi) /\
  (forall x y : int lo hi, ple x y <-> ival x <= ival y) /\
  ival (MIN : int lo hi) = lo /\ ival (MAX : int lo hi) = hi /\
  (forall x y : int lo hi, up x = Some y <-> ival y = ival x + 1) /\
  (forall x y : int lo hi, down x = Some y <-> ival y = ival x - 1).
Proof.
  intros lo hi L. exists (IntType_range lo hi L). split; [apply laws_contract|].
  split; [apply ple_int|]. split; [reflexivity|]. split; [reflexivity|].
  split; intros x y; apply of_Z_some.
Qed.
(** The contract, for the instances used everywhere else in the model. *)
Theorem C27_integer_instances :
  discrete_finite_contract (I := u8) /\ discrete_finite_contract (I := u16) /\
  discrete_finite_contract (I := u32) /\ discrete_finite_contract (I := u64) /\
  discrete_finite_contract (I := u128) /\ discrete_finite_contract (I := i8) /\
  discrete_finite_contract (I := i16) /\ discrete_finite_contract (I := i32) /\
  discrete_finite_contract (I := i64) /\ discrete_finite_contract (I := i128).
Proof. repeat apply conj; apply laws_contract. Qed.
(** [usize] on a target with pointers of any width. *)
Theorem C27_usize : forall w, 0 <= w -> exists T : IntType 0 (2 ^ w - 1),
  discrete_finite_contract (I := unsigned w).
Proof. intros w Hw. exists (IntType_unsigned w Hw). apply laws_contract. Qed.
Theorem C27_WithInfinity : forall (T : Type) (O : Ord T) (D : DiscreteFinite T), PointLaws T -> OrdLaws T ->
  discrete_finite_contract (I := WithInfinity T) /\ OrdLaws (WithInfinity T) /\
  (forall t : T, plt (Finite t) Infinity) /\ (forall t u : T, ple (Finite t) (Finite u) <-> ple t u).
Proof.
  intros T O D L OL. split; [apply laws_contract|]. split; [apply OrdLaws_WithInfinity; exact OL|].
  split; [intros t; reflexivity|]. intros t u. reflexivity.
Qed.
Example C27_example : up ('254 : u8) = Some '255 /\ up ('255 : u8) = None /\ down ('0 : u8) = None /\
  up (Finite ('255 : u8)) = Some Infinity /\ down (Infinity : WithInfinity u8) = Some (Finite '255) /\
  up (Infinity : WithInfinity u8) = None.
Proof. vm_compute. repeat split; reflexivity. Qed.

(** ** C55 *)
Section Obtain.
  Context {I : Type} `{PL : PointLaws I}.
  Implicit Types (i : Interval I).
  Theorem C55_constructors : forall i (o : outcome (Interval I)),
    (o = uu \/ (exists b, o = ui b) \/ (exists b, o = ue b) \/ (exists a, o = iu a) \/ (exists a, o = eu a) \/
     (exists a b, o = ii a b) \/ (exists a b, o = ie a b) \/ (exists a b, o = ei a b) \/ (exists a b, o = ee a b)) ->
    o = Val i -> valid i.
  Proof. exact constructors_valid. Qed.
  Theorem C55_conversions : forall i,
    (forall r, interval_from_range_inclusive r = Val i -> valid i) /\
    (forall r, interval_from_range r = Val i -> valid i).
  Proof.
    intros i. split; intros r E; eapply constructors_valid; try exact E.
    - unfold interval_from_range_inclusive. eauto 12.
    - unfold interval_from_range. eauto 12.
  Qed.
  Theorem C55_intersection : forall (Q : Type) (IQ : InclusiveInterval I Q) i (q : Q) (r : Interval I),
    intersection i q = Some r -> valid r.
  Proof.
    intros Q IQ i q r E. destruct (overlap_dec2 i q) as [(p & P)|O].
    - destruct (intersection_Some i q) as (r' & E' & Hr); [exists p; exact P|]. rewrite E in E'. injection E' as <-.
      exists p. apply Hr, P.
    - rewrite intersection_None in E by exact O. discriminate.
  Qed.
End Obtain.
Example C55_example : interval_from_range (mkRange '3 '7 : Range u8) = Val (3 --> 6) /\
  intersection (3 --> 6 : Interval u8) (5 --> 9 : Interval u8) = Some (5 --> 6).
Proof. vm_compute. split; reflexivity. Qed.

(** ** C61: also those from deserialization and [translate]: false. *)
Theorem C61_deserialized_interval_refuted : exists s e : u8, is_valid (interval_deserialize s e) = false.
Proof. exists '9, '3. vm_compute. reflexivity. Qed.
Theorem C61_translated_interval_refuted : exists (i j : Interval u8) d,
  is_valid i = true /\ translate add_release i d = Val j /\ is_valid j = false.
Proof. exists (250 --> 252), (254 --> 0), '4. vm_compute. repeat split; reflexivity. Qed.
(** In a debug build [translate] gives valid intervals only. *)
Theorem C61_translated_interval_partial : forall lo hi (T : IntType lo hi) (i j : Interval (int lo hi)) d,
  valid i -> translate add_debug i d = Val j -> valid j.
Proof.
  intros lo hi T i j d Vi E.
  destruct (Z_le_dec lo (ival (istart i) + ival d)) as [L1|L1];
    [destruct (Z_le_dec (ival (iend i) + ival d) hi) as [L2|L2]|].
  - destruct (translate_fits i d Vi L1 L2) as (k' & E' & _ & _ & _ & Vk). congruence.
  - rewrite translate_overflows in E by (try assumption; lia). discriminate.
  - rewrite translate_overflows in E by (try assumption; lia). discriminate.
Qed.

(** ** C54: NoditMap over the README's [Reservation] keeps its entries apart: false. *)
Theorem C54_reservation_refuted : exists ops : list (op i8 Reservation nat),
  let m := run ops in
  exists k1 v1 k2 v2 p, iter m = [(k1, v1); (k2, v2)] /\ contains_point k1 p = true /\ contains_point k2 p = true.
Proof.
  exists [OpInsertStrict (ResFinite '0 '10) 1%nat; OpInsertOverwrite (ResFinite '5 '10) 2%nat].
  exists (ResFinite '0 '5), 1%nat, (ResFinite '5 '10), 2%nat, '5. vm_compute. repeat split; reflexivity.
Qed.
(** The repaired type obeys the laws every NoditMap theorem asks for. *)
Theorem C54_reservation_partial : IntervalLaws i8 Reservation2 /\
  forall (V : Type) (ops : list (op i8 Reservation2 V)),
    ascending (map fst (iter (run ops))) /\ Forall valid (map fst (iter (run ops))).
Proof. split; [exact IntervalLaws_Reservation2|]. intros V ops. apply ascending_WF, run_WF. Qed.

Print Assumptions C23_uu.
Print Assumptions C23_ui.
Print Assumptions C23_ue.
Print Assumptions C23_iu.
Print Assumptions C23_eu.
Print Assumptions C23_ii.
Print Assumptions C23_ie.
Print Assumptions C23_ei.
Print Assumptions C23_ee.
Print Assumptions C24_contains_point.
Print Assumptions C24_is_valid.
Print Assumptions C24_contains_interval.
Print Assumptions C24_is_singular.
Print Assumptions C24_overlaps.
Print Assumptions C24_overlaps_symmetric.
Print Assumptions C24_intersection_Some.
Print Assumptions C24_intersection_None.
Print Assumptions C24_intersection_symmetric.
Print Assumptions C25_from_range_inclusive.
Print Assumptions C25_from_range.
Print Assumptions C25_to_range_inclusive.
Print Assumptions C25_range_inclusive_round_trip.
Print Assumptions C25_range_round_trip.
Print Assumptions C25_range_round_trip_identity.
Print Assumptions C25_range_panics_exactly_at_MAX.
Print Assumptions C25_bounds.
Print Assumptions C59_range_conversion_partial.
Print Assumptions C59_range_conversion_refuted.
Print Assumptions C26_translate.
Print Assumptions C26_translate_debug_overflow.
Print Assumptions C26_width.
Print Assumptions C26_width_debug_overflow.
Print Assumptions C26_translate_keeps_width.
Print Assumptions C60_translate_debug_refuted.
Print Assumptions C60_translate_release_refuted.
Print Assumptions C60_width_refuted.
Print Assumptions C60_width_partial.
Print Assumptions C27_integers.
Print Assumptions C27_integer_instances.
Print Assumptions C27_usize.
Print Assumptions C27_WithInfinity.
Print Assumptions C55_constructors.
Print Assumptions C55_conversions.
Print Assumptions C55_intersection.
Print Assumptions C61_deserialized_interval_refuted.
Print Assumptions C61_translated_interval_refuted.
Print Assumptions C61_translated_interval_partial.
Print Assumptions C54_reservation_refuted.
Print Assumptions C54_reservation_partial.
