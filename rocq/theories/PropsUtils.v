(** * PropsUtils: the crate-internal helpers on pairs of intervals (C135). *)
From Coq Require Import List ZArith Bool Lia ZifyBool.
From Verif Require Import Base UtilsModel IntervalModel Spec UtilsOps InstancesModel Instances PointFacts IntervalFacts.
Import ListNotations.
Open Scope Z_scope.

Section Props.
  Context {I : Type} `{PL : PointLaws I}.
  Context {A B : Type} {IA : InclusiveInterval I A} {IB : InclusiveInterval I B}.
  Implicit Types (a : A) (b : B).

  Lemma within_rk {X Y} {IX : InclusiveInterval I X} {IY : InclusiveInterval I Y} (x : X) (y : Y) : lo y <= hi y ->
    within y x <-> lo x <= lo y /\ hi y <= hi x.
  Proof.
    intros V. unfold within. split.
    - intros E. pose proof (E (istart y)) as E1. pose proof (E (iend y)) as E2. rewrite !covers_rk, <- ?lo_rk, <- ?hi_rk in *. lia.
    - intros [E1 E2] p. rewrite !covers_rk. lia.
  Qed.

  (** ** C135 *)
  Theorem C135_config : forall a b, valid a -> valid b -> exists c, config a b = Val c /\ config_says a b c.
  Proof.
    intros a b Va Vb. apply valid_rk in Va, Vb. unfold config.
    rewrite !utils_contains_point_rk, ltb_rk, <- !lo_rk, <- !hi_rk.
    destruct (Z.ltb_spec (lo a) (lo b)) as [E|E].
    - destruct ((lo a <=? lo b) && (lo b <=? hi a)) eqn:E1; destruct ((lo a <=? hi b) && (hi b <=? hi a)) eqn:E2;
        [eexists; split; [reflexivity|].. |exfalso; lia|eexists; split; [reflexivity|]];
        cbn [config_says]; rewrite ?overlap_rk, ?within_rk, plt_rk, <- !lo_rk by assumption; lia.
    - destruct ((lo b <=? lo a) && (lo a <=? hi b)) eqn:E1; destruct ((lo b <=? hi a) && (hi a <=? hi b)) eqn:E2;
        [eexists; split; [reflexivity|].. |exfalso; lia|eexists; split; [reflexivity|]];
        cbn [config_says]; rewrite ?overlap_rk, ?within_rk, ple_rk, <- !lo_rk by assumption; lia.
  Qed.
  (** No two variants can both be right. *)
  Theorem C135_config_unique : forall a b, valid a -> valid b -> forall c d, config_says a b c -> config_says a b d -> c = d.
  Proof.
    intros a b Va Vb c d. apply valid_rk in Va, Vb.
    destruct c, d; cbn [config_says]; rewrite ?overlap_rk, ?within_rk, ?plt_rk, ?ple_rk, <- ?lo_rk by assumption; intros; try reflexivity; exfalso; lia.
  Qed.
  (** [sorted_config] names partially overlapping intervals [Swallowed] if the first starts
      first (/repo/src/utils.rs:67); in all other cases it is right. *)
  Theorem C135_sorted_config_partial : forall a b, valid a -> valid b ->
    ~ (plt (istart a) (istart b) /\ overlap a b /\ ~ within b a) ->
    exists c, sorted_config a b = Val c /\ sorted_config_says a b c.
  Proof.
    intros a b Va Vb N. destruct (C135_config a b Va Vb) as (c & E & S). unfold sorted_config. rewrite E. cbn [obind].
    destruct c; cbn [config_says] in S; [|contradiction|..]; eexists; (split; [reflexivity|]); cbn [sorted_config_says].
    - split; [left; intuition|apply S].
    - split; [left; intuition|]. destruct S as [_ S]. exact S.
    - split; [right; intuition|apply S].
    - split; [right; intuition|]. destruct S as (_ & S1 & S2). split; [exact S1|]. exact S2.
    - split; [right; intuition|]. destruct S as [_ S]. exact S.
  Qed.
  (** What it then returns: the two intervals in order, under the wrong name. *)
  Theorem C135_sorted_config_otherwise : forall a b, valid a -> valid b ->
    plt (istart a) (istart b) -> overlap a b -> ~ within b a ->
    sorted_config a b = Val (Swallowed (mkInterval (istart a) (iend a)) (mkInterval (istart b) (iend b))).
  Proof.
    intros a b Va Vb L O N. destruct (C135_config a b Va Vb) as (c & E & S). unfold sorted_config. rewrite E. cbn [obind].
    rewrite (C135_config_unique a b Va Vb c LeftFirstPartialOverlap S (conj L (conj O N))). reflexivity.
  Qed.

  Lemma part_some (i : Interval I) (P : I -> Prop) : lo i <= hi i -> (forall p, lo i <= rk p <= hi i <-> P p) -> part (Some i) P.
  Proof. intros V E. split; [apply valid_rk, V|]. intros p. rewrite covers_rk. apply E. Qed.
  Theorem C135_cut_interval : forall a b, valid a -> valid b -> exists r, cut_interval a b = Val r /\ cut_says a b r.
  Proof.
    intros a b Va Vb. apply valid_rk in Va, Vb.
    assert (Cov : forall p, covers a p <-> lo a <= rk p <= hi a) by (intros p; apply covers_rk).
    assert (Cob : forall p, covers b p <-> lo b <= rk p <= hi b) by (intros p; apply covers_rk).
    assert (Plt : forall p, (plt p (istart b) <-> rk p < lo b) /\ (plt (iend b) p <-> hi b < rk p)) by (intros p; rewrite !plt_rk; split; reflexivity).
    destruct (Z_lt_le_dec (hi b) (lo a)) as [R|R]; [|destruct (Z_lt_le_dec (hi a) (lo b)) as [L|L]].
    - exists (mkCut None None (Some (mkInterval (istart a) (iend a)))). split.
      + unfold cut_interval, cut_interval_raw, config. rewrite !utils_contains_point_rk, ltb_rk, <- !lo_rk, <- !hi_rk.
        assert (E0 : (lo a <? lo b) = false) by lia. assert (E1 : (lo b <=? lo a) && (lo a <=? hi b) = false) by lia.
        assert (E2 : (lo b <=? hi a) && (hi a <=? hi b) = false) by lia. rewrite E0, E1, E2. cbn [obind before_cut inside_cut after_cut filter_valid].
        rewrite is_valid_rk. destruct (Z.leb_spec (lo (mkInterval (istart a) (iend a))) (hi (mkInterval (istart a) (iend a)))) as [X|X]; [reflexivity|unfold lo, hi in *; cbn in *; lia].
      + split; [|split]; cbn [before_cut inside_cut after_cut].
        * intros p. rewrite Cov, (proj1 (Plt p)). lia.
        * intros p. rewrite Cov, Cob. lia.
        * apply part_some; [unfold lo, hi in *; cbn; lia|]. intros p. rewrite Cov, (proj2 (Plt p)). unfold lo, hi in *. cbn. lia.
    - exists (mkCut (Some (mkInterval (istart a) (iend a))) None None). split.
      + unfold cut_interval, cut_interval_raw, config. rewrite !utils_contains_point_rk, ltb_rk, <- !lo_rk, <- !hi_rk.
        assert (E0 : (lo a <? lo b) = true) by lia. assert (E1 : (lo a <=? lo b) && (lo b <=? hi a) = false) by lia.
        assert (E2 : (lo a <=? hi b) && (hi b <=? hi a) = false) by lia. rewrite E0, E1, E2. cbn [obind before_cut inside_cut after_cut filter_valid].
        rewrite is_valid_rk. destruct (Z.leb_spec (lo (mkInterval (istart a) (iend a))) (hi (mkInterval (istart a) (iend a)))) as [X|X]; [reflexivity|unfold lo, hi in *; cbn in *; lia].
      + split; [|split]; cbn [before_cut inside_cut after_cut].
        * apply part_some; [unfold lo, hi in *; cbn; lia|]. intros p. rewrite Cov, (proj1 (Plt p)). unfold lo, hi in *. cbn. lia.
        * intros p. rewrite Cov, Cob. lia.
        * intros p. rewrite Cov, (proj2 (Plt p)). lia.
    - destruct (cut_interval_ok a b Va Vb R L) as (r & E & (S1 & (i & Ei & I1 & I2) & S3)). exists r. split; [exact E|]. split; [|split].
      + destruct (before_cut r) as [x|]; [apply part_some; [lia|]; intros p; rewrite Cov, (proj1 (Plt p)); lia|].
        intros p. rewrite Cov, (proj1 (Plt p)). lia.
      + rewrite Ei. apply part_some; [lia|]. intros p. rewrite Cov, Cob. lia.
      + destruct (after_cut r) as [x|]; [apply part_some; [lia|]; intros p; rewrite Cov, (proj2 (Plt p)); lia|].
        intros p. rewrite Cov, (proj2 (Plt p)). lia.
  Qed.
End Props.

(** As stated, the claim about [sorted_config] is false. *)
Theorem C135_sorted_config_refuted : exists a b : Interval u8, valid a /\ valid b /\
  forall c, sorted_config a b = Val c -> ~ sorted_config_says a b c.
Proof.
  exists (1 --> 5), (3 --> 8). split; [|split].
  - exists '1. split; vm_compute; discriminate.
  - exists '3. split; vm_compute; discriminate.
  - intros c E. vm_compute in E. injection E as <-. intros [_ N].
    specialize (N '8). destruct N as [_ N]; [split; vm_compute; discriminate|]. apply N. vm_compute. reflexivity.
Qed.

(** The hypotheses are met, non-trivially. *)
Example C135_ex : let a := (3 --> 8 : Interval u8) in let b := (1 --> 5 : Interval u8) in
  valid a /\ valid b /\ ~ (plt (istart a) (istart b) /\ overlap a b /\ ~ within b a) /\
  config a b = Val RightFirstPartialOverlap /\ sorted_config a b = Val (PartialOverlap (1 --> 5) (3 --> 8)) /\
  cut_interval a b = Val (mkCut None (Some (3 --> 5)) (Some (6 --> 8))) /\
  sorted_config b a = Val (Swallowed (1 --> 5) (3 --> 8)).
Proof.
  intros a b. split; [exists '3; split; vm_compute; discriminate|]. split; [exists '1; split; vm_compute; discriminate|].
  split; [intros [L _]; vm_compute in L; discriminate|]. vm_compute. auto.
Qed.
Example C135_otherwise_ex : let a := (1 --> 5 : Interval u8) in let b := (3 --> 8 : Interval u8) in
  plt (istart a) (istart b) /\ overlap a b /\ ~ within b a.
Proof.
  intros a b. split; [reflexivity|]. split; [exists '4; split; split; vm_compute; discriminate|].
  intros N. specialize (N '8). destruct N as [_ N]; [split; vm_compute; discriminate|]. apply N. vm_compute. reflexivity.
Qed.

Print Assumptions C135_config.
Print Assumptions C135_config_unique.
Print Assumptions C135_sorted_config_partial.
Print Assumptions C135_sorted_config_otherwise.
Print Assumptions C135_cut_interval.
Print Assumptions C135_sorted_config_refuted.
