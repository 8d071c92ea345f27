(** * PropsOverrideGqdit: Gqdits with interval types that override the provided
      methods of [InclusiveInterval] (C143).

    [agrees_valid], [sound_valid], [agrees_overlaps] and [misses_none] are in
    [OverrideOps], [agrees_contains] is in [OverrideZosditOps], [safe_gquery] in
    [OverrideGqditOps]. *)
From Coq Require Import List ZArith Bool.
From Verif Require Import Base BTree UtilsModel IntervalModel NoditModel NoditOps GqditModel GqditOps OverrideModel OverrideOps
  OverrideZosditOps OverrideGqditModel OverrideGqditOps Spec InstancesModel Instances PointFacts IntervalFacts NoditFacts NoditQueries NoditInv
  GqditFacts GqditProofs OverrideFacts OverrideGqditFacts PropsOverride PropsOverrideZosdit.
Import ListNotations.
Open Scope nat_scope.

Section Override.
  Context {I : Type} `{PL : PointLaws I}.
  Context {K : Type} {IK : InclusiveInterval I K} {IL : IntervalLaws I K}.
  Context {Q : Type} {IQ : InclusiveInterval I Q}.
  Context {D : Type} {OD : Ord D} {OL : OrdLaws D}.
  Implicit Types (g : Gqdit K D) (k : K) (q : Q) (d : D) (p : I).
  Context (k_valid : K -> bool) (k_overlaps : K -> K -> outcome bool) (k_contains : K -> I -> outcome bool).
  Context (q_valid : Q -> bool) (k_overlaps_q : K -> Q -> outcome bool).

  (** Overriding methods that answer what the provided ones answer change
      nothing. *)
  Theorem C143_agreeing : agrees_valid k_valid -> agrees_overlaps k_overlaps -> agrees_contains k_contains ->
    agrees_valid q_valid -> agrees_overlaps k_overlaps_q ->
    forall g other ids k d q, greachable g ->
    gqdit_new_o k_valid = (gqdit_new : outcome (Gqdit K D)) /\
    gqdit_insert_o k_valid k_overlaps ids k g = gqdit_insert ids k g /\
    cut_with_identifiers_o k_valid k_overlaps q_valid k_overlaps_q ids q g = cut_with_identifiers ids q g /\
    cut_all_identifiers_o k_valid k_overlaps q_valid k_overlaps_q q g = cut_all_identifiers q g /\
    append_o k_valid k_overlaps g other = append g other /\
    gaps_no_identifier_o q_valid g q = gaps_no_identifier g q /\
    gaps_with_identifier_o k_contains q_valid g d q = gaps_with_identifier g d q.
  Proof.
    intros Hv Ho Hc Hq Hq' g other ids k d q R. assert (W : WF g) by (apply greachable_GWF in R; apply R).
    split; [apply gqdit_new_o_agree, Hv|]. split; [apply gqdit_insert_o_agree; assumption|].
    split; [apply cut_with_o_agree; assumption|]. split; [apply cut_all_o_agree; assumption|]. split; [apply append_o_agree; assumption|].
    split; [apply gaps_no_o_agree, Hq|]. apply gaps_with_o_agree; assumption.
  Qed.

  (** The intervals inside stay valid, ascending and disjoint under the
      conditions of C141, whichever calls panic. *)
  Theorem C143_stays_well_formed : sound_valid k_valid -> misses_none k_overlaps ->
    forall os : list (gop_o I K D), Forall safe_gquery os ->
    ascending (map fst (iter (grun_o k_valid k_overlaps os))) /\ Forall valid (map fst (iter (grun_o k_valid k_overlaps os))).
  Proof. intros Hv Ho os Hs. apply ascending_WF, grun_o_WF; assumption. Qed.
End Override.

(** ** Examples *)
Definition ex_C143_ops : list (gop_o u8 (Interval u8) u8) :=
  [GOInsert ['1] (10 --> 20); GOInsert ['2] (15 --> 30); GOCutWith ['1] is_valid overlaps (12 --> 16 : Interval u8); GOAppend [GOInsert ['3] (12 --> 13)]].
Example ex_C143_agreeing : Forall safe_gquery ex_C143_ops /\
  map snd (grun_o is_valid overlaps ex_C143_ops) = [[]; ['1]; ['3]; []; ['2]; ['1; '2]; ['2]; []].
Proof.
  split; [|vm_compute; reflexivity]. repeat apply Forall_cons; try exact Logic.I; [|split; exact Logic.I|apply Forall_nil].
  intros a. apply is_valid_true.
Qed.
Example ex_C143_gaps : gaps_with_identifier_o (fun k p => Val (contains_point k p)) is_valid (grun_o is_valid overlaps ex_C143_ops) ('1) (11 --> 40 : Interval u8)
  = Val [mkInterval ('0) ('11); mkInterval ('14) ('14); mkInterval ('31) ('255)].
Proof. vm_compute. reflexivity. Qed.

(** An [overlaps] that finds every overlap and more is not enough for the
    identifiers: this one also holds when [b] lies behind [a], and an insertion
    that returns loses the identifiers behind the inserted interval. *)
Definition or_behind (a b : Interval u8) : outcome bool :=
  if ltb (iend a) (istart b) then Val true else overlaps a b.
Theorem C143_more_overlaps_lose_identifiers : exists (k_overlaps : Interval u8 -> Interval u8 -> outcome bool) (g : Gqdit (Interval u8) u8) ids k p d,
  finds_all k_overlaps /\ greachable g /\ has_id g p d /\ ~ covers k p /\
  snd (gqdit_insert_o is_valid k_overlaps ids k g) = Val tt /\ ~ has_id (fst (gqdit_insert_o is_valid k_overlaps ids k g)) p d.
Proof.
  exists or_behind, (grun [GInsert ['7] (50 --> 60)]), ['1], (10 --> 20), ('55), ('7).
  split. { intros a b Va Vb O. unfold or_behind. destruct (ltb (iend a) (istart b)); [reflexivity|].
           destruct (overlaps_agrees a b Va Vb) as (x & -> & Hx). apply Hx in O. subst. reflexivity. }
  split; [eexists; reflexivity|].
  split; [eexists; split; [vm_compute; reflexivity|left; reflexivity]|].
  split. { rewrite <- contains_point_true. vm_compute. discriminate. }
  split; [vm_compute; reflexivity|]. intros (s & E & Hin). vm_compute in E. injection E as <-. destruct Hin.
Qed.
Print Assumptions C143_agreeing.
Print Assumptions C143_stays_well_formed.
Print Assumptions C143_more_overlaps_lose_identifiers.
