(** * PropsOverrideRun: whole histories with overriding methods that agree with
      the provided ones (C141-C143).

    [plain_op], [plain_zop], [plain_gop], [agreeing_op], [agreeing_zop] and
    [agreeing_gop] are in [OverrideRunOps]. *)
From Coq Require Import List ZArith Bool Lia.
From Verif Require Import Base BTree UtilsModel IntervalModel NoditModel NoditOps ZosditModel ZosditOps GqditModel GqditOps OverrideModel OverrideOps
  OverrideZosditModel OverrideZosditOps OverrideGqditModel OverrideGqditOps OverrideRunOps Spec InstancesModel Instances PointFacts IntervalFacts
  NoditFacts NoditQueries NoditInv ZosditFacts ZosditProofs GqditFacts GqditProofs CostGqdit OverrideFacts OverrideZosditFacts OverrideGqditFacts
  PropsOverride PropsOverrideZosdit PropsOverrideGqdit.
Import ListNotations.
Open Scope nat_scope.

Section Run.
  Context {I : Type} `{PL : PointLaws I}.
  Context {K : Type} {IK : InclusiveInterval I K} {IL : IntervalLaws I K}.
  Context (k_valid : K -> bool) (k_overlaps : K -> K -> outcome bool) (k_contains : K -> I -> outcome bool).

  Theorem C141_agreeing_histories : forall V : Type, agrees_valid k_valid -> agrees_overlaps k_overlaps ->
    forall os : list (op_o I K V), Forall agreeing_op os -> run_o k_valid k_overlaps os = run (map plain_op os).
  Proof.
    intros V Hv Ho os Hs. unfold run_o, run. assert (X : forall m, WF m -> fold_left (step_o k_valid k_overlaps) os m = fold_left step (map plain_op os) m).
    { induction Hs as [|o os Ha Hs IH]; intros m W; [reflexivity|]. cbn [fold_left map].
      assert (E : step_o k_valid k_overlaps m o = step m (plain_op o)); [|rewrite E; apply IH, step_WF, W].
      destruct o; cbn [step_o step plain_op agreeing_op] in *;
        try (match type of Ha with _ /\ _ => destruct Ha as [Ha1 Ha2] end);
        rewrite ?insert_strict_o_agree, ?merge_touching_o_agree, ?merge_if_equal_o_agree, ?merge_overlapping_o_agree, ?merge_tor_o_agree,
          ?insert_overwrite_o_agree, ?remove_overlapping_o_agree, ?cut_o_agree, ?overlapping_mut_o_agree, ?extend_strict_o_agree by assumption; reflexivity. }
    apply X, WF_nil.
  Qed.

  Theorem C142_agreeing_histories : forall V : Type, agrees_valid k_valid -> agrees_contains k_contains ->
    forall os : list (zop_o I K V), Forall agreeing_zop os -> zrun_o k_valid k_contains os = zrun (map plain_zop os).
  Proof.
    intros V Hv Hc os Hs. unfold zrun_o, zrun. assert (X : forall z, ZWF z -> fold_left (zstep_o k_valid k_contains) os z = fold_left zstep (map plain_zop os) z).
    { induction Hs as [|o os Ha Hs IH]; intros z W; [reflexivity|]. cbn [fold_left map].
      assert (E : zstep_o k_valid k_contains z o = zstep z (plain_zop o)); [|rewrite E; apply IH, zstep_ZWF, W].
      destruct o; cbn [zstep_o zstep plain_zop agreeing_zop] in *;
        try (match type of Ha with _ /\ _ => destruct Ha as [Ha1 Ha2] end);
        rewrite ?insert_back_o_agree, ?remove_last_o_agree, ?zcut_o_agree, ?extend_back_o_agree by assumption; reflexivity. }
    apply X. apply (zrun_ZWF []).
  Qed.

  Theorem C143_agreeing_histories : forall (D : Type) (OD : Ord D) (OL : OrdLaws D), agrees_valid k_valid -> agrees_overlaps k_overlaps ->
    forall os : list (gop_o I K D), Forall agreeing_gop os -> grun_o k_valid k_overlaps os = grun (map plain_gop os).
  Proof.
    intros D OD OL Hv Ho. assert (En : gnew_o (D := D) k_valid = gnew) by (unfold gnew_o, gnew; rewrite gqdit_new_o_agree by exact Hv; reflexivity).
    assert (Wn : WF (gnew : Gqdit K D)) by (apply (proj1 (greachable_GWF _ (ex_intro _ [] eq_refl)))).
    assert (S1 : forall o : gop_o I K D, agreeing_gop o -> forall g, WF g -> gstep_o k_valid k_overlaps o g = gstep (plain_gop o) g).
    { fix S1 1. intros [ids k|ids Q IQ qv over q|Q IQ qv over q|os] Ha g W; cbn [gstep_o gstep plain_gop agreeing_gop] in *.
      - rewrite gqdit_insert_o_agree by assumption. reflexivity.
      - destruct Ha. rewrite cut_with_o_agree by assumption. reflexivity.
      - destruct Ha. rewrite cut_all_o_agree by assumption. reflexivity.
      - rewrite append_o_agree by assumption. rewrite En.
        assert (X : forall g, WF g -> fold_left (fun g o => gstep_o k_valid k_overlaps o g) os g = fold_left (fun g o => gstep o g) (map plain_gop os) g); [|rewrite (X _ Wn); reflexivity].
        clear g W. induction os as [|o os IH]; intros g W; [reflexivity|]. cbn [fold_left map]. destruct Ha as [Ha1 Ha2].
        rewrite (S1 o Ha1 g W). apply (IH Ha2), gstep_WF, W. }
    intros os Hs. unfold grun_o, grun. rewrite En. clear En. revert Wn. generalize (gnew : Gqdit K D). induction Hs as [|o os Ha Hs IH]; intros g W; [reflexivity|].
    cbn [fold_left map]. rewrite (S1 o Ha g W). apply IH, gstep_WF, W.
  Qed.
End Run.

(** ** Examples: an [overlaps] and an [is_valid] written differently *)
Definition same_overlaps (a b : Interval u8) : outcome bool := Val (negb (ltb (iend a) (istart b)) && negb (ltb (iend b) (istart a))).
Lemma same_overlaps_agrees : agrees_overlaps same_overlaps.
Proof.
  intros a b Va Vb. eexists. split; [reflexivity|]. rewrite overlap_rk. apply valid_rk in Va. apply valid_rk in Vb.
  rewrite !ltb_rk. unfold lo, hi in *. lia.
Qed.
Definition same_contains (k : Interval u8) (p : u8) : outcome bool := Val (contains_point k p).
Lemma same_contains_agrees : agrees_contains same_contains.
Proof. intros k p. eexists. split; [reflexivity|]. apply contains_point_true. Qed.
Definition ex_o_ops : list (op_o u8 (Interval u8) nat) :=
  [OInsertStrict (1 --> 9) 1; OInsertMergeTouching (10 --> 12) 2; OCut is_valid same_overlaps (4 --> 5 : Interval u8); ORemoveOverlapping is_valid same_overlaps (1 --> 2 : Interval u8)].
Example C141_example_histories : Forall agreeing_op ex_o_ops /\ run_o is_valid same_overlaps ex_o_ops = [(6 --> 12, 2)].
Proof.
  split; [|vm_compute; reflexivity]. pose proof is_valid_agrees. pose proof same_overlaps_agrees. repeat constructor; cbn; auto; apply is_valid_agrees || apply same_overlaps_agrees.
Qed.
Definition ex_zo_ops : list (zop_o u8 (Interval u8) nat) :=
  [ZOInsertStrictBack (1 --> 9) 1; ZOInsertStrictBack (9 --> 12) 2; ZOCut is_valid same_overlaps (4 --> 5 : Interval u8); ZORemoveLast ('2)].
Example C142_example_histories : Forall agreeing_zop ex_zo_ops /\ zosdit_iter (zrun_o is_valid same_contains ex_zo_ops) = [(6 --> 9, 1); (9 --> 12, 2)].
Proof. split; [|vm_compute; reflexivity]. repeat constructor; cbn; auto; apply is_valid_agrees || apply same_overlaps_agrees. Qed.
Definition ex_go_ops : list (gop_o u8 (Interval u8) u8) :=
  [GOInsert ['1] (10 --> 20); GOAppend [GOInsert ['3] (12 --> 13); GOCutAll is_valid same_overlaps (13 --> 13 : Interval u8)]; GOCutWith ['1] is_valid same_overlaps (19 --> 30 : Interval u8)].
Example C143_example_histories : Forall agreeing_gop ex_go_ops /\
  grun_o is_valid same_overlaps ex_go_ops = [(0 --> 9, []); (10 --> 11, ['1]); (12 --> 12, ['1; '3]); (13 --> 18, ['1]); (19 --> 255, [])].
Proof. split; [|vm_compute; reflexivity]. repeat constructor; cbn; auto; apply is_valid_agrees || apply same_overlaps_agrees. Qed.

Print Assumptions C141_agreeing_histories.
Print Assumptions C142_agreeing_histories.
Print Assumptions C143_agreeing_histories.
