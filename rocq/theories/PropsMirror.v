(** * PropsMirror: NoditMaps, NoditSets and Gqdits look the same from both sides (C145). *)
From Coq Require Import List ZArith Bool.
From Verif Require Import Base BTree UtilsModel IntervalModel NoditModel NoditOps NoditSetModel NoditSetOps GqditModel GqditOps ZosditModel Spec CompleteOps
  ClientOps ClientSetOps ClientGqditOps MirrorOps InstancesModel Instances PointFacts NoditFacts NoditSetFacts CompleteProofs MirrorFacts PropsClient PropsClientSet PropsClientGqdit.
Import ListNotations.
Open Scope nat_scope.

Section Props.
  Context {I : Type} `{PL : PointLaws I}.
  Context {K : Type} {IK : InclusiveInterval I K} {IL : IntervalLaws I K} {FI : FromInvalid I K}.
  Context {V : Type}.

  Lemma backwards_reachable s : occurs (backwards_nodit : implementation (I := I) (K := K) (V := V)) s -> reachable (I := reversed I) (K := mirrored K) (V := V) s.
  Proof.
    induction 1 as [|s c _ IH]; [exists []; reflexivity|]. cbn [does backwards_nodit]. pose proof (perform_reachable s (mcall c) IH) as X.
    destruct (perform (mcall c) s). exact X.
  Qed.
  Lemma backwards_set_reachable s : set_occurs (backwards_noditset : set_implementation (I := I) (K := K)) s -> set_reachable (I := reversed I) (K := mirrored K) s.
  Proof.
    induction 1 as [|s c _ IH]; [exists []; reflexivity|]. cbn [set_does backwards_noditset]. pose proof (set_perform_reachable s (mscall c) IH) as X.
    destruct (set_perform (mscall c) s). exact X.
  Qed.

  (** ** C145 *)
  (** A NoditMap of the reversed points, its calls and answers read from right to left, does
      what is documented for a NoditMap of the points ... *)
  Theorem C145_map_as_documented : determined_by_points I K ->
    as_documented (backwards_nodit : implementation (I := I) (K := K) (V := V)) backwards.
  Proof.
    intros D. split; [reflexivity|]. intros s c Os. pose proof (perform_iff (determined_m D) s (mcall c) (backwards_reachable s Os)) as X. cbn [does backwards_nodit].
    destruct (perform (mcall c) s) as [s' a]. apply documented_m, X. reflexivity.
  Qed.
  (** ... so that every program ends with the same result. *)
  Theorem C145_map : determined_by_points I K -> forall R (p : client (I := I) (K := K) (V := V) R),
    execute backwards_nodit (start backwards_nodit) p = execute nodit (start nodit) p.
  Proof.
    intros D R p. exact (C130_indistinguishable D backwards_nodit nodit _ _ (C145_map_as_documented D) (C130_nodit_as_documented D) R p).
  Qed.
  Theorem C145_set_as_documented : determined_by_points I K ->
    set_as_documented (backwards_noditset : set_implementation (I := I) (K := K)) (fun s => backwards_keys (set_iter s)).
  Proof.
    intros D. split; [reflexivity|]. intros s c Os.
    pose proof (proj2 (C133_effects_determine_the_methods (determined_m D) s (mscall c) (backwards_set_reachable s Os) _ _) (conj eq_refl eq_refl)) as X.
    apply set_documented_m in X. cbn [set_does backwards_noditset]. destruct (set_perform (mscall c) s). exact X.
  Qed.
  Theorem C145_set : determined_by_points I K -> forall R (p : set_client (I := I) (K := K) R),
    set_execute backwards_noditset (set_start backwards_noditset) p = set_execute noditset (set_start noditset) p.
  Proof.
    intros D R p. exact (C133_indistinguishable D backwards_noditset noditset _ _ (C145_set_as_documented D) (C133_noditset_as_documented D) R p).
  Qed.
End Props.

Section PropsGqdit.
  Context {I : Type} `{PL : PointLaws I} {OLI : OrdLaws I}.
  Context {K : Type} {IK : InclusiveInterval I K} {IL : IntervalLaws I K} {FI : FromInvalid I K}.
  Context {D : Type} {OD : Ord D} {OLD : OrdLaws D}.

  Lemma backwards_goccurs s : goccurs (backwards_gqdit : gimplementation (I := I) (K := K) (D := D)) s -> goccurs (gqdit : gimplementation (I := reversed I) (K := mirrored K) (D := D)) s.
  Proof.
    induction 1 as [|s c _ IH|s t _ IH _ IH']; [exact (goccurs_start gqdit)| |].
    - cbn [gdoes backwards_gqdit]. pose proof (goccurs_after gqdit s (mgcall c) IH) as X. cbn [gdoes gqdit] in X. destruct (gperform (mgcall c) s). exact X.
    - exact (goccurs_joined gqdit s t IH IH').
  Qed.
  Theorem C145_gqdit_as_documented : determined_by_points I K ->
    gqdit_as_documented (backwards_gqdit : gimplementation (I := I) (K := K) (D := D)) (fun g p d => sits (I := reversed I) (K := mirrored K) g (Reverse p) d).
  Proof.
    intros DP. destruct (C131_gqdit_as_documented (D := D) (determined_m DP)) as (A & B & C). split; [|split].
    - intros p d. apply A.
    - intros s c Os. pose proof (B s (mgcall c) (backwards_goccurs s Os)) as X. apply gdocumented_m in X. cbn [gdoes gqdit backwards_gqdit] in *.
      destruct (gperform (mgcall c) s). exact X.
    - intros s t Os Ot. destruct (C s t (backwards_goccurs s Os) (backwards_goccurs t Ot)) as [X Y]. split; [exact X|]. intros p d. apply Y.
  Qed.
  Theorem C145_gqdit : determined_by_points I K -> forall R (p : gclient (I := I) (K := K) (D := D) R),
    grun_client backwards_gqdit p = grun_client gqdit p.
  Proof.
    intros DP R p. exact (C131_indistinguishable DP backwards_gqdit gqdit _ _ (C145_gqdit_as_documented DP) (C131_gqdit_as_documented DP) R p).
  Qed.
End PropsGqdit.

(** The hypotheses are met, and the other side really stores everything the other way round. *)
Definition backwards_u8 : implementation (I := u8) (K := Interval u8) (V := nat) := backwards_nodit.
Definition cut_45 : call u8 (Interval u8) nat := CallCut (4 --> 5 : Interval u8).
Definition insert_19 : call u8 (Interval u8) nat := CallInsertStrict (1 --> 9 : Interval u8) 7.
Definition stored_backwards : list (mirrored (Interval u8) * nat) := [(Mirror (6 --> 9), 7); (Mirror (1 --> 3), 7)].
Example C145_ex : determined_by_points u8 (Interval u8) /\
  execute backwards_u8 (start backwards_u8) ex_client = execute nodit (start nodit) ex_client /\
  fst (does backwards_u8 cut_45 (fst (does backwards_u8 insert_19 (start backwards_u8)))) = stored_backwards.
Proof. split; [exact interval_determined|]. split; vm_compute; reflexivity. Qed.
(** A ZosditMap is different: what is last at a border depends on the side (as documented). *)
Definition border_plain : list (Interval u8 * nat) := [(1 --> 4, 1); (4 --> 8, 2)].
Definition border_mirrored : list (mirrored (Interval u8) * nat) := [(Mirror (1 --> 4), 1); (Mirror (4 --> 8), 2)].
Definition border_map : outcome (result (ZosditMap (mirrored (Interval u8)) nat) nat) := from_iter_strict_back (I := reversed u8) border_mirrored.
Example C145_not_zosdit :
  match from_iter_strict_back border_plain with Val (Ok z) => get_last_value_at_point z '4 | _ => None end = Some 2 /\
  match border_map with Val (Ok z) => get_last_value_at_point (I := reversed u8) z (Reverse '4) | _ => None end = Some 1.
Proof. split; vm_compute; reflexivity. Qed.

Print Assumptions C145_map_as_documented.
Print Assumptions C145_map.
Print Assumptions C145_set_as_documented.
Print Assumptions C145_set.
Print Assumptions C145_gqdit_as_documented.
Print Assumptions C145_gqdit.
