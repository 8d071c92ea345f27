(** * PropsZosditElsewhere: a removal from a ZosditMap and the calls about other places (C119). *)
From Coq Require Import List ZArith Bool.
From Verif Require Import Base IntervalModel NoditModel ZosditModel ZosditOps ElsewhereOps Spec InstancesModel Instances
  PointFacts IntervalFacts ListFacts NoditFacts ZosditFacts ZosditMut ZosditProofs ZosditElsewhere.
Import ListNotations.
Open Scope nat_scope.

Section Props.
  Context {I : Type} `{PL : PointLaws I}.
  Context {K : Type} {IK : InclusiveInterval I K} {IL : IntervalLaws I K}.
  Context {V : Type}.
  Context {C Q : Type} {IC : InclusiveInterval I C} {IQ : InclusiveInterval I Q}.
  Implicit Types (z : ZosditMap K V) (k : K) (c : C) (q : Q) (p : I) (v : V).

  (** ** C119 *)
  (** [overlapping] about an interval that shares no point with the interval cut:
      the same entries in the same order, each without what was cut from it. *)
  Theorem C119_overlapping_after_cut_partial : forall z c q, zreachable z -> valid c -> valid q -> ~ overlap c q ->
    exists l l', zosdit_overlapping z q = Val l /\ zosdit_overlapping (fst (zosdit_cut c z)) q = Val l' /\
      (cut_reaches c (zosdit_iter z) /\ Forall2 (clipped c q) l l' \/ ~ cut_reaches c (zosdit_iter z) /\ l' = l).
  Proof.
    intros z c q R Vc Vq N. apply zreachable_ZWF in R. destruct (cuttable_dec z c) as [Cu|Nc].
    - destruct (overlapping_after_cut c q z R Vc Vq N Cu) as (l & l' & E & E' & F). exists l, l'. split; [exact E|]. split; [exact E'|]. left.
      split; [apply (cut_reaches_spec c z R Vc), Cu|exact F].
    - rewrite (cut_not_done z c R Vc Nc). cbn [fst]. destruct (overlapping_lists q z R Vq) as (l & E & _). exists l, l.
      split; [exact E|]. split; [exact E|]. right. split; [|reflexivity]. intros X. apply Nc, (cut_reaches_spec c z R Vc), X.
  Qed.
  (** [is_zero_overlap] about an interval with a point between it and the interval cut. *)
  Theorem C119_zero_overlap_after_cut_partial : forall z c q, zreachable z -> valid c -> valid q ->
    (separated c q -> is_zero_overlap (fst (zosdit_cut c z)) q = is_zero_overlap z q) /\
    (is_zero_overlap z q = Val true -> is_zero_overlap (fst (zosdit_cut c z)) q = Val true).
  Proof.
    intros z c q R Vc Vq. apply zreachable_ZWF in R. split.
    - apply zero_overlap_separated; assumption.
    - apply zero_overlap_after_cut; assumption.
  Qed.
  (** [cut] of an interval that shares no point with the one cut before. *)
  Theorem C119_cut_after_cut_partial : forall z c q, zreachable z -> valid c -> valid q -> ~ overlap c q ->
    let z' := fst (zosdit_cut c z) in
    (cut_reaches q (zosdit_iter z) -> cut_reaches q (zosdit_iter z') ->
       exists out out', snd (zosdit_cut q z) = Val out /\ snd (zosdit_cut q z') = Val out' /\ Forall2 same_entry out out') /\
    (~ cut_reaches q (zosdit_iter z') -> zosdit_cut q z' = (z', Val [])).
  Proof.
    intros z c q R Vc Vq N z'. apply zreachable_ZWF in R. assert (W' : ZWF z') by (apply cut_ZWF, R).
    rewrite (cut_reaches_spec q z R Vq), (cut_reaches_spec q z' W' Vq). split.
    - intros Cq Cq'. destruct (cuttable_dec z c) as [Cu|Nc]; [exact (cut_after_cut c q z R Vc Vq N Cu Cq Cq')|].
      unfold z'. rewrite (cut_not_done z c R Vc Nc). cbn [fst].
      destruct (cut_done z q R Vq Cq) as (z1 & out & E & _). rewrite E. exists out, out. split; [reflexivity|]. split; [reflexivity|].
      clear. induction out as [|e l IH]; constructor; [|exact IH]. split; [intros x; tauto|reflexivity].
    - intros X. exact (cut_not_done z' q W' Vq X).
  Qed.
  (** The calls about a point outside the interval cut. *)
  Theorem C119_point_calls_after_cut_partial : forall z c p, zreachable z -> valid c -> ~ covers c p ->
    let z' := fst (zosdit_cut c z) in
    (point_reached (zosdit_iter z) p -> point_reached (zosdit_iter z') p ->
       get_last_value_at_point z' p = get_last_value_at_point z p /\
       snd (remove_last_value_at_point p z') = snd (remove_last_value_at_point p z)) /\
    (~ point_reached (zosdit_iter z') p -> get_last_value_at_point z' p = None /\ remove_last_value_at_point p z' = (z', Val None)).
  Proof.
    intros z c p R Vc N z'. apply zreachable_ZWF in R. assert (W' : ZWF z') by (apply cut_ZWF, R).
    rewrite (point_reached_spec z p R), (point_reached_spec z' p W'). split.
    - intros Fz Fz'. rewrite (remove_is_get z p R), (remove_is_get z' p W').
      rewrite (point_after_cut c z p R Vc N Fz Fz' : get_last_value_at_point z' p = _). split; reflexivity.
    - intros X. destruct (remove_last_cases z' p W') as [(l1 & l2 & k & v & z2 & _ & _ & _ & _ & _ & _ & _ & _ & _ & F)|(G & Rm & _)]; [tauto|].
      split; [exact G|exact Rm].
  Qed.
  (** A value removed with [remove_last_value_at_point]: the entry it belonged to is gone
      and calls about places outside its interval give the answers they gave. *)
  Theorem C119_after_remove_partial : forall z z' p v, zreachable z -> remove_last_value_at_point p z = (z', Val (Some v)) ->
    exists l1 k l2, zosdit_iter z = l1 ++ (k, v) :: l2 /\ zosdit_iter z' = l1 ++ l2 /\ covers k p /\
      (forall q, ~ overlap k q -> zosdit_overlapping z' q = zosdit_overlapping z q) /\
      (forall q, zero_overlap k q -> is_zero_overlap z' q = is_zero_overlap z q) /\
      (forall x, ~ covers k x -> point_reached (zosdit_iter z) x -> point_reached (zosdit_iter z') x ->
         get_last_value_at_point z' x = get_last_value_at_point z x /\
         snd (remove_last_value_at_point x z') = snd (remove_last_value_at_point x z)) /\
      (forall x, ~ point_reached (zosdit_iter z') x -> get_last_value_at_point z' x = None).
  Proof.
    intros z z' p v R E. apply zreachable_ZWF in R.
    destruct (remove_last_cases z p R) as [(l1 & l2 & k & w & z2 & _ & Rm & E1 & E2 & Hk & _ & _ & W' & _)|(_ & Rm & _)]; rewrite E in Rm; [|discriminate].
    injection Rm as <- <-. exists l1, k, l2. split; [exact E1|]. split; [exact E2|]. split; [apply covers_rk; exact Hk|].
    split; [intros q N; exact (overlapping_removed z z' l1 k v l2 q R W' E1 E2 N)|].
    split; [intros q N; exact (zero_overlap_removed z z' l1 k v l2 q R W' E1 E2 N)|].
    split.
    - intros x N. rewrite (point_reached_spec z x R), (point_reached_spec z' x W'). intros Fz Fz'.
      rewrite (remove_is_get z x R), (remove_is_get z' x W'), (point_removed z z' l1 k v l2 x R W' E1 E2 N Fz Fz'). split; reflexivity.
    - intros x X. rewrite (point_reached_spec z' x W') in X.
      destruct (remove_last_cases z' x W') as [(? & ? & ? & ? & ? & _ & _ & _ & _ & _ & _ & _ & _ & _ & F)|(G & _ & _)]; [tauto|exact G].
  Qed.
End Props.

(** As stated, for every call, it is false.  With [4..=9] and [20..=30] in the map, cutting
    [9..=9] makes the value at 8 unfindable and turns the answer of [is_zero_overlap] about
    [8..=8]; with [1..=6] and [8..=9], cutting [2..=4] makes a later cut of [5..=7] find nothing. *)
Theorem C119_point_calls_refuted : exists (z : ZosditMap (Interval u8) nat) (c : Interval u8) p,
  zreachable z /\ valid c /\ ~ covers c p /\
  get_last_value_at_point z p = Some 1 /\ get_last_value_at_point (fst (zosdit_cut c z)) p = None /\
  last_value (zosdit_iter (fst (zosdit_cut c z))) p 1.
Proof.
  exists (zrun [ZInsertStrictBack (4 --> 9) 1; ZInsertStrictBack (20 --> 30) 2]), (9 --> 9), ('8 : u8).
  split; [eexists; reflexivity|]. split; [exists '9; split; vm_compute; discriminate|].
  split; [intros [A _]; vm_compute in A; apply A; reflexivity|].
  split; [vm_compute; reflexivity|]. split; [vm_compute; reflexivity|].
  exists [], (4 --> 8), [(20 --> 30, 2)]. split; [vm_compute; reflexivity|]. split; [split; vm_compute; discriminate|].
  intros e [<-|[]] [A _]. vm_compute in A. apply A. reflexivity.
Qed.
Theorem C119_zero_overlap_refuted : exists (z : ZosditMap (Interval u8) nat) (c q : Interval u8),
  zreachable z /\ valid c /\ valid q /\ ~ overlap c q /\
  is_zero_overlap z q = Val false /\ is_zero_overlap (fst (zosdit_cut c z)) q = Val true.
Proof.
  exists (zrun [ZInsertStrictBack (4 --> 9) 1; ZInsertStrictBack (20 --> 30) 2]), (9 --> 9), (8 --> 8).
  split; [eexists; reflexivity|]. split; [exists '9; split; vm_compute; discriminate|]. split; [exists '8; split; vm_compute; discriminate|].
  split; [|vm_compute; auto].
  intros (x & (A & _) & (_ & B)). rewrite ple_rk in A, B. pose proof (Z.le_trans _ _ _ A B) as D. rewrite <- ple_rk in D. apply D. vm_compute. reflexivity.
Qed.
Theorem C119_cut_refuted : exists (z : ZosditMap (Interval u8) nat) (c q : Interval u8),
  zreachable z /\ valid c /\ valid q /\ ~ overlap c q /\
  snd (zosdit_cut q z) = Val [(5 --> 6, 1)] /\ zosdit_cut q (fst (zosdit_cut c z)) = (fst (zosdit_cut c z), Val []).
Proof.
  exists (zrun [ZInsertStrictBack (1 --> 6) 1; ZInsertStrictBack (8 --> 9) 2]), (2 --> 4), (5 --> 7).
  split; [eexists; reflexivity|]. split; [exists '2; split; vm_compute; discriminate|]. split; [exists '5; split; vm_compute; discriminate|].
  split; [|vm_compute; auto].
  intros (x & (_ & A) & (B & _)). rewrite ple_rk in A, B. pose proof (Z.le_trans _ _ _ B A) as D. rewrite <- ple_rk in D. apply D. vm_compute. reflexivity.
Qed.

(** [1..=9] and [9..=12] with [20..=30] behind; cutting [4..=6] clips the first for calls
    to the right of it, and to the left of it. *)
Example C119_example_cut :
  let z := zrun [ZInsertStrictBack (1 --> 9) 1; ZInsertStrictBack (9 --> 12) 2; ZInsertStrictBack (20 --> 30) 3] : ZosditMap (Interval u8) nat in
  let z' := fst (zosdit_cut (4 --> 6 : Interval u8) z) in
  zreachable z /\
  snd (zosdit_cut (4 --> 6 : Interval u8) z) = Val [(4 --> 6, 1)] /\
  zosdit_overlapping z (8 --> 10 : Interval u8) = Val [(1 --> 9, 1); (9 --> 12, 2)] /\
  zosdit_overlapping z' (8 --> 10 : Interval u8) = Val [(7 --> 9, 1); (9 --> 12, 2)] /\
  zosdit_overlapping z' (1 --> 2 : Interval u8) = Val [(1 --> 3, 1)] /\
  get_last_value_at_point z '8 = Some 1 /\ get_last_value_at_point z' '8 = Some 1 /\
  get_last_value_at_point z '2 = Some 1 /\ get_last_value_at_point z' '2 = Some 1 /\
  is_zero_overlap z' (8 --> 8 : Interval u8) = is_zero_overlap z (8 --> 8 : Interval u8) /\
  snd (zosdit_cut (8 --> 9 : Interval u8) z) = Val [(8 --> 9, 1); (9 --> 9, 2)] /\
  snd (zosdit_cut (8 --> 9 : Interval u8) z') = Val [(8 --> 9, 1); (9 --> 9, 2)].
Proof. split; [eexists; reflexivity|]. vm_compute. repeat split; reflexivity. Qed.
Example C119_example_separated : separated (4 --> 6 : Interval u8) (8 --> 10 : Interval u8).
Proof.
  exists ('7 : u8). right. split.
  - intros y [_ A]. rewrite ple_rk in A. apply plt_rk. apply (Z.le_lt_trans _ _ _ A). apply plt_rk. vm_compute. reflexivity.
  - intros y [A _]. rewrite ple_rk in A. apply plt_rk. refine (Z.lt_le_trans _ _ _ _ A). apply plt_rk. vm_compute. reflexivity.
Qed.
Example C119_example_remove :
  let z := zrun [ZInsertStrictBack (1 --> 9) 1; ZInsertStrictBack (9 --> 9) 2; ZInsertStrictBack (9 --> 12) 3; ZInsertStrictBack (20 --> 30) 4] : ZosditMap (Interval u8) nat in
  let z' := fst (remove_last_value_at_point '10 z) in
  zreachable z /\ remove_last_value_at_point '10 z = (z', Val (Some 3)) /\
  zosdit_iter z' = [(1 --> 9, 1); (9 --> 9, 2); (20 --> 30, 4)] /\
  zosdit_overlapping z' (2 --> 4 : Interval u8) = Val [(1 --> 9, 1)] /\
  get_last_value_at_point z' '5 = Some 1 /\ get_last_value_at_point z '5 = Some 1 /\
  is_zero_overlap z' (7 --> 8 : Interval u8) = Val false /\ is_zero_overlap z (7 --> 8 : Interval u8) = Val false.
Proof. split; [eexists; reflexivity|]. vm_compute. repeat split; reflexivity. Qed.
Print Assumptions C119_overlapping_after_cut_partial.
Print Assumptions C119_zero_overlap_after_cut_partial.
Print Assumptions C119_cut_after_cut_partial.
Print Assumptions C119_point_calls_after_cut_partial.
Print Assumptions C119_after_remove_partial.
Print Assumptions C119_point_calls_refuted.
Print Assumptions C119_zero_overlap_refuted.
Print Assumptions C119_cut_refuted.
