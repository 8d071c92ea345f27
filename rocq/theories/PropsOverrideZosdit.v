(** * PropsOverrideZosdit: ZosditMaps with interval types that override the
      provided methods of [InclusiveInterval] (C142).

    [agrees_valid], [sound_valid], [agrees_overlaps] and [misses_none] are in
    [OverrideOps], [agrees_contains] and [safe_zquery] in [OverrideZosditOps],
    [values_at] is in [Ledger]. *)
From Coq Require Import List ZArith Bool Lia Sorted.
From Verif Require Import Base BTree UtilsModel IntervalModel NoditModel ZosditModel ZosditOps OverrideModel OverrideOps
  OverrideZosditModel OverrideZosditOps Spec Ledger InstancesModel Instances PointFacts IntervalFacts NoditFacts ZosditFacts
  ZosditProofs AccountFacts OverrideFacts OverrideZosditFacts PropsOverride.
Import ListNotations.
Open Scope nat_scope.

Section Override.
  Context {I : Type} `{PL : PointLaws I}.
  Context {K : Type} {IK : InclusiveInterval I K} {IL : IntervalLaws I K}.
  Context {Q : Type} {IQ : InclusiveInterval I Q}.
  Context {V : Type}.
  Implicit Types (z : ZosditMap K V) (k : K) (q : Q) (v : V) (p : I).
  Context (k_valid : K -> bool) (k_contains : K -> I -> outcome bool).
  Context (q_valid : Q -> bool) (k_overlaps : K -> Q -> outcome bool).

  (** Overriding methods that answer what the provided ones answer change
      nothing. *)
  Theorem C142_agreeing : agrees_valid k_valid -> agrees_contains k_contains -> agrees_valid q_valid -> agrees_overlaps k_overlaps ->
    forall z k v p q l, zreachable z ->
    insert_strict_back_o k_valid k v z = insert_strict_back k v z /\
    extend_strict_back_o k_valid l z_new = from_iter_strict_back (l : list (K * V)) /\
    get_last_value_at_point_o k_contains z p = Val (get_last_value_at_point z p) /\
    remove_last_value_at_point_o k_contains p z = remove_last_value_at_point p z /\
    is_zero_overlap_o q_valid z q = is_zero_overlap z q /\
    zosdit_overlapping_o q_valid z q = zosdit_overlapping z q /\
    zosdit_cut_o q_valid k_overlaps q z = zosdit_cut q z.
  Proof.
    intros Hv Hc Hq Ho z k v p q l R. pose proof (zreachable_ZWF z R) as W.
    split; [apply insert_back_o_agree, Hv|]. split; [apply extend_back_o_agree, Hv|]. split; [apply get_last_o_agree, Hc|].
    split; [apply remove_last_o_agree, Hc|]. split; [apply is_zero_overlap_o_agree, Hq|]. split; [apply overlapping_zo_agree, Hq|].
    apply zcut_o_agree; assumption.
  Qed.

  (** Whatever [overlaps] and [contains_point] answer, and whichever calls
      panic, the entries stay valid, ascending and zero-overlapping, and a
      non-singular interval has one value: only [is_valid] must not accept
      inverted intervals. *)
  Theorem C142_stays_well_formed : sound_valid k_valid -> forall os : list (zop_o I K V), Forall safe_zquery os ->
    let z := zrun_o k_valid k_contains os in let l := map fst (zosdit_iter z) in
    Forall valid l /\ StronglySorted up_to l /\ ForallOrdPairs zero_overlap l /\
    (forall l1 e l2, zosdit_iter z = l1 ++ e :: l2 -> ~ singular (fst e) ->
       forall e', In e' (l1 ++ l2) -> ~ same_points (fst e') (fst e)) /\
    length (zosdit_iter z) <= zosdit_len z.
  Proof.
    intros Hv os Hs z l. assert (W : ZWF z) by (apply zrun_o_ZWF; assumption).
    destruct (iter_sorted z W) as (A1 & A2 & _ & A4). split; [exact A1|]. split; [exact A2|]. split; [exact A4|].
    split; [intros l1 e l2; apply iter_once, W|]. apply W.
  Qed.

  (** [remove_last_value_at_point] takes out one value of an interval that is
      said to contain the point, or changes nothing. *)
  Theorem C142_remove : forall z p, zreachable z ->
    (fst (remove_last_value_at_point_o k_contains p z) = z /\
       (snd (remove_last_value_at_point_o k_contains p z) = Panic \/ snd (remove_last_value_at_point_o k_contains p z) = Val None)) \/
    (exists z' l1 k v l2, remove_last_value_at_point_o k_contains p z = (z', Val (Some v)) /\ k_contains k p = Val true /\
       zosdit_iter z = l1 ++ (k, v) :: l2 /\ zosdit_iter z' = l1 ++ l2).
  Proof.
    intros z p R. destruct (remove_last_o_any k_contains z p (zreachable_ZWF z R)) as [X|(z' & l1 & k & v & l2 & E & Ek & _ & E1 & E2)]; [auto|].
    right. exists z', l1, k, v, l2. auto.
  Qed.

  (** Whatever [overlaps] answers, [cut] leaves the values at every point
      outside the given interval as they are, in their order, and gives no
      point a value it did not have. *)
  Theorem C142_cut_outside : sound_valid q_valid -> forall z q, zreachable z ->
    let z' := fst (zosdit_cut_o q_valid k_overlaps q z) in
    (forall p vs, ~ covers q p -> (values_at (zosdit_iter z') p vs <-> values_at (zosdit_iter z) p vs)) /\
    (forall p vs vs', values_at (zosdit_iter z) p vs -> values_at (zosdit_iter z') p vs' -> incl vs' vs).
  Proof.
    intros Hv z q R z'. destruct (zcut_o_any q_valid k_overlaps q z (zreachable_ZWF z R) Hv) as [_ [K1 K2]]. fold z' in K1, K2.
    fold (zosdit_iter z') (zosdit_iter z) in K1, K2. split.
    - intros p vs Np. rewrite !values_at_vals, K1 by exact Np. reflexivity.
    - intros p vs vs'. rewrite !values_at_vals. intros -> ->. apply K2.
  Qed.

  (** If [overlaps] denies no overlap, a [cut] that returns does what the one
      with the provided [overlaps] does. *)
  Theorem C142_cut_returns : misses_none k_overlaps -> forall z q z' l, zreachable z -> valid q ->
    zosdit_cut_o q_valid k_overlaps q z = (z', Val l) -> zosdit_cut q z = (z', Val l).
  Proof. intros Ho z q z' l R Vq. apply zcut_o_val; try assumption. apply zreachable_ZWF, R. Qed.
End Override.

(** ** Examples *)
Definition ex_C142_map : ZosditMap (Interval u8) nat :=
  zrun [ZFromIter [(1 --> 9, 1); (9 --> 9, 2); (9 --> 9, 3); (9 --> 15, 4); (30 --> 40, 5)]].
Definition says_yes (k : Interval u8) (p : u8) : outcome bool := Val true.
Lemma contains_agrees : agrees_contains (fun (k : Interval u8) p => Val (contains_point k p)).
Proof. intros k p. eexists. split; [reflexivity|apply contains_point_true]. Qed.
(** A [contains_point] that always says yes: a value elsewhere is removed. *)
Example ex_C142_remove : exists z', remove_last_value_at_point_o says_yes ('20) ex_C142_map = (z', Val (Some 5)) /\
  zosdit_iter z' = [(1 --> 9, 1); (9 --> 9, 2); (9 --> 9, 3); (9 --> 15, 4)].
Proof. eexists. vm_compute. split; reflexivity. Qed.
(** An [overlaps] that always says yes: [cut] panics after the interval is cut. *)
Example ex_C142_cut_keen : let (z', r) := zosdit_cut_o is_valid sees_all (5 --> 12 : Interval u8) ex_C142_map in
  r = Panic /\ zosdit_iter z' = [(1 --> 4, 1); (13 --> 15, 4); (30 --> 40, 5)].
Proof. vm_compute. split; reflexivity. Qed.
(** One that always says no: [cut] does nothing. *)
Example ex_C142_cut_denied : zosdit_cut_o is_valid denies (5 --> 12 : Interval u8) ex_C142_map = (ex_C142_map, Val []).
Proof. vm_compute. reflexivity. Qed.
Example ex_C142_returns : exists z', zosdit_cut_o is_valid grumpy (5 --> 12 : Interval u8) ex_C142_map
  = (z', Val [(5 --> 9, 1); (9 --> 9, 2); (9 --> 9, 3); (9 --> 12, 4)]).
Proof. eexists. vm_compute. reflexivity. Qed.
Definition ex_C142_ops : list (zop_o u8 (Interval u8) nat) :=
  [ZOFromIter [(1 --> 9, 1); (9 --> 15, 4)]; ZOInsertStrictBack (9 --> 9) 2; ZOCut is_valid sees_all (12 --> 12 : Interval u8); ZORemoveLast ('50)].
Example ex_C142_safe : Forall safe_zquery ex_C142_ops /\
  zosdit_iter (zrun_o is_valid says_yes ex_C142_ops) = [(1 --> 9, 1); (9 --> 9, 2); (9 --> 11, 4)].
Proof.
  split; [|vm_compute; reflexivity]. repeat apply Forall_cons; try exact Logic.I; [|apply Forall_nil].
  intros a. apply is_valid_true.
Qed.

(** ** The condition on [is_valid] cannot be dropped *)
Theorem C142_needs_key_valid : exists (k_valid : Interval u8 -> bool) (os : list (zop_o u8 (Interval u8) nat)),
  (forall a, valid a -> k_valid a = true) /\ Forall safe_zquery os /\
  ~ Forall valid (map fst (zosdit_iter (zrun_o k_valid (fun k p => Val (contains_point k p)) os))).
Proof.
  exists (fun _ => true), [ZOInsertStrictBack (mkInterval ('9) ('1)) 1].
  split; [reflexivity|]. split; [repeat apply Forall_cons; try exact Logic.I; apply Forall_nil|].
  assert (E : zosdit_iter (zrun_o (fun _ => true) (fun k p => Val (contains_point k p)) [ZOInsertStrictBack (mkInterval ('9) ('1) : Interval u8) 1])
    = [(mkInterval ('9) ('1), 1)]) by (vm_compute; reflexivity).
  rewrite E. intros F. inversion F as [|? ? X _]; subst. apply is_valid_true in X. vm_compute in X. discriminate.
Qed.
Theorem C142_needs_query_valid : exists (q_valid : Interval u8 -> bool) (q : Interval u8),
  (forall a, valid a -> q_valid a = true) /\
  let z : ZosditMap (Interval u8) nat := zrun [ZInsertStrictBack (0 --> 10) 1] in
  zosdit_iter (fst (zosdit_cut_o q_valid overlaps q z)) = [(0 --> 6, 1); (4 --> 10, 1)].
Proof. exists (fun _ => true), (mkInterval ('7) ('3)). split; [reflexivity|]. vm_compute. reflexivity. Qed.
Print Assumptions C142_agreeing.
Print Assumptions C142_stays_well_formed.
Print Assumptions C142_remove.
Print Assumptions C142_cut_outside.
Print Assumptions C142_cut_returns.
Print Assumptions C142_needs_key_valid.
Print Assumptions C142_needs_query_valid.
