(** * PropsOverride: interval types that override the provided methods of
      [InclusiveInterval] (C141).

    [agrees_valid], [sound_valid], [agrees_overlaps], [finds_all], [misses_none]
    and [safe_query] are in [OverrideOps]. *)
From Coq Require Import List ZArith Bool Lia.
From Verif Require Import Base BTree UtilsModel IntervalModel NoditModel NoditOps OverrideModel OverrideOps
  Spec InstancesModel Instances PointFacts IntervalFacts NoditFacts NoditQueries NoditInv OverrideFacts PropsNodit.
Import ListNotations.
Open Scope nat_scope.

Section Override.
  Context {I : Type} `{PL : PointLaws I}.
  Context {K : Type} {IK : InclusiveInterval I K} {IL : IntervalLaws I K}.
  Context {Q : Type} {IQ : InclusiveInterval I Q}.
  Context {V : Type}.
  Implicit Types (m : NoditMap K V) (k : K) (q : Q) (v : V) (p : I).
  Context (k_valid : K -> bool) (k_overlaps : K -> K -> outcome bool).
  Context (q_valid : Q -> bool) (q_overlaps : Q -> K -> outcome bool) (k_overlaps_q : K -> Q -> outcome bool).

  (** Overriding methods that answer what the provided ones answer change
      nothing. *)
  Theorem C141_agreeing_changes : agrees_valid k_valid -> agrees_overlaps k_overlaps ->
    forall m k v veq l, reachable m ->
    insert_strict_o k_valid k v m = insert_strict k v m /\
    insert_merge_touching_o k_valid k_overlaps k v m = insert_merge_touching k v m /\
    insert_merge_touching_if_values_equal_o k_valid k_overlaps veq k v m = insert_merge_touching_if_values_equal veq k v m /\
    insert_merge_overlapping_o k_valid k_overlaps k v m = insert_merge_overlapping k v m /\
    insert_merge_touching_or_overlapping_o k_valid k_overlaps k v m = insert_merge_touching_or_overlapping k v m /\
    insert_overwrite_o k_valid k_overlaps k v m = insert_overwrite k v m /\
    extend_strict_o k_valid l new = from_iter_strict (l : list (K * V)).
  Proof.
    intros Hv Ho m k v veq l R. pose proof (reachable_WF m R) as W.
    split; [apply insert_strict_o_agree, Hv|]. split; [apply merge_touching_o_agree; assumption|].
    split; [apply merge_if_equal_o_agree; assumption|]. split; [apply merge_overlapping_o_agree; assumption|].
    split; [apply merge_tor_o_agree; assumption|]. split; [apply insert_overwrite_o_agree; assumption|].
    apply extend_strict_o_agree, Hv.
  Qed.
  Theorem C141_agreeing_queries : agrees_valid k_valid -> agrees_valid q_valid ->
    agrees_overlaps q_overlaps -> agrees_overlaps k_overlaps_q ->
    forall m q f, reachable m ->
    overlapping_o q_valid m q = overlapping m q /\
    map_overlaps_o q_valid m q = map_overlaps m q /\
    overlapping_mut_o q_valid f q m = overlapping_mut f q m /\
    remove_overlapping_o q_valid q_overlaps q m = remove_overlapping q m /\
    cut_o q_valid k_overlaps_q q m = cut q m /\
    gaps_untrimmed_o k_valid q_valid m q = gaps_untrimmed m q /\
    gaps_trimmed_o k_valid q_valid m q = gaps_trimmed m q.
  Proof.
    intros Hv Hq Ho Ho' m q f R. pose proof (reachable_WF m R) as W.
    split; [apply overlapping_o_agree, Hq|]. split; [apply map_overlaps_o_agree, Hq|].
    split; [apply overlapping_mut_o_agree, Hq|]. split; [apply remove_overlapping_o_agree; assumption|].
    split; [apply cut_o_agree; assumption|]. split; [apply gaps_untrimmed_o_agree; assumption|].
    apply gaps_trimmed_o_agree; assumption.
  Qed.

  (** The entries stay valid, in order and disjoint as long as the [is_valid] of
      the key type (and of the types given to [cut]) accepts no inverted
      interval and its [overlaps] denies no overlap: it may find overlaps where
      there are none, or panic. *)
  Theorem C141_stays_well_formed : sound_valid k_valid -> misses_none k_overlaps ->
    forall os : list (op_o I K V), Forall safe_query os ->
    ascending (map fst (iter (run_o k_valid k_overlaps os))) /\ Forall valid (map fst (iter (run_o k_valid k_overlaps os))).
  Proof. intros Hv Ho os Hs. apply ascending_WF, run_o_WF; assumption. Qed.

  (** Such a map is one that calls without overriding could build, so every
      statement about reachable maps applies to it. *)
  Theorem C141_reachable : sound_valid k_valid -> misses_none k_overlaps ->
    forall os : list (op_o I K V), Forall safe_query os -> reachable (run_o k_valid k_overlaps os).
  Proof. intros Hv Ho os Hs. apply WF_reachable, run_o_WF; assumption. Qed.

  (** Whatever the [overlaps] of keys answers on the query type, [cut] changes
      no point outside the given interval and gives no point a new value. *)
  Theorem C141_cut_outside : sound_valid q_valid -> forall m q, reachable m ->
    let m' := fst (cut_o q_valid k_overlaps_q q m) in
    reachable m' /\ (forall p v, ~ covers q p -> (maps_to m' p v <-> maps_to m p v)) /\
    (forall p v, maps_to m' p v -> maps_to m p v).
  Proof.
    intros Hv m q R. destruct (cut_o_any q_valid k_overlaps_q q m (reachable_WF m R) Hv) as [W [K1 K2]].
    split; [apply WF_reachable, W|]. split; [|exact K2]. intros p v Nc. split; [apply K2|apply K1, Nc].
  Qed.

  (** If it finds every overlap, the points of the interval are gone after
      [cut] and no others, also when the call panics because it saw an overlap
      that is none; and if the call returns, it returns what is documented. *)
  Theorem C141_cut_finds_all : finds_all k_overlaps_q -> forall m q, reachable m -> valid q -> q_valid q = true ->
    forall p v, maps_to (fst (cut_o q_valid k_overlaps_q q m)) p v <-> maps_to m p v /\ ~ covers q p.
  Proof. intros Ho m q R Vq Ev. apply cut_o_points; try assumption. apply reachable_WF, R. Qed.
  Theorem C141_cut_returns : misses_none k_overlaps_q -> forall m q m' l, reachable m -> valid q ->
    cut_o q_valid k_overlaps_q q m = (m', Val l) -> cut q m = (m', Val l).
  Proof. intros Ho m q m' l R Vq. apply cut_o_val; try assumption. apply reachable_WF, R. Qed.
  Theorem C141_overwrite_returns : sound_valid k_valid -> misses_none k_overlaps -> forall m k v m' l, reachable m ->
    insert_overwrite_o k_valid k_overlaps k v m = (m', Val l) -> insert_overwrite k v m = (m', Val l).
  Proof. intros Hv Ho m k v m' l R. apply insert_overwrite_o_val; try assumption. apply reachable_WF, R. Qed.
End Override.

(** ** Examples: an [overlaps] that finds too much *)
Definition sees_all (a b : Interval u8) : outcome bool := Val true.
Definition grumpy (a b : Interval u8) : outcome bool := if ltb ('35) (istart a) then Panic else overlaps a b.
Lemma sees_all_misses_none : misses_none sees_all.
Proof. intros a b _ _ _. discriminate. Qed.
Lemma sees_all_finds_all : finds_all sees_all.
Proof. intros a b _ _ _. reflexivity. Qed.
Lemma is_valid_agrees : agrees_valid (is_valid : Interval u8 -> bool).
Proof. intros a. apply is_valid_true. Qed.
Lemma overlaps_agrees : agrees_overlaps (overlaps : Interval u8 -> Interval u8 -> outcome bool).
Proof.
  intros a b Va Vb. rewrite overlaps_true by (apply valid_rk; assumption). eexists. split; [reflexivity|].
  rewrite overlap_rk. apply valid_rk in Va. apply valid_rk in Vb. lia.
Qed.

Example ex_C141_map : NoditMap (Interval u8) nat := run [OpInsertStrict (1 --> 9) 1; OpInsertStrict (11 --> 15) 2; OpInsertStrict (30 --> 40) 3].
(** The agreeing case has something to remove, cut and merge. *)
Example ex_C141_agreeing :
  let (m', r) := cut_o is_valid overlaps (5 --> 12 : Interval u8) ex_C141_map in
  (m', r) = ([(1 --> 4, 1); (13 --> 15, 2); (30 --> 40, 3)], Val [(5 --> 9, 1); (11 --> 12, 2)]) /\
  insert_merge_touching_or_overlapping_o is_valid overlaps (10 --> 12) 7 ex_C141_map = ([(1 --> 15, 7); (30 --> 40, 3)], Val (1 --> 15)).
Proof. vm_compute. auto. Qed.
(** [cut] with an [overlaps] that always says yes: the panic comes after the
    interval has been cut. *)
Example ex_C141_cut_keen :
  cut_o is_valid sees_all (5 --> 12 : Interval u8) ex_C141_map = ([(1 --> 4, 1); (13 --> 15, 2); (30 --> 40, 3)], Panic).
Proof. vm_compute. reflexivity. Qed.
(** An [overlaps] that panics on some keys: the calls that return return the
    documented results. *)
Lemma grumpy_misses_none : misses_none grumpy.
Proof.
  intros a b Va Vb O. unfold grumpy. destruct (ltb _ _); [discriminate|].
  destruct (overlaps_agrees a b Va Vb) as [x [-> Hx]]. apply Hx in O. subst. discriminate.
Qed.
Example ex_C141_returns :
  cut_o is_valid grumpy (5 --> 12 : Interval u8) ex_C141_map = ([(1 --> 4, 1); (13 --> 15, 2); (30 --> 40, 3)], Val [(5 --> 9, 1); (11 --> 12, 2)]) /\
  insert_overwrite_o is_valid grumpy (5 --> 12 : Interval u8) 8 ex_C141_map
    = ([(1 --> 4, 1); (5 --> 12, 8); (13 --> 15, 2); (30 --> 40, 3)], Val [(5 --> 9, 1); (11 --> 12, 2)]) /\
  snd (cut_o is_valid grumpy (5 --> 35 : Interval u8) (ex_C141_map ++ [(50 --> 60, 4)])) = Panic.
Proof. vm_compute. auto. Qed.
(** With [sees_all], a merging insertion loses the entries behind the
    new one, but the map stays in order. *)
Definition ex_C141_ops : list (op_o u8 (Interval u8) nat) :=
  [OInsertStrict (1 --> 9) 1; OInsertStrict (30 --> 40) 3; OInsertMergeTouching (10 --> 12) 7].
Example ex_C141_merge_keen : run_o is_valid sees_all ex_C141_ops = [(1 --> 12, 7)] /\ Forall safe_query ex_C141_ops.
Proof. split; [vm_compute; reflexivity|]. repeat apply Forall_cons; try exact Logic.I; apply Forall_nil. Qed.

(** ** None of the conditions can be dropped *)

(** An [overlaps] of the key type that denies an overlap: two overlapping
    entries after [insert_overwrite]. *)
Definition denies (a b : Interval u8) : outcome bool := Val false.
Definition ex_C141_denied : list (op_o u8 (Interval u8) nat) := [OInsertStrict (1 --> 9) 1; OInsertOverwrite (5 --> 12) 2].
Theorem C141_needs_key_overlaps : exists (k_overlaps : Interval u8 -> Interval u8 -> outcome bool) (os : list (op_o u8 (Interval u8) nat)),
  (forall a b, exists x, k_overlaps a b = Val x /\ (x = true -> overlap a b \/ ~ valid a \/ ~ valid b)) /\
  Forall safe_query os /\
  ~ ascending (map fst (iter (run_o is_valid k_overlaps os))).
Proof.
  exists denies, ex_C141_denied.
  split; [intros a b; exists false; split; [reflexivity|discriminate]|].
  split; [repeat apply Forall_cons; try exact Logic.I; apply Forall_nil|].
  assert (E : run_o is_valid denies ex_C141_denied = [(1 --> 9, 1); (5 --> 12, 2)]) by (vm_compute; reflexivity).
  rewrite E. intros A. inversion A as [|? ? _ F]; subst. inversion F as [|? ? L _]; subst.
  assert (X : plt ('7 : u8) ('7)) by (apply L; vm_compute; split; discriminate). vm_compute in X. discriminate.
Qed.

(** An [is_valid] of the key type that accepts inverted intervals: one is
    stored. *)
Theorem C141_needs_key_valid : exists (k_valid : Interval u8 -> bool) (os : list (op_o u8 (Interval u8) nat)),
  (forall a, valid a -> k_valid a = true) /\ Forall safe_query os /\
  ~ Forall valid (map fst (iter (run_o k_valid overlaps os))).
Proof.
  exists (fun _ => true), [OInsertStrict (mkInterval ('9) ('1)) 1].
  split; [reflexivity|]. split; [repeat apply Forall_cons; try exact Logic.I; apply Forall_nil|].
  assert (E : run_o (fun _ => true) overlaps [OInsertStrict (mkInterval ('9) ('1) : Interval u8) 1] = [(mkInterval ('9) ('1), 1)]) by (vm_compute; reflexivity).
  rewrite E. intros F. inversion F as [|? ? X _]; subst. apply is_valid_true in X. vm_compute in X. discriminate.
Qed.

(** The same for a query type: [cut] leaves two overlapping entries behind
    before it panics. *)
Theorem C141_needs_query_valid : exists (q_valid : Interval u8 -> bool) (q : Interval u8),
  (forall a, valid a -> q_valid a = true) /\
  let m : NoditMap (Interval u8) nat := run [OpInsertStrict (0 --> 10) 1] in
  cut_o q_valid overlaps q m = ([(0 --> 6, 1); (4 --> 10, 1)], Panic).
Proof. exists (fun _ => true), (mkInterval ('7) ('3)). split; [reflexivity|]. vm_compute. reflexivity. Qed.
Print Assumptions C141_agreeing_changes.
Print Assumptions C141_agreeing_queries.
Print Assumptions C141_stays_well_formed.
Print Assumptions C141_reachable.
Print Assumptions C141_cut_outside.
Print Assumptions C141_cut_finds_all.
Print Assumptions C141_cut_returns.
Print Assumptions C141_overwrite_returns.
Print Assumptions C141_needs_key_overlaps.
Print Assumptions C141_needs_key_valid.
Print Assumptions C141_needs_query_valid.
