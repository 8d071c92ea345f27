(** * PropsWidth: the counter of a ZosditMap is a [usize] (C118). *)
From Coq Require Import List ZArith Arith Bool Sorting.Sorted Lia.
From Verif Require Import Base BTree UtilsModel IntervalModel InstancesModel NoditModel NoditOps ZosditModel ZosditOps WidthModel
  Spec PointFacts Instances ZosditFacts ZosditProofs WidthFacts.
Import ListNotations.
Open Scope nat_scope.

Section Props.
  Context {I : Type} {OI : Ord I} {DI : DiscreteFinite I} {PL : PointLaws I}.
  Context {K : Type} {IK : InclusiveInterval I K} {IL : IntervalLaws I K}.
  Context {V : Type}.
  Implicit Types (os : list (zop I K V)) (k : K) (v : V).

  (** ** C118 The width of the counter

      [cap] is [usize::MAX] and [zrun_u b cap os] is what the history [os]
      leaves in a build [b].  Full claim: the counter does not overflow as long
      as the map never holds more than [cap] entries.  False, see below. *)

  (** Without overflow checks: the entries, and every answer but [len] and
      [is_empty], are those of the unbounded model. *)
  Theorem C118_wrapping_entries : forall cap os, zosdit_iter (zrun_u Wrapping cap os) = zosdit_iter (zrun os).
  Proof. intros cap os. rewrite zrun_wrap. reflexivity. Qed.
  Theorem C118_wrapping_answers : forall cap os,
    let z := zrun_u Wrapping cap os in
    (forall k v, snd (insert_strict_back_u Wrapping cap k v z) = snd (insert_strict_back k v (zrun os))) /\
    (forall p, snd (remove_last_value_at_point p z) = snd (remove_last_value_at_point p (zrun os))) /\
    (forall p, get_last_value_at_point z p = get_last_value_at_point (zrun os) p) /\
    (forall Q (IQ : InclusiveInterval I Q) (q : Q),
       snd (zosdit_cut_u Wrapping cap q z) = snd (zosdit_cut q (zrun os)) /\
       zosdit_overlapping z q = zosdit_overlapping (zrun os) q /\
       is_zero_overlap z q = is_zero_overlap (zrun os) q).
  Proof.
    intros cap os z. unfold z. rewrite zrun_wrap. split; [intros; rewrite insert_wrap; reflexivity|].
    split; [intros; rewrite remove_wrap; reflexivity|]. split; [reflexivity|]. intros Q IQ q.
    split; [rewrite cut_wrap by apply zrun_ZWF; reflexivity|]. split; reflexivity.
  Qed.
  (** ... and [len] is the number of entries and of removals since the map was
      created, modulo [cap + 1]. *)
  Theorem C118_wrapping_len : forall cap os,
    zosdit_len (zrun_u Wrapping cap os) = (length (zosdit_iter (zrun os)) + removed os) mod S cap.
  Proof. intros cap os. rewrite zrun_wrap, <- removed_len. reflexivity. Qed.
  Theorem C118_wrapping_is_empty : forall cap os,
    zosdit_is_empty (zrun_u Wrapping cap os) = true <-> exists n, length (zosdit_iter (zrun os)) + removed os = n * S cap.
  Proof.
    intros cap os. unfold zosdit_is_empty. rewrite Nat.eqb_eq. change (z_len (zrun_u Wrapping cap os)) with (zosdit_len (zrun_u Wrapping cap os)).
    rewrite C118_wrapping_len, Nat.mod_divide by discriminate. reflexivity.
  Qed.

  (** With overflow checks: the bound is not felt as long as entries and
      removals together stay two below it. *)
  Theorem C118_checked_partial : forall cap os,
    (forall os1 os2, os = os1 ++ os2 -> length (zosdit_iter (zrun os1)) + removed os1 + 2 <= cap) ->
    zrun_u Checked cap os = zrun os /\
    (forall k v, insert_strict_back_u Checked cap k v (zrun_u Checked cap os) = insert_strict_back k v (zrun os)) /\
    (forall Q (IQ : InclusiveInterval I Q) (q : Q), zosdit_cut_u Checked cap q (zrun_u Checked cap os) = zosdit_cut q (zrun os)).
  Proof.
    intros cap os L.
    assert (L' : forall os1 os2, os = os1 ++ os2 -> z_len (zrun os1) + 2 <= cap).
    { intros os1 os2 E. change (z_len (zrun os1)) with (zosdit_len (zrun os1)). rewrite removed_len. apply (L os1 os2 E). }
    rewrite (zrun_checked cap os L'). specialize (L' os [] ltac:(rewrite app_nil_r; reflexivity)).
    split; [reflexivity|]. split; [intros; apply insert_checked; lia|]. intros Q IQ q. apply cut_checked; [apply zrun_ZWF|exact L'].
  Qed.
  (** In particular a history that removes nothing is only bounded by the
      number of entries. *)
  Theorem C118_no_removals_partial : forall cap os,
    (forall os1 os2, os = os1 ++ os2 -> removed os1 = 0 /\ length (zosdit_iter (zrun os1)) + 2 <= cap) ->
    zrun_u Checked cap os = zrun os.
  Proof.
    intros cap os L. apply C118_checked_partial. intros os1 os2 E. destruct (L os1 os2 E) as [-> N]. lia.
  Qed.
  (** The insertion that finds the counter at its maximum panics, and the entry
      is stored without being counted. *)
  Theorem C118_checked_insert : forall cap os k v z', zrun_u Checked cap os = zrun os ->
    length (zosdit_iter (zrun os)) + removed os = cap ->
    insert_strict_back k v (zrun os) = (z', Val (Ok tt)) ->
    exists z'', insert_strict_back_u Checked cap k v (zrun_u Checked cap os) = (z'', Panic) /\
      zosdit_iter z'' = zosdit_iter z' /\ zosdit_len z'' = cap.
  Proof.
    intros cap os k v z' E L Ei. rewrite E. rewrite <- removed_len in L. eexists. split; [exact (insert_over cap k v _ z' L Ei)|].
    split; [reflexivity|exact L].
  Qed.
  (** Whatever overflows, the entries stay valid and ordered. *)
  Theorem C118_order : forall b cap os, let l := map fst (zosdit_iter (zrun_u b cap os)) in
    Forall valid l /\ StronglySorted up_to l /\
    StronglySorted (fun a b => ple (istart a) (istart b) /\ ple (iend a) (iend b)) l /\
    ForallOrdPairs zero_overlap l.
  Proof. exact width_order. Qed.
  (** A [cut] stopped by an overflow has cut the entries [l1]; of the values
      [o] of one interval only pieces outside [q] are left, and the rest of the
      map is as it was. *)
  Theorem C118_stopped_cut : forall b cap os Q (IQ : InclusiveInterval I Q) (q : Q) z', valid q ->
    let z := zrun_u b cap os in zosdit_cut_u b cap q z = (z', Panic) ->
    exists l0 l1 o l2 ls r, zosdit_iter z = l0 ++ l1 ++ o ++ l2 /\ zosdit_iter z' = l0 ++ concat ls ++ r ++ l2 /\
      Forall2 (leaves q) l1 ls /\ Forall (fun e => overlap (fst e) q) (l1 ++ o) /\
      (exists k0, Forall (fun e => fst e = k0) o) /\
      (forall e, In e r -> exists e0, In e0 o /\ snd e = snd e0 /\
         forall p, covers (fst e) p -> covers (fst e0) p /\ ~ covers q p).
  Proof. exact width_stopped. Qed.
End Props.

(** The full claim fails at every width: a map that never holds more than one
    entry.  With checks the insertion of that entry panics; without them the map
    with the entry says it is empty. *)
Definition C118_round : list (zop u8 (Interval u8) nat) := [ZInsertStrictBack (0 --> 1) 7; ZRemoveLast '0].
Theorem C118_overflow_refuted : forall cap, exists ops : list (zop u8 (Interval u8) nat),
  (forall b os1 os2, ops = os1 ++ os2 -> length (zosdit_iter (zrun_u b cap os1)) <= 1) /\
  (forall b, zosdit_iter (zrun_u b cap ops) = []) /\
  snd (insert_strict_back_u Checked cap (0 --> 1 : Interval u8) 7 (zrun_u Checked cap ops)) = Panic /\
  (let z := fst (insert_strict_back_u Wrapping cap (0 --> 1 : Interval u8) 7 (zrun_u Wrapping cap ops)) in
   zosdit_iter z = [(0 --> 1, 7)] /\ zosdit_len z = 0 /\ zosdit_is_empty z = true).
Proof.
  intros cap. exists (concat (repeat C118_round cap)).
  assert (Ei : forall b m, m + 1 <= cap -> insert_strict_back_u b cap (0 --> 1 : Interval u8) 7 (mkZosdit m []) = (mkZosdit (m + 1) [(0 --> 1, [7])], Val (Ok tt))).
  { intros b m L. unfold insert_strict_back_u.
    assert (U : uadd b cap m 1 = Val (m + 1)).
    { destruct b; [apply uadd_checked, L|]. unfold uadd. rewrite Nat.mod_small by lia. reflexivity. }
    cbn [z_len]. rewrite U. reflexivity. }
  assert (Rn : forall b n m, m + n <= cap -> fold_left (zstep_u b cap) (concat (repeat C118_round n)) (mkZosdit m []) = mkZosdit (m + n) []).
  { intros b n. induction n as [|n IH]; intros m L; [rewrite Nat.add_0_r; reflexivity|]. cbn [repeat concat C118_round app fold_left zstep_u].
    rewrite Ei by lia. cbn [fst]. change (fst (remove_last_value_at_point ('0 : u8) (mkZosdit (m + 1) [((0 --> 1 : Interval u8), [7])]))) with (mkZosdit (K := Interval u8) (V := nat) (m + 1) []).
    rewrite IH by lia. f_equal. lia. }
  assert (Pn : forall b n m os1 os2, m + n <= cap -> concat (repeat C118_round n) = os1 ++ os2 ->
    length (zosdit_iter (fold_left (zstep_u b cap) os1 (mkZosdit m []))) <= 1).
  { intros b n. induction n as [|n IH]; intros m os1 os2 L E.
    - cbn in E. destruct os1; [cbn; lia|discriminate].
    - destruct os1 as [|a [|a' os1]]; [cbn; lia| |].
      + cbn in E. injection E as <- _. cbn [fold_left zstep_u]. rewrite Ei by lia. cbn. lia.
      + cbn [repeat concat C118_round app] in E. injection E as <- <- E. cbn [fold_left zstep_u].
        rewrite Ei by lia. cbn [fst]. change (fst (remove_last_value_at_point ('0 : u8) (mkZosdit (m + 1) [((0 --> 1 : Interval u8), [7])]))) with (mkZosdit (K := Interval u8) (V := nat) (m + 1) []).
        apply (IH _ _ os2); [lia|exact E]. }
  split; [intros b os1 os2 E; apply (Pn b cap 0 os1 os2); [lia|exact E]|].
  assert (R : forall b, zrun_u b cap (concat (repeat C118_round cap)) = mkZosdit cap []) by (intros b; apply (Rn b cap 0); lia).
  split; [intros b; rewrite R; reflexivity|].
  rewrite !R. split.
  - unfold insert_strict_back_u. cbn [z_len]. rewrite uadd_over by lia. reflexivity.
  - assert (U : uadd Wrapping cap cap 1 = Val 0). { unfold uadd. rewrite Nat.add_1_r, Nat.mod_same by discriminate. reflexivity. }
    unfold insert_strict_back_u. cbn [z_len]. rewrite U. cbn. auto.
Qed.

(** ** Examples *)
(** An eight-bit counter, both ways. *)
Definition C118_256 : list (zop u8 (Interval u8) nat) := concat (repeat C118_round 255) ++ [ZInsertStrictBack (0 --> 1) 7].
Example ex_C118_wrapping :
  removed C118_256 = 255 /\ zosdit_len (zrun C118_256) = 256 /\ zosdit_iter (zrun_u Wrapping 255 C118_256) = [(0 --> 1, 7)] /\
  zosdit_len (zrun_u Wrapping 255 C118_256) = 0 /\ zosdit_is_empty (zrun_u Wrapping 255 C118_256) = true /\
  zosdit_len (zrun_u Wrapping 255 (C118_256 ++ [ZCut (0 --> 9 : Interval u8)])) = 255.
Proof. vm_compute. repeat split; reflexivity. Qed.
Example ex_C118_checked :
  zrun_u Checked 255 (firstn 400 C118_256) = zrun (firstn 400 C118_256) /\
  zosdit_len (zrun_u Checked 255 C118_256) = 255 /\ zosdit_iter (zrun_u Checked 255 C118_256) = [(0 --> 1, 7)].
Proof. vm_compute. repeat split; reflexivity. Qed.
(** A [cut] stopped by an overflow: the part of [0 --> 9] after the cut, and the
    part inside it, are lost. *)
Definition C118_two : list (zop u8 (Interval u8) nat) := [ZInsertStrictBack (0 --> 9) 1; ZInsertStrictBack (10 --> 19) 2].
Example ex_C118_cut :
  zosdit_cut_u Checked 3 (3 --> 5 : Interval u8) (zrun_u Checked 3 C118_two) =
    (mkZosdit 3 [(0 --> 2, [1]); (10 --> 19, [2])], Panic) /\
  snd (zosdit_cut_u Checked 4 (3 --> 5 : Interval u8) (zrun_u Checked 4 C118_two)) = Val [(3 --> 5, 1)] /\
  zosdit_cut_u Wrapping 3 (3 --> 5 : Interval u8) (zrun_u Wrapping 3 C118_two) =
    (mkZosdit 3 [(0 --> 2, [1]); (6 --> 9, [1]); (10 --> 19, [2])], Val [(3 --> 5, 1)]).
Proof. vm_compute. repeat split; reflexivity. Qed.
(** The hypotheses of [C118_checked_partial] at their limit. *)
Example ex_C118_limit : (forall os1 os2, C118_two = os1 ++ os2 -> length (zosdit_iter (zrun os1)) + removed os1 + 2 <= 4).
Proof.
  intros [|a [|b [|c os1]]] os2 E; try discriminate; [vm_compute; lia|injection E as <- _; vm_compute; lia|].
  injection E as <- <- _. vm_compute. lia.
Qed.
Print Assumptions C118_wrapping_entries.
Print Assumptions C118_wrapping_answers.
Print Assumptions C118_wrapping_len.
Print Assumptions C118_wrapping_is_empty.
Print Assumptions C118_checked_partial.
Print Assumptions C118_no_removals_partial.
Print Assumptions C118_checked_insert.
Print Assumptions C118_order.
Print Assumptions C118_stopped_cut.
Print Assumptions C118_overflow_refuted.
