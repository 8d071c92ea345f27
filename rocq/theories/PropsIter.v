(** * PropsIter: iterators driven from both ends (C90) and mutable iterators
      dropped before their end (C91). *)
From Coq Require Import List Bool Arith ZArith Lia.
From Verif Require Import Base BTree UtilsModel IntervalModel NoditModel NoditSetModel NoditOps ZosditModel ZosditOps.
From Verif Require Import InstancesModel Instances IterModel IterSpec IterInv Spec PointFacts IntervalFacts NoditInv PropsNodit.
Import ListNotations.
Open Scope nat_scope.

Section Iter.
  Context {I : Type} `{PL : PointLaws I}.
  Context {K : Type} {IK : InclusiveInterval I K}.
  Context {Q : Type} {IQ : InclusiveInterval I Q}.
  Context {V : Type}.

  (** ** C90: every script of [next] and [next_back] *)
  Theorem C90_iter : forall (m : NoditMap K V) script,
    map fst (iter_calls m script) = script /\ two_ended (iter m) (iter_calls m script).
  Proof. intros. split; [apply drive_script|apply drive_list]. Qed.
  Theorem C90_overlapping : forall (m : NoditMap K V) (q : Q) script l, overlapping m q = Val l ->
    exists out, overlapping_calls m q script = Val out /\ map fst out = script /\ two_ended l out.
  Proof.
    intros m q script l E. unfold overlapping_calls. rewrite E. simpl.
    eexists. split; [reflexivity|]. split; [apply drive_script|apply drive_list].
  Qed.
  Theorem C90_set_iter : forall (s : NoditSet K) script,
    map fst (set_iter_calls s script) = script /\ two_ended (set_iter s) (set_iter_calls s script).
  Proof.
    intros. split; [apply drive_script|]. unfold set_iter_calls, set_iter. rewrite drive_map. apply drive_list.
  Qed.
  Theorem C90_set_overlapping : forall (s : NoditSet K) (q : Q) script l, set_overlapping s q = Val l ->
    exists out, set_overlapping_calls s q script = Val out /\ map fst out = script /\ two_ended l out.
  Proof.
    intros s q script l E. unfold set_overlapping, set_overlapping_calls in *.
    destruct (overlapping s q) as [l'|]; simpl in *; [|discriminate]. injection E as <-.
    eexists. split; [reflexivity|]. split; [apply drive_script|]. rewrite drive_map. apply drive_list.
  Qed.
  Theorem C90_zosdit_iter : forall (z : ZosditMap K V) script,
    map fst (zosdit_iter_calls z script) = script /\ two_ended (zosdit_iter z) (zosdit_iter_calls z script).
  Proof.
    intros. split; [apply drive_script|]. unfold zosdit_iter_calls. rewrite drive_flat. apply drive_list.
  Qed.
  Theorem C90_zosdit_overlapping : forall (z : ZosditMap K V) (q : Q) n l, zosdit_overlapping z q = Val l ->
    exists out, zosdit_overlapping_calls z q n = Val out /\ map fst out = repeat Front n /\ two_ended l out.
  Proof.
    intros z q n l E. unfold zosdit_overlapping, zosdit_overlapping_calls in *.
    destruct (invalid_interval_panic q); simpl in *; [|discriminate]. injection E as <-.
    eexists. split; [reflexivity|]. split; [apply drive_script|]. rewrite drive_flat. apply drive_list.
  Qed.
  (** In particular a [ZosditMap] iterated backwards gives the entries in
      reverse, also those of one interval. *)
  Theorem C90_zosdit_backwards : forall (z : ZosditMap K V) n, length (zosdit_iter z) <= n ->
    answers Back (zosdit_iter_calls z (repeat Back n)) = rev (zosdit_iter z).
  Proof. intros z n Hn. destruct (C90_zosdit_iter z (repeat Back n)) as (E & T). eapply two_ended_back; eauto. Qed.

  (** Pausing changes nothing: what an iterator answers after a first script is
      what it would have answered in one go. *)
  Theorem C90_resumed : forall (S A : Type) (d : diter S A) first second s,
    let (out1, s1) := drive d first s in
    let (out2, s2) := drive d second s1 in
    drive d (first ++ second) s = (out1 ++ out2, s2).
  Proof.
    intros S A d first second. induction first as [|c first IH]; intros s; simpl; [destruct (drive d second s); reflexivity|].
    destruct (call d c s) as [x s']. specialize (IH s'). destruct (drive d first s') as [out1 s1]. destruct (drive d second s1) as [out2 s2].
    rewrite IH. reflexivity.
  Qed.

  (** ** C91: mutable iterators *)
  Theorem C91_iter_mut : forall (m : NoditMap K V) script,
    exists m' out rest, iter_mut_calls script m = (m', out) /\
      map fst out = map fst script /\ two_ended (iter m) out /\
      iter m = answers Front out ++ rest ++ rev (answers Back out) /\
      iter m' = change (fns Front script) (answers Front out) ++ rest ++
                rev (change (fns Back script) (answers Back out)).
  Proof.
    intros m script. destruct (iter_mut_calls_ok script m) as (out & rest & E & A1 & A2 & A3).
    eexists _, out, rest. split; [exact E|]. auto.
  Qed.
  Theorem C91_overlapping_mut : forall (m : NoditMap K V) (q : Q) script l, overlapping m q = Val l ->
    exists m' out before rest after, overlapping_mut_calls script q m = (m', Val out) /\
      map fst out = map fst script /\ two_ended l out /\
      l = answers Front out ++ rest ++ rev (answers Back out) /\
      iter m = before ++ l ++ after /\
      iter m' = before ++ (change (fns Front script) (answers Front out) ++ rest ++
                           rev (change (fns Back script) (answers Back out))) ++ after.
  Proof.
    intros m q script l E.
    destruct (overlapping_mut_calls_ok Q script q m l E) as (out & b & rest & a & E' & A1 & A2 & A3 & A4).
    eexists _, out, b, rest, a. split; [exact E'|]. auto.
  Qed.
  (** The intervals stay, so the map is as good as before. *)
  Theorem C91_intervals : forall (m : NoditMap K V) (q : Q) script,
    map fst (iter (fst (iter_mut_calls script m))) = map fst (iter m) /\
    map fst (iter (fst (overlapping_mut_calls script q m))) = map fst (iter m) /\
    (~ valid q -> overlapping_mut_calls script q m = (m, Panic)).
  Proof.
    intros m q script. split; [|split].
    - destruct (iter_mut_calls_ok script m) as (out & rest & E & _ & _ & A). rewrite E. simpl. unfold iter.
      rewrite A. clear A E. rewrite !map_app, !map_rev, !change_fst. reflexivity.
    - destruct (overlapping m q) as [l|] eqn:E.
      + destruct (overlapping_mut_calls_ok Q script q m l E) as (out & b & rest & a & E' & _ & _ & A1 & A2).
        rewrite E'. simpl. unfold iter. rewrite A2, A1. rewrite !map_app, !map_rev, !change_fst. reflexivity.
      + unfold overlapping, overlapping_mut_calls in *. destruct (invalid_interval_panic q); [discriminate|reflexivity].
    - intros Hq. unfold overlapping_mut_calls. rewrite iip_invalid by exact Hq. reflexivity.
  Qed.
End Iter.

(** The hypotheses are met, non-trivially. *)
Example C90_example :
  iter_calls ex_map [Back; Front; Back; Front; Front] =
    [(Back, Some (20 --> 30, 3)); (Front, Some (2 --> 4, 1)); (Back, Some (8 --> 9, 2));
     (Front, Some (6 --> 7, 2)); (Front, None)].
Proof. vm_compute. reflexivity. Qed.
Definition exz : ZosditMap (Interval u8) nat :=
  mkZosdit 5 [(1 --> 4, [1]); (4 --> 4, [2; 3]); (4 --> 6, [4; 5])].
Example C90_zosdit_example :
  zosdit_iter_calls exz [Back; Front; Front; Back; Back; Back; Front] =
    [(Back, Some (4 --> 6, 5)); (Front, Some (1 --> 4, 1)); (Front, Some (4 --> 4, 2));
     (Back, Some (4 --> 6, 4)); (Back, Some (4 --> 4, 3)); (Back, None); (Front, None)] /\
  answers Back (zosdit_iter_calls exz (repeat Back 9)) = rev (zosdit_iter exz).
Proof. vm_compute. split; reflexivity. Qed.
Example C91_example :
  overlapping_mut_calls [(Back, fun x => x + 10); (Front, fun _ => 7)] (4 --> 8) ex_map =
    ([(2 --> 4, 7); (6 --> 7, 2); (8 --> 9, 12); (20 --> 30, 3)],
     Val [(Back, Some (8 --> 9, 2)); (Front, Some (2 --> 4, 1))]).
Proof. vm_compute. reflexivity. Qed.
Print Assumptions C90_iter.
Print Assumptions C90_overlapping.
Print Assumptions C90_set_iter.
Print Assumptions C90_set_overlapping.
Print Assumptions C90_zosdit_iter.
Print Assumptions C90_zosdit_overlapping.
Print Assumptions C90_zosdit_backwards.
Print Assumptions C90_resumed.
Print Assumptions C91_iter_mut.
Print Assumptions C91_overlapping_mut.
Print Assumptions C91_intervals.
