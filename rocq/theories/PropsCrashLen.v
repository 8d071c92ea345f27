(** * PropsCrashLen: how far [ZosditMap::len] can be off after caught panics (C74).

    Full statement: see [C74_len_refuted] in PropsCrash: [len()] is not the number
    of entries once a cut was interrupted.  Here is by how much it is off. *)
From Coq Require Import List ZArith Lia.
From Verif Require Import Base BTree UtilsModel IntervalModel NoditModel ZosditModel ZosditOps CrashModel CrashLenOps Spec
  CrashZosdit CrashLen InstancesModel Instances.
Import ListNotations.
Open Scope nat_scope.

Section Props.
  Context {I : Type} `{PL : PointLaws I}.
  Context {K : Type} {IK : InclusiveInterval I K} {IL : IntervalLaws I K}.
  Context {Q : Type} {IQ : InclusiveInterval I Q}.
  Context {V : Type}.
  Implicit Types (q : Q) (os : list (zop I K V * nat)).

  (** An interrupted cut leaves the counter too large by at most two more than it
      was, a cut that returns by no more than it was. *)
  Theorem C74_interrupted_cut_len_partial : forall os q f z', valid q -> zosdit_cut_c q (zrun_c os) f = (z', Panic) ->
    exists x, x <= 2 /\
      zosdit_len z' + length (zosdit_iter (zrun_c os)) = zosdit_len (zrun_c os) + length (zosdit_iter z') + x.
  Proof. intros os q f z' Vq E. exact (stopped_len _ q f z' (zrun_c_ZWF os) Vq E). Qed.
  Theorem C74_returning_cut_len_partial : forall os q f z' out, zosdit_cut_c q (zrun_c os) f = (z', Val out) ->
    zosdit_len z' + length (zosdit_iter (zrun_c os)) = zosdit_len (zrun_c os) + length (zosdit_iter z').
  Proof. intros os q f z' out E. exact (returned_len _ q f z' out (zrun_c_ZWF os) E). Qed.

  (** Over a whole history: the entries, the values removed, and at most two for
      every interrupted cut. *)
  Theorem C74_len_partial : forall os,
    length (zosdit_iter (zrun_c os)) + removed_c os <= zosdit_len (zrun_c os) /\
    zosdit_len (zrun_c os) <= length (zosdit_iter (zrun_c os)) + removed_c os + 2 * stopped_c os.
  Proof. intros os. exact (run_tally os). Qed.
  Theorem C74_no_interrupted_cut_partial : forall os, stopped_c os = 0 ->
    zosdit_len (zrun_c os) = length (zosdit_iter (zrun_c os)) + removed_c os.
  Proof. intros os E. pose proof (run_tally os) as T. rewrite E in T. lia. Qed.
End Props.

(** Both bounds are met: the cut is stopped in [K::from] of the first part left,
    of the second part left, of the part returned. *)
Definition C74_len_ops (f : nat) : list (zop u8 (Interval u8) nat * nat) :=
  [(ZInsertStrictBack (2 --> 9) 1, 0); (ZInsertStrictBack (9 --> 12) 2, 0); (ZCut (4 --> 5 : Interval u8), f)].
Example C74_len_example :
  map (fun f => (zosdit_iter (zrun_c (C74_len_ops f)), zosdit_len (zrun_c (C74_len_ops f)), stopped_c (C74_len_ops f)))
    [0; 2; 4; 5] =
  [([(9 --> 12, 2)], 2, 1);
   ([(2 --> 3, 1); (9 --> 12, 2)], 4, 1);
   ([(2 --> 3, 1); (6 --> 9, 1); (9 --> 12, 2)], 3, 1);
   ([(2 --> 3, 1); (6 --> 9, 1); (9 --> 12, 2)], 3, 0)].
Proof. vm_compute. reflexivity. Qed.
Print Assumptions C74_interrupted_cut_len_partial.
Print Assumptions C74_returning_cut_len_partial.
Print Assumptions C74_len_partial.
Print Assumptions C74_no_interrupted_cut_partial.
