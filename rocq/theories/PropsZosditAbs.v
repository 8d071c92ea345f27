(** * PropsZosditAbs: whole histories of ZosditMap calls (C109). *)
From Coq Require Import List ZArith.
From Verif Require Import Base IntervalModel NoditModel ZosditModel ZosditOps ZosditAbs Spec InstancesModel Instances
  PointFacts IntervalFacts ZosditFacts ZosditProofs ZosditOnce ZosditSim PropsZosdit PropsZosditOnce.
Import ListNotations.
Open Scope nat_scope.

Section Props.
  Context {I : Type} `{PL : PointLaws I}.
  Context {K : Type} {IK : InclusiveInterval I K} {IL : IntervalLaws I K}.
  Context {V : Type}.

  (** ** C109: every history of calls none of whose cuts leaves a twin (C64) is
      a run of the abstract machine on sequences of entries... *)
  Theorem C109_history_refines_entry_sequences : forall os : list (zop I K V), twinless os -> zarun os (zosdit_iter (zrun os)).
  Proof. exact run_sim. Qed.
  (** ... which determines the entries. *)
  Theorem C109_history_determined_by_entry_sequences : forall os : list (zop I K V), twinless os ->
    forall L, zarun os L -> Forall2 same_entry L (zosdit_iter (zrun os)).
  Proof. exact run_det. Qed.
  Theorem C109_without_cut : forall os : list (zop I K V), Forall not_cut os ->
    zarun os (zosdit_iter (zrun os)) /\ forall L, zarun os L -> Forall2 same_entry L (zosdit_iter (zrun os)).
  Proof.
    intros os N. assert (T : twinless os).
    { intros os1 o os2 -> X. apply Forall_app in N. destruct N as [_ N]. inversion_clear N as [|? ? No _]. destruct o; cbn in *; contradiction. }
    split; [apply run_sim, T|apply run_det, T].
  Qed.
End Props.

Example C109_example : zarun C64_cut_ops [(0 --> 2, 1); (5 --> 9, 1); (9 --> 9, 2)] /\
  zarun C32_ops [(4 --> 4, 3); (4 --> 8, 1); (8 --> 8, 2); (8 --> 8, 4); (8 --> 12, 5)].
Proof.
  split.
  - replace [(0 --> 2, 1); (5 --> 9, 1); (9 --> 9, 2)] with (zosdit_iter (zrun C64_cut_ops)) by (vm_compute; reflexivity).
    apply C109_history_refines_entry_sequences, C64_twinless_example.
  - rewrite <- (proj1 C32_example). apply C109_without_cut, C64_example.
Qed.

Print Assumptions C109_history_refines_entry_sequences.
Print Assumptions C109_history_determined_by_entry_sequences.
Print Assumptions C109_without_cut.
