(** * PropsHistory: whole histories of NoditMap calls (C17, C57). *)
From Coq Require Import List ZArith.
From Verif Require Import Base IntervalModel NoditModel NoditOps NoditAbs Spec InstancesModel Instances
  NoditInv NoditSim.
Import ListNotations.
Open Scope nat_scope.

Section Props.
  Context {I : Type} `{PL : PointLaws I}.
  Context {K : Type} {IK : InclusiveInterval I K} {IL : IntervalLaws I K}.
  Context {V : Type}.

  (** ** C17: the function on points a history describes predicts every lookup. *)
  Theorem C17_history_is_a_point_function : forall (os : list (pop I K V)) f,
    prun os f -> forall p, get_at_point (run (map op_of_pop os)) p = Val (f p).
  Proof. intros os f HR p. apply agrees_get; [apply run_WF|apply prun_agrees, HR]. Qed.
  (** Every history describes one. *)
  Theorem C17_every_history_describes_a_function : forall os : list (pop I K V), exists f, prun os f.
  Proof. exact prun_total. Qed.

  (** ** C57: every history of calls (all methods, any arguments) is a run of the
      abstract machine on sets of entries. *)
  Theorem C57_history_refines_entry_sets : forall {OL : OrdLaws I} (os : list (op I K V)),
    arun os (fun e => In e (iter (run os))).
  Proof. intros OL. exact run_arun. Qed.
End Props.

Section Det.
  Context {I : Type} `{PL : PointLaws I} {OL : OrdLaws I} {V : Type}.
  (** For [K = Interval] the abstract machine determines the entries. *)
  Theorem C57_history_determined_by_entry_sets : forall (os : list (op I (Interval I) V)) E,
    arun os E -> forall e, In e (iter (run os)) <-> E e.
  Proof. exact arun_det. Qed.
End Det.

(** A non-trivial history and the function it describes. *)
Definition C17_ops : list (pop u8 (Interval u8) nat) :=
  [PInsertStrict (2 --> 9) 1; PCut (4 --> 5); PInsertMergeTouchingIfValuesEqual Nat.eqb PeanoNat.Nat.eqb_eq (4 --> 4) 1;
   PInsertStrict (3 --> 12) 7; PInsertOverwrite (8 --> 20) 2].
Example C17_example :
  iter (run (map op_of_pop C17_ops)) = [(2 --> 4, 1); (6 --> 7, 1); (8 --> 20, 2)] /\
  exists f, prun C17_ops f.
Proof. split; [vm_compute; reflexivity|]. apply C17_every_history_describes_a_function. Qed.
Example C57_example : exists E, arun (map op_of_pop C17_ops) E.
Proof. eexists. apply C57_history_refines_entry_sets. Qed.

Print Assumptions C17_history_is_a_point_function.
Print Assumptions C17_every_history_describes_a_function.
Print Assumptions C57_history_refines_entry_sets.
Print Assumptions C57_history_determined_by_entry_sets.
