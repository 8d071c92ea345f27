(** * Ledger: callers that keep track of their values.  No proofs in this file;
      part of the specification of C77-C79. *)
From Coq Require Import List.
From Verif Require Import Base BTree UtilsModel IntervalModel NoditModel NoditOps ZosditModel Spec.
Import ListNotations.

Section Ledger.
  Context {I : Type} `{Ord I} `{DiscreteFinite I}.
  Context {K : Type} `{InclusiveInterval I K}.
  Context {V : Type}.

  (** A caller of a NoditMap that only gives values with [insert_strict] and takes
      them back with [remove_overlapping] (neither needs [V: Clone]). *)
  Inductive move : Type :=
  | Give (k : K) (v : V)
  | Take {Q : Type} `{InclusiveInterval I Q} (q : Q).

  (** The map after the moves, and all values the calls handed back: in an
      [Err], or yielded by the removal. *)
  Fixpoint play (ms : list move) (m : NoditMap K V) : NoditMap K V * list V :=
    match ms with
    | [] => (m, [])
    | Give k v :: ms =>
        let '(m, o) := insert_strict k v m in
        let '(m, back) := play ms m in
        (m, match o with Val (Err v) => v :: back | _ => back end)
    | Take q :: ms =>
        let '(m, o) := remove_overlapping q m in
        let '(m, back) := play ms m in
        (m, match o with Val l => map snd l ++ back | Panic => back end)
    end.
  Definition given (ms : list move) : list V :=
    flat_map (fun x => match x with Give _ v => [v] | Take _ => [] end) ms.
  Definition gives_valid (x : move) : Prop := match x with Give k _ => valid k | Take _ => True end.

  (** The same for a ZosditMap: [insert_strict_back] and
      [remove_last_value_at_point]. *)
  Inductive zmove : Type :=
  | ZGive (k : K) (v : V)
  | ZTake (p : I).
  Fixpoint zplay (ms : list zmove) (z : ZosditMap K V) : ZosditMap K V * list V :=
    match ms with
    | [] => (z, [])
    | ZGive k v :: ms =>
        let '(z, o) := insert_strict_back k v z in
        let '(z, back) := zplay ms z in
        (z, match o with Val (Err v) => v :: back | _ => back end)
    | ZTake p :: ms =>
        let '(z, o) := remove_last_value_at_point p z in
        let '(z, back) := zplay ms z in
        (z, match o with Val (Some v) => v :: back | _ => back end)
    end.
  Definition zgiven (ms : list zmove) : list V :=
    flat_map (fun x => match x with ZGive _ v => [v] | ZTake _ => [] end) ms.
  Definition zgives_valid (x : zmove) : Prop := match x with ZGive k _ => valid k | ZTake _ => True end.

  (** [vs] are the values of the entries of [l] that contain [p], in order. *)
  Definition values_at (l : list (K * V)) (p : I) (vs : list V) : Prop :=
    exists o, sub (fun e => covers (fst e) p) l o /\ vs = map snd o.

  (** The number of entries an operation hands to the map, at least 1 for the
      operations that take no collection. *)
  Definition handed (o : op I K V) : nat :=
    match o with OpFromIterStrict l => length l | OpDeserialize l => length l | _ => 1 end.

  (** [k] has points on both sides of [q]. *)
  Definition sticks_out_on_both_sides {Q} `{InclusiveInterval I Q} (k : K) (q : Q) : Prop :=
    exists a b, covers k a /\ covers k b /\ (forall p, covers q p -> plt a p /\ plt p b).
End Ledger.
Arguments move : clear implicits.
Arguments zmove : clear implicits.
