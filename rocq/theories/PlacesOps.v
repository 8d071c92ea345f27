(** * PlacesOps: how many places of an interval are taken and how many are free (the vocabulary
      of C175).  No proofs in this file; part of the specification. *)
From Coq Require Import List ZArith.
From Verif Require Import Base IntervalModel NoditModel InstancesModel FirstFitOps.
Import ListNotations.
Open Scope Z_scope.

Section Size.
  Context {lo hi : Z} `{IntType lo hi}.
  Notation int := (int lo hi).
  Context (b : build).

  (** [k.width() as i128 + 1] (sums are taken not to overflow the wider type) *)
  Definition size {A} `{InclusiveInterval int A} (k : A) : outcome Z := let? w := width (difference b) k in Val (ival w + 1).
  Fixpoint sizes {A} `{InclusiveInterval int A} (l : list A) : outcome Z :=
    match l with
    | [] => Val 0
    | k :: l => let? s := size k in let? r := sizes l in Val (s + r)
    end.

  Context {K : Type} `{InclusiveInterval int K} {V : Type}.
  (** [m.overlapping(q).filter_map(|(k, _)| k.intersection(&q)).map(|k| k.width() as i128 + 1).sum()] *)
  Definition used {Q} `{InclusiveInterval int Q} (m : NoditMap K V) (q : Q) : outcome Z :=
    let? l := overlapping m q in
    sizes (flat_map (fun e => match intersection (fst e) q with Some i => [i] | None => [] end) l).
  (** [m.gaps_trimmed(q).map(|g| g.width() as i128 + 1).sum()] *)
  Definition free {Q} `{InclusiveInterval int Q} (m : NoditMap K V) (q : Q) : outcome Z :=
    let? l := gaps_trimmed m q in sizes l.
End Size.

(** There are exactly [n] things with [P]. *)
Definition number_of {A} (P : A -> Prop) (n : Z) : Prop := exists l, NoDup l /\ (forall x, In x l <-> P x) /\ Z.of_nat (length l) = n.
