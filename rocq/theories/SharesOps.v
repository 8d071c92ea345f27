(** * SharesOps: counting the places of the users of a Gqdit (the vocabulary of C178, with
      [sizes] and [number_of] of PlacesOps and [trimmed] of BookingOps).  No proofs in this file;
      part of the specification. *)
From Coq Require Import List ZArith.
From Verif Require Import Base IntervalModel GqditModel InstancesModel FirstFitOps BookingOps PlacesOps.
Import ListNotations.
Open Scope Z_scope.

Section Shares.
  Context {lo hi : Z} `{IntType lo hi}.
  Notation int := (int lo hi).
  Context {K : Type} `{InclusiveInterval int K}.
  Context {D : Type} `{Ord D}.
  Context (b : build).

  (** [g.gaps_no_identifier(q).iter().filter_map(|r| r.intersection(&q)).map(|r| r.width() as i128 + 1).sum()] *)
  Definition nobodys {Q} `{InclusiveInterval int Q} (g : Gqdit K D) (q : Q) : outcome Z :=
    let? l := gaps_no_identifier g q in sizes b (trimmed q l).
  (** [g.gaps_with_identifier(d, q).iter().filter_map(|r| r.intersection(&q)).map(|r| r.width() as i128 + 1).sum()] *)
  Definition open_to {Q} `{InclusiveInterval int Q} (g : Gqdit K D) (d : D) (q : Q) : outcome Z :=
    let? l := gaps_with_identifier g d q in sizes b (trimmed q l).
End Shares.
