(** * OverrideZosditOps: what the overriding methods of C142 may be expected to
      do.  No proofs in this file. *)
From Verif Require Import Base UtilsModel NoditModel OverrideModel OverrideZosditModel Spec OverrideOps.

Section Expect.
  Context {I : Type} `{Ord I}.
  Context {K : Type} `{InclusiveInterval I K}.

  (** A [contains_point] that says what the provided one says
      (/repo/src/interval.rs:421-426). *)
  Definition agrees_contains (k_contains : K -> I -> outcome bool) : Prop :=
    forall k p, exists x, k_contains k p = Val x /\ (x = true <-> covers k p).
End Expect.

(** A [cut] whose query type has an [is_valid] that accepts no inverted
    interval, or any other call. *)
Definition safe_zquery {I} `{Ord I} {K V} (o : zop_o I K V) : Prop :=
  match o with
  | ZOCut q_valid _ _ => sound_valid q_valid
  | _ => True
  end.
