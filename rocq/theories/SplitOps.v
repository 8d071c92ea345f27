(** * SplitOps: an interval made of two (the vocabulary of C146).  No proofs in
      this file; part of the specification. *)
From Coq Require Import List.
From Verif Require Import Base Spec.
Import ListNotations.

Section Split.
  Context {I : Type} `{Ord I}.

  (** [q] has exactly the points of the valid intervals [q1] and [q2]. *)
  Definition made_of {Q Q1 Q2} `{InclusiveInterval I Q} `{InclusiveInterval I Q1} `{InclusiveInterval I Q2}
    (q : Q) (q1 : Q1) (q2 : Q2) : Prop :=
    valid q1 /\ valid q2 /\ forall p, covers q p <-> covers q1 p \/ covers q2 p.

  (** The same entries, up to which of several equal points an interval names. *)
  Definition same_entries {K V} `{InclusiveInterval I K} (l l' : list (K * V)) : Prop :=
    Forall2 (fun e e' => same_points (fst e) (fst e') /\ snd e = snd e') l l'.

  (** [e'] is the part of [e] inside of [q]. *)
  Definition part_in {K V Q} `{InclusiveInterval I K} `{InclusiveInterval I Q} (q : Q) (e e' : K * V) : Prop :=
    snd e' = snd e /\ forall p, covers (fst e') p <-> covers (fst e) p /\ covers q p.

  (** [l1] and [l2] are [l] chopped at the boundary between [q1] and [q2]: an
      entry of [l] lies in one of the lists, except that one of them may have a
      part in both, at the end of [l1] and at the beginning of [l2]. *)
  Definition chopped {K V Q1 Q2} `{InclusiveInterval I K} `{InclusiveInterval I Q1} `{InclusiveInterval I Q2}
    (q1 : Q1) (q2 : Q2) (l l1 l2 : list (K * V)) : Prop :=
    exists a s b s1 s2, l = a ++ s ++ b /\ length s <= 1 /\
      same_entries l1 (a ++ s1) /\ Forall2 (part_in q1) s s1 /\
      same_entries l2 (s2 ++ b) /\ Forall2 (part_in q2) s s2.

  (** Intervals alone as entries, for [chopped]. *)
  Definition unmarked {K} (l : list K) : list (K * unit) := map (fun g => (g, tt)) l.
End Split.
