(** * RangeOps: changing the values at all points of an interval (the vocabulary of C171).  No
      proofs in this file; part of the specification. *)
From Coq Require Import List.
From Verif Require Import Base IntervalModel NoditModel NoditOps.
Import ListNotations.

Section Range.
  Context {I : Type} `{Ord I} `{DiscreteFinite I}.
  Context {K : Type} `{InclusiveInterval I K} {V : Type}.

  (** A change of what is at a point; [None] is nothing. *)
  Definition change := option V -> option V.
  Definition changed (f : change) (out : list (K * V)) : list (K * V) :=
    flat_map (fun e => match f (Some (snd e)) with Some v => [(fst e, v)] | None => [] end) out.
  Definition filled (f : change) (gs : list K) : list (K * V) :=
    match f None with Some v => map (fun g => (g, v)) gs | None => [] end.
  (** [let gaps = m.gaps_trimmed(q).collect(); let out = m.cut(q).collect();
       for (k, v) in out { if let Some(v) = f(Some(v)) { m.insert_strict(k, v).unwrap() } }
       for g in gaps { if let Some(v) = f(None) { m.insert_strict(g, v).unwrap() } }]
      [None]: a panic. *)
  Definition range_update {Q} `{InclusiveInterval I Q} (q : Q) (f : change) (m : NoditMap K V) : option (NoditMap K V) :=
    match gaps_trimmed m q with
    | Panic => None
    | Val gs => match cut q m with
                | (_, Panic) => None
                | (m1, Val out) => insert_each (changed f out ++ filled f gs) m1
                end
    end.
  Fixpoint range_updates {Q} `{InclusiveInterval I Q} (l : list (Q * change)) (m : NoditMap K V) : option (NoditMap K V) :=
    match l with
    | [] => Some m
    | (q, f) :: l => match range_update q f m with Some m' => range_updates l m' | None => None end
    end.
  (** What that does at one point. *)
  Definition changes_at {Q} `{InclusiveInterval I Q} (l : list (Q * change)) (p : I) (o : option V) : option V :=
    fold_left (fun o u => if contains_point (fst u) p then snd u o else o) l o.
End Range.
Arguments change V : clear implicits.

(** One more. *)
Definition one_more : change nat := fun o => match o with Some n => Some (S n) | None => Some 1 end.
(** One less, and nothing for zero. *)
Definition one_less : change nat := fun o => match o with Some (S (S n)) => Some (S n) | _ => None end.
