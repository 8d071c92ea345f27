(** * UserCallsOps: how often a call runs user code (vocabulary of C153).  No proofs in this file.

    [CrashModel] follows the calls of [K::from(Interval)], [V::clone], [V::eq] and, in
    [Gqdit::insert], [BTreeSet::clone]; cloning or comparing a whole set or store of values
    is one call there. *)
From Coq Require Import List Bool.
From Verif Require Import Base BTree UtilsModel IntervalModel NoditModel GqditModel CrashModel.
Import ListNotations.

(** The call runs user code [n] times: it returns if the first [n] of these return, and does
    not if one of them panics. *)
Definition makes {A} (run : nat -> outcome A) (n : nat) : Prop := forall fuel, run fuel = Panic <-> fuel < n.

Section Spec.
  Context {I : Type} `{Ord I} `{DiscreteFinite I}.
  Context {K : Type} `{InclusiveInterval I K} {V : Type}.

  (** The value at a point, if there is one: at most one entry is there (C02). *)
  Definition within (k : K) (p : I) : bool := leb (istart k) p && leb p (iend k).
  Definition at_point (m : NoditMap K V) (p : I) : list V := map snd (filter (fun e => within (fst e) p) (iter m)).
  (** The values at the points next to an interval. *)
  Definition beside (m : NoditMap K V) (k : K) : list V :=
    match down (istart k) with Some p => at_point m p | None => [] end ++
    match up (iend k) with Some p => at_point m p | None => [] end.
  Definition at_ends (m : NoditMap K V) (k : K) : list V := at_point m (istart k) ++ at_point m (iend k).

  (** What cutting the map behind a Gqdit (/repo/src/gqdit/mod.rs:274, 325, 385) costs, and how
      many parts it takes out. *)
  Definition cut_calls {Q} `{InclusiveInterval I Q} {D} (q : Q) (g : Gqdit K D) (n parts : nat) : Prop :=
    exists g' l, cut q g = (g', Val l) /\ parts = length l /\ makes (fun fuel => snd (cut_c q g fuel)) n.
End Spec.
