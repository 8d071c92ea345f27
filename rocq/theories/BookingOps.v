(** * BookingOps: several users booking places in a Gqdit, each for itself (the vocabulary of
      C170).  No proofs in this file; part of the specification. *)
From Coq Require Import List ZArith.
From Verif Require Import Base IntervalModel NoditModel GqditModel GqditOps InstancesModel Spec FirstFitOps.
Import ListNotations.
Open Scope Z_scope.

Section Booking.
  Context {lo hi : Z} `{IntType lo hi}.
  Notation int := (int lo hi).
  Context {K : Type} `{InclusiveInterval int K}.
  Context {D : Type} `{Ord D}.
  Context (b : build).

  (** [gaps.filter_map(|r| r.intersection(&q))] *)
  Definition trimmed {Q} `{InclusiveInterval int Q} (q : Q) (gs : list K) : list K :=
    flat_map (fun r => match intersection r q with Some r => [r] | None => [] end) gs.

  (** [let r = g.gaps_with_identifier(d, q).filter_map(|r| r.intersection(&q)).find(|r| r.width() >= n)?;
       let k = K::from(Interval::from(r.start()..=r.start() + n));
       g.insert(BTreeSet::from([d]), k); Some(k)] *)
  Definition book {Q} `{InclusiveInterval int Q} (q : Q) (d : D) (n : int) (g : Gqdit K D) : Gqdit K D * outcome (option K) :=
    match (let? gs := gaps_with_identifier g d q in find_wide b n (trimmed q gs)) with
    | Panic => (g, Panic)
    | Val None => (g, Val None)
    | Val (Some r) =>
        match (let? e := plus b (istart r) n in ii (istart r) e) with
        | Panic => (g, Panic)
        | Val i => match gqdit_insert (collect [d]) (ifrom i) g with
                   | (g', Panic) => (g', Panic)
                   | (g', Val _) => (g', Val (Some (ifrom i)))
                   end
        end
    end.

  (** From [s] on there are [n + 1] places in [q] that nobody but [d] has. *)
  Definition vacant {Q} `{InclusiveInterval int Q} (g : Gqdit K D) (q : Q) (d : D) (n s : int) : Prop :=
    ival s + ival n <= hi /\
    forall p, ival s <= ival p <= ival s + ival n -> covers q p /\ free_but d g p.

  (** Booking places and giving places back, in any order. *)
  Inductive deed := Book (d : D) (n : int) | GiveBack (d : D) (k : K).
  Definition doer (a : deed) : D := match a with Book d _ | GiveBack d _ => d end.
  Definition act {Q} `{InclusiveInterval int Q} (q : Q) (g : Gqdit K D) (a : deed) : Gqdit K D :=
    match a with
    | Book d n => fst (book q d n g)
    | GiveBack d k => fst (cut_with_identifiers (collect [d]) k g)
    end.
  Definition acts {Q} `{InclusiveInterval int Q} (q : Q) (l : list deed) : Gqdit K D := fold_left (act q) l gnew.
End Booking.
Arguments deed lo hi K D : clear implicits.
