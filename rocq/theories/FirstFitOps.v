(** * FirstFitOps: handing out places in the order of the gaps (the vocabulary of
      C150).  No proofs in this file; part of the specification. *)
From Coq Require Import List ZArith.
From Verif Require Import Base IntervalModel NoditModel InstancesModel Spec.
Import ListNotations.
Open Scope Z_scope.

(** Overflow panics in a debug build and wraps around in a release build. *)
Inductive build := Debug | Release.

Section FirstFit.
  Context {lo hi : Z} `{IntType lo hi}.
  Notation int := (int lo hi).
  Context {K : Type} `{InclusiveInterval int K}.
  Context {V : Type}.
  Context (b : build).

  Definition plus : int -> int -> outcome int := match b with Debug => add_debug | Release => add_release end.
  Definition difference : int -> int -> outcome int := match b with Debug => sub_debug | Release => sub_release end.

  (** [gaps.find(|g| g.width() >= n)] *)
  Fixpoint find_wide (n : int) (gs : list K) : outcome (option K) :=
    match gs with
    | [] => Val None
    | g :: gs' => let? w := width difference g in
                  if geb w n then Val (Some g) else find_wide n gs'
    end.

  (** [let g = m.gaps_trimmed(q).find(|g| g.width() >= n)?;
       let k = K::from(Interval::from(g.start()..=g.start() + n));
       m.insert_strict(k, v).ok()?; Some(k)] *)
  Definition take {Q} `{InclusiveInterval int Q} (q : Q) (n : int) (v : V) (m : NoditMap K V) : NoditMap K V * outcome (option K) :=
    match (let? gs := gaps_trimmed m q in find_wide n gs) with
    | Panic => (m, Panic)
    | Val None => (m, Val None)
    | Val (Some g) =>
        match (let? e := plus (istart g) n in ii (istart g) e) with
        | Panic => (m, Panic)
        | Val i => match insert_strict (ifrom i) v m with
                   | (m', Panic) => (m', Panic)
                   | (m', Val (Err _)) => (m', Val None)
                   | (m', Val (Ok _)) => (m', Val (Some (ifrom i)))
                   end
        end
    end.

  (** From [s] on there are [n + 1] free places in [q]. *)
  Definition room {Q} `{InclusiveInterval int Q} (m : list (K * V)) (q : Q) (n s : int) : Prop :=
    ival s + ival n <= hi /\
    forall p, ival s <= ival p <= ival s + ival n -> covers q p /\ ~ covered m p.

  (** Taking places and giving them back, in any order.  [live] are the places
      taken and not yet given back, the last one first; [Give i] gives the one
      at the place [i] of this list back. *)
  Inductive request := Take (n : int) (v : V) | Give (i : nat).
  Fixpoint delete {A} (i : nat) (l : list A) : list A :=
    match l, i with
    | [], _ => []
    | _ :: r, O => r
    | x :: r, S i => x :: delete i r
    end.
  Definition serve {Q} `{InclusiveInterval int Q} (q : Q) (s : NoditMap K V * list (int * (K * V))) (r : request)
    : NoditMap K V * list (int * (K * V)) :=
    let (m, live) := s in
    match r with
    | Take n v => match take q n v m with
                  | (m', Val (Some k)) => (m', (n, (k, v)) :: live)
                  | (m', _) => (m', live)
                  end
    | Give i => match nth_error live i with
                | None => (m, live)
                | Some (_, (k, _)) => (fst (remove_overlapping k m), delete i live)
                end
    end.
  Definition serve_all {Q} `{InclusiveInterval int Q} (q : Q) (rs : list request) : NoditMap K V * list (int * (K * V)) :=
    fold_left (serve q) rs (new, []).
End FirstFit.
Arguments request lo hi V : clear implicits.
