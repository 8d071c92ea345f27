(** * GqditWorldOps: programs with any number of Gqdits that call methods, append, clone and
      compare them, and go on using those they have appended (vocabulary of C152).  No proofs
      in this file. *)
From Coq Require Import List.
From Verif Require Import Base BTree UtilsModel IntervalModel NoditModel GqditModel GqditOps Spec CompleteOps ClientGqditOps AppendedOps.
Import ListNotations.

Section World.
  Context {I : Type} `{Ord I} `{DiscreteFinite I}.
  Context {K : Type} `{InclusiveInterval I K} {D : Type} `{Ord D}.

  (** Each Gqdit is held in a variable (a number).  A program stops with a result, assigns
      [Gqdit::new()] to a variable, calls a method (gqdit/mod.rs:121-460), appends [y]'s Gqdit
      to [x]'s, assigns to [x] a clone of [y]'s (derived, gqdit/mod.rs:66), or asks whether
      two are equal (gqdit/mod.rs:537-549); what it does next may depend on the answer.
      (Rust accepts only programs with [x <> y] in [QAppend x y].) *)
  Inductive gprogram (R : Type) : Type :=
  | QStop (r : R)
  | QNew (x : nat) (next : gprogram R)
  | QCall (x : nat) (c : gcall I K D) (next : ganswer c -> gprogram R)
  | QAppend (x y : nat) (next : outcome unit -> gprogram R)
  | QCopy (x y : nat) (next : gprogram R)
  | QSame (x y : nat) (next : bool -> gprogram R).

  (** An implementation. *)
  Record gqdits : Type := {
    q_state : Type;
    q_start : q_state;
    q_does : forall c : gcall I K D, q_state -> q_state * ganswer c;
    q_append : q_state -> q_state -> q_state * q_state * outcome unit;
    q_copy : q_state -> q_state;
    q_same : q_state -> q_state -> bool
  }.
  Fixpoint qexecute {R} (i : gqdits) (f : nat -> q_state i) (p : gprogram R) : R :=
    match p with
    | QStop _ r => r
    | QNew _ x next => qexecute i (assign f x (q_start i)) next
    | QCall _ x c next => let (s, a) := q_does i c (f x) in qexecute i (assign f x s) (next a)
    | QAppend _ x y next =>
        let '(s, t, a) := q_append i (f x) (f y) in qexecute i (assign (assign f y t) x s) (next a)
    | QCopy _ x y next => qexecute i (assign f x (q_copy i (f y))) next
    | QSame _ x y next => qexecute i f (next (q_same i (f x) (f y)))
    end.
  Definition qrun {R} (i : gqdits) (p : gprogram R) : R := qexecute i (fun _ => q_start i) p.

  (** The states an implementation can get into. *)
  Inductive qoccurs (i : gqdits) : q_state i -> Prop :=
  | qoccurs_start : qoccurs i (q_start i)
  | qoccurs_after s c : qoccurs i s -> qoccurs i (fst (q_does i c s))
  | qoccurs_self s t : qoccurs i s -> qoccurs i t -> qoccurs i (fst (fst (q_append i s t)))
  | qoccurs_other s t : qoccurs i s -> qoccurs i t -> qoccurs i (snd (fst (q_append i s t)))
  | qoccurs_copy s : qoccurs i s -> qoccurs i (q_copy i s).

  (** What is documented of the methods, until a Gqdit is appended, after which it does nothing
      any more (as in C137); a clone is like the original; two are equal when either both have
      been appended or neither has and each identifier is at the same points in both. *)
  Definition gqdits_as_described (i : gqdits) (works : q_state i -> bool) (has : q_state i -> I -> D -> Prop) : Prop :=
    (works (q_start i) = true /\ forall p d, ~ has (q_start i) p d) /\
    (forall s c, qoccurs i s ->
       works (fst (q_does i c s)) = works s /\
       (works s = true -> gdocumented c (has s) (has (fst (q_does i c s))) (snd (q_does i c s))) /\
       (works s = false -> inert c (snd (q_does i c s)))) /\
    (forall s t, qoccurs i s -> qoccurs i t ->
       snd (q_append i s t) = Val tt /\
       works (snd (fst (q_append i s t))) = false /\ works (fst (fst (q_append i s t))) = works s /\
       (works s = true -> forall p d, has (fst (fst (q_append i s t))) p d <-> has s p d \/ (works t = true /\ has t p d))) /\
    (forall s, qoccurs i s ->
       works (q_copy i s) = works s /\ (works s = true -> forall p d, has (q_copy i s) p d <-> has s p d)) /\
    (forall s t, qoccurs i s -> qoccurs i t ->
       (q_same i s t = true <-> works s = works t /\ (works s = true -> forall p d, has s p d <-> has t p d))).

  (** The modelled Gqdits, [keq] being the interval type's [==]. *)
  Definition model_gqdits (keq : K -> K -> bool) : gqdits :=
    {| q_state := Gqdit K D; q_start := gnew; q_does := gperform; q_append := append;
       q_copy := fun g => g; q_same := gqdit_eqb keq |}.

  (** Where an identifier is, and whether a Gqdit still works, can be asked for: one that has
      been appended has neither an identifier at the least point nor a gap there. *)
  Definition asked_has (i : gqdits) (s : q_state i) (p : I) (d : D) : Prop :=
    exists l, snd (q_does i (AskIdentifiers p) s) = Val l /\ In d l.
  Definition asked_works (i : gqdits) (s : q_state i) : bool :=
    match snd (q_does i (AskIdentifiers MIN) s), snd (q_does i (AskGapsNoIdentifier (mkInterval MIN MIN : Interval I)) s) with
    | Val [], Val [] => false
    | _, _ => true
    end.
End World.
