(** * ClientGqditOps: programs that use Gqdits through their methods, choosing each call from
      the answers to the earlier ones (vocabulary of C131).  No proofs in this file.

    What a Gqdit is, for its documentation, is a relation between points and identifiers;
    nothing below mentions entries, gaps that are stored, or how sets are kept. *)
From Coq Require Import List.
From Verif Require Import Base BTree UtilsModel IntervalModel NoditModel GqditModel GqditOps Spec CompleteOps.
Import ListNotations.

Section Client.
  Context {I : Type} `{Ord I} `{DiscreteFinite I}.
  Context {K : Type} `{InclusiveInterval I K} {D : Type} `{Ord D}.

  (** One constructor per method of one Gqdit (/repo/src/gqdit/mod.rs:121-460). *)
  Inductive gcall : Type :=
  | AskIdentifiers (p : I)
  | AskGapsNoIdentifier {Q : Type} `{InclusiveInterval I Q} (q : Q)
  | AskGapsWithIdentifier (d : D) {Q : Type} `{InclusiveInterval I Q} (q : Q)
  | TellInsert (ids : list D) (k : K)
  | TellCutWithIdentifiers (ids : list D) {Q : Type} `{InclusiveInterval I Q} (q : Q)
  | TellCutAllIdentifiers {Q : Type} `{InclusiveInterval I Q} (q : Q).

  Definition ganswer (c : gcall) : Type :=
    match c with
    | AskIdentifiers _ => outcome (list D)
    | AskGapsNoIdentifier _ | AskGapsWithIdentifier _ _ => outcome (list K)
    | TellInsert _ _ | TellCutWithIdentifiers _ _ | TellCutAllIdentifiers _ => outcome unit
    end.

  (** A call changes who is where as described, unless its interval is invalid, when it
      panics and changes nothing. *)
  Definition rearranges {Q} `{InclusiveInterval I Q} (q : Q) (before after : I -> D -> Prop) (a : outcome unit)
    (then_ : I -> D -> Prop) : Prop :=
    (valid q -> a = Val tt /\ forall p d, after p d <-> then_ p d) /\
    (~ valid q -> a = Panic /\ forall p d, after p d <-> before p d).
  Definition unchanged (before after : I -> D -> Prop) : Prop := forall p d, after p d <-> before p d.

  (** The documented effect of a call: [before p d] and [after p d] say whether [d] is at
      [p] before and after it. *)
  Definition gdocumented (c : gcall) (before after : I -> D -> Prop) : ganswer c -> Prop :=
    match c return ganswer c -> Prop with
    | AskIdentifiers p => fun a =>
        unchanged before after /\ exists s, a = Val s /\ is_set s /\ forall d, In d s <-> before p d
    | AskGapsNoIdentifier q => fun a =>
        unchanged before after /\
        answers q a (fun l => lists_max_runs (fun p => forall d, ~ before p d) (fun j => overlap j q) l)
    | AskGapsWithIdentifier d q => fun a =>
        unchanged before after /\
        answers q a (fun l => lists_max_runs (fun p => forall d', before p d' -> d' = d) (fun j => overlap j q) l)
    | TellInsert ids k => fun a =>
        rearranges k before after a (fun p d => before p d \/ (covers k p /\ In d ids))
    | TellCutWithIdentifiers ids q => fun a =>
        rearranges q before after a (fun p d => before p d /\ ~ (covers q p /\ In d ids))
    | TellCutAllIdentifiers q => fun a =>
        rearranges q before after a (fun p d => before p d /\ ~ covers q p)
    end.

  (** The model's methods. *)
  Definition gperform (c : gcall) (g : Gqdit K D) : Gqdit K D * ganswer c :=
    match c return Gqdit K D * ganswer c with
    | AskIdentifiers p => (g, identifiers_at_point g p)
    | AskGapsNoIdentifier q => (g, gaps_no_identifier g q)
    | AskGapsWithIdentifier d q => (g, gaps_with_identifier g d q)
    | TellInsert ids k => gqdit_insert (collect ids) k g
    | TellCutWithIdentifiers ids q => cut_with_identifiers (collect ids) q g
    | TellCutAllIdentifiers q => cut_all_identifiers q g
    end.

  (** A program with any number of Gqdits, each held in a variable (a number): it stops with a
      result, assigns [Gqdit::new()] to a variable, calls a method on a variable, or appends
      one variable's Gqdit to another's and assigns [Gqdit::new()] to the former, since a
      Gqdit that was appended no longer works like one (C67). *)
  Inductive gclient (R : Type) : Type :=
  | GStop (r : R)
  | GFresh (x : nat) (next : gclient R)
  | GMake (x : nat) (c : gcall) (next : ganswer c -> gclient R)
  | GJoin (x y : nat) (next : outcome unit -> gclient R).

  (** An implementation: states, the state of a new Gqdit, what each call does, and what
      [append] makes of the state it is called on. *)
  Record gimplementation : Type := {
    gstate : Type;
    gstart : gstate;
    gdoes : forall c, gstate -> gstate * ganswer c;
    gjoins : gstate -> gstate -> gstate * outcome unit
  }.
  Definition assign {A} (f : nat -> A) (x : nat) (a : A) : nat -> A := fun y => if Nat.eqb x y then a else f y.
  Fixpoint gexecute {R} (i : gimplementation) (f : nat -> gstate i) (p : gclient R) : R :=
    match p with
    | GStop _ r => r
    | GFresh _ x next => gexecute i (assign f x (gstart i)) next
    | GMake _ x c next => let (s, a) := gdoes i c (f x) in gexecute i (assign f x s) (next a)
    | GJoin _ x y next =>
        let (s, a) := gjoins i (f x) (f y) in gexecute i (assign (assign f y (gstart i)) x s) (next a)
    end.
  Definition grun_client {R} (i : gimplementation) (p : gclient R) : R := gexecute i (fun _ => gstart i) p.

  (** The states an implementation can get into. *)
  Inductive goccurs (i : gimplementation) : gstate i -> Prop :=
  | goccurs_start : goccurs i (gstart i)
  | goccurs_after s c : goccurs i s -> goccurs i (fst (gdoes i c s))
  | goccurs_joined s t : goccurs i s -> goccurs i t -> goccurs i (fst (gjoins i s t)).
  (** It does what is documented, [has s p d] saying whether, in a state, [d] is at [p]. *)
  Definition gqdit_as_documented (i : gimplementation) (has : gstate i -> I -> D -> Prop) : Prop :=
    (forall p d, ~ has (gstart i) p d) /\
    (forall s c, goccurs i s -> gdocumented c (has s) (has (fst (gdoes i c s))) (snd (gdoes i c s))) /\
    (forall s t, goccurs i s -> goccurs i t ->
       snd (gjoins i s t) = Val tt /\ forall p d, has (fst (gjoins i s t)) p d <-> has s p d \/ has t p d).

  (** The modelled Gqdit. *)
  Definition gqdit : gimplementation :=
    {| gstate := Gqdit K D; gstart := gnew; gdoes := gperform;
       gjoins := fun s t => (fst (fst (append s t)), snd (append s t)) |}.
End Client.
Arguments gcall : clear implicits.
