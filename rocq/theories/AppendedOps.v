(** * AppendedOps: programs that go on using a Gqdit after passing it to [append]
      (vocabulary of C137).  No proofs in this file. *)
From Coq Require Import List.
From Verif Require Import Base BTree UtilsModel IntervalModel NoditModel GqditModel GqditOps Spec CompleteOps ClientGqditOps.
Import ListNotations.

Section Appended.
  Context {I : Type} `{Ord I} `{DiscreteFinite I}.
  Context {K : Type} `{InclusiveInterval I K} {D : Type} `{Ord D}.

  (** What a Gqdit answers that does nothing any more: no identifiers, no gaps; calls succeed
      unless their interval is invalid. *)
  Definition inert (c : gcall I K D) : ganswer c -> Prop :=
    match c return ganswer c -> Prop with
    | AskIdentifiers p => fun a => a = Val []
    | AskGapsNoIdentifier q => fun a => answers q a (fun l => l = [])
    | AskGapsWithIdentifier d q => fun a => answers q a (fun l => l = [])
    | TellInsert ids k => fun a => (valid k -> a = Val tt) /\ (~ valid k -> a = Panic)
    | TellCutWithIdentifiers ids q => fun a => (valid q -> a = Val tt) /\ (~ valid q -> a = Panic)
    | TellCutAllIdentifiers q => fun a => (valid q -> a = Val tt) /\ (~ valid q -> a = Panic)
    end.

  (** An implementation as in ClientGqditOps, but [append] also says what becomes of
      [other]. *)
  Record aimplementation : Type := {
    astate : Type;
    astart : astate;
    adoes : forall c : gcall I K D, astate -> astate * ganswer c;
    ajoins : astate -> astate -> astate * astate * outcome unit
  }.
  (** The programs are those of C131; now a variable whose Gqdit was appended keeps what
      [append] left of it.  (Rust accepts only programs with [x <> y] in [GJoin x y].) *)
  Fixpoint aexecute {R} (i : aimplementation) (f : nat -> astate i) (p : gclient (I := I) (K := K) (D := D) R) : R :=
    match p with
    | GStop _ r => r
    | GFresh _ x next => aexecute i (assign f x (astart i)) next
    | GMake _ x c next => let (s, a) := adoes i c (f x) in aexecute i (assign f x s) (next a)
    | GJoin _ x y next =>
        let '(s, t, a) := ajoins i (f x) (f y) in aexecute i (assign (assign f y t) x s) (next a)
    end.
  Definition arun_client {R} (i : aimplementation) (p : gclient R) : R := aexecute i (fun _ => astart i) p.

  Inductive aoccurs (i : aimplementation) : astate i -> Prop :=
  | aoccurs_start : aoccurs i (astart i)
  | aoccurs_after s c : aoccurs i s -> aoccurs i (fst (adoes i c s))
  | aoccurs_self s t : aoccurs i s -> aoccurs i t -> aoccurs i (fst (fst (ajoins i s t)))
  | aoccurs_other s t : aoccurs i s -> aoccurs i t -> aoccurs i (snd (fst (ajoins i s t))).

  (** It does what is documented until it is appended to another one, and then nothing any
      more; in particular what is appended to it then is lost. *)
  Definition inert_once_appended (i : aimplementation) (works : astate i -> bool) (has : astate i -> I -> D -> Prop) : Prop :=
    (works (astart i) = true /\ forall p d, ~ has (astart i) p d) /\
    (forall s c, aoccurs i s ->
       works (fst (adoes i c s)) = works s /\
       (works s = true -> gdocumented c (has s) (has (fst (adoes i c s))) (snd (adoes i c s))) /\
       (works s = false -> inert c (snd (adoes i c s)))) /\
    (forall s t, aoccurs i s -> aoccurs i t ->
       snd (ajoins i s t) = Val tt /\
       works (snd (fst (ajoins i s t))) = false /\ works (fst (fst (ajoins i s t))) = works s /\
       (works s = true -> forall p d, has (fst (fst (ajoins i s t))) p d <-> has s p d \/ (works t = true /\ has t p d))).

  (** The modelled Gqdit. *)
  Definition gqdit_kept : aimplementation :=
    {| astate := Gqdit K D; astart := gnew; adoes := gperform; ajoins := append |}.
  (** Its entries are gone once it has been appended. *)
  Definition has_entries (g : Gqdit K D) : bool := negb (is_empty g).

  (** The program does nothing with a Gqdit that has been appended ([appended x] saying
      whether the one in [x] has) but append it again, ask for the identifiers at a point,
      or put a new one in its place. *)
  Inductive careful {R} : (nat -> bool) -> gclient (I := I) (K := K) (D := D) R -> Prop :=
  | careful_stop appended r : careful appended (GStop R r)
  | careful_fresh appended x next : careful (assign appended x false) next -> careful appended (GFresh R x next)
  | careful_ask appended x p next : (forall a, careful appended (next a)) -> careful appended (GMake R x (AskIdentifiers p) next)
  | careful_make appended x c next : appended x = false -> (forall a, careful appended (next a)) -> careful appended (GMake R x c next)
  | careful_join appended x y next : x <> y -> appended x = false ->
      (forall a, careful (assign appended y true) (next a)) -> careful appended (GJoin R x y next).
End Appended.
