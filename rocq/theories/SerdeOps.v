(** * SerdeOps: vocabulary of C121 and C122, data formats.  No proofs in this file;
      part of the specification.

    [serialize] hands a format a number and a series of elements, [deserialize] is handed
    a series of elements by it (NoditModel).  What a format does in between is not part of
    this library; here are the two usual kinds, for any encoding of the elements into
    symbols [B]. *)
From Coq Require Import List.
From Verif Require Import Base NoditModel.
Import ListNotations.

(** An encoding, and a decoder that finds out by itself where an encoding ends. *)
Record codec (B E : Type) := mkCodec { enc : E -> list B; dec : list B -> option (E * list B) }.
Arguments enc {B E}.
Arguments dec {B E}.
Arguments mkCodec {B E}.
Definition faithful {B E} (c : codec B E) : Prop := forall e rest, dec c (enc c e ++ rest) = Some (e, rest).

Section Formats.
  Context {B E C : Type}.

  (** Counted formats (as bincode): the number announced to [serialize_seq], then the
      elements.  The reader takes that number and as many elements, until one does not
      parse; it is left with the symbols it has not used. *)
  Definition write_counted (cn : codec B nat) (c : codec B E) (s : nat * list E) : list B :=
    enc cn (fst s) ++ flat_map (enc c) (snd s).
  Fixpoint take_elements (c : codec B E) (n : nat) (bs : list B) : list (option E) * list B :=
    match n with
    | 0 => ([], bs)
    | S n =>
        match dec c bs with
        | None => ([None], bs)
        | Some (e, bs) => let (a, bs) := take_elements c n bs in (Some e :: a, bs)
        end
    end.
  (** [None]: not even the number can be read. *)
  Definition read_counted (cn : codec B nat) (c : codec B E)
    (deserialize : list (option E) -> outcome (result C de_error)) (bs : list B)
    : option (outcome (result C de_error) * list B) :=
    match dec cn bs with
    | None => None
    | Some (n, bs) => let (a, bs) := take_elements c n bs in Some (deserialize a, bs)
    end.

  (** Delimited formats (as JSON): the elements, then an end mark (here [None]); the number
      announced is not used. *)
  Definition write_delimited (c : codec B (option E)) (s : nat * list E) : list B :=
    flat_map (fun e => enc c (Some e)) (snd s) ++ enc c None.
  Inductive read_elements (c : codec B (option E)) : list B -> list (option E) -> list B -> Prop :=
  | read_end bs bs' : dec c bs = Some (None, bs') -> read_elements c bs [] bs'
  | read_bad bs : dec c bs = None -> read_elements c bs [None] bs
  | read_more bs e bs' a bs'' : dec c bs = Some (Some e, bs') -> read_elements c bs' a bs'' ->
      read_elements c bs (Some e :: a) bs''.
  Definition read_delimited (c : codec B (option E))
    (deserialize : list (option E) -> outcome (result C de_error)) (bs : list B)
    (r : outcome (result C de_error)) (rest : list B) : Prop :=
    exists a, read_elements c bs a rest /\ deserialize a = r.
End Formats.

(** One byte (here a number) for each end of an interval and for the value. *)
Definition number_codec : codec nat nat :=
  mkCodec (fun n => [n]) (fun bs => match bs with n :: bs => Some (n, bs) | [] => None end).
