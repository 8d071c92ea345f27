(** * SaveOps: programs that save a container and go on with what is loaded (vocabulary of
      C169).  No proofs in this file; part of the specification. *)
From Coq Require Import List.
From Verif Require Import Base NoditModel SerdeOps.
Import ListNotations.

(** A program with one container: it stops with a result, makes a call and goes on as the
    answer tells it, or saves the container and goes on with the one loaded. *)
Section Programs.
  Context {S call : Type} {answer : call -> Type} (perform : forall c, S -> S * answer c).
  Inductive saver (R : Type) : Type :=
  | Finish (r : R)
  | Ask (c : call) (next : answer c -> saver R)
  | SaveLoad (next : saver R).
  (** [None]: something saved could not be loaded. *)
  Fixpoint go {R} (load : S -> option S) (s : S) (p : saver R) : option R :=
    match p with
    | Finish _ r => Some r
    | Ask _ c next => let (s', a) := perform c s in go load s' (next a)
    | SaveLoad _ next => match load s with Some s' => go load s' next | None => None end
    end.
  (** The same program without saving. *)
  Fixpoint go_on {R} (s : S) (p : saver R) : R :=
    match p with
    | Finish _ r => r
    | Ask _ c next => let (s', a) := perform c s in go_on s' (next a)
    | SaveLoad _ next => go_on s next
    end.
  (** The containers that would be saved satisfy [P]. *)
  Fixpoint saves {R} (P : S -> Prop) (s : S) (p : saver R) : Prop :=
    match p with
    | Finish _ _ => True
    | Ask _ c next => let (s', a) := perform c s in saves P s' (next a)
    | SaveLoad _ next => P s /\ saves P s next
    end.
  (** It makes such calls only. *)
  Fixpoint asks {R} (ok : call -> Prop) (p : saver R) : Prop :=
    match p with
    | Finish _ _ => True
    | Ask _ c next => ok c /\ forall a, asks ok (next a)
    | SaveLoad _ next => asks ok next
    end.
End Programs.
Arguments saver {call} answer R.
Arguments Finish {call answer R}.
Arguments Ask {call answer R}.
Arguments SaveLoad {call answer R}.

(** What is loaded from the elements written (C22, C41, C52), or from a counted data format
    with [rest] behind it (C121). *)
Section Loads.
  Context {S E B : Type} (ser : S -> nat * list E) (deser : list (option E) -> outcome (result S de_error)).
  Definition loaded (o : outcome (result S de_error)) : option S := match o with Val (Ok s) => Some s | _ => None end.
  Definition from_elements (s : S) : option S := loaded (deser (map Some (snd (ser s)))).
  Definition from_counted (cn : codec B nat) (c : codec B E) (rest : list B) (s : S) : option S :=
    match read_counted cn c deser (write_counted cn c (ser s) ++ rest) with Some (o, _) => loaded o | None => None end.
End Loads.
