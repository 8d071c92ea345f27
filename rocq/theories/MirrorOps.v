(** * MirrorOps: containers over points in reversed order (vocabulary of C145).  No proofs in
      this file. *)
From Coq Require Import List.
From Verif Require Import Base BTree UtilsModel IntervalModel NoditModel NoditSetModel GqditModel GqditOps Spec CompleteOps ClientOps ClientSetOps ClientGqditOps.
Import ListNotations.

(** [core::cmp::Reverse]: the same points in the opposite order. *)
Record reversed (I : Type) : Type := Reverse { unreverse : I }.
Arguments Reverse {I} unreverse.
Arguments unreverse {I} r.
#[export] Instance reversed_Ord (I : Type) `{Ord I} : Ord (reversed I) := {
  cmp := fun x y => cmp (unreverse y) (unreverse x)
}.
#[export] Instance reversed_DiscreteFinite (I : Type) `{DiscreteFinite I} : DiscreteFinite (reversed I) := {
  MIN := Reverse MAX;
  MAX := Reverse MIN;
  up := fun x => option_map Reverse (down (unreverse x));
  down := fun x => option_map Reverse (up (unreverse x))
}.
(** The same intervals, starting where they ended. *)
Record mirrored (K : Type) : Type := Mirror { unmirror : K }.
Arguments Mirror {K} unmirror.
Arguments unmirror {K} m.
#[export] Instance mirrored_InclusiveInterval (I K : Type) `{InclusiveInterval I K} : InclusiveInterval (reversed I) (mirrored K) := {
  istart := fun k => Reverse (iend (unmirror k));
  iend := fun k => Reverse (istart (unmirror k));
  ifrom := fun i => Mirror (ifrom (mkInterval (unreverse (ivl_end i)) (unreverse (ivl_start i))))
}.
Definition on_result {A B E F} (f : A -> B) (g : E -> F) (r : result A E) : result B F :=
  match r with Ok a => Ok (f a) | Err e => Err (g e) end.

Section Mirror.
  Context {I : Type} `{Ord I} `{DiscreteFinite I}.
  Context {K : Type} `{InclusiveInterval I K}.
  Context {V : Type}.

  Definition flip (e : mirrored K * V) : K * V := (unmirror (fst e), snd e).
  (** Reading from right to left. *)
  Definition backwards (l : list (mirrored K * V)) : list (K * V) := rev (map flip l).
  Definition backwards_keys (l : list (mirrored K)) : list K := rev (map unmirror l).

  (** The call on the other side that does the same. *)
  Definition mcall (c : call I K V) : call (reversed I) (mirrored K) V :=
    match c with
    | CallLen => CallLen
    | CallIsEmpty => CallIsEmpty
    | CallIter => CallIter
    | CallFirstKeyValue => CallLastKeyValue
    | CallLastKeyValue => CallFirstKeyValue
    | CallGetAtPoint p => CallGetAtPoint (Reverse p)
    | CallContainsPoint p => CallContainsPoint (Reverse p)
    | CallGetKeyValueAtPoint p => CallGetKeyValueAtPoint (Reverse p)
    | CallOverlapping q => CallOverlapping (Mirror q)
    | CallOverlaps q => CallOverlaps (Mirror q)
    | CallContainsInterval q => CallContainsInterval (Mirror q)
    | CallGapsUntrimmed q => CallGapsUntrimmed (Mirror q)
    | CallGapsTrimmed q => CallGapsTrimmed (Mirror q)
    | CallIterMut f => CallIterMut (fun k v => f (unmirror k) v)
    | CallGetAtPointMut f p => CallGetAtPointMut f (Reverse p)
    | CallOverlappingMut f q => CallOverlappingMut (fun k v => f (unmirror k) v) (Mirror q)
    | CallRemoveOverlapping q => CallRemoveOverlapping (Mirror q)
    | CallCut q => CallCut (Mirror q)
    | CallInsertStrict k v => CallInsertStrict (Mirror k) v
    | CallInsertOverwrite k v => CallInsertOverwrite (Mirror k) v
    | CallInsertMergeTouching k v => CallInsertMergeTouching (Mirror k) v
    | CallInsertMergeTouchingIfValuesEqual veq k v => CallInsertMergeTouchingIfValuesEqual veq (Mirror k) v
    | CallInsertMergeOverlapping k v => CallInsertMergeOverlapping (Mirror k) v
    | CallInsertMergeTouchingOrOverlapping k v => CallInsertMergeTouchingOrOverlapping (Mirror k) v
    end.
  (** Its answer, read from right to left. *)
  Definition manswer (c : call I K V) : answer (mcall c) -> answer c :=
    match c return answer (mcall c) -> answer c with
    | CallLen => fun a => a
    | CallIsEmpty => fun a => a
    | CallIter => backwards
    | CallFirstKeyValue | CallLastKeyValue => option_map flip
    | CallGetAtPoint _ => fun a => a
    | CallContainsPoint _ | CallOverlaps _ | CallContainsInterval _ => fun a => a
    | CallGetKeyValueAtPoint _ => omap (on_result flip unmirror)
    | CallOverlapping _ | CallRemoveOverlapping _ | CallCut _ | CallInsertOverwrite _ _ => omap backwards
    | CallGapsUntrimmed _ | CallGapsTrimmed _ => omap backwards_keys
    | CallIterMut _ => fun a => a
    | CallGetAtPointMut _ _ => fun a => a
    | CallOverlappingMut _ _ => fun a => a
    | CallInsertStrict _ _ => fun a => a
    | CallInsertMergeTouching _ _ | CallInsertMergeTouchingIfValuesEqual _ _ _ => omap (on_result unmirror (fun v => v))
    | CallInsertMergeOverlapping _ _ | CallInsertMergeTouchingOrOverlapping _ _ => omap unmirror
    end.
  (** A NoditMap implemented by the modelled NoditMap over the reversed points. *)
  Definition backwards_nodit : implementation (I := I) (K := K) (V := V) :=
    {| state := NoditMap (mirrored K) V; start := new;
       does := fun c s => let (s', a) := perform (mcall c) s in (s', manswer c a) |}.

  (** The same for NoditSet ... *)
  Definition mscall (c : scall I K) : scall (reversed I) (mirrored K) :=
    match c with
    | SCallLen => SCallLen
    | SCallIsEmpty => SCallIsEmpty
    | SCallIter => SCallIter
    | SCallFirst => SCallLast
    | SCallLast => SCallFirst
    | SCallGetAtPoint p => SCallGetAtPoint (Reverse p)
    | SCallContainsPoint p => SCallContainsPoint (Reverse p)
    | SCallOverlapping q => SCallOverlapping (Mirror q)
    | SCallOverlaps q => SCallOverlaps (Mirror q)
    | SCallContainsInterval q => SCallContainsInterval (Mirror q)
    | SCallGapsUntrimmed q => SCallGapsUntrimmed (Mirror q)
    | SCallGapsTrimmed q => SCallGapsTrimmed (Mirror q)
    | SCallRemoveOverlapping q => SCallRemoveOverlapping (Mirror q)
    | SCallCut q => SCallCut (Mirror q)
    | SCallInsertStrict k => SCallInsertStrict (Mirror k)
    | SCallInsertOverwrite k => SCallInsertOverwrite (Mirror k)
    | SCallInsertMergeTouching k => SCallInsertMergeTouching (Mirror k)
    | SCallInsertMergeOverlapping k => SCallInsertMergeOverlapping (Mirror k)
    | SCallInsertMergeTouchingOrOverlapping k => SCallInsertMergeTouchingOrOverlapping (Mirror k)
    end.
  Definition msanswer (c : scall I K) : sanswer (mscall c) -> sanswer c :=
    match c return sanswer (mscall c) -> sanswer c with
    | SCallLen => fun a => a
    | SCallIsEmpty => fun a => a
    | SCallIter => backwards_keys
    | SCallFirst | SCallLast => option_map unmirror
    | SCallGetAtPoint _ => omap (on_result unmirror unmirror)
    | SCallContainsPoint _ | SCallOverlaps _ | SCallContainsInterval _ => fun a => a
    | SCallOverlapping _ | SCallRemoveOverlapping _ | SCallCut _ | SCallInsertOverwrite _
    | SCallGapsUntrimmed _ | SCallGapsTrimmed _ => omap backwards_keys
    | SCallInsertStrict _ => fun a => a
    | SCallInsertMergeTouching _ => omap (on_result unmirror (fun u => u))
    | SCallInsertMergeOverlapping _ | SCallInsertMergeTouchingOrOverlapping _ => omap unmirror
    end.
  Definition backwards_noditset : set_implementation (I := I) (K := K) :=
    {| set_state := NoditSet (mirrored K); set_start := set_new;
       set_does := fun c s => let (s', a) := set_perform (mscall c) s in (s', msanswer c a) |}.

  (** ... and Gqdit. *)
  Context {D : Type} `{Ord D}.
  Definition mgcall (c : gcall I K D) : gcall (reversed I) (mirrored K) D :=
    match c with
    | AskIdentifiers p => AskIdentifiers (Reverse p)
    | AskGapsNoIdentifier q => AskGapsNoIdentifier (Mirror q)
    | AskGapsWithIdentifier d q => AskGapsWithIdentifier d (Mirror q)
    | TellInsert ids k => TellInsert ids (Mirror k)
    | TellCutWithIdentifiers ids q => TellCutWithIdentifiers ids (Mirror q)
    | TellCutAllIdentifiers q => TellCutAllIdentifiers (Mirror q)
    end.
  Definition mganswer (c : gcall I K D) : ganswer (mgcall c) -> ganswer c :=
    match c return ganswer (mgcall c) -> ganswer c with
    | AskIdentifiers _ => fun a => a
    | AskGapsNoIdentifier _ | AskGapsWithIdentifier _ _ => omap backwards_keys
    | TellInsert _ _ | TellCutWithIdentifiers _ _ | TellCutAllIdentifiers _ => fun a => a
    end.
  Definition backwards_gqdit : gimplementation (I := I) (K := K) (D := D) :=
    {| gstate := Gqdit (mirrored K) D; gstart := gnew;
       gdoes := fun c s => let (s', a) := gperform (mgcall c) s in (s', mganswer c a);
       gjoins := fun s t => (fst (fst (append s t)), snd (append s t)) |}.
End Mirror.
