(** * CrashLenOps: what the history of a [ZosditMap] with caught panics did to its
    counter. *)
From Coq Require Import List.
From Verif Require Import Base BTree UtilsModel IntervalModel NoditModel ZosditModel ZosditOps CrashModel Spec.
Import ListNotations.

Section Ops.
  Context {I : Type} `{Ord I} `{DiscreteFinite I} {K : Type} `{InclusiveInterval I K} {V : Type}.
  Implicit Types (z : ZosditMap K V) (os : list (zop I K V * nat)).

  (** Does the call start the counter afresh? *)
  Definition starts_afresh (o : zop I K V) : bool :=
    match o with
    | ZNew => true
    | ZFromIter l => match from_iter_strict_back l with Val (Ok _) => true | _ => false end
    | ZDeserialize l => match zosdit_deserialize l with Val (Ok _) => true | _ => false end
    | _ => false
    end.
  (** Does it remove a value? *)
  Definition removes_value z (o : zop I K V) : bool :=
    match o with
    | ZRemoveLast p => match snd (remove_last_value_at_point p z) with Val (Some _) => true | _ => false end
    | _ => false
    end.
  (** Is it a cut that user code interrupts? *)
  Definition stopped_cut z (o : zop I K V) (fuel : nat) : bool :=
    match o with
    | ZCut q => match snd (zosdit_cut_c q z fuel) with Panic => is_valid q | Val _ => false end
    | _ => false
    end.

  (** How many calls removed a value, and how many cuts were interrupted, since
      the map was last created ([n] and [s] so far, in state [z]). *)
  Fixpoint tally z (n s : nat) os : nat * nat :=
    match os with
    | [] => (n, s)
    | (o, fuel) :: os' =>
        if starts_afresh o then tally (zstep_c z o fuel) 0 0 os'
        else tally (zstep_c z o fuel) (if removes_value z o then S n else n)
               (if stopped_cut z o fuel then S s else s) os'
    end.
  Definition removed_c os : nat := fst (tally z_new 0 0 os).
  Definition stopped_c os : nat := snd (tally z_new 0 0 os).
End Ops.
