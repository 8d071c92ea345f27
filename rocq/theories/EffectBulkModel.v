(** * EffectBulkModel: filling a map from a source that is user code, and writing it to a
      sink that is user code (see [EffectModel]).  No proofs in this file.

    The source ([Iterator::next], [SeqAccess::next_element]) may do anything: be endless,
    look at the same world as the comparisons, stop and go on, fail or panic.  Loops over it
    need not end: they are run for at most [fuel] elements. *)
From Coq Require Import List Bool Arith.
From Verif Require Import Base BTree UtilsModel IntervalModel NoditModel ZosditModel TreeShape EffectModel EffectZosditModel.
Import ListNotations.

(** How a loop ended: the map; the error for an element that was refused; the error of
    the source; a panic, [source] if in the source; out of fuel. *)
Inductive loaded (M E : Type) : Type :=
| LDone (m : M)
| LRefused (e : E)
| LFailed (e : E)
| LStopped (source : bool)
| LRunning.
Arguments LDone {M E}. Arguments LRefused {M E}. Arguments LFailed {M E}. Arguments LStopped {M E}. Arguments LRunning {M E}.

Section Load.
  Context {W K V M E : Type} (next : user W (result (option (K * V)) E)).
  Context (insert : nat -> K -> V -> M -> W -> (M * outcome (result unit E)) * W).
  (** The loops; also the elements drawn.  [i] counts them.
      (/repo/src/nodit/map.rs:1243-1245, 1507-1510, /repo/src/zosdit/map.rs:607-609, 712-716) *)
  Fixpoint load_e (fuel i : nat) (m : M) (w : W) : loaded M E * list (K * V) * W :=
    match fuel with
    | 0 => (LRunning, [], w)
    | S fuel =>
        match next w with
        | (Panic, w) => (LStopped true, [], w)
        | (Val (Err e), w) => (LFailed e, [], w)
        | (Val (Ok None), w) => (LDone m, [], w)
        | (Val (Ok (Some (k, v))), w) =>
            match insert i k v m w with
            | ((_, Panic), w) => (LStopped false, [(k, v)], w)
            | ((_, Val (Err e)), w) => (LRefused e, [(k, v)], w)
            | ((m, Val (Ok _)), w) => let '(r, l, w) := load_e fuel (S i) m w in (r, (k, v) :: l, w)
            end
        end
    end.
End Load.

Section Bulk.
  Context {W I K V : Type} (P : point_code W I) (ik : interval_code W I K).
  (** [.or(Err(custom(..)))]: the argument is computed in any case
      (/repo/src/nodit/map.rs:1508-1509, /repo/src/zosdit/map.rs:713-715) *)
  Definition or_custom {M E} (custom : user W E) (x : (M * outcome (result unit V)) * W) : (M * outcome (result unit E)) * W :=
    match x with
    | ((m, Panic), w) => ((m, Panic), w)
    | ((m, Val r), w) =>
        match custom w with
        | (Panic, w) => ((m, Panic), w)
        | (Val e, w) => ((m, Val match r with Ok _ => Ok tt | Err _ => Err e end), w)
        end
    end.
  (** An iterator does not fail. *)
  Definition iterator {E} (next : user W (option (K * V))) : user W (result (option (K * V)) E) := do! x := next in uret (Ok x).

  (** [from_iter_strict]  (/repo/src/nodit/map.rs:1239-1247); [T i] are the trees met by
      the [i]-th insertion *)
  Definition from_iter_strict_e (T : nat -> nat -> BTreeMap K V -> tree K V) (next : user W (option (K * V))) (fuel : nat)
    : W -> loaded (NoditMap K V) V * list (K * V) * W :=
    load_e (iterator next) (fun i k v m => insert_strict_e P ik (T i) k v m) fuel 0 new.
  (** [visit_seq]  (/repo/src/nodit/map.rs:1502-1512) *)
  Definition visit_seq_e {E} (T : nat -> nat -> BTreeMap K V -> tree K V) (custom : user W E) (next : user W (result (option (K * V)) E)) (fuel : nat)
    : W -> loaded (NoditMap K V) E * list (K * V) * W :=
    load_e next (fun i k v m w => or_custom custom (insert_strict_e P ik (T i) k v m w)) fuel 0 new.

  (** [from_iter_strict_back]  (/repo/src/zosdit/map.rs:603-611) *)
  Definition from_iter_strict_back_e (T : nat -> BTreeMap K (list V) -> tree K (list V)) (next : user W (option (K * V))) (fuel : nat)
    : W -> loaded (ZosditMap K V) V * list (K * V) * W :=
    load_e (iterator next) (fun i k v z => insert_strict_back_e P ik k v (z_len z) (T i (z_inner z))) fuel 0 z_new.
  (** [visit_seq]  (/repo/src/zosdit/map.rs:707-718) *)
  Definition zosdit_visit_seq_e {E} (T : nat -> BTreeMap K (list V) -> tree K (list V)) (custom : user W E) (next : user W (result (option (K * V)) E)) (fuel : nat)
    : W -> loaded (ZosditMap K V) E * list (K * V) * W :=
    load_e next (fun i k v z w => or_custom custom (insert_strict_back_e P ik k v (z_len z) (T i (z_inner z)) w)) fuel 0 z_new.
End Bulk.

(** Writing: the sink is the user's [Serializer].  Also what it was told: the
    announced length and the elements. *)
Section Save.
  Context {W K V A E : Type} (announce : nat -> user W (result unit E)) (element : K * V -> user W (result unit E)) (finish : user W (result A E)).
  Fixpoint save_e (l : list (K * V)) (w : W) : outcome (result A E) * list (K * V) * W :=
    match l with
    | [] => let '(o, w) := finish w in (o, [], w)
    | x :: l =>
        match element x w with
        | (Panic, w) => (Panic, [x], w)
        | (Val (Err e), w) => (Val (Err e), [x], w)
        | (Val (Ok _), w) => let '(o, told, w) := save_e l w in (o, x :: told, w)
        end
    end.
  (** [serialize]  (/repo/src/nodit/map.rs:1451-1461, /repo/src/zosdit/map.rs:655-665) *)
  Definition serialize_e (len : nat) (l : list (K * V)) (w : W) : outcome (result A E) * (nat * list (K * V)) * W :=
    match announce len w with
    | (Panic, w) => (Panic, (len, []), w)
    | (Val (Err e), w) => (Val (Err e), (len, []), w)
    | (Val (Ok _), w) => let '(o, told, w) := save_e l w in (o, (len, told), w)
    end.
  Definition map_serialize_e (m : NoditMap K V) := serialize_e (len m) (iter m).
  Definition zosdit_serialize_e (z : ZosditMap K V) := serialize_e (zosdit_len z) (zosdit_iter z).
End Save.
