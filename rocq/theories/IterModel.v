(** * IterModel: consuming the iterators step by step, from both ends.  No
      proofs in this file.

    [NoditModel] and [ZosditModel] give the whole list an iterator yields.  Here
    an iterator is a state with [next] and [next_back]; a caller drives it by any
    script of such calls and may stop anywhere. *)
From Coq Require Import List Bool.
From Verif Require Import Base BTree UtilsModel IntervalModel NoditModel NoditSetModel ZosditModel.
Import ListNotations.

(** One call: [next()] or [next_back()]. *)
Inductive side := Front | Back.

(** A [DoubleEndedIterator]. *)
Record diter (S A : Type) := mkDiter {
  d_next : S -> option A * S;
  d_next_back : S -> option A * S
}.
Arguments mkDiter {S A} d_next d_next_back.
Arguments d_next {S A} d s.
Arguments d_next_back {S A} d s.

Definition call {S A} (d : diter S A) (c : side) (s : S) : option A * S :=
  match c with Front => d_next d s | Back => d_next_back d s end.

(** A script of calls: each call with its answer, and the state left. *)
Fixpoint drive {S A} (d : diter S A) (script : list side) (s : S) : list (side * option A) * S :=
  match script with
  | [] => ([], s)
  | c :: script =>
      let (x, s) := call d c s in
      let (out, s) := drive d script s in
      ((c, x) :: out, s)
  end.

(** The standard library's iterators over a slice, a [BTreeMap] or a range of
    it: the state is what is still to come. *)
Definition list_next {A} (l : list A) : option A * list A :=
  match l with [] => (None, []) | x :: r => (Some x, r) end.
Definition list_next_back {A} (l : list A) : option A * list A :=
  match rev l with [] => (None, []) | x :: r => (Some x, rev r) end.
Definition list_iter {A} : diter (list A) A := mkDiter list_next list_next_back.

(** [Iterator::map]
    (used at /repo/src/nodit/set.rs:167) *)
Definition map_iter {S A B} (f : A -> B) (d : diter S A) : diter S B :=
  mkDiter (fun s => let (x, s) := d_next d s in (option_map f x, s))
          (fun s => let (x, s) := d_next_back d s in (option_map f x, s)).

(** [Iterator::flat_map] ([core::iter::adapters::flatten::FlattenCompat]): the
    inner iterator opened at the front, the outer iterator, the inner iterator
    opened at the back. *)
Section FlatMap.
  Context {A B : Type} (f : A -> list B).

  Definition flat_state : Type := (option (list B) * list A * option (list B))%type.

  (** [and_then_or_clear]
      (used by [flat_map], /repo/src/zosdit/map.rs:514, 542, 634) *)
  Definition and_then_or_clear (step : list B -> option B * list B) (o : option (list B))
    : option B * option (list B) :=
    match o with
    | None => (None, None)
    | Some l =>
        match step l with
        | (None, _) => (None, None)
        | (Some x, l) => (Some x, Some l)
        end
    end.

  Fixpoint flat_next_loop (front : option (list B)) (iter : list A) (back : option (list B))
    : option B * flat_state :=
    match and_then_or_clear list_next front with
    | (Some x, front) => (Some x, (front, iter, back))
    | (None, front) =>
        match iter with
        | [] => let (x, back) := and_then_or_clear list_next back in (x, (front, [], back))
        | inner :: iter => flat_next_loop (Some (f inner)) iter back
        end
    end.

  (** [riter] is the outer iterator, last element first. *)
  Fixpoint flat_next_back_loop (front : option (list B)) (riter : list A) (back : option (list B))
    : option B * flat_state :=
    match and_then_or_clear list_next_back back with
    | (Some x, back) => (Some x, (front, rev riter, back))
    | (None, back) =>
        match riter with
        | [] => let (x, front) := and_then_or_clear list_next_back front in (x, (front, [], back))
        | inner :: riter => flat_next_back_loop front riter (Some (f inner))
        end
    end.

  Definition flat_iter : diter flat_state B :=
    mkDiter (fun '(front, iter, back) => flat_next_loop front iter back)
            (fun '(front, iter, back) => flat_next_back_loop front (rev iter) back).

  Definition flat_start (l : list A) : flat_state := (None, l, None).
End FlatMap.

(** A mutable iterator over entries: those handed out at the front (as the
    caller leaves them), those still to come, those handed out at the back. *)
Definition mut_state (K V : Type) : Type := (list (K * V) * list (K * V) * list (K * V))%type.

(** One call and what the caller does through the reference it gets; the answer
    shows the entry as it is handed out. *)
Definition mut_call {K V} (c : side) (f : V -> V) (s : mut_state K V) : option (K * V) * mut_state K V :=
  let '(front, todo, back) := s in
  match c with
  | Front =>
      match todo with
      | [] => (None, s)
      | (k, v) :: todo => (Some (k, v), (front ++ [(k, f v)], todo, back))
      end
  | Back =>
      match rev todo with
      | [] => (None, s)
      | (k, v) :: todo => (Some (k, v), (front, rev todo, (k, f v) :: back))
      end
  end.

Fixpoint mut_drive {K V} (script : list (side * (V -> V))) (s : mut_state K V)
  : list (side * option (K * V)) * mut_state K V :=
  match script with
  | [] => ([], s)
  | (c, f) :: script =>
      let (x, s) := mut_call c f s in
      let (out, s) := mut_drive script s in
      ((c, x) :: out, s)
  end.

(** The entries when the iterator is dropped. *)
Definition mut_end {K V} (s : mut_state K V) : list (K * V) :=
  let '(front, todo, back) := s in front ++ todo ++ back.

Section Iterators.
  Context {I : Type} `{Ord I} `{DiscreteFinite I}.
  Context {K : Type} `{InclusiveInterval I K}.
  Context {V : Type}.

  (** [NoditMap::iter]  (/repo/src/nodit/map.rs:1320-1322) *)
  Definition iter_calls (m : NoditMap K V) (script : list side) : list (side * option (K * V)) :=
    fst (drive list_iter script (iter m)).
  (** [NoditMap::overlapping]  (/repo/src/nodit/map.rs:153-168) *)
  Definition overlapping_calls {Q} `{InclusiveInterval I Q} (m : NoditMap K V) (q : Q) (script : list side)
    : outcome (list (side * option (K * V))) :=
    omap (fun l => fst (drive list_iter script l)) (overlapping m q).
  (** [NoditSet::iter]  (/repo/src/nodit/set.rs:166-168) *)
  Definition set_iter_calls (s : NoditSet K) (script : list side) : list (side * option K) :=
    fst (drive (map_iter first list_iter) script (iter s)).
  (** [NoditSet::overlapping]  (/repo/src/nodit/set.rs:40-48) *)
  Definition set_overlapping_calls {Q} `{InclusiveInterval I Q} (s : NoditSet K) (q : Q) (script : list side)
    : outcome (list (side * option K)) :=
    omap (fun l => fst (drive (map_iter first list_iter) script l)) (overlapping s q).
  (** The closure of [ZosditMap::iter] and [overlapping]
      (/repo/src/zosdit/map.rs:514-516, 542-544) *)
  Definition open_store (kvs : K * list V) : list (K * V) := map (fun v => (fst kvs, v)) (snd kvs).
  (** [ZosditMap::iter]  (/repo/src/zosdit/map.rs:541-545) *)
  Definition zosdit_iter_calls (z : ZosditMap K V) (script : list side) : list (side * option (K * V)) :=
    fst (drive (flat_iter open_store) script (flat_start (z_inner z))).
  (** [ZosditMap::overlapping], a forward iterator: the script is a number of
      calls of [next]  (/repo/src/zosdit/map.rs:501-517) *)
  Definition zosdit_overlapping_calls {Q} `{InclusiveInterval I Q} (z : ZosditMap K V) (q : Q) (n : nat)
    : outcome (list (side * option (K * V))) :=
    let? _ := invalid_interval_panic q in
    Val (fst (drive (flat_iter open_store) (repeat Front n)
                (flat_start (range (inclusive_comp (istart q) Lt) (inclusive_comp (iend q) Gt) (z_inner z))))).

  (** [NoditMap::iter_mut]  (/repo/src/nodit/map.rs:1347-1351) *)
  Definition iter_mut_calls (script : list (side * (V -> V))) (m : NoditMap K V)
    : NoditMap K V * list (side * option (K * V)) :=
    let (out, s) := mut_drive script ([], m, []) in (mut_end s, out).
  (** [NoditMap::overlapping_mut]  (/repo/src/nodit/map.rs:199-214): the range is
      found as by [BTree.range]. *)
  Definition overlapping_mut_calls {Q} `{InclusiveInterval I Q} (script : list (side * (V -> V))) (q : Q)
    (m : NoditMap K V) : NoditMap K V * outcome (list (side * option (K * V))) :=
    match invalid_interval_panic q with
    | Panic => (m, Panic)
    | Val _ =>
        let (pre, post) := seek (overlapping_comp (istart q)) m in
        let visited := take_upper (overlapping_comp (iend q)) post in
        let (out, s) := mut_drive script ([], visited, []) in
        (pre ++ mut_end s ++ skipn (length visited) post, Val out)
    end.
End Iterators.
