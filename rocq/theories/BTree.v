(** * BTree: the model of the [btree_monstrousity] dependency

    [btree_monstrousity::BTreeMap] (Cargo.toml, version 0.0.5) is a fork of the
    standard [BTreeMap] whose searches take a comparator closure instead of an
    [Ord] key.  Its source is not in /repo, so this file is part of the trusted
    base: it models the map by its in-order sequence of entries and every
    search by the linear scan of one B-tree node.  [TreeShape.v] proves that a
    search through ANY multiway tree shape gives the same answer for every
    comparator and state met by the crate.

    Convention, read off the comparators of /repo/src/utils.rs and their uses:
    [comp k] is the ordering of the *target* relative to the stored key [k];
    [Gt] (Ordering::Greater) means "the target lies to the right of k".
    Only [SearchBoundCustom::Included] is modelled, the only bound the crate uses. *)
From Coq Require Import List.
From Verif Require Import Base.
Import ListNotations.

Section BTree.
  Context {K V : Type}.

  Definition BTreeMap : Type := list (K * V).

  (** Node search: skip the keys the target is greater than.  Returns the
      skipped prefix and the remaining suffix. *)
  Fixpoint seek (comp : K -> comparison) (l : BTreeMap) : BTreeMap * BTreeMap :=
    match l with
    | [] => ([], [])
    | (k, v) :: r =>
        match comp k with
        | Gt => let (a, b) := seek comp r in ((k, v) :: a, b)
        | _ => ([], (k, v) :: r)
        end
    end.

  (** [BTreeMap::get_key_value(comp)] (uses: map.rs:312, 849, 856, ...). *)
  Definition get_key_value (comp : K -> comparison) (l : BTreeMap) : option (K * V) :=
    match snd (seek comp l) with
    | (k, v) :: _ => match comp k with Eq => Some (k, v) | _ => None end
    | [] => None
    end.

  (** [BTreeMap::contains_key(comp)] (map.rs:510, 513). *)
  Definition contains_key (comp : K -> comparison) (l : BTreeMap) : bool :=
    is_some (get_key_value comp l).

  (** [BTreeMap::get_mut(comp)] (map.rs:258).  A [&mut V] handed to the caller is
      modelled by the function [f] the caller applies through it; the result
      also tells whether there was a reference at all. *)
  Definition get_mut (comp : K -> comparison) (f : V -> V) (l : BTreeMap) : BTreeMap * option V :=
    let (a, b) := seek comp l in
    match b with
    | (k, v) :: r => match comp k with Eq => (a ++ (k, f v) :: r, Some v) | _ => (l, None) end
    | [] => (l, None)
    end.

  (** [BTreeMap::remove(comp)] (map.rs:861, 864, ...). *)
  Definition remove (comp : K -> comparison) (l : BTreeMap) : BTreeMap * option V :=
    let (a, b) := seek comp l in
    match b with
    | (k, v) :: r => match comp k with Eq => (a ++ r, Some v) | _ => (l, None) end
    | [] => (l, None)
    end.

  (** [BTreeMap::insert(key, value, comp)] (map.rs:730).  The comparator takes
      (inner key, new key).  On [Equal] the value is replaced and the old key
      kept, as in the standard map. *)
  Definition insert (key : K) (value : V) (comp : K -> K -> comparison) (l : BTreeMap)
    : BTreeMap * option V :=
    let (a, b) := seek (fun inner => comp inner key) l in
    match b with
    | (k, v) :: r =>
        match comp k key with
        | Eq => (a ++ (k, value) :: r, Some v)
        | _ => (a ++ (key, value) :: b, None)
        end
    | [] => (a ++ [(key, value)], None)
    end.

  (** The entries from the current position that the upper search steps over,
      including an [Equal] one ([Included]). *)
  Fixpoint take_upper (comp : K -> comparison) (l : BTreeMap) : BTreeMap :=
    match l with
    | [] => []
    | (k, v) :: r =>
        match comp k with
        | Gt => (k, v) :: take_upper comp r
        | Eq => [(k, v)]
        | Lt => []
        end
    end.

  (** [BTreeMap::range(lower, Included, upper, Included)] (map.rs:162,
      zosdit/map.rs:364, 507).  As in the standard library the upper search of a
      node starts at the lower edge, so an inverted range is empty. *)
  Definition range (lower upper : K -> comparison) (l : BTreeMap) : BTreeMap :=
    take_upper upper (snd (seek lower l)).

  (** ** Cursors

      A cursor is modelled by the pair (entries before the current one,
      current entry and everything after it).  The "ghost" position is
      [(all, [])]. *)
  Definition cursor : Type := BTreeMap * BTreeMap.

  Definition cursor_map (c : cursor) : BTreeMap := fst c ++ snd c.

  Definition cursor_key_value (c : cursor) : option (K * V) :=
    match snd c with
    | [] => None
    | kv :: _ => Some kv
    end.

  Definition cursor_key (c : cursor) : option K := option_map fst (cursor_key_value c).

  (** [Cursor::move_prev]: from the first entry to the ghost, from the ghost to
      the last entry.
      (used at /repo/src/zosdit/map.rs:183, 230) *)
  Definition move_prev (c : cursor) : cursor :=
    match rev (fst c) with
    | [] => (snd c, [])
    | kv :: r => (rev r, kv :: snd c)
    end.

  (** [Cursor::move_next]: from the last entry to the ghost, from the ghost to
      the first entry.
      (used at /repo/src/zosdit/map.rs:434) *)
  Definition move_next (c : cursor) : cursor :=
    match snd c with
    | [] => ([], fst c)
    | kv :: r => (fst c ++ [kv], r)
    end.

  (** [BTreeMap::lower_bound(comp, Included)] / [lower_bound_mut]: the first
      entry not below the target (map.rs:321, 377, 439; zosdit/map.rs:177, 224). *)
  Definition lower_bound (comp : K -> comparison) (l : BTreeMap) : cursor := seek comp l.

  (** [BTreeMap::upper_bound(comp, Included)] / [upper_bound_mut]: the last
      entry not above the target, or the ghost (map.rs:318; zosdit/map.rs:428). *)
  Definition upper_bound (comp : K -> comparison) (l : BTreeMap) : cursor :=
    let (a, b) := seek comp l in
    match b with
    | (k, v) :: r => match comp k with Eq => (a, b) | _ => move_prev (a, b) end
    | [] => move_prev (a, b)
    end.

  (** [BTreeMap::first_key_value] and [last_key_value].
      (used at /repo/src/nodit/map.rs:1370, 1392, /repo/src/zosdit/map.rs:123, 149) *)
  Definition bt_first (l : BTreeMap) : option (K * V) :=
    match l with [] => None | kv :: _ => Some kv end.
  Fixpoint bt_last (l : BTreeMap) : option (K * V) :=
    match l with
    | [] => None
    | [kv] => Some kv
    | _ :: r => bt_last r
    end.

  (** [BTreeMap::iter_mut] / [range_mut] with the caller applying [f key] to the
      value of every visited entry: rebuild the visited entries.
      (used at /repo/src/nodit/map.rs:208, 1350) *)
  Definition map_values (f : K -> V -> V) (l : BTreeMap) : BTreeMap :=
    map (fun kv => (fst kv, f (fst kv) (snd kv))) l.

  Fixpoint map_upper (comp : K -> comparison) (f : K -> V -> V) (l : BTreeMap) : BTreeMap :=
    match l with
    | [] => []
    | (k, v) :: r =>
        match comp k with
        | Gt => (k, f k v) :: map_upper comp f r
        | Eq => (k, f k v) :: r
        | Lt => (k, v) :: r
        end
    end.

  Definition range_mut (lower upper : K -> comparison) (f : K -> V -> V) (l : BTreeMap) : BTreeMap :=
    let (a, b) := seek lower l in a ++ map_upper upper f b.
End BTree.
Arguments BTreeMap : clear implicits.
Arguments cursor : clear implicits.
