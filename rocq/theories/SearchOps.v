(** * SearchOps: which stored intervals a search looks at (C151).

    The tree of [TreeShape] again, with the list of the intervals that are given
    to the comparator on the way down.  The methods below are those of
    /repo/src/nodit/map.rs and /repo/src/zosdit/map.rs that touch the tree by
    searches only, on such a tree; each returns its answer and everything it
    asked.  No proofs in this file; part of the specification of C151. *)
From Coq Require Import List Bool Arith.
From Verif Require Import Base BTree UtilsModel IntervalModel NoditModel ZosditModel TreeShape.
Import ListNotations.

Section Asks.
  Context {K V : Type}.

  (** The intervals compared by [TreeShape.search], in that order. *)
  Fixpoint asks (comp : K -> comparison) (t : tree K V) : list K :=
    match t with
    | Tip => []
    | Node n => asks_node comp n
    end
  with asks_node (comp : K -> comparison) (n : edges K V) : list K :=
    match n with
    | Last t => asks comp t
    | More t kv n =>
        fst kv :: match comp (fst kv) with
                  | Gt => asks_node comp n
                  | Eq => []
                  | Lt => asks comp t
                  end
    end.
End Asks.

(** [c] searches among [n] entries, with at most [11 / 2 * (1 + log2 (n + 1))]
    comparisons each. *)
Definition few (c n asked : nat) : Prop := 2 * asked <= c * (11 * (1 + Nat.log2 (S n))).

Section Nodit.
  Context {I : Type} `{Ord I} `{DiscreteFinite I}.
  Context {K : Type} `{InclusiveInterval I K}.
  Context {V : Type}.
  Implicit Types (t : tree K V) (point : I).

  (** [get_gap_at_raw] and [get_key_value_at_point]  (/repo/src/nodit/map.rs:310-331) *)
  Definition c_get_gap_at_raw t point : outcome (Interval I) * list K :=
    let lower := t_upper_bound (overlapping_comp point) t in
    let upper := t_lower_bound (overlapping_comp point) t in
    (let? s := match cursor_key lower with
               | None => Val MIN
               | Some lower => unwrap (up (iend lower))
               end in
     let? e := match cursor_key upper with
               | None => Val MAX
               | Some upper => unwrap (down (istart upper))
               end in
     Val (mkInterval s e),
     asks (overlapping_comp point) t ++ asks (overlapping_comp point) t).
  Definition c_get_key_value_at_point t point : outcome (result (K * V) K) * list K :=
    match t_get_key_value (overlapping_comp point) t with
    | Some kv => (Val (Ok kv), asks (overlapping_comp point) t)
    | None => let (g, asked) := c_get_gap_at_raw t point in
              ((let? g := g in Val (Err (ifrom g))), asks (overlapping_comp point) t ++ asked)
    end.
  (** [get_at_point_mut]  (/repo/src/nodit/map.rs:257-259) *)
  Definition c_get_at_point_mut (f : V -> V) point t : BTreeMap K V * option V * list K :=
    (t_get_mut (overlapping_comp point) f t, asks (overlapping_comp point) t).

  (** [overlaps]  (/repo/src/nodit/map.rs:116-123) *)
  Definition c_overlaps {Q} `{InclusiveInterval I Q} t (q : Q) : outcome bool * list K :=
    match invalid_interval_panic q with
    | Panic => (Panic, [])
    | Val _ => (Val match t_range (overlapping_comp (istart q)) (overlapping_comp (iend q)) t with [] => false | _ => true end,
                asks (overlapping_comp (istart q)) t ++ asks (overlapping_comp (iend q)) t)
    end.

  (** [insert_strict]  (/repo/src/nodit/map.rs:714-731); of the new tree only
      the entries are given. *)
  Definition c_insert_strict (interval : K) (value : V) t : BTreeMap K V * outcome (result unit V) * list K :=
    match c_overlaps t interval with
    | (Panic, asked) => (entries t, Panic, asked)
    | (Val true, asked) => (entries t, Val (Err value), asked)
    | (Val false, asked) => (fst (t_insert interval value starts_comp t), Val (Ok tt),
                             asked ++ asks (fun inner => starts_comp inner interval) t)
    end.
End Nodit.

Section Zosdit.
  Context {I : Type} `{Ord I} `{DiscreteFinite I}.
  Context {K : Type} `{InclusiveInterval I K}.
  Context {V : Type}.
  Implicit Types (t : tree K (list V)) (point : I).

  (** [get_last_value_at_point]  (/repo/src/zosdit/map.rs:176-190) *)
  Definition c_get_last_value_at_point t point : option V * list K :=
    let c := t_lower_bound (exclusive_comp point Gt) t in
    let c := match cursor_key c with None => move_prev c | Some _ => c end in
    (match cursor_key_value c with
     | Some (key, value_store) => if contains_point key point then vec_last value_store else None
     | None => None
     end, asks (exclusive_comp point Gt) t).

  (** [is_zero_overlap]  (/repo/src/zosdit/map.rs:354-373) *)
  Definition c_is_zero_overlap {Q} `{InclusiveInterval I Q} t (q : Q) : outcome bool * list K :=
    match invalid_interval_panic q with
    | Panic => (Panic, [])
    | Val _ => (Val match t_range (exclusive_comp (istart q) Gt) (exclusive_comp (iend q) Lt) t with [] => true | _ => false end,
                asks (exclusive_comp (istart q) Gt) t ++ asks (exclusive_comp (iend q) Lt) t)
    end.
End Zosdit.
