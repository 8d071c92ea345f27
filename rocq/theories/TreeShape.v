(** * TreeShape: searches through a multiway search tree of any shape (C53).

    [BTree.v] models the [btree_monstrousity] map by its in-order entries.
    This file models the tree the map really is: nodes holding keys and the
    subtrees between them, searched from the root with a comparator.  No
    proofs in this file; part of the specification of C53. *)
From Coq Require Import List Arith.
From Verif Require Import Base BTree.
Import ListNotations.

Section Tree.
  Context {K V : Type}.
  Implicit Types (l : BTreeMap K V) (comp : K -> comparison).

  (** A node: subtree, key, subtree, key, ..., subtree.  The keys of a leaf node
      have [Tip] around them. *)
  Inductive tree : Type :=
  | Tip
  | Node (n : edges)
  with edges : Type :=
  | Last (t : tree)
  | More (t : tree) (kv : K * V) (n : edges).

  (** The entries in order. *)
  Fixpoint entries (t : tree) : BTreeMap K V :=
    match t with Tip => [] | Node n => edges_entries n end
  with edges_entries (n : edges) : BTreeMap K V :=
    match n with
    | Last t => entries t
    | More t kv n => entries t ++ kv :: edges_entries n
    end.

  (** The search: scan the keys of the node; on [Greater] go on to the next key,
      on [Equal] stop there, on [Less] (or at the end of the node) go down the
      subtree just passed.  The result is the place found: the entries before
      it, the entry found equal if any, and the entries after it. *)
  Definition place : Type := (BTreeMap K V * option (K * V) * BTreeMap K V)%type.
  Fixpoint search comp (t : tree) : place :=
    match t with
    | Tip => ([], None, [])
    | Node n => search_node comp n
    end
  with search_node comp (n : edges) : place :=
    match n with
    | Last t => search comp t
    | More t kv n =>
        match comp (fst kv) with
        | Gt => let '(a, x, b) := search_node comp n in (entries t ++ kv :: a, x, b)
        | Eq => (entries t, Some kv, edges_entries n)
        | Lt => let '(a, x, b) := search comp t in (a, x, b ++ kv :: edges_entries n)
        end
    end.

  (** The methods of the map the crate uses that take a comparator, by [search]. *)
  Definition t_get_key_value comp t : option (K * V) := let '(_, x, _) := search comp t in x.
  Definition t_get_mut comp (f : V -> V) t : BTreeMap K V * option V :=
    match search comp t with
    | (a, Some (k, v), b) => (a ++ (k, f v) :: b, Some v)
    | (_, None, _) => (entries t, None)
    end.
  Definition t_remove comp t : BTreeMap K V * option V :=
    match search comp t with
    | (a, Some (k, v), b) => (a ++ b, Some v)
    | (_, None, _) => (entries t, None)
    end.
  Definition t_insert (key : K) (value : V) (comp : K -> K -> comparison) t : BTreeMap K V * option V :=
    match search (fun inner => comp inner key) t with
    | (a, Some (k, v), b) => (a ++ (k, value) :: b, Some v)
    | (a, None, b) => (a ++ (key, value) :: b, None)
    end.
  Definition t_lower_bound comp t : cursor K V :=
    match search comp t with
    | (a, Some kv, b) => (a, kv :: b)
    | (a, None, b) => (a, b)
    end.
  Definition t_upper_bound comp t : cursor K V :=
    match search comp t with
    | (a, Some kv, b) => (a, kv :: b)
    | (a, None, b) => move_prev (a, b)
    end.
  (** Two searches bound the range: from the first entry not before the lower
      place to the last entry not after the upper place. *)
  Definition t_range lower upper t : BTreeMap K V :=
    let '(a, _, _) := search lower t in
    let '(a', x', _) := search upper t in
    skipn (length a) (firstn (length a' + (if is_some x' then 1 else 0)) (entries t)).

  (** Every search with [comp] through every tree with the entries [l] gives the
      answer of [BTree.v]. *)
  Definition shape_free comp l : Prop := forall t, entries t = l ->
    t_get_key_value comp t = get_key_value comp l /\
    (forall f, t_get_mut comp f t = get_mut comp f l) /\
    t_remove comp t = remove comp l /\
    t_lower_bound comp t = lower_bound comp l /\
    t_upper_bound comp t = upper_bound comp l.
  Definition insert_shape_free (key : K) (comp : K -> K -> comparison) l : Prop := forall t v, entries t = l ->
    t_insert key v comp t = insert key v comp l.
  Definition range_shape_free lower upper l : Prop := forall t, entries t = l ->
    t_range lower upper t = range lower upper l.

  (** A B-tree as in the standard library ([B = 6]): every node has at most 11
      keys, every node but the root at least 5, every leaf is at depth [d]. *)
  Fixpoint keys (n : edges) : nat := match n with Last _ => 0 | More _ _ n => S (keys n) end.
  Inductive btree : bool -> nat -> tree -> Prop :=
  | btree_tip root : btree root 0 Tip
  | btree_node (root : bool) d n : (if root then 1 else 5) <= keys n <= 11 -> bnode d n -> btree root (S d) (Node n)
  with bnode : nat -> edges -> Prop :=
  | bnode_last d t : btree false d t -> bnode d (Last t)
  | bnode_more d t kv n : btree false d t -> bnode d n -> bnode d (More t kv n).
End Tree.

(** [entry(interval, comp).or_default().push(value)] of a map of lists
    (/repo/src/zosdit/map.rs:289-317). *)
Definition t_entry_push {K W : Type} (comp : K -> comparison) (interval : K) (value : W)
  (t : tree (K := K) (V := list W)) : BTreeMap K (list W) :=
  match search comp t with
  | (a, Some (k, vs), b) => a ++ (k, vs ++ [value]) :: b
  | (a, None, b) => a ++ (interval, [value]) :: b
  end.
Arguments tree : clear implicits.
Arguments edges : clear implicits.
