(** * EqModel: the derived [PartialEq] of the containers.  No proofs in this
      file.  ([Gqdit]'s is in GqditModel.) *)
From Coq Require Import List Bool Arith.
From Verif Require Import Base BTree UtilsModel IntervalModel NoditModel NoditSetModel NoditOps ZosditModel.
Import ListNotations.

(** [PartialEq for BTreeMap] (dependency, as in the standard library):
    [self.len() == other.len() && self.iter().zip(other).all(|(a, b)| a == b)].
    (used by the derived [PartialEq]s, /repo/src/nodit/map.rs:58, /repo/src/zosdit/map.rs:61) *)
Definition bt_eqb {K V : Type} (keq : K -> K -> bool) (veq : V -> V -> bool) (a b : BTreeMap K V) : bool :=
  Nat.eqb (length a) (length b) &&
  forallb (fun x => keq (fst (fst x)) (fst (snd x)) && veq (snd (fst x)) (snd (snd x))) (combine a b).

(** [PartialEq for SmallVec]: equality of slices.
    (used by the derived [PartialEq] of /repo/src/zosdit/map.rs:61) *)
Fixpoint vec_eqb {V : Type} (veq : V -> V -> bool) (a b : list V) : bool :=
  match a, b with
  | [], [] => true
  | x :: a, y :: b => veq x y && vec_eqb veq a b
  | _, _ => false
  end.

(** derived for [NoditMap]  (/repo/src/nodit/map.rs:58-62); [PhantomData]
    is always equal. *)
Definition nodit_eqb {K V : Type} (keq : K -> K -> bool) (veq : V -> V -> bool) (a b : NoditMap K V) : bool :=
  bt_eqb keq veq a b.
(** derived for [NoditSet]  (/repo/src/nodit/set.rs:22-25) *)
Definition set_eqb {K : Type} (keq : K -> K -> bool) (a b : NoditSet K) : bool :=
  nodit_eqb keq (fun _ _ => true) a b.
(** derived for [ZosditMap]  (/repo/src/zosdit/map.rs:61-68): the fields in
    order, [len] first. *)
Definition zosdit_eqb {K V : Type} (keq : K -> K -> bool) (veq : V -> V -> bool) (a b : ZosditMap K V) : bool :=
  Nat.eqb (z_len a) (z_len b) && bt_eqb keq (vec_eqb veq) (z_inner a) (z_inner b).
(** derived for [Interval]  (/repo/src/interval.rs:40-46) *)
Definition interval_eqb {I : Type} (ieq : I -> I -> bool) (a b : Interval I) : bool :=
  ieq (ivl_start a) (ivl_start b) && ieq (ivl_end a) (ivl_end b).

(** The operations of C81.
    (/repo/src/nodit/map.rs:921-982 and the other insertions) *)
Definition value_merging {I} `{Ord I} {K V : Type} (veq : V -> V -> bool) (o : op I K V) : Prop :=
  match o with
  | OpNew | OpRemoveOverlapping _ | OpCut _ => True
  | OpInsertMergeTouchingIfValuesEqual veq' _ _ => veq' = veq
  | _ => False
  end.

(** [Hash] derived for [Interval]  (/repo/src/interval.rs:40-46): feeds the
    hasher with the fields in order.  Modelled by the sequence of writes;
    [feed] is what [I]'s [Hash] writes. *)
Definition interval_hash {I W : Type} (feed : I -> list W) (a : Interval I) : list W :=
  feed (ivl_start a) ++ feed (ivl_end a).
