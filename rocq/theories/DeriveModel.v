(** * DeriveModel: the derived [Clone] of the containers.  No proofs in this
      file.

    As in [CloneModel] a clone reads and changes a state [W] and may return any
    value, also that of an interval or an identifier. *)
From Coq Require Import List.
From Verif Require Import Base BTree UtilsModel IntervalModel NoditModel NoditSetModel ZosditModel GqditModel CloneModel.
Import ListNotations.

Section Derive.
  Context {K V D W : Type}.
  Context (kclone : W -> K -> K * W) (vclone : W -> V -> V * W) (dclone : W -> D -> D * W).

  (** [Clone for BTreeMap] (dependency, as in the standard library): the entries
      in order, of each first the key and then the value.
      (used by the derived [Clone]s, /repo/src/nodit/map.rs:58, /repo/src/zosdit/map.rs:61) *)
  Fixpoint bt_clone {X : Type} (xclone : W -> X -> X * W) (w : W) (l : BTreeMap K X) : BTreeMap K X * W :=
    match l with
    | [] => ([], w)
    | (k, x) :: r =>
        let (k, w) := kclone w k in
        let (x, w) := xclone w x in
        let (r, w) := bt_clone xclone w r in
        ((k, x) :: r, w)
    end.

  (** derived for [NoditMap]  (/repo/src/nodit/map.rs:58-62) *)
  Definition nodit_clone (w : W) (m : NoditMap K V) : NoditMap K V * W := bt_clone vclone w m.
  (** derived for [NoditSet]  (/repo/src/nodit/set.rs:22-25) *)
  Definition set_clone (w : W) (s : NoditSet K) : NoditSet K * W := bt_clone (fun w u => (u, w)) w s.
  (** derived for [ZosditMap]  (/repo/src/zosdit/map.rs:61-68), the fields in
      order; [SmallVec] clones its elements in order. *)
  Definition zosdit_clone (w : W) (z : ZosditMap K V) : ZosditMap K V * W :=
    let (l, w) := bt_clone (clone_all vclone) w (z_inner z) in (mkZosdit (z_len z) l, w).
  (** derived for [Gqdit]  (/repo/src/gqdit/mod.rs:66-69); [BTreeSet] clones
      its elements in order. *)
  Definition gqdit_clone (w : W) (g : Gqdit K D) : Gqdit K D * W :=
    bt_clone (clone_all dclone) w g.
End Derive.
