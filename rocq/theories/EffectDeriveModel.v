(** * EffectDeriveModel: the derived [Clone], [PartialEq] and [Hash] and the serde methods of
      [Gqdit] for user code with side effects (see [EffectModel]), and the vocabulary of C167.  No proofs in this
      file. *)
From Coq Require Import List Bool Arith.
From Verif Require Import Base BTree UtilsModel IntervalModel NoditModel NoditSetModel ZosditModel GqditModel TreeShape EffectModel EffectGqditModel EffectBulkModel.
Import ListNotations.

Section Derive.
  Context {W K V D : Type} (kclone : K -> user W K) (keq : K -> K -> user W bool) (vclone : V -> user W V) (veq : V -> V -> user W bool) (J : id_code W D).
  (** [SmallVec] clones its elements in order and compares like a slice: the lengths first.
      (used by the derives of /repo/src/zosdit/map.rs:61) *)
  Fixpoint vec_clone_e (l : list V) : user W (list V) :=
    match l with
    | [] => uret []
    | v :: l => do! v := vclone v in do! l := vec_clone_e l in uret (v :: l)
    end.
  Fixpoint all_veq_e (l l' : list V) : user W bool :=
    match l, l' with
    | x :: l, y :: l' => do! b := veq x y in if b then all_veq_e l l' else uret false
    | _, _ => uret true
    end.
  Definition vec_eq_e (l l' : list V) : user W bool := if Nat.eqb (length l) (length l') then all_veq_e l l' else uret false.

  (** [Clone for BTreeMap] (dependency, as in the standard library): the nodes in order, of
      each entry first the key.  [PartialEq for BTreeMap]: see [EqModel.bt_eqb]; of each
      pair of entries first the keys.
      (used by the derives of /repo/src/nodit/map.rs:58, /repo/src/zosdit/map.rs:61) *)
  Section Trees.
    Context {X : Type} (xclone : X -> user W X) (xeq : X -> X -> user W bool).
    Fixpoint bt_clone_e (l : BTreeMap K X) : user W (BTreeMap K X) :=
      match l with
      | [] => uret []
      | (k, x) :: l => do! k := kclone k in do! x := xclone x in do! l := bt_clone_e l in uret ((k, x) :: l)
      end.
    Fixpoint all_entries_eq_e (l l' : BTreeMap K X) : user W bool :=
      match l, l' with
      | (k, x) :: l, (k', x') :: l' =>
          do! b := keq k k' in
          if b then do! b := xeq x x' in if b then all_entries_eq_e l l' else uret false else uret false
      | _, _ => uret true
      end.
    Definition bt_eq_e (l l' : BTreeMap K X) : user W bool := if Nat.eqb (length l) (length l') then all_entries_eq_e l l' else uret false.
  End Trees.

  (** derived for [NoditMap]  (/repo/src/nodit/map.rs:58-62) *)
  Definition nodit_clone_e (m : NoditMap K V) : user W (NoditMap K V) := bt_clone_e vclone m.
  Definition nodit_eq_e (a b : NoditMap K V) : user W bool := bt_eq_e veq a b.
  (** derived for [NoditSet]  (/repo/src/nodit/set.rs:22-25); [()] has no user code *)
  Definition nodit_set_clone_e (s : NoditSet K) : user W (NoditSet K) := bt_clone_e uret s.
  Definition nodit_set_eq_e (a b : NoditSet K) : user W bool := bt_eq_e (fun _ _ => uret true) a b.
  (** derived for [ZosditMap]  (/repo/src/zosdit/map.rs:61-68): the fields in order *)
  Definition zosdit_clone_e (z : ZosditMap K V) : user W (ZosditMap K V) := do! l := bt_clone_e vec_clone_e (z_inner z) in uret (mkZosdit (z_len z) l).
  Definition zosdit_eq_e (a b : ZosditMap K V) : user W bool := if Nat.eqb (z_len a) (z_len b) then bt_eq_e vec_eq_e (z_inner a) (z_inner b) else uret false.
  (** derived [Clone] of [Gqdit]  (/repo/src/gqdit/mod.rs:66-69) and its [PartialEq]
      (/repo/src/gqdit/mod.rs:537-546) *)
  Definition gqdit_clone_e (g : Gqdit K D) : user W (Gqdit K D) := bt_clone_e (set_clone_e J) g.
  Definition gqdit_eq_e (a b : Gqdit K D) : user W bool := bt_eq_e (set_eq_e J) a b.
End Derive.

(** derived for [Interval]: the fields in order  (/repo/src/interval.rs:40-46) *)
Section Intervals.
  Context {W I : Type} (pclone : I -> user W I) (peq : I -> I -> user W bool) (feed : I -> user W unit).
  Definition interval_clone_e (i : Interval I) : user W (Interval I) := do! s := pclone (ivl_start i) in do! e := pclone (ivl_end i) in uret (mkInterval s e).
  Definition interval_eq_e (a b : Interval I) : user W bool := do! s := peq (ivl_start a) (ivl_start b) in if s then peq (ivl_end a) (ivl_end b) else uret false.
  Definition interval_hash_e (i : Interval I) : user W unit := do! _ := feed (ivl_start i) in feed (ivl_end i).
End Intervals.

(** [serialize] and [deserialize] of [Gqdit]  (/repo/src/gqdit/mod.rs:560-597): those of the
    [NoditMap]; reading a set of identifiers is a part of reading an entry. *)
Section Serde.
  Context {W I K D A E : Type} `{DiscreteFinite I} (P : point_code W I) (ik : interval_code W I K).
  Definition gqdit_serialize_e (announce : nat -> user W (result unit E)) (element : K * list D -> user W (result unit E)) (finish : user W (result A E)) (g : Gqdit K D) :=
    map_serialize_e announce element finish g.
  Definition gqdit_visit_seq_e (T : nat -> nat -> BTreeMap K (list D) -> tree K (list D)) (custom : user W E) (next : user W (result (option (K * list D)) E)) (fuel : nat)
    : W -> loaded (Gqdit K D) E * list (K * list D) * W := visit_seq_e P ik T custom next fuel.
End Serde.

(** Vocabulary of C167. *)
Section Ops.
  Context {W : Type}.
  (** User code [f] can return [b] for [a]. *)
  Definition returns {A B} (f : A -> user W B) (a : A) (b : B) : Prop := exists w w', f a w = (Val b, w').
  (** [y] holds what [clone] returned for the elements of [x]. *)
  Definition clones {A} (clone : A -> user W A) (x y : list A) : Prop := Forall2 (returns clone) x y.
  Definition clones_entry {K X} (kclone : K -> user W K) (R : X -> X -> Prop) (x y : K * X) : Prop := returns kclone (fst x) (fst y) /\ R (snd x) (snd y).
  (** Code that does not panic. *)
  Definition calm {A} (r : A * W) : outcome A * W := (Val (fst r), snd r).
End Ops.
