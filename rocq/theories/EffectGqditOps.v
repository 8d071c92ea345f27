(** * EffectGqditOps: vocabulary of C160.  No proofs in this file. *)
From Coq Require Import List.
From Verif Require Import Base BTree UtilsModel IntervalModel NoditModel GqditModel GqditOps TreeShape EffectModel EffectOps EffectGqditModel.
Import ListNotations.

(** Identifiers with side effects, but the right answers. *)
Definition right_ids {W D} `{Ord D} (J : id_code W D) : Prop := forall d d',
  answers (i_cmp J d d') (Val (cmp d d')) /\ answers (i_eq J d d') (Val (eqb d d')) /\ answers (i_clone J d) (Val d).
(** Trees with the elements of the set. *)
Definition faithful_sets {W D} (shape : W -> list D -> tree D unit) : Prop := forall w s, entries (shape w s) = map (fun d => (d, tt)) s.
(** [d'] is what cloning [d] gave at some time; what cloning [d], and clones of it, gave; the same for sets. *)
Definition id_clone_of {W D} (J : id_code W D) (d d' : D) : Prop := exists w w', i_clone J d w = (Val d', w').
Inductive id_descends {W D} (J : id_code W D) (d : D) : D -> Prop :=
| id_self : id_descends J d d
| id_cloned u u' : id_descends J d u -> id_clone_of J u u' -> id_descends J d u'.
Definition set_clone_of {W D} (J : id_code W D) : list D -> list D -> Prop := Forall2 (id_clone_of J).
(** [s] comes from a set of [g]: it is that set, a clone of it, or what [change] made of it. *)
Definition set_from {W K D} (J : id_code W D) (g : Gqdit K D) (change : list D -> list D -> Prop) (s : list D) : Prop :=
  exists k old, In (k, old) g /\ (s = old \/ set_clone_of J old s \/ change old s).
(** [s] is [old] with clones of some of [identifiers] put in. *)
Definition extended {W D} (J : id_code W D) (identifiers old s : list D) : Prop :=
  within old s /\ length s <= length old + length identifiers /\
  (forall d, In d s -> In d old \/ exists d', In d' identifiers /\ id_clone_of J d' d).

(** Calls; the other [Gqdit] given to [append] is any other history. *)
Inductive gcall (K D : Type) : Type :=
| CallInsert (ids : list D) (k : K)
| CallCutWith (ids : list D) (q : K)
| CallCutAll (q : K)
| CallAppend (other : list (gcall K D)).
Arguments CallInsert {K D}. Arguments CallCutWith {K D}. Arguments CallCutAll {K D}. Arguments CallAppend {K D}.

Section Calls.
  Context {W I K D : Type} `{DiscreteFinite I} (P : point_code W I) (ik : interval_code W I K) (from : Interval I -> user W K).
  Context (J : id_code W D) (shape : W -> list D -> tree D unit) (overlaps_k : K -> K -> user W bool) (i_overlaps : Interval I -> K -> user W bool).
  (** [T path] are the trees met by one method of the inner map; [path] says which. *)
  Context (T : list nat -> nat -> BTreeMap K (list D) -> tree K (list D)).
  (** The [Gqdit] and the world after a call; panics are caught. *)
  Fixpoint gcall_do (path : list nat) (c : gcall K D) (g : Gqdit K D) (w : W) : Gqdit K D * W :=
    match c with
    | CallInsert ids k => let '((g, _), w) := gqdit_insert_e P ik from J shape overlaps_k (fun i => T (i :: path)) ids k g w in (g, w)
    | CallCutWith ids q => let '((g, _), w) := cut_with_identifiers_e P ik from J shape overlaps_k ik overlaps_k (fun i => T (i :: path)) ids q g w in (g, w)
    | CallCutAll q => let '((g, _), w) := cut_all_identifiers_e P ik from J overlaps_k ik overlaps_k (fun i => T (i :: path)) q g w in (g, w)
    | CallAppend cs =>
        match gqdit_new_e P ik from (fun i => T (0 :: i :: path)) w with
        | (Panic, w) => (g, w)
        | (Val other, w) =>
            let '(other, w) := (fix go (cs : list (gcall K D)) (path : list nat) (g : Gqdit K D) (w : W) : Gqdit K D * W :=
                                  match cs with
                                  | [] => (g, w)
                                  | c :: cs => let '(g, w) := gcall_do (length cs :: path) c g w in go cs path g w
                                  end) cs (1 :: path) other w in
            let '((g, _, _), w) := append_e P ik from J shape overlaps_k i_overlaps (T (2 :: path) 0) (fun j i => T (j :: i :: 3 :: path)) g other w in (g, w)
        end
    end.
  Fixpoint gcalls_do (cs : list (gcall K D)) (path : list nat) (g : Gqdit K D) (w : W) : Gqdit K D * W :=
    match cs with
    | [] => (g, w)
    | c :: cs => let '(g, w) := gcall_do (length cs :: path) c g w in gcalls_do cs path g w
    end.
  (** [new], then the calls. *)
  Definition ghistory (cs : list (gcall K D)) (w : W) : outcome (Gqdit K D) * W :=
    match gqdit_new_e P ik from (fun i => T [i]) w with
    | (Panic, w) => (Panic, w)
    | (Val g, w) => let '(g, w) := gcalls_do cs [] g w in (Val g, w)
    end.
End Calls.
(** The identifiers given by a call. *)
Fixpoint ids_given {K D} (c : gcall K D) : list D :=
  match c with
  | CallInsert ids _ => ids
  | CallCutWith _ _ | CallCutAll _ => []
  | CallAppend cs => flat_map ids_given cs
  end.
(** The call of [GqditOps] that a call is. *)
Fixpoint as_gop {I K D} `{Ord I} `{DiscreteFinite I} `{InclusiveInterval I K} `{Ord D} (c : gcall K D) : gop I K D :=
  match c with
  | CallInsert ids k => GInsert ids k
  | CallCutWith ids q => GCutWith ids q
  | CallCutAll q => GCutAll q
  | CallAppend cs => GAppend (map as_gop cs)
  end.
(** The identifiers are given as sets. *)
Inductive gives_sets {K D} `{Ord D} : gcall K D -> Prop :=
| sets_insert ids k : is_set ids -> gives_sets (CallInsert ids k)
| sets_cut ids q : is_set ids -> gives_sets (CallCutWith ids q)
| sets_all q : gives_sets (CallCutAll q)
| sets_append cs : Forall gives_sets cs -> gives_sets (CallAppend cs).
