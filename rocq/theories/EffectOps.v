(** * EffectOps: vocabulary of C157.  No proofs in this file. *)
From Coq Require Import List Permutation.
From Verif Require Import Base BTree UtilsModel IntervalModel NoditModel NoditOps TreeShape EffectModel.
Import ListNotations.

(** ** User code with side effects but the right answers *)
Definition answers {W A} (x : user W A) (o : outcome A) : Prop := forall w, fst (x w) = o.
Section Right.
  Context {W I : Type} `{Ord I} `{DiscreteFinite I}.
  Definition right_points (P : point_code W I) : Prop :=
    (forall x y, answers (e_cmp P x y) (Val (cmp x y)) /\ answers (e_lt P x y) (Val (ltb x y)) /\
       answers (e_gt P x y) (Val (gtb x y)) /\ answers (e_le P x y) (Val (leb x y)) /\ answers (e_ge P x y) (Val (geb x y)) /\ answers (e_eq P x y) (Val (eqb x y))) /\
    (forall x, answers (e_up P x) (Val (up x)) /\ answers (e_down P x) (Val (down x))).
  Definition right_intervals {X} `{InclusiveInterval I X} (ix : interval_code W I X) : Prop := forall x,
    answers (e_start ix x) (Val (istart x)) /\ answers (e_end ix x) (Val (iend x)) /\ answers (e_valid ix x) (Val (is_valid x)).
  Definition right_overlaps {A B} `{InclusiveInterval I A} `{InclusiveInterval I B} (f : A -> B -> user W bool) : Prop :=
    forall a b, answers (f a b) (overlaps a b).
  Definition right_entries {K V} `{InclusiveInterval I K} (veq : V -> V -> bool) (C : entry_code W I K V) : Prop :=
    (forall i, answers (e_from C i) (Val (ifrom i))) /\ (forall v, answers (e_clone C v) (Val v)) /\
    (forall v v', answers (e_veq C v v') (Val (veq v v'))).
End Right.

(** ** User code of any kind *)
(** [l'] is [l] without some of its elements. *)
Inductive within {A} : list A -> list A -> Prop :=
| within_nil : within [] []
| within_keep x l' l : within l' l -> within (x :: l') (x :: l)
| within_drop x l' l : within l' l -> within l' (x :: l).

Section Any.
  Context {W I K V : Type} (C : entry_code W I K V).
  Implicit Types m : list (K * V).
  (** [(k, v)] was put somewhere into [m], or [v] replaced some value of [m]. *)
  Definition put (k : K) (v : V) m m' : Prop := exists a b,
    (m = a ++ b /\ m' = a ++ (k, v) :: b) \/ exists k' old, m = a ++ (k', old) :: b /\ m' = a ++ (k', v) :: b.
  (** [v'] is what cloning [v] gave at some time; what cloning [v], and clones of it, gave. *)
  Definition clone_of (v v' : V) : Prop := exists w w', e_clone C v w = (Val v', w').
  Inductive descends (v : V) : V -> Prop :=
  | descends_self : descends v v
  | descends_clone u u' : descends v u -> clone_of u u' -> descends v u'.
  (** What [cut] may do: a run [gone] of entries is taken out, each replaced by at most two
      entries with clones of its value; [o] is what it returns if it does not panic. *)
  Definition cuts_some m m' (o : outcome (list (K * V))) : Prop := exists a gone pieces b,
    m = a ++ gone ++ b /\ m' = a ++ concat pieces ++ b /\
    Forall2 (fun e l => length l <= 2 /\ Forall (fun x => clone_of (snd e) (snd x)) l) gone pieces /\
    match o with Val out => map snd out = map snd gone | Panic => True end.
  (** What a merging insertion of [v] may do: it takes out a run of entries and at most [n]
      others, and puts [v] in with the interval it returns. *)
  Definition merges_some (n : nat) (v : V) m m' (o : outcome K) : Prop := exists a gone b kept,
    m = a ++ gone ++ b /\ within kept (a ++ b) /\ length (a ++ b) <= length kept + n /\
    match o with Val r => put r v kept m' | Panic => m' = kept end.

  (** ** Histories *)
  Inductive ecall : Type :=
  | EStrict (k : K) (v : V)
  | ETouching (k : K) (v : V)
  | EEqual (k : K) (v : V)
  | EOverlapping (k : K) (v : V)
  | EBoth (k : K) (v : V)
  | EOverwrite (k : K) (v : V)
  | ERemove (q : K)
  | ECut (q : K).
  Definition given (c : ecall) : list V :=
    match c with
    | EStrict _ v | ETouching _ v | EEqual _ v | EOverlapping _ v | EBoth _ v | EOverwrite _ v => [v]
    | ERemove _ | ECut _ => []
    end.
  Definition clones_values (c : ecall) : bool := match c with EOverwrite _ _ | ECut _ => true | _ => false end.

  Context `{DiscreteFinite I} (P : point_code W I) (ik : interval_code W I K) (overlaps_k : K -> K -> user W bool).
  (** A call: the map left behind, the values handed back to the caller, the world. *)
  Definition refused {A} (o : outcome (result A V)) : list V := match o with Val (Err v) => [v] | _ => [] end.
  Definition removed_values (o : outcome (list (K * V))) : list V := match o with Val l => map snd l | Panic => [] end.
  Definition handing {A} (f : outcome A -> list V) (x : (NoditMap K V * outcome A) * W) : NoditMap K V * list V * W :=
    let '((m, o), w) := x in (m, f o, w).
  Definition ecall_do (T : nat -> BTreeMap K V -> tree K V) (c : ecall) (m : NoditMap K V) (w : W) : NoditMap K V * list V * W :=
    match c with
    | EStrict k v => handing refused (insert_strict_e P ik T k v m w)
    | ETouching k v => handing refused (insert_merge_touching_e P ik C overlaps_k T k v m w)
    | EEqual k v => handing refused (insert_merge_touching_if_values_equal_e P ik C overlaps_k T k v m w)
    | EOverlapping k v => handing (fun _ => []) (insert_merge_overlapping_e P ik C overlaps_k T k v m w)
    | EBoth k v => handing (fun _ => []) (insert_merge_touching_or_overlapping_e P ik C overlaps_k T k v m w)
    | EOverwrite k v => handing removed_values (insert_overwrite_e P ik C overlaps_k T k v m w)
    | ERemove q => handing removed_values (remove_overlapping_e P ik ik overlaps_k q (T 0 m) w)
    | ECut q => handing removed_values (cut_e P ik C ik overlaps_k q (T 0 m) w)
    end.
  (** A history, starting with the map [m]; [T n] are the trees met by the call with [n] more
      to come.  Panics are caught. *)
  Fixpoint ehistory (T : nat -> nat -> BTreeMap K V -> tree K V) (cs : list ecall) (m : NoditMap K V) (w : W)
    : NoditMap K V * list V * W :=
    match cs with
    | [] => (m, [], w)
    | c :: cs =>
        let '(m, h, w) := ecall_do (T (length cs)) c m w in
        let '(m, h', w) := ehistory T cs m w in (m, h ++ h', w)
    end.
End Any.
Arguments ecall : clear implicits.
(** Trees with the entries of the map. *)
Definition faithful {K V} (T : nat -> BTreeMap K V -> tree K V) : Prop := forall i m, entries (T i m) = m.
(** The call of [NoditOps] that a call is, with values compared by [veq]. *)
Definition as_op {I K V} `{Ord I} `{DiscreteFinite I} `{InclusiveInterval I K} (veq : V -> V -> bool) (c : ecall K V) : op I K V :=
  match c with
  | EStrict k v => OpInsertStrict k v
  | ETouching k v => OpInsertMergeTouching k v
  | EEqual k v => OpInsertMergeTouchingIfValuesEqual veq k v
  | EOverlapping k v => OpInsertMergeOverlapping k v
  | EBoth k v => OpInsertMergeTouchingOrOverlapping k v
  | EOverwrite k v => OpInsertOverwrite k v
  | ERemove q => OpRemoveOverlapping q
  | ECut q => OpCut q
  end.
