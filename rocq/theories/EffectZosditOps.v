(** * EffectZosditOps: vocabulary of C158.  No proofs in this file. *)
From Coq Require Import List.
From Verif Require Import Base BTree UtilsModel IntervalModel NoditModel ZosditModel ZosditOps TreeShape EffectModel EffectOps EffectZosditModel.
Import ListNotations.

(** Right answers, whatever the side effects. *)
Definition right_contains {W I K} `{Ord I} `{InclusiveInterval I K} (f : K -> I -> user W bool) : Prop :=
  forall k p, answers (f k p) (Val (contains_point k p)).
(** User code that does not panic. *)
Definition calm {W A} (x : user W A) : Prop := forall w, fst (x w) <> Panic.
Definition calm_points {W I} (P : point_code W I) : Prop := forall x y, calm (e_eq P x y) /\ calm (e_le P x y) /\ calm (e_ge P x y).
Definition calm_bounds {W I X} (ix : interval_code W I X) : Prop := forall x, calm (e_start ix x) /\ calm (e_end ix x).

Section Any.
  Context {W I K V : Type} (C : entry_code W I K V).
  Implicit Types l : BTreeMap K (list V).
  (** [v] was put behind the values of some entry of [l], or into a new entry of [k]. *)
  Definition zput (k : K) (v : V) l l' : Prop := exists a b,
    (l = a ++ b /\ l' = a ++ (k, [v]) :: b) \/ exists k' vs, l = a ++ (k', vs) :: b /\ l' = a ++ (k', vs ++ [v]) :: b.
  (** [v] was the last value of some entry of [l], which is gone if [v] was the only one. *)
  Definition ztaken (v : V) l l' : Prop := exists a k vs b,
    l = a ++ (k, vs ++ [v]) :: b /\ l' = a ++ match vs with [] => b | _ => (k, vs) :: b end.
  (** A run [gone] of entries was taken out, each replaced by at most two with clones of its
      values; [o] is what was returned.  [n] and [n'] are [len]. *)
  Definition zcuts_some n l n' l' (o : outcome (list (K * V))) : Prop := exists a gone pieces b,
    l = a ++ gone ++ b /\ l' = a ++ concat pieces ++ b /\
    Forall2 (fun e p => length p <= 2 /\ Forall (fun x => Forall2 (clone_of C) (snd e) (snd x)) p) gone pieces /\
    match o with
    | Val out => map snd out = concat (map snd gone) /\ n' + length (flatten gone) = n + length (flatten (concat pieces))
    | Panic => n + length (flatten (concat pieces)) <= n' + length (flatten gone)
    end.

  (** ** Histories *)
  Inductive zcall : Type :=
  | CInsert (k : K) (v : V)
  | CRemoveLast (p : I)
  | CCut (q : K).
  Definition zgiven (c : zcall) : list V := match c with CInsert _ v => [v] | _ => [] end.
  Definition cutting (c : zcall) : bool := match c with CCut _ => true | _ => false end.
  (** What the caller sees: a value taken by [remove_last_value_at_point], values handed back
      otherwise, a panic (in [cut] or not). *)
  Inductive zseen : Type :=
  | STook (v : V)
  | SGave (l : list V)
  | SStopped (c : zcall).
  Definition zhanded (s : zseen) : list V := match s with STook v => [v] | SGave l => l | SStopped _ => [] end.
  Definition took (s : zseen) : list V := match s with STook v => [v] | _ => [] end.
  Definition stopped (s : zseen) : list V := match s with SStopped c => zgiven c | _ => [] end.

  Context `{DiscreteFinite I} (P : point_code W I) (ik : interval_code W I K)
    (k_contains : K -> I -> user W bool) (overlaps_k : K -> K -> user W bool) (below : outcome nat).
  Definition seeing {A} (c : zcall) (f : A -> zseen) (x : (ZosditMap K V * outcome A) * W) : ZosditMap K V * zseen * W :=
    let '((z, o), w) := x in (z, match o with Val a => f a | Panic => SStopped c end, w).
  Definition zcall_do (t : tree K (list V)) (c : zcall) (n : nat) (w : W) : ZosditMap K V * zseen * W :=
    match c with
    | CInsert k v => seeing c (fun r => SGave match r with Ok _ => [] | Err v => [v] end) (insert_strict_back_e P ik k v n t w)
    | CRemoveLast p => seeing c (fun r => match r with Some v => STook v | None => SGave [] end) (remove_last_value_at_point_e P ik k_contains p n t w)
    | CCut q => seeing c (fun out => SGave (map snd out)) (zosdit_cut_e P ik C ik overlaps_k below q n t w)
    end.
  (** A history; [T n] makes the tree met by the call with [n] more to come.  Panics are caught. *)
  Fixpoint zehistory (T : nat -> BTreeMap K (list V) -> tree K (list V)) (cs : list zcall) (z : ZosditMap K V) (w : W)
    : ZosditMap K V * list zseen * W :=
    match cs with
    | [] => (z, [], w)
    | c :: cs =>
        let '(z, s, w) := zcall_do (T (length cs) (z_inner z)) c (z_len z) w in
        let '(z, l, w) := zehistory T cs z w in (z, s :: l, w)
    end.
End Any.
Arguments zcall : clear implicits.
Arguments zseen : clear implicits.
(** The call of [ZosditOps] that a call is. *)
Definition as_zop {I K V} `{Ord I} `{DiscreteFinite I} `{InclusiveInterval I K} (c : zcall I K V) : zop I K V :=
  match c with CInsert k v => ZInsertStrictBack k v | CRemoveLast p => ZRemoveLast p | CCut q => ZCut q end.
