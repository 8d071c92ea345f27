(** * IterSpec: what C90 and C91 say about a script of calls. *)
From Coq Require Import List.
From Verif Require Import IterModel.
Import ListNotations.

(** The items a script got from the calls on one side, in the order of the
    calls, and from both. *)
Definition side_eqb (a b : side) : bool :=
  match a, b with Front, Front | Back, Back => true | _, _ => false end.
Definition answers {A} (c : side) (out : list (side * option A)) : list A :=
  flat_map (fun cx => match cx with (c', Some x) => if side_eqb c c' then [x] else [] | _ => [] end) out.
Definition yielded {A} (out : list (side * option A)) : nat :=
  length (answers Front out) + length (answers Back out).

(** [out] is what a double-ended iterator over [l] answers: [next] gives the
    items from the front, [next_back] from the back, none twice, and a call
    fails only when all items are gone. *)
Definition two_ended {A} (l : list A) (out : list (side * option A)) : Prop :=
  (exists rest, l = answers Front out ++ rest ++ rev (answers Back out)) /\
  (forall n, n <= length out -> yielded (firstn n out) = min n (length l)).

(** The functions a script applies through the references of one side. *)
Definition fns {V} (c : side) (script : list (side * (V -> V))) : list (V -> V) :=
  flat_map (fun cf => if side_eqb c (fst cf) then [snd cf] else []) script.
(** Entries changed one by one, each by its own function. *)
Fixpoint change {K V} (fs : list (V -> V)) (l : list (K * V)) : list (K * V) :=
  match fs, l with
  | f :: fs, (k, v) :: l => (k, f v) :: change fs l
  | _, l => l
  end.
