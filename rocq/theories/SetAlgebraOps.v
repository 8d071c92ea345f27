(** * SetAlgebraOps: union, difference, complement and intersection programmed
      with the calls of NoditSet.  No proofs in this file.

    The crate has no such methods; this is what a user writes, for example
    [for k in t.iter() { s.insert_merge_touching_or_overlapping(k); }]. *)
From Coq Require Import List Bool.
From Verif Require Import Base BTree UtilsModel IntervalModel NoditModel NoditSetModel NoditOps NoditSetOps.
Import ListNotations.

Section Programs.
  Context {I : Type} `{Ord I} `{DiscreteFinite I}.
  Context {K : Type} `{InclusiveInterval I K}.

  (** [for k in l { s.call(k); }] *)
  Fixpoint each {A} (call : K -> NoditSet K -> NoditSet K * outcome A) (l : list K) (s : NoditSet K)
    : outcome (NoditSet K) :=
    match l with
    | [] => Val s
    | k :: r => match call k s with (s, Val _) => each call r s | (_, Panic) => Panic end
    end.

  Definition set_union (s t : NoditSet K) : outcome (NoditSet K) :=
    each set_insert_merge_touching_or_overlapping (set_iter t) s.
  Definition set_minus (s t : NoditSet K) : outcome (NoditSet K) := each set_cut (set_iter t) s.
  Definition set_complement (s : NoditSet K) : outcome (NoditSet K) :=
    let? everything := uu in
    let? gaps := set_gaps_trimmed s everything in
    each set_insert_merge_touching_or_overlapping gaps set_new.
  Definition set_intersection (s t : NoditSet K) : outcome (NoditSet K) :=
    let? c := set_complement t in set_minus s c.

  (** Programs of these, with given sets as variables. *)
  Inductive program :=
  | PVar (n : nat)
  | PNothing
  | PUnion (a b : program)
  | PMinus (a b : program)
  | PIntersection (a b : program)
  | PComplement (a : program).

  Fixpoint execute (env : nat -> NoditSet K) (e : program) : outcome (NoditSet K) :=
    match e with
    | PVar n => Val (env n)
    | PNothing => Val set_new
    | PUnion a b => let? s := execute env a in let? t := execute env b in set_union s t
    | PMinus a b => let? s := execute env a in let? t := execute env b in set_minus s t
    | PIntersection a b => let? s := execute env a in let? t := execute env b in set_intersection s t
    | PComplement a => let? s := execute env a in set_complement s
    end.

  (** Whether a point is to be in the result, given which variables it is in. *)
  Fixpoint truth (b : nat -> bool) (e : program) : bool :=
    match e with
    | PVar n => b n
    | PNothing => false
    | PUnion x y => truth b x || truth b y
    | PMinus x y => truth b x && negb (truth b y)
    | PIntersection x y => truth b x && truth b y
    | PComplement x => negb (truth b x)
    end.

  (** Built by calls of the given kind. *)
  Definition built_by (kind : set_op I K -> Prop) (s : NoditSet K) : Prop := exists os, Forall kind os /\ s = set_run os.
End Programs.
