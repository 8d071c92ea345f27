(** * EffectCrashOps: vocabulary of C163.  No proofs in this file. *)
From Coq Require Import List.
From Verif Require Import Base BTree UtilsModel IntervalModel NoditModel NoditOps ZosditModel GqditModel GqditOps CrashModel
  TreeShape EffectModel EffectOps EffectGqditModel EffectGqditOps.
Import ListNotations.

(** User code that gives the right answer or panics, as it likes. *)
Definition right_or_panic {W A} (x : user W A) (a : A) : Prop := forall w, fst (x w) = Val a \/ fst (x w) = Panic.
Definition entries_or_panic {W I K V} `{InclusiveInterval I K} (veq : V -> V -> bool) (C : entry_code W I K V) : Prop :=
  (forall i, right_or_panic (e_from C i) (ifrom i)) /\ (forall v, right_or_panic (e_clone C v) v) /\
  (forall v v', right_or_panic (e_veq C v v') (veq v v')).
(** Identifiers: [cmp] gives the right answer, [==] and [clone] give it or panic. *)
Definition ids_or_panic {W D} `{Ord D} (J : id_code W D) : Prop := forall d d',
  answers (i_cmp J d d') (Val (cmp d d')) /\ right_or_panic (i_eq J d d') (eqb d d') /\ right_or_panic (i_clone J d) d.

(** [r], what a call left and returned, is what [c] gives for some crash point: if the call
    returned, [c] uses up exactly [n] calls of user code. *)
Definition stops_as {S A} (r : S * outcome A) (c : nat -> S * outcome (A * nat)) : Prop :=
  match snd r with
  | Val a => exists n, forall more, c (n + more) = (fst r, Val (a, more))
  | Panic => exists n, c n = (fst r, Panic)
  end.
(** The same for functions that do not tell the calls left, and for those that return nothing else. *)
Definition stops_as_z {S A} (r : S * outcome A) (c : nat -> S * outcome A) : Prop :=
  match snd r with
  | Val a => exists n, forall more, c (n + more) = (fst r, Val a)
  | Panic => exists n, c n = (fst r, Panic)
  end.
Definition stops_as_g {S} (r : S * outcome unit) (c : nat -> S * outcome nat) : Prop :=
  match snd r with
  | Val _ => exists n, forall more, c (n + more) = (fst r, Val more)
  | Panic => exists n, c n = (fst r, Panic)
  end.
(** Calls of [Gqdit] with crash points: the one before, the call, the one after.  The other
    [Gqdit] given to [append] may have been left by a history with panics; if its [new]
    panics, [append] is not reached. *)
Section Calls.
  Context {I K D : Type} `{Ord I} `{DiscreteFinite I} `{InclusiveInterval I K} `{Ord D}.
  Inductive gcrash : gcall K D -> Gqdit K D -> Gqdit K D -> Prop :=
  | crash_insert ids k g fuel : gcrash (CallInsert ids k) g (fst (gqdit_insert_c ids k g fuel))
  | crash_cut ids q g fuel : gcrash (CallCutWith ids q) g (fst (cut_with_identifiers_c ids q g fuel))
  | crash_all q g fuel : gcrash (CallCutAll q) g (fst (cut_all_identifiers_c q g fuel))
  | crash_append cs g other fuel : gcrashes cs gnew other -> gcrash (CallAppend cs) g (fst (append_c g other fuel))
  | crash_no_other cs g : gcrash (CallAppend cs) g g
  with gcrashes : list (gcall K D) -> Gqdit K D -> Gqdit K D -> Prop :=
  | crashes_nil g : gcrashes [] g g
  | crashes_cons c cs g g1 g2 : gcrash c g g1 -> gcrashes cs g1 g2 -> gcrashes (c :: cs) g g2.
End Calls.
