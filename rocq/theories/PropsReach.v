(** * PropsReach: exactly which contents are possible (C104).  For NoditMap and
      all its calls see [C01_every_ascending_list_is_reachable]. *)
From Coq Require Import List ZArith Bool Lia Sorting.Sorted Arith.
From Verif Require Import Base BTree UtilsModel IntervalModel NoditModel NoditSetModel NoditOps NoditSetOps EqModel GqditModel GqditOps
  ZosditModel ZosditOps Spec InstancesModel Instances PropsNodit Reach.
Import ListNotations.
Open Scope nat_scope.

Section Props.
  Context {I : Type} `{PL : PointLaws I}.
  Context {K : Type} {IK : InclusiveInterval I K} {IL : IntervalLaws I K}.
  Context {V : Type}.

  (** ** C104 *)
  Theorem C104_merging_sets : forall l : list K,
    (exists os, Forall (merging (I := I)) os /\ set_iter (set_run os) = l) <->
    Forall valid l /\ ascending l /\ ForallOrdPairs (fun a b => ~ touch a b) l.
  Proof. exact merging_sets. Qed.
  Theorem C104_value_merging_maps : forall veq (l : list (K * V)), (forall v v', veq v v' = true <-> v = v') ->
    (exists os, Forall (value_merging veq) os /\ iter (run (I := I) os) = l) <->
    Forall valid (map fst l) /\ ascending (map fst l) /\ ForallOrdPairs (fun a b => touch (fst a) (fst b) -> snd a <> snd b) l.
  Proof. exact value_merging_maps. Qed.
  (** The entries and [len()] of a ZosditMap; an inserted interval may be stored
      as an earlier one with the same points (C34). *)
  Theorem C104_zosdit_maps : forall (v0 : V) (l : list (K * V)) n,
    (exists os, Forall2 (same_entry (I := I)) l (zosdit_iter (zrun (I := I) os)) /\ zosdit_len (zrun os) = n) <->
    Forall valid (map fst l) /\ StronglySorted up_to (map fst l) /\ length l <= n.
  Proof. exact zosdits. Qed.
End Props.
Section PropsG.
  Context {I : Type} `{PL : PointLaws I} {OLI : OrdLaws I}.
  Context {K : Type} {IK : InclusiveInterval I K} {IL : IntervalLaws I K} {FI : FromInvalid I K}.
  Context {D : Type} {OD : Ord D} {OLD : OrdLaws D}.
  Theorem C104_gqdits : forall g : Gqdit K D, greachable g <-> ascending (map fst (iter g)) /\ describes_gqdit (iter g).
  Proof. exact gqdits. Qed.
End PropsG.

(** ** Examples: both sides, non-trivially. *)
Example C104_set_example : set_iter (set_run [SInsertMergeTouching (3 --> 5); SInsertMergeTouching (8 --> 12); SCut (9 --> 9 : Interval u8)]) =
  [3 --> 5; 8 --> 8; 10 --> 12].
Proof. vm_compute. reflexivity. Qed.
(** [3,5] and [6,8] are never both in such a set, and are in another one. *)
Example C104_set_example_not : set_iter (set_run [SInsertMergeTouching (3 --> 5); SInsertMergeTouching (6 --> 8 : Interval u8)]) = [3 --> 8] /\
  set_iter (set_run [SInsertStrict (3 --> 5); SInsertStrict (6 --> 8 : Interval u8)]) = [3 --> 5; 6 --> 8].
Proof. vm_compute. auto. Qed.
Example C104_map_example : iter (run [OpInsertMergeTouchingIfValuesEqual Nat.eqb (3 --> 5) 1; OpInsertMergeTouchingIfValuesEqual Nat.eqb (6 --> 8) 2;
   OpInsertMergeTouchingIfValuesEqual Nat.eqb (9 --> 9 : Interval u8) 2]) = [(3 --> 5, 1); (6 --> 9, 2)].
Proof. vm_compute. reflexivity. Qed.
Example C104_zosdit_example : exists os : list (zop u8 (Interval u8) nat),
  zosdit_iter (zrun os) = [(3 --> 3, 1); (3 --> 3, 2); (3 --> 7, 4)] /\ zosdit_len (zrun os) = 5.
Proof.
  exists [ZInsertStrictBack (3 --> 7) 4; ZInsertStrictBack (9 --> 9) 0; ZInsertStrictBack (9 --> 9) 0; ZRemoveLast '9; ZRemoveLast '9;
          ZInsertStrictBack (3 --> 3) 1; ZInsertStrictBack (3 --> 3) 2].
  vm_compute. auto.
Qed.
Example C104_gqdit_example : iter (grun [GInsert ['4; '2] (3 --> 5 : Interval u8); GInsert ['2 : u8] (6 --> 9)]) =
  [(0 --> 2, []); (3 --> 5, ['2; '4]); (6 --> 9, ['2]); (10 --> 255, [])].
Proof. vm_compute. reflexivity. Qed.
Print Assumptions C104_merging_sets.
Print Assumptions C104_value_merging_maps.
Print Assumptions C104_zosdit_maps.
Print Assumptions C104_gqdits.
