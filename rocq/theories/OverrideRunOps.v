(** * OverrideRunOps: the same calls without overriding (C141-C143).  No proofs
      in this file. *)
From Coq Require Import List.
From Verif Require Import Base UtilsModel NoditModel NoditOps ZosditModel ZosditOps GqditModel GqditOps OverrideModel OverrideOps
  OverrideZosditModel OverrideZosditOps OverrideGqditModel OverrideGqditOps Spec.
Import ListNotations.

(** The call with the provided methods. *)
Definition plain_op {I} `{Ord I} {K V} (o : op_o I K V) : op I K V :=
  match o with
  | ONew => OpNew
  | OInsertStrict k v => OpInsertStrict k v
  | OInsertMergeTouching k v => OpInsertMergeTouching k v
  | OInsertMergeTouchingIfValuesEqual veq k v => OpInsertMergeTouchingIfValuesEqual veq k v
  | OInsertMergeOverlapping k v => OpInsertMergeOverlapping k v
  | OInsertMergeTouchingOrOverlapping k v => OpInsertMergeTouchingOrOverlapping k v
  | OInsertOverwrite k v => OpInsertOverwrite k v
  | ORemoveOverlapping _ _ q => OpRemoveOverlapping q
  | OCut _ _ q => OpCut q
  | OOverlappingMut _ f q => OpOverlappingMut f q
  | OGetAtPointMut f p => OpGetAtPointMut f p
  | OIterMut f => OpIterMut f
  | OFromIterStrict l => OpFromIterStrict l
  end.
Definition plain_zop {I} `{Ord I} {K V} (o : zop_o I K V) : zop I K V :=
  match o with
  | ZONew => ZNew
  | ZOInsertStrictBack k v => ZInsertStrictBack k v
  | ZORemoveLast p => ZRemoveLast p
  | ZOCut _ _ q => ZCut q
  | ZOFromIter l => ZFromIter l
  end.
Fixpoint plain_gop {I} `{Ord I} {K D} (o : gop_o I K D) : gop I K D :=
  match o with
  | GOInsert ids k => GInsert ids k
  | GOCutWith ids _ _ q => GCutWith ids q
  | GOCutAll _ _ q => GCutAll q
  | GOAppend os => GAppend (map plain_gop os)
  end.

(** The query type overrides the methods with ones that agree. *)
Definition agreeing_op {I} `{Ord I} {K} `{InclusiveInterval I K} {V} (o : op_o I K V) : Prop :=
  match o with
  | ORemoveOverlapping q_valid q_overlaps _ => agrees_valid q_valid /\ agrees_overlaps q_overlaps
  | OCut q_valid k_overlaps_q _ => agrees_valid q_valid /\ agrees_overlaps k_overlaps_q
  | OOverlappingMut q_valid _ _ => agrees_valid q_valid
  | _ => True
  end.
Definition agreeing_zop {I} `{Ord I} {K} `{InclusiveInterval I K} {V} (o : zop_o I K V) : Prop :=
  match o with
  | ZOCut q_valid k_overlaps_q _ => agrees_valid q_valid /\ agrees_overlaps k_overlaps_q
  | _ => True
  end.
Fixpoint agreeing_gop {I} `{Ord I} {K} `{InclusiveInterval I K} {D} (o : gop_o I K D) : Prop :=
  match o with
  | GOInsert _ _ => True
  | GOCutWith _ q_valid k_overlaps_q _ | GOCutAll q_valid k_overlaps_q _ => agrees_valid q_valid /\ agrees_overlaps k_overlaps_q
  | GOAppend os => fold_right (fun o P => agreeing_gop o /\ P) True os
  end.
