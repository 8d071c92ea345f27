(** * PropsGqditOrder: a Gqdit depends on the order of its points and identifiers
      only (C99). *)
From Coq Require Import List ZArith Bool Sorting.Sorted.
From Verif Require Import Base BTree IntervalModel NoditModel GqditModel GqditOps Spec EqualOps GqditTransportOps InstancesModel Instances
  PointFacts IntervalFacts NoditFacts GqditFacts GqditProofs GqditGaps GqditTransport PropsGqdit PropsEqual.
Import ListNotations.
Open Scope nat_scope.

Section Props.
  Context {I : Type} {OI : Ord I} {DI : DiscreteFinite I} {PL : PointLaws I}.
  Context {J : Type} {OJ : Ord J} {DJ : DiscreteFinite J} {PLJ : PointLaws J}.
  Context {K : Type} {IK : InclusiveInterval I K} {IL : IntervalLaws I K} {FI : FromInvalid I K}.
  Context {L : Type} {IKL : InclusiveInterval J L} {ILL : IntervalLaws J L} {FIL : FromInvalid J L}.
  Context {D : Type} {OD : Ord D} {OL : OrdLaws D} {E : Type} {OE : Ord E} {OLE : OrdLaws E}.
  Context {Q : Type} {IQ : InclusiveInterval I Q} {R : Type} {IR : InclusiveInterval J R}.
  Implicit Types (f : I -> J) (e : D -> E).

  (** ** C99: the points of [I] may be any part of those of [J]. *)
  Theorem C99_identifiers : forall f e (os : list (gop I K D)) (os' : list (gop J L E)) p, keeps_order f -> keeps_order e -> Forall2 (gop_sent f e) os os' ->
    alike (fun s s' => s' = map e s) (identifiers_at_point (grun os) p) (identifiers_at_point (grun os') (f p)).
  Proof. intros f e os os' p Kf Ke F. apply ids_sent; assumption. Qed.
  (** Gaps and entries: the points of [I] stand for all those of [J]. *)
  Theorem C99_gaps : forall f e (os : list (gop I K D)) (os' : list (gop J L E)) d (q : Q) (r : R), keeps_order f -> reaches_all f -> keeps_order e -> Forall2 (gop_sent f e) os os' ->
    ends_sent f q r ->
    alike (Forall2 (ends_sent f)) (gaps_no_identifier (grun os) q) (gaps_no_identifier (grun os') r) /\
    alike (Forall2 (ends_sent f)) (gaps_with_identifier (grun os) d q) (gaps_with_identifier (grun os') (e d) r).
  Proof. intros f e os os' d q r Kf Rf Ke F C. split; [apply (gaps_no_sent f e)|apply gaps_with_sent]; assumption. Qed.
  Theorem C99_entries : forall f e (os : list (gop I K D)) (os' : list (gop J L E)), keeps_order f -> reaches_all f -> keeps_order e -> Forall2 (gop_sent f e) os os' ->
    fst (gqdit_serialize (grun os')) = fst (gqdit_serialize (grun os)) /\
    Forall2 (fun x y => ends_sent f (fst x) (fst y) /\ snd y = map e (snd x))
      (snd (gqdit_serialize (grun os))) (snd (gqdit_serialize (grun os'))).
  Proof.
    intros f e os os' Kf Rf Ke F. assert (X := entries_sent f e Kf Ke os os' F Rf). split; [|exact X].
    cbn. clear F. induction X as [|x y l l' _ _ IH]; [reflexivity|]. cbn in *. f_equal. exact IH.
  Qed.
  (** Which calls panic. *)
  Theorem C99_calls : forall f e (os : list (gop I K D)) (os' : list (gop J L E)) ids k l (q : Q) (r : R), keeps_order f -> keeps_order e -> Forall2 (gop_sent f e) os os' ->
    ends_sent f k l -> ends_sent f q r ->
    snd (gqdit_insert (collect (map e ids)) l (grun os')) = snd (gqdit_insert (collect ids) k (grun os)) /\
    snd (cut_with_identifiers (collect (map e ids)) r (grun os')) = snd (cut_with_identifiers (collect ids) q (grun os)) /\
    snd (cut_all_identifiers r (grun os')) = snd (cut_all_identifiers q (grun os)).
  Proof.
    intros f e os os' ids k l q r Kf Ke F Ck Cq.
    assert (X : forall a b : outcome unit, (a = Panic <-> b = Panic) -> a = b).
    { intros [[]|] [[]|] Z; try reflexivity; [apply Z; reflexivity|symmetry; apply Z; reflexivity]. }
    destruct (C51_mutations (grun os) ids k q) as (A1 & A2 & A3 & _); [left; exists os; reflexivity|].
    destruct (C51_mutations (grun os') (map e ids) l r) as (B1 & B2 & B3 & _); [left; exists os'; reflexivity|].
    pose proof (valid_sent f Kf k l Ck). pose proof (valid_sent f Kf q r Cq).
    split; [|split]; apply X; tauto.
  Qed.
End Props.

(** ** Example: marked points (whose marks the order ignores) and their values,
    identifiers that are 100 larger. *)
#[local] Existing Instance Ord_marked.
#[local] Existing Instance DiscreteFinite_marked.
#[local] Existing Instance PointLaws_marked.
Definition C99_point (x : u8 * bool) : u8 := fst x.
Definition C99_ops : list (gop (u8 * bool) (Interval (u8 * bool)) bool) :=
  [GInsert [true; false] (mkInterval ('3, true) ('8, false)); GCutWith [false] (mkInterval ('5, false) ('6, true));
   GAppend [GInsert [true] (mkInterval ('0, true) ('4, true)); GCutAll (mkInterval ('0, false) ('1, true))]].
Definition C99_id (b : bool) : u8 := if b then '101 else '100.
Definition C99_ops' : list (gop u8 (Interval u8) u8) :=
  [GInsert ['101; '100] (3 --> 8); GCutWith ['100] (5 --> 6); GAppend [GInsert ['101] (0 --> 4); GCutAll (0 --> 1)]].
#[local] Instance Ord_bool : Ord bool := { cmp := fun x y => Bool.compare x y }.
#[local] Instance OrdLaws_bool : OrdLaws bool.
Proof.
  split.
  - intros [] []; cbn; split; congruence.
  - intros [] []; reflexivity.
  - intros [] [] []; cbn; congruence.
Qed.
Example C99_example :
  keeps_order C99_point /\ reaches_all C99_point /\ keeps_order C99_id /\ Forall2 (gop_sent C99_point C99_id) C99_ops C99_ops' /\
  ends_sent C99_point (mkInterval ('2, true) ('7, true)) (2 --> 7 : Interval u8) /\
  grun C99_ops =
    [(mkInterval ('0, false) ('1, false), []); (mkInterval ('2, true) ('2, false), [true]); (mkInterval ('3, true) ('4, true), [false; true]);
     (mkInterval ('5, false) ('6, true), [true]); (mkInterval ('7, true) ('8, false), [false; true]); (mkInterval ('9, false) ('255, true), [])] /\
  grun C99_ops' = [(0 --> 1, []); (2 --> 2, ['101]); (3 --> 4, ['100; '101]); (5 --> 6, ['101]); (7 --> 8, ['100; '101]); (9 --> 255, [])] /\
  gaps_with_identifier (grun C99_ops) true (mkInterval ('2, true) ('7, true)) =
    Val [mkInterval ('0, false) ('2, false); mkInterval ('5, false) ('6, true)] /\
  gaps_with_identifier (grun C99_ops') (C99_id true) (2 --> 7 : Interval u8) = Val [0 --> 2; 5 --> 6].
Proof.
  split; [intros x y; reflexivity|]. split; [intros y; exists (y, true); apply cmp_same|].
  split; [intros [] []; reflexivity|]. split; [|split; [split; reflexivity|repeat split; vm_compute; reflexivity]].
  repeat apply Forall2_cons; [..|apply Forall2_nil].
  - apply (gs_insert C99_point C99_id [true; false]). split; reflexivity.
  - apply (gs_cut_with C99_point C99_id [false]). split; reflexivity.
  - apply gs_append. repeat apply Forall2_cons; [..|apply Forall2_nil].
    + apply (gs_insert C99_point C99_id [true]). split; reflexivity.
    + apply gs_cut_all. split; reflexivity.
Qed.

Print Assumptions C99_identifiers.
Print Assumptions C99_gaps.
Print Assumptions C99_entries.
Print Assumptions C99_calls.
