(** * PropsGqditIds: identifiers that compare Equal without being the same value
      (C112, C113). *)
From Coq Require Import List ZArith Bool Sorting.Sorted.
From Verif Require Import Base BTree IntervalModel NoditModel GqditModel GqditOps Spec GqditTransportOps GqditIdsOps InstancesModel Instances
  PointFacts IntervalFacts NoditFacts NoditNatural GqditNatural GqditIds.
Import ListNotations.
Open Scope nat_scope.

Section Props.
  Context {I : Type} {OI : Ord I} {DI : DiscreteFinite I} {PL : PointLaws I}.
  Context {K : Type} {IK : InclusiveInterval I K} {IL : IntervalLaws I K} {FI : FromInvalid I K}.
  Context {D : Type} {OD : Ord D} {TP : TotalPreorder D}.
  Context {Q : Type} {IQ : InclusiveInterval I Q}.
  Implicit Types (k : K) (q : Q) (p : I) (d : D) (os : list (gop I K D)) (ids : list D).

  (** ** C112 *)
  Theorem C112_identifiers_follow_history : forall os p, exists s,
    identifiers_at_point (grun os) p = Val s /\ is_set s /\
    (forall d, in_like d s <-> added_like os d p) /\ (forall d, In d s -> given os d).
  Proof.
    intros os p. destruct (ids_like os p) as (s & E & S & M). exists s. repeat (split; [assumption|]). intros d. apply (ids_given os p s d E).
  Qed.
  Theorem C112_last_call_decides : forall os o d p,
    added_like (os ++ [o]) d p <-> adds_like o d p \/ (added_like os d p /\ ~ removes_like o d p).
  Proof. exact added_like_snoc. Qed.
  Theorem C112_gaps_no_identifier : forall os q, valid q ->
    exists l, gaps_no_identifier (grun os) q = Val l /\ lists_max_runs (free (grun os)) (fun j => overlap j q) l.
  Proof. exact gaps_no_like. Qed.
  Theorem C112_gaps_with_identifier : forall os d q, valid q ->
    exists l, gaps_with_identifier (grun os) d q = Val l /\ lists_max_runs (free_but_like d (grun os)) (fun j => overlap j q) l.
  Proof. exact gaps_with_like. Qed.
  Theorem C112_panics : forall os ids k q,
    (snd (gqdit_insert (collect ids) k (grun os)) = Panic <-> ~ valid k) /\
    (snd (cut_with_identifiers (collect ids) q (grun os)) = Panic <-> ~ valid q) /\
    (snd (cut_all_identifiers q (grun os)) = Panic <-> ~ valid q).
  Proof. exact calls_like. Qed.
  Theorem C112_append_never_panics : forall os1 os2, snd (append (grun os1) (grun os2)) = Val tt.
  Proof. exact append_like. Qed.
  (** Converting every identifier by a function that keeps comparisons changes
      nothing else; no law of points, intervals or identifiers is needed. *)
  Theorem C112_converted : forall {I' : Type} {OI' : Ord I'} {DI' : DiscreteFinite I'} {K' : Type} {IK' : InclusiveInterval I' K'}
    {D' E : Type} {OD' : Ord D'} {OE : Ord E} {Q' : Type} {IQ' : InclusiveInterval I' Q'}
    (e : D' -> E) (os : list (gop I' K' D')) (d : D') (q : Q') (p : I'), keeps_order e ->
    identifiers_at_point (grun (map (relabel e) os)) p = omap (map e) (identifiers_at_point (grun os) p) /\
    snd (gqdit_serialize (grun (map (relabel e) os))) = map (fun x => (fst x, map e (snd x))) (snd (gqdit_serialize (grun os))) /\
    gaps_no_identifier (grun (map (relabel e) os)) q = gaps_no_identifier (grun os) q /\
    gaps_with_identifier (grun (map (relabel e) os)) (e d) q = gaps_with_identifier (grun os) d q.
  Proof.
    intros I' OI' DI' K' IK' D' E OD' OE Q' IQ' e os d q p Ke. rewrite (grun_e e Ke).
    split; [apply ids_e|]. split; [reflexivity|]. split; [apply gaps_no_e|apply gaps_with_e, Ke].
  Qed.

  (** ** C113: full claim: a call leaves the very identifiers it was not about
      and those outside its interval where they are; false, see below.  What is
      there afterwards compares Equal, one by one. *)
  Theorem C113_untouched_points_partial : forall os p ids k q,
    (~ covers k p -> exists s s', identifiers_at_point (grun os) p = Val s /\
       identifiers_at_point (grun (os ++ [GInsert ids k])) p = Val s' /\ Forall2 (fun x y => cmp x y = Eq) s s') /\
    (~ covers q p -> exists s s', identifiers_at_point (grun os) p = Val s /\
       identifiers_at_point (grun (os ++ [GCutWith ids q])) p = Val s' /\ Forall2 (fun x y => cmp x y = Eq) s s') /\
    (~ covers q p -> exists s s', identifiers_at_point (grun os) p = Val s /\
       identifiers_at_point (grun (os ++ [GCutAll q])) p = Val s' /\ Forall2 (fun x y => cmp x y = Eq) s s').
  Proof.
    intros os p ids k q. split; [|split]; intros C; apply untouched; intros d X; try (inversion X; subst; contradiction);
      cbn in X; tauto.
  Qed.
  (** Histories that agree at a point up to comparing Equal. *)
  Theorem C113_same_content_partial : forall os os' p p', (forall d, added_like os d p <-> added_like os' d p') ->
    exists s s', identifiers_at_point (grun os) p = Val s /\ identifiers_at_point (grun os') p' = Val s' /\
      Forall2 (fun x y => cmp x y = Eq) s s'.
  Proof. exact histories_alike. Qed.
End Props.

(** ** Identifiers with a mark that the order ignores *)
#[local] Instance Ord_tagged : Ord (u8 * bool) := { cmp := fun x y => cmp (fst x) (fst y) }.
#[local] Instance TotalPreorder_tagged : TotalPreorder (u8 * bool).
Proof.
  split; intros x; [apply (cmp_same (fst x))|intros y; apply (cmp_flip (fst x) (fst y))|].
  intros y z. apply (cmp_le_trans (fst x) (fst y) (fst z)).
Qed.
Definition ex112_ops : list (gop u8 (Interval u8) (u8 * bool)) :=
  [GInsert [('7, false)] (0 --> 4); GInsert [('7, true); ('9, true)] (5 --> 9);
   GCutWith [('9, false)] (6 --> 9); GAppend [GInsert [('7, true)] (20 --> 22)]].
Example C112_example :
  grun ex112_ops =
    [(0 --> 4, [('7, false)]); (5 --> 5, [('7, true); ('9, true)]); (6 --> 9, [('7, true)]); (10 --> 19, []); (20 --> 22, [('7, true)]); (23 --> 255, [])] /\
  gaps_with_identifier (grun ex112_ops) ('7, false) (2 --> 21) = Val [0 --> 4; 6 --> 255] /\
  gaps_no_identifier (grun ex112_ops) (2 --> 21) = Val [10 --> 19].
Proof. repeat split; vm_compute; reflexivity. Qed.
(** An insert into 5..=9 changes the identifier stored for 0..=4. *)
Theorem C113_untouched_points_refuted : exists (os : list (gop u8 (Interval u8) (u8 * bool))) ids (k : Interval u8) p,
  ~ covers k p /\ identifiers_at_point (grun os) p = Val [('7, false)] /\
  identifiers_at_point (grun (os ++ [GInsert ids k])) p = Val [('7, true)].
Proof.
  exists [GInsert [('7, false)] (0 --> 4)], [('7, true)], (5 --> 9), '3. split; [|split; vm_compute; reflexivity].
  intros [X _]. apply X. vm_compute. reflexivity.
Qed.
Example C113_example : let q := 5 --> 5 : Interval u8 in
  identifiers_at_point (grun ex112_ops) '3 = Val [('7, false)] /\ ~ covers q '3 /\
  identifiers_at_point (grun (ex112_ops ++ [GCutWith [('9, false)] q])) '3 = Val [('7, true)] /\
  cmp ('7 : u8, false) ('7, true) = Eq.
Proof.
  split; [vm_compute; reflexivity|]. split; [|split; vm_compute; reflexivity]. intros [X _]. apply X. vm_compute. reflexivity.
Qed.

Print Assumptions C112_identifiers_follow_history.
Print Assumptions C112_last_call_decides.
Print Assumptions C112_gaps_no_identifier.
Print Assumptions C112_gaps_with_identifier.
Print Assumptions C112_panics.
Print Assumptions C112_append_never_panics.
Print Assumptions C112_converted.
Print Assumptions C113_untouched_points_partial.
Print Assumptions C113_same_content_partial.
Print Assumptions C113_untouched_points_refuted.
