(** * PropsRange: changing the values at all points of an interval, and counting how many
      intervals cover a point (C171). *)
From Coq Require Import List Bool Arith ZArith.
From Verif Require Import Base BTree UtilsModel IntervalModel NoditModel NoditOps Spec RangeOps InstancesModel Instances
  PointFacts IntervalFacts NoditFacts NoditInv NoditQueries RangeFacts.
Import ListNotations.
Open Scope nat_scope.

Section Props.
  Context {I : Type} `{PL : PointLaws I}.
  Context {K : Type} {IK : InclusiveInterval I K} {IL : IntervalLaws I K} {FI : FromInvalid I K}.
  Context {V : Type}.
  Context {Q : Type} {IQ : InclusiveInterval I Q}.
  Implicit Types (m : NoditMap K V) (q : Q) (f : change V).

  (** ** C171 *)
  (** The loop with [gaps_trimmed], [cut] and [insert_strict] never panics, is never refused,
      and changes what is at the points of [q] and nothing else. *)
  Theorem C171_range_update : forall m q f, reachable m -> valid q ->
    exists m', range_update q f m = Some m' /\ reachable m' /\
      forall p, exists o, get_at_point m p = Val o /\
        (covers q p -> get_at_point m' p = Val (f o)) /\ (~ covers q p -> get_at_point m' p = Val o).
  Proof.
    intros m q f R Vq. pose proof (reachable_WF m R) as W. destruct (range_update_spec m q f W Vq) as (m' & E & W' & A). exists m'. split; [exact E|]. split; [apply WF_reachable, W'|].
    intros p. destruct (get_val m p W) as (o & Eo). exists o. split; [exact Eo|]. specialize (A p o Eo). destruct (contains_point q p) eqn:C; (split; intros X; [|]).
    - exact A.
    - apply contains_point_true in C. contradiction.
    - apply contains_point_true in X. congruence.
    - exact A.
  Qed.
  (** Many changes one after the other. *)
  Theorem C171_range_updates : forall (l : list (Q * change V)) m, reachable m -> Forall (fun u => valid (fst u)) l ->
    exists m', range_updates l m = Some m' /\ reachable m' /\
      forall p o, get_at_point m p = Val o -> get_at_point m' p = Val (changes_at l p o).
  Proof.
    intros l m R F. destruct (range_updates_spec l m (reachable_WF m R) F) as (m' & E & W' & A). exists m'. split; [exact E|]. split; [apply WF_reachable, W'|exact A].
  Qed.
  (** Changes of values that commute may be made in any order. *)
  Theorem C171_any_order : forall q q' f f' m m1 m2, reachable m -> valid q -> valid q' -> (forall o, f (f' o) = f' (f o)) ->
    range_updates [(q, f); (q', f')] m = Some m1 -> range_updates [(q', f'); (q, f)] m = Some m2 ->
    forall p, get_at_point m1 p = get_at_point m2 p.
  Proof.
    intros q q' f f' m m1 m2 R Vq Vq' C E1 E2 p. destruct (get_val m p (reachable_WF m R)) as (o & Eo).
    destruct (C171_range_updates [(q, f); (q', f')] m R) as (x1 & X1 & _ & A1); [repeat constructor; assumption|].
    destruct (C171_range_updates [(q', f'); (q, f)] m R) as (x2 & X2 & _ & A2); [repeat constructor; assumption|].
    rewrite E1 in X1. rewrite E2 in X2. injection X1 as <-. injection X2 as <-. rewrite (A1 p o Eo), (A2 p o Eo). unfold changes_at. cbn [fold_left fst snd].
    destruct (contains_point q p), (contains_point q' p); rewrite ?C; reflexivity.
  Qed.
  (** Counting one more for every interval of a list leaves at every point the number of
      intervals that cover it. *)
  Theorem C171_coverage : forall (l : list Q), Forall valid l ->
    exists m : NoditMap K nat, range_updates (map (fun q => (q, one_more)) l) new = Some m /\ reachable m /\
      forall p, get_at_point m p = Val (match length (filter (fun q => contains_point q p) l) with 0 => None | n => Some n end).
  Proof.
    intros l F. destruct (range_updates_spec (V := nat) (map (fun q => (q, one_more)) l) new WF_nil) as (m & E & W & A).
    { apply Forall_forall. intros u Hu. apply in_map_iff in Hu. destruct Hu as (q & <- & Hq). rewrite Forall_forall in F. apply F, Hq. }
    exists m. split; [exact E|]. split; [apply WF_reachable, W|]. intros p. rewrite (A p None eq_refl). f_equal. exact (one_more_at l p 0).
  Qed.
End Props.

Open Scope Z_scope.

(** The hypotheses are met, non-trivially. *)
Example C171_example :
  range_updates (map (fun q => (q, one_more)) [1 --> 9 : Interval u8; 5 --> 12; 20 --> 30; 7 --> 25]) (new : NoditMap (Interval u8) nat) =
    Some [(1 --> 4, 1%nat); (5 --> 6, 2%nat); (7 --> 9, 3%nat); (10 --> 12, 2%nat); (13 --> 19, 1%nat); (20 --> 25, 2%nat); (26 --> 30, 1%nat)] /\
  range_updates [(6 --> 22 : Interval u8, one_less); (0 --> 3, one_more); (3 --> 4, fun _ => None)]
    [(1 --> 4, 1%nat); (5 --> 6, 2%nat); (7 --> 9, 3%nat); (20 --> 30, 1%nat)] =
    Some [(0 --> 0, 1%nat); (1 --> 2, 2%nat); (5 --> 5, 2%nat); (6 --> 6, 1%nat); (7 --> 9, 2%nat); (23 --> 30, 1%nat)].
Proof. vm_compute. split; reflexivity. Qed.

Print Assumptions C171_range_update.
Print Assumptions C171_range_updates.
Print Assumptions C171_any_order.
Print Assumptions C171_coverage.
