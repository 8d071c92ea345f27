(** * PropsTidy: joining touching entries with equal values (C173). *)
From Coq Require Import List Bool Arith ZArith Permutation.
From Verif Require Import Base BTree UtilsModel IntervalModel NoditModel NoditOps EqModel Spec RangeOps TidyOps InstancesModel Instances
  PointFacts IntervalFacts NoditFacts NoditInv NoditQueries EqFacts Reach RangeFacts TidyFacts PropsEq PropsRange.
Import ListNotations.
Open Scope nat_scope.

Section Props.
  Context {I : Type} `{PL : PointLaws I}.
  Context {K : Type} {IK : InclusiveInterval I K} {IL : IntervalLaws I K}.
  Context {V : Type}.
  Implicit Types (m n : NoditMap K V) (keq : K -> K -> bool) (veq : V -> V -> bool).

  (** ** C173 *)
  (** Building a map anew with [insert_merge_touching_if_values_equal] never panics and is
      never refused; the new map has the same values at all points, each entry is as long as
      can be, and no map with these values has fewer entries. *)
  Theorem C173_tidy : forall veq m, (forall v v', veq v v' = true <-> v = v') -> reachable m ->
    exists n, tidy veq m = Some n /\ reachable n /\
      (forall p, get_at_point n p = get_at_point m p) /\
      (forall k v, In (k, v) (iter n) -> max_run (fun p => get_at_point m p = Val (Some v)) k) /\
      (forall n', reachable n' -> (forall p, get_at_point n' p = get_at_point m p) -> len n <= len n').
  Proof.
    intros veq m Hv R. pose proof (reachable_WF m R) as W. destruct (tidy_spec veq Hv m W) as (n & E & Wn & C & S). exists n. split; [exact E|]. split; [apply WF_reachable, Wn|].
    pose proof (proj1 (get_same m n W Wn) S) as G. split; [intros p; symmetry; apply G|]. split.
    - intros k v Hi. destruct (vcanon_max_run n k v Wn C Hi) as (Vk & A & B). split; [exact Vk|]. split.
      + intros p Hp. rewrite G. apply (get_at_point_Some n p v Wn), A, Hp.
      + intros j Hj. apply B. intros p Hp. apply (get_at_point_Some n p v Wn). rewrite <- G. apply Hj, Hp.
    - intros n' R' E'. pose proof (reachable_WF n' R') as W'. apply (vcanon_fewest n n' Wn W' C). apply (get_same n n' Wn W'). intros p. rewrite E', G. reflexivity.
  Qed.
  (** So the tidied maps are equal exactly if the maps have the same values at all points. *)
  Theorem C173_equality : forall keq veq m m' n n', compares_points keq -> (forall v v', veq v v' = true <-> v = v') -> reachable m -> reachable m' ->
    tidy veq m = Some n -> tidy veq m' = Some n' ->
    (nodit_eqb keq veq n n' = true <-> forall p, get_at_point m p = get_at_point m' p).
  Proof.
    intros keq veq m m' n n' Hk Hv R R' E E'. pose proof (reachable_WF m R) as W. pose proof (reachable_WF m' R') as W'.
    rewrite (tidy_run veq m n E), (tidy_run veq m' n' E'). rewrite (C81_equality_is_extensional keq veq _ _ Hk Hv (vinserts_merging veq m) (vinserts_merging veq m')).
    destruct (tidy_spec veq Hv m W) as (x & Ex & Wx & _ & S). destruct (tidy_spec veq Hv m' W') as (x' & Ex' & Wx' & _ & S').
    rewrite E in Ex. rewrite E' in Ex'. injection Ex as <-. injection Ex' as <-. rewrite <- (tidy_run veq m n E), <- (tidy_run veq m' n' E').
    rewrite <- (get_same m m' W W'). unfold same_map in *. split; intros X p v.
    - rewrite (S p v), (S' p v). apply X.
    - rewrite <- (S p v), <- (S' p v). apply X.
  Qed.
  (** Doing it twice changes nothing. *)
  Theorem C173_twice : forall veq m n, (forall v v', veq v v' = true <-> v = v') -> reachable m -> tidy veq m = Some n -> tidy veq n = Some n.
  Proof.
    intros veq m n Hv R E. destruct (tidy_spec veq Hv m (reachable_WF m R)) as (x & Ex & Wx & C & _). rewrite E in Ex. injection Ex as <-.
    destruct (tidy_spec veq Hv n Wx) as (y & Ey & _). rewrite Ey. f_equal. rewrite (tidy_run veq n y Ey). exact (value_inserts veq n Hv Wx C).
  Qed.
End Props.

Section Coverage.
  Context {I : Type} `{PL : PointLaws I}.
  Context {K : Type} {IK : InclusiveInterval I K} {IL : IntervalLaws I K}.
  Implicit Types (keq : K -> K -> bool).
  (** Counting the intervals of a list as in C171 and tidying gives the same map for every
      order of the list. *)
  Theorem C173_coverage : forall {FI : FromInvalid I K} {Q} {IQ : InclusiveInterval I Q} keq (l l' : list Q), compares_points keq -> Forall valid l -> Permutation l l' ->
    exists m m' n n' : NoditMap K nat,
      range_updates (map (fun q => (q, one_more)) l) new = Some m /\ range_updates (map (fun q => (q, one_more)) l') new = Some m' /\
      tidy Nat.eqb m = Some n /\ tidy Nat.eqb m' = Some n' /\ nodit_eqb keq Nat.eqb n n' = true.
  Proof.
    intros FI Q IQ keq l l' Hk F P. destruct (C171_coverage l F) as (m & E & R & A). destruct (C171_coverage l' (Permutation_Forall P F)) as (m' & E' & R' & A').
    destruct (tidy_spec Nat.eqb Nat.eqb_eq m (reachable_WF m R)) as (n & En & _). destruct (tidy_spec Nat.eqb Nat.eqb_eq m' (reachable_WF m' R')) as (n' & En' & _).
    exists m, m', n, n'. repeat (split; [assumption|]). assert (Len : forall p, length (filter (fun q => contains_point q p) l) = length (filter (fun q => contains_point q p) l')).
    { intros p. clear - P. induction P as [|x a b P IH|x y a|a b c P IH P' IH']; cbn [filter]; [reflexivity| | |congruence].
      - destruct (contains_point x p); cbn; congruence.
      - destruct (contains_point x p), (contains_point y p); reflexivity. }
    apply (C173_equality keq Nat.eqb m m' n n' Hk Nat.eqb_eq R R' En En'). intros p. rewrite A, A', Len. reflexivity.
  Qed.
End Coverage.

Open Scope Z_scope.
(** The hypotheses are met, non-trivially. *)
Example C173_example :
  tidy Nat.eqb [(1 --> 4 : Interval u8, 1%nat); (5 --> 6, 1%nat); (7 --> 9, 2%nat); (10 --> 12, 1%nat); (13 --> 19, 1%nat); (20 --> 20, 1%nat); (22 --> 30, 1%nat)] =
    Some [(1 --> 6, 1%nat); (7 --> 9, 2%nat); (10 --> 20, 1%nat); (22 --> 30, 1%nat)] /\
  range_updates (map (fun q => (q, one_more)) [1 --> 9 : Interval u8; 5 --> 9; 3 --> 4]) (new : NoditMap (Interval u8) nat) = Some [(1 --> 2, 1%nat); (3 --> 4, 2%nat); (5 --> 9, 2%nat)].
Proof. vm_compute. split; reflexivity. Qed.

Print Assumptions C173_tidy.
Print Assumptions C173_equality.
Print Assumptions C173_twice.
Print Assumptions C173_coverage.
