(** * PropsSetAlgebra: sets of intervals are an algebra of sets (C105). *)
From Coq Require Import List ZArith Bool Lia Arith.
From Verif Require Import Base BTree UtilsModel IntervalModel NoditModel NoditSetModel NoditOps NoditSetOps SetAlgebraOps
  Spec InstancesModel Instances PropsNodit SetAlgebra.
Import ListNotations.
Open Scope nat_scope.

Section Props.
  Context {I : Type} `{PL : PointLaws I}.
  Context {K : Type} {IK : InclusiveInterval I K} {IL : IntervalLaws I K} {FI : FromInvalid I K}.

  (** ** C105: [execute] runs union, difference, intersection and complement
      written with the calls of NoditSet; [truth] is the Boolean formula.  First for
      all sets, whatever built them. *)
  Theorem C105_points : forall (env : nat -> NoditSet K) e, (forall n, exists os, env n = set_run (I := I) os) ->
    exists s, execute env e = Val s /\ (exists os, s = set_run (I := I) os) /\
      forall p b, (forall n, set_contains_point (env n) p = Val (b n)) -> set_contains_point s p = Val (truth b e).
  Proof. exact programs_points. Qed.
  (** For sets built by merging calls, programs with the same truth table compute
      the same set. *)
  Theorem C105_laws : forall e e', (forall b, truth b e = truth b e') ->
    forall env : nat -> NoditSet K, (forall n, exists os, Forall (merging (I := I)) os /\ env n = set_run os) ->
    exists s s', execute env e = Val s /\ execute env e' = Val s' /\ Forall2 same_points (set_iter s) (set_iter s').
  Proof. exact laws_same. Qed.
  (** And any difference of the truth tables shows, on some sets, at every point. *)
  Theorem C105_laws_complete : forall e e' b, truth b e <> truth b e' ->
    exists (env : nat -> NoditSet K) s s', (forall n, exists os, Forall (merging (I := I)) os /\ env n = set_run os) /\
      execute env e = Val s /\ execute env e' = Val s' /\ forall p, set_contains_point s p <> set_contains_point s' p.
  Proof. exact laws_differ. Qed.
End Props.
Section Exactly.
  Context {I : Type} `{PL : PointLaws I} {OL : OrdLaws I}.
  Theorem C105_laws_exact : forall e e', (forall b, truth b e = truth b e') <->
    forall env : nat -> NoditSet (Interval I), (forall n, exists os, Forall (merging (I := I)) os /\ env n = set_run os) ->
    execute env e = execute env e'.
  Proof. exact laws_equal. Qed.
End Exactly.

Section Examples.
  Definition sa_s : NoditSet (Interval u8) := set_run [SInsertMergeTouching (2 --> 5); SInsertMergeTouchingOrOverlapping (10 --> 20)].
  Definition sa_t : NoditSet (Interval u8) := set_run [SInsertMergeTouching (4 --> 12); SCut (7 --> 8); SInsertMergeTouching (30 --> 31)].
  Definition sa_env (n : nat) : NoditSet (Interval u8) := match n with 0 => sa_s | 1 => sa_t | _ => set_new end.
  Example ex_sa_env : forall n, exists os, Forall (merging (I := u8)) os /\ sa_env n = set_run os.
  Proof.
    intros [|[|n]]; [eexists; split; [|reflexivity]; repeat constructor..|exists []; split; [constructor|reflexivity]].
  Qed.
  Example ex_sa_results :
    map (fun e => omap (B := list _) (set_iter (K := _)) (execute sa_env e))
      [PUnion (PVar 0) (PVar 1); PMinus (PVar 0) (PVar 1); PIntersection (PVar 0) (PVar 1); PComplement (PVar 1)] =
    [Val [2 --> 6; 9 --> 20; 30 --> 31]; Val [2 --> 3; 13 --> 20]; Val [4 --> 5; 10 --> 12];
     Val [0 --> 3; 7 --> 8; 13 --> 29; 32 --> 255]].
  Proof. vm_compute. reflexivity. Qed.
  (** De Morgan and distributivity meet the hypothesis of the laws; union and
      intersection do not. *)
  Example ex_sa_laws : forall b,
    truth b (PComplement (PUnion (PVar 0) (PVar 1))) = truth b (PIntersection (PComplement (PVar 0)) (PComplement (PVar 1))) /\
    truth b (PMinus (PVar 0) (PUnion (PVar 1) (PVar 2))) = truth b (PMinus (PMinus (PVar 0) (PVar 1)) (PVar 2)).
  Proof. intros b. cbn. destruct (b 0), (b 1), (b 2); split; reflexivity. Qed.
  Example ex_sa_differ : truth (fun n => n =? 0) (PUnion (PVar 0) (PVar 1)) <> truth (fun n => n =? 0) (PIntersection (PVar 0) (PVar 1)).
  Proof. discriminate. Qed.
End Examples.

Print Assumptions C105_points.
Print Assumptions C105_laws.
Print Assumptions C105_laws_complete.
Print Assumptions C105_laws_exact.
