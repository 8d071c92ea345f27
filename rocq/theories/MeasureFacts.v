(** * MeasureFacts: proofs about counting the points of computed sets (C181). *)
From Coq Require Import List ZArith Bool Lia.
From Verif Require Import Base BTree UtilsModel IntervalModel NoditModel NoditSetModel NoditOps NoditSetOps SetAlgebraOps InstancesModel Instances Spec FirstFitOps PlacesOps MeasureOps
  PointFacts IntervalFacts NoditFacts NoditInv NoditQueries NoditSetFacts SetAlgebra FirstFitFacts PlacesFacts.
Import ListNotations.
Open Scope Z_scope.

Lemma number_at_most {A} (P R S : A -> Prop) n n1 n2 : (forall x, P x -> R x \/ S x) -> number_of P n -> number_of R n1 -> number_of S n2 -> n <= n1 + n2.
Proof.
  intros Sub (l & ND & H & <-) (l1 & _ & H1 & <-) (l2 & _ & H2 & <-). rewrite <- Nat2Z.inj_add, <- app_length. apply inj_le, NoDup_incl_length; [exact ND|].
  intros x Hx. apply H, Sub in Hx. apply in_app_iff. rewrite H1, H2. exact Hx.
Qed.
Lemma number_zero {A} (P : A -> Prop) n : number_of P n -> n = 0 <-> forall x, ~ P x.
Proof.
  intros N. split.
  - intros -> x Px. destruct N as (l & _ & H & L). apply H in Px. destruct l; [destruct Px|cbn in L; lia].
  - intros X. exact (number_unique P P n 0 (fun x => iff_refl _) N (number_none P X)).
Qed.

Section Facts.
  Context {lo hi : Z} `{T : IntType lo hi}.
  Notation int := (int lo hi).
  Context {K : Type} {IK : InclusiveInterval int K} {IL : IntervalLaws int K} {FI : FromInvalid int K}.
  Context {Q : Type} {IQ : InclusiveInterval int Q}.
  Implicit Types (s : NoditSet K) (env : nat -> NoditSet K) (b : build) (q : Q) (e f g : program).

  Lemma measure_used b s q : measure b s q = used b s q.
  Proof.
    unfold measure, used, set_overlapping. destruct (overlapping s q) as [l|]; [|reflexivity]. cbn [omap obind]. f_equal.
    induction l as [|[k []] l IH]; [reflexivity|]. cbn. rewrite IH. reflexivity.
  Qed.
  Lemma member_Val env p : (forall n, set_reachable (I := int) (env n)) -> forall n, set_contains_point (env n) p = Val (member env p n).
  Proof.
    intros R n. unfold member. destruct (set_contains_point_spec (env n) p (set_reachable_WF _ (R n))) as [A B].
    unfold set_contains_point in *. destruct (map_contains_point_spec (env n) p (set_reachable_WF _ (R n))) as ([|] & -> & _); reflexivity.
  Qed.
  Lemma count_spec b env e q : lo <= 0 -> (forall n, set_reachable (I := int) (env n)) -> valid q -> ival (iend q) - ival (istart q) <= hi ->
    exists n, count b env e q = Val n /\ number_of (fun p => covers q p /\ truth (member env p) e = true) n.
  Proof.
    intros L0 R Vq Lq. destruct (programs_points env e R) as (s & E & Rs & M). pose proof (set_reachable_WF s Rs) as W.
    destruct (used_spec b s q L0 W Vq Lq) as (n & En & N). exists n. unfold count. rewrite E. cbn [obind]. rewrite measure_used. split; [exact En|].
    refine (number_ext _ _ n _ N). intros p. specialize (M p _ (member_Val env p R)). destruct (set_contains_point_spec s p W) as [A _]. rewrite in_set_covered in A. rewrite M in A.
    rewrite <- A. split; intros [X Y]; split; trivial; congruence.
  Qed.
End Facts.
