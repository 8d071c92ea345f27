(** * PropsMeasure: how many points the union, difference, ... of sets have (C181). *)
From Coq Require Import List ZArith Bool Lia.
From Verif Require Import Base BTree UtilsModel IntervalModel NoditModel NoditSetModel NoditOps NoditSetOps SetAlgebraOps InstancesModel Instances Spec FirstFitOps PlacesOps MeasureOps
  PlacesFacts MeasureFacts.
Import ListNotations.
Open Scope Z_scope.

Section Props.
  Context {lo hi : Z} `{T : IntType lo hi}.
  Notation int := (int lo hi).
  Context {K : Type} {IK : InclusiveInterval int K} {IL : IntervalLaws int K} {FI : FromInvalid int K}.
  Context {Q : Type} {IQ : InclusiveInterval int Q}.
  Implicit Types (env : nat -> NoditSet K) (b : build) (q : Q) (e f g : program).

  (** ** C181 *)
  (** The sizes of the parts of the computed set inside the query add up to the number of
      the query's points at which the formula of the program is true. *)
  Theorem C181_number : forall b env e q, lo <= 0 -> (forall n, set_reachable (I := int) (env n)) -> valid q -> ival (iend q) - ival (istart q) <= hi ->
    exists n, count b env e q = Val n /\ number_of (fun p => covers q p /\ truth (member env p) e = true) n.
  Proof. exact count_spec. Qed.
  (** The union and the intersection together have as many points as the two sets. *)
  Theorem C181_union : forall b env e f q, lo <= 0 -> (forall n, set_reachable (I := int) (env n)) -> valid q -> ival (iend q) - ival (istart q) <= hi ->
    exists x y u i, count b env e q = Val x /\ count b env f q = Val y /\ count b env (PUnion e f) q = Val u /\ count b env (PIntersection e f) q = Val i /\
      u + i = x + y.
  Proof.
    intros b env e f q L0 R Vq Lq. destruct (count_spec b env e q L0 R Vq Lq) as (x & Ex & Nx). destruct (count_spec b env f q L0 R Vq Lq) as (y & Ey & Ny).
    destruct (count_spec b env (PUnion e f) q L0 R Vq Lq) as (u & Eu & Nu). destruct (count_spec b env (PIntersection e f) q L0 R Vq Lq) as (i & Ei & Ni).
    destruct (count_spec b env (PMinus e f) q L0 R Vq Lq) as (d & _ & Nd). exists x, y, u, i. repeat split; try assumption.
    assert (X : x = d + i). { apply (number_unique _ _ _ _ (fun p => iff_refl _) Nx). refine (number_ext _ _ _ _ (number_or _ _ d i _ Nd Ni)); intros p; cbn [truth]; destruct (truth (member env p) e), (truth (member env p) f); cbn; intuition discriminate. }
    assert (Y : u = d + y). { apply (number_unique _ _ _ _ (fun p => iff_refl _) Nu). refine (number_ext _ _ _ _ (number_or _ _ d y _ Nd Ny)); intros p; cbn [truth]; destruct (truth (member env p) e), (truth (member env p) f); cbn; intuition discriminate. }
    lia.
  Qed.
  (** The difference and the intersection together have as many as the first. *)
  Theorem C181_minus : forall b env e f q, lo <= 0 -> (forall n, set_reachable (I := int) (env n)) -> valid q -> ival (iend q) - ival (istart q) <= hi ->
    exists x d i, count b env e q = Val x /\ count b env (PMinus e f) q = Val d /\ count b env (PIntersection e f) q = Val i /\ d + i = x.
  Proof.
    intros b env e f q L0 R Vq Lq. destruct (count_spec b env e q L0 R Vq Lq) as (x & Ex & Nx).
    destruct (count_spec b env (PMinus e f) q L0 R Vq Lq) as (d & Ed & Nd). destruct (count_spec b env (PIntersection e f) q L0 R Vq Lq) as (i & Ei & Ni). exists x, d, i. repeat split; try assumption.
    symmetry. apply (number_unique _ _ _ _ (fun p => iff_refl _) Nx). refine (number_ext _ _ _ _ (number_or _ _ d i _ Nd Ni)); intros p; cbn [truth]; destruct (truth (member env p) e), (truth (member env p) f); cbn; intuition discriminate.
  Qed.
  (** The set and its complement together have as many as the query. *)
  Theorem C181_complement : forall b env e q, lo <= 0 -> (forall n, set_reachable (I := int) (env n)) -> valid q -> ival (iend q) - ival (istart q) <= hi ->
    exists x c, count b env e q = Val x /\ count b env (PComplement e) q = Val c /\ size b q = Val (x + c) /\ x + c = ival (iend q) - ival (istart q) + 1.
  Proof.
    intros b env e q L0 R Vq Lq. destruct (count_spec b env e q L0 R Vq Lq) as (x & Ex & Nx). destruct (count_spec b env (PComplement e) q L0 R Vq Lq) as (c & Ec & Nc).
    destruct (size_spec b q L0 Vq Lq) as (n & En & N). assert (X : n = x + c).
    { apply (number_unique _ _ _ _ (fun p => iff_refl _) N). refine (number_ext _ _ _ _ (number_or _ _ x c _ Nx Nc)); intros p; cbn [truth]; destruct (truth (member env p) e); cbn; intuition discriminate. }
    subst n. exists x, c. repeat split; try assumption.
    exact (number_unique _ _ _ _ (fun p => iff_refl (covers q p)) N (number_interval q Vq)).
  Qed.
  (** A program that computes less counts less. *)
  Theorem C181_monotone : forall b env e f q, lo <= 0 -> (forall n, set_reachable (I := int) (env n)) -> valid q -> ival (iend q) - ival (istart q) <= hi ->
    (forall v, truth v e = true -> truth v f = true) ->
    exists x y, count b env e q = Val x /\ count b env f q = Val y /\ 0 <= x <= y.
  Proof.
    intros b env e f q L0 R Vq Lq M. destruct (count_spec b env e q L0 R Vq Lq) as (x & Ex & Nx). destruct (count_spec b env f q L0 R Vq Lq) as (y & Ey & Ny). exists x, y. repeat split; try assumption.
    - destruct Nx as (l & _ & _ & <-). lia.
    - pose proof (number_at_most _ _ _ x y 0 (fun p => fun X => or_introl (conj (proj1 X) (M _ (proj2 X)))) Nx Ny (number_none (fun _ => False) (fun _ X => X))). lia.
  Qed.
  (** The number of points of the symmetric difference is a distance: it is 0 just for
      sets that agree in the query, ... *)
  Theorem C181_distance_zero : forall b env e f q, lo <= 0 -> (forall n, set_reachable (I := int) (env n)) -> valid q -> ival (iend q) - ival (istart q) <= hi ->
    exists s t, execute env e = Val s /\ execute env f = Val t /\
      (count b env (changes e f) q = Val 0 <-> forall p, covers q p -> set_contains_point s p = set_contains_point t p).
  Proof.
    intros b env e f q L0 R Vq Lq. destruct (SetAlgebra.programs_points env e R) as (s & Es & _ & Ms). destruct (SetAlgebra.programs_points env f R) as (t & Et & _ & Mt). exists s, t. split; [exact Es|]. split; [exact Et|].
    destruct (count_spec b env (changes e f) q L0 R Vq Lq) as (n & -> & N). transitivity (n = 0); [split; [intros [= X]; exact X|intros ->; reflexivity]|]. rewrite (number_zero _ n N). split.
    - intros X p Hp. specialize (X p). rewrite (Ms p _ (member_Val env p R)), (Mt p _ (member_Val env p R)). cbn in X. destruct (truth (member env p) e), (truth (member env p) f); try reflexivity; destruct X; auto.
    - intros X p [Hp Y]. specialize (X p Hp). rewrite (Ms p _ (member_Val env p R)), (Mt p _ (member_Val env p R)) in X. injection X as X. cbn in Y. rewrite X in Y. destruct (truth (member env p) f); discriminate Y.
  Qed.
  (** ... it is symmetric, and going by way of a third set is no shorter. *)
  Theorem C181_distance : forall b env e f g q, lo <= 0 -> (forall n, set_reachable (I := int) (env n)) -> valid q -> ival (iend q) - ival (istart q) <= hi ->
    exists x y z, count b env (changes e f) q = Val x /\ count b env (changes f g) q = Val y /\ count b env (changes e g) q = Val z /\
      count b env (changes f e) q = Val x /\ z <= x + y.
  Proof.
    intros b env e f g q L0 R Vq Lq. destruct (count_spec b env (changes e f) q L0 R Vq Lq) as (x & Ex & Nx). destruct (count_spec b env (changes f g) q L0 R Vq Lq) as (y & Ey & Ny).
    destruct (count_spec b env (changes e g) q L0 R Vq Lq) as (z & Ez & Nz). destruct (count_spec b env (changes f e) q L0 R Vq Lq) as (x' & Ex' & Nx'). exists x, y, z. repeat split; try assumption.
    - rewrite Ex'. f_equal. refine (number_unique _ _ _ _ _ Nx' Nx). intros p. cbn. rewrite orb_comm. reflexivity.
    - refine (number_at_most _ _ _ z x y _ Nz Nx Ny). intros p [Hp X]. cbn in X |- *. destruct (truth (member env p) e), (truth (member env p) f), (truth (member env p) g); cbn in X |- *; auto.
  Qed.
End Props.

(** The hypotheses are met, non-trivially. *)
Definition ms_s : NoditSet (Interval u8) := set_run [SInsertMergeTouching (2 --> 5); SInsertMergeTouchingOrOverlapping (10 --> 20)].
Definition ms_t : NoditSet (Interval u8) := set_run [SInsertMergeTouching (4 --> 12); SCut (7 --> 8); SInsertMergeTouching (30 --> 31)].
Definition ms_env (n : nat) : NoditSet (Interval u8) := match n with 0%nat => ms_s | 1%nat => ms_t | _ => set_new end.
Example ex_ms_env : forall n, set_reachable (I := u8) (ms_env n).
Proof. intros [|[|n]]; [eexists; reflexivity..|exists []; reflexivity]. Qed.
Example C181_example :
  map (fun e => count Debug ms_env e (3 --> 15 : Interval u8))
    [PVar 0; PVar 1; PUnion (PVar 0) (PVar 1); PIntersection (PVar 0) (PVar 1); PMinus (PVar 0) (PVar 1); PComplement (PVar 0);
     changes (PVar 0) (PVar 1); changes (PVar 1) (PVar 2); changes (PVar 0) (PVar 2)] =
  [Val 9; Val 7; Val 11; Val 5; Val 4; Val 4; Val 6; Val 7; Val 9].
Proof. vm_compute. reflexivity. Qed.
(** Without the condition on the query's width a debug build can panic. *)
Example C181_signed_width :
  count Debug (fun _ => set_run [SInsertMergeTouching ((-128) --> 127)]) (PVar 0) ((-128) --> 127 : Interval i8) = (Panic : outcome Z).
Proof. vm_compute. reflexivity. Qed.
Print Assumptions C181_number.
Print Assumptions C181_union.
Print Assumptions C181_minus.
Print Assumptions C181_complement.
Print Assumptions C181_monotone.
Print Assumptions C181_distance_zero.
Print Assumptions C181_distance.
