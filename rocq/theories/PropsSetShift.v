(** * PropsSetShift: moving whole sets with [translate] (C182). *)
From Coq Require Import List ZArith Bool Lia.
From Verif Require Import Base BTree UtilsModel IntervalModel NoditModel NoditSetModel NoditOps NoditSetOps SetAlgebraOps InstancesModel Instances Spec FirstFitOps PlacesOps MeasureOps ShiftOps SetShiftOps
  IntervalProofs NoditSetFacts SetAlgebra FirstFitFacts PlacesFacts ShiftFacts MeasureFacts SetShiftFacts.
Import ListNotations.
Open Scope Z_scope.

Section Props.
  Context {lo hi : Z} `{T : IntType lo hi}.
  Notation int := (int lo hi).
  Context {K : Type} {IK : InclusiveInterval int K} {IL : IntervalLaws int K} {FI : FromInvalid int K}.
  Context {Q : Type} {IQ : InclusiveInterval int Q}.
  Implicit Types (s : NoditSet K) (env : nat -> NoditSet K) (b : build) (d p : int) (q : Q) (e : program).

  (** ** C182 *)
  (** If all intervals stay inside the type the set is moved, interval by interval. *)
  Theorem C182_moves : forall b d s, set_reachable s -> (forall k, In k (set_iter s) -> lo <= ival (istart k) + ival d /\ ival (iend k) + ival d <= hi) ->
    exists s', set_shift b d s = Val (Ok s') /\ set_reachable s' /\
      Forall2 (fun k k' => ival (istart k') = ival (istart k) + ival d /\ ival (iend k') = ival (iend k) + ival d) (set_iter s) (set_iter s').
  Proof.
    intros b d s R H. destruct (shift_fits b d s (set_reachable_WF s R)) as (s' & E & W' & F).
    - intros [k []] Hk. apply H, in_set_iter, Hk.
    - rewrite <- set_shift_map in E. exists s'. split; [exact E|]. split; [exact (set_shift_reachable _ _ _ _ E)|]. rewrite !set_iter_fst. clear - F. induction F as [|e e' l l' (X & Y & _) F IH]; cbn; constructor; auto.
  Qed.
  (** A debug build panics exactly if some interval would leave the type. *)
  Theorem C182_debug : forall d s, set_reachable s ->
    (set_shift Debug d s = Panic <-> exists k, In k (set_iter s) /\ ~ (lo <= ival (istart k) + ival d /\ ival (iend k) + ival d <= hi)).
  Proof.
    intros d s R. apply set_reachable_WF in R. rewrite set_shift_map. destruct (fits_dec_all (ival d) s) as [H|H].
    - destruct (shift_fits Debug d s R H) as (s' & -> & _). split; [discriminate|]. intros (k & Hk & N). destruct N. apply in_set_iter in Hk. exact (H _ Hk).
    - split; [|intros _; exact (shift_panics d s R H)]. intros _. destruct H as ([k []] & Hk & N). exists k. split; [apply in_set_iter, Hk|exact N].
  Qed.
  (** A release build panics exactly if some interval would be split. *)
  Theorem C182_release : forall d s, lo <= 0 <= hi -> set_reachable s ->
    (set_shift Release d s = Panic <-> exists k, In k (set_iter s) /\ ~ (lo <= ival (istart k) + ival d <= hi <-> lo <= ival (iend k) + ival d <= hi)).
  Proof.
    intros d s L R. apply set_reachable_WF in R. rewrite set_shift_map. destruct (unsplit_dec_all (ival d) s) as [H|H].
    - destruct (shift_release d s L R H) as (s' & -> & _). split; [discriminate|]. intros (k & Hk & N). destruct N. apply in_set_iter in Hk. exact (H _ Hk).
    - split; [|intros _; exact (shift_release_panics d s L R H)]. intros _. destruct H as ([k []] & Hk & N). exists k. split; [apply in_set_iter, Hk|exact N].
  Qed.
  (** No build returns an error. *)
  Theorem C182_no_error : forall b d s, lo <= 0 <= hi -> set_reachable s -> set_shift b d s = Panic \/ exists s', set_shift b d s = Val (Ok s') /\ set_reachable s'.
  Proof.
    intros b d s L R. assert (X : set_shift b d s = Panic \/ exists s', set_shift b d s = Val (Ok s')).
    { pose proof (set_reachable_WF s R) as W. rewrite set_shift_map. destruct b.
      - destruct (fits_dec_all (ival d) s) as [H|H]; [right; destruct (shift_fits Debug d s W H) as (s' & E & _); eauto|left; exact (shift_panics d s W H)].
      - destruct (unsplit_dec_all (ival d) s) as [H|H]; [right; destruct (shift_release d s L W H) as (s' & E & _); eauto|left; exact (shift_release_panics d s L W H)]. }
    destruct X as [X|(s' & X)]; [left; exact X|right; exists s'; split; [exact X|exact (set_shift_reachable _ _ _ _ X)]].
  Qed.
  (** Whatever is computed from moved sets is moved: also complements, and also round
      the end of the type where a release build goes there. *)
  Theorem C182_programs : forall b d env env' e, lo <= 0 <= hi -> (forall n, set_reachable (I := int) (env n)) -> (forall n, set_shift b d (env n) = Val (Ok (env' n))) ->
    exists s s', execute env e = Val s /\ execute env' e = Val s' /\
      forall p p', around (lo := lo) (hi := hi) (ival p + ival d) (ival p') -> set_contains_point s' p' = set_contains_point s p.
  Proof.
    intros b d env env' e L R E. pose proof (fun n => set_shift_reachable _ _ _ _ (E n)) as R'.
    destruct (programs_points env e R) as (s & Es & _ & Ms). destruct (programs_points env' e R') as (s' & Es' & _ & Ms'). exists s, s'. split; [exact Es|]. split; [exact Es'|].
    intros p p' A. rewrite (Ms p _ (member_Val env p R)), (Ms' p' _ (member_Val env' p' R')). f_equal. exact (programs_shift b d env env' e p p' L R E A).
  Qed.
  (** A moved query counts as many points of it. *)
  Theorem C182_count : forall b b' d env env' e q q', lo <= 0 <= hi -> (forall n, set_reachable (I := int) (env n)) -> (forall n, set_shift b d (env n) = Val (Ok (env' n))) ->
    valid q -> ival (iend q) - ival (istart q) <= hi -> ival (istart q') = ival (istart q) + ival d -> ival (iend q') = ival (iend q) + ival d ->
    exists n, count b' env e q = Val n /\ count b' env' e q' = Val n.
  Proof.
    intros b b' d env env' e q q' L R E Vq Lq E1 E2. pose proof (fun n => set_shift_reachable _ _ _ _ (E n)) as R'. assert (Vq' : valid q') by (rewrite valid_int in Vq |- *; lia).
    destruct (count_spec b' env e q (proj1 L) R Vq Lq) as (n & En & N). destruct (count_spec b' env' e q' (proj1 L) R' Vq') as (n' & En' & N'); [lia|]. exists n. split; [exact En|]. rewrite En'. f_equal.
    apply (number_unique _ _ _ _ (fun p => iff_refl _) N'). refine (number_one_to_one _ _ (fun p p' : int => ival p' = ival p + ival d) n _ _ _ _ N).
    - intros p [Hp Ht]. rewrite covers_int in Hp. pose proof (int_range (istart q')). pose proof (int_range (iend q')). destruct (at_int (lo := lo) (hi := hi) (ival p + ival d)) as [p' Ep]; [lia|]. exists p'. split; [exact Ep|]. split; [rewrite covers_int; lia|].
      rewrite (programs_shift b d env env' e p p' L R E); [exact Ht|exists 0; lia].
    - intros p' [Hp Ht]. rewrite covers_int in Hp. pose proof (int_range (istart q)). pose proof (int_range (iend q)). destruct (at_int (lo := lo) (hi := hi) (ival p' - ival d)) as [p Ep]; [lia|]. exists p. split; [lia|]. split; [rewrite covers_int; lia|].
      rewrite (programs_shift b d env env' e p p' L R E) in Ht; [exact Ht|exists 0; lia].
    - intros p p1 p2 X Y. apply int_eq. lia.
    - intros p1 p2 p X Y. apply int_eq. lia.
  Qed.
End Props.

(** The hypotheses are met, non-trivially. *)
Definition st_s : NoditSet (Interval u8) := set_run [SInsertMergeTouching (2 --> 5); SInsertMergeTouchingOrOverlapping (10 --> 20)].
Definition st_t : NoditSet (Interval u8) := set_run [SInsertMergeTouching (4 --> 12); SCut (7 --> 8); SInsertMergeTouching (30 --> 31)].
Definition st_env (n : nat) : NoditSet (Interval u8) := match n with 0%nat => st_s | 1%nat => st_t | _ => set_new end.
Definition st_moved (n : nat) : NoditSet (Interval u8) := match n with
  | 0%nat => set_run [SInsertStrict (102 --> 105); SInsertStrict (110 --> 120)]
  | 1%nat => set_run [SInsertStrict (104 --> 106); SInsertStrict (109 --> 112); SInsertStrict (130 --> 131)]
  | _ => set_new end.
Example C182_example : (forall n, set_reachable (I := u8) (st_env n)) /\ (forall n, set_shift Debug (@mkInt 0 255 100 eq_refl) (st_env n) = Val (Ok (st_moved n))).
Proof. split; [intros [|[|n]]; [eexists; reflexivity..|exists []; reflexivity]|intros [|[|n]]; vm_compute; reflexivity]. Qed.
Example C182_example_count :
  map (fun e => (count Debug st_env e (3 --> 15 : Interval u8), count Debug st_moved e (103 --> 115 : Interval u8)))
    [PVar 0; PUnion (PVar 0) (PVar 1); PComplement (PVar 0)] = [(Val 9, Val 9); (Val 11, Val 11); (Val 4, Val 4)].
Proof. vm_compute. reflexivity. Qed.
(** Round the end of the type in a release build, and a split interval. *)
Example C182_example_release :
  omap (fun r => match r with Ok s => Some (set_iter s) | Err _ => None end) (set_shift Release (@mkInt 0 255 250 eq_refl) st_s) = Val (Some [4 --> 14; 252 --> 255]) /\
  set_shift Debug (@mkInt 0 255 250 eq_refl) st_s = Panic /\ set_shift Release (@mkInt 0 255 252 eq_refl) st_s = Panic.
Proof. vm_compute. repeat split. Qed.
Print Assumptions C182_moves.
Print Assumptions C182_debug.
Print Assumptions C182_release.
Print Assumptions C182_no_error.
Print Assumptions C182_programs.
Print Assumptions C182_count.
