(** * PropsShift: moving a whole map with [translate] (C176). *)
From Coq Require Import List ZArith Bool Lia.
From Verif Require Import Base BTree UtilsModel IntervalModel NoditModel NoditOps InstancesModel Instances Spec FirstFitOps ShiftOps
  PointFacts IntervalFacts NoditFacts NoditInv NoditQueries NoditMutations NoditMore IntervalProofs ShiftFacts.
Import ListNotations.
Open Scope Z_scope.

Section Props.
  Context {lo hi : Z} `{T : IntType lo hi}.
  Notation int := (int lo hi).
  Context {K : Type} {IK : InclusiveInterval int K} {IL : IntervalLaws int K} {FI : FromInvalid int K}.
  Context {V : Type}.
  Implicit Types (m : NoditMap K V) (b : build) (d p : int) (v : V).

  (** ** C176 *)
  (** If all intervals stay inside the type the map is moved, entry by entry, and
      what was found at a point is found at the moved point.  In a build of either kind. *)
  Theorem C176_moves : forall b d m, reachable m -> (forall e, In e (iter m) -> fits (ival d) e) ->
    exists m', shift b d m = Val (Ok m') /\ reachable m' /\ Forall2 (moved (ival d)) (iter m) (iter m') /\
      forall p p', ival p' = ival p + ival d -> get_at_point m' p' = get_at_point m p.
  Proof.
    intros b d m R H. apply reachable_WF in R. destruct (shift_fits b d m R H) as (m' & E & W' & F). exists m'. split; [exact E|]. split; [apply WF_reachable, W'|]. split; [exact F|].
    intros p p' Ep. apply same_lookup; [exact R|exact W'|]. intros v. exact (moved_points _ _ _ p p' v F Ep).
  Qed.
  (** Moving it back gives the same intervals with the same values. *)
  Theorem C176_back : forall b d d' m, reachable m -> (forall e, In e (iter m) -> fits (ival d) e) -> ival d' = - ival d ->
    exists m' m'', shift b d m = Val (Ok m') /\ shift b d' m' = Val (Ok m'') /\
      Forall2 (fun e e' => istart (fst e') = istart (fst e) /\ iend (fst e') = iend (fst e) /\ snd e' = snd e) (iter m) (iter m'').
  Proof.
    intros b d d' m R H Ed. apply reachable_WF in R. destruct (shift_fits b d m R H) as (m' & E & W' & F). destruct (shift_fits b d' m' W') as (m'' & E' & _ & F').
    - intros e' He. destruct (Forall2_in_r _ _ _ _ F He) as (e & _ & (X1 & X2 & _)). pose proof (int_range (istart (fst e))). pose proof (int_range (iend (fst e))). unfold fits. lia.
    - exists m', m''. split; [exact E|]. split; [exact E'|]. exact (moved_back _ _ _ _ _ Ed F F').
  Qed.
  (** A debug build panics exactly if some interval would leave the type. *)
  Theorem C176_debug : forall d m, reachable m -> (shift Debug d m = Panic <-> exists e, In e (iter m) /\ ~ fits (ival d) e).
  Proof.
    intros d m R. apply reachable_WF in R. split; [|exact (shift_panics d m R)]. intros E. destruct (fits_dec_all (ival d) m) as [H|H]; [|exact H].
    destruct (shift_fits Debug d m R H) as (m' & E' & _). rewrite E in E'. discriminate.
  Qed.
  (** A release build turns the map round the circle of the type's values, as long
      as no interval is split. *)
  Theorem C176_release : forall d m, lo <= 0 <= hi -> reachable m -> (forall e, In e (iter m) -> unsplit (ival d) e) ->
    exists m', shift Release d m = Val (Ok m') /\ reachable m' /\ length (iter m') = length (iter m) /\
      forall p p', around (lo := lo) (hi := hi) (ival p + ival d) (ival p') -> get_at_point m' p' = get_at_point m p.
  Proof.
    intros d m L R H. apply reachable_WF in R. destruct (shift_release d m L R H) as (m' & E & W' & Len & P). exists m'. split; [exact E|]. split; [apply WF_reachable, W'|]. split; [exact Len|].
    intros p p' A. apply same_lookup; [exact R|exact W'|]. intros v. exact (P p p' v A).
  Qed.
  (** If one is, the map is not built: the call panics. *)
  Theorem C176_release_panics : forall d m, lo <= 0 <= hi -> reachable m -> (shift Release d m = Panic <-> exists e, In e (iter m) /\ ~ unsplit (ival d) e).
  Proof.
    intros d m L R. apply reachable_WF in R. split; [|exact (shift_release_panics d m L R)]. intros E. destruct (unsplit_dec_all (ival d) m) as [H|H]; [|exact H].
    destruct (shift_release d m L R H) as (m' & E' & _). rewrite E in E'. discriminate.
  Qed.
  (** It never returns an error. *)
  Theorem C176_no_error : forall b d m v, lo <= 0 <= hi -> reachable m -> shift b d m <> Val (Err v).
  Proof.
    intros b d m v L R E. apply reachable_WF in R. destruct b.
    - destruct (fits_dec_all (ival d) m) as [H|H]; [destruct (shift_fits Debug d m R H) as (m' & E' & _)|pose proof (shift_panics d m R H) as E']; rewrite E in E'; discriminate.
    - destruct (unsplit_dec_all (ival d) m) as [H|H]; [destruct (shift_release d m L R H) as (m' & E' & _)|pose proof (shift_release_panics d m L R H) as E']; rewrite E in E'; discriminate.
  Qed.
End Props.

(** The hypotheses are met, non-trivially. *)
Definition ex_places : NoditMap (Interval u8) nat := [(1 --> 9, 7%nat); (20 --> 29, 8%nat); (240 --> 250, 7%nat)].
Example C176_example :
  shift Debug '5 ex_places = Val (Ok ([(6 --> 14, 7%nat); (25 --> 34, 8%nat); (245 --> 255, 7%nat)] : NoditMap (Interval u8) nat)) /\
  shift Debug '6 ex_places = Panic /\ shift Release '6 ex_places = Panic /\
  shift Release '100 ex_places = Val (Ok ([(84 --> 94, 7%nat); (101 --> 109, 7%nat); (120 --> 129, 8%nat)] : NoditMap (Interval u8) nat)).
Proof. vm_compute. repeat split. Qed.
Print Assumptions C176_moves.
Print Assumptions C176_back.
Print Assumptions C176_debug.
Print Assumptions C176_release.
Print Assumptions C176_release_panics.
Print Assumptions C176_no_error.
