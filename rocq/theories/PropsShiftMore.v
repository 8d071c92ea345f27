(** * PropsShiftMore: queries of a moved map (C176). *)
From Coq Require Import List ZArith Bool Lia.
From Verif Require Import Base BTree UtilsModel IntervalModel NoditModel NoditOps InstancesModel Instances Spec FirstFitOps PlacesOps ShiftOps
  PointFacts IntervalFacts NoditFacts NoditInv NoditQueries NoditMore IntervalProofs FirstFitFacts PlacesFacts ShiftFacts ZShiftFacts MeasureFacts SetShiftFacts.
Import ListNotations.
Open Scope Z_scope.

Section Props.
  Context {lo hi : Z} `{T : IntType lo hi}.
  Notation int := (int lo hi).
  Context {K : Type} {IK : InclusiveInterval int K} {IL : IntervalLaws int K} {FI : FromInvalid int K}.
  Context {V : Type}.
  Context {Q : Type} {IQ : InclusiveInterval int Q}.
  Implicit Types (m : NoditMap K V) (b : build) (d p : int) (q : Q).

  (** ** C176, continued: a moved query of the moved map yields the moved entries, ... *)
  Theorem C176_queries : forall b d m q q', reachable m -> (forall e, In e (iter m) -> fits (ival d) e) ->
    valid q -> ival (istart q') = ival (istart q) + ival d -> ival (iend q') = ival (iend q) + ival d ->
    exists m' l l', shift b d m = Val (Ok m') /\ overlapping m q = Val l /\ overlapping m' q' = Val l' /\ Forall2 (moved (ival d)) l l' /\ map_overlaps m' q' = map_overlaps m q.
  Proof.
    intros b d m q q' R H Vq E1 E2. apply reachable_WF in R. destruct (shift_fits b d m R H) as (m' & E & W' & F). assert (Vq' : valid q') by (rewrite valid_int in *; lia).
    destruct (overlapping_spec m q R Vq) as (l & El & S). destruct (overlapping_spec m' q' W' Vq') as (l' & El' & S').
    assert (X : forall e e', moved (ival d) e e' -> In e m -> (overlap (fst e) q <-> overlap (fst e') q')).
    { intros e e' M He. pose proof (WF_valid m e R He) as Ve. pose proof (moved_valid _ _ _ M Ve) as Ve'. destruct M as (M1 & M2 & _). rewrite !overlap_ends by assumption. lia. }
    destruct (moved_sub (ival d) _ (fun e => overlap (fst e) q') _ _ _ X F S) as (r' & S'' & G). rewrite <- (sub_unique _ _ _ _ S' S'') in G. exists m', l, l'. repeat (split; [assumption|]).
    unfold map_overlaps. rewrite El, El', !iip_valid by assumption. destruct G; reflexivity.
  Qed.
  (** ... and as many places of it are taken and free. *)
  Theorem C176_places : forall b b' d m q q', lo <= 0 -> reachable m -> (forall e, In e (iter m) -> fits (ival d) e) ->
    valid q -> ival (iend q) - ival (istart q) <= hi -> ival (istart q') = ival (istart q) + ival d -> ival (iend q') = ival (iend q) + ival d ->
    exists m' u f, shift b d m = Val (Ok m') /\ used b' m q = Val u /\ used b' m' q' = Val u /\ free b' m q = Val f /\ free b' m' q' = Val f.
  Proof.
    intros b b' d m q q' L0 R H Vq Lq E1 E2. apply reachable_WF in R. destruct (shift_fits b d m R H) as (m' & E & W' & F). assert (Vq' : valid q') by (rewrite valid_int in *; lia). assert (Lq' : ival (iend q') - ival (istart q') <= hi) by lia.
    destruct (used_spec b' m q L0 R Vq Lq) as (u & Eu & Nu). destruct (used_spec b' m' q' L0 W' Vq' Lq') as (u' & Eu' & Nu').
    destruct (free_spec b' m q L0 R Vq Lq) as (f & Ef & Nf). destruct (free_spec b' m' q' L0 W' Vq' Lq') as (f' & Ef' & Nf').
    assert (C : forall p p' : int, ival p' = ival p + ival d -> (covered m' p' <-> covered m p)).
    { intros p p' Ep. rewrite !covered_maps_to. split; intros (v & X); exists v; apply (moved_points _ _ _ p p' v F Ep); exact X. }
    assert (To : forall p : int, covers q p -> exists p' : int, ival p' = ival p + ival d /\ covers q' p').
    { intros p Hp. rewrite covers_int in Hp. pose proof (int_range (istart q')). pose proof (int_range (iend q')). destruct (at_int (lo := lo) (hi := hi) (ival p + ival d)) as [p' Ep]; [lia|]. exists p'. split; [exact Ep|]. rewrite covers_int. lia. }
    assert (From : forall p' : int, covers q' p' -> exists p : int, ival p' = ival p + ival d /\ covers q p).
    { intros p' Hp. rewrite covers_int in Hp. pose proof (int_range (istart q)). pose proof (int_range (iend q)). destruct (at_int (lo := lo) (hi := hi) (ival p' - ival d)) as [p Ep]; [lia|]. exists p. split; [lia|]. rewrite covers_int. lia. }
    exists m', u, f. split; [exact E|]. split; [exact Eu|]. split; [|split; [exact Ef|]].
    - rewrite Eu'. f_equal. apply (number_unique _ _ _ _ (fun p => iff_refl _) Nu'). refine (number_one_to_one _ _ (fun p p' : int => ival p' = ival p + ival d) u _ _ _ _ Nu).
      + intros p [Hp Hc]. destruct (To p Hp) as (p' & Ep & Hp'). exists p'. rewrite (C p p' Ep). auto.
      + intros p' [Hp Hc]. destruct (From p' Hp) as (p & Ep & Hp'). exists p. rewrite <- (C p p' Ep). auto.
      + intros p p1 p2 X Y. apply int_eq. lia.
      + intros p1 p2 p X Y. apply int_eq. lia.
    - rewrite Ef'. f_equal. apply (number_unique _ _ _ _ (fun p => iff_refl _) Nf'). refine (number_one_to_one _ _ (fun p p' : int => ival p' = ival p + ival d) f _ _ _ _ Nf).
      + intros p [Hp Hc]. destruct (To p Hp) as (p' & Ep & Hp'). exists p'. rewrite (C p p' Ep). auto.
      + intros p' [Hp Hc]. destruct (From p' Hp) as (p & Ep & Hp'). exists p. rewrite <- (C p p' Ep). auto.
      + intros p p1 p2 X Y. apply int_eq. lia.
      + intros p1 p2 p X Y. apply int_eq. lia.
  Qed.
End Props.

(** The hypotheses are met, non-trivially. *)
Definition ex_shift_more : NoditMap (Interval u8) nat := [(1 --> 9, 7%nat); (10 --> 14, 8%nat); (20 --> 29, 7%nat)].
Example C176_example_queries :
  match shift Debug '100 ex_shift_more with
  | Val (Ok m) => (overlapping m (108 --> 122 : Interval u8), used Debug m (108 --> 122 : Interval u8), free Debug m (108 --> 122 : Interval u8))
  | _ => (Panic, Panic, Panic) end =
  (Val [(101 --> 109, 7%nat); (110 --> 114, 8%nat); (120 --> 129, 7%nat)], Val 10, Val 5) /\
  (overlapping ex_shift_more (8 --> 22 : Interval u8), used Debug ex_shift_more (8 --> 22 : Interval u8), free Debug ex_shift_more (8 --> 22 : Interval u8)) =
  (Val ex_shift_more, Val 10, Val 5).
Proof. vm_compute. repeat split. Qed.
Print Assumptions C176_queries.
Print Assumptions C176_places.
