(** * PropsGapLocal: gap queries only look at the surroundings of the query (C136). *)
From Coq Require Import List ZArith Bool Lia.
From Verif Require Import Base BTree UtilsModel IntervalModel NoditModel NoditSetModel NoditOps NoditSetOps GqditModel GqditOps LocalOps GapLocalOps
  Spec EqualOps GqditSetsOps InstancesModel Instances PointFacts IntervalFacts NoditFacts NoditQueries NoditGaps NoditInv NoditSetFacts NoditSetProofs
  GqditFacts GqditProofs GqditGaps GqditAlgebra GqditSets Local LocalCommute GapLocal PropsNodit PropsGqdit PropsUsers.
Import ListNotations.
Open Scope nat_scope.

Section Props.
  Context {I : Type} {OI : Ord I} {DI : DiscreteFinite I} {PL : PointLaws I}.
  Context {K : Type} {IK : InclusiveInterval I K} {IL : IntervalLaws I K} {FI : FromInvalid I K}.
  Context {V : Type}.
  Context {D : Type} {OD : Ord D} {OL : OrdLaws D}.
  Context {Q : Type} {IQ : InclusiveInterval I Q}.
  Implicit Types (m : NoditMap K V) (q : Q) (w : Interval I) (g : Gqdit K D) (d : D).

  (** ** C136: what the gap queries say about the points of the query depends only on
      these points. *)
  Theorem C136_only_the_query : forall m m' q, reachable (I := I) m -> reachable (I := I) m' ->
    (forall p, covers q p -> map_contains_point m p = map_contains_point m' p) ->
    map_contains_interval m q = map_contains_interval m' q /\
    alike (Forall2 same_points) (gaps_trimmed m q) (gaps_trimmed m' q) /\
    alike (Forall2 (same_inside q)) (gaps_untrimmed m q) (gaps_untrimmed m' q).
  Proof.
    intros m m' q R R' E. apply reachable_WF in R, R'. destruct (valid_dec q) as [Vq|Nq].
    - destruct (gaps_inside m m' q R R' Vq) as (X & tl & tl' & gl & gl' & -> & -> & -> & -> & T & U).
      { intros p Hp. apply contains_covered; auto. }
      auto.
    - unfold set_gaps_untrimmed. rewrite !gaps_untrimmed_invalid, !gaps_trimmed_invalid, !map_contains_interval_invalid by exact Nq.
      cbn. auto.
  Qed.
  (** To know the untrimmed gaps as a whole it is enough to look as far as the nearest
      covered point on each side. *)
  Theorem C136_surroundings : forall m m' q w, reachable (I := I) m -> reachable (I := I) m' ->
    shows_surroundings (fun p => ~ covered (iter m) p) q w ->
    (forall p, covers w p -> map_contains_point m p = map_contains_point m' p) ->
    alike (Forall2 same_points) (gaps_untrimmed m q) (gaps_untrimmed m' q).
  Proof.
    intros m m' q w R R' S E. apply reachable_WF in R, R'. destruct (valid_dec q) as [Vq|Nq].
    - destruct (gaps_untrimmed_spec m q R Vq (quiet_at_FI m q)) as (gl & -> & L).
      destruct (gaps_untrimmed_spec m' q R' Vq (quiet_at_FI m' q)) as (gl' & -> & L'). cbn.
      refine (lists_in_window _ _ q w gl gl' Vq S _ L L'). intros p Hp. specialize (E p Hp). apply contains_covered in E; [|assumption..].
      change (iter m) with m. tauto.
    - rewrite !gaps_untrimmed_invalid by exact Nq. exact Logic.I.
  Qed.
  (** So calls about other places change neither. *)
  Theorem C136_calls_elsewhere : forall m (c : call I K V) q, reachable (I := I) m -> keeps_outside c -> ~ overlap (subject c) q ->
    map_contains_interval (fst (perform c m)) q = map_contains_interval m q /\
    alike (Forall2 same_points) (gaps_trimmed (fst (perform c m)) q) (gaps_trimmed m q) /\
    alike (Forall2 (same_inside q)) (gaps_untrimmed (fst (perform c m)) q) (gaps_untrimmed m q).
  Proof.
    intros m c q R Hc N. apply C136_only_the_query; [apply WF_reachable, perform_WF, reachable_WF, R|exact R|].
    intros p Hp. apply reachable_WF in R. apply contains_covered; [apply perform_WF, R|exact R|]. apply perform_keeps; [exact R|exact Hc|].
    intros X. apply N. exists p. auto.
  Qed.

  (** The same for a Gqdit. *)
  Lemma gaps_no_set g q : greachable g -> valid q -> exists (s : NoditSet K) l gl, WF s /\ (forall p, ~ covered s p <-> free g p) /\
    gaps_no_identifier g q = Val l /\ gaps_untrimmed s q = Val gl /\ Forall2 same_points l gl.
  Proof.
    intros (os & ->) Vq. destruct (gaps_no_spec (grun os) q (grun_GWF os) Vq) as (l & E & T).
    destruct (gaps_match (all_of os) q _ l (union_WF _ _) Vq (free_all os) T) as (l' & E' & F).
    exists (all_of os), l, l'. repeat split; try assumption; try apply union_WF; apply free_all.
  Qed.
  Lemma gaps_with_set g d q : greachable g -> valid q -> exists (s : NoditSet K) l gl, WF s /\ (forall p, ~ covered s p <-> free_but d g p) /\
    gaps_with_identifier g d q = Val l /\ gaps_untrimmed s q = Val gl /\ Forall2 same_points l gl.
  Proof.
    intros (os & ->) Vq. destruct (gaps_with_spec (grun os) d q (grun_GWF os) Vq) as (l & E & T).
    destruct (gaps_match (all_but os d) q _ l (union_WF _ _) Vq (free_all_but os d) T) as (l' & E' & F).
    exists (all_but os d), l, l'. repeat split; try assumption; try apply union_WF; apply free_all_but.
  Qed.
  Lemma sets_inside (s s' : NoditSet K) q (l l' gl gl' : list K) : WF s -> WF s' -> valid q -> (forall p, covers q p -> (covered s p <-> covered s' p)) ->
    gaps_untrimmed s q = Val gl -> gaps_untrimmed s' q = Val gl' -> Forall2 same_points l gl -> Forall2 same_points l' gl' ->
    Forall2 (same_inside q) l l'.
  Proof.
    intros W W' Vq E E1 E1' F F'. destruct (gaps_inside s s' q W W' Vq E) as (_ & tl & tl' & x & x' & _ & _ & X & X' & _ & U).
    rewrite E1 in X. rewrite E1' in X'. injection X as <-. injection X' as <-.
    pose proof (forall2_join _ _ _ _ _ (forall2_join _ _ _ _ _ F U) (forall2_sym _ _ _ F')) as J. eapply forall2_weaken; [|exact J].
    intros a b (y & (x & H1 & H2) & H3) p Hp. specialize (H1 p). specialize (H2 p Hp). specialize (H3 p). tauto.
  Qed.
  Lemma stable_cov (s s' : NoditSet K) p : WF s -> WF s' -> (~ covered s p <-> ~ covered s' p) -> (covered s p <-> covered s' p).
  Proof. intros W W' E. split; intros X; apply covered_stable; auto; intros N; apply E in N; auto. Qed.

  Theorem C136_gqdit_only_the_query : forall g g' d q, greachable g -> greachable g' ->
    ((forall p, covers q p -> (free g p <-> free g' p)) ->
     alike (Forall2 (same_inside q)) (gaps_no_identifier g q) (gaps_no_identifier g' q)) /\
    ((forall p, covers q p -> (free_but d g p <-> free_but d g' p)) ->
     alike (Forall2 (same_inside q)) (gaps_with_identifier g d q) (gaps_with_identifier g' d q)).
  Proof.
    intros g g' d q R R'. destruct (valid_dec q) as [Vq|Nq].
    - split; intros E.
      + destruct (gaps_no_set g q R Vq) as (s & l & gl & W & C & -> & E1 & F).
        destruct (gaps_no_set g' q R' Vq) as (s' & l' & gl' & W' & C' & -> & E1' & F'). cbn.
        apply (sets_inside s s' q l l' gl gl'); auto. intros p Hp. apply stable_cov; [exact W|exact W'|]. rewrite C, C'. apply E, Hp.
      + destruct (gaps_with_set g d q R Vq) as (s & l & gl & W & C & -> & E1 & F).
        destruct (gaps_with_set g' d q R' Vq) as (s' & l' & gl' & W' & C' & -> & E1' & F'). cbn.
        apply (sets_inside s s' q l l' gl gl'); auto. intros p Hp. apply stable_cov; [exact W|exact W'|]. rewrite C, C'. apply E, Hp.
    - split; intros _; [rewrite !gaps_no_bad by exact Nq|rewrite !gaps_with_bad by exact Nq]; exact Logic.I.
  Qed.
  Theorem C136_gqdit_surroundings : forall g g' d q w, greachable g -> greachable g' ->
    (shows_surroundings (free g) q w -> (forall p, covers w p -> (free g p <-> free g' p)) ->
     alike (Forall2 same_points) (gaps_no_identifier g q) (gaps_no_identifier g' q)) /\
    (shows_surroundings (free_but d g) q w -> (forall p, covers w p -> (free_but d g p <-> free_but d g' p)) ->
     alike (Forall2 same_points) (gaps_with_identifier g d q) (gaps_with_identifier g' d q)).
  Proof.
    intros g g' d q w R R'. apply greachable_GWF in R, R'. destruct (valid_dec q) as [Vq|Nq].
    - split; intros S E.
      + destruct (gaps_no_spec g q R Vq) as (l & -> & L), (gaps_no_spec g' q R' Vq) as (l' & -> & L').
        exact (lists_in_window _ _ q w l l' Vq S E L L').
      + destruct (gaps_with_spec g d q R Vq) as (l & -> & L), (gaps_with_spec g' d q R' Vq) as (l' & -> & L').
        exact (lists_in_window _ _ q w l l' Vq S E L L').
    - split; intros _ _; [rewrite !gaps_no_bad by exact Nq|rewrite !gaps_with_bad by exact Nq]; exact Logic.I.
  Qed.
  Theorem C136_gqdit_calls_elsewhere : forall g (os : list (gop I K D)) d q, greachable g ->
    (forall o d' p, In o os -> covers q p -> ~ concerns o d' p) ->
    alike (Forall2 (same_inside q)) (gaps_no_identifier (gsteps os g) q) (gaps_no_identifier g q) /\
    alike (Forall2 (same_inside q)) (gaps_with_identifier (gsteps os g) d q) (gaps_with_identifier g d q).
  Proof.
    intros g os d q R N.
    assert (R' : greachable (gsteps os g)).
    { destruct R as (os0 & ->). exists (os0 ++ os). unfold grun, gsteps. rewrite fold_left_app. reflexivity. }
    assert (E : forall p d', covers q p -> (has_id (gsteps os g) p d' <-> has_id g p d')).
    { intros p d' Hp. apply unconcerned; [apply greachable_GWF, R|]. intros o Ho. apply N; assumption. }
    destruct (C136_gqdit_only_the_query (gsteps os g) g d q R' R) as [X1 X2]. split; [apply X1|apply X2]; intros p Hp.
    - unfold free. split; intros X d' Y; apply (X d'), E, Y; exact Hp.
    - unfold free_but. split; intros X d' Y; apply X, E, Y; exact Hp.
  Qed.
End Props.

(** The entries 2..4, 8..9 and 20..30, and another map that differs only beyond 9;
    asked for 5..6, looking from 4 to 8 is enough. *)
Section Example136.
  Let m : NoditMap (Interval u8) nat := run [OpInsertStrict (2 --> 4) 1; OpInsertStrict (8 --> 9) 2; OpInsertStrict (20 --> 30) 3].
  Let m' : NoditMap (Interval u8) nat := run [OpInsertStrict (0 --> 4) 1; OpInsertStrict (8 --> 13) 2].
  Example C136_example :
    shows_surroundings (fun p => ~ covered (iter m) p) (5 --> 6 : Interval u8) (4 --> 8) /\
    gaps_untrimmed m (5 --> 6 : Interval u8) = Val [5 --> 7] /\ gaps_untrimmed m' (5 --> 6 : Interval u8) = Val [5 --> 7] /\
    gaps_untrimmed m (10 --> 12 : Interval u8) = Val [10 --> 19] /\
    gaps_untrimmed (fst (perform (InsertStrict (14 --> 15) 7) m)) (10 --> 12 : Interval u8) = Val [10 --> 13].
  Proof.
    split; [|vm_compute; auto].
    assert (P : forall a b : u8, ple a b <-> (ival a <= ival b)%Z) by (intros a b; unfold ple; rewrite cmp_int; apply Z.compare_le_iff).
    split; [|split; right; [exists '4|exists '8]].
    - intros p [A B]. apply P in A, B. change (5 <= ival p)%Z in A. change (ival p <= 6)%Z in B.
      split; apply P; [change (4 <= ival p)%Z|change (ival p <= 8)%Z]; lia.
    - split; [split; vm_compute; discriminate|]. split.
      + intros N. apply N. exists (2 --> 4), 1. split; [vm_compute; auto|split; vm_compute; discriminate].
      + intros y [A B]. apply P in A. apply P. change (5 <= ival y)%Z in A. change (4 <= ival y)%Z. lia.
    - split; [split; vm_compute; discriminate|]. split.
      + intros N. apply N. exists (8 --> 9), 2. split; [vm_compute; auto|split; vm_compute; discriminate].
      + intros y [A B]. apply P in B. apply P. change (ival y <= 6)%Z in B. change (ival y <= 8)%Z. lia.
  Qed.
End Example136.
Print Assumptions C136_only_the_query.
Print Assumptions C136_surroundings.
Print Assumptions C136_calls_elsewhere.
Print Assumptions C136_gqdit_only_the_query.
Print Assumptions C136_gqdit_surroundings.
Print Assumptions C136_gqdit_calls_elsewhere.
