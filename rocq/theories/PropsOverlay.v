(** * PropsOverlay: maps laid over each other (C149). *)
From Coq Require Import List ZArith Bool Lia.
From Verif Require Import Base BTree UtilsModel IntervalModel NoditModel NoditOps Spec SplitOps MergeAllOps OverlayOps InstancesModel Instances
  PointFacts IntervalFacts NoditFacts NoditInv NoditQueries NoditGaps NoditMutations MergeAllFacts GqditProofs OverlayFacts PropsNodit PropsSplit.
Import ListNotations.
Open Scope nat_scope.

Section Props.
  Context {I : Type} `{PL : PointLaws I}.
  Context {K : Type} {IK : InclusiveInterval I K} {IL : IntervalLaws I K}.
  Context {V : Type}.
  Implicit Types (a b c : NoditMap K V) (v : V).

  Local Lemma keys_valid {K' V'} {IK' : InclusiveInterval I K'} {IL' : IntervalLaws I K'} (b : NoditMap K' V') : WF b -> Forall valid (map fst b).
  Proof. intros W. apply ascending_WF, W. Qed.
  Local Lemma keys_covered {K' V'} {IK' : InclusiveInterval I K'} (b : NoditMap K' V') p :
    (exists q, In q (map fst b) /\ covers q p) <-> covered b p.
  Proof.
    split.
    - intros (q & Hq & Hp). apply in_map_iff in Hq. destruct Hq as ([k v] & <- & Hi). exists k, v. auto.
    - intros (k & v & Hi & Hp). exists k. split; [apply in_map_iff; exists (k, v); auto|exact Hp].
  Qed.
  Local Lemma minus_left {K' V'} {IK' : InclusiveInterval I K'} {IL' : IntervalLaws I K'} a (b : NoditMap K' V') : WF a -> WF b ->
    exists d out, minus a b = (d, Val out) /\ left_of (fun p => ~ covered b p) a d /\
      forall p v, maps_to out p v <-> maps_to a p v /\ covered b p.
  Proof.
    intros Wa Wb. destruct (cut_each_left (map fst b) a Wa (keys_valid b Wb)) as (d & out & E & L & M). exists d, out. split; [exact E|]. split.
    - apply left_ext with (2 := L). intros p. rewrite keys_covered. reflexivity.
    - intros p v. rewrite M, keys_covered. reflexivity.
  Qed.

  (** ** C149 *)
  (** Many intervals, in any order, cut out one after the other: what is left
      are the parts outside of all of them, and the pieces have the rest. *)
  Theorem C149_cut_each : forall {Q} {IQ : InclusiveInterval I Q} (qs : list Q) a, reachable a -> Forall valid qs ->
    exists a' pieces, cut_each qs a = (a', Val pieces) /\ reachable a' /\
      parts (fun p => ~ exists q, In q qs /\ covers q p) (iter a) (iter a') /\
      forall p v, maps_to pieces p v <-> maps_to (iter a) p v /\ exists q, In q qs /\ covers q p.
  Proof.
    intros Q IQ qs a R Vs. apply reachable_WF in R. destruct (cut_each_left qs a R Vs) as (a' & out & E & L & M). exists a', out.
    split; [exact E|]. split; [apply WF_reachable, L|]. split; [apply left_parts; assumption|exact M].
  Qed.
  (** This determines the map. *)
  Theorem C149_parts_determined : forall (P P' : I -> Prop) a l l', (forall p, P p <-> P' p) ->
    parts P (iter a) l -> parts P' (iter a) l' -> same_entries l l'.
  Proof. intros P P' a l l'. exact (parts_unique P P' a l l'). Qed.
  (** So neither the order nor repetitions matter. *)
  Theorem C149_any_order : forall {Q} {IQ : InclusiveInterval I Q} (qs qs' : list Q) a, reachable a -> Forall valid qs -> Forall valid qs' ->
    (forall p, (exists q, In q qs /\ covers q p) <-> (exists q, In q qs' /\ covers q p)) ->
    same_entries (iter (fst (cut_each qs a))) (iter (fst (cut_each qs' a))).
  Proof.
    intros Q IQ qs qs' a R Vs Vs' S. destruct (C149_cut_each qs a R Vs) as (x & y & -> & _ & P1 & _). destruct (C149_cut_each qs' a R Vs') as (x' & y' & -> & _ & P2 & _).
    apply (parts_unique _ _ a x x') with (2 := P1) (3 := P2). intros p. rewrite S. reflexivity.
  Qed.

  (** Cutting a map out of a map, whatever the intervals and the values of the
      other are. *)
  Theorem C149_minus : forall {K' V'} {IK' : InclusiveInterval I K'} {IL' : IntervalLaws I K'} a (b : NoditMap K' V'), reachable a -> reachable b ->
    exists a' pieces, minus a b = (a', Val pieces) /\ reachable a' /\
      parts (fun p => ~ covered (iter b) p) (iter a) (iter a') /\ common (iter a) (iter b) pieces.
  Proof.
    intros K' V' IK' IL' a b R R'. apply reachable_WF in R. apply reachable_WF in R'. destruct (minus_left a b R R') as (d & out & E & L & _). exists d, out.
    split; [exact E|]. split; [apply WF_reachable, L|]. split; [apply left_parts; assumption|]. exact (minus_common a b d out R R' E).
  Qed.
  (** Keeping only what another map covers. *)
  Theorem C149_only : forall {K' V'} {IK' : InclusiveInterval I K'} {IL' : IntervalLaws I K'} {FI' : FromInvalid I K'} a (b : NoditMap K' V'), reachable a -> reachable b ->
    exists a' pieces, only a b = (a', Val pieces) /\ reachable a' /\ parts (covered (iter b)) (iter a) (iter a').
  Proof.
    intros K' V' IK' IL' FI' a b R R'. apply reachable_WF in R. apply reachable_WF in R'. unfold only. rewrite uu_val. cbn [obind].
    pose proof (uu_valid (I := I)) as Vu. destruct (gaps_trimmed_points b _ R' Vu (quiet_at_FI b _)) as (gs & E & C).
    destruct (gaps_trimmed_spec b _ R' Vu (quiet_at_FI b _)) as (gs' & E' & _ & Vs & _). rewrite E in E'. injection E' as <-. rewrite E.
    assert (V1 : Forall valid gs) by (apply Forall_forall; intros g Hg; apply (Vs g Hg)).
    destruct (cut_each_left gs a R V1) as (d & out & Ed & L & _). exists d, out. split; [exact Ed|]. split; [apply WF_reachable, L|].
    apply left_parts; [exact R|]. apply left_ext with (2 := L). intros p. rewrite <- (C p (uu_covers p)).
    destruct (covered_dec b p R') as [X|X]; [split; [intros _; exact X|intros _ N; exact (N X)]|split; [intros N; destruct (N X)|intros Y; destruct (X Y)]].
  Qed.
  (** Laying a map over a map. *)
  Theorem C149_overlay : forall a b, reachable a -> reachable b ->
    exists m, overlay a b = (m, Val tt) /\ reachable m /\ overlaid (iter a) (iter b) (iter m) /\
      forall p v, maps_to (iter m) p v <-> maps_to (iter b) p v \/ (maps_to (iter a) p v /\ ~ covered (iter b) p).
  Proof.
    intros a b Ra Rb. apply reachable_WF in Ra, Rb. destruct (overwrite_over b a Rb Ra) as (m & E & O). exists m. split; [exact E|].
    split; [apply WF_reachable, O|]. split; [apply over_overlaid; assumption|apply O].
  Qed.
  Theorem C149_overlay_determined : forall a b m m', reachable b -> overlaid (iter a) (iter b) m -> overlaid (iter a) (iter b) m' -> same_entries m m'.
  Proof. intros a b m m' Rb. apply overlaid_unique, reachable_WF, Rb. Qed.

  (** Laws. *)
  Theorem C149_overlay_itself : forall a, reachable a -> overlay a a = (a, Val tt).
  Proof.
    intros a Ra. apply reachable_WF in Ra. unfold overlay. destruct (overwrite_over a a Ra Ra) as (m & E & O). unfold into_iter. rewrite E.
    rewrite (over_self a m Ra O). reflexivity.
  Qed.
  Theorem C149_overlay_empty : forall a, reachable a -> overlay a new = (a, Val tt) /\ overlay new a = (a, Val tt).
  Proof.
    intros a Ra. apply reachable_WF in Ra. split; [reflexivity|]. unfold overlay. destruct (overwrite_over a new Ra WF_nil) as (m & E & O). unfold into_iter. rewrite E.
    rewrite (over_empty a m Ra O). reflexivity.
  Qed.
  Theorem C149_overlay_associative : forall a b c, reachable a -> reachable b -> reachable c ->
    same_entries (iter (fst (overlay (fst (overlay a b)) c))) (iter (fst (overlay a (fst (overlay b c))))).
  Proof.
    intros a b c Ra Rb Rc. apply reachable_WF in Ra, Rb, Rc. unfold overlay, into_iter.
    destruct (overwrite_over b a Rb Ra) as (ab & E1 & O1). destruct (overwrite_over c b Rc Rb) as (bc & E3 & O3). rewrite E1, E3. cbn [fst].
    destruct (overwrite_over c ab Rc (ov_wf _ _ _ O1)) as (l & E2 & O2). destruct (overwrite_over bc a (ov_wf _ _ _ O3) Ra) as (r & E4 & O4). rewrite E2, E4. cbn [fst].
    exact (over_assoc a b c ab l bc r Ra Rb Rc O1 O2 O3 O4).
  Qed.
  Theorem C149_overlay_after_minus : forall a b, reachable a -> reachable b ->
    same_entries (iter (fst (overlay a b))) (iter (fst (overlay (fst (minus a b)) b))).
  Proof.
    intros a b Ra Rb. apply reachable_WF in Ra, Rb. destruct (minus_left a b Ra Rb) as (d & out & -> & L & _). cbn [fst]. unfold overlay, into_iter.
    destruct (overwrite_over b a Rb Ra) as (m & -> & O). destruct (overwrite_over b d Rb (lf_wf _ _ _ L)) as (m' & -> & O').
    exact (over_minus a b d m m' Ra Rb L O O').
  Qed.
  Theorem C149_minus_after_overlay : forall a b, reachable a -> reachable b ->
    same_entries (iter (fst (minus (fst (overlay a b)) b))) (iter (fst (minus a b))).
  Proof.
    intros a b Ra Rb. apply reachable_WF in Ra, Rb. destruct (minus_left a b Ra Rb) as (d & out & -> & L & _). unfold overlay, into_iter.
    destruct (overwrite_over b a Rb Ra) as (m & -> & O). cbn [fst]. destruct (minus_left m b (ov_wf _ _ _ O) Rb) as (d' & out' & -> & L' & _).
    exact (minus_over a b d m d' Ra Rb L O L').
  Qed.
  (** Nothing is lost: the pieces put back give the map at every point. *)
  Theorem C149_put_back : forall {K' V'} {IK' : InclusiveInterval I K'} {IL' : IntervalLaws I K'} a (b : NoditMap K' V'), reachable a -> reachable b ->
    exists a' pieces m, minus a b = (a', Val pieces) /\ overwrite_each pieces a' = (m, Val tt) /\ same_map (iter m) (iter a).
  Proof.
    intros K' V' IK' IL' a b Ra Rb. destruct (C149_minus a b Ra Rb) as (a0 & p0 & E0 & _ & _ & S & A & _).
    apply reachable_WF in Ra. apply reachable_WF in Rb. destruct (minus_left a b Ra Rb) as (d & out & E & L & M). rewrite E in E0. injection E0 as <- <-.
    assert (Wo : WF out).
    { apply ascending_WF. split; [exact S|]. rewrite Forall_map, Forall_forall. intros [x v] Hi. destruct (A x v Hi) as (k & k' & v' & _ & _ & (p & P1 & P2) & C).
      exists p. apply C. auto. }
    destruct (overwrite_over out d Wo (lf_wf _ _ _ L)) as (m & Em & O). exists d, out, m. split; [exact E|]. split; [exact Em|].
    intros p v. unfold iter. rewrite (ov_maps _ _ _ O), M, (lf_maps _ _ _ L). split; [tauto|]. intros X. destruct (covered_dec b p Rb) as [Cv|Cv]; [left; auto|right].
    split; [auto|]. intros (k & w & Hi & Hp). apply Cv. apply (M p w). exists k. auto.
  Qed.
End Props.

(** The hypotheses are met, non-trivially. *)
Definition ex_over_ops : list (op u8 (Interval u8) nat) :=
  [OpInsertStrict (3 --> 6) 10; OpInsertStrict (7 --> 8) 11; OpInsertStrict (40 --> 50) 13; OpInsertStrict (22 --> 23) 12].
Definition ex_over : NoditMap (Interval u8) nat := [(3 --> 6, 10); (7 --> 8, 11); (22 --> 23, 12); (40 --> 50, 13)].
Example ex_over_reachable : reachable ex_over.
Proof. exists ex_over_ops. vm_compute. reflexivity. Qed.
Example C149_example_minus : minus ex_map ex_over =
  ([(2 --> 2, 1); (9 --> 9, 2); (20 --> 21, 3); (24 --> 30, 3)],
   Val [(3 --> 4, 1); (6 --> 6, 2); (7 --> 7, 2); (8 --> 8, 2); (22 --> 23, 3)]).
Proof. vm_compute. reflexivity. Qed.
Example C149_example_only : fst (only ex_map ex_over) = [(3 --> 4, 1); (6 --> 7, 2); (8 --> 8, 2); (22 --> 23, 3)].
Proof. vm_compute. reflexivity. Qed.
Example C149_example_overlay : overlay ex_map ex_over =
  ([(2 --> 2, 1); (3 --> 6, 10); (7 --> 8, 11); (9 --> 9, 2); (20 --> 21, 3); (22 --> 23, 12); (24 --> 30, 3); (40 --> 50, 13)], Val tt).
Proof. vm_compute. reflexivity. Qed.
Example C149_example_any_order :
  cut_each [(3 --> 6 : Interval u8); 5 --> 22; 21 --> 25] ex_map =
    ([(2 --> 2, 1); (26 --> 30, 3)], Val [(3 --> 4, 1); (6 --> 6, 2); (7 --> 7, 2); (8 --> 9, 2); (20 --> 22, 3); (23 --> 25, 3)]) /\
  fst (cut_each [(7 --> 25 : Interval u8); 3 --> 20] ex_map) = [(2 --> 2, 1); (26 --> 30, 3)].
Proof. split; vm_compute; reflexivity. Qed.
Print Assumptions C149_cut_each.
Print Assumptions C149_parts_determined.
Print Assumptions C149_any_order.
Print Assumptions C149_minus.
Print Assumptions C149_only.
Print Assumptions C149_overlay.
Print Assumptions C149_overlay_determined.
Print Assumptions C149_overlay_itself.
Print Assumptions C149_overlay_empty.
Print Assumptions C149_overlay_associative.
Print Assumptions C149_overlay_after_minus.
Print Assumptions C149_minus_after_overlay.
Print Assumptions C149_put_back.
