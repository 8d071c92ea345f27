(** * LocalCommute: calls about places that have nothing to do with each other commute. *)
From Coq Require Import List ZArith Bool Lia ZifyBool Sorting.Sorted.
From Verif Require Import Base BTree UtilsModel IntervalModel NoditModel NoditOps Spec PointFacts IntervalFacts ListFacts NoditFacts NoditQueries NoditGaps NoditMutations NoditMerges NoditInv LocalOps Local.
Import ListNotations.
Open Scope Z_scope.

Section Commute.
  Context {I : Type} {OI : Ord I} {DI : DiscreteFinite I} {PL : PointLaws I}.
  Context {K : Type} {IK : InclusiveInterval I K} {IL : IntervalLaws I K}.
  Context {V : Type}.
  Notation entry := (K * V)%type.
  Implicit Types (m A B M : NoditMap K V) (c d : call I K V).

  Definition op_of c : option (op I K V) :=
    match c with
    | InsertStrict k v => Some (OpInsertStrict k v)
    | InsertMergeTouching k v => Some (OpInsertMergeTouching k v)
    | InsertMergeTouchingIfValuesEqual veq k v => Some (OpInsertMergeTouchingIfValuesEqual veq k v)
    | InsertMergeOverlapping k v => Some (OpInsertMergeOverlapping k v)
    | InsertMergeTouchingOrOverlapping k v => Some (OpInsertMergeTouchingOrOverlapping k v)
    | InsertOverwrite k v => Some (OpInsertOverwrite k v)
    | RemoveOverlapping q => Some (OpRemoveOverlapping q)
    | Cut q => Some (OpCut q)
    | OverlappingMut f q => Some (OpOverlappingMut f q)
    | GetAtPointMut f p => Some (OpGetAtPointMut f p)
    | Overlapping _ | Overlaps _ | GetAtPoint _ | ContainsPoint _ => None
    end.
  Lemma perform_step c m : fst (perform c m) = match op_of c with Some o => step m o | None => m end.
  Proof. destruct c; reflexivity. Qed.
  Lemma perform_WF c m : WF m -> WF (fst (perform c m)).
  Proof. intros W. rewrite perform_step. destruct (op_of c); [apply step_WF, W|exact W]. Qed.

  (** No call makes a point covered that is neither covered before nor its own. *)
  Lemma absorbs_points P k v m m' r e p : absorbs P k v m m' r -> In e m' -> covers (fst e) p ->
    covered m p \/ covers k p.
  Proof.
    intros (Hr & (l1 & l2 & HS & ->) & _) He Hp.
    assert (X : e = (r, v) \/ In e (l1 ++ l2)) by (rewrite in_app_iff in *; cbn in He; intuition).
    destruct X as [->|X].
    - cbn in Hp. apply Hr in Hp. destruct Hp as [Hp|((k' & v') & Hin & _ & Hp)]; [right; exact Hp|left; exists k', v'; auto].
    - apply (sub_in _ _ _ HS) in X. destruct e as [k' v']. left. exists k', v'. tauto.
  Qed.
  Lemma in_covered (m : NoditMap K V) e p : In e m -> covers (fst e) p -> covered m p.
  Proof. destruct e as [k v]. intros X Y. exists k, v. auto. Qed.
  Lemma same_keys_in (m m' : NoditMap K V) e : map fst m = map fst m' -> In e m' -> exists e', In e' m /\ fst e' = fst e.
  Proof.
    intros E He. assert (X : In (fst e) (map fst m)) by (rewrite E; apply in_map, He).
    apply in_map_iff in X. destruct X as (e' & X1 & X2). exists e'. auto.
  Qed.
  Lemma perform_points c m e p : WF m -> valid (subject c) -> In e (fst (perform c m)) -> covers (fst e) p ->
    covered m p \/ covers (subject c) p.
  Proof.
    intros W Vs. destruct c; cbn [subject] in *; cbn [perform answering fst].
    all: try (assert (Vk : valid k) by exact Vs).
    all: try (assert (Vk : valid q) by exact Vs).
    all: try (change (covers (mkInterval (istart k) (iend k)) p) with (covers k p)).
    - destruct (overlap_dec m k W Vk) as [Ho|Hn].
      + rewrite (insert_strict_refused m k v W Vk Ho). cbn. intros X Y. left. eapply in_covered; eassumption.
      + destruct (insert_strict_done m k v W Vk Hn) as (m1 & m2 & -> & -> & _). cbn [fst].
        rewrite in_app_iff. intros [X|[<-|X]] Y; [left; eapply in_covered; [apply in_app_iff; left; exact X|exact Y]|right; exact Y|left].
        eapply in_covered; [apply in_app_iff; right; exact X|exact Y].
    - destruct (overlap_dec m k W Vk) as [Ho|Hn].
      + rewrite (insert_merge_touching_refused m k v W Vk Ho). cbn. intros X Y. left. eapply in_covered; eassumption.
      + destruct (insert_merge_touching_done m k v W Vk Hn) as (m' & r & -> & _ & HA). cbn [fst]. apply (absorbs_points _ _ _ _ _ _ _ _ HA).
    - destruct (overlap_dec m k W Vk) as [Ho|Hn].
      + rewrite (insert_merge_touching_if_equal_refused veq m k v W Vk Ho). cbn. intros X Y. left. eapply in_covered; eassumption.
      + destruct (insert_merge_touching_if_equal_done veq m k v W Vk Hn) as (m' & r & -> & _ & HA). cbn [fst]. apply (absorbs_points _ _ _ _ _ _ _ _ HA).
    - destruct (insert_merge_overlapping_spec m k v W Vk) as (m' & r & -> & _ & HA). cbn [fst]. apply (absorbs_points _ _ _ _ _ _ _ _ HA).
    - destruct (insert_merge_touching_or_overlapping_spec m k v W Vk) as (m' & r & -> & _ & HA). cbn [fst]. apply (absorbs_points _ _ _ _ _ _ _ _ HA).
    - destruct (insert_overwrite_spec m k v W Vk) as (m' & out & -> & _ & _ & _ & _ & HP). cbn [fst]. intros X Y.
      destruct e as [k' v']. destruct (proj1 (HP p v')) as [[Z _]|[_ Z]]; [exists k'; auto|right; exact Z|].
      left. apply maps_to_covered in Z. exact Z.
    - destruct (remove_overlapping_spec m q W Vk) as (kept & rem & -> & _ & HS & _). cbn [fst]. intros X Y.
      apply (sub_in _ _ _ HS) in X. left. eapply in_covered; [apply X|exact Y].
    - destruct (cut_entries m q W Vk) as (m' & out & -> & _ & _ & _ & _ & HP). cbn [fst]. intros X Y.
      destruct e as [k' v']. destruct (proj1 (HP p v')) as [Z _]; [exists k'; auto|]. left. apply maps_to_covered in Z. exact Z.
    - destruct (overlapping_mut_spec f q m W Vk) as (m' & -> & HF). cbn [fst]. intros X Y.
      apply Forall2_fst_keys in HF; [|cbn; tauto]. destruct (same_keys_in _ _ _ HF X) as (e' & X1 & X2).
      left. eapply in_covered; [exact X1|rewrite X2; exact Y].
    - intros X Y. left. eapply in_covered; eassumption.
    - intros X Y. left. eapply in_covered; eassumption.
    - destruct (get_at_point_mut_spec f p0 m W) as (m' & o & -> & _ & HF). cbn [fst]. intros X Y.
      apply Forall2_fst_keys in HF; [|cbn; tauto]. destruct (same_keys_in _ _ _ HF X) as (e' & X1 & X2).
      left. eapply in_covered; [exact X1|rewrite X2; exact Y].
    - intros X Y. left. eapply in_covered; eassumption.
    - intros X Y. left. eapply in_covered; eassumption.
  Qed.

  Lemma stay_left c M s : WF M -> valid (subject c) -> Forall (left_of s) M -> hi (subject c) < s ->
    Forall (left_of s) (fst (perform c M)).
  Proof.
    intros W Vs HM Hs. rewrite Forall_forall in *. intros e He.
    pose proof (WF_okv _ _ (perform_WF c M W) He) as Ve. unfold left_of, ehi, elo in *.
    destruct (perform_points c M e (iend (fst e)) W Vs He) as [(k & v & Hin & Hc)|Hc].
    - apply covers_rk. unfold lo, hi in *. lia.
    - apply covers_rk in Hc. specialize (HM _ Hin). cbn in HM. unfold lo, hi in *. lia.
    - apply covers_rk in Hc. unfold lo, hi in *. lia.
  Qed.
  Lemma stay_right c M t : WF M -> valid (subject c) -> Forall (right_of t) M -> t < lo (subject c) ->
    Forall (right_of t) (fst (perform c M)).
  Proof.
    intros W Vs HM Hs. rewrite Forall_forall in *. intros e He.
    pose proof (WF_okv _ _ (perform_WF c M W) He) as Ve. unfold right_of, ehi, elo in *.
    destruct (perform_points c M e (istart (fst e)) W Vs He) as [(k & v & Hin & Hc)|Hc].
    - apply covers_rk. unfold lo, hi in *. lia.
    - apply covers_rk in Hc. specialize (HM _ Hin). cbn in HM. unfold lo, hi in *. lia.
    - apply covers_rk in Hc. unfold lo, hi in *. lia.
  Qed.

  (** ** Splitting a map around a call *)
  Lemma split_call c m : WF m -> valid (subject c) ->
    exists A M B, m = A ++ M ++ B /\
      Forall (left_of (from_rank c)) A /\ Forall (meets (from_rank c) (to_rank c)) M /\ Forall (right_of (to_rank c)) B.
  Proof.
    intros W Vs. apply split3; [exact W|]. apply valid_rk in Vs. pose proof (near_range c). unfold from_rank, to_rank. lia.
  Qed.
  Lemma WF_valid m e : WF m -> In e m -> valid (fst e).
  Proof. intros W He. apply valid_rk. exact (WF_okv _ _ W He). Qed.

  Lemma local_split c m : WF m -> exists A M B, m = A ++ M ++ B /\
    (valid (subject c) -> forall e, In e m -> (In e M <-> ~ clear c (fst e))) /\
    (~ valid (subject c) -> M = []) /\
    perform c m = (A ++ fst (perform c M) ++ B, snd (perform c M)).
  Proof.
    intros W. destruct (valid_dec (subject c)) as [Vs|Ns].
    - destruct (split_call c m W Vs) as (A & M & B & -> & HA & HM & HB). exists A, M, B. split; [reflexivity|].
      split; [|split; [tauto|apply frame_perform; assumption]].
      intros _ e He. rewrite (clear_rk c (fst e) Vs (WF_valid _ _ W He)). split.
      + intros X. rewrite Forall_forall in HM. specialize (HM e X). unfold meets, elo, ehi in HM. lia.
      + intros N. rewrite !in_app_iff in He. rewrite Forall_forall in *. destruct He as [He|[He|He]]; [|exact He|].
        * specialize (HA e He). unfold left_of, ehi in HA. tauto.
        * specialize (HB e He). unfold right_of, elo in HB. tauto.
    - exists m, [], []. rewrite app_nil_r. split; [reflexivity|]. split; [tauto|]. split; [reflexivity|].
      rewrite (surjective_pairing (perform c m)). rewrite !(subject_invalid c) by exact Ns. cbn. rewrite app_nil_r.
      f_equal. apply subject_invalid_reply, Ns.
  Qed.

  Lemma local_frame c m m0 A B : WF m -> m = A ++ m0 ++ B ->
    (forall e, In e A -> before (fst e) (subject c) /\ clear c (fst e)) ->
    (forall e, In e B -> before (subject c) (fst e) /\ clear c (fst e)) ->
    perform c m = (A ++ fst (perform c m0) ++ B, snd (perform c m0)).
  Proof.
    intros W -> HA HB. destruct (valid_dec (subject c)) as [Vs|Ns].
    - apply frame_perform; [exact W|exact Vs| |]; rewrite Forall_forall; intros e He.
      + destruct (HA e He) as [X Y]. assert (Ve : valid (fst e)) by (apply (WF_valid _ _ W); rewrite !in_app_iff; auto).
        apply (clear_rk c (fst e) Vs Ve) in Y. apply valid_rk in Ve. apply valid_rk in Vs. apply before_rk in X; try assumption.
        pose proof (near_range c). unfold left_of, ehi, from_rank, to_rank in *. lia.
      + destruct (HB e He) as [X Y]. assert (Ve : valid (fst e)) by (apply (WF_valid _ _ W); rewrite !in_app_iff; auto).
        apply (clear_rk c (fst e) Vs Ve) in Y. apply valid_rk in Ve. apply valid_rk in Vs. apply before_rk in X; try assumption.
        pose proof (near_range c). unfold right_of, elo, from_rank, to_rank in *. lia.
    - rewrite (surjective_pairing (perform c _)). rewrite !(subject_invalid c) by exact Ns. f_equal. apply subject_invalid_reply, Ns.
  Qed.

  (** ** Two independent calls *)
  (** [d] lies to the right of [c]. *)
  Definition right_side c d : Prop := hi (subject c) < from_rank d /\ to_rank c < lo (subject d).
  Lemma independent_sides c d : valid (subject c) -> valid (subject d) -> independent c d ->
    right_side c d \/ right_side d c.
  Proof.
    intros Vc Vd [X Y]. apply (clear_rk c (subject d) Vc Vd) in X. apply (clear_rk d (subject c) Vd Vc) in Y.
    apply valid_rk in Vc. apply valid_rk in Vd. pose proof (near_range c). pose proof (near_range d).
    unfold right_side, from_rank, to_rank in *. lia.
  Qed.
  Lemma near_left c d (e : entry) : valid (subject c) -> valid (subject d) -> right_side c d -> valid (fst e) ->
    meets (from_rank c) (to_rank c) e -> clear d (fst e) -> left_of (from_rank d) e.
  Proof.
    intros Vc Vd S Ve X Y. apply (clear_rk d (fst e) Vd Ve) in Y. apply valid_rk in Vc. apply valid_rk in Vd. apply valid_rk in Ve.
    pose proof (near_range c). pose proof (near_range d).
    unfold right_side, from_rank, to_rank, meets, left_of, elo, ehi in *. lia.
  Qed.
  Lemma near_right c d (e : entry) : valid (subject c) -> valid (subject d) -> right_side c d -> valid (fst e) ->
    meets (from_rank d) (to_rank d) e -> clear c (fst e) -> right_of (to_rank c) e.
  Proof.
    intros Vc Vd S Ve X Y. apply (clear_rk c (fst e) Vc Ve) in Y. apply valid_rk in Vc. apply valid_rk in Vd. apply valid_rk in Ve.
    pose proof (near_range c). pose proof (near_range d).
    unfold right_side, from_rank, to_rank, meets, right_of, elo, ehi in *. lia.
  Qed.
  Lemma meets_not_clear c (e : entry) : valid (subject c) -> valid (fst e) -> meets (from_rank c) (to_rank c) e -> ~ clear c (fst e).
  Proof. intros Vc Ve X Y. apply (clear_rk c (fst e) Vc Ve) in Y. unfold meets, elo, ehi in X. lia. Qed.

  (** The three facts about a pair of calls. *)
  Definition commute c d m : Prop :=
    fst (perform d (fst (perform c m))) = fst (perform c (fst (perform d m))) /\
    snd (perform d (fst (perform c m))) = snd (perform d m) /\
    snd (perform c (fst (perform d m))) = snd (perform c m).

  Lemma ordered_commute c d m : WF m -> valid (subject c) -> valid (subject d) -> right_side c d ->
    (forall e, In e m -> clear c (fst e) \/ clear d (fst e)) -> commute c d m.
  Proof.
    intros W Vc Vd S HE.
    destruct (split_call c m W Vc) as (A & M & B & -> & HA & HM & HB).
    assert (WB : WF B) by (rewrite !WF_app in W; tauto).
    assert (WM : WF M) by (rewrite !WF_app in W; tauto).
    destruct (split_call d B WB Vd) as (B1 & M2 & B2 & -> & HB1 & HM2 & HB2).
    assert (WM2 : WF M2) by (rewrite !WF_app in WB; tauto).
    apply valid_rk in Vc as Lc. apply valid_rk in Vd as Ld. pose proof (near_range c) as Nc. pose proof (near_range d) as Nd.
    assert (HAd : Forall (left_of (from_rank d)) A).
    { apply (left_of_le _ (from_rank c)); [|exact HA]. unfold right_side, from_rank, to_rank in *. lia. }
    assert (HMd : Forall (left_of (from_rank d)) M).
    { rewrite Forall_forall in *. intros e He.
      assert (Hm : In e (A ++ M ++ B1 ++ M2 ++ B2)) by (rewrite !in_app_iff; auto).
      pose proof (WF_valid _ _ W Hm) as Ve. apply (near_left c d); try assumption; [apply HM, He|].
      destruct (HE e Hm) as [X|X]; [|exact X]. exfalso. apply (meets_not_clear c e Vc Ve (HM e He) X). }
    assert (HMd' : Forall (left_of (from_rank d)) (fst (perform c M))) by (apply stay_left; try assumption; apply S).
    assert (HM2c : Forall (right_of (to_rank c)) (fst (perform d M2))).
    { apply stay_right; try assumption; [|apply S]. rewrite !Forall_app in HB. tauto. }
    assert (Ec : forall M', WF (A ++ M ++ M') -> Forall (right_of (to_rank c)) M' ->
      perform c (A ++ M ++ M') = (A ++ fst (perform c M) ++ M', snd (perform c M))).
    { intros M' W' HM'. apply frame_perform; assumption. }
    assert (Ed : forall L, WF (L ++ M2 ++ B2) -> Forall (left_of (from_rank d)) L ->
      perform d (L ++ M2 ++ B2) = (L ++ fst (perform d M2) ++ B2, snd (perform d M2))).
    { intros L W' HL. apply frame_perform; assumption. }
    assert (E1 : perform c (A ++ M ++ B1 ++ M2 ++ B2) = (A ++ fst (perform c M) ++ B1 ++ M2 ++ B2, snd (perform c M)))
      by (apply Ec; assumption).
    assert (R1 : A ++ M ++ B1 ++ M2 ++ B2 = (A ++ M ++ B1) ++ M2 ++ B2) by (rewrite <- !app_assoc; reflexivity).
    assert (R2 : A ++ fst (perform c M) ++ B1 ++ M2 ++ B2 = (A ++ fst (perform c M) ++ B1) ++ M2 ++ B2)
      by (rewrite <- !app_assoc; reflexivity).
    assert (E2 : perform d (A ++ M ++ B1 ++ M2 ++ B2) = ((A ++ M ++ B1) ++ fst (perform d M2) ++ B2, snd (perform d M2))).
    { rewrite R1. apply Ed; [rewrite <- R1; exact W|]. rewrite !Forall_app. auto. }
    pose proof (perform_WF c _ W) as W1. pose proof (perform_WF d _ W) as W2. rewrite E1 in W1. rewrite E2 in W2.
    cbn [fst] in W1, W2.
    assert (E3 : perform d (A ++ fst (perform c M) ++ B1 ++ M2 ++ B2) =
      ((A ++ fst (perform c M) ++ B1) ++ fst (perform d M2) ++ B2, snd (perform d M2))).
    { rewrite R2. apply Ed; [rewrite <- R2; exact W1|]. rewrite !Forall_app. auto. }
    assert (R3 : (A ++ M ++ B1) ++ fst (perform d M2) ++ B2 = A ++ M ++ B1 ++ fst (perform d M2) ++ B2)
      by (rewrite <- !app_assoc; reflexivity).
    assert (E4 : perform c ((A ++ M ++ B1) ++ fst (perform d M2) ++ B2) =
      (A ++ fst (perform c M) ++ B1 ++ fst (perform d M2) ++ B2, snd (perform c M))).
    { rewrite R3. apply Ec; [rewrite <- R3; exact W2|]. rewrite !Forall_app in *. tauto. }
    unfold commute. rewrite E1, E2. cbn [fst snd]. rewrite E3, E4. cbn [fst snd].
    split; [rewrite <- !app_assoc; reflexivity|]. split; reflexivity.
  Qed.

  Definition apart c d : Prop := valid (subject c) -> valid (subject d) -> independent c d.
  Definition off c (e : entry) : Prop := valid (subject c) -> clear c (fst e).

  Lemma pair_commute c d m : WF m -> apart c d -> (forall e, In e m -> off c e \/ off d e) -> commute c d m.
  Proof.
    intros W HI HE. destruct (valid_dec (subject c)) as [Vc|Nc].
    2:{ unfold commute. rewrite !(subject_invalid c) by exact Nc. split; [reflexivity|]. split; [reflexivity|]. apply subject_invalid_reply, Nc. }
    destruct (valid_dec (subject d)) as [Vd|Nd].
    2:{ unfold commute. rewrite !(subject_invalid d) by exact Nd. split; [reflexivity|]. split; [|reflexivity]. apply subject_invalid_reply, Nd. }
    assert (HE' : forall e, In e m -> clear c (fst e) \/ clear d (fst e)).
    { intros e He. destruct (HE e He) as [X|X]; [left; apply X, Vc|right; apply X, Vd]. }
    destruct (independent_sides c d Vc Vd (HI Vc Vd)) as [S|S].
    - apply ordered_commute; assumption.
    - destruct (ordered_commute d c m W Vd Vc S) as (X & Y & Z); [intros e He; specialize (HE' e He); tauto|].
      split; [symmetry; exact X|]. split; assumption.
  Qed.

  (** ** Many calls *)
  Definition offs (cs : list (call I K V)) (e : entry) : Prop := forall c, In c cs -> off c e.
  Definition parted (S1 S2 : list (call I K V)) m : Prop :=
    WF m /\ (forall e, In e m -> offs S1 e \/ offs S2 e) /\ (forall c d, In c S1 -> In d S2 -> apart c d).
  Lemma independent_sym c d : independent c d -> independent d c.
  Proof. unfold independent. tauto. Qed.
  Lemma parted_sym S1 S2 m : parted S1 S2 m -> parted S2 S1 m.
  Proof.
    intros (W & HE & HI). split; [exact W|]. split.
    - intros e He. specialize (HE e He). tauto.
    - intros c d Hc Hd X Y. apply independent_sym. apply HI; assumption.
  Qed.
  Lemma parted_step S1 S2 m c : parted S1 S2 m -> In c S1 -> parted S1 S2 (fst (perform c m)).
  Proof.
    intros (W & HE & HI) Hc. destruct (valid_dec (subject c)) as [Vc|Nc].
    2:{ rewrite (subject_invalid c m Nc). split; [exact W|]. split; assumption. }
    split; [apply perform_WF, W|]. split; [|exact HI].
    destruct (split_call c m W Vc) as (A & M & B & -> & HA & HM & HB).
    rewrite (frame_perform c A M B W Vc HA HB). cbn [fst].
    assert (WM : WF M) by (rewrite !WF_app in W; tauto).
    intros e He. rewrite !in_app_iff in He.
    assert (HE' : In e A \/ In e B -> offs S1 e \/ offs S2 e) by (intros X; apply HE; rewrite !in_app_iff; tauto).
    destruct He as [He|[He|He]]; [auto| |auto]. right. intros d Hd Vd.
    assert (Off : forall x, In x M -> clear d (fst x)).
    { intros x Hx. assert (Hm : In x (A ++ M ++ B)) by (rewrite !in_app_iff; auto).
      destruct (HE x Hm) as [X|X]; [|apply (X d Hd Vd)]. exfalso. rewrite Forall_forall in HM.
      apply (meets_not_clear c x Vc (WF_valid _ _ WM Hx) (HM x Hx)). apply (X c Hc Vc). }
    assert (Ve : valid (fst e)) by (apply (WF_valid _ _ (perform_WF c M WM) He)).
    apply (clear_rk d (fst e) Vd Ve). rewrite Forall_forall in HM.
    destruct (independent_sides c d Vc Vd (HI c d Hc Hd Vc Vd)) as [S|S].
    - left. assert (X : Forall (left_of (from_rank d)) (fst (perform c M))).
      { apply stay_left; try assumption; [|apply S]. rewrite Forall_forall. intros x Hx.
        apply (near_left c d); auto. apply (WF_valid _ _ WM Hx). }
      rewrite Forall_forall in X. exact (X e He).
    - right. assert (X : Forall (right_of (to_rank d)) (fst (perform c M))).
      { apply stay_right; try assumption; [|apply S]. rewrite Forall_forall. intros x Hx.
        apply (near_right d c); auto. apply (WF_valid _ _ WM Hx). }
      rewrite Forall_forall in X. exact (X e He).
  Qed.
  Lemma parted_commute S1 S2 m c d : parted S1 S2 m -> In c S1 -> In d S2 -> commute c d m.
  Proof.
    intros (W & HE & HI) Hc Hd. apply pair_commute; [exact W|apply HI; assumption|].
    intros e He. destruct (HE e He) as [X|X]; [left; apply X, Hc|right; apply X, Hd].
  Qed.

  Lemma perform_all_cons c (cs : list (call I K V)) m :
    perform_all (c :: cs) m = (fst (perform_all cs (fst (perform c m))), snd (perform c m) :: snd (perform_all cs (fst (perform c m)))).
  Proof. cbn. destruct (perform c m) as [m1 r]. cbn. destruct (perform_all cs m1). reflexivity. Qed.
  Lemma perform_all_app (cs cs' : list (call I K V)) m :
    fst (perform_all (cs ++ cs') m) = fst (perform_all cs' (fst (perform_all cs m))).
  Proof. revert m. induction cs as [|c cs IH]; intros m; [reflexivity|]. cbn [app]. rewrite !perform_all_cons. cbn [fst]. apply IH. Qed.

  Lemma past S1 S2 c cs m : parted S1 S2 m -> In c S1 -> (forall d, In d cs -> In d S2) ->
    fst (perform_all cs (fst (perform c m))) = fst (perform c (fst (perform_all cs m))) /\
    snd (perform_all cs (fst (perform c m))) = snd (perform_all cs m) /\
    snd (perform c (fst (perform_all cs m))) = snd (perform c m).
  Proof.
    revert m. induction cs as [|d cs IH]; intros m P Hc Hcs; [cbn; auto|].
    rewrite !perform_all_cons. cbn [fst snd].
    destruct (parted_commute S1 S2 m c d P Hc) as (X & Y & Z); [apply Hcs; left; reflexivity|].
    assert (P' : parted S1 S2 (fst (perform d m))).
    { apply parted_sym. apply parted_step; [apply parted_sym, P|]. apply Hcs. left. reflexivity. }
    destruct (IH (fst (perform d m)) P' Hc) as (X' & Y' & Z'); [intros d' Hd'; apply Hcs; right; exact Hd'|].
    rewrite X, Y, Y'. split; [exact X'|]. split; [reflexivity|]. rewrite Z', Z. reflexivity.
  Qed.

  Lemma owned_cons {T} b b' (x : T) l : owned b ((b', x) :: l) = if Bool.eqb b' b then x :: owned b l else owned b l.
  Proof. unfold owned. cbn. destruct (Bool.eqb b' b); reflexivity. Qed.

  Lemma interleaved S1 S2 (cs : list (bool * call I K V)) m : parted S1 S2 m ->
    (forall c, In c (owned true cs) -> In c S1) -> (forall d, In d (owned false cs) -> In d S2) ->
    fst (perform_all (map snd cs) m) = fst (perform_all (owned true cs ++ owned false cs) m) /\
    (forall b, owned b (combine (map fst cs) (snd (perform_all (map snd cs) m))) = snd (perform_all (owned b cs) m)).
  Proof.
    revert m. induction cs as [|[b c] cs IH]; intros m P H1 H2; [split; [reflexivity|intros b; reflexivity]|].
    cbn [map fst snd]. rewrite perform_all_cons. cbn [fst snd combine]. rewrite !owned_cons in *. destruct b; cbn [Bool.eqb] in *.
    - assert (Hc : In c S1) by (apply H1; left; reflexivity).
      destruct (IH (fst (perform c m)) (parted_step _ _ _ _ P Hc)) as [E R]; [intros x Hx; apply H1; right; exact Hx|exact H2|].
      split; [rewrite E; cbn [app]; rewrite perform_all_cons; reflexivity|].
      intros b. rewrite !owned_cons. destruct b; cbn [Bool.eqb].
      + rewrite perform_all_cons. cbn [snd]. rewrite R. reflexivity.
      + rewrite R. apply (past S1 S2); assumption.
    - assert (Hc : In c S2) by (apply H2; left; reflexivity). pose proof (parted_sym _ _ _ P) as Ps.
      destruct (IH (fst (perform c m)) (parted_sym _ _ _ (parted_step _ _ _ _ Ps Hc))) as [E R]; [exact H1|intros x Hx; apply H2; right; exact Hx|].
      destruct (past S2 S1 c (owned true cs) m Ps Hc H1) as (X & Y & Z).
      split.
      + rewrite E, !perform_all_app, X. rewrite perform_all_cons. reflexivity.
      + intros b. rewrite !owned_cons. destruct b; cbn [Bool.eqb].
        * rewrite R. exact Y.
        * rewrite perform_all_cons. cbn [snd]. rewrite R. reflexivity.
  Qed.
  (** Enough for [clear]: a point strictly between. *)
  Lemma clear_by_gap {E} {IE : InclusiveInterval I E} c (e : E) p :
    (plt (iend e) p /\ plt p (istart (subject c))) \/ (plt (iend (subject c)) p /\ plt p (istart e)) -> clear c e.
  Proof.
    intros G. split.
    - intros (x & [X1 X2] & [Y1 Y2]). rewrite !plt_rk in G. rewrite ple_rk in *. lia.
    - intros _ (_ & T). destruct (T p) as [T1 T2]. destruct G as [[G1 G2]|[G1 G2]]; [apply T1|apply T2]; split; intros x [X1 X2];
        rewrite plt_rk in *; rewrite ple_rk in *; lia.
  Qed.
End Commute.
