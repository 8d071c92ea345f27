(** * ZShiftFacts: moving a whole ZosditMap with [translate] (the proofs of C180). *)
From Coq Require Import List ZArith Bool Lia Sorting.
From Verif Require Import Base BTree UtilsModel IntervalModel NoditModel ZosditModel ZosditOps CompleteZosditOps InstancesModel Instances Spec FirstFitOps ShiftOps ZShiftOps
  PointFacts IntervalFacts ListFacts NoditFacts IntervalProofs FirstFitFacts ZosditFacts ZosditProofs PropsCompleteZosdit ShiftFacts.
Import ListNotations.
Open Scope Z_scope.

Section Facts.
  Context {lo hi : Z} `{T : IntType lo hi}.
  Notation int := (int lo hi).
  Context {K : Type} {IK : InclusiveInterval int K} {IL : IntervalLaws int K} {FI : FromInvalid int K}.
  Context {V : Type}.
  Implicit Types (z : ZosditMap K V) (l : list (K * V)) (d p : int).

  Lemma rk_int (x y : int) : rk x <= rk y <-> ival x <= ival y.
  Proof. rewrite <- ple_rk. apply ple_int. Qed.
  Lemma moved_ZS n l l' : ZS l -> Forall2 (moved n) l l' -> ZS l'.
  Proof.
    intros W F. induction F as [|e e' l l' (X1 & X2 & _) F IH]; [apply ZS_nil|]. apply ZS_cons in W. destruct W as (Ve & W & Ha). apply ZS_cons. unfold elo, ehi, IntervalFacts.lo, IntervalFacts.hi in *.
    apply rk_int in Ve. split; [apply rk_int; lia|]. split; [apply IH, W|]. apply Forall_forall. intros y Hy. destruct (Forall2_in_r _ _ _ _ F Hy) as (x & Hx & (Y1 & Y2 & _)).
    rewrite Forall_forall in Ha. specialize (Ha x Hx). cbv beta in *. apply rk_int in Ha. apply rk_int. lia.
  Qed.
  Lemma iter_ZS z : ZWF z -> ZS (zosdit_iter z).
  Proof. intros (W & Hok & _). apply flatten_ZS; assumption. Qed.
  Lemma moved_same n l l' l'' : Forall2 (moved n) l l' -> Forall valid (map fst l') -> Forall2 same_entry l' l'' -> Forall valid (map fst l'') -> Forall2 (moved n) l l''.
  Proof.
    intros F. revert l''. induction F as [|e e' l l' (X1 & X2 & X3) F IH]; intros l'' Va G Va'; inversion G as [|? e'' ? n'' [S E] G']; subst; [constructor|]. cbn in Va, Va'. inversion_clear Va as [|? ? V1 V2]. inversion_clear Va' as [|? ? V1' V2'].
    constructor; [|apply IH; assumption]. apply valid_int in V1, V1'.
    assert (C : forall y : int, ival (istart (fst e')) <= ival y <= ival (iend (fst e')) <-> ival (istart (fst e'')) <= ival y <= ival (iend (fst e''))) by (intros y; rewrite <- !covers_int; apply S).
    pose proof (proj1 (C _) (conj (Z.le_refl _) V1)) as C1. pose proof (proj1 (C _) (conj V1 (Z.le_refl _))) as C2. pose proof (proj2 (C _) (conj (Z.le_refl _) V1')) as C3. pose proof (proj2 (C _) (conj V1' (Z.le_refl _))) as C4.
    unfold moved. repeat split; [lia|lia|congruence].
  Qed.
  Lemma zshift_fits b d z : zreachable z -> (forall e, In e (zosdit_iter z) -> fits (ival d) e) ->
    exists z', zshift b d z = Val (Ok z') /\ zreachable z' /\ Forall2 (moved (ival d)) (zosdit_iter z) (zosdit_iter z') /\ zosdit_len z' = length (zosdit_iter z).
  Proof.
    intros R H. apply zreachable_ZWF in R. pose proof (iter_valid z R) as Va. rewrite Forall_forall in Va.
    destruct (translate_all_fits b d (zosdit_iter z)) as (l & E & F); [intros e He; split; [apply Va, in_map, He|apply H, He]|].
    pose proof (moved_ZS _ _ _ (iter_ZS z R) F) as S. destruct (rebuild l [] z_new new_ZWF new_ZD S (Forall2_nil _)) as (z' & E' & F' & N). cbn [app] in F'.
    assert (R' : zreachable z') by (exists [ZFromIter l]; cbn; unfold from_iter_strict_back; rewrite E'; reflexivity).
    exists z'. split; [unfold zshift, zosdit_into_iter; unfold zosdit_iter in E; rewrite E; exact E'|]. split; [exact R'|]. split.
    - apply (moved_same _ _ l); [exact F| |exact F'|apply iter_valid, zreachable_ZWF, R']. apply Forall_forall. intros k Hk. apply in_map_iff in Hk. destruct Hk as (e' & <- & He'). destruct (Forall2_in_r _ _ _ _ F He') as (e & He & M). exact (moved_valid _ _ _ M (Va _ (in_map fst _ _ He))).
    - unfold zosdit_len. rewrite N. cbn. clear - F. induction F; cbn; congruence.
  Qed.
  Lemma moved_covers n (e e' : K * V) p p' : moved n e e' -> ival p' = ival p + n -> (covers (fst e') p' <-> covers (fst e) p).
  Proof. intros (X1 & X2 & _) E. rewrite !covers_int. lia. Qed.
  Lemma moved_last n l l' p p' v : Forall2 (moved n) l l' -> ival p' = ival p + n -> (last_value l' p' v <-> last_value l p v).
  Proof.
    intros F E. split.
    - intros (l1 & k & l2 & -> & C & N). apply Forall2_app_inv_r in F. destruct F as (m1 & m2 & F1 & F2 & ->). inversion F2 as [|e ? m2' ? M F2']; subst. destruct e as [k0 v0]. pose proof M as (_ & _ & X3). cbn in X3. subst v0.
      exists m1, k0, m2'. split; [reflexivity|]. split; [apply (moved_covers n (k0, v) (k, v) p p' M E), C|]. intros e He Ce. destruct (Forall2_in_l _ _ _ _ F2' He) as (e' & He' & M'). apply (N e' He'), (moved_covers n e e' p p' M' E), Ce.
    - intros (l1 & k & l2 & -> & C & N). apply Forall2_app_inv_l in F. destruct F as (m1 & m2 & F1 & F2 & ->). inversion F2 as [|? e' ? m2' M F2']; subst. destruct e' as [k0 v0]. pose proof M as (_ & _ & X3). cbn in X3. subst v0.
      exists m1, k0, m2'. split; [reflexivity|]. split; [apply (moved_covers n (k, v) (k0, v) p p' M E), C|]. intros e' He' Ce. destruct (Forall2_in_r _ _ _ _ F2' He') as (e & He & M'). apply (N e He), (moved_covers n e e' p p' M' E), Ce.
  Qed.
  (** Of the points of an entry only the last one matters. *)
  Lemma reached_int l p : (forall e, In e l -> valid (fst e)) ->
    (point_reached l p <-> (exists e, In e l /\ ival (istart (fst e)) <= ival p < ival (iend (fst e))) \/ (forall e, In e l -> ival (iend (fst e)) <= ival p)).
  Proof.
    intros Va. unfold point_reached. split; (intros [H|H]; [left|right]).
    - destruct H as (e & x & He & C & C' & L). exists e. split; [exact He|]. rewrite covers_int in C, C'. rewrite plt_int in L. lia.
    - intros e He. specialize (H e (iend (fst e)) He). pose proof (Va e He) as X. apply valid_int in X. rewrite covers_int, ple_int in H. apply H. lia.
    - destruct H as (e & He & L). exists e, (iend (fst e)). rewrite !covers_int, plt_int. pose proof (Va e He) as X. apply valid_int in X. repeat split; try exact He; lia.
    - intros e x He C. rewrite covers_int in C. apply ple_int. specialize (H e He). lia.
  Qed.
  Lemma moved_reached n l l' p p' : (forall e, In e l -> valid (fst e)) -> Forall2 (moved n) l l' -> ival p' = ival p + n -> (point_reached l' p' <-> point_reached l p).
  Proof.
    intros Va F E. rewrite !reached_int; [|exact Va|intros e' He'; destruct (Forall2_in_r _ _ _ _ F He') as (e & He & M); exact (moved_valid _ _ _ M (Va e He))].
    split; (intros [(x & Hx & L)|H]; [left|right]).
    - destruct (Forall2_in_r _ _ _ _ F Hx) as (e & He & (X1 & X2 & _)). exists e. split; [exact He|lia].
    - intros e He. destruct (Forall2_in_l _ _ _ _ F He) as (e' & He' & (X1 & X2 & _)). specialize (H e' He'). lia.
    - destruct (Forall2_in_l _ _ _ _ F Hx) as (e & He & (X1 & X2 & _)). exists e. split; [exact He|lia].
    - intros e' He'. destruct (Forall2_in_r _ _ _ _ F He') as (e & He & (X1 & X2 & _)). specialize (H e He). lia.
  Qed.
  Lemma moved_get n z z' p p' : zreachable z -> zreachable z' -> Forall2 (moved n) (zosdit_iter z) (zosdit_iter z') -> ival p' = ival p + n -> get_last_value_at_point z' p' = get_last_value_at_point z p.
  Proof.
    intros R R' F E. apply zreachable_ZWF in R, R'. pose proof (iter_valid z R) as Va. rewrite Forall_forall in Va. symmetry. apply (get_last_iff z' p' R').
    destruct (proj2 (get_last_iff z p R _) eq_refl) as [A B]. pose proof (moved_reached n _ _ p p' (fun e He => Va _ (in_map fst _ _ He)) F E) as X. split.
    - intros P v. rewrite (moved_last n _ _ p p' v F E). apply A, X, P.
    - intros P. apply B. intros Q. apply P, X, Q.
  Qed.
  Lemma zshift_panics d z : zreachable z -> (exists e, In e (zosdit_iter z) /\ ~ fits (ival d) e) -> zshift Debug d z = Panic.
  Proof.
    intros R (e & He & Hn). apply zreachable_ZWF in R. pose proof (iter_valid z R) as Va. rewrite Forall_forall in Va. unfold zshift, zosdit_into_iter. fold (zosdit_iter z).
    assert (X : translate_all Debug d (zosdit_iter z) = Panic); [|rewrite X; reflexivity]. assert (Vm : forall e, In e (zosdit_iter z) -> valid (fst e)) by (intros x Hx; apply Va, in_map, Hx). clear R Va.
    induction (zosdit_iter z) as [|[k v] m IH]; [destruct He|]. cbn [translate_all sum]. destruct He as [He|He].
    - subst e. rewrite (translate_overflows k d); [reflexivity|exact (Vm (k, v) (or_introl eq_refl))|exact Hn].
    - destruct (translate add_debug k d); [|reflexivity]. cbn [obind]. rewrite IH; [reflexivity|exact He|]. intros x Hx. apply Vm. right. exact Hx.
  Qed.
  (** *** queries *)
  Lemma moved_sub n (P P' : K * V -> Prop) l l' r : (forall e e', moved n e e' -> In e l -> (P e <-> P' e')) -> Forall2 (moved n) l l' -> sub P l r -> exists r', sub P' l' r' /\ Forall2 (moved n) r r'.
  Proof.
    intros H F. revert r. induction F as [|e e' l l' M F IH]; intros r S; inversion S; subst; [exists []; split; constructor| |].
    - match goal with X : sub P l _ |- _ => destruct (IH (fun x x' Mx Hx => H x x' Mx (or_intror Hx)) _ X) as (r' & S' & G) end. exists (e' :: r'). split; [constructor; [apply (H e e' M); [left; reflexivity|assumption]|exact S']|constructor; assumption].
    - match goal with X : sub P l _ |- _ => destruct (IH (fun x x' Mx Hx => H x x' Mx (or_intror Hx)) _ X) as (r' & S' & G) end. exists r'. split; [|exact G]. apply sub_drop; [|exact S']. intros X. apply (H e e' M) in X; [contradiction|left; reflexivity].
  Qed.
  Lemma sub_unique {A} (P : A -> Prop) (l r r' : list A) : sub P l r -> sub P l r' -> r = r'.
  Proof. intros S. revert r'. induction S; intros r' S'; inversion S'; subst; [reflexivity| |contradiction|contradiction|auto]. f_equal. auto. Qed.
  Context {Q : Type} {IQ : InclusiveInterval int Q}.
  Lemma overlap_ends (k : K) (q : Q) : valid k -> valid q -> (overlap k q <-> ival (istart k) <= ival (iend q) /\ ival (istart q) <= ival (iend k)).
  Proof.
    intros Vk Vq. rewrite valid_int in Vk. rewrite valid_int in Vq. unfold overlap. split.
    - intros (p & C & C'). rewrite covers_int in C. rewrite covers_int in C'. lia.
    - intros [L L']. destruct (Z_le_gt_dec (ival (istart k)) (ival (istart q))); [exists (istart q)|exists (istart k)]; split; rewrite covers_int; lia.
  Qed.
  Lemma zero_overlap_ends (k : K) (q : Q) : valid k -> valid q -> (zero_overlap k q <-> ival (iend k) <= ival (istart q) \/ ival (iend q) <= ival (istart k)).
  Proof.
    intros Vk Vq. rewrite (zero_overlap_rk k q); [|apply valid_rk, Vk|apply valid_rk, Vq]. unfold IntervalFacts.lo, IntervalFacts.hi. rewrite !rk_int. reflexivity.
  Qed.
  Lemma moved_queries n z z' (q q' : Q) : zreachable z -> zreachable z' -> Forall2 (moved n) (zosdit_iter z) (zosdit_iter z') -> valid q -> ival (istart q') = ival (istart q) + n -> ival (iend q') = ival (iend q) + n ->
    (exists l l', zosdit_overlapping z q = Val l /\ zosdit_overlapping z' q' = Val l' /\ Forall2 (moved n) l l') /\ is_zero_overlap z' q' = is_zero_overlap z q.
  Proof.
    intros R R' F Vq E1 E2. assert (Vq' : valid q') by (rewrite valid_int in *; lia). destruct (C129_queries z q (istart q) R) as (A1 & A2 & _). destruct (C129_queries z' q' (istart q') R') as (B1 & B2 & _).
    pose proof (iter_valid z (zreachable_ZWF z R)) as Va. rewrite Forall_forall in Va. split.
    - pose proof (proj2 (A1 _) eq_refl) as [X _]. destruct (X Vq) as (l & El & S). pose proof (proj2 (B1 _) eq_refl) as [Y _]. destruct (Y Vq') as (l' & El' & S').
      exists l, l'. split; [exact El|]. split; [exact El'|]. assert (H : forall e e', moved n e e' -> In e (zosdit_iter z) -> (overlap (fst e) q <-> overlap (fst e') q'));
        [|destruct (moved_sub n _ (fun e => overlap (fst e) q') _ _ _ H F S) as (r' & S'' & G); rewrite (sub_unique _ _ _ _ S' S''); exact G].
      intros e e' M He. pose proof (Va _ (in_map fst _ _ He)) as Ve. pose proof (moved_valid _ _ _ M Ve) as Ve'. destruct M as (M1 & M2 & _). rewrite !overlap_ends by assumption. lia.
    - pose proof (proj2 (A2 _) eq_refl) as [X _]. destruct (X Vq) as (x & Ex & Hx). pose proof (proj2 (B2 _) eq_refl) as [Y _]. destruct (Y Vq') as (y & Ey & Hy). rewrite Ex, Ey. f_equal.
      assert (H : y = true <-> x = true); [|destruct x, y; intuition congruence]. rewrite Hx, Hy.
      assert (H : forall e e', moved n e e' -> In e (zosdit_iter z) -> (zero_overlap (fst e') q' <-> zero_overlap (fst e) q)).
      { intros e e' M He. pose proof (Va _ (in_map fst _ _ He)) as Ve. pose proof (moved_valid _ _ _ M Ve) as Ve'. destruct M as (M1 & M2 & _). rewrite !zero_overlap_ends by assumption. lia. }
      split.
      + intros G e He. destruct (Forall2_in_l _ _ _ _ F He) as (e' & He' & M). apply (H e e' M He), G, He'.
      + intros G e' He'. destruct (Forall2_in_r _ _ _ _ F He') as (e & He & M). apply (H e e' M He), G, He.
  Qed.
End Facts.
