(** * PropsCompleteZosdit: the documented effects, as far as they hold, determine the
      methods of ZosditMap (C129). *)
From Coq Require Import List ZArith Bool Lia.
From Verif Require Import Base BTree UtilsModel IntervalModel NoditModel ZosditModel ZosditOps ZosditAbs Spec CompleteOps CompleteZosditOps
  InstancesModel Instances PointFacts IntervalFacts ListFacts ZosditFacts ZosditMut ZosditProofs ZosditOnce ZosditSim CompleteProofs PropsZosdit.
Import ListNotations.
Open Scope nat_scope.

Section Props.
  Context {I : Type} `{PL : PointLaws I}.
  Context {K : Type} {IK : InclusiveInterval I K} {IL : IntervalLaws I K}.
  Context {Q : Type} {IQ : InclusiveInterval I Q}.
  Context {V : Type}.
  Implicit Types (z : ZosditMap K V) (k : K) (q : Q) (v : V) (p : I) (L : list (K * V)).

  Lemma alike_eq L M : determined_by_points I K -> Forall valid (map fst L) -> Forall2 same_entry L M -> L = M.
  Proof.
    intros D Va F. induction F as [|a b L M [S E] F IH]; [reflexivity|]. cbn in Va. inversion_clear Va as [|? ? Va' Vl].
    f_equal; [|apply IH, Vl]. destruct a as [a v], b as [b w]. cbn in *. f_equal; [apply D; assumption|exact E].
  Qed.
  Lemma iter_valid z : ZWF z -> Forall valid (map fst (zosdit_iter z)).
  Proof.
    intros Wf. apply Forall_forall. intros k Hk. apply in_map_iff in Hk. destruct Hk as (e & <- & He).
    apply valid_rk. exact (iter_okv z e Wf He).
  Qed.
  Lemma get_last_iff z p : ZWF z -> forall o, doc_get_last_value_at_point p (zosdit_iter z) o <-> o = get_last_value_at_point z p.
  Proof.
    intros Wf o. pose proof (point_reached_spec z p Wf) as X. destruct (findable_dec z p) as [F|F].
    - destruct (get_last_char z p Wf F) as [G _]. split.
      + intros [A _]. specialize (A (proj2 X F)). destruct (get_last_value_at_point z p) as [w|].
        * apply A, G. reflexivity.
        * destruct o as [w|]; [|reflexivity]. symmetry. apply G, A. reflexivity.
      + intros ->. split; [intros _; exact G|]. intros N. destruct (N (proj2 X F)).
    - rewrite (get_last_not_found z p Wf F). split.
      + intros [_ A]. apply A. intros R. apply F, X, R.
      + intros ->. split; [|reflexivity]. intros R. destruct (F (proj1 X R)).
  Qed.

  (** ** C129 *)
  (** The queries. *)
  Theorem C129_queries : forall z q p, zreachable z ->
    (forall o, doc_zosdit_overlapping q (zosdit_iter z) o <-> o = zosdit_overlapping z q) /\
    (forall o, doc_is_zero_overlap q (zosdit_iter z) o <-> o = is_zero_overlap z q) /\
    (forall o, doc_get_last_value_at_point p (zosdit_iter z) o <-> o = get_last_value_at_point z p).
  Proof.
    intros z q p R. pose proof (zreachable_ZWF z R) as Wf. destruct (C42_queries_panic_iff_invalid z q R) as [P1 P2].
    split; [|split; [|apply get_last_iff, Wf]]; apply answers_iff.
    - split; [apply overlapping_lists, Wf|apply P2].
    - intros a a'. apply sub_unique.
    - split; [apply zero_overlap_decides, Wf|apply P1].
    - intros a a'. apply bools.
  Qed.
  Theorem C129_remove_last_value_at_point : forall z p, zreachable z ->
    forall o, doc_remove_last_value_at_point p (zosdit_iter z) o <-> o = seen (remove_last_value_at_point p z).
  Proof.
    intros z p R o. pose proof (zreachable_ZWF z R) as Wf.
    destruct (C39_remove_last_value_at_point z p R) as (z' & E & N & S). rewrite E. unfold seen. cbn [fst snd]. split.
    - intros (L' & a & -> & A & X). apply (get_last_iff z p Wf) in A. subst a. f_equal. destruct (get_last_value_at_point z p) as [v|].
      + destruct X as (l1 & k & l2 & E1 & C1 & N1 & ->), (S v eq_refl) as (m1 & k' & m2 & E2 & C2 & N2 & ->). rewrite E1 in E2.
        destruct (last_split (fun e => covers (fst e) p) l1 l2 m1 m2 (k, v) (k', v)) as (-> & _ & ->); auto.
      + rewrite X, (N eq_refl). reflexivity.
    - intros ->. exists (zosdit_iter z'), (get_last_value_at_point z p). split; [reflexivity|]. split; [apply get_last_iff; [exact Wf|reflexivity]|].
      destruct (get_last_value_at_point z p) as [v|]; [|rewrite (N eq_refl); reflexivity].
      destruct (S v eq_refl) as (l1 & k & l2 & X). exists l1, k, l2. exact X.
  Qed.
  Theorem C129_cut : determined_by_points I K -> forall z q, zreachable z ->
    forall o, doc_zosdit_cut q (zosdit_iter z) o <-> o = seen (zosdit_cut q z).
  Proof.
    intros D z q R o. pose proof (zreachable_ZWF z R) as Wf. destruct (valid_dec q) as [Vq|Nq].
    - destruct (cuttable_dec z q) as [C|C].
      + pose proof (proj2 (cut_reaches_spec q z Wf Vq) C) as C'.
        destruct (cut_done z q Wf Vq C) as (z' & out & E & Wf' & Ho & (ls & Hl & El) & _). rewrite E. unfold seen. cbn [fst snd]. split.
        * intros (A & _). destruct (A Vq C') as (ls' & out' & -> & Hl' & Ho'). f_equal; [|f_equal; eapply cut_out_unique; [exact D|exact Ho'|exact Ho]].
          symmetry. apply alike_eq; [exact D|apply iter_valid, Wf'|]. rewrite El. eapply leaves_all_det; [|exact Hl|exact Hl'].
          clear. induction (zosdit_iter z) as [|e l IH]; constructor; [split; [intros p; reflexivity|reflexivity]|exact IH].
        * intros ->. split; [|split; contradiction]. intros _ _. exists ls, out. rewrite El. auto.
      + pose proof (fun X => C (proj1 (cut_reaches_spec q z Wf Vq) X)) as C'. rewrite (cut_not_done z q Wf Vq C). unfold seen. cbn [fst snd]. split.
        * intros (_ & A & _). exact (A Vq C').
        * intros ->. split; [contradiction|]. split; [reflexivity|contradiction].
    - rewrite (cut_invalid q z Nq). unfold seen. cbn [fst snd]. split.
      + intros (_ & _ & A). exact (A Nq).
      + intros ->. split; [contradiction|]. split; [contradiction|reflexivity].
  Qed.
  (** Where an insertion puts a value is determined unless the interval is a single point
      that a cut has left stored twice (C65, C68). *)
  Theorem C129_insert_strict_back : determined_by_points I K -> forall z k v, zreachable z -> ~ singular k \/ stored_once z ->
    forall o, doc_insert_strict_back k v (zosdit_iter z) o <-> o = seen (insert_strict_back k v z).
  Proof.
    intros D z k v R S1 o. pose proof (zreachable_ZWF z R) as Wf. destruct (valid_dec k) as [Vk|Nk].
    - destruct (insert_back_spec z k v Wf Vk) as [Hr Hd]. destruct (zero_overlap_decides k z Wf Vk) as (b & _ & Hb). destruct b.
      + assert (Z : forall e, In e (zosdit_iter z) -> zero_overlap (fst e) k) by (apply Hb; reflexivity).
        destruct (Hd Z) as (z' & l1 & k' & l2 & E & _ & E1 & E2 & Sp & _ & U & _ & N). rewrite E. unfold seen. cbn [fst snd].
        assert (Pl : places k v (zosdit_iter z) (zosdit_iter z')).
        { exists l1, k', l2. repeat (split; [assumption|]). apply N. destruct S1 as [S1|S1]; [left; exact S1|right; apply (stored_once_ZD _ Wf), S1]. }
        assert (Wf' : ZWF z').
        { replace z' with (zstep z (ZInsertStrictBack k v)); [|cbn; rewrite E; reflexivity]. destruct R as (os & ->).
          replace (zstep (zrun os) (ZInsertStrictBack k v)) with (zrun (os ++ [ZInsertStrictBack k v])); [apply zrun_ZWF|]. unfold zrun. rewrite fold_left_app. reflexivity. }
        split.
        * intros [A _]. destruct (A Vk) as (L' & a & -> & [(X & _)|(_ & -> & Pl')]); [contradiction|]. f_equal.
          symmetry. apply alike_eq; [exact D|apply iter_valid, Wf'|]. eapply places_det; [|exact Pl|exact Pl'].
          clear. induction (zosdit_iter z) as [|e l IH]; constructor; [split; [intros p; reflexivity|reflexivity]|exact IH].
        * intros ->. split; [|contradiction]. intros _. exists (zosdit_iter z'), (Ok tt). split; [reflexivity|]. right. auto.
      + assert (Z : ~ forall e, In e (zosdit_iter z) -> zero_overlap (fst e) k) by (intros X; apply Hb in X; discriminate).
        rewrite (Hr Z). unfold seen. cbn [fst snd]. split.
        * intros [A _]. destruct (A Vk) as (L' & a & -> & [(_ & -> & ->)|(X & _)]); [reflexivity|contradiction].
        * intros ->. split; [|contradiction]. intros _. exists (zosdit_iter z), (Err v). split; [reflexivity|]. left. auto.
    - destruct (C42_insert_panics_iff_invalid z k v R) as [A B]. pose proof (proj2 A Nk) as E. pose proof (B E) as E'.
      unfold seen. rewrite E, E'. split.
      + intros [_ X]. exact (X Nk).
      + intros ->. split; [contradiction|reflexivity].
  Qed.
  Theorem C129_bulk_constructors : determined_by_points I K -> forall l : list (K * V),
    (forall o, doc_from_iter_strict_back l o <-> o = seen_built (from_iter_strict_back l)) /\
    (forall o, doc_from_iter_strict_back l o <-> o = seen_built (from_slice_strict_back l)).
  Proof.
    intros D l. assert (X : forall o, doc_from_iter_strict_back l o <-> o = seen_built (from_iter_strict_back l)); [|split; exact X].
    intros [[L|v]|]; cbn [doc_from_iter_strict_back].
    - split.
      + intros [Z P]. destruct (proj2 (from_iter_Ok l) Z) as (z & E). rewrite E. cbn [seen_built]. do 2 f_equal.
        assert (Pl := extend_places l z_new z). assert (R : zreachable z) by (exists [ZFromIter l]; cbn; rewrite E; reflexivity).
        symmetry. apply alike_eq; [exact D|apply iter_valid, zreachable_ZWF, R|]. eapply places_all_det; [|apply Pl|exact P]; try exact E.
        * constructor.
        * apply zreachable_ZWF. exists []. reflexivity.
        * constructor.
      + intros E. destruct (from_iter_strict_back l) as [[z|]|] eqn:E'; cbn in E; try discriminate. injection E as ->.
        split; [apply from_iter_Ok; eauto|]. apply (extend_places l z_new z); [apply zreachable_ZWF; exists []; reflexivity|constructor|exact E'].
    - rewrite <- (C40_error_is_first_clash l v). destruct (from_iter_strict_back l) as [[z|w]|]; cbn; split; congruence.
    - rewrite <- (C40_panic_is_first_invalid l). destruct (from_iter_strict_back l) as [[z|w]|]; cbn; split; congruence.
  Qed.
End Props.

(** The hypotheses are met, non-trivially: an insertion that puts the value in front of the
    ones stored under the same interval does not meet the documented effect. *)
Example C129_example : let z := zrun [ZInsertStrictBack (4 --> 8 : Interval u8) 1; ZInsertStrictBack (8 --> 8) 2] in
  stored_once z /\
  doc_insert_strict_back (8 --> 8) 3 (zosdit_iter z) ([(4 --> 8, 1); (8 --> 8, 2); (8 --> 8, 3)], Val (Ok tt)) /\
  ~ doc_insert_strict_back (8 --> 8) 3 (zosdit_iter z) ([(4 --> 8, 1); (8 --> 8, 3); (8 --> 8, 2)], Val (Ok tt)).
Proof.
  intros z. assert (O : stored_once z).
  { apply twinless_once. intros os1 o os2 E. destruct os1 as [|? [|? [|? ?]]]; cbn in E; try discriminate E.
    - injection E as <- _. exact (fun x => x).
    - injection E as _ <- _. exact (fun x => x). }
  split; [exact O|].
  assert (X := C129_insert_strict_back interval_determined z (8 --> 8) 3 (ex_intro _ _ eq_refl) (or_intror O)).
  split; [apply X; vm_compute; reflexivity|]. rewrite X. vm_compute. discriminate.
Qed.

Print Assumptions C129_queries.
Print Assumptions C129_remove_last_value_at_point.
Print Assumptions C129_cut.
Print Assumptions C129_insert_strict_back.
Print Assumptions C129_bulk_constructors.
