(** * IntervalFacts: intervals as pairs of ranks, and the pure functions of
      utils.rs / interval.rs. *)
From Coq Require Import List ZArith Bool Lia ZifyBool.
From Verif Require Import Base BTree UtilsModel IntervalModel Spec PointFacts.
Import ListNotations.
Open Scope Z_scope.

Section Ivl.
  Context {I : Type} `{PL : PointLaws I}.

  Section One.
    Context {K : Type} `{IK : InclusiveInterval I K}.
    (** Rank of the first and of the last point. *)
    Definition lo (k : K) : Z := rk (istart k).
    Definition hi (k : K) : Z := rk (iend k).

    Lemma covers_rk (k : K) p : covers k p <-> lo k <= rk p <= hi k.
    Proof. unfold covers, lo, hi. rewrite !ple_rk. lia. Qed.

    Lemma valid_rk (k : K) : valid k <-> lo k <= hi k.
    Proof.
      split.
      - intros [p Hp]. apply covers_rk in Hp. lia.
      - intros E. exists (istart k). apply covers_rk. unfold lo, hi in *. lia.
    Qed.

    Lemma is_valid_rk (k : K) : is_valid k = (lo k <=? hi k).
    Proof. unfold is_valid. apply leb_rk. Qed.

    Lemma is_valid_true (k : K) : is_valid k = true <-> valid k.
    Proof. rewrite is_valid_rk, valid_rk. lia. Qed.

    Lemma valid_dec (k : K) : {valid k} + {~ valid k}.
    Proof.
      destruct (is_valid k) eqn:E; [left|right]; rewrite <- is_valid_true; congruence.
    Qed.

    Lemma iip_valid (k : K) : valid k -> invalid_interval_panic k = Val tt.
    Proof. intros E%is_valid_true. unfold invalid_interval_panic. rewrite E. reflexivity. Qed.
    Lemma iip_invalid (k : K) : ~ valid k -> invalid_interval_panic k = Panic.
    Proof.
      intros E. unfold invalid_interval_panic. rewrite <- is_valid_true in E.
      destruct (is_valid k); [congruence|reflexivity].
    Qed.
    Lemma iip_iff (k : K) : invalid_interval_panic k = Panic <-> ~ valid k.
    Proof.
      split; [|apply iip_invalid]. intros E V. rewrite (iip_valid _ V) in E. discriminate.
    Qed.
    Lemma lo_rk (k : K) : lo k = rk (istart k).
    Proof. reflexivity. Qed.
    Lemma hi_rk (k : K) : hi k = rk (iend k).
    Proof. reflexivity. Qed.
    Lemma lo_range (k : K) : rk MIN <= lo k <= rk MAX.
    Proof. unfold lo. pose proof (rk_min (istart k)). pose proof (rk_max (istart k)). lia. Qed.
    Lemma hi_range (k : K) : rk MIN <= hi k <= rk MAX.
    Proof. unfold hi. pose proof (rk_min (iend k)). pose proof (rk_max (iend k)). lia. Qed.

    Lemma overlapping_comp_Lt p (k : K) : overlapping_comp p k = Lt <-> rk p < lo k.
    Proof.
      unfold overlapping_comp, cmp_point_with_interval, inclusive_comp, lo.
      rewrite ltb_rk, gtb_rk. destruct (rk p <? _) eqn:E1; [split; auto; lia|].
      destruct (_ <? rk p); (split; [discriminate|lia]).
    Qed.
    Lemma overlapping_comp_Gt p (k : K) : lo k <= hi k ->
      (overlapping_comp p k = Gt <-> hi k < rk p).
    Proof.
      unfold overlapping_comp, cmp_point_with_interval, inclusive_comp, lo, hi. intros V.
      rewrite ltb_rk, gtb_rk. destruct (rk p <? _) eqn:E1; [split; [discriminate|lia]|].
      destruct (_ <? rk p) eqn:E2; (split; [|]); try discriminate; try reflexivity; lia.
    Qed.
    Lemma overlapping_comp_Eq p (k : K) : overlapping_comp p k = Eq <-> lo k <= rk p <= hi k.
    Proof.
      unfold overlapping_comp, cmp_point_with_interval, inclusive_comp, lo, hi.
      rewrite ltb_rk, gtb_rk. destruct (rk p <? _) eqn:E1; [split; [discriminate|lia]|].
      destruct (_ <? rk p) eqn:E2; (split; [|]); try discriminate; try reflexivity; lia.
    Qed.

    Lemma utils_contains_point_rk (k : K) p :
      utils_contains_point k p = (lo k <=? rk p) && (rk p <=? hi k).
    Proof.
      unfold utils_contains_point.
      change (cmp_point_with_interval p k) with (overlapping_comp p k).
      destruct (overlapping_comp p k) eqn:E.
      - apply overlapping_comp_Eq in E. lia.
      - apply overlapping_comp_Lt in E. lia.
      - symmetry. apply not_true_iff_false. intros T.
        assert (overlapping_comp p k = Eq) by (apply overlapping_comp_Eq; lia). congruence.
    Qed.

    Lemma contains_point_rk (k : K) p : contains_point k p = (lo k <=? rk p) && (rk p <=? hi k).
    Proof. unfold contains_point, lo, hi. rewrite geb_rk, leb_rk. reflexivity. Qed.
    Lemma contains_point_true (k : K) p : contains_point k p = true <-> covers k p.
    Proof. rewrite contains_point_rk, covers_rk. lia. Qed.

    Lemma touching_start_comp_rk s (k : K) : touching_start_comp s k = Z.compare (rk s) (hi k + 1).
    Proof.
      unfold touching_start_comp, hi. destruct (up (iend k)) as [t|] eqn:E.
      - rewrite cmp_rk. apply up_rk in E. rewrite E. reflexivity.
      - apply up_none_rk in E. symmetry. apply Z.compare_lt_iff. pose proof (rk_max s). lia.
    Qed.
    Lemma touching_end_comp_rk e (k : K) : touching_end_comp e k = Z.compare (rk e + 1) (lo k).
    Proof.
      unfold touching_end_comp, lo. destruct (down (istart k)) as [t|] eqn:E.
      - rewrite cmp_rk. apply down_rk in E. rewrite E.
        destruct (Z.compare_spec (rk e) (rk (istart k) - 1));
          destruct (Z.compare_spec (rk e + 1) (rk (istart k))); try reflexivity; lia.
      - apply down_none_rk in E. symmetry. apply Z.compare_gt_iff. pose proof (rk_min e). lia.
    Qed.
    Lemma starts_comp_rk (inner nw : K) : starts_comp inner nw = Z.compare (lo nw) (lo inner).
    Proof. unfold starts_comp. apply cmp_rk. Qed.
  End One.

  Section From.
    Context {K : Type} {IK : InclusiveInterval I K} {IL : IntervalLaws I K}.
    Lemma from_lo (i : Interval I) : lo i <= hi i -> lo (ifrom i : K) = lo i.
    Proof.
      intros E. destruct (from_valid i) as [Es _].
      - rewrite leb_rk. unfold lo, hi in E. simpl in E. lia.
      - unfold lo. apply rk_eq in Es. exact Es.
    Qed.
    Lemma from_hi (i : Interval I) : lo i <= hi i -> hi (ifrom i : K) = hi i.
    Proof.
      intros E. destruct (from_valid i) as [_ Ee].
      - rewrite leb_rk. unfold lo, hi in E. simpl in E. lia.
      - unfold hi. apply rk_eq in Ee. exact Ee.
    Qed.
    Context {FI : FromInvalid I K}.
    Lemma from_is_valid (i : Interval I) : is_valid (ifrom i : K) = (lo i <=? hi i).
    Proof.
      destruct (lo i <=? hi i) eqn:E.
      - rewrite is_valid_rk, from_lo, from_hi; lia.
      - apply (from_invalid i). rewrite leb_rk. exact E.
    Qed.
  End From.

  Section Two.
    Context {A B : Type} `{IA : InclusiveInterval I A} `{IB : InclusiveInterval I B}.

    Lemma overlap_rk (a : A) (b : B) :
      overlap a b <-> Z.max (lo a) (lo b) <= Z.min (hi a) (hi b).
    Proof.
      split.
      - intros (p & Ha & Hb). apply covers_rk in Ha, Hb. lia.
      - intros E. destruct (Z.max_spec (lo a) (lo b)) as [[? M]|[? M]].
        + exists (istart b). rewrite !covers_rk, <- lo_rk. lia.
        + exists (istart a). rewrite !covers_rk, <- lo_rk. lia.
    Qed.

    Lemma before_rk (a : A) (b : B) : lo a <= hi a -> lo b <= hi b ->
      (before a b <-> hi a < lo b).
    Proof.
      intros Va Vb. split.
      - intros Hb. specialize (Hb (iend a) (istart b)). rewrite !covers_rk, plt_rk in Hb.
        rewrite <- !lo_rk, <- !hi_rk in Hb. lia.
      - intros E x y Hx Hy. rewrite !covers_rk in *. rewrite plt_rk. lia.
    Qed.

    Lemma between_rk (a : A) (b : B) p : lo a <= hi a -> lo b <= hi b ->
      (between a b p <-> hi a < rk p < lo b).
    Proof.
      intros Va Vb. split.
      - intros [H1 H2]. specialize (H1 (iend a)). specialize (H2 (istart b)).
        rewrite covers_rk, plt_rk in H1. rewrite covers_rk, plt_rk in H2. rewrite <- ?lo_rk, <- ?hi_rk in *. lia.
      - intros E. split; intros x; rewrite covers_rk, plt_rk; lia.
    Qed.

    Lemma same_points_rk (a : A) (b : B) : lo a <= hi a -> lo b <= hi b ->
      (same_points a b <-> lo a = lo b /\ hi a = hi b).
    Proof.
      intros Va Vb. split.
      - intros E.
        pose proof (E (istart a)) as E1. pose proof (E (istart b)) as E2.
        pose proof (E (iend a)) as E3. pose proof (E (iend b)) as E4.
        rewrite !covers_rk, <- ?lo_rk, <- ?hi_rk in *. lia.
      - intros [E1 E2] p. rewrite !covers_rk. lia.
    Qed.

    Lemma overlaps_true (a : A) (b : B) : lo a <= hi a -> lo b <= hi b ->
      overlaps a b = Val ((lo a <=? hi b) && (lo b <=? hi a)).
    Proof.
      intros Va Vb. unfold overlaps, sorted_config, config.
      rewrite !utils_contains_point_rk, ltb_rk, <- !lo_rk, <- !hi_rk.
      destruct (lo a <? lo b) eqn:E.
      - destruct ((lo a <=? lo b) && (lo b <=? hi a)) eqn:E1;
          destruct ((lo a <=? hi b) && (hi b <=? hi a)) eqn:E2; cbn; f_equal; try lia; exfalso; lia.
      - destruct ((lo b <=? lo a) && (lo a <=? hi b)) eqn:E1;
          destruct ((lo b <=? hi a) && (hi a <=? hi b)) eqn:E2; cbn; f_equal; try lia; exfalso; lia.
    Qed.

    Lemma touch_rk (a : A) (b : B) : lo a <= hi a -> lo b <= hi b ->
      (touch a b <-> hi a + 1 = lo b \/ hi b + 1 = lo a).
    Proof.
      intros Va Vb. unfold touch. rewrite overlap_rk. split.
      - intros [Ho Hn].
        destruct (Z_lt_le_dec (hi a) (lo b)) as [L|L].
        + left. destruct (Z.eq_dec (hi a + 1) (lo b)); [assumption|exfalso].
          destruct (up_exists (iend a) (istart b)) as (z & _ & Ez); [unfold hi, lo in L; lia|].
          destruct (Hn z) as [Hz _]. apply Hz. apply between_rk; try lia. unfold hi, lo in *. lia.
        + right. destruct (Z.eq_dec (hi b + 1) (lo a)); [assumption|exfalso].
          assert (L2 : hi b < lo a) by lia.
          destruct (up_exists (iend b) (istart a)) as (z & _ & Ez); [unfold hi, lo in L2; lia|].
          destruct (Hn z) as [_ Hz]. apply Hz. unfold between.
          split; intros x Hx; apply covers_rk in Hx; apply plt_rk; unfold hi, lo in *; lia.
      - intros E. split; [lia|]. intros p.
        split; intros [H1 H2].
        + specialize (H1 (iend a)). specialize (H2 (istart b)).
          rewrite covers_rk, plt_rk, <- ?lo_rk, <- ?hi_rk in H1.
          rewrite covers_rk, plt_rk, <- ?lo_rk, <- ?hi_rk in H2. lia.
        + specialize (H1 (iend b)). specialize (H2 (istart a)).
          rewrite covers_rk, plt_rk, <- ?lo_rk, <- ?hi_rk in H1.
          rewrite covers_rk, plt_rk, <- ?lo_rk, <- ?hi_rk in H2. lia.
    Qed.

    (** The result of cutting [q] out of an overlapping [k]. *)
    Definition cut_ok (k : A) (q : B) (r : CutResult I) : Prop :=
      (match before_cut r with
       | None => lo q <= lo k
       | Some b => lo k < lo q /\ lo b = lo k /\ hi b = lo q - 1
       end) /\
      (exists i, inside_cut r = Some i /\ lo i = Z.max (lo k) (lo q) /\ hi i = Z.min (hi k) (hi q)) /\
      (match after_cut r with
       | None => hi k <= hi q
       | Some a => hi q < hi k /\ lo a = hi q + 1 /\ hi a = hi k
       end).

    Lemma cut_interval_ok (k : A) (q : B) : lo k <= hi k -> lo q <= hi q ->
      lo k <= hi q -> lo q <= hi k ->
      exists r, cut_interval k q = Val r /\ cut_ok k q r.
    Proof.
      intros Vk Vq O1 O2. unfold cut_interval, cut_interval_raw, config.
      rewrite !utils_contains_point_rk, ltb_rk, <- !lo_rk, <- !hi_rk.
      assert (Fv : forall x : Interval I, lo x <= hi x -> filter_valid (Some x) = Some x).
      { intros x Hx. unfold filter_valid. rewrite is_valid_rk. destruct (Z.leb_spec (lo x) (hi x)); [reflexivity|lia]. }
      assert (Fi : forall x : Interval I, hi x < lo x -> filter_valid (Some x) = None).
      { intros x Hx. unfold filter_valid. rewrite is_valid_rk. destruct (Z.leb_spec (lo x) (hi x)); [lia|reflexivity]. }
      destruct (Z.ltb_spec (lo k) (lo q)) as [E|E].
      - destruct (down_exists (istart q) (istart k)) as (d & Hd & Ed); [exact E|].
        rewrite <- lo_rk in Ed.
        assert (C1 : (lo k <=? lo q) && (lo q <=? hi k) = true) by lia. rewrite C1.
        destruct ((lo k <=? hi q) && (hi q <=? hi k)) eqn:C2; cbn [obind]; rewrite Hd; cbn [obind unwrap].
        + destruct (up (iend q)) as [u|] eqn:Hu.
          * apply up_rk in Hu. rewrite <- hi_rk in Hu.
            eexists; split; [reflexivity|]. cbn [before_cut inside_cut after_cut].
            split; [|split]; cbn [before_cut inside_cut after_cut].
            -- rewrite Fv; unfold lo, hi in *; cbn; lia.
            -- eexists. rewrite Fv; [split; [reflexivity|]|]; unfold lo, hi in *; cbn; lia.
            -- destruct (Z_lt_le_dec (hi q) (hi k)) as [L|L].
               ++ rewrite Fv; unfold lo, hi in *; cbn; lia.
               ++ rewrite Fi; unfold lo, hi in *; cbn; lia.
          * apply up_none_rk in Hu. rewrite <- hi_rk in Hu. pose proof (hi_range k) as Rk.
            eexists; split; [reflexivity|]. split; [|split]; cbn [before_cut inside_cut after_cut].
            -- rewrite Fv; unfold lo, hi in *; cbn; lia.
            -- eexists. rewrite Fv; [split; [reflexivity|]|]; unfold lo, hi in *; cbn; lia.
            -- cbn. lia.
        + eexists; split; [reflexivity|]. split; [|split]; cbn [before_cut inside_cut after_cut].
          * rewrite Fv; unfold lo, hi in *; cbn; lia.
          * eexists. rewrite Fv; [split; [reflexivity|]|]; unfold lo, hi in *; cbn; lia.
          * cbn. lia.
      - assert (C1 : (lo q <=? lo k) && (lo k <=? hi q) = true) by lia. rewrite C1.
        destruct ((lo q <=? hi k) && (hi k <=? hi q)) eqn:C2; cbn [obind].
        + eexists; split; [reflexivity|]. split; [|split]; cbn [before_cut inside_cut after_cut].
          * cbn. lia.
          * eexists. rewrite Fv; [split; [reflexivity|]|]; unfold lo, hi in *; cbn; lia.
          * cbn. lia.
        + destruct (up_exists (iend q) (iend k)) as (u & Hu & Eu); [rewrite <- !hi_rk; lia|].
          rewrite Hu. cbn [obind unwrap]. rewrite <- hi_rk in Eu.
          eexists; split; [reflexivity|]. split; [|split]; cbn [before_cut inside_cut after_cut].
          * cbn. lia.
          * eexists. rewrite Fv; [split; [reflexivity|]|]; unfold lo, hi in *; cbn; lia.
          * rewrite Fv; unfold lo, hi in *; cbn; lia.
    Qed.
  End Two.
End Ivl.
