(** * IntervalProofs: constructors, predicates, conversions, integers. *)
From Coq Require Import List ZArith Bool Lia ZifyBool.
From Verif Require Import Base UtilsModel IntervalModel Spec InstancesModel Instances PointFacts IntervalFacts.
Import ListNotations.
Open Scope Z_scope.

Section Interval.
  Context {I : Type} `{PL : PointLaws I}.

  Lemma builds_checked (a b : I) (P : I -> Prop) : (forall p, P p <-> ple a p /\ ple p b) ->
    builds (IntervalModel.checked (mkInterval a b)) P.
  Proof.
    intros HP. unfold IntervalModel.checked. split.
    - intros (p & Hp). rewrite iip_valid by (exists p; apply HP, Hp). cbn. eexists. split; [reflexivity|].
      intros x. rewrite HP. reflexivity.
    - intros Hn. rewrite iip_invalid; [reflexivity|]. intros (p & Hp). apply Hn. exists p. apply HP, Hp.
  Qed.
  Lemma builds_none (P : I -> Prop) : (forall p, ~ P p) -> builds (Panic : outcome (Interval I)) P.
  Proof. intros HP. split; [intros (p & Hp); destruct (HP p Hp)|reflexivity]. Qed.

  Ltac ends := intros p; rewrite ?ple_rk, ?plt_rk; pose proof (rk_min p); pose proof (rk_max p); try lia.

  Lemma builds_down b (a : I) (P : I -> Prop) : (forall p, P p <-> ple a p /\ plt p b) ->
    builds (let? d := unwrap (down b) in IntervalModel.checked (mkInterval a d)) P.
  Proof.
    intros HP. destruct (down b) as [d|] eqn:E; cbn [unwrap obind].
    - apply down_rk in E. apply builds_checked. intros p. rewrite HP, !ple_rk, plt_rk. lia.
    - apply down_none_rk in E. apply builds_none. intros p. rewrite HP, plt_rk. pose proof (rk_min p). lia.
  Qed.
  Lemma builds_up a (b : I) (P : I -> Prop) : (forall p, P p <-> plt a p /\ ple p b) ->
    builds (let? u := unwrap (up a) in IntervalModel.checked (mkInterval u b)) P.
  Proof.
    intros HP. destruct (up a) as [u|] eqn:E; cbn [unwrap obind].
    - apply up_rk in E. apply builds_checked. intros p. rewrite HP, !ple_rk, plt_rk. lia.
    - apply up_none_rk in E. apply builds_none. intros p. rewrite HP, plt_rk. pose proof (rk_max p). lia.
  Qed.

  Lemma uu_builds : builds uu (fun _ : I => True).
  Proof. apply builds_checked. ends. Qed.
  Lemma ui_builds b : builds (ui b) (fun p : I => ple p b).
  Proof. apply builds_checked. ends. Qed.
  Lemma ue_builds b : builds (ue b) (fun p : I => plt p b).
  Proof. apply builds_down. ends. Qed.
  Lemma iu_builds a : builds (iu a) (fun p : I => ple a p).
  Proof. apply builds_checked. ends. Qed.
  Lemma eu_builds a : builds (eu a) (fun p : I => plt a p).
  Proof. apply builds_up. ends. Qed.
  Lemma ii_builds a b : builds (ii a b) (fun p : I => ple a p /\ ple p b).
  Proof. apply builds_checked. ends. Qed.
  Lemma ie_builds a b : builds (ie a b) (fun p : I => ple a p /\ plt p b).
  Proof. apply builds_down. ends. Qed.
  Lemma ei_builds a b : builds (ei a b) (fun p : I => plt a p /\ ple p b).
  Proof. apply builds_up. ends. Qed.
  Lemma ee_builds a b : builds (ee a b) (fun p : I => plt a p /\ plt p b).
  Proof.
    unfold ee. destruct (up a) as [u|] eqn:E; cbn [unwrap obind].
    - apply up_rk in E. apply builds_down. intros p. rewrite ple_rk, !plt_rk. lia.
    - apply up_none_rk in E. apply builds_none. intros p. rewrite plt_rk. pose proof (rk_max p). lia.
  Qed.

  Lemma builds_valid {K} {IK : InclusiveInterval I K} (o : outcome K) P k : builds o P ->
    (exists p, P p) -> o = Val k -> valid k.
  Proof.
    intros [B _] Hp E. destruct (B Hp) as (k' & E' & S). assert (k' = k) by congruence. subst.
    destruct Hp as (p & Hp). exists p. apply S, Hp.
  Qed.
  Lemma checked_valid (i j : Interval I) : IntervalModel.checked i = Val j -> j = i /\ valid i.
  Proof.
    unfold IntervalModel.checked, invalid_interval_panic. destruct (is_valid i) eqn:E; cbn; [|discriminate].
    intros X. injection X as <-. split; [reflexivity|]. apply is_valid_true, E.
  Qed.
  Lemma constructors_valid (i : Interval I) : forall o : outcome (Interval I),
    (o = uu \/ (exists b, o = ui b) \/ (exists b, o = ue b) \/ (exists a, o = iu a) \/ (exists a, o = eu a) \/
     (exists a b, o = ii a b) \/ (exists a b, o = ie a b) \/ (exists a b, o = ei a b) \/ (exists a b, o = ee a b)) ->
    o = Val i -> valid i.
  Proof.
    intros o Ho E.
    assert (X : exists j, IntervalModel.checked j = Val i); [|destruct X as (j & X); apply checked_valid in X; destruct X; subst; assumption].
    unfold uu, ui, ue, iu, eu, ii, ie, ei, ee in Ho. revert E.
    destruct Ho as [->|[(b & ->)|[(b & ->)|[(a & ->)|[(a & ->)|[(a & b & ->)|[(a & b & ->)|[(a & b & ->)|(a & b & ->)]]]]]]]];
      try destruct (up a) as [u|]; cbn [unwrap obind]; try destruct (down b) as [d|]; cbn [unwrap obind];
      intros E; try discriminate; eexists; exact E.
  Qed.

  Section Preds.
    Context {A B : Type} {IA : InclusiveInterval I A} {IB : InclusiveInterval I B}.
    Lemma contains_interval_spec (k : A) (q : B) : valid q ->
      (contains_interval k q = true <-> forall p, covers q p -> covers k p).
    Proof.
      intros Vq. apply valid_rk in Vq. unfold contains_interval. rewrite leb_rk, geb_rk.
      change (rk (istart k)) with (lo k). change (rk (istart q)) with (lo q).
      change (rk (iend k)) with (hi k). change (rk (iend q)) with (hi q). split.
      - intros E p. rewrite !covers_rk. lia.
      - intros Hc. assert (X : covers k (istart q)) by (apply Hc, covers_rk; unfold lo, hi in *; lia).
        assert (Y : covers k (iend q)) by (apply Hc, covers_rk; unfold lo, hi in *; lia).
        apply covers_rk in X, Y. unfold lo, hi in *. lia.
    Qed.
    Lemma is_singular_spec (k : A) : valid k -> (is_singular k = true <-> singular k).
    Proof.
      intros Vk. unfold is_singular, singular. rewrite eqb_rk. split.
      - intros E. split; [exact Vk|]. intros x y Hx Hy. apply covers_rk in Hx, Hy. unfold lo, hi in *.
        apply rk_eq. lia.
      - intros [_ Hs]. apply valid_rk in Vk. unfold lo, hi in *.
        assert (X : cmp (istart k) (iend k) = Eq) by (apply Hs; apply covers_rk; unfold lo, hi; lia).
        apply rk_eq in X. lia.
    Qed.
    Lemma overlaps_spec (a : A) (b : B) : valid a -> valid b ->
      exists r, overlaps a b = Val r /\ (r = true <-> overlap a b).
    Proof.
      intros Va Vb. apply valid_rk in Va, Vb. eexists. split; [apply overlaps_true; assumption|].
      rewrite overlap_rk. lia.
    Qed.
    Lemma overlap_dec2 (a : A) (b : B) : overlap a b \/ ~ overlap a b.
    Proof. rewrite overlap_rk. lia. Qed.
    Context {LA : IntervalLaws I A}.
    Lemma omax_rk (x y : I) : rk (omax x y) = Z.max (rk x) (rk y).
    Proof. unfold omax. rewrite cmp_rk. destruct (Z.compare_spec (rk x) (rk y)); lia. Qed.
    Lemma omin_rk (x y : I) : rk (omin x y) = Z.min (rk x) (rk y).
    Proof. unfold omin. rewrite cmp_rk. destruct (Z.compare_spec (rk x) (rk y)); lia. Qed.
    Lemma intersection_Some (a : A) (b : B) : overlap a b ->
      exists i, intersection a b = Some i /\ forall p, covers i p <-> covers a p /\ covers b p.
    Proof.
      intros Ho. apply overlap_rk in Ho. unfold intersection. rewrite leb_rk, omax_rk, omin_rk.
      replace (_ <=? _) with true by (unfold lo, hi in *; lia). eexists. split; [reflexivity|].
      intros p. rewrite !covers_rk, from_lo, from_hi; unfold lo, hi in *; cbn; rewrite ?omax_rk, ?omin_rk; lia.
    Qed.
    Lemma intersection_None (a : A) (b : B) : ~ overlap a b -> intersection a b = None.
    Proof.
      intros Ho. rewrite overlap_rk in Ho. unfold intersection. rewrite leb_rk, omax_rk, omin_rk.
      replace (_ <=? _) with false by (unfold lo, hi in *; lia). reflexivity.
    Qed.
  End Preds.

  (** ** Ranges *)
  Definition ri_covers (r : RangeInclusive I) (p : I) : Prop := ple (ri_start r) p /\ ple p (ri_end r).
  Definition r_covers (r : Range I) (p : I) : Prop := ple (r_start r) p /\ plt p (r_end r).
  Lemma from_ri_builds r : builds (interval_from_range_inclusive r) (ri_covers r).
  Proof. apply ii_builds. Qed.
  Lemma from_r_builds r : builds (interval_from_range r) (r_covers r).
  Proof. apply ie_builds. Qed.
  Lemma checked_Val (i : Interval I) : valid i -> IntervalModel.checked i = Val i.
  Proof. intros Vi. unfold IntervalModel.checked. rewrite iip_valid by exact Vi. reflexivity. Qed.
  Lemma ri_round_trip (i : Interval I) : valid i -> interval_from_range_inclusive (range_inclusive_from i) = Val i.
  Proof. intros Vi. destruct i. apply (checked_Val _ Vi). Qed.
  Lemma range_from_Panic (i : Interval I) : range_from i = Panic <-> cmp (ivl_end i) MAX = Eq.
  Proof.
    unfold range_from. rewrite rk_eq. destruct (up (ivl_end i)) as [u|] eqn:E; cbn.
    - split; [discriminate|]. intros X. apply up_rk in E. pose proof (rk_max u). lia.
    - split; [|reflexivity]. intros _. apply up_none_rk, E.
  Qed.
  Lemma range_round_trip (i : Interval I) : valid i -> cmp (ivl_end i) MAX <> Eq ->
    exists r j, range_from i = Val r /\ (forall p, r_covers r p <-> covers i p) /\
      interval_from_range r = Val j /\ istart j = istart i /\ cmp (iend j) (iend i) = Eq.
  Proof.
    intros Vi Hm. unfold range_from. destruct (up (ivl_end i)) as [u|] eqn:E; cbn.
    - apply up_rk in E. destruct (down u) as [d|] eqn:D.
      2: { apply down_none_rk in D. pose proof (rk_min (ivl_end i)). lia. }
      apply down_rk in D as D'. exists (mkRange (ivl_start i) u), (mkInterval (ivl_start i) d).
      split; [reflexivity|]. split; [|split; [|split; [reflexivity|apply rk_eq; cbn; lia]]].
      + intros p. unfold r_covers, covers. cbn. rewrite ple_rk, plt_rk, !ple_rk. lia.
      + unfold interval_from_range, ie. cbn. rewrite D. cbn. apply checked_Val. apply valid_rk in Vi. apply valid_rk.
        unfold lo, hi in *. cbn in *. lia.
    - exfalso. apply Hm, rk_eq, up_none_rk, E.
  Qed.

  (** ** The contract *)
  Lemma laws_contract {OL : OrdLaws I} : discrete_finite_contract (I := I).
  Proof.
    split; [intros; apply ple_rk, rk_min|]. split; [intros; apply ple_rk, rk_max|].
    split; [|split; [|split]].
    - intros x y. split.
      + intros E. apply up_rk in E. split; [apply plt_rk; lia|]. intros z Hz. apply plt_rk in Hz. apply ple_rk. lia.
      + intros [L M]. apply plt_rk in L. destruct (up x) as [u|] eqn:E.
        * f_equal. apply up_rk in E. apply rk_inj. specialize (M u). rewrite plt_rk, ple_rk in M. lia.
        * apply up_none_rk in E. pose proof (rk_max y). lia.
    - intros x. rewrite up_none_rk. split; [apply rk_inj|congruence].
    - intros x y. split.
      + intros E. apply down_rk in E. split; [apply plt_rk; lia|]. intros z Hz. apply plt_rk in Hz. apply ple_rk. lia.
      + intros [L M]. apply plt_rk in L. destruct (down x) as [u|] eqn:E.
        * f_equal. apply down_rk in E. apply rk_inj. specialize (M u). rewrite plt_rk, ple_rk in M. lia.
        * apply down_none_rk in E. pose proof (rk_min y). lia.
    - intros x. rewrite down_none_rk. split; [apply rk_inj|congruence].
  Qed.
End Interval.

(** ** translate and width on the integers *)
Section Ints.
  Context {lo hi : Z} `{IntType lo hi}.
  Notation int := (int lo hi).
  Context {K : Type} {IK : InclusiveInterval int K} {IL : IntervalLaws int K}.

  Lemma checked_some z (x : int) : InstancesModel.checked z = Val x <-> ival x = z.
  Proof.
    unfold InstancesModel.checked. rewrite <- of_Z_some. destruct (of_Z z : option int); split; congruence.
  Qed.
  Lemma checked_panic z : (InstancesModel.checked z : outcome int) = Panic <-> ~ (lo <= z <= hi).
  Proof.
    unfold InstancesModel.checked. rewrite <- (@of_Z_none lo hi). destruct (of_Z z : option int); split; congruence.
  Qed.
  Lemma leb_int (x y : int) : leb x y = (ival x <=? ival y).
  Proof. unfold leb. cbn. unfold Z.leb. destruct (ival x ?= ival y); reflexivity. Qed.
  Lemma ple_int (x y : int) : ple x y <-> ival x <= ival y.
  Proof. unfold ple. cbn. rewrite Z.compare_le_iff. reflexivity. Qed.
  Lemma valid_int {Q} {IQ : InclusiveInterval int Q} (q : Q) : valid q <-> ival (istart q) <= ival (iend q).
  Proof.
    split.
    - intros (p & P1 & P2). rewrite ple_int in P1, P2. lia.
    - intros E. exists (istart q). split; apply ple_int; lia.
  Qed.

  Lemma translate_fits (k : K) d : valid k -> lo <= ival (istart k) + ival d -> ival (iend k) + ival d <= hi ->
    exists k', translate add_debug k d = Val k' /\ translate add_release k d = Val k' /\
      ival (istart k') = ival (istart k) + ival d /\ ival (iend k') = ival (iend k) + ival d /\ valid k'.
  Proof.
    intros Vk L1 L2. apply valid_int in Vk.
    destruct (@of_Z_fits lo hi (ival (istart k) + ival d)) as (s & Es & Hs); [lia|].
    destruct (@of_Z_fits lo hi (ival (iend k) + ival d)) as (e & Ee & He); [lia|].
    exists (ifrom (mkInterval s e)).
    destruct (from_valid (mkInterval s e) (K := K)) as [F1 F2]; [rewrite leb_int; cbn; lia|]. cbn in F1, F2. apply Z.compare_eq in F1, F2.
    split; [|split; [|split; [|split]]].
    - unfold translate, add_debug, InstancesModel.checked. rewrite Es, Ee. reflexivity.
    - unfold translate, add_release, wrapping, wrap_Z.
      rewrite !Z.mod_small by lia. rewrite !Zplus_minus, Es, Ee. reflexivity.
    - rewrite F1, Hs. reflexivity.
    - rewrite F2, He. reflexivity.
    - apply valid_int. rewrite F1, F2. lia.
  Qed.
  Lemma translate_overflows (k : K) d : valid k ->
    ~ (lo <= ival (istart k) + ival d /\ ival (iend k) + ival d <= hi) -> translate add_debug k d = Panic.
  Proof.
    intros Vk Hn. apply valid_int in Vk. unfold translate, add_debug.
    destruct (InstancesModel.checked (ival (istart k) + ival d)) as [s|] eqn:Es; [|reflexivity].
    destruct (InstancesModel.checked (ival (iend k) + ival d)) as [e|] eqn:Ee; [exfalso|reflexivity].
    apply checked_some in Es, Ee. pose proof (int_range s). pose proof (int_range e). lia.
  Qed.
  Lemma width_fits (k : K) : valid k -> ival (iend k) - ival (istart k) <= hi -> lo <= 0 ->
    exists w, width sub_debug k = Val w /\ width sub_release k = Val w /\ ival w = ival (iend k) - ival (istart k).
  Proof.
    intros Vk L1 L2. apply valid_int in Vk.
    destruct (@of_Z_fits lo hi (ival (iend k) - ival (istart k))) as (w & Ew & Hw); [lia|].
    exists w. split; [|split; [|exact Hw]].
    - unfold width, sub_debug, InstancesModel.checked. rewrite Ew. reflexivity.
    - unfold width, sub_release, wrapping, wrap_Z. rewrite !Z.mod_small by lia. rewrite !Zplus_minus, Ew. reflexivity.
  Qed.
  Lemma width_overflows (k : K) : hi < ival (iend k) - ival (istart k) -> width sub_debug k = Panic.
  Proof. intros L. unfold width, sub_debug. apply checked_panic. lia. Qed.
End Ints.

Lemma IntType_range lo hi : lo <= hi -> IntType lo hi.
Proof. intros L. split; unfold fits; lia. Qed.
Lemma IntType_unsigned w : 0 <= w -> IntType 0 (2 ^ w - 1).
Proof. intros Hw. apply IntType_range. pose proof (Z.pow_pos_nonneg 2 w). lia. Qed.
