(** * IntervalRelease: [translate] and [width] with the wrapping arithmetic of
      release builds. *)
From Coq Require Import List ZArith Bool Lia.
From Verif Require Import Base IntervalModel Spec InstancesModel Instances PointFacts IntervalFacts IntervalProofs.
Import ListNotations.
Open Scope Z_scope.

(** The sum or difference [z] of two numbers of a type with the range
    [lo ..= hi], brought back into that range. *)
Definition wrapped (lo hi z : Z) : Z :=
  if z <? lo then z + (hi - lo + 1) else if hi <? z then z - (hi - lo + 1) else z.

Section Release.
  Context {lo hi : Z} `{IntType lo hi}.
  Implicit Types (d x y : int lo hi).

  Lemma wrapping_val z : exists x : int lo hi, wrapping z = Val x /\ ival x = wrap_Z (lo := lo) (hi := hi) z.
  Proof.
    assert (L : lo <= hi) by (pose proof (int_range MIN); lia).
    unfold wrapping. destruct (of_Z_fits (lo := lo) (hi := hi) (wrap_Z (lo := lo) (hi := hi) z)) as (x & E & V).
    - unfold wrap_Z. pose proof (Z.mod_pos_bound (z - lo) (hi - lo + 1)). lia.
    - rewrite E. exists x. auto.
  Qed.
  Lemma wrap_shift z n : lo <= z + n * (hi - lo + 1) <= hi -> wrap_Z (lo := lo) (hi := hi) z = z + n * (hi - lo + 1).
  Proof. intros B. unfold wrap_Z. rewrite <- (Z_mod_plus_full (z - lo) n), Z.mod_small; lia. Qed.
  Lemma wrap_add x d : lo <= 0 <= hi -> wrap_Z (lo := lo) (hi := hi) (ival x + ival d) = wrapped lo hi (ival x + ival d).
  Proof.
    intros L. pose proof (int_range x) as X. pose proof (int_range d) as D. unfold wrapped.
    destruct (ival x + ival d <? lo) eqn:E1; [rewrite (wrap_shift _ 1); lia|].
    destruct (hi <? ival x + ival d) eqn:E2; [rewrite (wrap_shift _ (-1)); lia|rewrite (wrap_shift _ 0); lia].
  Qed.
  Lemma wrap_sub x d : lo <= 0 <= hi -> wrap_Z (lo := lo) (hi := hi) (ival x - ival d) = wrapped lo hi (ival x - ival d).
  Proof.
    intros L. pose proof (int_range x) as X. pose proof (int_range d) as D. unfold wrapped.
    destruct (ival x - ival d <? lo) eqn:E1; [rewrite (wrap_shift _ 1); lia|].
    destruct (hi <? ival x - ival d) eqn:E2; [rewrite (wrap_shift _ (-1)); lia|rewrite (wrap_shift _ 0); lia].
  Qed.
  Lemma add_release_val x d : lo <= 0 <= hi ->
    exists y, add_release x d = Val y /\ ival y = wrapped lo hi (ival x + ival d).
  Proof.
    intros L. unfold add_release. destruct (wrapping_val (ival x + ival d)) as (y & E & V).
    exists y. rewrite V, wrap_add by assumption. auto.
  Qed.
  Lemma sub_release_val x d : lo <= 0 <= hi ->
    exists y, sub_release x d = Val y /\ ival y = wrapped lo hi (ival x - ival d).
  Proof.
    intros L. unfold sub_release. destruct (wrapping_val (ival x - ival d)) as (y & E & V).
    exists y. rewrite V, wrap_sub by assumption. auto.
  Qed.
  Lemma wrapped_range x d : lo <= 0 <= hi -> lo <= wrapped lo hi (ival x + ival d) <= hi.
  Proof.
    intros L. pose proof (int_range x). pose proof (int_range d). unfold wrapped.
    destruct (Z.ltb_spec (ival x + ival d) lo); [lia|]. destruct (Z.ltb_spec hi (ival x + ival d)); lia.
  Qed.

  Lemma wrapped_order x y d : lo <= 0 <= hi -> ival x <= ival y ->
    (wrapped lo hi (ival x + ival d) <= wrapped lo hi (ival y + ival d) <->
     (lo <= ival x + ival d <= hi <-> lo <= ival y + ival d <= hi)).
  Proof.
    intros L Le. pose proof (int_range x). pose proof (int_range y). pose proof (int_range d). unfold wrapped.
    destruct (Z.ltb_spec (ival x + ival d) lo); destruct (Z.ltb_spec hi (ival x + ival d));
      destruct (Z.ltb_spec (ival y + ival d) lo); destruct (Z.ltb_spec hi (ival y + ival d)); lia.
  Qed.

  Section Keys.
    Context {K : Type} {IK : InclusiveInterval (int lo hi) K} {IL : IntervalLaws (int lo hi) K}.
    Implicit Types k : K.

    Lemma translate_release_val k d : lo <= 0 <= hi -> exists s e,
      translate add_release k d = Val (ifrom (mkInterval s e)) /\
      ival s = wrapped lo hi (ival (istart k) + ival d) /\ ival e = wrapped lo hi (ival (iend k) + ival d).
    Proof.
      intros L. destruct (add_release_val (istart k) d L) as (s & Es & Vs).
      destruct (add_release_val (iend k) d L) as (e & Ee & Ve). exists s, e. unfold translate. rewrite Es, Ee. auto.
    Qed.

    (** Both ends wrap around, or neither does. *)
    Definition together k d : Prop :=
      lo <= ival (istart k) + ival d <= hi <-> lo <= ival (iend k) + ival d <= hi.

    Lemma translate_release_together k d : lo <= 0 <= hi -> valid k -> together k d ->
      exists k', translate add_release k d = Val k' /\ valid k' /\
        ival (istart k') = wrapped lo hi (ival (istart k) + ival d) /\
        ival (iend k') = wrapped lo hi (ival (iend k) + ival d) /\
        ival (iend k') - ival (istart k') = ival (iend k) - ival (istart k).
    Proof.
      intros L Vk T. apply valid_int in Vk.
      destruct (translate_release_val k d L) as (s & e & E & Vs & Ve). exists (ifrom (mkInterval s e)). split; [exact E|].
      assert (Le : ival s <= ival e) by (rewrite Vs, Ve; apply wrapped_order; assumption).
      destruct (from_valid (mkInterval s e) (K := K)) as [F1 F2]; [rewrite leb_int; cbn; lia|]. cbn in F1, F2. apply Z.compare_eq in F1, F2.
      rewrite valid_int, F1, F2. split; [exact Le|]. split; [exact Vs|]. split; [exact Ve|].
      rewrite Vs, Ve in Le |- *. clear - L Vk T.
      pose proof (int_range (istart k)). pose proof (int_range (iend k)). pose proof (int_range d). unfold together in T. unfold wrapped.
      destruct (Z.ltb_spec (ival (istart k) + ival d) lo); destruct (Z.ltb_spec hi (ival (istart k) + ival d));
        destruct (Z.ltb_spec (ival (iend k) + ival d) lo); destruct (Z.ltb_spec hi (ival (iend k) + ival d)); lia.
    Qed.
    Lemma translate_release_apart {FI : FromInvalid (int lo hi) K} k d : lo <= 0 <= hi -> valid k -> ~ together k d ->
      exists k', translate add_release k d = Val k' /\ ~ valid k'.
    Proof.
      intros L Vk T. apply valid_int in Vk.
      destruct (translate_release_val k d L) as (s & e & E & Vs & Ve). exists (ifrom (mkInterval s e)). split; [exact E|].
      assert (Le : ~ ival s <= ival e) by (rewrite Vs, Ve, wrapped_order by assumption; exact T).
      pose proof (from_invalid (mkInterval s e) (K := K)) as F. rewrite leb_int in F. cbn in F.
      rewrite leb_int in F. rewrite valid_int. lia.
    Qed.
    Lemma width_release_val k : lo <= 0 <= hi ->
      exists w, width sub_release k = Val w /\ ival w = wrapped lo hi (ival (iend k) - ival (istart k)).
    Proof. intros L. apply sub_release_val. exact L. Qed.
  End Keys.

  Lemma translate_release_width (i j : Interval (int lo hi)) d : translate add_release i d = Val j ->
    width sub_release j = width sub_release i.
  Proof.
    unfold translate, add_release. cbn [istart iend ifrom Interval_InclusiveInterval].
    destruct (wrapping_val (ival (istart i) + ival d)) as (s & Es & Vs).
    destruct (wrapping_val (ival (iend i) + ival d)) as (e & Ee & Ve).
    intros E. change (istart i) with (ivl_start i) in *. change (iend i) with (ivl_end i) in *. rewrite Es, Ee in E. injection E as <-.
    unfold width, sub_release. cbn. unfold wrapping. f_equal.
    enough (W : wrap_Z (lo := lo) (hi := hi) (ival e - ival s) = wrap_Z (lo := lo) (hi := hi) (ival (ivl_end i) - ival (ivl_start i))) by (rewrite W; reflexivity).
    rewrite Vs, Ve. clear. unfold wrap_Z. f_equal. set (N := hi - lo + 1). set (a := ivl_start i). set (b := ivl_end i).
    pose proof (Z.div_mod (ival a + ival d - lo) N) as A. pose proof (Z.div_mod (ival b + ival d - lo) N) as B.
    assert (N <> 0) as N0 by (pose proof (int_range a); unfold N; lia). specialize (A N0). specialize (B N0).
    set (qa := (ival a + ival d - lo) / N) in *. set (qb := (ival b + ival d - lo) / N) in *.
    rewrite <- (Z_mod_plus_full (ival b - ival a - lo) (qa - qb)). f_equal. lia.
  Qed.
End Release.
