(** * WidthFacts: a ZosditMap counter of finite width (C118). *)
From Coq Require Import List ZArith Arith Bool Lia ZifyBool Sorting.Sorted.
From Verif Require Import Base BTree UtilsModel IntervalModel NoditModel ZosditModel ZosditOps WidthModel Spec
  PointFacts IntervalFacts ListFacts NoditFacts ZosditFacts ZosditMut ZosditProofs CrashZosdit.
Import ListNotations.
Open Scope nat_scope.

Section Arith.
  Context (cap : nat).
  Lemma uadd_wrap x y : uadd Wrapping cap (x mod S cap) y = Val ((x + y) mod S cap).
  Proof. unfold uadd. rewrite Nat.add_mod_idemp_l by discriminate. reflexivity. Qed.
  Lemma usub_wrap x y : y <= x -> usub Wrapping cap (x mod S cap) y = Val ((x - y) mod S cap).
  Proof.
    intros L. unfold usub. rewrite Nat.add_mod_idemp_l by discriminate. f_equal.
    pose proof (Nat.div_mod y (S cap) ltac:(discriminate)) as D. pose proof (Nat.mod_upper_bound y (S cap) ltac:(discriminate)) as U.
    replace (x + (S cap - y mod S cap)) with ((x - y) + (y / S cap + 1) * S cap) by nia.
    apply Nat.mod_add. discriminate.
  Qed.
  Lemma uadd_checked x y : x + y <= cap -> uadd Checked cap x y = Val (x + y).
  Proof. intros L. unfold uadd. destruct (Nat.leb_spec (x + y) cap); [reflexivity|lia]. Qed.
  Lemma uadd_over x y : cap < x + y -> uadd Checked cap x y = Panic.
  Proof. intros L. unfold uadd. destruct (Nat.leb_spec (x + y) cap); [lia|reflexivity]. Qed.
  Lemma usub_checked x y : y <= x -> usub Checked cap x y = Val (x - y).
  Proof. intros L. unfold usub. destruct (Nat.leb_spec y x); [reflexivity|lia]. Qed.
End Arith.

Section Facts.
  Context {I : Type} {OI : Ord I} {DI : DiscreteFinite I} {PL : PointLaws I}.
  Context {K : Type} {IK : InclusiveInterval I K} {IL : IntervalLaws I K}.
  Context {V : Type}.
  Notation store := (BTreeMap K (list V)).
  Implicit Types (z : ZosditMap K V) (k : K) (v : V) (vs : list V).

  (** ** Wrapping *)
  Definition wrap (cap : nat) z : ZosditMap K V := mkZosdit (z_len z mod S cap) (z_inner z).
  Lemma wrap_new cap : wrap cap (z_new : ZosditMap K V) = z_new.
  Proof. unfold wrap, z_new. cbn [z_len z_inner]. rewrite Nat.mod_0_l by discriminate. reflexivity. Qed.
  Lemma insert_wrap cap k v z :
    insert_strict_back_u Wrapping cap k v (wrap cap z) = (wrap cap (fst (insert_strict_back k v z)), snd (insert_strict_back k v z)).
  Proof.
    unfold insert_strict_back_u, insert_strict_back. change (is_zero_overlap (wrap cap z) k) with (is_zero_overlap z k). change (z_inner (wrap cap z)) with (z_inner z).
    change (z_len (wrap cap z)) with (z_len z mod S cap).
    destruct (invalid_interval_panic k); [|reflexivity]. destruct (is_zero_overlap z k) as [[|]|]; try reflexivity.
    destruct (entry_push k v [] (z_inner z)) as [inner|]; [|reflexivity]. rewrite uadd_wrap. reflexivity.
  Qed.
  Lemma remove_wrap cap p z :
    remove_last_value_at_point p (wrap cap z) = (wrap cap (fst (remove_last_value_at_point p z)), snd (remove_last_value_at_point p z)).
  Proof.
    unfold remove_last_value_at_point. change (last_value_cursor (wrap cap z) p) with (last_value_cursor z p).
    destruct (snd (last_value_cursor z p)) as [|[k vs] r]; [reflexivity|]. destruct (contains_point k p); [|reflexivity].
    destruct (vec_pop vs) as [[v [|w vs']]|]; reflexivity.
  Qed.
  Section Q.
    Context {Q : Type} {IQ : InclusiveInterval I Q}.
    Lemma cut_loop_wrap cap (q : Q) (post : store) : forall n pre acc z out,
      zosdit_cut_loop q n pre post acc = (z, Val out) ->
      zosdit_cut_loop_u Wrapping cap q (n mod S cap) pre post acc = (wrap cap z, Val out).
    Proof.
      induction post as [|[k vs] rest IH]; intros n pre acc z out; cbn [zosdit_cut_loop zosdit_cut_loop_u]; [intros E; injection E as <- <-; reflexivity|].
      destruct (overlaps k q) as [[|]|]; [|intros E; injection E as <- <-; reflexivity|discriminate].
      destruct (cut_interval k q) as [r|]; [|discriminate].
      assert (Eb : forall p n0 (pre0 : store), before_u Wrapping cap p vs (n0 mod S cap) pre0 =
        (fst (z_piece p vs (n0, pre0)) mod S cap, snd (z_piece p vs (n0, pre0)), Val tt)).
      { intros [i|] n0 pre0; [|reflexivity]. unfold before_u, z_piece. rewrite uadd_wrap. reflexivity. }
      assert (Ea : forall p n0 (pre0 : store), after_u Wrapping cap p vs (n0 mod S cap) pre0 =
        (fst (z_piece p vs (n0, pre0)) mod S cap, snd (z_piece p vs (n0, pre0)), Val tt)).
      { intros [i|] n0 pre0; [|reflexivity]. unfold after_u, z_piece. rewrite uadd_wrap. reflexivity. }
      rewrite Eb. destruct (z_piece (before_cut r) vs (n, pre)) as [n1 pre1]. cbn [fst snd].
      rewrite Ea. destruct (z_piece (after_cut r) vs (n1, pre1)) as [n2 pre2]. cbn [fst snd].
      destruct (Nat.ltb_spec n2 (length vs)) as [L|L]; [discriminate|]. rewrite usub_wrap by exact L.
      destruct (inside_cut r) as [i|]; [apply IH|]. destruct vs; [apply IH|discriminate].
    Qed.
    Lemma cut_wrap cap (q : Q) z : ZWF z ->
      zosdit_cut_u Wrapping cap q (wrap cap z) = (wrap cap (fst (zosdit_cut q z)), snd (zosdit_cut q z)).
    Proof.
      intros W. destruct (valid_dec q) as [Vq|Nq].
      - assert (X : exists z' out, zosdit_cut q z = (z', Val out)).
        { apply valid_rk in Vq. destruct (zsplit3 (z_inner z) (lo q) (hi q) (proj1 W) Vq) as (A & M & B & El & HA & HM & HB).
          destruct (cut_zosdit_cases z q A M B W Vq El HA HM HB) as [(_ & n' & E & _)|(_ & E)]; eauto. }
        destruct X as (z' & out & E). rewrite E. cbn [fst snd]. revert E. unfold zosdit_cut, zosdit_cut_u. rewrite (iip_valid q Vq).
        change (z_inner (wrap cap z)) with (z_inner z). apply cut_loop_wrap.
      - unfold zosdit_cut, zosdit_cut_u. rewrite (iip_invalid q Nq). reflexivity.
    Qed.
  End Q.
  Definition wrap_result {E} cap (r : result (ZosditMap K V) E) : result (ZosditMap K V) E := match r with Ok z => Ok (wrap cap z) | Err e => Err e end.
  Lemma extend_wrap cap (l : list (K * V)) : forall z,
    extend_strict_back_u Wrapping cap l (wrap cap z) = omap (wrap_result cap) (extend_strict_back l z).
  Proof.
    induction l as [|[k v] l IH]; intros z; [reflexivity|]. cbn [extend_strict_back_u extend_strict_back]. rewrite insert_wrap.
    destruct (insert_strict_back k v z) as [z' [[u|e]|]]; cbn [fst snd]; [apply IH|reflexivity..].
  Qed.
  Lemma visit_wrap cap (l : list (option (K * V))) : forall z,
    zosdit_visit_seq_u Wrapping cap l (wrap cap z) = omap (wrap_result cap) (zosdit_visit_seq l z).
  Proof.
    induction l as [|[[k v]|] l IH]; intros z; [reflexivity| |reflexivity]. cbn [zosdit_visit_seq_u zosdit_visit_seq]. rewrite insert_wrap.
    destruct (insert_strict_back k v z) as [z' [[u|e]|]]; cbn [fst snd]; [apply IH|reflexivity..].
  Qed.
  Lemma from_iter_wrap cap (l : list (K * V)) : from_iter_strict_back_u Wrapping cap l = omap (wrap_result cap) (from_iter_strict_back l).
  Proof. unfold from_iter_strict_back_u, from_iter_strict_back. rewrite <- (wrap_new cap) at 1. apply extend_wrap. Qed.
  Lemma deserialize_wrap cap (l : list (option (K * V))) : zosdit_deserialize_u Wrapping cap l = omap (wrap_result cap) (zosdit_deserialize l).
  Proof. unfold zosdit_deserialize_u, zosdit_deserialize. rewrite <- (wrap_new cap) at 1. apply visit_wrap. Qed.
  Lemma zstep_wrap cap z (o : zop I K V) : ZWF z -> zstep_u Wrapping cap (wrap cap z) o = wrap cap (zstep z o).
  Proof.
    intros W. destruct o as [|k v|p|Q IQ q|l|l]; cbn [zstep zstep_u].
    - symmetry. apply wrap_new.
    - rewrite insert_wrap. reflexivity.
    - rewrite remove_wrap. reflexivity.
    - rewrite (cut_wrap cap q z W). reflexivity.
    - rewrite from_iter_wrap. destruct (from_iter_strict_back l) as [[z'|e]|]; reflexivity.
    - rewrite deserialize_wrap. destruct (zosdit_deserialize l) as [[z'|e]|]; reflexivity.
  Qed.
  Lemma zrun_u_snoc b cap (os : list (zop I K V)) o : zrun_u b cap (os ++ [o]) = zstep_u b cap (zrun_u b cap os) o.
  Proof. unfold zrun_u. rewrite fold_left_app. reflexivity. Qed.
  Lemma zrun_wrap cap (os : list (zop I K V)) : zrun_u Wrapping cap os = wrap cap (zrun os).
  Proof.
    induction os as [|o os IH] using rev_ind; [symmetry; apply wrap_new|].
    rewrite zrun_u_snoc, zrun_snoc, IH. apply zstep_wrap, zrun_ZWF.
  Qed.

  (** ** Checked *)
  Lemma insert_checked cap k v z : z_len z + 1 <= cap -> insert_strict_back_u Checked cap k v z = insert_strict_back k v z.
  Proof.
    intros L. unfold insert_strict_back_u, insert_strict_back. destruct (invalid_interval_panic k); [|reflexivity].
    destruct (is_zero_overlap z k) as [[|]|]; try reflexivity. destruct (entry_push k v [] (z_inner z)); [|reflexivity].
    rewrite uadd_checked by exact L. reflexivity.
  Qed.
  Lemma insert_over cap k v z z' : z_len z = cap -> insert_strict_back k v z = (z', Val (Ok tt)) ->
    insert_strict_back_u Checked cap k v z = (mkZosdit (z_len z) (z_inner z'), Panic).
  Proof.
    intros L. unfold insert_strict_back_u, insert_strict_back. destruct (invalid_interval_panic k); [|discriminate].
    destruct (is_zero_overlap z k) as [[|]|]; try discriminate. destruct (entry_push k v [] (z_inner z)); [|discriminate].
    rewrite uadd_over by lia. intros E. injection E as <-. reflexivity.
  Qed.
  (** A call that does not panic does the same as without a bound. *)
  Lemma insert_checked_val cap k v z : snd (insert_strict_back_u Checked cap k v z) = Panic \/
    insert_strict_back_u Checked cap k v z = insert_strict_back k v z.
  Proof.
    unfold insert_strict_back_u, insert_strict_back. destruct (invalid_interval_panic k); [|auto].
    destruct (is_zero_overlap z k) as [[|]|]; auto. destruct (entry_push k v [] (z_inner z)); [|auto].
    unfold uadd. destruct (Nat.leb (z_len z + 1) cap); auto.
  Qed.
  Lemma extend_checked_val cap (l : list (K * V)) : forall z, extend_strict_back_u Checked cap l z = Panic \/
    extend_strict_back_u Checked cap l z = extend_strict_back l z.
  Proof.
    induction l as [|[k v] l IH]; intros z; [auto|]. cbn [extend_strict_back_u extend_strict_back].
    destruct (insert_checked_val cap k v z) as [E|E].
    - destruct (insert_strict_back_u Checked cap k v z) as [z' r]. cbn in E. subst r. auto.
    - rewrite E. destruct (insert_strict_back k v z) as [z' [[u|e]|]]; auto.
  Qed.
  Lemma visit_checked_val cap (l : list (option (K * V))) : forall z, zosdit_visit_seq_u Checked cap l z = Panic \/
    zosdit_visit_seq_u Checked cap l z = zosdit_visit_seq l z.
  Proof.
    induction l as [|[[k v]|] l IH]; intros z; [auto| |auto]. cbn [zosdit_visit_seq_u zosdit_visit_seq].
    destruct (insert_checked_val cap k v z) as [E|E].
    - destruct (insert_strict_back_u Checked cap k v z) as [z' r]. cbn in E. subst r. auto.
    - rewrite E. destruct (insert_strict_back k v z) as [z' [[u|e]|]]; auto.
  Qed.
  Lemma insert_len k v z z' : insert_strict_back k v z = (z', Val (Ok tt)) -> z_len z' = z_len z + 1.
  Proof.
    unfold insert_strict_back. destruct (invalid_interval_panic k); [|discriminate].
    destruct (is_zero_overlap z k) as [[|]|]; try discriminate. destruct (entry_push k v [] (z_inner z)); [|discriminate].
    intros E. injection E as <-. reflexivity.
  Qed.
  Lemma extend_checked cap (l : list (K * V)) : forall z, z_len z + length l <= cap ->
    extend_strict_back_u Checked cap l z = extend_strict_back l z.
  Proof.
    induction l as [|[k v] l IH]; intros z L; [reflexivity|]. cbn [extend_strict_back_u extend_strict_back]. cbn [length] in L.
    rewrite insert_checked by lia. destruct (insert_strict_back k v z) as [z' [[[]|e]|]] eqn:E; [|reflexivity..].
    apply insert_len in E. apply IH. lia.
  Qed.
  Lemma visit_checked cap (l : list (option (K * V))) : forall z, z_len z + length l <= cap ->
    zosdit_visit_seq_u Checked cap l z = zosdit_visit_seq l z.
  Proof.
    induction l as [|[[k v]|] l IH]; intros z L; [reflexivity| |reflexivity]. cbn [zosdit_visit_seq_u zosdit_visit_seq]. cbn [length] in L.
    rewrite insert_checked by lia. destruct (insert_strict_back k v z) as [z' [[[]|e]|]] eqn:E; [|reflexivity..].
    apply insert_len in E. apply IH. lia.
  Qed.

  Section Q2.
    Context {Q : Type} {IQ : InclusiveInterval I Q}.
    Implicit Type q : Q.
    Lemma before_checked cap p vs n (pre : store) : n + length vs <= cap ->
      before_u Checked cap p vs n pre = (z_piece p vs (n, pre), Val tt).
    Proof. intros L. destruct p as [i|]; [|reflexivity]. unfold before_u, z_piece. rewrite uadd_checked by exact L. reflexivity. Qed.
    Lemma after_checked cap p vs n (pre : store) : n + length vs <= cap ->
      after_u Checked cap p vs n pre = (z_piece p vs (n, pre), Val tt).
    Proof. intros L. destruct p as [i|]; [|reflexivity]. unfold after_u, z_piece. rewrite uadd_checked by exact L. reflexivity. Qed.
    (** Two spare places are enough for a whole [cut]. *)
    Lemma cut_loop_checked cap q (post : store) : (lo q <= hi q)%Z -> ZS post -> Forall okstore post -> forall n pre acc,
      n + 2 <= cap -> zosdit_cut_loop_u Checked cap q n pre post acc = zosdit_cut_loop q n pre post acc.
    Proof.
      intros Vq. induction post as [|[k vs] rest IH]; intros W Hok n pre acc L; [reflexivity|]. cbn [zosdit_cut_loop zosdit_cut_loop_u].
      apply ZS_cons in W. destruct W as (Vk & W & Hr). apply Forall_cons_iff in Hok. destruct Hok as [[_ Hs] Hok].
      unfold okv, elo, ehi in Vk, Hs. cbn [fst snd] in Vk, Hs.
      rewrite overlaps_true by assumption. destruct ((lo k <=? hi q)%Z && (lo q <=? hi k)%Z) eqn:Ho; [|reflexivity].
      destruct (cut_interval_ok k q) as (r & Er & Hb & (i & Hi & _) & Ha); try lia. rewrite Er, Hi.
      assert (Lb : before_cut r = None \/ (length vs = 1 /\ (lo k < lo q)%Z)).
      { destruct (before_cut r) as [j|] eqn:Eb; [|auto]. right.
        assert ((lo k < lo q)%Z) by (destruct (Z.ltb (lo k) (lo q)) eqn:X; [lia|]; destruct Hb; congruence || lia).
        destruct (Hs ltac:(lia)) as (v & ->). auto. }
      assert (La : after_cut r = None \/ (length vs = 1 /\ (hi q < hi k)%Z)).
      { destruct (after_cut r) as [j|] eqn:Ea; [|auto]. right.
        assert ((hi q < hi k)%Z) by (destruct (Z.ltb (hi q) (hi k)) eqn:X; [lia|]; destruct Ha; congruence || lia).
        destruct (Hs ltac:(lia)) as (v & ->). auto. }
      assert (Stop : (hi q < hi k)%Z -> forall n pre acc, zosdit_cut_loop_u Checked cap q n pre rest acc = zosdit_cut_loop q n pre rest acc).
      { intros Lk n0 pre0 acc0. destruct rest as [|[k1 vs1] rest]; [reflexivity|]. cbn [zosdit_cut_loop zosdit_cut_loop_u].
        apply ZS_cons in W. destruct W as (Vk1 & _ & _). apply Forall_inv in Hr. unfold okv, elo, ehi in Vk1, Hr. cbn [fst snd] in Vk1, Hr.
        rewrite overlaps_true by assumption. destruct ((lo k1 <=? hi q)%Z && (lo q <=? hi k1)%Z) eqn:Ho1; [lia|reflexivity]. }
      assert (P1 : forall p n0 (pre0 : store), z_piece p vs (n0, pre0) = (n0 + count (piece_list p vs : store), pre0 ++ piece_list p vs)).
      { intros [j|] n0 pre0; unfold count; cbn; [rewrite app_nil_r, map_length; reflexivity|]. rewrite app_nil_r, Nat.add_0_r. reflexivity. }
      destruct Lb as [-> |[Lb Lb']].
      - cbn [before_u z_piece]. destruct La as [-> |[La La']].
        + cbn [after_u z_piece]. unfold usub. destruct (Nat.leb_spec (length vs) n), (Nat.ltb_spec n (length vs)); try lia; [|reflexivity].
          apply IH; [exact W|exact Hok|lia].
        + rewrite after_checked by lia. rewrite !P1. cbn iota beta. unfold usub.
          match goal with |- context [Nat.leb (length vs) ?m] => destruct (Nat.leb_spec (length vs) m), (Nat.ltb_spec m (length vs)); try lia end; [|reflexivity]. apply Stop, La'.
      - rewrite before_checked by lia. destruct (before_cut r) as [j|]; cbn [z_piece fst snd].
        + destruct La as [-> |[La La']].
          * cbn [after_u z_piece]. unfold usub. destruct (Nat.leb_spec (length vs) (n + length vs)), (Nat.ltb_spec (n + length vs) (length vs)); try lia.
            apply IH; [exact W|exact Hok|lia].
          * rewrite after_checked by lia. rewrite !P1. cbn iota beta. unfold usub.
            match goal with |- context [Nat.leb (length vs) ?m] => destruct (Nat.leb_spec (length vs) m), (Nat.ltb_spec m (length vs)); try lia end. apply Stop, La'.
        + exfalso. lia.
    Qed.
    Lemma cut_checked cap q z : ZWF z -> z_len z + 2 <= cap -> zosdit_cut_u Checked cap q z = zosdit_cut q z.
    Proof.
      intros (W & Hok & _) L. destruct (valid_dec q) as [Vq|Nq].
      - unfold zosdit_cut, zosdit_cut_u. rewrite (iip_valid q Vq). apply valid_rk in Vq. fold (zstart q z). pose proof (zstart_join q z) as J.
        destruct (zstart q z) as [pre post]. cbn [fst snd] in *. rewrite <- J in W, Hok. apply ZS_app in W. apply Forall_app in Hok.
        apply cut_loop_checked; [exact Vq|apply W|apply Hok|exact L].
      - unfold zosdit_cut, zosdit_cut_u. rewrite (iip_invalid q Nq). reflexivity.
    Qed.

    (** What a [cut] can leave, whatever the counter does. *)
    Lemma before_u_cases b cap p vs n (pre : store) :
      exists n' r, before_u b cap p vs n pre = (n', pre ++ piece_list p vs, r) .
    Proof.
      destruct p as [i|]; cbn [before_u piece_list]; [|rewrite app_nil_r; eauto]. destruct (uadd b cap n (length vs)); eauto.
    Qed.
    Lemma after_u_cases b cap p vs n (pre : store) :
      (exists n', after_u b cap p vs n pre = (n', pre ++ piece_list p vs, Val tt)) \/ after_u b cap p vs n pre = (n, pre, Panic).
    Proof.
      destruct p as [i|]; cbn [after_u piece_list]; [|rewrite app_nil_r; eauto]. destruct (uadd b cap n (length vs)); eauto.
    Qed.
    Lemma cut_loop_u_cases b cap q (post : store) : (lo q <= hi q)%Z -> Forall okv post -> forall n pre acc z' r,
      zosdit_cut_loop_u b cap q n pre post acc = (z', r) ->
      (exists out, r = Val out /\ forall m, count (pre ++ post) <= m -> exists m', zosdit_cut_loop q m pre post acc = (mkZosdit m' (z_inner z'), Val out)) \/
      (r = Panic /\ exists M1 e M2 ps1 ps2, post = M1 ++ e :: M2 /\ Forall (meets (lo q) (hi q)) (M1 ++ [e]) /\
        zpieces q e = ps1 ++ ps2 /\ z_inner z' = pre ++ flat_map (zpieces q) M1 ++ ps1 ++ M2).
    Proof.
      intros Vq. induction post as [|[k vs] post IH]; intros VP n pre acc z' r; cbn [zosdit_cut_loop_u zosdit_cut_loop].
      { intros E. injection E as <- <-. left. exists acc. split; [reflexivity|]. intros m _. exists m. reflexivity. }
      apply Forall_cons_iff in VP. destruct VP as [Vk VP]. unfold okv, elo, ehi in Vk. cbn [fst snd] in Vk.
      rewrite overlaps_true by assumption. destruct ((lo k <=? hi q)%Z && (lo q <=? hi k)%Z) eqn:Ho.
      2:{ intros E. injection E as <- <-. left. exists acc. split; [reflexivity|]. intros m _. exists m. reflexivity. }
      destruct (cut_interval_ok k q) as (c & Er & _ & (i & Hi & _) & _); try lia.
      assert (Hm : meets (lo q) (hi q) (k, vs)) by (unfold meets, elo, ehi; cbn; lia).
      assert (Ep : zpieces q (k, vs) = piece_list (before_cut c) vs ++ piece_list (after_cut c) vs).
      { unfold zpieces. cbn [fst snd]. rewrite Er. reflexivity. }
      rewrite Er, Hi.
      assert (Here : forall ps1 ps2 n', zpieces q (k, vs) = ps1 ++ ps2 -> (mkZosdit n' ((pre ++ ps1) ++ post), Panic) = (z', r) ->
        (exists out, r = Val out /\ forall m, count (pre ++ (k, vs) :: post) <= m -> exists m', zosdit_cut_loop q m pre ((k, vs) :: post) acc = (mkZosdit m' (z_inner z'), Val out)) \/
        r = Panic /\ exists M1 e M2 ps1 ps2, (k, vs) :: post = M1 ++ e :: M2 /\ Forall (meets (lo q) (hi q)) (M1 ++ [e]) /\
          zpieces q e = ps1 ++ ps2 /\ z_inner z' = pre ++ flat_map (zpieces q) M1 ++ ps1 ++ M2).
      { intros ps1 ps2 n' E1 E. injection E as <- <-. right. split; [reflexivity|]. exists [], (k, vs), post, ps1, ps2. split; [reflexivity|].
        split; [constructor; [exact Hm|constructor]|]. split; [exact E1|]. cbn [z_inner flat_map app]. rewrite <- app_assoc. reflexivity. }
      cbn [zosdit_cut_loop] in Here. setoid_rewrite overlaps_true in Here; [|exact Vk|exact Vq]. rewrite Ho in Here. rewrite Er, Hi in Here.
      destruct (before_u_cases b cap (before_cut c) vs n pre) as (n1 & r1 & ->). destruct r1 as [[]|]; [|apply (Here _ (piece_list (after_cut c) vs) _ Ep)].
      destruct (after_u_cases b cap (after_cut c) vs n1 (pre ++ piece_list (before_cut c) vs)) as [(n2 & ->)| ->];
        [|apply (Here _ (piece_list (after_cut c) vs) _ Ep)].
      rewrite <- app_assoc, <- Ep. destruct (usub b cap n2 (length vs)) as [n3|]; [|apply (Here _ []); rewrite app_nil_r; reflexivity].
      intros E. apply (IH VP) in E. destruct E as [(out & -> & E)|(-> & M1 & e & M2 & ps1 & ps2 & -> & HM & E1 & E2)].
      - left. exists out. split; [reflexivity|]. intros m Lm.
        assert (P1 : forall p n0 (pre0 : store), z_piece p vs (n0, pre0) = (n0 + count (piece_list p vs : store), pre0 ++ piece_list p vs)).
        { intros [j|] n0 pre0; unfold count; cbn; [rewrite app_nil_r, map_length; reflexivity|]. rewrite app_nil_r, Nat.add_0_r. reflexivity. }
        rewrite !P1. rewrite Ep, app_assoc in E.
        assert (CA : forall a b : store, count (a ++ b) = count a + count b) by (intros; unfold count; rewrite flatten_app, app_length; reflexivity).
        assert (CC : count ((k, vs) :: post) = length vs + count post) by (unfold count; rewrite flatten_cons, app_length, map_length; reflexivity).
        rewrite CA, CC in Lm. destruct (Nat.ltb_spec (m + count (piece_list (before_cut c) vs : store) + count (piece_list (after_cut c) vs : store)) (length vs)) as [L|L]; [lia|].
        apply E. rewrite !CA. lia.
      - right. split; [reflexivity|]. exists ((k, vs) :: M1), e, M2, ps1, ps2. split; [reflexivity|]. split; [constructor; [exact Hm|exact HM]|].
        split; [exact E1|]. rewrite E2. cbn [flat_map]. rewrite <- !app_assoc. reflexivity.
    Qed.

    (** The order of the entries survives every [cut]. *)
    Lemma cut_u_order b cap q z : ZS (z_inner z) -> Forall okstore (z_inner z) ->
      ZS (z_inner (fst (zosdit_cut_u b cap q z))) /\ Forall okstore (z_inner (fst (zosdit_cut_u b cap q z))).
    Proof.
      intros W Hok. destruct (valid_dec q) as [Vq|Nq].
      2:{ unfold zosdit_cut_u. rewrite (iip_invalid q Nq). auto. }
      set (z0 := mkZosdit (count (z_inner z)) (z_inner z)).
      assert (W0 : ZWF z0) by (split; [exact W|split; [exact Hok|apply Nat.le_refl]]).
      destruct (zosdit_cut_u b cap q z) as [z' r] eqn:E. cbn [fst]. unfold zosdit_cut_u in E. rewrite (iip_valid q Vq) in E.
      fold (zstart q z) in E. pose proof (zstart_join q z) as J.
      apply cut_loop_u_cases in E; [|apply valid_rk, Vq|rewrite <- J in W; apply ZS_app in W; apply okvs, W].
      destruct E as [(out & -> & E)|(-> & M1 & e & M2 & ps1 & ps2 & E1 & HM & E2 & E3)].
      - destruct (E (count (z_inner z))) as (m' & X); [rewrite J; lia|].
        pose proof (cut_ZWF q z0 W0) as W'.
        assert (Ec : zosdit_cut q z0 = (mkZosdit m' (z_inner z'), Val out)) by (unfold zosdit_cut; rewrite (iip_valid q Vq); exact X).
        rewrite Ec in W'. split; apply W'.
      - destruct (zstopped_interrupted q z0 (mkZosdit (count (z_inner z')) (z_inner z')) W0 Vq) as (W' & _); [|split; apply W'].
        exists M1, e, M2, ps1, ps2. split; [exact E1|]. split; [exact HM|]. split; [exact E2|]. split; [exact E3|]. apply Nat.le_refl.
    Qed.
  End Q2.

  Lemma insert_u_order b cap k v z : ZS (z_inner z) -> Forall okstore (z_inner z) ->
    ZS (z_inner (fst (insert_strict_back_u b cap k v z))) /\ Forall okstore (z_inner (fst (insert_strict_back_u b cap k v z))).
  Proof.
    intros W Hok. set (z0 := mkZosdit (count (z_inner z)) (z_inner z)).
    assert (W0 : ZWF z0) by (split; [exact W|split; [exact Hok|apply Nat.le_refl]]).
    pose proof (insert_ZWF z0 k v W0) as W'. unfold insert_strict_back_u. unfold insert_strict_back in W'.
    change (is_zero_overlap z0 k) with (is_zero_overlap z k) in W'. change (z_inner z0) with (z_inner z) in W'.
    destruct (invalid_interval_panic k); [|auto]. destruct (is_zero_overlap z k) as [[|]|]; auto.
    destruct (entry_push k v [] (z_inner z)) as [inner|]; [|auto]. destruct (uadd b cap (z_len z) 1); split; apply W'.
  Qed.
  Lemma extend_u_order b cap (l : list (K * V)) : forall z z', ZS (z_inner z) -> Forall okstore (z_inner z) ->
    extend_strict_back_u b cap l z = Val (Ok z') -> ZS (z_inner z') /\ Forall okstore (z_inner z').
  Proof.
    induction l as [|[k v] l IH]; intros z z' W Hok; cbn [extend_strict_back_u]; [intros E; injection E as <-; auto|].
    pose proof (insert_u_order b cap k v z W Hok) as X. destruct (insert_strict_back_u b cap k v z) as [z1 [[[]|]|]]; try discriminate.
    apply IH; apply X.
  Qed.
  Lemma visit_u_order b cap (l : list (option (K * V))) : forall z z', ZS (z_inner z) -> Forall okstore (z_inner z) ->
    zosdit_visit_seq_u b cap l z = Val (Ok z') -> ZS (z_inner z') /\ Forall okstore (z_inner z').
  Proof.
    induction l as [|[[k v]|] l IH]; intros z z' W Hok; cbn [zosdit_visit_seq_u]; [intros E; injection E as <-; auto| |discriminate].
    pose proof (insert_u_order b cap k v z W Hok) as X. destruct (insert_strict_back_u b cap k v z) as [z1 [[[]|]|]]; try discriminate.
    apply IH; apply X.
  Qed.
  Lemma remove_order p z : ZS (z_inner z) -> Forall okstore (z_inner z) ->
    ZS (z_inner (fst (remove_last_value_at_point p z))) /\ Forall okstore (z_inner (fst (remove_last_value_at_point p z))).
  Proof.
    intros W Hok. set (z0 := mkZosdit (count (z_inner z)) (z_inner z)).
    assert (W0 : ZWF z0) by (split; [exact W|split; [exact Hok|apply Nat.le_refl]]).
    pose proof (remove_ZWF z0 p W0) as W'. unfold remove_last_value_at_point in *. change (last_value_cursor z0 p) with (last_value_cursor z p) in W'.
    destruct (snd (last_value_cursor z p)) as [|[k vs] r]; [auto|]. destruct (contains_point k p); [|auto].
    destruct (vec_pop vs) as [[v [|w vs']]|]; [split; apply W'..|auto].
  Qed.
  Lemma zrun_u_order b cap (os : list (zop I K V)) :
    ZS (z_inner (zrun_u b cap os)) /\ Forall okstore (z_inner (zrun_u b cap os)).
  Proof.
    induction os as [|o os [W Hok]] using rev_ind; [split; [apply ZS_nil|constructor]|]. rewrite zrun_u_snoc.
    destruct o as [|k v|p|Q IQ q|l|l]; cbn [zstep_u].
    - split; [apply ZS_nil|constructor].
    - apply insert_u_order; assumption.
    - apply remove_order; assumption.
    - apply cut_u_order; assumption.
    - destruct (from_iter_strict_back_u b cap l) as [[z'|]|] eqn:E; auto. apply extend_u_order in E; [exact E|apply ZS_nil|constructor].
    - destruct (zosdit_deserialize_u b cap l) as [[z'|]|] eqn:E; auto. apply visit_u_order in E; [exact E|apply ZS_nil|constructor].
  Qed.

  (** As long as two places are left the bound is not felt. *)
  Lemma zstep_checked cap z (o : zop I K V) : ZWF z -> z_len z + 2 <= cap -> z_len (zstep z o) <= cap ->
    zstep_u Checked cap z o = zstep z o.
  Proof.
    intros W L L'. destruct o as [|k v|p|Q IQ q|l|l]; cbn [zstep zstep_u] in *.
    - reflexivity.
    - rewrite insert_checked by lia. reflexivity.
    - reflexivity.
    - rewrite (cut_checked cap q z W L). reflexivity.
    - destruct (from_iter_strict_back l) as [[z'|]|] eqn:E.
      + pose proof (from_iter_grown _ _ E) as (_ & _ & N & _). cbn in N.
        unfold from_iter_strict_back_u. rewrite extend_checked by (cbn; lia). unfold from_iter_strict_back in E. rewrite E. reflexivity.
      + destruct (extend_checked_val cap l z_new) as [X|X]; unfold from_iter_strict_back_u; rewrite X; [reflexivity|]. unfold from_iter_strict_back in E. rewrite E. reflexivity.
      + destruct (extend_checked_val cap l z_new) as [X|X]; unfold from_iter_strict_back_u; rewrite X; [reflexivity|]. unfold from_iter_strict_back in E. rewrite E. reflexivity.
    - destruct (zosdit_deserialize l) as [[z'|]|] eqn:E.
      + pose proof E as E0. apply deserialize_Ok_from_iter in E0. destruct E0 as (l' & -> & E0). apply from_iter_grown in E0. destruct E0 as (_ & _ & N & _). cbn in N.
        unfold zosdit_deserialize_u. rewrite visit_checked by (rewrite map_length; cbn; lia). unfold zosdit_deserialize in E. rewrite E. reflexivity.
      + destruct (visit_checked_val cap l z_new) as [X|X]; unfold zosdit_deserialize_u; rewrite X; [reflexivity|]. unfold zosdit_deserialize in E. rewrite E. reflexivity.
      + destruct (visit_checked_val cap l z_new) as [X|X]; unfold zosdit_deserialize_u; rewrite X; [reflexivity|]. unfold zosdit_deserialize in E. rewrite E. reflexivity.
  Qed.
  Lemma zrun_checked cap (os : list (zop I K V)) :
    (forall os1 os2, os = os1 ++ os2 -> z_len (zrun os1) + 2 <= cap) -> zrun_u Checked cap os = zrun os.
  Proof.
    induction os as [|o os IH] using rev_ind; intros L; [reflexivity|].
    rewrite zrun_u_snoc, zrun_snoc, IH.
    - apply zstep_checked; [apply zrun_ZWF|apply (L os [o]); reflexivity|]. rewrite <- zrun_snoc.
      specialize (L (os ++ [o]) []). rewrite app_nil_r in L. specialize (L eq_refl). lia.
    - intros os1 os2 E. apply (L os1 (os2 ++ [o])). rewrite E, <- app_assoc. reflexivity.
  Qed.

  Lemma width_order b cap (os : list (zop I K V)) : let l := map fst (zosdit_iter (zrun_u b cap os)) in
    Forall valid l /\ StronglySorted up_to l /\
    StronglySorted (fun a b => ple (istart a) (istart b) /\ ple (iend a) (iend b)) l /\
    ForallOrdPairs zero_overlap l.
  Proof.
    destruct (zrun_u_order b cap os) as [W Hok].
    apply (iter_sorted (mkZosdit (count (z_inner (zrun_u b cap os))) (z_inner (zrun_u b cap os)))).
    split; [exact W|]. split; [exact Hok|apply Nat.le_refl].
  Qed.
  Lemma width_stopped b cap (os : list (zop I K V)) Q (IQ : InclusiveInterval I Q) (q : Q) z' : valid q ->
    let z := zrun_u b cap os in zosdit_cut_u b cap q z = (z', Panic) ->
    exists l0 l1 o l2 ls r, zosdit_iter z = l0 ++ l1 ++ o ++ l2 /\ zosdit_iter z' = l0 ++ concat ls ++ r ++ l2 /\
      Forall2 (leaves q) l1 ls /\ Forall (fun e => overlap (fst e) q) (l1 ++ o) /\
      (exists k0, Forall (fun e => fst e = k0) o) /\
      (forall e, In e r -> exists e0, In e0 o /\ snd e = snd e0 /\
         forall p, covers (fst e) p -> covers (fst e0) p /\ ~ covers q p).
  Proof.
    intros Vq z E. destruct (zrun_u_order b cap os) as [W Hok]. fold z in W, Hok.
    set (z0 := mkZosdit (count (z_inner z)) (z_inner z)).
    assert (W0 : ZWF z0) by (split; [exact W|split; [exact Hok|apply Nat.le_refl]]).
    unfold zosdit_cut_u in E. rewrite (iip_valid q Vq) in E. fold (zstart q z) in E. pose proof (zstart_join q z) as J.
    apply cut_loop_u_cases in E; [|apply valid_rk, Vq|rewrite <- J in W; apply ZS_app in W; apply okvs, W].
    destruct E as [(out & X & _)|(_ & M1 & e & M2 & ps1 & ps2 & E1 & HM & E2 & E3)]; [discriminate|].
    apply (zstopped_interrupted q z0 (mkZosdit (count (z_inner z')) (z_inner z')) W0 Vq).
    exists M1, e, M2, ps1, ps2. split; [exact E1|]. split; [exact HM|]. split; [exact E2|]. split; [exact E3|]. apply Nat.le_refl.
  Qed.
End Facts.
