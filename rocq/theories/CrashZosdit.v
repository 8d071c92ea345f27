(** * CrashZosdit: an interrupted [ZosditMap::cut]. *)
From Coq Require Import List ZArith Bool Lia ZifyBool.
From Verif Require Import Base BTree UtilsModel IntervalModel NoditModel ZosditModel ZosditOps CrashModel Spec
  PointFacts IntervalFacts ListFacts NoditFacts ZosditFacts ZosditMut ZosditProofs CrashFacts.
Import ListNotations.
Open Scope Z_scope.

Section CrashZosdit.
  Context {I : Type} `{PL : PointLaws I}.
  Context {K : Type} {IK : InclusiveInterval I K} {IL : IntervalLaws I K}.
  Context {V : Type}.
  Notation store := (BTreeMap K (list V)).
  Implicit Types (z : ZosditMap K V) (k : K) (v : V) (vs : list V).

  Lemma z_before_c_cases p vs n (pre : store) f :
    (exists f', z_before_c p vs n pre f = (z_piece p vs (n, pre), Some f')) \/ z_before_c p vs n pre f = (n, pre, None).
  Proof.
    unfold z_before_c, z_piece. destruct p as [i|]; [|left; eauto].
    destruct (user_call f) as [f1|]; [|auto]. destruct (user_call f1); [left; eauto|auto].
  Qed.
  Lemma z_after_c_cases p vs n (pre : store) f :
    (exists f', z_after_c p vs n pre f = (z_piece p vs (n, pre), Some f')) \/
    z_after_c p vs n pre f = ((n + length vs)%nat, pre, None).
  Proof.
    unfold z_after_c, z_piece. destruct p as [i|]; [|left; eauto].
    destruct (user_call f) as [f1|]; [|auto]. destruct (user_call f1); [left; eauto|auto].
  Qed.
  Lemma z_before_c_enough p vs n (pre : store) f j : (2 + j <= f)%nat ->
    exists f', z_before_c p vs n pre f = (z_piece p vs (n, pre), Some f') /\ (j <= f')%nat.
  Proof.
    intros L. unfold z_before_c, z_piece. destruct p as [i|]; [|exists f; split; [reflexivity|lia]].
    destruct (user_call_enough f (S j)) as (f1 & -> & L1 & _); [lia|].
    destruct (user_call_enough f1 j) as (f2 & -> & L2 & _); [lia|]. eauto.
  Qed.
  Lemma z_after_c_enough p vs n (pre : store) f j : (2 + j <= f)%nat ->
    exists f', z_after_c p vs n pre f = (z_piece p vs (n, pre), Some f') /\ (j <= f')%nat.
  Proof.
    intros L. unfold z_after_c, z_piece. destruct p as [i|]; [|exists f; split; [reflexivity|lia]].
    destruct (user_call_enough f (S j)) as (f1 & -> & L1 & _); [lia|].
    destruct (user_call_enough f1 j) as (f2 & -> & L2 & _); [lia|]. eauto.
  Qed.
  Lemma user_calls_enough n f j : (n + j <= f)%nat -> exists f', user_calls n f = Some f' /\ (j <= f')%nat.
  Proof.
    revert f. induction n as [|n IH]; intros f L; cbn [user_calls]; [exists f; split; [reflexivity|lia]|].
    destruct (user_call_enough f (n + j)) as (f' & -> & L' & _); [lia|]. apply IH, L'.
  Qed.

  Section Q.
    Context {Q : Type} {IQ : InclusiveInterval I Q}.
    Implicit Type q : Q.

    Lemma zcut_loop_c_val q n (pre post : store) acc f z a :
      zosdit_cut_loop_c q n pre post acc f = (z, Val a) -> zosdit_cut_loop q n pre post acc = (z, Val a).
    Proof.
      revert n pre acc f. induction post as [|[k vs] post IH]; intros n pre acc f; cbn [zosdit_cut_loop_c zosdit_cut_loop]; [auto|].
      destruct (overlaps k q) as [[|]|]; [|auto|auto]. destruct (cut_interval k q) as [r|]; [|auto].
      destruct (z_before_c_cases (before_cut r) vs n pre f) as [(f1 & ->)| ->]; [|discriminate].
      destruct (z_piece (before_cut r) vs (n, pre)) as [n1 pre1].
      destruct (z_after_c_cases (after_cut r) vs n1 pre1 f1) as [(f2 & ->)| ->]; [|discriminate].
      destruct (z_piece (after_cut r) vs (n1, pre1)) as [n2 pre2].
      destruct (Nat.ltb n2 (length vs)); [auto|]. destruct (inside_cut r) as [i|].
      - destruct (user_calls (length vs) f2) as [f3|]; [|discriminate]. apply IH.
      - destruct vs as [|v vs]; [apply IH|auto].
    Qed.
    Lemma zcut_loop_c_enough q n (pre post : store) acc f : (4 * length post + length (flatten post) <= f)%nat ->
      zosdit_cut_loop_c q n pre post acc f = zosdit_cut_loop q n pre post acc.
    Proof.
      revert n pre acc f. induction post as [|[k vs] post IH]; intros n pre acc f; cbn [zosdit_cut_loop_c zosdit_cut_loop]; [auto|].
      rewrite flatten_cons, app_length, map_length. cbn [length]. intros L.
      destruct (overlaps k q) as [[|]|]; [|auto|auto]. destruct (cut_interval k q) as [r|]; [|auto].
      destruct (z_before_c_enough (before_cut r) vs n pre f (2 + length vs + (4 * length post + length (flatten post)))) as (f1 & -> & L1); [lia|].
      destruct (z_piece (before_cut r) vs (n, pre)) as [n1 pre1].
      destruct (z_after_c_enough (after_cut r) vs n1 pre1 f1 (length vs + (4 * length post + length (flatten post)))) as (f2 & -> & L2); [lia|].
      destruct (z_piece (after_cut r) vs (n1, pre1)) as [n2 pre2].
      destruct (Nat.ltb n2 (length vs)); [auto|]. destruct (inside_cut r) as [i|].
      - destruct (user_calls_enough (length vs) f2 (4 * length post + length (flatten post))) as (f3 & -> & L3); [lia|]. apply IH, L3.
      - destruct vs as [|v vs]; [apply IH; cbn in L2; lia|auto].
    Qed.

    Lemma seek_join {T} (c : K -> comparison) (l : BTreeMap K T) : fst (seek c l) ++ snd (seek c l) = l.
    Proof. induction l as [|[k v] l IH]; cbn; [reflexivity|]. destruct (c k); [reflexivity..|]. destruct (seek c l). cbn in *. congruence. Qed.
    Lemma move_prev_join {T} (c : cursor K T) : fst (move_prev c) ++ snd (move_prev c) = fst c ++ snd c.
    Proof.
      unfold move_prev. destruct c as [a b]. cbn [fst snd]. destruct (rev a) as [|x r] eqn:E.
      - apply (f_equal (@rev _)) in E. rewrite rev_involutive in E. subst a. cbn. apply app_nil_r.
      - apply (f_equal (@rev _)) in E. rewrite rev_involutive in E. subst a. cbn. rewrite <- app_assoc. reflexivity.
    Qed.
    Lemma move_next_join {T} (c : cursor K T) : fst (move_next c) ++ snd (move_next c) = fst c ++ snd c.
    Proof.
      unfold move_next. destruct c as [a [|x b]]; cbn [fst snd]; [rewrite app_nil_r; reflexivity|].
      rewrite <- app_assoc. reflexivity.
    Qed.
    Lemma upper_bound_join {T} (c : K -> comparison) (l : BTreeMap K T) : fst (upper_bound c l) ++ snd (upper_bound c l) = l.
    Proof.
      unfold upper_bound. pose proof (seek_join c l) as E. destruct (seek c l) as [a b]. cbn in E.
      destruct b as [|[k v] b]; [|destruct (c k)]; rewrite ?move_prev_join; exact E.
    Qed.
    (** Where the cut starts. *)
    Definition zstart q z : cursor K (list V) :=
      let c := upper_bound (exclusive_comp (istart q) Lt) (z_inner z) in
      match cursor_key c with None => move_next c | Some _ => c end.
    Lemma zstart_join q z : fst (zstart q z) ++ snd (zstart q z) = z_inner z.
    Proof.
      unfold zstart. set (c := upper_bound _ _). assert (E : fst c ++ snd c = z_inner z) by apply upper_bound_join.
      destruct (cursor_key c); [exact E|]. rewrite move_next_join. exact E.
    Qed.

    Lemma zcut_c_val q z f z' a : zosdit_cut_c q z f = (z', Val a) -> zosdit_cut q z = (z', Val a).
    Proof. unfold zosdit_cut_c, zosdit_cut. destruct (invalid_interval_panic q); [|auto]. apply zcut_loop_c_val. Qed.
    Lemma zcut_c_enough q z f : (5 * length (zosdit_iter z) <= f)%nat -> Forall okstore (z_inner z) ->
      zosdit_cut_c q z f = zosdit_cut q z.
    Proof.
      intros L Hok. unfold zosdit_cut_c, zosdit_cut. destruct (invalid_interval_panic q); [|auto]. apply zcut_loop_c_enough.
      fold (zstart q z). pose proof (zstart_join q z) as E. unfold zosdit_iter in L. rewrite <- E in L, Hok.
      rewrite flatten_app, app_length in L. apply Forall_app in Hok. destruct Hok as [_ Hok].
      assert (X : (length (snd (zstart q z)) <= length (flatten (snd (zstart q z))))%nat); [|lia].
      clear -Hok. induction (snd (zstart q z)) as [|[k vs] l IH]; [cbn; lia|].
      apply Forall_cons_iff in Hok. destruct Hok as [[On _] Hok]. specialize (IH Hok).
      rewrite flatten_cons, app_length, map_length. cbn [length snd] in *. destruct vs; [congruence|cbn; lia].
    Qed.

    (** Where the loop can stop. *)
    Lemma zcut_loop_c_panic q n (pre post : store) acc f z' : lo q <= hi q -> Forall okv post -> (count (pre ++ post) <= n)%nat ->
      zosdit_cut_loop_c q n pre post acc f = (z', Panic) ->
      exists M1 e M2 ps1 ps2, post = M1 ++ e :: M2 /\ Forall (meets (lo q) (hi q)) (M1 ++ [e]) /\
        zpieces q e = ps1 ++ ps2 /\ z_inner z' = pre ++ flat_map (zpieces q) M1 ++ ps1 ++ M2 /\
        (count (z_inner z') <= z_len z')%nat.
    Proof.
      intros Vq. revert n pre acc f. induction post as [|[k vs] post IH]; intros n pre acc f VP Hn; cbn [zosdit_cut_loop_c]; [discriminate|].
      apply Forall_cons_iff in VP. destruct VP as [Vk VP]. unfold okv, elo, ehi in Vk. cbn in Vk.
      rewrite overlaps_true by assumption. destruct ((lo k <=? hi q) && (lo q <=? hi k)) eqn:Ho; [|discriminate].
      destruct (cut_interval_ok k q) as (r & Er & Hb & (i & Hi & _) & Ha); try lia.
      assert (Hm : meets (lo q) (hi q) (k, vs)) by (unfold meets, elo, ehi; cbn; lia).
      assert (Ep : zpieces q (k, vs) = piece_list (before_cut r) vs ++ piece_list (after_cut r) vs).
      { unfold zpieces. cbn [fst snd]. rewrite Er. reflexivity. }
      rewrite Er.
      assert (PL1 : forall p n0 (pre0 : store), z_piece p vs (n0, pre0) =
                (match p with Some _ => n0 + length vs | None => n0 end, pre0 ++ piece_list p vs)%nat).
      { intros [j|] n0 pre0; cbn; [reflexivity|]. rewrite app_nil_r. reflexivity. }
      assert (CP : forall p, count (piece_list p vs : store) = match p with Some _ => length vs | None => 0%nat end).
      { intros [j|]; unfold count; cbn; [rewrite app_nil_r, map_length; reflexivity|reflexivity]. }
      assert (CA : forall a b : store, count (a ++ b) = (count a + count b)%nat).
      { intros a b. unfold count. rewrite flatten_app, app_length. reflexivity. }
      assert (CC : count ((k, vs) :: post) = (length vs + count post)%nat).
      { unfold count. rewrite flatten_cons, app_length, map_length. reflexivity. }
      rewrite CA, CC in Hn.
      assert (Here : forall ps1 ps2 n', zpieces q (k, vs) = ps1 ++ ps2 -> (count pre + count ps1 + count post <= n')%nat ->
                z' = mkZosdit n' ((pre ++ ps1) ++ post) ->
                exists M1 e M2 ps1 ps2, (k, vs) :: post = M1 ++ e :: M2 /\ Forall (meets (lo q) (hi q)) (M1 ++ [e]) /\
                  zpieces q e = ps1 ++ ps2 /\ z_inner z' = pre ++ flat_map (zpieces q) M1 ++ ps1 ++ M2 /\
                  (count (z_inner z') <= z_len z')%nat).
      { intros ps1 ps2 n' E1 E2 ->. exists [], (k, vs), post, ps1, ps2. split; [reflexivity|].
        split; [constructor; [exact Hm|constructor]|]. split; [exact E1|]. cbn [z_inner z_len flat_map app].
        split; [rewrite <- app_assoc; reflexivity|]. rewrite !CA. lia. }
      destruct (z_before_c_cases (before_cut r) vs n pre f) as [(f1 & ->)| ->].
      2:{ intros E. apply (Here [] (zpieces q (k, vs)) n); [reflexivity|cbn; lia|]. rewrite app_nil_r. congruence. }
      rewrite PL1.
      destruct (z_after_c_cases (after_cut r) vs (match before_cut r with Some _ => n + length vs | None => n end)%nat
                  (pre ++ piece_list (before_cut r) vs) f1) as [(f2 & ->)| ->].
      2:{ intros E. injection E as <-.
          apply (Here (piece_list (before_cut r) vs) (piece_list (after_cut r) vs)
                   (match before_cut r with Some _ => n + length vs | None => n end + length vs)%nat); [exact Ep| |reflexivity].
          pose proof (CP (before_cut r)). destruct (before_cut r); lia. }
      rewrite PL1. set (n2 := match after_cut r with Some _ => _ | None => _ end).
      assert (N2 : n2 = (n + count (zpieces q (k, vs)))%nat).
      { unfold n2. rewrite Ep, CA, !CP. destruct (before_cut r), (after_cut r); lia. }
      destruct (Nat.ltb_spec n2 (length vs)) as [L|L]; [lia|]. rewrite Hi.
      rewrite <- app_assoc, <- Ep.
      destruct (user_calls (length vs) f2) as [f3|].
      2:{ intros E. apply (Here (zpieces q (k, vs)) [] (n2 - length vs)%nat); [rewrite app_nil_r; reflexivity|lia|congruence]. }
      intros E. apply IH in E; [|exact VP|rewrite !CA; lia].
      destruct E as (M1 & e & M2 & ps1 & ps2 & -> & HM & E1 & E2 & E3).
      exists ((k, vs) :: M1), e, M2, ps1, ps2. split; [reflexivity|]. split; [constructor; [exact Hm|exact HM]|].
      split; [exact E1|]. split; [|exact E3]. rewrite E2. cbn [flat_map]. rewrite <- !app_assoc. reflexivity.
    Qed.

    Lemma ZS_replace (A X Y B : store) : ZS (A ++ X ++ B) -> ZS Y ->
      (forall y, In y Y -> exists x, In x X /\ elo x <= elo y /\ ehi y <= ehi x) -> ZS (A ++ Y ++ B).
    Proof.
      intros W WY HY. apply ZS_app in W. destruct W as (WA & W & WAX). apply ZS_app in W. destruct W as (_ & WB & WXB).
      apply ZS_app. split; [exact WA|]. split.
      - apply ZS_app. split; [exact WY|]. split; [exact WB|]. intros y b Hy Hb.
        destruct (HY y Hy) as (x & Hx & L1 & L2). specialize (WXB x b Hx Hb). lia.
      - intros a y Ha Hy. apply in_app_iff in Hy. destruct Hy as [Hy|Hy].
        + destruct (HY y Hy) as (x & Hx & L1 & L2). specialize (WAX a x Ha). rewrite in_app_iff in WAX.
          specialize (WAX (or_introl Hx)). lia.
        + apply WAX; [exact Ha|]. apply in_app_iff. auto.
    Qed.

    Lemma leaves_stores q (M : store) : lo q <= hi q -> Forall okv M -> Forall okstore M -> Forall (meets (lo q) (hi q)) M ->
      exists ls, Forall2 (leaves q) (flatten M) ls /\ flatten (flat_map (zpieces q) M) = concat ls.
    Proof.
      intros Vq VM OM HM. induction M as [|[k vs] M IH]; [exists []; split; [constructor|reflexivity]|].
      apply Forall_cons_iff in VM, OM, HM. destruct VM as [V1 VM], OM as [O1 OM], HM as [H1 HM].
      destruct (IH VM OM HM) as (ls & F & E). destruct (leaves_store q (k, vs) Vq V1 O1 H1) as (ls1 & F1 & E1).
      exists (ls1 ++ ls). split; [rewrite flatten_cons; apply Forall2_app; assumption|].
      cbn [flat_map]. rewrite flatten_app, E, E1, concat_app. reflexivity.
    Qed.

    (** The state between two steps of the loop: [M1] has been cut, [e] is being
        cut and its pieces [ps1] are back, [ps2] are not. *)
    Definition zstopped q (pre post : store) z' : Prop :=
      exists M1 e M2 ps1 ps2, post = M1 ++ e :: M2 /\ Forall (meets (lo q) (hi q)) (M1 ++ [e]) /\
        zpieces q e = ps1 ++ ps2 /\ z_inner z' = pre ++ flat_map (zpieces q) M1 ++ ps1 ++ M2 /\
        (count (z_inner z') <= z_len z')%nat.
    Lemma zstopped_interrupted q z z' : ZWF z -> valid q -> zstopped q (fst (zstart q z)) (snd (zstart q z)) z' ->
      ZWF z' /\
      exists l0 l1 o l2 ls r, zosdit_iter z = l0 ++ l1 ++ o ++ l2 /\ zosdit_iter z' = l0 ++ concat ls ++ r ++ l2 /\
        Forall2 (leaves q) l1 ls /\ Forall (fun e => overlap (fst e) q) (l1 ++ o) /\
        (exists k0, Forall (fun e => fst e = k0) o) /\
        (forall e, In e r -> exists e0, In e0 o /\ snd e = snd e0 /\
           forall p, covers (fst e) p -> covers (fst e0) p /\ ~ covers q p).
    Proof.
      intros (W & Hok & Hl) Vq. apply valid_rk in Vq.
      pose proof (zstart_join q z) as J. destruct (zstart q z) as [pre post]. cbn [fst snd] in J |- *. rewrite <- J in W, Hok, Hl.
      intros E.
      destruct E as (M1 & [k0 vs0] & M2 & ps1 & ps2 & -> & HM & Ep & Ei & Hn).
      apply Forall_app in HM. destruct HM as [HM1 Hm]. apply Forall_inv in Hm.
      replace (pre ++ M1 ++ (k0, vs0) :: M2) with (pre ++ (M1 ++ [(k0, vs0)]) ++ M2) in W, Hok by (rewrite <- app_assoc; reflexivity).
      pose proof W as W0. apply ZS_app in W. destruct W as (_ & W & _). apply ZS_app in W. destruct W as (WX & _ & _).
      pose proof Hok as Hok0. apply Forall_app in Hok. destruct Hok as [OA Hok]. apply Forall_app in Hok. destruct Hok as [OX OB].
      pose proof OX as OX0. apply Forall_app in OX. destruct OX as [O1 O0]. apply Forall_inv in O0.
      pose proof WX as WX0. apply ZS_app in WX0. destruct WX0 as (W1 & We & _). apply ZS_cons in We. destruct We as (V0 & _ & _).
      apply okvs in W1 as V1.
      assert (PM : forall e, In e (M1 ++ [(k0, vs0)]) -> ZS (zpieces q e) /\ Forall okstore (zpieces q e) /\
                Forall (fun x => elo e <= elo x /\ ehi x <= ehi e /\ ~ meets (lo q) (hi q) x) (zpieces q e)).
      { intros e He. rewrite Forall_forall in OX0. apply zpieces_ok; [exact Vq|apply (ZS_okv _ _ WX He)| |apply OX0, He].
        apply in_app_iff in He. destruct He as [He|[<-|[]]]; [|exact Hm]. rewrite Forall_forall in HM1. apply HM1, He. }
      assert (WY : ZS (flat_map (zpieces q) (M1 ++ [(k0, vs0)]))).
      { apply flat_map_ZS; [exact WX|]. intros e He. destruct (PM e He) as (P1 & _ & P3). split; [exact P1|].
        eapply Forall_impl; [|exact P3]. cbn. tauto. }
      rewrite flat_map_app in WY. cbn [flat_map] in WY. rewrite app_nil_r, Ep, app_assoc in WY.
      assert (InY : forall y, In y (flat_map (zpieces q) M1 ++ ps1) -> exists x, In x (M1 ++ [(k0, vs0)]) /\ In y (zpieces q x)).
      { intros y Hy. apply in_app_iff in Hy. destruct Hy as [Hy|Hy].
        - apply in_flat_map in Hy. destruct Hy as (x & Hx & Hy). exists x. rewrite in_app_iff. auto.
        - exists (k0, vs0). split; [apply in_app_iff; right; left; reflexivity|]. rewrite Ep. apply in_app_iff. auto. }
      split; [split; [|split]|].
      - rewrite Ei. replace (pre ++ flat_map (zpieces q) M1 ++ ps1 ++ M2) with (pre ++ (flat_map (zpieces q) M1 ++ ps1) ++ M2)
          by (rewrite <- app_assoc; reflexivity).
        apply (ZS_replace pre (M1 ++ [(k0, vs0)])); [exact W0|apply ZS_app in WY; apply WY|].
        intros y Hy. destruct (InY y Hy) as (x & Hx & Hyx). exists x. split; [exact Hx|].
        destruct (PM x Hx) as (_ & _ & P). rewrite Forall_forall in P. specialize (P y Hyx). tauto.
      - rewrite Ei. rewrite app_assoc with (l := flat_map (zpieces q) M1). apply Forall_app. split; [exact OA|]. apply Forall_app. split; [|exact OB].
        rewrite Forall_forall. intros y Hy. destruct (InY y Hy) as (x & Hx & Hyx).
        destruct (PM x Hx) as (_ & P & _). rewrite Forall_forall in P. apply P, Hyx.
      - exact Hn.
      - destruct (leaves_stores q M1 Vq V1 O1 HM1) as (ls & F & El).
        exists (flatten pre), (flatten M1), (map (fun v => (k0, v)) vs0), (flatten M2), ls, (flatten ps1).
        unfold zosdit_iter. rewrite Ei, <- J, !flatten_app, flatten_cons, El. split; [reflexivity|]. split; [reflexivity|].
        split; [exact F|]. split; [|split].
        + apply Forall_app. split.
          * rewrite Forall_forall. intros e He. apply in_flatten in He. destruct He as (vs & He & _).
            rewrite Forall_forall in HM1, V1. specialize (HM1 _ He). specialize (V1 _ He).
            apply overlap_rk. unfold meets, okv, elo, ehi in *. cbn in *. lia.
          * rewrite Forall_forall. intros e He. apply in_map_iff in He. destruct He as (v & <- & _). cbn [fst].
            apply overlap_rk. unfold meets, okv, elo, ehi in *. cbn in *. lia.
        + exists k0. rewrite Forall_forall. intros e He. apply in_map_iff in He. destruct He as (v & <- & _). reflexivity.
        + intros e He. apply in_flatten in He. destruct He as (vs & He & Hv).
          destruct (zpieces_keys q k0 vs0 Vq V0 Hm) as (ks & Hk & Ek).
          assert (Hz : In (fst e, vs) (zpieces q (k0, vs0))) by (rewrite Ep; apply in_app_iff; auto).
          rewrite Ek in Hz. apply in_map_iff in Hz. destruct Hz as (k' & Ek' & Hk'). injection Ek' as E1 E2. subst vs.
          exists (k0, snd e). split; [apply in_map_iff; exists (snd e); auto|]. split; [reflexivity|]. cbn [fst].
          unfold meets, okv, elo, ehi in *. cbn in *.
          destruct (piece_keys_in q k0 ks k' Hk Hk' Vq V0 (proj1 Hm) (proj2 Hm)) as (L1 & L2 & L3).
          rewrite <- E1. intros p Hp. apply covers_rk in Hp. rewrite !covers_rk. lia.
    Qed.
    Lemma zcut_c_interrupted q z f z' : ZWF z -> valid q -> zosdit_cut_c q z f = (z', Panic) ->
      ZWF z' /\
      exists l0 l1 o l2 ls r, zosdit_iter z = l0 ++ l1 ++ o ++ l2 /\ zosdit_iter z' = l0 ++ concat ls ++ r ++ l2 /\
        Forall2 (leaves q) l1 ls /\ Forall (fun e => overlap (fst e) q) (l1 ++ o) /\
        (exists k0, Forall (fun e => fst e = k0) o) /\
        (forall e, In e r -> exists e0, In e0 o /\ snd e = snd e0 /\
           forall p, covers (fst e) p -> covers (fst e0) p /\ ~ covers q p).
    Proof.
      intros Wf Vq E. apply zstopped_interrupted; [exact Wf|exact Vq|]. destruct Wf as (W & Hok & Hl).
      unfold zosdit_cut_c in E. rewrite (iip_valid _ Vq) in E. apply valid_rk in Vq. fold (zstart q z) in E.
      pose proof (zstart_join q z) as J. destruct (zstart q z) as [pre post]. cbn [fst snd] in *. rewrite <- J in W, Hl.
      apply zcut_loop_c_panic in E; [exact E|exact Vq|apply ZS_app in W; apply okvs, W|exact Hl].
    Qed.

    Lemma zcut_c_ZWF q z f : ZWF z -> ZWF (fst (zosdit_cut_c q z f)).
    Proof.
      intros Wf. destruct (zosdit_cut_c q z f) as [z' [a|]] eqn:E; cbn [fst].
      - apply zcut_c_val in E. pose proof (cut_ZWF q z Wf) as W'. rewrite E in W'. exact W'.
      - destruct (valid_dec q) as [Vq|Nq]; [apply (zcut_c_interrupted q z f z' Wf Vq E)|].
        unfold zosdit_cut_c in E. rewrite (iip_invalid _ Nq) in E. congruence.
    Qed.
  End Q.

  Lemma zstep_c_ZWF z (o : zop I K V) f : ZWF z -> ZWF (zstep_c z o f).
  Proof.
    intros Wf. pose proof (zstep_ZWF z o Wf) as W'. destruct o as [|k v|p|Q IQ q|l|l]; try exact W'. apply zcut_c_ZWF, Wf.
  Qed.
  Lemma zrun_c_ZWF (os : list (zop I K V * nat)) : ZWF (zrun_c os).
  Proof.
    unfold zrun_c. assert (W : ZWF (z_new : ZosditMap K V)) by apply new_ZWF. revert W. generalize (z_new : ZosditMap K V).
    induction os as [|[o f] os IH]; intros z W; [exact W|]. cbn. apply IH, zstep_c_ZWF, W.
  Qed.
End CrashZosdit.
