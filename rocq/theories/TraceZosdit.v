(** * TraceZosdit: the states of a [ZosditMap] call. *)
From Coq Require Import List ZArith Bool Lia ZifyBool.
From Verif Require Import Base BTree UtilsModel IntervalModel NoditModel ZosditModel ZosditOps CrashModel TraceModel Spec
  PointFacts IntervalFacts ListFacts NoditFacts ZosditFacts ZosditMut ZosditProofs CrashFacts CrashZosdit.
Import ListNotations.
Open Scope Z_scope.

Section TraceZosdit.
  Context {I : Type} `{PL : PointLaws I}.
  Context {K : Type} {IK : InclusiveInterval I K} {IL : IntervalLaws I K}.
  Context {V : Type}.
  Notation store := (BTreeMap K (list V)).
  Implicit Types (z : ZosditMap K V) (k : K) (v : V) (vs : list V).

  Section Q.
    Context {Q : Type} {IQ : InclusiveInterval I Q}.
    Implicit Type q : Q.

    Lemma zcut_loop_t_states q n (pre post : store) acc s : lo q <= hi q -> Forall okv post -> (count (pre ++ post) <= n)%nat ->
      In s (zosdit_cut_loop_t q n pre post) ->
      s = mkZosdit n (pre ++ post) \/ s = fst (zosdit_cut_loop q n pre post acc) \/ zstopped q pre post s.
    Proof.
      intros Vq. revert n pre acc. induction post as [|[k vs] post IH]; intros n pre acc VP Hn; cbn [zosdit_cut_loop_t zosdit_cut_loop].
      { intros [<-|[]]. auto. }
      apply Forall_cons_iff in VP. destruct VP as [Vk VP]. unfold okv, elo, ehi in Vk. cbn in Vk.
      rewrite overlaps_true by assumption. destruct ((lo k <=? hi q) && (lo q <=? hi k)) eqn:Ho; [|intros [<-|[]]; auto].
      destruct (cut_interval_ok k q) as (r & Er & Hb & (i & Hi & _) & Ha); try lia.
      assert (Hm : meets (lo q) (hi q) (k, vs)) by (unfold meets, elo, ehi; cbn; lia).
      assert (Ep : zpieces q (k, vs) = piece_list (before_cut r) vs ++ piece_list (after_cut r) vs).
      { unfold zpieces. cbn [fst snd]. rewrite Er. reflexivity. }
      rewrite Er.
      assert (PL1 : forall p n0 (pre0 : store), z_piece p vs (n0, pre0) =
                (match p with Some _ => n0 + length vs | None => n0 end, pre0 ++ piece_list p vs)%nat).
      { intros [j|] n0 pre0; cbn; [reflexivity|]. rewrite app_nil_r. reflexivity. }
      assert (CP : forall p, count (piece_list p vs : store) = match p with Some _ => length vs | None => 0%nat end).
      { intros [j|]; unfold count; cbn; [rewrite app_nil_r, map_length; reflexivity|reflexivity]. }
      assert (CA : forall a b : store, count (a ++ b) = (count a + count b)%nat).
      { intros a b. unfold count. rewrite flatten_app, app_length. reflexivity. }
      assert (CC : count ((k, vs) :: post) = (length vs + count post)%nat).
      { unfold count. rewrite flatten_cons, app_length, map_length. reflexivity. }
      rewrite CA, CC in Hn.
      assert (Here : forall ps1 ps2 n', zpieces q (k, vs) = ps1 ++ ps2 -> (count pre + count ps1 + count post <= n')%nat ->
                s = mkZosdit n' ((pre ++ ps1) ++ post) -> zstopped q pre ((k, vs) :: post) s).
      { intros ps1 ps2 n' E1 E2 ->. exists [], (k, vs), post, ps1, ps2. split; [reflexivity|].
        split; [constructor; [exact Hm|constructor]|]. split; [exact E1|]. cbn [z_inner z_len flat_map app].
        split; [rewrite <- app_assoc; reflexivity|]. rewrite !CA. lia. }
      rewrite !PL1. cbn [fst snd].
      pose proof (CP (before_cut r)) as C1. pose proof (CP (after_cut r)) as C2.
      set (n1 := match before_cut r with Some _ => _ | None => n end) in *.
      set (n2 := match after_cut r with Some _ => (n1 + length vs)%nat | None => n1 end) in *.
      assert (N1 : n1 = (n + count (piece_list (before_cut r) vs : store))%nat) by (unfold n1; destruct (before_cut r); lia).
      assert (N2 : n2 = (n + count (zpieces q (k, vs)))%nat).
      { unfold n2. rewrite Ep, CA. destruct (after_cut r); lia. }
      assert (N3 : count (zpieces q (k, vs)) = (count (piece_list (before_cut r) vs : store) + count (piece_list (after_cut r) vs : store))%nat)
        by (rewrite Ep; apply CA).
      intros [E|[E|[E|[E|[E|E]]]]]; [left; congruence|right; right..|].
      - apply (Here [] (zpieces q (k, vs)) n); [reflexivity|cbn; lia|]. rewrite app_nil_r. congruence.
      - apply (Here (piece_list (before_cut r) vs) (piece_list (after_cut r) vs) n1); [exact Ep|lia|congruence].
      - apply (Here (piece_list (before_cut r) vs) (piece_list (after_cut r) vs) n2); [exact Ep|lia|congruence].
      - apply (Here (zpieces q (k, vs)) [] n2); [rewrite app_nil_r; reflexivity|lia|]. rewrite Ep, app_assoc. congruence.
      - destruct (Nat.ltb_spec n2 (length vs)) as [L|L]; [lia|]. rewrite Hi in E |- *.
        rewrite <- (app_assoc pre (piece_list (before_cut r) vs)), <- Ep in E |- *.
        assert (Fin : s = mkZosdit (n2 - length vs) ((pre ++ zpieces q (k, vs)) ++ post) -> zstopped q pre ((k, vs) :: post) s).
        { apply (Here (zpieces q (k, vs)) []); [rewrite app_nil_r; reflexivity|lia]. }
        destruct E as [E|E]; [right; right; apply Fin; congruence|].
        assert (E' : In s (zosdit_cut_loop_t q (n2 - length vs) (pre ++ zpieces q (k, vs)) post)) by (destruct vs; exact E).
        apply IH with (acc := acc ++ map (fun v => (ifrom i, v)) vs) in E'; [|exact VP|rewrite !CA; lia].
        destruct E' as [E'|[E'|E']]; [right; right; apply Fin, E'|right; left; exact E'|right; right].
        destruct E' as (M1 & e & M2 & ps1 & ps2 & -> & HM & E1 & E2 & E3).
        exists ((k, vs) :: M1), e, M2, ps1, ps2. split; [reflexivity|]. split; [constructor; [exact Hm|exact HM]|].
        split; [exact E1|]. split; [|exact E3]. rewrite E2. cbn [flat_map]. rewrite <- !app_assoc. reflexivity.
    Qed.
    Lemma zcut_loop_t_last q n (pre post : store) acc d :
      last (zosdit_cut_loop_t q n pre post) d = fst (zosdit_cut_loop q n pre post acc).
    Proof.
      revert n pre acc d. induction post as [|[k vs] post IH]; intros n pre acc d; [reflexivity|].
      cbn [zosdit_cut_loop_t zosdit_cut_loop]. destruct (overlaps k q) as [[|]|]; [|reflexivity..].
      destruct (cut_interval k q) as [r|]; [|reflexivity].
      set (s2 := z_piece (after_cut r) vs _). destruct s2 as [n2 pre2]. cbn [fst snd].
      destruct (Nat.ltb n2 (length vs)); [reflexivity|].
      assert (C : forall x l (d d' : ZosditMap K V), l <> [] -> last (x :: l) d = last l d').
      { intros x l. revert x. induction l as [|y l IHl]; intros x d0 d' N; [contradiction|].
        destruct l as [|w l]; [reflexivity|]. change (last (y :: w :: l) d0 = last (y :: w :: l) d').
        rewrite (IHl y d0 d0), (IHl y d' d0) by discriminate. reflexivity. }
      assert (NE : forall n0 pre0 (post0 : store), zosdit_cut_loop_t q n0 pre0 post0 <> []) by (intros ? ? [|[? ?] ?]; discriminate).
      destruct (inside_cut r) as [i|]; [|destruct vs as [|v vs]; [|reflexivity]];
        repeat (rewrite (C _ _ _ d); [|(apply NE || discriminate)]); apply IH.
    Qed.
    Lemma zcut_t_ends q z : (exists r, zosdit_cut_t q z = z :: r) /\ last (zosdit_cut_t q z) z = fst (zosdit_cut q z).
    Proof.
      unfold zosdit_cut_t, zosdit_cut. split; [eauto|]. destruct (invalid_interval_panic q); [|reflexivity].
      set (c := match cursor_key _ with Some _ => _ | None => _ end).
      rewrite <- (zcut_loop_t_last q (z_len z) (fst c) (snd c) [] z). destruct (snd c) as [|[? ?] ?]; reflexivity.
    Qed.
    Lemma zcut_t_states q z s : ZWF z -> In s (zosdit_cut_t q z) ->
      s = z \/ s = fst (zosdit_cut q z) \/ valid q /\ zstopped q (fst (zstart q z)) (snd (zstart q z)) s.
    Proof.
      intros (W & Hok & Hl). unfold zosdit_cut_t, zosdit_cut. intros [E|E]; [auto|].
      destruct (valid_dec q) as [Vq|Nq]; [|rewrite (iip_invalid _ Nq) in E; destruct E].
      rewrite (iip_valid _ Vq) in E |- *. pose proof Vq as Vq'. apply valid_rk in Vq. fold (zstart q z) in E |- *.
      pose proof (zstart_join q z) as J. destruct (zstart q z) as [pre post]. cbn [fst snd] in *. unfold count in Hl. rewrite <- J in W, Hl.
      apply zcut_loop_t_states with (acc := []) in E; [|exact Vq|apply ZS_app in W; apply okvs, W|exact Hl].
      destruct E as [E|[E|E]]; [|right; left; exact E|right; right; auto].
      left. rewrite E, J. destruct z. reflexivity.
    Qed.
    Lemma zcut_t_ZWF q z s : ZWF z -> In s (zosdit_cut_t q z) -> ZWF s.
    Proof.
      intros W Hs. destruct (zcut_t_states q z s W Hs) as [-> |[-> |[Vq X]]]; [exact W|apply cut_ZWF, W|].
      apply (zstopped_interrupted q z s W Vq X).
    Qed.
    Lemma zcut_loop_c_traced q n (pre post : store) acc f :
      In (fst (zosdit_cut_loop_c q n pre post acc f)) (zosdit_cut_loop_t q n pre post).
    Proof.
      revert n pre acc f. induction post as [|[k vs] post IH]; intros n pre acc f; [left; reflexivity|].
      cbn [zosdit_cut_loop_c zosdit_cut_loop_t].
      destruct (overlaps k q) as [[|]|]; [|left; reflexivity..]. right.
      destruct (cut_interval k q) as [r|]; [|left; reflexivity].
      destruct (z_before_c_cases (before_cut r) vs n pre f) as [(f1 & ->)| ->]; [|left; reflexivity]. right.
      destruct (z_piece (before_cut r) vs (n, pre)) as [n1 pre1].
      assert (B : fst (z_piece (after_cut r) vs (n1, pre1)) = (n1 + length vs)%nat \/ z_after_c (after_cut r) vs n1 pre1 f1 = (n1, pre1, Some f1)).
      { destruct (after_cut r); cbn; auto. }
      destruct (z_after_c_cases (after_cut r) vs n1 pre1 f1) as [(f2 & E2)|E2]; rewrite E2 in B |- *.
      2:{ destruct B as [B|B]; [|discriminate]. right. left. rewrite B. reflexivity. }
      clear B. destruct (z_piece (after_cut r) vs (n1, pre1)) as [n2 pre2]. cbn [fst snd].
      right. right. destruct (Nat.ltb n2 (length vs)); [left; reflexivity|]. right.
      destruct (inside_cut r) as [i|].
      - destruct (user_calls (length vs) f2) as [f3|]; [|left; reflexivity]. right. destruct vs; apply IH.
      - destruct vs as [|v vs]; [right; apply IH|left; reflexivity].
    Qed.
    Lemma zcut_c_traced q z f : In (fst (zosdit_cut_c q z f)) (zosdit_cut_t q z).
    Proof.
      unfold zosdit_cut_c, zosdit_cut_t. destruct (invalid_interval_panic q); [|left; reflexivity]. right. apply zcut_loop_c_traced.
    Qed.
  End Q.

  Lemma ztrace_ends z (o : zop I K V) : (exists r, ztrace z o = z :: r) /\ last (ztrace z o) z = zstep z o.
  Proof. destruct o; cbn [ztrace]; try (split; [eexists; reflexivity|reflexivity]). apply zcut_t_ends. Qed.
  Lemma ztrace_ZWF z (o : zop I K V) s : ZWF z -> In s (ztrace z o) -> ZWF s.
  Proof.
    intros W. destruct o; cbn [ztrace]; try (intros [<-|[<-|[]]]; [exact W|apply zstep_ZWF, W]). apply zcut_t_ZWF, W.
  Qed.
  Lemma ztrace_last_in z (o : zop I K V) : In (zstep z o) (ztrace z o).
  Proof.
    assert (L : forall (l : list (ZosditMap K V)) x, In (last (x :: l) z) (x :: l)).
    { induction l as [|y l IH]; intros x; [left; reflexivity|]. right. apply (IH y). }
    destruct (ztrace_ends z o) as [(r & Er) <-]. rewrite Er. apply L.
  Qed.
  Lemma zinterrupted_ZWF os z : zinterrupted_history os z -> ZWF (z : ZosditMap K V).
  Proof. intros X. induction X as [|os z o z' X IH Hz]; [apply new_ZWF|]. apply (ztrace_ZWF z o); assumption. Qed.
  Lemma zstep_c_traced z (o : zop I K V) f : In (zstep_c z o f) (ztrace z o).
  Proof.
    destruct o; try (right; left; reflexivity). apply zcut_c_traced.
  Qed.
End TraceZosdit.
