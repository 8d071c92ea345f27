(** * CrashLen: the counter of a [ZosditMap] after interrupted cuts. *)
From Coq Require Import List ZArith Bool Lia ZifyBool.
From Verif Require Import Base BTree UtilsModel IntervalModel NoditModel ZosditModel ZosditOps CrashModel CrashLenOps Spec
  PointFacts IntervalFacts ListFacts NoditFacts ZosditFacts ZosditMut ZosditProofs CrashFacts CrashZosdit.
Import ListNotations.
Open Scope Z_scope.

Section CrashLen.
  Context {I : Type} `{PL : PointLaws I}.
  Context {K : Type} {IK : InclusiveInterval I K} {IL : IntervalLaws I K}.
  Context {V : Type}.
  Notation store := (BTreeMap K (list V)).
  Implicit Types (z : ZosditMap K V) (k : K) (v : V) (vs : list V).

  Lemma before_stops p vs n (pre : store) f :
    (exists f', z_before_c p vs n pre f = (z_piece p vs (n, pre), Some f')) \/
    z_before_c p vs n pre f = (n, pre, None) /\ exists i, p = Some i.
  Proof.
    unfold z_before_c, z_piece. destruct p as [i|]; [|left; eauto].
    destruct (user_call f) as [f1|]; [|eauto]. destruct (user_call f1); [left; eauto|eauto].
  Qed.
  Lemma after_stops p vs n (pre : store) f :
    (exists f', z_after_c p vs n pre f = (z_piece p vs (n, pre), Some f')) \/
    z_after_c p vs n pre f = ((n + length vs)%nat, pre, None) /\ exists i, p = Some i.
  Proof.
    unfold z_after_c, z_piece. destruct p as [i|]; [|left; eauto].
    destruct (user_call f) as [f1|]; [|eauto]. destruct (user_call f1); [left; eauto|eauto].
  Qed.

  Lemma count_app (a b : store) : count (a ++ b) = (count a + count b)%nat.
  Proof. unfold count. rewrite flatten_app, app_length. reflexivity. Qed.
  Lemma count_cons k vs (l : store) : count ((k, vs) :: l) = (length vs + count l)%nat.
  Proof. unfold count. rewrite flatten_cons, app_length, map_length. reflexivity. Qed.
  Lemma count_piece p vs : count (piece_list p vs : store) = match p with Some _ => length vs | None => 0%nat end.
  Proof. destruct p as [j|]; unfold count; cbn; [rewrite app_nil_r, map_length; reflexivity|reflexivity]. Qed.

  Section Q.
    Context {Q : Type} {IQ : InclusiveInterval I Q}.
    Implicit Type q : Q.

    Lemma loop_stopped_len q n (pre post : store) acc f z' : lo q <= hi q -> Forall okv post -> Forall okstore post ->
      (count (pre ++ post) <= n)%nat ->
      zosdit_cut_loop_c q n pre post acc f = (z', Panic) ->
      exists x, (x <= 2)%nat /\ (z_len z' + count (pre ++ post) = n + count (z_inner z') + x)%nat.
    Proof.
      intros Vq. revert n pre acc f. induction post as [|[k vs] post IH]; intros n pre acc f VP OP Hn; cbn [zosdit_cut_loop_c]; [discriminate|].
      apply Forall_cons_iff in VP. destruct VP as [Vk VP]. unfold okv, elo, ehi in Vk. cbn in Vk.
      apply Forall_cons_iff in OP. destruct OP as [[_ Ok] OP]. unfold elo, ehi in Ok. cbn in Ok.
      rewrite overlaps_true by assumption. destruct ((lo k <=? hi q) && (lo q <=? hi k)) eqn:Ho; [|discriminate].
      destruct (cut_interval_ok k q) as (r & Er & Hb & (i & Hi & _) & Ha); try lia.
      rewrite Er.
      assert (PL1 : forall p n0 (pre0 : store), z_piece p vs (n0, pre0) =
                (match p with Some _ => n0 + length vs | None => n0 end, pre0 ++ piece_list p vs)%nat).
      { intros [j|] n0 pre0; cbn; [reflexivity|]. rewrite app_nil_r. reflexivity. }
      pose proof (count_piece (before_cut r) vs) as CB. pose proof (count_piece (after_cut r) vs) as CA.
      rewrite count_app, count_cons in *.
      assert (One : (exists b, before_cut r = Some b) \/ (exists a, after_cut r = Some a) -> length vs = 1%nat).
      { intros [(b & E)|(a & E)].
        - rewrite E in Hb. destruct Ok as (v & ->); [lia|reflexivity].
        - rewrite E in Ha. destruct Ok as (v & ->); [lia|reflexivity]. }
      destruct (before_stops (before_cut r) vs n pre f) as [(f1 & ->)|(-> & Hs)].
      2:{ intros E. injection E as <-. cbn [z_len z_inner]. rewrite count_app. exists 1%nat. rewrite One by auto. split; lia. }
      rewrite PL1.
      destruct (after_stops (after_cut r) vs (match before_cut r with Some _ => n + length vs | None => n end)%nat
                  (pre ++ piece_list (before_cut r) vs) f1) as [(f2 & ->)|(-> & Hs)].
      2:{ intros E. injection E as <-. cbn [z_len z_inner]. rewrite !count_app, CB. exists 2%nat. rewrite One by auto.
          split; [lia|]. destruct (before_cut r); lia. }
      rewrite PL1. set (n2 := match after_cut r with Some _ => _ | None => _ end).
      assert (N2 : n2 = (n + count (piece_list (before_cut r) vs : store) + count (piece_list (after_cut r) vs : store))%nat).
      { unfold n2. rewrite CA, CB. destruct (before_cut r), (after_cut r); lia. }
      destruct (Nat.ltb_spec n2 (length vs)) as [L|L]; [lia|]. rewrite Hi.
      destruct (user_calls (length vs) f2) as [f3|].
      2:{ intros E. injection E as <-. cbn [z_len z_inner]. rewrite !count_app. exists 0%nat. split; lia. }
      intros E. apply IH in E; [|exact VP|exact OP|rewrite !count_app; lia].
      destruct E as (x & Lx & Ex). exists x. split; [exact Lx|]. rewrite !count_app in Ex. lia.
    Qed.

    Lemma stopped_len z q f z' : ZWF z -> valid q -> zosdit_cut_c q z f = (z', Panic) ->
      exists x, (x <= 2)%nat /\ (z_len z' + length (zosdit_iter z) = z_len z + length (zosdit_iter z') + x)%nat.
    Proof.
      intros (W & Hok & Hl) Vq E. unfold zosdit_cut_c in E. rewrite (iip_valid _ Vq) in E. apply valid_rk in Vq. fold (zstart q z) in E.
      unfold zosdit_iter. fold (count (z_inner z)). fold (count (z_inner z')).
      pose proof (zstart_join q z) as J. destruct (zstart q z) as [pre post]. cbn [fst snd] in *. rewrite <- J in W, Hl, Hok |- *.
      apply ZS_app in W. destruct W as (_ & W & _). apply Forall_app in Hok. destruct Hok as [_ Hok].
      apply loop_stopped_len in E; [exact E|exact Vq|apply okvs, W|exact Hok|exact Hl].
    Qed.
    Lemma returned_len z q f z' out : ZWF z -> zosdit_cut_c q z f = (z', Val out) ->
      (z_len z' + length (zosdit_iter z) = z_len z + length (zosdit_iter z'))%nat.
    Proof.
      intros Wf E. apply zcut_c_val in E.
      destruct (valid_dec q) as [Vq|Vq]; [|rewrite cut_invalid in E by exact Vq; discriminate].
      destruct (cuttable_dec z q) as [C|C].
      - destruct (cut_done z q Wf Vq C) as (z1 & out1 & E1 & _ & _ & _ & _ & N). rewrite E in E1. injection E1 as -> ->. exact N.
      - rewrite (cut_not_done z q Wf Vq C) in E. injection E as <- _. reflexivity.
    Qed.
  End Q.

  Lemma tally_len os : forall z n s, ZWF z ->
    (count (z_inner z) + n <= z_len z <= count (z_inner z) + n + 2 * s)%nat ->
    let z' := fold_left (fun z of => zstep_c z (fst of) (snd of)) os z in
    (count (z_inner z') + fst (tally z n s os) <= z_len z' <= count (z_inner z') + fst (tally z n s os) + 2 * snd (tally z n s os))%nat.
  Proof.
    induction os as [|[o f] os IH]; intros z n s Wf Hn; [exact Hn|]. cbn [fold_left tally fst snd].
    pose proof (zstep_c_ZWF z o f Wf) as Wf'.
    enough (X : (count (z_inner (zstep_c z o f)) + (if starts_afresh o then 0 else if removes_value z o then S n else n) <=
              z_len (zstep_c z o f) <= count (z_inner (zstep_c z o f)) + (if starts_afresh o then 0 else if removes_value z o then S n else n) +
              2 * (if starts_afresh o then 0 else if stopped_cut z o f then S s else s))%nat).
    { cbv zeta. destruct (starts_afresh o); apply IH; assumption. }
    clear IH. destruct o as [|k v|p|Q IQ q|l|l]; cbn [zstep_c zstep starts_afresh removes_value stopped_cut].
    - cbn. lia.
    - destruct (insert_back_cases z k v Wf) as [(_ & ->)|[(_ & _ & ->)|(_ & _ & l1 & l2 & k' & inner' & -> & E1 & E2 & _)]]; try exact Hn.
      cbn [fst z_len z_inner]. unfold count in *. rewrite E1 in Hn. rewrite E2. rewrite app_length in *. cbn [length]. lia.
    - destruct (remove_last_cases z p Wf) as [(l1 & l2 & k & v & z' & _ & -> & E1 & E2 & _ & _ & N & _)|(_ & -> & _)]; [|exact Hn].
      cbn [fst snd]. unfold count in *. rewrite E1 in Hn. rewrite E2, N. rewrite app_length in *. cbn [length] in Hn. lia.
    - destruct (zosdit_cut_c q z f) as [z' [out|]] eqn:E; cbn [fst snd].
      + pose proof (returned_len z q f z' out Wf E) as N. unfold zosdit_iter in N. fold (count (z_inner z)) (count (z_inner z')) in N. lia.
      + destruct (valid_dec q) as [Vq|Nq].
        * assert (Eq : is_valid q = true) by (apply is_valid_true; exact Vq). rewrite Eq.
          destruct (stopped_len z q f z' Wf Vq E) as (x & Lx & N). unfold zosdit_iter in N. fold (count (z_inner z)) (count (z_inner z')) in N. lia.
        * destruct (is_valid q) eqn:Eq; [apply is_valid_true in Eq; contradiction|].
          unfold zosdit_cut_c in E. rewrite (iip_invalid _ Nq) in E. injection E as <-. exact Hn.
    - destruct (from_iter_strict_back l) as [[z'|]|] eqn:E; try exact Hn. apply from_iter_grown, grown_new_len in E. lia.
    - destruct (zosdit_deserialize l) as [[z'|]|] eqn:E; try exact Hn. apply deserialize_Ok_from_iter in E. destruct E as (l' & _ & E).
      apply from_iter_grown, grown_new_len in E. lia.
  Qed.
  Lemma run_tally (os : list (zop I K V * nat)) : (length (zosdit_iter (zrun_c os)) + removed_c os <= zosdit_len (zrun_c os) <=
    length (zosdit_iter (zrun_c os)) + removed_c os + 2 * stopped_c os)%nat.
  Proof. apply (tally_len os (z_new : ZosditMap K V) 0 0 new_ZWF). cbn. lia. Qed.
End CrashLen.
