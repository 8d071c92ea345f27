(** * CostZosdit: how often the calls of a ZosditMap or a Gqdit change the tree. *)
From Coq Require Import List ZArith Bool Lia ZifyBool Arith.
From Verif Require Import Base BTree UtilsModel IntervalModel NoditModel NoditOps ZosditModel ZosditOps GqditModel GqditOps Spec Ledger
  PointFacts IntervalFacts ListFacts NoditFacts NoditQueries NoditMutations NoditMerges NoditInv NoditMore NoditSize
  ZosditFacts ZosditMut ZosditProofs GqditFacts CrashModel CrashFacts CrashZosdit TraceModel TraceSpec TraceFacts TraceZosdit TraceGqdit CostOps CostFacts.
Import ListNotations.
Open Scope nat_scope.

Section Lists.
  Context {T : Type}.
  (** Sizes differing by at most one. *)
  Definition near (l l' : list T) : Prop := length l <= S (length l') /\ length l' <= S (length l).
  Lemma near_balance t x z : path near t x z -> length z + tree_removes t = length x + tree_adds t.
  Proof.
    intros P. induction P as [x|x y l z [R1 R2] P IH]; [reflexivity|].
    destruct (path_head _ _ _ _ P) as (r & ->). rewrite added_cons, removed_cons.
    destruct (Nat.ltb_spec (length x) (length y)), (Nat.ltb_spec (length y) (length x)); lia.
  Qed.
  Lemma near_refl (l : list T) : near l l.
  Proof. unfold near. lia. Qed.
  Lemma added_two (s s' : list T) : near s s' -> tree_adds [s; s'] + length s = Nat.max (length s) (length s').
  Proof. intros [N1 N2]. cbn [tree_adds]. destruct (Nat.ltb_spec (length s) (length s')); lia. Qed.
End Lists.

Section Zosdit.
  Context {I : Type} `{PL : PointLaws I}.
  Context {K : Type} {IK : InclusiveInterval I K} {IL : IntervalLaws I K}.
  Context {V : Type}.
  Notation store := (list (K * list V)).
  Implicit Types (z : ZosditMap K V).

  Section Q.
    Context {Q : Type} {IQ : InclusiveInterval I Q}.
    Implicit Type q : Q.
    Lemma loop_head q n (pre post : store) : exists r, ztree (zosdit_cut_loop_t q n pre post) = (pre ++ post) :: r.
    Proof. destruct post as [|[k vs] post]; cbn [zosdit_cut_loop_t ztree map z_inner]; eauto. Qed.
    Lemma zloop_cost q n (pre post : store) acc : (lo q <= hi q)%Z -> ZS post -> count (pre ++ post) <= n ->
      path near (ztree (zosdit_cut_loop_t q n pre post)) (pre ++ post) (z_inner (fst (zosdit_cut_loop q n pre post acc))) /\
      tree_adds (ztree (zosdit_cut_loop_t q n pre post)) <= 2 /\
      (Forall (fun e => (lo q <= elo e)%Z) post -> tree_adds (ztree (zosdit_cut_loop_t q n pre post)) <= 1) /\
      (Forall (fun e => (hi q < elo e)%Z) post -> tree_adds (ztree (zosdit_cut_loop_t q n pre post)) = 0).
    Proof.
      intros Vq. revert n pre acc. induction post as [|[k vs] post IH]; intros n pre acc VP Hn.
      { cbn. split; [constructor|]. split; [lia|]. split; intros; lia. }
      apply ZS_cons in VP. destruct VP as (Vk & VP & Hp). unfold elo, ehi in Vk. cbn [fst] in Vk.
      cbn [zosdit_cut_loop_t zosdit_cut_loop].
      rewrite overlaps_true by assumption. destruct ((lo k <=? hi q)%Z && (lo q <=? hi k)%Z) eqn:Ho.
      2:{ cbn. split; [constructor|]. split; [lia|]. split; intros; lia. }
      destruct (cut_interval_ok k q) as (r & Er & Hb & (i & Hi & _) & Ha); try lia.
      rewrite Er.
      assert (PL1 : forall p n0 (pre0 : store), z_piece p vs (n0, pre0) =
                (match p with Some _ => n0 + length vs | None => n0 end, pre0 ++ piece_list p vs)%nat).
      { intros [j|] n0 pre0; cbn; [reflexivity|]. rewrite app_nil_r. reflexivity. }
      rewrite !PL1. cbn [fst snd].
      set (n1 := match before_cut r with Some _ => n + length vs | None => n end).
      set (n2 := match after_cut r with Some _ => n1 + length vs | None => n1 end).
      assert (Hl : length vs <= n).
      { unfold count in Hn. rewrite flatten_app, flatten_cons, !app_length, map_length in Hn. lia. }
      assert (H1 : n <= n1) by (unfold n1; destruct (before_cut r); lia).
      assert (H2 : n1 <= n2) by (unfold n2; destruct (after_cut r); lia).
      destruct (Nat.ltb_spec n2 (length vs)) as [L|L]; [lia|]. rewrite Hi.
      set (pre1 := (pre ++ piece_list (before_cut r) vs) ++ piece_list (after_cut r) vs).
      assert (Hn2 : count (pre1 ++ post) <= n2 - length vs).
      { assert (CP : forall p, count (piece_list p vs : store) = match p with Some _ => length vs | None => 0 end).
        { intros [j|]; unfold count; cbn; [rewrite app_nil_r, map_length; reflexivity|reflexivity]. }
        assert (CA : forall a b : store, count (a ++ b) = count a + count b).
        { intros a b. unfold count. rewrite flatten_app, app_length. reflexivity. }
        assert (CC : count ((k, vs) :: post) = length vs + count post).
        { unfold count. rewrite flatten_cons, app_length, map_length. reflexivity. }
        unfold pre1. rewrite !CA, !CP in *. rewrite CC in Hn. unfold n2, n1. destruct (before_cut r), (after_cut r); lia. }
      specialize (IH (n2 - length vs) pre1 (acc ++ map (fun v => (ifrom i, v)) vs) VP Hn2).
      destruct IH as (P & A2 & A1 & A0). destruct (loop_head q (n2 - length vs) pre1 post) as (r' & Er').
      assert (TR : ztree (mkZosdit n (pre ++ (k, vs) :: post) :: mkZosdit n (pre ++ post) ::
          mkZosdit n1 ((pre ++ piece_list (before_cut r) vs) ++ post) :: mkZosdit n2 ((pre ++ piece_list (before_cut r) vs) ++ post) ::
          mkZosdit n2 (pre1 ++ post) :: mkZosdit (n2 - length vs) (pre1 ++ post) :: zosdit_cut_loop_t q (n2 - length vs) pre1 post)
        = (pre ++ (k, vs) :: post) :: (pre ++ post) :: ((pre ++ piece_list (before_cut r) vs) ++ post) :: ((pre ++ piece_list (before_cut r) vs) ++ post) ::
          (pre1 ++ post) :: (pre1 ++ post) :: ztree (zosdit_cut_loop_t q (n2 - length vs) pre1 post)) by reflexivity.
      rewrite TR. clear TR.
      assert (AD : tree_adds ((pre ++ (k, vs) :: post) :: (pre ++ post) :: ((pre ++ piece_list (before_cut r) vs) ++ post) :: ((pre ++ piece_list (before_cut r) vs) ++ post) ::
          (pre1 ++ post) :: (pre1 ++ post) :: ztree (zosdit_cut_loop_t q (n2 - length vs) pre1 post)) =
          (if before_cut r then 1 else 0) + (if after_cut r then 1 else 0) + tree_adds (ztree (zosdit_cut_loop_t q (n2 - length vs) pre1 post))).
      { rewrite Er', !added_cons. unfold pre1. rewrite !app_length. cbn [length].
        destruct (before_cut r), (after_cut r); cbn [piece_list length];
          repeat match goal with |- context [?x <? ?y] => destruct (Nat.ltb_spec x y) end; lia. }
      rewrite AD. split; [|].
      - assert (N : forall a b c : store, length b <= 1 -> near (a ++ c) ((a ++ b) ++ c)).
        { intros a b c Lb. unfold near. rewrite !app_length. lia. }
        eapply path_step; [|eapply path_step; [|eapply path_step; [|eapply path_step; [|eapply path_step; [|eapply path_step; [|exact P]]]]]].
        + unfold near. rewrite !app_length. cbn [length]. lia.
        + apply N. destruct (before_cut r); cbn; lia.
        + apply near_refl.
        + apply N. destruct (after_cut r); cbn; lia.
        + apply near_refl.
        + apply near_refl.
      - assert (B0 : before_cut r <> None -> (lo k < lo q)%Z) by (clear Ha; destruct (before_cut r); [intros _; apply Hb|congruence]).
        assert (A0' : after_cut r <> None -> (hi q < hi k)%Z) by (clear Hb; destruct (after_cut r); [intros _; apply Ha|congruence]).
        assert (Rest0 : (hi q < hi k)%Z -> tree_adds (ztree (zosdit_cut_loop_t q (n2 - length vs) pre1 post)) = 0).
        { intros X. apply A0. rewrite Forall_forall in *. intros e He. specialize (Hp e He). unfold ehi in Hp. cbn [fst] in Hp. lia. }
        assert (Rest1 : tree_adds (ztree (zosdit_cut_loop_t q (n2 - length vs) pre1 post)) <= 1).
        { apply A1. rewrite Forall_forall in *. intros e He. specialize (Hp e He). unfold ehi in Hp. cbn [fst] in Hp. lia. }
        split; [|split].
        + destruct (after_cut r); [rewrite Rest0 by (apply A0'; discriminate); destruct (before_cut r); lia|]. destruct (before_cut r); lia.
        + intros F. apply Forall_cons_iff in F. destruct F as [F _]. unfold elo in F. cbn [fst] in F.
          destruct (before_cut r); [exfalso; specialize (B0 ltac:(discriminate)); lia|].
          destruct (after_cut r); [rewrite Rest0 by (apply A0'; discriminate); lia|lia].
        + intros F. exfalso. apply Forall_cons_iff in F. destruct F as [F _]. unfold elo in F. cbn [fst] in F. lia.
    Qed.
    Lemma zcut_cost q z : ZWF z ->
      path near (ztree (zosdit_cut_t q z)) (z_inner z) (z_inner (fst (zosdit_cut q z))) /\ tree_adds (ztree (zosdit_cut_t q z)) <= 2.
    Proof.
      intros (W & Hok & Hl). unfold zosdit_cut_t, zosdit_cut. destruct (valid_dec q) as [Vq|Nq]; [|rewrite (iip_invalid _ Nq); cbn; split; [constructor|lia]].
      rewrite (iip_valid _ Vq). apply valid_rk in Vq. fold (zstart q z).
      pose proof (zstart_join q z) as J. destruct (zstart q z) as [pre post]. cbn [fst snd] in *. unfold count in Hl. rewrite <- J in W, Hl.
      apply ZS_app in W. destruct W as (_ & W & _).
      destruct (zloop_cost q (z_len z) pre post [] Vq W Hl) as (P & A & _).
      destruct (loop_head q (z_len z) pre post) as (r' & Er'). cbn [ztree map]. fold (ztree (zosdit_cut_loop_t q (z_len z) pre post)).
      split.
      - econstructor; [|exact P]. rewrite J. apply near_refl.
      - cbn [map] in *. unfold ztree in *. rewrite Er' in A |- *. unfold NoditMap, BTreeMap in *. rewrite added_cons.
        rewrite J, Nat.ltb_irrefl in *. exact A.
    Qed.
  End Q.

  Lemma entry_push_near k (v : V) (l : store) : forall (pre : store) l', entry_push k v pre l = Val l' ->
    length (pre ++ l) <= length l' <= S (length (pre ++ l)).
  Proof.
    induction l as [|[k' vs] l IH]; intros pre l'; cbn [entry_push].
    - intros E. injection E as <-. rewrite !app_length. cbn. lia.
    - destruct (entry_comp k' k) as [[| |]|]; [| | |discriminate].
      + intros E. injection E as <-. rewrite !app_length. cbn [length]. lia.
      + intros E. injection E as <-. rewrite !app_length. cbn [length]. lia.
      + intros E. apply IH in E. rewrite !app_length in *. cbn [length] in *. lia.
  Qed.
  Lemma two_states (s s' : store) n : near s s' -> length s' <= n + length s ->
    path near [s; s'] s s' /\ tree_adds [s; s'] <= n.
  Proof.
    intros N L. split; [econstructor; [exact N|constructor]|]. apply added_two in N. lia.
  Qed.
  Lemma last_value_join z p : fst (last_value_cursor z p) ++ snd (last_value_cursor z p) = z_inner z.
  Proof.
    unfold last_value_cursor. set (c := lower_bound _ _). assert (E : fst c ++ snd c = z_inner z) by apply seek_join.
    destruct (cursor_key c); [exact E|]. rewrite move_prev_join. exact E.
  Qed.
  Lemma zcall_cost z (o : zop I K V) : ZWF z -> by_values o ->
    path near (ztree (ztrace z o)) (z_inner z) (z_inner (zstep z o)) /\ tree_adds (ztree (ztrace z o)) <= at_most_added_z o.
  Proof.
    intros W By. destruct o as [|k v|p|Q IQ q|l|l]; try destruct By; cbn [at_most_added_z].
    - cbn [ztrace ztree map]. cbn [zstep].
      assert (L : length (z_inner z) <= length (z_inner (fst (insert_strict_back k v z))) <= S (length (z_inner z))).
      { unfold insert_strict_back. destruct (invalid_interval_panic k); [|cbn; lia].
        destruct (is_zero_overlap z k) as [[|]|]; [|cbn; lia..].
        destruct (entry_push k v [] (z_inner z)) as [l'|] eqn:E; [|cbn; lia]. apply entry_push_near in E. exact E. }
      apply two_states; [unfold near; lia|lia].
    - cbn [ztrace ztree map]. cbn [zstep].
      assert (L : length (z_inner (fst (remove_last_value_at_point p z))) <= length (z_inner z) <= S (length (z_inner (fst (remove_last_value_at_point p z))))).
      { unfold remove_last_value_at_point. pose proof (last_value_join z p) as J. destruct (last_value_cursor z p) as [a [|[k vs] b]]; cbn [fst snd] in *; [lia|].
        destruct (contains_point k p); [|cbn; lia]. destruct (vec_pop vs) as [[x [|y ys]]|]; cbn [fst z_inner]; try lia;
        rewrite <- J, !app_length; cbn [length]; lia. }
      apply two_states; [unfold near; lia|lia].
    - apply zcut_cost, W.
  Qed.
  Lemma zcall_balance z (o : zop I K V) : ZWF z -> by_values o ->
    length (z_inner (zstep z o)) + tree_removes (ztree (ztrace z o)) = length (z_inner z) + tree_adds (ztree (ztrace z o)).
  Proof. intros W By. apply near_balance, zcall_cost; assumption. Qed.
  Lemma zwork_bound os : forall z, ZWF z -> Forall by_values os ->
    zwork z os + length (z_inner (fold_left zstep os z)) <= length (z_inner z) + 4 * length os.
  Proof.
    induction os as [|o os IH]; intros z W F; cbn [zwork fold_left length]; [lia|].
    apply Forall_cons_iff in F. destruct F as [B F]. pose proof (zcall_balance z o W B) as E.
    destruct (zcall_cost z o W B) as [_ A]. specialize (IH (zstep z o) (zstep_ZWF z o W) F).
    assert (at_most_added_z o <= 2) by (destruct o; cbn; lia). lia.
  Qed.
End Zosdit.
