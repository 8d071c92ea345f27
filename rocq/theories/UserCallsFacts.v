(** * UserCallsFacts: how often a call runs user code. *)
From Coq Require Import List ZArith Bool Lia ZifyBool.
From Verif Require Import Base BTree UtilsModel IntervalModel NoditModel NoditOps ZosditModel ZosditOps GqditModel GqditOps CrashModel UserCallsOps Spec
  PointFacts IntervalFacts ListFacts NoditFacts NoditQueries NoditMutations NoditMerges NoditInv NoditMore ZosditFacts GqditFacts GqditProofs GqditGaps CrashFacts CrashGqdit ZosditMut ZosditProofs CrashZosdit.
Import ListNotations.
Open Scope Z_scope.

(** With what is left of the fuel. *)
Definition costs (run : nat -> outcome nat) (n : nat) : Prop :=
  forall f, match run f with Val f' => f = n + f' | Panic => f < n end%nat.
Lemma costs_makes {A} (run : nat -> outcome (A * nat)) n : costs (fun f => omap snd (run f)) n -> makes run n.
Proof.
  intros C f. specialize (C f). cbv beta in C. destruct (run f) as [[a f']|]; cbn in C; (split; intros X; [try discriminate; try lia|try reflexivity; exfalso; lia]).
Qed.
Lemma costs_makes_nat (run : nat -> outcome nat) n : costs run n -> makes run n.
Proof. intros C f. specialize (C f). cbv beta in C. destruct (run f) as [f'|]; (split; intros X; [try discriminate; try lia|try reflexivity; exfalso; lia]). Qed.

Lemma makes_unique {A} (run : nat -> outcome A) n n' : makes run n -> makes run n' -> n = n'.
Proof.
  intros M M'. destruct (Nat.lt_total n n') as [L|[E|L]]; [|exact E|]; exfalso.
  - apply M' in L. apply M in L. lia.
  - apply M in L. apply M' in L. lia.
Qed.

Lemma makes_at_most {A} (run : nat -> outcome A) n f : makes run n -> run f <> Panic -> (n <= f)%nat.
Proof. intros M N. destruct (Nat.le_gt_cases n f) as [L|L]; [exact L|]. destruct N. apply M, L. Qed.

Section Structural.
  Context {I : Type} `{Ord I} `{DiscreteFinite I}.
  Context {K : Type} `{InclusiveInterval I K}.
  Context {V : Type}.
  Implicit Types (m pre post acc : NoditMap K V) (k : K) (v : V).

  Lemma user_call_cases f : match user_call f with Some f' => f = S f' | None => f = O end.
  Proof. destruct f; reflexivity. Qed.
  Definition pieces (p : option (Interval I)) : nat := match p with Some _ => 1 | None => 0 end.
  Lemma insert_piece_length p v pre : length (insert_piece p v pre) = (length pre + pieces p)%nat.
  Proof. destruct p; cbn [insert_piece pieces]; [rewrite app_length; reflexivity|lia]. Qed.
  Lemma insert_piece_c_cost p v pre f :
    match insert_piece_c p v pre f with (pre', Some f') => pre' = insert_piece p v pre /\ f = (2 * pieces p + f')%nat | (_, None) => (f < 2 * pieces p)%nat end.
  Proof.
    unfold insert_piece_c, insert_piece, pieces. destruct p as [i|]; [|auto].
    pose proof (user_call_cases f) as E. destruct (user_call f) as [f1|]; [|lia].
    pose proof (user_call_cases f1) as E1. destruct (user_call f1) as [f2|]; [|lia]. split; [reflexivity|lia].
  Qed.
  Section Q.
    Context {Q : Type} `{InclusiveInterval I Q}.
    Implicit Types q : Q.
    Lemma cut_loop_cost q post : forall pre acc m l, cut_loop q pre post acc = (m, Val l) -> exists c p,
      length l = (length acc + c)%nat /\ (length m + c = length pre + length post + p)%nat /\
      costs (fun f => omap snd (snd (cut_loop_c q pre post acc f))) (c + 2 * p).
    Proof.
      induction post as [|[k v] post IH]; intros pre acc m l; cbn [cut_loop cut_loop_c].
      - intros [= <- <-]. exists O, O. rewrite app_length. cbn [length]. split; [lia|]. split; [lia|]. intros f. cbn. lia.
      - destruct (overlaps k q) as [[|]|]; [| |discriminate].
        + destruct (cut_interval k q) as [r|]; [|discriminate]. destruct (inside_cut r) as [i|]; [|discriminate].
          intros E. destruct (IH _ _ _ _ E) as (c & p & L1 & L2 & C). rewrite app_length in L1. cbn [length] in L1. rewrite !insert_piece_length in L2.
          exists (S c), (p + pieces (before_cut r) + pieces (after_cut r))%nat. split; [lia|]. split; [cbn [length]; lia|].
          intros f. pose proof (insert_piece_c_cost (before_cut r) v pre f) as E1.
          destruct (insert_piece_c (before_cut r) v pre f) as [pre1 [f1|]]; [|cbn [snd omap]; lia]. destruct E1 as [-> ->].
          pose proof (insert_piece_c_cost (after_cut r) v (insert_piece (before_cut r) v pre) f1) as E2.
          destruct (insert_piece_c (after_cut r) v (insert_piece (before_cut r) v pre) f1) as [pre2 [f2|]]; [|cbn [snd omap]; lia]. destruct E2 as [-> ->].
          pose proof (user_call_cases f2) as E3. destruct (user_call f2) as [f3|]; [|cbn [snd omap]; lia].
          specialize (C f3). cbv beta in C. destruct (snd (cut_loop_c _ _ _ _ f3)) as [[a f4]|]; cbn [omap snd] in *; lia.
        + intros [= <- <-]. exists O, O. rewrite app_length. split; [lia|]. split; [lia|]. intros f. cbn. lia.
    Qed.
    Lemma seek_app_length (c : K -> comparison) m : (length (fst (seek c m)) + length (snd (seek c m)) = length m)%nat.
    Proof. induction m as [|[k v] m IH]; cbn; [reflexivity|]. destruct (c k); cbn; [reflexivity..|]. destruct (seek c m); cbn in *. lia. Qed.
    Lemma cut_cost q m m' l : cut q m = (m', Val l) ->
      exists p, (length m' + length l = length m + p)%nat /\ costs (fun f => omap snd (snd (cut_c q m f))) (length l + 2 * p).
    Proof.
      unfold cut, cut_c. destruct (invalid_interval_panic q); [|discriminate]. intros E.
      destruct (cut_loop_cost q _ _ _ _ _ E) as (c & p & L1 & L2 & C). cbn [length] in L1. exists p.
      pose proof (seek_app_length (overlapping_comp (istart q)) m) as L3. unfold lower_bound in *.
      replace (length l) with c by lia. split; [lia|exact C].
    Qed.
  End Q.
  Lemma overwrite_cost k v m m' l : insert_overwrite k v m = (m', Val l) ->
    exists c, cut k m = (c, Val l) /\ forall n, costs (fun f => omap snd (snd (cut_c k m f))) n -> costs (fun f => omap snd (snd (insert_overwrite_c k v m f))) n.
  Proof.
    unfold insert_overwrite, insert_overwrite_c. destruct (invalid_interval_panic k); [|discriminate].
    destruct (cut k m) as [m1 [x|]] eqn:E; [|discriminate]. intros X. injection X as _ ->. exists m1. split; [reflexivity|].
    intros n C f. specialize (C f). cbv beta in C. destruct (cut_c k m f) as [m2 [[b g]|]]; exact C.
  Qed.

  (** The merging insertions. *)
  Lemma pure_comps_cost k v gs ge rs re m m' r : insert_merge_with_comps k v gs ge rs re m = (m', Val r) ->
    costs (fun f => omap snd (snd (insert_merge_with_comps_c k v (pure_get gs) (pure_get ge) (pure_remove rs) (pure_remove re) m f)))
      (match gs m v, ge m v with None, None => 0 | _, _ => 1 end).
  Proof.
    unfold insert_merge_with_comps, insert_merge_with_comps_c, pure_get, pure_remove. destruct (invalid_interval_panic k); [|discriminate].
    destruct (remove_overlapping k m) as [m1 [x|]]; [|discriminate]. intros _ f. unfold returning_c.
    pose proof (user_call_cases f) as E. destruct (gs m v), (ge m v); try (destruct (user_call f) as [f1|]; cbn; lia).
  Qed.
  Definition found (o : option (K * V)) : nat := match o with Some _ => 1 | None => 0 end.
  Lemma get_if_equal_cost veq c m v f : match get_if_equal_c veq c m v f with
    | Some (o, f') => o = get_if_equal veq c m v /\ f = (found (get_key_value c m) + f')%nat
    | None => (f < found (get_key_value c m))%nat end.
  Proof.
    unfold get_if_equal_c, get_if_equal. pose proof (user_call_cases f) as E.
    destruct (get_key_value c m) as [[k w]|]; cbn [found]; [|auto]. destruct (user_call f) as [f1|]; [|lia]. split; [reflexivity|lia].
  Qed.
  Lemma remove_if_equal_cost veq c m v f : match remove_if_equal_c veq c m v f with
    | (m', Some f') => m' = (if is_some (get_if_equal veq c m v) then fst (remove c m) else m) /\ f = (found (get_key_value c m) + f')%nat
    | (_, None) => (f < found (get_key_value c m))%nat end.
  Proof.
    unfold remove_if_equal_c. pose proof (get_if_equal_cost veq c m v f) as E. destruct (get_if_equal_c veq c m v f) as [[o f']|]; [|exact E].
    destruct E as [-> ->]. auto.
  Qed.
  Lemma equal_comps_cost veq k v sc ec m m1 rem : invalid_interval_panic k = Val tt -> remove_overlapping k m = (m1, Val rem) ->
    forall m2, m2 = (if is_some (get_if_equal veq sc m1 v) then fst (remove sc m1) else m1) ->
    costs (fun f => omap snd (snd (insert_merge_with_comps_c k v (get_if_equal_c veq sc) (get_if_equal_c veq ec) (remove_if_equal_c veq sc) (remove_if_equal_c veq ec) m f)))
      (found (get_key_value sc m) + found (get_key_value ec m) + match get_if_equal veq sc m v, get_if_equal veq ec m v with None, None => 0 | _, _ => 1 end +
       found (get_key_value sc m1) + found (get_key_value ec m2)).
  Proof.
    intros V1 R m2 D f. unfold insert_merge_with_comps_c. rewrite V1, R.
    pose proof (get_if_equal_cost veq sc m v f) as E1. destruct (get_if_equal_c veq sc m v f) as [[o1 f1]|]; [|cbn [snd omap]; lia]. destruct E1 as [-> ->].
    pose proof (get_if_equal_cost veq ec m v f1) as E2. destruct (get_if_equal_c veq ec m v f1) as [[o2 f2]|]; [|cbn [snd omap]; lia]. destruct E2 as [-> ->].
    set (n := match get_if_equal veq sc m v, get_if_equal veq ec m v with None, None => 0%nat | _, _ => 1%nat end).
    assert (E3 : match returning_c k (get_if_equal veq sc m v) (get_if_equal veq ec m v) f2 with Some (_, f3) => f2 = (n + f3)%nat | None => (f2 < n)%nat end).
    { unfold returning_c, n. pose proof (user_call_cases f2) as E. destruct (get_if_equal veq sc m v), (get_if_equal veq ec m v); try (destruct (user_call f2); lia). }
    destruct (returning_c k (get_if_equal veq sc m v) (get_if_equal veq ec m v) f2) as [[r f3]|]; [|cbn [snd omap]; lia]. subst f2.
    pose proof (remove_if_equal_cost veq sc m1 v f3) as E4. destruct (remove_if_equal_c veq sc m1 v f3) as [m3 [f4|]]; [|cbn [snd omap]; lia]. destruct E4 as [E4 ->].
    assert (m3 = m2) as -> by (subst m3 m2; reflexivity).
    pose proof (remove_if_equal_cost veq ec m2 v f4) as E5. destruct (remove_if_equal_c veq ec m2 v f4) as [m4 [f5|]]; [|cbn [snd omap]; lia]. destruct E5 as [-> ->].
    cbn [snd omap]. lia.
  Qed.
End Structural.

Lemma ok_cost {S A B} (X : nat -> S * outcome (A * nat)) n : costs (fun f => omap snd (snd (X f))) n ->
  costs (fun f => omap snd (snd (let (m, r) := X f in (m, omap (fun x : A * nat => (@Ok A B (fst x), snd x)) r)))) n.
Proof. intros C f. specialize (C f). cbv beta in *. destruct (X f) as [m [[a f']|]]; exact C. Qed.

Section Semantic.
  Context {I : Type} `{PL : PointLaws I}.
  Context {K : Type} {IK : InclusiveInterval I K} {IL : IntervalLaws I K}.
  Context {V : Type}.
  Notation entry := (K * V)%type.
  Implicit Types (m A B M : NoditMap K V).

  Lemma within_rk (k : K) p : within k p = true <-> lo k <= rk p <= hi k.
  Proof. unfold within, lo, hi. rewrite !leb_rk. lia. Qed.
  Lemma at_point_app A B p : at_point (A ++ B) p = at_point A p ++ at_point B p.
  Proof. unfold at_point, iter. rewrite filter_app, map_app. reflexivity. Qed.
  Lemma at_point_none m p : (forall e, In e m -> ~ (elo e <= rk p <= ehi e)) -> at_point m p = [].
  Proof.
    unfold at_point, iter. induction m as [|e m IH]; intros N; [reflexivity|]. cbn [filter].
    destruct (within (fst e) p) eqn:W; [exfalso; apply (N e (or_introl eq_refl)), within_rk, W|]. apply IH. intros x X. apply N. right. exact X.
  Qed.
  Lemma at_point_all m p : (forall e, In e m -> elo e <= rk p <= ehi e) -> at_point m p = map snd m.
  Proof.
    unfold at_point, iter. induction m as [|e m IH]; intros N; [reflexivity|]. cbn [filter].
    rewrite (proj2 (within_rk (fst e) p) (N e (or_introl eq_refl))). cbn [map]. f_equal. apply IH. intros x X. apply N. right. exact X.
  Qed.
  Lemma at_point_some m p e : In e m -> elo e <= rk p <= ehi e -> (1 <= length (at_point m p))%nat.
  Proof.
    intros E R. unfold at_point, iter. rewrite map_length.
    assert (X : In e (filter (fun e => within (fst e) p) m)) by (apply filter_In; split; [exact E|apply within_rk, R]).
    destruct (filter _ m); [destruct X|cbn; lia].
  Qed.

  Lemma get_at m p : WF m -> at_point m p = map snd (opt_list (get_key_value (overlapping_comp p) m)).
  Proof.
    intros W. destruct (split_point m p W) as (A & o & B & -> & HA & Ho & HB). rewrite get_key_value_split by assumption.
    rewrite Forall_forall in HA, Ho, HB. rewrite !at_point_app, (at_point_none A), (at_point_all (opt_list o)), (at_point_none B), app_nil_r; [reflexivity|..];
      intros e E; [specialize (HB e E)|specialize (Ho e E)|specialize (HA e E)]; unfold left_of, right_of, meets in *; lia.
  Qed.

  Lemma one_at m p : WF m -> (length (at_point m p) <= 1)%nat.
  Proof. intros W. rewrite (get_at m p W), map_length. destruct (get_key_value (overlapping_comp p) m); cbn; lia. Qed.
  Lemma two_beside m k : WF m -> (length (beside m k) <= 2)%nat.
  Proof.
    intros W. unfold beside. rewrite app_length. destruct (down (istart k)) as [x|], (up (iend k)) as [y|]; cbn [length];
      try (pose proof (one_at m x W)); try (pose proof (one_at m y W)); lia.
  Qed.
  Lemma get_at_point_get m p : WF m -> get_at_point m p = Val (option_map snd (get_key_value (overlapping_comp p) m)).
  Proof.
    intros W. destruct (split_point m p W) as (A & o & B & -> & HA & Ho & HB). unfold get_at_point, get_key_value_at_point.
    rewrite get_key_value_split by assumption. destruct o as [[k w]|]; [reflexivity|]. cbn [opt_list app] in *.
    destruct (get_gap_split p A B W HA HB) as (g & Eg & _). rewrite Eg. reflexivity.
  Qed.
  Lemma overlap_any_dec m k : WF m -> valid k -> (exists k' v', In (k', v') m /\ overlap k' k) \/ (forall k' v', In (k', v') m -> ~ overlap k' k).
  Proof.
    intros W Vk. destruct (map_overlaps_spec m k W Vk) as ([|] & _ & Hb); [left; apply Hb; reflexivity|right].
    intros k' v' X Y. assert (false = true) by (apply Hb; eauto). discriminate.
  Qed.

  Section One.
    Context (k : K) (v : V).
    Context (A : NoditMap K V) (TL : option entry) (M : NoditMap K V) (TR : option entry) (B : NoditMap K V).
    Context (Vk : lo k <= hi k).
    Context (W : WF (A ++ opt_list TL ++ M ++ opt_list TR ++ B)).
    Context (HA : Forall (left_of (lo k - 1)) A) (HTL : Forall (touches_left (lo k)) (opt_list TL)).
    Context (HM : Forall (meets (lo k) (hi k)) M).
    Context (HTR : Forall (touches_right (hi k)) (opt_list TR)) (HB : Forall (right_of (hi k + 1)) B).
    Let m := A ++ opt_list TL ++ M ++ opt_list TR ++ B.

    Ltac bounds e E :=
      pose proof (merge_oks A TL M TR B W) as (OA & OTL & OM & OTR & OB);
      try (pose proof (proj1 (Forall_forall _ _) HA e E)); try (pose proof (proj1 (Forall_forall _ _) HTL e E));
      try (pose proof (proj1 (Forall_forall _ _) HM e E)); try (pose proof (proj1 (Forall_forall _ _) HTR e E));
      try (pose proof (proj1 (Forall_forall _ _) HB e E)); try (pose proof (proj1 (Forall_forall _ _) OA e E));
      try (pose proof (proj1 (Forall_forall _ _) OTL e E)); try (pose proof (proj1 (Forall_forall _ _) OM e E));
      try (pose proof (proj1 (Forall_forall _ _) OTR e E)); try (pose proof (proj1 (Forall_forall _ _) OB e E));
      unfold left_of, right_of, touches_left, touches_right, meets, okv in *.

    Lemma beside_inside (NM : forall e, In e M -> lo k <= elo e /\ ehi e <= hi k) : beside m k = map snd (opt_list TL) ++ map snd (opt_list TR).
    Proof.
      unfold beside. f_equal.
      - destruct (down (istart k)) as [p|] eqn:D.
        + apply down_rk in D. change (rk (istart k)) with (lo k) in D. unfold m. rewrite !at_point_app.
          rewrite (at_point_none A), (at_point_all (opt_list TL)), (at_point_none (opt_list TR)), (at_point_none B), (at_point_none M);
            [rewrite !app_nil_r; reflexivity|intros e E; try (pose proof (NM e E)); bounds e E; lia..].
        + apply down_none_rk in D. change (rk (istart k)) with (lo k) in D. destruct TL as [t|] eqn:T; [exfalso|reflexivity].
          assert (E : In t (opt_list (Some t))) by (left; reflexivity).
          pose proof (proj1 (Forall_forall _ _) HTL t E) as X. unfold touches_left in X. pose proof (rk_min (iend (fst t))) as Y. unfold ehi, hi in *. lia.
      - destruct (up (iend k)) as [p|] eqn:D.
        + apply up_rk in D. change (rk (iend k)) with (hi k) in D. unfold m. rewrite !at_point_app.
          rewrite (at_point_none A), (at_point_none (opt_list TL)), (at_point_all (opt_list TR)), (at_point_none B), (at_point_none M);
            [rewrite !app_nil_r; reflexivity|intros e E; try (pose proof (NM e E)); bounds e E; lia..].
        + apply up_none_rk in D. change (rk (iend k)) with (hi k) in D. destruct TR as [t|] eqn:T; [exfalso|reflexivity].
          assert (E : In t (opt_list (Some t))) by (left; reflexivity).
          pose proof (proj1 (Forall_forall _ _) HTR t E) as X. unfold touches_right in X. pose proof (rk_max (istart (fst t))) as Y. unfold elo, lo in *. lia.
    Qed.

    Lemma beside_split (NM : M = []) : beside m k = map snd (opt_list TL) ++ map snd (opt_list TR).
    Proof. apply beside_inside. rewrite NM. intros e []. Qed.

    Lemma merge_touching_cost (NM : M = []) :
      costs (fun f => omap snd (snd (insert_merge_touching_c k v m f))) (Nat.min 1 (length (beside m k))).
    Proof.
      assert (Vk' : valid k) by (apply valid_rk, Vk).
      pose proof (remove_M k A TL M TR B Vk W HA HTL HM HTR HB) as E5.
      destruct (merge_gets k A TL M TR B Vk W HA HTL HM HTR HB) as (E1 & E2 & _). fold m in E1, E2, E5.
      pose proof (no_overlap_M k A TL M TR B Vk W HA HTL HM HTR HB NM) as E0. fold m in E0.
      assert (C : exists m' r, insert_merge_with_comps k v
            (fun m _ => option_map fst (get_key_value (touching_start_comp (istart k)) m)) (fun m _ => option_map fst (get_key_value (touching_end_comp (iend k)) m))
            (fun m _ => fst (remove (touching_start_comp (istart k)) m)) (fun m _ => fst (remove (touching_end_comp (iend k)) m)) m = (m', Val r))
        by (do 2 eexists; apply (merge_with_comps k v _ _ _ _ m _ M Vk' E5)).
      destruct C as (m' & r & C). apply pure_comps_cost in C. cbv beta in C. rewrite E1, E2 in C.
      rewrite (beside_split NM). replace (Nat.min 1 _) with (match option_map fst TL, option_map fst TR with None, None => 0 | _, _ => 1 end)%nat by (destruct TL, TR; reflexivity).
      intros f. unfold insert_merge_touching_c. rewrite (iip_valid _ Vk'), E0. exact (ok_cost _ _ C f).
    Qed.

    Lemma merge_if_equal_cost veq (NM : M = []) :
      costs (fun f => omap snd (snd (insert_merge_touching_if_values_equal_c veq k v m f)))
        (2 * length (beside m k) + if existsb (fun w => veq w v) (beside m k) then 1 else 0).
    Proof.
      assert (Vk' : valid k) by (apply valid_rk, Vk).
      pose proof (remove_M k A TL M TR B Vk W HA HTL HM HTR HB) as E5.
      destruct (merge_gets k A TL M TR B Vk W HA HTL HM HTR HB) as (E1 & E2 & G1 & G2 & G3 & G4 & G5 & G6). fold m in E1, E2, E5.
      pose proof (no_overlap_M k A TL M TR B Vk W HA HTL HM HTR HB NM) as E0. fold m in E0.
      pose proof (equal_comps_cost veq k v (touching_start_comp (istart k)) (touching_end_comp (iend k)) m _ _ (iip_valid _ Vk') E5 _ eq_refl) as C.
      rewrite (beside_split NM).
      match type of C with costs _ ?n => replace (2 * _ + _)%nat with n end.
      - intros f. unfold insert_merge_touching_if_values_equal_c. rewrite (iip_valid _ Vk'), E0. exact (ok_cost _ _ C f).
      - unfold get_if_equal. rewrite E1, E2, G3. clear - G1 G4 G5. destruct TL as [[t tv]|]; cbn [found].
        + destruct (veq tv v) eqn:Q; cbn [is_some].
          * rewrite G1. rewrite G5. destruct TR as [[u uv]|]; cbn; rewrite Q; reflexivity.
          * rewrite G4. destruct TR as [[u uv]|]; cbn; rewrite Q; [destruct (veq uv v)|]; reflexivity.
        + cbn [is_some]. rewrite G4. destruct TR as [[u uv]|]; cbn; [destruct (veq uv v)|]; reflexivity.
    Qed.

    Lemma ends_cost : costs (fun f => omap snd (snd (insert_merge_overlapping_c k v m f))) (Nat.min 1 (length (at_ends m k))).
    Proof.
      assert (Vk' : valid k) by (apply valid_rk, Vk).
      pose proof (remove_M k A TL M TR B Vk W HA HTL HM HTR HB) as E5. fold m in E5.
      pose proof (get_at m (istart k) W) as E3. pose proof (get_at m (iend k) W) as E4.
      assert (C : exists m' r, insert_merge_with_comps k v
            (fun m _ => option_map fst (get_key_value (overlapping_comp (istart k)) m)) (fun m _ => option_map fst (get_key_value (overlapping_comp (iend k)) m))
            (fun m _ => m) (fun m _ => m) m = (m', Val r))
        by (do 2 eexists; apply (merge_with_comps k v _ _ _ _ m _ M Vk' E5)).
      destruct C as (m' & r & C). apply pure_comps_cost in C. cbv beta in C.
      intros f. unfold insert_merge_overlapping_c. rewrite (iip_valid _ Vk').
      replace (Nat.min 1 _) with (match option_map fst (get_key_value (overlapping_comp (istart k)) m), option_map fst (get_key_value (overlapping_comp (iend k)) m) with None, None => 0 | _, _ => 1 end)%nat; [exact (C f)|].
      unfold at_ends. rewrite E3, E4.
      destruct (get_key_value (overlapping_comp (istart k)) m), (get_key_value (overlapping_comp (iend k)) m); reflexivity.
    Qed.

    Lemma any_cost : costs (fun f => omap snd (snd (insert_merge_touching_or_overlapping_c k v m f))) (Nat.min 1 (length (beside m k ++ at_ends m k))).
    Proof.
      assert (Vk' : valid k) by (apply valid_rk, Vk).
      pose proof (remove_M k A TL M TR B Vk W HA HTL HM HTR HB) as E5. 
      destruct (merge_gets k A TL M TR B Vk W HA HTL HM HTR HB) as (E1 & E2 & _). fold m in E1, E2, E5.
      pose proof (get_at m (istart k) W) as E3. pose proof (get_at m (iend k) W) as E4.
      assert (C : exists m' r, insert_merge_with_comps k v
            (fun m _ => option_or (option_map fst (get_key_value (touching_start_comp (istart k)) m)) (option_map fst (get_key_value (overlapping_comp (istart k)) m)))
            (fun m _ => option_or (option_map fst (get_key_value (touching_end_comp (iend k)) m)) (option_map fst (get_key_value (overlapping_comp (iend k)) m)))
            (fun m _ => fst (remove (touching_start_comp (istart k)) m)) (fun m _ => fst (remove (touching_end_comp (iend k)) m)) m = (m', Val r))
        by (do 2 eexists; apply (merge_with_comps k v _ _ _ _ m _ M Vk' E5)).
      destruct C as (m' & r & C). apply pure_comps_cost in C. cbv beta in C. rewrite E1, E2 in C.
      intros f. unfold insert_merge_touching_or_overlapping_c. rewrite (iip_valid _ Vk').
      match type of C with costs _ ?n => replace (Nat.min 1 _) with n; [exact (C f)|] end.
      unfold at_ends. rewrite E3, E4, !app_length.
      destruct (get_key_value (overlapping_comp (istart k)) m) as [x|] eqn:X; [destruct TL, TR; cbn [option_map option_or opt_list map length]; lia|].
      destruct (get_key_value (overlapping_comp (iend k)) m) as [y|] eqn:Y; [destruct TL, TR; cbn [option_map option_or opt_list map length]; lia|].
      rewrite beside_inside; [destruct TL, TR; reflexivity|]. intros e E. cbn in E3, E4.
      assert (In e m) by (unfold m; rewrite !in_app_iff; auto). bounds e E.
      destruct (Z_le_gt_dec (lo k) (elo e)) as [L|L].
      - destruct (Z_le_gt_dec (ehi e) (hi k)) as [R|R]; [lia|exfalso].
        assert (P : (1 <= length (at_point m (iend k)))%nat) by (apply (at_point_some m _ e); [assumption|change (rk (iend k)) with (hi k); lia]). rewrite E4 in P. cbn in P. lia.
      - exfalso. assert (P : (1 <= length (at_point m (istart k)))%nat) by (apply (at_point_some m _ e); [assumption|change (rk (istart k)) with (lo k); lia]). rewrite E3 in P. cbn in P. lia.
    Qed.
  End One.

  Lemma touching_cost m k v : WF m -> valid k -> (forall k' v', In (k', v') m -> ~ overlap k' k) ->
    costs (fun f => omap snd (snd (insert_merge_touching_c k v m f))) (Nat.min 1 (length (beside m k))).
  Proof.
    intros W Vk Hn. destruct (no_overlap_split5 m k W Vk Hn) as (A & TL & TR & B & -> & HA & HTL & HTR & HB).
    apply valid_rk in Vk. apply merge_touching_cost; try assumption; [constructor|reflexivity].
  Qed.
  Lemma equal_cost veq m k v : WF m -> valid k -> (forall k' v', In (k', v') m -> ~ overlap k' k) ->
    costs (fun f => omap snd (snd (insert_merge_touching_if_values_equal_c veq k v m f)))
      (2 * length (beside m k) + if existsb (fun w => veq w v) (beside m k) then 1 else 0).
  Proof.
    intros W Vk Hn. destruct (no_overlap_split5 m k W Vk Hn) as (A & TL & TR & B & -> & HA & HTL & HTR & HB).
    apply valid_rk in Vk. apply merge_if_equal_cost; try assumption; [constructor|reflexivity].
  Qed.
  Lemma touching_refused_cost m k v : WF m -> valid k -> (exists k' v', In (k', v') m /\ overlap k' k) ->
    costs (fun f => omap snd (snd (insert_merge_touching_c k v m f))) 0.
  Proof.
    intros W Vk Ho. destruct (map_overlaps_spec m k W Vk) as (b & Eb & Hb). apply Hb in Ho. subst b.
    intros f. unfold insert_merge_touching_c. rewrite (iip_valid _ Vk), Eb. reflexivity.
  Qed.
  Lemma equal_refused_cost veq m k v : WF m -> valid k -> (exists k' v', In (k', v') m /\ overlap k' k) ->
    costs (fun f => omap snd (snd (insert_merge_touching_if_values_equal_c veq k v m f))) 0.
  Proof.
    intros W Vk Ho. destruct (map_overlaps_spec m k W Vk) as (b & Eb & Hb). apply Hb in Ho. subst b.
    intros f. unfold insert_merge_touching_if_values_equal_c. rewrite (iip_valid _ Vk), Eb. reflexivity.
  Qed.
  Lemma overlapping_cost m k v : WF m -> valid k ->
    costs (fun f => omap snd (snd (insert_merge_overlapping_c k v m f))) (Nat.min 1 (length (at_ends m k))).
  Proof.
    intros W Vk. apply valid_rk in Vk. destruct (split5 m (lo k) (hi k) W Vk) as (A & TL & M & TR & B & -> & HA & HTL & HM & HTR & HB).
    apply ends_cost; assumption.
  Qed.
  Lemma touching_or_overlapping_cost m k v : WF m -> valid k ->
    costs (fun f => omap snd (snd (insert_merge_touching_or_overlapping_c k v m f))) (Nat.min 1 (length (beside m k ++ at_ends m k))).
  Proof.
    intros W Vk. apply valid_rk in Vk. destruct (split5 m (lo k) (hi k) W Vk) as (A & TL & M & TR & B & -> & HA & HTL & HM & HTR & HB).
    apply any_cost; assumption.
  Qed.
End Semantic.

(** ** ZosditMap *)
Section Zosdit.
  Context {I : Type} `{PL : PointLaws I}.
  Context {K : Type} {IK : InclusiveInterval I K} {IL : IntervalLaws I K}.
  Context {V : Type}.
  Notation store := (BTreeMap K (list V)).
  Implicit Types (z : ZosditMap K V) (k : K) (v : V) (vs : list V).

  Lemma z_before_cost p vs n (pre : store) f : match z_before_c p vs n pre f with
    | (n', pre', Some f') => (n', pre') = z_piece p vs (n, pre) /\ f = (2 * pieces p + f')%nat
    | (_, _, None) => (f < 2 * pieces p)%nat end.
  Proof.
    unfold z_before_c, z_piece, pieces. destruct p as [i|]; [|auto].
    pose proof (user_call_cases f) as E. destruct (user_call f) as [f1|]; [|lia].
    pose proof (user_call_cases f1) as E1. destruct (user_call f1) as [f2|]; [|lia]. split; [reflexivity|lia].
  Qed.
  Lemma z_after_cost p vs n (pre : store) f : match z_after_c p vs n pre f with
    | (n', pre', Some f') => (n', pre') = z_piece p vs (n, pre) /\ f = (2 * pieces p + f')%nat
    | (_, _, None) => (f < 2 * pieces p)%nat end.
  Proof.
    unfold z_after_c, z_piece, pieces. destruct p as [i|]; [|auto].
    pose proof (user_call_cases f) as E. destruct (user_call f) as [f1|]; [|lia].
    pose proof (user_call_cases f1) as E1. destruct (user_call f1) as [f2|]; [|lia]. split; [reflexivity|lia].
  Qed.
  Lemma user_calls_cost n : forall f, match user_calls n f with Some f' => f = n + f' | None => f < n end%nat.
  Proof.
    induction n as [|n IH]; intros f; cbn [user_calls]; [reflexivity|].
    pose proof (user_call_cases f) as E. destruct (user_call f) as [f1|]; [|lia].
    specialize (IH f1). destruct (user_calls n f1); lia.
  Qed.
  Lemma count_app (a b : store) : count (a ++ b) = (count a + count b)%nat.
  Proof. unfold count. rewrite flatten_app, app_length. reflexivity. Qed.
  Lemma count_cons k vs (l : store) : count ((k, vs) :: l) = (length vs + count l)%nat.
  Proof. unfold count. rewrite flatten_cons, app_length, map_length. reflexivity. Qed.
  Lemma z_piece_count p vs n (pre : store) : count (snd (z_piece p vs (n, pre))) = (count pre + pieces p * length vs)%nat.
  Proof. destruct p; cbn [z_piece snd pieces]; [rewrite count_app, count_cons; cbn; lia|lia]. Qed.

  Section Q.
    Context {Q : Type} {IQ : InclusiveInterval I Q}.
    Implicit Type q : Q.
    Lemma zcut_loop_cost q : lo q <= hi q -> forall (post : store) n pre acc z l, Forall okv post -> Forall okstore post ->
      zosdit_cut_loop q n pre post acc = (z, Val l) -> exists c p,
      length l = (length acc + c)%nat /\ (count (z_inner z) + c = count pre + count post + p)%nat /\
      makes (fun f => snd (zosdit_cut_loop_c q n pre post acc f)) (c + 2 * p).
    Proof.
      intros Vq. induction post as [|[k vs] post IH]; intros n pre acc z l F1 F2; cbn [zosdit_cut_loop zosdit_cut_loop_c].
      - intros X. injection X as <- <-. exists O, O. cbn [z_inner]. rewrite count_app. split; [lia|]. split; [lia|]. intros f. cbn. split; [discriminate|lia].
      - inversion_clear F1 as [|? ? Ok1 F1']. inversion_clear F2 as [|? ? Ok2 F2']. unfold okv, elo, ehi in Ok1. cbn in Ok1.
        rewrite overlaps_true by assumption. destruct ((lo k <=? hi q) && (lo q <=? hi k)) eqn:OV.
        + destruct (cut_interval_ok k q) as (r & Er & Hb & (i & Ei & _) & Ha); [lia..|]. rewrite Er.
          assert (P : ((pieces (before_cut r) + pieces (after_cut r)) * length vs = pieces (before_cut r) + pieces (after_cut r))%nat).
          { destruct Ok2 as [_ Ok2]. unfold elo, ehi in Ok2. cbn [fst snd] in Ok2.
            destruct (before_cut r), (after_cut r); cbn [pieces]; [(destruct Ok2 as [v ->]; [lia|reflexivity])..|reflexivity]. }
          pose proof (z_piece_count (before_cut r) vs n pre) as C1.
          destruct (z_piece (before_cut r) vs (n, pre)) as [n1 pre1] eqn:Z1.
          pose proof (z_piece_count (after_cut r) vs n1 pre1) as C2.
          destruct (z_piece (after_cut r) vs (n1, pre1)) as [n2 pre2] eqn:Z2. cbn [snd] in C1, C2.
          destruct (Nat.ltb n2 (length vs)) eqn:L; [discriminate|]. rewrite Ei. intros E.
          destruct (IH _ _ _ _ _ F1' F2' E) as (c & p & L1 & L2 & M). rewrite app_length, map_length in L1. rewrite count_cons.
          exists (c + length vs)%nat, (p + (pieces (before_cut r) + pieces (after_cut r)))%nat. split; [lia|]. split; [lia|].
          intros f. pose proof (z_before_cost (before_cut r) vs n pre f) as E1.
          destruct (z_before_c (before_cut r) vs n pre f) as [[n3 pre3] [f1|]]; [|cbn [snd]; split; [intros _; lia|reflexivity]].
          destruct E1 as [X1 ->]. rewrite Z1 in X1. injection X1 as -> ->.
          pose proof (z_after_cost (after_cut r) vs n1 pre1 f1) as E2.
          destruct (z_after_c (after_cut r) vs n1 pre1 f1) as [[n4 pre4] [f2|]]; [|cbn [snd]; split; [intros _; lia|reflexivity]].
          destruct E2 as [X2 ->]. rewrite Z2 in X2. injection X2 as -> ->. rewrite L.
          pose proof (user_calls_cost (length vs) f2) as E3. destruct (user_calls (length vs) f2) as [f3|]; [|cbn [snd]; split; [intros _; lia|reflexivity]].
          subst f2. specialize (M f3). cbv beta in M. rewrite M. lia.
        + intros X. injection X as <- <-. exists O, O. cbn [z_inner]. rewrite count_app. split; [lia|]. split; [lia|]. intros f. cbn. split; [discriminate|lia].
    Qed.
    Lemma zcut_cost q z z' l : ZWF z -> zosdit_cut q z = (z', Val l) ->
      makes (fun f => snd (zosdit_cut_c q z f)) (length l + 2 * (length (zosdit_iter z') + length l - length (zosdit_iter z))).
    Proof.
      intros (ZS1 & F2 & _) E. unfold zosdit_cut, zosdit_cut_c in *. destruct (invalid_interval_panic q) eqn:V1; [|discriminate].
      assert (Vq : lo q <= hi q). { apply valid_rk. destruct (valid_dec q) as [|N]; [assumption|]. rewrite (iip_invalid _ N) in V1. discriminate. }
      change (zosdit_cut_loop q (z_len z) (fst (zstart q z)) (snd (zstart q z)) [] = (z', Val l)) in E.
      pose proof (zstart_join q z) as J.
      assert (F1 : Forall okv (z_inner z)) by apply ZS1. rewrite <- J in F1, F2. apply Forall_app in F1, F2.
      destruct (zcut_loop_cost q Vq _ _ _ _ _ _ (proj2 F1) (proj2 F2) E) as (c & p & L1 & L2 & M).
      pose proof (f_equal count J) as CJ. rewrite count_app in CJ. unfold zosdit_iter. fold (count (z_inner z')). fold (count (z_inner z)). cbn [length] in L1.
      replace (length l + 2 * _)%nat with (c + 2 * p)%nat by lia. exact M.
    Qed.
  End Q.
End Zosdit.

(** ** Gqdit *)
Section Gq.
  Context {I : Type} `{Ord I} `{DiscreteFinite I}.
  Context {K : Type} `{InclusiveInterval I K}.
  Context {D : Type} `{Ord D}.
  Implicit Types (g : Gqdit K D) (k : K) (s : BTreeSet D).

  Lemma reinsert_step_cost g g' k s r : insert_merge_touching_if_values_equal bset_eqb k s g = (g', Val (Ok r)) ->
    exists n, (n <= 5)%nat /\ costs (fun f => omap snd (snd (insert_merge_touching_if_values_equal_c bset_eqb k s g f))) n.
  Proof.
    intros E. unfold insert_merge_touching_if_values_equal in E. unfold insert_merge_touching_if_values_equal_c.
    destruct (invalid_interval_panic k) as [[]|] eqn:V1; [|discriminate]. destruct (map_overlaps g k) as [[|]|]; [discriminate| |discriminate].
    destruct (remove_overlapping k g) as [m1 [rem|]] eqn:R; [|unfold insert_merge_with_comps in E; rewrite V1, R in E; discriminate].
    pose proof (equal_comps_cost bset_eqb k s (touching_start_comp (istart k)) (touching_end_comp (iend k)) g _ _ V1 R _ eq_refl) as C.
    eexists. split; [|exact (ok_cost _ _ C)]. unfold found.
    repeat match goal with |- context [match ?x with Some _ => _ | None => _ end] => destruct x end; lia.
  Qed.
  Lemma reinsert_cost (c : bool) upd (l : list (K * BTreeSet D)) : forall g g', reinsert upd l g = (g', Val tt) ->
    exists n, ((if c then 1 else 0) * length l <= n <= ((if c then 1 else 0) + 5) * length l)%nat /\ costs (fun f => snd (reinsert_c c upd l g f)) n.
  Proof.
    induction l as [|[k s] l IH]; intros g g'; cbn [reinsert reinsert_c].
    - intros _. exists O. split; [destruct c; cbn; lia|]. intros f. reflexivity.
    - destruct (insert_merge_touching_if_values_equal bset_eqb k (upd s) g) as [g1 [[r|e]|]] eqn:E; try discriminate. intros X.
      destruct (IH _ _ X) as (n2 & B2 & C2). destruct (reinsert_step_cost _ _ _ _ _ E) as (n1 & B1 & C1).
      exists ((if c then 1 else 0) + n1 + n2)%nat. split; [cbn [length]; destruct c; lia|]. intros f.
      assert (U : match (if c then user_call f else Some f) with Some f' => f = (if c then 1 else 0) + f' | None => f < (if c then 1 else 0) end%nat).
      { destruct c; [|reflexivity]. pose proof (user_call_cases f) as U. destruct (user_call f); lia. }
      destruct (if c then user_call f else Some f) as [f1|]; [|cbn [snd]; lia]. subst f. specialize (C1 f1). cbv beta in C1.
      destruct (insert_merge_touching_if_values_equal_c bset_eqb k (upd s) g f1) as [g2 [[r2 f2]|]] eqn:E2; cbn [snd omap] in C1; [|cbn [snd]; lia].
      apply merge_if_equal_c_val in E2. rewrite E in E2. injection E2 as <- <-. specialize (C2 f2). cbv beta in C2.
      destruct (snd (reinsert_c c upd l g1 f2)); lia.
  Qed.
  Lemma cut_update_cost {Q} {IQ : InclusiveInterval I Q} (c : bool) upd (q : Q) g g1 l g' : cut q g = (g1, Val l) -> cut_update upd q g = (g', Val tt) ->
    exists n, (length l + 2 * (length g1 + length l - length g) + (if c then 1 else 0) * length l <= n <=
               length l + 2 * (length g1 + length l - length g) + ((if c then 1 else 0) + 5) * length l)%nat /\ costs (fun f => snd (cut_update_c c upd q g f)) n.
  Proof.
    intros E X. unfold cut_update in X. rewrite E in X. destruct (cut_cost _ _ _ _ E) as (p & P & C1).
    destruct (reinsert_cost c upd l _ _ X) as (n & B & C2). exists (length l + 2 * p + n)%nat. split; [lia|]. intros f.
    unfold cut_update_c. specialize (C1 f). cbv beta in C1. destruct (cut_c q g f) as [g2 [[l2 f2]|]] eqn:E2; cbn [snd omap] in C1; [|cbn [snd]; lia].
    apply cut_c_val in E2. rewrite E in E2. injection E2 as <- <-. specialize (C2 f2). cbv beta in C2.
    destruct (snd (reinsert_c c upd l g1 f2)); lia.
  Qed.
End Gq.
