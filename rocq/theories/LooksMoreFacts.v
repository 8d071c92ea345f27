(** * LooksMoreFacts: lemmas for C154 (ZosditMap and Gqdit). *)
From Coq Require Import List ZArith Bool Arith Lia.
From Verif Require Import Base BTree UtilsModel IntervalModel NoditModel NoditOps ZosditModel ZosditOps GqditModel GqditOps Spec TreeShape SearchOps LooksOps
  PointFacts IntervalFacts NoditFacts NoditInv NoditQueries NoditMutations NoditMerges TraceFacts TreeFacts TreeProofs SearchFacts NoditSize CostFacts CostGqdit
  ZosditFacts ZosditMut ZosditProofs ListFacts LooksFacts.
Import ListNotations.
Open Scope nat_scope.

Lemma looks_exact {K V} n (l : list (K * V)) (s : list (look K)) : s = map (fun e => Walked (fst e)) l -> looks_at 0 n (map fst l) s.
Proof. intros ->. apply looks_walk. Qed.

Lemma move_prev_app {K V} (a b : BTreeMap K V) : fst (move_prev (a, b)) ++ snd (move_prev (a, b)) = a ++ b.
Proof.
  unfold move_prev. cbn [fst snd]. destruct (rev a) as [|x r] eqn:E; cbn [fst snd].
  - apply (f_equal (@rev _)) in E. rewrite rev_involutive in E. cbn in E. subst a. rewrite app_nil_r. reflexivity.
  - apply (f_equal (@rev _)) in E. rewrite rev_involutive in E. cbn in E. subst a. rewrite <- app_assoc. reflexivity.
Qed.
Lemma upper_bound_app {K V} comp (l : BTreeMap K V) : l = fst (upper_bound comp l) ++ snd (upper_bound comp l).
Proof.
  unfold upper_bound. destruct (seek comp l) as [a b] eqn:E. apply seek_app' in E. subst l.
  destruct b as [|[k v] r]; [symmetry; apply move_prev_app|]. destruct (comp k); [reflexivity|symmetry; apply move_prev_app..].
Qed.

Section Zosdit.
  Context {I : Type} `{PL : PointLaws I}.
  Context {K : Type} {IK : InclusiveInterval I K} {IL : IntervalLaws I K}.
  Context {V : Type}.
  Implicit Types (z : ZosditMap K V) (p : I) (t : tree K (list V)) (k : K) (v : V).

  Lemma l_remove_last_same z p d t : ZWF z -> btree true d t -> entries t = z_inner z -> exists w,
    fst (l_remove_last_value_at_point p (z_len z) t) = remove_last_value_at_point p z /\ length w <= 1 /\
    looks_at 1 (length (zosdit_iter z)) w (snd (l_remove_last_value_at_point p (z_len z) t)).
  Proof.
    intros W B E. pose proof W as (Z & _). destruct (orderly_shape_free _ _ (orderly_exclusive_Gt p (z_inner z) Z) t E) as (_ & _ & _ & El & _).
    unfold l_remove_last_value_at_point, remove_last_value_at_point, last_value_cursor, l_lower. rewrite !fst_lbind, !snd_lbind. cbn [fst snd]. rewrite El, E.
    destruct (match cursor_key (lower_bound (exclusive_comp p Gt) (z_inner z)) with None => move_prev (lower_bound (exclusive_comp p Gt) (z_inner z)) | Some _ => lower_bound (exclusive_comp p Gt) (z_inner z) end) as [a b].
    exists (map fst (match b with [] => [] | e :: _ => [e] end)). split; [|split; [destruct b; cbn; lia|]].
    - destruct z as [n i]. destruct b as [|[key value] rest]; reflexivity.
    - rewrite <- (app_nil_l (map fst _)). unfold l_current, l_walk. cbn [fst snd lret]. rewrite app_nil_r. apply (looks_app 1 0); [|apply looks_walk].
      apply (looks_search _ d); [exact B|rewrite E; apply inner_le_iter, W].
  Qed.

  Lemma l_strict_back_same z k v d t : ZWF z -> btree true d t -> entries t = z_inner z -> exists w,
    (ZD (z_inner z) -> fst (l_insert_strict_back t (z_len z) k v) = insert_strict_back k v z) /\ length w <= 1 /\
    looks_at 3 (length (zosdit_iter z)) w (snd (l_insert_strict_back t (z_len z) k v)).
  Proof.
    intros W B E. pose proof W as (Z & _). unfold l_insert_strict_back, insert_strict_back.
    destruct (valid_dec k) as [Vk|Nk]; [|rewrite (iip_invalid _ Nk); exists []; split; [destruct z; cbn in *; rewrite E; reflexivity|]; split; [cbn; lia|]; apply (looks_le 0); [lia|apply looks_nil]].
    rewrite (iip_valid _ Vk). unfold l_range. rewrite fst_lbind, snd_lbind. cbn [fst snd].
    pose proof (orderly_range_shape_free _ _ _ (orderly_exclusive_Gt (istart k) _ Z) (orderly_exclusive_Lt (iend k) _ Z) t E) as ER. rewrite ER.
    pose proof (inner_le_iter z W) as LI. rewrite <- E in LI.
    assert (S2 : looks_at 2 (length (zosdit_iter z)) [] (searching (exclusive_comp (istart k) Gt) t ++ searching (exclusive_comp (iend k) Lt) t)).
    { apply (looks_app 1 1 _ [] []); apply (looks_search _ d); auto. }
    assert (IZ : is_zero_overlap z k = Val match range (exclusive_comp (istart k) Gt) (exclusive_comp (iend k) Lt) (z_inner z) with [] => true | _ => false end).
    { unfold is_zero_overlap. rewrite (iip_valid _ Vk). reflexivity. }
    rewrite IZ. apply valid_rk in Vk. destruct (range (exclusive_comp (istart k) Gt) (exclusive_comp (iend k) Lt) (z_inner z)) as [|e r].
    - exists []. split; [|split; [cbn; lia|exact (looks_app 2 1 _ [] [] _ _ S2 (looks_search _ d _ _ B LI))]].
      intros Dz. assert (A : Forall (apart_from (lo k) (hi k)) (z_inner z)).
      { destruct (Forall_dec (fun e => apart_from (lo k) (hi k) e) (fun e => ltac:(unfold apart_from; destruct (Z_le_gt_dec (ehi e) (lo k)); [left; lia|destruct (Z_le_gt_dec (hi k) (elo e)); [left; lia|right; lia]])) (z_inner z)) as [A|A]; [exact A|].
        rewrite (proj2 (is_zero_overlap_rk z k Z Vk) A) in IZ. discriminate. }
      rewrite <- E in *. rewrite (t_entry_push_same k v t Vk Z Dz A). reflexivity.
    - exists [fst e]. split; [|split; [cbn; lia|]].
      + intros _. destruct z; cbn in *. rewrite E. reflexivity.
      + rewrite snd_lbind. unfold l_walk, lret. cbn [fst snd map app]. apply (looks_le (2 + 0)); [lia|]. exact (looks_app 2 0 _ [] [fst e] _ _ S2 (looks_walk _ [e])).
  Qed.

  Section Q.
    Context {Q : Type} {IQ : InclusiveInterval I Q}.
    Implicit Type q : Q.
    Lemma l_zoverlapping_same z q d t : ZWF z -> btree true d t -> entries t = z_inner z -> exists w,
      fst (l_zosdit_overlapping t q) = zosdit_overlapping z q /\ (forall out, zosdit_overlapping z q = Val out -> length w <= length out) /\
      looks_at 2 (length (zosdit_iter z)) w (snd (l_zosdit_overlapping t q)).
    Proof.
      intros W B E. pose proof W as (Z & Ok & _). unfold l_zosdit_overlapping, zosdit_overlapping.
      destruct (invalid_interval_panic q) as [u|]; cbn [obind]; [|exists []; split; [reflexivity|]; split; [discriminate|]; apply (looks_le 0); [lia|apply looks_nil]].
      unfold l_range. rewrite !fst_lbind, !snd_lbind. unfold l_walk. cbn [fst snd lret].
      rewrite (orderly_range_shape_free _ _ _ (orderly_inclusive_Lt (istart q) _ Z) (orderly_inclusive_Gt (iend q) _ Z) t E).
      pose proof (inner_le_iter z W) as LI. rewrite <- E in LI.
      set (r := range _ _ (z_inner z)). exists (map fst r). split; [reflexivity|]. split.
      - intros out X. injection X as <-. assert (Or : Forall okstore r).
        { apply Forall_forall. intros e He. rewrite Forall_forall in Ok. apply Ok. unfold r, range in He.
          rewrite (seek_app' _ _ _ _ (surjective_pairing (seek (inclusive_comp (istart q) Lt) (z_inner z)))). apply in_or_app. right. revert He.
          generalize (snd (seek (inclusive_comp (istart q) Lt) (z_inner z))). intros l. induction l as [|x l IH]; cbn; [tauto|]. destruct x as [k' v']. destruct (inclusive_comp (iend q) Gt k'); cbn; intuition. }
        clearbody r. rewrite map_length. clear - Or. induction Or as [|[k vs] l [Ok _] O IH]; [cbn; lia|].
        rewrite flatten_cons, app_length, map_length. cbn [length snd] in *. destruct vs; [exfalso; auto|cbn [length]; lia].
      - rewrite app_nil_r. apply (looks_app 2 0 _ [] (map fst r)); [|apply looks_walk]. apply (looks_app 1 1 _ [] []); apply (looks_search _ d); auto.
    Qed.
    (** A cursor walks over entries that overlap, and at most one more. *)
    Lemma cursor_walk_any {W} q (l : list (K * W)) : Forall okv l -> (lo q <= hi q)%Z -> exists M x B, l = M ++ x ++ B /\ length x <= 1 /\
      cursor_walk q l = map (fun e => Walked (fst e)) (M ++ x) /\ Forall (fun e => overlap (fst e) q) M.
    Proof.
      intros Ol Vq. induction l as [|[k w] l IH]; [exists [], [], []; cbn; auto|]. inversion Ol as [|? ? Ok Ol']; subst.
      cbn [cursor_walk]. destruct (overlaps k q) as [[|]|] eqn:X.
      - destruct (IH Ol') as (M & x & B & -> & Lx & -> & F). exists ((k, w) :: M), x, B. split; [reflexivity|]. split; [exact Lx|]. split; [reflexivity|]. constructor; [|exact F].
        cbn [fst]. apply overlap_rk. unfold okv, elo, ehi in Ok. cbn in Ok. rewrite overlaps_true in X by lia. injection X as X. lia.
      - exists [], [(k, w)], l. cbn. auto.
      - exists [], [(k, w)], l. cbn. auto.
    Qed.
    Lemma l_zcut_same z q d t : ZWF z -> valid q -> btree true d t -> entries t = z_inner z -> exists A M x B, z_inner z = A ++ M ++ x ++ B /\ length x <= 1 /\
      Forall (fun e => overlap (fst e) q) M /\
      fst (l_zosdit_cut q (z_len z) t) = zosdit_cut q z /\ looks_at 1 (length (zosdit_iter z)) (map fst (M ++ x)) (snd (l_zosdit_cut q (z_len z) t)).
    Proof.
      intros W Vq B E. pose proof W as (Z & _). unfold l_zosdit_cut, zosdit_cut. rewrite (iip_valid _ Vq). unfold l_upper.
      destruct (orderly_shape_free _ _ (orderly_exclusive_Lt (istart q) (z_inner z) Z) t E) as (_ & _ & _ & _ & Eu). rewrite fst_lbind, snd_lbind. cbn [fst snd]. rewrite Eu.
      set (c := match cursor_key (upper_bound (exclusive_comp (istart q) Lt) (z_inner z)) with None => move_next (upper_bound (exclusive_comp (istart q) Lt) (z_inner z)) | Some _ => upper_bound (exclusive_comp (istart q) Lt) (z_inner z) end).
      assert (Ec : z_inner z = fst c ++ snd c).
      { assert (E0 : z_inner z = fst (upper_bound (exclusive_comp (istart q) Lt) (z_inner z)) ++ snd (upper_bound (exclusive_comp (istart q) Lt) (z_inner z))).
        { apply upper_bound_app. }
        unfold c. destruct (upper_bound (exclusive_comp (istart q) Lt) (z_inner z)) as [a [|x b]]; [|exact E0]. cbn in *. rewrite app_nil_r in E0. exact E0. }
      apply valid_rk in Vq. destruct (cursor_walk_any q (snd c)) as (M & x & B' & E2 & Lx & Ew & F); [|exact Vq|].
      { apply Forall_forall. intros e He. apply (ZS_okv (z_inner z)); [exact Z|rewrite Ec; apply in_or_app; right; exact He]. }
      exists (fst c), M, x, B'. split; [rewrite <- E2; exact Ec|]. split; [exact Lx|]. split; [exact F|]. split; [reflexivity|].
      rewrite Ew. apply (looks_app 1 0 _ [] _); [|apply looks_walk]. apply (looks_search _ d); [exact B|rewrite E; apply inner_le_iter, W].
    Qed.
  End Q.
End Zosdit.

Section Gqdit.
  Context {I : Type} `{PL : PointLaws I}.
  Context {K : Type} {IK : InclusiveInterval I K} {IL : IntervalLaws I K}.
  Context {D : Type} {OD : Ord D}.
  Notation entry := (K * BTreeSet D)%type.
  Implicit Types (g : Gqdit K D) (t : tree K (BTreeSet D)) (p : I).

  Lemma take_while_looks (f : entry -> bool) (l : list entry) : exists x y r, l = x ++ y ++ r /\ length y <= 1 /\ Forall (fun e => f e = true) x /\
    l_take_while f l = (take_while f l, map (fun e => Walked (fst e)) (x ++ y)).
  Proof.
    induction l as [|e l IH]; [exists [], [], []; cbn; auto|]. cbn [l_take_while take_while]. destruct (f e) eqn:Fe.
    - destruct IH as (x & y & r & -> & Ly & Fx & ->). exists (e :: x), y, r. split; [reflexivity|]. split; [exact Ly|]. split; [constructor; assumption|reflexivity].
    - exists [], [e], l. cbn. auto.
  Qed.

  Lemma l_right_same g d0 p d t q o : WF g -> btree true d t -> entries t = g -> iu p = Val q -> overlapping g q = Val o -> exists w,
    run_of (fun kv : entry => valid_identifier d0 (snd kv) = true) o w /\
    fst (l_expand_right t d0 p) = expand_gaps_at_point_right g d0 p /\ looks_at 2 (len g) (map fst w) (snd (l_expand_right t d0 p)).
  Proof.
    intros W B E Eq O. destruct (l_overlapping_same g q d t W B E) as [A F]. unfold l_expand_right, expand_gaps_at_point_right. rewrite Eq. cbn [obind].
    rewrite fst_lbind, snd_lbind, A, O. cbn [obind]. rewrite fst_lbind, snd_lbind.
    destruct (take_while_looks (fun kv => valid_identifier d0 (snd kv)) o) as (x & y & r & Eo & Ly & Fx & ->). exists (x ++ y). split; [exists x, y, r; auto|].
    cbn [fst snd lret]. split; [reflexivity|]. rewrite app_nil_r. apply (looks_app 2 0 _ [] _); [exact F|apply looks_walk].
  Qed.
  Lemma l_left_same g d0 p d t q o : WF g -> btree true d t -> entries t = g -> ui p = Val q -> overlapping g q = Val o -> exists w,
    run_of (fun kv : entry => valid_identifier d0 (snd kv) = true) (rev o) w /\
    fst (l_expand_left t d0 p) = expand_gaps_at_point_left g d0 p /\ looks_at 2 (len g) (map fst w) (snd (l_expand_left t d0 p)).
  Proof.
    intros W B E Eq O. destruct (l_overlapping_same g q d t W B E) as [A F]. unfold l_expand_left, expand_gaps_at_point_left. rewrite Eq. cbn [obind].
    rewrite fst_lbind, snd_lbind, A, O. cbn [obind]. rewrite fst_lbind, snd_lbind.
    destruct (take_while_looks (fun kv => valid_identifier d0 (snd kv)) (rev o)) as (x & y & r & Eo & Ly & Fx & ->). exists (x ++ y). split; [exists x, y, r; auto|].
    cbn [fst snd lret]. split; [reflexivity|]. rewrite app_nil_r. apply (looks_app 2 0 _ [] _); [exact F|apply looks_walk].
  Qed.

  Section Q.
    Context {Q : Type} {IQ : InclusiveInterval I Q}.
    Implicit Type q : Q.
    Lemma l_no_identifier_same g q d t o : WF g -> btree true d t -> entries t = g -> overlapping g q = Val o ->
      fst (l_gaps_no_identifier t q) = gaps_no_identifier g q /\ looks_at 2 (len g) (map fst o) (snd (l_gaps_no_identifier t q)).
    Proof.
      intros W B E O. destruct (l_overlapping_all_same g q d t o W B E O) as [A F]. unfold l_gaps_no_identifier, gaps_no_identifier.
      destruct (invalid_interval_panic q) as [u|] eqn:X; [|unfold overlapping in O; rewrite X in O; discriminate]. cbn [obind].
      rewrite fst_lbind, snd_lbind, A, O. cbn [fst snd lret]. rewrite app_nil_r. split; [reflexivity|exact F].
    Qed.
    Lemma l_with_identifier_same g d0 q d t : WF g -> valid q -> btree true d t -> entries t = g ->
      exists o ol or_ wl wr, overlapping g q = Val o /\
      overlapping g (mkInterval MIN (istart q)) = Val ol /\ overlapping g (mkInterval (iend q) MAX) = Val or_ /\
      run_of (fun kv : entry => valid_identifier d0 (snd kv) = true) (rev ol) wl /\ run_of (fun kv : entry => valid_identifier d0 (snd kv) = true) or_ wr /\
      fst (l_gaps_with_identifier t d0 q) = gaps_with_identifier g d0 q /\
      looks_at 6 (len g) (map fst (o ++ wl ++ wr)) (snd (l_gaps_with_identifier t d0 q)).
    Proof.
      intros W Vq B E. destruct (overlapping_spec g q W Vq) as (o & O & _). pose proof (proj1 (valid_rk q) Vq) as Vr.
      assert (Vl : valid (mkInterval MIN (istart q))) by (apply valid_rk; apply rk_min).
      assert (Vr' : valid (mkInterval (iend q) MAX)) by (apply valid_rk; apply rk_max).
      assert (El : ui (istart q) = Val (mkInterval MIN (istart q))) by (unfold ui, IntervalModel.checked; rewrite (iip_valid _ Vl); reflexivity).
      assert (Er : iu (iend q) = Val (mkInterval (iend q) MAX)) by (unfold iu, IntervalModel.checked; rewrite (iip_valid _ Vr'); reflexivity).
      destruct (overlapping_spec g _ W Vl) as (ol & Ol & _). destruct (overlapping_spec g _ W Vr') as (or_ & Or & _).
      destruct (l_overlapping_all_same g q d t o W B E O) as [A F].
      destruct (l_left_same g d0 (istart q) d t _ ol W B E El Ol) as (wl & Rl & Al & Fl).
      destruct (l_right_same g d0 (iend q) d t _ or_ W B E Er Or) as (wr & Rr & Ar & Fr).
      exists o, ol, or_, wl, wr. do 5 (split; [assumption|]). unfold l_gaps_with_identifier, gaps_with_identifier. rewrite (iip_valid _ Vq). cbn [obind].
      rewrite !fst_lbind, !snd_lbind, A, Al, Ar, O. cbn [fst snd lret obind]. split; [reflexivity|]. rewrite app_nil_r, !map_app. apply (looks_app 2 4); [exact F|]. apply (looks_app 2 2); assumption.
    Qed.
  End Q.

  Lemma if_equal_len veq k (s : BTreeSet D) g : WF g -> len (fst (insert_merge_touching_if_values_equal veq k s g)) <= S (len g).
  Proof.
    intros W. unfold len. destruct (valid_dec k) as [Vk|Nk]; [|rewrite insert_merge_touching_if_equal_invalid by exact Nk; cbn [fst]; lia].
    destruct (overlap_dec g k W Vk) as [Ho|Hn]; [rewrite insert_merge_touching_if_equal_refused by assumption; cbn [fst]; lia|].
    destruct (insert_merge_touching_if_equal_done veq g k s W Vk Hn) as (g' & r & -> & _ & Ha). cbn [fst].
    destruct (absorbs_size _ _ _ _ _ _ Ha) as (l & Hs & ->). apply NoditSize.sub_length in Hs. lia.
  Qed.
  Lemma l_reinsert_same upd (l : list entry) : forall (T : nat -> shapes K (BTreeSet D)) g N, (forall i, good_shapes (T i)) -> WF g -> len g + length l <= N -> exists w,
    fst (l_reinsert T upd l g) = reinsert upd l g /\ length w <= length l /\ looks_at (10 * length l) N w (snd (l_reinsert T upd l g)).
  Proof.
    induction l as [|[k s] l IH]; intros T g N GT W LN.
    - exists []. split; [reflexivity|]. split; [cbn; lia|apply looks_nil].
    - cbn [l_reinsert reinsert]. destruct (l_merge_equal_same bset_eqb (T (length l)) k (upd s) g (GT _) W) as (w & A & Lw & F).
      rewrite fst_lbind, snd_lbind, A. pose proof (if_equal_len bset_eqb k (upd s) g W) as L1. pose proof (step_WF g (OpInsertMergeTouchingIfValuesEqual bset_eqb k (upd s)) W) as W1. cbn [step] in W1.
      cbn [length] in LN |- *. destruct (insert_merge_touching_if_values_equal bset_eqb k (upd s) g) as [g1 r] eqn:E1. cbn [fst] in *.
      assert (F' : looks_at 10 N w (snd (l_insert_merge_touching_if_values_equal bset_eqb (T (length l)) k (upd s) g))) by (apply (looks_mono _ (len g)); [lia|exact F]).
      destruct r as [[x|x]|].
      + destruct (IH T g1 N GT W1 ltac:(lia)) as (w2 & A2 & L2 & F2). exists (w ++ w2). split; [exact A2|]. split; [rewrite app_length; lia|].
        replace (10 * S (length l)) with (10 + 10 * length l) by lia. exact (looks_app _ _ _ _ _ _ _ F' F2).
      + exists w. cbn [lret fst snd]. rewrite app_nil_r. split; [reflexivity|]. split; [lia|]. apply (looks_le 10); [lia|exact F'].
      + exists w. cbn [lret fst snd]. rewrite app_nil_r. split; [reflexivity|]. split; [lia|]. apply (looks_le 10); [lia|exact F'].
  Qed.

  Lemma l_cut_update_same {Q} {IQ : InclusiveInterval I Q} upd (q : Q) g d t T : WF g -> valid q -> btree true d t -> entries t = g -> (forall i, good_shapes (T i)) ->
    exists o w, overlapping g q = Val o /\ fst (l_cut_update t T upd q) = cut_update upd q g /\
    length w <= 2 * length o + 1 /\ looks_at (1 + 10 * length o) (len g + 2) w (snd (l_cut_update t T upd q)).
  Proof.
    intros W Vq B E GT. destruct (l_cut_same g q d t W Vq B E) as (o & w & O & A & (x & -> & Lx) & F).
    destruct (cut_facts g q W Vq) as (A' & M & B' & out & ins & Em & HA & HM & HB & E' & HC & HS & W1).
    assert (Lo : length o = length M).
    { destruct (overlapping_spec g q W Vq) as (o' & O' & HO). rewrite O in O'. injection O' as <-. rewrite (sub_unique _ _ _ _ HO HS). reflexivity. }
    pose proof (cut_list_inside _ _ _ _ HC) as Li.
    assert (WM : WF M). { rewrite Em in W. apply WF_app in W. destruct W as (_ & W & _). apply WF_app in W. apply W. }
    pose proof (cut_list_two q M out ins (proj1 (valid_rk q) Vq) HC WM HM) as L2.
    assert (LN : len (A' ++ out ++ B') + length ins <= len g + 2). { unfold len. rewrite Em, !app_length. lia. }
    destruct (l_reinsert_same upd ins T (A' ++ out ++ B') (len g + 2) GT W1 LN) as (w2 & A2 & Lw2 & F2).
    exists o, ((map fst o ++ x) ++ w2). split; [exact O|]. unfold l_cut_update, cut_update. rewrite fst_lbind, snd_lbind, A, E'. cbv beta iota.
    split; [exact A2|]. split; [rewrite !app_length, map_length; lia|].
    apply looks_app; [apply (looks_mono _ (len g)); [lia|exact F]|]. rewrite Lo, <- Li. exact F2.
  Qed.
End Gqdit.

(** Trees for every list of entries, all at once. *)
Section Grow.
  Context {K V : Type}.
  Implicit Types (t : tree K V) (n : edges K V) (l : BTreeMap K V).
  Definition fits' d l : Type := 6 ^ d <= S (length l) <= 12 ^ d -> {t | btree false d t /\ entries t = l}.
  Lemma grow_node' d : (forall l, fits' d l) -> forall c l, S c * 6 ^ d <= S (length l) <= S c * 12 ^ d ->
    {n | keys n = c /\ bnode d n /\ edges_entries n = l}.
  Proof.
    intros HT. induction c as [|c IH]; intros l L.
    - destruct (HT l) as (t & B & E); [lia|]. exists (Last t). split; [reflexivity|]. split; [constructor; exact B|exact E].
    - assert (P : 1 <= 6 ^ d) by (change 1 with (6 ^ 0); apply Nat.pow_le_mono_r; lia).
      assert (P' : 6 ^ d <= 12 ^ d) by (apply Nat.pow_le_mono_l; lia).
      set (s := Nat.max (6 ^ d) (S (length l) - S c * 12 ^ d)). assert (S1 : 1 <= s) by (unfold s; lia). assert (S2 : s <= length l) by (unfold s; nia).
      destruct (skipn (s - 1) l) as [|kv l2] eqn:E; [exfalso; apply (f_equal (@length _)) in E; rewrite skipn_length in E; cbn in E; lia|].
      assert (El : l = firstn (s - 1) l ++ kv :: l2) by (rewrite <- E; symmetry; apply firstn_skipn).
      assert (Hs : S (length (firstn (s - 1) l)) = s) by (rewrite firstn_length; lia).
      assert (L2 : length l = length (firstn (s - 1) l) + S (length l2)) by (rewrite El at 1; rewrite app_length; reflexivity).
      unfold s in Hs at 2.
      destruct (HT (firstn (s - 1) l)) as (t & B & E1); [nia|]. destruct (IH l2) as (n & Hk & Bn & E2); [nia|].
      exists (More t kv n). split; [cbn; lia|]. split; [constructor; assumption|].
      change (edges_entries (More t kv n)) with (entries t ++ kv :: edges_entries n). rewrite E1, E2. symmetry. exact El.
  Qed.
  Lemma grow_tree' d : forall l, fits' d l.
  Proof.
    induction d as [|d IH]; intros l L.
    - cbn in L. assert (E : l = []) by (destruct l; [reflexivity|cbn in L; lia]). exists Tip. split; [constructor|symmetry; exact E].
    - assert (X : {c | 5 <= c <= 11 /\ S c * 6 ^ d <= S (length l) <= S c * 12 ^ d}).
      { rewrite !Nat.pow_succ_r' in L. destruct (Nat.eq_dec d 0) as [->|D].
        - exists (length l). cbn in *. lia.
        - pose proof (pow_double d ltac:(lia)). destruct (le_lt_dec (S (length l)) (6 * 12 ^ d)); [exists 5|exists 11]; lia. }
      destruct X as (c & Hc & X). destruct (grow_node' d IH c l X) as (n & Hk & Bn & E).
      exists (Node n). split; [constructor; [lia|exact Bn]|exact E].
  Qed.
  Lemma root_depth' N D : 2 <= N -> N <= 12 ^ S D -> {d | 2 * 6 ^ d <= N <= 12 ^ S d}.
  Proof.
    intros N2. induction D as [|D IH]; intros L; [exists 0; cbn in *; lia|].
    destruct (le_lt_dec N (12 ^ S D)) as [L'|L']; [exact (IH L')|]. exists (S D). pose proof (pow_double (S D) ltac:(lia)). lia.
  Qed.
  Lemma fitting l : {t | entries t = l /\ exists d, btree true d t}.
  Proof.
    destruct l as [|e l0] eqn:El; [exists Tip; split; [reflexivity|exists 0; constructor]|].
    assert (L : 2 <= S (length l)) by (subst; cbn; lia). rewrite <- El. clear El e l0.
    destruct (root_depth' (S (length l)) (length l) L) as (d & Hd).
    { apply Nat.lt_le_incl, Nat.pow_gt_lin_r. lia. }
    assert (X : {c | 1 <= c <= 11 /\ S c * 6 ^ d <= S (length l) <= S c * 12 ^ d}).
    { rewrite !Nat.pow_succ_r' in Hd. destruct (Nat.eq_dec d 0) as [->|D].
      - exists (length l). cbn in *. lia.
      - pose proof (pow_double d ltac:(lia)). destruct (le_lt_dec (S (length l)) (2 * 12 ^ d)); [exists 1; lia|].
        destruct (le_lt_dec (S (length l)) (4 * 12 ^ d)); [exists 3; lia|]. destruct (le_lt_dec (S (length l)) (8 * 12 ^ d)); [exists 7; lia|exists 11; lia]. }
    destruct X as (c & Hc & X). destruct (grow_node' d (grow_tree' d) c l X) as (n & Hk & Bn & E).
    exists (Node n). split; [exact E|]. exists (S d). constructor; [lia|exact Bn].
  Qed.
  (** The same with trees of at most two levels written out, for examples. *)
  Definition leaf_of l : tree K V := match l with [] => Tip | _ => Node (fold_right (fun kv n => More Tip kv n) (Last Tip) l) end.
  Definition some_shapes : shapes K V := fun _ l =>
    if length l <=? 11 then leaf_of l
    else if length l <=? 18 then match skipn 6 l with kv :: r => Node (More (leaf_of (firstn 6 l)) kv (Last (leaf_of r))) | [] => Tip end
    else proj1_sig (fitting l).
  Lemma leaf_of_ok l : entries (leaf_of l) = l /\ (length l <= 11 -> btree true (match l with [] => 0 | _ => 1 end) (leaf_of l)) /\ (5 <= length l <= 11 -> btree false 1 (leaf_of l)).
  Proof.
    assert (E : forall l : BTreeMap K V, keys (fold_right (fun kv n => More Tip kv n) (Last Tip) l) = length l /\ bnode 0 (fold_right (fun kv n => More Tip kv n) (Last Tip) l) /\
      edges_entries (fold_right (fun kv n => More Tip kv n) (Last Tip) l) = l).
    { induction l0 as [|kv l0 (IH1 & IH2 & IH3)]; [split; [reflexivity|]; split; [repeat constructor|reflexivity]|].
      cbn [fold_right]. split; [cbn [keys]; rewrite IH1; reflexivity|]. split; [repeat constructor; exact IH2|].
      match goal with |- edges_entries (More Tip kv ?n) = _ => change (edges_entries (More Tip kv n)) with (kv :: edges_entries n) end. rewrite IH3. reflexivity. }
    destruct (E l) as (E1 & E2 & E3). destruct l as [|kv l]; [split; [reflexivity|]; split; [constructor|cbn; lia]|].
    unfold leaf_of. split; [exact E3|]. split; intros L; (constructor; [rewrite E1; cbn in *; lia|exact E2]).
  Qed.
  Lemma some_shapes_good : good_shapes some_shapes.
  Proof.
    intros i l. unfold some_shapes. destruct (Nat.leb_spec (length l) 11) as [L|L].
    { destruct (leaf_of_ok l) as (E & B & _). split; [exact E|]. eexists. exact (B L). }
    destruct (Nat.leb_spec (length l) 18) as [L2|L2].
    - destruct (skipn 6 l) as [|kv r] eqn:E; [exfalso; apply (f_equal (@length _)) in E; rewrite skipn_length in E; cbn in E; lia|].
      assert (El : l = firstn 6 l ++ kv :: r) by (rewrite <- E; symmetry; apply firstn_skipn).
      assert (L6 : length (firstn 6 l) = 6) by (rewrite firstn_length; lia).
      assert (Lr : length l = 7 + length r) by (rewrite El at 1; rewrite app_length, L6; cbn; lia).
      destruct (leaf_of_ok (firstn 6 l)) as (Ea & _ & Ba). destruct (leaf_of_ok r) as (Eb & _ & Bb). split.
      + change (entries (leaf_of (firstn 6 l)) ++ kv :: entries (leaf_of r) = l). rewrite Ea, Eb. symmetry. exact El.
      + exists 2. constructor; [cbn; lia|]. constructor; [apply Ba; lia|]. constructor. apply Bb. lia.
    - exact (proj2_sig (fitting l)).
  Qed.
End Grow.
