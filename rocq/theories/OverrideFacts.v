(** * OverrideFacts: interval types that override the provided methods. *)
From Coq Require Import List ZArith Bool Lia ZifyBool.
From Verif Require Import Base BTree UtilsModel IntervalModel NoditModel NoditOps OverrideModel OverrideOps Spec
  PointFacts IntervalFacts ListFacts NoditFacts NoditQueries NoditGaps NoditMutations NoditMerges NoditInv CrashProofs.
Import ListNotations.
Open Scope Z_scope.

Section Override.
  Context {I : Type} `{PL : PointLaws I}.
  Context {K : Type} {IK : InclusiveInterval I K} {IL : IntervalLaws I K}.
  Context {V : Type}.
  Notation entry := (K * V)%type.
  Implicit Types (m A B M : NoditMap K V).

  Lemma iip_o_agree {Q} {IQ : InclusiveInterval I Q} (valid' : Q -> bool) q : agrees_valid valid' ->
    invalid_interval_panic_o valid' q = invalid_interval_panic q.
  Proof.
    intros Hv. unfold invalid_interval_panic_o. destruct (valid_dec q) as [Vq|Nq].
    - rewrite (iip_valid _ Vq). apply Hv in Vq. rewrite Vq. reflexivity.
    - rewrite (iip_invalid _ Nq). destruct (valid' q) eqn:E; [apply Hv in E; contradiction|reflexivity].
  Qed.
  Lemma iip_o_sound {Q} {IQ : InclusiveInterval I Q} (valid' : Q -> bool) q : sound_valid valid' ->
    invalid_interval_panic_o valid' q = Panic \/ invalid_interval_panic_o valid' q = Val tt /\ valid q.
  Proof.
    intros Hv. unfold invalid_interval_panic_o. destruct (valid' q) eqn:E; [right|left; reflexivity].
    split; [reflexivity|apply Hv, E].
  Qed.

  Lemma overlaps_agree {X Y : Type} {IA : InclusiveInterval I X} {IB : InclusiveInterval I Y} (over : X -> Y -> outcome bool) a b :
    agrees_overlaps over -> valid a -> valid b -> over a b = overlaps a b.
  Proof.
    intros Ho Va Vb. destruct (Ho a b Va Vb) as (x & -> & Hx). apply valid_rk in Va. apply valid_rk in Vb.
    rewrite overlaps_true by assumption. f_equal. rewrite overlap_rk in Hx. destruct x; lia.
  Qed.

  Section Q.
    Context {Q : Type} {IQ : InclusiveInterval I Q}.
    Implicit Type q : Q.

    Lemma overlapping_o_agree valid' m q : agrees_valid valid' -> overlapping_o valid' m q = overlapping m q.
    Proof. intros Hv. unfold overlapping_o, overlapping. rewrite iip_o_agree by exact Hv. reflexivity. Qed.
    Lemma map_overlaps_o_agree valid' m q : agrees_valid valid' -> map_overlaps_o valid' m q = map_overlaps m q.
    Proof.
      intros Hv. unfold map_overlaps_o, map_overlaps. rewrite iip_o_agree, overlapping_o_agree by exact Hv. reflexivity.
    Qed.
    Lemma overlapping_mut_o_agree valid' f q m : agrees_valid valid' -> overlapping_mut_o valid' f q m = overlapping_mut f q m.
    Proof. intros Hv. unfold overlapping_mut_o, overlapping_mut. rewrite iip_o_agree by exact Hv. reflexivity. Qed.

    Lemma remove_loop_agree (over : Q -> K -> outcome bool) q (pre post acc : list entry) : agrees_overlaps over -> valid q -> Forall okv post ->
      remove_overlapping_loop_o over q pre post acc = remove_overlapping_loop q pre post acc.
    Proof.
      intros Ho Vq HV. revert acc. induction post as [|[k v] post IH]; intros acc; [reflexivity|].
      inversion HV as [|? ? Vk HV']; subst. cbn [remove_overlapping_loop_o remove_overlapping_loop].
      rewrite (overlaps_agree over q k Ho Vq) by (apply valid_rk; exact Vk).
      destruct (overlaps q k) as [[|]|]; [|reflexivity..]. apply IH, HV'.
    Qed.
    Lemma okv_seek c m : Forall okv m -> Forall okv (snd (seek c m)).
    Proof.
      induction m as [|[k v] m IH]; intros HV; cbn [seek]; [constructor|]. inversion HV; subst.
      destruct (c k); try exact HV. destruct (seek c m) as [a b]. cbn in *. auto.
    Qed.
    Lemma remove_overlapping_o_agree valid' (over : Q -> K -> outcome bool) q m : agrees_valid valid' -> agrees_overlaps over -> WF m ->
      remove_overlapping_o valid' over q m = remove_overlapping q m.
    Proof.
      intros Hv Ho W. unfold remove_overlapping_o, remove_overlapping. rewrite iip_o_agree by exact Hv.
      destruct (valid_dec q) as [Vq|Nq]; [|rewrite (iip_invalid _ Nq); reflexivity].
      rewrite (iip_valid _ Vq). apply remove_loop_agree; [exact Ho|exact Vq|]. apply okv_seek, W.
    Qed.

    Lemma cut_loop_agree (over : K -> Q -> outcome bool) q (pre post acc : list entry) : agrees_overlaps over -> valid q -> Forall okv post ->
      cut_loop_o over q pre post acc = cut_loop q pre post acc.
    Proof.
      intros Ho Vq HV. revert pre acc. induction post as [|[k v] post IH]; intros pre acc; [reflexivity|].
      inversion HV as [|? ? Vk HV']; subst. cbn [cut_loop_o cut_loop].
      rewrite (overlaps_agree over k q Ho) by (try exact Vq; apply valid_rk; exact Vk).
      destruct (overlaps k q) as [[|]|]; [|reflexivity..]. destruct (cut_interval k q) as [r|]; [|reflexivity].
      destruct (inside_cut r); [|reflexivity]. apply IH, HV'.
    Qed.
    Lemma cut_o_agree valid' (over : K -> Q -> outcome bool) q m : agrees_valid valid' -> agrees_overlaps over -> WF m ->
      cut_o valid' over q m = cut q m.
    Proof.
      intros Hv Ho W. unfold cut_o, cut. rewrite iip_o_agree by exact Hv.
      destruct (valid_dec q) as [Vq|Nq]; [|rewrite (iip_invalid _ Nq); reflexivity].
      rewrite (iip_valid _ Vq). apply cut_loop_agree; [exact Ho|exact Vq|]. apply okv_seek, W.
    Qed.
  End Q.

  Section Agree.
    Context (kv : K -> bool) (ko : K -> K -> outcome bool) (Hv : agrees_valid kv) (Ho : agrees_overlaps ko).

    Lemma insert_strict_o_agree k v m : insert_strict_o kv k v m = insert_strict k v m.
    Proof. unfold insert_strict_o, insert_strict. rewrite iip_o_agree, map_overlaps_o_agree by exact Hv. reflexivity. Qed.
    Lemma with_comps_o_agree k v gs ge rs re m : WF m ->
      insert_merge_with_comps_o kv ko k v gs ge rs re m = insert_merge_with_comps k v gs ge rs re m.
    Proof.
      intros W. unfold insert_merge_with_comps_o, insert_merge_with_comps.
      rewrite iip_o_agree by exact Hv. rewrite remove_overlapping_o_agree by assumption. reflexivity.
    Qed.
    Lemma merge_touching_o_agree k v m : WF m -> insert_merge_touching_o kv ko k v m = insert_merge_touching k v m.
    Proof.
      intros W. unfold insert_merge_touching_o, insert_merge_touching.
      rewrite iip_o_agree, map_overlaps_o_agree by exact Hv. rewrite with_comps_o_agree by exact W. reflexivity.
    Qed.
    Lemma merge_if_equal_o_agree veq k v m : WF m ->
      insert_merge_touching_if_values_equal_o kv ko veq k v m = insert_merge_touching_if_values_equal veq k v m.
    Proof.
      intros W. unfold insert_merge_touching_if_values_equal_o, insert_merge_touching_if_values_equal.
      rewrite iip_o_agree, map_overlaps_o_agree by exact Hv. rewrite with_comps_o_agree by exact W. reflexivity.
    Qed.
    Lemma merge_overlapping_o_agree k v m : WF m -> insert_merge_overlapping_o kv ko k v m = insert_merge_overlapping k v m.
    Proof.
      intros W. unfold insert_merge_overlapping_o, insert_merge_overlapping.
      rewrite iip_o_agree by exact Hv. rewrite with_comps_o_agree by exact W. reflexivity.
    Qed.
    Lemma merge_tor_o_agree k v m : WF m ->
      insert_merge_touching_or_overlapping_o kv ko k v m = insert_merge_touching_or_overlapping k v m.
    Proof.
      intros W. unfold insert_merge_touching_or_overlapping_o, insert_merge_touching_or_overlapping.
      rewrite iip_o_agree by exact Hv. rewrite with_comps_o_agree by exact W. reflexivity.
    Qed.
    Lemma insert_overwrite_o_agree k v m : WF m -> insert_overwrite_o kv ko k v m = insert_overwrite k v m.
    Proof.
      intros W. unfold insert_overwrite_o, insert_overwrite.
      rewrite iip_o_agree by exact Hv. rewrite cut_o_agree by assumption. reflexivity.
    Qed.
    Lemma extend_strict_o_agree l m : extend_strict_o kv l m = extend_strict l m.
    Proof.
      revert m. induction l as [|[k v] l IH]; intros m; cbn [extend_strict_o extend_strict]; [reflexivity|].
      rewrite insert_strict_o_agree. destruct (insert_strict k v m) as [m' [[|]|]]; [apply IH|reflexivity..].
    Qed.
    Lemma inner_gaps_o_agree M : inner_gaps_o kv M = inner_gaps M.
    Proof.
      induction M as [|x [|y M] IH]; [reflexivity..|].
      set (T := y :: M) in *.
      change (inner_gaps_o kv (x :: T)) with
        (let? u := unwrap (up (iend (fst x))) in let? d := unwrap (down (istart (fst y))) in
         let g := ifrom (mkInterval u d) : K in let? gs := inner_gaps_o kv T in Val (if kv g then g :: gs else gs)).
      change (inner_gaps (x :: T)) with
        (let? u := unwrap (up (iend (fst x))) in let? d := unwrap (down (istart (fst y))) in
         let g := ifrom (mkInterval u d) : K in let? gs := inner_gaps T in Val (if is_valid g then g :: gs else gs)).
      rewrite IH. destruct (up (iend (fst x))) as [u|]; [|reflexivity].
      destruct (down (istart (fst y))) as [d|]; [|reflexivity].
      destruct (inner_gaps T) as [gs|]; [|reflexivity]. cbn [unwrap obind]. cbv zeta.
      assert (E : kv (ifrom (mkInterval u d)) = is_valid (ifrom (mkInterval u d) : K)).
      { destruct (valid_dec (ifrom (mkInterval u d) : K)) as [Vg|Ng].
        - rewrite (proj2 (Hv _) Vg). apply is_valid_true in Vg. rewrite Vg. reflexivity.
        - destruct (kv (ifrom (mkInterval u d))) eqn:E; [apply Hv in E; contradiction|].
          rewrite <- is_valid_true in Ng. destruct (is_valid _); [congruence|reflexivity]. }
      rewrite E. reflexivity.
    Qed.
    Lemma gaps_untrimmed_o_agree {Q} {IQ : InclusiveInterval I Q} (qv : Q -> bool) m q : agrees_valid qv ->
      gaps_untrimmed_o kv qv m q = gaps_untrimmed m q.
    Proof.
      intros Hq. unfold gaps_untrimmed_o, gaps_untrimmed. rewrite iip_o_agree, overlapping_o_agree by exact Hq.
      destruct (invalid_interval_panic q) as [u|]; [|reflexivity]. cbn [obind].
      destruct (end_gap m (istart q)) as [a|]; [|reflexivity]. cbn [obind].
      destruct (end_gap m (iend q)) as [b|]; [|reflexivity]. cbn [obind].
      destruct (overlapping m q) as [l|]; cbn [obind]; [rewrite inner_gaps_o_agree|]; destruct a, b; reflexivity.
    Qed.
    Lemma gaps_trimmed_o_agree {Q} {IQ : InclusiveInterval I Q} (qv : Q -> bool) m q : agrees_valid qv ->
      gaps_trimmed_o kv qv m q = gaps_trimmed m q.
    Proof.
      intros Hq. unfold gaps_trimmed_o, gaps_trimmed. rewrite iip_o_agree, overlapping_o_agree by exact Hq.
      destruct (invalid_interval_panic q) as [u|]; [|reflexivity]. cbn [obind].
      destruct (end_gap m (istart q)) as [a|]; [|reflexivity]. cbn [obind].
      destruct (end_gap m (iend q)) as [b|]; [|reflexivity]. cbn [obind].
      destruct (overlapping m q) as [l|]; cbn [obind]; [rewrite inner_gaps_o_agree|]; destruct a, b; reflexivity.
    Qed.
  End Agree.

  (** ** Removing more or fewer entries than overlap *)
  Lemma WF_drop A (e : entry) B : WF (A ++ e :: B) -> WF (A ++ B).
  Proof.
    intros W. apply (WF_replace A [e] [] B) in W; [exact W|apply WF_nil|]. intros y [].
  Qed.
  Lemma remove_thin c m : WF m -> WF (fst (remove c m)) /\ incl (fst (remove c m)) m.
  Proof.
    intros W. unfold remove. assert (E : fst (seek c m) ++ snd (seek c m) = m).
    { clear. induction m as [|[k v] m IH]; [reflexivity|]. cbn [seek]. destruct (c k); [reflexivity..|].
      destruct (seek c m). cbn in *. congruence. }
    destruct (seek c m) as [a b]. cbn in E. destruct b as [|[k v] b]; [split; [exact W|apply incl_refl]|].
    destruct (c k); cbn [fst]; try (split; [exact W|apply incl_refl]).
    subst m. split; [apply WF_drop in W; exact W|]. intros x Hx. rewrite in_app_iff in *. cbn. tauto.
  Qed.

  Section Remove.
    Context {Q : Type} {IQ : InclusiveInterval I Q}.
    Implicit Type q : Q.

    Lemma remove_loop_thin (over : Q -> K -> outcome bool) q (pre post acc : list entry) : WF (pre ++ post) ->
      WF (fst (remove_overlapping_loop_o over q pre post acc)) /\
      incl (fst (remove_overlapping_loop_o over q pre post acc)) (pre ++ post).
    Proof.
      revert acc. induction post as [|[k v] post IH]; intros acc W; cbn [remove_overlapping_loop_o].
      - cbn [fst]. split; [exact W|apply incl_refl].
      - destruct (over q k) as [[|]|]; cbn [fst]; try (split; [exact W|apply incl_refl]).
        destruct (IH (acc ++ [(k, v)]) (WF_drop _ _ _ W)) as [W' Hi]. split; [exact W'|].
        intros x Hx. apply Hi in Hx. rewrite in_app_iff in *. cbn. tauto.
    Qed.
    Lemma seek_eq c m : fst (seek c m) ++ snd (seek c m) = m.
    Proof.
      induction m as [|[k v] m IH]; [reflexivity|]. cbn [seek]. destruct (c k); [reflexivity..|].
      destruct (seek c m). cbn in *. congruence.
    Qed.
    Lemma remove_overlapping_o_thin valid' (over : Q -> K -> outcome bool) q m : WF m ->
      WF (fst (remove_overlapping_o valid' over q m)) /\ incl (fst (remove_overlapping_o valid' over q m)) m.
    Proof.
      intros W. unfold remove_overlapping_o. destruct (invalid_interval_panic_o valid' q); [|split; [exact W|apply incl_refl]].
      unfold lower_bound. pose proof (remove_loop_thin over q (fst (seek (overlapping_comp (istart q)) m))
        (snd (seek (overlapping_comp (istart q)) m)) []) as R. rewrite seek_eq in R. exact (R W).
    Qed.

    (** Entries from the lower bound on end at or after the start of [q]. *)
    Lemma split_bound m q : WF m ->
      exists A R, m = A ++ R /\ seek (overlapping_comp (istart q)) m = (A, R) /\
        Forall (left_of (lo q)) A /\ Forall (fun e => lo q <= ehi e) R.
    Proof.
      intros W. destruct (split3 m (lo q) (lo q) W) as (A & M & B & -> & HA & HM & HB); [lia|].
      exists A, (M ++ B). assert (HR : Forall (fun e => lo q <= ehi e) (M ++ B)).
      { pose proof W as [_ V']. rewrite !Forall_app in V'. destruct V' as (_ & _ & VB).
        rewrite Forall_app, !Forall_forall in *. split; intros x Hx.
        - specialize (HM x Hx). unfold meets in *. lia.
        - specialize (HB x Hx). specialize (VB x Hx). unfold right_of, okv in *. lia. }
      split; [reflexivity|]. split; [|auto]. apply seek_split; assumption.
    Qed.

    Lemma remove_loop_complete (over : Q -> K -> outcome bool) q (pre post acc : list entry) m' l : valid q -> misses_none over ->
      WF (pre ++ post) -> Forall (left_of (lo q)) pre -> Forall (fun e => lo q <= ehi e) post ->
      remove_overlapping_loop_o over q pre post acc = (m', Val l) -> forall e, In e m' -> ~ overlap (fst e) q.
    Proof.
      intros Vq Ho W Hpre. revert acc W. induction post as [|[k v] post IH]; intros acc W Hpost; cbn [remove_overlapping_loop_o].
      - intros E. injection E as <- <-. rewrite app_nil_r in *. intros e He. rewrite Forall_forall in Hpre.
        specialize (Hpre e He). apply valid_rk in Vq. apply (WF_okv _ e W) in He. rewrite overlap_rk. unfold left_of, elo, ehi in *. lia.
      - destruct (over q k) as [[|]|] eqn:E; [| |discriminate].
        + apply IH; [apply WF_drop in W; exact W|]. inversion Hpost; assumption.
        + intros X. injection X as <- <-. pose proof W as W0. apply WF_app in W0. destruct W0 as (Wp & W0 & _).
          apply WF_cons in W0. destruct W0 as (Vk & W0 & Hr). inversion Hpost as [|? ? Hk _]; subst.
          assert (N : ~ overlap q k).
          { intros Hov. apply (Ho q k); [exact Vq|apply valid_rk; exact Vk|exact Hov|exact E]. }
          rewrite overlap_rk in N. apply valid_rk in Vq. unfold elo, ehi in Vk, Hk. cbn in Vk, Hk.
          intros e He. rewrite overlap_rk. apply in_app_iff in He. destruct He as [He|[<-|He]].
          * rewrite Forall_forall in Hpre. specialize (Hpre e He). unfold left_of, elo, ehi in *. lia.
          * cbn. lia.
          * rewrite Forall_forall in Hr. specialize (Hr e He). unfold elo, ehi in *. cbn in *. lia.
    Qed.
    Lemma remove_overlapping_o_complete valid' (over : Q -> K -> outcome bool) q m m' l : valid q -> misses_none over -> WF m ->
      remove_overlapping_o valid' over q m = (m', Val l) -> forall e, In e m' -> ~ overlap (fst e) q.
    Proof.
      intros Vq Ho W. unfold remove_overlapping_o. destruct (invalid_interval_panic_o valid' q); [|discriminate].
      unfold lower_bound. destruct (split_bound m q W) as (A & R & -> & -> & HA & HR). cbn [fst snd].
      apply remove_loop_complete; assumption.
    Qed.

    (** ** [cut] *)
    Lemma cut_interval_right (k : K) q : lo q <= hi q -> lo k <= hi k -> hi q < lo k ->
      cut_interval k q = Val (mkCut None None (Some (mkInterval (istart k) (iend k)))).
    Proof.
      intros Vq Vk L. unfold cut_interval, cut_interval_raw, config.
      rewrite !utils_contains_point_rk, ltb_rk, <- !lo_rk, <- !hi_rk.
      replace (lo k <? lo q) with false by lia.
      replace ((lo q <=? lo k) && (lo k <=? hi q)) with false by lia.
      replace ((lo q <=? hi k) && (hi k <=? hi q)) with false by lia.
      cbn [obind before_cut inside_cut after_cut]. unfold filter_valid. rewrite is_valid_rk.
      destruct (Z.leb_spec (lo (mkInterval (istart k) (iend k))) (hi (mkInterval (istart k) (iend k)))) as [|X]; [reflexivity|].
      exfalso. unfold lo, hi in *. cbn in X. lia.
    Qed.

    Definition pieces (r : CutResult I) (v : V) : list entry :=
      opt_list (option_map (fun x => (ifrom x, v)) (before_cut r)) ++
      opt_list (option_map (fun x => (ifrom x, v)) (after_cut r)).
    Lemma insert_pieces r v pre :
      insert_piece (after_cut r) v (insert_piece (before_cut r) v pre) = pre ++ pieces r v.
    Proof.
      unfold pieces, insert_piece. destruct (before_cut r), (after_cut r); cbn; rewrite <- ?app_assoc, ?app_nil_r; reflexivity.
    Qed.
    Lemma pieces_ok (k : K) (v : V) q : lo q <= hi q -> lo k <= hi k -> lo q <= hi k ->
      exists r, cut_interval k q = Val r /\ WF (pieces r v) /\
        (forall e, In e (pieces r v) -> snd e = v /\ lo k <= elo e /\ ehi e <= hi k /\ (ehi e < lo q \/ hi q < elo e)) /\
        (forall z, lo k <= z <= hi k -> z < lo q \/ hi q < z -> exists e, In e (pieces r v) /\ elo e <= z <= ehi e) /\
        (inside_cut r = None <-> hi q < lo k).
    Proof.
      intros Vq Vk L. destruct (Z_lt_le_dec (hi q) (lo k)) as [R|R].
      - eexists. split; [apply cut_interval_right; assumption|]. unfold pieces. cbn [before_cut after_cut inside_cut option_map opt_list app].
        assert (E1 : elo (ifrom (mkInterval (istart k) (iend k)) : K, v) = lo k).
        { unfold elo. cbn [fst]. rewrite from_lo; [reflexivity|exact Vk]. }
        assert (E2 : ehi (ifrom (mkInterval (istart k) (iend k)) : K, v) = hi k).
        { unfold ehi. cbn [fst]. rewrite from_hi; [reflexivity|exact Vk]. }
        split; [apply WF_one; rewrite E1, E2; exact Vk|]. split; [|split].
        + intros e [<-|[]]. rewrite E1, E2. cbn. split; [reflexivity|lia].
        + intros z Hz _. eexists. split; [left; reflexivity|]. rewrite E1, E2. lia.
        + tauto.
      - destruct (cut_interval_ok k q) as (r & Er & Hb & (i & Ei & Hil & Hih) & Ha); try assumption.
        exists r. split; [exact Er|]. unfold pieces. rewrite Ei.
        assert (P : forall x : Interval I, lo x <= hi x -> elo (ifrom x : K, v) = lo x /\ ehi (ifrom x : K, v) = hi x).
        { intros x Hx. unfold elo, ehi. cbn [fst]. rewrite from_lo, from_hi by exact Hx. auto. }
        destruct (before_cut r) as [b|], (after_cut r) as [a|]; cbn [option_map opt_list app].
        + destruct Hb as (B1 & B2 & B3), Ha as (A1 & A2 & A3). destruct (P b) as [Pb1 Pb2]; [lia|]. destruct (P a) as [Pa1 Pa2]; [lia|].
          split; [apply WF_cons; rewrite Pb1, Pb2; split; [lia|]; split; [apply WF_one; lia|constructor; [lia|constructor]]|].
          split; [|split; [|split; [discriminate|lia]]].
          * intros e [<-|[<-|[]]]; rewrite ?Pb1, ?Pb2, ?Pa1, ?Pa2; (split; [reflexivity|lia]).
          * intros z Hz [Hz'|Hz']; eexists; (split; [|]); [left; reflexivity|rewrite Pb1, Pb2; lia|right; left; reflexivity|rewrite Pa1, Pa2; lia].
        + destruct Hb as (B1 & B2 & B3). destruct (P b) as [Pb1 Pb2]; [lia|].
          split; [apply WF_one; lia|]. split; [|split; [|split; [discriminate|lia]]].
          * intros e [<-|[]]. rewrite Pb1, Pb2. split; [reflexivity|lia].
          * intros z Hz [Hz'|Hz']; [|lia]. eexists; split; [left; reflexivity|lia].
        + destruct Ha as (A1 & A2 & A3). destruct (P a) as [Pa1 Pa2]; [lia|].
          split; [apply WF_one; lia|]. split; [|split; [|split; [discriminate|lia]]].
          * intros e [<-|[]]. rewrite Pa1, Pa2. split; [reflexivity|lia].
          * intros z Hz [Hz'|Hz']; [lia|]. eexists; split; [left; reflexivity|lia].
        + split; [apply WF_nil|]. split; [intros e []|]. split; [|split; [discriminate|lia]].
          intros z Hz. lia.
    Qed.

    (** What any run of the loop keeps: the entries stay in order, and no
        point outside [q] changes. *)
    Definition outside_kept q m m' : Prop :=
      (forall p v, ~ covers q p -> maps_to m p v -> maps_to m' p v) /\
      (forall p v, maps_to m' p v -> maps_to m p v).
    Lemma replace_kept q pre (k : K) (v : V) (ps rest : list entry) : lo q <= hi q ->
      (forall e, In e ps -> snd e = v /\ lo k <= elo e /\ ehi e <= hi k) ->
      (forall z, lo k <= z <= hi k -> z < lo q \/ hi q < z -> exists e, In e ps /\ elo e <= z <= ehi e) ->
      outside_kept q (pre ++ (k, v) :: rest) (pre ++ ps ++ rest).
    Proof.
      intros Vq P1 P2. split; intros p w.
      - intros Nq (k' & Hin & Hc). rewrite in_app_iff in Hin. destruct Hin as [Hin|[Hin|Hin]].
        + exists k'. rewrite !in_app_iff. auto.
        + injection Hin as <- <-. apply covers_rk in Hc. rewrite covers_rk in Nq.
          destruct (P2 (rk p)) as ([k' v'] & He & L); [lia|lia|]. destruct (P1 _ He) as (Ev & _). cbn in Ev. subst v'.
          exists k'. rewrite !in_app_iff, covers_rk. auto.
        + exists k'. rewrite !in_app_iff. auto.
      - intros (k' & Hin & Hc). rewrite !in_app_iff in Hin. destruct Hin as [Hin|[Hin|Hin]].
        + exists k'. rewrite in_app_iff. auto.
        + destruct (P1 _ Hin) as (Ev & L1 & L2). cbn in Ev. subst w. exists k. rewrite in_app_iff. split; [right; left; reflexivity|].
          apply covers_rk in Hc. rewrite covers_rk. unfold elo, ehi in *. cbn in *. lia.
        + exists k'. rewrite in_app_iff. cbn. auto.
    Qed.
    Lemma kept_trans q m m1 m2 : outside_kept q m m1 -> outside_kept q m1 m2 -> outside_kept q m m2.
    Proof. intros [H1 H2] [H3 H4]. split; auto. Qed.

    Lemma cut_loop_any (over : K -> Q -> outcome bool) q (pre post acc : list entry) : valid q -> WF (pre ++ post) -> Forall (fun e => lo q <= ehi e) post ->
      WF (fst (cut_loop_o over q pre post acc)) /\ outside_kept q (pre ++ post) (fst (cut_loop_o over q pre post acc)).
    Proof.
      intros Vq. assert (Refl : forall m, outside_kept q m m) by (split; auto).
      revert pre acc. induction post as [|[k v] post IH]; intros pre acc W Hp; cbn [cut_loop_o]; [cbn [fst]; auto|].
      destruct (over k q) as [[|]|]; cbn [fst]; [|auto..].
      inversion Hp as [|? ? Hk Hp']; subst. unfold ehi in Hk. cbn in Hk.
      assert (Vk : lo k <= hi k). { apply (WF_okv _ (k, v) W). apply in_app_iff. right. left. reflexivity. }
      pose proof Vq as Vq'. apply valid_rk in Vq'.
      destruct (pieces_ok k v q Vq' Vk Hk) as (r & Er & Wp & P1 & P2 & Pi). rewrite Er, insert_pieces.
      assert (W' : WF (pre ++ pieces r v ++ post)).
      { apply (WF_replace pre [(k, v)]); [exact W|exact Wp|]. intros y Hy. exists (k, v). split; [left; reflexivity|].
        destruct (P1 y Hy) as (_ & L1 & L2 & _). unfold elo at 1, ehi at 2. cbn. auto. }
      assert (Kp : outside_kept q (pre ++ (k, v) :: post) (pre ++ pieces r v ++ post)).
      { apply replace_kept; [exact Vq'|intros e He; specialize (P1 e He); tauto|exact P2]. }
      rewrite app_assoc in W', Kp. destruct (inside_cut r) as [i|]; [|cbn [fst]; auto].
      destruct (IH (pre ++ pieces r v) (acc ++ [(ifrom i, v)]) W' Hp') as [W2 K2]. split; [exact W2|].
      exact (kept_trans _ _ _ _ Kp K2).
    Qed.
    Lemma cut_o_any valid' (over : K -> Q -> outcome bool) q m : WF m -> sound_valid valid' ->
      WF (fst (cut_o valid' over q m)) /\ outside_kept q m (fst (cut_o valid' over q m)).
    Proof.
      intros W Hv. unfold cut_o. destruct (iip_o_sound valid' q Hv) as [->|[-> Vq]].
      - cbn [fst]. split; [exact W|split; auto].
      - unfold lower_bound. destruct (split_bound m q W) as (A & R & -> & -> & HA & HR). cbn [fst snd].
        apply cut_loop_any; assumption.
    Qed.

    (** If no overlapping key is denied, [cut] empties [q]. *)
    Lemma cut_loop_empties (over : K -> Q -> outcome bool) q (pre post acc : list entry) : valid q -> finds_all over -> WF (pre ++ post) ->
      Forall (fun e => ehi e < lo q \/ hi q < elo e) pre -> Forall (fun e => lo q <= ehi e) post ->
      Forall (fun e => ehi e < lo q \/ hi q < elo e) (fst (cut_loop_o over q pre post acc)).
    Proof.
      intros Vq Ho. revert pre acc. induction post as [|[k v] post IH]; intros pre acc W Hpre Hp; cbn [cut_loop_o].
      { cbn [fst]. rewrite app_nil_r. exact Hpre. }
      inversion Hp as [|? ? Hk Hp']; subst. unfold ehi in Hk. cbn in Hk.
      pose proof W as W0. apply WF_app in W0. destruct W0 as (_ & W0 & _). apply WF_cons in W0. destruct W0 as (Vk & Wr & Hr).
      unfold elo, ehi in Vk. cbn in Vk. pose proof Vq as Vq'. apply valid_rk in Vq'.
      assert (Rest : hi q < lo k -> Forall (fun e => ehi e < lo q \/ hi q < elo e) ((k, v) :: post)).
      { intros L. constructor; [right; exact L|]. rewrite Forall_forall in *. intros e He. specialize (Hr e He).
        unfold elo, ehi in *. cbn in *. lia. }
      destruct (Z_lt_le_dec (hi q) (lo k)) as [L|L].
      - destruct (over k q) as [[|]|]; cbn [fst].
        + rewrite cut_interval_right by assumption. rewrite insert_pieces. cbn [inside_cut fst].
          destruct (pieces_ok k v q Vq' Vk Hk) as (r & Er & _ & P1 & _). rewrite cut_interval_right in Er by assumption.
          injection Er as <-. rewrite !Forall_app. split; [split; [exact Hpre|]|].
          * rewrite Forall_forall. intros e He. apply (P1 e He).
          * specialize (Rest L). inversion Rest; assumption.
        + rewrite Forall_app. auto.
        + rewrite Forall_app. auto.
      - rewrite (Ho k q); [|apply valid_rk; exact Vk|exact Vq|apply overlap_rk; lia].
        destruct (pieces_ok k v q Vq' Vk Hk) as (r & Er & Wp & P1 & P2 & Pi). rewrite Er, insert_pieces.
        assert (Hpre' : Forall (fun e => ehi e < lo q \/ hi q < elo e) (pre ++ pieces r v)).
        { rewrite Forall_app. split; [exact Hpre|]. rewrite Forall_forall. intros e He. apply (P1 e He). }
        destruct (inside_cut r) as [i|]; [|pose proof (proj1 Pi eq_refl); lia]. apply IH; [|exact Hpre'|exact Hp'].
        rewrite <- app_assoc. apply (WF_replace pre [(k, v)]); [exact W|exact Wp|]. intros y Hy.
        exists (k, v). split; [left; reflexivity|].
        destruct (P1 y Hy) as (_ & L1 & L2 & _). unfold elo at 1, ehi at 2. cbn. auto.
    Qed.
    Lemma cut_o_points valid' (over : K -> Q -> outcome bool) q m : WF m -> valid q -> valid' q = true -> finds_all over ->
      forall p v, maps_to (fst (cut_o valid' over q m)) p v <-> maps_to m p v /\ ~ covers q p.
    Proof.
      intros W Vq Ev Ho p v. unfold cut_o, invalid_interval_panic_o. rewrite Ev. cbn [negb].
      unfold lower_bound. destruct (split_bound m q W) as (A & R & -> & -> & HA & HR). cbn [fst snd].
      assert (HA' : Forall (fun e => ehi e < lo q \/ hi q < elo e) A).
      { eapply Forall_impl; [|exact HA]. intros e. unfold left_of. auto. }
      destruct (cut_loop_any over q A R [] Vq W HR) as [W' [K1 K2]].
      pose proof (cut_loop_empties over q A R [] Vq Ho W HA' HR) as E. split.
      - intros Hm. split; [exact (K2 p v Hm)|]. destruct Hm as (k & Hin & Hc). rewrite Forall_forall in E. specialize (E _ Hin).
        apply covers_rk in Hc. rewrite covers_rk. unfold elo, ehi in E. cbn in E. lia.
      - intros [Hm Nc]. apply K1; assumption.
    Qed.

    (** A [cut] that returns with no overlap missed has cut as documented. *)
    Lemma cut_loop_val (over : K -> Q -> outcome bool) q (pre post acc : list entry) m' l : valid q -> misses_none over -> Forall okv post ->
      Forall (fun e => lo q <= ehi e) post ->
      cut_loop_o over q pre post acc = (m', Val l) -> cut_loop q pre post acc = (m', Val l).
    Proof.
      intros Vq Ho HV Hp. revert pre acc. induction post as [|[k v] post IH]; intros pre acc; [exact (fun E => E)|].
      inversion HV as [|? ? Vk HV']; subst. inversion Hp as [|? ? Hk Hp']; subst. unfold okv, elo, ehi in Vk, Hk. cbn in Vk, Hk.
      pose proof Vq as Vq'. apply valid_rk in Vq'. cbn [cut_loop_o cut_loop]. rewrite overlaps_true by assumption.
      destruct (Z_lt_le_dec (hi q) (lo k)) as [L|L].
      - replace ((lo k <=? hi q) && (lo q <=? hi k)) with false by lia.
        rewrite cut_interval_right by assumption. cbn [inside_cut].
        destruct (over k q) as [[|]|]; [discriminate|exact (fun E => E)|discriminate].
      - replace ((lo k <=? hi q) && (lo q <=? hi k)) with true by lia.
        assert (N : over k q <> Val false).
        { apply Ho; [apply valid_rk; exact Vk|exact Vq|apply overlap_rk; lia]. }
        destruct (over k q) as [[|]|]; [|congruence|discriminate]. destruct (cut_interval k q) as [r|]; [|discriminate].
        destruct (inside_cut r); [|discriminate]. apply IH; assumption.
    Qed.
    Lemma cut_o_val valid' (over : K -> Q -> outcome bool) q m m' l : WF m -> valid q -> misses_none over ->
      cut_o valid' over q m = (m', Val l) -> cut q m = (m', Val l).
    Proof.
      intros W Vq Ho. unfold cut_o, cut. rewrite (iip_valid _ Vq). destruct (invalid_interval_panic_o valid' q); [|discriminate].
      unfold lower_bound. pose proof (okv_seek (overlapping_comp (istart q)) m (proj2 W)) as HV.
      destruct (split_bound m q W) as (A & R & -> & E & HA & HR). rewrite E in *. cbn [fst snd] in *.
      apply cut_loop_val; assumption.
    Qed.
  End Remove.

  (** ** The insertions *)
  Section Keys.
    Context (kv : K -> bool) (ko : K -> K -> outcome bool) (Hv : sound_valid kv) (Ho : misses_none ko).

    Lemma insert_unchecked_WF m k v : WF m -> valid k -> (forall e, In e m -> ~ overlap (fst e) k) -> WF (insert_unchecked k v m).
    Proof.
      intros W Vk Hn. destruct (insert_strict_done m k v W Vk) as (l1 & l2 & _ & E & W').
      { intros k' v' Hin. apply (Hn (k', v') Hin). }
      unfold insert_strict in E. rewrite (iip_valid _ Vk) in E. destruct (map_overlaps m k) as [[|]|]; [discriminate| |discriminate].
      injection E as ->. exact W'.
    Qed.
    Lemma map_overlaps_o_val m k : valid k -> invalid_interval_panic_o kv k = Val tt -> map_overlaps_o kv m k = map_overlaps m k.
    Proof.
      intros Vk E. unfold map_overlaps_o, map_overlaps, overlapping_o, overlapping. rewrite (iip_valid _ Vk), E. reflexivity.
    Qed.
    Lemma insert_strict_o_sound k v m : insert_strict_o kv k v m = (m, Panic) \/ insert_strict_o kv k v m = insert_strict k v m.
    Proof.
      unfold insert_strict_o, insert_strict. destruct (iip_o_sound kv k Hv) as [->|[E Vk]]; [left; reflexivity|right].
      rewrite E, (iip_valid _ Vk), map_overlaps_o_val by assumption. reflexivity.
    Qed.

    (** The map after a merging insertion, if what is left of the old map
        neither overlaps [k] nor satisfies [P]. *)
    Lemma insert_thin P k v m m0 r m2 : WF m0 -> absorbs P k v m m0 r -> WF m2 -> incl m2 m ->
      (forall e, In e m2 -> ~ P e) -> WF (insert_unchecked r v m2).
    Proof.
      intros W0 (_ & (l1 & l2 & HS & ->) & _) W2 Hi HP.
      pose proof W0 as W1. apply WF_app in W1. destruct W1 as (_ & W1 & H1). apply WF_cons in W1. destruct W1 as (Vr & _ & H2).
      unfold elo, ehi in Vr. cbn in Vr. apply insert_unchecked_WF; [exact W2|apply valid_rk; exact Vr|].
      intros e He Hov. assert (Hl : In e (l1 ++ l2)) by (apply (sub_in _ _ _ HS); split; [apply Hi, He|apply HP, He]).
      apply overlap_rk in Hov. apply in_app_iff in Hl. destruct Hl as [Hl|Hl].
      - specialize (H1 e (r, v) Hl (or_introl eq_refl)). unfold elo, ehi in *. cbn in *. lia.
      - rewrite Forall_forall in H2. specialize (H2 e Hl). unfold elo, ehi in *. cbn in *. lia.
    Qed.

    Lemma with_comps_o_WF P k v gs ge rs re m m0 r :
      WF m -> valid k -> insert_merge_with_comps k v gs ge rs re m = (m0, Val r) -> WF m0 -> absorbs P k v m m0 r ->
      (forall m1, WF m1 -> incl m1 m -> (forall e, In e m1 -> ~ overlap (fst e) k) ->
         WF (re (rs m1 v) v) /\ incl (re (rs m1 v) v) m1 /\ forall e, In e (re (rs m1 v) v) -> ~ P e) ->
      WF (fst (insert_merge_with_comps_o kv ko k v gs ge rs re m)).
    Proof.
      intros W Vk E W0 HA HR. destruct (remove_overlapping_spec m k W Vk) as (kept & rem & R & _).
      rewrite (merge_with_comps k v gs ge rs re m kept rem Vk R) in E. injection E as _ Er.
      unfold insert_merge_with_comps_o. destruct (iip_o_sound kv k Hv) as [->|[-> _]]; [exact W|].
      destruct (remove_overlapping_o_thin kv ko k m W) as [W1 I1].
      destruct (remove_overlapping_o kv ko k m) as [m1 [l|]] eqn:E1; cbn [fst] in *; [|exact W1].
      destruct (HR m1 W1 I1) as (W2 & I2 & P2).
      { exact (remove_overlapping_o_complete kv ko k m m1 l Vk Ho W E1). }
      change (WF (insert_unchecked (returning k (gs m v) (ge m v)) v (re (rs m1 v) v))). rewrite Er.
      apply (insert_thin P k v m m0 r _ W0 HA W2); [|exact P2]. intros x Hx. apply I1, I2, Hx.
    Qed.

    (** Removing the neighbours leaves nothing that touches [k]. *)
    Lemma removes_touching k m1 : valid k -> WF m1 -> (forall e, In e m1 -> ~ overlap (fst e) k) ->
      let m2 := fst (remove (touching_end_comp (iend k)) (fst (remove (touching_start_comp (istart k)) m1))) in
      WF m2 /\ incl m2 m1 /\ forall e, In e m2 -> ~ touch (fst e) k /\ ~ overlap (fst e) k.
    Proof.
      intros Vk W Hn m2. destruct (remove_thin (touching_start_comp (istart k)) m1 W) as [W1 I1].
      destruct (remove_thin (touching_end_comp (iend k)) _ W1) as [W2 I2]. fold m2 in W2, I2.
      split; [exact W2|]. split; [intros x Hx; apply I1, I2, Hx|].
      destruct (no_overlap_split5 m1 k W Vk) as (A & TL & TR & B & -> & HA & HTL & HTR & HB).
      { intros k' v' Hin. apply (Hn (k', v') Hin). }
      pose proof Vk as Vk'. apply valid_rk in Vk'.
      destruct (merge_gets k A TL [] TR B Vk' W HA HTL) as (_ & _ & G1 & G2 & _); [constructor|exact HTR|exact HB|].
      unfold m2. cbn [app] in *. rewrite G1, G2. intros e He. apply in_app_iff in He. destruct He as [He|He].
      - refine (rel_A k A TL [] TR B Vk' W _ e He). exact HA.
      - refine (rel_B k A TL [] TR B Vk' W _ e He). exact HB.
    Qed.

    Lemma merge_touching_o_WF k v m : WF m -> WF (fst (insert_merge_touching_o kv ko k v m)).
    Proof.
      intros W. unfold insert_merge_touching_o. destruct (iip_o_sound kv k Hv) as [->|[E Vk]]; [exact W|]. rewrite E.
      rewrite map_overlaps_o_val by assumption.
      destruct (overlap_dec m k W Vk) as [(k' & v' & Hin & Hov)|Hn].
      - destruct (map_overlaps_spec m k W Vk) as (b & -> & Hb). destruct b; [exact W|].
        discriminate (proj2 Hb (ex_intro _ k' (ex_intro _ v' (conj Hin Hov)))).
      - destruct (insert_merge_touching_done m k v W Vk Hn) as (m0 & r & E0 & W0 & HA).
        unfold insert_merge_touching in E0. rewrite (iip_valid _ Vk) in E0.
        destruct (map_overlaps m k) as [[|]|]; [exact W| |exact W].
        destruct (insert_merge_with_comps k v _ _ _ _ m) as [m0' [r'|]] eqn:E1; [|discriminate]. cbn in E0. injection E0 as -> ->.
        pose proof (with_comps_o_WF _ k v _ _ _ _ m m0 r W Vk E1 W0 HA) as X.
        destruct (insert_merge_with_comps_o kv ko k v _ _ _ _ m) as [m3 r3]. cbn [fst] in *. apply X.
        intros m1 W1 I1 N1. destruct (removes_touching k m1 Vk W1 N1) as (A1 & A2 & A3). split; [exact A1|]. split; [exact A2|].
        intros e He. apply (A3 e He).
    Qed.

    Lemma thin_if (b : bool) c m : WF m ->
      WF (if b then fst (remove c m) else m) /\ incl (if b then fst (remove c m) else m) m.
    Proof. intros W. destruct b; [apply remove_thin, W|split; [exact W|apply incl_refl]]. Qed.
    Lemma removes_equal veq k (v : V) m1 : valid k -> WF m1 -> (forall e, In e m1 -> ~ overlap (fst e) k) ->
      let gs := get_if_equal veq (touching_start_comp (istart k)) in
      let ge := get_if_equal veq (touching_end_comp (iend k)) in
      let m2 := if is_some (gs m1 v) then fst (remove (touching_start_comp (istart k)) m1) else m1 in
      let m3 := if is_some (ge m2 v) then fst (remove (touching_end_comp (iend k)) m2) else m2 in
      WF m3 /\ incl m3 m1 /\ forall e, In e m3 -> ~ (touch (fst e) k /\ veq (snd e) v = true).
    Proof.
      intros Vk W Hn gs ge m2 m3.
      assert (T2 : WF m2 /\ incl m2 m1).
      { exact (thin_if (is_some (gs m1 v)) _ m1 W). }
      destruct T2 as [W2 I2].
      assert (T3 : WF m3 /\ incl m3 m2).
      { exact (thin_if (is_some (ge m2 v)) _ m2 W2). }
      destruct T3 as [W3 I3]. split; [exact W3|]. split; [intros x Hx; apply I2, I3, Hx|].
      destruct (no_overlap_split5 m1 k W Vk) as (A & TL & TR & B & Em & HA & HTL & HTR & HB).
      { intros k' v' Hin. apply (Hn (k', v') Hin). }
      pose proof Vk as Vk'. apply valid_rk in Vk'. rewrite Em in W. 
      destruct (merge_gets k A TL [] TR B Vk' W HA HTL (Forall_nil _) HTR HB) as (_ & _ & G1 & G2 & G3 & G4 & G5 & G6).
      pose proof (rel_A k A TL [] TR B Vk' W HA) as RA. pose proof (rel_B k A TL [] TR B Vk' W HB) as RB.
      pose proof (rel_TL k A TL [] TR B Vk' W HTL) as RL. pose proof (rel_TR k A TL [] TR B Vk' W HTR) as RR.
      cbn [app] in *. 
      assert (E2 : m2 = A ++ opt_list (drop_if (fun w => veq w v) TL) ++ opt_list TR ++ B).
      { unfold m2, gs, get_if_equal. rewrite Em, G3. clear - G1. destruct TL as [[t tv]|]; cbn [drop_if snd]; [|reflexivity].
        destruct (veq tv v); cbn [is_some]; [exact G1|reflexivity]. }
      assert (E3 : m3 = A ++ opt_list (drop_if (fun w => veq w v) TL) ++ opt_list (drop_if (fun w => veq w v) TR) ++ B).
      { unfold m3, ge, get_if_equal. rewrite E2.
        assert (X : get_key_value (touching_end_comp (iend k)) (A ++ opt_list (drop_if (fun w => veq w v) TL) ++ opt_list TR ++ B) = TR /\
                    fst (remove (touching_end_comp (iend k)) (A ++ opt_list (drop_if (fun w => veq w v) TL) ++ opt_list TR ++ B)) =
                    A ++ opt_list (drop_if (fun w => veq w v) TL) ++ B).
        { clear - G2 G4 G5 G6. destruct TL as [[t tv]|]; cbn [drop_if snd]; [|auto]. destruct (veq tv v); auto. }
        destruct X as [-> X]. clear - X. destruct TR as [[t tv]|]; cbn [drop_if snd]; [|reflexivity].
        destruct (veq tv v); cbn [is_some]; [exact X|reflexivity]. }
      rewrite E3. intros e He [Ht Hq]. rewrite !in_app_iff, !(drop_if_in v) in He.
      destruct He as [He|[[_ He]|[[_ He]|He]]]; [exact (proj1 (RA e He) Ht)|congruence|congruence|exact (proj1 (RB e He) Ht)].
    Qed.
    Lemma merge_if_equal_o_WF veq k v m : WF m -> WF (fst (insert_merge_touching_if_values_equal_o kv ko veq k v m)).
    Proof.
      intros W. unfold insert_merge_touching_if_values_equal_o. destruct (iip_o_sound kv k Hv) as [->|[E Vk]]; [exact W|]. rewrite E.
      rewrite map_overlaps_o_val by assumption.
      destruct (overlap_dec m k W Vk) as [(k' & v' & Hin & Hov)|Hn].
      - destruct (map_overlaps_spec m k W Vk) as (b & -> & Hb). destruct b; [exact W|].
        discriminate (proj2 Hb (ex_intro _ k' (ex_intro _ v' (conj Hin Hov)))).
      - destruct (insert_merge_touching_if_equal_done veq m k v W Vk Hn) as (m0 & r & E0 & W0 & HA).
        unfold insert_merge_touching_if_values_equal in E0. rewrite (iip_valid _ Vk) in E0.
        destruct (map_overlaps m k) as [[|]|]; [exact W| |exact W].
        destruct (insert_merge_with_comps k v _ _ _ _ m) as [m0' [r'|]] eqn:E1; [|discriminate]. cbn in E0. injection E0 as -> ->.
        pose proof (with_comps_o_WF _ k v _ _ _ _ m m0 r W Vk E1 W0 HA) as X.
        destruct (insert_merge_with_comps_o kv ko k v _ _ _ _ m) as [m3 r3]. cbn [fst] in *. apply X.
        intros m1 W1 I1 N1. exact (removes_equal veq k v m1 Vk W1 N1).
    Qed.
    Lemma merge_overlapping_o_WF k v m : WF m -> WF (fst (insert_merge_overlapping_o kv ko k v m)).
    Proof.
      intros W. unfold insert_merge_overlapping_o. destruct (iip_o_sound kv k Hv) as [->|[E Vk]]; [exact W|]. rewrite E.
      destruct (insert_merge_overlapping_spec m k v W Vk) as (m0 & r & E0 & W0 & HA).
      unfold insert_merge_overlapping in E0. rewrite (iip_valid _ Vk) in E0.
      apply (with_comps_o_WF _ k v _ _ _ _ m m0 r W Vk E0 W0 HA).
      intros m1 W1 I1 N1. split; [exact W1|]. split; [apply incl_refl|exact N1].
    Qed.
    Lemma merge_tor_o_WF k v m : WF m -> WF (fst (insert_merge_touching_or_overlapping_o kv ko k v m)).
    Proof.
      intros W. unfold insert_merge_touching_or_overlapping_o. destruct (iip_o_sound kv k Hv) as [->|[E Vk]]; [exact W|]. rewrite E.
      destruct (insert_merge_touching_or_overlapping_spec m k v W Vk) as (m0 & r & E0 & W0 & HA).
      unfold insert_merge_touching_or_overlapping in E0. rewrite (iip_valid _ Vk) in E0.
      apply (with_comps_o_WF _ k v _ _ _ _ m m0 r W Vk E0 W0 HA).
      intros m1 W1 I1 N1. destruct (removes_touching k m1 Vk W1 N1) as (A1 & A2 & A3). split; [exact A1|]. split; [exact A2|].
      intros e He. destruct (A3 e He). tauto.
    Qed.
    Lemma insert_overwrite_o_val k v m m' l : WF m -> insert_overwrite_o kv ko k v m = (m', Val l) -> insert_overwrite k v m = (m', Val l).
    Proof.
      intros W. unfold insert_overwrite_o, insert_overwrite. destruct (iip_o_sound kv k Hv) as [->|[E Vk]]; [discriminate|].
      rewrite E, (iip_valid _ Vk). destruct (cut_o kv ko k m) as [m1 [c|]] eqn:Ec; [|discriminate].
      rewrite (cut_o_val kv ko k m m1 c W Vk Ho Ec). exact (fun X => X).
    Qed.
    Lemma insert_overwrite_o_WF k v m : WF m -> WF (fst (insert_overwrite_o kv ko k v m)).
    Proof.
      intros W. destruct (insert_overwrite_o kv ko k v m) as [m' [l|]] eqn:E.
      - apply insert_overwrite_o_val in E; [|exact W]. cbn [fst]. pose proof (step_WF m (OpInsertOverwrite k v) W) as X. cbn in X.
        rewrite E in X. exact X.
      - unfold insert_overwrite_o in E. pose proof (cut_o_any kv ko k m W Hv) as [X _].
        destruct (invalid_interval_panic_o kv k); [|injection E as <-; exact W].
        destruct (cut_o kv ko k m) as [m1 [c|]]; [discriminate|]. injection E as <-. exact X.
    Qed.
    Lemma extend_strict_o_WF l m m' : WF m -> extend_strict_o kv l m = Val (Ok m') -> WF m'.
    Proof.
      revert m. induction l as [|[k v] l IH]; intros m W; cbn [extend_strict_o]; [congruence|].
      destruct (insert_strict_o_sound k v m) as [->| ->]; [discriminate|].
      pose proof (step_WF m (OpInsertStrict k v) W) as X. cbn in X.
      destruct (insert_strict k v m) as [m1 [[|]|]]; [|discriminate..]. apply IH. exact X.
    Qed.
    Lemma range_mut_keys lower upper f m : map fst (range_mut lower upper f m) = map fst m.
    Proof.
      unfold range_mut. rewrite <- (seek_eq lower m) at 2. destruct (seek lower m) as [a b]. cbn [fst snd].
      rewrite !map_app. f_equal. induction b as [|[k v] b IH]; [reflexivity|]. cbn. destruct (upper k); cbn; congruence.
    Qed.
    Lemma step_o_WF m (o : op_o I K V) : WF m -> safe_query o -> WF (step_o kv ko m o).
    Proof.
      intros W Hs. destruct o; cbn [step_o].
      - apply WF_nil.
      - destruct (insert_strict_o_sound k v m) as [->| ->]; [exact W|]. exact (step_WF m (OpInsertStrict k v) W).
      - apply merge_touching_o_WF, W.
      - apply merge_if_equal_o_WF, W.
      - apply merge_overlapping_o_WF, W.
      - apply merge_tor_o_WF, W.
      - apply insert_overwrite_o_WF, W.
      - apply remove_overlapping_o_thin, W.
      - apply cut_o_any; [exact W|exact Hs].
      - unfold overlapping_mut_o. destruct (invalid_interval_panic_o q_valid q); [|exact W].
        cbn [fst]. apply (same_keys_WF m); [|exact W]. symmetry. apply range_mut_keys.
      - exact (step_WF m (OpGetAtPointMut f p) W).
      - exact (step_WF m (OpIterMut f) W).
      - destruct (extend_strict_o kv l new) as [[m'|]|] eqn:E; [|exact W..]. apply (extend_strict_o_WF l new m' WF_nil E).
    Qed.
    Lemma run_o_WF (os : list (op_o I K V)) : Forall safe_query os -> WF (run_o kv ko os).
    Proof.
      unfold run_o. assert (G : forall m, WF m -> Forall safe_query os -> WF (fold_left (step_o kv ko) os m)).
      { induction os as [|o os IH]; intros m W Hs; [exact W|]. inversion Hs; subst. cbn [fold_left]. apply IH; [|assumption].
        apply step_o_WF; assumption. }
      apply G, WF_nil.
    Qed.
  End Keys.
End Override.
