(** * NoditMerges: the merging insertions of NoditMap. *)
From Coq Require Import List ZArith Bool Lia ZifyBool Sorting.Sorted.
From Verif Require Import Base BTree UtilsModel IntervalModel NoditModel Spec PointFacts IntervalFacts ListFacts NoditFacts NoditQueries NoditGaps NoditMutations.
Import ListNotations.
Open Scope Z_scope.

Section Merges.
  Context {I : Type} `{PL : PointLaws I}.
  Context {K : Type} {IK : InclusiveInterval I K} {IL : IntervalLaws I K}.
  Context {V : Type}.
  Notation entry := (K * V)%type.
  Implicit Types (m A B M : NoditMap K V).

  Lemma hull (k r : K) (X : list entry) :
    lo k <= hi k -> lo r <= lo k -> hi k <= hi r ->
    (forall e, In e X -> elo e <= ehi e /\ elo e <= hi k + 1 /\ lo k - 1 <= ehi e /\ lo r <= elo e /\ ehi e <= hi r) ->
    (lo r = lo k \/ exists e, In e X /\ elo e = lo r) ->
    (hi r = hi k \/ exists e, In e X /\ ehi e = hi r) ->
    forall p, covers r p <-> covers k p \/ exists e, In e X /\ covers (fst e) p.
  Proof.
    intros Vk L1 L2 HX HL HR p. rewrite !covers_rk. split.
    - intros Hp. destruct (Z_lt_le_dec (rk p) (lo k)) as [C1|C1].
      + right. destruct HL as [E|(e & He & E)]; [lia|]. exists e. split; [exact He|].
        destruct (HX e He). unfold elo, ehi in *. rewrite covers_rk. lia.
      + destruct (Z_lt_le_dec (hi k) (rk p)) as [C2|C2]; [|left; lia].
        right. destruct HR as [E|(e & He & E)]; [lia|]. exists e. split; [exact He|].
        destruct (HX e He). unfold elo, ehi in *. rewrite covers_rk. lia.
    - intros [Hp|(e & He & Hp)]; [lia|]. destruct (HX e He). apply covers_rk in Hp.
      unfold elo, ehi in *. lia.
  Qed.

  (** The interval [insert_merge_with_comps] stores. *)
  Definition returning (k : K) (ms me : option K) : K :=
    match ms, me with
    | Some s, Some e => ifrom (mkInterval (istart s) (iend e))
    | Some s, None => ifrom (mkInterval (istart s) (iend k))
    | None, Some e => ifrom (mkInterval (istart k) (iend e))
    | None, None => k
    end.
  Definition ret_lo (k : K) (ms : option K) : Z := match ms with Some s => lo s | None => lo k end.
  Definition ret_hi (k : K) (me : option K) : Z := match me with Some e => hi e | None => hi k end.
  Lemma returning_lo_hi k ms me : ret_lo k ms <= ret_hi k me ->
    lo (returning k ms me) = ret_lo k ms /\ hi (returning k ms me) = ret_hi k me.
  Proof.
    intros L. unfold returning. destruct ms as [s|], me as [e|]; cbn [ret_lo ret_hi] in *;
      rewrite ?from_lo, ?from_hi; try exact L; auto.
  Qed.

  Lemma merge_with_comps k v gs ge rs re m m1 rem :
    valid k -> remove_overlapping k m = (m1, Val rem) ->
    insert_merge_with_comps k v gs ge rs re m =
    (insert_unchecked (returning k (gs m v) (ge m v)) v (re (rs m1 v) v),
     Val (returning k (gs m v) (ge m v))).
  Proof.
    intros Vk E. unfold insert_merge_with_comps. rewrite (iip_valid _ Vk), E. reflexivity.
  Qed.

  (** From the shape of the result to [absorbs]. [X] is the absorbed stretch. *)
  Lemma absorbs_intro (P : entry -> Prop) k v A X B r :
    WF (A ++ X ++ B) -> lo k <= hi k ->
    Forall (fun e => ~ P e) A -> Forall P X -> Forall (fun e => ~ P e) B ->
    lo r <= lo k -> hi k <= hi r ->
    (forall e, In e X -> elo e <= hi k + 1 /\ lo k - 1 <= ehi e /\ lo r <= elo e /\ ehi e <= hi r) ->
    (lo r = lo k \/ exists e, In e X /\ elo e = lo r) ->
    (hi r = hi k \/ exists e, In e X /\ ehi e = hi r) ->
    (X = [] -> r = k) ->
    absorbs P k v (A ++ X ++ B) (A ++ (r, v) :: B) r.
  Proof.
    intros W Vk NA PX NB L1 L2 HX HL HR HE. split; [|split].
    - intros p. rewrite (hull k r X); try assumption.
      + rewrite Forall_forall in *. split; (intros [Hp|Hp]; [left; exact Hp|right]).
        * destruct Hp as (e & He & Hp). exists e. rewrite !in_app_iff. auto.
        * destruct Hp as (e & He & Pe & Hp). exists e. rewrite !in_app_iff in He.
          split; [|exact Hp]. destruct He as [He|[He|He]]; [destruct (NA e He Pe)|exact He|destruct (NB e He Pe)].
      + intros e He. split; [|apply HX, He]. apply (WF_okv (A ++ X ++ B)); [exact W|].
        rewrite !in_app_iff. auto.
    - exists A, B. split; [|reflexivity]. apply sub_app; [apply sub_all, NA|].
      change B with ([] ++ B) at 2. apply sub_app; [|apply sub_all, NB].
      apply sub_none. eapply Forall_impl; [|exact PX]. cbn. tauto.
    - intros Hn. apply HE. destruct X as [|x X]; [reflexivity|exfalso].
      apply (Hn x); [rewrite !in_app_iff; right; left; left; reflexivity|]. inversion PX; assumption.
  Qed.

  (** [WF] of the result. *)
  Lemma WF_absorb A X B r v : WF (A ++ X ++ B) -> lo r <= hi r ->
    Forall (left_of (lo r)) A -> Forall (right_of (hi r)) B -> WF (A ++ (r, v) :: B).
  Proof.
    intros W Vr HA HB. apply WF_insert; try assumption.
    apply WF_app in W. destruct W as (WA & W & WAM). apply WF_app in W. destruct W as (_ & WB & _).
    apply WF_app. split; [exact WA|]. split; [exact WB|]. intros x y Hx Hy. apply WAM; [exact Hx|].
    apply in_app_iff. right. exact Hy.
  Qed.

  Lemma insert_unchecked_absorb A B r v : Forall okv A -> lo r <= hi r ->
    Forall (left_of (lo r)) A -> Forall (right_of (hi r)) B ->
    insert_unchecked r v (A ++ B) = A ++ (r, v) :: B.
  Proof.
    intros VA Vr HA HB. apply insert_unchecked_split; rewrite Forall_forall in *; intros x Hx.
    - specialize (HA x Hx). specialize (VA x Hx). unfold left_of, okv in *. lia.
    - specialize (HB x Hx). unfold right_of in *. lia.
  Qed.

  (** Touching, in ranks. *)
  Lemma touch_entry (e : entry) (k : K) : okv e -> lo k <= hi k ->
    (touch (fst e) k <-> touches_left (lo k) e \/ touches_right (hi k) e).
  Proof.
    intros Ve Vk. rewrite touch_rk by assumption. unfold touches_left, touches_right, elo, ehi. lia.
  Qed.

  Section One.
    Context (k : K) (v : V).
    Context (A : NoditMap K V) (TL : option entry) (M : NoditMap K V) (TR : option entry) (B : NoditMap K V).
    Context (Vk : lo k <= hi k).
    Context (W : WF (A ++ opt_list TL ++ M ++ opt_list TR ++ B)).
    Context (HA : Forall (left_of (lo k - 1)) A) (HTL : Forall (touches_left (lo k)) (opt_list TL)).
    Context (HM : Forall (meets (lo k) (hi k)) M).
    Context (HTR : Forall (touches_right (hi k)) (opt_list TR)) (HB : Forall (right_of (hi k + 1)) B).

    (** Bounds between neighbouring groups. *)
    Lemma A_lt_TL t : TL = Some t -> Forall (left_of (elo t)) A.
    Proof.
      intros ->. apply WF_app in W. destruct W as (_ & _ & H1). rewrite Forall_forall. intros x Hx.
      apply H1; [exact Hx|]. left. reflexivity.
    Qed.
    Lemma A_lt_M x : In x M -> Forall (left_of (elo x)) A.
    Proof.
      intros Hi. apply WF_app in W. destruct W as (_ & _ & H1). rewrite Forall_forall. intros y Hy.
      apply H1; [exact Hy|]. rewrite !in_app_iff. auto.
    Qed.
    Lemma TL_lt_M x : In x M -> Forall (left_of (elo x)) (opt_list TL).
    Proof.
      intros Hi. apply WF_app in W. destruct W as (_ & W1 & _). apply WF_app in W1. destruct W1 as (_ & _ & H1).
      rewrite Forall_forall. intros y Hy. apply H1; [exact Hy|]. rewrite !in_app_iff. auto.
    Qed.
    Lemma B_gt_TR t : TR = Some t -> Forall (right_of (ehi t)) B.
    Proof.
      intros ->. apply WF_app in W. destruct W as (_ & W1 & _). apply WF_app in W1. destruct W1 as (_ & W1 & _).
      apply WF_app in W1. destruct W1 as (_ & W1 & _). apply WF_app in W1. destruct W1 as (_ & _ & H1).
      rewrite Forall_forall. intros x Hx. apply H1; [left; reflexivity|exact Hx].
    Qed.
    Lemma TRB_gt_M x : In x M -> Forall (right_of (ehi x)) (opt_list TR ++ B).
    Proof.
      intros Hi. apply WF_app in W. destruct W as (_ & W1 & _). apply WF_app in W1. destruct W1 as (_ & W1 & _).
      apply WF_app in W1. destruct W1 as (_ & _ & H1).
      rewrite Forall_forall. intros y Hy. apply H1; assumption.
    Qed.
    Lemma M_sorted : WF M.
    Proof.
      apply WF_app in W. destruct W as (_ & W1 & _). apply WF_app in W1. destruct W1 as (_ & W1 & _).
      apply WF_app in W1. apply W1.
    Qed.

    Lemma first_bound : let rl := ret_lo k (option_map fst (first_at k M)) in
      rl <= lo k /\ Forall (left_of rl) (A ++ opt_list TL) /\ (forall e, In e M -> rl <= elo e) /\
      (rl = lo k \/ exists e, In e M /\ elo e = rl).
    Proof.
      cbv zeta.
      assert (HAT : Forall (left_of (lo k)) (A ++ opt_list TL)).
      { rewrite Forall_app. split; [eapply Forall_impl; [|exact HA]|eapply Forall_impl; [|exact HTL]];
          intros e; unfold left_of, touches_left; lia. }
      pose proof M_sorted as WM. pose proof A_lt_M as HAM. pose proof TL_lt_M as HTM.
      unfold first_at. destruct M as [|x M'] eqn:EM.
      - cbn. split; [lia|]. split; [exact HAT|]. split; [intros e []|left; reflexivity].
      - assert (HxM : forall e, In e M' -> elo x <= elo e).
        { intros e He. apply WF_cons in WM.
          destruct WM as (Vx & _ & Hx). rewrite Forall_forall in Hx. specialize (Hx e He). lia. }
        destruct (Z.leb_spec (elo x) (lo k)) as [L|L]; cbn [option_map ret_lo].
        + change (lo (fst x)) with (elo x). split; [lia|].
          assert (Ix : In x (x :: M')) by (left; reflexivity).
          split; [rewrite Forall_app; split; [apply HAM|apply HTM]; exact Ix|].
          split; [intros e [<-|He]; [lia|apply HxM, He]|]. right. exists x. split; [left; reflexivity|reflexivity].
        + split; [lia|]. split; [exact HAT|]. split; [|left; reflexivity].
          intros e [<-|He]; [lia|]. specialize (HxM e He). lia.
    Qed.

    Lemma last_bound oe : last_at k M oe -> let rh := ret_hi k (option_map fst oe) in
      hi k <= rh /\ Forall (right_of rh) (opt_list TR ++ B) /\ (forall e, In e M -> ehi e <= rh) /\
      (rh = hi k \/ exists e, In e M /\ ehi e = rh).
    Proof.
      cbv zeta. intros E4. unfold last_at in E4.
      destruct oe as [y|]; cbn [option_map ret_hi].
      - destruct E4 as ((M' & EM) & Ly). change (hi (fst y)) with (ehi y).
        assert (Iy : In y M) by (rewrite EM; apply in_app_iff; right; left; reflexivity).
        split; [lia|]. split; [apply TRB_gt_M, Iy|]. split; [|right; exists y; auto].
        intros e He. rewrite EM in He. apply in_app_iff in He. destruct He as [He|[<-|[]]]; [|lia].
        pose proof M_sorted as WM. rewrite EM in WM. apply WF_app in WM. destruct WM as (_ & Wy & Hx).
        specialize (Hx e y He (or_introl eq_refl)). apply WF_one in Wy. lia.
      - split; [lia|]. split.
        + rewrite Forall_app. split; [eapply Forall_impl; [|exact HTR]|eapply Forall_impl; [|exact HB]];
            intros e; unfold right_of, touches_right; lia.
        + split; [|left; reflexivity]. intros e He. rewrite Forall_forall in E4. specialize (E4 e He). lia.
    Qed.

    Lemma merge_gets (m := A ++ opt_list TL ++ M ++ opt_list TR ++ B) :
      get_key_value (touching_start_comp (istart k)) m = TL /\
      get_key_value (touching_end_comp (iend k)) m = TR /\
      fst (remove (touching_start_comp (istart k)) (A ++ opt_list TL ++ opt_list TR ++ B)) = A ++ opt_list TR ++ B /\
      fst (remove (touching_end_comp (iend k)) (A ++ opt_list TR ++ B)) = A ++ B /\
      get_key_value (touching_start_comp (istart k)) (A ++ opt_list TL ++ opt_list TR ++ B) = TL /\
      get_key_value (touching_end_comp (iend k)) (A ++ opt_list TL ++ opt_list TR ++ B) = TR /\
      get_key_value (touching_end_comp (iend k)) (A ++ opt_list TR ++ B) = TR /\
      fst (remove (touching_end_comp (iend k)) (A ++ opt_list TL ++ opt_list TR ++ B)) = A ++ opt_list TL ++ B.
    Proof.
      pose proof (merge_oks A TL M TR B W) as (OA & OTL & OM & OTR & OB).
      pose proof (hi_M k M HM) as XM. pose proof (hi_TR k A TL M TR B Vk W HTR) as XTR.
      pose proof (hi_B k A TL M TR B Vk W HB) as XB. pose proof (lo_A k A TL M TR B Vk W HA) as YA.
      pose proof (lo_TL k A TL M TR B Vk W HTL) as YTL. pose proof (lo_M k M HM) as YM.
      split; [|split; [|split; [|split; [|split; [|split; [|split]]]]]].
      - apply (get_ts k A TL M TR B W HA HTL HB); rewrite !Forall_app; auto.
      - unfold m. rewrite !app_assoc. rewrite <- (app_assoc _ (opt_list TR) B).
        apply (get_te k A TL M TR B W HTR HB); rewrite !Forall_app; auto.
      - apply (remove_ts k A TL M TR B W HA HTL HB); rewrite !Forall_app; auto.
      - apply (remove_te k A TL M TR B W HTR HB); auto.
      - apply (get_ts k A TL M TR B W HA HTL HB); rewrite !Forall_app; auto.
      - rewrite !app_assoc. rewrite <- (app_assoc _ (opt_list TR) B).
        apply (get_te k A TL M TR B W HTR HB); rewrite !Forall_app; auto.
      - apply (get_te k A TL M TR B W HTR HB); auto.
      - rewrite !app_assoc. rewrite <- (app_assoc _ (opt_list TR) B).
        apply (remove_te k A TL M TR B W HTR HB); rewrite !Forall_app; auto.
    Qed.

    (** Which entries touch or overlap [k]. *)
    Lemma rel_A e : In e A -> ~ touch (fst e) k /\ ~ overlap (fst e) k.
    Proof.
      pose proof (merge_oks A TL M TR B W) as (OA & OTL & OM & OTR & OB).
      intros He. rewrite Forall_forall in OA, HA. specialize (HA e He). specialize (OA e He).
      rewrite touch_entry, overlap_meets by assumption.
      unfold left_of, touches_left, touches_right, meets, okv in *. lia.
    Qed.
    Lemma rel_TL e : In e (opt_list TL) -> touch (fst e) k /\ ~ overlap (fst e) k /\
      elo e <= hi k + 1 /\ lo k - 1 = ehi e.
    Proof.
      pose proof (merge_oks A TL M TR B W) as (OA & OTL & OM & OTR & OB).
      intros He. rewrite Forall_forall in OTL, HTL. specialize (HTL e He). specialize (OTL e He).
      rewrite touch_entry, overlap_meets by assumption.
      unfold left_of, touches_left, touches_right, meets, okv in *. lia.
    Qed.
    Lemma rel_M e : In e M -> ~ touch (fst e) k /\ overlap (fst e) k /\ elo e <= hi k /\ lo k <= ehi e.
    Proof.
      pose proof (merge_oks A TL M TR B W) as (OA & OTL & OM & OTR & OB).
      intros He. rewrite Forall_forall in OM, HM. specialize (HM e He). specialize (OM e He).
      rewrite touch_entry, overlap_meets by assumption.
      unfold left_of, touches_left, touches_right, meets, okv in *. lia.
    Qed.
    Lemma rel_TR e : In e (opt_list TR) -> touch (fst e) k /\ ~ overlap (fst e) k /\
      elo e = hi k + 1 /\ lo k - 1 <= ehi e.
    Proof.
      pose proof (merge_oks A TL M TR B W) as (OA & OTL & OM & OTR & OB).
      intros He. rewrite Forall_forall in OTR, HTR. specialize (HTR e He). specialize (OTR e He).
      rewrite touch_entry, overlap_meets by assumption.
      unfold left_of, touches_left, touches_right, meets, okv in *. lia.
    Qed.
    Lemma rel_B e : In e B -> ~ touch (fst e) k /\ ~ overlap (fst e) k.
    Proof.
      pose proof (merge_oks A TL M TR B W) as (OA & OTL & OM & OTR & OB).
      intros He. rewrite Forall_forall in OB, HB. specialize (HB e He). specialize (OB e He).
      rewrite touch_entry, overlap_meets by assumption.
      unfold right_of, touches_left, touches_right, meets, okv in *. lia.
    Qed.

    (** *** overlapping *)
    Lemma merge_overlapping : exists r,
      insert_merge_overlapping k v (A ++ opt_list TL ++ M ++ opt_list TR ++ B)
        = ((A ++ opt_list TL) ++ (r, v) :: opt_list TR ++ B, Val r) /\
      WF ((A ++ opt_list TL) ++ (r, v) :: opt_list TR ++ B) /\
      absorbs (fun e => overlap (fst e) k) k v (A ++ opt_list TL ++ M ++ opt_list TR ++ B)
        ((A ++ opt_list TL) ++ (r, v) :: opt_list TR ++ B) r.
    Proof.
      pose proof (merge_oks A TL M TR B W) as (OA & OTL & OM & OTR & OB).
      assert (Vk' : valid k) by (apply valid_rk, Vk).
      set (m := A ++ opt_list TL ++ M ++ opt_list TR ++ B).
      pose proof (get_os k A TL M TR B Vk W HA HTL HM HTR HB) as E3. fold m in E3.
      pose proof (get_oe k A TL M TR B Vk W HA HTL HM HTR HB) as E4. fold m in E4.
      pose proof (remove_M k A TL M TR B Vk W HA HTL HM HTR HB) as E5. fold m in E5.
      set (oe := get_key_value (overlapping_comp (iend k)) m) in *.
      set (ms := option_map fst (first_at k M)). set (me := option_map fst oe).
      set (r := returning k ms me).
      destruct first_bound as (L1 & L2 & L3 & L4). fold ms in L1, L2, L3, L4.
      destruct (last_bound oe E4) as (R1 & R2 & R3 & R4). fold me in R1, R2, R3, R4.
      destruct (returning_lo_hi k ms me) as [Er1 Er2]; [lia|]. fold r in Er1, Er2.
      rewrite <- Er1 in L1, L2, L3, L4. rewrite <- Er2 in R1, R2, R3, R4.
      exists r.
      assert (Eas : m = (A ++ opt_list TL) ++ M ++ (opt_list TR ++ B)) by (unfold m; rewrite <- !app_assoc; reflexivity).
      pose proof W as W2. fold m in W2. rewrite Eas in W2.
      split; [|split].
      - unfold insert_merge_overlapping. rewrite (iip_valid _ Vk').
        rewrite (merge_with_comps k v _ _ _ _ m _ M Vk' E5). rewrite E3. fold ms. fold oe. fold me. fold r.
        f_equal. rewrite app_assoc. apply insert_unchecked_absorb; [rewrite Forall_app; auto|lia|assumption|assumption].
      - apply (WF_absorb _ M); [exact W2|lia|assumption|assumption].
      - rewrite Eas. apply absorbs_intro; try assumption.
        + rewrite Forall_forall. intros e He. apply in_app_iff in He.
          destruct He as [He|He]; [apply (rel_A e He)|apply (rel_TL e He)].
        + rewrite Forall_forall. intros e He. apply (rel_M e He).
        + rewrite Forall_forall. intros e He. apply in_app_iff in He.
          destruct He as [He|He]; [apply (rel_TR e He)|apply (rel_B e He)].
        + intros e He. specialize (L3 e He). specialize (R3 e He). destruct (rel_M e He). lia.
        + intros EX. unfold r, ms, me, first_at. rewrite EX. unfold last_at in E4.
          destruct oe as [y|]; [|reflexivity].
          destruct E4 as ((M' & EM) & _). rewrite EX in EM. destruct M'; discriminate.
    Qed.

    (** *** touching or overlapping *)
    Lemma merge_tor : exists r,
      insert_merge_touching_or_overlapping k v (A ++ opt_list TL ++ M ++ opt_list TR ++ B)
        = (A ++ (r, v) :: B, Val r) /\
      WF (A ++ (r, v) :: B) /\
      absorbs (fun e => touch (fst e) k \/ overlap (fst e) k) k v
        (A ++ opt_list TL ++ M ++ opt_list TR ++ B) (A ++ (r, v) :: B) r.
    Proof.
      pose proof (merge_oks A TL M TR B W) as (OA & OTL & OM & OTR & OB).
      assert (Vk' : valid k) by (apply valid_rk, Vk).
      set (m := A ++ opt_list TL ++ M ++ opt_list TR ++ B).
      pose proof (get_os k A TL M TR B Vk W HA HTL HM HTR HB) as E3. fold m in E3.
      pose proof (get_oe k A TL M TR B Vk W HA HTL HM HTR HB) as E4. fold m in E4.
      pose proof (remove_M k A TL M TR B Vk W HA HTL HM HTR HB) as E5. fold m in E5.
      destruct merge_gets as (E1 & E2 & G1 & G2 & _). fold m in E1, E2.
      set (oe := get_key_value (overlapping_comp (iend k)) m) in *.
      set (ms := option_or (option_map fst TL) (option_map fst (first_at k M))).
      set (me := option_or (option_map fst TR) (option_map fst oe)).
      set (r := returning k ms me).
      set (X := opt_list TL ++ M ++ opt_list TR).
      pose proof rel_TL as RTL. pose proof rel_TR as RTR. pose proof TL_lt_M as FTM. pose proof A_lt_TL as FAT.
      pose proof TRB_gt_M as FMT. pose proof B_gt_TR as FTB.
      assert (HL : ret_lo k ms <= lo k /\ Forall (left_of (ret_lo k ms)) A /\
                   (forall e, In e X -> ret_lo k ms <= elo e) /\
                   (ret_lo k ms = lo k \/ exists e, In e X /\ elo e = ret_lo k ms)).
      { pose proof first_bound as (L1 & L2 & L3 & L4). unfold X, ms. clear - Vk L1 L2 L3 L4 OTL RTL RTR FTM FAT.
        destruct TL as [t|] eqn:ETL.
        - cbn [option_map option_or ret_lo]. change (lo (fst t)) with (elo t).
          destruct (RTL t) as (_ & _ & Ht); [left; reflexivity|].
          assert (Vt : elo t <= ehi t) by (inversion OTL; assumption).
          split; [lia|]. split; [apply FAT; reflexivity|]. split.
          + cbn [opt_list app]. intros e [<-|He]; [lia|]. rewrite in_app_iff in He. destruct He as [He|He].
            * pose proof (FTM e He) as Hb. inversion Hb; subst. unfold left_of in *. lia.
            * destruct (RTR e He). lia.
          + right. exists t. split; [left; reflexivity|reflexivity].
        - cbn [option_map option_or opt_list app] in *.
          split; [exact L1|]. split; [rewrite app_nil_r in L2; exact L2|]. split.
          + intros e He. rewrite in_app_iff in He. destruct He as [He|He]; [apply L3, He|].
            destruct (RTR e He). lia.
          + destruct L4 as [L4|(e & He & L4)]; [left; exact L4|right]. exists e. rewrite in_app_iff. auto. }
      assert (HR : hi k <= ret_hi k me /\ Forall (right_of (ret_hi k me)) B /\
                   (forall e, In e X -> ehi e <= ret_hi k me) /\
                   (ret_hi k me = hi k \/ exists e, In e X /\ ehi e = ret_hi k me)).
      { pose proof (last_bound oe E4) as (L1 & L2 & L3 & L4). unfold X, me. clear - Vk L1 L2 L3 L4 OTR RTL RTR FMT FTB.
        destruct TR as [t|] eqn:ETR.
        - cbn [option_map option_or ret_hi]. change (hi (fst t)) with (ehi t).
          destruct (RTR t) as (_ & _ & Ht); [left; reflexivity|].
          assert (Vt : elo t <= ehi t) by (inversion OTR; assumption).
          split; [lia|]. split; [apply FTB; reflexivity|]. split.
          + intros e He. rewrite !in_app_iff in He. destruct He as [He|[He|[<-|[]]]]; [| |lia].
            * destruct (RTL e He). lia.
            * pose proof (FMT e He) as Hb. inversion Hb; subst. unfold right_of in *. lia.
          + right. exists t. rewrite !in_app_iff. split; [right; right; left; reflexivity|reflexivity].
        - cbn [option_map option_or opt_list app] in *. rewrite app_nil_r.
          split; [exact L1|]. split; [exact L2|]. split.
          + intros e He. rewrite in_app_iff in He. destruct He as [He|He]; [|apply L3, He].
            destruct (RTL e He). lia.
          + destruct L4 as [L4|(e & He & L4)]; [left; exact L4|right]. exists e. rewrite in_app_iff. auto. }
      destruct HL as (L1 & L2 & L3 & L4). destruct HR as (R1 & R2 & R3 & R4).
      destruct (returning_lo_hi k ms me) as [Er1 Er2]; [lia|]. fold r in Er1, Er2.
      rewrite <- Er1 in L1, L2, L3, L4. rewrite <- Er2 in R1, R2, R3, R4.
      exists r.
      assert (Eas : m = A ++ X ++ B) by (unfold m, X; rewrite <- !app_assoc; reflexivity).
      pose proof W as W2. fold m in W2. rewrite Eas in W2.
      split; [|split].
      - unfold insert_merge_touching_or_overlapping. rewrite (iip_valid _ Vk').
        rewrite (merge_with_comps k v _ _ _ _ m _ M Vk' E5).
        rewrite E1, E2, E3. fold ms. fold oe. fold me. fold r. f_equal.
        rewrite G1, G2. apply insert_unchecked_absorb; try assumption. lia.
      - apply (WF_absorb A X); [exact W2|lia|assumption|assumption].
      - rewrite Eas. apply absorbs_intro; try assumption.
        + rewrite Forall_forall. intros e He. destruct (rel_A e He). tauto.
        + rewrite Forall_forall. intros e He. unfold X in He. rewrite !in_app_iff in He.
          destruct He as [He|[He|He]]; [left; apply (rel_TL e He)|right; apply (rel_M e He)|left; apply (rel_TR e He)].
        + rewrite Forall_forall. intros e He. destruct (rel_B e He). tauto.
        + intros e He. specialize (L3 e He). specialize (R3 e He).
          unfold X in He. rewrite !in_app_iff in He. destruct He as [He|[He|He]];
            [destruct (rel_TL e He)|destruct (rel_M e He)|destruct (rel_TR e He)]; lia.
        + intros EX. unfold X in EX. apply app_eq_nil in EX. destruct EX as [EX1 EX].
          apply app_eq_nil in EX. destruct EX as [EX2 EX3].
          unfold r, ms, me. destruct TL; [discriminate|]. destruct TR; [discriminate|].
          unfold first_at. rewrite EX2. unfold last_at in E4. destruct oe as [y|]; [|reflexivity].
          destruct E4 as ((M' & EM) & _). rewrite EX2 in EM. destruct M'; discriminate.
    Qed.

    (** *** touching, in general: absorb a touching neighbour when [cond] holds *)
    Definition keep_if (cond : V -> bool) (o : option entry) : option entry :=
      match o with Some e => if cond (snd e) then Some e else None | None => None end.
    Definition drop_if (cond : V -> bool) (o : option entry) : option entry :=
      match o with Some e => if cond (snd e) then None else Some e | None => None end.
    Lemma keep_if_in cond o e : In e (opt_list (keep_if cond o)) <-> In e (opt_list o) /\ cond (snd e) = true.
    Proof.
      destruct o as [x|]; cbn; [|tauto]. destruct (cond (snd x)) eqn:E; cbn.
      - split; [intros [<-|[]]; auto|tauto].
      - split; [tauto|]. intros [[<-|[]] E']. congruence.
    Qed.
    Lemma drop_if_in cond o e : In e (opt_list (drop_if cond o)) <-> In e (opt_list o) /\ cond (snd e) = false.
    Proof.
      destruct o as [x|]; cbn; [|tauto]. destruct (cond (snd x)) eqn:E; cbn.
      - split; [tauto|]. intros [[<-|[]] E']. congruence.
      - split; [intros [<-|[]]; auto|tauto].
    Qed.
    Lemma keep_drop cond o : opt_list o = opt_list (drop_if cond o) ++ opt_list (keep_if cond o).
    Proof. destruct o as [x|]; [|reflexivity]. cbn. destruct (cond (snd x)); reflexivity. Qed.
    Lemma keep_drop' cond o : opt_list o = opt_list (keep_if cond o) ++ opt_list (drop_if cond o).
    Proof. destruct o as [x|]; [|reflexivity]. cbn. destruct (cond (snd x)); reflexivity. Qed.

    Lemma merge_touching_shape (cond : V -> bool) (NM : M = [])
      (r := returning k (option_map fst (keep_if cond TL)) (option_map fst (keep_if cond TR)))
      (m' := (A ++ opt_list (drop_if cond TL)) ++ (r, v) :: opt_list (drop_if cond TR) ++ B) :
      insert_unchecked r v ((A ++ opt_list (drop_if cond TL)) ++ opt_list (drop_if cond TR) ++ B) = m' /\
      WF m' /\
      absorbs (fun e => touch (fst e) k /\ cond (snd e) = true) k v
        (A ++ opt_list TL ++ M ++ opt_list TR ++ B) m' r.
    Proof.
      pose proof (merge_oks A TL M TR B W) as (OA & OTL & OM & OTR & OB).
      set (m := A ++ opt_list TL ++ M ++ opt_list TR ++ B).
      set (ms := option_map fst (keep_if cond TL)) in *. set (me := option_map fst (keep_if cond TR)) in *.
      set (X := opt_list (keep_if cond TL) ++ opt_list (keep_if cond TR)).
      assert (Eas : m = (A ++ opt_list (drop_if cond TL)) ++ X ++ (opt_list (drop_if cond TR) ++ B)).
      { unfold m, X. rewrite NM. cbn [app]. rewrite (keep_drop cond TL) at 1. rewrite (keep_drop' cond TR) at 1.
        rewrite <- !app_assoc. reflexivity. }
      pose proof W as W2. fold m in W2. rewrite Eas in W2.
      assert (HL : ret_lo k ms <= lo k /\ Forall (left_of (ret_lo k ms)) (A ++ opt_list (drop_if cond TL)) /\
                   (forall e, In e X -> ret_lo k ms <= elo e) /\
                   (ret_lo k ms = lo k \/ exists e, In e X /\ elo e = ret_lo k ms)).
      { unfold X, ms. destruct (keep_if cond TL) as [t|] eqn:EK.
        - cbn [option_map ret_lo opt_list app]. change (lo (fst t)) with (elo t).
          assert (It : In t (opt_list TL)).
          { apply (keep_if_in cond). rewrite EK. left. reflexivity. }
          destruct (rel_TL t It) as (_ & _ & Ht).
          rewrite Forall_forall in OTL. specialize (OTL t It). unfold okv in OTL.
          split; [lia|]. split.
          + apply WF_app in W2. destruct W2 as (_ & _ & W2). rewrite Forall_forall. intros x Hx.
            apply (W2 x t Hx). unfold X. try rewrite EK. left. reflexivity.
          + split; [|right; exists t; split; [left; reflexivity|reflexivity]].
            intros e [<-|He]; [lia|]. apply keep_if_in in He. destruct He as [He _].
            destruct (rel_TR e He). lia.
        - cbn [option_map ret_lo opt_list app]. split; [lia|]. split; [|split; [|left; reflexivity]].
          + rewrite Forall_app. split; [eapply Forall_impl; [|exact HA]; intros e; unfold left_of; lia|].
            rewrite Forall_forall. intros e He. apply drop_if_in in He. destruct He as [He _].
            destruct (rel_TL e He). unfold left_of. lia.
          + intros e He. apply keep_if_in in He. destruct He as [He _]. destruct (rel_TR e He). lia. }
      assert (HR : hi k <= ret_hi k me /\ Forall (right_of (ret_hi k me)) (opt_list (drop_if cond TR) ++ B) /\
                   (forall e, In e X -> ehi e <= ret_hi k me) /\
                   (ret_hi k me = hi k \/ exists e, In e X /\ ehi e = ret_hi k me)).
      { unfold me. destruct (keep_if cond TR) as [t|] eqn:EK.
        - cbn [option_map ret_hi]. change (hi (fst t)) with (ehi t).
          assert (It : In t (opt_list TR)).
          { apply (keep_if_in cond). rewrite EK. left. reflexivity. }
          assert (IX : In t X).
          { unfold X. try rewrite EK. apply in_app_iff. right. left. reflexivity. }
          destruct (rel_TR t It) as (_ & _ & Ht).
          rewrite Forall_forall in OTR. specialize (OTR t It). unfold okv in OTR.
          split; [lia|]. split; [|split; [|right; exists t; auto]].
          + apply WF_app in W2. destruct W2 as (_ & W2 & _). apply WF_app in W2. destruct W2 as (_ & _ & W2).
            rewrite Forall_forall. intros x Hx. apply (W2 t x IX Hx).
          + intros e He. unfold X in He. try rewrite EK in He. apply in_app_iff in He.
            destruct He as [He|[<-|[]]]; [|lia]. apply keep_if_in in He. destruct He as [He _].
            destruct (rel_TL e He). lia.
        - cbn [option_map ret_hi]. split; [lia|]. split; [|split; [|left; reflexivity]].
          + rewrite Forall_app. split; [|eapply Forall_impl; [|exact HB]; intros e; unfold right_of; lia].
            rewrite Forall_forall. intros e He. apply drop_if_in in He. destruct He as [He _].
            destruct (rel_TR e He). unfold right_of. lia.
          + intros e He. unfold X in He. try rewrite EK in He. apply in_app_iff in He. destruct He as [He|[]].
            apply keep_if_in in He. destruct He as [He _]. destruct (rel_TL e He). lia. }
      destruct HL as (L1 & L2 & L3 & L4). destruct HR as (R1 & R2 & R3 & R4).
      destruct (returning_lo_hi k ms me) as [Er1 Er2]; [lia|]. fold r in Er1, Er2.
      rewrite <- Er1 in L1, L2, L3, L4. rewrite <- Er2 in R1, R2, R3, R4.
      split; [|split].
      - apply insert_unchecked_absorb; try assumption; [|lia].
        destruct W2 as [_ W2]. rewrite Forall_app in W2. apply W2.
      - apply (WF_absorb _ X); [exact W2|lia|assumption|assumption].
      - rewrite Eas. unfold m'. apply absorbs_intro; try assumption.
        + rewrite Forall_forall. intros e He. apply in_app_iff in He. destruct He as [He|He].
          * destruct (rel_A e He). tauto.
          * apply drop_if_in in He. intros [_ E]. destruct He. congruence.
        + rewrite Forall_forall. intros e He. unfold X in He. apply in_app_iff in He.
          destruct He as [He|He]; apply keep_if_in in He; destruct He as [He E]; (split; [|exact E]);
            [apply (rel_TL e He)|apply (rel_TR e He)].
        + rewrite Forall_forall. intros e He. apply in_app_iff in He. destruct He as [He|He].
          * apply drop_if_in in He. intros [_ E]. destruct He. congruence.
          * destruct (rel_B e He). tauto.
        + intros e He. specialize (L3 e He). specialize (R3 e He).
          unfold X in He. apply in_app_iff in He. destruct He as [He|He]; apply keep_if_in in He;
            destruct He as [He _]; [destruct (rel_TL e He)|destruct (rel_TR e He)]; lia.
        + intros EX. unfold X in EX. apply app_eq_nil in EX. destruct EX as [EX1 EX2].
          unfold r, ms, me. destruct (keep_if cond TL); [discriminate|]. destruct (keep_if cond TR); [discriminate|].
          reflexivity.
    Qed.

    Lemma no_overlap_M (NM : M = []) :
      map_overlaps (A ++ opt_list TL ++ M ++ opt_list TR ++ B) k = Val false.
    Proof.
      destruct (merge_split3 k A TL M TR B W HA HTL HTR HB) as (W3 & H1 & H2). rewrite app_assoc.
      rewrite map_overlaps_split; try assumption; [rewrite NM; reflexivity|apply valid_rk, Vk].
    Qed.

    Lemma merge_touching (NM : M = []) : exists m' r,
      insert_merge_touching k v (A ++ opt_list TL ++ M ++ opt_list TR ++ B) = (m', Val (Ok r)) /\ WF m' /\
      absorbs (fun e => touch (fst e) k) k v (A ++ opt_list TL ++ M ++ opt_list TR ++ B) m' r.
    Proof.
      assert (Vk' : valid k) by (apply valid_rk, Vk).
      pose proof (remove_M k A TL M TR B Vk W HA HTL HM HTR HB) as E5.
      destruct merge_gets as (E1 & E2 & G1 & G2 & _).
      destruct (merge_touching_shape (fun _ => true) NM) as (Hi & Hw & Ha).
      set (m := A ++ opt_list TL ++ M ++ opt_list TR ++ B) in *.
      assert (K1 : forall o, keep_if (fun _ => true) o = o) by (intros [x|]; reflexivity).
      assert (D1 : forall o, drop_if (fun _ => true) o = None) by (intros [x|]; reflexivity).
      rewrite !K1, !D1 in *. cbn [opt_list app] in *. rewrite app_nil_r in *.
      do 2 eexists. split; [|split; [exact Hw|]].
      - unfold insert_merge_touching. rewrite (iip_valid _ Vk'). unfold m at 1. rewrite (no_overlap_M NM). fold m.
        rewrite (merge_with_comps k v _ _ _ _ m _ M Vk' E5). rewrite E1, E2, G1, G2, Hi. reflexivity.
      - destruct Ha as (H1 & (l1 & l2 & H2 & H2') & H3).
        split; [|split].
        + intros p. rewrite H1. split; (intros [Hp|(e & He & Pe & Hp)]; [left; exact Hp|right; exists e; tauto]).
        + exists l1, l2. split; [|exact H2']. eapply sub_impl; [|exact H2]. cbn. tauto.
        + intros Hn. apply H3. intros e He [Pe _]. exact (Hn e He Pe).
    Qed.

    Lemma merge_touching_if_equal (veq : V -> V -> bool) (NM : M = []) : exists m' r,
      insert_merge_touching_if_values_equal veq k v (A ++ opt_list TL ++ M ++ opt_list TR ++ B)
        = (m', Val (Ok r)) /\ WF m' /\
      absorbs (fun e => touch (fst e) k /\ veq (snd e) v = true) k v
        (A ++ opt_list TL ++ M ++ opt_list TR ++ B) m' r.
    Proof.
      assert (Vk' : valid k) by (apply valid_rk, Vk).
      pose proof (remove_M k A TL M TR B Vk W HA HTL HM HTR HB) as E5.
      destruct merge_gets as (E1 & E2 & G1 & G2 & G3 & G4 & G5 & G6).
      destruct (merge_touching_shape (fun w => veq w v) NM) as (Hi & Hw & Ha).
      set (m := A ++ opt_list TL ++ M ++ opt_list TR ++ B) in *.
      do 2 eexists. split; [|split; [exact Hw|exact Ha]].
      unfold insert_merge_touching_if_values_equal. rewrite (iip_valid _ Vk').
      unfold m at 1. rewrite (no_overlap_M NM). fold m.
      rewrite (merge_with_comps k v _ _ _ _ m _ M Vk' E5).
      assert (KS : get_if_equal veq (touching_start_comp (istart k)) m v
                   = option_map fst (keep_if (fun w => veq w v) TL)).
      { unfold get_if_equal. rewrite E1. destruct TL as [[t tv]|]; [|reflexivity]. cbn.
        destruct (veq tv v); reflexivity. }
      assert (KE : get_if_equal veq (touching_end_comp (iend k)) m v
                   = option_map fst (keep_if (fun w => veq w v) TR)).
      { unfold get_if_equal. rewrite E2. destruct TR as [[t tv]|]; [|reflexivity]. cbn.
        destruct (veq tv v); reflexivity. }
      rewrite KS, KE. cbn [omap]. f_equal. rewrite <- Hi. f_equal. clear Hi Hw Ha KS KE E1 E2 E5.
      assert (S1 : (if is_some (get_if_equal veq (touching_start_comp (istart k)) (A ++ opt_list TL ++ opt_list TR ++ B) v)
                    then fst (remove (touching_start_comp (istart k)) (A ++ opt_list TL ++ opt_list TR ++ B))
                    else A ++ opt_list TL ++ opt_list TR ++ B)
                   = A ++ opt_list (drop_if (fun w => veq w v) TL) ++ opt_list TR ++ B).
      { unfold get_if_equal. rewrite G3. clear - G1. destruct TL as [[t tv]|]; cbn [drop_if snd]; [|reflexivity].
        destruct (veq tv v); cbn [is_some]; [exact G1|reflexivity]. }
      refine (eq_trans (f_equal (fun X : NoditMap K V =>
                if is_some (get_if_equal veq (touching_end_comp (iend k)) X v)
                then fst (remove (touching_end_comp (iend k)) X) else X) S1) _). clear S1.
      assert (S2 : forall L, get_key_value (touching_end_comp (iend k)) (L ++ opt_list TR ++ B) = TR ->
                 fst (remove (touching_end_comp (iend k)) (L ++ opt_list TR ++ B)) = L ++ B ->
                 (if is_some (get_if_equal veq (touching_end_comp (iend k)) (L ++ opt_list TR ++ B) v)
                  then fst (remove (touching_end_comp (iend k)) (L ++ opt_list TR ++ B))
                  else L ++ opt_list TR ++ B) = L ++ opt_list (drop_if (fun w => veq w v) TR) ++ B).
      { intros L HG HR. unfold get_if_equal. rewrite HG, HR. clear. destruct TR as [[t tv]|]; cbn [drop_if snd]; [|reflexivity].
        destruct (veq tv v); cbn [is_some]; reflexivity. }
      rewrite (app_assoc A (opt_list (drop_if _ _))). apply S2.
      - clear - G4 G5. destruct TL as [[t tv]|]; cbn [drop_if snd opt_list]; rewrite ?app_nil_r; [|exact G4].
        destruct (veq tv v); cbn [opt_list]; rewrite ?app_nil_r; [exact G5|]. rewrite <- app_assoc. exact G4.
      - clear - G2 G6. destruct TL as [[t tv]|]; cbn [drop_if snd opt_list]; rewrite ?app_nil_r; [|exact G6].
        destruct (veq tv v); cbn [opt_list]; rewrite ?app_nil_r; [exact G2|]. rewrite <- !app_assoc. exact G6.
    Qed.
  End One.

  (** ** The four merging insertions on any map *)
  Lemma insert_merge_touching_refused m k v : WF m -> valid k ->
    (exists k' v', In (k', v') m /\ overlap k' k) -> insert_merge_touching k v m = (m, Val (Err v)).
  Proof.
    intros W Vk Ho. destruct (map_overlaps_spec m k W Vk) as (b & Eb & Hb).
    unfold insert_merge_touching. rewrite (iip_valid _ Vk), Eb. apply Hb in Ho. rewrite Ho. reflexivity.
  Qed.
  Lemma insert_merge_touching_if_equal_refused veq m k v : WF m -> valid k ->
    (exists k' v', In (k', v') m /\ overlap k' k) ->
    insert_merge_touching_if_values_equal veq k v m = (m, Val (Err v)).
  Proof.
    intros W Vk Ho. destruct (map_overlaps_spec m k W Vk) as (b & Eb & Hb).
    unfold insert_merge_touching_if_values_equal. rewrite (iip_valid _ Vk), Eb. apply Hb in Ho.
    rewrite Ho. reflexivity.
  Qed.

  Lemma no_overlap_split5 m k : WF m -> valid k -> (forall k' v', In (k', v') m -> ~ overlap k' k) ->
    exists A TL TR B, m = A ++ opt_list TL ++ [] ++ opt_list TR ++ B /\
      Forall (left_of (lo k - 1)) A /\ Forall (touches_left (lo k)) (opt_list TL) /\
      Forall (touches_right (hi k)) (opt_list TR) /\ Forall (right_of (hi k + 1)) B.
  Proof.
    intros W Vk Hn. apply valid_rk in Vk.
    destruct (split5 m (lo k) (hi k) W Vk) as (A & TL & M & TR & B & -> & HA & HTL & HM & HTR & HB).
    assert (M = []) as ->.
    { destruct M as [|[x y] M]; [reflexivity|exfalso]. apply (Hn x y).
      - rewrite !in_app_iff. right. right. left. left. reflexivity.
      - inversion HM as [|? ? Hx _]; subst. apply (overlap_meets (x, y)); [|exact Vk|exact Hx].
        destruct W as [_ W]. rewrite !Forall_app in W. destruct W as (_ & _ & W & _). inversion W; assumption. }
    exists A, TL, TR, B. auto.
  Qed.

  Lemma insert_merge_touching_done m k v : WF m -> valid k ->
    (forall k' v', In (k', v') m -> ~ overlap k' k) ->
    exists m' r, insert_merge_touching k v m = (m', Val (Ok r)) /\ WF m' /\
      absorbs (fun e => touch (fst e) k) k v m m' r.
  Proof.
    intros W Vk Hn. destruct (no_overlap_split5 m k W Vk Hn) as (A & TL & TR & B & -> & HA & HTL & HTR & HB).
    apply valid_rk in Vk. apply merge_touching; try assumption; [constructor|reflexivity].
  Qed.
  Lemma insert_merge_touching_if_equal_done veq m k v : WF m -> valid k ->
    (forall k' v', In (k', v') m -> ~ overlap k' k) ->
    exists m' r, insert_merge_touching_if_values_equal veq k v m = (m', Val (Ok r)) /\ WF m' /\
      absorbs (fun e => touch (fst e) k /\ veq (snd e) v = true) k v m m' r.
  Proof.
    intros W Vk Hn. destruct (no_overlap_split5 m k W Vk Hn) as (A & TL & TR & B & -> & HA & HTL & HTR & HB).
    apply valid_rk in Vk. apply merge_touching_if_equal; try assumption; [constructor|reflexivity].
  Qed.
  Lemma insert_merge_overlapping_spec m k v : WF m -> valid k ->
    exists m' r, insert_merge_overlapping k v m = (m', Val r) /\ WF m' /\
      absorbs (fun e => overlap (fst e) k) k v m m' r.
  Proof.
    intros W Vk. apply valid_rk in Vk.
    destruct (split5 m (lo k) (hi k) W Vk) as (A & TL & M & TR & B & -> & HA & HTL & HM & HTR & HB).
    destruct (merge_overlapping k v A TL M TR B Vk W HA HTL HM HTR HB) as (r & Hr). eexists _, r. exact Hr.
  Qed.
  Lemma insert_merge_touching_or_overlapping_spec m k v : WF m -> valid k ->
    exists m' r, insert_merge_touching_or_overlapping k v m = (m', Val r) /\ WF m' /\
      absorbs (fun e => touch (fst e) k \/ overlap (fst e) k) k v m m' r.
  Proof.
    intros W Vk. apply valid_rk in Vk.
    destruct (split5 m (lo k) (hi k) W Vk) as (A & TL & M & TR & B & -> & HA & HTL & HM & HTR & HB).
    destruct (merge_tor k v A TL M TR B Vk W HA HTL HM HTR HB) as (r & Hr). eexists _, r. exact Hr.
  Qed.
End Merges.
