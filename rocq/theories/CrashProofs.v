(** * CrashProofs: interrupted NoditMap updates against the specification. *)
From Coq Require Import List ZArith Bool Lia ZifyBool.
From Verif Require Import Base BTree UtilsModel IntervalModel NoditModel NoditOps CrashModel Spec PointFacts IntervalFacts ListFacts
  NoditFacts NoditQueries NoditGaps NoditMutations NoditMerges NoditInv CrashFacts.
Import ListNotations.
Open Scope Z_scope.

Section CrashProofs.
  Context {I : Type} `{PL : PointLaws I}.
  Context {K : Type} {IK : InclusiveInterval I K} {IL : IntervalLaws I K}.
  Context {V : Type}.
  Notation entry := (K * V)%type.
  Implicit Types (m A B M : NoditMap K V).

  (** Replacing a stretch by entries lying within it. *)
  Lemma WF_replace A (X Y : list entry) B : WF (A ++ X ++ B) -> WF Y ->
    (forall y, In y Y -> exists x, In x X /\ elo x <= elo y /\ ehi y <= ehi x) -> WF (A ++ Y ++ B).
  Proof.
    intros W WY HY. apply WF_app in W. destruct W as (WA & W & WAX). apply WF_app in W. destruct W as (_ & WB & WXB).
    apply WF_app. split; [exact WA|]. split.
    - apply WF_app. split; [exact WY|]. split; [exact WB|]. intros y b Hy Hb.
      destruct (HY y Hy) as (x & Hx & L1 & L2). specialize (WXB x b Hx Hb). lia.
    - intros a y Ha Hy. apply in_app_iff in Hy. destruct Hy as [Hy|Hy].
      + destruct (HY y Hy) as (x & Hx & L1 & L2). specialize (WAX a x Ha). rewrite in_app_iff in WAX.
        specialize (WAX (or_introl Hx)). lia.
      + apply WAX; [exact Ha|]. apply in_app_iff. auto.
  Qed.

  Section Q.
    Context {Q : Type} {IQ : InclusiveInterval I Q}.
    Implicit Type q : Q.

    Lemma cut_list_snoc q M out ins e ps i : cut_list q M out ins -> cut_entry q e ps i ->
      cut_list q (M ++ [e]) (out ++ ps) (ins ++ [i]).
    Proof.
      intros HC He. induction HC as [|e' ps' i' M out ins He' HC IH].
      - cbn. rewrite <- (app_nil_r ps). constructor; [exact He|constructor].
      - cbn. rewrite <- app_assoc. constructor; assumption.
    Qed.

    (** Where the loop of an interrupted [cut] can stop. *)
    Definition stopped q M m' (pre B : NoditMap K V) : Prop :=
      exists M1 e M2 out1 ins1 ps1 ps2 i, M = M1 ++ e :: M2 /\ cut_list q M1 out1 ins1 /\
        cut_entry q e (ps1 ++ ps2) i /\ m' = pre ++ out1 ++ ps1 ++ M2 ++ B.

    Lemma cut_loop_c_panic q pre M B acc f m' :
      lo q <= hi q -> Forall okv (M ++ B) -> Forall (meets (lo q) (hi q)) M -> Forall (right_of (hi q)) B ->
      cut_loop_c q pre (M ++ B) acc f = (m', Panic) -> stopped q M m' pre B.
    Proof.
      intros Vq HV HM HB. revert pre acc f. induction M as [|[k v] M IH]; intros pre acc f.
      - cbn [app]. destruct B as [|[k v] B]; [discriminate|].
        cbn [cut_loop_c]. inversion HB as [|? ? Hk _]; subst.
        inversion HV as [|? ? Vk _]; subst. unfold right_of, okv, elo, ehi in *. cbn in *.
        rewrite overlaps_true by lia. replace (_ && _) with false by lia. discriminate.
      - cbn [app cut_loop_c]. inversion HM as [|? ? Hk HM']; subst.
        inversion HV as [|? ? Vk HV']; subst. unfold meets, okv, elo, ehi in Hk, Vk. cbn [fst] in Hk, Vk.
        rewrite overlaps_true by lia. replace (_ && _) with true by lia.
        destruct (cut_interval_ok k q) as (r & Er & Hb & (i & Ei & Hil & Hih) & Ha); try lia.
        rewrite Er, Ei.
        set (pb := opt_list (option_map (fun x => (ifrom x, v)) (before_cut r)) : list entry).
        set (pa := opt_list (option_map (fun x => (ifrom x, v)) (after_cut r)) : list entry).
        assert (CE : cut_entry q (k, v) (pb ++ pa) (ifrom i, v)).
        { constructor; unfold elo, ehi; cbn [fst snd].
          - exists (option_map (fun x => (ifrom x, v)) (before_cut r)), (option_map (fun x => (ifrom x, v)) (after_cut r)).
            split; [reflexivity|]. split.
            + clear Ha. destruct (before_cut r) as [x|]; cbn; [|lia].
              destruct Hb as (? & ? & ?). rewrite from_lo, from_hi by lia. auto with zarith.
            + clear Hb. destruct (after_cut r) as [x|]; cbn; [|lia].
              destruct Ha as (? & ? & ?). rewrite from_lo, from_hi by lia. auto with zarith.
          - rewrite from_lo; lia.
          - rewrite from_hi; lia.
          - reflexivity.
          - constructor; [apply built_ifrom; lia|]. apply Forall_app. split; unfold pa, pb.
            + clear Ha. destruct (before_cut r) as [x|]; cbn; [|constructor].
              constructor; [|constructor]. apply built_ifrom. lia.
            + clear Hb. destruct (after_cut r) as [x|]; cbn; [|constructor].
              constructor; [|constructor]. apply built_ifrom. lia. }
        assert (Eb : insert_piece (before_cut r) v pre = pre ++ pb).
        { unfold pb, insert_piece. destruct (before_cut r); cbn; [reflexivity|]. rewrite app_nil_r. reflexivity. }
        assert (Ea : insert_piece (after_cut r) v (pre ++ pb) = pre ++ pb ++ pa).
        { unfold pa, insert_piece. destruct (after_cut r); cbn; rewrite <- ?app_assoc; [reflexivity|].
          rewrite app_nil_r. reflexivity. }
        assert (Here : forall ps1 ps2, pb ++ pa = ps1 ++ ps2 -> m' = pre ++ ps1 ++ M ++ B ->
                  stopped q ((k, v) :: M) m' pre B).
        { intros ps1 ps2 Ep ->. exists [], (k, v), M, [], [], ps1, ps2, (ifrom i, v).
          split; [reflexivity|]. split; [constructor|]. split; [rewrite <- Ep; exact CE|reflexivity]. }
        destruct (insert_piece_c_cases (before_cut r) v pre f) as [(f1 & ->)| ->].
        2:{ intros E. injection E as <-. apply (Here [] (pb ++ pa)); reflexivity. }
        rewrite Eb.
        destruct (insert_piece_c_cases (after_cut r) v (pre ++ pb) f1) as [(f2 & ->)| ->].
        2:{ intros E. injection E as <-. apply (Here pb pa); [reflexivity|]. rewrite <- !app_assoc. reflexivity. }
        rewrite Ea. destruct (user_call f2) as [f3|].
        2:{ intros E. injection E as <-. apply (Here (pb ++ pa) []); [rewrite app_nil_r; reflexivity|].
            rewrite <- !app_assoc. reflexivity. }
        intros E. destruct (IH HV' HM' _ _ _ E) as (M1 & e & M2 & out1 & ins1 & ps1 & ps2 & i' & -> & HC & He & ->).
        exists ((k, v) :: M1), e, M2, ((pb ++ pa) ++ out1), ((ifrom i, v) :: ins1), ps1, ps2, i'.
        split; [reflexivity|]. split; [constructor; assumption|]. split; [exact He|].
        rewrite <- !app_assoc. reflexivity.
    Qed.

    Lemma cut_c_panic q m f m' : WF m -> valid q -> cut_c q m f = (m', Panic) ->
      exists A M B, m = A ++ M ++ B /\ Forall (left_of (lo q)) A /\ Forall (meets (lo q) (hi q)) M /\
        Forall (right_of (hi q)) B /\ stopped q M m' A B.
    Proof.
      intros W Vq. destruct (split_overlap m q W Vq) as (A & M & B & -> & HA & HM & HB & HS & HK).
      unfold cut_c. rewrite (iip_valid _ Vq). apply valid_rk in Vq. unfold lower_bound.
      pose proof W as W'. apply WF_app in W'. destruct W' as (_ & W' & _).
      destruct W' as [_ V']. rewrite seek_split; [|exact W|exact HA|].
      - cbn [fst snd]. intros E. exists A, M, B. do 4 (split; [auto|]).
        eapply cut_loop_c_panic; eassumption.
      - rewrite Forall_app in *. destruct V' as [_ VB].
        split; rewrite Forall_forall in *; intros x Hx.
        + specialize (HM x Hx). unfold meets, lo in *. lia.
        + specialize (HB x Hx). specialize (VB x Hx). unfold right_of, okv, lo, hi in *. lia.
    Qed.

    (** The state an interrupted [cut] leaves: the entries before some [k0] have
        been cut, the ones after it are as they were, of [k0] itself at most
        the part outside [q] is left. *)
    Definition interrupted_cut q m m' : Prop :=
      WF m' /\
      (forall k v, In (k, v) m -> ~ overlap k q -> In (k, v) m') /\
      exists m1 k0 v0 m2, m = m1 ++ (k0, v0) :: m2 /\ overlap k0 q /\
        (forall p v, ~ covers k0 p -> (maps_to m' p v <-> (maps_to m1 p v /\ ~ covers q p) \/ maps_to m2 p v)) /\
        (forall p v, covers k0 p -> maps_to m' p v -> v = v0 /\ ~ covers q p).
    Lemma stopped_interrupted q A M B m' : WF (A ++ M ++ B) -> valid q -> Forall (left_of (lo q)) A ->
      Forall (meets (lo q) (hi q)) M -> Forall (right_of (hi q)) B -> stopped q M m' A B ->
      interrupted_cut q (A ++ M ++ B) m'.
    Proof.
      intros W Vq HA HM HB S. unfold interrupted_cut.
      destruct S as (M1 & e & M2 & out1 & ins1 & ps1 & ps2 & i & -> & HC & He & ->).
      apply valid_rk in Vq.
      apply Forall_app in HM. destruct HM as [HM1 HM2]. apply Forall_cons_iff in HM2. destruct HM2 as [Hme HM2].
      pose proof W as W0.
      replace (A ++ (M1 ++ e :: M2) ++ B) with (A ++ (M1 ++ [e]) ++ (M2 ++ B)) in W by (rewrite <- !app_assoc; reflexivity).
      assert (WX : WF (M1 ++ [e])).
      { apply WF_app in W. destruct W as (_ & W & _). apply WF_app in W. apply W. }
      assert (WM1 : WF M1) by (apply WF_app in WX; apply WX).
      pose proof (WF_app M1 [e]) as WX'. apply WX' in WX as (_ & We & H1e). clear WX'.
      assert (WX : WF (M1 ++ [e])) by (apply WF_app; auto). apply WF_one in We.
      destruct (cut_list_facts q _ _ _ Vq (cut_list_snoc q _ _ _ _ _ _ HC He) WX) as (Wo & Io & _ & _).
      { apply Forall_app. split; [exact HM1|]. constructor; [exact Hme|constructor]. }
      destruct (cut_list_facts q _ _ _ Vq HC WM1 HM1) as (Wo1 & Io1 & Co1 & _).
      destruct (cut_entry_pieces q e _ _ Vq Hme He) as (_ & Pi & _).
      assert (Pin : forall (e x : entry), elo e <= ehi e -> meets (lo q) (hi q) e -> piece q e x -> elo e <= elo x /\ ehi x <= ehi e).
      { intros e' x V' M' (_ & P). unfold meets in *. lia. }
      assert (W' : WF (A ++ (out1 ++ ps1) ++ (M2 ++ B))).
      { apply (WF_replace A (M1 ++ [e])); [exact W| |].
        - rewrite app_assoc in Wo. apply WF_app in Wo. apply Wo.
        - intros y Hy. destruct (Io y) as (e' & He' & P).
          { rewrite app_assoc. apply in_app_iff. auto. }
          exists e'. split; [exact He'|]. apply Pin; [apply (WF_okv (M1 ++ [e])); assumption| |exact P].
          apply in_app_iff in He'. destruct He' as [He'|[<-|[]]]; [|exact Hme].
          rewrite Forall_forall in HM1. apply HM1, He'. }
      replace (A ++ out1 ++ ps1 ++ M2 ++ B) with (A ++ (out1 ++ ps1) ++ M2 ++ B) by (rewrite <- !app_assoc; reflexivity).
      split; [exact W'|]. rewrite Forall_forall in HA, HM1, HM2, HB.
      assert (VM1 : forall x, In x M1 -> elo x <= ehi x) by (intros x Hx; apply (WF_okv M1); assumption).
      split.
      - intros k v Hin Hn. rewrite !in_app_iff in *. cbn [In] in Hin.
        assert (NM : forall x : entry, meets (lo q) (hi q) x -> elo x <= ehi x -> overlap (fst x) q).
        { intros x Hx Vx. apply overlap_rk. unfold meets, elo, ehi in *. lia. }
        destruct Hin as [Hin|[[Hin|[Hin|Hin]]|Hin]]; auto.
        + destruct Hn. apply (NM (k, v)); auto.
        + destruct Hn. subst e. apply (NM (k, v)); auto.
      - destruct e as [k0 v0]. exists (A ++ M1), k0, v0, (M2 ++ B).
        split; [rewrite <- !app_assoc; reflexivity|].
        split; [apply overlap_rk; unfold meets, elo, ehi in *; cbn in *; lia|].
        assert (Ps1 : forall k v, In (k, v) ps1 -> v = v0 /\ forall p, covers k p -> covers k0 p /\ ~ covers q p).
        { intros k v Hx. destruct (Pi (k, v)) as (Ev & P); [apply in_app_iff; auto|]. cbn in Ev. split; [exact Ev|].
          intros p Hp. apply covers_rk in Hp. rewrite !covers_rk. unfold meets, elo, ehi in *. cbn in *. lia. }
        assert (O1 : forall k v, In (k, v) out1 -> exists k', In (k', v) M1 /\ forall p, covers k p -> covers k' p /\ ~ covers q p).
        { intros k v Hx. destruct (Io1 _ Hx) as ([k' v'] & He' & (Ev & P)). cbn in Ev. subst v'. exists k'.
          split; [exact He'|]. specialize (VM1 _ He'). specialize (HM1 _ He').
          intros p Hp. apply covers_rk in Hp. rewrite !covers_rk. unfold meets, elo, ehi in *. cbn in *. lia. }
        assert (Off : forall k v p, In (k, v) (A ++ M1 ++ M2 ++ B) -> covers k p -> ~ covers k0 p).
        { intros k v p Hin Hc Hc0. apply covers_rk in Hc. apply covers_rk in Hc0.
          apply WF_app in W0. destruct W0 as (_ & W1 & HA1). apply WF_app in W1. destruct W1 as (W1 & _ & HB1).
          apply WF_app in W1. destruct W1 as (_ & W2 & HM12). apply WF_cons in W2. destruct W2 as (_ & _ & H2).
          rewrite Forall_forall in H2. rewrite !in_app_iff in Hin.
          destruct Hin as [Hin|[Hin|[Hin|Hin]]].
          - specialize (HA1 (k, v) (k0, v0) Hin). rewrite !in_app_iff in HA1. cbn in HA1.
            specialize (HA1 (or_introl (or_intror (or_introl eq_refl)))). unfold elo, ehi in *. cbn in *. lia.
          - specialize (HM12 (k, v) (k0, v0) Hin (or_introl eq_refl)). unfold elo, ehi in *. cbn in *. lia.
          - specialize (H2 (k, v) Hin). unfold elo, ehi in *. cbn in *. lia.
          - specialize (HB1 (k0, v0) (k, v)). rewrite in_app_iff in HB1.
            specialize (HB1 (or_intror (or_introl eq_refl)) Hin). unfold elo, ehi in *. cbn in *. lia. }
        split.
        + intros p v Hp. unfold maps_to. split.
          * intros (k & Hin & Hc). rewrite !in_app_iff in Hin. destruct Hin as [Hin|[[Hin|Hin]|Hin]].
            -- left. split; [exists k; rewrite in_app_iff; auto|]. specialize (HA _ Hin).
               apply covers_rk in Hc. rewrite covers_rk. unfold left_of, elo, ehi in *. cbn in *. lia.
            -- destruct (O1 _ _ Hin) as (k' & Hk' & Hs). left. destruct (Hs p Hc).
               split; [exists k'; rewrite in_app_iff; auto|assumption].
            -- destruct (Ps1 _ _ Hin) as (_ & Hs). destruct (Hs p Hc). contradiction.
            -- right. exists k. rewrite in_app_iff. auto.
          * intros [((k & Hin & Hc) & Nq)|(k & Hin & Hc)].
            -- apply in_app_iff in Hin. destruct Hin as [Hin|Hin].
               ++ exists k. rewrite !in_app_iff. auto.
               ++ destruct (Co1 _ Hin) as [C1 C2]. rewrite covers_rk in Hc; rewrite covers_rk in Nq. unfold elo, ehi in *. cbn in *.
                  destruct (Z_lt_le_dec (rk p) (lo q)) as [L|L].
                  ** destruct C1 as ([k' v'] & Hx & E1 & E2 & E3); [lia|]. cbn in *. subst v'.
                     exists k'. rewrite !in_app_iff, covers_rk. split; [auto|lia].
                  ** destruct C2 as ([k' v'] & Hx & E1 & E2 & E3); [lia|]. cbn in *. subst v'.
                     exists k'. rewrite !in_app_iff, covers_rk. split; [auto|lia].
            -- exists k. rewrite !in_app_iff in *. tauto.
        + intros p v Hp (k & Hin & Hc). rewrite !in_app_iff in Hin. destruct Hin as [Hin|[[Hin|Hin]|Hin]].
          * destruct (Off k v p); [|exact Hc|exact Hp]. rewrite !in_app_iff. auto.
          * destruct (O1 _ _ Hin) as (k' & Hk' & Hs). destruct (Hs p Hc) as [Hc' _].
            destruct (Off k' v p); [|exact Hc'|exact Hp]. rewrite !in_app_iff. auto.
          * destruct (Ps1 _ _ Hin) as (Ev & Hs). destruct (Hs p Hc). auto.
          * destruct (Off k v p); [|exact Hc|exact Hp]. rewrite !in_app_iff. tauto.
    Qed.

    Lemma cut_c_interrupted q m f m' : WF m -> valid q -> cut_c q m f = (m', Panic) -> interrupted_cut q m m'.
    Proof.
      intros W Vq E. destruct (cut_c_panic q m f m' W Vq E) as (A & M & B & -> & HA & HM & HB & S).
      apply stopped_interrupted; assumption.
    Qed.

    Lemma cut_c_invalid q m f : ~ valid q -> cut_c q m f = (m, Panic).
    Proof. intros N. unfold cut_c. rewrite iip_invalid by exact N. reflexivity. Qed.

    Lemma cut_c_WF q m f : WF m -> WF (fst (cut_c q m f)).
    Proof.
      intros W. destruct (cut_c q m f) as [m' [[a f']|]] eqn:E; cbn [fst].
      - apply cut_c_val in E. pose proof (step_WF m (OpCut q) W) as W'. cbn in W'. rewrite E in W'. exact W'.
      - destruct (valid_dec q) as [Vq|Nq]; [apply (cut_c_interrupted q m f m' W Vq E)|].
        rewrite cut_c_invalid in E by exact Nq. congruence.
    Qed.
  End Q.

  Lemma insert_overwrite_c_panic k v m f m' : insert_overwrite_c k v m f = (m', Panic) ->
    m' = m /\ ~ valid k \/ valid k /\ cut_c k m f = (m', Panic).
  Proof.
    unfold insert_overwrite_c. destruct (valid_dec k) as [Vk|Nk].
    - rewrite (iip_valid _ Vk). destruct (cut_c k m f) as [m1 [c|]]; [discriminate|]. auto.
    - rewrite (iip_invalid _ Nk). intros E. left. split; [congruence|exact Nk].
  Qed.

  (** ** The merging insertions *)
  Lemma with_comps_pure_panic k v gs ge rs re m f m' : valid k -> WF m ->
    insert_merge_with_comps_c k v (pure_get gs) (pure_get ge) (pure_remove rs) (pure_remove re) m f = (m', Panic) -> m' = m.
  Proof.
    intros Vk W E. destruct (remove_overlapping_spec m k W Vk) as (kept & rem & R & _).
    destruct (with_comps_c_panic _ _ _ _ rs (pure_remove_like rs) _ _ _ _ _ _ _ R E)
      as [X|[(f1 & X)|(f1 & X)]]; [exact X|discriminate..].
  Qed.
  Lemma merge_touching_c_panic k v m f m' : WF m -> insert_merge_touching_c k v m f = (m', Panic) -> m' = m.
  Proof.
    intros W. unfold insert_merge_touching_c. destruct (valid_dec k) as [Vk|Nk]; [rewrite (iip_valid _ Vk)|rewrite (iip_invalid _ Nk); congruence].
    destruct (map_overlaps m k) as [[|]|]; [discriminate| |congruence].
    destruct (insert_merge_with_comps_c k v _ _ _ _ m f) as [m1 [x|]] eqn:E; [discriminate|].
    apply with_comps_pure_panic in E; [|exact Vk|exact W]. intros X. cbn in X. congruence.
  Qed.
  Lemma merge_overlapping_c_panic k v m f m' : WF m -> insert_merge_overlapping_c k v m f = (m', Panic) -> m' = m.
  Proof.
    intros W. unfold insert_merge_overlapping_c. destruct (valid_dec k) as [Vk|Nk]; [rewrite (iip_valid _ Vk)|rewrite (iip_invalid _ Nk); congruence].
    apply with_comps_pure_panic; assumption.
  Qed.
  Lemma merge_tor_c_panic k v m f m' : WF m -> insert_merge_touching_or_overlapping_c k v m f = (m', Panic) -> m' = m.
  Proof.
    intros W. unfold insert_merge_touching_or_overlapping_c. destruct (valid_dec k) as [Vk|Nk]; [rewrite (iip_valid _ Vk)|rewrite (iip_invalid _ Nk); congruence].
    apply with_comps_pure_panic; assumption.
  Qed.

  Lemma sub_remove_one A (e : entry) B : WF (A ++ e :: B) -> sub (fun x => x <> e) (A ++ e :: B) (A ++ B).
  Proof.
    intros W. apply WF_app in W. destruct W as (_ & W & HAB). apply WF_cons in W. destruct W as (Ve & _ & HB).
    rewrite Forall_forall in HB. apply sub_app.
    - apply sub_all. rewrite Forall_forall. intros x Hx ->. specialize (HAB e e Hx (or_introl eq_refl)). lia.
    - change (e :: B) with ([e] ++ B). change B with ([] ++ B) at 2. apply sub_app.
      + apply sub_none. constructor; [tauto|constructor].
      + apply sub_all. rewrite Forall_forall. intros x Hx ->. specialize (HB e Hx). lia.
  Qed.

  (** The left neighbour may be gone. *)
  Lemma merge_if_equal_c_panic veq k v m f m' : WF m ->
    insert_merge_touching_if_values_equal_c veq k v m f = (m', Panic) ->
    m' = m \/
    exists k0 v0, In (k0, v0) m /\ touch k0 k /\ before k0 k /\ veq v0 v = true /\
      sub (fun e => e <> (k0, v0)) m m'.
  Proof.
    intros W. unfold insert_merge_touching_if_values_equal_c.
    destruct (valid_dec k) as [Vk|Nk]; [rewrite (iip_valid _ Vk)|rewrite (iip_invalid _ Nk); intros E; left; congruence].
    destruct (map_overlaps_spec m k W Vk) as (b & -> & Hb). destruct b; [discriminate|].
    destruct (overlap_dec m k W Vk) as [Ho|Hn]; [apply Hb in Ho; discriminate|].
    destruct (insert_merge_with_comps_c k v _ _ _ _ m f) as [m1 [x|]] eqn:E; [discriminate|].
    intros X. cbn in X. injection X as <-. clear Hb.
    destruct (no_overlap_split5 m k W Vk Hn) as (A & TL & TR & B & -> & HA & HTL & HTR & HB).
    apply valid_rk in Vk as Vk'.
    destruct (merge_gets k A TL [] TR B Vk' W HA HTL (Forall_nil _) HTR HB) as (G1 & G2 & R1 & R2 & G3 & G4 & G5 & R3).
    cbn [app] in *.
    assert (R : remove_overlapping k (A ++ opt_list TL ++ opt_list TR ++ B) = (A ++ opt_list TL ++ opt_list TR ++ B, Val [])).
    { destruct (remove_overlapping_spec _ k W Vk) as (kept & rem & R & S1 & S2 & _). rewrite R.
      assert (rem = []) as ->.
      { destruct rem as [|[x y] rem]; [reflexivity|]. destruct (proj1 (sub_in _ _ _ S1 (x, y)) (or_introl eq_refl)) as [X1 X2].
        destruct (Hn x y X1 X2). }
      f_equal. eapply sub_unique; [exact S2|]. apply sub_all. rewrite Forall_forall. intros [x y] Hx. apply (Hn x y Hx). }
    destruct (with_comps_c_panic _ _ _ _ _ (remove_if_equal_like veq _) _ _ _ _ _ _ _ R E) as [X|[(f1 & X)|(f1 & X)]]; [auto| |].
    - left. unfold remove_if_equal_c in X. destruct (get_if_equal_c veq _ _ v f1) as [[o f2]|]; [discriminate|congruence].
    - unfold remove_if_equal_c in X. destruct (get_if_equal_c veq (touching_end_comp (iend k)) _ v f1) as [[o f2]|]; [discriminate|].
      injection X as <-. unfold get_if_equal. rewrite G3. destruct TL as [[k0 v0]|]; [|left; reflexivity].
      destruct (veq v0 v) eqn:Ev; [|left; reflexivity]. cbn [is_some].
      right. exists k0, v0. split; [apply in_app_iff; right; left; reflexivity|].
      destruct (rel_TL k A (Some (k0, v0)) [] TR B Vk' W HTL (k0, v0) (or_introl eq_refl)) as (T1 & _ & _ & T2).
      split; [exact T1|]. 
      assert (V0 : lo k0 <= hi k0).
      { apply (WF_okv _ (k0, v0) W). apply in_app_iff. right. left. reflexivity. }
      split; [apply before_rk; unfold ehi in T2; cbn in T2; lia|]. split; [exact Ev|].
      rewrite R1. apply (sub_remove_one A (k0, v0) (opt_list TR ++ B)), W.
  Qed.

  Lemma sub_WF (P : entry -> Prop) m m' : sub P m m' -> WF m -> WF m'.
  Proof.
    intros S. induction S as [|e l l' He S IH|e l l' He S IH]; intros W; [exact W| |].
    - apply WF_cons in W. destruct W as (Ve & W & Hl). apply WF_cons. split; [exact Ve|]. split; [apply IH, W|].
      rewrite Forall_forall in *. intros x Hx. apply Hl. apply (sub_in _ _ _ S x) in Hx. apply Hx.
    - apply WF_cons in W. apply IH, W.
  Qed.

  (** ** Histories *)
  Lemma step_c_WF m (o : op I K V) f : WF m -> WF (step_c m o f).
  Proof.
    intros W. pose proof (step_WF m o W) as W'.
    destruct o as [|k v|k v|veq k v|k v|k v|k v|Q IQ q|Q IQ q|Q IQ g q|g p|g|l|l]; try exact W'; cbn [step_c step] in *.
    - destruct (insert_merge_touching_c k v m f) as [m' [[r f']|]] eqn:E; cbn [fst].
      + apply merge_touching_c_val in E. rewrite E in W'. exact W'.
      + apply merge_touching_c_panic in E; [|exact W]. subst m'. exact W.
    - destruct (insert_merge_touching_if_values_equal_c veq k v m f) as [m' [[r f']|]] eqn:E; cbn [fst].
      + apply merge_if_equal_c_val in E. rewrite E in W'. exact W'.
      + apply merge_if_equal_c_panic in E; [|exact W]. destruct E as [->|(k0 & v0 & _ & _ & _ & _ & S)]; [exact W|].
        apply (sub_WF _ _ _ S W).
    - destruct (insert_merge_overlapping_c k v m f) as [m' [[r f']|]] eqn:E; cbn [fst].
      + apply merge_overlapping_c_val in E. rewrite E in W'. exact W'.
      + apply merge_overlapping_c_panic in E; [|exact W]. subst m'. exact W.
    - destruct (insert_merge_touching_or_overlapping_c k v m f) as [m' [[r f']|]] eqn:E; cbn [fst].
      + apply merge_tor_c_val in E. rewrite E in W'. exact W'.
      + apply merge_tor_c_panic in E; [|exact W]. subst m'. exact W.
    - destruct (insert_overwrite_c k v m f) as [m' [[r f']|]] eqn:E; cbn [fst].
      + apply insert_overwrite_c_val in E. rewrite E in W'. exact W'.
      + apply insert_overwrite_c_panic in E. destruct E as [[-> _]|[Vk E]]; [exact W|].
        apply (cut_c_interrupted k m f m' W Vk E).
    - apply cut_c_WF, W.
  Qed.
  Lemma run_c_WF (os : list (op I K V * nat)) : WF (run_c os).
  Proof.
    unfold run_c. assert (W : WF (new : NoditMap K V)) by apply WF_nil. revert W. generalize (new : NoditMap K V).
    induction os as [|[o f] os IH]; intros m W; [exact W|]. cbn. apply IH, step_c_WF, W.
  Qed.
End CrashProofs.

(** * The statements for one interrupted call *)
Section Interrupted.
  Context {I : Type} `{PL : PointLaws I}.
  Context {K : Type} {IK : InclusiveInterval I K} {IL : IntervalLaws I K}.
  Context {V : Type}.
  Implicit Types (m : NoditMap K V) (k : K) (v : V) (p : I).

  Lemma split_maps (m1 m2 : NoditMap K V) k0 v0 p : WF (m1 ++ (k0, v0) :: m2) ->
    (plt p (istart k0) -> forall v, (maps_to m1 p v <-> maps_to (m1 ++ (k0, v0) :: m2) p v) /\ ~ maps_to m2 p v) /\
    (plt (iend k0) p -> forall v, (maps_to m2 p v <-> maps_to (m1 ++ (k0, v0) :: m2) p v) /\ ~ maps_to m1 p v).
  Proof.
    intros W. apply WF_app in W. destruct W as (W1 & W2 & W12). apply WF_cons in W2. destruct W2 as (V0 & W2 & H2).
    unfold elo, ehi in V0. cbn in V0.
    assert (B1 : forall k v, In (k, v) m1 -> hi k < lo k0) by (intros k v Hi; apply (W12 (k, v) (k0, v0) Hi (or_introl eq_refl))).
    assert (B2 : forall k v, In (k, v) m2 -> hi k0 < lo k) by (intros k v Hi; rewrite Forall_forall in H2; apply (H2 _ Hi)).
    unfold maps_to. split; intros L v; apply plt_rk in L; (split; [split|]).
    - intros (k & Hi & Hc). exists k. rewrite in_app_iff. auto.
    - intros (k & Hi & Hc). exists k. split; [|exact Hc]. apply in_app_iff in Hi. destruct Hi as [Hi|[[= -> ->]|Hi]]; [exact Hi|exfalso..].
      + apply covers_rk in Hc. unfold lo, hi in *. lia.
      + apply B2 in Hi. apply covers_rk in Hc. unfold lo, hi in *. lia.
    - intros (k & Hi & Hc). apply B2 in Hi. apply covers_rk in Hc. unfold lo, hi in *. lia.
    - intros (k & Hi & Hc). exists k. rewrite in_app_iff. cbn. auto.
    - intros (k & Hi & Hc). exists k. split; [|exact Hc]. apply in_app_iff in Hi. destruct Hi as [Hi|[[= -> ->]|Hi]]; [exfalso..|exact Hi].
      + apply B1 in Hi. apply covers_rk in Hc. unfold lo, hi in *. lia.
      + apply covers_rk in Hc. unfold lo, hi in *. lia.
    - intros (k & Hi & Hc). apply B1 in Hi. apply covers_rk in Hc. unfold lo, hi in *. lia.
  Qed.

  (** [m'] is what is left of [m] when [cut q] was interrupted at the entry
      [(k0, v0)]. *)
  Definition cut_stopped_at {Q} {IQ : InclusiveInterval I Q} (q : Q) m m' k0 v0 : Prop :=
    In (k0, v0) m /\ overlap k0 q /\
    (forall p v, plt p (istart k0) -> (maps_to m' p v <-> maps_to m p v /\ ~ covers q p)) /\
    (forall p v, plt (iend k0) p -> (maps_to m' p v <-> maps_to m p v)) /\
    (forall p v, covers k0 p -> maps_to m' p v -> v = v0 /\ ~ covers q p).

  Lemma interrupted_stopped {Q} {IQ : InclusiveInterval I Q} (q : Q) m m' : WF m -> interrupted_cut q m m' ->
    (forall e, In e m -> ~ overlap (fst e) q -> In e m') /\ exists k0 v0, cut_stopped_at q m m' k0 v0.
  Proof.
    intros W (W' & Keep & m1 & k0 & v0 & m2 & -> & Ho & HO & HI).
    split; [intros [k v] Hi N; apply Keep; assumption|]. exists k0, v0.
    split; [apply in_app_iff; right; left; reflexivity|]. split; [exact Ho|].
    split; [|split; [|exact HI]]; intros p v L; destruct (split_maps m1 m2 k0 v0 p W) as [S1 S2].
    - rewrite HO by (intros C; apply covers_rk in C; apply plt_rk in L; unfold lo in C; lia).
      destruct (S1 L v) as [X1 X2]. rewrite X1. tauto.
    - rewrite HO by (intros C; apply covers_rk in C; apply plt_rk in L; unfold hi in C; lia).
      destruct (S2 L v) as [X1 X2]. rewrite X1. tauto.
  Qed.

  Lemma cut_c_stopped {Q} {IQ : InclusiveInterval I Q} (q : Q) m f m' : WF m -> valid q -> cut_c q m f = (m', Panic) ->
    (forall e, In e m -> ~ overlap (fst e) q -> In e m') /\ exists k0 v0, cut_stopped_at q m m' k0 v0.
  Proof. intros W Vq E. apply interrupted_stopped; [exact W|]. apply (cut_c_interrupted q m f m' W Vq E). Qed.

  Lemma stopped_old {Q} {IQ : InclusiveInterval I Q} (q : Q) m m' k0 v0 p v : cut_stopped_at q m m' k0 v0 ->
    maps_to m' p v -> maps_to m p v.
  Proof.
    intros (Hi & _ & H1 & H2 & H3) M.
    assert (C : plt p (istart k0) \/ plt (iend k0) p \/ covers k0 p) by (rewrite !plt_rk, covers_rk; unfold lo, hi; lia).
    destruct C as [C|[C|C]].
    - apply H1 in M; [apply M|exact C].
    - apply H2 in M; [apply M|exact C].
    - destruct (H3 p v C M) as [-> _]. exists k0. auto.
  Qed.
End Interrupted.
