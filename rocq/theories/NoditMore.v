(** * NoditMore: bulk construction, end entries, and the algebra of [cut]. *)
From Coq Require Import List ZArith Bool Lia ZifyBool Sorting.Sorted Permutation.
From Verif Require Import Base BTree UtilsModel IntervalModel NoditModel NoditOps Spec
  PointFacts IntervalFacts ListFacts NoditFacts NoditQueries NoditGaps NoditMutations NoditMerges NoditInv.
Import ListNotations.
Open Scope Z_scope.

Section More.
  Context {I : Type} `{PL : PointLaws I}.
  Context {K : Type} {IK : InclusiveInterval I K} {IL : IntervalLaws I K}.
  Context {V : Type}.
  Notation entry := (K * V)%type.
  Implicit Types (m : NoditMap K V).

  (** ** Bulk construction *)
  Lemma extend_strict_app l1 l2 m :
    extend_strict (l1 ++ l2) m =
    match extend_strict l1 m with Val (Ok m') => extend_strict l2 m' | x => x end.
  Proof.
    revert m. induction l1 as [|[k v] l1 IH]; intros m; [reflexivity|]. cbn [app extend_strict].
    destruct (insert_strict k v m) as [m' [[u|e]|]]; auto.
  Qed.

  Definition loadable (l : list entry) : Prop := disjoint_intervals (map fst l).

  Lemma FOP_app {A} (R : A -> A -> Prop) l1 l2 :
    ForallOrdPairs R (l1 ++ l2) <->
    ForallOrdPairs R l1 /\ ForallOrdPairs R l2 /\ (forall x y, In x l1 -> In y l2 -> R x y).
  Proof.
    induction l1 as [|a l1 IH]; cbn [app].
    - split; [intros Hf; split; [constructor|]; split; [exact Hf|intros x y []]|tauto].
    - split.
      + intros Hf. inversion Hf as [|? ? Ha Hf']; subst. apply IH in Hf'. destruct Hf' as (F1 & F2 & F3).
        apply Forall_app in Ha. destruct Ha as [Ha1 Ha2]. split; [constructor; assumption|].
        split; [exact F2|]. intros x y [<-|Hx] Hy; [|auto]. rewrite Forall_forall in Ha2. auto.
      + intros (F1 & F2 & F3). inversion F1 as [|? ? Ha F1']; subst. constructor.
        * apply Forall_app. split; [exact Ha|]. apply Forall_forall. intros y Hy. apply F3; [left; reflexivity|exact Hy].
        * apply IH. split; [exact F1'|]. split; [exact F2|]. intros x y Hx. apply F3. right. exact Hx.
  Qed.

  Lemma loadable_snoc l k v : loadable (l ++ [(k, v)]) <->
    loadable l /\ valid k /\ ~ (exists k', In k' (map fst l) /\ overlap k' k).
  Proof.
    unfold loadable, disjoint_intervals. rewrite map_app, Forall_app, FOP_app. cbn [map fst]. split.
    - intros ((F1 & F2) & P1 & P2 & P3). split; [auto|]. split; [inversion F2; assumption|].
      intros (k' & Hk' & Ho). apply (P3 k' k); [exact Hk'|left; reflexivity|exact Ho].
    - intros ((F1 & P1) & Vk & Hn). split; [split; [exact F1|constructor; [exact Vk|constructor]]|].
      split; [exact P1|]. split; [constructor; constructor|].
      intros x y Hx [<-|[]] Ho. apply Hn. eauto.
  Qed.

  Lemma loadable_prefix l1 l2 : loadable (l1 ++ l2) -> loadable l1.
  Proof.
    unfold loadable, disjoint_intervals. rewrite map_app, Forall_app, FOP_app. tauto.
  Qed.

  Lemma loadable_ok l : loadable l ->
    exists m, from_iter_strict l = Val (Ok m) /\ WF m /\ Permutation l m.
  Proof.
    intros HL. unfold from_iter_strict.
    destruct (extend_strict_spec l new) as [(m & E & W & P & _)|(l1 & k & v & l2 & -> & Hc & _)].
    - apply WF_nil.
    - apply HL.
    - exists m. auto.
    - exfalso. change ((k, v) :: l2) with ([(k, v)] ++ l2) in HL. rewrite app_assoc in HL.
      apply loadable_prefix in HL. apply loadable_snoc in HL. destruct HL as (_ & _ & Hn).
      destruct Hc as (k' & v' & [[]|Hin] & Ho). apply Hn. exists k'. split; [|exact Ho].
      apply in_map_iff. exists (k', v'). auto.
  Qed.

  Lemma valid_dec {Q} {IQ : InclusiveInterval I Q} (q : Q) : valid q \/ ~ valid q.
  Proof. rewrite valid_rk. lia. Qed.

  Lemma bulk_invalid l1 k v l2 : loadable l1 -> ~ valid k -> from_iter_strict (l1 ++ (k, v) :: l2) = Panic.
  Proof.
    intros HL Hk. destruct (loadable_ok l1 HL) as (m & E & W & P). unfold from_iter_strict in *.
    rewrite extend_strict_app, E. cbn [extend_strict]. rewrite insert_strict_invalid by exact Hk. reflexivity.
  Qed.
  Lemma bulk_clash l1 k v l2 : loadable l1 -> valid k -> (exists k', In k' (map fst l1) /\ overlap k' k) ->
    from_iter_strict (l1 ++ (k, v) :: l2) = Val (Err v).
  Proof.
    intros HL Vk (k' & Hin & Ho). destruct (loadable_ok l1 HL) as (m & E & W & P). unfold from_iter_strict in *.
    rewrite extend_strict_app, E. cbn [extend_strict]. rewrite insert_strict_refused; [reflexivity|exact W|exact Vk|].
    apply in_map_iff in Hin. destruct Hin as ([k0 v0] & E0 & Hin). cbn in E0. subst k0.
    exists k', v0. split; [|exact Ho]. apply (Permutation_in _ P), Hin.
  Qed.

  Lemma bulk_cases (l : list entry) :
    loadable l \/
    (exists l1 k v l2, l = l1 ++ (k, v) :: l2 /\ loadable l1 /\ ~ valid k) \/
    (exists l1 k v l2, l = l1 ++ (k, v) :: l2 /\ loadable l1 /\ valid k /\
       exists k', In k' (map fst l1) /\ overlap k' k).
  Proof.
    induction l as [|[k v] l IH] using rev_ind.
    - left. split; constructor.
    - destruct IH as [HL|[(l1 & k' & v' & l2 & -> & HL & Hk)|(l1 & k' & v' & l2 & -> & HL & Vk & Ho)]].
      + destruct (valid_dec k) as [Vk|Vk]; [|right; left; exists l, k, v, []; auto].
        destruct (loadable_ok l HL) as (m & E & W & P).
        destruct (overlap_dec m k W Vk) as [(k' & v' & Hin & Ho)|Hn].
        * right. right. exists l, k, v, []. split; [reflexivity|]. split; [exact HL|]. split; [exact Vk|].
          exists k'. split; [|exact Ho]. apply in_map_iff. exists (k', v'). split; [reflexivity|].
          apply (Permutation_in _ (Permutation_sym P)), Hin.
        * left. apply loadable_snoc. split; [exact HL|]. split; [exact Vk|]. intros (k' & Hin & Ho).
          apply in_map_iff in Hin. destruct Hin as ([k0 v0] & E0 & Hin). cbn in E0. subst k0.
          apply (Hn k' v0); [|exact Ho]. apply (Permutation_in _ P), Hin.
      + right. left. exists l1, k', v', (l2 ++ [(k, v)]). rewrite <- app_assoc. auto.
      + right. right. exists l1, k', v', (l2 ++ [(k, v)]). rewrite <- app_assoc. auto.
  Qed.

  Lemma from_iter_strict_Ok l : (exists m, from_iter_strict l = Val (Ok m)) <-> loadable l.
  Proof.
    split.
    - intros (m & E). destruct (bulk_cases l) as [HL|[(l1 & k & v & l2 & -> & HL & Hk)|(l1 & k & v & l2 & -> & HL & Vk & Ho)]].
      + exact HL.
      + rewrite bulk_invalid in E by assumption. discriminate.
      + rewrite bulk_clash in E by assumption. discriminate.
    - intros HL. destruct (loadable_ok l HL) as (m & E & _). eauto.
  Qed.
  Lemma from_iter_strict_entries l m : from_iter_strict l = Val (Ok m) -> WF m /\ Permutation l m.
  Proof.
    intros E. destruct (loadable_ok l) as (m' & E' & W & P).
    - apply from_iter_strict_Ok. eauto.
    - assert (m' = m) by congruence. subst. auto.
  Qed.
  Lemma from_iter_strict_Err l v : from_iter_strict l = Val (Err v) <->
    exists l1 k l2, l = l1 ++ (k, v) :: l2 /\ loadable l1 /\ valid k /\
      exists k', In k' (map fst l1) /\ overlap k' k.
  Proof.
    split.
    - intros E. destruct (bulk_cases l) as [HL|[(l1 & k & w & l2 & -> & HL & Hk)|(l1 & k & w & l2 & -> & HL & Vk & Ho)]].
      + destruct (loadable_ok l HL) as (m & E' & _). congruence.
      + rewrite bulk_invalid in E by assumption. discriminate.
      + rewrite bulk_clash in E by assumption. injection E as <-. exists l1, k, l2. auto.
    - intros (l1 & k & l2 & -> & HL & Vk & Ho). apply bulk_clash; assumption.
  Qed.
  Lemma from_iter_strict_Panic l : from_iter_strict l = Panic <->
    exists l1 k v l2, l = l1 ++ (k, v) :: l2 /\ loadable l1 /\ ~ valid k.
  Proof.
    split.
    - intros E. destruct (bulk_cases l) as [HL|[(l1 & k & w & l2 & -> & HL & Hk)|(l1 & k & w & l2 & -> & HL & Vk & Ho)]].
      + destruct (loadable_ok l HL) as (m & E' & _). congruence.
      + exists l1, k, w, l2. auto.
      + rewrite bulk_clash in E by assumption. discriminate.
    - intros (l1 & k & v & l2 & -> & HL & Hk). apply bulk_invalid; assumption.
  Qed.
  Lemma FOP_Permutation {A} (R : A -> A -> Prop) l l' : (forall x y, R x y -> R y x) ->
    Permutation l l' -> ForallOrdPairs R l -> ForallOrdPairs R l'.
  Proof.
    intros HR HP. induction HP as [|x l l' HP IH|x y l|l1 l2 l3 _ IH1 _ IH2]; intros Hf; auto.
    - inversion Hf as [|? ? Ha Hf']; subst. constructor; [|apply IH, Hf'].
      eapply Permutation_Forall; eassumption.
    - inversion Hf as [|? ? Ha Hf']; subst. inversion Hf' as [|? ? Hb Hf'']; subst.
      inversion Ha as [|? ? Hyx Ha']; subst. constructor; [constructor; auto|constructor; auto].
  Qed.
  Lemma overlap_sym {A B} {IA : InclusiveInterval I A} {IB : InclusiveInterval I B} (a : A) (b : B) :
    overlap a b -> overlap b a.
  Proof. intros (p & ? & ?). exists p. auto. Qed.
  Lemma loadable_Permutation l l' : Permutation l l' -> loadable l -> loadable l'.
  Proof.
    intros P [F D]. split.
    - eapply Permutation_Forall; [|exact F]. apply Permutation_map, P.
    - eapply FOP_Permutation; [|apply Permutation_map, P|exact D]. intros x y Hn Ho. apply Hn, overlap_sym, Ho.
  Qed.
  Lemma from_iter_strict_perm l l' m : Permutation l l' ->
    from_iter_strict l = Val (Ok m) -> from_iter_strict l' = Val (Ok m).
  Proof.
    intros P E. destruct (from_iter_strict_entries _ _ E) as [W Pm].
    destruct (loadable_ok l') as (m' & E' & W' & Pm').
    - apply (loadable_Permutation l); [exact P|]. apply from_iter_strict_Ok. eauto.
    - rewrite E'. do 2 f_equal. apply WF_perm_eq; try assumption. intros e.
      assert (Q : Permutation m m').
      { apply (perm_trans (Permutation_sym Pm)). apply (perm_trans P Pm'). }
      split; apply Permutation_in; [apply Permutation_sym|]; exact Q.
  Qed.

  (** ** First and last entry *)
  Lemma before_rk (a b : K) : lo a <= hi a -> lo b <= hi b -> (before a b <-> hi a < lo b).
  Proof.
    intros Va Vb. split.
    - intros Hb. specialize (Hb (iend a) (istart b)). apply plt_rk. apply Hb; apply covers_rk; unfold lo, hi in *; lia.
    - intros Hb x y Hx Hy. apply covers_rk in Hx, Hy. apply plt_rk. lia.
  Qed.
  Lemma first_key_value_spec m e : WF m ->
    (first_key_value m = Some e <->
     In e m /\ forall e', In e' m -> e' = e \/ before (fst e) (fst e')).
  Proof.
    intros W. unfold first_key_value. destruct m as [|a m]; cbn.
    - split; [discriminate|intros [[] _]].
    - apply WF_cons in W. destruct W as (Va & W & Wa). rewrite Forall_forall in Wa. split.
      + intros E. injection E as <-. split; [auto|]. intros e' [<-|He']; [auto|right].
        apply before_rk; [exact Va|apply (WF_okv m); assumption|apply Wa, He'].
      + intros [[<-|He] Hb]; [reflexivity|].
        destruct (Hb a) as [->|B]; [auto|reflexivity|exfalso].
        apply before_rk in B; [|apply (WF_okv m); assumption|exact Va].
        specialize (Wa e He). pose proof (WF_okv _ _ W He) as Ve. unfold elo, ehi in *. lia.
  Qed.
  Lemma last_key_value_spec m e : WF m ->
    (last_key_value m = Some e <->
     In e m /\ forall e', In e' m -> e' = e \/ before (fst e') (fst e)).
  Proof.
    intros W. unfold last_key_value. destruct (snoc_cases m) as [->|(l & a & ->)]; cbn.
    - split; [discriminate|intros [[] _]].
    - rewrite bt_last_snoc. apply WF_app in W. destruct W as (W & Wa & HW). apply WF_one in Wa. split.
      + intros E. injection E as <-. split; [apply in_app_iff; right; left; reflexivity|].
        intros e' He'. apply in_app_iff in He'. destruct He' as [He'|[<-|[]]]; [right|auto].
        apply before_rk; [apply (WF_okv l); assumption|exact Wa|].
        apply (HW e' a He'). left. reflexivity.
      + intros [He Hb]. apply in_app_iff in He. destruct He as [He|[<-|[]]]; [|reflexivity].
        destruct (Hb a) as [->|B]; [apply in_app_iff; right; left; reflexivity|reflexivity|exfalso].
        apply before_rk in B; [|exact Wa|apply (WF_okv l); assumption].
        specialize (HW e a He (or_introl eq_refl)). pose proof (WF_okv _ _ W He) as Ve. unfold elo, ehi in *. lia.
  Qed.
  Lemma first_none m : first_key_value m = None <-> m = [].
  Proof. destruct m; cbn; split; congruence. Qed.
  Lemma last_none m : last_key_value m = None <-> m = [].
  Proof.
    unfold last_key_value. destruct (snoc_cases m) as [->|(l & a & ->)]; [tauto|].
    rewrite bt_last_snoc. split; [discriminate|]. intros E. apply app_eq_nil in E. destruct E; discriminate.
  Qed.

  Lemma WF_NoDup m : WF m -> NoDup m.
  Proof.
    induction m as [|a m IH]; intros W; [constructor|]. apply WF_cons in W. destruct W as (Va & W & Wa).
    constructor; [|apply IH, W]. intros Hin. rewrite Forall_forall in Wa. specialize (Wa a Hin). lia.
  Qed.

  (** ** cut, with the keys of its pieces *)
  Section Cut.
    Context {Q : Type} {IQ : InclusiveInterval I Q}.
    Implicit Type q : Q.

    Lemma cut_list_built q (M out ins : list entry) : cut_list q M out ins ->
      Forall (fun x => built (fst x)) out /\ Forall (fun x => built (fst x)) ins.
    Proof.
      induction 1 as [|e ps i M out ins He HC [IH1 IH2]]; [split; constructor|].
      destruct He as [_ _ _ _ Hb]. inversion Hb; subst. split; [apply Forall_app; auto|constructor; auto].
    Qed.

    Lemma cut_full m q : WF m -> valid q ->
      exists m' out, cut q m = (m', Val out) /\ WF m' /\ WF out /\
        (forall k v, In (k, v) out ->
           built k /\ exists k0, In (k0, v) m /\ overlap k0 q /\
             forall p, covers k p <-> covers k0 p /\ covers q p) /\
        (forall k' v, In (k', v) m' ->
           exists k, In (k, v) m /\ max_run (fun p => covers k p /\ ~ covers q p) k' /\
             (k' = k /\ ~ overlap k q \/ built k' /\ overlap k q)) /\
        (forall p v, maps_to m' p v <-> maps_to m p v /\ ~ covers q p).
    Proof.
      intros W Vq. destruct (cut_entries m q W Vq) as (m' & out & E & W' & (o & HS & HO) & E1 & E2 & HM).
      destruct (cut_facts m q W Vq) as (A & M & B & out' & ins & Em & HA & HMm & HB & E' & HC & HS' & _).
      rewrite E in E'. injection E' as -> ->.
      assert (o = M) by (eapply sub_unique; eassumption). subst o.
      destruct (cut_list_built _ _ _ _ HC) as [B1 B2]. rewrite Forall_forall in B1, B2.
      assert (Vq' := Vq). apply valid_rk in Vq'.
      assert (WM : WF M). { rewrite Em in W. apply WF_app in W. destruct W as (_ & W & _). apply WF_app in W. apply W. }
      destruct (cut_list_facts q M out' ins Vq' HC WM HMm) as (_ & Io & _ & Fo).
      exists (A ++ out' ++ B), ins. split; [exact E|]. split; [exact W'|]. split; [|split; [|split; [|exact HM]]].
      - (* WF ins *)
        clear - PL IL WM HMm Fo Vq'. revert WM HMm. induction Fo as [|e i M ins (E1 & E2 & E3) Fo IH]; intros WM HMm; [apply WF_nil|].
        apply WF_cons in WM. destruct WM as (Ve & WM & We). inversion HMm as [|? ? He HMm']; subst.
        unfold meets in He. apply WF_cons. split; [lia|]. split; [apply IH; assumption|].
        apply Forall_forall. intros x Hx. destruct (Forall2_in_r _ _ _ _ Fo Hx) as (e' & He' & X1 & X2 & X3).
        rewrite Forall_forall in We. specialize (We e' He'). lia.
      - intros k v Hin. split; [apply (B2 _ Hin)|]. destruct (Forall2_in_r _ _ _ _ HO Hin) as ([k0 v0] & He & Ev & Hp).
        cbn in Ev, Hp. subst v0. apply (sub_in _ _ _ HS) in He. destruct He as [He Ho]. exists k0. auto.
      - intros k' v Hin. destruct (E1 k' v Hin) as (k & Hk & Hn & Hr). exists k. split; [exact Hk|]. split; [exact Hr|].
        assert (D : overlap k q \/ ~ overlap k q) by (rewrite overlap_rk; lia).
        destruct D as [Ho|Ho]; [right|left; auto]. split; [|exact Ho].
        rewrite !in_app_iff in Hin. destruct Hin as [Hin|[Hin|Hin]]; [exfalso| |exfalso].
        * destruct Hr as ((p & Hp) & Hr & _). destruct (Hr p Hp) as [Hkp _].
          assert (E3 : (k', v) = (k, v)).
          { apply (covers_unique m p); try assumption. rewrite Em, !in_app_iff. auto. }
          injection E3 as <-. rewrite Forall_forall in HA. specialize (HA _ Hin). apply overlap_rk in Ho.
          unfold left_of, ehi in HA. cbn in HA. lia.
        * apply (B1 _ Hin).
        * destruct Hr as ((p & Hp) & Hr & _). destruct (Hr p Hp) as [Hkp _].
          assert (E3 : (k', v) = (k, v)).
          { apply (covers_unique m p); try assumption. rewrite Em, !in_app_iff. auto. }
          injection E3 as <-. rewrite Forall_forall in HB. specialize (HB _ Hin). apply overlap_rk in Ho.
          unfold right_of, elo in HB. cbn in HB. lia.
    Qed.
    Lemma cut_out_maps m q m' out : WF m -> valid q -> cut q m = (m', Val out) ->
      forall p v, maps_to out p v <-> maps_to m p v /\ covers q p.
    Proof.
      intros W Vq E p v. destruct (cut_entries m q W Vq) as (m1 & out1 & E' & _ & (o & HS & HO) & _).
      rewrite E in E'. injection E' as <- <-. split.
      - intros (k & Hin & Hp). destruct (Forall2_in_r _ _ _ _ HO Hin) as ([k0 v0] & He & Ev & Hq).
        cbn in Ev, Hq. subst v0. apply (sub_in _ _ _ HS) in He. apply Hq in Hp. split; [exists k0; tauto|tauto].
      - intros [(k0 & Hin & Hp) Hq]. assert (HinM : In (k0, v) o) by (apply (sub_in _ _ _ HS); split; [exact Hin|exists p; auto]).
        destruct (Forall2_in_l _ _ _ _ HO HinM) as ([k1 v1] & Hi & Ev & Hp1). cbn in Ev, Hp1. subst v1.
        exists k1. split; [exact Hi|]. apply Hp1. auto.
    Qed.
    (** If no two different points compare [Equal], the pieces are determined. *)
    Lemma cut_full_eq {OL : OrdLaws I} m q : WF m -> valid q ->
      exists m' out, cut q m = (m', Val out) /\ WF m' /\ WF out /\
        (forall k v, In (k, v) out <->
           built k /\ exists k0, In (k0, v) m /\ overlap k0 q /\
             forall p, covers k p <-> covers k0 p /\ covers q p) /\
        (forall k' v, In (k', v) m' <->
           exists k, In (k, v) m /\ max_run (fun p => covers k p /\ ~ covers q p) k' /\
             (k' = k /\ ~ overlap k q \/ built k' /\ overlap k q)) /\
        (forall p v, maps_to m' p v <-> maps_to m p v /\ ~ covers q p).
    Proof.
      intros W Vq. destruct (cut_full m q W Vq) as (m' & out & E & W' & Wo & Ho & Hm & HM).
      destruct (cut_entries m q W Vq) as (m1 & out1 & E' & _ & (o & HS & HO) & E1 & E2 & _).
      rewrite E in E'. injection E' as <- <-.
      exists m', out. split; [exact E|]. split; [exact W'|]. split; [exact Wo|]. split; [|split; [|exact HM]].
      - intros k v. split; [apply Ho|]. intros (Bk & k0 & Hin & Hv & Hp).
        assert (HinM : In (k0, v) o) by (apply (sub_in _ _ _ HS); auto).
        destruct (Forall2_in_l _ _ _ _ HO HinM) as ([k1 v1] & Hi & Ev & Hp1). cbn in Ev, Hp1. subst v1.
        assert (k = k1) as ->; [|exact Hi].
        assert (X : same_points k k1). { intros p. rewrite Hp, Hp1. reflexivity. }
        assert (Vk1 : valid k1). { destruct Hv as (p & P1 & P2). exists p. apply Hp1. auto. }
        assert (Vk : valid k). { destruct Vk1 as (p & P1). exists p. apply X, P1. }
        apply valid_rk in Vk1, Vk. apply same_points_rk in X; [|assumption..].
        apply built_eq; [exact Bk|apply (Ho _ _ Hi)|lia|lia].
      - intros k' v. split; [apply Hm|]. intros (k & Hin & Hr & D). destruct (E2 k v Hin) as [E2a E2b].
        destruct D as [[-> Hv]|[Bk Hv]]; [apply E2a, Hv|].
        assert (Vk' : lo k' <= hi k') by (apply valid_rk, Hr).
        destruct (E2b (mkInterval (istart k') (iend k')) Hr) as (k1 & Hk1 & Sp).
        assert (k' = k1) as ->; [|exact Hk1].
        assert (X : same_points k' k1) by (intros p; symmetry; apply Sp).
        destruct (Hm k1 v Hk1) as (k2 & Hk2 & Hr2 & D2).
        assert (Vk1 : lo k1 <= hi k1) by (apply valid_rk, Hr2).
        apply same_points_rk in X; [|assumption..].
        apply built_eq; [exact Bk| |lia|lia].
        destruct D2 as [[-> N2]|[B2 _]]; [exfalso|exact B2]. apply N2.
        destruct Hr as ((p & Hp) & Hr & _). destruct (Hr p Hp) as [Hkp _].
        assert (E3 : (k2, v) = (k, v)) by (apply (covers_unique m p); try assumption; apply Sp; exact Hp).
        injection E3 as ->. exact Hv.
    Qed.

    Lemma cut_nothing m q : WF m -> valid q -> (forall e, In e m -> ~ overlap (fst e) q) -> cut q m = (m, Val []).
    Proof.
      intros W Vq Hn. destruct (cut_full m q W Vq) as (m' & out & E & W' & Wo & Ho & Hm & _). rewrite E.
      assert (out = []) as ->.
      { destruct out as [|[k v] out]; [reflexivity|]. exfalso.
        destruct (Ho k v) as (_ & k0 & Hin & Hov & _); [left; reflexivity|]. apply (Hn _ Hin Hov). }
      destruct (cut_entries m q W Vq) as (m1 & out1 & E' & _ & _ & _ & E2 & _). rewrite E in E'. injection E' as <- <-.
      do 2 f_equal. apply WF_perm_eq; try assumption. intros [k v]. split.
      - intros Hin. apply Hm in Hin. destruct Hin as (k0 & Hin & _ & [[-> _]|[_ Hov]]); [exact Hin|]. destruct (Hn _ Hin Hov).
      - intros Hin. apply (E2 k v Hin), (Hn _ Hin).
    Qed.

    Lemma cut_idempotent m q : WF m -> valid q ->
      cut q (fst (cut q m)) = (fst (cut q m), Val []).
    Proof.
      intros W Vq. destruct (cut_full m q W Vq) as (m' & out & E & W' & _ & _ & _ & HM). rewrite E. cbn [fst].
      apply cut_nothing; try assumption. intros [k v] Hin (p & Hk & Hq).
      destruct (proj1 (HM p v)) as [_ Hn]; [exists k; auto|]. exact (Hn Hq).
    Qed.

    (** Putting the pieces back. *)
    Lemma cut_restore m q : WF m -> valid q ->
      exists m' out, cut q m = (m', Val out) /\
        forall l, Permutation out l ->
        exists m'', extend_strict l m' = Val (Ok m'') /\ WF m'' /\ same_map m'' m.
    Proof.
      intros W Vq. destruct (cut_full m q W Vq) as (m' & out & E & W' & Wo & Ho & Hm & HM).
      exists m', out. split; [exact E|]. intros l HPl.
      assert (Dis : forall k v k' v', In (k, v) out -> In (k', v') m' -> ~ overlap k' k).
      { intros k v k' v' Hk Hk' (p & P1 & P2). apply Ho in Hk. destruct Hk as (_ & k0 & _ & _ & Hp).
        apply Hp in P2. destruct P2 as [_ P2]. destruct (proj1 (HM p v')) as [_ Hn]; [exists k'; auto|].
        exact (Hn P2). }
      destruct (extend_strict_spec l m') as [(m'' & E'' & W'' & P & _)|(l1 & k & v & l2 & -> & Hc & _)].
      - exact W'.
      - apply ascending_WF in Wo. eapply Permutation_Forall; [apply Permutation_map, HPl|apply Wo].
      - exists m''. split; [exact E''|]. split; [exact W''|]. intros p v.
        assert (Hin : forall e, In e m'' <-> In e m' \/ In e out).
        { intros e. split.
          - intros He. apply (Permutation_in _ (Permutation_sym P)), in_app_iff in He.
            destruct He as [He|He]; [auto|right]. apply (Permutation_in _ (Permutation_sym HPl)), He.
          - intros He. apply (Permutation_in _ P), in_app_iff. destruct He as [He|He]; [auto|right].
            apply (Permutation_in _ HPl), He. }
        split.
        + intros (k & Hk & Hp). apply Hin in Hk. destruct Hk as [Hk|Hk].
          * apply (HM p v). exists k. auto.
          * apply Ho in Hk. destruct Hk as (_ & k0 & Hk0 & _ & Hx). exists k0. split; [exact Hk0|apply Hx, Hp].
        + intros (k & Hk & Hp). assert (D : covers q p \/ ~ covers q p) by (rewrite covers_rk; lia).
          destruct D as [D|D].
          * assert (Hv : overlap k q) by (exists p; auto).
            destruct (cut_entries m q W Vq) as (m1 & o1 & E1 & _ & (o & HS & HO) & _).
            rewrite E in E1. injection E1 as <- <-.
            assert (HinM : In (k, v) o) by (apply (sub_in _ _ _ HS); auto).
            destruct (Forall2_in_l _ _ _ _ HO HinM) as ([k1 v1] & Hi & Ev & Hp1). cbn in Ev, Hp1. subst v1.
            exists k1. rewrite Hin, Hp1. auto.
          * destruct (proj2 (HM p v)) as (k' & Hk' & Hp'); [split; [exists k; auto|exact D]|].
            exists k'. rewrite Hin. auto.
      - exfalso. destruct Hc as (k' & v' & [Hin|Hin] & Hov).
        + apply (Dis k v k' v'); try assumption. apply (Permutation_in _ (Permutation_sym HPl)), in_app_iff.
          right. left. reflexivity.
        + assert (NB : NoDup (l1 ++ (k, v) :: l2)).
          { eapply Permutation_NoDup; [exact HPl|]. apply WF_NoDup, Wo. }
          assert (X : (k', v') = (k, v)).
          { destruct Hov as (p & P1 & P2). apply (covers_unique out p); try assumption;
              apply (Permutation_in _ (Permutation_sym HPl)), in_app_iff; [left; exact Hin|right; left; reflexivity]. }
          rewrite X in Hin. apply NoDup_remove_2 in NB. apply NB, in_app_iff. auto.
    Qed.
  End Cut.

  (** Two cuts in either order. *)
  Section Commute.
    Context {Q : Type} {IQ : InclusiveInterval I Q}.
    Context {R : Type} {IR : InclusiveInterval I R}.

    Lemma max_run_twice (P Pq Pr : I -> Prop) (k1 k2 : K) :
      max_run (fun p => P p /\ Pq p) k1 -> max_run (fun p => covers k1 p /\ Pr p) k2 ->
      max_run (fun p => P p /\ Pq p /\ Pr p) k2.
    Proof.
      intros (V1 & A1 & M1) (V2 & A2 & M2). split; [exact V2|]. split.
      - intros p Hp. destruct (A2 p Hp) as [Hp1 Hr]. destruct (A1 p Hp1). auto.
      - intros j Hj Ho. apply M2; [|exact Ho]. intros p Hp. split; [|apply (Hj p Hp)].
        apply (M1 j); [intros x Hx; destruct (Hj x Hx); tauto| |exact Hp].
        destruct Ho as (x & X1 & X2). exists x. split; [|exact X2]. apply (A2 x X1).
    Qed.

    Lemma cut_twice {OL : OrdLaws I} m (q : Q) (r : R) k' v : WF m -> valid q -> valid r ->
      (In (k', v) (fst (cut r (fst (cut q m)))) <->
       exists k, In (k, v) m /\ max_run (fun p => covers k p /\ ~ covers q p /\ ~ covers r p) k' /\
         (k' = k /\ ~ overlap k q /\ ~ overlap k r \/ built k' /\ (overlap k q \/ overlap k r))).
    Proof.
      intros W Vq Vr. destruct (cut_full_eq m q W Vq) as (m1 & o1 & E1 & W1 & _ & _ & H1 & HM1).
      rewrite E1. cbn [fst]. destruct (cut_full_eq m1 r W1 Vr) as (m2 & o2 & E2 & W2 & _ & _ & H2 & HM2).
      rewrite E2. cbn [fst].
      assert (Two : forall k0 k1 k2 : K, max_run (fun p => covers k0 p /\ ~ covers q p) k1 ->
        (k1 = k0 /\ ~ overlap k0 q \/ built k1 /\ overlap k0 q) ->
        max_run (fun p => covers k1 p /\ ~ covers r p) k2 ->
        (k2 = k1 /\ ~ overlap k1 r \/ built k2 /\ overlap k1 r) ->
        max_run (fun p => covers k0 p /\ ~ covers q p /\ ~ covers r p) k2 /\
        (k2 = k0 /\ ~ overlap k0 q /\ ~ overlap k0 r \/ built k2 /\ (overlap k0 q \/ overlap k0 r))).
      { intros k0 k1 k2 R1 D1 R2 D2. split.
        { exact (max_run_twice (covers k0) (fun p => ~ covers q p) (fun p => ~ covers r p) k1 k2 R1 R2). }
        destruct D1 as [[-> D1]|[B1 D1]], D2 as [[-> D2]|[B2 D2]]; auto 6. }
      split.
      - intros Hin. apply H2 in Hin. destruct Hin as (k1 & Hk1 & R1 & D1).
        apply H1 in Hk1. destruct Hk1 as (k0 & Hk0 & R0 & D0). exists k0. split; [exact Hk0|].
        eapply Two; eassumption.
      - intros (k & Hin & Rk & Dk). pose proof Rk as ((p & Hp) & Ap & _).
        destruct (Ap p Hp) as (Kp & Nq & Nr).
        destruct (proj2 (HM1 p v)) as (k1 & Hk1 & C1); [split; [exists k; auto|exact Nq]|].
        destruct (proj2 (HM2 p v)) as (k2 & Hk2 & C2); [split; [exists k1; auto|exact Nr]|].
        assert (X := Hk2). apply H2 in X. destruct X as (k1' & Hk1' & R2 & D2).
        assert (E3 : (k1', v) = (k1, v)).
        { apply (covers_unique m1 p); try assumption. destruct R2 as (_ & A2 & _). apply (A2 p C2). }
        injection E3 as ->.
        assert (Y := Hk1). apply H1 in Y. destruct Y as (k0 & Hk0 & R1 & D1).
        assert (E4 : (k0, v) = (k, v)).
        { apply (covers_unique m p); try assumption. destruct R1 as (_ & A1 & _). apply (A1 p C1). }
        injection E4 as ->.
        destruct (Two k k1 k2 R1 D1 R2 D2) as [Rf Df].
        assert (k' = k2) as ->; [|exact Hk2].
        assert (SP : same_points k' k2) by (eapply (max_run_same _ k' k2 p); eassumption).
        destruct Dk as [[-> [N1 N2]]|[B1 O1]], Df as [[-> [N3 N4]]|[B2 O2]]; [reflexivity|tauto|tauto|].
        apply same_points_rk in SP; [|apply valid_rk; apply Rk|apply valid_rk; apply Rf].
        apply built_eq; [exact B1|exact B2|lia|lia].
    Qed.

    Lemma cut_other_pieces {OL : OrdLaws I} m (q : Q) (r : R) : WF m -> valid q -> valid r -> ~ overlap q r ->
      snd (cut q (fst (cut r m))) = snd (cut q m).
    Proof.
      intros W Vq Vr Hd. destruct (cut_full_eq m r W Vr) as (m1 & o1 & E1 & W1 & _ & _ & H1 & HM1).
      rewrite E1. cbn [fst]. destruct (cut_full_eq m1 q W1 Vq) as (m2 & o2 & E2 & _ & Wo2 & O2 & _).
      destruct (cut_full_eq m q W Vq) as (m3 & o3 & E3 & _ & Wo3 & O3 & _). rewrite E2, E3. cbn [snd].
      f_equal. apply WF_perm_eq; try assumption. intros [k v]. rewrite O2, O3. clear O2 O3 E1 E2 E3.
      assert (Same : forall k0 k1 : K, max_run (fun p => covers k0 p /\ ~ covers r p) k1 -> overlap k1 q ->
        forall p, covers k1 p /\ covers q p <-> covers k0 p /\ covers q p).
      { intros k0 k1 (V1 & A1 & M1) (x & X1 & X2) p. split.
        - intros [P1 P2]. split; [apply (A1 p P1)|exact P2].
        - intros [P1 P2]. split; [|exact P2]. destruct (A1 x X1) as [X0 _].
          assert (J : exists j : Interval I, forall y, covers j y <-> covers k0 y /\ covers q y).
          { apply covers_rk in P1, P2, X0, X2.
            destruct (rk_surj MIN MAX (Z.max (lo k0) (lo q))) as (s & Es).
            { pose proof (rk_min (istart k0)). pose proof (rk_max (istart k0)).
              pose proof (rk_max (istart q)). unfold lo in *. lia. }
            destruct (rk_surj MIN MAX (Z.min (hi k0) (hi q))) as (e & Ee).
            { pose proof (rk_min (iend k0)). pose proof (rk_max (iend k0)).
              pose proof (rk_min (iend q)). unfold hi in *. lia. }
            exists (mkInterval s e). intros y. rewrite !covers_rk. unfold lo, hi in *. cbn. lia. }
          destruct J as (j & Hj). apply (M1 j).
          + intros y Hy. apply Hj in Hy. destruct Hy as [Y1 Y2]. split; [exact Y1|]. intros Hr. apply Hd. exists y. auto.
          + exists x. split; [exact X1|]. apply Hj. auto.
          + apply Hj. auto. }
      split; intros (Bk & k0 & Hk0 & Ho & Hp); (split; [exact Bk|]).
      - apply H1 in Hk0. destruct Hk0 as (k1 & Hk1 & R1 & _). exists k1. split; [exact Hk1|]. split.
        + destruct Ho as (x & X1 & X2). exists x. split; [|exact X2]. destruct R1 as (_ & A1 & _). apply (A1 x X1).
        + intros p. rewrite Hp. apply Same; assumption.
      - destruct Ho as (x & X1 & X2).
        destruct (proj2 (HM1 x v)) as (k1 & Hk1 & C1).
        { split; [exists k0; auto|]. intros Hr. apply Hd. exists x. auto. }
        assert (Y := Hk1). apply H1 in Y. destruct Y as (k0' & Hk0' & R1 & _).
        assert (E4 : (k0', v) = (k0, v)).
        { apply (covers_unique m x); try assumption. destruct R1 as (_ & A1 & _). apply (A1 x C1). }
        injection E4 as ->.
        assert (Ov : overlap k1 q) by (exists x; auto).
        exists k1. split; [exact Hk1|]. split; [exact Ov|]. intros p. rewrite Hp. symmetry. apply Same; assumption.
    Qed.
  End Commute.

  Lemma cut_commute {OL : OrdLaws I} {Q} {IQ : InclusiveInterval I Q} {R} {IR : InclusiveInterval I R} m (q : Q) (r : R) :
    WF m -> valid q -> valid r -> fst (cut r (fst (cut q m))) = fst (cut q (fst (cut r m))).
  Proof.
    intros W Vq Vr. apply WF_perm_eq.
    - destruct (cut_full_eq m q W Vq) as (m1 & o1 & E1 & W1 & _). rewrite E1. cbn [fst].
      destruct (cut_full_eq m1 r W1 Vr) as (m2 & o2 & E2 & W2 & _). rewrite E2. exact W2.
    - destruct (cut_full_eq m r W Vr) as (m1 & o1 & E1 & W1 & _). rewrite E1. cbn [fst].
      destruct (cut_full_eq m1 q W1 Vq) as (m2 & o2 & E2 & W2 & _). rewrite E2. exact W2.
    - intros [k v]. rewrite !cut_twice by assumption.
      assert (Sw : forall k0 : K, max_run (fun p => covers k0 p /\ ~ covers q p /\ ~ covers r p) k <->
                              max_run (fun p => covers k0 p /\ ~ covers r p /\ ~ covers q p) k).
      { intros k0. split; intros (V1 & A1 & M1); (split; [exact V1|]; split;
          [intros p Hp; specialize (A1 p Hp); tauto|intros j Hj; apply M1; intros p Hp; specialize (Hj p Hp); tauto]). }
      split; intros (k0 & Hin & Hr & D); exists k0; (split; [exact Hin|]); (split; [apply Sw, Hr|tauto]).
  Qed.
End More.

Section More2.
  Context {I : Type} `{PL : PointLaws I}.
  Context {K : Type} {IK : InclusiveInterval I K} {IL : IntervalLaws I K}.
  Context {V : Type}.
  Notation entry := (K * V)%type.
  Implicit Types (m : NoditMap K V).

  Lemma insert_each_extend (l : list entry) m m' : extend_strict l m = Val (Ok m') -> insert_each l m = Some m'.
  Proof.
    revert m. induction l as [|[k v] l IH]; intros m; cbn [extend_strict insert_each]; [congruence|].
    destruct (insert_strict k v m) as [m1 [[u|e]|]]; [apply IH|discriminate|discriminate].
  Qed.

  (** ** serde *)
  Lemma visit_seq_app (l : list entry) es m :
    visit_seq (map Some l ++ es) m =
    match extend_strict l m with
    | Val (Ok m') => visit_seq es m'
    | Val (Err _) => Val (Err DeOverlap)
    | Panic => Panic
    end.
  Proof.
    revert m. induction l as [|[k v] l IH]; intros m; cbn [map app visit_seq extend_strict]; [reflexivity|].
    destruct (insert_strict k v m) as [m1 [[u|e]|]]; [apply IH|reflexivity|reflexivity].
  Qed.
  Lemma elements_cases (es : list (option entry)) :
    (exists l, es = map Some l) \/ (exists l es', es = map Some l ++ None :: es').
  Proof.
    induction es as [|[e|] es IH].
    - left. exists []. reflexivity.
    - destruct IH as [(l & ->)|(l & es' & ->)]; [left; exists (e :: l)|right; exists (e :: l), es']; reflexivity.
    - right. exists [], es. reflexivity.
  Qed.
  Lemma map_Some_inj (l l' : list entry) : map Some l = map Some l' -> l = l'.
  Proof.
    revert l'. induction l as [|a l IH]; intros [|b l']; cbn; intros E; try discriminate; [reflexivity|].
    injection E as -> E. f_equal. apply IH, E.
  Qed.
  Lemma map_Some_app_inv (l : list entry) l1 x es : map Some l = map Some l1 ++ x :: es ->
    exists e l2, x = Some e /\ l = l1 ++ e :: l2.
  Proof.
    revert l. induction l1 as [|a l1 IH]; intros [|b l] E; cbn in E; try discriminate.
    - injection E as <- _. exists b, l. auto.
    - injection E as -> E. destruct (IH l E) as (e & l2 & -> & ->). exists e, l2. auto.
  Qed.
  Lemma map_Some_None_inv (l : list entry) es' l1 x es : map Some l ++ None :: es' = map Some l1 ++ Some x :: es ->
    exists l2, l = l1 ++ x :: l2.
  Proof.
    revert l. induction l1 as [|a l1 IH]; intros [|b l] E; cbn in E; try discriminate.
    - injection E as <- _. exists l. auto.
    - injection E as -> E. destruct (IH l E) as (l2 & ->). exists l2. auto.
  Qed.
  Lemma deserialize_all (l : list entry) : deserialize (map Some l) =
    match from_iter_strict l with
    | Val (Ok m') => Val (Ok m')
    | Val (Err _) => Val (Err DeOverlap)
    | Panic => Panic
    end.
  Proof.
    unfold deserialize, from_iter_strict. rewrite <- (app_nil_r (map Some l)), visit_seq_app. reflexivity.
  Qed.
  Lemma deserialize_broken (l : list entry) es : deserialize (map Some l ++ None :: es) =
    match from_iter_strict l with
    | Val (Ok m') => Val (Err DeElement)
    | Val (Err _) => Val (Err DeOverlap)
    | Panic => Panic
    end.
  Proof. unfold deserialize, from_iter_strict. rewrite visit_seq_app. reflexivity. Qed.

  Lemma deserialize_Ok (es : list (option entry)) m : deserialize es = Val (Ok m) <->
    exists l, es = map Some l /\ disjoint_intervals (map fst l) /\ Permutation l m /\ ascending (map fst m).
  Proof.
    split.
    - intros E. destruct (elements_cases es) as [(l & ->)|(l & es' & ->)].
      + rewrite deserialize_all in E. destruct (from_iter_strict l) as [[m'|e]|] eqn:EF; try discriminate.
        injection E as ->. exists l. split; [reflexivity|]. split; [apply from_iter_strict_Ok; eauto|].
        destruct (from_iter_strict_entries _ _ EF) as [W P]. split; [exact P|]. apply ascending_WF, W.
      + rewrite deserialize_broken in E. destruct (from_iter_strict l) as [[m'|e]|]; discriminate.
    - intros (l & -> & HL & P & Ha). rewrite deserialize_all. destruct (loadable_ok l HL) as (m' & E & W & P').
      rewrite E. do 2 f_equal. apply WF_perm_eq.
      + exact W.
      + apply ascending_WF. split; [exact Ha|]. eapply Permutation_Forall; [apply Permutation_map, P|apply HL].
      + intros e. assert (Q : Permutation m' m) by exact (perm_trans (Permutation_sym P') P).
        split; apply Permutation_in; [exact Q|apply Permutation_sym, Q].
  Qed.
  Lemma deserialize_Panic (es : list (option entry)) : deserialize es = Panic <->
    exists l k v es', es = map Some l ++ Some (k, v) :: es' /\ disjoint_intervals (map fst l) /\ ~ valid k.
  Proof.
    split.
    - intros E.
      assert (X : exists l es', es = map Some l ++ es' /\ from_iter_strict l = Panic).
      { destruct (elements_cases es) as [(l & ->)|(l & es' & ->)].
        - exists l, []. rewrite app_nil_r. split; [reflexivity|]. rewrite deserialize_all in E.
          destruct (from_iter_strict l) as [[m'|e]|]; congruence.
        - exists l, (None :: es'). split; [reflexivity|]. rewrite deserialize_broken in E.
          destruct (from_iter_strict l) as [[m'|e]|]; congruence. }
      destruct X as (l & es' & -> & EP). apply from_iter_strict_Panic in EP.
      destruct EP as (l1 & k & v & l2 & -> & HL & Hk). exists l1, k, v, (map Some l2 ++ es').
      rewrite map_app, <- app_assoc. auto.
    - intros (l & k & v & es' & -> & HL & Hk).
      unfold deserialize. rewrite visit_seq_app. destruct (loadable_ok l HL) as (m & E & W & P).
      unfold from_iter_strict in E. rewrite E. cbn [visit_seq]. rewrite insert_strict_invalid by exact Hk. reflexivity.
  Qed.
  Lemma deserialize_rejects (es : list (option entry)) : (forall k v, In (Some (k, v)) es -> valid k) ->
    ~ (exists l, es = map Some l /\ disjoint_intervals (map fst l)) ->
    exists e, deserialize es = Val (Err e).
  Proof.
    intros HV Hn. destruct (deserialize es) as [[m|e]|] eqn:E.
    - exfalso. apply deserialize_Ok in E. destruct E as (l & -> & HL & _). apply Hn. eauto.
    - eauto.
    - exfalso. apply deserialize_Panic in E. destruct E as (l & k & v & es' & -> & _ & Hk). apply Hk.
      apply (HV k v). apply in_app_iff. right. left. reflexivity.
  Qed.

  (** ** Tiling *)
  Lemma ascending_disjoint (l : list K) : ascending l -> ForallOrdPairs (fun a b => ~ overlap a b) l.
  Proof.
    induction 1 as [|a l Hs IH Ha]; constructor; [|exact IH].
    eapply Forall_impl; [|exact Ha]. cbn. intros b Hb (p & P1 & P2). specialize (Hb p p P1 P2).
    apply plt_rk in Hb. lia.
  Qed.
  Lemma tiling {FI : FromInvalid I K} {Q} {IQ : InclusiveInterval I Q} m (q : Q) : WF m -> valid q ->
    exists ol gl, overlapping m q = Val ol /\ gaps_trimmed m q = Val gl /\
      disjoint_intervals (map fst ol ++ gl) /\
      (forall p, covers q p -> exists j, In j (map fst ol ++ gl) /\ covers j p) /\
      (forall j, In j (map fst ol) -> overlap j q) /\
      (forall j p, In j gl -> covers j p -> covers q p).
  Proof.
    intros W Vq. destruct (overlapping_spec m q W Vq) as (ol & Eo & Ho).
    destruct (gaps_trimmed_spec m q W Vq (quiet_at_FI m q)) as (gl & Eg & (Ga & G1 & G2)).
    destruct (gaps_trimmed_points m q W Vq (quiet_at_FI m q)) as (gl' & Eg' & Gp). rewrite Eg in Eg'. injection Eg' as <-.
    exists ol, gl. split; [exact Eo|]. split; [exact Eg|].
    assert (Wi : forall k v, In (k, v) ol -> In (k, v) m /\ overlap k q) by (intros k v; apply (sub_in _ _ _ Ho (k, v))).
    split; [|split; [|split]].
    - split.
      + apply Forall_app. split; apply Forall_forall; [|intros g Hg; apply (G1 g Hg)].
        intros k Hk. apply in_map_iff in Hk. destruct Hk as ([k' v] & E & Hin). cbn in E. subst k'.
        destruct (Wi k v Hin) as [_ (p & P1 & _)]. exists p. exact P1.
      + apply FOP_app. split; [|split].
        * assert (X : ForallOrdPairs (fun a b : K => ~ overlap a b) (map fst m)).
          { apply ascending_disjoint. apply ascending_WF, W. }
          clear - Ho X. revert X. induction Ho as [|e l l' He Hs IH|e l l' He Hs IH]; cbn [map]; intros X; [constructor| |].
          -- inversion X as [|? ? Ha X']; subst. constructor; [|apply IH, X'].
             rewrite Forall_forall in *. intros k Hk. apply Ha. apply in_map_iff in Hk. destruct Hk as (e' & <- & Hin).
             apply in_map. apply (sub_in _ _ _ Hs), Hin.
          -- inversion X; subst. apply IH. assumption.
        * apply ascending_disjoint, Ga.
        * intros k g Hk Hg (p & P1 & P2). apply in_map_iff in Hk. destruct Hk as ([k' v] & E & Hin). cbn in E. subst k'.
          destruct (G1 g Hg) as [(_ & Gu & _) _]. destruct (Gu p P2) as [Hn _]. apply Hn.
          exists k, v. split; [apply (Wi k v Hin)|exact P1].
    - intros p Hp. destruct (covered_dec m p W) as [(k & v & Hin & Hk)|Hn].
      + exists k. split; [|exact Hk]. apply in_app_iff. left. apply in_map_iff. exists (k, v). split; [reflexivity|].
        apply (sub_in _ _ _ Ho (k, v)). split; [exact Hin|]. exists p. auto.
      + destruct (proj1 (Gp p Hp) Hn) as (t & Ht & Hc). exists t. rewrite in_app_iff. auto.
    - intros k Hk. apply in_map_iff in Hk. destruct Hk as ([k' v] & E & Hin). cbn in E. subst k'. apply (Wi k v Hin).
    - intros g p Hg Hp. destruct (G1 g Hg) as [(_ & Gu & _) _]. apply (Gu p Hp).
  Qed.
End More2.
