(** * TraceFacts: the states a NoditMap call passes through. *)
From Coq Require Import List ZArith Bool Lia ZifyBool.
From Verif Require Import Base BTree UtilsModel IntervalModel NoditModel NoditOps CrashModel GqditModel GqditOps TraceModel Spec TraceSpec
  PointFacts IntervalFacts ListFacts NoditFacts NoditQueries NoditGaps NoditMutations NoditMerges NoditInv NoditMore CrashFacts CrashProofs.
Import ListNotations.
Open Scope Z_scope.

(** ** Paths *)
Inductive path {S} (R : S -> S -> Prop) : list S -> S -> S -> Prop :=
| path_one x : path R [x] x x
| path_step x y l z : R x y -> path R l y z -> path R (x :: l) x z.

Section Path.
  Context {S : Type} (R : S -> S -> Prop).
  Lemma path_app l1 l2 x y y' z : path R l1 x y -> R y y' -> path R l2 y' z -> path R (l1 ++ l2) x z.
  Proof.
    intros P Y P2. induction P as [x|x u l z' Hu P IH]; cbn; [econstructor; eauto|].
    econstructor; [exact Hu|]. apply IH, Y.
  Qed.
  Lemma path_head l x z : path R l x z -> exists r, l = x :: r.
  Proof. intros []; eauto. Qed.
  Lemma path_last l x z d : path R l x z -> last l d = z.
  Proof.
    intros P. induction P as [x|x y l z Hu P IH]; [reflexivity|]. destruct (path_head _ _ _ P) as (r & ->). exact IH.
  Qed.
  Lemma path_adj l x z : path R l x z -> forall a s s' b, l = a ++ s :: s' :: b -> R s s'.
  Proof.
    intros P. induction P as [x|x y l z Hu P IH]; intros a s s' b E.
    - destruct a as [|? [|? a]]; discriminate.
    - destruct a as [|u a]; cbn in E.
      + injection E as <- ->. destruct (path_head _ _ _ P) as (r & E). injection E as -> _. exact Hu.
      + injection E as _ E. apply (IH a s s' b E).
  Qed.
  Lemma path_in_last l x z : path R l x z -> In z l.
  Proof. intros P. induction P; [left; reflexivity|right; assumption]. Qed.
  Lemma path_in_head l x z : path R l x z -> In x l.
  Proof. intros []; left; reflexivity. Qed.
End Path.

Lemma one_refl {T} (l : list T) : one_entry l l.
Proof. left. reflexivity. Qed.
Lemma one_less {T} (A : list T) e B : one_entry (A ++ e :: B) (A ++ B).
Proof. right. exists A, e, B. auto. Qed.
Lemma one_more {T} (A : list T) e B : one_entry (A ++ B) (A ++ e :: B).
Proof. right. exists A, e, B. auto. Qed.
Lemma one_opt {T} (A : list T) o B : one_entry (A ++ B) (A ++ opt_list o ++ B).
Proof. destruct o; cbn; [apply one_more|apply one_refl]. Qed.
Lemma two_path {S} (R : S -> S -> Prop) x y : R x y -> path R [x; y] x y.
Proof. intros. econstructor; [eassumption|constructor]. Qed.

(** ** Dropping entries *)
Inductive drops {T} (P : T -> Prop) : list T -> list T -> Prop :=
| drops_nil : drops P [] []
| drops_keep e l l' : drops P l l' -> drops P (e :: l) (e :: l')
| drops_skip e l l' : P e -> drops P l l' -> drops P (e :: l) l'.
Section Drops.
  Context {T : Type}.
  Implicit Types (P Q : T -> Prop) (l : list T).
  Lemma drops_refl P l : drops P l l.
  Proof. induction l; constructor; assumption. Qed.
  Lemma drops_trans P l1 l2 l3 : drops P l1 l2 -> drops P l2 l3 -> drops P l1 l3.
  Proof.
    intros D. revert l3. induction D as [|e l l' D IH|e l l' He D IH]; intros l3 E; [exact E| |].
    - inversion E; subst; constructor; auto.
    - constructor; auto.
  Qed.
  Lemma drops_app P l1 l2 l1' l2' : drops P l1 l1' -> drops P l2 l2' -> drops P (l1 ++ l2) (l1' ++ l2').
  Proof. intros D E. induction D; cbn; [exact E|constructor..]; assumption. Qed.
  Lemma drops_all P l : Forall P l -> drops P l [].
  Proof. intros F. induction F; constructor; assumption. Qed.
  Lemma drops_old P l l' e : drops P l l' -> In e l' -> In e l.
  Proof. intros D. induction D; cbn; [auto|intros [X|X]; auto|auto]. Qed.
  Lemma drops_kept P l l' e : drops P l l' -> In e l -> ~ P e -> In e l'.
  Proof. intros D X N. induction D; cbn in *; [auto|destruct X; auto|]. destruct X as [<-|X]; [contradiction|auto]. Qed.
  Lemma drops_impl P Q l l' : (forall e, In e l -> P e -> Q e) -> drops P l l' -> drops Q l l'.
  Proof.
    intros F D. induction D as [|e l l' D IH|e l l' He D IH]; [constructor| |].
    - apply drops_keep, IH. intros x Hx. apply F. right. exact Hx.
    - apply drops_skip; [apply F; [left; reflexivity|exact He]|]. apply IH. intros x Hx. apply F. right. exact Hx.
  Qed.
End Drops.

Section Structural.
  Context {K V : Type}.
  Implicit Types (m : list (K * V)).
  Lemma seek_app' (c : K -> comparison) m a b : seek c m = (a, b) -> m = a ++ b.
  Proof.
    revert a b. induction m as [|[k v] m IH]; intros a b; cbn; [intros [= <- <-]; reflexivity|].
    destruct (c k); [intros [= <- <-]; reflexivity..|]. destruct (seek c m) as [a' b'].
    intros [= <- <-]. cbn. f_equal. apply IH. reflexivity.
  Qed.
  Lemma remove_cases (c : K -> comparison) m :
    one_entry m (fst (remove c m)) /\ drops (fun e => c (fst e) = Eq) m (fst (remove c m)) /\
    drops (fun e => get_key_value c m = Some e) m (fst (remove c m)).
  Proof.
    unfold remove, get_key_value. destruct (seek c m) as [a b] eqn:E. apply seek_app' in E. subst m. cbn [snd].
    destruct b as [|[k v] b]; [cbn; split; [apply one_refl|split; apply drops_refl]|].
    destruct (c k) eqn:Ec; cbn [fst]; [|split; [apply one_refl|split; apply drops_refl]..].
    split; [apply one_less|]. split; (apply drops_app; [apply drops_refl|]); apply drops_skip; auto using drops_refl.
  Qed.
  Lemma insert_cases (k : K) (v : V) c m :
    one_entry m (fst (insert k v c m)) \/ map fst (fst (insert k v c m)) = map fst m.
  Proof.
    unfold insert. destruct (seek _ m) as [a b] eqn:E. apply seek_app' in E. subst m.
    destruct b as [|[k' v'] b]; [left; cbn; apply one_more|].
    destruct (c k' k); cbn [fst]; [right|left; apply one_more..]. rewrite !map_app. reflexivity.
  Qed.
End Structural.

Section Facts.
  Context {I : Type} `{PL : PointLaws I}.
  Context {K : Type} {IK : InclusiveInterval I K} {IL : IntervalLaws I K}.
  Context {V : Type}.
  Notation entry := (K * V)%type.
  Implicit Types (m s A B M : NoditMap K V).

  Lemma drops_WF (P : entry -> Prop) m m' : drops P m m' -> WF m -> WF m'.
  Proof.
    intros D. induction D as [|e l l' D IH|e l l' He D IH]; intros W; [exact W| |].
    - apply WF_cons in W. destruct W as (Ve & W & Hl). apply WF_cons. split; [exact Ve|]. split; [apply IH, W|].
      rewrite Forall_forall in *. intros x Hx. apply Hl, (drops_old _ _ _ _ D Hx).
    - apply WF_cons in W. apply IH, W.
  Qed.
  Lemma drops_maps (P : entry -> Prop) m m' p v : drops P m m' -> maps_to m' p v -> maps_to m p v.
  Proof. intros D (k & Hi & Hc). exists k. split; [apply (drops_old _ _ _ _ D Hi)|exact Hc]. Qed.

  Section Q.
    Context {Q : Type} {IQ : InclusiveInterval I Q}.
    Implicit Type q : Q.

    (** ** remove_overlapping *)
    Lemma remove_loop_t_ok q pre M B acc :
      lo q <= hi q -> Forall okv (M ++ B) -> Forall (meets (lo q) (hi q)) M -> Forall (right_of (hi q)) B ->
      path one_entry (remove_overlapping_loop_t q pre (M ++ B)) (pre ++ M ++ B) (fst (remove_overlapping_loop q pre (M ++ B) acc)) /\
      forall s, In s (remove_overlapping_loop_t q pre (M ++ B)) -> exists M1 M2, M = M1 ++ M2 /\ s = pre ++ M2 ++ B.
    Proof.
      intros Vq HV HM HB. revert acc. induction M as [|[k v] M IH]; intros acc.
      - cbn [app]. assert (E : remove_overlapping_loop_t q pre B = [pre ++ B] /\ fst (remove_overlapping_loop q pre B acc) = pre ++ B).
        { destruct B as [|[k v] B]; [split; reflexivity|]. cbn [remove_overlapping_loop_t remove_overlapping_loop].
          inversion HB as [|? ? Hk _]; subst. inversion HV as [|? ? Vk _]; subst. unfold right_of, okv, elo, ehi in *. cbn in *.
          rewrite overlaps_true by lia. replace (_ && _) with false by lia. split; reflexivity. }
        destruct E as [-> ->]. split; [constructor|]. intros s [<-|[]]. exists [], []. auto.
      - cbn [app remove_overlapping_loop_t remove_overlapping_loop]. inversion HM as [|? ? Hk HM']; subst.
        inversion HV as [|? ? Vk HV']; subst. unfold meets, okv, elo, ehi in Hk, Vk. cbn [fst] in Hk, Vk.
        rewrite overlaps_true by lia. replace (_ && _) with true by lia.
        destruct (IH HV' HM' (acc ++ [(k, v)])) as [P F]. split.
        + econstructor; [|exact P]. apply one_less.
        + intros s [<-|Hs]; [exists [], ((k, v) :: M); auto|]. destruct (F s Hs) as (M1 & M2 & -> & ->).
          exists ((k, v) :: M1), M2. auto.
    Qed.
    Lemma remove_t_ok q m : WF m -> valid q ->
      path one_entry (remove_overlapping_t q m) m (fst (remove_overlapping q m)) /\
      forall s, In s (remove_overlapping_t q m) -> drops (fun e => overlap (fst e) q) m s.
    Proof.
      intros W Vq. destruct (split_overlap m q W Vq) as (A & M & B & -> & HA & HM & HB & HS & _).
      unfold remove_overlapping_t, remove_overlapping. rewrite (iip_valid _ Vq). apply valid_rk in Vq as Vq'. unfold lower_bound.
      pose proof W as W'. apply WF_app in W'. destruct W' as (_ & W' & _). destruct W' as [_ V'].
      rewrite seek_split; [|exact W|exact HA|].
      - cbn [fst snd]. destruct (remove_loop_t_ok q A M B [] Vq' V' HM HB) as [P F].
        split; [econstructor; [apply one_refl|exact P]|].
        intros s [<-|Hs]; [apply drops_refl|]. destruct (F s Hs) as (M1 & M2 & -> & ->).
        apply drops_app; [apply drops_refl|]. rewrite <- app_assoc. change (M2 ++ B) with ([] ++ M2 ++ B) at 2.
        apply drops_app; [|apply drops_refl]. apply drops_all. rewrite Forall_forall. intros e He.
        rewrite Forall_forall in HM. assert (Hm : In e (M1 ++ M2)) by (apply in_app_iff; auto).
        assert (Ve : okv e) by (rewrite Forall_forall in V'; apply V', in_app_iff; auto).
        apply overlap_meets; [exact Ve|exact Vq'|apply HM, Hm].
      - rewrite Forall_app in *. destruct V' as [_ VB].
        split; rewrite Forall_forall in *; intros x Hx.
        + specialize (HM x Hx). unfold meets, lo in *. lia.
        + specialize (HB x Hx). specialize (VB x Hx). unfold right_of, okv, lo, hi in *. lia.
    Qed.

    (** ** cut *)
    Lemma cut_one q (k : K) (v : V) : lo q <= hi q -> okv (k, v) -> meets (lo q) (hi q) (k, v) ->
      exists r i (b a : option entry), cut_interval k q = Val r /\ inside_cut r = Some i /\
        (forall pre, insert_piece (before_cut r) v pre = pre ++ opt_list b) /\
        (forall pre, insert_piece (after_cut r) v pre = pre ++ opt_list a) /\
        cut_entry q (k, v) (opt_list b ++ opt_list a) (ifrom i, v).
    Proof.
      intros Vq Vk Hk. unfold meets, okv, elo, ehi in Hk, Vk. cbn [fst] in Hk, Vk.
      destruct (cut_interval_ok k q) as (r & Er & Hb & (i & Ei & Hil & Hih) & Ha); try lia.
      exists r, i, (option_map (fun x => (ifrom x, v)) (before_cut r)), (option_map (fun x => (ifrom x, v)) (after_cut r)).
      split; [exact Er|]. split; [exact Ei|].
      split; [intros pre; unfold insert_piece; destruct (before_cut r); cbn; rewrite ?app_nil_r; reflexivity|].
      split; [intros pre; unfold insert_piece; destruct (after_cut r); cbn; rewrite ?app_nil_r; reflexivity|].
      constructor; unfold elo, ehi; cbn [fst snd].
      - eexists _, _. split; [reflexivity|]. split.
        + clear Ha. destruct (before_cut r) as [x|]; cbn; [|lia].
          destruct Hb as (? & ? & ?). rewrite from_lo, from_hi by lia. auto with zarith.
        + clear Hb. destruct (after_cut r) as [x|]; cbn; [|lia].
          destruct Ha as (? & ? & ?). rewrite from_lo, from_hi by lia. auto with zarith.
      - rewrite from_lo; lia.
      - rewrite from_hi; lia.
      - reflexivity.
      - constructor; [apply built_ifrom; lia|]. apply Forall_app. split.
        + clear Ha. destruct (before_cut r) as [x|]; cbn; [|constructor].
          constructor; [|constructor]. apply built_ifrom. lia.
        + clear Hb. destruct (after_cut r) as [x|]; cbn; [|constructor].
          constructor; [|constructor]. apply built_ifrom. lia.
    Qed.

    Lemma cut_loop_t_ok q pre M B acc :
      lo q <= hi q -> Forall okv (M ++ B) -> Forall (meets (lo q) (hi q)) M -> Forall (right_of (hi q)) B ->
      path one_entry (cut_loop_t q pre (M ++ B)) (pre ++ M ++ B) (fst (cut_loop q pre (M ++ B) acc)) /\
      forall s, In s (cut_loop_t q pre (M ++ B)) -> s = pre ++ M ++ B \/ stopped q M s pre B.
    Proof.
      intros Vq HV HM HB. revert pre acc. induction M as [|[k v] M IH]; intros pre acc.
      - cbn [app]. assert (E : cut_loop_t q pre B = [pre ++ B] /\ fst (cut_loop q pre B acc) = pre ++ B).
        { destruct B as [|[k v] B]; [split; reflexivity|]. cbn [cut_loop_t cut_loop].
          inversion HB as [|? ? Hk _]; subst. inversion HV as [|? ? Vk _]; subst. unfold right_of, okv, elo, ehi in *. cbn in *.
          rewrite overlaps_true by lia. replace (_ && _) with false by lia. split; reflexivity. }
        destruct E as [-> ->]. split; [constructor|]. intros s [<-|[]]. auto.
      - cbn [app cut_loop_t cut_loop]. inversion HM as [|? ? Hk HM']; subst.
        inversion HV as [|? ? Vk HV']; subst.
        destruct (cut_one q k v Vq Vk Hk) as (r & i & b & a & Er & Ei & Eb & Ea & CE).
        unfold meets, okv, elo, ehi in Hk, Vk. cbn [fst] in Hk, Vk.
        rewrite overlaps_true by lia. replace (_ && _) with true by lia. rewrite Er, Ei. cbv zeta. rewrite !Eb, !Ea.
        destruct (IH HV' HM' ((pre ++ opt_list b) ++ opt_list a) (acc ++ [(ifrom i, v)])) as [P F]. split.
        + eapply path_step; [|eapply path_step; [|eapply path_step; [|eapply path_step; [|exact P]]]].
          * apply one_less.
          * rewrite <- (app_assoc pre (opt_list b)). apply one_opt.
          * rewrite <- (app_assoc (pre ++ opt_list b)). apply one_opt.
          * apply one_refl.
        + assert (Here : forall s ps1 ps2, opt_list b ++ opt_list a = ps1 ++ ps2 -> s = pre ++ ps1 ++ M ++ B ->
                  stopped q ((k, v) :: M) s pre B).
          { intros s ps1 ps2 Ep ->. exists [], (k, v), M, [], [], ps1, ps2, (ifrom i, v).
            split; [reflexivity|]. split; [constructor|]. split; [rewrite <- Ep; exact CE|reflexivity]. }
          assert (All : stopped q ((k, v) :: M) (((pre ++ opt_list b) ++ opt_list a) ++ M ++ B) pre B).
          { apply (Here _ (opt_list b ++ opt_list a) []); [rewrite app_nil_r; reflexivity|]. rewrite <- !app_assoc. reflexivity. }
          intros s [<-|[<-|[<-|[<-|Hs]]]]; [left; reflexivity|right..].
          * apply (Here _ [] (opt_list b ++ opt_list a)); reflexivity.
          * apply (Here _ (opt_list b) (opt_list a)); [reflexivity|]. rewrite <- !app_assoc. reflexivity.
          * exact All.
          * destruct (F s Hs) as [->|(M1 & e & M2 & out1 & ins1 & ps1 & ps2 & i' & -> & HC & He & ->)]; [exact All|].
            exists ((k, v) :: M1), e, M2, ((opt_list b ++ opt_list a) ++ out1), ((ifrom i, v) :: ins1), ps1, ps2, i'.
            split; [reflexivity|]. split; [constructor; assumption|]. split; [exact He|].
            rewrite <- !app_assoc. reflexivity.
    Qed.
    Lemma cut_t_ok q m : WF m -> valid q ->
      path one_entry (cut_t q m) m (fst (cut q m)) /\
      forall s, In s (cut_t q m) -> s = m \/ interrupted_cut q m s.
    Proof.
      intros W Vq. destruct (split_overlap m q W Vq) as (A & M & B & -> & HA & HM & HB & HS & _).
      unfold cut_t, cut. rewrite (iip_valid _ Vq). apply valid_rk in Vq as Vq'. unfold lower_bound.
      pose proof W as W'. apply WF_app in W'. destruct W' as (_ & W' & _). destruct W' as [_ V'].
      rewrite seek_split; [|exact W|exact HA|].
      - cbn [fst snd]. destruct (cut_loop_t_ok q A M B [] Vq' V' HM HB) as [P F].
        split; [econstructor; [apply one_refl|exact P]|].
        intros s [<-|Hs]; [auto|]. destruct (F s Hs) as [->|S]; [auto|right]. apply stopped_interrupted; assumption.
      - rewrite Forall_app in *. destruct V' as [_ VB].
        split; rewrite Forall_forall in *; intros x Hx.
        + specialize (HM x Hx). unfold meets, lo in *. lia.
        + specialize (HB x Hx). specialize (VB x Hx). unfold right_of, okv, lo, hi in *. lia.
    Qed.
    Lemma cut_t_invalid q m : ~ valid q -> cut_t q m = [m] /\ fst (cut q m) = m.
    Proof. intros N. unfold cut_t, cut. rewrite (iip_invalid _ N). auto. Qed.
    Lemma remove_t_invalid q m : ~ valid q -> remove_overlapping_t q m = [m] /\ fst (remove_overlapping q m) = m.
    Proof. intros N. unfold remove_overlapping_t, remove_overlapping. rewrite (iip_invalid _ N). auto. Qed.
  End Q.

  (** ** The merging insertions *)
  Lemma with_comps_t_ok (k : K) (v : V) gs ge rs re m (P : entry -> Prop)
    (F := fst (insert_merge_with_comps k v gs ge rs re m)) (m1 := fst (remove_overlapping k m)) :
    WF m -> valid k -> (exists r, absorbs P k v m F r) ->
    (forall e, In e m -> overlap (fst e) k -> P e) ->
    (forall m', WF m' -> one_entry m' (rs m' v) /\ drops P m' (rs m' v)) ->
    (forall m', WF m' -> one_entry m' (re m' v) /\ drops P m' (re m' v)) ->
    path one_entry (insert_merge_with_comps_t k v gs ge rs re m) m F /\
    (forall s, In s (insert_merge_with_comps_t k v gs ge rs re m) -> s = F \/ drops P m s) /\
    In (rs m1 v) (insert_merge_with_comps_t k v gs ge rs re m) /\ In m1 (insert_merge_with_comps_t k v gs ge rs re m).
  Proof.
    intros W Vk (r & Hr & (l1 & l2 & _ & EF) & _) HP Hrs Hre.
    destruct (remove_t_ok k m W Vk) as [PR FR].
    destruct (remove_overlapping_spec m k W Vk) as (kept & rem & R & _ & S & _).
    assert (E1 : m1 = kept) by (unfold m1; rewrite R; reflexivity).
    assert (D1 : drops P m m1).
    { eapply drops_impl; [|apply FR, (path_in_last _ _ _ _ PR)]. exact HP. }
    assert (W1 : WF m1) by (apply (drops_WF _ _ _ D1 W)).
    destruct (Hrs m1 W1) as [O2 D2]. assert (W2 : WF (rs m1 v)) by (apply (drops_WF _ _ _ D2 W1)).
    destruct (Hre _ W2) as [O3 D3]. set (m3 := re (rs m1 v) v) in *.
    assert (EF' : exists r', F = insert_unchecked r' v m3).
    { eexists. unfold F. rewrite (merge_with_comps k v gs ge rs re m kept rem Vk R). cbn [fst]. unfold m3. rewrite E1. reflexivity. }
    assert (O4 : one_entry m3 F).
    { destruct EF' as (r' & EF'). unfold insert_unchecked in EF'.
      destruct (insert_cases r' v starts_comp m3) as [O|Em]; rewrite <- EF' in *; [exact O|exfalso].
      destruct Vk as (p & Hp).
      assert (In r (map fst m3)).
      { rewrite <- Em, EF, map_app. apply in_app_iff. right. left. reflexivity. }
      apply in_map_iff in H1. destruct H1 as ([r0 w] & Er & Hi). cbn in Er. subst r0.
      apply (drops_old _ _ _ _ D3), (drops_old _ _ _ _ D2) in Hi. rewrite E1 in Hi.
      apply (sub_in _ _ _ S) in Hi. destruct Hi as [_ N]. apply N. exists p. split; [|exact Hp]. apply Hr. auto. }
    unfold insert_merge_with_comps_t. rewrite (iip_valid _ Vk), R. fold F. rewrite <- E1. fold m3. cbv zeta. fold m3.
    split; [|split; [|split]].
    - econstructor; [apply one_refl|]. eapply path_app; [exact PR|fold m1; exact O2|].
      econstructor; [exact O3|]. econstructor; [exact O4|constructor].
    - intros s [<-|Hs]; [right; apply drops_refl|]. apply in_app_iff in Hs. destruct Hs as [Hs|[<-|[<-|[<-|[]]]]].
      + right. eapply drops_impl; [|apply FR, Hs]. exact HP.
      + right. eapply drops_trans; eassumption.
      + right. eapply drops_trans; [|exact D3]. eapply drops_trans; eassumption.
      + auto.
    - right. apply in_app_iff. right. left. reflexivity.
    - right. apply in_app_iff. left. apply (path_in_last _ _ _ _ PR).
  Qed.

  Lemma comp_ts_touch (k : K) m e : WF m -> valid k -> In e m -> touching_start_comp (istart k) (fst e) = Eq -> touch (fst e) k.
  Proof.
    intros W Vk Hi E. rewrite touching_start_comp_rk in E. apply Z.compare_eq in E. apply valid_rk in Vk.
    apply touch_entry; [apply (WF_okv m); assumption|exact Vk|]. left. unfold touches_left, ehi, lo, hi in *. lia.
  Qed.
  Lemma comp_te_touch (k : K) m e : WF m -> valid k -> In e m -> touching_end_comp (iend k) (fst e) = Eq -> touch (fst e) k.
  Proof.
    intros W Vk Hi E. rewrite touching_end_comp_rk in E. apply Z.compare_eq in E. apply valid_rk in Vk.
    apply touch_entry; [apply (WF_okv m); assumption|exact Vk|]. right. unfold touches_right, elo, lo, hi in *. lia.
  Qed.
  Lemma remove_touch (k : K) c m (P : entry -> Prop) : WF m ->
    (forall e, In e m -> c (fst e) = Eq -> P e) -> one_entry m (fst (remove c m)) /\ drops P m (fst (remove c m)).
  Proof.
    intros W HP. destruct (remove_cases c m) as (O & D & _). split; [exact O|]. eapply drops_impl; [|exact D]. exact HP.
  Qed.
  Lemma get_key_value_Some (c : K -> comparison) m e : get_key_value c m = Some e -> In e m /\ c (fst e) = Eq.
  Proof.
    unfold get_key_value. destruct (seek c m) as [a b] eqn:E. apply seek_app' in E. subst m. cbn [snd].
    destruct b as [|[k v] b]; [discriminate|]. destruct (c k) eqn:Ec; try discriminate. intros [= <-].
    split; [apply in_app_iff; right; left; reflexivity|exact Ec].
  Qed.
  Lemma remove_touch_eq veq c (v : V) m (P : entry -> Prop) : WF m ->
    (forall e, In e m -> c (fst e) = Eq -> veq (snd e) v = true -> P e) ->
    let m' := if is_some (get_if_equal veq c m v) then fst (remove c m) else m in
    one_entry m m' /\ drops P m m'.
  Proof.
    intros W HP. cbv zeta. unfold get_if_equal. destruct (get_key_value c m) as [[k w]|] eqn:G; [|split; [apply one_refl|apply drops_refl]].
    destruct (veq w v) eqn:Ev; cbn [is_some]; [|split; [apply one_refl|apply drops_refl]].
    destruct (remove_cases c m) as (O & _ & D). split; [exact O|]. eapply drops_impl; [|exact D].
    intros e Hi Ge. cbn in Ge. rewrite G in Ge. injection Ge as <-. apply get_key_value_Some in G. apply HP; [exact Hi|apply G|exact Ev].
  Qed.

  (** ** Every call *)
  (** What holds of a state [s] inside a call [o] on [m]. *)
  Definition mid (o : op I K V) m s : Prop :=
    WF s /\ (forall p v, maps_to s p v -> maps_to m p v \/ maps_to (step m o) p v) /\
    forall e, In e m -> ~ about o e -> In e s.
  Lemma mid_first o m : WF m -> mid o m m.
  Proof. intros W. split; [exact W|]. split; auto. Qed.
  Lemma mid_drops o m s (P : entry -> Prop) : WF m -> (forall e, In e m -> P e -> about o e) -> drops P m s -> mid o m s.
  Proof.
    intros W HP D. split; [apply (drops_WF _ _ _ D W)|]. split; [intros p v M; left; apply (drops_maps _ _ _ _ _ D M)|].
    intros e Hi N. apply (drops_kept _ _ _ _ D Hi). intros X. apply N, HP; assumption.
  Qed.
  Lemma mid_last o m : WF m -> (forall e, In e m -> ~ about o e -> In e (step m o)) -> mid o m (step m o).
  Proof. intros W HK. split; [apply step_WF, W|]. split; [auto|exact HK]. Qed.
  Lemma absorbs_keeps (P : entry -> Prop) (k : K) v m F r e : absorbs P k v m F r -> In e m -> ~ P e -> In e F.
  Proof.
    intros (_ & (l1 & l2 & S & ->) & _) Hi N. assert (X : In e (l1 ++ l2)) by (apply (sub_in _ _ _ S); auto).
    apply in_app_iff in X. apply in_app_iff. destruct X; cbn; auto.
  Qed.
  Lemma mid_cut {Q} {IQ : InclusiveInterval I Q} (q : Q) o m s : WF m -> interrupted_cut q m s ->
    (forall e, overlap (fst e) q -> about o e) -> mid o m s.
  Proof.
    intros W X HA. split; [apply X|]. split.
    - intros p v M. left. destruct (interrupted_stopped q m s W X) as (_ & k0 & v0 & S).
      apply (stopped_old _ _ _ _ _ _ _ S M).
    - intros [k v] Hi N. apply (proj1 (proj2 X)); [exact Hi|]. intros Ho. apply N, HA, Ho.
  Qed.

  (** The call passes through the states of the trace. *)
  Definition traced (o : op I K V) m (t : list (NoditMap K V)) : Prop :=
    path one_entry t m (step m o) /\ forall s, In s t -> mid o m s.
  Lemma traced_cons o m t : WF m -> traced o m t -> traced o m (m :: t).
  Proof.
    intros W [P F]. split; [econstructor; [apply one_refl|exact P]|]. intros s [<-|Hs]; [apply mid_first, W|apply F, Hs].
  Qed.
  Lemma traced_same o m : WF m -> step m o = m -> traced o m [m].
  Proof. intros W E. split; [rewrite E; constructor|]. intros s [<-|[]]. apply mid_first, W. Qed.

  Lemma comps_traced o (k : K) (v : V) gs ge rs re m (P : entry -> Prop) r :
    WF m -> valid k -> step m o = fst (insert_merge_with_comps k v gs ge rs re m) ->
    absorbs P k v m (step m o) r ->
    (forall e, In e m -> overlap (fst e) k -> P e) ->
    (forall m', WF m' -> one_entry m' (rs m' v) /\ drops P m' (rs m' v)) ->
    (forall m', WF m' -> one_entry m' (re m' v) /\ drops P m' (re m' v)) ->
    (forall e, P e -> about o e) ->
    traced o m (insert_merge_with_comps_t k v gs ge rs re m).
  Proof.
    intros W Vk E HA HP Hrs Hre HO. pose proof HA as HA'. rewrite E in HA'.
    destruct (with_comps_t_ok k v gs ge rs re m P W Vk (ex_intro _ r HA') HP Hrs Hre) as (PT & F & _).
    rewrite <- E in *. split; [exact PT|]. intros s Hs. destruct (F s Hs) as [->|D].
    - apply mid_last; [exact W|]. intros e Hi N. apply (absorbs_keeps _ _ _ _ _ _ _ HA Hi). intros X. apply N, HO, X.
    - apply (mid_drops _ _ _ P W); [|exact D]. auto.
  Qed.

  Lemma fst_let_Ok (X : NoditMap K V * outcome K) : fst (let (m, r) := X in (m, omap (Ok (E := V)) r)) = fst X.
  Proof. destruct X. reflexivity. Qed.

  Lemma traced_touching k v m : WF m -> let o := OpInsertMergeTouching k v in traced o m (trace m o).
  Proof.
    intros W. cbn [trace]. unfold if_free_t.
    destruct (valid_dec k) as [Vk|Nk]; [rewrite (iip_valid _ Vk)|rewrite (iip_invalid _ Nk)].
    2:{ apply traced_same; [exact W|]. cbn [step]. rewrite insert_merge_touching_invalid by exact Nk. reflexivity. }
    destruct (map_overlaps_spec m k W Vk) as (b & Eb & Hb). rewrite Eb. destruct b.
    { apply traced_same; [exact W|]. cbn [step]. rewrite (insert_merge_touching_refused m k v W Vk (proj1 Hb eq_refl)). reflexivity. }
    destruct (overlap_dec m k W Vk) as [Ho|Hn]; [apply Hb in Ho; discriminate|].
    destruct (insert_merge_touching_done m k v W Vk Hn) as (m' & r & E & _ & HA).
    apply traced_cons; [exact W|]. apply (comps_traced _ k v _ _ _ _ m (fun e => touch (fst e) k) r W Vk).
    - cbn [step]. unfold insert_merge_touching. rewrite (iip_valid _ Vk), Eb. apply fst_let_Ok.
    - cbn [step]. rewrite E. exact HA.
    - intros [k' v'] Hi Ho. contradiction (Hn k' v' Hi Ho).
    - intros m0 W0. apply (remove_touch k); [exact W0|]. intros e. apply comp_ts_touch; assumption.
    - intros m0 W0. apply (remove_touch k); [exact W0|]. intros e. apply comp_te_touch; assumption.
    - auto.
  Qed.
  Lemma traced_if_equal veq k v m : WF m -> let o := OpInsertMergeTouchingIfValuesEqual veq k v in traced o m (trace m o).
  Proof.
    intros W. cbn [trace]. unfold if_free_t.
    destruct (valid_dec k) as [Vk|Nk]; [rewrite (iip_valid _ Vk)|rewrite (iip_invalid _ Nk)].
    2:{ apply traced_same; [exact W|]. cbn [step]. rewrite insert_merge_touching_if_equal_invalid by exact Nk. reflexivity. }
    destruct (map_overlaps_spec m k W Vk) as (b & Eb & Hb). rewrite Eb. destruct b.
    { apply traced_same; [exact W|]. cbn [step].
      rewrite (insert_merge_touching_if_equal_refused veq m k v W Vk (proj1 Hb eq_refl)). reflexivity. }
    destruct (overlap_dec m k W Vk) as [Ho|Hn]; [apply Hb in Ho; discriminate|].
    destruct (insert_merge_touching_if_equal_done veq m k v W Vk Hn) as (m' & r & E & _ & HA).
    apply traced_cons; [exact W|].
    apply (comps_traced _ k v _ _ _ _ m (fun e => touch (fst e) k /\ veq (snd e) v = true) r W Vk).
    - cbn [step]. unfold insert_merge_touching_if_values_equal. rewrite (iip_valid _ Vk), Eb. apply fst_let_Ok.
    - cbn [step]. rewrite E. exact HA.
    - intros [k' v'] Hi Ho. contradiction (Hn k' v' Hi Ho).
    - intros m0 W0. apply remove_touch_eq; [exact W0|]. intros e Hi Ec Ev. split; [|exact Ev]. apply (comp_ts_touch k m0); assumption.
    - intros m0 W0. apply remove_touch_eq; [exact W0|]. intros e Hi Ec Ev. split; [|exact Ev]. apply (comp_te_touch k m0); assumption.
    - cbn. tauto.
  Qed.
  Lemma traced_overlapping k v m : WF m -> let o := OpInsertMergeOverlapping k v in traced o m (trace m o).
  Proof.
    intros W. cbn [trace]. destruct (valid_dec k) as [Vk|Nk].
    2:{ unfold insert_merge_with_comps_t. rewrite (iip_invalid _ Nk). apply traced_same; [exact W|]. cbn [step].
        rewrite insert_merge_overlapping_invalid by exact Nk. reflexivity. }
    destruct (insert_merge_overlapping_spec m k v W Vk) as (m' & r & E & _ & HA).
    apply (comps_traced _ k v _ _ _ _ m (fun e => overlap (fst e) k) r W Vk).
    - cbn [step]. unfold insert_merge_overlapping. rewrite (iip_valid _ Vk). reflexivity.
    - cbn [step]. rewrite E. exact HA.
    - auto.
    - intros m0 _. split; [apply one_refl|apply drops_refl].
    - intros m0 _. split; [apply one_refl|apply drops_refl].
    - auto.
  Qed.
  Lemma traced_tor k v m : WF m -> let o := OpInsertMergeTouchingOrOverlapping k v in traced o m (trace m o).
  Proof.
    intros W. cbn [trace]. destruct (valid_dec k) as [Vk|Nk].
    2:{ unfold insert_merge_with_comps_t. rewrite (iip_invalid _ Nk). apply traced_same; [exact W|]. cbn [step].
        rewrite insert_merge_tor_invalid by exact Nk. reflexivity. }
    destruct (insert_merge_touching_or_overlapping_spec m k v W Vk) as (m' & r & E & _ & HA).
    apply (comps_traced _ k v _ _ _ _ m (fun e => touch (fst e) k \/ overlap (fst e) k) r W Vk).
    - cbn [step]. unfold insert_merge_touching_or_overlapping. rewrite (iip_valid _ Vk). reflexivity.
    - cbn [step]. rewrite E. exact HA.
    - auto.
    - intros m0 W0. apply (remove_touch k); [exact W0|]. intros e Hi Ec. left. apply (comp_ts_touch k m0); assumption.
    - intros m0 W0. apply (remove_touch k); [exact W0|]. intros e Hi Ec. left. apply (comp_te_touch k m0); assumption.
    - auto.
  Qed.
  Lemma traced_remove {Q} {IQ : InclusiveInterval I Q} (q : Q) m : WF m -> let o := OpRemoveOverlapping q : op I K V in traced o m (trace m o).
  Proof.
    intros W. cbn [trace]. destruct (valid_dec q) as [Vq|Nq].
    2:{ destruct (remove_t_invalid q m Nq) as [-> E]. apply traced_same; [exact W|exact E]. }
    destruct (remove_t_ok q m W Vq) as [P F]. split; [exact P|]. intros s Hs. apply (mid_drops _ _ _ (fun e => overlap (fst e) q) W); [|apply F, Hs]. auto.
  Qed.
  Lemma traced_cut {Q} {IQ : InclusiveInterval I Q} (q : Q) m : WF m -> let o := OpCut q : op I K V in traced o m (trace m o).
  Proof.
    intros W. cbn [trace]. destruct (valid_dec q) as [Vq|Nq].
    2:{ destruct (cut_t_invalid q m Nq) as [-> E]. apply traced_same; [exact W|exact E]. }
    destruct (cut_t_ok q m W Vq) as [P F]. split; [exact P|]. intros s Hs. destruct (F s Hs) as [->|X]; [apply mid_first, W|].
    apply (mid_cut q); auto.
  Qed.
  Lemma traced_overwrite k v m : WF m -> let o := OpInsertOverwrite k v in traced o m (trace m o).
  Proof.
    intros W. cbn [trace]. destruct (valid_dec k) as [Vk|Nk].
    2:{ destruct (cut_t_invalid k m Nk) as [-> E].
        assert (E' : step m (OpInsertOverwrite k v) = m) by (cbn [step]; rewrite insert_overwrite_invalid by exact Nk; reflexivity).
        apply (traced_cons _ _ [_]); [exact W|]. rewrite E'. apply traced_same; assumption. }
    destruct (cut_t_ok k m W Vk) as [P F]. destruct (cut_full m k W Vk) as (m1 & out & Ec & W1 & _ & _ & _ & M1).
    rewrite Ec in P. cbn [fst] in P.
    assert (E : step m (OpInsertOverwrite k v) = insert_unchecked k v m1).
    { cbn [step]. unfold insert_overwrite. rewrite (iip_valid _ Vk), Ec. reflexivity. }
    assert (Free : forall k' v', In (k', v') m1 -> ~ overlap k' k).
    { intros k' v' Hi (p & P1 & P2). destruct (proj1 (M1 p v')) as [_ N]; [exists k'; auto|]. apply N, P2. }
    destruct (insert_strict_done m1 k v W1 Vk Free) as (l1 & l2 & E1 & E2 & _).
    assert (E3 : step m (OpInsertOverwrite k v) = l1 ++ (k, v) :: l2).
    { rewrite E. unfold insert_strict in E2. rewrite (iip_valid _ Vk) in E2.
      destruct (map_overlaps m1 k) as [[|]|]; [discriminate| |discriminate]. congruence. }
    split.
    - eapply path_app; [exact P| |constructor]. rewrite E3, E1. apply one_more.
    - intros s Hs. apply in_app_iff in Hs. destruct Hs as [Hs|[<-|[]]].
      + destruct (F s Hs) as [->|X]; [apply mid_first, W|]. apply (mid_cut k); auto.
      + apply mid_last; [exact W|]. intros [k' v'] Hi N. cbn in N. rewrite E3.
        assert (X : In (k', v') (l1 ++ l2)).
        { rewrite <- E1. destruct (F m1 (path_in_last _ _ _ _ P)) as [->|X]; [exact Hi|]. apply (proj1 (proj2 X)); assumption. }
        apply in_app_iff in X. apply in_app_iff. cbn. tauto.
  Qed.

  Lemma traced_any o m : WF m -> by_entries o -> traced o m (trace m o).
  Proof.
    intros W B. destruct o as [|k v|k v|veq k v|k v|k v|k v|Q IQ q|Q IQ q|Q IQ g q|g p|g|l|l]; try destruct B.
    - assert (X : one_entry m (step m (OpInsertStrict k v)) /\ forall e, In e m -> In e (step m (OpInsertStrict k v))).
      { cbn [step]. destruct (valid_dec k) as [Vk|Nk].
        - destruct (overlap_dec m k W Vk) as [Ho|Hn].
          + rewrite insert_strict_refused by assumption. split; [apply one_refl|auto].
          + destruct (insert_strict_done m k v W Vk Hn) as (l1 & l2 & -> & -> & _). split; [apply one_more|].
            intros e Hi. cbn [fst]. apply in_app_iff in Hi. apply in_app_iff. cbn. tauto.
        - rewrite insert_strict_invalid by exact Nk. split; [apply one_refl|auto]. }
      destruct X as [X1 X2]. split; [apply two_path, X1|].
      intros s [<-|[<-|[]]]; [apply mid_first, W|apply mid_last; [exact W|]]. intros e Hi _. apply X2, Hi.
    - apply traced_touching, W.
    - apply traced_if_equal, W.
    - apply traced_overlapping, W.
    - apply traced_tor, W.
    - apply traced_overwrite, W.
    - apply traced_remove, W.
    - apply traced_cut, W.
  Qed.
  Lemma trace_mid o m s : WF m -> In s (trace m o) -> mid o m s.
  Proof.
    intros W. assert (C : by_entries o \/ trace m o = [m; step m o] /\ forall e, about o e) by (destruct o; cbn; auto).
    destruct C as [B|[-> HA]]; [apply (traced_any o m W B)|].
    intros [<-|[<-|[]]]; [apply mid_first, W|apply mid_last; [exact W|]]. intros e _ N. contradiction (N (HA _)).
  Qed.
  Lemma trace_ends o m : WF m -> (exists r, trace m o = m :: r) /\ last (trace m o) m = step m o.
  Proof.
    intros W. assert (C : by_entries o \/ trace m o = [m; step m o]) by (destruct o; cbn; auto).
    destruct C as [B| ->]; [|split; [eauto|reflexivity]].
    destruct (traced_any o m W B) as [P _]. split; [apply (path_head _ _ _ _ P)|apply (path_last _ _ _ _ _ P)].
  Qed.
  Lemma trace_WF o m s : WF m -> In s (trace m o) -> WF s.
  Proof. intros W Hs. apply (trace_mid o m s W Hs). Qed.
  Lemma trace_last_in o m : WF m -> In (step m o) (trace m o).
  Proof.
    intros W. destruct (trace_ends o m W) as [(r & E) L]. rewrite <- L. rewrite E.
    clear. generalize m at 1 3. induction r as [|x r IH]; intros y; [left; reflexivity|]. right. cbn [last]. apply IH.
  Qed.
  Lemma interrupted_WF (os : list (op I K V)) m : interrupted_history os m -> WF m.
  Proof. intros X. induction X as [|os m o m' X IH Hi]; [apply WF_nil|]. apply (trace_WF o m m' IH Hi). Qed.

  (** ** The states the crash points of CrashModel leave are among them *)
  Section Q.
    Context {Q : Type} {IQ : InclusiveInterval I Q}.
    Lemma cut_loop_c_traced (q : Q) (post : list entry) : forall pre acc f, In (fst (cut_loop_c q pre post acc f)) (cut_loop_t q pre post).
    Proof.
      induction post as [|[k v] post IH]; intros pre acc f; cbn [cut_loop_c cut_loop_t]; [left; reflexivity|].
      destruct (overlaps k q) as [[|]|]; [|left; reflexivity..]. right.
      destruct (cut_interval k q) as [r|]; [|left; reflexivity].
      destruct (insert_piece_c_cases (before_cut r) v pre f) as [(f1 & ->)| ->]; [right|left; reflexivity].
      destruct (insert_piece_c_cases (after_cut r) v (insert_piece (before_cut r) v pre) f1) as [(f2 & ->)| ->]; [right|left; reflexivity].
      destruct (inside_cut r) as [i|]; [|left; reflexivity].
      destruct (user_call f2) as [f3|]; [right; apply IH|left; reflexivity].
    Qed.
    Lemma cut_c_traced (q : Q) m f : In (fst (cut_c q m f)) (cut_t q m).
    Proof.
      unfold cut_c, cut_t. destruct (invalid_interval_panic q); [right|left; reflexivity]. apply cut_loop_c_traced.
    Qed.
  End Q.
  Lemma with_comps_c_traced k v gsc gec gs ge rsc rec rs re m f :
    get_like gsc gs -> get_like gec ge -> remove_like rsc rs -> remove_like rec re ->
    (forall m v f m', rsc m v f = (m', None) -> m' = m) -> (forall m v f m', rec m v f = (m', None) -> m' = m) ->
    WF m -> valid k ->
    In (fst (insert_merge_with_comps_c k v gsc gec rsc rec m f)) (insert_merge_with_comps_t k v gs ge rs re m).
  Proof.
    intros G1 G2 L1 L2 N1 N2 W Vk.
    destruct (insert_merge_with_comps_c k v gsc gec rsc rec m f) as [m' [[r f']|]] eqn:E; cbn [fst].
    - apply (with_comps_c_val _ _ gs ge _ _ rs re G1 G2 L1 L2) in E. unfold insert_merge_with_comps_t. rewrite E. cbn [fst].
      rewrite (iip_valid _ Vk). destruct (remove_overlapping_spec m k W Vk) as (kept & rem & -> & _).
      right. apply in_app_iff. right. cbn. auto.
    - destruct (remove_t_ok k m W Vk) as [P _]. destruct (remove_overlapping_spec m k W Vk) as (kept & rem & R & _).
      apply (with_comps_c_panic _ _ _ _ rs L1 _ _ _ _ _ _ _ R) in E. unfold insert_merge_with_comps_t.
      rewrite (iip_valid _ Vk), R in *. cbn [fst] in P. destruct E as [->|[(f1 & E)|(f1 & E)]]; [left; reflexivity|right..].
      + apply N1 in E. subst m'. apply in_app_iff. left. apply (path_in_last _ _ _ _ P).
      + apply N2 in E. subst m'. apply in_app_iff. right. left. reflexivity.
  Qed.
  Lemma step_c_traced o m f : WF m -> In (step_c m o f) (trace m o).
  Proof.
    intros W. destruct o as [|k v|k v|veq k v|k v|k v|k v|Q IQ q|Q IQ q|Q IQ g q|g p|g|l|l]; try apply trace_last_in, W; cbn [step_c trace].
    - unfold if_free_t, insert_merge_touching_c. destruct (valid_dec k) as [Vk|Nk]; [rewrite (iip_valid _ Vk)|rewrite (iip_invalid _ Nk); left; reflexivity].
      destruct (map_overlaps m k) as [[|]|]; [left; reflexivity|right|left; reflexivity].
      match goal with |- context [insert_merge_with_comps_c ?a ?b ?c ?d ?e ?g ?h ?i] =>
        rewrite (surjective_pairing (insert_merge_with_comps_c a b c d e g h i)); cbn [fst] end.
      apply with_comps_c_traced; first [apply pure_get_like|apply pure_remove_like|assumption|unfold pure_remove; intros; congruence].
    - unfold if_free_t, insert_merge_touching_if_values_equal_c.
      destruct (valid_dec k) as [Vk|Nk]; [rewrite (iip_valid _ Vk)|rewrite (iip_invalid _ Nk); left; reflexivity].
      destruct (map_overlaps m k) as [[|]|]; [left; reflexivity|right|left; reflexivity].
      match goal with |- context [insert_merge_with_comps_c ?a ?b ?c ?d ?e ?g ?h ?i] =>
        rewrite (surjective_pairing (insert_merge_with_comps_c a b c d e g h i)); cbn [fst] end.
      apply with_comps_c_traced; try assumption; try apply get_if_equal_like; try apply remove_if_equal_like.
      all: intros m0 v0 f0 m'; unfold remove_if_equal_c; destruct (get_if_equal_c _ _ _ _ _) as [[? ?]|]; congruence.
    - unfold insert_merge_overlapping_c.
      destruct (valid_dec k) as [Vk|Nk]; [rewrite (iip_valid _ Vk)|rewrite (iip_invalid _ Nk); left; reflexivity].
      apply with_comps_c_traced; first [apply pure_get_like|apply pure_remove_like|assumption|unfold pure_remove; intros; congruence].
    - unfold insert_merge_touching_or_overlapping_c.
      destruct (valid_dec k) as [Vk|Nk]; [rewrite (iip_valid _ Vk)|rewrite (iip_invalid _ Nk); left; reflexivity].
      apply with_comps_c_traced; first [apply pure_get_like|apply pure_remove_like|assumption|unfold pure_remove; intros; congruence].
    - destruct (insert_overwrite_c k v m f) as [m' [[r f']|]] eqn:E; cbn [fst].
      + apply insert_overwrite_c_val in E. cbn [step]. rewrite E. apply in_app_iff. right. left. reflexivity.
      + apply insert_overwrite_c_panic in E. apply in_app_iff. left.
        destruct E as [[-> _]|[_ E]]; [unfold cut_t; left; reflexivity|].
        pose proof (cut_c_traced k m f) as X. rewrite E in X. exact X.
    - apply cut_c_traced.
  Qed.
End Facts.
