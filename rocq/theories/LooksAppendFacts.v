(** * LooksAppendFacts: lemmas for C155, ZosditMap's constructors and [append]. *)
From Coq Require Import List ZArith Bool Arith Lia ZifyBool.
From Verif Require Import Base BTree UtilsModel IntervalModel NoditModel NoditOps ZosditModel ZosditOps GqditModel GqditOps Spec TreeShape SearchOps LooksOps LooksBulkOps
  PointFacts IntervalFacts ListFacts NoditFacts NoditInv NoditQueries NoditGaps NoditMutations TraceModel TraceSpec TraceFacts TraceGqdit TreeFacts TreeProofs SearchFacts NoditSize CostOps CostFacts CostGqdit
  ZosditFacts ZosditMut ZosditProofs GqditFacts GqditProofs GqditAlgebra GqditSize LooksFacts LooksMoreFacts.
Import ListNotations.
Open Scope nat_scope.

Section Zosdit.
  Context {I : Type} `{PL : PointLaws I}.
  Context {K : Type} {IK : InclusiveInterval I K} {IL : IntervalLaws I K}.
  Context {V : Type}.
  Implicit Types (z : ZosditMap K V).
  Lemma iter_le_len z : ZWF z -> length (zosdit_iter z) <= z_len z.
  Proof. intros (_ & _ & L). exact L. Qed.
  Lemma back_len k v z : z_len (fst (insert_strict_back k v z)) <= S (z_len z).
  Proof.
    unfold insert_strict_back. destruct (invalid_interval_panic k); [|cbn; lia]. destruct (is_zero_overlap z k) as [[|]|]; try (cbn; lia).
    destruct (entry_push _ _ _ _) as [x|]; cbn; lia.
  Qed.
  Lemma l_extend_back_same (T : shapes K (list V)) l : forall z N, good_shapes T -> ZWF z -> ZD (z_inner z) -> z_len z + length l <= N ->
    fst (l_extend_strict_back T l z) = extend_strict_back l z /\ exists w, length w <= length l /\ looks_at (3 * length l) N w (snd (l_extend_strict_back T l z)).
  Proof.
    induction l as [|[k v] l IH]; intros z N GT W Dz LN.
    - split; [reflexivity|]. exists []. split; [cbn; lia|apply looks_nil].
    - cbn [l_extend_strict_back extend_strict_back length] in *. destruct (GT (length l) (z_inner z)) as (E & d & B).
      destruct (l_strict_back_same z k v d (T (length l) (z_inner z)) W B E) as (w & A & Lw & F). specialize (A Dz).
      rewrite fst_lbind, snd_lbind, A. pose proof (insert_ZWF z k v W) as W1. pose proof (zstep_ZD z (ZInsertStrictBack k v) W Dz Logic.I) as D1. cbn [zstep] in D1.
      pose proof (back_len k v z) as L1. pose proof (iter_le_len z W) as L0.
      apply (looks_mono _ _ N) in F; [|lia]. destruct (insert_strict_back k v z) as [z1 [[x|x]|]]; cbn [fst snd lret] in *; rewrite ?app_nil_r.
      2, 3: split; [reflexivity|]; exists w; split; [lia|]; apply (looks_le 3); [lia|exact F].
      destruct (IH z1 N GT W1 D1 ltac:(lia)) as (A2 & w2 & Lw2 & F2). split; [exact A2|]. exists (w ++ w2). split; [rewrite app_length; lia|].
      replace (3 * S (length l)) with (3 + 3 * length l) by lia. exact (looks_app _ _ _ _ _ _ _ F F2).
  Qed.
End Zosdit.

Lemma filter_apart {A} (f g h : A -> bool) l : (forall a, f a = true -> h a = true /\ g a = false) -> (forall a, g a = true -> h a = true) ->
  length (filter f l) + length (filter g l) <= length (filter h l).
Proof.
  intros F G. induction l as [|a l IH]; [cbn; lia|]. cbn [filter]. specialize (F a). specialize (G a).
  destruct (f a), (g a), (h a); cbn [length]; try lia; try (destruct (F eq_refl); discriminate); try (specialize (G eq_refl); discriminate).
Qed.

Section Gqdit.
  Context {I : Type} `{PL : PointLaws I}.
  Context {K : Type} {IK : InclusiveInterval I K} {IL : IntervalLaws I K}.
  Context {D : Type} {OD : Ord D} {OL : OrdLaws D}.
  Notation entry := (K * BTreeSet D)%type.
  Implicit Types (g : Gqdit K D) (k : K).

  (** The entries of [g] that start behind the point of rank [z]. *)
  Definition behind (z : Z) g : nat := length (filter (fun e => z <? elo e)%Z g).
  Definition behind_all (l : list entry) g : nat := match l with [] => 0 | e :: _ => behind (elo e) g end.

  Lemma met_count g k l : WF g -> valid k -> overlapping g k = Val l ->
    length l <= 1 + length (filter (fun e => (lo k <? elo e) && (elo e <=? hi k))%Z g).
  Proof.
    intros W Vk O. destruct (split_overlap g k W Vk) as (A & M & C & -> & HA & HM & HC & _).
    rewrite (overlapping_split k A M C Vk W HA HM HC) in O. injection O as <-.
    apply WF_app in W. destruct W as (_ & W & _). apply WF_app in W. destruct W as (WM & _ & _).
    destruct M as [|e M]; [cbn; lia|]. rewrite !filter_app, !app_length. cbn [length].
    enough (X : length M <= length (filter (fun e => (lo k <? elo e) && (elo e <=? hi k))%Z (e :: M))) by lia.
    apply WF_cons in WM. destruct WM as (_ & WM & Hx). inversion HM as [|? ? He HM']; subst.
    assert (Y : filter (fun e => (lo k <? elo e) && (elo e <=? hi k))%Z M = M).
    { clear -Hx HM' He. induction M as [|b M IH]; [reflexivity|]. inversion Hx as [|? ? Hb Hx']; subst. inversion HM' as [|? ? Hb' HM'']; subst.
      cbn [filter]. unfold meets in *. replace (_ && _) with true by lia. f_equal. apply IH; assumption. }
    cbn [filter]. rewrite Y. destruct (_ && _); cbn [length]; lia.
  Qed.
  (** Inserting changes nothing behind the interval. *)
  Lemma behind_insert g k s z : GWF g -> is_set s -> (hi k < z)%Z -> behind z (fst (gqdit_insert s k g)) <= behind z g.
  Proof.
    intros G Hs Hz. rewrite <- (collect_id s Hs). destruct (ins_all s k g G) as [G' M].
    assert (X : forall h, behind z h = length (filter (fun x => z <? x)%Z (map elo h))).
    { intros h. unfold behind. induction h as [|e h IH]; [reflexivity|]. cbn [filter map]. destruct (z <? elo e)%Z; cbn [length]; rewrite IH; reflexivity. }
    rewrite !X. apply NoDup_incl_length; [apply NoDup_filter, starts_nodup, G'|].
    intros y Hy. apply filter_In in Hy. destruct Hy as [Hy L]. apply filter_In. split; [|exact L].
    apply start_border in Hy; [|exact G']. apply start_border; [exact G|]. destruct Hy as [Hy|(p & p' & d & E1 & E2 & Hd)]; [left; exact Hy|right].
    exists p, p', d. split; [exact E1|]. split; [exact E2|]. rewrite !M in Hd.
    assert (N : ~ covers k p) by (rewrite covers_rk; lia). assert (N' : ~ covers k p') by (rewrite covers_rk; lia). tauto.
  Qed.

  Lemma l_insert_ids_same g s k d t T : WF g -> valid k -> btree true d t -> entries t = g -> (forall i, good_shapes (T i)) ->
    exists o w, overlapping g k = Val o /\ fst (l_gqdit_insert t T s k) = gqdit_insert s k g /\
    length w <= 2 * length o + 1 /\ looks_at (1 + 10 * length o) (len g + 2) w (snd (l_gqdit_insert t T s k)).
  Proof.
    intros W Vk B E GT. destruct (l_cut_update_same (fun u => bset_extend u s) k g d t T W Vk B E GT) as (o & w & O & A & L & F).
    unfold l_gqdit_insert, gqdit_insert. rewrite (iip_valid _ Vk). destruct (bset_is_empty s); [|exists o, w; auto].
    exists o, []. split; [exact O|]. split; [cbn; rewrite E; reflexivity|]. split; [cbn; lia|]. apply (looks_le 0); [lia|apply looks_nil].
  Qed.
  Lemma step_count g k s (l : list entry) o : GWF g -> WF ((k, s) :: l) -> is_set s -> overlapping g k = Val o ->
    length o + behind_all l (fst (gqdit_insert s k g)) <= 1 + behind_all ((k, s) :: l) g.
  Proof.
    intros G Wl Hs O. apply WF_cons in Wl. destruct Wl as (Vk & Wl & Hl). unfold elo, ehi in Vk. cbn in Vk. apply valid_rk in Vk as Vk'.
    assert (W : WF g) by apply G. pose proof (met_count g k o W Vk' O) as L. destruct l as [|e l]; cbn [behind_all].
    - unfold behind, elo. cbn [fst]. pose proof (filter_apart (fun e : entry => (lo k <? elo e) && (elo e <=? hi k))%Z (fun _ => false) (fun e => lo k <? elo e)%Z g) as X.
      unfold elo in *. specialize (X ltac:(cbv beta; intros; lia) ltac:(discriminate)). lia.
    - inversion Hl as [|? ? He _]; subst. unfold ehi in He. cbn [fst] in He. pose proof (behind_insert g k s (elo e) G Hs He) as X. unfold behind in *. change (elo (k, s)) with (lo k).
      assert (Y : length (filter (fun x : entry => (lo k <? elo x) && (elo x <=? hi k))%Z g) + length (filter (fun x : entry => elo e <? elo x)%Z g) <= length (filter (fun x : entry => lo k <? elo x)%Z g))
        by (apply filter_apart; intros a Ha; lia).
      lia.
  Qed.
  Lemma l_append_loop_same (S0 : shapes K (BTreeSet D)) T (l : list entry) : good_shapes S0 -> (forall j i, good_shapes (T j i)) ->
    (forall k s, In (k, s) l -> is_set s) -> WF l -> forall g N, GWF g -> len g + 2 * length l <= N -> exists w,
    fst (l_append_loop S0 T l g) = append_loop l g /\ length w <= 3 * length l + 2 * behind_all l g /\
    looks_at (11 * length l + 10 * behind_all l g) N w (snd (l_append_loop S0 T l g)).
  Proof.
    intros GS GT. induction l as [|[k s] l IH]; intros Hs Wl g N G LN.
    - exists []. split; [reflexivity|]. split; [cbn; lia|apply looks_nil].
    - pose proof (Hs k s ltac:(left; reflexivity)) as Hk. pose proof Wl as Wl'. apply WF_cons in Wl'. destruct Wl' as (Vk & Wl' & _). unfold elo, ehi in Vk. cbn in Vk. apply valid_rk in Vk.
      destruct (GS (length l) g) as (E & d & B). assert (W : WF g) by apply G.
      destruct (l_insert_ids_same g s k d (S0 (length l) g) (T (length l)) W Vk B E (GT _)) as (o & w & O & A & Lw & F).
      pose proof (step_count g k s l o G Wl Hk O) as C. cbn [l_append_loop append_loop length] in *.
      rewrite fst_lbind, snd_lbind, A. destruct (insert_has s k g G Vk Hk) as (g1 & E1 & G1 & _). rewrite E1 in *. cbn [fst] in *.
      pose proof (insert_border s k g G) as L1. rewrite (collect_id s Hk), E1 in L1. cbn [fst] in L1. unfold len in *.
      apply (looks_mono _ _ N) in F; [|unfold len; lia].
      destruct (IH ltac:(intros k' s' X; apply (Hs k' s'); right; exact X) Wl' g1 N G1 ltac:(lia)) as (w2 & A2 & Lw2 & F2).
      exists (w ++ w2). split; [exact A2|]. split; [rewrite app_length; lia|].
      apply (looks_le (1 + 10 * length o + (11 * length l + 10 * behind_all l g1))); [lia|]. exact (looks_app _ _ _ _ _ _ _ F F2).
  Qed.
  Lemma behind_le l g : behind_all l g <= length g.
  Proof. destruct l; cbn; [lia|]. unfold behind. induction g as [|a g IH]; cbn; [lia|]. destruct (_ <? _)%Z; cbn; lia. Qed.
  Lemma remove_all g2 : WF g2 -> remove_overlapping (mkInterval MIN MAX : Interval I) g2 = ([], Val g2).
  Proof.
    intros W2. pose proof (remove_overlapping_split (mkInterval MIN MAX : Interval I) [] g2 []) as X. cbn [app] in X. rewrite app_nil_r in X.
    apply X; [apply uu_valid|exact W2|constructor| |constructor]. rewrite Forall_forall. intros e He.
    pose proof (WF_okv _ _ W2 He) as V. unfold okv, meets, elo, ehi, lo, hi in *. cbn in *.
    pose proof (rk_max (istart (fst e))). pose proof (rk_min (iend (fst e))). lia.
  Qed.
  Lemma overlapping_le {Q} {IQ : InclusiveInterval I Q} g (q : Q) o : WF g -> valid q -> overlapping g q = Val o -> length o <= length g.
  Proof.
    intros W V E. destruct (overlapping_spec g q W V) as (o' & E' & Sb). rewrite E in E'. injection E' as <-.
    clear -Sb. induction Sb; cbn; lia.
  Qed.
  Lemma l_append_same (S0 : shapes K (BTreeSet D)) T g g2 d t : good_shapes S0 -> (forall j i, good_shapes (T j i)) ->
    GWF g -> GWF g2 -> btree true d t -> entries t = g2 -> exists w,
    fst (l_append S0 T g t) = append g g2 /\ length w <= 2 * len g + 4 * len g2 + 1 /\
    looks_at (1 + 10 * len g + 11 * len g2) (len g + 2 * len g2) w (snd (l_append S0 T g t)).
  Proof.
    intros GS GT G G2 B E. assert (W2 : WF g2) by apply G2. unfold l_append, append. rewrite uu_val.
    destruct (l_remove_same g2 (mkInterval MIN MAX : Interval I) d t W2 uu_valid B E) as (o & w & O & A & (x & -> & Lx) & F).
    rewrite fst_lbind, snd_lbind, A, (remove_all g2 W2). pose proof (overlapping_le g2 _ o W2 uu_valid O) as Lo.
    assert (HS : forall k s, In (k, s) g2 -> is_set s) by (intros k s Hi; destruct G2 as [(_ & _ & Bs) _]; apply (Bs _ _ Hi)).
    destruct (l_append_loop_same S0 T g2 GS GT HS W2 g (len g + 2 * len g2) G ltac:(unfold len; lia)) as (w2 & A2 & L2 & F2).
    rewrite fst_lbind, snd_lbind, A2. pose proof (behind_le g2 g) as Bh. exists ((map fst o ++ x) ++ w2). split.
    - destruct (append_loop g2 g). reflexivity.
    - split; [rewrite !app_length, map_length; unfold len in *; lia|].
      apply (looks_mono _ _ (len g + 2 * len g2)) in F; [|lia]. destruct (append_loop g2 g). cbn [lret snd]. rewrite app_nil_r.
      apply (looks_le (1 + (11 * length g2 + 10 * behind_all g2 g))); [unfold len; lia|]. exact (looks_app _ _ _ _ _ _ _ F F2).
  Qed.

  (** ** The changes of the tree *)
  Lemma append_loop_added (l : list entry) : WF l -> (forall k s, In (k, s) l -> is_set s) -> forall g, GWF g ->
    tree_adds (append_loop_t l g) <= 3 * length l + behind_all l g.
  Proof.
    induction l as [|[k s] l IH]; intros Wl Hs g G; cbn [append_loop_t]; [cbn; lia|].
    pose proof (Hs k s ltac:(left; reflexivity)) as Hk. pose proof Wl as Wl'. apply WF_cons in Wl'. destruct Wl' as (Vk & Wl' & _). unfold elo, ehi in Vk. cbn in Vk. apply valid_rk in Vk.
    assert (W : WF g) by apply G. destruct (overlapping_spec g k W Vk) as (o & O & Sb). pose proof (step_count g k s l o G Wl Hk O) as C.
    destruct (insert_t_any s k g W) as [P1 _].
    assert (L1 : tree_adds (gqdit_insert_t s k g) <= 2 + length o).
    { unfold gqdit_insert_t. rewrite (iip_valid _ Vk). destruct (bset_is_empty s); [cbn; lia|].
      pose proof (cut_update_added (fun i => bset_extend i s) k g o W Vk Sb) as Y. unfold Gqdit, NoditMap, BTreeMap in *.
      rewrite added_same; [exact Y|]. unfold cut_update_t, cut_t. cbn [app]. eauto. }
    destruct (insert_has s k g G Vk Hk) as (g1 & E1 & G1 & _). rewrite E1 in *. cbn [fst] in *.
    assert (Hs' : forall k' s', In (k', s') l -> is_set s') by (intros k' s' X; apply (Hs k' s'); right; exact X).
    specialize (IH Wl' Hs' g1 G1). destruct (append_loop_t_any l g1 ltac:(apply G1) Hs') as [P2 _].
    destruct (path_head _ _ _ _ P1) as (r1 & Er). unfold Gqdit, NoditMap, BTreeMap in *.
    rewrite added_same by (rewrite Er; cbn; eauto). rewrite (added_path_app _ _ _ _ _ _ _ _ P1 P2), Nat.ltb_irrefl. cbn [length] in *. lia.
  Qed.
  Lemma append_added g g2 : GWF g -> GWF g2 -> tree_adds (append_t g g2) <= len g + 3 * len g2.
  Proof.
    intros G G2. assert (W2 : WF g2) by apply G2. unfold append_t. rewrite uu_val, (remove_all g2 W2).
    assert (HS : forall k s, In (k, s) g2 -> is_set s) by (intros k s Hi; destruct G2 as [(_ & _ & Bs) _]; apply (Bs _ _ Hi)).
    pose proof (append_loop_added g2 W2 HS g G) as L. pose proof (behind_le g2 g) as Bh.
    destruct (append_loop_t_any g2 g ltac:(apply G) HS) as [P _]. unfold Gqdit, NoditMap, BTreeMap, len in *.
    rewrite added_same by (apply (path_head _ _ _ _ P)). lia.
  Qed.
End Gqdit.
