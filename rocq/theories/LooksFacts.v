(** * LooksFacts: lemmas for C154 (NoditMap). *)
From Coq Require Import List ZArith Bool Arith Lia.
From Verif Require Import Base BTree UtilsModel IntervalModel NoditModel NoditOps Spec TreeShape SearchOps LooksOps
  PointFacts IntervalFacts NoditFacts NoditInv NoditQueries NoditMutations TraceFacts TreeFacts TreeProofs SearchFacts NoditSize CostFacts.
Import ListNotations.
Open Scope nat_scope.

Section Looks.
  Context {K : Type}.
  Implicit Types l : list (look K).
  Lemma asked_app l l' : asked (l ++ l') = asked l ++ asked l'.
  Proof. apply flat_map_app. Qed.
  Lemma walked_app l l' : walked (l ++ l') = walked l ++ walked l'.
  Proof. apply flat_map_app. Qed.
  Lemma fst_lbind {A B} (x : looking K A) (f : A -> looking K B) : fst (lbind x f) = fst (f (fst x)).
  Proof. unfold lbind. destruct (f (fst x)). reflexivity. Qed.
  Lemma snd_lbind {A B} (x : looking K A) (f : A -> looking K B) : snd (lbind x f) = snd x ++ snd (f (fst x)).
  Proof. unfold lbind. destruct (f (fst x)). reflexivity. Qed.
  Lemma asked_map {V} (l : list (K * V)) : asked (map (fun e => Walked (fst e)) l) = [].
  Proof. induction l; [reflexivity|assumption]. Qed.
  Lemma walked_map {V} (l : list (K * V)) : walked (map (fun e => Walked (fst e)) l) = map fst l.
  Proof. induction l as [|e l IH]; [reflexivity|]. cbn. f_equal. exact IH. Qed.
  Context {V : Type}.
  Lemma asked_searching comp (t : tree K V) : asked (searching comp t) = asks comp t.
  Proof. unfold searching, asked. induction (asks comp t) as [|k l IH]; [reflexivity|]. cbn. f_equal. exact IH. Qed.
  Lemma walked_searching comp (t : tree K V) : walked (searching comp t) = [].
  Proof. unfold searching, walked. induction (asks comp t) as [|k l IH]; [reflexivity|exact IH]. Qed.
End Looks.

Lemma few_0 n : few 0 n 0.
Proof. unfold few. lia. Qed.
Lemma looks_nil {K} n : looks_at (K := K) 0 n [] [].
Proof. split; [apply few_0|reflexivity]. Qed.
Lemma looks_app {K} c c' n w w' (l l' : list (look K)) : looks_at c n w l -> looks_at c' n w' l' -> looks_at (c + c') n (w ++ w') (l ++ l').
Proof. intros [F W] [F' W']. split; [rewrite asked_app; exact (few_app _ _ _ _ _ F F')|rewrite walked_app, W, W'; reflexivity]. Qed.
Lemma looks_le {K} c c' n w (l : list (look K)) : c <= c' -> looks_at c n w l -> looks_at c' n w l.
Proof. intros L [F W]. split; [exact (few_le _ _ _ _ L F)|exact W]. Qed.
Lemma looks_mono {K} c n n' w (l : list (look K)) : n <= n' -> looks_at c n w l -> looks_at c n' w l.
Proof. intros L [F W]. split; [exact (few_mono _ _ _ _ L F)|exact W]. Qed.
Lemma looks_walk {K V} n (l : list (K * V)) : looks_at 0 n (map fst l) (map (fun e => Walked (fst e)) l).
Proof. split; [rewrite asked_map; apply few_0|apply walked_map]. Qed.
Lemma looks_search {K V} comp d (t : tree K V) n : btree true d t -> length (entries t) <= n -> looks_at 1 n [] (searching comp t).
Proof. intros B L. split; [rewrite asked_searching; exact (few_mono _ _ _ _ L (asks_few comp d t B))|apply walked_searching]. Qed.

Section Nodit.
  Context {I : Type} `{PL : PointLaws I}.
  Context {K : Type} {IK : InclusiveInterval I K} {IL : IntervalLaws I K}.
  Context {V : Type}.
  Implicit Types (m : NoditMap K V) (p : I) (t : tree K V) (k : K) (v : V) (T : shapes K V).

  Section Q.
    Context {Q : Type} {IQ : InclusiveInterval I Q}.
    Implicit Type q : Q.

    Lemma l_overlapping_same m q d t : WF m -> btree true d t -> entries t = m ->
      fst (l_overlapping t q) = overlapping m q /\ looks_at 2 (len m) [] (snd (l_overlapping t q)).
    Proof.
      intros W B E. unfold l_overlapping, overlapping.
      destruct (invalid_interval_panic q) as [u|]; cbn [obind]; [|split; [reflexivity|apply (looks_le 0); [lia|apply looks_nil]]].
      rewrite fst_lbind, snd_lbind. unfold l_range, lret. cbn [fst snd]. rewrite app_nil_r.
      rewrite (orderly_range_shape_free _ _ _ (orderly_overlapping (istart q) m W) (orderly_overlapping (iend q) m W) t E).
      split; [reflexivity|]. apply (looks_app 1 1 _ [] []); apply (looks_search _ d); try assumption; rewrite E; unfold len; lia.
    Qed.
    Lemma l_overlapping_all_same m q d t l : WF m -> btree true d t -> entries t = m -> overlapping m q = Val l ->
      fst (l_overlapping_all t q) = Val l /\ looks_at 2 (len m) (map fst l) (snd (l_overlapping_all t q)).
    Proof.
      intros W B E O. destruct (l_overlapping_same m q d t W B E) as [A F]. unfold l_overlapping_all.
      rewrite fst_lbind, snd_lbind, A, O. rewrite fst_lbind, snd_lbind. unfold l_walk, lret. cbn [fst snd]. rewrite app_nil_r.
      split; [reflexivity|]. exact (looks_app 2 0 _ [] _ _ _ F (looks_walk _ l)).
    Qed.
    Lemma l_overlaps_same m q d t : WF m -> btree true d t -> entries t = m ->
      fst (l_overlaps t q) = map_overlaps m q /\
      looks_at 2 (len m) (match overlapping m q with Val (e :: _) => [fst e] | _ => [] end) (snd (l_overlaps t q)).
    Proof.
      intros W B E. destruct (l_overlapping_same m q d t W B E) as [A F]. unfold l_overlaps, map_overlaps.
      assert (O : overlapping m q = let? _ := invalid_interval_panic q in overlapping m q).
      { unfold overlapping. destruct (invalid_interval_panic q); reflexivity. }
      rewrite fst_lbind, snd_lbind, A. destruct (invalid_interval_panic q) as [u|]; cbn [obind] in O; cbn [obind].
      - destruct (overlapping m q) as [[|e l]|]; cbn [obind].
        + split; [reflexivity|]. exact (looks_app 2 0 _ [] [] _ _ F (looks_nil _)).
        + rewrite fst_lbind, snd_lbind. cbn [fst snd lret]. rewrite app_nil_r. split; [reflexivity|]. exact (looks_app 2 0 _ [] _ _ _ F (looks_walk _ [e])).
        + split; [reflexivity|]. exact (looks_app 2 0 _ [] [] _ _ F (looks_nil _)).
      - rewrite O. split; [reflexivity|]. exact (looks_app 2 0 _ [] [] _ _ F (looks_nil _)).
    Qed.

    Lemma l_gap_same m p d t : WF m -> btree true d t -> entries t = m ->
      fst (l_get_gap_at_raw t p) = get_gap_at_raw m p /\ looks_at 2 (len m) [] (snd (l_get_gap_at_raw t p)).
    Proof.
      intros W B E. destruct (orderly_shape_free _ _ (orderly_overlapping p m W) t E) as (_ & _ & _ & El & Eu).
      unfold l_get_gap_at_raw, get_gap_at_raw. rewrite !fst_lbind, !snd_lbind. unfold l_upper, l_lower, lret. cbn [fst snd]. rewrite El, Eu, app_nil_r.
      split; [reflexivity|]. apply (looks_app 1 1 _ [] []); apply (looks_search _ d); try assumption; rewrite E; unfold len; lia.
    Qed.
    Lemma l_end_gap_same m p d t : WF m -> btree true d t -> entries t = m ->
      fst (l_end_gap t p) = end_gap m p /\ looks_at 3 (len m) [] (snd (l_end_gap t p)).
    Proof.
      intros W B E. destruct (l_gap_same m p d t W B E) as [A F]. destruct (orderly_shape_free _ _ (orderly_overlapping p m W) t E) as (Eg & _).
      assert (L : looks_at 1 (len m) [] (searching (overlapping_comp p) t)) by (apply (looks_search _ d); [exact B|rewrite E; unfold len; lia]).
      unfold l_end_gap, end_gap, contains_key. rewrite fst_lbind, snd_lbind. unfold l_get. cbn [fst snd]. rewrite Eg.
      destruct (is_some (get_key_value (overlapping_comp p) m)); cbn [negb].
      - cbn [lret fst snd]. rewrite app_nil_r. split; [reflexivity|]. apply (looks_le 1); [lia|exact L].
      - rewrite fst_lbind, snd_lbind, A. cbn [lret fst snd]. rewrite app_nil_r. split; [reflexivity|]. exact (looks_app 1 2 _ [] [] _ _ L F).
    Qed.
    Lemma l_gaps_same m q d t l : WF m -> btree true d t -> entries t = m -> overlapping m q = Val l ->
      fst (l_gaps_untrimmed t q) = gaps_untrimmed m q /\ looks_at 8 (len m) (map fst l) (snd (l_gaps_untrimmed t q)).
    Proof.
      intros W B E O. destruct (l_end_gap_same m (istart q) d t W B E) as [A1 F1]. destruct (l_end_gap_same m (iend q) d t W B E) as [A2 F2].
      destruct (l_overlapping_all_same m q d t l W B E O) as [A3 F3]. unfold l_gaps_untrimmed, gaps_untrimmed.
      destruct (invalid_interval_panic q) as [u|] eqn:X; [|exfalso; unfold overlapping in O; rewrite X in O; discriminate]. cbn [obind].
      rewrite !fst_lbind, !snd_lbind, A1, A2, A3. cbn [lret fst snd]. rewrite app_nil_r. split.
      - destruct (end_gap m (istart q)) as [sg|]; cbn [obind]; [|reflexivity]. destruct (end_gap m (iend q)) as [eg|]; cbn [obind]; [|reflexivity].
        destruct sg as [s|], eg as [e|]; cbn [obind]; rewrite ?O; try reflexivity. destruct (eqb (ivl_start s) (ivl_start e)); reflexivity.
      - exact (looks_app 3 5 _ [] _ _ _ F1 (looks_app 3 2 _ [] _ _ _ F2 F3)).
    Qed.

    (** The cursor of [remove_overlapping] and [cut]. *)
    Lemma cursor_walk_split q (M B : list (K * V)) : (lo q <= hi q)%Z -> Forall okv (M ++ B) -> Forall (meets (lo q) (hi q)) M -> Forall (right_of (hi q)) B ->
      cursor_walk q (M ++ B) = map (fun e => Walked (fst e)) (M ++ firstn 1 B).
    Proof.
      intros Vq HV HM HB. induction M as [|[k v] M IH].
      - destruct B as [|[k v] B]; [reflexivity|]. cbn [app cursor_walk firstn map fst]. inversion HB as [|? ? Hk _]; subst.
        inversion HV as [|? ? Vk _]; subst. unfold right_of, okv, elo, ehi in *. cbn in Hk, Vk.
        rewrite overlaps_true by lia. replace (_ && _) with false by lia. reflexivity.
      - cbn [app cursor_walk map fst]. inversion HM as [|? ? Hk HM']; subst. inversion HV as [|? ? Vk HV']; subst. unfold meets, okv, elo, ehi in *. cbn [fst] in *.
        rewrite overlaps_true by lia. replace (_ && _) with true by lia. f_equal. apply IH; assumption.
    Qed.
    Lemma lower_walk m q d t : WF m -> valid q -> btree true d t -> entries t = m -> exists o, overlapping m q = Val o /\
      exists w, some_more w (map fst o) /\
      looks_at 1 (len m) w (searching (overlapping_comp (istart q)) t ++ cursor_walk q (snd (t_lower_bound (overlapping_comp (istart q)) t))).
    Proof.
      intros W Vq Bt E. destruct (orderly_shape_free _ _ (orderly_overlapping (istart q) m W) t E) as (_ & _ & _ & El & _). rewrite El.
      assert (L : looks_at 1 (len m) [] (searching (overlapping_comp (istart q)) t)) by (apply (looks_search _ d); [exact Bt|rewrite E; unfold len; lia]).
      clear El E. destruct (split_overlap m q W Vq) as (A & M & B & -> & HA & HM & HB & _).
      exists M. split; [apply overlapping_split; assumption|]. exists (map fst (M ++ firstn 1 B)). split.
      - exists (map fst (firstn 1 B)). rewrite map_app. split; [reflexivity|]. rewrite map_length. apply firstn_le_length.
      - apply valid_rk in Vq. unfold lower_bound. pose proof W as W'. apply WF_app in W'. destruct W' as (_ & W' & _). destruct W' as [_ V'].
        rewrite seek_split; [|exact W|exact HA|].
        + cbn [snd]. rewrite cursor_walk_split by assumption. exact (looks_app 1 0 _ [] _ _ _ L (looks_walk _ _)).
        + rewrite Forall_app in *. destruct V' as [_ VB]. split; rewrite Forall_forall in *; intros x Hx.
          * specialize (HM x Hx). unfold meets, lo in *. lia.
          * specialize (HB x Hx). specialize (VB x Hx). unfold right_of, okv, lo, hi in *. lia.
    Qed.
    Lemma l_remove_same m q d t : WF m -> valid q -> btree true d t -> entries t = m -> exists o w, overlapping m q = Val o /\
      fst (l_remove_overlapping q t) = remove_overlapping q m /\ some_more w (map fst o) /\ looks_at 1 (len m) w (snd (l_remove_overlapping q t)).
    Proof.
      intros W Vq B E. destruct (lower_walk m q d t W Vq B E) as (o & O & w & S & F). exists o, w. split; [exact O|].
      destruct (orderly_shape_free _ _ (orderly_overlapping (istart q) m W) t E) as (_ & _ & _ & El & _).
      unfold l_remove_overlapping, remove_overlapping. rewrite (iip_valid _ Vq), fst_lbind, snd_lbind. unfold l_lower. cbn [fst snd]. rewrite El in *.
      split; [reflexivity|]. split; [exact S|exact F].
    Qed.
    Lemma l_cut_same m q d t : WF m -> valid q -> btree true d t -> entries t = m -> exists o w, overlapping m q = Val o /\
      fst (l_cut q t) = cut q m /\ some_more w (map fst o) /\ looks_at 1 (len m) w (snd (l_cut q t)).
    Proof.
      intros W Vq B E. destruct (lower_walk m q d t W Vq B E) as (o & O & w & S & F). exists o, w. split; [exact O|].
      destruct (orderly_shape_free _ _ (orderly_overlapping (istart q) m W) t E) as (_ & _ & _ & El & _).
      unfold l_cut, cut. rewrite (iip_valid _ Vq), fst_lbind, snd_lbind. unfold l_lower. cbn [fst snd]. rewrite El in *.
      split; [reflexivity|]. split; [exact S|exact F].
    Qed.
  End Q.

  Lemma remove_WF (c : K -> comparison) m : WF m -> WF (fst (remove c m)) /\ len (fst (remove c m)) <= len m.
  Proof.
    intros W. unfold remove. destruct (seek c m) as [a b] eqn:E. apply seek_app' in E. subst m.
    destruct b as [|[k v] r]; [split; [exact W|apply le_n]|]. destruct (c k); try (split; [exact W|apply le_n]).
    cbn [fst]. apply WF_app in W. destruct W as (Wa & W & X). apply WF_cons in W. destruct W as (_ & Wr & _). split.
    - apply WF_app. split; [exact Wa|]. split; [exact Wr|]. intros x y Hx Hy. apply X; [exact Hx|right; exact Hy].
    - unfold len. rewrite !app_length. cbn [length]. lia.
  Qed.

  (** Searches for a neighbour, and its removal. *)
  Definition gets c (g' : tree K V -> looking K (option K)) (g : NoditMap K V -> option K) : Prop :=
    forall m t d, WF m -> btree true d t -> entries t = m -> fst (g' t) = g m /\ looks_at c (len m) [] (snd (g' t)).
  Definition takes c (r' : tree K V -> looking K (BTreeMap K V)) (r : NoditMap K V -> NoditMap K V) : Prop :=
    forall m t d, WF m -> btree true d t -> entries t = m ->
      fst (r' t) = r m /\ WF (r m) /\ len (r m) <= len m /\ looks_at c (len m) [] (snd (r' t)).

  Definition orderly_always (comp : K -> comparison) : Prop := forall m, WF m -> orderly comp m.
  Lemma l_key_gets comp : orderly_always comp -> gets 1 (l_key comp) (fun m => option_map fst (get_key_value comp m)).
  Proof.
    intros HO m t d W B E. destruct (orderly_shape_free _ _ (HO m W) t E) as (Eg & _). unfold l_key, l_get. rewrite fst_lbind, snd_lbind. cbn [lret fst snd].
    rewrite Eg, app_nil_r. split; [reflexivity|]. apply (looks_search _ d); [exact B|rewrite E; unfold len; lia].
  Qed.
  Lemma l_key_if_gets veq v comp : orderly_always comp -> gets 1 (l_key_if veq v comp) (fun m => get_if_equal veq comp m v).
  Proof.
    intros HO m t d W B E. destruct (orderly_shape_free _ _ (HO m W) t E) as (Eg & _). unfold l_key_if, l_get, get_if_equal. rewrite fst_lbind, snd_lbind. cbn [lret fst snd].
    rewrite Eg, app_nil_r. split; [reflexivity|]. apply (looks_search _ d); [exact B|rewrite E; unfold len; lia].
  Qed.
  Lemma l_key_or_gets comp comp' : orderly_always comp -> orderly_always comp' ->
    gets 2 (l_key_or comp comp') (fun m => option_or (option_map fst (get_key_value comp m)) (option_map fst (get_key_value comp' m))).
  Proof.
    intros HO HO' m t d W B E. destruct (l_key_gets comp HO m t d W B E) as [A F]. destruct (l_key_gets comp' HO' m t d W B E) as [A' F'].
    unfold l_key_or. rewrite !fst_lbind, !snd_lbind. cbn [lret fst snd]. rewrite A, A', app_nil_r. split; [reflexivity|]. exact (looks_app 1 1 _ [] [] _ _ F F').
  Qed.
  Lemma l_remove_takes comp : orderly_always comp -> takes 1 (l_remove comp) (fun m => fst (remove comp m)).
  Proof.
    intros HO m t d W B E. destruct (orderly_shape_free _ _ (HO m W) t E) as (_ & _ & Er & _). unfold l_remove. cbn [fst snd]. rewrite Er.
    destruct (remove_WF comp m W) as [W' L]. split; [reflexivity|]. split; [exact W'|]. split; [exact L|]. apply (looks_search _ d); [exact B|rewrite E; unfold len; lia].
  Qed.
  Lemma l_remove_if_takes veq v comp : orderly_always comp ->
    takes 2 (l_remove_if veq v comp) (fun m => if is_some (get_if_equal veq comp m v) then fst (remove comp m) else m).
  Proof.
    intros HO m t d W B E. destruct (l_key_if_gets veq v comp HO m t d W B E) as [A F]. destruct (l_remove_takes comp HO m t d W B E) as (A' & W' & L & F').
    unfold l_remove_if. rewrite fst_lbind, snd_lbind, A. destruct (is_some (get_if_equal veq comp m v)).
    - split; [exact A'|]. split; [exact W'|]. split; [exact L|]. exact (looks_app 1 1 _ [] [] _ _ F F').
    - cbn [lret fst snd]. rewrite app_nil_r. split; [exact E|]. split; [exact W|]. split; [lia|]. apply (looks_le 1); [lia|exact F].
  Qed.
  Lemma l_nothing_takes : takes 0 (fun t => lret (entries t)) (fun m => m).
  Proof. intros m t d W B E. split; [exact E|]. split; [exact W|]. split; [lia|apply looks_nil]. Qed.

  Lemma l_insert_same m k v d t : WF m -> btree true d t -> entries t = m ->
    fst (l_insert k v t) = insert_unchecked k v m /\ looks_at 1 (len m) [] (snd (l_insert k v t)).
  Proof.
    intros W B E. unfold l_insert, insert_unchecked. cbn [fst snd].
    rewrite (orderly_insert_shape_free k starts_comp m (orderly_starts k m W) t v E). split; [reflexivity|].
    apply (looks_search _ d); [exact B|rewrite E; unfold len; lia].
  Qed.


  Lemma sub_length (P : K * V -> Prop) m l : sub P m l -> length l <= length m.
  Proof. intros S. induction S; cbn; lia. Qed.

  Lemma l_merge_same T k v gs ge rs re gs' ge' rs' re' cgs cge crs cre m : good_shapes T -> WF m -> valid k ->
    gets cgs gs' (fun m => gs m v) -> gets cge ge' (fun m => ge m v) -> takes crs rs' (fun m => rs m v) -> takes cre re' (fun m => re m v) ->
    exists o w, overlapping m k = Val o /\
    fst (l_merge_with_comps T k v gs' ge' rs' re' m) = insert_merge_with_comps k v gs ge rs re m /\
    some_more w (map fst o) /\ looks_at (cgs + (cge + (1 + (crs + (cre + 1))))) (len m) w (snd (l_merge_with_comps T k v gs' ge' rs' re' m)).
  Proof.
    intros GT W Vk Gs Ge Rs Re. destruct (GT 0 m) as (E0 & d0 & B0).
    destruct (Gs m (T 0 m) d0 W B0 E0) as [As Fs]. destruct (Ge m (T 0 m) d0 W B0 E0) as [Ae Fe].
    destruct (l_remove_same m k d0 (T 0 m) W Vk B0 E0) as (o & w & O & Ar & S & Fr). exists o, w. split; [exact O|].
    destruct (remove_overlapping_spec m k W Vk) as (m1 & rem & R & _ & Sk & W1).
    assert (L1 : len m1 <= len m) by (apply (sub_length _ _ _ Sk)).
    destruct (GT 1 m1) as (E1 & d1 & B1). destruct (Rs m1 (T 1 m1) d1 W1 B1 E1) as (A1 & W2 & L2 & F1).
    destruct (GT 2 (rs m1 v)) as (E2 & d2 & B2). destruct (Re _ (T 2 (rs m1 v)) d2 W2 B2 E2) as (A2 & W3 & L3 & F2).
    destruct (GT 3 (re (rs m1 v) v)) as (E3 & d3 & B3).
    unfold l_merge_with_comps, insert_merge_with_comps. rewrite (iip_valid _ Vk), !fst_lbind, !snd_lbind, As, Ae, Ar, R.
    cbv beta iota. rewrite !fst_lbind, !snd_lbind, A1, A2.
    match goal with |- context [l_insert ?r _ _] => set (ret := r) end.
    destruct (l_insert_same _ ret v d3 (T 3 (re (rs m1 v) v)) W3 B3 E3) as [A3 F3].
    cbn [lret fst snd]. rewrite A3, app_nil_r. split; [reflexivity|]. split; [exact S|].
    replace w with ([] ++ [] ++ w ++ [] ++ [] ++ []) by (cbn [app]; apply app_nil_r).
    apply looks_app; [exact Fs|]. apply looks_app; [exact Fe|]. apply looks_app; [exact Fr|].
    apply looks_app; [apply (looks_mono _ (len m1)); [lia|exact F1]|]. apply looks_app; [apply (looks_mono _ (len (rs m1 v))); [lia|exact F2]|].
    apply (looks_mono _ (len (re (rs m1 v) v))); [lia|exact F3].
  Qed.

  Lemma insert_unchecked_len k v m : len (insert_unchecked k v m) <= S (len m).
  Proof.
    unfold insert_unchecked, insert, len. destruct (seek (fun inner => starts_comp inner k) m) as [a b] eqn:E. apply seek_app' in E. subst m.
    destruct b as [|[k' v'] r]; cbn [fst]; [rewrite !app_length; cbn [length]; lia|].
    destruct (starts_comp k' k); cbn [fst]; rewrite !app_length; cbn [length]; lia.
  Qed.

  Lemma orderly_ol p : orderly_always (overlapping_comp p).
  Proof. intros m W. apply orderly_overlapping, W. Qed.
  Lemma orderly_ts p : orderly_always (touching_start_comp p).
  Proof. intros m W. apply orderly_touching_start, W. Qed.
  Lemma orderly_te p : orderly_always (touching_end_comp p).
  Proof. intros m W. apply orderly_touching_end, W. Qed.

  Lemma l_merge_overlapping_same T k v m : good_shapes T -> WF m -> valid k -> exists o w, overlapping m k = Val o /\
    fst (l_insert_merge_overlapping T k v m) = insert_merge_overlapping k v m /\
    some_more w (map fst o) /\ looks_at 4 (len m) w (snd (l_insert_merge_overlapping T k v m)).
  Proof.
    intros GT W Vk. unfold l_insert_merge_overlapping, insert_merge_overlapping. rewrite (iip_valid _ Vk).
    exact (l_merge_same T k v _ _ _ _ _ _ _ _ 1 1 0 0 m GT W Vk (l_key_gets _ (orderly_ol _)) (l_key_gets _ (orderly_ol _)) l_nothing_takes l_nothing_takes).
  Qed.
  Lemma l_merge_tor_same T k v m : good_shapes T -> WF m -> valid k -> exists o w, overlapping m k = Val o /\
    fst (l_insert_merge_touching_or_overlapping T k v m) = insert_merge_touching_or_overlapping k v m /\
    some_more w (map fst o) /\ looks_at 8 (len m) w (snd (l_insert_merge_touching_or_overlapping T k v m)).
  Proof.
    intros GT W Vk. unfold l_insert_merge_touching_or_overlapping, insert_merge_touching_or_overlapping. rewrite (iip_valid _ Vk).
    exact (l_merge_same T k v _ _ _ _ _ _ _ _ 2 2 1 1 m GT W Vk (l_key_or_gets _ _ (orderly_ts _) (orderly_ol _)) (l_key_or_gets _ _ (orderly_te _) (orderly_ol _))
      (l_remove_takes _ (orderly_ts _)) (l_remove_takes _ (orderly_te _))).
  Qed.
  (** The two that refuse an overlap. *)
  Lemma free_none m k : map_overlaps m k = Val false -> overlapping m k = Val [].
  Proof. unfold map_overlaps. destruct (invalid_interval_panic k); [|discriminate]. cbn [obind]. destruct (overlapping m k) as [[|]|]; cbn [obind]; congruence. Qed.
  Lemma l_merge_touching_same T k v m : good_shapes T -> WF m -> exists w,
    fst (l_insert_merge_touching T k v m) = insert_merge_touching k v m /\
    length w <= 1 /\ looks_at 8 (len m) w (snd (l_insert_merge_touching T k v m)).
  Proof.
    intros GT W. unfold l_insert_merge_touching, insert_merge_touching.
    destruct (valid_dec k) as [Vk|Nk]; [rewrite (iip_valid _ Vk)|rewrite (iip_invalid _ Nk); exists []; split; [reflexivity|]; split; [cbn; lia|]; apply (looks_le 0); [lia|apply looks_nil]].
    destruct (GT 0 m) as (E0 & d0 & B0). destruct (l_overlaps_same m k d0 (T 0 m) W B0 E0) as [A F]. rewrite fst_lbind, snd_lbind, A.
    destruct (map_overlaps m k) as [[|]|] eqn:Eo.
    - cbn [lret fst snd]. rewrite app_nil_r. eexists. split; [reflexivity|]. split; [|apply (looks_le 2); [lia|exact F]]. destruct (overlapping m k) as [[|]|]; cbn; lia.
    - apply free_none in Eo. rewrite Eo in F.
      destruct (l_merge_same T k v (fun m _ => option_map fst (get_key_value (touching_start_comp (istart k)) m)) (fun m _ => option_map fst (get_key_value (touching_end_comp (iend k)) m)) (fun m _ => fst (remove (touching_start_comp (istart k)) m)) (fun m _ => fst (remove (touching_end_comp (iend k)) m)) _ _ _ _ 1 1 1 1 m GT W Vk (l_key_gets _ (orderly_ts (istart k))) (l_key_gets _ (orderly_te (iend k)))
        (l_remove_takes _ (orderly_ts (istart k))) (l_remove_takes _ (orderly_te (iend k)))) as (o & w & O & A2 & (x & -> & Lx) & F2).
      rewrite fst_lbind, snd_lbind, A2. rewrite Eo in O. injection O as <-. cbn [map app] in F2. exists x.
      destruct (insert_merge_with_comps _ _ _ _ _ _ _) as [m' r]. cbn [lret fst snd]. rewrite app_nil_r. split; [reflexivity|]. split; [exact Lx|].
      exact (looks_app 2 6 _ [] x _ _ F F2).
    - cbn [lret fst snd]. rewrite app_nil_r. eexists. split; [reflexivity|]. split; [|apply (looks_le 2); [lia|exact F]]. destruct (overlapping m k) as [[|]|]; cbn; lia.
  Qed.
  Lemma l_merge_equal_same veq T k v m : good_shapes T -> WF m -> exists w,
    fst (l_insert_merge_touching_if_values_equal veq T k v m) = insert_merge_touching_if_values_equal veq k v m /\
    length w <= 1 /\ looks_at 10 (len m) w (snd (l_insert_merge_touching_if_values_equal veq T k v m)).
  Proof.
    intros GT W. unfold l_insert_merge_touching_if_values_equal, insert_merge_touching_if_values_equal.
    destruct (valid_dec k) as [Vk|Nk]; [rewrite (iip_valid _ Vk)|rewrite (iip_invalid _ Nk); exists []; split; [reflexivity|]; split; [cbn; lia|]; apply (looks_le 0); [lia|apply looks_nil]].
    destruct (GT 0 m) as (E0 & d0 & B0). destruct (l_overlaps_same m k d0 (T 0 m) W B0 E0) as [A F]. rewrite fst_lbind, snd_lbind, A.
    destruct (map_overlaps m k) as [[|]|] eqn:Eo.
    - cbn [lret fst snd]. rewrite app_nil_r. eexists. split; [reflexivity|]. split; [|apply (looks_le 2); [lia|exact F]]. destruct (overlapping m k) as [[|]|]; cbn; lia.
    - apply free_none in Eo. rewrite Eo in F.
      destruct (l_merge_same T k v (get_if_equal veq (touching_start_comp (istart k))) (get_if_equal veq (touching_end_comp (iend k)))
        (fun m v => if is_some (get_if_equal veq (touching_start_comp (istart k)) m v) then fst (remove (touching_start_comp (istart k)) m) else m)
        (fun m v => if is_some (get_if_equal veq (touching_end_comp (iend k)) m v) then fst (remove (touching_end_comp (iend k)) m) else m) _ _ _ _ 1 1 2 2 m GT W Vk (l_key_if_gets veq v _ (orderly_ts (istart k))) (l_key_if_gets veq v _ (orderly_te (iend k)))
        (l_remove_if_takes veq v _ (orderly_ts (istart k))) (l_remove_if_takes veq v _ (orderly_te (iend k)))) as (o & w & O & A2 & (x & -> & Lx) & F2).
      rewrite fst_lbind, snd_lbind, A2. rewrite Eo in O. injection O as <-. cbn [map app] in F2. exists x. cbv zeta.
      destruct (insert_merge_with_comps _ _ _ _ _ _ _) as [m' r]. cbn [lret fst snd]. rewrite app_nil_r. split; [reflexivity|]. split; [exact Lx|].
      exact (looks_app 2 8 _ [] x _ _ F F2).
    - cbn [lret fst snd]. rewrite app_nil_r. eexists. split; [reflexivity|]. split; [|apply (looks_le 2); [lia|exact F]]. destruct (overlapping m k) as [[|]|]; cbn; lia.
  Qed.
  Lemma l_overwrite_same T k v m : good_shapes T -> WF m -> valid k -> exists o w, overlapping m k = Val o /\
    fst (l_insert_overwrite T k v m) = insert_overwrite k v m /\
    some_more w (map fst o) /\ looks_at 2 (len m + 1) w (snd (l_insert_overwrite T k v m)).
  Proof.
    intros GT W Vk. unfold l_insert_overwrite, insert_overwrite. rewrite (iip_valid _ Vk). destruct (GT 0 m) as (E0 & d0 & B0).
    destruct (l_cut_same m k d0 (T 0 m) W Vk B0 E0) as (o & w & O & A & S & F). exists o, w. split; [exact O|].
    destruct (cut_size m k W Vk) as (m1 & out & E & L & _). destruct (cut_facts m k W Vk) as (A0 & M0 & B00 & out0 & ins0 & _ & _ & _ & _ & E' & _ & _ & W1).
    rewrite E in E'. injection E' as -> ->. set (m1 := A0 ++ out0 ++ B00) in *. destruct (GT 1 m1) as (E1 & d1 & B1).
    destruct (l_insert_same m1 k v d1 (T 1 m1) W1 B1 E1) as [A1 F1].
    rewrite fst_lbind, snd_lbind, A, E. cbv beta iota. rewrite fst_lbind, snd_lbind. cbn [lret fst snd]. rewrite A1, app_nil_r. split; [reflexivity|]. split; [exact S|].
    rewrite <- (app_nil_r w). apply (looks_app 1 1); [apply (looks_mono _ (len m)); [lia|exact F]|apply (looks_mono _ (len m1)); [unfold len in *; lia|exact F1]].
  Qed.
End Nodit.
