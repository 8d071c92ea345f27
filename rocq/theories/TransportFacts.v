(** * TransportFacts: the containers depend only on the order of the points, the
      end-points of the intervals, and not on the values. *)
From Coq Require Import List ZArith Bool Lia ZifyBool.
From Verif Require Import Base BTree UtilsModel IntervalModel NoditModel NoditOps ZosditModel ZosditOps Spec TransportOps
  PointFacts IntervalFacts ListFacts NoditFacts NoditQueries NoditGaps NoditMutations NoditMerges NoditInv ZosditFacts ZosditProofs.
Import ListNotations.
Open Scope Z_scope.

(** ** B-trees under a change of keys and values *)
Section Trees.
  Context {K L V W : Type} (h : K -> L) (g : V -> W).
  Notation snd_e := (fun e : K * V => (h (fst e), g (snd e))).
  Definition tr (m : list (K * V)) : list (L * W) := map snd_e m.

  Lemma seek_glue c (l : list (K * V)) : fst (seek c l) ++ snd (seek c l) = l.
  Proof.
    induction l as [|[k v] r IH]; cbn; [reflexivity|]. destruct (c k); [reflexivity..|].
    destruct (seek c r) as [a b]. cbn in *. rewrite IH. reflexivity.
  Qed.
  Lemma upper_bound_glue c (l : list (K * V)) : fst (upper_bound c l) ++ snd (upper_bound c l) = l.
  Proof.
    unfold upper_bound. pose proof (seek_glue c l) as Hg. destruct (seek c l) as [a b]. cbn [fst snd] in Hg.
    assert (Mp : fst (move_prev (a, b)) ++ snd (move_prev (a, b)) = a ++ b).
    { unfold move_prev. cbn [fst snd]. destruct (rev a) as [|x r] eqn:E.
      { apply (f_equal (@rev _)) in E. rewrite rev_involutive in E. rewrite E. cbn. apply app_nil_r. }
      cbn [fst snd]. apply (f_equal (@rev _)) in E. rewrite rev_involutive in E. rewrite E. cbn. rewrite <- app_assoc. reflexivity. }
    cbn [fst snd]. destruct b as [|[k v] b]; [rewrite Mp; exact Hg|]. destruct (c k); [exact Hg|rewrite Mp; exact Hg..].
  Qed.
  Lemma tr_app l l' : tr (l ++ l') = tr l ++ tr l'.
  Proof. apply map_app. Qed.
  Section Comp.
    Context (c : K -> comparison) (c' : L -> comparison) (Hc : forall k, c' (h k) = c k).
    Lemma seek_tr l : seek c' (tr l) = (tr (fst (seek c l)), tr (snd (seek c l))).
    Proof.
      induction l as [|[k v] r IH]; cbn; [reflexivity|]. rewrite Hc.
      destruct (c k); [reflexivity..|]. fold (tr r). rewrite IH. destruct (seek c r); reflexivity.
    Qed.
    Lemma get_key_value_tr l : get_key_value c' (tr l) = option_map snd_e (get_key_value c l).
    Proof.
      unfold get_key_value. rewrite seek_tr. cbn. destruct (snd (seek c l)) as [|[k v] r]; cbn; [reflexivity|].
      rewrite Hc. destruct (c k); reflexivity.
    Qed.
    Lemma get_key_tr l : option_map fst (get_key_value c' (tr l)) = option_map h (option_map fst (get_key_value c l)).
    Proof. rewrite get_key_value_tr. destruct (get_key_value c l); reflexivity. Qed.
    Lemma contains_key_tr l : contains_key c' (tr l) = contains_key c l.
    Proof. unfold contains_key. rewrite get_key_value_tr. destruct (get_key_value c l); reflexivity. Qed.
    Lemma remove_tr l : fst (remove c' (tr l)) = tr (fst (remove c l)).
    Proof.
      unfold remove. rewrite seek_tr. destruct (seek c l) as [a b] eqn:E. cbn.
      destruct b as [|[k v] r]; cbn; [reflexivity|]. rewrite Hc. destruct (c k); cbn; rewrite ?tr_app; reflexivity.
    Qed.
    Lemma get_mut_tr u u' l : (forall v, u' (g v) = g (u v)) ->
      get_mut c' u' (tr l) = (tr (fst (get_mut c u l)), option_map g (snd (get_mut c u l))).
    Proof.
      intros Hu. unfold get_mut. rewrite seek_tr. destruct (seek c l) as [a b] eqn:E. cbn.
      destruct b as [|[k v] r]; cbn; [reflexivity|]. rewrite Hc. destruct (c k); cbn; try reflexivity.
      rewrite tr_app. cbn. rewrite Hu. reflexivity.
    Qed.
    Lemma take_upper_tr l : take_upper c' (tr l) = tr (take_upper c l).
    Proof.
      induction l as [|[k v] r IH]; cbn; [reflexivity|]. rewrite Hc.
      destruct (c k); [reflexivity..|]. fold (tr r). rewrite IH. reflexivity.
    Qed.
    Lemma map_upper_tr u u' l : (forall k v, u' (h k) (g v) = g (u k v)) -> map_upper c' u' (tr l) = tr (map_upper c u l).
    Proof.
      intros Hu. induction l as [|[k v] r IH]; cbn; [reflexivity|]. rewrite Hc.
      fold (tr r). destruct (c k); cbn; rewrite ?IH, ?Hu; reflexivity.
    Qed.
    Lemma upper_bound_tr l : upper_bound c' (tr l) = (tr (fst (upper_bound c l)), tr (snd (upper_bound c l))).
    Proof.
      assert (Mp : forall a b, move_prev (tr a, tr b) = (tr (fst (move_prev (a, b))), tr (snd (move_prev (a, b))))).
      { intros a b. unfold move_prev. cbn. unfold tr. rewrite <- map_rev. destruct (rev a) as [|kv r]; cbn; [reflexivity|].
        rewrite map_rev. reflexivity. }
      unfold upper_bound. rewrite seek_tr. destruct (seek c l) as [a b] eqn:E. cbn [fst snd].
      destruct b as [|[k v] r]; [apply (Mp a [])|]. cbn. rewrite Hc.
      destruct (c k); [reflexivity|apply (Mp a ((k, v) :: r))..].
    Qed.
  End Comp.
  Lemma move_prev_tr a b : move_prev (tr a, tr b) = (tr (fst (move_prev (a, b))), tr (snd (move_prev (a, b)))).
  Proof.
    unfold move_prev. cbn. unfold tr. rewrite <- map_rev. destruct (rev a) as [|kv r]; cbn; [reflexivity|].
    rewrite map_rev. reflexivity.
  Qed.
  Lemma move_next_tr a b : move_next (tr a, tr b) = (tr (fst (move_next (a, b))), tr (snd (move_next (a, b)))).
  Proof. unfold move_next. destruct b as [|kv r]; cbn; [reflexivity|]. rewrite tr_app. reflexivity. Qed.
  Lemma cursor_key_tr a b : cursor_key (tr a, tr b) = option_map h (cursor_key (a, b)).
  Proof. destruct b as [|[k v] b]; reflexivity. Qed.
  Lemma range_tr c1 c1' c2 c2' l : (forall k, c1' (h k) = c1 k) -> (forall k, c2' (h k) = c2 k) ->
    range c1' c2' (tr l) = tr (range c1 c2 l).
  Proof. intros H1 H2. unfold range. rewrite (seek_tr c1) by exact H1. cbn [snd]. apply take_upper_tr, H2. Qed.
  Lemma range_mut_tr c1 c1' c2 c2' u u' l : (forall k, c1' (h k) = c1 k) -> (forall k, c2' (h k) = c2 k) ->
    (forall k v, u' (h k) (g v) = g (u k v)) -> range_mut c1' c2' u' (tr l) = tr (range_mut c1 c2 u l).
  Proof.
    intros H1 H2 Hu. unfold range_mut. rewrite (seek_tr c1) by exact H1. destruct (seek c1 l) as [a b]. cbn [fst snd].
    rewrite tr_app, (map_upper_tr c2) with (u := u) by assumption. reflexivity.
  Qed.
  Lemma insert_tr key v c c' l : (forall a b, c' (h a) (h b) = c a b) ->
    fst (insert (h key) (g v) c' (tr l)) = tr (fst (insert key v c l)).
  Proof.
    intros Hc. unfold insert. rewrite (seek_tr (fun inner => c inner key)) by (intros k; apply Hc).
    destruct (seek (fun inner => c inner key) l) as [a b] eqn:E. cbn.
    destruct b as [|[k w] r]; cbn; rewrite ?tr_app; [reflexivity|]. rewrite Hc. destruct (c k key); cbn; rewrite ?tr_app; reflexivity.
  Qed.
  Lemma map_values_tr u u' l : (forall k v, u' (h k) (g v) = g (u k v)) -> map_values u' (tr l) = tr (map_values u l).
  Proof.
    intros Hu. unfold map_values, tr. rewrite !map_map. apply map_ext. intros [k v]. cbn. rewrite Hu. reflexivity.
  Qed.
End Trees.

Section Points.
  Context {I J : Type} {OI : Ord I} {DI : DiscreteFinite I} {PI : PointLaws I}.
  Context {OJ : Ord J} {DJ : DiscreteFinite J} {PJ : PointLaws J} {OLJ : OrdLaws J}.
  Context (f : I -> J) (Ef : embeds f).

  Lemma f_cmp x y : cmp (f x) (f y) = cmp x y.
  Proof.
    destruct Ef as (M & Q & _). rewrite !cmp_rk. destruct (Z.compare_spec (rk x) (rk y)) as [E|E|E].
    - apply rk_eq, Q in E. rewrite <- cmp_rk. exact E.
    - assert (P : plt x y) by (apply plt_rk; exact E). apply M, plt_rk in P. apply Z.compare_lt_iff, P.
    - assert (P : plt y x) by (apply plt_rk; exact E). apply M, plt_rk in P. apply Z.compare_gt_iff, P.
  Qed.
  Lemma f_rk_lt x y : rk (f x) < rk (f y) <-> rk x < rk y.
  Proof. pose proof (f_cmp x y) as E. rewrite !cmp_rk in E. rewrite <- !Z.compare_lt_iff, E. reflexivity. Qed.
  Lemma f_rk_eq x y : rk x = rk y -> rk (f x) = rk (f y).
  Proof. intros E. apply rk_eq. rewrite f_cmp. apply rk_eq, E. Qed.
  Lemma f_up x y : up x = Some y -> up (f x) = Some (f y).
  Proof.
    intros E. apply up_rk in E. apply up_iff. assert (L : rk (f x) < rk (f y)) by (apply f_rk_lt; lia).
    destruct (Z.eq_dec (rk (f y)) (rk (f x) + 1)) as [Ey|Ny]; [exact Ey|exfalso].
    destruct (up_exists (f x) (f y) L) as (z & _ & Hz). destruct Ef as (_ & _ & Hc).
    destruct (Hc x y z) as (w & ->); [apply plt_rk; lia|apply plt_rk; lia|].
    assert (rk x < rk w) by (apply f_rk_lt; lia). assert (rk w < rk y) by (apply f_rk_lt; lia). lia.
  Qed.
  Lemma f_down x y : down x = Some y -> down (f x) = Some (f y).
  Proof.
    intros E. apply down_rk in E. apply down_iff. destruct (up_exists y x) as (u & U & Hu); [lia|].
    apply f_up, up_rk in U. rewrite (f_rk_eq x u) by lia. lia.
  Qed.
  Lemma f_ltb x y : ltb (f x) (f y) = ltb x y.
  Proof. unfold ltb. rewrite f_cmp. reflexivity. Qed.
  Lemma f_leb x y : leb (f x) (f y) = leb x y.
  Proof. unfold leb. rewrite f_cmp. reflexivity. Qed.
  Lemma f_gtb x y : gtb (f x) (f y) = gtb x y.
  Proof. unfold gtb. rewrite f_cmp. reflexivity. Qed.
  Lemma f_geb x y : geb (f x) (f y) = geb x y.
  Proof. unfold geb. rewrite f_cmp. reflexivity. Qed.
  Lemma f_eqb x y : eqb (f x) (f y) = eqb x y.
  Proof. unfold eqb. rewrite f_cmp. reflexivity. Qed.

  Definition fi (i : Interval I) : Interval J := mkInterval (f (ivl_start i)) (f (ivl_end i)).

  Section Two.
    Context {A A' B B' : Type} {IA : InclusiveInterval I A} {IA' : InclusiveInterval J A'}.
    Context {IB : InclusiveInterval I B} {IB' : InclusiveInterval J B'}.


    Lemma is_valid_f (a : A) (a' : A') : carried f a a' -> is_valid a' = is_valid a.
    Proof. intros [E1 E2]. unfold is_valid. rewrite E1, E2. apply f_leb. Qed.
    Lemma iip_f (a : A) (a' : A') : carried f a a' -> invalid_interval_panic a' = invalid_interval_panic a.
    Proof. intros C. unfold invalid_interval_panic. rewrite (is_valid_f a a' C). reflexivity. Qed.
    Lemma inclusive_comp_f (a : A) (a' : A') p x : carried f a a' -> inclusive_comp (f p) x a' = inclusive_comp p x a.
    Proof. intros [E1 E2]. unfold inclusive_comp. rewrite E1, E2, f_ltb, f_gtb. reflexivity. Qed.
    Lemma exclusive_comp_f (a : A) (a' : A') p x : carried f a a' -> exclusive_comp (f p) x a' = exclusive_comp p x a.
    Proof. intros [E1 E2]. unfold exclusive_comp. rewrite E1, E2, !f_eqb, f_leb, f_geb. reflexivity. Qed.
    Lemma overlapping_comp_f (a : A) (a' : A') p : carried f a a' -> overlapping_comp (f p) a' = overlapping_comp p a.
    Proof. apply inclusive_comp_f. Qed.
    Lemma touching_start_f (a : A) (a' : A') p : carried f a a' -> touching_start_comp (f p) a' = touching_start_comp p a.
    Proof.
      intros [E1 E2]. unfold touching_start_comp. rewrite E2. destruct (up (iend a)) as [t|] eqn:U.
      - rewrite (f_up _ _ U). apply f_cmp.
      - destruct (up (f (iend a))) as [t'|] eqn:U'; [|reflexivity]. apply up_none_rk in U. apply up_rk in U'.
        rewrite cmp_rk. apply Z.compare_lt_iff. pose proof (rk_max p).
        destruct (Z.eq_dec (rk p) (rk (iend a))) as [E|N]; [apply f_rk_eq in E; lia|].
        assert (rk (f p) < rk (f (iend a))) by (apply f_rk_lt; lia). lia.
    Qed.
    Lemma touching_end_f (a : A) (a' : A') p : carried f a a' -> touching_end_comp (f p) a' = touching_end_comp p a.
    Proof.
      intros [E1 E2]. unfold touching_end_comp. rewrite E1. destruct (down (istart a)) as [t|] eqn:U.
      - rewrite (f_down _ _ U). apply f_cmp.
      - destruct (down (f (istart a))) as [t'|] eqn:U'; [|reflexivity]. apply down_none_rk in U. apply down_rk in U'.
        rewrite cmp_rk. apply Z.compare_gt_iff. pose proof (rk_min p).
        destruct (Z.eq_dec (rk p) (rk (istart a))) as [E|N]; [apply f_rk_eq in E; lia|].
        assert (rk (f (istart a)) < rk (f p)) by (apply f_rk_lt; lia). lia.
    Qed.
    Lemma contains_f (a : A) (a' : A') p : carried f a a' -> utils_contains_point a' (f p) = utils_contains_point a p.
    Proof. intros C. unfold utils_contains_point, cmp_point_with_interval. rewrite (inclusive_comp_f a a' p Eq C). reflexivity. Qed.
  End Two.
  Section Three.
    Context {A A' B B' : Type} {IA : InclusiveInterval I A} {IA' : InclusiveInterval J A'}.
    Context {IB : InclusiveInterval I B} {IB' : InclusiveInterval J B'}.


    Lemma config_f (a : A) (a' : A') (b : B) (b' : B') : carried f a a' -> carried f b b' -> config a' b' = config a b.
    Proof.
      intros C D. pose proof C as [E1 E2]. pose proof D as [D1 D2]. unfold config.
      rewrite E1, E2, D1, D2, f_ltb, !(contains_f a a' _ C), !(contains_f b b' _ D). reflexivity.
    Qed.
    Lemma overlaps_f (a : A) (a' : A') (b : B) (b' : B') : carried f a a' -> carried f b b' -> overlaps a' b' = overlaps a b.
    Proof.
      intros C D. unfold overlaps, sorted_config. rewrite (config_f a a' b b' C D).
      destruct (config a b) as [[]|]; reflexivity.
    Qed.
    Definition fcut (r : CutResult I) : CutResult J :=
      mkCut (option_map fi (before_cut r)) (option_map fi (inside_cut r)) (option_map fi (after_cut r)).
    Lemma filter_valid_f o : filter_valid (option_map fi o) = option_map fi (filter_valid o).
    Proof.
      destruct o as [i|]; [|reflexivity]. cbn. rewrite (is_valid_f i (fi i)) by (split; reflexivity).
      destruct (is_valid i); reflexivity.
    Qed.
    Lemma cut_interval_f (a : A) (a' : A') (b : B) (b' : B') : carried f a a' -> carried f b b' -> lo a <= hi a ->
      cut_interval a' b' = omap fcut (cut_interval a b).
    Proof.
      intros C D Va. pose proof C as [E1 E2]. pose proof D as [D1 D2]. unfold cut_interval, cut_interval_raw.
      rewrite (config_f a a' b b' C D). destruct (config a b) as [c|] eqn:Ec; cbn [obind omap]; [|reflexivity].
      assert (Sp : forall o, filter_valid (option_map fi o) = option_map fi (filter_valid o)) by exact filter_valid_f.
      assert (Mk : forall x y, mkInterval (f x) (f y) = fi (mkInterval x y)) by reflexivity.
      unfold config, utils_contains_point, cmp_point_with_interval, inclusive_comp in Ec.
      rewrite !ltb_rk, !gtb_rk in Ec. unfold lo, hi in Va.
      destruct c; rewrite ?E1, ?E2, ?D1, ?D2, ?Mk.
      - cbn [obind omap before_cut inside_cut after_cut]. unfold fcut. cbn [before_cut inside_cut after_cut].
        rewrite <- !Sp. reflexivity.
      - destruct (down (istart b)) as [d|] eqn:Ed.
        + rewrite (f_down _ _ Ed). cbn [unwrap obind omap before_cut inside_cut after_cut]. unfold fcut.
          cbn [before_cut inside_cut after_cut]. rewrite <- !Sp. reflexivity.
        + exfalso. apply down_none_rk in Ed. pose proof (rk_min (istart a)).
          destruct (Z.ltb_spec (rk (istart a)) (rk (istart b))); [lia|].
          repeat match type of Ec with context [if ?x then _ else _] => destruct x end; discriminate.
      - destruct (down (istart b)) as [d|] eqn:Ed.
        + rewrite (f_down _ _ Ed). cbn [unwrap obind omap before_cut inside_cut after_cut]. unfold fcut.
          cbn [before_cut inside_cut after_cut]. rewrite <- !Sp. f_equal. f_equal.
          destruct (up (iend b)) as [u|] eqn:Eu; [rewrite (f_up _ _ Eu); reflexivity|].
          destruct (up (f (iend b))) as [u'|] eqn:Eu'; [|reflexivity]. cbn. unfold is_valid. cbn. rewrite leb_rk.
          apply up_none_rk in Eu. apply up_rk in Eu'. pose proof (rk_max (iend a)).
          assert (rk (f (iend a)) <= rk (f (iend b))).
          { destruct (Z.eq_dec (rk (iend a)) (rk (iend b))) as [E|N]; [apply f_rk_eq in E; lia|].
            assert (rk (f (iend a)) < rk (f (iend b))) by (apply f_rk_lt; lia). lia. }
          destruct (Z.leb_spec (rk u') (rk (f (iend a)))); [lia|reflexivity].
        + exfalso. apply down_none_rk in Ed. pose proof (rk_min (istart a)).
          destruct (Z.ltb_spec (rk (istart a)) (rk (istart b))); [lia|].
          repeat match type of Ec with context [if ?x then _ else _] => destruct x end; discriminate.
      - cbn [obind omap before_cut inside_cut after_cut]. unfold fcut. cbn [before_cut inside_cut after_cut].
        rewrite <- !Sp. reflexivity.
      - destruct (up (iend b)) as [u|] eqn:Eu.
        + rewrite (f_up _ _ Eu). cbn [unwrap obind omap before_cut inside_cut after_cut]. unfold fcut.
          cbn [before_cut inside_cut after_cut]. rewrite <- !Sp. reflexivity.
        + exfalso. apply up_none_rk in Eu. pose proof (rk_max (iend a)).
          repeat match type of Ec with context [if ?x <? ?y then _ else _] => destruct (Z.ltb_spec x y) end; try discriminate; lia.
      - cbn [obind omap before_cut inside_cut after_cut]. unfold fcut. cbn [before_cut inside_cut after_cut].
        rewrite <- !Sp. reflexivity.
    Qed.
  End Three.
End Points.

(** ** NoditMap *)
Section Maps.
  Context {I J : Type} {OI : Ord I} {DI : DiscreteFinite I} {PI : PointLaws I}.
  Context {OJ : Ord J} {DJ : DiscreteFinite J} {PJ : PointLaws J} {OLJ : OrdLaws J}.
  Context (f : I -> J) (Ef : embeds f).
  Context {K L : Type} {IK : InclusiveInterval I K} {IKL : IntervalLaws I K} {IL : InclusiveInterval J L}.
  Context (h : K -> L) (Eh : converts f h).
  Context {V W : Type} (g : V -> W).
  Notation trv := (tr h g).
  Notation sende := (fun e : K * V => (h (fst e), g (snd e))).

  Lemma h_carried k : carried f k (h k).
  Proof. apply Eh. Qed.
  Lemma h_from i : h (ifrom i) = ifrom (fi f i).
  Proof. apply Eh. Qed.
  Definition trr {A B} (a : A -> B) (x : NoditMap K V * outcome A) : NoditMap L W * outcome B :=
    (trv (fst x), omap a (snd x)).
  Definition okkeys (m : NoditMap K V) : Prop := forall e, In e m -> lo (fst e) <= hi (fst e).

  Section Queries.
    Context {Q R : Type} {IQ : InclusiveInterval I Q} {IR : InclusiveInterval J R}.
    Implicit Types (m : NoditMap K V).
    Lemma overlapping_tr m (q : Q) (r : R) : carried f q r -> overlapping (trv m) r = omap trv (overlapping m q).
    Proof.
      intros C. unfold overlapping. rewrite (iip_f f Ef q r C). destruct (invalid_interval_panic q); cbn; [|reflexivity].
      destruct C as [E1 E2]. rewrite E1, E2. f_equal. apply range_tr; intros k; apply overlapping_comp_f, h_carried; exact Ef.
    Qed.
    Lemma map_overlaps_tr m (q : Q) (r : R) : carried f q r -> map_overlaps (trv m) r = map_overlaps m q.
    Proof.
      intros C. unfold map_overlaps. rewrite (iip_f f Ef q r C), (overlapping_tr m q r C).
      destruct (invalid_interval_panic q); cbn; [|reflexivity]. destruct (overlapping m q) as [[|]|]; reflexivity.
    Qed.
    Lemma overlapping_mut_tr u u' (q : Q) (r : R) m : carried f q r -> (forall k v, u' (h k) (g v) = g (u k v)) ->
      overlapping_mut u' r (trv m) = trr (fun x => x) (overlapping_mut u q m).
    Proof.
      intros C Hu. unfold overlapping_mut, trr. rewrite (iip_f f Ef q r C).
      destruct (invalid_interval_panic q); cbn; [|reflexivity]. destruct C as [E1 E2]. rewrite E1, E2. f_equal.
      apply range_mut_tr; [intros k; apply overlapping_comp_f, h_carried; exact Ef..|exact Hu].
    Qed.
    Lemma remove_loop_tr (q : Q) (r : R) pre post acc : carried f q r ->
      remove_overlapping_loop r (trv pre) (trv post) (trv acc) = trr trv (remove_overlapping_loop q pre post acc).
    Proof.
      intros C. revert acc. induction post as [|[k v] rest IH]; intros acc; cbn.
      - unfold trr, tr. cbn. rewrite map_app. reflexivity.
      - unfold trr in *. cbn. rewrite (overlaps_f f Ef q r k (h k) C (h_carried k)).
        destruct (overlaps q k) as [[|]|]; cbn; unfold tr; rewrite ?map_app; try reflexivity.
        specialize (IH (acc ++ [(k, v)])). rewrite tr_app in IH. exact IH.
    Qed.
    Lemma remove_overlapping_tr (q : Q) (r : R) m : carried f q r ->
      remove_overlapping r (trv m) = trr trv (remove_overlapping q m).
    Proof.
      intros C. unfold remove_overlapping. rewrite (iip_f f Ef q r C). destruct (invalid_interval_panic q); [|reflexivity].
      unfold lower_bound. rewrite (proj1 C), (seek_tr h g (overlapping_comp (istart q))).
      - apply (remove_loop_tr q r _ _ [] C).
      - intros k. apply overlapping_comp_f, h_carried. exact Ef.
    Qed.
    Lemma insert_piece_tr p v pre : insert_piece (option_map (fi f) p) (g v) (trv pre) = trv (insert_piece p v pre).
    Proof. destruct p; cbn; [unfold tr; rewrite map_app; cbn; rewrite h_from|]; reflexivity. Qed.
    Lemma cut_loop_tr (q : Q) (r : R) pre post acc : carried f q r -> okkeys post ->
      cut_loop r (trv pre) (trv post) (trv acc) = trr trv (cut_loop q pre post acc).
    Proof.
      intros C. revert pre acc. induction post as [|[k v] rest IH]; intros pre acc Hk.
      - unfold trr. cbn [cut_loop fst snd omap]. rewrite tr_app. reflexivity.
      - assert (Vk : lo k <= hi k) by (apply (Hk (k, v)); left; reflexivity).
        assert (Hr : okkeys rest) by (intros e He; apply Hk; right; exact He).
        assert (Cons : trv ((k, v) :: rest) = (h k, g v) :: trv rest) by reflexivity.
        rewrite Cons. cbn [cut_loop]. rewrite <- Cons.
        rewrite (overlaps_f f Ef k (h k) q r (h_carried k) C).
        unfold trr. destruct (overlaps k q) as [[|]|]; cbn [fst snd omap]; rewrite ?tr_app; try reflexivity.
        rewrite (cut_interval_f f Ef k (h k) q r (h_carried k) C Vk).
        destruct (cut_interval k q) as [c|]; cbn [fst snd omap]; rewrite ?tr_app; try reflexivity.
        cbn [fcut before_cut inside_cut after_cut]. rewrite !insert_piece_tr.
        destruct (inside_cut c) as [i|]; cbn [option_map fst snd omap]; rewrite ?tr_app; try reflexivity.
        specialize (IH (insert_piece (after_cut c) v (insert_piece (before_cut c) v pre)) (acc ++ [(ifrom i, v)]) Hr).
        rewrite tr_app in IH. cbn [tr map fst snd] in IH. rewrite h_from in IH. exact IH.
    Qed.
    Lemma cut_tr (q : Q) (r : R) m : carried f q r -> okkeys m -> cut r (trv m) = trr trv (cut q m).
    Proof.
      intros C Hk. unfold cut. rewrite (iip_f f Ef q r C). destruct (invalid_interval_panic q); [|reflexivity].
      unfold lower_bound. rewrite (proj1 C), (seek_tr h g (overlapping_comp (istart q))).
      - apply (cut_loop_tr q r _ _ [] C). intros e He. apply Hk. rewrite <- (seek_glue (overlapping_comp (istart q)) m).
        apply in_or_app. right. exact He.
      - intros k. apply overlapping_comp_f, h_carried. exact Ef.
    Qed.
  End Queries.

  (** ** Points *)
  Implicit Types (m : NoditMap K V).
  Definition cval (x : outcome (result (K * V) K)) : option (K * V) :=
    match x with Val (Ok e) => Some e | _ => None end.
  Lemma get_gap_val m p x : get_gap_at_raw m p = Val x -> exists y, get_gap_at_raw (trv m) (f p) = Val y.
  Proof.
    unfold get_gap_at_raw, lower_bound.
    assert (Hc : forall k, overlapping_comp (f p) (h k) = overlapping_comp p k)
      by (intros k; apply overlapping_comp_f, h_carried; exact Ef).
    rewrite (upper_bound_tr h g _ _ Hc), (seek_tr h g _ _ Hc), !cursor_key_tr, <- !surjective_pairing.
    destruct (cursor_key (upper_bound (overlapping_comp p) m)) as [k|]; cbn [option_map].
    - rewrite (proj2 (h_carried k)). destruct (up (iend k)) as [u|] eqn:Eu; [|discriminate]. rewrite (f_up f Ef _ _ Eu).
      cbn [unwrap obind]. destruct (cursor_key (seek (overlapping_comp p) m)) as [k'|]; cbn [option_map]; [|eexists; reflexivity].
      rewrite (proj1 (h_carried k')). destruct (down (istart k')) as [d|] eqn:Ed; [|discriminate].
      rewrite (f_down f Ef _ _ Ed). eexists; reflexivity.
    - cbn [unwrap obind]. destruct (cursor_key (seek (overlapping_comp p) m)) as [k'|]; cbn [option_map]; [|eexists; reflexivity].
      rewrite (proj1 (h_carried k')). destruct (down (istart k')) as [d|] eqn:Ed; [|discriminate].
      rewrite (f_down f Ef _ _ Ed). eexists; reflexivity.
  Qed.
  Lemma get_key_value_at_point_tr m p : WF m ->
    (exists e, get_key_value_at_point m p = Val (Ok e) /\ get_key_value_at_point (trv m) (f p) = Val (Ok (sende e))) \/
    (exists k k', get_key_value_at_point m p = Val (Err k) /\ get_key_value_at_point (trv m) (f p) = Val (Err k')).
  Proof.
    intros Wm. unfold get_key_value_at_point at 2 4.
    rewrite (get_key_value_tr h g (overlapping_comp p)) by (intros k; apply overlapping_comp_f, h_carried; exact Ef).
    assert (Np : get_key_value_at_point m p <> Panic).
    { destruct (covered_dec m p Wm) as [(k & v & He & Hc)|Hn].
      - rewrite (proj2 (get_key_value_at_point_Ok m p Wm k v)) by (split; assumption). discriminate.
      - destruct (get_key_value_at_point_Err m p Wm Hn) as (x & -> & _). discriminate. }
    unfold get_key_value_at_point in *.
    destruct (get_key_value (overlapping_comp p) m) as [e|] eqn:E; cbn [option_map]; [left; exists e; split; reflexivity|].
    right. destruct (get_gap_at_raw m p) as [x|] eqn:G; [|exfalso; apply Np; reflexivity].
    destruct (get_gap_val m p x G) as (y & ->). cbn. eauto.
  Qed.
  Lemma get_at_point_tr m p : WF m -> get_at_point (trv m) (f p) = omap (option_map g) (get_at_point m p).
  Proof.
    intros Wm. unfold get_at_point. destruct (get_key_value_at_point_tr m p Wm) as [([k v] & -> & ->)|(k & k' & -> & ->)]; reflexivity.
  Qed.
  Lemma map_contains_point_tr m p : WF m -> map_contains_point (trv m) (f p) = map_contains_point m p.
  Proof.
    intros Wm. unfold map_contains_point. destruct (get_key_value_at_point_tr m p Wm) as [([k v] & -> & ->)|(k & k' & -> & ->)]; reflexivity.
  Qed.
  Lemma get_at_point_mut_tr u u' p m : (forall v, u' (g v) = g (u v)) ->
    get_at_point_mut u' (f p) (trv m) = (trv (fst (get_at_point_mut u p m)), option_map g (snd (get_at_point_mut u p m))).
  Proof. intros Hu. apply get_mut_tr; [|exact Hu]. intros k. apply overlapping_comp_f, h_carried. exact Ef. Qed.

  (** ** Insertions *)
  Implicit Types (k : K) (v : V).
  Lemma starts_comp_tr a b : starts_comp (h a) (h b) = starts_comp a b.
  Proof. unfold starts_comp. rewrite (proj1 (h_carried a)), (proj1 (h_carried b)). apply f_cmp, Ef. Qed.
  Lemma insert_unchecked_tr k v m : insert_unchecked (h k) (g v) (trv m) = trv (insert_unchecked k v m).
  Proof. apply insert_tr, starts_comp_tr. Qed.
  Lemma insert_strict_tr k v m : insert_strict (h k) (g v) (trv m) = trr (send_error g (fun x => x)) (insert_strict k v m).
  Proof.
    unfold insert_strict, trr. rewrite (iip_f f Ef k (h k) (h_carried k)), (map_overlaps_tr m k (h k) (h_carried k)), insert_unchecked_tr.
    destruct (invalid_interval_panic k); [|reflexivity]. destruct (map_overlaps m k) as [[|]|]; reflexivity.
  Qed.
  Lemma insert_merge_with_comps_tr k v gs ge rs re gs' ge' rs' re' m :
    (forall x, gs' (trv x) (g v) = option_map h (gs x v)) -> (forall x, ge' (trv x) (g v) = option_map h (ge x v)) ->
    (forall x, rs' (trv x) (g v) = trv (rs x v)) -> (forall x, re' (trv x) (g v) = trv (re x v)) ->
    insert_merge_with_comps (h k) (g v) gs' ge' rs' re' (trv m) =
    trr h (insert_merge_with_comps k v gs ge rs re m).
  Proof.
    intros Hgs Hge Hrs Hre. unfold insert_merge_with_comps. rewrite (iip_f f Ef k (h k) (h_carried k)).
    destruct (invalid_interval_panic k); [|reflexivity].
    rewrite Hgs, Hge, (remove_overlapping_tr k (h k) m (h_carried k)). unfold trr at 1.
    destruct (remove_overlapping k m) as [m1 [rem|]]; cbn [fst snd omap]; [|reflexivity].
    rewrite Hrs, Hre. unfold trr. cbn [fst snd omap]. rewrite <- insert_unchecked_tr.
    destruct (gs m v) as [s|], (ge m v) as [e|]; cbn [option_map];
      rewrite ?h_from; unfold fi; cbn [ivl_start ivl_end];
      rewrite ?(proj1 (h_carried s)), ?(proj2 (h_carried e)), ?(proj1 (h_carried k)), ?(proj2 (h_carried k)); reflexivity.
  Qed.
  Lemma touch_s p k : touching_start_comp (f p) (h k) = touching_start_comp p k.
  Proof. apply touching_start_f, h_carried. exact Ef. Qed.
  Lemma touch_e p k : touching_end_comp (f p) (h k) = touching_end_comp p k.
  Proof. apply touching_end_f, h_carried. exact Ef. Qed.
  Lemma overl_c p k : overlapping_comp (f p) (h k) = overlapping_comp p k.
  Proof. apply overlapping_comp_f, h_carried. exact Ef. Qed.
  Ltac side k := intros; cbn beta; rewrite ?(proj1 (h_carried k)), ?(proj2 (h_carried k));
    first [ apply get_key_tr; intros; first [apply touch_s|apply touch_e|apply overl_c]
          | apply remove_tr; intros; first [apply touch_s|apply touch_e|apply overl_c] | reflexivity ].
  Lemma insert_merge_touching_tr k v m :
    insert_merge_touching (h k) (g v) (trv m) = trr (send_error g h) (insert_merge_touching k v m).
  Proof.
    unfold insert_merge_touching. rewrite (iip_f f Ef k (h k) (h_carried k)), (map_overlaps_tr m k (h k) (h_carried k)).
    destruct (invalid_interval_panic k); [|reflexivity]. destruct (map_overlaps m k) as [[|]|]; [reflexivity| |reflexivity].
    rewrite (insert_merge_with_comps_tr k v
      (fun m _ => option_map fst (get_key_value (touching_start_comp (istart k)) m))
      (fun m _ => option_map fst (get_key_value (touching_end_comp (iend k)) m))
      (fun m _ => fst (remove (touching_start_comp (istart k)) m))
      (fun m _ => fst (remove (touching_end_comp (iend k)) m))) by side k.
    unfold trr at 1. destruct (insert_merge_with_comps _ _ _ _ _ _ _) as [m' [r|]]; reflexivity.
  Qed.
  Lemma insert_merge_overlapping_tr k v m :
    insert_merge_overlapping (h k) (g v) (trv m) = trr h (insert_merge_overlapping k v m).
  Proof.
    unfold insert_merge_overlapping. rewrite (iip_f f Ef k (h k) (h_carried k)). destruct (invalid_interval_panic k); [|reflexivity].
    apply insert_merge_with_comps_tr; side k.
  Qed.
  Lemma option_or_tr (a b : option K) : option_or (option_map h a) (option_map h b) = option_map h (option_or a b).
  Proof. destruct a; reflexivity. Qed.
  Lemma insert_merge_tor_tr k v m : insert_merge_touching_or_overlapping (h k) (g v) (trv m) =
    trr h (insert_merge_touching_or_overlapping k v m).
  Proof.
    unfold insert_merge_touching_or_overlapping. rewrite (iip_f f Ef k (h k) (h_carried k)).
    destruct (invalid_interval_panic k); [|reflexivity].
    apply insert_merge_with_comps_tr; try (side k).
    - intros x. rewrite (proj1 (h_carried k)), (get_key_tr h g _ _ (touch_s (istart k))), (get_key_tr h g _ _ (overl_c (istart k))).
      apply option_or_tr.
    - intros x. rewrite (proj2 (h_carried k)), (get_key_tr h g _ _ (touch_e (iend k))), (get_key_tr h g _ _ (overl_c (iend k))).
      apply option_or_tr.
  Qed.
  Lemma get_if_equal_tr veq veq' comp comp' v m : (forall x y, veq' (g x) (g y) = veq x y) ->
    (forall k, comp' (h k) = comp k) -> get_if_equal veq' comp' (trv m) (g v) = option_map h (get_if_equal veq comp m v).
  Proof.
    intros Hv Hc. unfold get_if_equal. rewrite (get_key_value_tr h g comp comp' Hc).
    destruct (get_key_value comp m) as [[k' v']|]; cbn; [|reflexivity]. rewrite Hv. destruct (veq v' v); reflexivity.
  Qed.
  Lemma is_some_tr {A B} (a : A -> B) o : is_some (option_map a o) = is_some o.
  Proof. destruct o; reflexivity. Qed.
  Lemma insert_merge_touching_if_tr veq veq' k v m : (forall x y, veq' (g x) (g y) = veq x y) ->
    insert_merge_touching_if_values_equal veq' (h k) (g v) (trv m) =
    trr (send_error g h) (insert_merge_touching_if_values_equal veq k v m).
  Proof.
    intros Hv. unfold insert_merge_touching_if_values_equal.
    rewrite (iip_f f Ef k (h k) (h_carried k)), (map_overlaps_tr m k (h k) (h_carried k)).
    destruct (invalid_interval_panic k); [|reflexivity]. destruct (map_overlaps m k) as [[|]|]; [reflexivity| |reflexivity].
    rewrite (insert_merge_with_comps_tr k v
      (get_if_equal veq (touching_start_comp (istart k))) (get_if_equal veq (touching_end_comp (iend k)))
      (fun m value => if is_some (get_if_equal veq (touching_start_comp (istart k)) m value)
                      then fst (remove (touching_start_comp (istart k)) m) else m)
      (fun m value => if is_some (get_if_equal veq (touching_end_comp (iend k)) m value)
                      then fst (remove (touching_end_comp (iend k)) m) else m)).
    - unfold trr at 1. destruct (insert_merge_with_comps _ _ _ _ _ _ _) as [m' [r|]]; reflexivity.
    - intros x. rewrite (proj1 (h_carried k)). apply get_if_equal_tr; [exact Hv|apply touch_s].
    - intros x. rewrite (proj2 (h_carried k)). apply get_if_equal_tr; [exact Hv|apply touch_e].
    - intros x. rewrite (proj1 (h_carried k)), (get_if_equal_tr veq veq' _ _ v x Hv (touch_s (istart k))), is_some_tr.
      destruct (is_some _); [apply remove_tr, touch_s|reflexivity].
    - intros x. rewrite (proj2 (h_carried k)), (get_if_equal_tr veq veq' _ _ v x Hv (touch_e (iend k))), is_some_tr.
      destruct (is_some _); [apply remove_tr, touch_e|reflexivity].
  Qed.
  Lemma insert_overwrite_tr k v m : okkeys m ->
    insert_overwrite (h k) (g v) (trv m) = trr trv (insert_overwrite k v m).
  Proof.
    intros Hk. unfold insert_overwrite. rewrite (iip_f f Ef k (h k) (h_carried k)). destruct (invalid_interval_panic k); [|reflexivity].
    rewrite (cut_tr k (h k) m (h_carried k) Hk). unfold trr at 1. destruct (cut k m) as [m' [c|]]; cbn [fst snd omap]; [|reflexivity].
    rewrite insert_unchecked_tr. reflexivity.
  Qed.
  Lemma extend_strict_tr l m : extend_strict (map sende l) (trv m) = omap (send_error g trv) (extend_strict l m).
  Proof.
    revert m. induction l as [|[k v] r IH]; intros m; [reflexivity|].
    cbn [map extend_strict fst snd].
    rewrite insert_strict_tr. cbn [extend_strict]. destruct (insert_strict k v m) as [m' [[u|e]|]]; cbn; [|reflexivity..].
    apply IH.
  Qed.
  Lemma from_iter_strict_tr l : from_iter_strict (map sende l) = omap (send_error g trv) (from_iter_strict l).
  Proof. apply (extend_strict_tr l []). Qed.
  Definition trde (r : result (NoditMap K V) de_error) : result (NoditMap L W) de_error :=
    match r with Ok m => Ok (trv m) | Err e => Err e end.
  Lemma visit_seq_tr l m : visit_seq (map (option_map sende) l) (trv m) = omap trde (visit_seq l m).
  Proof.
    revert m. induction l as [|[[k v]|] r IH]; intros m; [reflexivity| |reflexivity].
    cbn [map visit_seq option_map fst snd].
    rewrite insert_strict_tr. destruct (insert_strict k v m) as [m' [[u|e]|]]; cbn; [|reflexivity..].
    apply IH.
  Qed.
  Lemma deserialize_tr l : deserialize (map (option_map sende) l) = omap trde (deserialize l).
  Proof. apply (visit_seq_tr l []). Qed.

  Lemma WF_okkeys m : WF m -> okkeys m.
  Proof. intros Wm [k v] He. exact (WF_okv m (k, v) Wm He). Qed.

  Lemma step_tr m o o' : WF m -> op_sent f h g o o' -> step (trv m) o' = trv (step m o).
  Proof.
    intros Wm So. pose proof (WF_okkeys m Wm) as Hk. destruct So; cbn [step].
    - reflexivity.
    - rewrite insert_strict_tr. reflexivity.
    - rewrite insert_merge_touching_tr. reflexivity.
    - rewrite (insert_merge_touching_if_tr veq veq') by assumption. reflexivity.
    - rewrite insert_merge_overlapping_tr. reflexivity.
    - rewrite insert_merge_tor_tr. reflexivity.
    - rewrite insert_overwrite_tr by exact Hk. reflexivity.
    - rewrite (remove_overlapping_tr q r) by assumption. reflexivity.
    - rewrite (cut_tr q r) by assumption. reflexivity.
    - rewrite (overlapping_mut_tr u u' q r) by assumption. reflexivity.
    - rewrite (get_at_point_mut_tr u u') by assumption. reflexivity.
    - unfold iter_mut. apply map_values_tr. assumption.
    - change (map (send h g) l) with (map sende l). rewrite from_iter_strict_tr. destruct (from_iter_strict l) as [[m'|e]|]; reflexivity.
    - change (map (option_map (send h g)) l) with (map (option_map sende) l). rewrite deserialize_tr.
      destruct (deserialize l) as [[m'|e]|]; reflexivity.
  Qed.
  Lemma run_tr os os' : Forall2 (op_sent f h g) os os' -> run os' = trv (run os).
  Proof.
    unfold run. intros F. assert (Wm : WF (@new K V)) by apply WF_nil. change (@new L W) with (trv (@new K V)).
    revert Wm. generalize (@new K V). induction F as [|o o' os os' Ho F IH]; intros m Wm; cbn; [reflexivity|].
    rewrite (step_tr m o o' Wm Ho). apply IH, step_WF, Wm.
  Qed.
End Maps.

(** ** Gaps: the image must be everything *)
Section Gaps.
  Context {I J : Type} {OI : Ord I} {DI : DiscreteFinite I} {PI : PointLaws I}.
  Context {OJ : Ord J} {DJ : DiscreteFinite J} {PJ : PointLaws J} {OLJ : OrdLaws J}.
  Context (f : I -> J) (Ef : embeds f) (Oe : onto_ends f).
  Context {K L : Type} {IK : InclusiveInterval I K} {IL : InclusiveInterval J L}.
  Context (h : K -> L) (Eh : converts f h).
  Context {V W : Type} (g : V -> W).
  Notation trv := (tr h g).
  Implicit Types (m : NoditMap K V).

  Lemma f_up_iso x : up (f x) = option_map f (up x).
  Proof.
    destruct (up x) as [y|] eqn:E; cbn; [apply f_up; [exact Ef|exact E]|].
    apply up_none_rk in E. apply up_none_rk. rewrite <- (proj2 Oe). apply f_rk_eq; [exact Ef|exact E].
  Qed.
  Lemma f_down_iso x : down (f x) = option_map f (down x).
  Proof.
    destruct (down x) as [y|] eqn:E; cbn; [apply f_down; [exact Ef|exact E]|].
    apply down_none_rk in E. apply down_none_rk. rewrite <- (proj1 Oe). apply f_rk_eq; [exact Ef|exact E].
  Qed.
  Lemma unwrap_map {A B} (a : A -> B) o : unwrap (option_map a o) = omap a (unwrap o).
  Proof. destruct o; reflexivity. Qed.
  Lemma get_gap_at_raw_tr m p : get_gap_at_raw (trv m) (f p) = omap (fi f) (get_gap_at_raw m p).
  Proof.
    unfold get_gap_at_raw, lower_bound.
    assert (Hc : forall k, overlapping_comp (f p) (h k) = overlapping_comp p k)
      by (intros k; apply overlapping_comp_f, h_carried; [exact Ef|exact Eh]).
    rewrite (upper_bound_tr h g _ _ Hc), (seek_tr h g _ _ Hc), !cursor_key_tr, <- !surjective_pairing.
    destruct Oe as [Omin Omax].
    assert (S1 : forall o : option K, match option_map h o with None => Val MIN | Some k => unwrap (up (iend k)) end =
                                      omap f (match o with None => Val MIN | Some k => unwrap (up (iend k)) end)).
    { intros [k|]; cbn; [|rewrite Omin; reflexivity]. rewrite (proj2 (h_carried f h Eh k)), f_up_iso. apply unwrap_map. }
    assert (S2 : forall o : option K, match option_map h o with None => Val MAX | Some k => unwrap (down (istart k)) end =
                                      omap f (match o with None => Val MAX | Some k => unwrap (down (istart k)) end)).
    { intros [k|]; cbn; [|rewrite Omax; reflexivity]. rewrite (proj1 (h_carried f h Eh k)), f_down_iso. apply unwrap_map. }
    rewrite S1, S2.
    destruct (match cursor_key (upper_bound (overlapping_comp p) m) with None => _ | Some _ => _ end) as [s|]; [|reflexivity].
    cbn [omap obind].
    destruct (match cursor_key (seek (overlapping_comp p) m) with None => _ | Some _ => _ end) as [e|]; reflexivity.
  Qed.
  Definition send_at (r : result (K * V) K) : result (L * W) L :=
    match r with Ok e => Ok (send h g e) | Err k => Err (h k) end.
  Lemma get_key_value_at_point_iso m p :
    get_key_value_at_point (trv m) (f p) = omap send_at (get_key_value_at_point m p).
  Proof.
    unfold get_key_value_at_point.
    rewrite (get_key_value_tr h g (overlapping_comp p))
      by (intros k; apply overlapping_comp_f, h_carried; [exact Ef|exact Eh]).
    rewrite get_gap_at_raw_tr. destruct (get_key_value (overlapping_comp p) m) as [e|]; cbn; [reflexivity|].
    destruct (get_gap_at_raw m p) as [x|]; cbn; [|reflexivity]. rewrite (h_from f h Eh). reflexivity.
  Qed.
  Lemma end_gap_tr m p : end_gap (trv m) (f p) = omap (option_map (fi f)) (end_gap m p).
  Proof.
    unfold end_gap. rewrite (contains_key_tr h g (overlapping_comp p))
      by (intros k; apply overlapping_comp_f, h_carried; [exact Ef|exact Eh]).
    rewrite get_gap_at_raw_tr. destruct (contains_key _ m); cbn; [reflexivity|].
    destruct (get_gap_at_raw m p); reflexivity.
  Qed.
  Lemma inner_gaps_tr l : inner_gaps (trv l) = omap (map h) (inner_gaps l).
  Proof.
    induction l as [|[x vx] r IH]; [reflexivity|]. destruct r as [|[y vy] r]; [reflexivity|].
    change (trv ((x, vx) :: (y, vy) :: r)) with ((h x, g vx) :: trv ((y, vy) :: r)).
    change (inner_gaps ((h x, g vx) :: trv ((y, vy) :: r))) with
      (let? u := unwrap (up (iend (h x))) in
       let? d := unwrap (down (istart (h y))) in
       let gap := ifrom (mkInterval u d) : L in
       let? gs := inner_gaps (trv ((y, vy) :: r)) in
       Val (if is_valid gap then gap :: gs else gs)).
    change (inner_gaps ((x, vx) :: (y, vy) :: r)) with
      (let? u := unwrap (up (iend x)) in
       let? d := unwrap (down (istart y)) in
       let gap := ifrom (mkInterval u d) : K in
       let? gs := inner_gaps ((y, vy) :: r) in
       Val (if is_valid gap then gap :: gs else gs)).
    rewrite IH, (proj2 (h_carried f h Eh x)), (proj1 (h_carried f h Eh y)), f_up_iso, f_down_iso, !unwrap_map.
    destruct (unwrap (up (iend x))) as [u|]; cbn [omap obind]; [|reflexivity].
    destruct (unwrap (down (istart y))) as [d|]; cbn [omap obind]; [|reflexivity].
    destruct (inner_gaps ((y, vy) :: r)) as [gs|]; cbn [omap obind]; [|reflexivity].
    change (mkInterval (f u) (f d)) with (fi f (mkInterval u d)). rewrite <- (h_from f h Eh), (is_valid_f f Ef (ifrom (mkInterval u d) : K) (h (ifrom (mkInterval u d)))) by (apply h_carried, Eh).
    destruct (is_valid (ifrom (mkInterval u d) : K)); reflexivity.
  Qed.
  Section Q.
    Context {Q R : Type} {IQ : InclusiveInterval I Q} {IR : InclusiveInterval J R}.
    Lemma gaps_untrimmed_tr m (q : Q) (r : R) : carried f q r -> gaps_untrimmed (trv m) r = omap (map h) (gaps_untrimmed m q).
    Proof.
      intros C. unfold gaps_untrimmed. rewrite (iip_f f Ef q r C), (overlapping_tr f Ef h Eh g m q r C).
      destruct (invalid_interval_panic q); cbn [omap obind]; [|reflexivity].
      rewrite (proj1 C), (proj2 C), !end_gap_tr.
      destruct (end_gap m (istart q)) as [s|]; cbn [omap obind]; [|reflexivity].
      destruct (end_gap m (iend q)) as [e|]; cbn [omap obind]; [|reflexivity].
      destruct s as [s|], e as [e|]; cbn [option_map];
        try (unfold fi at 1; cbn [ivl_start]; unfold fi at 1; cbn [ivl_start]; rewrite (f_eqb f Ef); destruct (eqb _ _));
        destruct (overlapping m q) as [l|]; cbn [omap obind]; try reflexivity; rewrite inner_gaps_tr;
        destruct (inner_gaps l) as [i|]; cbn [omap obind]; try reflexivity; f_equal; cbn;
        rewrite ?map_app, ?(h_from f h Eh); cbn; rewrite ?(h_from f h Eh); reflexivity.
    Qed.
    Lemma gaps_trimmed_tr m (q : Q) (r : R) : carried f q r -> gaps_trimmed (trv m) r = omap (map h) (gaps_trimmed m q).
    Proof.
      intros C. unfold gaps_trimmed. rewrite (iip_f f Ef q r C), (overlapping_tr f Ef h Eh g m q r C).
      destruct (invalid_interval_panic q); cbn [omap obind]; [|reflexivity].
      rewrite (proj1 C), (proj2 C), !end_gap_tr.
      destruct (end_gap m (istart q)) as [s|]; cbn [omap obind]; [|reflexivity].
      destruct (end_gap m (iend q)) as [e|]; cbn [omap obind]; [|reflexivity].
      destruct s as [s|], e as [e|]; cbn [option_map];
        try (unfold fi at 1; cbn [ivl_start]; unfold fi at 1; cbn [ivl_start]; rewrite (f_eqb f Ef); destruct (eqb _ _));
        destruct (overlapping m q) as [l|]; cbn [omap obind]; try reflexivity; rewrite inner_gaps_tr;
        destruct (inner_gaps l) as [i|]; cbn [omap obind]; try reflexivity; f_equal; cbn;
        rewrite ?map_app, ?(h_from f h Eh); cbn; rewrite ?(h_from f h Eh); reflexivity.
    Qed.
    Lemma map_contains_interval_tr m (q : Q) (r : R) : carried f q r ->
      map_contains_interval (trv m) r = map_contains_interval m q.
    Proof.
      intros C. unfold map_contains_interval. rewrite (iip_f f Ef q r C), (gaps_untrimmed_tr m q r C).
      destruct (invalid_interval_panic q); cbn [omap obind]; [|reflexivity].
      destruct (gaps_untrimmed m q) as [[|]|]; reflexivity.
    Qed.
  End Q.
End Gaps.

(** ** ZosditMap *)
Section Zosdits.
  Context {I J : Type} {OI : Ord I} {DI : DiscreteFinite I} {PI : PointLaws I}.
  Context {OJ : Ord J} {DJ : DiscreteFinite J} {PJ : PointLaws J} {OLJ : OrdLaws J}.
  Context (f : I -> J) (Ef : embeds f).
  Context {K L : Type} {IK : InclusiveInterval I K} {IKL : IntervalLaws I K} {IL : InclusiveInterval J L}.
  Context (h : K -> L) (Eh : converts f h).
  Context {V W : Type} (g : V -> W).
  Notation trz := (tr h (map g)).
  Notation sende := (fun e : K * V => (h (fst e), g (snd e))).
  Implicit Types (z : ZosditMap K V).
  Definition tz (z : ZosditMap K V) : ZosditMap L W := mkZosdit (z_len z) (trz (z_inner z)).
  Definition tzr {A B} (a : A -> B) (x : ZosditMap K V * outcome A) : ZosditMap L W * outcome B :=
    (tz (fst x), omap a (snd x)).
  Definition okz (l : list (K * list V)) : Prop := forall e, In e l -> lo (fst e) <= hi (fst e).
  Let hc := h_carried f h Eh.

  Lemma excl p x k : exclusive_comp (f p) x (h k) = exclusive_comp p x k.
  Proof. apply exclusive_comp_f, hc. exact Ef. Qed.
  Lemma incl_c p x k : inclusive_comp (f p) x (h k) = inclusive_comp p x k.
  Proof. apply inclusive_comp_f, hc. exact Ef. Qed.
  Lemma flatten_tr (l : list (K * list V)) : flatten (trz l) = map sende (flatten l).
  Proof.
    induction l as [|[k vs] r IH]; [reflexivity|]. cbn. fold (flatten r). fold (trz r). unfold flatten in *.
    rewrite IH, map_app, !map_map. reflexivity.
  Qed.
  Lemma vec_first_tr (l : list V) : vec_first (map g l) = option_map g (vec_first l).
  Proof. destruct l; reflexivity. Qed.
  Lemma vec_last_tr (l : list V) : vec_last (map g l) = option_map g (vec_last l).
  Proof. induction l as [|v r IH]; [reflexivity|]. destruct r; [reflexivity|exact IH]. Qed.
  Lemma vec_pop_tr (l : list V) : vec_pop (map g l) = option_map (fun x => (g (fst x), map g (snd x))) (vec_pop l).
  Proof.
    unfold vec_pop. rewrite <- map_rev. destruct (rev l) as [|v r]; cbn; [reflexivity|]. rewrite map_rev. reflexivity.
  Qed.
  Lemma contains_pt_tr k p : contains_point (h k) (f p) = contains_point k p.
  Proof. unfold contains_point. rewrite (proj1 (hc k)), (proj2 (hc k)), (f_geb f Ef), (f_leb f Ef). reflexivity. Qed.
  Lemma last_value_cursor_tr z p : last_value_cursor (tz z) (f p) =
    (trz (fst (last_value_cursor z p)), trz (snd (last_value_cursor z p))).
  Proof.
    unfold last_value_cursor, lower_bound. cbn [tz z_inner].
    rewrite (seek_tr h (map g) _ _ (excl p Gt)), cursor_key_tr, <- surjective_pairing.
    destruct (cursor_key (seek (exclusive_comp p Gt) (z_inner z))); cbn [option_map]; [reflexivity|].
    rewrite move_prev_tr, <- surjective_pairing. reflexivity.
  Qed.
  Lemma get_last_tr z p : get_last_value_at_point (tz z) (f p) = option_map g (get_last_value_at_point z p).
  Proof.
    unfold get_last_value_at_point, cursor_key_value. rewrite last_value_cursor_tr. cbn [snd].
    destruct (snd (last_value_cursor z p)) as [|[k vs] r]; cbn [tr map bt_first fst snd]; [reflexivity|].
    cbn. rewrite contains_pt_tr, vec_last_tr. destruct (contains_point k p); reflexivity.
  Qed.
  Lemma remove_last_tr p z :
    remove_last_value_at_point (f p) (tz z) = tzr (option_map g) (remove_last_value_at_point p z).
  Proof.
    unfold remove_last_value_at_point. rewrite last_value_cursor_tr. cbn [fst snd].
    destruct (last_value_cursor z p) as [a [|[k vs] r]]; cbn [fst snd tr map]; [reflexivity|].
    rewrite contains_pt_tr, vec_pop_tr. destruct (contains_point k p); [|reflexivity].
    destruct (vec_pop vs) as [[v [|w ws]]|]; cbn; [| |reflexivity]; unfold tzr, tz, tr; cbn; rewrite map_app; reflexivity.
  Qed.
  Lemma entry_comp_tr a b : entry_comp (h a) (h b) = entry_comp a b.
  Proof. unfold entry_comp. rewrite (proj1 (hc b)), (proj2 (hc b)), !excl. reflexivity. Qed.
  Lemma entry_push_tr k v pre l : entry_push (h k) (g v) (trz pre) (trz l) = omap trz (entry_push k v pre l).
  Proof.
    revert pre. induction l as [|[k' vs] r IH]; intros pre; cbn; [unfold tr; rewrite map_app; reflexivity|].
    rewrite entry_comp_tr. destruct (entry_comp k' k) as [[]|]; cbn; [..|reflexivity].
    - unfold tr. rewrite !map_app. cbn. rewrite map_app. reflexivity.
    - unfold tr. rewrite !map_app. reflexivity.
    - fold (trz r). rewrite <- IH. rewrite tr_app. reflexivity.
  Qed.
  Section Q.
    Context {Q R : Type} {IQ : InclusiveInterval I Q} {IR : InclusiveInterval J R}.
    Lemma is_zero_overlap_tr z (q : Q) (r : R) : carried f q r -> is_zero_overlap (tz z) r = is_zero_overlap z q.
    Proof.
      intros C. unfold is_zero_overlap. rewrite (iip_f f Ef q r C). destruct (invalid_interval_panic q); cbn [obind]; [|reflexivity].
      rewrite (proj1 C), (proj2 C). cbn [tz z_inner].
      rewrite (range_tr h (map g) _ _ _ _ _ (excl (istart q) Gt) (excl (iend q) Lt)).
      destruct (range _ _ _); reflexivity.
    Qed.
    Lemma zosdit_overlapping_tr z (q : Q) (r : R) : carried f q r ->
      zosdit_overlapping (tz z) r = omap (map sende) (zosdit_overlapping z q).
    Proof.
      intros C. unfold zosdit_overlapping. rewrite (iip_f f Ef q r C). destruct (invalid_interval_panic q); cbn [obind omap]; [|reflexivity].
      rewrite (proj1 C), (proj2 C). cbn [tz z_inner].
      rewrite (range_tr h (map g) _ _ _ _ _ (incl_c (istart q) Lt) (incl_c (iend q) Gt)), flatten_tr. reflexivity.
    Qed.
    Lemma z_piece_tr p vs n (pre : BTreeMap K (list V)) : z_piece (option_map (fi f) p) (map g vs) (n, trz pre) =
      (fst (z_piece p vs (n, pre)), trz (snd (z_piece p vs (n, pre)))).
    Proof.
      destruct p as [i|]; cbn; [|reflexivity]. rewrite map_length. unfold tr. rewrite map_app. cbn. rewrite (h_from f h Eh). reflexivity.
    Qed.
    Lemma zcut_loop_tr (q : Q) (r : R) n (pre post : BTreeMap K (list V)) acc : carried f q r -> okz post ->
      zosdit_cut_loop r n (trz pre) (trz post) (map sende acc) = tzr (map sende) (zosdit_cut_loop q n pre post acc).
    Proof.
      intros C. revert n pre acc. induction post as [|[k vs] rest IH]; intros n pre acc Hk.
      - unfold tzr, tz. cbn [zosdit_cut_loop fst snd omap z_len z_inner]. rewrite tr_app. reflexivity.
      - assert (Vk : lo k <= hi k) by (apply (Hk (k, vs)); left; reflexivity).
        assert (Hr : okz rest) by (intros e He; apply Hk; right; exact He).
        assert (Cons : trz ((k, vs) :: rest) = (h k, map g vs) :: trz rest) by reflexivity.
        rewrite Cons. cbn [zosdit_cut_loop]. rewrite <- Cons.
        rewrite (overlaps_f f Ef k (h k) q r (hc k) C).
        unfold tzr, tz. destruct (overlaps k q) as [[|]|]; cbn [fst snd omap z_len z_inner]; rewrite ?tr_app; try reflexivity.
        rewrite (cut_interval_f f Ef k (h k) q r (hc k) C Vk).
        destruct (cut_interval k q) as [c|]; cbn [fst snd omap z_len z_inner]; rewrite ?tr_app; try reflexivity.
        cbn [fcut before_cut inside_cut after_cut]. rewrite z_piece_tr.
        destruct (z_piece (before_cut c) vs (n, pre)) as [n1 pre1]. cbn [fst snd]. rewrite z_piece_tr.
        destruct (z_piece (after_cut c) vs (n1, pre1)) as [n2 pre2]. cbn [fst snd]. rewrite map_length.
        destruct (Nat.ltb n2 (length vs)); cbn [fst snd omap z_len z_inner]; rewrite ?tr_app; try reflexivity.
        destruct (inside_cut c) as [i|]; cbn [option_map].
        + specialize (IH (n2 - length vs)%nat pre2 (acc ++ map (fun v => (ifrom i, v)) vs) Hr).
          rewrite map_app, !map_map in IH. rewrite !map_map. cbn [fst snd] in IH. rewrite (h_from f h Eh) in IH. exact IH.
        + destruct vs as [|v vs]; cbn [map fst snd omap z_len z_inner]; [apply IH, Hr|rewrite tr_app; reflexivity].
    Qed.
    Lemma zosdit_cut_tr (q : Q) (r : R) z : carried f q r -> okz (z_inner z) ->
      zosdit_cut r (tz z) = tzr (map sende) (zosdit_cut q z).
    Proof.
      intros C Hk. unfold zosdit_cut. rewrite (iip_f f Ef q r C). destruct (invalid_interval_panic q); [|reflexivity].
      rewrite (proj1 C). cbn [tz z_inner z_len]. rewrite (upper_bound_tr h (map g) _ _ (excl (istart q) Lt)), cursor_key_tr, <- surjective_pairing.
      set (u := upper_bound (exclusive_comp (istart q) Lt) (z_inner z)).
      assert (Hu : fst u ++ snd u = z_inner z) by apply upper_bound_glue.
      destruct (cursor_key u); cbn [option_map].
      - apply (zcut_loop_tr q r _ _ _ [] C). intros e He. apply Hk. rewrite <- Hu. apply in_or_app. right. exact He.
      - rewrite move_next_tr, <- surjective_pairing. cbn [fst snd]. apply (zcut_loop_tr q r _ _ _ [] C).
        intros e He. apply Hk. rewrite <- Hu. apply in_or_app. unfold move_next in He.
        destruct (snd u) as [|x l]; [left; exact He|right; right; exact He].
    Qed.
  End Q.
  Lemma insert_strict_back_tr k v z :
    insert_strict_back (h k) (g v) (tz z) = tzr (send_error g (fun x => x)) (insert_strict_back k v z).
  Proof.
    unfold insert_strict_back. rewrite (iip_f f Ef k (h k) (hc k)), (is_zero_overlap_tr z k (h k) (hc k)).
    destruct (invalid_interval_panic k); [|reflexivity]. destruct (is_zero_overlap z k) as [[|]|]; [|reflexivity..].
    cbn [tz z_inner z_len]. change (@nil (L * list W)) with (trz []). rewrite entry_push_tr.
    destruct (entry_push k v [] (z_inner z)); reflexivity.
  Qed.
  Lemma extend_back_tr l z : extend_strict_back (map sende l) (tz z) = omap (send_error g tz) (extend_strict_back l z).
  Proof.
    revert z. induction l as [|[k v] r IH]; intros z; [reflexivity|]. cbn [map extend_strict_back fst snd].
    rewrite insert_strict_back_tr. destruct (insert_strict_back k v z) as [z' [[u|e]|]]; cbn; [|reflexivity..]. apply IH.
  Qed.
  Lemma from_iter_back_tr l : from_iter_strict_back (map sende l) = omap (send_error g tz) (from_iter_strict_back l).
  Proof. apply (extend_back_tr l z_new). Qed.
  Definition tzde (r : result (ZosditMap K V) de_error) : result (ZosditMap L W) de_error :=
    match r with Ok m => Ok (tz m) | Err e => Err e end.
  Lemma zvisit_tr l z : zosdit_visit_seq (map (option_map sende) l) (tz z) = omap tzde (zosdit_visit_seq l z).
  Proof.
    revert z. induction l as [|[[k v]|] r IH]; intros z; [reflexivity| |reflexivity].
    cbn [map zosdit_visit_seq option_map fst snd].
    rewrite insert_strict_back_tr. destruct (insert_strict_back k v z) as [z' [[u|e]|]]; cbn; [|reflexivity..]. apply IH.
  Qed.
  Lemma zdeserialize_tr l : zosdit_deserialize (map (option_map sende) l) = omap tzde (zosdit_deserialize l).
  Proof. apply (zvisit_tr l z_new). Qed.

  Lemma ZWF_okz z : ZWF z -> okz (z_inner z).
  Proof. intros [[_ Hf] _] e He. rewrite Forall_forall in Hf. exact (Hf e He). Qed.
  Lemma zstep_tr z o o' : ZWF z -> zop_sent f h g o o' -> zstep (tz z) o' = tz (zstep z o).
  Proof.
    intros Wz So. pose proof (ZWF_okz z Wz) as Hk. destruct So; cbn [zstep].
    - reflexivity.
    - rewrite insert_strict_back_tr. reflexivity.
    - rewrite remove_last_tr. reflexivity.
    - rewrite (zosdit_cut_tr q r) by assumption. reflexivity.
    - change (map (send h g) l) with (map sende l). rewrite from_iter_back_tr. destruct (from_iter_strict_back l) as [[m'|e]|]; reflexivity.
    - change (map (option_map (send h g)) l) with (map (option_map sende) l). rewrite zdeserialize_tr.
      destruct (zosdit_deserialize l) as [[m'|e]|]; reflexivity.
  Qed.
  Lemma zrun_tr os os' : Forall2 (zop_sent f h g) os os' -> zrun os' = tz (zrun os).
  Proof.
    unfold zrun. intros F. assert (Wm : ZWF (@z_new K V)) by apply new_ZWF. change (@z_new L W) with (tz (@z_new K V)).
    revert Wm. generalize (@z_new K V). induction F as [|o o' os os' Ho F IH]; intros m Wm; cbn; [reflexivity|].
    rewrite (zstep_tr m o o' Wm Ho). apply IH, zstep_ZWF, Wm.
  Qed.
End Zosdits.
