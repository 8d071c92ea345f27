(** * GqditFacts: identifier sets, the Gqdit invariant, and the cut-and-reinsert
      loop all mutating methods share. *)
From Coq Require Import List ZArith Bool Arith Lia ZifyBool Sorting.Sorted.
From Verif Require Import Base BTree UtilsModel IntervalModel NoditModel GqditModel GqditOps Spec
  PointFacts IntervalFacts ListFacts NoditFacts NoditQueries NoditGaps NoditMutations NoditMerges NoditInv NoditMore.
Import ListNotations.
Open Scope Z_scope.

Section Sets.
  Context {D : Type} {OD : Ord D} {OL : OrdLaws D}.
  Implicit Types (s t : BTreeSet D) (d : D).

  Lemma contains_in s d : bset_contains s d = true <-> In d s.
  Proof.
    induction s as [|x s IH]; cbn; [split; [discriminate|tauto]|].
    rewrite orb_true_iff, eqb_true, IH. split; (intros [->|X]; [left; reflexivity|right; exact X]).
  Qed.
  Lemma set_eqb_true s t : bset_eqb s t = true <-> s = t.
  Proof.
    revert t. induction s as [|x s IH]; intros [|y t]; cbn; try (split; congruence).
    rewrite andb_true_iff, eqb_true, IH. split; [intros [-> ->]; reflexivity|intros E; injection E; auto].
  Qed.
  Lemma insert_in d s x : In x (bset_insert d s) <-> x = d \/ In x s.
  Proof.
    induction s as [|y s IH]; cbn; [intuition|]. destruct (cmp d y) eqn:E; cbn; rewrite ?IH.
    - apply cmp_eq in E. subst. intuition.
    - intuition.
    - intuition.
  Qed.
  Lemma is_set_cons d s : is_set (d :: s) <-> is_set s /\ Forall (fun x => cmp d x = Lt) s.
  Proof. unfold is_set. split; [intros X; inversion X; auto|intros [X Y]; constructor; assumption]. Qed.
  Lemma is_set_nil : is_set (D := D) [].
  Proof. constructor. Qed.
  Lemma insert_set d s : is_set s -> is_set (bset_insert d s).
  Proof.
    induction s as [|y s IH]; intros S; [apply is_set_cons; split; [exact S|constructor]|]. cbn [bset_insert].
    apply is_set_cons in S as [S Hy]. destruct (cmp d y) eqn:E.
    - apply is_set_cons; auto.
    - apply is_set_cons. split; [apply is_set_cons; auto|]. constructor; [exact E|].
      eapply Forall_impl; [|exact Hy]. intros x Hx. exact (cmp_trans _ _ _ E Hx).
    - apply is_set_cons. split; [apply IH, S|]. rewrite Forall_forall in Hy |- *. intros x Hx.
      apply insert_in in Hx. destruct Hx as [->|Hx]; [rewrite cmp_opp, E; reflexivity|apply Hy, Hx].
  Qed.
  Lemma extend_in l s x : In x (bset_extend s l) <-> In x s \/ In x l.
  Proof.
    unfold bset_extend. revert s. induction l as [|d l IH]; intros s; cbn [fold_left In]; [tauto|].
    rewrite IH, insert_in. intuition.
  Qed.
  Lemma extend_set l s : is_set s -> is_set (bset_extend s l).
  Proof.
    unfold bset_extend. revert s. induction l as [|d l IH]; intros s S; cbn [fold_left]; [exact S|]. apply IH, insert_set, S.
  Qed.
  Lemma collect_in l x : In x (collect l) <-> In x l.
  Proof. unfold collect. rewrite extend_in. cbn. tauto. Qed.
  Lemma collect_set l : is_set (collect l).
  Proof. apply extend_set, is_set_nil. Qed.
  Lemma retain_in f s x : In x (bset_retain f s) <-> In x s /\ f x = true.
  Proof. apply filter_In. Qed.
  Lemma retain_set f s : is_set s -> is_set (bset_retain f s).
  Proof.
    unfold bset_retain. induction s as [|y s IH]; intros S; [exact S|]. apply is_set_cons in S as [S Hy]. cbn.
    destruct (f y); [|apply IH, S]. apply is_set_cons. split; [apply IH, S|].
    rewrite Forall_forall in Hy |- *. intros x Hx. apply filter_In in Hx. apply Hy, Hx.
  Qed.
  Lemma cmp_irrefl d : cmp d d <> Lt.
  Proof. rewrite cmp_refl. discriminate. Qed.
  Lemma set_ext s t : is_set s -> is_set t -> (forall d, In d s <-> In d t) -> s = t.
  Proof.
    revert t. induction s as [|x s IH]; intros [|y t] Ss St E.
    - reflexivity.
    - destruct (proj2 (E y) (or_introl eq_refl)).
    - destruct (proj1 (E x) (or_introl eq_refl)).
    - apply is_set_cons in Ss as [Ss Hx]. apply is_set_cons in St as [St Hy]. rewrite Forall_forall in Hx, Hy.
      assert (Exy : x = y).
      { destruct (proj1 (E x) (or_introl eq_refl)) as [->|X1]; [reflexivity|].
        destruct (proj2 (E y) (or_introl eq_refl)) as [->|X2]; [reflexivity|exfalso].
        apply (cmp_irrefl x). exact (cmp_trans _ _ _ (Hx y X2) (Hy x X1)). }
      subst y. f_equal. apply IH; [assumption..|]. intros d. split; intros X.
      + destruct (proj1 (E d) (or_intror X)) as [<-|Y]; [|exact Y]. exfalso. apply (cmp_irrefl x), Hx, X.
      + destruct (proj2 (E d) (or_intror X)) as [<-|Y]; [|exact Y]. exfalso. apply (cmp_irrefl x), Hy, X.
  Qed.
  Lemma collect_id s : is_set s -> collect s = s.
  Proof. intros S. apply set_ext; [apply collect_set|exact S|]. intros d. apply collect_in. Qed.
  Lemma is_empty_true s : bset_is_empty s = true <-> s = [].
  Proof. destruct s; cbn; split; congruence. Qed.
  Lemma valid_id_spec d s : is_set s -> (valid_identifier d s = true <-> forall x, In x s -> x = d).
  Proof.
    intros S. unfold valid_identifier, bset_len. rewrite orb_true_iff, andb_true_iff, is_empty_true, Nat.eqb_eq, contains_in. split.
    - intros [->|[L Hd]] x Hx; [destruct Hx|]. destruct s as [|y [|z s]]; try discriminate L. destruct Hd as [<-|[]]. destruct Hx as [<-|[]]. reflexivity.
    - intros Hs. destruct s as [|y [|z s]]; [left; reflexivity|right; split; [reflexivity|]|exfalso].
      + left. apply Hs. left. reflexivity.
      + apply is_set_cons in S as [_ S]. apply Forall_inv in S.
        rewrite (Hs y), (Hs z) in S; [apply (cmp_irrefl d S)|right; left; reflexivity|left; reflexivity].
  Qed.
End Sets.

Section Gqdit.
  Context {I : Type} `{PL : PointLaws I}.
  Context {K : Type} {IK : InclusiveInterval I K} {IL : IntervalLaws I K}.
  Context {D : Type} {OD : Ord D} {OL : OrdLaws D}.
  Notation ids := (BTreeSet D).
  Notation entry := (K * BTreeSet D)%type.
  Implicit Types (g : Gqdit K D) (k : K) (s : BTreeSet D) (p : I) (d : D).

  (** ** The invariant *)
  Definition canon (g : list entry) : Prop :=
    forall k s k' s', In (k, s) g -> In (k', s') g -> hi k + 1 = lo k' -> s <> s'.
  (** Holds in between, too. *)
  Definition GP g : Prop :=
    WF g /\ canon g /\ (forall k s, In (k, s) g -> is_set s /\ built k).
  Definition GWF g : Prop := GP g /\ forall p, covered g p.

  Lemma GP_max_run g k s : GP g -> In (k, s) g -> max_run (fun p => maps_to g p s) k.
  Proof.
    intros (W & C & _) Hi. pose proof (WF_okv _ _ W Hi) as Vk. unfold elo, ehi in Vk. cbn in Vk.
    apply max_run_intro'; [exact Vk|intros p Hp; exists k; auto|].
    intros p Hp (k' & Hi' & Hc). apply covers_rk in Hc as Hc'.
    assert (X : forall z, covers k z -> covers k' z -> k = k').
    { intros z Z1 Z2. pose proof (covers_unique g z k s k' s W Hi Hi' Z1 Z2) as E. injection E; auto. }
    assert (NE : k <> k') by (intros ->; lia).
    assert (No : ~ overlap k k') by (intros (z & Z1 & Z2); apply NE, (X z Z1 Z2)).
    rewrite overlap_rk in No. destruct Hp as [Hp|Hp].
    - apply (C k' s k s Hi' Hi); [lia|reflexivity].
    - apply (C k s k' s Hi Hi'); [lia|reflexivity].
  Qed.

  Lemma built_of k i : valid i -> k = ifrom i -> built k.
  Proof. intros Vi ->. exists i. split; [apply valid_rk, Vi|reflexivity]. Qed.

  Lemma GP_ext {OLI : OrdLaws I} g g' : GP g -> GP g' -> same_map g g' -> g = g'.
  Proof.
    assert (X : forall g g', GP g -> GP g' -> same_map g g' -> forall e, In e g -> In e g').
    { clear g g'. intros g g' G G' S [k s] Hi. pose proof (GP_max_run g k s G Hi) as R. pose proof R as ((p & Hp) & Pk & _).
      pose proof (Pk p Hp) as Mp. apply S in Mp. destruct Mp as (k' & Hi' & Hc').
      pose proof (GP_max_run g' k' s G' Hi') as R'.
      assert (R2 : max_run (fun p => maps_to g p s) k').
      { destruct R' as (V' & P' & M'). split; [exact V'|]. split; [intros x Hx; apply S, P', Hx|].
        intros j Hj Ho. apply M'; [|exact Ho]. intros x Hx. apply S, Hj, Hx. }
      pose proof (max_run_same _ k k' p R R2 Hp Hc') as Sp.
      apply same_points_rk in Sp; [|apply valid_rk, R|apply valid_rk, R'].
      replace k with k'; [exact Hi'|]. destruct G as (_ & _ & G), G' as (_ & _ & G').
      apply built_eq; [apply (G' _ _ Hi')|apply (G _ _ Hi)|symmetry; apply Sp..]. }
    intros G G' S. apply WF_perm_eq; [apply G|apply G'|]. intros e. split; apply X; try assumption.
    intros p v. symmetry. apply S.
  Qed.

  (** ** [identifiers_at_point] *)
  Lemma ids_maps g p : GWF g -> exists s, identifiers_at_point g p = Val s /\ maps_to g p s /\ is_set s.
  Proof.
    intros [(W & _ & B) C]. unfold identifiers_at_point. destruct (get_at_point_cases g p W) as [(s & Hs & E & _)|(Hn & _)].
    - exists s. rewrite E. split; [reflexivity|]. split; [exact Hs|]. destruct Hs as (k & Hi & _). apply (B _ _ Hi).
    - exfalso. apply Hn, C.
  Qed.
  Lemma ids_iff g p s : GWF g -> (identifiers_at_point g p = Val s <-> maps_to g p s).
  Proof.
    intros G. destruct (ids_maps g p G) as (s' & E & M & _). rewrite E. split.
    - intros X. injection X as <-. exact M.
    - intros M'. f_equal. apply (maps_to_fun g p); [apply G|assumption..].
  Qed.
  Lemma has_id_iff g p d : GWF g -> (has_id g p d <-> exists s, maps_to g p s /\ In d s).
  Proof.
    intros G. unfold has_id. split; intros (s & M & Hd); exists s; (split; [|exact Hd]); apply ids_iff; assumption.
  Qed.
  Lemma has_id_in g p s d : GWF g -> maps_to g p s -> (has_id g p d <-> In d s).
  Proof.
    intros G M. rewrite has_id_iff by exact G. split; [|intros X; exists s; auto]. intros (s' & M' & Hd).
    rewrite (maps_to_fun g p s s'); [exact Hd|apply G|assumption..].
  Qed.
  Lemma GWF_ext {OLI : OrdLaws I} g g' : GWF g -> GWF g' -> (forall p d, has_id g p d <-> has_id g' p d) -> g = g'.
  Proof.
    assert (X : forall g g', GWF g -> GWF g' -> (forall p d, has_id g p d <-> has_id g' p d) ->
      forall p s, maps_to g p s -> maps_to g' p s).
    { clear g g'. intros g g' G G' E p s M. destruct (ids_maps g' p G') as (s' & _ & M' & S').
      replace s with s'; [exact M'|]. destruct (ids_maps g p G) as (s0 & _ & M0 & S0).
      rewrite (maps_to_fun g p s s0); [|apply G|assumption..]. apply set_ext; [exact S'|exact S0|]. intros d.
      rewrite <- (has_id_in g p s0 d G M0), <- (has_id_in g' p s' d G' M'). symmetry. apply E. }
    intros G G' E. apply GP_ext; [apply G|apply G'|]. intros p s. split; apply X; try assumption. intros q d. symmetry. apply E.
  Qed.

  (** ** One re-insertion *)
  Lemma get_if_equal_in veq comp g s a : get_if_equal veq comp g s = Some a -> exists s', In (a, s') g /\ comp a = Eq.
  Proof.
    unfold get_if_equal, get_key_value. assert (X : forall e, In e (snd (seek comp g)) -> In e g).
    { induction g as [|[k v] l IH]; cbn; [auto|]. destruct (comp k); cbn; auto. destruct (seek comp l) as [x y]. cbn in *. auto. }
    destruct (snd (seek comp g)) as [|[k v] l]; [discriminate|]. destruct (comp k) eqn:E; [|discriminate..].
    destruct (veq v s); [|discriminate]. intros [= <-]. exists v. split; [apply X; left; reflexivity|exact E].
  Qed.
  Lemma insert_if_equal_built k s g g' r : built k -> WF g ->
    insert_merge_touching_if_values_equal bset_eqb k s g = (g', Val (Ok r)) -> built r.
  Proof.
    intros Bk W E.
    unfold insert_merge_touching_if_values_equal in E. destruct (invalid_interval_panic k) as [u|] eqn:Ei; [|discriminate E].
    destruct (map_overlaps g k) as [[|]|] eqn:Eo; try discriminate E.
    assert (Vk : valid k). { destruct (valid_dec k) as [V|V]; [exact V|]. rewrite iip_invalid in Ei by exact V. discriminate Ei. }
    unfold insert_merge_with_comps in E. rewrite Ei in E.
    destruct (remove_overlapping k g) as [g1 [rem|]] eqn:Er; [|discriminate E].
    assert (OK : forall c a, get_if_equal bset_eqb c g s = Some a -> lo a <= hi a /\ c a = Eq).
    { intros c a Ea. apply get_if_equal_in in Ea. destruct Ea as (s' & Hi & Ea). split; [apply (WF_okv _ _ W Hi)|exact Ea]. }
    apply valid_rk in Vk.
    cbn zeta in E. destruct (get_if_equal _ (touching_start_comp _) g s) as [a|] eqn:Ea, (get_if_equal _ (touching_end_comp _) g s) as [b|] eqn:Eb;
      cbn in E; injection E as _ E;
      try (apply OK in Ea; destruct Ea as [Va Ea]; rewrite touching_start_comp_rk in Ea; apply Z.compare_eq in Ea);
      try (apply OK in Eb; destruct Eb as [Vb Eb]; rewrite touching_end_comp_rk in Eb; apply Z.compare_eq in Eb);
      try (apply (built_of r _) with (2 := eq_sym E); apply valid_rk; unfold lo, hi in *; cbn; lia). subst r. exact Bk.
  Qed.

  Lemma reinsert_one g k s : GP g -> built k -> is_set s -> (forall p, covers k p -> ~ covered g p) ->
    exists g' r, insert_merge_touching_if_values_equal bset_eqb k s g = (g', Val (Ok r)) /\ GP g' /\
      forall p s', maps_to g' p s' <-> maps_to g p s' \/ covers k p /\ s' = s.
  Proof.
    intros (W & C & B) Bk Ss Hn.
    assert (Vk : lo k <= hi k) by (destruct Bk as (i & Vi & ->); rewrite from_lo, from_hi; assumption).
    destruct (insert_merge_touching_if_equal_done bset_eqb g k s W (proj2 (valid_rk k) Vk)) as (g' & r & E & W' & Hr & (l1 & l2 & Hs & Eg) & _).
    { intros k' v' Hi (p & P1 & P2). apply (Hn p P2). exists k', v'. auto. }
    exists g', r. split; [exact E|].
    assert (Hir : In (r, s) g') by (rewrite Eg; apply in_app_iff; right; left; reflexivity).
    assert (Vr : lo r <= hi r) by (apply (WF_okv _ _ W' Hir)).
    pose proof (insert_if_equal_built k s g g' r Bk W E) as Br.
    assert (IN : forall e, In e g' <-> e = (r, s) \/ (In e g /\ ~ (touch (fst e) k /\ bset_eqb (snd e) s = true))).
    { intros e. rewrite Eg, in_app_iff. cbn [In]. rewrite <- (sub_in _ _ _ Hs e), in_app_iff.
      split; [intros [X|[<-|X]]|intros [->|[X|X]]]; auto. }
    assert (KR : lo r <= lo k /\ hi k <= hi r).
    { assert (X1 : covers r (istart k)) by (apply Hr; left; apply covers_rk; unfold lo, hi in *; lia).
      assert (X2 : covers r (iend k)) by (apply Hr; left; apply covers_rk; unfold lo, hi in *; lia).
      apply covers_rk in X1, X2. unfold lo, hi in *. lia. }
    assert (ER : forall e, In e g -> touch (fst e) k -> bset_eqb (snd e) s = true -> lo r <= elo e /\ ehi e <= hi r).
    { intros e Hi T Q. pose proof (WF_okv _ _ W Hi) as Ve. unfold elo, ehi in *.
      assert (X1 : covers r (istart (fst e))) by (apply Hr; right; exists e; rewrite covers_rk; unfold lo, hi in *; split; [exact Hi|split; [split; assumption|lia]]).
      assert (X2 : covers r (iend (fst e))) by (apply Hr; right; exists e; rewrite covers_rk; unfold lo, hi in *; split; [exact Hi|split; [split; assumption|lia]]).
      apply covers_rk in X1, X2. unfold lo, hi in *. lia. }
    assert (FST : lo r = lo k \/ exists e, In e g /\ snd e = s /\ elo e = lo r).
    { assert (X : covers r (istart r)) by (apply covers_rk; unfold lo, hi in *; lia). apply Hr in X.
      destruct X as [X|(e & Hi & (T & Q) & X)]; apply covers_rk in X.
      - left. unfold lo in *. lia.
      - right. exists e. split; [exact Hi|]. split; [apply set_eqb_true, Q|]. destruct (ER e Hi T Q). unfold elo, lo in *. lia. }
    assert (LST : hi r = hi k \/ exists e, In e g /\ snd e = s /\ ehi e = hi r).
    { assert (X : covers r (iend r)) by (apply covers_rk; unfold lo, hi in *; lia). apply Hr in X.
      destruct X as [X|(e & Hi & (T & Q) & X)]; apply covers_rk in X.
      - left. unfold hi in *. lia.
      - right. exists e. split; [exact Hi|]. split; [apply set_eqb_true, Q|]. destruct (ER e Hi T Q). unfold ehi, hi in *. lia. }
    split.
    - split; [exact W'|]. split.
      + intros k1 s1 k2 s2 H1 H2 T Es. subst s2.
        apply IN in H1. apply IN in H2. destruct H1 as [H1|[H1 N1]], H2 as [H2|[H2 N2]].
        * injection H1 as -> ->. injection H2 as ->. lia.
        * injection H1 as -> ->. pose proof (WF_okv _ _ W H2) as V2. unfold elo, ehi in V2. cbn in V2. apply N2. cbn [fst snd].
          destruct LST as [L|([ke se] & Hi & Es & L)].
          -- split; [|apply set_eqb_true; reflexivity]. apply touch_rk; [assumption..|]. lia.
          -- exfalso. cbn in Es. subst se. apply (C ke s k2 s Hi H2); [unfold ehi in L; cbn in L; lia|reflexivity].
        * injection H2 as -> ->. pose proof (WF_okv _ _ W H1) as V1. unfold elo, ehi in V1. cbn in V1. apply N1. cbn [fst snd].
          destruct FST as [L|([ke se] & Hi & Es & L)].
          -- split; [|apply set_eqb_true; reflexivity]. apply touch_rk; [assumption..|]. lia.
          -- exfalso. cbn in Es. subst se. apply (C k1 s ke s H1 Hi); [unfold elo in L; cbn in L; lia|reflexivity].
        * apply (C k1 s1 k2 s1 H1 H2 T). reflexivity.
      + intros k' s' Hi. apply IN in Hi. destruct Hi as [X|[Hi _]]; [|apply (B _ _ Hi)]. injection X as -> ->. auto.
    - intros p s'. unfold maps_to. split.
      + intros (k' & Hi & Hc). apply IN in Hi. destruct Hi as [X|[Hi _]]; [|left; exists k'; auto]. injection X as -> ->.
        apply Hr in Hc. destruct Hc as [Hc|([ke se] & Hi & (T & Q) & Hc)]; [right; auto|left]. cbn in *.
        apply set_eqb_true in Q. subst se. exists ke. auto.
      + intros [(k' & Hi & Hc)|[Hc ->]].
        * destruct (bset_eqb s' s) eqn:Q.
          -- pose proof (WF_okv _ _ W Hi) as V'. unfold elo, ehi in V'. cbn in V'.
             assert (TD : touch k' k \/ ~ touch k' k) by (rewrite touch_rk by assumption; lia). destruct TD as [T|T].
             ++ exists r. apply set_eqb_true in Q as Q'. subst s'. split; [exact Hir|]. apply Hr. right. exists (k', s). auto.
             ++ exists k'. split; [apply IN; right; split; [exact Hi|cbn; tauto]|exact Hc].
          -- exists k'. split; [apply IN; right; split; [exact Hi|cbn; rewrite Q; intros [_ X]; discriminate X]|exact Hc].
        * exists r. split; [exact Hir|]. apply Hr. left. exact Hc.
  Qed.

  Lemma reinsert_spec upd (l : list entry) : (forall s, is_set s -> is_set (upd s)) -> forall g, GP g -> WF l ->
    (forall k s, In (k, s) l -> is_set s /\ built k) -> (forall p, covered l p -> ~ covered g p) ->
    exists g', reinsert upd l g = (g', Val tt) /\ GP g' /\
      forall p s, maps_to g' p s <-> maps_to g p s \/ exists s0, maps_to l p s0 /\ s = upd s0.
  Proof.
    intros Hu. induction l as [|[k s] l IH]; intros g G Wl Bl Hn; cbn [reinsert].
    - exists g. split; [reflexivity|]. split; [exact G|]. intros p s. split; [auto|]. intros [X|(s0 & (k & [] & _) & _)]. exact X.
    - apply WF_cons in Wl. destruct Wl as (Vk & Wl & Hl). unfold elo, ehi in *. cbn in Vk, Hl.
      destruct (Bl k s (or_introl eq_refl)) as [Ss Bk].
      destruct (reinsert_one g k (upd s) G Bk (Hu s Ss)) as (g1 & r & E & G1 & M1).
      { intros p Hp. apply Hn. exists k, s. split; [left; reflexivity|exact Hp]. }
      rewrite E. destruct (IH g1 G1 Wl) as (g' & E' & G' & M').
      + intros k' s' Hi. apply Bl. right. exact Hi.
      + intros p Hp Hg. apply covered_maps_to in Hg. destruct Hg as (s' & Hg). apply M1 in Hg. destruct Hg as [Hg|[Hg _]].
        * apply (Hn p); [|eapply maps_to_covered; exact Hg]. destruct Hp as (k' & v' & Hi & Hc). exists k', v'. split; [right; exact Hi|exact Hc].
        * destruct Hp as (k' & v' & Hi & Hc). rewrite Forall_forall in Hl. specialize (Hl _ Hi). cbn in Hl.
          apply covers_rk in Hc, Hg. lia.
      + exists g'. split; [exact E'|]. split; [exact G'|]. intros p s'. rewrite M', M1. unfold maps_to. split.
        * intros [[X|[Hc ->]]|(s0 & (k' & Hi & Hc) & ->)]; [left; exact X|right..].
          -- exists s. split; [exists k; split; [left; reflexivity|exact Hc]|reflexivity].
          -- exists s0. split; [exists k'; split; [right; exact Hi|exact Hc]|reflexivity].
        * intros [X|(s0 & (k' & [Ek|Hi] & Hc) & ->)]; [auto| |right; exists s0; split; [exists k'; auto|reflexivity]].
          injection Ek as -> ->. left. right. auto.
  Qed.

  Lemma cut_GP {Q} {IQ : InclusiveInterval I Q} (q : Q) g : GWF g -> valid q ->
    exists g1 l, cut q g = (g1, Val l) /\ GP g1 /\ WF l /\
      (forall k s, In (k, s) l -> is_set s /\ built k) /\ (forall p, covered l p -> ~ covered g1 p) /\
      (forall p s, maps_to g1 p s <-> maps_to g p s /\ ~ covers q p) /\
      (forall p s, maps_to l p s <-> maps_to g p s /\ covers q p).
  Proof.
    intros [(W & C & B) Cov] Vq. destruct (cut_full g q W Vq) as (g1 & l & E & W1 & Wl & Hl & H1 & M1).
    pose proof (cut_out_maps g q g1 l W Vq E) as ML.
    exists g1, l. split; [exact E|]. split; [split; [exact W1|split]|].
    - intros k1 s1 k2 s2 I1 I2 T Es. subst s2. apply H1 in I1. apply H1 in I2.
      destruct I1 as (k1' & I1 & R1 & _), I2 as (k2' & I2 & R2 & _).
      assert (V1 : lo k1 <= hi k1) by (apply valid_rk, R1). assert (V2 : lo k2 <= hi k2) by (apply valid_rk, R2).
      destruct R1 as (_ & P1 & _), R2 as (_ & P2 & M2).
      assert (X1 : covers k1 (iend k1)) by (apply covers_rk; unfold lo, hi in *; lia).
      assert (X2 : covers k2 (istart k2)) by (apply covers_rk; unfold lo, hi in *; lia).
      destruct (P1 _ X1) as [Y1 Z1]. destruct (P2 _ X2) as [Y2 Z2].
      destruct (Z.eq_dec (lo k1') (lo k2')) as [Ek|Ek].
      + assert (k1' = k2').
        { assert (covers k2' (istart k1')).
          { apply covers_rk. pose proof (WF_okv _ _ W I2) as V. unfold elo, ehi in V. cbn in V. change (rk (istart k1')) with (lo k1'). lia. }
          assert (covers k1' (istart k1')).
          { apply covers_rk. pose proof (WF_okv _ _ W I1) as V. unfold elo, ehi in V. cbn in V. change (rk (istart k1')) with (lo k1'). lia. }
          pose proof (covers_unique g (istart k1') k1' s1 k2' s1 W I1 I2) as X. enough (Y : (k1', s1) = (k2', s1)) by (injection Y; auto). apply X; assumption. }
        subst k2'. assert (Z3 : covers k2 (iend k1)).
        { apply (M2 (mkInterval (iend k1) (istart k2))).
          - intros z Hz. apply covers_rk in Hz. unfold lo at 1, hi at 1 in Hz. cbn in Hz. unfold lo, hi in T.
            destruct (Z.eq_dec (rk z) (rk (iend k1))) as [A|A].
            + split; [apply covers_rk; rewrite A; apply covers_rk, Y1|]. intros Cq. apply Z1. apply covers_rk in Cq. rewrite A in Cq. apply covers_rk, Cq.
            + assert (A' : rk z = rk (istart k2)) by lia.
              split; [apply covers_rk; rewrite A'; apply covers_rk, Y2|]. intros Cq. apply Z2. apply covers_rk in Cq. rewrite A' in Cq. apply covers_rk, Cq.
          - exists (istart k2). split; [exact X2|]. apply covers_rk. unfold lo, hi in *. cbn. lia.
          - apply covers_rk. unfold lo, hi in *. cbn. lia. }
        apply covers_rk in Z3. unfold lo, hi in *. lia.
      + assert (No : ~ overlap k1' k2').
        { intros (z & Q1 & Q2). pose proof (covers_unique g z k1' s1 k2' s1 W I1 I2 Q1 Q2) as X. injection X as ->. congruence. }
        rewrite overlap_rk in No. apply covers_rk in Y1, Y2.
        assert (hi k1' + 1 = lo k2') as T'.
        { assert (A1 : covers k1' (istart k1)) by (apply P1, covers_rk; unfold lo, hi in *; lia).
          assert (A2 : covers k2' (iend k2)) by (apply P2, covers_rk; unfold lo, hi in *; lia).
          apply covers_rk in A1, A2. unfold lo, hi in *. lia. }
        apply (C k1' s1 k2' s1 I1 I2 T'). reflexivity.
    - intros k s Hi. apply H1 in Hi. destruct Hi as (k0 & Hi & _ & D'). destruct (B _ _ Hi) as [S0 B0].
      split; [exact S0|]. destruct D' as [[-> _]|[Bk _]]; assumption.
    - split; [exact Wl|]. split; [|split; [|split; [exact M1|exact ML]]].
      + intros k s Hi. apply Hl in Hi. destruct Hi as (Bk & k0 & Hi & _). split; [apply (B _ _ Hi)|exact Bk].
      + intros p Cl Cg. apply covered_maps_to in Cl, Cg. destruct Cl as (s & Cl), Cg as (s' & Cg). apply ML in Cl. apply M1 in Cg. tauto.
  Qed.

  Lemma cut_update_spec {Q} {IQ : InclusiveInterval I Q} upd (q : Q) g : (forall s, is_set s -> is_set (upd s)) -> GWF g -> valid q ->
    exists g', cut_update upd q g = (g', Val tt) /\ GWF g' /\
      forall p s, maps_to g p s -> (covers q p -> maps_to g' p (upd s)) /\ (~ covers q p -> maps_to g' p s).
  Proof.
    intros Hu G Vq. destruct (cut_GP q g G Vq) as (g1 & l & E & G1 & Wl & Bl & Hn & M1 & ML).
    destruct (reinsert_spec upd l Hu g1 G1 Wl Bl Hn) as (g' & E' & G' & M').
    exists g'. unfold cut_update. rewrite E. split; [exact E'|].
    assert (X : forall p s, maps_to g p s -> (covers q p -> maps_to g' p (upd s)) /\ (~ covers q p -> maps_to g' p s)).
    { intros p s M. split; intros C; apply M'.
      - right. exists s. split; [apply ML; auto|reflexivity].
      - left. apply M1. auto. }
    split; [|exact X]. split; [exact G'|]. intros p. destruct G as [_ Cov]. specialize (Cov p). apply covered_maps_to in Cov. destruct Cov as (s & M).
    destruct (X p s M) as [X1 X2]. assert (Cd : covers q p \/ ~ covers q p) by (rewrite covers_rk; lia).
    destruct Cd as [C|C]; [eapply maps_to_covered, X1, C|eapply maps_to_covered, X2, C].
  Qed.
End Gqdit.
