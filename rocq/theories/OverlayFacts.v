(** * OverlayFacts: maps laid over each other (the proofs of C149). *)
From Coq Require Import List ZArith Bool Lia ZifyBool Sorting.Sorted.
From Verif Require Import Base BTree UtilsModel IntervalModel NoditModel NoditOps Spec SplitOps MergeAllOps OverlayOps
  PointFacts IntervalFacts ListFacts NoditFacts NoditInv NoditQueries NoditGaps NoditMutations NoditMerges NoditMore EqModel EqFacts
  SplitFacts MergeAllFacts GqditProofs.
Import ListNotations.
Open Scope Z_scope.

Section Facts.
  Context {I : Type} `{PL : PointLaws I}.
  Context {K : Type} {IK : InclusiveInterval I K} {IL : IntervalLaws I K}.
  Context {V : Type}.
  Notation entry := (K * V)%type.
  Implicit Types (m a b c l : list (K * V)) (v : V).

  (** ** Parts *)
  Record left_of (P : I -> Prop) m m' : Prop := {
    lf_wf : WF m';
    lf_in : forall k' v, In (k', v) m' -> exists k, In (k, v) m /\ max_run (fun p => covers k p /\ P p) k';
    lf_maps : forall p v, maps_to m' p v <-> maps_to m p v /\ P p
  }.

  Lemma run_iv (P : I -> Prop) (k : K) : max_run P k -> max_run P (mkInterval (istart k) (iend k) : Interval I) /\ same_points k (mkInterval (istart k) (iend k) : Interval I).
  Proof.
    intros (Vk & A & B). assert (S : same_points k (mkInterval (istart k) (iend k) : Interval I)) by (intros p; rewrite !covers_rk; reflexivity).
    split; [|exact S]. split; [destruct Vk as (p & Hp); exists p; apply S, Hp|]. split; [intros p Hp; apply A, S, Hp|].
    intros j Hj (p & Hz1 & Hz2) z Hz. apply S, (B j); [exact Hj|exists p; split; [apply S, Hz1|exact Hz2]|exact Hz].
  Qed.

  Lemma left_parts P m m' : WF m -> left_of P m m' -> parts P m m'.
  Proof.
    intros W [W' Hz1 Hz2]. split; [apply ascending_WF, W'|]. split; [exact Hz1|].
    intros k v j Hi R. pose proof R as ((p & Hp) & A & _). destruct (A p Hp) as [Hk HP].
    destruct (proj2 (Hz2 p v)) as (k' & Hi' & Hk'); [split; [exists k; auto|exact HP]|].
    exists k'. split; [exact Hi'|]. destruct (Hz1 k' v Hi') as (k0 & Hi0 & R').
    assert (E : (k0, v) = (k, v)) by (apply (covers_unique m p); try assumption; apply R', Hk'). injection E as ->.
    exact (max_run_same _ k' j p R' R Hk' Hp).
  Qed.

  Lemma parts_wf P m l : parts P m l -> WF l.
  Proof.
    intros (S & A & _). apply ascending_WF. split; [exact S|]. rewrite Forall_map, Forall_forall. intros [k v] Hi.
    destruct (A k v Hi) as (k0 & _ & R). apply R.
  Qed.

  Lemma parts_unique P P' m l l' : (forall p, P p <-> P' p) -> parts P m l -> parts P' m l' -> same_entries l l'.
  Proof.
    intros E Hz1 Hz2. pose proof (parts_wf _ _ _ Hz1) as W1. pose proof (parts_wf _ _ _ Hz2) as W2.
    destruct Hz1 as (_ & A1 & B1), Hz2 as (_ & A2 & B2).
    assert (X : forall (k : K), forall p, covers k p /\ P p <-> covers k p /\ P' p) by (intros k p; rewrite E; reflexivity).
    apply sim_F2; [assumption..| |].
    - intros [k' v] Hi. destruct (A1 k' v Hi) as (k & Hk & R). destruct (run_iv _ _ R) as [R' S].
      destruct (B2 k v _ Hk (max_run_ext _ _ _ (X k) R')) as (k2 & Hk2 & S2). exists (k2, v). split; [exact Hk2|].
      split; [|reflexivity]. intros p. cbn [fst]. rewrite (S p). symmetry. apply S2.
    - intros [k' v] Hi. destruct (A2 k' v Hi) as (k & Hk & R). destruct (run_iv _ _ R) as [R' S].
      destruct (B1 k v _ Hk (max_run_ext _ _ _ (fun p => iff_sym (X k p)) R')) as (k2 & Hk2 & S2). exists (k2, v). split; [exact Hk2|].
      split; [|reflexivity]. intros p. cbn [fst]. rewrite (S p). apply S2.
  Qed.

  Lemma left_refl m : WF m -> forall P : I -> Prop, (forall p, P p) -> left_of P m m.
  Proof.
    intros W P HP. split; [exact W| |].
    - intros k v Hi. exists k. split; [exact Hi|]. split; [apply (wf_valid m (k, v) W Hi)|]. split; [auto|]. intros j Hj _ p Hp. apply Hj, Hp.
    - intros p v. split; [auto|tauto].
  Qed.
  Lemma left_ext P P' m m' : (forall p, P p <-> P' p) -> left_of P m m' -> left_of P' m m'.
  Proof.
    intros E [W A B]. split; [exact W| |].
    - intros k v Hi. destruct (A k v Hi) as (k0 & Hz0 & R). exists k0. split; [exact Hz0|]. apply (max_run_ext _ _ k) with (2 := R). intros p. rewrite E. tauto.
    - intros p v. rewrite B, E. tauto.
  Qed.
  Lemma left_trans P P' m m1 m2 : left_of P m m1 -> left_of P' m1 m2 -> left_of (fun p => P p /\ P' p) m m2.
  Proof.
    intros [W1 A1 B1] [W2 A2 B2]. split; [exact W2| |].
    - intros k v Hi. destruct (A2 k v Hi) as (k1 & Hz1 & R2). destruct (A1 k1 v Hz1) as (k0 & Hz0 & R1). exists k0. split; [exact Hz0|].
      exact (max_run_twice (covers k0) P P' k1 k R1 R2).
    - intros p v. rewrite B2, B1. tauto.
  Qed.

  Lemma covers_dec {Q} {IQ : InclusiveInterval I Q} (q : Q) p : covers q p \/ ~ covers q p.
  Proof. rewrite covers_rk. lia. Qed.

  (** ** Cutting many intervals out *)
  Section Cuts.
    Context {Q : Type} {IQ : InclusiveInterval I Q}.
    Implicit Types (qs : list Q).

    Lemma cut_left_of m q : WF m -> valid q -> exists m' out, cut q m = (m', Val out) /\ left_of (fun p => ~ covers q p) m m'.
    Proof.
      intros W Vq. destruct (cut_full m q W Vq) as (m' & out & E & W' & _ & _ & A & B). exists m', out. split; [exact E|].
      split; [exact W'| |exact B]. intros k v Hi. destruct (A k v Hi) as (k0 & Hz0 & R & _). exists k0. auto.
    Qed.

    Lemma cut_each_left qs : forall m, WF m -> Forall valid qs -> exists m' out, cut_each qs m = (m', Val out) /\
      left_of (fun p => ~ exists q, In q qs /\ covers q p) m m' /\
      forall p v, maps_to out p v <-> maps_to m p v /\ exists q, In q qs /\ covers q p.
    Proof.
      induction qs as [|q qs IH]; intros m W Vs.
      - exists m, []. split; [reflexivity|]. split; [apply left_refl; [exact W|intros p (q & [] & _)]|].
        intros p v. split; [intros (k & [] & _)|intros [_ (q & [] & _)]].
      - inversion Vs as [|? ? Vq Vs']; subst. destruct (cut_left_of m q W Vq) as (m1 & o1 & E1 & L1).
        destruct (IH m1 (lf_wf _ _ _ L1) Vs') as (m2 & o2 & E2 & L2 & O2). exists m2, (o1 ++ o2). cbn [cut_each]. rewrite E1, E2. split; [reflexivity|]. split.
        + apply (left_ext _ _ _ _ (fun p => iff_refl _)). pose proof (left_trans _ _ _ _ _ L1 L2) as L. apply left_ext with (2 := L).
          intros p. cbn [In]. split.
          * intros [A B] (q' & [<-|Hq] & Hp); [exact (A Hp)|]. apply B. exists q'. auto.
          * intros N. split; [intros Hp; apply N; exists q; auto|]. intros (q' & Hq & Hp). apply N. exists q'. auto.
        + intros p v. pose proof (cut_out_maps m q m1 o1 W Vq E1 p v) as O1. specialize (O2 p v). pose proof (lf_maps _ _ _ L1 p v) as M1.
          assert (X : maps_to (o1 ++ o2) p v <-> maps_to o1 p v \/ maps_to o2 p v).
          { split.
            - intros (k & Hi & Hp). apply in_app_iff in Hi. destruct Hi; [left|right]; exists k; auto.
            - intros [(k & Hi & Hp)|(k & Hi & Hp)]; exists k; (split; [apply in_app_iff; auto|exact Hp]). }
          rewrite X, O1, O2, M1. cbn [In]. split.
          * intros [[A B]|[[A N] (q' & Hq & Hp)]]; (split; [exact A|]); [exists q; auto|exists q'; auto].
          * intros [A (q' & [<-|Hq] & Hp)]; [left; auto|]. destruct (covers_dec q p) as [C|C]; [left; auto|right]. split; [auto|exists q'; auto].
    Qed.

    (** The pieces, when the intervals are in order. *)
    Lemma cut_each_pieces qs : forall m m' out, WF m -> Forall valid qs -> ascending qs -> cut_each qs m = (m', Val out) ->
      ascending (map fst out) /\
      (forall x v, In (x, v) out -> exists k q, In (k, v) m /\ In q qs /\ overlap k q /\ forall p, covers x p <-> covers k p /\ covers q p).
    Proof.
      induction qs as [|q qs IH]; intros m m' out W Vs As E.
      - injection E as <- <-. split; [constructor|intros x v []].
      - inversion Vs as [|? ? Vq Vs']; subst. apply SS_cons in As. destruct As as [As Hq]. cbn [cut_each] in E.
        destruct (cut_full m q W Vq) as (m1 & o1 & E1 & W1 & Wo & O1 & A1 & _). rewrite E1 in E.
        destruct (cut_each qs m1) as [m2 [o2|]] eqn:E2; [|discriminate]. injection E as <- <-.
        destruct (IH m1 m2 o2 W1 Vs' As E2) as [S2 O2].
        assert (O2' : forall x v, In (x, v) o2 -> exists k q', In (k, v) m /\ In q' qs /\ overlap k q' /\ forall p, covers x p <-> covers k p /\ covers q' p).
        { intros x v Hi. destruct (O2 x v Hi) as (k1 & q' & Hk1 & Hq' & Ov & C). destruct (A1 k1 v Hk1) as (k0 & Hk0 & R1 & _).
          assert (Sb : forall p, covers k1 p -> covers k0 p) by (intros p Hp; apply R1, Hp).
          exists k0, q'. split; [exact Hk0|]. split; [exact Hq'|]. destruct Ov as (o & Oo1 & Oo2).
          split; [exists o; split; [apply Sb, Oo1|exact Oo2]|]. intros p. rewrite C. split; [intros [X Y]; split; [apply Sb, X|exact Y]|].
          intros [X Y]. split; [|exact Y]. rewrite Forall_forall in Hq. pose proof (Hq q' Hq') as Bq.
          pose proof (Sb o Oo1) as O0. apply covers_rk in X, Y, O0. assert (Y2 := proj1 (covers_rk q' o) Oo2).
          assert (J : forall s t : I, (forall z, rk s <= rk z <= rk t -> lo k0 <= rk z <= hi k0 /\ lo q' <= rk z <= hi q') ->
            rk s <= rk o <= rk t -> rk s <= rk p <= rk t -> covers k1 p).
          { intros s t Hst Ho Hp. destruct R1 as (_ & _ & R1). apply (R1 (mkInterval s t)).
            - intros z Hz. apply covers_rk in Hz. unfold lo, hi in Hz. cbn in Hz. destruct (Hst z Hz) as [Z0 Z2]. split; [apply covers_rk, Z0|].
              intros Z1. apply covers_rk in Z2. pose proof (Bq z z Z1 Z2) as F. apply plt_rk in F. lia.
            - exists o. split; [exact Oo1|]. apply covers_rk. unfold lo, hi. cbn. exact Ho.
            - apply covers_rk. unfold lo, hi. cbn. exact Hp. }
          destruct (Z_le_gt_dec (rk o) (rk p)) as [L|L]; [apply (J o p)|apply (J p o)]; intros; lia. }
        split.
        + rewrite map_app. apply SS_app. split; [apply ascending_WF, Wo|]. split; [exact S2|]. intros x y Hx Hy.
          apply in_map_iff in Hx, Hy. destruct Hx as ([kx vx] & <- & Hx), Hy as ([ky vy] & <- & Hy). cbn [fst].
          destruct (O1 kx vx Hx) as (_ & k0 & _ & _ & Cx). destruct (O2' ky vy Hy) as (k1 & q' & _ & Hq' & _ & Cy).
          rewrite Forall_forall in Hq. intros s t Hs Ht. apply (Hq q' Hq'); [apply Cx, Hs|apply Cy, Ht].
        + intros x v Hi. apply in_app_iff in Hi. destruct Hi as [Hi|Hi].
          * destruct (O1 x v Hi) as (_ & k0 & Hz0 & Ov & C). exists k0, q. cbn. auto.
          * destruct (O2' x v Hi) as (k0 & q' & Hz0 & Hq' & Ov & C). exists k0, q'. cbn. auto.
    Qed.
  End Cuts.

  Lemma minus_common {K' V'} {IK' : InclusiveInterval I K'} {IL' : IntervalLaws I K'} a (b : list (K' * V')) m' out : WF a -> WF b ->
    cut_each (map fst b) a = (m', Val out) -> common a b out.
  Proof.
    intros W Wb E. apply ascending_WF in Wb as X. destruct X as [As Vs].
    destruct (cut_each_pieces _ a m' out W Vs As E) as [S A]. destruct (cut_each_left _ a W Vs) as (x & y & Ex & _ & M). rewrite E in Ex. injection Ex as <- <-.
    split; [exact S|]. split.
    - intros x v Hi. destruct (A x v Hi) as (k & k' & Hk & Hq & Ov & C). apply in_map_iff in Hq. destruct Hq as ([k2 v'] & <- & Hb).
      exists k, k2, v'. auto.
    - intros k v k' v' Hk Hk' (p & Hz1 & Hz2). destruct (proj2 (M p v)) as (x & Hx & Hp).
      { split; [exists k; auto|]. exists k'. split; [apply in_map_iff; exists (k', v'); auto|exact Hz2]. }
      exists x. split; [exact Hx|]. destruct (A x v Hx) as (k0 & q & Hk0 & Hq & _ & C). apply in_map_iff in Hq. destruct Hq as ([k2 v2] & <- & Hb).
      pose proof (proj1 (C p) Hp) as [P0 P2]. assert (E1 : (k0, v) = (k, v)) by (apply (covers_unique a p); assumption). injection E1 as ->.
      assert (E2 : (k2, v2) = (k', v')) by (apply (covers_unique b p); assumption). injection E2 as -> ->. exact C.
  Qed.

  (** ** One over the other *)
  Record over b a m : Prop := {
    ov_wf : WF m;
    ov_top : forall e, In e b -> In e m;
    ov_keep : forall k v, In (k, v) a -> (forall e, In e b -> ~ overlap k (fst e)) -> In (k, v) m;
    ov_in : forall k' v, In (k', v) m -> In (k', v) b \/ exists k, In (k, v) a /\ max_run (fun p => covers k p /\ ~ covered b p) k';
    ov_maps : forall p v, maps_to m p v <-> maps_to b p v \/ (maps_to a p v /\ ~ covered b p)
  }.

  Lemma covered_cons (k : K) v l p : covered ((k, v) :: l) p <-> covers k p \/ covered l p.
  Proof.
    split.
    - intros (k' & v' & [E|Hi] & Hp); [injection E as <- <-; left; exact Hp|right; exists k', v'; auto].
    - intros [Hp|(k' & v' & Hi & Hp)]; [exists k, v; cbn; auto|exists k', v'; cbn; auto].
  Qed.
  Lemma maps_cons (k : K) v l p w : maps_to ((k, v) :: l) p w <-> (covers k p /\ w = v) \/ maps_to l p w.
  Proof.
    split.
    - intros (k' & [E|Hi] & Hp); [injection E as <- <-; left; auto|right; exists k'; auto].
    - intros [[Hp ->]|(k' & Hi & Hp)]; [exists k; cbn; auto|exists k'; cbn; auto].
  Qed.

  Lemma overwrite_over b : forall a, WF b -> WF a -> exists m, overwrite_each b a = (m, Val tt) /\ over b a m.
  Proof.
    induction b as [|[k v] b IH]; intros a Wb W.
    - exists a. split; [reflexivity|]. assert (N : forall p, ~ covered ([] : list entry) p) by (intros p (x & y & [] & _)). split; [exact W|intros e []|auto| |].
      + intros k v Hi. right. exists k. split; [exact Hi|]. split; [apply (wf_valid a (k, v) W Hi)|]. split; [auto|]. intros j Hj _ p Hp. apply Hj, Hp.
      + intros p v. specialize (N p). split; [auto|]. intros [(x & [] & _)|[A _]]. exact A.
    - pose proof Wb as Wb0. apply WF_cons in Wb. destruct Wb as (Vk & Wb & Hk). assert (Vk' : valid k) by (apply valid_rk; exact Vk).
      destruct (insert_overwrite_spec a k v W Vk') as (m1 & o1 & E1 & _ & W1 & Hin & HI & HM).
      destruct (cut_left_of a k W Vk') as (c1 & x & Ec & Lc). rewrite Ec in HI. cbn [fst] in HI.
      destruct (IH m1 Wb W1) as (m & E & [Wm T Kp A M]). exists m. cbn [overwrite_each]. rewrite E1. split; [exact E|].
      rewrite Forall_forall in Hk.
      assert (Top : In (k, v) m).
      { apply Kp; [exact Hin|]. intros [k2 v2] Hi Ov. pose proof (Hk _ Hi) as L. cbn [fst] in Ov. rewrite overlap_rk in Ov.
        pose proof (WF_okv _ _ Wb Hi). unfold elo, ehi in *. cbn [fst] in *. lia. }
      split; [exact Wm| | | |].
      + intros e [<-|Hi]; [exact Top|apply T, Hi].
      + intros k2 v2 Hi N. apply Kp; [|intros e He; apply N; right; exact He]. apply HI. right.
        destruct (cut_entries a k W Vk') as (c2 & y & Ec2 & _ & _ & _ & B & _). rewrite Ec in Ec2. injection Ec2 as <- <-.
        apply (B k2 v2 Hi), (N (k, v)). left. reflexivity.
      + intros k' v' Hi. destruct (A k' v' Hi) as [Hb|(k1 & Hz1 & R)]; [left; right; exact Hb|]. apply HI in Hz1. destruct Hz1 as [E1'|Hz1].
        * injection E1' as -> ->. left. left. destruct R as ((p & Hp) & R & _). destruct (R p Hp) as [Hp1 _].
          apply (covers_unique m p); assumption.
        * right. destruct (lf_in _ _ _ Lc k1 v' Hz1) as (k0 & Hz0 & R0). exists k0. split; [exact Hz0|].
          pose proof (max_run_twice (covers k0) (fun p => ~ covers k p) (fun p => ~ covered b p) k1 k' R0 R) as R'.
          apply (max_run_ext _ _ k') with (2 := R'). intros p. rewrite covered_cons. tauto.
      + intros p w. rewrite M, HM, maps_cons, covered_cons.
        assert (X : covers k p -> ~ covered b p).
        { intros Hp (k2 & v2 & Hi & Hp2). pose proof (Hk _ Hi) as L. apply covers_rk in Hp, Hp2. unfold elo, ehi in *. cbn [fst] in *. lia. }
        tauto.
  Qed.

  Lemma over_overlaid b a m : WF a -> over b a m -> overlaid a b m.
  Proof.
    intros W [Wm T _ A M]. split; [apply ascending_WF, Wm|]. split; [exact T|]. split; [exact A|].
    intros k v j Hi R. pose proof R as ((p & Hp) & B & _). destruct (B p Hp) as [Hk HP].
    destruct (proj2 (M p v)) as (k' & Hi' & Hk'); [right; split; [exists k; auto|exact HP]|].
    exists k'. split; [exact Hi'|]. destruct (A k' v Hi') as [Hb|(k0 & Hi0 & R')]; [destruct HP; exists k', v; auto|].
    assert (E : (k0, v) = (k, v)) by (apply (covers_unique a p); try assumption; apply R', Hk'). injection E as ->.
    exact (max_run_same _ k' j p R' R Hk' Hp).
  Qed.

  Lemma overlaid_wf a b m : WF b -> overlaid a b m -> WF m.
  Proof.
    intros W (S & _ & A & _). apply ascending_WF. split; [exact S|]. rewrite Forall_map, Forall_forall. intros [k v] Hi.
    destruct (A k v Hi) as [Hb|(k0 & _ & R)]; [apply (wf_valid b (k, v) W Hb)|apply R].
  Qed.

  Lemma overlaid_sim a b m m' : overlaid a b m -> overlaid a b m' -> forall e, In e m -> exists e', In e' m' /\ same_entry e e'.
  Proof.
    intros (_ & _ & A & _) (_ & T' & _ & B') [k v] Hi. destruct (A k v Hi) as [Hb|(k0 & Hz0 & R)].
    - exists (k, v). split; [apply T', Hb|]. split; [intros p|]; reflexivity.
    - destruct (run_iv _ _ R) as [R' S]. destruct (B' k0 v _ Hz0 R') as (k2 & Hz2 & S2). exists (k2, v). split; [exact Hz2|]. split; [|reflexivity].
      intros p. cbn [fst]. rewrite (S p). symmetry. apply S2.
  Qed.
  Lemma overlaid_unique a b m m' : WF b -> overlaid a b m -> overlaid a b m' -> same_entries m m'.
  Proof.
    intros W O O'. apply sim_F2; [apply (overlaid_wf a b); assumption..|apply (overlaid_sim a b); assumption|].
    intros e He. destruct (overlaid_sim a b m' m O' O e He) as (e' & He' & A & B). exists e'. split; [exact He'|]. split; [intros p; symmetry; apply A|symmetry; exact B].
  Qed.

  (** ** Laws *)
  Lemma over_self a m : WF a -> over a a m -> m = a.
  Proof.
    intros W [Wm T _ A _]. apply WF_perm_eq; [exact Wm|exact W|]. intros [k v]. split; [|apply T].
    intros Hi. destruct (A k v Hi) as [Hb|(k0 & Hz0 & (p & Hp) & R & _)]; [exact Hb|]. destruct (R p Hp) as [C N]. destruct N. exists k0, v. auto.
  Qed.
  Lemma over_empty b m : WF b -> over b [] m -> m = b.
  Proof.
    intros W [Wm T _ A _]. apply WF_perm_eq; [exact Wm|exact W|]. intros [k v]. split; [|apply T].
    intros Hi. destruct (A k v Hi) as [Hb|(k0 & [] & _)]. exact Hb.
  Qed.

  Lemma over_covered a b m : WF b -> over b a m -> forall p, covered m p <-> covered a p \/ covered b p.
  Proof.
    intros Wb O p. split.
    - intros (k & v & Hi & Hp). destruct (proj1 (ov_maps _ _ _ O p v)) as [(k0 & Hz0 & C)|[(k0 & Hz0 & C) _]]; [exists k; auto|right; exists k0, v; auto|left; exists k0, v; auto].
    - intros X. destruct (covered_dec b p Wb) as [(k & v & Hi & Hp)|N].
      + destruct (proj2 (ov_maps _ _ _ O p v)) as (k0 & Hz0 & C); [left; exists k; auto|]. exists k0, v. auto.
      + destruct X as [(k & v & Hi & Hp)|X]; [|tauto]. destruct (proj2 (ov_maps _ _ _ O p v)) as (k0 & Hz0 & C); [right; split; [exists k; auto|exact N]|]. exists k0, v. auto.
  Qed.

  (** Two maps, both of whose entries are of one of three kinds, which the point
      tells apart. *)
  Lemma three_same a b c m m' : WF a -> WF b -> WF c -> WF m -> WF m' -> same_map m m' ->
    let good x := forall k' v, In (k', v) x -> In (k', v) c \/ (exists k, In (k, v) b /\ max_run (fun p => covers k p /\ ~ covered c p) k') \/
      exists k, In (k, v) a /\ max_run (fun p => covers k p /\ ~ covered b p /\ ~ covered c p) k' in
    good m -> good m' -> same_entries m m'.
  Proof.
    intros Wa Wb Wc Wm Wm' S good G G'.
    assert (X : forall m m', WF m -> WF m' -> same_map m m' -> good m -> good m' -> forall e, In e m -> exists e', In e' m' /\ same_entry e e').
    { clear - Wa Wb Wc PL IL. intros m m' Wm Wm' S G G' [k v] Hi. assert (Vk := wf_valid m (k, v) Wm Hi). destruct Vk as (p & Hp). cbn [fst] in Hp.
      destruct (proj1 (S p v)) as (k' & Hi' & Hp'); [exists k; auto|]. exists (k', v). split; [exact Hi'|]. split; [|reflexivity]. cbn [fst].
      destruct (G k v Hi) as [Hc|[(kb & Hb & R)|(ka & Ha & R)]], (G' k' v Hi') as [Hc'|[(kb' & Hb' & R')|(ka' & Ha' & R')]].
      - pose proof (covers_unique c p k v k' v Wc Hc Hc' Hp Hp') as E. injection E as ->. intros z. reflexivity.
      - destruct (proj1 (proj2 R') p Hp') as [_ N]. destruct N. exists k, v. auto.
      - destruct (proj1 (proj2 R') p Hp') as (_ & _ & N). destruct N. exists k, v. auto.
      - destruct (proj1 (proj2 R) p Hp) as [_ N]. destruct N. exists k', v. auto.
      - destruct (proj1 (proj2 R) p Hp) as [C _], (proj1 (proj2 R') p Hp') as [C' _].
        pose proof (covers_unique b p kb v kb' v Wb Hb Hb' C C') as E. injection E as <-. exact (max_run_same _ k k' p R R' Hp Hp').
      - destruct (proj1 (proj2 R) p Hp) as [C _], (proj1 (proj2 R') p Hp') as (_ & N & _). destruct N. exists kb, v. auto.
      - destruct (proj1 (proj2 R) p Hp) as (_ & _ & N). destruct N. exists k', v. auto.
      - destruct (proj1 (proj2 R) p Hp) as (_ & N & _), (proj1 (proj2 R') p Hp') as [C _]. destruct N. exists kb', v. auto.
      - destruct (proj1 (proj2 R) p Hp) as [C _], (proj1 (proj2 R') p Hp') as [C' _].
        pose proof (covers_unique a p ka v ka' v Wa Ha Ha' C C') as E. injection E as <-. exact (max_run_same _ k k' p R R' Hp Hp'). }
    apply sim_F2; [assumption..|apply X; assumption|].
    intros e He. destruct (X m' m Wm' Wm (fun p v => iff_sym (S p v)) G' G e He) as (e' & He' & A & B).
    exists e'. split; [exact He'|]. split; [intros p; symmetry; apply A|symmetry; exact B].
  Qed.

  Lemma over_assoc a b c ab ab_c bc a_bc : WF a -> WF b -> WF c ->
    over b a ab -> over c ab ab_c -> over c b bc -> over bc a a_bc -> same_entries ab_c a_bc.
  Proof.
    intros Wa Wb Wc O1 O2 O3 O4. pose proof (over_covered b c bc Wc O3) as C3.
    apply (three_same a b c); [assumption..|apply O2|apply O4| | |].
    - intros p v. rewrite (ov_maps _ _ _ O2), (ov_maps _ _ _ O1), (ov_maps _ _ _ O4), (ov_maps _ _ _ O3), C3. 
      assert (maps_to b p v -> covered b p) by (intros (k & Hi & Hp); exists k, v; auto). tauto.
    - intros k v Hi. destruct (ov_in _ _ _ O2 k v Hi) as [Hc|(k1 & Hz1 & R)]; [left; exact Hc|]. right.
      destruct (ov_in _ _ _ O1 k1 v Hz1) as [Hb|(k0 & Hz0 & R0)]; [left; exists k1; auto|right; exists k0]. split; [exact Hz0|].
      exact (max_run_twice (covers k0) (fun p => ~ covered b p) (fun p => ~ covered c p) k1 k R0 R).
    - intros k v Hi. destruct (ov_in _ _ _ O4 k v Hi) as [Hbc|(k0 & Hz0 & R)].
      + destruct (ov_in _ _ _ O3 k v Hbc) as [Hc|Hb]; auto.
      + right. right. exists k0. split; [exact Hz0|]. apply (max_run_ext _ _ k) with (2 := R). intros p. rewrite C3. tauto.
  Qed.

  (** Clearing the ground first changes nothing; clearing it afterwards undoes
      the overlay. *)
  Lemma over_minus a b d m m' : WF a -> WF b -> left_of (fun p => ~ covered b p) a d -> over b a m -> over b d m' -> same_entries m m'.
  Proof.
    intros Wa Wb L O O'. apply (three_same a [] b); [exact Wa|apply WF_nil|exact Wb|apply O|apply O'| | |].
    - intros p v. rewrite (ov_maps _ _ _ O), (ov_maps _ _ _ O'), (lf_maps _ _ _ L). tauto.
    - intros k v Hi. destruct (ov_in _ _ _ O k v Hi) as [Hb|(k0 & Hz0 & R)]; [left; exact Hb|]. right. right. exists k0. split; [exact Hz0|].
      apply (max_run_ext _ _ k) with (2 := R). intros p. assert (~ covered ([] : list entry) p) by (intros (x & y & [] & _)). tauto.
    - intros k v Hi. destruct (ov_in _ _ _ O' k v Hi) as [Hb|(k1 & Hz1 & R)]; [left; exact Hb|]. right. right.
      destruct (lf_in _ _ _ L k1 v Hz1) as (k0 & Hz0 & R0). exists k0. split; [exact Hz0|].
      pose proof (max_run_twice (covers k0) _ _ k1 k R0 R) as R'.
      apply (max_run_ext _ _ k) with (2 := R'). intros p. assert (~ covered ([] : list entry) p) by (intros (x & y & [] & _)). tauto.
  Qed.
  Lemma minus_over a b d m d' : WF a -> WF b -> left_of (fun p => ~ covered b p) a d -> over b a m -> left_of (fun p => ~ covered b p) m d' -> same_entries d' d.
  Proof.
    intros Wa Wb L O L'. apply (parts_unique (fun p => ~ covered b p) (fun p => ~ covered b p) a); [tauto| |apply left_parts; assumption].
    apply left_parts; [exact Wa|]. split; [apply L'| |].
    - intros k v Hi. destruct (lf_in _ _ _ L' k v Hi) as (k1 & Hz1 & R). destruct (ov_in _ _ _ O k1 v Hz1) as [Hb|(k0 & Hz0 & R0)].
      + destruct R as ((p & Hp) & R & _). destruct (R p Hp) as [C N]. destruct N. exists k1, v. auto.
      + exists k0. split; [exact Hz0|]. pose proof (max_run_twice (covers k0) _ _ k1 k R0 R) as R'. apply (max_run_ext _ _ k) with (2 := R'). intros p. tauto.
    - intros p v. rewrite (lf_maps _ _ _ L'), (ov_maps _ _ _ O). assert (maps_to b p v -> covered b p) by (intros (k & Hi & Hp); exists k, v; auto). tauto.
  Qed.
End Facts.
