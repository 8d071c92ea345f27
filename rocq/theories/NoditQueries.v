(** * NoditQueries: the read-only NoditMap methods against the specification. *)
From Coq Require Import List ZArith Bool Lia ZifyBool Sorting.Sorted.
From Verif Require Import Base BTree UtilsModel IntervalModel NoditModel Spec PointFacts IntervalFacts ListFacts NoditFacts.
Import ListNotations.
Open Scope Z_scope.

Section Runs.
  Context {I : Type} `{PL : PointLaws I}.
  Context {K : Type} {IK : InclusiveInterval I K}.

  (** Sufficient condition for a maximal run. *)
  Lemma max_run_intro (P : I -> Prop) (g : K) :
    lo g <= hi g -> (forall p, covers g p -> P p) ->
    (lo g = rk MIN \/ exists p, rk p = lo g - 1 /\ ~ P p) ->
    (hi g = rk MAX \/ exists p, rk p = hi g + 1 /\ ~ P p) ->
    max_run P g.
  Proof.
    intros Vg HP HL HR. split; [apply valid_rk, Vg|]. split; [exact HP|].
    intros j Hj Ho p Hp. apply overlap_rk in Ho. apply covers_rk in Hp. apply covers_rk.
    split.
    - destruct HL as [E|(x & Ex & Nx)]; [rewrite E; apply rk_min|].
      destruct (Z_le_gt_dec (lo g) (rk p)) as [L|L]; [exact L|exfalso].
      apply Nx, Hj, covers_rk. lia.
    - destruct HR as [E|(x & Ex & Nx)]; [rewrite E; apply rk_max|].
      destruct (Z_le_gt_dec (rk p) (hi g)) as [L|L]; [exact L|exfalso].
      apply Nx, Hj, covers_rk. lia.
  Qed.

  (** Two maximal runs sharing a point are equal. *)
  Lemma max_run_same {K'} {IK' : InclusiveInterval I K'} (P : I -> Prop) (g : K) (j : K') p :
    max_run P g -> max_run P j -> covers g p -> covers j p -> same_points g j.
  Proof.
    intros (Vg & Pg & Mg) (Vj & Pj & Mj) Hg Hj x. split; intros Hx.
    - apply (Mj (mkInterval (istart g) (iend g))); [exact Pg| |exact Hx].
      exists p. split; [exact Hj|exact Hg].
    - apply (Mg (mkInterval (istart j) (iend j))); [exact Pj| |exact Hx].
      exists p. split; [exact Hg|exact Hj].
  Qed.
End Runs.

Section Queries.
  Context {I : Type} `{PL : PointLaws I}.
  Context {K : Type} {IK : InclusiveInterval I K} {IL : IntervalLaws I K}.
  Context {V : Type}.
  Notation entry := (K * V)%type.
  Implicit Types (m A B M : NoditMap K V).

  Lemma ascending_WF m : ascending (map fst m) /\ Forall valid (map fst m) <-> WF m.
  Proof.
    unfold ascending, WF. rewrite SS_map, Forall_map.
    split; intros [Hs Hf].
    - assert (Hv : Forall okv m).
      { eapply Forall_impl; [|exact Hf]. intros a Ha. apply valid_rk, Ha. }
      split; [|exact Hv]. eapply SS_impl; [|exact Hv|exact Hs].
      intros x y Vx Vy Hb. apply before_rk in Hb; assumption.
    - split.
      + eapply SS_impl; [|exact Hf|exact Hs]. intros x y Vx Vy Hb. apply before_rk; assumption.
      + eapply Forall_impl; [|exact Hf]. intros a Ha. apply valid_rk, Ha.
  Qed.

  (** Overlap and touch of an entry with an interval, in ranks. *)
  Section Rel.
    Context {Q : Type} {IQ : InclusiveInterval I Q}.
    Lemma overlap_meets (e : entry) (q : Q) : okv e -> lo q <= hi q ->
      (overlap (fst e) q <-> meets (lo q) (hi q) e).
    Proof. intros Ve Vq. rewrite overlap_rk. unfold okv, meets, elo, ehi in *. lia. Qed.
    Lemma left_no_overlap (e : entry) (q : Q) : okv e -> left_of (lo q) e -> ~ overlap (fst e) q.
    Proof. rewrite overlap_rk. unfold okv, left_of, elo, ehi in *. lia. Qed.
    Lemma right_no_overlap (e : entry) (q : Q) : okv e -> right_of (hi q) e -> ~ overlap (fst e) q.
    Proof. rewrite overlap_rk. unfold okv, right_of, elo, ehi in *. lia. Qed.
    Lemma split_overlap m (q : Q) : WF m -> valid q ->
      exists A M B, m = A ++ M ++ B /\ Forall (left_of (lo q)) A /\
        Forall (meets (lo q) (hi q)) M /\ Forall (right_of (hi q)) B /\
        sub (fun e => overlap (fst e) q) m M /\ sub (fun e => ~ overlap (fst e) q) m (A ++ B).
    Proof.
      intros W Vq. apply valid_rk in Vq.
      destruct (split3 m (lo q) (hi q) W Vq) as (A & M & B & -> & HA & HM & HB).
      exists A, M, B. do 4 (split; [auto|]).
      destruct W as [_ HV]. rewrite !Forall_app in HV. destruct HV as (VA & VM & VB).
      assert (NA : Forall (fun e => ~ overlap (fst e) q) A).
      { rewrite Forall_forall in *. intros x Hx. apply left_no_overlap; auto. }
      assert (NB : Forall (fun e => ~ overlap (fst e) q) B).
      { rewrite Forall_forall in *. intros x Hx. apply right_no_overlap; auto. }
      assert (YM : Forall (fun e => overlap (fst e) q) M).
      { rewrite Forall_forall in *. intros x Hx. apply overlap_meets; auto. }
      split.
      - change M with ([] ++ M) at 2. apply sub_app; [apply sub_none, NA|].
        rewrite <- (app_nil_r M) at 2. apply sub_app; [apply sub_all, YM|apply sub_none, NB].
      - apply sub_app; [apply sub_all, NA|].
        change B with ([] ++ B) at 2. apply sub_app; [|apply sub_all, NB].
        apply sub_none. eapply Forall_impl; [|exact YM]. cbn. tauto.
    Qed.
  End Rel.

  Lemma covered_app m1 m2 p : covered (m1 ++ m2) p <-> covered m1 p \/ covered m2 p.
  Proof.
    unfold covered. split.
    - intros (k & v & Hin & Hc). apply in_app_iff in Hin. destruct Hin; [left|right]; eauto.
    - intros [(k & v & Hin & Hc)|(k & v & Hin & Hc)]; exists k, v; (split; [apply in_app_iff; tauto|exact Hc]).
  Qed.
  Lemma not_covered_left m p z : rk p >= z -> Forall (left_of z) m -> ~ covered m p.
  Proof.
    intros Hz Hf (k & v & Hin & Hc). rewrite Forall_forall in Hf. specialize (Hf _ Hin).
    apply covers_rk in Hc. unfold left_of, ehi in Hf. cbn in Hf. lia.
  Qed.
  Lemma not_covered_right m p z : rk p <= z -> Forall (right_of z) m -> ~ covered m p.
  Proof.
    intros Hz Hf (k & v & Hin & Hc). rewrite Forall_forall in Hf. specialize (Hf _ Hin).
    apply covers_rk in Hc. unfold right_of, elo in Hf. cbn in Hf. lia.
  Qed.

  (** ** Point lookups *)
  Lemma covers_unique m p k v k' v' : WF m -> In (k, v) m -> In (k', v') m ->
    covers k p -> covers k' p -> (k, v) = (k', v').
  Proof.
    intros W H1 H2 C1 C2.
    destruct (in_split _ _ H1) as (L & R & ->).
    apply WF_app in W. destruct W as (_ & W & WL). apply WF_cons in W. destruct W as (_ & _ & WR).
    apply covers_rk in C1, C2.
    apply in_app_iff in H2. destruct H2 as [H2|[H2|H2]]; [|exact H2|].
    - specialize (WL _ (k, v) H2 (or_introl eq_refl)). unfold ehi, elo in WL. cbn in WL. lia.
    - rewrite Forall_forall in WR. specialize (WR _ H2). unfold ehi, elo in WR. cbn in WR. lia.
  Qed.

  Lemma get_key_value_at_point_Ok m p : WF m -> forall k v,
    get_key_value_at_point m p = Val (Ok (k, v)) <-> In (k, v) m /\ covers k p.
  Proof.
    intros W k v. destruct (split_point m p W) as (A & o & B & -> & HA & Ho & HB).
    unfold get_key_value_at_point. rewrite get_key_value_split; try assumption.
    destruct o as [[k' v']|]; cbn [opt_list app] in *.
    - inversion Ho as [|? ? Hk _]; subst. unfold meets, elo, ehi in Hk. cbn in Hk.
      assert (Hin : In (k', v') (A ++ (k', v') :: B)) by (apply in_app_iff; right; left; reflexivity).
      assert (Hc : covers k' p) by (apply covers_rk; lia).
      split.
      + intros E. injection E as <- <-. auto.
      + intros [Hin' Hc']. do 2 f_equal. apply (covers_unique (A ++ (k', v') :: B) p); assumption.
    - destruct (get_gap_split p A B W HA HB) as (g & Eg & _). rewrite Eg. cbn [obind].
      split; [discriminate|]. intros [Hin Hc]. exfalso.
      assert (Hcov : covered (A ++ B) p) by (exists k, v; auto).
      apply covered_app in Hcov. destruct Hcov as [Hcov|Hcov]; revert Hcov.
      + apply (not_covered_left _ _ (rk p)); [lia|exact HA].
      + apply (not_covered_right _ _ (rk p)); [lia|exact HB].
  Qed.

  (** The gap around an uncovered point. *)
  Lemma gap_ok_max_run {K'} {IK' : InclusiveInterval I K'} A B (g : Interval I) (k : K') : WF (A ++ B) -> gap_ok A B g -> lo g <= hi g ->
    lo k = lo g -> hi k = hi g -> max_run (fun x => ~ covered (A ++ B) x) k.
  Proof.
    intros W [GL GR] Vg El Eh.
    assert (LA : Forall (left_of (lo g)) A).
    { destruct GL as [[-> _]|(A' & x & -> & E)]; [constructor|].
      apply WF_app in W. destruct W as (W & _ & _). apply WF_app in W. destruct W as (_ & Wx & W).
      apply WF_one in Wx. rewrite Forall_app. split.
      - rewrite Forall_forall. intros y Hy. specialize (W y x Hy (or_introl eq_refl)). unfold left_of. lia.
      - constructor; [|constructor]. unfold left_of. lia. }
    assert (RB : Forall (right_of (hi g)) B).
    { destruct GR as [[-> _]|(x & B' & -> & E)]; [constructor|].
      apply WF_app in W. destruct W as (_ & W & _). apply WF_cons in W. destruct W as (Vx & _ & W).
      constructor; [unfold right_of; lia|]. rewrite Forall_forall in *. intros y Hy. specialize (W y Hy).
      unfold right_of. lia. }
    apply max_run_intro; rewrite ?El, ?Eh; [exact Vg| | |].
    - intros p Hp Hc. apply covers_rk in Hp. apply covered_app in Hc.
      destruct Hc as [Hc|Hc]; revert Hc.
      + apply (not_covered_left _ _ (lo g)); [lia|exact LA].
      + apply (not_covered_right _ _ (hi g)); [lia|exact RB].
    - destruct GL as [[_ E]|(A' & x & -> & E)]; [left; exact E|right].
      exists (iend (fst x)). change (rk (iend (fst x))) with (ehi x). split; [lia|].
      intros Hn. apply Hn. exists (fst x), (snd x). split.
      + rewrite !in_app_iff. left. right. left. destruct x; reflexivity.
      + apply covers_rk. change (rk (iend (fst x))) with (ehi x). change (lo (fst x)) with (elo x).
        apply WF_app in W. destruct W as (W & _ & _). apply WF_app in W. destruct W as (_ & Wx & _).
        apply WF_one in Wx. unfold ehi in *. lia.
    - destruct GR as [[_ E]|(x & B' & -> & E)]; [left; exact E|right].
      exists (istart (fst x)). change (rk (istart (fst x))) with (elo x). split; [lia|].
      intros Hn. apply Hn. exists (fst x), (snd x). split.
      + rewrite !in_app_iff. right. left. destruct x; reflexivity.
      + apply covers_rk. change (rk (istart (fst x))) with (elo x). change (hi (fst x)) with (ehi x).
        apply WF_app in W. destruct W as (_ & W & _). apply WF_cons in W. destruct W as (Vx & _ & _).
        unfold elo in *. lia.
  Qed.

  Lemma get_key_value_at_point_gap m p : WF m -> ~ covered m p ->
    exists g : Interval I, get_key_value_at_point m p = Val (Err (ifrom g)) /\ covers g p /\
              max_run (fun x => ~ covered m x) g.
  Proof.
    intros W Hn. destruct (split_point m p W) as (A & o & B & -> & HA & Ho & HB).
    unfold get_key_value_at_point. rewrite get_key_value_split; try assumption.
    destruct o as [[k' v']|]; cbn [opt_list app] in *.
    - exfalso. apply Hn. exists k', v'. split; [apply in_app_iff; right; left; reflexivity|].
      inversion Ho as [|? ? Hk _]; subst. unfold meets, elo, ehi in Hk. cbn in Hk. apply covers_rk. lia.
    - destruct (get_gap_split p A B W HA HB) as (g & Eg & Hg & Hp). rewrite Eg. cbn [obind].
      exists g. split; [reflexivity|].
      split; [apply covers_rk; lia|]. apply (gap_ok_max_run A B g); try assumption; (reflexivity || lia).
  Qed.
  Lemma get_key_value_at_point_Err m p : WF m -> ~ covered m p ->
    exists g, get_key_value_at_point m p = Val (Err g) /\ covers g p /\
              max_run (fun x => ~ covered m x) g.
  Proof.
    intros W Hn. destruct (get_key_value_at_point_gap m p W Hn) as (g & E & C & M).
    exists (ifrom g). split; [exact E|]. apply covers_rk in C.
    assert (E1 : lo (ifrom g : K) = lo g) by (apply from_lo; lia).
    assert (E2 : hi (ifrom g : K) = hi g) by (apply from_hi; lia).
    split; [apply covers_rk; lia|].
    assert (X : forall x, covers (ifrom g : K) x <-> covers g x) by (intros x; rewrite !covers_rk, E1, E2; reflexivity).
    destruct M as (_ & M1 & M2). split; [apply valid_rk; lia|]. split; [intros x Hx; apply M1, X, Hx|].
    intros j Hj Ho x Hx. apply X, (M2 j Hj); [|exact Hx].
    destruct Ho as (y & Y1 & Y2). exists y. split; [apply X, Y1|exact Y2].
  Qed.

  Lemma covered_dec m p : WF m -> (exists k v, In (k, v) m /\ covers k p) \/ ~ covered m p.
  Proof.
    intros _. induction m as [|[k v] m IH].
    - right. intros (k & v & [] & _).
    - destruct (Z_le_gt_dec (lo k) (rk p)) as [L1|L1]; [destruct (Z_le_gt_dec (rk p) (hi k)) as [L2|L2]|].
      1: { left. exists k, v. split; [left; reflexivity|apply covers_rk; lia]. }
      all: destruct IH as [(k' & v' & Hin & Hc)|Hn];
        [left; exists k', v'; split; [right; exact Hin|exact Hc]|right].
      all: intros (k' & v' & [E|Hin] & Hc); [injection E as -> ->; apply covers_rk in Hc; lia|].
      all: apply Hn; exists k', v'; auto.
  Qed.

  Lemma maps_to_covered m p v : maps_to m p v -> covered m p.
  Proof. intros (k & Hin & Hc). exists k, v. auto. Qed.
  Lemma covered_maps_to m p : covered m p <-> exists v, maps_to m p v.
  Proof. split; [intros (k & v & H1 & H2); exists v, k; auto|intros (v & Hv); eapply maps_to_covered, Hv]. Qed.

  Lemma maps_to_fun m p v v' : WF m -> maps_to m p v -> maps_to m p v' -> v = v'.
  Proof.
    intros W (k & H1 & C1) (k' & H2 & C2).
    pose proof (covers_unique m p k v k' v' W H1 H2 C1 C2). congruence.
  Qed.

  Lemma get_at_point_cases m p : WF m ->
    (exists v, maps_to m p v /\ get_at_point m p = Val (Some v) /\ map_contains_point m p = Val true) \/
    (~ covered m p /\ get_at_point m p = Val None /\ map_contains_point m p = Val false).
  Proof.
    intros W. unfold get_at_point, map_contains_point.
    destruct (covered_dec m p W) as [(k & v & Hin & Hc)|Hn].
    - left. exists v. rewrite (proj2 (get_key_value_at_point_Ok m p W k v)) by auto.
      split; [exists k; auto|]. split; reflexivity.
    - right. destruct (get_key_value_at_point_gap m p W Hn) as (g & Eg & _). rewrite Eg.
      split; [exact Hn|]. split; reflexivity.
  Qed.

  Lemma get_at_point_Some m p v : WF m -> (get_at_point m p = Val (Some v) <-> maps_to m p v).
  Proof.
    intros W. destruct (get_at_point_cases m p W) as [(v' & Hv & -> & _)|(Hn & -> & _)].
    - split; [intros E; injection E as <-; exact Hv|]. intros Hv'.
      rewrite (maps_to_fun m p v v' W Hv' Hv). reflexivity.
    - split; [discriminate|]. intros Hv. exfalso. eapply Hn, maps_to_covered, Hv.
  Qed.
  Lemma get_at_point_None m p : WF m -> (get_at_point m p = Val None <-> ~ covered m p).
  Proof.
    intros W. destruct (get_at_point_cases m p W) as [(v' & Hv & -> & _)|(Hn & -> & _)].
    - split; [discriminate|]. intros Hn. exfalso. eapply Hn, maps_to_covered, Hv.
    - tauto.
  Qed.
  Lemma map_contains_point_spec m p : WF m ->
    exists b, map_contains_point m p = Val b /\ (b = true <-> covered m p).
  Proof.
    intros W. destruct (get_at_point_cases m p W) as [(v' & Hv & _ & ->)|(Hn & _ & ->)].
    - exists true. split; [reflexivity|]. split; [intros _; eapply maps_to_covered, Hv|reflexivity].
    - exists false. split; [reflexivity|]. split; [discriminate|tauto].
  Qed.

  (** ** Overlap queries *)
  Section Q.
    Context {Q : Type} {IQ : InclusiveInterval I Q}.
    Implicit Type q : Q.

    Lemma overlapping_spec m q : WF m -> valid q ->
      exists l, overlapping m q = Val l /\ sub (fun e => overlap (fst e) q) m l.
    Proof.
      intros W Vq. destruct (split_overlap m q W Vq) as (A & M & B & -> & HA & HM & HB & HS & _).
      exists M. split; [apply overlapping_split; assumption|exact HS].
    Qed.

    Lemma map_overlaps_spec m q : WF m -> valid q ->
      exists b, map_overlaps m q = Val b /\ (b = true <-> exists k v, In (k, v) m /\ overlap k q).
    Proof.
      intros W Vq. destruct (split_overlap m q W Vq) as (A & M & B & -> & HA & HM & HB & HS & _).
      rewrite map_overlaps_split; try assumption. eexists. split; [reflexivity|].
      pose proof (sub_in _ _ _ HS) as Hin. destruct M as [|[k v] M].
      - split; [discriminate|]. intros (k & v & H1 & H2). destruct (proj2 (Hin (k, v))); auto.
      - split; [|reflexivity]. intros _. destruct (proj1 (Hin (k, v)) (or_introl eq_refl)) as [H1 H2].
        exists k, v. auto.
    Qed.

    (** ** Gaps *)
    Lemma end_gap_split p A o B :
      WF (A ++ opt_list o ++ B) -> Forall (left_of (rk p)) A ->
      Forall (meets (rk p) (rk p)) (opt_list o) -> Forall (right_of (rk p)) B ->
      match o with
      | Some _ => end_gap (A ++ opt_list o ++ B) p = Val None
      | None => exists g, end_gap (A ++ opt_list o ++ B) p = Val (Some g) /\ gap_ok A B g /\ lo g <= rk p <= hi g
      end.
    Proof.
      intros W HA Ho HB. unfold end_gap, contains_key. rewrite get_key_value_split; try assumption.
      destruct o as [x|]; cbn [is_some negb]; [reflexivity|]. cbn [opt_list app] in *.
      destruct (get_gap_split p A B W HA HB) as (g & -> & Hg & Hp). exists g. auto.
    Qed.

    (** Gaps between consecutive entries. *)
    Inductive inner_ok : list entry -> list K -> Prop :=
    | io_nil : inner_ok [] []
    | io_one x : inner_ok [x] []
    | io_skip x y r gs : elo y = ehi x + 1 -> inner_ok (y :: r) gs -> inner_ok (x :: y :: r) gs
    | io_gap x y r g gs : lo g = ehi x + 1 -> hi g = elo y - 1 -> lo g <= hi g ->
        inner_ok (y :: r) gs -> inner_ok (x :: y :: r) (g :: gs).

    (** Converting the empty space between two touching entries of [M] does not
        make a valid interval of it. *)
    Definition quiet M : Prop := forall x y (i : Interval I), In x M -> In y M ->
      elo y = ehi x + 1 -> lo i = elo y -> hi i = ehi x -> is_valid (ifrom i : K) = false.

    Lemma quiet_FI {FI : FromInvalid I K} M : quiet M.
    Proof.
      intros x y i Hx Hy E E1 E2. rewrite from_is_valid. lia.
    Qed.

    Lemma inner_gaps_ok M : WF M -> quiet M -> exists gs, inner_gaps M = Val gs /\ inner_ok M gs.
    Proof.
      induction M as [|x [|y r] IH]; intros W Qt.
      - exists []. split; [reflexivity|constructor].
      - exists []. split; [reflexivity|constructor].
      - apply WF_cons in W. destruct W as (Vx & W & Hx).
        inversion Hx as [|? ? Hxy _]; subst.
        destruct (IH W) as (gs & Egs & Hgs).
        { intros a b i Ha Hb. apply Qt; right; assumption. }
        cbn [inner_gaps] in *. unfold ehi, elo, lo, hi in Hxy.
        destruct (up_exists _ _ Hxy) as (u & Eu & Hu). destruct (down_exists _ _ Hxy) as (d & Ed & Hd).
        rewrite Eu, Ed. cbn [unwrap obind]. rewrite Egs. cbn [obind].
        destruct (Z.leb_spec (rk u) (rk d)) as [L|L].
        + replace (is_valid (ifrom (mkInterval u d) : K)) with true.
          2:{ symmetry. rewrite is_valid_rk, from_lo, from_hi; unfold lo, hi; cbn; lia. }
          eexists. split; [reflexivity|]. apply io_gap; [| | |exact Hgs].
          * rewrite from_lo; unfold ehi, lo, hi; cbn; lia.
          * rewrite from_hi; unfold elo, lo, hi; cbn; lia.
          * rewrite from_lo, from_hi; unfold lo, hi; cbn; lia.
        + rewrite (Qt x y (mkInterval u d)); [|left; reflexivity|right; left; reflexivity|..];
            try (unfold elo, ehi, lo, hi; cbn; lia).
          eexists. split; [reflexivity|]. apply io_skip; [|exact Hgs]. unfold elo, ehi, lo, hi. lia.
    Qed.

    Lemma inner_ok_in M gs : inner_ok M gs -> forall g, In g gs ->
      exists L x y R, M = L ++ x :: y :: R /\ lo g = ehi x + 1 /\ hi g = elo y - 1 /\ lo g <= hi g.
    Proof.
      induction 1 as [|x|x y r gs E Hi IH|x y r g' gs E1 E2 E3 Hi IH]; intros g Hg.
      - destruct Hg.
      - destruct Hg.
      - destruct (IH g Hg) as (L & x' & y' & R & E' & H'). exists (x :: L), x', y', R.
        rewrite E'. split; [reflexivity|exact H'].
      - destruct Hg as [<-|Hg].
        + exists [], x, y, r. auto.
        + destruct (IH g Hg) as (L & x' & y' & R & E' & H'). exists (x :: L), x', y', R.
          rewrite E'. split; [reflexivity|exact H'].
    Qed.

    (** Every uncovered point between the first and the last entry is in an inner gap. *)
    Lemma inner_ok_complete M gs : inner_ok M gs -> forall x r p, M = x :: r ->
      ehi x < rk p -> Exists (fun e => rk p < elo e) M -> Forall okv M -> ~ covered M p ->
      exists g, In g gs /\ covers g p.
    Proof.
      induction 1 as [|x|x y r gs E Hi IH|x y r g' gs E1 E2 E3 Hi IH]; intros x0 r0 p E0 Hp Hex Hok Hn.
      - discriminate.
      - injection E0 as <- <-. exfalso. inversion Hok; subst. unfold okv in *.
        inversion Hex as [? ? He|? ? He]; subst; [lia|inversion He].
      - injection E0 as <- <-. inversion Hok as [|? ? Vx Hok']; subst. unfold okv in Vx.
        inversion Hok' as [|? ? Vy _]; subst. unfold okv in Vy.
        assert (Hy : ehi y < rk p).
        { destruct (Z_lt_le_dec (ehi y) (rk p)) as [L|L]; [exact L|exfalso].
          apply Hn. exists (fst y), (snd y). split; [right; left; destruct y; reflexivity|].
          apply covers_rk. unfold elo, ehi in *. lia. }
        apply (IH y r p eq_refl Hy); [|exact Hok'|].
        + inversion Hex; subst; [lia|assumption].
        + intros (k & v & Hin & Hc). apply Hn. exists k, v. split; [right; exact Hin|exact Hc].
      - injection E0 as <- <-. inversion Hok as [|? ? Vx Hok']; subst. unfold okv in Vx.
        inversion Hok' as [|? ? Vy _]; subst. unfold okv in Vy.
        destruct (Z_lt_le_dec (rk p) (elo y)) as [L|L].
        + exists g'. split; [left; reflexivity|]. apply covers_rk. lia.
        + assert (Hy : ehi y < rk p).
          { destruct (Z_lt_le_dec (ehi y) (rk p)) as [L'|L']; [exact L'|exfalso].
            apply Hn. exists (fst y), (snd y). split; [right; left; destruct y; reflexivity|].
            apply covers_rk. unfold elo, ehi in *. lia. }
          destruct (IH y r p eq_refl Hy) as (g & Hg & Hc); [|exact Hok'| |].
          * inversion Hex; subst; [lia|assumption].
          * intros (k & v & Hin & Hc). apply Hn. exists k, v. split; [right; exact Hin|exact Hc].
          * exists g. split; [right; exact Hg|exact Hc].
    Qed.

    Lemma inner_ok_sorted M gs : inner_ok M gs -> WF M ->
      StronglySorted (fun a b => hi a < lo b) gs /\
      Forall (fun g => lo g <= hi g /\ exists x r, M = x :: r /\ ehi x < lo g) gs.
    Proof.
      induction 1 as [|x|x y r gs E Hi IH|x y r g' gs E1 E2 E3 Hi IH]; intros W.
      - split; constructor.
      - split; constructor.
      - apply WF_cons in W. destruct W as (Vx & W & _). pose proof W as W'.
        apply WF_cons in W'. destruct W' as (Vy & _ & _).
        destruct (IH W) as [H1 H2]. split; [exact H1|].
        eapply Forall_impl; [|exact H2]. intros g (Vg & x' & r' & E' & Hx'). injection E' as <- <-.
        split; [exact Vg|]. exists x, (y :: r). split; [reflexivity|lia].
      - apply WF_cons in W. destruct W as (Vx & W & _). pose proof W as W'.
        apply WF_cons in W'. destruct W' as (Vy & _ & _).
        destruct (IH W) as [H1 H2]. split.
        + constructor; [exact H1|]. eapply Forall_impl; [|exact H2].
          intros g (Vg & x' & r' & E' & Hx'). injection E' as <- <-. lia.
        + constructor.
          * split; [exact E3|]. exists x, (y :: r). split; [reflexivity|lia].
          * eapply Forall_impl; [|exact H2]. intros g (Vg & x' & r' & E' & Hx'). injection E' as <- <-.
            split; [exact Vg|]. exists x, (y :: r). split; [reflexivity|lia].
    Qed.
  End Q.
End Queries.
