(** * NoditGaps: the two gap iterators against the specification. *)
From Coq Require Import List ZArith Bool Lia ZifyBool Sorting.Sorted.
From Verif Require Import Base BTree UtilsModel IntervalModel NoditModel Spec PointFacts IntervalFacts ListFacts NoditFacts NoditQueries.
Import ListNotations.
Open Scope Z_scope.

Section Gaps.
  Context {I : Type} `{PL : PointLaws I}.
  Context {K : Type} {IK : InclusiveInterval I K} {IL : IntervalLaws I K}.
  Context {V : Type}.
  Notation entry := (K * V)%type.
  Implicit Types (m A B M : NoditMap K V).
  Context {Q : Type} {IQ : InclusiveInterval I Q}.
  Implicit Type q : Q.

  Lemma end_gap_start q A M B : lo q <= hi q -> WF (A ++ M ++ B) -> Forall (left_of (lo q)) A ->
    Forall (meets (lo q) (hi q)) M -> Forall (right_of (hi q)) B ->
    match M with
    | x :: _ => if elo x <=? lo q then end_gap (A ++ M ++ B) (istart q) = Val None
                else exists g, end_gap (A ++ M ++ B) (istart q) = Val (Some g) /\
                       gap_ok A (M ++ B) g /\ lo g <= lo q <= hi g
    | [] => exists g, end_gap (A ++ M ++ B) (istart q) = Val (Some g) /\
                       gap_ok A B g /\ lo g <= lo q <= hi g
    end.
  Proof.
    intros Vq W HA HM HB.
    assert (HB' : Forall (right_of (rk (istart q))) B).
    { eapply Forall_impl; [|exact HB]. intros e. unfold right_of, lo, hi in *. lia. }
    destruct M as [|x M].
    - exact (end_gap_split (istart q) A None B W HA (Forall_nil _) HB').
    - inversion HM as [|? ? Hx HM']; subst. pose proof W as W'.
      apply WF_app in W'. destruct W' as (_ & W' & _). cbn [app] in W'. apply WF_cons in W'.
      destruct W' as (_ & _ & W'). unfold meets in Hx.
      assert (HMB : lo q < elo x -> Forall (right_of (lo q)) (x :: M ++ B)).
      { intros L. constructor; [exact L|]. eapply Forall_impl; [|exact W']. intros e. unfold right_of. lia. }
      destruct (Z.leb_spec (elo x) (lo q)) as [L|L].
      + apply (end_gap_split (istart q) A (Some x) (M ++ B)); try assumption.
        * constructor; [|constructor]. unfold meets, lo in *. lia.
        * eapply Forall_impl; [|exact W']. intros e. unfold right_of, lo in *. lia.
      + apply (end_gap_split (istart q) A None ((x :: M) ++ B)); try assumption; [constructor|]. apply HMB, L.
  Qed.

  Lemma end_gap_end q A M B : lo q <= hi q -> WF (A ++ M ++ B) -> Forall (left_of (lo q)) A ->
    Forall (meets (lo q) (hi q)) M -> Forall (right_of (hi q)) B ->
    (M = [] /\ exists g, end_gap (A ++ M ++ B) (iend q) = Val (Some g) /\
                       gap_ok A B g /\ lo g <= hi q <= hi g) \/
    (exists M' y, M = M' ++ [y] /\
       if hi q <=? ehi y then end_gap (A ++ M ++ B) (iend q) = Val None
       else exists g, end_gap (A ++ M ++ B) (iend q) = Val (Some g) /\
                       gap_ok (A ++ M) B g /\ lo g <= hi q <= hi g).
  Proof.
    intros Vq W HA HM HB.
    assert (HA' : Forall (left_of (rk (iend q))) A).
    { eapply Forall_impl; [|exact HA]. intros e. unfold left_of, lo, hi in *. lia. }
    pose proof W as W'. apply WF_app in W'. destruct W' as (_ & W' & _). apply WF_app in W'. destruct W' as (WM & _ & _).
    destruct (last_meets M _ _ WM HM Vq) as [->|(M' & y & -> & HM' & Hy)]; [left|right].
    - split; [reflexivity|].
      exact (end_gap_split (iend q) A None B W HA' (Forall_nil _) HB).
    - exists M', y. split; [reflexivity|]. unfold meets in Hy.
      destruct (Z.leb_spec (hi q) (ehi y)) as [L|L].
      + replace (A ++ (M' ++ [y]) ++ B) with ((A ++ M') ++ opt_list (Some y) ++ B) in *
          by (rewrite <- !app_assoc; reflexivity).
        apply (end_gap_split (iend q) (A ++ M') (Some y) B); try assumption.
        * rewrite Forall_app. split; [exact HA'|]. eapply Forall_impl; [|exact HM']. cbn.
          intros e. unfold left_of, hi. lia.
        * constructor; [|constructor]. unfold meets, hi in *. lia.
      + rewrite app_assoc in *.
        apply (end_gap_split (iend q) (A ++ M' ++ [y]) None B); try assumption; [|constructor].
        rewrite !Forall_app. split; [exact HA'|]. split.
        * eapply Forall_impl; [|exact HM']. cbn. intros e. unfold left_of, hi. lia.
        * constructor; [|constructor]. exact L.
  Qed.

  (** An inner gap is a maximal run of uncovered points. *)
  Lemma inner_max_run A M B gs g : WF (A ++ M ++ B) -> inner_ok M gs -> In g gs ->
    max_run (fun p => ~ covered (A ++ M ++ B) p) g.
  Proof.
    intros W HI Hg. destruct (inner_ok_in _ _ HI g Hg) as (L & x & y & R & -> & E1 & E2 & Vg).
    replace (A ++ (L ++ x :: y :: R) ++ B) with ((A ++ L ++ [x]) ++ (y :: R) ++ B) in *
      by (rewrite <- !app_assoc; reflexivity).
    apply (gap_ok_max_run _ _ (mkInterval (istart g) (iend g))); try assumption; try reflexivity.
    constructor; right.
    - exists (A ++ L), x. split; [rewrite <- app_assoc; reflexivity|exact E1].
    - exists y, (R ++ B). split; [reflexivity|exact E2].
  Qed.

  (** [t] is the intersection of [g] and [q]. *)
  Definition trimmed_to q (g t : K) : Prop := lo t = Z.max (lo g) (lo q) /\ hi t = Z.min (hi g) (hi q).

  (** [quiet], for the entries that overlap [q] only. *)
  Definition quiet_at m q : Prop := forall x y (i : Interval I), In x m -> In y m ->
    meets (lo q) (hi q) x -> meets (lo q) (hi q) y ->
    elo y = ehi x + 1 -> lo i = elo y -> hi i = ehi x -> is_valid (ifrom i : K) = false.

  Lemma quiet_at_mid A M B q : Forall (meets (lo q) (hi q)) M -> quiet_at (A ++ M ++ B) q -> quiet M.
  Proof.
    intros HM Qt x y i Hx Hy. rewrite Forall_forall in HM.
    apply Qt; [rewrite !in_app_iff; auto|rewrite !in_app_iff; auto|apply HM, Hx|apply HM, Hy].
  Qed.

  Lemma quiet_at_FI {FI : FromInvalid I K} m q : quiet_at m q.
  Proof. intros x y i Hx Hy _ _. apply (quiet_FI m); assumption. Qed.

  (** No two of the entries that overlap [q] touch. *)
  Lemma quiet_at_apart m q : WF m -> valid q ->
    (forall k v k' v', In (k, v) m -> In (k', v') m -> overlap k q -> overlap k' q -> ~ touch k k') ->
    quiet_at m q.
  Proof.
    intros W Vq%valid_rk Ha [k v] [k' v'] i Hx Hy Mx My E E1 E2. exfalso.
    pose proof (WF_okv _ _ W Hx) as Vx. pose proof (WF_okv _ _ W Hy) as Vy.
    unfold meets, elo, ehi in *. cbn [fst snd] in *. 
    apply (Ha k v k' v' Hx Hy).
    - apply overlap_rk. lia.
    - apply overlap_rk. lia.
    - apply touch_rk; try lia.
  Qed.

  Lemma gap_lists m q : WF m -> valid q -> quiet_at m q ->
    exists gl tl, gaps_untrimmed m q = Val gl /\ gaps_trimmed m q = Val tl /\
      Forall2 (trimmed_to q) gl tl /\
      StronglySorted (fun a b => hi a < lo b) gl /\
      (forall g, In g gl -> max_run (fun p => ~ covered m p) g /\ lo g <= hi q /\ lo q <= hi g) /\
      (forall p, covers q p -> ~ covered m p -> exists g, In g gl /\ covers g p).
  Proof.
    intros W Vq Qt. unfold gaps_untrimmed, gaps_trimmed. rewrite (iip_valid _ Vq). cbn [obind].
    apply valid_rk in Vq as Vq'.
    destruct (split3 m (lo q) (hi q) W Vq') as (A & M & B & -> & HA & HM & HB).
    rewrite (overlapping_split q A M B Vq W HA HM HB). cbn [obind].
    pose proof (end_gap_start q A M B Vq' W HA HM HB) as HS.
    pose proof (end_gap_end q A M B Vq' W HA HM HB) as HE.
    pose proof W as W'. apply WF_app in W'. destruct W' as (WA & W' & _). apply WF_app in W'. destruct W' as (WM & WB & _).
    destruct (inner_gaps_ok M WM (quiet_at_mid A M B q HM Qt)) as (gs & Egs & Hgs). rewrite Egs.
    destruct M as [|x M].
    { (* no entry meets q: one gap *)
      destruct HS as (g & Eg & Og & Bg).
      destruct HE as [(_ & g' & Eg' & Og' & Bg')|(M' & y & E & _)];
        [|destruct M'; discriminate].
      rewrite Eg, Eg'. cbn [obind].
      assert (El : lo g = lo g').
      { destruct Og as [[[-> E]|(A1 & x1 & -> & E)] _]; destruct Og' as [[[E' E'']|(A2 & x2 & E' & E'')] _].
        - congruence.
        - destruct A2; discriminate.
        - destruct A1; discriminate.
        - apply app_inj_tail in E'. destruct E' as [_ <-]. lia. }
      assert (Eh : hi g = hi g').
      { destruct Og as [_ [[-> E]|(x1 & B1 & -> & E)]]; destruct Og' as [_ [[E' E'']|(x2 & B2 & E' & E'')]];
          try congruence. }
      change (rk (ivl_start g) = rk (ivl_start g')) in El.
      replace (eqb (ivl_start g) (ivl_start g')) with true by (rewrite eqb_rk, El; symmetry; apply Z.eqb_refl).
      inversion Hgs; subst. cbn [option_map opt_list app obind].
      do 2 eexists. split; [reflexivity|]. split; [reflexivity|].
      change (lo g = lo g') in El.
      assert (G1 : lo (ifrom g : K) = lo g) by (apply from_lo; lia).
      assert (G2 : hi (ifrom g : K) = hi g) by (apply from_hi; lia).
      assert (Q1 : lo (ifrom (mkInterval (istart q) (iend q)) : K) = lo q).
      { rewrite from_lo; [reflexivity|exact Vq']. }
      assert (Q2 : hi (ifrom (mkInterval (istart q) (iend q)) : K) = hi q).
      { rewrite from_hi; [reflexivity|exact Vq']. }
      split; [|split; [|split]].
      - constructor; [|constructor]. split; lia.
      - constructor; constructor.
      - intros g0 [<-|[]]. split; [|lia]. cbn [app] in *.
        apply (gap_ok_max_run A B g); try assumption. lia.
      - intros p Hp _. exists (ifrom g). split; [left; reflexivity|]. apply covers_rk in Hp. apply covers_rk. lia. }
    set (M0 := x :: M) in *.
    destruct HE as [(E & _)|(M' & y & EM & HE)]; [discriminate|].
    assert (Hx : meets (lo q) (hi q) x) by (inversion HM; assumption). unfold meets in Hx.
    assert (Iny : In y M0) by (rewrite EM; apply in_app_iff; right; left; reflexivity).
    assert (Hy : meets (lo q) (hi q) y) by (rewrite Forall_forall in HM; apply HM; exact Iny). unfold meets in Hy.
    assert (Vx : elo x <= ehi x) by (apply (WF_okv M0); [exact WM|left; reflexivity]).
    assert (Vy : elo y <= ehi y) by (apply (WF_okv M0); [exact WM|exact Iny]).
    assert (Hxy : ehi x <= ehi y).
    { unfold M0 in EM. destruct M' as [|x' M']; [injection EM as -> _; lia|].
      injection EM as <- EM. unfold M0 in WM. apply WF_cons in WM. destruct WM as (_ & _ & WM).
      rewrite Forall_forall in WM. specialize (WM y). rewrite EM in WM.
      assert (Hin : In y (M' ++ [y])) by (apply in_app_iff; right; left; reflexivity). specialize (WM Hin). lia. }
    (* the start and the end gap, possibly absent, and their trimmed forms *)
    assert (HS' : exists sg, end_gap (A ++ M0 ++ B) (istart q) = Val sg /\
       match sg with
       | None => elo x <= lo q
       | Some g => gap_ok A (M0 ++ B) g /\ lo g <= lo q <= hi g /\ hi g = elo x - 1
       end).
    { destruct (Z.leb_spec (elo x) (lo q)) as [L|L]; [exists None; auto|].
      destruct HS as (g & Eg & Og & Bg). exists (Some g). split; [exact Eg|].
      split; [exact Og|]. split; [exact Bg|]. destruct Og as [_ [[E _]|(x' & B' & E & E')]]; [discriminate|].
      unfold M0 in E. injection E as <- <-. exact E'. }
    assert (HE' : exists eg, end_gap (A ++ M0 ++ B) (iend q) = Val eg /\
       match eg with
       | None => hi q <= ehi y
       | Some g => gap_ok (A ++ M0) B g /\ lo g <= hi q <= hi g /\ lo g = ehi y + 1
       end).
    { destruct (Z.leb_spec (hi q) (ehi y)) as [L|L]; [exists None; auto|].
      destruct HE as (g & Eg & Og & Bg). exists (Some g). split; [exact Eg|].
      split; [exact Og|]. split; [exact Bg|]. destruct Og as [[[E _]|(A' & y' & E & E')] _].
      - destruct A; discriminate.
      - rewrite EM, app_assoc in E. apply app_inj_tail in E. destruct E as [_ <-]. exact E'. }
    clear HS HE. destruct HS' as (sg & Esg & Hsg). destruct HE' as (eg & Eeg & Heg).
    rewrite Esg, Eeg. cbn [obind].
    set (tsg := option_map (fun g => mkInterval (istart q) (ivl_end g)) sg).
    set (teg := option_map (fun g => mkInterval (ivl_start g) (iend q)) eg).
    assert (Hun : (match sg, eg with
        | Some start_gap, Some end_gap =>
            if eqb (ivl_start start_gap) (ivl_start end_gap)
            then (Some start_gap, None)
            else (Some start_gap, Some end_gap)
        | Some start_gap, None => (Some start_gap, None)
        | None, Some end_gap => (None, Some end_gap)
        | None, None => (None, None)
        end) = (sg, eg) /\
       (match sg, eg with
        | Some start_gap, Some end_gap =>
            if eqb (ivl_start start_gap) (ivl_start end_gap)
            then (Some (mkInterval (istart q) (iend q)), None)
            else (Some (mkInterval (istart q) (ivl_end start_gap)),
                  Some (mkInterval (ivl_start end_gap) (iend q)))
        | Some start_gap, None => (Some (mkInterval (istart q) (ivl_end start_gap)), None)
        | None, Some end_gap => (None, Some (mkInterval (ivl_start end_gap) (iend q)))
        | None, None => (None, None)
        end) = (tsg, teg)).
    { unfold tsg, teg. destruct sg as [g1|], eg as [g2|]; cbn [option_map]; try (split; reflexivity).
      destruct Hsg as (_ & B1 & E1). destruct Heg as (_ & B2 & E2).
      replace (eqb (ivl_start g1) (ivl_start g2)) with false; [split; reflexivity|].
      symmetry. apply Bool.not_true_iff_false. intros E. rewrite eqb_rk in E. apply Z.eqb_eq in E.
      assert (lo g1 = lo g2) by exact E. lia. }
    destruct Hun as [-> ->].
    do 2 eexists. split; [reflexivity|]. split; [reflexivity|].
    destruct (inner_ok_sorted M0 gs Hgs WM) as [Sgs Bgs].
    assert (Igs : forall g, In g gs -> lo q < lo g <= hi g /\ hi g < hi q /\ ehi x < lo g /\ hi g < elo y).
    { intros g Hg. rewrite Forall_forall in Bgs. destruct (Bgs g Hg) as (Vg & x' & r' & Ex' & Lx').
      unfold M0 in Ex'. injection Ex' as <- <-.
      destruct (inner_ok_in _ _ Hgs g Hg) as (L & x1 & y1 & R & E & E1 & E2 & _).
      assert (H1 : meets (lo q) (hi q) x1).
      { rewrite Forall_forall in HM. apply HM. rewrite E. apply in_app_iff. right. left. reflexivity. }
      assert (Iny1 : In y1 M0) by (rewrite E; apply in_app_iff; right; right; left; reflexivity).
      assert (H2 : meets (lo q) (hi q) y1) by (rewrite Forall_forall in HM; apply HM; exact Iny1).
      assert (H3 : elo y1 <= elo y).
      { rewrite EM in Iny1. apply in_app_iff in Iny1. destruct Iny1 as [Hi|[<-|[]]]; [|lia].
        rewrite EM in WM. apply WF_app in WM. destruct WM as (WM' & _ & WM).
        specialize (WM y1 y Hi (or_introl eq_refl)). pose proof (WF_okv _ _ WM' Hi). lia. }
      unfold meets in *. lia. }
    assert (Fs : forall g, sg = Some g -> lo (ifrom g : K) = lo g /\ hi (ifrom g : K) = hi g).
    { intros g ->. destruct Hsg as (_ & Bg & _). rewrite from_lo, from_hi by lia. auto. }
    assert (Fe : forall g, eg = Some g -> lo (ifrom g : K) = lo g /\ hi (ifrom g : K) = hi g).
    { intros g ->. destruct Heg as (_ & Bg & _). rewrite from_lo, from_hi by lia. auto. }
    split; [|split; [|split]].
    - apply Forall2_app; [|apply Forall2_app].
      + unfold tsg. destruct sg as [g|]; cbn; [|constructor]. constructor; [|constructor].
        destruct (Fs g eq_refl) as [E1 E2]. destruct Hsg as (_ & Bg & Eg).
        split; [rewrite from_lo, E1|rewrite from_hi, E2]; unfold lo, hi in *; cbn in *; lia.
      + clear - Igs. induction gs as [|g gs IH]; [constructor|]. constructor.
        * destruct (Igs g (or_introl eq_refl)). split; lia.
        * apply IH. intros g' Hg'. apply Igs. right. exact Hg'.
      + unfold teg. destruct eg as [g|]; cbn; [|constructor]. constructor; [|constructor].
        destruct (Fe g eq_refl) as [E1 E2]. destruct Heg as (_ & Bg & Eg).
        split; [rewrite from_lo, E1|rewrite from_hi, E2]; unfold lo, hi in *; cbn in *; lia.
    - rewrite !SS_app. split; [|split; [split; [exact Sgs|split]|]].
      + destruct sg; constructor; constructor.
      + destruct eg; constructor; constructor.
      + intros a b Ha Hb. destruct eg as [g|]; [|destruct Hb]. destruct Hb as [<-|[]].
        destruct (Fe g eq_refl) as [E1 _]. destruct (Igs a Ha). destruct Heg as (_ & _ & Eg). lia.
      + intros a b Ha Hb. destruct sg as [g|]; [|destruct Ha]. destruct Ha as [<-|[]].
        destruct (Fs g eq_refl) as [E1 E2]. destruct Hsg as (_ & _ & Eg).
        apply in_app_iff in Hb. destruct Hb as [Hb|Hb].
        * destruct (Igs b Hb). lia.
        * destruct eg as [g'|]; [|destruct Hb]. destruct Hb as [<-|[]].
          destruct (Fe g' eq_refl) as [E1' _]. destruct Heg as (_ & _ & Eg'). lia.
    - intros g Hg. rewrite !in_app_iff in Hg. destruct Hg as [Hg|[Hg|Hg]].
      + destruct sg as [g0|]; [|destruct Hg]. destruct Hg as [<-|[]].
        destruct (Fs g0 eq_refl) as [E1 E2]. destruct Hsg as (Og & Bg & Eg).
        split; [|lia]. apply (gap_ok_max_run A (M0 ++ B) g0); try assumption. lia.
      + split; [apply (inner_max_run A M0 B gs); assumption|]. destruct (Igs g Hg). lia.
      + destruct eg as [g0|]; [|destruct Hg]. destruct Hg as [<-|[]].
        destruct (Fe g0 eq_refl) as [E1 E2]. destruct Heg as (Og & Bg & Eg).
        split; [|lia]. rewrite app_assoc in W |- *. apply (gap_ok_max_run (A ++ M0) B g0); try assumption. lia.
    - intros p Hp Hn. apply covers_rk in Hp.
      destruct (Z_lt_le_dec (rk p) (elo x)) as [L|L].
      + destruct sg as [g|]; [|lia]. exists (ifrom g). split; [left; reflexivity|].
        destruct (Fs g eq_refl) as [E1 E2]. destruct Hsg as (_ & Bg & Eg). apply covers_rk. lia.
      + destruct (Z_lt_le_dec (ehi y) (rk p)) as [L'|L'].
        * destruct eg as [g|]; [|lia]. exists (ifrom g). rewrite !in_app_iff. split; [right; right; left; reflexivity|].
          destruct (Fe g eq_refl) as [E1 E2]. destruct Heg as (_ & Bg & Eg). apply covers_rk. lia.
        * assert (Hx' : ehi x < rk p).
          { destruct (Z_lt_le_dec (ehi x) (rk p)) as [L2|L2]; [exact L2|exfalso]. apply Hn.
            exists (fst x), (snd x). split; [|apply covers_rk; unfold elo, ehi in *; lia].
            rewrite !in_app_iff. right. left. left. destruct x; reflexivity. }
          assert (Hy' : rk p < elo y).
          { destruct (Z_lt_le_dec (rk p) (elo y)) as [L2|L2]; [exact L2|exfalso]. apply Hn.
            exists (fst y), (snd y). split; [|apply covers_rk; unfold elo, ehi in *; lia].
            rewrite !in_app_iff. right. left. destruct y; exact Iny. }
          destruct (inner_ok_complete M0 gs Hgs x M p eq_refl Hx') as (g & Hg & Hc).
          { apply Exists_exists. exists y. auto. }
          { apply WM. }
          { intros Hc. apply Hn. rewrite !covered_app. auto. }
          exists g. rewrite !in_app_iff. auto.
  Qed.

  Lemma max_run_trim (P : I -> Prop) q (g t : K) : max_run P g -> trimmed_to q g t -> lo t <= hi t ->
    max_run (fun p => P p /\ covers q p) t.
  Proof.
    intros (Vg & Pg & Mg) [E1 E2] Vt.
    assert (S : forall p, covers t p <-> covers g p /\ covers q p).
    { intros p. rewrite !covers_rk. lia. }
    split; [apply valid_rk, Vt|]. split.
    - intros p Hp. apply S in Hp. split; [apply Pg|]; tauto.
    - intros j Hj (x & Hx1 & Hx2) p Hp. apply S. split; [|apply Hj, Hp].
      apply (Mg j); [intros y Hy; apply Hj, Hy| |exact Hp]. exists x. apply S in Hx1. tauto.
  Qed.

  Lemma SS_ascending (l : list K) : StronglySorted (fun a b => hi a < lo b) l -> Forall valid l -> ascending l.
  Proof.
    intros HS HV. eapply SS_impl; [|exact HV|exact HS]. intros x y Vx Vy L.
    apply before_rk; [apply valid_rk|apply valid_rk|]; assumption.
  Qed.

  Lemma gaps_untrimmed_spec m q : WF m -> valid q -> quiet_at m q ->
    exists gl, gaps_untrimmed m q = Val gl /\
      lists_max_runs (fun p => ~ covered m p) (fun g => overlap g q) gl.
  Proof.
    intros W Vq Qt. destruct (gap_lists m q W Vq Qt) as (gl & tl & E & _ & _ & HS & HG & HC).
    exists gl. split; [exact E|]. split; [|split].
    - apply SS_ascending; [exact HS|]. apply Forall_forall. intros g Hg. apply HG, Hg.
    - intros g Hg. destruct (HG g Hg) as (Mg & B1 & B2). split; [exact Mg|].
      apply overlap_rk. destruct Mg as (Vg & _). apply valid_rk in Vg. apply valid_rk in Vq.
      unfold lo, hi in *. cbn. lia.
    - intros j Hj (p & Hp & Hq). destruct (HC p Hq) as (g & Hg & Hgp); [apply Hj, Hp|].
      exists g. split; [exact Hg|]. apply (max_run_same _ g j p (proj1 (HG g Hg)) Hj Hgp Hp).
  Qed.

  Lemma gaps_trimmed_spec m q : WF m -> valid q -> quiet_at m q ->
    exists tl, gaps_trimmed m q = Val tl /\
      lists_max_runs (fun p => ~ covered m p /\ covers q p) (fun _ => True) tl.
  Proof.
    intros W Vq Qt. destruct (gap_lists m q W Vq Qt) as (gl & tl & _ & E & HT & HS & HG & HC).
    exists tl. split; [exact E|]. apply valid_rk in Vq.
    assert (HM : forall t, In t tl -> max_run (fun p => ~ covered m p /\ covers q p) t).
    { intros t Ht. clear - HT HG Ht Vq PL. induction HT as [|g t' gl' tl' Hgt HT IH]; [destruct Ht|].
      destruct Ht as [<-|Ht].
      - destruct (HG g (or_introl eq_refl)) as (Mg & B1 & B2).
        apply (max_run_trim _ q g); [exact Mg|exact Hgt|]. destruct Hgt as [E1 E2].
        destruct Mg as (Vg & _). apply valid_rk in Vg. lia.
      - apply IH; [|exact Ht]. intros g' Hg'. apply HG. right. exact Hg'. }
    split; [|split].
    - apply SS_ascending.
      + clear - HT HS. induction HT as [|g t' gl' tl' Hgt HT IH]; [constructor|].
        inversion HS as [|? ? HS' Hg]; subst. constructor; [apply IH, HS'|]. clear - HT Hg Hgt.
        induction HT as [|g2 t2 gl' tl' Hgt2 HT IH]; [constructor|]. inversion Hg as [|? ? Hg2 Hg']; subst.
        constructor; [|apply IH, Hg']. unfold trimmed_to in *. lia.
      + apply Forall_forall. intros t Ht. apply HM, Ht.
    - intros t Ht. split; [apply HM, Ht|exact Logic.I].
    - intros j Hj _. destruct Hj as (Vj & Pj & Mj). pose proof Vj as (p & Hp).
      destruct (Pj p Hp) as [Hn Hq]. destruct (HC p Hq Hn) as (g & Hg & Hgp).
      assert (Ht : exists t, In t tl /\ trimmed_to q g t).
      { clear - HT Hg. induction HT as [|g' t' gl' tl' Hgt HT IH]; [destruct Hg|].
        destruct Hg as [<-|Hg]; [exists t'; split; [left; reflexivity|exact Hgt]|].
        destruct (IH Hg) as (t & Ht & Hgt'). exists t. split; [right; exact Ht|exact Hgt']. }
      destruct Ht as (t & Ht & Hgt). exists t. split; [exact Ht|].
      apply (max_run_same _ t j p (HM t Ht)); [exact (conj Vj (conj Pj Mj))| |exact Hp].
      apply covers_rk in Hgp. apply covers_rk in Hq. apply covers_rk. destruct Hgt. lia.
  Qed.

  (** Each trimmed gap is the part of the corresponding untrimmed gap inside [q]. *)
  Lemma gaps_trimmed_untrimmed m q : WF m -> valid q -> quiet_at m q ->
    exists gl tl, gaps_untrimmed m q = Val gl /\ gaps_trimmed m q = Val tl /\
      Forall2 (fun g t => forall p, covers t p <-> covers g p /\ covers q p) gl tl.
  Proof.
    intros W Vq Qt. destruct (gap_lists m q W Vq Qt) as (gl & tl & E1 & E2 & HT & _).
    exists gl, tl. split; [exact E1|]. split; [exact E2|].
    eapply Forall2_impl; [|exact HT]. intros g t [H1 H2] p. rewrite !covers_rk. lia.
  Qed.

  Lemma gaps_trimmed_points m q : WF m -> valid q -> quiet_at m q ->
    exists tl, gaps_trimmed m q = Val tl /\
      forall p, covers q p -> (~ covered m p <-> exists t, In t tl /\ covers t p).
  Proof.
    intros W Vq Qt. destruct (gap_lists m q W Vq Qt) as (gl & tl & E1 & E2 & HT & _ & HG & HC).
    exists tl. split; [exact E2|]. intros p Hp. split.
    - intros Hn. destruct (HC p Hp Hn) as (g & Hg & Hgp). clear - HT Hg Hgp Hp PL.
      induction HT as [|g' t' gl' tl' Hgt HT IH]; [destruct Hg|].
      destruct Hg as [<-|Hg].
      + exists t'. split; [left; reflexivity|]. apply covers_rk in Hgp. apply covers_rk in Hp.
        apply covers_rk. destruct Hgt. lia.
      + destruct (IH Hg) as (t & Ht & Hc). exists t. split; [right; exact Ht|exact Hc].
    - intros (t & Ht & Htp). clear - HT Ht Htp HG PL.
      induction HT as [|g' t' gl' tl' Hgt HT IH]; [destruct Ht|].
      destruct Ht as [<-|Ht].
      + destruct (HG g' (or_introl eq_refl)) as ((_ & Pg & _) & _). apply Pg.
        apply covers_rk in Htp. apply covers_rk. destruct Hgt. lia.
      + apply IH; [|exact Ht]. intros g Hg. apply HG. right. exact Hg.
  Qed.

  Lemma map_contains_interval_spec m q : WF m -> valid q -> quiet_at m q ->
    exists b, map_contains_interval m q = Val b /\
      (b = true <-> forall p, covers q p -> covered m p).
  Proof.
    intros W Vq Qt. unfold map_contains_interval. rewrite (iip_valid _ Vq). cbn [obind].
    destruct (gap_lists m q W Vq Qt) as (gl & tl & E1 & E2 & HT & _ & HG & HC).
    rewrite E1. cbn [obind]. eexists. split; [reflexivity|]. destruct gl as [|g gl].
    - split; [|reflexivity]. intros _ p Hp. destruct (covered_dec m p W) as [Hc|Hn]; [exact Hc|].
      destruct (HC p Hp Hn) as (g & [] & _).
    - split; [discriminate|]. intros Hall. exfalso.
      destruct (HG g (or_introl eq_refl)) as ((Vg & Pg & _) & B1 & B2).
      apply valid_rk in Vg. apply valid_rk in Vq.
      assert (Ho : overlap g q) by (apply overlap_rk; lia). destruct Ho as (p & Hp1 & Hp2).
      exact (Pg p Hp1 (Hall p Hp2)).
  Qed.

  (** Whatever [K::from] makes of empty spaces, the gap queries return. *)
  Lemma inner_gaps_total M : WF M -> exists gs, inner_gaps M = Val gs.
  Proof.
    induction M as [|x [|y r] IH]; intros W; [exists []; reflexivity..|].
    apply WF_cons in W. destruct W as (Vx & W & Hx). inversion Hx as [|? ? Hxy _]; subst.
    destruct (IH W) as (gs & Egs). cbn [inner_gaps] in *. unfold ehi, elo, lo, hi in Hxy.
    destruct (up_exists _ _ Hxy) as (u & Eu & Hu). destruct (down_exists _ _ Hxy) as (d & Ed & Hd).
    rewrite Eu, Ed. cbn [unwrap obind]. rewrite Egs. cbn [obind]. eexists. reflexivity.
  Qed.

  Lemma gaps_total m q : WF m -> valid q ->
    gaps_untrimmed m q <> Panic /\ gaps_trimmed m q <> Panic /\ map_contains_interval m q <> Panic.
  Proof.
    intros W Vq. unfold map_contains_interval, gaps_untrimmed, gaps_trimmed. rewrite (iip_valid _ Vq). cbn [obind].
    apply valid_rk in Vq as Vq'.
    destruct (split3 m (lo q) (hi q) W Vq') as (A & M & B & -> & HA & HM & HB).
    rewrite (overlapping_split q A M B Vq W HA HM HB). cbn [obind].
    pose proof (end_gap_start q A M B Vq' W HA HM HB) as HS.
    pose proof (end_gap_end q A M B Vq' W HA HM HB) as HE.
    assert (HS' : exists sg, end_gap (A ++ M ++ B) (istart q) = Val sg).
    { destruct M as [|x M]; [|destruct (elo x <=? lo q)]; [|eexists; exact HS|];
        destruct HS as (g & Eg & _); eexists; exact Eg. }
    assert (HE' : exists eg, end_gap (A ++ M ++ B) (iend q) = Val eg).
    { destruct HE as [(_ & g & Eg & _)|(M' & y & _ & HE)]; [eexists; exact Eg|].
      destruct (hi q <=? ehi y); [eexists; exact HE|]. destruct HE as (g & Eg & _). eexists. exact Eg. }
    destruct HS' as (sg & ->). destruct HE' as (eg & ->). cbn [obind].
    apply WF_app in W. destruct W as (_ & W & _). apply WF_app in W. destruct W as (WM & _ & _).
    destruct (inner_gaps_total M WM) as (gs & ->). cbn [obind].
    destruct sg, eg; try destruct (eqb _ _); cbn [obind]; repeat split; discriminate.
  Qed.
End Gaps.
