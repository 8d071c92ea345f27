(** * ZosditOnce: which cuts store an interval twice. *)
From Coq Require Import List ZArith Bool Lia ZifyBool Sorting.Sorted.
From Verif Require Import Base BTree UtilsModel IntervalModel NoditModel ZosditModel ZosditOps Spec
  PointFacts IntervalFacts ListFacts NoditFacts ZosditFacts ZosditMut ZosditProofs.
Import ListNotations.
Open Scope Z_scope.

(** Cutting [q] leaves of some entry just one point [p], before or after [q],
    and the one-point interval [p] is stored as well. *)
Definition leaves_twin {I : Type} {OI : Ord I} {K : Type} {IK : InclusiveInterval I K} {V Q : Type} {IQ : InclusiveInterval I Q}
  (q : Q) (l : list (K * V)) : Prop :=
  exists e e', In e l /\ In e' l /\ overlap (fst e) q /\ singular (fst e') /\
    ((forall x, covers (fst e') x <-> covers (fst e) x /\ forall y, covers q y -> plt x y) \/
     (forall x, covers (fst e') x <-> covers (fst e) x /\ forall y, covers q y -> plt y x)).

Section Once.
  Context {I : Type} {OI : Ord I} {DI : DiscreteFinite I} {PL : PointLaws I}.
  Context {K : Type} {IK : InclusiveInterval I K} {IL : IntervalLaws I K}.
  Context {V : Type}.
  Notation store := (BTreeMap K (list V)).
  Implicit Types (z : ZosditMap K V).

  Section Cut.
    Context {Q : Type} {IQ : InclusiveInterval I Q}.
    Implicit Type q : Q.

    Lemma zpieces_form q (e : K * list V) : lo q <= hi q -> okv e -> meets (lo q) (hi q) e ->
      exists L R, zpieces q e = L ++ R /\
        ((lo q <= elo e /\ L = []) \/ (elo e < lo q /\ exists x, L = [x] /\ elo x = elo e /\ ehi x = lo q - 1)) /\
        ((ehi e <= hi q /\ R = []) \/ (hi q < ehi e /\ exists x, R = [x] /\ elo x = hi q + 1 /\ ehi x = ehi e)).
    Proof.
      destruct e as [k vs]. unfold okv, meets, elo, ehi. cbn [fst]. intros Vq Vk Hm. unfold zpieces. cbn [fst snd].
      destruct (cut_interval_ok k q) as (r & -> & Hb & _ & Ha); try lia.
      exists (piece_list (before_cut r) vs), (piece_list (after_cut r) vs). split; [reflexivity|].
      destruct (before_cut r) as [b|], (after_cut r) as [a|]; cbn [piece_list].
      - split; right; (split; [lia|]); eexists; (split; [reflexivity|]); cbn [fst]; rewrite from_lo, from_hi by lia; lia.
      - split; [right|left; auto]. split; [lia|]. eexists. split; [reflexivity|]. cbn [fst]. rewrite from_lo, from_hi by lia. lia.
      - split; [left; auto|right]. split; [lia|]. eexists. split; [reflexivity|]. cbn [fst]. rewrite from_lo, from_hi by lia. lia.
      - split; left; auto.
    Qed.
    Lemma zpieces_in q (e x : K * list V) : lo q <= hi q -> okv e -> meets (lo q) (hi q) e -> In x (zpieces q e) ->
      (elo e < lo q /\ elo x = elo e /\ ehi x = lo q - 1) \/ (hi q < ehi e /\ elo x = hi q + 1 /\ ehi x = ehi e).
    Proof.
      intros Vq Ve M. destruct (zpieces_form q e Vq Ve M) as (L & R & -> & HL & HR). intros Hx. apply in_app_or in Hx.
      destruct Hx as [Hx|Hx].
      - destruct HL as [(_ & ->)|(L1 & y & -> & L2 & L3)]; [destruct Hx|]. destruct Hx as [<-|[]]. left. auto.
      - destruct HR as [(_ & ->)|(L1 & y & -> & L2 & L3)]; [destruct Hx|]. destruct Hx as [<-|[]]. right. auto.
    Qed.
    Lemma pieces_ZD q (M : store) : lo q <= hi q -> ZS M -> Forall (meets (lo q) (hi q)) M -> ZD (flat_map (zpieces q) M).
    Proof.
      intros Vq. induction M as [|e M IH]; intros S HM; [constructor|]. apply ZS_cons in S. destruct S as (Ve & S & Fe).
      apply Forall_cons_iff in HM. destruct HM as [Me HM]. cbn [flat_map]. apply ZD_app. split; [|split; [apply IH; assumption|]].
      - destruct (zpieces_form q e Vq Ve Me) as (L & R & -> & HL & HR).
        destruct HL as [(_ & ->)|(L1 & y & -> & L2 & L3)], HR as [(_ & ->)|(R1 & w & -> & R2 & R3)]; repeat constructor. lia.
      - intros x y Hx Hy. apply in_flat_map in Hy. destruct Hy as (e' & He' & Hy).
        pose proof (okvs _ S) as OM. rewrite Forall_forall in HM, Fe, OM. specialize (Fe e' He'). specialize (HM e' He'). specialize (OM e' He').
        apply zpieces_in in Hx, Hy; try assumption. unfold meets, okv in *. lia.
    Qed.

    (** What is stored twice after the cut, on the left and on the right. *)
    Definition twin_ranks q (l : list (K * V)) : Prop := exists e e', In e l /\ In e' l /\ elo e' = ehi e' /\ elo e <= hi q /\ lo q <= ehi e /\
      ((elo e = lo q - 1 /\ elo e' = elo e) \/ (ehi e = hi q + 1 /\ elo e' = ehi e)).

    Lemma twin_rk q (l : list (K * V)) : lo q <= hi q -> Forall okv l -> (leaves_twin q l <-> twin_ranks q l).
    Proof.
      intros Vq Vl. rewrite Forall_forall in Vl. split.
      - intros (e & e' & He & He' & Ho & Hs & Hc). exists e, e'. pose proof (Vl e He) as Ve. pose proof (Vl e' He') as Ve'. unfold okv, elo, ehi in *.
        apply overlap_rk in Ho. apply singular_rk in Hs. do 2 (split; [assumption|]). split; [exact Hs|]. split; [lia|]. split; [lia|].
        destruct Hc as [Hc|Hc]; [left|right].
        + assert (Hr : forall x, lo (fst e') <= rk x <= hi (fst e') <-> (lo (fst e) <= rk x <= hi (fst e) /\ rk x < lo q)).
          { intros x. rewrite <- !covers_rk, Hc. split; intros [A B]; (split; [exact A|]).
            - specialize (B (istart q)). rewrite covers_rk, plt_rk in B. unfold lo, hi in *. lia.
            - intros y Hy. apply covers_rk in Hy. rewrite plt_rk. lia. }
          pose proof (Hr (istart (fst e'))) as H1. pose proof (Hr (istart (fst e))) as H2.
          change (rk (istart (fst e'))) with (lo (fst e')) in H1. change (rk (istart (fst e))) with (lo (fst e)) in H2.
          destruct (Z.eq_dec (lo (fst e) + 1) (lo q)) as [E|N]; [lia|].
          destruct (rk_surj (istart (fst e)) (istart q) (lo (fst e) + 1)) as (p & Hp); [unfold lo in *; lia|].
          specialize (Hr p). lia.
        + assert (Hr : forall x, lo (fst e') <= rk x <= hi (fst e') <-> (lo (fst e) <= rk x <= hi (fst e) /\ hi q < rk x)).
          { intros x. rewrite <- !covers_rk, Hc. split; intros [A B]; (split; [exact A|]).
            - specialize (B (iend q)). rewrite covers_rk, plt_rk in B. unfold lo, hi in *. lia.
            - intros y Hy. apply covers_rk in Hy. rewrite plt_rk. lia. }
          pose proof (Hr (iend (fst e'))) as H1. pose proof (Hr (iend (fst e))) as H2.
          change (rk (iend (fst e'))) with (hi (fst e')) in H1. change (rk (iend (fst e))) with (hi (fst e)) in H2.
          destruct (Z.eq_dec (hi (fst e) - 1) (hi q)) as [E|N]; [lia|].
          destruct (rk_surj (iend q) (iend (fst e)) (hi (fst e) - 1)) as (p & Hp); [unfold hi in *; lia|].
          specialize (Hr p). lia.
      - intros (e & e' & He & He' & Hs & O1 & O2 & Hc). exists e, e'. pose proof (Vl e He) as Ve. unfold okv, elo, ehi in *.
        do 2 (split; [assumption|]). split; [apply overlap_rk; lia|]. split; [apply singular_rk, Hs|].
        destruct Hc as [Hc|Hc]; [left|right]; intros x; rewrite !covers_rk; split.
        + intros X. split; [lia|]. intros y Hy. apply covers_rk in Hy. rewrite plt_rk. lia.
        + intros [X Y]. specialize (Y (istart q)). rewrite covers_rk, plt_rk in Y. unfold lo, hi in *. lia.
        + intros X. split; [lia|]. intros y Hy. apply covers_rk in Hy. rewrite plt_rk. lia.
        + intros [X Y]. specialize (Y (iend q)). rewrite covers_rk, plt_rk in Y. unfold lo, hi in *. lia.
    Qed.

    Lemma cut_ZD z q : ZWF z -> lo q <= hi q -> ZD (z_inner z) ->
      (ZD (z_inner (fst (zosdit_cut q z))) <-> ~ (cuttable z q /\ twin_ranks q (zosdit_iter z))).
    Proof.
      intros Wf Vq HD. pose proof Wf as (W & Hok & _).
      destruct (zsplit3 (z_inner z) (lo q) (hi q) W Vq) as (A & M & B & El & HA & HM & HB).
      destruct (cut_zosdit_cases z q A M B Wf Vq El HA HM HB) as [(C & n' & E & _)|(N & E)]; rewrite E; cbn [fst z_inner].
      2:{ split; [intros _ [X _]; contradiction|intros _; exact HD]. }
      unfold zosdit_iter. rewrite El in *. apply ZS_app in W. destruct W as (WA & W & HAB). apply ZS_app in W. destruct W as (WM & WB & HMB).
      apply ZD_app in HD. destruct HD as (DA & DB & DAB). apply ZD_app in DB. destruct DB as (DM & DB & DMB).
      pose proof (okvs _ WA) as VA. pose proof (okvs _ WM) as VM. pose proof (okvs _ WB) as VB.
      rewrite Forall_forall in HA, HB, VA, VM, VB. pose proof HM as HMf. rewrite Forall_forall in HMf.
      assert (Fl : forall k vs, In (k, vs) (A ++ M ++ B) -> exists v, In (k, v) (flatten (A ++ M ++ B))) by (intros k vs; apply flatten_key; exact Hok).
      assert (Up : forall e : K * V, In e (flatten (A ++ M ++ B)) -> exists s : K * list V, In s (A ++ M ++ B) /\ elo s = elo e /\ ehi s = ehi e).
      { intros [k v] He. apply in_flatten in He. destruct He as (vs & He & _). exists (k, vs). split; [exact He|split; reflexivity]. }
      split.
      - intros D [_ (e & e' & He & He' & Hs & O1 & O2 & Hc)]. apply Up in He, He'. destruct He as (s & Hs1 & S1 & S2), He' as (s' & Hs' & T1 & T2).
        rewrite <- S1, <- S2, <- T1, <- T2 in *. clear e e' S1 S2 T1 T2.
        apply ZD_app in D. destruct D as (_ & D & D1). apply ZD_app in D. destruct D as (_ & _ & D2).
        assert (InM : In s M).
        { apply in_app_or in Hs1. destruct Hs1 as [X|X]; [specialize (HA s X); unfold left_of in HA; lia|].
          apply in_app_or in X. destruct X as [X|X]; [exact X|specialize (HB s X); unfold right_of in HB; lia]. }
        destruct (zpieces_form q s Vq (VM s InM) (HMf s InM)) as (L & R & Ez & HL & HR).
        assert (InP : forall x, In x (L ++ R) -> In x (flat_map (zpieces q) M)) by (intros x Hx; apply in_flat_map; exists s; split; [exact InM|rewrite Ez; exact Hx]).
        destruct Hc as [(C1 & C2)|(C1 & C2)].
        + destruct HL as [(X & _)|(_ & x & -> & X1 & X2)]; [lia|].
          assert (InA : In s' A).
          { apply in_app_or in Hs'. destruct Hs' as [X|X]; [exact X|]. exfalso. apply in_app_or in X. destruct X as [X|X].
            - specialize (HMf s' X). unfold meets in HMf. lia.
            - specialize (HB s' X). unfold right_of in HB. lia. }
          specialize (D1 s' x InA (in_or_app _ _ _ (or_introl (InP x (or_introl eq_refl))))). lia.
        + destruct HR as [(X & _)|(_ & x & -> & X1 & X2)]; [lia|].
          assert (InB : In s' B).
          { apply in_app_or in Hs'. destruct Hs' as [X|X]; [specialize (HA s' X); unfold left_of in HA; lia|].
            apply in_app_or in X. destruct X as [X|X]; [|exact X]. specialize (HMf s' X). unfold meets in HMf. lia. }
          specialize (D2 x s' (InP x (in_or_app L [x] x (or_intror (or_introl eq_refl)))) InB). lia.
      - intros Hn.
        assert (Twin : forall (s s' : K * list V), In s (A ++ M ++ B) -> In s' (A ++ M ++ B) -> elo s' = ehi s' -> elo s <= hi q -> lo q <= ehi s ->
          ((elo s = lo q - 1 /\ elo s' = elo s) \/ (ehi s = hi q + 1 /\ elo s' = ehi s)) -> False).
        { intros [k vs] [k' vs'] H1 H2 H3 H4 H5 H6. apply Hn. split; [exact C|]. destruct (Fl k vs H1) as (v & Hv), (Fl k' vs' H2) as (v' & Hv').
          exists (k, v), (k', v'). auto 10. }
        apply ZD_app. split; [exact DA|]. split; [apply ZD_app; split; [apply pieces_ZD; assumption|split; [exact DB|]]|].
        + intros x y Hx Hy. apply in_flat_map in Hx. destruct Hx as (e & He & Hx). specialize (HMB e y He Hy).
          pose proof (zpieces_in q e x Vq (VM e He) (HMf e He) Hx) as P. pose proof (HB y Hy) as By. pose proof (VB y Hy) as Vy. unfold okv, right_of in *.
          pose proof (HMf e He) as Me. unfold meets in Me.
          destruct (Z_lt_le_dec (elo x) (ehi y)) as [G|G]; [exact G|exfalso]. apply (Twin e y); [apply in_or_app; right; apply in_or_app; left; exact He|apply in_or_app; right; apply in_or_app; right; exact Hy|lia|lia|lia|lia].
        + intros x y Hx Hy. apply in_app_or in Hy. destruct Hy as [Hy|Hy]; [|apply DAB; [exact Hx|apply in_or_app; right; exact Hy]].
          apply in_flat_map in Hy. destruct Hy as (e & He & Hy). specialize (HAB x e Hx (in_or_app _ _ _ (or_introl He))).
          pose proof (zpieces_in q e y Vq (VM e He) (HMf e He) Hy) as P. pose proof (HA x Hx) as Ax. pose proof (VA x Hx) as Vx. unfold okv, left_of in *.
          pose proof (HMf e He) as Me. unfold meets in Me.
          destruct (Z_lt_le_dec (elo x) (ehi y)) as [G|G]; [exact G|exfalso]. apply (Twin e x); [apply in_or_app; right; apply in_or_app; left; exact He|apply in_or_app; left; exact Hx|lia|lia|lia|lia].
    Qed.

    Lemma cut_once z q : ZWF z -> valid q -> stored_once z ->
      (stored_once (fst (zosdit_cut q z)) <-> ~ (cut_reaches q (zosdit_iter z) /\ leaves_twin q (zosdit_iter z))).
    Proof.
      intros Wf Vq S. rewrite (stored_once_ZD _ (cut_ZWF q z Wf)). rewrite (cut_reaches_spec q z Wf Vq). apply valid_rk in Vq.
      rewrite twin_rk; [|exact Vq|apply Forall_forall; intros e; apply iter_okv, Wf]. apply cut_ZD; [exact Wf|exact Vq|apply (stored_once_ZD z Wf), S].
    Qed.
  End Cut.

  (** Histories none of whose cuts leaves a twin. *)
  Definition cuts_twin (o : zop I K V) (l : list (K * V)) : Prop := match o with ZCut q => leaves_twin q l | _ => False end.
  Definition twinless (os : list (zop I K V)) : Prop :=
    forall os1 o os2, os = os1 ++ o :: os2 -> ~ cuts_twin o (zosdit_iter (zrun os1)).

  Lemma twinless_once os : twinless os -> stored_once (zrun os).
  Proof.
    intros H. apply (stored_once_ZD _ (zrun_ZWF os)). revert H. induction os as [|o os IH] using rev_ind; intros H; [constructor|].
    assert (D : ZD (z_inner (zrun os))).
    { apply IH. intros os1 o' os2 E. apply (H os1 o' (os2 ++ [o])). rewrite E, <- app_assoc. reflexivity. }
    rewrite zrun_snoc. destruct o as [|k v|p|Q IQ q|l|l]; try (apply zstep_ZD; [apply zrun_ZWF|exact D|exact Logic.I]).
    cbn [zstep]. destruct (valid_dec q) as [Vq|N]; [|rewrite cut_invalid by exact N; exact D].
    apply cut_ZD; [apply zrun_ZWF|apply valid_rk, Vq|exact D|]. intros [_ X]. apply (H os (ZCut q) [] eq_refl). cbn [cuts_twin].
    apply twin_rk; [apply valid_rk, Vq|apply Forall_forall; intros e; apply iter_okv, zrun_ZWF|exact X].
  Qed.
End Once.
