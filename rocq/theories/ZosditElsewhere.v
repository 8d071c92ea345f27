(** * ZosditElsewhere: what [cut] and [remove_last_value_at_point] change for
      calls about other places (C119). *)
From Coq Require Import List ZArith Bool Lia ZifyBool Sorting.Sorted.
From Verif Require Import Base BTree UtilsModel IntervalModel NoditModel ZosditModel ZosditOps ElsewhereOps
  Spec PointFacts IntervalFacts ListFacts NoditFacts ZosditFacts ZosditMut ZosditProofs ZosditCoherence AccountFacts.
Import ListNotations.
Open Scope Z_scope.

Section Elsewhere.
  Context {I : Type} {OI : Ord I} {DI : DiscreteFinite I} {PL : PointLaws I}.
  Context {K : Type} {IK : InclusiveInterval I K} {IL : IntervalLaws I K}.
  Context {V : Type}.
  Notation store := (BTreeMap K (list V)).
  Implicit Types (z : ZosditMap K V) (k : K) (v : V) (p : I).

  Section CQ.
    Context {C Q : Type} {IC : InclusiveInterval I C} {IQ : InclusiveInterval I Q}.
    Implicit Types (c : C) (q : Q).

    Lemma side_left c q x : lo c <= hi c -> lo q <= hi q -> hi q < lo c -> (same_side c q x <-> rk x < lo c).
    Proof.
      intros Vc Vq L. unfold same_side. split.
      - intros S. specialize (S (istart c) (istart q)). rewrite !covers_rk, !plt_rk in S. unfold lo, hi in *. lia.
      - intros X y w Hy Hw. apply covers_rk in Hy, Hw. rewrite !plt_rk. lia.
    Qed.
    Lemma side_right c q x : lo c <= hi c -> lo q <= hi q -> hi c < lo q -> (same_side c q x <-> hi c < rk x).
    Proof.
      intros Vc Vq L. unfold same_side. split.
      - intros S. specialize (S (iend c) (istart q)). rewrite !covers_rk, !plt_rk in S. unfold lo, hi in *. lia.
      - intros X y w Hy Hw. apply covers_rk in Hy, Hw. rewrite !plt_rk. lia.
    Qed.
    Definition apart c q : Prop := hi q < lo c \/ hi c < lo q.
    Lemma not_overlap_apart c q : lo c <= hi c -> lo q <= hi q -> ~ overlap c q -> apart c q.
    Proof. intros Vc Vq N. unfold apart. rewrite overlap_rk in N. lia. Qed.
    Lemma clipped_self c q (e : K * V) : lo c <= hi c -> lo q <= hi q -> apart c q -> elo e <= ehi e ->
      ~ (elo e <= hi c /\ lo c <= ehi e) -> elo e <= hi q /\ lo q <= ehi e -> clipped c q e e.
    Proof.
      intros Vc Vq A Ve N M. split; [reflexivity|]. split; [reflexivity|]. intros x. split; [|tauto]. intros Hx. split; [exact Hx|].
      apply covers_rk in Hx. unfold elo, ehi in *. destruct A as [A|A]; [apply side_left|apply side_right]; try assumption; lia.
    Qed.

    (** One entry of the tree that meets [c]. *)
    Lemma clip_store c q (e : K * list V) : lo c <= hi c -> lo q <= hi q -> apart c q -> okv e -> okstore e -> meets (lo c) (hi c) e ->
      exists o o', sub (fun e : K * V => overlap (fst e) q) (flatten [e]) o /\
        sub (fun e : K * V => overlap (fst e) q) (flatten (zpieces c e)) o' /\ Forall2 (clipped c q) o o'.
    Proof.
      destruct e as [k vs]. intros Vc Vq A Vk [On Os] Hm. destruct (zpieces_keys c k vs Vc Vk Hm) as (ks & Hk & ->).
      unfold okv, meets, elo, ehi in *. cbn [fst snd] in *.
      destruct (Z_lt_le_dec (lo k) (hi k)) as [L|L].
      - destruct (Os L) as (v & ->). cbn [flatten flat_map map fst snd app].
        assert (Ef : flatten (map (fun k' => (k', [v])) ks) = map (fun k' => (k', v)) ks).
        { clear. induction ks as [|k' ks IH]; [reflexivity|]. cbn [map]. rewrite flatten_cons. cbn [map app]. f_equal. exact IH. }
        rewrite Ef.
        destruct (Z_le_gt_dec (lo k) (hi q)) as [L1|L1]; [destruct (Z_le_gt_dec (lo q) (hi k)) as [L2|L2]|].
        + (* meets [q] *)
          destruct Hk as (b & a & -> & Hb & Ha). destruct A as [A|A].
          * destruct b as [b|]; [|lia]. exists [(k, v)], [(b, v)]. split; [constructor; [apply overlap_rk; cbn; lia|constructor]|].
            split.
            { cbn [opt_list app map]. constructor; [apply overlap_rk; cbn; lia|]. apply sub_none. rewrite Forall_forall. intros e He.
              destruct a as [a|]; [|destruct He]. destruct He as [<-|[]]. rewrite overlap_rk. cbn. lia. }
            constructor; [|constructor]. split; [reflexivity|]. split; [intros N; exfalso; apply N, overlap_rk; cbn; lia|].
            intros x. rewrite (side_left c q x Vc Vq A), !covers_rk. cbn [fst]. lia.
          * destruct a as [a|]; [|lia]. exists [(k, v)], [(a, v)]. split; [constructor; [apply overlap_rk; cbn; lia|constructor]|].
            split.
            { rewrite map_app. apply (sub_app _ _ _ []).
              - apply sub_none. rewrite Forall_forall. intros e He. destruct b as [b|]; [|destruct He]. destruct He as [<-|[]]. rewrite overlap_rk. cbn. lia.
              - cbn [opt_list map]. constructor; [apply overlap_rk; cbn; lia|constructor]. }
            constructor; [|constructor]. split; [reflexivity|]. split; [intros N; exfalso; apply N, overlap_rk; cbn; lia|].
            intros x. rewrite (side_right c q x Vc Vq A), !covers_rk. cbn [fst]. lia.
        + exists [], []. split; [apply sub_none; constructor; [|constructor]; rewrite overlap_rk; cbn; lia|]. split; [|constructor].
          apply sub_none. rewrite Forall_forall. intros e He. apply in_map_iff in He. destruct He as (k' & <- & Hk'). cbn [fst].
          destruct (piece_keys_in c k ks k' Hk Hk' Vc Vk (proj1 Hm) (proj2 Hm)). rewrite overlap_rk. lia.
        + exists [], []. split; [apply sub_none; constructor; [|constructor]; rewrite overlap_rk; cbn; lia|]. split; [|constructor].
          apply sub_none. rewrite Forall_forall. intros e He. apply in_map_iff in He. destruct He as (k' & <- & Hk'). cbn [fst].
          destruct (piece_keys_in c k ks k' Hk Hk' Vc Vk (proj1 Hm) (proj2 Hm)). rewrite overlap_rk. lia.
      - assert (ks = []) as ->.
        { destruct ks as [|k' ks]; [reflexivity|]. pose proof (piece_keys_in c k _ k' Hk (or_introl eq_refl) Vc Vk (proj1 Hm) (proj2 Hm)). lia. }
        exists [], []. split; [|split; [constructor|constructor]]. apply sub_none. rewrite Forall_forall. intros e He. apply in_flatten in He.
        destruct He as (ws & [He|[]] & _). injection He as E _. rewrite overlap_rk, <- E. unfold apart in A. lia.
    Qed.
    Lemma clip_stores c q (M : store) : lo c <= hi c -> lo q <= hi q -> apart c q -> Forall okv M -> Forall okstore M ->
      Forall (meets (lo c) (hi c)) M ->
      exists o o', sub (fun e : K * V => overlap (fst e) q) (flatten M) o /\
        sub (fun e : K * V => overlap (fst e) q) (flatten (flat_map (zpieces c) M)) o' /\ Forall2 (clipped c q) o o'.
    Proof.
      intros Vc Vq A VM OM HM. induction M as [|e M IH]; [exists [], []; repeat constructor|].
      apply Forall_cons_iff in VM, OM, HM. destruct VM as [V1 VM], OM as [O1 OM], HM as [H1 HM].
      destruct (IH VM OM HM) as (o & o' & S & S' & F). destruct (clip_store c q e Vc Vq A V1 O1 H1) as (o1 & o1' & S1 & S1' & F1).
      exists (o1 ++ o), (o1' ++ o'). split; [|split; [|apply Forall2_app; assumption]].
      - change (e :: M) with ([e] ++ M). rewrite flatten_app. apply sub_app; assumption.
      - cbn [flat_map]. rewrite flatten_app. apply sub_app; assumption.
    Qed.
    Lemma clip_others c q (l : store) : lo c <= hi c -> lo q <= hi q -> apart c q -> Forall okv l ->
      Forall (fun e => ~ meets (lo c) (hi c) e) l ->
      exists o, sub (fun e : K * V => overlap (fst e) q) (flatten l) o /\ Forall2 (clipped c q) o o.
    Proof.
      intros Vc Vq A Vl N.
      assert (D : forall e : K * V, {overlap (fst e) q} + {~ overlap (fst e) q}).
      { intros e. destruct (Z_le_gt_dec (Z.max (lo (fst e)) (lo q)) (Z.min (hi (fst e)) (hi q))) as [L|L]; [left|right]; rewrite overlap_rk; lia. }
      exists (filter (fun e : K * V => if D e then true else false) (flatten l)). split.
      - apply sub_filter. intros e. destruct (D e); split; intros; auto; discriminate.
      - assert (X : forall e, In e (filter (fun e : K * V => if D e then true else false) (flatten l)) -> clipped c q e e).
        { intros e He. apply filter_In in He. destruct He as [He Ho]. destruct (D e) as [Oe|]; [|discriminate]. apply in_flatten in He. destruct He as (vs & He & _).
          rewrite Forall_forall in Vl, N. specialize (Vl _ He). specialize (N _ He). apply overlap_rk in Oe.
          unfold okv, meets, elo, ehi in *. cbn [fst] in *. apply clipped_self; unfold elo, ehi; try assumption; lia. }
        induction (filter _ (flatten l)) as [|e o IH]; constructor; [apply X; left; reflexivity|apply IH; intros e' He'; apply X; right; exact He'].
    Qed.

    (** How [cut c] changes the tree, when it does. *)
    Lemma cut_split c z : ZWF z -> lo c <= hi c -> cuttable z c ->
      exists A M B z' out, z_inner z = A ++ M ++ B /\ zosdit_cut c z = (z', Val out) /\ z_inner z' = A ++ flat_map (zpieces c) M ++ B /\
        Forall (fun e => ~ meets (lo c) (hi c) e) A /\ Forall (meets (lo c) (hi c)) M /\ Forall (fun e => ~ meets (lo c) (hi c) e) B /\
        Forall okv A /\ Forall okv M /\ Forall okv B /\ Forall okstore M.
    Proof.
      intros W Vc Cu. pose proof W as (S & Hok & _). destruct (zsplit3 (z_inner z) (lo c) (hi c) S Vc) as (A & M & B & El & HA & HM & HB).
      destruct (cut_zosdit_cases z c A M B W Vc El HA HM HB) as [(_ & n' & E & _)|(N & _)]; [|contradiction].
      exists A, M, B, (mkZosdit n' (A ++ flat_map (zpieces c) M ++ B)), (flat_map (zinside c) M).
      split; [exact El|]. split; [exact E|]. split; [reflexivity|]. rewrite El in S, Hok.
      apply ZS_app in S. destruct S as (SA & S & _). apply ZS_app in S. destruct S as (SM & SB & _).
      apply Forall_app in Hok. destruct Hok as [_ Hok]. apply Forall_app in Hok. destruct Hok as [OM _].
      split; [eapply Forall_impl; [|exact HA]; unfold left_of, meets; intros; lia|]. split; [exact HM|].
      split; [eapply Forall_impl; [|exact HB]; unfold right_of, meets; intros; lia|].
      split; [apply okvs, SA|]. split; [apply okvs, SM|]. split; [apply okvs, SB|exact OM].
    Qed.

    Lemma overlapping_after_cut c q z : ZWF z -> valid c -> valid q -> ~ overlap c q -> cuttable z c ->
      exists l l', zosdit_overlapping z q = Val l /\ zosdit_overlapping (fst (zosdit_cut c z)) q = Val l' /\ Forall2 (clipped c q) l l'.
    Proof.
      intros W Vc Vq N Cu. pose proof (cut_ZWF c z W) as W'.
      destruct (overlapping_lists q z W Vq) as (l & E & S). destruct (overlapping_lists q _ W' Vq) as (l' & E' & S').
      exists l, l'. split; [exact E|]. split; [exact E'|]. apply valid_rk in Vc, Vq. pose proof (not_overlap_apart c q Vc Vq N) as Ap.
      destruct (cut_split c z W Vc Cu) as (A & M & B & z' & out & El & Ec & El' & HA & HM & HB & VA & VM & VB & OM).
      rewrite Ec in S'. cbn [fst] in S'. unfold zosdit_iter in S, S'. rewrite El, !flatten_app in S. rewrite El', !flatten_app in S'.
      destruct (clip_others c q A Vc Vq Ap VA HA) as (oA & SA & FA). destruct (clip_others c q B Vc Vq Ap VB HB) as (oB & SB & FB).
      destruct (clip_stores c q M Vc Vq Ap VM OM HM) as (oM & oM' & SM & SM' & FM).
      assert (l = oA ++ oM ++ oB) as -> by (apply (sub_unique _ _ _ _ S); repeat apply sub_app; assumption).
      assert (l' = oA ++ oM' ++ oB) as -> by (apply (sub_unique _ _ _ _ S'); repeat apply sub_app; assumption).
      repeat apply Forall2_app; assumption.
    Qed.
    Lemma cut_after_cut c q z : ZWF z -> valid c -> valid q -> ~ overlap c q -> cuttable z c ->
      cuttable z q -> cuttable (fst (zosdit_cut c z)) q ->
      exists out out', snd (zosdit_cut q z) = Val out /\ snd (zosdit_cut q (fst (zosdit_cut c z))) = Val out' /\ Forall2 same_entry out out'.
    Proof.
      intros W Vc Vq N Cu Cq Cq'. pose proof (cut_ZWF c z W) as W'.
      destruct (overlapping_after_cut c q z W Vc Vq N Cu) as (l & l' & E & E' & F).
      destruct (cut_done z q W Vq Cq) as (z1 & out & E1 & _ & (o & So & Fo) & _).
      destruct (cut_done _ q W' Vq Cq') as (z2 & out' & E2 & _ & (o' & So' & Fo') & _).
      destruct (overlapping_lists q z W Vq) as (l0 & X & S). rewrite E in X. injection X as <-.
      destruct (overlapping_lists q _ W' Vq) as (l0 & X & S'). rewrite E' in X. injection X as <-.
      rewrite (sub_unique _ _ _ _ So S) in Fo. rewrite (sub_unique _ _ _ _ So' S') in Fo'.
      exists out, out'. rewrite E1, E2. split; [reflexivity|]. split; [reflexivity|]. clear -Fo Fo' F Vc Vq N PL.
      revert out out' Fo Fo'. induction F as [|e e' l l' He F IH]; intros out out' Fo Fo'; inversion Fo; inversion Fo'; subst; constructor; [|apply IH; assumption].
      destruct He as (Ev & _ & Ec). match goal with H : yields q e _, H' : yields q e' _ |- _ => destruct H as [Y1 Y2]; destruct H' as [Y3 Y4] end.
      split; [|congruence]. intros x. rewrite Y2, Y4, Ec. apply valid_rk in Vc, Vq. pose proof (not_overlap_apart c q Vc Vq N) as Ap.
      assert (covers q x -> same_side c q x); [|tauto]. intros Hx. apply covers_rk in Hx.
      destruct Ap as [A|A]; [apply side_left|apply side_right]; try assumption; lia.
    Qed.

    (** What is left of an entry lies in it. *)
    Lemma cut_part c z e' : ZWF z -> valid c -> In e' (zosdit_iter (fst (zosdit_cut c z))) ->
      exists e, In e (zosdit_iter z) /\ snd e' = snd e /\ elo e <= elo e' /\ ehi e' <= ehi e.
    Proof.
      intros W Vc He. pose proof (cut_ZWF c z W) as W'. destruct (cuttable_dec z c) as [Cu|N].
      - destruct (cut_done z c W Vc Cu) as (z' & out & E & _ & _ & (ls & F & El) & _). rewrite E in *. cbn [fst] in *.
        pose proof (iter_okv z' e' W' He) as Ve. rewrite El in He. clear -F He Ve PL.
        induction F as [|e le l ls Le F IH]; [destruct He|]. cbn [concat] in He. apply in_app_or in He. destruct He as [He|He].
        + exists e. split; [left; reflexivity|]. destruct Le as ((_ & R & _) & Hv & _). split; [apply Hv, He|].
          destruct (R (fst e') (in_map fst _ _ He)) as [(_ & Hc & _) _].
          assert (Z1 : covers (fst e') (istart (fst e'))) by (apply covers_rk; unfold elo, ehi, lo, hi in *; lia).
          assert (Z2 : covers (fst e') (iend (fst e'))) by (apply covers_rk; unfold elo, ehi, lo, hi in *; lia).
          apply Hc in Z1, Z2. destruct Z1 as [Z1 _], Z2 as [Z2 _]. apply covers_rk in Z1, Z2. unfold elo, ehi, lo, hi in *. lia.
        + destruct (IH He) as (x & Hx & X). exists x. split; [right; exact Hx|exact X].
      - rewrite (cut_not_done z c W Vc N) in He. cbn [fst] in He. exists e'. split; [exact He|]. split; [reflexivity|]. lia.
    Qed.
    Lemma zero_overlap_after_cut c q z : ZWF z -> valid c -> valid q -> is_zero_overlap z q = Val true ->
      is_zero_overlap (fst (zosdit_cut c z)) q = Val true.
    Proof.
      intros W Vc Vq E. pose proof (cut_ZWF c z W) as W'.
      destruct (zero_overlap_decides q z W Vq) as (b & Eb & Hb). rewrite E in Eb. injection Eb as <-.
      destruct (zero_overlap_decides q _ W' Vq) as (b' & -> & Hb'). f_equal. apply Hb'. intros e' He'.
      destruct (cut_part c z e' W Vc He') as (e & He & _ & L1 & L2). pose proof (proj1 Hb eq_refl e He) as Z.
      apply valid_rk in Vq. pose proof (iter_okv z e W He) as Ve. pose proof (iter_okv _ e' W' He') as Ve'.
      unfold elo, ehi in *. apply zero_overlap_rk in Z; [|assumption..]. apply zero_overlap_rk; [assumption..|]. lia.
    Qed.
    Lemma zero_overlap_separated c q z : ZWF z -> valid c -> valid q -> separated c q ->
      is_zero_overlap (fst (zosdit_cut c z)) q = is_zero_overlap z q.
    Proof.
      intros W Vc Vq (m & Sm). pose proof (cut_ZWF c z W) as W'.
      destruct (cuttable_dec z c) as [Cu|N]; [|rewrite (cut_not_done z c W Vc N); reflexivity].
      destruct (zero_overlap_decides q z W Vq) as (b & Eb & Hb). destruct (zero_overlap_decides q _ W' Vq) as (b' & Eb' & Hb').
      destruct b; [rewrite Eb; apply zero_overlap_after_cut; assumption|]. rewrite Eb, Eb'. f_equal. destruct b'; [|reflexivity].
      symmetry. apply Hb. intros e He. pose proof (proj1 Hb' eq_refl) as HZ. clear Hb' Hb Eb Eb'.
      pose proof Vc as Vc0. pose proof Vq as Vq0. apply valid_rk in Vc, Vq. pose proof (iter_okv z e W He) as Ve.
      assert (Hm : hi q < rk m < lo c \/ hi c < rk m < lo q).
      { destruct Sm as [[S1 S2]|[S1 S2]]; [left|right].
        - specialize (S1 (istart c)). specialize (S2 (iend q)). rewrite covers_rk, plt_rk in S1. rewrite covers_rk, plt_rk in S2. unfold lo, hi in *. lia.
        - specialize (S1 (iend c)). specialize (S2 (istart q)). rewrite covers_rk, plt_rk in S1. rewrite covers_rk, plt_rk in S2. unfold lo, hi in *. lia. }
      apply zero_overlap_rk; [exact Ve|exact Vq|]. unfold elo, ehi in *.
      destruct (Z_le_gt_dec (hi (fst e)) (lo q)) as [L1|L1]; [auto|]. destruct (Z_le_gt_dec (hi q) (lo (fst e))) as [L2|L2]; [auto|]. exfalso.
      destruct (overlapping_after_cut c q z W Vc0 Vq0) as (l & l' & E & E' & F); [rewrite overlap_rk; lia|exact Cu|].
      destruct (overlapping_lists q z W Vq0) as (l0 & X & S). rewrite E in X. injection X as <-.
      destruct (overlapping_lists q _ W' Vq0) as (l0 & X & S'). rewrite E' in X. injection X as <-.
      assert (Hl : In e l) by (apply (sub_in _ _ _ S); split; [exact He|apply overlap_rk; lia]).
      assert (X : exists e', In e' l' /\ clipped c q e e').
      { clear -F Hl. induction F as [|a b l l' Hab F IH]; [destruct Hl|]. destruct Hl as [<-|Hl]; [exists b; split; [left; reflexivity|exact Hab]|].
        destruct (IH Hl) as (e' & H1 & H2). exists e'. split; [right; exact H1|exact H2]. }
      destruct X as (e' & He' & (_ & _ & Hc)). apply (sub_in _ _ _ S') in He'. destruct He' as [He' _].
      specialize (HZ e' He'). pose proof (iter_okv _ e' W' He') as Ve'. unfold elo, ehi in Ve'. apply zero_overlap_rk in HZ; [|assumption..].
      assert (Hin : forall x, covers (fst e) x -> (hi q < lo c /\ rk x < lo c \/ hi c < lo q /\ hi c < rk x) -> lo (fst e') <= rk x <= hi (fst e')).
      { intros x Hx D. apply covers_rk. apply Hc. split; [exact Hx|]. destruct D as [D|D]; [apply side_left|apply side_right]; try assumption; lia. }
      destruct Hm as [Hm|Hm].
      - pose proof (Hin (istart (fst e))) as X1. pose proof (Hin (iend (fst e))) as X2. pose proof (Hin m) as X3. rewrite covers_rk in X1. rewrite covers_rk in X2. rewrite covers_rk in X3. unfold lo, hi in *. lia.
      - pose proof (Hin (istart (fst e))) as X1. pose proof (Hin (iend (fst e))) as X2. pose proof (Hin m) as X3. rewrite covers_rk in X1. rewrite covers_rk in X2. rewrite covers_rk in X3. unfold lo, hi in *. lia.
    Qed.

  End CQ.

    Lemma point_after_cut {C} {IC : InclusiveInterval I C} (c : C) z p : ZWF z -> valid c -> ~ covers c p -> findable z p -> findable (fst (zosdit_cut c z)) p ->
      get_last_value_at_point (fst (zosdit_cut c z)) p = get_last_value_at_point z p.
    Proof.
      intros W Vc N Fz Fz'. pose proof (cut_ZWF c z W) as W'.
      destruct (cuttable_dec z c) as [Cu|Nc]; [|rewrite (cut_not_done z c W Vc Nc); reflexivity].
      pose (q := mkInterval p p). assert (Hq : forall x, covers q x <-> cmp x p = Eq).
      { intros x. rewrite rk_eq, covers_rk. unfold q, lo, hi. cbn. lia. }
      assert (Vq : valid q) by (apply valid_rk; unfold q, lo, hi; cbn; lia).
      assert (No : ~ overlap c q). { intros (x & Hx & Hxq). apply Hq, rk_eq in Hxq. apply N. apply covers_rk. apply covers_rk in Hx. rewrite <- Hxq. exact Hx. }
      destruct (overlapping_after_cut c q z W Vc Vq No Cu) as (l & l' & E & E' & F).
      destruct (point_overlapping z p q W Hq) as [P1 P2]. destruct (point_overlapping _ p q W' Hq) as [P1' P2'].
      destruct (get_last_value_at_point z p) as [v|].
      - destruct (P1 v eq_refl) as (l0 & k & X). rewrite E in X. injection X as ->.
        apply Forall2_app_inv_l in F. destruct F as (l1' & l2' & _ & F & ->). inversion F as [|a b ? ? Hab F' Ea Eb]; subst. inversion F'; subst.
        destruct (get_last_value_at_point (fst (zosdit_cut c z)) p) as [w|].
        + destruct (P1' w eq_refl) as (l3 & k' & X). rewrite E' in X. injection X as X. apply app_inj_tail in X. destruct X as [_ ->].
          f_equal. exact (proj1 Hab).
        + exfalso. pose proof (proj1 (P2' Fz') eq_refl) as X. rewrite E' in X. injection X as X. destruct l1'; discriminate.
      - pose proof (proj1 (P2 Fz) eq_refl) as X. rewrite E in X. injection X as ->. inversion F; subst. apply (P2' Fz'), E'.
    Qed.

  Lemma remove_is_get z p : ZWF z -> snd (remove_last_value_at_point p z) = Val (get_last_value_at_point z p).
  Proof.
    intros W. destruct (remove_last_cases z p W) as [(l1 & l2 & k & v & z' & -> & -> & _)|(-> & -> & _)]; reflexivity.
  Qed.

  (** ** Removing a value *)
  Section Remove.
    Context {Q : Type} {IQ : InclusiveInterval I Q}.
    Implicit Type q : Q.
    Lemma overlapping_removed z z' l1 k v l2 q : ZWF z -> ZWF z' -> zosdit_iter z = l1 ++ (k, v) :: l2 -> zosdit_iter z' = l1 ++ l2 ->
      ~ overlap k q -> zosdit_overlapping z' q = zosdit_overlapping z q.
    Proof.
      intros W W' E E' N. destruct (valid_dec q) as [Vq|Nq].
      - destruct (overlapping_lists q z W Vq) as (l & -> & S). destruct (overlapping_lists q z' W' Vq) as (l' & -> & S').
        f_equal. rewrite E in S. rewrite E' in S'. destruct (sub_exists l1 q) as (a & Sa). destruct (sub_exists l2 q) as (b & Sb).
        assert (l = a ++ b) as ->.
        { apply (sub_unique _ _ _ _ S). apply sub_app; [exact Sa|]. apply sub_drop; [exact N|exact Sb]. }
        apply (sub_unique _ _ _ _ S'). apply sub_app; assumption.
      - unfold zosdit_overlapping. rewrite (iip_invalid q Nq). reflexivity.
    Qed.
    Lemma zero_overlap_removed z z' l1 k v l2 q : ZWF z -> ZWF z' -> zosdit_iter z = l1 ++ (k, v) :: l2 -> zosdit_iter z' = l1 ++ l2 ->
      zero_overlap k q -> is_zero_overlap z' q = is_zero_overlap z q.
    Proof.
      intros W W' E E' N. destruct (valid_dec q) as [Vq|Nq].
      - destruct (zero_overlap_decides q z W Vq) as (b & -> & Hb). destruct (zero_overlap_decides q z' W' Vq) as (b' & -> & Hb'). f_equal.
        rewrite E in Hb. rewrite E' in Hb'.
        assert (X : (forall e, In e (l1 ++ (k, v) :: l2) -> zero_overlap (fst e) q) <-> (forall e, In e (l1 ++ l2) -> zero_overlap (fst e) q)).
        { split; intros HF e He; [apply HF; apply in_app_or in He; apply in_or_app; cbn; tauto|].
          apply in_app_or in He. destruct He as [He|[<-|He]]; [apply HF, in_or_app; auto|exact N|apply HF, in_or_app; auto]. }
        destruct b, b'; tauto || (destruct Hb, Hb'; intuition congruence).
      - unfold is_zero_overlap. rewrite (iip_invalid q Nq). reflexivity.
    Qed.
  End Remove.

  Lemma point_removed z z' l1 k v l2 p : ZWF z -> ZWF z' -> zosdit_iter z = l1 ++ (k, v) :: l2 -> zosdit_iter z' = l1 ++ l2 ->
    ~ covers k p -> findable z p -> findable z' p -> get_last_value_at_point z' p = get_last_value_at_point z p.
  Proof.
    intros W W' E E' N Fz Fz'. pose (q := mkInterval p p). assert (Hq : forall x, covers q x <-> cmp x p = Eq).
    { intros x. rewrite rk_eq, covers_rk. unfold q, lo, hi. cbn. lia. }
    assert (No : ~ overlap k q). { intros (x & Hx & Hxq). apply Hq, rk_eq in Hxq. apply N. apply covers_rk. apply covers_rk in Hx. rewrite <- Hxq. exact Hx. }
    pose proof (overlapping_removed z z' l1 k v l2 q W W' E E' No) as X.
    destruct (point_overlapping z p q W Hq) as [P1 P2]. destruct (point_overlapping z' p q W' Hq) as [P1' P2'].
    destruct (get_last_value_at_point z p) as [w|].
    - destruct (P1 w eq_refl) as (l & k1 & Y). rewrite Y in X. destruct (get_last_value_at_point z' p) as [w'|].
      + destruct (P1' w' eq_refl) as (l' & k2 & Y'). rewrite X in Y'. injection Y' as Y'. apply app_inj_tail in Y'. destruct Y' as [_ Y']. congruence.
      + exfalso. pose proof (proj1 (P2' Fz') eq_refl) as Y'. rewrite X in Y'. injection Y' as Y'. destruct l; discriminate.
    - apply (P2' Fz'). rewrite X. apply (P2 Fz). reflexivity.
  Qed.
End Elsewhere.
