(** * OverrideZosditFacts: [ZosditMap] with overriding interval types. *)
From Coq Require Import List ZArith Bool Lia ZifyBool.
From Verif Require Import Base BTree UtilsModel IntervalModel NoditModel ZosditModel ZosditOps OverrideModel OverrideOps
  OverrideZosditModel OverrideZosditOps Spec PointFacts IntervalFacts ListFacts NoditFacts ZosditFacts ZosditMut ZosditProofs
  Ledger AccountFacts CrashZosdit OverrideFacts.
Import ListNotations.
Open Scope Z_scope.

Section Facts.
  Context {I : Type} `{PL : PointLaws I}.
  Context {K : Type} {IK : InclusiveInterval I K} {IL : IntervalLaws I K}.
  Context {V : Type}.
  Notation store := (BTreeMap K (list V)).
  Implicit Types (z : ZosditMap K V) (k : K) (v : V) (vs : list V) (p : I).

  (** ** Agreeing overrides *)
  Lemma contains_agree (kc : K -> I -> outcome bool) k p : agrees_contains kc -> kc k p = Val (contains_point k p).
  Proof.
    intros Hc. destruct (Hc k p) as (x & -> & Hx). f_equal. rewrite <- (contains_point_true k p) in Hx.
    destruct x, (contains_point k p); try reflexivity; [symmetry; apply Hx; reflexivity|apply Hx; reflexivity].
  Qed.
  Lemma get_last_o_agree kc z p : agrees_contains kc -> get_last_value_at_point_o kc z p = Val (get_last_value_at_point z p).
  Proof.
    intros Hc. unfold get_last_value_at_point_o, get_last_value_at_point. destruct (cursor_key_value _) as [[k vs]|]; [|reflexivity].
    rewrite contains_agree by exact Hc. reflexivity.
  Qed.
  Lemma remove_last_o_agree kc z p : agrees_contains kc -> remove_last_value_at_point_o kc p z = remove_last_value_at_point p z.
  Proof.
    intros Hc. unfold remove_last_value_at_point_o, remove_last_value_at_point. cbv zeta.
    destruct (snd (last_value_cursor z p)) as [|[k vs] r]; [reflexivity|]. rewrite contains_agree by exact Hc. reflexivity.
  Qed.
  Lemma insert_back_o_agree kv k v z : agrees_valid kv -> insert_strict_back_o kv k v z = insert_strict_back k v z.
  Proof.
    intros Hv. unfold insert_strict_back_o, insert_strict_back, is_zero_overlap_o, is_zero_overlap.
    rewrite iip_o_agree by exact Hv. reflexivity.
  Qed.
  Lemma extend_back_o_agree kv l z : agrees_valid kv -> extend_strict_back_o kv l z = extend_strict_back l z.
  Proof.
    intros Hv. revert z. induction l as [|[k v] l IH]; intros z; [reflexivity|]. cbn [extend_strict_back_o extend_strict_back].
    rewrite insert_back_o_agree by exact Hv. destruct (insert_strict_back k v z) as [z' [[u|e]|]]; [apply IH|reflexivity..].
  Qed.

  (** ** Insertion with a sound [is_valid] *)
  Lemma insert_back_o_sound kv k v z : sound_valid kv ->
    insert_strict_back_o kv k v z = (z, Panic) \/ insert_strict_back_o kv k v z = insert_strict_back k v z.
  Proof.
    intros Hv. unfold insert_strict_back_o, is_zero_overlap_o. destruct (iip_o_sound kv k Hv) as [->|[E Vk]]; [auto|]. right.
    unfold insert_strict_back, is_zero_overlap. rewrite E, (iip_valid _ Vk). reflexivity.
  Qed.
  Lemma extend_back_o_ZWF kv l z z' : sound_valid kv -> ZWF z -> extend_strict_back_o kv l z = Val (Ok z') -> ZWF z'.
  Proof.
    intros Hv. revert z. induction l as [|[k v] l IH]; intros z W; cbn [extend_strict_back_o]; [congruence|].
    destruct (insert_back_o_sound kv k v z Hv) as [->| ->]; [discriminate|].
    pose proof (insert_ZWF z k v W) as W'. destruct (insert_strict_back k v z) as [z1 [[u|e]|]]; [|discriminate..].
    apply IH, W'.
  Qed.

  (** ** Removal with any [contains_point] *)
  Lemma last_value_join z p : fst (last_value_cursor z p) ++ snd (last_value_cursor z p) = z_inner z.
  Proof.
    unfold last_value_cursor. cbv zeta. unfold lower_bound. destruct (cursor_key _); rewrite ?move_prev_join; apply seek_join.
  Qed.
  Lemma vec_pop_spec vs : vs <> [] -> exists ws w, vs = ws ++ [w] /\ vec_pop vs = Some (w, ws).
  Proof.
    intros Hn. unfold vec_pop. destruct (rev vs) as [|w r] eqn:E.
    - apply (f_equal (@rev V)) in E. rewrite rev_involutive in E. contradiction.
    - exists (rev r), w. apply (f_equal (@rev V)) in E. rewrite rev_involutive in E. cbn in E. rewrite E. split; [reflexivity|].
      reflexivity.
  Qed.
  Lemma remove_last_o_any kc z p : ZWF z ->
    (fst (remove_last_value_at_point_o kc p z) = z /\ (snd (remove_last_value_at_point_o kc p z) = Panic \/ snd (remove_last_value_at_point_o kc p z) = Val None)) \/
    (exists z' l1 k v l2, remove_last_value_at_point_o kc p z = (z', Val (Some v)) /\ kc k p = Val true /\ ZWF z' /\
       zosdit_iter z = l1 ++ (k, v) :: l2 /\ zosdit_iter z' = l1 ++ l2).
  Proof.
    intros (W & Ok & Len). unfold remove_last_value_at_point_o. cbv zeta. pose proof (last_value_join z p) as J.
    destruct (last_value_cursor z p) as [pre post]. cbn [fst snd] in *. destruct post as [|[k vs] rest]; [left; cbn; auto|].
    destruct (kc k p) as [[|]|] eqn:Ek; [|left; cbn; auto..]. rewrite <- J in *. right.
    pose proof Ok as Ok'. apply Forall_app in Ok'. destruct Ok' as [Ok1 Ok2]. apply Forall_cons_iff in Ok2. destruct Ok2 as [[On Os] Ok2]. cbn [snd] in On, Os.
    destruct (vec_pop_spec vs On) as (ws & w & -> & ->).
    pose proof W as W'. apply ZS_app in W'. destruct W' as (W1 & W2 & W3). apply ZS_cons in W2. destruct W2 as (W4 & W5 & W6).
    unfold count in Len. rewrite flatten_app, flatten_cons, !app_length, map_length, app_length in Len. cbn [length] in Len.
    destruct ws as [|u ws].
    - exists (mkZosdit (z_len z) (pre ++ rest)), (flatten pre), k, w, (flatten rest). split; [reflexivity|]. split; [exact Ek|]. split; [split; [|split]|split]; cbn [z_inner z_len].
      + apply ZS_app. split; [exact W1|]. split; [exact W5|]. intros x y Hx Hy. apply W3; [exact Hx|right; exact Hy].
      + apply Forall_app. auto.
      + unfold count. rewrite flatten_app, app_length. lia.
      + unfold zosdit_iter. rewrite <- J, flatten_app, flatten_cons. reflexivity.
      + unfold zosdit_iter. cbn [z_inner]. apply flatten_app.
    - exists (mkZosdit (z_len z) (pre ++ (k, u :: ws) :: rest)), (flatten pre ++ map (fun v => (k, v)) (u :: ws)), k, w, (flatten rest).
      split; [reflexivity|]. split; [exact Ek|]. split; [split; [|split]|split]; cbn [z_inner z_len].
      + apply ZS_app. split; [exact W1|]. split; [apply ZS_cons; split; [exact W4|]; split; [exact W5|exact W6]|].
        intros x y Hx [<-|Hy]; [exact (W3 x _ Hx (or_introl eq_refl))|exact (W3 x y Hx (or_intror Hy))].
      + apply Forall_app. split; [exact Ok1|]. apply Forall_cons; [|exact Ok2]. split; [discriminate|]. cbn [snd]. intros L.
        destruct (Os L) as (v & E). destruct ws; discriminate.
      + unfold count. rewrite flatten_app, flatten_cons, !app_length, map_length. cbn [length] in *. lia.
      + unfold zosdit_iter. rewrite <- J, flatten_app, flatten_cons, map_app, <- !app_assoc. reflexivity.
      + unfold zosdit_iter. cbn [z_inner]. rewrite flatten_app, flatten_cons, app_assoc. reflexivity.
  Qed.

  (** ** [cut] with any [overlaps] *)
  Section Q.
    Context {Q : Type} {IQ : InclusiveInterval I Q}.
    Implicit Type q : Q.

    Lemma cut_interval_left k q : lo q <= hi q -> lo k <= hi k -> hi k < lo q ->
      cut_interval k q = Val (mkCut (Some (mkInterval (istart k) (iend k))) None None).
    Proof.
      intros Vq Vk L. unfold cut_interval, cut_interval_raw, config.
      rewrite !utils_contains_point_rk, ltb_rk, <- !lo_rk, <- !hi_rk.
      replace (lo k <? lo q) with true by lia.
      replace ((lo k <=? lo q) && (lo q <=? hi k)) with false by lia.
      replace ((lo k <=? hi q) && (hi q <=? hi k)) with false by lia.
      cbn [obind before_cut inside_cut after_cut]. unfold filter_valid. rewrite is_valid_rk.
      destruct (Z.leb_spec (lo (mkInterval (istart k) (iend k))) (hi (mkInterval (istart k) (iend k)))) as [|X]; [reflexivity|].
      exfalso. unfold lo, hi in *. cbn in X. lia.
    Qed.
    (** The pieces of an interval outside another, also of one that does not
        meet it. *)
    Lemma cut_any k q : lo q <= hi q -> lo k <= hi k -> exists r, cut_interval k q = Val r /\
      match before_cut r with Some b => lo b = lo k /\ hi b = Z.min (hi k) (lo q - 1) /\ lo b <= hi b | None => lo q <= lo k end /\
      match after_cut r with Some a => lo a = Z.max (lo k) (hi q + 1) /\ hi a = hi k /\ lo a <= hi a | None => hi k <= hi q end.
    Proof.
      intros Vq Vk. destruct (Z_lt_le_dec (hi k) (lo q)) as [L|L].
      - eexists. split; [apply cut_interval_left; assumption|]. cbn [before_cut after_cut]. unfold lo, hi in *. cbn. lia.
      - destruct (Z_lt_le_dec (hi q) (lo k)) as [R|R].
        + eexists. split; [apply cut_interval_right; assumption|]. cbn [before_cut after_cut]. unfold lo, hi in *. cbn. lia.
        + destruct (cut_interval_ok k q) as (r & Er & Hb & _ & Ha); try assumption. exists r. split; [exact Er|].
          destruct (before_cut r), (after_cut r); lia.
    Qed.

    Definition pieces_of (r : CutResult I) vs : store := piece_list (before_cut r) vs ++ piece_list (after_cut r) vs.
    Lemma z_pieces r vs n (pre : store) :
      z_piece (after_cut r) vs (z_piece (before_cut r) vs (n, pre)) = ((n + count (pieces_of r vs))%nat, pre ++ pieces_of r vs).
    Proof.
      unfold pieces_of, count. destruct (before_cut r), (after_cut r); cbn [z_piece piece_list app fst snd flatten flat_map length];
        rewrite ?app_nil_r, ?app_length, ?map_length, <- ?app_assoc; cbn [app]; f_equal; lia.
    Qed.
    Lemma vals_copies k vs p : vals (map (fun v => (k, v)) vs) p = if contains_point k p then vs else [].
    Proof.
      unfold vals. induction vs as [|v vs IH]; cbn [map filter fst]; [destruct (contains_point k p); reflexivity|].
      destruct (contains_point k p); [cbn [map snd]; rewrite IH; reflexivity|exact IH].
    Qed.
    Lemma pieces_of_ok k vs q r : lo q <= hi q -> lo k <= hi k -> okstore (k, vs) -> cut_interval k q = Val r ->
      ZS (pieces_of r vs) /\ Forall okstore (pieces_of r vs) /\
      (forall e, In e (pieces_of r vs) -> lo k <= elo e /\ ehi e <= hi k) /\
      (forall p, ~ covers q p -> vals (flatten (pieces_of r vs)) p = vals (map (fun v => (k, v)) vs) p) /\
      (forall p, incl (vals (flatten (pieces_of r vs)) p) (vals (map (fun v => (k, v)) vs) p)).
    Proof.
      intros Vq Vk [On Os] E. destruct (cut_any k q Vq Vk) as (r' & E' & Hb & Ha). rewrite E in E'. injection E' as <-. cbn [snd] in On, Os.
      assert (P : forall x : Interval I, lo x <= hi x -> lo (ifrom x : K) = lo x /\ hi (ifrom x : K) = hi x).
      { intros x Hx. rewrite from_lo, from_hi by exact Hx. auto. }
      assert (Ok1 : forall x : K, lo k <= lo x -> hi x <= hi k -> okstore (x, vs)).
      { intros x L1 L2. split; [exact On|]. cbn [snd]. intros L. apply Os. unfold elo, ehi in *. cbn in *. lia. }
      unfold pieces_of. destruct (before_cut r) as [b|], (after_cut r) as [a|]; cbn [piece_list app].
      - destruct Hb as (B1 & B2 & B3), Ha as (A1 & A2 & A3). destruct (P b B3) as [Pb1 Pb2]. destruct (P a A3) as [Pa1 Pa2].
        split; [apply ZS_cons; unfold elo, ehi; cbn [fst]; split; [lia|]; split; [apply ZS_cons; unfold elo, ehi; cbn [fst]; split; [lia|]; split; [apply ZS_nil|apply Forall_nil]|]|].
        { apply Forall_cons; [cbn [fst]; lia|apply Forall_nil]. }
        split; [apply Forall_cons; [apply Ok1; lia|apply Forall_cons; [apply Ok1; lia|apply Forall_nil]]|].
        split; [intros e [<-|[<-|[]]]; unfold elo, ehi; cbn [fst]; lia|].
        split; intros p; rewrite !flatten_cons, !vals_app, !vals_copies, !contains_point_rk, Pb1, Pb2, Pa1, Pa2; cbn [flatten flat_map]; unfold vals at 1; cbn [filter map]; rewrite ?app_nil_r.
        + rewrite covers_rk. intros Nq.
          destruct ((lo k <=? rk p) && (rk p <=? hi k)) eqn:Ek.
          * destruct (Z_lt_le_dec (rk p) (lo q)).
            -- replace ((lo b <=? rk p) && (rk p <=? hi b)) with true by lia. replace ((lo a <=? rk p) && (rk p <=? hi a)) with false by lia. apply app_nil_r.
            -- replace ((lo b <=? rk p) && (rk p <=? hi b)) with false by lia. replace ((lo a <=? rk p) && (rk p <=? hi a)) with true by lia. reflexivity.
          * replace ((lo b <=? rk p) && (rk p <=? hi b)) with false by lia. replace ((lo a <=? rk p) && (rk p <=? hi a)) with false by lia. reflexivity.
        + intros x Hx. apply in_app_iff in Hx. destruct ((lo k <=? rk p) && (rk p <=? hi k)) eqn:Ek.
          * destruct Hx as [Hx|Hx]; [destruct ((lo b <=? rk p) && (rk p <=? hi b)); [exact Hx|destruct Hx]|destruct ((lo a <=? rk p) && (rk p <=? hi a)); [exact Hx|destruct Hx]].
          * replace ((lo b <=? rk p) && (rk p <=? hi b)) with false in Hx by lia. replace ((lo a <=? rk p) && (rk p <=? hi a)) with false in Hx by lia. destruct Hx as [[]|[]].
      - destruct Hb as (B1 & B2 & B3). destruct (P b B3) as [Pb1 Pb2].
        split; [apply ZS_cons; unfold elo, ehi; cbn [fst]; split; [lia|]; split; [apply ZS_nil|apply Forall_nil]|].
        split; [apply Forall_cons; [apply Ok1; lia|apply Forall_nil]|].
        split; [intros e [<-|[]]; unfold elo, ehi; cbn [fst]; lia|].
        split; intros p; rewrite !flatten_cons, !vals_app, !vals_copies, !contains_point_rk, Pb1, Pb2; cbn [flatten flat_map]; unfold vals at 1; cbn [filter map]; rewrite ?app_nil_r.
        + rewrite covers_rk. intros Nq. replace ((lo b <=? rk p) && (rk p <=? hi b)) with ((lo k <=? rk p) && (rk p <=? hi k)) by lia. reflexivity.
        + intros x Hx. destruct ((lo b <=? rk p) && (rk p <=? hi b)) eqn:Eb; [|destruct Hx].
          replace ((lo k <=? rk p) && (rk p <=? hi k)) with true by lia. exact Hx.
      - destruct Ha as (A1 & A2 & A3). destruct (P a A3) as [Pa1 Pa2].
        split; [apply ZS_cons; unfold elo, ehi; cbn [fst]; split; [lia|]; split; [apply ZS_nil|apply Forall_nil]|].
        split; [apply Forall_cons; [apply Ok1; lia|apply Forall_nil]|].
        split; [intros e [<-|[]]; unfold elo, ehi; cbn [fst]; lia|].
        split; intros p; rewrite !flatten_cons, !vals_app, !vals_copies, !contains_point_rk, Pa1, Pa2; cbn [flatten flat_map]; unfold vals at 1; cbn [filter map]; rewrite ?app_nil_r.
        + rewrite covers_rk. intros Nq. replace ((lo a <=? rk p) && (rk p <=? hi a)) with ((lo k <=? rk p) && (rk p <=? hi k)) by lia. reflexivity.
        + intros x Hx. destruct ((lo a <=? rk p) && (rk p <=? hi a)) eqn:Eb; [|destruct Hx].
          replace ((lo k <=? rk p) && (rk p <=? hi k)) with true by lia. exact Hx.
      - split; [apply ZS_nil|]. split; [apply Forall_nil|]. split; [intros e []|].
        split; intros p; [|intros x []]. rewrite covers_rk, vals_copies, contains_point_rk. intros Nq.
        replace ((lo k <=? rk p) && (rk p <=? hi k)) with false by lia. reflexivity.
    Qed.

    (** The values at points outside [q] stay, in order, and no point gets a
        value it did not have. *)
    Definition zkept q (l l' : store) : Prop :=
      (forall p, ~ covers q p -> vals (flatten l') p = vals (flatten l) p) /\
      (forall p, incl (vals (flatten l') p) (vals (flatten l) p)).
    Lemma zkept_refl q l : zkept q l l.
    Proof. split; [reflexivity|intros p; apply incl_refl]. Qed.
    Lemma zkept_trans q l1 l2 l3 : zkept q l1 l2 -> zkept q l2 l3 -> zkept q l1 l3.
    Proof. intros [A1 A2] [B1 B2]. split; [intros p Np; rewrite B1, A1 by exact Np; reflexivity|]. intros p x Hx. apply A2, B2, Hx. Qed.

    Lemma zcut_step q k vs r n (pre rest : store) : lo q <= hi q -> cut_interval k q = Val r ->
      ZWF (mkZosdit n (pre ++ (k, vs) :: rest)) ->
      (length vs <= n + count (pieces_of r vs))%nat /\
      ZWF (mkZosdit (n + count (pieces_of r vs) - length vs) ((pre ++ pieces_of r vs) ++ rest)) /\
      zkept q (pre ++ (k, vs) :: rest) ((pre ++ pieces_of r vs) ++ rest).
    Proof.
      intros Vq E (W & Ok & Len). cbn [z_inner z_len] in *.
      pose proof W as W'. apply ZS_app in W'. destruct W' as (W1 & W2 & W3). apply ZS_cons in W2. destruct W2 as (W4 & W5 & W6).
      apply Forall_app in Ok. destruct Ok as [Ok1 Ok2]. apply Forall_cons_iff in Ok2. destruct Ok2 as [Okk Ok2].
      destruct (pieces_of_ok k vs q r Vq W4 Okk E) as (P1 & P2 & P3 & P4 & P5).
      unfold count in Len. rewrite flatten_app, flatten_cons, !app_length, map_length in Len.
      rewrite <- app_assoc. split; [lia|]. split; [split; [|split]|split]; cbn [z_inner z_len].
      - apply ZS_app. split; [exact W1|]. split; [apply ZS_app; split; [exact P1|]; split; [exact W5|]|].
        + intros x y Hx Hy. rewrite Forall_forall in W6. specialize (W6 y Hy). destruct (P3 x Hx). unfold elo, ehi in *. cbn [fst] in *. lia.
        + intros x y Hx Hy. apply in_app_iff in Hy. destruct Hy as [Hy|Hy].
          * specialize (W3 x (k, vs) Hx (or_introl eq_refl)). destruct (P3 y Hy). unfold elo, ehi in *. cbn [fst] in *. lia.
          * apply W3; [exact Hx|right; exact Hy].
      - rewrite !Forall_app. auto.
      - unfold count. rewrite !flatten_app, !app_length. unfold count. lia.
      - intros p Np. rewrite !flatten_app, flatten_cons, !vals_app, P4 by exact Np. reflexivity.
      - intros p x. rewrite !flatten_app, flatten_cons, !vals_app, !in_app_iff. intros [Hx|[Hx|Hx]]; auto. right. left. apply P5, Hx.
    Qed.

    Lemma zcut_loop_any (over : K -> Q -> outcome bool) q n (pre post : store) acc : lo q <= hi q -> ZWF (mkZosdit n (pre ++ post)) ->
      ZWF (fst (zosdit_cut_loop_o over q n pre post acc)) /\
      zkept q (pre ++ post) (z_inner (fst (zosdit_cut_loop_o over q n pre post acc))).
    Proof.
      intros Vq. revert n pre acc. induction post as [|[k vs] post IH]; intros n pre acc W; cbn [zosdit_cut_loop_o];
        [cbn [fst z_inner]; split; [exact W|apply zkept_refl]|].
      destruct (over k q) as [[|]|]; cbn [fst z_inner]; [|split; [exact W|apply zkept_refl]..].
      assert (Vk : lo k <= hi k). { apply (ZS_okv _ (k, vs) (proj1 W)). apply in_app_iff. right. left. reflexivity. }
      destruct (cut_any k q Vq Vk) as (r & E & _ & _). rewrite E. rewrite z_pieces.
      destruct (zcut_step q k vs r n pre post Vq E W) as (L & W' & Kp).
      destruct (Nat.ltb_spec (n + count (pieces_of r vs)) (length vs)) as [L'|_]; [lia|].
      destruct (IH _ (pre ++ pieces_of r vs) acc W') as [I1 I2].
      destruct (inside_cut r) as [i|].
      - destruct (IH _ (pre ++ pieces_of r vs) (acc ++ map (fun v => (ifrom i, v)) vs) W') as [I3 I4].
        split; [exact I3|exact (zkept_trans _ _ _ _ Kp I4)].
      - destruct vs as [|v vs]; [split; [exact I1|exact (zkept_trans _ _ _ _ Kp I2)]|]. cbn [fst z_inner]. auto.
    Qed.
    Lemma zcut_o_any qv (over : K -> Q -> outcome bool) q z : ZWF z -> sound_valid qv ->
      ZWF (fst (zosdit_cut_o qv over q z)) /\ zkept q (z_inner z) (z_inner (fst (zosdit_cut_o qv over q z))).
    Proof.
      intros W Hv. unfold zosdit_cut_o. destruct (iip_o_sound qv q Hv) as [->|[E Vq]]; [cbn [fst]; split; [exact W|apply zkept_refl]|]. rewrite E.
      change (match cursor_key (upper_bound (exclusive_comp (istart q) Lt) (z_inner z)) with
              | Some _ => upper_bound (exclusive_comp (istart q) Lt) (z_inner z)
              | None => move_next (upper_bound (exclusive_comp (istart q) Lt) (z_inner z)) end) with (zstart q z).
      pose proof (zstart_join q z) as J. rewrite <- J. apply zcut_loop_any; [apply valid_rk, Vq|]. rewrite J. destruct z. exact W.
    Qed.

    (** A call that returns does what the modelled one does. *)
    Lemma zcut_loop_val (over : K -> Q -> outcome bool) q n (pre post : store) acc z' l : lo q <= hi q -> misses_none over ->
      Forall okstore post -> Forall okv post ->
      zosdit_cut_loop_o over q n pre post acc = (z', Val l) -> zosdit_cut_loop q n pre post acc = (z', Val l).
    Proof.
      intros Vq Ho. revert n pre acc. induction post as [|[k vs] post IH]; intros n pre acc Ok Vp; cbn [zosdit_cut_loop_o zosdit_cut_loop]; [exact (fun X => X)|].
      apply Forall_cons_iff in Ok. destruct Ok as [[On _] Ok]. apply Forall_cons_iff in Vp. destruct Vp as [Vk Vp]. unfold okv, elo, ehi in Vk. cbn in Vk, On.
      rewrite overlaps_true by assumption.
      destruct ((lo k <=? hi q) && (lo q <=? hi k)) eqn:Eo.
      - assert (O : overlap k q) by (apply overlap_rk; lia).
        pose proof (Ho k q (proj2 (valid_rk k) Vk) (proj2 (valid_rk q) Vq) O) as Nf.
        destruct (over k q) as [[|]|]; [|contradiction|discriminate].
        destruct (cut_interval k q) as [r|]; [|exact (fun X => X)]. rewrite !z_pieces.
        destruct (Nat.ltb _ _); [exact (fun X => X)|]. destruct (inside_cut r); [apply IH; assumption|].
        destruct vs; [apply IH; assumption|exact (fun X => X)].
      - destruct (over k q) as [[|]|]; [|exact (fun X => X)|discriminate].
        assert (En : exists r, cut_interval k q = Val r /\ inside_cut r = None).
        { destruct (Z_lt_le_dec (hi k) (lo q)) as [L|L]; [eexists; split; [apply cut_interval_left; assumption|reflexivity]|].
          eexists; split; [apply cut_interval_right; lia|reflexivity]. }
        destruct En as (r & -> & En). rewrite z_pieces, En. destruct (Nat.ltb _ _); [discriminate|]. destruct vs; [contradiction|discriminate].
    Qed.
    Lemma zcut_o_val qv (over : K -> Q -> outcome bool) q z z' l : ZWF z -> valid q -> misses_none over ->
      zosdit_cut_o qv over q z = (z', Val l) -> zosdit_cut q z = (z', Val l).
    Proof.
      intros W Vq Ho. unfold zosdit_cut_o, zosdit_cut. rewrite (iip_valid _ Vq). destruct (invalid_interval_panic_o qv q); [|discriminate].
      change (match cursor_key (upper_bound (exclusive_comp (istart q) Lt) (z_inner z)) with
              | Some _ => upper_bound (exclusive_comp (istart q) Lt) (z_inner z)
              | None => move_next (upper_bound (exclusive_comp (istart q) Lt) (z_inner z)) end) with (zstart q z).
      pose proof (zstart_join q z) as J. destruct W as (W & Ok & _). rewrite <- J in W, Ok. apply ZS_app in W. destruct W as (_ & [_ W] & _).
      apply Forall_app in Ok. destruct Ok as [_ Ok]. apply zcut_loop_val; try assumption. apply valid_rk, Vq.
    Qed.
    Lemma zcut_loop_agree (over : K -> Q -> outcome bool) q n (pre post : store) acc : valid q -> agrees_overlaps over -> Forall okv post ->
      zosdit_cut_loop_o over q n pre post acc = zosdit_cut_loop q n pre post acc.
    Proof.
      intros Vq Ho. revert n pre acc. induction post as [|[k vs] post IH]; intros n pre acc Vp; cbn [zosdit_cut_loop_o zosdit_cut_loop]; [reflexivity|].
      apply Forall_cons_iff in Vp. destruct Vp as [Vk Vp].
      rewrite (overlaps_agree over k q Ho); [|apply valid_rk, Vk|exact Vq].
      destruct (overlaps k q) as [[|]|]; [|reflexivity..]. destruct (cut_interval k q) as [r|]; [|reflexivity]. rewrite z_pieces.
      destruct (Nat.ltb _ _); [reflexivity|]. destruct (inside_cut r); [apply IH, Vp|]. destruct vs; [apply IH, Vp|reflexivity].
    Qed.
    Lemma zcut_o_agree qv (over : K -> Q -> outcome bool) q z : ZWF z -> agrees_valid qv -> agrees_overlaps over ->
      zosdit_cut_o qv over q z = zosdit_cut q z.
    Proof.
      intros W Hv Ho. unfold zosdit_cut_o, zosdit_cut. rewrite iip_o_agree by exact Hv.
      destruct (invalid_interval_panic q) as [u|] eqn:E; [|reflexivity].
      change (match cursor_key (upper_bound (exclusive_comp (istart q) Lt) (z_inner z)) with
              | Some _ => upper_bound (exclusive_comp (istart q) Lt) (z_inner z)
              | None => move_next (upper_bound (exclusive_comp (istart q) Lt) (z_inner z)) end) with (zstart q z).
      pose proof (zstart_join q z) as J. destruct W as (W & _ & _). rewrite <- J in W. apply ZS_app in W. destruct W as (_ & [_ W] & _).
      apply zcut_loop_agree; try assumption. destruct (valid_dec q) as [Vq|Vq]; [exact Vq|]. rewrite (iip_invalid _ Vq) in E. discriminate.
    Qed.
    Lemma is_zero_overlap_o_agree qv z q : agrees_valid qv -> is_zero_overlap_o qv z q = is_zero_overlap z q.
    Proof. intros Hv. unfold is_zero_overlap_o, is_zero_overlap. rewrite iip_o_agree by exact Hv. reflexivity. Qed.
    Lemma overlapping_zo_agree qv z q : agrees_valid qv -> zosdit_overlapping_o qv z q = zosdit_overlapping z q.
    Proof. intros Hv. unfold zosdit_overlapping_o, zosdit_overlapping. rewrite iip_o_agree by exact Hv. reflexivity. Qed.
  End Q.

  Lemma zstep_o_ZWF kv kc z (o : zop_o I K V) : sound_valid kv -> ZWF z -> safe_zquery o -> ZWF (zstep_o kv kc z o).
  Proof.
    intros Hv W Hs. destruct o as [|k v|p|Q IQ qv over q|l]; cbn [zstep_o].
    - apply new_ZWF.
    - destruct (insert_back_o_sound kv k v z Hv) as [->| ->]; [exact W|apply insert_ZWF, W].
    - destruct (remove_last_o_any kc z p W) as [(-> & _)|(z' & l1 & k & v & l2 & -> & _ & W' & _)]; assumption.
    - apply zcut_o_any; assumption.
    - destruct (extend_strict_back_o kv l z_new) as [[z'|e]|] eqn:E; [|exact W..]. exact (extend_back_o_ZWF kv l z_new z' Hv new_ZWF E).
  Qed.
  Lemma zrun_o_ZWF kv kc (os : list (zop_o I K V)) : sound_valid kv -> Forall safe_zquery os -> ZWF (zrun_o kv kc os).
  Proof.
    intros Hv. induction os as [|o os IH] using rev_ind; intros Hs; [apply new_ZWF|].
    unfold zrun_o. rewrite fold_left_app. cbn [fold_left]. apply Forall_app in Hs. destruct Hs as [Hs Ho]. inversion Ho; subst.
    apply zstep_o_ZWF; [exact Hv|apply IH, Hs|assumption].
  Qed.
End Facts.
