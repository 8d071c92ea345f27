(** * CloneZosditExact: which values [ZosditMap::cut] clones (C115). *)
From Coq Require Import List ZArith Bool Lia ZifyBool Sorting.Sorted.
From Verif Require Import Base BTree UtilsModel IntervalModel NoditModel NoditOps NoditSetOps ZosditModel ZosditOps CloneModel CloneOps
  Spec PointFacts IntervalFacts ListFacts NoditFacts NoditNatural ZosditFacts ZosditMut ZosditProofs CloneFacts CloneZosdit.
Import ListNotations.
Open Scope Z_scope.

Section Exact.
  Context {I : Type} {OI : Ord I} {DI : DiscreteFinite I} {PL : PointLaws I}.
  Context {K : Type} {IK : InclusiveInterval I K} {IL : IntervalLaws I K}.
  Context {V W : Type} (clone : W -> V -> V * W).
  Notation store := (BTreeMap K (list V)).

  Definition clones_if (b : bool) (vs : list V) (w : W) : list V * W := if b then clone_all clone w vs else ([], w).
  Fixpoint zpieces_w (a b : Z) (M : store) (w : W) : list V * W :=
    match M with
    | [] => ([], w)
    | e :: M => let (x, w) := clones_if (elo e <? a) (snd e) w in
                let (y, w) := clones_if (b <? ehi e) (snd e) w in
                let (r, w) := zpieces_w a b M w in (x ++ y ++ r, w)
    end.
  (** All the values of the groups chosen by [f]. *)
  Definition of_groups (f : K * list V -> bool) (M : store) : list (K * V) := flatten (filter f M).
  Lemma map_snd_flatten_cons (k : K) vs (M : store) : map snd (flatten ((k, vs) :: M)) = vs ++ map snd (flatten M).
  Proof. rewrite flatten_cons, map_app, map_map, map_id. reflexivity. Qed.

  Lemma zpieces_w_late a b M w : Forall (fun e => a <= elo e) M ->
    zpieces_w a b M w = clone_all clone w (map snd (of_groups (fun e => b <? ehi e) M)).
  Proof.
    intros F. revert w. unfold of_groups. induction F as [|[k vs] M Fe F IH]; intros w; cbn [zpieces_w filter]; [reflexivity|].
    replace (elo (k, vs) <? a) with false by lia. unfold clones_if at 1. cbn [snd]. destruct (b <? ehi (k, vs)).
    - unfold clones_if. rewrite map_snd_flatten_cons, clone_all_app. destruct (clone_all clone w vs) as [x w1]. rewrite IH.
      destruct (clone_all clone w1 _) as [y w2]. reflexivity.
    - unfold clones_if. rewrite IH. destruct (clone_all clone w _) as [y w2]. reflexivity.
  Qed.
  Lemma zpieces_w_exact a b M w : ZS M -> Forall okstore M -> Forall (meets a b) M -> a <= b ->
    zpieces_w a b M w = clone_all clone w (map snd (of_groups (fun e => elo e <? a) M) ++ map snd (of_groups (fun e => b <? ehi e) M)) /\
    (length (of_groups (fun e => (elo e <? a)%Z) M) <= 1)%nat /\ (length (of_groups (fun e => (b <? ehi e)%Z) M) <= 1)%nat.
  Proof.
    intros Wf Ok F Lab. rewrite clone_all_app. destruct M as [|[k vs] M]; [cbn; auto|]. cbn [zpieces_w]. unfold of_groups. cbn [filter]. pose proof Wf as Wf'. apply ZS_cons in Wf. destruct Wf as (Ve & Wf & Hl).
    pose proof F as F'. apply Forall_cons_iff in F. destruct F as [Fe F]. pose proof Ok as Ok'. apply Forall_cons_iff in Ok. destruct Ok as [[_ Ok1] Ok]. cbn [snd] in *.
    assert (L : Forall (fun x => a <= elo x) M). { rewrite Forall_forall in *. intros x Hx. specialize (Hl x Hx). unfold meets in *. lia. }
    assert (T : forall w, zpieces_w a b M w = clone_all clone w (map snd (of_groups (fun e => b <? ehi e) M))) by (intros u; apply zpieces_w_late, L).
    assert (N : filter (fun x => elo x <? a) M = []). { clear - L. induction L as [|x M Hx L IH]; [reflexivity|]. cbn. replace (elo x <? a) with false by lia. exact IH. }
    rewrite N.
    assert (S1 : (length (of_groups (fun x => (b <? ehi x)%Z) ((k, vs) :: M)) <= 1)%nat).
    { revert Wf' F' Ok'. unfold of_groups. generalize ((k, vs) :: M). clear - Lab. intros M. induction M as [|[k vs] M IH]; intros Wx F Ok; cbn [filter]; [cbn; lia|].
      apply ZS_cons in Wx. destruct Wx as (Vx & Wx & Hl). apply Forall_cons_iff in F. destruct F as [Fx F]. apply Forall_cons_iff in Ok. destruct Ok as [[_ O1] Ok].
      destruct (b <? ehi (k, vs)) eqn:E; [|apply IH; assumption].
      assert (M = []) as ->. { destruct M as [|y M]; [reflexivity|]. apply Forall_inv in Hl, F. unfold meets in *. lia. }
      destruct (Z_lt_le_dec (elo (k, vs)) (ehi (k, vs))) as [G|G]; [|unfold meets in *; lia]. destruct (O1 G) as [v O]. cbn in O. subst vs. cbn. lia. }
    split; [|split; [|exact S1]].
    - destruct M as [|y M].
      + cbn [filter zpieces_w snd]. unfold clones_if. destruct (elo (k, vs) <? a), (b <? ehi (k, vs)); rewrite ?map_snd_flatten_cons; cbn [flatten flat_map map]; rewrite ?app_nil_r; cbn [clone_all].
        * destruct (clone_all clone w vs) as [v1 w1]. destruct (clone_all clone w1 vs) as [v2 w2]. rewrite app_nil_r. reflexivity.
        * destruct (clone_all clone w vs) as [v1 w1]. rewrite !app_nil_r. reflexivity.
        * destruct (clone_all clone w vs) as [v1 w1]. rewrite app_nil_r. reflexivity.
        * reflexivity.
      + assert (E : b <? ehi (k, vs) = false). { apply Forall_inv in Hl, F. unfold meets in *. lia. } rewrite E. unfold clones_if.
        cbn [snd]. destruct (elo (k, vs) <? a); rewrite ?map_snd_flatten_cons; cbn [flatten flat_map map clone_all]; rewrite ?app_nil_r;
          try (destruct (clone_all clone w vs) as [v1 w1]); rewrite T; unfold of_groups; destruct (clone_all clone _ _) as [r w2]; reflexivity.
    - destruct (elo (k, vs) <? a) eqn:E; [|cbn; lia].
      destruct (Z_lt_le_dec (elo (k, vs)) (ehi (k, vs))) as [G|G]; [|unfold meets in *; lia]. destruct (Ok1 G) as [v O]. cbn in O. subst vs. cbn. lia.
  Qed.

  Section Q.
    Context {Q : Type} {IQ : InclusiveInterval I Q}.
    Lemma z_piece_w_values (p : option (Interval I)) vs n (pre : store) w (b : bool) : (if b then p <> None else p = None) ->
      exists n' o, fst (z_piece_w clone p vs (n, pre) w) = (n', pre ++ o) /\ (n <= n')%nat /\
        (map snd (flatten o), snd (z_piece_w clone p vs (n, pre) w)) = clones_if b vs w.
    Proof.
      intros Hb. destruct p as [i|], b; try (exfalso; congruence).
      - cbn. destruct (clone_all clone w vs) as [vs' w1]. exists (n + length vs)%nat, [(ifrom i, vs')]. cbn. rewrite app_nil_r, map_map, map_id. repeat split. lia.
      - exists n, []. rewrite app_nil_r. auto.
    Qed.
    Lemma zcut_loop_w_values (q : Q) M B : lo q <= hi q -> Forall okv M -> Forall okv B -> Forall (meets (lo q) (hi q)) M ->
      match B with [] => True | e :: _ => ~ meets (lo q) (hi q) e end ->
      forall n pre acc w, (count M <= n)%nat -> exists n' out,
        fst (zosdit_cut_loop_w clone q n pre (M ++ B) acc w) = (mkZosdit n' (pre ++ out ++ B), Val (acc ++ flat_map (zinside q) M)) /\
        (map snd (flatten out), snd (zosdit_cut_loop_w clone q n pre (M ++ B) acc w)) = zpieces_w (lo q) (hi q) M w.
    Proof.
      intros Vq VM VB HM HB. induction M as [|[k vs] M IH]; intros n pre acc w Hn.
      - exists n, []. cbn [app flat_map zpieces_w]. rewrite app_nil_r. destruct B as [|[k vs] B]; [auto|]. cbn [zosdit_cut_loop_w]. apply Forall_inv in VB. unfold meets, okv, elo, ehi in *. cbn [fst] in *.
        rewrite overlaps_true by lia. replace (_ && _) with false by lia. auto.
      - cbn [app zosdit_cut_loop_w]. apply Forall_cons_iff in HM. destruct HM as [Hk HM]. apply Forall_cons_iff in VM. destruct VM as [Vk VM]. unfold meets, okv, elo, ehi in Hk, Vk. cbn [fst] in *.
        rewrite overlaps_true by lia. replace (_ && _) with true by lia.
        destruct (cut_interval_ok k q) as (r & Er & Hb & (i & Ei & Hil & Hih) & Ha); try lia.
        rewrite Er, Ei. cbn [zpieces_w]. unfold elo at 1, ehi at 1. cbn [fst snd].
        unfold count in Hn. rewrite flatten_cons, app_length, map_length in Hn.
        destruct (z_piece_w_values (before_cut r) vs n pre w (lo k <? lo q)) as (n1 & o1 & E1 & L1 & C1).
        { destruct (before_cut r); [replace (lo k <? lo q) with true by lia; discriminate|replace (lo k <? lo q) with false by lia; reflexivity]. }
        match goal with |- context [z_piece_w clone (before_cut r) vs ?s w] => destruct (z_piece_w clone (before_cut r) vs s w) as [s1 w1] end.
        cbn [fst snd] in *. subst s1. rewrite <- C1.
        match goal with |- context [z_piece_w clone (after_cut r) vs ?s w1] =>
          assert (X2 : exists n2 o2, fst (z_piece_w clone (after_cut r) vs s w1) = (n2, (pre ++ o1) ++ o2) /\ (n1 <= n2)%nat /\
            (map snd (flatten o2), snd (z_piece_w clone (after_cut r) vs s w1)) = clones_if (hi q <? hi k) vs w1) end.
        { apply (z_piece_w_values (after_cut r) vs n1 (pre ++ o1) w1). destruct (after_cut r); [replace (hi q <? hi k) with true by lia; discriminate|replace (hi q <? hi k) with false by lia; reflexivity]. }
        destruct X2 as (n2 & o2 & E2 & L2 & C2).
        match goal with |- context [z_piece_w clone (after_cut r) vs ?s w1] => destruct (z_piece_w clone (after_cut r) vs s w1) as [s2 w2] end.
        cbn [fst snd] in *. subst s2. rewrite <- C2.
        destruct (Nat.ltb_spec n2 (length vs)) as [L|L]; [lia|].
        destruct (IH VM HM (n2 - length vs)%nat ((pre ++ o1) ++ o2) (acc ++ map (fun v => (ifrom i, v)) vs) w2) as (n' & o3 & E3 & C3); [unfold count; lia|].
        exists n', (o1 ++ o2 ++ o3). split.
        + etransitivity; [exact E3|]. cbn [flat_map]. unfold zinside at 2. cbn [fst snd]. rewrite Er, Ei, <- !app_assoc. reflexivity.
        + rewrite !flatten_app, !map_app, <- C3. reflexivity.
    Qed.

    Lemma zcursor_parts (q : Q) (l : store) :
      let c := upper_bound (exclusive_comp (istart q) Lt) l in
      let c := match cursor_key c with None => move_next c | Some _ => c end in fst c ++ snd c = l.
    Proof.
      cbv zeta. assert (E : cursor_map (upper_bound (exclusive_comp (istart q) Lt) l) = l).
      { unfold upper_bound. 
        assert (S : cursor_map (seek (exclusive_comp (istart q) Lt) l) = l).
        { induction l as [|[k vs] l IH]; [reflexivity|]. cbn [seek]. destruct (exclusive_comp (istart q) Lt k); try reflexivity.
          destruct (seek _ l) as [a b]. unfold cursor_map in *. cbn in *. rewrite IH. reflexivity. }
        destruct (seek _ l) as [a b].
        assert (P : cursor_map (move_prev (a, b)) = l).
        { unfold move_prev, cursor_map in *. cbn [fst snd] in *. destruct (snoc_cases a) as [->|(a' & x & ->)]; [cbn in *; rewrite app_nil_r; exact S|].
          rewrite rev_app_distr. cbn. rewrite rev_involutive. cbn in S. rewrite <- app_assoc in S. exact S. }
        destruct b as [|[k v] b]; [exact P|]. destruct (exclusive_comp (istart q) Lt k); [exact S|exact P|exact P]. }
      destruct (upper_bound _ l) as [ca [|x cb]]; unfold cursor_map in E; cbn in *; [rewrite app_nil_r in E; exact E|exact E].
    Qed.
    Lemma meets_prefix (q : Q) (l : store) : exists M B, l = M ++ B /\ Forall (meets (lo q) (hi q)) M /\
      match B with [] => True | e :: _ => ~ meets (lo q) (hi q) e end.
    Proof.
      induction l as [|e l (M & B & -> & HM & HB)]; [exists [], []; auto|].
      destruct (Z_le_dec (elo e) (hi q)) as [L1|L1], (Z_le_dec (lo q) (ehi e)) as [L2|L2];
        try (exists [], (e :: M ++ B); cbn; repeat split; auto; unfold meets; lia).
      exists (e :: M), B. repeat split; auto. constructor; [unfold meets; lia|exact HM].
    Qed.
    Lemma zinside_values (q : Q) (M : store) : lo q <= hi q -> Forall okv M -> Forall (meets (lo q) (hi q)) M -> map snd (flat_map (zinside q) M) = map snd (flatten M).
    Proof.
      intros Vq VM HM. induction M as [|[k vs] M IH]; [reflexivity|]. apply Forall_cons_iff in HM. destruct HM as [Hk HM]. apply Forall_cons_iff in VM. destruct VM as [Vk VM].
      cbn [flat_map]. rewrite map_app, map_snd_flatten_cons, IH by assumption. f_equal. unfold zinside. cbn [fst snd]. unfold meets, okv, elo, ehi in *. cbn [fst] in *.
      destruct (cut_interval_ok k q) as (r & Er & _ & (i & Ei & _) & _); try lia. rewrite Er, Ei, map_map. cbn. apply map_id.
    Qed.

    Lemma zcut_w_shape (q : Q) (z : ZosditMap K V) w : 
      map fst (zosdit_iter (fst (fst (zosdit_cut_w clone q z w)))) = map fst (zosdit_iter (fst (zosdit_cut q z))) /\
      z_len (fst (fst (zosdit_cut_w clone q z w))) = z_len (fst (zosdit_cut q z)).
    Proof.
      pose proof (zcut_w_obs (fun _ : V => tt) clone (fun _ _ => eq_refl) q z w) as E1.
      pose proof (zcut_w_obs (fun _ : V => tt) (id_clone (W := W)) (fun _ _ => eq_refl) q z w) as E2. rewrite zcut_id in E2. rewrite E1 in E2. cbn [fst] in E2.
      unfold zmapr in E2. injection E2 as L E2 _. split; [|exact L].
      assert (F : forall z : ZosditMap K V, map fst (zosdit_iter z) = map fst (flatten (mapv (map (fun _ : V => tt)) (z_inner z)))).
      { intros z0. unfold zosdit_iter. generalize (z_inner z0). intros l. induction l as [|[k vs] l IH]; [reflexivity|]. change (mapv (map (fun _ : V => tt)) ((k, vs) :: l)) with ((k, map (fun _ : V => tt) vs) :: mapv (map (fun _ : V => tt)) l).
        rewrite !flatten_cons, !map_app, !map_map, IH. reflexivity. }
      rewrite !F. f_equal. f_equal. exact E2.
    Qed.

    Lemma zcut_w_exact (q : Q) (z : ZosditMap K V) w : ZWF z -> valid q -> exists A M B out ans bs fs,
      zosdit_iter z = A ++ M ++ B /\ (M = [] \/ sub (fun e => overlap (fst e) q) (zosdit_iter z) M) /\
      snd (fst (zosdit_cut_w clone q z w)) = Val ans /\ snd (zosdit_cut q z) = Val ans /\ map snd ans = map snd M /\
      sub (fun e => sticks_out_before q (fst e)) M bs /\ sub (fun e => sticks_out_after q (fst e)) M fs /\
      (length bs <= 1)%nat /\ (length fs <= 1)%nat /\
      zosdit_iter (fst (fst (zosdit_cut_w clone q z w))) = A ++ out ++ B /\
      (map snd out, snd (zosdit_cut_w clone q z w)) = clone_all clone w (map snd bs ++ map snd fs).
    Proof.
      intros Wz Vq. pose proof Vq as Vq'. apply valid_rk in Vq'. pose proof Wz as (Ws & Hok & Hlen).
      pose proof (zcursor_parts q (z_inner z)) as Ec. cbv zeta in Ec.
      unfold zosdit_cut_w. pose proof (eq_refl (zosdit_cut q z)) as Ez. unfold zosdit_cut at 1 in Ez. rewrite (iip_valid _ Vq) in *.
      set (c := match cursor_key _ with None => _ | Some _ => _ end) in *. clearbody c. destruct c as [P R]. cbn [fst snd] in *.
      destruct (meets_prefix q R) as (M & B & -> & HM & HB). pose proof Ws as W1. rewrite <- Ec in W1. apply ZS_app in W1. destruct W1 as (WP & W1 & HPR).
      pose proof W1 as W2. apply ZS_app in W2. destruct W2 as (WM & WB & HMB). pose proof (okvs _ WM) as VM. pose proof (okvs _ WB) as VB.
      assert (Hn : (count M <= z_len z)%nat). { rewrite <- Ec in Hlen. unfold count in *. rewrite !flatten_app, !app_length in Hlen. lia. }
      assert (OkM : Forall okstore M). { rewrite <- Ec in Hok. apply Forall_app in Hok. destruct Hok as [_ Hok]. apply Forall_app in Hok. apply Hok. }
      destruct (zcut_loop_w_values q M B Vq' VM VB HM HB (z_len z) P [] w Hn) as (n' & out & E & C).
      destruct (cut_loop_spec q Vq' M B (z_len z) P [] VM VB HM HB Hn) as (n2 & E2 & _).
      destruct (zpieces_w_exact (lo q) (hi q) M w WM OkM HM Vq') as (Ep & L1 & L2).
      assert (IM : forall e, In e (flatten M) -> lo (fst e) <= hi (fst e) /\ lo (fst e) <= hi q /\ lo q <= hi (fst e)).
      { intros [k v] He. apply in_flatten in He. destruct He as (vs & He & _). rewrite Forall_forall in VM, HM. specialize (VM _ He). specialize (HM _ He). unfold okv, meets, elo, ehi in *. cbn [fst] in *. lia. }
      exists (flatten P), (flatten M), (flatten B), (flatten out), (flat_map (zinside q) M), (of_groups (fun e => elo e <? lo q) M), (of_groups (fun e => hi q <? ehi e) M).
      assert (SG : forall (P0 : K -> Prop) (f : K * list V -> bool), (forall k vs, In (k, vs) M -> (f (k, vs) = true <-> P0 k)) -> sub (fun e => P0 (fst e)) (flatten M) (of_groups f M)).
      { intros P0 f. clear. unfold of_groups. induction M as [|[k vs] M IH]; intros X; [constructor|]. cbn [filter].
        specialize (IH (fun k vs Hi => X k vs (or_intror Hi))). pose proof (X k vs (or_introl eq_refl)) as Xk. destruct (f (k, vs)).
        - rewrite !flatten_cons. apply sub_app; [|exact IH]. apply sub_all, Forall_forall. intros e He. apply in_map_iff in He. destruct He as (v & <- & _). apply Xk. reflexivity.
        - rewrite flatten_cons. apply (sub_app _ _ _ [] _); [|exact IH]. apply sub_none, Forall_forall. intros e He. apply in_map_iff in He. destruct He as (v & <- & _). intros Y. apply Xk in Y. discriminate. }
      split; [unfold zosdit_iter; rewrite <- Ec, !flatten_app; reflexivity|].
      split; [|split; [rewrite E; reflexivity|split; [rewrite <- Ez, E2; reflexivity|split; [apply zinside_values; assumption|]]]].
      - destruct (zsplit3 (z_inner z) (lo q) (hi q) Ws Vq') as (A' & M' & B' & El & HA' & HM' & HB').
        assert (OkI : forall e, In e (z_inner z) -> okv e) by (intros e He; apply (ZS_okv _ _ Ws He)).
        destruct (cut_zosdit_cases z q A' M' B' Wz Vq' El HA' HM' HB') as [(_ & n3 & E3 & _)|(_ & E3)].
        + right. assert (EMc : length (flatten M) = length (flatten M')).
          { rewrite <- Ez, E2 in E3. injection E3 as _ _ E3. cbn [app] in E3.
            assert (VM' : Forall okv M'). { rewrite Forall_forall. intros e He. apply OkI. rewrite El. apply in_app_iff. right. apply in_app_iff. left. exact He. }
            pose proof (zinside_values q M Vq' VM HM) as Y1. pose proof (zinside_values q M' Vq' VM' HM') as Y2.
            rewrite <- (map_length snd (flatten M)), <- (map_length snd (flatten M')), <- Y1, <- Y2, E3. reflexivity. }
          assert (SM : sub (fun e => overlap (fst e) q) (zosdit_iter z) (flatten M')).
          { unfold zosdit_iter. rewrite El, !flatten_app. rewrite <- (app_nil_r (flatten M')) at 2. apply (sub_app _ _ _ [] _); [|apply sub_app].
            - apply sub_none, Forall_forall. intros [k v] He Y. apply in_flatten in He. destruct He as (vs & He & _). rewrite overlap_rk in Y. rewrite Forall_forall in HA'. specialize (HA' _ He). unfold left_of, elo, ehi in *. cbn [fst] in *. lia.
            - apply sub_all, Forall_forall. intros [k v] He. apply in_flatten in He. destruct He as (vs & He & _). apply overlap_rk. rewrite Forall_forall in HM'. specialize (HM' _ He).
              assert (Ok : okv (k, vs)) by (apply OkI; rewrite El; apply in_app_iff; right; apply in_app_iff; left; exact He). unfold okv, meets, elo, ehi in *. cbn [fst] in *. lia.
            - apply sub_none, Forall_forall. intros [k v] He Y. apply in_flatten in He. destruct He as (vs & He & _). rewrite overlap_rk in Y. rewrite Forall_forall in HB'. specialize (HB' _ He). unfold right_of, elo, ehi in *. cbn [fst] in *. lia. }
          assert (S2 : exists X Y, sub (fun e => overlap (fst e) q) (flatten P) X /\ sub (fun e => overlap (fst e) q) (flatten B) Y).
          { assert (G : forall l : list (K * V), exists X, sub (fun e => overlap (fst e) q) l X).
            { clear - PL IL. induction l as [|e l (X & IH)]; [exists []; constructor|].
              destruct (Z_le_dec (lo (fst e)) (hi (fst e))) as [V1|V1], (Z_le_dec (lo q) (hi q)) as [V2|V2], (Z_le_dec (lo (fst e)) (hi q)) as [V3|V3], (Z_le_dec (lo q) (hi (fst e))) as [V4|V4];
                try (exists X; apply sub_drop; [intros Y; apply overlap_rk in Y; lia|exact IH]).
              exists (e :: X). apply sub_keep; [apply overlap_rk; lia|exact IH]. }
            destruct (G (flatten P)) as (X & HX), (G (flatten B)) as (Y & HY). exists X, Y. auto. }
          destruct S2 as (X & Y & SX & SY).
          assert (SMf : sub (fun e => overlap (fst e) q) (flatten M) (flatten M)).
          { apply sub_all, Forall_forall. intros e He. specialize (IM e He). apply overlap_rk. lia. }
          assert (ST : sub (fun e => overlap (fst e) q) (zosdit_iter z) (X ++ flatten M ++ Y)).
          { unfold zosdit_iter. rewrite <- Ec, !flatten_app. apply sub_app; [exact SX|]. apply sub_app; [exact SMf|exact SY]. }
          pose proof (sub_unique _ _ _ _ SM ST) as EU. 
          assert (X = []) as ->. { apply (f_equal (@length _)) in EU. rewrite !app_length in EU. destruct X; [reflexivity|cbn in EU; lia]. }
          assert (Y = []) as ->. { apply (f_equal (@length _)) in EU. rewrite !app_length in EU. destruct Y; [reflexivity|cbn in EU; lia]. }
          exact (eq_ind _ (fun t => sub _ _ t) ST _ (app_nil_r _)).
        + left. rewrite <- Ez, E2 in E3. injection E3 as _ E3. cbn [app] in E3. pose proof (zinside_values q M Vq' VM HM) as Y. rewrite E3 in Y. destruct (flatten M); [reflexivity|discriminate].
      - split; [|split; [|split; [exact L1|split; [exact L2|split]]]].
        + apply SG. intros k vs Hk. rewrite Forall_forall in VM, HM. specialize (VM _ Hk). specialize (HM _ Hk). unfold okv, meets, elo, ehi in *. cbn [fst] in *.
          rewrite sticks_before_rk by assumption. lia.
        + apply SG. intros k vs Hk. rewrite Forall_forall in VM, HM. specialize (VM _ Hk). specialize (HM _ Hk). unfold okv, meets, elo, ehi in *. cbn [fst] in *.
          rewrite sticks_after_rk by assumption. lia.
        + rewrite E. unfold zosdit_iter. cbn [fst z_inner]. rewrite !flatten_app. reflexivity.
        + rewrite C. exact Ep.
    Qed.
  End Q.
End Exact.
