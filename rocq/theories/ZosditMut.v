(** * ZosditMut: [get_last_value_at_point], [remove_last_value_at_point] and
      [cut] on a sorted ZosditMap. *)
From Coq Require Import List ZArith Bool Lia ZifyBool Sorting.Sorted Permutation.
From Verif Require Import Base BTree UtilsModel IntervalModel NoditModel ZosditModel Spec ZosditOps
  PointFacts IntervalFacts ListFacts NoditFacts NoditQueries NoditGaps NoditMutations IntervalProofs ZosditFacts.
Import ListNotations.
Open Scope Z_scope.

Section Mut.
  Context {I : Type} `{PL : PointLaws I}.
  Context {K : Type} {IK : InclusiveInterval I K} {IL : IntervalLaws I K}.
  Context {V : Type}.
  Notation store := (BTreeMap K (list V)).
  Implicit Types (z : ZosditMap K V) (l A M B : store) (k : K) (v : V) (vs : list V).

  Lemma vec_pop_snoc vs v : vec_pop (vs ++ [v]) = Some (v, vs).
  Proof. unfold vec_pop. rewrite rev_app_distr. cbn. rewrite rev_involutive. reflexivity. Qed.
  Lemma vec_last_snoc vs v : vec_last (vs ++ [v]) = Some v.
  Proof.
    induction vs as [|a vs IH]; [reflexivity|]. cbn [app vec_last]. destruct (vs ++ [v]) eqn:E; [destruct vs; discriminate|exact IH].
  Qed.

  (** The entry the cursor ends on. *)
  Lemma last_value_cursor_cases z p : ZWF z ->
    (exists A k v B, z_inner z = A ++ (k, [v]) :: B /\ last_value_cursor z p = (A, (k, [v]) :: B) /\
       Forall (fun e => ehi e <= rk p) A /\ lo k <= rk p < hi k /\ Forall (fun e => rk p < elo e) B) \/
    (exists A k vs v, z_inner z = A ++ [(k, vs ++ [v])] /\ last_value_cursor z p = (A, [(k, vs ++ [v])]) /\
       hi k = rk p /\ Forall (fun e => ehi e <= rk p) A) \/
    (z_inner z = [] /\ last_value_cursor z p = ([], [])) \/
    (exists A k vs B, z_inner z = A ++ (k, vs) :: B /\ last_value_cursor z p = (A, (k, vs) :: B) /\
       Forall (fun e => ehi e <= rk p) A /\ (rk p < lo k \/ (hi k < rk p /\ B = []))).
  Proof.
    intros (W & Hok & _). unfold last_value_cursor.
    destruct (seek_split_exclusive p (z_inner z) W) as (A & B & El & HA & HB & Es).
    unfold lower_bound. rewrite Es. clear Es. rewrite El in *. clear El.
    apply Forall_app in Hok. destruct Hok as [OA OB]. apply ZS_app in W. destruct W as (WA & WB & HAB).
    destruct B as [|[k vs] B].
    - unfold cursor_key, cursor_key_value. cbn [snd option_map].
      destruct (snoc_cases A) as [->|(A' & [k vs] & ->)].
      + right. right. left. split; reflexivity.
      + match goal with |- context [move_prev ?c] => replace (move_prev c) with (A', [(k, vs)]) by (symmetry; apply move_prev_snoc) end.
        rewrite app_nil_r. apply Forall_app in OA. destruct OA as [OA Ok]. inversion_clear Ok as [|? ? [Hn Hs] _].
        apply Forall_app in HA. destruct HA as [HA Hk]. inversion_clear Hk as [|? ? Lk _]. unfold ehi in Lk. cbn in Lk, Hn.
        destruct (snoc_cases vs) as [->|(vs' & v & ->)]; [exfalso; apply Hn; reflexivity|].
        destruct (Z.eq_dec (hi k) (rk p)) as [E|E].
        * right. left. exists A', k, vs', v. auto.
        * right. right. right. exists A', k, (vs' ++ [v]), []. repeat (split; [reflexivity||assumption|]). right. split; [lia|reflexivity].
    - unfold cursor_key, cursor_key_value. cbn [snd fst option_map].
      inversion_clear HB as [|? ? Lk HB']. apply Forall_cons_iff in OB. destruct OB as [[Hn Hs] OB].
      apply ZS_cons in WB. destruct WB as (Vk & WB & Hk). unfold elo, ehi in Lk, Vk, Hs. cbn in Lk, Vk, Hs.
      destruct (Z_lt_le_dec (rk p) (lo k)) as [L|L].
      + right. right. right. exists A, k, vs, B. auto.
      + destruct Hs as (v & ->); [lia|]. left. exists A, k, v, B. repeat (split; [reflexivity||assumption||lia|]).
        eapply Forall_impl; [|exact Hk]. intros e X. zl.
  Qed.

  (** Where the code finds the last value at [p]. *)
  Definition findable (z : ZosditMap K V) (p : I) : Prop :=
    (exists e, In e (flatten (z_inner z)) /\ elo e <= rk p < ehi e) \/
    (forall e, In e (flatten (z_inner z)) -> ehi e <= rk p).

  Lemma in_iter_key z k vs v e A B : z_inner z = A ++ (k, vs) :: B -> In v vs -> e = (k, v) -> In e (flatten (z_inner z)).
  Proof.
    intros -> Hv ->. apply in_flatten. exists vs. split; [apply in_or_app; right; left; reflexivity|exact Hv].
  Qed.

  Lemma remove_last_cases z p : ZWF z ->
    (exists (l1 l2 : list (K * V)) k v z', get_last_value_at_point z p = Some v /\
       remove_last_value_at_point p z = (z', Val (Some v)) /\
       flatten (z_inner z) = l1 ++ (k, v) :: l2 /\ flatten (z_inner z') = l1 ++ l2 /\
       lo k <= rk p <= hi k /\ Forall (fun e => rk p < elo e) l2 /\
       z_len z' = z_len z /\ ZWF z' /\ (ZD (z_inner z) -> ZD (z_inner z')) /\ findable z p) \/
    (get_last_value_at_point z p = None /\ remove_last_value_at_point p z = (z, Val None) /\
     (findable z p -> Forall (fun e => ~ elo e <= rk p <= ehi e) (flatten (z_inner z)))).
  Proof.
    intros Wf. destruct (last_value_cursor_cases z p Wf) as
      [(A & k & v & B & El & Ec & HA & Hk & HB)|[(A & k & vs & v & El & Ec & Hk & HA)|[(El & Ec)|(A & k & vs & B & El & Ec & HA & Hk)]]];
      unfold get_last_value_at_point, remove_last_value_at_point, cursor_key_value; rewrite Ec; cbn [snd fst];
      try (rewrite contains_point_rk).
    - left. replace ((lo k <=? rk p) && (rk p <=? hi k)) with true by lia.
      destruct Wf as (W & Hok & Hlen).
      exists (flatten A), (flatten B), k, v, (mkZosdit (z_len z) (A ++ B)). rewrite El in *. cbn [z_inner z_len].
      split; [reflexivity|]. split; [reflexivity|]. rewrite !flatten_app, flatten_cons. cbn [map app].
      split; [reflexivity|]. split; [reflexivity|]. split; [lia|].
      split; [apply (Forall_flatten (fun a _ => rk p < a)), HB|]. split; [reflexivity|].
      apply ZS_app in W. destruct W as (WA & WB & HAB). apply ZS_cons in WB. destruct WB as (Vk & WB & HkB).
      apply Forall_app in Hok. destruct Hok as [OA OB]. inversion_clear OB as [|? ? Ok OB'].
      split; [split; [|split]|split].
      + cbn [z_inner]. apply ZS_app. split; [exact WA|]. split; [exact WB|]. intros x y Hx Hy. apply HAB; [exact Hx|right; exact Hy].
      + cbn [z_inner]. apply Forall_app. split; assumption.
      + cbn [z_inner z_len]. unfold count in *. rewrite flatten_app, flatten_cons, !app_length in Hlen. rewrite flatten_app, app_length.
        cbn [map length] in Hlen. lia.
      + intros HD. apply ZD_app in HD. destruct HD as (D1 & D2 & D3). apply ZD_cons in D2. destruct D2 as (D2 & _).
        apply ZD_app. split; [exact D1|]. split; [exact D2|]. intros x y Hx Hy. apply D3; [exact Hx|right; exact Hy].
      + left. exists (k, v). split; [|zl]. rewrite El. apply in_flatten. exists [v].
        split; [apply in_or_app; right; left; reflexivity|left; reflexivity].
    - left. destruct Wf as (W & Hok & Hlen). rewrite El in *.
      apply ZS_app in W. destruct W as (WA & Wk & HAB). apply ZS_cons in Wk. destruct Wk as (Vk & _ & _).
      apply Forall_app in Hok. destruct Hok as [OA OB]. inversion_clear OB as [|? ? [Hn Hs] _].
      unfold elo, ehi in Vk, Hs. cbn in Vk, Hs.
      replace ((lo k <=? rk p) && (rk p <=? hi k)) with true by lia.
      rewrite vec_last_snoc, vec_pop_snoc.
      exists (flatten A ++ map (fun v => (k, v)) vs), [], k, v,
        (mkZosdit (z_len z) (match vs with [] => A | _ => A ++ [(k, vs)] end)).
      split; [reflexivity|]. cbn [z_inner z_len].
      split; [destruct vs; [rewrite app_nil_r|]; reflexivity|].
      rewrite flatten_app, flatten_cons, map_app, <- !app_assoc. cbn [map app].
      split; [reflexivity|]. split; [destruct vs; [cbn; rewrite app_nil_r; reflexivity|rewrite flatten_app, flatten_cons, !app_nil_r; reflexivity]|].
      split; [lia|]. split; [constructor|]. split; [reflexivity|].
      assert (E1 : count (match vs with [] => A | _ => A ++ [(k, vs)] end) = (length (flatten A) + length vs)%nat).
      { unfold count. destruct vs; [cbn; lia|]. rewrite flatten_app, flatten_cons, app_length, app_length, map_length. cbn. lia. }
      split; [split; [|split]|split].
      + cbn [z_inner]. destruct vs; [exact WA|]. apply ZS_app. split; [exact WA|].
        split; [apply ZS_cons; split; [exact Vk|split; [apply ZS_nil|constructor]]|].
        intros x y Hx [<-|[]]. apply (HAB x _ Hx (or_introl eq_refl)).
      + cbn [z_inner]. destruct vs as [|v0 vs]; [exact OA|]. apply Forall_app. split; [exact OA|]. constructor; [|constructor].
        split; [discriminate|]. unfold elo, ehi. cbn. intros L. destruct (Hs L) as (v1 & E). destruct vs; discriminate.
      + cbn [z_inner z_len]. rewrite E1. unfold count in Hlen.
        rewrite flatten_app, flatten_cons, !app_length, map_length, app_length in Hlen. cbn [length] in Hlen. lia.
      + intros HD. destruct vs; [apply ZD_app in HD; apply HD|].
        apply ZD_app in HD. destruct HD as (D1 & D2 & D3).
        apply ZD_app. split; [exact D1|]. split; [apply ZD_cons; split; constructor|].
        intros x y Hx [<-|[]]. apply (D3 x _ Hx (or_introl eq_refl)).
      + right. intros e He. rewrite El in He. apply in_flatten in He. destruct He as (ws & He & _).
        apply in_app_or in He. destruct He as [He|[He|[]]].
        * rewrite Forall_forall in HA. apply (HA _ He).
        * injection He as E _. unfold ehi. rewrite <- E. lia.
    - right. split; [reflexivity|]. split; [reflexivity|]. rewrite El. constructor.
    - right. assert (C : (lo k <=? rk p) && (rk p <=? hi k) = false) by lia.
      rewrite C. split; [reflexivity|]. split; [reflexivity|].
      destruct Wf as (W & Hok & _). intros Hf. destruct Hk as [L|[L ->]].
      + rewrite El in W, Hok. apply ZS_app in W. destruct W as (WA & Wk & HAB). apply ZS_cons in Wk. destruct Wk as (Vk & WB & HkB).
        apply Forall_app in Hok. destruct Hok as [_ Hok]. apply Forall_cons_iff in Hok. destruct Hok as [[Hn _] _].
        exfalso. destruct Hf as [(e & He & Le)|Hf].
        * apply in_flatten in He. destruct He as (ws & He & _). rewrite El in He. apply in_app_or in He.
          rewrite Forall_forall in HA, HkB. destruct He as [He|[He|He]].
          -- specialize (HA _ He). zl.
          -- injection He as E _. unfold elo, ehi in Le. rewrite <- E in Le. lia.
          -- specialize (HkB _ He). zl.
        * cbn in Hn. destruct vs as [|v vs]; [apply Hn; reflexivity|].
          specialize (Hf (k, v)). unfold ehi in Hf. cbn in Hf.
          assert (hi k <= rk p); [|zl]. apply Hf. rewrite El. apply in_flatten. exists (v :: vs).
          split; [apply in_or_app; right; left; reflexivity|left; reflexivity].
      + rewrite Forall_forall. intros e He. apply in_flatten in He. destruct He as (ws & He & _). rewrite El in *.
        apply ZS_app in W. destruct W as (WA & Wk & HAB). apply ZS_cons in Wk. destruct Wk as (Vk & WB & HkB).
        apply in_app_or in He. destruct He as [He|[He|[]]].
        * specialize (HAB _ (k, vs) He (or_introl eq_refl)). unfold elo, ehi in *. cbn in *. lia.
        * injection He as E _. unfold ehi. rewrite <- E. lia.
  Qed.

  (** ** [cut] *)
  Section Cut.
    Context {Q : Type} {IQ : InclusiveInterval I Q}.
    Implicit Type q : Q.

    Definition piece_list (p : option (Interval I)) (vs : list V) : store :=
      match p with Some i => [(ifrom i, vs)] | None => [] end.
    Definition zpieces q (e : K * list V) : store :=
      match cut_interval (fst e) q with
      | Val r => piece_list (before_cut r) (snd e) ++ piece_list (after_cut r) (snd e)
      | Panic => []
      end.
    Definition zinside q (e : K * list V) : list (K * V) :=
      match cut_interval (fst e) q with
      | Val r => match inside_cut r with Some i => map (fun v => (ifrom i, v)) (snd e) | None => [] end
      | Panic => []
      end.

    Lemma cut_loop_spec q : lo q <= hi q -> forall M B n pre acc,
      Forall okv M -> Forall okv B -> Forall (meets (lo q) (hi q)) M ->
      match B with [] => True | e :: _ => ~ meets (lo q) (hi q) e end -> (count M <= n)%nat ->
      exists n', zosdit_cut_loop q n pre (M ++ B) acc =
        (mkZosdit n' (pre ++ flat_map (zpieces q) M ++ B), Val (acc ++ flat_map (zinside q) M)) /\
        (n' + count M = n + count (flat_map (zpieces q) M))%nat.
    Proof.
      intros Vq M. induction M as [|[k vs] M IH]; intros B n pre acc VM VB HM HB Hn.
      - cbn [flat_map app]. exists n. rewrite app_nil_r. split; [|reflexivity]. destruct B as [|[k vs] B].
        + cbn. rewrite app_nil_r. reflexivity.
        + cbn [zosdit_cut_loop]. inversion_clear VB as [|? ? Vk _]. unfold okv, elo, ehi in Vk. cbn in Vk.
          rewrite overlaps_true by assumption.
          replace ((lo k <=? hi q) && (lo q <=? hi k)) with false; [reflexivity|].
          unfold meets, elo, ehi in HB. cbn in HB. lia.
      - apply Forall_cons_iff in VM. destruct VM as [Vk VM]. apply Forall_cons_iff in HM. destruct HM as [Hk HM].
        unfold okv in Vk. unfold meets in Hk. unfold elo, ehi in Vk, Hk. cbn in Vk, Hk.
        cbn [app zosdit_cut_loop].
        rewrite overlaps_true by assumption.
        replace ((lo k <=? hi q) && (lo q <=? hi k)) with true by lia.
        destruct (cut_interval_ok k q) as (r & Er & Hb & (i & Hi & _) & Ha); try lia.
        rewrite Er. unfold count in Hn. rewrite flatten_cons, app_length, map_length in Hn.
        assert (Ep : z_piece (after_cut r) vs (z_piece (before_cut r) vs (n, pre)) =
                     ((n + count (zpieces q (k, vs)))%nat, pre ++ zpieces q (k, vs))).
        { unfold zpieces. cbn [fst snd]. rewrite Er. unfold count.
          destruct (before_cut r), (after_cut r); cbn [z_piece piece_list app fst snd flatten flat_map length];
            rewrite ?app_nil_r, ?app_length, ?map_length, <- ?app_assoc; cbn [app]; f_equal; lia. }
        rewrite Ep. cbn [zosdit_cut_loop].
        destruct (Nat.ltb_spec (n + count (zpieces q (k, vs))) (length vs)) as [L|L]; [lia|].
        rewrite Hi.
        destruct (IH B (n + count (zpieces q (k, vs)) - length vs)%nat (pre ++ zpieces q (k, vs))
                    (acc ++ map (fun v => (ifrom i, v)) vs) VM VB HM HB) as (n' & En & Hn').
        { unfold count in *. lia. }
        exists n'. rewrite En. cbn [flat_map]. unfold zinside at 2. cbn [fst snd]. rewrite Er, Hi.
        rewrite <- !app_assoc. split; [reflexivity|].
        unfold count in *. rewrite flatten_cons, flatten_app, !app_length, map_length. lia.
    Qed.

    (** The cut starts at the first overlapping entry, or does nothing. *)
    Definition cuttable z q : Prop :=
      (exists e, In e (flatten (z_inner z)) /\ elo e < lo q <= ehi e) \/
      (forall e, In e (flatten (z_inner z)) -> lo q <= ehi e).
    Lemma flatten_key l k vs : Forall okstore l -> In (k, vs) l -> exists v, In (k, v) (flatten l).
    Proof.
      intros Hok Hi. rewrite Forall_forall in Hok. destruct (Hok _ Hi) as [Hn _]. cbn in Hn.
      destruct vs as [|v vs]; [exfalso; apply Hn; reflexivity|]. exists v. apply in_flatten. exists (v :: vs).
      split; [exact Hi|left; reflexivity].
    Qed.

    Lemma cut_zosdit_cases z q A M B : ZWF z -> lo q <= hi q -> z_inner z = A ++ M ++ B ->
      Forall (left_of (lo q)) A -> Forall (meets (lo q) (hi q)) M -> Forall (right_of (hi q)) B ->
      (cuttable z q /\ exists n', zosdit_cut q z =
        (mkZosdit n' (A ++ flat_map (zpieces q) M ++ B), Val (flat_map (zinside q) M)) /\
        (n' + count M = z_len z + count (flat_map (zpieces q) M))%nat) \/
      (~ cuttable z q /\ zosdit_cut q z = (z, Val [])).
    Proof.
      intros (W & Hok & Hlen) Vq El HA HM HB. unfold zosdit_cut. rewrite iip_valid by (apply valid_rk, Vq).
      assert (VB : Forall okv B) by (rewrite El in W; apply ZS_app in W; destruct W as (_ & W & _); apply ZS_app in W; apply okvs, W).
      assert (VM : Forall okv M) by (rewrite El in W; apply ZS_app in W; destruct W as (_ & W & _); apply ZS_app in W; apply okvs, W).
      assert (HBh : match B with [] => True | e :: _ => ~ meets (lo q) (hi q) e end).
      { destruct B as [|b B]; [exact Logic.I|]. inversion_clear HB as [|? ? Hb _]. unfold meets, right_of in *. lia. }
      assert (Hn : (count M <= z_len z)%nat).
      { rewrite El in Hlen. unfold count in *. rewrite !flatten_app, !app_length in Hlen. lia. }
      destruct (zsplit (fun e => (ehi e <=? lo q) && (elo e <? lo q)) (z_inner z) W) as (P & R & Es & HP & HR).
      { unfold okv. intros; lia. }
      assert (Sk : seek (exclusive_comp (istart q) Lt) (z_inner z) = (P, R)).
      { rewrite Es in *. apply ZS_app in W. destruct W as (WP & WR & _). apply okvs in WP, WR. apply seek_app.
        - rewrite Forall_forall in *. intros e Hi. apply exclusive_Lt_Gt; [apply WP, Hi|]. specialize (HP e Hi). fold (lo q). zl.
        - apply head_not_gt_all. rewrite Forall_forall in *. intros e Hi X. apply exclusive_Lt_Gt in X; [|apply WR, Hi].
          specialize (HR e Hi). fold (lo q) in X. zl. }
      set (ub := upper_bound (exclusive_comp (istart q) Lt) (z_inner z)).
      assert (Eub : ub = match R with
        | [] => move_prev (P, R)
        | (k, v) :: _ => match exclusive_comp (istart q) Lt k with Eq => (P, R) | _ => move_prev (P, R) end
        end) by (unfold ub, upper_bound; rewrite Sk; reflexivity).
      clearbody ub.
      (* the prefix [P] is [A], possibly with one more entry ending at the start of [q] *)
      assert (Case : (exists k vs R', R = (k, vs) :: R' /\ elo (k, vs) < lo q < ehi (k, vs) /\ P = A /\ R = M ++ B) \/
                     (match R with [] => True | e :: _ => lo q <= elo e end /\
                      ((P = [] /\ A = []) \/
                       (exists P' k vs, P = P' ++ [(k, vs)] /\ elo (k, vs) < lo q /\
                          ((ehi (k, vs) = lo q /\ P' = A /\ (k, vs) :: R = M ++ B) \/ ehi (k, vs) < lo q))))).
      { assert (AP : exists X, P = A ++ X /\ M ++ B = X ++ R).
        { clear -W El Es HA HR HP PL IL. revert P Es HP. rewrite El in *. clear El.
          induction A as [|a A IH]; intros P Es HP; [exists P; split; [reflexivity|exact Es]|].
          cbn [app] in W. apply ZS_cons in W. destruct W as (Va & W & _). inversion_clear HA as [|? ? La HA'].
          destruct P as [|b P].
          - exfalso. cbn in Es. subst R. inversion_clear HR as [|? ? X _]. unfold left_of in La. unfold okv in *. lia.
          - injection Es as <- Es. inversion_clear HP as [|? ? _ HP']. destruct (IH W HA' P Es HP') as (X & -> & E). exists X. auto. }
        destruct AP as (X & EP & EX).
        assert (HX : Forall (fun e => ehi e = lo q /\ elo e < lo q) X).
        { assert (HX' : Forall (fun e => lo q <= ehi e) (M ++ B)).
          { apply Forall_app. rewrite !Forall_forall in *. split; intros e Hi.
            - specialize (HM e Hi). unfold meets in HM. lia.
            - specialize (HB e Hi). specialize (VB e Hi). unfold right_of, okv in *. lia. }
          rewrite EX in HX'. apply Forall_app in HX'. destruct HX' as [HX' _]. rewrite EP in HP. apply Forall_app in HP. destruct HP as [_ HP].
          rewrite Forall_forall in *. intros e Hi. specialize (HX' e Hi). specialize (HP e Hi). cbn in HP. lia. }
        rewrite Es in W. apply ZS_app in W. destruct W as (WP & WR & HPR).
        destruct (snoc_cases X) as [->|(X' & [k vs] & ->)].
        - rewrite app_nil_r in EP. cbn in EX. subst P.
          destruct R as [|[k vs] R'].
          + right. split; [exact Logic.I|]. destruct (snoc_cases A) as [->|(P' & [k vs] & ->)]; [left; auto|].
            right. exists P', k, vs. split; [reflexivity|]. apply Forall_app in HA. destruct HA as [_ HA]. inversion_clear HA as [|? ? La _].
            unfold left_of in La. pose proof (ZS_okv _ (k, vs) WP) as Ok. specialize (Ok (in_or_app P' [(k, vs)] _ (or_intror (or_introl eq_refl)))).
            split; [lia|]. right. exact La.
          + inversion_clear HR as [|? ? Hr _]. pose proof (ZS_okv _ (k, vs) WR (or_introl eq_refl)) as Ok.
            destruct (Z_lt_le_dec (elo (k, vs)) (lo q)) as [L|L].
            * left. exists k, vs, R'. split; [reflexivity|]. split; [cbn in Hr; lia|]. auto.
            * right. split; [exact L|]. destruct (snoc_cases A) as [->|(P' & [k2 vs2] & ->)]; [left; auto|].
              right. exists P', k2, vs2. split; [reflexivity|]. apply Forall_app in HA. destruct HA as [_ HA]. inversion_clear HA as [|? ? La _].
              unfold left_of in La. pose proof (ZS_okv _ (k2, vs2) WP) as Ok'. specialize (Ok' (in_or_app P' [(k2, vs2)] _ (or_intror (or_introl eq_refl)))).
              split; [lia|]. right. exact La.
        - apply Forall_app in HX. destruct HX as [HX HX1]. inversion_clear HX1 as [|? ? Hx _].
          assert (X' = []) as ->.
          { destruct X' as [|x X']; [reflexivity|exfalso]. inversion_clear HX as [|? ? Hx' _].
            rewrite EP in WP. apply ZS_app in WP. destruct WP as (_ & WP & _). apply ZS_cons in WP. destruct WP as (_ & _ & WP).
            apply Forall_app in WP. destruct WP as [_ WP]. inversion_clear WP as [|? ? L _]. lia. }
          cbn [app] in *. right. split.
          + destruct R as [|r R]; [exact Logic.I|]. assert (L : ehi (k, vs) <= elo r); [|lia].
            apply HPR; [rewrite EP; apply in_or_app; right; left; reflexivity|left; reflexivity].
          + right. exists A, k, vs. split; [exact EP|]. split; [lia|]. left. split; [lia|]. split; [reflexivity|]. symmetry. exact EX. }
      assert (InM : forall e : K * list V, In e M -> In e (z_inner z)).
      { intros e Hi. rewrite El. apply in_or_app. right. apply in_or_app. left. exact Hi. }
      assert (Finish : forall pre, pre = A -> cuttable z q -> (cuttable z q /\ exists n', zosdit_cut_loop q (z_len z) pre (M ++ B) [] =
        (mkZosdit n' (A ++ flat_map (zpieces q) M ++ B), Val (flat_map (zinside q) M)) /\
        (n' + count M = z_len z + count (flat_map (zpieces q) M))%nat) \/
        (~ cuttable z q /\ zosdit_cut_loop q (z_len z) pre (M ++ B) [] = (z, Val []))).
      { intros pre -> Hc. left. split; [exact Hc|]. apply (cut_loop_spec q Vq M B (z_len z) A []); assumption. }
      destruct Case as [(k & vs & R' & ER & Hk & EP & ERM)|(HR0 & [(EP & EA)|(P' & k & vs & EP & Hk & Hc)])].
      - assert (Eq1 : exclusive_comp (istart q) Lt k = Eq).
        { unfold elo, ehi in Hk. cbn in Hk. destruct (exclusive_comp (istart q) Lt k) eqn:X; [reflexivity| |].
          - apply exclusive_Lt_Lt in X; [|lia]. fold (lo q) in X. lia.
          - apply exclusive_Lt_Gt in X; [|lia]. fold (lo q) in X. lia. }
        rewrite ER in Eub. rewrite Eq1 in Eub. rewrite Eub. unfold cursor_key, cursor_key_value. cbn [snd fst option_map]. rewrite <- ER, ERM. apply Finish; [exact EP|].
        left. destruct (flatten_key (z_inner z) k vs Hok) as (v & Hv).
        { rewrite Es, ER. apply in_or_app. right. left. reflexivity. }
        exists (k, v). split; [exact Hv|]. zl.
      - subst P. cbn [app] in Es.
        assert (Ec : (match cursor_key ub with None => move_next ub | Some _ => ub end) = ([], R)).
        { rewrite Eub. clear. destruct R as [|[k vs] R]; [reflexivity|].
          destruct (exclusive_comp (istart q) Lt k); reflexivity. }
        rewrite Ec. cbn [fst snd]. replace R with (M ++ B) by (rewrite EA in El; cbn in El; congruence).
        apply Finish; [symmetry; exact EA|]. right. intros e Hi. apply in_flatten in Hi. destruct Hi as (ws & Hi & _).
        rewrite El, EA in Hi. cbn in Hi. apply in_app_or in Hi. destruct Hi as [Hi|Hi]; rewrite Forall_forall in *.
        + specialize (HM _ Hi). unfold meets in HM. zl.
        + specialize (HB _ Hi). specialize (VB _ Hi). unfold right_of, okv in *. zl.
      - assert (Ec : ub = (P', (k, vs) :: R)).
        { rewrite Eub, EP. destruct R as [|[k2 vs2] R]; [apply move_prev_snoc|].
          destruct (exclusive_comp (istart q) Lt k2) eqn:X; try apply move_prev_snoc. exfalso.
          assert (Ok : lo k2 <= hi k2). { rewrite Es in W. apply (ZS_okv _ (k2, vs2) W). apply in_or_app. right. left. reflexivity. }
          assert (X2 : exclusive_comp (istart q) Lt k2 = Lt); [|congruence]. apply exclusive_Lt_Lt; [exact Ok|].
          fold (lo q). zl. }
        rewrite Ec. unfold cursor_key, cursor_key_value. cbn [snd fst option_map].
        assert (Hin : In (k, vs) (z_inner z)).
        { rewrite Es, EP. apply in_or_app. left. apply in_or_app. right. left. reflexivity. }
        pose proof (ZS_okv _ _ W Hin) as Ok.
        destruct (flatten_key (z_inner z) k vs Hok Hin) as (v & Hv).
        destruct Hc as [(Hh & EA & ER)|Hh].
        + rewrite ER. apply Finish; [exact EA|]. left. exists (k, v). split; [exact Hv|]. zl.
        + right. split.
          * intros [(e & Hi & Le)|Hc].
            -- apply in_flatten in Hi. destruct Hi as (ws & Hi & _). rewrite Es, EP in Hi.
               rewrite Es, EP in W. apply ZS_app in W. destruct W as (W1 & W2 & W3). apply in_app_or in Hi. destruct Hi as [Hi|Hi].
               ++ apply ZS_app in W1. destruct W1 as (W1 & _ & W4). apply in_app_or in Hi. destruct Hi as [Hi|[Hi|[]]].
                  ** specialize (W4 _ (k, vs) Hi (or_introl eq_refl)). zl.
                  ** injection Hi as E _. unfold elo, ehi in *. cbn in *. rewrite <- E in Le. lia.
               ++ destruct R as [|r R]; [destruct Hi|]. destruct Hi as [->|Hi]; [zl|].
                  apply ZS_cons in W2. destruct W2 as (Or & W2 & W5). rewrite Forall_forall in W5. specialize (W5 _ Hi). zl.
            -- specialize (Hc _ Hv). zl.
          * cbn [zosdit_cut_loop]. rewrite overlaps_true by (try assumption; zl).
            replace ((lo k <=? hi q) && (lo q <=? hi k)) with false; [|zl].
            rewrite El in Es. f_equal.
            destruct z as [n i]. cbn [z_len z_inner] in *. f_equal. rewrite El, Es, EP, <- app_assoc. reflexivity.
    Qed.
  End Cut.
End Mut.
