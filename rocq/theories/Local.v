(** * Local: a call sees and changes only the entries near its interval. *)
From Coq Require Import List ZArith Bool Lia ZifyBool Sorting.Sorted.
From Verif Require Import Base BTree UtilsModel IntervalModel NoditModel NoditOps Spec PointFacts IntervalFacts ListFacts NoditFacts NoditQueries NoditGaps NoditMutations NoditMerges NoditInv LocalOps.
Import ListNotations.
Open Scope Z_scope.

(** ** Searches with a comparator that sends everything in [A] left and everything in [B] right *)
Section Frames.
  Context {K V : Type}.
  Implicit Types (comp : K -> comparison) (A M B : BTreeMap K V).
  Definition all_is comp (c : comparison) A : Prop := Forall (fun e => comp (fst e) = c) A.

  Lemma frame_seek comp A M B : all_is comp Gt A -> all_is comp Lt B ->
    seek comp (A ++ M ++ B) = (A ++ fst (seek comp M), snd (seek comp M) ++ B).
  Proof.
    intros HA HB. induction HA as [|[k v] A Hk HA IH]; cbn [app].
    - induction M as [|[k v] M IH]; cbn [app].
      + destruct B as [|[k v] B]; [reflexivity|]. inversion HB as [|? ? Hk _]; subst. cbn in Hk.
        cbn. rewrite Hk. reflexivity.
      + cbn [seek]. destruct (comp k); try reflexivity.
        rewrite IH. destruct (seek comp M). reflexivity.
    - cbn [fst] in Hk. cbn [seek]. rewrite Hk, IH. reflexivity.
  Qed.
  Lemma seek_parts comp M : fst (seek comp M) ++ snd (seek comp M) = M.
  Proof.
    induction M as [|[k v] M IH]; [reflexivity|]. cbn. destruct (comp k); try reflexivity.
    destruct (seek comp M). cbn in *. rewrite IH. reflexivity.
  Qed.
  Lemma frame_get comp A M B : all_is comp Gt A -> all_is comp Lt B ->
    get_key_value comp (A ++ M ++ B) = get_key_value comp M.
  Proof.
    intros HA HB. unfold get_key_value. rewrite frame_seek by assumption. cbn [snd].
    destruct (snd (seek comp M)) as [|[k v] r]; [|reflexivity]. cbn.
    destruct B as [|[k v] B]; [reflexivity|]. inversion HB as [|? ? Hk _]; subst. cbn in Hk. rewrite Hk. reflexivity.
  Qed.
  Lemma frame_remove comp A M B : all_is comp Gt A -> all_is comp Lt B ->
    fst (remove comp (A ++ M ++ B)) = A ++ fst (remove comp M) ++ B.
  Proof.
    intros HA HB. unfold remove. rewrite frame_seek by assumption. pose proof (seek_parts comp M) as E.
    destruct (seek comp M) as [a b]. cbn [fst snd] in *. destruct b as [|[k v] r]; cbn [app].
    - destruct B as [|[k v] B]; [reflexivity|]. inversion HB as [|? ? Hk _]; subst. cbn in Hk. rewrite Hk. reflexivity.
    - destruct (comp k); try reflexivity. cbn. rewrite <- !app_assoc. reflexivity.
  Qed.
  Lemma frame_get_mut comp f A M B : all_is comp Gt A -> all_is comp Lt B ->
    get_mut comp f (A ++ M ++ B) = (A ++ fst (get_mut comp f M) ++ B, snd (get_mut comp f M)).
  Proof.
    intros HA HB. unfold get_mut. rewrite frame_seek by assumption. pose proof (seek_parts comp M) as E.
    destruct (seek comp M) as [a b]. cbn [fst snd] in *. destruct b as [|[k v] r]; cbn [app].
    - destruct B as [|[k v] B]; [reflexivity|]. inversion HB as [|? ? Hk _]; subst. cbn in Hk. rewrite Hk. reflexivity.
    - destruct (comp k); try reflexivity. cbn. rewrite <- !app_assoc. reflexivity.
  Qed.
  Lemma frame_range lower upper A M B : all_is lower Gt A -> all_is lower Lt B -> all_is upper Lt B ->
    range lower upper (A ++ M ++ B) = range lower upper M.
  Proof.
    intros HA HB HU. unfold range. rewrite frame_seek by assumption. cbn [snd].
    induction (snd (seek lower M)) as [|[k v] r IH]; cbn [app].
    - destruct B as [|[k v] B]; [reflexivity|]. inversion HU as [|? ? Hk _]; subst. cbn in Hk. cbn. rewrite Hk. reflexivity.
    - cbn [take_upper]. rewrite IH. reflexivity.
  Qed.
  Lemma frame_range_mut lower upper f A M B : all_is lower Gt A -> all_is lower Lt B -> all_is upper Lt B ->
    range_mut lower upper f (A ++ M ++ B) = A ++ range_mut lower upper f M ++ B.
  Proof.
    intros HA HB HU. unfold range_mut. rewrite frame_seek by assumption. destruct (seek lower M) as [a b]. cbn [fst snd].
    rewrite <- !app_assoc. do 2 f_equal. induction b as [|[k v] r IH]; cbn [app].
    - destruct B as [|[k v] B]; [reflexivity|]. inversion HU as [|? ? Hk _]; subst. cbn in Hk. cbn. rewrite Hk. reflexivity.
    - cbn [map_upper]. rewrite IH. destruct (upper k); reflexivity.
  Qed.
  Lemma frame_insert key value (comp : K -> K -> comparison) A M B :
    all_is (fun inner => comp inner key) Gt A -> all_is (fun inner => comp inner key) Lt B ->
    fst (insert key value comp (A ++ M ++ B)) = A ++ fst (insert key value comp M) ++ B.
  Proof.
    intros HA HB. unfold insert. rewrite frame_seek by assumption.
    destruct (seek _ M) as [a b]. cbn [fst snd]. destruct b as [|[k v] r]; cbn [app].
    - destruct B as [|[k v] B]; cbn; [rewrite <- !app_assoc; reflexivity|].
      inversion HB as [|? ? Hk _]; subst. cbn in Hk. rewrite Hk. cbn. rewrite <- !app_assoc. reflexivity.
    - destruct (comp k key); cbn; rewrite <- !app_assoc; reflexivity.
  Qed.
  Lemma get_in comp M e : get_key_value comp M = Some e -> In e M.
  Proof.
    unfold get_key_value. pose proof (seek_parts comp M) as E. destruct (seek comp M) as [a b]. cbn [fst snd] in *.
    destruct b as [|[k v] r]; [discriminate|]. destruct (comp k); try discriminate. intros X. injection X as <-.
    rewrite <- E. apply in_app_iff. right. left. reflexivity.
  Qed.
  Lemma get_eq comp M e : get_key_value comp M = Some e -> comp (fst e) = Eq.
  Proof.
    unfold get_key_value. destruct (snd (seek comp M)) as [|[k v] r]; [discriminate|].
    destruct (comp k) eqn:E; try discriminate. intros X. injection X as <-. exact E.
  Qed.
End Frames.

Section Local.
  Context {I : Type} {OI : Ord I} {DI : DiscreteFinite I} {PL : PointLaws I}.
  Context {K : Type} {IK : InclusiveInterval I K} {IL : IntervalLaws I K}.
  Context {V : Type}.
  Notation entry := (K * V)%type.
  Implicit Types (m A B M : NoditMap K V) (c d : call I K V).

  Lemma left_of_le s s' A : s' <= s -> Forall (left_of s') A -> Forall (left_of s) A.
  Proof. intros L. apply Forall_impl. unfold left_of. intros. lia. Qed.
  Lemma right_of_le t t' A : t <= t' -> Forall (right_of t') A -> Forall (right_of t) A.
  Proof. intros L. apply Forall_impl. unfold right_of. intros. lia. Qed.

  Section At.
    Context (A B : NoditMap K V) (VA : Forall okv A) (VB : Forall okv B).

    Lemma ov_gt p : Forall (left_of (rk p)) A -> all_is (overlapping_comp p) Gt A.
    Proof. apply comp_left, VA. Qed.
    Lemma ov_lt p : Forall (right_of (rk p)) B -> all_is (overlapping_comp p) Lt B.
    Proof. apply comp_right. Qed.
    Lemma ts_gt p : Forall (left_of (rk p - 1)) A -> all_is (touching_start_comp p) Gt A.
    Proof.
      apply Forall_impl. intros e He. rewrite touching_start_comp_rk. apply Z.compare_gt_iff. unfold left_of, ehi in He. lia.
    Qed.
    Lemma ts_lt p : Forall (right_of (rk p)) B -> all_is (touching_start_comp p) Lt B.
    Proof.
      intros HB. unfold all_is. rewrite Forall_forall in *. intros e He. rewrite touching_start_comp_rk. apply Z.compare_lt_iff.
      specialize (HB e He). specialize (VB e He). unfold right_of, okv, elo, ehi in *. lia.
    Qed.
    Lemma te_gt p : Forall (left_of (rk p)) A -> all_is (touching_end_comp p) Gt A.
    Proof.
      intros HA. unfold all_is. rewrite Forall_forall in *. intros e He. rewrite touching_end_comp_rk. apply Z.compare_gt_iff.
      specialize (HA e He). specialize (VA e He). unfold left_of, okv, elo, ehi in *. lia.
    Qed.
    Lemma te_lt p : Forall (right_of (rk p + 1)) B -> all_is (touching_end_comp p) Lt B.
    Proof.
      apply Forall_impl. intros e He. rewrite touching_end_comp_rk. apply Z.compare_lt_iff. unfold right_of, elo in He. lia.
    Qed.

    Section Query.
      Context {Q : Type} {IQ : InclusiveInterval I Q} (q : Q) (Vq : valid q).
      Context (HA : Forall (left_of (lo q)) A) (HB : Forall (right_of (hi q)) B).

      Lemma HB_lo : Forall (right_of (lo q)) B.
      Proof. apply (right_of_le _ (hi q)); [|exact HB]. apply valid_rk, Vq. Qed.
      Lemma HA_hi : Forall (left_of (hi q)) A.
      Proof. apply (left_of_le _ (lo q)); [|exact HA]. apply valid_rk, Vq. Qed.

      Lemma frame_overlapping M : overlapping (A ++ M ++ B) q = overlapping M q.
      Proof.
        unfold overlapping. rewrite (iip_valid _ Vq). cbn [obind]. f_equal.
        apply frame_range; [apply ov_gt, HA|apply ov_lt, HB_lo|apply ov_lt, HB].
      Qed.
      Lemma frame_map_overlaps M : map_overlaps (A ++ M ++ B) q = map_overlaps M q.
      Proof. unfold map_overlaps. rewrite frame_overlapping. reflexivity. Qed.
      Lemma frame_overlapping_mut f M :
        overlapping_mut f q (A ++ M ++ B) = (A ++ fst (overlapping_mut f q M) ++ B, snd (overlapping_mut f q M)).
      Proof.
        unfold overlapping_mut. rewrite (iip_valid _ Vq). cbn [fst snd]. f_equal.
        apply frame_range_mut; [apply ov_gt, HA|apply ov_lt, HB_lo|apply ov_lt, HB].
      Qed.
      Lemma head_not_met k v B' : B = (k, v) :: B' -> overlaps q k = Val false /\ overlaps k q = Val false.
      Proof.
        intros ->. inversion HB as [|? ? Hk _]; subst. inversion VB as [|? ? Vk _]; subst.
        unfold right_of, okv, elo, ehi in *. cbn in *. apply valid_rk in Vq.
        split; rewrite overlaps_true by lia; f_equal; lia.
      Qed.
      Lemma remove_loop_stops pre acc : remove_overlapping_loop q pre B acc = (pre ++ B, Val acc).
      Proof.
        enough (G : forall X, B = X -> remove_overlapping_loop q pre X acc = (pre ++ X, Val acc)) by (apply G; reflexivity).
        intros [|[k v] X] EX; cbn; [reflexivity|]. rewrite (proj1 (head_not_met k v X EX)). reflexivity.
      Qed.
      Lemma cut_loop_stops pre acc : cut_loop q pre B acc = (pre ++ B, Val acc).
      Proof.
        enough (G : forall X, B = X -> cut_loop q pre X acc = (pre ++ X, Val acc)) by (apply G; reflexivity).
        intros [|[k v] X] EX; cbn; [reflexivity|]. rewrite (proj2 (head_not_met k v X EX)). reflexivity.
      Qed.
      Lemma frame_remove_loop pre post acc :
        remove_overlapping_loop q (A ++ pre) (post ++ B) acc =
        (A ++ fst (remove_overlapping_loop q pre post acc) ++ B, snd (remove_overlapping_loop q pre post acc)).
      Proof.
        revert pre acc. induction post as [|[k v] post IH]; intros pre acc; cbn [app].
        - rewrite remove_loop_stops. cbn [remove_overlapping_loop fst snd]. rewrite app_nil_r, <- app_assoc. reflexivity.
        - cbn [remove_overlapping_loop]. destruct (overlaps q k) as [[|]|]; [apply IH| |];
            cbn [fst snd app]; rewrite <- !app_assoc; reflexivity.
      Qed.
      Lemma frame_remove_overlapping M :
        remove_overlapping q (A ++ M ++ B) = (A ++ fst (remove_overlapping q M) ++ B, snd (remove_overlapping q M)).
      Proof.
        unfold remove_overlapping, lower_bound. rewrite (iip_valid _ Vq).
        rewrite frame_seek; [|apply ov_gt, HA|apply ov_lt, HB_lo]. cbn [fst snd]. apply frame_remove_loop.
      Qed.
      Lemma insert_piece_app (o : option (Interval I)) v pre : insert_piece o v (A ++ pre) = A ++ insert_piece o v pre.
      Proof. destruct o; cbn; [rewrite app_assoc|]; reflexivity. Qed.
      Lemma frame_cut_loop pre post acc :
        cut_loop q (A ++ pre) (post ++ B) acc =
        (A ++ fst (cut_loop q pre post acc) ++ B, snd (cut_loop q pre post acc)).
      Proof.
        revert pre acc. induction post as [|[k v] post IH]; intros pre acc; cbn [app].
        - rewrite cut_loop_stops. cbn [cut_loop fst snd]. rewrite app_nil_r, <- app_assoc. reflexivity.
        - cbn [cut_loop]. destruct (overlaps k q) as [[|]|]; [|cbn [fst snd app]; rewrite <- !app_assoc; reflexivity..].
          destruct (cut_interval k q) as [r|]; [|cbn [fst snd app]; rewrite <- !app_assoc; reflexivity].
          rewrite !insert_piece_app. destruct (inside_cut r); [apply IH|]. cbn [fst snd app]. rewrite <- !app_assoc. reflexivity.
      Qed.
      Lemma frame_cut M : cut q (A ++ M ++ B) = (A ++ fst (cut q M) ++ B, snd (cut q M)).
      Proof.
        unfold cut, lower_bound. rewrite (iip_valid _ Vq).
        rewrite frame_seek; [|apply ov_gt, HA|apply ov_lt, HB_lo]. cbn [fst snd]. apply frame_cut_loop.
      Qed.
    End Query.

    Lemma frame_unchecked r v M : Forall (fun e => elo e < lo r) A -> Forall (fun e => lo r < elo e) B ->
      insert_unchecked r v (A ++ M ++ B) = A ++ insert_unchecked r v M ++ B.
    Proof.
      intros HA HB. unfold insert_unchecked. apply frame_insert.
      - unfold all_is. eapply Forall_impl; [|exact HA]. cbn. intros e He. rewrite starts_comp_rk. apply Z.compare_gt_iff, He.
      - unfold all_is. eapply Forall_impl; [|exact HB]. cbn. intros e He. rewrite starts_comp_rk. apply Z.compare_lt_iff, He.
    Qed.
    Lemma starts_left s : Forall (left_of s) A -> Forall (fun e => elo e < s) A.
    Proof.
      intros HA. rewrite Forall_forall in *. intros e He. specialize (HA e He). specialize (VA e He).
      unfold left_of, okv in *. lia.
    Qed.

    Section Insert.
      Context (k : K) (v : V) (Vk : valid k).
      Context (HA : Forall (left_of (lo k)) A) (HB : Forall (right_of (hi k)) B).

      Lemma frame_unchecked_self M : insert_unchecked k v (A ++ M ++ B) = A ++ insert_unchecked k v M ++ B.
      Proof. apply frame_unchecked; [apply starts_left, HA|exact (HB_lo k Vk HB)]. Qed.

      Lemma frame_insert_strict M :
        insert_strict k v (A ++ M ++ B) = (A ++ fst (insert_strict k v M) ++ B, snd (insert_strict k v M)).
      Proof.
        unfold insert_strict. rewrite (iip_valid _ Vk), frame_map_overlaps by assumption.
        destruct (map_overlaps M k) as [[|]|]; try reflexivity. cbn [fst snd]. rewrite frame_unchecked_self. reflexivity.
      Qed.
      Lemma frame_insert_overwrite M :
        insert_overwrite k v (A ++ M ++ B) = (A ++ fst (insert_overwrite k v M) ++ B, snd (insert_overwrite k v M)).
      Proof.
        unfold insert_overwrite. rewrite (iip_valid _ Vk), frame_cut by assumption.
        destruct (cut k M) as [m' [l|]]; cbn [fst snd]; [|reflexivity]. rewrite frame_unchecked_self. reflexivity.
      Qed.
      Lemma frame_with_comps gs ge rs re M : WF (A ++ M ++ B) ->
        gs (A ++ M ++ B) v = gs M v -> ge (A ++ M ++ B) v = ge M v ->
        (forall M', rs (A ++ M' ++ B) v = A ++ rs M' v ++ B) ->
        (forall M', re (A ++ M' ++ B) v = A ++ re M' v ++ B) ->
        (forall s, gs M v = Some s -> (exists w, In (s, w) M) /\ lo s <= lo k) ->
        (forall s, ge M v = Some s -> hi k <= hi s) ->
        insert_merge_with_comps k v gs ge rs re (A ++ M ++ B) =
        (A ++ fst (insert_merge_with_comps k v gs ge rs re M) ++ B, snd (insert_merge_with_comps k v gs ge rs re M)).
      Proof.
        intros W Egs Ege Ers Ere Is Ie. unfold insert_merge_with_comps. rewrite (iip_valid _ Vk), Egs, Ege.
        set (r := match gs M v with Some _ => _ | None => _ end).
        assert (Er : lo r = match gs M v with Some s => lo s | None => lo k end).
        { apply valid_rk in Vk. unfold r. clear r.
          destruct (gs M v) as [s|], (ge M v) as [t|]; [| | |reflexivity].
          - destruct (Is s eq_refl) as (_ & L). specialize (Ie t eq_refl). rewrite from_lo; [reflexivity|].
            unfold lo, hi in *. cbn. lia.
          - destruct (Is s eq_refl) as (_ & L). rewrite from_lo; [reflexivity|]. unfold lo, hi in *. cbn. lia.
          - specialize (Ie t eq_refl). rewrite from_lo; [reflexivity|]. unfold lo, hi in *. cbn. lia. }
        rewrite frame_remove_overlapping by assumption.
        destruct (remove_overlapping k M) as [m1 [l|]]; cbn [fst snd]; [|reflexivity].
        rewrite Ers, Ere. rewrite frame_unchecked; [reflexivity| |].
        all: rewrite !WF_app in W; destruct W as (WA & (WM & WB & MB) & AMB).
        all: apply valid_rk in Vk; rewrite Forall_forall in *; intros e He.
        - specialize (HA e He). specialize (VA e He). unfold left_of, okv in *. rewrite Er.
          destruct (gs M v) as [s|]; [|lia]. destruct (Is s eq_refl) as ((w & Hw) & _).
          assert (L : ehi e < elo (s, w)) by (apply AMB; [exact He|apply in_app_iff; left; exact Hw]).
          unfold elo, ehi in *. cbn in *. lia.
        - specialize (HB e He). unfold right_of in *. rewrite Er.
          destruct (gs M v) as [s|]; [|lia]. destruct (Is s eq_refl) as (_ & L). lia.
      Qed.

      Lemma got comp M s : option_map fst (get_key_value comp M) = Some s ->
        (exists w, In (s, w) M) /\ comp s = Eq.
      Proof.
        destruct (get_key_value comp M) as [[s' w]|] eqn:E; [|discriminate]. cbn. intros X. injection X as ->.
        split; [exists w; apply (get_in _ _ _ E)|apply (get_eq _ _ _ E)].
      Qed.
      Lemma got_if veq comp M s : get_if_equal veq comp M v = Some s -> (exists w, In (s, w) M) /\ comp s = Eq.
      Proof.
        unfold get_if_equal. intros E. apply got. destruct (get_key_value comp M) as [[s' w]|]; [|discriminate].
        destruct (veq w v); [exact E|discriminate].
      Qed.
      Lemma or_got (a b : option K) s : option_or a b = Some s -> a = Some s \/ b = Some s.
      Proof. destruct a; cbn; auto. Qed.
      Lemma start_ov M s : WF M -> option_map fst (get_key_value (overlapping_comp (istart k)) M) = Some s ->
        (exists w, In (s, w) M) /\ lo s <= lo k.
      Proof. intros W E. apply got in E. destruct E as [E C]. split; [exact E|]. apply overlapping_comp_Eq in C. unfold lo in *. lia. Qed.
      Lemma end_ov M s : WF M -> option_map fst (get_key_value (overlapping_comp (iend k)) M) = Some s -> hi k <= hi s.
      Proof. intros W E. apply got in E. destruct E as [E C]. apply overlapping_comp_Eq in C. unfold hi in *. lia. Qed.
      Lemma start_touch M s : WF M -> (exists w, In (s, w) M) /\ touching_start_comp (istart k) s = Eq ->
        (exists w, In (s, w) M) /\ lo s <= lo k.
      Proof.
        intros W [(w & Hw) C]. split; [exists w; exact Hw|]. rewrite touching_start_comp_rk in C. apply Z.compare_eq in C.
        pose proof (WF_okv _ _ W Hw) as Vs. unfold elo, ehi, lo, hi in *. cbn in *. lia.
      Qed.
      Lemma end_touch M s : WF M -> (exists w, In (s, w) M) /\ touching_end_comp (iend k) s = Eq -> hi k <= hi s.
      Proof.
        intros W [(w & Hw) C]. rewrite touching_end_comp_rk in C. apply Z.compare_eq in C.
        pose proof (WF_okv _ _ W Hw) as Vs. unfold elo, ehi, lo, hi in *. cbn in *. lia.
      Qed.
      Lemma WF_mid M : WF (A ++ M ++ B) -> WF M.
      Proof. rewrite !WF_app. tauto. Qed.

      Lemma frame_merge_overlapping M : WF (A ++ M ++ B) ->
        insert_merge_overlapping k v (A ++ M ++ B) =
        (A ++ fst (insert_merge_overlapping k v M) ++ B, snd (insert_merge_overlapping k v M)).
      Proof.
        intros W. unfold insert_merge_overlapping. rewrite (iip_valid _ Vk). pose proof (WF_mid M W) as WM.
        apply frame_with_comps; try assumption; try reflexivity.
        - rewrite frame_get; [reflexivity|apply ov_gt, HA|apply ov_lt, (HB_lo k Vk HB)].
        - rewrite frame_get; [reflexivity|apply ov_gt, (HA_hi k Vk HA)|apply ov_lt, HB].
        - intros s. apply start_ov, WM.
        - intros s. apply end_ov, WM.
      Qed.

      Section Touching.
        Context (HA1 : Forall (left_of (lo k - 1)) A) (HB1 : Forall (right_of (hi k + 1)) B).
        Lemma tsA : all_is (touching_start_comp (istart k)) Gt A.
        Proof. apply ts_gt, HA1. Qed.
        Lemma tsB : all_is (touching_start_comp (istart k)) Lt B.
        Proof. apply ts_lt, (HB_lo k Vk HB). Qed.
        Lemma teA : all_is (touching_end_comp (iend k)) Gt A.
        Proof. apply te_gt, (HA_hi k Vk HA). Qed.
        Lemma teB : all_is (touching_end_comp (iend k)) Lt B.
        Proof. apply te_lt, HB1. Qed.

        Lemma frame_merge_touching M : WF (A ++ M ++ B) ->
          insert_merge_touching k v (A ++ M ++ B) =
          (A ++ fst (insert_merge_touching k v M) ++ B, snd (insert_merge_touching k v M)).
        Proof.
          intros W. unfold insert_merge_touching. rewrite (iip_valid _ Vk), frame_map_overlaps by assumption.
          destruct (map_overlaps M k) as [[|]|]; try reflexivity. pose proof (WF_mid M W) as WM.
          rewrite frame_with_comps; try assumption.
          - destruct (insert_merge_with_comps _ _ _ _ _ _ M). reflexivity.
          - rewrite frame_get; [reflexivity|apply tsA|apply tsB].
          - rewrite frame_get; [reflexivity|apply teA|apply teB].
          - intros M'. apply frame_remove; [apply tsA|apply tsB].
          - intros M'. apply frame_remove; [apply teA|apply teB].
          - intros s E. apply start_touch; [exact WM|]. apply got, E.
          - intros s E. apply (end_touch M); [exact WM|]. apply got, E.
        Qed.
        Lemma frame_get_if veq comp M : all_is comp Gt A -> all_is comp Lt B ->
          get_if_equal veq comp (A ++ M ++ B) v = get_if_equal veq comp M v.
        Proof. intros C1 C2. unfold get_if_equal. rewrite frame_get by assumption. reflexivity. Qed.
        Lemma frame_merge_if_equal veq M : WF (A ++ M ++ B) ->
          insert_merge_touching_if_values_equal veq k v (A ++ M ++ B) =
          (A ++ fst (insert_merge_touching_if_values_equal veq k v M) ++ B,
           snd (insert_merge_touching_if_values_equal veq k v M)).
        Proof.
          intros W. unfold insert_merge_touching_if_values_equal. rewrite (iip_valid _ Vk), frame_map_overlaps by assumption.
          destruct (map_overlaps M k) as [[|]|]; try reflexivity. pose proof (WF_mid M W) as WM.
          rewrite frame_with_comps; try assumption.
          - destruct (insert_merge_with_comps _ _ _ _ _ _ M). reflexivity.
          - apply frame_get_if; [apply tsA|apply tsB].
          - apply frame_get_if; [apply teA|apply teB].
          - intros M'. rewrite frame_get_if; [|apply tsA|apply tsB].
            destruct (is_some _); [|reflexivity]. apply frame_remove; [apply tsA|apply tsB].
          - intros M'. rewrite frame_get_if; [|apply teA|apply teB].
            destruct (is_some _); [|reflexivity]. apply frame_remove; [apply teA|apply teB].
          - intros s E. apply start_touch; [exact WM|]. apply (got_if veq), E.
          - intros s E. apply (end_touch M); [exact WM|]. apply (got_if veq), E.
        Qed.
        Lemma frame_merge_tor M : WF (A ++ M ++ B) ->
          insert_merge_touching_or_overlapping k v (A ++ M ++ B) =
          (A ++ fst (insert_merge_touching_or_overlapping k v M) ++ B,
           snd (insert_merge_touching_or_overlapping k v M)).
        Proof.
          intros W. unfold insert_merge_touching_or_overlapping. rewrite (iip_valid _ Vk). pose proof (WF_mid M W) as WM.
          apply frame_with_comps; try assumption.
          - rewrite !frame_get; [reflexivity|apply ov_gt, HA|apply ov_lt, (HB_lo k Vk HB)|apply tsA|apply tsB].
          - rewrite !frame_get; [reflexivity|apply ov_gt, (HA_hi k Vk HA)|apply ov_lt, HB|apply teA|apply teB].
          - intros M'. apply frame_remove; [apply tsA|apply tsB].
          - intros M'. apply frame_remove; [apply teA|apply teB].
          - intros s E. apply or_got in E. destruct E as [E|E]; [|apply start_ov; assumption].
            apply start_touch; [exact WM|]. apply got, E.
          - intros s E. apply or_got in E. destruct E as [E|E]; [|apply (end_ov M); assumption].
            apply (end_touch M); [exact WM|]. apply got, E.
        Qed.
      End Touching.
    End Insert.
  End At.

  (** ** The reach of a call, in ranks *)
  Definition near (c : call I K V) : Z := if looks_at_touching c then 1 else 0.
  Definition from_rank (c : call I K V) : Z := lo (subject c) - near c.
  Definition to_rank (c : call I K V) : Z := hi (subject c) + near c.

  Lemma near_range c : 0 <= near c <= 1.
  Proof. unfold near. destruct (looks_at_touching c); lia. Qed.

  Lemma clear_rk {E} {IE : InclusiveInterval I E} c (e : E) : valid (subject c) -> valid e ->
    (clear c e <-> hi e < from_rank c \/ to_rank c < lo e).
  Proof.
    intros Vs Ve. apply valid_rk in Vs. apply valid_rk in Ve. unfold clear, from_rank, to_rank, near.
    rewrite overlap_rk, touch_rk by assumption. destruct (looks_at_touching c).
    - split; [intros [H1 H2]; specialize (H2 eq_refl); lia|intros H0; split; [lia|intros _; lia]].
    - split; [intros [H1 _]; lia|intros H0; split; [lia|discriminate]].
  Qed.

  Lemma frame_point p A M B : WF (A ++ M ++ B) -> Forall (left_of (rk p)) A -> Forall (right_of (rk p)) B ->
    get_at_point (A ++ M ++ B) p = get_at_point M p /\ map_contains_point (A ++ M ++ B) p = map_contains_point M p.
  Proof.
    intros W HA HB. pose proof W as W0. rewrite !WF_app in W0. destruct W0 as ([_ VA] & (WM & [_ VB] & MB) & AMB).
    assert (E : get_key_value (overlapping_comp p) (A ++ M ++ B) = get_key_value (overlapping_comp p) M).
    { apply frame_get; [apply comp_left; assumption|apply comp_right; assumption]. }
    unfold get_at_point, map_contains_point, get_key_value_at_point. rewrite E.
    destruct (get_key_value (overlapping_comp p) M) as [e|] eqn:G; [split; reflexivity|].
    assert (T : forall m, WF m -> get_key_value (overlapping_comp p) m = None -> exists g, get_gap_at_raw m p = Val g).
    { intros m Wm Gm. destruct (split_point m p Wm) as (L & o & R & -> & HL & Ho & HR).
      rewrite get_key_value_split in Gm by assumption. subst o. cbn [opt_list app] in *.
      destruct (get_gap_split p L R Wm HL HR) as (g & Eg & _). exists g. exact Eg. }
    destruct (T M WM G) as (g & ->). destruct (T _ W E) as (g0 & ->). split; reflexivity.
  Qed.

  Lemma subject_invalid c m : ~ valid (subject c) -> fst (perform c m) = m.
  Proof.
    intros N. destruct c; try reflexivity; cbn [perform answering fst]; cbn [subject] in N.
    all: try (assert (N' : ~ valid k) by exact N).
    all: try (assert (N' : ~ valid q) by exact N).
    - rewrite (insert_strict_invalid k v m N'). reflexivity.
    - rewrite (insert_merge_touching_invalid k v m N'). reflexivity.
    - rewrite (insert_merge_touching_if_equal_invalid k v m N'). reflexivity.
    - rewrite (insert_merge_overlapping_invalid k v m N'). reflexivity.
    - rewrite (insert_merge_tor_invalid k v m N'). reflexivity.
    - rewrite (insert_overwrite_invalid k v m N'). reflexivity.
    - rewrite (remove_overlapping_invalid q m N'). reflexivity.
    - rewrite (cut_invalid q m N'). reflexivity.
    - rewrite (overlapping_mut_invalid q m N'). reflexivity.
    - exfalso. apply N. exists p. apply covers_rk. unfold lo, hi. cbn. lia.
  Qed.
  Lemma subject_invalid_reply c m m' : ~ valid (subject c) -> snd (perform c m) = snd (perform c m').
  Proof.
    intros N. destruct c; cbn [perform answering snd]; cbn [subject] in N.
    all: try (assert (N' : ~ valid k) by exact N).
    all: try (assert (N' : ~ valid q) by exact N).
    - rewrite !(insert_strict_invalid k v _ N'). reflexivity.
    - rewrite !(insert_merge_touching_invalid k v _ N'). reflexivity.
    - rewrite !(insert_merge_touching_if_equal_invalid k v _ N'). reflexivity.
    - rewrite !(insert_merge_overlapping_invalid k v _ N'). reflexivity.
    - rewrite !(insert_merge_tor_invalid k v _ N'). reflexivity.
    - rewrite !(insert_overwrite_invalid k v _ N'). reflexivity.
    - rewrite !(remove_overlapping_invalid q _ N'). reflexivity.
    - rewrite !(cut_invalid q _ N'). reflexivity.
    - rewrite !(overlapping_mut_invalid q _ N'). reflexivity.
    - rewrite !(overlapping_invalid q _ N'). reflexivity.
    - rewrite !(map_overlaps_invalid q _ N'). reflexivity.
    - exfalso. apply N. exists p. apply covers_rk. unfold lo, hi. cbn. lia.
    - exfalso. apply N. exists p. apply covers_rk. unfold lo, hi. cbn. lia.
    - exfalso. apply N. exists p. apply covers_rk. unfold lo, hi. cbn. lia.
  Qed.

  Lemma frame_perform c A M B : WF (A ++ M ++ B) -> valid (subject c) ->
    Forall (left_of (from_rank c)) A -> Forall (right_of (to_rank c)) B ->
    perform c (A ++ M ++ B) = (A ++ fst (perform c M) ++ B, snd (perform c M)).
  Proof.
    intros W Vs HA HB. pose proof (near_range c) as Nr. pose proof W as W0. rewrite !WF_app in W0.
    destruct W0 as ([_ VA] & (_ & [_ VB] & _) & _).
    assert (HA0 : Forall (left_of (lo (subject c))) A) by (apply (left_of_le _ (from_rank c)); [unfold from_rank; lia|exact HA]).
    assert (HB0 : Forall (right_of (hi (subject c))) B) by (apply (right_of_le _ (to_rank c)); [unfold to_rank; lia|exact HB]).
    destruct c; cbn [subject] in *; unfold from_rank, to_rank in *; cbn [near looks_at_touching subject] in *; cbn [perform answering fst snd].
    all: try (assert (Vq : valid k) by exact Vs); try (assert (Vq : valid q) by exact Vs).
    all: try change (lo (mkInterval (istart k) (iend k))) with (lo k) in *.
    all: try change (hi (mkInterval (istart k) (iend k))) with (hi k) in *.
    all: try change (lo (mkInterval (istart q) (iend q))) with (lo q) in *.
    all: try change (hi (mkInterval (istart q) (iend q))) with (hi q) in *.
    - rewrite frame_insert_strict by assumption. reflexivity.
    - rewrite frame_merge_touching by assumption. reflexivity.
    - rewrite frame_merge_if_equal by assumption. reflexivity.
    - rewrite frame_merge_overlapping by assumption. reflexivity.
    - rewrite frame_merge_tor by assumption. reflexivity.
    - rewrite frame_insert_overwrite by assumption. reflexivity.
    - rewrite frame_remove_overlapping by assumption. reflexivity.
    - rewrite frame_cut by assumption. reflexivity.
    - rewrite frame_overlapping_mut by assumption. reflexivity.
    - rewrite frame_overlapping by assumption. reflexivity.
    - rewrite frame_map_overlaps by assumption. reflexivity.
    - unfold get_at_point_mut. rewrite frame_get_mut; [reflexivity|apply comp_left; assumption|apply comp_right; assumption].
    - rewrite (proj1 (frame_point p A M B W HA0 HB0)). reflexivity.
    - rewrite (proj2 (frame_point p A M B W HA0 HB0)). reflexivity.
  Qed.
End Local.
