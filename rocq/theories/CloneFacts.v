(** * CloneFacts: NoditMap with an arbitrary [Clone] (C115). *)
From Coq Require Import List ZArith Bool Lia ZifyBool Sorting.Sorted.
From Verif Require Import Base BTree UtilsModel IntervalModel NoditModel NoditOps NoditSetOps ZosditModel ZosditOps CloneModel CloneOps
  Spec PointFacts IntervalFacts ListFacts NoditFacts NoditInv NoditNatural NoditSetFacts AccountFacts.
Import ListNotations.
Open Scope Z_scope.

(** ** A clone that keeps an observation *)
Section Lawful.
  Context {I : Type} `{Ord I} `{DiscreteFinite I}.
  Context {K : Type} `{InclusiveInterval I K}.
  Context {V W X : Type} (clone : W -> V -> V * W) (g : V -> X).
  Hypothesis keeps : forall w v, g (fst (clone w v)) = g v.

  Lemma insert_piece_w_obs (p : option (Interval I)) v (pre : list (K * V)) w :
    mapv g (fst (insert_piece_w clone p v pre w)) = insert_piece p (g v) (mapv g pre).
  Proof.
    destruct p as [i|]; [|reflexivity]. cbn. specialize (keeps w v). destruct (clone w v) as [v' w']. cbn [fst] in *.
    rewrite mapv_app. cbn. unfold mape. cbn. rewrite keeps. reflexivity.
  Qed.
  Section Q.
    Context {Q : Type} `{InclusiveInterval I Q}.
    Lemma cut_loop_w_obs q (pre post acc : list (K * V)) w :
      cut_loop q (mapv g pre) (mapv g post) (mapv g acc) = mapr g (mapv g) (fst (cut_loop_w clone q pre post acc w)).
    Proof.
      revert pre acc w. induction post as [|[k v] rest IH]; intros pre acc w.
      - cbn [cut_loop cut_loop_w]. change (mapv g []) with (@nil (K * X)). cbn [cut_loop]. unfold mapr. cbn [fst snd omap]. rewrite mapv_app. reflexivity.
      - change (mapv g ((k, v) :: rest)) with ((k, g v) :: mapv g rest). cbn [cut_loop cut_loop_w].
        destruct (overlaps k q) as [[|]|]; unfold mapr; cbn [fst snd omap]; rewrite ?mapv_app; try reflexivity.
        destruct (cut_interval k q) as [r|]; cbn [fst snd omap]; rewrite ?mapv_app; try reflexivity.
        pose proof (insert_piece_w_obs (before_cut r) v pre w) as E1. destruct (insert_piece_w clone (before_cut r) v pre w) as [pre1 w1].
        pose proof (insert_piece_w_obs (after_cut r) v pre1 w1) as E2. destruct (insert_piece_w clone (after_cut r) v pre1 w1) as [pre2 w2].
        cbn [fst] in *. rewrite <- E1, <- E2. destruct (inside_cut r); cbn [fst snd omap]; rewrite ?mapv_app; try reflexivity.
        specialize (IH pre2 (acc ++ [(ifrom i, v)]) w2). rewrite mapv_app in IH. exact IH.
    Qed.
    Lemma cut_w_obs q (m : NoditMap K V) w : cut q (mapv g m) = mapr g (mapv g) (fst (cut_w clone q m w)).
    Proof.
      unfold cut, cut_w. destruct (invalid_interval_panic q); [|reflexivity].
      unfold lower_bound. rewrite seek_mapv. apply (cut_loop_w_obs q _ _ []).
    Qed.
  End Q.
  Lemma insert_overwrite_w_obs k v (m : NoditMap K V) w :
    insert_overwrite k (g v) (mapv g m) = mapr g (mapv g) (fst (insert_overwrite_w clone k v m w)).
  Proof.
    unfold insert_overwrite, insert_overwrite_w. destruct (invalid_interval_panic k); [|reflexivity].
    rewrite (cut_w_obs k m w). destruct (cut_w clone k m w) as [[m' [c|]] w']; unfold mapr; cbn [fst snd omap]; [|reflexivity].
    rewrite insert_unchecked_mapv. reflexivity.
  Qed.
  Lemma step_w_obs (s : NoditMap K V * W) o o' : op_image g o o' -> step (mapv g (fst s)) o' = mapv g (fst (step_w clone s o)).
  Proof.
    destruct s as [m w]. intros Ho. destruct Ho; try (cbn [fst step_w]; apply step_image; constructor; assumption); cbn [fst snd step step_w].
    - rewrite (insert_overwrite_w_obs k v m w). destruct (insert_overwrite_w clone k v m w) as [[m' r] w']. reflexivity.
    - rewrite (cut_w_obs q m w). destruct (cut_w clone q m w) as [[m' r] w']. reflexivity.
  Qed.
  Lemma run_w_obs w (os : list (op I K V)) (os' : list (op I K X)) : Forall2 (op_image g) os os' ->
    run os' = map (image g) (fst (run_w clone w os)).
  Proof.
    intros HF. unfold run, run_w. change (new (K := K) (V := X)) with (mapv g (fst (new (K := K) (V := V), w))).
    generalize (new (K := K) (V := V), w). induction HF as [|o o' os os' Ho HF IH]; intros s; cbn [fold_left]; [reflexivity|].
    rewrite (step_w_obs s o o' Ho). apply IH.
  Qed.
End Lawful.

(** ** Whatever [Clone] does *)
Section Any.
  Context {I : Type} {OI : Ord I} {DI : DiscreteFinite I}.
  Context {K : Type} {IK : InclusiveInterval I K}.
  Context {V W : Type} (clone : W -> V -> V * W).

  (** The intervals kept and the entries returned do not depend on it. *)
  Section Q.
    Context {Q : Type} {IQ : InclusiveInterval I Q}.
    Lemma cut_loop_w_shape (q : Q) (post : list (K * V)) : forall pre pre' acc w, map fst pre' = map fst pre ->
      snd (fst (cut_loop_w clone q pre' post acc w)) = snd (cut_loop q pre post acc) /\
      map fst (fst (fst (cut_loop_w clone q pre' post acc w))) = map fst (fst (cut_loop q pre post acc)).
    Proof.
      assert (P : forall p v pre pre' w, map fst pre' = map fst pre ->
        map fst (fst (insert_piece_w clone p v pre' w)) = map fst (insert_piece (K := K) p v pre)).
      { intros [i|] v pre pre' w E; [|exact E]. cbn. destruct (clone w v). cbn. rewrite !map_app, E. reflexivity. }
      induction post as [|[k v] rest IH]; intros pre pre' acc w E; cbn [cut_loop cut_loop_w].
      - cbn. rewrite !map_app, E. auto.
      - destruct (overlaps k q) as [[|]|]; cbn [fst snd]; rewrite ?map_app, ?E; auto.
        destruct (cut_interval k q) as [r|]; cbn [fst snd]; rewrite ?map_app, ?E; auto.
        pose proof (P (before_cut r) v pre pre' w E) as E1. destruct (insert_piece_w clone (before_cut r) v pre' w) as [pre1 w1].
        pose proof (P (after_cut r) v _ pre1 w1 E1) as E2. destruct (insert_piece_w clone (after_cut r) v pre1 w1) as [pre2 w2].
        cbn [fst] in *. destruct (inside_cut r); cbn [fst snd]; rewrite ?map_app, ?E2; auto.
    Qed.
    Lemma cut_w_shape (q : Q) (m : NoditMap K V) w :
      snd (fst (cut_w clone q m w)) = snd (cut q m) /\ map fst (fst (fst (cut_w clone q m w))) = map fst (fst (cut q m)).
    Proof. unfold cut, cut_w. destruct (invalid_interval_panic q); [|auto]. apply cut_loop_w_shape. reflexivity. Qed.
  End Q.
End Any.

Section Exact.
  Context {I : Type} {OI : Ord I} {DI : DiscreteFinite I} {PL : PointLaws I}.
  Context {K : Type} {IK : InclusiveInterval I K} {IL : IntervalLaws I K}.
  Context {V W : Type} (clone : W -> V -> V * W).
  Notation entry := (K * V)%type.

  Definition clone_if (b : bool) (v : V) (w : W) : list V * W := if b then clone_all clone w [v] else ([], w).
  Fixpoint pieces_w (a b : Z) (M : list entry) (w : W) : list V * W :=
    match M with
    | [] => ([], w)
    | e :: M => let (x, w) := clone_if (elo e <? a) (snd e) w in
                let (y, w) := clone_if (b <? ehi e) (snd e) w in
                let (r, w) := pieces_w a b M w in (x ++ y ++ r, w)
    end.
  Lemma clone_all_app w l l' : clone_all clone w (l ++ l') =
    let (x, w1) := clone_all clone w l in let (y, w2) := clone_all clone w1 l' in (x ++ y, w2).
  Proof.
    revert w. induction l as [|v l IH]; intros w; cbn [app clone_all].
    - destruct (clone_all clone w l'). reflexivity.
    - destruct (clone w v) as [v' w1]. rewrite IH. destruct (clone_all clone w1 l) as [x w2]. destruct (clone_all clone w2 l') as [y w3]. reflexivity.
  Qed.
  Lemma pieces_w_late a b M w : Forall (fun e => a <= elo e) M ->
    pieces_w a b M w = clone_all clone w (map snd (filter (fun e => b <? ehi e) M)).
  Proof.
    intros F. revert w. induction F as [|e M Fe F IH]; intros w; cbn [pieces_w filter]; [reflexivity|].
    replace (elo e <? a) with false by lia. unfold clone_if at 1. destruct (b <? ehi e).
    - unfold clone_if. cbn [clone_all map]. destruct (clone w (snd e)) as [v' w1]. rewrite IH. destruct (clone_all clone w1 _) as [y w2]. reflexivity.
    - unfold clone_if. rewrite IH. destruct (clone_all clone w _) as [y w2]. reflexivity.
  Qed.
  Lemma pieces_w_exact a b M w : WF M -> Forall (meets a b) M -> 
    pieces_w a b M w = clone_all clone w (map snd (filter (fun e => elo e <? a) M) ++ map snd (filter (fun e => b <? ehi e) M)) /\
    (length (filter (fun e => (elo e <? a)%Z) M) <= 1)%nat /\ (length (filter (fun e => (b <? ehi e)%Z) M) <= 1)%nat.
  Proof.
    intros Wf F. rewrite clone_all_app. destruct M as [|e M]; [cbn; auto|]. cbn [pieces_w filter]. pose proof Wf as Wf'. apply WF_cons in Wf. destruct Wf as (Ve & Wf & Hl).
    apply Forall_cons_iff in F. destruct F as [Fe F].
    assert (L : Forall (fun x => a <= elo x) M). { rewrite Forall_forall in *. intros x Hx. specialize (Hl x Hx). unfold meets in *. lia. }
    assert (T : forall w, pieces_w a b M w = clone_all clone w (map snd (filter (fun e => b <? ehi e) M))) by (intros u; apply pieces_w_late, L).
    assert (N : filter (fun x => elo x <? a) M = []). { clear - L. induction L as [|x M Hx L IH]; [reflexivity|]. cbn. replace (elo x <? a) with false by lia. exact IH. }
    rewrite N.
    assert (S1 : (length (filter (fun x => (b <? ehi x)%Z) (e :: M)) <= 1)%nat).
    { revert Wf'. assert (F' : Forall (meets a b) (e :: M)) by (constructor; assumption). revert F'. generalize (e :: M). clear. intros M. induction M as [|x M IH]; intros F Wx; cbn [filter]; [cbn; lia|].
      apply WF_cons in Wx. destruct Wx as (Vx & Wx & Hl). apply Forall_cons_iff in F. destruct F as [Fx F]. destruct (b <? ehi x) eqn:E; [|apply IH; assumption].
      destruct M as [|y M]; [cbn; lia|]. apply Forall_inv in Hl, F. unfold meets in *. lia. }
    split; [|split; [destruct (elo e <? a); cbn; lia|exact S1]].
    destruct M as [|y M].
    - cbn [filter map pieces_w]. unfold clone_if. destruct (elo e <? a), (b <? ehi e); cbn [map clone_all]; try (destruct (clone w (snd e)) as [v1 w1]); try (destruct (clone w1 (snd e)) as [v2 w2]); reflexivity.
    - assert (E : b <? ehi e = false). { apply Forall_inv in Hl, F. unfold meets in *. lia. } rewrite E. unfold clone_if.
      destruct (elo e <? a); cbn [map clone_all]; try (destruct (clone w (snd e)) as [v1 w1]); rewrite T; destruct (clone_all clone _ _) as [r w2]; reflexivity.
  Qed.

  Lemma sub_filter_in {T} (P : T -> Prop) (f : T -> bool) (l : list T) : (forall x, In x l -> (f x = true <-> P x)) -> sub P l (filter f l).
  Proof.
    induction l as [|x l IH]; intros Hf; cbn [filter]; [constructor|]. destruct (f x) eqn:E.
    - apply sub_keep; [apply Hf; [left; reflexivity|exact E]|apply IH; intros y Hy; apply Hf; right; exact Hy].
    - apply sub_drop; [rewrite <- Hf, E; [discriminate|left; reflexivity]|apply IH; intros y Hy; apply Hf; right; exact Hy].
  Qed.
  Section Q.
    Context {Q : Type} {IQ : InclusiveInterval I Q}.
    Lemma cut_loop_w_values (q : Q) M B : lo q <= hi q -> Forall okv (M ++ B) -> Forall (meets (lo q) (hi q)) M -> Forall (right_of (hi q)) B ->
      forall pre acc w, exists out, fst (fst (cut_loop_w clone q pre (M ++ B) acc w)) = pre ++ out ++ B /\
        (map snd out, snd (cut_loop_w clone q pre (M ++ B) acc w)) = pieces_w (lo q) (hi q) M w.
    Proof.
      intros Vq HV HM HB. induction M as [|[k v] M IH]; intros pre acc w.
      - exists []. cbn [app pieces_w]. destruct B as [|[k v] B]; [auto|]. cbn [cut_loop_w]. apply Forall_inv in HB, HV. unfold right_of, okv, elo, ehi in *. cbn [fst] in *.
        rewrite overlaps_true by lia. replace (_ && _) with false by lia. auto.
      - cbn [app cut_loop_w]. apply Forall_cons_iff in HM. destruct HM as [Hk HM]. apply Forall_cons_iff in HV. destruct HV as [Vk HV]. unfold meets, okv, elo, ehi in Hk, Vk. cbn [fst] in *.
        rewrite overlaps_true by lia. replace (_ && _) with true by lia.
        destruct (cut_interval_ok k q) as (r & Er & Hb & (i & Ei & Hil & Hih) & Ha); try lia.
        rewrite Er, Ei. cbn [pieces_w]. unfold elo at 1, ehi at 1. cbn [fst snd].
        assert (P1 : exists o1, fst (insert_piece_w clone (before_cut r) v pre w) = pre ++ o1 /\
                  (map snd o1, snd (insert_piece_w clone (before_cut r) v pre w)) = clone_if (lo k <? lo q) v w).
        { destruct (before_cut r) as [x|].
          - replace (lo k <? lo q) with true by lia. cbn. destruct (clone w v) as [v1 w1]. exists [(ifrom x, v1)]. auto.
          - replace (lo k <? lo q) with false by lia. exists []. rewrite app_nil_r. auto. }
        destruct P1 as (o1 & E1 & C1). destruct (insert_piece_w clone (before_cut r) v pre w) as [pre1 w1]. cbn [fst snd] in *. rewrite <- C1.
        assert (P2 : exists o2, fst (insert_piece_w clone (after_cut r) v pre1 w1) = pre1 ++ o2 /\
                  (map snd o2, snd (insert_piece_w clone (after_cut r) v pre1 w1)) = clone_if (hi q <? hi k) v w1).
        { destruct (after_cut r) as [x|].
          - replace (hi q <? hi k) with true by lia. cbn. destruct (clone w1 v) as [v2 w2]. exists [(ifrom x, v2)]. auto.
          - replace (hi q <? hi k) with false by lia. exists []. rewrite app_nil_r. auto. }
        destruct P2 as (o2 & E2 & C2). destruct (insert_piece_w clone (after_cut r) v pre1 w1) as [pre2 w2]. cbn [fst snd] in *. rewrite <- C2.
        destruct (IH HV HM pre2 (acc ++ [(ifrom i, v)]) w2) as (o3 & E3 & C3). exists (o1 ++ o2 ++ o3). rewrite E3, <- C3. subst pre1 pre2.
        split; [rewrite <- !app_assoc; reflexivity|]. rewrite !map_app. reflexivity.
    Qed.
    Lemma sticks_before_rk (q : Q) (k : K) : lo q <= hi q -> lo k <= hi k -> (sticks_out_before q k <-> lo k < lo q <= hi k).
    Proof.
      intros Vq Vk. unfold sticks_out_before. rewrite overlap_rk. split.
      - intros (O & x & Hx & Y). apply covers_rk in Hx. specialize (Y (istart q)). rewrite covers_rk, plt_rk in Y. unfold lo, hi in *. lia.
      - intros X. split; [lia|]. exists (istart k). split; [apply covers_rk; unfold lo, hi in *; lia|]. intros y Hy. apply covers_rk in Hy. apply plt_rk. unfold lo, hi in *. lia.
    Qed.
    Lemma sticks_after_rk (q : Q) (k : K) : lo q <= hi q -> lo k <= hi k -> (sticks_out_after q k <-> lo k <= hi q < hi k).
    Proof.
      intros Vq Vk. unfold sticks_out_after. rewrite overlap_rk. split.
      - intros (O & x & Hx & Y). apply covers_rk in Hx. specialize (Y (iend q)). rewrite covers_rk, plt_rk in Y. unfold lo, hi in *. lia.
      - intros X. split; [lia|]. exists (iend k). split; [apply covers_rk; unfold lo, hi in *; lia|]. intros y Hy. apply covers_rk in Hy. apply plt_rk. unfold lo, hi in *. lia.
    Qed.
    Lemma cut_w_exact (q : Q) (m : NoditMap K V) w : WF m -> valid q -> exists A out B bs fs,
      sub (fun e => before (fst e) q) m A /\ sub (fun e => before q (fst e)) m B /\
      sub (fun e => sticks_out_before q (fst e)) m bs /\ sub (fun e => sticks_out_after q (fst e)) m fs /\
      (length bs <= 1)%nat /\ (length fs <= 1)%nat /\
      fst (fst (cut_w clone q m w)) = A ++ out ++ B /\
      (map snd out, snd (cut_w clone q m w)) = clone_all clone w (map snd bs ++ map snd fs).
    Proof.
      intros Wf Vq. pose proof Vq as Vq'. apply valid_rk in Vq'. destruct (split3 m (lo q) (hi q) Wf Vq') as (A & M & B & -> & HA & HM & HB).
      pose proof Wf as W1. apply WF_app in W1. destruct W1 as (WA & W1 & _). pose proof W1 as W2. apply WF_app in W2. destruct W2 as (WM & WB & _).
      unfold cut_w. rewrite (iip_valid _ Vq). unfold lower_bound. rewrite seek_split; [|exact Wf|exact HA|].
      2:{ pose proof (proj2 W1) as V'. rewrite Forall_app in *. destruct V' as [_ VB]. split; rewrite Forall_forall in *; intros x Hx.
          - specialize (HM x Hx). unfold meets, lo in *. lia.
          - specialize (HB x Hx). specialize (VB x Hx). unfold right_of, okv, lo, hi in *. lia. }
      cbn [fst snd]. destruct (cut_loop_w_values q M B Vq' (proj2 W1) HM HB A [] w) as (out & E & C).
      destruct (pieces_w_exact (lo q) (hi q) M w WM HM) as (Ep & L1 & L2).
      exists A, out, B, (filter (fun e => elo e <? lo q) M), (filter (fun e => hi q <? ehi e) M).
      pose proof (proj2 WA) as VA. pose proof (proj2 WM) as VM. pose proof (proj2 WB) as VB. rewrite Forall_forall in *.
      pose proof (fun k => sticks_before_rk q k Vq') as SB. pose proof (fun k => sticks_after_rk q k Vq') as SA.
      assert (N : forall (P : entry -> Prop) (l : list entry), (forall e, In e l -> ~ P e) -> sub P l []) by (intros P l X; apply sub_none, Forall_forall, X).
      unfold left_of, right_of, meets, okv, elo, ehi in *.
      repeat split.
      - rewrite <- (app_nil_r A) at 2. apply sub_app; [apply sub_all, Forall_forall; intros e He|apply N; intros e He].
        + rewrite before_rk; auto.
        + apply in_app_iff in He. destruct He as [He|He]; rewrite before_rk by auto; [specialize (HM e He)|specialize (HB e He); specialize (VB e He)]; cbv beta in *; lia.
      - change B with ([] ++ [] ++ B) at 2. apply sub_app; [|apply sub_app].
        + apply N. intros e He. rewrite before_rk by auto. specialize (HA e He). specialize (VA e He). cbv beta in *; lia.
        + apply N. intros e He. rewrite before_rk by auto. specialize (HM e He). cbv beta in *; lia.
        + apply sub_all, Forall_forall. intros e He. rewrite before_rk by auto. apply HB, He.
      - rewrite <- (app_nil_r (filter _ _)). change (?x ++ []) with ([] ++ x ++ []). apply sub_app; [|apply sub_app].
        + apply N. intros e He. rewrite SB by auto. specialize (HA e He). cbv beta in *; lia.
        + apply sub_filter_in. intros e He. rewrite SB by auto. specialize (HM e He). cbv beta in *; lia.
        + apply N. intros e He. rewrite SB by auto. specialize (HB e He). cbv beta in *; lia.
      - rewrite <- (app_nil_r (filter _ _)). change (?x ++ []) with ([] ++ x ++ []). apply sub_app; [|apply sub_app].
        + apply N. intros e He. rewrite SA by auto. specialize (HA e He). cbv beta in *; lia.
        + apply sub_filter_in. intros e He. rewrite SA by auto. specialize (HM e He). cbv beta in *; lia.
        + apply N. intros e He. rewrite SA by auto. specialize (HB e He). cbv beta in *; lia.
      - exact L1.
      - exact L2.
      - exact E.
      - rewrite C. exact Ep.
    Qed.
  End Q.
End Exact.
