(** * EffectZosditRight: facts behind C158, user code with the right answers. *)
From Coq Require Import List Bool Arith ZArith Lia.
From Verif Require Import Base BTree UtilsModel IntervalModel NoditModel ZosditModel ZosditOps Spec TreeShape
  PointFacts IntervalFacts NoditFacts TreeFacts TreeProofs ZosditFacts ZosditMut ZosditProofs
  EffectModel EffectOps EffectFacts EffectRight EffectZosditModel EffectZosditOps EffectZosditFacts.
Import ListNotations.
Open Scope nat_scope.

Section Bind.
  Context {W K V : Type}.
  Definition zgives {A} (x : zchanging (W := W) (K := K) (V := V) A) (r : ZosditMap K V * outcome A) : Prop := forall w, fst (x w) = r.
  Lemma zgives_ret {A} z (o : outcome A) : zgives (zret z o) (z, o).
  Proof. intros w. reflexivity. Qed.
  Lemma zgives_bind {A B} z (x : user W A) (f : A -> zchanging B) a r : answers x (Val a) -> zgives (f a) r -> zgives (zbind z x f) r.
  Proof. intros X Y w. unfold zbind. specialize (X w). destruct (x w) as [o w']. cbn in X. subst o. apply Y. Qed.
  Lemma zgives_obind {A B} z (x : user W A) (f : A -> zchanging B) o (g : A -> ZosditMap K V * outcome B) : answers x o -> (forall a, o = Val a -> zgives (f a) (g a)) ->
    zgives (zbind z x f) (match o with Val a => g a | Panic => (z, Panic) end).
  Proof. intros X Y w. unfold zbind. specialize (X w). destruct (x w) as [r w']. cbn in X. subst r. destruct o; [apply Y|]; reflexivity. Qed.
End Bind.

Section Right.
  Context {W I : Type} `{PL : PointLaws I}.
  Context {K : Type} {IK : InclusiveInterval I K} {IL : IntervalLaws I K}.
  Context {V : Type} (veq : V -> V -> bool).
  Context (P : point_code W I) (RP : right_points P).
  Implicit Types (t : tree K (list V)) (z : ZosditMap K V).
  Section X.
    Context {X : Type} {IX : InclusiveInterval I X} (ix : interval_code W I X) (RX : right_intervals ix).
    Lemma r_exclusive p c x : answers (exclusive_comp_e P ix p c x) (Val (exclusive_comp p c x)).
    Proof.
      unfold exclusive_comp_e, exclusive_comp. eapply answers_bind; [apply r_start, RX|]. eapply answers_bind; [apply r_eq, RP|].
      apply (answers_bind _ _ (eqb p (istart x) && eqb p (iend x))).
      - destruct (eqb p (istart x)); [|apply answers_ret]. eapply answers_bind; [apply r_end, RX|]. apply r_eq, RP.
      - destruct (eqb p (istart x) && eqb p (iend x)); [apply answers_ret|]. eapply answers_bind; [apply r_start, RX|]. eapply answers_bind; [apply r_le, RP|].
        destruct (leb p (istart x)); [apply answers_ret|]. eapply answers_bind; [apply r_end, RX|]. eapply answers_bind; [apply r_ge, RP|]. destruct (geb p (iend x)); apply answers_ret.
    Qed.
    Lemma r_inclusive p c x : answers (inclusive_comp_e P ix p c x) (Val (inclusive_comp p c x)).
    Proof.
      unfold inclusive_comp_e, inclusive_comp. eapply answers_bind; [apply r_start, RX|]. eapply answers_bind; [apply r_lt, RP|].
      destruct (ltb p (istart x)); [apply answers_ret|]. eapply answers_bind; [apply r_end, RX|]. eapply answers_bind; [apply r_gt, RP|]. destruct (gtb p (iend x)); apply answers_ret.
    Qed.
  End X.
  Context (ik : interval_code W I K) (RK : right_intervals ik) (C : entry_code W I K V) (RC : right_entries veq C).
  Lemma r_entry_comp inner new : answers (entry_comp_e P ik inner new) (entry_comp inner new).
  Proof.
    unfold entry_comp_e, entry_comp. eapply answers_bind; [apply r_start, RK|]. eapply answers_bind; [apply r_exclusive, RK|]. eapply answers_bind; [apply r_end, RK|].
    eapply answers_bind; [apply r_exclusive, RK|]. destruct (exclusive_comp (istart new) Gt inner), (exclusive_comp (iend new) Lt inner); apply answers_out.
  Qed.
  (** A search that panics on no stored key. *)
  Lemma r_search_in (comp' : K -> user W comparison) (comp : K -> comparison) :
    (forall t, (forall e, In e (entries t) -> answers (comp' (fst e)) (Val (comp (fst e)))) -> answers (e_search comp' t) (Val (search comp t))) /\
    (forall n : edges K (list V), (forall e, In e (edges_entries n) -> answers (comp' (fst e)) (Val (comp (fst e)))) -> answers (e_search_node comp' n) (Val (search_node comp n))).
  Proof.
    apply tree_mutind.
    - intros _. apply answers_ret.
    - intros n IH. exact IH.
    - intros t IH. exact IH.
    - intros t IHt kv n IHn Ca. change (edges_entries (More t kv n)) with (entries t ++ kv :: edges_entries n) in Ca.
      change (search_node comp (More t kv n)) with (match comp (fst kv) with
        | Gt => let '(a, x, b) := search_node comp n in (entries t ++ kv :: a, x, b)
        | Eq => (entries t, Some kv, edges_entries n)
        | Lt => let '(a, x, b) := search comp t in (a, x, b ++ kv :: edges_entries n)
        end). eapply answers_bind; [apply Ca; apply in_or_app; right; left; reflexivity|]. destruct (comp (fst kv)).
      + apply answers_ret.
      + eapply answers_bind; [apply IHt; intros e He; apply Ca; apply in_or_app; auto|]. destruct (search comp t) as [[a x] b]. apply answers_ret.
      + eapply answers_bind; [apply IHn; intros e He; apply Ca; apply in_or_app; right; right; exact He|]. destruct (search_node comp n) as [[a x] b]. apply answers_ret.
  Qed.

  Context (kc : K -> I -> user W bool) (RKC : right_contains kc).
  Lemma r_last_cursor z t p : ZWF z -> entries t = z_inner z -> answers (last_value_cursor_e P ik t p) (Val (last_value_cursor z p)).
  Proof.
    intros (Z & _) E. unfold last_value_cursor_e, last_value_cursor. eapply answers_bind; [apply (r_lower _ _ (r_exclusive ik RK p Gt) _ (orderly_exclusive_Gt p _ Z) _ E)|]. apply answers_ret.
  Qed.
  Lemma r_get_last z t p : ZWF z -> entries t = z_inner z -> answers (get_last_value_at_point_e P ik kc t p) (Val (get_last_value_at_point z p)).
  Proof.
    intros Wz E. unfold get_last_value_at_point_e, get_last_value_at_point. eapply answers_bind; [apply (r_last_cursor z), E; exact Wz|].
    destruct (cursor_key_value (last_value_cursor z p)) as [[k vs]|]; [|apply answers_ret]. eapply answers_bind; [apply RKC|]. apply answers_ret.
  Qed.
  Lemma r_remove_last z t p : ZWF z -> entries t = z_inner z -> zgives (remove_last_value_at_point_e P ik kc p (z_len z) t) (remove_last_value_at_point p z).
  Proof.
    intros Wz E. unfold remove_last_value_at_point_e, remove_last_value_at_point. rewrite E. destruct z as [n i]. cbn [z_len z_inner] in *.
    eapply zgives_bind; [apply (r_last_cursor (mkZosdit n i)), E; exact Wz|]. destruct (snd (last_value_cursor (mkZosdit n i) p)) as [|[k vs] rest]; [apply zgives_ret|].
    eapply zgives_bind; [apply RKC|]. destruct (contains_point k p); [|apply zgives_ret]. destruct (vec_pop vs) as [[v [|? ?]]|]; apply zgives_ret.
  Qed.

  Section Q.
    Context {Q : Type} {IQ : InclusiveInterval I Q} (iq : interval_code W I Q) (RQ : right_intervals iq).
    Lemma r_zero_overlap z t q : ZWF z -> entries t = z_inner z -> answers (is_zero_overlap_e P ik iq t q) (is_zero_overlap z q).
    Proof.
      intros (Z & _) E. unfold is_zero_overlap_e, is_zero_overlap. apply answers_obind; [apply r_iip, RQ|]. intros _ _.
      eapply answers_bind; [apply (r_start iq RQ)|]. eapply answers_bind; [apply (r_end iq RQ)|].
      rewrite <- (orderly_range_shape_free _ _ _ (orderly_exclusive_Gt (istart q) _ Z) (orderly_exclusive_Lt (iend q) _ Z) t E). unfold e_range, t_range.
      eapply answers_bind; [|apply answers_ret].
      eapply answers_bind; [apply (proj1 (r_search _ _ (r_exclusive ik RK _ _)))|]. destruct (search _ t) as [[a x] b].
      eapply answers_bind; [apply (proj1 (r_search _ _ (r_exclusive ik RK _ _)))|]. destruct (search _ t) as [[a' x'] b']. apply answers_ret.
    Qed.
    Lemma r_zoverlapping z t q : ZWF z -> entries t = z_inner z -> answers (zosdit_overlapping_e P ik iq t q) (zosdit_overlapping z q).
    Proof.
      intros (Z & _) E. unfold zosdit_overlapping_e, zosdit_overlapping. apply answers_obind; [apply r_iip, RQ|]. intros _ _.
      eapply answers_bind; [apply (r_start iq RQ)|]. eapply answers_bind; [apply (r_end iq RQ)|].
      rewrite <- (orderly_range_shape_free _ _ _ (orderly_inclusive_Lt (istart q) _ Z) (orderly_inclusive_Gt (iend q) _ Z) t E). unfold e_range, t_range.
      eapply answers_bind; [|apply answers_ret].
      eapply answers_bind; [apply (proj1 (r_search _ _ (r_inclusive ik RK _ _)))|]. destruct (search _ t) as [[a x] b].
      eapply answers_bind; [apply (proj1 (r_search _ _ (r_inclusive ik RK _ _)))|]. destruct (search _ t) as [[a' x'] b']. apply answers_ret.
    Qed.
    Context (k_overlaps : K -> Q -> user W bool) (RKO : right_overlaps k_overlaps).
    Lemma r_clone_all vs : answers (clone_all C vs) (Val vs).
    Proof. induction vs as [|v vs IH]; [apply answers_ret|]. cbn [clone_all]. eapply answers_bind; [apply (r_clone veq C RC)|]. eapply answers_bind; [exact IH|]. apply answers_ret. Qed.
    Lemma r_z_piece i vs : answers (z_piece_e C i vs) (Val (ifrom i, vs)).
    Proof. eapply answers_bind; [apply (r_from veq C RC)|]. eapply answers_bind; [apply r_clone_all|]. apply answers_ret. Qed.
    Lemma r_give_out i vs : answers (give_out C (Some i) vs) (Val (map (fun v => (ifrom i, v)) vs)).
    Proof.
      induction vs as [|v vs IH]; [apply answers_ret|]. cbn [give_out map]. eapply answers_bind; [apply answers_out|]. eapply answers_bind; [apply (r_from veq C RC)|].
      eapply answers_bind; [exact IH|]. apply answers_ret.
    Qed.
    Lemma r_zcut_loop q post : forall n pre acc, zgives (zosdit_cut_loop_e P ik C iq k_overlaps Panic q n pre post acc) (zosdit_cut_loop q n pre post acc).
    Proof.
      induction post as [|[k vs] rest IH]; intros n pre acc; cbn [zosdit_cut_loop_e zosdit_cut_loop]; [apply zgives_ret|].
      pose proof (RKO k q) as X. destruct (overlaps k q) as [b|]; [|exact (zgives_obind _ _ _ _ (fun _ => (mkZosdit 0 [], Panic)) X (fun a H => ltac:(discriminate)))].
      eapply zgives_bind; [exact X|]. destruct b; [|apply zgives_ret]. clear X. pose proof (r_cut_interval P RP ik iq RK RQ k q) as X.
      destruct (cut_interval k q) as [r|]; [|exact (zgives_obind _ _ _ _ (fun _ => (mkZosdit 0 [], Panic)) X (fun a H => ltac:(discriminate)))].
      eapply zgives_bind; [exact X|]. clear X.
      assert (Tail : forall n pre, zgives (zbind (mkZosdit n (pre ++ rest)) (uout (subtract Panic n (length vs))) (fun n =>
          zbind (mkZosdit n (pre ++ rest)) (give_out C (inside_cut r) vs) (fun u => zosdit_cut_loop_e P ik C iq k_overlaps Panic q n pre rest (acc ++ u))))
        (if Nat.ltb n (length vs) then (mkZosdit n (pre ++ rest), Panic)
         else match inside_cut r, vs with
              | None, _ :: _ => (mkZosdit (n - length vs) (pre ++ rest), Panic)
              | None, [] => zosdit_cut_loop q (n - length vs) pre rest acc
              | Some i, _ => zosdit_cut_loop q (n - length vs) pre rest (acc ++ map (fun v => (ifrom i, v)) vs)
              end)).
      { clear n pre. intros n pre. unfold subtract. destruct (Nat.ltb n (length vs)); [intros w; reflexivity|]. eapply zgives_bind; [apply answers_out|].
        destruct (inside_cut r) as [i|]; [eapply zgives_bind; [apply r_give_out|apply IH]|]. destruct vs as [|v vs]; [|intros w; reflexivity].
        eapply zgives_bind; [apply answers_ret|]. rewrite app_nil_r. apply IH. }
      unfold z_before, z_after, z_piece. destruct (before_cut r) as [i|], (after_cut r) as [j|]; cbn [fst snd];
        repeat (eapply zgives_bind; [apply r_z_piece|]); apply Tail.
    Qed.
    Lemma r_zcut below z t q : ZWF z -> entries t = z_inner z -> zgives (zosdit_cut_e P ik C iq k_overlaps below q (z_len z) t) (zosdit_cut q z).
    Proof.
      intros (Z & _ & L) E w. rewrite (zcut_below P ik C iq k_overlaps below Panic) by (rewrite E; exact L). revert w. change (zgives (zosdit_cut_e P ik C iq k_overlaps Panic q (z_len z) t) (zosdit_cut q z)).
      unfold zosdit_cut_e, zosdit_cut. replace (mkZosdit (z_len z) (entries t)) with z by (destruct z; cbn in *; congruence).
      apply zgives_obind; [apply r_iip, RQ|]. intros _ _. eapply zgives_bind; [apply (r_start iq RQ)|].
      eapply zgives_bind; [apply (r_upper _ _ (r_exclusive ik RK _ _) _ (orderly_exclusive_Lt (istart q) _ Z) _ E)|]. apply r_zcut_loop.
    Qed.
  End Q.

  Lemma apart_of_zero z k : ZWF z -> valid k -> is_zero_overlap z k = Val true -> Forall (apart_from (lo k) (hi k)) (z_inner z).
  Proof.
    intros (Z & _) Vk IZ. apply valid_rk in Vk.
    destruct (Forall_dec (fun e => apart_from (lo k) (hi k) e) (fun e => ltac:(unfold apart_from; destruct (Z_le_gt_dec (ehi e) (lo k)); [left; lia|destruct (Z_le_gt_dec (hi k) (elo e)); [left; lia|right; lia]])) (z_inner z)) as [A|A]; [exact A|].
    rewrite (proj2 (is_zero_overlap_rk z k Z Vk) A) in IZ. discriminate.
  Qed.
  Lemma r_strict_back z t k v : ZWF z -> ZD (z_inner z) -> entries t = z_inner z -> zgives (insert_strict_back_e P ik k v (z_len z) t) (insert_strict_back k v z).
  Proof.
    intros Wz Dz E. unfold insert_strict_back_e, insert_strict_back. replace (mkZosdit (z_len z) (entries t)) with z by (destruct z; cbn in *; congruence).
    destruct (valid_dec k) as [Vk|Nk]; [|pose proof (r_iip ik RK k) as X; rewrite (iip_invalid _ Nk) in *; exact (zgives_obind _ _ _ _ (fun _ => (z, Panic)) X (fun a H => ltac:(discriminate)))].
    pose proof (r_iip ik RK k) as X. rewrite (iip_valid _ Vk) in *. eapply zgives_bind; [exact X|]. clear X. pose proof (r_zero_overlap ik RK z t k Wz E) as X.
    pose proof (apart_of_zero z k Wz Vk) as A.
    destruct (is_zero_overlap z k) as [b|]; [|exact (zgives_obind _ _ _ _ (fun _ => (z, Panic)) X (fun a H => ltac:(discriminate)))].
    eapply zgives_bind; [exact X|]. destruct b; cbn [negb]; [|apply zgives_ret]. specialize (A eq_refl). pose proof Wz as (Z & _). apply valid_rk in Vk.
    eapply zgives_bind.
    - apply (proj1 (r_search_in _ (entry_answer k))). intros e He. rewrite <- (entry_answer_val k (fst e)); [apply r_entry_comp|exact Vk| |].
      + rewrite E in He. apply (ZS_okv _ _ Z He).
      + rewrite E in He. rewrite Forall_forall in A. exact (A e He).
    - rewrite <- E in *. rewrite (t_entry_push_same k v t Vk Z Dz A). unfold t_entry_push. destruct (search (entry_answer k) t) as [[a [[k' vs]|]] b]; apply zgives_ret.
  Qed.
  (** Without [stored_once]: the answer is the same. *)
  Lemma r_strict_back_answer z t k v w : ZWF z -> entries t = z_inner z -> snd (fst (insert_strict_back_e P ik k v (z_len z) t w)) = snd (insert_strict_back k v z).
  Proof.
    intros Wz E. revert w. change (forall w, (fun x => snd (fst (x w)) = snd (insert_strict_back k v z)) (insert_strict_back_e P ik k v (z_len z) t)). cbv beta.
    unfold insert_strict_back_e, insert_strict_back. replace (mkZosdit (z_len z) (entries t)) with z by (destruct z; cbn in *; congruence).
    assert (Step : forall {A} (x : user W A) o (f : A -> zchanging (result unit V)) r, answers x o ->
      (forall a, o = Val a -> forall w, snd (fst (f a w)) = r) -> (o = Panic -> r = Panic) -> forall w, snd (fst (zbind z x f w)) = r).
    { intros A x o f r X Y N w. unfold zbind. specialize (X w). destruct (x w) as [[a|] w']; cbn in X; [apply (Y a); congruence|]. symmetry. apply N. congruence. }
    destruct (valid_dec k) as [Vk|Nk]; pose proof (r_iip ik RK k) as X; [rewrite (iip_valid _ Vk) in *|rewrite (iip_invalid _ Nk) in *].
    2: { apply (Step _ _ _ _ _ X); [discriminate|reflexivity]. }
    apply (Step _ _ _ _ _ X); [|discriminate]. intros a _. clear X a. pose proof (r_zero_overlap ik RK z t k Wz E) as X. pose proof (apart_of_zero z k Wz Vk) as A.
    destruct (is_zero_overlap z k) as [b|]; [|apply (Step _ _ _ _ _ X); [discriminate|reflexivity]].
    apply (Step _ _ _ _ _ X); [|discriminate]. intros a Ha. injection Ha as <-. destruct b; cbn [negb]; [|reflexivity]. specialize (A eq_refl). pose proof Wz as (Z & _). apply valid_rk in Vk.
    assert (En : forall e, In e (z_inner z) -> entry_comp (fst e) k = Val (entry_answer k (fst e))).
    { intros e He. rewrite Forall_forall in A. apply entry_answer_val; [exact Vk|apply (ZS_okv _ _ Z He)|apply (A e He)]. }
    rewrite (entry_push_seek k v (z_inner z) En []). cbn [snd].
    apply (Step _ _ (Val (search (entry_answer k) t))); [|reflexivity|discriminate].
    apply (proj1 (r_search_in _ (entry_answer k))). intros e He. rewrite E in He. rewrite <- (En e He). apply r_entry_comp.
  Qed.

  Lemma r_strict_back_any z t k v w z' w' : ZWF z -> entries t = z_inner z -> insert_strict_back_e P ik k v (z_len z) t w = ((z', Val (Ok tt)), w') ->
    exists l1 l2 k', zosdit_iter z = l1 ++ l2 /\ zosdit_iter z' = l1 ++ (k', v) :: l2 /\
      same_points k' k /\ (forall e, In e l1 -> up_to (fst e) k) /\ (forall e, In e l2 -> up_to k (fst e)).
  Proof.
    intros Wz E X. unfold insert_strict_back_e in X. pose proof Wz as (Z & _).
    apply zbind_inv in X. destruct X as [(_ & N & _)|([] & w0 & X0 & X)]; [discriminate|].
    assert (Vk : valid k). { destruct (valid_dec k) as [Vk|Nk]; [exact Vk|]. pose proof (r_iip ik RK k w) as Y. rewrite X0, (iip_invalid _ Nk) in Y. discriminate. }
    apply zbind_inv in X. destruct X as [(_ & N & _)|(b & w1 & X1 & X)]; [discriminate|]. pose proof (r_zero_overlap ik RK z t k Wz E w0) as Y. rewrite X1 in Y. cbn in Y.
    destruct b; cbn [negb] in X; [|discriminate]. pose proof (apart_of_zero z k Wz Vk (eq_sym Y)) as A. apply valid_rk in Vk.
    apply zbind_inv in X. destruct X as [(_ & N & _)|(p & w2 & X2 & X)]; [discriminate|]. injection X as <- <-.
    assert (Ep : p = search (entry_answer k) t).
    { assert (R : answers (e_search (fun inner => entry_comp_e P ik inner k) t) (Val (search (entry_answer k) t))).
      { apply (proj1 (r_search_in _ (entry_answer k))). intros e He. rewrite E in He. rewrite Forall_forall in A. rewrite <- (entry_answer_val k (fst e)); [apply r_entry_comp|exact Vk|apply (ZS_okv _ _ Z He)|exact (A e He)]. }
      specialize (R w1). rewrite X2 in R. injection R as ->. reflexivity. }
    rewrite <- E in Z, A. destruct (t_entry_push_any k v t Vk Z A) as (l1 & l2 & k' & E1 & E2 & L1 & L2 & F1 & F2). unfold t_entry_push in E2. rewrite <- Ep in E2.
    exists l1, l2, k'. unfold zosdit_iter. cbn [z_inner]. rewrite <- E. split; [exact E1|]. split; [exact E2|].
    assert (Hin : forall e, In e (l1 ++ l2) -> (elo e <= ehi e)%Z).
    { intros e He. apply (iter_okv z e Wz). unfold zosdit_iter. rewrite <- E, E1. exact He. }
    split; [intros x; rewrite !covers_rk, L1, L2; tauto|]. rewrite Forall_forall in F1, F2. split; intros e He.
    - apply up_to_rk; [apply Hin, in_or_app; left; exact He|exact Vk|apply (F1 e He)].
    - apply up_to_rk; [exact Vk|apply Hin, in_or_app; right; exact He|apply (F2 e He)].
  Qed.

  Context (overlaps_k : K -> K -> user W bool) (RO : right_overlaps overlaps_k).
  Lemma r_zcall below t c z w : ZWF z -> (cutting c = false -> ZD (z_inner z)) -> entries t = z_inner z ->
    fst (fst (zcall_do C P ik kc overlaps_k below t c (z_len z) w)) = zstep z (as_zop c).
  Proof.
    intros Wz Dz E. destruct c as [k v|p|q]; cbn [zcall_do as_zop zstep]; unfold seeing.
    - pose proof (r_strict_back z t k v Wz (Dz eq_refl) E w) as X. destruct (insert_strict_back_e P ik k v (z_len z) t w) as [[z1 o] w1]. cbn in *. rewrite <- X. reflexivity.
    - pose proof (r_remove_last z t p Wz E w) as X. destruct (remove_last_value_at_point_e P ik kc p (z_len z) t w) as [[z1 o] w1]. cbn in *. rewrite <- X. reflexivity.
    - pose proof (r_zcut ik RK overlaps_k RO below z t q Wz E w) as X. destruct (zosdit_cut_e P ik C ik overlaps_k below q (z_len z) t w) as [[z1 o] w1]. cbn in *. rewrite <- X. reflexivity.
  Qed.
  Lemma r_zhistory below T cs : faithful T -> Forall (fun c => cutting c = false) cs -> forall z w, zreachable z -> ZD (z_inner z) ->
    fst (fst (zehistory C P ik kc overlaps_k below T cs z w)) = fold_left zstep (map as_zop cs) z.
  Proof.
    intros TF. induction cs as [|c cs IH]; intros N z w R Dz; [reflexivity|]. cbn [zehistory map fold_left]. inversion N as [|? ? Nc N']; subst.
    pose proof (r_zcall below (T (length cs) (z_inner z)) c z w (zreachable_ZWF z R) (fun _ => Dz) (TF _ _)) as X. destruct (zcall_do _ _ _ _ _ _ _ c _ w) as [[z1 s] w1]. cbn [fst] in X.
    assert (R1 : zreachable z1) by (destruct R as [ops ->]; exists (ops ++ [as_zop c]); unfold zrun; rewrite fold_left_app; exact X).
    assert (D1 : ZD (z_inner z1)) by (rewrite X; apply zstep_ZD; [apply zreachable_ZWF, R|exact Dz|destruct c; [exact Logic.I|exact Logic.I|discriminate]]).
    rewrite <- X. specialize (IH N' z1 w1 R1 D1). destruct (zehistory _ _ _ _ _ _ _ cs z1 w1) as [[z2 h2] w2]. exact IH.
  Qed.
End Right.
