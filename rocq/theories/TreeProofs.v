(** * TreeProofs: the crate's comparators are orderly in every state it searches. *)
From Coq Require Import List ZArith Bool Arith Lia ZifyBool Sorting.Sorted.
From Verif Require Import Base BTree UtilsModel IntervalModel NoditModel ZosditModel ZosditOps Spec TreeShape
  PointFacts IntervalFacts ListFacts NoditFacts ZosditFacts ZosditMut ZosditProofs TreeFacts.
Import ListNotations.
Open Scope Z_scope.

Section Proofs.
  Context {I : Type} `{PL : PointLaws I}.
  Context {K : Type} {IK : InclusiveInterval I K} {IL : IntervalLaws I K}.
  Context {V : Type}.
  Implicit Types (k : K) (p : I).

  Lemma orderly_WF (comp : K -> comparison) (m : NoditMap K V) : WF m ->
    (forall a b, lo a <= hi a -> lo b <= hi b -> hi a < lo b -> follows (comp a) (comp b)) -> orderly comp m.
  Proof.
    intros W F. induction m as [|e m IH]; [constructor|]. apply WF_cons in W. destruct W as (Ve & W & L). apply SS_cons. split; [apply IH, W|].
    rewrite Forall_forall in *. intros e' He'. apply F; [exact Ve|apply (WF_okv m e' W He')|apply (L e' He')].
  Qed.
  Lemma orderly_ZS (comp : K -> comparison) (l : BTreeMap K (list V)) : ZS l ->
    (forall a b, lo a <= hi a -> lo b <= hi b -> hi a <= lo b -> follows (comp a) (comp b)) -> orderly comp l.
  Proof.
    intros W F. induction l as [|e m IH]; [constructor|]. apply ZS_cons in W. destruct W as (Ve & W & L). apply SS_cons. split; [apply IH, W|].
    rewrite Forall_forall in *. intros e' He'. apply F; [exact Ve|apply (ZS_okv m e' W He')|apply (L e' He')].
  Qed.

  Lemma orderly_overlapping p (m : NoditMap K V) : WF m -> orderly (overlapping_comp p) m.
  Proof.
    intros W. apply orderly_WF; [exact W|]. intros a b Va Vb L. unfold follows. rewrite overlapping_comp_Gt by exact Va. rewrite overlapping_comp_Lt. lia.
  Qed.
  Lemma orderly_touching_start p (m : NoditMap K V) : WF m -> orderly (touching_start_comp p) m.
  Proof.
    intros W. apply orderly_WF; [exact W|]. intros a b Va Vb L. unfold follows. rewrite !touching_start_comp_rk, Z.compare_gt_iff, Z.compare_lt_iff. lia.
  Qed.
  Lemma orderly_touching_end p (m : NoditMap K V) : WF m -> orderly (touching_end_comp p) m.
  Proof.
    intros W. apply orderly_WF; [exact W|]. intros a b Va Vb L. unfold follows. rewrite !touching_end_comp_rk, Z.compare_gt_iff, Z.compare_lt_iff. lia.
  Qed.
  Lemma orderly_starts k (m : NoditMap K V) : WF m -> orderly (fun inner => starts_comp inner k) m.
  Proof.
    intros W. apply orderly_WF; [exact W|]. intros a b Va Vb L. unfold follows, starts_comp. rewrite !cmp_rk, Z.compare_gt_iff, Z.compare_lt_iff. unfold lo, hi in *. lia.
  Qed.

  Lemma orderly_exclusive_Gt p (l : BTreeMap K (list V)) : ZS l -> orderly (exclusive_comp p Gt) l.
  Proof.
    intros W. apply orderly_ZS; [exact W|]. intros a b Va Vb L. unfold follows. rewrite exclusive_Gt_Gt by exact Va. rewrite exclusive_Gt_Lt by exact Vb. lia.
  Qed.
  Lemma orderly_exclusive_Lt p (l : BTreeMap K (list V)) : ZS l -> orderly (exclusive_comp p Lt) l.
  Proof.
    intros W. apply orderly_ZS; [exact W|]. intros a b Va Vb L. unfold follows. rewrite exclusive_Lt_Gt by exact Va. rewrite exclusive_Lt_Lt by exact Vb. lia.
  Qed.
  Lemma inclusive_not_Eq p c k : c <> Eq -> inclusive_comp p c k <> Eq.
  Proof. intros N. unfold inclusive_comp. destruct (ltb p (istart k)); [discriminate|]. destruct (gtb p (iend k)); [discriminate|exact N]. Qed.
  Lemma orderly_inclusive_Lt p (l : BTreeMap K (list V)) : ZS l -> orderly (inclusive_comp p Lt) l.
  Proof.
    intros W. apply orderly_ZS; [exact W|]. intros a b Va Vb L. unfold follows. rewrite inclusive_Lt_Gt by exact Va.
    pose proof (inclusive_not_Eq p Lt b). pose proof (inclusive_Lt_Gt p b Vb) as X. destruct (inclusive_comp p Lt b); [destruct (H1 ltac:(discriminate) eq_refl)|auto|].
    left. pose proof (proj1 X eq_refl). lia.
  Qed.
  Lemma orderly_inclusive_Gt p (l : BTreeMap K (list V)) : ZS l -> orderly (inclusive_comp p Gt) l.
  Proof.
    intros W. apply orderly_ZS; [exact W|]. intros a b Va Vb L. unfold follows. rewrite inclusive_Gt_Gt by exact Va. rewrite inclusive_Gt_Lt by exact Vb. lia.
  Qed.

  (** ** The [entry] search of [insert_strict_back] *)
  Definition entry_answer k (inner : K) : comparison := match entry_comp inner k with Val c => c | Panic => Lt end.
  Lemma entry_answer_val k k' : lo k <= hi k -> lo k' <= hi k' -> hi k' <= lo k \/ hi k <= lo k' -> entry_comp k' k = Val (entry_answer k k').
  Proof. intros Vk Vk' A. unfold entry_answer. destruct (entry_comp_rk k' k Vk' Vk A) as [(-> & _)|[(-> & _)|(-> & _)]]; reflexivity. Qed.
  Lemma entry_orderly' k (l : BTreeMap K (list V)) : lo k <= hi k -> ZS l -> Forall (apart_from (lo k) (hi k)) l -> orderly' (entry_answer k) l.
  Proof.
    intros Vk W A. induction l as [|e l IH]; [constructor|]. apply ZS_cons in W. destruct W as (Ve & W & L). apply Forall_cons_iff in A. destruct A as [Ae A].
    apply SS_cons. split; [apply IH; assumption|]. rewrite Forall_forall in *. intros e' He'. specialize (A e' He'). specialize (L e' He'). pose proof (ZS_okv l e' W He') as Ve'.
    unfold apart_from, elo, ehi in *. unfold follows', entry_answer.
    destruct (entry_comp_rk (fst e) k Ve Vk Ae) as [(-> & ?)|[(-> & ?)|(-> & ?)]]; destruct (entry_comp_rk (fst e') k Ve' Vk A) as [(-> & ?)|[(-> & ?)|(-> & ?)]]; auto; exfalso; lia.
  Qed.
  Lemma entry_orderly k (l : BTreeMap K (list V)) : lo k <= hi k -> ZS l -> ZD l -> Forall (apart_from (lo k) (hi k)) l -> orderly (entry_answer k) l.
  Proof.
    intros Vk W Dl A. induction l as [|e l IH]; [constructor|]. apply ZS_cons in W. destruct W as (Ve & W & L). apply Forall_cons_iff in A. destruct A as [Ae A].
    apply ZD_cons in Dl. destruct Dl as [Dl Df].
    apply SS_cons. split; [apply IH; assumption|]. rewrite Forall_forall in *. intros e' He'. specialize (A e' He'). specialize (L e' He'). specialize (Df e' He'). pose proof (ZS_okv l e' W He') as Ve'.
    unfold apart_from, elo, ehi in *. unfold follows, entry_answer.
    destruct (entry_comp_rk (fst e) k Ve Vk Ae) as [(-> & ?)|[(-> & ?)|(-> & ?)]]; destruct (entry_comp_rk (fst e') k Ve' Vk A) as [(-> & ?)|[(-> & ?)|(-> & ?)]]; auto; exfalso; lia.
  Qed.
  Lemma entry_push_seek k (v : V) (l : BTreeMap K (list V)) : (forall e, In e l -> entry_comp (fst e) k = Val (entry_answer k (fst e))) -> forall pre,
    entry_push k v pre l = Val (pre ++ match seek_place (entry_answer k) l with
                                | (a, Some (k', vs), b) => a ++ (k', vs ++ [v]) :: b
                                | (a, None, b) => a ++ (k, [v]) :: b end).
  Proof.
    induction l as [|[k' vs] l IH]; intros E pre; [reflexivity|]. cbn [entry_push]. pose proof (E (k', vs) (or_introl eq_refl)) as X. cbn in X. rewrite X.
    unfold seek_place. cbn [seek]. destruct (entry_answer k k') eqn:A.
    - cbn [fst]. rewrite A. reflexivity.
    - cbn [fst]. rewrite A. reflexivity.
    - rewrite IH by (intros e He; apply E; right; exact He). unfold seek_place. destruct (seek (entry_answer k) l) as [a [|[k2 vs2] b]].
      + rewrite <- app_assoc. reflexivity.
      + cbn [fst]. destruct (entry_answer k k2); rewrite <- app_assoc; reflexivity.
  Qed.
  Lemma t_entry_push_same k (v : V) t : lo k <= hi k -> ZS (entries t) -> ZD (entries t) -> Forall (apart_from (lo k) (hi k)) (entries t) ->
    entry_push k v [] (entries t) = Val (t_entry_push (entry_answer k) k v t).
  Proof.
    intros Vk W Dl A. rewrite entry_push_seek.
    - unfold t_entry_push. rewrite (search_seek _ t) by (apply entry_orderly; assumption). cbn [app].
      destruct (seek_place (entry_answer k) (entries t)) as [[a [[k' vs]|]] b]; reflexivity.
    - intros e He. rewrite Forall_forall in A. apply entry_answer_val; [exact Vk|apply (ZS_okv _ _ W He)|apply (A e He)].
  Qed.
  (** In any tree: the value is put where it may be put. *)
  Lemma t_entry_push_any k (v : V) t : lo k <= hi k -> ZS (entries t) -> Forall (apart_from (lo k) (hi k)) (entries t) ->
    exists (l1 l2 : list (K * V)) k', flatten (entries t) = l1 ++ l2 /\ flatten (t_entry_push (entry_answer k) k v t) = l1 ++ (k', v) :: l2 /\
      lo k' = lo k /\ hi k' = hi k /\ Forall (fun e => ehi e <= lo k) l1 /\ Forall (fun e => hi k <= elo e) l2.
  Proof.
    intros Vk W A. pose proof (entry_orderly' k _ Vk W A) as O. pose proof (proj1 (search_place (entry_answer k)) t O) as X. unfold t_entry_push.
    destruct (search (entry_answer k) t) as [[a x] b]. destruct X as [E F]. rewrite E in *. clear E O.
    destruct x as [[k' vs]|]; cbn [olist app] in *.
    - cbn [fst] in F. apply Forall_app in A. destruct A as [Aa A]. apply Forall_cons_iff in A. destruct A as [Ak Ab].
      apply ZS_app in W. destruct W as (_ & W & Wa). apply ZS_cons in W. destruct W as (Vk' & _ & Wb). unfold entry_answer in F.
      unfold apart_from, elo, ehi in Ak, Vk'. cbn [fst] in Ak, Vk'.
      destruct (entry_comp_rk k' k Vk' Vk Ak) as [(_ & L1 & L2)|[(E & _)|(E & _)]]; [|rewrite E in F; discriminate..].
      exists (flatten a ++ map (fun v' => (k', v')) vs), (flatten b), k'. rewrite !flatten_app. cbn. rewrite map_app, <- !app_assoc.
      split; [reflexivity|]. split; [reflexivity|]. split; [lia|]. split; [lia|]. split.
      + apply Forall_app. split.
        * apply (Forall_flatten (fun _ h => h <= lo k)). apply Forall_forall. intros e He. specialize (Wa e (k', vs) He (or_introl eq_refl)). unfold elo in Wa. cbn in Wa. lia.
        * apply Forall_forall. intros e He. apply in_map_iff in He. destruct He as (v' & <- & _). unfold ehi. cbn. lia.
      + apply (Forall_flatten (fun l _ => hi k <= l)). rewrite Forall_forall in *. intros e He. specialize (Wb e He). unfold ehi in Wb. cbn in Wb. lia.
    - destruct F as [Fa Fb]. apply Forall_app in A. destruct A as [Aa Ab]. exists (flatten a), (flatten b), k. rewrite !flatten_app. cbn.
      split; [reflexivity|]. split; [reflexivity|]. split; [reflexivity|]. split; [reflexivity|]. apply ZS_app in W. destruct W as (Wa & Wb & _). split.
      + apply (Forall_flatten (fun _ h => h <= lo k)). rewrite Forall_forall in *. intros e He. specialize (Fa e He). specialize (Aa e He). pose proof (ZS_okv _ _ Wa He) as Ve.
        unfold entry_answer, apart_from, elo, ehi in *. destruct (entry_comp_rk (fst e) k Ve Vk Aa) as [(E & ?)|[(E & ?)|(E & ?)]]; rewrite E in Fa; [discriminate|lia|discriminate].
      + apply (Forall_flatten (fun l _ => hi k <= l)). rewrite Forall_forall in *. intros e He. specialize (Fb e He). specialize (Ab e He). pose proof (ZS_okv _ _ Wb He) as Ve.
        unfold entry_answer, apart_from, elo, ehi in *. destruct (entry_comp_rk (fst e) k Ve Vk Ab) as [(E & ?)|[(E & ?)|(E & ?)]]; rewrite E in Fb; [discriminate|discriminate|lia].
  Qed.
  Lemma zero_overlap_apart (z : ZosditMap K V) k : ZWF z -> lo k <= hi k -> (forall e, In e (zosdit_iter z) -> zero_overlap (fst e) k) -> Forall (apart_from (lo k) (hi k)) (z_inner z).
  Proof.
    intros Wf Vk HF. apply (apart_iter z _ _ Wf). apply Forall_forall. intros e He. specialize (HF e He). pose proof (iter_okv z e Wf He) as Ve.
    apply zero_overlap_rk in HF; [exact HF|exact Ve|exact Vk].
  Qed.
End Proofs.
