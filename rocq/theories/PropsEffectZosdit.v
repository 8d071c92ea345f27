(** * PropsEffectZosdit: [ZosditMap] and user code with side effects, or that answers anything (C158). *)
From Coq Require Import List ZArith Bool Arith Permutation Lia.
From Verif Require Import Base BTree UtilsModel IntervalModel NoditModel ZosditModel ZosditOps InstancesModel Instances Spec TreeShape
  ZosditProofs TreeProofs LooksMoreFacts EffectModel EffectOps EffectZosditModel EffectZosditOps EffectFacts EffectZosditFacts EffectZosditRight PropsEffect.
Import ListNotations.
Open Scope nat_scope.

(** ** C158 *)
(** *** Whatever the user's code does *)
Section Any.
  Context {W I K V : Type} `{DiscreteFinite I}.
  Context (P : point_code W I) (ik : interval_code W I K) (C : entry_code W I K V) (kc : K -> I -> user W bool) (overlaps_k : K -> K -> user W bool).
  Implicit Types (t : tree K (list V)) (k : K) (v : V) (w : W) (z : ZosditMap K V) (T : nat -> BTreeMap K (list V) -> tree K (list V)).

  (** The value is stored, or comes back and nothing has changed, or there was a panic and
      nothing has changed. *)
  Theorem C158_any_insert_strict_back : forall k v n t w z' o w', insert_strict_back_e P ik k v n t w = ((z', o), w') ->
    match o with
    | Val (Ok _) => z_len z' = n + 1 /\ zput k v (entries t) (z_inner z')
    | Val (Err u) => u = v /\ z' = mkZosdit n (entries t)
    | Panic => z' = mkZosdit n (entries t)
    end.
  Proof. intros k v n t w z' o w'. exact (zinsert_any P ik k v n t w z' o w'). Qed.
  (** The value returned was the last of some stored interval; [len] stays. *)
  Theorem C158_any_remove_last_value_at_point : forall p n t w z' o w', remove_last_value_at_point_e P ik kc p n t w = ((z', o), w') ->
    match o with
    | Val (Some v) => z_len z' = n /\ ztaken v (entries t) (z_inner z')
    | _ => z' = mkZosdit n (entries t)
    end.
  Proof. intros p n t w z' o w'. exact (zremove_any P ik kc p n t w z' o w'). Qed.
  Theorem C158_any_cut : forall {Q} (iq : interval_code W I Q) k_overlaps below q n t w z' o w', length (flatten (entries t)) <= n ->
    zosdit_cut_e P ik C iq k_overlaps below q n t w = ((z', o), w') -> zcuts_some C n (entries t) (z_len z') (z_inner z') o.
  Proof. intros Q iq k_overlaps below q n t w z' o w'. exact (zcut_any P ik C iq k_overlaps below q n t w z' o w'). Qed.

  (** Histories.  [len] is at least the number of values stored and of values taken by
      [remove_last_value_at_point], and is that number if no [cut] panicked; [is_empty] is
      therefore never wrong when it says [true]; [first_key_value] and [last_key_value] are
      the first and last of what [iter] gives. *)
  Theorem C158_any_len : forall below T cs w z seen w', faithful T -> zehistory C P ik kc overlaps_k below T cs z_new w = (z, seen, w') ->
    length (zosdit_iter z) + length (flat_map took seen) <= zosdit_len z /\
    ((forall q, ~ In (SStopped (CCut q)) seen) -> zosdit_len z = length (zosdit_iter z) + length (flat_map took seen)) /\
    (zosdit_is_empty z = true -> zosdit_iter z = []) /\
    zosdit_first_key_value z = hd_error (zosdit_iter z) /\ zosdit_last_key_value z = hd_error (rev (zosdit_iter z)).
  Proof.
    intros below T cs w z seen w' F E. apply zhistory_any in E; [|exact F|constructor|cbn; lia]. destruct E as (Fu & L & X & _). cbn in L, X. unfold zosdit_len, zosdit_is_empty, zosdit_iter.
    split; [lia|]. split; [intros N; specialize (X N); lia|]. split.
    - intros Z. apply Nat.eqb_eq in Z. destruct (flatten (z_inner z)); [reflexivity|cbn in L; lia].
    - split; [exact (full_first z Fu)|exact (full_last z Fu)].
  Qed.
  (** The subtraction in [cut] is never below zero: what it would give makes no difference. *)
  Theorem C158_any_no_underflow : forall below below' T cs w, faithful T ->
    zehistory C P ik kc overlaps_k below T cs z_new w = zehistory C P ik kc overlaps_k below' T cs z_new w.
  Proof. intros below below' T cs w F. apply zhistory_below; [exact F|constructor|cbn; lia]. Qed.
  (** If the user's code does not panic, [remove_last_value_at_point] does not. *)
  Theorem C158_any_remove_last_no_panic : forall below T cs w z seen w1 p t w', faithful T ->
    zehistory C P ik kc overlaps_k below T cs z_new w = (z, seen, w1) -> entries t = z_inner z ->
    calm_points P -> calm_bounds ik -> (forall k x, calm (kc k x)) ->
    snd (fst (remove_last_value_at_point_e P ik kc p (zosdit_len z) t w')) <> Panic.
  Proof.
    intros below T cs w z seen w1 p t w' F E Et CP CI CK. apply zhistory_any in E; [|exact F|constructor|cbn; lia]. destruct E as (Fu & _).
    apply zremove_calm; trivial. rewrite Et. exact Fu.
  Qed.
  (** Without cuts every value given is stored, handed back or was given to an insertion
      that panicked, exactly once; with cuts every value stored or handed back is one given
      or a clone of one. *)
  Theorem C158_any_values_once : forall below T cs w z seen w', faithful T -> Forall (fun c => cutting c = false) cs ->
    zehistory C P ik kc overlaps_k below T cs z_new w = (z, seen, w') ->
    Permutation (flat_map zgiven cs) (map snd (zosdit_iter z) ++ flat_map zhanded seen ++ flat_map stopped seen).
  Proof.
    intros below T cs w z seen w' F N E. apply zhistory_any in E; [|exact F|constructor|cbn; lia]. destruct E as (_ & _ & _ & _ & X). exact (X N).
  Qed.
  Theorem C158_any_values_given : forall below T cs w z seen w', faithful T -> zehistory C P ik kc overlaps_k below T cs z_new w = (z, seen, w') ->
    Forall (fun x => exists v, In v (flat_map zgiven cs) /\ descends C v x) (map snd (zosdit_iter z) ++ flat_map zhanded seen).
  Proof.
    intros below T cs w z seen w' F E. apply zhistory_any in E; [|exact F|constructor|cbn; lia]. destruct E as (_ & _ & _ & X & _). exact X.
  Qed.
End Any.

(** *** Side effects, but the right answers *)
Section Right.
  Context {W I : Type} `{PL : PointLaws I}.
  Context {K : Type} {IK : InclusiveInterval I K} {IL : IntervalLaws I K}.
  Context {V : Type} (veq : V -> V -> bool).
  Context (P : point_code W I) (RP : right_points P) (ik : interval_code W I K) (RK : right_intervals ik) (C : entry_code W I K V) (RC : right_entries veq C).
  Context (kc : K -> I -> user W bool) (RKC : right_contains kc).
  Implicit Types (t : tree K (list V)) (z : ZosditMap K V).
  Theorem C158_right_last_value : forall z t p w, zreachable z -> entries t = z_inner z ->
    fst (get_last_value_at_point_e P ik kc t p w) = Val (get_last_value_at_point z p) /\
    fst (remove_last_value_at_point_e P ik kc p (zosdit_len z) t w) = remove_last_value_at_point p z.
  Proof.
    intros z t p w R E. apply zreachable_ZWF in R. split; [exact (r_get_last P RP ik RK kc RKC z t p R E w)|exact (r_remove_last P RP ik RK kc RKC z t p R E w)].
  Qed.
  Theorem C158_right_queries : forall {Q} {IQ : InclusiveInterval I Q} (iq : interval_code W I Q) z t q w, right_intervals iq -> zreachable z -> entries t = z_inner z ->
    fst (is_zero_overlap_e P ik iq t q w) = is_zero_overlap z q /\ fst (zosdit_overlapping_e P ik iq t q w) = zosdit_overlapping z q.
  Proof.
    intros Q IQ iq z t q w RQ R E. apply zreachable_ZWF in R. split; [exact (r_zero_overlap P RP ik RK iq RQ z t q R E w)|exact (r_zoverlapping P RP ik RK iq RQ z t q R E w)].
  Qed.
  Theorem C158_right_cut : forall {Q} {IQ : InclusiveInterval I Q} (iq : interval_code W I Q) k_overlaps below z t q w,
    right_intervals iq -> right_overlaps k_overlaps -> zreachable z -> entries t = z_inner z ->
    fst (zosdit_cut_e P ik C iq k_overlaps below q (zosdit_len z) t w) = zosdit_cut q z.
  Proof. intros Q IQ iq k_overlaps below z t q w RQ RO R E. apply zreachable_ZWF in R. exact (r_zcut veq P RP ik RK C RC iq RQ k_overlaps RO below z t q R E w). Qed.
  (** Which of two equal keys gets the value depends on the tree (C68); the answer does not. *)
  Theorem C158_right_insert_strict_back : forall z t k v w, zreachable z -> entries t = z_inner z ->
    snd (fst (insert_strict_back_e P ik k v (zosdit_len z) t w)) = snd (insert_strict_back k v z) /\
    (stored_once z -> fst (insert_strict_back_e P ik k v (zosdit_len z) t w) = insert_strict_back k v z).
  Proof.
    intros z t k v w R E. apply zreachable_ZWF in R. split; [exact (r_strict_back_answer P RP ik RK z t k v w R E)|].
    intros O. exact (r_strict_back P RP ik RK z t k v R (proj1 (stored_once_ZD z R) O) E w).
  Qed.
  Theorem C158_right_insert_where : forall z t k v w z' w', zreachable z -> entries t = z_inner z ->
    insert_strict_back_e P ik k v (zosdit_len z) t w = ((z', Val (Ok tt)), w') -> exists l1 l2 k',
      zosdit_iter z = l1 ++ l2 /\ zosdit_iter z' = l1 ++ (k', v) :: l2 /\
      same_points k' k /\ (forall e, In e l1 -> up_to (fst e) k) /\ (forall e, In e l2 -> up_to k (fst e)).
  Proof. intros z t k v w z' w' R E. apply zreachable_ZWF in R. exact (r_strict_back_any P RP ik RK z t k v w z' w' R E). Qed.
  Theorem C158_right_history : forall overlaps_k below T cs w, right_overlaps overlaps_k -> faithful T -> Forall (fun c => cutting c = false) cs ->
    fst (fst (zehistory C P ik kc overlaps_k below T cs z_new w)) = zrun (map as_zop cs).
  Proof.
    intros overlaps_k below T cs w RO F N. apply (r_zhistory veq P RP ik RK C RC kc RKC overlaps_k RO below T cs F N z_new w); [exists []; reflexivity|constructor].
  Qed.
End Right.

(** *** Examples: [u8], the world counts the questions *)
Definition counting_c : Interval u8 -> u8 -> user nat bool := fun k p => tick (Val (contains_point k p)).
(** Clones work until the world is at [n]. *)
Definition clones_until (n : nat) : entry_code nat u8 (Interval u8) nat :=
  {| e_from := fun i => tick (Val (ifrom i)); e_clone := fun v w => (if Nat.leb n w then Panic else Val v, S w); e_veq := fun v v' => tick (Val true) |}.
Definition ex_zcalls : list (zcall u8 (Interval u8) nat) :=
  [CInsert (1 --> 9) 1; CInsert (9 --> 9) 2; CInsert (5 --> 13) 3; CInsert (9 --> 9) 4; CInsert (9 --> 12) 5; CRemoveLast '9].
Example C158_example :
  faithful (some_shapes (K := Interval u8) (V := list nat)) /\
  right_points counting /\ right_intervals counting_i /\ right_entries Nat.eqb counting_v /\ right_overlaps counting_o /\ right_contains counting_c /\
  calm_points counting /\ calm_bounds counting_i /\ (forall k x, calm (counting_c k x)) /\
  (** right answers; [len] counts the value taken *)
  zehistory counting_v counting counting_i counting_c counting_o Panic some_shapes ex_zcalls z_new 0 =
    (mkZosdit 4 [(1 --> 9, [1]); (9 --> 9, [2; 4])], [SGave []; SGave []; SGave [3]; SGave []; SGave []; STook 5], 173) /\
  zrun (map as_zop ex_zcalls) = mkZosdit 4 [(1 --> 9 : Interval u8, [1]); (9 --> 9, [2; 4])] /\
  (** clones fail: the stored values are lost, but counted *)
  zehistory (clones_until 30) counting counting_i counting_c counting_o Panic some_shapes [CInsert (1 --> 9) 1; CInsert (1 --> 1) 2; CCut (4 --> 5)] z_new 0 =
    (mkZosdit 2 [(1 --> 1, [2])], [SGave []; SGave []; SStopped (CCut (4 --> 5))], 75) /\
  (** a liar puts 3 behind 1, then takes it *)
  zehistory counting_v lying counting_i (fun _ _ => unless true) counting_o Panic some_shapes [CInsert (1 --> 9) 1; CInsert (20 --> 29) 3; CRemoveLast '99] z_new 10 =
    (mkZosdit 2 [(1 --> 9, [1])], [SGave []; SGave []; STook 3], 41).
Proof.
  split; [intros i l; apply some_shapes_good|].
  split; [split; intros; repeat split; intros w; reflexivity|]. split; [intros x; repeat split; intros w; reflexivity|].
  split; [repeat split; intros; intros w; reflexivity|]. split; [intros a b w; reflexivity|]. split; [intros a b w; reflexivity|].
  split; [intros x y; repeat split; intros w; discriminate|]. split; [intros x; split; intros w; discriminate|]. split; [intros k x w; discriminate|].
  split; [vm_compute; reflexivity|]. split; [vm_compute; reflexivity|]. split; vm_compute; reflexivity.
Qed.

Print Assumptions C158_any_insert_strict_back.
Print Assumptions C158_any_remove_last_value_at_point.
Print Assumptions C158_any_cut.
Print Assumptions C158_any_len.
Print Assumptions C158_any_no_underflow.
Print Assumptions C158_any_remove_last_no_panic.
Print Assumptions C158_any_values_once.
Print Assumptions C158_any_values_given.
Print Assumptions C158_right_last_value.
Print Assumptions C158_right_queries.
Print Assumptions C158_right_cut.
Print Assumptions C158_right_insert_strict_back.
Print Assumptions C158_right_insert_where.
Print Assumptions C158_right_history.
