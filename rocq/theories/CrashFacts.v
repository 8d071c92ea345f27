(** * CrashFacts: what an interrupted update of a NoditMap leaves behind. *)
From Coq Require Import List ZArith Bool Lia ZifyBool.
From Verif Require Import Base BTree UtilsModel IntervalModel NoditModel NoditOps CrashModel Spec PointFacts IntervalFacts ListFacts
  NoditFacts NoditQueries NoditMutations NoditMerges NoditInv NoditMore.
Import ListNotations.
Open Scope Z_scope.

(** Closes an equation of results by injecting the hypothesis. *)
Ltac inj := let E := fresh "E" in first [discriminate | intros E; inversion E; subst; try discriminate; reflexivity | congruence].

Section Structural.
  Context {I : Type} `{Ord I} `{DiscreteFinite I}.
  Context {K : Type} `{InclusiveInterval I K}.
  Context {V : Type}.
  Implicit Types (m pre post acc : NoditMap K V) (k : K) (v : V).

  (** ** A call that returns does what it does when nothing panics *)
  Lemma user_call_some f f' : user_call f = Some f' -> f = S f'.
  Proof. destruct f; cbn; congruence. Qed.
  Lemma user_call_enough f n : (S n <= f)%nat -> exists f', user_call f = Some f' /\ (n <= f')%nat /\ f = S f'.
  Proof. destruct f as [|f]; cbn; [lia|]. intros L. exists f. repeat split; lia. Qed.

  Lemma insert_piece_c_cases p v pre f :
    (exists f', insert_piece_c p v pre f = (insert_piece p v pre, Some f')) \/ insert_piece_c p v pre f = (pre, None).
  Proof.
    unfold insert_piece_c, insert_piece. destruct p as [i|]; [|left; eauto].
    destruct (user_call f) as [f1|]; [|auto]. destruct (user_call f1) as [f2|]; [|auto]. left. eauto.
  Qed.
  Lemma insert_piece_c_enough p v pre f n : (2 + n <= f)%nat ->
    exists f', insert_piece_c p v pre f = (insert_piece p v pre, Some f') /\ (n <= f')%nat.
  Proof.
    intros L. unfold insert_piece_c, insert_piece. destruct p as [i|]; [|exists f; split; [reflexivity|lia]].
    destruct (user_call_enough f (S n)) as (f1 & -> & L1 & _); [lia|].
    destruct (user_call_enough f1 n) as (f2 & -> & L2 & _); [lia|]. eauto.
  Qed.

  Section Q.
    Context {Q : Type} `{InclusiveInterval I Q}.
    Implicit Types q : Q.
    Lemma cut_loop_c_val q pre post acc f m a f' : cut_loop_c q pre post acc f = (m, Val (a, f')) ->
      cut_loop q pre post acc = (m, Val a).
    Proof.
      revert pre acc f. induction post as [|[k v] post IH]; intros pre acc f; cbn [cut_loop_c cut_loop].
      - inj.
      - destruct (overlaps k q) as [[|]|]; [|inj|inj].
        destruct (cut_interval k q) as [r|]; [|inj].
        destruct (insert_piece_c_cases (before_cut r) v pre f) as [(f1 & ->)| ->]; [|inj].
        destruct (insert_piece_c_cases (after_cut r) v (insert_piece (before_cut r) v pre) f1) as [(f2 & ->)| ->]; [|inj].
        destruct (inside_cut r) as [i|]; [|inj]. destruct (user_call f2) as [f3|]; [|inj]. apply IH.
    Qed.
    Lemma cut_loop_c_enough q pre post acc f n : (5 * length post + n <= f)%nat ->
      exists f', cut_loop_c q pre post acc f =
        (fst (cut_loop q pre post acc), omap (fun a => (a, f')) (snd (cut_loop q pre post acc))) /\
        (snd (cut_loop q pre post acc) <> Panic -> (n <= f')%nat).
    Proof.
      revert pre acc f. induction post as [|[k v] post IH]; intros pre acc f; cbn [cut_loop_c cut_loop length].
      - intros L. exists f. split; [reflexivity|lia].
      - intros L. destruct (overlaps k q) as [[|]|]; [|exists f; split; [reflexivity|lia]..].
        destruct (cut_interval k q) as [r|]; [|exists f; split; [reflexivity|lia]].
        destruct (insert_piece_c_enough (before_cut r) v pre f (5 * length post + n + 3)) as (f1 & -> & L1); [lia|].
        destruct (insert_piece_c_enough (after_cut r) v (insert_piece (before_cut r) v pre) f1 (5 * length post + n + 1)) as (f2 & -> & L2); [lia|].
        destruct (inside_cut r) as [i|]; [|exists f2; split; [reflexivity|lia]].
        destruct (user_call_enough f2 (5 * length post + n)) as (f3 & -> & L3 & _); [lia|]. apply IH, L3.
    Qed.
    Lemma cut_c_val q m f m' a f' : cut_c q m f = (m', Val (a, f')) -> cut q m = (m', Val a).
    Proof. unfold cut_c, cut. destruct (invalid_interval_panic q); [|inj]. apply cut_loop_c_val. Qed.
    Lemma seek_length (c : K -> comparison) m : (length (snd (seek c m)) <= length m)%nat.
    Proof. induction m as [|[k v] m IH]; cbn; [lia|]. destruct (c k); cbn; [lia..|]. destruct (seek c m); cbn in *. lia. Qed.
    Lemma cut_c_enough q m f n : (5 * length m + n <= f)%nat ->
      exists f', cut_c q m f = (fst (cut q m), omap (fun a => (a, f')) (snd (cut q m))) /\
        (snd (cut q m) <> Panic -> (n <= f')%nat).
    Proof.
      intros L. unfold cut_c, cut. destruct (invalid_interval_panic q); [|exists f; split; [reflexivity|lia]].
      apply cut_loop_c_enough. pose proof (seek_length (overlapping_comp (istart q)) m). unfold lower_bound. lia.
    Qed.
  End Q.

  Lemma insert_overwrite_c_val k v m f m' a f' :
    insert_overwrite_c k v m f = (m', Val (a, f')) -> insert_overwrite k v m = (m', Val a).
  Proof.
    unfold insert_overwrite_c, insert_overwrite. destruct (invalid_interval_panic k); [|inj].
    destruct (cut_c k m f) as [m1 [[a1 f1]|]] eqn:E; [|inj]. apply cut_c_val in E. rewrite E. inj.
  Qed.
  Lemma insert_overwrite_c_enough k v m f n : (5 * length m + n <= f)%nat ->
    exists f', insert_overwrite_c k v m f =
      (fst (insert_overwrite k v m), omap (fun a => (a, f')) (snd (insert_overwrite k v m))) /\
      (snd (insert_overwrite k v m) <> Panic -> (n <= f')%nat).
  Proof.
    intros L. unfold insert_overwrite_c, insert_overwrite. destruct (invalid_interval_panic k); [|exists f; split; [reflexivity|lia]].
    destruct (cut_c_enough k m f n L) as (f' & -> & L'). exists f'.
    destruct (cut k m) as [m1 [a1|]]; cbn in *; auto.
  Qed.

  (** [insert_merge_with_comps_c] against [insert_merge_with_comps]. *)
  Definition get_like (gc : NoditMap K V -> V -> nat -> option (option K * nat)) (g : NoditMap K V -> V -> option K) : Prop :=
    forall m v f, (forall o f', gc m v f = Some (o, f') -> o = g m v) /\
      forall n, (S n <= f)%nat -> exists f', gc m v f = Some (g m v, f') /\ (n <= f')%nat.
  Definition remove_like (rc : NoditMap K V -> V -> nat -> NoditMap K V * option nat) (r : NoditMap K V -> V -> NoditMap K V) : Prop :=
    forall m v f, (forall m' f', rc m v f = (m', Some f') -> m' = r m v) /\
      forall n, (S n <= f)%nat -> exists f', rc m v f = (r m v, Some f') /\ (n <= f')%nat.
  Lemma pure_get_like g : get_like (pure_get g) g.
  Proof. intros m v f. unfold pure_get. split; [inj|]. intros n L. exists f. split; [reflexivity|lia]. Qed.
  Lemma pure_remove_like r : remove_like (pure_remove r) r.
  Proof. intros m v f. unfold pure_remove. split; [inj|]. intros n L. exists f. split; [reflexivity|lia]. Qed.
  Lemma get_if_equal_like veq c : get_like (get_if_equal_c veq c) (get_if_equal veq c).
  Proof.
    intros m v f. unfold get_if_equal_c, get_if_equal. destruct (get_key_value c m) as [[k w]|].
    - split.
      + intros o f'. destruct (user_call f); [|discriminate]. inj.
      + intros n L. destruct (user_call_enough f n L) as (f' & -> & L' & _). eauto.
    - split; [inj|]. intros n L. exists f. split; [reflexivity|lia].
  Qed.
  Lemma remove_if_equal_like veq c : remove_like (remove_if_equal_c veq c)
    (fun m v => if is_some (get_if_equal veq c m v) then fst (remove c m) else m).
  Proof.
    intros m v f. unfold remove_if_equal_c. destruct (get_if_equal_like veq c m v f) as [G1 G2]. split.
    - intros m' f'. destruct (get_if_equal_c veq c m v f) as [[o f1]|]; [|discriminate].
      rewrite (G1 o f1 eq_refl). inj.
    - intros n L. destruct (G2 n L) as (f' & -> & L'). eauto.
  Qed.

  Definition returning' (k : K) (ms me : option K) : K :=
    match ms, me with
    | Some s, Some e => ifrom (mkInterval (istart s) (iend e))
    | Some s, None => ifrom (mkInterval (istart s) (iend k))
    | None, Some e => ifrom (mkInterval (istart k) (iend e))
    | None, None => k
    end.
  Lemma returning_c_val k ms me f r f' : returning_c k ms me f = Some (r, f') -> r = returning' k ms me.
  Proof.
    unfold returning_c, returning'. destruct ms, me; try (destruct (user_call f); inj); inj.
  Qed.
  Lemma returning_c_enough k ms me f n : (S n <= f)%nat ->
    exists f', returning_c k ms me f = Some (returning' k ms me, f') /\ (n <= f')%nat.
  Proof.
    intros L. unfold returning_c, returning'. destruct (user_call_enough f n L) as (f' & E & L' & _).
    destruct ms, me; rewrite ?E; eauto. exists f. split; [reflexivity|lia].
  Qed.

  Section Comps.
    Context (gsc gec : NoditMap K V -> V -> nat -> option (option K * nat)) (gs ge : NoditMap K V -> V -> option K).
    Context (rsc rec : NoditMap K V -> V -> nat -> NoditMap K V * option nat) (rs re : NoditMap K V -> V -> NoditMap K V).
    Context (Lgs : get_like gsc gs) (Lge : get_like gec ge) (Lrs : remove_like rsc rs) (Lre : remove_like rec re).

    Lemma with_comps_c_val k v m f m' r f' :
      insert_merge_with_comps_c k v gsc gec rsc rec m f = (m', Val (r, f')) ->
      insert_merge_with_comps k v gs ge rs re m = (m', Val r).
    Proof.
      unfold insert_merge_with_comps_c, insert_merge_with_comps.
      destruct (invalid_interval_panic k); [|inj].
      destruct (gsc m v f) as [[ms f1]|] eqn:E1; [|inj]. apply (proj1 (Lgs m v f)) in E1. subst ms.
      destruct (gec m v f1) as [[me f2]|] eqn:E2; [|inj]. apply (proj1 (Lge m v f1)) in E2. subst me.
      destruct (returning_c k (gs m v) (ge m v) f2) as [[r1 f3]|] eqn:E3; [|inj].
      apply returning_c_val in E3. subst r1. fold (returning' k (gs m v) (ge m v)).
      destruct (remove_overlapping k m) as [m1 [x|]]; [|inj].
      destruct (rsc m1 v f3) as [m2 [f4|]] eqn:E4; [|inj]. apply (proj1 (Lrs m1 v f3)) in E4. subst m2.
      destruct (rec (rs m1 v) v f4) as [m3 [f5|]] eqn:E5; [|inj]. apply (proj1 (Lre _ v f4)) in E5. subst m3.
      inj.
    Qed.
    Lemma with_comps_c_enough k v m f n : (5 + n <= f)%nat ->
      exists f', insert_merge_with_comps_c k v gsc gec rsc rec m f =
        (fst (insert_merge_with_comps k v gs ge rs re m),
         omap (fun a => (a, f')) (snd (insert_merge_with_comps k v gs ge rs re m))) /\
        (snd (insert_merge_with_comps k v gs ge rs re m) <> Panic -> (n <= f')%nat).
    Proof.
      intros L. unfold insert_merge_with_comps_c, insert_merge_with_comps.
      destruct (invalid_interval_panic k); [|exists f; split; [reflexivity|lia]].
      destruct (proj2 (Lgs m v f) (4 + n)%nat) as (f1 & -> & L1); [lia|].
      destruct (proj2 (Lge m v f1) (3 + n)%nat) as (f2 & -> & L2); [lia|].
      destruct (returning_c_enough k (gs m v) (ge m v) f2 (2 + n)) as (f3 & -> & L3); [lia|].
      fold (returning' k (gs m v) (ge m v)).
      destruct (remove_overlapping k m) as [m1 [x|]]; [|exists f; split; [reflexivity|cbn; congruence]].
      destruct (proj2 (Lrs m1 v f3) (1 + n)%nat) as (f4 & -> & L4); [lia|].
      destruct (proj2 (Lre (rs m1 v) v f4) n) as (f5 & -> & L5); [lia|].
      exists f5. split; [reflexivity|auto].
    Qed.
    (** A panic leaves one of the intermediate states. *)
    Lemma with_comps_c_panic k v m f m' m1 rem :
      remove_overlapping k m = (m1, Val rem) ->
      insert_merge_with_comps_c k v gsc gec rsc rec m f = (m', Panic) ->
      m' = m \/ (exists f, rsc m1 v f = (m', None)) \/ (exists f, rec (rs m1 v) v f = (m', None)).
    Proof.
      intros R. unfold insert_merge_with_comps_c.
      destruct (invalid_interval_panic k); [|left; congruence].
      destruct (gsc m v f) as [[ms f1]|] eqn:E1; [|left; congruence].
      destruct (gec m v f1) as [[me f2]|] eqn:E2; [|left; congruence].
      destruct (returning_c k ms me f2) as [[r1 f3]|] eqn:E3; [|left; congruence].
      rewrite R. destruct (rsc m1 v f3) as [m2 [f4|]] eqn:E4.
      - apply (proj1 (Lrs m1 v f3)) in E4. subst m2.
        destruct (rec (rs m1 v) v f4) as [m3 [f5|]] eqn:E5; [inj|]. intros [= <-]. right. right. eauto.
      - intros [= <-]. right. left. eauto.
    Qed.
  End Comps.

  Lemma merge_touching_c_val k v m f m' r f' :
    insert_merge_touching_c k v m f = (m', Val (r, f')) -> insert_merge_touching k v m = (m', Val r).
  Proof.
    unfold insert_merge_touching_c, insert_merge_touching.
    destruct (invalid_interval_panic k); [|inj]. destruct (map_overlaps m k) as [[|]|]; [inj| |inj].
    set (gs := fun m0 (_ : V) => option_map fst (get_key_value (touching_start_comp (istart k)) m0)).
    set (ge := fun m0 (_ : V) => option_map fst (get_key_value (touching_end_comp (iend k)) m0)).
    set (rs := fun m0 (_ : V) => fst (remove (touching_start_comp (istart k)) m0)).
    set (re := fun m0 (_ : V) => fst (remove (touching_end_comp (iend k)) m0)).
    destruct (insert_merge_with_comps_c k v (pure_get gs) (pure_get ge) (pure_remove rs) (pure_remove re) m f) as [m1 [[r1 f1]|]] eqn:E; [|intros [=]].
    apply (with_comps_c_val _ _ gs ge _ _ rs re (pure_get_like gs) (pure_get_like ge) (pure_remove_like rs) (pure_remove_like re)) in E.
    rewrite E. cbn. inj.
  Qed.
  Lemma merge_if_equal_c_val veq k v m f m' r f' :
    insert_merge_touching_if_values_equal_c veq k v m f = (m', Val (r, f')) ->
    insert_merge_touching_if_values_equal veq k v m = (m', Val r).
  Proof.
    unfold insert_merge_touching_if_values_equal_c, insert_merge_touching_if_values_equal.
    destruct (invalid_interval_panic k); [|inj]. destruct (map_overlaps m k) as [[|]|]; [inj| |inj].
    destruct (insert_merge_with_comps_c k v _ _ _ _ m f) as [m1 [[r1 f1]|]] eqn:E; [|intros [=]].
    apply (with_comps_c_val _ _ _ _ _ _ _ _ (get_if_equal_like veq _) (get_if_equal_like veq _)
             (remove_if_equal_like veq _) (remove_if_equal_like veq _)) in E.
    rewrite E. cbn. inj.
  Qed.
  Lemma merge_overlapping_c_val k v m f m' r f' :
    insert_merge_overlapping_c k v m f = (m', Val (r, f')) -> insert_merge_overlapping k v m = (m', Val r).
  Proof.
    unfold insert_merge_overlapping_c, insert_merge_overlapping.
    destruct (invalid_interval_panic k); [|inj].
    apply with_comps_c_val; first [apply pure_get_like|apply pure_remove_like].
  Qed.
  Lemma merge_tor_c_val k v m f m' r f' :
    insert_merge_touching_or_overlapping_c k v m f = (m', Val (r, f')) ->
    insert_merge_touching_or_overlapping k v m = (m', Val r).
  Proof.
    unfold insert_merge_touching_or_overlapping_c, insert_merge_touching_or_overlapping.
    destruct (invalid_interval_panic k); [|inj].
    apply with_comps_c_val; first [apply pure_get_like|apply pure_remove_like].
  Qed.

  Definition completes {A} (oc : NoditMap K V * outcome (A * nat)) (o : NoditMap K V * outcome A) (n : nat) : Prop :=
    exists f', oc = (fst o, omap (fun a => (a, f')) (snd o)) /\ (snd o <> Panic -> (n <= f')%nat).
  Lemma completes_Ok (oc : NoditMap K V * outcome (K * nat)) o n : completes oc o n ->
    completes (let (m, r) := oc in (m, omap (fun x => (Ok (E := V) (fst x), snd x)) r))
      (let (m, r) := o in (m, omap Ok r)) n.
  Proof. intros (f' & -> & L). exists f'. destruct o as [m [r|]]; cbn in *; auto. split; [reflexivity|intros _; apply L; discriminate]. Qed.
  Lemma merge_touching_c_enough k v m f n : (5 + n <= f)%nat ->
    completes (insert_merge_touching_c k v m f) (insert_merge_touching k v m) n.
  Proof.
    intros L. unfold insert_merge_touching_c, insert_merge_touching.
    destruct (invalid_interval_panic k); [|exists f; split; [reflexivity|cbn; congruence]].
    destruct (map_overlaps m k) as [[|]|]; [exists f; split; [reflexivity|lia]| |exists f; split; [reflexivity|lia]].
    apply completes_Ok, with_comps_c_enough; first [apply pure_get_like|apply pure_remove_like|exact L].
  Qed.
  Lemma merge_if_equal_c_enough veq k v m f n : (5 + n <= f)%nat ->
    completes (insert_merge_touching_if_values_equal_c veq k v m f) (insert_merge_touching_if_values_equal veq k v m) n.
  Proof.
    intros L. unfold insert_merge_touching_if_values_equal_c, insert_merge_touching_if_values_equal.
    destruct (invalid_interval_panic k); [|exists f; split; [reflexivity|cbn; congruence]].
    destruct (map_overlaps m k) as [[|]|]; [exists f; split; [reflexivity|lia]| |exists f; split; [reflexivity|lia]].
    apply completes_Ok, with_comps_c_enough; first [apply get_if_equal_like|apply remove_if_equal_like|exact L].
  Qed.
  Lemma merge_overlapping_c_enough k v m f n : (5 + n <= f)%nat ->
    completes (insert_merge_overlapping_c k v m f) (insert_merge_overlapping k v m) n.
  Proof.
    intros L. unfold insert_merge_overlapping_c, insert_merge_overlapping.
    destruct (invalid_interval_panic k); [|exists f; split; [reflexivity|cbn; congruence]].
    apply with_comps_c_enough; first [apply pure_get_like|apply pure_remove_like|exact L].
  Qed.
  Lemma merge_tor_c_enough k v m f n : (5 + n <= f)%nat ->
    completes (insert_merge_touching_or_overlapping_c k v m f) (insert_merge_touching_or_overlapping k v m) n.
  Proof.
    intros L. unfold insert_merge_touching_or_overlapping_c, insert_merge_touching_or_overlapping.
    destruct (invalid_interval_panic k); [|exists f; split; [reflexivity|cbn; congruence]].
    apply with_comps_c_enough; first [apply pure_get_like|apply pure_remove_like|exact L].
  Qed.
End Structural.
