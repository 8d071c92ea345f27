(** * PropsEffectMore: the default methods of [InclusiveInterval], the constructors and the rest of
      [NoditMap] (C161), and [NoditSet] (C162), with user code of any kind. *)
From Coq Require Import List ZArith Bool Arith Permutation Lia.
From Verif Require Import Base BTree UtilsModel IntervalModel NoditModel NoditSetModel NoditOps NoditSetOps InstancesModel Instances Spec TreeShape
  NoditFacts NoditInv NoditSetFacts LooksMoreFacts EffectModel EffectOps EffectFacts EffectRight EffectZosditOps EffectGqditModel EffectGqditRight EffectBulkModel EffectBulkFacts
  EffectMoreModel EffectMoreOps EffectMoreFacts EffectMoreRight PropsEffect PropsEffectBulk.
Import ListNotations.
Open Scope nat_scope.

(** ** C161 *)
(** *** Whatever the user's code does *)
Section Any.
  Context {W I K V : Type} `{DiscreteFinite I}.
  Context (P : point_code W I) (ik : interval_code W I K) (C : entry_code W I K V) (overlaps_k : K -> K -> user W bool).
  Implicit Types (m : NoditMap K V) (t : tree K V) (w : W) (f : edit (W := W) (K := K) (V := V)).

  (** The stored intervals were given by the caller or made by [K::from]. *)
  Theorem C161_any_intervals : forall (T : nat -> nat -> BTreeMap K V -> tree K V) cs w m' h w', (forall n, faithful (T n)) ->
    ehistory C P ik overlaps_k T cs new w = (m', h, w') -> forall k, In k (map fst (iter m')) -> In k (flat_map key_given cs) \/ made_by (e_from C) k.
  Proof.
    intros T cs w m' h w' TF E k Hk.
    assert (G := history_good P ik C overlaps_k (fun k => In k (flat_map key_given cs) \/ made_by (e_from C) k) (fun k X => or_intror X) T TF cs new w m' h w' E).
    rewrite !Forall_forall in G. apply in_map_iff in Hk. destruct Hk as (e & <- & He). apply G; [auto|intros x []|exact He].
  Qed.
  (** The intervals of the gap queries, and of the [Err] of [get_key_value_at_point], were made by [K::from]. *)
  Theorem C161_any_made : forall {Q} (iq : interval_code W I Q) t (q : Q) (p : I) w gs r w',
    (gaps_untrimmed_e P ik C iq t q w = (Val gs, w') -> Forall (made_by (e_from C)) gs) /\
    (gaps_trimmed_e P ik C iq t q w = (Val gs, w') -> Forall (made_by (e_from C)) gs) /\
    (get_key_value_at_point_e P ik C t p w = (Val r, w') -> match r with Ok e => In e (entries t) | Err k => made_by (e_from C) k end).
  Proof.
    intros Q iq t q p w gs r w'. split; [exact (untrimmed_made P ik C iq t q w gs w')|]. split; [exact (trimmed_made P ik C iq t q w gs w')|exact (get_made P ik C t p w r w')].
  Qed.
  (** Through a [&mut V] only values change: those of a run of entries, one after the other. *)
  Theorem C161_any_overlapping_mut : forall {Q} (iq : interval_code W I Q) f q t w m' o w',
    overlapping_mut_e P ik iq f q t w = ((m', o), w') -> exists l, edits_run f l (entries t) m' o.
  Proof. intros Q iq f q t w m' o w'. exact (overlapping_mut_any f P ik iq q t w m' o w'). Qed.
  Theorem C161_any_iter_mut : forall f m w m' o w', iter_mut_e f m w = ((m', o), w') -> edits_run f m m m' o.
  Proof. intros f m w m' o w' E. apply edit_all_run in E. cbn [app] in E. rewrite app_nil_r in E. exact E. Qed.
  Theorem C161_any_get_at_point_mut : forall f p t w m' o w', get_at_point_mut_e P ik f p t w = ((m', o), w') ->
    match o with
    | Val None => m' = entries t
    | Val (Some v) => exists a k v' b w1 w2, entries t = a ++ (k, v) :: b /\ m' = a ++ (k, v') :: b /\ f k v w1 = ((v', Val tt), w2)
    | Panic => exists l, length l <= 1 /\ edits_run f l (entries t) m' Panic
    end.
  Proof. intros f p t w m' o w'. exact (get_at_point_mut_any f P ik p t w m' o w'). Qed.
  Theorem C161_any_keys : forall f l m m' o, edits_run f l m m' o -> map fst (iter m') = map fst (iter m).
  Proof.
    intros f l m m' o (a & d & d' & x & x' & td & b & -> & -> & -> & F & F' & _). unfold iter. rewrite !map_app.
    assert (E : forall r d d', Forall2 (edited_by f r) d d' -> map fst d' = map fst d) by (intros r y y' Y; induction Y as [|e e' y y' [Y1 _] Y IH]; cbn; congruence).
    rewrite (E _ _ _ F), (E _ _ _ F'), <- !app_assoc. reflexivity.
  Qed.
  (** [get_at_point] gives stored values. *)
  Theorem C161_any_get_at_point : forall t p w v w', get_at_point_e P ik C t p w = (Val (Some v), w') -> In v (map snd (entries t)).
  Proof.
    intros t p w v w' E. apply ubind_inv in E. destruct E as (r & w1 & X & E). apply get_made in X. destruct r as [[k u]|g]; injection E as E; [|discriminate]. subst v.
    apply in_map_iff. exists (k, u). auto.
  Qed.
End Any.

(** *** Side effects, but the right answers *)
Section Right.
  Context {W I : Type} `{PL : PointLaws I} (P : point_code W I) (RP : right_points P).
  (** A type that only implements [start] and [end]: its [is_valid] and [overlaps] are right. *)
  Theorem C161_right_default_code : forall {A B} {IA : InclusiveInterval I A} {IB : InclusiveInterval I B} sa ea (ib : interval_code W I B),
    (forall x : A, answers (sa x) (Val (istart x))) -> (forall x : A, answers (ea x) (Val (iend x))) -> right_intervals ib ->
    right_intervals (default_code P sa ea) /\ right_overlaps (default_overlaps_e P (default_code P sa ea) ib) /\ right_overlaps (default_overlaps_e P ib (default_code P sa ea)).
  Proof.
    intros A B IA IB sa ea ib RS RE RB. pose proof (r_default_code P RP sa ea RS RE) as R. split; [exact R|]. split; apply (r_d_overlaps P RP); assumption.
  Qed.
  Theorem C161_right_default_methods : forall {A B} {IA : InclusiveInterval I A} {IB : InclusiveInterval I B} (ia : interval_code W I A) (ib : interval_code W I B),
    right_intervals ia -> right_intervals ib ->
    (forall a p w, fst (default_contains_point_e P ia a p w) = Val (contains_point a p)) /\
    (forall a b w, fst (default_contains_interval_e P ia ib a b w) = Val (contains_interval a b)) /\
    (forall a w, fst (default_is_singular_e P ia a w) = Val (is_singular a)) /\
    (forall max min from a b w, (forall x y, answers (max x y) (Val (omax x y))) -> (forall x y, answers (min x y) (Val (omin x y))) ->
       (forall i, answers (from i) (Val (ifrom i))) -> fst (default_intersection_e P ia ib max min from a b w) = Val (intersection a b)) /\
    (forall add add' from a d w, (forall x y, answers (add' x y) (add x y)) -> (forall i, answers (from i) (Val (ifrom i))) ->
       fst (default_translate_e ia add' from a d w) = translate add a d) /\
    (forall sub sub' a w, (forall x y, answers (sub' x y) (sub x y)) -> fst (default_width_e ia sub' a w) = width sub a).
  Proof.
    intros A B IA IB ia ib RA RB. split; [intros a p; exact (r_d_contains_point P RP ia RA a p)|]. split; [intros a b; exact (r_d_contains_interval P RP ia ib RA RB a b)|].
    split; [intros a; exact (r_d_singular P RP ia RA a)|]. split; [intros mx mn from a b w R1 R2 R3; exact (r_d_intersection P RP ia ib RA RB mx mn from a b R1 R2 R3 w)|].
    split; [intros add add' from a d w R1 R2; exact (r_d_translate ia RA add add' from a d R1 R2 w)|intros sub sub' a w R; exact (r_d_width ia RA sub sub' a R w)].
  Qed.
  Theorem C161_right_constructors : forall (x y : I) i r ri w,
    fst (uu_e P w) = uu /\ fst (ui_e P x w) = ui x /\ fst (ue_e P x w) = ue x /\ fst (iu_e P x w) = iu x /\ fst (eu_e P x w) = eu x /\
    fst (ii_e P x y w) = ii x y /\ fst (ie_e P x y w) = ie x y /\ fst (ei_e P x y w) = ei x y /\ fst (ee_e P x y w) = ee x y /\
    fst (interval_from_range_inclusive_e P ri w) = interval_from_range_inclusive ri /\ fst (range_from_e P i w) = range_from i /\ fst (interval_from_range_e P r w) = interval_from_range r.
  Proof.
    intros x y i r ri w. split; [exact (r_ii P RP _ _ w)|]. split; [exact (r_ii P RP _ _ w)|]. split; [exact (r_ue P RP _ w)|]. split; [exact (r_ii P RP _ _ w)|]. split; [exact (r_eu P RP _ w)|].
    split; [exact (r_ii P RP _ _ w)|]. split; [exact (r_ie P RP _ _ w)|]. split; [exact (r_ei P RP _ _ w)|]. split; [exact (r_ee P RP _ _ w)|]. split; [exact (r_ii P RP _ _ w)|].
    split; [exact (r_range_from P RP _ w)|exact (r_ie P RP _ _ w)].
  Qed.

  Context {K : Type} {IK : InclusiveInterval I K} {IL : IntervalLaws I K} {V : Type} (veq : V -> V -> bool).
  Context (ik : interval_code W I K) (RK : right_intervals ik) (C : entry_code W I K V) (RC : right_entries veq C).
  Implicit Types (m : NoditMap K V) (t : tree K V) (w : W).
  Theorem C161_right_queries : forall {Q} {IQ : InclusiveInterval I Q} (iq : interval_code W I Q) m t (q : Q) p w, right_intervals iq -> reachable m -> entries t = m ->
    fst (get_at_point_e P ik C t p w) = get_at_point m p /\ fst (map_contains_point_e P ik C t p w) = map_contains_point m p /\
    fst (map_contains_interval_e P ik C iq t q w) = map_contains_interval m q.
  Proof.
    intros Q IQ iq m t q p w RQ R E. apply reachable_WF in R. split; [exact (r_get_at_point veq P RP ik RK C RC m t p R E w)|]. split; [exact (r_contains_point veq P RP ik RK C RC m t p R E w)|].
    exact (r_contains_interval veq P RP ik RK C RC iq RQ m t q R E w).
  Qed.
  Theorem C161_right_mut : forall {Q} {IQ : InclusiveInterval I Q} (iq : interval_code W I Q) m t (q : Q) w f g, right_intervals iq -> reachable m -> entries t = m -> right_edit f g ->
    fst (overlapping_mut_e P ik iq f q t w) = overlapping_mut g q m /\ fst (iter_mut_e f m w) = (iter_mut g m, Val tt).
  Proof.
    intros Q IQ iq m t q w f g RQ R E RG. apply reachable_WF in R. split; [exact (r_overlapping_mut P RP ik RK iq RQ f g RG m t q R E w)|].
    pose proof (r_edit_all f g RG m [] [] w) as X. cbn [app] in X. rewrite app_nil_r in X. exact X.
  Qed.
  Theorem C161_right_get_at_point_mut : forall m t p w f g, reachable m -> entries t = m -> right_edit f (fun _ => g) ->
    fst (get_at_point_mut_e P ik f p t w) = (fst (get_at_point_mut g p m), Val (snd (get_at_point_mut g p m))).
  Proof.
    intros m t p w f g R E RG. pose proof (r_get_mut P RP ik RK f (fun _ => g) RG p m t (reachable_WF m R) E RG g (fun _ _ => eq_refl) w) as X.
    destruct (get_at_point_mut g p m). exact X.
  Qed.
  (** Histories of maps whose intervals only implement [start], [end] and [From]. *)
  Theorem C161_right_default_history : forall start end_ (T : nat -> nat -> BTreeMap K V -> tree K V) cs w,
    (forall x : K, answers (start x) (Val (istart x))) -> (forall x : K, answers (end_ x) (Val (iend x))) -> (forall n, faithful (T n)) ->
    fst (fst (ehistory C P (default_code P start end_) (default_overlaps_e P (default_code P start end_) (default_code P start end_)) T cs new w)) = run (map (as_op veq) cs).
  Proof.
    intros start end_ T cs w RS RE TF. pose proof (r_default_code P RP start end_ RS RE) as R.
    exact (proj1 (r_history veq P RP _ R C RC _ (r_d_overlaps P RP _ _ R R) T cs TF new w (ex_intro _ [] eq_refl))).
  Qed.
End Right.

(** ** C162 *)
(** *** Whatever the user's code does *)
Section SetAny.
  Context {W I K : Type} `{DiscreteFinite I} (P : point_code W I) (ik : interval_code W I K) (from : Interval I -> user W K) (overlaps_k : K -> K -> user W bool).
  Implicit Types (s : NoditSet K) (w : W).
  (** The intervals in the set, and those handed out, were given by the caller or made by [K::from]. *)
  Theorem C162_any_history : forall (T : nat -> nat -> BTreeMap K unit -> tree K unit) cs w s' h w', (forall n, faithful (T n)) ->
    shistory P ik from overlaps_k T cs set_new w = (s', h, w') -> forall k, In k (set_iter s' ++ h) -> In k (flat_map stored_by cs) \/ made_by from k.
  Proof.
    intros T cs w s' h w' TF E k Hk.
    destruct (shistory_good P ik from overlaps_k (fun k => In k (flat_map stored_by cs) \/ made_by from k) (fun k X => or_intror X) T cs TF set_new w s' h w' E) as [G1 G2];
      [apply Forall_forall; auto|constructor|].
    apply in_app_or in Hk. destruct Hk as [Hk|Hk]; [|rewrite Forall_forall in G2; exact (G2 k Hk)]. pose proof (firsts_good (fun k => In k (flat_map stored_by cs) \/ made_by from k) s' G1) as G. rewrite Forall_forall in G. exact (G k Hk).
  Qed.
  (** [insert_strict] puts the interval somewhere, or changes nothing; wrong answers may make it
      do so and still say [Ok]. *)
  Theorem C162_any_insert_strict : forall T k s w s' o w', faithful T -> set_insert_strict_e P ik T k s w = ((s', o), w') ->
    match o with
    | Val (Ok _) => (exists a b, set_iter s = a ++ b /\ set_iter s' = a ++ k :: b) \/ set_iter s' = set_iter s
    | _ => set_iter s' = set_iter s
    end.
  Proof.
    intros T k s w s' o w' TF E. apply (insert_any P ik T TF) in E. destruct o as [[u|u]|].
    - apply put_set in E. destruct E as [E|E]; [left; exact E|right; rewrite E; reflexivity].
    - destruct E as [_ ->]. reflexivity.
    - rewrite E. reflexivity.
  Qed.
  (** A run of intervals leaves the set, these are the ones returned. *)
  Theorem C162_any_remove_overlapping : forall {Q} (iq : interval_code W I Q) q_overlaps q t w s' o w',
    set_remove_overlapping_e P ik iq q_overlaps q t w = ((s', o), w') ->
    exists a out b, set_iter (entries t) = a ++ out ++ b /\ set_iter s' = a ++ b /\ match o with Val l => l = out | Panic => True end.
  Proof.
    intros Q iq qo q t w s' o w' E. apply mthen_inv in E. unfold set_iter, iter. destruct E as [[E ->]|(m & l & w1 & E & X)].
    - apply remove_any in E. destruct E as (a & out & b & -> & -> & _). exists (map first a), (map first out), (map first b). rewrite !map_app. auto.
    - injection X as <- <- <-. apply remove_any in E. destruct E as (a & out & b & -> & -> & Y). exists (map first a), (map first out), (map first b). rewrite !map_app. subst l. auto.
  Qed.
  (** [cut] replaces a run of intervals, each by at most two. *)
  Theorem C162_any_cut : forall {Q} (iq : interval_code W I Q) k_overlaps q t w s' o w',
    set_cut_e P ik from iq k_overlaps q t w = ((s', o), w') ->
    exists a gone pieces b, set_iter (entries t) = a ++ gone ++ b /\ set_iter s' = a ++ concat pieces ++ b /\
      length pieces = length gone /\ Forall (fun l => length l <= 2) pieces /\ match o with Val l => length l = length gone | Panic => True end.
  Proof.
    intros Q iq ko q t w s' o w' E.
    assert (X : exists o', cut_e P ik (unit_code from) iq ko q t w = ((s', o'), w') /\ match o with Val l => exists l', o' = Val l' /\ l = map first l' | Panic => True end).
    { apply mthen_inv in E. destruct E as [[E ->]|(m & l & w1 & E & X)]; [eauto|]. injection X as <- <- <-. eexists. split; [exact E|]. eauto. }
    destruct X as (o' & X & Y). apply cut_any in X. destruct X as (a & gone & pieces & b & E1 & -> & F & Z).
    exists (map first a), (map first gone), (map (map first) pieces), (map first b). unfold set_iter, iter. rewrite E1, !map_app, concat_map, !map_length. repeat split.
    - symmetry. clear -F. induction F; cbn; congruence.
    - clear -F. induction F as [|e l gone pieces [L _] F IH]; cbn; constructor; [rewrite map_length; exact L|exact IH].
    - destruct o as [l|]; [|exact Logic.I]. destruct Y as (l' & -> & ->). rewrite map_length. apply (f_equal (@length _)) in Z. rewrite !map_length in Z. exact Z.
  Qed.
  (** The intervals drawn are in the set, or were lost (only wrong answers lose any). *)
  Theorem C162_any_from_iter_strict : forall (T : nat -> nat -> BTreeMap K unit -> tree K unit) next fuel w s l w', (forall i, faithful (T i)) ->
    set_from_iter_strict_e P ik T next fuel w = (LDone s, l, w') -> exists lost, Permutation (map fst l) (set_iter s ++ lost).
  Proof.
    intros T next fuel w s l w' TF E. rewrite <- first_fst. apply (set_load_perm) in E; [exact E|].
    intros i k v m w0 m1 u w1 Y. apply (insert_any P ik (T i) (TF i)) in Y. exact Y.
  Qed.
  Theorem C162_any_visit_seq : forall {E} (T : nat -> nat -> BTreeMap K unit -> tree K unit) (custom : user W E) access fuel w s l w', (forall i, faithful (T i)) ->
    set_visit_seq_e P ik T custom access fuel w = (LDone s, l, w') -> exists lost, Permutation (map fst l) (set_iter s ++ lost).
  Proof.
    intros E T custom access fuel w s l w' TF X. rewrite <- first_fst. apply (set_load_perm) in X; [exact X|].
    intros i k v m w0 m1 u w1 Y. apply map_err_inv in Y. destruct Y as (o' & w2 & Y & -> & _). apply (insert_any P ik (T i) (TF i)) in Y. exact Y.
  Qed.
  (** Unlike the maps' (C159), the set's [visit_seq] only makes the error for an element that is
      refused: what is loaded does not depend on the code that makes it. *)
  Theorem C162_any_custom : forall {E} (T : nat -> nat -> BTreeMap K unit -> tree K unit) (custom custom' : user W E) access fuel w r l w',
    set_visit_seq_e P ik T custom access fuel w = (r, l, w') ->
    match r with LRefused _ | LStopped false => True | _ => set_visit_seq_e P ik T custom' access fuel w = (r, l, w') end.
  Proof.
    intros E T custom custom' access fuel w r l w'. unfold set_visit_seq_e. generalize 0. generalize (set_new (K := K)). revert w r l w'.
    induction fuel as [|fuel IH]; intros w r l w' s i X; [destruct r as [| | |[]|]; trivial; exact X|]. rewrite load_step in X.
    destruct r as [s'|e|e|[]|]; trivial; rewrite load_step;
      (destruct (as_entry access w) as [[[[[k u]|]|e']|] w1]; try exact X;
       destruct (set_insert_strict_e P ik (T i) k s w1) as [[m1 [[v|v]|]] w2]; cbn [map_err_custom] in *; [|destruct (custom w2) as [[?|] ?]; discriminate X|discriminate X];
       match type of X with context [load_e ?n ?f fuel (S i) m1 w2] => destruct (load_e n f fuel (S i) m1 w2) as [[r' l'] w3] eqn:Y end; injection X as -> <- <-; apply IH in Y; rewrite Y; reflexivity).
  Qed.
  (** The sink is told the length, then the intervals in order. *)
  Theorem C162_any_serialize : forall {A E} (announce : nat -> user W (result unit E)) (element : K -> user W (result unit E)) (finish : user W (result A E)) s w o n told w',
    set_serialize_e announce element finish s w = (o, (n, told), w') ->
    n = length (set_iter s) /\ exists rest, set_iter s = map fst told ++ rest /\ (match o with Val (Ok _) => rest = [] | _ => True end).
  Proof.
    intros A E announce element finish s w o n told w' X. apply serialize_inv in X. destruct X as (-> & rest & R & N). split; [unfold set_len, len, set_iter, iter; rewrite map_length; reflexivity|].
    exists (map first rest). split; [|destruct o as [[|]|]; trivial; rewrite N; reflexivity]. unfold set_iter, iter. rewrite R, map_app, first_fst. reflexivity.
  Qed.
End SetAny.

(** *** Side effects, but the right answers *)
Section SetRight.
  Context {W I : Type} `{PL : PointLaws I} {K : Type} {IK : InclusiveInterval I K} {IL : IntervalLaws I K}.
  Context (P : point_code W I) (RP : right_points P) (ik : interval_code W I K) (RK : right_intervals ik) (from : Interval I -> user W K) (RF : forall i, answers (from i) (Val (ifrom i))).
  Implicit Types (s : NoditSet K) (t : tree K unit) (w : W).
  Theorem C162_right_queries : forall {Q} {IQ : InclusiveInterval I Q} (iq : interval_code W I Q) s t (q : Q) p w, right_intervals iq -> set_reachable s -> entries t = s ->
    fst (set_overlaps_e P ik iq t q w) = set_overlaps s q /\ fst (set_overlapping_e P ik iq t q w) = set_overlapping s q /\
    fst (set_gaps_untrimmed_e P ik from iq t q w) = set_gaps_untrimmed s q /\ fst (set_gaps_trimmed_e P ik from iq t q w) = set_gaps_trimmed s q /\
    fst (set_contains_interval_e P ik from iq t q w) = set_contains_interval s q /\
    fst (set_get_at_point_e P ik from t p w) = set_get_at_point s p /\ fst (set_contains_point_e P ik from t p w) = set_contains_point s p.
  Proof.
    intros Q IQ iq s t q p w RQ R E. apply set_reachable_WF in R. pose proof (r_unit_code from RF) as RU.
    split; [exact (r_map_overlaps P RP ik RK iq RQ s t q R E w)|]. split; [exact (r_set_overlapping P RP ik RK iq RQ s t q R E w)|].
    split; [exact (r_gaps_untrimmed _ P RP ik RK _ RU iq RQ s t q R E w)|]. split; [exact (r_gaps_trimmed _ P RP ik RK _ RU iq RQ s t q R E w)|].
    split; [exact (r_contains_interval _ P RP ik RK _ RU iq RQ s t q R E w)|]. split; [exact (r_set_get P RP ik RK from RF s t p R E w)|exact (r_contains_point _ P RP ik RK _ RU s t p R E w)].
  Qed.
  Theorem C162_right_removals : forall {Q} {IQ : InclusiveInterval I Q} (iq : interval_code W I Q) q_overlaps k_overlaps s t (q : Q) w,
    right_intervals iq -> right_overlaps q_overlaps -> right_overlaps k_overlaps -> set_reachable s -> entries t = s ->
    fst (set_remove_overlapping_e P ik iq q_overlaps q t w) = set_remove_overlapping q s /\ fst (set_cut_e P ik from iq k_overlaps q t w) = set_cut q s.
  Proof.
    intros Q IQ iq qo ko s t q w RQ R1 R2 R E. apply set_reachable_WF in R. split; [exact (r_set_remove P RP ik RK iq RQ qo s t q R1 R E w)|exact (r_set_cut P RP ik RK from RF iq RQ ko s t q R2 R E w)].
  Qed.
  Theorem C162_right_insertions : forall overlaps_k T k s w, right_overlaps overlaps_k -> faithful T -> set_reachable s ->
    fst (set_insert_strict_e P ik T k s w) = set_insert_strict k s /\
    fst (set_insert_merge_touching_e P ik from overlaps_k T k s w) = set_insert_merge_touching k s /\
    fst (set_insert_merge_overlapping_e P ik from overlaps_k T k s w) = set_insert_merge_overlapping k s /\
    fst (set_insert_merge_touching_or_overlapping_e P ik from overlaps_k T k s w) = set_insert_merge_touching_or_overlapping k s /\
    fst (set_insert_overwrite_e P ik from overlaps_k T k s w) = set_insert_overwrite k s.
  Proof.
    intros ok T k s w RO F R. apply set_reachable_WF in R. pose proof (r_unit_code from RF) as RU.
    split; [exact (r_insert_strict P RP ik RK T F s k tt R w)|]. split; [exact (r_merge_touching _ P RP ik RK _ RU ok RO T F s k tt R w)|].
    split; [exact (r_merge_overlapping _ P RP ik RK _ RU ok RO T F s k tt R w)|]. split; [exact (r_merge_both _ P RP ik RK _ RU ok RO T F s k tt R w)|].
    exact (r_set_overwrite P RP ik RK from RF ok RO T s k F R w).
  Qed.
  Theorem C162_right_history : forall overlaps_k (T : nat -> nat -> BTreeMap K unit -> tree K unit) cs w, right_overlaps overlaps_k -> (forall n, faithful (T n)) ->
    fst (fst (shistory P ik from overlaps_k T cs set_new w)) = set_run (map as_set_op cs).
  Proof. intros ok T cs w RO TF. exact (proj1 (r_shistory P RP ik RK from RF ok RO T cs TF set_new w (ex_intro _ [] eq_refl))). Qed.
  (** Loading gives what loading a list of the intervals drawn gives. *)
  Theorem C162_right_from_iter_strict : forall (T : nat -> nat -> BTreeMap K unit -> tree K unit) next fuel w r l w', (forall i, faithful (T i)) ->
    set_from_iter_strict_e P ik T next fuel w = (r, l, w') ->
    match r with
    | LDone s => set_from_iter_strict (map fst l) = Val (Ok s)
    | LRefused _ => set_from_iter_strict (map fst l) = Val (Err tt)
    | LStopped false => set_from_iter_strict (map fst l) = Panic
    | LFailed _ | LStopped true | LRunning => exists s, set_from_iter_strict (map fst l) = Val (Ok s)
    end.
  Proof.
    intros T next fuel w r l w' TF X. apply (load_right _ _ (fun _ => tt) WF insert_strict) in X.
    - unfold set_from_iter_strict. rewrite set_extend_map. rewrite loop_strict in X.
      assert (EL : map unit_entry (map fst l) = l) by (rewrite map_map; rewrite <- (map_id l) at 2; apply map_ext; intros [k []]; reflexivity). rewrite EL. exact X.
    - intros i k [] m w1 Wm. unfold set_insert_strict_e. rewrite (r_insert_strict P RP ik RK (T i) (TF i) m k tt Wm w1). unfold erring. destruct (insert_strict k tt m) as [m1 [[[]|[]]|]]; reflexivity.
    - intros k v m Wm. exact (step_WF m (OpInsertStrict k v) Wm).
    - apply reachable_WF. exists []. reflexivity.
  Qed.
  Theorem C162_right_visit_seq : forall {E} (T : nat -> nat -> BTreeMap K unit -> tree K unit) (custom : user W E) access fuel w r l w', (forall i, faithful (T i)) -> calm custom ->
    set_visit_seq_e P ik T custom access fuel w = (r, l, w') ->
    match r with
    | LDone s => set_deserialize (map (fun e => Some (fst e)) l) = Val (Ok s)
    | LRefused _ => set_deserialize (map (fun e => Some (fst e)) l) = Val (Err DeOverlap)
    | LStopped false => set_deserialize (map (fun e => Some (fst e)) l) = Panic
    | LFailed _ => set_deserialize (map (fun e => Some (fst e)) l ++ [None]) = Val (Err DeElement)
    | LStopped true | LRunning => exists s, set_deserialize (map (fun e => Some (fst e)) l) = Val (Ok s)
    end.
  Proof.
    intros E T custom access fuel w r l w' TF CC Y. unfold set_deserialize. rewrite !set_visit_map, map_app.
    assert (EL : map (option_map unit_entry) (map (fun e : K * unit => Some (fst e)) l) = map Some l) by (rewrite map_map; apply map_ext; intros [k []]; reflexivity). rewrite EL. clear EL.
    apply (load_right _ _ (fun _ => DeOverlap) WF (custom_ins insert_strict DeOverlap)) in Y.
    - rewrite loop_visit in Y. destruct r as [s|e|e|[]|]; try exact Y. destruct Y as (s & Y). exact (visit_fails l set_new s Y).
    - intros i k [] m w1 Wm. unfold set_insert_strict_e. pose proof (r_insert_strict P RP ik RK (T i) (TF i) m k tt Wm w1) as Z. unfold custom_ins. rewrite <- Z.
      unfold erring, map_err_custom. destruct (insert_strict_e P ik (T i) k tt m w1) as [[m1 [[[]|[]]|]] w2]; cbn [fst snd]; try reflexivity.
      specialize (CC w2). destruct (custom w2) as [[e|] w3]; [reflexivity|destruct (CC eq_refl)].
    - intros k v m Wm. pose proof (step_WF m (OpInsertStrict k v) Wm) as X. unfold custom_ins. cbn [step] in X. destruct (insert_strict k v m) as [m1 [[?|?]|]]; exact X.
    - apply reachable_WF. exists []. reflexivity.
  Qed.
End SetRight.

(** ** Examples *)
Definition counting_kc : interval_code nat u8 (Interval u8) := default_code counting (fun x => tick (Val (istart x))) (fun x => tick (Val (iend x))).
Definition counting_f : Interval u8 -> user nat (Interval u8) := fun i => tick (Val (ifrom i)).
(** Adds 100 to the value; panics, after that, when the world is at 30. *)
Definition ex_edit : edit (W := nat) (K := Interval u8) (V := nat) := fun k v w => ((v + 100, if Nat.eqb w 30 then Panic else Val tt), S w).
Definition ex_plain : edit (W := nat) (K := Interval u8) (V := nat) := fun k v w => ((v + 100, Val tt), S w).
Definition ex_tree : tree (Interval u8) nat := some_shapes 3 [(1 --> 2, 7); (4 --> 5, 8); (9 --> 9, 6); (20 --> 30, 5)].
Definition ex_keys {A} (f : Interval u8 -> A) (n : nat) (last : outcome A) : user nat A := ex_source (fun e => f (fst e)) n last.
Example C161_example :
  right_points counting /\ right_intervals counting_i /\ right_intervals counting_kc /\ right_entries Nat.eqb counting_v /\ right_edit ex_plain (fun k v => v + 100) /\
  reachable (entries ex_tree) /\
  default_contains_interval_e counting counting_kc counting_i (1 --> 9) (4 --> 12) 0 = (Val false, 6) /\
  default_overlaps_e counting counting_kc counting_kc (1 --> 9) (4 --> 12) 0 = (Val true, 17) /\
  ee_e counting ('1) ('9) 0 = (Val (2 --> 8), 3) /\ ee_e lying ('1) ('9) 0 = (Val (1 --> 9), 3) /\ ee_e counting ('4) ('5) 0 = (Panic, 3) /\
  range_from_e counting (1 --> 255 : Interval u8) 0 = (Panic, 1) /\
  get_at_point_e counting counting_i counting_v ex_tree ('4) 0 = (Val (Some 8), 8) /\
  map_contains_interval_e counting counting_i counting_v counting_kc ex_tree (4 --> 5) 0 = (Val true, 47) /\
  map_contains_interval_e counting counting_i counting_v counting_kc ex_tree (1 --> 5) 0 = (Val false, 45) /\
  overlapping_mut_e counting counting_i counting_i ex_plain (2 --> 9) ex_tree 0 = (([(1 --> 2, 107); (4 --> 5, 108); (9 --> 9, 106); (20 --> 30, 5)], Val tt), 22) /\
  get_at_point_mut_e counting counting_i ex_plain ('9) ex_tree 0 = (([(1 --> 2, 7); (4 --> 5, 8); (9 --> 9, 106); (20 --> 30, 5)], Val (Some 6)), 13) /\
  (** the edit that panics is not undone *)
  iter_mut_e ex_edit (entries ex_tree) 28 = (([(1 --> 2, 107); (4 --> 5, 108); (9 --> 9, 106); (20 --> 30, 5)], Panic), 31).
Proof.
  split; [split; intros; repeat split; intros w; reflexivity|]. split; [intros x; repeat split; intros w; reflexivity|].
  split; [refine (proj1 (C161_right_default_code counting _ _ _ counting_i _ _ _)); [split; intros; repeat split; intros w; reflexivity|intros x w; reflexivity|intros x w; reflexivity|intros x; repeat split; intros w; reflexivity]|].
  split; [split; intros; repeat split; intros w; reflexivity|]. split; [intros k v w; reflexivity|].
  split; [exists [OpInsertStrict (1 --> 2 : Interval u8) 7; OpInsertStrict (4 --> 5) 8; OpInsertStrict (9 --> 9) 6; OpInsertStrict (20 --> 30) 5]; reflexivity|].
  vm_compute. repeat split; reflexivity.
Qed.
Definition ex_set_calls : list (scall (Interval u8)) :=
  [CStrict (1 --> 9); CStrict (5 --> 30); CTouching (10 --> 12); COverwrite (5 --> 6); CCut (8 --> 8); CStrict (20 --> 30); CBoth (11 --> 19); CRemove (2 --> 3)].
Example C162_example :
  (forall i, faithful (ex_shapes (V := unit) i)) /\ right_points counting /\ right_intervals counting_i /\ (forall i, answers (counting_f i) (Val (ifrom i))) /\ right_overlaps counting_o /\
  calm ex_custom /\
  shistory counting counting_i counting_f counting_o (fun _ => some_shapes) ex_set_calls set_new 0 =
    ([(5 --> 6, tt); (7 --> 7, tt); (9 --> 30, tt)], [1 --> 12; 5 --> 6; 8 --> 8; 9 --> 30; 1 --> 4], 319) /\
  set_iter (fst (fst (shistory lying counting_kc counting_f (default_overlaps_e lying counting_kc counting_kc) (fun _ => some_shapes) ex_set_calls set_new 7))) = [1 --> 9] /\
  set_from_iter_strict_e counting counting_i ex_shapes (ex_keys Some 34 (Val None)) 20 0 =
    (LDone [(3 --> 4, tt); (11 --> 19, tt); (31 --> 39, tt)], [(11 --> 19, tt); (31 --> 39, tt); (3 --> 4, tt)], 37) /\
  (** a liar loses intervals *)
  set_from_iter_strict_e lying counting_i ex_shapes (ex_keys Some 30 (Val None)) 20 9 = (LDone [(31 --> 39, tt)], [(31 --> 39, tt); (31 --> 39, tt); (3 --> 4, tt)], 42) /\
  (** code for the error that panics: no harm until an element is refused (compare C159_example) *)
  set_visit_seq_e counting counting_i ex_shapes (fun w => (@Panic bool, w)) (ex_keys (fun e => Ok (Some e)) 5 (Val (Ok None))) 20 0 = (LDone [(11 --> 19, tt)], [(11 --> 19, tt)], 7) /\
  set_visit_seq_e counting counting_i ex_shapes (fun w => (@Panic bool, w)) (ex_same (fun e => Ok (Some (fst e)))) 20 0 = (LStopped false, [(1 --> 9, tt); (1 --> 9, tt)], 20) /\
  set_visit_seq_e counting counting_i ex_shapes ex_custom (ex_same (fun e => Ok (Some (fst e)))) 20 0 = (LRefused true, [(1 --> 9, tt); (1 --> 9, tt)], 21) /\
  set_serialize_e (fun n => tick (Val (Ok tt))) (fun k => ex_element 2 (k, 0)) (tick (Val (Ok 5))) [(1 --> 2 : Interval u8, tt); (4 --> 5, tt); (9 --> 9, tt)] 0 =
    (Val (Err false), (3, [(1 --> 2, tt); (4 --> 5, tt)]), 3).
Proof.
  split; [intros i j l; apply some_shapes_good|]. split; [split; intros; repeat split; intros w; reflexivity|]. split; [intros x; repeat split; intros w; reflexivity|].
  split; [intros i w; reflexivity|]. split; [intros a b w; reflexivity|]. split; [intros w; discriminate|]. vm_compute. repeat split; reflexivity.
Qed.

Print Assumptions C161_any_intervals.
Print Assumptions C161_any_made.
Print Assumptions C161_any_overlapping_mut.
Print Assumptions C161_any_iter_mut.
Print Assumptions C161_any_get_at_point_mut.
Print Assumptions C161_any_keys.
Print Assumptions C161_any_get_at_point.
Print Assumptions C161_right_default_code.
Print Assumptions C161_right_default_methods.
Print Assumptions C161_right_constructors.
Print Assumptions C161_right_queries.
Print Assumptions C161_right_mut.
Print Assumptions C161_right_get_at_point_mut.
Print Assumptions C161_right_default_history.
Print Assumptions C162_any_history.
Print Assumptions C162_any_insert_strict.
Print Assumptions C162_any_remove_overlapping.
Print Assumptions C162_any_cut.
Print Assumptions C162_any_from_iter_strict.
Print Assumptions C162_any_visit_seq.
Print Assumptions C162_any_custom.
Print Assumptions C162_any_serialize.
Print Assumptions C162_right_queries.
Print Assumptions C162_right_removals.
Print Assumptions C162_right_insertions.
Print Assumptions C162_right_history.
Print Assumptions C162_right_from_iter_strict.
Print Assumptions C162_right_visit_seq.
