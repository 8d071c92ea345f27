(** * EffectRight: facts behind C157, user code with the right answers. *)
From Coq Require Import List Bool ZArith Lia.
From Verif Require Import Base BTree UtilsModel IntervalModel NoditModel NoditOps Spec TreeShape LooksOps
  PointFacts IntervalFacts NoditFacts NoditInv NoditQueries NoditMutations TreeFacts TreeProofs LooksFacts EffectModel EffectOps.
Import ListNotations.
Open Scope nat_scope.

Section Bind.
  Context {W K V : Type}.
  Lemma answers_ret {A} (a : A) : answers (uret (W := W) a) (Val a).
  Proof. intros w. reflexivity. Qed.
  Lemma answers_out {A} (o : outcome A) : answers (uout (W := W) o) o.
  Proof. intros w. reflexivity. Qed.
  Lemma answers_bind {A B} (x : user W A) (f : A -> user W B) a o : answers x (Val a) -> answers (f a) o -> answers (ubind x f) o.
  Proof. intros X Y w. unfold ubind. specialize (X w). destruct (x w) as [r w']. cbn in X. subst r. apply Y. Qed.
  Lemma answers_obind {A B} (x : user W A) (f : A -> user W B) r (g : A -> outcome B) : answers x r -> (forall a, r = Val a -> answers (f a) (g a)) ->
    answers (ubind x f) (obind r g).
  Proof. intros X Y w. unfold ubind. specialize (X w). destruct (x w) as [o w']. cbn in X. subst o. destruct r; [apply Y|]; reflexivity. Qed.
  Definition gives {A} (x : changing W K V A) (r : NoditMap K V * outcome A) : Prop := forall w, fst (x w) = r.
  Lemma gives_ret {A} m (o : outcome A) : gives (mret m o) (m, o).
  Proof. intros w. reflexivity. Qed.
  Lemma gives_bind {A B} m (x : user W A) (f : A -> changing W K V B) a r : answers x (Val a) -> gives (f a) r -> gives (mbind m x f) r.
  Proof. intros X Y w. unfold mbind. specialize (X w). destruct (x w) as [o w']. cbn in X. subst o. apply Y. Qed.
  Lemma gives_obind {A B} m (x : user W A) (f : A -> changing W K V B) o (g : A -> NoditMap K V * outcome B) : answers x o -> (forall a, o = Val a -> gives (f a) (g a)) ->
    gives (mbind m x f) (match o with Val a => g a | Panic => (m, Panic) end).
  Proof. intros X Y w. unfold mbind. specialize (X w). destruct (x w) as [r w']. cbn in X. subst r. destruct o; [apply Y|]; reflexivity. Qed.
  Lemma gives_then {A B} (x : changing W K V A) (f : NoditMap K V -> A -> changing W K V B) m o (g : NoditMap K V -> A -> NoditMap K V * outcome B) :
    gives x (m, o) -> (forall a, o = Val a -> gives (f m a) (g m a)) -> gives (mthen x f) (match o with Val a => g m a | Panic => (m, Panic) end).
  Proof. intros X Y w. unfold mthen. specialize (X w). destruct (x w) as [[m1 r] w']. cbn in X. injection X as -> ->. destruct o; [apply Y|]; reflexivity. Qed.
End Bind.
Ltac ab := eapply answers_bind; [|try apply answers_ret].

Section Right.
  Context {W I : Type} `{PL : PointLaws I}.
  Context {K : Type} {IK : InclusiveInterval I K} {IL : IntervalLaws I K}.
  Context {V : Type} (veq : V -> V -> bool).
  Context (P : point_code W I) (RP : right_points P).
  Lemma r_cmp x y : answers (e_cmp P x y) (Val (cmp x y)). Proof. apply (proj1 RP). Qed.
  Lemma r_lt x y : answers (e_lt P x y) (Val (ltb x y)). Proof. apply (proj1 RP). Qed.
  Lemma r_gt x y : answers (e_gt P x y) (Val (gtb x y)). Proof. apply (proj1 RP). Qed.
  Lemma r_le x y : answers (e_le P x y) (Val (leb x y)). Proof. apply (proj1 RP). Qed.
  Lemma r_ge x y : answers (e_ge P x y) (Val (geb x y)). Proof. apply (proj1 RP). Qed.
  Lemma r_eq x y : answers (e_eq P x y) (Val (eqb x y)). Proof. apply (proj1 RP). Qed.
  Lemma r_up x : answers (e_up P x) (Val (up x)). Proof. apply (proj2 RP). Qed.
  Lemma r_down x : answers (e_down P x) (Val (down x)). Proof. apply (proj2 RP). Qed.

  Section X.
    Context {X : Type} {IX : InclusiveInterval I X} (ix : interval_code W I X) (RX : right_intervals ix).
    Lemma r_start x : answers (e_start ix x) (Val (istart x)). Proof. apply RX. Qed.
    Lemma r_end x : answers (e_end ix x) (Val (iend x)). Proof. apply RX. Qed.
    Lemma r_valid x : answers (e_valid ix x) (Val (is_valid x)). Proof. apply RX. Qed.
    Lemma r_iip x : answers (invalid_interval_panic_e ix x) (invalid_interval_panic x).
    Proof. eapply answers_bind; [apply r_valid|]. unfold invalid_interval_panic. destruct (is_valid x); [apply answers_ret|apply answers_out]. Qed.
    Lemma r_overlapping_comp p x : answers (overlapping_comp_e P ix p x) (Val (overlapping_comp p x)).
    Proof.
      unfold overlapping_comp_e, overlapping_comp, cmp_point_with_interval, inclusive_comp. eapply answers_bind; [apply r_start|]. eapply answers_bind; [apply r_lt|].
      destruct (ltb p (istart x)); [apply answers_ret|]. eapply answers_bind; [apply r_end|]. eapply answers_bind; [apply r_gt|]. destruct (gtb p (iend x)); apply answers_ret.
    Qed.
    Lemma r_touching_start p x : answers (touching_start_comp_e P ix p x) (Val (touching_start_comp p x)).
    Proof.
      unfold touching_start_comp_e, touching_start_comp. eapply answers_bind; [apply r_end|]. eapply answers_bind; [apply r_up|].
      destruct (up (iend x)); [apply r_cmp|apply answers_ret].
    Qed.
    Lemma r_touching_end p x : answers (touching_end_comp_e P ix p x) (Val (touching_end_comp p x)).
    Proof.
      unfold touching_end_comp_e, touching_end_comp. eapply answers_bind; [apply r_start|]. eapply answers_bind; [apply r_down|].
      destruct (down (istart x)); [apply r_cmp|apply answers_ret].
    Qed.
    Lemma r_starts inner new : answers (starts_comp_e P ix inner new) (Val (starts_comp inner new)).
    Proof. unfold starts_comp_e, starts_comp. eapply answers_bind; [apply r_start|]. eapply answers_bind; [apply r_start|]. apply r_cmp. Qed.
    Lemma r_contains x p : answers (contains_point_e P ix x p) (Val (utils_contains_point x p)).
    Proof. eapply answers_bind; [apply r_overlapping_comp|]. unfold utils_contains_point, overlapping_comp. destruct (cmp_point_with_interval p x); apply answers_ret. Qed.
  End X.

  Section Cut.
    Context {A B : Type} {IA : InclusiveInterval I A} {IB : InclusiveInterval I B} (ia : interval_code W I A) (ib : interval_code W I B) (RA : right_intervals ia) (RB : right_intervals ib).
    Lemma r_config a b : answers (config_e P ia ib a b) (config a b).
    Proof.
      unfold config_e, config. eapply answers_bind; [apply (r_start ia RA)|]. eapply answers_bind; [apply (r_start ib RB)|]. eapply answers_bind; [apply r_lt|].
      destruct (ltb (istart a) (istart b)).
      - eapply answers_bind; [apply (r_start ib RB)|]. eapply answers_bind; [apply (r_contains ia RA)|]. eapply answers_bind; [apply (r_end ib RB)|]. eapply answers_bind; [apply (r_contains ia RA)|]. apply answers_out.
      - eapply answers_bind; [apply (r_start ia RA)|]. eapply answers_bind; [apply (r_contains ib RB)|]. eapply answers_bind; [apply (r_end ia RA)|]. eapply answers_bind; [apply (r_contains ib RB)|]. apply answers_out.
    Qed.
    Lemma r_filter o : answers (filter_valid_e P o) (Val (filter_valid o)).
    Proof. destruct o as [x|]; [|apply answers_ret]. eapply answers_bind; [apply r_le|]. cbn [filter_valid]. unfold is_valid. cbn [istart iend]. apply answers_ret. Qed.
    Lemma r_cut_raw a b : answers (cut_interval_raw_e P ia ib a b) (cut_interval_raw a b).
    Proof.
      unfold cut_interval_raw_e, cut_interval_raw. apply answers_obind; [apply r_config|]. intros [| | | | |] _;
        repeat first [apply answers_ret
          | eapply answers_bind; [first [apply (r_start ia RA)|apply (r_start ib RB)|apply (r_end ia RA)|apply (r_end ib RB)|apply r_up|apply r_down]|]
          | apply answers_obind; [apply answers_out|intros ? _]
          | match goal with |- answers (match ?o with Some _ => _ | None => _ end) _ => destruct o end].
    Qed.
    Lemma r_cut_interval a b : answers (cut_interval_e P ia ib a b) (cut_interval a b).
    Proof.
      unfold cut_interval_e, cut_interval. apply answers_obind; [apply r_cut_raw|]. intros r _. do 3 (eapply answers_bind; [apply r_filter|]). apply answers_ret.
    Qed.
  End Cut.

  (** The searches *)
  Implicit Types (t : tree K V) (m : NoditMap K V).
  Section Searches.
    Context (comp' : K -> user W comparison) (comp : K -> comparison) (RC : forall k, answers (comp' k) (Val (comp k))).
    Lemma r_search : (forall t, answers (e_search comp' t) (Val (search comp t))) /\
      (forall n : edges K V, answers (e_search_node comp' n) (Val (search_node comp n))).
    Proof.
      apply tree_mutind.
      - apply answers_ret.
      - intros n IH. exact IH.
      - intros t IH. exact IH.
      - intros t IHt kv n IHn.
        change (search_node comp (More t kv n)) with (match comp (fst kv) with
          | Gt => let '(a, x, b) := search_node comp n in (entries t ++ kv :: a, x, b)
          | Eq => (entries t, Some kv, edges_entries n)
          | Lt => let '(a, x, b) := search comp t in (a, x, b ++ kv :: edges_entries n)
          end). eapply answers_bind; [apply RC|]. destruct (comp (fst kv)).
        + apply answers_ret.
        + eapply answers_bind; [apply IHt|]. destruct (search comp t) as [[a x] b]. apply answers_ret.
        + eapply answers_bind; [apply IHn|]. destruct (search_node comp n) as [[a x] b]. apply answers_ret.
    Qed.
    Context (l : list (K * V)) (OC : orderly comp l).
    Lemma r_get t : entries t = l -> answers (e_get comp' t) (Val (get_key_value comp l)).
    Proof.
      intros E. destruct (orderly_shape_free _ _ OC t E) as (<- & _). eapply answers_bind; [apply r_search|]. unfold t_get_key_value. destruct (search comp t) as [[a x] b]. apply answers_ret.
    Qed.
    Lemma r_remove t : entries t = l -> answers (e_remove comp' t) (Val (fst (remove comp l))).
    Proof.
      intros E. destruct (orderly_shape_free _ _ OC t E) as (_ & _ & <- & _). eapply answers_bind; [apply r_search|]. unfold t_remove. destruct (search comp t) as [[a [[k v]|]] b]; apply answers_ret.
    Qed.
    Lemma r_lower t : entries t = l -> answers (e_lower comp' t) (Val (lower_bound comp l)).
    Proof.
      intros E. destruct (orderly_shape_free _ _ OC t E) as (_ & _ & _ & <- & _). eapply answers_bind; [apply r_search|]. unfold t_lower_bound. destruct (search comp t) as [[a [kv|]] b]; apply answers_ret.
    Qed.
    Lemma r_upper t : entries t = l -> answers (e_upper comp' t) (Val (upper_bound comp l)).
    Proof.
      intros E. destruct (orderly_shape_free _ _ OC t E) as (_ & _ & _ & _ & <-). eapply answers_bind; [apply r_search|]. unfold t_upper_bound. destruct (search comp t) as [[a [kv|]] b]; apply answers_ret.
    Qed.
  End Searches.

  Context (ik : interval_code W I K) (RK : right_intervals ik) (C : entry_code W I K V) (RC : right_entries veq C).
  Lemma r_from i : answers (e_from C i) (Val (ifrom i)). Proof. apply RC. Qed.
  Lemma r_clone v : answers (e_clone C v) (Val v). Proof. apply RC. Qed.
  Lemma r_veq v v' : answers (e_veq C v v') (Val (veq v v')). Proof. apply RC. Qed.
  Notation roc := (r_overlapping_comp ik RK).

  Section Q.
    Context {Q : Type} {IQ : InclusiveInterval I Q} (iq : interval_code W I Q) (RQ : right_intervals iq).
    Lemma r_overlapping m t q : WF m -> entries t = m -> answers (overlapping_e P ik iq t q) (overlapping m q).
    Proof.
      intros Wm E. unfold overlapping_e, overlapping. apply answers_obind; [apply r_iip, RQ|]. intros _ _.
      eapply answers_bind; [apply (r_start iq RQ)|]. eapply answers_bind; [apply (r_end iq RQ)|].
      rewrite <- (orderly_range_shape_free _ _ _ (orderly_ol (istart q) m Wm) (orderly_ol (iend q) m Wm) t E). unfold e_range, t_range.
      eapply answers_bind; [apply (proj1 (r_search _ _ (roc _)))|]. destruct (search _ t) as [[a x] b].
      eapply answers_bind; [apply (proj1 (r_search _ _ (roc _)))|]. destruct (search _ t) as [[a' x'] b']. apply answers_ret.
    Qed.
    Lemma r_map_overlaps m t q : WF m -> entries t = m -> answers (map_overlaps_e P ik iq t q) (map_overlaps m q).
    Proof.
      intros Wm E. unfold map_overlaps_e, map_overlaps. apply answers_obind; [apply r_iip, RQ|]. intros _ _.
      apply answers_obind; [apply r_overlapping; assumption|]. intros l _. apply answers_ret.
    Qed.
    Context (q_overlaps : Q -> K -> user W bool) (RQO : right_overlaps q_overlaps).
    Lemma r_remove_loop q post : forall pre acc, gives (remove_overlapping_loop_e (V := V) q_overlaps q pre post acc) (remove_overlapping_loop q pre post acc).
    Proof.
      induction post as [|[k v] rest IH]; intros pre acc; cbn [remove_overlapping_loop_e remove_overlapping_loop]; [apply gives_ret|].
      assert (G := gives_obind (pre ++ (k, v) :: rest) (q_overlaps q k) (fun b : bool => if b then remove_overlapping_loop_e q_overlaps q pre rest (acc ++ [(k, v)]) else mret (pre ++ (k, v) :: rest) (Val acc))
        (overlaps q k) (fun b : bool => if b then remove_overlapping_loop q pre rest (acc ++ [(k, v)]) else (pre ++ (k, v) :: rest, Val acc)) (RQO q k)).
      destruct (overlaps q k) as [[|]|]; apply G; intros [|] X; try discriminate; try apply IH; apply gives_ret.
    Qed.
    Lemma r_remove_overlapping m t q : WF m -> entries t = m -> gives (remove_overlapping_e P ik iq q_overlaps q t) (remove_overlapping q m).
    Proof.
      intros Wm E. unfold remove_overlapping_e, remove_overlapping. rewrite E. apply gives_obind; [apply r_iip, RQ|]. intros _ _.
      eapply gives_bind; [apply (r_start iq RQ)|]. eapply gives_bind; [apply (r_lower _ _ (roc _) m (orderly_ol _ m Wm) t E)|]. apply r_remove_loop.
    Qed.
    Context (k_overlaps : K -> Q -> user W bool) (RKO : right_overlaps k_overlaps).
    Lemma r_piece p v : answers (piece_e C p v) (Val (insert_piece p v [])).
    Proof. destruct p as [i|]; cbn [piece_e insert_piece]; [|apply answers_ret]. eapply answers_bind; [apply r_from|]. eapply answers_bind; [apply r_clone|]. apply answers_ret. Qed.
    Lemma insert_piece_app (p : option (Interval I)) v (pre : list (K * V)) : insert_piece p v pre = pre ++ insert_piece p v [].
    Proof. destruct p; cbn; [|rewrite app_nil_r]; reflexivity. Qed.
    Lemma r_cut_loop q post : forall pre acc, gives (cut_loop_e P ik C iq k_overlaps q pre post acc) (cut_loop q pre post acc).
    Proof.
      induction post as [|[k v] rest IH]; intros pre acc; [apply gives_ret|].
      intros w. cbn [cut_loop_e cut_loop]. unfold mbind at 1. pose proof (RKO k q w) as X. destruct (k_overlaps k q w) as [o w1]. cbn in X. subst o.
      destruct (overlaps k q) as [[|]|]; [|reflexivity|reflexivity]. revert w1. apply gives_obind; [apply r_cut_interval; assumption|]. intros r _.
      eapply gives_bind; [apply r_piece|]. eapply gives_bind; [apply r_piece|]. cbv zeta. rewrite (insert_piece_app (after_cut r) v (insert_piece _ _ _)), (insert_piece_app (before_cut r) v pre), <- (app_assoc pre (insert_piece (before_cut r) v [])  (insert_piece (after_cut r) v [])).
      intros w2. unfold mbind at 1, uout. destruct (inside_cut r) as [i|]; cbn [unwrap]; [|reflexivity]. revert w2. eapply gives_bind; [apply r_from|]. apply IH.
    Qed.
    Lemma r_cut m t q : WF m -> entries t = m -> gives (cut_e P ik C iq k_overlaps q t) (cut q m).
    Proof.
      intros Wm E. unfold cut_e, cut. rewrite E. apply gives_obind; [apply r_iip, RQ|]. intros _ _.
      eapply gives_bind; [apply (r_start iq RQ)|]. eapply gives_bind; [apply (r_lower _ _ (roc _) m (orderly_ol _ m Wm) t E)|]. apply r_cut_loop.
    Qed.
  End Q.

  Lemma r_gap m t p : WF m -> entries t = m -> answers (get_gap_at_raw_e P ik t p) (get_gap_at_raw m p).
  Proof.
    intros Wm E. unfold get_gap_at_raw_e, get_gap_at_raw. eapply answers_bind; [apply (r_upper _ _ (roc _) m (orderly_ol _ m Wm) t E)|].
    eapply answers_bind; [apply (r_lower _ _ (roc _) m (orderly_ol _ m Wm) t E)|]. cbv zeta. apply answers_obind.
    - destruct (cursor_key _); [|apply answers_ret]. eapply answers_bind; [apply (r_end ik RK)|]. eapply answers_bind; [apply r_up|]. apply answers_out.
    - intros s _. apply answers_obind.
      + destruct (cursor_key _); [|apply answers_ret]. eapply answers_bind; [apply (r_start ik RK)|]. eapply answers_bind; [apply r_down|]. apply answers_out.
      + intros e _. apply answers_ret.
  Qed.
  Lemma r_get_at m t p : WF m -> entries t = m -> answers (get_key_value_at_point_e P ik C t p) (get_key_value_at_point m p).
  Proof.
    intros Wm E. unfold get_key_value_at_point_e, get_key_value_at_point. eapply answers_bind; [apply (r_get _ _ (roc _) m (orderly_ol _ m Wm) t E)|].
    destruct (get_key_value _ m); [apply answers_ret|]. apply answers_obind; [apply r_gap; assumption|]. intros g _. eapply answers_bind; [apply r_from|]. apply answers_ret.
  Qed.

  Lemma r_bounds k : answers (bounds_e ik k) (Val (istart k, iend k)).
  Proof. eapply answers_bind; [apply (r_start ik RK)|]. eapply answers_bind; [apply (r_end ik RK)|]. apply answers_ret. Qed.
  Lemma r_inner (l : list (K * V)) : answers (inner_gaps_e P ik C l) (inner_gaps l).
  Proof.
    destruct l as [|e l]; [apply answers_ret|]. cbn [inner_gaps_e]. eapply answers_bind; [apply r_bounds|]. revert e.
    induction l as [|x l IH]; intros e; [apply answers_ret|]. cbn [windows_e]. change (inner_gaps (e :: x :: l)) with
      (let? u := unwrap (up (iend (fst e))) in let? d := unwrap (down (istart (fst x))) in
       let g := ifrom (mkInterval u d) : K in let? gs := inner_gaps (x :: l) in Val (if is_valid g then g :: gs else gs)).
    eapply answers_bind; [apply r_bounds|]. eapply answers_bind; [apply r_up|]. apply answers_obind; [apply answers_out|]. intros u _.
    eapply answers_bind; [apply r_down|]. apply answers_obind; [apply answers_out|]. intros d _. eapply answers_bind; [apply r_from|]. cbv zeta.
    eapply answers_bind; [apply (r_valid ik RK)|]. apply answers_obind; [apply IH|]. intros gs _. apply answers_ret.
  Qed.
  Lemma r_from_list o : answers (from_e C o) (Val (opt_list (option_map ifrom o))).
  Proof. destruct o; [|apply answers_ret]. eapply answers_bind; [apply r_from|]. apply answers_ret. Qed.
  Section G.
    Context {Q : Type} {IQ : InclusiveInterval I Q} (iq : interval_code W I Q) (RQ : right_intervals iq).
    Lemma r_end_gap m t point p : WF m -> entries t = m -> answers point (Val p) -> answers (end_gap_e P ik t point) (end_gap m p).
    Proof.
      intros Wm E RPt. eapply answers_bind; [exact RPt|]. eapply answers_bind; [apply (r_get _ _ (roc _) m (orderly_ol _ m Wm) t E)|].
      unfold end_gap, contains_key. destruct (get_key_value _ m); cbn [is_some negb]; [apply answers_ret|]. eapply answers_bind; [exact RPt|].
      unfold omap. pose proof (r_gap m t p Wm E) as G. destruct (get_gap_at_raw m p) as [g|].
      - eapply answers_bind; [exact G|]. apply answers_ret.
      - exact (answers_obind _ _ Panic (fun g => Val (Some g)) G (fun a X => False_ind _ (eq_ind Panic (fun o => match o with Panic => True | _ => False end) Logic.I _ X))).
    Qed.
    Lemma r_gaps_untrimmed m t q : WF m -> entries t = m -> answers (gaps_untrimmed_e P ik C iq t q) (gaps_untrimmed m q).
    Proof.
      intros Wm E. unfold gaps_untrimmed_e, gaps_untrimmed. apply answers_obind; [apply r_iip, RQ|]. intros _ _.
      apply answers_obind; [apply r_end_gap; [exact Wm|exact E|apply (r_start iq RQ)]|]. intros sg _.
      apply answers_obind; [apply r_end_gap; [exact Wm|exact E|apply (r_end iq RQ)]|]. intros eg _.
      destruct sg as [s|], eg as [e|].
      - eapply answers_bind; [eapply answers_bind; [apply r_eq|apply answers_ret]|].
        destruct (eqb (ivl_start s) (ivl_start e)); (apply answers_obind; [apply r_overlapping; assumption|]; intros l _; do 2 (eapply answers_bind; [apply r_from_list|]); apply answers_obind; [apply r_inner|]; intros i _; apply answers_ret).
      - eapply answers_bind; [apply answers_ret|]. apply answers_obind; [apply r_overlapping; assumption|]; intros l _; do 2 (eapply answers_bind; [apply r_from_list|]); apply answers_obind; [apply r_inner|]; intros i _; apply answers_ret.
      - eapply answers_bind; [apply answers_ret|]. apply answers_obind; [apply r_overlapping; assumption|]; intros l _; do 2 (eapply answers_bind; [apply r_from_list|]); apply answers_obind; [apply r_inner|]; intros i _; apply answers_ret.
      - eapply answers_bind; [apply answers_ret|]. apply answers_obind; [apply r_overlapping; assumption|]; intros l _; do 2 (eapply answers_bind; [apply r_from_list|]); apply answers_obind; [apply r_inner|]; intros i _; apply answers_ret.
    Qed.
    Lemma r_gaps_trimmed m t q : WF m -> entries t = m -> answers (gaps_trimmed_e P ik C iq t q) (gaps_trimmed m q).
    Proof.
      intros Wm E. unfold gaps_trimmed_e, gaps_trimmed. apply answers_obind; [apply r_iip, RQ|]. intros _ _.
      apply answers_obind; [apply r_end_gap; [exact Wm|exact E|apply (r_start iq RQ)]|]. intros sg _.
      apply answers_obind; [apply r_end_gap; [exact Wm|exact E|apply (r_end iq RQ)]|]. intros eg _.
      destruct sg as [s|], eg as [e|].
      - eapply answers_bind; [eapply answers_bind; [apply r_eq|]; eapply answers_bind; [apply (r_start iq RQ)|]; eapply answers_bind; [apply (r_end iq RQ)|]; apply answers_ret|].
        destruct (eqb (ivl_start s) (ivl_start e)); (apply answers_obind; [apply r_overlapping; assumption|]; intros l _; do 2 (eapply answers_bind; [apply r_from_list|]); apply answers_obind; [apply r_inner|]; intros i _; apply answers_ret).
      - eapply answers_bind; [eapply answers_bind; [apply (r_start iq RQ)|]; apply answers_ret|]. apply answers_obind; [apply r_overlapping; assumption|]; intros l _; do 2 (eapply answers_bind; [apply r_from_list|]); apply answers_obind; [apply r_inner|]; intros i _; apply answers_ret.
      - eapply answers_bind; [eapply answers_bind; [apply (r_end iq RQ)|]; apply answers_ret|]. apply answers_obind; [apply r_overlapping; assumption|]; intros l _; do 2 (eapply answers_bind; [apply r_from_list|]); apply answers_obind; [apply r_inner|]; intros i _; apply answers_ret.
      - eapply answers_bind; [apply answers_ret|]. apply answers_obind; [apply r_overlapping; assumption|]; intros l _; do 2 (eapply answers_bind; [apply r_from_list|]); apply answers_obind; [apply r_inner|]; intros i _; apply answers_ret.
    Qed.
  End G.

  Context (overlaps_k : K -> K -> user W bool) (RO : right_overlaps overlaps_k).
  Context (T : nat -> BTreeMap K V -> tree K V) (TF : faithful T).
  Lemma r_insert_unchecked m t k v : WF m -> entries t = m -> answers (insert_unchecked_e P ik k v t) (Val (insert_unchecked k v m)).
  Proof.
    intros Wm E. unfold insert_unchecked_e, insert_unchecked. rewrite <- (orderly_insert_shape_free k starts_comp m (orderly_starts k m Wm) t v E).
    eapply answers_bind; [apply (proj1 (r_search _ (fun inner => starts_comp inner k) (fun inner => r_starts ik RK inner k)))|]. unfold t_insert.
    destruct (search _ t) as [[a [[k' v']|]] b]; apply answers_ret.
  Qed.
  Lemma r_insert_strict m k v : WF m -> gives (insert_strict_e P ik T k v m) (insert_strict k v m).
  Proof.
    intros Wm. unfold insert_strict_e, insert_strict. apply gives_obind; [apply r_iip, RK|]. intros _ _.
    intros w. unfold mbind at 1. pose proof (r_map_overlaps ik RK m (T 0 m) k Wm (TF 0 m) w) as X. destruct (map_overlaps_e _ _ _ _ _ w) as [o w1]. cbn in X. subst o.
    destruct (map_overlaps m k) as [[|]|]; [reflexivity| |reflexivity]. revert w1. eapply gives_bind; [apply r_insert_unchecked; [exact Wm|apply TF]|]. apply gives_ret.
  Qed.
  Lemma r_insert_overwrite m k v : WF m -> gives (insert_overwrite_e P ik C overlaps_k T k v m) (insert_overwrite k v m).
  Proof.
    intros Wm. unfold insert_overwrite_e, insert_overwrite. destruct (valid_dec k) as [Vk|Nk].
    - eapply gives_bind; [rewrite <- (iip_valid _ Vk); apply r_iip, RK|]. rewrite (iip_valid _ Vk).
      destruct (cut_facts m k Wm Vk) as (A0 & M0 & B00 & out0 & ins0 & _ & _ & _ & _ & E' & _ & _ & W1). rewrite E'. set (m1 := A0 ++ out0 ++ B00) in *.
      pose proof (r_cut ik RK overlaps_k RO m (T 0 m) k Wm (TF 0 m)) as X. rewrite E' in X.
      apply (gives_then _ _ m1 (Val ins0) (fun m c => (insert_unchecked k v m, Val c)) X). intros a _. eapply gives_bind; [apply r_insert_unchecked; [exact W1|apply TF]|]. apply gives_ret.
    - rewrite (iip_invalid _ Nk). intros w. unfold mbind at 1. pose proof (r_iip ik RK k w) as X. destruct (invalid_interval_panic_e ik k w) as [o w1]. cbn in X. rewrite (iip_invalid _ Nk) in X. subst o. reflexivity.
  Qed.

  (** Merging *)
  Definition r_gets (g' : tree K V -> user W (option K)) (g : NoditMap K V -> option K) : Prop :=
    forall m t, WF m -> entries t = m -> answers (g' t) (Val (g m)).
  Definition r_takes (r' : tree K V -> user W (BTreeMap K V)) (r : NoditMap K V -> NoditMap K V) : Prop :=
    forall m t, WF m -> entries t = m -> answers (r' t) (Val (r m)) /\ WF (r m).
  Section Comp.
    Context (point : user W I) (p : I) (RPt : answers point (Val p)) (comp' : I -> K -> user W comparison) (comp : I -> K -> comparison)
      (RCo : forall p k, answers (comp' p k) (Val (comp p k))) (OC : forall p, orderly_always (V := V) (comp p)).
    Lemma r_key_gets : r_gets (key_e point comp') (fun m => option_map fst (get_key_value (comp p) m)).
    Proof. intros m t Wm E. eapply answers_bind; [exact RPt|]. eapply answers_bind; [apply (r_get _ _ (RCo p) m (OC p m Wm) t E)|]. apply answers_ret. Qed.
    Lemma r_key_if_gets v : r_gets (key_if_e C v point comp') (fun m => get_if_equal veq (comp p) m v).
    Proof.
      intros m t Wm E. eapply answers_bind; [exact RPt|]. eapply answers_bind; [apply (r_get _ _ (RCo p) m (OC p m Wm) t E)|]. unfold get_if_equal.
      destruct (get_key_value (comp p) m) as [[k' v']|]; [|apply answers_ret]. eapply answers_bind; [apply r_veq|]. apply answers_ret.
    Qed.
    Lemma r_remove_takes : r_takes (remove_e point comp') (fun m => fst (remove (comp p) m)).
    Proof. intros m t Wm E. split; [|apply (remove_WF _ m Wm)]. eapply answers_bind; [exact RPt|]. apply (r_remove _ _ (RCo p) m (OC p m Wm) t E). Qed.
    Lemma r_remove_if_takes v : r_takes (remove_if_e C v point comp') (fun m => if is_some (get_if_equal veq (comp p) m v) then fst (remove (comp p) m) else m).
    Proof.
      intros m t Wm E. pose proof (r_key_if_gets v m t Wm E) as X. pose proof (r_remove_takes m t Wm E) as [Y Z]. destruct (is_some (get_if_equal veq (comp p) m v)) eqn:Eg.
      - split; [|exact Z]. eapply answers_bind; [exact X|]. rewrite Eg. exact Y.
      - split; [|exact Wm]. eapply answers_bind; [exact X|]. rewrite Eg, E. apply answers_ret.
    Qed.
  End Comp.
  Lemma r_key_or_gets (point : user W I) (p : I) comp1' comp1 comp2' comp2 : answers point (Val p) -> (forall p k, answers (comp1' p k) (Val (comp1 p k))) -> (forall p k, answers (comp2' p k) (Val (comp2 p k))) ->
    (forall p, orderly_always (V := V) (comp1 p)) -> (forall p, orderly_always (V := V) (comp2 p)) ->
    r_gets (key_or_e point comp1' comp2') (fun m => option_or (option_map fst (get_key_value (comp1 p) m)) (option_map fst (get_key_value (comp2 p) m))).
  Proof.
    intros RPt R1 R2 O1 O2 m t Wm E. eapply answers_bind; [apply (r_key_gets point p RPt comp1' comp1 R1 O1 m t Wm E)|].
    eapply answers_bind; [apply (r_key_gets point p RPt comp2' comp2 R2 O2 m t Wm E)|]. apply answers_ret.
  Qed.
  Lemma r_nothing_takes : r_takes (fun t => uret (entries t)) (fun m => m).
  Proof. intros m t Wm E. rewrite E. split; [apply answers_ret|exact Wm]. Qed.

  Lemma r_merge k v gs ge rs re gs' ge' rs' re' m : WF m ->
    r_gets gs' (fun m => gs m v) -> r_gets ge' (fun m => ge m v) -> r_takes rs' (fun m => rs m v) -> r_takes re' (fun m => re m v) ->
    gives (insert_merge_with_comps_e P ik C overlaps_k T k v gs' ge' rs' re' m) (insert_merge_with_comps k v gs ge rs re m).
  Proof.
    intros Wm Gs Ge Rs Re. unfold insert_merge_with_comps_e, insert_merge_with_comps. destruct (valid_dec k) as [Vk|Nk].
    - eapply gives_bind; [rewrite <- (iip_valid _ Vk); apply r_iip, RK|]. rewrite (iip_valid _ Vk). cbv zeta.
      eapply gives_bind; [apply Gs; [exact Wm|apply TF]|]. eapply gives_bind; [apply Ge; [exact Wm|apply TF]|].
      match goal with |- context [insert_unchecked ?r _ _] => set (ret := r) end.
      eapply (gives_bind _ _ _ ret).
      { unfold ret. destruct (gs m v), (ge m v); try apply answers_ret; (eapply answers_bind; [apply (r_start ik RK)|]; eapply answers_bind; [apply (r_end ik RK)|]; apply r_from). }
      clearbody ret. destruct (remove_overlapping_spec m k Wm Vk) as (m1 & rem & R & _ & _ & W1). rewrite R.
      pose proof (r_remove_overlapping ik RK overlaps_k RO m (T 0 m) k Wm (TF 0 m)) as X. rewrite R in X.
      apply (gives_then _ _ m1 (Val rem) (fun m c => (insert_unchecked ret v (re (rs m v) v), Val ret)) X). intros a _.
      destruct (Rs m1 (T 1 m1) W1 (TF 1 m1)) as [A1 W2]. eapply gives_bind; [exact A1|].
      destruct (Re _ (T 2 (rs m1 v)) W2 (TF 2 _)) as [A2 W3]. eapply gives_bind; [exact A2|].
      eapply gives_bind; [apply r_insert_unchecked; [exact W3|apply TF]|]. apply gives_ret.
    - rewrite (iip_invalid _ Nk). intros w. unfold mbind at 1. pose proof (r_iip ik RK k w) as X. destruct (invalid_interval_panic_e ik k w) as [o w1]. cbn in X. rewrite (iip_invalid _ Nk) in X. subst o. reflexivity.
  Qed.
  Notation rts := (r_touching_start ik RK).
  Notation rte := (r_touching_end ik RK).
  Notation rs := (r_start ik RK).
  Notation re := (r_end ik RK).
  Lemma r_merge_overlapping m k v : WF m -> gives (insert_merge_overlapping_e P ik C overlaps_k T k v m) (insert_merge_overlapping k v m).
  Proof.
    intros Wm. unfold insert_merge_overlapping_e, insert_merge_overlapping. apply gives_obind; [apply r_iip, RK|]. intros _ _.
    apply (r_merge k v (fun m _ => option_map fst (get_key_value (overlapping_comp (istart k)) m)) (fun m _ => option_map fst (get_key_value (overlapping_comp (iend k)) m)) (fun m _ => m) (fun m _ => m)); [exact Wm| | | |].
    - exact (r_key_gets _ _ (rs k) _ _ roc orderly_ol).
    - exact (r_key_gets _ _ (re k) _ _ roc orderly_ol).
    - exact r_nothing_takes.
    - exact r_nothing_takes.
  Qed.
  Lemma r_merge_both m k v : WF m -> gives (insert_merge_touching_or_overlapping_e P ik C overlaps_k T k v m) (insert_merge_touching_or_overlapping k v m).
  Proof.
    intros Wm. unfold insert_merge_touching_or_overlapping_e, insert_merge_touching_or_overlapping. apply gives_obind; [apply r_iip, RK|]. intros _ _.
    apply (r_merge k v (fun m _ => option_or (option_map fst (get_key_value (touching_start_comp (istart k)) m)) (option_map fst (get_key_value (overlapping_comp (istart k)) m)))
      (fun m _ => option_or (option_map fst (get_key_value (touching_end_comp (iend k)) m)) (option_map fst (get_key_value (overlapping_comp (iend k)) m)))
      (fun m _ => fst (remove (touching_start_comp (istart k)) m)) (fun m _ => fst (remove (touching_end_comp (iend k)) m))); [exact Wm| | | |].
    - exact (r_key_or_gets _ _ _ _ _ _ (rs k) rts roc orderly_ts orderly_ol).
    - exact (r_key_or_gets _ _ _ _ _ _ (re k) rte roc orderly_te orderly_ol).
    - exact (r_remove_takes _ _ (rs k) _ _ rts orderly_ts).
    - exact (r_remove_takes _ _ (re k) _ _ rte orderly_te).
  Qed.
  Lemma r_ok {A} (x : changing W K V A) r : gives x r -> gives (mthen x (fun m r => mret m (Val (Ok (E := V) r)))) (let (m, o) := r in (m, omap Ok o)).
  Proof. intros X w. unfold mthen. specialize (X w). destruct (x w) as [[m o] w1]. cbn in X. subst r. destruct o; reflexivity. Qed.
  Lemma r_merge_touching m k v : WF m -> gives (insert_merge_touching_e P ik C overlaps_k T k v m) (insert_merge_touching k v m).
  Proof.
    intros Wm. unfold insert_merge_touching_e, insert_merge_touching. apply gives_obind; [apply r_iip, RK|]. intros _ _.
    intros w. unfold mbind at 1. pose proof (r_map_overlaps ik RK m (T 0 m) k Wm (TF 0 m) w) as X. destruct (map_overlaps_e _ _ _ _ _ w) as [o w1]. cbn in X. subst o.
    destruct (map_overlaps m k) as [[|]|]; [reflexivity| |reflexivity]. revert w1. apply r_ok.
    apply (r_merge k v (fun m _ => option_map fst (get_key_value (touching_start_comp (istart k)) m)) (fun m _ => option_map fst (get_key_value (touching_end_comp (iend k)) m))
      (fun m _ => fst (remove (touching_start_comp (istart k)) m)) (fun m _ => fst (remove (touching_end_comp (iend k)) m))); [exact Wm| | | |].
    - exact (r_key_gets _ _ (rs k) _ _ rts orderly_ts).
    - exact (r_key_gets _ _ (re k) _ _ rte orderly_te).
    - exact (r_remove_takes _ _ (rs k) _ _ rts orderly_ts).
    - exact (r_remove_takes _ _ (re k) _ _ rte orderly_te).
  Qed.
  Lemma r_merge_equal m k v : WF m -> gives (insert_merge_touching_if_values_equal_e P ik C overlaps_k T k v m) (insert_merge_touching_if_values_equal veq k v m).
  Proof.
    intros Wm. unfold insert_merge_touching_if_values_equal_e, insert_merge_touching_if_values_equal. apply gives_obind; [apply r_iip, RK|]. intros _ _.
    intros w. unfold mbind at 1. pose proof (r_map_overlaps ik RK m (T 0 m) k Wm (TF 0 m) w) as X. destruct (map_overlaps_e _ _ _ _ _ w) as [o w1]. cbn in X. subst o.
    destruct (map_overlaps m k) as [[|]|]; [reflexivity| |reflexivity]. revert w1. cbv zeta. apply r_ok.
    apply (r_merge k v (get_if_equal veq (touching_start_comp (istart k))) (get_if_equal veq (touching_end_comp (iend k)))
        (fun m v => if is_some (get_if_equal veq (touching_start_comp (istart k)) m v) then fst (remove (touching_start_comp (istart k)) m) else m)
        (fun m v => if is_some (get_if_equal veq (touching_end_comp (iend k)) m v) then fst (remove (touching_end_comp (iend k)) m) else m)); [exact Wm| | | |].
    - exact (r_key_if_gets _ _ (rs k) _ _ rts orderly_ts v).
    - exact (r_key_if_gets _ _ (re k) _ _ rte orderly_te v).
    - exact (r_remove_if_takes _ _ (rs k) _ _ rts orderly_ts v).
    - exact (r_remove_if_takes _ _ (re k) _ _ rte orderly_te v).
  Qed.
End Right.

Section History.
  Context {W I : Type} `{PL : PointLaws I}.
  Context {K : Type} {IK : InclusiveInterval I K} {IL : IntervalLaws I K}.
  Context {V : Type} (veq : V -> V -> bool).
  Context (P : point_code W I) (RP : right_points P) (ik : interval_code W I K) (RK : right_intervals ik) (C : entry_code W I K V) (RC : right_entries veq C).
  Context (overlaps_k : K -> K -> user W bool) (RO : right_overlaps overlaps_k).
  Lemma fst_handing {A} (f : outcome A -> list V) (x : (NoditMap K V * outcome A) * W) : fst (fst (handing f x)) = fst (fst x).
  Proof. destruct x as [[m o] w]. reflexivity. Qed.
  Lemma snd_handing {A} (f : outcome A -> list V) (x : (NoditMap K V * outcome A) * W) : snd (fst (handing f x)) = f (snd (fst x)).
  Proof. destruct x as [[m o] w]. reflexivity. Qed.
  Lemma r_call T c m w : faithful T -> WF m -> fst (fst (ecall_do C P ik overlaps_k T c m w)) = step m (as_op veq c).
  Proof.
    intros TF Wm. destruct c; cbn [ecall_do as_op step]; rewrite fst_handing; f_equal; revert w.
    - exact (r_insert_strict P RP ik RK T TF m k v Wm).
    - exact (r_merge_touching veq P RP ik RK C RC overlaps_k RO T TF m k v Wm).
    - exact (r_merge_equal veq P RP ik RK C RC overlaps_k RO T TF m k v Wm).
    - exact (r_merge_overlapping veq P RP ik RK C RC overlaps_k RO T TF m k v Wm).
    - exact (r_merge_both veq P RP ik RK C RC overlaps_k RO T TF m k v Wm).
    - exact (r_insert_overwrite veq P RP ik RK C RC overlaps_k RO T TF m k v Wm).
    - exact (r_remove_overlapping P RP ik RK ik RK overlaps_k RO m (T 0 m) q Wm (TF 0 m)).
    - exact (r_cut veq P RP ik RK C RC ik RK overlaps_k RO m (T 0 m) q Wm (TF 0 m)).
  Qed.
  Lemma r_history T cs : (forall n, faithful (T n)) -> forall m w, reachable m ->
    fst (fst (ehistory C P ik overlaps_k T cs m w)) = fold_left step (map (as_op veq) cs) m /\ reachable (fold_left step (map (as_op veq) cs) m).
  Proof.
    intros TF. induction cs as [|c cs IH]; intros m w R; [split; [reflexivity|exact R]|]. cbn [ehistory map fold_left].
    pose proof (r_call (T (length cs)) c m w (TF _) (reachable_WF m R)) as X. destruct (ecall_do _ _ _ _ _ c m w) as [[m1 h] w1]. cbn [fst] in X.
    assert (R1 : reachable m1) by (destruct R as [ops ->]; exists (ops ++ [as_op veq c]); unfold run; rewrite fold_left_app; exact X).
    rewrite <- X. specialize (IH m1 w1 R1). destruct (ehistory _ _ _ _ _ cs m1 w1) as [[m2 h2] w2]. exact IH.
  Qed.
End History.
