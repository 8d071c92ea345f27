(** * EffectTraceFacts: facts behind C164, user code that answers right or panics. *)
From Coq Require Import List Bool ZArith Lia.
From Verif Require Import Base BTree UtilsModel IntervalModel NoditModel NoditOps Spec TreeShape LooksOps
  PointFacts IntervalFacts NoditFacts NoditInv NoditQueries NoditMutations TreeFacts TreeProofs LooksFacts TraceModel TraceFacts EffectModel EffectOps EffectRight EffectCrashOps EffectTraceOps.
Import ListNotations.
Open Scope nat_scope.

Section Bind.
  Context {W K V : Type}.
  Lemma may_ret {A} (a : A) : may (uret (W := W) a) (Val a).
  Proof. intros w. left. reflexivity. Qed.
  Lemma may_out {A} (o : outcome A) : may (uout (W := W) o) o.
  Proof. intros w. left. reflexivity. Qed.
  Lemma may_bind {A B} (x : user W A) (f : A -> user W B) a o : may x (Val a) -> may (f a) o -> may (ubind x f) o.
  Proof. intros X Y w. unfold ubind. specialize (X w). destruct (x w) as [r w']. cbn in X. destruct X as [->| ->]; [apply Y|right; reflexivity]. Qed.
  Lemma may_obind {A B} (x : user W A) (f : A -> user W B) r (g : A -> outcome B) : may x r -> (forall a, r = Val a -> may (f a) (g a)) ->
    may (ubind x f) (obind r g).
  Proof. intros X Y w. unfold ubind. specialize (X w). destruct (x w) as [o w']. cbn in X. destruct X as [->| ->]; [destruct r; [apply Y; reflexivity|left; reflexivity]|right; reflexivity]. Qed.
  Definition ends {A} (x : changing W K V A) (r : NoditMap K V * outcome A) (ts : list (NoditMap K V)) : Prop := forall w, lands (fst (x w)) r ts.
  Lemma ends_ret {A} m (o : outcome A) ts : ends (mret m o) (m, o) ts.
  Proof. intros w. left. reflexivity. Qed.
  Lemma ends_more {A} (x : changing W K V A) r ts ts' : ends x r ts -> incl ts ts' -> ends x r ts'.
  Proof. intros X S w. destruct (X w) as [E|[E F]]; [left; exact E|right; split; [exact E|apply S, F]]. Qed.
  Lemma ends_obind {A B} m (x : user W A) (f : A -> changing W K V B) o (g : A -> NoditMap K V * outcome B) ts : may x o -> In m ts -> (forall a, o = Val a -> ends (f a) (g a) ts) ->
    ends (mbind m x f) (match o with Val a => g a | Panic => (m, Panic) end) ts.
  Proof.
    intros X M Y w. unfold mbind. specialize (X w). destruct (x w) as [r w']. cbn in X. destruct X as [->| ->]; [|right; split; [reflexivity|exact M]].
    destruct o as [a|]; [apply Y; reflexivity|left; reflexivity].
  Qed.
  Lemma ends_bind {A B} m (x : user W A) (f : A -> changing W K V B) a r ts : may x (Val a) -> In m ts -> ends (f a) r ts -> ends (mbind m x f) r ts.
  Proof. intros X M Y. apply (ends_obind m x f (Val a) (fun _ => r) ts X M). intros b E. injection E as <-. exact Y. Qed.
  Lemma ends_then {A B} (x : changing W K V A) (f : NoditMap K V -> A -> changing W K V B) m o (g : NoditMap K V -> A -> NoditMap K V * outcome B) ts :
    ends x (m, o) ts -> (forall a, o = Val a -> ends (f m a) (g m a) ts) -> ends (mthen x f) (match o with Val a => g m a | Panic => (m, Panic) end) ts.
  Proof.
    intros X Y w. unfold mthen. specialize (X w). destruct (x w) as [[m1 r] w']. destruct X as [E|[E F]]; cbn [fst snd] in *.
    - injection E as -> ->. destruct o as [a|]; [apply Y|left]; reflexivity.
    - subst r. right. split; [reflexivity|exact F].
  Qed.
End Bind.
Ltac ab := eapply may_bind; [|try apply may_ret].

Section Last.
  Context {I : Type} `{PL : PointLaws I}.
  Context {K : Type} {IK : InclusiveInterval I K} {IL : IntervalLaws I K}.
  Context {V : Type}.
  Lemma last_cut_t {Q} {IQ : InclusiveInterval I Q} (k : Q) (m : NoditMap K V) : WF m -> In (fst (cut k m)) (cut_t k m).
  Proof.
    intros Wm. destruct (valid_dec k) as [Vk|Nk]; [|destruct (cut_t_invalid k m Nk) as [-> ->]; left; reflexivity].
    apply (path_in_last _ _ _ _ (proj1 (cut_t_ok k m Wm Vk))).
  Qed.
  Lemma last_remove_t {Q} {IQ : InclusiveInterval I Q} (k : Q) (m : NoditMap K V) : WF m -> In (fst (remove_overlapping k m)) (remove_overlapping_t k m).
  Proof.
    intros Wm. destruct (valid_dec k) as [Vk|Nk]; [|destruct (remove_t_invalid k m Nk) as [-> ->]; left; reflexivity].
    apply (path_in_last _ _ _ _ (proj1 (remove_t_ok k m Wm Vk))).
  Qed.
End Last.

Section Right.
  Context {W I : Type} `{PL : PointLaws I}.
  Context {K : Type} {IK : InclusiveInterval I K} {IL : IntervalLaws I K}.
  Context {V : Type} (veq : V -> V -> bool).
  Context (P : point_code W I) (RP : points_or_panic P).
  Lemma a_cmp x y : may (e_cmp P x y) (Val (cmp x y)). Proof. apply (proj1 RP). Qed.
  Lemma a_lt x y : may (e_lt P x y) (Val (ltb x y)). Proof. apply (proj1 RP). Qed.
  Lemma a_gt x y : may (e_gt P x y) (Val (gtb x y)). Proof. apply (proj1 RP). Qed.
  Lemma a_le x y : may (e_le P x y) (Val (leb x y)). Proof. apply (proj1 RP). Qed.
  Lemma a_ge x y : may (e_ge P x y) (Val (geb x y)). Proof. apply (proj1 RP). Qed.
  Lemma a_eq x y : may (e_eq P x y) (Val (eqb x y)). Proof. apply (proj1 RP). Qed.
  Lemma a_up x : may (e_up P x) (Val (up x)). Proof. apply (proj2 RP). Qed.
  Lemma a_down x : may (e_down P x) (Val (down x)). Proof. apply (proj2 RP). Qed.

  Section X.
    Context {X : Type} {IX : InclusiveInterval I X} (ix : interval_code W I X) (RX : intervals_or_panic ix).
    Lemma a_start x : may (e_start ix x) (Val (istart x)). Proof. apply RX. Qed.
    Lemma a_end x : may (e_end ix x) (Val (iend x)). Proof. apply RX. Qed.
    Lemma a_valid x : may (e_valid ix x) (Val (is_valid x)). Proof. apply RX. Qed.
    Lemma a_iip x : may (invalid_interval_panic_e ix x) (invalid_interval_panic x).
    Proof. eapply may_bind; [apply a_valid|]. unfold invalid_interval_panic. destruct (is_valid x); [apply may_ret|apply may_out]. Qed.
    Lemma a_overlapping_comp p x : may (overlapping_comp_e P ix p x) (Val (overlapping_comp p x)).
    Proof.
      unfold overlapping_comp_e, overlapping_comp, cmp_point_with_interval, inclusive_comp. eapply may_bind; [apply a_start|]. eapply may_bind; [apply a_lt|].
      destruct (ltb p (istart x)); [apply may_ret|]. eapply may_bind; [apply a_end|]. eapply may_bind; [apply a_gt|]. destruct (gtb p (iend x)); apply may_ret.
    Qed.
    Lemma a_touching_start p x : may (touching_start_comp_e P ix p x) (Val (touching_start_comp p x)).
    Proof.
      unfold touching_start_comp_e, touching_start_comp. eapply may_bind; [apply a_end|]. eapply may_bind; [apply a_up|].
      destruct (up (iend x)); [apply a_cmp|apply may_ret].
    Qed.
    Lemma a_touching_end p x : may (touching_end_comp_e P ix p x) (Val (touching_end_comp p x)).
    Proof.
      unfold touching_end_comp_e, touching_end_comp. eapply may_bind; [apply a_start|]. eapply may_bind; [apply a_down|].
      destruct (down (istart x)); [apply a_cmp|apply may_ret].
    Qed.
    Lemma a_starts inner new : may (starts_comp_e P ix inner new) (Val (starts_comp inner new)).
    Proof. unfold starts_comp_e, starts_comp. eapply may_bind; [apply a_start|]. eapply may_bind; [apply a_start|]. apply a_cmp. Qed.
    Lemma a_contains x p : may (contains_point_e P ix x p) (Val (utils_contains_point x p)).
    Proof. eapply may_bind; [apply a_overlapping_comp|]. unfold utils_contains_point, overlapping_comp. destruct (cmp_point_with_interval p x); apply may_ret. Qed.
  End X.

  Section Cut.
    Context {A B : Type} {IA : InclusiveInterval I A} {IB : InclusiveInterval I B} (ia : interval_code W I A) (ib : interval_code W I B) (RA : intervals_or_panic ia) (RB : intervals_or_panic ib).
    Lemma a_config a b : may (config_e P ia ib a b) (config a b).
    Proof.
      unfold config_e, config. eapply may_bind; [apply (a_start ia RA)|]. eapply may_bind; [apply (a_start ib RB)|]. eapply may_bind; [apply a_lt|].
      destruct (ltb (istart a) (istart b)).
      - eapply may_bind; [apply (a_start ib RB)|]. eapply may_bind; [apply (a_contains ia RA)|]. eapply may_bind; [apply (a_end ib RB)|]. eapply may_bind; [apply (a_contains ia RA)|]. apply may_out.
      - eapply may_bind; [apply (a_start ia RA)|]. eapply may_bind; [apply (a_contains ib RB)|]. eapply may_bind; [apply (a_end ia RA)|]. eapply may_bind; [apply (a_contains ib RB)|]. apply may_out.
    Qed.
    Lemma a_filter o : may (filter_valid_e P o) (Val (filter_valid o)).
    Proof. destruct o as [x|]; [|apply may_ret]. eapply may_bind; [apply a_le|]. cbn [filter_valid]. unfold is_valid. cbn [istart iend]. apply may_ret. Qed.
    Lemma a_cut_raw a b : may (cut_interval_raw_e P ia ib a b) (cut_interval_raw a b).
    Proof.
      unfold cut_interval_raw_e, cut_interval_raw. apply may_obind; [apply a_config|]. intros [| | | | |] _;
        repeat first [apply may_ret
          | eapply may_bind; [first [apply (a_start ia RA)|apply (a_start ib RB)|apply (a_end ia RA)|apply (a_end ib RB)|apply a_up|apply a_down]|]
          | apply may_obind; [apply may_out|intros ? _]
          | match goal with |- may (match ?o with Some _ => _ | None => _ end) _ => destruct o end].
    Qed.
    Lemma a_cut_interval a b : may (cut_interval_e P ia ib a b) (cut_interval a b).
    Proof.
      unfold cut_interval_e, cut_interval. apply may_obind; [apply a_cut_raw|]. intros r _. do 3 (eapply may_bind; [apply a_filter|]). apply may_ret.
    Qed.
  End Cut.

  (** The searches *)
  Implicit Types (t : tree K V) (m : NoditMap K V).
  Section Searches.
    Context (comp' : K -> user W comparison) (comp : K -> comparison) (RC : forall k, may (comp' k) (Val (comp k))).
    Lemma a_search : (forall t, may (e_search comp' t) (Val (search comp t))) /\
      (forall n : edges K V, may (e_search_node comp' n) (Val (search_node comp n))).
    Proof.
      apply tree_mutind.
      - apply may_ret.
      - intros n IH. exact IH.
      - intros t IH. exact IH.
      - intros t IHt kv n IHn.
        change (search_node comp (More t kv n)) with (match comp (fst kv) with
          | Gt => let '(a, x, b) := search_node comp n in (entries t ++ kv :: a, x, b)
          | Eq => (entries t, Some kv, edges_entries n)
          | Lt => let '(a, x, b) := search comp t in (a, x, b ++ kv :: edges_entries n)
          end). eapply may_bind; [apply RC|]. destruct (comp (fst kv)).
        + apply may_ret.
        + eapply may_bind; [apply IHt|]. destruct (search comp t) as [[a x] b]. apply may_ret.
        + eapply may_bind; [apply IHn|]. destruct (search_node comp n) as [[a x] b]. apply may_ret.
    Qed.
    Context (l : list (K * V)) (OC : orderly comp l).
    Lemma a_get t : entries t = l -> may (e_get comp' t) (Val (get_key_value comp l)).
    Proof.
      intros E. destruct (orderly_shape_free _ _ OC t E) as (<- & _). eapply may_bind; [apply a_search|]. unfold t_get_key_value. destruct (search comp t) as [[a x] b]. apply may_ret.
    Qed.
    Lemma a_remove t : entries t = l -> may (e_remove comp' t) (Val (fst (remove comp l))).
    Proof.
      intros E. destruct (orderly_shape_free _ _ OC t E) as (_ & _ & <- & _). eapply may_bind; [apply a_search|]. unfold t_remove. destruct (search comp t) as [[a [[k v]|]] b]; apply may_ret.
    Qed.
    Lemma a_lower t : entries t = l -> may (e_lower comp' t) (Val (lower_bound comp l)).
    Proof.
      intros E. destruct (orderly_shape_free _ _ OC t E) as (_ & _ & _ & <- & _). eapply may_bind; [apply a_search|]. unfold t_lower_bound. destruct (search comp t) as [[a [kv|]] b]; apply may_ret.
    Qed.
    Lemma a_upper t : entries t = l -> may (e_upper comp' t) (Val (upper_bound comp l)).
    Proof.
      intros E. destruct (orderly_shape_free _ _ OC t E) as (_ & _ & _ & _ & <-). eapply may_bind; [apply a_search|]. unfold t_upper_bound. destruct (search comp t) as [[a [kv|]] b]; apply may_ret.
    Qed.
  End Searches.

  Context (ik : interval_code W I K) (RK : intervals_or_panic ik) (C : entry_code W I K V) (RC : entries_or_panic veq C).
  Lemma a_from i : may (e_from C i) (Val (ifrom i)). Proof. apply RC. Qed.
  Lemma a_clone v : may (e_clone C v) (Val v). Proof. apply RC. Qed.
  Lemma a_veq v v' : may (e_veq C v v') (Val (veq v v')). Proof. apply RC. Qed.
  Notation roc := (a_overlapping_comp ik RK).

  Section Q.
    Context {Q : Type} {IQ : InclusiveInterval I Q} (iq : interval_code W I Q) (RQ : intervals_or_panic iq).
    Lemma a_overlapping m t q : WF m -> entries t = m -> may (overlapping_e P ik iq t q) (overlapping m q).
    Proof.
      intros Wm E. unfold overlapping_e, overlapping. apply may_obind; [apply a_iip, RQ|]. intros _ _.
      eapply may_bind; [apply (a_start iq RQ)|]. eapply may_bind; [apply (a_end iq RQ)|].
      rewrite <- (orderly_range_shape_free _ _ _ (orderly_ol (istart q) m Wm) (orderly_ol (iend q) m Wm) t E). unfold e_range, t_range.
      eapply may_bind; [apply (proj1 (a_search _ _ (roc _)))|]. destruct (search _ t) as [[a x] b].
      eapply may_bind; [apply (proj1 (a_search _ _ (roc _)))|]. destruct (search _ t) as [[a' x'] b']. apply may_ret.
    Qed.
    Lemma a_map_overlaps m t q : WF m -> entries t = m -> may (map_overlaps_e P ik iq t q) (map_overlaps m q).
    Proof.
      intros Wm E. unfold map_overlaps_e, map_overlaps. apply may_obind; [apply a_iip, RQ|]. intros _ _.
      apply may_obind; [apply a_overlapping; assumption|]. intros l _. apply may_ret.
    Qed.
    Context (q_overlaps : Q -> K -> user W bool) (RQO : overlaps_or_panic q_overlaps).
    Lemma a_remove_loop q post : forall pre acc, ends (remove_overlapping_loop_e (V := V) q_overlaps q pre post acc) (remove_overlapping_loop q pre post acc) (remove_overlapping_loop_t q pre post).
    Proof.
      induction post as [|[k v] rest IH]; intros pre acc; cbn [remove_overlapping_loop_e remove_overlapping_loop remove_overlapping_loop_t]; [apply ends_ret|].
      intros w. unfold mbind at 1. pose proof (RQO q k w) as X. destruct (q_overlaps q k w) as [o w1]. cbn in X. destruct X as [->| ->]; [|right; split; [reflexivity|left; reflexivity]].
      destruct (overlaps q k) as [[|]|]; [|left; reflexivity|left; reflexivity]. revert w1. apply (ends_more _ _ _ _ (IH pre _)). intros x Hx. right. exact Hx.
    Qed.
    Lemma a_remove_overlapping m t q : WF m -> entries t = m -> ends (remove_overlapping_e P ik iq q_overlaps q t) (remove_overlapping q m) (remove_overlapping_t q m).
    Proof.
      intros Wm E. unfold remove_overlapping_e, remove_overlapping, remove_overlapping_t. rewrite E. apply ends_obind; [apply a_iip, RQ|left; reflexivity|]. intros u ->.
      eapply ends_bind; [apply (a_start iq RQ)|left; reflexivity|]. eapply ends_bind; [apply (a_lower _ _ (roc _) m (orderly_ol _ m Wm) t E)|left; reflexivity|]. 
      eapply ends_more; [apply a_remove_loop|]. intros x Hx. right. exact Hx.
    Qed.
    Context (k_overlaps : K -> Q -> user W bool) (RKO : overlaps_or_panic k_overlaps).
    Lemma a_piece p v : may (piece_e C p v) (Val (insert_piece p v [])).
    Proof. destruct p as [i|]; cbn [piece_e insert_piece]; [|apply may_ret]. eapply may_bind; [apply a_from|]. eapply may_bind; [apply a_clone|]. apply may_ret. Qed.
    Lemma insert_piece_app (p : option (Interval I)) v (pre : list (K * V)) : insert_piece p v pre = pre ++ insert_piece p v [].
    Proof. destruct p; cbn; [|rewrite app_nil_r]; reflexivity. Qed.
    Lemma a_cut_loop q post : forall pre acc, ends (cut_loop_e P ik C iq k_overlaps q pre post acc) (cut_loop q pre post acc) (cut_loop_t q pre post).
    Proof.
      induction post as [|[k v] rest IH]; intros pre acc; [apply ends_ret|].
      intros w. cbn [cut_loop_e cut_loop cut_loop_t]. unfold mbind at 1. pose proof (RKO k q w) as X. destruct (k_overlaps k q w) as [o w1]. cbn in X. destruct X as [->| ->]; [|right; split; [reflexivity|left; reflexivity]].
      destruct (overlaps k q) as [[|]|]; [|left; reflexivity|left; reflexivity]. revert w1. apply ends_obind; [apply a_cut_interval; assumption|right; left; reflexivity|]. intros r Er. rewrite Er.
      eapply ends_bind; [apply a_piece|right; left; reflexivity|]. cbv zeta. rewrite <- (insert_piece_app (before_cut r) v pre). eapply ends_bind; [apply a_piece|right; right; left; reflexivity|].
      rewrite (app_assoc pre), <- (insert_piece_app (before_cut r) v pre), <- (insert_piece_app (after_cut r) v).
      intros w2. unfold mbind at 1, uout. destruct (inside_cut r) as [i|]; cbn [unwrap]; [|left; reflexivity]. revert w2. eapply ends_bind; [apply a_from|right; right; right; left; reflexivity|].
      eapply ends_more; [apply IH|]. intros x Hx. do 4 right. exact Hx.
    Qed.
    Lemma a_cut m t q : WF m -> entries t = m -> ends (cut_e P ik C iq k_overlaps q t) (cut q m) (cut_t q m).
    Proof.
      intros Wm E. unfold cut_e, cut, cut_t. rewrite E. apply ends_obind; [apply a_iip, RQ|left; reflexivity|]. intros u ->.
      eapply ends_bind; [apply (a_start iq RQ)|left; reflexivity|]. eapply ends_bind; [apply (a_lower _ _ (roc _) m (orderly_ol _ m Wm) t E)|left; reflexivity|].
      eapply ends_more; [apply a_cut_loop|]. intros x Hx. right. exact Hx.
    Qed.
  End Q.

  Lemma a_gap m t p : WF m -> entries t = m -> may (get_gap_at_raw_e P ik t p) (get_gap_at_raw m p).
  Proof.
    intros Wm E. unfold get_gap_at_raw_e, get_gap_at_raw. eapply may_bind; [apply (a_upper _ _ (roc _) m (orderly_ol _ m Wm) t E)|].
    eapply may_bind; [apply (a_lower _ _ (roc _) m (orderly_ol _ m Wm) t E)|]. cbv zeta. apply may_obind.
    - destruct (cursor_key _); [|apply may_ret]. eapply may_bind; [apply (a_end ik RK)|]. eapply may_bind; [apply a_up|]. apply may_out.
    - intros s _. apply may_obind.
      + destruct (cursor_key _); [|apply may_ret]. eapply may_bind; [apply (a_start ik RK)|]. eapply may_bind; [apply a_down|]. apply may_out.
      + intros e _. apply may_ret.
  Qed.
  Lemma a_get_at m t p : WF m -> entries t = m -> may (get_key_value_at_point_e P ik C t p) (get_key_value_at_point m p).
  Proof.
    intros Wm E. unfold get_key_value_at_point_e, get_key_value_at_point. eapply may_bind; [apply (a_get _ _ (roc _) m (orderly_ol _ m Wm) t E)|].
    destruct (get_key_value _ m); [apply may_ret|]. apply may_obind; [apply a_gap; assumption|]. intros g _. eapply may_bind; [apply a_from|]. apply may_ret.
  Qed.

  Lemma a_bounds k : may (bounds_e ik k) (Val (istart k, iend k)).
  Proof. eapply may_bind; [apply (a_start ik RK)|]. eapply may_bind; [apply (a_end ik RK)|]. apply may_ret. Qed.
  Lemma a_inner (l : list (K * V)) : may (inner_gaps_e P ik C l) (inner_gaps l).
  Proof.
    destruct l as [|e l]; [apply may_ret|]. cbn [inner_gaps_e]. eapply may_bind; [apply a_bounds|]. revert e.
    induction l as [|x l IH]; intros e; [apply may_ret|]. cbn [windows_e]. change (inner_gaps (e :: x :: l)) with
      (let? u := unwrap (up (iend (fst e))) in let? d := unwrap (down (istart (fst x))) in
       let g := ifrom (mkInterval u d) : K in let? gs := inner_gaps (x :: l) in Val (if is_valid g then g :: gs else gs)).
    eapply may_bind; [apply a_bounds|]. eapply may_bind; [apply a_up|]. apply may_obind; [apply may_out|]. intros u _.
    eapply may_bind; [apply a_down|]. apply may_obind; [apply may_out|]. intros d _. eapply may_bind; [apply a_from|]. cbv zeta.
    eapply may_bind; [apply (a_valid ik RK)|]. apply may_obind; [apply IH|]. intros gs _. apply may_ret.
  Qed.
  Lemma a_from_list o : may (from_e C o) (Val (opt_list (option_map ifrom o))).
  Proof. destruct o; [|apply may_ret]. eapply may_bind; [apply a_from|]. apply may_ret. Qed.
  Section G.
    Context {Q : Type} {IQ : InclusiveInterval I Q} (iq : interval_code W I Q) (RQ : intervals_or_panic iq).
    Lemma a_end_gap m t point p : WF m -> entries t = m -> may point (Val p) -> may (end_gap_e P ik t point) (end_gap m p).
    Proof.
      intros Wm E RPt. eapply may_bind; [exact RPt|]. eapply may_bind; [apply (a_get _ _ (roc _) m (orderly_ol _ m Wm) t E)|].
      unfold end_gap, contains_key. destruct (get_key_value _ m); cbn [is_some negb]; [apply may_ret|]. eapply may_bind; [exact RPt|].
      unfold omap. pose proof (a_gap m t p Wm E) as G. destruct (get_gap_at_raw m p) as [g|].
      - eapply may_bind; [exact G|]. apply may_ret.
      - exact (may_obind _ _ Panic (fun g => Val (Some g)) G (fun a X => False_ind _ (eq_ind Panic (fun o => match o with Panic => True | _ => False end) Logic.I _ X))).
    Qed.
    Lemma a_gaps_untrimmed m t q : WF m -> entries t = m -> may (gaps_untrimmed_e P ik C iq t q) (gaps_untrimmed m q).
    Proof.
      intros Wm E. unfold gaps_untrimmed_e, gaps_untrimmed. apply may_obind; [apply a_iip, RQ|]. intros _ _.
      apply may_obind; [apply a_end_gap; [exact Wm|exact E|apply (a_start iq RQ)]|]. intros sg _.
      apply may_obind; [apply a_end_gap; [exact Wm|exact E|apply (a_end iq RQ)]|]. intros eg _.
      destruct sg as [s|], eg as [e|].
      - eapply may_bind; [eapply may_bind; [apply a_eq|apply may_ret]|].
        destruct (eqb (ivl_start s) (ivl_start e)); (apply may_obind; [apply a_overlapping; assumption|]; intros l _; do 2 (eapply may_bind; [apply a_from_list|]); apply may_obind; [apply a_inner|]; intros i _; apply may_ret).
      - eapply may_bind; [apply may_ret|]. apply may_obind; [apply a_overlapping; assumption|]; intros l _; do 2 (eapply may_bind; [apply a_from_list|]); apply may_obind; [apply a_inner|]; intros i _; apply may_ret.
      - eapply may_bind; [apply may_ret|]. apply may_obind; [apply a_overlapping; assumption|]; intros l _; do 2 (eapply may_bind; [apply a_from_list|]); apply may_obind; [apply a_inner|]; intros i _; apply may_ret.
      - eapply may_bind; [apply may_ret|]. apply may_obind; [apply a_overlapping; assumption|]; intros l _; do 2 (eapply may_bind; [apply a_from_list|]); apply may_obind; [apply a_inner|]; intros i _; apply may_ret.
    Qed.
    Lemma a_gaps_trimmed m t q : WF m -> entries t = m -> may (gaps_trimmed_e P ik C iq t q) (gaps_trimmed m q).
    Proof.
      intros Wm E. unfold gaps_trimmed_e, gaps_trimmed. apply may_obind; [apply a_iip, RQ|]. intros _ _.
      apply may_obind; [apply a_end_gap; [exact Wm|exact E|apply (a_start iq RQ)]|]. intros sg _.
      apply may_obind; [apply a_end_gap; [exact Wm|exact E|apply (a_end iq RQ)]|]. intros eg _.
      destruct sg as [s|], eg as [e|].
      - eapply may_bind; [eapply may_bind; [apply a_eq|]; eapply may_bind; [apply (a_start iq RQ)|]; eapply may_bind; [apply (a_end iq RQ)|]; apply may_ret|].
        destruct (eqb (ivl_start s) (ivl_start e)); (apply may_obind; [apply a_overlapping; assumption|]; intros l _; do 2 (eapply may_bind; [apply a_from_list|]); apply may_obind; [apply a_inner|]; intros i _; apply may_ret).
      - eapply may_bind; [eapply may_bind; [apply (a_start iq RQ)|]; apply may_ret|]. apply may_obind; [apply a_overlapping; assumption|]; intros l _; do 2 (eapply may_bind; [apply a_from_list|]); apply may_obind; [apply a_inner|]; intros i _; apply may_ret.
      - eapply may_bind; [eapply may_bind; [apply (a_end iq RQ)|]; apply may_ret|]. apply may_obind; [apply a_overlapping; assumption|]; intros l _; do 2 (eapply may_bind; [apply a_from_list|]); apply may_obind; [apply a_inner|]; intros i _; apply may_ret.
      - eapply may_bind; [apply may_ret|]. apply may_obind; [apply a_overlapping; assumption|]; intros l _; do 2 (eapply may_bind; [apply a_from_list|]); apply may_obind; [apply a_inner|]; intros i _; apply may_ret.
    Qed.
  End G.

  Context (overlaps_k : K -> K -> user W bool) (RO : overlaps_or_panic overlaps_k).
  Context (T : nat -> BTreeMap K V -> tree K V) (TF : faithful T).
  Lemma a_insert_unchecked m t k v : WF m -> entries t = m -> may (insert_unchecked_e P ik k v t) (Val (insert_unchecked k v m)).
  Proof.
    intros Wm E. unfold insert_unchecked_e, insert_unchecked. rewrite <- (orderly_insert_shape_free k starts_comp m (orderly_starts k m Wm) t v E).
    eapply may_bind; [apply (proj1 (a_search _ (fun inner => starts_comp inner k) (fun inner => a_starts ik RK inner k)))|]. unfold t_insert.
    destruct (search _ t) as [[a [[k' v']|]] b]; apply may_ret.
  Qed.
  Lemma a_insert_strict m k v ts : WF m -> In m ts -> ends (insert_strict_e P ik T k v m) (insert_strict k v m) ts.
  Proof.
    intros Wm M. unfold insert_strict_e, insert_strict. apply ends_obind; [apply a_iip, RK|exact M|]. intros _ _.
    intros w. unfold mbind at 1. pose proof (a_map_overlaps ik RK m (T 0 m) k Wm (TF 0 m) w) as X. destruct (map_overlaps_e _ _ _ _ _ w) as [o w1]. cbn in X.
    destruct X as [->| ->]; [|right; split; [reflexivity|exact M]].
    destruct (map_overlaps m k) as [[|]|]; [left; reflexivity| |left; reflexivity]. revert w1. eapply ends_bind; [apply a_insert_unchecked; [exact Wm|apply TF]|exact M|]. apply ends_ret.
  Qed.
  Lemma a_not_valid {A} k (x : changing W K V A) m ts : ~ valid k -> In m ts -> ends (mbind m (invalid_interval_panic_e ik k) (fun _ => x)) (m, Panic) ts.
  Proof.
    intros Nk M w. unfold mbind at 1. pose proof (a_iip ik RK k w) as X. destruct (invalid_interval_panic_e ik k w) as [o w1]. cbn in X. rewrite (iip_invalid _ Nk) in X.
    destruct X as [->| ->]; left; reflexivity.
  Qed.
  Lemma a_insert_overwrite m k v : WF m -> ends (insert_overwrite_e P ik C overlaps_k T k v m) (insert_overwrite k v m) (trace m (OpInsertOverwrite k v)).
  Proof.
    intros Wm. unfold insert_overwrite_e, insert_overwrite. cbn [trace]. destruct (valid_dec k) as [Vk|Nk].
    - eapply ends_bind; [rewrite <- (iip_valid _ Vk); apply a_iip, RK|left; reflexivity|]. rewrite (iip_valid _ Vk).
      destruct (cut_facts m k Wm Vk) as (A0 & M0 & B00 & out0 & ins0 & _ & _ & _ & _ & E' & _ & _ & W1). rewrite E'. set (m1 := A0 ++ out0 ++ B00) in *.
      pose proof (a_cut ik RK overlaps_k RO m (T 0 m) k Wm (TF 0 m)) as X. rewrite E' in X.
      apply (ends_then _ _ m1 (Val ins0) (fun m c => (insert_unchecked k v m, Val c))); [apply (ends_more _ _ _ _ X), incl_appl, incl_refl|]. intros a _.
      eapply ends_bind; [apply a_insert_unchecked; [exact W1|apply TF]| |apply ends_ret].
      apply in_or_app. left. pose proof (last_cut_t k m Wm) as L. rewrite E' in L. exact L.
    - rewrite (iip_invalid _ Nk). apply a_not_valid; [exact Nk|left; reflexivity].
  Qed.

  (** Merging *)
  Definition a_gets (g' : tree K V -> user W (option K)) (g : NoditMap K V -> option K) : Prop :=
    forall m t, WF m -> entries t = m -> may (g' t) (Val (g m)).
  Definition a_takes (r' : tree K V -> user W (BTreeMap K V)) (r : NoditMap K V -> NoditMap K V) : Prop :=
    forall m t, WF m -> entries t = m -> may (r' t) (Val (r m)) /\ WF (r m).
  Section Comp.
    Context (point : user W I) (p : I) (RPt : may point (Val p)) (comp' : I -> K -> user W comparison) (comp : I -> K -> comparison)
      (RCo : forall p k, may (comp' p k) (Val (comp p k))) (OC : forall p, orderly_always (V := V) (comp p)).
    Lemma a_key_gets : a_gets (key_e point comp') (fun m => option_map fst (get_key_value (comp p) m)).
    Proof. intros m t Wm E. eapply may_bind; [exact RPt|]. eapply may_bind; [apply (a_get _ _ (RCo p) m (OC p m Wm) t E)|]. apply may_ret. Qed.
    Lemma a_key_if_gets v : a_gets (key_if_e C v point comp') (fun m => get_if_equal veq (comp p) m v).
    Proof.
      intros m t Wm E. eapply may_bind; [exact RPt|]. eapply may_bind; [apply (a_get _ _ (RCo p) m (OC p m Wm) t E)|]. unfold get_if_equal.
      destruct (get_key_value (comp p) m) as [[k' v']|]; [|apply may_ret]. eapply may_bind; [apply a_veq|]. apply may_ret.
    Qed.
    Lemma a_remove_takes : a_takes (remove_e point comp') (fun m => fst (remove (comp p) m)).
    Proof. intros m t Wm E. split; [|apply (remove_WF _ m Wm)]. eapply may_bind; [exact RPt|]. apply (a_remove _ _ (RCo p) m (OC p m Wm) t E). Qed.
    Lemma a_remove_if_takes v : a_takes (remove_if_e C v point comp') (fun m => if is_some (get_if_equal veq (comp p) m v) then fst (remove (comp p) m) else m).
    Proof.
      intros m t Wm E. pose proof (a_key_if_gets v m t Wm E) as X. pose proof (a_remove_takes m t Wm E) as [Y Z]. destruct (is_some (get_if_equal veq (comp p) m v)) eqn:Eg.
      - split; [|exact Z]. eapply may_bind; [exact X|]. rewrite Eg. exact Y.
      - split; [|exact Wm]. eapply may_bind; [exact X|]. rewrite Eg, E. apply may_ret.
    Qed.
  End Comp.
  Lemma a_key_or_gets (point : user W I) (p : I) comp1' comp1 comp2' comp2 : may point (Val p) -> (forall p k, may (comp1' p k) (Val (comp1 p k))) -> (forall p k, may (comp2' p k) (Val (comp2 p k))) ->
    (forall p, orderly_always (V := V) (comp1 p)) -> (forall p, orderly_always (V := V) (comp2 p)) ->
    a_gets (key_or_e point comp1' comp2') (fun m => option_or (option_map fst (get_key_value (comp1 p) m)) (option_map fst (get_key_value (comp2 p) m))).
  Proof.
    intros RPt R1 R2 O1 O2 m t Wm E. eapply may_bind; [apply (a_key_gets point p RPt comp1' comp1 R1 O1 m t Wm E)|].
    eapply may_bind; [apply (a_key_gets point p RPt comp2' comp2 R2 O2 m t Wm E)|]. apply may_ret.
  Qed.
  Lemma a_nothing_takes : a_takes (fun t => uret (entries t)) (fun m => m).
  Proof. intros m t Wm E. rewrite E. split; [apply may_ret|exact Wm]. Qed.

  Lemma a_merge k v gs ge rs re gs' ge' rs' re' m : WF m ->
    a_gets gs' (fun m => gs m v) -> a_gets ge' (fun m => ge m v) -> a_takes rs' (fun m => rs m v) -> a_takes re' (fun m => re m v) ->
    ends (insert_merge_with_comps_e P ik C overlaps_k T k v gs' ge' rs' re' m) (insert_merge_with_comps k v gs ge rs re m) (insert_merge_with_comps_t k v gs ge rs re m).
  Proof.
    intros Wm Gs Ge Rs Re. unfold insert_merge_with_comps_e, insert_merge_with_comps_t. destruct (valid_dec k) as [Vk|Nk].
    - rewrite (iip_valid _ Vk). destruct (remove_overlapping_spec m k Wm Vk) as (m1 & rem & R & _ & _ & W1). rewrite R. cbv zeta.
      set (ts := m :: remove_overlapping_t k m ++ _). unfold insert_merge_with_comps. rewrite (iip_valid _ Vk), R. 
      assert (M : In m ts) by (left; reflexivity).
      eapply ends_bind; [rewrite <- (iip_valid _ Vk); apply a_iip, RK|exact M|]. cbv zeta.
      eapply ends_bind; [apply Gs; [exact Wm|apply TF]|exact M|]. eapply ends_bind; [apply Ge; [exact Wm|apply TF]|exact M|].
      match goal with |- context [insert_unchecked ?r _ _] => set (ret := r) end.
      eapply (ends_bind _ _ _ ret); [|exact M|].
      { unfold ret. destruct (gs m v), (ge m v); try apply may_ret; (eapply may_bind; [apply (a_start ik RK)|]; eapply may_bind; [apply (a_end ik RK)|]; apply a_from). }
      clearbody ret. pose proof (a_remove_overlapping ik RK overlaps_k RO m (T 0 m) k Wm (TF 0 m)) as X. rewrite R in X.
      assert (M1 : In m1 ts).
      { right. apply in_or_app. left. pose proof (last_remove_t k m Wm) as L. rewrite R in L. exact L. }
      apply (ends_then _ _ m1 (Val rem) (fun m c => (insert_unchecked ret v (re (rs m v) v), Val ret))); [apply (ends_more _ _ _ _ X), incl_tl, incl_appl, incl_refl|]. intros a _.
      destruct (Rs m1 (T 1 m1) W1 (TF 1 m1)) as [A1 W2]. eapply ends_bind; [exact A1|exact M1|].
      destruct (Re _ (T 2 (rs m1 v)) W2 (TF 2 _)) as [A2 W3]. eapply ends_bind; [exact A2|right; apply in_or_app; right; left; reflexivity|].
      eapply ends_bind; [apply a_insert_unchecked; [exact W3|apply TF]|right; apply in_or_app; right; right; left; reflexivity|]. apply ends_ret.
    - unfold insert_merge_with_comps. rewrite (iip_invalid _ Nk). apply a_not_valid; [exact Nk|left; reflexivity].
  Qed.
  Notation rts := (a_touching_start ik RK).
  Notation rte := (a_touching_end ik RK).
  Notation rs := (a_start ik RK).
  Notation re := (a_end ik RK).
  Lemma a_merge_overlapping m k v : WF m -> ends (insert_merge_overlapping_e P ik C overlaps_k T k v m) (insert_merge_overlapping k v m) (trace m (OpInsertMergeOverlapping k v)).
  Proof.
    intros Wm. unfold insert_merge_overlapping_e, insert_merge_overlapping. cbn [trace]. apply ends_obind; [apply a_iip, RK|left; reflexivity|]. intros u Eu.
    apply (a_merge k v (fun m _ => option_map fst (get_key_value (overlapping_comp (istart k)) m)) (fun m _ => option_map fst (get_key_value (overlapping_comp (iend k)) m)) (fun m _ => m) (fun m _ => m)); [exact Wm| | | |].
    - exact (a_key_gets _ _ (rs k) _ _ roc orderly_ol).
    - exact (a_key_gets _ _ (re k) _ _ roc orderly_ol).
    - exact a_nothing_takes.
    - exact a_nothing_takes.
  Qed.
  Lemma a_merge_both m k v : WF m -> ends (insert_merge_touching_or_overlapping_e P ik C overlaps_k T k v m) (insert_merge_touching_or_overlapping k v m) (trace m (OpInsertMergeTouchingOrOverlapping k v)).
  Proof.
    intros Wm. unfold insert_merge_touching_or_overlapping_e, insert_merge_touching_or_overlapping. cbn [trace]. apply ends_obind; [apply a_iip, RK|left; reflexivity|]. intros u Eu.
    apply (a_merge k v (fun m _ => option_or (option_map fst (get_key_value (touching_start_comp (istart k)) m)) (option_map fst (get_key_value (overlapping_comp (istart k)) m)))
      (fun m _ => option_or (option_map fst (get_key_value (touching_end_comp (iend k)) m)) (option_map fst (get_key_value (overlapping_comp (iend k)) m)))
      (fun m _ => fst (remove (touching_start_comp (istart k)) m)) (fun m _ => fst (remove (touching_end_comp (iend k)) m))); [exact Wm| | | |].
    - exact (a_key_or_gets _ _ _ _ _ _ (rs k) rts roc orderly_ts orderly_ol).
    - exact (a_key_or_gets _ _ _ _ _ _ (re k) rte roc orderly_te orderly_ol).
    - exact (a_remove_takes _ _ (rs k) _ _ rts orderly_ts).
    - exact (a_remove_takes _ _ (re k) _ _ rte orderly_te).
  Qed.
  Lemma a_ok {A} (x : changing W K V A) r ts : ends x r ts -> ends (mthen x (fun m r => mret m (Val (Ok (E := V) r)))) (let (m, o) := r in (m, omap Ok o)) ts.
  Proof. intros X. destruct r as [m o]. pose proof (ends_then x (fun m r => mret m (Val (Ok (E := V) r))) m o (fun m r => (m, Val (Ok r))) ts X (fun a _ => ends_ret m (Val (Ok a)) ts)) as Y. destruct o; exact Y. Qed.
  Lemma a_merge_touching m k v : WF m -> ends (insert_merge_touching_e P ik C overlaps_k T k v m) (insert_merge_touching k v m) (trace m (OpInsertMergeTouching k v)).
  Proof.
    intros Wm. unfold insert_merge_touching_e, insert_merge_touching. cbn [trace]. apply ends_obind; [apply a_iip, RK|left; reflexivity|]. intros u Eu.
    intros w. unfold mbind at 1. pose proof (a_map_overlaps ik RK m (T 0 m) k Wm (TF 0 m) w) as X. destruct (map_overlaps_e _ _ _ _ _ w) as [o w1]. cbn in X. destruct X as [->| ->]; [|right; split; [reflexivity|left; reflexivity]].
    unfold if_free_t. rewrite Eu. destruct (map_overlaps m k) as [[|]|]; [left; reflexivity| |left; reflexivity]. revert w1. apply (fun x r ts X => ends_more x r ts (m :: ts) X (incl_tl m (incl_refl ts))). apply a_ok.
    apply (a_merge k v (fun m _ => option_map fst (get_key_value (touching_start_comp (istart k)) m)) (fun m _ => option_map fst (get_key_value (touching_end_comp (iend k)) m))
      (fun m _ => fst (remove (touching_start_comp (istart k)) m)) (fun m _ => fst (remove (touching_end_comp (iend k)) m))); [exact Wm| | | |].
    - exact (a_key_gets _ _ (rs k) _ _ rts orderly_ts).
    - exact (a_key_gets _ _ (re k) _ _ rte orderly_te).
    - exact (a_remove_takes _ _ (rs k) _ _ rts orderly_ts).
    - exact (a_remove_takes _ _ (re k) _ _ rte orderly_te).
  Qed.
  Lemma a_merge_equal m k v : WF m -> ends (insert_merge_touching_if_values_equal_e P ik C overlaps_k T k v m) (insert_merge_touching_if_values_equal veq k v m) (trace m (OpInsertMergeTouchingIfValuesEqual veq k v)).
  Proof.
    intros Wm. unfold insert_merge_touching_if_values_equal_e, insert_merge_touching_if_values_equal. cbn [trace]. apply ends_obind; [apply a_iip, RK|left; reflexivity|]. intros u Eu.
    intros w. unfold mbind at 1. pose proof (a_map_overlaps ik RK m (T 0 m) k Wm (TF 0 m) w) as X. destruct (map_overlaps_e _ _ _ _ _ w) as [o w1]. cbn in X. destruct X as [->| ->]; [|right; split; [reflexivity|left; reflexivity]].
    unfold if_free_t. rewrite Eu. destruct (map_overlaps m k) as [[|]|]; [left; reflexivity| |left; reflexivity]. revert w1. apply (fun x r ts X => ends_more x r ts (m :: ts) X (incl_tl m (incl_refl ts))). cbv zeta. apply a_ok.
    apply (a_merge k v (get_if_equal veq (touching_start_comp (istart k))) (get_if_equal veq (touching_end_comp (iend k)))
        (fun m v => if is_some (get_if_equal veq (touching_start_comp (istart k)) m v) then fst (remove (touching_start_comp (istart k)) m) else m)
        (fun m v => if is_some (get_if_equal veq (touching_end_comp (iend k)) m v) then fst (remove (touching_end_comp (iend k)) m) else m)); [exact Wm| | | |].
    - exact (a_key_if_gets _ _ (rs k) _ _ rts orderly_ts v).
    - exact (a_key_if_gets _ _ (re k) _ _ rte orderly_te v).
    - exact (a_remove_if_takes _ _ (rs k) _ _ rts orderly_ts v).
    - exact (a_remove_if_takes _ _ (re k) _ _ rte orderly_te v).
  Qed.
End Right.

Section History.
  Context {W I : Type} `{PL : PointLaws I}.
  Context {K : Type} {IK : InclusiveInterval I K} {IL : IntervalLaws I K}.
  Context {V : Type} (veq : V -> V -> bool).
  Context (P : point_code W I) (RP : points_or_panic P) (ik : interval_code W I K) (RK : intervals_or_panic ik) (C : entry_code W I K V) (RC : entries_or_panic veq C).
  Context (overlaps_k : K -> K -> user W bool) (RO : overlaps_or_panic overlaps_k).
  Lemma lands_in {A} (l r : NoditMap K V * outcome A) ts : lands l r ts -> In (fst r) ts -> In (fst l) ts.
  Proof. intros [->|[_ X]] Y; assumption. Qed.
  Lemma a_call T c m w : faithful T -> WF m -> In (fst (fst (ecall_do C P ik overlaps_k T c m w))) (trace m (as_op veq c)).
  Proof.
    intros TF Wm. pose proof (trace_last_in (as_op veq c) m Wm) as L.
    destruct c; cbn [ecall_do as_op step] in *; rewrite fst_handing; (eapply lands_in; [|exact L]); revert w.
    - exact (a_insert_strict P RP ik RK T TF m k v (trace m (OpInsertStrict k v)) Wm (or_introl eq_refl)).
    - exact (a_merge_touching veq P RP ik RK C RC overlaps_k RO T TF m k v Wm).
    - exact (a_merge_equal veq P RP ik RK C RC overlaps_k RO T TF m k v Wm).
    - exact (a_merge_overlapping veq P RP ik RK C RC overlaps_k RO T TF m k v Wm).
    - exact (a_merge_both veq P RP ik RK C RC overlaps_k RO T TF m k v Wm).
    - exact (a_insert_overwrite veq P RP ik RK C RC overlaps_k RO T TF m k v Wm).
    - exact (a_remove_overlapping P RP ik RK ik RK overlaps_k RO m (T 0 m) q Wm (TF 0 m)).
    - exact (a_cut veq P RP ik RK C RC ik RK overlaps_k RO m (T 0 m) q Wm (TF 0 m)).
  Qed.
  Lemma a_history T cs : (forall n, faithful (T n)) -> forall os m w, interrupted_history os m ->
    interrupted_history (os ++ map (as_op veq) cs) (fst (fst (ehistory C P ik overlaps_k T cs m w))).
  Proof.
    intros TF. induction cs as [|c cs IH]; intros os m w R; [cbn; rewrite app_nil_r; exact R|]. cbn [ehistory map].
    pose proof (a_call (T (length cs)) c m w (TF _) (interrupted_WF os m R)) as X. destruct (ecall_do _ _ _ _ _ c m w) as [[m1 h] w1]. cbn [fst] in X.
    specialize (IH (os ++ [as_op veq c]) m1 w1 (interrupted_call os m _ m1 R X)). rewrite <- app_assoc in IH.
    destruct (ehistory _ _ _ _ _ cs m1 w1) as [[m2 h2] w2]. exact IH.
  Qed.
End History.
