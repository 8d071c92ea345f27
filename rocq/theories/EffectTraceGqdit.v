(** * EffectTraceGqdit: facts behind C164, [Gqdit]. *)
From Coq Require Import List Bool Arith Lia Sorting.Sorted.
From Verif Require Import Base BTree UtilsModel IntervalModel NoditModel NoditOps GqditModel GqditOps Spec TreeShape
  PointFacts IntervalFacts NoditFacts NoditInv NoditQueries NoditMore NoditMutations GqditFacts GqditProofs TreeFacts LooksMoreFacts TraceModel TraceFacts CrashModel CrashGqdit TraceGqdit
  EffectModel EffectOps EffectFacts EffectRight EffectGqditModel EffectGqditOps EffectGqditFacts EffectGqditRight EffectCrashOps EffectCrashFacts EffectCrashMore EffectTraceOps EffectTraceFacts.
Import ListNotations.
Open Scope nat_scope.

Lemma may_assoc {W A B E} (x : user W A) (f : A -> user W B) (g : B -> user W E) o : may (do! a := x in do! b := f a in g b) o -> may (do! b := (do! a := x in f a) in g b) o.
Proof. intros X w. specialize (X w). unfold ubind in *. destruct (x w) as [[a|] w1]; exact X. Qed.

Section Sets.
  Context {W D : Type} {OD : Ord D} {OL : OrdLaws D}.
  Context (J : id_code W D) (RJ : all_ids_or_panic J) (shape : W -> list D -> tree D unit) (SF : faithful_sets shape).
  Implicit Types (s : list D) (d : D).
  Notation elems s := (map (fun d => (d, tt)) s).
  Lemma a_set_search d s : is_set s -> may (set_search_e J shape d s) (Val (seek_place (cmp d) (elems s))).
  Proof.
    intros S w. unfold set_search_e. pose proof (proj1 (a_search (i_cmp J d) (cmp d) (fun x => proj1 (RJ d x))) (shape w s) w) as X.
    rewrite (search_seek (cmp d) (shape w s)) in X; [rewrite SF in X; exact X|rewrite SF; apply orderly_set, S].
  Qed.
  Lemma a_set_contains s d : is_set s -> may (set_contains_e J shape s d) (Val (bset_contains s d)).
  Proof.
    intros S. eapply may_bind; [apply a_set_search, S|]. destruct (seek_set d s S) as [(a & x & b & -> & -> & _)|(a & b & -> & -> & _)]; apply may_ret.
  Qed.
  Lemma a_set_insert d s : is_set s -> may (set_insert_e J shape d s) (Val (bset_insert d s)).
  Proof.
    intros S. eapply may_bind; [apply a_set_search, S|]. destruct (seek_set d s S) as [(a & x & b & -> & _ & ->)|(a & b & -> & _ & ->)]; apply may_ret.
  Qed.
  Lemma a_set_extend other : forall s, is_set s -> may (set_extend_e J shape s other) (Val (bset_extend s other)).
  Proof.
    induction other as [|d other IH]; intros s S; [apply may_ret|]. eapply may_bind; [apply a_set_insert, S|]. apply IH, insert_set, S.
  Qed.
  Lemma a_set_clone s : may (set_clone_e J s) (Val s).
  Proof.
    induction s as [|d s IH]; [apply may_ret|]. eapply may_bind; [apply (RJ d d)|]. eapply may_bind; [exact IH|]. apply may_ret.
  Qed.
  Lemma a_all_eq s : forall s', length s = length s' -> may (all_eq_e J s s') (Val (bset_eqb s s')).
  Proof.
    induction s as [|d s IH]; intros [|d' s'] L; try discriminate L; [apply may_ret|]. eapply may_bind; [apply (RJ d d')|]. cbn [bset_eqb].
    destruct (eqb d d'); [apply IH; injection L; auto|apply may_ret].
  Qed.
  Lemma a_set_eq s s' : may (set_eq_e J s s') (Val (bset_eqb s s')).
  Proof.
    unfold set_eq_e. destruct (Nat.eqb_spec (length s) (length s')) as [L|L]; [apply a_all_eq, L|].
    destruct (bset_eqb s s') eqn:E; [apply eqb_length in E; contradiction|apply may_ret].
  Qed.
  Lemma a_set_remove ids s : is_set ids -> may (set_remove_e J shape ids s) (Val (bset_retain (fun i => negb (bset_contains ids i)) s)).
  Proof.
    intros S. induction s as [|d s IH]; [apply may_ret|]. eapply may_bind; [apply a_set_contains, S|]. eapply may_bind; [exact IH|].
    cbn [bset_retain filter]. destruct (bset_contains ids d); apply may_ret.
  Qed.
  Lemma a_extend_cloned ids s : is_set s -> may (extend_cloned_e J shape ids s) (Val (bset_extend s ids)).
  Proof. intros S. eapply may_bind; [apply a_set_clone|]. apply a_set_extend, S. Qed.
  Lemma a_valid_identifier d s : is_set s -> may (valid_identifier_e J shape d s) (Val (valid_identifier d s)).
  Proof.
    intros S. destruct s as [|x [|y s]]; [apply may_ret| |apply may_ret]. unfold valid_identifier_e, valid_identifier. cbn [bset_is_empty bset_len length Nat.eqb orb andb].
    apply a_set_contains, S.
  Qed.
End Sets.

Section Maps.
  Context {W I : Type} `{PL : PointLaws I}.
  Context {K : Type} {IK : InclusiveInterval I K} {IL : IntervalLaws I K}.
  Context {D : Type} {OD : Ord D} {OL : OrdLaws D}.
  Context (P : point_code W I) (RP : points_or_panic P) (ik : interval_code W I K) (RK : intervals_or_panic ik).
  Context (from : Interval I -> user W K) (RF : forall i, may (from i) (Val (ifrom i))).
  Context (J : id_code W D) (RJ : all_ids_or_panic J) (shape : W -> list D -> tree D unit) (SF : faithful_sets shape).
  Implicit Types (g : Gqdit K D) (s : list D).
  Lemma a_set_code : entries_or_panic bset_eqb (set_code from J).
  Proof. split; [exact RF|]. split; [exact (a_set_clone J RJ)|exact (a_set_eq J RJ)]. Qed.
  Lemma a_crate_interval : intervals_or_panic (crate_interval P).
  Proof. intros x. split; [apply may_ret|]. split; [apply may_ret|]. exact (a_le P RP _ _). Qed.
  Lemma a_ii a b : may (ii_e P a b) (ii a b).
  Proof. apply may_obind; [apply a_iip, a_crate_interval|]. intros _ _. apply may_ret. Qed.

  Context (kc : K -> I -> user W bool) (RKC : forall k p, may (kc k p) (Val (contains_point k p))).
  Lemma a_merge_ordered a b : may (merge_ordered_e P ik from a b) (let? m := merge_ordered a b in Val (ifrom m)).
  Proof.
    eapply may_bind; [apply (a_start ik RK)|]. eapply may_bind; [apply (a_end ik RK)|]. apply may_obind; [apply a_ii|]. intros i _. apply RF.
  Qed.
  Lemma a_overlaps_ordered a b : may (overlaps_ordered_e ik kc a b) (Val (overlaps_ordered a b)).
  Proof.
    unfold overlaps_ordered. eapply may_bind; [apply (a_start ik RK)|]. eapply may_bind; [apply RKC|]. destruct (contains_point a (istart b)); [apply may_ret|].
    eapply may_bind; [apply (a_end ik RK)|]. apply RKC.
  Qed.
  Lemma a_touches_ordered a b : may (touches_ordered_e P ik a b) (touches_ordered a b).
  Proof.
    eapply may_bind; [apply (a_end ik RK)|]. eapply may_bind; [apply (a_start ik RK)|]. eapply may_bind; [apply (a_down P RP)|].
    apply may_obind; [apply may_out|]. intros d _. apply (a_eq P RP).
  Qed.
  Section Coalesce.
    Context (f' : K -> K -> user W (option K)) (f : K -> K -> outcome (option K)) (RFF : forall a b, may (f' a b) (f a b)).
    Notation right_steps := (Forall2 (fun x o => may (W := W) x (Val o))).
    Lemma a_coalesce_from steps os : right_steps steps os -> forall last, may (coalesce_from_e f' last steps) (coalesce_from f last (concat (map opt_list os))).
    Proof.
      intros F. induction F as [|x o steps os X F IH]; intros last; [apply may_ret|]. cbn [coalesce_from_e map concat]. eapply may_bind; [exact X|].
      destruct o as [next|]; [|apply IH]. cbn [opt_list app coalesce_from]. apply may_obind; [apply RFF|]. intros [joined|] _; [apply IH|].
      apply may_obind; [apply IH|]. intros out _. apply may_ret.
    Qed.
    Lemma a_coalesce steps os : right_steps steps os -> may (coalesce_e f' steps) (coalesce f (concat (map opt_list os))).
    Proof.
      intros F. induction F as [|x o steps os X F IH]; [apply may_ret|]. cbn [coalesce_e map concat]. eapply may_bind; [exact X|].
      destruct o as [first|]; [|exact IH]. cbn [opt_list app coalesce]. apply a_coalesce_from, F.
    Qed.
  End Coalesce.
  Section Expand.
    Context (d : D) (join' : K -> K -> user W K) (join : K -> K -> outcome (Interval I)) (RJo : forall a b, may (join' a b) (let? m := join a b in Val (ifrom m))).
    Notation joining := (fun x y => let? m := join x y in Val (Some (ifrom m))).
    Notation kept l := (map fst (take_while (fun kv => valid_identifier d (snd kv)) l)).
    Lemma a_grow l : sets l -> forall last, may (do! k := grow_e J shape d join' last l in uret (Some k)) (let? l := coalesce_from joining last (kept l) in Val (hd_error l)).
    Proof.
      intros S. induction l as [|[k s] l IH]; intros last; [apply may_ret|].
      assert (Ss : is_set s) by (apply (S k); left; reflexivity). assert (Sl : sets l) by (intros k0 s0 Hi; apply (S k0); right; exact Hi).
      cbn [grow_e take_while snd]. apply may_assoc. eapply may_bind; [apply (a_valid_identifier J RJ shape SF d s Ss)|]. destruct (valid_identifier d s); [|apply may_ret].
      cbn [map fst coalesce_from]. apply may_assoc. intros w. pose proof (RJo last k w) as X. unfold ubind at 1 3. destruct (join' last k w) as [o w2]. cbn [fst] in X. destruct X as [->| ->]; [|right; reflexivity].
      destruct (join last k) as [m|]; [|left; reflexivity]. cbn [obind]. exact (IH Sl (ifrom m) w2).
    Qed.
    Lemma a_expand l : sets l -> may (expand_e J shape d join' l) (let? l := coalesce joining (kept l) in Val (hd_error l)).
    Proof.
      intros S. destruct l as [|[k s] l]; [apply may_ret|].
      assert (Ss : is_set s) by (apply (S k); left; reflexivity). assert (Sl : sets l) by (intros k0 s0 Hi; apply (S k0); right; exact Hi).
      cbn [expand_e take_while snd]. eapply may_bind; [apply a_valid_identifier; assumption|]. destruct (valid_identifier d s); [|apply may_ret].
      cbn [map fst coalesce]. apply a_grow, Sl.
    Qed.
  End Expand.
  Context (g : Gqdit K D) (Wg : WF g) (Sg : sets g) (t : tree K (list D)) (Et : entries t = g).
  Lemma a_overlapping_sets {Q} {IQ : InclusiveInterval I Q} (iq : interval_code W I Q) (RQ : intervals_or_panic iq) q {B} (f : list (K * list D) -> user W B) (h : list (K * list D) -> outcome B) :
    (forall l, sets l -> may (f l) (h l)) -> may (do! l := overlapping_e P ik iq t q in f l) (let? l := overlapping g q in h l).
  Proof.
    intros X w. unfold ubind. pose proof (a_overlapping P RP ik RK iq RQ g t q Wg Et w) as Y. destruct (overlapping_e P ik iq t q w) as [o w1] eqn:E. assert (Yo : o = overlapping g q \/ o = Panic) by (change o with (fst (o, w1)); rewrite <- E; exact Y). destruct Yo as [->| ->]; [|right; reflexivity].
    destruct (overlapping g q) as [l|]; [|left; reflexivity]. cbn [obind]. apply X. apply overlapping_e_part in E. rewrite Et in E. destruct E as (a & b & E).
    intros k s Hi. apply (Sg k). rewrite E, !in_app_iff. auto.
  Qed.
  Lemma a_expand_right d p : may (expand_gaps_at_point_right_e P ik from J shape t d p) (expand_gaps_at_point_right g d p).
  Proof.
    apply may_obind; [apply a_ii|]. intros q _. apply a_overlapping_sets; [apply a_crate_interval|]. intros l S. apply (a_expand d _ merge_ordered); [exact a_merge_ordered|exact S].
  Qed.
  Lemma a_expand_left d p : may (expand_gaps_at_point_left_e P ik from J shape t d p) (expand_gaps_at_point_left g d p).
  Proof.
    apply may_obind; [apply a_ii|]. intros q _. apply (a_overlapping_sets (crate_interval P) a_crate_interval q); intros l S.
    apply (a_expand d _ (fun x y => merge_ordered y x)); [intros a b; apply a_merge_ordered|]. intros k s Hi. apply (S k). rewrite in_rev. exact Hi.
  Qed.
  Section Q.
    Context {Q : Type} {IQ : InclusiveInterval I Q} (iq : interval_code W I Q) (RQ : intervals_or_panic iq).
    Lemma a_gaps_no q : may (gaps_no_identifier_e P ik iq t q) (gaps_no_identifier g q).
    Proof.
      apply may_obind; [apply a_iip, RQ|]. intros _ _. apply (a_overlapping_sets iq RQ q). intros l _. apply may_ret.
    Qed.
    Lemma a_inner_gap d q (e : K * list D) : is_set (snd e) -> may (inner_gap_e J shape kc iq d q e)
      (Val (if valid_identifier d (snd e) && (negb (contains_point (fst e) (istart q)) && negb (contains_point (fst e) (iend q))) then Some (fst e) else None)).
    Proof.
      intros S. eapply may_bind; [apply a_valid_identifier; assumption|]. destruct (valid_identifier d (snd e)); cbn [negb andb]; [|apply may_ret].
      eapply may_bind; [apply (a_start iq RQ)|]. eapply may_bind; [apply RKC|]. destruct (contains_point (fst e) (istart q)); cbn [negb andb]; [apply may_ret|].
      eapply may_bind; [apply (a_end iq RQ)|]. eapply may_bind; [apply RKC|]. destruct (contains_point (fst e) (iend q)); apply may_ret.
    Qed.
    Lemma filter_opts (f : K * list D -> bool) (h : K -> bool) (l : list (K * list D)) :
      concat (map opt_list (map (fun e => if f e && h (fst e) then Some (fst e) else None) l)) = filter h (map fst (filter f l)).
    Proof.
      induction l as [|e l IH]; [reflexivity|]. cbn. rewrite IH. destruct (f e); cbn; [|reflexivity]. destruct (h (fst e)); reflexivity.
    Qed.
    Lemma some_opts (l : list K) : concat (map opt_list (map Some l)) = l.
    Proof. induction l as [|x l IH]; cbn; [reflexivity|]. rewrite IH. reflexivity. Qed.
    Lemma some_steps (l : list K) : Forall2 (fun x o => may (W := W) x (Val o)) (map (fun k => uret (Some k)) l) (map Some l).
    Proof. induction l; cbn; constructor; [apply may_ret|assumption]. Qed.
    Lemma a_gaps_with d q : may (gaps_with_identifier_e P ik from J shape kc iq t d q) (gaps_with_identifier g d q).
    Proof.
      apply may_obind; [apply a_iip, RQ|]. intros _ _. apply (a_overlapping_sets iq RQ q). intros l S.
      eapply may_bind; [apply (a_start iq RQ)|]. apply may_obind; [apply a_expand_left|]. intros left_ _.
      eapply may_bind; [apply (a_end iq RQ)|]. apply may_obind; [apply a_expand_right|]. intros right_ _.
      apply may_obind.
      - destruct left_ as [a|]; [|apply may_ret]. destruct right_ as [b|]; [|apply may_ret]. eapply may_bind; [apply a_overlaps_ordered|].
        destruct (overlaps_ordered a b); [|apply may_ret]. pose proof (a_merge_ordered a b) as X. intros w. unfold ubind. specialize (X w).
        destruct (merge_ordered_e P ik from a b w) as [o w1]. cbn [fst] in X. destruct X as [->| ->]; [|right; reflexivity]. destruct (merge_ordered a b); left; reflexivity.
      - intros [a b] _.
        rewrite <- (some_opts (opt_list a)) at 2. rewrite <- (some_opts (opt_list b)) at 2. rewrite <- filter_opts, <- !concat_app, <- !map_app.
        apply a_coalesce.
        + intros x y. apply may_obind; [apply a_touches_ordered|]. intros [|] _; [|apply may_ret]. pose proof (a_merge_ordered x y) as X. intros w. unfold ubind. specialize (X w).
          destruct (merge_ordered_e P ik from x y w) as [o w1]. cbn [fst] in X. destruct X as [->| ->]; [|right; reflexivity]. destruct (merge_ordered x y); left; reflexivity.
        + repeat apply Forall2_app; [apply some_steps| |apply some_steps]. clear -S RQ RKC RJ SF OL. induction l as [|[k s] l IH]; cbn [map]; constructor.
          * apply (a_inner_gap d q (k, s)). apply (S k). left. reflexivity.
          * apply IH. intros k0 s0 Hi. apply (S k0). right. exact Hi.
    Qed.
  End Q.
  Lemma a_at_point p : may (identifiers_at_point_e P ik from J t p) (identifiers_at_point g p).
  Proof.
    unfold identifiers_at_point, get_at_point. intros w. unfold identifiers_at_point_e, ubind.
    pose proof (a_get_at bset_eqb P RP ik RK _ a_set_code g t p Wg Et w) as X. destruct (get_key_value_at_point_e _ _ _ _ _ w) as [o w1]. cbn [fst] in X. destruct X as [->| ->]; [|right; reflexivity].
    destruct (get_key_value_at_point g p) as [[[k s]|k]|]; [|left; reflexivity|left; reflexivity]. apply (a_set_clone J RJ).
  Qed.
End Maps.

Section Changes.
  Context {W I : Type} `{PL : PointLaws I}.
  Context {K : Type} {IK : InclusiveInterval I K} {IL : IntervalLaws I K}.
  Context {D : Type} {OD : Ord D} {OL : OrdLaws D}.
  Context (P : point_code W I) (RP : points_or_panic P) (ik : interval_code W I K) (RK : intervals_or_panic ik).
  Context (from : Interval I -> user W K) (RF : forall i, may (from i) (Val (ifrom i))).
  Context (J : id_code W D) (RJ : all_ids_or_panic J) (shape : W -> list D -> tree D unit) (SF : faithful_sets shape).
  Context (overlaps_k : K -> K -> user W bool) (RO : overlaps_or_panic overlaps_k).
  Implicit Types (g : Gqdit K D) (s : list D).
  Notation RC := (a_set_code from RF J RJ).
  Lemma a_new T : (forall i, faithful (T i)) -> may (gqdit_new_e P ik from T) (gqdit_new (K := K) (D := D)).
  Proof.
    intros TF. apply may_obind; [apply (a_ii P RP)|]. intros u _. eapply may_bind; [apply RF|]. intros w.
    pose proof (a_insert_strict P RP ik RK (T 0) (TF 0) new (ifrom u) [] [new] ltac:(apply reachable_WF; exists []; reflexivity) (or_introl eq_refl) w) as X.
    destruct (insert_strict_e P ik (T 0) (ifrom u) [] new w) as [[m o] w1]. unfold lands in X. cbn [fst snd] in X. change (BTreeSet D) with (list D). change (bset_empty (D := D)) with (@nil D).
    destruct X as [X|[-> _]]; [|right; reflexivity]. left. rewrite <- X. destruct o as [[x|x]|]; reflexivity.
  Qed.
  Lemma a_reinsert T update' update l : (forall i, faithful (T i)) -> (forall k s, In (k, s) l -> may (update' s) (Val (update s))) ->
    forall g, WF g -> ends (reinsert_e P ik from J overlaps_k T update' l g) (reinsert update l g) (reinsert_t update l g).
  Proof.
    intros TF. induction l as [|[k s] l IH]; intros U g Wg; [apply ends_ret|]. cbn [reinsert_e reinsert reinsert_t].
    eapply ends_bind; [apply (U k); left; reflexivity|left; reflexivity|]. intros w. unfold mthen.
    pose proof (a_merge_equal bset_eqb P RP ik RK _ RC overlaps_k RO (T (S (length l))) (TF _) g k (update s) Wg w) as X.
    pose proof (step_WF g (OpInsertMergeTouchingIfValuesEqual bset_eqb k (update s)) Wg) as Ws. cbn [step] in Ws.
    flat_sets.
    destruct (insert_merge_touching_if_values_equal_e P ik (set_code from J) overlaps_k (T (S (length l))) k (update s) g w) as [[g1 o] w1]. unfold lands in X. cbn [fst snd] in X.
    destruct X as [X|[-> X]]; [|right; split; [reflexivity|right; apply in_app_iff; left; exact X]].
    rewrite <- X in *. cbn [fst] in Ws.
    destruct o as [[r|e]|]; [|left; reflexivity|left; reflexivity].
    apply (ends_more _ _ (reinsert_t update l g1)); [apply IH; [|exact Ws]; intros k0 s0 Hi; apply (U k0); right; exact Hi|].
    intros x Hx. right. apply in_app_iff. right. exact Hx.
  Qed.
  Section Q.
    Context {Q : Type} {IQ : InclusiveInterval I Q} (iq : interval_code W I Q) (RQ : intervals_or_panic iq) (k_overlaps : K -> Q -> user W bool) (RKO : overlaps_or_panic k_overlaps).
    Lemma a_cut_update T update' update q g : (forall i, faithful (T i)) -> (forall s, is_set s -> may (update' s) (Val (update s))) -> WF g -> sets g -> valid q ->
      ends (cut_update_e P ik from J overlaps_k iq k_overlaps T update' q g) (cut_update update q g) (cut_update_t update q g).
    Proof.
      intros TF U Wg Sg Vq w. unfold cut_update_e, cut_update, cut_update_t, mthen. destruct (cut_full g q Wg Vq) as (g1 & l & E & W1 & _ & Hl & _).
      pose proof (a_cut bset_eqb P RP ik RK _ RC iq RQ k_overlaps RKO g (T 0 0 g) q Wg (TF 0 0 g) w) as X. flat_sets. rewrite E in X.
      destruct (cut_e P ik (set_code from J) iq k_overlaps q (T 0 0 g) w) as [[g2 o] w1]. unfold lands in X. cbn [fst snd] in X.
      destruct X as [X|[-> X]]; [|right; split; [reflexivity|apply in_app_iff; left; exact X]]. injection X as -> ->. rewrite E.
      apply (ends_more _ _ (reinsert_t update l g1)); [|intros x Hx; apply in_app_iff; right; exact Hx].
      apply a_reinsert; [exact TF| |exact W1]. intros k s Hi. apply U. destruct (Hl k s Hi) as (_ & k0 & Hk & _). apply (Sg k0 s Hk).
    Qed.
    Lemma a_cut_with T ids q g : (forall i, faithful (T i)) -> is_set ids -> WF g -> sets g ->
      ends (cut_with_identifiers_e P ik from J shape overlaps_k iq k_overlaps T ids q g) (cut_with_identifiers ids q g) (cut_with_identifiers_t ids q g).
    Proof.
      intros TF Si Wg Sg. unfold cut_with_identifiers_e, cut_with_identifiers, cut_with_identifiers_t. apply ends_obind; [apply a_iip, RQ|left; reflexivity|]. intros u E. rewrite E.
      destruct (valid_dec q) as [Vq|Nq]; [|rewrite (iip_invalid _ Nq) in E; discriminate].
      destruct (bset_is_empty ids); [apply ends_ret|]. eapply ends_more; [|apply incl_tl, incl_refl].
      apply a_cut_update; [exact TF| |exact Wg|exact Sg|exact Vq]. intros s _. apply a_set_remove; assumption.
    Qed.
    Lemma a_cut_all T q g : (forall i, faithful (T i)) -> WF g -> sets g ->
      ends (cut_all_identifiers_e P ik from J overlaps_k iq k_overlaps T q g) (cut_all_identifiers q g) (cut_all_identifiers_t q g).
    Proof.
      intros TF Wg Sg. unfold cut_all_identifiers_e, cut_all_identifiers, cut_all_identifiers_t. apply ends_obind; [apply a_iip, RQ|left; reflexivity|]. intros u E. rewrite E.
      destruct (valid_dec q) as [Vq|Nq]; [|rewrite (iip_invalid _ Nq) in E; discriminate]. eapply ends_more; [|apply incl_tl, incl_refl].
      apply a_cut_update; [exact TF| |exact Wg|exact Sg|exact Vq]. intros s _. apply may_ret.
    Qed.
  End Q.
  Lemma a_gqdit_insert T ids q g : (forall i, faithful (T i)) -> WF g -> sets g ->
    ends (gqdit_insert_e P ik from J shape overlaps_k T ids q g) (gqdit_insert ids q g) (gqdit_insert_t ids q g).
  Proof.
    intros TF Wg Sg. unfold gqdit_insert_e, gqdit_insert, gqdit_insert_t. apply ends_obind; [apply a_iip, RK|left; reflexivity|]. intros u E. rewrite E.
    destruct (valid_dec q) as [Vq|Nq]; [|rewrite (iip_invalid _ Nq) in E; discriminate]. destruct (bset_is_empty ids); [apply ends_ret|]. eapply ends_more; [|apply incl_tl, incl_refl].
    apply (a_cut_update ik RK overlaps_k RO); [exact TF| |exact Wg|exact Sg|exact Vq]. intros s Ss. apply a_extend_cloned; assumption.
  Qed.
  Lemma insert_t_last u k g : WF g -> In (fst (gqdit_insert u k g)) (gqdit_insert_t u k g).
  Proof. intros Wg. apply (path_in_last _ _ _ _ (proj1 (insert_t_any u k g Wg))). Qed.
  Lemma insert_t_sets u k g g' : WF g -> sets g -> In g' (gqdit_insert_t u k g) -> WF g' /\ sets g'.
  Proof. intros Wg Sg Hi. exact (partly_sets _ _ _ _ (extend_set u) Sg (proj2 (insert_t_any u k g Wg) g' Hi)). Qed.
  Lemma a_append_loop T l : (forall j i, faithful (T j i)) -> forall g, WF g -> sets g -> ends (append_loop_e P ik from J shape overlaps_k T l g) (append_loop l g) (append_loop_t l g).
  Proof.
    intros TF. induction l as [|[k s] l IH]; intros g Wg Sg; [apply ends_ret|]. cbn [append_loop_e append_loop append_loop_t]. intros w. unfold mthen.
    pose proof (a_gqdit_insert (T (length l)) s k g (TF _) Wg Sg w) as X. pose proof (insert_t_sets s k g _ Wg Sg (insert_t_last s k g Wg)) as G1.
    flat_sets. destruct (gqdit_insert_e P ik from J shape overlaps_k (T (length l)) s k g w) as [[g1 o] w1]. unfold lands in X. cbn [fst snd] in X.
    destruct X as [X|[-> X]]; [|right; split; [reflexivity|right; apply in_app_iff; left; exact X]]. rewrite <- X in *. cbn [fst] in G1.
    destruct o as [u|]; [|left; reflexivity]. apply (ends_more _ _ (append_loop_t l g1)); [apply IH; apply G1|]. intros x Hx. right. apply in_app_iff. right. exact Hx.
  Qed.
  Lemma append_loop_t_sets l : forall g g', WF g -> sets g -> In g' (append_loop_t l g) -> WF g' /\ sets g'.
  Proof.
    induction l as [|[k s] l IH]; intros g g' Wg Sg; cbn [append_loop_t]; [intros [<-|[]]; auto|]. intros [<-|Hi]; [auto|]. apply in_app_iff in Hi.
    destruct Hi as [Hi|Hi]; [apply (insert_t_sets s k g g' Wg Sg Hi)|].
    pose proof (insert_t_sets s k g _ Wg Sg (insert_t_last s k g Wg)) as G1. flat_sets. destruct (gqdit_insert s k g) as [g1 [u|]]; [|destruct Hi]. apply (IH g1); [apply G1|apply G1|exact Hi].
  Qed.
  Context (i_overlaps : Interval I -> K -> user W bool) (RIO : overlaps_or_panic i_overlaps).
  Lemma a_append To T g other w : (forall m, entries (To m) = m) -> (forall j i, faithful (T j i)) -> WF g -> sets g -> WF other ->
    let '(g', other', o) := fst (append_e P ik from J shape overlaps_k i_overlaps To T g other w) in
    ((g', other', o) = append g other \/ o = Panic /\ In g' (append_t g other)) /\ In other' (remove_overlapping_t (mkInterval MIN MAX : Interval I) other).
  Proof.
    intros TF TF' Wg Sg Wo. unfold append_e, append, append_t. pose proof (a_ii P RP MIN MAX w) as X. destruct (ii_e P MIN MAX w) as [o w1]. cbn [fst] in X.
    assert (First : In other (remove_overlapping_t (mkInterval MIN MAX : Interval I) other)) by (unfold remove_overlapping_t; left; reflexivity).
    destruct X as [->| ->]; [|cbn [fst]; split; [right; split; [reflexivity|left; reflexivity]|exact First]].
    change (ii MIN MAX) with (uu (I := I)). rewrite uu_val.
    pose proof (a_remove_overlapping P RP ik RK _ (a_crate_interval P RP) i_overlaps RIO other (To other) (mkInterval MIN MAX) Wo (TF other) w1) as X.
    pose proof (last_remove_t (mkInterval MIN MAX : Interval I) other Wo) as Last.
    flat_sets. destruct (remove_overlapping_e P ik (crate_interval P) i_overlaps (mkInterval MIN MAX) (To other) w1) as [[other1 o] w2]. unfold lands in X. cbn [fst snd] in X.
    destruct X as [X|[-> X]]; [|cbn [fst]; split; [right; split; [reflexivity|left; reflexivity]|exact X]]. rewrite <- X in *. cbn [fst] in Last.
    destruct o as [l|]; [|cbn [fst]; split; [left; reflexivity|exact Last]].
    pose proof (a_append_loop T l TF' g Wg Sg w2) as Z. flat_sets. destruct (append_loop_e P ik from J shape overlaps_k T l g w2) as [[g1 o] w3]. unfold lands in Z. cbn [fst snd] in *.
    split; [|exact Last]. destruct Z as [Z|[-> Z]]; [left; rewrite <- Z; reflexivity|right; split; [reflexivity|right; exact Z]].
  Qed.
  Lemma append_t_sets g other g' : WF g -> sets g -> In g' (append_t g other) -> WF g' /\ sets g'.
  Proof.
    intros Wg Sg. unfold append_t. intros [<-|Hi]; [auto|]. destruct (uu (I := I)) as [u|]; [|destruct Hi]. destruct (remove_overlapping u other) as [o' [l|]]; [|destruct Hi].
    apply (append_loop_t_sets l g g' Wg Sg Hi).
  Qed.
  Lemma append_loop_t_last l : forall g, WF g -> In (fst (append_loop l g)) (append_loop_t l g).
  Proof.
    induction l as [|[k s] l IH]; intros g Wg; cbn [append_loop append_loop_t]; [left; reflexivity|]. right. apply in_app_iff. pose proof (insert_t_last s k g Wg) as L.
    pose proof (proj1 (proj2 (insert_t_any s k g Wg) _ L)) as W1. flat_sets. destruct (gqdit_insert s k g) as [g1 [u|]]; [|left; exact L]. right. apply IH, W1.
  Qed.
  Lemma append_t_last g other : WF g -> In (fst (fst (append g other))) (append_t g other).
  Proof.
    intros Wg. unfold append, append_t. rewrite uu_val. destruct (remove_overlapping _ other) as [o' [l|]]; [|left; reflexivity]. right.
    pose proof (append_loop_t_last l g Wg) as X. flat_sets. destruct (append_loop l g). exact X.
  Qed.
  Lemma a_new_gnew T : (forall i, faithful (T i)) -> right_or_panic (gqdit_new_e P ik from T) (gnew (K := K) (D := D)).
  Proof. intros TF. pose proof (a_new T TF) as X. rewrite new_gnew in X. exact X. Qed.

  (** *** Histories *)
  Context (T : list nat -> nat -> BTreeMap K (list D) -> tree K (list D)) (TF : forall path, faithful (T path)).
  Notation gdo := (gcall_do P ik from J shape overlaps_k i_overlaps T).
  Notation gdos := (gcalls_do P ik from J shape overlaps_k i_overlaps T).
  Lemma stops_in {A} (l r : Gqdit K D * outcome A) ts : lands l r ts -> In (fst r) ts -> In (fst l) ts.
  Proof. intros [->|[_ X]] Y; assumption. Qed.
  Lemma cut_with_t_last u {Q} {IQ : InclusiveInterval I Q} (q : Q) g : WF g -> In (fst (cut_with_identifiers u q g)) (cut_with_identifiers_t u q g).
  Proof. intros Wg. apply (path_in_last _ _ _ _ (proj1 (cut_with_t_any u q g Wg))). Qed.
  Lemma cut_all_t_last {Q} {IQ : InclusiveInterval I Q} (q : Q) g : WF g -> In (fst (cut_all_identifiers q g)) (cut_all_identifiers_t q g).
  Proof. intros Wg. apply (path_in_last _ _ _ _ (proj1 (cut_all_t_any q g Wg))). Qed.
  Lemma a_gcall c : gives_sets c -> forall path g w, WF g -> sets g -> gstop c g (fst (gdo path c g w)) /\ WF (fst (gdo path c g w)) /\ sets (fst (gdo path c g w)).
  Proof.
    revert c. fix IH 1. intros c Sc path g w Wg Sg. destruct c as [ids k|ids q|q|cs].
    - cbn [gcall_do]. pose proof (stops_in _ _ _ (a_gqdit_insert (fun i => T (i :: path)) ids k g (fun i => TF _) Wg Sg w) (insert_t_last ids k g Wg)) as X.
      flat_sets. destruct (gqdit_insert_e _ _ _ _ _ _ _ ids k g w) as [[g1 o] w1]. cbn [fst] in *. split; [apply stop_insert, X|apply (insert_t_sets ids k g g1 Wg Sg X)].
    - cbn [gcall_do]. inversion Sc as [|? ? Si| |]; subst.
      pose proof (stops_in _ _ _ (a_cut_with ik RK overlaps_k RO (fun i => T (i :: path)) ids q g (fun i => TF _) Si Wg Sg w) (cut_with_t_last ids q g Wg)) as X.
      flat_sets. destruct (cut_with_identifiers_e _ _ _ _ _ _ _ _ _ ids q g w) as [[g1 o] w1]. cbn [fst] in *. split; [apply stop_cut, X|].
      exact (partly_sets _ _ _ _ (fun s => retain_set _ s) Sg (proj2 (cut_with_t_any ids q g Wg) g1 X)).
    - cbn [gcall_do].
      pose proof (stops_in _ _ _ (a_cut_all ik RK overlaps_k RO (fun i => T (i :: path)) q g (fun i => TF _) Wg Sg w) (cut_all_t_last q g Wg)) as X.
      flat_sets. destruct (cut_all_identifiers_e _ _ _ _ _ _ _ _ q g w) as [[g1 o] w1]. cbn [fst] in *. split; [apply stop_all, X|].
      exact (partly_sets _ _ _ _ (fun _ _ => is_set_nil) Sg (proj2 (cut_all_t_any q g Wg) g1 X)).
    - rewrite gcall_do_append. inversion Sc as [| | |? Fc]; subst. clear Sc.
      pose proof (a_new_gnew (fun i => T (0 :: i :: path)) (fun i => TF _) w) as N. destruct (gqdit_new_e _ _ _ _ w) as [o w1]. cbn [fst] in N. destruct N as [-> | ->].
      2: { cbn [fst]. split; [apply stop_no_other|auto]. }
      assert (Z : forall path g w, WF g -> sets g -> gstops cs g (fst (gdos cs path g w)) /\ WF (fst (gdos cs path g w)) /\ sets (fst (gdos cs path g w))).
      { clear Wg Sg. induction cs as [|c cs IHcs]; intros p0 g0 w0 W0 S0; [split; [apply stops_nil|auto]|]. cbn [gcalls_do]. inversion Fc; subst.
        pose proof (IH c ltac:(assumption) (length cs :: p0) g0 w0 W0 S0) as (X & W3 & S3). destruct (gdo (length cs :: p0) c g0 w0) as [g3 w3]. cbn [fst] in *.
        destruct (IHcs ltac:(assumption) p0 g3 w3 W3 S3) as (Y & W4 & S4). split; [exact (stops_cons _ _ _ _ _ X Y)|auto]. }
      destruct (gnew_sets (K := K) (D := D)) as [Wn Sn]. destruct (Z (1 :: path) gnew w1 Wn Sn) as (X & Wo & So). destruct (gdos cs (1 :: path) gnew w1) as [other w2]. cbn [fst] in *.
      pose proof (a_append (T (2 :: path) 0) (fun j i => T (j :: i :: 3 :: path)) g other w2 (TF _ 0) (fun j i => TF _) Wg Sg Wo) as A. pose proof (append_t_last g other Wg) as L.
      flat_sets. destruct (append_e _ _ _ _ _ _ _ _ _ g _ w2) as [[[g1 other1] o] w3]. cbn [fst] in *. destruct A as [A _].
      assert (A' : In g1 (append_t g other)). { destruct A as [A|[_ A]]; [rewrite <- A in L|]; assumption. }
      split; [apply (stop_append cs g other g1 X A')|apply (append_t_sets g other g1 Wg Sg A')].
  Qed.
  Lemma a_gcalls cs : Forall gives_sets cs -> forall path g w, WF g -> sets g -> gstops cs g (fst (gdos cs path g w)) /\ WF (fst (gdos cs path g w)) /\ sets (fst (gdos cs path g w)).
  Proof.
    induction 1 as [|c cs Sc Fc IHcs]; intros p0 g0 w0 W0 S0; [split; [apply stops_nil|auto]|]. cbn [gcalls_do].
    pose proof (a_gcall c Sc (length cs :: p0) g0 w0 W0 S0) as (X & W3 & S3). destruct (gdo (length cs :: p0) c g0 w0) as [g3 w3]. cbn [fst] in *.
    destruct (IHcs p0 g3 w3 W3 S3) as (Y & W4 & S4). split; [exact (stops_cons _ _ _ _ _ X Y)|auto].
  Qed.
  Lemma a_ghistory cs w : Forall gives_sets cs -> match fst (ghistory P ik from J shape overlaps_k i_overlaps T cs w) with Val g => gstops cs gnew g /\ WF g /\ sets g | Panic => True end.
  Proof.
    intros Fc. unfold ghistory. pose proof (a_new_gnew (fun i => T [i]) (fun i => TF _) w) as N. destruct (gqdit_new_e _ _ _ _ w) as [o w1]. cbn [fst] in N. destruct N as [-> | ->]; [|exact Logic.I].
    destruct (gnew_sets (K := K) (D := D)) as [Wn Sn]. pose proof (a_gcalls cs Fc [] gnew w1 Wn Sn) as X. destruct (gdos cs [] gnew w1) as [g1 w2]. exact X.
  Qed.
End Changes.

Section Left.
  Context {I : Type} `{PL : PointLaws I}.
  Context {K : Type} {IK : InclusiveInterval I K} {IL : IntervalLaws I K}.
  Context {D : Type} {OD : Ord D} {OL : OrdLaws D}.
  Lemma gstops_sets cs (g g' : Gqdit K D) : gstops cs g g' -> WF g -> sets g -> WF g' /\ sets g'.
  Proof.
    induction 1 as [g|c cs g g1 g2 X Y IH]; intros Wg Sg; [auto|]. assert (Z : WF g1 /\ sets g1); [|apply IH; apply Z].
    destruct X as [ids k g g1 X|ids q g g1 X|q g g1 X|cs' g other g1 _ X|cs' g].
    - exact (insert_t_sets ids k g g1 Wg Sg X).
    - exact (partly_sets _ _ _ _ (fun s => retain_set _ s) Sg (proj2 (cut_with_t_any ids q g Wg) g1 X)).
    - exact (partly_sets _ _ _ _ (fun _ _ => is_set_nil) Sg (proj2 (cut_all_t_any q g Wg) g1 X)).
    - exact (append_t_sets g other g1 Wg Sg X).
    - auto.
  Qed.
End Left.
