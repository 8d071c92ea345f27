(** * EffectGqditRight: facts behind C160, user code with the right answers. *)
From Coq Require Import List Bool Arith Lia Sorting.Sorted.
From Verif Require Import Base BTree UtilsModel IntervalModel NoditModel NoditOps GqditModel GqditOps Spec TreeShape
  PointFacts IntervalFacts NoditFacts NoditInv GqditFacts GqditProofs TreeFacts EffectModel EffectOps EffectFacts EffectRight EffectGqditModel EffectGqditOps EffectGqditFacts.
Import ListNotations.
Open Scope nat_scope.

Section Sets.
  Context {W D : Type} {OD : Ord D} {OL : OrdLaws D}.
  Context (J : id_code W D) (RJ : right_ids J) (shape : W -> list D -> tree D unit) (SF : faithful_sets shape).
  Implicit Types (s : list D) (d : D).
  Notation elems s := (map (fun d => (d, tt)) s).
  Lemma orderly_set d s : is_set s -> orderly (V := unit) (cmp d) (elems s).
  Proof.
    intros S. induction S as [|x s S IH F]; [constructor|]. cbn. constructor; [exact IH|]. rewrite Forall_map. eapply Forall_impl; [|exact F]. cbn. intros y L.
    unfold follows. destruct (cmp d x) eqn:E; [right|right|left; reflexivity].
    - apply cmp_eq in E. subst. exact L.
    - exact (cmp_trans _ _ _ E L).
  Qed.
  Lemma r_set_search d s : is_set s -> answers (set_search_e J shape d s) (Val (seek_place (cmp d) (elems s))).
  Proof.
    intros S w. unfold set_search_e. rewrite (proj1 (r_search (i_cmp J d) (cmp d) (fun x => proj1 (RJ d x))) (shape w s) w).
    rewrite (search_seek (cmp d) (shape w s)); rewrite SF; [reflexivity|apply orderly_set, S].
  Qed.
  Lemma seek_set d s : is_set s ->
    (exists a x b, seek_place (V := unit) (cmp d) (elems s) = (a, Some x, b) /\ bset_contains s d = true /\ bset_insert d s = s) \/
    (exists a b, seek_place (V := unit) (cmp d) (elems s) = (a, None, b) /\ bset_contains s d = false /\ bset_insert d s = map fst a ++ d :: map fst b).
  Proof.
    induction s as [|x s IH]; intros S.
    - right. exists [], []. auto.
    - apply is_set_cons in S as [S F]. unfold seek_place in *. cbn [map seek bset_contains bset_insert].
      assert (Nf : forall y, cmp d y = Lt \/ cmp d y = Gt -> eqb d y = false).
      { intros y X. destruct (eqb d y) eqn:E; [|reflexivity]. apply eqb_true in E. subst y. exfalso. assert (Z : cmp d d = Eq) by (apply cmp_eq; reflexivity). destruct X; congruence. }
      destruct (cmp d x) eqn:E; cbn [fst snd].
      + left. exists [], (x, tt), (elems s). rewrite E. apply cmp_eq in E. subst. rewrite (proj2 (eqb_true x x) eq_refl). auto.
      + right. exists [], (elems (x :: s)). rewrite E. split; [reflexivity|]. split; [|cbn; rewrite map_fst_unit; reflexivity].
        rewrite (Nf x) by auto. cbn. destruct (bset_contains s d) eqn:Z; [|reflexivity]. apply contains_in in Z. rewrite Forall_forall in F. exfalso.
        exact (cmp_irrefl d (cmp_trans _ _ _ E (F d Z))).
      + rewrite (Nf x) by auto. cbn [orb]. destruct (IH S) as [(a & y & b & Z & Y & X)|(a & b & Z & Y & X)]; destruct (seek (cmp d) (elems s)) as [a' [|kv r]]; try discriminate Z.
        * left. destruct (cmp d (fst kv)); try discriminate Z. injection Z as <- <- <-. rewrite X. eauto 6.
        * right. injection Z as <- <-. rewrite X. exists ((x, tt) :: a'), []. auto.
        * right. destruct (cmp d (fst kv)); try discriminate Z; injection Z as <- <-; rewrite X; exists ((x, tt) :: a'), (kv :: r); auto.
  Qed.
  Lemma r_set_contains s d : is_set s -> answers (set_contains_e J shape s d) (Val (bset_contains s d)).
  Proof.
    intros S. eapply answers_bind; [apply r_set_search, S|]. destruct (seek_set d s S) as [(a & x & b & -> & -> & _)|(a & b & -> & -> & _)]; apply answers_ret.
  Qed.
  Lemma r_set_insert d s : is_set s -> answers (set_insert_e J shape d s) (Val (bset_insert d s)).
  Proof.
    intros S. eapply answers_bind; [apply r_set_search, S|]. destruct (seek_set d s S) as [(a & x & b & -> & _ & ->)|(a & b & -> & _ & ->)]; apply answers_ret.
  Qed.
  Lemma r_set_extend other : forall s, is_set s -> answers (set_extend_e J shape s other) (Val (bset_extend s other)).
  Proof.
    induction other as [|d other IH]; intros s S; [apply answers_ret|]. eapply answers_bind; [apply r_set_insert, S|]. apply IH, insert_set, S.
  Qed.
  Lemma r_set_clone s : answers (set_clone_e J s) (Val s).
  Proof.
    induction s as [|d s IH]; [apply answers_ret|]. eapply answers_bind; [apply (RJ d d)|]. eapply answers_bind; [exact IH|]. apply answers_ret.
  Qed.
  Lemma r_all_eq s : forall s', length s = length s' -> answers (all_eq_e J s s') (Val (bset_eqb s s')).
  Proof.
    induction s as [|d s IH]; intros [|d' s'] L; try discriminate L; [apply answers_ret|]. eapply answers_bind; [apply (RJ d d')|]. cbn [bset_eqb].
    destruct (eqb d d'); [apply IH; injection L; auto|apply answers_ret].
  Qed.
  Lemma eqb_length s : forall s', bset_eqb s s' = true -> length s = length s'.
  Proof. intros s' E. apply set_eqb_true in E. subst. reflexivity. Qed.
  Lemma r_set_eq s s' : answers (set_eq_e J s s') (Val (bset_eqb s s')).
  Proof.
    unfold set_eq_e. destruct (Nat.eqb_spec (length s) (length s')) as [L|L]; [apply r_all_eq, L|].
    destruct (bset_eqb s s') eqn:E; [apply eqb_length in E; contradiction|apply answers_ret].
  Qed.
  Lemma r_set_remove ids s : is_set ids -> answers (set_remove_e J shape ids s) (Val (bset_retain (fun i => negb (bset_contains ids i)) s)).
  Proof.
    intros S. induction s as [|d s IH]; [apply answers_ret|]. eapply answers_bind; [apply r_set_contains, S|]. eapply answers_bind; [exact IH|].
    cbn [bset_retain filter]. destruct (bset_contains ids d); apply answers_ret.
  Qed.
  Lemma r_extend_cloned ids s : is_set s -> answers (extend_cloned_e J shape ids s) (Val (bset_extend s ids)).
  Proof. intros S. eapply answers_bind; [apply r_set_clone|]. apply r_set_extend, S. Qed.
  Lemma r_valid_identifier d s : is_set s -> answers (valid_identifier_e J shape d s) (Val (valid_identifier d s)).
  Proof.
    intros S. destruct s as [|x [|y s]]; [apply answers_ret| |apply answers_ret]. unfold valid_identifier_e, valid_identifier. cbn [bset_is_empty bset_len length Nat.eqb orb andb].
    apply r_set_contains, S.
  Qed.
End Sets.

Section Maps.
  Context {W I : Type} `{PL : PointLaws I}.
  Context {K : Type} {IK : InclusiveInterval I K} {IL : IntervalLaws I K}.
  Context {D : Type} {OD : Ord D} {OL : OrdLaws D}.
  Context (P : point_code W I) (RP : right_points P) (ik : interval_code W I K) (RK : right_intervals ik).
  Context (from : Interval I -> user W K) (RF : forall i, answers (from i) (Val (ifrom i))).
  Context (J : id_code W D) (RJ : right_ids J) (shape : W -> list D -> tree D unit) (SF : faithful_sets shape).
  Implicit Types (g : Gqdit K D) (s : list D).
  Definition sets g : Prop := forall k s, In (k, s) g -> is_set s.
  Lemma GWF_WF g : GWF g -> WF g. Proof. intros [X _]. apply X. Qed.
  Lemma GWF_sets g : GWF g -> sets g. Proof. intros [(_ & _ & X) _] k s Hi. apply (X k s Hi). Qed.
  Lemma r_set_code : right_entries bset_eqb (set_code from J).
  Proof. split; [exact RF|]. split; [exact (r_set_clone J RJ)|exact (r_set_eq J RJ)]. Qed.
  Lemma r_crate_interval : right_intervals (crate_interval P).
  Proof. intros x. split; [apply answers_ret|]. split; [apply answers_ret|]. exact (r_le P RP _ _). Qed.
  Lemma r_ii a b : answers (ii_e P a b) (ii a b).
  Proof. apply answers_obind; [apply r_iip, r_crate_interval|]. intros _ _. apply answers_ret. Qed.

  Context (kc : K -> I -> user W bool) (RKC : forall k p, answers (kc k p) (Val (contains_point k p))).
  Lemma r_merge_ordered a b : answers (merge_ordered_e P ik from a b) (let? m := merge_ordered a b in Val (ifrom m)).
  Proof.
    eapply answers_bind; [apply (r_start ik RK)|]. eapply answers_bind; [apply (r_end ik RK)|]. apply answers_obind; [apply r_ii|]. intros i _. apply RF.
  Qed.
  Lemma r_overlaps_ordered a b : answers (overlaps_ordered_e ik kc a b) (Val (overlaps_ordered a b)).
  Proof.
    unfold overlaps_ordered. eapply answers_bind; [apply (r_start ik RK)|]. eapply answers_bind; [apply RKC|]. destruct (contains_point a (istart b)); [apply answers_ret|].
    eapply answers_bind; [apply (r_end ik RK)|]. apply RKC.
  Qed.
  Lemma r_touches_ordered a b : answers (touches_ordered_e P ik a b) (touches_ordered a b).
  Proof.
    eapply answers_bind; [apply (r_end ik RK)|]. eapply answers_bind; [apply (r_start ik RK)|]. eapply answers_bind; [apply (r_down P RP)|].
    apply answers_obind; [apply answers_out|]. intros d _. apply (r_eq P RP).
  Qed.
  Section Coalesce.
    Context (f' : K -> K -> user W (option K)) (f : K -> K -> outcome (option K)) (RFF : forall a b, answers (f' a b) (f a b)).
    Notation right_steps := (Forall2 (fun x o => answers (W := W) x (Val o))).
    Lemma r_coalesce_from steps os : right_steps steps os -> forall last, answers (coalesce_from_e f' last steps) (coalesce_from f last (concat (map opt_list os))).
    Proof.
      intros F. induction F as [|x o steps os X F IH]; intros last; [apply answers_ret|]. cbn [coalesce_from_e map concat]. eapply answers_bind; [exact X|].
      destruct o as [next|]; [|apply IH]. cbn [opt_list app coalesce_from]. apply answers_obind; [apply RFF|]. intros [joined|] _; [apply IH|].
      apply answers_obind; [apply IH|]. intros out _. apply answers_ret.
    Qed.
    Lemma r_coalesce steps os : right_steps steps os -> answers (coalesce_e f' steps) (coalesce f (concat (map opt_list os))).
    Proof.
      intros F. induction F as [|x o steps os X F IH]; [apply answers_ret|]. cbn [coalesce_e map concat]. eapply answers_bind; [exact X|].
      destruct o as [first|]; [|exact IH]. cbn [opt_list app coalesce]. apply r_coalesce_from, F.
    Qed.
  End Coalesce.
  Section Expand.
    Context (d : D) (join' : K -> K -> user W K) (join : K -> K -> outcome (Interval I)) (RJo : forall a b, answers (join' a b) (let? m := join a b in Val (ifrom m))).
    Notation joining := (fun x y => let? m := join x y in Val (Some (ifrom m))).
    Notation kept l := (map fst (take_while (fun kv => valid_identifier d (snd kv)) l)).
    Lemma r_grow l : sets l -> forall last, answers (do! k := grow_e J shape d join' last l in uret (Some k)) (let? l := coalesce_from joining last (kept l) in Val (hd_error l)).
    Proof.
      intros S. induction l as [|[k s] l IH]; intros last; [apply answers_ret|].
      assert (Ss : is_set s) by (apply (S k); left; reflexivity). assert (Sl : sets l) by (intros k0 s0 Hi; apply (S k0); right; exact Hi).
      cbn [grow_e take_while snd]. intros w. unfold ubind at 1 2. pose proof (r_valid_identifier J RJ shape SF d s Ss w) as V.
      destruct (valid_identifier_e J shape d s w) as [o w1]. cbn [fst] in V. subst o. destruct (valid_identifier d s); [|reflexivity].
      cbn [map fst coalesce_from]. pose proof (RJo last k w1) as X. unfold ubind at 1. destruct (join' last k w1) as [o w2]. cbn [fst] in X. subst o. destruct (join last k) as [m|]; [|reflexivity].
      cbn [obind]. exact (IH Sl (ifrom m) w2).
    Qed.
    Lemma r_expand l : sets l -> answers (expand_e J shape d join' l) (let? l := coalesce joining (kept l) in Val (hd_error l)).
    Proof.
      intros S. destruct l as [|[k s] l]; [apply answers_ret|].
      assert (Ss : is_set s) by (apply (S k); left; reflexivity). assert (Sl : sets l) by (intros k0 s0 Hi; apply (S k0); right; exact Hi).
      cbn [expand_e take_while snd]. eapply answers_bind; [apply r_valid_identifier; assumption|]. destruct (valid_identifier d s); [|apply answers_ret].
      cbn [map fst coalesce]. apply r_grow, Sl.
    Qed.
  End Expand.
  Context (g : Gqdit K D) (Gg : GWF g) (t : tree K (list D)) (Et : entries t = g).
  Lemma r_overlapping_sets {Q} {IQ : InclusiveInterval I Q} (iq : interval_code W I Q) (RQ : right_intervals iq) q {B} (f : list (K * list D) -> user W B) (h : list (K * list D) -> outcome B) :
    (forall l, sets l -> answers (f l) (h l)) -> answers (do! l := overlapping_e P ik iq t q in f l) (let? l := overlapping g q in h l).
  Proof.
    intros X w. unfold ubind. pose proof (r_overlapping P RP ik RK iq RQ g t q (GWF_WF g Gg) Et w) as Y. destruct (overlapping_e P ik iq t q w) as [o w1] eqn:E. assert (Yo : o = overlapping g q) by (change o with (fst (o, w1)); rewrite <- E; exact Y). subst o.
    destruct (overlapping g q) as [l|]; [|reflexivity]. cbn [obind]. apply X. apply overlapping_e_part in E. rewrite Et in E. destruct E as (a & b & E).
    intros k s Hi. apply (GWF_sets g Gg k). rewrite E, !in_app_iff. auto.
  Qed.
  Lemma r_expand_right d p : answers (expand_gaps_at_point_right_e P ik from J shape t d p) (expand_gaps_at_point_right g d p).
  Proof.
    apply answers_obind; [apply r_ii|]. intros q _. apply r_overlapping_sets; [apply r_crate_interval|]. intros l S. apply (r_expand d _ merge_ordered); [exact r_merge_ordered|exact S].
  Qed.
  Lemma r_expand_left d p : answers (expand_gaps_at_point_left_e P ik from J shape t d p) (expand_gaps_at_point_left g d p).
  Proof.
    apply answers_obind; [apply r_ii|]. intros q _. apply (r_overlapping_sets (crate_interval P) r_crate_interval q); intros l S.
    apply (r_expand d _ (fun x y => merge_ordered y x)); [intros a b; apply r_merge_ordered|]. intros k s Hi. apply (S k). rewrite in_rev. exact Hi.
  Qed.
  Section Q.
    Context {Q : Type} {IQ : InclusiveInterval I Q} (iq : interval_code W I Q) (RQ : right_intervals iq).
    Lemma r_gaps_no q : answers (gaps_no_identifier_e P ik iq t q) (gaps_no_identifier g q).
    Proof.
      apply answers_obind; [apply r_iip, RQ|]. intros _ _. apply (r_overlapping_sets iq RQ q). intros l _. apply answers_ret.
    Qed.
    Lemma r_inner_gap d q (e : K * list D) : is_set (snd e) -> answers (inner_gap_e J shape kc iq d q e)
      (Val (if valid_identifier d (snd e) && (negb (contains_point (fst e) (istart q)) && negb (contains_point (fst e) (iend q))) then Some (fst e) else None)).
    Proof.
      intros S. eapply answers_bind; [apply r_valid_identifier; assumption|]. destruct (valid_identifier d (snd e)); cbn [negb andb]; [|apply answers_ret].
      eapply answers_bind; [apply (r_start iq RQ)|]. eapply answers_bind; [apply RKC|]. destruct (contains_point (fst e) (istart q)); cbn [negb andb]; [apply answers_ret|].
      eapply answers_bind; [apply (r_end iq RQ)|]. eapply answers_bind; [apply RKC|]. destruct (contains_point (fst e) (iend q)); apply answers_ret.
    Qed.
    Lemma filter_opts (f : K * list D -> bool) (h : K -> bool) (l : list (K * list D)) :
      concat (map opt_list (map (fun e => if f e && h (fst e) then Some (fst e) else None) l)) = filter h (map fst (filter f l)).
    Proof.
      induction l as [|e l IH]; [reflexivity|]. cbn. rewrite IH. destruct (f e); cbn; [|reflexivity]. destruct (h (fst e)); reflexivity.
    Qed.
    Lemma some_opts (l : list K) : concat (map opt_list (map Some l)) = l.
    Proof. induction l as [|x l IH]; cbn; [reflexivity|]. rewrite IH. reflexivity. Qed.
    Lemma some_steps (l : list K) : Forall2 (fun x o => answers (W := W) x (Val o)) (map (fun k => uret (Some k)) l) (map Some l).
    Proof. induction l; cbn; constructor; [apply answers_ret|assumption]. Qed.
    Lemma r_gaps_with d q : answers (gaps_with_identifier_e P ik from J shape kc iq t d q) (gaps_with_identifier g d q).
    Proof.
      apply answers_obind; [apply r_iip, RQ|]. intros _ _. apply (r_overlapping_sets iq RQ q). intros l S.
      eapply answers_bind; [apply (r_start iq RQ)|]. apply answers_obind; [apply r_expand_left|]. intros left_ _.
      eapply answers_bind; [apply (r_end iq RQ)|]. apply answers_obind; [apply r_expand_right|]. intros right_ _.
      apply answers_obind.
      - destruct left_ as [a|]; [|apply answers_ret]. destruct right_ as [b|]; [|apply answers_ret]. eapply answers_bind; [apply r_overlaps_ordered|].
        destruct (overlaps_ordered a b); [|apply answers_ret]. pose proof (r_merge_ordered a b) as X. intros w. unfold ubind. specialize (X w).
        destruct (merge_ordered_e P ik from a b w) as [o w1]. cbn [fst] in X. subst o. destruct (merge_ordered a b); reflexivity.
      - intros [a b] _.
        rewrite <- (some_opts (opt_list a)) at 2. rewrite <- (some_opts (opt_list b)) at 2. rewrite <- filter_opts, <- !concat_app, <- !map_app.
        apply r_coalesce.
        + intros x y. apply answers_obind; [apply r_touches_ordered|]. intros [|] _; [|apply answers_ret]. pose proof (r_merge_ordered x y) as X. intros w. unfold ubind. specialize (X w).
          destruct (merge_ordered_e P ik from x y w) as [o w1]. cbn [fst] in X. subst o. destruct (merge_ordered x y); reflexivity.
        + repeat apply Forall2_app; [apply some_steps| |apply some_steps]. clear -S RQ RKC RJ SF OL. induction l as [|[k s] l IH]; cbn [map]; constructor.
          * apply (r_inner_gap d q (k, s)). apply (S k). left. reflexivity.
          * apply IH. intros k0 s0 Hi. apply (S k0). right. exact Hi.
    Qed.
  End Q.
  Lemma r_at_point p : answers (identifiers_at_point_e P ik from J t p) (identifiers_at_point g p).
  Proof.
    unfold identifiers_at_point, get_at_point. intros w. unfold identifiers_at_point_e, ubind.
    pose proof (r_get_at bset_eqb P RP ik RK _ r_set_code g t p (GWF_WF g Gg) Et w) as X. destruct (get_key_value_at_point_e _ _ _ _ _ w) as [o w1]. cbn [fst] in X. subst o.
    destruct (get_key_value_at_point g p) as [[[k s]|k]|]; [|reflexivity|reflexivity]. apply (r_set_clone J RJ).
  Qed.
End Maps.

Ltac plain_sets := unfold BTreeSet, Gqdit in *.
Section Changes.
  Context {W I : Type} `{PL : PointLaws I}.
  Context {K : Type} {IK : InclusiveInterval I K} {IL : IntervalLaws I K}.
  Context {D : Type} {OD : Ord D} {OL : OrdLaws D}.
  Context (P : point_code W I) (RP : right_points P) (ik : interval_code W I K) (RK : right_intervals ik).
  Context (from : Interval I -> user W K) (RF : forall i, answers (from i) (Val (ifrom i))).
  Context (J : id_code W D) (RJ : right_ids J) (shape : W -> list D -> tree D unit) (SF : faithful_sets shape).
  Context (overlaps_k : K -> K -> user W bool) (RO : right_overlaps overlaps_k).
  Implicit Types (g : Gqdit K D) (s : list D).
  Notation RC := (r_set_code from RF J RJ).
  Lemma r_new T : (forall i, faithful (T i)) -> answers (gqdit_new_e P ik from T) (gqdit_new (K := K) (D := D)).
  Proof.
    intros TF. apply answers_obind; [apply (r_ii P RP)|]. intros u _. eapply answers_bind; [apply RF|]. intros w.
    pose proof (r_insert_strict P RP ik RK (T 0) (TF 0) new (ifrom u) [] ltac:(apply reachable_WF; exists []; reflexivity) w) as X.
    destruct (insert_strict_e P ik (T 0) (ifrom u) [] new w) as [[m o] w1]. cbn [fst] in X. change (BTreeSet D) with (list D). change (bset_empty (D := D)) with (@nil D). rewrite <- X. destruct o as [[x|x]|]; reflexivity.
  Qed.
  Lemma r_reinsert T update' update l : (forall i, faithful (T i)) -> (forall k s, In (k, s) l -> answers (update' s) (Val (update s))) ->
    forall g, WF g -> gives (reinsert_e P ik from J overlaps_k T update' l g) (reinsert update l g).
  Proof.
    intros TF. induction l as [|[k s] l IH]; intros U g Wg; [apply gives_ret|]. cbn [reinsert_e reinsert].
    eapply gives_bind; [apply (U k); left; reflexivity|]. intros w. unfold mthen.
    pose proof (r_merge_equal bset_eqb P RP ik RK _ RC overlaps_k RO (T (S (length l))) (TF _) g k (update s) Wg w) as X.
    pose proof (step_WF g (OpInsertMergeTouchingIfValuesEqual bset_eqb k (update s)) Wg) as Ws. cbn [step] in Ws.
    change (BTreeSet D) with (list D) in *. change (Gqdit K D) with (NoditMap K (list D)) in *.
    destruct (insert_merge_touching_if_values_equal_e P ik (set_code from J) overlaps_k (T (S (length l))) k (update s) g w) as [[g1 o] w1]. cbn [fst] in X.
    rewrite <- X in *. cbn [fst] in Ws.
    destruct o as [[r|e]|]; [|reflexivity|reflexivity]. apply IH; [|exact Ws]. intros k0 s0 Hi. apply (U k0). right. exact Hi.
  Qed.
  Section Q.
    Context {Q : Type} {IQ : InclusiveInterval I Q} (iq : interval_code W I Q) (RQ : right_intervals iq) (k_overlaps : K -> Q -> user W bool) (RKO : right_overlaps k_overlaps).
    Lemma r_cut_update T update' update q g : (forall i, faithful (T i)) -> (forall s, is_set s -> answers (update' s) (Val (update s))) -> GWF g -> valid q ->
      gives (cut_update_e P ik from J overlaps_k iq k_overlaps T update' q g) (cut_update update q g).
    Proof.
      intros TF U G Vq w. unfold cut_update_e, cut_update, mthen. destruct (cut_GP q g G Vq) as (g1 & l & E & (W1 & _) & _ & Sl & _).
      pose proof (r_cut bset_eqb P RP ik RK _ RC iq RQ k_overlaps RKO g (T 0 0 g) q (GWF_WF g G) (TF 0 0 g) w) as X. rewrite E in X.
      change (BTreeSet D) with (list D) in *. change (Gqdit K D) with (NoditMap K (list D)) in *.
      destruct (cut_e P ik (set_code from J) iq k_overlaps q (T 0 0 g) w) as [[g2 o] w1]. cbn [fst] in X. injection X as -> ->. rewrite E.
      apply r_reinsert; [exact TF| |exact W1]. intros k s Hi. apply U. apply (Sl k s Hi).
    Qed.
    Lemma r_cut_with T ids q g : (forall i, faithful (T i)) -> is_set ids -> GWF g ->
      gives (cut_with_identifiers_e P ik from J shape overlaps_k iq k_overlaps T ids q g) (cut_with_identifiers ids q g).
    Proof.
      intros TF Si G. unfold cut_with_identifiers_e, cut_with_identifiers. destruct (valid_dec q) as [Vq|Nq].
      - eapply gives_bind; [rewrite <- (iip_valid _ Vq); apply r_iip, RQ|]. rewrite (iip_valid _ Vq). destruct (bset_is_empty ids); [apply gives_ret|].
        apply r_cut_update; [exact TF| |exact G|exact Vq]. intros s _. apply r_set_remove; assumption.
      - rewrite (iip_invalid _ Nq). intros w. unfold mbind. pose proof (r_iip iq RQ q w) as X. rewrite (iip_invalid _ Nq) in X.
        destruct (invalid_interval_panic_e iq q w) as [o w1]. cbn [fst] in X. subst o. reflexivity.
    Qed.
    Lemma r_cut_all T q g : (forall i, faithful (T i)) -> GWF g ->
      gives (cut_all_identifiers_e P ik from J overlaps_k iq k_overlaps T q g) (cut_all_identifiers q g).
    Proof.
      intros TF G. unfold cut_all_identifiers_e, cut_all_identifiers. destruct (valid_dec q) as [Vq|Nq].
      - eapply gives_bind; [rewrite <- (iip_valid _ Vq); apply r_iip, RQ|]. rewrite (iip_valid _ Vq).
        apply r_cut_update; [exact TF| |exact G|exact Vq]. intros s _. apply answers_ret.
      - rewrite (iip_invalid _ Nq). intros w. unfold mbind. pose proof (r_iip iq RQ q w) as X. rewrite (iip_invalid _ Nq) in X.
        destruct (invalid_interval_panic_e iq q w) as [o w1]. cbn [fst] in X. subst o. reflexivity.
    Qed.
  End Q.
  Lemma r_gqdit_insert T ids q g : (forall i, faithful (T i)) -> GWF g ->
    gives (gqdit_insert_e P ik from J shape overlaps_k T ids q g) (gqdit_insert ids q g).
  Proof.
    intros TF G. unfold gqdit_insert_e, gqdit_insert. destruct (valid_dec q) as [Vq|Nq].
    - eapply gives_bind; [rewrite <- (iip_valid _ Vq); apply r_iip, RK|]. rewrite (iip_valid _ Vq). destruct (bset_is_empty ids); [apply gives_ret|].
      apply r_cut_update; [exact RK|exact RO|exact TF| |exact G|exact Vq]. intros s Ss. apply r_extend_cloned; assumption.
    - rewrite (iip_invalid _ Nq). intros w. unfold mbind. pose proof (r_iip ik RK q w) as X. rewrite (iip_invalid _ Nq) in X.
      destruct (invalid_interval_panic_e ik q w) as [o w1]. cbn [fst] in X. subst o. reflexivity.
  Qed.
  Lemma insert_GWF ids q g : is_set ids -> GWF g -> GWF (fst (gqdit_insert ids q g)).
  Proof.
    intros Si G. unfold gqdit_insert. destruct (valid_dec q) as [Vq|Nq]; [rewrite (iip_valid _ Vq)|rewrite (iip_invalid _ Nq); exact G]. destruct (bset_is_empty ids); [exact G|].
    destruct (cut_update_spec (fun s : BTreeSet D => bset_extend s ids) q g (extend_set ids) G Vq) as (g' & E & G' & _). unfold BTreeSet in *. rewrite E. exact G'.
  Qed.
  Lemma r_append_loop T l : (forall j i, faithful (T j i)) -> sets l -> forall g, GWF g -> gives (append_loop_e P ik from J shape overlaps_k T l g) (append_loop l g).
  Proof.
    intros TF. induction l as [|[k s] l IH]; intros Sl g G; [apply gives_ret|]. cbn [append_loop_e append_loop]. intros w. unfold mthen.
    pose proof (r_gqdit_insert (T (length l)) s k g (TF _) G w) as X. pose proof (insert_GWF s k g (Sl k s (or_introl eq_refl)) G) as G1.
      plain_sets. destruct (gqdit_insert_e P ik from J shape overlaps_k (T (length l)) s k g w) as [[g1 o] w1]. cbn [fst] in X. rewrite <- X in *. cbn [fst] in G1.
    destruct o as [u|]; [|reflexivity]. apply IH; [|exact G1]. intros k0 s0 Hi. apply (Sl k0). right. exact Hi.
  Qed.
  Context (i_overlaps : Interval I -> K -> user W bool) (RIO : right_overlaps i_overlaps).
  Lemma r_append To T g other w : (forall m, entries (To m) = m) -> (forall j i, faithful (T j i)) -> GWF g -> WF other -> sets other ->
    fst (append_e P ik from J shape overlaps_k i_overlaps To T g other w) = append g other.
  Proof.
    intros TF TF' G Wo So. unfold append_e, append. pose proof (r_ii P RP MIN MAX w) as X. destruct (ii_e P MIN MAX w) as [o w1]. cbn [fst] in X. subst o. change (ii MIN MAX) with (uu (I := I)).
    destruct (uu (I := I)) as [u|]; [|reflexivity].
    pose proof (r_remove_overlapping P RP ik RK _ (r_crate_interval P RP) i_overlaps RIO other (To other) u Wo (TF other) w1) as X.
      plain_sets. destruct (remove_overlapping_e P ik (crate_interval P) i_overlaps u (To other) w1) as [[other1 o] w2] eqn:E. cbn [fst] in X. change (BTreeSet D) with (list D) in *. rewrite <- X.
    apply remove_any in E. rewrite TF in E. destruct E as (a & out & b & -> & -> & Y). destruct o as [l|]; [|reflexivity]. subst l.
    assert (Sl : sets out) by (intros k s Hi; apply (So k); rewrite !in_app_iff; auto).
    pose proof (r_append_loop T out TF' Sl g G w2) as Z. plain_sets. destruct (append_loop_e P ik from J shape overlaps_k T out g w2) as [[g1 o] w3]. cbn [fst] in Z. rewrite <- Z. reflexivity.
  Qed.

  (** *** Histories *)
  Context (T : list nat -> nat -> BTreeMap K (list D) -> tree K (list D)) (TF : forall path, faithful (T path)).
  Notation gdo := (gcall_do P ik from J shape overlaps_k i_overlaps T).
  Notation gdos := (gcalls_do P ik from J shape overlaps_k i_overlaps T).
  Lemma gstep_reach (c : gop I K D) g : greachable g -> greachable (gstep c g).
  Proof. intros [os ->]. exists (os ++ [c]). unfold grun, gsteps. rewrite fold_left_app. reflexivity. Qed.
  Lemma new_gnew : gqdit_new (K := K) (D := D) = Val gnew.
  Proof. unfold gnew. rewrite new_val. reflexivity. Qed.
  Lemma r_gcall c : gives_sets c -> forall path g w, greachable g -> fst (gdo path c g w) = gstep (as_gop c) g.
  Proof.
    revert c. fix IH 1. intros c Sc path g w R. pose proof (greachable_GWF g R) as G. destruct c as [ids k|ids q|q|cs].
    - cbn [gcall_do as_gop gstep]. inversion Sc as [? ? Si| | |]; subst. rewrite (collect_id ids Si).
      pose proof (r_gqdit_insert (fun i => T (i :: path)) ids k g (fun i => TF _) G w) as X.
      plain_sets. destruct (gqdit_insert_e _ _ _ _ _ _ _ ids k g w) as [[g1 o] w1]. cbn [fst] in *. rewrite <- X. reflexivity.
    - cbn [gcall_do as_gop gstep]. inversion Sc as [|? ? Si| |]; subst. rewrite (collect_id ids Si).
      pose proof (r_cut_with ik RK overlaps_k RO (fun i => T (i :: path)) ids q g (fun i => TF _) Si G w) as X.
      plain_sets. destruct (cut_with_identifiers_e _ _ _ _ _ _ _ _ _ ids q g w) as [[g1 o] w1]. cbn [fst] in *. rewrite <- X. reflexivity.
    - cbn [gcall_do as_gop gstep].
      pose proof (r_cut_all ik RK overlaps_k RO (fun i => T (i :: path)) q g (fun i => TF _) G w) as X.
      plain_sets. destruct (cut_all_identifiers_e _ _ _ _ _ _ _ _ q g w) as [[g1 o] w1]. cbn [fst] in *. rewrite <- X. reflexivity.
    - rewrite gcall_do_append. cbn [as_gop gstep]. inversion Sc as [| | |? Fc]; subst. clear Sc.
      pose proof (r_new (fun i => T (0 :: i :: path)) (fun i => TF _) w) as N. rewrite new_gnew in N. destruct (gqdit_new_e _ _ _ _ w) as [o w1]. cbn [fst] in N. subst o.
      assert (Z : forall path g w, greachable g -> fst (gdos cs path g w) = fold_left (fun g o => gstep o g) (map as_gop cs) g /\ greachable (fold_left (fun g o => gstep o g) (map as_gop cs) g)).
      { clear R G. induction cs as [|c cs IHcs]; intros p0 g0 w0 R; [split; [reflexivity|exact R]|]. cbn [gcalls_do map fold_left]. inversion Fc; subst.
        pose proof (IH c ltac:(assumption) (length cs :: p0) g0 w0 R) as X. destruct (gdo (length cs :: p0) c g0 w0) as [g3 w3]. cbn [fst] in X. subst g3.
        apply IHcs; [assumption|apply gstep_reach, R]. }
      destruct (Z (1 :: path) gnew w1 (ex_intro _ [] eq_refl)) as [X Ro]. destruct (gdos cs (1 :: path) gnew w1) as [other w2]. cbn [fst] in X. subst other.
      pose proof (greachable_GWF _ Ro) as Go.
      pose proof (r_append (T (2 :: path) 0) (fun j i => T (j :: i :: 3 :: path)) g _ w2 (TF _ 0) (fun j i => TF _) G (GWF_WF _ Go) (GWF_sets _ Go)) as A.
      plain_sets. destruct (append_e _ _ _ _ _ _ _ _ _ g _ w2) as [[[g1 other1] o] w3]. cbn [fst] in A. rewrite <- A. reflexivity.
  Qed.
  Lemma r_ghistory cs w : Forall gives_sets cs -> fst (ghistory P ik from J shape overlaps_k i_overlaps T cs w) = Val (grun (map as_gop cs)).
  Proof.
    intros Fc. unfold ghistory. pose proof (r_new (fun i => T [i]) (fun i => TF _) w) as N. rewrite new_gnew in N. destruct (gqdit_new_e _ _ _ _ w) as [o w1]. cbn [fst] in N. subst o.
    assert (Z : forall path g w, greachable g -> fst (gdos cs path g w) = gsteps (map as_gop cs) g).
    { induction Fc as [|c cs Sc Fc IH]; intros p0 g0 w0 R; [reflexivity|]. cbn [gcalls_do map]. unfold gsteps. cbn [fold_left].
      pose proof (r_gcall c Sc (length cs :: p0) g0 w0 R) as X. destruct (gdo (length cs :: p0) c g0 w0) as [g3 w3]. cbn [fst] in X. subst g3. apply IH, gstep_reach, R. }
    specialize (Z [] gnew w1 (ex_intro _ [] eq_refl)). destruct (gdos cs [] gnew w1) as [g1 w2]. cbn [fst] in *. subst g1. reflexivity.
  Qed.
End Changes.
