(** * EffectMoreRight: user code with side effects but the right answers; facts behind C161. *)
From Coq Require Import List Bool ZArith Arith Lia.
From Verif Require Import Base BTree UtilsModel IntervalModel NoditModel NoditSetModel NoditOps NoditSetOps Spec TreeShape TreeFacts NoditFacts NoditInv NoditGaps NoditSetFacts IntervalFacts
  TreeProofs LooksOps LooksFacts EffectModel EffectOps EffectFacts EffectRight EffectGqditModel EffectGqditRight EffectBulkModel EffectBulkFacts EffectMoreModel EffectMoreOps EffectMoreFacts.
Import ListNotations.
Open Scope nat_scope.

Section Interval.
  Context {W I : Type} `{PL : PointLaws I} (P : point_code W I) (RP : right_points P).
  Lemma r_default_code {X} {IX : InclusiveInterval I X} (start end_ : X -> user W I) :
    (forall x, answers (start x) (Val (istart x))) -> (forall x, answers (end_ x) (Val (iend x))) -> right_intervals (default_code P start end_).
  Proof.
    intros RS RE x. split; [apply RS|]. split; [apply RE|]. eapply answers_bind; [apply RS|]. eapply answers_bind; [apply RE|]. apply (r_le P RP).
  Qed.
  Section Methods.
    Context {A B : Type} {IA : InclusiveInterval I A} {IB : InclusiveInterval I B} (ia : interval_code W I A) (ib : interval_code W I B) (RA : right_intervals ia) (RB : right_intervals ib).
    Lemma r_d_contains_point a p : answers (default_contains_point_e P ia a p) (Val (contains_point a p)).
    Proof.
      eapply answers_bind; [apply (r_start ia RA)|]. eapply answers_bind; [apply (r_ge P RP)|]. unfold contains_point. destruct (geb p (istart a)); [|apply answers_ret].
      eapply answers_bind; [apply (r_end ia RA)|]. apply (r_le P RP).
    Qed.
    Lemma r_d_contains_interval a b : answers (default_contains_interval_e P ia ib a b) (Val (contains_interval a b)).
    Proof.
      eapply answers_bind; [apply (r_start ia RA)|]. eapply answers_bind; [apply (r_start ib RB)|]. eapply answers_bind; [apply (r_le P RP)|].
      unfold contains_interval. destruct (leb (istart a) (istart b)); [|apply answers_ret]. eapply answers_bind; [apply (r_end ia RA)|]. eapply answers_bind; [apply (r_end ib RB)|]. apply (r_ge P RP).
    Qed.
    Lemma r_d_singular a : answers (default_is_singular_e P ia a) (Val (is_singular a)).
    Proof. eapply answers_bind; [apply (r_start ia RA)|]. eapply answers_bind; [apply (r_end ia RA)|]. apply (r_eq P RP). Qed.
    Lemma r_d_intersection max min from a b : (forall x y, answers (max x y) (Val (omax x y))) -> (forall x y, answers (min x y) (Val (omin x y))) ->
      (forall i, answers (from i) (Val (ifrom i))) -> answers (default_intersection_e P ia ib max min from a b) (Val (intersection a b)).
    Proof.
      intros RMax RMin RF. eapply answers_bind; [apply (r_start ia RA)|]. eapply answers_bind; [apply (r_start ib RB)|]. eapply answers_bind; [apply RMax|].
      eapply answers_bind; [apply (r_end ia RA)|]. eapply answers_bind; [apply (r_end ib RB)|]. eapply answers_bind; [apply RMin|]. eapply answers_bind; [apply (r_le P RP)|].
      unfold intersection. destruct (leb _ _); [|apply answers_ret]. eapply answers_bind; [apply RF|]. apply answers_ret.
    Qed.
    Lemma r_d_overlaps : right_overlaps (default_overlaps_e P ia ib).
    Proof.
      intros a b. unfold default_overlaps_e, overlaps, sorted_config_e, sorted_config. apply answers_obind.
      - eapply answers_bind; [apply (r_start ia RA)|]. eapply answers_bind; [apply (r_end ia RA)|]. eapply answers_bind; [apply (r_start ib RB)|]. eapply answers_bind; [apply (r_end ib RB)|].
        apply answers_obind; [apply (r_config P RP ia ib RA RB)|]. intros [| | | | |] _; apply answers_ret.
      - intros [? ?|? ?|? ?] _; apply answers_ret.
    Qed.
    Lemma r_d_translate add add' from a d : (forall x y, answers (add' x y) (add x y)) -> (forall i, answers (from i) (Val (ifrom i))) ->
      answers (default_translate_e ia add' from a d) (translate add a d).
    Proof.
      intros RD RF. eapply answers_bind; [apply (r_start ia RA)|]. apply answers_obind; [apply RD|]. intros s _. eapply answers_bind; [apply (r_end ia RA)|]. apply answers_obind; [apply RD|]. intros e _. apply RF.
    Qed.
    Lemma r_d_width sub sub' a : (forall x y, answers (sub' x y) (sub x y)) -> answers (default_width_e ia sub' a) (width sub a).
    Proof. intros RD. eapply answers_bind; [apply (r_end ia RA)|]. eapply answers_bind; [apply (r_start ia RA)|]. apply RD. Qed.
  End Methods.
  Lemma r_up_e x : answers (up_e P x) (unwrap (up x)). Proof. eapply answers_bind; [apply (r_up P RP)|]. apply answers_out. Qed.
  Lemma r_down_e x : answers (down_e P x) (unwrap (down x)). Proof. eapply answers_bind; [apply (r_down P RP)|]. apply answers_out. Qed.
  Lemma r_ue x : answers (ue_e P x) (ue x). Proof. apply answers_obind; [apply r_down_e|]. intros d _. apply (r_ii P RP). Qed.
  Lemma r_eu x : answers (eu_e P x) (eu x). Proof. apply answers_obind; [apply r_up_e|]. intros d _. apply (r_ii P RP). Qed.
  Lemma r_ie x y : answers (ie_e P x y) (ie x y). Proof. apply answers_obind; [apply r_down_e|]. intros d _. apply (r_ii P RP). Qed.
  Lemma r_ei x y : answers (ei_e P x y) (ei x y). Proof. apply answers_obind; [apply r_up_e|]. intros d _. apply (r_ii P RP). Qed.
  Lemma r_ee x y : answers (ee_e P x y) (ee x y).
  Proof. apply answers_obind; [apply r_up_e|]. intros u _. apply answers_obind; [apply r_down_e|]. intros d _. apply (r_ii P RP). Qed.
  Lemma r_range_from i : answers (range_from_e P i) (range_from i).
  Proof. apply answers_obind; [apply r_up_e|]. intros u _. apply answers_ret. Qed.
End Interval.

Lemma iip_cases {I} `{PL : PointLaws I} {Q} {IQ : InclusiveInterval I Q} (q : Q) : (valid q /\ invalid_interval_panic q = Val tt) \/ (~ valid q /\ invalid_interval_panic q = Panic).
Proof. destruct (IntervalFacts.valid_dec q) as [X|X]; [left|right]; (split; [exact X|]); [apply IntervalFacts.iip_valid, X|apply IntervalFacts.iip_invalid, X]. Qed.

Section Map.
  Context {W I : Type} `{PL : PointLaws I} {K : Type} {IK : InclusiveInterval I K} {IL : IntervalLaws I K} {V : Type} (veq : V -> V -> bool).
  Context (P : point_code W I) (RP : right_points P) (ik : interval_code W I K) (RK : right_intervals ik) (C : entry_code W I K V) (RC : right_entries veq C).
  Implicit Types (m : NoditMap K V) (t : tree K V).
  Lemma r_get_at_point m t p : WF m -> entries t = m -> answers (get_at_point_e P ik C t p) (get_at_point m p).
  Proof. intros Wm E. apply answers_obind; [apply (r_get_at veq P RP ik RK C RC); assumption|]. intros [[k v]|g] _; apply answers_ret. Qed.
  Lemma r_contains_point m t p : WF m -> entries t = m -> answers (map_contains_point_e P ik C t p) (map_contains_point m p).
  Proof. intros Wm E. apply answers_obind; [apply (r_get_at veq P RP ik RK C RC); assumption|]. intros [[k v]|g] _; apply answers_ret. Qed.

  Lemma r_any_inner (l : list (K * V)) gs : inner_gaps l = Val gs -> answers (any_inner_gap_e P ik C l) (Val (match gs with [] => false | _ => true end)).
  Proof.
    destruct l as [|e l]; [intros E; injection E as <-; apply answers_ret|]. cbn [any_inner_gap_e]. intros E. eapply answers_bind; [apply (r_bounds ik RK)|]. revert e gs E.
    induction l as [|x l IH]; intros e gs; [intros E; injection E as <-; apply answers_ret|]. cbn [any_window_e]. change (inner_gaps (e :: x :: l)) with
      (let? u := unwrap (up (iend (fst e))) in let? d := unwrap (down (istart (fst x))) in
       let g := ifrom (mkInterval u d) : K in let? gs := inner_gaps (x :: l) in Val (if is_valid g then g :: gs else gs)).
    pose proof (r_up_e P RP (iend (fst e))) as Ru. pose proof (r_down_e P RP (istart (fst x))) as Rd.
    destruct (unwrap (up (iend (fst e)))) as [u|]; [|discriminate]. destruct (unwrap (down (istart (fst x)))) as [d|]; [|discriminate]. cbn [obind]. cbv zeta.
    destruct (inner_gaps (x :: l)) as [gs'|] eqn:Eg; [|discriminate]. cbn [obind]. intros E. injection E as <-.
    eapply answers_bind; [apply (r_bounds ik RK)|]. eapply answers_bind; [exact Ru|]. eapply answers_bind; [exact Rd|]. eapply answers_bind; [apply (r_from veq C RC)|].
    eapply answers_bind; [apply (r_valid ik RK)|]. destruct (is_valid _); [apply answers_ret|]. apply IH. exact Eg.
  Qed.
  Section Q.
    Context {Q : Type} {IQ : InclusiveInterval I Q} (iq : interval_code W I Q) (RQ : right_intervals iq).
    Lemma r_contains_interval m t q : WF m -> entries t = m -> answers (map_contains_interval_e P ik C iq t q) (map_contains_interval m q).
    Proof.
      intros Wm E. unfold map_contains_interval_e, map_contains_interval. apply answers_obind; [apply r_iip, RQ|]. intros [] V1.
      destruct (iip_cases q) as [[Vq _]|[_ N]]; [|rewrite N in V1; discriminate].
      pose proof (gaps_total m q Wm Vq) as (GT & _). unfold gaps_untrimmed in *. pose proof (r_iip iq RQ q) as RI. rewrite V1 in *. cbn [obind] in *. eapply answers_bind; [exact RI|].
      pose proof (r_end_gap P RP ik RK m t (e_start iq q) (istart q) Wm E (r_start iq RQ q)) as R1. destruct (end_gap m (istart q)) as [sg|]; [|exfalso; apply GT; reflexivity]. cbn [obind] in *.
      eapply answers_bind; [exact R1|].
      pose proof (r_end_gap P RP ik RK m t (e_end iq q) (iend q) Wm E (r_end iq RQ q)) as R2. destruct (end_gap m (iend q)) as [eg|]; [|exfalso; apply GT; reflexivity]. cbn [obind] in *.
      eapply answers_bind; [exact R2|].
      assert (Tail : forall sg eg, (let? o := overlapping m q in let? i := inner_gaps o in Val (opt_list (option_map (ifrom : _ -> K) sg) ++ i ++ opt_list (option_map ifrom eg))) <> Panic ->
        answers (do! overlapping := overlapping_e P ik iq t q in do! start_gap := from_e C sg in do! end_gap := from_e C eg in
          match start_gap with
          | _ :: _ => uret false
          | [] => do! b := any_inner_gap_e P ik C overlapping in uret (if b then false else match end_gap with [] => true | _ :: _ => false end)
          end)
        (let? g := (let? o := overlapping m q in let? i := inner_gaps o in Val (opt_list (option_map ifrom sg) ++ i ++ opt_list (option_map ifrom eg))) in Val (match g with [] => true | _ => false end))).
      { intros sg' eg' NP. pose proof (r_overlapping P RP ik RK iq RQ m t q Wm E) as RO. destruct (overlapping m q) as [l|]; [|exfalso; apply NP; reflexivity]. cbn [obind] in *.
        eapply answers_bind; [exact RO|]. destruct (inner_gaps l) as [gs|] eqn:Eg; [|exfalso; apply NP; reflexivity]. cbn [obind].
        eapply answers_bind; [apply (r_from_list veq C RC)|]. eapply answers_bind; [apply (r_from_list veq C RC)|].
        destruct sg' as [s|]; cbn [option_map opt_list app]; [apply answers_ret|]. eapply answers_bind; [apply (r_any_inner l gs Eg)|]. destruct gs; [|apply answers_ret]. destruct eg'; apply answers_ret. }
      destruct sg as [s|], eg as [e|].
      - pose proof (r_eq P RP (ivl_start s) (ivl_start e)) as RE. destruct (eqb (ivl_start s) (ivl_start e)); (eapply answers_bind; [eapply answers_bind; [exact RE|apply answers_ret]|]); cbv iota; apply Tail; exact GT.
      - eapply answers_bind; [apply answers_ret|]. apply Tail; exact GT.
      - eapply answers_bind; [apply answers_ret|]. apply Tail; exact GT.
      - eapply answers_bind; [apply answers_ret|]. apply Tail; exact GT.
    Qed.

    Context (f : edit (W := W) (K := K) (V := V)) (g : K -> V -> V) (RG : right_edit f g).
    Lemma r_edit_all l : forall pre post, gives (edit_all f pre l post) (pre ++ map_values g l ++ post, Val tt).
    Proof.
      induction l as [|[k v] l IH]; intros pre post; cbn [edit_all]; [apply gives_ret|]. intros w. specialize (RG k v w). destruct (f k v w) as [[v' o] w1]. cbn [fst] in RG.
      injection RG as -> ->. rewrite IH, <- app_assoc. reflexivity.
    Qed.
    Lemma r_overlapping_mut m t q : WF m -> entries t = m -> gives (overlapping_mut_e P ik iq f q t) (overlapping_mut g q m).
    Proof.
      intros Wm E. destruct (iip_cases q) as [[Vq Ei]|[Nq Ei]].
      2:{ unfold overlapping_mut. rewrite Ei. pose proof (r_iip iq RQ q) as RI. rewrite Ei in RI. intros w. specialize (RI w). unfold overlapping_mut_e, mbind.
          destruct (invalid_interval_panic_e iq q w) as [o w1]. cbn [fst] in RI. rewrite RI, E. reflexivity. }
      pose proof (proj1 (valid_rk q) Vq) as Vr. destruct (split3 m (lo q) (hi q) Wm) as (A & M & B & Em & HA & HM & HB); [exact Vr|].
      assert (EM : overlapping_mut g q m = (A ++ map_values g M ++ B, Val tt)) by (rewrite Em in *; apply overlapping_mut_split; assumption). rewrite EM. clear EM.
      pose proof (r_overlapping P RP ik RK iq RQ m t q Wm E) as RO. assert (EO : overlapping m q = Val M) by (rewrite Em in *; apply overlapping_split; assumption). rewrite EO in RO.
      pose proof (r_iip iq RQ q) as RI. rewrite Ei in RI. eapply gives_bind; [exact RI|]. eapply gives_bind; [apply (r_start iq RQ)|]. eapply gives_bind; [apply (r_end iq RQ)|].
      pose proof (r_search (V := V) _ _ (r_overlapping_comp P RP ik RK (istart q))) as [S1 _]. pose proof (r_search (V := V) _ _ (r_overlapping_comp P RP ik RK (iend q))) as [S2 _].
      assert (Lt : t_range (overlapping_comp (istart q)) (overlapping_comp (iend q)) t = M).
      { rewrite (orderly_range_shape_free _ _ _ (orderly_ol (istart q) m Wm) (orderly_ol (iend q) m Wm) t E).
        unfold overlapping in EO. rewrite Ei in EO. cbn [obind] in EO. injection EO as EO. exact EO. }
      assert (La : exists x b, search (overlapping_comp (istart q)) t = (A, x, b)).
      { rewrite search_seek by (rewrite E; apply orderly_ol; exact Wm). rewrite E. unfold seek_place. rewrite Em in *. rewrite seek_split; [|exact Wm|exact HA|].
        - destruct (M ++ B) as [|kv r]; [eauto|]. destruct (overlapping_comp _ (fst kv)); eauto.
        - apply WF_app in Wm. destruct Wm as (_ & Wm & _). apply WF_app in Wm. destruct Wm as (_ & [_ VB] & _). rewrite Forall_app. split; rewrite Forall_forall in *; intros x Hx.
          + specialize (HM x Hx). unfold meets, lo in *. lia.
          + specialize (HB x Hx). specialize (VB x Hx). unfold right_of, okv, lo, hi in *. lia. }
      destruct La as (xa & ba & La). eapply gives_bind; [apply S1|]. unfold t_range in Lt. rewrite La in *. eapply gives_bind; [apply S2|].
      destruct (search (overlapping_comp (iend q)) t) as [[a' x'] b']. cbv beta iota zeta. rewrite E in *. set (n2 := length a' + (if is_some x' then 1 else 0)) in *. rewrite Lt.
      pose proof (three_parts (length A) n2 m) as TP. rewrite Lt in TP. assert (FA : firstn (length A) m = A) by (rewrite Em; apply firstn_app_exact). rewrite FA in *.
      rewrite Em in TP at 2. apply app_inv_head in TP. apply app_inv_head in TP. rewrite TP. apply r_edit_all.
    Qed.
    Lemma r_get_mut p m t : WF m -> entries t = m -> right_edit f (fun k v => g k v) ->
      forall h, (forall k v, g k v = h v) -> gives (get_at_point_mut_e P ik f p t) (let (m', r) := get_at_point_mut h p m in (m', Val r)).
    Proof.
      intros Wm E _ h Gh. pose proof (r_search (V := V) _ _ (r_overlapping_comp P RP ik RK p)) as [S1 _]. eapply gives_bind; [apply S1|].
      rewrite search_seek by (rewrite E; apply orderly_ol; exact Wm). rewrite E. unfold seek_place, get_at_point_mut, get_mut. destruct (seek (overlapping_comp p) m) as [a [|[k v] b]]; [apply gives_ret|]. cbn [fst].
      destruct (overlapping_comp p k); [|apply gives_ret|apply gives_ret].
      intros w. unfold mthen. pose proof (r_edit_all [(k, v)] a b w) as RE. destruct (edit_all f a [(k, v)] b w) as [[m1 o] w1]. cbn [fst] in RE. injection RE as -> ->. cbn [mret fst map_values map snd app].
      rewrite Gh. reflexivity.
    Qed.
  End Q.
End Map.

Section Set_.
  Context {W I : Type} `{PL : PointLaws I} {K : Type} {IK : InclusiveInterval I K} {IL : IntervalLaws I K}.
  Context (P : point_code W I) (RP : right_points P) (ik : interval_code W I K) (RK : right_intervals ik) (from : Interval I -> user W K) (RF : forall i, answers (from i) (Val (ifrom i))).
  Lemma r_unit_code : right_entries (fun _ _ => true) (unit_code from).
  Proof. split; [exact RF|]. split; intros; apply answers_ret. Qed.
  Lemma gives_firsts (x : changing W K unit (list (K * unit))) m o : gives x (m, o) -> gives (mthen x (fun s l => mret s (Val (map first l)))) (m, omap (map first) o).
  Proof. intros G w. specialize (G w). unfold mthen. destruct (x w) as [[m' o'] w1]. cbn [fst] in G. injection G as -> ->. destruct o; reflexivity. Qed.
  Section Q.
    Context {Q : Type} {IQ : InclusiveInterval I Q} (iq : interval_code W I Q) (RQ : right_intervals iq).
    Lemma r_set_remove q_overlaps s t q : right_overlaps q_overlaps -> WF s -> entries t = s -> gives (set_remove_overlapping_e P ik iq q_overlaps q t) (set_remove_overlapping q s).
    Proof.
      intros RO Ws E. unfold set_remove_overlapping. pose proof (r_remove_overlapping P RP ik RK iq RQ q_overlaps RO s t q Ws E) as G. destruct (remove_overlapping q s) as [s1 o]. exact (gives_firsts _ _ _ G).
    Qed.
    Lemma r_set_cut k_overlaps s t q : right_overlaps k_overlaps -> WF s -> entries t = s -> gives (set_cut_e P ik from iq k_overlaps q t) (set_cut q s).
    Proof.
      intros RO Ws E. unfold set_cut. pose proof (r_cut (fun _ _ => true) P RP ik RK (unit_code from) r_unit_code iq RQ k_overlaps RO s t q Ws E) as G. destruct (cut q s) as [s1 o]. exact (gives_firsts _ _ _ G).
    Qed.
    Lemma r_set_overlapping s t q : WF s -> entries t = s -> answers (set_overlapping_e P ik iq t q) (set_overlapping s q).
    Proof.
      intros Ws E. unfold set_overlapping, omap. pose proof (r_overlapping P RP ik RK iq RQ s t q Ws E) as RO. intros w. specialize (RO w). unfold set_overlapping_e, ubind.
      destruct (overlapping_e P ik iq t q w) as [o w1]. cbn [fst] in RO. subst o. destruct (overlapping s q); reflexivity.
    Qed.
  End Q.
  Lemma r_set_get s t p : WF s -> entries t = s -> answers (set_get_at_point_e P ik from t p) (set_get_at_point s p).
  Proof. intros Ws E. apply answers_obind; [apply (r_get_at (fun _ _ => true) P RP ik RK (unit_code from) r_unit_code); assumption|]. intros [kv|g] _; apply answers_ret. Qed.
  Context (overlaps_k : K -> K -> user W bool) (RO : right_overlaps overlaps_k).
  Lemma r_set_overwrite T s k : faithful T -> WF s -> gives (set_insert_overwrite_e P ik from overlaps_k T k s) (set_insert_overwrite k s).
  Proof.
    intros TF Ws. unfold set_insert_overwrite. pose proof (r_insert_overwrite (fun _ _ => true) P RP ik RK (unit_code from) r_unit_code overlaps_k RO T TF s k tt Ws) as G.
    destruct (insert_overwrite k tt s) as [s1 o]. exact (gives_firsts _ _ _ G).
  Qed.
  Lemma fst_handing_back {A} (f : A -> list K) (x : (NoditSet K * outcome A) * W) : fst (fst (handing_back f x)) = fst (fst x).
  Proof. destruct x as [[s [a|]] w]; reflexivity. Qed.
  Lemma r_scall T c s w : faithful T -> WF s -> fst (fst (scall_do P ik from overlaps_k T c s w)) = set_step s (as_set_op c).
  Proof.
    intros TF Ws. destruct c; cbn [scall_do as_set_op set_step]; rewrite fst_handing_back; f_equal.
    - apply (r_insert_strict P RP ik RK T TF s k tt Ws).
    - apply (r_merge_touching (fun _ _ => true) P RP ik RK (unit_code from) r_unit_code overlaps_k RO T TF s k tt Ws).
    - apply (r_merge_overlapping (fun _ _ => true) P RP ik RK (unit_code from) r_unit_code overlaps_k RO T TF s k tt Ws).
    - apply (r_merge_both (fun _ _ => true) P RP ik RK (unit_code from) r_unit_code overlaps_k RO T TF s k tt Ws).
    - apply r_set_overwrite; assumption.
    - apply (r_set_remove ik RK); [exact RO|exact Ws|apply TF].
    - apply (r_set_cut ik RK); [exact RO|exact Ws|apply TF].
  Qed.
  Lemma r_shistory T cs : (forall n, faithful (T n)) -> forall s w, set_reachable s ->
    fst (fst (shistory P ik from overlaps_k T cs s w)) = fold_left set_step (map as_set_op cs) s /\ set_reachable (fst (fst (shistory P ik from overlaps_k T cs s w))).
  Proof.
    intros TF. induction cs as [|c cs IH]; intros s w R; cbn [shistory map fold_left]; [split; [reflexivity|exact R]|].
    pose proof (r_scall (T (length cs)) c s w (TF _) (set_reachable_WF s R)) as Ec. destruct (scall_do P ik from overlaps_k (T (length cs)) c s w) as [[s1 h1] w1]. cbn [fst] in Ec. subst s1.
    assert (R1 : set_reachable (set_step s (as_set_op c))).
    { destruct R as [ops ->]. exists (ops ++ [as_set_op c]). unfold set_run. rewrite fold_left_app. reflexivity. }
    specialize (IH _ w1 R1). destruct (shistory P ik from overlaps_k T cs (set_step s (as_set_op c)) w1) as [[s2 h2] w2]. exact IH.
  Qed.
End Set_.
