(** * EffectTraceMore: user code that gives the right answer or panics; facts behind C165. *)
From Coq Require Import List Bool ZArith Arith Lia.
From Verif Require Import Base BTree UtilsModel IntervalModel NoditModel NoditSetModel NoditOps NoditSetOps Spec TreeShape TreeFacts NoditFacts NoditInv NoditGaps NoditSetFacts IntervalFacts
  TreeProofs LooksOps LooksFacts EffectModel EffectOps EffectFacts EffectRight EffectGqditModel EffectGqditOps EffectCrashOps TraceModel TraceFacts EffectTraceOps EffectTraceFacts EffectTraceGqdit EffectBulkModel EffectBulkFacts EffectMoreModel EffectMoreOps EffectMoreFacts EffectMoreRight EffectTraceMoreOps
  ZosditModel ZosditFacts ZosditProofs EffectZosditModel EffectZosditFacts EffectZosditRight EffectTraceZosdit.
Import ListNotations.
Open Scope nat_scope.

Section Interval.
  Context {W I : Type} `{PL : PointLaws I} (P : point_code W I) (RP : points_or_panic P).
  Lemma a_default_code {X} {IX : InclusiveInterval I X} (start end_ : X -> user W I) :
    (forall x, may (start x) (Val (istart x))) -> (forall x, may (end_ x) (Val (iend x))) -> intervals_or_panic (default_code P start end_).
  Proof.
    intros RS RE x. split; [apply RS|]. split; [apply RE|]. eapply may_bind; [apply RS|]. eapply may_bind; [apply RE|]. apply (a_le P RP).
  Qed.
  Section Methods.
    Context {A B : Type} {IA : InclusiveInterval I A} {IB : InclusiveInterval I B} (ia : interval_code W I A) (ib : interval_code W I B) (RA : intervals_or_panic ia) (RB : intervals_or_panic ib).
    Lemma a_d_contains_point a p : may (default_contains_point_e P ia a p) (Val (contains_point a p)).
    Proof.
      eapply may_bind; [apply (a_start ia RA)|]. eapply may_bind; [apply (a_ge P RP)|]. unfold contains_point. destruct (geb p (istart a)); [|apply may_ret].
      eapply may_bind; [apply (a_end ia RA)|]. apply (a_le P RP).
    Qed.
    Lemma a_d_contains_interval a b : may (default_contains_interval_e P ia ib a b) (Val (contains_interval a b)).
    Proof.
      eapply may_bind; [apply (a_start ia RA)|]. eapply may_bind; [apply (a_start ib RB)|]. eapply may_bind; [apply (a_le P RP)|].
      unfold contains_interval. destruct (leb (istart a) (istart b)); [|apply may_ret]. eapply may_bind; [apply (a_end ia RA)|]. eapply may_bind; [apply (a_end ib RB)|]. apply (a_ge P RP).
    Qed.
    Lemma a_d_singular a : may (default_is_singular_e P ia a) (Val (is_singular a)).
    Proof. eapply may_bind; [apply (a_start ia RA)|]. eapply may_bind; [apply (a_end ia RA)|]. apply (a_eq P RP). Qed.
    Lemma a_d_intersection max min from a b : (forall x y, may (max x y) (Val (omax x y))) -> (forall x y, may (min x y) (Val (omin x y))) ->
      (forall i, may (from i) (Val (ifrom i))) -> may (default_intersection_e P ia ib max min from a b) (Val (intersection a b)).
    Proof.
      intros RMax RMin RF. eapply may_bind; [apply (a_start ia RA)|]. eapply may_bind; [apply (a_start ib RB)|]. eapply may_bind; [apply RMax|].
      eapply may_bind; [apply (a_end ia RA)|]. eapply may_bind; [apply (a_end ib RB)|]. eapply may_bind; [apply RMin|]. eapply may_bind; [apply (a_le P RP)|].
      unfold intersection. destruct (leb _ _); [|apply may_ret]. eapply may_bind; [apply RF|]. apply may_ret.
    Qed.
    Lemma a_d_overlaps : overlaps_or_panic (default_overlaps_e P ia ib).
    Proof.
      intros a b. unfold default_overlaps_e, overlaps, sorted_config_e, sorted_config. apply may_obind.
      - eapply may_bind; [apply (a_start ia RA)|]. eapply may_bind; [apply (a_end ia RA)|]. eapply may_bind; [apply (a_start ib RB)|]. eapply may_bind; [apply (a_end ib RB)|].
        apply may_obind; [apply (a_config P RP ia ib RA RB)|]. intros [| | | | |] _; apply may_ret.
      - intros [? ?|? ?|? ?] _; apply may_ret.
    Qed.
    Lemma a_d_translate add add' from a d : (forall x y, may (add' x y) (add x y)) -> (forall i, may (from i) (Val (ifrom i))) ->
      may (default_translate_e ia add' from a d) (translate add a d).
    Proof.
      intros RD RF. eapply may_bind; [apply (a_start ia RA)|]. apply may_obind; [apply RD|]. intros s _. eapply may_bind; [apply (a_end ia RA)|]. apply may_obind; [apply RD|]. intros e _. apply RF.
    Qed.
    Lemma a_d_width sub sub' a : (forall x y, may (sub' x y) (sub x y)) -> may (default_width_e ia sub' a) (width sub a).
    Proof. intros RD. eapply may_bind; [apply (a_end ia RA)|]. eapply may_bind; [apply (a_start ia RA)|]. apply RD. Qed.
  End Methods.
  Lemma a_up_e x : may (up_e P x) (unwrap (up x)). Proof. eapply may_bind; [apply (a_up P RP)|]. apply may_out. Qed.
  Lemma a_down_e x : may (down_e P x) (unwrap (down x)). Proof. eapply may_bind; [apply (a_down P RP)|]. apply may_out. Qed.
  Lemma a_ue x : may (ue_e P x) (ue x). Proof. apply may_obind; [apply a_down_e|]. intros d _. apply (a_ii P RP). Qed.
  Lemma a_eu x : may (eu_e P x) (eu x). Proof. apply may_obind; [apply a_up_e|]. intros d _. apply (a_ii P RP). Qed.
  Lemma a_ie x y : may (ie_e P x y) (ie x y). Proof. apply may_obind; [apply a_down_e|]. intros d _. apply (a_ii P RP). Qed.
  Lemma a_ei x y : may (ei_e P x y) (ei x y). Proof. apply may_obind; [apply a_up_e|]. intros d _. apply (a_ii P RP). Qed.
  Lemma a_ee x y : may (ee_e P x y) (ee x y).
  Proof. apply may_obind; [apply a_up_e|]. intros u _. apply may_obind; [apply a_down_e|]. intros d _. apply (a_ii P RP). Qed.
  Lemma a_range_from i : may (range_from_e P i) (range_from i).
  Proof. apply may_obind; [apply a_up_e|]. intros u _. apply may_ret. Qed.
End Interval.

Section Map.
  Context {W I : Type} `{PL : PointLaws I} {K : Type} {IK : InclusiveInterval I K} {IL : IntervalLaws I K} {V : Type} (veq : V -> V -> bool).
  Context (P : point_code W I) (RP : points_or_panic P) (ik : interval_code W I K) (RK : intervals_or_panic ik) (C : entry_code W I K V) (RC : entries_or_panic veq C).
  Implicit Types (m : NoditMap K V) (t : tree K V).
  Lemma a_get_at_point m t p : WF m -> entries t = m -> may (get_at_point_e P ik C t p) (get_at_point m p).
  Proof. intros Wm E. apply may_obind; [apply (a_get_at veq P RP ik RK C RC); assumption|]. intros [[k v]|g] _; apply may_ret. Qed.
  Lemma a_contains_point m t p : WF m -> entries t = m -> may (map_contains_point_e P ik C t p) (map_contains_point m p).
  Proof. intros Wm E. apply may_obind; [apply (a_get_at veq P RP ik RK C RC); assumption|]. intros [[k v]|g] _; apply may_ret. Qed.

  Lemma a_any_inner (l : list (K * V)) gs : inner_gaps l = Val gs -> may (any_inner_gap_e P ik C l) (Val (match gs with [] => false | _ => true end)).
  Proof.
    destruct l as [|e l]; [intros E; injection E as <-; apply may_ret|]. cbn [any_inner_gap_e]. intros E. eapply may_bind; [apply (a_bounds ik RK)|]. revert e gs E.
    induction l as [|x l IH]; intros e gs; [intros E; injection E as <-; apply may_ret|]. cbn [any_window_e]. change (inner_gaps (e :: x :: l)) with
      (let? u := unwrap (up (iend (fst e))) in let? d := unwrap (down (istart (fst x))) in
       let g := ifrom (mkInterval u d) : K in let? gs := inner_gaps (x :: l) in Val (if is_valid g then g :: gs else gs)).
    pose proof (a_up_e P RP (iend (fst e))) as Ru. pose proof (a_down_e P RP (istart (fst x))) as Rd.
    destruct (unwrap (up (iend (fst e)))) as [u|]; [|discriminate]. destruct (unwrap (down (istart (fst x)))) as [d|]; [|discriminate]. cbn [obind]. cbv zeta.
    destruct (inner_gaps (x :: l)) as [gs'|] eqn:Eg; [|discriminate]. cbn [obind]. intros E. injection E as <-.
    eapply may_bind; [apply (a_bounds ik RK)|]. eapply may_bind; [exact Ru|]. eapply may_bind; [exact Rd|]. eapply may_bind; [apply (a_from veq C RC)|].
    eapply may_bind; [apply (a_valid ik RK)|]. destruct (is_valid _); [apply may_ret|]. apply IH. exact Eg.
  Qed.
  Section Q.
    Context {Q : Type} {IQ : InclusiveInterval I Q} (iq : interval_code W I Q) (RQ : intervals_or_panic iq).
    Lemma a_contains_interval m t q : WF m -> entries t = m -> may (map_contains_interval_e P ik C iq t q) (map_contains_interval m q).
    Proof.
      intros Wm E. unfold map_contains_interval_e, map_contains_interval. apply may_obind; [apply a_iip, RQ|]. intros [] V1.
      destruct (iip_cases q) as [[Vq _]|[_ N]]; [|rewrite N in V1; discriminate].
      pose proof (gaps_total m q Wm Vq) as (GT & _). unfold gaps_untrimmed in *. pose proof (a_iip iq RQ q) as RI. rewrite V1 in *. cbn [obind] in *. eapply may_bind; [exact RI|].
      pose proof (a_end_gap P RP ik RK m t (e_start iq q) (istart q) Wm E (a_start iq RQ q)) as R1. destruct (end_gap m (istart q)) as [sg|]; [|exfalso; apply GT; reflexivity]. cbn [obind] in *.
      eapply may_bind; [exact R1|].
      pose proof (a_end_gap P RP ik RK m t (e_end iq q) (iend q) Wm E (a_end iq RQ q)) as R2. destruct (end_gap m (iend q)) as [eg|]; [|exfalso; apply GT; reflexivity]. cbn [obind] in *.
      eapply may_bind; [exact R2|].
      assert (Tail : forall sg eg, (let? o := overlapping m q in let? i := inner_gaps o in Val (opt_list (option_map (ifrom : _ -> K) sg) ++ i ++ opt_list (option_map ifrom eg))) <> Panic ->
        may (do! overlapping := overlapping_e P ik iq t q in do! start_gap := from_e C sg in do! end_gap := from_e C eg in
          match start_gap with
          | _ :: _ => uret false
          | [] => do! b := any_inner_gap_e P ik C overlapping in uret (if b then false else match end_gap with [] => true | _ :: _ => false end)
          end)
        (let? g := (let? o := overlapping m q in let? i := inner_gaps o in Val (opt_list (option_map ifrom sg) ++ i ++ opt_list (option_map ifrom eg))) in Val (match g with [] => true | _ => false end))).
      { intros sg' eg' NP. pose proof (a_overlapping P RP ik RK iq RQ m t q Wm E) as RO. destruct (overlapping m q) as [l|]; [|exfalso; apply NP; reflexivity]. cbn [obind] in *.
        eapply may_bind; [exact RO|]. destruct (inner_gaps l) as [gs|] eqn:Eg; [|exfalso; apply NP; reflexivity]. cbn [obind].
        eapply may_bind; [apply (a_from_list veq C RC)|]. eapply may_bind; [apply (a_from_list veq C RC)|].
        destruct sg' as [s|]; cbn [option_map opt_list app]; [apply may_ret|]. eapply may_bind; [apply (a_any_inner l gs Eg)|]. destruct gs; [|apply may_ret]. destruct eg'; apply may_ret. }
      destruct sg as [s|], eg as [e|].
      - pose proof (a_eq P RP (ivl_start s) (ivl_start e)) as RE. destruct (eqb (ivl_start s) (ivl_start e)); (eapply may_bind; [eapply may_bind; [exact RE|apply may_ret]|]); cbv iota; apply Tail; exact GT.
      - eapply may_bind; [apply may_ret|]. apply Tail; exact GT.
      - eapply may_bind; [apply may_ret|]. apply Tail; exact GT.
      - eapply may_bind; [apply may_ret|]. apply Tail; exact GT.
    Qed.

    Context (f : edit (W := W) (K := K) (V := V)) (g : K -> V -> V) (RG : edit_or_panic f g).
    Lemma a_edit_all l : forall done pre post w, let r := fst (edit_all f (pre ++ map_values g done) l post w) in
      r = (pre ++ map_values g (done ++ l) ++ post, Val tt) \/ snd r = Panic /\ edits_stopped g (done ++ l) (pre ++ (done ++ l) ++ post) (fst r).
    Proof.
      induction l as [|[k v] l IH]; intros done pre post w; cbn [edit_all]; [left; rewrite app_nil_r, app_assoc; reflexivity|]. specialize (RG k v w). destruct (f k v w) as [[v' o] w1]. cbn [fst snd] in RG.
      assert (Pa : o = Panic -> edits_stopped g (done ++ (k, v) :: l) (pre ++ (done ++ (k, v) :: l) ++ post) ((pre ++ map_values g done) ++ (k, v') :: l ++ post)).
      { intros _. exists pre, done, k, v, v', l, post. split; [reflexivity|]. split; [reflexivity|]. rewrite <- app_assoc. reflexivity. }
      destruct o as [[]|]; [|right; split; [reflexivity|exact (Pa eq_refl)]]. destruct RG as [X|X]; [|discriminate X]. injection X as ->.
      specialize (IH (done ++ [(k, v)]) pre post w1). rewrite <- app_assoc in IH. cbn [app] in IH.
      replace (pre ++ map_values g (done ++ [(k, v)])) with ((pre ++ map_values g done) ++ [(k, g k v)]) in IH; [exact IH|]. unfold map_values. rewrite map_app, app_assoc. reflexivity.
    Qed.
    Lemma a_edits l pre post w : let r := fst (edit_all f pre l post w) in
      r = (pre ++ map_values g l ++ post, Val tt) \/ snd r = Panic /\ edits_stopped g l (pre ++ l ++ post) (fst r).
    Proof. pose proof (a_edit_all l [] pre post w) as X. cbn [map_values map app] in X. rewrite app_nil_r in X. exact X. Qed.
    (** A step of user code before the loop. *)
    Lemma edits_bind {A B} m (x : user W A) (h : A -> changing W K V B) a r (Stop : NoditMap K V -> Prop) : may x (Val a) -> Stop m ->
      (forall w, fst (h a w) = r \/ snd (fst (h a w)) = Panic /\ Stop (fst (fst (h a w)))) ->
      forall w, fst (mbind m x h w) = r \/ snd (fst (mbind m x h w)) = Panic /\ Stop (fst (fst (mbind m x h w))).
    Proof. intros X S Hh w. unfold mbind. destruct (X w) as [Y|Y]; destruct (x w) as [o w1]; cbn [fst] in Y; subst o; [apply Hh|]. right. split; [reflexivity|exact S]. Qed.
    Lemma a_overlapping_mut m t q w : WF m -> entries t = m -> let r := fst (overlapping_mut_e P ik iq f q t w) in
      r = overlapping_mut g q m \/ snd r = Panic /\ (fst r = m \/ exists l, overlapping m q = Val l /\ edits_stopped g l m (fst r)).
    Proof.
      intros Wm E. cbv zeta. revert w. destruct (iip_cases q) as [[Vq Ei]|[Nq Ei]].
      2:{ unfold overlapping_mut. rewrite Ei. pose proof (a_iip iq RQ q) as RI. rewrite Ei in RI. intros w. specialize (RI w). unfold overlapping_mut_e, mbind.
          destruct (invalid_interval_panic_e iq q w) as [o w1]. cbn [fst] in RI. destruct RI as [->| ->]; rewrite E; left; reflexivity. }
      pose proof (proj1 (valid_rk q) Vq) as Vr. destruct (split3 m (lo q) (hi q) Wm) as (A & M & B & Em & HA & HM & HB); [exact Vr|].
      assert (EM : overlapping_mut g q m = (A ++ map_values g M ++ B, Val tt)) by (rewrite Em in *; apply overlapping_mut_split; assumption). rewrite EM. clear EM.
      assert (EO : overlapping m q = Val M) by (rewrite Em in *; apply overlapping_split; assumption).
      pose proof (a_iip iq RQ q) as RI. rewrite Ei in RI. unfold overlapping_mut_e. rewrite E.
      set (Stop := fun m' => m' = m \/ exists l, overlapping m q = Val l /\ edits_stopped g l m m'). assert (S0 : Stop m) by (left; reflexivity).
      apply (edits_bind m _ _ _ _ Stop RI S0). apply (edits_bind m _ _ _ _ Stop (a_start iq RQ q) S0). apply (edits_bind m _ _ _ _ Stop (a_end iq RQ q) S0).
      pose proof (a_search (V := V) _ _ (a_overlapping_comp P RP ik RK (istart q))) as [S1 _]. pose proof (a_search (V := V) _ _ (a_overlapping_comp P RP ik RK (iend q))) as [S2 _].
      assert (Lt : t_range (overlapping_comp (istart q)) (overlapping_comp (iend q)) t = M).
      { rewrite (orderly_range_shape_free _ _ _ (orderly_ol (istart q) m Wm) (orderly_ol (iend q) m Wm) t E).
        unfold overlapping in EO. rewrite Ei in EO. cbn [obind] in EO. injection EO as EO. exact EO. }
      assert (La : exists x b, search (overlapping_comp (istart q)) t = (A, x, b)).
      { rewrite search_seek by (rewrite E; apply orderly_ol; exact Wm). rewrite E. unfold seek_place. rewrite Em in *. rewrite seek_split; [|exact Wm|exact HA|].
        - destruct (M ++ B) as [|kv r]; [eauto|]. destruct (overlapping_comp _ (fst kv)); eauto.
        - apply WF_app in Wm. destruct Wm as (_ & Wm & _). apply WF_app in Wm. destruct Wm as (_ & [_ VB] & _). rewrite Forall_app. split; rewrite Forall_forall in *; intros x Hx.
          + specialize (HM x Hx). unfold meets, lo in *. lia.
          + specialize (HB x Hx). specialize (VB x Hx). unfold right_of, okv, lo, hi in *. lia. }
      destruct La as (xa & ba & La). apply (edits_bind m _ _ _ _ Stop (S1 t) S0). unfold t_range in Lt. rewrite La in *. apply (edits_bind m _ _ _ _ Stop (S2 t) S0).
      destruct (search (overlapping_comp (iend q)) t) as [[a' x'] b']. cbv beta iota zeta. rewrite E in *. set (n2 := length a' + (if is_some x' then 1 else 0)) in *. rewrite Lt.
      pose proof (three_parts (length A) n2 m) as TP. rewrite Lt in TP. assert (FA : firstn (length A) m = A) by (rewrite Em; apply firstn_app_exact). rewrite FA in *.
      rewrite Em in TP at 2. apply app_inv_head in TP. apply app_inv_head in TP. rewrite TP. intros w. destruct (a_edits M A B w) as [X|[X Y]]; [left; exact X|right]. split; [exact X|]. right.
      exists M. split; [exact EO|]. rewrite Em at 1. exact Y.
    Qed.
    Lemma a_get_mut p m t w : WF m -> entries t = m ->
      forall h, (forall k v, g k v = h v) -> let r := fst (get_at_point_mut_e P ik f p t w) in
      r = (let (m', x) := get_at_point_mut h p m in (m', Val x)) \/ snd r = Panic /\ (fst r = m \/ exists e, In e m /\ contains_point (fst e) p = true /\ edits_stopped g [e] m (fst r)).
    Proof.
      intros Wm E h Gh. cbv zeta. revert w. pose proof (a_search (V := V) _ _ (a_overlapping_comp P RP ik RK p)) as [S1 _].
      set (Stop := fun m' => m' = m \/ exists e, In e m /\ contains_point (fst e) p = true /\ edits_stopped g [e] m m'). assert (S0 : Stop m) by (left; reflexivity).
      unfold get_at_point_mut_e. rewrite E. apply (edits_bind m _ _ _ _ Stop (S1 t) S0).
      rewrite search_seek by (rewrite E; apply orderly_ol; exact Wm). rewrite E. unfold seek_place, get_at_point_mut, get_mut.
      destruct (seek (overlapping_comp p) m) as [a [|[k v] b]] eqn:Es; [intros w; left; reflexivity|]. cbn [fst].
      assert (Em : m = a ++ (k, v) :: b) by (exact (seek_app' _ _ _ _ Es)).
      destruct (overlapping_comp p k) eqn:Ec; [|intros w; left; reflexivity|intros w; left; reflexivity].
      intros w. unfold mthen. destruct (a_edits [(k, v)] a b w) as [X|[X Y]]; destruct (edit_all f a [(k, v)] b w) as [[m1 o] w1]; cbn [fst snd] in *.
      - injection X as -> ->. left. cbn [mret fst map_values map snd app]. rewrite Gh. reflexivity.
      - subst o. right. split; [reflexivity|]. right. exists (k, v). split; [rewrite Em; apply in_elt|]. split; [|rewrite Em; exact Y].
        apply overlapping_comp_Eq in Ec. cbn [fst]. rewrite contains_point_rk. apply andb_true_iff. rewrite !Z.leb_le. exact Ec.
    Qed.
  End Q.
End Map.

Section Set_.
  Context {W I : Type} `{PL : PointLaws I} {K : Type} {IK : InclusiveInterval I K} {IL : IntervalLaws I K}.
  Context (P : point_code W I) (RP : points_or_panic P) (ik : interval_code W I K) (RK : intervals_or_panic ik) (from : Interval I -> user W K) (RF : forall i, may (from i) (Val (ifrom i))).
  Lemma a_unit_code : entries_or_panic (fun _ _ => true) (unit_code from).
  Proof. split; [exact RF|]. split; intros; apply may_ret. Qed.
  Lemma step_as_map (c : scall K) (s : NoditSet K) : step s (as_map_op c) = set_step s (as_set_op c).
  Proof.
    destruct c; cbn [step as_map_op as_set_op set_step]; try reflexivity; unfold set_insert_overwrite, set_remove_overlapping, set_cut.
    - destruct (insert_overwrite k tt s); reflexivity.
    - destruct (remove_overlapping q s); reflexivity.
    - destruct (cut q s); reflexivity.
  Qed.
  Lemma WF_set_reachable (s : NoditSet K) : WF s -> set_reachable (I := I) s.
  Proof.
    intros Ws. exists [SFromIterStrict (map fst s)]. cbn. unfold set_from_iter_strict. rewrite set_extend_map, map_map.
    assert (E : map (fun x : K * unit => unit_entry (fst x)) s = s) by (rewrite <- (map_id s) at 2; apply map_ext; intros [k []]; reflexivity). rewrite E.
    pose proof (extend_strict_rebuild s [] Ws) as X. cbn [app] in X. unfold set_new, new in *. rewrite X. reflexivity.
  Qed.
  Lemma ends_firsts (x : changing W K unit (list (K * unit))) m o ts : ends x (m, o) ts -> ends (mthen x (fun s l => mret s (Val (map first l)))) (m, omap (map first) o) ts.
  Proof.
    intros G w. specialize (G w). unfold mthen, lands in *. destruct (x w) as [[m' o'] w1]. cbn [fst snd] in G. destruct G as [G|[G Hi]].
    - injection G as -> ->. left. destruct o; reflexivity.
    - subst o'. right. split; [reflexivity|exact Hi].
  Qed.
  Section Q.
    Context {Q : Type} {IQ : InclusiveInterval I Q} (iq : interval_code W I Q) (RQ : intervals_or_panic iq).
    Lemma a_set_remove_overlapping q_overlaps s t q : overlaps_or_panic q_overlaps -> WF s -> entries t = s ->
      ends (set_remove_overlapping_e P ik iq q_overlaps q t) (set_remove_overlapping q s) (remove_overlapping_t q s).
    Proof.
      intros RO Ws E. unfold set_remove_overlapping. pose proof (a_remove_overlapping P RP ik RK iq RQ q_overlaps RO s t q Ws E) as G. destruct (remove_overlapping q s) as [s1 o]. exact (ends_firsts _ _ _ _ G).
    Qed.
    Lemma a_set_cut k_overlaps s t q : overlaps_or_panic k_overlaps -> WF s -> entries t = s -> ends (set_cut_e P ik from iq k_overlaps q t) (set_cut q s) (cut_t q s).
    Proof.
      intros RO Ws E. unfold set_cut. pose proof (a_cut (fun _ _ => true) P RP ik RK (unit_code from) a_unit_code iq RQ k_overlaps RO s t q Ws E) as G. destruct (cut q s) as [s1 o]. exact (ends_firsts _ _ _ _ G).
    Qed.
    Lemma a_set_overlapping s t q : WF s -> entries t = s -> may (set_overlapping_e P ik iq t q) (set_overlapping s q).
    Proof.
      intros Ws E. unfold set_overlapping, omap. pose proof (a_overlapping P RP ik RK iq RQ s t q Ws E) as RO. intros w. specialize (RO w). unfold set_overlapping_e, ubind.
      destruct (overlapping_e P ik iq t q w) as [o w1]. cbn [fst] in RO. destruct RO as [->| ->]; [|right; reflexivity]. destruct (overlapping s q); left; reflexivity.
    Qed.
  End Q.
  Lemma a_set_get s t p : WF s -> entries t = s -> may (set_get_at_point_e P ik from t p) (set_get_at_point s p).
  Proof. intros Ws E. apply may_obind; [apply (a_get_at (fun _ _ => true) P RP ik RK (unit_code from) a_unit_code); assumption|]. intros [kv|g] _; apply may_ret. Qed.
  Context (overlaps_k : K -> K -> user W bool) (RO : overlaps_or_panic overlaps_k).
  Lemma a_set_overwrite T s k : faithful T -> WF s -> ends (set_insert_overwrite_e P ik from overlaps_k T k s) (set_insert_overwrite k s) (trace s (OpInsertOverwrite k tt)).
  Proof.
    intros TF Ws. unfold set_insert_overwrite. pose proof (a_insert_overwrite (fun _ _ => true) P RP ik RK (unit_code from) a_unit_code overlaps_k RO T TF s k tt Ws) as G.
    destruct (insert_overwrite k tt s) as [s1 o]. exact (ends_firsts _ _ _ _ G).
  Qed.
  Lemma a_scall T c s w : faithful T -> WF s -> In (fst (fst (scall_do P ik from overlaps_k T c s w))) (trace s (as_map_op c)).
  Proof.
    intros TF Ws. pose proof (trace_last_in (as_map_op c) s Ws) as L.
    destruct c; cbn [scall_do as_map_op step] in *; rewrite fst_handing_back; (eapply lands_in; [|]); revert w.
    - exact (a_insert_strict P RP ik RK T TF s k tt (trace s (OpInsertStrict k tt)) Ws (or_introl eq_refl)).
    - intros _. exact L.
    - exact (a_merge_touching (fun _ _ => true) P RP ik RK (unit_code from) a_unit_code overlaps_k RO T TF s k tt Ws).
    - intros _. exact L.
    - exact (a_merge_overlapping (fun _ _ => true) P RP ik RK (unit_code from) a_unit_code overlaps_k RO T TF s k tt Ws).
    - intros _. exact L.
    - exact (a_merge_both (fun _ _ => true) P RP ik RK (unit_code from) a_unit_code overlaps_k RO T TF s k tt Ws).
    - intros _. exact L.
    - exact (a_set_overwrite T s k TF Ws).
    - intros _. unfold set_insert_overwrite. destruct (insert_overwrite k tt s). exact L.
    - exact (a_set_remove_overlapping ik RK overlaps_k s (T 0 s) q RO Ws (TF 0 s)).
    - intros _. unfold set_remove_overlapping. destruct (remove_overlapping q s). exact L.
    - exact (a_set_cut ik RK overlaps_k s (T 0 s) q RO Ws (TF 0 s)).
    - intros _. unfold set_cut. destruct (cut q s). exact L.
  Qed.
  Lemma a_shistory T cs : (forall n, faithful (T n)) -> forall os s w, interrupted_history os s ->
    interrupted_history (os ++ map as_map_op cs) (fst (fst (shistory P ik from overlaps_k T cs s w))).
  Proof.
    intros TF. induction cs as [|c cs IH]; intros os s w R; [cbn; rewrite app_nil_r; exact R|]. cbn [shistory map].
    pose proof (a_scall (T (length cs)) c s w (TF _) (interrupted_WF os s R)) as X. destruct (scall_do _ _ _ _ _ c s w) as [[s1 h] w1]. cbn [fst] in X.
    specialize (IH (os ++ [as_map_op c]) s1 w1 (interrupted_call os s _ s1 R X)). rewrite <- app_assoc in IH.
    destruct (shistory _ _ _ _ _ cs s1 w1) as [[s2 h2] w2]. exact IH.
  Qed.
End Set_.

(** Loops over a source. *)
Section Load.
  Context {W K V M E E' : Type} (next : user W (result (option (K * V)) E)) (insert : nat -> K -> V -> M -> W -> (M * outcome (result unit E)) * W).
  Context (err : E -> E') (Good : M -> Prop) (ins : K -> V -> M -> M * outcome (result unit E')).
  Lemma load_may : (forall i k v m w, Good m -> erring err (fst (insert i k v m w)) = ins k v m \/ snd (fst (insert i k v m w)) = Panic) -> (forall k v m, Good m -> Good (fst (ins k v m))) ->
    forall fuel i m w r l w', load_e next insert fuel i m w = (r, l, w') -> Good m ->
    match r with
    | LDone m' => loop ins l m = Val (Ok m')
    | LRefused e => loop ins l m = Val (Err (err e))
    | LStopped false => exists l0 e m', l = l0 ++ [e] /\ loop ins l0 m = Val (Ok m')
    | LFailed _ | LStopped true | LRunning => exists m', loop ins l m = Val (Ok m')
    end.
  Proof.
    intros HI HG. induction fuel as [|fuel IH]; intros i m w r l w' X G; [inversion X; subst; exists m; reflexivity|]. apply load_inv in X.
    destruct X as [[-> X]|(k & v & w1 & m1 & o & w2 & Y & X)].
    - destruct r as [m'|e|e|[]|]; try destruct X; try (exists m; reflexivity). subst. reflexivity.
    - pose proof (HI i k v m w1 G) as Z. pose proof (HG k v m G) as G1. rewrite Y in Z. cbn [fst snd] in Z.
      destruct X as [[-> [[-> ->]|(e & -> & ->)]]|(u & l' & -> & -> & X)].
      + exists [], (k, v), m. split; reflexivity.
      + destruct Z as [Z|Z]; [|discriminate Z]. cbn [loop]. rewrite <- Z. reflexivity.
      + destruct Z as [Z|Z]; [|discriminate Z]. unfold erring in Z. cbn [fst snd] in Z. rewrite <- Z in G1. cbn [fst] in G1. specialize (IH _ _ _ _ _ _ X G1).
        assert (Lp : forall x, loop ins ((k, v) :: x) m = loop ins x m1) by (intros x; cbn [loop]; rewrite <- Z; reflexivity). rewrite Lp.
        destruct r as [m'|e|e|[]|]; trivial. destruct IH as (l0 & e & m' & -> & L). exists ((k, v) :: l0), e, m'. split; [reflexivity|]. rewrite Lp. exact L.
  Qed.
  Lemma or_custom_may (custom : user W E) (x : (M * outcome (result unit V)) * W) r : fst x = r \/ snd (fst x) = Panic ->
    erring (fun _ => DeOverlap) (fst (or_custom custom x)) = (fst r, match snd r with Panic => Panic | Val (Ok _) => Val (Ok tt) | Val (Err _) => Val (Err DeOverlap) end) \/
    snd (fst (or_custom custom x)) = Panic.
  Proof.
    intros H. destruct x as [[m' o] w1]. cbn [fst snd] in H. destruct o as [a|]; [|right; reflexivity]. destruct H as [<-|H]; [|discriminate H]. cbn [or_custom fst snd].
    destruct (custom w1) as [[e|] w2]; [left|right; reflexivity]. destruct a; reflexivity.
  Qed.
  Lemma map_err_may (custom : user W E) (x : (M * outcome (result unit unit)) * W) r : fst x = r \/ snd (fst x) = Panic ->
    erring (fun _ => DeOverlap) (fst (map_err_custom custom x)) = (fst r, match snd r with Panic => Panic | Val (Ok _) => Val (Ok tt) | Val (Err _) => Val (Err DeOverlap) end) \/
    snd (fst (map_err_custom custom x)) = Panic.
  Proof.
    intros H. destruct x as [[m' o] w1]. cbn [fst snd] in H. destruct o as [a|]; [|right; reflexivity]. destruct H as [<-|H]; [|discriminate H]. destruct a as [u|u]; cbn [map_err_custom fst snd]; [left; destruct u; reflexivity|].
    destruct (custom w1) as [[e|] w2]; [left|right]; reflexivity.
  Qed.
End Load.

Section Zosdit.
  Context {W I : Type} `{PL : PointLaws I} {K : Type} {IK : InclusiveInterval I K} {IL : IntervalLaws I K} {V : Type}.
  Context (P : point_code W I) (RP : points_or_panic P) (ik : interval_code W I K) (RK : intervals_or_panic ik).
  Lemma a_strict_back_once (z : ZosditMap K V) t k v w : ZWF z -> ZD (z_inner z) -> entries t = z_inner z ->
    fst (insert_strict_back_e P ik k v (z_len z) t w) = insert_strict_back k v z \/ snd (fst (insert_strict_back_e P ik k v (z_len z) t w)) = Panic.
  Proof.
    intros Wz Dz E. destruct (a_strict_back P RP ik RK z t k v w Wz E) as [X|[[X _]|(Vk & A & X & Y)]]; [right; rewrite X; reflexivity|left; exact X|]. left. rewrite X. clear X. pose proof Wz as (Z & _).
    revert Y. unfold insert_strict_back. rewrite (IntervalFacts.iip_valid _ Vk). cbn [obind]. destruct (is_zero_overlap z k) as [[|]|]; cbn [negb]; [|discriminate|discriminate]. intros _.
    apply valid_rk in Vk. rewrite <- E in *. rewrite (t_entry_push_same k v t Vk Z Dz A). unfold t_entry_push, pushed. destruct (search (entry_answer k) t) as [[a [[k' vs]|]] b]; reflexivity.
  Qed.
End Zosdit.
