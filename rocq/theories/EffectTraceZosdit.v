(** * EffectTraceZosdit: facts behind C164, [ZosditMap]. *)
From Coq Require Import List Bool Arith ZArith Lia.
From Verif Require Import Base BTree UtilsModel IntervalModel NoditModel ZosditModel ZosditOps Spec TreeShape
  PointFacts IntervalFacts NoditFacts TreeFacts TreeProofs ZosditFacts ZosditMut ZosditProofs
  TraceModel TraceZosdit
  EffectModel EffectOps EffectFacts EffectZosditModel EffectZosditOps EffectZosditFacts EffectZosditRight EffectCrashOps EffectTraceOps EffectTraceFacts.
Import ListNotations.
Open Scope nat_scope.

Section Bind.
  Context {W K V : Type}.
  Definition zends {A} (x : zchanging (W := W) (K := K) (V := V) A) (r : ZosditMap K V * outcome A) (ts : list (ZosditMap K V)) : Prop := forall w, lands (fst (x w)) r ts.
  Lemma zends_ret {A} z (o : outcome A) ts : zends (zret z o) (z, o) ts.
  Proof. intros w. left. reflexivity. Qed.
  Lemma zends_more {A} (x : zchanging (W := W) (K := K) (V := V) A) r ts ts' : zends x r ts -> incl ts ts' -> zends x r ts'.
  Proof. intros X S w. destruct (X w) as [E|[E F]]; [left; exact E|right; split; [exact E|apply S, F]]. Qed.
  Lemma zends_obind {A B} z (x : user W A) (f : A -> zchanging B) o (g : A -> ZosditMap K V * outcome B) ts : may x o -> In z ts -> (forall a, o = Val a -> zends (f a) (g a) ts) ->
    zends (zbind z x f) (match o with Val a => g a | Panic => (z, Panic) end) ts.
  Proof.
    intros X M Y w. unfold zbind. specialize (X w). destruct (x w) as [r w']. cbn in X. destruct X as [->| ->]; [|right; split; [reflexivity|exact M]].
    destruct o as [a|]; [apply Y; reflexivity|left; reflexivity].
  Qed.
  Lemma zends_bind {A B} z (x : user W A) (f : A -> zchanging B) a r ts : may x (Val a) -> In z ts -> zends (f a) r ts -> zends (zbind z x f) r ts.
  Proof. intros X M Y. apply (zends_obind z x f (Val a) (fun _ => r) ts X M). intros b E. injection E as <-. exact Y. Qed.
  Lemma zends_panic {A B} z (x : user W A) (f : A -> zchanging B) ts : may x Panic -> In z ts -> zends (zbind z x f) (z, Panic) ts.
  Proof. intros X M. apply (zends_obind z x f Panic (fun _ => (z, Panic)) ts X M). discriminate. Qed.
End Bind.

Section Right.
  Context {W I : Type} `{PL : PointLaws I}.
  Context {K : Type} {IK : InclusiveInterval I K} {IL : IntervalLaws I K}.
  Context {V : Type} (veq : V -> V -> bool).
  Context (P : point_code W I) (RP : points_or_panic P).
  Implicit Types (t : tree K (list V)) (z : ZosditMap K V).
  Section X.
    Context {X : Type} {IX : InclusiveInterval I X} (ix : interval_code W I X) (RX : intervals_or_panic ix).
    Lemma a_exclusive p c x : may (exclusive_comp_e P ix p c x) (Val (exclusive_comp p c x)).
    Proof.
      unfold exclusive_comp_e, exclusive_comp. eapply may_bind; [apply a_start, RX|]. eapply may_bind; [apply a_eq, RP|].
      apply (may_bind _ _ (eqb p (istart x) && eqb p (iend x))).
      - destruct (eqb p (istart x)); [|apply may_ret]. eapply may_bind; [apply a_end, RX|]. apply a_eq, RP.
      - destruct (eqb p (istart x) && eqb p (iend x)); [apply may_ret|]. eapply may_bind; [apply a_start, RX|]. eapply may_bind; [apply a_le, RP|].
        destruct (leb p (istart x)); [apply may_ret|]. eapply may_bind; [apply a_end, RX|]. eapply may_bind; [apply a_ge, RP|]. destruct (geb p (iend x)); apply may_ret.
    Qed.
    Lemma a_inclusive p c x : may (inclusive_comp_e P ix p c x) (Val (inclusive_comp p c x)).
    Proof.
      unfold inclusive_comp_e, inclusive_comp. eapply may_bind; [apply a_start, RX|]. eapply may_bind; [apply a_lt, RP|].
      destruct (ltb p (istart x)); [apply may_ret|]. eapply may_bind; [apply a_end, RX|]. eapply may_bind; [apply a_gt, RP|]. destruct (gtb p (iend x)); apply may_ret.
    Qed.
  End X.
  Context (ik : interval_code W I K) (RK : intervals_or_panic ik) (C : entry_code W I K V) (RC : entries_or_panic veq C).
  Lemma a_entry_comp inner new : may (entry_comp_e P ik inner new) (entry_comp inner new).
  Proof.
    unfold entry_comp_e, entry_comp. eapply may_bind; [apply a_start, RK|]. eapply may_bind; [apply a_exclusive, RK|]. eapply may_bind; [apply a_end, RK|].
    eapply may_bind; [apply a_exclusive, RK|]. destruct (exclusive_comp (istart new) Gt inner), (exclusive_comp (iend new) Lt inner); apply may_out.
  Qed.
  (** A search that panics on no stored key. *)
  Lemma a_search_in (comp' : K -> user W comparison) (comp : K -> comparison) :
    (forall t, (forall e, In e (entries t) -> may (comp' (fst e)) (Val (comp (fst e)))) -> may (e_search comp' t) (Val (search comp t))) /\
    (forall n : edges K (list V), (forall e, In e (edges_entries n) -> may (comp' (fst e)) (Val (comp (fst e)))) -> may (e_search_node comp' n) (Val (search_node comp n))).
  Proof.
    apply tree_mutind.
    - intros _. apply may_ret.
    - intros n IH. exact IH.
    - intros t IH. exact IH.
    - intros t IHt kv n IHn Ca. change (edges_entries (More t kv n)) with (entries t ++ kv :: edges_entries n) in Ca.
      change (search_node comp (More t kv n)) with (match comp (fst kv) with
        | Gt => let '(a, x, b) := search_node comp n in (entries t ++ kv :: a, x, b)
        | Eq => (entries t, Some kv, edges_entries n)
        | Lt => let '(a, x, b) := search comp t in (a, x, b ++ kv :: edges_entries n)
        end). eapply may_bind; [apply Ca; apply in_or_app; right; left; reflexivity|]. destruct (comp (fst kv)).
      + apply may_ret.
      + eapply may_bind; [apply IHt; intros e He; apply Ca; apply in_or_app; auto|]. destruct (search comp t) as [[a x] b]. apply may_ret.
      + eapply may_bind; [apply IHn; intros e He; apply Ca; apply in_or_app; right; right; exact He|]. destruct (search_node comp n) as [[a x] b]. apply may_ret.
  Qed.

  Context (kc : K -> I -> user W bool) (RKC : contains_or_panic kc).
  Lemma a_last_cursor z t p : ZWF z -> entries t = z_inner z -> may (last_value_cursor_e P ik t p) (Val (last_value_cursor z p)).
  Proof.
    intros (Z & _) E. unfold last_value_cursor_e, last_value_cursor. eapply may_bind; [apply (a_lower _ _ (a_exclusive ik RK p Gt) _ (orderly_exclusive_Gt p _ Z) _ E)|]. apply may_ret.
  Qed.
  Lemma a_get_last z t p : ZWF z -> entries t = z_inner z -> may (get_last_value_at_point_e P ik kc t p) (Val (get_last_value_at_point z p)).
  Proof.
    intros Wz E. unfold get_last_value_at_point_e, get_last_value_at_point. eapply may_bind; [apply (a_last_cursor z), E; exact Wz|].
    destruct (cursor_key_value (last_value_cursor z p)) as [[k vs]|]; [|apply may_ret]. eapply may_bind; [apply RKC|]. apply may_ret.
  Qed.
  Lemma a_remove_last z t p ts : ZWF z -> entries t = z_inner z -> In z ts -> zends (remove_last_value_at_point_e P ik kc p (z_len z) t) (remove_last_value_at_point p z) ts.
  Proof.
    intros Wz E M. unfold remove_last_value_at_point_e, remove_last_value_at_point. rewrite E. destruct z as [n i]. cbn [z_len z_inner] in *.
    eapply zends_bind; [apply (a_last_cursor (mkZosdit n i)), E; exact Wz|exact M|]. destruct (snd (last_value_cursor (mkZosdit n i) p)) as [|[k vs] rest]; [apply zends_ret|].
    eapply zends_bind; [apply RKC|exact M|]. destruct (contains_point k p); [|apply zends_ret]. destruct (vec_pop vs) as [[v [|? ?]]|]; apply zends_ret.
  Qed.

  Section Q.
    Context {Q : Type} {IQ : InclusiveInterval I Q} (iq : interval_code W I Q) (RQ : intervals_or_panic iq).
    Lemma a_zero_overlap z t q : ZWF z -> entries t = z_inner z -> may (is_zero_overlap_e P ik iq t q) (is_zero_overlap z q).
    Proof.
      intros (Z & _) E. unfold is_zero_overlap_e, is_zero_overlap. apply may_obind; [apply a_iip, RQ|]. intros _ _.
      eapply may_bind; [apply (a_start iq RQ)|]. eapply may_bind; [apply (a_end iq RQ)|].
      rewrite <- (orderly_range_shape_free _ _ _ (orderly_exclusive_Gt (istart q) _ Z) (orderly_exclusive_Lt (iend q) _ Z) t E). unfold e_range, t_range.
      eapply may_bind; [|apply may_ret].
      eapply may_bind; [apply (proj1 (a_search _ _ (a_exclusive ik RK _ _)))|]. destruct (search _ t) as [[a x] b].
      eapply may_bind; [apply (proj1 (a_search _ _ (a_exclusive ik RK _ _)))|]. destruct (search _ t) as [[a' x'] b']. apply may_ret.
    Qed.
    Lemma a_zoverlapping z t q : ZWF z -> entries t = z_inner z -> may (zosdit_overlapping_e P ik iq t q) (zosdit_overlapping z q).
    Proof.
      intros (Z & _) E. unfold zosdit_overlapping_e, zosdit_overlapping. apply may_obind; [apply a_iip, RQ|]. intros _ _.
      eapply may_bind; [apply (a_start iq RQ)|]. eapply may_bind; [apply (a_end iq RQ)|].
      rewrite <- (orderly_range_shape_free _ _ _ (orderly_inclusive_Lt (istart q) _ Z) (orderly_inclusive_Gt (iend q) _ Z) t E). unfold e_range, t_range.
      eapply may_bind; [|apply may_ret].
      eapply may_bind; [apply (proj1 (a_search _ _ (a_inclusive ik RK _ _)))|]. destruct (search _ t) as [[a x] b].
      eapply may_bind; [apply (proj1 (a_search _ _ (a_inclusive ik RK _ _)))|]. destruct (search _ t) as [[a' x'] b']. apply may_ret.
    Qed.
    Context (k_overlaps : K -> Q -> user W bool) (RKO : overlaps_or_panic k_overlaps).
    Lemma a_clone_all vs : may (clone_all C vs) (Val vs).
    Proof. induction vs as [|v vs IH]; [apply may_ret|]. cbn [clone_all]. eapply may_bind; [apply (a_clone veq C RC)|]. eapply may_bind; [exact IH|]. apply may_ret. Qed.
    Lemma a_z_piece i vs : may (z_piece_e C i vs) (Val (ifrom i, vs)).
    Proof. eapply may_bind; [apply (a_from veq C RC)|]. eapply may_bind; [apply a_clone_all|]. apply may_ret. Qed.
    Lemma a_give_out i vs : may (give_out C (Some i) vs) (Val (map (fun v => (ifrom i, v)) vs)).
    Proof.
      induction vs as [|v vs IH]; [apply may_ret|]. cbn [give_out map]. eapply may_bind; [apply may_out|]. eapply may_bind; [apply (a_from veq C RC)|].
      eapply may_bind; [exact IH|]. apply may_ret.
    Qed.
    Lemma a_zcut_loop q post : forall n pre acc, zends (zosdit_cut_loop_e P ik C iq k_overlaps Panic q n pre post acc) (zosdit_cut_loop q n pre post acc) (zosdit_cut_loop_t q n pre post).
    Proof.
      induction post as [|[k vs] rest IH]; intros n pre acc; cbn [zosdit_cut_loop_e zosdit_cut_loop zosdit_cut_loop_t]; [apply zends_ret|].
      pose proof (RKO k q) as X. destruct (overlaps k q) as [b|]; [|apply zends_panic; [exact X|left; reflexivity]].
      eapply zends_bind; [exact X|left; reflexivity|]. destruct b; [|apply zends_ret]. clear X. pose proof (a_cut_interval P RP ik iq RK RQ k q) as X.
      destruct (cut_interval k q) as [r|]; [|apply zends_panic; [exact X|right; left; reflexivity]].
      eapply zends_bind; [exact X|right; left; reflexivity|]. clear X. cbv zeta.
      assert (Tail : forall n pre ts, incl (mkZosdit n (pre ++ rest) ::
          if Nat.ltb n (length vs) then []
          else mkZosdit (n - length vs) (pre ++ rest) ::
            match inside_cut r, vs with
            | None, _ :: _ => []
            | _, _ => zosdit_cut_loop_t q (n - length vs) pre rest
            end) ts -> zends (zbind (mkZosdit n (pre ++ rest)) (uout (subtract Panic n (length vs))) (fun n =>
          zbind (mkZosdit n (pre ++ rest)) (give_out C (inside_cut r) vs) (fun u => zosdit_cut_loop_e P ik C iq k_overlaps Panic q n pre rest (acc ++ u))))
        (if Nat.ltb n (length vs) then (mkZosdit n (pre ++ rest), Panic)
         else match inside_cut r, vs with
              | None, _ :: _ => (mkZosdit (n - length vs) (pre ++ rest), Panic)
              | None, [] => zosdit_cut_loop q (n - length vs) pre rest acc
              | Some i, _ => zosdit_cut_loop q (n - length vs) pre rest (acc ++ map (fun v => (ifrom i, v)) vs)
              end) ts).
      { clear n pre. intros n pre ts S. apply (fun X => zends_more _ _ _ ts X S). clear S ts. unfold subtract. destruct (Nat.ltb n (length vs)); [intros w; left; reflexivity|].
        eapply zends_bind; [apply may_out|left; reflexivity|].
        destruct (inside_cut r) as [i|].
        - eapply zends_bind; [apply a_give_out|right; left; reflexivity|]. eapply zends_more; [apply IH|]. destruct vs; apply incl_tl, incl_tl, incl_refl.
        - destruct vs as [|v vs]; [|intros w; left; reflexivity].
          eapply zends_bind; [apply may_ret|right; left; reflexivity|]. rewrite app_nil_r. eapply zends_more; [apply IH|]. apply incl_tl, incl_tl, incl_refl. }
      unfold z_before, z_after, z_piece. destruct (before_cut r) as [i|], (after_cut r) as [j|]; cbn [fst snd].
      - eapply zends_bind; [apply a_z_piece|right; left; reflexivity|]. eapply zends_bind; [apply a_z_piece|right; right; right; left; reflexivity|]. apply Tail. do 4 apply incl_tl. apply incl_refl.
      - eapply zends_bind; [apply a_z_piece|right; left; reflexivity|]. apply Tail. do 4 apply incl_tl. apply incl_refl.
      - eapply zends_bind; [apply a_z_piece|right; right; right; left; reflexivity|]. apply Tail. do 4 apply incl_tl. apply incl_refl.
      - apply Tail. do 4 apply incl_tl. apply incl_refl.
    Qed.
    Lemma a_zcut below z t q : ZWF z -> entries t = z_inner z -> zends (zosdit_cut_e P ik C iq k_overlaps below q (z_len z) t) (zosdit_cut q z) (zosdit_cut_t q z).
    Proof.
      intros (Z & _ & L) E w. rewrite (zcut_below P ik C iq k_overlaps below Panic) by (rewrite E; exact L). revert w. change (zends (zosdit_cut_e P ik C iq k_overlaps Panic q (z_len z) t) (zosdit_cut q z) (zosdit_cut_t q z)).
      unfold zosdit_cut_e, zosdit_cut, zosdit_cut_t. replace (mkZosdit (z_len z) (entries t)) with z by (destruct z; cbn in *; congruence).
      apply zends_obind; [apply a_iip, RQ|left; reflexivity|]. intros u ->. eapply zends_bind; [apply (a_start iq RQ)|left; reflexivity|].
      eapply zends_bind; [apply (a_upper _ _ (a_exclusive ik RK _ _) _ (orderly_exclusive_Lt (istart q) _ Z) _ E)|left; reflexivity|].
      eapply zends_more; [apply a_zcut_loop|]. apply incl_tl, incl_refl.
    Qed.
  End Q.

  (** In a tree of any shape. *)
  Definition pushed k (v : V) (p : place (K := K) (V := list V)) : BTreeMap K (list V) :=
    match p with (a, Some (k, vs), b) => a ++ (k, vs ++ [v]) :: b | (a, None, b) => a ++ (k, [v]) :: b end.
  Lemma pushed_ZWF k (v : V) n t : valid k -> ZWF (mkZosdit n (entries t)) -> Forall (apart_from (lo k) (hi k)) (entries t) -> ZWF (mkZosdit (n + 1) (pushed k v (search (entry_answer k) t))).
  Proof.
    intros Vk0 (Z & F & L) A. cbn [z_inner z_len] in *. apply valid_rk in Vk0 as Vk. pose proof (proj1 (search_place (entry_answer k)) t (entry_orderly' k _ Vk Z A)) as X.
    destruct (search (entry_answer k) t) as [[a x] b]. destruct X as [E Fx]. rewrite E in *. clear E. destruct x as [[k' vs]|]; cbn [olist app pushed] in *.
    - apply Forall_app in A. destruct A as [Aa A]. apply Forall_cons_iff in A. destruct A as [Ak Ab]. pose proof Z as Z0. apply ZS_app in Z. destruct Z as (_ & Z & _). apply ZS_cons in Z. destruct Z as (Vk' & _ & _).
      unfold apart_from, elo, ehi in Ak, Vk'. cbn [fst] in Ak, Vk'. cbn [fst] in Fx. unfold entry_answer in Fx.
      destruct (entry_comp_rk k' k Vk' Vk Ak) as [(_ & L1 & L2)|[(E & _)|(E & _)]]; [|rewrite E in Fx; discriminate..].
      split; [|split]; cbn [z_inner z_len].
      + rewrite ZS_app, ZS_cons in *. destruct Z0 as (Wa & (X & Wb & Lb) & Lab). split; [exact Wa|]. split; [split; [exact X|]; split; [exact Wb|exact Lb]|]. intros x y Hx [<-|Hy]; [exact (Lab x (k', vs) Hx (or_introl eq_refl))|apply Lab; [exact Hx|right; exact Hy]].
      + rewrite Forall_app, Forall_cons_iff in *. destruct F as (Fa & _ & Fb). split; [exact Fa|]. split; [|exact Fb]. split; [destruct vs; discriminate|]. unfold elo, ehi. cbn [fst]. lia.
      + unfold count in *. rewrite flatten_app, flatten_cons in *. rewrite map_app, !app_length in *. cbn [map length]. lia.
    - apply Forall_app in A. destruct A as [Aa Ab]. destruct Fx as [Fa Fb]. pose proof Z as Z0. apply ZS_app in Z0. destruct Z0 as (Wa & Wb & Lab). split; [|split]; cbn [z_inner z_len].
      + apply ZS_app. split; [exact Wa|]. assert (Xb : forall e, In e b -> (hi k <= elo e)%Z).
        { rewrite Forall_forall in *. intros e He. specialize (Fb e He). specialize (Ab e He). pose proof (ZS_okv _ _ Wb He) as Ve.
          unfold entry_answer, apart_from, elo, ehi in *. destruct (entry_comp_rk (fst e) k Ve Vk Ab) as [(E & ?)|[(E & ?)|(E & ?)]]; rewrite E in Fb; [discriminate|discriminate|lia]. }
        assert (Xa : forall e, In e a -> (ehi e <= lo k)%Z).
        { rewrite Forall_forall in *. intros e He. specialize (Fa e He). specialize (Aa e He). pose proof (ZS_okv _ _ Wa He) as Ve.
          unfold entry_answer, apart_from, elo, ehi in *. destruct (entry_comp_rk (fst e) k Ve Vk Aa) as [(E & ?)|[(E & ?)|(E & ?)]]; rewrite E in Fa; [discriminate|lia|discriminate]. }
        split; [apply ZS_cons; split; [exact Vk|]; split; [exact Wb|]; apply Forall_forall; exact Xb|]. intros x y Hx [<-|Hy]; [apply Xa, Hx|apply Lab; assumption].
      + rewrite Forall_app in *. destruct F as [F1 F2]. split; [exact F1|]. constructor; [|exact F2]. split; [discriminate|]. intros _. exists v. reflexivity.
      + unfold count in *. rewrite flatten_app, flatten_cons in *. rewrite !app_length in *. cbn [map length]. lia.
  Qed.
  Lemma a_strict_back z t k v w : ZWF z -> entries t = z_inner z ->
    let r := fst (insert_strict_back_e P ik k v (z_len z) t w) in
    r = (z, Panic) \/ r = insert_strict_back k v z /\ fst r = z \/
    valid k /\ Forall (apart_from (lo k) (hi k)) (z_inner z) /\ r = (mkZosdit (z_len z + 1) (pushed k v (search (entry_answer k) t)), Val (Ok tt)) /\
      snd (insert_strict_back k v z) = Val (Ok tt).
  Proof.
    intros Wz E. pose proof Wz as (Z & _). unfold insert_strict_back_e, insert_strict_back. replace (mkZosdit (z_len z) (entries t)) with z by (destruct z; cbn in *; congruence). cbv zeta. unfold zbind.
    pose proof (a_iip ik RK k w) as X. destruct (invalid_interval_panic_e ik k w) as [o w1]. cbn in X.
    destruct (valid_dec k) as [Vk|Nk]; [rewrite (iip_valid _ Vk) in *|rewrite (iip_invalid _ Nk) in *; destruct X as [->| ->]; left; reflexivity].
    destruct X as [->| ->]; [|left; reflexivity]. pose proof (a_zero_overlap ik RK z t k Wz E w1) as X. destruct (is_zero_overlap_e P ik ik t k w1) as [o w2]. cbn in X. destruct X as [->| ->]; [|left; reflexivity].
    pose proof (apart_of_zero z k Wz Vk) as A. destruct (is_zero_overlap z k) as [[|]|]; cbn [negb]; [|right; left; split; reflexivity|left; reflexivity]. specialize (A eq_refl). apply valid_rk in Vk as Vk'.
    assert (X : may (e_search (fun inner => entry_comp_e P ik inner k) t) (Val (search (entry_answer k) t))).
    { apply (proj1 (a_search_in _ (entry_answer k))). intros e He. rewrite E in He. rewrite <- (entry_answer_val k (fst e)); [apply a_entry_comp|exact Vk'|apply (ZS_okv _ _ Z He)|]. rewrite Forall_forall in A. exact (A e He). }
    specialize (X w2). destruct (e_search (fun inner => entry_comp_e P ik inner k) t w2) as [o w3]. cbn in X. destruct X as [->| ->]; [|left; reflexivity].
    right. right. split; [exact Vk|]. split; [exact A|]. split; [cbn [fst]; unfold pushed, zret; destruct (search (entry_answer k) t) as [[a [[k' vs]|]] b]; reflexivity|].
    rewrite (entry_push_seek k v (z_inner z)); [reflexivity|]. intros e He. rewrite Forall_forall in A. apply entry_answer_val; [exact Vk'|apply (ZS_okv _ _ Z He)|apply (A e He)].
  Qed.
  Lemma a_strict_back_where z t k v w z' w' : ZWF z -> entries t = z_inner z -> insert_strict_back_e P ik k v (z_len z) t w = ((z', Val (Ok tt)), w') ->
    zosdit_len z' = zosdit_len z + 1 /\ exists l1 l2 k', zosdit_iter z = l1 ++ l2 /\ zosdit_iter z' = l1 ++ (k', v) :: l2 /\
      same_points k' k /\ (forall e, In e l1 -> up_to (fst e) k) /\ (forall e, In e l2 -> up_to k (fst e)).
  Proof.
    intros Wz E X. pose proof (a_strict_back z t k v w Wz E) as Y. cbv zeta in Y. rewrite X in Y. cbn [fst] in Y. destruct Y as [Y|[[Y Y']|(Vk & A & Y & _)]]; [discriminate| |].
    { exfalso. subst z'. unfold insert_strict_back in Y. destruct (invalid_interval_panic k); [|discriminate]. destruct (is_zero_overlap z k) as [[|]|]; cbn [negb] in Y; try discriminate.
      destruct (entry_push k v [] (z_inner z)) as [i|]; [|discriminate]. injection Y as Y. destruct z as [n i0]. cbn in Y. injection Y as Y _. lia. }
    injection Y as ->. split; [reflexivity|]. pose proof Wz as (Z & _). apply valid_rk in Vk.
    rewrite <- E in Z, A. destruct (t_entry_push_any k v t Vk Z A) as (l1 & l2 & k' & E1 & E2 & L1 & L2 & F1 & F2). unfold t_entry_push in E2.
    exists l1, l2, k'. unfold zosdit_iter. cbn [z_inner]. rewrite <- E. split; [exact E1|]. split; [exact E2|].
    assert (Hin : forall e, In e (l1 ++ l2) -> (elo e <= ehi e)%Z).
    { intros e He. apply (iter_okv z e Wz). unfold zosdit_iter. rewrite <- E, E1. exact He. }
    split; [intros x; rewrite !covers_rk, L1, L2; tauto|]. rewrite Forall_forall in F1, F2. split; intros e He.
    - apply up_to_rk; [apply Hin, in_or_app; left; exact He|exact Vk|apply (F1 e He)].
    - apply up_to_rk; [exact Vk|apply Hin, in_or_app; right; exact He|apply (F2 e He)].
  Qed.
  Lemma lands_ZWF {A} l (r : ZosditMap K V * outcome A) ts : lands l r ts -> ZWF (fst r) -> (forall s, In s ts -> ZWF s) -> ZWF (fst l).
  Proof. intros [->|[_ X]] Y S; [exact Y|apply S, X]. Qed.
  Context (overlaps_k : K -> K -> user W bool) (RO : overlaps_or_panic overlaps_k).
  Lemma a_zcall below t c z w : ZWF z -> entries t = z_inner z -> ZWF (fst (fst (zcall_do C P ik kc overlaps_k below t c (z_len z) w))).
  Proof.
    intros Wz E. destruct c as [k v|p|q]; cbn [zcall_do]; unfold seeing.
    - pose proof (a_strict_back z t k v w Wz E) as X. cbv zeta in X. destruct (insert_strict_back_e P ik k v (z_len z) t w) as [[z1 o] w1]. cbn [fst] in *.
      destruct X as [X|[[_ X]|(Vk & A & X & _)]]; [injection X as -> _; exact Wz|subst z1; exact Wz|injection X as -> _]. apply pushed_ZWF; [exact Vk|destruct z; cbn in *; rewrite E; exact Wz|rewrite E; exact A].
    - pose proof (a_remove_last z t p [z] Wz E (or_introl eq_refl) w) as X. destruct (remove_last_value_at_point_e P ik kc p (z_len z) t w) as [[z1 o] w1]. cbn [fst] in *.
      apply (lands_ZWF _ _ _ X); [exact (zstep_ZWF z (ZRemoveLast p) Wz)|intros s [<-|[]]; exact Wz].
    - pose proof (a_zcut ik RK overlaps_k RO below z t q Wz E w) as X. destruct (zosdit_cut_e P ik C ik overlaps_k below q (z_len z) t w) as [[z1 o] w1]. cbn [fst] in *.
      apply (lands_ZWF _ _ _ X); [exact (zstep_ZWF z (ZCut q) Wz)|intros s; apply zcut_t_ZWF, Wz].
  Qed.
  Lemma a_zhistory below T cs : faithful T -> forall z w, ZWF z -> ZWF (fst (fst (zehistory C P ik kc overlaps_k below T cs z w))).
  Proof.
    intros TF. induction cs as [|c cs IH]; intros z w Wz; [exact Wz|]. cbn [zehistory].
    pose proof (a_zcall below (T (length cs) (z_inner z)) c z w Wz (TF _ _)) as X. destruct (zcall_do _ _ _ _ _ _ _ c _ w) as [[z1 s] w1]. cbn [fst] in X.
    specialize (IH z1 w1 X). destruct (zehistory _ _ _ _ _ _ _ cs z1 w1) as [[z2 h2] w2]. exact IH.
  Qed.
End Right.
