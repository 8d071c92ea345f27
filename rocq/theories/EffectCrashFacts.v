(** * EffectCrashFacts: facts behind C163, user code that gives the right answers or panics. *)
From Coq Require Import List Bool ZArith Lia.
From Verif Require Import Base BTree UtilsModel IntervalModel NoditModel NoditOps Spec TreeShape LooksOps CrashModel
  PointFacts IntervalFacts NoditFacts NoditInv NoditQueries NoditMutations TreeFacts TreeProofs LooksFacts CrashFacts CrashProofs
  EffectModel EffectOps EffectRight EffectCrashOps.
Import ListNotations.
Open Scope nat_scope.

Section Bind.
  Context {W K V : Type}.
  (** User code that uses up calls. *)
  Definition usims {A} (x : user W A) (c : nat -> option (A * nat)) : Prop := forall w,
    match fst (x w) with Val a => exists n, forall more, c (n + more) = Some (a, more) | Panic => exists n, c n = None end.
  Lemma usims_ret {A} (x : user W A) a : answers x (Val a) -> usims x (fun fuel => Some (a, fuel)).
  Proof. intros X w. rewrite X. exists 0. reflexivity. Qed.
  Lemma usims_call {A} (x : user W A) a : right_or_panic x a -> usims x (fun fuel => match user_call fuel with Some fuel => Some (a, fuel) | None => None end).
  Proof. intros X w. destruct (X w) as [-> | ->]; [exists 1|exists 0]; reflexivity. Qed.
  Lemma usims_bind {A B} (x : user W A) (f : A -> user W B) c g : usims x c -> (forall a n d, c n = Some (a, d) -> usims (f a) (g a)) ->
    usims (ubind x f) (fun fuel => match c fuel with Some (a, fuel) => g a fuel | None => None end).
  Proof.
    intros X Y w. unfold ubind. specialize (X w). destruct (x w) as [[a|] w1]; cbn [fst] in *.
    - destruct X as [n X]. specialize (Y a _ _ (X 0) w1). destruct (fst (f a w1)) as [b|]; destruct Y as [n' Y].
      + exists (n + n'). intros more. rewrite <- Nat.add_assoc, X. apply Y.
      + exists (n + n'). rewrite X. exact Y.
    - destruct X as [n X]. exists n. rewrite X. reflexivity.
  Qed.
  Lemma usims_abind {A B} (x : user W A) (f : A -> user W B) a c : answers x (Val a) -> usims (f a) c -> usims (ubind x f) c.
  Proof. intros X Y w. unfold ubind. specialize (X w). destruct (x w) as [o w1]. cbn in X. subst o. apply Y. Qed.
  Lemma usims_eq {A} (x : user W A) c c' : (forall n, c n = c' n) -> usims x c -> usims x c'.
  Proof. intros E X w. specialize (X w). destruct (fst (x w)); destruct X as [n X]; exists n; intros; rewrite <- E; apply X. Qed.

  Definition msims {A} (x : changing W K V A) (c : nat -> NoditMap K V * outcome (A * nat)) : Prop := forall w, stops_as (fst (x w)) c.
  Lemma msims_ret {A} m (a : A) : msims (mret m (Val a)) (fun fuel => (m, Val (a, fuel))).
  Proof. intros w. exists 0. reflexivity. Qed.
  Lemma msims_eq {A} (x : changing W K V A) c c' : (forall n, c n = c' n) -> msims x c -> msims x c'.
  Proof. intros E X w. specialize (X w). unfold stops_as in *. destruct (snd (fst (x w))); destruct X as [n X]; exists n; intros; rewrite <- E; apply X. Qed.
  Lemma msims_bind {A B} m (x : user W A) (f : A -> changing W K V B) a c : answers x (Val a) -> msims (f a) c -> msims (mbind m x f) c.
  Proof. intros X Y w. unfold mbind. specialize (X w). destruct (x w) as [o w']. cbn in X. subst o. apply Y. Qed.
  Lemma msims_panic {A B} m (x : user W A) (f : A -> changing W K V B) c : answers x Panic -> (exists n, c n = (m, Panic)) -> msims (mbind m x f) c.
  Proof. intros X Y w. unfold mbind. specialize (X w). destruct (x w) as [o w']. cbn in X. subst o. exact Y. Qed.
  Lemma msims_obind {A B} m (x : user W A) (f : A -> changing W K V B) o g : answers x o -> (forall a, o = Val a -> msims (f a) (g a)) ->
    msims (mbind m x f) (fun fuel => match o with Val a => g a fuel | Panic => (m, Panic) end).
  Proof. intros X Y. destruct o as [a|]; [exact (msims_bind _ _ _ _ _ X (Y a eq_refl))|]. apply (msims_panic _ _ _ _ X). exists 0. reflexivity. Qed.
  Lemma msims_ubind {A B} m (x : user W A) (f : A -> changing W K V B) c g : usims x c -> (forall a n d, c n = Some (a, d) -> msims (f a) (g a)) ->
    msims (mbind m x f) (fun fuel => match c fuel with Some (a, fuel) => g a fuel | None => (m, Panic) end).
  Proof.
    intros X Y w. unfold mbind. specialize (X w). destruct (x w) as [[a|] w1]; cbn [fst] in *.
    - destruct X as [n X]. specialize (Y a _ _ (X 0) w1). unfold stops_as in *. destruct (snd (fst (f a w1))) as [b|]; destruct Y as [n' Y].
      + exists (n + n'). intros more. rewrite <- Nat.add_assoc, X. apply Y.
      + exists (n + n'). rewrite X. exact Y.
    - destruct X as [n X]. exists n. rewrite X. reflexivity.
  Qed.
  Lemma msims_then {A B} (x : changing W K V A) (f : NoditMap K V -> A -> changing W K V B) c g : msims x c ->
    (forall m a n d, c n = (m, Val (a, d)) -> msims (f m a) (g m a)) ->
    msims (mthen x f) (fun fuel => match c fuel with (m, Val (a, fuel)) => g m a fuel | (m, Panic) => (m, Panic) end).
  Proof.
    intros X Y w. unfold mthen. specialize (X w). destruct (x w) as [[m [a|]] w1]; unfold stops_as in X; cbn [fst snd] in *.
    - destruct X as [n X]. specialize (Y m a _ _ (X 0) w1). unfold stops_as in *. destruct (snd (fst (f m a w1))) as [b|]; destruct Y as [n' Y].
      + exists (n + n'). intros more. rewrite <- Nat.add_assoc, X. apply Y.
      + exists (n + n'). rewrite X. exact Y.
    - destruct X as [n X]. exists n. rewrite X. reflexivity.
  Qed.
  (** A call that uses no fallible user code. *)
  Lemma msims_then_right {A B} (x : changing W K V A) (f : NoditMap K V -> A -> changing W K V B) m o g : gives x (m, o) ->
    (forall a, o = Val a -> msims (f m a) (g m a)) ->
    msims (mthen x f) (fun fuel => match o with Val a => g m a fuel | Panic => (m, Panic) end).
  Proof.
    intros X Y w. unfold mthen. specialize (X w). destruct (x w) as [[m1 r] w1]. cbn [fst] in X. injection X as -> ->.
    destruct o as [a|]; [exact (Y a eq_refl w1)|]. exists 0. reflexivity.
  Qed.
End Bind.

Section Maps.
  Context {W I : Type} `{PL : PointLaws I}.
  Context {K : Type} {IK : InclusiveInterval I K} {IL : IntervalLaws I K}.
  Context {V : Type} (veq : V -> V -> bool).
  Context (P : point_code W I) (RP : right_points P) (ik : interval_code W I K) (RK : right_intervals ik).
  Context (C : entry_code W I K V) (RC : entries_or_panic veq C).
  Let rF := proj1 RC. Let rC := proj1 (proj2 RC). Let rV := proj2 (proj2 RC).
  Notation roc := (r_overlapping_comp P RP ik RK).

  Definition piece_c (p : option (Interval I)) (v : V) (fuel : nat) : option (list (K * V) * nat) :=
    match p with
    | None => Some ([], fuel)
    | Some i => match user_call fuel with None => None | Some fuel => match user_call fuel with None => None | Some fuel => Some ([(ifrom i, v)], fuel) end end
    end.
  Lemma piece_c_eq p v pre fuel : insert_piece_c p v pre fuel = match piece_c p v fuel with Some (l, fuel) => (pre ++ l, Some fuel) | None => (pre, None) end.
  Proof.
    destruct p as [i|]; cbn [insert_piece_c piece_c]; [|rewrite app_nil_r; reflexivity].
    destruct (user_call fuel) as [f|]; [|reflexivity]. destruct (user_call f) as [f1|]; reflexivity.
  Qed.
  Lemma s_piece p v : usims (piece_e C p v) (piece_c p v).
  Proof.
    destruct p as [i|]; [|exact (usims_ret _ _ (answers_ret _))]. cbn [piece_e].
    eapply usims_eq; [|apply usims_bind; [apply usims_call, rF|intros k n d _; apply usims_bind; [apply usims_call, rC|intros v' n' d' _; apply usims_ret, answers_ret]]].
    intros n. cbn [piece_c]. cbv beta. destruct (user_call n) as [f|] eqn:E1; [|reflexivity]. destruct (user_call f); reflexivity.
  Qed.
  Section Q.
    Context {Q : Type} {IQ : InclusiveInterval I Q} (iq : interval_code W I Q) (RQ : right_intervals iq).
    Context (k_overlaps : K -> Q -> user W bool) (RKO : right_overlaps k_overlaps).
    Lemma s_cut_loop q post : forall pre acc, msims (cut_loop_e P ik C iq k_overlaps q pre post acc) (cut_loop_c q pre post acc).
    Proof.
      induction post as [|[k v] rest IH]; intros pre acc; [apply msims_ret|]. cbn [cut_loop_e].
      pose proof (RKO k q) as X. pose proof (r_cut_interval P RP ik iq RK RQ k q) as Y.
      destruct (overlaps k q) as [[|]|] eqn:E.
      - eapply msims_bind; [exact X|]. cbv beta iota. destruct (cut_interval k q) as [r|] eqn:Er.
        + eapply msims_bind; [exact Y|]. cbv beta.
          eapply msims_eq; [|apply msims_ubind; [apply s_piece|intros before n1 d1 _; apply msims_ubind; [apply s_piece|intros after n2 d2 _;
            apply (msims_obind _ _ _ (unwrap (inside_cut r)) (fun i fuel => match user_call fuel with None => ((pre ++ before ++ after) ++ rest, Panic)
               | Some fuel => cut_loop_c q (pre ++ before ++ after) rest (acc ++ [(ifrom i, v)]) fuel end)); [apply answers_out|]]]].
          * intros n. cbn [cut_loop_c]. rewrite E, Er, piece_c_eq. destruct (piece_c (before_cut r) v n) as [[l1 f1]|]; [|reflexivity].
            rewrite piece_c_eq. destruct (piece_c (after_cut r) v f1) as [[l2 f2]|]; [|reflexivity]. rewrite <- (app_assoc pre l1 l2).
            destruct (inside_cut r) as [i|]; reflexivity.
          * intros i _. eapply msims_eq; [|apply msims_ubind; [apply usims_call, rF|intros k1 n3 d3 X3; apply IH]].
            intros n. cbv beta. destruct (user_call n); reflexivity.
        + apply (msims_panic _ _ _ _ Y). exists 0. cbn [cut_loop_c]. rewrite E, Er. reflexivity.
      - eapply msims_bind; [exact X|]. cbv beta iota. eapply msims_eq; [|apply msims_ret]. intros n. cbn [cut_loop_c]. rewrite E. reflexivity.
      - apply (msims_panic _ _ _ _ X). exists 0. cbn [cut_loop_c]. rewrite E. reflexivity.
    Qed.
    Lemma s_cut m t q : WF m -> entries t = m -> msims (cut_e P ik C iq k_overlaps q t) (cut_c q m).
    Proof.
      intros Wm E. unfold cut_e, cut_c. rewrite E. apply msims_obind; [apply r_iip, RQ|]. intros _ _.
      eapply msims_bind; [apply (r_start iq RQ)|]. eapply msims_bind; [apply (r_lower _ _ (roc _) m (orderly_ol _ m Wm) t E)|]. apply s_cut_loop.
    Qed.
  End Q.

  Context (overlaps_k : K -> K -> user W bool) (RO : right_overlaps overlaps_k).
  Context (T : nat -> BTreeMap K V -> tree K V) (TF : faithful T).
  Lemma s_insert_overwrite m k v : WF m -> msims (insert_overwrite_e P ik C overlaps_k T k v m) (insert_overwrite_c k v m).
  Proof.
    intros Wm. unfold insert_overwrite_e, insert_overwrite_c. apply msims_obind; [apply r_iip, RK|]. intros _ _.
    eapply msims_eq; [|apply (msims_then _ _ (cut_c k m) (fun m c fuel => (insert_unchecked k v m, Val (c, fuel)))); [apply (s_cut ik RK overlaps_k RO m (T 0 m) k Wm (TF 0 m))|]].
    - intros n. cbv beta. destruct (cut_c k m n) as [m1 [[c f]|]]; reflexivity.
    - intros m1 c n d E. assert (W1 : WF m1) by (pose proof (cut_c_WF k m n Wm) as X; rewrite E in X; exact X).
      eapply msims_bind; [apply (r_insert_unchecked P RP ik RK); [exact W1|apply TF]|]. apply msims_ret.
  Qed.

  (** ** Merging *)
  Definition s_gets (g' : tree K V -> user W (option K)) (g : NoditMap K V -> nat -> option (option K * nat)) : Prop :=
    forall m t, WF m -> entries t = m -> usims (g' t) (g m).
  Definition s_takes (r' : tree K V -> user W (BTreeMap K V)) (r : NoditMap K V -> nat -> NoditMap K V * option nat) : Prop :=
    forall m t, WF m -> entries t = m ->
    usims (r' t) (fun fuel => match r m fuel with (m', Some fuel) => Some (m', fuel) | (_, None) => None end) /\
    (forall f m' o, r m f = (m', o) -> WF m') /\ (forall f m', r m f = (m', None) -> m' = m).
  Lemma pure_gets g' g v : r_gets g' (fun m => g m v) -> s_gets g' (fun m => pure_get g m v).
  Proof. intros X m t Wm E. apply usims_ret, X; assumption. Qed.
  Lemma pure_takes r' r v : r_takes r' (fun m => r m v) -> s_takes r' (fun m => pure_remove r m v).
  Proof.
    intros X m t Wm E. destruct (X m t Wm E) as [Y Z]. split; [|split].
    - apply usims_ret, Y.
    - intros f m' o [= <- <-]. exact Z.
    - intros f m' [=].
  Qed.
  Section Comp.
    Context (point : user W I) (p : I) (RPt : answers point (Val p)) (comp' : I -> K -> user W comparison) (comp : I -> K -> comparison)
      (RCo : forall p k, answers (comp' p k) (Val (comp p k))) (OC : forall p, orderly_always (V := V) (comp p)).
    Lemma s_key_if_gets v : s_gets (key_if_e C v point comp') (fun m => get_if_equal_c veq (comp p) m v).
    Proof.
      intros m t Wm E. eapply usims_abind; [exact RPt|]. eapply usims_abind; [apply (r_get _ _ (RCo p) m (OC p m Wm) t E)|]. unfold get_if_equal_c.
      destruct (get_key_value (comp p) m) as [[k' v']|]; [|exact (usims_ret _ _ (answers_ret _))].
      eapply usims_eq; [|apply usims_bind; [apply usims_call, rV|intros b n d X; apply (usims_ret _ _ (answers_ret _))]].
      intros n. cbv beta. destruct (user_call n); reflexivity.
    Qed.
    Lemma s_remove_if_takes v : s_takes (remove_if_e C v point comp') (fun m => remove_if_equal_c veq (comp p) m v).
    Proof.
      intros m t Wm E. pose proof (r_remove_takes point p RPt comp' comp RCo OC m t Wm E) as [Y Z]. split; [|split].
      - eapply usims_eq; [|apply usims_bind; [apply (s_key_if_gets v m t Wm E)|]].
        2: { intros e n d X. apply (usims_ret _ (if is_some e then fst (remove (comp p) m) else m)). destruct (is_some e); [exact Y|rewrite E; apply answers_ret]. }
        intros n. cbv beta. unfold remove_if_equal_c. destruct (get_if_equal_c veq (comp p) m v n) as [[e f]|]; reflexivity.
      - intros f m' o. unfold remove_if_equal_c. destruct (get_if_equal_c veq (comp p) m v f) as [[e f']|]; [|intros [= <- <-]; exact Wm].
        intros [= <- <-]. destruct (is_some e); [exact Z|exact Wm].
      - intros f m'. unfold remove_if_equal_c. destruct (get_if_equal_c veq (comp p) m v f) as [[e f']|]; intros [=]; congruence.
    Qed.
  End Comp.
  Lemma s_merge k v gs ge rs re gs' ge' rs' re' m : WF m ->
    s_gets gs' (fun m => gs m v) -> s_gets ge' (fun m => ge m v) -> s_takes rs' (fun m => rs m v) -> s_takes re' (fun m => re m v) ->
    msims (insert_merge_with_comps_e P ik C overlaps_k T k v gs' ge' rs' re' m) (insert_merge_with_comps_c k v gs ge rs re m).
  Proof.
    intros Wm Gs Ge Rs Re. unfold insert_merge_with_comps_e. destruct (valid_dec k) as [Vk|Nk].
    - eapply msims_bind; [rewrite <- (iip_valid _ Vk); apply r_iip, RK|].
      destruct (remove_overlapping_spec m k Wm Vk) as (m1 & rem & R & _ & _ & W1).
      eapply msims_eq; [|apply msims_ubind; [apply Gs; [exact Wm|apply TF]|intros ms n1 d1 _; apply msims_ubind; [apply Ge; [exact Wm|apply TF]|intros me n2 d2 _;
        apply (msims_ubind _ _ _ (returning_c k ms me)); [|intros ret n3 d3 _;
        apply (msims_then_right _ _ m1 (Val rem) (fun m _ fuel => match rs m v fuel with
          | (_, None) => (m, Panic)
          | (m, Some fuel) => match re m v fuel with
             | (_, None) => (m, Panic) | (m, Some fuel) => (insert_unchecked ret v m, Val (ret, fuel)) end end))]]]].
      + intros n. cbv beta iota. unfold insert_merge_with_comps_c. rewrite (iip_valid _ Vk). destruct (gs m v n) as [[ms f1]|]; [|reflexivity].
        destruct (ge m v f1) as [[me f2]|]; [|reflexivity]. destruct (returning_c k ms me f2) as [[ret f3]|]; [|reflexivity]. rewrite R.
        destruct (rs m1 v f3) as [m2 [f4|]] eqn:E2; [|rewrite (proj2 (proj2 (Rs m1 (T 1 m1) W1 (TF 1 m1))) _ _ E2); reflexivity].
        pose proof (proj1 (proj2 (Rs m1 (T 1 m1) W1 (TF 1 m1))) _ _ _ E2) as W2.
        destruct (re m2 v f4) as [m3 [f5|]] eqn:E3; [reflexivity|rewrite (proj2 (proj2 (Re m2 (T 2 m2) W2 (TF 2 m2))) _ _ E3); reflexivity].
      + destruct ms as [s|], me as [e|]; cbn [returning_c]; try (exact (usims_ret _ _ (answers_ret _)));
          (eapply usims_abind; [apply (r_start ik RK)|]; eapply usims_abind; [apply (r_end ik RK)|]; apply usims_call, rF).
      + rewrite <- R. apply (r_remove_overlapping P RP ik RK ik RK overlaps_k RO m (T 0 m) k Wm (TF 0 m)).
      + intros _ _. destruct (Rs m1 (T 1 m1) W1 (TF 1 m1)) as (S1 & W2 & _).
        eapply msims_eq; [|apply msims_ubind; [exact S1|intros m2 n4 d4 X4]].
        * intros n. cbv beta. instantiate (1 := fun m2 fuel => match re m2 v fuel with (_, None) => (m2, Panic) | (m3, Some fuel) => (insert_unchecked ret v m3, Val (ret, fuel)) end).
          destruct (rs m1 v n) as [m2 [f|]]; reflexivity.
        * assert (W2' : WF m2). { cbv beta in X4. destruct (rs m1 v n4) as [m2' [f|]] eqn:E2; [|discriminate]. injection X4 as -> ->. exact (W2 _ _ _ E2). }
          destruct (Re m2 (T 2 m2) W2' (TF 2 m2)) as (S2 & W3 & _).
          eapply msims_eq; [|apply msims_ubind; [exact S2|intros m3 n5 d5 X5]].
          -- intros n. cbv beta. instantiate (1 := fun m3 fuel => (insert_unchecked ret v m3, Val (ret, fuel))). destruct (re m2 v n) as [m3 [f|]]; reflexivity.
          -- assert (W3' : WF m3). { cbv beta in X5. destruct (re m2 v n5) as [m3' [f|]] eqn:E3; [|discriminate]. injection X5 as -> ->. exact (W3 _ _ _ E3). }
             eapply msims_bind; [apply (r_insert_unchecked P RP ik RK); [exact W3'|apply TF]|]. apply msims_ret.
    - eapply msims_panic; [rewrite <- (iip_invalid _ Nk); apply r_iip, RK|]. exists 0. unfold insert_merge_with_comps_c. rewrite (iip_invalid _ Nk). reflexivity.
  Qed.
  Notation rts := (r_touching_start P RP ik RK).
  Notation rte := (r_touching_end P RP ik RK).
  Notation rs := (r_start ik RK).
  Notation re := (r_end ik RK).
  Lemma s_merge_overlapping m k v : WF m -> msims (insert_merge_overlapping_e P ik C overlaps_k T k v m) (insert_merge_overlapping_c k v m).
  Proof.
    intros Wm. unfold insert_merge_overlapping_e, insert_merge_overlapping_c. apply msims_obind; [apply r_iip, RK|]. intros _ _.
    apply s_merge; [exact Wm|apply pure_gets|apply pure_gets|apply pure_takes|apply pure_takes].
    - exact (r_key_gets _ _ (rs k) _ _ roc orderly_ol).
    - exact (r_key_gets _ _ (re k) _ _ roc orderly_ol).
    - exact r_nothing_takes.
    - exact r_nothing_takes.
  Qed.
  Lemma s_merge_both m k v : WF m -> msims (insert_merge_touching_or_overlapping_e P ik C overlaps_k T k v m) (insert_merge_touching_or_overlapping_c k v m).
  Proof.
    intros Wm. unfold insert_merge_touching_or_overlapping_e, insert_merge_touching_or_overlapping_c. apply msims_obind; [apply r_iip, RK|]. intros _ _.
    apply s_merge; [exact Wm|apply pure_gets|apply pure_gets|apply pure_takes|apply pure_takes].
    - exact (r_key_or_gets _ _ _ _ _ _ (rs k) rts roc orderly_ts orderly_ol).
    - exact (r_key_or_gets _ _ _ _ _ _ (re k) rte roc orderly_te orderly_ol).
    - exact (r_remove_takes _ _ (rs k) _ _ rts orderly_ts).
    - exact (r_remove_takes _ _ (re k) _ _ rte orderly_te).
  Qed.
  Lemma s_ok (x : changing W K V K) c : msims x c ->
    msims (mthen x (fun m r => mret m (Val (Ok (E := V) r)))) (fun fuel => let (m, r) := c fuel in (m, omap (fun x => (Ok (fst x), snd x)) r)).
  Proof.
    intros X. eapply msims_eq; [|apply (msims_then _ _ _ (fun m r fuel => (m, Val (Ok (E := V) r, fuel))) X); intros; apply msims_ret].
    intros n. cbv beta. destruct (c n) as [m [[r f]|]]; reflexivity.
  Qed.
  Lemma s_merge_touching m k v : WF m -> msims (insert_merge_touching_e P ik C overlaps_k T k v m) (insert_merge_touching_c k v m).
  Proof.
    intros Wm. unfold insert_merge_touching_e, insert_merge_touching_c. apply msims_obind; [apply r_iip, RK|]. intros _ _.
    pose proof (r_map_overlaps P RP ik RK ik RK m (T 0 m) k Wm (TF 0 m)) as X. destruct (map_overlaps m k) as [b|]; [|apply (msims_panic _ _ _ _ X); exists 0; reflexivity].
    eapply msims_bind; [exact X|]. destruct b; [apply msims_ret|]. apply s_ok.
    apply s_merge; [exact Wm|apply pure_gets|apply pure_gets|apply pure_takes|apply pure_takes].
    - exact (r_key_gets _ _ (rs k) _ _ rts orderly_ts).
    - exact (r_key_gets _ _ (re k) _ _ rte orderly_te).
    - exact (r_remove_takes _ _ (rs k) _ _ rts orderly_ts).
    - exact (r_remove_takes _ _ (re k) _ _ rte orderly_te).
  Qed.
  Lemma s_merge_equal m k v : WF m -> msims (insert_merge_touching_if_values_equal_e P ik C overlaps_k T k v m) (insert_merge_touching_if_values_equal_c veq k v m).
  Proof.
    intros Wm. unfold insert_merge_touching_if_values_equal_e, insert_merge_touching_if_values_equal_c. apply msims_obind; [apply r_iip, RK|]. intros _ _.
    pose proof (r_map_overlaps P RP ik RK ik RK m (T 0 m) k Wm (TF 0 m)) as X. destruct (map_overlaps m k) as [b|]; [|apply (msims_panic _ _ _ _ X); exists 0; reflexivity].
    eapply msims_bind; [exact X|]. destruct b; [apply msims_ret|]. apply s_ok. apply s_merge; [exact Wm| | | |].
    - exact (s_key_if_gets _ _ (rs k) _ _ rts orderly_ts v).
    - exact (s_key_if_gets _ _ (re k) _ _ rte orderly_te v).
    - exact (s_remove_if_takes _ _ (rs k) _ _ rts orderly_ts v).
    - exact (s_remove_if_takes _ _ (re k) _ _ rte orderly_te v).
  Qed.
End Maps.

Section History.
  Context {W I : Type} `{PL : PointLaws I}.
  Context {K : Type} {IK : InclusiveInterval I K} {IL : IntervalLaws I K}.
  Context {V : Type} (veq : V -> V -> bool).
  Context (P : point_code W I) (RP : right_points P) (ik : interval_code W I K) (RK : right_intervals ik).
  Context (C : entry_code W I K V) (RC : entries_or_panic veq C).
  Context (overlaps_k : K -> K -> user W bool) (RO : right_overlaps overlaps_k).
  Lemma stops_fst {S A} (r : S * outcome A) c : stops_as r c -> exists fuel, fst r = fst (c fuel).
  Proof. unfold stops_as. destruct (snd r); intros [n X]; [exists (n + 0)|exists n]; rewrite X; reflexivity. Qed.
  Lemma s_call T c m w : faithful T -> WF m -> exists fuel, fst (fst (ecall_do C P ik overlaps_k T c m w)) = step_c m (as_op veq c) fuel.
  Proof.
    intros TF Wm. destruct c; cbn [ecall_do as_op step_c]; rewrite fst_handing.
    - exists 0. cbn [step]. f_equal. exact (r_insert_strict P RP ik RK T TF m k v Wm w).
    - apply stops_fst, (s_merge_touching veq P RP ik RK C RC overlaps_k RO T TF m k v Wm).
    - apply stops_fst, (s_merge_equal veq P RP ik RK C RC overlaps_k RO T TF m k v Wm).
    - apply stops_fst, (s_merge_overlapping veq P RP ik RK C RC overlaps_k RO T TF m k v Wm).
    - apply stops_fst, (s_merge_both veq P RP ik RK C RC overlaps_k RO T TF m k v Wm).
    - apply stops_fst, (s_insert_overwrite veq P RP ik RK C RC overlaps_k RO T TF m k v Wm).
    - exists 0. cbn [step]. f_equal. exact (r_remove_overlapping P RP ik RK ik RK overlaps_k RO m (T 0 m) q Wm (TF 0 m) w).
    - apply stops_fst, (s_cut veq P RP ik RK C RC ik RK overlaps_k RO m (T 0 m) q Wm (TF 0 m)).
  Qed.
  Lemma s_history T cs : (forall n, faithful (T n)) -> forall m w, WF m ->
    exists fuels, length fuels = length cs /\
      fst (fst (ehistory C P ik overlaps_k T cs m w)) = fold_left (fun m of => step_c m (fst of) (snd of)) (combine (map (as_op veq) cs) fuels) m.
  Proof.
    intros TF. induction cs as [|c cs IH]; intros m w Wm; [exists []; split; reflexivity|]. cbn [ehistory].
    destruct (s_call (T (length cs)) c m w (TF _) Wm) as [f X]. destruct (ecall_do _ _ _ _ _ c m w) as [[m1 h] w1]. cbn [fst] in X.
    assert (W1 : WF m1) by (rewrite X; apply step_c_WF, Wm). destruct (IH m1 w1 W1) as (fs & L & Y).
    destruct (ehistory _ _ _ _ _ cs m1 w1) as [[m2 h2] w2]. cbn [fst] in *. exists (f :: fs). split; [cbn; congruence|]. cbn [map combine fold_left fst snd]. rewrite <- X. exact Y.
  Qed.
End History.
