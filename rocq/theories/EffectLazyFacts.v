(** * EffectLazyFacts: lemmas for C166. *)
From Coq Require Import List Bool ZArith Arith Lia.
From Verif Require Import Base BTree UtilsModel IntervalModel NoditModel NoditOps Spec TreeShape TreeFacts NoditFacts NoditInv NoditGaps IntervalFacts
  EffectModel EffectOps EffectFacts EffectMoreModel EffectMoreOps EffectMoreFacts EffectCrashOps EffectTraceOps EffectRight EffectMoreRight EffectTraceFacts EffectTraceMore EffectLazyModel.
Import ListNotations.
Open Scope nat_scope.

(** ** Any user code *)
Section Any.
  Context {W I K V : Type} `{DiscreteFinite I} (P : point_code W I) (ik : interval_code W I K) (C : entry_code W I K V).
  Notation window_next := (window_next P ik C). Notation gaps_next := (gaps_next P ik C). Notation draw := (draw P ik C). Notation collect := (collect P ik C).
  Lemma pair_gap_run {B} (first second : I * I) (some : K -> user W B) (none : user W B) w :
    (do! u := up_e P (snd first) in do! d := down_e P (fst second) in do! g := e_from C (mkInterval u d) in do! b := e_valid ik g in if b then some g else none) w =
    match pair_gap P ik C first second w with (Panic, w) => (Panic, w) | (Val (Some g), w) => some g w | (Val None, w) => none w end.
  Proof.
    unfold pair_gap, ubind. destruct (up_e P (snd first) w) as [[u|] w1]; [|reflexivity]. destruct (down_e P (fst second) w1) as [[d|] w2]; [|reflexivity].
    destruct (e_from C (mkInterval u d) w2) as [[g|] w3]; [|reflexivity]. destruct (e_valid ik g w3) as [[[]|] w4]; reflexivity.
  Qed.
  Definition gathered (x : (gaps_iter (I:=I) (K:=K) (V:=V) * list K * outcome bool) * W) : outcome (list K) * W :=
    let '((_, ks, o), w) := x in (match o with Val true => Val ks | _ => Panic end, w).
  Definition consed (k : K) (x : outcome (list K) * W) : outcome (list K) * W := match x with (Val ks, w) => (Val (k :: ks), w) | (Panic, w) => (Panic, w) end.
  Definition idle : K -> user W unit := fun _ => uret tt.
  Lemma gathered_cons k it ks o w : gathered ((it, k :: ks, o), w) = consed k (gathered ((it, ks, o), w)).
  Proof. destruct o as [[]|]; reflexivity. Qed.
  Lemma draw_step n it w : gathered (draw (S n) idle it w) =
    match gaps_next it w with
    | ((it, Panic), w) => (Panic, w)
    | ((it, Val None), w) => (Val [], w)
    | ((it, Val (Some k)), w) => consed k (gathered (draw n idle it w))
    end.
  Proof.
    cbn [EffectLazyModel.draw]. destruct (gaps_next it w) as [[it' [[k|]|]] w1]; [|reflexivity|reflexivity]. cbn [idle uret].
    destruct (draw n idle it' w1) as [[[it2 ks] o] w2]. apply gathered_cons.
  Qed.
  Lemma draw_end e n w : length e < n -> gathered (draw n idle (mkGaps [] None e) w) = (Val e, w).
  Proof.
    revert n. induction e as [|k e IH]; intros [|n] L; [cbn in L; lia| |cbn in L; lia|]; rewrite draw_step; [reflexivity|]. cbn [length] in L. cbn. rewrite IH by lia. reflexivity.
  Qed.
  (** What is left once the start is out of the way. *)
  Definition then_end (e : list K) (x : outcome (list K) * W) : outcome (list K) * W := match x with (Val ks, w) => (Val (ks ++ e), w) | (Panic, w) => (Panic, w) end.
  Lemma draw_windows first (l : list (K * V)) : forall n e w, length l + length e < n ->
    gathered (draw n idle (mkGaps [] (Some (Some first, l)) e) w) = then_end e (windows_e P ik C first l w).
  Proof.
    revert first. induction l as [|x l IH]; intros first n e w L.
    - destruct n as [|n]; [cbn in L; lia|]. rewrite draw_step. cbn. destruct e as [|k e]; [reflexivity|]. cbn [length] in L. rewrite draw_end by lia. reflexivity.
    - destruct n as [|n]; [cbn in L; lia|]. cbn [length] in L. cbn [windows_e].
      assert (Ew : windows_e P ik C first (x :: l) w = match bounds_e ik (fst x) w with (Panic, w) => (Panic, w) | (Val second, w) =>
        match pair_gap P ik C first second w with (Panic, w) => (Panic, w) | (Val (Some g), w) => consed g (windows_e P ik C second l w) | (Val None, w) => windows_e P ik C second l w end end).
      { cbn [windows_e]. unfold ubind at 1. destruct (bounds_e ik (fst x) w) as [[second|] w1]; [|reflexivity].
        unfold pair_gap, up_e, down_e, ubind. destruct (e_up P (snd first) w1) as [[u|] w2]; [|reflexivity]. cbv beta iota. destruct (uout (unwrap u) w2) as [[u'|] w3]; [|reflexivity].
        destruct (e_down P (fst second) w3) as [[d|] w4]; [|reflexivity]. cbv beta iota. destruct (uout (unwrap d) w4) as [[d'|] w5]; [|reflexivity].
        destruct (e_from C (mkInterval u' d') w5) as [[g|] w6]; [|reflexivity]. destruct (e_valid ik g w6) as [[[]|] w7]; cbn [uret]; [| |reflexivity];
          destruct (windows_e P ik C second l w7) as [[gs|] w8]; reflexivity. }
      change (windows_e P ik C first (x :: l) w) with (windows_e P ik C first (x :: l) w) in Ew. fold (windows_e P ik C) in *.
      rewrite draw_step. unfold EffectLazyModel.gaps_next. cbn [gi_start gi_inner gi_end EffectLazyModel.window_next].
      assert (Ew' : then_end e (windows_e P ik C first (x :: l) w) = match bounds_e ik (fst x) w with (Panic, w) => (Panic, w) | (Val second, w) =>
        match pair_gap P ik C first second w with (Panic, w) => (Panic, w) | (Val (Some g), w) => consed g (then_end e (windows_e P ik C second l w)) | (Val None, w) => then_end e (windows_e P ik C second l w) end end).
      { rewrite Ew. destruct (bounds_e ik (fst x) w) as [[second|] w1]; [|reflexivity]. destruct (pair_gap P ik C first second w1) as [[[g|]|] w2]; try reflexivity.
        destruct (windows_e P ik C second l w2) as [[gs|] w3]; reflexivity. }
      cbn [windows_e] in Ew'. rewrite Ew'. clear Ew Ew'. destruct (bounds_e ik (fst x) w) as [[second|] w1]; [|reflexivity]. destruct (pair_gap P ik C first second w1) as [[[g|]|] w2]; [|clear x|reflexivity].
      + rewrite IH by lia. reflexivity.
      + rewrite <- (IH second (S n) e w2) by lia. rewrite draw_step. unfold EffectLazyModel.gaps_next. cbn [gi_start gi_inner gi_end]. destruct (window_next (Some second) l w2) as [[s [[g|]|]] w3]; reflexivity.
  Qed.
  Lemma draw_inner (l : list (K * V)) n e w : length l + length e < n ->
    gathered (draw n idle (mkGaps [] (Some (None, l)) e) w) = then_end e (inner_gaps_e P ik C l w).
  Proof.
    intros L. destruct n as [|n]; [lia|]. rewrite draw_step. destruct l as [|x l]; [cbn; destruct e as [|k e]; [reflexivity|]; cbn [length] in L; rewrite draw_end by (cbn in L; lia); reflexivity|].
    cbn [length] in L. unfold inner_gaps_e, ubind. unfold EffectLazyModel.gaps_next. cbn [gi_start gi_inner gi_end EffectLazyModel.window_next].
    destruct (bounds_e ik (fst x) w) as [[first|] w1]; [|reflexivity]. rewrite <- (draw_windows first l (S n) e w1) by lia. rewrite draw_step. unfold EffectLazyModel.gaps_next. cbn [gi_start gi_inner gi_end].
    destruct l as [|y l]; [cbn; destruct e; reflexivity|]. cbn [EffectLazyModel.window_next]. destruct (bounds_e ik (fst y) w1) as [[second|] w2]; [|reflexivity].
    destruct (pair_gap P ik C first second w2) as [[[g|]|] w3]; reflexivity.
  Qed.
  Lemma draw_all s (l : list (K * V)) e n w : length s + length l + length e < n ->
    gathered (draw n idle (mkGaps s (Some (None, l)) e) w) = match inner_gaps_e P ik C l w with (Val gs, w) => (Val (s ++ gs ++ e), w) | (Panic, w) => (Panic, w) end.
  Proof.
    revert n. induction s as [|k s IH]; intros n L.
    - cbn [length Nat.add] in L. rewrite draw_inner by lia. destruct (inner_gaps_e P ik C l w) as [[gs|] w1]; reflexivity.
    - destruct n as [|n]; [lia|]. cbn [length] in L. rewrite draw_step. cbn. rewrite IH by lia. destruct (inner_gaps_e P ik C l w) as [[gs|] w1]; reflexivity.
  Qed.
  Lemma collect_all s (l : list (K * V)) e w : collect (mkGaps s (Some (None, l)) e) w = (do! inner := inner_gaps_e P ik C l in uret (s ++ inner ++ e)) w.
  Proof.
    change (collect (mkGaps s (Some (None, l)) e) w) with (gathered (draw (S (length s + length l + length e)) idle (mkGaps s (Some (None, l)) e) w)).
    rewrite draw_all by lia. unfold ubind. destruct (inner_gaps_e P ik C l w) as [[gs|] w1]; reflexivity.
  Qed.
  Lemma window_any (l : list (K * V)) : forall first w, any_window_e P ik C first l w =
    match window_next (Some first) l w with ((_, Panic), w) => (Panic, w) | ((_, Val r), w) => (Val (is_some r), w) end.
  Proof.
    induction l as [|x l IH]; intros first w; [reflexivity|]. cbn [any_window_e EffectLazyModel.window_next]. unfold ubind at 1. destruct (bounds_e ik (fst x) w) as [[second|] w1]; [|reflexivity].
    rewrite pair_gap_run. destruct (pair_gap P ik C first second w1) as [[[g|]|] w2]; [reflexivity|apply IH|reflexivity].
  Qed.
  Lemma inner_any (l : list (K * V)) w : any_inner_gap_e P ik C l w = match window_next None l w with ((_, Panic), w) => (Panic, w) | ((_, Val r), w) => (Val (is_some r), w) end.
  Proof.
    destruct l as [|x l]; [reflexivity|]. cbn [any_inner_gap_e EffectLazyModel.window_next]. unfold ubind. destruct (bounds_e ik (fst x) w) as [[first|] w1]; [|reflexivity].
    rewrite window_any. destruct l as [|y l]; [reflexivity|]. cbn [EffectLazyModel.window_next]. destruct (bounds_e ik (fst y) w1) as [[second|] w2]; [|reflexivity].
    destruct (pair_gap P ik C first second w2) as [[[g|]|] w3]; reflexivity.
  Qed.
  Lemma none_left_any s (l : list (K * V)) e w : none_left P ik C (mkGaps s (Some (None, l)) e) w =
    (match s with _ :: _ => uret false | [] => do! b := any_inner_gap_e P ik C l in uret (if b then false else match e with [] => true | _ :: _ => false end) end) w.
  Proof.
    unfold none_left, EffectLazyModel.gaps_next. cbn [gi_start gi_inner gi_end]. destruct s as [|k s]; [|reflexivity]. unfold ubind. rewrite inner_any.
    destruct (window_next None l w) as [[st [[g|]|]] w1]; [reflexivity|destruct e; reflexivity|reflexivity].
  Qed.
End Any.

(** ** New iterators *)
Section New.
  Context {W I K V : Type} `{DiscreteFinite I} (P : point_code W I) (ik : interval_code W I K) (C : entry_code W I K V).
  Context {Q : Type} (iq : interval_code W I Q).
  Lemma ubind_eq {A B} (x : user W A) (f g : A -> user W B) w : (forall a w, f a w = g a w) -> ubind x f w = ubind x g w.
  Proof. intros E. unfold ubind. destruct (x w) as [[a|] w']; [apply E|reflexivity]. Qed.
  Lemma ubind_assoc {A B D} (x : user W A) (f : A -> user W B) (g : B -> user W D) w : ubind (ubind x f) g w = ubind x (fun a => ubind (f a) g) w.
  Proof. unfold ubind. destruct (x w) as [[a|] w']; reflexivity. Qed.
  Lemma collect_untrimmed (t : tree K V) q w : gaps_untrimmed_e P ik C iq t q w = (do! it := gaps_untrimmed_new P ik C iq t q in collect P ik C it) w.
  Proof.
    unfold gaps_untrimmed_e, gaps_untrimmed_new. repeat (rewrite ubind_assoc; apply ubind_eq; intros ? ?). destruct a2 as [sg eg]. repeat (rewrite ubind_assoc; apply ubind_eq; intros ? ?).
    symmetry. exact (collect_all P ik C _ _ _ _).
  Qed.
  Lemma collect_trimmed (t : tree K V) q w : gaps_trimmed_e P ik C iq t q w = (do! it := gaps_trimmed_new P ik C iq t q in collect P ik C it) w.
  Proof.
    unfold gaps_trimmed_e, gaps_trimmed_new. repeat (rewrite ubind_assoc; apply ubind_eq; intros ? ?). destruct a2 as [sg eg]. repeat (rewrite ubind_assoc; apply ubind_eq; intros ? ?).
    symmetry. exact (collect_all P ik C _ _ _ _).
  Qed.
  Lemma contains_none_left (t : tree K V) q w : map_contains_interval_e P ik C iq t q w =
    (do! _ := invalid_interval_panic_e iq q in do! it := gaps_untrimmed_new P ik C iq t q in none_left P ik C it) w.
  Proof.
    unfold map_contains_interval_e, gaps_untrimmed_new. apply ubind_eq. intros [] w1. rewrite ubind_assoc. apply ubind_eq. intros [] w2.
    rewrite ubind_assoc. apply ubind_eq. intros sg w3. rewrite ubind_assoc. apply ubind_eq. intros eg w4.
    assert (T : forall sg eg w, (do! overlapping := overlapping_e P ik iq t q in do! start_gap := from_e C sg in do! end_gap := from_e C eg in
        match start_gap with _ :: _ => uret false | [] => do! b := any_inner_gap_e P ik C overlapping in uret (if b then false else match end_gap with [] => true | _ :: _ => false end) end) w =
      (do! it := (do! overlapping := overlapping_e P ik iq t q in do! start_gap := from_e C sg in do! end_gap := from_e C eg in uret (mkGaps start_gap (Some (None, overlapping)) end_gap)) in none_left P ik C it) w).
    { intros sg' eg' w'. repeat (rewrite ubind_assoc; apply ubind_eq; intros ? ?). symmetry. exact (none_left_any P ik C _ _ _ _). }
    rewrite ubind_assoc. destruct sg as [sg|], eg as [eg|]; try exact (T _ _ _).
    rewrite !ubind_assoc. apply ubind_eq. intros same w5. destruct same; exact (T _ _ _).
  Qed.
  (** The start and the end, when they come from [from]. *)
  Notation made := (made_by (e_from C)).
  Definition sound_iter (it : gaps_iter (I := I) (K := K) (V := V)) : Prop := Forall made (gi_start it) /\ Forall made (gi_end it).
  Lemma ubind_val {A B} (x : user W A) (f : A -> user W B) w b w' : ubind x f w = (Val b, w') -> exists a w1, x w = (Val a, w1) /\ f a w1 = (Val b, w').
  Proof. unfold ubind. destruct (x w) as [[a|] w1]; [|discriminate]. intros E. exists a, w1. split; [reflexivity|exact E]. Qed.
  Lemma from_sound o w l w' : from_e C o w = (Val l, w') -> Forall made l.
  Proof.
    destruct o as [i|]; cbn [from_e]; intros E; [|injection E as <- <-; constructor]. apply ubind_val in E. destruct E as (k & w1 & E & E'). injection E' as <- <-.
    constructor; [exists i, w, w1; exact E|constructor].
  Qed.
  Lemma new_sound (t : tree K V) q w it w' : gaps_untrimmed_new P ik C iq t q w = (Val it, w') \/ gaps_trimmed_new P ik C iq t q w = (Val it, w') ->
    sound_iter it /\ length (gi_start it) <= 1 /\ length (gi_end it) <= 1.
  Proof.
    assert (F1 : forall o w l w', from_e C o w = (Val l, w') -> length l <= 1).
    { intros [i|] w1 l w2; cbn [from_e]; intros E; [|injection E as <- <-; cbn; lia]. apply ubind_val in E. destruct E as (k & w3 & E & E'). injection E' as <- <-. cbn; lia. }
    intros [E|E]; apply ubind_val in E; destruct E as (? & ? & _ & E); apply ubind_val in E; destruct E as (? & ? & _ & E); apply ubind_val in E; destruct E as (? & ? & _ & E);
      apply ubind_val in E; destruct E as ([sg eg] & ? & _ & E); apply ubind_val in E; destruct E as (? & ? & _ & E); apply ubind_val in E; destruct E as (? & ? & E1 & E);
      apply ubind_val in E; destruct E as (? & ? & E2 & E); injection E as <- <-; cbn; (split; [split; eapply from_sound; eassumption|split; eapply F1; eassumption]).
  Qed.
  Lemma pair_made f s w g w' : pair_gap P ik C f s w = (Val (Some g), w') -> made g.
  Proof.
    intros E. apply ubind_val in E. destruct E as (u & w1 & _ & E). apply ubind_val in E. destruct E as (d & w2 & _ & E). apply ubind_val in E. destruct E as (k & w3 & Ek & E).
    apply ubind_val in E. destruct E as (b & w4 & _ & E). destruct b; [|discriminate]. injection E as <- <-. exists (mkInterval u d), w2, w3. exact Ek.
  Qed.
  Lemma window_made (l : list (K * V)) : forall last w s r w', window_next P ik C last l w = ((s, r), w') -> length (snd s) <= length l /\ forall g, r = Val (Some g) -> made g /\ length (snd s) < length l.
  Proof.
    assert (G : forall n (l : list (K * V)), length l <= n -> forall last w s r w', window_next P ik C last l w = ((s, r), w') -> length (snd s) <= length l /\ forall g, r = Val (Some g) -> made g /\ length (snd s) < length l).
    { induction n as [|n IH]; intros [|e r] L last w s o w' E; cbn [length] in *; try lia; cbn [window_next] in E; [injection E as <- <- <-; cbn; split; [lia|discriminate]..|].
      destruct (bounds_e ik (fst e) w) as [[new|] w1]; [|injection E as <- <- <-; cbn; split; [lia|discriminate]]. destruct last as [first|].
      - destruct (pair_gap P ik C first new w1) as [[[g|]|] w2] eqn:Eg; [| |injection E as <- <- <-; cbn; split; [lia|discriminate]].
        + injection E as <- <- <-. cbn. split; [lia|]. intros g' X. injection X as <-. split; [eapply pair_made; exact Eg|lia].
        + apply IH in E; [|lia]. destruct E as [E1 E2]. split; [lia|]. intros g X. destruct (E2 g X). split; [assumption|lia].
      - destruct r as [|e2 r]; [injection E as <- <- <-; cbn; split; [lia|discriminate]|]. cbn [length] in *.
        destruct (bounds_e ik (fst e2) w1) as [[second|] w2]; [|injection E as <- <- <-; cbn; split; [lia|discriminate]].
        destruct (pair_gap P ik C new second w2) as [[[g|]|] w3] eqn:Eg; [| |injection E as <- <- <-; cbn; split; [lia|discriminate]].
        + injection E as <- <- <-. cbn. split; [lia|]. intros g' X. injection X as <-. split; [eapply pair_made; exact Eg|lia].
        + apply IH in E; [|lia]. destruct E as [E1 E2]. split; [lia|]. intros g X. destruct (E2 g X). split; [assumption|lia]. }
    exact (G (length l) l (le_n _)).
  Qed.
  Lemma next_sound it w it' r w' : sound_iter it -> gaps_next P ik C it w = ((it', r), w') -> sound_iter it' /\ steps_left it' <= steps_left it /\ forall g, r = Val (Some g) -> made g /\ steps_left it' < steps_left it.
  Proof.
    destruct it as [s i e]. intros [S1 S2] E. cbn in S1, S2. unfold gaps_next in E. cbn [gi_start gi_inner gi_end] in E. unfold steps_left, sound_iter.
    destruct s as [|k s].
    - assert (AE : forall w0, (match e with k :: e => (mkGaps (I := I) (V := V) [] None e, Val (Some k)) | [] => (mkGaps [] None [], Val None) end, w0) = ((it', r), w') ->
        (Forall made (gi_start it') /\ Forall made (gi_end it')) /\ steps_left it' <= length e /\ forall g, r = Val (Some g) -> made g /\ steps_left it' < length e).
      { intros w0 X. destruct e as [|k e]; injection X as <- <- <-; cbn; [split; [split; constructor|]; split; [lia|discriminate]|]. inversion S2; subst.
        split; [split; [constructor|assumption]|]. split; [lia|]. intros g X. injection X as <-. split; [assumption|lia]. }
      destruct i as [[last l]|].
      + destruct (window_next P ik C last l w) as [[st o] w1] eqn:Ew. pose proof (window_made l _ _ _ _ _ Ew) as [L1 L2]. destruct o as [[g|]|].
        * injection E as <- <- <-. cbn. destruct st as [la l']. cbn in *. split; [split; [constructor|assumption]|]. split; [lia|]. intros g' X. injection X as <-. destruct (L2 g eq_refl). split; [assumption|lia].
        * apply AE in E. destruct E as (E1 & E2 & E3). unfold steps_left in E2, E3. cbn [gi_start gi_inner gi_end length] in *. split; [exact E1|]. split; [lia|]. intros g X. destruct (E3 g X). split; [assumption|lia].
        * injection E as <- <- <-. cbn. destruct st as [la l']. cbn in *. split; [split; [constructor|assumption]|]. split; [lia|discriminate].
      + apply AE in E. destruct E as (E1 & E2 & E3). unfold steps_left in E2, E3. cbn [gi_start gi_inner gi_end length] in *. split; [exact E1|]. split; [lia|]. intros g X. destruct (E3 g X). split; [assumption|lia].
    - injection E as <- <- <-. cbn. inversion S1; subst. split; [split; assumption|]. split; [lia|]. intros g X. injection X as <-. split; [assumption|lia].
  Qed.
  Lemma draw_sound caller n : forall it w it' ks o w', sound_iter it -> draw P ik C n caller it w = ((it', ks, o), w') ->
    Forall made ks /\ length ks + steps_left it' <= steps_left it /\ length ks <= n.
  Proof.
    induction n as [|n IH]; intros it w it' ks o w' S E; cbn [draw] in E; [injection E as <- <- <- <-; cbn; split; [constructor|lia]|].
    destruct (gaps_next P ik C it w) as [[it1 r] w1] eqn:En. destruct (next_sound _ _ _ _ _ S En) as (S1 & L1 & G). destruct r as [[k|]|].
    - destruct (G k eq_refl) as [Mk Lk]. destruct (caller k w1) as [[[]|] w2].
      + destruct (draw P ik C n caller it1 w2) as [[[it2 ks2] o2] w3] eqn:Ed. injection E as <- <- <- <-. destruct (IH _ _ _ _ _ _ S1 Ed) as (F & L & N). split; [constructor; assumption|]. cbn. lia.
      + injection E as <- <- <- <-. split; [constructor; [assumption|constructor]|]. cbn. lia.
    - injection E as <- <- <- <-. cbn. split; [constructor|lia].
    - injection E as <- <- <- <-. cbn. split; [constructor|lia].
  Qed.
  Lemma draw_new (t : tree K V) q w it w1 n caller it' ks o w2 : gaps_untrimmed_new P ik C iq t q w = (Val it, w1) \/ gaps_trimmed_new P ik C iq t q w = (Val it, w1) ->
    draw P ik C n caller it w1 = ((it', ks, o), w2) -> Forall made ks /\ length ks <= n /\ length ks <= length (entries t) + 2.
  Proof.
    intros E D. destruct (new_sound t q w it w1 E) as (S & L1 & L2). destruct (draw_sound caller n _ _ _ _ _ _ S D) as (F & L & N). split; [exact F|]. split; [exact N|].
    assert (L3 : match gi_inner it with Some (_, l) => length l | None => 0 end <= length (entries t)); [|unfold steps_left in L at 2; lia].
    assert (X : exists l w3 w4, overlapping_e P ik iq t q w3 = (Val l, w4) /\ gi_inner it = Some (None, l)).
    { destruct E as [E|E]; apply ubind_val in E; destruct E as (? & ? & _ & E); apply ubind_val in E; destruct E as (? & ? & _ & E); apply ubind_val in E; destruct E as (? & ? & _ & E);
        apply ubind_val in E; destruct E as ([sg eg] & ? & _ & E); apply ubind_val in E; destruct E as (l & ? & E0 & E); apply ubind_val in E; destruct E as (? & ? & E1 & E);
        apply ubind_val in E; destruct E as (? & ? & E2 & E); injection E as <- <-; exists l; eexists; eexists; (split; [exact E0|reflexivity]). }
    destruct X as (l & w3 & w4 & X & ->). destruct (overlapping_e_part P ik iq t q w3 l w4 X) as (a & b & ->). rewrite !app_length. lia.
  Qed.
  Lemma next_none it w it' w' : gaps_next P ik C it w = ((it', Val None), w') -> forall w, gaps_next P ik C it' w = ((it', Val None), w).
  Proof.
    destruct it as [s i e]. unfold gaps_next at 1. cbn [gi_start gi_inner gi_end]. destruct s as [|k s]; [|discriminate].
    destruct i as [[last l]|]; [destruct (window_next P ik C last l w) as [[st [[g|]|]] w1]; try discriminate|]; destruct e as [|k e]; try discriminate; intros E; injection E as <- <-; reflexivity.
  Qed.
End New.

(** ** User code that gives the right answers, or panics when [bad] *)
Section Right.
  Context {W I : Type} `{PL : PointLaws I} {K : Type} {IK : InclusiveInterval I K} {V : Type}.
  Context (P : point_code W I) (ik : interval_code W I K) (C : entry_code W I K V).
  Context (bad : Prop).
  Definition fine {A} (x : user W A) (a : A) : Prop := forall w, fst (x w) = Val a \/ bad /\ fst (x w) = Panic.
  Definition pure_gap (first second : I * I) : outcome (option K) :=
    let? u := unwrap (up (snd first)) in let? d := unwrap (down (fst second)) in
    let g := ifrom (mkInterval u d) : K in Val (if is_valid g then Some g else None).
  Context (FB : forall k, fine (bounds_e ik k) (istart k, iend k)) (FP : forall f s r, pure_gap f s = Val r -> fine (pair_gap P ik C f s) r).
  Fixpoint pure_windows (first : I * I) (l : list (K * V)) : outcome (list K) :=
    match l with
    | [] => Val []
    | e :: r => let? g := pure_gap first (istart (fst e), iend (fst e)) in let? gs := pure_windows (istart (fst e), iend (fst e)) r in Val (match g with Some g => g :: gs | None => gs end)
    end.
  Lemma inner_pure e (l : list (K * V)) : inner_gaps (e :: l) = pure_windows (istart (fst e), iend (fst e)) l.
  Proof.
    revert e. induction l as [|x l IH]; intros e; [reflexivity|]. change (inner_gaps (e :: x :: l)) with
      (let? u := unwrap (up (iend (fst e))) in let? d := unwrap (down (istart (fst x))) in
       let g := ifrom (mkInterval u d) : K in let? gs := inner_gaps (x :: l) in Val (if is_valid g then g :: gs else gs)).
    rewrite IH. cbn [pure_windows]. unfold pure_gap. cbn [fst snd]. destruct (unwrap (up (iend (fst e)))) as [u|]; [|reflexivity]. cbn [obind]. destruct (unwrap (down (istart (fst x)))) as [d|]; [|reflexivity].
    cbn [obind]. cbv zeta. destruct (pure_windows _ l) as [gs|]; [|reflexivity]. cbn [obind]. destruct (is_valid _); reflexivity.
  Qed.
  Definition to_yield (last : option (I * I)) (l : list (K * V)) (gs : list K) : Prop :=
    match last with Some b => pure_windows b l = Val gs | None => inner_gaps l = Val gs end.
  Lemma window_right (l : list (K * V)) : forall first gs w, pure_windows first l = Val gs ->
    let '((s, r), _) := window_next P ik C (Some first) l w in
    match r with Panic => bad | Val None => gs = [] | Val (Some g) => exists gs', gs = g :: gs' /\ to_yield (fst s) (snd s) gs' end.
  Proof.
    induction l as [|e l IH]; intros first gs w E; cbn [pure_windows] in E; cbn [window_next]; [injection E as <-; reflexivity|].
    destruct (pure_gap first (istart (fst e), iend (fst e))) as [g|] eqn:Eg; [|discriminate]. cbn [obind] in E. destruct (pure_windows (istart (fst e), iend (fst e)) l) as [gs'|] eqn:Ew; [|discriminate].
    cbn [obind] in E. injection E as <-. pose proof (FB (fst e) w) as HB. destruct (bounds_e ik (fst e) w) as [[new|] w1]; cbn [fst] in HB; [|destruct HB as [HB|[HB _]]; [discriminate|exact HB]].
    destruct HB as [HB|[_ HB]]; [|discriminate]. injection HB as ->. pose proof (FP _ _ _ Eg w1) as HP. destruct (pair_gap P ik C first _ w1) as [[r|] w2]; cbn [fst] in HP; [|destruct HP as [HP|[HP _]]; [discriminate|exact HP]].
    destruct HP as [HP|[_ HP]]; [|discriminate]. injection HP as ->. destruct g as [g|]; [|exact (IH _ _ _ Ew)]. exists gs'. split; [reflexivity|exact Ew].
  Qed.
  Lemma window_right' last (l : list (K * V)) gs w : to_yield last l gs ->
    let '((s, r), _) := window_next P ik C last l w in
    match r with Panic => bad | Val None => gs = [] | Val (Some g) => exists gs', gs = g :: gs' /\ to_yield (fst s) (snd s) gs' end.
  Proof.
    destruct last as [first|]; [apply window_right|]. cbn [to_yield]. destruct l as [|e l]; [intros E; injection E as <-; reflexivity|]. rewrite inner_pure. intros E.
    cbn [window_next]. pose proof (FB (fst e) w) as HB. destruct (bounds_e ik (fst e) w) as [[new|] w1]; cbn [fst] in HB; [|destruct HB as [HB|[HB _]]; [discriminate|exact HB]].
    destruct HB as [HB|[_ HB]]; [|discriminate]. injection HB as ->. pose proof (window_right l _ gs w1 E) as X. destruct l as [|e2 l]; [injection E as <-; reflexivity|]. cbn [window_next] in X.
    destruct (bounds_e ik (fst e2) w1) as [[second|] w2]; [|exact X]. destruct (pair_gap P ik C _ second w2) as [[[g|]|] w3]; exact X.
  Qed.
  Definition yields (it : gaps_iter (I := I) (K := K) (V := V)) (gs : list K) : Prop :=
    exists inner, gs = gi_start it ++ inner ++ gi_end it /\ match gi_inner it with Some (last, l) => to_yield last l inner | None => inner = [] end.
  Lemma next_right it gs w : yields it gs -> let '((it', r), _) := gaps_next P ik C it w in
    match r with Panic => bad | Val None => gs = [] | Val (Some g) => exists gs', gs = g :: gs' /\ yields it' gs' end.
  Proof.
    destruct it as [s i e]. intros (inner & -> & Y). cbn in *. unfold gaps_next. cbn [gi_start gi_inner gi_end]. destruct s as [|k s].
    - assert (AE : inner = [] -> let '(it', r) := match e with k :: e => (mkGaps (I := I) (V := V) [] None e, Val (Some k)) | [] => (mkGaps [] None [], Val None) end in
        match r with Panic => bad | Val None => [] ++ inner ++ e = [] | Val (Some g) => exists gs', [] ++ inner ++ e = g :: gs' /\ yields it' gs' end).
      { intros ->. destruct e as [|k e]; [reflexivity|]. exists e. split; [reflexivity|]. exists []. split; reflexivity. }
      destruct i as [[last l]|]; [|specialize (AE Y); destruct e; exact AE]. pose proof (window_right' last l inner w Y) as X. destruct (window_next P ik C last l w) as [[st [[g|]|]] w1].
      + destruct X as (gs' & -> & X). exists (gs' ++ e). split; [reflexivity|]. exists gs'. split; [reflexivity|]. cbn. destruct st; exact X.
      + specialize (AE X). destruct e; exact AE.
      + exact X.
    - eexists. split; [reflexivity|]. exists inner. split; [reflexivity|exact Y].
  Qed.
  Lemma draw_right caller (CB : forall k w, fst (caller k w) = Panic -> bad) n : forall it gs w, yields it gs -> let '((_, ks, o), _) := draw P ik C n caller it w in
    match o with Val true => ks = gs /\ length gs < n | Val false => ks = firstn n gs /\ n <= length gs | Panic => bad /\ exists j, ks = firstn j gs end.
  Proof.
    induction n as [|n IH]; intros it gs w Y; cbn [draw]; [split; [reflexivity|lia]|].
    pose proof (next_right it gs w Y) as X. destruct (gaps_next P ik C it w) as [[it1 [[k|]|]] w1].
    - destruct X as (gs' & -> & Y'). pose proof (CB k w1) as HC. destruct (caller k w1) as [[[]|] w2].
      + pose proof (IH it1 gs' w2 Y') as Z. destruct (draw P ik C n caller it1 w2) as [[[it2 ks] o] w3]. destruct o as [[]|].
        * destruct Z as [-> L]. cbn. split; [reflexivity|lia].
        * destruct Z as [-> L]. cbn. split; [reflexivity|lia].
        * destruct Z as (B & j & ->). split; [exact B|]. exists (S j). reflexivity.
      + split; [apply HC; reflexivity|]. exists 1. reflexivity.
    - subst gs. cbn. split; [reflexivity|lia].
    - split; [exact X|]. exists 0. reflexivity.
  Qed.
End Right.

(** ** New iterators and right answers *)
Section NewRight.
  Context {W I : Type} `{PL : PointLaws I} {K : Type} {IK : InclusiveInterval I K} {IL : IntervalLaws I K} {V : Type} (veq : V -> V -> bool).
  Context (P : point_code W I) (ik : interval_code W I K) (C : entry_code W I K V).
  Context {Q : Type} {IQ : InclusiveInterval I Q} (iq : interval_code W I Q).
  Notation newu := (gaps_untrimmed_new P ik C iq). Notation newt := (gaps_trimmed_new P ik C iq).
  Section May.
    Context (RP : points_or_panic P) (RK : intervals_or_panic ik) (RC : entries_or_panic veq C) (RQ : intervals_or_panic iq).
    Lemma tail_new m t q sg eg gs : WF m -> entries t = m ->
      (let? o := overlapping m q in let? i := inner_gaps o in Val (opt_list (option_map (ifrom : _ -> K) sg) ++ i ++ opt_list (option_map ifrom eg))) = Val gs ->
      exists it0, may (do! overlapping := overlapping_e P ik iq t q in do! start_gap := from_e C sg in do! end_gap := from_e C eg in uret (mkGaps start_gap (Some (None, overlapping)) end_gap)) (Val it0) /\ yields (V := V) it0 gs.
    Proof.
      intros Wm E X. pose proof (a_overlapping P RP ik RK iq RQ m t q Wm E) as RO. destruct (overlapping m q) as [l|]; [|discriminate]. cbn [obind] in X.
      destruct (inner_gaps l) as [i|] eqn:Ei; [|discriminate]. cbn [obind] in X. injection X as <-.
      exists (mkGaps (opt_list (option_map ifrom sg)) (Some (None, l)) (opt_list (option_map ifrom eg))). split.
      - eapply may_bind; [exact RO|]. eapply may_bind; [apply (a_from_list veq C RC)|]. eapply may_bind; [apply (a_from_list veq C RC)|]. apply may_ret.
      - exists i. split; [reflexivity|exact Ei].
    Qed.
    Lemma may_then {A B} (x : user W A) (f : A -> user W B) a (R : B -> Prop) : may x (Val a) -> (exists b, may (f a) (Val b) /\ R b) -> exists b, may (ubind x f) (Val b) /\ R b.
    Proof. intros Hx (b & Hb & Rb). exists b. split; [eapply may_bind; eassumption|exact Rb]. Qed.
    Lemma untrimmed_new_may m t q gs : WF m -> entries t = m -> gaps_untrimmed m q = Val gs -> exists it0, may (newu t q) (Val it0) /\ yields (V := V) it0 gs.
    Proof.
      intros Wm E X. unfold gaps_untrimmed in X. unfold gaps_untrimmed_new. pose proof (a_iip iq RQ q) as RI. destruct (invalid_interval_panic q) as [u|]; [|discriminate]. cbn [obind] in X.
      eapply may_then; [exact RI|].
      pose proof (a_end_gap P RP ik RK m t (e_start iq q) (istart q) Wm E (a_start iq RQ q)) as R1. destruct (end_gap m (istart q)) as [sg|]; [|discriminate]. cbn [obind] in X. eapply may_then; [exact R1|].
      pose proof (a_end_gap P RP ik RK m t (e_end iq q) (iend q) Wm E (a_end iq RQ q)) as R2. destruct (end_gap m (iend q)) as [eg|]; [|discriminate]. cbn [obind] in X. eapply may_then; [exact R2|].
      destruct sg as [s|], eg as [e|].
      - eapply may_then; [eapply may_bind; [apply (a_eq P RP)|apply may_ret]|]. destruct (eqb (ivl_start s) (ivl_start e)); exact (tail_new m t q _ _ gs Wm E X).
      - eapply may_then; [apply may_ret|]. exact (tail_new m t q _ _ gs Wm E X).
      - eapply may_then; [apply may_ret|]. exact (tail_new m t q _ _ gs Wm E X).
      - eapply may_then; [apply may_ret|]. exact (tail_new m t q _ _ gs Wm E X).
    Qed.
    Lemma trimmed_new_may m t q gs : WF m -> entries t = m -> gaps_trimmed m q = Val gs -> exists it0, may (newt t q) (Val it0) /\ yields (V := V) it0 gs.
    Proof.
      intros Wm E X. unfold gaps_trimmed in X. unfold gaps_trimmed_new. pose proof (a_iip iq RQ q) as RI. destruct (invalid_interval_panic q) as [u|]; [|discriminate]. cbn [obind] in X.
      eapply may_then; [exact RI|].
      pose proof (a_end_gap P RP ik RK m t (e_start iq q) (istart q) Wm E (a_start iq RQ q)) as R1. destruct (end_gap m (istart q)) as [sg|]; [|discriminate]. cbn [obind] in X. eapply may_then; [exact R1|].
      pose proof (a_end_gap P RP ik RK m t (e_end iq q) (iend q) Wm E (a_end iq RQ q)) as R2. destruct (end_gap m (iend q)) as [eg|]; [|discriminate]. cbn [obind] in X. eapply may_then; [exact R2|].
      destruct sg as [s|], eg as [e|].
      - eapply may_then; [eapply may_bind; [apply (a_eq P RP)|]; eapply may_bind; [apply (a_start iq RQ)|]; eapply may_bind; [apply (a_end iq RQ)|]; apply may_ret|].
        destruct (eqb (ivl_start s) (ivl_start e)); exact (tail_new m t q _ _ gs Wm E X).
      - eapply may_then; [eapply may_bind; [apply (a_start iq RQ)|]; apply may_ret|]. exact (tail_new m t q _ _ gs Wm E X).
      - eapply may_then; [eapply may_bind; [apply (a_end iq RQ)|]; apply may_ret|]. exact (tail_new m t q _ _ gs Wm E X).
      - eapply may_then; [apply may_ret|]. exact (tail_new m t q _ _ gs Wm E X).
    Qed.
    Lemma fine_bounds k : fine True (bounds_e ik k) (istart k, iend k).
    Proof. intros w. destruct (a_bounds ik RK k w) as [E|E]; [left; exact E|right; split; [exact Logic.I|exact E]]. Qed.
    Lemma fine_pair f s r : pure_gap f s = Val r -> fine True (pair_gap P ik C f s) r.
    Proof.
      intros X. assert (M : may (pair_gap P ik C f s) (pure_gap f s)).
      { unfold pure_gap, pair_gap. apply may_obind; [eapply may_bind; [apply (a_up P RP)|apply may_out]|]. intros u _. apply may_obind; [eapply may_bind; [apply (a_down P RP)|apply may_out]|]. intros d _. cbv zeta.
        eapply may_bind; [apply (a_from veq C RC)|]. eapply may_bind; [apply (a_valid ik RK)|]. apply may_ret. }
      rewrite X in M. intros w. destruct (M w) as [E|E]; [left; exact E|right; split; [exact Logic.I|exact E]].
    Qed.
    Lemma draw_may n caller it gs w : yields it gs -> let '((_, ks, o), _) := draw P ik C n caller it w in
      match o with Val true => ks = gs /\ length gs < n | Val false => ks = firstn n gs /\ n <= length gs | Panic => True /\ exists j, ks = firstn j gs end.
    Proof. exact (draw_right P ik C True fine_bounds fine_pair caller (fun _ _ _ => Logic.I) n it gs w). Qed.
  End May.
  Section Answers.
    Context (RP : right_points P) (RK : right_intervals ik) (RC : right_entries veq C).
    Lemma fine_bounds' k : fine False (bounds_e ik k) (istart k, iend k).
    Proof. intros w. left. exact (r_bounds ik RK k w). Qed.
    Lemma fine_pair' f s r : pure_gap f s = Val r -> fine False (pair_gap P ik C f s) r.
    Proof.
      intros X. assert (M : answers (pair_gap P ik C f s) (pure_gap f s)).
      { unfold pure_gap, pair_gap. apply answers_obind; [apply (r_up_e P RP)|]. intros u _. apply answers_obind; [apply (r_down_e P RP)|]. intros d _. cbv zeta.
        eapply answers_bind; [apply (r_from veq C RC)|]. eapply answers_bind; [apply (r_valid ik RK)|]. apply answers_ret. }
      rewrite X in M. intros w. left. exact (M w).
    Qed.
    Lemma draw_answers n caller it gs w : (forall k w, fst (caller k w) = Val tt) -> yields it gs -> let '((_, ks, o), _) := draw P ik C n caller it w in
      ks = firstn n gs /\ o = Val (Nat.ltb (length gs) n).
    Proof.
      intros CC Y. assert (CB : forall k w, fst (caller k w) = Panic -> False) by (intros k w0; rewrite CC; discriminate).
      pose proof (draw_right P ik C False fine_bounds' fine_pair' caller CB n it gs w Y) as X. destruct (draw P ik C n caller it w) as [[[it' ks] o] w']. destruct o as [[]|].
      - destruct X as [-> L]. rewrite firstn_all2 by lia. split; [reflexivity|]. f_equal. symmetry. apply Nat.ltb_lt. exact L.
      - destruct X as [-> L]. split; [reflexivity|]. f_equal. symmetry. apply Nat.ltb_ge. exact L.
      - destruct X as [[] _].
    Qed.
  End Answers.
  Lemma points_may : right_points P -> points_or_panic P.
  Proof. intros [R1 R2]. split; [intros x y; destruct (R1 x y) as (A & B & D & E & F & G); repeat split; intros w; left; auto|intros x; destruct (R2 x); split; intros w; left; auto]. Qed.
  Lemma intervals_may {X} {IX : InclusiveInterval I X} (ix : interval_code W I X) : right_intervals ix -> intervals_or_panic ix.
  Proof. intros R x. destruct (R x) as (A & B & D). repeat split; intros w; left; auto. Qed.
  Lemma entries_may : right_entries veq C -> entries_or_panic veq C.
  Proof. intros (A & B & D). repeat split; intros; intros w; left; [apply A|apply B|apply D]. Qed.
  Lemma new_draw_right m t q n caller w : right_points P -> right_intervals ik -> right_entries veq C -> right_intervals iq -> WF m -> entries t = m -> valid q ->
    (forall k w, fst (caller k w) = Val tt) ->
    (exists gs it w1 it' w2, gaps_untrimmed m q = Val gs /\ newu t q w = (Val it, w1) /\ draw P ik C n caller it w1 = ((it', firstn n gs, Val (Nat.ltb (length gs) n)), w2)) /\
    (exists gs it w1 it' w2, gaps_trimmed m q = Val gs /\ newt t q w = (Val it, w1) /\ draw P ik C n caller it w1 = ((it', firstn n gs, Val (Nat.ltb (length gs) n)), w2)).
  Proof.
    intros RP RK RC RQ R E Vq CC. pose proof (gaps_total m q R Vq) as (G1 & G2 & _). split.
    - destruct (gaps_untrimmed m q) as [gs|] eqn:G; [|exfalso; apply G1; reflexivity].
      destruct (untrimmed_new_may (points_may RP) (intervals_may ik RK) (entries_may RC) (intervals_may iq RQ) m t q gs R E G) as (it0 & M & Y).
      pose proof (r_gaps_untrimmed veq P RP ik RK C RC iq RQ m t q R E w) as X. rewrite (collect_untrimmed P ik C iq t q w), G in X. unfold ubind in X. specialize (M w).
      destruct (newu t q w) as [[it|] w1] eqn:N; [|discriminate]. destruct M as [M|M]; [|discriminate]. injection M as ->.
      pose proof (draw_answers RP RK RC n caller it0 gs w1 CC Y) as D. destruct (draw P ik C n caller it0 w1) as [[[it' ks] o] w2] eqn:Ed. destruct D as [-> ->].
      exists gs, it0, w1, it', w2. split; [reflexivity|]. split; [reflexivity|exact Ed].
    - destruct (gaps_trimmed m q) as [gs|] eqn:G; [|exfalso; apply G2; reflexivity].
      destruct (trimmed_new_may (points_may RP) (intervals_may ik RK) (entries_may RC) (intervals_may iq RQ) m t q gs R E G) as (it0 & M & Y).
      pose proof (r_gaps_trimmed veq P RP ik RK C RC iq RQ m t q R E w) as X. rewrite (collect_trimmed P ik C iq t q w), G in X. unfold ubind in X. specialize (M w).
      destruct (newt t q w) as [[it|] w1] eqn:N; [|discriminate]. destruct M as [M|M]; [|discriminate]. injection M as ->.
      pose proof (draw_answers RP RK RC n caller it0 gs w1 CC Y) as D. destruct (draw P ik C n caller it0 w1) as [[[it' ks] o] w2] eqn:Ed. destruct D as [-> ->].
      exists gs, it0, w1, it', w2. split; [reflexivity|]. split; [reflexivity|exact Ed].
  Qed.
End NewRight.
