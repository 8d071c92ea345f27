(** * SaveFacts: lemmas about programs that save (C169). *)
From Coq Require Import List Bool Arith Lia.
From Verif Require Import Base BTree UtilsModel IntervalModel NoditModel ZosditModel ZosditOps Spec SerdeOps ClientZosditOps
  PointFacts IntervalFacts ListFacts ZosditFacts ZosditMut ZosditProofs LooksMoreFacts SaveOps.
Import ListNotations.

Section Generic.
  Context {S call : Type} {answer : call -> Type} (perform : forall c, S -> S * answer c) (load : S -> option S).
  (** [Q s s']: [s'] is the state of the program that saves. *)
  Lemma go_sim {R} (Q : S -> S -> Prop) (P : S -> Prop) (ok : call -> Prop) :
    (forall c s s', ok c -> Q s s' -> Q (fst (perform c s)) (fst (perform c s')) /\ snd (perform c s') = snd (perform c s)) ->
    (forall s s', P s -> Q s s' -> exists s'', load s' = Some s'' /\ Q s s'') ->
    forall (p : saver answer R) s s', Q s s' -> asks ok p -> saves perform P s p -> go perform load s' p = Some (go_on perform s p).
  Proof.
    intros HC HL. induction p as [r|c next IH|next IH]; intros s s' Hs Ha Hp; cbn in *; [reflexivity|..].
    - destruct Ha as [Hc Ha]. destruct (HC c s s' Hc Hs) as [Hs1 E]. destruct (perform c s) as [s1 a], (perform c s') as [s1' a']. cbn in *. subst a'. apply IH; [exact Hs1|apply Ha|exact Hp].
    - destruct Hp as [Hp Hn]. destruct (HL s s' Hp Hs) as (s'' & -> & Hs''). apply IH; assumption.
  Qed.
  Lemma asks_all {R} (p : saver answer R) : asks (fun _ => True) p.
  Proof. induction p; cbn; auto. Qed.
  Lemma saves_all {R} (p : saver answer R) s : saves perform (fun _ => True) s p.
  Proof. revert s. induction p as [r|c next IH|next IH]; intros s; cbn; auto. destruct (perform c s). apply IH. Qed.
  Lemma go_inv {R} (Q : S -> Prop) : (forall c s, Q s -> Q (fst (perform c s))) -> (forall s, Q s -> load s = Some s) ->
    forall (p : saver answer R) s, Q s -> go perform load s p = Some (go_on perform s p).
  Proof.
    intros HC HL p s Hs. apply (go_sim (fun s s' => s' = s /\ Q s) (fun _ => True) (fun _ => True)); [|..|split; [reflexivity|exact Hs]|apply asks_all|apply saves_all].
    - intros c s0 s0' _ [-> H0]. split; [split; [reflexivity|apply HC, H0]|reflexivity].
    - intros s0 s0' _ [-> H0]. exists s0. split; [apply HL, H0|split; [reflexivity|exact H0]].
  Qed.
End Generic.

Section Zosdit.
  Context {I : Type} `{PL : PointLaws I}.
  Context {K : Type} {IK : InclusiveInterval I K} {IL : IntervalLaws I K}.
  Context {V : Type}.
  Implicit Types (z : ZosditMap K V).
  (** The counter matters to nothing but [len] and [is_empty]. *)
  Lemma cut_loop_len {Q} {IQ : InclusiveInterval I Q} (q : Q) : forall (post : BTreeMap K (list V)) n n' pre acc, length (flatten post) <= n -> length (flatten post) <= n' ->
    z_inner (fst (zosdit_cut_loop q n pre post acc)) = z_inner (fst (zosdit_cut_loop q n' pre post acc)) /\
    snd (zosdit_cut_loop q n pre post acc) = snd (zosdit_cut_loop q n' pre post acc).
  Proof.
    induction post as [|[k vs] post IH]; intros n n' pre acc Hn Hn'; cbn [zosdit_cut_loop]; [split; reflexivity|]. unfold flatten in Hn, Hn'. cbn [flat_map fst snd] in Hn, Hn'.
    rewrite app_length, map_length in Hn, Hn'. fold (flatten (K := K) (V := V) post) in Hn, Hn'. destruct (overlaps k q) as [[]|]; [|split; reflexivity..].
    destruct (cut_interval k q) as [[b i a]|]; [|split; reflexivity]. cbn [before_cut after_cut inside_cut].
    assert (G : forall N N' pre, N >= n -> N' >= n' ->
      (z_inner (fst (if Nat.ltb N (length vs) then (mkZosdit N (pre ++ post), Panic)
        else match i, vs with
             | None, _ :: _ => (mkZosdit (N - length vs) (pre ++ post), Panic)
             | None, [] => zosdit_cut_loop q (N - length vs) pre post acc
             | Some i, _ => zosdit_cut_loop q (N - length vs) pre post (acc ++ map (fun v => (ifrom i, v)) vs)
             end)) =
      z_inner (fst (if Nat.ltb N' (length vs) then (mkZosdit N' (pre ++ post), Panic)
        else match i, vs with
             | None, _ :: _ => (mkZosdit (N' - length vs) (pre ++ post), Panic)
             | None, [] => zosdit_cut_loop q (N' - length vs) pre post acc
             | Some i, _ => zosdit_cut_loop q (N' - length vs) pre post (acc ++ map (fun v => (ifrom i, v)) vs)
             end)) /\
       snd (if Nat.ltb N (length vs) then (mkZosdit N (pre ++ post), Panic)
        else match i, vs with
             | None, _ :: _ => (mkZosdit (N - length vs) (pre ++ post), Panic)
             | None, [] => zosdit_cut_loop q (N - length vs) pre post acc
             | Some i, _ => zosdit_cut_loop q (N - length vs) pre post (acc ++ map (fun v => (ifrom i, v)) vs)
             end) =
       snd (if Nat.ltb N' (length vs) then (mkZosdit N' (pre ++ post), Panic)
        else match i, vs with
             | None, _ :: _ => (mkZosdit (N' - length vs) (pre ++ post), Panic)
             | None, [] => zosdit_cut_loop q (N' - length vs) pre post acc
             | Some i, _ => zosdit_cut_loop q (N' - length vs) pre post (acc ++ map (fun v => (ifrom i, v)) vs)
             end))).
    { intros N N' pre' HN HN'. rewrite (proj2 (Nat.ltb_ge N (length vs))) by lia. rewrite (proj2 (Nat.ltb_ge N' (length vs))) by lia.
      destruct i as [i|]; [apply IH; lia|]. destruct vs; [apply IH; cbn in *; lia|split; reflexivity]. }
    destruct b, a; cbn [z_piece fst snd]; apply G; lia.
  Qed.
  Definition not_counting (c : zcall I K V) : Prop := match c with ZCallLen | ZCallIsEmpty => False | _ => True end.
  Lemma zperform_len (c : zcall I K V) z z' : not_counting c -> ZWF z -> ZWF z' -> z_inner z' = z_inner z ->
    z_inner (fst (zperform c z')) = z_inner (fst (zperform c z)) /\ snd (zperform c z') = snd (zperform c z).
  Proof.
    intros Hc (_ & _ & L) (_ & _ & L') E. destruct z as [n l], z' as [n' l']. cbn in E, L, L'. subst l'. destruct c; cbn [not_counting] in Hc; try contradiction; cbn [zperform]; try (split; reflexivity).
    - unfold remove_last_value_at_point, last_value_cursor. cbn [z_inner z_len].
      match goal with |- context [match snd ?c with _ => _ end] => destruct (snd c) as [|[key value] rest] end; [split; reflexivity|]. destruct (contains_point key p); [|split; reflexivity].
      destruct (vec_pop value) as [[x [|]]|]; split; reflexivity.
    - unfold insert_strict_back. destruct (invalid_interval_panic k) as [?|]; [|split; reflexivity].
      change (is_zero_overlap (mkZosdit n' l) k) with (is_zero_overlap (mkZosdit n l) k). destruct (is_zero_overlap (mkZosdit n l) k) as [[]|]; [|split; reflexivity..].
      cbn [z_inner z_len]. destruct (entry_push k v [] l); split; reflexivity.
    - unfold zosdit_cut. destruct (invalid_interval_panic q) as [?|]; [|split; reflexivity]. cbn [z_inner z_len].
      set (c := upper_bound (exclusive_comp (istart q) Lt) l). set (c' := match cursor_key c with None => move_next c | Some _ => c end).
      assert (Hl : length (flatten (snd c')) <= count l).
      { assert (X : exists a, l = a ++ snd c'). { subst c'. destruct (cursor_key c) as [k0|] eqn:Ck; [exists (fst c); apply upper_bound_app|]. exists []. unfold cursor_key in Ck.
          pose proof (upper_bound_app (exclusive_comp (istart q) Lt) l) as U. fold c in U. unfold move_next. clearbody c; clear -U Ck; destruct c as [ca [|[k1 v1] r]]; cbn in *; [rewrite app_nil_r in U; exact U|discriminate]. } destruct X as [l0 El]. unfold count. assert (Y : length (flatten l) = length (flatten l0) + length (flatten (snd c'))) by (rewrite El at 1; unfold flatten; rewrite flat_map_app, app_length; reflexivity). lia. }
      apply cut_loop_len; [exact (Nat.le_trans _ _ _ Hl L')|exact (Nat.le_trans _ _ _ Hl L)].
  Qed.
  Lemma zosdit_loads z : ZWF z -> stored_once z -> from_elements zosdit_serialize zosdit_deserialize z = Some (mkZosdit (length (zosdit_iter z)) (z_inner z)).
  Proof.
    intros Wf O. unfold from_elements. assert (E : zosdit_deserialize (map Some (snd (zosdit_serialize z))) = Val (Ok (mkZosdit (length (zosdit_iter z)) (z_inner z)))); [|rewrite E; reflexivity].
    pose proof Wf as (W & Hok & L). apply (round_trip_exact (mkZosdit (length (zosdit_iter z)) (z_inner z))); [split; [exact W|split; [exact Hok|cbn; apply Nat.le_refl]]|exact (proj1 (stored_once_ZD z Wf) O)|reflexivity].
  Qed.
  Lemma zperform_ZWF (c : zcall I K V) z : ZWF z -> ZWF (fst (zperform c z)).
  Proof. intros W. destruct c; try exact W; [apply remove_ZWF, W|apply insert_ZWF, W|apply cut_ZWF, W]. Qed.
End Zosdit.
