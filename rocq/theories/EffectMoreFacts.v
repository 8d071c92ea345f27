(** * EffectMoreFacts: user code of any kind; facts behind C161. *)
From Coq Require Import List Bool Permutation Arith Lia.
From Verif Require Import Base BTree UtilsModel IntervalModel NoditModel NoditSetModel TreeShape TreeFacts EffectModel EffectOps EffectFacts EffectGqditModel
  EffectBulkModel EffectBulkFacts EffectMoreModel EffectMoreOps.
Import ListNotations.

Lemma within_in {A} (l' l : list A) x : within l' l -> In x l' -> In x l.
Proof. intros X. induction X as [|y l' l X IH|y l' l X IH]; cbn; [trivial|intros [->|Y]; auto|auto]. Qed.

(** ** Where intervals come from *)
Section Origin.
  Context {W I K V : Type} `{DiscreteFinite I} (P : point_code W I) (ik : interval_code W I K) (C : entry_code W I K V) (overlaps_k : K -> K -> user W bool).
  Context (Good : K -> Prop) (GM : forall k, made_by (e_from C) k -> Good k).
  Notation good := (Forall (fun e : K * V => Good (fst e))).
  Implicit Types m : list (K * V).
  Lemma from_good i w k w' : e_from C i w = (Val k, w') -> Good k.
  Proof. intros E. apply GM. exists i, w, w'. exact E. Qed.
  Lemma good_within m m' : within m' m -> good m -> good m'.
  Proof. intros X G. rewrite Forall_forall in *. intros e He. apply G. exact (within_in _ _ _ X He). Qed.
  Lemma good_middle a x b : good (a ++ x ++ b) -> good (a ++ b) /\ good x.
  Proof. rewrite !Forall_app. tauto. Qed.
  Lemma put_good k v m m' : put k v m m' -> Good k -> good m -> good m'.
  Proof.
    intros (a & b & [[-> ->]|(k' & old & -> & ->)]) G; rewrite !Forall_app; intros [Ga Gb]; (split; [exact Ga|]).
    - constructor; assumption.
    - inversion Gb; subst. constructor; assumption.
  Qed.
  Lemma piece_good p v w l w' : piece_e C p v w = (Val l, w') -> good l.
  Proof.
    destruct p as [i|]; cbn [piece_e]; intros E.
    - apply ubind_inv in E. destruct E as (k & w1 & X & E). apply ubind_inv in E. destruct E as (v' & w2 & _ & E). injection E as <- <-. constructor; [exact (from_good _ _ _ _ X)|constructor].
    - injection E as <- <-. constructor.
  Qed.
  Section Q.
    Context {Q : Type} (iq : interval_code W I Q) (q_overlaps : Q -> K -> user W bool) (k_overlaps : K -> Q -> user W bool).
    Definition good_out m' (o : outcome (list (K * V))) : Prop := good m' /\ match o with Val l => good l | Panic => True end.
    Lemma remove_good q t w m' o w' : remove_overlapping_e P ik iq q_overlaps q t w = ((m', o), w') -> good (entries t) -> good_out m' o.
    Proof.
      intros E G. apply remove_any in E. destruct E as (a & out & b & X & -> & Y). rewrite X in G. apply good_middle in G. destruct G as [G1 G2]. split; [exact G1|].
      destruct o; [subst; exact G2|exact Logic.I].
    Qed.
    Lemma cut_loop_good q post : forall pre acc w m' o w', cut_loop_e P ik C iq k_overlaps q pre post acc w = ((m', o), w') ->
      good pre -> good post -> good acc -> good_out m' o.
    Proof.
      induction post as [|[k v] rest IH]; intros pre acc w m' o w' E Gp Gq Ga; cbn [cut_loop_e] in E.
      - injection E as <- <- <-. split; [rewrite app_nil_r; exact Gp|exact Ga].
      - assert (Stop : m' = pre ++ (k, v) :: rest -> o = Panic -> good_out m' o) by (intros -> ->; split; [rewrite Forall_app; auto|exact Logic.I]).
        apply mbind_inv in E. destruct E as [[-> ->]|([|] & w1 & _ & E)]; [apply Stop; reflexivity| |].
        + inversion Gq as [|? ? _ Gr]; subst.
          assert (Stop' : forall l, good l -> m' = (pre ++ l) ++ rest -> o = Panic -> good_out m' o) by (intros l Gl -> ->; split; [rewrite !Forall_app; auto|exact Logic.I]).
          apply mbind_inv in E. destruct E as [[-> ->]|(r & w2 & _ & E)]; [apply (Stop' []); [constructor|rewrite app_nil_r; reflexivity|reflexivity]|].
          apply mbind_inv in E. destruct E as [[-> ->]|(before & w3 & X1 & E)]; [apply (Stop' []); [constructor|rewrite app_nil_r; reflexivity|reflexivity]|].
          apply piece_good in X1. apply mbind_inv in E. destruct E as [[-> ->]|(after & w4 & X2 & E)]; [apply (Stop' before); [exact X1|reflexivity|reflexivity]|].
          apply piece_good in X2. assert (G2 : good (before ++ after)) by (rewrite Forall_app; auto).
          apply mbind_inv in E. destruct E as [[-> ->]|(i & w5 & _ & E)]; [apply (Stop' _ G2); reflexivity|].
          apply mbind_inv in E. destruct E as [[-> ->]|(k' & w6 & X3 & E)]; [apply (Stop' _ G2); reflexivity|].
          apply (IH _ _ _ _ _ _ E); [rewrite Forall_app; auto|exact Gr|]. rewrite Forall_app. split; [exact Ga|]. constructor; [exact (from_good _ _ _ _ X3)|constructor].
        + injection E as <- <- <-. split; [rewrite Forall_app; auto|exact Ga].
    Qed.
    Lemma cut_good q t w m' o w' : cut_e P ik C iq k_overlaps q t w = ((m', o), w') -> good (entries t) -> good_out m' o.
    Proof.
      intros E G. do 2 (apply mbind_inv in E; destruct E as [[-> ->]|(? & ? & _ & E)]; [split; [exact G|exact Logic.I]|]).
      apply mbind_inv in E; destruct E as [[-> ->]|(c & ? & X & E)]; [split; [exact G|exact Logic.I]|].
      apply e_lower_split in X. rewrite X, Forall_app in G. destruct G as [G1 G2]. exact (cut_loop_good _ _ _ _ _ _ _ _ E G1 G2 (Forall_nil _)).
    Qed.
  End Q.

  Context (T : nat -> BTreeMap K V -> tree K V) (TF : faithful T).
  Lemma strict_good k v m w m' o w' : insert_strict_e P ik T k v m w = ((m', o), w') -> Good k -> good m -> good m'.
  Proof.
    intros E Gk G. apply (insert_any P ik T TF) in E. destruct o as [[u|u]|]; [exact (put_good _ _ _ _ E Gk G)|destruct E as [_ ->]; exact G|subst; exact G].
  Qed.
  Lemma overwrite_good k v m w m' o w' : insert_overwrite_e P ik C overlaps_k T k v m w = ((m', o), w') -> Good k -> good m -> good_out m' o.
  Proof.
    intros E Gk G. apply mbind_inv in E. destruct E as [[-> ->]|(? & w1 & _ & E)]; [split; [exact G|exact Logic.I]|].
    apply mthen_inv in E. destruct E as [[E ->]|(m1 & c & w2 & X & E)].
    - apply cut_good in E; [exact E|]. rewrite TF. exact G.
    - apply cut_good in X; [|rewrite TF; exact G]. destruct X as [X1 X2].
      apply mbind_inv in E. destruct E as [[-> ->]|(m2 & w3 & Y & E)]; [split; [exact X1|exact Logic.I]|]. injection E as <- <- <-. apply e_insert_put in Y. rewrite TF in Y.
      split; [exact (put_good _ _ _ _ Y Gk X1)|exact X2].
  Qed.
  Definition good_key m' (o : outcome K) : Prop := good m' /\ match o with Val k => Good k | Panic => True end.
  Lemma merge_good n k v gs ge rs re m w m' o w' : dropping_at_most n rs -> dropping_at_most n re -> Good k -> good m ->
    insert_merge_with_comps_e P ik C overlaps_k T k v gs ge rs re m w = ((m', o), w') -> good_key m' o.
  Proof.
    intros Rs Re Gk G E. apply mbind_inv in E; destruct E as [[-> ->]|(? & ? & _ & E)]; [split; [exact G|exact Logic.I]|].
    apply mbind_inv in E; destruct E as [[-> ->]|(ms & ? & _ & E)]; [split; [exact G|exact Logic.I]|].
    apply mbind_inv in E; destruct E as [[-> ->]|(me & ? & _ & E)]; [split; [exact G|exact Logic.I]|].
    apply mbind_inv in E; destruct E as [[-> ->]|(r & w0 & R & E)]; [split; [exact G|exact Logic.I]|].
    assert (Gr : Good r).
    { revert R. destruct ms as [s|], me as [e|]; intros R; [| | |injection R as <- <-; exact Gk];
        (apply ubind_inv in R; destruct R as (? & ? & _ & R); apply ubind_inv in R; destruct R as (? & ? & _ & R); exact (from_good _ _ _ _ R)). }
    apply mthen_inv in E. destruct E as [[E ->]|(m1 & c & w2 & X & E)].
    - apply remove_good in E; [|rewrite TF; exact G]. split; [apply E|exact Logic.I].
    - apply remove_good in X; [|rewrite TF; exact G]. destruct X as [G1 _].
      apply mbind_inv in E. destruct E as [[-> ->]|(m2 & w3 & X & E)]; [split; [exact G1|exact Logic.I]|].
      apply Rs in X. rewrite TF in X. pose proof (good_within _ _ (proj1 X) G1) as G2.
      apply mbind_inv in E. destruct E as [[-> ->]|(m3 & w4 & Y & E)]; [split; [exact G2|exact Logic.I]|].
      apply Re in Y. rewrite TF in Y. pose proof (good_within _ _ (proj1 Y) G2) as G3.
      apply mbind_inv in E. destruct E as [[-> ->]|(m4 & w5 & Z & E)]; [split; [exact G3|exact Logic.I]|]. injection E as <- <- <-. apply e_insert_put in Z. rewrite TF in Z.
      split; [exact (put_good _ _ _ _ Z Gr G3)|exact Gr].
  Qed.
  Definition good_result m' (o : outcome (result K V)) : Prop := good m' /\ match o with Val (Ok k) => Good k | _ => True end.
  Lemma refusing_good {A} n k v m (x : user W A) gs ge rs re w m' o w' : dropping_at_most n rs -> dropping_at_most n re -> Good k -> good m ->
    mbind m x (fun _ => mbind m (map_overlaps_e P ik ik (T 0 m) k) (fun b : bool => if b then mret m (Val (Err v)) else
      mthen (insert_merge_with_comps_e P ik C overlaps_k T k v gs ge rs re m) (fun m r => mret m (Val (Ok r))))) w = ((m', o), w') ->
    good_result m' o.
  Proof.
    intros Rs Re Gk G E. apply mbind_inv in E; destruct E as [[-> ->]|(? & ? & _ & E)]; [split; [exact G|exact Logic.I]|].
    apply mbind_inv in E; destruct E as [[-> ->]|(b & ? & _ & E)]; [split; [exact G|exact Logic.I]|].
    destruct b; [injection E as <- <- <-; split; [exact G|exact Logic.I]|]. apply mthen_inv in E. destruct E as [[E ->]|(m1 & c & w2 & X & E)].
    - split; [exact (proj1 (merge_good _ _ _ _ _ _ _ _ _ _ _ _ Rs Re Gk G E))|exact Logic.I].
    - injection E as <- <- <-. exact (merge_good _ _ _ _ _ _ _ _ _ _ _ _ Rs Re Gk G X).
  Qed.
  Lemma merge_overlapping_good k v m w m' o w' : insert_merge_overlapping_e P ik C overlaps_k T k v m w = ((m', o), w') -> Good k -> good m -> good_key m' o.
  Proof.
    intros E Gk G. apply mbind_inv in E. destruct E as [[-> ->]|(? & ? & _ & E)]; [split; [exact G|exact Logic.I]|].
    exact (merge_good 0 _ _ _ _ _ _ _ _ _ _ _ nothing_drops nothing_drops Gk G E).
  Qed.
  Lemma merge_both_good k v m w m' o w' : insert_merge_touching_or_overlapping_e P ik C overlaps_k T k v m w = ((m', o), w') -> Good k -> good m -> good_key m' o.
  Proof.
    intros E Gk G. apply mbind_inv in E. destruct E as [[-> ->]|(? & ? & _ & E)]; [split; [exact G|exact Logic.I]|].
    exact (merge_good 1 _ _ _ _ _ _ _ _ _ _ _ (remove_e_drops _ _) (remove_e_drops _ _) Gk G E).
  Qed.
  Lemma call_good c m w m' h w' : ecall_do C P ik overlaps_k T c m w = (m', h, w') -> Forall Good (key_given c) -> good m -> good m'.
  Proof.
    intros E Gk G. destruct c as [k v|k v|k v|k v|k v|k v|q|q]; cbn [ecall_do] in E; unfold handing in E;
      match type of E with (let '(_, _) := ?y in _) = _ => destruct y as [[m1 o] w1] eqn:X end; injection E as -> <- ->; cbn [key_given] in Gk; try (inversion Gk as [|? ? Gk' _]; subst).
    - exact (strict_good _ _ _ _ _ _ _ X Gk' G).
    - exact (proj1 (refusing_good 1 k v m _ _ _ _ _ w m' o w' (remove_e_drops _ _) (remove_e_drops _ _) Gk' G X)).
    - exact (proj1 (refusing_good 1 k v m _ _ _ _ _ w m' o w' (remove_if_e_drops C _ _ _) (remove_if_e_drops C _ _ _) Gk' G X)).
    - exact (proj1 (merge_overlapping_good _ _ _ _ _ _ _ X Gk' G)).
    - exact (proj1 (merge_both_good _ _ _ _ _ _ _ X Gk' G)).
    - exact (proj1 (overwrite_good _ _ _ _ _ _ _ X Gk' G)).
    - apply remove_good in X; [exact (proj1 X)|rewrite TF; exact G].
    - apply cut_good in X; [exact (proj1 X)|rewrite TF; exact G].
  Qed.
End Origin.
Section OriginHistory.
  Context {W I K V : Type} `{DiscreteFinite I} (P : point_code W I) (ik : interval_code W I K) (C : entry_code W I K V) (overlaps_k : K -> K -> user W bool).
  Context (Good : K -> Prop) (GM : forall k, made_by (e_from C) k -> Good k) (T : nat -> nat -> BTreeMap K V -> tree K V) (TF : forall n, faithful (T n)).
  Lemma history_good cs : forall m w m' h w', ehistory C P ik overlaps_k T cs m w = (m', h, w') -> Forall Good (flat_map key_given cs) ->
    Forall (fun e : K * V => Good (fst e)) m -> Forall (fun e : K * V => Good (fst e)) m'.
  Proof.
    induction cs as [|c cs IH]; intros m w m' h w' E Gc G; cbn [ehistory flat_map] in *; [injection E as <- <- <-; exact G|].
    destruct (ecall_do C P ik overlaps_k (T (length cs)) c m w) as [[m1 h1] w1] eqn:E1. destruct (ehistory C P ik overlaps_k T cs m1 w1) as [[m2 h2] w2] eqn:E2.
    injection E as <- <- <-. rewrite Forall_app in Gc. destruct Gc as [Gc1 Gc2]. apply (IH _ _ _ _ _ E2 Gc2). exact (call_good P ik C overlaps_k Good GM _ (TF _) _ _ _ _ _ _ E1 Gc1 G).
  Qed.
End OriginHistory.

Section Gaps.
  Context {W I K V : Type} `{DiscreteFinite I} (P : point_code W I) (ik : interval_code W I K) (C : entry_code W I K V).
  Notation made := (made_by (e_from C)).
  Lemma windows_made l : forall first w gs w', windows_e (V := V) P ik C first l w = (Val gs, w') -> Forall made gs.
  Proof.
    induction l as [|e l IH]; intros first w gs w' E; cbn [windows_e] in E; [injection E as <- <-; constructor|].
    do 5 (apply ubind_inv in E; destruct E as (? & ? & _ & E)). apply ubind_inv in E; destruct E as (g & w1 & X & E). apply ubind_inv in E; destruct E as (b & ? & _ & E).
    apply ubind_inv in E; destruct E as (gs' & ? & Y & E). injection E as <- <-. apply IH in Y. destruct b; [constructor; [eexists _, _, _; exact X|exact Y]|exact Y].
  Qed.
  Lemma inner_made (l : list (K * V)) w gs w' : inner_gaps_e P ik C l w = (Val gs, w') -> Forall made gs.
  Proof. destruct l as [|e l]; cbn [inner_gaps_e]; intros E; [injection E as <- <-; constructor|]. apply ubind_inv in E; destruct E as (? & ? & _ & E). exact (windows_made _ _ _ _ _ E). Qed.
  Lemma from_list_made o w gs w' : from_e C o w = (Val gs, w') -> Forall made gs.
  Proof.
    destruct o; cbn [from_e]; intros E; [|injection E as <- <-; constructor]. apply ubind_inv in E; destruct E as (k & ? & X & E). injection E as <- <-.
    constructor; [eexists _, _, _; exact X|constructor].
  Qed.
  Lemma tail_made (l : list (K * V)) sg eg w gs w' : (do! s := from_e C sg in do! e := from_e C eg in do! inner := inner_gaps_e P ik C l in uret (s ++ inner ++ e)) w = (Val gs, w') -> Forall made gs.
  Proof.
    intros E. apply ubind_inv in E; destruct E as (s & ? & X1 & E). apply ubind_inv in E; destruct E as (e & ? & X2 & E). apply ubind_inv in E; destruct E as (i & ? & X3 & E).
    injection E as <- <-. rewrite !Forall_app. repeat split; [exact (from_list_made _ _ _ _ X1)|exact (inner_made _ _ _ _ X3)|exact (from_list_made _ _ _ _ X2)].
  Qed.
  Context {Q : Type} (iq : interval_code W I Q).
  Lemma untrimmed_made t q w gs w' : gaps_untrimmed_e P ik C iq t q w = (Val gs, w') -> Forall made gs.
  Proof.
    intros E. do 3 (apply ubind_inv in E; destruct E as (? & ? & _ & E)). apply ubind_inv in E; destruct E as ([sg eg] & ? & _ & E).
    apply ubind_inv in E; destruct E as (l & ? & _ & E). exact (tail_made _ _ _ _ _ _ E).
  Qed.
  Lemma trimmed_made t q w gs w' : gaps_trimmed_e P ik C iq t q w = (Val gs, w') -> Forall made gs.
  Proof.
    intros E. do 3 (apply ubind_inv in E; destruct E as (? & ? & _ & E)). apply ubind_inv in E; destruct E as ([sg eg] & ? & _ & E).
    apply ubind_inv in E; destruct E as (l & ? & _ & E). exact (tail_made _ _ _ _ _ _ E).
  Qed.
  Lemma get_made (t : tree K V) (p : I) w r w' : get_key_value_at_point_e P ik C t p w = (Val r, w') -> match r with Ok e => In e (entries t) | Err k => made k end.
  Proof.
    intros E. apply ubind_inv in E. destruct E as ([x|] & w1 & X & E).
    - injection E as <- <-. exact (e_get_stored _ _ _ _ _ X).
    - apply ubind_inv in E. destruct E as (g & w2 & _ & E). apply ubind_inv in E. destruct E as (k & w3 & Y & E). injection E as <- <-. eexists _, _, _; exact Y.
  Qed.
End Gaps.

(** ** Values changed in place *)
Section Edit.
  Context {W K V : Type} (f : edit (W := W) (K := K) (V := V)).
  Lemma edit_all_any l : forall pre post w m' o w', edit_all f pre l post w = ((m', o), w') -> exists done done' last last' todo,
    l = done ++ last ++ todo /\ m' = pre ++ done' ++ last' ++ todo ++ post /\ Forall2 (edited_by f (Val tt)) done done' /\ Forall2 (edited_by f Panic) last last' /\ length last <= 1 /\
    match o with Val _ => last ++ todo = [] | Panic => True end.
  Proof.
    induction l as [|[k v] l IH]; intros pre post w m' o w' E; cbn [edit_all] in E.
    - injection E as <- <- <-. exists [], [], [], [], []. repeat split; [constructor|constructor|cbn; lia].
    - destruct (f k v w) as [[v' [u|]] w1] eqn:F.
      + apply IH in E. destruct E as (d & d' & x & x' & t & -> & -> & X & L). exists ((k, v) :: d), ((k, v') :: d'), x, x', t. rewrite <- app_assoc. repeat split; try apply L.
        constructor; [|exact X]. split; [reflexivity|]. destruct u. exists w, w1. exact F.
      + injection E as <- <- <-. exists [], [], [(k, v)], [(k, v')], l. repeat split; [constructor| |cbn; lia]. constructor; [|constructor]. split; [reflexivity|]. exists w, w1. exact F.
  Qed.
  Lemma edit_all_run pre l post w m' o w' : edit_all f pre l post w = ((m', o), w') -> edits_run f l (pre ++ l ++ post) m' o.
  Proof. intros E. apply edit_all_any in E. destruct E as (d & d' & x & x' & t & X). exists pre, d, d', x, x', t, post. auto. Qed.
  Lemma edits_nothing m : edits_run f [] m m Panic.
  Proof. exists m, [], [], [], [], [], []. rewrite !app_nil_r. repeat split; [constructor|constructor|cbn; lia]. Qed.
  Lemma three_parts {A} i j (l : list A) : firstn i l ++ skipn i (firstn j l) ++ skipn (Nat.max i j) l = l.
  Proof.
    destruct (Nat.le_gt_cases i j) as [L|L].
    - rewrite Nat.max_r, app_assoc by exact L. assert (E : firstn i l ++ skipn i (firstn j l) = firstn j l); [|rewrite E; apply firstn_skipn].
      rewrite <- (firstn_skipn i (firstn j l)) at 2. rewrite firstn_firstn, Nat.min_l by exact L. reflexivity.
    - rewrite Nat.max_l by lia. rewrite (skipn_all2 (firstn j l)) by (rewrite firstn_length; lia). apply firstn_skipn.
  Qed.
  Context {I : Type} (P : point_code W I) (ik : interval_code W I K).
  Lemma overlapping_mut_any {Q} (iq : interval_code W I Q) q t w m' o w' : overlapping_mut_e P ik iq f q t w = ((m', o), w') -> exists l, edits_run f l (entries t) m' o.
  Proof.
    intros E. do 3 (apply mbind_inv in E; destruct E as [[-> ->]|(? & ? & _ & E)]; [exists []; apply edits_nothing|]).
    apply mbind_inv in E; destruct E as [[-> ->]|([[a ?] b] & ? & _ & E)]; [exists []; apply edits_nothing|].
    apply mbind_inv in E; destruct E as [[-> ->]|([[a' x'] b'] & ? & _ & E)]; [exists []; apply edits_nothing|].
    apply edit_all_run in E. rewrite three_parts in E. eexists. exact E.
  Qed.
  Lemma get_at_point_mut_any p t w m' o w' : get_at_point_mut_e P ik f p t w = ((m', o), w') ->
    match o with
    | Val None => m' = entries t
    | Val (Some v) => exists a k v' b w1 w2, entries t = a ++ (k, v) :: b /\ m' = a ++ (k, v') :: b /\ f k v w1 = ((v', Val tt), w2)
    | Panic => exists l, length l <= 1 /\ edits_run f l (entries t) m' Panic
    end.
  Proof.
    intros E. apply mbind_inv in E. destruct E as [[-> ->]|([[a x] b] & w1 & S & E)]; [exists []; split; [cbn; lia|apply edits_nothing]|].
    apply (proj1 (e_search_place _)) in S. destruct x as [[k v]|].
    - cbn [olist app] in S. unfold mthen in E. cbn [edit_all] in E. destruct (f k v w1) as [[v' [[]|]] w2] eqn:F.
      + injection E as <- <- <-. exists a, k, v', b, w1, w2. rewrite <- app_assoc. auto.
      + injection E as <- <- <-. exists [(k, v)]. split; [cbn; lia|]. rewrite S. exists a, [], [], [(k, v)], [(k, v')], [], b. repeat split; [constructor| |cbn; lia]. constructor; [|constructor].
        split; [reflexivity|]. exists w1, w2. exact F.
    - injection E as <- <- <-. reflexivity.
  Qed.
End Edit.

(** ** Sets *)
Section SetAny.
  Context {W I K : Type} `{DiscreteFinite I} (P : point_code W I) (ik : interval_code W I K) (from : Interval I -> user W K) (overlaps_k : K -> K -> user W bool).
  Context (Good : K -> Prop) (GM : forall k, made_by from k -> Good k).
  Notation good := (Forall (fun e : K * unit => Good (fst e))).
  Lemma firsts_good (l : list (K * unit)) : good l -> Forall Good (map first l).
  Proof. intros G. induction G as [|[k u] l Gk G IH]; cbn; constructor; auto. Qed.
  Lemma then_firsts (x : changing W K unit (list (K * unit))) w s' h w' : handing_back (fun l => l) (mthen x (fun s l => mret s (Val (map first l))) w) = (s', h, w') ->
    exists o, x w = ((s', o), w') /\ match o with Val l => h = map first l | Panic => h = [] end.
  Proof. unfold mthen, mret. destruct (x w) as [[m [l|]] w1]; cbn [handing_back]; intros E; injection E as <- <- <-; eexists; split; reflexivity. Qed.
  Lemma scall_good T c s w s' h w' : faithful T -> scall_do P ik from overlaps_k T c s w = (s', h, w') -> Forall Good (stored_by c) -> good s -> good s' /\ Forall Good h.
  Proof.
    intros TF E Gk G. destruct c as [k|k|k|k|k|q|q]; cbn [scall_do] in E; cbn [stored_by] in Gk; try (inversion Gk as [|? ? Gk' _]; subst).
    - destruct (set_insert_strict_e P ik T k s w) as [[m o] w1] eqn:X. pose proof (strict_good P ik Good T TF _ _ _ _ _ _ _ X Gk' G) as Y.
      destruct o; cbn [handing_back] in E; injection E as <- <- <-; (split; [exact Y|constructor]).
    - destruct (set_insert_merge_touching_e P ik from overlaps_k T k s w) as [[m o] w1] eqn:X.
      pose proof (refusing_good P ik (unit_code from) overlaps_k Good GM T TF 1 k tt s _ _ _ _ _ w m o w1 (remove_e_drops _ _) (remove_e_drops _ _) Gk' G X) as [Y1 Y2].
      destruct o as [[r|u]|]; cbn [handing_back] in E; injection E as <- <- <-; (split; [exact Y1|]); repeat constructor. exact Y2.
    - destruct (set_insert_merge_overlapping_e P ik from overlaps_k T k s w) as [[m o] w1] eqn:X.
      pose proof (merge_overlapping_good P ik (unit_code from) overlaps_k Good GM T TF _ _ _ _ _ _ _ X Gk' G) as [Y1 Y2].
      destruct o; cbn [handing_back] in E; injection E as <- <- <-; (split; [exact Y1|]); repeat constructor. exact Y2.
    - destruct (set_insert_merge_touching_or_overlapping_e P ik from overlaps_k T k s w) as [[m o] w1] eqn:X.
      pose proof (merge_both_good P ik (unit_code from) overlaps_k Good GM T TF _ _ _ _ _ _ _ X Gk' G) as [Y1 Y2].
      destruct o; cbn [handing_back] in E; injection E as <- <- <-; (split; [exact Y1|]); repeat constructor. exact Y2.
    - apply then_firsts in E. destruct E as (o & X & Z).
      pose proof (overwrite_good P ik (unit_code from) overlaps_k Good GM T TF _ _ _ _ _ _ _ X Gk' G) as [Y1 Y2]. split; [exact Y1|]. destruct o; subst h; [exact (firsts_good _ Y2)|constructor].
    - apply then_firsts in E. destruct E as (o & X & Z).
      assert (G' : good (entries (T 0 s))) by (rewrite TF; exact G). pose proof (remove_good P ik Good ik overlaps_k _ _ _ _ _ _ X G') as [Y1 Y2]. split; [exact Y1|]. destruct o; subst h; [exact (firsts_good _ Y2)|constructor].
    - apply then_firsts in E. destruct E as (o & X & Z).
      assert (G' : good (entries (T 0 s))) by (rewrite TF; exact G). pose proof (cut_good P ik (unit_code from) Good GM ik overlaps_k _ _ _ _ _ _ X G') as [Y1 Y2]. split; [exact Y1|]. destruct o; subst h; [exact (firsts_good _ Y2)|constructor].
  Qed.
  Lemma shistory_good T cs : (forall n, faithful (T n)) -> forall s w s' h w', shistory P ik from overlaps_k T cs s w = (s', h, w') -> Forall Good (flat_map stored_by cs) ->
    good s -> good s' /\ Forall Good h.
  Proof.
    intros TF. induction cs as [|c cs IH]; intros s w s' h w' E Gc G; cbn [shistory flat_map] in *; [injection E as <- <- <-; split; [exact G|constructor]|].
    destruct (scall_do P ik from overlaps_k (T (length cs)) c s w) as [[m1 h1] w1] eqn:E1. destruct (shistory P ik from overlaps_k T cs m1 w1) as [[m2 h2] w2] eqn:E2.
    injection E as <- <- <-. rewrite Forall_app in Gc. destruct Gc as [Gc1 Gc2]. destruct (scall_good _ _ _ _ _ _ _ (TF _) E1 Gc1 G) as [G1 H1].
    destruct (IH _ _ _ _ _ E2 Gc2 G1) as [G2 H2]. split; [exact G2|]. rewrite Forall_app. auto.
  Qed.
  Lemma put_set k (s s' : NoditSet K) : put k tt s s' -> (exists a b, set_iter s = a ++ b /\ set_iter s' = a ++ k :: b) \/ s' = s.
  Proof.
    intros (a & b & [[-> ->]|(k' & [] & -> & ->)]); [left|right; reflexivity]. exists (map first a), (map first b). unfold set_iter, iter. rewrite !map_app. auto.
  Qed.
  Lemma put_set_perm k (s s' : NoditSet K) : put k tt s s' -> exists lost, Permutation (set_iter s ++ [k]) (set_iter s' ++ lost).
  Proof.
    intros X. apply put_set in X. destruct X as [(a & b & E & E')| -> ].
    - exists []. rewrite E, E', app_nil_r, <- app_assoc. apply Permutation_app_head. symmetry. apply Permutation_cons_append.
    - exists [k]. reflexivity.
  Qed.
End SetAny.

Section SetBulk.
  Context {W I K E : Type} (P : point_code W I) (ik : interval_code W I K) (T : nat -> nat -> BTreeMap K unit -> tree K unit) (TF : forall i, faithful (T i)).
  Lemma map_err_inv (custom : user W E) (x : (NoditSet K * outcome (result unit unit)) * W) m o w : map_err_custom custom x = ((m, o), w) ->
    exists o' w1, x = ((m, o'), w1) /\ match o with
      | Val (Ok u) => o' = Val (Ok u) /\ w1 = w
      | Val (Err e) => o' = Val (Err tt) /\ custom w1 = (Val e, w)
      | Panic => (o' = Panic /\ w1 = w) \/ (o' = Val (Err tt) /\ custom w1 = (Panic, w))
      end.
  Proof.
    destruct x as [[m' [[u|[]]|]] w1]; cbn [map_err_custom].
    - intros X. injection X as <- <- <-. eexists _, _. split; [reflexivity|]. auto.
    - destruct (custom w1) as [[e|] w2] eqn:C; intros X; injection X as <- <- <-; eexists _, _; (split; [reflexivity|]); auto.
    - intros X. injection X as <- <- <-. eexists _, _. split; [reflexivity|]. auto.
  Qed.
  Lemma set_load_perm {F} (next : user W (result (option (K * unit)) F)) insert fuel w s l w' :
    (forall i k v m w0 m1 u w1, insert i k v m w0 = ((m1, Val (Ok u)), w1) -> put k tt m m1) ->
    load_e (M := NoditSet K) next insert fuel 0 set_new w = (LDone s, l, w') -> exists lost, Permutation (map first l) (set_iter s ++ lost).
  Proof.
    intros HI X. apply (load_keeps _ _ (fun (s : NoditSet K) l => exists lost, Permutation (map first l) (set_iter s ++ lost))) with (l0 := []) in X; [exact X| |exists []; reflexivity].
    intros i k v m0 w0 m1 u w1 l0 Y (lost & PM). apply HI in Y. apply put_set_perm in Y. destruct Y as (d & Y). exists (lost ++ d).
    rewrite map_app, PM. cbn [map first]. rewrite <- app_assoc, (Permutation_app_comm lost [k]), app_assoc, Y, <- !app_assoc. apply Permutation_app_head, Permutation_app_comm.
  Qed.
End SetBulk.
