(** * OverrideGqditFacts: [Gqdit] with overriding interval types. *)
From Coq Require Import List ZArith Bool Lia.
From Verif Require Import Base BTree UtilsModel IntervalModel NoditModel NoditOps GqditModel GqditOps OverrideModel OverrideOps
  OverrideGqditModel OverrideGqditOps OverrideZosditModel OverrideZosditOps Spec PointFacts IntervalFacts NoditFacts NoditQueries NoditInv GqditFacts GqditProofs
  OverrideFacts OverrideZosditFacts.
Import ListNotations.

Section Facts.
  Context {I : Type} `{PL : PointLaws I}.
  Context {K : Type} {IK : InclusiveInterval I K} {IL : IntervalLaws I K}.
  Context {D : Type} {OD : Ord D}.
  Notation entry := (K * BTreeSet D)%type.
  Implicit Types (g : Gqdit K D) (k : K) (s : BTreeSet D) (p : I) (d : D).

  Section Agree.
    Context (kv : K -> bool) (ko : K -> K -> outcome bool) (kc : K -> I -> outcome bool).
    Context (Hv : agrees_valid kv) (Ho : agrees_overlaps ko) (Hc : agrees_contains kc).

    Lemma gqdit_new_o_agree : gqdit_new_o (D := D) kv = gqdit_new.
    Proof. unfold gqdit_new_o, gqdit_new. destruct uu as [u|]; [|reflexivity]. cbn [obind]. rewrite (insert_strict_o_agree kv Hv). reflexivity. Qed.
    Lemma overlaps_ordered_o_agree a b : overlaps_ordered_o kc a b = Val (overlaps_ordered a b).
    Proof.
      unfold overlaps_ordered_o, overlaps_ordered. rewrite (contains_agree kc a (istart b) Hc). cbn [obind].
      destruct (contains_point a (istart b)); [reflexivity|]. rewrite (contains_agree kc a (iend b) Hc). reflexivity.
    Qed.
    Lemma non_end_gaps_o_agree (s e : I) (l : list K) :
      non_end_gaps_o kc s e l = Val (filter (fun gap => negb (contains_point gap s) && negb (contains_point gap e)) l).
    Proof.
      induction l as [|a l IH]; [reflexivity|]. cbn [non_end_gaps_o filter]. rewrite (contains_agree kc a s Hc). cbn [obind].
      rewrite IH. destruct (contains_point a s); [reflexivity|]. rewrite (contains_agree kc a e Hc). cbn [obind].
      destruct (contains_point a e); reflexivity.
    Qed.
    Section Q.
      Context {Q : Type} {IQ : InclusiveInterval I Q}.
      Implicit Type q : Q.
      Context (qv : Q -> bool) (over : K -> Q -> outcome bool) (Hq : agrees_valid qv) (Hq' : agrees_overlaps over).
      Lemma gaps_no_o_agree g q : gaps_no_identifier_o qv g q = gaps_no_identifier g q.
      Proof. unfold gaps_no_identifier_o, gaps_no_identifier. rewrite iip_o_agree, overlapping_o_agree by exact Hq. reflexivity. Qed.
      Lemma gaps_with_o_agree g d q : gaps_with_identifier_o kc qv g d q = gaps_with_identifier g d q.
      Proof.
        unfold gaps_with_identifier_o, gaps_with_identifier. rewrite iip_o_agree, overlapping_o_agree by exact Hq.
        destruct (invalid_interval_panic q); [|reflexivity]. cbn [obind]. destruct (overlapping g q) as [o|]; [|reflexivity]. cbn [obind].
        rewrite non_end_gaps_o_agree. cbn [obind]. destruct (expand_gaps_at_point_left g d (istart q)) as [[l|]|]; [|reflexivity..].
        cbn [obind]. destruct (expand_gaps_at_point_right g d (iend q)) as [[r|]|]; [|reflexivity..]. cbn [obind].
        rewrite overlaps_ordered_o_agree. reflexivity.
      Qed.
    End Q.

    Lemma reinsert_o_agree update (l : list entry) g : WF g -> reinsert_o kv ko update l g = reinsert update l g.
    Proof.
      revert g. induction l as [|[k s] l IH]; intros g W; cbn [reinsert_o reinsert]; [reflexivity|].
      rewrite (merge_if_equal_o_agree kv ko Hv Ho) by exact W.
      pose proof (step_WF g (OpInsertMergeTouchingIfValuesEqual bset_eqb k (update s)) W) as W'. cbn [step] in W'.
      destruct (insert_merge_touching_if_values_equal bset_eqb k (update s) g) as [g' [[x|e]|]]; [apply IH, W'|reflexivity..].
    Qed.
    Lemma cut_update_o_agree {Q} {IQ : InclusiveInterval I Q} (qv : Q -> bool) (over : K -> Q -> outcome bool) update q g :
      agrees_valid qv -> agrees_overlaps over -> WF g -> cut_update_o kv ko qv over update q g = cut_update update q g.
    Proof.
      intros Hq Hq' W. unfold cut_update_o, cut_update. rewrite (cut_o_agree qv over) by assumption.
      pose proof (step_WF g (OpCut q) W) as W'. cbn [step] in W'.
      destruct (cut q g) as [g' [l|]]; [apply reinsert_o_agree, W'|reflexivity].
    Qed.
    Lemma cut_with_o_agree {Q} {IQ : InclusiveInterval I Q} (qv : Q -> bool) (over : K -> Q -> outcome bool) ids q g :
      agrees_valid qv -> agrees_overlaps over -> WF g -> cut_with_identifiers_o kv ko qv over ids q g = cut_with_identifiers ids q g.
    Proof.
      intros Hq Hq' W. unfold cut_with_identifiers_o, cut_with_identifiers. rewrite iip_o_agree by exact Hq.
      destruct (invalid_interval_panic q); [|reflexivity]. destruct (bset_is_empty ids); [reflexivity|]. apply cut_update_o_agree; assumption.
    Qed.
    Lemma cut_all_o_agree {Q} {IQ : InclusiveInterval I Q} (qv : Q -> bool) (over : K -> Q -> outcome bool) q g :
      agrees_valid qv -> agrees_overlaps over -> WF g -> cut_all_identifiers_o kv ko qv over q g = cut_all_identifiers q g.
    Proof.
      intros Hq Hq' W. unfold cut_all_identifiers_o, cut_all_identifiers. rewrite iip_o_agree by exact Hq.
      destruct (invalid_interval_panic q); [|reflexivity]. apply cut_update_o_agree; assumption.
    Qed.
    Lemma gqdit_insert_o_agree ids k g : WF g -> gqdit_insert_o kv ko ids k g = gqdit_insert ids k g.
    Proof.
      intros W. unfold gqdit_insert_o, gqdit_insert. rewrite iip_o_agree by exact Hv.
      destruct (invalid_interval_panic k); [|reflexivity]. destruct (bset_is_empty ids); [reflexivity|]. apply cut_update_o_agree; assumption.
    Qed.
  End Agree.

  (** ** Order is kept *)
  Section Sound.
    Context (kv : K -> bool) (ko : K -> K -> outcome bool).
    Context (Hv : sound_valid kv) (Ho : misses_none ko).

    Lemma reinsert_o_WF update (l : list entry) g : WF g -> WF (fst (reinsert_o kv ko update l g)).
    Proof.
      revert g. induction l as [|[k s] l IH]; intros g W; cbn [reinsert_o]; [exact W|].
      pose proof (merge_if_equal_o_WF kv ko Hv Ho bset_eqb k (update s) g W) as W'.
      destruct (insert_merge_touching_if_values_equal_o kv ko bset_eqb k (update s) g) as [g' [[x|e]|]]; [apply IH, W'|exact W'..].
    Qed.
    Lemma cut_update_o_WF {Q} {IQ : InclusiveInterval I Q} (qv : Q -> bool) (over : K -> Q -> outcome bool) update q g :
      sound_valid qv -> WF g -> WF (fst (cut_update_o kv ko qv over update q g)).
    Proof.
      intros Hq W. unfold cut_update_o. pose proof (proj1 (cut_o_any qv over q g W Hq)) as W'.
      destruct (cut_o qv over q g) as [g' [l|]]; [apply reinsert_o_WF, W'|exact W'].
    Qed.
    Lemma gqdit_insert_o_WF ids k g : WF g -> WF (fst (gqdit_insert_o kv ko ids k g)).
    Proof.
      intros W. unfold gqdit_insert_o. destruct (invalid_interval_panic_o kv k); [|exact W]. destruct (bset_is_empty ids); [exact W|].
      apply cut_update_o_WF; assumption.
    Qed.
    Lemma append_loop_o_WF (l : list entry) g : WF g -> WF (fst (append_loop_o kv ko l g)).
    Proof.
      revert g. induction l as [|[k s] l IH]; intros g W; cbn [append_loop_o]; [exact W|].
      pose proof (gqdit_insert_o_WF s k g W) as W'. destruct (gqdit_insert_o kv ko s k g) as [g' [u|]]; [apply IH, W'|exact W'].
    Qed.
    Lemma append_o_WF g other : WF g -> WF other -> WF (fst (fst (append_o kv ko g other))) /\ WF (snd (fst (append_o kv ko g other))).
    Proof.
      intros W Wo. unfold append_o. destruct uu as [u|]; [|cbn [fst snd]; auto].
      pose proof (step_WF other (OpRemoveOverlapping u) Wo) as Wo'. cbn [step] in Wo'.
      destruct (remove_overlapping u other) as [o' [l|]]; [|cbn [fst snd] in *; auto].
      pose proof (append_loop_o_WF l g W) as W'. destruct (append_loop_o kv ko l g) as [g' r]. cbn [fst snd] in *. auto.
    Qed.
    Lemma gnew_o_WF : WF (gnew_o (D := D) kv : list entry).
    Proof.
      unfold gnew_o, gqdit_new_o. destruct uu as [u|]; cbn [obind]; [|apply WF_nil].
      pose proof (insert_strict_o_sound kv Hv (ifrom u) (bset_empty : BTreeSet D) new) as X.
      pose proof (step_WF (new : NoditMap K (BTreeSet D)) (OpInsertStrict (ifrom u) bset_empty) WF_nil) as W. cbn [step] in W.
      destruct X as [->| ->]; [apply WF_nil|]. destruct (insert_strict (ifrom u) bset_empty new) as [m [[x|e]|]]; [exact W|apply WF_nil..].
    Qed.
    Fixpoint gstep_o_WF (o : gop_o I K D) : safe_gquery o -> forall g, WF g -> WF (gstep_o kv ko o g).
    Proof.
      destruct o as [ids k|ids Q IQ qv over q|Q IQ qv over q|os]; cbn [safe_gquery gstep_o]; intros Hs g W.
      - apply gqdit_insert_o_WF, W.
      - unfold cut_with_identifiers_o. destruct (invalid_interval_panic_o qv q); [|exact W]. destruct (bset_is_empty _); [exact W|].
        apply cut_update_o_WF; assumption.
      - unfold cut_all_identifiers_o. destruct (invalid_interval_panic_o qv q); [|exact W]. apply cut_update_o_WF; assumption.
      - apply append_o_WF; [exact W|]. clear g W.
        assert (X : forall g, WF g -> WF (fold_left (fun g o => gstep_o kv ko o g) os g)); [|apply X, gnew_o_WF].
        induction os as [|o os IH]; intros g W; cbn [fold_left]; [exact W|]. destruct Hs as [H1 H2].
        apply (IH H2). apply gstep_o_WF; assumption.
    Qed.
    Lemma grun_o_WF (os : list (gop_o I K D)) : Forall safe_gquery os -> WF (grun_o kv ko os).
    Proof.
      unfold grun_o. assert (X : forall g, WF g -> Forall safe_gquery os -> WF (fold_left (fun g o => gstep_o kv ko o g) os g)).
      { induction os as [|o os IH]; intros g W Hs; cbn [fold_left]; [exact W|]. inversion Hs; subst. apply IH; [apply gstep_o_WF|]; assumption. }
      intros Hs. apply X; [apply gnew_o_WF|exact Hs].
    Qed.
  End Sound.

  Lemma agrees_sound {X} {IX : InclusiveInterval I X} (valid' : X -> bool) : agrees_valid valid' -> sound_valid valid'.
  Proof. intros Hv a. apply Hv. Qed.
  Lemma agrees_misses_none {X Y} {IX : InclusiveInterval I X} {IY : InclusiveInterval I Y} (over : X -> Y -> outcome bool) :
    agrees_overlaps over -> misses_none over.
  Proof. intros Ho a b Va Vb O. destruct (Ho a b Va Vb) as (x & -> & Hx). apply Hx in O. subst. discriminate. Qed.
  Lemma append_o_agree kv ko g other : agrees_valid kv -> agrees_overlaps ko -> WF g -> append_o kv ko g other = append g other.
  Proof.
    intros Hv Ho W. unfold append_o, append. destruct uu as [u|]; [|reflexivity]. destruct (remove_overlapping u other) as [o' [l|]]; [|reflexivity].
    assert (E : append_loop_o kv ko l g = append_loop l g); [|rewrite E; reflexivity].
    revert g W. induction l as [|[k s] l IH]; intros g W; cbn [append_loop_o append_loop]; [reflexivity|].
    pose proof (gqdit_insert_o_WF kv ko (agrees_sound kv Hv) (agrees_misses_none ko Ho) s k g W) as W'.
    rewrite (gqdit_insert_o_agree kv ko Hv Ho s k g W) in *. destruct (gqdit_insert s k g) as [g' [x|]]; [apply IH, W'|reflexivity].
  Qed.
End Facts.
