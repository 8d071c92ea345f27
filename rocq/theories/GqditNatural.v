(** * GqditNatural: a Gqdit uses its identifiers only by comparing them. *)
From Coq Require Import List Bool Arith Sorting.Sorted.
From Verif Require Import Base BTree UtilsModel IntervalModel NoditModel GqditModel GqditOps GqditTransportOps GqditIdsOps Spec
  NoditNatural GqditProofs.
Import ListNotations.

(** ** Converting the identifiers; no law is needed *)
Section Natural.
  Context {I : Type} {OI : Ord I} {DI : DiscreteFinite I}.
  Context {K : Type} {IK : InclusiveInterval I K}.
  Context {D E : Type} {OD : Ord D} {OE : Ord E} (e : D -> E) (Ke : keeps_order e).
  Notation me := (@mapv K (BTreeSet D) (BTreeSet E) (map e)).
  Notation mr := (@mapr K (BTreeSet D) (BTreeSet E) (map e) _ _).
  Implicit Types (g : Gqdit K D) (s t : BTreeSet D).

  Lemma eqb_e x y : eqb (e x) (e y) = eqb x y.
  Proof. unfold eqb. rewrite Ke. reflexivity. Qed.
  Lemma contains_e s d : bset_contains (map e s) (e d) = bset_contains s d.
  Proof. induction s as [|x r IH]; cbn; [reflexivity|]. rewrite eqb_e, IH. reflexivity. Qed.
  Lemma binsert_e d s : bset_insert (e d) (map e s) = map e (bset_insert d s).
  Proof. induction s as [|x r IH]; cbn; [reflexivity|]. rewrite Ke, IH. destruct (cmp d x); reflexivity. Qed.
  Lemma extend_e t : forall s, bset_extend (map e s) (map e t) = map e (bset_extend s t).
  Proof. induction t as [|d t IH]; intros s; [reflexivity|]. unfold bset_extend in *. cbn. rewrite binsert_e. apply IH. Qed.
  Lemma collect_e l : collect (map e l) = map e (collect l).
  Proof. apply (extend_e l []). Qed.
  Lemma retain_e s t : map e (bset_retain (fun i => negb (bset_contains t i)) s) =
    bset_retain (fun i => negb (bset_contains (map e t) i)) (map e s).
  Proof.
    unfold bset_retain. induction s as [|x r IH]; cbn; [reflexivity|]. rewrite contains_e.
    destruct (bset_contains t x); cbn; rewrite IH; reflexivity.
  Qed.
  Lemma bset_eqb_e s : forall t, bset_eqb (map e s) (map e t) = bset_eqb s t.
  Proof. induction s as [|x s IH]; intros [|y t]; cbn; try reflexivity. rewrite eqb_e, IH. reflexivity. Qed.
  Lemma is_empty_e s : bset_is_empty (map e s) = bset_is_empty s.
  Proof. destruct s; reflexivity. Qed.
  Lemma valid_identifier_e d s : valid_identifier (e d) (map e s) = valid_identifier d s.
  Proof. unfold valid_identifier, bset_len. rewrite is_empty_e, map_length, contains_e. reflexivity. Qed.

  Lemma reinsert_e up up' l : (forall s, map e (up s) = up' (map e s)) -> forall g,
    reinsert up' (me l) (me g) = mr (fun x => x) (reinsert up l g).
  Proof.
    intros Hu. induction l as [|[k s] r IH]; intros g; [reflexivity|].
    cbn [mapv map mape fst snd reinsert]. rewrite <- Hu, (insert_merge_touching_if_mapv (V := BTreeSet D) (W := BTreeSet E) (map e) bset_eqb) by apply bset_eqb_e. unfold mapr at 1.
    destruct (insert_merge_touching_if_values_equal bset_eqb k (up s) g) as [g' [[x|x]|]]; cbn [fst snd omap maperr]; try reflexivity.
    apply IH.
  Qed.
  Section Calls.
    Context {Q : Type} {IQ : InclusiveInterval I Q}.
    Implicit Types q : Q.
    Lemma cut_update_e up up' q g : (forall s, map e (up s) = up' (map e s)) ->
      cut_update up' q (me g) = mr (fun x => x) (cut_update up q g).
    Proof.
      intros Hu. unfold cut_update. rewrite cut_mapv. unfold mapr at 1. destruct (cut q g) as [g' [l|]]; cbn [fst snd omap]; [|reflexivity].
      apply reinsert_e, Hu.
    Qed.
    Lemma cut_with_e ids q g : cut_with_identifiers (map e ids) q (me g) = mr (fun x => x) (cut_with_identifiers ids q g).
    Proof.
      unfold cut_with_identifiers. rewrite is_empty_e. destruct (invalid_interval_panic q); [|reflexivity].
      destruct (bset_is_empty ids); [reflexivity|]. apply cut_update_e. intros s. apply retain_e.
    Qed.
    Lemma cut_all_e q g : cut_all_identifiers q (me g) = mr (fun x => x) (cut_all_identifiers q g).
    Proof.
      unfold cut_all_identifiers. destruct (invalid_interval_panic q); [|reflexivity]. apply cut_update_e. reflexivity.
    Qed.
    Lemma gaps_no_e g q : gaps_no_identifier (me g) q = gaps_no_identifier g q.
    Proof.
      unfold gaps_no_identifier. rewrite overlapping_mapv. destruct (invalid_interval_panic q); cbn; [|reflexivity].
      destruct (overlapping g q) as [l|]; cbn; [|reflexivity]. f_equal.
      induction l as [|[k s] r IH]; cbn; [reflexivity|]. rewrite is_empty_e. destruct (bset_is_empty s); cbn; [f_equal|]; exact IH.
    Qed.
  End Calls.
  Lemma filter_valid_e d (l : list (K * BTreeSet D)) :
    map fst (filter (fun kv => valid_identifier (e d) (snd kv)) (me l)) = map fst (filter (fun kv => valid_identifier d (snd kv)) l).
  Proof.
    induction l as [|[k s] r IH]; cbn; [reflexivity|]. rewrite valid_identifier_e.
    destruct (valid_identifier d s); cbn; [f_equal|]; exact IH.
  Qed.
  Lemma take_valid_e d (l : list (K * BTreeSet D)) :
    map fst (take_while (fun kv => valid_identifier (e d) (snd kv)) (me l)) = map fst (take_while (fun kv => valid_identifier d (snd kv)) l).
  Proof.
    induction l as [|[k s] r IH]; cbn; [reflexivity|]. rewrite valid_identifier_e.
    destruct (valid_identifier d s); cbn; [f_equal; exact IH|reflexivity].
  Qed.
  Lemma expand_right_e g d p : expand_gaps_at_point_right (me g) (e d) p = expand_gaps_at_point_right g d p.
  Proof.
    unfold expand_gaps_at_point_right. destruct (iu p) as [q|]; cbn [obind]; [|reflexivity]. rewrite overlapping_mapv.
    destruct (overlapping g q) as [l|]; cbn [obind omap]; [|reflexivity]. rewrite take_valid_e. reflexivity.
  Qed.
  Lemma expand_left_e g d p : expand_gaps_at_point_left (me g) (e d) p = expand_gaps_at_point_left g d p.
  Proof.
    unfold expand_gaps_at_point_left. destruct (ui p) as [q|]; cbn [obind]; [|reflexivity]. rewrite overlapping_mapv.
    destruct (overlapping g q) as [l|]; cbn [obind omap]; [|reflexivity]. unfold mapv. rewrite <- map_rev. fold (me (rev l)).
    rewrite take_valid_e. reflexivity.
  Qed.
  Lemma gaps_with_e {Q} {IQ : InclusiveInterval I Q} g d (q : Q) : gaps_with_identifier (me g) (e d) q = gaps_with_identifier g d q.
  Proof.
    unfold gaps_with_identifier. rewrite overlapping_mapv. destruct (invalid_interval_panic q); cbn [obind]; [|reflexivity].
    destruct (overlapping g q) as [l|]; cbn [obind omap]; [|reflexivity].
    rewrite filter_valid_e, expand_left_e, expand_right_e. reflexivity.
  Qed.
  Lemma ginsert_e ids k g : gqdit_insert (map e ids) k (me g) = mr (fun x => x) (gqdit_insert ids k g).
  Proof.
    unfold gqdit_insert. rewrite is_empty_e. destruct (invalid_interval_panic k); [|reflexivity].
    destruct (bset_is_empty ids); [reflexivity|]. apply cut_update_e. intros s. symmetry. apply extend_e.
  Qed.
  Lemma append_loop_e l : forall g, append_loop (me l) (me g) = mr (fun x => x) (append_loop l g).
  Proof.
    induction l as [|[k s] r IH]; intros g; [reflexivity|]. cbn [mapv map mape fst snd append_loop]. rewrite ginsert_e. unfold mapr at 1.
    destruct (gqdit_insert s k g) as [g' [x|]]; cbn [fst snd omap]; [|reflexivity]. apply IH.
  Qed.
  Lemma append_e g g2 : append (me g) (me g2) = (me (fst (fst (append g g2))), me (snd (fst (append g g2))), snd (append g g2)).
  Proof.
    unfold append. destruct uu as [u|]; [|reflexivity]. rewrite remove_overlapping_mapv. unfold mapr.
    destruct (remove_overlapping u g2) as [g3 [l|]]; cbn [fst snd omap]; [|reflexivity]. rewrite append_loop_e. unfold mapr.
    destruct (append_loop l g) as [g' [x|]]; reflexivity.
  Qed.
  Lemma gnew_e : (gnew : Gqdit K E) = me gnew.
  Proof.
    unfold gnew, gqdit_new. destruct uu as [u|]; cbn [obind]; [|reflexivity].
    change (@new K (BTreeSet E)) with (me (@new K (BTreeSet D))). change (@bset_empty E) with (map e (@bset_empty D)).
    rewrite insert_strict_mapv. unfold mapr. destruct (insert_strict _ _ _) as [m [[x|x]|]]; reflexivity.
  Qed.
  Lemma gsteps_e (os : list (gop I K D)) : Forall (fun o => forall g, gstep (relabel e o) (me g) = me (gstep o g)) os ->
    forall g, gsteps (map (relabel e) os) (me g) = me (gsteps os g).
  Proof.
    unfold gsteps. induction 1 as [|o r Ho _ IH]; intros g; [reflexivity|]. cbn. rewrite Ho. apply IH.
  Qed.
  Lemma gstep_e (o : gop I K D) : forall g, gstep (relabel e o) (me g) = me (gstep o g).
  Proof.
    induction o as [l k|l Q IQ q|Q IQ q|os IH] using gop_rec'; intros g; cbn [relabel gstep].
    - rewrite collect_e, ginsert_e. reflexivity.
    - rewrite collect_e, cut_with_e. reflexivity.
    - rewrite cut_all_e. reflexivity.
    - fold (gsteps os gnew). fold (gsteps (map (relabel e) os) (gnew : Gqdit K E)).
      rewrite gnew_e, gsteps_e by exact IH. rewrite append_e. reflexivity.
  Qed.
  Lemma grun_e (os : list (gop I K D)) : grun (map (relabel e) os) = me (grun os).
  Proof. unfold grun. rewrite gnew_e. apply gsteps_e, Forall_forall. intros o _. apply gstep_e. Qed.
  Lemma ids_e g p : identifiers_at_point (me g) p = omap (map e) (identifiers_at_point g p).
  Proof.
    unfold identifiers_at_point. rewrite get_at_point_mapv. destruct (get_at_point g p) as [[s|]|]; reflexivity.
  Qed.
End Natural.
