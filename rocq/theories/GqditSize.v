(** * GqditSize: where the entries of a Gqdit start, and how many there are (for
      C110). *)
From Coq Require Import List ZArith Bool Lia Sorting.Sorted.
From Verif Require Import Base BTree IntervalModel NoditModel GqditModel GqditOps Spec
  PointFacts IntervalFacts NoditFacts NoditQueries GqditFacts GqditProofs GqditAlgebra.
Import ListNotations.
Open Scope Z_scope.

(** The calls of a history that are given an interval; those made on a Gqdit
    that is appended later count, too. *)
Fixpoint calls {I K D : Type} (o : gop I K D) : nat :=
  match o with
  | GAppend os => list_sum (map calls os)
  | _ => 1
  end.

Section Size.
  Context {I : Type} `{PL : PointLaws I}.
  Context {K : Type} {IK : InclusiveInterval I K} {IL : IntervalLaws I K}.
  Context {D : Type} {OD : Ord D} {OL : OrdLaws D}.
  Implicit Types (g : Gqdit K D) (k : K) (p : I) (d : D).

  Definition border g (z : Z) : Prop :=
    exists p p' d, rk p + 1 = z /\ rk p' = z /\ ~ (has_id g p d <-> has_id g p' d).

  Lemma starts_nodup g : WF g -> NoDup (map elo g).
  Proof.
    induction g as [|e g IH]; intros W; [constructor|]. apply WF_cons in W. destruct W as (V & W & F). cbn. constructor; [|apply IH, W].
    intros X. apply in_map_iff in X. destruct X as (e' & E & Hi). rewrite Forall_forall in F. specialize (F e' Hi). lia.
  Qed.
  Lemma sets_differ (s s' : BTreeSet D) : is_set s -> is_set s' -> s <> s' -> exists d, ~ (In d s <-> In d s').
  Proof.
    intros Ss Ss' Ns.
    assert (A : forall l l' : list D, (exists d, In d l /\ ~ In d l') \/ (forall d, In d l -> In d l')).
    { intros l l'. induction l as [|d l IH]; [right; intros d []|]. destruct (id_dec d l') as [Y|Y]; [|left; exists d; split; [left; reflexivity|exact Y]].
      destruct IH as [(d' & Y1 & Y2)|IH]; [left; exists d'; split; [right; exact Y1|exact Y2]|right]. intros d' [<-|Y']; auto. }
    destruct (A s s') as [(d & Y1 & Y2)|A1]; [exists d; tauto|]. destruct (A s' s) as [(d & Y1 & Y2)|A2]; [exists d; tauto|].
    exfalso. apply Ns, set_ext; [assumption..|]. intros d. split; auto.
  Qed.
  Lemma start_border g z : GWF g -> (In z (map elo g) <-> z = rk MIN \/ border g z).
  Proof.
    intros G. pose proof G as [(W & C & B) Cov]. split.
    - intros X. apply in_map_iff in X. destruct X as ([k s] & <- & Hi). pose proof (WF_okv _ _ W Hi) as V.
      unfold elo, ehi in *. cbn in *. pose proof (rk_min (istart k)) as M.
      destruct (Z.eq_dec (lo k) (rk MIN)) as [E|E]; [left; exact E|right].
      destruct (rk_surj MIN (istart k) (lo k - 1)) as (p & Hp); [unfold lo in *; lia|].
      destruct (Cov p) as (k' & s' & Hi' & Hc). pose proof (WF_okv _ _ W Hi') as V'. unfold elo, ehi in V'. cbn in V'. apply covers_rk in Hc as Hr.
      assert (No : forall x, covers k x -> ~ covers k' x).
      { intros x X1 X2. pose proof (covers_unique g x k s k' s' W Hi Hi' X1 X2) as E2. injection E2 as <- <-. lia. }
      assert (E1 : hi k' + 1 = lo k).
      { specialize (No (istart k)). rewrite !covers_rk in No. unfold lo, hi in *. lia. }
      pose proof (C _ _ _ _ Hi' Hi E1) as Ns. destruct (B _ _ Hi) as [Ss _]. destruct (B _ _ Hi') as [Ss' _].
      assert (M1 : maps_to g p s') by (exists k'; auto).
      assert (M2 : maps_to g (istart k) s) by (exists k; split; [exact Hi|apply covers_rk; unfold lo, hi in *; lia]).
      (* some identifier tells the two sets apart *)
      assert (X : exists d, ~ (In d s' <-> In d s)).
      { apply sets_differ; [assumption..|]. congruence. }
      destruct X as (d & X). exists p, (istart k), d. split; [unfold lo in *; lia|]. split; [reflexivity|].
      rewrite (has_id_in g p s' d G M1), (has_id_in g _ s d G M2). exact X.
    - intros X. apply in_map_iff. destruct X as [->|(p & p' & d & E1 & E2 & X)].
      + destruct (Cov MIN) as (k & s & Hi & Hc). exists (k, s). split; [|exact Hi]. apply covers_rk in Hc. pose proof (rk_min (istart k)).
        unfold elo, lo in *. cbn. lia.
      + destruct (Cov p') as (k & s & Hi & Hc). exists (k, s). split; [|exact Hi]. apply covers_rk in Hc as Hr. unfold elo. cbn.
        destruct (Z.eq_dec (lo k) z) as [E|E]; [exact E|exfalso]. apply X.
        rewrite (has_id_in g p s d G), (has_id_in g p' s d G); [reflexivity|exists k; auto|exists k; split; [exact Hi|apply covers_rk; lia]].
  Qed.

  (** The same in terms of points. *)
  Lemma ids_differ g p p' : GWF g -> (identifiers_at_point g p <> identifiers_at_point g p' <-> exists d, ~ (has_id g p d <-> has_id g p' d)).
  Proof.
    intros G. destruct (ids_maps g p G) as (s & E & M & S). destruct (ids_maps g p' G) as (s' & E' & M' & S'). rewrite E, E'. split.
    - intros N. destruct (sets_differ s s' S S') as (d & X); [congruence|]. exists d. rewrite (has_id_in g p s d G M), (has_id_in g p' s' d G M'). exact X.
    - intros (d & X) N. injection N as <-. apply X. rewrite (has_id_in g p s d G M), (has_id_in g p' s d G M'). reflexivity.
  Qed.
  Lemma ids_equal g p p' : GWF g -> rk p = rk p' -> identifiers_at_point g p = identifiers_at_point g p'.
  Proof.
    intros G E. destruct (ids_maps g p G) as (s & Es & (k & Hi & Hc) & _). rewrite Es. symmetry. apply ids_iff; [exact G|].
    exists k. split; [exact Hi|]. rewrite covers_rk in *. lia.
  Qed.
  Lemma border_points g p : GWF g -> (border g (rk p) <-> exists p0, rk p0 + 1 = rk p /\ identifiers_at_point g p0 <> identifiers_at_point g p).
  Proof.
    intros G. split.
    - intros (a & b & d & E1 & E2 & X). exists a. split; [exact E1|]. rewrite <- (ids_equal g b p G E2). apply ids_differ; [exact G|]. exists d. exact X.
    - intros (a & E & N). apply ids_differ in N; [|exact G]. destruct N as (d & X). exists a, p, d. auto.
  Qed.

  (** Any other description of the same identifiers has an entry starting
      there, too. *)
  Lemma fewest {L : Type} {IL' : InclusiveInterval I L} g (l : list (L * list D)) : GWF g ->
    (forall p, exists q s, In (q, s) l /\ covers q p) ->
    (forall q s p d, In (q, s) l -> covers q p -> (In d s <-> has_id g p d)) ->
    (length g <= length l)%nat.
  Proof.
    intros G Cov Dl. rewrite <- (map_length elo g), <- (map_length (fun e => lo (fst e)) l).
    apply NoDup_incl_length; [apply starts_nodup, G|]. intros z Hz. apply start_border in Hz; [|exact G]. apply in_map_iff.
    destruct Hz as [->|(p & p' & d & E1 & E2 & X)].
    - destruct (Cov MIN) as (q & s & Hi & Hc). exists (q, s). split; [|exact Hi]. apply covers_rk in Hc. pose proof (rk_min (istart q)). unfold lo in *. cbn. lia.
    - destruct (Cov p') as (q & s & Hi & Hc). exists (q, s). split; [|exact Hi]. apply covers_rk in Hc as Hr. cbn.
      destruct (Z.eq_dec (lo q) z) as [E|E]; [exact E|exfalso]. apply X.
      rewrite <- (Dl q s p' d Hi Hc), <- (Dl q s p d Hi); [reflexivity|]. apply covers_rk. lia.
  Qed.

  Lemma grows_by g g' (l : list Z) : GWF g -> GWF g' -> (forall z, border g' z -> border g z \/ In z l) ->
    (length g' <= length g + length l)%nat.
  Proof.
    intros G G' X. rewrite <- (map_length elo g), <- (map_length elo g'), <- app_length.
    apply NoDup_incl_length; [apply starts_nodup, G'|]. intros z Hz. apply in_app_iff. rewrite (start_border g z G).
    apply start_border in Hz; [|exact G']. destruct Hz as [Hz|Hz]; [auto|]. destruct (X z Hz); auto.
  Qed.

  (** Calls with one interval. *)
  Lemma insert_border ids k g : GWF g -> (length (fst (gqdit_insert (collect ids) k g)) <= length g + 2)%nat.
  Proof.
    intros G. destruct (ins_all ids k g G) as [G' M]. apply (grows_by g _ [lo k; hi k + 1] G G').
    intros z (p & p' & d & E1 & E2 & X). rewrite !M in X.
    destruct (covers_dec k p) as [C|C], (covers_dec k p') as [C'|C']; pose proof C as R; pose proof C' as R'; rewrite covers_rk in R, R'; cbn [In]; try (right; lia);
      left; exists p, p', d; (split; [exact E1|]); (split; [exact E2|]); tauto.
  Qed.
  Lemma cut_with_border {Q} {IQ : InclusiveInterval I Q} ids (q : Q) g : GWF g ->
    (length (fst (cut_with_identifiers (collect ids) q g)) <= length g + 2)%nat.
  Proof.
    intros G. destruct (cutw_all ids q g G) as [G' M]. apply (grows_by g _ [lo q; hi q + 1] G G').
    intros z (p & p' & d & E1 & E2 & X). rewrite !M in X.
    destruct (covers_dec q p) as [C|C], (covers_dec q p') as [C'|C']; pose proof C as R; pose proof C' as R'; rewrite covers_rk in R, R'; cbn [In]; try (right; lia);
      left; exists p, p', d; (split; [exact E1|]); (split; [exact E2|]); tauto.
  Qed.
  Lemma cut_all_border {Q} {IQ : InclusiveInterval I Q} (q : Q) g : GWF g ->
    (length (fst (cut_all_identifiers q g)) <= length g + 2)%nat.
  Proof.
    intros G. destruct (cuta_all q g G) as [G' M]. apply (grows_by g _ [lo q; hi q + 1] G G').
    intros z (p & p' & d & E1 & E2 & X). rewrite !M in X.
    destruct (covers_dec q p) as [C|C], (covers_dec q p') as [C'|C']; pose proof C as R; pose proof C' as R'; rewrite covers_rk in R, R'; cbn [In]; try (right; lia);
      left; exists p, p', d; (split; [exact E1|]); (split; [exact E2|]); tauto.
  Qed.

  Lemma nonempty g : GWF g -> (1 <= length g)%nat.
  Proof.
    intros G. destruct g as [|e g]; [|cbn; lia]. destruct G as [_ C]. destruct (C MIN) as (k & s & [] & _).
  Qed.
  Lemma append_border g h : GWF g -> GWF h -> (length (fst (fst (append g h))) <= length g + length h - 1)%nat.
  Proof.
    intros G G2. destruct (app_all g h G G2) as [G' M].
    (* the starts of [h] except the first point *)
    pose proof (nonempty h G2) as N. assert (Hm : In (rk MIN) (map elo h)) by (apply start_border; auto).
    apply in_split in Hm. destruct Hm as (l1 & l2 & Eh).
    enough (X : (length (fst (fst (append g h))) <= length g + length (l1 ++ l2))%nat).
    { rewrite <- (map_length elo h), Eh, app_length in *. cbn [length] in *. lia. }
    apply (grows_by g _ _ G G'). intros z (p & p' & d & E1 & E2 & X). rewrite !M in X.
    pose proof (has_dec g p d G) as D1. pose proof (has_dec g p' d G) as D2.
    assert (Y : ~ (has_id g p d <-> has_id g p' d) \/ ~ (has_id h p d <-> has_id h p' d)).
    { destruct D1, D2; tauto. }
    destruct Y as [Y|Y]; [left; exists p, p', d; auto|right].
    assert (Z : In z (map elo h)) by (apply start_border; [exact G2|right; exists p, p', d; auto]).
    rewrite Eh in Z. apply in_app_iff in Z. apply in_app_iff. cbn [In] in Z. pose proof (rk_min p). destruct Z as [Z|[Z|Z]]; auto. exfalso. lia.
  Qed.

  Definition grows (o : gop I K D) : Prop := forall g, GWF g -> (length (gstep o g) <= length g + 2 * calls o)%nat.
  Lemma gsteps_size (os : list (gop I K D)) : Forall grows os -> forall g, GWF g ->
    (length (gsteps os g) <= length g + 2 * list_sum (map calls os))%nat.
  Proof.
    unfold gsteps. induction os as [|o os IH]; intros F g G; [cbn; lia|]. apply Forall_cons_iff in F. destruct F as [Fo F].
    cbn [fold_left map list_sum fold_right]. specialize (IH F (gstep o g) (proj1 (step_ok o g G))). specialize (Fo g G).
    change (fold_right Init.Nat.add 0%nat (map calls os)) with (list_sum (map calls os)). lia.
  Qed.
  Lemma gnew_size : length (gnew : Gqdit K D) = 1%nat.
  Proof.
    pose proof (gnew_GWF (K := K) (D := D)) as G. pose proof (nonempty _ G).
    enough ((length (gnew : Gqdit K D) <= length [rk MIN])%nat) by (cbn [length] in *; lia).
    rewrite <- (map_length elo (gnew : Gqdit K D)). apply NoDup_incl_length; [apply starts_nodup, G|].
    intros z Hz. apply start_border in Hz; [|exact G]. destruct Hz as [->|(p & p' & d & _ & _ & X)]; [left; reflexivity|exfalso].
    pose proof (gnew_free (K := K) (D := D) p d). pose proof (gnew_free (K := K) (D := D) p' d). tauto.
  Qed.
  Lemma gstep_size (o : gop I K D) : grows o.
  Proof.
    induction o as [l k|l Q IQ q|Q IQ q|os IH] using gop_rec'; intros g G; cbn [gstep calls].
    - pose proof (insert_border l k g G). lia.
    - pose proof (cut_with_border l q g G). lia.
    - pose proof (cut_all_border q g G). lia.
    - change (fold_left (fun g o => gstep o g) os gnew) with (grun os).
      pose proof (append_border g (grun os) G (grun_GWF os)) as A. pose proof (gsteps_size os IH gnew gnew_GWF) as B.
      rewrite gnew_size in B. unfold grun in *. lia.
  Qed.
  Lemma grun_size (os : list (gop I K D)) : (length (grun os) <= 2 * list_sum (map calls os) + 1)%nat.
  Proof.
    pose proof (gsteps_size os (proj2 (Forall_forall _ _) (fun o _ => gstep_size o)) gnew gnew_GWF) as B. rewrite gnew_size in B. unfold grun. lia.
  Qed.
End Size.
