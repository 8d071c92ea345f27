(** * PropsGqditWorld: programs that append, clone and compare Gqdits (C152). *)
From Coq Require Import List ZArith Bool Lia.
From Verif Require Import Base BTree UtilsModel IntervalModel NoditModel GqditModel GqditOps Spec CompleteOps ClientGqditOps AppendedOps GqditWorldOps
  InstancesModel Instances PointFacts IntervalFacts NoditFacts NoditQueries NoditMutations GqditFacts GqditProofs GqditGaps GqditAlgebra GqditIds CompleteProofs
  OverlayFacts EqModel PropsEq PropsWorld PropsGqdit PropsClientGqdit PropsAppended.
Import ListNotations.
Open Scope nat_scope.

Section Props.
  Context {I : Type} `{PL : PointLaws I} {OLI : OrdLaws I}.
  Context {K : Type} {IK : InclusiveInterval I K} {IL : IntervalLaws I K} {FI : FromInvalid I K}.
  Context {D : Type} {OD : Ord D} {OL : OrdLaws D}.
  Context (DP : determined_by_points I K) (keq : K -> K -> bool) (KE : forall k k', keq k k' = true <-> k = k').
  Implicit Types (g h : Gqdit K D) (c : gcall I K D) (B A : I -> D -> Prop).
  Notation M := (model_gqdits (I := I) (K := K) (D := D) keq).

  Lemma occurs_kept g : qoccurs M g -> good g.
  Proof.
    induction 1 as [|s c _ IH|s t _ IH _ IH2|s t _ IH _ IH2|s _ IH].
    - left. apply gnew_GWF.
    - apply (good_perform DP), IH.
    - destruct (good_append s t IH IH2) as (g' & E & G & _). cbn [q_append model_gqdits]. rewrite E. exact G.
    - destruct (good_append s t IH IH2) as (g' & E & G & _). cbn [q_append model_gqdits]. rewrite E. right. reflexivity.
    - exact IH.
  Qed.
  Lemma good_same g h : good g -> good h ->
    (gqdit_eqb keq g h = true <-> has_entries g = has_entries h /\ (has_entries g = true -> forall p d, sits g p d <-> sits h p d)).
  Proof.
    intros [G| ->] [Gh| ->].
    - rewrite (eqb_spec keq g h); [|intros k; apply KE; reflexivity|intros k k' E; apply KE in E; subst k'; split; auto|exact G|exact Gh].
      rewrite !GWF_entries by assumption. split.
      + intros E. split; [reflexivity|]. intros _ p d. rewrite <- (has_id_iff g p d G), <- (has_id_iff h p d Gh). unfold has_id. rewrite E. reflexivity.
      + intros [_ E] p. specialize (E eq_refl p). destruct (ids_maps g p G) as (s & Es & Ms & Ss), (ids_maps h p Gh) as (t & Et & Mt & St). rewrite Es, Et. f_equal.
        apply set_ext; [exact Ss|exact St|]. intros d. specialize (E d). unfold sits in E. split; intros Hd.
        * destruct (proj1 E (ex_intro _ s (conj Ms Hd))) as (t' & Mt' & Hd'). rewrite (maps_to_fun h p t t'); [exact Hd'|apply Gh|exact Mt|exact Mt'].
        * destruct (proj2 E (ex_intro _ t (conj Mt Hd))) as (s' & Ms' & Hd'). rewrite (maps_to_fun g p s s'); [exact Hd'|apply G|exact Ms|exact Ms'].
    - rewrite (GWF_entries g G). pose proof (GWF_entries g G) as E. destruct g; [discriminate E|]. destruct p. split; [discriminate|intros [X _]; discriminate X].
    - rewrite (GWF_entries h Gh). pose proof (GWF_entries h Gh) as E. destruct h; [discriminate E|]. split; [discriminate|intros [X _]; discriminate X].
    - cbn. split; [intros _; split; [reflexivity|discriminate]|reflexivity].
  Qed.
  Lemma model_described : gqdits_as_described M has_entries sits.
  Proof.
    split; [|split; [|split; [|split]]].
    - exact (proj1 (kept_inert DP)).
    - intros s c O. apply occurs_kept in O. cbn [q_does model_gqdits]. split; [apply (good_perform DP), O|]. destruct O as [G| ->].
      + split; [intros _; apply (gperform_spec DP s c G)|]. rewrite (GWF_entries s G). discriminate.
      + split; [discriminate|]. intros _. apply empty_perform.
    - intros s t Os Ot. apply occurs_kept in Os, Ot. cbn [q_append model_gqdits]. destruct (good_append s t Os Ot) as (g' & -> & _ & E & X). cbn [fst snd]. auto.
    - intros s _. cbn. split; [reflexivity|]. intros _ p d. reflexivity.
    - intros s t Os Ot. apply good_same; apply occurs_kept; assumption.
  Qed.

  Lemma qexecute_same (i j : gqdits (I := I) (K := K) (D := D)) wi wj hi hj :
    gqdits_as_described i wi hi -> gqdits_as_described j wj hj ->
    forall R (p : gprogram R) f f', (forall x, qoccurs i (f x)) -> (forall x, qoccurs j (f' x)) ->
    (forall x, wi (f x) = wj (f' x) /\ (wi (f x) = true -> unchanged (hi (f x)) (hj (f' x)))) ->
    qexecute i f p = qexecute j f' p.
  Proof.
    intros ((Wi & Si) & Di & Ji & Ci & Qi) ((Wj & Sj) & Dj & Jj & Cj & Qj) R p.
    assert (Z : wi (q_start i) = wj (q_start j) /\ (wi (q_start i) = true -> unchanged (hi (q_start i)) (hj (q_start j)))).
    { split; [congruence|]. intros _ q d. split; intros X; exfalso; [exact (Sj q d X)|exact (Si q d X)]. }
    induction p as [r|x next IH|x c next IH|x y next IH|x y next IH|x y next IH]; intros f f' Of Of' E; cbn [qexecute].
    - reflexivity.
    - apply IH; intros y; unfold assign; destruct (Nat.eqb x y); auto using qoccurs_start.
    - pose proof (Di (f x) c (Of x)) as X. pose proof (Dj (f' x) c (Of' x)) as X'.
      pose proof (qoccurs_after i (f x) c (Of x)) as O. pose proof (qoccurs_after j (f' x) c (Of' x)) as O'.
      destruct (q_does i c (f x)) as [s a], (q_does j c (f' x)) as [s' a']. cbn [fst snd] in *.
      destruct X as (X1 & X2 & X3), X' as (X1' & X2' & X3'), (E x) as [E1 E2].
      assert (AE : a' = a /\ (wi s = true -> unchanged (hi s) (hj s'))).
      { destruct (wi (f x)) eqn:Ew.
        - destruct (gdocumented_same DP c _ _ _ _ a a' (E2 eq_refl) (X2 eq_refl) (X2' (eq_sym E1))) as [-> U]. split; [reflexivity|]. intros _. exact U.
        - split; [apply (inert_same c); [apply X3; reflexivity|apply X3'; symmetry; exact E1]|]. intros Y. congruence. }
      destruct AE as [-> U].
      apply IH; intros y; unfold assign; destruct (Nat.eqb x y); auto. split; [congruence|exact U].
    - pose proof (Ji (f x) (f y) (Of x) (Of y)) as X. pose proof (Jj (f' x) (f' y) (Of' x) (Of' y)) as X'.
      pose proof (qoccurs_self i (f x) (f y) (Of x) (Of y)) as O. pose proof (qoccurs_self j (f' x) (f' y) (Of' x) (Of' y)) as O'.
      pose proof (qoccurs_other i (f x) (f y) (Of x) (Of y)) as P. pose proof (qoccurs_other j (f' x) (f' y) (Of' x) (Of' y)) as P'.
      destruct (q_append i (f x) (f y)) as [[s t] a], (q_append j (f' x) (f' y)) as [[s' t'] a']. cbn [fst snd] in *.
      destruct X as (-> & X1 & X2 & X3), X' as (-> & X1' & X2' & X3'). destruct (E x) as [E1 E2], (E y) as [F1 F2].
      apply IH; intros w; unfold assign; destruct (Nat.eqb x w), (Nat.eqb y w); auto.
      all: split; [congruence|]; intros Y.
      1, 2: rewrite X2 in Y; intros q d; rewrite (X3 Y), (X3' ltac:(congruence)), (E2 Y q d), <- F1;
        split; (intros [Z1|[Z1 Z2]]; [left; exact Z1|right; split; [exact Z1|apply (F2 Z1), Z2]]).
      congruence.
    - destruct (Ci (f y) (Of y)) as [X1 X2], (Cj (f' y) (Of' y)) as [X1' X2'], (E y) as [E1 E2].
      apply IH; intros w; unfold assign; destruct (Nat.eqb x w); auto using qoccurs_copy.
      split; [congruence|]. intros Y q d. rewrite (X2 ltac:(congruence)), (X2' ltac:(congruence)). apply E2. congruence.
    - assert (S : q_same i (f x) (f y) = q_same j (f' x) (f' y)); [|rewrite S; apply IH; assumption].
      destruct (E x) as [E1 E2], (E y) as [F1 F2]. apply eq_true_iff_eq. rewrite (Qi _ _ (Of x) (Of y)), (Qj _ _ (Of' x) (Of' y)), <- E1, <- F1.
      split; intros [Y1 Y2]; (split; [exact Y1|]); intros Y q d.
      + rewrite (E2 Y q d), (F2 ltac:(congruence) q d). apply Y2, Y.
      + rewrite <- (E2 Y q d), <- (F2 ltac:(congruence) q d). apply Y2, Y.
  Qed.

  (** ** The converse *)
  Definition puts (i : gqdits (I := I) (K := K) (D := D)) (x : nat) (s : q_state i) (T : forall R, gprogram R -> gprogram R) : Prop :=
    forall R (p : gprogram R) f, exists f', f' x = s /\ (forall y, y < x -> f' y = f y) /\ qexecute i f (T R p) = qexecute i f' p.
  Context (i : gqdits (I := I) (K := K) (D := D)) (X : forall R (p : gprogram R), qrun i p = qrun M p).
  Implicit Types s t : q_state i.
  (** A program puts [s] into a variable of the implementation and [g] into one of the model. *)
  Definition pair s g : Prop := forall x, exists T, puts i x s T /\ puts M x g T.

  Lemma pair_run s g R (p : gprogram R) : pair s g -> exists f f', f 0 = s /\ f' 0 = g /\ qexecute i f p = qexecute M f' p.
  Proof.
    intros P. destruct (P 0) as (T & H1 & H2). destruct (H1 R p (fun _ => q_start i)) as (f & E1 & _ & E2).
    destruct (H2 R p (fun _ => q_start M)) as (f' & E1' & _ & E2'). exists f, f'. repeat split; [exact E1|exact E1'|].
    rewrite <- E2, <- E2'. apply X.
  Qed.
  Lemma pair_run2 s g t h R (p : gprogram R) : pair s g -> pair t h ->
    exists f f', f 0 = s /\ f' 0 = g /\ f 1 = t /\ f' 1 = h /\ qexecute i f p = qexecute M f' p.
  Proof.
    intros P P2. destruct (P2 1) as (T & H1 & H2). destruct (P 0) as (T0 & H3 & H4).
    destruct (H3 R (T R p) (fun _ => q_start i)) as (f & E1 & _ & E2). destruct (H4 R (T R p) (fun _ => q_start M)) as (f' & E1' & _ & E2').
    destruct (H1 R p f) as (f1 & F1 & F2 & F3). destruct (H2 R p f') as (f1' & F1' & F2' & F3').
    exists f1, f1'. rewrite F2, F2' by lia. repeat split; try assumption. rewrite <- F3, <- F3', <- E2, <- E2'. apply X.
  Qed.
  Lemma pair_ask s g c : pair s g -> snd (q_does i c s) = snd (gperform c g).
  Proof.
    intros P. destruct (pair_run s g _ (QCall _ 0 c (fun a => QStop _ a)) P) as (f & f' & E & E' & Z). cbn [qexecute] in Z. rewrite E, E' in Z.
    change (q_does M c g) with (gperform c g) in Z. destruct (q_does i c s), (gperform c g). exact Z.
  Qed.
  Lemma pair_same s g t h : pair s g -> pair t h -> q_same i s t = gqdit_eqb keq g h.
  Proof.
    intros P P2. destruct (pair_run2 s g t h _ (QSame _ 0 1 (fun a => QStop _ a)) P P2) as (f & f' & E0 & E0' & E1 & E1' & Z). cbn [qexecute] in Z.
    rewrite E0, E0', E1, E1' in Z. exact Z.
  Qed.
  Lemma pair_joined s g t h : pair s g -> pair t h -> snd (q_append i s t) = snd (append g h).
  Proof.
    intros P P2. destruct (pair_run2 s g t h _ (QAppend _ 0 1 (fun a => QStop _ a)) P P2) as (f & f' & E0 & E0' & E1 & E1' & Z). cbn [qexecute] in Z.
    rewrite E0, E0', E1, E1' in Z. change (q_append M g h) with (append g h) in Z.
    destruct (q_append i s t) as [[u v] a], (append g h) as [[u' v'] a']. exact Z.
  Qed.

  Lemma puts_new (j : gqdits (I := I) (K := K) (D := D)) x : puts j x (q_start j) (fun R p => QNew R x p).
  Proof. intros R p f. cbn [qexecute]. eexists. split; [|split; [|reflexivity]]; [apply assign_same|]. intros y Hy. apply assign_other. lia. Qed.
  Lemma puts_after (j : gqdits (I := I) (K := K) (D := D)) x (s : q_state j) c T : puts j x s T -> puts j x (fst (q_does j c s)) (fun R p => T R (QCall R x c (fun _ => p))).
  Proof.
    intros H1 R p f. destruct (H1 R (QCall R x c (fun _ => p)) f) as (f1 & E1 & L1 & ->). cbn [qexecute]. rewrite E1.
    destruct (q_does j c s) as [u a]. cbn [fst]. eexists. split; [|split; [|reflexivity]]; [apply assign_same|].
    intros y Hy. rewrite assign_other by lia. apply L1, Hy.
  Qed.
  Lemma puts_copy (j : gqdits (I := I) (K := K) (D := D)) x (s : q_state j) T : puts j x s T -> puts j x (q_copy j s) (fun R p => T R (QCopy R x x p)).
  Proof.
    intros H1 R p f. destruct (H1 R (QCopy R x x p) f) as (f1 & E1 & L1 & ->). cbn [qexecute]. rewrite E1.
    eexists. split; [|split; [|reflexivity]]; [apply assign_same|]. intros y Hy. rewrite assign_other by lia. apply L1, Hy.
  Qed.
  Lemma puts_self (j : gqdits (I := I) (K := K) (D := D)) x (s t : q_state j) T T2 : puts j x s T -> puts j (S x) t T2 ->
    puts j x (fst (fst (q_append j s t))) (fun R p => T R (T2 R (QAppend R x (S x) (fun _ => p)))).
  Proof.
    intros H1 H2 R p f. destruct (H1 R (T2 R (QAppend R x (S x) (fun _ => p))) f) as (f1 & E1 & L1 & ->).
    destruct (H2 R (QAppend R x (S x) (fun _ => p)) f1) as (f2 & E2 & L2 & ->). cbn [qexecute].
    rewrite E2, (L2 x) by lia. rewrite E1. destruct (q_append j s t) as [[u v] a]. cbn [fst].
    eexists. split; [|split; [|reflexivity]]; [apply assign_same|].
    intros y Hy. rewrite !assign_other by lia. rewrite L2, L1 by lia. reflexivity.
  Qed.
  Lemma puts_other (j : gqdits (I := I) (K := K) (D := D)) x (s t : q_state j) T T2 : puts j x t T -> puts j (S x) s T2 ->
    puts j x (snd (fst (q_append j s t))) (fun R p => T R (T2 R (QAppend R (S x) x (fun _ => p)))).
  Proof.
    intros H1 H2 R p f. destruct (H1 R (T2 R (QAppend R (S x) x (fun _ => p))) f) as (f1 & E1 & L1 & ->).
    destruct (H2 R (QAppend R (S x) x (fun _ => p)) f1) as (f2 & E2 & L2 & ->). cbn [qexecute].
    rewrite E2, (L2 x) by lia. rewrite E1. destruct (q_append j s t) as [[u v] a]. cbn [fst snd].
    eexists. split; [|split; [|reflexivity]]; [rewrite assign_other by lia; apply assign_same|].
    intros y Hy. rewrite !assign_other by lia. rewrite L2, L1 by lia. reflexivity.
  Qed.
  Lemma pair_new : pair (q_start i) gnew.
  Proof. intros x. exists (fun R p => QNew R x p). split; [apply puts_new|apply (puts_new M)]. Qed.
  Lemma pair_after s g c : pair s g -> pair (fst (q_does i c s)) (fst (gperform c g)).
  Proof.
    intros P x. destruct (P x) as (T & H1 & H2). exists (fun R p => T R (QCall R x c (fun _ => p))).
    split; [apply puts_after, H1|apply (puts_after M), H2].
  Qed.
  Lemma pair_copy s g : pair s g -> pair (q_copy i s) g.
  Proof.
    intros P x. destruct (P x) as (T & H1 & H2). exists (fun R p => T R (QCopy R x x p)).
    split; [apply puts_copy, H1|exact (puts_copy M x g T H2)].
  Qed.
  Lemma pair_self s g t h : pair s g -> pair t h -> pair (fst (fst (q_append i s t))) (fst (fst (append g h))).
  Proof.
    intros P P2 x. destruct (P x) as (T & H1 & H2), (P2 (S x)) as (T2 & H3 & H4). exists (fun R p => T R (T2 R (QAppend R x (S x) (fun _ => p)))).
    split; [apply puts_self; assumption|exact (puts_self M x g h T T2 H2 H4)].
  Qed.
  Lemma pair_other s g t h : pair s g -> pair t h -> pair (snd (fst (q_append i s t))) (snd (fst (append g h))).
  Proof.
    intros P P2 x. destruct (P2 x) as (T & H1 & H2), (P (S x)) as (T2 & H3 & H4). exists (fun R p => T R (T2 R (QAppend R (S x) x (fun _ => p)))).
    split; [apply puts_other; assumption|exact (puts_other M x g h T T2 H2 H4)].
  Qed.
  Lemma occurs_pair s : qoccurs i s -> exists g, good g /\ pair s g.
  Proof.
    intros O. cut (exists g, qoccurs M g /\ pair s g); [intros (g & Og & P); exists g; split; [apply occurs_kept, Og|exact P]|].
    induction O as [|s c _ (g & G & P)|s t _ (g & G & P) _ (h & Gh & P2)|s t _ (g & G & P) _ (h & Gh & P2)|s _ (g & G & P)].
    - exists gnew. split; [apply (qoccurs_start M)|apply pair_new].
    - exists (fst (gperform c g)). split; [apply (qoccurs_after M), G|apply pair_after, P].
    - exists (fst (fst (append g h))). split; [apply (qoccurs_self M); assumption|apply pair_self; assumption].
    - exists (snd (fst (append g h))). split; [apply (qoccurs_other M); assumption|apply pair_other; assumption].
    - exists g. split; [exact G|apply pair_copy, P].
  Qed.

  Lemma good_has g p d : good g -> ((exists l, identifiers_at_point g p = Val l /\ In d l) <-> sits g p d).
  Proof.
    intros [G| ->]; [exact (has_id_iff g p d G)|]. rewrite empty_ids. split.
    - intros (l & E & Hd). injection E as <-. destruct Hd.
    - intros (l & (k & Hk & _) & _). destruct Hk.
  Qed.
  Lemma point_valid (p : I) : valid (mkInterval p p : Interval I).
  Proof. apply valid_rk. unfold lo, hi. cbn. lia. Qed.
  Lemma good_works g : good g ->
    match identifiers_at_point g MIN, gaps_no_identifier g (mkInterval MIN MIN : Interval I) with Val [], Val [] => false | _, _ => true end = has_entries g.
  Proof.
    intros [G| ->]; [|rewrite empty_ids, empty_gaps_no by apply point_valid; reflexivity].
    rewrite (GWF_entries g G). destruct (ids_maps g MIN G) as (s & -> & (k & Hi & Hc) & _). destruct s as [|d s]; [|reflexivity].
    destruct (gaps_no_spec g (mkInterval MIN MIN : Interval I) G (point_valid MIN)) as (l & -> & _ & _ & L).
    assert (R : max_run (free g) k).
    { apply (max_run_iff (fun p => maps_to g p [])); [|apply (GP_max_run g k []); [apply G|exact Hi]].
      intros p. destruct (ids_maps g p G) as (s & Es & Ms & _). split.
      - intros Mp d (t & Et & Hd). apply (ids_iff g p [] G) in Mp. rewrite Mp in Et. injection Et as <-. destruct Hd.
      - intros F. destruct s as [|d s]; [exact Ms|]. exfalso. apply (F d). exists (d :: s). split; [exact Es|left; reflexivity]. }
    apply run_iv in R. destruct R as [R S]. destruct (L _ R) as (j & Hj & _); [|destruct l; [destruct Hj|reflexivity]].
    exists MIN. split; [apply S, Hc|]. apply covers_rk. unfold lo, hi. cbn. lia.
  Qed.
  Lemma pair_works s g : good g -> pair s g -> asked_works i s = has_entries g.
  Proof. intros G P. unfold asked_works. rewrite !(pair_ask s g _ P). exact (good_works g G). Qed.
  Lemma pair_has s g : good g -> pair s g -> unchanged (asked_has i s) (sits g).
  Proof. intros G P p d. unfold asked_has. rewrite (pair_ask s g _ P). symmetry. exact (good_has g p d G). Qed.

  Lemma gdocumented_ext c B B' A A' a : unchanged B B' -> unchanged A A' -> gdocumented c B' A' a -> gdocumented c B A a.
  Proof.
    intros EB EA. assert (EB' : forall p d, B' p d <-> B p d) by (intros p d; apply EB). assert (EA' : forall p d, A' p d <-> A p d) by (intros p d; apply EA).
    assert (U : unchanged B' A' -> unchanged B A) by (intros U p d; rewrite <- EA', <- EB'; apply U).
    assert (Re : forall Q (IQ : InclusiveInterval I Q) (q : Q) (T' T : I -> D -> Prop) b, unchanged T T' -> rearranges q B' A' b T' -> rearranges q B A b T).
    { intros Q IQ q T' T b ET [Y N]. split; intros V; [destruct (Y V) as [-> Z]|destruct (N V) as [-> Z]]; (split; [reflexivity|]); intros p d; rewrite <- EA', Z; [apply ET|apply EB']. }
    destruct c as [p|Q IQ q|d Q IQ q|ids k|ids Q IQ q|Q IQ q]; cbn [gdocumented ganswer] in *.
    - intros [U1 (l & -> & Sl & Z)]. split; [apply U, U1|]. exists l. split; [reflexivity|]. split; [exact Sl|]. intros d. rewrite Z. apply EB'.
    - intros [U1 [Y N]]. split; [apply U, U1|]. split; [|exact N]. intros V. destruct (Y V) as (l & -> & L). exists l. split; [reflexivity|].
      eapply lists_ext; [|exact L]. intros p. split; intros Z d W; apply (Z d), EB', W.
    - intros [U1 [Y N]]. split; [apply U, U1|]. split; [|exact N]. intros V. destruct (Y V) as (l & -> & L). exists l. split; [reflexivity|].
      eapply lists_ext; [|exact L]. intros p. split; intros Z d' W; apply (Z d'), EB', W.
    - apply Re. intros p d. rewrite (EB' p d). reflexivity.
    - apply Re. intros p d. rewrite (EB' p d). reflexivity.
    - apply Re. intros p d. rewrite (EB' p d). reflexivity.
  Qed.
  Lemma only_described : gqdits_as_described i (asked_works i) (asked_has i).
  Proof.
    assert (GN : good (gnew : Gqdit K D)) by (left; apply gnew_GWF).
    split; [|split; [|split; [|split]]].
    - split; [rewrite (pair_works _ _ GN pair_new); apply GWF_entries, gnew_GWF|]. intros p d Y. apply (pair_has _ _ GN pair_new) in Y.
      apply (gnew_free (K := K) p d). apply (has_id_iff _ p d gnew_GWF). exact Y.
    - intros s c O. destruct (occurs_pair s O) as (g & G & P). destruct (good_perform DP g c G) as [G' E].
      pose proof (pair_after s g c P) as P'. rewrite (pair_works _ _ G' P'), (pair_works _ _ G P), (pair_ask s g c P). split; [exact E|]. destruct G as [G| ->].
      + split; [|rewrite (GWF_entries g G); discriminate]. intros _.
        apply (gdocumented_ext c _ (sits g) _ (sits (fst (gperform c g)))); [apply pair_has; [left; exact G|exact P]|apply pair_has; assumption|apply (gperform_spec DP g c G)].
      + split; [discriminate|]. intros _. apply empty_perform.
    - intros s t Os Ot. destruct (occurs_pair s Os) as (g & G & P), (occurs_pair t Ot) as (h & Gh & P2).
      pose proof (pair_self s g t h P P2) as P3. pose proof (pair_other s g t h P P2) as P4. rewrite (pair_joined s g t h P P2).
      destruct (good_append g h G Gh) as (g' & E & G' & N & Z). rewrite E in *. cbn [fst snd] in *. split; [reflexivity|].
      rewrite (pair_works _ [] (or_intror eq_refl) P4), (pair_works _ _ G' P3), (pair_works _ _ G P), (pair_works _ _ Gh P2).
      split; [reflexivity|]. split; [exact N|]. intros Y p d.
      rewrite <- (pair_has _ _ G' P3 p d), <- (pair_has _ _ G P p d), <- (pair_has _ _ Gh P2 p d). apply Z, Y.
    - intros s O. destruct (occurs_pair s O) as (g & G & P). pose proof (pair_copy s g P) as P'.
      rewrite (pair_works _ _ G P'), (pair_works _ _ G P). split; [reflexivity|]. intros _ p d. rewrite <- (pair_has _ _ G P' p d), <- (pair_has _ _ G P p d). reflexivity.
    - intros s t Os Ot. destruct (occurs_pair s Os) as (g & G & P), (occurs_pair t Ot) as (h & Gh & P2).
      rewrite (pair_same s g t h P P2), (good_same g h G Gh), (pair_works _ _ G P), (pair_works _ _ Gh P2).
      split; intros [Y1 Y2]; (split; [exact Y1|]); intros Y p d.
      + rewrite <- (pair_has _ _ G P p d), <- (pair_has _ _ Gh P2 p d). apply Y2, Y.
      + rewrite (pair_has _ _ G P p d), (pair_has _ _ Gh P2 p d). apply Y2, Y.
  Qed.
End Props.

Section Theorems.
  Context {I : Type} `{PL : PointLaws I} {OLI : OrdLaws I}.
  Context {K : Type} {IK : InclusiveInterval I K} {IL : IntervalLaws I K} {FI : FromInvalid I K}.
  Context {D : Type} {OD : Ord D} {OL : OrdLaws D}.
  Context (keq : K -> K -> bool).

  (** ** C152 *)
  (** The modelled Gqdits are as described. *)
  Theorem C152_gqdits_as_described : determined_by_points I K -> (forall k k', keq k k' = true <-> k = k') ->
    gqdits_as_described (model_gqdits (I := I) (K := K) (D := D) keq) has_entries sits.
  Proof. exact (fun DP KE => model_described DP keq KE). Qed.
  (** That determines what every program does that appends, clones and compares them, also one
      that goes on using those it has appended. *)
  Theorem C152_indistinguishable : determined_by_points I K ->
    forall (i j : gqdits (I := I) (K := K) (D := D)) wi wj hi hj, gqdits_as_described i wi hi -> gqdits_as_described j wj hj ->
    forall R (p : gprogram R), qrun i p = qrun j p.
  Proof.
    intros DP i j wi wj hi hj Hi Hj R p. apply (qexecute_same DP i j wi wj hi hj Hi Hj); intros x; try constructor.
    - transitivity true; [|symmetry]; [apply Hi|apply Hj].
    - intros _ q d. split; intros X; exfalso; [exact (proj2 (proj1 Hj) _ _ X)|exact (proj2 (proj1 Hi) _ _ X)].
  Qed.
  (** Conversely Gqdits that no program can tell from the modelled ones are as described; where
      an identifier is and whether a Gqdit still works is what they answer when asked. *)
  Theorem C152_indistinguishable_only_if_described : determined_by_points I K -> (forall k k', keq k k' = true <-> k = k') ->
    forall (i : gqdits (I := I) (K := K) (D := D)),
    (forall R (p : gprogram R), qrun i p = qrun (model_gqdits keq) p) ->
    gqdits_as_described i (asked_works i) (asked_has i).
  Proof. exact (fun DP KE => only_described DP keq KE). Qed.
End Theorems.

(** The hypotheses are met, non-trivially: Gqdits of another kind, each the list of the calls
    made so far, answering by replaying them, with a flag set once appended, are as described; *)
Definition flagged : gqdits (I := u8) (K := Interval u8) (D := u8) :=
  {| q_state := bool * list (gop u8 (Interval u8) u8); q_start := (true, []);
     q_does := fun c s =>
       if fst s then
         ((true, match c with
                 | TellInsert ids k => snd s ++ [GInsert ids k]
                 | TellCutWithIdentifiers ids q => snd s ++ [GCutWith ids q]
                 | TellCutAllIdentifiers q => snd s ++ [GCutAll q]
                 | _ => snd s
                 end), snd (gperform c (grun (snd s))))
       else (s, snd (gperform c []));
     q_append := fun s t => ((fst s, if fst t then snd s ++ [GAppend (snd t)] else snd s), (false, []), Val tt);
     q_copy := fun s => s;
     q_same := fun s t => if fst s then fst t && gqdit_eqb (interval_eqb eqb) (grun (snd s)) (grun (snd t)) else negb (fst t) |}.
Lemma flagged_described : gqdits_as_described flagged fst (fun s => sits (grun (snd s))).
Proof.
  assert (St : forall (s : list (gop u8 (Interval u8) u8)) o, grun (s ++ [o]) = gstep o (grun s)).
  { intros s o. unfold grun, gsteps. rewrite fold_left_app. reflexivity. }
  assert (W : forall s : list (gop u8 (Interval u8) u8), GWF (grun s)) by (intros s; apply greachable_GWF; exists s; reflexivity).
  split; [|split; [|split; [|split]]].
  - split; [reflexivity|]. intros p d X. apply (gnew_free (K := Interval u8) p d). apply (has_id_iff _ p d gnew_GWF). exact X.
  - intros [[|] s] c _; cbn [q_does flagged fst snd].
    + split; [reflexivity|]. split; [|discriminate]. intros _. assert (X := proj1 (gperform_spec interval_determined (grun s) c (W s))).
      destruct c as [p|Q IQ q|d Q IQ q|ids k|ids Q IQ q|Q IQ q]; try exact X; rewrite St; exact X.
    + split; [reflexivity|]. split; [discriminate|]. intros _. apply empty_perform.
  - intros [b s] [b' t] _ _. cbn [q_append flagged fst snd]. split; [reflexivity|]. split; [reflexivity|]. split; [reflexivity|]. intros _ p d. destruct b'.
    + rewrite St. pose proof (proj2 (proj2 (append_joins (grun s) (grun t) (W s) (W t))) p d) as X. cbn [gstep].
      change (fold_left (fun g o => gstep o g) t gnew) with (grun t). rewrite X. tauto.
    + split; [auto|]. intros [X|[X _]]; [exact X|discriminate X].
  - intros s _. split; [reflexivity|]. intros _ p d. reflexivity.
  - intros [b s] [b' t] _ _. cbn [q_same flagged fst snd].
    pose proof (good_same (interval_eqb eqb) u8_interval_eq (grun s) (grun t) (or_introl (W s)) (or_introl (W t))) as X.
    rewrite !GWF_entries in X by apply W. destruct b, b'; cbn [andb negb].
    + rewrite X. split; intros [_ Y]; split; auto.
    + split; [discriminate|intros [Y _]; discriminate Y].
    + split; [discriminate|intros [Y _]; discriminate Y].
    + split; [intros _; split; [reflexivity|discriminate]|reflexivity].
Qed.
(** a program that compares, clones, appends and goes on using what it appended. *)
Definition ex_gprogram : gprogram (I := u8) (K := Interval u8) (D := u8) (list bool * outcome (list u8)) :=
  QCall _ 0 (TellInsert ['5] (10 --> 20 : Interval u8)) (fun _ =>
  QCall _ 0 (TellInsert ['5] (21 --> 30 : Interval u8)) (fun _ =>
  QCall _ 1 (TellInsert ['5] (10 --> 30 : Interval u8)) (fun _ =>
  QSame _ 0 1 (fun a =>
  QCopy _ 2 1 (
  QAppend _ 0 1 (fun _ =>
  QSame _ 0 1 (fun b =>
  QSame _ 0 2 (fun c =>
  QCall _ 1 (TellInsert ['6] (10 --> 30 : Interval u8)) (fun _ =>
  QNew _ 3 (
  QSame _ 1 3 (fun d =>
  QAppend _ 2 3 (fun _ =>
  QSame _ 1 3 (fun e =>
  QCall _ 2 (AskIdentifiers '25) (fun r => QStop _ ([a; b; c; d; e], r))))))))))))))).
Example C152_example : determined_by_points u8 (Interval u8) /\ (forall a b : Interval u8, interval_eqb eqb a b = true <-> a = b) /\
  gqdits_as_described flagged fst (fun s => sits (grun (snd s))) /\
  qrun flagged ex_gprogram = qrun (model_gqdits (interval_eqb eqb)) ex_gprogram /\
  qrun (model_gqdits (interval_eqb eqb)) ex_gprogram = ([true; false; true; false; true], Val ['5]).
Proof.
  split; [exact interval_determined|]. split; [exact u8_interval_eq|]. split; [exact flagged_described|]. split; [|vm_compute; reflexivity].
  exact (C152_indistinguishable interval_determined flagged (model_gqdits (interval_eqb eqb)) _ _ _ _ flagged_described
    (C152_gqdits_as_described _ interval_determined u8_interval_eq) _ ex_gprogram).
Qed.

Print Assumptions C152_gqdits_as_described.
Print Assumptions C152_indistinguishable.
Print Assumptions C152_indistinguishable_only_if_described.
