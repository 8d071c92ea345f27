(** * PropsAppended: a Gqdit that was appended to another one does nothing any more (C137). *)
From Coq Require Import List ZArith Bool Lia.
From Verif Require Import Base BTree UtilsModel IntervalModel NoditModel GqditModel GqditOps Spec CompleteOps ClientGqditOps AppendedOps
  InstancesModel Instances PointFacts IntervalFacts NoditFacts NoditQueries NoditMutations GqditFacts GqditProofs GqditGaps GqditAlgebra GqditIds CompleteProofs PropsGqdit PropsClientGqdit.
Import ListNotations.
Open Scope nat_scope.

Section Props.
  Context {I : Type} `{PL : PointLaws I}.
  Context {K : Type} {IK : InclusiveInterval I K} {IL : IntervalLaws I K} {FI : FromInvalid I K}.
  Context {D : Type} {OD : Ord D} {OL : OrdLaws D}.
  Implicit Types (g : Gqdit K D) (c : gcall I K D).

  (** Nothing happens to an empty one. *)
  Lemma empty_perform c : fst (gperform c ([] : Gqdit K D)) = [] /\ inert c (snd (gperform c ([] : Gqdit K D))).
  Proof.
    destruct c as [p|Q IQ q|d Q IQ q|ids k|ids Q IQ q|Q IQ q]; cbn [gperform inert ganswer fst snd].
    - split; [reflexivity|apply empty_ids].
    - split; [reflexivity|]. split; intros V; [exists []; split; [apply empty_gaps_no, V|reflexivity]|apply gaps_no_bad, V].
    - split; [reflexivity|]. split; intros V; [exists []; split; [apply empty_gaps_with, V|reflexivity]|apply gaps_with_bad, V].
    - unfold gqdit_insert. destruct (valid_dec k) as [V|V]; [rewrite (iip_valid k V)|rewrite (iip_invalid k V); cbn; tauto].
      destruct (bset_is_empty _); [cbn; tauto|]. rewrite empty_cut by exact V. cbn. tauto.
    - unfold cut_with_identifiers. destruct (valid_dec q) as [V|V]; [rewrite (iip_valid q V)|rewrite (iip_invalid q V); cbn; tauto].
      destruct (bset_is_empty _); [cbn; tauto|]. rewrite empty_cut by exact V. cbn. tauto.
    - unfold cut_all_identifiers. destruct (valid_dec q) as [V|V]; [rewrite (iip_valid q V)|rewrite (iip_invalid q V); cbn; tauto].
      rewrite empty_cut by exact V. cbn. tauto.
  Qed.
  Lemma removed_all (g : Gqdit K D) : WF g -> remove_overlapping (mkInterval MIN MAX : Interval I) g = ([], Val g).
  Proof.
    intros W. pose proof (remove_overlapping_split (mkInterval MIN MAX : Interval I) [] g []) as X. cbn [app] in X. rewrite app_nil_r in X.
    apply X; [apply uu_valid|exact W|constructor| |constructor]. rewrite Forall_forall. intros e He.
    pose proof (lo_range (fst e)). pose proof (hi_range (fst e)). unfold meets, elo, ehi. unfold lo at 2, hi at 1. cbn. lia.
  Qed.
  Lemma empty_append g : WF g -> append [] g = ([], [], Val tt).
  Proof. intros W. unfold append. rewrite uu_val, (removed_all g W), empty_append_loop; [reflexivity|apply W]. Qed.
  Lemma append_empty g : append g [] = (g, [], Val tt).
  Proof. unfold append. rewrite uu_val, (removed_all [] WF_nil). reflexivity. Qed.
  Lemma append_new g : append g gnew = (g, [], Val tt).
  Proof.
    unfold append. rewrite uu_val, removed_all by apply gnew_GWF. rewrite gnew_eq. cbn [append_loop]. unfold gqdit_insert.
    rewrite iip_valid; [reflexivity|]. exists MIN. apply whole_covers.
  Qed.

  Definition good g : Prop := GWF g \/ g = [].
  Lemma GWF_entries g : GWF g -> has_entries g = true.
  Proof. intros [_ C]. destruct (C MIN) as (k & s & Hi & _). destruct g; [destruct Hi|reflexivity]. Qed.
  Lemma good_WF g : good g -> WF g.
  Proof. intros [[[W _] _]| ->]; [exact W|apply WF_nil]. Qed.

  Section Determined.
    Context {OLI : OrdLaws I} (DP : determined_by_points I K).
    Lemma good_perform g c : good g -> good (fst (gperform c g)) /\ has_entries (fst (gperform c g)) = has_entries g.
    Proof.
      intros [G| ->].
      - destruct (gperform_spec DP g c G) as [_ G']. split; [left; exact G'|]. rewrite !GWF_entries; auto.
      - destruct (empty_perform c) as [E _]. rewrite E. split; [right|]; reflexivity.
    Qed.
    Lemma good_append g h : good g -> good h -> exists g', append g h = (g', [], Val tt) /\ good g' /\ has_entries g' = has_entries g /\
      (has_entries g = true -> forall p d, sits g' p d <-> sits g p d \/ (has_entries h = true /\ sits h p d)).
    Proof.
      intros [G| ->] Gh.
      - destruct (append_spec g h G Gh) as (g' & -> & G' & M). exists g'. split; [reflexivity|]. split; [left; exact G'|].
        split; [rewrite !GWF_entries; auto|]. intros _ p d.
        pose proof (M p d) as E. rewrite (has_id_iff g' p d G'), (has_id_iff g p d G) in E.
        change (sits g' p d) with (exists s, maps_to g' p s /\ In d s). change (sits g p d) with (exists s, maps_to g p s /\ In d s).
        rewrite E. destruct Gh as [Gh| ->].
        + rewrite (has_id_iff h p d Gh). rewrite (GWF_entries h Gh). change (sits h p d) with (exists s, maps_to h p s /\ In d s). tauto.
        + split; (intros [X|X]; [left; exact X|exfalso]).
          * destruct X as (s & X & Hd). rewrite empty_ids in X. injection X as <-. destruct Hd.
          * destruct X as [X _]. discriminate X.
      - rewrite empty_append by (apply good_WF, Gh). exists []. split; [reflexivity|]. split; [right; reflexivity|]. split; [reflexivity|]. discriminate.
    Qed.
    Lemma occurs_good g : aoccurs (gqdit_kept (I := I) (K := K) (D := D)) g -> good g.
    Proof.
      induction 1 as [|s c _ IH|s t _ IH _ IH2|s t _ IH _ IH2].
      - left. apply gnew_GWF.
      - apply good_perform, IH.
      - destruct (good_append s t IH IH2) as (g' & E & G & _). cbn [ajoins gqdit_kept]. rewrite E. exact G.
      - destruct (good_append s t IH IH2) as (g' & E & G & _). cbn [ajoins gqdit_kept]. rewrite E. right. reflexivity.
    Qed.
    Lemma kept_inert : inert_once_appended (gqdit_kept (I := I) (K := K) (D := D)) has_entries sits.
    Proof.
      split; [|split].
      - cbn. split; [apply GWF_entries, gnew_GWF|]. intros p d X. apply (gnew_free (K := K) p d). apply (has_id_iff _ p d gnew_GWF). exact X.
      - intros s c O. apply occurs_good in O. cbn [adoes gqdit_kept]. split; [apply good_perform, O|]. destruct O as [G| ->].
        + split; [intros _; apply (gperform_spec DP s c G)|]. rewrite (GWF_entries s G). discriminate.
        + split; [discriminate|]. intros _. apply empty_perform.
      - intros s t Os Ot. apply occurs_good in Os, Ot. cbn [ajoins gqdit_kept]. destruct (good_append s t Os Ot) as (g' & -> & _ & E & M). cbn [fst snd]. auto.
    Qed.

    Lemma inert_same c a a' : inert c a -> inert c a' -> a' = a.
    Proof.
      assert (A : forall Q (IQ : InclusiveInterval I Q) (q : Q) (a a' : outcome (list K)), answers q a (fun l => l = []) -> answers q a' (fun l => l = []) -> a' = a).
      { intros Q IQ q b b' [Y N] [Y' N']. destruct (valid_dec q) as [Vq|Vq]; [|rewrite (N Vq), (N' Vq); reflexivity].
        destruct (Y Vq) as (l & -> & ->), (Y' Vq) as (l' & -> & ->). reflexivity. }
      assert (B : forall Q (IQ : InclusiveInterval I Q) (q : Q) (a a' : outcome unit), (valid q -> a = Val tt) /\ (~ valid q -> a = Panic) ->
        (valid q -> a' = Val tt) /\ (~ valid q -> a' = Panic) -> a' = a).
      { intros Q IQ q b b' [Y N] [Y' N']. destruct (valid_dec q) as [Vq|Vq]; [rewrite (Y Vq), (Y' Vq)|rewrite (N Vq), (N' Vq)]; reflexivity. }
      destruct c as [p|Q IQ q|d Q IQ q|ids k|ids Q IQ q|Q IQ q]; cbn [inert ganswer] in *;
        [intros -> ->; reflexivity|apply (A _ _ q)|apply (A _ _ q)|apply (B _ _ k)|apply (B _ _ q)|apply (B _ _ q)].
    Qed.
    Lemma aexecute_same (i j : aimplementation (I := I) (K := K) (D := D)) wi wj hi hj :
      inert_once_appended i wi hi -> inert_once_appended j wj hj ->
      forall R (p : gclient R) f f', (forall x, aoccurs i (f x)) -> (forall x, aoccurs j (f' x)) ->
      (forall x, wi (f x) = wj (f' x) /\ (wi (f x) = true -> unchanged (hi (f x)) (hj (f' x)))) ->
      aexecute i f p = aexecute j f' p.
    Proof.
      intros ((Wi & Si) & Di & Ji) ((Wj & Sj) & Dj & Jj) R p.
      assert (Z : wi (astart i) = wj (astart j) /\ (wi (astart i) = true -> unchanged (hi (astart i)) (hj (astart j)))).
      { split; [congruence|]. intros _ q d. split; intros X; exfalso; [exact (Sj q d X)|exact (Si q d X)]. }
      induction p as [r|x next IH|x c next IH|x y next IH]; intros f f' Of Of' E; cbn [aexecute].
      - reflexivity.
      - apply IH; intros y; unfold assign; destruct (Nat.eqb x y); auto using aoccurs_start.
      - pose proof (Di (f x) c (Of x)) as X. pose proof (Dj (f' x) c (Of' x)) as X'.
        pose proof (aoccurs_after i (f x) c (Of x)) as O. pose proof (aoccurs_after j (f' x) c (Of' x)) as O'.
        destruct (adoes i c (f x)) as [s a], (adoes j c (f' x)) as [s' a']. cbn [fst snd] in *.
        destruct X as (X1 & X2 & X3), X' as (X1' & X2' & X3'), (E x) as [E1 E2].
        assert (AE : a' = a /\ (wi s = true -> unchanged (hi s) (hj s'))).
        { destruct (wi (f x)) eqn:Ew.
          - destruct (gdocumented_same DP c _ _ _ _ a a' (E2 eq_refl) (X2 eq_refl) (X2' (eq_sym E1))) as [-> U]. split; [reflexivity|]. intros _. exact U.
          - split; [apply (inert_same c); [apply X3; reflexivity|apply X3'; symmetry; exact E1]|]. intros Y. congruence. }
        destruct AE as [-> U].
        apply IH; intros y; unfold assign; destruct (Nat.eqb x y); auto. split; [congruence|exact U].
      - pose proof (Ji (f x) (f y) (Of x) (Of y)) as X. pose proof (Jj (f' x) (f' y) (Of' x) (Of' y)) as X'.
        pose proof (aoccurs_self i (f x) (f y) (Of x) (Of y)) as O. pose proof (aoccurs_self j (f' x) (f' y) (Of' x) (Of' y)) as O'.
        pose proof (aoccurs_other i (f x) (f y) (Of x) (Of y)) as P. pose proof (aoccurs_other j (f' x) (f' y) (Of' x) (Of' y)) as P'.
        destruct (ajoins i (f x) (f y)) as [[s t] a], (ajoins j (f' x) (f' y)) as [[s' t'] a']. cbn [fst snd] in *.
        destruct X as (-> & X1 & X2 & X3), X' as (-> & X1' & X2' & X3'). destruct (E x) as [E1 E2], (E y) as [F1 F2].
        apply IH; intros w; unfold assign; destruct (Nat.eqb x w), (Nat.eqb y w); auto.
        all: split; [congruence|]; intros Y.
        1, 2: rewrite X2 in Y; intros q d; rewrite (X3 Y), (X3' ltac:(congruence)), (E2 Y q d), <- F1;
          split; (intros [Z1|[Z1 Z2]]; [left; exact Z1|right; split; [exact Z1|apply (F2 Z1), Z2]]).
        congruence.
    Qed.
  End Determined.

  (** Careful programs. *)
  Lemma perform_reachable g c : greachable (I := I) g -> greachable (I := I) (fst (gperform c g)).
  Proof.
    intros (os & ->). assert (St : forall o, gstep o (grun os) = grun (os ++ [o])) by (intros o; unfold grun; rewrite gsteps_snoc; reflexivity).
    destruct c as [p|Q IQ q|d Q IQ q|ids k|ids Q IQ q|Q IQ q]; cbn [gperform fst]; try (exists os; reflexivity).
    - exists (os ++ [GInsert ids k]). exact (St (GInsert ids k)).
    - exists (os ++ [GCutWith ids q]). exact (St (GCutWith ids q)).
    - exists (os ++ [GCutAll q]). exact (St (GCutAll q)).
  Qed.
  Lemma append_reachable g h : greachable (I := I) g -> greachable (I := I) h -> exists g', append g h = (g', [], Val tt) /\ greachable (I := I) g'.
  Proof.
    intros (os & ->) (os2 & ->). destruct (append_spec (grun os) (grun os2) (grun_GWF os) (or_introl (grun_GWF os2))) as (g' & E & _).
    exists g'. split; [exact E|]. exists (os ++ [GAppend os2]). unfold grun at 1. rewrite gsteps_snoc. cbn [gstep].
    change (fold_left (fun g o => gstep o g) os2 gnew) with (grun os2). change (gsteps os gnew) with (grun os). rewrite E. reflexivity.
  Qed.
  Lemma careful_same R (p : gclient (I := I) (K := K) (D := D) R) appended : careful appended p ->
    forall f f' : nat -> Gqdit K D, (forall x, greachable (I := I) (f' x)) -> (forall x, if appended x then f x = [] /\ f' x = gnew else f x = f' x) ->
    aexecute gqdit_kept f p = gexecute gqdit f' p.
  Proof.
    induction 1 as [A r|A x next _ IH|A x p next _ IH|A x c next N _ IH|A x y next N N2 _ IH]; intros f f' Rf E; cbn [aexecute gexecute].
    - reflexivity.
    - apply IH; intros y; unfold assign; destruct (Nat.eqb x y); try reflexivity; [exists []; reflexivity|apply Rf|apply E].
    - cbn [adoes gdoes gqdit gqdit_kept gperform].
      assert (Ei : identifiers_at_point (f x) p = identifiers_at_point (f' x) p).
      { specialize (E x). destruct (A x); [|rewrite E; reflexivity]. destruct E as [-> ->]. rewrite empty_ids. symmetry.
        destruct (ids_maps gnew p gnew_GWF) as (s & Es & M & _). rewrite Es. f_equal. apply (maps_to_fun (gnew : Gqdit K D) p); [apply gnew_GWF|exact M|apply gnew_maps]. }
      rewrite Ei. apply IH; intros y; unfold assign; destruct (Nat.eqb_spec x y) as [<-|_]; try apply Rf; apply E.
    - pose proof (E x) as Ex. rewrite N in Ex. cbn [adoes gdoes gqdit gqdit_kept]. rewrite Ex. pose proof (perform_reachable (f' x) c (Rf x)) as Rc.
      destruct (gperform c (f' x)) as [s a]. cbn [fst] in Rc.
      apply IH; intros y; unfold assign; destruct (Nat.eqb_spec x y) as [<-|_]; [exact Rc|apply Rf|rewrite N; reflexivity|apply E].
    - pose proof (E x) as Ex. rewrite N2 in Ex. cbn [ajoins gjoins gqdit gqdit_kept gstart]. rewrite Ex.
      assert (J : append (f' x) (f y) = (fst (fst (append (f' x) (f' y))), [], snd (append (f' x) (f' y))) ).
      { pose proof (E y) as Ey. destruct (A y).
        - destruct Ey as [-> ->]. rewrite append_empty, append_new. reflexivity.
        - rewrite Ey. destruct (append_reachable (f' x) (f' y) (Rf x) (Rf y)) as (g & -> & _). reflexivity. }
      rewrite J. destruct (append_reachable (f' x) (f' y) (Rf x) (Rf y)) as (g & Eg & Rg). rewrite Eg. cbn [fst snd].
      apply IH; intros w; unfold assign; [destruct (Nat.eqb x w); [exact Rg|destruct (Nat.eqb y w); [exists []; reflexivity|apply Rf]]|].
      destruct (Nat.eqb_spec x w) as [<-|Nx].
      + destruct (Nat.eqb_spec y x) as [->|_]; [congruence|]. rewrite N2. reflexivity.
      + destruct (Nat.eqb_spec y w) as [<-|_]; [split; reflexivity|apply E].
  Qed.
End Props.

Section Theorems.
  Context {I : Type} `{PL : PointLaws I}.
  Context {K : Type} {IK : InclusiveInterval I K} {IL : IntervalLaws I K} {FI : FromInvalid I K}.
  Context {D : Type} {OD : Ord D} {OL : OrdLaws D}.

  (** ** C137 *)
  (** The crate's Gqdit does what is documented until it is appended, and then nothing. *)
  Theorem C137_inert_once_appended : forall {OLI : OrdLaws I}, determined_by_points I K ->
    inert_once_appended (gqdit_kept (I := I) (K := K) (D := D)) has_entries sits.
  Proof. intros OLI. exact kept_inert. Qed.
  (** That determines what every program does, also one that goes on using Gqdits it appended. *)
  Theorem C137_indistinguishable : forall {OLI : OrdLaws I}, determined_by_points I K ->
    forall (i j : aimplementation (I := I) (K := K) (D := D)) wi wj hi hj, inert_once_appended i wi hi -> inert_once_appended j wj hj ->
    forall R (p : gclient R), arun_client i p = arun_client j p.
  Proof.
    intros OLI DP i j wi wj hi hj Hi Hj R p. apply (aexecute_same DP i j wi wj hi hj Hi Hj); intros x; try constructor.
    - transitivity true; [|symmetry]; [apply Hi|apply Hj].
    - intros _ q d. split; intros X; exfalso; [exact (proj2 (proj1 Hj) _ _ X)|exact (proj2 (proj1 Hi) _ _ X)].
  Qed.
  (** A program that only appends such Gqdits again, asks them for identifiers or replaces
      them by new ones runs as if [append] had left a new one (as assumed in C131). *)
  Theorem C137_careful_programs : forall R (p : gclient (I := I) (K := K) (D := D) R), careful (fun _ => false) p ->
    arun_client gqdit_kept p = grun_client gqdit p.
  Proof. intros R p C. apply (careful_same R p _ C); intros x; [exists []|]; reflexivity. Qed.
End Theorems.

(** What is appended to a Gqdit that was itself appended is lost; ... *)
Definition C137_careless : gclient (I := u8) (K := Interval u8) (D := u8) (list (outcome (list u8)) * outcome (list (Interval u8))) :=
  GMake _ 0 (TellInsert ['5] (10 --> 20 : Interval u8)) (fun _ =>
  GJoin _ 1 0 (fun _ =>
  GMake _ 2 (TellInsert ['6] (30 --> 40 : Interval u8)) (fun _ =>
  GJoin _ 0 2 (fun _ =>
  GMake _ 0 (AskIdentifiers '35) (fun a =>
  GMake _ 1 (AskIdentifiers '15) (fun b =>
  GMake _ 2 (AskIdentifiers '35) (fun c =>
  GMake _ 0 (AskGapsNoIdentifier (0 --> 50 : Interval u8)) (fun e => GStop _ ([a; b; c], e))))))))).
Example C137_careless_loses :
  arun_client gqdit_kept C137_careless = ([Val []; Val ['5]; Val []], Val []) /\
  grun_client gqdit C137_careless = ([Val ['6]; Val ['5]; Val []], Val [(0 --> 29 : Interval u8); (41 --> 255 : Interval u8)]).
Proof. vm_compute. auto. Qed.
(** ... a careful program loses nothing. *)
Definition C137_prudent : gclient (I := u8) (K := Interval u8) (D := u8) (outcome (list u8) * outcome (list u8) * outcome (list (Interval u8))) :=
  GMake _ 0 (TellInsert ['5] (10 --> 20 : Interval u8)) (fun _ =>
  GJoin _ 1 0 (fun _ =>
  GMake _ 0 (AskIdentifiers '15) (fun a =>
  GJoin _ 2 0 (fun _ =>
  GFresh _ 0 (
  GMake _ 0 (TellInsert ['6] (30 --> 40 : Interval u8)) (fun _ =>
  GJoin _ 1 0 (fun _ =>
  GMake _ 1 (AskIdentifiers '35) (fun b =>
  GMake _ 1 (AskGapsNoIdentifier (15 --> 35 : Interval u8)) (fun c => GStop _ (a, b, c)))))))))).
Example C137_example : determined_by_points u8 (Interval u8) /\ careful (fun _ => false) C137_prudent /\
  inert_once_appended (gqdit_kept (I := u8) (K := Interval u8) (D := u8)) has_entries sits /\
  arun_client gqdit_kept C137_prudent = (Val [], Val ['6], Val [(21 --> 29 : Interval u8)]).
Proof.
  split; [exact interval_determined|]. split; [|split; [exact (C137_inert_once_appended interval_determined)|vm_compute; reflexivity]].
  apply careful_make; [reflexivity|]. intros _. apply careful_join; [discriminate|reflexivity|]. intros _. apply careful_ask. intros a.
  apply careful_join; [discriminate|reflexivity|]. intros _. apply careful_fresh. apply careful_make; [reflexivity|]. intros _.
  apply careful_join; [discriminate|reflexivity|]. intros _. apply careful_make; [reflexivity|]. intros b.
  apply careful_make; [reflexivity|]. intros c. apply careful_stop.
Qed.

Print Assumptions C137_inert_once_appended.
Print Assumptions C137_indistinguishable.
Print Assumptions C137_careful_programs.
