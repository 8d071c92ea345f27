(** * GqditProofs: the methods of Gqdit and histories of calls. *)
From Coq Require Import List ZArith Bool Arith Lia ZifyBool Sorting.Sorted.
From Verif Require Import Base BTree UtilsModel IntervalModel NoditModel GqditModel GqditOps Spec
  PointFacts IntervalFacts ListFacts NoditFacts NoditQueries NoditGaps NoditMutations NoditMerges NoditInv NoditMore GqditFacts.
Import ListNotations.
Open Scope Z_scope.

Section Gqdit.
  Context {I : Type} `{PL : PointLaws I}.
  Context {K : Type} {IK : InclusiveInterval I K} {IL : IntervalLaws I K} {FI : FromInvalid I K}.
  Context {D : Type} {OD : Ord D} {OL : OrdLaws D}.
  Notation entry := (K * BTreeSet D)%type.
  Implicit Types (g : Gqdit K D) (k : K) (s : BTreeSet D) (p : I) (d : D).

  (** ** new *)
  Lemma checked_val (i : Interval I) : lo i <= hi i -> checked i = Val i.
  Proof. intros V. unfold checked. rewrite iip_valid by (apply valid_rk, V). reflexivity. Qed.
  Lemma uu_val : uu = Val (mkInterval MIN MAX : Interval I).
  Proof.
    unfold uu. apply checked_val. unfold lo, hi. cbn. apply rk_min.
  Qed.
  Lemma uu_valid : valid (mkInterval MIN MAX : Interval I).
  Proof. apply valid_rk. unfold lo, hi. cbn. apply rk_min. Qed.
  Lemma uu_covers p : covers (mkInterval MIN MAX : Interval I) p.
  Proof. apply covers_rk. unfold lo, hi. cbn. split; [apply rk_min|apply rk_max]. Qed.
  Definition whole : K := ifrom (mkInterval MIN MAX : Interval I).
  Lemma whole_lo : lo whole = rk MIN.
  Proof. unfold whole. rewrite from_lo; [reflexivity|]. apply valid_rk, uu_valid. Qed.
  Lemma whole_hi : hi whole = rk MAX.
  Proof. unfold whole. rewrite from_hi; [reflexivity|]. apply valid_rk, uu_valid. Qed.
  Lemma whole_covers p : covers whole p.
  Proof. apply covers_rk. rewrite whole_lo, whole_hi. split; [apply rk_min|apply rk_max]. Qed.

  Lemma new_val : gqdit_new = Val [(whole, [])] :> outcome (Gqdit K D).
  Proof.
    unfold gqdit_new. rewrite uu_val. cbn [obind]. fold whole.
    rewrite (insert_strict_snoc new whole (bset_empty : BTreeSet D)); [reflexivity|].
    cbn. apply WF_one. unfold elo, ehi. cbn. rewrite whole_lo, whole_hi. apply rk_min.
  Qed.
  Lemma gnew_eq : gnew = [(whole, [])] :> Gqdit K D.
  Proof. unfold gnew. rewrite new_val. reflexivity. Qed.
  Lemma gnew_GWF : GWF (gnew : Gqdit K D).
  Proof.
    rewrite gnew_eq. split; [split; [|split]|].
    - apply WF_one. unfold elo, ehi. cbn. rewrite whole_lo, whole_hi. apply rk_min.
    - intros k s k' s' [E|[]] [E'|[]] T _. injection E as <- <-. injection E' as <- _. rewrite whole_lo, whole_hi in T. pose proof (rk_min (MAX : I)). lia.
    - intros k s [E|[]]. injection E as <- <-. split; [apply is_set_nil|]. apply built_ifrom, valid_rk, uu_valid.
    - intros p. exists whole, []. split; [left; reflexivity|apply whole_covers].
  Qed.
  Lemma gnew_maps p : maps_to (gnew : Gqdit K D) p [].
  Proof. rewrite gnew_eq. exists whole. split; [left; reflexivity|apply whole_covers]. Qed.
  Lemma gnew_free p d : ~ has_id (gnew : Gqdit K D) p d.
  Proof. rewrite (has_id_in _ p [] d gnew_GWF (gnew_maps p)). tauto. Qed.

  (** ** The three pointwise methods *)
  Lemma update_has {Q} {IQ : InclusiveInterval I Q} upd (q : Q) g (f : D -> Prop -> Prop) :
    (forall s, is_set s -> is_set (upd s)) -> (forall s d, In d (upd s) <-> f d (In d s)) ->
    (forall d A B, (A <-> B) -> (f d A <-> f d B)) ->
    GWF g -> valid q -> exists g', cut_update upd q g = (g', Val tt) /\ GWF g' /\
      forall p d, has_id g' p d <-> (covers q p /\ f d (has_id g p d)) \/ (~ covers q p /\ has_id g p d).
  Proof.
    intros Hs Hu Hf G Vq. destruct (cut_update_spec upd q g Hs G Vq) as (g' & E & G' & M).
    exists g'. split; [exact E|]. split; [exact G'|]. intros p d. destruct (ids_maps g p G) as (s & _ & Ms & _).
    destruct (M p s Ms) as [M1 M2]. assert (C : covers q p \/ ~ covers q p) by (rewrite covers_rk; lia). destruct C as [C|C].
    - rewrite (has_id_in g' p (upd s) d G' (M1 C)), Hu. rewrite (Hf d _ _ (has_id_in g p s d G Ms)). tauto.
    - pose proof (has_id_in g' p s d G' (M2 C)). pose proof (has_id_in g p s d G Ms). tauto.
  Qed.

  Lemma insert_has l k g : GWF g -> valid k -> is_set l ->
    exists g', gqdit_insert l k g = (g', Val tt) /\ GWF g' /\
      forall p d, has_id g' p d <-> has_id g p d \/ (covers k p /\ In d l).
  Proof.
    intros G Vk Sl. unfold gqdit_insert. rewrite iip_valid by exact Vk. destruct (bset_is_empty l) eqn:E.
    - apply is_empty_true in E. subst l. exists g. split; [reflexivity|]. split; [exact G|]. cbn. tauto.
    - destruct (update_has (fun x => bset_extend x l) k g (fun d A => A \/ In d l)) as (g' & E' & G' & M); try assumption.
      + intros s. apply extend_set.
      + intros s d. apply extend_in.
      + intros d A B X. tauto.
      + exists g'. split; [exact E'|]. split; [exact G'|]. intros p d. rewrite M.
        assert (C : covers k p \/ ~ covers k p) by (rewrite covers_rk; lia). tauto.
  Qed.
  Lemma cut_with_has {Q} {IQ : InclusiveInterval I Q} l (q : Q) g : GWF g -> valid q ->
    exists g', cut_with_identifiers l q g = (g', Val tt) /\ GWF g' /\
      forall p d, has_id g' p d <-> has_id g p d /\ ~ (covers q p /\ In d l).
  Proof.
    intros G Vq. unfold cut_with_identifiers. rewrite iip_valid by exact Vq. destruct (bset_is_empty l) eqn:E.
    - apply is_empty_true in E. subst l. exists g. split; [reflexivity|]. split; [exact G|]. cbn. tauto.
    - destruct (update_has (bset_retain (fun i => negb (bset_contains l i))) q g (fun d A => A /\ ~ In d l)) as (g' & E' & G' & M); try assumption.
      + intros s. apply retain_set.
      + intros s d. rewrite retain_in, negb_true_iff, <- not_true_iff_false, contains_in. tauto.
      + intros d A B X. tauto.
      + exists g'. split; [exact E'|]. split; [exact G'|]. intros p d. rewrite M.
        assert (C : covers q p \/ ~ covers q p) by (rewrite covers_rk; lia). tauto.
  Qed.
  Lemma cut_all_has {Q} {IQ : InclusiveInterval I Q} (q : Q) g : GWF g -> valid q ->
    exists g', cut_all_identifiers q g = (g', Val tt) /\ GWF g' /\
      forall p d, has_id g' p d <-> has_id g p d /\ ~ covers q p.
  Proof.
    intros G Vq. unfold cut_all_identifiers. rewrite iip_valid by exact Vq.
    destruct (update_has (fun _ => bset_empty) q g (fun d A => False)) as (g' & E' & G' & M); try assumption.
    - intros s _. apply is_set_nil.
    - intros s d. reflexivity.
    - intros d A B X. tauto.
    - exists g'. split; [exact E'|]. split; [exact G'|]. intros p d. rewrite M.
      assert (C : covers q p \/ ~ covers q p) by (rewrite covers_rk; lia). tauto.
  Qed.
  Lemma insert_bad l k g : ~ valid k -> gqdit_insert l k g = (g, Panic).
  Proof. intros V. unfold gqdit_insert. rewrite iip_invalid by exact V. reflexivity. Qed.
  Lemma cut_with_bad {Q} {IQ : InclusiveInterval I Q} l (q : Q) g : ~ valid q -> cut_with_identifiers l q g = (g, Panic).
  Proof. intros V. unfold cut_with_identifiers. rewrite iip_invalid by exact V. reflexivity. Qed.
  Lemma cut_all_bad {Q} {IQ : InclusiveInterval I Q} (q : Q) g : ~ valid q -> cut_all_identifiers q g = (g, Panic).
  Proof. intros V. unfold cut_all_identifiers. rewrite iip_invalid by exact V. reflexivity. Qed.

  (** ** append *)
  Lemma append_empty g : append g [] = (g, [], Val tt).
  Proof.
    unfold append. rewrite uu_val.
    pose proof (remove_overlapping_split (mkInterval MIN MAX : Interval I) [] ([] : list entry) []) as X. cbn [app] in X.
    rewrite X; [reflexivity|apply uu_valid|apply WF_nil|constructor..].
  Qed.
  Lemma append_loop_spec (l : list entry) : Forall okv l -> (forall k s, In (k, s) l -> is_set s) -> forall g, GWF g ->
    exists g', append_loop l g = (g', Val tt) /\ GWF g' /\
      forall p d, has_id g' p d <-> has_id g p d \/ exists k s, In (k, s) l /\ covers k p /\ In d s.
  Proof.
    induction l as [|[k s] l IH]; intros Hv Hs g G; cbn [append_loop].
    - exists g. split; [reflexivity|]. split; [exact G|]. intros p d. split; [auto|]. intros [X|(k & s & [] & _)]. exact X.
    - apply Forall_cons_iff in Hv. destruct Hv as [Vk Hv]. unfold okv, elo, ehi in Vk. cbn in Vk.
      destruct (insert_has s k g G (proj2 (valid_rk k) Vk) (Hs k s (or_introl eq_refl))) as (g1 & E1 & G1 & M1). rewrite E1.
      destruct (IH Hv (fun k' s' Hi => Hs k' s' (or_intror Hi)) g1 G1) as (g' & E' & G' & M'). exists g'. split; [exact E'|]. split; [exact G'|].
      intros p d. rewrite M', M1. split.
      + intros [[X|[X Y]]|(k' & s' & Hi & X & Y)]; [auto|right; exists k, s; cbn; auto|right; exists k', s'; cbn; auto].
      + intros [X|(k' & s' & [E|Hi] & X & Y)]; [auto|injection E as -> ->; auto|right; exists k', s'; auto].
  Qed.
  Lemma append_spec g g2 : GWF g -> (GWF g2 \/ g2 = []) ->
    exists g', append g g2 = (g', [], Val tt) /\ GWF g' /\
      forall p d, has_id g' p d <-> has_id g p d \/ has_id g2 p d.
  Proof.
    intros G G2. unfold append. rewrite uu_val.
    assert (W2 : WF g2) by (destruct G2 as [[[W _] _]| ->]; [exact W|apply WF_nil]).
    assert (R : remove_overlapping (mkInterval MIN MAX : Interval I) g2 = ([], Val g2)).
    { pose proof (remove_overlapping_split (mkInterval MIN MAX : Interval I) [] g2 []) as X. cbn [app] in X. rewrite app_nil_r in X.
      apply X; [apply uu_valid|exact W2|constructor| |constructor]. rewrite Forall_forall. intros e He.
      pose proof (lo_range (fst e)). pose proof (hi_range (fst e)). unfold meets, elo, ehi. unfold lo at 2, hi at 1. cbn. lia. }
    rewrite R. destruct (append_loop_spec g2 (proj2 W2)) with (g := g) as (g' & E & G' & M).
    - intros k s Hi. destruct G2 as [[(_ & _ & B) _]| ->]; [apply (B _ _ Hi)|destruct Hi].
    - exact G.
    - rewrite E. exists g'. split; [reflexivity|]. split; [exact G'|]. intros p d. rewrite M.
      destruct G2 as [G2| ->].
      + rewrite (has_id_iff g2 p d G2). unfold maps_to. split; (intros [X|X]; [auto|right]).
        * destruct X as (k & s & Hi & Hc & Hd). exists s. split; [exists k; auto|exact Hd].
        * destruct X as (s & (k & Hi & Hc) & Hd). exists k, s. auto.
      + split; (intros [X|X]; [auto|exfalso]).
        * destruct X as (k & s & [] & _).
        * destruct X as (s & E' & Hd). unfold identifiers_at_point in E'.
          destruct (get_at_point_cases ([] : Gqdit K D) p WF_nil) as [(v & (k & [] & _) & _)|(_ & E2 & _)].
          rewrite E2 in E'. injection E' as <-. destruct Hd.
  Qed.

  (** ** Histories *)
  Section Ind.
    Context (P : gop I K D -> Prop)
      (Hi : forall l k, P (GInsert l k))
      (Hw : forall l Q (IQ : InclusiveInterval I Q) (q : Q), P (GCutWith l q))
      (Ha : forall Q (IQ : InclusiveInterval I Q) (q : Q), P (GCutAll q))
      (Hp : forall os, Forall P os -> P (GAppend os)).
    Fixpoint gop_rec' (o : gop I K D) : P o :=
      match o with
      | GInsert l k => Hi l k
      | GCutWith l q => Hw l _ _ q
      | GCutAll q => Ha _ _ q
      | GAppend os => Hp os ((fix go (l : list (gop I K D)) : Forall P l :=
                                match l with [] => Forall_nil P | o :: r => Forall_cons o (gop_rec' o) (go r) end) os)
      end.
  End Ind.

  Lemma added_snoc (os : list (gop I K D)) o d p : added (os ++ [o]) d p <-> adds o d p \/ (added os d p /\ ~ removes o d p).
  Proof.
    split.
    - intros X. inversion X as [os1 o1 os2 d1 p1 A F E]. subst d1 p1. destruct (snoc_cases os2) as [->|(os2' & o2 & ->)].
      + apply app_inj_tail in E. destruct E as [_ <-]. left. exact A.
      + right. change (os1 ++ o1 :: os2' ++ [o2]) with (os1 ++ (o1 :: os2') ++ [o2]) in E. rewrite app_assoc in E.
        apply app_inj_tail in E. destruct E as [<- <-]. apply Forall_app in F. destruct F as [F1 F2].
        split; [constructor; assumption|]. apply Forall_inv in F2. exact F2.
    - intros [A|[A R]].
      + constructor; [exact A|constructor].
      + inversion A as [os1 o1 os2 d1 p1 A1 F E]. subst d1 p1. subst os. rewrite <- app_assoc. cbn [app]. constructor; [exact A1|].
        apply Forall_app. split; [exact F|]. constructor; [exact R|constructor].
  Qed.

  Definition ok_step (o : gop I K D) : Prop := forall g, GWF g -> GWF (gstep o g) /\
    forall p d, has_id (gstep o g) p d <-> adds o d p \/ (has_id g p d /\ ~ removes o d p).
  Lemma gsteps_snoc (os : list (gop I K D)) o g : gsteps (os ++ [o]) g = gstep o (gsteps os g).
  Proof. unfold gsteps. rewrite fold_left_app. reflexivity. Qed.
  Lemma run_ok (os : list (gop I K D)) : Forall ok_step os -> GWF (grun os) /\ forall p d, has_id (grun os) p d <-> added os d p.
  Proof.
    induction os as [|o os IH] using rev_ind; intros F.
    - split; [apply gnew_GWF|]. intros p d. split; [intros X; destruct (gnew_free p d X)|].
      intros X. inversion X as [os1 o1 os2 d1 p1 A1 F1 E]. destruct os1; discriminate E.
    - apply Forall_app in F. destruct F as [F Fo]. apply Forall_inv in Fo. destruct (IH F) as [G M].
      unfold grun in *. rewrite gsteps_snoc. destruct (Fo _ G) as [G' M']. split; [exact G'|]. intros p d. rewrite M', M, added_snoc. reflexivity.
  Qed.
  Lemma step_ok (o : gop I K D) : ok_step o.
  Proof.
    induction o as [l k|l Q IQ q|Q IQ q|os IH] using gop_rec'; intros g G; cbn [gstep removes].
    - destruct (valid_dec k) as [V|V].
      + destruct (insert_has (collect l) k g G V (collect_set l)) as (g' & E & G' & M). rewrite E. split; [exact G'|]. cbn [fst].
        intros p d. rewrite M, collect_in. split.
        * intros [X|[X Y]]; [right; tauto|left; constructor; assumption].
        * intros [X|[X _]]; [|auto]. inversion X; subst. auto.
      + rewrite insert_bad by exact V. split; [exact G|]. cbn [fst]. intros p d. split; [tauto|]. intros [X|[X _]]; [|exact X].
        inversion X; subst. exfalso. apply V. exists p. assumption.
    - destruct (valid_dec q) as [V|V].
      + destruct (cut_with_has (collect l) q g G V) as (g' & E & G' & M). rewrite E. split; [exact G'|]. cbn [fst].
        intros p d. rewrite M, collect_in. split; [tauto|]. intros [X|[X Y]]; [inversion X|tauto].
      + rewrite cut_with_bad by exact V. split; [exact G|]. cbn [fst]. intros p d. split; [|intros [X|[X _]]; [inversion X|exact X]].
        intros X. right. split; [exact X|]. intros [_ C]. apply V. exists p. exact C.
    - destruct (valid_dec q) as [V|V].
      + destruct (cut_all_has q g G V) as (g' & E & G' & M). rewrite E. split; [exact G'|]. cbn [fst].
        intros p d. rewrite M. split; [tauto|]. intros [X|[X Y]]; [inversion X|tauto].
      + rewrite cut_all_bad by exact V. split; [exact G|]. cbn [fst]. intros p d. split; [|intros [X|[X _]]; [inversion X|exact X]].
        intros X. right. split; [exact X|]. intros C. apply V. exists p. exact C.
    - destruct (run_ok os IH) as [G2 M2]. change (fold_left (fun g o => gstep o g) os gnew) with (grun os).
      destruct (append_spec g (grun os) G (or_introl G2)) as (g' & E & G' & M). rewrite E. cbn [fst]. split; [exact G'|].
      intros p d. rewrite M, M2. split.
      + intros [X|X]; [right; tauto|left; constructor; exact X].
      + intros [X|[X _]]; [|auto]. inversion X; subst. auto.
  Qed.
  Lemma all_ok (os : list (gop I K D)) : Forall ok_step os.
  Proof. apply Forall_forall. intros o _. apply step_ok. Qed.
  Lemma grun_GWF (os : list (gop I K D)) : GWF (grun os).
  Proof. apply run_ok, all_ok. Qed.
  Lemma grun_has (os : list (gop I K D)) p d : has_id (grun os) p d <-> added os d p.
  Proof. apply run_ok, all_ok. Qed.
  Lemma greachable_GWF g : greachable g -> GWF g.
  Proof. intros [os ->]. apply grun_GWF. Qed.

  (** Every state satisfying the invariant is built by inserting its entries. *)
  Definition inserts_of g : list (gop I K D) := map (fun e => GInsert (snd e) (fst e)) g.
  Lemma added_inserts g d p : added (inserts_of g) d p <-> exists k s, In (k, s) g /\ covers k p /\ In d s.
  Proof.
    unfold inserts_of. split.
    - intros X. inversion X as [os1 o1 os2 d1 p1 A1 F1 E]. subst d1 p1.
      assert (Hi : In o1 (os1 ++ o1 :: os2)) by (apply in_app_iff; right; left; reflexivity). rewrite E in Hi.
      apply in_map_iff in Hi. destruct Hi as ([k s] & <- & Hi). cbn in A1. inversion A1; subst. exists k, s. auto.
    - intros (k & s & Hi & Hc & Hd). apply in_split in Hi. destruct Hi as (l1 & l2 & ->). rewrite map_app. cbn [map fst snd].
      constructor; [constructor; assumption|]. apply Forall_forall. intros o Ho. apply in_map_iff in Ho. destruct Ho as (e & <- & _). cbn. tauto.
  Qed.
  Lemma GWF_greachable {OLI : OrdLaws I} g : GWF g -> greachable g.
  Proof.
    intros G. exists (inserts_of g). apply GWF_ext; [exact G|apply grun_GWF|]. intros p d.
    rewrite grun_has, added_inserts, (has_id_iff g p d G). unfold maps_to. split.
    - intros (s & (k & Hi & Hc) & Hd). exists k, s. auto.
    - intros (k & s & Hi & Hc & Hd). exists s. split; [exists k; auto|exact Hd].
  Qed.

  (** ** Equality *)
  Lemma eqb_refl_g keq g : (forall k, keq k k = true) -> gqdit_eqb keq g g = true.
  Proof.
    intros R. induction g as [|[k s] g IH]; [reflexivity|]. cbn. rewrite R, IH, (proj2 (set_eqb_true s s)) by reflexivity. reflexivity.
  Qed.
  Lemma eqb_maps (keq : K -> K -> bool) g g' : (forall k k', keq k k' = true -> same_points k k') -> gqdit_eqb keq g g' = true ->
    forall p s, maps_to g p s -> maps_to g' p s.
  Proof.
    intros S. revert g'. induction g as [|[k s] g IH]; intros [|[k' s'] g'] E p s0 (k0 & Hi & Hc); cbn in E; try discriminate; [destruct Hi|].
    rewrite !andb_true_iff in E. destruct E as [[E1 E2] E3]. apply set_eqb_true in E2. subst s'. destruct Hi as [X|Hi].
    - injection X as -> ->. exists k'. split; [left; reflexivity|]. apply (S _ _ E1), Hc.
    - destruct (IH g' E3 p s0) as (k1 & Hi1 & Hc1); [exists k0; auto|]. exists k1. split; [right; exact Hi1|exact Hc1].
  Qed.
  Lemma eqb_spec {OLI : OrdLaws I} (keq : K -> K -> bool) g g' : (forall k, keq k k = true) -> (forall k k', keq k k' = true -> same_points k k') ->
    GWF g -> GWF g' -> (gqdit_eqb keq g g' = true <-> forall p, identifiers_at_point g p = identifiers_at_point g' p).
  Proof.
    intros R S G G'. split.
    - intros E p. destruct (ids_maps g p G) as (s & Es & M & _). rewrite Es. symmetry. apply ids_iff; [exact G'|]. apply (eqb_maps keq g g' S E p s M).
    - intros E. assert (g = g') as <-; [|apply eqb_refl_g, R]. apply GWF_ext; [assumption..|]. intros p d. unfold has_id. rewrite E. reflexivity.
  Qed.

  (** ** serde *)
  Lemma gqdit_round_trip g : GWF g -> gqdit_deserialize (map Some (snd (gqdit_serialize g))) = Val (Ok g).
  Proof. intros G. apply (visit_seq_rebuild g []). apply G. Qed.
  Lemma GWF_describes g : GWF g -> describes_gqdit g.
  Proof.
    intros [(W & C & B) Cov]. split; [|split; [exact Cov|split]].
    - apply ascending_WF in W as [A V]. split; [exact V|]. apply ascending_disjoint, A.
    - intros k s k' s' Hi Hi' T E. subst s'. pose proof (WF_okv _ _ W Hi) as V. pose proof (WF_okv _ _ W Hi') as V'. unfold elo, ehi in *. cbn in V, V'.
      apply touch_rk in T; [|assumption..]. destruct T as [T|T]; [apply (C _ _ _ _ Hi Hi' T)|apply (C _ _ _ _ Hi' Hi T)]; reflexivity.
    - intros k s Hi. destruct (B _ _ Hi) as [S (i & Vi & E)]. split; [exact S|]. exists i. split; [apply valid_rk, Vi|exact E].
  Qed.
  Lemma describes_GWF (l : list entry) : describes_gqdit l -> exists g, gqdit_deserialize (map Some l) = Val (Ok g) /\ GWF g /\ Permutation.Permutation l g.
  Proof.
    intros (Dj & Cov & Ct & B). destruct (proj2 (from_iter_strict_Ok l)) as (g & E); [exact Dj|].
    destruct (from_iter_strict_entries l g E) as [W Pm]. exists g. split; [|split; [|exact Pm]].
    - unfold gqdit_deserialize. rewrite deserialize_all, E. reflexivity.
    - split; [split; [exact W|split]|].
      + intros k s k' s' Hi Hi' T. apply (Ct k s k' s'); [apply (Permutation.Permutation_in _ (Permutation.Permutation_sym Pm)); assumption..|].
        pose proof (WF_okv _ _ W Hi) as V. pose proof (WF_okv _ _ W Hi') as V'. unfold elo, ehi in *. cbn in V, V'. apply touch_rk; [assumption..|]. left. exact T.
      + intros k s Hi. pose proof (WF_okv _ _ W Hi) as V. unfold elo, ehi in V. cbn in V.
        destruct (B k s) as [S (i & Vi & Ei)]; [apply (Permutation.Permutation_in _ (Permutation.Permutation_sym Pm)); assumption|].
        split; [exact S|]. apply (built_of k i); assumption.
      + intros p. destruct (Cov p) as (k & s & Hi & Hc). exists k, s. split; [apply (Permutation.Permutation_in _ Pm Hi)|exact Hc].
  Qed.

  (** ** The state [append] leaves [other] in *)
  Lemma empty_ids p : identifiers_at_point ([] : Gqdit K D) p = Val [].
  Proof.
    unfold identifiers_at_point.
    destruct (get_at_point_cases ([] : Gqdit K D) p WF_nil) as [(v & (k & [] & _) & _)|(_ & E2 & _)]. rewrite E2. reflexivity.
  Qed.
  Lemma empty_cut {Q} {IQ : InclusiveInterval I Q} upd (q : Q) : valid q -> cut_update upd q ([] : Gqdit K D) = ([], Val tt).
  Proof. intros V. unfold cut_update. rewrite cut_nothing; [reflexivity|apply WF_nil|exact V|intros e []]. Qed.
  Lemma empty_append_loop (l : list entry) : Forall okv l -> append_loop l [] = ([], Val tt).
  Proof.
    induction l as [|[k s] l IH]; intros F; [reflexivity|]. apply Forall_cons_iff in F. destruct F as [V F].
    unfold okv, elo, ehi in V. cbn in V. apply valid_rk in V. cbn [append_loop].
    unfold gqdit_insert. rewrite iip_valid by exact V. destruct (bset_is_empty s); [apply IH, F|]. rewrite empty_cut by exact V. apply IH, F.
  Qed.
  Lemma empty_step (o : gop I K D) : gstep o [] = [].
  Proof.
    destruct o as [l k|l Q IQ q|Q IQ q|os]; cbn [gstep].
    - unfold gqdit_insert. destruct (valid_dec k) as [V|V]; [rewrite iip_valid by exact V|rewrite iip_invalid by exact V; reflexivity].
      destruct (bset_is_empty _); [reflexivity|]. rewrite empty_cut by exact V. reflexivity.
    - unfold cut_with_identifiers. destruct (valid_dec q) as [V|V]; [rewrite iip_valid by exact V|rewrite iip_invalid by exact V; reflexivity].
      destruct (bset_is_empty _); [reflexivity|]. rewrite empty_cut by exact V. reflexivity.
    - unfold cut_all_identifiers. destruct (valid_dec q) as [V|V]; [rewrite iip_valid by exact V|rewrite iip_invalid by exact V; reflexivity].
      rewrite empty_cut by exact V. reflexivity.
    - change (fold_left (fun g o => gstep o g) os gnew) with (grun os). unfold append. rewrite uu_val.
      pose proof (grun_GWF os) as [(W & _) _].
      assert (R : remove_overlapping (mkInterval MIN MAX : Interval I) (grun os) = ([], Val (grun os))).
      { pose proof (remove_overlapping_split (mkInterval MIN MAX : Interval I) [] (grun os) []) as X. cbn [app] in X. rewrite app_nil_r in X.
        apply X; [apply uu_valid|exact W|constructor| |constructor]. rewrite Forall_forall. intros e He.
        pose proof (lo_range (fst e)). pose proof (hi_range (fst e)). unfold meets, elo, ehi. unfold lo at 2, hi at 1. cbn. lia. }
      rewrite R, empty_append_loop; [reflexivity|apply W].
  Qed.
  Lemma drained_empty g : gdrained g -> g = [].
  Proof.
    intros (os1 & os2 & os3 & ->). destruct (append_spec (grun os1) (grun os2) (grun_GWF os1) (or_introl (grun_GWF os2))) as (g' & E & _). rewrite E. cbn [fst snd].
    induction os3 as [|o os3 IH] using rev_ind; [reflexivity|]. rewrite gsteps_snoc, IH. apply empty_step.
  Qed.

  (** ** [gaps_no_identifier] *)
  Lemma free_maps g p : GWF g -> (free g p <-> maps_to g p []).
  Proof.
    intros G. unfold free. destruct (ids_maps g p G) as (s & _ & M & _). split.
    - intros F. assert (s = []) as ->; [|exact M]. destruct s as [|d s]; [reflexivity|]. exfalso. apply (F d), (has_id_in g p _ d G M). left. reflexivity.
    - intros M' d X. apply (has_id_in g p _ d G M') in X. destruct X.
  Qed.
  Lemma sub_map_asc {Q} {IQ : InclusiveInterval I Q} g (q : Q) (f : entry -> bool) o : WF g -> sub (fun e => overlap (fst e) q) g o ->
    ascending (map fst (filter f o)).
  Proof.
    intros W Hs. assert (Wo : WF o).
    { clear f. induction Hs as [|e g o Ho Hs IH|e g o Ho Hs IH]; [exact W| |]; apply WF_cons in W; destruct W as (V & W & F).
      - apply WF_cons. split; [exact V|]. split; [apply IH, W|]. rewrite Forall_forall in F |- *. intros x Hx. apply F, (sub_in _ _ _ Hs), Hx.
      - apply IH, W. }
    assert (Wf : WF (filter f o)).
    { clear - PL IL Wo. induction o as [|e o IH]; [exact Wo|]. apply WF_cons in Wo. destruct Wo as (V & W & F). cbn.
      destruct (f e); [|apply IH, W]. apply WF_cons. split; [exact V|]. split; [apply IH, W|]. rewrite Forall_forall in F |- *.
      intros x Hx. apply filter_In in Hx. apply F, Hx. }
    apply ascending_WF, Wf.
  Qed.
  Lemma max_run_iff {A} {IA : InclusiveInterval I A} (P P' : I -> Prop) (a : A) : (forall p, P p <-> P' p) -> max_run P a -> max_run P' a.
  Proof.
    intros E (V & X & M). split; [exact V|]. split; [intros p Hp; apply E, X, Hp|]. intros j Hj. apply M. intros p Hp. apply E, Hj, Hp.
  Qed.
  Lemma gaps_no_spec {Q} {IQ : InclusiveInterval I Q} g (q : Q) : GWF g -> valid q ->
    exists l, gaps_no_identifier g q = Val l /\ lists_max_runs (free g) (fun j => overlap j q) l.
  Proof.
    intros G Vq. pose proof G as [(W & _ & _) Cov]. destruct (overlapping_spec g q W Vq) as (o & E & Hs).
    unfold gaps_no_identifier. rewrite iip_valid by exact Vq. cbn [obind]. rewrite E. cbn [obind]. eexists. split; [reflexivity|].
    assert (R : forall k, In (k, []) g -> max_run (free g) k).
    { intros k Hi. apply (max_run_iff (fun p => maps_to g p [])); [intros p; symmetry; apply free_maps, G|]. apply GP_max_run; [apply G|exact Hi]. }
    assert (IN : forall k, In k (map fst (filter (fun kv : entry => bset_is_empty (snd kv)) o)) <-> In (k, []) g /\ overlap k q).
    { intros k. rewrite in_map_iff. split.
      - intros ([k' s] & <- & Hi). apply filter_In in Hi. destruct Hi as [Hi Es]. cbn in Es. apply is_empty_true in Es. subst s.
        apply (sub_in _ _ _ Hs) in Hi. exact Hi.
      - intros Hi. exists (k, []). split; [reflexivity|]. apply filter_In. split; [|reflexivity]. apply (sub_in _ _ _ Hs), Hi. }
    split; [|split].
    - apply (sub_map_asc g q); assumption.
    - intros k Hi. apply IN in Hi. destruct Hi as [Hi Ho]. split; [apply R, Hi|exact Ho].
    - intros j Hj (p & Pj & Pq). pose proof Hj as (_ & Fj & _). pose proof (Fj p Pj) as Fp. apply free_maps in Fp; [|exact G].
      destruct Fp as (k & Hi & Hc). pose proof (max_run_same _ k j p (R k Hi) Hj Hc Pj) as Sp.
      exists k. split; [|exact Sp]. apply IN. split; [exact Hi|]. exists p. auto.
  Qed.
End Gqdit.
