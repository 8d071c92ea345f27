(** * CrashGqdit: panics in user code during the mutations of Gqdit. *)
From Coq Require Import List ZArith Bool Arith Lia ZifyBool Sorting.Sorted.
From Verif Require Import Base BTree UtilsModel IntervalModel NoditModel GqditModel GqditOps Spec NoditOps
  PointFacts IntervalFacts ListFacts NoditFacts NoditQueries NoditGaps NoditMutations NoditMerges NoditInv NoditMore NoditSim
  GqditFacts GqditProofs GqditGaps CrashModel CrashFacts CrashProofs.
Import ListNotations.
Open Scope Z_scope.

Section Gqdit.
  Context {I : Type} `{PL : PointLaws I}.
  Context {K : Type} {IK : InclusiveInterval I K} {IL : IntervalLaws I K}.
  Context {D : Type} {OD : Ord D} {OL : OrdLaws D}.
  Notation entry := (K * BTreeSet D)%type.
  Implicit Types (g : Gqdit K D) (k : K) (s : BTreeSet D) (p : I) (d : D).

  (** ** Calls that complete *)
  Lemma reinsert_c_val c upd (l : list entry) : forall g f g' f',
    reinsert_c c upd l g f = (g', Val f') -> reinsert upd l g = (g', Val tt).
  Proof.
    induction l as [|[k s] l IH]; intros g f g' f'; cbn [reinsert_c reinsert]; [intros [= <- _]; reflexivity|].
    destruct (if c then user_call f else Some f) as [f1|]; [|intros [=]].
    destruct (insert_merge_touching_if_values_equal_c bset_eqb k (upd s) g f1) as [g1 [[[r|e] f2]|]] eqn:E; try (intros [=]; fail).
    apply merge_if_equal_c_val in E. rewrite E. apply IH.
  Qed.
  Lemma cut_update_c_val {Q} {IQ : InclusiveInterval I Q} c upd (q : Q) g f g' f' :
    cut_update_c c upd q g f = (g', Val f') -> cut_update upd q g = (g', Val tt).
  Proof.
    unfold cut_update_c, cut_update. destruct (cut_c q g f) as [g1 [[l f1]|]] eqn:E; [|intros [=]].
    apply cut_c_val in E. rewrite E. apply reinsert_c_val.
  Qed.
  Lemma insert_c_val s k g f g' f' : gqdit_insert_c s k g f = (g', Val f') -> gqdit_insert s k g = (g', Val tt).
  Proof.
    unfold gqdit_insert_c, gqdit_insert. destruct (invalid_interval_panic k); [|intros [=]].
    destruct (bset_is_empty s); [intros [= <- _]; reflexivity|]. apply cut_update_c_val.
  Qed.
  Lemma cut_with_c_val {Q} {IQ : InclusiveInterval I Q} s (q : Q) g f g' f' :
    cut_with_identifiers_c s q g f = (g', Val f') -> cut_with_identifiers s q g = (g', Val tt).
  Proof.
    unfold cut_with_identifiers_c, cut_with_identifiers. destruct (invalid_interval_panic q); [|intros [=]].
    destruct (bset_is_empty s); [intros [= <- _]; reflexivity|]. apply cut_update_c_val.
  Qed.
  Lemma cut_all_c_val {Q} {IQ : InclusiveInterval I Q} (q : Q) g f g' f' :
    cut_all_identifiers_c q g f = (g', Val f') -> cut_all_identifiers q g = (g', Val tt).
  Proof.
    unfold cut_all_identifiers_c, cut_all_identifiers. destruct (invalid_interval_panic q); [|intros [=]].
    apply cut_update_c_val.
  Qed.
  Lemma append_loop_c_val (l : list entry) : forall g f g' f',
    append_loop_c l g f = (g', Val f') -> append_loop l g = (g', Val tt).
  Proof.
    induction l as [|[k s] l IH]; intros g f g' f'; cbn [append_loop_c append_loop]; [intros [= <- _]; reflexivity|].
    destruct (gqdit_insert_c s k g f) as [g1 [f1|]] eqn:E; [|intros [=]]. apply insert_c_val in E. rewrite E. apply IH.
  Qed.
  Lemma append_c_val g other f g' f' : append_c g other f = (g', Val f') ->
    exists other', append g other = (g', other', Val tt).
  Proof.
    unfold append_c, append. destruct uu as [u|]; [|intros [=]].
    destruct (remove_overlapping u other) as [o' [l|]]; [|intros [=]]. intros E. apply append_loop_c_val in E.
    rewrite E. exists o'. reflexivity.
  Qed.

  (** ** Enough fuel *)
  (** Run without panics, the call ends like the model without crash points. *)
  Definition ends_like (oc : Gqdit K D * outcome nat) (o : Gqdit K D * outcome unit) (n : nat) : Prop :=
    exists f', oc = (fst o, omap (fun _ => f') (snd o)) /\ (snd o <> Panic -> (n <= f')%nat).

  Lemma reinsert_c_enough c upd (l : list entry) n : forall g f, (6 * length l + n <= f)%nat ->
    ends_like (reinsert_c c upd l g f) (reinsert upd l g) n.
  Proof.
    induction l as [|[k s] l IH]; intros g f L; cbn [reinsert_c reinsert length] in *.
    - exists f. split; [reflexivity|lia].
    - assert (exists f1, (if c then user_call f else Some f) = Some f1 /\ (f <= S f1)%nat) as (f1 & -> & L1).
      { destruct c; [|exists f; split; [reflexivity|lia]]. destruct f as [|f]; [lia|]. exists f. split; [reflexivity|lia]. }
      destruct (merge_if_equal_c_enough bset_eqb k (upd s) g f1 (6 * length l + n)) as (f2 & E & L2); [lia|]. rewrite E.
      destruct (insert_merge_touching_if_values_equal bset_eqb k (upd s) g) as [g1 [[r|e]|]] eqn:E2; cbn in *.
      + apply IH. apply L2. discriminate.
      + exists f2. split; [reflexivity|]. cbn. congruence.
      + exists f2. split; [reflexivity|]. cbn. congruence.
  Qed.
  Lemma cut_update_c_enough {Q} {IQ : InclusiveInterval I Q} c upd (q : Q) g n :
    exists N, forall f, (N <= f)%nat -> ends_like (cut_update_c c upd q g f) (cut_update upd q g) n.
  Proof.
    unfold cut_update. destruct (cut q g) as [g1 o] eqn:Ec.
    exists (5 * length g + (6 * match o with Val l => length l | Panic => 0 end + n))%nat. intros f L.
    unfold cut_update_c. destruct (cut_c_enough q g f _ L) as (f1 & -> & L1). rewrite Ec in *. cbn [fst snd] in *.
    destruct o as [l|]; cbn [omap].
    - apply reinsert_c_enough, L1. discriminate.
    - exists f. split; [reflexivity|]. cbn. congruence.
  Qed.
  Lemma insert_c_enough s k g n :
    exists N, forall f, (N <= f)%nat -> ends_like (gqdit_insert_c s k g f) (gqdit_insert s k g) n.
  Proof.
    unfold gqdit_insert_c, gqdit_insert.
    destruct (invalid_interval_panic k); [|exists 0%nat; intros f _; exists f; split; [reflexivity|cbn; congruence]].
    destruct (bset_is_empty s); [exists n; intros f L; exists f; split; [reflexivity|auto]|]. apply cut_update_c_enough.
  Qed.
  Lemma cut_with_c_enough {Q} {IQ : InclusiveInterval I Q} s (q : Q) g n :
    exists N, forall f, (N <= f)%nat -> ends_like (cut_with_identifiers_c s q g f) (cut_with_identifiers s q g) n.
  Proof.
    unfold cut_with_identifiers_c, cut_with_identifiers.
    destruct (invalid_interval_panic q); [|exists 0%nat; intros f _; exists f; split; [reflexivity|cbn; congruence]].
    destruct (bset_is_empty s); [exists n; intros f L; exists f; split; [reflexivity|auto]|]. apply cut_update_c_enough.
  Qed.
  Lemma cut_all_c_enough {Q} {IQ : InclusiveInterval I Q} (q : Q) g n :
    exists N, forall f, (N <= f)%nat -> ends_like (cut_all_identifiers_c q g f) (cut_all_identifiers q g) n.
  Proof.
    unfold cut_all_identifiers_c, cut_all_identifiers.
    destruct (invalid_interval_panic q); [|exists 0%nat; intros f _; exists f; split; [reflexivity|cbn; congruence]].
    apply cut_update_c_enough.
  Qed.
  Lemma append_loop_c_enough (l : list entry) n : forall g,
    exists N, forall f, (N <= f)%nat -> ends_like (append_loop_c l g f) (append_loop l g) n.
  Proof.
    induction l as [|[k s] l IH]; intros g; cbn [append_loop_c append_loop].
    - exists n. intros f L. exists f. split; [reflexivity|auto].
    - destruct (gqdit_insert s k g) as [g1 o] eqn:E. destruct (IH g1) as (N1 & H1).
      destruct (insert_c_enough s k g N1) as (N & HN). exists N. intros f L.
      destruct (HN f L) as (f1 & -> & L1). rewrite E in *. cbn [fst snd] in *. destruct o as [[]|]; cbn [omap].
      + apply H1, L1. discriminate.
      + exists f1. split; [reflexivity|]. cbn. congruence.
  Qed.

  (** ** Calls on a Gqdit a panic may have damaged *)
  Lemma reinsert_one_WF g k s : WF g -> valid k -> (forall p, covers k p -> ~ covered g p) ->
    exists g' r, insert_merge_touching_if_values_equal bset_eqb k s g = (g', Val (Ok r)) /\ WF g' /\
      forall p s', maps_to g' p s' <-> maps_to g p s' \/ covers k p /\ s' = s.
  Proof.
    intros W Vk Hn.
    destruct (insert_merge_touching_if_equal_done bset_eqb g k s W Vk) as (g' & r & E & W' & Hr & (l1 & l2 & Hs & Eg) & _).
    { intros k' v' Hi (p & P1 & P2). apply (Hn p P2). exists k', v'. auto. }
    exists g', r. split; [exact E|]. split; [exact W'|].
    assert (IN : forall e, In e g' <-> e = (r, s) \/ (In e g /\ ~ (touch (fst e) k /\ bset_eqb (snd e) s = true))).
    { intros e. rewrite Eg, in_app_iff. cbn [In]. rewrite <- (sub_in _ _ _ Hs e), in_app_iff.
      split; [intros [X|[<-|X]]|intros [->|[X|X]]]; auto. }
    assert (MR : forall p, covers r p -> maps_to g p s \/ covers k p).
    { intros p Hc. apply Hr in Hc. destruct Hc as [Hc|([ke se] & Hi & (_ & Q) & Hc)]; [auto|left].
      apply set_eqb_true in Q. cbn in Q, Hc. subst se. exists ke. auto. }
    intros p s'. split.
    - intros (k' & Hi & Hc). apply IN in Hi. destruct Hi as [[= -> ->]|[Hi _]]; [|left; exists k'; auto].
      destruct (MR p Hc); auto.
    - intros [(k' & Hi & Hc)|[Hc ->]].
      + destruct (bool_dec (bset_eqb s' s) true) as [Q|Q].
        * pose proof (WF_okv _ _ W Hi) as V'. unfold elo, ehi in V'. cbn in V'. apply valid_rk in Vk as Vk'.
          assert (TD : touch k' k \/ ~ touch k' k) by (rewrite touch_rk by assumption; lia). destruct TD as [T|T].
          -- exists r. split; [apply IN; left; f_equal; apply set_eqb_true, Q|]. apply Hr. right. exists (k', s'). auto.
          -- exists k'. split; [apply IN; right; split; [exact Hi|cbn; tauto]|exact Hc].
        * exists k'. split; [apply IN; right; split; [exact Hi|cbn; tauto]|exact Hc].
      + exists r. split; [apply IN; left; reflexivity|]. apply Hr. auto.
  Qed.

  Lemma reinsert_c_any c upd (l : list entry) : forall g f g' o, WF g -> WF l ->
    (forall p, covered l p -> ~ covered g p) -> reinsert_c c upd l g f = (g', o) ->
    WF g' /\
    (forall p s, maps_to g' p s -> maps_to g p s \/ exists s0, maps_to l p s0 /\ s = upd s0) /\
    ((forall p s, maps_to g p s -> maps_to g' p s) \/
     exists k0 s0, (forall p, covers k0 p -> maps_to g p s0 \/ exists s1, maps_to l p s1 /\ s0 = upd s1) /\
       forall p s, maps_to g p s -> ~ covers k0 p -> maps_to g' p s).
  Proof.
    induction l as [|[k s] l IH]; intros g f g' o W Wl Hn; cbn [reinsert_c].
    - intros [= <- <-]. auto.
    - assert (SAME : WF g /\ (forall p s0, maps_to g p s0 -> maps_to g p s0 \/ exists s1, maps_to ((k, s) :: l) p s1 /\ s0 = upd s1) /\
        ((forall p s0, maps_to g p s0 -> maps_to g p s0) \/
         exists k0 s0, (forall p, covers k0 p -> maps_to g p s0 \/ exists s1, maps_to ((k, s) :: l) p s1 /\ s0 = upd s1) /\
           forall p s0, maps_to g p s0 -> ~ covers k0 p -> maps_to g p s0)) by auto.
      destruct (if c then user_call f else Some f) as [f1|]; [|intros [= <- <-]; exact SAME].
      apply WF_cons in Wl. destruct Wl as (Vk & Wl & Hl). unfold elo, ehi in Vk. cbn in Vk.
      destruct (reinsert_one_WF g k (upd s) W (proj2 (valid_rk k) Vk)) as (g1 & r & E & W1 & M1).
      { intros p Hp. apply Hn. exists k, s. split; [left; reflexivity|exact Hp]. }
      destruct (insert_merge_touching_if_values_equal_c bset_eqb k (upd s) g f1) as [g2 [[r2 f2]|]] eqn:Ec.
      + apply merge_if_equal_c_val in Ec. rewrite E in Ec. injection Ec as <- <-. intros Er.
        destruct (IH g1 f2 g' o W1 Wl) as (W' & MF & MB); [|exact Er|].
        { intros p Hp Hg. apply covered_maps_to in Hg. destruct Hg as (s' & Hg). apply M1 in Hg. destruct Hg as [Hg|[Hg _]].
          * apply (Hn p); [|eapply maps_to_covered; exact Hg]. destruct Hp as (k' & v' & Hi & Hc). exists k', v'. split; [right; exact Hi|exact Hc].
          * destruct Hp as (k' & v' & Hi & Hc). rewrite Forall_forall in Hl. specialize (Hl _ Hi). cbn in Hl.
            apply covers_rk in Hc. apply covers_rk in Hg. unfold elo, ehi in Hl. cbn in Hl. lia. }
        assert (TAIL : forall p s', (exists s0, maps_to l p s0 /\ s' = upd s0) -> exists s0, maps_to ((k, s) :: l) p s0 /\ s' = upd s0).
        { intros p s' (s0 & (k' & Hi & Hc) & ->). exists s0. split; [exists k'; split; [right; exact Hi|exact Hc]|reflexivity]. }
        assert (HEAD : forall p s', maps_to g1 p s' -> maps_to g p s' \/ exists s0, maps_to ((k, s) :: l) p s0 /\ s' = upd s0).
        { intros p s' X. apply M1 in X. destruct X as [X|[X ->]]; [auto|right]. exists s. split; [|reflexivity].
          exists k. split; [left; reflexivity|exact X]. }
        split; [exact W'|]. split; [|destruct MB as [MB|(k0 & s0 & J & MB)]; [left|right]].
        * intros p s' X. apply MF in X. destruct X as [X|X]; [apply HEAD, X|right; apply TAIL, X].
        * intros p s' X. apply MB, M1. auto.
        * exists k0, s0. split.
          -- intros p X. apply J in X. destruct X as [X|X]; [apply HEAD, X|right; apply TAIL, X].
          -- intros p s' X N. apply MB; [apply M1; auto|exact N].
      + intros [= <- <-]. apply merge_if_equal_c_panic in Ec; [|exact W]. destruct Ec as [->|(k0 & v0 & Hi & _ & _ & _ & S)]; [exact SAME|].
        pose proof (sub_in _ _ _ S) as SI. split; [exact (sub_WF _ _ _ S W)|]. split.
        * intros p s' (k' & Hi' & Hc). left. exists k'. split; [apply SI, Hi'|exact Hc].
        * right. exists k0, v0. split; [intros p Hp; left; exists k0; auto|]. intros p s' (k' & Hi' & Hc) N.
          exists k'. split; [apply SI; split; [exact Hi'|]|exact Hc]. intros X. injection X as -> ->. apply N, Hc.
  Qed.

  (** An interrupted or completed update of [q]. *)
  Definition partly (upd : BTreeSet D -> BTreeSet D) {Q} {IQ : InclusiveInterval I Q} (q : Q) g g' : Prop :=
    WF g' /\
    (forall p s, maps_to g' p s -> maps_to g p s \/ covers q p /\ exists s0, maps_to g p s0 /\ s = upd s0) /\
    exists (j : Interval I) s0, (forall p, covers j p -> ~ covers q p -> maps_to g p s0) /\
      forall p s, ~ covers q p -> ~ covers j p -> maps_to g p s -> maps_to g' p s.
  Lemma partly_refl upd {Q} {IQ : InclusiveInterval I Q} (q : Q) g : WF g -> partly upd q g g.
  Proof.
    intros W. split; [exact W|]. split; [auto|]. exists (mkInterval (istart q) (iend q)), [].
    split; [|auto]. intros p Hp N. exfalso. apply N. exact Hp.
  Qed.

  Lemma cut_update_c_any c upd {Q} {IQ : InclusiveInterval I Q} (q : Q) g f : WF g -> valid q ->
    partly upd q g (fst (cut_update_c c upd q g f)).
  Proof.
    intros W Vq. unfold cut_update_c. destruct (cut_c q g f) as [g1 [[l f1]|]] eqn:E.
    - apply cut_c_val in E. destruct (cut_full g q W Vq) as (g1' & l' & E' & W1 & Wl & Hl & _ & M1).
      rewrite E in E'. injection E' as <- <-.
      assert (ML : forall p s, maps_to l p s -> maps_to g p s /\ covers q p).
      { intros p s (k & Hi & Hc). apply Hl in Hi. destruct Hi as (_ & k0 & Hi & _ & Hp). apply Hp in Hc. destruct Hc as [C0 Cq].
        split; [exists k0; auto|exact Cq]. }
      destruct (reinsert_c c upd l g1 f1) as [g' o] eqn:Er.
      destruct (reinsert_c_any c upd l g1 f1 g' o W1 Wl) as (W' & MF & MB); [|exact Er|].
      { intros p Hp Hg. apply covered_maps_to in Hp, Hg. destruct Hp as (s1 & Hp), Hg as (s2 & Hg).
        apply ML in Hp. apply M1 in Hg. tauto. }
      cbn [fst]. split; [exact W'|]. split.
      + intros p s X. apply MF in X. destruct X as [X|(s0 & X & ->)]; [left; apply M1, X|right].
        apply ML in X. split; [tauto|]. exists s0. tauto.
      + destruct MB as [MB|(k0 & s0 & J & MB)].
        * exists (mkInterval (istart q) (iend q)), []. split.
          -- intros p Hp N. exfalso. apply N. exact Hp.
          -- intros p s N _ X. apply MB, M1. auto.
        * exists (mkInterval (istart k0) (iend k0)), s0. split.
          -- intros p Hp N. destruct (J p Hp) as [X|(s1 & X & _)]; [apply M1 in X; tauto|]. apply ML in X. tauto.
          -- intros p s N Nj X. apply MB; [apply M1; auto|exact Nj].
    - cbn [fst]. destruct (cut_c_interrupted q g f g1 W Vq E) as (W1 & _ & m1 & k0 & v0 & m2 & Eg & _ & HO & HI).
      assert (I0 : forall p, covers k0 p -> maps_to g p v0).
      { intros p Hp. exists k0. split; [rewrite Eg; apply in_app_iff; right; left; reflexivity|exact Hp]. }
      split; [exact W1|]. split.
      + intros p s X. left. destruct (covers_dec k0 p) as [C|C].
        * destruct (HI p s C X) as [-> _]. apply I0, C.
        * apply HO in X; [|exact C]. rewrite Eg. destruct X as [[(k & Hi & Hc) _]|(k & Hi & Hc)]; exists k;
            (split; [apply in_app_iff; cbn [In]; auto|exact Hc]).
      + exists (mkInterval (istart k0) (iend k0)), v0. split; [intros p Hp _; apply I0, Hp|].
        intros p s N Nj X. apply HO; [exact Nj|]. rewrite Eg in X. destruct X as (k & Hi & Hc). apply in_app_iff in Hi.
        destruct Hi as [Hi|[[= -> ->]|Hi]]; [left; split; [exists k; auto|exact N]|contradiction (Nj Hc)|right; exists k; auto].
  Qed.

  Lemma insert_c_any s k g f : WF g -> partly (fun ids => bset_extend ids s) k g (fst (gqdit_insert_c s k g f)).
  Proof.
    intros W. unfold gqdit_insert_c. destruct (valid_dec k) as [V|N]; [rewrite (iip_valid _ V)|rewrite (iip_invalid _ N); apply partly_refl, W].
    destruct (bset_is_empty s); [apply partly_refl, W|]. apply cut_update_c_any; assumption.
  Qed.
  Lemma cut_with_c_any s {Q} {IQ : InclusiveInterval I Q} (q : Q) g f : WF g ->
    partly (bset_retain (fun i => negb (bset_contains s i))) q g (fst (cut_with_identifiers_c s q g f)).
  Proof.
    intros W. unfold cut_with_identifiers_c. destruct (valid_dec q) as [V|N]; [rewrite (iip_valid _ V)|rewrite (iip_invalid _ N); apply partly_refl, W].
    destruct (bset_is_empty s); [apply partly_refl, W|]. apply cut_update_c_any; assumption.
  Qed.
  Lemma cut_all_c_any {Q} {IQ : InclusiveInterval I Q} (q : Q) g f : WF g ->
    partly (fun _ => bset_empty) q g (fst (cut_all_identifiers_c q g f)).
  Proof.
    intros W. unfold cut_all_identifiers_c. destruct (valid_dec q) as [V|N]; [rewrite (iip_valid _ V)|rewrite (iip_invalid _ N); apply partly_refl, W].
    apply cut_update_c_any; assumption.
  Qed.

  (** ** In terms of [identifiers_at_point] *)
  Lemma has_id_WF g p d : WF g -> (has_id g p d <-> exists s, maps_to g p s /\ In d s).
  Proof.
    intros W. unfold has_id, identifiers_at_point. destruct (get_at_point_cases g p W) as [(s & M & -> & _)|(N & -> & _)]; cbn [obind].
    - split; [intros (s' & [= <-] & X); eauto|]. intros (s' & M' & X). exists s'. split; [|exact X].
      rewrite (maps_to_fun _ _ _ _ W M M'). reflexivity.
    - split; [intros (s' & [= <-] & [])|]. intros (s' & M' & _). contradiction (N (maps_to_covered _ _ _ M')).
  Qed.
  Lemma ids_maps g p s : WF g -> maps_to g p s -> identifiers_at_point g p = Val s.
  Proof.
    intros W M. unfold identifiers_at_point. destruct (get_at_point_cases g p W) as [(s' & M' & -> & _)|(N & _)]; cbn [obind].
    - rewrite (maps_to_fun _ _ _ _ W M M'). reflexivity.
    - contradiction (N (maps_to_covered _ _ _ M)).
  Qed.
  Lemma ids_unmapped g p : WF g -> (forall s, ~ maps_to g p s) -> identifiers_at_point g p = Val [].
  Proof.
    intros W N. unfold identifiers_at_point. destruct (get_at_point_cases g p W) as [(s & M & _)|(_ & -> & _)]; [|reflexivity].
    contradiction (N s M).
  Qed.
  Lemma ids_cases g p : WF g -> (exists s, maps_to g p s /\ identifiers_at_point g p = Val s) \/
    (forall s, ~ maps_to g p s) /\ identifiers_at_point g p = Val [].
  Proof.
    intros W. destruct (get_at_point_cases g p W) as [(s & M & _)|(N & _)].
    - left. exists s. split; [exact M|apply ids_maps; assumption].
    - right. assert (X : forall s, ~ maps_to g p s) by (intros s M; apply N, (maps_to_covered _ _ _ M)).
      split; [exact X|apply ids_unmapped; assumption].
  Qed.

  Lemma partly_ids upd {Q} {IQ : InclusiveInterval I Q} (q : Q) g g' : WF g -> partly upd q g g' ->
    (forall p, identifiers_at_point g' p = identifiers_at_point g p \/ identifiers_at_point g' p = Val [] \/
       covers q p /\ exists s, identifiers_at_point g p = Val s /\ identifiers_at_point g' p = Val (upd s)) /\
    exists j : Interval I,
      (forall p p', covers j p -> covers j p' -> ~ covers q p -> ~ covers q p' -> identifiers_at_point g p = identifiers_at_point g p') /\
      (forall p, ~ covers q p -> ~ covers j p -> identifiers_at_point g' p = identifiers_at_point g p).
  Proof.
    intros W (W' & F & j & s0 & J & B). split.
    - intros p. destruct (ids_cases g' p W') as [(s & M & E)|(_ & E)]; [|auto]. rewrite E.
      destruct (F p s M) as [M0|(C & s1 & M0 & ->)].
      + left. symmetry. apply ids_maps; assumption.
      + right. right. split; [exact C|]. exists s1. split; [apply ids_maps; assumption|reflexivity].
    - exists j. split.
      + intros p p' C C' N N'. rewrite (ids_maps g p s0 W (J p C N)), (ids_maps g p' s0 W (J p' C' N')). reflexivity.
      + intros p N Nj. destruct (ids_cases g p W) as [(s & M & E)|(U & E)]; rewrite E.
        * apply ids_maps; [exact W'|]. apply B; assumption.
        * apply ids_unmapped; [exact W'|]. intros s M. destruct (F p s M) as [M0|(C & _)]; [apply (U s M0)|contradiction].
  Qed.

  (** ** append and histories *)
  Lemma append_loop_c_any (l : list entry) : forall g f, WF g -> (forall k s, In (k, s) l -> is_set s) ->
    WF (fst (append_loop_c l g f)) /\
    (forall p d, has_id (fst (append_loop_c l g f)) p d -> has_id g p d \/ exists k s, In (k, s) l /\ covers k p /\ In d s).
  Proof.
    induction l as [|[k s] l IH]; intros g f W Hs; cbn [append_loop_c]; [auto|].
    pose proof (insert_c_any s k g f W) as (W1 & F & _).
    assert (F' : forall p d, has_id (fst (gqdit_insert_c s k g f)) p d -> has_id g p d \/ covers k p /\ In d s).
    { intros p d X. apply has_id_WF in X; [|exact W1]. destruct X as (s' & M & X). apply F in M.
      destruct M as [M|(C & s0 & M & ->)]; [left; apply has_id_WF; eauto|].
      apply extend_in in X. destruct X as [X|X]; [left; apply has_id_WF; eauto|auto]. }
    destruct (gqdit_insert_c s k g f) as [g1 [f1|]]; cbn [fst] in *.
    - destruct (IH g1 f1 W1 (fun k' s' Hi => Hs k' s' (or_intror Hi))) as (W2 & F2). split; [exact W2|].
      intros p d X. apply F2 in X. destruct X as [X|(k' & s' & Hi & X)]; [|right; exists k', s'; split; [right; exact Hi|exact X]].
      apply F' in X. destruct X as [X|X]; [auto|]. right. exists k, s. split; [left; reflexivity|exact X].
    - split; [exact W1|]. intros p d X. apply F' in X. destruct X as [X|X]; [auto|].
      right. exists k, s. split; [left; reflexivity|exact X].
  Qed.
  Lemma append_c_any g g2 f : WF g -> GWF g2 ->
    WF (fst (append_c g g2 f)) /\
    (forall p d, has_id (fst (append_c g g2 f)) p d -> has_id g p d \/ has_id g2 p d).
  Proof.
    intros W G2. unfold append_c. rewrite uu_val. assert (W2 : WF g2) by apply G2.
    assert (R : remove_overlapping (mkInterval MIN MAX : Interval I) g2 = ([], Val g2)).
    { pose proof (remove_overlapping_split (mkInterval MIN MAX : Interval I) [] g2 []) as X. cbn [app] in X. rewrite app_nil_r in X.
      apply X; [apply uu_valid|exact W2|constructor| |constructor]. rewrite Forall_forall. intros e He.
      pose proof (WF_okv _ _ W2 He) as V. unfold okv, meets, elo, ehi, lo, hi in *. cbn in *.
      pose proof (rk_max (istart (fst e))). pose proof (rk_min (iend (fst e))). lia. }
    rewrite R. destruct (append_loop_c_any g2 g f W) as (W' & F).
    { intros k s Hi. destruct G2 as [(_ & _ & B) _]. apply (B _ _ Hi). }
    split; [exact W'|]. intros p d X. apply F in X. destruct X as [X|(k & s & Hi & Hc & X)]; [auto|right].
    apply has_id_WF; [exact W2|]. exists s. split; [exists k; auto|exact X].
  Qed.

  Lemma gstep_c_WF g (o : gop I K D) f : WF g -> WF (gstep_c g o f).
  Proof.
    intros W. destruct o as [l k|l Q IQ q|Q IQ q|os]; cbn [gstep_c].
    - apply insert_c_any, W.
    - apply cut_with_c_any, W.
    - apply cut_all_c_any, W.
    - apply append_c_any; [exact W|apply grun_GWF].
  Qed.
  Lemma grun_c_WF (os : list (gop I K D * nat)) : WF (grun_c os).
  Proof.
    unfold grun_c. assert (W : WF (gnew : Gqdit K D)) by apply gnew_GWF. revert W. generalize (gnew : Gqdit K D).
    induction os as [|[o f] os IH]; intros g W; cbn [fold_left]; [exact W|]. apply IH, gstep_c_WF, W.
  Qed.

  (** ** A completed insert into a damaged Gqdit *)
  Lemma reinsert_WF upd (l : list entry) : forall g, WF g -> WF l -> (forall p, covered l p -> ~ covered g p) ->
    exists g', reinsert upd l g = (g', Val tt) /\ WF g' /\
      forall p s, maps_to g' p s <-> maps_to g p s \/ exists s0, maps_to l p s0 /\ s = upd s0.
  Proof.
    induction l as [|[k s] l IH]; intros g W Wl Hn; cbn [reinsert].
    - exists g. split; [reflexivity|]. split; [exact W|]. intros p s. split; [auto|]. intros [X|(s0 & (k & [] & _) & _)]. exact X.
    - apply WF_cons in Wl. destruct Wl as (Vk & Wl & Hl). unfold elo, ehi in Vk. cbn in Vk.
      destruct (reinsert_one_WF g k (upd s) W (proj2 (valid_rk k) Vk)) as (g1 & r & E & W1 & M1).
      { intros p Hp. apply Hn. exists k, s. split; [left; reflexivity|exact Hp]. }
      rewrite E. destruct (IH g1 W1 Wl) as (g' & E' & W' & M').
      { intros p Hp Hg. apply covered_maps_to in Hg. destruct Hg as (s' & Hg). apply M1 in Hg. destruct Hg as [Hg|[Hg _]].
        * apply (Hn p); [|eapply maps_to_covered; exact Hg]. destruct Hp as (k' & v' & Hi & Hc). exists k', v'. split; [right; exact Hi|exact Hc].
        * destruct Hp as (k' & v' & Hi & Hc). rewrite Forall_forall in Hl. specialize (Hl _ Hi).
          apply covers_rk in Hc. apply covers_rk in Hg. unfold elo, ehi in Hl. cbn in Hl. lia. }
      exists g'. split; [exact E'|]. split; [exact W'|]. intros p s'. rewrite M', M1. unfold maps_to. split.
      + intros [[X|[Hc ->]]|(s0 & (k' & Hi & Hc) & ->)]; [left; exact X|right..].
        * exists s. split; [exists k; split; [left; reflexivity|exact Hc]|reflexivity].
        * exists s0. split; [exists k'; split; [right; exact Hi|exact Hc]|reflexivity].
      + intros [X|(s0 & (k' & [Ek|Hi] & Hc) & ->)]; [auto| |right; exists s0; split; [exists k'; auto|reflexivity]].
        injection Ek as -> ->. left. right. auto.
  Qed.
  Lemma cut_update_WF upd {Q} {IQ : InclusiveInterval I Q} (q : Q) g : WF g -> valid q ->
    exists g', cut_update upd q g = (g', Val tt) /\ WF g' /\
      forall p s, maps_to g' p s <-> maps_to g p s /\ ~ covers q p \/ covers q p /\ exists s0, maps_to g p s0 /\ s = upd s0.
  Proof.
    intros W Vq. destruct (cut_full g q W Vq) as (g1 & l & E & W1 & Wl & Hl & _ & M1).
    pose proof (cut_out_maps g q g1 l W Vq E) as ML.
    destruct (reinsert_WF upd l g1 W1 Wl) as (g' & E' & W' & M').
    { intros p Hp Hg. apply covered_maps_to in Hp, Hg. destruct Hp as (s1 & Hp), Hg as (s2 & Hg).
      apply ML in Hp. apply M1 in Hg. tauto. }
    exists g'. unfold cut_update. rewrite E. split; [exact E'|]. split; [exact W'|]. intros p s. rewrite M', M1. split.
    - intros [X|(s0 & X & ->)]; [auto|]. apply ML in X. right. split; [tauto|]. exists s0. tauto.
    - intros [X|(C & s0 & X & ->)]; [auto|]. right. exists s0. split; [apply ML; auto|reflexivity].
  Qed.
  Lemma insert_WF s k g : WF g -> valid k -> exists g', gqdit_insert s k g = (g', Val tt) /\ WF g' /\
    forall p, (covered g' p <-> covered g p) /\
      forall d, has_id g' p d <-> has_id g p d \/ covers k p /\ In d s /\ covered g p.
  Proof.
    intros W Vk. unfold gqdit_insert. rewrite (iip_valid _ Vk). destruct (bset_is_empty s) eqn:Es.
    - exists g. split; [reflexivity|]. split; [exact W|]. intros p. split; [tauto|]. destruct s; [|discriminate]. intros d. cbn. tauto.
    - destruct (cut_update_WF (fun ids => bset_extend ids s) k g W Vk) as (g' & E & W' & M). exists g'. split; [exact E|].
      split; [exact W'|]. intros p. split.
      + rewrite !covered_maps_to. split.
        * intros (s' & X). apply M in X. destruct X as [[X _]|(_ & s0 & X & _)]; eauto.
        * intros (s' & X). destruct (covers_dec k p) as [C|C].
          -- exists (bset_extend s' s). apply M. right. split; [exact C|]. exists s'. auto.
          -- exists s'. apply M. auto.
      + intros d. rewrite !has_id_WF, covered_maps_to by assumption. split.
        * intros (s' & X & Hd). apply M in X. destruct X as [[X _]|(C & s0 & X & ->)]; [eauto|].
          apply extend_in in Hd. destruct Hd as [Hd|Hd]; [eauto|]. right. split; [exact C|]. split; [exact Hd|]. eauto.
        * intros [(s' & X & Hd)|(C & Hd & s' & X)].
          -- destruct (covers_dec k p) as [C|C].
             ++ exists (bset_extend s' s). split; [apply M; right; split; [exact C|]; exists s'; auto|]. apply extend_in. auto.
             ++ exists s'. split; [apply M; auto|exact Hd].
          -- exists (bset_extend s' s). split; [apply M; right; split; [exact C|]; exists s'; auto|]. apply extend_in. auto.
  Qed.
End Gqdit.
