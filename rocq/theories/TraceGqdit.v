(** * TraceGqdit: the states a Gqdit call passes through. *)
From Coq Require Import List ZArith Bool Lia ZifyBool.
From Verif Require Import Base BTree UtilsModel IntervalModel NoditModel NoditOps CrashModel GqditModel GqditOps TraceModel Spec TraceSpec
  PointFacts IntervalFacts ListFacts NoditFacts NoditQueries NoditGaps NoditMutations NoditMerges NoditInv NoditMore NoditSim
  GqditFacts GqditProofs GqditGaps CrashFacts CrashProofs CrashGqdit TraceFacts.
Import ListNotations.
Open Scope Z_scope.

Section Gqdit.
  Context {I : Type} `{PL : PointLaws I}.
  Context {K : Type} {IK : InclusiveInterval I K} {IL : IntervalLaws I K}.
  Context {D : Type} {OD : Ord D} {OL : OrdLaws D}.
  Notation entry := (K * BTreeSet D)%type.
  Implicit Types (g : Gqdit K D) (k : K) (u : BTreeSet D) (p : I) (d : D).
  Notation ins k u := (OpInsertMergeTouchingIfValuesEqual bset_eqb k u).

  (** One reinsertion. *)
  Lemma reinsert_one_t g k u s : WF g -> valid k -> (forall p, covers k p -> ~ covered g p) -> In s (trace g (ins k u)) ->
    WF s /\ (forall p u', maps_to s p u' -> maps_to g p u' \/ covers k p /\ u' = u) /\
    exists j : Interval I, (forall p, covers j p -> maps_to g p u \/ covers k p) /\
      forall p u', maps_to g p u' -> ~ covers j p -> maps_to s p u'.
  Proof.
    intros W Vk Hn Hs.
    assert (Free : forall k' v', In (k', v') g -> ~ overlap k' k).
    { intros k' v' Hi (p & P1 & P2). apply (Hn p P2). exists k', v'. auto. }
    destruct (reinsert_one_WF g k u W Vk Hn) as (g1 & r1 & E & W1 & M1).
    destruct (insert_merge_touching_if_equal_done bset_eqb g k u W Vk Free) as (g2 & r & E2 & _ & (Hr & _)).
    destruct (trace_mid (ins k u) g s W Hs) as (Ws & F & HK). split; [exact Ws|]. split.
    - intros p u' M. destruct (F p u' M) as [X|X]; [auto|]. cbn [step] in X. rewrite E in X. apply M1 in X. exact X.
    - exists (mkInterval (istart r) (iend r)). assert (J : forall p, covers (mkInterval (istart r) (iend r)) p <-> covers r p) by (intros p; reflexivity).
      split.
      + intros p Hp. apply J, Hr in Hp. destruct Hp as [Hp|([k' u'] & Hi & (_ & Q) & Hc)]; [auto|left].
        apply set_eqb_true in Q. cbn in Q, Hc. subst u'. exists k'. auto.
      + intros p u' (k' & Hi & Hc) N. exists k'. split; [|exact Hc]. apply HK; [exact Hi|]. intros A. cbn [about] in A.
        apply N, J, Hr. right. exists (k', u'). auto.
  Qed.
  (** The states of a trace link up. *)
  Lemma ins_path g k u : WF g -> path one_entry (trace g (ins k u)) g (fst (insert_merge_touching_if_values_equal bset_eqb k u g)).
  Proof. intros W. apply (traced_any (ins k u) g W Logic.I). Qed.

  Definition lost upd (l : list entry) g s : Prop :=
    (forall p u, maps_to g p u -> maps_to s p u) \/
    exists (j : Interval I) u0, (forall p, covers j p -> maps_to g p u0 \/ (exists u1, maps_to l p u1 /\ u0 = upd u1)) /\
      forall p u, maps_to g p u -> ~ covers j p -> maps_to s p u.

  Lemma reinsert_t_any upd (l : list entry) : forall g, WF g -> WF l -> (forall p, covered l p -> ~ covered g p) ->
    path one_entry (reinsert_t upd l g) g (fst (reinsert upd l g)) /\
    forall s, In s (reinsert_t upd l g) ->
      WF s /\ (forall p u, maps_to s p u -> maps_to g p u \/ exists u0, maps_to l p u0 /\ u = upd u0) /\ lost upd l g s.
  Proof.
    induction l as [|[k u] l IH]; intros g W Wl Hn; cbn [reinsert_t reinsert].
    - split; [constructor|]. intros s [<-|[]]. split; [exact W|]. split; [auto|]. left. auto.
    - apply WF_cons in Wl. destruct Wl as (Vk & Wl & Hl). unfold elo, ehi in Vk. cbn in Vk. apply valid_rk in Vk.
      assert (Hk : forall p, covers k p -> ~ covered g p).
      { intros p Hp. apply Hn. exists k, u. split; [left; reflexivity|exact Hp]. }
      destruct (reinsert_one_WF g k (upd u) W Vk Hk) as (g1 & r & E & W1 & M1).
      pose proof (ins_path g k (upd u) W) as P1. rewrite E in *. cbn [fst] in P1.
      destruct (IH g1 W1 Wl) as (P2 & F2).
      { intros p Hp Hg. apply covered_maps_to in Hg. destruct Hg as (s' & Hg). apply M1 in Hg. destruct Hg as [Hg|[Hg _]].
        * apply (Hn p); [|eapply maps_to_covered; exact Hg]. destruct Hp as (k' & v' & Hi & Hc). exists k', v'. split; [right; exact Hi|exact Hc].
        * destruct Hp as (k' & v' & Hi & Hc). rewrite Forall_forall in Hl. specialize (Hl _ Hi).
          apply covers_rk in Hc. apply covers_rk in Hg. unfold elo, ehi in Hl. cbn in Hl. lia. }
      split.
      { econstructor; [apply one_refl|]. eapply path_app; [exact P1|apply one_refl|exact P2]. }
      assert (TAIL : forall p s', (exists s0, maps_to l p s0 /\ s' = upd s0) -> exists s0, maps_to ((k, u) :: l) p s0 /\ s' = upd s0).
      { intros p s' (s0 & (k' & Hi & Hc) & ->). exists s0. split; [exists k'; split; [right; exact Hi|exact Hc]|reflexivity]. }
      assert (HERE : forall p, covers k p -> exists s0, maps_to ((k, u) :: l) p s0 /\ upd u = upd s0).
      { intros p Hp. exists u. split; [exists k; split; [left; reflexivity|exact Hp]|reflexivity]. }
      assert (HEAD : forall p s', maps_to g1 p s' -> maps_to g p s' \/ exists s0, maps_to ((k, u) :: l) p s0 /\ s' = upd s0).
      { intros p s' X. apply M1 in X. destruct X as [X|[X ->]]; [auto|right; apply HERE, X]. }
      intros s [<-|Hs]; [split; [exact W|]; split; [auto|left; auto]|].
      apply in_app_iff in Hs. destruct Hs as [Hs|Hs].
      + destruct (reinsert_one_t g k (upd u) s W Vk Hk Hs) as (Ws & F & j & J & B). split; [exact Ws|]. split.
        * intros p u' M. destruct (F p u' M) as [X|[X ->]]; [auto|right; apply HERE, X].
        * right. exists j, (upd u). split; [|exact B]. intros p Hp. destruct (J p Hp) as [X|X]; [auto|right; apply HERE, X].
      + destruct (F2 s Hs) as (Ws & F & L). split; [exact Ws|]. split; [|destruct L as [MB|(j & u0 & J & MB)]; [left|right]].
        * intros p s' X. apply F in X. destruct X as [X|X]; [apply HEAD, X|right; apply TAIL, X].
        * intros p s' X. apply MB, M1. auto.
        * exists j, u0. split.
          -- intros p X. apply J in X. destruct X as [X|X]; [apply HEAD, X|right; apply TAIL, X].
          -- intros p s' X N. apply MB; [apply M1; auto|exact N].
  Qed.

  Lemma cut_update_t_any upd {Q} {IQ : InclusiveInterval I Q} (q : Q) g : WF g -> valid q ->
    path one_entry (cut_update_t upd q g) g (fst (cut_update upd q g)) /\
    forall s, In s (cut_update_t upd q g) -> partly upd q g s.
  Proof.
    intros W Vq. unfold cut_update_t, cut_update. destruct (cut_t_ok q g W Vq) as [P1 F1].
    destruct (cut_full g q W Vq) as (g1 & l & E & W1 & Wl & Hl & _ & M1). rewrite E in *. cbn [fst] in P1.
    assert (ML : forall p s, maps_to l p s -> maps_to g p s /\ covers q p).
    { intros p s (k & Hi & Hc). apply Hl in Hi. destruct Hi as (_ & k0 & Hi & _ & Hp). apply Hp in Hc. destruct Hc as [C0 Cq].
      split; [exists k0; auto|exact Cq]. }
    destruct (reinsert_t_any upd l g1 W1 Wl) as [P2 F2].
    { intros p Hp Hg. apply covered_maps_to in Hp, Hg. destruct Hp as (s1 & Hp), Hg as (s2 & Hg).
      apply ML in Hp. apply M1 in Hg. tauto. }
    split; [eapply path_app; [exact P1|apply one_refl|exact P2]|].
    intros s Hs. apply in_app_iff in Hs. destruct Hs as [Hs|Hs].
    - destruct (F1 s Hs) as [->|(W' & _ & m1 & k0 & v0 & m2 & Eg & _ & HO & HI)]; [apply partly_refl, W|].
      assert (I0 : forall p, covers k0 p -> maps_to g p v0).
      { intros p Hp. exists k0. split; [rewrite Eg; apply in_app_iff; right; left; reflexivity|exact Hp]. }
      split; [exact W'|]. split.
      + intros p u X. left. destruct (covers_dec k0 p) as [C|C].
        * destruct (HI p u C X) as [-> _]. apply I0, C.
        * apply HO in X; [|exact C]. rewrite Eg. destruct X as [[(k & Hi & Hc) _]|(k & Hi & Hc)]; exists k;
            (split; [apply in_app_iff; cbn [In]; auto|exact Hc]).
      + exists (mkInterval (istart k0) (iend k0)), v0. split; [intros p Hp _; apply I0, Hp|].
        intros p u N Nj X. apply HO; [exact Nj|]. rewrite Eg in X. destruct X as (k & Hi & Hc). apply in_app_iff in Hi.
        destruct Hi as [Hi|[[= -> ->]|Hi]]; [left; split; [exists k; auto|exact N]|contradiction (Nj Hc)|right; exists k; auto].
    - destruct (F2 s Hs) as (Ws & MF & MB). split; [exact Ws|]. split.
      + intros p u X. apply MF in X. destruct X as [X|(s0 & X & ->)]; [left; apply M1, X|right].
        apply ML in X. split; [tauto|]. exists s0. tauto.
      + destruct MB as [MB|(j & s0 & J & MB)].
        * exists (mkInterval (istart q) (iend q)), []. split.
          -- intros p Hp N. exfalso. apply N. exact Hp.
          -- intros p u N _ X. apply MB, M1. auto.
        * exists j, s0. split.
          -- intros p Hp N. destruct (J p Hp) as [X|(s1 & X & _)]; [apply M1 in X; tauto|]. apply ML in X. tauto.
          -- intros p u N Nj X. apply MB; [apply M1; auto|exact Nj].
  Qed.

  Definition gtraced upd {Q} {IQ : InclusiveInterval I Q} (q : Q) g g' (t : list (Gqdit K D)) : Prop :=
    path one_entry t g g' /\ forall s, In s t -> partly upd q g s.
  Lemma gtraced_same upd {Q} {IQ : InclusiveInterval I Q} (q : Q) g : WF g -> gtraced upd q g g [g].
  Proof. intros W. split; [constructor|]. intros s [<-|[]]. apply partly_refl, W. Qed.
  Lemma gtraced_cons upd {Q} {IQ : InclusiveInterval I Q} (q : Q) g g' t : WF g -> gtraced upd q g g' t -> gtraced upd q g g' (g :: t).
  Proof.
    intros W [P F]. split; [econstructor; [apply one_refl|exact P]|]. intros s [<-|Hs]; [apply partly_refl, W|apply F, Hs].
  Qed.
  Lemma insert_t_any u k g : WF g ->
    gtraced (fun ids => bset_extend ids u) k g (fst (gqdit_insert u k g)) (gqdit_insert_t u k g).
  Proof.
    intros W. unfold gqdit_insert, gqdit_insert_t.
    destruct (valid_dec k) as [V|N]; [rewrite (iip_valid _ V)|rewrite (iip_invalid _ N); apply gtraced_same, W].
    destruct (bset_is_empty u); [apply gtraced_same, W|]. apply gtraced_cons; [exact W|]. apply cut_update_t_any; assumption.
  Qed.
  Lemma cut_with_t_any u {Q} {IQ : InclusiveInterval I Q} (q : Q) g : WF g ->
    gtraced (bset_retain (fun i => negb (bset_contains u i))) q g (fst (cut_with_identifiers u q g)) (cut_with_identifiers_t u q g).
  Proof.
    intros W. unfold cut_with_identifiers, cut_with_identifiers_t.
    destruct (valid_dec q) as [V|N]; [rewrite (iip_valid _ V)|rewrite (iip_invalid _ N); apply gtraced_same, W].
    destruct (bset_is_empty u); [apply gtraced_same, W|]. apply gtraced_cons; [exact W|]. apply cut_update_t_any; assumption.
  Qed.
  Lemma cut_all_t_any {Q} {IQ : InclusiveInterval I Q} (q : Q) g : WF g ->
    gtraced (fun _ => bset_empty) q g (fst (cut_all_identifiers q g)) (cut_all_identifiers_t q g).
  Proof.
    intros W. unfold cut_all_identifiers, cut_all_identifiers_t.
    destruct (valid_dec q) as [V|N]; [rewrite (iip_valid _ V)|rewrite (iip_invalid _ N); apply gtraced_same, W].
    apply gtraced_cons; [exact W|]. apply cut_update_t_any; assumption.
  Qed.

  Lemma append_loop_t_any (l : list entry) : forall g, WF g -> (forall k u, In (k, u) l -> is_set u) ->
    path one_entry (append_loop_t l g) g (fst (append_loop l g)) /\
    forall s, In s (append_loop_t l g) ->
      WF s /\ forall p d, has_id s p d -> has_id g p d \/ exists k u, In (k, u) l /\ covers k p /\ In d u.
  Proof.
    induction l as [|[k u] l IH]; intros g W Hset; cbn [append_loop_t append_loop].
    - split; [constructor|]. intros s [<-|[]]. auto.
    - destruct (insert_t_any u k g W) as [P1 F1].
      assert (F' : forall s p d, partly (fun ids => bset_extend ids u) k g s -> has_id s p d -> has_id g p d \/ covers k p /\ In d u).
      { intros s p d (Ws & F & _) X. apply has_id_WF in X; [|exact Ws]. destruct X as (s' & M & X). apply F in M.
        destruct M as [M|(C & s0 & M & ->)]; [left; apply has_id_WF; eauto|].
        apply extend_in in X. destruct X as [X|X]; [left; apply has_id_WF; eauto|auto]. }
      assert (F'' : forall s p d, partly (fun ids => bset_extend ids u) k g s -> has_id s p d ->
                has_id g p d \/ exists k' u', In (k', u') ((k, u) :: l) /\ covers k' p /\ In d u').
      { intros s p d X Y. destruct (F' s p d X Y) as [Z|Z]; [auto|]. right. exists k, u. split; [left; reflexivity|exact Z]. }
      pose proof (F1 _ (path_in_last _ _ _ _ P1)) as PL1.
      destruct (gqdit_insert u k g) as [g1 [[]|]] eqn:E; cbn [fst] in P1, PL1.
      + assert (W1 : WF g1) by apply PL1.
        destruct (IH g1 W1 (fun k' s' Hi => Hset k' s' (or_intror Hi))) as [P2 F2]. split.
        * econstructor; [apply one_refl|]. eapply path_app; [exact P1|apply one_refl|exact P2].
        * intros s [<-|Hs]; [auto|]. apply in_app_iff in Hs. destruct Hs as [Hs|Hs].
          -- split; [apply (F1 s Hs)|]. intros p d X. apply (F'' s p d (F1 s Hs) X).
          -- destruct (F2 s Hs) as [Ws F]. split; [exact Ws|]. intros p d X. destruct (F p d X) as [Y|(k' & u' & Hi & Y)].
             ++ apply (F'' g1 p d PL1 Y).
             ++ right. exists k', u'. split; [right; exact Hi|exact Y].
      + rewrite app_nil_r. split; [econstructor; [apply one_refl|exact P1]|].
        intros s [<-|Hs]; [auto|]. split; [apply (F1 s Hs)|]. intros p d X. apply (F'' s p d (F1 s Hs) X).
  Qed.
  Lemma append_t_any g g2 : WF g -> GWF g2 ->
    path one_entry (append_t g g2) g (fst (fst (append g g2))) /\
    forall s, In s (append_t g g2) -> WF s /\ forall p d, has_id s p d -> has_id g p d \/ has_id g2 p d.
  Proof.
    intros W G2. unfold append_t, append. rewrite uu_val. assert (W2 : WF g2) by apply G2.
    assert (R : remove_overlapping (mkInterval MIN MAX : Interval I) g2 = ([], Val g2)).
    { pose proof (remove_overlapping_split (mkInterval MIN MAX : Interval I) [] g2 []) as X. cbn [app] in X. rewrite app_nil_r in X.
      apply X; [apply uu_valid|exact W2|constructor| |constructor]. rewrite Forall_forall. intros e He.
      pose proof (WF_okv _ _ W2 He) as V. unfold okv, meets, elo, ehi, lo, hi in *. cbn in *.
      pose proof (rk_max (istart (fst e))). pose proof (rk_min (iend (fst e))). lia. }
    rewrite R. destruct (append_loop_t_any g2 g W) as [P F].
    { intros k s Hi. destruct G2 as [(_ & _ & B) _]. apply (B _ _ Hi). }
    split.
    - econstructor; [apply one_refl|]. destruct (append_loop g2 g). exact P.
    - intros s [<-|Hs]; [auto|]. destruct (F s Hs) as [Ws F']. split; [exact Ws|].
      intros p d X. apply F' in X. destruct X as [X|(k & u & Hi & Hc & X)]; [auto|right].
      apply has_id_WF; [exact W2|]. exists u. split; [exists k; auto|exact X].
  Qed.

  Lemma gtrace_path g (o : gop I K D) : WF g -> path one_entry (gtrace g o) g (gstep o g) /\ forall s, In s (gtrace g o) -> WF s.
  Proof.
    intros W. destruct o as [l k|l Q IQ q|Q IQ q|os]; cbn [gtrace gstep].
    - destruct (insert_t_any (collect l) k g W) as [P F]. split; [exact P|]. intros s Hs. apply (F s Hs).
    - destruct (cut_with_t_any (collect l) q g W) as [P F]. split; [exact P|]. intros s Hs. apply (F s Hs).
    - destruct (cut_all_t_any q g W) as [P F]. split; [exact P|]. intros s Hs. apply (F s Hs).
    - destruct (append_t_any g (grun os) W (grun_GWF os)) as [P F]. split; [|intros s Hs; apply (F s Hs)].
      exact P.
  Qed.
  Lemma ginterrupted_WF (os : list (gop I K D)) g : ginterrupted_history os g -> WF g.
  Proof. intros X. induction X as [|os g o g' X IH Hi]; [apply gnew_GWF|]. apply (gtrace_path g o IH), Hi. Qed.

  (** ** The states the crash points of CrashModel leave are among them *)
  Lemma reinsert_c_traced c upd (l : list entry) : forall g f, WF g -> WF l -> (forall p, covered l p -> ~ covered g p) ->
    In (fst (reinsert_c c upd l g f)) (reinsert_t upd l g).
  Proof.
    induction l as [|[k u] l IH]; intros g f W Wl Hn; cbn [reinsert_c reinsert_t]; [left; reflexivity|].
    destruct (if c then user_call f else Some f) as [f1|]; [right|left; reflexivity].
    apply WF_cons in Wl. destruct Wl as (Vk & Wl & Hl). unfold elo, ehi in Vk. cbn in Vk. apply valid_rk in Vk.
    assert (Hk : forall p, covers k p -> ~ covered g p).
    { intros p Hp. apply Hn. exists k, u. split; [left; reflexivity|exact Hp]. }
    destruct (reinsert_one_WF g k (upd u) W Vk Hk) as (g1 & r & E & W1 & M1).
    pose proof (step_c_traced (ins k (upd u)) g f1 W) as T. cbn [step_c] in T. apply in_app_iff.
    destruct (insert_merge_touching_if_values_equal_c bset_eqb k (upd u) g f1) as [g2 [[r2 f2]|]] eqn:Ec; [|left; exact T].
    apply merge_if_equal_c_val in Ec. rewrite E in *. injection Ec as <- <-. right. apply IH; [exact W1|exact Wl|].
    intros p Hp Hg. apply covered_maps_to in Hg. destruct Hg as (s' & Hg). apply M1 in Hg. destruct Hg as [Hg|[Hg _]].
    - apply (Hn p); [|eapply maps_to_covered; exact Hg]. destruct Hp as (k' & v' & Hi & Hc). exists k', v'. split; [right; exact Hi|exact Hc].
    - destruct Hp as (k' & v' & Hi & Hc). rewrite Forall_forall in Hl. specialize (Hl _ Hi).
      apply covers_rk in Hc. apply covers_rk in Hg. unfold elo, ehi in Hl. cbn in Hl. lia.
  Qed.
  Lemma cut_update_c_traced c upd {Q} {IQ : InclusiveInterval I Q} (q : Q) g f : WF g -> valid q ->
    In (fst (cut_update_c c upd q g f)) (cut_update_t upd q g).
  Proof.
    intros W Vq. unfold cut_update_c, cut_update_t. apply in_app_iff. pose proof (cut_c_traced q g f) as T.
    destruct (cut_c q g f) as [g1 [[l f1]|]] eqn:E; [|left; exact T]. apply cut_c_val in E. rewrite E. right.
    destruct (cut_full g q W Vq) as (g1' & l' & E' & W1 & Wl & Hl & _ & M1). rewrite E in E'. injection E' as <- <-.
    apply reinsert_c_traced; [exact W1|exact Wl|]. intros p Hp Hg. apply covered_maps_to in Hg. destruct Hg as (s2 & Hg).
    apply M1 in Hg. destruct Hp as (k & v & Hi & Hc). apply Hl in Hi. destruct Hi as (_ & k0 & _ & _ & Hp). apply Hp in Hc. tauto.
  Qed.
  Lemma insert_c_traced u k g f : WF g -> In (fst (gqdit_insert_c u k g f)) (gqdit_insert_t u k g).
  Proof.
    intros W. unfold gqdit_insert_c, gqdit_insert_t.
    destruct (valid_dec k) as [V|N]; [rewrite (iip_valid _ V)|rewrite (iip_invalid _ N); left; reflexivity].
    destruct (bset_is_empty u); [left; reflexivity|]. right. apply cut_update_c_traced; assumption.
  Qed.
  Lemma append_loop_c_traced (l : list entry) : forall g f, WF g -> In (fst (append_loop_c l g f)) (append_loop_t l g).
  Proof.
    induction l as [|[k u] l IH]; intros g f W; cbn [append_loop_c append_loop_t]; [left; reflexivity|]. right.
    apply in_app_iff. pose proof (insert_c_traced u k g f W) as T.
    destruct (gqdit_insert_c u k g f) as [g1 [f1|]] eqn:E; [|left; exact T].
    pose proof (insert_c_any u k g f W) as [W1 _]. rewrite E in W1. cbn [fst] in W1.
    apply insert_c_val in E. rewrite E. right. apply IH, W1.
  Qed.
  Lemma gstep_c_traced g (o : gop I K D) f : WF g -> In (gstep_c g o f) (gtrace g o).
  Proof.
    intros W. destruct o as [l k|l Q IQ q|Q IQ q|os]; cbn [gtrace gstep_c].
    - apply insert_c_traced, W.
    - unfold cut_with_identifiers_c, cut_with_identifiers_t.
      destruct (valid_dec q) as [V|N]; [rewrite (iip_valid _ V)|rewrite (iip_invalid _ N); left; reflexivity].
      destruct (bset_is_empty (collect l)); [left; reflexivity|]. right. apply cut_update_c_traced; assumption.
    - unfold cut_all_identifiers_c, cut_all_identifiers_t.
      destruct (valid_dec q) as [V|N]; [rewrite (iip_valid _ V)|rewrite (iip_invalid _ N); left; reflexivity].
      right. apply cut_update_c_traced; assumption.
    - unfold append_c, append_t. destruct uu as [x|]; [|left; reflexivity].
      destruct (remove_overlapping x (grun os)) as [g2 [l|]]; [|left; reflexivity]. right. apply append_loop_c_traced, W.
  Qed.
End Gqdit.
