(** * NearFacts: the nearest entries by lookups of points (the proofs of C174). *)
From Coq Require Import List ZArith Bool Lia.
From Verif Require Import Base BTree UtilsModel IntervalModel NoditModel NoditOps NearOps Spec
  PointFacts IntervalFacts ListFacts NoditFacts NoditInv NoditQueries.
Import ListNotations.
Open Scope Z_scope.

Lemma filter_all {A} (f : A -> bool) l : (forall x, In x l -> f x = true) -> filter f l = l.
Proof. induction l as [|a l IH]; intros H; [reflexivity|]. cbn [filter]. rewrite (H a (or_introl eq_refl)). f_equal. apply IH. intros x Hx. apply H. right. exact Hx. Qed.
Lemma filter_none {A} (f : A -> bool) l : (forall x, In x l -> f x = false) -> filter f l = [].
Proof. induction l as [|a l IH]; intros H; [reflexivity|]. cbn [filter]. rewrite (H a (or_introl eq_refl)). apply IH. intros x Hx. apply H. right. exact Hx. Qed.

Section Facts.
  Context {I : Type} `{PL : PointLaws I}.
  Context {K : Type} {IK : InclusiveInterval I K} {IL : IntervalLaws I K}.
  Context {V : Type}.
  Implicit Types (m : NoditMap K V).

  Lemma entries_order m e e' : WF m -> In e m -> In e' m -> e = e' \/ hi (fst e) < lo (fst e') \/ hi (fst e') < lo (fst e).
  Proof.
    intros W H1 H2. destruct (in_split _ _ H1) as (L & R & ->). apply WF_app in W. destruct W as (_ & W & WL). apply WF_cons in W. destruct W as (_ & _ & WR).
    apply in_app_iff in H2. destruct H2 as [H2|[H2|H2]]; [|left; exact H2|].
    - right. right. exact (WL _ e H2 (or_introl eq_refl)).
    - right. left. rewrite Forall_forall in WR. exact (WR _ H2).
  Qed.
  Lemma entry_valid m e : WF m -> In e m -> lo (fst e) <= hi (fst e).
  Proof. intros W Hi. exact (WF_okv _ _ W Hi). Qed.
  (** What is next to a maximal gap. *)
  Lemma gap_apart m (g : K) : max_run (fun x => ~ covered m x) g -> WF m -> forall e, In e m -> hi (fst e) < lo g \/ hi g < lo (fst e).
  Proof.
    intros (Vg & U & _) W e He. apply valid_rk in Vg. pose proof (entry_valid m e W He) as Ve.
    destruct (Z.lt_ge_cases (hi (fst e)) (lo g)) as [|A]; [auto|]. destruct (Z.lt_ge_cases (hi g) (lo (fst e))) as [|B]; [auto|]. exfalso.
    assert (O : overlap (fst e) g) by (apply overlap_rk; lia). destruct O as (p & P1 & P2). apply (U p P2). exists (fst e), (snd e). rewrite <- surjective_pairing. auto.
  Qed.
  Lemma covered_dec m p : WF m -> covered m p \/ ~ covered m p.
  Proof. intros W. destruct (get_at_point_cases m p W) as [(v & M & _)|(N & _)]; [left; eapply maps_to_covered, M|right; exact N]. Qed.
  Lemma covered_rank m p q : rk p = rk q -> covered m p -> covered m q.
  Proof. intros E (k & v & Hi & Hc). exists k, v. split; [exact Hi|]. apply covers_rk. apply covers_rk in Hc. lia. Qed.
  Lemma after_gap m (g : K) q : max_run (fun x => ~ covered m x) g -> WF m -> rk q = hi g + 1 -> covered m q.
  Proof.
    intros (Vg & U & M) W E. destruct (covered_dec m q W) as [|N]; [assumption|]. exfalso. apply valid_rk in Vg.
    assert (C : covers g q). { apply (M (mkInterval (istart g) q)).
      - intros p Hp. apply covers_rk in Hp. unfold lo, hi in Hp. cbn in Hp. destruct (Z.eq_dec (rk p) (rk q)) as [Eq|Ne]; [intros X; apply N; exact (covered_rank m p q Eq X)|].
        apply U, covers_rk. unfold lo, hi in *. lia.
      - apply overlap_rk. unfold lo, hi in *. cbn. lia.
      - apply covers_rk. unfold lo, hi in *. cbn. lia. }
    apply covers_rk in C. lia.
  Qed.
  Lemma before_gap m (g : K) q : max_run (fun x => ~ covered m x) g -> WF m -> rk q = lo g - 1 -> covered m q.
  Proof.
    intros (Vg & U & M) W E. destruct (covered_dec m q W) as [|N]; [assumption|]. exfalso. apply valid_rk in Vg.
    assert (C : covers g q). { apply (M (mkInterval q (iend g))).
      - intros p Hp. apply covers_rk in Hp. unfold lo, hi in Hp. cbn in Hp. destruct (Z.eq_dec (rk p) (rk q)) as [Eq|Ne]; [intros X; apply N; exact (covered_rank m p q Eq X)|].
        apply U, covers_rk. unfold lo, hi in *. lia.
      - apply overlap_rk. unfold lo, hi in *. cbn. lia.
      - apply covers_rk. unfold lo, hi in *. cbn. lia. }
    apply covers_rk in C. lia.
  Qed.

  Lemma entry_from_spec m p : WF m -> exists o, entry_from m p = Val o /\
    match o with
    | Some e => In e m /\ rk p <= hi (fst e) /\ forall e', In e' m -> e' = e \/ hi (fst e') < rk p \/ hi (fst e) < lo (fst e')
    | None => forall e', In e' m -> hi (fst e') < rk p
    end.
  Proof.
    intros W. unfold entry_from. destruct (covered_dec m p W) as [(k & v & Hi & Hc)|N].
    - rewrite (proj2 (get_key_value_at_point_Ok m p W k v)) by auto. exists (Some (k, v)). split; [reflexivity|]. apply covers_rk in Hc. cbn [fst]. split; [exact Hi|]. split; [lia|].
      intros e' He'. destruct (entries_order m e' (k, v) W He' Hi) as [|[X|X]]; cbn [fst] in *; [auto|right; left; lia|auto].
    - destruct (get_key_value_at_point_Err m p W N) as (g & -> & Cg & M). apply covers_rk in Cg. destruct (up (iend g)) as [q|] eqn:Eu.
      + apply up_rk in Eu. destruct (after_gap m g q M W) as (k & v & Hi & Hc); [exact Eu|]. rewrite (proj2 (get_key_value_at_point_Ok m q W k v)) by auto. exists (Some (k, v)). split; [reflexivity|].
        apply covers_rk in Hc. cbn [fst]. split; [exact Hi|]. fold (hi g) in Eu. split; [lia|]. intros e' He'. destruct (gap_apart m g M W e' He') as [X|X]; [right; left; lia|].
        pose proof (entry_valid m e' W He'). destruct (entries_order m e' (k, v) W He' Hi) as [|[Y|Y]]; cbn [fst] in *; [auto|exfalso; lia|auto].
      + apply up_none_rk in Eu. exists None. split; [reflexivity|]. intros e' He'. destruct (gap_apart m g M W e' He') as [X|X]; [lia|].
        pose proof (entry_valid m e' W He'). pose proof (rk_max (iend (fst e'))). unfold hi in *. lia.
  Qed.
  Lemma entry_until_spec m p : WF m -> exists o, entry_until m p = Val o /\
    match o with
    | Some e => In e m /\ lo (fst e) <= rk p /\ forall e', In e' m -> e' = e \/ rk p < lo (fst e') \/ hi (fst e') < lo (fst e)
    | None => forall e', In e' m -> rk p < lo (fst e')
    end.
  Proof.
    intros W. unfold entry_until. destruct (covered_dec m p W) as [(k & v & Hi & Hc)|N].
    - rewrite (proj2 (get_key_value_at_point_Ok m p W k v)) by auto. exists (Some (k, v)). split; [reflexivity|]. apply covers_rk in Hc. cbn [fst]. split; [exact Hi|]. split; [lia|].
      intros e' He'. destruct (entries_order m e' (k, v) W He' Hi) as [|[X|X]]; cbn [fst] in *; [auto|auto|right; left; lia].
    - destruct (get_key_value_at_point_Err m p W N) as (g & -> & Cg & M). apply covers_rk in Cg. destruct (down (istart g)) as [q|] eqn:Eu.
      + apply down_rk in Eu. destruct (before_gap m g q M W) as (k & v & Hi & Hc); [exact Eu|]. rewrite (proj2 (get_key_value_at_point_Ok m q W k v)) by auto. exists (Some (k, v)). split; [reflexivity|].
        apply covers_rk in Hc. cbn [fst]. split; [exact Hi|]. fold (lo g) in Eu. split; [lia|]. intros e' He'. destruct (gap_apart m g M W e' He') as [X|X]; [|right; left; lia].
        pose proof (entry_valid m e' W He'). destruct (entries_order m e' (k, v) W He' Hi) as [|[Y|Y]]; cbn [fst] in *; [auto|auto|exfalso; lia].
      + apply down_none_rk in Eu. exists None. split; [reflexivity|]. intros e' He'. destruct (gap_apart m g M W e' He') as [X|X]; [|lia].
        pose proof (entry_valid m e' W He'). pose proof (rk_min (istart (fst e'))). unfold lo in *. lia.
  Qed.
  Lemma walk_on_spec (B : list (K * V)) : forall A n p, WF (A ++ B) -> (length B <= n)%nat -> (forall e, In e A -> hi (fst e) < rk p) -> (forall e, In e B -> rk p <= hi (fst e)) ->
    walk_on n (A ++ B) p = Val B.
  Proof.
    induction B as [|b B IH]; intros A n p W L HA HB.
    - destruct n as [|n]; [reflexivity|]. cbn [walk_on]. destruct (entry_from_spec (A ++ []) p W) as ([e|] & -> & X); [|reflexivity]. destruct X as (Hi & Hp & _). rewrite app_nil_r in Hi. specialize (HA e Hi). lia.
    - destruct n as [|n]; [cbn in L; lia|]. cbn [walk_on]. assert (Hb : In b (A ++ b :: B)) by (apply in_app_iff; right; left; reflexivity).
      assert (Later : forall e, In e B -> hi (fst b) < lo (fst e)). { intros e He. apply WF_app in W. destruct W as (_ & W & _). apply WF_cons in W. destruct W as (_ & _ & WR). rewrite Forall_forall in WR. exact (WR _ He). }
      destruct (entry_from_spec (A ++ b :: B) p W) as (o & -> & X). destruct o as [e|]; [|specialize (X b Hb); specialize (HB b (or_introl eq_refl)); lia]. destruct X as (Hi & Hp & Hu).
      assert (e = b) as ->. { destruct (Hu b Hb) as [|[Y|Y]]; [auto|specialize (HB b (or_introl eq_refl)); lia|]. pose proof (entry_valid _ e W Hi) as Ve. pose proof (entry_valid _ b W Hb) as Vb.
        apply in_app_iff in Hi. destruct Hi as [Hi|[Hi|Hi]]; [specialize (HA e Hi); lia|auto|specialize (Later e Hi); lia]. }
      destruct (up (iend (fst b))) as [q|] eqn:Eu.
      + apply up_rk in Eu. fold (hi (fst b)) in Eu. replace (A ++ b :: B) with ((A ++ [b]) ++ B) in * by (rewrite <- app_assoc; reflexivity). rewrite (IH (A ++ [b]) n q W); [reflexivity|cbn in L; lia| |].
        * intros e He. apply in_app_iff in He. destruct He as [He|[<-|[]]]; [|lia]. specialize (HA e He). lia.
        * intros e He. specialize (Later e He). pose proof (entry_valid _ e W ltac:(apply in_app_iff; right; exact He)). lia.
      + apply up_none_rk in Eu. destruct B as [|c B]; [reflexivity|]. specialize (Later c (or_introl eq_refl)). pose proof (rk_max (istart (fst c))). unfold hi, lo in *. lia.
  Qed.
End Facts.
