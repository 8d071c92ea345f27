(** * EffectGqditFacts: facts behind C160, user code of any kind. *)
From Coq Require Import List Bool Permutation Lia.
From Verif Require Import Base BTree UtilsModel IntervalModel NoditModel GqditModel GqditOps Spec TreeShape TreeFacts EffectModel EffectOps EffectFacts EffectGqditModel EffectGqditOps.
Import ListNotations.

Lemma within_part {A} (a x b : list A) : within x (a ++ x ++ b).
Proof.
  induction a as [|e a IH]; cbn; [|constructor; exact IH]. induction x as [|e x IH]; cbn; [|constructor; exact IH]. induction b; constructor; assumption.
Qed.
Lemma Forall2_len {A B} (R : A -> B -> Prop) l l' : Forall2 R l l' -> length l = length l'.
Proof. intros F. induction F; cbn; congruence. Qed.

Section Sets.
  Context {W D : Type} (J : id_code W D) (shape : W -> list D -> tree D unit) (SF : faithful_sets shape).
  Implicit Types s : list D.
  Lemma map_fst_unit s : map fst (map (fun d => (d, tt)) s) = s.
  Proof. induction s; cbn; congruence. Qed.
  Lemma set_search_any d s w a x b w' : set_search_e J shape d s w = (Val (a, x, b), w') -> s = map fst a ++ map fst (olist x) ++ map fst b.
  Proof. intros E. apply (proj1 (e_search_place _)) in E. rewrite SF in E. rewrite <- !map_app, <- E. symmetry. apply map_fst_unit. Qed.
  Lemma set_insert_any d s w s' w' : set_insert_e J shape d s w = (Val s', w') -> s' = s \/ exists a b, s = a ++ b /\ s' = a ++ d :: b.
  Proof.
    intros E. apply ubind_inv in E. destruct E as ([[a x] b] & w1 & X & E). apply set_search_any in X. destruct x as [e|]; injection E as <- <-; [auto|].
    right. exists (map fst a), (map fst b). auto.
  Qed.
  Lemma within_put {A} (a b : list A) d : within (a ++ b) (a ++ d :: b).
  Proof. exact (within_middle a [d] b). Qed.
  Lemma set_extend_any other : forall s w s' w', set_extend_e J shape s other w = (Val s', w') ->
    within s s' /\ length s' <= length s + length other /\ forall d, In d s' -> In d s \/ In d other.
  Proof.
    induction other as [|d other IH]; intros s w s' w' E; cbn [set_extend_e] in E; cbn [length].
    - injection E as <- <-. split; [apply within_refl|]. split; [lia|auto].
    - apply ubind_inv in E. destruct E as (s1 & w1 & X & E). apply IH in E. destruct E as (E1 & E2 & E3). apply set_insert_any in X. destruct X as [->|(a & b & -> & ->)].
      + split; [exact E1|]. split; [lia|]. intros x Hx. apply E3 in Hx. cbn. tauto.
      + split; [exact (within_trans _ _ _ (within_put a b d) E1)|]. rewrite app_length in *. cbn in E2. split; [lia|]. intros x Hx. apply E3 in Hx. cbn. rewrite !in_app_iff in *. cbn in Hx. tauto.
  Qed.
  Lemma set_clone_any s : forall w s' w', set_clone_e J s w = (Val s', w') -> set_clone_of J s s'.
  Proof.
    induction s as [|d s IH]; intros w s' w' E; cbn [set_clone_e] in E; [injection E as <- <-; constructor|].
    apply ubind_inv in E. destruct E as (d' & w1 & X & E). apply ubind_inv in E. destruct E as (s1 & w2 & Y & E). injection E as <- <-.
    constructor; [exists w, w1; exact X|exact (IH _ _ _ Y)].
  Qed.
  Lemma set_remove_any ids s : forall w s' w', set_remove_e J shape ids s w = (Val s', w') -> within s' s.
  Proof.
    induction s as [|d s IH]; intros w s' w' E; cbn [set_remove_e] in E; [injection E as <- <-; constructor|].
    apply ubind_inv in E. destruct E as (b & w1 & _ & E). apply ubind_inv in E. destruct E as (s1 & w2 & Y & E). injection E as <- <-. apply IH in Y.
    destruct b; constructor; exact Y.
  Qed.
  Lemma set_clone_in s s' d : set_clone_of J s s' -> In d s' -> exists d', In d' s /\ id_clone_of J d' d.
  Proof.
    intros F. induction F as [|x y l l' X F IH]; cbn; [tauto|]. intros [<-|Hd]; [exists x; auto|]. destruct (IH Hd) as (d' & Hd' & Y). eauto.
  Qed.
  Lemma extend_cloned_any ids s w s' w' : extend_cloned_e J shape ids s w = (Val s', w') -> extended J ids s s'.
  Proof.
    intros E. apply ubind_inv in E. destruct E as (c & w1 & X & E). apply set_clone_any in X. apply set_extend_any in E. destruct E as (E1 & E2 & E3).
    split; [exact E1|]. split; [rewrite (Forall2_len _ _ _ X); exact E2|]. intros d Hd. destruct (E3 d Hd) as [|Hc]; [auto|]. right. exact (set_clone_in _ _ _ X Hc).
  Qed.
  Lemma within_in {A} (l l' : list A) x : within l l' -> In x l -> In x l'.
  Proof. intros X. induction X; cbn in *; intuition. Qed.
  Lemma id_descends_trans a b c : id_descends J a b -> id_descends J b c -> id_descends J a c.
  Proof. intros X Y. induction Y as [|u u' Y IH Z]; [exact X|]. econstructor; eauto. Qed.
  Lemma id_descends_clone a b : id_clone_of J a b -> id_descends J a b.
  Proof. intros X. econstructor; [constructor|exact X]. Qed.
End Sets.

Section Maps.
  Context {W I K D : Type} `{DiscreteFinite I} (P : point_code W I) (ik : interval_code W I K) (from : Interval I -> user W K).
  Context (J : id_code W D) (shape : W -> list D -> tree D unit) (SF : faithful_sets shape) (overlaps_k : K -> K -> user W bool).
  Implicit Types (g : Gqdit K D) (s : list D).
  Notation code := (set_code (K := K) (I := I) from J).
  Notation values := (map (@snd K (list D))).
  Lemma clone_of_set s s' : clone_of code s s' -> set_clone_of J s s'.
  Proof. intros (w & w' & X). exact (set_clone_any J s _ _ _ X). Qed.
  Lemma in_values g s : In s (values g) <-> exists k, In (k, s) g.
  Proof.
    rewrite in_map_iff. split; [intros ([k s'] & E & X); cbn in E; subst; eauto|intros (k & X); exists (k, s); auto].
  Qed.
  Lemma cut_sets {Q} (iq : interval_code W I Q) k_overlaps q t w g' o w' : cut_e P ik code iq k_overlaps q t w = ((g', o), w') ->
    (forall s, In s (values g') -> exists old, In old (values (entries t)) /\ (s = old \/ set_clone_of J old s)) /\
    match o with Val l => forall s, In s (values l) -> In s (values (entries t)) | Panic => True end.
  Proof.
    intros E. apply cut_any in E. destruct E as (a & gone & pieces & b & -> & -> & F & X). split.
    - intros s Hs. apply pieces_clones in F. rewrite Forall_forall in F. rewrite !map_app, !in_app_iff in *. destruct Hs as [Hs|[Hs|Hs]].
      + exists s. rewrite !in_app_iff. auto.
      + destruct (F s Hs) as (v & Hv & Y). exists v. rewrite !in_app_iff. split; [auto|]. right. exact (clone_of_set _ _ Y).
      + exists s. rewrite !in_app_iff. auto.
    - destruct o as [l|]; [|exact X]. intros s Hs. rewrite X in Hs. rewrite !map_app, !in_app_iff. auto.
  Qed.
  Lemma insert_sets T k v g w g' o w' : faithful T -> insert_merge_touching_if_values_equal_e P ik code overlaps_k T k v g w = ((g', o), w') ->
    forall s, In s (values g') -> In s (values g) \/ s = v.
  Proof.
    intros TF E. assert (E' : ecall_do code P ik overlaps_k T (EEqual k v) g w = (g', refused o, w')) by (cbn [ecall_do]; unfold handing; rewrite E; reflexivity).
    apply call_perm in E'; [|exact TF]. destruct E' as (cl & d & X & _ & N). rewrite (N eq_refl), app_nil_r in X. intros s Hs.
    assert (Y : In s (values g ++ given (EEqual k v))) by (eapply Permutation_in; [symmetry; exact X|]; rewrite in_app_iff; auto).
    rewrite in_app_iff in Y. cbn in Y. intuition.
  Qed.
  Definition updated (update : list D -> user W (list D)) (old s : list D) : Prop := exists w w', update old w = (Val s, w').
  Lemma reinsert_sets T update l : (forall i, faithful (T i)) -> forall g w g' o w', reinsert_e P ik from J overlaps_k T update l g w = ((g', o), w') ->
    forall s, In s (values g') -> In s (values g) \/ exists old, In old (values l) /\ updated update old s.
  Proof.
    intros TF. induction l as [|[k ids] l IH]; intros g w g' o w' E s Hs; cbn [reinsert_e] in E; [injection E as <- <- <-; auto|].
    apply mbind_inv in E. destruct E as [[-> ->]|(ids' & w1 & U & E)]; [auto|].
    apply mthen_inv in E. destruct E as [[E ->]|(g1 & r & w2 & X & E)].
    - destruct (insert_sets _ _ _ _ _ _ _ _ (TF _) E s Hs) as [ | -> ]; [auto|]. right. exists ids. split; [left; reflexivity|]. exists w, w1. exact U.
    - assert (Z : In s (values g1) -> In s (values g) \/ (exists old, In old (values ((k, ids) :: l)) /\ updated update old s)).
      { intros Y. destruct (insert_sets _ _ _ _ _ _ _ _ (TF _) X s Y) as [ | -> ]; [auto|]. right. exists ids. split; [left; reflexivity|]. exists w, w1. exact U. }
      destruct r as [r|e]; [|injection E as <- <- <-; auto]. destruct (IH _ _ _ _ _ E s Hs) as [Y|(old & Y & U')]; [auto|]. right. exists old. split; [right; exact Y|exact U'].
  Qed.
  Lemma cut_update_sets {Q} (iq : interval_code W I Q) k_overlaps T update q g w g' o w' : (forall i, faithful (T i)) ->
    cut_update_e P ik from J overlaps_k iq k_overlaps T update q g w = ((g', o), w') ->
    forall s, In s (values g') -> set_from J g (updated update) s.
  Proof.
    intros TF E s Hs.
    assert (Z : forall old, In old (values g) -> s = old \/ set_clone_of J old s \/ updated update old s -> set_from J g (updated update) s).
    { intros old Hi X. apply in_values in Hi. destruct Hi as (k & Hi). exists k, old. auto. }
    apply mthen_inv in E. destruct E as [[E ->]|(g1 & l & w1 & X & E)].
    - apply cut_sets in E. rewrite (TF 0 0 g) in E. destruct E as [E _]. destruct (E s Hs) as (old & Hi & Y). apply (Z old Hi). tauto.
    - apply cut_sets in X. rewrite (TF 0 0 g) in X. destruct X as [X1 X2]. destruct (reinsert_sets _ _ _ TF _ _ _ _ _ E s Hs) as [Y|(old & Y & U)].
      + destruct (X1 s Y) as (old & Hi & Y'). apply (Z old Hi). tauto.
      + apply (Z old (X2 old Y)). auto.
  Qed.
  Lemma set_from_impl g (c c' : list D -> list D -> Prop) s : (forall a b, c a b -> c' a b) -> set_from J g c s -> set_from J g c' s.
  Proof. intros X (k & old & Hi & Y). exists k, old. split; [exact Hi|]. destruct Y as [Y|[Y|Y]]; auto. Qed.
  Lemma set_from_self g c k s : In (k, s) g -> set_from J g c s.
  Proof. intros Hi. exists k, s. auto. Qed.
  Section Q.
    Context {Q : Type} (iq : interval_code W I Q) (k_overlaps : K -> Q -> user W bool).
    Lemma cut_with_any T ids q g w g' o w' : (forall i, faithful (T i)) -> cut_with_identifiers_e P ik from J shape overlaps_k iq k_overlaps T ids q g w = ((g', o), w') ->
      forall k s, In (k, s) g' -> set_from J g (fun old s => within s old) s.
    Proof.
      intros TF E k s Hs. apply mbind_inv in E. destruct E as [[-> ->]|(? & w1 & _ & E)]; [exact (set_from_self _ _ _ _ Hs)|].
      destruct (bset_is_empty ids); [injection E as <- <- <-; exact (set_from_self _ _ _ _ Hs)|].
      eapply set_from_impl; [|eapply cut_update_sets; [exact TF|exact E|apply in_values; eauto]]. intros a b (v & v' & X). exact (set_remove_any J shape _ _ _ _ _ X).
    Qed.
    Lemma cut_all_any T q g w g' o w' : (forall i, faithful (T i)) -> cut_all_identifiers_e P ik from J overlaps_k iq k_overlaps T q g w = ((g', o), w') ->
      forall k s, In (k, s) g' -> set_from J g (fun _ s => s = []) s.
    Proof.
      intros TF E k s Hs. apply mbind_inv in E. destruct E as [[-> ->]|(? & w1 & _ & E)]; [exact (set_from_self _ _ _ _ Hs)|].
      eapply set_from_impl; [|eapply cut_update_sets; [exact TF|exact E|apply in_values; eauto]]. intros a b (v & v' & X). injection X as <- _. reflexivity.
    Qed.
  End Q.
  Lemma gqdit_insert_any T ids q g w g' o w' : (forall i, faithful (T i)) -> gqdit_insert_e P ik from J shape overlaps_k T ids q g w = ((g', o), w') ->
    forall k s, In (k, s) g' -> set_from J g (extended J ids) s.
  Proof.
    intros TF E k s Hs. apply mbind_inv in E. destruct E as [[-> ->]|(? & w1 & _ & E)]; [exact (set_from_self _ _ _ _ Hs)|].
    destruct (bset_is_empty ids); [injection E as <- <- <-; exact (set_from_self _ _ _ _ Hs)|].
    eapply set_from_impl; [|eapply cut_update_sets; [exact TF|exact E|apply in_values; eauto]]. intros a b (v & v' & X). exact (extend_cloned_any J shape SF _ _ _ _ _ X).
  Qed.

  (** *** No identifier is invented *)
  Definition from_ids (l : list D) g : Prop := forall k s d, In (k, s) g -> In d s -> exists d', In d' l /\ id_descends J d' d.
  Lemma from_ids_incl l l' g : incl l l' -> from_ids l g -> from_ids l' g.
  Proof. intros X Y k s d Hi Hd. destruct (Y k s d Hi Hd) as (d' & Hd' & Z). eauto. Qed.
  Lemma set_from_ids l g (c : list D -> list D -> Prop) g' : from_ids l g ->
    (forall a b d, c a b -> In d b -> In d a \/ exists d', In d' l /\ id_descends J d' d) ->
    (forall k s, In (k, s) g' -> set_from J g c s) -> from_ids l g'.
  Proof.
    intros F C X k s d Hi Hd. destruct (X k s Hi) as (k0 & old & Ho & [->|[Y|Y]]); [exact (F _ _ _ Ho Hd)| |].
    - destruct (set_clone_in J _ _ _ Y Hd) as (d' & Hd' & Z). destruct (F _ _ _ Ho Hd') as (d0 & H0 & Z0). exists d0. split; [exact H0|]. econstructor; [exact Z0|exact Z].
    - destruct (C _ _ _ Y Hd) as [Hd'|]; [exact (F _ _ _ Ho Hd')|assumption].
  Qed.
  Lemma cut_with_ids {Q} (iq : interval_code W I Q) k_overlaps T ids q l g w g' o w' : (forall i, faithful (T i)) -> from_ids l g ->
    cut_with_identifiers_e P ik from J shape overlaps_k iq k_overlaps T ids q g w = ((g', o), w') -> from_ids l g'.
  Proof. intros TF F E. eapply set_from_ids; [exact F| |exact (cut_with_any _ _ _ _ _ _ _ _ _ _ TF E)]. cbn. intros a b d X Hd. left. exact (within_in _ _ _ X Hd). Qed.
  Lemma cut_all_ids {Q} (iq : interval_code W I Q) k_overlaps T q l g w g' o w' : (forall i, faithful (T i)) -> from_ids l g ->
    cut_all_identifiers_e P ik from J overlaps_k iq k_overlaps T q g w = ((g', o), w') -> from_ids l g'.
  Proof. intros TF F E. eapply set_from_ids; [exact F| |exact (cut_all_any _ _ _ _ _ _ _ _ _ TF E)]. cbn. intros a b d -> []. Qed.
  Lemma gqdit_insert_ids T ids q l g w g' o w' : (forall i, faithful (T i)) -> from_ids l g -> (forall d, In d ids -> exists d', In d' l /\ id_descends J d' d) ->
    gqdit_insert_e P ik from J shape overlaps_k T ids q g w = ((g', o), w') -> from_ids l g'.
  Proof.
    intros TF F Fi E. eapply set_from_ids; [exact F| |exact (gqdit_insert_any _ _ _ _ _ _ _ _ TF E)]. intros a b d (_ & _ & X) Hd.
    destruct (X d Hd) as [|(d' & Hd' & Y)]; [auto|]. right. destruct (Fi d' Hd') as (d0 & H0 & Z). exists d0. split; [exact H0|]. econstructor; [exact Z|exact Y].
  Qed.
  Lemma append_loop_ids T out l : (forall j i, faithful (T j i)) -> (forall k s d, In (k, s) out -> In d s -> exists d', In d' l /\ id_descends J d' d) ->
    forall g w g' o w', from_ids l g -> append_loop_e P ik from J shape overlaps_k T out g w = ((g', o), w') -> from_ids l g'.
  Proof.
    intros TF. induction out as [|[k ids] out IH]; intros Fo g w g' o w' F E; cbn [append_loop_e] in E; [injection E as <- <- <-; exact F|].
    assert (Fi : forall d, In d ids -> exists d', In d' l /\ id_descends J d' d) by (intros d; apply (Fo k ids); left; reflexivity).
    apply mthen_inv in E. destruct E as [[E ->]|(g1 & r & w1 & X & E)].
    - exact (gqdit_insert_ids _ _ _ _ _ _ _ _ _ (TF _) F Fi E).
    - eapply IH; [|exact (gqdit_insert_ids _ _ _ _ _ _ _ _ _ (TF _) F Fi X)|exact E]. intros k0 s0 d0 Hi. apply (Fo k0 s0 d0). right. exact Hi.
  Qed.
  Lemma append_any i_overlaps To T g other w g' other' o w' : (forall m, entries (To m) = m) -> append_e P ik from J shape overlaps_k i_overlaps To T g other w = ((g', other', o), w') ->
    (g' = g /\ exists a out b, other = a ++ out ++ b /\ other' = a ++ b) \/
    exists a out b w1, other = a ++ out ++ b /\ other' = a ++ b /\ append_loop_e P ik from J shape overlaps_k T out g w1 = ((g', o), w').
  Proof.
    intros TF E. unfold append_e in E. destruct (ii_e P MIN MAX w) as [[u|] w1]; [|injection E as <- <- <- <-; left; split; [reflexivity|]; exists [], [], other; auto].
    destruct (remove_overlapping_e P ik _ i_overlaps u (To other) w1) as [[other1 [l|]] w2] eqn:X; apply remove_any in X; rewrite TF in X; destruct X as (a & out & b & -> & -> & Y).
    - subst l. destruct (append_loop_e P ik from J shape overlaps_k T out g w2) as [[g1 o1] w3] eqn:Z. injection E as <- <- <- <-. right. exists a, out, b, w2. auto.
    - injection E as <- <- <- <-. left. split; [reflexivity|]. exists a, out, b. auto.
  Qed.
  Lemma append_ids i_overlaps To T l g other w g' other' o w' : (forall m, entries (To m) = m) -> (forall j i, faithful (T j i)) -> from_ids l g -> from_ids l other ->
    append_e P ik from J shape overlaps_k i_overlaps To T g other w = ((g', other', o), w') -> from_ids l g' /\ from_ids l other'.
  Proof.
    intros TF TF' F Fo E. apply append_any in E; [|exact TF].
    assert (Z : forall a out b : Gqdit K D, other = a ++ out ++ b -> from_ids l (a ++ b) /\ from_ids l out).
    { intros a out b ->. split; intros k s d Hi; apply (Fo k s d); rewrite !in_app_iff in *; tauto. }
    destruct E as [(-> & a & out & b & Ea & ->)|(a & out & b & w1 & Ea & -> & E)]; destruct (Z a out b Ea) as [Z1 Z2]; [auto|].
    split; [|exact Z1]. exact (append_loop_ids _ _ _ TF' Z2 _ _ _ _ _ F E).
  Qed.
  Lemma gqdit_new_any T w g w' : (forall i, faithful (T i)) -> gqdit_new_e P ik from T w = (Val g, w') -> exists k, g = [(k, [])].
  Proof.
    intros TF E. apply ubind_inv in E. destruct E as (u & w1 & _ & E). apply ubind_inv in E. destruct E as (k & w2 & _ & E).
    destruct (insert_strict_e P ik (T 0) k [] new w2) as [[m [[x|v]|]] w3] eqn:X; try discriminate. injection E as <- <-.
    apply insert_any in X; [|apply TF]. destruct X as (a & b & [[X ->]|(k' & old & X & ->)]).
    - destruct a; [destruct b; [exists k; reflexivity|discriminate]|discriminate].
    - destruct a; discriminate.
  Qed.

  (** *** Histories *)
  Context (i_overlaps : Interval I -> K -> user W bool) (T : list nat -> nat -> BTreeMap K (list D) -> tree K (list D)) (TF : forall path, faithful (T path)).
  Notation gdo := (gcall_do P ik from J shape overlaps_k i_overlaps T).
  Notation gdos := (gcalls_do P ik from J shape overlaps_k i_overlaps T).
  Lemma gcall_do_append path cs g w : gdo path (CallAppend cs) g w =
    match gqdit_new_e P ik from (fun i => T (0 :: i :: path)) w with
    | (Panic, w) => (g, w)
    | (Val other, w) =>
        let '(other, w) := gdos cs (1 :: path) other w in
        let '((g, _, _), w) := append_e P ik from J shape overlaps_k i_overlaps (T (2 :: path) 0) (fun j i => T (j :: i :: 3 :: path)) g other w in (g, w)
    end.
  Proof. reflexivity. Qed.
  Lemma gcall_ids c : forall l path g w g' w', from_ids l g -> incl (ids_given c) l -> gdo path c g w = (g', w') -> from_ids l g'.
  Proof.
    revert c. fix IH 1. intros c l path g w g' w' F Li E. destruct c as [ids k|ids q|q|cs].
    - cbn [gcall_do] in E. destruct (gqdit_insert_e _ _ _ _ _ _ _ ids k g w) as [[g1 o] w1] eqn:X. injection E as <- <-.
      eapply gqdit_insert_ids; [| |  |exact X]; [intros i; apply TF|exact F|]. intros d Hd. exists d. split; [exact (Li d Hd)|constructor].
    - cbn [gcall_do] in E. destruct (cut_with_identifiers_e _ _ _ _ _ _ _ _ _ ids q g w) as [[g1 o] w1] eqn:X. injection E as <- <-.
      eapply cut_with_ids; [| |exact X]; [intros i; apply TF|exact F].
    - cbn [gcall_do] in E. destruct (cut_all_identifiers_e _ _ _ _ _ _ _ _ q g w) as [[g1 o] w1] eqn:X. injection E as <- <-.
      eapply cut_all_ids; [| |exact X]; [intros i; apply TF|exact F].
    - rewrite gcall_do_append in E. destruct (gqdit_new_e _ _ _ _ w) as [[other|] w1] eqn:N; [|injection E as <- <-; exact F].
      apply gqdit_new_any in N; [|intros i; apply TF]. destruct N as (k & ->).
      assert (Fo : from_ids l [(k, [])]) by (intros k0 s d [X|[]] Hd; injection X as <- <-; destruct Hd).
      cbn [ids_given] in Li.
      assert (Z : forall path g w g' w', from_ids l g -> gdos cs path g w = (g', w') -> from_ids l g').
      { clear E F Fo. induction cs as [|c cs IHcs]; intros p0 g0 w0 g2 w2 F E; cbn [gcalls_do] in E; [injection E as <- <-; exact F|].
        destruct (gdo (length cs :: p0) c g0 w0) as [g3 w3] eqn:X. cbn [flat_map] in Li. apply incl_app_inv in Li. destruct Li as [L1 L2].
        apply (IH c l) in X; [|exact F|exact L1]. exact (IHcs L2 _ _ _ _ _ X E). }
      destruct (gdos cs (1 :: path) [(k, [])] w1) as [other w2] eqn:X. apply Z in X; [|exact Fo].
      destruct (append_e _ _ _ _ _ _ _ _ _ g other w2) as [[[g1 other1] o] w3] eqn:A. injection E as <- <-.
      eapply (append_ids _ _ _ l) in A; [exact (proj1 A)|intros m; apply TF|intros j i; apply TF|exact F|exact X].
  Qed.
  Lemma gcalls_ids l cs : incl (flat_map ids_given cs) l -> forall path g w g' w', from_ids l g -> gdos cs path g w = (g', w') -> from_ids l g'.
  Proof.
    induction cs as [|c cs IH]; intros Li path g w g' w' F E; cbn [gcalls_do] in E; [injection E as <- <-; exact F|].
    destruct (gdo (length cs :: path) c g w) as [g1 w1] eqn:X. cbn [flat_map] in Li. apply incl_app_inv in Li. destruct Li as [L1 L2].
    apply (gcall_ids c l) in X; [|exact F|exact L1]. exact (IH L2 _ _ _ _ _ X E).
  Qed.
  Lemma ghistory_ids cs w g w' : ghistory P ik from J shape overlaps_k i_overlaps T cs w = (Val g, w') -> from_ids (flat_map ids_given cs) g.
  Proof.
    intros E. unfold ghistory in E. destruct (gqdit_new_e _ _ _ _ w) as [[g0|] w1] eqn:N; [|discriminate]. apply gqdit_new_any in N; [|intros i; apply TF]. destruct N as (k & ->).
    destruct (gdos cs [] [(k, [])] w1) as [g1 w2] eqn:X. injection E as <- <-. apply (gcalls_ids (flat_map ids_given cs)) in X; [exact X|apply incl_refl|].
    intros k0 s d [Y|[]] Hd. injection Y as <- <-. destruct Hd.
  Qed.

  (** *** Queries *)
  Lemma at_point_any (t : tree K (list D)) p w s w' : identifiers_at_point_e P ik from J t p w = (Val s, w') ->
    s = [] \/ exists k old, In (k, old) (entries t) /\ set_clone_of J old s.
  Proof.
    intros E. apply ubind_inv in E. destruct E as (r & w1 & X & E). apply ubind_inv in X. destruct X as (x & w2 & X & Y). destruct x as [[k old]|].
    - injection Y as <- <-. apply e_get_stored in X. right. exists k, old. split; [exact X|exact (set_clone_any J _ _ _ _ E)].
    - apply ubind_inv in Y. destruct Y as (gap & w3 & _ & Y). apply ubind_inv in Y. destruct Y as (k & w4 & _ & Y). injection Y as <- <-. injection E as <- <-. auto.
  Qed.
  Lemma gaps_no_any {Q} (iq : interval_code W I Q) (t : tree K (list D)) q w l w' : gaps_no_identifier_e P ik iq t q w = (Val l, w') ->
    within l (map fst (filter (fun kv => bset_is_empty (snd kv)) (entries t))).
  Proof.
    intros E. apply ubind_inv in E. destruct E as (? & w1 & _ & E). apply ubind_inv in E. destruct E as (o & w2 & X & E). injection E as <- <-.
    apply overlapping_e_part in X. destruct X as (a & b & ->). rewrite !filter_app, !map_app. apply within_part.
  Qed.
End Maps.
