(** * GqditIds: histories of a Gqdit whose identifiers are only ordered up to
      comparing Equal (C112). *)
From Coq Require Import List Bool Arith Lia Sorting.Sorted.
From Verif Require Import Base BTree UtilsModel IntervalModel NoditModel GqditModel GqditOps GqditTransportOps GqditIdsOps Spec
  PointFacts IntervalFacts ListFacts NoditFacts GqditFacts GqditProofs GqditGaps NoditNatural GqditNatural PropsGqdit.
Import ListNotations.

(** ** [added_like] *)
Section Like.
  Context {I : Type} {OI : Ord I} {DI : DiscreteFinite I}.
  Context {K : Type} {IK : InclusiveInterval I K}.
  Context {D : Type} {OD : Ord D}.

  Lemma added_like_snoc (os : list (gop I K D)) o d p :
    added_like (os ++ [o]) d p <-> adds_like o d p \/ (added_like os d p /\ ~ removes_like o d p).
  Proof.
    split.
    - intros X. inversion X as [os1 o1 os2 d1 p1 A F E]. subst d1 p1. destruct (snoc_cases os2) as [->|(os2' & o2 & ->)].
      + apply app_inj_tail in E. destruct E as [_ <-]. left. exact A.
      + right. change (os1 ++ o1 :: os2' ++ [o2]) with (os1 ++ (o1 :: os2') ++ [o2]) in E. rewrite app_assoc in E.
        apply app_inj_tail in E. destruct E as [<- <-]. apply Forall_app in F. destruct F as [F1 F2].
        split; [constructor; assumption|]. apply Forall_inv in F2. exact F2.
    - intros [A|[A R]].
      + constructor; [exact A|constructor].
      + inversion A as [os1 o1 os2 d1 p1 A1 F E]. subst d1 p1. subst os. rewrite <- app_assoc. cbn [app]. constructor; [exact A1|].
        apply Forall_app. split; [exact F|]. constructor; [exact R|constructor].
  Qed.
  Lemma added_like_nil d p : ~ added_like ([] : list (gop I K D)) d p.
  Proof. intros X. inversion X as [os1 o os2 d1 p1 A F E]. destruct os1; discriminate E. Qed.

  (** Equal identifiers are the same value: nothing new. *)
  Context {OL : OrdLaws D}.
  Lemma in_like_in (d : D) l : in_like d l <-> In d l.
  Proof.
    split; [intros (d' & Hi & E); apply cmp_eq in E; subst; exact Hi|]. intros Hi. exists d. split; [exact Hi|apply cmp_eq; reflexivity].
  Qed.
  Lemma removes_like_iff (o : gop I K D) d p : removes_like o d p <-> removes o d p.
  Proof. destruct o; cbn; rewrite ?in_like_in; tauto. Qed.
  Lemma added_like_iff_all (os : list (gop I K D)) d p : Forall (fun o => adds_like o d p <-> adds o d p) os ->
    (added_like os d p <-> added os d p).
  Proof.
    induction os as [|o os IH] using rev_ind; intros F.
    - split; intros X; [destruct (added_like_nil _ _ X)|]. inversion X as [os1 o os2 d1 p1 A _ E]. destruct os1; discriminate E.
    - apply Forall_app in F. destruct F as [F1 F2]. apply Forall_inv in F2. rewrite added_like_snoc, added_snoc, F2, (IH F1), removes_like_iff. reflexivity.
  Qed.
  Lemma adds_like_iff d p (o : gop I K D) : adds_like o d p <-> adds o d p.
  Proof.
    induction o as [l k|l Q IQ q|Q IQ q|os IH] using gop_rec'.
    - split; intros X; inversion X; subst; constructor; try assumption; apply in_like_in; assumption.
    - split; intros X; inversion X.
    - split; intros X; inversion X.
    - pose proof (added_like_iff_all os d p IH) as Z. split; intros X; inversion X; subst; constructor; tauto.
  Qed.
  Lemma added_like_iff (os : list (gop I K D)) d p : added_like os d p <-> added os d p.
  Proof. apply added_like_iff_all, Forall_forall. intros o _. apply adds_like_iff. Qed.
End Like.

(** ** Converting identifiers *)
Section Sent.
  Context {I : Type} {OI : Ord I} {DI : DiscreteFinite I}.
  Context {K : Type} {IK : InclusiveInterval I K}.
  Context {D E : Type} {OD : Ord D} {OE : Ord E} (e : D -> E) (Ke : keeps_order e).
  Lemma in_like_e d l : in_like (e d) (map e l) <-> in_like d l.
  Proof.
    unfold in_like. split.
    - intros (d' & Hi & X). apply in_map_iff in Hi. destruct Hi as (y & <- & Hy). exists y. rewrite Ke in X. auto.
    - intros (d' & Hi & X). exists (e d'). split; [apply in_map, Hi|]. rewrite Ke. exact X.
  Qed.
  Lemma removes_like_e (o : gop I K D) d p : removes_like (relabel e o) (e d) p <-> removes_like o d p.
  Proof. destruct o; cbn; rewrite ?in_like_e; reflexivity. Qed.
  Lemma added_like_e_all (os : list (gop I K D)) d p : Forall (fun o => adds_like (relabel e o) (e d) p <-> adds_like o d p) os ->
    (added_like (map (relabel e) os) (e d) p <-> added_like os d p).
  Proof.
    induction os as [|o os IH] using rev_ind; intros F.
    - split; intros X; destruct (added_like_nil _ _ X).
    - apply Forall_app in F. destruct F as [F1 F2]. apply Forall_inv in F2. rewrite map_app. cbn [map].
      rewrite !added_like_snoc, F2, (IH F1), removes_like_e. reflexivity.
  Qed.
  Lemma adds_like_e d p (o : gop I K D) : adds_like (relabel e o) (e d) p <-> adds_like o d p.
  Proof.
    induction o as [l k|l Q IQ q|Q IQ q|os IH] using gop_rec'; cbn [relabel].
    - split; intros X; inversion X; subst; constructor; try assumption; apply in_like_e; assumption.
    - split; intros X; inversion X.
    - split; intros X; inversion X.
    - pose proof (added_like_e_all os d p IH) as Z. split; intros X; inversion X; subst; constructor; tauto.
  Qed.
  Lemma added_like_e (os : list (gop I K D)) d p : added_like (map (relabel e) os) (e d) p <-> added_like os d p.
  Proof. apply added_like_e_all, Forall_forall. intros o _. apply adds_like_e. Qed.
  Lemma is_set_e (s : list D) : is_set (map e s) <-> is_set s.
  Proof.
    unfold is_set. induction s as [|d s IH]; [split; intros _; constructor|]. cbn. split; intros X; apply StronglySorted_inv in X; destruct X as [X1 X2].
    - constructor; [apply IH, X1|]. apply Forall_forall. intros x Hx. rewrite Forall_forall in X2. rewrite <- Ke. apply X2, in_map, Hx.
    - constructor; [apply IH, X1|]. apply Forall_forall. intros x Hx. apply in_map_iff in Hx. destruct Hx as (y & <- & Hy).
      rewrite Forall_forall in X2. rewrite Ke. apply X2, Hy.
  Qed.
  Lemma has_id_e (g : Gqdit K D) p x : has_id (mapv (map e) g : Gqdit K E) p x <-> exists d, x = e d /\ has_id g p d.
  Proof.
    unfold has_id. rewrite (ids_e e). split.
    - intros (s & X & Hx). destruct (identifiers_at_point g p) as [t|]; cbn in X; [|discriminate]. injection X as <-.
      apply in_map_iff in Hx. destruct Hx as (d & <- & Hd). exists d. split; [reflexivity|]. exists t. auto.
    - intros (d & -> & t & X & Hd). rewrite X. exists (map e t). split; [reflexivity|apply in_map, Hd].
  Qed.
  Lemma free_e (g : Gqdit K D) p : free (mapv (map e) g : Gqdit K E) p <-> free g p.
  Proof.
    unfold free. split; intros X d Y.
    - apply (X (e d)). apply has_id_e. exists d. auto.
    - apply has_id_e in Y. destruct Y as (d' & _ & Y). exact (X d' Y).
  Qed.
  Lemma free_but_like_e d (g : Gqdit K D) p : free_but_like (e d) (mapv (map e) g : Gqdit K E) p <-> free_but_like d g p.
  Proof.
    unfold free_but_like. split.
    - intros X d' Y. rewrite <- Ke. apply X, has_id_e. exists d'. auto.
    - intros X x Y. apply has_id_e in Y. destruct Y as (d' & -> & Y). rewrite Ke. apply X, Y.
  Qed.
End Sent.
Lemma free_but_like_iff {I : Type} {OI : Ord I} {DI : DiscreteFinite I} {K : Type} {IK : InclusiveInterval I K}
  {D : Type} {OD : Ord D} {OL : OrdLaws D} d (g : Gqdit K D) p : free_but_like d g p <-> free_but d g p.
Proof. unfold free_but_like, free_but. split; intros X d' Y; apply cmp_eq, (X d' Y). Qed.

(** ** The identifiers of a history can be numbered *)
#[local] Instance Ord_nat : Ord nat := { cmp := Nat.compare }.
#[local] Instance OrdLaws_nat : OrdLaws nat.
Proof.
  split.
  - intros x y. apply Nat.compare_eq_iff.
  - intros x y. apply Nat.compare_antisym.
  - intros x y z X Y. cbn in *. apply Nat.compare_lt_iff in X, Y. apply Nat.compare_lt_iff. lia.
Qed.
Section Number.
  Context {D : Type} {OD : Ord D} {TP : TotalPreorder D} (u : list D).
  Definition part : Type := {d : D | In d u}.
  Definition val (x : part) : D := proj1_sig x.
  Instance Ord_part : Ord part := { cmp := fun x y => cmp (val x) (val y) }.
  Definition place (d : D) : nat := length (filter (fun x => ltb x d) u).
  Definition number (x : part) : nat := place (val x).
  Lemma val_keeps : keeps_order val.
  Proof. intros x y. reflexivity. Qed.

  Lemma filter_le {A} (f h : A -> bool) l : (forall x, In x l -> f x = true -> h x = true) -> length (filter f l) <= length (filter h l).
  Proof.
    induction l as [|x r IH]; intros X; cbn; [lia|]. assert (Y := IH (fun y Hy => X y (or_intror Hy))).
    pose proof (X x (or_introl eq_refl)) as Z. destruct (f x) eqn:E1, (h x) eqn:E2; cbn; try lia; specialize (Z eq_refl); discriminate.
  Qed.
  Lemma filter_lt {A} (f h : A -> bool) l y : (forall x, In x l -> f x = true -> h x = true) -> In y l -> f y = false -> h y = true ->
    length (filter f l) < length (filter h l).
  Proof.
    intros X Hy F H. apply in_split in Hy. destruct Hy as (l1 & l2 & ->). rewrite !filter_app, !app_length. cbn. rewrite F, H. cbn.
    assert (length (filter f l1) <= length (filter h l1)) by (apply filter_le; intros; apply X; [apply in_or_app; left|]; assumption).
    assert (length (filter f l2) <= length (filter h l2)) by (apply filter_le; intros; apply X; [apply in_or_app; right; right|]; assumption).
    lia.
  Qed.
  Lemma ltb_lt (x y : D) : ltb x y = true <-> cmp x y = Lt.
  Proof. unfold ltb. destruct (cmp x y); split; intros; congruence. Qed.
  Lemma lt_le_trans' (x y z : D) : cmp x y = Lt -> cmp y z <> Gt -> cmp x z = Lt.
  Proof.
    intros A B. destruct (cmp x z) eqn:E; [|reflexivity|]; exfalso.
    - apply (cmp_le_trans y z x); [exact B|rewrite (cmp_flip x z), E; discriminate|]. rewrite (cmp_flip x y), A. reflexivity.
    - apply (cmp_le_trans x y z); [rewrite A; discriminate|exact B|exact E].
  Qed.
  Lemma place_lt (x y : D) : In x u -> cmp x y = Lt -> place x < place y.
  Proof.
    intros Hx L. apply (filter_lt _ _ _ x); [|exact Hx| |].
    - intros z _ Z. apply ltb_lt in Z. apply ltb_lt. apply (lt_le_trans' z x y Z). rewrite L. discriminate.
    - unfold ltb. rewrite cmp_same. reflexivity.
    - apply ltb_lt, L.
  Qed.
  Lemma place_le (x y : D) : cmp x y <> Gt -> place x <= place y.
  Proof.
    intros L. apply filter_le. intros z _ Z. apply ltb_lt in Z. apply ltb_lt. apply (lt_le_trans' z x y Z L).
  Qed.
  Lemma number_keeps : keeps_order number.
  Proof.
    intros [x Hx] [y Hy]. cbn. unfold number. cbn. destruct (cmp x y) eqn:E.
    - apply Nat.compare_eq_iff. assert (place x <= place y) by (apply place_le; rewrite E; discriminate).
      assert (place y <= place x) by (apply place_le; rewrite (cmp_flip x y), E; discriminate). lia.
    - apply Nat.compare_lt_iff, place_lt; assumption.
    - apply Nat.compare_gt_iff, place_lt; [exact Hy|]. rewrite (cmp_flip x y), E. reflexivity.
  Qed.

  Lemma lift_list l : incl l u -> exists l', map val l' = l.
  Proof.
    induction l as [|d l IH]; intros X; [exists []; reflexivity|]. destruct IH as (l' & <-); [intros x Hx; apply X; right; exact Hx|].
    exists (exist _ d (X d (or_introl eq_refl)) :: l'). reflexivity.
  Qed.

  Context {I : Type} {OI : Ord I} {DI : DiscreteFinite I}.
  Context {K : Type} {IK : InclusiveInterval I K}.
  Fixpoint mentioned (o : gop I K D) : list D :=
    match o with
    | GInsert ids _ => ids
    | GCutWith ids _ => ids
    | GCutAll _ => []
    | GAppend os => flat_map mentioned os
    end.
  Lemma lift_all (os : list (gop I K D)) : Forall (fun o => incl (mentioned o) u -> exists o', relabel val o' = o) os ->
    incl (flat_map mentioned os) u -> exists os', map (relabel val) os' = os.
  Proof.
    induction 1 as [|o r Ho _ IH]; intros X; [exists []; reflexivity|]. cbn in X.
    destruct (Ho (fun x Hx => X x (in_or_app _ _ _ (or_introl Hx)))) as (o' & <-).
    destruct (IH (fun x Hx => X x (in_or_app _ _ _ (or_intror Hx)))) as (r' & <-). exists (o' :: r'). reflexivity.
  Qed.
  Lemma lift_op (o : gop I K D) : incl (mentioned o) u -> exists o', relabel val o' = o.
  Proof.
    induction o as [l k|l Q IQ q|Q IQ q|os IH] using gop_rec'; intros X; cbn in X.
    - destruct (lift_list l X) as (l' & <-). exists (GInsert l' k). reflexivity.
    - destruct (lift_list l X) as (l' & <-). exists (GCutWith l' q). reflexivity.
    - exists (GCutAll q). reflexivity.
    - destruct (lift_all os IH X) as (os' & <-). exists (GAppend os'). reflexivity.
  Qed.
End Number.

Section Reduce.
  Context {I : Type} {OI : Ord I} {DI : DiscreteFinite I}.
  Context {K : Type} {IK : InclusiveInterval I K}.
  Context {D : Type} {OD : Ord D} {TP : TotalPreorder D}.
  (** The history is the image of one whose identifiers are the image of numbers. *)
  Lemma reduce (os : list (gop I K D)) (ds : list D) : exists (P : Type) (OP : Ord P) (a : P -> D) (b : P -> nat) (os' : list (gop I K P)),
    keeps_order a /\ keeps_order b /\ map (relabel a) os' = os /\ forall d, In d ds -> exists x, a x = d.
  Proof.
    set (u := ds ++ flat_map mentioned os).
    destruct (lift_all u os) as (os' & E).
    { apply Forall_forall. intros o _. apply lift_op. }
    { intros x Hx. apply in_or_app. right. exact Hx. }
    exists (part u), (Ord_part u), (val u), (number u), os'.
    split; [apply val_keeps|]. split; [apply number_keeps|]. split; [exact E|].
    intros d Hd. exists (exist _ d (in_or_app _ _ _ (or_introl Hd))). reflexivity.
  Qed.
End Reduce.

Section Ids.
  Context {I : Type} {OI : Ord I} {DI : DiscreteFinite I} {PL : PointLaws I}.
  Context {K : Type} {IK : InclusiveInterval I K} {IL : IntervalLaws I K} {FI : FromInvalid I K}.
  Context {D : Type} {OD : Ord D} {TP : TotalPreorder D}.
  Context {Q : Type} {IQ : InclusiveInterval I Q}.
  Implicit Types (os : list (gop I K D)) (p : I) (d : D) (q : Q).

  Lemma ids_like os p : exists s, identifiers_at_point (grun os) p = Val s /\ is_set s /\ forall d, in_like d s <-> added_like os d p.
  Proof.
    assert (X : forall ds, exists s, identifiers_at_point (grun os) p = Val s /\ is_set s /\ forall d, In d ds -> (in_like d s <-> added_like os d p)).
    { intros ds. destruct (reduce os ds) as (P & OP & a & b & os' & Ka & Kb & E & Hd).
      destruct (C43_identifiers_follow_history (map (relabel b) os') p) as (t & E1 & S1 & M1).
      rewrite (grun_e b Kb), (ids_e b) in E1. rewrite <- E, (grun_e a Ka), (ids_e a).
      destruct (identifiers_at_point (grun os') p) as [s|]; [|discriminate E1]. injection E1 as <-. exists (map a s). split; [reflexivity|].
      split; [apply (is_set_e a Ka), (is_set_e b Kb), S1|]. intros d H. destruct (Hd d H) as (x & <-).
      rewrite (in_like_e a Ka), (added_like_e a Ka), <- (in_like_e b Kb), <- (added_like_e b Kb), in_like_in, added_like_iff. apply M1. }
    destruct (X []) as (s & E & S & _). exists s. split; [exact E|]. split; [exact S|]. intros d.
    destruct (X [d]) as (s' & E' & _ & M). rewrite E in E'. injection E' as <-. apply M. left. reflexivity.
  Qed.

  Lemma lists_ext (P P' : I -> Prop) sel (l : list K) : (forall p, P p <-> P' p) -> lists_max_runs P sel l -> lists_max_runs P' sel l.
  Proof.
    intros X (A & B & C). split; [exact A|]. split.
    - intros g Hg. destruct (B g Hg) as [B1 B2]. split; [apply (max_run_iff P); assumption|exact B2].
    - intros j Hj. apply C. apply (max_run_iff P'); [intros p; symmetry; apply X|exact Hj].
  Qed.
  Lemma gaps_no_like os q : valid q -> exists l, gaps_no_identifier (grun os) q = Val l /\ lists_max_runs (free (grun os)) (fun j => overlap j q) l.
  Proof.
    intros V. destruct (reduce os []) as (P & OP & a & b & os' & Ka & Kb & E & _).
    destruct (C48_gaps_no_identifier (grun (map (relabel b) os')) q) as (l & E1 & L); [eexists; reflexivity|exact V|].
    rewrite (grun_e b Kb) in E1, L. rewrite (gaps_no_e b) in E1. rewrite <- E, (grun_e a Ka), (gaps_no_e a). exists l. split; [exact E1|].
    eapply lists_ext; [|exact L]. intros p. rewrite (free_e a), (free_e b). reflexivity.
  Qed.
  Lemma gaps_with_like os d q : valid q -> exists l, gaps_with_identifier (grun os) d q = Val l /\
    lists_max_runs (free_but_like d (grun os)) (fun j => overlap j q) l.
  Proof.
    intros V. destruct (reduce os [d]) as (P & OP & a & b & os' & Ka & Kb & E & Hd).
    destruct (Hd d (or_introl eq_refl)) as (x & <-).
    destruct (C49_gaps_with_identifier (grun (map (relabel b) os')) (b x) q) as (l & E1 & L); [eexists; reflexivity|exact V|].
    rewrite (grun_e b Kb) in E1, L. rewrite (gaps_with_e b Kb) in E1. rewrite <- E, (grun_e a Ka), (gaps_with_e a Ka). exists l. split; [exact E1|].
    eapply lists_ext; [|exact L]. intros p. rewrite (free_but_like_e a Ka), <- (free_but_like_e b Kb), free_but_like_iff. reflexivity.
  Qed.
  Lemma calls_like os ids (k : K) q :
    (snd (gqdit_insert (collect ids) k (grun os)) = Panic <-> ~ valid k) /\
    (snd (cut_with_identifiers (collect ids) q (grun os)) = Panic <-> ~ valid q) /\
    (snd (cut_all_identifiers q (grun os)) = Panic <-> ~ valid q).
  Proof.
    destruct (reduce (GInsert ids k :: os) []) as (P & OP & a & b & os0 & Ka & Kb & E & _).
    destruct os0 as [|[ids' k'|ids' ? ? ?|? ? ?|?] os']; try discriminate E. injection E as <- -> <-.
    destruct (C51_mutations (grun (map (relabel b) os')) (map b ids') k q) as (A & B & C & _); [left; eexists; reflexivity|].
    rewrite (grun_e b Kb) in A, B, C. rewrite (collect_e b Kb) in A, B. rewrite (ginsert_e b Kb) in A. rewrite (cut_with_e b Kb) in B. rewrite (cut_all_e b Kb) in C.
    rewrite (grun_e a Ka), (collect_e a Ka), (ginsert_e a Ka), (cut_with_e a Ka), (cut_all_e a Ka).
    assert (X : forall (x : outcome unit), omap (fun x : unit => x) x = Panic <-> x = Panic) by (intros [|]; cbn; split; congruence).
    unfold mapr in *. cbn [snd] in *. rewrite !X. rewrite X in A, B, C. tauto.
  Qed.
  Lemma append_like os1 os2 : snd (append (grun os1) (grun os2)) = Val tt.
  Proof.
    destruct (reduce (GAppend os1 :: os2) []) as (P & OP & a & b & os0 & Ka & Kb & E & _).
    destruct os0 as [|[ids' k'|ids' ? ? ?|? ? ?|os1'] os2']; try discriminate E. injection E as <- <-.
    pose proof (C51_append (grun (map (relabel b) os1')) (grun (map (relabel b) os2'))) as X.
    rewrite !(grun_e b Kb), (append_e b Kb) in X. cbn [snd] in X.
    change (map (relabel a) os1') with (map (relabel a) os1'). rewrite !(grun_e a Ka), (append_e a Ka). cbn [snd]. apply X.
    - exists (map (relabel b) os1'). symmetry. apply grun_e, Kb.
    - left. exists (map (relabel b) os2'). symmetry. apply grun_e, Kb.
  Qed.
End Ids.

(** ** Where the values come from *)
Section Given.
  Context {I : Type} {OI : Ord I} {DI : DiscreteFinite I}.
  Context {K : Type} {IK : InclusiveInterval I K}.
  Context {D : Type} {OD : Ord D} (G : D -> Prop).
  Definition sets : Type := {s : BTreeSet D | Forall G s}.
  Definition set_of (x : sets) : BTreeSet D := proj1_sig x.
  Definition made (g : Gqdit K D) : Prop := exists h : NoditMap K sets, g = mapv set_of h.
  Implicit Types (g : Gqdit K D).

  Lemma made_reinsert up (l : list (K * sets)) : (forall s, Forall G s -> Forall G (up s)) -> forall g, made g -> made (fst (reinsert up (mapv set_of l) g)).
  Proof.
    intros Hu. induction l as [|[k [s Hs]] r IH]; intros g (h & ->); [exists h; reflexivity|].
    cbn [mapv map mape fst snd reinsert set_of proj1_sig].
    pose proof (insert_merge_touching_if_mapv set_of (fun x y => bset_eqb (set_of x) (set_of y)) bset_eqb k (exist _ (up s) (Hu s Hs)) h (fun _ _ => eq_refl)) as X.
    change (set_of (exist _ (up s) (Hu s Hs))) with (up s) in X. rewrite X. unfold mapr at 1.
    destruct (insert_merge_touching_if_values_equal _ k _ h) as [h' [[x|x]|]]; cbn [fst snd omap maperr];
      [apply IH|..]; exists h'; reflexivity.
  Qed.
  Lemma made_cut_update {Q} {IQ : InclusiveInterval I Q} up (q : Q) g : (forall s, Forall G s -> Forall G (up s)) -> made g -> made (fst (cut_update up q g)).
  Proof.
    intros Hu (h & ->). unfold cut_update. rewrite cut_mapv. unfold mapr at 1. destruct (cut q h) as [h' [l|]]; cbn [fst snd omap].
    - apply made_reinsert; [exact Hu|exists h'; reflexivity].
    - exists h'. reflexivity.
  Qed.
  Lemma insert_given d s : G d -> Forall G s -> Forall G (bset_insert d s).
  Proof.
    intros Hd. induction s as [|x r IH]; intros F; cbn; [constructor; assumption|]. inversion F; subst.
    destruct (cmp d x); constructor; auto.
  Qed.
  Lemma extend_given t : Forall G t -> forall s, Forall G s -> Forall G (bset_extend s t).
  Proof.
    unfold bset_extend. induction 1 as [|d t Hd _ IH]; intros s F; cbn; [exact F|]. apply IH, insert_given; assumption.
  Qed.
  Lemma made_insert ids k g : Forall G ids -> made g -> made (fst (gqdit_insert ids k g)).
  Proof.
    intros F M. unfold gqdit_insert. destruct (invalid_interval_panic k); [|exact M]. destruct (bset_is_empty ids); [exact M|].
    apply made_cut_update; [|exact M]. intros s Hs. apply extend_given; assumption.
  Qed.
  Lemma made_append_loop (l : list (K * sets)) : forall g, made g -> made (fst (append_loop (mapv set_of l) g)).
  Proof.
    induction l as [|[k [s Hs]] r IH]; intros g M; [exact M|]. cbn [mapv map mape fst snd append_loop set_of proj1_sig].
    pose proof (made_insert s k g Hs M) as X. destruct (gqdit_insert s k g) as [g' [x|]]; [apply IH, X|exact X].
  Qed.
  Lemma made_append g g2 : made g -> made g2 -> made (fst (fst (append g g2))).
  Proof.
    intros M (h & ->). unfold append. destruct uu as [u|]; [|exact M]. rewrite remove_overlapping_mapv. unfold mapr.
    destruct (remove_overlapping u h) as [h' [l|]]; cbn [fst snd omap]; [|exact M].
    pose proof (made_append_loop l g M) as X. destruct (append_loop (mapv set_of l) g) as [g' x]. exact X.
  Qed.
  Lemma made_new : made (gnew : Gqdit K D).
  Proof.
    unfold gnew, gqdit_new. destruct uu as [u|]; cbn [obind]; [|exists []; reflexivity].
    set (z := exist _ [] (Forall_nil G) : sets).
    change (@new K (BTreeSet D)) with (mapv (K := K) set_of new). change (@bset_empty D) with (set_of z).
    rewrite insert_strict_mapv. unfold mapr. destruct (insert_strict _ z _) as [m [[x|x]|]]; [exists m|exists []..]; reflexivity.
  Qed.
  Lemma made_steps (os : list (gop I K D)) : Forall (fun o => (forall d, given [o] d -> G d) -> forall g, made g -> made (gstep o g)) os ->
    (forall d, given os d -> G d) -> forall g, made g -> made (gsteps os g).
  Proof.
    unfold gsteps. induction 1 as [|o r Ho _ IH]; intros X g M; [exact M|]. cbn. apply IH.
    - intros d Hd. apply X. inversion Hd as [? ids k ? Hi Hx|? os' ? Hi Hx]; subst.
      + exact (given_insert (o :: r) ids k d (or_intror Hi) Hx).
      + exact (given_append (o :: r) os' d (or_intror Hi) Hx).
    - apply Ho; [|exact M]. intros d Hd. apply X.
      inversion Hd as [? ids k ? Hi Hx|? os' ? Hi Hx]; subst; destruct Hi as [->|[]].
      + exact (given_insert (_ :: r) ids k d (or_introl eq_refl) Hx).
      + exact (given_append (_ :: r) os' d (or_introl eq_refl) Hx).
  Qed.
  Lemma made_step (o : gop I K D) : (forall d, given [o] d -> G d) -> forall g, made g -> made (gstep o g).
  Proof.
    induction o as [l k|l Q IQ q|Q IQ q|os IH] using gop_rec'; intros X g M; cbn [gstep].
    - apply made_insert; [|exact M]. apply (extend_given l); [|constructor]. apply Forall_forall. intros d Hd. apply X.
      eapply given_insert; [left; reflexivity|exact Hd].
    - unfold cut_with_identifiers. destruct (invalid_interval_panic q); [|exact M]. destruct (bset_is_empty _); [exact M|].
      apply made_cut_update; [|exact M]. intros s F. unfold bset_retain. rewrite Forall_forall in *. intros d Hd.
      apply filter_In in Hd. apply F, Hd.
    - unfold cut_all_identifiers. destruct (invalid_interval_panic q); [|exact M]. apply made_cut_update; [constructor|exact M].
    - fold (gsteps os gnew). apply made_append; [exact M|]. apply made_steps; [exact IH| |apply made_new].
      intros d Hd. apply X. eapply given_append; [left; reflexivity|exact Hd].
  Qed.
  Lemma made_ids g p s : made g -> identifiers_at_point g p = Val s -> Forall G s.
  Proof.
    intros (h & ->). unfold identifiers_at_point. rewrite get_at_point_mapv. destruct (get_at_point h p) as [[[t Ht]|]|]; cbn; intros X; try discriminate X;
      injection X as <-; [exact Ht|constructor].
  Qed.
End Given.
Lemma ids_given {I : Type} {OI : Ord I} {DI : DiscreteFinite I} {K : Type} {IK : InclusiveInterval I K} {D : Type} {OD : Ord D}
  (os : list (gop I K D)) p s d : identifiers_at_point (grun os) p = Val s -> In d s -> given os d.
Proof.
  intros E Hd. assert (X : Forall (given os) s); [|rewrite Forall_forall in X; apply X, Hd].
  eapply made_ids; [|exact E]. apply made_steps; [|auto|apply made_new]. apply Forall_forall. intros o _. apply made_step.
Qed.

(** ** Sets with the same elements up to comparing Equal *)
Section Alike.
  Context {D : Type} {OD : Ord D} {TP : TotalPreorder D}.
  Lemma in_like_eq (d d' : D) l : cmp d d' = Eq -> in_like d l -> in_like d' l.
  Proof.
    intros E (x & Hx & X). exists x. split; [exact Hx|].
    destruct (cmp d' x) eqn:Y; [reflexivity|exfalso..].
    - assert (Z : cmp d' d = Lt) by (apply (lt_le_trans' d' x d Y); rewrite (cmp_flip d x), X; discriminate).
      rewrite (cmp_flip d d'), E in Z. discriminate.
    - assert (Z : cmp x d = Lt) by (apply (lt_le_trans' x d' d); [rewrite (cmp_flip d' x), Y; reflexivity|rewrite (cmp_flip d d'), E; discriminate]).
      rewrite (cmp_flip d x), X in Z. discriminate.
  Qed.
  Lemma sets_alike (s : list D) : forall s', is_set s -> is_set s' -> (forall d, in_like d s <-> in_like d s') -> Forall2 (fun x y => cmp x y = Eq) s s'.
  Proof.
    induction s as [|x s IH]; intros [|y s'] S S' X.
    - constructor.
    - destruct (proj2 (X y)) as (z & [] & _). exists y. split; [left; reflexivity|apply cmp_same].
    - destruct (proj1 (X x)) as (z & [] & _). exists x. split; [left; reflexivity|apply cmp_same].
    - apply StronglySorted_inv in S, S'. destruct S as [S Sx], S' as [S' Sy]. rewrite Forall_forall in Sx, Sy.
      assert (Lx : forall z, In z (x :: s) -> cmp x z <> Gt) by (intros z [->|Hz]; [rewrite cmp_same; discriminate|rewrite (Sx z Hz); discriminate]).
      assert (Ly : forall z, In z (y :: s') -> cmp y z <> Gt) by (intros z [->|Hz]; [rewrite cmp_same; discriminate|rewrite (Sy z Hz); discriminate]).
      assert (E : cmp x y = Eq).
      { destruct (proj1 (X x)) as (z & Hz & Ez); [exists x; split; [left; reflexivity|apply cmp_same]|].
        destruct (proj2 (X y)) as (w & Hw & Ew); [exists y; split; [left; reflexivity|apply cmp_same]|].
        assert (A : cmp y x <> Gt) by (apply (cmp_le_trans y z x); [apply Ly, Hz|rewrite (cmp_flip x z), Ez; discriminate]).
        assert (B : cmp x y <> Gt) by (apply (cmp_le_trans x w y); [apply Lx, Hw|rewrite (cmp_flip y w), Ew; discriminate]).
        rewrite (cmp_flip x y) in A. destruct (cmp x y); [reflexivity|cbn in A|]; congruence. }
      constructor; [exact E|]. apply IH; [exact S|exact S'|].
      assert (N : forall d (a : D) l, (forall z, In z l -> cmp a z = Lt) -> in_like d l -> cmp a d = Lt).
      { intros d a l L (z & Hz & Ez). apply (lt_le_trans' a z d); [apply L, Hz|]. rewrite (cmp_flip d z), Ez. discriminate. }
      intros d. split; intros Hd.
      + pose proof (N d x s Sx Hd) as L. destruct (proj1 (X d)) as (z & [->|Hz] & Ez); [destruct Hd as (w & Hw & Ew); exists w; split; [right|]; assumption| |exists z; auto].
        exfalso. assert (Z := lt_le_trans' x d z L). rewrite E in Z. assert (Eq = Lt) by (apply Z; rewrite Ez; discriminate). discriminate.
      + pose proof (N d y s' Sy Hd) as L. destruct (proj2 (X d)) as (z & [->|Hz] & Ez); [destruct Hd as (w & Hw & Ew); exists w; split; [right|]; assumption| |exists z; auto].
        exfalso. assert (Z := lt_le_trans' y d z L). rewrite (cmp_flip z y), E in Z. assert (Eq = Lt) by (apply Z; rewrite Ez; discriminate). discriminate.
  Qed.

  Context {I : Type} {OI : Ord I} {DI : DiscreteFinite I} {PL : PointLaws I}.
  Context {K : Type} {IK : InclusiveInterval I K} {IL : IntervalLaws I K} {FI : FromInvalid I K}.
  Lemma histories_alike (os os' : list (gop I K D)) p p' : (forall d, added_like os d p <-> added_like os' d p') ->
    exists s s', identifiers_at_point (grun os) p = Val s /\ identifiers_at_point (grun os') p' = Val s' /\ Forall2 (fun x y => cmp x y = Eq) s s'.
  Proof.
    intros X. destruct (ids_like os p) as (s & E & S & M). destruct (ids_like os' p') as (s' & E' & S' & M').
    exists s, s'. split; [exact E|]. split; [exact E'|]. apply sets_alike; [exact S|exact S'|]. intros d. rewrite M, M'. apply X.
  Qed.
  Lemma untouched (os : list (gop I K D)) o p : (forall d, ~ adds_like o d p) -> (forall d, ~ removes_like o d p) ->
    exists s s', identifiers_at_point (grun os) p = Val s /\ identifiers_at_point (grun (os ++ [o])) p = Val s' /\ Forall2 (fun x y => cmp x y = Eq) s s'.
  Proof.
    intros A R. apply histories_alike. intros d. rewrite added_like_snoc. specialize (A d). specialize (R d). tauto.
  Qed.
End Alike.
