(** * RangeFacts: changing the values at all points of an interval (the proofs of C171). *)
From Coq Require Import List ZArith Bool Lia Sorting.Sorted.
From Verif Require Import Base BTree UtilsModel IntervalModel NoditModel NoditOps Spec RangeOps
  PointFacts IntervalFacts ListFacts NoditFacts NoditInv NoditQueries NoditGaps NoditMutations NoditMore NoditCoherence IntervalProofs MergeAllFacts.
Import ListNotations.
Open Scope nat_scope.

Section Facts.
  Context {I : Type} `{PL : PointLaws I}.
  Context {K : Type} {IK : InclusiveInterval I K} {IL : IntervalLaws I K} {FI : FromInvalid I K}.
  Context {V : Type}.
  Context {Q : Type} {IQ : InclusiveInterval I Q}.
  Implicit Types (m : NoditMap K V) (q : Q) (f : change V).

  Lemma in_changed f (out : list (K * V)) k v : In (k, v) (changed f out) <-> exists v0, In (k, v0) out /\ f (Some v0) = Some v.
  Proof.
    unfold changed. rewrite in_flat_map. split.
    - intros ([k0 v0] & Hi & X). cbn in X. destruct (f (Some v0)) eqn:E; [|destruct X]. destruct X as [X|[]]. injection X as -> ->. exists v0. auto.
    - intros (v0 & Hi & E). exists (k, v0). split; [exact Hi|]. cbn. rewrite E. left. reflexivity.
  Qed.
  Lemma in_filled f (gs : list K) k v : In (k, v) (filled f gs) <-> In k gs /\ f None = Some v.
  Proof.
    unfold filled. destruct (f None) as [v0|]; [|cbn; split; [tauto|intros [_ X]; discriminate]]. rewrite in_map_iff. split.
    - intros (g & X & Hi). injection X as -> ->. auto.
    - intros [Hi X]. injection X as ->. exists k. auto.
  Qed.
  Lemma pairs_changed f (out : list (K * V)) : ForallOrdPairs (fun a b : K => ~ overlap a b) (map fst out) -> ForallOrdPairs (fun a b : K => ~ overlap a b) (map fst (changed f out)).
  Proof.
    induction out as [|[k v] out IH]; intros X; [constructor|]. cbn [map fst] in X. inversion X as [|? ? X1 X2]; subst. unfold changed. cbn [flat_map fst snd].
    fold (changed f out). destruct (f (Some v)) as [v'|]; [|apply IH, X2]. cbn [app map fst]. constructor; [|apply IH, X2]. rewrite Forall_forall in *. intros k' Hi.
    apply in_map_iff in Hi. destruct Hi as ([k1 v1] & <- & Hi). apply in_changed in Hi. destruct Hi as (v2 & Hi & _). apply X1. apply in_map_iff. exists (k1, v2). auto.
  Qed.
  Lemma keys_filled f (gs : list K) : map fst (filled f gs) = gs \/ filled f gs = [].
  Proof. unfold filled. destruct (f None); [|right; reflexivity]. left. rewrite map_map. cbn. apply map_id. Qed.
  Lemma get_val m p : WF m -> exists o, get_at_point m p = Val o.
  Proof. intros W. destruct (get_at_point_cases m p W) as [(v' & _ & -> & _)|(_ & -> & _)]; eauto. Qed.

  Lemma range_update_spec m q f : WF m -> valid q ->
    exists m', range_update q f m = Some m' /\ WF m' /\
      forall p o, get_at_point m p = Val o -> get_at_point m' p = Val (if contains_point q p then f o else o).
  Proof.
    intros W Vq. destruct (gaps_trimmed_spec m q W Vq (quiet_at_FI m q)) as (gs & E & As & Rn & _).
    destruct (gaps_trimmed_points m q W Vq (quiet_at_FI m q)) as (gs' & E' & Pt). rewrite E in E'. injection E' as <-.
    destruct (cut_full m q W Vq) as (m1 & out & Ec & W1 & Wo & Ho & _ & Hm). destruct (cut_entries m q W Vq) as (m1' & out' & Ec' & _ & (o' & Hs & Hf) & _).
    rewrite Ec in Ec'. injection Ec' as <- <-. unfold range_update. rewrite E, Ec.
    assert (Go : forall k v p, In (k, v) out -> covers k p -> covers q p /\ maps_to m p v).
    { intros k v p Hi Hc. destruct (Ho k v Hi) as (_ & k0 & Hi0 & _ & C). apply C in Hc. split; [apply Hc|]. exists k0. tauto. }
    assert (Gg : forall g p, In g gs -> covers g p -> covers q p /\ ~ covered m p).
    { intros g p Hi Hc. destruct (Rn g Hi) as [(_ & P & _) _]. destruct (P p Hc). auto. }
    assert (Back : forall p v, maps_to m p v -> covers q p -> exists k, In (k, v) out /\ covers k p).
    { intros p v (k & Hi & Hc) Hq. assert (X : In (k, v) o') by (apply (sub_in _ _ _ Hs); split; [exact Hi|exists p; auto]). clear -Hf X Hc Hq.
      induction Hf as [|e i o1 out1 [Ev Ep] Hf IH]; [destruct X|]. destruct X as [->|X]; [|destruct (IH X) as (k1 & A & B); exists k1; split; [right; exact A|exact B]].
      destruct i as [ki vi]. cbn in Ev, Ep. subst vi. exists ki. split; [left; reflexivity|]. apply Ep. auto. }
    destruct (insert_each_disjoint (changed f out ++ filled f gs) m1 W1) as (m' & Ei & W' & _ & M).
    { rewrite map_app. split.
      - apply Forall_app. split; apply Forall_forall.
        + intros k Hi. apply in_map_iff in Hi. destruct Hi as ([k1 v1] & <- & Hi). apply in_changed in Hi. destruct Hi as (v0 & Hi & _). apply (wf_valid out (k1, v0) Wo Hi).
        + intros k Hi. apply in_map_iff in Hi. destruct Hi as ([k1 v1] & <- & Hi). apply in_filled in Hi. apply (Rn k1 (proj1 Hi)).
      - apply FOP_app. split; [apply pairs_changed, ascending_disjoint; apply (proj2 (ascending_WF out) Wo)|]. split; [destruct (keys_filled f gs) as [-> | ->]; [apply ascending_disjoint, As|constructor]|].
        intros x y Hx Hy (p & C1 & C2). apply in_map_iff in Hx, Hy. destruct Hx as ([k1 v1] & <- & Hx), Hy as ([k2 v2] & <- & Hy).
        apply in_changed in Hx. apply in_filled in Hy. destruct Hx as (v0 & Hx & _). destruct (Go _ _ p Hx C1) as [_ (k0 & Hk & Hc)]. apply (proj2 (Gg k2 p (proj1 Hy) C2)). exists k0, v0. auto. }
    { intros [k v] k' v' Hi Hi' (p & C1 & C2). cbn [fst] in C2. assert (Hq : covers q p).
      { apply in_app_iff in Hi. destruct Hi as [Hi|Hi]; [apply in_changed in Hi; destruct Hi as (v0 & Hi & _); apply (Go k v0 p Hi C2)|apply in_filled in Hi; apply (Gg k p (proj1 Hi) C2)]. }
      assert (X : maps_to m1 p v') by (exists k'; auto). apply Hm in X. apply (proj2 X), Hq. }
    exists m'. split; [exact Ei|]. split; [exact W'|].
    assert (MT : forall p v, maps_to m' p v <-> maps_to m1 p v \/ covers q p /\ ((exists v0, maps_to m p v0 /\ f (Some v0) = Some v) \/ ~ covered m p /\ f None = Some v)).
    { intros p v. split.
      - intros (k & Hi & Hc). apply M in Hi. destruct Hi as [Hi|Hi]; [right|left; exists k; auto]. apply in_app_iff in Hi. destruct Hi as [Hi|Hi].
        + apply in_changed in Hi. destruct Hi as (v0 & Hi & Ef). destruct (Go k v0 p Hi Hc). split; [assumption|left; exists v0; auto].
        + apply in_filled in Hi. destruct Hi as [Hi Ef]. destruct (Gg k p Hi Hc). split; [assumption|right; auto].
      - intros [(k & Hi & Hc)|[Hq [(v0 & Hv & Ef)|[N Ef]]]].
        + exists k. split; [apply M; right; exact Hi|exact Hc].
        + destruct (Back p v0 Hv Hq) as (k & Hi & Hc). exists k. split; [|exact Hc]. apply M. left. apply in_app_iff. left. apply in_changed. exists v0. auto.
        + destruct (proj1 (Pt p Hq) N) as (g & Hg & Hc). exists g. split; [|exact Hc]. apply M. left. apply in_app_iff. right. apply in_filled. auto. }
    intros p o Eo. destruct (contains_point q p) eqn:Cq.
    - apply contains_point_true in Cq. assert (N1 : forall v, ~ maps_to m1 p v) by (intros v X; apply Hm in X; apply (proj2 X), Cq).
      destruct o as [v0|].
      + apply (get_at_point_Some m p v0 W) in Eo. assert (U : forall v1, maps_to m p v1 -> v1 = v0).
        { intros v1 X. apply (get_at_point_Some m p _ W) in X. apply (get_at_point_Some m p _ W) in Eo. congruence. }
        destruct (f (Some v0)) as [v|] eqn:Ef.
        * apply (get_at_point_Some m' p v W'), MT. right. split; [exact Cq|]. left. exists v0. auto.
        * apply (get_at_point_None m' p W'). intros (k & v & Hi & Hc). assert (X : maps_to m' p v) by (exists k; auto). apply MT in X.
          destruct X as [X|[_ [(v1 & X & Ef')|[N _]]]]; [exact (N1 v X)|rewrite (U v1 X) in Ef'; congruence|]. apply N. destruct Eo as (k0 & A & B). exists k0, v0. auto.
      + apply (get_at_point_None m p W) in Eo. destruct (f None) as [v|] eqn:Ef.
        * apply (get_at_point_Some m' p v W'), MT. right. auto.
        * apply (get_at_point_None m' p W'). intros (k & v & Hi & Hc). assert (X : maps_to m' p v) by (exists k; auto). apply MT in X.
          destruct X as [X|[_ [(v1 & (k1 & A & B) & _)|[_ X]]]]; [exact (N1 v X)|apply Eo; exists k1, v1; auto|congruence].
    - assert (Nq : ~ covers q p) by (intros X; apply contains_point_true in X; congruence).
      assert (Same : forall v, maps_to m' p v <-> maps_to m p v) by (intros v; rewrite MT, Hm; tauto).
      destruct o as [v0|].
      + apply (get_at_point_Some m' p v0 W'), Same. apply (get_at_point_Some m p v0 W), Eo.
      + apply (get_at_point_None m' p W'). apply (get_at_point_None m p W) in Eo. intros (k & v & Hi & Hc). assert (X : maps_to m' p v) by (exists k; auto).
        apply Same in X. destruct X as (k1 & A & B). apply Eo. exists k1, v. auto.
  Qed.
  Lemma range_updates_spec (l : list (Q * change V)) : forall m, WF m -> Forall (fun u => valid (fst u)) l ->
    exists m', range_updates l m = Some m' /\ WF m' /\ forall p o, get_at_point m p = Val o -> get_at_point m' p = Val (changes_at l p o).
  Proof.
    induction l as [|[q f] l IH]; intros m W F; [exists m; split; [reflexivity|split; [exact W|auto]]|]. pose proof (Forall_inv F) as Vq. pose proof (Forall_inv_tail F) as F'. cbn [fst] in Vq.
    destruct (range_update_spec m q f W Vq) as (m1 & E & W1 & A). destruct (IH m1 W1 F') as (m' & E' & W' & A'). exists m'. cbn [range_updates]. rewrite E. split; [exact E'|]. split; [exact W'|].
    intros p o Eo. unfold changes_at. cbn [fold_left fst snd]. apply A', A, Eo.
  Qed.
  Lemma one_more_at (l : list Q) p n : changes_at (map (fun q => (q, one_more)) l) p (match n with 0 => None | S k => Some (S k) end) =
    match n + length (filter (fun q => contains_point q p) l) with 0 => None | S k => Some (S k) end.
  Proof.
    revert n. induction l as [|q l IH]; intros n; [cbn; rewrite Nat.add_0_r; reflexivity|]. unfold changes_at in *. cbn [map fold_left fst snd filter].
    destruct (contains_point q p); [|apply IH]. cbn [length]. rewrite Nat.add_succ_r. specialize (IH (S n)). destruct n; exact IH.
  Qed.
End Facts.
