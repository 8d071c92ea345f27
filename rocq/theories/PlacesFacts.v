(** * PlacesFacts: how many places are taken and free (the proofs of C175). *)
From Coq Require Import List ZArith Bool Lia Permutation.
From Verif Require Import Base BTree UtilsModel IntervalModel NoditModel NoditOps InstancesModel Instances Spec FirstFitOps PlacesOps
  PointFacts IntervalFacts ListFacts NoditFacts NoditInv NoditQueries NoditGaps NoditMutations NoditMore IntervalProofs FirstFitFacts.
Import ListNotations.
Open Scope Z_scope.

Lemma number_unique {A} (P Q : A -> Prop) n n' : (forall x, P x <-> Q x) -> number_of P n -> number_of Q n' -> n = n'.
Proof.
  intros E (l & ND & H & <-) (l' & ND' & H' & <-). f_equal. apply Permutation_length, NoDup_Permutation; [assumption..|]. intros x. rewrite H, H', E. reflexivity.
Qed.
Lemma number_ext {A} (P Q : A -> Prop) n : (forall x, P x <-> Q x) -> number_of P n -> number_of Q n.
Proof. intros E (l & ND & H & L). exists l. split; [exact ND|]. split; [|exact L]. intros x. rewrite H. apply E. Qed.
Lemma NoDup_app {A} (l l' : list A) : NoDup l -> NoDup l' -> (forall x, In x l -> In x l' -> False) -> NoDup (l ++ l').
Proof.
  induction l as [|a l IH]; intros N N' D; [exact N'|]. inversion N; subst. cbn. constructor.
  - rewrite in_app_iff. intros [X|X]; [contradiction|exact (D a (or_introl eq_refl) X)].
  - apply IH; [assumption..|]. intros x Hx. apply D. right. exact Hx.
Qed.
Lemma number_or {A} (P Q : A -> Prop) n n' : (forall x, P x -> Q x -> False) -> number_of P n -> number_of Q n' -> number_of (fun x => P x \/ Q x) (n + n').
Proof.
  intros D (l & ND & H & <-) (l' & ND' & H' & <-). exists (l ++ l'). split; [|split].
  - apply NoDup_app; [assumption..|]. intros x Hx Hx'. apply H in Hx. apply H' in Hx'. exact (D x Hx Hx').
  - intros x. rewrite in_app_iff, H, H'. reflexivity.
  - rewrite app_length. lia.
Qed.
Lemma number_none {A} (P : A -> Prop) : (forall x, ~ P x) -> number_of P 0.
Proof. intros N. exists []. split; [constructor|]. split; [|reflexivity]. intros x. split; [intros []|]. intros X. exact (N x X). Qed.

Section Facts.
  Context {lo hi : Z} `{T : IntType lo hi}.
  Notation int := (int lo hi).
  Context {K : Type} {IK : InclusiveInterval int K} {IL : IntervalLaws int K} {FI : FromInvalid int K}.
  Context {V : Type}.
  Context {Q : Type} {IQ : InclusiveInterval int Q}.
  Implicit Types (m : NoditMap K V) (b : build) (q : Q).

  Lemma number_between (s : Z) n : lo <= s -> s + Z.of_nat n - 1 <= hi -> number_of (fun p : int => s <= ival p <= s + Z.of_nat n - 1) (Z.of_nat n).
  Proof.
    intros L. induction n as [|n IH]; intros Hh; [apply number_none; intros x; lia|].
    destruct (at_int (lo := lo) (hi := hi) (s + Z.of_nat n)) as (p & Ep); [lia|]. destruct IH as (l & ND & H & E); [lia|]. exists (p :: l). split; [|split].
    - constructor; [|exact ND]. rewrite H, Ep. lia.
    - intros x. cbn [In]. rewrite H. split.
      + intros [<-|X]; lia.
      + intros X. destruct (Z.eq_dec (ival x) (s + Z.of_nat n)) as [Y|Y]; [left; apply int_eq; lia|right; lia].
    - cbn [length]. lia.
  Qed.
  Lemma number_interval {A} {IA : InclusiveInterval int A} (k : A) : valid k -> number_of (fun p => covers k p) (ival (iend k) - ival (istart k) + 1).
  Proof.
    intros Vk. pose proof (proj1 (valid_int k) Vk) as L.
    pose proof (int_range (istart k)). pose proof (int_range (iend k)). pose proof (number_between (ival (istart k)) (Z.to_nat (ival (iend k) - ival (istart k) + 1))) as X.
    rewrite Z2Nat.id in X by lia. eapply number_ext; [|apply X; lia]. intros x. cbv beta. rewrite covers_int. split; intros; lia.
  Qed.
  Lemma size_spec {A} {IA : InclusiveInterval int A} b (k : A) : lo <= 0 -> valid k -> ival (iend k) - ival (istart k) <= hi ->
    exists n, size b k = Val n /\ number_of (fun p => covers k p) n.
  Proof.
    intros L0 Vk L. destruct (width_build b k Vk L0 L) as (w & E & Hw). exists (ival w + 1). unfold size. rewrite E. split; [reflexivity|]. rewrite Hw. apply number_interval, Vk.
  Qed.
  Lemma sizes_spec {A} {IA : InclusiveInterval int A} b (l : list A) : lo <= 0 -> (forall k, In k l -> valid k /\ ival (iend k) - ival (istart k) <= hi) ->
    ForallOrdPairs (fun x y => ~ overlap x y) l -> exists n, sizes b l = Val n /\ number_of (fun p => exists k, In k l /\ covers k p) n.
  Proof.
    intros L0 H D. induction D as [|k l Hk D IH].
    - exists 0. split; [reflexivity|]. apply number_none. intros x (k & [] & _).
    - destruct (H k (or_introl eq_refl)) as [Vk Lk]. destruct (size_spec b k L0 Vk Lk) as (n & E & N). destruct IH as (n' & E' & N'); [intros x Hx; apply H; right; exact Hx|].
      exists (n + n'). cbn [sizes]. rewrite E. cbn [obind]. rewrite E'. split; [reflexivity|]. refine (number_ext _ _ _ _ (number_or _ _ n n' _ N N')).
      + intros x. split.
        * intros [X|(k' & Hk' & X)]; [exists k; split; [left; reflexivity|exact X]|exists k'; split; [right; exact Hk'|exact X]].
        * intros (k' & [<-|Hk'] & X); [left; exact X|right; exists k'; auto].
      + intros x X (k' & Hk' & X'). rewrite Forall_forall in Hk. apply (Hk k' Hk'). exists x. auto.
  Qed.
  Lemma inside_width {A} {IA : InclusiveInterval int A} (i : A) q : valid i -> (forall p, covers i p -> covers q p) -> ival (iend q) - ival (istart q) <= hi -> ival (iend i) - ival (istart i) <= hi.
  Proof.
    intros Vi Sub L. apply valid_int in Vi. assert (C1 : covers q (istart i)) by (apply Sub, covers_int; lia). assert (C2 : covers q (iend i)) by (apply Sub, covers_int; lia). rewrite covers_int in C1, C2. lia.
  Qed.
  Lemma sub_pairs {A} (R : A -> A -> Prop) P l l' : ForallOrdPairs R l -> sub P l l' -> ForallOrdPairs R l'.
  Proof.
    intros F HS. induction HS as [|x l l' Px HS IH|x l l' Px HS IH]; [constructor| |]; inversion F as [|? ? Fx F']; subst; [|apply IH, F'].
    constructor; [|apply IH, F']. rewrite Forall_forall in *. intros y Hy. apply Fx, (sub_in _ _ _ HS), Hy.
  Qed.
  Notation piece q := (fun e : K * V => match intersection (fst e) q with Some i => [i] | None => [] end).
  Lemma pieces_in q l i : In i (flat_map (piece q) l) -> exists e, In e l /\ intersection (fst e) q = Some i.
  Proof.
    intros Hi. apply in_flat_map in Hi. destruct Hi as (e & He & Hi). exists e. split; [exact He|]. destruct (intersection (fst e) q); [destruct Hi as [->|[]]; reflexivity|destruct Hi].
  Qed.
  Lemma intersection_points (k : K) q i : intersection k q = Some i -> forall p, covers i p <-> covers k p /\ covers q p.
  Proof.
    intros E. destruct (overlap_dec2 k q) as [O|O].
    - destruct (intersection_Some k q O) as (i' & E' & X). rewrite E in E'. injection E' as <-. exact X.
    - rewrite (intersection_None k q O) in E. discriminate.
  Qed.
  Lemma pieces_disjoint q (l : list (K * V)) : ForallOrdPairs (fun e1 e2 => ~ overlap (fst e1) (fst e2)) l -> ForallOrdPairs (fun x y => ~ overlap x y) (flat_map (piece q) l).
  Proof.
    induction 1 as [|e l He F IH]; [constructor|]. cbn [flat_map]. destruct (intersection (fst e) q) as [i|] eqn:E; [|exact IH]. cbn [app]. constructor; [|exact IH].
    apply Forall_forall. intros j Hj (p & P1 & P2). apply pieces_in in Hj. destruct Hj as (e' & He' & E'). rewrite Forall_forall in He. apply (He e' He'). exists p.
    apply (intersection_points _ _ _ E) in P1. apply (intersection_points _ _ _ E') in P2. split; tauto.
  Qed.
  Lemma WF_apart m : WF m -> ForallOrdPairs (fun e1 e2 => ~ overlap (fst e1) (fst e2)) m.
  Proof.
    intros W. pose proof (proj2 (ascending_WF m) W) as [A _]. pose proof (ascending_disjoint _ A) as D. clear - D. induction m as [|e m IH]; [constructor|]. inversion D as [|? ? X D']; subst.
    constructor; [exact (proj1 (Forall_map fst _ m) X)|apply IH, D'].
  Qed.
  Lemma used_spec b m q : lo <= 0 -> WF m -> valid q -> ival (iend q) - ival (istart q) <= hi ->
    exists n, used b m q = Val n /\ number_of (fun p => covers q p /\ covered m p) n.
  Proof.
    intros L0 W Vq Lq. destruct (overlapping_spec m q W Vq) as (l & E & HS). unfold used. rewrite E. cbn [obind].
    assert (Points : forall p, (exists i, In i (flat_map (piece q) l) /\ covers i p) <-> covers q p /\ covered m p).
    { intros p. split.
      - intros (i & Hi & Hc). apply pieces_in in Hi. destruct Hi as (e & He & Ei). apply (intersection_points _ _ _ Ei) in Hc. split; [tauto|]. exists (fst e), (snd e). rewrite <- surjective_pairing.
        apply (sub_in _ _ _ HS) in He. tauto.
      - intros [Hq (k & v & Hi & Hc)]. assert (O : overlap k q) by (exists p; auto). destruct (intersection_Some k q O) as (i & Ei & X). exists i. split; [|apply X; auto].
        apply in_flat_map. exists (k, v). split; [apply (sub_in _ _ _ HS); auto|]. cbn [fst]. rewrite Ei. left. reflexivity. }
    destruct (sizes_spec b (flat_map (piece q) l) L0) as (n & En & N).
    - intros i Hi. apply pieces_in in Hi. destruct Hi as (e & He & Ei). apply (sub_in _ _ _ HS) in He. destruct He as [_ (p & P1 & P2)].
      assert (Vi : valid i) by (exists p; apply (intersection_points _ _ _ Ei); auto). split; [exact Vi|]. apply (inside_width i q Vi); [|exact Lq]. intros x Hx. apply (intersection_points _ _ _ Ei) in Hx. tauto.
    - apply pieces_disjoint. exact (sub_pairs _ _ _ _ (WF_apart m W) HS).
    - exists n. split; [exact En|]. exact (number_ext _ _ n Points N).
  Qed.
  Lemma free_spec b m q : lo <= 0 -> WF m -> valid q -> ival (iend q) - ival (istart q) <= hi ->
    exists n, free b m q = Val n /\ number_of (fun p => covers q p /\ ~ covered m p) n.
  Proof.
    intros L0 W Vq Lq. destruct (gaps_trimmed_spec m q W Vq (quiet_at_FI m q)) as (l & E & A & M & _). destruct (gaps_trimmed_points m q W Vq (quiet_at_FI m q)) as (l' & E' & X). rewrite E in E'. injection E' as <-.
    unfold free. rewrite E. cbn [obind]. destruct (sizes_spec b l L0) as (n & En & N).
    - intros g Hg. destruct (M g Hg) as [(Vg & Ug & _) _]. split; [exact Vg|]. apply (inside_width g q Vg); [|exact Lq]. intros x Hx. apply Ug, Hx.
    - apply ascending_disjoint, A.
    - exists n. split; [exact En|]. refine (number_ext _ _ n _ N). intros p. split.
      + intros (g & Hg & Hc). destruct (M g Hg) as [(Vg & Ug & _) _]. specialize (Ug p Hc). tauto.
      + intros [Hq Hn]. apply (X p Hq), Hn.
  Qed.
  Lemma number_split {A} (P R : A -> Prop) n n1 n2 : number_of P n -> number_of (fun x => P x /\ R x) n1 -> number_of (fun x => P x /\ ~ R x) n2 -> (forall x, P x -> R x \/ ~ R x) -> n = n1 + n2.
  Proof.
    intros N A' B D. apply (number_unique P (fun x => (P x /\ R x) \/ (P x /\ ~ R x))); [|exact N|apply number_or; [tauto|exact A'|exact B]].
    intros x. specialize (D x). tauto.
  Qed.
  Lemma covered_dec m p : WF m -> covered m p \/ ~ covered m p.
  Proof.
    intros W. destruct (get_at_point_cases m p W) as [(v & (k & Hi & Hc) & _)|(N & _)]; [left; exists k, v; auto|right; exact N].
  Qed.
  Lemma insert_covered m k v m' : WF m -> valid k -> insert_strict k v m = (m', Val (Ok tt)) -> WF m' /\ (forall p, covered m' p <-> covered m p \/ covers k p) /\ forall p, covered m p -> covers k p -> False.
  Proof.
    intros W Vk E. assert (Hn : forall k' v', In (k', v') m -> ~ overlap k' k).
    { intros k' v' Hi O. rewrite (insert_strict_refused m k v W Vk) in E; [discriminate|]. exists k', v'. auto. }
    destruct (insert_strict_done m k v W Vk Hn) as (l1 & l2 & Em & E' & W'). rewrite E in E'. injection E' as ->. split; [exact W'|]. split.
    - intros p. split.
      + intros (k' & v' & Hi & Hc). apply in_app_iff in Hi. destruct Hi as [Hi|[Hi|Hi]]; [|injection Hi as <- <-; right; exact Hc|]; left; exists k', v'; split; try exact Hc; rewrite Em; apply in_app_iff; auto.
      + intros [(k' & v' & Hi & Hc)|Hc]; [exists k', v'|exists k, v]; (split; [|exact Hc]); apply in_app_iff; cbn [In]; [|auto]. rewrite Em in Hi. apply in_app_iff in Hi. tauto.
    - intros p (k' & v' & Hi & Hc) Hk. apply (Hn k' v' Hi). exists p. auto.
  Qed.
  Lemma covered_maps m p : covered m p <-> exists v, maps_to m p v.
  Proof. split; [intros (k & v & X)|intros (v & k & X)]; eauto. exists v, k. exact X. exists k, v. exact X. Qed.
End Facts.
