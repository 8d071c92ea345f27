(** * PropsClient: all implementations that do what is documented are indistinguishable (C130). *)
From Coq Require Import List ZArith Bool Lia.
From Verif Require Import Base BTree UtilsModel IntervalModel NoditModel NoditOps Spec CompleteOps ClientOps InstancesModel Instances
  PointFacts IntervalFacts ListFacts NoditFacts NoditQueries NoditMutations NoditInv NoditMore CompleteProofs PropsNodit.
Import ListNotations.
Open Scope nat_scope.

Section Props.
  Context {I : Type} `{PL : PointLaws I}.
  Context {K : Type} {IK : InclusiveInterval I K} {IL : IntervalLaws I K} {FI : FromInvalid I K}.
  Context {V : Type}.
  Context (D : determined_by_points I K).
  Implicit Types (m : NoditMap K V) (c : call I K V).

  Lemma pair_iff {A B} (a a' : A) (b b' : B) : (a, b) = (a', b') <-> a = a' /\ b = b'.
  Proof. split; [intros E; injection E; auto|intros [-> ->]; reflexivity]. Qed.
  Lemma options {A} (o : option A) (P : A -> Prop) : (forall a, o = Some a <-> P a) -> forall o', (forall a, o' = Some a <-> P a) <-> o' = o.
  Proof.
    intros Ho o'. split; [|intros ->; exact Ho]. intros Hx. destruct o as [a|].
    - apply Hx, Ho. reflexivity.
    - destruct o' as [a|]; [|reflexivity]. symmetry. apply Ho, Hx. reflexivity.
  Qed.
  Lemma Forall2_fun {A B} (R : A -> B -> Prop) l l1 l2 : (forall a b b', R a b -> R a b' -> b = b') -> Forall2 R l l1 -> Forall2 R l l2 -> l1 = l2.
  Proof.
    intros F Hf. revert l2. induction Hf as [|a b l l1 Hab Hf IH]; intros l2 H2; inversion H2; subst; [reflexivity|].
    f_equal; [eapply F; eassumption|apply IH; assumption].
  Qed.
  Lemma entry_eq (a b : K * V) : fst a = fst b -> snd a = snd b -> a = b.
  Proof. destruct a, b. cbn. congruence. Qed.

  Lemma last_iff m e : last_key_value m = Some e <-> exists l, m = l ++ [e].
  Proof.
    unfold last_key_value. destruct (snoc_cases m) as [->|(l & a & ->)].
    - split; [discriminate|]. intros (l' & X). destruct l'; discriminate.
    - rewrite bt_last_snoc. split; [intros X; injection X as ->; eauto|]. intros (l' & X). apply app_inj_tail in X. destruct X as [_ ->]. reflexivity.
  Qed.
  Lemma perform_iff m c : reachable m -> forall m' a, documented c (iter m) m' a <-> (m', a) = perform c m.
  Proof.
    intros Rm m' a. pose proof (reachable_WF m Rm) as W.
    destruct c as [| | | | |p|p|p|Q IQ q|Q IQ q|Q IQ q|Q IQ q|Q IQ q|f|f p|Q IQ f q|Q IQ q|Q IQ q|k v|k v|k v|veq k v|k v|k v];
      cbn [documented perform answer] in *; unfold iter in *.
    - rewrite pair_iff. reflexivity.
    - rewrite pair_iff. apply and_iff_compat_l. assert (X : is_empty m = true <-> m = []) by (destruct m; cbn; split; congruence).
      rewrite <- X. destruct a, (is_empty m); intuition congruence.
    - rewrite pair_iff. reflexivity.
    - rewrite pair_iff. apply and_iff_compat_l. apply options. intros e. unfold first_key_value. destruct m as [|x m]; cbn.
      + split; [discriminate|]. intros (l & X). discriminate.
      + split; [intros X; injection X as ->; eauto|]. intros (l & X). injection X as -> _. reflexivity.
    - rewrite pair_iff. apply and_iff_compat_l. apply options. intros e. apply last_iff.
    - rewrite pair_iff. apply and_iff_compat_l, get_at_point_iff, W.
    - rewrite pair_iff. apply and_iff_compat_l, contains_point_iff, W.
    - rewrite pair_iff. apply and_iff_compat_l, get_key_value_iff; assumption.
    - rewrite pair_iff. apply and_iff_compat_l, overlapping_iff, W.
    - rewrite pair_iff. apply and_iff_compat_l, overlaps_iff, W.
    - rewrite pair_iff. apply and_iff_compat_l, contains_interval_iff, W.
    - rewrite pair_iff. apply and_iff_compat_l, gaps_untrimmed_iff; assumption.
    - rewrite pair_iff. apply and_iff_compat_l, gaps_trimmed_iff; assumption.
    - pose proof (C21_iter_mut m f) as X. unfold iter in X. rewrite pair_iff. destruct a. split.
      + intros H'. split; [|reflexivity]. eapply Forall2_fun; [|exact H'|exact X]. intros x y y' [] []. apply entry_eq; congruence.
      + intros [-> _]. exact X.
    - destruct (C21_get_at_point_mut m f p Rm) as (m2 & o & -> & Ho & F). unfold iter in *. rewrite pair_iff, (options o _ Ho a). split.
      + intros [-> F']. split; [|reflexivity]. eapply Forall2_fun; [|exact F'|exact F].
        intros x y y' (A1 & A2 & A3) (B1 & B2 & B3). apply entry_eq; [congruence|].
        assert (Cv : covers (fst x) p \/ ~ covers (fst x) p) by (rewrite covers_rk; lia). destruct Cv as [C|C]; [rewrite A2, B2 by exact C|rewrite A3, B3 by exact C]; reflexivity.
      + intros [-> ->]. auto.
    - destruct (valid_dec q) as [Vq|Nq].
      + destruct (C21_overlapping_mut m f q Rm Vq) as (m2 & -> & F). unfold iter in *. rewrite pair_iff. split.
        * intros [X _]. destruct (X Vq) as [-> F']. split; [|reflexivity]. eapply Forall2_fun; [|exact F'|exact F].
          intros x y y' (A1 & A2 & A3) (B1 & B2 & B3). apply entry_eq; [congruence|].
          assert (Ov : overlap (fst x) q \/ ~ overlap (fst x) q) by (rewrite overlap_rk; lia).
          destruct Ov as [C|C]; [rewrite A2, B2 by exact C|rewrite A3, B3 by exact C]; reflexivity.
        * intros [-> ->]. split; [auto|contradiction].
      + rewrite (overlapping_mut_invalid q m Nq f), pair_iff. split; [intros [_ X]; destruct (X Nq); auto|]. intros [-> ->]. split; [contradiction|auto].
    - apply remove_overlapping_iff, W.
    - apply cut_iff; assumption.
    - apply insert_strict_iff, W.
    - apply insert_overwrite_iff; assumption.
    - apply insert_merge_touching_iff; assumption.
    - apply insert_merge_touching_if_equal_iff; assumption.
    - apply insert_merge_overlapping_iff; assumption.
    - apply insert_merge_tor_iff; assumption.
  Qed.
  Lemma perform_reachable m c : reachable m -> reachable (fst (perform c m)).
  Proof.
    assert (X : forall o : op I K V, reachable m -> reachable (step m o)).
    { intros o (os & ->). exists (os ++ [o]). unfold run. rewrite fold_left_app. reflexivity. }
    intros Rm.
    destruct c as [| | | | |p|p|p|Q IQ q|Q IQ q|Q IQ q|Q IQ q|Q IQ q|f|f p|Q IQ f q|Q IQ q|Q IQ q|k v|k v|k v|veq k v|k v|k v];
      cbn [perform]; try exact Rm.
    - exact (X (OpIterMut f) Rm).
    - exact (X (OpGetAtPointMut f p) Rm).
    - exact (X (OpOverlappingMut f q) Rm).
    - exact (X (OpRemoveOverlapping q) Rm).
    - exact (X (OpCut q) Rm).
    - exact (X (OpInsertStrict k v) Rm).
    - exact (X (OpInsertOverwrite k v) Rm).
    - exact (X (OpInsertMergeTouching k v) Rm).
    - exact (X (OpInsertMergeTouchingIfValuesEqual veq k v) Rm).
    - exact (X (OpInsertMergeOverlapping k v) Rm).
    - exact (X (OpInsertMergeTouchingOrOverlapping k v) Rm).
  Qed.
  Lemma occurs_reachable m : occurs (nodit : implementation (I := I) (K := K) (V := V)) m -> reachable m.
  Proof. induction 1 as [|s c _ IH]; [exists []; reflexivity|apply perform_reachable, IH]. Qed.
  Lemma execute_same (i : implementation (I := I) (K := K) (V := V)) entries : as_documented i entries ->
    forall R (p : client R) s m, occurs i s -> reachable m -> entries s = m -> execute i s p = execute nodit m p.
  Proof.
    intros [_ Doc] R p. induction p as [r|c next IH]; intros s m Os Rm E; cbn [execute]; [reflexivity|].
    specialize (Doc s c Os). pose proof (occurs_after i s c Os) as Os'. pose proof (perform_reachable m c Rm) as Rm'.
    change (does nodit c m) with (perform c m). destruct (does i c s) as [s' a]. cbn [fst snd] in *.
    rewrite E in Doc. apply (perform_iff m c Rm) in Doc. rewrite <- Doc in Rm' |- *. apply IH; auto.
  Qed.
End Props.

Section Theorems.
  Context {I : Type} `{PL : PointLaws I}.
  Context {K : Type} {IK : InclusiveInterval I K} {IL : IntervalLaws I K} {FI : FromInvalid I K}.
  Context {V : Type}.

  (** ** C130 *)
  (** No program can tell two implementations apart that both do what is documented, ... *)
  Theorem C130_indistinguishable : determined_by_points I K ->
    forall (i j : implementation (I := I) (K := K) (V := V)) ei ej, as_documented i ei -> as_documented j ej ->
    forall R (p : client R), execute i (start i) p = execute j (start j) p.
  Proof.
    intros D i j ei ej Hi Hj R p. assert (R0 : reachable (new : NoditMap K V)) by (exists []; reflexivity).
    rewrite (execute_same D i ei Hi R p (start i) new (occurs_start i) R0 (proj1 Hi)).
    rewrite (execute_same D j ej Hj R p (start j) new (occurs_start j) R0 (proj1 Hj)). reflexivity.
  Qed.
  (** ... the modelled NoditMap being one of them. *)
  Theorem C130_nodit_as_documented : determined_by_points I K ->
    as_documented (nodit : implementation (I := I) (K := K) (V := V)) iter.
  Proof.
    intros D. split; [reflexivity|]. intros m c Om. apply (perform_iff D m c (occurs_reachable m Om)).
    change (does nodit c m) with (perform c m). unfold iter. destruct (perform c m). reflexivity.
  Qed.
  (** Conversely an implementation that programs cannot tell from the modelled NoditMap does
      what is documented, its states being read as what [iter] yields. *)
  Theorem C130_indistinguishable_only_if_documented : determined_by_points I K ->
    forall (i : implementation (I := I) (K := K) (V := V)),
    (forall R (p : client R), execute i (start i) p = execute nodit (start nodit) p) ->
    as_documented i (fun s => snd (does i CallIter s)).
  Proof.
    intros D i X.
    assert (Y : forall s, occurs i s -> exists m, reachable m /\ forall R (p : client R), execute i s p = execute nodit m p).
    { induction 1 as [|s c Os (m & Rm & IH)].
      - exists new. split; [exists []; reflexivity|exact X].
      - exists (fst (perform c m)). split; [apply perform_reachable, Rm|]. intros R p.
        specialize (IH R (Make R c (fun _ => p))). cbn [execute] in IH. change (does nodit c m) with (perform c m) in IH.
        destruct (does i c s), (perform c m). exact IH. }
    assert (Z : forall s m, occurs i s -> (forall R (p : client R), execute i s p = execute nodit m p) ->
      forall c, snd (does i c s) = snd (perform c m) /\ snd (does i CallIter (fst (does i c s))) = fst (perform c m)).
    { intros s m Os E c. split.
      - specialize (E _ (Make _ c (fun a => Stop _ a))). cbn [execute] in E. change (does nodit c m) with (perform c m) in E.
        destruct (does i c s), (perform c m). exact E.
      - specialize (E _ (Make _ c (fun _ => Make _ CallIter (fun a => Stop _ a)))). cbn [execute] in E. change (does nodit c m) with (perform c m) in E.
        destruct (does i c s) as [s' a], (perform c m) as [m' b]. cbn [fst]. change (does nodit CallIter m') with (m', m') in E. destruct (does i CallIter s'). exact E. }
    split.
    - specialize (X _ (Make _ CallIter (fun a => Stop _ a))). cbn [execute] in X. destruct (does i CallIter (start i)). exact X.
    - intros s c Os. destruct (Y s Os) as (m & Rm & E). destruct (Z s m Os E c) as [E1 E2]. rewrite E1, E2.
      replace (snd (does i CallIter s)) with (iter m).
      + apply (perform_iff D m c Rm). destruct (perform c m). reflexivity.
      + specialize (E _ (Make _ CallIter (fun a => Stop _ a))). cbn [execute] in E. change (does nodit CallIter m) with (m, m) in E.
        destruct (does i CallIter s). symmetry. exact E.
  Qed.
End Theorems.

(** The hypotheses are met, non-trivially: an implementation of its own that keeps the entries
    in descending order does what is documented, so that the theorem equates it with [nodit]; *)
Definition descending : implementation (I := u8) (K := Interval u8) (V := nat) :=
  {| state := list (Interval u8 * nat); start := [];
     does := fun c s => let (m', a) := perform c (rev s) in (rev m', a) |}.
Lemma descending_documented : as_documented descending (fun s => rev s).
Proof.
  split; [reflexivity|].
  assert (X : forall s : state descending, occurs descending s -> reachable (rev s)).
  { induction 1 as [|s c _ IH]; [exists []; reflexivity|]. cbn [does descending]. pose proof (perform_reachable (rev s) c IH) as Y.
    destruct (perform c (rev s)) as [m' a]. cbn [fst] in *. rewrite rev_involutive. exact Y. }
  intros s c Os. pose proof (perform_iff (V := nat) interval_determined (rev s) c (X s Os)) as Y. cbn [does descending].
  destruct (perform c (rev s)) as [m' a]. cbn [fst snd] in *. rewrite rev_involutive. apply Y. reflexivity.
Qed.
(** a program whose calls depend on earlier answers: it cuts what it found at a point and
    inserts what was cut elsewhere. *)
Definition ex_client : client (I := u8) (K := Interval u8) (V := nat) (list (Interval u8 * nat) * bool) :=
  Make _ (CallInsertStrict (1 --> 9 : Interval u8) 7) (fun _ =>
  Make _ (CallInsertOverwrite (4 --> 5 : Interval u8) 8) (fun gone =>
  Make _ (CallGetKeyValueAtPoint '3) (fun o =>
    match o with
    | Val (Ok (k, v)) =>
        Make _ (CallCut k) (fun _ =>
        Make _ (CallInsertMergeTouching (20 --> 30 : Interval u8) v) (fun _ =>
        Make _ (CallOverlaps (19 --> 20 : Interval u8)) (fun b =>
        Make _ CallIter (fun l =>
          Stop _ (l, match b with Val true => true | _ => false end)))))
    | _ => Stop _ ([], false)
    end))).
Example C130_ex : determined_by_points u8 (Interval u8) /\
  as_documented descending (fun s => rev s) /\
  execute descending (start descending) ex_client = execute nodit (start nodit) ex_client /\
  execute nodit (start nodit) ex_client =
    ([(4 --> 5 : Interval u8, 8); (6 --> 9 : Interval u8, 7); (20 --> 30 : Interval u8, 7)], true).
Proof.
  split; [exact interval_determined|]. split; [exact descending_documented|]. split.
  - exact (C130_indistinguishable interval_determined descending nodit _ _ descending_documented (C130_nodit_as_documented interval_determined) _ ex_client).
  - vm_compute. reflexivity.
Qed.

Print Assumptions C130_indistinguishable.
Print Assumptions C130_nodit_as_documented.
Print Assumptions C130_indistinguishable_only_if_documented.
