(** * OrderOnly: the NoditMap calls that convert nothing only compare points, so
      they behave alike on any two point types whose comparisons agree, and a
      finite history over any total order has an equal one over integers. *)
From Coq Require Import List ZArith Bool Lia.
From Verif Require Import Base BTree UtilsModel IntervalModel NoditModel NoditOps Spec InstancesModel Instances
  PointFacts IntervalFacts ListFacts NoditFacts NoditQueries NoditMutations NoditMerges NoditInv.
Import ListNotations.

(** ** The spec notions in terms of the end-points, for any order. *)
Section Ends.
  Context {I : Type} {OI : Ord I} {OL : TotalPreorder I}.

  Lemma ple_refl' (x : I) : ple x x.
  Proof. unfold ple. rewrite cmp_same. discriminate. Qed.
  Lemma ple_trans' (x y z : I) : ple x y -> ple y z -> ple x z.
  Proof. apply cmp_le_trans. Qed.
  Lemma ple_total' (x y : I) : ple x y \/ ple y x.
  Proof. unfold ple. rewrite (cmp_flip x y). destruct (cmp x y); cbn; [left|left|right]; discriminate. Qed.
  Lemma plt_not_ple' (x y : I) : plt x y <-> ~ ple y x.
  Proof.
    unfold plt, ple. rewrite (cmp_flip x y).
    destruct (cmp x y); cbn; split; intros X; try discriminate; try reflexivity;
      try (intros Y; apply Y; reflexivity); exfalso; apply X; discriminate.
  Qed.

  Context {A : Type} {IA : InclusiveInterval I A} {B : Type} {IB : InclusiveInterval I B}.
  Lemma valid_ends (a : A) : valid a <-> ple (istart a) (iend a).
  Proof.
    split; [intros (p & X & Y); eapply ple_trans'; eassumption|]. intros X. exists (istart a). split; [apply ple_refl'|exact X].
  Qed.
  Lemma overlap_ends (a : A) (b : B) : valid a -> valid b ->
    (overlap a b <-> ple (istart a) (iend b) /\ ple (istart b) (iend a)).
  Proof.
    intros Va Vb. apply valid_ends in Va. split.
    - intros (p & (X1 & X2) & (Y1 & Y2)). split; eapply ple_trans'; eassumption.
    - intros [X Y]. destruct Vb as (p & Vb1 & Vb2). assert (Vb := ple_trans' _ _ _ Vb1 Vb2).
      destruct (ple_total' (istart a) (istart b)) as [T|T].
      + exists (istart b). split; split; auto using ple_refl'.
      + exists (istart a). split; split; auto using ple_refl'.
  Qed.
  Lemma before_ends (a : A) (b : B) : valid a -> valid b -> (before a b <-> plt (iend a) (istart b)).
  Proof.
    intros (p & V1 & V2) (r & V3 & V4). assert (Va := ple_trans' _ _ _ V1 V2). assert (Vb := ple_trans' _ _ _ V3 V4). split.
    - intros X. apply X; split; auto using ple_refl'.
    - intros X x y [_ Hx] [Hy _]. apply plt_not_ple'. intros C. apply plt_not_ple' in X. apply X.
      apply (ple_trans' _ y); [exact Hy|]. apply (ple_trans' _ x); assumption.
  Qed.
End Ends.

(** ** Searches with comparators that agree on the stored keys. *)
Section Searches.
  Context {K V : Type}.
  Implicit Types (l m : BTreeMap K V) (c d : K -> comparison).
  Definition agree c d l : Prop := Forall (fun e => c (fst e) = d (fst e)) l.

  Lemma seek_agree c d l : agree c d l -> seek c l = seek d l.
  Proof.
    induction l as [|[k v] l IH]; intros A; [reflexivity|]. inversion A; subst. cbn in *. rewrite H1.
    destruct (d k); try reflexivity. rewrite IH by assumption. reflexivity.
  Qed.
  Lemma seek_app c l : l = fst (seek c l) ++ snd (seek c l).
  Proof.
    induction l as [|[k v] l IH]; [reflexivity|]. cbn. destruct (c k); try reflexivity.
    destruct (seek c l) as [a b]. cbn in *. rewrite IH at 1. reflexivity.
  Qed.
  Lemma agree_seek c d c' l : agree c d l -> agree c d (snd (seek c' l)).
  Proof. intros A. rewrite (seek_app c' l) in A. apply Forall_app in A. apply A. Qed.
  Lemma get_key_value_agree c d l : agree c d l -> get_key_value c l = get_key_value d l.
  Proof.
    intros A. unfold get_key_value. pose proof (agree_seek c d d l A) as B. rewrite (seek_agree c d l A).
    destruct (snd (seek d l)) as [|[k v] r]; [reflexivity|]. inversion B; subst. cbn in *. rewrite H1. reflexivity.
  Qed.
  Lemma get_mut_agree c d f l : agree c d l -> get_mut c f l = get_mut d f l.
  Proof.
    intros A. unfold get_mut. pose proof (agree_seek c d d l A) as B. rewrite (seek_agree c d l A).
    destruct (seek d l) as [a [|[k v] r]]; [reflexivity|]. inversion B; subst. cbn in *. rewrite H1. reflexivity.
  Qed.
  Lemma take_upper_agree c d l : agree c d l -> take_upper c l = take_upper d l.
  Proof.
    induction l as [|[k v] l IH]; intros A; [reflexivity|]. inversion A; subst. cbn in *. rewrite H1, IH by assumption. reflexivity.
  Qed.
  Lemma map_upper_agree c d f l : agree c d l -> map_upper c f l = map_upper d f l.
  Proof.
    induction l as [|[k v] l IH]; intros A; [reflexivity|]. inversion A; subst. cbn in *. rewrite H1, IH by assumption. reflexivity.
  Qed.
  Lemma range_agree c d c' d' l : agree c d l -> agree c' d' l -> range c c' l = range d d' l.
  Proof. intros A B. unfold range. rewrite (seek_agree c d l A). apply take_upper_agree, agree_seek, B. Qed.
  Lemma range_mut_agree c d c' d' f l : agree c d l -> agree c' d' l -> range_mut c c' f l = range_mut d d' f l.
  Proof.
    intros A B. unfold range_mut. rewrite (seek_agree c d l A). pose proof (agree_seek c' d' d l B) as C.
    destruct (seek d l) as [a b]. rewrite (map_upper_agree c' d' f b C). reflexivity.
  Qed.

  (** What the calls do to the stored keys. *)
  Context (P : K -> Prop).
  Definition keys l : Prop := Forall (fun e => P (fst e)) l.
  Lemma keys_seek c l : keys l -> keys (fst (seek c l)) /\ keys (snd (seek c l)).
  Proof. intros A. rewrite (seek_app c l) in A. apply Forall_app in A. exact A. Qed.
  Lemma keys_get_mut c f l : keys l -> keys (fst (get_mut c f l)).
  Proof.
    intros A. unfold get_mut. pose proof (keys_seek c l A) as [B C].
    destruct (seek c l) as [a [|[k v] r]]; [exact A|]. cbn in *. destruct (c k); try exact A.
    inversion C; subst. apply Forall_app. split; [exact B|]. constructor; assumption.
  Qed.
  Lemma keys_map_values f l : keys l -> keys (map_values f l).
  Proof. induction 1; constructor; assumption. Qed.
  Lemma keys_map_upper c f l : keys l -> keys (map_upper c f l).
  Proof.
    induction 1 as [|[k v] l A B IH]; [constructor|]. cbn. destruct (c k); constructor; cbn; assumption.
  Qed.
  Lemma keys_range_mut c d f l : keys l -> keys (range_mut c d f l).
  Proof.
    intros A. unfold range_mut. pose proof (keys_seek c l A) as [B C]. destruct (seek c l) as [a b].
    apply Forall_app. split; [exact B|]. apply keys_map_upper, C.
  Qed.
  Lemma keys_insert k v (c : K -> K -> comparison) l : P k -> keys l -> keys (fst (insert k v c l)).
  Proof.
    intros Pk A. unfold insert. pose proof (keys_seek (fun inner => c inner k) l A) as [B C].
    destruct (seek (fun inner => c inner k) l) as [a [|[k' v'] r]]; cbn in *.
    - apply Forall_app. split; [exact B|]. repeat constructor. exact Pk.
    - inversion C; subst. destruct (c k' k); cbn; apply Forall_app; (split; [exact B|]); repeat constructor; assumption.
  Qed.
  Lemma insert_agree k v (c c' : K -> K -> comparison) l : keys l -> (forall k', P k' -> c k' k = c' k' k) ->
    insert k v c l = insert k v c' l.
  Proof.
    intros A E. unfold insert.
    assert (G : agree (fun inner => c inner k) (fun inner => c' inner k) l).
    { apply (Forall_impl _ (P := fun e => P (fst e))); [|exact A]. intros e. apply E. }
    pose proof (keys_seek (fun inner => c' inner k) l A) as [_ C]. rewrite (seek_agree _ _ l G).
    destruct (seek (fun inner => c' inner k) l) as [a [|[k' v'] r]]; [reflexivity|].
    cbn in C. inversion C; subst. rewrite (E k') by assumption. reflexivity.
  Qed.
End Searches.

(** The points an op mentions. *)
Section PointsOf.
  Context {I : Type} {K : Type} {IK : InclusiveInterval I K} {V : Type}.
  Definition ends {A} {IA : InclusiveInterval I A} (a : A) : list I := [istart a; iend a].
  Definition op_points (o : op I K V) : list I :=
    match o with
    | OpNew | OpIterMut _ => []
    | OpInsertStrict k _ | OpInsertMergeTouching k _ | OpInsertMergeTouchingIfValuesEqual _ k _
    | OpInsertMergeOverlapping k _ | OpInsertMergeTouchingOrOverlapping k _ | OpInsertOverwrite k _ => ends k
    | OpRemoveOverlapping q | OpCut q | OpOverlappingMut _ q => ends q
    | OpGetAtPointMut _ p => [p]
    | OpFromIterStrict l => flat_map (fun e => ends (fst e)) l
    | OpDeserialize l => flat_map (fun e => match e with Some e => ends (fst e) | None => [] end) l
    end.
End PointsOf.

Section Agree.
  Context {I : Type} {OI : Ord I} {DI : DiscreteFinite I} {OLI : TotalPreorder I}.
  Context {J : Type} {OJ : Ord J} {DJ : DiscreteFinite J} {OLJ : TotalPreorder J}.
  (** [f] keeps the comparisons of the points in [P]. *)
  Context (f : I -> J) (P : I -> Prop).
  Hypothesis faithful : forall x y, P x -> P y -> cmp (f x) (f y) = cmp x y.

  (** The same intervals over the points of [J]; their conversion is arbitrary. *)
  #[local] Instance image (K : Type) (IK : InclusiveInterval I K) : InclusiveInterval J K := {
    istart := fun k => f (istart k);
    iend := fun k => f (iend k);
    ifrom := fun _ => ifrom (mkInterval (MIN : I) (MAX : I))
  }.
  Definition ok {K} {IK : InclusiveInterval I K} (k : K) : Prop := P (istart k) /\ P (iend k).

  Lemma leb_f x y : P x -> P y -> leb (f x) (f y) = leb x y.
  Proof. intros A B. unfold leb. rewrite faithful by assumption. reflexivity. Qed.
  Lemma ltb_f x y : P x -> P y -> ltb (f x) (f y) = ltb x y.
  Proof. intros A B. unfold ltb. rewrite faithful by assumption. reflexivity. Qed.
  Lemma ple_f x y : P x -> P y -> (ple (f x) (f y) <-> ple x y).
  Proof. intros A B. unfold ple. rewrite faithful by assumption. reflexivity. Qed.
  Lemma plt_f x y : P x -> P y -> (plt (f x) (f y) <-> plt x y).
  Proof. intros A B. unfold plt. rewrite faithful by assumption. reflexivity. Qed.

  Section One.
    Context {K : Type} {IK : InclusiveInterval I K}.
    Lemma covers_f (k : K) p : ok k -> P p -> (covers k (f p) <-> covers k p).
    Proof. intros [A B] C. unfold covers. cbn. rewrite !ple_f by assumption. reflexivity. Qed.
    Lemma valid_f (k : K) : ok k -> (valid (I := J) k <-> valid (I := I) k).
    Proof. intros [A B]. rewrite !valid_ends. apply ple_f; assumption. Qed.
    Lemma iip_f (k : K) : ok k -> invalid_interval_panic (I := J) k = invalid_interval_panic (I := I) k.
    Proof. intros [A B]. unfold invalid_interval_panic, is_valid. cbn. rewrite leb_f by assumption. reflexivity. Qed.
    Lemma overlapping_comp_f p (k : K) : P p -> ok k -> overlapping_comp (f p) k = overlapping_comp p k.
    Proof.
      intros A [B C]. unfold overlapping_comp, cmp_point_with_interval, inclusive_comp, ltb, gtb. cbn.
      rewrite !faithful by assumption. reflexivity.
    Qed.
    Lemma contains_f p (k : K) : P p -> ok k -> utils_contains_point k (f p) = utils_contains_point k p.
    Proof.
      intros A B. pose proof (overlapping_comp_f p k A B) as E. unfold overlapping_comp in E.
      unfold utils_contains_point. rewrite E. reflexivity.
    Qed.
    Lemma starts_comp_f (k k' : K) : ok k -> ok k' -> starts_comp (I := J) k k' = starts_comp (I := I) k k'.
    Proof. intros [A _] [B _]. apply faithful; assumption. Qed.
  End One.
  Section Two.
    Context {K : Type} {IK : InclusiveInterval I K} {Q : Type} {IQ : InclusiveInterval I Q}.
    Lemma overlap_f (k : K) (q : Q) : ok k -> ok q -> valid (I := I) k -> valid (I := I) q ->
      (overlap (I := J) k q <-> overlap (I := I) k q).
    Proof.
      intros Ok Oq Vk Vq. rewrite !overlap_ends; try (apply valid_f; assumption); try assumption.
      destruct Ok, Oq. cbn. rewrite !ple_f by assumption. reflexivity.
    Qed.
    Lemma before_f (k : K) (q : Q) : ok k -> ok q -> valid (I := I) k -> valid (I := I) q ->
      (before (I := J) k q <-> before (I := I) k q).
    Proof.
      intros Ok Oq Vk Vq. rewrite !before_ends; try (apply valid_f; assumption); try assumption.
      destruct Ok, Oq. cbn. apply plt_f; assumption.
    Qed.
    Lemma config_f (q : Q) (k : K) : ok q -> ok k -> config (I := J) q k = config (I := I) q k.
    Proof.
      intros Oq Ok. unfold config. change (istart (I := J) q) with (f (istart q)). change (iend (I := J) q) with (f (iend q)).
      change (istart (I := J) k) with (f (istart k)). change (iend (I := J) k) with (f (iend k)).
      pose proof Oq as [O1 O2]. pose proof Ok as [O3 O4]. rewrite ltb_f, !contains_f by assumption. reflexivity.
    Qed.
    Lemma overlaps_f (q : Q) (k : K) : ok q -> ok k -> overlaps (I := J) q k = overlaps (I := I) q k.
    Proof.
      intros Oq Ok. unfold overlaps, sorted_config. rewrite (config_f q k Oq Ok). destruct (config (I := I) q k) as [[]|]; reflexivity.
    Qed.
  End Two.

  Section Maps.
    Context {K : Type} {IK : InclusiveInterval I K} {V : Type}.
    Implicit Types (m : NoditMap K V).
    Definition okm m : Prop := keys (ok (K := K)) m.

    Lemma agree_f p m : P p -> okm m -> agree (overlapping_comp (f p)) (overlapping_comp p) m.
    Proof. intros A B. apply (Forall_impl _ (P := fun e => ok (fst e))); [|exact B]. intros e. apply overlapping_comp_f, A. Qed.
    Lemma gkv_f p m : P p -> okm m ->
      get_key_value (overlapping_comp (f p)) m = get_key_value (overlapping_comp p) m.
    Proof. intros A B. apply get_key_value_agree, agree_f; assumption. Qed.
    Section Q.
      Context {Q : Type} {IQ : InclusiveInterval I Q}.
      Lemma overlapping_f m (q : Q) : okm m -> ok q -> overlapping (I := J) m q = overlapping (I := I) m q.
      Proof.
        intros A B. unfold overlapping. rewrite (iip_f q B). destruct (invalid_interval_panic (I := I) q); [|reflexivity]. cbn.
        destruct B. f_equal. apply range_agree; apply agree_f; assumption.
      Qed.
      Lemma map_overlaps_f m (q : Q) : okm m -> ok q -> map_overlaps (I := J) m q = map_overlaps (I := I) m q.
      Proof.
        intros A B. unfold map_overlaps. rewrite (iip_f q B), (overlapping_f m q A B). reflexivity.
      Qed.
      Lemma remove_loop_f (q : Q) post : forall pre acc, ok q -> okm post ->
        remove_overlapping_loop (I := J) q pre post acc = remove_overlapping_loop (I := I) q pre post acc.
      Proof.
        induction post as [|[k v] post IH]; intros pre acc A B; [reflexivity|]. inversion B; subst. cbn.
        rewrite (overlaps_f q k A) by assumption. destruct (overlaps (I := I) q k) as [[]|]; try reflexivity. apply IH; assumption.
      Qed.
      Lemma remove_overlapping_f (q : Q) m : okm m -> ok q ->
        remove_overlapping (I := J) q m = remove_overlapping (I := I) q m.
      Proof.
        intros A B. unfold remove_overlapping. rewrite (iip_f q B). destruct (invalid_interval_panic (I := I) q); [|reflexivity].
        unfold lower_bound. destruct B as [B1 B2].
        change (istart (I := J) q) with (f (istart q)). rewrite (seek_agree _ _ m (agree_f (istart q) m B1 A)).
        cbn. apply remove_loop_f; [split; assumption|]. apply (keys_seek ok), A.
      Qed.
      Lemma remove_loop_okm (q : Q) post : forall pre acc, okm pre -> okm post ->
        okm (fst (remove_overlapping_loop (I := I) q pre post acc)).
      Proof.
        assert (G : forall a b, okm a -> okm b -> okm (a ++ b)) by (intros a b X Y; apply Forall_app; auto).
        induction post as [|[k v] post IH]; intros pre acc A B; cbn; [apply G; assumption|].
        destruct (overlaps (I := I) q k) as [[]|]; try (apply G; assumption). inversion B; subst. apply IH; assumption.
      Qed.
      Lemma remove_overlapping_okm (q : Q) m : okm m -> okm (fst (remove_overlapping (I := I) q m)).
      Proof.
        intros A. unfold remove_overlapping. destruct (invalid_interval_panic (I := I) q); [|exact A].
        apply remove_loop_okm; apply (keys_seek ok), A.
      Qed.
      Lemma overlapping_mut_f g (q : Q) m : okm m -> ok q ->
        overlapping_mut (I := J) g q m = overlapping_mut (I := I) g q m.
      Proof.
        intros A B. unfold overlapping_mut. rewrite (iip_f q B). destruct (invalid_interval_panic (I := I) q); [|reflexivity].
        destruct B. f_equal. apply range_mut_agree; apply agree_f; assumption.
      Qed.
      Lemma overlapping_mut_okm g (q : Q) m : okm m -> okm (fst (overlapping_mut (I := I) g q m)).
      Proof.
        intros A. unfold overlapping_mut. destruct (invalid_interval_panic (I := I) q); [|exact A]. apply keys_range_mut, A.
      Qed.
    End Q.
    Lemma insert_strict_f k v m : okm m -> ok k -> insert_strict (I := J) k v m = insert_strict (I := I) k v m.
    Proof.
      intros A B. unfold insert_strict. rewrite (iip_f k B), (map_overlaps_f m k A B).
      destruct (invalid_interval_panic (I := I) k); [|reflexivity]. destruct (map_overlaps (I := I) m k) as [[]|]; try reflexivity.
      f_equal. unfold insert_unchecked. f_equal. apply (insert_agree ok); [exact A|]. intros k' X. apply starts_comp_f; assumption.
    Qed.
    Lemma insert_strict_okm k v m : okm m -> ok k -> okm (fst (insert_strict (I := I) k v m)).
    Proof.
      intros A B. unfold insert_strict. destruct (invalid_interval_panic (I := I) k); [|exact A].
      destruct (map_overlaps (I := I) m k) as [[]|]; try exact A. apply keys_insert; assumption.
    Qed.
    Lemma extend_strict_f l : forall m, okm m -> Forall (fun e => ok (fst e)) l ->
      extend_strict (I := J) l m = extend_strict (I := I) l m /\
      (forall m', extend_strict (I := I) l m = Val (Ok m') -> okm m').
    Proof.
      induction l as [|[k v] l IH]; intros m A B; cbn.
      - split; [reflexivity|]. intros m' E. injection E as <-. exact A.
      - inversion B; subst. cbn in *. rewrite (insert_strict_f k v m) by assumption.
        pose proof (insert_strict_okm k v m A H1) as C. destruct (insert_strict (I := I) k v m) as [m1 [[u|e]|]];
          try (split; [reflexivity|discriminate]). apply IH; assumption.
    Qed.
    Lemma visit_seq_f l : forall m, okm m -> Forall (fun e => match e with Some e => ok (fst e) | None => True end) l ->
      visit_seq (I := J) l m = visit_seq (I := I) l m /\
      (forall m', visit_seq (I := I) l m = Val (Ok m') -> okm m').
    Proof.
      induction l as [|[[k v]|] l IH]; intros m A B; cbn.
      - split; [reflexivity|]. intros m' E. injection E as <-. exact A.
      - inversion B; subst. cbn in *. rewrite (insert_strict_f k v m) by assumption.
        pose proof (insert_strict_okm k v m A H1) as C. destruct (insert_strict (I := I) k v m) as [m1 [[u|e]|]];
          try (split; [reflexivity|discriminate]). apply IH; assumption.
      - split; [reflexivity|discriminate].
    Qed.

    (** The same call over [J]. *)
    Definition op_f (o : op I K V) : op J K V :=
      match o with
      | OpNew => OpNew
      | OpInsertStrict k v => OpInsertStrict k v
      | OpInsertMergeTouching k v => OpInsertMergeTouching k v
      | OpInsertMergeTouchingIfValuesEqual veq k v => OpInsertMergeTouchingIfValuesEqual veq k v
      | OpInsertMergeOverlapping k v => OpInsertMergeOverlapping k v
      | OpInsertMergeTouchingOrOverlapping k v => OpInsertMergeTouchingOrOverlapping k v
      | OpInsertOverwrite k v => OpInsertOverwrite k v
      | OpRemoveOverlapping q => OpRemoveOverlapping q
      | OpCut q => OpCut q
      | OpOverlappingMut g q => OpOverlappingMut g q
      | OpGetAtPointMut g p => OpGetAtPointMut g (f p)
      | OpIterMut g => OpIterMut g
      | OpFromIterStrict l => OpFromIterStrict l
      | OpDeserialize l => OpDeserialize l
      end.
    Lemma converts_nothing_f o : converts_nothing o -> converts_nothing (op_f o).
    Proof. destruct o; exact (fun x => x). Qed.
    Lemma step_f m o : okm m -> converts_nothing o -> Forall P (op_points o) ->
      step m (op_f o) = step m o /\ okm (step m o).
    Proof.
      intros A N B.
      assert (E2 : forall A (IA : InclusiveInterval I A) (a : A), Forall P (ends a) -> ok a).
      { intros T IT a X. inversion X as [|? ? X1 X2]; subst. inversion X2; subst. split; assumption. }
      destruct o as [|k v|k v|veq k v|k v|k v|k v|Q IQ q|Q IQ q|Q IQ g q|g p|g|l|l]; cbn in N; try contradiction;
        cbn [step op_f op_points] in *.
      - split; [reflexivity|constructor].
      - apply E2 in B. rewrite insert_strict_f by assumption. split; [reflexivity|apply insert_strict_okm; assumption].
      - apply E2 in B. rewrite remove_overlapping_f by assumption. split; [reflexivity|apply remove_overlapping_okm; assumption].
      - apply E2 in B. rewrite overlapping_mut_f by assumption. split; [reflexivity|apply overlapping_mut_okm; assumption].
      - inversion B; subst. unfold get_at_point_mut. rewrite (get_mut_agree _ _ g m (agree_f p m ltac:(assumption) A)).
        split; [reflexivity|]. apply keys_get_mut, A.
      - split; [reflexivity|]. apply keys_map_values, A.
      - assert (B' : Forall (fun e => ok (fst e)) l).
        { apply Forall_forall. intros e He. apply E2, Forall_forall. intros x Hx. rewrite Forall_forall in B. apply B.
          apply in_flat_map. exists e. auto. }
        unfold from_iter_strict. destruct (extend_strict_f l new) as [F1 F2]; [constructor|exact B'|]. rewrite F1.
        split; [reflexivity|]. destruct (extend_strict (I := I) l new) as [[m'|]|]; [apply F2; reflexivity|exact A|exact A].
      - assert (B' : Forall (fun e : option (K * V) => match e with Some e => ok (fst e) | None => True end) l).
        { apply Forall_forall. intros [e|] He; [|constructor]. apply E2, Forall_forall. intros x Hx. rewrite Forall_forall in B. apply B.
          apply in_flat_map. exists (Some e). auto. }
        unfold deserialize. destruct (visit_seq_f l new) as [F1 F2]; [constructor|exact B'|]. rewrite F1.
        split; [reflexivity|]. destruct (visit_seq (I := I) l new) as [[m'|]|]; [apply F2; reflexivity|exact A|exact A].
    Qed.
    Lemma run_f ops : Forall converts_nothing ops -> Forall P (flat_map op_points ops) ->
      run (map op_f ops) = run ops /\ okm (run ops).
    Proof.
      unfold run. assert (A0 : okm (@new K V)) by constructor. revert A0. generalize (@new K V).
      induction ops as [|o ops IH]; intros m A N B; cbn in *; [auto|].
      inversion N; subst. apply Forall_app in B. destruct B as [B1 B2].
      destruct (step_f m o A ltac:(assumption) B1) as [E F]. rewrite E. apply IH; assumption.
    Qed.
  End Maps.
End Agree.

(** ** Finitely many points of any order, in order, are integers. *)
Section Rank.
  Context {I : Type} {OI : Ord I} {OLI : TotalPreorder I}.
  Context (L : list I).
  Definition below (x : I) : list I := filter (fun y => ltb y x) L.
  #[local] Instance IntType_rank : IntType 0 (Z.of_nat (length L)).
  Proof. constructor; unfold fits; apply andb_true_iff; split; apply Z.leb_le; lia. Qed.
  Definition rank (x : I) : int 0 (Z.of_nat (length L)).
  Proof.
    refine (mkInt (Z.of_nat (length (below x))) _).
    unfold fits. apply andb_true_iff; split; apply Z.leb_le; [lia|].
    apply inj_le. unfold below. generalize (fun y => ltb y x). intros g.
    induction L as [|a l IH]; cbn; [lia|]. destruct (g a); cbn; lia.
  Defined.
  Lemma rank_lt x y : In x L -> plt x y -> (length (below x) < length (below y))%nat.
  Proof.
    intros A B.
    assert (T : forall a, ltb a x = true -> ltb a y = true).
    { intros a. unfold ltb. intros X.
      assert (C : plt a y).
      { apply plt_not_ple'. intros C. assert (D : plt a x) by (unfold plt; destruct (cmp a x); congruence).
        apply plt_not_ple' in D. apply D. apply (ple_trans' _ y); [|exact C]. unfold ple. rewrite B. discriminate. }
      rewrite C. reflexivity. }
    assert (X : ltb x x = false) by (unfold ltb; rewrite cmp_same; reflexivity).
    assert (Y : ltb x y = true) by (unfold ltb; rewrite B; reflexivity).
    assert (M : forall l, (length (filter (fun z => ltb z x) l) <= length (filter (fun z => ltb z y) l))%nat).
    { intros l. induction l as [|b l IH]; cbn; [lia|]. destruct (ltb b x) eqn:E; [rewrite (T b E); cbn; lia|].
      destruct (ltb b y); cbn; lia. }
    unfold below. induction L as [|a l IH]; [contradiction|]. cbn. destruct A as [->|A].
    - rewrite X, Y. cbn. specialize (M l). lia.
    - specialize (IH A). destruct (ltb a x) eqn:E; [rewrite (T a E); cbn; lia|]. destruct (ltb a y); cbn; lia.
  Qed.
  Lemma rank_eq x y : cmp x y = Eq -> length (below x) = length (below y).
  Proof.
    intros E. assert (F : cmp y x = Eq) by (rewrite (cmp_flip x y), E; reflexivity).
    assert (T : forall u w a, cmp u w = Eq -> ltb a u = true -> ltb a w = true).
    { intros u w a C. unfold ltb. intros X. assert (D : plt a w); [|rewrite D; reflexivity].
      apply plt_not_ple'. intros Y. assert (Z : plt a u) by (unfold plt; destruct (cmp a u); congruence).
      apply plt_not_ple' in Z. apply Z. apply (ple_trans' _ w); [unfold ple; rewrite C; discriminate|exact Y]. }
    unfold below. f_equal. apply filter_ext. intros a. apply eq_true_iff_eq. split; apply T; assumption.
  Qed.
  Lemma rank_faithful x y : In x L -> In y L -> cmp (rank x) (rank y) = cmp x y.
  Proof.
    intros A B. rewrite cmp_int. cbn. destruct (cmp x y) eqn:E.
    - apply Z.compare_eq_iff. rewrite (rank_eq x y E). reflexivity.
    - apply Z.compare_lt_iff. apply inj_lt, rank_lt; assumption.
    - apply Z.compare_gt_iff. apply inj_lt, rank_lt; [assumption|]. unfold plt. rewrite (cmp_flip x y), E. reflexivity.
  Qed.
End Rank.

(** ** Any plain history is one over integers. *)
Section Transport.
  Context {I : Type} {OI : Ord I} {DI : DiscreteFinite I} {OLI : TotalPreorder I}.
  Context {K : Type} {IK : InclusiveInterval I K} {V : Type}.
  Context (ops : list (op I K V)) (E : list I) (N : Forall converts_nothing ops).
  Let L : list I := flat_map op_points ops ++ E.
  Let J : Type := int 0 (Z.of_nat (length L)).
  Let P (x : I) : Prop := In x L.
  Let f : I -> J := rank L.
  #[local] Existing Instance IntType_rank.
  #[local] Instance KJ (A : Type) (IA : InclusiveInterval I A) : InclusiveInterval J A := image f A IA.
  Let m : NoditMap K V := run ops.

  Lemma tr_E x : In x E -> P x.
  Proof. intros X. apply in_or_app. right. exact X. Qed.
  Lemma tr_ends {A} {IA : InclusiveInterval I A} (a : A) : incl (ends a) E -> ok P a.
  Proof. intros X. split; apply tr_E, X; cbn; auto. Qed.
  Lemma tr_faithful x y : P x -> P y -> cmp (f x) (f y) = cmp x y.
  Proof. apply rank_faithful. Qed.
  Lemma tr_run : run (map (op_f f) ops) = m /\ okm P m.
  Proof.
    apply (run_f f P tr_faithful); [exact N|]. apply Forall_forall. intros x X. apply in_or_app. left. exact X.
  Qed.
  Lemma tr_WF : WF (I := J) m.
  Proof.
    destruct tr_run as [<- _]. apply plain_run_WF. apply Forall_forall. intros o X.
    apply in_map_iff in X. destruct X as (o' & <- & X). apply converts_nothing_f. rewrite Forall_forall in N. apply N, X.
  Qed.
  Lemma tr_key k v : In (k, v) m -> ok P k /\ valid (I := I) k.
  Proof.
    intros X. destruct tr_run as [_ O]. pose proof (proj1 (Forall_forall _ _) O _ X) as Ok. cbn in Ok. split; [exact Ok|].
    apply (valid_f f P tr_faithful k Ok). destruct (proj2 (ascending_WF m) tr_WF) as [_ W].
    rewrite Forall_forall in W. apply W. apply (in_map fst _ _ X).
  Qed.

  Lemma o_ascending : ascending (I := I) (map fst m) /\ Forall (valid (I := I)) (map fst m).
  Proof.
    destruct (proj2 (ascending_WF m) tr_WF) as [A _]. split.
    - assert (B : Forall (fun k => ok P k /\ valid (I := I) k) (map fst m)).
      { apply Forall_forall. intros k X. apply in_map_iff in X. destruct X as ([k' v] & <- & X). apply (tr_key k' v X). }
      revert A B. unfold ascending. generalize (map fst m). intros l A. induction A as [|k l A IH F]; intros B; [constructor|].
      inversion B as [|? ? [B1 B2] B3]; subst. constructor; [apply IH, B3|]. rewrite Forall_forall in *.
      intros k' X. destruct (B3 k' X) as [B4 B5]. apply (before_f f P tr_faithful k k' B1 B4 B2 B5). apply F, X.
    - apply Forall_forall. intros k X. apply in_map_iff in X. destruct X as ([k' v] & <- & X). apply (tr_key k' v X).
  Qed.

  Lemma o_get_key_value p k v : In p E ->
    (get_key_value (overlapping_comp p) m = Some (k, v) <-> In (k, v) m /\ covers k p).
  Proof.
    intros X. apply tr_E in X. rewrite <- (gkv_f f P tr_faithful p m X (proj2 tr_run)).
    pose proof (get_key_value_at_point_Ok m (f p) tr_WF k v) as G. unfold get_key_value_at_point in G. unfold iter in G.
    assert (C : (In (k, v) m /\ covers (I := I) k p) <-> (In (k, v) m /\ covers (I := J) k (f p))).
    { split; intros [A B]; (split; [exact A|]); apply (covers_f f P tr_faithful k p (proj1 (tr_key k v A)) X); exact B. }
    rewrite C, <- G. fold f. destruct (get_key_value (overlapping_comp (f p)) m) as [kv|].
    - split; intros Y; injection Y as ->; reflexivity.
    - split; [discriminate|]. destruct (get_gap_at_raw m (f p)); discriminate.
  Qed.

  Context {Q : Type} {IQ : InclusiveInterval I Q} (q : Q) (Eq : incl (ends q) E) (Vq : valid (I := I) q).
  Lemma tr_q : ok P q /\ valid (I := J) q.
  Proof. pose proof (tr_ends q Eq) as O. split; [exact O|]. apply (valid_f f P tr_faithful q O), Vq. Qed.
  Lemma tr_overlap k v : In (k, v) m -> (overlap (I := J) k q <-> overlap (I := I) k q).
  Proof. intros X. destruct (tr_key k v X). destruct tr_q. apply (overlap_f f P tr_faithful); assumption. Qed.
  Lemma sub_same {A} (R S : A -> Prop) l l' : (forall x, In x l -> (R x <-> S x)) -> sub R l l' -> sub S l l'.
  Proof.
    intros H X. induction X as [|x l l' Y X IH|x l l' Y X IH]; constructor; try (apply IH; intros; apply H; right; assumption).
    - apply H; [left; reflexivity|exact Y].
    - intros Z. apply Y, H; [left; reflexivity|exact Z].
  Qed.
  Lemma o_overlapping : exists l, overlapping (I := I) m q = Val l /\ sub (fun e => overlap (I := I) (fst e) q) m l.
  Proof.
    destruct tr_q as [O V'']. rewrite <- (overlapping_f f P tr_faithful m q (proj2 tr_run) O).
    destruct (overlapping_spec m q tr_WF V'') as (l & A & B). exists l. split; [exact A|].
    refine (sub_same _ _ _ _ _ B). intros [k v] X. apply (tr_overlap k v X).
  Qed.
  Lemma o_map_overlaps : exists b, map_overlaps (I := I) m q = Val b /\
    (b = true <-> exists e, In e m /\ overlap (I := I) (fst e) q).
  Proof.
    destruct tr_q as [O V'']. rewrite <- (map_overlaps_f f P tr_faithful m q (proj2 tr_run) O).
    destruct (map_overlaps_spec m q tr_WF V'') as (b & A & B). exists b. split; [exact A|]. rewrite B. split.
    - intros (k & v & X & Y). exists (k, v). split; [exact X|]. apply (tr_overlap k v X), Y.
    - intros ([k v] & X & Y). exists k, v. split; [exact X|]. apply (tr_overlap k v X), Y.
  Qed.
  Lemma o_remove_overlapping : exists m' removed, remove_overlapping (I := I) q m = (m', Val removed) /\
    sub (fun e => overlap (I := I) (fst e) q) m removed /\ sub (fun e => ~ overlap (I := I) (fst e) q) m m'.
  Proof.
    destruct tr_q as [O V'']. rewrite <- (remove_overlapping_f f P tr_faithful q m (proj2 tr_run) O).
    destruct (remove_overlapping_spec m q tr_WF V'') as (m' & o & A & B & C & _). exists m', o. split; [exact A|]. split.
    - refine (sub_same _ _ _ _ _ B). intros [k v] X. apply (tr_overlap k v X).
    - refine (sub_same _ _ _ _ _ C). intros [k v] X. pose proof (tr_overlap k v X) as Y. cbn. rewrite Y. reflexivity.
  Qed.
End Transport.

Section Insert.
  Context {I : Type} {OI : Ord I} {DI : DiscreteFinite I} {OLI : TotalPreorder I}.
  Context {K : Type} {IK : InclusiveInterval I K} {V : Type}.
  Context (ops : list (op I K V)) (N : Forall converts_nothing ops) (k : K) (v : V) (Vk : valid k).
  #[local] Existing Instance IntType_rank.
  Lemma o_insert_strict :
    ((exists e, In e (run ops) /\ overlap (fst e) k) -> insert_strict k v (run ops) = (run ops, Val (Err v))) /\
    (~ (exists e, In e (run ops) /\ overlap (fst e) k) ->
     exists l1 l2, run ops = l1 ++ l2 /\ insert_strict k v (run ops) = (l1 ++ (k, v) :: l2, Val (Ok tt))).
  Proof.
    pose (E := ends k). assert (Ek : incl (ends k) E) by apply incl_refl.
    pose proof (tr_run ops E N) as [_ O]. pose proof (tr_WF ops E N) as W. destruct (tr_q ops E k Ek Vk) as [Ok VJ].
    pose proof (tr_overlap ops E N k Ek Vk) as T.
    rewrite <- (insert_strict_f _ _ (tr_faithful ops E) k v (run ops) O Ok). split.
    - intros ([k' v'] & A & B). apply insert_strict_refused; [exact W|exact VJ|]. exists k', v'. split; [exact A|]. apply (T k' v' A), B.
    - intros X. destruct (insert_strict_done _ k v W VJ) as (l1 & l2 & E1 & E2 & _).
      { intros k' v' A B. apply X. exists (k', v'). split; [exact A|]. apply (T k' v' A), B. }
      exists l1, l2. split; [exact E1|exact E2].
  Qed.
End Insert.

(** ** Lookups that miss. *)
Section Misses.
  Context {I : Type} {OI : Ord I} {DI : DiscreteFinite I} {OLI : TotalPreorder I}.
  Context {K : Type} {IK : InclusiveInterval I K} {V : Type}.
  Implicit Types (m : NoditMap K V).
  (** All that a lookup in a gap asks of [up] and [down]: there is something
      above a point that is not the greatest, and below one that is not the least. *)
  Definition steps_exist : Prop := forall x y : I, plt x y -> up x <> None /\ down y <> None.

  Lemma seek_fst_Gt (c : K -> comparison) m e : In e (fst (seek c m)) -> c (fst e) = Gt.
  Proof.
    induction m as [|[k v] m IH]; [contradiction|]. cbn. destruct (c k) eqn:C; try contradiction.
    destruct (seek c m) as [a b]. cbn. intros [<-|X]; [exact C|apply IH, X].
  Qed.
  Lemma seek_snd_Gt (c : K -> comparison) m k v r : snd (seek c m) = (k, v) :: r -> c k <> Gt.
  Proof.
    induction m as [|[k' v'] m IH]; [discriminate|]. cbn. destruct (c k') eqn:C.
    1,2: intros X; injection X as -> -> ->; rewrite C; discriminate.
    destruct (seek c m) as [a b]. cbn in *. apply IH.
  Qed.
  Lemma gap_exists m p : steps_exist -> get_key_value (overlapping_comp p) m = None ->
    exists g, get_gap_at_raw m p = Val g.
  Proof.
    intros S X. unfold get_gap_at_raw, upper_bound, lower_bound, get_key_value in *.
    pose proof (seek_fst_Gt (overlapping_comp p) m) as G. pose proof (seek_snd_Gt (overlapping_comp p) m) as G'. destruct (seek (overlapping_comp p) m) as [a b]. cbn in *.
    assert (Ua : forall e, In e a -> exists y, up (iend (fst e)) = Some y).
    { intros e He. specialize (G e He). destruct (up (iend (fst e))) eqn:U; [eexists; reflexivity|exfalso].
      unfold overlapping_comp, cmp_point_with_interval, inclusive_comp, ltb, gtb in G.
      destruct (cmp p (istart (fst e))); try discriminate; destruct (cmp p (iend (fst e))) eqn:C; try discriminate;
        (assert (T : plt (iend (fst e)) p) by (unfold plt; rewrite (cmp_flip p (iend (fst e))), C; reflexivity));
        apply (proj1 (S _ _ T)), U. }
    assert (Db : forall k v r, b = (k, v) :: r -> overlapping_comp p k <> Eq -> overlapping_comp p k <> Gt ->
                 exists y, down (istart k) = Some y).
    { intros k v r -> N1 N2. unfold overlapping_comp, cmp_point_with_interval, inclusive_comp, ltb, gtb in *.
      destruct (cmp p (istart k)) eqn:C.
      1,3: exfalso; destruct (cmp p (iend k)); (apply N1; reflexivity) || (apply N2; reflexivity).
      pose proof (proj2 (S _ _ C)) as D. destruct (down (istart k)); [eexists; reflexivity|exfalso; apply D; reflexivity]. }
    assert (M : exists s, match cursor_key (move_prev (a, b)) with Some lower => unwrap (up (iend lower)) | None => Val MIN end = Val s).
    { unfold move_prev. cbn. destruct (rev a) as [|e r] eqn:R; cbn; [eexists; reflexivity|].
      assert (He : In e a) by (apply in_rev; rewrite R; left; reflexivity). destruct (Ua e He) as [y ->]. eexists. reflexivity. }
    destruct b as [|[k v] r].
    - destruct M as [s ->]. cbn. eexists. reflexivity.
    - destruct (overlapping_comp p k) eqn:C; [discriminate| |].
      + destruct M as [s ->]. cbn. destruct (Db k v r eq_refl) as [y ->]; [rewrite C; discriminate|rewrite C; discriminate|].
        eexists. reflexivity.
      + exfalso. apply (G' k v r eq_refl), C.
  Qed.
End Misses.
