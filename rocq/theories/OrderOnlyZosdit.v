(** * OrderOnlyZosdit: the ZosditMap calls other than [cut] only compare points
      (continues OrderOnly.v). *)
From Coq Require Import List ZArith Bool Lia Sorting.Sorted.
From Verif Require Import Base BTree UtilsModel IntervalModel NoditModel ZosditModel ZosditOps Spec InstancesModel Instances
  PointFacts IntervalFacts ListFacts ZosditFacts ZosditMut ZosditProofs OrderOnly.
Import ListNotations.

(** ** The spec notions in terms of the end-points, for any order. *)
Section Ends.
  Context {I : Type} {OI : Ord I} {OL : TotalPreorder I}.
  Lemma eq_ple (x y : I) : cmp x y = Eq <-> ple x y /\ ple y x.
  Proof.
    unfold ple. rewrite (cmp_flip x y). destruct (cmp x y); cbn; split; intros A; try discriminate; try reflexivity;
      [split; discriminate| |]; destruct A as [A B]; congruence.
  Qed.
  Lemma ple_antisym' (x y : I) : ple x y -> ple y x -> cmp x y = Eq.
  Proof. intros A B. apply eq_ple. auto. Qed.
  Lemma plt_ple' (x y : I) : plt x y -> ple x y.
  Proof. unfold plt, ple. intros ->. discriminate. Qed.
  Lemma plt_irrefl' (x : I) : ~ plt x x.
  Proof. intros A. apply plt_not_ple' in A. apply A, ple_refl'. Qed.
  Lemma plt_ple_trans' (x y z : I) : plt x y -> ple y z -> plt x z.
  Proof. intros A B. apply plt_not_ple'. intros C. apply plt_not_ple' in A. apply A. exact (ple_trans' _ _ _ B C). Qed.
  Lemma ple_plt_trans' (x y z : I) : ple x y -> plt y z -> plt x z.
  Proof. intros A B. apply plt_not_ple'. intros C. apply plt_not_ple' in B. apply B. exact (ple_trans' _ _ _ C A). Qed.
  Lemma ple_dec' (x y : I) : ple x y \/ plt y x.
  Proof. rewrite plt_not_ple'. unfold ple. destruct (cmp x y); [left|left|right]; try discriminate. intros X. apply X. reflexivity. Qed.
  Lemma covers_start {A} {IA : InclusiveInterval I A} (a : A) : valid a -> covers a (istart a).
  Proof. intros V. apply valid_ends in V. split; [apply ple_refl'|exact V]. Qed.
  Lemma covers_end {A} {IA : InclusiveInterval I A} (a : A) : valid a -> covers a (iend a).
  Proof. intros V. apply valid_ends in V. split; [exact V|apply ple_refl']. Qed.

  Section Two.
    Context {A : Type} {IA : InclusiveInterval I A} {B : Type} {IB : InclusiveInterval I B}.
    Lemma up_to_ends (a : A) (b : B) : valid a -> valid b -> (up_to a b <-> ple (iend a) (istart b)).
    Proof.
      intros Va Vb. split.
      - intros X. apply X; [apply covers_end, Va|apply covers_start, Vb].
      - intros X x y [_ Hx] [Hy _]. apply (ple_trans' _ (iend a)); [exact Hx|]. apply (ple_trans' _ (istart b)); assumption.
    Qed.
    Lemma same_points_ends (a : A) (b : B) : valid a -> valid b ->
      (same_points a b <-> cmp (istart a) (istart b) = Eq /\ cmp (iend a) (iend b) = Eq).
    Proof.
      intros Va Vb. split.
      - intros X. pose proof (proj1 (X _) (covers_start a Va)) as [A1 _]. pose proof (proj1 (X _) (covers_end a Va)) as [_ A2].
        pose proof (proj2 (X _) (covers_start b Vb)) as [B1 _]. pose proof (proj2 (X _) (covers_end b Vb)) as [_ B2].
        split; apply ple_antisym'; assumption.
      - intros [X Y] p. apply eq_ple in X, Y. destruct X as [X1 X2], Y as [Y1 Y2]. unfold covers.
        split; intros [P1 P2]; split; eapply ple_trans'; eassumption.
    Qed.
    Lemma apart_zero (a : A) (b : B) : valid a -> valid b -> ple (iend a) (istart b) -> zero_overlap a b /\ zero_overlap b a.
    Proof.
      intros Va Vb X. assert (Pa := proj1 (valid_ends a) Va). assert (Pb := proj1 (valid_ends b) Vb).
      assert (U : forall x y, covers a x -> covers b x -> covers a y -> covers b y -> cmp x y = Eq).
      { intros x y [_ H1] [H2 _] [_ H3] [H4 _]. apply ple_antisym'.
        - exact (ple_trans' _ _ _ H1 (ple_trans' _ _ _ X H4)).
        - exact (ple_trans' _ _ _ H3 (ple_trans' _ _ _ X H2)). }
      assert (N1 : ~ strictly_inside a b).
      { intros (x & y & [H1 _] & _ & H2). destruct (H2 (iend a) (covers_end a Va)) as [H3 _].
        apply (plt_irrefl' x). exact (plt_ple_trans' _ _ _ H3 (ple_trans' _ _ _ X H1)). }
      assert (N2 : ~ strictly_inside b a).
      { intros (x & y & _ & [_ H1] & H2). destruct (H2 (istart b) (covers_start b Vb)) as [_ H3].
        apply (plt_irrefl' y). exact (ple_plt_trans' _ _ _ (ple_trans' _ _ _ H1 X) H3). }
      split; (split; [intros x y X1 X2 Y1 Y2|split; intros [_ Y]; [apply N1, Y|apply N2, Y] || (split; intros [_ Y]; [apply N2, Y|apply N1, Y])]).
      - exact (U x y X1 X2 Y1 Y2).
      - exact (U x y X2 X1 Y2 Y1).
    Qed.
    (** Neither before the other, and [a] starts first: not a zero overlap. *)
    Lemma zero_apart (a : A) (b : B) : valid a -> valid b -> ple (istart a) (istart b) -> plt (istart b) (iend a) ->
      plt (istart a) (iend b) ->
      (forall x y, covers a x -> covers b x -> covers a y -> covers b y -> cmp x y = Eq) ->
      ~ (singular b /\ strictly_inside b a) -> False.
    Proof.
      intros Va Vb S1 S2 S3 U N. assert (Pa := proj1 (valid_ends a) Va). assert (Pb := proj1 (valid_ends b) Vb).
      assert (C1 : covers a (istart b)) by (split; [exact S1|apply plt_ple', S2]).
      assert (C2 : covers b (istart b)) by (apply covers_start, Vb).
      destruct (ple_dec' (iend a) (iend b)) as [D|D].
      - assert (X : cmp (istart b) (iend a) = Eq).
        { apply U; [exact C1|exact C2|apply covers_end, Va|]. split; [apply plt_ple', S2|exact D]. }
        unfold plt in S2. congruence.
      - assert (X : cmp (istart b) (iend b) = Eq).
        { apply U; [exact C1|exact C2| |apply covers_end, Vb]. split; [apply plt_ple', S3|apply plt_ple', D]. }
        apply eq_ple in X. destruct X as [_ X]. apply N. split.
        + split; [exact Vb|]. intros x y [x1 x2] [y1 y2]. apply ple_antisym'.
          * exact (ple_trans' _ _ _ x2 (ple_trans' _ _ _ X y1)).
          * exact (ple_trans' _ _ _ y2 (ple_trans' _ _ _ X x1)).
        + exists (istart a), (iend a). split; [apply covers_start, Va|]. split; [apply covers_end, Va|].
          intros p [p1 p2]. split; [exact (plt_ple_trans' _ _ _ S3 (ple_trans' _ _ _ X p1))|exact (ple_plt_trans' _ _ _ p2 D)].
    Qed.
  End Two.
  Lemma zero_overlap_ends {A B} {IA : InclusiveInterval I A} {IB : InclusiveInterval I B} (a : A) (b : B) :
    valid a -> valid b -> (zero_overlap a b <-> ple (iend a) (istart b) \/ ple (iend b) (istart a)).
  Proof.
    intros Va Vb. split.
    - intros (U & N1 & N2). destruct (ple_dec' (iend a) (istart b)) as [X|X]; [left; exact X|].
      destruct (ple_dec' (iend b) (istart a)) as [Y|Y]; [right; exact Y|exfalso].
      destruct (ple_total' (istart a) (istart b)) as [T|T].
      + exact (zero_apart a b Va Vb T X Y U N2).
      + apply (zero_apart b a Vb Va T Y X); [|exact N1]. intros x y A1 A2 A3 A4. apply U; assumption.
    - intros [X|X]; [apply (apart_zero a b Va Vb X)|apply (apart_zero b a Vb Va X)].
  Qed.
End Ends.

Section PointsOf.
  Context {I : Type} {K : Type} {IK : InclusiveInterval I K} {V : Type}.
  Definition zop_points (o : zop I K V) : list I :=
    match o with
    | ZNew => []
    | ZInsertStrictBack k _ => ends k
    | ZRemoveLast p => [p]
    | ZCut q => ends q
    | ZFromIter l => flat_map (fun e => ends (fst e)) l
    | ZDeserialize l => flat_map (fun e => match e with Some e => ends (fst e) | None => [] end) l
    end.
End PointsOf.

Section Agree.
  Context {I : Type} {OI : Ord I} {DI : DiscreteFinite I} {OLI : TotalPreorder I}.
  Context {J : Type} {OJ : Ord J} {DJ : DiscreteFinite J} {OLJ : TotalPreorder J}.
  Context (f : I -> J) (P : I -> Prop).
  Hypothesis faithful : forall x y, P x -> P y -> cmp (f x) (f y) = cmp x y.
  #[local] Instance im (K : Type) (IK : InclusiveInterval I K) : InclusiveInterval J K := image f K IK.
  #[local] Notation ok := (ok P).

  Section One.
    Context {K : Type} {IK : InclusiveInterval I K}.
    Lemma inclusive_comp_f p c (k : K) : P p -> ok k -> inclusive_comp (f p) c k = inclusive_comp p c k.
    Proof. intros A [B C]. unfold inclusive_comp, ltb, gtb. cbn. rewrite !faithful by assumption. reflexivity. Qed.
    Lemma exclusive_comp_f p c (k : K) : P p -> ok k -> exclusive_comp (f p) c k = exclusive_comp p c k.
    Proof. intros A [B C]. unfold exclusive_comp, eqb, leb, geb. cbn. rewrite !faithful by assumption. reflexivity. Qed.
    Lemma contains_point_f p (k : K) : P p -> ok k -> contains_point k (f p) = contains_point k p.
    Proof. intros A [B C]. unfold contains_point, leb, geb. cbn. rewrite !faithful by assumption. reflexivity. Qed.
    Lemma entry_comp_f (k k' : K) : ok k -> ok k' -> entry_comp (I := J) k k' = entry_comp (I := I) k k'.
    Proof.
      intros A [B C]. unfold entry_comp. change (istart (I := J) k') with (f (istart k')).
      change (iend (I := J) k') with (f (iend k')). rewrite !exclusive_comp_f by assumption. reflexivity.
    Qed.
  End One.
  Section Two.
    Context {K : Type} {IK : InclusiveInterval I K} {Q : Type} {IQ : InclusiveInterval I Q}.
    Implicit Types (k : K) (q : Q).
    Lemma up_to_f k q : ok k -> ok q -> valid (I := I) k -> valid (I := I) q -> (up_to (I := J) k q <-> up_to (I := I) k q).
    Proof.
      intros Ok Oq Vk Vq. rewrite !up_to_ends; try (apply (valid_f f P faithful); assumption); try assumption.
      destruct Ok, Oq. cbn. apply (ple_f f P faithful); assumption.
    Qed.
    Lemma zero_overlap_f k q : ok k -> ok q -> valid (I := I) k -> valid (I := I) q ->
      (zero_overlap (I := J) k q <-> zero_overlap (I := I) k q).
    Proof.
      intros Ok Oq Vk Vq. rewrite !zero_overlap_ends; try (apply (valid_f f P faithful); assumption); try assumption.
      destruct Ok, Oq. cbn. rewrite !(ple_f f P faithful) by assumption. reflexivity.
    Qed.
    Lemma same_points_f k q : ok k -> ok q -> valid (I := I) k -> valid (I := I) q ->
      (same_points (I := J) k q <-> same_points (I := I) k q).
    Proof.
      intros Ok Oq Vk Vq. rewrite !same_points_ends; try (apply (valid_f f P faithful); assumption); try assumption.
      destruct Ok, Oq. cbn. rewrite !faithful by assumption. reflexivity.
    Qed.
  End Two.

  Section Maps.
    Context {K : Type} {IK : InclusiveInterval I K} {V : Type}.
    Implicit Types (z : ZosditMap K V) (l : BTreeMap K (list V)).
    Definition okz z : Prop := keys (OrderOnly.ok P) (z_inner z).
    Lemma agree_z (c d : K -> comparison) l : keys (OrderOnly.ok P) l -> (forall k, ok k -> c k = d k) -> agree c d l.
    Proof. intros A B. apply (Forall_impl _ (P := fun e => ok (fst e))); [|exact A]. intros e. apply B. Qed.
    Section Q.
      Context {Q : Type} {IQ : InclusiveInterval I Q}.
      Lemma is_zero_overlap_f z (q : Q) : okz z -> ok q -> is_zero_overlap (I := J) z q = is_zero_overlap (I := I) z q.
      Proof.
        intros A B. unfold is_zero_overlap. rewrite (iip_f f P faithful q B). destruct (invalid_interval_panic (I := I) q); [|reflexivity]. cbn.
        destruct B. f_equal. erewrite (range_agree _ _ _ _ (z_inner z)); [reflexivity| |];
          (apply agree_z; [exact A|]); intros k Ok; apply exclusive_comp_f; assumption.
      Qed.
      Lemma zosdit_overlapping_f z (q : Q) : okz z -> ok q -> zosdit_overlapping (I := J) z q = zosdit_overlapping (I := I) z q.
      Proof.
        intros A B. unfold zosdit_overlapping. rewrite (iip_f f P faithful q B). destruct (invalid_interval_panic (I := I) q); [|reflexivity]. cbn.
        destruct B. f_equal. f_equal. apply range_agree; (apply agree_z; [exact A|]); intros k Ok; apply inclusive_comp_f; assumption.
      Qed.
    End Q.
    Lemma entry_push_f k v l : forall pre, ok k -> keys (OrderOnly.ok P) l ->
      entry_push (I := J) k v pre l = entry_push (I := I) k v pre l.
    Proof.
      induction l as [|[k' vs] l IH]; intros pre A B; [reflexivity|]. inversion B; subst. cbn.
      rewrite (entry_comp_f k' k) by assumption. destruct (entry_comp (I := I) k' k) as [[]|]; try reflexivity. apply IH; assumption.
    Qed.
    Lemma entry_push_keys k v l : forall pre l', ok k -> keys (OrderOnly.ok P) pre -> keys (OrderOnly.ok P) l ->
      entry_push (I := I) k v pre l = Val l' -> keys (OrderOnly.ok P) l'.
    Proof.
      assert (G : forall a b : BTreeMap K (list V), keys (OrderOnly.ok P) a -> keys (OrderOnly.ok P) b -> keys (OrderOnly.ok P) (a ++ b))
        by (intros a b X Y; apply Forall_app; auto).
      induction l as [|[k' vs] l IH]; intros pre l' A B C; cbn.
      - intros E. injection E as <-. apply G; [exact B|]. repeat constructor; apply A.
      - inversion C as [|? ? C1 C2]; subst. destruct (entry_comp (I := I) k' k) as [[]|]; try discriminate.
        + intros E. injection E as <-. apply G; [exact B|]. constructor; assumption.
        + intros E. injection E as <-. apply G; [exact B|]. constructor; [exact A|]. constructor; assumption.
        + apply IH; try assumption. apply G; [exact B|]. constructor; [exact C1|constructor].
    Qed.
    Lemma insert_back_f k v z : okz z -> ok k -> insert_strict_back (I := J) k v z = insert_strict_back (I := I) k v z.
    Proof.
      intros A B. unfold insert_strict_back. rewrite (iip_f f P faithful k B), (is_zero_overlap_f z k A B), (entry_push_f k v _ _ B A). reflexivity.
    Qed.
    Lemma insert_back_okz k v z : okz z -> ok k -> okz (fst (insert_strict_back (I := I) k v z)).
    Proof.
      intros A B. unfold insert_strict_back. destruct (invalid_interval_panic (I := I) k); [|exact A].
      destruct (is_zero_overlap (I := I) z k) as [[]|]; try exact A.
      destruct (entry_push (I := I) k v [] (z_inner z)) as [l'|] eqn:E; [|exact A].
      apply (entry_push_keys k v (z_inner z) [] l' B); [constructor|exact A|exact E].
    Qed.
    Lemma cursor_f z p : okz z -> P p -> last_value_cursor z (f p) = last_value_cursor z p.
    Proof.
      intros A B. unfold last_value_cursor, lower_bound.
      rewrite (seek_agree _ (exclusive_comp p Gt) (z_inner z)); [reflexivity|]. apply agree_z; [exact A|]. intros k Ok. apply exclusive_comp_f; assumption.
    Qed.
    Lemma cursor_keys z p : okz z -> keys (OrderOnly.ok P) (fst (last_value_cursor (I := I) z p)) /\
      keys (OrderOnly.ok P) (snd (last_value_cursor (I := I) z p)).
    Proof.
      intros A. unfold last_value_cursor, lower_bound. pose proof (keys_seek (OrderOnly.ok P) (exclusive_comp p Gt) (z_inner z) A) as [B C].
      destruct (seek (exclusive_comp p Gt) (z_inner z)) as [a b]. cbn in *.
      destruct (cursor_key (a, b)); [split; assumption|]. unfold move_prev. cbn. destruct (rev a) as [|e r] eqn:R; cbn; [split; [exact C|constructor]|].
      assert (E : a = rev r ++ [e]) by (rewrite <- (rev_involutive a), R; reflexivity). subst a.
      apply Forall_app in B. destruct B as [B1 B2]. split; [exact B1|]. inversion B2; subst. constructor; assumption.
    Qed.
    Lemma get_last_f z p : okz z -> P p -> get_last_value_at_point z (f p) = get_last_value_at_point z p.
    Proof.
      intros A B. unfold get_last_value_at_point. rewrite (cursor_f z p A B). pose proof (proj2 (cursor_keys z p A)) as C.
      unfold cursor_key_value. destruct (snd (last_value_cursor z p)) as [|[k vs] r]; [reflexivity|].
      inversion C; subst. rewrite contains_point_f by assumption. reflexivity.
    Qed.
    Lemma remove_last_f z p : okz z -> P p -> remove_last_value_at_point (f p) z = remove_last_value_at_point p z.
    Proof.
      intros A B. unfold remove_last_value_at_point. rewrite (cursor_f z p A B). pose proof (proj2 (cursor_keys z p A)) as C.
      destruct (snd (last_value_cursor z p)) as [|[k vs] r]; [reflexivity|].
      inversion C; subst. rewrite contains_point_f by assumption. reflexivity.
    Qed.
    Lemma remove_last_okz z p : okz z -> okz (fst (remove_last_value_at_point (I := I) p z)).
    Proof.
      intros A. unfold remove_last_value_at_point. destruct (cursor_keys z p A) as [B C].
      destruct (snd (last_value_cursor z p)) as [|[k vs] r]; [exact A|]. inversion C; subst.
      destruct (contains_point k p); [|exact A]. destruct (vec_pop vs) as [[w [|w' ws]]|]; [| |exact A];
        (apply Forall_app; split; [exact B|]); [assumption|constructor; assumption].
    Qed.
    Lemma extend_back_f (l : list (K * V)) : forall z, okz z -> Forall (fun e => ok (fst e)) l ->
      extend_strict_back (I := J) l z = extend_strict_back (I := I) l z /\
      (forall z', extend_strict_back (I := I) l z = Val (Ok z') -> okz z').
    Proof.
      induction l as [|[k v] l IH]; intros z A B; cbn.
      - split; [reflexivity|]. intros m' E. injection E as <-. exact A.
      - inversion B as [|? ? H1 H2]; subst. cbn in *. rewrite (insert_back_f k v z) by assumption.
        pose proof (insert_back_okz k v z A H1) as C. destruct (insert_strict_back (I := I) k v z) as [m1 [[u|e]|]];
          try (split; [reflexivity|discriminate]). apply IH; assumption.
    Qed.
    Lemma zvisit_f (l : list (option (K * V))) : forall z, okz z -> Forall (fun e => match e with Some e => ok (fst e) | None => True end) l ->
      zosdit_visit_seq (I := J) l z = zosdit_visit_seq (I := I) l z /\
      (forall z', zosdit_visit_seq (I := I) l z = Val (Ok z') -> okz z').
    Proof.
      induction l as [|[[k v]|] l IH]; intros z A B; cbn.
      - split; [reflexivity|]. intros m' E. injection E as <-. exact A.
      - inversion B as [|? ? H1 H2]; subst. cbn in *. rewrite (insert_back_f k v z) by assumption.
        pose proof (insert_back_okz k v z A H1) as C. destruct (insert_strict_back (I := I) k v z) as [m1 [[u|e]|]];
          try (split; [reflexivity|discriminate]). apply IH; assumption.
      - split; [reflexivity|discriminate].
    Qed.

    Definition zop_f (o : zop I K V) : zop J K V :=
      match o with
      | ZNew => ZNew
      | ZInsertStrictBack k v => ZInsertStrictBack k v
      | ZRemoveLast p => ZRemoveLast (f p)
      | ZCut q => ZCut q
      | ZFromIter l => ZFromIter l
      | ZDeserialize l => ZDeserialize l
      end.
    Lemma not_cut_f o : not_cut o -> not_cut (zop_f o).
    Proof. destruct o; exact (fun x => x). Qed.
    Lemma ends_ok {A} {IA : InclusiveInterval I A} (a : A) : Forall P (ends a) -> ok a.
    Proof. intros X. inversion X as [|? ? X1 X2]; subst. inversion X2; subst. split; assumption. Qed.
    Lemma zstep_f z o : okz z -> not_cut o -> Forall P (zop_points o) ->
      zstep z (zop_f o) = zstep z o /\ okz (zstep z o).
    Proof.
      intros A N B.
      destruct o as [|k v|p|Q IQ q|l|l]; cbn in N; try contradiction; cbn [zstep zop_f zop_points] in *.
      - split; [reflexivity|constructor].
      - apply ends_ok in B. rewrite insert_back_f by assumption. split; [reflexivity|apply insert_back_okz; assumption].
      - inversion B; subst. rewrite remove_last_f by assumption. split; [reflexivity|apply remove_last_okz; assumption].
      - assert (B' : Forall (fun e => ok (fst e)) l).
        { apply Forall_forall. intros e He. apply ends_ok, Forall_forall. intros x Hx. rewrite Forall_forall in B. apply B.
          apply in_flat_map. exists e. auto. }
        unfold from_iter_strict_back. destruct (extend_back_f l z_new) as [F1 F2]; [constructor|exact B'|]. rewrite F1.
        split; [reflexivity|]. destruct (extend_strict_back (I := I) l z_new) as [[m'|]|]; [apply F2; reflexivity|exact A|exact A].
      - assert (B' : Forall (fun e : option (K * V) => match e with Some e => ok (fst e) | None => True end) l).
        { apply Forall_forall. intros [e|] He; [|constructor]. apply ends_ok, Forall_forall. intros x Hx. rewrite Forall_forall in B. apply B.
          apply in_flat_map. exists (Some e). auto. }
        unfold zosdit_deserialize. destruct (zvisit_f l z_new) as [F1 F2]; [constructor|exact B'|]. rewrite F1.
        split; [reflexivity|]. destruct (zosdit_visit_seq (I := I) l z_new) as [[m'|]|]; [apply F2; reflexivity|exact A|exact A].
    Qed.
    Lemma zrun_f os : Forall not_cut os -> Forall P (flat_map zop_points os) ->
      zrun (map zop_f os) = zrun os /\ okz (zrun os).
    Proof.
      unfold zrun. assert (A0 : okz (@z_new K V)) by constructor. revert A0. generalize (@z_new K V).
      induction os as [|o os IH]; intros z A N B; cbn in *; [auto|].
      inversion N; subst. apply Forall_app in B. destruct B as [B1 B2].
      destruct (zstep_f z o A ltac:(assumption) B1) as [E F]. rewrite E. apply IH; assumption.
    Qed.
  End Maps.
End Agree.

(** ** Any history without [cut] is one over integers. *)
Section NoLaws.
  Context {I : Type} `{PL : PointLaws I}.
  Context {K : Type} {IK : InclusiveInterval I K} {V : Type}.
  (** [zrun_ZWF] without a law of [ifrom]. *)
  Lemma uncut_run_ZWF (os : list (zop I K V)) : Forall not_cut os -> ZWF (zrun os).
  Proof.
    induction os as [|o os IH] using rev_ind; intros N; [apply new_ZWF|]. rewrite zrun_snoc.
    apply Forall_app in N. destruct N as [N1 N2]. inversion N2 as [|? ? No _]; subst. specialize (IH N1).
    destruct o as [|k v|p|Q IQ q|l|l]; cbn [zstep]; try contradiction.
    - apply new_ZWF.
    - apply insert_ZWF, IH.
    - apply remove_ZWF, IH.
    - destruct (from_iter_strict_back l) as [[z'|]|] eqn:E; try exact IH. apply from_iter_grown in E. apply E.
    - destruct (zosdit_deserialize l) as [[z'|]|] eqn:E; try exact IH. apply deserialize_Ok_from_iter in E. destruct E as (l' & _ & E).
      apply from_iter_grown in E. apply E.
  Qed.
End NoLaws.

Section Transport.
  Context {I : Type} {OI : Ord I} {DI : DiscreteFinite I} {OLI : TotalPreorder I}.
  Context {K : Type} {IK : InclusiveInterval I K} {V : Type}.
  Context (os : list (zop I K V)) (E : list I) (N : Forall not_cut os).
  Let L : list I := flat_map zop_points os ++ E.
  Let J : Type := int 0 (Z.of_nat (length L)).
  Let P (x : I) : Prop := In x L.
  Let f : I -> J := rank L.
  #[local] Existing Instance IntType_rank.
  #[local] Instance KZ (A : Type) (IA : InclusiveInterval I A) : InclusiveInterval J A := image f A IA.
  Let z : ZosditMap K V := zrun os.

  Lemma zr_E x : In x E -> P x.
  Proof. intros X. apply in_or_app. right. exact X. Qed.
  Lemma zr_ends {A} {IA : InclusiveInterval I A} (a : A) : incl (ends a) E -> ok P a.
  Proof. intros X. split; apply zr_E, X; cbn; auto. Qed.
  Lemma zr_faithful x y : P x -> P y -> cmp (f x) (f y) = cmp x y.
  Proof. apply rank_faithful. Qed.
  Lemma zr_run : zrun (map (zop_f f) os) = z /\ okz P z.
  Proof.
    apply (zrun_f f P zr_faithful); [exact N|]. apply Forall_forall. intros x X. apply in_or_app. left. exact X.
  Qed.
  Lemma zr_ZWF : ZWF (I := J) z.
  Proof.
    destruct zr_run as [<- _]. apply uncut_run_ZWF. apply Forall_forall. intros o X.
    apply in_map_iff in X. destruct X as (o' & <- & X). apply not_cut_f. rewrite Forall_forall in N. apply N, X.
  Qed.
  Lemma zr_key e : In e (zosdit_iter z) -> ok P (fst e) /\ valid (I := I) (fst e).
  Proof.
    intros X. destruct zr_run as [_ O]. pose proof X as Y. apply in_flatten in Y. destruct Y as (vs & Y & _).
    pose proof (proj1 (Forall_forall _ _) O _ Y) as Ok. cbn in Ok. split; [exact Ok|].
    apply (valid_f f P zr_faithful _ Ok). destruct (iter_sorted z zr_ZWF) as [W _].
    rewrite Forall_forall in W. apply W. apply (in_map fst _ _ X).
  Qed.
  Lemma zr_okl : Forall (fun k => ok P k /\ valid (I := I) k) (map fst (zosdit_iter z)).
  Proof. apply Forall_forall. intros k X. apply in_map_iff in X. destruct X as (e & <- & X). apply (zr_key e X). Qed.

  Lemma zo_sorted : Forall (valid (I := I)) (map fst (zosdit_iter z)) /\
    StronglySorted (up_to (I := I)) (map fst (zosdit_iter z)) /\ ForallOrdPairs (zero_overlap (I := I)) (map fst (zosdit_iter z)).
  Proof.
    destruct (iter_sorted z zr_ZWF) as (_ & S & _ & ZO). pose proof zr_okl as B.
    revert S ZO B. generalize (map fst (zosdit_iter z)). intros l S ZO B. split; [|split].
    - apply (Forall_impl _ (P := fun k => ok P k /\ valid (I := I) k)); [|exact B]. intros k X. apply X.
    - clear ZO. induction S as [|k l S IH F]; [constructor|]. inversion B as [|? ? [B1 B2] B3]; subst.
      constructor; [apply IH, B3|]. rewrite Forall_forall in *. intros k' X. destruct (B3 k' X) as [B4 B5].
      apply (up_to_f f P zr_faithful k k' B1 B4 B2 B5), F, X.
    - clear S. induction ZO as [|k l F ZO IH]; [constructor|]. inversion B as [|? ? [B1 B2] B3]; subst.
      constructor; [|apply IH, B3]. rewrite Forall_forall in *. intros k' X. destruct (B3 k' X) as [B4 B5].
      apply (zero_overlap_f f P zr_faithful k k' B1 B4 B2 B5), F, X.
  Qed.
  Lemma zo_first_last : zosdit_first_key_value z = hd_error (zosdit_iter z) /\
    zosdit_last_key_value z = hd_error (rev (zosdit_iter z)).
  Proof. destruct (first_last z zr_ZWF) as (A & B & _). auto. Qed.

  Section Point.
    Context (p : I) (Ep : In p E).
    Lemma zr_covers e : In e (zosdit_iter z) -> (covers (I := J) (fst e) (f p) <-> covers (I := I) (fst e) p).
    Proof. intros X. apply (covers_f f P zr_faithful); [apply zr_key, X|apply zr_E, Ep]. Qed.
    Lemma zr_end e : In e (zosdit_iter z) -> covers (I := J) (fst e) (f (iend (fst e))).
    Proof.
      intros X. destruct (zr_key e X) as [O V0]. apply (valid_f f P zr_faithful _ O) in V0. exact (covers_end (I := J) (fst e) V0).
    Qed.
    Lemma zr_last_value v : last_value (I := J) (zosdit_iter z) (f p) v <-> last_value (I := I) (zosdit_iter z) p v.
    Proof.
      split; intros (l1 & k & l2 & X & C & D); exists l1, k, l2; (split; [exact X|]);
        (assert (M : forall e, In e ((k, v) :: l2) -> In e (zosdit_iter z)) by (intros e Y; rewrite X; apply in_or_app; right; exact Y));
        (split; [apply (zr_covers (k, v)); [apply M; left; reflexivity|exact C]|]);
        intros e Y Z; apply (D e Y); apply zr_covers; [apply M; right; exact Y|exact Z|apply M; right; exact Y|exact Z].
    Qed.
    Lemma zr_no_value : no_value (I := J) (zosdit_iter z) (f p) <-> no_value (I := I) (zosdit_iter z) p.
    Proof. split; intros X e Y C; apply (X e Y); apply zr_covers; assumption. Qed.
    Lemma zr_reached : point_reached (I := J) (zosdit_iter z) (f p) <-> point_reached (I := I) (zosdit_iter z) p.
    Proof.
      assert (Pp := zr_E p Ep). assert (Q1 : forall e, In e (zosdit_iter z) -> P (iend (fst e))) by (intros e X; apply (zr_key e X)).
      split; (intros [(e & x & X & C & [_ C2] & C3)|X]; [left|right]).
      - exists e, (iend (fst e)). split; [exact X|]. split; [apply zr_covers; assumption|]. split; [apply covers_end, (zr_key e X)|].
        apply (plt_f f P zr_faithful); [exact Pp|apply Q1, X|]. exact (plt_ple_trans' _ _ _ C3 C2).
      - intros e x Y [_ C]. apply (ple_trans' _ (iend (fst e))); [exact C|]. apply (ple_f f P zr_faithful); [apply Q1, Y|exact Pp|].
        apply (X e (f (iend (fst e))) Y), zr_end, Y.
      - exists e, (f (iend (fst e))). split; [exact X|]. split; [apply zr_covers; assumption|].
        split; [apply zr_end, X|].
        apply (plt_f f P zr_faithful); [exact Pp|apply Q1, X|]. exact (plt_ple_trans' _ _ _ C3 C2).
      - intros e x Y [_ C]. apply (ple_trans' _ (f (iend (fst e)))); [exact C|]. apply (ple_f f P zr_faithful); [apply Q1, Y|exact Pp|].
        apply (X e (iend (fst e)) Y). apply covers_end. apply (zr_key e Y).
    Qed.
    Lemma zo_get_last_sound v : get_last_value_at_point z p = Some v -> last_value (zosdit_iter z) p v.
    Proof.
      rewrite <- (get_last_f f P zr_faithful z p (proj2 zr_run) (zr_E p Ep)). intros X. apply zr_last_value, get_last_sound; [exact zr_ZWF|exact X].
    Qed.
    Lemma zo_get_last_char : point_reached (zosdit_iter z) p ->
      (forall v, get_last_value_at_point z p = Some v <-> last_value (zosdit_iter z) p v) /\
      (get_last_value_at_point z p = None <-> no_value (zosdit_iter z) p).
    Proof.
      intros R. apply zr_reached in R. apply (point_reached_spec z _ zr_ZWF) in R.
      destruct (get_last_char z _ zr_ZWF R) as [A B]. rewrite <- (get_last_f f P zr_faithful z p (proj2 zr_run) (zr_E p Ep)).
      split; [intros v; rewrite <- zr_last_value; apply A|rewrite <- zr_no_value; exact B].
    Qed.
    Lemma zo_get_last_none : ~ point_reached (zosdit_iter z) p -> get_last_value_at_point z p = None.
    Proof.
      intros R. rewrite <- (get_last_f f P zr_faithful z p (proj2 zr_run) (zr_E p Ep)). apply get_last_not_found; [exact zr_ZWF|].
      rewrite <- (point_reached_spec z _ zr_ZWF), zr_reached. exact R.
    Qed.
    Lemma zo_remove_last : exists z', remove_last_value_at_point p z = (z', Val (get_last_value_at_point z p)) /\
      (get_last_value_at_point z p = None -> z' = z) /\
      (forall v, get_last_value_at_point z p = Some v -> exists l1 k l2,
         zosdit_iter z = l1 ++ (k, v) :: l2 /\ covers k p /\ no_value l2 p /\ zosdit_iter z' = l1 ++ l2).
    Proof.
      pose proof (get_last_f f P zr_faithful z p (proj2 zr_run) (zr_E p Ep)) as G.
      pose proof (remove_last_f f P zr_faithful z p (proj2 zr_run) (zr_E p Ep)) as R.
      destruct (remove_last_cases z (f p) zr_ZWF) as [(l1 & l2 & k & v & z' & E0 & E' & E1 & E2 & Hk & H2 & _)|(E0 & E' & _)].
      - exists z'. rewrite <- (eq_trans (eq_sym E0) G). split; [exact (eq_trans (eq_sym R) E')|]. split; [discriminate|]. intros v' X. injection X as <-. exists l1, k, l2.
        assert (M : forall e, In e ((k, v) :: l2) -> In e (zosdit_iter z)) by (intros e Y; unfold zosdit_iter; rewrite E1; apply in_or_app; right; exact Y).
        split; [exact E1|]. split; [apply (zr_covers (k, v)); [apply M; left; reflexivity|]; apply covers_rk, Hk|]. split; [|exact E2].
        rewrite Forall_forall in H2. intros e He X.
        apply zr_covers in X; [|apply M; right; exact He].
        apply covers_rk in X. apply (Z.lt_irrefl (PointFacts.rk (f p))). eapply Z.lt_le_trans; [apply (H2 e He)|apply X].
      - exists z. rewrite <- (eq_trans (eq_sym E0) G). split; [exact (eq_trans (eq_sym R) E')|]. split; [reflexivity|discriminate].
    Qed.
  End Point.

  Section Query.
    Context {Q : Type} {IQ : InclusiveInterval I Q} (q : Q) (Eq : incl (ends q) E) (Vq : valid (I := I) q).
    Lemma zr_q : ok P q /\ valid (I := J) q.
    Proof. pose proof (zr_ends q Eq) as O. split; [exact O|]. apply (valid_f f P zr_faithful q O), Vq. Qed.
    Lemma zr_zero e : In e (zosdit_iter z) -> (zero_overlap (I := J) (fst e) q <-> zero_overlap (I := I) (fst e) q).
    Proof. intros X. destruct (zr_key e X). destruct zr_q. apply (zero_overlap_f f P zr_faithful); assumption. Qed.
    Lemma zo_is_zero_overlap : exists b, is_zero_overlap (I := I) z q = Val b /\
      (b = true <-> forall e, In e (zosdit_iter z) -> zero_overlap (I := I) (fst e) q).
    Proof.
      destruct zr_q as [O VJ]. rewrite <- (is_zero_overlap_f f P zr_faithful z q (proj2 zr_run) O).
      destruct (zero_overlap_decides q z zr_ZWF VJ) as (b & A & B). exists b. split; [exact A|]. rewrite B.
      split; intros X e Y; apply (zr_zero e Y), (X e Y).
    Qed.
    Lemma zo_overlapping : exists l, zosdit_overlapping (I := I) z q = Val l /\
      sub (fun e => overlap (I := I) (fst e) q) (zosdit_iter z) l.
    Proof.
      destruct zr_q as [O VJ]. rewrite <- (zosdit_overlapping_f f P zr_faithful z q (proj2 zr_run) O).
      destruct (overlapping_lists q z zr_ZWF VJ) as (l & A & B). exists l. split; [exact A|].
      refine (sub_same _ _ _ _ _ B). intros e X. destruct (zr_key e X). apply (overlap_f f P zr_faithful); assumption.
    Qed.
  End Query.

  Section Insert.
    Context (k : K) (v : V) (Ek : incl (ends k) E) (Vk : valid (I := I) k).
    Lemma zo_insert :
      (~ (forall e, In e (zosdit_iter z) -> zero_overlap (I := I) (fst e) k) -> insert_strict_back (I := I) k v z = (z, Val (Err v))) /\
      ((forall e, In e (zosdit_iter z) -> zero_overlap (I := I) (fst e) k) -> exists z' l1 k' l2,
       insert_strict_back (I := I) k v z = (z', Val (Ok tt)) /\ zosdit_len z' = S (zosdit_len z) /\
       zosdit_iter z = l1 ++ l2 /\ zosdit_iter z' = l1 ++ (k', v) :: l2 /\
       same_points (I := I) k' k /\ (k' = k \/ exists v', In (k', v') l1) /\
       (forall e, In e l1 -> up_to (I := I) (fst e) k) /\ (forall e, In e l2 -> up_to (I := I) k (fst e))).
    Proof.
      destruct (zr_q k Ek Vk) as [O VJ]. rewrite <- (insert_back_f f P zr_faithful k v z (proj2 zr_run) O).
      destruct (insert_back_spec z k v zr_ZWF VJ) as [A B]. split.
      - intros X. apply A. intros Y. apply X. intros e Z. apply (zr_zero k Ek Vk e Z), Y, Z.
      - intros X. destruct B as (z' & l1 & k' & l2 & B1 & B2 & B3 & B4 & B5 & B6 & B7 & B8 & _).
        { intros e Z. apply (zr_zero k Ek Vk e Z), X, Z. }
        exists z', l1, k', l2. split; [exact B1|]. split; [exact B2|]. split; [exact B3|]. split; [exact B4|].
        assert (K1 : forall e, In e l1 -> ok P (fst e) /\ valid (I := I) (fst e)) by (intros e Y; apply zr_key; rewrite B3; apply in_or_app; auto).
        assert (K2 : forall e, In e l2 -> ok P (fst e) /\ valid (I := I) (fst e)) by (intros e Y; apply zr_key; rewrite B3; apply in_or_app; auto).
        split; [|split; [exact B6|split]].
        + assert (K3 : ok P k' /\ valid (I := I) k') by (destruct B6 as [->|(v' & Y)]; [split; assumption|exact (K1 _ Y)]).
          apply (same_points_f f P zr_faithful); try apply K3; assumption.
        + intros e Y. destruct (K1 e Y). apply (up_to_f f P zr_faithful); try assumption. apply B7, Y.
        + intros e Y. destruct (K2 e Y). apply (up_to_f f P zr_faithful); try assumption. apply B8, Y.
    Qed.
  End Insert.
End Transport.
