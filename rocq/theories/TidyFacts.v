(** * TidyFacts: joining touching entries with equal values (the proofs of C173). *)
From Coq Require Import List ZArith Bool Lia Permutation.
From Verif Require Import Base BTree UtilsModel IntervalModel NoditModel NoditOps UndoOps TidyOps Spec
  PointFacts IntervalFacts ListFacts NoditFacts NoditInv NoditQueries NoditMutations NoditMerges NoditMore
  EqModel EqFacts UndoFacts.
Import ListNotations.

Section Facts.
  Context {I : Type} `{PL : PointLaws I}.
  Context {K : Type} {IK : InclusiveInterval I K} {IL : IntervalLaws I K}.
  Context {V : Type}.
  Context (veq : V -> V -> bool) (Hveq : forall x y, veq x y = true <-> x = y).
  Implicit Types (m : NoditMap K V).

  Lemma put_back_tidy (l : list (K * V)) : forall m m', put_back_merging veq l m m' -> tidy_into veq l m = Some m'.
  Proof.
    induction l as [|e l IH]; intros m m' P; cbn in P |- *; [congruence|]. destruct P as (m1 & r & E & P). rewrite E. apply IH, P.
  Qed.
  Lemma fits_WF m : WF m -> fits m [].
  Proof.
    intros W. pose proof (proj2 (ascending_WF m) W) as [A F]. split; [apply (proj1 (Forall_map fst valid m)), F|]. split; [|intros a b []].
    pose proof (ascending_disjoint _ A) as D. clear - D. induction m as [|e m IH]; [constructor|]. inversion D as [|? ? X D']; subst. constructor; [exact (proj1 (Forall_map fst _ m) X)|apply IH, D'].
  Qed.
  Lemma tidy_spec m : WF m -> exists m', tidy veq m = Some m' /\ WF m' /\ vcanon m' /\ same_map m m'.
  Proof.
    intros W. destruct (put_all_merging veq Hveq m [] WF_nil) as (m' & P & W' & C' & M); [intros k v k' v' []|apply fits_WF, W|].
    exists m'. split; [apply put_back_tidy, P|]. split; [exact W'|]. split; [exact C'|]. intros p v. rewrite M. split; [auto|]. intros [(k & [] & _)|X]. exact X.
  Qed.
  Lemma tidy_run m m' : tidy veq m = Some m' -> m' = run (map (vinsert veq) m).
  Proof.
    unfold tidy, run. change (into_iter m) with m. change (@nil (K * V)) with (new : NoditMap K V). generalize (new : NoditMap K V). induction m as [|e m IH]; intros n E; cbn [tidy_into map fold_left] in *; [congruence|].
    cbn [step vinsert]. destruct (insert_merge_touching_if_values_equal veq (fst e) (snd e) n) as [n' [[r|r]|]] eqn:X; try discriminate. cbn [fst]. apply IH, E.
  Qed.
  Lemma get_same m m' : WF m -> WF m' -> same_map m m' <-> forall p, get_at_point m p = get_at_point m' p.
  Proof.
    intros W W'. split.
    - intros S p. destruct (get_at_point_cases m p W) as [(v & (k & Hi & Hc) & E & _)|(N & E & _)].
      + rewrite E. symmetry. apply (get_at_point_Some m' p v W'), S. exists k. auto.
      + rewrite E. symmetry. apply (get_at_point_None m' p W'). intros (k & v & Hi & Hc). assert (X : maps_to m p v) by (apply S; exists k; auto). exact (N (maps_to_covered _ _ _ X)).
    - intros E p v. rewrite <- (get_at_point_Some m p v W), <- (get_at_point_Some m' p v W'), E. reflexivity.
  Qed.
  Lemma match_length {A B} (R : A -> B -> Prop) (l : list A) : forall l' : list B, NoDup l -> (forall x, In x l -> exists y, In y l' /\ R x y) ->
    (forall x x' y, In x l -> In x' l -> R x y -> R x' y -> x = x') -> (length l <= length l')%nat.
  Proof.
    induction l as [|x l IH]; intros l' ND E U; [cbn; lia|]. destruct (E x (or_introl eq_refl)) as (y & Hy & Ry). apply in_split in Hy. destruct Hy as (a & b & ->).
    inversion ND as [|? ? Nx ND']; subst. specialize (IH (a ++ b) ND'). rewrite app_length in *. cbn [length] in *. enough (length l <= length a + length b)%nat by lia. apply IH.
    - intros x' Hx'. destruct (E x' (or_intror Hx')) as (y' & Hy' & Ry'). exists y'. split; [|exact Ry']. apply in_app_iff in Hy'. apply in_app_iff. destruct Hy' as [|[->|]]; auto.
      exfalso. apply Nx. rewrite (U x x' y' (or_introl eq_refl) (or_intror Hx') Ry Ry'). exact Hx'.
    - intros x1 x2 y' H1 H2. apply U; right; assumption.
  Qed.
  Lemma entries_one m (e e' : K * V) p : WF m -> In e m -> In e' m -> covers (fst e) p -> covers (fst e') p -> e = e'.
  Proof.
    intros W Hi Hi' Hc Hc'. destruct e as [k v], e' as [k' v']. exact (covers_unique m p k v k' v' W Hi Hi' Hc Hc').
  Qed.
  (** No map with the same values at all points has fewer entries than a canonical one. *)
  Lemma vcanon_fewest m m' : WF m -> WF m' -> vcanon m -> same_map m m' -> (length m <= length m')%nat.
  Proof.
    intros W W' C S. apply (match_length (fun e e' => In e' m' /\ covers (fst e') (istart (fst e)))); [apply WF_NoDup, W| |].
    - intros [k v] Hi. assert (Vk : valid k) by (apply valid_rk; exact (WF_okv _ _ W Hi)).
      destruct (proj1 (S (istart k) v)) as (k' & Hi' & Hc'); [exists k; split; [exact Hi|]; apply covers_rk; apply valid_rk in Vk; unfold lo, hi in *; lia|]. exists (k', v). auto.
    - intros [k v] [k2 v2] [k' v'] Hi Hi2 [Hy Hc] [_ Hc2]. cbn [fst] in *.
      assert (Vk : covers k (istart k)) by (pose proof (WF_okv _ _ W Hi) as X; unfold elo, ehi in X; cbn in X; apply covers_rk; unfold lo, hi in *; lia).
      assert (Vk2 : covers k2 (istart k2)) by (pose proof (WF_okv _ _ W Hi2) as X; unfold elo, ehi in X; cbn in X; apply covers_rk; unfold lo, hi in *; lia).
      assert (v = v') as <-. { apply (maps_to_fun m (istart k) v v' W); [exists k; auto|]. apply S. exists k'. auto. }
      destruct (vcanon_max_run m k v W C Hi) as (_ & _ & M). specialize (M (mkInterval (istart k') (iend k'))). apply (entries_one m (k, v) (k2, v2) (istart k2) W Hi Hi2); [|exact Vk2].
      apply M; [|exists (istart k); split; [exact Vk|exact Hc]|exact Hc2]. intros p Hp. apply S. exists k'. split; [exact Hy|exact Hp].
  Qed.
End Facts.
