(** * PropsCoherence: what the methods of NoditMap say about each other (C88, C89). *)
From Coq Require Import List ZArith Bool Permutation Lia.
From Verif Require Import Base BTree IntervalModel NoditModel NoditOps Spec InstancesModel Instances
  PointFacts IntervalFacts NoditFacts NoditQueries NoditGaps NoditInv NoditMore NoditCoherence PropsNodit.
Import ListNotations.
Open Scope nat_scope.

Section Coherence.
  Context {I : Type} `{PL : PointLaws I}.
  Context {K : Type} {IK : InclusiveInterval I K} {IL : IntervalLaws I K} {FI : FromInvalid I K}.
  Context {V : Type}.
  Context {Q : Type} {IQ : InclusiveInterval I Q}.
  Implicit Types (m : NoditMap K V) (k : K) (v : V) (p : I) (q : Q).

  (** ** C88: two ways to ask or do the same *)
  Theorem C88_point_is_one_point_interval : forall m p q, reachable m -> (forall x, covers q x <-> x = p) ->
    map_overlaps m q = map_contains_point m p /\
    map_contains_interval m q = map_contains_point m p /\
    (forall k v, get_key_value_at_point m p = Val (Ok (k, v)) <-> overlapping m q = Val [(k, v)]) /\
    (forall g, get_key_value_at_point m p = Val (Err g) ->
       exists g', gaps_untrimmed m q = Val [g'] /\ same_points g g').
  Proof.
    intros m p q R E. apply reachable_WF in R. split; [apply one_point_overlaps; assumption|].
    split; [apply one_point_contains; assumption|]. split; [intros k v; apply one_point_overlapping; assumption|].
    intros g. apply one_point_gap; assumption.
  Qed.
  Theorem C88_contains_overlaps_gaps : forall m q, reachable m -> valid q ->
    (map_contains_interval m q = Val true <-> gaps_untrimmed m q = Val []) /\
    (map_contains_interval m q = Val true <-> gaps_trimmed m q = Val []) /\
    (map_overlaps m q = Val false <-> overlapping m q = Val []) /\
    (map_overlaps m q = Val false <-> exists g, gaps_trimmed m q = Val [g] /\ same_points g q).
  Proof.
    intros m q R Vq. apply reachable_WF in R. split; [apply untrimmed_nil; assumption|].
    split; [rewrite untrimmed_nil by assumption; symmetry; apply trimmed_nil; assumption|].
    split; [|apply free_trimmed; assumption].
    destruct (map_overlaps_spec m q R Vq) as (b & -> & Hb). destruct (overlapping_spec m q R Vq) as (l & -> & S).
    destruct b.
    - split; [discriminate|]. intros X. injection X as ->. destruct (proj1 Hb eq_refl) as (k & v & Hi & Ho).
      destruct (proj1 (sub_empty _ _) S (k, v) Hi Ho).
    - split; [|reflexivity]. intros _. f_equal. eapply ListFacts.sub_unique; [exact S|]. apply sub_empty. intros [k v] Hi Ho.
      assert (false = true); [|discriminate]. apply Hb. exists k, v. auto.
  Qed.
  Theorem C88_inserted_iff_not_overlaps : forall m k v, reachable m ->
    (snd (insert_strict k v m) = Val (Ok tt) <-> map_overlaps m k = Val false) /\
    ((exists r, snd (insert_merge_touching k v m) = Val (Ok r)) <-> map_overlaps m k = Val false).
  Proof. intros m k v R. apply reachable_WF in R. split; [apply strict_iff|apply touching_iff]; exact R. Qed.
  (** Also when [k] is invalid and both panic. *)
  Theorem C88_overwrite_is_cut_then_insert : forall m k v, reachable m ->
    insert_overwrite k v m = (fst (insert_strict k v (fst (cut k m))), snd (cut k m)).
  Proof. intros m k v R. apply overwrite_cut, reachable_WF, R. Qed.
  Theorem C88_remove_overlapping_yields_overlapping : forall m q, reachable m ->
    snd (remove_overlapping q m) = overlapping m q.
  Proof. intros m q R. apply remove_yields, reachable_WF, R. Qed.
  Theorem C88_removal_clears : forall m q, reachable m -> valid q ->
    overlapping (fst (remove_overlapping q m)) q = Val [] /\
    remove_overlapping q (fst (remove_overlapping q m)) = (fst (remove_overlapping q m), Val []) /\
    overlapping (fst (cut q m)) q = Val [].
  Proof.
    intros m q R Vq. apply reachable_WF in R. destruct (remove_clears m q R Vq) as (A & _ & B). split; [exact A|]. split; [exact B|].
    apply cut_clears; assumption.
  Qed.
  Theorem C88_insert_then_remove : forall m m' k v, reachable m -> insert_strict k v m = (m', Val (Ok tt)) ->
    remove_overlapping k m' = (m, Val [(k, v)]) /\
    exists k', cut k m' = (m, Val [(k', v)]) /\ same_points k' k.
  Proof. intros m m' k v R. apply strict_remove, reachable_WF, R. Qed.
  (** The six insertions differ only in what they do to overlapping and touching entries. *)
  Theorem C88_insertions_agree_when_apart : forall veq m k v, reachable m -> valid k ->
    (forall e, In e (iter m) -> ~ overlap (fst e) k /\ ~ touch (fst e) k) ->
    exists m', insert_strict k v m = (m', Val (Ok tt)) /\
      insert_merge_touching k v m = (m', Val (Ok k)) /\
      insert_merge_touching_if_values_equal veq k v m = (m', Val (Ok k)) /\
      insert_merge_overlapping k v m = (m', Val k) /\
      insert_merge_touching_or_overlapping k v m = (m', Val k) /\
      insert_overwrite k v m = (m', Val []).
  Proof. intros veq m k v R. apply apart_agree, reachable_WF, R. Qed.
  Theorem C88_touching_or_overlapping_extends_both : forall m k v, reachable m ->
    (forall m' r, insert_merge_touching k v m = (m', Val (Ok r)) -> insert_merge_touching_or_overlapping k v m = (m', Val r)) /\
    ((forall e, In e (iter m) -> ~ touch (fst e) k) ->
     insert_merge_overlapping k v m = insert_merge_touching_or_overlapping k v m).
  Proof.
    intros m k v R. apply reachable_WF in R. split; [intros m' r; apply touching_tor, R|apply overlapping_tor, R].
  Qed.
  Theorem C88_if_values_equal_lies_between : forall veq m k v, reachable m ->
    insert_merge_touching_if_values_equal (fun _ _ => true) k v m = insert_merge_touching k v m /\
    ((forall e, In e (iter m) -> touch (fst e) k -> veq (snd e) v = false) ->
     fst (insert_merge_touching_if_values_equal veq k v m) = fst (insert_strict k v m) /\
     (snd (insert_merge_touching_if_values_equal veq k v m) = Val (Ok k) <-> snd (insert_strict k v m) = Val (Ok tt)) /\
     (forall w, snd (insert_merge_touching_if_values_equal veq k v m) = Val (Err w) <-> snd (insert_strict k v m) = Val (Err w))).
  Proof.
    intros veq m k v R. apply reachable_WF in R. split; [apply if_equal_true|]. intros N. rewrite if_equal_false by assumption.
    split; [reflexivity|]. cbn [snd]. destruct (snd (insert_strict k v m)) as [[[]|x]|]; cbn;
      (split; [split; congruence|intros w; split; congruence]).
  Qed.

  (** ** C89: the gaps can be filled *)
  Theorem C89_fill_trimmed_gaps : forall m q gl (l : list (K * V)), reachable m ->
    gaps_trimmed m q = Val gl -> Permutation (map fst l) gl ->
    exists m', insert_each l m = Some m' /\
      map_contains_interval m' q = Val true /\ gaps_trimmed m' q = Val [] /\
      len m' = len m + length gl /\
      (forall e, In e (iter m') <-> In e l \/ In e (iter m)) /\
      (forall p, ~ covers q p \/ map_contains_point m p = Val true -> get_at_point m' p = get_at_point m p).
  Proof.
    intros m q gl l R E P. apply reachable_WF in R. destruct (valid_dec q) as [Vq|N]; [|rewrite gaps_trimmed_invalid in E by exact N; discriminate].
    destruct (gaps_trimmed_spec m q R Vq (quiet_at_FI m q)) as (tl & E1 & L).
    destruct (gaps_trimmed_points m q R Vq (quiet_at_FI m q)) as (tl' & E2 & Hp).
    assert (tl = gl) by congruence. assert (tl' = gl) by congruence. subst tl tl'.
    destruct (fill m q _ _ gl l R Vq (fun p => @proj1 _ _) L) as (m' & Ei & W' & Ll & M & C & G1 & G2); [intros p Hq; apply (Hp p Hq)|exact P|].
    assert (X : map_contains_interval m' q = Val true).
    { destruct (map_contains_interval_spec m' q W' Vq (quiet_at_FI m' q)) as (b & -> & Hb). f_equal. apply Hb, C. }
    exists m'. split; [exact Ei|]. split; [exact X|]. split; [apply trimmed_nil; [assumption..|apply untrimmed_nil; assumption]|].
    split; [unfold len; rewrite <- (Permutation_length P), map_length; exact Ll|]. split; [exact M|].
    intros p [Hn|Hc].
    - apply G2. intros (g & Hg & Hgp). destruct L as (_ & F & _). destruct (F g Hg) as [(_ & Y & _) _]. apply Hn, (Y p Hgp).
    - apply G1. destruct (map_contains_point_spec m p R) as (b & Eb & Hb). apply Hb. congruence.
  Qed.
  Theorem C89_fill_untrimmed_gaps : forall m q gl (l : list (K * V)), reachable m ->
    gaps_untrimmed m q = Val gl -> Permutation (map fst l) gl ->
    exists m', insert_each l m = Some m' /\
      map_contains_interval m' q = Val true /\ gaps_untrimmed m' q = Val [] /\
      len m' = len m + length gl /\
      (forall e, In e (iter m') <-> In e l \/ In e (iter m)) /\
      (forall p, map_contains_point m p = Val true -> get_at_point m' p = get_at_point m p).
  Proof.
    intros m q gl l R E P. apply reachable_WF in R. destruct (valid_dec q) as [Vq|N]; [|rewrite gaps_untrimmed_invalid in E by exact N; discriminate].
    destruct (gaps_untrimmed_spec m q R Vq (quiet_at_FI m q)) as (gl' & E1 & L). assert (gl' = gl) by congruence. subst gl'.
    destruct (gaps_trimmed_untrimmed m q R Vq (quiet_at_FI m q)) as (gl' & tl & E2 & E3 & F). assert (gl' = gl) by congruence. subst gl'.
    destruct (gaps_trimmed_points m q R Vq (quiet_at_FI m q)) as (tl' & E4 & Hp). assert (tl' = tl) by congruence. subst tl'.
    destruct (fill m q _ _ gl l R Vq (fun p x => x) L) as (m' & Ei & W' & Ll & M & C & G1 & G2).
    { intros p Hq Hn. apply (Hp p Hq) in Hn. destruct Hn as (t & Ht & Htp). clear - F Ht Htp.
      induction F as [|g t' gl tl X F IH]; [destruct Ht|]. destruct Ht as [->|Ht].
      - exists g. split; [left; reflexivity|]. apply (X p), Htp.
      - destruct (IH Ht) as (g' & Hg & Hgp). exists g'. split; [right; exact Hg|exact Hgp]. }
    { exact P. }
    assert (X : map_contains_interval m' q = Val true).
    { destruct (map_contains_interval_spec m' q W' Vq (quiet_at_FI m' q)) as (b & -> & Hb). f_equal. apply Hb, C. }
    exists m'. split; [exact Ei|]. split; [exact X|]. split; [apply untrimmed_nil; assumption|].
    split; [unfold len; rewrite <- (Permutation_length P), map_length; exact Ll|]. split; [exact M|].
    intros p Hc. apply G1. destruct (map_contains_point_spec m p R) as (b & Eb & Hb). apply Hb. congruence.
  Qed.
End Coherence.

(** The hypotheses are met, non-trivially, on [ex_map]: [2,4]->1, [6,7]->2, [8,9]->2, [20,30]->3. *)
Example C88_point_example : (forall x : u8, covers (15 --> 15 : Interval u8) x <-> x = '15) /\
  get_key_value_at_point ex_map '15 = Val (Err (10 --> 19)) /\ gaps_untrimmed ex_map (15 --> 15) = Val [10 --> 19] /\
  get_key_value_at_point ex_map '7 = Val (Ok (6 --> 7, 2)) /\ overlapping ex_map (7 --> 7) = Val [(6 --> 7, 2)].
Proof.
  split; [|vm_compute; auto]. intros x. split.
  - intros [A B]. change (15 <= ival x)%Z in A. change (ival x <= 15)%Z in B. apply int_eq. change (ival x = 15)%Z. lia.
  - intros ->. vm_compute. split; discriminate.
Qed.
Example C88_gaps_example : valid (12 --> 17 : Interval u8) /\ map_overlaps ex_map (12 --> 17) = Val false /\
  overlapping ex_map (12 --> 17) = Val [] /\ gaps_trimmed ex_map (12 --> 17) = Val [12 --> 17] /\
  map_contains_interval ex_map (6 --> 9) = Val true /\ gaps_trimmed ex_map (6 --> 9) = Val [].
Proof. split; [apply ex_valid; reflexivity|vm_compute; repeat split]. Qed.
Example C88_overwrite_example :
  insert_overwrite (3 --> 8) 5 ex_map = ([(2 --> 2, 1); (3 --> 8, 5); (9 --> 9, 2); (20 --> 30, 3)], Val [(3 --> 4, 1); (6 --> 7, 2); (8 --> 8, 2)]) /\
  insert_strict (3 --> 8) 5 (fst (cut (3 --> 8) ex_map)) = ([(2 --> 2, 1); (3 --> 8, 5); (9 --> 9, 2); (20 --> 30, 3)], Val (Ok tt)).
Proof. vm_compute. auto. Qed.
Example C88_remove_example : remove_overlapping (3 --> 8) ex_map = ([(20 --> 30, 3)], Val [(2 --> 4, 1); (6 --> 7, 2); (8 --> 9, 2)]) /\
  overlapping ex_map (3 --> 8) = Val [(2 --> 4, 1); (6 --> 7, 2); (8 --> 9, 2)].
Proof. vm_compute. auto. Qed.
Example C88_insert_then_remove_example : exists m', insert_strict (12 --> 17) 5 ex_map = (m', Val (Ok tt)) /\
  remove_overlapping (12 --> 17) m' = (ex_map, Val [(12 --> 17, 5)]).
Proof. eexists. split; vm_compute; reflexivity. Qed.
Example C88_apart_example : forall e, In e (iter ex_map) -> ~ overlap (fst e) (12 --> 17 : Interval u8) /\ ~ touch (fst e) (12 --> 17 : Interval u8).
Proof.
  assert (L : forall a b : u8, ple a b -> (ival a <= ival b)%Z) by (intros a b X; exact X).
  assert (N : forall a b c d x : u8, (ival b < ival x < ival c)%Z \/ (ival d < ival x < ival a)%Z ->
    ~ overlap (mkInterval a b) (mkInterval c d) /\ ~ touch (mkInterval a b) (mkInterval c d)).
  { intros a b c d x X. split.
    - intros (y & [A1 A2] & [B1 B2]). apply L in A1, A2, B1, B2. cbn in *. lia.
    - intros [_ T]. destruct (T x) as [T1 T2]. destruct X as [X|X]; [apply T1|apply T2];
        (split; intros y [A1 A2]; apply L in A1, A2; cbn in A1, A2; [change (ival y < ival x)%Z|change (ival x < ival y)%Z]; lia). }
  intros e He. rewrite ex_map_entries in He. cbn in He.
  destruct He as [<-|[<-|[<-|[<-|[]]]]]; cbn [fst];
    [apply (N _ _ _ _ '11); left|apply (N _ _ _ _ '11); left|apply (N _ _ _ _ '11); left|apply (N _ _ _ _ '18); right]; vm_compute; auto.
Qed.
Example C88_merge_example :
  insert_merge_touching (10 --> 19) 5 ex_map = ([(2 --> 4, 1); (6 --> 7, 2); (8 --> 30, 5)], Val (Ok (8 --> 30))) /\
  insert_merge_touching_or_overlapping (10 --> 19) 5 ex_map = ([(2 --> 4, 1); (6 --> 7, 2); (8 --> 30, 5)], Val (8 --> 30)) /\
  insert_merge_touching_if_values_equal Nat.eqb (10 --> 19) 5 ex_map =
    ([(2 --> 4, 1); (6 --> 7, 2); (8 --> 9, 2); (10 --> 19, 5); (20 --> 30, 3)], Val (Ok (10 --> 19))) /\
  insert_merge_overlapping (4 --> 18) 5 ex_map = insert_merge_touching_or_overlapping (4 --> 18) 5 ex_map /\
  insert_merge_overlapping (4 --> 18) 5 ex_map = ([(2 --> 18, 5); (20 --> 30, 3)], Val (2 --> 18)).
Proof. vm_compute. auto. Qed.
Example C89_example : gaps_trimmed ex_map (3 --> 25) = Val [5 --> 5; 10 --> 19] /\
  insert_each [(10 --> 19, 8); (5 --> 5, 9)] ex_map =
    Some ([(2 --> 4, 1); (5 --> 5, 9); (6 --> 7, 2); (8 --> 9, 2); (10 --> 19, 8); (20 --> 30, 3)] : NoditMap (Interval u8) nat) /\
  gaps_untrimmed ex_map (1 --> 3) = Val [0 --> 1].
Proof. vm_compute. auto. Qed.

Print Assumptions C88_point_is_one_point_interval.
Print Assumptions C88_contains_overlaps_gaps.
Print Assumptions C88_inserted_iff_not_overlaps.
Print Assumptions C88_overwrite_is_cut_then_insert.
Print Assumptions C88_remove_overlapping_yields_overlapping.
Print Assumptions C88_removal_clears.
Print Assumptions C88_insert_then_remove.
Print Assumptions C88_insertions_agree_when_apart.
Print Assumptions C88_touching_or_overlapping_extends_both.
Print Assumptions C88_if_values_equal_lies_between.
Print Assumptions C89_fill_trimmed_gaps.
Print Assumptions C89_fill_untrimmed_gaps.
