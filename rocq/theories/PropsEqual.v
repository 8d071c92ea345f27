(** * PropsEqual: which of several points that compare Equal is passed does not
      matter (C97, C98). *)
From Coq Require Import List ZArith Bool Lia ZifyBool.
From Verif Require Import Base BTree UtilsModel IntervalModel NoditModel NoditOps ZosditModel ZosditOps Spec
  InstancesModel Instances PointFacts NoditFacts NoditInv ZosditProofs TransportOps TransportFacts EqualOps EqualFacts PropsTransport.
Import ListNotations.
Open Scope nat_scope.

Section Props.
  Context {I : Type} `{PL : PointLaws I}.
  Context {K : Type} {IK : InclusiveInterval I K}.
  Context {Q R : Type} {IQ : InclusiveInterval I Q} {IR : InclusiveInterval I R}.
  Context {V : Type}.

  (** ** C97 *)
  Theorem C97_histories : (forall i : Interval I, same_ends (ifrom i : K) i) ->
    forall os os' : list (op I K V), Forall2 op_equal os os' -> Forall2 same_entry (iter (run os)) (iter (run os')).
  Proof.
    intros Hk os os' F. pose proof (keeps_laws Hk) as IL. destruct (ops_join Hk os os' F) as (oj & A & B).
    pose proof (C83_histories rank ranks (fun v => v) rank_embeds (ranks_converts Hk) os oj A) as E.
    rewrite (C83_histories rank ranks (fun v => v) rank_embeds (ranks_converts Hk) os' oj B) in E.
    symmetry in E. apply entries_eq, E.
  Qed.
  Theorem C97_insertions : (forall i : Interval I, same_ends (ifrom i : K) i) ->
    forall (os os' : list (op I K V)) k k' v veq, Forall2 op_equal os os' -> same_ends k k' ->
    snd (insert_strict k v (run os)) = snd (insert_strict k' v (run os')) /\
    alike (alike_result same_ends eq) (snd (insert_merge_touching k v (run os))) (snd (insert_merge_touching k' v (run os'))) /\
    alike (alike_result same_ends eq) (snd (insert_merge_touching_if_values_equal veq k v (run os)))
      (snd (insert_merge_touching_if_values_equal veq k' v (run os'))) /\
    alike same_ends (snd (insert_merge_overlapping k v (run os))) (snd (insert_merge_overlapping k' v (run os'))) /\
    alike same_ends (snd (insert_merge_touching_or_overlapping k v (run os)))
      (snd (insert_merge_touching_or_overlapping k' v (run os'))) /\
    alike (Forall2 same_entry) (snd (insert_overwrite k v (run os))) (snd (insert_overwrite k' v (run os'))).
  Proof.
    intros Hk os os' k k' v veq F Ek. pose proof (keeps_laws Hk) as IL. destruct (ops_join Hk os os' F) as (oj & A & B).
    apply ranks_eq in Ek.
    destruct (C83_insertions rank ranks (fun v => v) rank_embeds (ranks_converts Hk) os oj A k v veq veq) as (A1 & A2 & A3 & A4 & A5 & A6); [reflexivity|].
    destruct (C83_insertions rank ranks (fun v => v) rank_embeds (ranks_converts Hk) os' oj B k' v veq veq) as (B1 & B2 & B3 & B4 & B5 & B6); [reflexivity|].
    rewrite Ek in *. rewrite A1 in B1. rewrite A2 in B2. rewrite A3 in B3. rewrite A4 in B4. rewrite A5 in B5. rewrite A6 in B6.
    split; [|split; [|split; [|split; [|split]]]].
    - destruct (snd (insert_strict k v (run os))) as [[|]|], (snd (insert_strict k' v (run os'))) as [[|]|]; cbn in B1; congruence.
    - refine (back _ _ _ _ _ B2). intros x y. apply back_result. intros a b. apply ranks_eq.
    - refine (back _ _ _ _ _ B3). intros x y. apply back_result. intros a b. apply ranks_eq.
    - refine (back _ _ _ _ _ B4). intros a b. apply ranks_eq.
    - refine (back _ _ _ _ _ B5). intros a b. apply ranks_eq.
    - refine (back _ _ _ _ _ B6). intros a b. apply entries_eq.
  Qed.
  Theorem C97_removals_and_queries : (forall i : Interval I, same_ends (ifrom i : K) i) ->
    forall (os os' : list (op I K V)) (q : Q) (r : R) p p', Forall2 op_equal os os' -> same_ends q r -> cmp p p' = Eq ->
    alike (Forall2 same_entry) (snd (remove_overlapping q (run os))) (snd (remove_overlapping r (run os'))) /\
    alike (Forall2 same_entry) (snd (cut q (run os))) (snd (cut r (run os'))) /\
    alike (Forall2 same_entry) (overlapping (run os) q) (overlapping (run os') r) /\
    map_overlaps (run os) q = map_overlaps (run os') r /\
    get_at_point (run os) p = get_at_point (run os') p' /\
    map_contains_point (run os) p = map_contains_point (run os') p' /\
    len (run os) = len (run os').
  Proof.
    intros Hk os os' q r p p' F Eq Ep. pose proof (keeps_laws Hk) as IL. destruct (ops_join Hk os os' F) as (oj & A & B).
    apply ranks_eq in Eq. apply rank_eq in Ep.
    destruct (C83_removals_and_queries rank ranks (fun v => v) rank_embeds (ranks_converts Hk) os oj A q (ranks q) p (ranks_carried q))
      as (A1 & A2 & A3 & A4 & A5 & A6 & A7).
    destruct (C83_removals_and_queries rank ranks (fun v => v) rank_embeds (ranks_converts Hk) os' oj B r (ranks r) p' (ranks_carried r))
      as (B1 & B2 & B3 & B4 & B5 & B6 & B7).
    rewrite Eq, Ep in *. rewrite A1 in B1. rewrite A2 in B2. rewrite A3 in B3.
    split; [|split; [|split; [|split; [|split; [|split]]]]].
    - refine (back _ _ _ _ _ B1). intros a b. apply entries_eq.
    - refine (back _ _ _ _ _ B2). intros a b. apply entries_eq.
    - refine (back _ _ _ _ _ B3). intros a b. apply entries_eq.
    - congruence.
    - rewrite A5 in B5. destruct (get_at_point (run os) p) as [[|]|], (get_at_point (run os') p') as [[|]|]; cbn in B5; congruence.
    - congruence.
    - congruence.
  Qed.
  Theorem C97_gap_queries : (forall i : Interval I, same_ends (ifrom i : K) i) ->
    forall (os os' : list (op I K V)) (q : Q) (r : R) p p', Forall2 op_equal os os' -> same_ends q r -> cmp p p' = Eq ->
    alike (alike_result same_entry same_ends) (get_key_value_at_point (run os) p) (get_key_value_at_point (run os') p') /\
    alike (Forall2 same_ends) (gaps_untrimmed (run os) q) (gaps_untrimmed (run os') r) /\
    alike (Forall2 same_ends) (gaps_trimmed (run os) q) (gaps_trimmed (run os') r) /\
    map_contains_interval (run os) q = map_contains_interval (run os') r.
  Proof.
    intros Hk os os' q r p p' F Eq Ep. pose proof (keeps_laws Hk) as IL. destruct (ops_join Hk os os' F) as (oj & A & B).
    apply ranks_eq in Eq. apply rank_eq in Ep.
    destruct (C84_gap_queries rank ranks (fun v => v) rank_embeds rank_ends (ranks_converts Hk) os oj A q (ranks q) p (ranks_carried q))
      as (A1 & A2 & A3 & A4).
    destruct (C84_gap_queries rank ranks (fun v => v) rank_embeds rank_ends (ranks_converts Hk) os' oj B r (ranks r) p' (ranks_carried r))
      as (B1 & B2 & B3 & B4).
    rewrite Eq, Ep in *. rewrite A1 in B1. rewrite A2 in B2. rewrite A3 in B3. split; [|split; [|split]].
    - refine (back _ _ _ _ _ B1). intros [a|a] [b|b] E; try discriminate; cbn.
      + apply entry_eq. congruence.
      + apply ranks_eq. congruence.
    - refine (back _ _ _ _ _ B2). intros a b. apply keys_eq.
    - refine (back _ _ _ _ _ B3). intros a b. apply keys_eq.
    - congruence.
  Qed.

  (** ** C98 *)
  Theorem C98_histories : (forall i : Interval I, same_ends (ifrom i : K) i) ->
    forall os os' : list (zop I K V), Forall2 zop_equal os os' ->
    Forall2 same_entry (zosdit_iter (zrun os)) (zosdit_iter (zrun os')) /\ zosdit_len (zrun os) = zosdit_len (zrun os').
  Proof.
    intros Hk os os' F. pose proof (keeps_laws Hk) as IL. destruct (zops_join os os' F) as (oj & A & B).
    destruct (C85_zosdit_histories rank ranks (fun v => v) rank_embeds (ranks_converts Hk) os oj A) as [E1 E2].
    destruct (C85_zosdit_histories rank ranks (fun v => v) rank_embeds (ranks_converts Hk) os' oj B) as [E3 E4].
    split; [|congruence]. rewrite E1 in E3. apply entries_eq, E3.
  Qed.
  Theorem C98_calls : (forall i : Interval I, same_ends (ifrom i : K) i) ->
    forall (os os' : list (zop I K V)) k k' v (q : Q) (r : R) p p', Forall2 zop_equal os os' ->
    same_ends k k' -> same_ends q r -> cmp p p' = Eq ->
    snd (insert_strict_back k v (zrun os)) = snd (insert_strict_back k' v (zrun os')) /\
    alike (Forall2 same_entry) (snd (zosdit_cut q (zrun os))) (snd (zosdit_cut r (zrun os'))) /\
    snd (remove_last_value_at_point p (zrun os)) = snd (remove_last_value_at_point p' (zrun os')) /\
    alike (Forall2 same_entry) (zosdit_overlapping (zrun os) q) (zosdit_overlapping (zrun os') r) /\
    is_zero_overlap (zrun os) q = is_zero_overlap (zrun os') r /\
    get_last_value_at_point (zrun os) p = get_last_value_at_point (zrun os') p'.
  Proof.
    intros Hk os os' k k' v q r p p' F Ek Eq Ep. pose proof (keeps_laws Hk) as IL. destruct (zops_join os os' F) as (oj & A & B).
    apply ranks_eq in Eq, Ek. apply rank_eq in Ep.
    destruct (C85_zosdit_calls rank ranks (fun v => v) rank_embeds (ranks_converts Hk) os oj A k v q (ranks q) p (ranks_carried q))
      as (A1 & A2 & A3 & A4 & A5 & A6).
    destruct (C85_zosdit_calls rank ranks (fun v => v) rank_embeds (ranks_converts Hk) os' oj B k' v r (ranks r) p' (ranks_carried r))
      as (B1 & B2 & B3 & B4 & B5 & B6).
    rewrite Eq, Ep, Ek in *. rewrite A1 in B1. rewrite A2 in B2. rewrite A3 in B3. rewrite A4 in B4. rewrite A6 in B6.
    split; [|split; [|split; [|split; [|split]]]].
    - destruct (snd (insert_strict_back k v (zrun os))) as [[|]|], (snd (insert_strict_back k' v (zrun os'))) as [[|]|]; cbn in B1; congruence.
    - refine (back _ _ _ _ _ B2). intros a b. apply entries_eq.
    - destruct (snd (remove_last_value_at_point p (zrun os))) as [[|]|], (snd (remove_last_value_at_point p' (zrun os'))) as [[|]|]; cbn in B3; congruence.
    - refine (back _ _ _ _ _ B4). intros a b. apply entries_eq.
    - congruence.
    - destruct (get_last_value_at_point (zrun os) p), (get_last_value_at_point (zrun os') p'); cbn in B6; congruence.
  Qed.
End Props.

(** ** Example: points with a mark that the order ignores. *)
#[local] Instance Ord_marked : Ord (u8 * bool) := { cmp := fun x y => cmp (fst x) (fst y) }.
#[local] Instance DiscreteFinite_marked : DiscreteFinite (u8 * bool) := {
  MIN := (MIN, false); MAX := (MAX, true);
  up := fun x => option_map (fun y => (y, snd x)) (up (fst x));
  down := fun x => option_map (fun y => (y, negb (snd x))) (down (fst x)) }.
#[local] Instance PointLaws_marked : PointLaws (u8 * bool).
Proof.
  refine {| points := map (fun x => (x, true)) points |}.
  - split; intros x; [apply (cmp_same (fst x))|intros y; apply (cmp_flip (fst x) (fst y))|].
    intros y z. apply (cmp_le_trans (fst x) (fst y) (fst z)).
  - intros x. apply (min_least (fst x)).
  - intros x. apply (max_greatest (fst x)).
  - intros x y E. change (option_map (fun y => (y, snd x)) (up (fst x)) = Some y) in E. destruct (up (fst x)) as [u|] eqn:U; [|discriminate]. injection E as <-.
    destruct (up_some _ _ U) as [A B]. split; [exact A|]. intros z. apply (B (fst z)).
  - intros x E z. change (option_map (fun y => (y, snd x)) (up (fst x)) = None) in E. destruct (up (fst x)) as [u|] eqn:U; [discriminate|]. apply (up_none _ U (fst z)).
  - intros x y E. change (option_map (fun y => (y, negb (snd x))) (down (fst x)) = Some y) in E. destruct (down (fst x)) as [u|] eqn:U; [|discriminate]. injection E as <-.
    destruct (down_some _ _ U) as [A B]. split; [exact A|]. intros z. apply (B (fst z)).
  - intros x E z. change (option_map (fun y => (y, negb (snd x))) (down (fst x)) = None) in E. destruct (down (fst x)) as [u|] eqn:U; [discriminate|]. apply (down_none _ U (fst z)).
  - intros x. destruct (points_all (fst x)) as (y & A & B). exists (y, true). split; [|exact B].
    apply in_map_iff. exists y. auto.
Qed.
Definition C97_ops (b : bool) : list (op (u8 * bool) (Interval (u8 * bool)) nat) :=
  [OpInsertStrict (mkInterval ('2, b) ('9, true)) 1; OpInsertMergeTouching (mkInterval ('10, false) ('12, b)) 2;
   OpCut (mkInterval ('5, b) ('6, negb b)); OpInsertOverwrite (mkInterval ('11, b) ('30, false)) 3].
Example C97_example :
  Forall2 op_equal (C97_ops true) (C97_ops false) /\
  (forall i : Interval (u8 * bool), same_ends (ifrom i : Interval (u8 * bool)) i) /\
  iter (run (C97_ops true)) =
    [(mkInterval ('2, true) ('4, false), 2); (mkInterval ('7, false) ('10, false), 2); (mkInterval ('11, true) ('30, false), 3)] /\
  iter (run (C97_ops false)) =
    [(mkInterval ('2, false) ('4, true), 2); (mkInterval ('7, true) ('10, true), 2); (mkInterval ('11, false) ('30, false), 3)].
Proof.
  split; [|split; [split; apply cmp_same|split; vm_compute; reflexivity]].
  repeat apply Forall2_cons; [..|apply Forall2_nil]; constructor; split; reflexivity.
Qed.
(** The closures of [overlapping_mut] and [iter_mut] may look at the points, not
    at the marks. *)
Example C97_closure_example :
  op_equal (OpIterMut (fun k v => v + Z.to_nat (ival (fst (istart k))))) 
    (OpIterMut (fun k v => v + Z.to_nat (ival (fst (istart k)))) : op (u8 * bool) (Interval (u8 * bool)) nat).
Proof.
  constructor. intros k k' v [E _]. change ((ival (fst (istart k)) ?= ival (fst (istart k')))%Z = Eq) in E.
  apply Z.compare_eq in E. rewrite E. reflexivity.
Qed.
Definition C98_ops (b : bool) : list (zop (u8 * bool) (Interval (u8 * bool)) nat) :=
  [ZInsertStrictBack (mkInterval ('2, b) ('9, true)) 1; ZInsertStrictBack (mkInterval ('9, false) ('9, b)) 2;
   ZInsertStrictBack (mkInterval ('9, b) ('9, true)) 3; ZCut (mkInterval ('5, b) ('6, negb b)); ZRemoveLast ('9, b)].
Example C98_example :
  Forall2 zop_equal (C98_ops true) (C98_ops false) /\
  zosdit_iter (zrun (C98_ops true)) =
    [(mkInterval ('2, true) ('4, false), 1); (mkInterval ('7, false) ('9, true), 1); (mkInterval ('9, false) ('9, true), 2)] /\
  zosdit_iter (zrun (C98_ops false)) =
    [(mkInterval ('2, false) ('4, true), 1); (mkInterval ('7, true) ('9, true), 1); (mkInterval ('9, false) ('9, false), 2)].
Proof.
  split; [|split; vm_compute; reflexivity].
  repeat apply Forall2_cons; [..|apply Forall2_nil]; constructor; split || idtac; reflexivity.
Qed.

Print Assumptions C97_histories.
Print Assumptions C97_insertions.
Print Assumptions C97_removals_and_queries.
Print Assumptions C97_gap_queries.
Print Assumptions C98_histories.
Print Assumptions C98_calls.
