(** * PropsUserCalls: exactly how often a call runs user code (C153). *)
From Coq Require Import List ZArith Bool Lia.
From Verif Require Import Base BTree UtilsModel IntervalModel NoditModel NoditOps ZosditModel ZosditOps GqditModel GqditOps CrashModel UserCallsOps Spec
  PointFacts IntervalFacts ListFacts NoditFacts NoditInv ZosditFacts ZosditProofs GqditFacts GqditProofs CrashGqdit UserCallsFacts InstancesModel Instances PropsNodit PropsCrash.
Import ListNotations.
Open Scope nat_scope.

Section Nodit.
  Context {I : Type} `{PL : PointLaws I}.
  Context {K : Type} {IK : InclusiveInterval I K} {IL : IntervalLaws I K}.
  Context {V : Type}.
  Implicit Types (m : NoditMap K V) (k : K) (v : V).

  (** [cut]: one [K::from] for each entry given back, and one [K::from] and one clone for each
      piece that stays; [m'] has that many entries more than [m] has without the cut ones. *)
  Theorem C153_cut : forall m {Q} {IQ : InclusiveInterval I Q} (q : Q) m' l, cut q m = (m', Val l) ->
    makes (fun fuel => snd (cut_c q m fuel)) (length l + 2 * (length (iter m') + length l - length (iter m))).
  Proof.
    intros m Q IQ q m' l E. destruct (cut_cost q m m' l E) as (p & P & C). apply costs_makes.
    unfold iter. replace (length m' + length l - length m) with p by lia. exact C.
  Qed.
  (** [insert_overwrite]: as often as [cut]. *)
  Theorem C153_insert_overwrite : forall m k v c l, cut k m = (c, Val l) ->
    makes (fun fuel => snd (insert_overwrite_c k v m fuel)) (length l + 2 * (length (iter c) + length l - length (iter m))).
  Proof.
    intros m k v c l E. destruct (cut_cost k m c l E) as (p & P & C). apply costs_makes.
    assert (X : exists m', insert_overwrite k v m = (m', Val l)).
    { unfold insert_overwrite. rewrite E. unfold cut in E. destruct (invalid_interval_panic k); [|discriminate]. eexists. reflexivity. }
    destruct X as (m' & X). destruct (overwrite_cost k v m m' l X) as (c' & _ & Y).
    unfold iter. replace (length c + length l - length m) with p by lia. exact (Y _ C).
  Qed.
  (** [insert_merge_touching]: once if it merges, else never. *)
  Theorem C153_insert_merge_touching : forall m k v, reachable m -> valid k ->
    ((exists k' v', In (k', v') (iter m) /\ overlap k' k) -> makes (fun fuel => snd (insert_merge_touching_c k v m fuel)) 0) /\
    ((forall k' v', In (k', v') (iter m) -> ~ overlap k' k) ->
     makes (fun fuel => snd (insert_merge_touching_c k v m fuel)) (Nat.min 1 (length (beside m k)))).
  Proof.
    intros m k v R Vk. apply reachable_WF in R. split; intros X; apply costs_makes; [apply touching_refused_cost|apply touching_cost]; assumption.
  Qed.
  (** [insert_merge_touching_if_values_equal]: it compares twice with each neighbour, and once
      more if it merges. *)
  Theorem C153_insert_merge_touching_if_values_equal : forall veq m k v, reachable m -> valid k ->
    ((exists k' v', In (k', v') (iter m) /\ overlap k' k) ->
     makes (fun fuel => snd (insert_merge_touching_if_values_equal_c veq k v m fuel)) 0) /\
    ((forall k' v', In (k', v') (iter m) -> ~ overlap k' k) ->
     makes (fun fuel => snd (insert_merge_touching_if_values_equal_c veq k v m fuel))
       (2 * length (beside m k) + if existsb (fun w => veq w v) (beside m k) then 1 else 0)).
  Proof.
    intros veq m k v R Vk. apply reachable_WF in R. split; intros X; apply costs_makes; [apply equal_refused_cost|apply equal_cost]; assumption.
  Qed.
  (** [insert_merge_overlapping]: once if an entry is at one of the ends of the interval; entries
      inside it are merged without. *)
  Theorem C153_insert_merge_overlapping : forall m k v, reachable m -> valid k ->
    makes (fun fuel => snd (insert_merge_overlapping_c k v m fuel)) (Nat.min 1 (length (at_ends m k))).
  Proof. intros m k v R Vk. apply reachable_WF in R. apply costs_makes, overlapping_cost; assumption. Qed.
  Theorem C153_insert_merge_touching_or_overlapping : forall m k v, reachable m -> valid k ->
    makes (fun fuel => snd (insert_merge_touching_or_overlapping_c k v m fuel)) (Nat.min 1 (length (beside m k ++ at_ends m k))).
  Proof. intros m k v R Vk. apply reachable_WF in R. apply costs_makes, touching_or_overlapping_cost; assumption. Qed.
  (** So none of these four runs user code more than five times, however large the map. *)
  Theorem C153_merges_at_most_five : forall veq m k v fuel, reachable m -> valid k -> 5 <= fuel ->
    snd (insert_merge_touching_c k v m fuel) <> Panic /\ snd (insert_merge_touching_if_values_equal_c veq k v m fuel) <> Panic /\
    snd (insert_merge_overlapping_c k v m fuel) <> Panic /\ snd (insert_merge_touching_or_overlapping_c k v m fuel) <> Panic.
  Proof.
    intros veq m k v fuel R Vk L. pose proof (reachable_WF m R) as W.
    pose proof (two_beside m k W) as B.
    destruct (overlap_any_dec m k W Vk) as [X|X].
    - repeat split; intros E.
      + apply (proj1 (C153_insert_merge_touching m k v R Vk) X) in E. lia.
      + apply (proj1 (C153_insert_merge_touching_if_values_equal veq m k v R Vk) X) in E. lia.
      + apply (C153_insert_merge_overlapping m k v R Vk) in E. lia.
      + apply (C153_insert_merge_touching_or_overlapping m k v R Vk) in E. lia.
    - repeat split; intros E.
      + apply (proj2 (C153_insert_merge_touching m k v R Vk) X) in E. lia.
      + apply (proj2 (C153_insert_merge_touching_if_values_equal veq m k v R Vk) X) in E. destruct (existsb _ _); lia.
      + apply (C153_insert_merge_overlapping m k v R Vk) in E. lia.
      + apply (C153_insert_merge_touching_or_overlapping m k v R Vk) in E. lia.
  Qed.
  (** The points next to an interval and at its ends carry at most one value each. *)
  Theorem C153_at_most_one : forall m p, reachable m -> length (at_point m p) <= 1 /\
    forall v, In v (at_point m p) <-> get_at_point m p = Val (Some v).
  Proof.
    intros m p R. pose proof (reachable_WF m R) as W. split; [exact (one_at m p W)|].
    intros v. rewrite (get_at m p W), (get_at_point_get m p W). destruct (get_key_value (overlapping_comp p) m) as [[k w]|]; cbn; [|split; [intros []|discriminate]].
    split; [intros [->|[]]; reflexivity|intros [= ->]; auto].
  Qed.
End Nodit.

Section Zosdit.
  Context {I : Type} `{PL : PointLaws I}.
  Context {K : Type} {IK : InclusiveInterval I K} {IL : IntervalLaws I K}.
  Context {V : Type}.
  (** [ZosditMap::cut], counted as for [NoditMap]. *)
  Theorem C153_zosdit_cut : forall (z : ZosditMap K V) {Q} {IQ : InclusiveInterval I Q} (q : Q) z' l, zreachable z -> zosdit_cut q z = (z', Val l) ->
    makes (fun fuel => snd (zosdit_cut_c q z fuel)) (length l + 2 * (length (zosdit_iter z') + length l - length (zosdit_iter z))).
  Proof. intros z Q IQ q z' l R. apply zcut_cost, zreachable_ZWF, R. Qed.
End Zosdit.

Section Gqdit.
  Context {I : Type} `{PL : PointLaws I}.
  Context {K : Type} {IK : InclusiveInterval I K} {IL : IntervalLaws I K}.
  Context {D : Type} `{OLD : OrdLaws D}.
  Implicit Types (g : Gqdit K D).
  Lemma update_calls {Q} {IQ : InclusiveInterval I Q} (c : bool) upd (q : Q) g n parts : WF g -> valid q -> cut_calls q g n parts ->
    exists a, (if c then 1 else 0) * parts <= a <= ((if c then 1 else 0) + 5) * parts /\ makes (fun fuel => snd (cut_update_c c upd q g fuel)) (n + a).
  Proof.
    intros W Vq (g' & l & E & -> & M). destruct (cut_update_WF upd q g W Vq) as (g2 & E2 & _).
    destruct (cut_update_cost c upd q g g' l g2 E E2) as (a & B & C). pose proof (C153_cut g q g' l E) as M'. unfold iter in M'.
    assert (X : n = length l + 2 * (length g' + length l - length g)) by (apply (makes_unique _ _ _ M M')).
    exists (a - n). split; [lia|]. replace (n + (a - n)) with a by lia. apply costs_makes_nat, C.
  Qed.
  (** [Gqdit::insert] clones the identifiers once for each part and makes at most five more
      calls to put the part back. *)
  Theorem C153_gqdit_insert : forall g ids k n parts, greachable g -> valid k -> collect ids <> [] -> cut_calls k g n parts ->
    exists a, parts <= a <= 6 * parts /\ makes (fun fuel => snd (gqdit_insert_c (collect ids) k g fuel)) (n + a).
  Proof.
    intros g ids k n parts R Vk N C. apply greachable_GWF in R.
    destruct (update_calls true (fun s => bset_extend s (collect ids)) k g n parts (proj1 (proj1 R)) Vk C) as (a & B & M). exists a. split; [lia|].
    intros f. unfold gqdit_insert_c. rewrite (iip_valid _ Vk). destruct (collect ids); [destruct (N eq_refl)|]. exact (M f).
  Qed.
  Theorem C153_cut_with_identifiers : forall g ids {Q} {IQ : InclusiveInterval I Q} (q : Q) n parts, greachable g -> valid q -> collect ids <> [] -> cut_calls q g n parts ->
    exists a, a <= 5 * parts /\ makes (fun fuel => snd (cut_with_identifiers_c (collect ids) q g fuel)) (n + a).
  Proof.
    intros g ids Q IQ q n parts R Vk N C. apply greachable_GWF in R.
    destruct (update_calls false (bset_retain (fun i => negb (bset_contains (collect ids) i))) q g n parts (proj1 (proj1 R)) Vk C) as (a & B & M). exists a. split; [lia|].
    intros f. unfold cut_with_identifiers_c. rewrite (iip_valid _ Vk). destruct (collect ids); [destruct (N eq_refl)|]. exact (M f).
  Qed.
  Theorem C153_cut_all_identifiers : forall g {Q} {IQ : InclusiveInterval I Q} (q : Q) n parts, greachable g -> valid q -> cut_calls q g n parts ->
    exists a, a <= 5 * parts /\ makes (fun fuel => snd (cut_all_identifiers_c q g fuel)) (n + a).
  Proof.
    intros g Q IQ q n parts R Vk C. apply greachable_GWF in R.
    destruct (update_calls false (fun _ => bset_empty) q g n parts (proj1 (proj1 R)) Vk C) as (a & B & M). exists a. split; [lia|].
    intros f. unfold cut_all_identifiers_c. rewrite (iip_valid _ Vk). exact (M f).
  Qed.
  (** Without identifiers nothing is called. *)
  Theorem C153_no_identifiers : forall g k {Q} {IQ : InclusiveInterval I Q} (q : Q), valid k -> valid q ->
    makes (fun fuel => snd (gqdit_insert_c (collect []) k g fuel)) 0 /\ makes (fun fuel => snd (cut_with_identifiers_c (collect []) q g fuel)) 0.
  Proof.
    intros g k Q IQ q Vk Vq. split; intros f; [unfold gqdit_insert_c; rewrite (iip_valid _ Vk)|unfold cut_with_identifiers_c; rewrite (iip_valid _ Vq)];
      cbn; (split; [discriminate|lia]).
  Qed.
End Gqdit.

(** [2,4] -> 1, [6,9] -> 2, [10,12] -> 3 *)
Example C153_nodit_example : reachable C70_map /\ valid (3 --> 7 : Interval u8) /\ valid (5 --> 5 : Interval u8) /\
  makes (fun fuel => snd (cut_c (3 --> 7 : Interval u8) C70_map fuel)) 6 /\
  makes (fun fuel => snd (insert_overwrite_c (3 --> 7 : Interval u8) 9 C70_map fuel)) 6 /\
  beside C70_map (5 --> 5 : Interval u8) = [1; 2] /\ at_ends C70_map (3 --> 7 : Interval u8) = [1; 2] /\
  makes (fun fuel => snd (insert_merge_touching_c (5 --> 5 : Interval u8) 1 C70_map fuel)) 1 /\
  makes (fun fuel => snd (insert_merge_touching_if_values_equal_c Nat.eqb (5 --> 5 : Interval u8) 1 C70_map fuel)) 5 /\
  makes (fun fuel => snd (insert_merge_touching_if_values_equal_c Nat.eqb (5 --> 5 : Interval u8) 3 C70_map fuel)) 4 /\
  makes (fun fuel => snd (insert_merge_overlapping_c (3 --> 7 : Interval u8) 1 C70_map fuel)) 1 /\
  makes (fun fuel => snd (insert_merge_overlapping_c (5 --> 20 : Interval u8) 1 C70_map fuel)) 0 /\
  makes (fun fuel => snd (insert_merge_touching_or_overlapping_c (5 --> 20 : Interval u8) 1 C70_map fuel)) 1.
Proof.
  assert (R : reachable C70_map) by (exists C70_ops; reflexivity).
  assert (V1 : valid (3 --> 7 : Interval u8)) by (apply ex_valid; reflexivity).
  assert (V2 : valid (5 --> 5 : Interval u8)) by (apply ex_valid; reflexivity).
  assert (V3 : valid (5 --> 20 : Interval u8)) by (apply ex_valid; reflexivity).
  assert (N : forall (k' : Interval u8) (v' : nat), In (k', v') (iter C70_map) -> ~ overlap k' (5 --> 5 : Interval u8)).
  { intros k' v' X. destruct (overlap_any_dec C70_map (5 --> 5 : Interval u8) (reachable_WF _ R) V2) as [Y|Y]; [|exact (Y k' v' X)]. exfalso.
    pose proof (proj1 (C153_insert_merge_touching C70_map (5 --> 5 : Interval u8) 1 R V2) Y 0) as Z.
    assert (E : snd (insert_merge_touching_c (5 --> 5 : Interval u8) 1 C70_map 0) = Panic) by (vm_compute; reflexivity).
    apply Z in E. lia. }
  assert (E1 : cut (3 --> 7 : Interval u8) C70_map = ([(2 --> 2, 1); (8 --> 9, 2); (10 --> 12, 3)], Val [(3 --> 4, 1); (6 --> 7, 2)])) by (vm_compute; reflexivity).
  assert (B1 : beside C70_map (5 --> 5 : Interval u8) = [1; 2]) by (vm_compute; reflexivity).
  assert (A1 : at_ends C70_map (3 --> 7 : Interval u8) = [1; 2]) by (vm_compute; reflexivity).
  assert (A2 : at_ends C70_map (5 --> 20 : Interval u8) = []) by (vm_compute; reflexivity).
  assert (B2 : beside C70_map (5 --> 20 : Interval u8) = [1]) by (vm_compute; reflexivity).
  split; [exact R|]. split; [exact V1|]. split; [exact V2|].
  split; [exact (C153_cut C70_map (3 --> 7 : Interval u8) _ _ E1)|]. split; [exact (C153_insert_overwrite C70_map (3 --> 7 : Interval u8) 9 _ _ E1)|].
  split; [exact B1|]. split; [exact A1|].
  split; [pose proof (proj2 (C153_insert_merge_touching C70_map (5 --> 5 : Interval u8) 1 R V2) N) as X; rewrite B1 in X; exact X|].
  split; [pose proof (proj2 (C153_insert_merge_touching_if_values_equal Nat.eqb C70_map (5 --> 5 : Interval u8) 1 R V2) N) as X; rewrite B1 in X; exact X|].
  split; [pose proof (proj2 (C153_insert_merge_touching_if_values_equal Nat.eqb C70_map (5 --> 5 : Interval u8) 3 R V2) N) as X; rewrite B1 in X; exact X|].
  split; [pose proof (C153_insert_merge_overlapping C70_map (3 --> 7 : Interval u8) 1 R V1) as X; rewrite A1 in X; exact X|].
  split; [pose proof (C153_insert_merge_overlapping C70_map (5 --> 20 : Interval u8) 1 R V3) as X; rewrite A2 in X; exact X|].
  pose proof (C153_insert_merge_touching_or_overlapping C70_map (5 --> 20 : Interval u8) 1 R V3) as X. rewrite A2, B2 in X. exact X.
Qed.

(** [2,4] -> 1, [4,4] -> 2 and 3, [4,9] -> 4 *)
Definition C153_zops : list (zop u8 (Interval u8) nat) :=
  [ZInsertStrictBack (2 --> 4) 1; ZInsertStrictBack (4 --> 4) 2; ZInsertStrictBack (4 --> 4) 3; ZInsertStrictBack (4 --> 9) 4].
Definition C153_zmap : ZosditMap (Interval u8) nat := zrun C153_zops.
Example C153_zosdit_example : zreachable C153_zmap /\
  zosdit_iter C153_zmap = [(2 --> 4, 1); (4 --> 4, 2); (4 --> 4, 3); (4 --> 9, 4)] /\
  snd (zosdit_cut (4 --> 7 : Interval u8) C153_zmap) = Val [(4 --> 4, 1); (4 --> 4, 2); (4 --> 4, 3); (4 --> 7, 4)] /\
  makes (fun fuel => snd (zosdit_cut_c (4 --> 7 : Interval u8) C153_zmap fuel)) 8.
Proof.
  assert (R : zreachable C153_zmap) by (exists C153_zops; reflexivity). split; [exact R|]. split; [vm_compute; reflexivity|]. split; [vm_compute; reflexivity|].
  destruct (zosdit_cut (4 --> 7 : Interval u8) C153_zmap) as [z' o] eqn:E.
  assert (X : o = Val [(4 --> 4, 1); (4 --> 4, 2); (4 --> 4, 3); (4 --> 7, 4)]) by (transitivity (snd (zosdit_cut (4 --> 7 : Interval u8) C153_zmap)); [rewrite E; reflexivity|vm_compute; reflexivity]).
  assert (Y : length (zosdit_iter z') = 2) by (transitivity (length (zosdit_iter (fst (zosdit_cut (4 --> 7 : Interval u8) C153_zmap)))); [rewrite E; reflexivity|vm_compute; reflexivity]).
  subst o. pose proof (C153_zosdit_cut C153_zmap (4 --> 7 : Interval u8) _ _ R E) as M. rewrite Y in M. exact M.
Qed.

(** The bounds for Gqdits are reached: identifiers everywhere take one clone beyond the cut;
    removing them from the middle of a run again takes five calls. *)
Definition C153_gops : list (gop u8 (Interval u8) u8) := [GInsert ['5] (10 --> 20)].
Definition C153_gq : Gqdit (Interval u8) u8 := grun C153_gops.
Example C153_gqdit_example : greachable C153_gq /\ greachable (gnew : Gqdit (Interval u8) u8) /\ collect ['5 : u8] <> [] /\
  valid (0 --> 255 : Interval u8) /\ valid (10 --> 20 : Interval u8) /\
  cut_calls (0 --> 255 : Interval u8) (gnew : Gqdit (Interval u8) u8) 1 1 /\
  makes (fun fuel => snd (gqdit_insert_c (collect ['5 : u8]) (0 --> 255 : Interval u8) gnew fuel)) 2 /\
  cut_calls (10 --> 20 : Interval u8) C153_gq 1 1 /\
  makes (fun fuel => snd (cut_all_identifiers_c (10 --> 20 : Interval u8) C153_gq fuel)) 6 /\
  makes (fun fuel => snd (cut_with_identifiers_c (collect ['5 : u8]) (10 --> 20 : Interval u8) C153_gq fuel)) 6.
Proof.
  assert (R : greachable C153_gq) by (exists C153_gops; reflexivity).
  assert (R0 : greachable (gnew : Gqdit (Interval u8) u8)) by (exists []; reflexivity).
  assert (N : collect ['5 : u8] <> []) by discriminate.
  assert (V1 : valid (0 --> 255 : Interval u8)) by (apply ex_valid; reflexivity).
  assert (V2 : valid (10 --> 20 : Interval u8)) by (apply ex_valid; reflexivity).
  assert (C1 : cut_calls (0 --> 255 : Interval u8) (gnew : Gqdit (Interval u8) u8) 1 1).
  { destruct (cut (0 --> 255 : Interval u8) (gnew : Gqdit (Interval u8) u8)) as [g' o] eqn:E. exists g'.
    assert (X : o = Val [(0 --> 255 : Interval u8, [])] /\ g' = []).
    { assert (Y : cut (0 --> 255 : Interval u8) (gnew : Gqdit (Interval u8) u8) = ([], Val [(0 --> 255 : Interval u8, [])])) by (vm_compute; reflexivity). rewrite E in Y. injection Y as -> ->. auto. }
    destruct X as [-> ->]. eexists. split; [exact E|]. split; [reflexivity|]. exact (C153_cut _ _ _ _ E). }
  assert (C2 : cut_calls (10 --> 20 : Interval u8) C153_gq 1 1).
  { destruct (cut (10 --> 20 : Interval u8) C153_gq) as [g' o] eqn:E. exists g'.
    assert (Y : cut (10 --> 20 : Interval u8) C153_gq = ([(0 --> 9 : Interval u8, []); (21 --> 255 : Interval u8, [])], Val [(10 --> 20 : Interval u8, ['5])])) by (vm_compute; reflexivity).
    rewrite E in Y. injection Y as -> ->. eexists. split; [exact E|]. split; [reflexivity|]. exact (C153_cut _ _ _ _ E). }
  split; [exact R|]. split; [exact R0|]. split; [exact N|]. split; [exact V1|]. split; [exact V2|]. split; [exact C1|]. split; [|split; [exact C2|split]].
  - destruct (C153_gqdit_insert gnew ['5 : u8] (0 --> 255 : Interval u8) 1 1 R0 V1 N C1) as (a & B & M).
    assert (X : 1 + a <= 2) by (apply (makes_at_most _ _ 2 M); vm_compute; discriminate). replace 2 with (1 + a) by lia. exact M.
  - destruct (C153_cut_all_identifiers C153_gq (10 --> 20 : Interval u8) 1 1 R V2 C2) as (a & B & M).
    assert (X : 5 < 1 + a) by (apply M; vm_compute; reflexivity). replace 6 with (1 + a) by lia. exact M.
  - destruct (C153_cut_with_identifiers C153_gq ['5 : u8] (10 --> 20 : Interval u8) 1 1 R V2 N C2) as (a & B & M).
    assert (X : 5 < 1 + a) by (apply M; vm_compute; reflexivity). replace 6 with (1 + a) by lia. exact M.
Qed.

Print Assumptions C153_cut.
Print Assumptions C153_insert_overwrite.
Print Assumptions C153_insert_merge_touching.
Print Assumptions C153_insert_merge_touching_if_values_equal.
Print Assumptions C153_insert_merge_overlapping.
Print Assumptions C153_insert_merge_touching_or_overlapping.
Print Assumptions C153_merges_at_most_five.
Print Assumptions C153_at_most_one.
Print Assumptions C153_zosdit_cut.
Print Assumptions C153_gqdit_insert.
Print Assumptions C153_cut_with_identifiers.
Print Assumptions C153_cut_all_identifiers.
Print Assumptions C153_no_identifiers.
