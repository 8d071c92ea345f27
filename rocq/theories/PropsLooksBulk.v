(** * PropsLooksBulk: which stored intervals the remaining NoditMap queries, the
      bulk constructors and [Gqdit::append] look at (C154, C155). *)
From Coq Require Import List ZArith Bool Arith Lia.
From Verif Require Import Base BTree UtilsModel IntervalModel NoditModel NoditOps ZosditModel ZosditOps GqditModel GqditOps InstancesModel Instances Spec TreeShape SearchOps LooksOps LooksBulkOps TraceModel TraceSpec CostOps
  PointFacts IntervalFacts NoditFacts NoditInv ZosditFacts ZosditProofs GqditFacts GqditProofs TreeFacts TreeProofs SearchFacts LooksFacts LooksMoreFacts LooksBulkFacts LooksAppendFacts TraceGqdit CostFacts PropsSearch PropsLooks.
Import ListNotations.
Open Scope nat_scope.

Section Nodit.
  Context {I : Type} `{PL : PointLaws I}.
  Context {K : Type} {IK : InclusiveInterval I K} {IL : IntervalLaws I K}.
  Context {V : Type}.
  Implicit Types (m : NoditMap K V).

  (** ** C154 *)
  Section Q.
    Context {Q : Type} {IQ : InclusiveInterval I Q}.
    Implicit Type q : Q.
    Theorem C154_gaps_trimmed : forall m q d t o, reachable m -> btree true d t -> entries t = m -> overlapping m q = Val o ->
      fst (l_gaps_trimmed t q) = gaps_trimmed m q /\ looks_at 8 (len m) (map fst o) (snd (l_gaps_trimmed t q)).
    Proof. intros m q d t o R. exact (l_trimmed_same m q d t o (reachable_WF m R)). Qed.
    (** [contains_interval] stops one entry after the first point that is missing. *)
    Theorem C154_contains_interval : forall m q d t, reachable m -> valid q -> btree true d t -> entries t = m ->
      fst (l_contains_interval t q) = map_contains_interval m q /\
      exists x y r, overlapping m q = Val (x ++ y ++ r) /\ length y <= 1 /\
      (forall e p, In e x -> covers q p -> ple p (iend (fst e)) -> covered m p) /\
      looks_at 8 (len m) (map fst (x ++ y)) (snd (l_contains_interval t q)).
    Proof. intros m q d t R. exact (l_contains_same m q d t (reachable_WF m R)). Qed.
  End Q.

  (** ** C155 *)
  (** Three searches and one step for every entry given. *)
  Theorem C155_from_iter_strict : forall (T : nat -> shapes K V) l, (forall i, good_shapes (T i)) ->
    fst (l_from_iter_strict T l) = from_iter_strict l /\
    exists w, length w <= length l /\ looks_at (3 * length l) (length l) w (snd (l_from_iter_strict T l)).
  Proof. intros T l GT. apply (l_extend_same T l new (length l) GT WF_nil). cbn. lia. Qed.
End Nodit.

Section Zosdit.
  Context {I : Type} `{PL : PointLaws I}.
  Context {K : Type} {IK : InclusiveInterval I K} {IL : IntervalLaws I K}.
  Context {V : Type}.
  Theorem C155_from_iter_strict_back : forall (T : shapes K (list V)) l, good_shapes T ->
    fst (l_from_iter_strict_back T l) = from_iter_strict_back l /\
    exists w, length w <= length l /\ looks_at (3 * length l) (length l) w (snd (l_from_iter_strict_back T l)).
  Proof. intros T l GT. apply (l_extend_back_same T l z_new (length l) GT new_ZWF new_ZD). cbn. lia. Qed.
End Zosdit.

Section Gqdit.
  Context {I : Type} `{PL : PointLaws I}.
  Context {K : Type} {IK : InclusiveInterval I K} {IL : IntervalLaws I K}.
  Context {D : Type} {OD : Ord D} {OL : OrdLaws D}.
  Implicit Types (g : Gqdit K D).
  (** [append] puts [g2]'s entries into [g] one after another; each may meet
      many of [g]'s, but together they meet few. *)
  Theorem C155_append_looks : forall (S0 : shapes K (BTreeSet D)) T g g2 d t, good_shapes S0 -> (forall j i, good_shapes (T j i)) ->
    greachable g -> greachable g2 -> btree true d t -> entries t = g2 -> exists w,
    fst (l_append S0 T g t) = append g g2 /\ length w <= 2 * len g + 4 * len g2 + 1 /\
    looks_at (1 + 10 * len g + 11 * len g2) (len g + 2 * len g2) w (snd (l_append S0 T g t)).
  Proof. intros S0 T g g2 d t GS GT R R2. exact (l_append_same S0 T g g2 d t GS GT (greachable_GWF g R) (greachable_GWF g2 R2)). Qed.
  (** And the changes of [g]'s tree (in C120's sense). *)
  Theorem C155_append_adds : forall g g2, greachable g -> greachable g2 -> tree_adds (append_t g g2) <= len g + 3 * len g2.
  Proof. intros g g2 R R2. exact (append_added g g2 (greachable_GWF g R) (greachable_GWF g2 R2)). Qed.
  Theorem C155_append_removes : forall g g2, greachable g -> greachable g2 -> tree_removes (append_t g g2) <= 2 * len g + 3 * len g2.
  Proof.
    intros g g2 R R2. pose proof (C155_append_adds g g2 R R2) as A. pose proof (greachable_GWF g R) as G.
    destruct (append_t_any g g2 ltac:(apply G) (greachable_GWF g2 R2)) as [P _]. apply balance in P. unfold len in *. lia.
  Qed.
End Gqdit.

Definition ex_more : list (gop u8 (Interval u8) u8) := [GInsert ['9] (0 --> 7); GInsert ['8] (9 --> 30)].
Definition ex_pairs : list (Interval u8 * nat) := [(6 --> 9, 1); (0 --> 2, 2); (4 --> 4, 3); (20 --> 30, 4); (2 --> 3, 5); (40 --> 41, 6)].
Example C155_example :
  (** the fifth pair overlaps the second, the sixth is never reached *)
  fst (l_from_iter_strict (fun _ => some_shapes) ex_pairs) = Val (Err 5) /\
  length (asked (snd (l_from_iter_strict (fun _ => some_shapes) ex_pairs))) = 21 /\
  walked (snd (l_from_iter_strict (fun _ => some_shapes) ex_pairs)) = [0 --> 2] /\
  (** touching ends are no overlap *)
  fst (l_from_iter_strict_back some_shapes (firstn 2 ex_pairs ++ skipn 4 ex_pairs)) = from_iter_strict_back (firstn 2 ex_pairs ++ skipn 4 ex_pairs) /\
  length (asked (snd (l_from_iter_strict_back some_shapes (firstn 2 ex_pairs ++ skipn 4 ex_pairs)))) = 18 /\
  (** a Gqdit of thirteen entries and one of four *)
  greachable ex_g /\ greachable (grun ex_more) /\ len ex_g = 13 /\ len (grun ex_more) = 4 /\
  good_shapes (some_shapes (K := Interval u8) (V := BTreeSet u8)) /\
  fst (fst (fst (l_append some_shapes (fun _ _ => some_shapes) ex_g (some_shapes 0 (grun ex_more))))) = fst (fst (append ex_g (grun ex_more))) /\
  len (fst (fst (append ex_g (grun ex_more)))) = 15 /\
  length (asked (snd (l_append some_shapes (fun _ _ => some_shapes) ex_g (some_shapes 0 (grun ex_more))))) = 658 /\
  length (walked (snd (l_append some_shapes (fun _ _ => some_shapes) ex_g (some_shapes 0 (grun ex_more))))) = 31 /\
  tree_adds (append_t ex_g (grun ex_more)) = 15 /\ tree_removes (append_t ex_g (grun ex_more)) = 13.
Proof.
  do 5 (split; [vm_compute; reflexivity|]). split; [exists ex_gops; reflexivity|]. split; [exists ex_more; reflexivity|].
  do 2 (split; [vm_compute; reflexivity|]). split; [apply some_shapes_good|]. repeat split; vm_compute; reflexivity.
Qed.
Example C154_example_contains :
  (** the entries from 0 on have a gap at 4: no step beyond the second entry *)
  reachable ex_many /\ btree true 2 ex_tree /\ entries ex_tree = ex_many /\
  fst (l_contains_interval ex_tree (2 --> 200 : Interval u8)) = Val false /\
  walked (snd (l_contains_interval ex_tree (2 --> 200 : Interval u8))) = [0 --> 3; 5 --> 8] /\
  fst (l_gaps_trimmed ex_tree (6 --> 14 : Interval u8)) = Val [9 --> 9; 14 --> 14] /\
  walked (snd (l_gaps_trimmed ex_tree (6 --> 14 : Interval u8))) = [5 --> 8; 10 --> 13].
Proof.
  split; [exists ex_ops; reflexivity|]. split; [vm_compute; repeat (constructor; try lia)|]. repeat split; vm_compute; reflexivity.
Qed.

Print Assumptions C154_gaps_trimmed.
Print Assumptions C154_contains_interval.
Print Assumptions C155_from_iter_strict.
Print Assumptions C155_from_iter_strict_back.
Print Assumptions C155_append_looks.
Print Assumptions C155_append_adds.
Print Assumptions C155_append_removes.
