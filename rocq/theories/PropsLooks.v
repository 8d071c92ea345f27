(** * PropsLooks: which stored intervals a whole call looks at (C154). *)
From Coq Require Import List ZArith Bool Arith Lia.
From Verif Require Import Base BTree UtilsModel IntervalModel NoditModel NoditOps ZosditModel ZosditOps GqditModel GqditOps InstancesModel Instances Spec TreeShape SearchOps LooksOps
  PointFacts IntervalFacts NoditFacts NoditInv NoditQueries ZosditFacts ZosditMut ZosditProofs GqditFacts GqditProofs TreeFacts TreeProofs SearchFacts ListFacts LooksFacts LooksMoreFacts PropsSearch.
Import ListNotations.
Open Scope nat_scope.

(** ** C154 *)
(** There are trees for all the maps a call may meet. *)
Theorem C154_shapes_exist : forall (K V : Type), exists T : shapes K V, good_shapes T.
Proof. intros K V. exists some_shapes. exact some_shapes_good. Qed.

Section Nodit.
  Context {I : Type} `{PL : PointLaws I}.
  Context {K : Type} {IK : InclusiveInterval I K} {IL : IntervalLaws I K}.
  Context {V : Type}.
  Implicit Types (m : NoditMap K V) (k : K) (v : V) (T : shapes K V).

  Section Q.
    Context {Q : Type} {IQ : InclusiveInterval I Q}.
    Implicit Type q : Q.
    (** Two searches and the entries handed out. *)
    Theorem C154_overlapping : forall m q d t o, reachable m -> btree true d t -> entries t = m -> overlapping m q = Val o ->
      fst (l_overlapping_all t q) = Val o /\ looks_at 2 (len m) (map fst o) (snd (l_overlapping_all t q)).
    Proof. intros m q d t o R. exact (l_overlapping_all_same m q d t o (reachable_WF m R)). Qed.
    Theorem C154_gaps_untrimmed : forall m q d t o, reachable m -> btree true d t -> entries t = m -> overlapping m q = Val o ->
      fst (l_gaps_untrimmed t q) = gaps_untrimmed m q /\ looks_at 8 (len m) (map fst o) (snd (l_gaps_untrimmed t q)).
    Proof. intros m q d t o R. exact (l_gaps_same m q d t o (reachable_WF m R)). Qed.
    (** One search, the entries removed, and perhaps one more. *)
    Theorem C154_remove_overlapping : forall m q d t, reachable m -> valid q -> btree true d t -> entries t = m -> exists o w,
      overlapping m q = Val o /\ fst (l_remove_overlapping q t) = remove_overlapping q m /\
      some_more w (map fst o) /\ looks_at 1 (len m) w (snd (l_remove_overlapping q t)).
    Proof. intros m q d t R. exact (l_remove_same m q d t (reachable_WF m R)). Qed.
    Theorem C154_cut : forall m q d t, reachable m -> valid q -> btree true d t -> entries t = m -> exists o w,
      overlapping m q = Val o /\ fst (l_cut q t) = cut q m /\
      some_more w (map fst o) /\ looks_at 1 (len m) w (snd (l_cut q t)).
    Proof. intros m q d t R. exact (l_cut_same m q d t (reachable_WF m R)). Qed.
  End Q.

  Theorem C154_insert_overwrite : forall T k v m, good_shapes T -> reachable m -> valid k -> exists o w,
    overlapping m k = Val o /\ fst (l_insert_overwrite T k v m) = insert_overwrite k v m /\
    some_more w (map fst o) /\ looks_at 2 (len m + 1) w (snd (l_insert_overwrite T k v m)).
  Proof. intros T k v m GT R. exact (l_overwrite_same T k v m GT (reachable_WF m R)). Qed.
  Theorem C154_insert_merge_overlapping : forall T k v m, good_shapes T -> reachable m -> valid k -> exists o w,
    overlapping m k = Val o /\ fst (l_insert_merge_overlapping T k v m) = insert_merge_overlapping k v m /\
    some_more w (map fst o) /\ looks_at 4 (len m) w (snd (l_insert_merge_overlapping T k v m)).
  Proof. intros T k v m GT R. exact (l_merge_overlapping_same T k v m GT (reachable_WF m R)). Qed.
  Theorem C154_insert_merge_touching_or_overlapping : forall T k v m, good_shapes T -> reachable m -> valid k -> exists o w,
    overlapping m k = Val o /\ fst (l_insert_merge_touching_or_overlapping T k v m) = insert_merge_touching_or_overlapping k v m /\
    some_more w (map fst o) /\ looks_at 8 (len m) w (snd (l_insert_merge_touching_or_overlapping T k v m)).
  Proof. intros T k v m GT R. exact (l_merge_tor_same T k v m GT (reachable_WF m R)). Qed.
  (** The two that refuse an overlap walk over one entry at most. *)
  Theorem C154_insert_merge_touching : forall T k v m, good_shapes T -> reachable m -> exists w,
    fst (l_insert_merge_touching T k v m) = insert_merge_touching k v m /\
    length w <= 1 /\ looks_at 8 (len m) w (snd (l_insert_merge_touching T k v m)).
  Proof. intros T k v m GT R. exact (l_merge_touching_same T k v m GT (reachable_WF m R)). Qed.
  Theorem C154_insert_merge_touching_if_values_equal : forall veq T k v m, good_shapes T -> reachable m -> exists w,
    fst (l_insert_merge_touching_if_values_equal veq T k v m) = insert_merge_touching_if_values_equal veq k v m /\
    length w <= 1 /\ looks_at 10 (len m) w (snd (l_insert_merge_touching_if_values_equal veq T k v m)).
  Proof. intros veq T k v m GT R. exact (l_merge_equal_same veq T k v m GT (reachable_WF m R)). Qed.
End Nodit.

Section Zosdit.
  Context {I : Type} `{PL : PointLaws I}.
  Context {K : Type} {IK : InclusiveInterval I K} {IL : IntervalLaws I K}.
  Context {V : Type}.
  Implicit Types (z : ZosditMap K V) (p : I) (k : K) (v : V).

  Theorem C154_remove_last_value_at_point : forall z p d t, zreachable z -> btree true d t -> entries t = z_inner z -> exists w,
    fst (l_remove_last_value_at_point p (z_len z) t) = remove_last_value_at_point p z /\ length w <= 1 /\
    looks_at 1 (length (zosdit_iter z)) w (snd (l_remove_last_value_at_point p (z_len z) t)).
  Proof. intros z p d t R. exact (l_remove_last_same z p d t (zreachable_ZWF z R)). Qed.
  (** The bound needs no [stored_once]; the answer does, see C68. *)
  Theorem C154_insert_strict_back : forall z k v d t, zreachable z -> btree true d t -> entries t = z_inner z -> exists w,
    (stored_once z -> fst (l_insert_strict_back t (z_len z) k v) = insert_strict_back k v z) /\ length w <= 1 /\
    looks_at 3 (length (zosdit_iter z)) w (snd (l_insert_strict_back t (z_len z) k v)).
  Proof.
    intros z k v d t R B E. destruct (l_strict_back_same z k v d t (zreachable_ZWF z R) B E) as (w & A & X). exists w. split; [|exact X].
    intros S1. apply A, stored_once_ZD; [apply zreachable_ZWF, R|exact S1].
  Qed.
  Section Q.
    Context {Q : Type} {IQ : InclusiveInterval I Q}.
    Implicit Type q : Q.
    Theorem C154_zosdit_overlapping : forall z q d t, zreachable z -> btree true d t -> entries t = z_inner z -> exists w,
      fst (l_zosdit_overlapping t q) = zosdit_overlapping z q /\ (forall out, zosdit_overlapping z q = Val out -> length w <= length out) /\
      looks_at 2 (length (zosdit_iter z)) w (snd (l_zosdit_overlapping t q)).
    Proof. intros z q d t R. exact (l_zoverlapping_same z q d t (zreachable_ZWF z R)). Qed.
    Theorem C154_zosdit_cut : forall z q d t, zreachable z -> valid q -> btree true d t -> entries t = z_inner z -> exists A M x B,
      z_inner z = A ++ M ++ x ++ B /\ length x <= 1 /\ Forall (fun e => overlap (fst e) q) M /\
      fst (l_zosdit_cut q (z_len z) t) = zosdit_cut q z /\
      looks_at 1 (length (zosdit_iter z)) (map fst (M ++ x)) (snd (l_zosdit_cut q (z_len z) t)).
    Proof. intros z q d t R. exact (l_zcut_same z q d t (zreachable_ZWF z R)). Qed.
  End Q.
End Zosdit.

Section Gqdit.
  Context {I : Type} `{PL : PointLaws I}.
  Context {K : Type} {IK : InclusiveInterval I K} {IL : IntervalLaws I K} {FI : FromInvalid I K}.
  Context {D : Type} {OD : Ord D} {OL : OrdLaws D}.
  Implicit Types (g : Gqdit K D) (t : tree K (BTreeSet D)).

  Section Q.
    Context {Q : Type} {IQ : InclusiveInterval I Q}.
    Implicit Type q : Q.
    Theorem C154_gaps_no_identifier : forall g q d t o, greachable g -> btree true d t -> entries t = g -> overlapping g q = Val o ->
      fst (l_gaps_no_identifier t q) = gaps_no_identifier g q /\ looks_at 2 (len g) (map fst o) (snd (l_gaps_no_identifier t q)).
    Proof. intros g q d t o R. exact (l_no_identifier_same g q d t o (proj1 (proj1 (greachable_GWF g R)))). Qed.
    (** The entries overlapping the query; to its left and right the entries
        with no identifier but the one asked for, up to the first of another
        kind. *)
    Theorem C154_gaps_with_identifier : forall g d0 q d t, greachable g -> valid q -> btree true d t -> entries t = g ->
      exists o ol or_ wl wr, overlapping g q = Val o /\
      overlapping g (mkInterval MIN (istart q)) = Val ol /\ overlapping g (mkInterval (iend q) MAX) = Val or_ /\
      run_of (fun e => forall x, In x (snd e) -> x = d0) (rev ol) wl /\
      run_of (fun e => forall x, In x (snd e) -> x = d0) or_ wr /\
      fst (l_gaps_with_identifier t d0 q) = gaps_with_identifier g d0 q /\
      looks_at 6 (len g) (map fst (o ++ wl ++ wr)) (snd (l_gaps_with_identifier t d0 q)).
    Proof.
      intros g d0 q d t R Vq B E. pose proof (greachable_GWF g R) as [(W & _ & Hs) _].
      destruct (l_with_identifier_same g d0 q d t W Vq B E) as (o & ol & or_ & wl & wr & O & Ol & Or & Rl & Rr & A & F).
      exists o, ol, or_, wl, wr. do 3 (split; [assumption|]).
      assert (X : forall (q' : Interval I) l w, valid q' -> overlapping g q' = Val l -> incl w l -> Forall (fun e : K * BTreeSet D => valid_identifier d0 (snd e) = true) w ->
        Forall (fun e : K * BTreeSet D => forall x, In x (snd e) -> x = d0) w).
      { intros q' l w Vq' Ho Hi Hw. destruct (overlapping_spec g q' W Vq') as (l' & Ho' & Hsub). rewrite Ho in Ho'. injection Ho' as <-.
        rewrite Forall_forall in *. intros [k s] He. cbn [snd]. apply valid_id_spec; [|apply (Hw _ He)].
        apply (Hs k s). apply (sub_in _ _ _ Hsub). apply Hi, He. }
      assert (Vl : valid (mkInterval MIN (istart q))) by (apply valid_rk; apply rk_min).
      assert (Vr : valid (mkInterval (iend q) MAX)) by (apply valid_rk; apply rk_max).
      split; [|split; [|split; assumption]].
      - destruct Rl as (x & y & r & El & Ew & Ly & Fx). exists x, y, r. do 3 (split; [assumption|]). apply (X _ ol x Vl Ol); [|exact Fx].
        intros e He. apply in_rev. rewrite El. apply in_or_app. left. exact He.
      - destruct Rr as (x & y & r & El & Ew & Ly & Fx). exists x, y, r. do 3 (split; [assumption|]). apply (X _ or_ x Vr Or); [|exact Fx].
        intros e He. rewrite El. apply in_or_app. left. exact He.
    Qed.
    (** An update that meets [length o] entries: one search, ten for each of
        them, and a walk over at most twice as many and one. *)
    Theorem C154_cut_with_identifiers : forall g ids q d t T, greachable g -> valid q -> btree true d t -> entries t = g -> (forall i, good_shapes (T i)) ->
      exists o w, overlapping g q = Val o /\ fst (l_cut_with_identifiers t T (collect ids) q) = cut_with_identifiers (collect ids) q g /\
      length w <= 2 * length o + 1 /\ looks_at (1 + 10 * length o) (len g + 2) w (snd (l_cut_with_identifiers t T (collect ids) q)).
    Proof.
      intros g ids q d t T R Vq B E GT. destruct (l_cut_update_same (bset_retain (fun i => negb (bset_contains (collect ids) i))) q g d t T (proj1 (proj1 (greachable_GWF g R))) Vq B E GT) as (o & w & O & A & L & F).
      unfold l_cut_with_identifiers, cut_with_identifiers. rewrite (iip_valid _ Vq). destruct (bset_is_empty (collect ids)); [|exists o, w; auto].
      exists o, []. split; [exact O|]. split; [cbn; rewrite E; reflexivity|]. split; [cbn; lia|]. apply (looks_le 0); [lia|apply looks_nil].
    Qed.
    Theorem C154_cut_all_identifiers : forall g q d t T, greachable g -> valid q -> btree true d t -> entries t = g -> (forall i, good_shapes (T i)) ->
      exists o w, overlapping g q = Val o /\ fst (l_cut_all_identifiers t T q) = cut_all_identifiers q g /\
      length w <= 2 * length o + 1 /\ looks_at (1 + 10 * length o) (len g + 2) w (snd (l_cut_all_identifiers t T q)).
    Proof.
      intros g q d t T R Vq B E GT. unfold l_cut_all_identifiers, cut_all_identifiers. rewrite (iip_valid _ Vq).
      exact (l_cut_update_same (fun _ => bset_empty) q g d t T (proj1 (proj1 (greachable_GWF g R))) Vq B E GT).
    Qed.
  End Q.
  Theorem C154_gqdit_insert : forall g ids k d t T, greachable g -> valid k -> btree true d t -> entries t = g -> (forall i, good_shapes (T i)) ->
    exists o w, overlapping g k = Val o /\ fst (l_gqdit_insert t T (collect ids) k) = gqdit_insert (collect ids) k g /\
    length w <= 2 * length o + 1 /\ looks_at (1 + 10 * length o) (len g + 2) w (snd (l_gqdit_insert t T (collect ids) k)).
  Proof.
    intros g ids k d t T R Vk B E GT. destruct (l_cut_update_same (fun s => bset_extend s (collect ids)) k g d t T (proj1 (proj1 (greachable_GWF g R))) Vk B E GT) as (o & w & O & A & L & F).
    unfold l_gqdit_insert, gqdit_insert. rewrite (iip_valid _ Vk). destruct (bset_is_empty (collect ids)); [|exists o, w; auto].
    exists o, []. split; [exact O|]. split; [cbn; rewrite E; reflexivity|]. split; [cbn; lia|]. apply (looks_le 0); [lia|apply looks_nil].
  Qed.
End Gqdit.

Definition ex_gops : list (gop u8 (Interval u8) u8) :=
  [GInsert ['0] (1 --> 3); GInsert ['1] (6 --> 8); GInsert ['2] (11 --> 13); GInsert ['3] (16 --> 18); GInsert ['4] (21 --> 23); GInsert ['5] (26 --> 28)].
Definition ex_g : Gqdit (Interval u8) u8 := grun ex_gops.
Example C154_example :
  reachable ex_many /\ btree true 2 ex_tree /\ entries ex_tree = ex_many /\ good_shapes (some_shapes (K := Interval u8) (V := nat)) /\
  (** [cut] steps on the two it cuts and on one more *)
  snd (l_cut (6 --> 14 : Interval u8) ex_tree) =
    [Asked (30 --> 33); Asked (0 --> 3); Asked (5 --> 8); Walked (5 --> 8); Walked (10 --> 13); Walked (15 --> 18)] /\
  walked (snd (l_gaps_untrimmed ex_tree (6 --> 14 : Interval u8))) = [5 --> 8; 10 --> 13] /\
  length (asked (snd (l_gaps_untrimmed ex_tree (6 --> 14 : Interval u8)))) = 26 /\
  snd (fst (l_insert_merge_touching some_shapes (4 --> 4 : Interval u8) 7 ex_many)) = Val (Ok (0 --> 8)) /\
  length (asked (snd (l_insert_merge_touching some_shapes (4 --> 4 : Interval u8) 7 ex_many))) = 19 /\
  (** thirteen entries; the gap at 14 extends to the left over the entry of 2 *)
  greachable ex_g /\ len ex_g = 13 /\ good_shapes (some_shapes (K := Interval u8) (V := BTreeSet u8)) /\
  fst (l_gaps_with_identifier (some_shapes 0 ex_g) ('2 : u8) (14 --> 14 : Interval u8)) = Val [9 --> 15] /\
  walked (snd (l_gaps_with_identifier (some_shapes 0 ex_g) ('2 : u8) (14 --> 14 : Interval u8))) =
    [14 --> 15; 14 --> 15; 11 --> 13; 9 --> 10; 6 --> 8; 14 --> 15; 16 --> 18] /\
  walked (snd (l_gqdit_insert (some_shapes 0 ex_g) (fun _ => some_shapes) ['7 : u8] (13 --> 16 : Interval u8))) =
    [11 --> 13; 14 --> 15; 16 --> 18; 19 --> 20; 17 --> 18; 17 --> 18; 17 --> 18] /\
  length (asked (snd (l_gqdit_insert (some_shapes 0 ex_g) (fun _ => some_shapes) ['7 : u8] (13 --> 16 : Interval u8)))) = 99.
Proof.
  split; [exists ex_ops; reflexivity|]. split; [vm_compute; repeat (constructor; try lia)|]. split; [vm_compute; reflexivity|]. split; [apply some_shapes_good|].
  do 5 (split; [vm_compute; reflexivity|]). split; [exists ex_gops; reflexivity|]. split; [vm_compute; reflexivity|]. split; [apply some_shapes_good|].
  repeat split; vm_compute; reflexivity.
Qed.

Print Assumptions C154_shapes_exist.
Print Assumptions C154_overlapping.
Print Assumptions C154_gaps_untrimmed.
Print Assumptions C154_remove_overlapping.
Print Assumptions C154_cut.
Print Assumptions C154_insert_overwrite.
Print Assumptions C154_insert_merge_overlapping.
Print Assumptions C154_insert_merge_touching_or_overlapping.
Print Assumptions C154_insert_merge_touching.
Print Assumptions C154_insert_merge_touching_if_values_equal.
Print Assumptions C154_remove_last_value_at_point.
Print Assumptions C154_insert_strict_back.
Print Assumptions C154_zosdit_overlapping.
Print Assumptions C154_zosdit_cut.
Print Assumptions C154_gaps_no_identifier.
Print Assumptions C154_gaps_with_identifier.
Print Assumptions C154_cut_with_identifiers.
Print Assumptions C154_cut_all_identifiers.
Print Assumptions C154_gqdit_insert.
