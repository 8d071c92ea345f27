(** * PropsTransport: only the order of the points matters (C83-C85). *)
From Coq Require Import List ZArith Bool Lia ZifyBool.
From Verif Require Import Base BTree UtilsModel IntervalModel NoditModel NoditOps ZosditModel ZosditOps Spec TransportOps
  InstancesModel Instances PointFacts NoditFacts NoditInv ZosditProofs TransportFacts PropsNodit.
Import ListNotations.
Open Scope nat_scope.

Section Props.
  Context {I J : Type} {OI : Ord I} {DI : DiscreteFinite I} {PI : PointLaws I}.
  Context {OJ : Ord J} {DJ : DiscreteFinite J} {PJ : PointLaws J} {OLJ : OrdLaws J}.
  Context {K L : Type} {IK : InclusiveInterval I K} {LK : IntervalLaws I K} {IL : InclusiveInterval J L}.
  Context {Q R : Type} {IQ : InclusiveInterval I Q} {IR : InclusiveInterval J R}.
  Context {V W : Type} (f : I -> J) (h : K -> L) (g : V -> W).
  Notation sent := (send h g).

  (** ** C83 *)
  Theorem C83_histories : embeds f -> converts f h -> forall os os', Forall2 (op_sent f h g) os os' ->
    iter (run os') = map sent (iter (run os)).
  Proof. intros Ef Eh os os' F. exact (run_tr f Ef h Eh g os os' F). Qed.
  Theorem C83_insertions : embeds f -> converts f h -> forall os os', Forall2 (op_sent f h g) os os' ->
    forall k v veq veq', (forall x y, veq' (g x) (g y) = veq x y) ->
    snd (insert_strict (h k) (g v) (run os')) = omap (send_error g (fun u => u)) (snd (insert_strict k v (run os))) /\
    snd (insert_merge_touching (h k) (g v) (run os')) = omap (send_error g h) (snd (insert_merge_touching k v (run os))) /\
    snd (insert_merge_touching_if_values_equal veq' (h k) (g v) (run os')) =
      omap (send_error g h) (snd (insert_merge_touching_if_values_equal veq k v (run os))) /\
    snd (insert_merge_overlapping (h k) (g v) (run os')) = omap h (snd (insert_merge_overlapping k v (run os))) /\
    snd (insert_merge_touching_or_overlapping (h k) (g v) (run os')) =
      omap h (snd (insert_merge_touching_or_overlapping k v (run os))) /\
    snd (insert_overwrite (h k) (g v) (run os')) = omap (map sent) (snd (insert_overwrite k v (run os))).
  Proof.
    intros Ef Eh os os' F k v veq veq' Hv. rewrite (run_tr f Ef h Eh g os os' F).
    rewrite (insert_strict_tr f Ef h Eh g), (insert_merge_touching_tr f Ef h Eh g),
      (insert_merge_touching_if_tr f Ef h Eh g veq veq') by exact Hv.
    rewrite (insert_merge_overlapping_tr f Ef h Eh g), (insert_merge_tor_tr f Ef h Eh g),
      (insert_overwrite_tr f Ef h Eh g) by (apply WF_okkeys, run_WF).
    repeat split; reflexivity.
  Qed.
  Theorem C83_removals_and_queries : embeds f -> converts f h -> forall os os', Forall2 (op_sent f h g) os os' ->
    forall (q : Q) (r : R) p, carried f q r ->
    snd (remove_overlapping r (run os')) = omap (map sent) (snd (remove_overlapping q (run os))) /\
    snd (cut r (run os')) = omap (map sent) (snd (cut q (run os))) /\
    overlapping (run os') r = omap (map sent) (overlapping (run os) q) /\
    map_overlaps (run os') r = map_overlaps (run os) q /\
    get_at_point (run os') (f p) = omap (option_map g) (get_at_point (run os) p) /\
    map_contains_point (run os') (f p) = map_contains_point (run os) p /\
    len (run os') = len (run os).
  Proof.
    intros Ef Eh os os' F q r p C. rewrite (run_tr f Ef h Eh g os os' F).
    rewrite (remove_overlapping_tr f Ef h Eh g q r) by exact C.
    rewrite (cut_tr f Ef h Eh g q r) by (assumption || apply WF_okkeys, run_WF).
    rewrite (overlapping_tr f Ef h Eh g _ q r), (map_overlaps_tr f Ef h Eh g _ q r) by exact C.
    rewrite (get_at_point_tr f Ef h Eh g), (map_contains_point_tr f Ef h Eh g) by apply run_WF.
    repeat split; try reflexivity. unfold len, tr. apply map_length.
  Qed.

  (** ** C84 *)
  Theorem C84_gap_queries : embeds f -> onto_ends f -> converts f h -> forall os os', Forall2 (op_sent f h g) os os' ->
    forall (q : Q) (r : R) p, carried f q r ->
    get_key_value_at_point (run os') (f p) =
      omap (fun x => match x with Ok e => Ok (sent e) | Err gap => Err (h gap) end) (get_key_value_at_point (run os) p) /\
    gaps_untrimmed (run os') r = omap (map h) (gaps_untrimmed (run os) q) /\
    gaps_trimmed (run os') r = omap (map h) (gaps_trimmed (run os) q) /\
    map_contains_interval (run os') r = map_contains_interval (run os) q.
  Proof.
    intros Ef Oe Eh os os' F q r p C. rewrite (run_tr f Ef h Eh g os os' F).
    split; [exact (get_key_value_at_point_iso f Ef Oe h Eh g (run os) p)|].
    split; [exact (gaps_untrimmed_tr f Ef Oe h Eh g (run os) q r C)|].
    split; [exact (gaps_trimmed_tr f Ef Oe h Eh g (run os) q r C)|].
    exact (map_contains_interval_tr f Ef Oe h Eh g (run os) q r C).
  Qed.

  (** ** C85 *)
  Theorem C85_zosdit_histories : embeds f -> converts f h -> forall os os', Forall2 (zop_sent f h g) os os' ->
    zosdit_iter (zrun os') = map sent (zosdit_iter (zrun os)) /\ zosdit_len (zrun os') = zosdit_len (zrun os).
  Proof.
    intros Ef Eh os os' F. rewrite (zrun_tr f Ef h Eh g os os' F). split; [|reflexivity].
    exact (flatten_tr h g (z_inner (zrun os))).
  Qed.
  Theorem C85_zosdit_calls : embeds f -> converts f h -> forall os os', Forall2 (zop_sent f h g) os os' ->
    forall k v (q : Q) (r : R) p, carried f q r ->
    snd (insert_strict_back (h k) (g v) (zrun os')) = omap (send_error g (fun u => u)) (snd (insert_strict_back k v (zrun os))) /\
    snd (zosdit_cut r (zrun os')) = omap (map sent) (snd (zosdit_cut q (zrun os))) /\
    snd (remove_last_value_at_point (f p) (zrun os')) = omap (option_map g) (snd (remove_last_value_at_point p (zrun os))) /\
    zosdit_overlapping (zrun os') r = omap (map sent) (zosdit_overlapping (zrun os) q) /\
    is_zero_overlap (zrun os') r = is_zero_overlap (zrun os) q /\
    get_last_value_at_point (zrun os') (f p) = option_map g (get_last_value_at_point (zrun os) p).
  Proof.
    intros Ef Eh os os' F k v q r p C. rewrite (zrun_tr f Ef h Eh g os os' F).
    rewrite (insert_strict_back_tr f Ef h Eh g), (remove_last_tr f Ef h Eh g), (get_last_tr f Ef h Eh g).
    rewrite (zosdit_cut_tr f Ef h Eh g q r) by (assumption || apply ZWF_okz, zrun_ZWF).
    rewrite (zosdit_overlapping_tr f Ef h Eh g _ q r), (is_zero_overlap_tr f Ef h Eh g _ q r) by exact C.
    repeat split; reflexivity.
  Qed.
End Props.

(** ** Point types of the crate: moving an integer type into another one, and
    wrapping points in [Finite] (README).  [Interval] follows its points. *)
Definition over {I J} (f : I -> J) (i : Interval I) : Interval J := mkInterval (f (ivl_start i)) (f (ivl_end i)).
Theorem C83_interval_follows : forall {I J} `{Ord I} `{DiscreteFinite I} `{Ord J} `{DiscreteFinite J} (f : I -> J),
  converts f (over f) /\ forall i, carried f i (over f i).
Proof. intros. split; [split; [split|]|split]; reflexivity. Qed.
Theorem C83_integers : forall lo hi lo' hi' `{IntType lo hi} `{IntType lo' hi'} (d : Z) (f : int lo hi -> int lo' hi'),
  (forall x, ival (f x) = ival x + d)%Z -> embeds f.
Proof.
  intros lo hi lo' hi' H1 H2 d f Hf. split; [|split].
  - intros x y. unfold plt. cbn. rewrite !Hf, !Z.compare_lt_iff. lia.
  - intros x y. cbn. rewrite !Hf, !Z.compare_eq_iff. lia.
  - intros x y z. unfold plt. cbn. rewrite !Hf, !Z.compare_lt_iff. intros A B.
    assert (F : fits lo hi (ival z - d) = true).
    { unfold fits. pose proof (int_fits _ _ x) as Fx. pose proof (int_fits _ _ y) as Fy. unfold fits in Fx, Fy. lia. }
    exists (mkInt _ F). apply int_eq. rewrite Hf. cbn. lia.
Qed.
Theorem C84_integers : forall lo hi lo' hi' `{IntType lo hi} `{IntType lo' hi'} (f : int lo hi -> int lo' hi'),
  (forall x, ival (f x) - lo' = ival x - lo)%Z -> (hi' - lo' = hi - lo)%Z -> embeds f /\ onto_ends f.
Proof.
  intros lo hi lo' hi' H1 H2 f Hf E. split; [apply (C83_integers lo hi lo' hi' (lo' - lo)); intros x; specialize (Hf x); lia|].
  split; apply int_eq; [pose proof (Hf (@MIN (int lo hi) _))|pose proof (Hf (@MAX (int lo hi) _))]; cbn in *; lia.
Qed.
Theorem C83_finite_points : forall {T} `{PL : PointLaws T}, embeds (@Finite T).
Proof.
  intros T OT DT PL. split; [intros x y L; exact L|]. split; [intros x y L; exact L|]. intros x y [w|] A B; [exists w; reflexivity|discriminate].
Qed.

(** ** Examples: the hypotheses are met, non-trivially. *)
Definition u8_to_i8 (x : u8) : i8 := lit (ival x - 128).
Definition u8_to_u16 (x : u8) : u16 := lit (ival x + 1000).
Lemma lit_ival lo hi `{IntType lo hi} z : (lo <= z <= hi)%Z -> ival (lit z : int lo hi) = z.
Proof.
  intros B. unfold lit, of_Z. destruct (Sumbool.sumbool_of_bool (fits lo hi z)) as [E|E]; [reflexivity|].
  exfalso. unfold fits in E. lia.
Qed.
Lemma u8_range (x : u8) : (0 <= ival x <= 255)%Z.
Proof. pose proof (int_fits _ _ x) as F. unfold fits in F. lia. Qed.
Example C83_example :
  let ops : list (op u8 (Interval u8) nat) :=
    [OpInsertStrict (1 --> 4) 1; OpInsertMergeTouching (5 --> 9) 2; OpCut (3 --> 3); OpInsertOverwrite (8 --> 20) 3] in
  let ops' : list (op u16 (Interval u16) bool) :=
    [OpInsertStrict (1001 --> 1004) true; OpInsertMergeTouching (1005 --> 1009) false; OpCut (1003 --> 1003);
     OpInsertOverwrite (1008 --> 1020) true] in
  embeds u8_to_u16 /\ converts u8_to_u16 (over u8_to_u16) /\
  Forall2 (op_sent u8_to_u16 (over u8_to_u16) Nat.odd) ops ops' /\
  iter (run ops) = [(1 --> 2, 2); (4 --> 7, 2); (8 --> 20, 3)] /\
  iter (run ops') = [(1001 --> 1002, false); (1004 --> 1007, false); (1008 --> 1020, true)].
Proof.
  intros ops ops'. split; [|split; [apply C83_interval_follows|split; [|split; vm_compute; reflexivity]]].
  - apply (C83_integers 0 255 0 65535 1000). intros x. pose proof (u8_range x). apply lit_ival. lia.
  - repeat apply Forall2_cons; [..|apply Forall2_nil].
    + exact (os_strict u8_to_u16 (over u8_to_u16) Nat.odd (1 --> 4) 1).
    + exact (os_touching u8_to_u16 (over u8_to_u16) Nat.odd (5 --> 9) 2).
    + apply os_cut. split; vm_compute; reflexivity.
    + exact (os_overwrite u8_to_u16 (over u8_to_u16) Nat.odd (8 --> 20) 3).
Qed.
Example C84_example :
  let ops : list (op u8 (Interval u8) nat) := [OpInsertStrict (1 --> 4) 1; OpInsertStrict (9 --> 9) 2] in
  let ops' : list (op i8 (Interval i8) nat) := [OpInsertStrict (-127 --> -124) 1; OpInsertStrict (-119 --> -119) 2] in
  embeds u8_to_i8 /\ onto_ends u8_to_i8 /\
  Forall2 (op_sent u8_to_i8 (over u8_to_i8) (fun n => n)) ops ops' /\
  gaps_untrimmed (run ops) (3 --> 20) = Val [5 --> 8; 10 --> 255] /\
  gaps_untrimmed (run ops') (-125 --> -108) = Val [-123 --> -120; -118 --> 127] /\
  (** the ends matter: 16-bit points have more to offer *)
  gaps_untrimmed (run [OpInsertStrict (1001 --> 1004) 1; OpInsertStrict (1009 --> 1009) 2] : NoditMap (Interval u16) nat)
    (1003 --> 1020 : Interval u16) = Val [1005 --> 1008; 1010 --> 65535].
Proof.
  intros ops ops'. destruct (C84_integers 0 255 (-128) 127 u8_to_i8) as [E O]; [|reflexivity|].
  - intros x. pose proof (u8_range x). unfold u8_to_i8. rewrite lit_ival; lia.
  - split; [exact E|]. split; [exact O|]. split; [|vm_compute; auto].
    repeat apply Forall2_cons; [..|apply Forall2_nil].
    + exact (os_strict u8_to_i8 (over u8_to_i8) (fun n => n) (1 --> 4) 1).
    + exact (os_strict u8_to_i8 (over u8_to_i8) (fun n => n) (9 --> 9) 2).
Qed.
Example C85_example :
  let ops : list (zop u8 (Interval u8) nat) :=
    [ZInsertStrictBack (1 --> 4) 1; ZInsertStrictBack (4 --> 4) 2; ZCut (2 --> 3); ZInsertStrictBack (4 --> 7) 3] in
  let ops' : list (zop u16 (Interval u16) bool) :=
    [ZInsertStrictBack (1001 --> 1004) true; ZInsertStrictBack (1004 --> 1004) false; ZCut (1002 --> 1003);
     ZInsertStrictBack (1004 --> 1007) true] in
  Forall2 (zop_sent u8_to_u16 (over u8_to_u16) Nat.odd) ops ops' /\
  zosdit_iter (zrun ops) = [(1 --> 1, 1); (4 --> 4, 1); (4 --> 4, 2); (4 --> 7, 3)] /\
  zosdit_iter (zrun ops') = [(1001 --> 1001, true); (1004 --> 1004, true); (1004 --> 1004, false); (1004 --> 1007, true)].
Proof.
  intros ops ops'. split; [|split; vm_compute; reflexivity].
  repeat apply Forall2_cons; [..|apply Forall2_nil].
  + exact (zs_insert u8_to_u16 (over u8_to_u16) Nat.odd (1 --> 4) 1).
  + exact (zs_insert u8_to_u16 (over u8_to_u16) Nat.odd (4 --> 4) 2).
  + apply zs_cut. split; vm_compute; reflexivity.
  + exact (zs_insert u8_to_u16 (over u8_to_u16) Nat.odd (4 --> 7) 3).
Qed.

Print Assumptions C83_histories.
Print Assumptions C83_insertions.
Print Assumptions C83_removals_and_queries.
Print Assumptions C84_gap_queries.
Print Assumptions C85_zosdit_histories.
Print Assumptions C85_zosdit_calls.
Print Assumptions C83_interval_follows.
Print Assumptions C83_integers.
Print Assumptions C84_integers.
Print Assumptions C83_finite_points.
