(** * PropsEffect: user code with side effects, or that answers anything (C157). *)
From Coq Require Import List ZArith Bool Permutation Lia.
From Verif Require Import Base BTree UtilsModel IntervalModel NoditModel NoditOps InstancesModel Instances Spec TreeShape LooksOps
  NoditInv LooksMoreFacts EffectModel EffectOps EffectFacts EffectRight.
Import ListNotations.
Open Scope nat_scope.

(** ** C157 *)
(** *** Whatever the user's code does *)
Section Any.
  Context {W I K V : Type} `{DiscreteFinite I}.
  Context (P : point_code W I) (ik : interval_code W I K) (C : entry_code W I K V) (overlaps_k : K -> K -> user W bool).
  Implicit Types (m : NoditMap K V) (t : tree K V) (k : K) (v : V) (w : W) (T : nat -> BTreeMap K V -> tree K V).

  (** Queries hand out stored entries: a run of them, or one. *)
  Theorem C157_any_overlapping : forall {Q} (iq : interval_code W I Q) t q w l w',
    overlapping_e P ik iq t q w = (Val l, w') -> exists a b, entries t = a ++ l ++ b.
  Proof. intros Q iq t q w l w'. exact (overlapping_e_part P ik iq t q w l w'). Qed.
  Theorem C157_any_get : forall t (p : I) w e w', get_key_value_at_point_e P ik C t p w = (Val (Ok e), w') -> In e (entries t).
  Proof.
    intros t p w e w' E. apply ubind_inv in E. destruct E as ([x|] & w1 & X & E).
    - injection E as -> <-. exact (e_get_stored _ _ _ _ _ X).
    - apply ubind_inv in E. destruct E as (g & w2 & _ & E). apply ubind_inv in E. destruct E as (g' & w3 & _ & E). discriminate E.
  Qed.

  (** A panic, or a refusal which gives the value back, leaves the map as it was;
      otherwise the value is stored, at most one other value is gone. *)
  Theorem C157_any_insert_strict : forall T k v m w m' o w', faithful T -> insert_strict_e P ik T k v m w = ((m', o), w') ->
    match o with Val (Ok _) => put k v m m' | Val (Err u) => u = v /\ m' = m | Panic => m' = m end.
  Proof. intros T k v m w m' o w' F. exact (insert_any P ik T F k v m w m' o w'). Qed.
  (** A run of entries leaves the map; if the call returns, these are the ones returned. *)
  Theorem C157_any_remove_overlapping : forall {Q} (iq : interval_code W I Q) q_overlaps q t w m' o w',
    remove_overlapping_e P ik iq q_overlaps q t w = ((m', o), w') ->
    exists a out b, entries t = a ++ out ++ b /\ m' = a ++ b /\ match o with Val l => l = out | Panic => True end.
  Proof. intros Q iq q_overlaps q t w m' o w'. exact (remove_any P ik iq q_overlaps q t w m' o w'). Qed.
  Theorem C157_any_cut : forall {Q} (iq : interval_code W I Q) k_overlaps q t w m' o w',
    cut_e P ik C iq k_overlaps q t w = ((m', o), w') -> cuts_some C (entries t) m' o.
  Proof. intros Q iq k_overlaps q t w m' o w'. exact (cut_any P ik C iq k_overlaps q t w m' o w'). Qed.
  Theorem C157_any_insert_overwrite : forall T k v m w m' o w', faithful T -> insert_overwrite_e P ik C overlaps_k T k v m w = ((m', o), w') ->
    exists m1 o1, cuts_some C m m1 o1 /\ match o with Val out => o1 = Val out /\ put k v m1 m' | Panic => m' = m1 end.
  Proof. intros T k v m w m' o w' F. exact (overwrite_any P ik C overlaps_k T F k v m w m' o w'). Qed.
  Theorem C157_any_insert_merge_touching : forall T k v m w m' o w', faithful T -> insert_merge_touching_e P ik C overlaps_k T k v m w = ((m', o), w') ->
    match o with Val (Ok r) => merges_some 2 v m m' (Val r) | Val (Err u) => u = v /\ m' = m | Panic => merges_some 2 v m m' (@Panic K) end.
  Proof. intros T k v m w m' o w' F. exact (refusing_any P ik C overlaps_k T F k v m _ _ _ _ _ w m' o w' (remove_e_drops _ _) (remove_e_drops _ _)). Qed.
  Theorem C157_any_insert_merge_touching_if_values_equal : forall T k v m w m' o w', faithful T ->
    insert_merge_touching_if_values_equal_e P ik C overlaps_k T k v m w = ((m', o), w') ->
    match o with Val (Ok r) => merges_some 2 v m m' (Val r) | Val (Err u) => u = v /\ m' = m | Panic => merges_some 2 v m m' (@Panic K) end.
  Proof. intros T k v m w m' o w' F. exact (refusing_any P ik C overlaps_k T F k v m _ _ _ _ _ w m' o w' (remove_if_e_drops C _ _ _) (remove_if_e_drops C _ _ _)). Qed.
  Theorem C157_any_insert_merge_overlapping : forall T k v m w m' o w', faithful T -> insert_merge_overlapping_e P ik C overlaps_k T k v m w = ((m', o), w') ->
    merges_some 0 v m m' o.
  Proof. intros T k v m w m' o w' F. exact (merge_overlapping_any P ik C overlaps_k T F k v m w m' o w'). Qed.
  Theorem C157_any_insert_merge_touching_or_overlapping : forall T k v m w m' o w', faithful T ->
    insert_merge_touching_or_overlapping_e P ik C overlaps_k T k v m w = ((m', o), w') -> merges_some 2 v m m' o.
  Proof. intros T k v m w m' o w' F. exact (merge_both_any P ik C overlaps_k T F k v m w m' o w'). Qed.

  (** Histories: without cuts every value given is stored, handed back or dropped, exactly
      once; with cuts every value stored or handed back is one given or a clone of one. *)
  Theorem C157_any_values_once : forall (T : nat -> nat -> BTreeMap K V -> tree K V) cs w m' h w', (forall n, faithful (T n)) ->
    Forall (fun c => clones_values c = false) cs -> ehistory C P ik overlaps_k T cs new w = (m', h, w') ->
    exists dropped, Permutation (flat_map given cs) (map snd m' ++ h ++ dropped).
  Proof. intros T cs w m' h w' F N E. exact (history_perm P ik C overlaps_k T cs F N new w m' h w' E). Qed.
  Theorem C157_any_values_given : forall (T : nat -> nat -> BTreeMap K V -> tree K V) cs w m' h w', (forall n, faithful (T n)) ->
    ehistory C P ik overlaps_k T cs new w = (m', h, w') ->
    Forall (fun x => exists v, In v (flat_map given cs) /\ descends C v x) (map snd m' ++ h).
  Proof. intros T cs w m' h w' F E. exact (history_origin P ik C overlaps_k T cs F new w m' h w' E). Qed.
End Any.

(** *** Side effects, but the right answers *)
Section Right.
  Context {W I : Type} `{PL : PointLaws I}.
  Context {K : Type} {IK : InclusiveInterval I K} {IL : IntervalLaws I K}.
  Context {V : Type} (veq : V -> V -> bool).
  Context (P : point_code W I) (RP : right_points P) (ik : interval_code W I K) (RK : right_intervals ik) (C : entry_code W I K V) (RC : right_entries veq C).
  Implicit Types (m : NoditMap K V) (t : tree K V) (k : K) (v : V) (w : W) (T : nat -> BTreeMap K V -> tree K V).

  Section Q.
    Context {Q : Type} {IQ : InclusiveInterval I Q} (iq : interval_code W I Q) (RQ : right_intervals iq).
    Theorem C157_right_overlapping : forall m t q w, reachable m -> entries t = m -> fst (overlapping_e P ik iq t q w) = overlapping m q.
    Proof. intros m t q w R E. exact (r_overlapping P RP ik RK iq RQ m t q (reachable_WF m R) E w). Qed.
    Theorem C157_right_overlaps : forall m t q w, reachable m -> entries t = m -> fst (map_overlaps_e P ik iq t q w) = map_overlaps m q.
    Proof. intros m t q w R E. exact (r_map_overlaps P RP ik RK iq RQ m t q (reachable_WF m R) E w). Qed.
    Theorem C157_right_remove_overlapping : forall q_overlaps m t q w, right_overlaps q_overlaps -> reachable m -> entries t = m ->
      fst (remove_overlapping_e P ik iq q_overlaps q t w) = remove_overlapping q m.
    Proof. intros q_overlaps m t q w RO R E. exact (r_remove_overlapping P RP ik RK iq RQ q_overlaps RO m t q (reachable_WF m R) E w). Qed.
    Theorem C157_right_cut : forall k_overlaps m t q w, right_overlaps k_overlaps -> reachable m -> entries t = m ->
      fst (cut_e P ik C iq k_overlaps q t w) = cut q m.
    Proof. intros k_overlaps m t q w RO R E. exact (r_cut veq P RP ik RK C RC iq RQ k_overlaps RO m t q (reachable_WF m R) E w). Qed.
    Theorem C157_right_gaps : forall m t q w, reachable m -> entries t = m ->
      fst (gaps_untrimmed_e P ik C iq t q w) = gaps_untrimmed m q /\ fst (gaps_trimmed_e P ik C iq t q w) = gaps_trimmed m q.
    Proof.
      intros m t q w R E. apply reachable_WF in R.
      split; [exact (r_gaps_untrimmed veq P RP ik RK C RC iq RQ m t q R E w)|exact (r_gaps_trimmed veq P RP ik RK C RC iq RQ m t q R E w)].
    Qed.
  End Q.
  Theorem C157_right_get : forall m t p w, reachable m -> entries t = m -> fst (get_key_value_at_point_e P ik C t p w) = get_key_value_at_point m p.
  Proof. intros m t p w R E. exact (r_get_at veq P RP ik RK C RC m t p (reachable_WF m R) E w). Qed.

  Context (overlaps_k : K -> K -> user W bool) (RO : right_overlaps overlaps_k).
  (** The outcome of every insertion is that of [NoditModel], in whatever state the world is. *)
  Theorem C157_right_insertions : forall T k v m w, faithful T -> reachable m ->
    fst (insert_strict_e P ik T k v m w) = insert_strict k v m /\
    fst (insert_overwrite_e P ik C overlaps_k T k v m w) = insert_overwrite k v m /\
    fst (insert_merge_touching_e P ik C overlaps_k T k v m w) = insert_merge_touching k v m /\
    fst (insert_merge_touching_if_values_equal_e P ik C overlaps_k T k v m w) = insert_merge_touching_if_values_equal veq k v m /\
    fst (insert_merge_overlapping_e P ik C overlaps_k T k v m w) = insert_merge_overlapping k v m /\
    fst (insert_merge_touching_or_overlapping_e P ik C overlaps_k T k v m w) = insert_merge_touching_or_overlapping k v m.
  Proof.
    intros T k v m w F R. apply reachable_WF in R.
    split; [exact (r_insert_strict P RP ik RK T F m k v R w)|]. split; [exact (r_insert_overwrite veq P RP ik RK C RC overlaps_k RO T F m k v R w)|].
    split; [exact (r_merge_touching veq P RP ik RK C RC overlaps_k RO T F m k v R w)|]. split; [exact (r_merge_equal veq P RP ik RK C RC overlaps_k RO T F m k v R w)|].
    split; [exact (r_merge_overlapping veq P RP ik RK C RC overlaps_k RO T F m k v R w)|exact (r_merge_both veq P RP ik RK C RC overlaps_k RO T F m k v R w)].
  Qed.
  (** Histories end in the map that [NoditOps] says, which is a reachable one. *)
  Theorem C157_right_history : forall (T : nat -> nat -> BTreeMap K V -> tree K V) cs w, (forall n, faithful (T n)) ->
    fst (fst (ehistory C P ik overlaps_k T cs new w)) = run (map (as_op veq) cs) /\
    reachable (fst (fst (ehistory C P ik overlaps_k T cs new w))).
  Proof.
    intros T cs w F. destruct (r_history veq P RP ik RK C RC overlaps_k RO T cs F new w (ex_intro _ [] eq_refl)) as [E R]. rewrite E. split; [reflexivity|exact R].
  Qed.
End Right.

(** *** Examples: [u8], the world counts the questions *)
Definition tick {A} (o : outcome A) : user nat A := fun w => (o, S w).
Definition counting : point_code nat u8 := {| e_cmp := fun x y => tick (Val (cmp x y)); e_lt := fun x y => tick (Val (ltb x y)); e_gt := fun x y => tick (Val (gtb x y));
  e_le := fun x y => tick (Val (leb x y)); e_ge := fun x y => tick (Val (geb x y)); e_eq := fun x y => tick (Val (eqb x y)); e_up := fun x => tick (Val (up x)); e_down := fun x => tick (Val (down x)) |}.
Definition counting_i : interval_code nat u8 (Interval u8) :=
  {| e_start := fun x => tick (Val (istart x)); e_end := fun x => tick (Val (iend x)); e_valid := fun x => tick (Val (is_valid x)) |}.
Definition counting_v : entry_code nat u8 (Interval u8) nat :=
  {| e_from := fun i => tick (Val (ifrom i)); e_clone := fun v => tick (Val v); e_veq := fun v v' => tick (Val (Nat.eqb v v')) |}.
Definition counting_o : Interval u8 -> Interval u8 -> user nat bool := fun a b => tick (overlaps a b).
(** Says that everything is less and equal, and panics when the world is at 6. *)
Definition unless {A} (a : A) : user nat A := fun w => (if Nat.eqb w 6 then Panic else Val a, S w).
Definition lying : point_code nat u8 := {| e_cmp := fun _ _ => unless Eq; e_lt := fun _ _ => unless true; e_gt := fun _ _ => unless true;
  e_le := fun _ _ => unless true; e_ge := fun _ _ => unless true; e_eq := fun _ _ => unless true; e_up := fun x => unless (Some x); e_down := fun x => unless (Some x) |}.
(** Clones differ from what they are clones of. *)
Definition odd_clones : entry_code nat u8 (Interval u8) nat :=
  {| e_from := fun i => tick (Val (ifrom i)); e_clone := fun v => fun w => (Val (v + (if Nat.even w then 10 else 20)), S w); e_veq := fun v v' => tick (Val true) |}.
Definition ex_calls : list (ecall (Interval u8) nat) :=
  [EStrict (1 --> 9) 1; EStrict (12 --> 15) 2; EStrict (5 --> 13) 3; EBoth (10 --> 10) 4; ERemove (20 --> 30); EStrict (30 --> 40) 5].
Definition ex_cuts : list (ecall (Interval u8) nat) := [EStrict (1 --> 9) 1; EOverwrite (4 --> 5) 2; ECut (2 --> 2)].
Example C157_example :
  (forall n : nat, faithful (some_shapes (K := Interval u8) (V := nat))) /\
  right_points counting /\ right_intervals counting_i /\ right_entries Nat.eqb counting_v /\ right_overlaps counting_o /\
  (** right answers: refused, merged and stored as without side effects; 125 questions *)
  ehistory counting_v counting counting_i counting_o (fun _ => some_shapes) ex_calls new 0 =
    ([(1 --> 10, 4); (12 --> 15, 2); (30 --> 40, 5)], [3], 125) /\
  run (map (as_op Nat.eqb) ex_calls) = [(1 --> 10 : Interval u8, 4); (12 --> 15, 2); (30 --> 40, 5)] /\
  fst (gaps_untrimmed_e counting counting_i counting_v counting_i (some_shapes 0 (run (map (as_op Nat.eqb) ex_calls))) (11 --> 20 : Interval u8) 0) =
    Val [11 --> 11; 16 --> 29] /\
  (** the liar makes [insert_strict] replace the 1 by 7 ... *)
  insert_strict_e lying counting_i some_shapes (5 --> 5) 7 [(1 --> 9, 1)] 10 = (([(1 --> 9, 7)], Val (Ok tt)), 22) /\
  put (5 --> 5 : Interval u8) 7 [(1 --> 9, 1)] [(1 --> 9, 7)] /\
  (** ... and panics when asked with the world at 6, which changes nothing *)
  insert_strict_e lying counting_i some_shapes (5 --> 5) 7 [(1 --> 9, 1)] 0 = (([(1 --> 9, 1)], Panic), 7) /\
  (** clones of 1, and clones of these *)
  ehistory odd_clones counting counting_i counting_o (fun _ => some_shapes) ex_cuts new 0 =
    ([(1 --> 1, 21); (3 --> 3, 21); (4 --> 5, 2); (6 --> 9, 11)], [1; 11], 85).
Proof.
  split; [intros _ i l; apply some_shapes_good|].
  split; [split; intros; repeat split; intros w; reflexivity|]. split; [intros x; repeat split; intros w; reflexivity|].
  split; [repeat split; intros; intros w; reflexivity|]. split; [intros a b w; reflexivity|].
  do 4 (split; [vm_compute; reflexivity|]).
  split; [exists [], []; right; exists (1 --> 9), 1; split; reflexivity|]. split; vm_compute; reflexivity.
Qed.

Print Assumptions C157_any_overlapping.
Print Assumptions C157_any_get.
Print Assumptions C157_any_insert_strict.
Print Assumptions C157_any_remove_overlapping.
Print Assumptions C157_any_cut.
Print Assumptions C157_any_insert_overwrite.
Print Assumptions C157_any_insert_merge_touching.
Print Assumptions C157_any_insert_merge_touching_if_values_equal.
Print Assumptions C157_any_insert_merge_overlapping.
Print Assumptions C157_any_insert_merge_touching_or_overlapping.
Print Assumptions C157_any_values_once.
Print Assumptions C157_any_values_given.
Print Assumptions C157_right_overlapping.
Print Assumptions C157_right_overlaps.
Print Assumptions C157_right_remove_overlapping.
Print Assumptions C157_right_cut.
Print Assumptions C157_right_gaps.
Print Assumptions C157_right_get.
Print Assumptions C157_right_insertions.
Print Assumptions C157_right_history.
