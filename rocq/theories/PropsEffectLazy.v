(** * PropsEffectLazy: C166, the gap iterators drawn from one gap at a time.

    [gaps_untrimmed] and [gaps_trimmed] return iterators: user code runs between two gaps,
    and the caller may stop, or be stopped by a panic, before the last one. *)
From Coq Require Import List ZArith Bool Arith Lia.
From Verif Require Import Base BTree UtilsModel IntervalModel NoditModel NoditSetModel NoditOps InstancesModel Instances Spec TreeShape
  NoditFacts NoditInv NoditQueries NoditGaps TreeProofs EffectModel EffectOps EffectFacts EffectRight EffectMoreModel EffectMoreOps EffectMoreFacts EffectMoreRight
  LooksMoreFacts EffectCrashOps EffectTraceOps EffectTraceFacts EffectTraceMore EffectLazyModel EffectLazyFacts
  PropsInterval PropsEffect PropsEffectCrash PropsEffectMore PropsEffectTrace.
Import ListNotations.
Open Scope nat_scope.

(** ** User code of any kind *)
Section Any.
  Context {W I K V : Type} `{DiscreteFinite I} (P : point_code W I) (ik : interval_code W I K) (C : entry_code W I K V).
  Context {Q : Type} (iq : interval_code W I Q).
  Implicit Types (t : tree K V) (w : W).
  (** Drawing all gaps at once is what C157 and C159 are about: same calls of user code in
      the same order, same gaps, same panics. *)
  Theorem C166_collect : forall t q w,
    gaps_untrimmed_e P ik C iq t q w = (do! it := gaps_untrimmed_new P ik C iq t q in collect P ik C it) w /\
    gaps_trimmed_e P ik C iq t q w = (do! it := gaps_trimmed_new P ik C iq t q in collect P ik C it) w.
  Proof. intros t q w. split; [exact (collect_untrimmed P ik C iq t q w)|exact (collect_trimmed P ik C iq t q w)]. Qed.
  (** [contains_interval] asks once. *)
  Theorem C166_contains_interval : forall t q w, map_contains_interval_e P ik C iq t q w =
    (do! _ := invalid_interval_panic_e iq q in do! it := gaps_untrimmed_new P ik C iq t q in none_left P ik C it) w.
  Proof. intros t q w. exact (contains_none_left P ik C iq t q w). Qed.
  (** Whatever the user code and the caller do, every gap drawn was made by [From], and
      there are at most two more than entries. *)
  Theorem C166_any : forall t q w it w1 n caller it' ks o w2,
    gaps_untrimmed_new P ik C iq t q w = (Val it, w1) \/ gaps_trimmed_new P ik C iq t q w = (Val it, w1) ->
    draw P ik C n caller it w1 = ((it', ks, o), w2) -> Forall (made_by (e_from C)) ks /\ length ks <= n /\ length ks <= length (entries t) + 2.
  Proof. intros t q w it w1 n caller it' ks o w2 E D. exact (draw_new P ik C iq t q w it w1 n caller it' ks o w2 E D). Qed.
  (** Once there are no more gaps there are none ever after, and no user code is called. *)
  Theorem C166_fused : forall it w it' w', gaps_next P ik C it w = ((it', Val None), w') -> forall w, gaps_next P ik C it' w = ((it', Val None), w).
  Proof. intros it w it' w'. exact (next_none P ik C it w it' w'). Qed.
End Any.

(** ** Right answers or panics *)
Section Right.
  Context {W I : Type} `{PL : PointLaws I} {K : Type} {IK : InclusiveInterval I K} {IL : IntervalLaws I K} {V : Type} (veq : V -> V -> bool).
  Context (P : point_code W I) (ik : interval_code W I K) (C : entry_code W I K V).
  Context {Q : Type} {IQ : InclusiveInterval I Q} (iq : interval_code W I Q).
  Implicit Types (m : NoditMap K V) (t : tree K V) (w : W).
  (** Any caller, stopped by anyone: the gaps drawn are the first of those there are, in
      order; no gap is left out, made up or given twice. *)
  Theorem C166_right_or_panic : forall m t q gs w it w1 n caller,
    points_or_panic P -> intervals_or_panic ik -> entries_or_panic veq C -> intervals_or_panic iq -> reachable m -> entries t = m ->
    gaps_untrimmed_new P ik C iq t q w = (Val it, w1) /\ gaps_untrimmed m q = Val gs \/ gaps_trimmed_new P ik C iq t q w = (Val it, w1) /\ gaps_trimmed m q = Val gs ->
    given_of gs n (draw P ik C n caller it w1).
  Proof.
    intros m t q gs w it w1 n caller RP RK RC RQ R E X. apply reachable_WF in R.
    assert (Y : yields (V := V) it gs).
    { destruct X as [[N G]|[N G]];
        [destruct (untrimmed_new_may veq P ik C iq RP RK RC RQ m t q gs R E G) as (it0 & M & Y)|destruct (trimmed_new_may veq P ik C iq RP RK RC RQ m t q gs R E G) as (it0 & M & Y)];
        (specialize (M w); rewrite N in M; destruct M as [M|M]; [injection M as ->; exact Y|discriminate]). }
    pose proof (draw_may veq P ik C RP RK RC n caller it gs w1 Y) as D. unfold given_of. destruct (draw P ik C n caller it w1) as [[[it' ks] [[]|]] w2]; [exact D|exact D|exact (proj2 D)].
  Qed.
  (** If no one panics, asking [n] times gives the first [n]. *)
  Theorem C166_right : forall m t q n caller w,
    right_points P -> right_intervals ik -> right_entries veq C -> right_intervals iq -> reachable m -> entries t = m -> valid q -> (forall k w, fst (caller k w) = Val tt) ->
    (exists gs it w1 it' w2, gaps_untrimmed m q = Val gs /\ gaps_untrimmed_new P ik C iq t q w = (Val it, w1) /\
       draw P ik C n caller it w1 = ((it', firstn n gs, Val (Nat.ltb (length gs) n)), w2)) /\
    (exists gs it w1 it' w2, gaps_trimmed m q = Val gs /\ gaps_trimmed_new P ik C iq t q w = (Val it, w1) /\
       draw P ik C n caller it w1 = ((it', firstn n gs, Val (Nat.ltb (length gs) n)), w2)).
  Proof. intros m t q n caller w RP RK RC RQ R E Vq CC. apply reachable_WF in R. exact (new_draw_right veq P ik C iq m t q n caller w RP RK RC RQ R E Vq CC). Qed.
End Right.

(** ** Sets *)
Section Sets.
  Context {W I K : Type} `{DiscreteFinite I} (P : point_code W I) (ik : interval_code W I K) (from : Interval I -> user W K).
  Context {Q : Type} (iq : interval_code W I Q).
  Theorem C166_set_collect : forall (t : tree K unit) q w,
    set_gaps_untrimmed_e P ik from iq t q w = (do! it := gaps_untrimmed_new P ik (unit_code from) iq t q in collect P ik (unit_code from) it) w /\
    set_gaps_trimmed_e P ik from iq t q w = (do! it := gaps_trimmed_new P ik (unit_code from) iq t q in collect P ik (unit_code from) it) w.
  Proof. intros t q w. exact (C166_collect P ik (unit_code from) iq t q w). Qed.
End Sets.

(** ** After a panic *)
(** Right answers, but one call panics. *)
Definition stumble {A} (a : A) : user nat A := fun w => match w with 0 => (Val a, 0) | 1 => (Panic, 0) | S w => (Val a, w) end.
Definition stumbling : entry_code nat u8 (Interval u8) nat := {| e_from := fun i => stumble (ifrom i); e_clone := stumble; e_veq := fun v v' => stumble (Nat.eqb v v') |}.
Definition stumbling_p : point_code nat u8 := {| e_cmp := fun x y => stumble (cmp x y); e_lt := fun x y => stumble (ltb x y); e_gt := fun x y => stumble (gtb x y);
  e_le := fun x y => stumble (leb x y); e_ge := fun x y => stumble (geb x y); e_eq := fun x y => stumble (eqb x y); e_up := fun x => stumble (up x); e_down := fun x => stumble (down x) |}.
Definition stumbling_i : interval_code nat u8 (Interval u8) := {| e_start := fun x => stumble (istart x); e_end := fun x => stumble (iend x); e_valid := fun x => stumble (is_valid x) |}.
Lemma stumble_right {A} (a : A) : right_or_panic (stumble a) a.
Proof. intros [|[|w]]; [left|right|left]; reflexivity. Qed.
(** A caller that catches a panic and goes on drawing can be given a "gap" with an entry in
    it: the entry whose [start] or [end] panicked is lost to the iterator.  The map is not
    changed. *)
Theorem C166_after_panic_refuted : exists (t : tree (Interval u8) nat) (q : Interval u8) w it w1 it1 ks w2 it2 g w3 k,
  points_or_panic stumbling_p /\ intervals_or_panic stumbling_i /\ entries_or_panic Nat.eqb stumbling /\ reachable (entries t) /\ valid q /\
  gaps_untrimmed_new stumbling_p stumbling_i stumbling stumbling_i t q w = (Val it, w1) /\
  draw stumbling_p stumbling_i stumbling 9 (fun _ => uret tt) it w1 = ((it1, ks, Panic), w2) /\
  gaps_next stumbling_p stumbling_i stumbling it1 w2 = ((it2, Val (Some g)), w3) /\
  In k (map fst (entries t)) /\ overlaps g k = Val true.
Proof.
  exists ex_tree, (2 --> 25), 55. do 9 eexists.
  split; [repeat split; intros; apply stumble_right|]. split; [repeat split; intros; apply stumble_right|]. split; [repeat split; intros; apply stumble_right|].
  split; [exists [OpInsertStrict (1 --> 2 : Interval u8) 7; OpInsertStrict (4 --> 5) 8; OpInsertStrict (9 --> 9) 6; OpInsertStrict (20 --> 30) 5]; reflexivity|]. split; [apply C24_is_valid; vm_compute; reflexivity|].
  split; [vm_compute; reflexivity|]. split; [vm_compute; reflexivity|]. split; [vm_compute; reflexivity|].
  split; [right; right; left; reflexivity|vm_compute; reflexivity].
Qed.

(** A caller that does something with each gap, and is stopped by it. *)
Definition spending_caller : Interval u8 -> user nat unit := fun _ => spend tt.
Definition drawn_with (n w : nat) : option (list (Interval u8)) * outcome bool :=
  match gaps_untrimmed_new spending_p spending_i spending spending_i ex_tree (2 --> 25 : Interval u8) w with
  | (Panic, _) => (None, Panic)
  | (Val it, w) => let '((_, ks, o), _) := draw spending_p spending_i spending n spending_caller it w in (Some ks, o)
  end.
Example C166_example :
  points_or_panic spending_p /\ intervals_or_panic spending_i /\ entries_or_panic Nat.eqb spending /\ reachable (entries ex_tree) /\
  right_points counting /\ right_intervals counting_i /\ right_entries Nat.eqb counting_v /\
  gaps_untrimmed (entries ex_tree) (2 --> 25 : Interval u8) = Val [3 --> 3; 6 --> 8; 10 --> 19] /\
  drawn_with 9 45 = (None, Panic) /\ drawn_with 9 48 = (Some [], Panic) /\ drawn_with 9 60 = (Some [3 --> 3], Panic) /\
  drawn_with 2 70 = (Some [3 --> 3; 6 --> 8], Val false) /\ drawn_with 9 80 = (Some [3 --> 3; 6 --> 8; 10 --> 19], Val true) /\
  (match gaps_trimmed_new counting counting_i counting_v counting_i ex_tree (3 --> 250 : Interval u8) 0 with
   | (Panic, _) => None
   | (Val it, w) => let '((_, ks, o), _) := draw counting counting_i counting_v 2 (fun _ w => (Val tt, w)) it w in Some (ks, o)
   end) = Some ([3 --> 3; 6 --> 8], Val false).
Proof.
  split; [repeat split; intros; apply spend_right|]. split; [repeat split; intros; apply spend_right|]. split; [repeat split; intros; apply spend_right|].
  split; [exists [OpInsertStrict (1 --> 2 : Interval u8) 7; OpInsertStrict (4 --> 5) 8; OpInsertStrict (9 --> 9) 6; OpInsertStrict (20 --> 30) 5]; reflexivity|].
  split; [repeat split|]. split; [repeat split|]. split; [repeat split|]. vm_compute. repeat split; reflexivity.
Qed.

Print Assumptions C166_collect.
Print Assumptions C166_contains_interval.
Print Assumptions C166_any.
Print Assumptions C166_fused.
Print Assumptions C166_right_or_panic.
Print Assumptions C166_right.
Print Assumptions C166_set_collect.
Print Assumptions C166_after_panic_refuted.
