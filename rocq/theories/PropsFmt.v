(** * PropsFmt: formatting with sinks that refuse, and with [Debug] impls of users that fail
      or panic (C172). *)
From Coq Require Import ZArith Bool Arith String Ascii List.
From Verif Require Import Base BTree UtilsModel IntervalModel NoditModel NoditSetModel ZosditModel GqditModel InstancesModel Instances DebugModel FmtModel FmtFacts.
Import ListNotations.
Open Scope list_scope.

(** ** C172 *)
(** What [writes] says about a run: if every write ends well the pieces make up the text and
    the program ends well; otherwise the first write that does not is the last one, and the
    program ends as it did. *)
Theorem C172_writes : forall {U} (p : prog (U * res)) t, writes p t -> forall evs u r, outcome p evs (u, r) ->
  match r with
  | Fine => concat (map fst evs) = t /\ Forall (fun e => snd e = Fine) evs
  | _ => exists before piece rest, evs = before ++ [(piece, r)] /\ Forall (fun e => snd e = Fine) before /\ concat (map fst before) ++ piece ++ rest = t
  end.
Proof. intros U p t. exact (writes_outcome p t). Qed.
(** Given well-behaved impls of users the derived ones are well-behaved, and write the texts
    of C168. *)
Theorem C172_well_behaved : forall {U I K V D} tn (fp : fmt U I) dp (fk : fmt U K) dk (fv : fmt U V) dv (fd : fmt U D) dd,
  well_behaved fp dp -> well_behaved fk dk -> well_behaved fv dv -> well_behaved fd dd ->
  well_behaved (interval_fmt fp) (interval_debug dp) /\
  well_behaved (nodit_fmt tn fk fv) (nodit_debug tn dk dv) /\
  well_behaved (nodit_set_fmt tn fk) (nodit_set_debug tn dk) /\
  well_behaved (zosdit_fmt tn fk fv) (zosdit_debug tn dk dv) /\
  well_behaved (gqdit_fmt tn fk fd) (gqdit_debug tn dk dd) /\
  well_behaved (overlap_error_fmt fv) (overlap_error_debug dv) /\
  well_behaved (non_zero_overlap_error_fmt fv) (non_zero_overlap_error_debug dv) /\
  well_behaved (cut_result_fmt fp) (cut_result_debug dp) /\
  well_behaved (config_fmt : fmt U Config) config_debug.
Proof.
  intros. repeat split; [apply wb_interval|apply wb_nodit|apply wb_nodit_set|apply wb_zosdit|apply wb_gqdit|apply wb_overlap_error|apply wb_non_zero_overlap_error|apply wb_cut_result|apply wb_config]; assumption.
Qed.
(** For any impls of users and any sink: *)
Theorem C172_map : forall {U K V} tn (fk : fmt U K) (fv : fmt U V) alt (m : NoditMap K V) u evs u' r,
  outcome (nodit_fmt tn fk fv alt m u) evs (u', r) ->
  exists made, outcome (nodit_fmt tn (noting inl fk) (noting inr fv) alt m (u, [])) evs ((u', made), r) /\
    in_turn (flat_map (fun e => [inl (fst e); inr (snd e)]) m) evs made r.
Proof. intros U K V tn fk fv. exact (turns_of _ _ _ (same_nodit tn _ _ _ _ (same_noting inl fk) (same_noting inr fv)) (asks_nodit tn _ _ _ _ (asks_noting inl fk) (asks_noting inr fv))). Qed.
Theorem C172_set : forall {U K} tn (fk : fmt U K) alt (s : NoditSet K) u evs u' r,
  outcome (nodit_set_fmt tn fk alt s u) evs (u', r) ->
  exists made, outcome (nodit_set_fmt tn (noting (fun k => k) fk) alt s (u, [])) evs ((u', made), r) /\
    in_turn (flat_map (fun e => [fst e]) s) evs made r.
Proof. intros U K tn fk. exact (turns_of _ _ _ (same_nodit_set tn _ _ (same_noting (fun k => k) fk)) (asks_nodit_set tn _ _ (asks_noting (fun k => k) fk))). Qed.
Theorem C172_gqdit : forall {U K D} tn (fk : fmt U K) (fd : fmt U D) alt (g : Gqdit K D) u evs u' r,
  outcome (gqdit_fmt tn fk fd alt g u) evs (u', r) ->
  exists made, outcome (gqdit_fmt tn (noting inl fk) (noting inr fd) alt g (u, [])) evs ((u', made), r) /\
    in_turn (flat_map (fun e => inl (fst e) :: flat_map (fun d => [inr d]) (snd e)) g) evs made r.
Proof. intros U K D tn fk fd. exact (turns_of _ _ _ (same_gqdit tn _ _ _ _ (same_noting inl fk) (same_noting inr fd)) (asks_gqdit tn _ _ _ _ (asks_noting inl fk) (asks_noting inr fd))). Qed.
Theorem C172_zosdit : forall {U K V} tn (fk : fmt U K) (fv : fmt U V) alt (z : ZosditMap K V) u evs u' r,
  outcome (zosdit_fmt tn fk fv alt z u) evs (u', r) ->
  exists made, outcome (zosdit_fmt tn (noting inl fk) (noting inr fv) alt z (u, [])) evs ((u', made), r) /\
    in_turn (flat_map (fun e => inl (fst e) :: flat_map (fun v => [inr v]) (snd e)) (z_inner z)) evs made r.
Proof. intros U K V tn fk fv. exact (turns_of _ _ _ (same_zosdit tn _ _ _ _ (same_noting inl fk) (same_noting inr fv)) (asks_zosdit tn _ _ _ _ (asks_noting inl fk) (asks_noting inr fv))). Qed.
Theorem C172_interval : forall {U I} (fp : fmt U I) alt (i : Interval I) u evs u' r,
  outcome (interval_fmt fp alt i u) evs (u', r) ->
  exists made, outcome (interval_fmt (noting (fun p => p) fp) alt i (u, [])) evs ((u', made), r) /\
    in_turn [ivl_start i; ivl_end i] evs made r.
Proof. intros U I fp. exact (turns_of _ _ _ (same_interval _ _ (same_noting (fun p => p) fp)) (asks_interval _ _ (asks_noting (fun p => p) fp))). Qed.
Theorem C172_errors : forall {U V} (fv : fmt U V) alt v u evs u' r,
  (outcome (overlap_error_fmt fv alt v u) evs (u', r) ->
   exists made, outcome (overlap_error_fmt (noting (fun v => v) fv) alt v (u, [])) evs ((u', made), r) /\ in_turn [v] evs made r) /\
  (outcome (non_zero_overlap_error_fmt fv alt v u) evs (u', r) ->
   exists made, outcome (non_zero_overlap_error_fmt (noting (fun v => v) fv) alt v (u, [])) evs ((u', made), r) /\ in_turn [v] evs made r).
Proof.
  intros U V fv alt v u evs u' r. split.
  - exact (turns_of _ _ _ (proj1 (same_overlap_error _ _ (same_noting (fun v => v) fv))) (asks_overlap_error _ _ (asks_noting (fun v => v) fv)) alt v u evs u' r).
  - exact (turns_of _ _ _ (proj2 (same_overlap_error _ _ (same_noting (fun v => v) fv))) (asks_non_zero_overlap_error _ _ (asks_noting (fun v => v) fv)) alt v u evs u' r).
Qed.

(** The hypotheses are met, non-trivially: an impl that writes in two pieces is well-behaved;
    one that counts its calls and fails at the third; and a sink that takes three pieces. *)
Open Scope Z_scope.
Definition in_two : fmt nat Z := fun alt z => all [say (txt "<"); say (int_debug alt z ++ txt ">")].
Definition fails_at_3 : fmt nat Z := fun alt z n => match n with 2%nat => Stop (3%nat, Failed) | _ => say (int_debug alt z) (S n) end.
(** The writes, and the end, if the first [n] writes end well and the others are refused. *)
Fixpoint feed {X} (n : nat) (p : prog X) : list text * X :=
  match p with
  | Stop x => ([], x)
  | Put t k => let '(ts, x) := match n with O => feed O (k Failed) | S n => feed n (k Fine) end in (t :: ts, x)
  end.
Example C172_example :
  well_behaved in_two (fun alt z => txt "<" ++ int_debug alt z ++ txt ">") /\
  (let m := [(1, 5); (2, 6); (3, 7)] in
   map string_of_list_ascii (fst (feed 100 (nodit_fmt (txt "i64") fails_at_3 in_two false m 0%nat))) = ["NoditMap"; " { "; "inner"; ": "; "{"; "1"; ": "; "<"; "5>"; ", "; "2"; ": "; "<"; "6>"; ", "]%string /\
   snd (feed 100 (nodit_fmt (txt "i64") fails_at_3 in_two false m 0%nat)) = (3%nat, Failed) /\
   map string_of_list_ascii (fst (feed 5 (interval_fmt in_two true (mkInterval 3 4) 0%nat))) =
     ["Interval"; String " " (String "{" (String newline "")); "    "; "start"; ": "; "<"]%string /\
   snd (feed 5 (interval_fmt in_two true (mkInterval 3 4) 0%nat)) = (0%nat, Failed)).
Proof.
  split.
  - intros alt z. change (W (in_two alt z) (txt "<" ++ int_debug alt z ++ txt ">")). apply (W_eq _ _ _ (W_all _ _ (Forall2_cons _ _ (W_say _) (Forall2_cons _ _ (W_say _) (Forall2_nil _))))).
    cbn [concat]. rewrite app_nil_r. reflexivity.
  - vm_compute. repeat split; reflexivity.
Qed.

Print Assumptions C172_writes.
Print Assumptions C172_well_behaved.
Print Assumptions C172_map.
Print Assumptions C172_set.
Print Assumptions C172_gqdit.
Print Assumptions C172_zosdit.
Print Assumptions C172_interval.
Print Assumptions C172_errors.
