(** * EffectLazyModel: the iterators [gaps_untrimmed] and [gaps_trimmed] return, drawn from
      one gap at a time by a caller that is user code too (see [EffectModel]).  No proofs in
      this file.

    Nothing is done for a gap before it is asked for, except that the first and the last gap
    are converted when the iterator is made.  The adaptors ([chain], [filter], [map],
    [tuple_windows]) are those of [core] and of itertools 0.13. *)
From Coq Require Import List Bool Arith.
From Verif Require Import Base BTree UtilsModel IntervalModel NoditModel TreeShape EffectModel EffectMoreModel.
Import ListNotations.

Section Iterators.
  Context {W I K V : Type} (P : point_code W I) `{DiscreteFinite I} (ik : interval_code W I K) (C : entry_code W I K V).
  (** The gap at the start; the entries not looked at yet and the bounds of the last one
      that was, [None] once [chain] is done with them; the gap at the end. *)
  Record gaps_iter : Type := mkGaps { gi_start : list K; gi_inner : option (option (I * I) * list (K * V)); gi_end : list K }.

  (** [gaps_untrimmed]  (/repo/src/nodit/map.rs:497-551) *)
  Definition gaps_untrimmed_new {Q} (iq : interval_code W I Q) (t : tree K V) (q : Q) : user W gaps_iter :=
    do! _ := invalid_interval_panic_e iq q in
    do! start_gap := end_gap_e P ik t (e_start iq q) in
    do! end_gap := end_gap_e P ik t (e_end iq q) in
    do! (start_gap, end_gap) :=
      match start_gap, end_gap with
      | Some start_gap, Some end_gap =>
          do! same := e_eq P (ivl_start start_gap) (ivl_start end_gap) in
          uret (Some start_gap, if same then None else Some end_gap)
      | _, _ => uret (start_gap, end_gap)
      end in
    do! overlapping := overlapping_e P ik iq t q in
    do! start_gap := from_e C start_gap in
    do! end_gap := from_e C end_gap in
    uret (mkGaps start_gap (Some (None, overlapping)) end_gap).
  (** [gaps_trimmed]  (/repo/src/nodit/map.rs:585-651) *)
  Definition gaps_trimmed_new {Q} (iq : interval_code W I Q) (t : tree K V) (q : Q) : user W gaps_iter :=
    do! _ := invalid_interval_panic_e iq q in
    do! start_gap := end_gap_e P ik t (e_start iq q) in
    do! end_gap := end_gap_e P ik t (e_end iq q) in
    do! (start_gap, end_gap) :=
      match start_gap, end_gap with
      | Some start_gap, Some end_gap =>
          do! same := e_eq P (ivl_start start_gap) (ivl_start end_gap) in
          do! s := e_start iq q in
          do! e := e_end iq q in
          uret (if same then (Some (mkInterval s e), None)
                else (Some (mkInterval s (ivl_end start_gap)), Some (mkInterval (ivl_start end_gap) e)))
      | Some start_gap, None => do! s := e_start iq q in uret (Some (mkInterval s (ivl_end start_gap)), None)
      | None, Some end_gap => do! e := e_end iq q in uret (None, Some (mkInterval (ivl_start end_gap) e))
      | None, None => uret (None, None)
      end in
    do! overlapping := overlapping_e P ik iq t q in
    do! start_gap := from_e C start_gap in
    do! end_gap := from_e C end_gap in
    uret (mkGaps start_gap (Some (None, overlapping)) end_gap).

  (** The closures of [map] and [filter]  (/repo/src/nodit/map.rs:537-543, 637-643) *)
  Definition pair_gap (first second : I * I) : user W (option K) :=
    do! u := up_e P (snd first) in
    do! d := down_e P (fst second) in
    do! g := e_from C (mkInterval u d) in
    do! b := e_valid ik g in
    uret (if b then Some g else None).
  (** [next] of [overlapping.map(..).tuple_windows().map(..).filter(..)], also what it leaves
      behind when it panics  (/repo/src/nodit/map.rs:531-543, 631-643) *)
  Fixpoint window_next (last : option (I * I)) (l : list (K * V)) (w : W) : ((option (I * I) * list (K * V)) * outcome (option K)) * W :=
    match l with
    | [] => (((last, []), Val None), w)
    | e :: r =>
        match bounds_e ik (fst e) w with
        | (Panic, w) => (((last, r), Panic), w)
        | (Val new, w) =>
            match last with
            | Some first =>
                match pair_gap first new w with
                | (Panic, w) => (((Some new, r), Panic), w)
                | (Val (Some g), w) => (((Some new, r), Val (Some g)), w)
                | (Val None, w) => window_next (Some new) r w
                end
            | None =>
                match r with
                | [] => (((None, []), Val None), w)
                | e :: r =>
                    match bounds_e ik (fst e) w with
                    | (Panic, w) => (((None, r), Panic), w)
                    | (Val second, w) =>
                        match pair_gap new second w with
                        | (Panic, w) => (((Some second, r), Panic), w)
                        | (Val (Some g), w) => (((Some second, r), Val (Some g)), w)
                        | (Val None, w) => window_next (Some second) r w
                        end
                    end
                end
            end
        end
    end.
  (** [next] of the iterator  (/repo/src/nodit/map.rs:546-550, 646-650) *)
  Definition gaps_next (it : gaps_iter) (w : W) : (gaps_iter * outcome (option K)) * W :=
    match gi_start it with
    | k :: s => ((mkGaps s (gi_inner it) (gi_end it), Val (Some k)), w)
    | [] =>
        let at_end :=
          match gi_end it with
          | k :: e => (mkGaps [] None e, Val (Some k))
          | [] => (mkGaps [] None [], Val None)
          end in
        match gi_inner it with
        | None => (at_end, w)
        | Some (last, l) =>
            match window_next last l w with
            | ((s, Val None), w) => (at_end, w)
            | ((s, r), w) => ((mkGaps [] (Some s) (gi_end it), r), w)
            end
        end
    end.

  (** A caller that asks at most [n] times and does something with each gap: the gaps drawn;
      whether the iterator said that there are no more. *)
  Fixpoint draw (n : nat) (caller : K -> user W unit) (it : gaps_iter) (w : W) : (gaps_iter * list K * outcome bool) * W :=
    match n with
    | 0 => ((it, [], Val false), w)
    | S n =>
        match gaps_next it w with
        | ((it, Panic), w) => ((it, [], Panic), w)
        | ((it, Val None), w) => ((it, [], Val true), w)
        | ((it, Val (Some k)), w) =>
            match caller k w with
            | (Panic, w) => ((it, [k], Panic), w)
            | (Val _, w) => let '((it, ks, o), w) := draw n caller it w in ((it, k :: ks, o), w)
            end
        end
    end.
  (** [collect]: asks until there are no more. *)
  Definition steps_left (it : gaps_iter) : nat :=
    length (gi_start it) + match gi_inner it with Some (_, l) => length l | None => 0 end + length (gi_end it).
  Definition collect (it : gaps_iter) : user W (list K) := fun w =>
    let '((_, ks, o), w) := draw (S (steps_left it)) (fun _ => uret tt) it w in
    (match o with Val true => Val ks | _ => Panic end, w).
  (** [next().is_none()]  (/repo/src/nodit/map.rs:685) *)
  Definition none_left (it : gaps_iter) : user W bool := fun w =>
    match gaps_next it w with
    | ((_, Panic), w) => (Panic, w)
    | ((_, Val r), w) => (Val (negb (is_some r)), w)
    end.
End Iterators.

(** Vocabulary of C166: what a caller asking [n] times was given, out of [gs]. *)
Definition given_of {S K W} (gs : list K) (n : nat) (r : (S * list K * outcome bool) * W) : Prop :=
  match r with
  | ((_, ks, Val true), _) => ks = gs /\ length gs < n
  | ((_, ks, Val false), _) => ks = firstn n gs /\ n <= length gs
  | ((_, ks, Panic), _) => exists j, ks = firstn j gs
  end.
