(** * EffectZosditModel: [ZosditMap] with user code that may do anything (see
      [EffectModel]).  No proofs in this file.

    [t] is the tree the map is searched in and [n] the field [len]. *)
From Coq Require Import List Bool Arith.
From Verif Require Import Base BTree UtilsModel IntervalModel NoditModel ZosditModel TreeShape EffectModel.
Import ListNotations.

Section Model.
  Context {W I K V : Type} (P : point_code W I).
  Section Comparators.
    Context {X : Type} (ix : interval_code W I X).
    (** [exclusive_comp_generator]  (/repo/src/utils.rs:183-202) *)
    Definition exclusive_comp_e (point : I) (extraneous : comparison) (inner : X) : user W comparison :=
      do! s := e_start ix inner in
      do! a := e_eq P point s in
      do! both := if a then do! e := e_end ix inner in e_eq P point e else uret false in
      if both then uret extraneous
      else
        do! s := e_start ix inner in
        do! a := e_le P point s in
        if a then uret Lt
        else do! e := e_end ix inner in do! b := e_ge P point e in uret (if b then Gt else Eq).
    (** [inclusive_comp_generator]  (/repo/src/utils.rs:203-220) *)
    Definition inclusive_comp_e (point : I) (extraneous : comparison) (inner : X) : user W comparison :=
      do! s := e_start ix inner in
      do! a := e_lt P point s in
      if a then uret Lt
      else do! e := e_end ix inner in do! b := e_gt P point e in uret (if b then Gt else extraneous).
    (** The comparator of [insert_strict_back]  (/repo/src/zosdit/map.rs:290-315) *)
    Definition entry_comp_e (inner new : X) : user W comparison :=
      do! s := e_start ix new in
      do! start_result := exclusive_comp_e s Gt inner in
      do! e := e_end ix new in
      do! end_result := exclusive_comp_e e Lt inner in
      uout match start_result, end_result with
           | Gt, Lt => Val Eq
           | Lt, Lt => Val Lt
           | Gt, Gt => Val Gt
           | _, _ => Panic
           end.
  End Comparators.

  Context (ik : interval_code W I K) (C : entry_code W I K V).
  (** The map left behind, the outcome, the world. *)
  Definition zchanging (A : Type) : Type := W -> (ZosditMap K V * outcome A) * W.
  Definition zbind {A B} (z : ZosditMap K V) (x : user W A) (f : A -> zchanging B) : zchanging B :=
    fun w => match x w with (Val a, w) => f a w | (Panic, w) => ((z, Panic), w) end.
  Definition zret {A} (z : ZosditMap K V) (o : outcome A) : zchanging A := fun w => ((z, o), w).
  Notation "'with!' z 'do!' p := x 'in' b" := (zbind z x (fun p => b)) (at level 200, z at level 9, p pattern, x at level 100, b at level 200).

  (** [k_contains k p] is [k.contains_point(p)]. *)
  Context (k_contains : K -> I -> user W bool).
  (** /repo/src/zosdit/map.rs:177-184, 224-231 *)
  Definition last_value_cursor_e (t : tree K (list V)) (point : I) : user W (cursor K (list V)) :=
    do! c := e_lower (exclusive_comp_e ik point Gt) t in
    uret (match cursor_key c with None => move_prev c | Some _ => c end).
  (** [get_last_value_at_point]  (/repo/src/zosdit/map.rs:176-190) *)
  Definition get_last_value_at_point_e (t : tree K (list V)) (point : I) : user W (option V) :=
    do! c := last_value_cursor_e t point in
    match cursor_key_value c with
    | Some (key, value_store) => do! b := k_contains key point in uret (if b then vec_last value_store else None)
    | None => uret None
    end.
  (** [remove_last_value_at_point]  (/repo/src/zosdit/map.rs:223-246) *)
  Definition remove_last_value_at_point_e (point : I) (n : nat) (t : tree K (list V)) : zchanging (option V) :=
    with! (mkZosdit n (entries t)) do! c := last_value_cursor_e t point in
    match snd c with
    | (key, value) :: rest =>
        with! (mkZosdit n (entries t)) do! b := k_contains key point in
        if b then
          match vec_pop value with
          | None => zret (mkZosdit n (entries t)) Panic
          | Some (last, []) => zret (mkZosdit n (fst c ++ rest)) (Val (Some last))
          | Some (last, value) => zret (mkZosdit n (fst c ++ (key, value) :: rest)) (Val (Some last))
          end
        else zret (mkZosdit n (entries t)) (Val None)
    | [] => zret (mkZosdit n (entries t)) (Val None)
    end.

  Section Queries.
    Context {Q : Type} (iq : interval_code W I Q).
    (** [is_zero_overlap]  (/repo/src/zosdit/map.rs:354-373) *)
    Definition is_zero_overlap_e (t : tree K (list V)) (q : Q) : user W bool :=
      do! _ := invalid_interval_panic_e iq q in
      do! s := e_start iq q in
      do! e := e_end iq q in
      do! l := e_range (exclusive_comp_e ik s Gt) (exclusive_comp_e ik e Lt) t in
      uret (match l with [] => true | _ => false end).
    (** [overlapping]  (/repo/src/zosdit/map.rs:501-517) *)
    Definition zosdit_overlapping_e (t : tree K (list V)) (q : Q) : user W (list (K * V)) :=
      do! _ := invalid_interval_panic_e iq q in
      do! s := e_start iq q in
      do! e := e_end iq q in
      do! l := e_range (inclusive_comp_e ik s Lt) (inclusive_comp_e ik e Gt) t in
      uret (flatten l).

    (** [value_store.clone()]: the values are cloned one after the other
        (used at /repo/src/zosdit/map.rs:447, 452) *)
    Fixpoint clone_all (vs : list V) : user W (list V) :=
      match vs with
      | [] => uret []
      | v :: vs => do! v := e_clone C v in do! vs := clone_all vs in uret (v :: vs)
      end.
    Definition z_piece_e (p : Interval I) (vs : list V) : user W (K * list V) :=
      do! k := e_from C p in do! vs := clone_all vs in uret (k, vs).
    (** [value_store.into_iter().map(|value| (K::from(inside_cut.unwrap()), value))]
        (/repo/src/zosdit/map.rs:456-460) *)
    Fixpoint give_out (inside : option (Interval I)) (vs : list V) : user W (list (K * V)) :=
      match vs with
      | [] => uret []
      | v :: vs =>
          do! i := uout (unwrap inside) in
          do! k := e_from C i in
          do! l := give_out inside vs in uret ((k, v) :: l)
      end.
    (** The loop of [cut]  (/repo/src/zosdit/map.rs:437-461).  [k_overlaps k q] is
        [k.overlaps(q)].  [below] is what a subtraction below zero gives: a panic in
        a debug build, some number in a release build. *)
    Context (k_overlaps : K -> Q -> user W bool) (below : outcome nat).
    Definition subtract (a b : nat) : outcome nat := if Nat.ltb a b then below else Val (a - b).
    (** [if let Some(before_cut) = ..]  (lines 446-449) *)
    Definition z_before (p : option (Interval I)) (vs : list V) (n : nat) (pre rest : BTreeMap K (list V))
      (f : nat -> BTreeMap K (list V) -> zchanging (list (K * V))) : zchanging (list (K * V)) :=
      match p with
      | Some i =>
          with! (mkZosdit n (pre ++ rest)) do! e := z_piece_e i vs in
          f (n + length vs) (pre ++ [e])
      | None => f n pre
      end.
    (** [if let Some(after_cut) = ..]  (lines 450-453): [len] grows first *)
    Definition z_after (p : option (Interval I)) (vs : list V) (n : nat) (pre rest : BTreeMap K (list V))
      (f : nat -> BTreeMap K (list V) -> zchanging (list (K * V))) : zchanging (list (K * V)) :=
      match p with
      | Some i =>
          with! (mkZosdit (n + length vs) (pre ++ rest)) do! e := z_piece_e i vs in
          f (n + length vs) (pre ++ [e])
      | None => f n pre
      end.
    Fixpoint zosdit_cut_loop_e (q : Q) (n : nat) (pre post : BTreeMap K (list V)) (acc : list (K * V)) : zchanging (list (K * V)) :=
      match post with
      | [] => zret (mkZosdit n (pre ++ post)) (Val acc)
      | (k, vs) :: rest =>
          with! (mkZosdit n (pre ++ post)) do! b := k_overlaps k q in
          if b then
            with! (mkZosdit n (pre ++ rest)) do! r := cut_interval_e P ik iq k q in
            z_before (before_cut r) vs n pre rest (fun n pre =>
            z_after (after_cut r) vs n pre rest (fun n pre =>
            with! (mkZosdit n (pre ++ rest)) do! n := uout (subtract n (length vs)) in
            with! (mkZosdit n (pre ++ rest)) do! l := give_out (inside_cut r) vs in
            zosdit_cut_loop_e q n pre rest (acc ++ l)))
          else zret (mkZosdit n (pre ++ post)) (Val acc)
      end.
    (** [cut]  (/repo/src/zosdit/map.rs:419-464) *)
    Definition zosdit_cut_e (q : Q) (n : nat) (t : tree K (list V)) : zchanging (list (K * V)) :=
      with! (mkZosdit n (entries t)) do! _ := invalid_interval_panic_e iq q in
      with! (mkZosdit n (entries t)) do! s := e_start iq q in
      with! (mkZosdit n (entries t)) do! c := e_upper (exclusive_comp_e ik s Lt) t in
      let c := match cursor_key c with None => move_next c | Some _ => c end in
      zosdit_cut_loop_e q n (fst c) (snd c) [].
  End Queries.

  (** [insert_strict_back]  (/repo/src/zosdit/map.rs:279-323) *)
  Definition insert_strict_back_e (interval : K) (value : V) (n : nat) (t : tree K (list V)) : zchanging (result unit V) :=
    with! (mkZosdit n (entries t)) do! _ := invalid_interval_panic_e ik interval in
    with! (mkZosdit n (entries t)) do! b := is_zero_overlap_e ik t interval in
    if negb b then zret (mkZosdit n (entries t)) (Val (Err value))
    else
      with! (mkZosdit n (entries t)) do! p := e_search (fun inner => entry_comp_e ik inner interval) t in
      let inner := match p with
                   | (a, Some (k, vs), b) => a ++ (k, vs ++ [value]) :: b
                   | (a, None, b) => a ++ (interval, [value]) :: b
                   end in
      zret (mkZosdit (n + 1) inner) (Val (Ok tt)).
End Model.
