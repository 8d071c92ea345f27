(** * CloneModel: [cut] and [insert_overwrite] with a [Clone] that may do
      anything.  No proofs in this file.

    [NoditModel] and [ZosditModel] take [V::clone] to be the identity.  Here a
    clone reads and changes a state [W] of the program (counters, handles, ...)
    and returns any value.  Only the two [cut] methods, and [insert_overwrite]
    through [cut], clone values; all other methods are those of [NoditModel]
    and [ZosditModel]. *)
From Coq Require Import List Bool.
From Verif Require Import Base BTree UtilsModel IntervalModel NoditModel NoditOps ZosditModel ZosditOps.
Import ListNotations.

Section Clone.
  Context {I : Type} `{Ord I} `{DiscreteFinite I}.
  Context {K : Type} `{InclusiveInterval I K}.
  Context {V W : Type} (clone : W -> V -> V * W).

  (** Cloning several values one after the other, as the [clone] of a
      [SmallVec] does  (/repo/src/zosdit/map.rs:447, 452) *)
  Fixpoint clone_all (w : W) (vs : list V) : list V * W :=
    match vs with
    | [] => ([], w)
    | v :: r => let (v', w) := clone w v in let (r', w) := clone_all w r in (v' :: r', w)
    end.

  (** [cursor.insert_before(K::from(..), value.clone())] of an optional piece
      (/repo/src/nodit/map.rs:453-458) *)
  Definition insert_piece_w (p : option (Interval I)) (v : V) (pre : list (K * V)) (w : W) : list (K * V) * W :=
    match p with
    | Some i => let (v', w) := clone w v in (pre ++ [(ifrom i, v')], w)
    | None => (pre, w)
    end.

  Section Cut.
    Context {Q : Type} `{InclusiveInterval I Q}.

    (** The loop of [cut]  (/repo/src/nodit/map.rs:444-461) *)
    Fixpoint cut_loop_w (q : Q) (pre post acc : list (K * V)) (w : W)
      : NoditMap K V * outcome (list (K * V)) * W :=
      match post with
      | [] => (pre ++ post, Val acc, w)
      | (k, v) :: rest =>
          match overlaps k q with
          | Panic => (pre ++ post, Panic, w)
          | Val false => (pre ++ post, Val acc, w)
          | Val true =>
              match cut_interval k q with
              | Panic => (pre ++ rest, Panic, w)
              | Val r =>
                  let (pre, w) := insert_piece_w (before_cut r) v pre w in
                  let (pre, w) := insert_piece_w (after_cut r) v pre w in
                  match inside_cut r with
                  | None => (pre ++ rest, Panic, w)
                  | Some i => cut_loop_w q pre rest (acc ++ [(ifrom i, v)]) w
                  end
              end
          end
      end.

    (** [NoditMap::cut]  (/repo/src/nodit/map.rs:430-464) *)
    Definition cut_w (q : Q) (m : NoditMap K V) (w : W) : NoditMap K V * outcome (list (K * V)) * W :=
      match invalid_interval_panic q with
      | Panic => (m, Panic, w)
      | Val _ =>
          let c := lower_bound (overlapping_comp (istart q)) m in
          cut_loop_w q (fst c) (snd c) [] w
      end.

    (** [cursor.insert_before(K::from(..), value_store.clone())] of an optional
        piece with [self.len += value_store.len()]
        (/repo/src/zosdit/map.rs:446-453) *)
    Definition z_piece_w (p : option (Interval I)) (vs : list V)
      (s : nat * BTreeMap K (list V)) (w : W) : nat * BTreeMap K (list V) * W :=
      match p with
      | Some i => let (vs', w) := clone_all w vs in ((fst s + length vs, snd s ++ [(ifrom i, vs')]), w)
      | None => (s, w)
      end.

    (** The loop of [cut]  (/repo/src/zosdit/map.rs:437-461) *)
    Fixpoint zosdit_cut_loop_w (q : Q) (n : nat) (pre post : BTreeMap K (list V)) (acc : list (K * V)) (w : W)
      : ZosditMap K V * outcome (list (K * V)) * W :=
      match post with
      | [] => (mkZosdit n (pre ++ post), Val acc, w)
      | (k, vs) :: rest =>
          match overlaps k q with
          | Panic => (mkZosdit n (pre ++ post), Panic, w)
          | Val false => (mkZosdit n (pre ++ post), Val acc, w)
          | Val true =>
              match cut_interval k q with
              | Panic => (mkZosdit n (pre ++ rest), Panic, w)
              | Val r =>
                  let (s, w) := z_piece_w (before_cut r) vs (n, pre) w in
                  let (s, w) := z_piece_w (after_cut r) vs s w in
                  let (n, pre) := s in
                  if Nat.ltb n (length vs) then (mkZosdit n (pre ++ rest), Panic, w)
                  else
                    match inside_cut r, vs with
                    | None, _ :: _ => (mkZosdit (n - length vs) (pre ++ rest), Panic, w)
                    | None, [] => zosdit_cut_loop_w q (n - length vs) pre rest acc w
                    | Some i, _ =>
                        zosdit_cut_loop_w q (n - length vs) pre rest
                          (acc ++ map (fun v => (ifrom i, v)) vs) w
                    end
              end
          end
      end.

    (** [ZosditMap::cut]  (/repo/src/zosdit/map.rs:419-464) *)
    Definition zosdit_cut_w (q : Q) (z : ZosditMap K V) (w : W) : ZosditMap K V * outcome (list (K * V)) * W :=
      match invalid_interval_panic q with
      | Panic => (z, Panic, w)
      | Val _ =>
          let c := upper_bound (exclusive_comp (istart q) Lt) (z_inner z) in
          let c := match cursor_key c with None => move_next c | Some _ => c end in
          zosdit_cut_loop_w q (z_len z) (fst c) (snd c) [] w
      end.
  End Cut.

  (** [NoditMap::insert_overwrite]  (/repo/src/nodit/map.rs:1166-1179) *)
  Definition insert_overwrite_w (interval : K) (value : V) (m : NoditMap K V) (w : W)
    : NoditMap K V * outcome (list (K * V)) * W :=
    match invalid_interval_panic interval with
    | Panic => (m, Panic, w)
    | Val _ =>
        match cut_w interval m w with
        | (m, Panic, w) => (m, Panic, w)
        | (m, Val c, w) => (insert_unchecked interval value m, Val c, w)
        end
    end.

  (** Histories; the conventions are those of [NoditOps] and [ZosditOps]. *)
  Definition step_w (s : NoditMap K V * W) (o : op I K V) : NoditMap K V * W :=
    match o with
    | OpInsertOverwrite k v => let '(m, _, w) := insert_overwrite_w k v (fst s) (snd s) in (m, w)
    | OpCut q => let '(m, _, w) := cut_w q (fst s) (snd s) in (m, w)
    | o => (step (fst s) o, snd s)
    end.
  Definition run_w (w : W) (os : list (op I K V)) : NoditMap K V * W := fold_left step_w os (new, w).
  Definition zstep_w (s : ZosditMap K V * W) (o : zop I K V) : ZosditMap K V * W :=
    match o with
    | ZCut q => let '(z, _, w) := zosdit_cut_w q (fst s) (snd s) in (z, w)
    | o => (zstep (fst s) o, snd s)
    end.
  Definition zrun_w (w : W) (os : list (zop I K V)) : ZosditMap K V * W := fold_left zstep_w os (z_new, w).
End Clone.
