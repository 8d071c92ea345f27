(** * WidthModel: [ZosditMap] with the counter a [usize] of finite width.

    [ZosditModel] gives the field [len] of /repo/src/zosdit/map.rs:62-68 an
    unbounded number.  Here it is a [usize] whose largest value is [cap], and
    [+=] and [-=] on it are what the compiler makes of them:

    - with overflow checks (the default of a debug build) an operation whose
      result is outside [0 .. cap] panics and leaves the counter unchanged;
    - without them (the default of a release build) the result is taken modulo
      [cap + 1].

    [len] is the only integer in /repo/src that the crate itself adds to or
    subtracts from; the lengths inside [BTreeMap] and [SmallVec] are not
    modelled with a width.  Every function of /repo/src/zosdit/map.rs that does
    not change [len] is the one of [ZosditModel].  No proofs in this file. *)
From Coq Require Import List Arith Bool.
From Verif Require Import Base BTree UtilsModel IntervalModel NoditModel ZosditModel ZosditOps.
Import ListNotations.

(** Whether integer overflow is checked. *)
Inductive build := Checked | Wrapping.

Section Arith.
  Context (b : build) (cap : nat).
  (** [x + y] on [usize], for [x += y]  (/repo/src/zosdit/map.rs:319, 448, 451) *)
  Definition uadd (x y : nat) : outcome nat :=
    match b with
    | Checked => if Nat.leb (x + y) cap then Val (x + y) else Panic
    | Wrapping => Val ((x + y) mod S cap)
    end.
  (** [x - y] on [usize], for [x -= y]  (/repo/src/zosdit/map.rs:455) *)
  Definition usub (x y : nat) : outcome nat :=
    match b with
    | Checked => if Nat.leb y x then Val (x - y) else Panic
    | Wrapping => Val ((x + (S cap - y mod S cap)) mod S cap)
    end.
End Arith.

Section Width.
  Context {I : Type} `{Ord I} `{DiscreteFinite I}.
  Context {K : Type} `{InclusiveInterval I K}.
  Context {V : Type}.
  Context (b : build) (cap : nat).

  (** [insert_strict_back]  (/repo/src/zosdit/map.rs:279-323): the value is
      pushed (lines 289-317) before [self.len += 1] (line 319). *)
  Definition insert_strict_back_u (interval : K) (value : V) (z : ZosditMap K V)
    : ZosditMap K V * outcome (result unit V) :=
    match invalid_interval_panic interval with
    | Panic => (z, Panic)
    | Val _ =>
        match is_zero_overlap z interval with
        | Panic => (z, Panic)
        | Val false => (z, Val (Err value))
        | Val true =>
            match entry_push interval value [] (z_inner z) with
            | Panic => (z, Panic)
            | Val inner =>
                match uadd b cap (z_len z) 1 with
                | Panic => (mkZosdit (z_len z) inner, Panic)
                | Val n => (mkZosdit n inner, Val (Ok tt))
                end
            end
        end
    end.

  (** The piece before the cut: stored, then counted
      (/repo/src/zosdit/map.rs:446-449). *)
  Definition before_u (p : option (Interval I)) (vs : list V) (n : nat) (pre : BTreeMap K (list V))
    : nat * BTreeMap K (list V) * outcome unit :=
    match p with
    | None => (n, pre, Val tt)
    | Some i =>
        let pre := pre ++ [(ifrom i, vs)] in
        match uadd b cap n (length vs) with
        | Panic => (n, pre, Panic)
        | Val n => (n, pre, Val tt)
        end
    end.
  (** The piece after the cut: counted, then stored
      (/repo/src/zosdit/map.rs:450-453). *)
  Definition after_u (p : option (Interval I)) (vs : list V) (n : nat) (pre : BTreeMap K (list V))
    : nat * BTreeMap K (list V) * outcome unit :=
    match p with
    | None => (n, pre, Val tt)
    | Some i =>
        match uadd b cap n (length vs) with
        | Panic => (n, pre, Panic)
        | Val n => (n, pre ++ [(ifrom i, vs)], Val tt)
        end
    end.

  Section Cut.
    Context {Q : Type} `{InclusiveInterval I Q}.

    (** The loop of [cut]  (/repo/src/zosdit/map.rs:437-461).  The entry is
        removed (line 442) before anything is counted. *)
    Fixpoint zosdit_cut_loop_u (q : Q) (n : nat) (pre post : BTreeMap K (list V)) (acc : list (K * V))
      : ZosditMap K V * outcome (list (K * V)) :=
      match post with
      | [] => (mkZosdit n (pre ++ post), Val acc)
      | (k, vs) :: rest =>
          match overlaps k q with
          | Panic => (mkZosdit n (pre ++ post), Panic)
          | Val false => (mkZosdit n (pre ++ post), Val acc)
          | Val true =>
              match cut_interval k q with
              | Panic => (mkZosdit n (pre ++ rest), Panic)
              | Val r =>
                  match before_u (before_cut r) vs n pre with
                  | (n, pre, Panic) => (mkZosdit n (pre ++ rest), Panic)
                  | (n, pre, Val _) =>
                      match after_u (after_cut r) vs n pre with
                      | (n, pre, Panic) => (mkZosdit n (pre ++ rest), Panic)
                      | (n, pre, Val _) =>
                          match usub b cap n (length vs) with
                          | Panic => (mkZosdit n (pre ++ rest), Panic)
                          | Val n =>
                              match inside_cut r, vs with
                              | None, _ :: _ => (mkZosdit n (pre ++ rest), Panic)
                              | None, [] => zosdit_cut_loop_u q n pre rest acc
                              | Some i, _ =>
                                  zosdit_cut_loop_u q n pre rest (acc ++ map (fun v => (ifrom i, v)) vs)
                              end
                          end
                      end
                  end
              end
          end
      end.

    (** [cut]  (/repo/src/zosdit/map.rs:419-464) *)
    Definition zosdit_cut_u (q : Q) (z : ZosditMap K V) : ZosditMap K V * outcome (list (K * V)) :=
      match invalid_interval_panic q with
      | Panic => (z, Panic)
      | Val _ =>
          let c := upper_bound (exclusive_comp (istart q) Lt) (z_inner z) in
          let c := match cursor_key c with None => move_next c | Some _ => c end in
          zosdit_cut_loop_u q (z_len z) (fst c) (snd c) []
      end.
  End Cut.

  (** [from_iter_strict_back]  (/repo/src/zosdit/map.rs:603-611) *)
  Fixpoint extend_strict_back_u (l : list (K * V)) (z : ZosditMap K V) : outcome (result (ZosditMap K V) V) :=
    match l with
    | [] => Val (Ok z)
    | (interval, value) :: r =>
        match insert_strict_back_u interval value z with
        | (_, Panic) => Panic
        | (_, Val (Err e)) => Val (Err e)
        | (z, Val (Ok _)) => extend_strict_back_u r z
        end
    end.
  Definition from_iter_strict_back_u (l : list (K * V)) : outcome (result (ZosditMap K V) V) :=
    extend_strict_back_u l z_new.

  (** [visit_seq] and [deserialize]  (/repo/src/zosdit/map.rs:664-666, 707-718) *)
  Fixpoint zosdit_visit_seq_u (access : list (option (K * V))) (z : ZosditMap K V)
    : outcome (result (ZosditMap K V) de_error) :=
    match access with
    | [] => Val (Ok z)
    | None :: _ => Val (Err DeElement)
    | Some (interval, value) :: rest =>
        match insert_strict_back_u interval value z with
        | (_, Panic) => Panic
        | (_, Val (Err _)) => Val (Err DeOverlap)
        | (z, Val (Ok _)) => zosdit_visit_seq_u rest z
        end
    end.
  Definition zosdit_deserialize_u (access : list (option (K * V)))
    : outcome (result (ZosditMap K V) de_error) := zosdit_visit_seq_u access z_new.

  (** Histories, as in [ZosditOps]: a panic is caught and the history goes on
      with the map as the panicking call left it. *)
  Definition zstep_u (z : ZosditMap K V) (o : zop I K V) : ZosditMap K V :=
    match o with
    | ZNew => z_new
    | ZInsertStrictBack k v => fst (insert_strict_back_u k v z)
    | ZRemoveLast p => fst (remove_last_value_at_point p z)
    | ZCut q => fst (zosdit_cut_u q z)
    | ZFromIter l => match from_iter_strict_back_u l with Val (Ok z') => z' | _ => z end
    | ZDeserialize l => match zosdit_deserialize_u l with Val (Ok z') => z' | _ => z end
    end.
  Definition zrun_u (os : list (zop I K V)) : ZosditMap K V := fold_left zstep_u os z_new.
End Width.
