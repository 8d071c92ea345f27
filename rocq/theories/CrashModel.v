(** * CrashModel: the same functions when user code may panic.  No proofs here.

    The crate calls three pieces of user code in the middle of its updates:
    [V::clone], [V::eq] and [K::from(Interval)].  [NoditModel], [ZosditModel] and
    [GqditModel] take them to return; here any of these calls may panic instead.
    A crash point is a number, the [fuel]: that many calls of user code return
    normally, the next one panics and unwinds through the crate.  The functions
    below follow the order of evaluation of the Rust source (arguments from
    left to right) and return the state left behind by the unwinding, and on
    normal return also the fuel left.  Unwinding drops the local [Vec]s; a
    dropped cursor changes nothing.  [TraceModel] treats
    panics in user [Ord]/[InclusiveInterval]/[DiscreteFinite] code. *)
From Coq Require Import List Bool.
From Verif Require Import Base BTree UtilsModel IntervalModel NoditModel NoditOps ZosditModel ZosditOps GqditModel GqditOps.
Import ListNotations.

(** One call of user code: [None] if it panics. *)
Definition user_call (fuel : nat) : option nat :=
  match fuel with 0 => None | S fuel => Some fuel end.

Section Crash.
  Context {I : Type} `{Ord I} `{DiscreteFinite I}.
  Context {K : Type} `{InclusiveInterval I K}.

  Section Nodit.
    Context {V : Type}.

    (** [cursor.insert_before(K::from(piece), value.clone())]
        (/repo/src/nodit/map.rs:453-458) *)
    Definition insert_piece_c (p : option (Interval I)) (v : V) (pre : list (K * V)) (fuel : nat)
      : list (K * V) * option nat :=
      match p with
      | None => (pre, Some fuel)
      | Some i =>
          match user_call fuel with
          | None => (pre, None)
          | Some fuel =>
              match user_call fuel with
              | None => (pre, None)
              | Some fuel => (pre ++ [(ifrom i, v)], Some fuel)
              end
          end
      end.

    (** The loop of [cut]  (/repo/src/nodit/map.rs:444-461) *)
    Fixpoint cut_loop_c {Q} `{InclusiveInterval I Q} (q : Q) (pre post acc : list (K * V)) (fuel : nat)
      : NoditMap K V * outcome (list (K * V) * nat) :=
      match post with
      | [] => (pre ++ post, Val (acc, fuel))
      | (k, v) :: rest =>
          match overlaps k q with
          | Panic => (pre ++ post, Panic)
          | Val false => (pre ++ post, Val (acc, fuel))
          | Val true =>
              match cut_interval k q with
              | Panic => (pre ++ rest, Panic)
              | Val r =>
                  match insert_piece_c (before_cut r) v pre fuel with
                  | (pre, None) => (pre ++ rest, Panic)
                  | (pre, Some fuel) =>
                      match insert_piece_c (after_cut r) v pre fuel with
                      | (pre, None) => (pre ++ rest, Panic)
                      | (pre, Some fuel) =>
                          match inside_cut r with
                          | None => (pre ++ rest, Panic)
                          | Some i =>
                              match user_call fuel with
                              | None => (pre ++ rest, Panic)
                              | Some fuel => cut_loop_c q pre rest (acc ++ [(ifrom i, v)]) fuel
                              end
                          end
                      end
                  end
              end
          end
      end.

    (** [NoditMap::cut]  (/repo/src/nodit/map.rs:430-464) *)
    Definition cut_c {Q} `{InclusiveInterval I Q} (q : Q) (m : NoditMap K V) (fuel : nat)
      : NoditMap K V * outcome (list (K * V) * nat) :=
      match invalid_interval_panic q with
      | Panic => (m, Panic)
      | Val _ =>
          let c := lower_bound (overlapping_comp (istart q)) m in
          cut_loop_c q (fst c) (snd c) [] fuel
      end.

    (** [NoditMap::insert_overwrite]  (/repo/src/nodit/map.rs:1166-1179) *)
    Definition insert_overwrite_c (interval : K) (value : V) (m : NoditMap K V) (fuel : nat)
      : NoditMap K V * outcome (list (K * V) * nat) :=
      match invalid_interval_panic interval with
      | Panic => (m, Panic)
      | Val _ =>
          match cut_c interval m fuel with
          | (m, Panic) => (m, Panic)
          | (m, Val c) => (insert_unchecked interval value m, Val c)
          end
      end.

    (** [returning] of [insert_merge_with_comps]: three of the four cases call
        [K::from]  (/repo/src/nodit/map.rs:752-766) *)
    Definition returning_c (interval : K) (matching_start matching_end : option K) (fuel : nat)
      : option (K * nat) :=
      match matching_start, matching_end with
      | None, None => Some (interval, fuel)
      | _, _ =>
          match user_call fuel with
          | None => None
          | Some fuel =>
              Some (ifrom (mkInterval
                             match matching_start with Some s => istart s | None => istart interval end
                             match matching_end with Some e => iend e | None => iend interval end), fuel)
          end
      end.

    (** [NoditMap::insert_merge_with_comps]  (/repo/src/nodit/map.rs:733-777) *)
    Definition insert_merge_with_comps_c (interval : K) (value : V)
      (get_start get_end : NoditMap K V -> V -> nat -> option (option K * nat))
      (remove_start remove_end : NoditMap K V -> V -> nat -> NoditMap K V * option nat)
      (m : NoditMap K V) (fuel : nat) : NoditMap K V * outcome (K * nat) :=
      match invalid_interval_panic interval with
      | Panic => (m, Panic)
      | Val _ =>
          match get_start m value fuel with
          | None => (m, Panic)
          | Some (matching_start, fuel) =>
          match get_end m value fuel with
          | None => (m, Panic)
          | Some (matching_end, fuel) =>
          match returning_c interval matching_start matching_end fuel with
          | None => (m, Panic)
          | Some (returning, fuel) =>
          match remove_overlapping interval m with
          | (m, Panic) => (m, Panic)
          | (m, Val _) =>
          match remove_start m value fuel with
          | (m, None) => (m, Panic)
          | (m, Some fuel) =>
          match remove_end m value fuel with
          | (m, None) => (m, Panic)
          | (m, Some fuel) => (insert_unchecked returning value m, Val (returning, fuel))
          end end end end end end
      end.

    (** A closure that calls no user code. *)
    Definition pure_get (f : NoditMap K V -> V -> option K) (m : NoditMap K V) (v : V) (fuel : nat)
      : option (option K * nat) := Some (f m v, fuel).
    Definition pure_remove (f : NoditMap K V -> V -> NoditMap K V) (m : NoditMap K V) (v : V) (fuel : nat)
      : NoditMap K V * option nat := (f m v, Some fuel).

    (** [NoditMap::insert_merge_touching]  (/repo/src/nodit/map.rs:832-867) *)
    Definition insert_merge_touching_c (interval : K) (value : V) (m : NoditMap K V) (fuel : nat)
      : NoditMap K V * outcome (result K V * nat) :=
      match invalid_interval_panic interval with
      | Panic => (m, Panic)
      | Val _ =>
          match map_overlaps m interval with
          | Panic => (m, Panic)
          | Val true => (m, Val (Err value, fuel))
          | Val false =>
              let (m, r) :=
                insert_merge_with_comps_c interval value
                  (pure_get (fun m _ => option_map fst (get_key_value (touching_start_comp (istart interval)) m)))
                  (pure_get (fun m _ => option_map fst (get_key_value (touching_end_comp (iend interval)) m)))
                  (pure_remove (fun m _ => fst (remove (touching_start_comp (istart interval)) m)))
                  (pure_remove (fun m _ => fst (remove (touching_end_comp (iend interval)) m)))
                  m fuel in
              (m, omap (fun x => (Ok (fst x), snd x)) r)
          end
      end.

    (** The closures of [insert_merge_touching_if_values_equal]
        (/repo/src/nodit/map.rs:934-969): [V::eq] is called when a neighbour is
        found, once by [get_*] and once more by [remove_*]. *)
    Definition get_if_equal_c (veq : V -> V -> bool) (comp : K -> comparison) (m : NoditMap K V) (value : V)
      (fuel : nat) : option (option K * nat) :=
      match get_key_value comp m with
      | Some (k, v) =>
          match user_call fuel with
          | None => None
          | Some fuel => Some (if veq v value then Some k else None, fuel)
          end
      | None => Some (None, fuel)
      end.
    Definition remove_if_equal_c (veq : V -> V -> bool) (comp : K -> comparison) (m : NoditMap K V) (value : V)
      (fuel : nat) : NoditMap K V * option nat :=
      match get_if_equal_c veq comp m value fuel with
      | None => (m, None)
      | Some (o, fuel) => (if is_some o then fst (remove comp m) else m, Some fuel)
      end.

    (** [NoditMap::insert_merge_touching_if_values_equal]
        (/repo/src/nodit/map.rs:920-971) *)
    Definition insert_merge_touching_if_values_equal_c (veq : V -> V -> bool)
      (interval : K) (value : V) (m : NoditMap K V) (fuel : nat) : NoditMap K V * outcome (result K V * nat) :=
      match invalid_interval_panic interval with
      | Panic => (m, Panic)
      | Val _ =>
          match map_overlaps m interval with
          | Panic => (m, Panic)
          | Val true => (m, Val (Err value, fuel))
          | Val false =>
              let (m, r) :=
                insert_merge_with_comps_c interval value
                  (get_if_equal_c veq (touching_start_comp (istart interval)))
                  (get_if_equal_c veq (touching_end_comp (iend interval)))
                  (remove_if_equal_c veq (touching_start_comp (istart interval)))
                  (remove_if_equal_c veq (touching_end_comp (iend interval)))
                  m fuel in
              (m, omap (fun x => (Ok (fst x), snd x)) r)
          end
      end.

    (** [NoditMap::insert_merge_overlapping]  (/repo/src/nodit/map.rs:1021-1044) *)
    Definition insert_merge_overlapping_c (interval : K) (value : V) (m : NoditMap K V) (fuel : nat)
      : NoditMap K V * outcome (K * nat) :=
      match invalid_interval_panic interval with
      | Panic => (m, Panic)
      | Val _ =>
          insert_merge_with_comps_c interval value
            (pure_get (fun m _ => option_map fst (get_key_value (overlapping_comp (istart interval)) m)))
            (pure_get (fun m _ => option_map fst (get_key_value (overlapping_comp (iend interval)) m)))
            (pure_remove (fun m _ => m))
            (pure_remove (fun m _ => m))
            m fuel
      end.

    (** [NoditMap::insert_merge_touching_or_overlapping]
        (/repo/src/nodit/map.rs:1094-1133) *)
    Definition insert_merge_touching_or_overlapping_c (interval : K) (value : V) (m : NoditMap K V) (fuel : nat)
      : NoditMap K V * outcome (K * nat) :=
      match invalid_interval_panic interval with
      | Panic => (m, Panic)
      | Val _ =>
          insert_merge_with_comps_c interval value
            (pure_get (fun m _ => option_or
               (option_map fst (get_key_value (touching_start_comp (istart interval)) m))
               (option_map fst (get_key_value (overlapping_comp (istart interval)) m))))
            (pure_get (fun m _ => option_or
               (option_map fst (get_key_value (touching_end_comp (iend interval)) m))
               (option_map fst (get_key_value (overlapping_comp (iend interval)) m))))
            (pure_remove (fun m _ => fst (remove (touching_start_comp (istart interval)) m)))
            (pure_remove (fun m _ => fst (remove (touching_end_comp (iend interval)) m)))
            m fuel
      end.

    (** One call with a crash point: the map left behind.  The other methods
        call no user code while they change the map. *)
    Definition step_c (m : NoditMap K V) (o : op I K V) (fuel : nat) : NoditMap K V :=
      match o with
      | OpInsertMergeTouching k v => fst (insert_merge_touching_c k v m fuel)
      | OpInsertMergeTouchingIfValuesEqual veq k v =>
          fst (insert_merge_touching_if_values_equal_c veq k v m fuel)
      | OpInsertMergeOverlapping k v => fst (insert_merge_overlapping_c k v m fuel)
      | OpInsertMergeTouchingOrOverlapping k v => fst (insert_merge_touching_or_overlapping_c k v m fuel)
      | OpInsertOverwrite k v => fst (insert_overwrite_c k v m fuel)
      | OpCut q => fst (cut_c q m fuel)
      | _ => step m o
      end.

    (** A history in which every call has its own crash point. *)
    Definition run_c (os : list (op I K V * nat)) : NoditMap K V :=
      fold_left (fun m of => step_c m (fst of) (snd of)) os new.
  End Nodit.

  Section Zosdit.
    Context {V : Type}.

    (** [cursor.insert_before(K::from(before), value_store.clone());
         self.len += value_store.len()]  (/repo/src/zosdit/map.rs:446-449).
        Cloning the store clones the values one by one; it is one call here: a
        panic in the middle drops the partial clone. *)
    Definition z_before_c (p : option (Interval I)) (vs : list V)
      (n : nat) (pre : BTreeMap K (list V)) (fuel : nat) : nat * BTreeMap K (list V) * option nat :=
      match p with
      | None => (n, pre, Some fuel)
      | Some i =>
          match user_call fuel with
          | None => (n, pre, None)
          | Some fuel =>
              match user_call fuel with
              | None => (n, pre, None)
              | Some fuel => (n + length vs, pre ++ [(ifrom i, vs)], Some fuel)
              end
          end
      end.
    (** [self.len += value_store.len();
         cursor.insert_before(K::from(after), value_store.clone())]
        (/repo/src/zosdit/map.rs:450-453) *)
    Definition z_after_c (p : option (Interval I)) (vs : list V)
      (n : nat) (pre : BTreeMap K (list V)) (fuel : nat) : nat * BTreeMap K (list V) * option nat :=
      match p with
      | None => (n, pre, Some fuel)
      | Some i =>
          match user_call fuel with
          | None => (n + length vs, pre, None)
          | Some fuel =>
              match user_call fuel with
              | None => (n + length vs, pre, None)
              | Some fuel => (n + length vs, pre ++ [(ifrom i, vs)], Some fuel)
              end
          end
      end.

    (** [n] calls of [K::from]  (/repo/src/zosdit/map.rs:456-460) *)
    Fixpoint user_calls (n fuel : nat) : option nat :=
      match n with
      | 0 => Some fuel
      | S n => match user_call fuel with None => None | Some fuel => user_calls n fuel end
      end.

    (** The loop of [ZosditMap::cut]  (/repo/src/zosdit/map.rs:437-461) *)
    Fixpoint zosdit_cut_loop_c {Q} `{InclusiveInterval I Q} (q : Q) (n : nat)
      (pre post : BTreeMap K (list V)) (acc : list (K * V)) (fuel : nat)
      : ZosditMap K V * outcome (list (K * V)) :=
      match post with
      | [] => (mkZosdit n (pre ++ post), Val acc)
      | (k, vs) :: rest =>
          match overlaps k q with
          | Panic => (mkZosdit n (pre ++ post), Panic)
          | Val false => (mkZosdit n (pre ++ post), Val acc)
          | Val true =>
              match cut_interval k q with
              | Panic => (mkZosdit n (pre ++ rest), Panic)
              | Val r =>
                  match z_before_c (before_cut r) vs n pre fuel with
                  | (n, pre, None) => (mkZosdit n (pre ++ rest), Panic)
                  | (n, pre, Some fuel) =>
                      match z_after_c (after_cut r) vs n pre fuel with
                      | (n, pre, None) => (mkZosdit n (pre ++ rest), Panic)
                      | (n, pre, Some fuel) =>
                          if Nat.ltb n (length vs) then (mkZosdit n (pre ++ rest), Panic)
                          else
                            match inside_cut r, vs with
                            | None, _ :: _ => (mkZosdit (n - length vs) (pre ++ rest), Panic)
                            | None, [] => zosdit_cut_loop_c q (n - length vs) pre rest acc fuel
                            | Some i, _ =>
                                match user_calls (length vs) fuel with
                                | None => (mkZosdit (n - length vs) (pre ++ rest), Panic)
                                | Some fuel =>
                                    zosdit_cut_loop_c q (n - length vs) pre rest
                                      (acc ++ map (fun v => (ifrom i, v)) vs) fuel
                                end
                            end
                      end
                  end
              end
          end
      end.

    (** [ZosditMap::cut]  (/repo/src/zosdit/map.rs:419-464) *)
    Definition zosdit_cut_c {Q} `{InclusiveInterval I Q} (q : Q) (z : ZosditMap K V) (fuel : nat)
      : ZosditMap K V * outcome (list (K * V)) :=
      match invalid_interval_panic q with
      | Panic => (z, Panic)
      | Val _ =>
          let c := upper_bound (exclusive_comp (istart q) Lt) (z_inner z) in
          let c := match cursor_key c with None => move_next c | Some _ => c end in
          zosdit_cut_loop_c q (z_len z) (fst c) (snd c) [] fuel
      end.

    (** Histories with crash points; the other methods call no user code. *)
    Definition zstep_c (z : ZosditMap K V) (o : zop I K V) (fuel : nat) : ZosditMap K V :=
      match o with
      | ZCut q => fst (zosdit_cut_c q z fuel)
      | _ => zstep z o
      end.
    Definition zrun_c (os : list (zop I K V * nat)) : ZosditMap K V :=
      fold_left (fun z of => zstep_c z (fst of) (snd of)) os z_new.
  End Zosdit.

  Section Gqdit.
    Context {D : Type} `{Ord D}.

    (** The reinsertion loops of [Gqdit::insert], [cut_with_identifiers] and
        [cut_all_identifiers]  (/repo/src/gqdit/mod.rs:271-286, 324-337, 388-402).
        [clones] tells whether each round first clones the given set
        ([identifiers.clone()], only [insert] does). *)
    Fixpoint reinsert_c (clones : bool) (update : BTreeSet D -> BTreeSet D)
      (l : list (K * BTreeSet D)) (g : Gqdit K D) (fuel : nat) : Gqdit K D * outcome nat :=
      match l with
      | [] => (g, Val fuel)
      | (interval, identifiers) :: r =>
          match (if clones then user_call fuel else Some fuel) with
          | None => (g, Panic)
          | Some fuel =>
              match insert_merge_touching_if_values_equal_c bset_eqb interval (update identifiers) g fuel with
              | (g, Val (Ok _, fuel)) => reinsert_c clones update r g fuel
              | (g, _) => (g, Panic)
              end
          end
      end.

    Definition cut_update_c {Q} `{InclusiveInterval I Q} (clones : bool)
      (update : BTreeSet D -> BTreeSet D) (q : Q) (g : Gqdit K D) (fuel : nat) : Gqdit K D * outcome nat :=
      match cut_c q g fuel with
      | (g, Panic) => (g, Panic)
      | (g, Val (l, fuel)) => reinsert_c clones update l g fuel
      end.

    (** [Gqdit::insert]  (/repo/src/gqdit/mod.rs:367-403) *)
    Definition gqdit_insert_c (identifiers : BTreeSet D) (interval : K) (g : Gqdit K D) (fuel : nat)
      : Gqdit K D * outcome nat :=
      match invalid_interval_panic interval with
      | Panic => (g, Panic)
      | Val _ =>
          if bset_is_empty identifiers then (g, Val fuel)
          else cut_update_c true (fun ids => bset_extend ids identifiers) interval g fuel
      end.

    (** [Gqdit::cut_with_identifiers]  (/repo/src/gqdit/mod.rs:259-287) *)
    Definition cut_with_identifiers_c {Q} `{InclusiveInterval I Q}
      (identifiers : BTreeSet D) (q : Q) (g : Gqdit K D) (fuel : nat) : Gqdit K D * outcome nat :=
      match invalid_interval_panic q with
      | Panic => (g, Panic)
      | Val _ =>
          if bset_is_empty identifiers then (g, Val fuel)
          else cut_update_c false (bset_retain (fun i => negb (bset_contains identifiers i))) q g fuel
      end.

    (** [Gqdit::cut_all_identifiers]  (/repo/src/gqdit/mod.rs:317-338) *)
    Definition cut_all_identifiers_c {Q} `{InclusiveInterval I Q} (q : Q) (g : Gqdit K D) (fuel : nat)
      : Gqdit K D * outcome nat :=
      match invalid_interval_panic q with
      | Panic => (g, Panic)
      | Val _ => cut_update_c false (fun _ => bset_empty) q g fuel
      end.

    (** The loop of [Gqdit::append]  (/repo/src/gqdit/mod.rs:425-427) *)
    Fixpoint append_loop_c (l : list (K * BTreeSet D)) (g : Gqdit K D) (fuel : nat) : Gqdit K D * outcome nat :=
      match l with
      | [] => (g, Val fuel)
      | (interval, identifiers) :: r =>
          match gqdit_insert_c identifiers interval g fuel with
          | (g, Panic) => (g, Panic)
          | (g, Val fuel) => append_loop_c r g fuel
          end
      end.
    (** [Gqdit::append]  (/repo/src/gqdit/mod.rs:424-428): the state of [self]. *)
    Definition append_c (g other : Gqdit K D) (fuel : nat) : Gqdit K D * outcome nat :=
      match uu with
      | Panic => (g, Panic)
      | Val u =>
          match remove_overlapping u other with
          | (_, Panic) => (g, Panic)
          | (_, Val l) => append_loop_c l g fuel
          end
      end.

    (** Histories with crash points.  The argument of [append] is built by a
        history without panics. *)
    Definition gstep_c (g : Gqdit K D) (o : gop I K D) (fuel : nat) : Gqdit K D :=
      match o with
      | GInsert ids k => fst (gqdit_insert_c (collect ids) k g fuel)
      | GCutWith ids q => fst (cut_with_identifiers_c (collect ids) q g fuel)
      | GCutAll q => fst (cut_all_identifiers_c q g fuel)
      | GAppend os => fst (append_c g (grun os) fuel)
      end.
    Definition grun_c (os : list (gop I K D * nat)) : Gqdit K D :=
      fold_left (fun g of => gstep_c g (fst of) (snd of)) os gnew.
  End Gqdit.
End Crash.
