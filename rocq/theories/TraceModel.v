(** * TraceModel: every state a call passes through.  No proofs in this file.

    For each method of [NoditModel], [ZosditModel] and [GqditModel] that changes the structure,
    the list of the states the structure goes through, one after each change of
    the B-tree, beginning with the state before the call.  Whatever user code
    panics, wherever in the call (also [Ord], [start], [end], [up] or [down],
    which [CrashModel] does not let panic), one of these states is left behind,
    since a search of the B-tree changes nothing.  A step that changes nothing
    repeats the state. *)
From Coq Require Import List Bool.
From Verif Require Import Base BTree UtilsModel IntervalModel NoditModel NoditOps ZosditModel ZosditOps GqditModel GqditOps.
Import ListNotations.

Section Trace.
  Context {I : Type} `{Ord I} `{DiscreteFinite I}.
  Context {K : Type} `{InclusiveInterval I K}.

  Section Nodit.
    Context {V : Type}.
    Implicit Types (m : NoditMap K V) (k : K) (v : V).

    (** (/repo/src/nodit/map.rs:382-387) *)
    Fixpoint remove_overlapping_loop_t {Q} `{InclusiveInterval I Q} (q : Q) (pre post : list (K * V))
      : list (NoditMap K V) :=
      (pre ++ post) ::
      match post with
      | [] => []
      | (k, _) :: rest =>
          match overlaps q k with
          | Val true => remove_overlapping_loop_t q pre rest
          | _ => []
          end
      end.

    (** (/repo/src/nodit/map.rs:366-390) *)
    Definition remove_overlapping_t {Q} `{InclusiveInterval I Q} (q : Q) m : list (NoditMap K V) :=
      m :: match invalid_interval_panic q with
           | Panic => []
           | Val _ =>
               let c := lower_bound (overlapping_comp (istart q)) m in
               remove_overlapping_loop_t q (fst c) (snd c)
           end.

    (** [remove_current], [insert_before], [insert_before]
        (/repo/src/nodit/map.rs:444-461) *)
    Fixpoint cut_loop_t {Q} `{InclusiveInterval I Q} (q : Q) (pre post : list (K * V)) : list (NoditMap K V) :=
      (pre ++ post) ::
      match post with
      | [] => []
      | (k, v) :: rest =>
          match overlaps k q with
          | Val true =>
              (pre ++ rest) ::
              match cut_interval k q with
              | Panic => []
              | Val r =>
                  let pre := insert_piece (before_cut r) v pre in
                  (pre ++ rest) ::
                  let pre := insert_piece (after_cut r) v pre in
                  (pre ++ rest) ::
                  match inside_cut r with
                  | None => []
                  | Some _ => cut_loop_t q pre rest
                  end
              end
          | _ => []
          end
      end.

    (** (/repo/src/nodit/map.rs:430-464) *)
    Definition cut_t {Q} `{InclusiveInterval I Q} (q : Q) m : list (NoditMap K V) :=
      m :: match invalid_interval_panic q with
           | Panic => []
           | Val _ =>
               let c := lower_bound (overlapping_comp (istart q)) m in
               cut_loop_t q (fst c) (snd c)
           end.

    (** (/repo/src/nodit/map.rs:733-777) *)
    Definition insert_merge_with_comps_t k v
      (get_start get_end : NoditMap K V -> V -> option K)
      (remove_start remove_end : NoditMap K V -> V -> NoditMap K V)
      m : list (NoditMap K V) :=
      m :: match invalid_interval_panic k with
           | Panic => []
           | Val _ =>
               remove_overlapping_t k m ++
               match remove_overlapping k m with
               | (_, Panic) => []
               | (m1, Val _) =>
                   let m2 := remove_start m1 v in
                   let m3 := remove_end m2 v in
                   [m2; m3; fst (insert_merge_with_comps k v get_start get_end remove_start remove_end m)]
               end
           end.

    (** The insertions that first ask [overlaps]
        (/repo/src/nodit/map.rs:832-867, 920-971) *)
    Definition if_free_t k m (t : list (NoditMap K V)) : list (NoditMap K V) :=
      m :: match invalid_interval_panic k with
           | Panic => []
           | Val _ => match map_overlaps m k with Val false => t | _ => [] end
           end.

    (** The methods that change the map: the states from before to after. *)
    Definition trace m (o : op I K V) : list (NoditMap K V) :=
      match o with
      | OpInsertMergeTouching k v =>
          if_free_t k m
            (insert_merge_with_comps_t k v
               (fun m _ => option_map fst (get_key_value (touching_start_comp (istart k)) m))
               (fun m _ => option_map fst (get_key_value (touching_end_comp (iend k)) m))
               (fun m _ => fst (remove (touching_start_comp (istart k)) m))
               (fun m _ => fst (remove (touching_end_comp (iend k)) m)) m)
      | OpInsertMergeTouchingIfValuesEqual veq k v =>
          let get_start := get_if_equal veq (touching_start_comp (istart k)) in
          let get_end := get_if_equal veq (touching_end_comp (iend k)) in
          if_free_t k m
            (insert_merge_with_comps_t k v get_start get_end
               (fun m value => if is_some (get_start m value)
                               then fst (remove (touching_start_comp (istart k)) m) else m)
               (fun m value => if is_some (get_end m value)
                               then fst (remove (touching_end_comp (iend k)) m) else m) m)
      | OpInsertMergeOverlapping k v =>
          insert_merge_with_comps_t k v
            (fun m _ => option_map fst (get_key_value (overlapping_comp (istart k)) m))
            (fun m _ => option_map fst (get_key_value (overlapping_comp (iend k)) m))
            (fun m _ => m) (fun m _ => m) m
      | OpInsertMergeTouchingOrOverlapping k v =>
          insert_merge_with_comps_t k v
            (fun m _ => option_or
               (option_map fst (get_key_value (touching_start_comp (istart k)) m))
               (option_map fst (get_key_value (overlapping_comp (istart k)) m)))
            (fun m _ => option_or
               (option_map fst (get_key_value (touching_end_comp (iend k)) m))
               (option_map fst (get_key_value (overlapping_comp (iend k)) m)))
            (fun m _ => fst (remove (touching_start_comp (istart k)) m))
            (fun m _ => fst (remove (touching_end_comp (iend k)) m)) m
      | OpInsertOverwrite k v => cut_t k m ++ [step m o]
      | OpRemoveOverlapping q => remove_overlapping_t q m
      | OpCut q => cut_t q m
      | _ => [m; step m o]
      end.

    (** A history in which every call may be left in any state it passes
        through. *)
    Inductive interrupted_history : list (op I K V) -> NoditMap K V -> Prop :=
    | interrupted_new : interrupted_history [] new
    | interrupted_call os m o m' :
        interrupted_history os m -> In m' (trace m o) -> interrupted_history (os ++ [o]) m'.
  End Nodit.

  Section Zosdit.
    Context {V : Type}.
    Implicit Types (z : ZosditMap K V).

    (** The loop of [cut]  (/repo/src/zosdit/map.rs:437-461): after
        [remove_current], after each [insert_before] and each change of
        [self.len].  No user code runs between [insert_before] (line 447) and the
        addition to [self.len] (line 448), so these two are one step. *)
    Fixpoint zosdit_cut_loop_t {Q} `{InclusiveInterval I Q} (q : Q) (n : nat) (pre post : BTreeMap K (list V))
      : list (ZosditMap K V) :=
      mkZosdit n (pre ++ post) ::
      match post with
      | [] => []
      | (k, vs) :: rest =>
          match overlaps k q with
          | Val true =>
              mkZosdit n (pre ++ rest) ::
              match cut_interval k q with
              | Panic => []
              | Val r =>
                  let s1 := z_piece (before_cut r) vs (n, pre) in
                  let s2 := z_piece (after_cut r) vs s1 in
                  mkZosdit (fst s1) (snd s1 ++ rest) ::
                  mkZosdit (fst s2) (snd s1 ++ rest) ::
                  mkZosdit (fst s2) (snd s2 ++ rest) ::
                  if Nat.ltb (fst s2) (length vs) then []
                  else
                    mkZosdit (fst s2 - length vs) (snd s2 ++ rest) ::
                    match inside_cut r, vs with
                    | None, _ :: _ => []
                    | _, _ => zosdit_cut_loop_t q (fst s2 - length vs) (snd s2) rest
                    end
              end
          | _ => []
          end
      end.
    (** [cut]  (/repo/src/zosdit/map.rs:419-464) *)
    Definition zosdit_cut_t {Q} `{InclusiveInterval I Q} (q : Q) z : list (ZosditMap K V) :=
      z ::
      match invalid_interval_panic q with
      | Panic => []
      | Val _ =>
          let c := upper_bound (exclusive_comp (istart q) Lt) (z_inner z) in
          let c := match cursor_key c with None => move_next c | Some _ => c end in
          zosdit_cut_loop_t q (z_len z) (fst c) (snd c)
      end.
    (** The other calls run no user code between their first and their last
        change of the map ([insert_strict_back]: the [entry] search comes before
        [or_default], /repo/src/zosdit/map.rs:289-319;
        [remove_last_value_at_point]: [pop] and [remove_current], lines 235-239);
        the bulk calls build another map. *)
    Definition ztrace z (o : zop I K V) : list (ZosditMap K V) :=
      match o with
      | ZCut q => zosdit_cut_t q z
      | _ => [z; zstep z o]
      end.
    Inductive zinterrupted_history : list (zop I K V) -> ZosditMap K V -> Prop :=
    | zinterrupted_new : zinterrupted_history [] z_new
    | zinterrupted_call os z o z' :
        zinterrupted_history os z -> In z' (ztrace z o) -> zinterrupted_history (os ++ [o]) z'.
  End Zosdit.

  Section Gqdit.
    Context {D : Type} `{Ord D}.
    Implicit Types (g : Gqdit K D).

    (** (/repo/src/gqdit/mod.rs:272-286, 323-337, 395-402) *)
    Fixpoint reinsert_t (update : BTreeSet D -> BTreeSet D) (l : list (K * BTreeSet D)) g : list (Gqdit K D) :=
      g :: match l with
           | [] => []
           | (interval, identifiers) :: r =>
               trace g (OpInsertMergeTouchingIfValuesEqual bset_eqb interval (update identifiers)) ++
               match insert_merge_touching_if_values_equal bset_eqb interval (update identifiers) g with
               | (g, Val (Ok _)) => reinsert_t update r g
               | _ => []
               end
           end.
    Definition cut_update_t {Q} `{InclusiveInterval I Q}
      (update : BTreeSet D -> BTreeSet D) (q : Q) g : list (Gqdit K D) :=
      cut_t q g ++
      match cut q g with
      | (_, Panic) => []
      | (g, Val l) => reinsert_t update l g
      end.

    (** [Gqdit::insert]  (/repo/src/gqdit/mod.rs:367-403) *)
    Definition gqdit_insert_t (identifiers : BTreeSet D) (interval : K) g : list (Gqdit K D) :=
      g :: match invalid_interval_panic interval with
           | Panic => []
           | Val _ =>
               if bset_is_empty identifiers then []
               else cut_update_t (fun ids => bset_extend ids identifiers) interval g
           end.
    (** [Gqdit::cut_with_identifiers]  (/repo/src/gqdit/mod.rs:259-287) *)
    Definition cut_with_identifiers_t {Q} `{InclusiveInterval I Q} (identifiers : BTreeSet D) (q : Q) g
      : list (Gqdit K D) :=
      g :: match invalid_interval_panic q with
           | Panic => []
           | Val _ =>
               if bset_is_empty identifiers then []
               else cut_update_t (bset_retain (fun i => negb (bset_contains identifiers i))) q g
           end.
    (** [Gqdit::cut_all_identifiers]  (/repo/src/gqdit/mod.rs:317-338) *)
    Definition cut_all_identifiers_t {Q} `{InclusiveInterval I Q} (q : Q) g : list (Gqdit K D) :=
      g :: match invalid_interval_panic q with
           | Panic => []
           | Val _ => cut_update_t (fun _ => bset_empty) q g
           end.
    (** [Gqdit::append]  (/repo/src/gqdit/mod.rs:424-428): the states of [self]. *)
    Fixpoint append_loop_t (l : list (K * BTreeSet D)) g : list (Gqdit K D) :=
      g :: match l with
           | [] => []
           | (interval, identifiers) :: r =>
               gqdit_insert_t identifiers interval g ++
               match gqdit_insert identifiers interval g with
               | (_, Panic) => []
               | (g, Val _) => append_loop_t r g
               end
           end.
    Definition append_t g (other : Gqdit K D) : list (Gqdit K D) :=
      g :: match uu with
           | Panic => []
           | Val u =>
               match remove_overlapping u other with
               | (_, Panic) => []
               | (_, Val l) => append_loop_t l g
               end
           end.

    Definition gtrace g (o : gop I K D) : list (Gqdit K D) :=
      match o with
      | GInsert ids k => gqdit_insert_t (collect ids) k g
      | GCutWith ids q => cut_with_identifiers_t (collect ids) q g
      | GCutAll q => cut_all_identifiers_t q g
      | GAppend os => append_t g (grun os)
      end.
    Inductive ginterrupted_history : list (gop I K D) -> Gqdit K D -> Prop :=
    | ginterrupted_new : ginterrupted_history [] gnew
    | ginterrupted_call os g o g' :
        ginterrupted_history os g -> In g' (gtrace g o) -> ginterrupted_history (os ++ [o]) g'.
  End Gqdit.
End Trace.
