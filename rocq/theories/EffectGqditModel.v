(** * EffectGqditModel: [Gqdit] with user code that may do anything (see [EffectModel]).  No
      proofs in this file.

    The identifiers are compared and cloned by user code too.  A [BTreeSet] of the standard
    library is its elements in the order of the tree; it is searched in some tree with these
    elements, [shape w s] if the world is [w]. *)
From Coq Require Import List Bool Arith.
From Verif Require Import Base BTree UtilsModel IntervalModel NoditModel GqditModel TreeShape EffectModel.
Import ListNotations.

(** The user's identifier type. *)
Record id_code (W D : Type) : Type := {
  i_cmp : D -> D -> user W comparison;
  i_eq : D -> D -> user W bool;
  i_clone : D -> user W D
}.
Arguments i_cmp {W D}. Arguments i_eq {W D}. Arguments i_clone {W D}.

Section Sets.
  Context {W D : Type} (J : id_code W D) (shape : W -> list D -> tree D unit).
  (** Search for [d]  ([BTreeSet] of std; used at /repo/src/gqdit/mod.rs:278, 391, 503-504) *)
  Definition set_search_e (d : D) (s : list D) : user W (place (K := D) (V := unit)) := fun w => e_search (i_cmp J d) (shape w s) w.
  Definition set_contains_e (s : list D) (d : D) : user W bool := do! (_, x, _) := set_search_e d s in uret (is_some x).
  (** An element that is there already stays. *)
  Definition set_insert_e (d : D) (s : list D) : user W (list D) :=
    do! p := set_search_e d s in
    uret match p with (_, Some _, _) => s | (a, None, b) => map fst a ++ d :: map fst b end.
  Fixpoint set_extend_e (s other : list D) : user W (list D) :=
    match other with
    | [] => uret s
    | d :: other => do! s := set_insert_e d s in set_extend_e s other
    end.
  Fixpoint set_clone_e (s : list D) : user W (list D) :=
    match s with
    | [] => uret []
    | d :: s => do! d := i_clone J d in do! s := set_clone_e s in uret (d :: s)
    end.
  (** The lengths are compared first. *)
  Fixpoint all_eq_e (s t : list D) : user W bool :=
    match s, t with
    | x :: s, y :: t => do! b := i_eq J x y in if b then all_eq_e s t else uret false
    | _, _ => uret true
    end.
  Definition set_eq_e (s t : list D) : user W bool := if Nat.eqb (length s) (length t) then all_eq_e s t else uret false.
  (** [cut_identifiers.retain(|i| !identifiers.contains(i))]  (/repo/src/gqdit/mod.rs:278) *)
  Fixpoint set_remove_e (identifiers s : list D) : user W (list D) :=
    match s with
    | [] => uret []
    | d :: s => do! b := set_contains_e identifiers d in do! s := set_remove_e identifiers s in uret (if b then s else d :: s)
    end.
  (** [valid_identifier(Some(identifier), ..)]  (/repo/src/gqdit/mod.rs:493-508) *)
  Definition valid_identifier_e (identifier : D) (other_identifiers : list D) : user W bool :=
    match other_identifiers with
    | [] => uret true
    | [_] => set_contains_e other_identifiers identifier
    | _ => uret false
    end.
End Sets.

Section Model.
  Context {W I K D : Type} `{DiscreteFinite I} (P : point_code W I) (ik : interval_code W I K) (from : Interval I -> user W K).
  Context (J : id_code W D) (shape : W -> list D -> tree D unit).
  Notation Gqdit := (Gqdit K D).
  (** The values are sets. *)
  Definition set_code : entry_code W I K (list D) := {| e_from := from; e_clone := set_clone_e J; e_veq := set_eq_e J |}.
  (** The crate's [Interval]  (/repo/src/interval.rs:86-98, 463-468) *)
  Definition crate_interval : interval_code W I (Interval I) :=
    {| e_start := fun x => uret (ivl_start x); e_end := fun x => uret (ivl_end x); e_valid := fun x => e_le P (ivl_start x) (ivl_end x) |}.
  (** [ii], [ui], [iu], [uu]  (/repo/src/interval.rs:145-157, 174-183, 229-238, 284-293) *)
  Definition ii_e (s e : I) : user W (Interval I) := do! _ := invalid_interval_panic_e crate_interval (mkInterval s e) in uret (mkInterval s e).

  (** *** Queries *)
  (** [kc k p] is [k.contains_point(p)]. *)
  Context (kc : K -> I -> user W bool).
  (** /repo/src/gqdit/mod.rs:510-535 *)
  Definition merge_ordered_e (a b : K) : user W K := do! s := e_start ik a in do! e := e_end ik b in do! i := ii_e s e in from i.
  Definition overlaps_ordered_e (a b : K) : user W bool :=
    do! s := e_start ik b in do! x := kc a s in if x then uret true else do! e := e_end ik b in kc a e.
  Definition touches_ordered_e (a b : K) : user W bool :=
    do! e := e_end ik a in do! s := e_start ik b in do! d := e_down P s in do! d := uout (unwrap d) in e_eq P e d.

  (** [coalesce] run to its end over a lazy iterator: what a step of it gives, if
      anything  (used at /repo/src/gqdit/mod.rs:218-225) *)
  Fixpoint coalesce_from_e (f : K -> K -> user W (option K)) (last : K) (steps : list (user W (option K))) : user W (list K) :=
    match steps with
    | [] => uret [last]
    | s :: r =>
        do! x := s in
        match x with
        | None => coalesce_from_e f last r
        | Some next =>
            do! j := f last next in
            match j with
            | Some joined => coalesce_from_e f joined r
            | None => do! out := coalesce_from_e f next r in uret (last :: out)
            end
        end
    end.
  Fixpoint coalesce_e (f : K -> K -> user W (option K)) (steps : list (user W (option K))) : user W (list K) :=
    match steps with
    | [] => uret []
    | s :: r => do! x := s in match x with None => coalesce_e f r | Some first => coalesce_from_e f first r end
    end.
  (** [take_while(..).map(..).coalesce(..).next()]  (/repo/src/gqdit/mod.rs:460-470, 476-489) *)
  Fixpoint grow_e (identifier : D) (join : K -> K -> user W K) (last : K) (l : list (K * list D)) : user W K :=
    match l with
    | [] => uret last
    | (k, s) :: r =>
        do! b := valid_identifier_e J shape identifier s in
        if b then do! j := join last k in grow_e identifier join j r else uret last
    end.
  Definition expand_e (identifier : D) (join : K -> K -> user W K) (l : list (K * list D)) : user W (option K) :=
    match l with
    | [] => uret None
    | (k, s) :: r =>
        do! b := valid_identifier_e J shape identifier s in
        if b then do! k := grow_e identifier join k r in uret (Some k) else uret None
    end.
  (** [expand_gaps_at_point_right], [expand_gaps_at_point_left]  (/repo/src/gqdit/mod.rs:457-490) *)
  Definition expand_gaps_at_point_right_e (t : tree K (list D)) (identifier : D) (point : I) : user W (option K) :=
    do! q := ii_e point MAX in
    do! l := overlapping_e P ik crate_interval t q in
    expand_e identifier merge_ordered_e l.
  Definition expand_gaps_at_point_left_e (t : tree K (list D)) (identifier : D) (point : I) : user W (option K) :=
    do! q := ii_e MIN point in
    do! l := overlapping_e P ik crate_interval t q in
    expand_e identifier (fun x y => merge_ordered_e y x) (rev l).
  Section Queries.
    Context {Q : Type} (iq : interval_code W I Q).
    (** [gaps_no_identifier]  (/repo/src/gqdit/mod.rs:121-138) *)
    Definition gaps_no_identifier_e (t : tree K (list D)) (q : Q) : user W (list K) :=
      do! _ := invalid_interval_panic_e iq q in
      do! o := overlapping_e P ik iq t q in
      uret (map fst (filter (fun kv => bset_is_empty (snd kv)) o)).
    (** One of [non_end_gaps]  (/repo/src/gqdit/mod.rs:182-199) *)
    Definition inner_gap_e (identifier : D) (q : Q) (e : K * list D) : user W (option K) :=
      do! b := valid_identifier_e J shape identifier (snd e) in
      if negb b then uret None
      else
        do! s := e_start iq q in
        do! c := kc (fst e) s in
        if c then uret None
        else do! x := e_end iq q in do! c := kc (fst e) x in uret (if c then None else Some (fst e)).
    (** [gaps_with_identifier]  (/repo/src/gqdit/mod.rs:172-226) *)
    Definition gaps_with_identifier_e (t : tree K (list D)) (identifier : D) (q : Q) : user W (list K) :=
      do! _ := invalid_interval_panic_e iq q in
      do! o := overlapping_e P ik iq t q in
      do! s := e_start iq q in
      do! left_gap := expand_gaps_at_point_left_e t identifier s in
      do! e := e_end iq q in
      do! right_gap := expand_gaps_at_point_right_e t identifier e in
      do! (left_gap, right_gap) :=
        match left_gap, right_gap with
        | Some left_, Some right_ =>
            do! b := overlaps_ordered_e left_ right_ in
            if b then do! m := merge_ordered_e left_ right_ in uret (Some m, None) else uret (left_gap, right_gap)
        | _, _ => uret (left_gap, right_gap)
        end in
      coalesce_e (fun x y =>
          do! b := touches_ordered_e x y in
          if b then do! m := merge_ordered_e x y in uret (Some m) else uret None)
        (map (fun k => uret (Some k)) (opt_list left_gap) ++ map (inner_gap_e identifier q) o ++ map (fun k => uret (Some k)) (opt_list right_gap)).
  End Queries.
  (** [identifiers_at_point]  (/repo/src/gqdit/mod.rs:450-455) *)
  Definition identifiers_at_point_e (t : tree K (list D)) (point : I) : user W (list D) :=
    do! r := get_key_value_at_point_e P ik set_code t point in
    match r with Ok (_, s) => set_clone_e J s | Err _ => uret [] end.

  (** *** Changes.  [T i] are the trees met by the [i]-th method called on the inner map. *)
  Context (overlaps_k : K -> K -> user W bool).
  Notation "'with!' m 'do!' p := x 'in' b" := (mbind m x (fun p => b)) (at level 200, m at level 9, p pattern, x at level 100, b at level 200).
  (** [default]  (/repo/src/gqdit/mod.rs:548-559) *)
  Definition gqdit_new_e (T : nat -> nat -> BTreeMap K (list D) -> tree K (list D)) : user W Gqdit :=
    do! u := ii_e MIN MAX in
    do! k := from u in
    fun w => match insert_strict_e P ik (T 0) k [] new w with
             | ((m, Val (Ok _)), w) => (Val m, w)
             | ((_, _), w) => (Panic, w)
             end.
  (** The loops of [cut_with_identifiers], [cut_all_identifiers] and [insert]
      (/repo/src/gqdit/mod.rs:272-286, 323-337, 389-402); [update] is what is done to the
      identifiers of a piece *)
  Fixpoint reinsert_e (T : nat -> nat -> BTreeMap K (list D) -> tree K (list D)) (update : list D -> user W (list D)) (l : list (K * list D)) (g : Gqdit)
    : changing W K (list D) unit :=
    match l with
    | [] => mret g (Val tt)
    | (k, ids) :: r =>
        with! g do! ids := update ids in
        mthen (insert_merge_touching_if_values_equal_e P ik set_code overlaps_k (T (S (length r))) k ids g) (fun g x =>
        match x with Ok _ => reinsert_e T update r g | Err _ => mret g Panic end)
    end.
  Section Cut.
    Context {Q : Type} (iq : interval_code W I Q) (k_overlaps : K -> Q -> user W bool).
    Definition cut_update_e (T : nat -> nat -> BTreeMap K (list D) -> tree K (list D)) (update : list D -> user W (list D)) (q : Q) (g : Gqdit) : changing W K (list D) unit :=
      mthen (cut_e P ik set_code iq k_overlaps q (T 0 0 g)) (fun g l => reinsert_e T update l g).
    (** [cut_with_identifiers]  (/repo/src/gqdit/mod.rs:259-287) *)
    Definition cut_with_identifiers_e T (identifiers : list D) (q : Q) (g : Gqdit) : changing W K (list D) unit :=
      with! g do! _ := invalid_interval_panic_e iq q in
      if bset_is_empty identifiers then mret g (Val tt) else cut_update_e T (set_remove_e J shape identifiers) q g.
    (** [cut_all_identifiers]  (/repo/src/gqdit/mod.rs:317-338) *)
    Definition cut_all_identifiers_e T (q : Q) (g : Gqdit) : changing W K (list D) unit :=
      with! g do! _ := invalid_interval_panic_e iq q in
      cut_update_e T (fun _ => uret []) q g.
  End Cut.
  (** [insert]  (/repo/src/gqdit/mod.rs:367-403) *)
  Definition extend_cloned_e (identifiers ids : list D) : user W (list D) := do! c := set_clone_e J identifiers in set_extend_e J shape ids c.
  Definition gqdit_insert_e T (identifiers : list D) (interval : K) (g : Gqdit) : changing W K (list D) unit :=
    with! g do! _ := invalid_interval_panic_e ik interval in
    if bset_is_empty identifiers then mret g (Val tt) else cut_update_e ik overlaps_k T (extend_cloned_e identifiers) interval g.
  (** [append]  (/repo/src/gqdit/mod.rs:424-428); [i_overlaps i k] is [i.overlaps(k)] *)
  Fixpoint append_loop_e (T : nat -> nat -> nat -> BTreeMap K (list D) -> tree K (list D)) (l : list (K * list D)) (g : Gqdit) : changing W K (list D) unit :=
    match l with
    | [] => mret g (Val tt)
    | (k, ids) :: r => mthen (gqdit_insert_e (T (length r)) ids k g) (fun g _ => append_loop_e T r g)
    end.
  Definition append_e (i_overlaps : Interval I -> K -> user W bool) (To : BTreeMap K (list D) -> tree K (list D))
    (T : nat -> nat -> nat -> BTreeMap K (list D) -> tree K (list D)) (g other : Gqdit) (w : W) : (Gqdit * Gqdit * outcome unit) * W :=
    match ii_e MIN MAX w with
    | (Panic, w) => ((g, other, Panic), w)
    | (Val u, w) =>
        match remove_overlapping_e P ik crate_interval i_overlaps u (To other) w with
        | ((other, Panic), w) => ((g, other, Panic), w)
        | ((other, Val l), w) => match append_loop_e T l g w with ((g, o), w) => ((g, other, o), w) end
        end
    end.
End Model.
