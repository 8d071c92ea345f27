(** * RepoTests: the unit tests and documentation examples of /repo replayed on
      the model.

    Every assertion of every [#[test]] function and of every documentation example
    that asserts something is checked by computation.  None of them is used in
    a proof; they are evidence that the model does what the authors observed the
    code to do.  [.unwrap()] and an assertion [x == y] become [unwrapped] and an
    equation; integer literals without a type are [i32], as in Rust. *)
From Coq Require Import List ZArith Bool.
From Verif Require Import Base BTree UtilsModel IntervalModel NoditModel NoditSetModel ZosditModel GqditModel
  InstancesModel EqModel.
Import ListNotations.
Open Scope Z_scope.

(** A constructor that panics would give an invalid interval here. *)
Definition made {lo hi} `{IntType lo hi} (o : outcome (Interval (int lo hi))) : Interval (int lo hi) :=
  match o with Val i => i | Panic => mkInterval MAX MIN end.
Notation "'uu!'" := (made uu).
Notation "'ui!' b" := (made (ui (lit b))) (at level 10, b at level 9).
Notation "'ue!' b" := (made (ue (lit b))) (at level 10, b at level 9).
Notation "'iu!' a" := (made (iu (lit a))) (at level 10, a at level 9).
Notation "'eu!' a" := (made (eu (lit a))) (at level 10, a at level 9).
Notation "'ii!' a b" := (made (ii (lit a) (lit b))) (at level 10, a at level 9, b at level 9).
Notation "'ie!' a b" := (made (ie (lit a) (lit b))) (at level 10, a at level 9, b at level 9).
Notation "'ei!' a b" := (made (ei (lit a) (lit b))) (at level 10, a at level 9, b at level 9).
Notation "'ee!' a b" := (made (ee (lit a) (lit b))) (at level 10, a at level 9, b at level 9).

(** ** Unit tests of /repo/src/nodit/map.rs:1516-2260, in their order *)
Definition unwrapped {A B} (d : A) (o : outcome (result A B)) : A :=
  match o with Val (Ok a) => a | _ => d end.
Notation map8 := (NoditMap (Interval i8) bool).
Notation slice l := (unwrapped [] (from_slice_strict l)).
Definition basic_slice : list (Interval i8 * bool) :=
  [(ui! 4, false); (ee! 5 7, true); (ii! 7 7, false); (ie! 14 16, true)].
Definition basic : map8 := slice basic_slice.

(** lines 1558-1600 *)
Definition assert_insert_strict (to_insert : Interval i8 * bool) r after : Prop :=
  insert_strict (fst to_insert) (snd to_insert) basic = (slice after, Val r) /\ length (slice after) = length after.
Example insert_strict_tests :
  assert_insert_strict (ii! 0 4, false) (Err false) basic_slice /\
  assert_insert_strict (ii! 5 6, false) (Err false) basic_slice /\
  assert_insert_strict (ii! 4 5, true) (Err true) basic_slice /\
  assert_insert_strict (ei! 4 5, true) (Ok tt)
    [(ui! 4, false); (ei! 4 5, true); (ee! 5 7, true); (ii! 7 7, false); (ie! 14 16, true)].
Proof. vm_compute. repeat split; reflexivity. Qed.

(** helpers, lines 2232-2259 *)
Definition NUMBERS : list Z := [2; 4; 6; 8; 10].
Definition NUMBERS_DOMAIN : list Z := [0; 1; 2; 3; 4; 5; 6; 7; 8; 9; 10; 11].
Definition all_valid_test_bounds : list (Interval i8) :=
  flat_map (fun i => flat_map (fun j => if i <=? j then [mkInterval (lit i) (lit j)] else []) NUMBERS) NUMBERS.
(** (it never panics: [overlaps_tests]) *)
Definition ov (i j : Interval i8) : bool := match overlaps i j with Val b => b | Panic => false end.
Definition all_non_overlapping_test_bound_entries : list (Interval i8 * Interval i8) :=
  flat_map (fun i => flat_map (fun j => if negb (ov i j) then [(i, j)] else []) all_valid_test_bounds)
    all_valid_test_bounds.
Definition same (i j : Interval i8) : bool := eqb (istart i) (istart j) && eqb (iend i) (iend j).
Fixpoint same_list (l l' : list (Interval i8)) : bool :=
  match l, l' with
  | [], [] => true
  | i :: l, j :: l' => same i j && same_list l l'
  | _, _ => false
  end.

(** lines 1602-1676 *)
Definition keys_of (o : outcome (list (Interval i8 * unit))) : option (list (Interval i8)) :=
  match o with Val l => Some (map fst l) | Panic => None end.
Definition gives (o : option (list (Interval i8))) (l : list (Interval i8)) : bool :=
  match o with Some l' => same_list l' l | None => false end.
Definition insert_all (l : list (Interval i8)) : option (NoditMap (Interval i8) unit) :=
  match from_iter_strict (map (fun i => (i, tt)) l) with Val (Ok m) => Some m | _ => None end.
Definition overlapping_is (o : Interval i8) (expected : list (Interval i8)) (l : list (Interval i8)) : bool :=
  match insert_all l with Some m => gives (keys_of (overlapping m o)) expected | None => false end.
Example overlapping_tests :
  forallb (fun o => gives (keys_of (overlapping (new : NoditMap (Interval i8) unit) o)) []) all_valid_test_bounds = true /\
  forallb (fun o => forallb (fun i => overlapping_is o (if ov o i then [i] else []) [i])
    all_valid_test_bounds) all_valid_test_bounds = true /\
  forallb (fun o => forallb (fun ij => let (i, j) := ij : Interval i8 * Interval i8 in
      let e := (if ov o i then [i] else []) ++ (if ov o j then [j] else []) in
      let e := match e with [a; b] => if gtb (istart a) (istart b) then [b; a] else e | _ => e end in
      overlapping_is o e [i; j])
    all_non_overlapping_test_bound_entries) all_valid_test_bounds = true /\
  length all_valid_test_bounds = 15%nat /\ length all_non_overlapping_test_bound_entries = 70%nat.
Proof. vm_compute. repeat split; reflexivity. Qed.

(** lines 1678-1716 *)
Definition assert_remove_overlapping (q : Interval i8) r after : Prop :=
  remove_overlapping q basic = (slice after, Val r) /\ length (slice after) = length after.
Example remove_overlapping_tests :
  assert_remove_overlapping (ii! 5 5) [] basic_slice /\
  assert_remove_overlapping uu! [(ui! 4, false); (ee! 5 7, true); (ii! 7 7, false); (ie! 14 16, true)] [] /\
  assert_remove_overlapping (ii! 6 7) [(ee! 5 7, true); (ii! 7 7, false)] [(ui! 4, false); (ie! 14 16, true)] /\
  assert_remove_overlapping (iu! 6) [(ee! 5 7, true); (ii! 7 7, false); (ie! 14 16, true)] [(ui! 4, false)].
Proof. vm_compute. repeat split; reflexivity. Qed.

(** lines 1718-1763 *)
Definition assert_cut (q : Interval i8) r after : Prop :=
  cut q basic = (slice after, Val r) /\ length (slice after) = length after.
Example cut_tests :
  assert_cut (ii! 50 60) [] [(ui! 4, false); (ee! 5 7, true); (ii! 7 7, false); (ie! 14 16, true)] /\
  assert_cut uu! [(ui! 4, false); (ee! 5 7, true); (ii! 7 7, false); (ie! 14 16, true)] [] /\
  assert_cut (ui! 6) [(ui! 4, false); (ei! 5 6, true)] [(ii! 7 7, false); (ie! 14 16, true)] /\
  assert_cut (iu! 6) [(ie! 6 7, true); (ii! 7 7, false); (ie! 14 16, true)] [(ui! 4, false)].
Proof. vm_compute. repeat split; reflexivity. Qed.

(** lines 1765-1803 *)
Definition assert_gaps_untrimmed (q : Interval i8) r : Prop := gaps_untrimmed basic q = Val r.
Example gaps_untrimmed_tests :
  assert_gaps_untrimmed (ii! 50 60) [iu! 16] /\ assert_gaps_untrimmed (iu! 50) [iu! 16] /\
  assert_gaps_untrimmed (ee! 3 16) [ei! 4 5; ee! 7 14] /\ assert_gaps_untrimmed (ei! 3 16) [ei! 4 5; ee! 7 14; iu! 16] /\
  assert_gaps_untrimmed (ue! 5) [] /\ assert_gaps_untrimmed (ui! 3) [] /\ assert_gaps_untrimmed (ii! 5 5) [ii! 5 5] /\
  assert_gaps_untrimmed (ii! 6 6) [] /\ assert_gaps_untrimmed (ii! 7 7) [] /\ assert_gaps_untrimmed (ii! 8 8) [ii! 8 13] /\
  assert_gaps_untrimmed (ii! (-128) 127) [ei! 4 5; ee! 7 14; ii! 16 127] /\
  gaps_trimmed (slice [(ii! (-128) 127 : Interval i8, false)]) (uu! : Interval i8) = Val [].
Proof. vm_compute. repeat split; reflexivity. Qed.

(** lines 1805-1843 *)
Definition assert_gaps_trimmed (q : Interval i8) r : Prop := gaps_trimmed basic q = Val r.
Example gaps_trimmed_tests :
  assert_gaps_trimmed (ii! 50 60) [ii! 50 60] /\ assert_gaps_trimmed (iu! 50) [iu! 50] /\
  assert_gaps_trimmed (ee! 3 16) [ei! 4 5; ee! 7 14] /\ assert_gaps_trimmed (ei! 3 16) [ei! 4 5; ee! 7 14; ii! 16 16] /\
  assert_gaps_trimmed (ue! 5) [] /\ assert_gaps_trimmed (ui! 3) [] /\ assert_gaps_trimmed (ii! 5 5) [ii! 5 5] /\
  assert_gaps_trimmed (ii! 6 6) [] /\ assert_gaps_trimmed (ii! 7 7) [] /\ assert_gaps_trimmed (ii! 8 8) [ii! 8 8] /\
  assert_gaps_trimmed (ii! (-128) 127) [ei! 4 5; ee! 7 14; ii! 16 127].
Proof. vm_compute. repeat split; reflexivity. Qed.

(** lines 1845-1904 *)
Definition assert_insert_merge_touching (to_insert : Interval i8 * bool) r after : Prop :=
  insert_merge_touching (fst to_insert) (snd to_insert) basic = (slice after, Val r) /\ length (slice after) = length after.
Example insert_merge_touching_tests :
  assert_insert_merge_touching (ii! 0 4, false) (Err false) basic_slice /\
  assert_insert_merge_touching (ee! 7 10, false) (Ok (ie! 7 10))
    [(ui! 4, false); (ee! 5 7, true); (ie! 7 10, false); (ie! 14 16, true)] /\
  assert_insert_merge_touching (ee! 7 11, true) (Ok (ie! 7 11))
    [(ui! 4, false); (ee! 5 7, true); (ie! 7 11, true); (ie! 14 16, true)] /\
  assert_insert_merge_touching (ee! 7 14, false) (Ok (ie! 7 16)) [(ui! 4, false); (ee! 5 7, true); (ie! 7 16, false)].
Proof. vm_compute. repeat split; reflexivity. Qed.

(** lines 1905-1964 *)
Definition assert_if_values_equal (to_insert : Interval i8 * bool) r after : Prop :=
  insert_merge_touching_if_values_equal Bool.eqb (fst to_insert) (snd to_insert) basic = (slice after, Val r) /\
  length (slice after) = length after.
Example insert_merge_touching_if_values_equal_tests :
  assert_if_values_equal (ii! 0 4, false) (Err false) basic_slice /\
  assert_if_values_equal (ee! 7 10, false) (Ok (ie! 7 10))
    [(ui! 4, false); (ee! 5 7, true); (ie! 7 10, false); (ie! 14 16, true)] /\
  assert_if_values_equal (ee! 7 11, true) (Ok (ee! 7 11))
    [(ui! 4, false); (ee! 5 7, true); (ii! 7 7, false); (ee! 7 11, true); (ie! 14 16, true)] /\
  assert_if_values_equal (ee! 7 14, false) (Ok (ie! 7 14))
    [(ui! 4, false); (ee! 5 7, true); (ie! 7 14, false); (ie! 14 16, true)].
Proof. vm_compute. repeat split; reflexivity. Qed.

(** lines 1966-2025 *)
Definition assert_insert_merge_overlapping (to_insert : Interval i8 * bool) r after : Prop :=
  insert_merge_overlapping (fst to_insert) (snd to_insert) basic = (slice after, Val r) /\
  length (slice after) = length after.
Example insert_merge_overlapping_tests :
  assert_insert_merge_overlapping (ii! 0 2, true) (ui! 4)
    [(ui! 4, true); (ee! 5 7, true); (ii! 7 7, false); (ie! 14 16, true)] /\
  assert_insert_merge_overlapping (ie! 14 16, false) (ie! 14 16)
    [(ui! 4, false); (ee! 5 7, true); (ii! 7 7, false); (ie! 14 16, false)] /\
  assert_insert_merge_overlapping (ii! 6 11, false) (ei! 5 11) [(ui! 4, false); (ei! 5 11, false); (ie! 14 16, true)] /\
  assert_insert_merge_overlapping (ii! 15 18, true) (ii! 14 18)
    [(ui! 4, false); (ee! 5 7, true); (ii! 7 7, false); (ii! 14 18, true)] /\
  assert_insert_merge_overlapping (uu!, false) uu! [(uu!, false)].
Proof. vm_compute. repeat split; reflexivity. Qed.

(** lines 2027-2100 *)
Definition assert_touching_or_overlapping (before : map8) (to_insert : Interval i8 * bool) r after : Prop :=
  insert_merge_touching_or_overlapping (fst to_insert) (snd to_insert) before = (slice after, Val r) /\
  length (slice after) = length after.
Example insert_merge_touching_or_overlapping_tests :
  assert_touching_or_overlapping (slice [(ie! 1 4, false)]) (ie! 0 1, true) (ie! 0 4) [(ie! 0 4, true)] /\
  assert_touching_or_overlapping basic (ii! 0 2, true) (ui! 4)
    [(ui! 4, true); (ee! 5 7, true); (ii! 7 7, false); (ie! 14 16, true)] /\
  assert_touching_or_overlapping basic (ie! 14 16, false) (ie! 14 16)
    [(ui! 4, false); (ee! 5 7, true); (ii! 7 7, false); (ie! 14 16, false)] /\
  assert_touching_or_overlapping basic (ii! 6 11, false) (ei! 5 11) [(ui! 4, false); (ei! 5 11, false); (ie! 14 16, true)] /\
  assert_touching_or_overlapping basic (ii! 15 18, true) (ii! 14 18)
    [(ui! 4, false); (ee! 5 7, true); (ii! 7 7, false); (ii! 14 18, true)] /\
  assert_touching_or_overlapping basic (uu!, false) uu! [(uu!, false)] /\
  assert_touching_or_overlapping basic (ii! 7 14, false) (ee! 5 16) [(ui! 4, false); (ee! 5 16, false)].
Proof. vm_compute. repeat split; reflexivity. Qed.

(** lines 2102-2118 *)
Notation ie32 a b := (made (ie (lit a) (lit b)) : Interval i32).
Example config_tests :
  config (ie32 1 4) (ie32 6 8) = Val LeftFirstNonOverlapping /\ config (ie32 1 4) (ie32 2 8) = Val LeftFirstPartialOverlap /\
  config (ie32 1 4) (ie32 2 3) = Val LeftContainsRight /\ config (ie32 6 8) (ie32 1 4) = Val RightFirstNonOverlapping /\
  config (ie32 2 8) (ie32 1 4) = Val RightFirstPartialOverlap /\ config (ie32 2 3) (ie32 1 4) = Val RightContainsLeft.
Proof. vm_compute. repeat split; reflexivity. Qed.

(** lines 2120-2140 *)
Example overlaps_tests :
  forallb (fun i => forallb (fun j => match overlaps i j with
      | Val our_answer => Bool.eqb our_answer
          (existsb (fun x => utils_contains_point i (lit x) && utils_contains_point j (lit x)) NUMBERS_DOMAIN)
      | Panic => false
      end)
    all_valid_test_bounds) all_valid_test_bounds = true.
Proof. vm_compute. reflexivity. Qed.

(** lines 2142-2191 *)
Definition con (x : option (Interval i8)) (p : i8) : bool :=
  match x with Some y => utils_contains_point y p | None => false end.
Fixpoint cut_invariant (base cut : Interval i8) (r : CutResult i8) (on_left : bool) (l : list Z) : bool :=
  match l with
  | [] => true
  | z :: l =>
      let x := lit z : i8 in
      let b := con (before_cut r) x in
      let i := con (inside_cut r) x in
      let a := con (after_cut r) x in
      let cut_contains := utils_contains_point cut x in
      let on_left := if cut_contains then false else on_left in
      match utils_contains_point base x, cut_contains with
      | false, _ => negb b && negb i && negb a
      | true, false => if on_left then b && negb i && negb a else negb b && negb i && a
      | true, true => negb b && i && negb a
      end && cut_invariant base cut r on_left l
  end.
Example cut_interval_tests :
  forallb (fun base => forallb (fun cut =>
      match cut_interval base cut with
      | Val r => cut_invariant base cut r true NUMBERS_DOMAIN
      | Panic => false
      end) all_valid_test_bounds) all_valid_test_bounds = true.
Proof. vm_compute. reflexivity. Qed.

(** lines 2192-2218 *)
Definition all_valid (r : outcome (CutResult i32)) : bool :=
  let ok := fun o : option (Interval i32) => match o with Some x => is_valid x | None => true end in
  match r with Val r => ok (before_cut r) && ok (inside_cut r) && ok (after_cut r) | Panic => false end.
Example cut_interval_should_return_valid_intervals :
  all_valid (cut_interval (ie32 3 8) (ie32 5 8)) = true /\ all_valid (cut_interval (ie32 3 8) (ie32 3 5)) = true.
Proof. vm_compute. split; reflexivity. Qed.

(** lines 2220-2230 *)
Example test_intersection :
  let input : Interval i32 := 5 --> 10 in
  intersection input (8 --> 13 : Interval i32) = Some (8 --> 10) /\
  intersection input (10 --> 13 : Interval i32) = Some (10 --> 10) /\
  intersection input (11 --> 13 : Interval i32) = None.
Proof. vm_compute. repeat split; reflexivity. Qed.
Example test_translate :
  let input : Interval i32 := 5 --> 10 in
  translate add_debug input ('3 : i32) = Val (8 --> 13) /\ translate add_debug input ('(-2) : i32) = Val (3 --> 8).
Proof. vm_compute. repeat split; reflexivity. Qed.

(** ** Unit tests of /repo/src/zosdit/map.rs:722-837 *)
Notation zmap := (ZosditMap (Interval i32) unit).
Notation zslice l := (unwrapped z_new (from_slice_strict_back l)).
(** lines 734-774 *)
Definition is_zero_overlap_is (c : (Z * Z) * list (Z * Z) * bool) : bool :=
  let '((s, e), l, expected) := c in
  match from_iter_strict_back (map (fun se => (ii! (fst se) (snd se) : Interval i32, tt)) l) with
  | Val (Ok z) => match is_zero_overlap z (ii! s e : Interval i32) with Val b => Bool.eqb b expected | Panic => false end
  | _ => false
  end.
Example is_nonzero_overlap_tests : forallb is_zero_overlap_is
  [((4, 10), [], true); ((4, 10), [(3, 5)], false); ((4, 10), [(3, 11)], false); ((4, 10), [(3, 4)], true);
   ((4, 10), [(4, 5)], false); ((4, 10), [(10, 11)], true); ((4, 10), [(9, 10)], false); ((4, 10), [(3, 11)], false);
   ((4, 10), [(4, 10)], false); ((4, 10), [(5, 9)], false); ((4, 10), [(3, 5); (9, 11)], false);
   ((4, 10), [(4, 5); (9, 10)], false); ((4, 10), [(3, 4); (10, 11)], true);
   ((4, 4), [(3, 3)], true); ((4, 4), [(4, 4)], true); ((4, 4), [(5, 5)], true); ((4, 4), [(3, 4)], true);
   ((4, 4), [(4, 5)], true); ((4, 4), [(3, 5)], false)] = true.
Proof. vm_compute. reflexivity. Qed.
(** lines 776-789 *)
Example insert_strict_back_tests :
  let map0 := z_new : ZosditMap (Interval u8) i8 in
  let (map1, r1) := insert_strict_back (ii! 0 0) ('(-8) : i8) map0 in
  let (map2, r2) := insert_strict_back (ii! 0 255) ('(-4) : i8) map1 in
  let (map3, _) := insert_strict_back (ii! 9 10) ('(-4) : i8) map2 in
  zosdit_len map0 = 0%nat /\ r1 = Val (Ok tt) /\ zosdit_len map1 = 1%nat /\
  r2 = Val (Ok tt) /\ zosdit_len map2 = 2%nat /\ zosdit_len map3 = 2%nat.
Proof. vm_compute. repeat split; reflexivity. Qed.
(** lines 791-806 *)
Example get_last_value_at_point_tests :
  let map := zslice [(ii! 0 4, '(-1)); (ii! 4 8, '(-2)); (ii! 8 255, '(-3))] : ZosditMap (Interval u8) i8 in
  zosdit_len map = 3%nat /\
  get_last_value_at_point map ('0 : u8) = Some '(-1) /\ get_last_value_at_point map ('2 : u8) = Some '(-1) /\
  get_last_value_at_point map ('4 : u8) = Some '(-2) /\ get_last_value_at_point map ('6 : u8) = Some '(-2) /\
  get_last_value_at_point map ('8 : u8) = Some '(-3) /\ get_last_value_at_point map ('10 : u8) = Some '(-3) /\
  get_last_value_at_point map ('255 : u8) = Some '(-3).
Proof. vm_compute. repeat split; reflexivity. Qed.
(** lines 808-836 *)
Example zosdit_cut_tests :
  let map := zslice [(ii! 0 0, '(-8)); (ii! 0 255, '(-4))] : ZosditMap (Interval u8) i8 in
  let (after, cut) := zosdit_cut (ii! 0 255 : Interval u8) map in
  zosdit_len map = 2%nat /\ zosdit_iter map = [(ii! 0 0, '(-8)); (ii! 0 255, '(-4))] /\
  zosdit_len after = 0%nat /\ zosdit_iter after = [] /\ cut = Val [(ii! 0 0, '(-8)); (ii! 0 255, '(-4))].
Proof. vm_compute. repeat split; reflexivity. Qed.

(** ** Documentation examples of /repo/src/nodit/map.rs *)
Notation m32 := (NoditMap (Interval i32) bool).
Definition docmap : m32 := slice [(ie! 1 4, false); (ie! 4 8, true); (ie! 8 100, false)].
Definition gapmap : m32 := slice [(ie! 1 3, false); (ie! 5 7, true); (ie! 9 100, false)].
Definition twomap : m32 := slice [(ie! 1 4, false); (ie! 6 8, true)].
(** lines 32-54 *)
Example doc_NoditMap :
  let map := slice [(ie! 4 8, false); (ie! 8 18, true); (ie! 20 100, false)] : m32 in
  let (map, r) := get_at_point_mut (fun _ => true) ('7 : i32) map in
  r <> None /\ map_contains_point map ('99 : i32) = Val true /\
  iter map = [(ie! 4 8, true); (ie! 8 18, true); (ie! 20 100, false)].
Proof. vm_compute. repeat split; (reflexivity || discriminate). Qed.
(** lines 102-114 *)
Example doc_overlaps :
  let map := fst (insert_strict (ie! 5 10) false new) : m32 in
  map_overlaps map (ii! 1 3 : Interval i32) = Val false /\ map_overlaps map (ie! 4 5 : Interval i32) = Val false /\
  map_overlaps map (ii! 4 5 : Interval i32) = Val true /\ map_overlaps map (ie! 4 6 : Interval i32) = Val true.
Proof. vm_compute. repeat split; reflexivity. Qed.
(** lines 135-151, 180-197 *)
Example doc_overlapping :
  overlapping docmap (ie! 2 8 : Interval i32) = Val [(ie! 1 4, false); (ie! 4 8, true)] /\
  overlapping_mut (fun k _ => if interval_eqb eqb k (ie! 4 8) then false else true) (ie! 3 7 : Interval i32) docmap =
    ([(ie! 1 4, true); (ie! 4 8, false); (ie! 8 100, false)], Val tt).
Proof. vm_compute. repeat split; reflexivity. Qed.
(** lines 220-308 *)
Example doc_point_queries :
  get_at_point docmap ('3 : i32) = Val (Some false) /\ get_at_point docmap ('4 : i32) = Val (Some true) /\
  get_at_point docmap ('101 : i32) = Val None /\
  (let map := slice [(ie! 1 4, false)] : m32 in
   get_at_point (fst (get_at_point_mut (fun _ => true) ('2 : i32) map)) ('1 : i32) = Val (Some true)) /\
  map_contains_point docmap ('3 : i32) = Val true /\ map_contains_point docmap ('4 : i32) = Val true /\
  map_contains_point docmap ('101 : i32) = Val false /\
  (let map := slice [(ie! 1 4, false); (ie! 4 6, true); (ie! 8 100, false)] : m32 in
   get_key_value_at_point map ('3 : i32) = Val (Ok (ie! 1 4, false)) /\
   get_key_value_at_point map ('5 : i32) = Val (Ok (ie! 4 6, true)) /\
   get_key_value_at_point map ('7 : i32) = Val (Err (ie! 6 8)) /\
   get_key_value_at_point map ('101 : i32) = Val (Err (iu! 100))).
Proof. vm_compute. repeat split; reflexivity. Qed.
(** lines 343-428 *)
Example doc_removals :
  remove_overlapping (ie! 2 8 : Interval i32) docmap =
    ([(ie! 8 100, false)], Val [(ie! 1 4, false); (ie! 4 8, true)]) /\
  cut (ie! 2 40 : Interval i32) docmap =
    (slice [(ie! 1 2, false); (ie! 40 100, false)], Val [(ie! 2 4, false); (ie! 4 8, true); (ie! 8 40, false)]).
Proof. vm_compute. repeat split; reflexivity. Qed.
(** lines 479-583, 663-676 *)
Example doc_gaps :
  gaps_untrimmed gapmap (ii! 4 120 : Interval i32) = Val [ie! 3 5; ie! 7 9; iu! 100] /\
  gaps_trimmed gapmap (ii! 4 120 : Interval i32) = Val [ie! 4 5; ie! 7 9; ii! 100 120] /\
  (let map := slice [(ie! 1 3, false); (ie! 5 8, true); (ie! 8 100, false)] : m32 in
   map_contains_interval map (ie! 1 3 : Interval i32) = Val true /\
   map_contains_interval map (ie! 2 6 : Interval i32) = Val false /\
   map_contains_interval map (ie! 6 100 : Interval i32) = Val true).
Proof. vm_compute. repeat split; reflexivity. Qed.
(** lines 701-712 *)
Example doc_insert_strict :
  let (map1, r1) := insert_strict (ie! 5 10) 9 (new : NoditMap (Interval i32) Z) in
  let (map2, r2) := insert_strict (ie! 5 10) 2 map1 in
  r1 = Val (Ok tt) /\ r2 = Val (Err 2) /\ len map2 = 1%nat.
Proof. vm_compute. repeat split; reflexivity. Qed.
(** lines 799-830 *)
Example doc_insert_merge_touching :
  let (map, r1) := insert_merge_touching (ie! 4 6) true twomap in
  let (map, r2) := insert_merge_touching (ie! 4 8) false map in
  let (map, r3) := insert_merge_touching (ie! 10 16) false map in
  r1 = Val (Ok (ie! 1 8)) /\ r2 = Val (Err false) /\ r3 = Val (Ok (ie! 10 16)) /\
  into_iter map = [(ie! 1 8, true); (ie! 10 16, false)].
Proof. vm_compute. repeat split; reflexivity. Qed.
(** lines 887-918 *)
Example doc_insert_merge_touching_if_values_equal :
  let (map, r1) := insert_merge_touching_if_values_equal Bool.eqb (ie! 4 6) true twomap in
  let (map, r2) := insert_merge_touching_if_values_equal Bool.eqb (ie! 4 8) false map in
  let (map, r3) := insert_merge_touching_if_values_equal Bool.eqb (ie! 10 16) false map in
  r1 = Val (Ok (ie! 4 8)) /\ r2 = Val (Err false) /\ r3 = Val (Ok (ie! 10 16)) /\
  into_iter map = [(ie! 1 4, false); (ie! 4 8, true); (ie! 10 16, false)].
Proof. vm_compute. repeat split; reflexivity. Qed.
(** lines 988-1019 *)
Example doc_insert_merge_overlapping :
  let (map, r1) := insert_merge_overlapping (ie! 4 6) true twomap in
  let (map, r2) := insert_merge_overlapping (ie! 4 8) false map in
  let (map, r3) := insert_merge_overlapping (ie! 10 16) false map in
  r1 = Val (ie! 4 6) /\ r2 = Val (ie! 4 8) /\ r3 = Val (ie! 10 16) /\
  into_iter map = [(ie! 1 4, false); (ie! 4 8, false); (ie! 10 16, false)].
Proof. vm_compute. repeat split; reflexivity. Qed.
(** lines 1061-1092 *)
Example doc_insert_merge_touching_or_overlapping :
  let (map, r1) := insert_merge_touching_or_overlapping (ie! 4 6) true twomap in
  let (map, r2) := insert_merge_touching_or_overlapping (ie! 4 8) false map in
  let (map, r3) := insert_merge_touching_or_overlapping (ie! 10 16) false map in
  r1 = Val (ie! 1 8) /\ r2 = Val (ie! 1 8) /\ r3 = Val (ie! 10 16) /\
  into_iter map = [(ie! 1 8, false); (ie! 10 16, false)].
Proof. vm_compute. repeat split; reflexivity. Qed.
(** lines 1152-1164 *)
Example doc_insert_overwrite :
  into_iter (fst (insert_overwrite (ie! 4 6) true (slice [(ie! 2 8, false)] : m32))) =
    [(ie! 2 4, false); (ie! 4 6, true); (ie! 6 8, false)].
Proof. vm_compute. reflexivity. Qed.
(** lines 1195-1237 *)
Example doc_from_iter_strict :
  from_slice_strict [(ie! 1 4 : Interval i32, false); (ie! 4 8, true); (ie! 8 100, false)] = Val (Ok docmap) /\
  from_iter_strict (filter (fun e => gtb (istart (fst e)) ('2 : i32)) docmap) = Val (Ok [(ie! 4 8, true); (ie! 8 100, false)]).
Proof. vm_compute. repeat split; reflexivity. Qed.
(** lines 1254-1390 *)
Example doc_rest :
  let map0 := new : m32 in
  let (map1, r) := insert_strict (ie! 0 1) false map0 in
  len map0 = 0%nat /\ is_empty map0 = true /\ r = Val (Ok tt) /\ len map1 = 1%nat /\ is_empty map1 = false /\
  iter docmap = [(ie! 1 4, false); (ie! 4 8, true); (ie! 8 100, false)] /\
  iter_mut (fun k _ => if interval_eqb eqb k (ie! 4 8) then false else true) docmap =
    [(ie! 1 4, true); (ie! 4 8, false); (ie! 8 100, true)] /\
  first_key_value docmap = Some (ie! 1 4, false) /\ last_key_value docmap = Some (ie! 8 100, false).
Proof. vm_compute. repeat split; reflexivity. Qed.

(** ** Documentation examples of /repo/src/interval.rs *)
(** lines 26-67 *)
Example doc_Interval :
  (ii! 4 4 : Interval i32) = ee! 3 5 /\ ee ('4 : i32) '4 = Panic /\
  ivl_start (ii! 2 4 : Interval i32) = '2 /\ ivl_end (ii! 2 4 : Interval i32) = '4.
Proof. vm_compute. repeat split; reflexivity. Qed.
(** lines 136-366: no constructor panics, and the two intervals of each pair differ *)
Definition differ (a b : outcome (Interval i32)) : bool :=
  match a, b with Val a, Val b => negb (interval_eqb eqb a b) | _, _ => false end.
Example doc_constructors :
  (uu : outcome (Interval u8)) = Val (0 --> 255) /\
  differ (ui '1) (ui '4) = true /\ differ (ue '1) (ue '4) = true /\ differ (iu '1) (iu '4) = true /\
  differ (eu '1) (eu '4) = true /\ differ (ii '0 '4) (ii '2 '6) = true /\ differ (ie '0 '4) (ie '2 '6) = true /\
  differ (ei '0 '4) (ei '2 '6) = true /\ differ (ee '0 '4) (ee '2 '6) = true.
Proof. vm_compute. repeat split; reflexivity. Qed.
(** lines 387-524 *)
Notation i32i a b := (made (ii (lit a) (lit b)) : Interval i32).
Example doc_InclusiveInterval :
  istart (i32i 3 4) = '3 /\ istart (i32i 4 5) = '4 /\ istart (ie32 5 6) = '5 /\
  iend (i32i 3 4) = '4 /\ iend (i32i 4 5) = '5 /\ iend (ei! 5 6 : Interval i32) = '6 /\
  contains_point (i32i 4 5) '3 = false /\ contains_point (i32i 4 5) '4 = true /\
  contains_point (i32i 4 5) '5 = true /\ contains_point (i32i 4 5) '6 = false /\
  contains_interval (i32i 4 5) (i32i 4 4) = true /\ contains_interval (i32i 4 5) (i32i 5 5) = true /\
  contains_interval (i32i 4 5) (i32i 4 6) = false /\ contains_interval (i32i 4 5) (i32i 4 5) = true /\
  is_valid (i32i 4 4) = true /\ is_valid (i32i 4 5) = true /\ is_valid (ie32 4 5) = true /\
  is_singular (i32i 4 4) = true /\ is_singular (i32i 4 5) = false /\ is_singular (ie32 4 5) = true /\
  intersection (i32i 4 6) (ie32 6 8) = Some (i32i 6 6) /\ intersection (i32i 4 6) (ee! 6 8 : Interval i32) = None /\
  overlaps (i32i 4 6) (i32i 6 8) = Val true /\ overlaps (i32i 4 6) (i32i 8 10) = Val false.
Proof. vm_compute. repeat split; reflexivity. Qed.
(** lines 540-569 *)
Example doc_translate_width :
  translate add_debug (i32i 4 6) '8 = Val (i32i 12 14) /\
  translate add_debug (ee! 4 6 : Interval i32) ('(-4) : i32) = Val (ee! 0 2) /\
  width sub_debug (i32i 4 6) = Val '2 /\ width sub_debug (ie32 4 6) = Val '1 /\
  width sub_debug (ei! 4 6 : Interval i32) = Val '1 /\ width sub_debug (ee! 4 6 : Interval i32) = Val '0.
Proof. vm_compute. repeat split; reflexivity. Qed.

(** ** Documentation examples of /repo/src/zosdit/map.rs *)
Notation z32 := (ZosditMap (Interval i32) Z).
(** lines 107-147 *)
Example doc_first_last :
  let map := zslice [(ii! 0 4, -2); (ii! 4 4, -4); (ii! 4 4, -8)] : z32 in
  zosdit_first_key_value map = Some (ii! 0 4, -2) /\ zosdit_last_key_value map = Some (ii! 4 4, -8).
Proof. vm_compute. repeat split; reflexivity. Qed.
(** lines 160-221 *)
Example doc_last_value :
  let map := zslice [(ii! 0 4, -2); (ii! 4 4, -4); (ii! 4 4, -8); (ii! 4 8, -10)] : z32 in
  let get := fun map p => get_last_value_at_point (map : z32) (p : i32) in
  let (map1, r1) := remove_last_value_at_point ('4 : i32) map in
  let (map2, r2) := remove_last_value_at_point ('4 : i32) map1 in
  let (map3, r3) := remove_last_value_at_point ('4 : i32) map2 in
  let (map4, r4) := remove_last_value_at_point ('4 : i32) map3 in
  let (map5, r5) := remove_last_value_at_point ('4 : i32) map4 in
  get map '0 = Some (-2) /\ get map '4 = Some (-10) /\ get map '10 = None /\
  r1 = Val (Some (-10)) /\ get map1 '4 = Some (-8) /\ r2 = Val (Some (-8)) /\ get map2 '4 = Some (-4) /\
  r3 = Val (Some (-4)) /\ get map3 '4 = Some (-2) /\ r4 = Val (Some (-2)) /\ get map4 '4 = None /\ r5 = Val None.
Proof. vm_compute. repeat split; reflexivity. Qed.
(** lines 264-277, 335-352 *)
Example doc_insert_strict_back :
  let (map, r1) := insert_strict_back (ii! 0 10) (-2) (z_new : z32) in
  let (map, r2) := insert_strict_back (ii! 10 10) (-4) map in
  let (map, r3) := insert_strict_back (ii! 10 10) (-6) map in
  let zero := fun a b => is_zero_overlap map (i32i a b) in
  r1 = Val (Ok tt) /\ r2 = Val (Ok tt) /\ r3 = Val (Ok tt) /\
  zosdit_into_iter map = [(ii! 0 10, -2); (ii! 10 10, -4); (ii! 10 10, -6)] /\
  zero 0 0 = Val true /\ zero 10 10 = Val true /\ zero 10 12 = Val true /\
  zero 0 2 = Val false /\ zero 4 4 = Val false /\ zero 4 12 = Val false.
Proof. vm_compute. repeat split; reflexivity. Qed.
(** lines 387-417 *)
Example doc_zosdit_cut :
  let base := zslice [(ii! 0 4, -2); (ii! 4 4, -4); (ii! 4 4, -6); (ii! 4 8, -8)] : z32 in
  let (after, cut) := zosdit_cut (ee! 2 6 : Interval i32) base in
  zosdit_len base = 4%nat /\ cut = Val [(ii! 3 4, -2); (ii! 4 4, -4); (ii! 4 4, -6); (ii! 4 5, -8)] /\
  zosdit_len after = 2%nat /\
  zosdit_eqb (interval_eqb eqb) Z.eqb after (zslice [(ii! 0 2, -2); (ii! 6 8, -8)]) = true.
Proof. vm_compute. repeat split; reflexivity. Qed.
(** lines 478-539 *)
Example doc_zosdit_overlapping :
  let base := zslice [(ii! 0 4, -2); (ii! 4 4, -4); (ii! 4 4, -6); (ii! 4 8, -8); (ii! 8 12, -10)] : z32 in
  zosdit_overlapping base (i32i 4 4) = Val [(ii! 0 4, -2); (ii! 4 4, -4); (ii! 4 4, -6); (ii! 4 8, -8)] /\
  zosdit_iter (zslice [(ie! 1 4, -2); (ie! 4 8, -4); (ie! 8 100, -6)] : z32) =
    [(ie! 1 4, -2); (ie! 4 8, -4); (ie! 8 100, -6)].
Proof. vm_compute. repeat split; reflexivity. Qed.

(** ** Documentation examples of /repo/src/gqdit/mod.rs *)
Definition ginsert {lo hi} `{IntType lo hi} (ids : list Z) (a b : Z) (g : Gqdit (Interval (int lo hi)) u8)
  : Gqdit (Interval (int lo hi)) u8 := fst (gqdit_insert (map lit ids) (mkInterval (lit a) (lit b)) g).
Definition gdoc {lo hi} `{IntType lo hi} : Gqdit (Interval (int lo hi)) u8 :=
  match gqdit_new with Val g => ginsert [4] 10 40 (ginsert [2] 2 6 (ginsert [0] 0 4 g)) | Panic => [] end.
(** lines 49-64, 104-119, 155-170, 234-251 *)
Notation g32 := (gdoc : Gqdit (Interval i32) u8).
Example doc_gqdit :
  length (gdoc : Gqdit (Interval i32) u8) = 7%nat /\
  gaps_no_identifier g32 (i32i 0 100) = Val [ii! 7 9; iu! 41] /\
  gaps_with_identifier g32 '2 (i32i 0 100) = Val [ii! 5 9; iu! 41] /\
  gaps_no_identifier (fst (cut_with_identifiers ['2; '4] (i32i 0 20) g32)) (i32i 0 100) = Val [ii! 5 20; iu! 41].
Proof. vm_compute. repeat split; reflexivity. Qed.
(** lines 292-309 *)
Example doc_cut_all :
  gaps_no_identifier (fst (cut_all_identifiers (ii! 0 20 : Interval u8) (gdoc : Gqdit (Interval u8) u8)))
    (ii! 0 100 : Interval u8) = Val [ii! 0 20; iu! 41].
Proof. vm_compute. reflexivity. Qed.
(** lines 408-448 *)
Example doc_append_points :
  match (gqdit_new : outcome (Gqdit (Interval i32) u8)) with
  | Val g0 =>
      let '(map, _, r) := append (ginsert [0] 0 4 g0) (ginsert [0] 6 10 g0) in
      let map2 := ginsert [1] 4 8 (ginsert [0] 2 6 g0) in
      r = Val tt /\ gaps_no_identifier map (i32i 0 10) = Val [ii! 5 5] /\
      identifiers_at_point map2 '0 = Val [] /\ identifiers_at_point map2 '2 = Val ['0] /\
      identifiers_at_point map2 '5 = Val ['0; '1] /\ identifiers_at_point map2 '8 = Val ['1] /\
      identifiers_at_point map2 '10 = Val []
  | Panic => False
  end.
Proof. vm_compute. repeat split; reflexivity. Qed.

(** ** Examples of /repo/README.md *)
(** lines 38-51 *)
Example readme_ie :
  let map := fst (insert_strict (ie! 5 10) false (fst (insert_strict (ie! 0 5) true (new : m32)))) in
  map_overlaps map (ie32 (-2) 12) = Val true /\ map_contains_point map ('20 : i32) = Val false /\
  map_contains_point map ('5 : i32) = Val true.
Proof. vm_compute. repeat split; reflexivity. Qed.
(** lines 53-121 *)
Example readme_reservation :
  match from_slice_strict [(ResFinite '10 '20, 1); (ResInfinite '21, 2)] with
  | Val (Ok map) =>
      overlapping map (ie! 16 17 : Interval i8) = Val [(ResFinite '10 '20, 1)] /\
      iter map = [(ResFinite '10 '20, 1); (ResInfinite '21, 2)] /\ map_overlaps map (ResInfinite '0) = Val true
  | _ => False
  end.
Proof. vm_compute. repeat split; reflexivity. Qed.
(** lines 155-249 *)
Example readme_with_infinity :
  get_key_value_at_point (new : NoditMap (Interval (WithInfinity u8)) bool) (Finite '4) =
    match uu with Val u => Val (Err u) | Panic => Panic end.
Proof. vm_compute. reflexivity. Qed.
