(** * DebugModel: the texts of the derived [Debug] impls, for [{:?}] and [{:#?}], and the
      vocabulary of C168.  A [Debug] impl of a user is the text it writes; ones that return an
      error or panic are in FmtModel.  No proofs in this file. *)
From Coq Require Import List ZArith Bool Arith String Ascii DecimalString.
From Verif Require Import Base BTree UtilsModel IntervalModel NoditModel NoditSetModel ZosditModel GqditModel InstancesModel.
Import ListNotations.
Open Scope list_scope.

Definition text : Type := list ascii.
Definition txt (s : string) : text := list_ascii_of_string s.
Definition newline : ascii := ascii_of_nat 10.

(** What [{:?}] (for [false]) and [{:#?}] (for [true]) write for a value. *)
Definition debug (A : Type) : Type := bool -> A -> text.

(** ** The helpers of [core::fmt] (dependency, as in the standard library) *)
(** [PadAdapter]: four blanks at the start of every line that has something on it; [nl]: at
    the start of a line. *)
Fixpoint pad (nl : bool) (t : text) : text :=
  match t with
  | [] => []
  | c :: t => (if nl then txt "    " else []) ++ c :: pad (Ascii.eqb c newline) t
  end.
Fixpoint separated_by (sep : text) (ts : list text) : text :=
  match ts with
  | [] => []
  | t :: ts => t ++ match ts with [] => [] | _ => sep ++ separated_by sep ts end
  end.
Definition padded_lines (ts : list text) : text := List.concat (map (fun t => pad true (t ++ txt "," ++ [newline])) ts).
Definition named (name : string) (t : text) : text := txt name ++ txt ": " ++ t.
(** [debug_struct] with at least one field *)
Definition struct_text (alt : bool) (name : string) (fields : list text) : text :=
  if alt then txt name ++ txt " {" ++ [newline] ++ padded_lines fields ++ txt "}"
  else txt name ++ txt " { " ++ separated_by (txt ", ") fields ++ txt " }".
(** [debug_list], [debug_set], [debug_map] *)
Definition group_text (alt : bool) (op cl : ascii) (items : list text) : text :=
  match items with
  | [] => [op; cl]
  | _ => if alt then op :: newline :: padded_lines items ++ [cl] else op :: separated_by (txt ", ") items ++ [cl]
  end.
Definition list_text {A} (d : debug A) (alt : bool) (l : list A) : text := group_text alt "[" "]" (map (d alt) l).
Definition set_text {A} (d : debug A) (alt : bool) (l : list A) : text := group_text alt "{" "}" (map (d alt) l).
Definition entry_text {A B} (da : debug A) (db : debug B) (alt : bool) (e : A * B) : text := da alt (fst e) ++ txt ": " ++ db alt (snd e).
Definition map_text {A B} (da : debug A) (db : debug B) (alt : bool) (l : list (A * B)) : text := group_text alt "{" "}" (map (entry_text da db alt) l).
(** [Debug for Option], [()], integers, [usize], [PhantomData] of the type called [tn] *)
Definition option_debug {A} (d : debug A) : debug (option A) := fun alt o =>
  match o with
  | None => txt "None"
  | Some a => if alt then txt "Some(" ++ [newline] ++ padded_lines [d alt a] ++ txt ")" else txt "Some(" ++ d alt a ++ txt ")"
  end.
Definition unit_debug : debug unit := fun _ _ => txt "()".
Definition int_debug : debug Z := fun _ z => txt (NilZero.string_of_int (Z.to_int z)).
Definition usize_debug : debug nat := fun _ n => txt (NilZero.string_of_uint (Nat.to_uint n)).
Definition point_debug {lo hi} : debug (int lo hi) := fun alt n => int_debug alt (ival n).
Definition phantom_text (tn : text) : text := txt "PhantomData<" ++ tn ++ txt ">".

(** ** The derived impls *)
Section Debug.
  Context {I K V D : Type} (tn : text) (dp : debug I) (dk : debug K) (dv : debug V) (dd : debug D).
  (** [Interval]  (/repo/src/interval.rs:40-46) *)
  Definition interval_debug : debug (Interval I) := fun alt i => struct_text alt "Interval" [named "start" (dp alt (ivl_start i)); named "end" (dp alt (ivl_end i))].
  (** [NoditMap]  (/repo/src/nodit/map.rs:58-62); [BTreeMap] writes its entries in order *)
  Definition nodit_debug : debug (NoditMap K V) := fun alt m => struct_text alt "NoditMap" [named "inner" (map_text dk dv alt m); named "phantom" (phantom_text tn)].
  (** [OverlapError]  (/repo/src/nodit/map.rs:66-70) *)
  Definition overlap_error_debug : debug V := fun alt v => struct_text alt "OverlapError" [named "value" (dv alt v)].
  (** [ZosditMap]  (/repo/src/zosdit/map.rs:61-68) *)
  Definition zosdit_debug : debug (ZosditMap K V) := fun alt z =>
    struct_text alt "ZosditMap" [named "len" (usize_debug alt (z_len z)); named "inner" (map_text dk (list_text dv) alt (z_inner z)); named "phantom" (phantom_text tn)].
  (** [NonZeroOverlapError]  (/repo/src/zosdit/map.rs:72-76) *)
  Definition non_zero_overlap_error_debug : debug V := fun alt v => struct_text alt "NonZeroOverlapError" [named "value" (dv alt v)].
  (** [Config]  (/repo/src/utils.rs:13-22) *)
  Definition config_debug : debug Config := fun _ c =>
    txt match c with
        | LeftFirstNonOverlapping => "LeftFirstNonOverlapping" | LeftFirstPartialOverlap => "LeftFirstPartialOverlap" | LeftContainsRight => "LeftContainsRight"
        | RightFirstNonOverlapping => "RightFirstNonOverlapping" | RightFirstPartialOverlap => "RightFirstPartialOverlap" | RightContainsLeft => "RightContainsLeft"
        end.
End Debug.
(** [NoditSet]  (/repo/src/nodit/set.rs:22-25) *)
Definition nodit_set_debug {K} (tn : text) (dk : debug K) : debug (NoditSet K) := fun alt s => struct_text alt "NoditSet" [named "inner" (nodit_debug tn dk unit_debug alt s)].
(** [Gqdit]  (/repo/src/gqdit/mod.rs:66-69) *)
Definition gqdit_debug {K D} (tn : text) (dk : debug K) (dd : debug D) : debug (Gqdit K D) := fun alt g => struct_text alt "Gqdit" [named "inner" (nodit_debug tn dk (set_text dd) alt g)].
(** [CutResult]  (/repo/src/utils.rs:88-93) *)
Definition cut_result_debug {I} (dp : debug I) : debug (CutResult I) := fun alt r =>
  struct_text alt "CutResult"
    [named "before_cut" (option_debug (interval_debug dp) alt (before_cut r)); named "inside_cut" (option_debug (interval_debug dp) alt (inside_cut r));
     named "after_cut" (option_debug (interval_debug dp) alt (after_cut r))].

(** ** Vocabulary of C168 *)
(** The characters that can follow a value in the texts above. *)
Definition stop_char (c : ascii) : Prop := In c (txt ",: }])").
Definition stops (r : text) : Prop := match r with [] => True | c :: _ => stop_char c end.
(** The text of a value starts with another character, and a reader who sees it followed by
    one of them, or by nothing, knows where it ends and which value it is. *)
Definition delimited {A} (f : A -> text) : Prop :=
  (forall x, match f x with [] => False | c :: _ => ~ stop_char c end) /\
  (forall x y r r', stops r -> stops r' -> f x ++ r = f y ++ r' -> x = y /\ r = r').
(** A text of one line. *)
Definition one_line (t : text) : Prop := ~ In newline t.
