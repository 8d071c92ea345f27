(** * PaddingModel: the derived [Debug] impls with every option of [core::fmt]: fill, alignment,
      [+], [#], [0], width, precision, [x] and [X], and the vocabulary of C179.  As in OptionsModel
      the options reach the impls of the fields and nothing else; a fill is one of the characters
      of our texts.  No proofs in this file. *)
From Coq Require Import String Ascii Bool Arith ZArith List.
From Verif Require Import Base BTree UtilsModel IntervalModel NoditModel NoditSetModel ZosditModel GqditModel InstancesModel DebugModel OptionsModel.
Import ListNotations.
Open Scope list_scope.

Inductive alignment : Type := ALeft | ACenter | ARight.
(** [{:fill align + # 0 width . precision x ?}]; the fill is a blank if none is written, and
    [f_width = 0] is no width. *)
Record format : Type := mkFormat {
  f_fill : ascii; f_align : option alignment; f_plus : bool; f_zero : bool; f_width : nat; f_precision : option nat; f_radix : radix }.

(** ** [Debug] of the types of [core] (dependency, as in the standard library) *)
(** [Formatter::padding]: what comes before and after *)
Definition padding (f : format) (default : alignment) (n : nat) (t : text) : text :=
  let before := match match f_align f with Some a => a | None => default end with ALeft => 0%nat | ARight => n | ACenter => Nat.div2 n end in
  repeat (f_fill f) before ++ t ++ repeat (f_fill f) (n - before)%nat.
(** [Formatter::pad_integral] *)
Definition pad_number (f : format) (alt neg : bool) (digits : text) : text :=
  let sign := if neg then txt "-" else if f_plus f then txt "+" else [] in
  let prefix := match f_radix f with RDec => [] | _ => if alt then txt "0x" else [] end in
  let missing := (f_width f - (List.length sign + List.length prefix + List.length digits))%nat in
  if f_zero f then sign ++ prefix ++ repeat "0"%char missing ++ digits else padding f ARight missing (sign ++ prefix ++ digits).
(** [Formatter::pad] *)
Definition pad_str (f : format) (t : text) : text :=
  let t := match f_precision f with Some n => firstn n t | None => t end in
  padding f ALeft (f_width f - List.length t)%nat t.
Definition usize_debug_f (f : format) : debug nat := fun alt n => pad_number f alt false (nat_digits (f_radix f) n).
Definition point_debug_f (f : format) {lo hi} : debug (int lo hi) := fun alt p =>
  match f_radix f with
  | RDec => pad_number f alt (ival p <? 0)%Z (Z_digits RDec (Z.abs (ival p)))
  | r => pad_number f alt false (Z_digits r (if (ival p <? 0)%Z then (ival p + (hi - lo + 1))%Z else ival p))
  end.
Definition unit_debug_f (f : format) : debug unit := fun _ _ => pad_str f (txt "()").

(** ** The derived impls with fields whose impls look at the options (the others: DebugModel) *)
(** [NoditSet]  (/repo/src/nodit/set.rs:22-25) *)
Definition nodit_set_debug_f (f : format) {K} (tn : text) (dk : debug K) : debug (NoditSet K) := fun alt s =>
  struct_text alt "NoditSet" [named "inner" (nodit_debug tn dk (unit_debug_f f) alt s)].
(** [ZosditMap]  (/repo/src/zosdit/map.rs:61-68) *)
Definition zosdit_debug_f (f : format) {K V} (tn : text) (dk : debug K) (dv : debug V) : debug (ZosditMap K V) := fun alt z =>
  struct_text alt "ZosditMap" [named "len" (usize_debug_f f alt (z_len z)); named "inner" (map_text dk (list_text dv) alt (z_inner z)); named "phantom" (phantom_text tn)].

(** ** Spec *)
(** A character that can be part of a number. *)
Definition number_char (c : ascii) : Prop := In c (txt "0123456789abcdefABCDEFx+-").
(** The second half of [delimited]: a reader who sees the text of a value followed by one of the
    characters [stop_char], or by nothing, knows where it ends and which value it is. *)
Definition apart {A} (d : A -> text) : Prop := forall x y r r', stops r -> stops r' -> d x ++ r = d y ++ r' -> x = y /\ r = r'.
(** Such a text that also does not start like the end of a list or set. *)
Definition readable {A} (d : A -> text) : Prop := apart d /\ forall x, match d x with [] => False | c :: _ => c <> "]"%char /\ c <> "}"%char end.
