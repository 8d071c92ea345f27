(** * OptionsModel: the derived [Debug] impls with the options of [{:+?}], [{:0w?}], [{:x?}] and
      [{:X?}] (with or without [#]), and the vocabulary of C177.  The options reach the impls of
      the fields: the helpers of [core::fmt] hand the [Formatter] on, with its options, and write
      names and brackets with [write_str], which has none.  No proofs in this file. *)
From Coq Require Import String Ascii Bool Arith ZArith DecimalString HexadecimalString List.
From Verif Require Import Base BTree UtilsModel IntervalModel NoditModel NoditSetModel ZosditModel GqditModel InstancesModel DebugModel.
Import ListNotations.
Open Scope list_scope.

Inductive radix : Type := RDec | RLow | RUp.
(** [+], [0w] ([w = 0]: none), and [x] or [X]; other fills, alignments and a precision are not
    modelled. *)
Record options : Type := mkOptions { o_plus : bool; o_zeros : nat; o_radix : radix }.
Definition no_options : options := mkOptions false 0 RDec.

(** ** [Debug] of the types of [core] (dependency, as in the standard library) *)
Definition upper_char (c : ascii) : ascii :=
  if ((97 <=? nat_of_ascii c) && (nat_of_ascii c <=? 102))%nat then ascii_of_nat (nat_of_ascii c - 32) else c.
(** The digits of a number that is not negative. *)
Definition nat_digits (r : radix) (n : nat) : text :=
  match r with
  | RDec => txt (DecimalString.NilZero.string_of_uint (Nat.to_uint n))
  | RLow => txt (HexadecimalString.NilZero.string_of_uint (Nat.to_hex_uint n))
  | RUp => map upper_char (txt (HexadecimalString.NilZero.string_of_uint (Nat.to_hex_uint n)))
  end.
Definition Z_digits (r : radix) (z : Z) : text :=
  match r with
  | RDec => txt (DecimalString.NilZero.string_of_int (Z.to_int z))
  | RLow => txt (HexadecimalString.NilZero.string_of_int (Z.to_hex_int z))
  | RUp => map upper_char (txt (HexadecimalString.NilZero.string_of_int (Z.to_hex_int z)))
  end.
(** [Formatter::pad_integral] with the zero flag or without a width *)
Definition pad_integral (o : options) (alt neg : bool) (digits : text) : text :=
  let sign := if neg then txt "-" else if o_plus o then txt "+" else [] in
  let prefix := match o_radix o with RDec => [] | _ => if alt then txt "0x" else [] end in
  sign ++ prefix ++ repeat "0"%char (o_zeros o - (List.length sign + List.length prefix + List.length digits))%nat ++ digits.
Definition usize_debug_o (o : options) : debug nat := fun alt n => pad_integral o alt false (nat_digits (o_radix o) n).
(** Hexadecimal digits are those of the number of the unsigned type with the same bits. *)
Definition point_debug_o (o : options) {lo hi} : debug (int lo hi) := fun alt p =>
  match o_radix o with
  | RDec => pad_integral o alt (ival p <? 0)%Z (Z_digits RDec (Z.abs (ival p)))
  | r => pad_integral o alt false (Z_digits r (if (ival p <? 0)%Z then (ival p + (hi - lo + 1))%Z else ival p))
  end.
(** [f.pad("()")]: a text is filled up with blanks, also with the zero flag *)
Definition unit_debug_o (o : options) : debug unit := fun _ _ => txt "()" ++ repeat " "%char (o_zeros o - 2)%nat.

(** ** The derived impls with fields whose impls look at the options; for the others see
    DebugModel, with impls [dk], [dv], … for these options *)
(** [NoditSet]  (/repo/src/nodit/set.rs:22-25) *)
Definition nodit_set_debug_o (o : options) {K} (tn : text) (dk : debug K) : debug (NoditSet K) := fun alt s =>
  struct_text alt "NoditSet" [named "inner" (nodit_debug tn dk (unit_debug_o o) alt s)].
(** [ZosditMap]  (/repo/src/zosdit/map.rs:61-68) *)
Definition zosdit_debug_o (o : options) {K V} (tn : text) (dk : debug K) (dv : debug V) : debug (ZosditMap K V) := fun alt z =>
  struct_text alt "ZosditMap" [named "len" (usize_debug_o o alt (z_len z)); named "inner" (map_text dk (list_text dv) alt (z_inner z)); named "phantom" (phantom_text tn)].

(** ** Spec of C177: reading numbers *)
Definition char_value (c : ascii) : Z :=
  (let n := Z.of_nat (nat_of_ascii c) in if n <=? 57 then n - 48 else if n <=? 70 then n - 55 else n - 87)%Z.
Definition read (base : Z) (t : text) : Z := fold_left (fun n c => (n * base + char_value c)%Z) t 0%Z.
Definition digit_of (r : radix) (c : ascii) : Prop :=
  In c (txt match r with RDec => "0123456789" | RLow => "0123456789abcdef" | RUp => "0123456789ABCDEF" end).
Definition base_of (r : radix) : Z := match r with RDec => 10 | _ => 16 end.
