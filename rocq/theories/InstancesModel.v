(** * InstancesModel: the point and interval types the crate and its README
      provide.  No proofs in this file. *)
From Coq Require Import List ZArith Bool.
From Verif Require Import Base IntervalModel.
Import ListNotations.
Open Scope Z_scope.

(** ** Primitive integers

    A value of a Rust integer type with extreme values [lo] and [hi]. *)
Definition fits (lo hi z : Z) : bool := (lo <=? z) && (z <=? hi).
Record int (lo hi : Z) := mkInt { ival : Z; int_fits : fits lo hi ival = true }.
Arguments mkInt {lo hi} ival int_fits.
Arguments ival {lo hi} i.

(** The Rust integer with value [z], if [z] is in range. *)
Definition of_Z {lo hi} (z : Z) : option (int lo hi) :=
  match Sumbool.sumbool_of_bool (fits lo hi z) with
  | left e => Some (mkInt z e)
  | right _ => None
  end.

(** [$ident::MIN] and [$ident::MAX] are themselves in range. *)
Class IntType (lo hi : Z) := {
  fits_lo : fits lo hi lo = true;
  fits_hi : fits lo hi hi = true
}.

(** [Ord] for the primitive integers (core). *)
#[export] Instance Ord_int lo hi : Ord (int lo hi) := { cmp := fun x y => ival x ?= ival y }.

(** [impl DiscreteFinite for $ident]  (/repo/src/discrete_finite.rs:23-40);
    [checked_add(1)]/[checked_sub(1)] are [None] when the result does not fit. *)
#[export] Instance DiscreteFinite_int lo hi `{IntType lo hi} : DiscreteFinite (int lo hi) := {
  MIN := mkInt lo fits_lo;
  MAX := mkInt hi fits_hi;
  up := fun x => of_Z (ival x + 1);
  down := fun x => of_Z (ival x - 1)
}.

(** The types of /repo/src/discrete_finite.rs:42; [usize] depends on the target,
    its width [w] in bits is a parameter. *)
Notation unsigned w := (int 0 (2 ^ w - 1)) (only parsing).
Notation signed w := (int (- 2 ^ (w - 1)) (2 ^ (w - 1) - 1)) (only parsing).
Notation u8 := (int 0 255).
Notation i8 := (int (-128) 127).
Notation u16 := (int 0 65535).
Notation i16 := (int (-32768) 32767).
Notation u32 := (int 0 4294967295).
Notation i32 := (int (-2147483648) 2147483647).
Notation u64 := (int 0 18446744073709551615).
Notation i64 := (int (-9223372036854775808) 9223372036854775807).
Notation u128 := (int 0 340282366920938463463374607431768211455).
Notation i128 := (int (-170141183460469231731687303715884105728)
                      170141183460469231731687303715884105727).
#[export] Instance IntType_u8 : IntType 0 255 := { fits_lo := eq_refl; fits_hi := eq_refl }.
#[export] Instance IntType_i8 : IntType (-128) 127 := { fits_lo := eq_refl; fits_hi := eq_refl }.
#[export] Instance IntType_u16 : IntType 0 65535 := { fits_lo := eq_refl; fits_hi := eq_refl }.
#[export] Instance IntType_i16 : IntType (-32768) 32767 := { fits_lo := eq_refl; fits_hi := eq_refl }.
#[export] Instance IntType_u32 : IntType 0 4294967295 := { fits_lo := eq_refl; fits_hi := eq_refl }.
#[export] Instance IntType_i32 : IntType (-2147483648) 2147483647 :=
  { fits_lo := eq_refl; fits_hi := eq_refl }.
#[export] Instance IntType_u64 : IntType 0 18446744073709551615 :=
  { fits_lo := eq_refl; fits_hi := eq_refl }.
#[export] Instance IntType_i64 : IntType (-9223372036854775808) 9223372036854775807 :=
  { fits_lo := eq_refl; fits_hi := eq_refl }.
#[export] Instance IntType_u128 : IntType 0 340282366920938463463374607431768211455 :=
  { fits_lo := eq_refl; fits_hi := eq_refl }.
#[export] Instance IntType_i128 :
  IntType (-170141183460469231731687303715884105728) 170141183460469231731687303715884105727 :=
  { fits_lo := eq_refl; fits_hi := eq_refl }.

(** [+] and [-] of the primitive integers (core): a debug build panics on
    overflow, a release build wraps around modulo the number of values. *)
Section Arith.
  Context {lo hi : Z} `{IntType lo hi}.
  Definition checked (z : Z) : outcome (int lo hi) :=
    match of_Z z with Some x => Val x | None => Panic end.
  Definition wrap_Z (z : Z) : Z := lo + (z - lo) mod (hi - lo + 1).
  Definition wrapping (z : Z) : outcome (int lo hi) :=
    match of_Z (wrap_Z z) with Some x => Val x | None => Val MIN end.
  Definition add_debug (x y : int lo hi) := checked (ival x + ival y).
  Definition sub_debug (x y : int lo hi) := checked (ival x - ival y).
  Definition add_release (x y : int lo hi) := wrapping (ival x + ival y).
  Definition sub_release (x y : int lo hi) := wrapping (ival x - ival y).
End Arith.

(** ** The README's [WithInfinity]  (/repo/README.md:155-232) *)
Inductive WithInfinity (T : Type) :=
| Finite (t : T)
| Infinity.
Arguments Finite {T} t.
Arguments Infinity {T}.

(** (/repo/README.md:166-187) *)
#[export] Instance Ord_WithInfinity T `{Ord T} : Ord (WithInfinity T) := {
  cmp := fun x y =>
    match x, y with
    | Finite x, Finite y => cmp x y
    | Finite _, Infinity => Lt
    | Infinity, Finite _ => Gt
    | Infinity, Infinity => Eq
    end
}.

(** (/repo/README.md:198-231) *)
#[export] Instance DiscreteFinite_WithInfinity T `{DiscreteFinite T} : DiscreteFinite (WithInfinity T) := {
  MIN := Finite MIN;
  MAX := Infinity;
  up := fun x =>
    match x with
    | Finite x => match up x with Some y => Some (Finite y) | None => Some Infinity end
    | Infinity => None
    end;
  down := fun x =>
    match x with
    | Finite x => match down x with Some y => Some (Finite y) | None => None end
    | Infinity => Some (Finite MAX)
    end
}.

(** ** The README's [Reservation]  (/repo/README.md:60-98)

    [value.end().up().unwrap()] never panics because it is only reached when
    the end is not [i8::MAX]; the model's unreachable branch keeps the end. *)
Inductive Reservation :=
| ResFinite (s e : i8)
| ResInfinite (s : i8).

#[export] Instance InclusiveInterval_Reservation : InclusiveInterval i8 Reservation := {
  istart := fun r => match r with ResFinite s _ => s | ResInfinite s => s end;
  iend := fun r => match r with ResFinite _ e => e | ResInfinite _ => MAX end;
  ifrom := fun value =>
    if eqb (ivl_end value) MAX then ResInfinite (ivl_start value)
    else match up (ivl_end value) with
         | Some e => ResFinite (ivl_start value) e
         | None => ResFinite (ivl_start value) (ivl_end value)
         end
}.

(** The README type with the off-by-one in [From] repaired (the end kept as it
    is): a custom interval type that does obey [IntervalLaws]. *)
Inductive Reservation2 :=
| Res2Finite (s e : i8)
| Res2Infinite (s : i8).
#[export] Instance InclusiveInterval_Reservation2 : InclusiveInterval i8 Reservation2 := {
  istart := fun r => match r with Res2Finite s _ => s | Res2Infinite s => s end;
  iend := fun r => match r with Res2Finite _ e => e | Res2Infinite _ => MAX end;
  ifrom := fun value =>
    if eqb (ivl_end value) MAX then Res2Infinite (ivl_start value)
    else Res2Finite (ivl_start value) (ivl_end value)
}.

(** Literals for examples: ['5] is the integer 5 (of a type known from the
    context), [a --> b] the [Interval] from [a] to [b] inclusive. *)
Definition lit {lo hi} `{IntType lo hi} (z : Z) : int lo hi :=
  match of_Z z with Some x => x | None => MIN end.
Notation "' z" := (lit z%Z) (at level 1, z at level 0, only parsing).
Notation "a --> b" := (mkInterval (lit a%Z) (lit b%Z)) (at level 60, only parsing).
