(** * FmtModel: the derived [Debug] impls as programs that write to a sink piece by piece, with
      [Debug] impls of users that may fail, panic, change a world, and ignore refusals; and
      the vocabulary of C172.  No proofs in this file. *)
From Coq Require Import List ZArith Bool Arith String Ascii DecimalString.
From Verif Require Import Base BTree UtilsModel IntervalModel NoditModel NoditSetModel ZosditModel GqditModel InstancesModel DebugModel.
Import ListNotations.
Open Scope list_scope.

(** [Ok(())], [Err(fmt::Error)], a panic that unwinds *)
Inductive res : Type := Fine | Failed | Panicked.
(** A program that calls [write_str] of the sink it is given and goes on depending on how the
    call ended, until it ends with an [X].  ([write_char] is [write_str] of one character.) *)
Inductive prog (X : Type) : Type :=
| Stop (x : X)
| Put (t : text) (k : res -> prog X).
Arguments Stop {X}. Arguments Put {X}.

Fixpoint bind {X Y} (p : prog X) (f : X -> prog Y) : prog Y :=
  match p with
  | Stop x => f x
  | Put t k => Put t (fun r => bind (k r) f)
  end.

(** ** [PadAdapter] (dependency, [core::fmt::builders]) *)
(** [str::split_inclusive('\n')] *)
Fixpoint lines (t : text) : list text :=
  match t with
  | [] => []
  | c :: t => if Ascii.eqb c newline then [c] :: lines t
              else match lines t with [] => [[c]] | l :: ls => (c :: l) :: ls end
  end.
Definition ends_newline (t : text) : bool := Ascii.eqb (last t " "%char) newline.
(** A program that writes to a [PadAdapter] around the sink:
    [for s in s.split_inclusive('\n') { if on_newline { buf.write_str("    ")?; }
       on_newline = s.ends_with('\n'); buf.write_str(s)?; } Ok(())] *)
Fixpoint padded {X} (nl : bool) (p : prog X) : prog X :=
  match p with
  | Stop x => Stop x
  | Put t k =>
      (fix go (nl : bool) (ls : list text) : prog X :=
         match ls with
         | [] => padded nl (k Fine)
         | l :: ls =>
             let line := Put l (fun r => match r with Fine => go (ends_newline l) ls | _ => padded (ends_newline l) (k r) end) in
             if nl then Put (txt "    ") (fun r => match r with Fine => line | _ => padded nl (k r) end) else line
         end) nl (lines t)
  end.

Section Fmt.
  (** What user code may read and change. *)
  Context {U : Type}.
  (** [fmt] of one value *)
  Definition action : Type := U -> prog (U * res).
  Definition fmt (A : Type) : Type := bool -> A -> action.

  (** [f.write_str(t)] *)
  Definition say (t : text) : action := fun u => Put t (fun r => Stop (u, r)).
  Definition ok : action := fun u => Stop (u, Fine).
  (** [a?; b], and [result.and_then] of the builders: once there is an error they write nothing
      and call nothing (they do go on taking entries from the iterator, which is no user code) *)
  Definition andthen (a b : action) : action := fun u => bind (a u) (fun x => match snd x with Fine => b (fst x) | _ => Stop x end).
  Fixpoint all (l : list action) : action := match l with [] => ok | a :: l => andthen a (all l) end.
  Definition in_pad (a : action) : action := fun u => padded true (a u).

  (** ** The builders (dependency, [core::fmt::builders]) *)
  Definition pretty_item (a : action) : action := in_pad (all [a; say (txt "," ++ [newline])]).
  Fixpoint plain_items (first : text) (l : list action) : list action :=
    match l with [] => [] | a :: l => say first :: a :: plain_items (txt ", ") l end.
  Definition field (name : string) (a : action) : action := all [say (txt name); say (txt ": "); a].
  (** [debug_struct_fieldN_finish], N at least 1 *)
  Definition struct_fmt (alt : bool) (name : string) (fields : list action) : action :=
    all (say (txt name) ::
         if alt then say (txt " {" ++ [newline]) :: map pretty_item fields ++ [say (txt "}")]
         else plain_items (txt " { ") fields ++ [say (txt " }")]).
  (** [debug_list], [debug_set], [debug_map], with [entries] and [finish]; for [debug_map]
      the key and the value of an entry share one [PadAdapterState] *)
  Definition group_fmt (alt : bool) (op cl : ascii) (items : list action) : action :=
    all (say [op] ::
         match items with
         | [] => [say [cl]]
         | i :: is => if alt then say [newline] :: map pretty_item items ++ [say [cl]]
                      else i :: plain_items (txt ", ") is ++ [say [cl]]
         end).
  Definition list_fmt {A} (d : fmt A) : fmt (list A) := fun alt l => group_fmt alt "[" "]" (map (d alt) l).
  Definition set_fmt {A} (d : fmt A) : fmt (list A) := fun alt l => group_fmt alt "{" "}" (map (d alt) l).
  Definition entry_fmt {A B} (da : fmt A) (db : fmt B) : fmt (A * B) := fun alt e => all [da alt (fst e); say (txt ": "); db alt (snd e)].
  Definition map_fmt {A B} (da : fmt A) (db : fmt B) : fmt (list (A * B)) := fun alt l => group_fmt alt "{" "}" (map (entry_fmt da db alt) l).
  (** [debug_tuple_field1_finish] *)
  Definition option_fmt {A} (d : fmt A) : fmt (option A) := fun alt o =>
    match o with
    | None => say (txt "None")
    | Some a => if alt then all [say (txt "Some"); say (txt "(" ++ [newline]); pretty_item (d alt a); say (txt ")")]
                else all [say (txt "Some"); say (txt "("); d alt a; say (txt ")")]
    end.
  Definition unit_fmt : fmt unit := fun _ _ => say (txt "()").
  Definition usize_fmt : fmt nat := fun _ n => say (txt (NilZero.string_of_uint (Nat.to_uint n))).
  Definition phantom_fmt (tn : text) : action := all [say (txt "PhantomData<"); say tn; say (txt ">")].

  (** ** The derived impls *)
  (** [Interval]  (/repo/src/interval.rs:40-46) *)
  Definition interval_fmt {I} (dp : fmt I) : fmt (Interval I) := fun alt i =>
    struct_fmt alt "Interval" [field "start" (dp alt (ivl_start i)); field "end" (dp alt (ivl_end i))].
  (** [NoditMap]  (/repo/src/nodit/map.rs:58-62) *)
  Definition nodit_fmt {K V} (tn : text) (dk : fmt K) (dv : fmt V) : fmt (NoditMap K V) := fun alt m =>
    struct_fmt alt "NoditMap" [field "inner" (map_fmt dk dv alt m); field "phantom" (phantom_fmt tn)].
  (** [OverlapError]  (/repo/src/nodit/map.rs:66-70) *)
  Definition overlap_error_fmt {V} (dv : fmt V) : fmt V := fun alt v => struct_fmt alt "OverlapError" [field "value" (dv alt v)].
  (** [ZosditMap]  (/repo/src/zosdit/map.rs:61-68) *)
  Definition zosdit_fmt {K V} (tn : text) (dk : fmt K) (dv : fmt V) : fmt (ZosditMap K V) := fun alt z =>
    struct_fmt alt "ZosditMap" [field "len" (usize_fmt alt (z_len z)); field "inner" (map_fmt dk (list_fmt dv) alt (z_inner z)); field "phantom" (phantom_fmt tn)].
  (** [NonZeroOverlapError]  (/repo/src/zosdit/map.rs:72-76) *)
  Definition non_zero_overlap_error_fmt {V} (dv : fmt V) : fmt V := fun alt v => struct_fmt alt "NonZeroOverlapError" [field "value" (dv alt v)].
  (** [NoditSet]  (/repo/src/nodit/set.rs:22-25) *)
  Definition nodit_set_fmt {K} (tn : text) (dk : fmt K) : fmt (NoditSet K) := fun alt s => struct_fmt alt "NoditSet" [field "inner" (nodit_fmt tn dk unit_fmt alt s)].
  (** [Gqdit]  (/repo/src/gqdit/mod.rs:66-69) *)
  Definition gqdit_fmt {K D} (tn : text) (dk : fmt K) (dd : fmt D) : fmt (Gqdit K D) := fun alt g => struct_fmt alt "Gqdit" [field "inner" (nodit_fmt tn dk (set_fmt dd) alt g)].
  (** [CutResult]  (/repo/src/utils.rs:88-93) *)
  Definition cut_result_fmt {I} (dp : fmt I) : fmt (CutResult I) := fun alt r =>
    struct_fmt alt "CutResult"
      [field "before_cut" (option_fmt (interval_fmt dp) alt (before_cut r)); field "inside_cut" (option_fmt (interval_fmt dp) alt (inside_cut r));
       field "after_cut" (option_fmt (interval_fmt dp) alt (after_cut r))].
  (** [Config]  (/repo/src/utils.rs:13-22) *)
  Definition config_fmt : fmt Config := fun alt c => say (config_debug alt c).
End Fmt.
Arguments action U : clear implicits.
Arguments fmt U A : clear implicits.

(** ** Vocabulary of C172 *)
(** [outcome p evs x]: the program can end with [x] when its writes, and how they end, are [evs]. *)
Inductive outcome {X} : prog X -> list (text * res) -> X -> Prop :=
| outcome_stop x : outcome (Stop x) [] x
| outcome_put t k r evs x : outcome (k r) evs x -> outcome (Put t k) ((t, r) :: evs) x.
(** A well-behaved impl that writes [t]: in pieces of any kind, and at the first write that
    does not end well it ends in the same way. *)
Inductive writes {U} : prog (U * res) -> text -> Prop :=
| writes_stop u : writes (Stop (u, Fine)) []
| writes_put a k t : writes (k Fine) t -> (forall r, r <> Fine -> exists u, k r = Stop (u, r)) -> writes (Put a k) (a ++ t).
Definition well_behaved {U A} (f : fmt U A) (d : debug A) : Prop := forall alt x u, writes (f alt x u) (d alt x).

(** An impl that also notes for which value it was called and how that ended. *)
Definition noting {U A C} (c : A -> C) (f : fmt U A) : fmt (U * list (C * res)) A := fun alt a u =>
  bind (f alt a (fst u)) (fun x => Stop ((fst x, snd u ++ [(c a, snd x)]), snd x)).
(** The calls that were made are the first ones of those due, one after the other, and all
    but the last ended well; the whole ends well only if all were made and ended well; and
    otherwise as the last call did, or as the last write did. *)
Definition in_turn {C} (due : list C) (evs : list (text * res)) (made : list (C * res)) (r : res) : Prop :=
  match r with
  | Fine => made = map (fun c => (c, Fine)) due
  | _ => exists l rest,
      (exists c, due = l ++ c :: rest /\ made = map (fun c => (c, Fine)) l ++ [(c, r)]) \/
      (due = l ++ rest /\ made = map (fun c => (c, Fine)) l /\ exists e t, evs = e ++ [(t, r)])
  end.
