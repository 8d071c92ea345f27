(** * PropsSerde: written and read back in a data format (C121), and by another container (C122). *)
From Coq Require Import List ZArith Bool Lia Arith.
From Verif Require Import Base BTree UtilsModel IntervalModel NoditModel NoditOps NoditSetModel NoditSetOps ZosditModel ZosditOps GqditModel GqditOps
  Spec SerdeOps InstancesModel Instances PointFacts IntervalFacts ListFacts NoditFacts NoditInv NoditSetFacts NoditSetProofs ZosditFacts ZosditMut ZosditProofs
  GqditFacts GqditProofs SerdeFacts PropsNodit PropsZosdit PropsGqdit.
Import ListNotations.
Open Scope nat_scope.

Section Nodit.
  Context {I : Type} `{PL : PointLaws I}.
  Context {K : Type} {IK : InclusiveInterval I K} {IL : IntervalLaws I K}.
  Context {V B : Type}.
  Implicit Types (m : NoditMap K V) (s : NoditSet K) (cn : codec B nat).

  (** ** C121 *)
  (** A NoditMap is read back, whatever comes behind it, ... *)
  Theorem C121_map_counted : forall m cn (c : codec B (K * V)) rest, reachable m -> faithful cn -> faithful c ->
    read_counted cn c deserialize (write_counted cn c (serialize m) ++ rest) = Some (Val (Ok m), rest).
  Proof.
    intros m cn c rest R Fn F. unfold serialize. rewrite counted_exact; [|exact Fn|exact F|reflexivity].
    pose proof (C22_round_trip m R) as (_ & _ & E). cbn [serialize snd] in E. rewrite E. reflexivity.
  Qed.
  Theorem C121_map_delimited : forall m (c : codec B (option (K * V))) rest, reachable m -> faithful c ->
    forall r rest', read_delimited c deserialize (write_delimited c (serialize m) ++ rest) r rest' <-> r = Val (Ok m) /\ rest' = rest.
  Proof.
    intros m c rest R F r rest'. rewrite (delimited_exact c deserialize (serialize m) rest r rest' F), (proj2 (proj2 (C22_round_trip m R))). reflexivity.
  Qed.
  (** ... and so is a NoditSet ... *)
  Lemma set_round_trip s : set_reachable s -> set_deserialize (map Some (set_iter s)) = Val (Ok s).
  Proof.
    intros R. apply set_reachable_WF in R. destruct (forget_bulk (V := unit) [] (map Some (iter s))) as (_ & _ & E & _).
    rewrite map_map in E. cbn [option_map] in E. unfold deserialize in E. pose proof (visit_seq_rebuild s [] R) as X. unfold iter in E. change (@new K unit) with ([] : NoditMap K unit) in E. rewrite X in E. cbn [app omap] in E.
    assert (F : forget s = s) by (clear; induction s as [|[k []] s IH]; [reflexivity|cbn; f_equal; exact IH]).
    rewrite F in E. unfold set_iter, iter. rewrite map_map. exact E.
  Qed.
  Theorem C121_set_counted : forall s cn (c : codec B K) rest, set_reachable s -> faithful cn -> faithful c ->
    read_counted cn c set_deserialize (write_counted cn c (set_serialize s) ++ rest) = Some (Val (Ok s), rest).
  Proof.
    intros s cn c rest R Fn F. unfold set_serialize. rewrite counted_exact; [|exact Fn|exact F|unfold set_iter, set_len; rewrite map_length; reflexivity].
    rewrite set_round_trip by exact R. reflexivity.
  Qed.
  Theorem C121_set_delimited : forall s (c : codec B (option K)) rest, set_reachable s -> faithful c ->
    forall r rest', read_delimited c set_deserialize (write_delimited c (set_serialize s) ++ rest) r rest' <-> r = Val (Ok s) /\ rest' = rest.
  Proof.
    intros s c rest R F r rest'. rewrite (delimited_exact c set_deserialize (set_serialize s) rest r rest' F).
    cbn [set_serialize snd]. rewrite set_round_trip by exact R. reflexivity.
  Qed.

  Context {D : Type} {OD : Ord D} {OL : OrdLaws D}.
  (** ... and a Gqdit. *)
  Theorem C121_gqdit_counted : forall (g : Gqdit K D) cn (c : codec B (K * BTreeSet D)) rest, greachable g \/ gdrained g -> faithful cn -> faithful c ->
    read_counted cn c gqdit_deserialize (write_counted cn c (gqdit_serialize g) ++ rest) = Some (Val (Ok g), rest).
  Proof.
    intros g cn c rest R Fn F. destruct (C52_round_trip g R) as [E N]. destruct (gqdit_serialize g) as [n l]. cbn [fst snd] in *.
    rewrite counted_exact by assumption. rewrite E. reflexivity.
  Qed.
  Theorem C121_gqdit_delimited : forall (g : Gqdit K D) (c : codec B (option (K * BTreeSet D))) rest, greachable g \/ gdrained g -> faithful c ->
    forall r rest', read_delimited c gqdit_deserialize (write_delimited c (gqdit_serialize g) ++ rest) r rest' <-> r = Val (Ok g) /\ rest' = rest.
  Proof.
    intros g c rest R F r rest'. rewrite (delimited_exact c gqdit_deserialize (gqdit_serialize g) rest r rest' F), (proj1 (C52_round_trip g R)). reflexivity.
  Qed.
End Nodit.

Section Zosdit.
  Context {I : Type} `{PL : PointLaws I}.
  Context {K : Type} {IK : InclusiveInterval I K} {IL : IntervalLaws I K}.
  Context {V B : Type}.
  Implicit Types (os : list (zop I K V)) (m : NoditMap K V) (z : ZosditMap K V) (cn : codec B nat).

  (** A ZosditMap is too in a delimited format. *)
  Theorem C121_zosdit_delimited : forall z (c : codec B (option (K * V))) rest, zreachable z -> faithful c ->
    exists z', Forall2 same_entry (zosdit_iter z) (zosdit_iter z') /\
    forall r rest', read_delimited c zosdit_deserialize (write_delimited c (zosdit_serialize z) ++ rest) r rest' <-> r = Val (Ok z') /\ rest' = rest.
  Proof.
    intros z c rest R F. destruct (C41_round_trip z R) as (_ & z' & E & S1 & _). exists z'. split; [exact S1|].
    intros r rest'. rewrite (delimited_exact c zosdit_deserialize (zosdit_serialize z) rest r rest' F), E. reflexivity.
  Qed.
  (** In a counted format: if remove_last_value_at_point has never removed anything; false
      in general, see below. *)
  Theorem C121_zosdit_counted_partial : forall os cn (c : codec B (K * V)) rest, ZosditOps.removed os = 0 -> faithful cn -> faithful c ->
    exists z', Forall2 same_entry (zosdit_iter (zrun os)) (zosdit_iter z') /\
    read_counted cn c zosdit_deserialize (write_counted cn c (zosdit_serialize (zrun os)) ++ rest) = Some (Val (Ok z'), rest).
  Proof.
    intros os cn c rest N Fn F. assert (R : zreachable (zrun os)) by (exists os; reflexivity).
    destruct (C41_round_trip _ R) as (_ & z' & E & S1 & _). exists z'. split; [exact S1|].
    apply C64_announced_length_partial in N. destruct (zosdit_serialize (zrun os)) as [n l]. cbn [fst snd] in *.
    rewrite counted_exact by assumption. rewrite E. reflexivity.
  Qed.
  (** If it has, nothing can be read back from a file that holds the map and nothing else. *)
  Theorem C121_zosdit_file : forall os cn (c : codec B (K * V)), faithful cn -> faithful c -> dec c [] = None -> 0 < ZosditOps.removed os ->
    read_counted cn c zosdit_deserialize (write_counted cn c (zosdit_serialize (zrun os))) = Some (Val (Err DeElement), []).
  Proof.
    intros os cn c Fn F N0 N. assert (R : zreachable (zrun os)) by (exists os; reflexivity).
    destruct (C41_round_trip _ R) as (_ & z' & E & _). unfold zosdit_serialize in *. cbn [snd] in E.
    rewrite C63_len_partial. rewrite <- (app_nil_r (write_counted _ _ _)), read_written by assumption.
    destruct (ZosditOps.removed os) as [|j]; [lia|]. cbn [take_elements]. rewrite N0. cbn [fst snd].
    rewrite (zosdit_truncated _ _ _ E). reflexivity.
  Qed.

  (** ** C122 *)
  (** What a NoditMap writes is what the ZosditMap with the same entries writes, and can
      be read as one. *)
  Theorem C122_map_read_as_zosdit : forall m, reachable m ->
    exists z, zosdit_deserialize (map Some (snd (serialize m))) = Val (Ok z) /\
      zreachable z /\ zosdit_iter z = iter m /\ zosdit_serialize z = serialize m.
  Proof.
    intros m R. apply reachable_WF in R. exists (mkZosdit (length m) (single m)).
    pose proof (map_as_zosdit m R) as E. split; [exact E|]. split.
    - exists [ZDeserialize (map Some (iter m))]. unfold zrun. cbn [fold_left zstep]. rewrite E. reflexivity.
    - unfold zosdit_serialize, zosdit_iter. cbn [z_inner]. rewrite flatten_single. split; reflexivity.
  Qed.
  (** What a ZosditMap writes can be read as a NoditMap if no two of its entries share a
      point, and is refused otherwise. *)
  Theorem C122_zosdit_read_as_map : forall z, zreachable z ->
    (disjoint_intervals (map fst (zosdit_iter z)) ->
       exists m, deserialize (map Some (snd (zosdit_serialize z))) = Val (Ok m) /\ iter m = zosdit_iter z) /\
    (~ disjoint_intervals (map fst (zosdit_iter z)) ->
       deserialize (map Some (snd (zosdit_serialize z))) = Val (Err DeOverlap)).
  Proof.
    intros z R. apply zreachable_ZWF in R. destruct R as (Z1 & Hok & _). pose proof (flatten_ZS _ Z1 Hok) as Z2. split.
    - intros Dj. exists (zosdit_iter z). split; [|reflexivity]. unfold deserialize.
      apply (visit_seq_rebuild (zosdit_iter z) []). apply ZS_disjoint_WF; assumption.
    - intros Dj. destruct (C22_rejects (map Some (zosdit_iter z))) as (e & E).
      + intros k v Hi. apply in_map_iff in Hi. destruct Hi as ([k' v'] & X & Hi). injection X as -> ->. apply valid_rk. apply (ZS_okv _ _ Z2 Hi).
      + intros (l & X & Y). apply Dj. replace (zosdit_iter z) with l; [exact Y|]. clear -X. revert l X.
        induction (zosdit_iter z) as [|x l0 IH]; intros [|y l] X; cbn in X; try discriminate; [reflexivity|].
        injection X as -> X. f_equal. apply IH, X.
      + cbn [zosdit_serialize snd]. rewrite E. f_equal. f_equal. exact (overlap_error _ _ _ E).
  Qed.
  (** So a NoditMap survives being stored as a ZosditMap. *)
  Theorem C122_there_and_back : forall m, reachable m ->
    exists z, zosdit_deserialize (map Some (snd (serialize m))) = Val (Ok z) /\
      deserialize (map Some (snd (zosdit_serialize z))) = Val (Ok m).
  Proof.
    intros m R. destruct (C122_map_read_as_zosdit m R) as (z & E & _ & _ & S1). exists z. split; [exact E|].
    rewrite S1. apply (C22_round_trip m R).
  Qed.
End Zosdit.

(** ** The refutation of C121 for ZosditMap, and examples *)
(** Three symbols for an entry; a number in unary. *)
Definition entry_codec : codec u8 (Interval u8 * u8) :=
  mkCodec (fun e => [ivl_start (fst e); ivl_end (fst e); snd e])
    (fun bs => match bs with a :: b :: v :: bs => Some ((mkInterval a b, v), bs) | _ => None end).
Fixpoint unary (bs : list u8) : option (nat * list u8) :=
  match bs with
  | [] => None
  | b :: bs => if eqb b '0 then Some (0, bs) else match unary bs with Some (n, r) => Some (S n, r) | None => None end
  end.
Definition unary_codec : codec u8 nat := mkCodec (fun n => repeat '1 n ++ ['0]) unary.
Lemma entry_codec_faithful : faithful entry_codec.
Proof. intros [[a b] v] rest. reflexivity. Qed.
Lemma unary_codec_faithful : faithful unary_codec.
Proof.
  intros n rest. cbn [enc dec unary_codec]. induction n as [|n IH]; [reflexivity|]. cbn [repeat app unary].
  replace (eqb ('1 : u8) '0) with false by (vm_compute; reflexivity). rewrite IH. reflexivity.
Qed.
Definition C121_ops : list (zop u8 (Interval u8) u8) :=
  [ZInsertStrictBack (1 --> 1) '5; ZInsertStrictBack (3 --> 3) '6; ZRemoveLast '3].
(** Read back, the map has swallowed the beginning of what was written behind it: another
    entry is in it, and the rest cannot be read. *)
Theorem C121_zosdit_counted_refuted : exists (cn : codec u8 nat) (c : codec u8 (Interval u8 * u8)) (os os2 : list (zop u8 (Interval u8) u8)) z' rest',
  faithful cn /\ faithful c /\
  read_counted cn c zosdit_deserialize (write_counted cn c (zosdit_serialize (zrun os)) ++ write_counted cn c (zosdit_serialize (zrun os2))) =
    Some (Val (Ok z'), rest') /\
  zosdit_iter (zrun os) = [(1 --> 1, '5)] /\ zosdit_iter z' = [(1 --> 1, '5); (1 --> 1, '0)] /\
  read_counted cn c zosdit_deserialize rest' = None.
Proof.
  exists unary_codec, entry_codec, C121_ops, [ZInsertStrictBack (4 --> 4) '9; ZInsertStrictBack (6 --> 6) '8].
  exists (mkZosdit 2 [(1 --> 1, ['5; '0])]), ['4; '4; '9; '6; '6; '8].
  split; [exact unary_codec_faithful|]. split; [exact entry_codec_faithful|]. vm_compute. repeat split; reflexivity.
Qed.
(** Or it panics. *)
Theorem C121_zosdit_counted_panics_refuted : exists (cn : codec u8 nat) (c : codec u8 (Interval u8 * u8)) (os os2 : list (zop u8 (Interval u8) u8)) rest',
  faithful cn /\ faithful c /\
  read_counted cn c zosdit_deserialize (write_counted cn c (zosdit_serialize (zrun os)) ++ write_counted cn c (zosdit_serialize (zrun os2))) =
    Some (Panic, rest').
Proof.
  exists unary_codec, entry_codec, C121_ops, [ZInsertStrictBack (4 --> 4) '9], ['4; '9].
  split; [exact unary_codec_faithful|]. split; [exact entry_codec_faithful|]. vm_compute. reflexivity.
Qed.

(** The hypotheses are met, non-trivially. *)
Example C121_example :
  let m : NoditMap (Interval u8) u8 := run [OpInsertStrict (3 --> 9) '7; OpInsertOverwrite (5 --> 5) '8] in
  read_counted unary_codec entry_codec deserialize (write_counted unary_codec entry_codec (serialize m) ++ ['77]) = Some (Val (Ok m), ['77]) /\
  length (iter m) = 3.
Proof. vm_compute. split; reflexivity. Qed.
Example C121_file_example : ZosditOps.removed C121_ops = 1 /\ dec entry_codec [] = None /\
  write_counted unary_codec entry_codec (zosdit_serialize (zrun C121_ops)) = ['1; '1; '0; '1; '1; '5] /\
  read_counted unary_codec entry_codec zosdit_deserialize (write_counted unary_codec entry_codec (zosdit_serialize (zrun C121_ops))) =
    Some (Val (Err DeElement), []).
Proof. vm_compute. repeat split; reflexivity. Qed.
(** A delimited format: a symbol before each element and at the end. *)
Definition delimited_codec : codec u8 (option (Interval u8 * u8)) :=
  mkCodec (fun o => match o with Some e => '1 :: enc entry_codec e | None => ['0] end)
    (fun bs => match bs with
               | [] => None
               | b :: bs => if eqb b '0 then Some (None, bs) else match dec entry_codec bs with Some (e, r) => Some (Some e, r) | None => None end
               end).
Example C121_delimited_example : faithful delimited_codec.
Proof. intros [[[a b] v]|] rest; reflexivity. Qed.
Example C122_example :
  let m : NoditMap (Interval u8) u8 := run [OpInsertStrict (3 --> 9) '7; OpInsertOverwrite (5 --> 5) '8] in
  omap (fun r => match r with Ok z => zosdit_iter z | Err _ => [] end) (zosdit_deserialize (map Some (snd (serialize m)))) =
    Val [(3 --> 4, '7); (5 --> 5, '8); (6 --> 9, '7)] /\
  deserialize (map Some (snd (zosdit_serialize (zrun [ZInsertStrictBack (3 --> 9) '7; ZInsertStrictBack (9 --> 9 : Interval u8) ('8 : u8)])))) = Val (Err DeOverlap).
Proof. vm_compute. split; reflexivity. Qed.

Print Assumptions C121_map_counted.
Print Assumptions C121_map_delimited.
Print Assumptions C121_set_counted.
Print Assumptions C121_set_delimited.
Print Assumptions C121_gqdit_counted.
Print Assumptions C121_gqdit_delimited.
Print Assumptions C121_zosdit_delimited.
Print Assumptions C121_zosdit_counted_partial.
Print Assumptions C121_zosdit_file.
Print Assumptions C122_map_read_as_zosdit.
Print Assumptions C122_zosdit_read_as_map.
Print Assumptions C122_there_and_back.
Print Assumptions C121_zosdit_counted_refuted.
Print Assumptions C121_zosdit_counted_panics_refuted.
