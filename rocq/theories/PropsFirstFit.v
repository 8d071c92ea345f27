(** * PropsFirstFit: handing out places in the order of the gaps (C150). *)
From Coq Require Import List ZArith Bool Lia.
From Verif Require Import Base BTree UtilsModel IntervalModel NoditModel NoditOps InstancesModel Instances Spec FirstFitOps
  PointFacts IntervalFacts NoditFacts NoditInv IntervalProofs FirstFitFacts.
Import ListNotations.
Open Scope Z_scope.

Section Props.
  Context {lo hi : Z} `{T : IntType lo hi}.
  Notation int := (int lo hi).
  Context {K : Type} {IK : InclusiveInterval int K} {IL : IntervalLaws int K} {FI : FromInvalid int K}.
  Context {V : Type}.
  Context {Q : Type} {IQ : InclusiveInterval int Q}.
  Implicit Types (m : NoditMap K V) (b : build) (q : Q) (n s : int) (v : V).

  (** ** C150 *)
  (** The place taken is the leftmost with enough room; none is taken only if
      there is no room anywhere.  In a build of either kind. *)
  Theorem C150_first_fit : forall b m q n v, lo <= 0 -> reachable m -> valid q -> 0 <= ival n -> ival (iend q) - ival (istart q) <= hi ->
    (exists k m', take b q n v m = (m', Val (Some k)) /\ insert_strict k v m = (m', Val (Ok tt)) /\
       ival (iend k) = ival (istart k) + ival n /\ room (iter m) q n (istart k) /\
       forall s, room (iter m) q n s -> ival (istart k) <= ival s) \/
    (take b q n v m = (m, Val None) /\ forall s, ~ room (iter m) q n s).
  Proof.
    intros b m q n v L0 R Vq Ln Lq. destruct (take_spec b m q n v L0 (reachable_WF m R) Vq Ln Lq) as [(k & m' & A & B & _ & _ & X)|X]; [left|right; exact X].
    exists k, m'. auto.
  Qed.
  (** Places are taken and given back in any order: the map has exactly the
      places that are taken, each of the size asked for, inside the query, and no
      two share a point. *)
  Theorem C150_history : forall b q (rs : list (request lo hi V)), lo <= 0 -> valid q -> ival (iend q) - ival (istart q) <= hi ->
    (forall n v, In (Take n v) rs -> 0 <= ival n) ->
    let m := fst (serve_all b q rs) in let live := snd (serve_all (K := K) b q rs) in
    reachable m /\ (forall e, In e (iter m) <-> In e (map snd live)) /\
    (forall n k v, In (n, (k, v)) live -> ival (iend k) = ival (istart k) + ival n /\ forall p, covers k p -> covers q p) /\
    ForallOrdPairs (fun x y => ~ overlap (fst (snd x)) (fst (snd y))) live.
  Proof.
    intros b q rs L0 Vq Lq Hr m live. destruct (serve_all_spec (K := K) b q rs L0 Vq Lq Hr) as [W A B C].
    split; [apply WF_reachable, W|]. auto.
  Qed.
End Props.
(** For an unsigned type nothing is assumed of the sizes. *)
Theorem C150_unsigned : forall {hi : Z} {T : IntType 0 hi} {K : Type} {IK : InclusiveInterval (int 0 hi) K} {IL : IntervalLaws (int 0 hi) K}
  {FI : FromInvalid (int 0 hi) K} {V Q : Type} {IQ : InclusiveInterval (int 0 hi) Q} b (m : NoditMap K V) (q : Q) (n : int 0 hi) (v : V), reachable m -> valid q ->
  (exists k m', take b q n v m = (m', Val (Some k)) /\ insert_strict k v m = (m', Val (Ok tt)) /\
     ival (iend k) = ival (istart k) + ival n /\ room (iter m) q n (istart k) /\
     forall s, room (iter m) q n s -> ival (istart k) <= ival s) \/
  (take b q n v m = (m, Val None) /\ forall s, ~ room (iter m) q n s).
Proof.
  intros hi T K IK IL FI V Q IQ b m q n v R Vq. apply C150_first_fit; try assumption; [lia|apply int_range|].
  pose proof (int_range (istart q)). pose proof (int_range (iend q)). lia.
Qed.

(** The hypotheses are met, non-trivially. *)
Definition ex_requests : list (request 0 255 nat) := [Take '3 1%nat; Take '9 2%nat; Take '0 3%nat; Give 1; Take '4 4%nat; Take '4 5%nat; Take '100 6%nat; Give 7].
Example C150_example : serve_all Debug (10 --> 60 : Interval u8) ex_requests =
  ([(10 --> 13, 1%nat); (14 --> 18, 4%nat); (19 --> 23, 5%nat); (24 --> 24, 3%nat)] : NoditMap (Interval u8) nat,
   [('4, (19 --> 23, 5%nat)); ('4, (14 --> 18, 4%nat)); ('0, (24 --> 24, 3%nat)); ('3, (10 --> 13, 1%nat))]).
Proof. vm_compute. reflexivity. Qed.
(** The width of a gap of a signed type need not fit: a debug build panics, a
    release build overlooks the room there is. *)
Example C150_signed_width :
  take Debug ((-128) --> 127 : Interval i8) '5 1%nat ([] : NoditMap (Interval i8) nat) = ([], Panic) /\
  take Release ((-128) --> 127 : Interval i8) '5 1%nat ([] : NoditMap (Interval i8) nat) = ([], Val None).
Proof. split; vm_compute; reflexivity. Qed.
Print Assumptions C150_first_fit.
Print Assumptions C150_history.
Print Assumptions C150_unsigned.
