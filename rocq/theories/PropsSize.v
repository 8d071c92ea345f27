(** * PropsSize: how many entries a Gqdit and a ZosditMap have (C110, C111). *)
From Coq Require Import List ZArith Bool Lia ZifyBool Sorting.Sorted.
From Verif Require Import Base BTree UtilsModel IntervalModel NoditModel ZosditModel ZosditOps GqditModel GqditOps Spec Ledger InstancesModel Instances
  PointFacts IntervalFacts NoditFacts ZosditFacts ZosditProofs GqditFacts GqditProofs GqditSize ZosditSize.
Import ListNotations.
Open Scope nat_scope.

(** The entries a Gqdit stores are those it serializes. *)
Notation entries g := (snd (gqdit_serialize g)).

Section Gqdit.
  Context {I : Type} `{PL : PointLaws I}.
  Context {K : Type} {IK : InclusiveInterval I K} {IL : IntervalLaws I K} {FI : FromInvalid I K}.
  Context {D : Type} {OD : Ord D} {OL : OrdLaws D}.
  Implicit Types (g h : Gqdit K D) (k : K) (p : I) (d : D) (os : list (gop I K D)) (ids : list D).

  (** ** C110.  An entry starts exactly at the first point of the type and at
      each point with other identifiers than the point before. *)
  Theorem C110_entries_start_where_identifiers_change : forall g p, greachable g ->
    ((exists k s, In (k, s) (entries g) /\ cmp (istart k) p = Eq) <->
     cmp p MIN = Eq \/
     exists p0, (forall x, plt x p <-> ple x p0) /\ identifiers_at_point g p0 <> identifiers_at_point g p).
  Proof.
    intros g p R. apply greachable_GWF in R. change (entries g) with g. pose proof (start_border g (rk p) R) as S.
    rewrite (border_points g p R) in S.
    assert (A : (exists k s, In (k, s) g /\ cmp (istart k) p = Eq) <-> In (rk p) (map elo g)).
    { rewrite in_map_iff. split.
      - intros (k & s & Hi & E). exists (k, s). split; [apply rk_eq, E|exact Hi].
      - intros ([k s] & E & Hi). exists k, s. split; [exact Hi|apply rk_eq, E]. }
    rewrite A, S, (rk_eq p MIN). clear A S.
    assert (B : forall p0, (forall x, plt x p <-> ple x p0) <-> (rk p0 + 1 = rk p)%Z).
    { intros p0. split.
      - intros X. pose proof (X p0) as X0. pose proof (X p) as Xp. rewrite plt_rk, ple_rk in X0, Xp.
        destruct (Z.eq_dec (rk p0 + 1) (rk p)) as [E|N]; [exact E|exfalso].
        destruct (rk_surj p0 p (rk p0 + 1)) as (y & Ey); [lia|]. specialize (X y). rewrite plt_rk, ple_rk in X. lia.
      - intros E x. rewrite plt_rk, ple_rk. lia. }
    split; (intros [X|(p0 & X & N)]; [left; exact X|right; exists p0; split; [apply B, X|exact N]]).
  Qed.
  (** No list of intervals with identifiers that describes the same thing is
      shorter. *)
  Theorem C110_fewest_entries : forall g (L : Type) (IL' : InclusiveInterval I L) (l : list (L * list D)), greachable g ->
    (forall p, exists q s, In (q, s) l /\ covers q p) ->
    (forall q s p d, In (q, s) l -> covers q p -> (In d s <-> has_id g p d)) ->
    length (entries g) <= length l.
  Proof. intros g L IL' l R. apply fewest, greachable_GWF, R. Qed.
  (** A call stores at most two entries more. *)
  Theorem C110_calls : forall g, greachable g ->
    (forall ids k, length (entries (fst (gqdit_insert (collect ids) k g))) <= length (entries g) + 2) /\
    (forall ids (Q : Type) (IQ : InclusiveInterval I Q) (q : Q), length (entries (fst (cut_with_identifiers (collect ids) q g))) <= length (entries g) + 2) /\
    (forall (Q : Type) (IQ : InclusiveInterval I Q) (q : Q), length (entries (fst (cut_all_identifiers q g))) <= length (entries g) + 2) /\
    (forall h, greachable h -> length (entries (fst (fst (append g h)))) <= length (entries g) + length (entries h) - 1).
  Proof.
    intros g R. apply greachable_GWF in R. split; [|split; [|split]].
    - intros ids k. apply insert_border, R.
    - intros ids Q IQ q. apply cut_with_border, R.
    - intros Q IQ q. apply cut_all_border, R.
    - intros h Rh. apply append_border; [exact R|apply greachable_GWF, Rh].
  Qed.
  Theorem C110_history : forall os, 1 <= length (entries (grun os)) <= 2 * list_sum (map calls os) + 1.
  Proof. intros os. split; [apply nonempty, grun_GWF|apply grun_size]. Qed.
End Gqdit.

Definition C110_ops : list (gop u8 (Interval u8) u8) :=
  [GInsert ['1] (10 --> 20); GInsert ['2] (15 --> 30); GAppend [GInsert ['7] (40 --> 50); GCutAll (44 --> 45 : Interval u8)]].
(** Four calls, nine entries: the bound is attained. *)
Example C110_example :
  length (entries (grun C110_ops)) = 2 * list_sum (map calls C110_ops) + 1 /\
  list_sum (map calls C110_ops) = 4 /\
  entries (grun C110_ops) = [(0 --> 9, []); (10 --> 14, ['1]); (15 --> 20, ['1; '2]); (21 --> 30, ['2]); (31 --> 39, []); (40 --> 43, ['7]); (44 --> 45, []); (46 --> 50, ['7]); (51 --> 255, [])].
Proof. vm_compute. repeat split; reflexivity. Qed.

Section Zosdit.
  Context {I : Type} `{PL : PointLaws I}.
  Context {K : Type} {IK : InclusiveInterval I K} {IL : IntervalLaws I K}.
  Context {V : Type}.
  Implicit Types (z : ZosditMap K V) (os : list (zop I K V)).

  (** ** C111.  [cut] leaves at most one entry more, and one more exactly when
      some entry has points on both sides of [q]. *)
  Theorem C111_cut : forall (Q : Type) (IQ : InclusiveInterval I Q) z (q : Q), zreachable z -> valid q ->
    exists z' out, zosdit_cut q z = (z', Val out) /\
      length (zosdit_iter z') <= length (zosdit_iter z) + 1 /\
      (length (zosdit_iter z') = length (zosdit_iter z) + 1 <->
       exists k v, In (k, v) (zosdit_iter z) /\ sticks_out_on_both_sides k q).
  Proof.
    intros Q IQ z q R Vq. destruct (zcut_size z q (zreachable_ZWF z R) Vq) as (z' & out & E & L & X).
    exists z', out. split; [exact E|]. split; [exact L|]. change (length (zosdit_iter z')) with (count (z_inner z')).
    change (length (zosdit_iter z)) with (count (z_inner z)). rewrite X. change (flatten (z_inner z)) with (zosdit_iter z).
    apply valid_rk in Vq. split.
    - intros ([k v] & Hi & A & B). exists k, v. split; [exact Hi|]. exists (istart k), (iend k). unfold elo, ehi in *. cbn [fst] in *.
      rewrite !covers_rk. unfold lo, hi in *. split; [lia|]. split; [lia|].
      intros p Hp. rewrite covers_rk in Hp. rewrite !plt_rk. unfold lo, hi in *. lia.
    - intros (k & v & Hi & a & b & Ha & Hb & Hp). exists (k, v). split; [exact Hi|]. rewrite covers_rk in Ha, Hb.
      pose proof (Hp (istart q)) as A. pose proof (Hp (iend q)) as B. rewrite covers_rk, !plt_rk in A, B.
      unfold elo, ehi, lo, hi in *. cbn [fst] in *. lia.
  Qed.
  (** After a history there are at most as many entries as it was given to
      insert, plus the number of its cuts. *)
  Theorem C111_history : forall os, length (zosdit_iter (zrun os)) <= list_sum (map zhanded os).
  Proof. exact zrun_size. Qed.
End Zosdit.

(** The bound is attained; a value removed or refused is not counted. *)
Example C111_example :
  length (zosdit_iter (zrun [ZInsertStrictBack (0 --> 100) 1; ZInsertStrictBack (100 --> 100) 2;
    ZCut (20 --> 30 : Interval u8); ZCut (50 --> 50 : Interval u8)])) = 4 /\
  list_sum (map zhanded [ZInsertStrictBack (0 --> 100 : Interval u8) 1; ZInsertStrictBack (100 --> 100) 2;
    ZCut (20 --> 30 : Interval u8); ZCut (50 --> 50 : Interval u8)]) = 4 /\
  length (zosdit_iter (zrun [ZInsertStrictBack (0 --> 100 : Interval u8) 1; ZInsertStrictBack (50 --> 60) 2; ZCut (90 --> 100 : Interval u8)])) = 1.
Proof. vm_compute. repeat split; reflexivity. Qed.
Print Assumptions C110_entries_start_where_identifiers_change.
Print Assumptions C110_fewest_entries.
Print Assumptions C110_calls.
Print Assumptions C110_history.
Print Assumptions C111_cut.
Print Assumptions C111_history.
