(** * PropsAccounts: how many entries there are, and where the values go
      (C77-C79).  The callers are defined in Ledger.v. *)
From Coq Require Import List ZArith Bool Lia Sorting.Sorted Permutation.
From Verif Require Import Base BTree UtilsModel IntervalModel NoditModel NoditOps ZosditModel ZosditOps Spec Ledger
  InstancesModel Instances PointFacts IntervalFacts ListFacts NoditFacts NoditQueries NoditMutations NoditMerges NoditInv
  NoditSize AccountFacts ZosditFacts ZosditMut ZosditProofs PropsNodit.
Import ListNotations.
Open Scope nat_scope.

Section Props.
  Context {I : Type} `{PL : PointLaws I}.
  Context {K : Type} {IK : InclusiveInterval I K} {IL : IntervalLaws I K}.
  Context {V : Type}.
  Implicit Types (m : NoditMap K V) (z : ZosditMap K V).

  (** ** C77 *)
  Theorem C77_cut_size : forall (Q : Type) (IQ : InclusiveInterval I Q) m (q : Q), reachable m -> valid q ->
    exists m' out, cut q m = (m', Val out) /\
      len m' <= len m + 1 /\
      (len m' = len m + 1 <-> exists k v, In (k, v) (iter m) /\ sticks_out_on_both_sides k q).
  Proof.
    intros Q IQ m q R Vq. destruct (cut_size m q (reachable_WF m R) Vq) as (m' & out & E & L & X & _).
    exists m', out. split; [exact E|]. split; [exact L|]. rewrite X. apply valid_rk in Vq. split.
    - intros (k & v & Hi & A & B). exists k, v. split; [exact Hi|]. exists (istart k), (iend k).
      rewrite !covers_rk. unfold lo, hi in *. split; [lia|]. split; [lia|].
      intros p Hp. rewrite covers_rk in Hp. rewrite !plt_rk. unfold lo, hi in *. lia.
    - intros (k & v & Hi & a & b & Ha & Hb & Hp). exists k, v. split; [exact Hi|]. rewrite covers_rk in Ha, Hb.
      pose proof (Hp (istart q)) as A. pose proof (Hp (iend q)) as B. rewrite covers_rk, !plt_rk in A, B.
      unfold lo, hi in *. lia.
  Qed.
  Theorem C77_insert_overwrite_size : forall m k v, reachable m -> valid k ->
    exists m' out, insert_overwrite k v m = (m', Val out) /\ len m' = len (fst (cut k m)) + 1.
  Proof.
    intros m k v R Vk. destruct (overwrite_size m k v (reachable_WF m R) Vk) as (m' & out & E & L & _).
    exists m', out. split; [exact E|]. unfold len in *. rewrite L. lia.
  Qed.
  Theorem C77_history_size : forall ops : list (op I K V), len (run ops) <= 2 * list_sum (map handed ops) - 1.
  Proof. exact run_size. Qed.

  (** ** C78 *)
  Theorem C78_values_are_conserved : forall m (ms : list (move I K V)), reachable m -> Forall gives_valid ms ->
    let '(m', back) := play ms m in
    Permutation (given ms ++ map snd (iter m)) (map snd (iter m') ++ back).
  Proof.
    intros m ms R HV. pose proof (play_conserves ms m (reachable_WF m R) HV) as X.
    destruct (play ms m) as [m' back]. exact X.
  Qed.

  (** ** C79 *)
  Theorem C79_zosdit_values_are_conserved : forall z (ms : list (zmove I K V)), zreachable z -> Forall zgives_valid ms ->
    let '(z', back) := zplay ms z in
    Permutation (zgiven ms ++ map snd (zosdit_iter z)) (map snd (zosdit_iter z') ++ back).
  Proof.
    intros z ms R HV. pose proof (zplay_conserves ms z (zreachable_ZWF z R) HV) as X.
    destruct (zplay ms z) as [z' back]. exact X.
  Qed.
  Theorem C79_zosdit_cut_conserves : forall (Q : Type) (IQ : InclusiveInterval I Q) z (q : Q), zreachable z -> valid q ->
    exists z' out, zosdit_cut q z = (z', Val out) /\
      forall p vs vo vs', values_at (zosdit_iter z) p vs -> values_at out p vo -> values_at (zosdit_iter z') p vs' ->
        vs = vo ++ vs' /\ (vo = [] \/ vs' = []) /\ (~ covers q p -> vo = []).
  Proof.
    intros Q IQ z q R Vq. destruct (zcut_conserves z q (zreachable_ZWF z R) Vq) as (z' & out & E & X).
    exists z', out. split; [exact E|]. intros p vs vo vs'. rewrite !values_at_vals. intros -> -> ->.
    destruct (X p) as (A & B & C). split; [exact A|]. split; [|exact C].
    destruct (contains_point q p) eqn:Eq.
    - apply B, contains_point_true, Eq.
    - left. apply C. rewrite <- contains_point_true, Eq. discriminate.
  Qed.
End Props.

(** [cut] splits 20..=30; the bound of C77 is attained by a history of three
    overwrites. *)
Example C77_example :
  len (fst (cut (24 --> 25) ex_map)) = len ex_map + 1 /\
  sticks_out_on_both_sides (20 --> 30 : Interval u8) (24 --> 25 : Interval u8) /\
  len (run [OpInsertOverwrite (0 --> 100) 1; OpInsertOverwrite (10 --> 90) 2; OpInsertOverwrite (20 --> 80) 3]) = 2 * 3 - 1.
Proof.
  split; [vm_compute; reflexivity|]. split; [|vm_compute; reflexivity].
  exists ('20), ('30). split; [|split].
  - split; vm_compute; discriminate.
  - split; vm_compute; discriminate.
  - intros p [A B]. change (24 <= ival p)%Z in A. change (ival p <= 25)%Z in B.
    split; [change (20 < ival p)%Z|change (ival p < 30)%Z]; lia.
Qed.

(** Two values are refused, two are removed, one stays. *)
Example C78_example :
  let ms : list (move u8 (Interval u8) nat) := [Give (1 --> 5) 10; Give (5 --> 7) 11; Give (6 --> 9) 12; Take (4 --> 6); Give (2 --> 3) 13] in
  Forall gives_valid ms /\ play ms new = ([(2 --> 3, 13)], [11; 10; 12]) /\ given ms = [10; 11; 12; 13].
Proof.
  split; [|split; vm_compute; reflexivity].
  assert (A : forall (k : Interval u8) (v : nat) l, leb (istart k) (iend k) = true -> Forall gives_valid l ->
    Forall gives_valid ((Give k v : move u8 (Interval u8) nat) :: l)) by (intros [a b] v l E F; constructor; [apply ex_valid, E|exact F]).
  apply A; [vm_compute; reflexivity|]. apply A; [vm_compute; reflexivity|]. apply A; [vm_compute; reflexivity|].
  constructor; [exact Logic.I|]. apply A; [vm_compute; reflexivity|]. constructor.
Qed.

Definition ex_zledger : ZosditMap (Interval u8) nat :=
  zrun [ZInsertStrictBack (1 --> 4) 1; ZInsertStrictBack (4 --> 4) 2; ZInsertStrictBack (4 --> 4) 3; ZInsertStrictBack (4 --> 9) 4].
Example C79_example :
  zosdit_iter ex_zledger = [(1 --> 4, 1); (4 --> 4, 2); (4 --> 4, 3); (4 --> 9, 4)] /\
  (let '(z', out) := zosdit_cut (4 --> 6) ex_zledger in
   zosdit_iter z' = [(1 --> 3, 1); (7 --> 9, 4)] /\
   out = Val [(4 --> 4, 1); (4 --> 4, 2); (4 --> 4, 3); (4 --> 6, 4)]) /\
  (let '(z', back) := zplay [ZGive (6 --> 7) 5; ZTake ('4); ZTake ('4)] ex_zledger in
   back = [5; 4; 3] /\ map snd (zosdit_iter z') = [1; 2]).
Proof. split; [|split]; vm_compute; auto. Qed.
Print Assumptions C77_cut_size.
Print Assumptions C77_insert_overwrite_size.
Print Assumptions C77_history_size.
Print Assumptions C78_values_are_conserved.
Print Assumptions C79_zosdit_values_are_conserved.
Print Assumptions C79_zosdit_cut_conserves.
