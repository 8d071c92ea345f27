(** * BookingFacts: several users booking places in a Gqdit (the proofs of C170). *)
From Coq Require Import List ZArith Bool Lia ZifyBool Sorting.Sorted.
From Verif Require Import Base BTree UtilsModel IntervalModel NoditModel GqditModel GqditOps InstancesModel Instances Spec FirstFitOps BookingOps
  PointFacts IntervalFacts ListFacts NoditFacts NoditInv NoditQueries NoditGaps GqditFacts GqditProofs GqditGaps IntervalProofs MergeAllFacts FirstFitFacts.
Import ListNotations.
Open Scope Z_scope.

Section Runs.
  Context {lo hi : Z} `{T : IntType lo hi}.
  Notation int := (int lo hi).
  Context (P : int -> Prop) (Pd : forall p, P p \/ ~ P p).
  Lemma run_left : forall (k : nat) (s : int), P s -> ival s - lo <= Z.of_nat k ->
    exists a : int, ival a <= ival s /\ (forall p : int, ival a <= ival p <= ival s -> P p) /\ (forall a' : int, ival a' = ival a - 1 -> ~ P a').
  Proof.
    induction k as [|k IH]; intros s Ps L.
    - exists s. pose proof (int_range s). split; [lia|]. split; [intros p Hp; replace p with s by (apply int_eq; lia); exact Ps|]. intros a' E. pose proof (int_range a'). lia.
    - destruct (Z.eq_dec (ival s) lo) as [E|N].
      + exists s. split; [lia|]. split; [intros p Hp; replace p with s by (apply int_eq; lia); exact Ps|]. intros a' E'. pose proof (int_range a'). lia.
      + pose proof (int_range s). destruct (at_int (lo := lo) (hi := hi) (ival s - 1)) as (t & Ht); [lia|]. destruct (Pd t) as [Pt|Nt].
        * destruct (IH t Pt) as (a & A & B & C); [lia|]. exists a. split; [lia|]. split; [|exact C]. intros p Hp.
          destruct (Z.eq_dec (ival p) (ival s)) as [E|E]; [replace p with s by (apply int_eq; lia); exact Ps|apply B; lia].
        * exists s. split; [lia|]. split; [intros p Hp; replace p with s by (apply int_eq; lia); exact Ps|]. intros a' E'. replace a' with t by (apply int_eq; lia). exact Nt.
  Qed.
  Lemma run_right : forall (k : nat) (s : int), P s -> hi - ival s <= Z.of_nat k ->
    exists a : int, ival s <= ival a /\ (forall p : int, ival s <= ival p <= ival a -> P p) /\ (forall a' : int, ival a' = ival a + 1 -> ~ P a').
  Proof.
    induction k as [|k IH]; intros s Ps L.
    - exists s. pose proof (int_range s). split; [lia|]. split; [intros p Hp; replace p with s by (apply int_eq; lia); exact Ps|]. intros a' E. pose proof (int_range a'). lia.
    - destruct (Z.eq_dec (ival s) hi) as [E|N].
      + exists s. split; [lia|]. split; [intros p Hp; replace p with s by (apply int_eq; lia); exact Ps|]. intros a' E'. pose proof (int_range a'). lia.
      + pose proof (int_range s). destruct (at_int (lo := lo) (hi := hi) (ival s + 1)) as (t & Ht); [lia|]. destruct (Pd t) as [Pt|Nt].
        * destruct (IH t Pt) as (a & A & B & C); [lia|]. exists a. split; [lia|]. split; [|exact C]. intros p Hp.
          destruct (Z.eq_dec (ival p) (ival s)) as [E|E]; [replace p with s by (apply int_eq; lia); exact Ps|apply B; lia].
        * exists s. split; [lia|]. split; [intros p Hp; replace p with s by (apply int_eq; lia); exact Ps|]. intros a' E'. replace a' with t by (apply int_eq; lia). exact Nt.
  Qed.
  Lemma run_through (s : int) : P s -> exists j : Interval int, max_run P j /\ covers j s.
  Proof.
    intros Ps. destruct (run_left (Z.to_nat (ival s - lo)) s Ps) as (a & A1 & A2 & A3); [pose proof (int_range s); rewrite Z2Nat.id by lia; lia|].
    destruct (run_right (Z.to_nat (hi - ival s)) s Ps) as (c & C1 & C2 & C3); [pose proof (int_range s); rewrite Z2Nat.id by lia; lia|].
    exists (mkInterval a c). split; [|apply covers_int; cbn; lia]. split; [apply valid_int; cbn; lia|]. split.
    - intros p Hp. rewrite covers_int in Hp. cbn in Hp. destruct (Z.le_gt_cases (ival p) (ival s)); [apply A2|apply C2]; lia.
    - intros j Hj (x & Hx & Hx') p Hp. rewrite covers_int in Hx, Hx', Hp. cbn in Hx. apply covers_int. cbn.
      destruct (Z.lt_ge_cases (ival p) (ival a)) as [L|L].
      { destruct (at_int (lo := lo) (hi := hi) (ival a - 1)) as (t & Ht); [pose proof (int_range p); pose proof (int_range a); lia|]. destruct (A3 t Ht). apply Hj, covers_int. lia. }
      destruct (Z.lt_ge_cases (ival c) (ival p)) as [L'|L']; [|lia].
      destruct (at_int (lo := lo) (hi := hi) (ival c + 1)) as (t & Ht); [pose proof (int_range p); pose proof (int_range c); lia|]. destruct (C3 t Ht). apply Hj, covers_int. lia.
  Qed.
End Runs.

Section Facts.
  Context {lo hi : Z} `{T : IntType lo hi}.
  Notation int := (int lo hi).
  Context {K : Type} {IK : InclusiveInterval int K} {IL : IntervalLaws int K} {FI : FromInvalid int K}.
  Context {D : Type} {OD : Ord D} {OL : OrdLaws D}.
  Context {Q : Type} {IQ : InclusiveInterval int Q}.
  Implicit Types (g : Gqdit K D) (b : build) (q : Q) (n s p : int) (d : D).

  Lemma id_dec (d d' : D) : {d = d'} + {d <> d'}.
  Proof. destruct (cmp d d') eqn:E; [left; apply cmp_eq, E|right; intros ->..]; rewrite (proj2 (cmp_eq d' d') eq_refl) in E; discriminate. Qed.
  Lemma free_but_dec d g p : GWF g -> free_but d g p \/ ~ free_but d g p.
  Proof.
    intros G. destruct (ids_maps g p G) as (s & E & _). destruct (Forall_dec (fun d' => d' = d) (fun d' => id_dec d' d) s) as [F|F].
    - left. intros d' (s' & E' & Hi). rewrite E in E'. injection E' as <-. rewrite Forall_forall in F. apply F, Hi.
    - right. intros X. apply F, Forall_forall. intros d' Hi. apply X. exists s. auto.
  Qed.

  Lemma in_trimmed q (gs : list K) r : In r (trimmed q gs) <-> exists r0, In r0 gs /\ intersection r0 q = Some r.
  Proof.
    unfold trimmed. rewrite in_flat_map. split; intros (r0 & Hi & X); exists r0; (split; [exact Hi|]).
    - destruct (intersection r0 q); [destruct X as [->|[]]; reflexivity|destruct X].
    - rewrite X. left. reflexivity.
  Qed.
  Lemma cut_both (r0 : K) q r : intersection r0 q = Some r -> forall p, covers r p <-> covers r0 p /\ covers q p.
  Proof.
    intros E. destruct (overlap_dec2 r0 q) as [O|O]; [|rewrite (intersection_None r0 q O) in E; discriminate].
    destruct (intersection_Some r0 q O) as (i & E' & X). rewrite E in E'. injection E' as <-. exact X.
  Qed.
  Lemma trimmed_ascending q (gs : list K) : ascending gs -> ascending (trimmed q gs).
  Proof.
    induction 1 as [|r0 gs As IH F]; [constructor|]. cbn [trimmed flat_map]. fold (trimmed q gs). destruct (intersection r0 q) as [r|] eqn:E; [|exact IH].
    constructor; [exact IH|]. rewrite Forall_forall in *. intros r' Hr'. apply in_trimmed in Hr'. destruct Hr' as (r0' & Hi & E').
    intros x y Hx Hy. apply (cut_both _ _ _ E) in Hx. apply (cut_both _ _ _ E') in Hy. apply (F r0' Hi); tauto.
  Qed.

  Lemma book_spec b g q d n : lo <= 0 -> GWF g -> valid q -> 0 <= ival n -> ival (iend q) - ival (istart q) <= hi ->
    (exists k g', book b q d n g = (g', Val (Some k)) /\ gqdit_insert (collect [d]) k g = (g', Val tt) /\ GWF g' /\
       (forall p d', has_id g' p d' <-> has_id g p d' \/ (covers k p /\ d' = d)) /\
       ival (iend k) = ival (istart k) + ival n /\ vacant g q d n (istart k) /\ forall s, vacant g q d n s -> ival (istart k) <= ival s) \/
    (book b q d n g = (g, Val None) /\ forall s, ~ vacant g q d n s).
  Proof.
    intros L0 G Vq Ln Lq. destruct (gaps_with_spec g d q G Vq) as (gs0 & E & As0 & Rn & Al).
    set (gs := trimmed q gs0). assert (As : ascending gs) by (apply trimmed_ascending, As0).
    assert (Ends : forall r, In r gs -> valid r /\ ival (istart q) <= ival (istart r) /\ ival (iend r) <= ival (iend q) /\ ival (istart r) <= ival (iend r) /\
                     forall p, covers r p -> covers q p /\ free_but d g p).
    { intros r Hr. apply in_trimmed in Hr. destruct Hr as (r0 & Hi & Er). pose proof (cut_both _ _ _ Er) as C. destruct (Rn r0 Hi) as [(V0 & P0 & _) (x & X1 & X2)].
      assert (Vr : valid r). { exists x. apply C. split; [|exact X2]. exact X1. } pose proof Vr as Vr'. apply valid_int in Vr'.
      destruct (proj1 (C (istart r))) as [_ C1]; [apply covers_int; lia|]. destruct (proj1 (C (iend r))) as [_ C2]; [apply covers_int; lia|].
      rewrite covers_int in C1, C2. split; [exact Vr|]. repeat (split; [lia|]). intros p Hp. apply C in Hp. split; [apply Hp|apply P0, Hp]. }
    assert (In' : forall s, vacant g q d n s -> exists r, In r gs /\ ival (istart r) <= ival s /\ ival s + ival n <= ival (iend r)).
    { intros s [Ls F]. destruct (F s) as [Cs Fs]; [lia|]. destruct (run_through (free_but d g) (fun p => free_but_dec d g p G) s Fs) as (j & Mj & Hj).
      destruct (Al j Mj) as (r0 & Hi & Sr); [exists s; auto|]. apply Sr in Hj. destruct (at_int (lo := lo) (hi := hi) (ival s + ival n)) as (e & He); [pose proof (int_range s); lia|].
      destruct (Rn r0 Hi) as [(_ & _ & M) _]. assert (C0 : forall p, ival s <= ival p <= ival e -> covers r0 p).
      { intros p Hp. apply (M (mkInterval s e)); [|exists s; split; [exact Hj|apply covers_int; cbn; lia]|apply covers_int; cbn; lia].
        intros x Hx. rewrite covers_int in Hx. cbn in Hx. apply F. lia. }
      destruct (intersection_Some r0 q) as (r & Er & C); [exists s; auto|]. exists r. split; [apply in_trimmed; exists r0; auto|].
      assert (C1 : covers r s) by (apply C; auto). assert (C2 : covers r e) by (apply C; split; [apply C0; lia|apply F; lia]). rewrite covers_int in C1, C2. lia. }
    unfold book. rewrite E. cbn [obind]. fold gs.
    destruct (find_wide_spec b n gs L0) as [(l1 & r & l2 & El & -> & Wg & F)|[-> F]].
    { intros r Hr. destruct (Ends r Hr) as (Vr & X). split; [exact Vr|lia]. }
    - left. assert (Hr : In r gs) by (rewrite El; apply in_app_iff; right; left; reflexivity). destruct (Ends r Hr) as (Vr & X1 & X2 & X3 & X4).
      destruct (plus_build b (istart r) n) as (e & -> & He); [pose proof (int_range (istart r)); pose proof (int_range (iend r)); lia|]. cbn [obind].
      assert (Eii : ii (istart r) e = Val (mkInterval (istart r) e)).
      { unfold ii, IntervalModel.checked. rewrite iip_valid; [reflexivity|]. apply valid_int. cbn. lia. }
      rewrite Eii. set (k := ifrom (mkInterval (istart r) e) : K). destruct (from_int (K := K) (istart r) e) as [Ks Ke]; [lia|]. fold k in Ks, Ke.
      assert (Vk : valid k) by (apply valid_int; lia). destruct (insert_has (collect [d]) k g G Vk (collect_set [d])) as (g' & Ei & G' & M).
      rewrite Ei. exists k, g'. split; [reflexivity|]. split; [exact Ei|]. split; [exact G'|]. split.
      { intros p d'. rewrite M, collect_in. cbn. intuition congruence. }
      split; [lia|]. split.
      + split; [pose proof (int_range e); lia|]. intros p Hp. apply X4, covers_int. lia.
      + intros s Rs. destruct (In' s Rs) as (r' & Hr' & A & B). rewrite El in Hr', As. apply in_app_iff in Hr'. destruct Hr' as [Hr'|[<-|Hr']]; [|lia|].
        * specialize (F r' Hr'). pose proof (int_range s). lia.
        * unfold ascending in As. apply SS_app in As. destruct As as (_ & As & _). apply SS_cons in As. destruct As as [_ As]. rewrite Forall_forall in As.
          pose proof (As r' Hr' (istart r) (istart r')) as Bf. assert (V' := Ends r' ltac:(rewrite El; apply in_app_iff; right; right; exact Hr')).
          assert (plt (istart r) (istart r')) as L by (apply Bf; rewrite covers_int; lia). rewrite plt_int in L. lia.
    - right. split; [reflexivity|]. intros s Rs. destruct (In' s Rs) as (r & Hr & A & B). specialize (F r Hr). lia.
  Qed.

  (** ** Histories *)
  Lemma give_back g d (k : K) : GWF g -> GWF (fst (cut_with_identifiers (collect [d]) k g)) /\
    forall p d', has_id (fst (cut_with_identifiers (collect [d]) k g)) p d' <-> has_id g p d' /\ ~ (covers k p /\ d' = d).
  Proof.
    intros G. destruct (valid_dec k) as [Vk|Vk].
    - destruct (cut_with_has (collect [d]) k g G Vk) as (g' & -> & G' & M). cbn [fst]. split; [exact G'|]. intros p d'. rewrite M, collect_in. cbn. intuition congruence.
    - unfold cut_with_identifiers. rewrite iip_invalid by exact Vk. cbn [fst]. split; [exact G|]. intros p d'. split; [|tauto]. intros X. split; [exact X|]. intros [C _]. apply Vk. exists p. exact C.
  Qed.
  (** What one deed changes. *)
  Lemma act_spec b g q (a : deed lo hi K D) : lo <= 0 -> valid q -> ival (iend q) - ival (istart q) <= hi -> (forall d n, a = Book d n -> 0 <= ival n) -> GWF g ->
    GWF (act b q g a) /\ forall p d, has_id (act b q g a) p d <->
      match a with
      | Book d0 n => has_id g p d \/ d = d0 /\ exists g' k, book b q d0 n g = (g', Val (Some k)) /\ covers k p
      | GiveBack d0 k => has_id g p d /\ ~ (covers k p /\ d = d0)
      end.
  Proof.
    intros L0 Vq Lq Hn G. destruct a as [d0 n|d0 k]; cbn [act]; [|apply give_back, G].
    destruct (book_spec b g q d0 n L0 G Vq (Hn d0 n eq_refl) Lq) as [(k & g' & -> & _ & G' & M & _)|[-> _]]; cbn [fst].
    - split; [exact G'|]. intros p d. rewrite M. split; (intros [X|X]; [left; exact X|right]).
      + split; [apply X|]. exists g', k. split; [reflexivity|apply X].
      + destruct X as (-> & g1 & k1 & E & C). injection E as <- <-. auto.
    - split; [exact G|]. intros p d. split; [tauto|]. intros [X|(_ & g' & k & E & _)]; [exact X|discriminate].
  Qed.
  Lemma acts_snoc b q l (a : deed lo hi K D) : acts b q (l ++ [a]) = act b q (acts b q l) a.
  Proof. unfold acts. apply fold_left_app. Qed.
  Lemma act_reachable b q g (a : deed lo hi K D) : greachable g -> greachable (act b q g a).
  Proof.
    intros (os & ->). assert (X : forall o : gop int K D, greachable (gstep o (grun os))) by (intros o; exists (os ++ [o]); unfold grun, gsteps; rewrite fold_left_app; reflexivity).
    assert (N : greachable (grun (I := int) (K := K) (D := D) os)) by (exists os; reflexivity).
    destruct a as [d0 n|d0 k]; cbn [act]; [|exact (X (GCutWith [d0] k))]. unfold book. destruct (obind _ _) as [[r|]|]; [|exact N..].
    destruct (obind _ _) as [i|]; [|exact N]. pose proof (X (GInsert [d0] (ifrom i))) as Y. cbn [gstep] in Y. destruct (gqdit_insert (collect [d0]) (ifrom i) (grun os)) as [g' [u|]]; exact Y.
  Qed.
  Lemma acts_spec b q (l : list (deed lo hi K D)) : lo <= 0 -> valid q -> ival (iend q) - ival (istart q) <= hi -> (forall d n, In (Book d n) l -> 0 <= ival n) ->
    greachable (acts b q l) /\
    (forall p d d', has_id (acts b q l) p d -> has_id (acts b q l) p d' -> d' = d) /\
    (forall p d, has_id (acts b q l) p d <-> exists l1 n l2 g' k, l = l1 ++ Book d n :: l2 /\ book b q d n (acts b q l1) = (g', Val (Some k)) /\ covers k p /\
       forall k', In (GiveBack d k') l2 -> ~ covers k' p).
  Proof.
    intros L0 Vq Lq. induction l as [|a l IH] using rev_ind; intros Hn.
    - assert (N : forall p d, ~ has_id (acts b q ([] : list (deed lo hi K D))) p d) by (intros p d; apply gnew_free).
      split; [exists []; reflexivity|]. split; [intros p d d' X; destruct (N p d X)|]. intros p d. split; [intros X; destruct (N p d X)|]. intros ([|? ?] & n & l2 & g' & k & E & _); discriminate.
    - destruct IH as (Rl & One & Who); [intros d n Hi; apply (Hn d n), in_app_iff; auto|]. rewrite acts_snoc. pose proof (greachable_GWF _ Rl) as G. split; [apply act_reachable, Rl|].
      assert (Ha : forall d n, a = Book d n -> 0 <= ival n) by (intros d n ->; apply (Hn d n), in_app_iff; right; left; reflexivity).
      destruct (act_spec b (acts b q l) q a L0 Vq Lq Ha G) as [_ M]. split.
      + intros p d d'. rewrite !M. destruct a as [d0 n|d0 k].
        * destruct (book_spec b (acts b q l) q d0 n L0 G Vq (Ha d0 n eq_refl) Lq) as [(k & g' & E & _ & _ & _ & W & (_ & Vc) & _)|[E _]].
          2: { intros [X|(_ & ? & ? & E' & _)] [Y|(_ & ? & ? & E'' & _)]; [exact (One p d d' X Y)|congruence..]. }
          assert (O : forall d, has_id (acts b q l) p d -> covers k p -> d = d0) by (intros d1 X C; rewrite covers_int in C; apply (Vc p ltac:(lia)), X).
          intros [X|(-> & g1 & k1 & E1 & C1)] [Y|(-> & g2 & k2 & E2 & C2)]; [exact (One p d d' X Y)|..|reflexivity].
          -- rewrite E in E2. injection E2 as <- <-. symmetry. apply O; assumption.
          -- rewrite E in E1. injection E1 as <- <-. apply O; assumption.
        * intros [X _] [Y _]. exact (One p d d' X Y).
      + intros p d. rewrite M. split.
        * intros X. assert (Old : has_id (acts b q l) p d -> (forall k', a = GiveBack d k' -> ~ covers k' p) -> exists l1 n l2 g' k, l ++ [a] = l1 ++ Book d n :: l2 /\ book b q d n (acts b q l1) = (g', Val (Some k)) /\ covers k p /\
            forall k', In (GiveBack d k') l2 -> ~ covers k' p).
          { intros Y Z. apply Who in Y. destruct Y as (l1 & n & l2 & g' & k & -> & B & C & F). exists l1, n, (l2 ++ [a]), g', k. rewrite <- app_assoc. split; [reflexivity|]. split; [exact B|]. split; [exact C|].
            intros k' Hi. apply in_app_iff in Hi. destruct Hi as [Hi|[Ea|[]]]; [apply F, Hi|apply Z; exact Ea]. }
          destruct a as [d0 n|d0 k0].
          -- destruct X as [X|(-> & g' & k & B & C)]; [apply Old; [exact X|discriminate]|]. exists l, n, [], g', k. auto.
          -- apply Old; [apply X|]. intros k' E. injection E as -> ->. intros C. apply (proj2 X). auto.
        * intros (l1 & n & l2 & g' & k & E & B & C & F). destruct l2 as [|x l2 _] using rev_ind.
          -- apply app_inj_tail in E. destruct E as [-> ->]. right. split; [reflexivity|]. exists g', k. auto.
          -- rewrite app_comm_cons, app_assoc in E. apply app_inj_tail in E. destruct E as [-> ->].
             assert (X : has_id (acts b q (l1 ++ Book d n :: l2)) p d). { apply Who. exists l1, n, l2, g', k. split; [reflexivity|]. split; [exact B|]. split; [exact C|]. intros k' Hi. apply F, in_app_iff. auto. }
             destruct x as [d0 n0|d0 k0]; [left; exact X|]. split; [exact X|]. intros [C0 <-]. apply (F k0); [apply in_app_iff; right; left; reflexivity|exact C0].
  Qed.
End Facts.
