(** * GqditGaps: [gaps_with_identifier]. *)
From Coq Require Import List ZArith Bool Arith Lia ZifyBool Sorting.Sorted.
From Verif Require Import Base BTree UtilsModel IntervalModel NoditModel GqditModel GqditOps Spec
  PointFacts IntervalFacts ListFacts NoditFacts NoditQueries NoditGaps NoditMutations NoditMerges NoditInv NoditMore GqditFacts GqditProofs.
Import ListNotations.
Open Scope Z_scope.

Section Coalesce.
  Context {I : Type} `{PL : PointLaws I}.
  Context {K : Type} {IK : InclusiveInterval I K} {IL : IntervalLaws I K} {FI : FromInvalid I K}.
  Implicit Types (k x c : K) (p : I) (l xs cs : list K).

  Definition in_some l p : Prop := exists x, In x l /\ covers x p.
  Definition apart l : Prop := StronglySorted (fun a b => hi a < lo b) l /\ Forall (fun a => lo a <= hi a) l.
  Lemma apart_cons x l : apart (x :: l) <-> lo x <= hi x /\ apart l /\ Forall (fun y => hi x < lo y) l.
  Proof.
    unfold apart. rewrite Forall_cons_iff. split.
    - intros [S [V F]]. inversion S; subst. auto.
    - intros (V & [S F] & B). split; [constructor; assumption|auto].
  Qed.
  Lemma merge_val (a b : K) : lo a <= hi b -> merge_ordered a b = Val (mkInterval (istart a) (iend b)).
  Proof. intros V. unfold merge_ordered, ii. apply checked_val. exact V. Qed.

  Definition join_touching (x y : K) : outcome (option K) :=
    let? t := touches_ordered x y in
    if t then let? m := merge_ordered x y in Val (Some (ifrom m)) else Val None.
  Lemma join_touching_spec x y : lo x <= hi x -> lo y <= hi y -> hi x < lo y ->
    (hi x + 1 = lo y -> exists j, join_touching x y = Val (Some j) /\ lo j = lo x /\ hi j = hi y) /\
    (hi x + 1 <> lo y -> join_touching x y = Val None).
  Proof.
    intros Vx Vy L. unfold join_touching, touches_ordered.
    destruct (down_exists (istart y) (iend x)) as (d & E & Rd); [exact L|]. rewrite E. cbn [unwrap obind].
    rewrite eqb_rk, Rd. fold (hi x). fold (lo y). split; intros T.
    - rewrite (proj2 (Z.eqb_eq _ _)) by lia. rewrite merge_val by lia. cbn [obind].
      exists (ifrom (mkInterval (istart x) (iend y))). split; [reflexivity|].
      assert (V : lo (mkInterval (istart x) (iend y)) <= hi (mkInterval (istart x) (iend y))) by (unfold lo, hi in *; cbn; lia).
      rewrite from_lo, from_hi by exact V. split; reflexivity.
    - rewrite (proj2 (Z.eqb_neq _ _)) by lia. reflexivity.
  Qed.

  Lemma coalesce_from_spec l : forall x, apart (x :: l) ->
    exists cs, coalesce_from join_touching x l = Val cs /\ apart cs /\
      (forall p, in_some cs p <-> in_some (x :: l) p) /\
      (forall c c', In c cs -> In c' cs -> hi c + 1 <> lo c').
  Proof.
    induction l as [|y l IH]; intros x Ha; cbn [coalesce_from].
    - exists [x]. split; [reflexivity|]. split; [exact Ha|]. split; [reflexivity|].
      apply apart_cons in Ha. intros c c' [<-|[]] [<-|[]]. lia.
    - apply apart_cons in Ha. destruct Ha as (Vx & Ha & Fx). pose proof Ha as Ha'. apply apart_cons in Ha'. destruct Ha' as (Vy & Al & Fy).
      apply Forall_cons_iff in Fx. destruct Fx as [Lxy Fx]. destruct (join_touching_spec x y Vx Vy Lxy) as [J1 J2].
      destruct (Z.eq_dec (hi x + 1) (lo y)) as [T|T].
      + destruct (J1 T) as (j & -> & Lj & Hj). cbn [obind]. destruct (IH j) as (cs & E & A & U & N).
        { apply apart_cons. split; [lia|]. split; [exact Al|]. rewrite Hj. exact Fy. }
        exists cs. split; [exact E|]. split; [exact A|]. split; [|exact N]. intros p. rewrite U. unfold in_some. split.
        * intros (z & [<-|Hz] & C); [|exists z; cbn; auto]. apply covers_rk in C. rewrite Lj, Hj in C.
          destruct (Z_le_gt_dec (rk p) (hi x)); [exists x|exists y]; (split; [cbn; auto|apply covers_rk; lia]).
        * intros (z & [<-|[<-|Hz]] & C); [exists j|exists j|exists z; cbn; auto]; apply covers_rk in C; (split; [left; reflexivity|apply covers_rk; lia]).
      + rewrite (J2 T). cbn [obind]. destruct (IH y Ha) as (cs & E & A & U & N). rewrite E. cbn [obind]. exists (x :: cs).
        split; [reflexivity|].
        assert (B : forall c, In c cs -> hi x + 1 < lo c).
        { intros c Hc. destruct A as [_ A]. rewrite Forall_forall in A. specialize (A c Hc).
          assert (X : in_some cs (istart c)) by (exists c; split; [exact Hc|apply covers_rk; unfold lo, hi in *; lia]).
          apply U in X. destruct X as (z & Hz & C). apply covers_rk in C. fold (lo c) in C. rewrite Forall_forall in Fy.
          destruct Hz as [<-|Hz]; [lia|]. specialize (Fy z Hz). lia. }
        split; [|split].
        * apply apart_cons. split; [exact Vx|]. split; [exact A|]. apply Forall_forall. intros c Hc. specialize (B c Hc). lia.
        * intros p. unfold in_some in *. split.
          -- intros (z & [<-|Hz] & C); [exists x; cbn; auto|]. destruct (proj1 (U p)) as (w & Hw & Cw); [exists z; auto|]. exists w. cbn in *. tauto.
          -- intros (z & [<-|Hz] & C); [exists x; cbn; auto|]. destruct (proj2 (U p)) as (w & Hw & Cw); [exists z; auto|]. exists w. cbn in *. tauto.
        * intros c c' [<-|Hc] [<-|Hc'].
          -- lia.
          -- specialize (B c' Hc'). lia.
          -- specialize (B c Hc). destruct A as [_ A]. rewrite Forall_forall in A. specialize (A c Hc). lia.
          -- apply N; assumption.
  Qed.

  Lemma apart_order l c c' : apart l -> In c l -> In c' l -> c = c' \/ hi c < lo c' \/ hi c' < lo c.
  Proof.
    induction l as [|x l IH]; intros A Hc Hc'; [destruct Hc|]. apply apart_cons in A. destruct A as (_ & A & F).
    rewrite Forall_forall in F. destruct Hc as [<-|Hc], Hc' as [<-|Hc']; auto.
  Qed.

  Lemma coalesce_spec l : apart l ->
    exists cs, coalesce join_touching l = Val cs /\ apart cs /\ (forall p, in_some cs p <-> in_some l p) /\
      (forall c, In c cs -> max_run (in_some l) c).
  Proof.
    intros A. assert (X : exists cs, coalesce join_touching l = Val cs /\ apart cs /\ (forall p, in_some cs p <-> in_some l p) /\
      (forall c c', In c cs -> In c' cs -> hi c + 1 <> lo c')).
    { destruct l as [|x l]; [|apply coalesce_from_spec, A]. exists []. split; [reflexivity|]. split; [exact A|]. split; [reflexivity|]. intros c c' []. }
    destruct X as (cs & E & Ac & U & N). exists cs. split; [exact E|]. split; [exact Ac|]. split; [exact U|].
    intros c Hc. assert (V : lo c <= hi c) by (destruct Ac as [_ F]; rewrite Forall_forall in F; apply F, Hc).
    apply max_run_intro'; [exact V|intros p Hp; apply U; exists c; auto|]. intros p Hp X. apply U in X. destruct X as (c' & Hc' & C).
    apply covers_rk in C. pose proof (N c c' Hc Hc'). pose proof (N c' c Hc' Hc).
    destruct (apart_order cs c c' Ac Hc Hc') as [<-|[L|L]]; lia.
  Qed.

  Lemma in_some_rk l (x y : I) : rk x = rk y -> in_some l x -> in_some l y.
  Proof. intros E (c & Hc & C). exists c. split; [exact Hc|]. apply covers_rk in C. apply covers_rk. lia. Qed.
  Lemma max_run_next (P : I -> Prop) c p (x : I) : (forall y z, rk y = rk z -> P y -> P z) -> max_run P c -> covers c x -> P p -> (rk p = rk x + 1 \/ rk p = rk x - 1) -> covers c p.
  Proof.
    intros RP (V & Pc & M) Cx Pp R. assert (XY : forall z, rk z = rk p \/ rk z = rk x -> P z).
    { intros z [E|E]; [exact (RP p z (eq_sym E) Pp)|exact (RP x z (eq_sym E) (Pc x Cx))]. }
    destruct R as [R|R].
    - apply (M (mkInterval x p)).
      + intros z C. apply covers_rk in C. unfold lo, hi in C. cbn in C. apply XY. lia.
      + exists x. split; [exact Cx|]. apply covers_rk. unfold lo, hi. cbn. lia.
      + apply covers_rk. unfold lo, hi. cbn. lia.
    - apply (M (mkInterval p x)).
      + intros z C. apply covers_rk in C. unfold lo, hi in C. cbn in C. apply XY. lia.
      + exists x. split; [exact Cx|]. apply covers_rk. unfold lo, hi. cbn. lia.
      + apply covers_rk. unfold lo, hi. cbn. lia.
  Qed.

  (** From the pieces to the maximal intervals of [S] meeting [q]. *)
  Lemma pieces_to_runs {Q} {IQ : InclusiveInterval I Q} (q : Q) (S : I -> Prop) xs : apart xs ->
    (forall p, in_some xs p -> S p) ->
    (forall p p', in_some xs p -> S p' -> rk p' = rk p + 1 \/ rk p' = rk p - 1 -> in_some xs p') ->
    (forall p, S p -> covers q p -> in_some xs p) ->
    (forall x, In x xs -> overlap x q) ->
    exists cs, coalesce join_touching xs = Val cs /\ lists_max_runs S (fun j => overlap j q) cs.
  Proof.
    intros A HS HC HQ HO. destruct (coalesce_spec xs A) as (cs & E & Ac & U & R). exists cs. split; [exact E|].
    assert (RS : forall c, In c cs -> max_run S c).
    { intros c Hc. pose proof (R c Hc) as Rc. assert (V : lo c <= hi c) by (apply valid_rk, Rc). pose proof Rc as (_ & Pc & _).
      apply max_run_intro'; [exact V|intros p Hp; apply HS, Pc, Hp|]. intros p Hp Sp.
      assert (C1 : covers c (istart c)) by (apply covers_rk; unfold lo, hi in *; lia).
      assert (C2 : covers c (iend c)) by (apply covers_rk; unfold lo, hi in *; lia).
      destruct Hp as [Hp|Hp].
      - assert (X : covers c p).
        { apply (max_run_next _ c p (istart c) (in_some_rk xs) Rc C1); [|right; exact Hp]. apply (HC (istart c)); [apply Pc, C1|exact Sp|right; exact Hp]. }
        apply covers_rk in X. lia.
      - assert (X : covers c p).
        { apply (max_run_next _ c p (iend c) (in_some_rk xs) Rc C2); [|left; exact Hp]. apply (HC (iend c)); [apply Pc, C2|exact Sp|left; exact Hp]. }
        apply covers_rk in X. lia. }
    split; [apply SS_ascending; [apply Ac|]|split].
    - destruct Ac as [_ F]. eapply Forall_impl; [|exact F]. intros c. apply valid_rk.
    - intros c Hc. split; [apply RS, Hc|]. pose proof (R c Hc) as Rc. pose proof Rc as ((p & Cp) & Pc & M).
      destruct (Pc p Cp) as (x & Hx & Cx). destruct (HO x Hx) as (z & Z1 & Z2). exists z. split; [|exact Z2].
      apply (M (mkInterval (istart x) (iend x))); [|exists p; split; [exact Cp|exact Cx]|exact Z1].
      intros y Cy. exists x. split; [exact Hx|exact Cy].
    - intros j Hj (p & Cj & Cq). pose proof Hj as (_ & Pj & _). pose proof (HQ p (Pj p Cj) Cq) as X. apply U in X. destruct X as (c & Hc & Cc).
      exists c. split; [exact Hc|]. apply (max_run_same S c j p (RS c Hc) Hj Cc Cj).
  Qed.
End Coalesce.

Section Expand.
  Context {I : Type} `{PL : PointLaws I}.
  Context {K : Type} {IK : InclusiveInterval I K} {IL : IntervalLaws I K} {FI : FromInvalid I K}.
  Context {V : Type}.
  Notation entry := (K * V)%type.
  Implicit Types (e : entry) (p : I) (A B : list entry).

  (** Entries going down without a gap from below [z] to the least point; up
      without a gap from above [z] to the greatest. *)
  Inductive down_chain : Z -> list entry -> Prop :=
  | dc_nil : down_chain (rk MIN) []
  | dc_cons e l : elo e <= ehi e -> down_chain (elo e) l -> down_chain (ehi e + 1) (e :: l).
  Inductive up_chain : Z -> list entry -> Prop :=
  | uc_nil : up_chain (rk MAX) []
  | uc_cons e l : elo e <= ehi e -> up_chain (ehi e) l -> up_chain (elo e - 1) (e :: l).

  Lemma covered_chain_down A : forall z, WF A -> rk MIN <= z <= rk MAX + 1 -> Forall (fun e => ehi e < z) A ->
    (forall p, rk p < z -> covered A p) -> down_chain z (rev A).
  Proof.
    induction A as [|e A IH] using rev_ind; intros z W R F C.
    - cbn. replace z with (rk MIN); [constructor|]. destruct (Z.eq_dec (rk MIN) z) as [X|X]; [exact X|exfalso].
      destruct (C MIN) as (k & v & [] & _). lia.
    - rewrite rev_app_distr. cbn [rev app]. apply WF_app in W. destruct W as (WA & We & WW). apply WF_one in We.
      apply Forall_app in F. destruct F as [FA Fe]. apply Forall_inv in Fe.
      assert (L : forall x, In x A -> ehi x < elo e) by (intros x Hx; apply (WW x e Hx); left; reflexivity).
      assert (Ez : z = ehi e + 1).
      { destruct (Z.eq_dec z (ehi e + 1)) as [X|X]; [exact X|exfalso]. unfold elo, ehi in *.
        pose proof (lo_range (fst e)). pose proof (hi_range (fst e)).
        destruct (rk_surj (iend (fst e)) MAX (hi (fst e) + 1)) as (p & Hp); [unfold lo, hi in *; lia|].
        destruct (C p) as (k & v & Hi & Hc); [lia|]. apply covers_rk in Hc. apply in_app_iff in Hi. destruct Hi as [Hi|[->|[]]].
        - specialize (L _ Hi). cbn in L. lia.
        - cbn in *. lia. }
      subst z. constructor; [exact We|]. apply IH; [exact WA| | |].
      + unfold elo, ehi in *. pose proof (lo_range (fst e)). lia.
      + apply Forall_forall. exact L.
      + intros p Hp. destruct (C p) as (k & v & Hi & Hc); [lia|]. apply covers_rk in Hc. apply in_app_iff in Hi. destruct Hi as [Hi|[->|[]]].
        * exists k, v. split; [exact Hi|apply covers_rk, Hc].
        * unfold elo, ehi in *. cbn in *. lia.
  Qed.
  Lemma covered_chain_up B : forall z, WF B -> rk MIN - 1 <= z <= rk MAX -> Forall (fun e => z < elo e) B ->
    (forall p, z < rk p -> covered B p) -> up_chain z B.
  Proof.
    induction B as [|e B IH]; intros z W R F C.
    - replace z with (rk MAX); [constructor|]. destruct (Z.eq_dec (rk MAX) z) as [X|X]; [exact X|exfalso].
      destruct (C MAX) as (k & v & [] & _). lia.
    - apply WF_cons in W. destruct W as (We & WB & L). rewrite Forall_forall in L. apply Forall_cons_iff in F. destruct F as [Fe FB].
      assert (Ez : z = elo e - 1).
      { destruct (Z.eq_dec z (elo e - 1)) as [X|X]; [exact X|exfalso]. unfold elo, ehi in *.
        pose proof (lo_range (fst e)). pose proof (hi_range (fst e)).
        destruct (rk_surj MIN (istart (fst e)) (lo (fst e) - 1)) as (p & Hp); [unfold lo, hi in *; lia|].
        destruct (C p) as (k & v & Hi & Hc); [lia|]. apply covers_rk in Hc. destruct Hi as [->|Hi].
        - cbn in *. lia.
        - specialize (L _ Hi). cbn in L. lia. }
      subst z. constructor; [exact We|]. apply IH; [exact WB| | |].
      + unfold elo, ehi in *. pose proof (hi_range (fst e)). lia.
      + apply Forall_forall. exact L.
      + intros p Hp. destruct (C p) as (k & v & Hi & Hc); [unfold elo, ehi in *; lia|]. apply covers_rk in Hc. destruct Hi as [->|Hi].
        * unfold elo, ehi in *. cbn in *. lia.
        * exists k, v. split; [exact Hi|apply covers_rk, Hc].
  Qed.

  Definition join_left (x y : K) : outcome (option K) := let? m := merge_ordered y x in Val (Some (ifrom m)).
  Definition join_right (x y : K) : outcome (option K) := let? m := merge_ordered x y in Val (Some (ifrom m)).
  Lemma join_val (a b : K) : lo a <= hi b -> exists j : K,
    (let? m := merge_ordered a b in Val (Some (ifrom m))) = Val (Some j) /\ lo j = lo a /\ hi j = hi b.
  Proof.
    intros L. rewrite merge_val by exact L. cbn [obind]. exists (ifrom (mkInterval (istart a) (iend b))). split; [reflexivity|].
    rewrite from_lo, from_hi by exact L. split; reflexivity.
  Qed.

  Lemma left_run (P : entry -> bool) l : forall z last, down_chain z l -> lo last = z -> lo last <= hi last ->
    exists k, coalesce_from join_left last (map fst (take_while P l)) = Val [k] /\ lo k <= lo last /\ hi k = hi last /\
      (forall p, lo k <= rk p < lo last -> exists e, In e l /\ P e = true /\ covers (fst e) p) /\
      (forall p, rk p = lo k - 1 -> exists e, In e l /\ P e = false /\ covers (fst e) p).
  Proof.
    induction l as [|e l IH]; intros z last C Ez V0; inversion C as [|e' l' Ve C']; subst; cbn [take_while].
    - exists last. split; [reflexivity|]. split; [lia|]. split; [reflexivity|]. split; [intros p Hp; lia|].
      intros p Hp. pose proof (rk_min p). lia.
    - destruct (P e) eqn:Pe.
      + cbn [map coalesce_from]. unfold join_left at 1. unfold elo, ehi in *.
        destruct (join_val (fst e) last) as (j & -> & Lj & Hj); [lia|]. cbn [obind].
        destruct (IH (elo e) j C') as (k & E & L1 & E1 & IN & OUT); [exact Lj|unfold elo in *; lia|]. exists k. split; [exact E|].
        split; [lia|]. split; [lia|]. split.
        * intros p Hp. destruct (Z_lt_le_dec (rk p) (lo (fst e))) as [X|X].
          -- destruct (IN p) as (e1 & Hi & X1 & X2); [lia|]. exists e1. cbn. auto.
          -- exists e. split; [left; reflexivity|]. split; [exact Pe|]. apply covers_rk. lia.
        * intros p Hp. destruct (OUT p Hp) as (e1 & Hi & X1 & X2). exists e1. cbn. auto.
      + cbn [map coalesce_from]. exists last. split; [reflexivity|]. split; [lia|]. split; [reflexivity|]. split; [intros p Hp; lia|].
        intros p Hp. exists e. split; [left; reflexivity|]. split; [exact Pe|]. apply covers_rk. unfold elo, ehi in *. lia.
  Qed.
  Lemma right_run (P : entry -> bool) l : forall z last, up_chain z l -> hi last = z -> lo last <= hi last ->
    exists k, coalesce_from join_right last (map fst (take_while P l)) = Val [k] /\ hi last <= hi k /\ lo k = lo last /\
      (forall p, hi last < rk p <= hi k -> exists e, In e l /\ P e = true /\ covers (fst e) p) /\
      (forall p, rk p = hi k + 1 -> exists e, In e l /\ P e = false /\ covers (fst e) p).
  Proof.
    induction l as [|e l IH]; intros z last C Ez V0; inversion C as [|e' l' Ve C']; subst; cbn [take_while].
    - exists last. split; [reflexivity|]. split; [lia|]. split; [reflexivity|]. split; [intros p Hp; lia|].
      intros p Hp. pose proof (rk_max p). lia.
    - destruct (P e) eqn:Pe.
      + cbn [map coalesce_from]. unfold join_right at 1. unfold elo, ehi in *.
        destruct (join_val last (fst e)) as (j & -> & Lj & Hj); [lia|]. cbn [obind].
        destruct (IH (ehi e) j C') as (k & E & L1 & E1 & IN & OUT); [exact Hj|unfold ehi in *; lia|]. exists k. split; [exact E|].
        split; [lia|]. split; [lia|]. split.
        * intros p Hp. destruct (Z_lt_le_dec (hi (fst e)) (rk p)) as [X|X].
          -- destruct (IN p) as (e1 & Hi & X1 & X2); [lia|]. exists e1. cbn. auto.
          -- exists e. split; [left; reflexivity|]. split; [exact Pe|]. apply covers_rk. lia.
        * intros p Hp. destruct (OUT p Hp) as (e1 & Hi & X1 & X2). exists e1. cbn. auto.
      + cbn [map coalesce_from]. exists last. split; [reflexivity|]. split; [lia|]. split; [reflexivity|]. split; [intros p Hp; lia|].
        intros p Hp. exists e. split; [left; reflexivity|]. split; [exact Pe|]. apply covers_rk. unfold elo, ehi in *. lia.
  Qed.
End Expand.

Section GapsWith.
  Context {I : Type} `{PL : PointLaws I}.
  Context {K : Type} {IK : InclusiveInterval I K} {IL : IntervalLaws I K} {FI : FromInvalid I K}.
  Context {D : Type} {OD : Ord D} {OL : OrdLaws D}.
  Notation G := (Gqdit K D).
  Notation entry := (K * BTreeSet D)%type.
  Implicit Types (g : G) (p : I) (d : D) (e : entry).
  Context {Q : Type} {IQ : InclusiveInterval I Q}.

  Definition vid d e : bool := valid_identifier d (snd e).
  Lemma vid_free g d e p : GWF g -> In e g -> covers (fst e) p -> (vid d e = true <-> free_but d g p).
  Proof.
    intros Hg Hi Hc. pose proof Hg as [(_ & _ & HS) _]. destruct e as [k s]. cbn in Hc.
    destruct (HS k s Hi) as [Hs _]. assert (M : maps_to g p s) by (exists k; auto).
    unfold vid. cbn [snd]. rewrite valid_id_spec by exact Hs. unfold free_but.
    split; intros F x Hx; apply F; apply (has_id_in g p s x Hg M); exact Hx.
  Qed.

  Lemma split_at g p : GWF g -> exists A e B, g = A ++ e :: B /\ Forall (left_of (rk p)) A /\ covers (fst e) p /\ Forall (right_of (rk p)) B.
  Proof.
    intros [(W & _) C]. destruct (split_point g p W) as (A & o & B & E & HA & HM & HB).
    destruct (C p) as (k & v & Hi & Hc). apply covers_rk in Hc. rewrite Forall_forall in HA, HB.
    destruct o as [e|].
    - exists A, e, B. cbn in E, HM. apply Forall_inv in HM. unfold meets in HM.
      split; [exact E|]. split; [apply Forall_forall, HA|]. split; [apply covers_rk; unfold elo, ehi in HM; lia|apply Forall_forall, HB].
    - exfalso. rewrite E in Hi. cbn in Hi. apply in_app_iff in Hi. destruct Hi as [Hi|Hi].
      + specialize (HA _ Hi). unfold left_of, ehi in HA. cbn in HA. lia.
      + specialize (HB _ Hi). unfold right_of, elo in HB. cbn in HB. lia.
  Qed.

  Lemma expand_left_spec g d p : GWF g -> exists e r, In e g /\ covers (fst e) p /\
    expand_gaps_at_point_left g d p = Val r /\
    match r with
    | None => vid d e = false
    | Some k => vid d e = true /\ lo k <= lo (fst e) /\ hi k = hi (fst e) /\
        (forall x, covers k x -> free_but d g x) /\ (forall x, rk x = lo k - 1 -> ~ free_but d g x)
    end.
  Proof.
    intros Hg. destruct (split_at g p Hg) as (A & e & B & E & HA & HM & HB). pose proof Hg as [(W & _) C].
    assert (Hie : In e g) by (rewrite E; apply in_elt).
    assert (EO : overlapping g (mkInterval MIN p) = Val (A ++ [e])).
    { replace g with ([] ++ (A ++ [e]) ++ B) by (rewrite E, <- app_assoc; reflexivity). apply covers_rk in HM.
      apply overlapping_split.
      - apply valid_rk. unfold lo, hi. cbn. apply rk_min.
      - cbn [app]. rewrite <- app_assoc. cbn [app]. rewrite <- E. exact W.
      - constructor.
      - apply Forall_forall. intros x Hx. assert (Hxg : In x g) by (rewrite E; rewrite in_app_iff in Hx; rewrite in_app_iff; cbn in *; tauto).
        unfold meets, elo, ehi.
        pose proof (lo_range (fst x)). pose proof (hi_range (fst x)). pose proof (WF_okv g x W Hxg) as O. unfold elo, ehi in O.
        rewrite Forall_forall in HA. apply in_app_iff in Hx. destruct Hx as [Hx|[<-|[]]]; [specialize (HA x Hx); unfold left_of, ehi in HA|]; unfold lo, hi in *; cbn; lia.
      - eapply Forall_impl; [|exact HB]. intros x. unfold right_of, hi. cbn. auto. }
    assert (DC : down_chain (elo e) (rev A)).
    { rewrite E in W. apply WF_app in W. destruct W as (WA & WB & WW). apply covered_chain_down; [exact WA| | |].
      - unfold elo. pose proof (lo_range (fst e)). lia.
      - apply Forall_forall. intros x Hx. apply (WW x e Hx). left. reflexivity.
      - intros x Hx. destruct (C x) as (k & v & Hi & Hc). rewrite E in Hi. apply in_app_iff in Hi. destruct Hi as [Hi|[->|Hi]].
        + exists k, v. auto.
        + apply covers_rk in Hc. unfold elo in Hx. cbn in Hx. lia.
        + apply WF_cons in WB. destruct WB as (_ & _ & F). rewrite Forall_forall in F. specialize (F _ Hi). apply covers_rk in Hc.
          apply covers_rk in HM. unfold elo, ehi in *. cbn in *. lia. }
    exists e. unfold expand_gaps_at_point_left, ui. rewrite checked_val by (unfold lo, hi; cbn; apply rk_min). cbn [obind].
    rewrite EO. cbn [obind]. rewrite rev_app_distr. cbn [rev app]. cbn [take_while]. fold (vid d e). destruct (vid d e) eqn:Ve.
    - cbn [map coalesce]. fold (vid d). apply covers_rk in HM as HM'.
      destruct (left_run (vid d) (rev A) (elo e) (fst e) DC eq_refl) as (k & E1 & L1 & L2 & IN & OUT); [lia|].
      exists (Some k). split; [exact Hie|]. split; [exact HM|]. split.
      + transitivity (let? l := coalesce_from join_left (fst e) (map fst (take_while (vid d) (rev A))) in Val (hd_error l)); [reflexivity|]. rewrite E1. reflexivity.
      + split; [reflexivity|]. split; [exact L1|]. split; [exact L2|].
        assert (IA : forall x, In x (rev A) -> In x g) by (intros x Hx; rewrite E; apply in_app_iff; left; apply in_rev, Hx).
        split.
        * intros x Hx. apply covers_rk in Hx. destruct (Z_lt_le_dec (rk x) (lo (fst e))) as [X|X].
          -- destruct (IN x) as (e1 & H2 & H3 & H4); [lia|]. apply (vid_free g d e1 x Hg (IA _ H2) H4), H3.
          -- apply (vid_free g d e x Hg Hie); [apply covers_rk; lia|exact Ve].
        * intros x Hx F. destruct (OUT x Hx) as (e1 & H2 & H3 & H4). apply (vid_free g d e1 x Hg (IA _ H2) H4) in F. congruence.
    - exists None. split; [exact Hie|]. split; [exact HM|]. split; reflexivity.
  Qed.
  Lemma expand_right_spec g d p : GWF g -> exists e r, In e g /\ covers (fst e) p /\
    expand_gaps_at_point_right g d p = Val r /\
    match r with
    | None => vid d e = false
    | Some k => vid d e = true /\ hi (fst e) <= hi k /\ lo k = lo (fst e) /\
        (forall x, covers k x -> free_but d g x) /\ (forall x, rk x = hi k + 1 -> ~ free_but d g x)
    end.
  Proof.
    intros Hg. destruct (split_at g p Hg) as (A & e & B & E & HA & HM & HB). pose proof Hg as [(W & _) C].
    assert (Hie : In e g) by (rewrite E; apply in_elt).
    assert (EO : overlapping g (mkInterval p MAX) = Val (e :: B)).
    { replace g with (A ++ (e :: B) ++ []) by (rewrite E, app_nil_r; reflexivity). apply covers_rk in HM.
      apply overlapping_split.
      - apply valid_rk. unfold lo, hi. cbn. apply rk_max.
      - rewrite app_nil_r, <- E. exact W.
      - eapply Forall_impl; [|exact HA]. intros x. unfold left_of, lo. cbn. auto.
      - apply Forall_forall. intros x Hx. assert (Hxg : In x g) by (rewrite E; rewrite in_app_iff; cbn in *; tauto).
        unfold meets, elo, ehi.
        pose proof (lo_range (fst x)). pose proof (hi_range (fst x)). pose proof (WF_okv g x W Hxg) as O. unfold elo, ehi in O.
        rewrite Forall_forall in HB. destruct Hx as [<-|Hx]; [|specialize (HB x Hx); unfold right_of, elo in HB]; unfold lo, hi in *; cbn; lia.
      - constructor. }
    assert (DC : up_chain (ehi e) B).
    { rewrite E in W. apply WF_app in W. destruct W as (WA & WB & WW). apply WF_cons in WB. destruct WB as (_ & WB & F). apply covered_chain_up; [exact WB| |exact F|].
      - unfold ehi. pose proof (hi_range (fst e)). lia.
      - intros x Hx. destruct (C x) as (k & v & Hi & Hc). rewrite E in Hi. apply in_app_iff in Hi. destruct Hi as [Hi|[->|Hi]].
        + pose proof (WW _ e Hi (or_introl eq_refl)) as X. apply covers_rk in Hc. apply covers_rk in HM. unfold elo, ehi in *. cbn in *. lia.
        + apply covers_rk in Hc. unfold ehi in Hx. cbn in Hx. lia.
        + exists k, v. auto. }
    exists e. unfold expand_gaps_at_point_right, iu. rewrite checked_val by (unfold lo, hi; cbn; apply rk_max). cbn [obind].
    rewrite EO. cbn [obind]. cbn [take_while]. fold (vid d e). destruct (vid d e) eqn:Ve.
    - cbn [map coalesce]. fold (vid d). apply covers_rk in HM as HM'.
      destruct (right_run (vid d) B (ehi e) (fst e) DC eq_refl) as (k & E1 & L1 & L2 & IN & OUT); [lia|].
      exists (Some k). split; [exact Hie|]. split; [exact HM|]. split.
      + transitivity (let? l := coalesce_from join_right (fst e) (map fst (take_while (vid d) B)) in Val (hd_error l)); [reflexivity|]. rewrite E1. reflexivity.
      + split; [reflexivity|]. split; [exact L1|]. split; [exact L2|].
        assert (IA : forall x, In x B -> In x g) by (intros x Hx; rewrite E; apply in_app_iff; right; right; exact Hx).
        split.
        * intros x Hx. apply covers_rk in Hx. destruct (Z_lt_le_dec (hi (fst e)) (rk x)) as [X|X].
          -- destruct (IN x) as (e1 & H2 & H3 & H4); [lia|]. apply (vid_free g d e1 x Hg (IA _ H2) H4), H3.
          -- apply (vid_free g d e x Hg Hie); [apply covers_rk; lia|exact Ve].
        * intros x Hx F. destruct (OUT x Hx) as (e1 & H2 & H3 & H4). apply (vid_free g d e1 x Hg (IA _ H2) H4) in F. congruence.
    - exists None. split; [exact Hie|]. split; [exact HM|]. split; reflexivity.
  Qed.

  Lemma apart_filter (f : K -> bool) l : apart l -> apart (filter f l).
  Proof.
    induction l as [|x l IH]; intros A; [exact A|]. apply apart_cons in A. destruct A as (Vx & A & F). cbn [filter].
    destruct (f x); [|apply IH, A]. apply apart_cons. split; [exact Vx|]. split; [apply IH, A|].
    apply Forall_forall. intros y Hy. apply filter_In in Hy. rewrite Forall_forall in F. apply F, Hy.
  Qed.
  Lemma apart_keys (f : entry -> bool) l : WF l -> apart (map fst (filter f l)).
  Proof.
    induction l as [|x l IH]; intros W; [split; constructor|]. apply WF_cons in W. destruct W as (Vx & W & F). cbn [filter].
    destruct (f x); [|apply IH, W]. cbn [map]. apply apart_cons. split; [exact Vx|]. split; [apply IH, W|].
    apply Forall_forall. intros y Hy. apply in_map_iff in Hy. destruct Hy as (z & <- & Hz). apply filter_In in Hz. rewrite Forall_forall in F. apply (F z), Hz.
  Qed.
  Lemma entry_order g e e' : WF g -> In e g -> In e' g -> e = e' \/ ehi e < elo e' \/ ehi e' < elo e.
  Proof.
    induction g as [|x g IH]; intros W Hi Hi'; [destruct Hi|]. apply WF_cons in W. destruct W as (_ & W & F).
    rewrite Forall_forall in F. destruct Hi as [<-|Hi], Hi' as [<-|Hi']; auto.
  Qed.
  Lemma apart_app (l1 l2 : list K) : apart l1 -> apart l2 -> (forall x y, In x l1 -> In y l2 -> hi x < lo y) -> apart (l1 ++ l2).
  Proof.
    induction l1 as [|x l1 IH]; intros A1 A2 B; [exact A2|]. apply apart_cons in A1. destruct A1 as (Vx & A1 & F). cbn [app].
    apply apart_cons. split; [exact Vx|]. split.
    - apply IH; [exact A1|exact A2|]. intros; apply B; [right|]; assumption.
    - apply Forall_app. split; [exact F|]. apply Forall_forall. intros y Hy. apply B; [left; reflexivity|exact Hy].
  Qed.
  Lemma apart_one (x : K) : lo x <= hi x -> apart [x].
  Proof. intros V. apply apart_cons. split; [exact V|]. split; [split; constructor|constructor]. Qed.
  Lemma apart_opt (o : option K) : (forall x, o = Some x -> lo x <= hi x) -> apart (opt_list o).
  Proof. destruct o as [x|]; intros X; [apply apart_one, X; reflexivity|split; constructor]. Qed.

  Lemma gaps_with_spec g d (q : Q) : GWF g -> valid q ->
    exists l, gaps_with_identifier g d q = Val l /\ lists_max_runs (free_but d g) (fun j => overlap j q) l.
  Proof.
    intros Hg Vq. pose proof Hg as [(W & _) C]. pose proof Vq as Vq'. apply valid_rk in Vq'.
    destruct (split3 g (lo q) (hi q) W Vq') as (A & M & B & E & HA & HM & HB).
    assert (EO : overlapping g q = Val M) by (rewrite E in *; apply overlapping_split; assumption).
    assert (WM : WF M) by (rewrite E in W; apply WF_app in W; destruct W as (_ & W & _); apply WF_app in W; apply W).
    unfold gaps_with_identifier. rewrite (iip_valid q Vq), EO. cbn [obind]. clear EO.
    set (NE := filter _ (map fst _)).
    assert (ANE : apart NE) by (apply apart_filter, apart_keys, WM).
    assert (HNE : forall x, In x NE -> exists e, In e g /\ fst e = x /\ vid d e = true /\ lo q < lo x /\ lo x <= hi x /\ hi x < hi q).
    { intros x Hx. apply filter_In in Hx. destruct Hx as [Hx N]. apply in_map_iff in Hx. destruct Hx as (e & <- & He). apply filter_In in He.
      destruct He as [He Ve]. exists e. rewrite Forall_forall in HM. specialize (HM e He). rewrite !contains_point_rk in N. fold (lo q) in N. fold (hi q) in N.
      pose proof (WF_okv M e WM He) as O. unfold meets, elo, ehi in *.
      split; [rewrite E; apply in_app_iff; right; apply in_app_iff; left; exact He|]. split; [reflexivity|]. split; [exact Ve|]. lia. }
    assert (NEI : forall e p, In e g -> vid d e = true -> covers (fst e) p -> covers q p -> ~ covers (fst e) (istart q) -> ~ covers (fst e) (iend q) -> In (fst e) NE).
    { intros e p He Ve Cp Cq N1 N2. apply filter_In. split.
      - apply in_map_iff. exists e. split; [reflexivity|]. apply filter_In. split; [|exact Ve].
        apply covers_rk in Cp. apply covers_rk in Cq. rewrite E in He. rewrite Forall_forall in HA, HB. apply in_app_iff in He. destruct He as [He|He].
        + specialize (HA e He). unfold left_of, ehi in HA. lia.
        + apply in_app_iff in He. destruct He as [He|He]; [exact He|]. specialize (HB e He). unfold right_of, elo in HB. lia.
      - rewrite <- !contains_point_true in N1, N2. destruct (contains_point (fst e) (istart q)); [congruence|].
        destruct (contains_point (fst e) (iend q)); [congruence|reflexivity]. }
    clearbody NE. clear A M B E HA HM HB WM.
    destruct (expand_left_spec g d (istart q) Hg) as (ea & L & Hea & Cea & EL & SL).
    destruct (expand_right_spec g d (iend q) Hg) as (eb & R & Heb & Ceb & ER & SR).
    rewrite EL. cbn [obind]. rewrite ER. cbn [obind]. clear EL ER.
    apply covers_rk in Cea as Ca. apply covers_rk in Ceb as Cb. fold (lo q) in Ca. fold (hi q) in Cb.
    (* a point of [q] in [S] belongs to [ea], [eb] or a member of [NE] *)
    assert (CV : forall p, free_but d g p -> covers q p ->
       (covers (fst ea) p /\ vid d ea = true) \/ (covers (fst eb) p /\ vid d eb = true) \/ in_some NE p).
    { intros p Sp Cq. destruct (C p) as (k & s & Hi & Hc). assert (Ve : vid d (k, s) = true) by (apply (vid_free g d (k, s) p Hg Hi Hc), Sp).
      destruct (entry_order g (k, s) ea W Hi Hea) as [X|X]; [left; rewrite <- X; auto|].
      destruct (entry_order g (k, s) eb W Hi Heb) as [Y|Y]; [right; left; rewrite <- Y; auto|].
      right; right. exists k. split; [|exact Hc]. apply (NEI (k, s) p Hi Ve Hc Cq); intros Z; apply covers_rk in Z; unfold elo, ehi in *; cbn in *; unfold lo, hi in *; lia. }
    assert (NS : forall p, in_some NE p -> free_but d g p).
    { intros p (x & Hx & Cx). destruct (HNE x Hx) as (e & He & <- & Ve & _). apply (vid_free g d e p Hg He Cx), Ve. }
    assert (NO : forall x, In x NE -> overlap x q).
    { intros x Hx. destruct (HNE x Hx) as (e & _ & _ & _ & ?). apply overlap_rk; lia. }
    assert (Nea : forall x, In x NE -> hi (fst ea) < lo x).
    { intros x Hx. destruct (HNE x Hx) as (e & He & <- & _ & ?). destruct (entry_order g e ea W He Hea) as [->|X]; unfold elo, ehi in *; lia. }
    assert (Neb : forall x, In x NE -> hi x < lo (fst eb)).
    { intros x Hx. destruct (HNE x Hx) as (e & He & <- & _ & ?). destruct (entry_order g e eb W He Heb) as [->|X]; unfold elo, ehi in *; lia. }
    change (fun x y : K => let? t := touches_ordered x y in if t then let? m := merge_ordered x y in Val (Some (ifrom m)) else Val None) with (@join_touching I _ _ K _).
    destruct (entry_order g ea eb W Hea Heb) as [X|X].
    - (* one entry contains both ends of [q] *)
      subst eb. assert (NE0 : forall x, ~ In x NE).
      { intros x Hx. pose proof (Nea x Hx). pose proof (Neb x Hx). destruct (HNE x Hx) as (_ & _ & _ & _ & ?). lia. }
      destruct NE as [|x0 NE']; [|exfalso; apply (NE0 x0); left; reflexivity].
      destruct L as [kl|], R as [kr|].
      + destruct SL as (Ve & L1 & L2 & LS & LB). destruct SR as (_ & R1 & R2 & RS & RB).
        assert (OO : overlaps_ordered kl kr = true) by (unfold overlaps_ordered; rewrite !contains_point_rk; fold (lo kr); fold (hi kr); lia).
        rewrite OO. rewrite merge_val by lia. cbn [obind opt_list app].
        set (m := ifrom (mkInterval (istart kl) (iend kr)) : K).
        assert (Lm : lo m = lo kl /\ hi m = hi kr) by (unfold m; rewrite from_lo, from_hi; [split; reflexivity|unfold lo, hi in *; cbn; lia..]).
        destruct Lm as [Lm Hm]. clearbody m.
        assert (IS : forall p, in_some [m] p <-> lo kl <= rk p <= hi kr).
        { intros p. unfold in_some. split; [intros (x & [<-|[]] & Cx); apply covers_rk in Cx; lia|]. intros Y. exists m. split; [left; reflexivity|]. apply covers_rk. lia. }
        apply pieces_to_runs.
        * apply apart_one. lia.
        * intros p Hp. apply IS in Hp. destruct (Z_le_gt_dec (rk p) (hi kl)); [apply LS, covers_rk; lia|apply RS, covers_rk; lia].
        * intros p p' Hp Sp' N. apply IS in Hp. apply IS. destruct (Z.eq_dec (rk p') (lo kl - 1)) as [Y|Y]; [destruct (LB p' Y Sp')|].
          destruct (Z.eq_dec (rk p') (hi kr + 1)) as [Y'|Y']; [destruct (RB p' Y' Sp')|]. lia.
        * intros p _ Cq. apply covers_rk in Cq. apply IS. lia.
        * intros x [<-|[]]. apply overlap_rk; lia.
      + destruct SL as [Ve _]. congruence.
      + destruct SR as [Ve _]. congruence.
      + cbn [opt_list app obind]. apply pieces_to_runs.
        * split; constructor.
        * intros p (x & [] & _).
        * intros p p' (x & [] & _).
        * intros p Sp Cq. destruct (CV p Sp Cq) as [[_ Y]|[[_ Y]|Y]]; [congruence|congruence|exact Y].
        * intros x [].
    - (* two entries *)
      assert (AB : hi (fst ea) < lo (fst eb)) by (unfold elo, ehi in X; lia). clear X.
      assert (EQ : (match L with Some left_ => match R with Some right_ => if overlaps_ordered left_ right_ then let? m := merge_ordered left_ right_ in Val (Some (ifrom m), None) else Val (L, R) | None => Val (L, R) end | None => Val (L, R) end) = Val (L, R)).
      { destruct L as [kl|]; [|reflexivity]. destruct R as [kr|]; [|reflexivity].
        assert (OO : overlaps_ordered kl kr = false) by (unfold overlaps_ordered; rewrite !contains_point_rk; fold (lo kr); fold (hi kr); lia).
        rewrite OO. reflexivity. }
      rewrite EQ. cbn [obind]. clear EQ.
      assert (ISx : forall p, in_some (opt_list L ++ NE ++ opt_list R) p <-> in_some (opt_list L) p \/ in_some NE p \/ in_some (opt_list R) p).
      { intros p. unfold in_some. split.
        - intros (x & Hx & Cx). rewrite !in_app_iff in Hx. destruct Hx as [Hx|[Hx|Hx]]; eauto.
        - intros [(x & Hx & Cx)|[(x & Hx & Cx)|(x & Hx & Cx)]]; exists x; rewrite !in_app_iff; auto. }
      assert (SQ : forall p, free_but d g p -> covers q p -> in_some (opt_list L ++ NE ++ opt_list R) p).
      { intros p Sp Cq. apply ISx. destruct (CV p Sp Cq) as [[Cp Ve]|[[Cp Ve]|Y]]; [left|right; right|auto].
        - destruct L as [kl|]; [|congruence]. exists kl. split; [left; reflexivity|]. apply covers_rk. apply covers_rk in Cp. destruct SL as (_ & ? & ? & _). lia.
        - destruct R as [kr|]; [|congruence]. exists kr. split; [left; reflexivity|]. apply covers_rk. apply covers_rk in Cp. destruct SR as (_ & ? & ? & _). lia. }
      assert (HL : forall x, In x (opt_list L) -> L = Some x) by (destruct L as [kl|]; [intros x [<-|[]]; reflexivity|intros x []]).
      assert (HR : forall x, In x (opt_list R) -> R = Some x) by (destruct R as [kr|]; [intros x [<-|[]]; reflexivity|intros x []]).
      apply pieces_to_runs.
      + apply apart_app; [|apply apart_app|].
        * apply apart_opt. intros x ->. destruct SL as (_ & ? & ? & _). lia.
        * exact ANE.
        * apply apart_opt. intros x ->. destruct SR as (_ & ? & ? & _). lia.
        * intros x y Hx Hy. apply HR in Hy. subst R. destruct SR as (_ & ? & E2 & _). rewrite E2. apply Neb, Hx.
        * intros x y Hx Hy. apply HL in Hx. subst L. destruct SL as (_ & ? & E1 & _). rewrite E1. apply in_app_iff in Hy. destruct Hy as [Hy|Hy].
          -- apply Nea, Hy.
          -- apply HR in Hy. subst R. destruct SR as (_ & ? & E2 & _). lia.
      + intros p Hp. apply ISx in Hp. destruct Hp as [(x & Hx & Cx)|[Hp|(x & Hx & Cx)]].
        * apply HL in Hx. subst L. apply SL, Cx.
        * apply NS, Hp.
        * apply HR in Hx. subst R. apply SR, Cx.
      + intros p p' Hp Sp' N. apply ISx in Hp. destruct Hp as [(x & Hx & Cx)|[(x & Hx & Cx)|(x & Hx & Cx)]]; apply covers_rk in Cx.
        * apply HL in Hx. subst L. destruct SL as (_ & L1 & L2 & _ & LB). destruct (Z.eq_dec (rk p') (lo x - 1)) as [Y|Y]; [destruct (LB p' Y Sp')|].
          destruct (Z.eq_dec (rk p') (hi x + 1)) as [Y'|Y'].
          -- apply SQ; [exact Sp'|]. apply covers_rk. lia.
          -- apply ISx. left. exists x. split; [left; reflexivity|]. apply covers_rk. lia.
        * destruct (HNE x Hx) as (e & _ & _ & _ & ?). apply SQ; [exact Sp'|]. apply covers_rk. lia.
        * apply HR in Hx. subst R. destruct SR as (_ & L1 & L2 & _ & LB). destruct (Z.eq_dec (rk p') (hi x + 1)) as [Y|Y]; [destruct (LB p' Y Sp')|].
          destruct (Z.eq_dec (rk p') (lo x - 1)) as [Y'|Y'].
          -- apply SQ; [exact Sp'|]. apply covers_rk. lia.
          -- apply ISx. right. right. exists x. split; [left; reflexivity|]. apply covers_rk. lia.
      + exact SQ.
      + intros x Hx. rewrite !in_app_iff in Hx. destruct Hx as [Hx|[Hx|Hx]].
        * apply HL in Hx. subst L. destruct SL as (_ & L1 & L2 & _). apply overlap_rk; lia.
        * apply NO, Hx.
        * apply HR in Hx. subst R. destruct SR as (_ & L1 & L2 & _). apply overlap_rk; lia.
  Qed.
End GapsWith.

Section More.
  Context {I : Type} `{PL : PointLaws I}.
  Context {K : Type} {IK : InclusiveInterval I K} {IL : IntervalLaws I K} {FI : FromInvalid I K}.
  Context {D : Type} {OD : Ord D} {OL : OrdLaws D}.
  Notation G := (Gqdit K D).
  Implicit Types (g : G) (p : I) (d : D).
  Context {Q : Type} {IQ : InclusiveInterval I Q}.

  Lemma overlapping_nil {A} {IA : InclusiveInterval I A} (q : A) : valid q -> overlapping ([] : G) q = Val [].
  Proof. intros Vq. apply (overlapping_split q [] [] []); [exact Vq|apply WF_nil|constructor..]. Qed.
  Lemma empty_gaps_no (q : Q) : valid q -> gaps_no_identifier ([] : G) q = Val [].
  Proof. intros V. unfold gaps_no_identifier. rewrite iip_valid by exact V. cbn [obind]. rewrite overlapping_nil by exact V. reflexivity. Qed.
  Lemma empty_gaps_with d (q : Q) : valid q -> gaps_with_identifier ([] : G) d q = Val [].
  Proof.
    intros V. unfold gaps_with_identifier. rewrite iip_valid by exact V. cbn [obind]. rewrite overlapping_nil by exact V.
    assert (EL : expand_gaps_at_point_left ([] : G) d (istart q) = Val None).
    { unfold expand_gaps_at_point_left, ui. rewrite checked_val by (unfold lo, hi; cbn; apply rk_min). cbn [obind].
      rewrite overlapping_nil by (apply valid_rk; unfold lo, hi; cbn; apply rk_min). reflexivity. }
    assert (ER : expand_gaps_at_point_right ([] : G) d (iend q) = Val None).
    { unfold expand_gaps_at_point_right, iu. rewrite checked_val by (unfold lo, hi; cbn; apply rk_max). cbn [obind].
      rewrite overlapping_nil by (apply valid_rk; unfold lo, hi; cbn; apply rk_max). reflexivity. }
    rewrite EL, ER. reflexivity.
  Qed.
  Lemma gaps_no_bad g (q : Q) : ~ valid q -> gaps_no_identifier g q = Panic.
  Proof. intros V. unfold gaps_no_identifier. rewrite iip_invalid by exact V. reflexivity. Qed.
  Lemma gaps_with_bad g d (q : Q) : ~ valid q -> gaps_with_identifier g d q = Panic.
  Proof. intros V. unfold gaps_with_identifier. rewrite iip_invalid by exact V. reflexivity. Qed.

  Lemma added_ins (l : list (list D * K)) d p : added (map (fun e => GInsert (fst e) (snd e)) l) d p <-> exists ids k, In (ids, k) l /\ covers k p /\ In d ids.
  Proof.
    split.
    - intros X. inversion X as [os1 o1 os2 d1 p1 A1 F1 E]. subst d1 p1.
      assert (Hi : In o1 (os1 ++ o1 :: os2)) by apply in_elt. rewrite E in Hi.
      apply in_map_iff in Hi. destruct Hi as ([ids k] & <- & Hi). inversion A1; subst. cbn in *. exists ids, k. auto.
    - intros (ids & k & Hi & Hc & Hd). apply in_split in Hi. destruct Hi as (l1 & l2 & ->). rewrite map_app. cbn [map fst snd].
      constructor; [constructor; assumption|]. apply Forall_forall. intros o Ho. apply in_map_iff in Ho. destruct Ho as (e & <- & _). cbn. tauto.
  Qed.
  Lemma insert_sets {OLI : OrdLaws I} (l l' : list (list D * K)) : (forall d p, (exists ids k, In (ids, k) l /\ covers k p /\ In d ids) <-> (exists ids k, In (ids, k) l' /\ covers k p /\ In d ids)) ->
    grun (map (fun e => GInsert (fst e) (snd e)) l) = grun (map (fun e => GInsert (fst e) (snd e)) l') :> G.
  Proof. intros X. apply GWF_ext; [apply grun_GWF..|]. intros p d. rewrite !grun_has, !added_ins. apply X. Qed.

  Lemma accepted_iff {OLI : OrdLaws I} (l : list (K * BTreeSet D)) g : gqdit_deserialize (map Some l) = Val (Ok g) -> (greachable g <-> describes_gqdit l).
  Proof.
    intros E. split.
    - intros R. apply greachable_GWF in R. assert (E' := E). unfold gqdit_deserialize in E'. rewrite deserialize_all in E'.
      destruct (from_iter_strict l) as [r|] eqn:F; [|discriminate E']. destruct r as [g'|er]; [|discriminate E']. injection E' as ->.
      destruct (from_iter_strict_entries l g F) as [W Pm]. assert (Hin : forall e, In e l <-> In e g).
      { intros e. split; [apply (Permutation.Permutation_in e Pm)|apply (Permutation.Permutation_in e (Permutation.Permutation_sym Pm))]. }
      destruct (GWF_describes g R) as (_ & C & T & B). split; [apply from_iter_strict_Ok; exists g; exact F|]. split; [|split].
      + intros p. destruct (C p) as (k & v & Hi & Hc). exists k, v. split; [apply Hin, Hi|exact Hc].
      + intros k s k' s' Hi Hi'. apply T; apply Hin; assumption.
      + intros k s Hi. apply B, Hin, Hi.
    - intros X. destruct (describes_GWF l X) as (g' & E' & W & _). rewrite E in E'. injection E' as ->. apply GWF_greachable, W.
  Qed.
End More.
