(** * CostGqdit: how often the calls of a Gqdit change the tree. *)
From Coq Require Import List ZArith Bool Lia ZifyBool Arith.
From Verif Require Import Base BTree UtilsModel IntervalModel NoditModel NoditOps ZosditModel ZosditOps GqditModel GqditOps Spec
  PointFacts IntervalFacts ListFacts NoditFacts NoditQueries NoditGaps NoditMutations NoditMerges NoditInv NoditMore NoditSize
  GqditFacts GqditProofs GqditGaps CrashModel CrashFacts CrashProofs CrashGqdit TraceModel TraceSpec TraceFacts TraceGqdit CostOps CostFacts.
Import ListNotations.
Open Scope nat_scope.

Section Gqdit.
  Context {I : Type} `{PL : PointLaws I}.
  Context {K : Type} {IK : InclusiveInterval I K} {IL : IntervalLaws I K}.
  Context {D : Type} {OD : Ord D} {OL : OrdLaws D}.
  Notation entry := (K * BTreeSet D)%type.
  Implicit Types (g : Gqdit K D).

  Lemma cut_list_inside {Q} {IQ : InclusiveInterval I Q} (q : Q) (M out ins : list entry) : cut_list q M out ins -> length ins = length M.
  Proof. intros HC. induction HC; [reflexivity|]. cbn [length]. lia. Qed.

  Lemma added_same (x : list entry) t : (exists r, t = x :: r) -> tree_adds (x :: t) = tree_adds t.
  Proof. intros (r & ->). rewrite added_cons, Nat.ltb_irrefl. reflexivity. Qed.

  Lemma reinsert_added upd (l : list entry) : forall g, WF g -> WF l -> (forall p, covered l p -> ~ covered g p) ->
    tree_adds (reinsert_t upd l g) <= length l.
  Proof.
    induction l as [|[k u] l IH]; intros g W Wl Hn; cbn [reinsert_t]; [cbn; lia|].
    apply WF_cons in Wl. destruct Wl as (Vk & Wl & Hl). unfold elo, ehi in Vk. cbn in Vk. apply valid_rk in Vk.
    assert (Hk : forall p, covers k p -> ~ covered g p).
    { intros p Hp. apply Hn. exists k, u. split; [left; reflexivity|exact Hp]. }
    destruct (reinsert_one_WF g k (upd u) W Vk Hk) as (g1 & r & E & W1 & M1).
    pose proof (ins_path g k (upd u) W) as P1. rewrite E in *. cbn [fst] in P1.
    assert (DJ : forall p, covered l p -> ~ covered g1 p).
    { intros p Hp Hg. apply covered_maps_to in Hg. destruct Hg as (s' & Hg). apply M1 in Hg. destruct Hg as [Hg|[Hg _]].
      * apply (Hn p); [|eapply maps_to_covered; exact Hg]. destruct Hp as (k' & v' & Hi & Hc). exists k', v'. split; [right; exact Hi|exact Hc].
      * destruct Hp as (k' & v' & Hi & Hc). rewrite Forall_forall in Hl. specialize (Hl _ Hi).
        apply covers_rk in Hc. apply covers_rk in Hg. unfold elo, ehi in Hl. cbn in Hl. lia. }
    specialize (IH g1 W1 Wl DJ). destruct (reinsert_t_any upd l g1 W1 Wl DJ) as (P2 & _).
    pose proof (call_added (OpInsertMergeTouchingIfValuesEqual bset_eqb k (upd u)) g W Logic.I) as A. cbn [at_most_added] in A.
    destruct (path_head _ _ _ _ P1) as (r' & Er').
    unfold Gqdit, NoditMap, BTreeMap in *.
    rewrite added_same; [|rewrite Er'; cbn; eauto].
    rewrite (added_path_app _ _ _ _ _ _ _ _ P1 P2), Nat.ltb_irrefl. cbn [length]. lia.
  Qed.

  Lemma cut_update_added upd {Q} {IQ : InclusiveInterval I Q} (q : Q) g l : WF g -> valid q -> sub (fun e => overlap (fst e) q) g l ->
    tree_adds (cut_update_t upd q g) <= 2 + length l.
  Proof.
    intros W Vq S0. unfold cut_update_t. destruct (cut_added q g W Vq) as (A & _).
    destruct (cut_t_ok q g W Vq) as [P1 _].
    destruct (cut_full g q W Vq) as (g1 & ins & E & W1 & Wl & Hl & _ & M1).
    destruct (cut_facts g q W Vq) as (A' & M & B & out & ins' & Em & _ & _ & _ & E' & HC & HS & _).
    rewrite E in *. injection E' as _ <-. cbn [fst] in P1. apply cut_list_inside in HC.
    rewrite (sub_unique _ _ _ _ S0 HS).
    assert (DJ : forall p, covered ins p -> ~ covered g1 p).
    { intros p Hp Hg. apply covered_maps_to in Hp, Hg. destruct Hp as (s1 & k & Hi & Hc), Hg as (s2 & Hg).
      apply M1 in Hg. apply Hl in Hi. destruct Hi as (_ & k0 & Hi & _ & Hp). apply Hp in Hc. tauto. }
    pose proof (reinsert_added upd ins g1 W1 Wl DJ) as R. destruct (reinsert_t_any upd ins g1 W1 Wl DJ) as (P2 & _).
    unfold Gqdit, NoditMap, BTreeMap in *.
    rewrite (added_path_app _ _ _ _ _ _ _ _ P1 P2), Nat.ltb_irrefl. lia.
  Qed.

  Lemma gcall_cost g o n : WF g -> meeting g o n ->
    tree_adds (gtrace g o) <= 2 + n /\ length (gstep o g) + tree_removes (gtrace g o) = length g + tree_adds (gtrace g o).
  Proof.
    intros W Mt. split.
    - assert (NIL : forall n, @tree_adds (K * BTreeSet D) [g] <= n) by (intros; cbn; lia).
      assert (HD : forall upd Q (IQ : InclusiveInterval I Q) (q : Q), exists r, cut_update_t upd q g = g :: r).
      { intros. unfold cut_update_t. unfold cut_t. cbn [app]. eauto. }
      destruct o as [ids k|ids Q IQ q|Q IQ q|os]; cbn [meeting gtrace] in *.
      + destruct Mt as (l & S0 & <-). unfold gqdit_insert_t.
        destruct (valid_dec k) as [V|N]; [rewrite (iip_valid _ V)|rewrite (iip_invalid _ N); apply NIL].
        destruct (bset_is_empty _); [apply NIL|]. pose proof (cut_update_added (fun i => bset_extend i (collect ids)) k g l W V S0) as C.
        unfold Gqdit, NoditMap, BTreeMap in *. rewrite added_same; [exact C|apply HD].
      + destruct Mt as (l & S0 & <-). unfold cut_with_identifiers_t.
        destruct (valid_dec q) as [V|N]; [rewrite (iip_valid _ V)|rewrite (iip_invalid _ N); apply NIL].
        destruct (bset_is_empty _); [apply NIL|]. pose proof (cut_update_added (bset_retain (fun i => negb (bset_contains (collect ids) i))) q g l W V S0) as C.
        unfold Gqdit, NoditMap, BTreeMap in *. rewrite added_same; [exact C|apply HD].
      + destruct Mt as (l & S0 & <-). unfold cut_all_identifiers_t.
        destruct (valid_dec q) as [V|N]; [rewrite (iip_valid _ V)|rewrite (iip_invalid _ N); apply NIL].
        pose proof (cut_update_added (fun _ => bset_empty) q g l W V S0) as C.
        unfold Gqdit, NoditMap, BTreeMap in *. rewrite added_same; [exact C|apply HD].
      + destruct Mt.
    - apply balance. apply gtrace_path, W.
  Qed.

  Lemma gstep_WF g (o : gop I K D) : WF g -> WF (gstep o g).
  Proof. intros W. destruct (gtrace_path g o W) as [P F]. apply F, (path_in_last _ _ _ _ P). Qed.
  Lemma gwork_bound g os w n : gwork g os w n -> WF g ->
    w + length (fold_left (fun g o => gstep o g) os g) <= length g + 4 * length os + 2 * n.
  Proof.
    intros GW. induction GW as [g|g o os n w n' Mt _ IH]; intros W; cbn [fold_left length]; [lia|].
    destruct (gcall_cost g o n W Mt) as [A B]. specialize (IH (gstep_WF g o W)). lia.
  Qed.
End Gqdit.
