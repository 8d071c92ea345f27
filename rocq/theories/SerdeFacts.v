(** * SerdeFacts: reading back what was written. *)
From Coq Require Import List ZArith Bool Lia Arith Sorting.Sorted.
From Verif Require Import Base BTree UtilsModel IntervalModel NoditModel NoditOps NoditSetModel ZosditModel ZosditOps Spec SerdeOps
  PointFacts IntervalFacts ListFacts NoditFacts NoditQueries NoditInv ZosditFacts ZosditMut ZosditProofs.
Import ListNotations.
Open Scope nat_scope.

Section Formats.
  Context {B E C : Type}.
  Implicit Type de : list (option E) -> outcome (result C de_error).
  Lemma take_written (c : codec B E) l : faithful c -> forall j rest,
    take_elements c (length l + j) (flat_map (enc c) l ++ rest) =
    (map Some l ++ fst (take_elements c j rest), snd (take_elements c j rest)).
  Proof.
    intros F j rest. induction l as [|e l IH]; cbn [length flat_map map app Nat.add take_elements].
    - destruct (take_elements c j rest); reflexivity.
    - rewrite <- app_assoc, F, IH. reflexivity.
  Qed.
  Lemma read_written cn (c : codec B E) de l j rest : faithful cn -> faithful c ->
    read_counted cn c de (write_counted cn c (length l + j, l) ++ rest) =
    Some (de (map Some l ++ fst (take_elements c j rest)), snd (take_elements c j rest)).
  Proof.
    intros Fn F. unfold read_counted, write_counted. cbn [fst snd]. rewrite <- app_assoc, Fn, take_written by exact F. reflexivity.
  Qed.
  Lemma counted_exact cn (c : codec B E) de n l rest : faithful cn -> faithful c -> n = length l ->
    read_counted cn c de (write_counted cn c (n, l) ++ rest) = Some (de (map Some l), rest).
  Proof.
    intros Fn F ->. pose proof (read_written cn c de l 0 rest Fn F) as R. cbn [take_elements fst snd] in R.
    rewrite Nat.add_0_r, app_nil_r in R. exact R.
  Qed.
  Lemma read_elements_written (c : codec B (option E)) l rest a r : faithful c ->
    read_elements c ((flat_map (fun e => enc c (Some e)) l ++ enc c None) ++ rest) a r <-> a = map Some l /\ r = rest.
  Proof.
    intros F. revert a. induction l as [|e l IH]; intros a; cbn [flat_map app map].
    - split.
      + intros X. inversion X as [? ? E1|? E1|? ? ? ? ? E1]; subst; rewrite F in E1; inversion E1; subst. auto.
      + intros [-> ->]. apply read_end. apply F.
    - rewrite <- !app_assoc. split.
      + intros X. inversion X as [? ? E1|? E1|? ? ? ? ? E1 X']; subst; rewrite F in E1; inversion E1; subst.
        rewrite app_assoc in X'. apply IH in X'. destruct X' as [-> ->]. auto.
      + intros [-> ->]. apply (read_more c _ e _ (map Some l) rest (F (Some e) _)). rewrite app_assoc. apply IH. auto.
  Qed.
  Lemma delimited_exact (c : codec B (option E)) de s rest r rest' : faithful c ->
    (read_delimited c de (write_delimited c s ++ rest) r rest' <-> r = de (map Some (snd s)) /\ rest' = rest).
  Proof.
    intros F. unfold read_delimited, write_delimited. split.
    - intros (a & X & <-). apply read_elements_written in X; [|exact F]. destruct X as [-> ->]. auto.
    - intros [-> ->]. exists (map Some (snd s)). split; [|reflexivity]. apply read_elements_written; auto.
  Qed.
End Formats.

Section Containers.
  Context {I : Type} `{PL : PointLaws I}.
  Context {K : Type} {IK : InclusiveInterval I K} {IL : IntervalLaws I K}.
  Context {V : Type}.
  Notation entry := (K * V)%type.

  Lemma zosdit_truncated (l : list entry) z r : zosdit_deserialize (map Some l) = Val (Ok z) ->
    zosdit_deserialize (map Some l ++ None :: r) = Val (Err DeElement).
  Proof.
    unfold zosdit_deserialize. rewrite <- (app_nil_r (map Some l)) at 1. rewrite !visit_seq_map.
    destruct (extend_strict_back l z_new) as [[z'|]|]; try discriminate. reflexivity.
  Qed.

  Definition single (m : list entry) : list (K * list V) := map (fun e => (fst e, [snd e])) m.
  Lemma flatten_single m : flatten (single m) = m.
  Proof. induction m as [|[k v] m IH]; [reflexivity|]. cbn. f_equal. exact IH. Qed.
  Lemma in_single m x : In x (single m) -> exists e, In e m /\ elo x = elo e /\ ehi x = ehi e.
  Proof. intros H1. apply in_map_iff in H1. destruct H1 as (e & <- & He). exists e. auto. Qed.
  Lemma single_ok m : WF m -> ZWF (mkZosdit (length m) (single m)) /\ ZD (single m).
  Proof.
    intros W. split.
    - split; [|split]; cbn [z_inner z_len].
      + induction m as [|[k v] m IH]; [apply ZS_nil|]. apply WF_cons in W. destruct W as (Vk & W & Hm).
        cbn [single map]. apply ZS_cons. split; [exact Vk|]. split; [apply IH, W|].
        apply Forall_forall. intros x Hx. apply in_single in Hx. destruct Hx as (e & He & E1 & E2). rewrite ?E1, ?E2.
        rewrite Forall_forall in Hm. specialize (Hm e He). unfold elo, ehi in *. cbn [fst] in *. lia.
      + apply Forall_forall. intros x Hx. apply in_map_iff in Hx. destruct Hx as (e & <- & He). split; cbn; [discriminate|eauto].
      + unfold count. rewrite flatten_single. lia.
    - induction m as [|[k v] m IH]; [constructor|]. apply WF_cons in W. destruct W as (Vk & W & Hm).
      cbn [single map]. apply ZD_cons. split; [apply IH, W|].
      apply Forall_forall. intros x Hx. apply in_single in Hx. destruct Hx as (e & He & E1 & E2). rewrite ?E1, ?E2.
      rewrite Forall_forall in Hm. specialize (Hm e He). destruct W as [_ W]. rewrite Forall_forall in W. specialize (W e He).
      unfold okv, elo, ehi in *. cbn [fst] in *. lia.
  Qed.
  Lemma map_as_zosdit (m : NoditMap K V) : WF m ->
    zosdit_deserialize (map Some (iter m)) = Val (Ok (mkZosdit (length m) (single m))).
  Proof.
    intros W. destruct (single_ok m W) as [ZW Zd].
    pose proof (round_trip_exact (mkZosdit (length m) (single m)) ZW Zd) as R. unfold zosdit_serialize, zosdit_iter in R.
    cbn [snd z_inner z_len] in R. unfold count in R. rewrite flatten_single in R. apply R. reflexivity.
  Qed.

  Lemma ZS_disjoint_WF (l : list entry) : ZS l -> disjoint_intervals (map fst l) -> WF l.
  Proof.
    induction l as [|[k v] l IH]; intros Z [DV DO]; [apply WF_nil|].
    apply ZS_cons in Z. destruct Z as (Vk & Z & Hl). cbn [map] in *. apply Forall_cons_iff in DV. destruct DV as [_ DV].
    inversion DO as [|? ? DO1 DO2]; subst. apply WF_cons. split; [exact Vk|]. split; [apply IH; [exact Z|split; assumption]|].
    rewrite Forall_forall in *. intros e He. specialize (Hl e He). specialize (DO1 (fst e) (in_map fst _ _ He)).
    rewrite overlap_rk in DO1. destruct Z as [_ OK]. rewrite Forall_forall in OK. specialize (OK e He).
    unfold okv, elo, ehi in *. cbn [fst] in *. lia.
  Qed.
  Lemma overlap_error (l : list entry) : forall m e, visit_seq (map Some l) m = Val (Err e) -> e = DeOverlap.
  Proof.
    induction l as [|[k v] l IH]; intros m e; cbn [map visit_seq]; [discriminate|].
    destruct (insert_strict k v m) as [m' [[[]|]|]]; [apply IH| |discriminate]. intros X. injection X as <-. reflexivity.
  Qed.
End Containers.
