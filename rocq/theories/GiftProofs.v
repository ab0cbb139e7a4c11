(** The gift wrapping hull: its edge table and its loop. *)
From Coq Require Import ZArith.
From Verif Require Import Base Num H3Model HashModel HashProofs PropHash GiftModel.
Set Implicit Arguments.

Lemma edgeEqb_ok a b : edgeEqb a b = true <-> a = b.
Proof.
  unfold edgeEqb. destruct a as [a1 a2], b as [b1 b2]. cbn. rewrite Bool.andb_true_iff, !Z.eqb_eq.
  split; [intros [-> ->]; auto|]. intros E. injection E. auto.
Qed.
Lemma dir_ne u v : dir u v <> noEdge.
Proof. unfold dir, noEdge. intros E. injection E. lia. Qed.
Lemma dir_inj u v u' v' : dir u v = dir u' v' -> u = u' /\ v = v'.
Proof. unfold dir. intros E. injection E. intros. lia. Qed.

Lemma pairCells_pow n : exists p, pairCells n = 2 ^ p /\ n < 2 ^ p.
Proof.
  exists (Nat.log2_up (n * 11 / 10 + 1)). split; [reflexivity|].
  assert (H1 : n <= n * 11 / 10) by (apply Nat.div_le_lower_bound; lia).
  assert (H2 : n * 11 / 10 + 1 <= 2 ^ Nat.log2_up (n * 11 / 10 + 1)); [|lia].
  destruct (Nat.eq_dec (n * 11 / 10) 0) as [->|]; [cbn; lia|]. apply Nat.log2_up_spec. lia.
Qed.

Section Tab.
  Variable K : Num.
  Variable hash : edge -> nat.
  Variable P : list (v3 (nT K)).
  Notation keysOf tab := (map fst (entries edgeEqb noEdge (V := unit) tab)).
  Notation markP := (mark K hash P).
  Notation marksP := (marks K hash P).

  Definition goodTab (tab : edgeTable) (es : list edge) : Prop :=
    (exists p, cells K P = 2 ^ p /\ built edgeEqb noEdge tt hash p tab) /\ forall e, In e (keysOf tab) <-> In e es.

  Lemma good_new : goodTab (cleared noEdge tt (cells K P)) [].
  Proof.
    destruct (pairCells_pow (4 * length P)) as (p & Hp & _). split.
    - exists p. split; auto. change (cells K P) with (pairCells (4 * length P)). rewrite Hp. constructor.
    - intros e. generalize (cells K P). intros n. unfold cleared. induction n as [|n IH]; cbn; tauto.
  Qed.


  (** A mark that returned *)
  Lemma mark_sound tab es e tab' : goodTab tab es -> e <> noEdge -> markP e tab = Ok tab' -> goodTab tab' (e :: es).
  Proof.
    intros [(p & Hp & B) HK] He E. unfold mark in E. rewrite Hp in E.
    assert (Hk : forall kv, In kv [(e, tt)] -> fst kv <> noEdge) by (intros kv [<-|[]]; auto).
    destruct (@C89_concurrent_inserts _ _ edgeEqb noEdge tt hash p tab [(e, tt)] (repeat 0 (3 * 2 ^ p)) edgeEqb_ok B Hk)
      as (tab2 & ths & Er & KV & _ & FIN).
    rewrite Er in E. cbn [bind] in E. destruct ths as [|[kv [h|h|h|h|b]] [|t ths]]; try discriminate. injection E as ->.
    assert (D : forall t, In t [(kv, PDone b)] -> exists b, snd t = PDone b) by (intros t [<-|[]]; cbn; eauto).
    destruct (FIN D) as (_ & _ & HK' & _). split.
    - exists p. split; auto. eapply b_batch; eauto.
    - intros x. rewrite HK', HK. cbn. tauto.
  Qed.
  (** A mark in a table with room returns. *)
  Lemma mark_total tab es e : goodTab tab es -> e <> noEdge -> S (length es) <= cells K P ->
    exists tab', markP e tab = Ok tab' /\ goodTab tab' (e :: es).
  Proof.
    intros G He HL. destruct G as [(p & Hp & B) HK].
    assert (Hk : forall kv, In kv [(e, tt)] -> fst kv <> noEdge) by (intros kv [<-|[]]; auto).
    destruct (@C89_concurrent_inserts _ _ edgeEqb noEdge tt hash p tab [(e, tt)] (repeat 0 (3 * 2 ^ p)) edgeEqb_ok B Hk)
      as (tab2 & ths & Er & KV & ST & _).
    destruct ths as [|[kv q] [|t ths]]; try discriminate.
    assert (HD : exists b, q = PDone b).
    { apply (ST (e :: es)) with (i := 0) (t := (kv, q)); auto.
      - cbn. lia.
      - intros x Hx. apply in_app_iff in Hx as [Hx|[<-|[]]]; [right; apply HK; auto|left; auto].
      - generalize (3 * 2 ^ p). intros n. induction n as [|n IH]; cbn; lia. }
    destruct HD as [b ->]. exists tab2.
    assert (E : markP e tab = Ok tab2) by (unfold mark; rewrite Hp, Er; reflexivity).
    split; auto. apply mark_sound with (tab := tab); auto. split; eauto.
  Qed.
  Lemma marks_sound es' : forall tab es tab', goodTab tab es -> (forall e, In e es' -> e <> noEdge) ->
    marksP es' tab = Ok tab' -> goodTab tab' (rev es' ++ es).
  Proof.
    induction es' as [|e es' IH]; cbn [marks rev app]; intros tab es tab' G He E.
    - injection E as <-. auto.
    - destruct (markP e tab) as [t| | |] eqn:Em; try discriminate. cbn [bind] in E.
      rewrite <- app_assoc. cbn [app]. apply (IH t); auto; [|intros x Hx; apply He; cbn; auto].
      apply (mark_sound G); auto. apply He. cbn. auto.
  Qed.
  Lemma marks_total es' : forall tab es, goodTab tab es -> (forall e, In e es' -> e <> noEdge) ->
    length es' + length es <= cells K P -> exists tab', marksP es' tab = Ok tab' /\ goodTab tab' (rev es' ++ es).
  Proof.
    induction es' as [|e es' IH]; cbn [marks rev app length]; intros tab es G He HL.
    - eauto.
    - destruct (@mark_total tab es e G) as (t & -> & G'); [apply He; cbn; auto|lia|]. cbn [bind].
      destruct (IH t (e :: es) G') as (tab' & E & G''); [intros x Hx; apply He; cbn; auto|cbn; lia|].
      exists tab'. split; auto. rewrite <- app_assoc. exact G''.
  Qed.
  Lemma find_some fuel k : forall h (tab : edgeTable) v mask, findCell edgeEqb noEdge mask fuel k h tab = Ok (Some v) -> In (k, v) tab.
  Proof.
    induction fuel as [|fuel IH]; cbn; intros h tab v mask E; [discriminate|].
    destruct (nth_error tab h) as [c|] eqn:Ec; [|discriminate]. destruct (edgeEqb (fst c) k) eqn:E1.
    - apply edgeEqb_ok in E1. injection E as <-. rewrite <- E1, <- surjective_pairing. eapply nth_error_In; eauto.
    - destruct (edgeEqb (fst c) noEdge); [discriminate|]. eauto.
  Qed.
  Lemma processed_sound tab es e : goodTab tab es -> e <> noEdge -> processed K hash P e tab = Ok true -> In e es.
  Proof.
    intros [_ HK] He E. unfold processed, contains, find in E.
    destruct (findCell _ _ _ _ _ _ _) as [[v|]| | |] eqn:Ef; try discriminate. apply find_some in Ef.
    apply HK. apply (in_map fst (entries edgeEqb noEdge tab) (e, v)). apply (in_entries edgeEqb edgeEqb_ok). auto.
  Qed.
  Lemma processed_total tab es e : goodTab tab es -> e <> noEdge -> length es < cells K P ->
    exists b, processed K hash P e tab = Ok b /\ (b = true <-> In e es).
  Proof.
    intros [(p & Hp & B) HK] He HL. unfold processed. rewrite Hp in *.
    destruct (@C90_lookup _ _ edgeEqb noEdge tt hash p tab e (2 ^ p) edgeEqb_ok B He (le_n _)) as (r & _ & _ & b & E & Hb).
    - left. apply Nat.le_lt_trans with (length es); auto. rewrite <- (map_length fst). apply NoDup_incl_length.
      + eapply nodup_entries; [apply edgeEqb_ok|]. eapply built_ok; eauto. apply edgeEqb_ok.
      + intros x. apply HK.
    - exists b. split; auto. rewrite Hb. apply HK.
  Qed.
  Lemma cells_big : 4 * length P < cells K P.
  Proof. destruct (pairCells_pow (4 * length P)) as (p & Hp & H). unfold cells. rewrite Hp. exact H. Qed.
  Lemma good_size tab es : goodTab tab es -> length (entries edgeEqb noEdge tab) <= cells K P.
  Proof.
    intros [(p & Hp & B) _]. apply built_ok in B; [|apply edgeEqb_ok]. rewrite Hp, <- (proj1 B). apply filter_length_le.
  Qed.
End Tab.
