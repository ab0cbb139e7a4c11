(** Correctness of the concurrent hash table. *)
From Verif Require Import Base HashModel.
Set Implicit Arguments.

Lemma NoDup_map_in X Y (f : X -> Y) l : (forall x y, In x l -> In y l -> f x = f y -> x = y) -> NoDup l -> NoDup (map f l).
Proof.
  induction l as [|a l IH]; intros Hi Hn; cbn; [constructor|]. inversion_clear Hn. constructor.
  - rewrite in_map_iff. intros (b & E & Hb). apply H. rewrite <- (Hi b a); cbn; auto.
  - apply IH; auto. intros x y Hx Hy. apply Hi; cbn; auto.
Qed.

Section Proofs.
  Variables K V : Type.
  Variable keqb : K -> K -> bool.
  Hypothesis Hkeq : forall a b, keqb a b = true <-> a = b.
  Variable ek : K.
  Variable hash : K -> nat.
  Variable p : nat.
  Notation m := (2 ^ p).
  Notation mask := (m - 1).
  Notation table := (list (K * V)).
  Notation firstI := (firstIndex hash mask).
  Notation incI := (incrementIndex mask).
  Notation stepT := (step keqb ek mask (V := V)).
  Notation runT := (run keqb ek mask (V := V)).

  Lemma m_pos : 0 < m.
  Proof. induction p; cbn; lia. Qed.
  Lemma keq_refl k : keqb k k = true.
  Proof. apply Hkeq. reflexivity. Qed.
  Lemma keq_false a b : keqb a b = false <-> a <> b.
  Proof.
    split.
    - intros H E. subst. rewrite keq_refl in H. discriminate.
    - intros H. destruct (keqb a b) eqn:E; auto. apply Hkeq in E. congruence.
  Qed.

  (** The d-th cell a key is looked for *)
  Definition slot (k : K) (d : nat) : nat := (hash k + d) mod m.
  Lemma range_mod h : hashToRange mask h = h mod m.
  Proof. unfold hashToRange. replace mask with (Nat.ones p) by (rewrite Nat.ones_equiv; lia). apply Nat.land_ones. Qed.
  Lemma first_slot k : firstI k = slot k 0.
  Proof. unfold firstIndex, slot. rewrite range_mod, Nat.add_0_r. reflexivity. Qed.
  Lemma inc_slot k d : incI (slot k d) = slot k (S d).
  Proof.
    unfold incrementIndex, slot. rewrite range_mod. pose proof m_pos.
    rewrite Nat.add_mod_idemp_l by lia. f_equal. lia.
  Qed.
  Lemma slot_lt k d : slot k d < m.
  Proof. apply Nat.mod_upper_bound. pose proof m_pos. lia. Qed.
  Lemma slot_mod k d : slot k (d mod m) = slot k d.
  Proof. unfold slot. pose proof m_pos. rewrite Nat.add_mod_idemp_r by lia. reflexivity. Qed.
  (** Every cell is reached. *)
  Lemma slot_onto k h : h < m -> exists d, d < m /\ slot k d = h.
  Proof.
    intros H. pose proof m_pos. pose proof (Nat.mod_upper_bound (hash k) m ltac:(lia)) as Hr.
    exists ((h + m - hash k mod m) mod m). split; [apply Nat.mod_upper_bound; lia|].
    rewrite slot_mod. unfold slot. rewrite <- (Nat.add_mod_idemp_l (hash k)) by lia.
    replace (hash k mod m + (h + m - hash k mod m)) with (h + 1 * m) by lia.
    rewrite Nat.mod_add by lia. apply Nat.mod_small. auto.
  Qed.

  Definition key (tab : table) (h : nat) : K := match nth_error tab h with Some c => fst c | None => ek end.
  (** Every cell before the d-th is taken by another key. *)
  Definition passed (tab : table) (k : K) (d : nat) : Prop :=
    forall j, j < d -> key tab (slot k j) <> ek /\ key tab (slot k j) <> k.
  Definition tableOk (tab : table) : Prop :=
    length tab = m /\
    forall h, key tab h <> ek -> exists d, slot (key tab h) d = h /\ passed tab (key tab h) d.
  Definition holds (tab : table) (k : K) : Prop := exists h, key tab h = k.

  Lemma key_some tab h c : nth_error tab h = Some c -> key tab h = fst c.
  Proof. intros H. unfold key. rewrite H. reflexivity. Qed.
  Lemma slot_some (tab : table) k d : length tab = m -> exists c, nth_error tab (slot k d) = Some c.
  Proof.
    intros H. destruct (nth_error tab (slot k d)) as [c|] eqn:E; eauto.
    apply nth_error_None in E. pose proof (slot_lt k d). lia.
  Qed.

  Lemma cleared_ok ev : tableOk (cleared ek ev m).
  Proof.
    split; [apply repeat_length|]. intros h H. exfalso. apply H. unfold key, cleared.
    destruct (nth_error (repeat (ek, ev) m) h) as [c|] eqn:E; auto. apply nth_error_In, repeat_spec in E. subst. reflexivity.
  Qed.

  (** Keys are stored once. *)
  Lemma key_inj tab h1 h2 : tableOk tab -> key tab h1 <> ek -> key tab h1 = key tab h2 -> h1 = h2.
  Proof.
    intros [_ H] H1 E. destruct (H h1 H1) as (d1 & S1 & P1). destruct (H h2) as (d2 & S2 & P2); [congruence|].
    rewrite <- E in S2, P2. destruct (lt_eq_lt_dec d1 d2) as [[L|L]|L].
    - destruct (P2 d1 L) as [_ F]. rewrite S1 in F. congruence.
    - congruence.
    - destruct (P1 d2 L) as [_ F]. rewrite S2 in F. congruence.
  Qed.

  (** A key whose next cell is empty is not stored. *)
  Lemma not_held tab k d : tableOk tab -> k <> ek -> passed tab k d -> key tab (slot k d) = ek -> ~ holds tab k.
  Proof.
    intros [_ H] Hk HP He (h & Eh). destruct (H h) as (d' & S' & P'); [congruence|]. rewrite Eh in *.
    destruct (lt_eq_lt_dec d' d) as [[L|L]|L].
    - destruct (HP d' L) as [_ F]. rewrite S' in F. congruence.
    - subst d'. rewrite S' in He. congruence.
    - destruct (P' d L) as [F _]. congruence.
  Qed.

  (** Cells that are taken keep their key. *)
  Definition grows (tab tab' : table) : Prop := forall h, key tab h <> ek -> key tab' h = key tab h.
  Lemma passed_grows tab tab' k d : grows tab tab' -> passed tab k d -> passed tab' k d.
  Proof. intros G H j Hj. destruct (H j Hj) as [H1 H2]. rewrite (G _ H1). auto. Qed.
  Lemma grows_refl tab : grows tab tab.
  Proof. intros h _. reflexivity. Qed.

  Lemma key_upd tab h c h' : h < length tab -> key (upd h c tab) h' = if h =? h' then fst c else key tab h'.
  Proof.
    intros H. unfold key. destruct (Nat.eqb_spec h h') as [->|Hn].
    - rewrite nth_error_upd_eq; auto.
    - rewrite nth_error_upd_neq; auto.
  Qed.

  (** Claiming an empty cell *)
  Lemma claim_ok tab k v d : tableOk tab -> k <> ek -> passed tab k d -> key tab (slot k d) = ek ->
    let tab' := upd (slot k d) (k, v) tab in tableOk tab' /\ grows tab tab'.
  Proof.
    intros T Hk HP He tab'. assert (HL : slot k d < length tab) by (destruct T as [-> _]; apply slot_lt).
    assert (G : grows tab tab').
    { intros h Hh. unfold tab'. rewrite key_upd by auto. destruct (Nat.eqb_spec (slot k d) h) as [<-|]; congruence. }
    split; auto. split; [unfold tab'; rewrite upd_length; apply T|]. intros h Hh.
    unfold tab' in Hh |- *. rewrite key_upd in Hh |- * by auto. destruct (Nat.eqb_spec (slot k d) h) as [E|Hn].
    - subst h. cbn [fst]. exists d. split; auto. apply (passed_grows G). auto.
    - destruct (proj2 T h Hh) as (d' & S' & P'). exists d'. split; auto. apply (passed_grows G). auto.
  Qed.
  (** Storing a value *)
  Lemma store_ok tab h v c : tableOk tab -> nth_error tab h = Some c ->
    let tab' := upd h (fst c, v) tab in tableOk tab' /\ forall h', key tab' h' = key tab h'.
  Proof.
    intros T E tab'. assert (HL : h < length tab) by (apply nth_error_Some; congruence).
    assert (G : forall h', key tab' h' = key tab h').
    { intros h'. unfold tab'. rewrite key_upd by auto. destruct (Nat.eqb_spec h h') as [<-|]; auto.
      symmetry. apply key_some in E. exact E. }
    split; auto. split; [unfold tab'; rewrite upd_length; apply T|]. intros h' Hh. rewrite G in *.
    destruct (proj2 T h' Hh) as (d' & S' & P'). exists d'. split; auto. apply (passed_grows (tab := tab)); auto.
    intros x _. apply G.
  Qed.

  (** *** Concurrent insertions *)
  Variable tab0 : table.
  Hypothesis T0 : tableOk tab0.
  Variable kvs : list (K * V).
  Hypothesis Hkvs : forall kv, In kv kvs -> fst kv <> ek.

  Definition winner (q : pc) : Prop := match q with PStore _ | PDone true => True | _ => False end.
  Definition thrOk (tab : table) (kv : K * V) (q : pc) : Prop :=
    match q with
    | PLoad h | PCas h => exists d, h = slot (fst kv) d /\ passed tab (fst kv) d
    | PCheck h => exists d, h = slot (fst kv) d /\ passed tab (fst kv) d /\ key tab h <> ek
    | PStore h => key tab h = fst kv
    | PDone true => In kv tab
    | PDone false => holds tab (fst kv)
    end.
  (** Steps a thread took, counted against 3m *)
  Definition spent (tab : table) (k : K) (q : pc) (n : nat) : Prop :=
    match q with
    | PLoad h => exists d, h = slot k d /\ passed tab k d /\ n <= 3 * d
    | PCas h => exists d, h = slot k d /\ passed tab k d /\ n <= 3 * d + 1
    | PCheck h => exists d, h = slot k d /\ passed tab k d /\ n <= 3 * d + 2
    | PStore h => exists d, passed tab k d /\ n <= 3 * d + 2
    | PDone _ => True
    end.

  Record Inv (cnt : nat -> nat) (tab : table) (ths : list (K * V * pc)) : Prop := {
    i_tab : tableOk tab;
    i_kvs : map fst ths = kvs;
    i_thr : forall i kv q, nth_error ths i = Some (kv, q) -> thrOk tab kv q /\ spent tab (fst kv) q (cnt i);
    i_old : forall h c, nth_error tab0 h = Some c -> fst c <> ek -> nth_error tab h = Some c;
    i_new : forall h, key tab h <> ek -> key tab0 h = key tab h \/
              exists i kv q, nth_error ths i = Some (kv, q) /\ winner q /\ fst kv = key tab h;
    i_win : forall i kv q, nth_error ths i = Some (kv, q) -> winner q -> ~ holds tab0 (fst kv);
    i_one : forall i j kv kv' q q', nth_error ths i = Some (kv, q) -> nth_error ths j = Some (kv', q') ->
              winner q -> winner q' -> fst kv = fst kv' -> i = j }.

  Lemma start_nth i kv q : nth_error (start hash mask kvs) i = Some (kv, q) -> In kv kvs /\ q = PLoad (slot (fst kv) 0).
  Proof.
    intros H. unfold start in H. rewrite nth_error_map in H. destruct (nth_error kvs i) as [x|] eqn:E; [|discriminate].
    cbn in H. injection H as <- <-. rewrite first_slot. split; auto. eapply nth_error_In; eauto.
  Qed.
  Lemma Inv_start : Inv (fun _ => 0) tab0 (start hash mask kvs).
  Proof.
    constructor; auto.
    - unfold start. rewrite map_map. cbn. apply map_id.
    - intros i kv q H. apply start_nth in H as [Hin ->]. cbn.
      assert (P : passed tab0 (fst kv) 0) by (intros j Hj; lia). split; exists 0; auto.
    - intros i kv q H W. apply start_nth in H as [_ ->]. destruct W.
    - intros i j kv kv' q q' H _ W. apply start_nth in H as [_ ->]. destruct W.
  Qed.

  (** What the other threads see of a step *)
  Lemma thr_keep tab tab' kv q n : grows tab tab' -> (In kv tab -> winner q -> In kv tab') ->
    (forall k, k <> ek -> holds tab k -> holds tab' k) -> fst kv <> ek ->
    thrOk tab kv q /\ spent tab (fst kv) q n -> thrOk tab' kv q /\ spent tab' (fst kv) q n.
  Proof.
    intros G HI HH Hk [H1 H2]. destruct q as [h|h|h|h|[]]; cbn in *.
    - destruct H1 as (d & E & P). destruct H2 as (d' & E' & P' & L). split; [exists d|exists d']; eauto using passed_grows.
    - destruct H1 as (d & E & P). destruct H2 as (d' & E' & P' & L). split; [exists d|exists d']; eauto using passed_grows.
    - destruct H2 as (d' & P' & L). split; [rewrite (G h); congruence|exists d'; eauto using passed_grows].
    - destruct H1 as (d & E & P & Q). destruct H2 as (d' & E' & P' & L).
      split; [exists d; rewrite (G h Q)|exists d']; eauto 6 using passed_grows.
    - auto.
    - auto.
  Qed.
  Lemma holds_grows tab tab' : grows tab tab' -> forall k, k <> ek -> holds tab k -> holds tab' k.
  Proof. intros G k Hk (h & E). exists h. rewrite (G h); congruence. Qed.

  Lemma nth_upd_thr (ths : list (K * V * pc)) i x j y z : nth_error ths i = Some z -> nth_error (upd i x ths) j = Some y ->
    (j = i /\ y = x) \/ (j <> i /\ nth_error ths j = Some y).
  Proof.
    intros Hi H. destruct (Nat.eq_dec j i) as [->|Hn].
    - rewrite nth_error_upd_eq in H; [injection H as <-; auto|]. apply nth_error_Some. congruence.
    - rewrite nth_error_upd_neq in H by auto. auto.
  Qed.

  Lemma kvs_upd (ths : list (K * V * pc)) i kv q q' : nth_error ths i = Some (kv, q) ->
    map fst (upd i (kv, q') ths) = map fst ths.
  Proof.
    revert i. induction ths as [|t ths IH]; intros [|i] H; cbn in *; try discriminate.
    - injection H as ->. reflexivity.
    - rewrite (IH i H). reflexivity.
  Qed.

  Definition bump (cnt : nat -> nat) (i : nat) : nat -> nat := fun j => if j =? i then S (cnt j) else cnt j.

  Lemma step_ok cnt tab ths i kv q : Inv cnt tab ths -> nth_error ths i = Some (kv, q) ->
    exists tab' q', stepT kv q tab = Ok (tab', q') /\ Inv (bump cnt i) tab' (upd i (kv, q') ths).
  Proof.
    intros [T KV TH OLD NEW WIN ONE] Hi.
    assert (Hin : In kv kvs).
    { rewrite <- KV. change kv with (fst (kv, q)). apply in_map. eapply nth_error_In; eauto. }
    pose proof (Hkvs _ Hin) as Hk. destruct (TH i kv q Hi) as [TI SP].
    assert (Hks : forall j kv' q', nth_error ths j = Some (kv', q') -> fst kv' <> ek).
    { intros j kv' q' Hj. apply Hkvs. rewrite <- KV. change kv' with (fst (kv', q')). apply in_map. eapply nth_error_In; eauto. }
    assert (BI : bump cnt i i = S (cnt i)) by (unfold bump; rewrite Nat.eqb_refl; auto).
    assert (BJ : forall j, j <> i -> bump cnt i j = cnt j).
    { intros j Hj. unfold bump. destruct (Nat.eqb_spec j i); congruence. }
    (* a step that leaves the table alone *)
    assert (SAME : forall q', (winner q' <-> winner q) -> thrOk tab kv q' /\ spent tab (fst kv) q' (S (cnt i)) ->
       Inv (bump cnt i) tab (upd i (kv, q') ths)).
    { intros q' HW HT. constructor; auto.
      - rewrite (kvs_upd _ _ _ Hi). auto.
      - intros j kv' q'' Hj. destruct (@nth_upd_thr _ _ _ _ _ _ Hi Hj) as [[-> E]|[Hn E]].
        + injection E as -> ->. rewrite BI. auto.
        + rewrite BJ by auto. eauto.
      - intros h Hh. destruct (NEW h Hh) as [E|(j & kv' & q'' & Hj & W & E)]; auto. right.
        destruct (Nat.eq_dec j i) as [->|Hn].
        + exists i, kv, q'. rewrite Hi in Hj. injection Hj as <- <-.
          split; [apply nth_error_upd_eq; apply nth_error_Some; congruence|]. tauto.
        + exists j, kv', q''. rewrite nth_error_upd_neq by auto. auto.
      - intros j kv' q'' Hj W. destruct (@nth_upd_thr _ _ _ _ _ _ Hi Hj) as [[-> E]|[Hn E]].
        + injection E as -> ->. apply (WIN i kv q); tauto.
        + eauto.
      - intros j1 j2 kv1 kv2 q1 q2 H1 H2 W1 W2 E.
        destruct (@nth_upd_thr _ _ _ _ _ _ Hi H1) as [[-> E1]|[Hn1 E1]], (@nth_upd_thr _ _ _ _ _ _ Hi H2) as [[-> E2]|[Hn2 E2]]; auto;
          try (injection E1 as -> ->); try (injection E2 as -> ->).
        + apply (ONE i j2 kv kv2 q q2); tauto.
        + apply (ONE j1 i kv1 kv q1 q); tauto.
        + apply (ONE j1 j2 kv1 kv2 q1 q2); tauto. }
    destruct q as [h|h|h|h|b].
    - (* load *)
      destruct SP as (d & -> & P & L). destruct (slot_some tab (fst kv) d (proj1 T)) as (c & Ec).
      cbn [step]. rewrite Ec. eexists. eexists. split; [reflexivity|].
      destruct (keqb (fst c) ek) eqn:E; (apply SAME; [reflexivity|]); cbn.
      + split; exists d; auto. split; auto. split; auto. lia.
      + apply keq_false in E. rewrite (key_some _ _ Ec). split; exists d; auto. split; auto. split; auto. lia.
    - (* compare and swap *)
      destruct SP as (d & -> & P & L). destruct (slot_some tab (fst kv) d (proj1 T)) as (c & Ec).
      cbn [step]. rewrite Ec. destruct (keqb (fst c) ek) eqn:E.
      + apply Hkeq in E. assert (He : key tab (slot (fst kv) d) = ek) by (rewrite (key_some _ _ Ec); auto).
        eexists. eexists. split; [reflexivity|]. set (tab' := upd _ _ tab).
        destruct (@claim_ok tab (fst kv) (snd c) d T Hk P He) as [T' G]. fold tab' in T', G.
        pose proof (not_held T Hk P He) as NH.
        assert (HL : slot (fst kv) d < length tab) by (rewrite (proj1 T); apply slot_lt).
        assert (HIn : forall x, fst x <> ek -> In x tab -> In x tab').
        { intros x Hx Hxi. apply In_nth_error in Hxi as [h Hh]. apply nth_error_In with (n := h). unfold tab'.
          rewrite nth_error_upd_neq; auto. intros <-. rewrite Ec in Hh. congruence. }
        assert (WH : forall j kv' q', nth_error ths j = Some (kv', q') -> winner q' -> holds tab (fst kv')).
        { intros j kv' q' Hj W. destruct (TH j kv' q' Hj) as [TJ _]. destruct q' as [h|h|h|h|[]]; try destruct W; cbn in TJ.
          - exists h. auto.
          - apply In_nth_error in TJ as [h Hh]. exists h. apply (key_some _ _ Hh). }
        constructor.
        * exact T'.
        * rewrite (kvs_upd _ _ _ Hi). auto.
        * intros j kv' q' Hj. destruct (@nth_upd_thr _ _ _ _ _ _ Hi Hj) as [[-> E1]|[Hn E1]].
          { injection E1 as -> ->. rewrite BI. cbn. split.
            - unfold tab'. rewrite key_upd by auto. rewrite Nat.eqb_refl. reflexivity.
            - exists d. split; [apply (passed_grows G); auto|lia]. }
          { rewrite BJ by auto. apply (thr_keep (tab := tab)); eauto. apply holds_grows. auto. }
        * intros h x Hx Hne. pose proof (OLD h x Hx Hne) as Ho. unfold tab'. rewrite nth_error_upd_neq; auto.
          intros <-. rewrite Ec in Ho. congruence.
        * intros h Hh. unfold tab' in Hh |- *. rewrite key_upd in Hh |- * by auto.
          destruct (Nat.eqb_spec (slot (fst kv) d) h) as [Eh|Hn].
          { subst h. right. exists i, kv, (PStore (slot (fst kv) d)). split; [apply nth_error_upd_eq; apply nth_error_Some; congruence|].
            split; cbn; auto. }
          { destruct (NEW h Hh) as [E1|(j & kv' & q' & Hj & W & E1)]; auto. right. exists j, kv', q'.
            rewrite nth_error_upd_neq; auto. intros <-. rewrite Hi in Hj. injection Hj as <- <-. destruct W. }
        * intros j kv' q' Hj W. destruct (@nth_upd_thr _ _ _ _ _ _ Hi Hj) as [[-> E1]|[Hn E1]]; eauto.
          injection E1 as -> ->. intros (h & Eh). apply NH. exists h. unfold key in Eh |- *.
          destruct (nth_error tab0 h) as [x|] eqn:Ex; [|congruence]. rewrite (OLD h x Ex); congruence.
        * intros j1 j2 kv1 kv2 q1 q2 H1 H2 W1 W2 Ee.
          destruct (@nth_upd_thr _ _ _ _ _ _ Hi H1) as [[-> E1]|[Hn1 E1]], (@nth_upd_thr _ _ _ _ _ _ Hi H2) as [[-> E2]|[Hn2 E2]]; auto;
            try (injection E1 as -> ->); try (injection E2 as -> ->).
          { exfalso. apply NH. rewrite Ee. eauto. }
          { exfalso. apply NH. rewrite <- Ee. eauto. }
          { apply (ONE j1 j2 kv1 kv2 q1 q2); tauto. }
      + eexists. eexists. split; [reflexivity|]. apply keq_false in E. apply SAME; [reflexivity|]. cbn.
        rewrite (key_some _ _ Ec). split; exists d; auto. split; auto. split; auto. lia.
    - (* store *)
      cbn in TI. assert (Hc : exists c, nth_error tab h = Some c).
      { unfold key in TI. destruct (nth_error tab h); [eauto|congruence]. }
      destruct Hc as (c & Ec). cbn [step]. rewrite Ec. eexists. eexists. split; [reflexivity|]. set (tab' := upd _ _ tab).
      destruct (@store_ok tab h (snd kv) c T Ec) as [T' G]. fold tab' in T', G.
      assert (HL : h < length tab) by (apply nth_error_Some; congruence).
      assert (Hkey : fst c = fst kv) by (rewrite <- (key_some _ _ Ec); auto).
      assert (GR : grows tab tab') by (intros x _; apply G).
      constructor.
      + exact T'.
      + rewrite (kvs_upd _ _ _ Hi). auto.
      + intros j kv' q' Hj. destruct (@nth_upd_thr _ _ _ _ _ _ Hi Hj) as [[-> E1]|[Hn E1]].
        * injection E1 as -> ->. cbn. split; auto. apply nth_error_In with (n := h). unfold tab'.
          rewrite nth_error_upd_eq by auto. rewrite Hkey. f_equal. symmetry. apply surjective_pairing.
        * rewrite BJ by auto. apply (thr_keep (tab := tab)); eauto; [|apply holds_grows; auto].
          intros Hx W. apply In_nth_error in Hx as [h' Hh']. apply nth_error_In with (n := h'). unfold tab'.
          rewrite nth_error_upd_neq; auto. intros <-. rewrite Ec in Hh'. injection Hh' as ->.
          apply Hn. apply (ONE j i kv' kv q' (PStore h)); cbn; auto.
      + intros h' x Hx Hne. pose proof (OLD h' x Hx Hne) as Ho. unfold tab'. rewrite nth_error_upd_neq; auto.
        intros <-. rewrite Ec in Ho. injection Ho as ->. apply (WIN i kv (PStore h) Hi Logic.I). exists h.
        rewrite (key_some _ _ Hx). auto.
      + intros h' Hh. rewrite G in Hh |- *. destruct (NEW h' Hh) as [E1|(j & kv' & q' & Hj & W & E1)]; auto. right.
        destruct (Nat.eq_dec j i) as [->|Hn].
        * rewrite Hi in Hj. injection Hj as <- <-. exists i, kv, (PDone true).
          split; [apply nth_error_upd_eq; apply nth_error_Some; congruence|]. cbn. auto.
        * exists j, kv', q'. rewrite nth_error_upd_neq by auto. auto.
      + intros j kv' q' Hj W. destruct (@nth_upd_thr _ _ _ _ _ _ Hi Hj) as [[-> E1]|[Hn E1]]; eauto.
        injection E1 as -> ->. apply (WIN i kv (PStore h)); cbn; auto.
      + intros j1 j2 kv1 kv2 q1 q2 H1 H2 W1 W2 Ee.
        destruct (@nth_upd_thr _ _ _ _ _ _ Hi H1) as [[-> E1]|[Hn1 E1]], (@nth_upd_thr _ _ _ _ _ _ Hi H2) as [[-> E2]|[Hn2 E2]]; auto;
          try (injection E1 as -> ->); try (injection E2 as -> ->).
        * apply (ONE i j2 kv kv2 (PStore h) q2); cbn; auto.
        * apply (ONE j1 i kv1 kv q1 (PStore h)); cbn; auto.
        * apply (ONE j1 j2 kv1 kv2 q1 q2); auto.
    - (* check *)
      destruct SP as (d & -> & P & L). destruct TI as (d0 & E0 & P0 & Hne).
      destruct (slot_some tab (fst kv) d (proj1 T)) as (c & Ec).
      cbn [step]. rewrite Ec. eexists. eexists. split; [reflexivity|].
      rewrite (key_some _ _ Ec) in Hne.
      destruct (keqb (fst c) (fst kv)) eqn:E; (apply SAME; [cbn; tauto|]).
      + apply Hkeq in E. cbn. split; auto. exists (slot (fst kv) d). rewrite (key_some _ _ Ec). auto.
      + apply keq_false in E. rewrite inc_slot. cbn.
        assert (P' : passed tab (fst kv) (S d)).
        { intros j Hj. destruct (Nat.eq_dec j d) as [->|]; [rewrite (key_some _ _ Ec); auto|apply P; lia]. }
        split; exists (S d); auto. split; auto. split; auto. lia.
    - cbn [step]. eexists. eexists. split; [reflexivity|]. apply SAME; [reflexivity|]. split; auto.
  Qed.

  Lemma run_ok sched : forall cnt tab ths, Inv cnt tab ths ->
    exists tab' ths', runT sched (tab, ths) = Ok (tab', ths') /\
      Inv (fun i => if i <? length kvs then cnt i + count_occ Nat.eq_dec sched i else cnt i) tab' ths'.
  Proof.
    induction sched as [|i sched IH]; intros cnt tab ths I; cbn [run].
    - exists tab, ths. split; auto. destruct I as [A1 A2 A3 A4 A5 A6 A7]. constructor; auto. intros i kv q H. cbn [count_occ].
      rewrite Nat.add_0_r. destruct (i <? length kvs); apply A3; auto.
    - cbn [fst snd]. destruct (nth_error ths i) as [[kv q]|] eqn:E.
      + destruct (step_ok i I E) as (tab' & q' & -> & I'). cbn [bind].
        destruct (IH _ _ _ I') as (tab2 & ths2 & -> & I2). exists tab2, ths2. split; auto.
        destruct I2. constructor; auto. intros j kv' q'' Hj. destruct (i_thr0 j kv' q'' Hj) as [H1 H2]. split; auto.
        destruct (Nat.ltb_spec j (length kvs)) as [Hl|Hl].
        * unfold bump in H2. cbn [count_occ]. destruct (Nat.eq_dec i j) as [->|Hn].
          { rewrite Nat.eqb_refl in H2. replace (cnt j + S (count_occ Nat.eq_dec sched j)) with (S (cnt j) + count_occ Nat.eq_dec sched j) by lia. auto. }
          { destruct (Nat.eqb_spec j i); [congruence|]. auto. }
        * exfalso. rewrite <- i_kvs0, map_length in Hl. apply nth_error_None in Hl. congruence.
      + destruct (IH _ _ _ I) as (tab2 & ths2 & -> & I2). exists tab2, ths2. split; auto.
        destruct I2. constructor; auto. intros j kv' q'' Hj. destruct (i_thr0 j kv' q'' Hj) as [H1 H2]. split; auto.
        destruct (Nat.ltb_spec j (length kvs)) as [Hl|Hl]; auto.
        cbn [count_occ]. destruct (Nat.eq_dec i j) as [->|Hn]; auto.
        exfalso. apply nth_error_None in E. rewrite <- (i_kvs I), map_length in Hl. lia.
  Qed.

  (** *** What is left when every thread has returned *)
  Lemma in_entries (tab : table) c : In c (entries keqb ek tab) <-> In c tab /\ fst c <> ek.
  Proof.
    unfold entries. rewrite filter_In, Bool.negb_true_iff, keq_false. reflexivity.
  Qed.
  Lemma key_entries (tab : table) k : k <> ek -> (In k (map fst (entries keqb ek tab)) <-> holds tab k).
  Proof.
    intros Hk. rewrite in_map_iff. split.
    - intros (c & <- & H). apply in_entries in H as [H _]. apply In_nth_error in H as [h Hh]. exists h. apply (key_some _ _ Hh).
    - intros (h & E). unfold key in E. destruct (nth_error tab h) as [c|] eqn:Ec; [|congruence]. exists c. split; auto.
      apply in_entries. split; [eapply nth_error_In; eauto|congruence].
  Qed.
  Lemma entries_key_ne (tab : table) k : In k (map fst (entries keqb ek tab)) -> k <> ek.
  Proof. intros H. apply in_map_iff in H as (c & <- & H). apply in_entries in H. tauto. Qed.

  Lemma nodup_entries_aux (l : table) :
    (forall i j a b, nth_error l i = Some a -> nth_error l j = Some b -> fst a <> ek -> fst a = fst b -> i = j) ->
    NoDup (map fst (entries keqb ek l)).
  Proof.
    induction l as [|c l IH]; intros H; cbn; [constructor|].
    assert (IHl : NoDup (map fst (entries keqb ek l))).
    { apply IH. intros i j a b Ha Hb Hne E. assert (S i = S j) by (eapply H; cbn; eauto). lia. }
    destruct (keqb (fst c) ek) eqn:E; cbn; auto. constructor; auto. apply keq_false in E. intros Hin.
    apply in_map_iff in Hin as (b & Eb & Hb). apply in_entries in Hb as [Hb _]. apply In_nth_error in Hb as [j Hj].
    assert (0 = S j) by (apply (H 0 (S j) c b); cbn; auto). lia.
  Qed.
  Lemma nodup_entries (tab : table) : tableOk tab -> NoDup (map fst (entries keqb ek tab)).
  Proof.
    intros T. apply nodup_entries_aux. intros i j a b Ha Hb Hne E.
    apply (key_inj (tab := tab)); auto; rewrite ?(key_some _ _ Ha), ?(key_some _ _ Hb); auto.
  Qed.

  (** A key that passed d cells passed d different keys. *)
  Lemma slot_inj k i j : i < m -> j < m -> slot k i = slot k j -> i = j.
  Proof.
    assert (W : forall a b, a <= b -> b < m -> slot k a = slot k b -> a = b).
    { intros a b Hab Hb E. unfold slot in E. pose proof m_pos.
      pose proof (Nat.div_mod (hash k + a) m ltac:(lia)) as D1. pose proof (Nat.div_mod (hash k + b) m ltac:(lia)) as D2.
      rewrite E in D1. assert (m * ((hash k + b) / m) = m * ((hash k + a) / m) + (b - a)) by lia.
      assert ((hash k + b) / m = (hash k + a) / m) by nia. nia. }
    intros Hi Hj E. destruct (Nat.le_ge_cases i j).
    - apply W; auto.
    - symmetry. apply W; auto.
  Qed.
  Lemma passed_count (tab : table) k d U : tableOk tab -> k <> ek -> d <= m -> passed tab k d ->
    (forall h, key tab h <> ek -> In (key tab h) U) -> In k U -> d < length U.
  Proof.
    intros T Hk Hd HP HU Hin. assert (ND : NoDup (k :: map (fun j => key tab (slot k j)) (seq 0 d))).
    { constructor.
      - rewrite in_map_iff. intros (j & E & Hj). apply in_seq in Hj. destruct (HP j) as [_ F]; [lia|]. congruence.
      - apply NoDup_map_in; [|apply seq_NoDup]. intros a b Ha Hb E. apply in_seq in Ha, Hb.
        apply (@slot_inj k); try lia. apply (@key_inj tab); auto. apply HP. lia. }
    apply NoDup_incl_length with (l' := U) in ND.
    - cbn in ND. rewrite map_length, seq_length in ND. lia.
    - intros x [<-|Hx]; auto. apply in_map_iff in Hx as (j & <- & Hj). apply in_seq in Hj. apply HU. apply HP. lia.
  Qed.
  Lemma passed_small (tab : table) k d U : tableOk tab -> k <> ek -> length U <= m -> passed tab k d ->
    (forall h, key tab h <> ek -> In (key tab h) U) -> In k U -> d < length U.
  Proof.
    intros T Hk HU HP HI Hin. destruct (Nat.le_gt_cases d m) as [L|L]; [eapply passed_count; eauto|].
    assert (m < length U); [|lia]. apply passed_count with (tab := tab) (k := k); auto. intros j Hj. apply HP. lia.
  Qed.

  Lemma insert_all sched : exists tab ths, runT sched (tab0, start hash mask kvs) = Ok (tab, ths) /\
    map fst ths = kvs /\ tableOk tab /\
    (forall U, length U <= m -> incl (map fst kvs) U -> (forall h, key tab0 h <> ek -> In (key tab0 h) U) ->
       forall i kv q, nth_error ths i = Some (kv, q) -> 3 * m <= count_occ Nat.eq_dec sched i -> exists b, q = PDone b) /\
    (forall c, In c tab0 -> fst c <> ek -> In c tab) /\
    (forall k, k <> ek -> holds tab k -> holds tab0 k \/ In k (map fst kvs)) /\
    (forall i kv, nth_error ths i = Some (kv, PDone true) -> In kv tab /\ ~ holds tab0 (fst kv)) /\
    (forall i kv, nth_error ths i = Some (kv, PDone false) -> holds tab (fst kv)) /\
    (forall i j kv kv', nth_error ths i = Some (kv, PDone true) -> nth_error ths j = Some (kv', PDone true) ->
       fst kv = fst kv' -> i = j) /\
    ((forall i kv q, nth_error ths i = Some (kv, q) -> exists b, q = PDone b) ->
       forall k, In k (map fst kvs) -> ~ holds tab0 k -> exists i kv, nth_error ths i = Some (kv, PDone true) /\ fst kv = k).
  Proof.
    destruct (run_ok sched Inv_start) as (tab & ths & E & [T KV TH OLD NEW WIN ONE]). exists tab, ths.
    assert (KI : forall i kv q, nth_error ths i = Some (kv, q) -> In kv kvs).
    { intros i kv q H. rewrite <- KV. change kv with (fst (kv, q)). apply in_map. eapply nth_error_In; eauto. }
    split; auto. split; auto. split; auto. repeat apply conj.
    - intros U HU Hincl H0 i kv q Hi Hc. destruct (TH i kv q Hi) as [_ SP].
      assert (Hl : i < length kvs) by (rewrite <- KV, map_length; apply nth_error_Some; congruence).
      apply Nat.ltb_lt in Hl. rewrite Hl in SP. cbn [Nat.add] in SP.
      assert (HD : forall d, passed tab (fst kv) d -> d < m).
      { intros d HP. apply Nat.lt_le_trans with (length U); auto. apply passed_small with (tab := tab) (k := fst kv); auto.
        - apply Hkvs. eauto.
        - intros h Hh. destruct (NEW h Hh) as [E1|(j & kv' & q' & Hj & _ & <-)].
          + rewrite <- E1. apply H0. congruence.
          + apply Hincl. apply in_map. eauto.
        - apply Hincl. apply in_map. eauto. }
      destruct q as [h|h|h|h|b]; cbn in SP; [| | | |eauto]; exfalso.
      + destruct SP as (d & _ & HP & L). apply HD in HP. lia.
      + destruct SP as (d & _ & HP & L). apply HD in HP. lia.
      + destruct SP as (d & HP & L). apply HD in HP. lia.
      + destruct SP as (d & _ & HP & L). apply HD in HP. lia.
    - intros c Hc Hne. apply In_nth_error in Hc as [h Hh]. eapply nth_error_In. eapply OLD; eauto.
    - intros k Hk (h & Eh). destruct (NEW h) as [E1|(j & kv & q & Hj & _ & E1)]; [congruence| |].
      + left. exists h. congruence.
      + right. rewrite <- Eh, <- E1. apply in_map. eauto.
    - intros i kv Hi. split; [apply (TH i kv _ Hi)|]. apply (WIN i kv _ Hi). exact Logic.I.
    - intros i kv Hi. apply (TH i kv _ Hi).
    - intros i j kv kv' Hi Hj Ek. apply (ONE i j kv kv' (PDone true) (PDone true)); cbn; auto.
    - intros HD k Hk Hn. apply in_map_iff in Hk as (kv & <- & Hk).
      pose proof (Hkvs _ Hk) as Hne.
      assert (HT : holds tab (fst kv)).
      { rewrite <- KV in Hk. apply in_map_iff in Hk as ([kv0 q] & E0 & Hk). cbn in E0. subst kv0.
        apply In_nth_error in Hk as [i Hi]. destruct (HD _ _ _ Hi) as [b ->]. destruct (TH _ _ _ Hi) as [H1 _]. destruct b; cbn in H1; auto.
        apply In_nth_error in H1 as [h Hh]. exists h. apply (key_some _ _ Hh). }
      destruct HT as (h & Eh). destruct (NEW h) as [E1|(j & kv' & q & Hj & W & E1)]; [congruence| |].
      + exfalso. apply Hn. exists h. congruence.
      + exists j, kv'. destruct (HD _ _ _ Hj) as [b ->]. destruct b; [|destruct W]. split; auto. congruence.
  Qed.

  (** *** Look-ups in a table at rest *)
  Lemma find_loop (tab : table) k : tableOk tab -> k <> ek -> forall n d fuel, passed tab k d -> n <= fuel ->
    (forall d', passed tab k d' -> d' < d + n) ->
    exists r, findCell keqb ek mask fuel k (slot k d) tab = Ok r /\
      match r with Some v => In (k, v) tab | None => ~ holds tab k end.
  Proof.
    intros T Hk. induction n as [|n IH]; intros d fuel HP Hf HD.
    - specialize (HD d HP). lia.
    - destruct fuel as [|fuel]; [lia|]. cbn [findCell]. destruct (slot_some tab k d (proj1 T)) as (c & Ec). rewrite Ec.
      destruct (keqb (fst c) k) eqn:E1.
      + apply Hkeq in E1. eexists. split; [reflexivity|]. cbn. rewrite <- E1, <- surjective_pairing. eapply nth_error_In; eauto.
      + apply keq_false in E1. destruct (keqb (fst c) ek) eqn:E2.
        * apply Hkeq in E2. eexists. split; [reflexivity|]. cbn. apply (not_held T Hk HP). rewrite (key_some _ _ Ec). auto.
        * apply keq_false in E2. rewrite inc_slot. apply IH; [|lia|].
          { intros j Hj. destruct (Nat.eq_dec j d) as [->|]; [rewrite (key_some _ _ Ec); auto|apply HP; lia]. }
          { intros d' Hd'. specialize (HD d' Hd'). lia. }
  Qed.
  (** A table that is not full, or holds the key *)
  Lemma find_ok (tab : table) k fuel : tableOk tab -> k <> ek -> m <= fuel ->
    (exists h, h < m /\ key tab h = ek) \/ holds tab k ->
    exists r, find keqb ek hash mask fuel k tab = Ok r /\
      match r with Some v => In (k, v) tab | None => ~ holds tab k end.
  Proof.
    intros T Hk Hf HE. unfold find. rewrite first_slot. apply (find_loop T Hk) with (n := m); auto.
    - intros j Hj. lia.
    - intros d HP. cbn [Nat.add]. destruct (Nat.lt_ge_cases d m) as [|L]; auto. exfalso.
      destruct HE as [(h & Hh & E)|(h & E)].
      + destruct (slot_onto k Hh) as (j & Hj & Ej). destruct (HP j) as [F _]; [lia|]. congruence.
      + assert (Hh : h < m).
        { rewrite <- (proj1 T). apply nth_error_Some. intros F. unfold key in E. rewrite F in E. congruence. }
        destruct (slot_onto k Hh) as (j & Hj & Ej). destruct (HP j) as [_ F]; [lia|]. congruence.
  Qed.
  Lemma room (tab : table) : length tab = m -> length (entries keqb ek tab) < m -> exists h, h < m /\ key tab h = ek.
  Proof.
    intros HL HE. assert (HX : exists c, In c tab /\ keqb (fst c) ek = true).
    { rewrite <- HL in HE. clear -HE. induction tab as [|c tab IH]; cbn in *; [lia|].
      destruct (keqb (fst c) ek) eqn:E; [exists c; auto|]. cbn in HE. unfold entries in IH. destruct IH as (x & H1 & H2); [lia|]. exists x. auto. }
    destruct HX as (c & Hc & E). apply Hkeq in E. apply In_nth_error in Hc as [h Hh]. exists h. split.
    - rewrite <- HL. apply nth_error_Some. congruence.
    - rewrite (key_some _ _ Hh). auto.
  Qed.

  (** *** The sequential insertion *)
  Lemma seq_loop (tab : table) kv : tableOk tab -> fst kv <> ek -> forall n d fuel, passed tab (fst kv) d -> n <= fuel ->
    (forall d', passed tab (fst kv) d' -> d' < d + n) ->
    exists b tab', insertSeq keqb ek mask fuel kv (slot (fst kv) d) tab = Ok (b, tab') /\ tableOk tab' /\
      (b = true -> ~ holds tab (fst kv) /\ forall c, fst c <> ek -> (In c tab' <-> c = kv \/ In c tab)) /\
      (b = false -> holds tab (fst kv) /\ tab' = tab).
  Proof.
    intros T Hk. induction n as [|n IH]; intros d fuel HP Hf HD.
    - specialize (HD d HP). lia.
    - destruct fuel as [|fuel]; [lia|]. cbn [insertSeq]. destruct (slot_some tab (fst kv) d (proj1 T)) as (c & Ec). rewrite Ec.
      destruct (keqb (fst c) ek) eqn:E2.
      + apply Hkeq in E2. assert (He : key tab (slot (fst kv) d) = ek) by (rewrite (key_some _ _ Ec); auto).
        eexists. eexists. split; [reflexivity|].
        destruct (@claim_ok tab (fst kv) (snd kv) d T Hk HP He) as [T' _]. rewrite <- surjective_pairing in T'.
        split; auto. split; [|discriminate]. intros _. split; [apply (not_held T Hk HP He)|]. intros x Hx.
        assert (HL : slot (fst kv) d < length tab) by (rewrite (proj1 T); apply slot_lt). split.
        * intros H. apply In_nth_error in H as [h Hh]. destruct (Nat.eq_dec h (slot (fst kv) d)) as [->|Hn].
          { rewrite nth_error_upd_eq in Hh by auto. injection Hh as <-. auto. }
          { rewrite nth_error_upd_neq in Hh by auto. right. eapply nth_error_In; eauto. }
        * intros [->|H].
          { eapply nth_error_In. apply nth_error_upd_eq. exact HL. }
          { apply In_nth_error in H as [h Hh]. apply nth_error_In with (n := h). rewrite nth_error_upd_neq; auto.
            intros E. subst h. rewrite Ec in Hh. congruence. }
      + apply keq_false in E2. destruct (keqb (fst c) (fst kv)) eqn:E1.
        * apply Hkeq in E1. eexists. eexists. split; [reflexivity|]. split; auto. split; [discriminate|]. intros _. split; auto.
          exists (slot (fst kv) d). rewrite (key_some _ _ Ec). auto.
        * apply keq_false in E1. rewrite inc_slot. apply IH; [|lia|].
          { intros j Hj. destruct (Nat.eq_dec j d) as [->|]; [rewrite (key_some _ _ Ec); auto|apply HP; lia]. }
          { intros d' Hd'. specialize (HD d' Hd'). lia. }
  Qed.
  Lemma never_far (tab : table) k : tableOk tab -> k <> ek ->
    (exists h, h < m /\ key tab h = ek) \/ holds tab k -> forall d, passed tab k d -> d < m.
  Proof.
    intros T Hk HE d HP. destruct (Nat.lt_ge_cases d m) as [|L]; auto. exfalso.
    destruct HE as [(h & Hh & E)|(h & E)].
    - destruct (slot_onto k Hh) as (j & Hj & Ej). destruct (HP j) as [F _]; [lia|]. congruence.
    - assert (Hh : h < m).
      { rewrite <- (proj1 T). apply nth_error_Some. intros F. unfold key in E. rewrite F in E. congruence. }
      destruct (slot_onto k Hh) as (j & Hj & Ej). destruct (HP j) as [_ F]; [lia|]. congruence.
  Qed.
  Lemma seq_ok (tab : table) kv fuel : tableOk tab -> fst kv <> ek -> m <= fuel ->
    (exists h, h < m /\ key tab h = ek) \/ holds tab (fst kv) ->
    exists b tab', insertSeq keqb ek mask fuel kv (firstI (fst kv)) tab = Ok (b, tab') /\ tableOk tab' /\
      (b = true -> ~ holds tab (fst kv) /\ forall c, fst c <> ek -> (In c tab' <-> c = kv \/ In c tab)) /\
      (b = false -> holds tab (fst kv) /\ tab' = tab).
  Proof.
    intros T Hk Hf HE. rewrite first_slot. apply (@seq_loop tab kv T Hk) with (n := m); auto.
    - intros j Hj. lia.
    - intros d HP. cbn [Nat.add]. eapply never_far; eauto.
  Qed.
  Lemma idx_loop (tab : table) k : tableOk tab -> k <> ek -> holds tab k -> forall n d fuel, passed tab k d -> n <= fuel ->
    (forall d', passed tab k d' -> d' < d + n) ->
    exists h, idxFrom keqb mask fuel k (slot k d) tab = Ok h /\ key tab h = k.
  Proof.
    intros T Hk HH. induction n as [|n IH]; intros d fuel HP Hf HD.
    - specialize (HD d HP). lia.
    - destruct fuel as [|fuel]; [lia|]. cbn [idxFrom]. destruct (slot_some tab k d (proj1 T)) as (c & Ec). rewrite Ec.
      destruct (keqb (fst c) k) eqn:E1.
      + apply Hkeq in E1. eexists. split; [reflexivity|]. rewrite (key_some _ _ Ec). auto.
      + apply keq_false in E1. rewrite inc_slot. apply IH; [|lia|].
        { intros j Hj. destruct (Nat.eq_dec j d) as [->|]; [|apply HP; lia].
          split; [|rewrite (key_some _ _ Ec); auto]. intros F. apply (not_held T Hk HP F). auto. }
        { intros d' Hd'. specialize (HD d' Hd'). lia. }
  Qed.
  Lemma idx_ok (tab : table) k fuel : tableOk tab -> k <> ek -> m <= fuel -> holds tab k ->
    exists h, idxFrom keqb mask fuel k (firstI k) tab = Ok h /\ key tab h = k.
  Proof.
    intros T Hk Hf HE. rewrite first_slot. apply (idx_loop T Hk HE) with (n := m); auto.
    - intros j Hj. lia.
    - intros d HP. cbn [Nat.add]. eapply never_far; eauto.
  Qed.
End Proofs.
