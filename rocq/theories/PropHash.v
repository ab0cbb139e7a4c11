(** C89: concurrent insertions into the hash table.
    C90: look-ups, sequential insertion, the size and [resize]. *)
From Coq Require Import Permutation.
From Verif Require Import Base HashModel HashProofs.
Set Implicit Arguments.

(** *** Specification *)
(** The tables of 2^p cells that batches of concurrent insertions and sequential
    insertions of keys other than the empty one can produce *)
Inductive built K V (keqb : K -> K -> bool) (ek : K) (ev : V) (hash : K -> nat) (p : nat) : list (K * V) -> Prop :=
| b_new : built keqb ek ev hash p (cleared ek ev (2 ^ p))
| b_batch tab kvs sched tab' ths :
    built keqb ek ev hash p tab -> (forall kv, In kv kvs -> fst kv <> ek) ->
    run keqb ek (2 ^ p - 1) sched (tab, start hash (2 ^ p - 1) kvs) = Ok (tab', ths) ->
    (forall t, In t ths -> exists b, snd t = PDone b) -> built keqb ek ev hash p tab'
| b_seq tab kv fuel b tab' :
    built keqb ek ev hash p tab -> fst kv <> ek ->
    insertSeq keqb ek (2 ^ p - 1) fuel kv (firstIndex hash (2 ^ p - 1) (fst kv)) tab = Ok (b, tab') ->
    built keqb ek ev hash p tab'.

Section Spec.
  Variables K V : Type.
  Variable keqb : K -> K -> bool.
  Hypothesis Hkeq : forall a b, keqb a b = true <-> a = b.
  Variable ek : K.
  Variable ev : V.
  Variable hash : K -> nat.
  Variable p : nat.
  Notation built := (built keqb ek ev hash p).
  Notation entries := (entries keqb ek (V := V)).

  (** What a sequential insertion that ended did, whatever the fuel *)
  Lemma seq_fuel fuel kv tab h r : insertSeq keqb ek (V := V) (2 ^ p - 1) fuel kv h tab = Ok r ->
    forall n, insertSeq keqb ek (2 ^ p - 1) (fuel + n) kv h tab = Ok r.
  Proof.
    revert h. induction fuel as [|fuel IH]; cbn; [discriminate|]. intros h E n.
    destruct (nth_error tab h) as [c|]; auto. destruct (keqb (fst c) ek); auto. destruct (keqb (fst c) (fst kv)); auto.
  Qed.
  Lemma seq_ended (kv : K * V) tab fuel : tableOk ek hash p tab -> fst kv <> ek -> forall d r, passed ek hash p tab (fst kv) d ->
    insertSeq keqb ek (2 ^ p - 1) fuel kv (slot hash p (fst kv) d) tab = Ok r ->
    (exists h, h < 2 ^ p /\ key ek tab h = ek) \/ holds ek tab (fst kv).
  Proof.
    intros T Hk. induction fuel as [|fuel IH]; cbn [insertSeq]; intros d r HP E; [discriminate|].
    destruct (slot_some hash p tab (fst kv) d (proj1 T)) as (c & Ec). rewrite Ec in E.
    destruct (keqb (fst c) ek) eqn:E1.
    - apply Hkeq in E1. left. exists (slot hash p (fst kv) d). split; [apply slot_lt|]. rewrite (key_some _ _ _ Ec). auto.
    - destruct (keqb (fst c) (fst kv)) eqn:E2.
      + apply Hkeq in E2. right. exists (slot hash p (fst kv) d). rewrite (key_some _ _ _ Ec). auto.
      + rewrite inc_slot in E. apply (IH (S d) r); auto. intros j Hj.
        destruct (Nat.eq_dec j d) as [->|]; [|apply HP; lia]. rewrite (key_some _ _ _ Ec).
        split; apply (keq_false keqb Hkeq); auto.
  Qed.

  Lemma built_ok tab : built tab -> tableOk ek hash p tab.
  Proof.
    induction 1 as [|tab kvs sched tab' ths B IH Hk E D|tab kv fuel b tab' B IH Hk E].
    - apply cleared_ok.
    - destruct (insert_all keqb Hkeq IH kvs Hk sched) as (tab2 & ths2 & E2 & _ & T & _).
      rewrite E in E2. injection E2 as -> ->. exact T.
    - assert (HE : (exists h, h < 2 ^ p /\ key ek tab h = ek) \/ holds ek tab (fst kv)).
      { rewrite first_slot in E. apply (@seq_ended kv tab fuel IH Hk 0 (b, tab')); auto. intros j Hj. lia. }
      destruct (@seq_ok K V keqb Hkeq ek hash p tab kv (fuel + 2 ^ p) IH Hk ltac:(lia) HE) as (b2 & tab2 & E2 & T & _).
      rewrite (@seq_fuel _ _ _ _ _ E) in E2. injection E2 as -> ->. exact T.
  Qed.

  Lemma keys_holds (tab : list (K * V)) k : k <> ek -> (In k (map fst (entries tab)) <-> holds ek tab k).
  Proof. apply (key_entries keqb Hkeq tab). Qed.
End Spec.

Lemma nodup_fst A B (l : list (A * B)) a b b' : NoDup (map fst l) -> In (a, b) l -> In (a, b') l -> b = b'.
Proof.
  induction l as [|x l IH]; cbn; [tauto|]. intros ND H1 H2. inversion_clear ND as [|? ? Hn ND'].
  destruct H1 as [->|H1], H2 as [H2|H2].
  - congruence.
  - exfalso. apply Hn. apply (in_map fst) in H2. exact H2.
  - subst x. exfalso. apply Hn. apply (in_map fst) in H1. exact H1.
  - apply IH; auto.
Qed.

(** *** C89 *)
(** For every table, every list of insertions and every schedule of their steps:
    no access is out of bounds; if the keys fit, a thread that took 3m steps has
    returned; and when all have returned the table has every old entry, exactly the
    old and the new keys, each once, and for every new key exactly one insertion
    returned true, and its value is stored. *)
Theorem C89_concurrent_inserts K V (keqb : K -> K -> bool) ek (ev : V) hash p tab kvs sched :
  (forall a b, keqb a b = true <-> a = b) ->
  built keqb ek ev hash p tab -> (forall kv, In kv kvs -> fst kv <> ek) ->
  exists tab' ths, run keqb ek (2 ^ p - 1) sched (tab, start hash (2 ^ p - 1) kvs) = Ok (tab', ths) /\ map fst ths = kvs /\
    let keys := map fst (entries keqb ek tab) in
    let keys' := map fst (entries keqb ek tab') in
    (forall U, length U <= 2 ^ p -> incl (keys ++ map fst kvs) U ->
       forall i t, nth_error ths i = Some t -> 3 * 2 ^ p <= count_occ Nat.eq_dec sched i -> exists b, snd t = PDone b) /\
    ((forall t, In t ths -> exists b, snd t = PDone b) ->
       length tab' = 2 ^ p /\ NoDup keys' /\
       (forall k, In k keys' <-> In k keys \/ In k (map fst kvs)) /\
       (forall c, In c (entries keqb ek tab) -> In c (entries keqb ek tab')) /\
       (forall kv, In (kv, PDone true) ths -> In kv (entries keqb ek tab') /\ ~ In (fst kv) keys) /\
       (forall k, In k (map fst kvs) -> ~ In k keys -> exists! i, exists v, nth_error ths i = Some ((k, v), PDone true))).
Proof.
  intros Hkeq B Hk. pose proof (built_ok Hkeq B) as T.
  destruct (insert_all keqb Hkeq T kvs Hk sched) as (tab' & ths & E & KV & T' & ST & OLD & NEW & WIN & LOSE & ONE & EX).
  exists tab', ths. split; auto. split; auto. cbn zeta.
  assert (KE : forall t k, k <> ek -> (In k (map fst (entries keqb ek (V := V) t)) <-> holds ek t k)).
  { intros t k. apply (key_entries keqb Hkeq t). }
  assert (KN : forall k, In k (map fst kvs) -> k <> ek).
  { intros k Hin. apply in_map_iff in Hin as (kv & <- & Hin). auto. }
  split.
  - intros U HU HI i [kv q] Hi Hc. apply (ST U) with (i := i) (kv := kv); auto.
    + intros x Hx. apply HI. apply in_app_iff. auto.
    + intros h Hh. apply HI. apply in_app_iff. left. apply KE; auto. exists h. auto.
  - intros D. split; [apply T'|]. split; [eapply nodup_entries; eauto|].
    assert (DI : forall i kv q, nth_error ths i = Some (kv, q) -> exists b, q = PDone b).
    { intros i kv q Hi. apply (D (kv, q)). eapply nth_error_In; eauto. }
    assert (Hent : forall c, In c (entries keqb ek tab) -> In c (entries keqb ek tab')).
    { intros c Hc. apply (in_entries keqb Hkeq) in Hc as [H1 H2]. apply (in_entries keqb Hkeq). auto. }
    assert (Hwin : forall kv, In (kv, PDone true) ths -> In kv (entries keqb ek tab') /\ ~ In (fst kv) (map fst (entries keqb ek tab))).
    { intros kv Hin. assert (Hkv : In kv kvs) by (rewrite <- KV; apply (in_map fst) in Hin; exact Hin).
      apply In_nth_error in Hin as [i Hi]. destruct (WIN i kv Hi) as [H1 H2]. rewrite KE by auto. split; auto.
      apply (in_entries keqb Hkeq). auto. }
    split; [|split; [auto|split; [auto|]]].
    + intros k. split.
      * intros H. pose proof (@entries_key_ne _ _ keqb Hkeq _ _ _ H) as Hn. rewrite KE in H |- * by auto. auto.
      * intros [H|H].
        { apply in_map_iff in H as (c & <- & Hc). apply in_map. auto. }
        { pose proof (KN k H) as Hn. apply KE; auto. apply in_map_iff in H as (kv & <- & H). rewrite <- KV in H.
          apply in_map_iff in H as ([kv0 q] & E0 & H). cbn in E0. subst kv0. apply In_nth_error in H as [i Hi].
          destruct (DI _ _ _ Hi) as [[] ->]; eauto. destruct (WIN _ _ Hi) as [H1 _].
          apply In_nth_error in H1 as [h Hh]. exists h. apply (key_some _ _ _ Hh). }
    + intros k H Hn. rewrite KE in Hn by auto. destruct (EX DI k H Hn) as (i & [k0 v] & Hi & E0). cbn in E0. subst k0.
      exists i. split; eauto. intros j (v' & Hj). apply (ONE i j _ _ Hi Hj). reflexivity.
Qed.
Print Assumptions C89_concurrent_inserts.

(** Three concurrent insertions, two of them of the same key, that all hash to the
    same cell: the second thread wins key 5, and the first moves on. *)
Definition exHash (k : nat) : nat := 3.
Definition exSched : list nat := [0; 1; 2; 1; 0; 1; 0; 2; 2; 2; 2; 2; 2; 2; 0; 0].
Example C89_example :
  run Nat.eqb 0 3 exSched (cleared 0 0 4, start exHash 3 [(5, 50); (5, 51); (7, 70)])
  = Ok ([(7, 70); (0, 0); (0, 0); (5, 51)],
        [((5, 50), PDone false); ((5, 51), PDone true); ((7, 70), PDone true)]).
Proof. vm_compute. reflexivity. Qed.

(** Keys that do not fit: a thread runs round the full table for ever. *)
Theorem C89_overfull_refuted : forall n,
  exists q, run Nat.eqb 0 0 (repeat 0 n) ([(5, 50)], start exHash 0 [(7, 70)]) = Ok ([(5, 50)], [((7, 70), q)]) /\
  forall b, q <> PDone b.
Proof.
  assert (W : forall n, run Nat.eqb 0 0 (repeat 0 n) ([(5, 50)], [((7, 70), PLoad 0)])
                = Ok ([(5, 50)], [((7, 70), if Nat.even n then PLoad 0 else PCheck 0)])).
  { intros n. induction n as [n IH] using lt_wf_ind. destruct n as [|[|n]]; [reflexivity|reflexivity|].
    change (run Nat.eqb 0 0 (repeat 0 (S (S n))) ([(5, 50)], [((7, 70), PLoad 0)]))
      with (run Nat.eqb 0 0 (repeat 0 n) ([(5, 50)], [((7, 70), PLoad 0)])).
    rewrite IH by lia. reflexivity. }
  intros n. change (start exHash 0 [(7, 70)]) with [((7, 70), PLoad 0)]. rewrite W. eexists. split; [reflexivity|].
  intros b. destruct (Nat.even n); discriminate.
Qed.
(** The empty key is reported inserted and is not there. *)
Example C89_empty_key_refuted :
  run Nat.eqb 0 3 (repeat 0 3) (cleared 0 0 4, start exHash 3 [(0, 9)]) = Ok ([(0, 0); (0, 0); (0, 0); (0, 9)], [((0, 9), PDone true)])
  /\ entries Nat.eqb 0 [(0, 0); (0, 0); (0, 0); (0, 9)] = [].
Proof. split; reflexivity. Qed.

(** *** C90 *)
(** A look-up in a table with an empty cell, or for a key that is there *)
Theorem C90_lookup K V (keqb : K -> K -> bool) ek (ev : V) hash p tab k fuel :
  (forall a b, keqb a b = true <-> a = b) ->
  built keqb ek ev hash p tab -> k <> ek -> 2 ^ p <= fuel ->
  length (entries keqb ek tab) < 2 ^ p \/ In k (map fst (entries keqb ek tab)) ->
  exists r, find keqb ek hash (2 ^ p - 1) fuel k tab = Ok r /\
    (forall v, r = Some v <-> In (k, v) (entries keqb ek tab)) /\
    exists b, contains keqb ek hash (2 ^ p - 1) fuel k tab = Ok b /\ (b = true <-> In k (map fst (entries keqb ek tab))).
Proof.
  intros Hkeq B Hk Hf HE. pose proof (built_ok Hkeq B) as T.
  pose proof (key_entries keqb Hkeq tab Hk) as KE.
  assert (HE' : (exists h, h < 2 ^ p /\ key ek tab h = ek) \/ holds ek tab k).
  { destruct HE as [HE|HE]; [left; eapply room; eauto; apply T|right; apply KE; auto]. }
  destruct (find_ok keqb Hkeq T Hk Hf HE') as (r & E & Hr).
  exists r. split; auto. pose proof (nodup_entries keqb Hkeq T) as ND.
  assert (IN : forall v, r = Some v <-> In (k, v) (entries keqb ek tab)).
  { intros v. split.
    - intros ->. apply (in_entries keqb Hkeq). auto.
    - intros H. destruct r as [v'|].
      + f_equal. eapply nodup_fst; eauto. apply (in_entries keqb Hkeq). auto.
      + exfalso. apply Hr. apply KE. apply (in_map fst) in H. exact H. }
  split; auto. unfold contains. rewrite E. cbn [bind]. eexists. split; [reflexivity|]. destruct r as [v|].
  - split; auto. intros _. apply (in_map fst (entries keqb ek tab) (k, v)). apply IN. reflexivity.
  - split; [discriminate|]. intros H. exfalso. apply Hr. apply KE. exact H.
Qed.
Print Assumptions C90_lookup.

(** [idx] of a key that is there is its cell. *)
Theorem C90_idx K V (keqb : K -> K -> bool) ek (ev : V) hash p tab k fuel :
  (forall a b, keqb a b = true <-> a = b) ->
  built keqb ek ev hash p tab -> 2 ^ p <= fuel -> In k (map fst (entries keqb ek tab)) ->
  exists h v, idxFrom keqb (2 ^ p - 1) fuel k (firstIndex hash (2 ^ p - 1) k) tab = Ok h /\ nth_error tab h = Some (k, v).
Proof.
  intros Hkeq B Hf H. pose proof (built_ok Hkeq B) as T. pose proof (@entries_key_ne _ _ keqb Hkeq _ _ _ H) as Hk.
  apply (key_entries keqb Hkeq tab Hk) in H. destruct (@idx_ok K V keqb Hkeq ek hash p tab k fuel T Hk Hf H) as (h & E & Eh).
  unfold key in Eh. destruct (nth_error tab h) as [[k0 v]|] eqn:En; [|congruence]. cbn in Eh. subst k0. eauto.
Qed.
Print Assumptions C90_idx.

(** The sequential insertion *)
Theorem C90_insert_seq K V (keqb : K -> K -> bool) ek (ev : V) hash p tab kv fuel :
  (forall a b, keqb a b = true <-> a = b) ->
  built keqb ek ev hash p tab -> fst kv <> ek -> 2 ^ p <= fuel ->
  length (entries keqb ek tab) < 2 ^ p \/ In (fst kv) (map fst (entries keqb ek tab)) ->
  exists b tab', insertSeq keqb ek (2 ^ p - 1) fuel kv (firstIndex hash (2 ^ p - 1) (fst kv)) tab = Ok (b, tab') /\
    (b = true <-> ~ In (fst kv) (map fst (entries keqb ek tab))) /\
    Permutation (entries keqb ek tab') (if b then kv :: entries keqb ek tab else entries keqb ek tab).
Proof.
  intros Hkeq B Hk Hf HE. pose proof (built_ok Hkeq B) as T. pose proof (key_entries keqb Hkeq tab Hk) as KE.
  assert (HE' : (exists h, h < 2 ^ p /\ key ek tab h = ek) \/ holds ek tab (fst kv)).
  { destruct HE as [HE|HE]; [left; eapply room; eauto; apply T|right; apply KE; auto]. }
  destruct (@seq_ok K V keqb Hkeq ek hash p tab kv fuel T Hk Hf HE') as (b & tab' & E & T' & HT & HF).
  exists b, tab'. split; auto. rewrite KE. destruct b.
  - destruct (HT eq_refl) as [Hn HI]. split; [tauto|]. apply NoDup_Permutation.
    + apply (NoDup_map_inv fst). eapply nodup_entries; eauto.
    + constructor; [|apply (NoDup_map_inv fst); eapply nodup_entries; eauto].
      intros F. apply Hn. apply KE. apply in_map. auto.
    + intros c. cbn [In]. rewrite !(in_entries keqb Hkeq). split.
      * intros [H1 H2]. apply HI in H1; auto. destruct H1 as [->|H1]; auto.
      * intros [<-|[H1 H2]]; split; auto; apply HI; auto.
  - destruct (HF eq_refl) as [Hh ->]. split; [|apply Permutation_refl]. split; [discriminate|tauto].
Qed.
Print Assumptions C90_insert_seq.

(** A table constructed for [cap] keys always has an empty cell. *)
Theorem C90_capacity cap : exists p, tableSize cap = 2 ^ p /\
  forall K V (keqb : K -> K -> bool) ek (ev : V) hash tab U,
    (forall a b, keqb a b = true <-> a = b) -> built keqb ek ev hash p tab ->
    incl (map fst (entries keqb ek tab)) U -> length U <= cap -> length (entries keqb ek tab) < 2 ^ p.
Proof.
  exists (Nat.log2_up (cap + 1)). split; [reflexivity|]. intros K V keqb ek ev hash tab U Hkeq B HI HU.
  assert (HC : cap + 1 <= 2 ^ Nat.log2_up (cap + 1)).
  { destruct (Nat.eq_dec cap 0) as [->|]; [cbn; lia|]. apply Nat.log2_up_spec. lia. }
  apply NoDup_incl_length in HI; [rewrite map_length in HI; lia|]. eapply nodup_entries; eauto. eapply built_ok; eauto.
Qed.
Print Assumptions C90_capacity.

(** [resize]: the same entries in a larger table, for every schedule *)
Theorem C90_resize K V (keqb : K -> K -> bool) ek (ev : V) hash p tab incoming sched :
  (forall a b, keqb a b = true <-> a = b) ->
  built keqb ek ev hash p tab -> 2 ^ p < incoming ->
  exists p' tab' ths, resized (2 ^ p) incoming = 2 ^ p' /\ 2 * (2 ^ p + incoming) <= 2 ^ p' /\
    resize keqb ek ev hash (2 ^ p) incoming sched tab = Ok (tab', ths) /\
    (forall i t, nth_error ths i = Some t -> 3 * 2 ^ p' <= count_occ Nat.eq_dec sched i -> exists b, snd t = PDone b) /\
    ((forall t, In t ths -> exists b, snd t = PDone b) ->
       Permutation (entries keqb ek tab') (entries keqb ek tab) /\ built keqb ek ev hash p' tab').
Proof.
  intros Hkeq B HI. set (p' := Nat.log2_up (2 * (2 ^ p + incoming))).
  assert (HS : 2 * (2 ^ p + incoming) <= 2 ^ p') by (apply Nat.log2_up_spec; lia).
  pose proof (built_ok Hkeq B) as T. pose proof (nodup_entries keqb Hkeq T) as ND.
  assert (Hk : forall kv, In kv (entries keqb ek tab) -> fst kv <> ek) by (intros kv H; apply (in_entries keqb Hkeq) in H; tauto).
  assert (E0 : entries keqb ek (cleared ek ev (2 ^ p')) = []).
  { unfold entries, cleared. generalize (2 ^ p'). intros n. induction n as [|n IH]; cbn; auto.
    assert (keqb ek ek = true) as -> by (apply Hkeq; reflexivity). cbn. auto. }
  destruct (@C89_concurrent_inserts K V keqb ek ev hash p' (cleared ek ev (2 ^ p')) (entries keqb ek tab) sched Hkeq
              (b_new _ _ _ _ _) Hk) as (tab' & ths & E & KV & ST & FIN).
  exists p', tab', ths. split; [reflexivity|]. split; auto.
  split. { unfold resize. destruct (Nat.leb_spec incoming (2 ^ p)) as [L|_]; [lia|]. exact E. }
  rewrite E0 in ST, FIN. cbn [map app] in ST. split.
  - intros i t. apply (ST (map fst (entries keqb ek tab))); [|apply incl_refl].
    rewrite map_length. assert (length (entries keqb ek tab) <= length tab) by apply filter_length_le.
    rewrite (proj1 T) in H. lia.
  - intros D. destruct (FIN D) as (_ & ND' & HK & _ & HW & HE). split; [|eapply b_batch; eauto; constructor].
    apply NoDup_Permutation; try (apply (NoDup_map_inv fst); auto).
    assert (W : forall k, In k (map fst (entries keqb ek tab)) -> exists v, In (k, v) (entries keqb ek tab) /\ In (k, v) (entries keqb ek tab')).
    { intros k Hin. destruct (HE k Hin (fun x => x)) as (i & (v & Hi) & _). exists v. apply nth_error_In in Hi. split.
      - rewrite <- KV. apply (in_map fst) in Hi. exact Hi.
      - apply (HW (k, v) Hi). }
    intros [k v]. split; intros H.
    + destruct (W k) as (v' & H1 & H2).
      { apply (in_map fst) in H. apply HK in H as [[]|H]. exact H. }
      rewrite (nodup_fst _ _ _ _ ND' H H2). auto.
    + destruct (W k) as (v' & H1 & H2); [apply (in_map fst) in H; exact H|].
      rewrite (nodup_fst _ _ _ _ ND H H1). auto.
Qed.
Print Assumptions C90_resize.

Example C90_example :
  find Nat.eqb 0 exHash 3 4 7 [(7, 70); (0, 0); (0, 0); (5, 51)] = Ok (Some 70) /\
  contains Nat.eqb 0 exHash 3 4 6 [(7, 70); (0, 0); (0, 0); (5, 51)] = Ok false /\
  idxFrom Nat.eqb 3 4 7 (firstIndex exHash 3 7) [(7, 70); (0, 0); (0, 0); (5, 51)] = Ok 0 /\
  insertSeq Nat.eqb 0 3 4 (9, 90) (firstIndex exHash 3 9) [(7, 70); (0, 0); (0, 0); (5, 51)]
    = Ok (true, [(7, 70); (9, 90); (0, 0); (5, 51)]) /\
  tableSize 4 = 8 /\
  resize Nat.eqb 0 0 (fun k => k) 2 3 (repeat 0 3 ++ repeat 1 6) [(8, 80); (16, 61)]
    = Ok ([(16, 61); (0, 0); (0, 0); (0, 0); (0, 0); (0, 0); (0, 0); (0, 0); (8, 80)] ++ repeat (0, 0) 7,
          [((8, 80), PDone true); ((16, 61), PDone true)]).
Proof. repeat split. Qed.

(** In a full table the look-up of an absent key does not end. *)
Theorem C90_full_refuted : forall fuel, find Nat.eqb 0 exHash 0 fuel 7 [(5, 50)] = Fuel.
Proof. intros fuel. unfold find. change (firstIndex exHash 0 7) with 0. induction fuel as [|fuel IH]; auto. Qed.
(** The empty key seems to be there. *)
Example C90_empty_key_refuted : contains Nat.eqb 0 exHash 3 4 0 (cleared 0 0 4) = Ok true /\ entries Nat.eqb 0 (cleared 0 0 4) = [].
Proof. split; reflexivity. Qed.
