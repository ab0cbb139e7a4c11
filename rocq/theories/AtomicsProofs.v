(** Linearizability and termination of the compare-and-swap loops. *)
From Verif Require Import Base AtomicsModel.
Set Implicit Arguments.

Section Lin.
  Variable V : Type.
  Variable veq : V -> V -> bool.
  Hypothesis Hveq : forall x y, veq x y = true <-> x = y.
  Variables B Ret : Type.
  Variable cond : B -> V -> bool.
  Variable new : B -> V -> V.
  Variable retT retF : B -> V -> Ret.
  Notation step := (step veq cond new retT retF).
  Notation run := (run veq cond new retT retF).
  Notation seqrun := (seqrun cond new retT retF).
  Notation seqop := (seqop cond new retT retF).

  Lemma seqrun_app args o o' v :
    seqrun args (o ++ o') v =
    let '(v1, r1) := seqrun args o v in let '(v2, r2) := seqrun args o' v1 in (v2, r1 ++ r2).
  Proof.
    revert v; induction o as [|i o IH]; intros v; simpl.
    - destruct (seqrun args o' v); auto.
    - destruct (nth_error args i); auto.
      destruct (seqop b v) as [v1 r]. rewrite IH.
      destruct (seqrun args o v1) as [v2 r1]. destruct (seqrun args o' v2); auto.
  Qed.

  (** Invariant: [order] lists the finished calls; running them one after the
      other gives the current cell and the results returned so far. *)
  Record inv (v0 : V) (args : list B) (st : state V B Ret) (order : list nat) : Prop := {
    inv_args : map fst (threads st) = args;
    inv_nd : NoDup order;
    inv_order : forall i, In i order <-> exists b r, nth_error (threads st) i = Some (b, Done r);
    inv_cell : fst (seqrun args order v0) = cell st;
    inv_rets : forall i r, In (i, r) (snd (seqrun args order v0)) ->
                exists b, nth_error (threads st) i = Some (b, Done r);
    inv_try : forall i b c, nth_error (threads st) i = Some (b, Try c) -> cond b c = true;
  }.

  Lemma map_fst_upd i (b : B) (p : pc V Ret) l p0 :
    nth_error l i = Some (b, p0) -> map fst (upd i (b, p) l) = map fst l.
  Proof.
    revert i; induction l as [|[b' p'] l IH]; intros [|i]; simpl; intros H; try discriminate; auto.
    - inversion H; subst; auto.
    - rewrite IH; auto.
  Qed.

  Lemma nth_args st (args : list B) i b (p : pc V Ret) : map fst (threads st) = args ->
    nth_error (threads st) i = Some (b, p) -> nth_error args i = Some b.
  Proof. intros <- H. rewrite nth_error_map, H. reflexivity. Qed.

  Lemma step_inv v0 args st order i : inv v0 args st order ->
    exists order', inv v0 args (step st i) order'.
  Proof.
    intros I. unfold AtomicsModel.step. destruct (nth_error (threads st) i) as [[b p]|] eqn:E; [|eauto].
    assert (Hi : i < length (threads st)) by (apply nth_error_Some; congruence).
    (* adding [i] as finished with result [r] and new cell [v'] *)
    assert (Fin : forall r v', (forall r', p <> Done r') -> seqop b (cell st) = (v', r) ->
      inv v0 args {| cell := v'; threads := upd i (b, Done r) (threads st) |} (order ++ [i])).
    { intros r v' Hp Hs. constructor; simpl.
      - erewrite map_fst_upd by eauto. apply I.
      - apply NoDup_app_intro; [apply I|repeat constructor; auto|].
        intros x Hx [<-|[]]. apply (inv_order I) in Hx as (b' & r' & Hx). rewrite E in Hx.
        inversion Hx; subst. eapply Hp; eauto.
      - intros j. rewrite in_app_iff. simpl. destruct (Nat.eq_dec i j) as [<-|Hj].
        + rewrite nth_error_upd_eq by auto. split; eauto.
        + rewrite nth_error_upd_neq by auto. rewrite (inv_order I). split; [|auto].
          intros [H|[H|[]]]; auto; congruence.
      - rewrite seqrun_app. pose proof (inv_cell I) as C. destruct (seqrun args order v0) as [v1 r1].
        simpl in *. subst v1. rewrite (@nth_args st args i b p (inv_args I) E), Hs. reflexivity.
      - intros j r'. rewrite seqrun_app. pose proof (inv_cell I) as C. pose proof (inv_rets I) as RR.
        pose proof (inv_order I i) as OI.
        destruct (seqrun args order v0) as [v1 r1]. simpl in *. subst v1.
        rewrite (@nth_args st args i b p (inv_args I) E), Hs. simpl. rewrite in_app_iff.
        intros [H|[H|[]]].
        + destruct (Nat.eq_dec i j) as [<-|Hj].
          * apply RR in H as (b' & H). rewrite E in H. inversion H; subst. exfalso. eapply Hp; eauto.
          * rewrite nth_error_upd_neq by auto. auto.
        + inversion H; subst. rewrite nth_error_upd_eq by auto. eauto.
      - intros j b' c. destruct (Nat.eq_dec i j) as [<-|Hj].
        + rewrite nth_error_upd_eq by auto. discriminate.
        + rewrite nth_error_upd_neq by auto. apply (inv_try I). }
    (* moving thread [i] between unfinished states *)
    assert (Mov : forall p', (forall r', p <> Done r') -> (forall r', p' <> Done r') ->
      (forall c, p' = Try c -> cond b c = true) ->
      inv v0 args {| cell := cell st; threads := upd i (b, p') (threads st) |} order).
    { intros p' Hp Hp' Ht. constructor; simpl.
      - erewrite map_fst_upd by eauto. apply I.
      - apply I.
      - intros j. rewrite (inv_order I). destruct (Nat.eq_dec i j) as [<-|Hj].
        + rewrite nth_error_upd_eq, E by auto. split; intros (b' & r & H); inversion H; subst;
            exfalso; [eapply Hp|eapply Hp']; eauto.
        + rewrite nth_error_upd_neq by auto. tauto.
      - apply I.
      - intros j r H. apply (inv_rets I) in H as (b' & H). destruct (Nat.eq_dec i j) as [<-|Hj].
        + rewrite E in H. inversion H; subst. exfalso. eapply Hp; eauto.
        + rewrite nth_error_upd_neq by auto. eauto.
      - intros j b' c. destruct (Nat.eq_dec i j) as [<-|Hj].
        + rewrite nth_error_upd_eq by auto. intros H; inversion H; subst. auto.
        + rewrite nth_error_upd_neq by auto. apply (inv_try I). }
    destruct p as [|c|r].
    - destruct (cond b (cell st)) eqn:EC.
      + exists order. apply Mov; intros; try discriminate. congruence.
      + exists (order ++ [i]). apply Fin; [discriminate|]. unfold AtomicsModel.seqop. rewrite EC. auto.
    - destruct (veq (cell st) c) eqn:EV.
      + apply Hveq in EV. subst c. exists (order ++ [i]). apply Fin; [discriminate|].
        unfold AtomicsModel.seqop. rewrite (inv_try I _ E). auto.
      + exists order. apply Mov; intros; discriminate.
    - eauto.
  Qed.

  Lemma run_inv v0 args sched : exists order, inv v0 args (run v0 args sched) order.
  Proof.
    unfold AtomicsModel.run.
    assert (H0 : exists order, inv v0 args (initial Ret v0 args) order).
    { exists []. constructor; simpl; auto; try tauto.
      - rewrite map_map. simpl. apply map_id.
      - constructor.
      - intros i. split; [tauto|]. intros (b & r & H). rewrite nth_error_map in H.
        destruct (nth_error args i); discriminate.
      - intros i b c H. rewrite nth_error_map in H. destruct (nth_error args i); discriminate. }
    revert H0. generalize (initial (V := V) Ret v0 args). induction sched as [|i s IH]; simpl; auto.
    intros st (order & H). apply IH. eapply step_inv; eauto.
  Qed.

  Lemma seqrun_fst args order v0 : (forall i, In i order -> i < length args) ->
    map fst (snd (seqrun args order v0)) = order.
  Proof.
    revert v0; induction order as [|i o IH]; simpl; intros v0 H; auto.
    destruct (nth_error args i) as [b|] eqn:E.
    - destruct (seqop b v0) as [v1 r]. specialize (IH v1 ltac:(auto)).
      destruct (seqrun args o v1) as [v2 rs]. simpl in *. rewrite IH; auto.
    - apply nth_error_None in E. specialize (H i (or_introl eq_refl)). lia.
  Qed.

  (** Linearizability: the results of an execution in which every call has
      returned are those of some sequential order of the calls. *)
  Lemma linearizable v0 args sched rs :
    results (run v0 args sched) rs ->
    exists order, Permutation order (seq 0 (length args)) /\
      fst (seqrun args order v0) = cell (run v0 args sched) /\
      Permutation (snd (seqrun args order v0)) (combine (seq 0 (length args)) rs).
  Proof.
    intros HR. destruct (run_inv v0 args sched) as (order & I).
    unfold results in HR.
    assert (L : length args = length (threads (run v0 args sched))).
    { pose proof (f_equal (@length _) (inv_args I)) as HL. rewrite map_length in HL. auto. }
    assert (L2 : length rs = length args).
    { pose proof (f_equal (@length _) HR) as HL. rewrite !map_length in HL. lia. }
    assert (HD : forall i, i < length args -> exists b r,
      nth_error (threads (run v0 args sched)) i = Some (b, Done r) /\ nth_error rs i = Some r).
    { intros i Hi. rewrite L in Hi.
      destruct (nth_error (threads (run v0 args sched)) i) as [[b p]|] eqn:E.
      2: apply nth_error_None in E; lia.
      assert (E2 : nth_error (map snd (threads (run v0 args sched))) i = Some p)
        by (rewrite nth_error_map, E; auto).
      rewrite HR, nth_error_map in E2.
      destruct (nth_error rs i) eqn:E3; inversion E2; subst. eauto. }
    exists order.
    assert (PO : Permutation order (seq 0 (length args))).
    { apply NoDup_Permutation; [apply I|apply seq_NoDup|]. intros i. rewrite in_seq0.
      rewrite (inv_order I). split.
      - intros (b & r & H). rewrite L. apply nth_error_Some. congruence.
      - intros Hi. destruct (HD i Hi) as (b & r & H & _). eauto. }
    split; auto. split; [apply I|].
    assert (F : map fst (snd (seqrun args order v0)) = order).
    { apply seqrun_fst. intros i Hi. apply (Permutation_in _ PO) in Hi. now apply in_seq0 in Hi. }
    apply NoDup_Permutation.
    - apply (NoDup_map_inv fst). rewrite F. apply I.
    - apply (NoDup_map_inv fst).
      assert (G : forall (l : list nat) (l' : list Ret), length l = length l' -> map fst (combine l l') = l).
      { induction l as [|a l IH]; intros [|b l']; simpl; intros; try lia; auto. rewrite IH; auto. }
      rewrite G by (rewrite seq_length; auto). apply seq_NoDup.
    - assert (G : forall i r, In (i, r) (combine (seq 0 (length args)) rs) <->
                  i < length args /\ nth_error rs i = Some r).
      { rewrite <- L2. clear. intros i r.
        assert (G : forall s, In (i, r) (combine (seq s (length rs)) rs) <->
                     s <= i < s + length rs /\ nth_error rs (i - s) = Some r).
        { induction rs as [|a rs IH]; simpl; intros s; [split; [tauto|lia]|].
          rewrite IH. split.
          - intros [H|[H1 H2]].
            + inversion H; subst. rewrite Nat.sub_diag. simpl. split; auto; lia.
            + split; [lia|]. replace (i - s) with (S (i - S s)) by lia. auto.
          - intros [H1 H2]. destruct (Nat.eq_dec i s) as [->|].
            + rewrite Nat.sub_diag in H2. simpl in H2. inversion H2. auto.
            + right. split; [lia|]. replace (i - s) with (S (i - S s)) in H2 by lia. auto. }
        rewrite G. rewrite Nat.sub_0_r. split; intros [? ?]; split; auto; lia. }
      intros [i r]. rewrite G. split.
      + intros H. assert (Hi : In i order) by (rewrite <- F; apply (in_map fst) in H; auto).
        apply (Permutation_in _ PO), in_seq0 in Hi. split; auto.
        apply (inv_rets I) in H as (b & H). destruct (HD i Hi) as (b' & r' & H1 & H2). congruence.
      + intros [Hi Hr]. assert (Ho : In i order).
        { apply (Permutation_in _ (Permutation_sym PO)), in_seq0; auto. }
        rewrite <- F in Ho. apply in_map_iff in Ho as ([i' r'] & Hi' & Ho). simpl in Hi'. subst i'.
        pose proof (inv_rets I _ _ Ho) as (b & H). destruct (HD i Hi) as (b' & r2 & H1 & H2).
        assert (r' = r) by congruence. subst; auto.
  Qed.

  (** ** Termination: a thread that is scheduled 2n+2 times has returned. *)
  Definition isdone (p : pc V Ret) : bool := match p with Done _ => true | _ => false end.
  Definition ndone (st : state V B Ret) : nat := length (filter (fun x => isdone (snd x)) (threads st)).

  Lemma filter_upd_len (f : B * pc V Ret -> bool) i x l y : nth_error l i = Some y ->
    length (filter f (upd i x l)) + (if f y then 1 else 0)
    = length (filter f l) + (if f x then 1 else 0).
  Proof.
    revert i; induction l as [|a l IH]; intros [|i]; simpl; intros H; try discriminate.
    - inversion H; subst. destruct (f x), (f y); simpl; lia.
    - specialize (IH _ H). destruct (f a); simpl; lia.
  Qed.

  (** Credit of thread [i]: how many of its own steps it still needs at most
      if nobody else finishes. *)
  Definition need (st : state V B Ret) (i : nat) : nat :=
    match nth_error (threads st) i with
    | Some (_, Done _) | None => 0
    | Some (_, Try c) => if veq (cell st) c then 1 else 3
    | Some (_, Start) => 2
    end.

  Definition pot (st : state V B Ret) (i : nat) : nat :=
    need st i + 3 * (length (threads st) - ndone st).

  Lemma ndone_le st : ndone st <= length (threads st).
  Proof. apply filter_length_le. Qed.

  Lemma veq_refl x : veq x x = true. Proof. apply Hveq; auto. Qed.

  Lemma need_le st i : need st i <= 3.
  Proof. unfold need. destruct (nth_error (threads st) i) as [[b [|c|r]]|]; try lia. destruct (veq _ c); lia. Qed.

  Lemma step_pot st j i :
    length (threads (step st j)) = length (threads st) /\
    pot (step st j) i <= pot st i /\
    (j = i -> need st i <> 0 -> pot (step st j) i < pot st i).
  Proof.
    unfold AtomicsModel.step. destruct (nth_error (threads st) j) as [[b p]|] eqn:E.
    2: { split; auto. split; auto. intros <- H. unfold need in H. rewrite E in H. congruence. }
    assert (Hj : j < length (threads st)) by (apply nth_error_Some; congruence).
    (* a transition of [j] that does not touch the cell and does not finish *)
    assert (Key : forall st', length (threads st') = length (threads st) ->
      (ndone st' = ndone st -> (i <> j -> need st' i = need st i) ->
        (i = j -> need st' j < need st j) ->
        pot st' i <= pot st i /\ (j = i -> need st i <> 0 -> pot st' i < pot st i)) /\
      (ndone st' = S (ndone st) -> (i = j -> need st' j = 0) ->
        pot st' i <= pot st i /\ (j = i -> need st i <> 0 -> pot st' i < pot st i))).
    { intros st' HL. unfold pot. rewrite HL. split.
      - intros HN Hne Heq. rewrite HN. destruct (Nat.eq_dec i j) as [->|Hij].
        + specialize (Heq eq_refl). split; lia.
        + rewrite Hne by auto. split; [lia|]. intros; congruence.
      - intros HN Heq. pose proof (ndone_le st'). rewrite HL, HN in *.
        destruct (Nat.eq_dec i j) as [->|Hij].
        + rewrite Heq by auto. split; lia.
        + pose proof (need_le st' i). split; [lia|]. intros; congruence. }
    destruct p as [|c|r].
    - destruct (cond b (cell st)) eqn:EC.
      + split; [simpl; rewrite upd_length; auto|].
        refine (proj1 (Key _ _) _ _ _); simpl; [rewrite upd_length; auto| | |].
        * unfold ndone; simpl. pose proof (@filter_upd_len (fun x => isdone (snd x)) j (b, Try (cell st)) _ _ E) as H.
          simpl in H. lia.
        * intros Hij. unfold need; simpl. rewrite nth_error_upd_neq by auto. reflexivity.
        * intros ->. unfold need; simpl. rewrite nth_error_upd_eq, E, veq_refl by auto. lia.
      + split; [simpl; rewrite upd_length; auto|].
        refine (proj2 (Key _ _) _ _); simpl; [rewrite upd_length; auto| |].
        * unfold ndone; simpl. pose proof (@filter_upd_len (fun x => isdone (snd x)) j (b, Done (retF b (cell st))) _ _ E) as H.
          simpl in H. lia.
        * intros ->. unfold need; simpl. rewrite nth_error_upd_eq by auto. auto.
    - destruct (veq (cell st) c) eqn:EV.
      + split; [simpl; rewrite upd_length; auto|].
        refine (proj2 (Key _ _) _ _); simpl; [rewrite upd_length; auto| |].
        * unfold ndone; simpl. pose proof (@filter_upd_len (fun x => isdone (snd x)) j (b, Done (retT b c)) _ _ E) as H.
          simpl in H. lia.
        * intros ->. unfold need; simpl. rewrite nth_error_upd_eq by auto. auto.
      + split; [simpl; rewrite upd_length; auto|].
        refine (proj1 (Key _ _) _ _ _); simpl; [rewrite upd_length; auto| | |].
        * unfold ndone; simpl. pose proof (@filter_upd_len (fun x => isdone (snd x)) j (b, Start) _ _ E) as H.
          simpl in H. lia.
        * intros Hij. unfold need; simpl. rewrite nth_error_upd_neq by auto. reflexivity.
        * intros ->. unfold need; simpl. rewrite nth_error_upd_eq, E, EV by auto. lia.
    - split; auto. split; auto. intros <- H. unfold need in H. rewrite E in H. congruence.
  Qed.

  Lemma need0_stable st j i : need st i = 0 -> i < length (threads st) ->
    need (step st j) i = 0.
  Proof.
    intros H Hi. unfold need in H.
    destruct (nth_error (threads st) i) as [[b p]|] eqn:E; [|apply nth_error_None in E; lia].
    destruct p as [|c|r]; [lia|destruct (veq _ c); lia|].
    unfold AtomicsModel.step. destruct (nth_error (threads st) j) as [[b' p']|] eqn:E'; [|unfold need; rewrite E; auto].
    destruct (Nat.eq_dec j i) as [->|Hij].
    - rewrite E in E'. inversion E'; subst. unfold need. rewrite E. auto.
    - unfold need. destruct p' as [|c|r']; simpl; try (rewrite nth_error_upd_neq by auto); try rewrite E; auto.
      destruct (veq (cell st) c); simpl; rewrite nth_error_upd_neq, E by auto; auto.
  Qed.

  Lemma run_done sched : forall st i, i < length (threads st) ->
    pot st i <= count_occ Nat.eq_dec sched i + 0 -> need (fold_left step sched st) i = 0.
  Proof.
    induction sched as [|j s IH]; intros st i Hi HP; simpl in *.
    - unfold pot in HP. lia.
    - destruct (step_pot st j i) as (HL & Hle & Hlt).
      destruct (Nat.eq_dec (need st i) 0) as [H0|H0].
      + clear IH HP HL Hle Hlt. apply (@need0_stable st j i) in H0; auto.
        assert (HL2 : i < length (threads (step st j))) by (destruct (step_pot st j i) as (-> & _); auto).
        revert H0 HL2. generalize (step st j). clear - Hveq. induction s as [|k s IH]; simpl; auto.
        intros st H0 Hi. apply IH. apply need0_stable; auto.
        destruct (step_pot st k i) as (-> & _); auto.
      + apply IH; [rewrite HL; auto|]. destruct (Nat.eq_dec j i) as [->|Hij].
        * specialize (Hlt eq_refl H0). lia.
        * lia.
  Qed.

  (** Wait-freedom of a batch of n calls: when every thread is scheduled at
      least 3n+2 times all calls have returned. *)
  Lemma terminates v0 args sched :
    (forall i, i < length args -> 3 * length args + 2 <= count_occ Nat.eq_dec sched i) ->
    exists rs, results (run v0 args sched) rs.
  Proof.
    intros H. unfold results, AtomicsModel.run.
    assert (HA : map fst (threads (fold_left step sched (initial Ret v0 args))) = args).
    { destruct (run_inv v0 args sched) as (o & I). apply (inv_args I). }
    set (st := fold_left step sched (initial Ret v0 args)) in *.
    assert (HD : forall i, i < length args -> need st i = 0).
    { intros i Hi. apply run_done; simpl.
      - rewrite map_length; auto.
      - unfold pot. simpl. rewrite map_length. specialize (H i Hi).
        unfold need. simpl. rewrite nth_error_map. destruct (nth_error args i); simpl; lia. }
    assert (G : forall l : list (B * pc V Ret),
      (forall i b p, nth_error l i = Some (b, p) -> isdone p = true) ->
      exists rs, map snd l = map Done rs).
    { clear. induction l as [|[b p] l IH]; intros H.
      - exists []; auto.
      - destruct IH as (rs & E). { intros i. apply (H (S i)). }
        specialize (H 0 b p eq_refl). destruct p; try discriminate. exists (r :: rs). simpl. rewrite E; auto. }
    apply G. intros i b p E.
    assert (Hi : i < length args).
    { rewrite <- HA, map_length. apply nth_error_Some. congruence. }
    specialize (HD i Hi). unfold need in HD. rewrite E in HD. destruct p as [|c|]; auto; try lia.
    destruct (veq (cell st) c); lia.
  Qed.
End Lin.

Section MinMax.
  Variable V : Type.
  Variable veq : V -> V -> bool.
  Hypothesis Hveq : forall x y, veq x y = true <-> x = y.
  Variable less : V -> V -> bool.
  Variable ok : V -> Prop.
  Hypothesis Hirr : forall x, ok x -> less x x = false.
  Hypothesis Htr : forall x y z, ok x -> ok y -> ok z ->
    less x y = true -> less y z = true -> less x z = true.
  Hypothesis Hco : forall x y z, ok x -> ok y -> ok z ->
    less x z = true -> less x y = true \/ less y z = true.

  (** Sequential write_min in any order. *)
  Lemma seqmin_spec (args : list V) order : forall v0, ok v0 -> (forall b, In b args -> ok b) ->
    let v := fst (seqrun (fun b c => less b c) (fun b _ => b) (fun _ _ => true) (fun _ _ => false)
                      args order v0) in
    (v = v0 \/ exists i, In i order /\ nth_error args i = Some v) /\ ok v /\
    less v0 v = false /\
    (forall i b, In i order -> nth_error args i = Some b -> less b v = false).
  Proof.
    induction order as [|i o IH]; simpl; intros v0 Hv0 Hok.
    - split; auto. split; auto. split; auto. intros ? ? [].
    - destruct (nth_error args i) as [b|] eqn:E.
      + assert (Hb : ok b) by (apply Hok; eapply nth_error_In; eauto).
        unfold seqop. destruct (less b v0) eqn:EL.
        * specialize (IH b Hb Hok). simpl in IH.
          destruct (seqrun _ _ _ _ args o b) as [v rs]. simpl in *. destruct IH as (H1 & H2 & H3 & H4).
          split. { destruct H1 as [->|(j & Hj & Hv)]; right; [exists i|exists j]; auto. }
          split; auto. split.
          -- destruct (less v0 v) eqn:E2; auto. rewrite <- H3. symmetry. eapply Htr; eauto.
          -- intros j b' [<-|Hj] Hb'; [|eauto]. congruence.
        * specialize (IH v0 Hv0 Hok). simpl in IH.
          destruct (seqrun _ _ _ _ args o v0) as [v rs]. simpl in *. destruct IH as (H1 & H2 & H3 & H4).
          split. { destruct H1 as [->|(j & Hj & Hv)]; auto. right; eauto. }
          split; auto. split; auto. intros j b' [<-|Hj] Hb'; [|eauto].
          assert (b' = b) by congruence. subst.
          destruct (less b v) eqn:E2; auto.
          destruct (@Hco b v0 v) as [H|H]; auto; congruence.
      + specialize (IH v0 Hv0 Hok). simpl in IH.
        destruct (seqrun _ _ _ _ args o v0) as [v rs]. simpl in *.
        destruct IH as (H1 & H2 & H3 & H4).
        split. { destruct H1 as [->|(j & Hj & Hv)]; auto. right; eauto. }
        split; auto. split; auto. intros j b' [<-|Hj] Hb'; [congruence|eauto].
  Qed.

  Lemma write_min_final v0 args sched rs : ok v0 -> (forall b, In b args -> ok b) ->
    results (wmin_run veq less v0 args sched) rs ->
    let v := cell (wmin_run veq less v0 args sched) in
    In v (v0 :: args) /\ (forall b, In b (v0 :: args) -> less b v = false).
  Proof.
    intros Hv0 Hok HR. simpl. unfold wmin_run in *.
    edestruct linearizable as (order & HP & HC & _); [apply Hveq|exact HR|].
    pose proof (seqmin_spec args order Hv0 Hok) as HS. simpl in HS. rewrite HC in HS.
    destruct HS as (H1 & H2 & H3 & H4). split.
    - destruct H1 as [->|(i & _ & Hi)]; auto. right. eapply nth_error_In; eauto.
    - intros b [<-|Hb]; auto. apply In_nth_error in Hb as (i & Hi).
      apply (H4 i); auto. apply (Permutation_in _ (Permutation_sym HP)), in_seq0.
      apply nth_error_Some. congruence.
  Qed.

  (** write_max is write_min for the reversed comparison. *)
End MinMax.

Lemma write_max_final V (veq less : V -> V -> bool) (ok : V -> Prop) :
  (forall x y, veq x y = true <-> x = y) ->
  (forall x, ok x -> less x x = false) ->
  (forall x y z, ok x -> ok y -> ok z -> less x y = true -> less y z = true -> less x z = true) ->
  (forall x y z, ok x -> ok y -> ok z -> less x z = true -> less x y = true \/ less y z = true) ->
  forall v0 args sched rs, ok v0 -> (forall b, In b args -> ok b) ->
    results (wmax_run veq less v0 args sched) rs ->
    let v := cell (wmax_run veq less v0 args sched) in
    In v (v0 :: args) /\ (forall b, In b (v0 :: args) -> less v b = false).
Proof.
  intros Hveq Hirr Htr Hco v0 args sched rs Hv0 Hok HR.
  apply (@write_min_final V veq Hveq (fun x y => less y x) ok) with (rs := rs); auto.
  - intros x y z Hx Hy Hz H1 H2. eapply Htr; [| | |exact H2|exact H1]; auto.
  - intros x y z Hx Hy Hz H. destruct (Hco z y x) as [H'|H']; auto.
Qed.

Section Add.
  Variable V : Type.
  Variable veq : V -> V -> bool.
  Hypothesis Hveq : forall x y, veq x y = true <-> x = y.
  Variable add : V -> V -> V.
  Hypothesis Hcomm : forall a b c, add (add a b) c = add (add a c) b.

  Lemma fold_add_perm (l l' : list V) : Permutation l l' -> forall v,
    fold_left add l v = fold_left add l' v.
  Proof.
    induction 1; intros v; simpl; auto.
    - rewrite Hcomm; auto.
    - rewrite IHPermutation1; auto.
  Qed.

  Lemma pick_all (args : list V) : flat_map (fun i => match nth_error args i with Some b => [b] | None => [] end)
                         (seq 0 (length args)) = args.
  Proof.
    assert (G : forall s pre, length pre = s ->
      flat_map (fun i => match nth_error (pre ++ args) i with Some b => [b] | None => [] end)
                         (seq s (length args)) = args).
    { induction args as [|a l IH]; intros s pre Hs; simpl; auto.
      rewrite nth_error_app2 by lia. replace (s - length pre) with 0 by lia. simpl.
      f_equal. specialize (IH (S s) (pre ++ [a])). rewrite <- app_assoc in IH. apply IH.
      rewrite app_length; simpl; lia. }
    apply (G 0 []); auto.
  Qed.

  Lemma seqadd_fold Ret (rt rf : V -> V -> Ret) args order : forall v0,
    fst (seqrun (fun _ _ => true) (fun b c => add c b) rt rf args order v0)
    = fold_left add (flat_map (fun i => match nth_error args i with Some b => [b] | None => [] end) order) v0.
  Proof.
    induction order as [|i o IH]; simpl; intros v0; auto.
    destruct (nth_error args i); simpl; auto. rewrite <- IH.
    destruct (seqrun _ _ _ _ args o (add v0 v)); auto.
  Qed.

  Lemma add_final Ret (rt rf : V -> V -> Ret) v0 args sched rs :
    results (run veq (fun _ _ => true) (fun b c => add c b) rt rf v0 args sched) rs ->
    cell (run veq (fun _ _ => true) (fun b c => add c b) rt rf v0 args sched) = fold_left add args v0.
  Proof.
    intros HR. edestruct linearizable as (order & HP & HC & _); [apply Hveq|exact HR|].
    rewrite <- HC, seqadd_fold. transitivity (fold_left add (flat_map (fun i => match nth_error args i with Some b => [b] | None => [] end)
      (seq 0 (length args))) v0); [|rewrite pick_all; auto].
    apply fold_add_perm, Permutation_flat_map, HP.
  Qed.
End Add.
