(** The Bloom filter: what the buckets hold after any interleaving. *)
From Verif Require Import Base Sched BloomModel.
Set Implicit Arguments.

Section Bloom.
  Variable A : Type.
  Variable hash64 : A -> nat -> nat.
  Variable nb : nat.
  Hypothesis Hnb : 0 < nb.
  Notation h p j := (hash64 p j mod nb).

  Definition shape (a : buckets) : Prop :=
    length a = numArrays /\ forall row, In row a -> length row = nb.
  Definition on (a : buckets) (j idx : nat) : Prop := getB a j idx = Ok true.

  Lemma bhash_ok p j : bhash hash64 nb p j = Ok (h p j).
  Proof. unfold bhash. destruct (Nat.eqb_spec nb 0); [lia|auto]. Qed.
  Lemma h_lt p j : h p j < nb.
  Proof. apply Nat.mod_upper_bound. lia. Qed.

  Lemma getB_ok a j idx : shape a -> j < numArrays -> idx < nb -> exists v, getB a j idx = Ok v.
  Proof.
    intros [L R] Hj Hi. unfold getB. destruct (nth_error a j) as [row|] eqn:E.
    - pose proof (R row (nth_error_In _ _ E)) as Lr. destruct (nth_error row idx) eqn:E2; eauto.
      apply nth_error_None in E2. lia.
    - apply nth_error_None in E. lia.
  Qed.
  Lemma setB_get a j idx j' idx' : shape a -> j < numArrays -> idx < nb ->
    getB (setB a j idx) j' idx' = if (j =? j') && (idx =? idx') then Ok true else getB a j' idx'.
  Proof.
    intros [L R] Hj Hi. unfold setB, getB. destruct (nth_error a j) as [row|] eqn:E.
    2:{ apply nth_error_None in E. lia. }
    pose proof (R row (nth_error_In _ _ E)) as Lr.
    destruct (Nat.eqb_spec j j') as [<-|Hn]; cbn [andb].
    - rewrite nth_error_upd_eq, E by lia. destruct (Nat.eqb_spec idx idx') as [<-|Hn].
      + rewrite nth_error_upd_eq by lia. reflexivity.
      + rewrite nth_error_upd_neq by auto. reflexivity.
    - rewrite nth_error_upd_neq by auto. reflexivity.
  Qed.
  Lemma setB_shape a j idx : shape a -> j < numArrays -> shape (setB a j idx).
  Proof.
    intros [L R] Hj. unfold setB. destruct (nth_error a j) as [row|] eqn:E; [|split; auto].
    split; [rewrite upd_length; auto|]. intros r Hr. apply In_nth_error in Hr as (k & Hk).
    destruct (Nat.eq_dec j k) as [<-|Hn].
    - rewrite nth_error_upd_eq in Hk by lia. injection Hk as <-. rewrite upd_length. apply R. eapply nth_error_In; eauto.
    - rewrite nth_error_upd_neq in Hk by auto. apply R. eapply nth_error_In; eauto.
  Qed.

  (** Buckets passed by a thread are on. *)
  Definition thOk (a : buckets) (l : binsertion A) : Prop :=
    bi_j l <= numArrays /\ (bi_cas l = true -> bi_j l < numArrays) /\
    forall j, j < bi_j l -> on a j (h (bi_pt l) j).

  Variable points : list A.
  Variable a0 : buckets.
  Record bInv (ls : list (binsertion A)) (a : buckets) : Prop := {
    bi_pts : map (@bi_pt A) ls = points;
    bi_shape : shape a;
    bi_th : forall i l, nth_error ls i = Some l -> thOk a l;
    bi_mono : forall j idx, on a0 j idx -> on a j idx;
    bi_only : forall j idx, on a j idx -> on a0 j idx \/ exists p, In p points /\ h p j = idx }.

  Lemma map_pt_upd ls i l l' : nth_error ls i = Some l -> bi_pt l' = bi_pt l ->
    map (@bi_pt A) (upd i l' ls) = map (@bi_pt A) ls.
  Proof.
    revert i. induction ls as [|x ls IH]; intros [|i] E Hp; cbn in *; try discriminate.
    - injection E as ->. rewrite Hp. auto.
    - f_equal. apply IH; auto.
  Qed.

  Lemma bInv_step ls a i l : bInv ls a -> nth_error ls i = Some l -> bi_fin l = false ->
    exists l' a', bi_step hash64 nb l a = Ok (l', a') /\ bInv (upd i l' ls) a'.
  Proof.
    intros [I1 I2 I3 I4 I5] E F. unfold bi_fin in F. apply Nat.leb_gt in F.
    destruct (I3 i l E) as (T1 & T2 & T3). unfold bi_step. rewrite bhash_ok. cbn [bind].
    destruct (@getB_ok a (bi_j l) (h (bi_pt l) (bi_j l)) I2 F (h_lt _ _)) as (v & Ev). rewrite Ev. cbn [bind].
    assert (Hi : i < length ls) by (apply nth_error_Some; congruence).
    assert (Hin : In (bi_pt l) points) by (rewrite <- I1; apply in_map; eapply nth_error_In; eauto).
    (* the state is unchanged and the thread still satisfies its invariant *)
    assert (KEEP : forall l', bi_pt l' = bi_pt l -> thOk a l' -> bInv (upd i l' ls) a).
    { intros l' Hp Ht. constructor; auto.
      - rewrite (@map_pt_upd ls i l l' E Hp). auto.
      - intros k x Hk. destruct (Nat.eq_dec i k) as [<-|Hn].
        + rewrite nth_error_upd_eq in Hk by auto. injection Hk as <-. auto.
        + rewrite nth_error_upd_neq in Hk by auto. eapply I3; eauto. }
    assert (NEXT : on a (bi_j l) (h (bi_pt l) (bi_j l)) -> thOk a (bi_next l)).
    { intros Ho. split; [cbn; lia|]. split; [discriminate|]. cbn. intros j Hj.
      destruct (Nat.eq_dec j (bi_j l)) as [->|]; auto. apply T3. lia. }
    destruct v.
    - exists (bi_next l), a. split; [destruct (bi_cas l); auto|]. apply KEEP; auto.
    - destruct (bi_cas l) eqn:Ec.
      + eexists _, _. split; [reflexivity|]. set (idx := h (bi_pt l) (bi_j l)) in *.
        assert (ON : forall j k, on (setB a (bi_j l) idx) j k <-> (bi_j l = j /\ idx = k) \/ on a j k).
        { intros j k. unfold on. rewrite setB_get by (auto; apply h_lt).
          destruct (Nat.eqb_spec (bi_j l) j), (Nat.eqb_spec idx k); cbn [andb]; split; intros; auto; try tauto; lia. }
        constructor.
        * rewrite (@map_pt_upd ls i l (bi_next l) E eq_refl). auto.
        * apply setB_shape; auto.
        * intros k x Hk. destruct (Nat.eq_dec i k) as [<-|Hn].
          -- rewrite nth_error_upd_eq in Hk by auto. injection Hk as <-. split; [cbn; lia|]. split; [discriminate|].
             cbn. intros j Hj. apply ON. destruct (Nat.eq_dec j (bi_j l)) as [->|]; [left; auto|right; apply T3; lia].
          -- rewrite nth_error_upd_neq in Hk by auto. destruct (I3 k x Hk) as (X1 & X2 & X3).
             split; auto. split; auto. intros j Hj. apply ON. right. auto.
        * intros j k Hjk. apply ON. right. auto.
        * intros j k Hjk. apply ON in Hjk as [[<- <-] | Hjk]; auto. right. exists (bi_pt l). auto.
      + eexists _, _. split; [reflexivity|]. apply KEEP; auto. split; [cbn; lia|]. split; auto.
  Qed.

  Lemma bInv_init : shape a0 -> bInv (map (fun p => mkBi p 0 false) points) a0.
  Proof.
    intros H. constructor; auto.
    - rewrite map_map. cbn. apply map_id.
    - intros i l E. apply nth_error_In, in_map_iff in E as (p & <- & _). split; [cbn; lia|]. split; [discriminate|].
      cbn. intros; lia.
  Qed.

  (** Every bucket after a completed insertion. *)
  Theorem bloomInsert_ok sched : shape a0 ->
    match bloomInsert hash64 nb sched points a0 with
    | Ok a => shape a /\ forall j idx, j < numArrays ->
        (getB a j idx = Ok true <-> getB a0 j idx = Ok true \/ exists p, In p points /\ h p j = idx)
    | Fuel => True
    | _ => False
    end.
  Proof.
    intros H. unfold bloomInsert.
    pose proof (@runT_inv _ _ (bi_step hash64 nb) (@bi_fin A) bInv bInv_step sched _ _ (bInv_init H)) as R.
    destruct (runT _ _ sched _ a0) as [[ls a]| | |]; auto. cbn [bind]. destruct R as ([I1 I2 I3 I4 I5] & F & _).
    split; auto. intros j idx Hj. split; [apply I5|]. intros [Ho | (p & Hp & <-)]; [apply I4; auto|].
    rewrite <- I1 in Hp. apply in_map_iff in Hp as (l & <- & Hl).
    rewrite forallb_forall in F. pose proof (F l Hl) as Fl. unfold bi_fin in Fl. apply Nat.leb_le in Fl.
    apply In_nth_error in Hl as (i & Hi). destruct (I3 i l Hi) as (_ & _ & X). apply X. lia.
  Qed.

  (** Every schedule can be completed. *)
  Definition work (l : binsertion A) : nat := 2 * (numArrays - bi_j l) - (if bi_cas l then 1 else 0).
  Lemma work_upd ls i l l' : nth_error ls i = Some l -> work l' < work l ->
    list_sum (map work (upd i l' ls)) < list_sum (map work ls).
  Proof.
    revert i. induction ls as [|x ls IH]; intros [|i] E Hp; cbn in *; try discriminate.
    - injection E as ->. lia.
    - specialize (IH i E Hp). change (fold_right Nat.add 0) with list_sum in *. lia.
  Qed.
  Theorem bloomInsert_finish sched : shape a0 -> exists sched' a, bloomInsert hash64 nb (sched ++ sched') points a0 = Ok a.
  Proof.
    intros H.
    destruct (@runT_extend _ _ (bi_step hash64 nb) (@bi_fin A) bInv bInv_step
      (fun ls _ k => k = list_sum (map work ls))) with (sched := sched) (ls := map (fun p => mkBi p 0 false) points) (s := a0)
      as (sc & [ls a] & E).
    - eauto.
    - intros ls s i l l' s' k I E F St ->. eexists. split; [reflexivity|]. apply work_upd with (l := l); auto.
      unfold bi_fin in F. apply Nat.leb_gt in F. unfold bi_step in St. rewrite bhash_ok in St. cbn [bind] in St.
      destruct (getB s (bi_j l) (h (bi_pt l) (bi_j l))) as [v| | |]; try discriminate. cbn [bind] in St.
      unfold work. destruct (bi_cas l) eqn:Ec; [|destruct v]; injection St as <- <-; cbn [bi_j bi_cas bi_next]; lia.
    - apply bInv_init. auto.
    - exists sc, a. unfold bloomInsert. rewrite E. reflexivity.
  Qed.

  Lemma mightFrom_ok a p : shape a -> forall js, (forall j, In j js -> j < numArrays) ->
    exists r, mightFrom hash64 nb a p js = Ok r /\ (r = true <-> forall j, In j js -> on a j (h p j)).
  Proof.
    intros S. induction js as [|j js IH]; intros Hj; cbn [mightFrom].
    - exists true. split; auto. split; auto. intros _ j [].
    - rewrite bhash_ok. cbn [bind]. destruct (@getB_ok a j (h p j) S (Hj j (or_introl eq_refl)) (h_lt _ _)) as (v & Ev).
      rewrite Ev. cbn [bind]. destruct v.
      + destruct IH as (r & E & R); [intros k Hk; apply Hj; right; auto|]. exists r. split; auto. rewrite R. split.
        * intros G k [<- | Hk]; auto.
        * intros G k Hk. apply G. right. auto.
      + exists false. split; auto. split; [discriminate|]. intros G. specialize (G j (or_introl eq_refl)). unfold on in G. congruence.
  Qed.
End Bloom.

Section Build.
  Variable A : Type.
  Variable hash64 : A -> nat -> nat.
  Variable nb : nat.
  Hypothesis Hnb : 0 < nb.

  Lemma clear_shape a : shape nb (bloomClear nb a).
  Proof.
    split; [apply repeat_length|]. intros row Hr. apply repeat_spec in Hr. subst row. apply repeat_length.
  Qed.
  Lemma clear_off a j idx : getB (bloomClear nb a) j idx <> Ok true.
  Proof.
    unfold getB, bloomClear. destruct (nth_error (repeat _ _) j) as [row|] eqn:E; [|discriminate].
    apply nth_error_In, repeat_spec in E. subst row. destruct (nth_error _ idx) as [v|] eqn:E; [|discriminate].
    apply nth_error_In, repeat_spec in E. subst v. discriminate.
  Qed.

  (** After building and further insertions. *)
  Theorem bloom_answers sched sched' pts more a a1 a2 q :
    bloomBuild hash64 nb sched pts a = Ok a1 -> bloomInsert hash64 nb sched' more a1 = Ok a2 ->
    exists r, mightContain hash64 nb a2 q = Ok r /\
      (r = true <-> forall j, j < 4 -> exists p, In p (pts ++ more) /\ hash64 p j mod nb = hash64 q j mod nb).
  Proof.
    intros E1 E2. unfold bloomBuild in E1.
    pose proof (@bloomInsert_ok A hash64 nb Hnb pts (bloomClear nb a) sched (clear_shape a)) as R1. rewrite E1 in R1.
    destruct R1 as [S1 R1].
    pose proof (@bloomInsert_ok A hash64 nb Hnb more a1 sched' S1) as R2. rewrite E2 in R2. destruct R2 as [S2 R2].
    destruct (@mightFrom_ok A hash64 nb Hnb a2 q S2 (seq 0 numArrays)) as (r & E & R).
    { intros j Hj. apply in_seq in Hj. lia. }
    exists r. split; auto. rewrite R. split; intros G j Hj.
    - specialize (G j). unfold on in G. rewrite R2, R1 in G by auto. rewrite in_seq in G.
      destruct G as [[G | (p & Hp & Ep)] | (p & Hp & Ep)]; [unfold numArrays; lia|exfalso; eapply clear_off; eauto| |];
        exists p; rewrite in_app_iff; auto.
    - apply in_seq in Hj. unfold on. assert (Hj' : j < numArrays) by lia. rewrite R2, R1 by auto.
      destruct (G j) as (p & Hp & Ep); [unfold numArrays in *; lia|]. apply in_app_iff in Hp as [Hp | Hp]; eauto 6.
  Qed.

  Theorem bloomFilter_ok a1 pts : shape nb a1 -> exists r, bloomFilter hash64 nb a1 pts = Ok r /\
    (forall q, In q r <-> In q pts /\ mightContain hash64 nb a1 q = Ok true).
  Proof.
    intros S. induction pts as [|p ps (r & E & R)]; cbn [bloomFilter].
    - exists []. split; auto. intros q. cbn. tauto.
    - destruct (@mightFrom_ok A hash64 nb Hnb a1 p S (seq 0 numArrays)) as (v & Ev & _).
      { intros j Hj. apply in_seq in Hj. lia. }
      unfold mightContain at 1. rewrite Ev. cbn [bind]. rewrite E. cbn [bind]. eexists. split; [reflexivity|].
      intros q. destruct v; cbn [In]; rewrite R; unfold mightContain in *; split.
      + intros [<- | H]; tauto. + tauto. + tauto.
      + intros [[<- | H] H']; [congruence|tauto].
  Qed.
End Build.
