(** The edges of knnGraph.cpp. *)
From Coq Require Import Reals Lra Permutation.
From Verif Require Import Base Num FloatNum KdModel KdSpec KdBuild KdConstruct RGeom RangeModel RangeProofs KdExtra
  ParBufModel SplitModel SplitProofs KnnModel KnnBuf KnnProofs KdSep KnnFinal GraphModel SpannerProofs.
Set Implicit Arguments.
Local Open Scope R_scope.

Lemma filter_self i l : NoDup l -> In i l -> Permutation (i :: filter (fun j => negb (j =? i)%nat) l) l.
Proof.
  induction 1 as [|x l Hx HN IH]; intros HI; [destruct HI|]. simpl.
  destruct (Nat.eqb_spec x i) as [->|Hne]; simpl.
  - constructor. assert (E : filter (fun j => negb (j =? i)%nat) l = l); [|rewrite E; auto].
    clear - Hx. induction l as [|y l IH]; simpl in *; auto.
    destruct (Nat.eqb_spec y i); simpl; [subst; tauto|]. rewrite IH; tauto.
  - destruct HI as [HI|HI]; [congruence|]. rewrite perm_swap. constructor. auto.
Qed.

Lemma combine_app2 (A B : Type) (l1 l2 : list A) (m1 m2 : list B) : length l1 = length m1 ->
  combine (l1 ++ l2) (m1 ++ m2) = combine l1 m1 ++ combine l2 m2.
Proof.
  revert m1. induction l1 as [|a l1 IH]; intros [|b m1]; simpl; intros H; try lia; auto.
  rewrite IH; auto.
Qed.

(** Rows of k entries each are written to consecutive slots. *)
Lemma rows_writes k (rows : list (list nat)) i :
  (forall j row, nth_error rows j = Some row -> length (filter (fun x => negb (x =? (i + j))%nat) row) = k) ->
  let target := flat_map (fun p => map (pair (fst p)) (filter (fun x => negb (x =? fst p)%nat) (snd p))) (combine (seq i (length rows)) rows) in
  concat (map (fun p => rowWrites k (fst p) (snd p)) (combine (seq i (length rows)) rows))
    = combine (seq (i * k) (length target)) target /\ length target = (k * length rows)%nat.
Proof.
  revert i. induction rows as [|row rows IH]; intros i H; cbn zeta in *; cbn [length seq combine map concat flat_map].
  - split; [auto|lia].
  - destruct (IH (S i)) as [E L].
    { intros j r Hj. rewrite Nat.add_succ_comm. apply (H (S j)); auto. }
    pose proof (H 0%nat row eq_refl) as H0. rewrite Nat.add_0_r in H0. cbn [fst snd] in *.
    rewrite E. unfold rowWrites at 1. rewrite app_length, map_length, H0.
    split; [|rewrite L; lia].
    rewrite seq_app, combine_app2 by (rewrite seq_length, map_length; auto).
    do 2 f_equal. f_equal. lia.
Qed.

Section KnnGraph.
  Variable dim : nat.
  Hypothesis Hdim : (1 <= dim)%nat.
  Variable pts : list (list R).
  Notation n := (length pts).
  Notation vertex := (vertex RNum pts).
  Variable nthel : nat -> list (elem RNum nat) -> list (elem RNum nat).
  Hypothesis Hnth : nth_ok (fun _ : nT RNum => True) nthel.
  Variable srt : list (elem RNum nat) -> list (elem RNum nat).
  Hypothesis Hsrt : sort_ok (fun _ : nT RNum => True) srt.

  (** the k nearest other vertices *)
  Definition nearestOthers (k i : nat) (l : list nat) : Prop :=
    length l = k /\ exists rest, Permutation (i :: l ++ rest) (seq 0 n) /\
      forall y z, In y l -> In z rest -> vdist dim pts i y <= vdist dim pts i z.

  Lemma edist_zero p q : edist dim p q <= 0 -> forall d, (d < dim)%nat -> @coord RNum p d = @coord RNum q d.
  Proof.
    intros H d Hd. rewrite <- dist_edist in H.
    assert (D : distSqr RNum dim p q = 0).
    { unfold dist in H. cbn [nsqrt RNum] in H.
      destruct (Req_dec (distSqr RNum dim p q) 0) as [|Hne]; auto. exfalso.
      assert (0 <= distSqr RNum dim p q) by (rewrite distSqr_sum; apply rsum_nonneg; intros; apply Rle_0_sqr).
      assert (0 < R_sqrt.sqrt (distSqr RNum dim p q)) by (apply sqrt_lt_R0; lra). lra. }
    rewrite distSqr_sum in D.
    destruct (Req_dec (coord (N := RNum) p d) (coord (N := RNum) q d)) as [|Hne]; auto. exfalso.
    pose proof (@rsum_zero_inv _ dim (fun i _ => Rle_0_sqr (coord (N := RNum) p i - coord (N := RNum) q i)) D d Hd) as T.
    cbv beta in T. apply Rmult_integral in T. apply Hne. apply Rminus_diag_uniq. tauto.
  Qed.

  Lemma knnGraph_correct workers threshold k order :
    (0 < workers)%nat -> (1 <= k < n)%nat ->
    fewEqual dim vertex (Nat.min 16 (k + 1)) (seq 0 n) ->
    (forall y z, (y < n)%nat -> (z < n)%nat -> vdist dim pts y z < Rfmax) ->
    (forall w, Permutation (order w) w) ->
    exists nb : nat -> list nat,
      @knnGraph RNum dim pts nthel srt workers threshold k order
        = Ok (map Some (flat_map (fun i => map (pair i) (nb i)) (seq 0 n))) /\
      forall i, (i < n)%nat -> nearestOthers k i (nb i).
  Proof.
    intros Hw Hk HF Hmax HO.
    assert (HF16 : fewEqual dim vertex 16 (seq 0 n)).
    { intros L rest HP HC. pose proof (HF L rest HP HC). lia. }
    assert (HPn : seq 0 n <> []) by (intros Z; apply (f_equal (@length nat)) in Z; rewrite seq_length in Z; cbn [length] in Z; lia).
    destruct (@build_all _ _ R_ordlaws R_span dim Hdim nat vertex) with (parallel := true) (workers := workers) (threshold := threshold) (leafSize := 16%nat) (P := seq 0 n)
      as (tr & Eb & _); auto; [lia|apply okptsR|].
    destruct (@batchKnn_correct dim Hdim nat vertex nthel Hnth srt Hsrt true workers threshold 16%nat (seq 0 n) tr (k + 1)%nat false)
      as (rows & Er & HR); auto; [lia|rewrite seq_length; lia| |].
    { intros y z Hy Hz. apply in_seq0 in Hy, Hz. apply Hmax; auto. }
    unfold knnGraph. cbn [nT RNum] in *.
    assert (EC : ((k <? 1) || (negb (n =? 0) && (n - 1 <? k)))%nat%bool = false).
    { destruct (Nat.ltb_spec k 1); [lia|]. destruct (Nat.ltb_spec (n - 1) k); [lia|]. rewrite andb_false_r. auto. }
    rewrite EC, Eb. cbn [bind]. rewrite Er. cbn [bind].
    assert (HL : n = length rows).
    { rewrite <- (seq_length n 0). clear - HR. induction HR; simpl; auto. }
    assert (Row : forall i row, nth_error rows i = Some row ->
       nearestOthers k i (filter (fun x => negb (x =? i)%nat) row)).
    { intros i row Hi.
      assert (Hin : (i < n)%nat) by (rewrite HL; apply nth_error_Some; congruence).
      assert (HX : length row = (k + 1)%nat /\ exists rest, Permutation (row ++ rest) (seq 0 n) /\
         forall y z, In y row -> In z rest -> vdist dim pts i y <= vdist dim pts i z).
      { assert (G : forall (P : nat -> list nat -> Prop) l rs, Forall2 P l rs -> forall i x r,
           nth_error l i = Some x -> nth_error rs i = Some r -> P x r).
        { clear. induction 1; intros [|i] a r E1 E2; simpl in *; try discriminate; [congruence|eauto]. }
        destruct (G _ _ _ HR i i row) as (X1 & X2 & _); auto.
        rewrite (nth_error_nth' _ 0%nat) by (rewrite seq_length; auto). rewrite seq_nth by auto. reflexivity. }
      destruct HX as (X1 & rest & X2 & X3).
      assert (ND : NoDup (row ++ rest)) by (eapply Permutation_NoDup; [symmetry; exact X2|apply seq_NoDup]).
      assert (Hmem : In i row).
      { assert (HI : In i (row ++ rest)) by (eapply Permutation_in; [symmetry; exact X2|apply in_seq0; auto]).
        apply in_app_or in HI as [|HI]; auto. exfalso.
        assert (Z : forall y, In y row -> forall d, (d < dim)%nat -> coord (N := RNum) (vertex y) d = coord (N := RNum) (vertex i) d).
        { intros y Hy d Hd. symmetry. apply edist_zero; auto.
          pose proof (X3 y i Hy HI) as Q. unfold vdist in Q.
          assert (Q0 : edist dim (nth i pts []) (nth i pts []) = 0).
          { rewrite <- dist_edist. unfold dist. cbn [nsqrt RNum]. rewrite distSqr_sum, rsum_zero; [apply sqrt_0|].
            intros; cbv beta; ring. }
          rewrite Q0 in Q. exact Q. }
        apply in_split in HI as (r1 & r2 & ->).
        pose proof (HF (i :: row) (r1 ++ r2)) as C. cbn [length] in C.
        assert (Cc : (S (length row) <= Nat.min 16 (k + 1))%nat).
        { apply C.
          - rewrite <- X2. simpl. rewrite app_assoc, app_assoc. apply Permutation_middle.
          - intros x y Hx Hy d Hd.
            assert (V : forall v, In v (i :: row) -> coord (N := RNum) (vertex v) d = coord (N := RNum) (vertex i) d).
            { intros v [<-|Hv]; auto. }
            rewrite (V x Hx), (V y Hy). auto. }
        lia. }
      pose proof (proj1 (NoDup_app_elim _ _ ND)) as NR.
      pose proof (filter_self _ NR Hmem) as FS. split.
      - apply Permutation_length in FS. simpl in FS. lia.
      - exists rest. split.
        + rewrite <- X2. rewrite app_comm_cons, FS. auto.
        + intros y z Hy Hz. apply filter_In in Hy as [Hy _]. auto. }
    exists (fun i => filter (fun x => negb (x =? i)%nat) (nth i rows [])). split.
    - destruct (@rows_writes k rows 0%nat) as [E L].
      { intros j row Hj. simpl. apply (Row j row Hj). }
      cbn zeta in E, L. rewrite <- HL in E, L. cbn [Nat.mul] in E. rewrite E.
      set (target := flat_map _ (combine _ rows)) in *.
      assert (ET : target = flat_map (fun i => map (pair i) (filter (fun x => negb (x =? i)%nat) (nth i rows []))) (seq 0 n)).
      { unfold target. rewrite HL. clear.
        assert (G : forall (rows pre : list (list nat)),
           flat_map (fun p => map (pair (fst p)) (filter (fun x => negb (x =? fst p)%nat) (snd p))) (combine (seq (length pre) (length rows)) rows)
           = flat_map (fun i => map (pair i) (filter (fun x => negb (x =? i)%nat) (nth i (pre ++ rows) []))) (seq (length pre) (length rows))).
        { clear. induction rows as [|r rows IH]; intros pre; simpl; auto.
          rewrite app_nth2, Nat.sub_diag by lia. simpl. f_equal.
          specialize (IH (pre ++ [r])). rewrite app_length in IH. simpl in IH. rewrite Nat.add_1_r, <- app_assoc in IH. exact IH. }
        exact (G rows []). }
      rewrite <- ET. rewrite <- L. apply runWrites_target. apply HO.
    - intros i Hi. apply Row. apply nth_error_nth'. rewrite <- HL. auto.
  Qed.
End KnnGraph.

(** A second implementation of nth_element, with the opposite order on ties. *)
Lemma isort_rev_nth_ok (N : Num) (ok : nT N -> Prop) (OL : OrdLaws N ok) A :
  nth_ok ok (fun _ l => @isort N A (rev l)).
Proof.
  intros m l Hm Hl.
  destruct (isort_nth_ok OL (A := A) (n := m) (rev l)) as [H1 H2].
  - rewrite rev_length. auto.
  - intros e He. apply Hl. apply in_rev. auto.
  - split; [|exact H2]. rewrite H1. symmetry. apply Permutation_rev.
Qed.

Lemma knnGraph_range (N : Num) dim (pts : list (list (nT N))) nthel srt workers threshold k order :
  pts <> [] -> (k < 1 \/ length pts <= k)%nat ->
  @knnGraph N dim pts nthel srt workers threshold k order = Throw.
Proof.
  intros Hp Hk. unfold knnGraph. destruct pts as [|p l]; [congruence|]. cbn [length] in *.
  destruct (Nat.ltb_spec k 1); auto. cbn [orb]. destruct (Nat.ltb_spec (S (length l) - 1) k); auto. lia.
Qed.
