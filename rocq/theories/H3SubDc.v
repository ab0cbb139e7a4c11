(** The divide and conquer hull in space. *)
From Coq Require Import Reals Lra Lia List Bool Permutation.
From Verif Require Import Base Num KdModel KdBuild H3Model H3Geom H3Surf H3Heap H3Loop H3Init H3Init2 H3Spec H3Final H3Inst H3ParModel H3ParHeap H3ParRound H3ParMain H3SubModel H3Sub.
Set Implicit Arguments.
Open Scope nat_scope.

Lemma shrink_ok n k : 10 <= n -> 0 < k -> shrink n k = Ok (Nat.min k (n / 10)).
Proof.
  intros Hn. induction k as [|k IH]; intros Hk; [lia|]. cbn [shrink].
  assert (D : n / S k < 10 <-> n / 10 < S k).
  { split; intros H.
    - apply Nat.div_lt_upper_bound; [lia|]. destruct (Nat.lt_ge_cases n (10 * S k)) as [L|L]; auto.
      assert (10 <= n / S k) by (apply Nat.div_le_lower_bound; lia). lia.
    - apply Nat.div_lt_upper_bound; [lia|]. destruct (Nat.lt_ge_cases n (S k * 10)) as [L|L]; auto.
      assert (S k <= n / 10) by (apply Nat.div_le_lower_bound; lia). lia. }
  assert (T : 1 <= n / 10) by (apply Nat.div_le_lower_bound; lia).
  destruct (Nat.ltb_spec (n / S k) 10) as [L|L].
  - apply D in L. rewrite IH by lia. f_equal. lia.
  - f_equal. assert (~ n / 10 < S k) by (rewrite <- D; lia). lia.
Qed.

(** the number of points in the blocks *)
Definition covered (n w : nat) : nat := let k := Nat.min (w * 8) (n / 10) in k * (n / k).

Section Dc.
  Variable eps : R.
  Variable mm : (p3 -> p3 -> bool) -> list p3 -> nat * nat.
  Variable mx : (p3 -> p3 -> bool) -> list p3 -> nat.
  Variable srt : (p3 -> p3 -> bool) -> list p3 -> list p3.
  Hypothesis Hmm : minmax3_ok mm.
  Hypothesis Hmx : maxel3_ok mx.
  Hypothesis Hs : forall lt l, Permutation l (srt lt l).
  Hypothesis eps0 : (0 <= eps)%R.
  Variable P : list p3.
  Hypothesis GP : margin P (4 * eps).
  Hypothesis ND : NoDup P.

  Lemma nth_firstn A (l : list A) n i : i < n -> nth_error (firstn n l) i = nth_error l i.
  Proof. revert l i. induction n; intros [|x l] [|i] H; simpl; auto; try lia. apply IHn; lia. Qed.
  Lemma NoDup_slice A (l : list A) s e : NoDup l -> NoDup (slice s e l).
  Proof.
    intros H. unfold slice. rewrite <- (firstn_skipn s l) in H. apply NoDup_app_elim in H. destruct H as (_ & H & _).
    rewrite <- (firstn_skipn (e - s) (skipn s l)) in H. apply NoDup_app_elim in H. tauto.
  Qed.
  Lemma slice_len A (l : list A) s e : e <= length l -> length (slice s e l) = e - s.
  Proof. intros H. unfold slice. rewrite firstn_length, skipn_length. lia. Qed.

  Lemma F2_l A B (R : A -> B -> Prop) l l' x : Forall2 R l l' -> In x l -> exists y, In y l' /\ R x y.
  Proof.
    induction 1 as [|a b l l' H F IH]; intros Hx; [destruct Hx|]. destruct Hx as [<-|Hx]; [exists b; split; auto; left; auto|].
    destruct (IH Hx) as (y & Hy & Ry). exists y. split; auto. right; auto.
  Qed.
  Lemma F2_r A B (R : A -> B -> Prop) l l' y : Forall2 R l l' -> In y l' -> exists x, In x l /\ R x y.
  Proof.
    induction 1 as [|a b l l' H F IH]; intros Hx; [destruct Hx|]. destruct Hx as [<-|Hx]; [exists a; split; auto; left; auto|].
    destruct (IH Hx) as (x & Hy & Ry). exists x. split; auto. right; auto.
  Qed.

  Lemma blocks_ok k b : 10 <= b -> k * b <= length P ->
    exists l, mapR (fun i => @computeVertex RNum eps mm mx srt (slice (i * b) (Nat.min (length P) ((i + 1) * b)) P)) (seq 0 k) = Ok l /\
      incl (concat l) (firstn (k * b) P) /\ forall v, Extreme (firstn (k * b) P) v -> In v (concat l).
  Proof.
    intros Hb Hk. set (blk := fun i => slice (i * b) (Nat.min (length P) ((i + 1) * b)) P).
    assert (IB : forall i v, i < k -> In v (blk i) -> In v (firstn (k * b) P)).
    { intros i v Hi Hv. apply In_nth_error in Hv. destruct Hv as (j & Hj).
      assert (Lj : j < length (blk i)) by (apply nth_error_Some; rewrite Hj; discriminate).
      unfold blk in Lj, Hj. rewrite slice_len in Lj by lia.
      assert (B : i * b + j < (i + 1) * b) by lia. assert ((i + 1) * b <= k * b) by (apply Nat.mul_le_mono_r; lia).
      pose proof (slice_nth P (s := i * b) (e := Nat.min (length P) ((i + 1) * b)) (i := i * b + j)) as E.
      replace (i * b + j - i * b) with j in E by lia. rewrite E in Hj by lia.
      apply nth_error_In with (i * b + j). now rewrite nth_firstn by lia. }
    assert (BI : forall v, In v (firstn (k * b) P) -> exists i, i < k /\ In v (blk i)).
    { intros v Hv. apply In_nth_error in Hv. destruct Hv as (j & Hj).
      assert (Lj : j < length (firstn (k * b) P)) by (apply nth_error_Some; rewrite Hj; discriminate). rewrite firstn_length in Lj.
      rewrite nth_firstn in Hj by lia. pose proof (Nat.div_mod j b ltac:(lia)) as DM. pose proof (Nat.mod_upper_bound j b ltac:(lia)).
      assert (Hi : j / b < k) by (apply Nat.div_lt_upper_bound; lia). exists (j / b). split; auto.
      assert ((j / b + 1) * b <= k * b) by (apply Nat.mul_le_mono_r; lia).
      apply nth_error_In with (j - j / b * b). unfold blk. rewrite slice_nth; auto. lia. }
    destruct (@mapR_all _ _ (fun i => @computeVertex RNum eps mm mx srt (blk i)) (fun i L => forall v, In v L <-> Extreme (blk i) v) (seq 0 k)) as (l & E & F2).
    { intros i Hi. apply in_seq in Hi. apply (@compute_vertices (blk i) eps mm mx); auto.
      - eapply margin_incl; [|exact GP]. intros v Hv. eapply in_slice. exact Hv.
      - apply (@four_of_NoDup (blk i) eps); [eapply margin_incl; [|exact GP]; intros v Hv; eapply in_slice; exact Hv|apply NoDup_slice; auto|]. unfold blk. rewrite slice_len by lia.
        assert ((i + 1) * b <= k * b) by (apply Nat.mul_le_mono_r; lia). lia. }
    exists l. split; [exact E|].
    assert (F : forall i, i < k -> exists L, In L l /\ forall v, In v L <-> Extreme (blk i) v).
    { intros i Hi. destruct (@F2_l _ _ _ _ _ i F2) as (L & HL & X); [apply in_seq; lia|]. exists L. split; auto. }
    assert (F' : forall L, In L l -> exists i, i < k /\ forall v, In v L <-> Extreme (blk i) v).
    { intros L HL. destruct (@F2_r _ _ _ _ _ L F2 HL) as (i & Hi & X). apply in_seq in Hi. exists i. split; auto. lia. }
    split.
    - intros v Hv. apply in_concat in Hv. destruct Hv as (L & HL & Hv). destruct (F' L HL) as (i & Hi & X). apply X in Hv.
      apply (IB i); auto. exact (proj1 Hv).
    - intros v Ev. destruct (BI v (proj1 Ev)) as (i & Hi & Hv). destruct (F i Hi) as (L & HL & X). apply in_concat. exists L. split; auto.
      apply X. eapply extreme_incl; [|exact Hv|exact Ev]. intros w. apply IB; auto.
  Qed.

  Lemma concurrent_ok w : 10 <= length P -> 0 < w ->
    exists Q, @concurrentHull RNum eps mm mx srt P w = Ok Q /\ incl Q (firstn (covered (length P) w) P) /\
      forall v, Extreme (firstn (covered (length P) w) P) v -> In v Q.
  Proof.
    intros Hn Hw. unfold concurrentHull. change (nT RNum) with R. rewrite shrink_ok by lia. cbn [bind].
    set (k := Nat.min (w * 8) (length P / 10)). unfold covered. fold k.
    assert (T : 1 <= length P / 10) by (apply Nat.div_le_lower_bound; lia).
    assert (K : 1 <= k <= length P / 10) by (unfold k; lia).
    assert (K10 : k * 10 <= length P). { pose proof (Nat.mul_div_le (length P) 10 ltac:(lia)). lia. }
    destruct (@blocks_ok k (length P / k)) as (l & E & A & B).
    - apply Nat.div_le_lower_bound; lia.
    - rewrite Nat.mul_comm, Nat.mul_comm. apply Nat.mul_div_le. lia.
    - exists (concat l). split; [|split; auto]. cbv zeta. etransitivity; [apply (f_equal (fun x => bind x _)); exact E|]. reflexivity.
  Qed.
End Dc.
