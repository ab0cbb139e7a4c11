(** Euclidean geometry over the reals for the distance of the model. *)
From Coq Require Import Reals Lra Psatz.
From Verif Require Import Base Num KdModel.
Local Open Scope R_scope.

Fixpoint rsum (f : nat -> R) (n : nat) : R :=
  match n with 0%nat => 0 | S n' => rsum f n' + f n' end.

Lemma fold_rsum f n a :
  fold_left (fun acc i => acc + f i) (seq 0 n) a = a + rsum f n.
Proof.
  induction n as [|n IH]; [simpl; lra|].
  rewrite seq_S, fold_left_app, IH. simpl. lra.
Qed.

Lemma rsum_ext f g n : (forall i, (i < n)%nat -> f i = g i) -> rsum f n = rsum g n.
Proof.
  induction n as [|n IH]; intros H; simpl; auto.
  rewrite IH by (intros; apply H; lia). rewrite H by lia. auto.
Qed.
Lemma rsum_le f g n : (forall i, (i < n)%nat -> f i <= g i) -> rsum f n <= rsum g n.
Proof.
  induction n as [|n IH]; intros H; simpl; [lra|].
  assert (f n <= g n) by (apply H; lia). assert (rsum f n <= rsum g n) by (apply IH; intros; apply H; lia).
  lra.
Qed.
Lemma rsum_nonneg f n : (forall i, (i < n)%nat -> 0 <= f i) -> 0 <= rsum f n.
Proof.
  intros H. induction n as [|n IH]; simpl; [lra|].
  assert (0 <= f n) by (apply H; lia). assert (0 <= rsum f n) by (apply IH; intros; apply H; lia). lra.
Qed.
Lemma rsum_term f n k : (forall i, (i < n)%nat -> 0 <= f i) -> (k < n)%nat -> f k <= rsum f n.
Proof.
  induction n as [|n IH]; intros H Hk; [lia|]. simpl.
  destruct (Nat.eq_dec k n) as [->|].
  - assert (0 <= rsum f n) by (apply rsum_nonneg; intros; apply H; lia). lra.
  - assert (f k <= rsum f n) by (apply IH; [intros; apply H; lia|lia]).
    assert (0 <= f n) by (apply H; lia). lra.
Qed.
Lemma rsum_plus f g n : rsum (fun i => f i + g i) n = rsum f n + rsum g n.
Proof. induction n as [|n IH]; simpl; [lra|]. rewrite IH; lra. Qed.
Lemma rsum_scal c f n : rsum (fun i => c * f i) n = c * rsum f n.
Proof. induction n as [|n IH]; simpl; [lra|]. rewrite IH; lra. Qed.
Lemma rsum_zero f n : (forall i, (i < n)%nat -> f i = 0) -> rsum f n = 0.
Proof.
  induction n as [|n IH]; simpl; intros H; auto.
  rewrite IH by (intros; apply H; lia). rewrite H by lia. lra.
Qed.
Lemma rsum_zero_inv f n : (forall i, (i < n)%nat -> 0 <= f i) -> rsum f n = 0 ->
  forall i, (i < n)%nat -> f i = 0.
Proof.
  intros H H0 i Hi. pose proof (rsum_term f n i H Hi). specialize (H i Hi). lra.
Qed.

Lemma cauchy_schwarz f g n :
  rsum (fun i => f i * g i) n * rsum (fun i => f i * g i) n
  <= rsum (fun i => f i * f i) n * rsum (fun i => g i * g i) n.
Proof.
  set (A := rsum (fun i => f i * f i) n). set (B := rsum (fun i => g i * g i) n).
  set (C := rsum (fun i => f i * g i) n).
  assert (HB : 0 <= B) by (apply rsum_nonneg; intros; apply Rle_0_sqr).
  assert (H : 0 <= rsum (fun i => (f i * B - g i * C) * (f i * B - g i * C)) n)
    by (apply rsum_nonneg; intros; apply Rle_0_sqr).
  assert (E : rsum (fun i => (f i * B - g i * C) * (f i * B - g i * C)) n
              = B * B * A - 2 * B * C * C + C * C * B).
  { rewrite (rsum_ext _ (fun i => (B * B) * (f i * f i) + ((-2 * B * C) * (f i * g i) + (C * C) * (g i * g i)))).
    2: intros; ring.
    rewrite rsum_plus, rsum_scal, rsum_plus, !rsum_scal. fold A B C. ring. }
  rewrite E in H.
  destruct (Req_dec B 0) as [B0|B0].
  - assert (C = 0).
    { unfold C. apply rsum_zero. intros i Hi.
      assert (g i * g i = 0). { apply (rsum_zero_inv (fun i => g i * g i) n); auto. intros; apply Rle_0_sqr. }
      assert (g i = 0) by nra. rewrite H1; ring. }
    rewrite H0, B0. lra.
  - assert (0 < B) by lra. nra.
Qed.

(** Squared and plain distance as sums. *)
Lemma distSqr_sum dim (p q : list R) :
  distSqr RNum dim p q
  = rsum (fun i => (@coord RNum p i - @coord RNum q i) * (@coord RNum p i - @coord RNum q i)) dim.
Proof. unfold distSqr. simpl. rewrite fold_rsum. lra. Qed.

Lemma distSqr_nonneg dim (p q : list R) : 0 <= distSqr RNum dim p q.
Proof. rewrite distSqr_sum. apply rsum_nonneg; intros; apply Rle_0_sqr. Qed.

Lemma distSqr_sym dim (p q : list R) : distSqr RNum dim p q = distSqr RNum dim q p.
Proof. rewrite !distSqr_sum. apply rsum_ext; intros; ring. Qed.

Lemma dist_sym dim (p q : list R) : dist RNum dim p q = dist RNum dim q p.
Proof. unfold dist. rewrite distSqr_sym; auto. Qed.

Lemma dist_nonneg dim (p q : list R) : 0 <= dist RNum dim p q.
Proof. unfold dist; simpl. apply sqrt_pos. Qed.

Lemma dist_sqr dim (p q : list R) : dist RNum dim p q * dist RNum dim p q = distSqr RNum dim p q.
Proof. unfold dist; simpl. apply sqrt_sqrt, distSqr_nonneg. Qed.

Lemma coord_le_dist dim (p q : list R) d : (d < dim)%nat ->
  Rabs (@coord RNum p d - @coord RNum q d) <= dist RNum dim p q.
Proof.
  intros Hd. unfold dist; simpl. rewrite <- sqrt_Rsqr_abs. apply sqrt_le_1_alt.
  unfold Rsqr. rewrite distSqr_sum.
  apply (rsum_term (fun i => (@coord RNum p i - @coord RNum q i) * (@coord RNum p i - @coord RNum q i)));
    auto. intros; apply Rle_0_sqr.
Qed.

Lemma dist_refl dim (p : list R) : dist RNum dim p p = 0.
Proof.
  unfold dist; simpl. rewrite distSqr_sum, rsum_zero; [apply sqrt_0|]. intros; ring.
Qed.

(** Minkowski inequality on index functions. *)
Lemma minkowski f g n :
  sqrt (rsum (fun i => (f i + g i) * (f i + g i)) n)
  <= sqrt (rsum (fun i => f i * f i) n) + sqrt (rsum (fun i => g i * g i) n).
Proof.
  set (A := rsum (fun i => f i * f i) n). set (B := rsum (fun i => g i * g i) n).
  set (C := rsum (fun i => f i * g i) n).
  assert (HA : 0 <= A) by (apply rsum_nonneg; intros; apply Rle_0_sqr).
  assert (HB : 0 <= B) by (apply rsum_nonneg; intros; apply Rle_0_sqr).
  assert (E : rsum (fun i => (f i + g i) * (f i + g i)) n = A + 2 * C + B).
  { rewrite (rsum_ext _ (fun i => f i * f i + (2 * (f i * g i) + g i * g i))).
    2: intros; ring. rewrite !rsum_plus, rsum_scal. fold A B C. ring. }
  rewrite E.
  pose proof (cauchy_schwarz f g n) as CS. fold A B C in CS.
  pose proof (sqrt_pos A). pose proof (sqrt_pos B).
  pose proof (sqrt_sqrt A HA). pose proof (sqrt_sqrt B HB).
  rewrite <- (sqrt_Rsqr (sqrt A + sqrt B)) by lra.
  apply sqrt_le_1_alt. unfold Rsqr.
  assert (C <= sqrt A * sqrt B).
  { destruct (Rle_dec C 0); [nra|].
    apply Rsqr_incr_0_var; [|nra]. unfold Rsqr.
    replace (sqrt A * sqrt B * (sqrt A * sqrt B)) with ((sqrt A * sqrt A) * (sqrt B * sqrt B)) by ring.
    rewrite H1, H2. exact CS. }
  nra.
Qed.

Lemma dist_triangle dim (p q r : list R) :
  dist RNum dim p r <= dist RNum dim p q + dist RNum dim q r.
Proof.
  unfold dist; simpl. rewrite !distSqr_sum.
  rewrite (rsum_ext _ (fun i => ((@coord RNum p i - @coord RNum q i) + (@coord RNum q i - @coord RNum r i))
                              * ((@coord RNum p i - @coord RNum q i) + (@coord RNum q i - @coord RNum r i))))
    by (intros; ring).
  apply minkowski.
Qed.

Lemma dist_le_sqr dim (p q : list R) c : 0 <= c -> distSqr RNum dim p q <= c * c ->
  dist RNum dim p q <= c.
Proof.
  intros Hc H. unfold dist; simpl. rewrite <- (sqrt_Rsqr c) by auto.
  apply sqrt_le_1_alt. exact H.
Qed.

(** Specification: the Euclidean distance of the first [dim] coordinates,
    independent of the code's loop. *)
Definition edist (dim : nat) (p q : list R) : R :=
  sqrt (rsum (fun i => (nth i p 0 - nth i q 0) ^ 2) dim).

Lemma dist_edist dim (p q : list R) : dist RNum dim p q = edist dim p q.
Proof.
  unfold dist, edist. simpl. rewrite distSqr_sum. f_equal. apply rsum_ext.
  intros i _. unfold coord. simpl. ring.
Qed.
