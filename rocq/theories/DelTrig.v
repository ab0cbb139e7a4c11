(** The ten directions of delaunay.cpp 208-209 (cosines and sines of multiples of
    2*3.14159/10) satisfy the hypotheses on the ring. *)
From Coq Require Import Reals Lra Lia Psatz.
From Verif Require Import Base DelSpec DelDrive.
Set Implicit Arguments.
Local Open Scope R_scope.

Definition stepA : R := 314159 / 500000.
Definition csR (i : nat) : R := cos (INR i * stepA).
Definition snR (i : nat) : R := sin (INR i * stepA).

Lemma PI_3 : 3 < PI.
Proof. pose proof PI2_3_2. lra. Qed.

Lemma chord m d v : turn (cos (m - d), sin (m - d)) (cos (m + d), sin (m + d)) v = 2 * sin d * (cos d - (fst v * cos m + snd v * sin m)).
Proof.
  unfold turn. cbn [fst snd]. rewrite cos_minus, sin_minus, cos_plus, sin_plus.
  pose proof (sin2_cos2 m) as E. unfold Rsqr in E. set (c := cos m) in *. set (s := sin m) in *.
  transitivity (2 * sin d * (cos d * (s * s + c * c) - (fst v * c + snd v * s))); [ring|]. rewrite E. ring.
Qed.
Lemma turn3 a b c : a < b -> b < c -> c - a < 2 * PI -> 0 < turn (cos a, sin a) (cos b, sin b) (cos c, sin c).
Proof.
  intros H1 H2 H3. set (m := (a + b) / 2). set (d := (b - a) / 2).
  replace a with (m - d) by (unfold m, d; lra). replace b with (m + d) by (unfold m, d; lra). rewrite chord. cbn [fst snd].
  pose proof (sin_gt_0 d ltac:(unfold d; lra) ltac:(unfold d; lra)).
  replace (cos c * cos m + sin c * sin m) with (cos (c - m)) by (rewrite cos_minus; ring). rewrite form2.
  replace ((d - (c - m)) / 2) with (- ((c - b) / 2)) by (unfold m, d; lra).
  replace ((d + (c - m)) / 2) with ((c - a) / 2) by (unfold m, d; lra). rewrite sin_neg.
  pose proof (sin_gt_0 ((c - b) / 2) ltac:(lra) ltac:(lra)). pose proof (sin_gt_0 ((c - a) / 2) ltac:(lra) ltac:(lra)).
  apply Rmult_lt_0_compat; [lra|]. replace (-2 * - sin ((c - b) / 2) * sin ((c - a) / 2)) with (2 * (sin ((c - b) / 2) * sin ((c - a) / 2))) by ring.
  pose proof (Rmult_lt_0_compat (sin ((c - b) / 2)) (sin ((c - a) / 2))). lra.
Qed.
Lemma cos_low x : 0 < x -> x < PI -> 1 - x * x / 2 <= cos x.
Proof.
  intros H1 H2. pose proof (cos_2a_sin (x / 2)) as E. replace (2 * (x / 2)) with x in E by lra. rewrite E.
  pose proof (sin_lt_x (x / 2) ltac:(lra)). pose proof (sin_gt_0 (x / 2) ltac:(lra) ltac:(lra)). nra.
Qed.
Lemma core_turn m d v : 0 < d -> d <= 47 / 40 -> -3/20 <= fst v <= 3/20 -> -3/20 <= snd v <= 3/20 ->
  0 < turn (cos (m - d), sin (m - d)) (cos (m + d), sin (m + d)) v.
Proof.
  intros H1 H2 Hx Hy. rewrite chord. pose proof PI_3. pose proof (sin_gt_0 d H1 ltac:(lra)). pose proof (cos_low H1 ltac:(lra)) as C.
  assert (D : d * d <= 47 / 40 * (47 / 40)) by nra.
  pose proof (COS_bound m). pose proof (SIN_bound m).
  assert (A : fst v * cos m <= 3 / 20) by nra. assert (B : snd v * sin m <= 3 / 20) by nra.
  apply Rmult_lt_0_compat; lra.
Qed.

Lemma ring10_trig : ring10 csR snR.
Proof.
  constructor.
  - intros i _. unfold csR, snR. pose proof (sin2_cos2 (INR i * stepA)) as E. unfold Rsqr in E. lra.
  - intros i j k H1 H2 H3. unfold csR, snR. assert (S : 0 < stepA) by (unfold stepA; lra). pose proof PI_3.
    apply lt_INR in H1, H2. assert (K : INR k <= 9) by (replace 9 with (INR 9) by (cbn; lra); apply le_INR; lia). pose proof (pos_INR i).
    apply turn3; [apply Rmult_lt_compat_r; auto|apply Rmult_lt_compat_r; auto|]. unfold stepA. nra.
  - intros i v Hi Hx Hy. unfold csR, snR. pose proof PI_3. pose proof PI_4.
    assert (Q : (i < 9 \/ i = 9)%nat) by lia. destruct Q as [Q| ->].
    + rewrite Nat.mod_small by lia. rewrite plus_INR. cbn [INR].
      pose proof (@core_turn (INR i * stepA + stepA / 2) (stepA / 2) v) as C.
      replace (INR i * stepA + stepA / 2 - stepA / 2) with (INR i * stepA) in C by lra.
      replace (INR i * stepA + stepA / 2 + stepA / 2) with ((INR i + 1) * stepA) in C by lra.
      apply C; auto; unfold stepA; lra.
    + change ((9 + 1) mod 10)%nat with 0%nat. replace (INR 9) with 9 by (cbn; lra). cbn [INR].
      pose proof (@core_turn ((9 * stepA + 2 * PI) / 2) ((2 * PI - 9 * stepA) / 2) v) as C.
      replace ((9 * stepA + 2 * PI) / 2 - (2 * PI - 9 * stepA) / 2) with (9 * stepA) in C by lra.
      replace ((9 * stepA + 2 * PI) / 2 + (2 * PI - 9 * stepA) / 2) with (2 * PI) in C by lra.
      rewrite cos_2PI, sin_2PI in C. rewrite Rmult_0_l, cos_0, sin_0. apply C; auto; unfold stepA; lra.
Qed.
