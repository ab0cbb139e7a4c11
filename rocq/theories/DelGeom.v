(** Geometry of the Delaunay triangulation over the reals: orientation, circles,
    pencils of circles, cones.  No code here. *)
From Coq Require Import Reals Lra Psatz.
From Verif Require Import Base.
Set Implicit Arguments.
Local Open Scope R_scope.

Definition P2 : Type := R * R.

(** Twice the signed area of the triangle a b c: positive iff counterclockwise. *)
Definition area2 (a b c : P2) : R :=
  (fst b - fst a) * (snd c - snd a) - (snd b - snd a) * (fst c - fst a).

(** Squared distance. *)
Definition sqd (a b : P2) : R := (fst a - fst b) * (fst a - fst b) + (snd a - snd b) * (snd a - snd b).

(** Positive iff d is strictly inside the circle through a b c, for a
    counterclockwise triangle. *)
Definition incirc (a b c d : P2) : R :=
  sqd a d * area2 d b c + sqd b d * area2 d c a + sqd c d * area2 d a b.

Ltac geom := unfold incirc, area2, sqd in *; cbn [fst snd] in *.
Ltac pts := repeat match goal with p : P2 |- _ => destruct p end.

(** Two circles through a and b. *)
Lemma pencil a b c d x :
  incirc a b c x * area2 a b d - incirc a b d x * area2 a b c = incirc a b c d * area2 a b x.
Proof. pts. geom. ring. Qed.

Lemma area2_rot a b c : area2 b c a = area2 a b c.
Proof. pts. geom. ring. Qed.
Lemma area2_swap a b c : area2 b a c = - area2 a b c.
Proof. pts. geom. ring. Qed.
Lemma area2_swap23 a b c : area2 a c b = - area2 a b c.
Proof. pts. geom. ring. Qed.
Lemma incirc_rot a b c d : incirc b c a d = incirc a b c d.
Proof. pts. geom. ring. Qed.
Lemma incirc_swap a b c d : incirc b a c d = - incirc a b c d.
Proof. pts. geom. ring. Qed.
Lemma incirc_swap_last a b c d : incirc a b d c = - incirc a b c d.
Proof. pts. geom. ring. Qed.
Lemma incirc_a a b c : incirc a b c a = 0.
Proof. pts. geom. ring. Qed.
Lemma incirc_b a b c : incirc a b c b = 0.
Proof. pts. geom. ring. Qed.
Lemma incirc_c a b c : incirc a b c c = 0.
Proof. pts. geom. ring. Qed.
Lemma area2_aa a b : area2 a a b = 0.
Proof. pts. geom. ring. Qed.
Lemma area2_ab a b : area2 a b b = 0.
Proof. pts. geom. ring. Qed.
Lemma area2_aba a b : area2 a b a = 0.
Proof. pts. geom. ring. Qed.

(** p = (barycentric combination), multiplied by the area. *)
Lemma area2_sum a b c p : area2 a b c = area2 p b c + area2 a p c + area2 a b p.
Proof. pts. geom. ring. Qed.

(** Distance form around corner a. *)
Lemma incirc_corner a b c p :
  incirc a b c p = area2 a p c * sqd a b + area2 a b p * sqd a c - area2 a b c * sqd a p.
Proof. pts. geom. ring. Qed.

(** Plücker relation of the directions from p. *)
Lemma pluecker p a b c x : area2 p a c * area2 p x b = area2 p a x * area2 p c b + area2 p a b * area2 p x c.
Proof. pts. geom. ring. Qed.

Lemma sqd_nonneg a b : 0 <= sqd a b.
Proof. unfold sqd. apply Rplus_le_le_0_compat; apply Rle_0_sqr. Qed.
Lemma sqd_pos a b : a <> b -> 0 < sqd a b.
Proof.
  destruct a as [x y], b as [x' y']. intros H. unfold sqd. cbn [fst snd].
  pose proof (Rle_0_sqr (x - x')) as H1. pose proof (Rle_0_sqr (y - y')) as H2. unfold Rsqr in *.
  destruct (Req_dec x x') as [->|Hx]; [destruct (Req_dec y y') as [->|Hy]; [congruence|]|].
  - assert (0 < (y - y') * (y - y')) by (apply Rsqr_pos_lt; lra). lra.
  - assert (0 < (x - x') * (x - x')) by (apply Rsqr_pos_lt; lra). lra.
Qed.

(** The new triangle on an edge a b of the cavity of p is empty: c is the third
    corner of the removed triangle inside, d that of the triangle outside. *)
Lemma new_empty_in a b c p x : 0 < area2 a b c -> 0 < area2 a b p -> 0 < incirc a b c p ->
  incirc a b c x <= 0 -> 0 <= area2 a b x -> incirc a b p x <= 0.
Proof.
  intros H1 H2 H3 H4 H5. pose proof (pencil a b c p x) as E.
  assert (incirc a b c x * area2 a b p <= 0) by nra.
  assert (0 <= incirc a b c p * area2 a b x) by (apply Rmult_le_pos; lra).
  assert (0 <= - incirc a b p x * area2 a b c -> incirc a b p x <= 0) by (intros; nra).
  nra.
Qed.

Lemma new_empty_out a b d p x : area2 a b d < 0 -> 0 < area2 a b p -> incirc b a d p <= 0 ->
  incirc b a d x <= 0 -> area2 a b x <= 0 -> incirc a b p x <= 0.
Proof.
  intros H1 H2 H3 H4 H5. pose proof (pencil a b d p x) as E.
  rewrite (incirc_swap a b d) in H3, H4.
  assert (0 <= incirc a b d x * area2 a b p) by (apply Rmult_le_pos; lra).
  assert (incirc a b d p * area2 a b x <= 0) by nra.
  nra.
Qed.

(** p lies on the inner side of every edge of its cavity. *)
Lemma cavity_edge_side a b c d p : 0 < area2 a b c -> area2 a b d < 0 -> incirc a b c d <= 0 ->
  0 < incirc a b c p -> incirc b a d p <= 0 -> 0 < area2 a b p.
Proof.
  intros H1 H2 H3 H4 H5. rewrite (incirc_swap a b d) in H5. pose proof (pencil a b c d p) as E.
  destruct (Rlt_le_dec 0 (area2 a b p)) as [H|H]; auto. exfalso.
  assert (incirc a b c p * area2 a b d < 0) by nra.
  assert (0 <= incirc a b d p * area2 a b c) by (apply Rmult_le_pos; lra).
  assert (0 <= incirc a b c d * area2 a b p) by nra. lra.
Qed.

(** A point strictly inside the triangle is strictly inside its circle. *)
Lemma inside_incirc a b c p : 0 < area2 a b p -> 0 < area2 b c p -> 0 < area2 c a p -> 0 < incirc a b c p.
Proof.
  intros H1 H2 H3.
  assert (Ha : 0 < area2 a b c) by (rewrite (area2_sum a b c p); pose proof (area2_rot p b c); pose proof (area2_rot a p c); pose proof (area2_rot c a p); pose proof (area2_rot p c a); pose proof (area2_rot b c p); lra).
  (* incirc * area = sum of products of the partial areas with squared sides *)
  assert (E : incirc a b c p * area2 a b c =
              area2 a b p * area2 b c p * sqd a c + area2 b c p * area2 c a p * sqd a b + area2 c a p * area2 a b p * sqd b c).
  { clear. pts. geom. ring. }
  assert (Hac : 0 < sqd a c).
  { apply sqd_pos. intros ->. rewrite area2_aba in Ha. lra. }
  assert (0 < area2 a b p * area2 b c p * sqd a c) by (apply Rmult_lt_0_compat; [apply Rmult_lt_0_compat|]; lra).
  assert (0 <= area2 b c p * area2 c a p * sqd a b) by (apply Rmult_le_pos; [apply Rmult_le_pos; lra|apply sqd_nonneg]).
  assert (0 <= area2 c a p * area2 a b p * sqd b c) by (apply Rmult_le_pos; [apply Rmult_le_pos; lra|apply sqd_nonneg]).
  nra.
Qed.

(** Beyond two sides of a triangle at a corner means outside the circle. *)
Lemma beyond_two a b c p : 0 < area2 a b c -> area2 a b p <= 0 -> area2 a p c <= 0 -> incirc a b c p <= 0.
Proof.
  intros H1 H2 H3. rewrite incirc_corner.
  pose proof (sqd_nonneg a b). pose proof (sqd_nonneg a c). pose proof (sqd_nonneg a p). nra.
Qed.

(** Inside the circle of (b, a, c) and beyond a b: strictly inside the two other
    sides, seen from p. *)
Lemma cone_apex a b c p : 0 < area2 b a c -> 0 < area2 a b p -> 0 < incirc b a c p ->
  0 < area2 p a c /\ 0 < area2 p c b.
Proof.
  intros H1 H2 H3. split.
  - destruct (Rlt_le_dec 0 (area2 p a c)) as [H|H]; auto. exfalso.
    pose proof (@beyond_two a c b p) as B.
    rewrite (area2_rot b a c) in B. specialize (B H1).
    rewrite <- (area2_rot p a c) in H. specialize (B H).
    assert (E : area2 a p b = - area2 a b p) by (clear; pts; geom; ring). rewrite E in B.
    assert (E2 : incirc a c b p = incirc b a c p) by (clear; pts; geom; ring). rewrite E2 in B. lra.
  - destruct (Rlt_le_dec 0 (area2 p c b)) as [H|H]; auto. exfalso.
    pose proof (@beyond_two b a c p) as B. specialize (B H1).
    assert (E : area2 b a p = - area2 a b p) by (clear; pts; geom; ring). rewrite E in B.
    assert (E3 : area2 b p c = area2 p c b) by (clear; pts; geom; ring). rewrite E3 in B. lra.
Qed.

(** The open cone at p between the rays to a and b. *)
Definition cone (p a b x : P2) : Prop := 0 < area2 p a x /\ 0 < area2 p x b.

Lemma cone_left p a b c x : 0 < area2 p a b -> cone p a b c -> cone p a c x -> cone p a b x.
Proof.
  intros H [H1 H2] [H3 H4]. split; auto. pose proof (pluecker p a b c x) as E. nra.
Qed.
Lemma cone_right p a b c x : 0 < area2 p a b -> cone p a b c -> cone p c b x -> cone p a b x.
Proof.
  intros H [H1 H2] [H3 H4]. split; auto.
  assert (E : area2 p c b * area2 p a x = area2 p a c * area2 p x b + area2 p a b * area2 p c x) by (clear; pts; geom; ring).
  nra.
Qed.
Lemma cone_excl p a b c x : cone p a c x -> cone p c b x -> False.
Proof. intros [H1 H2] [H3 H4]. assert (E : area2 p x c = - area2 p c x) by (clear; pts; geom; ring). lra. Qed.
Lemma cone_irr_left p a b : ~ cone p a b a.
Proof. intros [H _]. rewrite area2_ab in H. lra. Qed.
Lemma cone_irr_right p a b : ~ cone p a b b.
Proof. intros [_ H]. rewrite area2_ab in H. lra. Qed.

(** A walk across an edge a b of the triangle a b c towards p, into b a d, gets
    closer to p: the power of p with respect to the circle does not grow.  The
    powers are compared without division. *)
Lemma walk_power a b c d p : 0 < area2 a b c -> area2 a b d < 0 -> incirc a b c d <= 0 -> area2 a b p <= 0 ->
  incirc a b c p * area2 b a d <= incirc b a d p * area2 a b c.
Proof.
  intros H1 H2 H3 H4. rewrite (incirc_swap a b d), (area2_swap a b d). pose proof (pencil a b c d p) as E.
  assert (0 <= incirc a b c d * area2 a b p) by nra. nra.
Qed.
Lemma walk_power_lt a b c d p : 0 < area2 a b c -> area2 a b d < 0 -> incirc a b c d < 0 -> area2 a b p < 0 ->
  incirc a b c p * area2 b a d < incirc b a d p * area2 a b c.
Proof.
  intros H1 H2 H3 H4. rewrite (incirc_swap a b d), (area2_swap a b d). pose proof (pencil a b c d p) as E.
  assert (0 < incirc a b c d * area2 a b p) by nra. nra.
Qed.

(** The power with its sign changed: larger is closer to p. *)
Definition near (a b c p : P2) : R := incirc a b c p / area2 a b c.
Lemma near_lt a b c a' b' c' p : 0 < area2 a b c -> 0 < area2 a' b' c' ->
  incirc a b c p * area2 a' b' c' < incirc a' b' c' p * area2 a b c -> near a b c p < near a' b' c' p.
Proof.
  intros H1 H2 H. unfold near. apply Rmult_lt_reg_r with (area2 a b c * area2 a' b' c'); [apply Rmult_lt_0_compat; auto|].
  field_simplify; lra.
Qed.
Lemma near_le a b c a' b' c' p : 0 < area2 a b c -> 0 < area2 a' b' c' ->
  incirc a b c p * area2 a' b' c' <= incirc a' b' c' p * area2 a b c -> near a b c p <= near a' b' c' p.
Proof.
  intros H1 H2 H. unfold near. apply Rmult_le_reg_r with (area2 a b c * area2 a' b' c'); [apply Rmult_lt_0_compat; auto|].
  field_simplify; lra.
Qed.
Lemma near_rot a b c p : near b c a p = near a b c p.
Proof. unfold near. rewrite incirc_rot, area2_rot. reflexivity. Qed.

(** The difference of two powers is affine in p: with x in the triangle a b c,
    and in (or on the border of) a' b' c', and no corner strictly inside the
    other circle, the circles are the same. *)
Lemma near_affine a b c a' b' c' x :
  area2 a b c <> 0 -> area2 a' b' c' <> 0 ->
  (near a' b' c' x - near a b c x) * area2 a b c =
    area2 x b c * near a' b' c' a + area2 a x c * near a' b' c' b + area2 a b x * near a' b' c' c.
Proof.
  intros H H'. unfold near. pts. geom. field. split; auto.
Qed.

Lemma same_circle a b c a' b' c' x :
  0 < area2 a b c -> 0 < area2 a' b' c' ->
  0 < area2 a b x -> 0 < area2 b c x -> 0 < area2 c a x ->
  0 <= area2 a' b' x -> 0 <= area2 b' c' x -> 0 <= area2 c' a' x ->
  incirc a' b' c' a <= 0 -> incirc a' b' c' b <= 0 -> incirc a' b' c' c <= 0 ->
  incirc a b c a' <= 0 -> incirc a b c b' <= 0 -> incirc a b c c' <= 0 ->
  incirc a' b' c' a = 0 /\ incirc a' b' c' b = 0 /\ incirc a' b' c' c = 0.
Proof.
  intros H H' X1 X2 X3 Y1 Y2 Y3 A1 A2 A3 B1 B2 B3.
  assert (E1 := near_affine (a:=a) (b:=b) (c:=c) (a':=a') (b':=b') (c':=c') x (Rgt_not_eq _ _ H) (Rgt_not_eq _ _ H')).
  assert (E2 := near_affine (a:=a') (b:=b') (c:=c') (a':=a) (b':=b) (c':=c) x (Rgt_not_eq _ _ H') (Rgt_not_eq _ _ H)).
  assert (R1 : area2 x b c = area2 b c x) by (clear; pts; geom; ring).
  assert (R2 : area2 a x c = area2 c a x) by (clear; pts; geom; ring).
  assert (R3 : area2 x b' c' = area2 b' c' x) by (clear; pts; geom; ring).
  assert (R4 : area2 a' x c' = area2 c' a' x) by (clear; pts; geom; ring).
  rewrite R1, R2 in E1. rewrite R3, R4 in E2.
  assert (D : forall u v w y, 0 < area2 u v w -> incirc u v w y <= 0 -> near u v w y <= 0).
  { intros u v w y Hu Hy. unfold near. apply Rmult_le_reg_r with (area2 u v w); auto. field_simplify; lra. }
  assert (Z : forall u v w y, 0 < area2 u v w -> near u v w y = 0 -> incirc u v w y = 0).
  { intros u v w y Hu Hy. unfold near in Hy. apply Rmult_integral in Hy. destruct Hy as [Hy|Hy]; auto.
    exfalso. revert Hy. apply Rinv_neq_0_compat. lra. }
  pose proof (D _ _ _ _ H' A1) as N1. pose proof (D _ _ _ _ H' A2) as N2. pose proof (D _ _ _ _ H' A3) as N3.
  pose proof (D _ _ _ _ H B1) as M1. pose proof (D _ _ _ _ H B2) as M2. pose proof (D _ _ _ _ H B3) as M3.
  set (f := near a' b' c' x - near a b c x) in *.
  assert (F1 : f <= 0) by nra.
  assert (F2 : near a b c x - near a' b' c' x = - f) by (unfold f; ring). rewrite F2 in E2.
  assert (F3 : 0 <= f) by nra.
  assert (F : f = 0) by lra. rewrite F, Rmult_0_l in E1.
  assert (G1 : area2 b c x * near a' b' c' a <= 0) by nra.
  assert (G2 : area2 c a x * near a' b' c' b <= 0) by nra.
  assert (G3 : area2 a b x * near a' b' c' c <= 0) by nra.
  repeat split; apply Z; auto.
  - assert (area2 b c x * near a' b' c' a = 0) by lra. nra.
  - assert (area2 c a x * near a' b' c' b = 0) by lra. nra.
  - assert (area2 a b x * near a' b' c' c = 0) by lra. nra.
Qed.
