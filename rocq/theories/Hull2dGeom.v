(** Orientation in the plane, for the hull proofs. *)
From Coq Require Import Reals Lra.
From Verif Require Import Base Num KdModel Hull2dModel.
Set Implicit Arguments.
Local Open Scope R_scope.
Notation pt := (list (nT RNum)).

(** Specification: twice the signed area of the triangle abc. *)
Definition orient (a b c : list R) : R :=
  (nth 0 b 0 - nth 0 a 0) * (nth 1 c 0 - nth 1 a 0) - (nth 1 b 0 - nth 1 a 0) * (nth 0 c 0 - nth 0 a 0).
(** Specification: [p] is a convex combination of [a], [b] and [c]. *)
Definition inTriangle (a b c p : list R) : Prop :=
  exists x y z, 0 <= x /\ 0 <= y /\ 0 <= z /\ x + y + z = 1 /\
    nth 0 p 0 = x * nth 0 a 0 + y * nth 0 b 0 + z * nth 0 c 0 /\
    nth 1 p 0 = x * nth 1 a 0 + y * nth 1 b 0 + z * nth 1 c 0.

Lemma triArea_R (a b c : pt) : triArea RNum a b c = orient a b c.
Proof. reflexivity. Qed.

Lemma orient_aa a p : orient a a p = 0. Proof. unfold orient. ring. Qed.
Lemma orient_ab a b : orient a b b = 0. Proof. unfold orient. ring. Qed.
Lemma orient_aba a b : orient a b a = 0. Proof. unfold orient. ring. Qed.
Lemma orient_swap a b c : orient b a c = - orient a b c. Proof. unfold orient. ring. Qed.
Lemma orient_rot a b c : orient b c a = orient a b c. Proof. unfold orient. ring. Qed.

(** the identity behind the transitivity of "to the left of" *)
Lemma pluck o r a b c :
  orient o a b * orient o r c + orient o b c * orient o r a + orient o c a * orient o r b = 0.
Proof. unfold orient. ring. Qed.

(** seen from [o], a, b, c in an open half-plane *)
Lemma left_trans o r a b c : 0 < orient o r a -> 0 < orient o r b -> 0 < orient o r c ->
  0 < orient o a b -> 0 < orient o b c -> 0 < orient o a c.
Proof.
  intros Ha Hb Hc H1 H2. pose proof (pluck o r a b c) as E.
  replace (orient o c a) with (- orient o a c) in E by (unfold orient; ring).
  apply Rmult_lt_reg_r with (orient o r b); auto. nra.
Qed.

Lemma right_trans l r a b c : 0 < orient l r a -> 0 < orient l r b -> 0 < orient l r c ->
  0 < orient a r b -> 0 < orient b r c -> 0 < orient a r c.
Proof.
  intros Ha Hb Hc H1 H2.
  assert (E : orient a r b * orient l r c + orient b r c * orient l r a = orient a r c * orient l r b) by (unfold orient; ring).
  apply Rmult_lt_reg_r with (orient l r b); auto. nra.
Qed.
Lemma orient_sum l mid r p : orient l r p - orient l mid p - orient mid r p = orient l r mid.
Proof. unfold orient. ring. Qed.

(** mid furthest to the left of l r *)
Lemma max_left_b l r mid m p : 0 < orient l r mid -> orient l r m <= orient l r mid -> orient l r p <= orient l r mid ->
  0 < orient l mid m -> 0 < orient m mid p -> 0 < orient l mid p.
Proof.
  intros H0 Hm Hp H1 H2.
  (* seen from mid with the direction r - l *)
  set (ux := nth 0 r 0 - nth 0 l 0) in *. set (uy := nth 1 r 0 - nth 1 l 0) in *.
  set (ax := nth 0 l 0 - nth 0 mid 0). set (ay := nth 1 l 0 - nth 1 mid 0).
  set (bx := nth 0 m 0 - nth 0 mid 0). set (by_ := nth 1 m 0 - nth 1 mid 0).
  set (wx := nth 0 p 0 - nth 0 mid 0). set (wy := nth 1 p 0 - nth 1 mid 0).
  assert (Ka : ux * ay - uy * ax < 0) by (unfold orient in H0; unfold ux, uy, ax, ay; lra).
  assert (Kb : ux * by_ - uy * bx <= 0) by (unfold orient in Hm; unfold ux, uy, bx, by_; lra).
  assert (Kw : ux * wy - uy * wx <= 0) by (unfold orient in Hp; unfold ux, uy, wx, wy; lra).
  assert (Kba : 0 < bx * ay - by_ * ax) by (unfold orient in H1; unfold bx, by_, ax, ay; lra).
  assert (Kwb : 0 < wx * by_ - wy * bx) by (unfold orient in H2; unfold bx, by_, wx, wy; lra).
  assert (G : 0 < wx * ay - wy * ax).
  { (* (w x b)(u x a) + (b x a)(u x w) + (a x w)(u x b) = 0 *)
    assert (E : (wx * by_ - wy * bx) * (ux * ay - uy * ax) + (bx * ay - by_ * ax) * (ux * wy - uy * wx)
      = (wx * ay - wy * ax) * (ux * by_ - uy * bx)) by ring.
    destruct (Rlt_dec 0 (wx * ay - wy * ax)); auto. nra. }
  unfold orient. unfold wx, wy, ax, ay in G. lra.
Qed.
Lemma max_left_a l r mid m p : 0 < orient l r mid -> orient l r m <= orient l r mid -> orient l r p <= orient l r mid ->
  0 < orient mid r m -> 0 < orient mid m p -> 0 < orient mid r p.
Proof.
  intros H0 Hm Hp H1 H2.
  set (ux := nth 0 r 0 - nth 0 l 0) in *. set (uy := nth 1 r 0 - nth 1 l 0) in *.
  set (ax := nth 0 r 0 - nth 0 mid 0). set (ay := nth 1 r 0 - nth 1 mid 0).
  set (bx := nth 0 m 0 - nth 0 mid 0). set (by_ := nth 1 m 0 - nth 1 mid 0).
  set (wx := nth 0 p 0 - nth 0 mid 0). set (wy := nth 1 p 0 - nth 1 mid 0).
  assert (Ka : ux * ay - uy * ax < 0) by (unfold orient in H0; unfold ux, uy, ax, ay; lra).
  assert (Kb : ux * by_ - uy * bx <= 0) by (unfold orient in Hm; unfold ux, uy, bx, by_; lra).
  assert (Kw : ux * wy - uy * wx <= 0) by (unfold orient in Hp; unfold ux, uy, wx, wy; lra).
  assert (Kba : 0 < ax * by_ - ay * bx) by (unfold orient in H1; unfold bx, by_, ax, ay; lra).
  assert (Kwb : 0 < bx * wy - by_ * wx) by (unfold orient in H2; unfold bx, by_, wx, wy; lra).
  assert (G : 0 < ax * wy - ay * wx).
  { assert (E : (bx * wy - by_ * wx) * (ux * ay - uy * ax) + (ax * by_ - ay * bx) * (ux * wy - uy * wx)
      = (ax * wy - ay * wx) * (ux * by_ - uy * bx)) by ring.
    destruct (Rlt_dec 0 (ax * wy - ay * wx)); auto. nra. }
  unfold orient. unfold wx, wy, ax, ay in G. lra.
Qed.

(** a point outside none of the three edges of a triangle is inside *)
Lemma triangle_in l mid r p : 0 < orient l r mid -> 0 <= orient l r p -> orient l mid p <= 0 -> orient mid r p <= 0 -> inTriangle l mid r p.
Proof.
  intros H0 H1 H2 H3.
  exists (- orient mid r p / orient l r mid), (orient l r p / orient l r mid), (- orient l mid p / orient l r mid).
  assert (D : 0 < / orient l r mid) by (apply Rinv_0_lt_compat; auto).
  assert (S : orient l r p - orient l mid p - orient mid r p = orient l r mid) by (unfold orient; ring).
  unfold Rdiv. repeat split; try nra.
  - rewrite <- !Rmult_plus_distr_r. replace (- orient mid r p + orient l r p + - orient l mid p) with (orient l r mid) by lra.
    apply Rinv_r. lra.
  - apply Rmult_eq_reg_r with (orient l r mid); [|lra]. field_simplify; [|lra]. unfold orient. ring.
  - apply Rmult_eq_reg_r with (orient l r mid); [|lra]. field_simplify; [|lra]. unfold orient. ring.
Qed.

(** on the line: between the lexicographic ends *)
Definition lexle (p q : list R) : Prop := nth 0 p 0 < nth 0 q 0 \/ (nth 0 p 0 = nth 0 q 0 /\ nth 1 p 0 <= nth 1 q 0).
Lemma segment_in l r p : lexle l p -> lexle p r -> orient l r p = 0 -> inTriangle l l r p.
Proof.
  intros H1 H2 H0. unfold inTriangle.
  destruct (Rtotal_order (nth 0 l 0) (nth 0 r 0)) as [Hx|[Hx|Hx]].
  - set (t := (nth 0 p 0 - nth 0 l 0) / (nth 0 r 0 - nth 0 l 0)).
    assert (D : 0 < / (nth 0 r 0 - nth 0 l 0)) by (apply Rinv_0_lt_compat; lra).
    assert (Et : t * (nth 0 r 0 - nth 0 l 0) = nth 0 p 0 - nth 0 l 0) by (unfold t; field; lra).
    exists (1 - t), 0, t. unfold lexle in *.
    assert (0 <= t <= 1).
    { split; [unfold t, Rdiv; apply Rmult_le_pos; lra|]. apply Rmult_le_reg_r with (nth 0 r 0 - nth 0 l 0); [lra|]. rewrite Et. lra. }
    repeat split; try lra.
    apply Rmult_eq_reg_r with (nth 0 r 0 - nth 0 l 0); [|lra]. unfold orient in H0. nra.
  - assert (Hp : nth 0 p 0 = nth 0 l 0) by (unfold lexle in *; lra).
    assert (Hy : nth 1 l 0 <= nth 1 p 0 <= nth 1 r 0) by (unfold lexle in *; lra).
    destruct (Req_dec (nth 1 l 0) (nth 1 r 0)) as [He|He].
    + exists 1, 0, 0. repeat split; lra.
    + set (t := (nth 1 p 0 - nth 1 l 0) / (nth 1 r 0 - nth 1 l 0)).
      assert (D : 0 < / (nth 1 r 0 - nth 1 l 0)) by (apply Rinv_0_lt_compat; lra).
      assert (Et : t * (nth 1 r 0 - nth 1 l 0) = nth 1 p 0 - nth 1 l 0) by (unfold t; field; lra).
      exists (1 - t), 0, t.
      assert (0 <= t <= 1).
      { split; [unfold t, Rdiv; apply Rmult_le_pos; lra|]. apply Rmult_le_reg_r with (nth 1 r 0 - nth 1 l 0); [lra|]. rewrite Et. lra. }
      repeat split; try lra. rewrite Hp, Hx. ring.
  - unfold lexle in *. lra.
Qed.

(** seen from the lexicographic minimum or maximum *)
Lemma lex_trans_min o a b c : lexle o a -> lexle o b -> lexle o c -> 0 < orient o a b -> 0 < orient o b c -> 0 < orient o a c.
Proof.
  unfold lexle, orient. intros Ha Hb Hc H1 H2.
  set (ax := nth 0 a 0 - nth 0 o 0) in *. set (ay := nth 1 a 0 - nth 1 o 0) in *.
  set (bx := nth 0 b 0 - nth 0 o 0) in *. set (by_ := nth 1 b 0 - nth 1 o 0) in *.
  set (cx := nth 0 c 0 - nth 0 o 0) in *. set (cy := nth 1 c 0 - nth 1 o 0) in *.
  assert (Ka : 0 < ax \/ (ax = 0 /\ 0 <= ay)) by (unfold ax, ay; lra).
  assert (Kb : 0 < bx \/ (bx = 0 /\ 0 <= by_)) by (unfold bx, by_; lra).
  assert (Kc : 0 < cx \/ (cx = 0 /\ 0 <= cy)) by (unfold cx, cy; lra).
  clearbody ax ay bx by_ cx cy. clear Ha Hb Hc.
  assert (E : (ax * by_ - ay * bx) * cx + (bx * cy - by_ * cx) * ax = (ax * cy - ay * cx) * bx) by ring.
  assert (E2 : (ax * by_ - ay * bx) * cy + (bx * cy - by_ * cx) * ay = (ax * cy - ay * cx) * by_) by ring.
  destruct Kb as [Kb|[Kb Kb']].
  - assert (0 <= ax /\ 0 <= cx) as [? ?] by lra.
    assert (0 < ax \/ 0 < cx).
    { destruct Ka as [|[Ka Ka']]; auto. destruct Kc as [|[Kc Kc']]; auto. exfalso. rewrite Ka in H1. nra. }
    apply Rmult_lt_reg_r with bx; auto. nra.
  - rewrite Kb in *. exfalso. assert (0 <= cx) by lra. nra.
Qed.
Lemma lex_trans_max o a b c : lexle a o -> lexle b o -> lexle c o -> 0 < orient o a b -> 0 < orient o b c -> 0 < orient o a c.
Proof.
  intros Ha Hb Hc H1 H2.
  set (ng := fun p : list R => [- nth 0 p 0; - nth 1 p 0]).
  assert (E : forall a b c, orient (ng a) (ng b) (ng c) = orient a b c) by (intros; unfold orient, ng; cbn [nth]; ring).
  assert (L : forall p q, lexle p q -> lexle (ng q) (ng p)) by (intros p q; unfold lexle, ng; cbn [nth]; lra).
  rewrite <- E. apply lex_trans_min with (b := ng b); auto; rewrite E; auto.
Qed.
Lemma lex_eq a p p' : lexle a p -> lexle p a -> lexle a p' -> lexle p' a -> nth 0 p 0 = nth 0 p' 0 /\ nth 1 p 0 = nth 1 p' 0.
Proof. unfold lexle. lra. Qed.
