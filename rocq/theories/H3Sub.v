(** Hulls of parts of the points: the extreme points decide the hull. *)
From Coq Require Import Reals Lra Lia List Bool Permutation.
From Verif Require Import Base Num KdModel H3Model H3Geom H3Surf H3Heap H3Loop H3Init H3Spec H3Final.
Set Implicit Arguments.
Open Scope R_scope.

Lemma maxOn X (g : X -> R) l x : In x l -> exists v, In v l /\ forall q, In q l -> g q <= g v.
Proof.
  revert x. induction l as [|y l IH]; intros x Hx; [destruct Hx|]. destruct l as [|z l'].
  - exists y. split; [left; auto|]. intros q [<-|[]]. lra.
  - destruct (IH z (or_introl eq_refl)) as (v & Hv & M). destruct (Rle_dec (g y) (g v)) as [L|L].
    + exists v. split; [right; auto|]. intros q [<-|Hq]; auto.
    + exists y. split; [left; auto|]. intros q [<-|Hq]; [lra|]. specialize (M q Hq). lra.
Qed.

Definition nn (q : p3) : R := vx q * vx q + vy q * vy q + vz q * vz q.
Lemma nn_pos q : 0 <= nn q. Proof. unfold nn. nra. Qed.

(** on each side of a plane with a point there is an extreme point *)
Lemma ext_sign P k q0 : In q0 P -> 0 < aff k q0 -> exists v, Extreme P v /\ 0 < aff k v.
Proof.
  intros I0 A0. destruct k as [[[k0 k1] k2] k3]. set (f := aff (k0, k1, k2, k3)) in *.
  destruct (maxOn nn P q0 I0) as (w & Hw & B). set (C := (nn w + 1) / f q0).
  assert (C0 : 0 < C) by (apply Rdiv_lt_0_compat; auto; pose proof (nn_pos w); lra).
  assert (CE : C * f q0 = nn w + 1) by (unfold C; field; lra).
  destruct (maxOn (fun q => C * f q + nn q) P q0 I0) as (v & Hv & M). exists v.
  assert (Fv : 0 < f v).
  { destruct (Rlt_dec 0 (f v)) as [L|L]; auto. exfalso. pose proof (M q0 I0) as M0. cbv beta in M0. pose proof (B v Hv) as Bv.
    pose proof (nn_pos q0). assert (C * f v <= 0) by nra. lra. }
  split; auto. split; auto. exists (C * k1 + 2 * vx v), (C * k2 + 2 * vy v), (C * k3 + 2 * vz v). intros q Hq Nq.
  pose proof (M q Hq) as Mq. cbv beta in Mq. unfold f, nn in Mq. cbn [aff] in Mq.
  destruct q as [qx qy qz], v as [px py pz]. cbn [vx vy vz] in *.
  assert (D : 0 < (qx - px) * (qx - px) + (qy - py) * (qy - py) + (qz - pz) * (qz - pz)).
  { destruct (Req_dec qx px) as [->|Nx]; [destruct (Req_dec qy py) as [->|Ny]; [destruct (Req_dec qz pz) as [->|Nz]; [congruence|]|]|].
    - pose proof (Rsqr_pos_lt (qz - pz)) as S. pose proof (Rle_0_sqr (px - px)). pose proof (Rle_0_sqr (py - py)). unfold Rsqr in *. lra.
    - pose proof (Rsqr_pos_lt (qy - py)) as S. pose proof (Rle_0_sqr (px - px)). pose proof (Rle_0_sqr (qz - pz)). unfold Rsqr in *. lra.
    - pose proof (Rsqr_pos_lt (qx - px)) as S. pose proof (Rle_0_sqr (qy - py)). pose proof (Rle_0_sqr (qz - pz)). unfold Rsqr in *. lra. }
  clear - Mq D. nra.
Qed.
Lemma ext_svol P a b c q0 : In q0 P -> 0 < svol a b c q0 -> exists v, Extreme P v /\ 0 < svol a b c v.
Proof.
  intros I L. destruct (svol_aff a b c) as (k & Hk). rewrite Hk in L. destruct (ext_sign _ _ _ I L) as (v & E & Lv).
  exists v. rewrite Hk. auto.
Qed.
Lemma ext_off P a b c q0 : In q0 P -> svol a b c q0 <> 0 -> exists v, Extreme P v /\ svol a b c v <> 0.
Proof.
  intros I N. destruct (Rlt_dec 0 (svol a b c q0)) as [L|L].
  - destruct (@ext_svol P a b c q0 I L) as (v & E & Lv). exists v. split; auto. lra.
  - destruct (@ext_svol P a c b q0 I) as (v & E & Lv); [rewrite svol_swap; lra|]. exists v. split; auto. rewrite svol_swap in Lv. lra.
Qed.

Lemma extreme_incl P Q v : incl Q P -> In v Q -> Extreme P v -> Extreme Q v.
Proof. intros I Hv (_ & nx & ny & nz & H). split; auto. exists nx, ny, nz. intros q Hq. apply H. auto. Qed.
Lemma margin_incl P Q e : incl Q P -> margin P e -> margin Q e.
Proof. intros I M a b c d A B C D. apply M; auto. Qed.
Lemma margin_nz P e a b c d : 0 <= e -> margin P e -> In a P -> In b P -> In c P -> In d P ->
  a <> b -> a <> c -> a <> d -> b <> c -> b <> d -> c <> d -> svol a b c d <> 0.
Proof.
  intros E M A B C D N1 N2 N3 N4 N5 N6 Z. specialize (M a b c d A B C D N1 N2 N3 N4 N5 N6). rewrite Z, Rabs_R0 in M. lra.
Qed.

Lemma fourth P x y z : four_pts P -> exists u, In u P /\ u <> x /\ u <> y /\ u <> z.
Proof.
  intros (a & b & c & d & A & B & C & D & N). unfold dist4 in N.
  assert (X : forall q, In q P -> ~ In q [x; y; z] -> exists u, In u P /\ u <> x /\ u <> y /\ u <> z).
  { intros q Hq Nq. exists q. cbn in Nq. intuition congruence. }
  destruct (in_dec p3_eq_dec a [x; y; z]) as [Ia|Na]; [|apply (X a); auto]. destruct (in_dec p3_eq_dec b [x; y; z]) as [Ib|Nb]; [|apply (X b); auto].
  destruct (in_dec p3_eq_dec c [x; y; z]) as [Ic|Nc]; [|apply (X c); auto]. destruct (in_dec p3_eq_dec d [x; y; z]) as [Id|Nd]; [|apply (X d); auto].
  exfalso. assert (ND : NoDup [a; b; c; d]) by (repeat constructor; cbn; intuition congruence).
  pose proof (@NoDup_incl_length _ _ [x; y; z] ND) as L. cbn in L. assert (4 <= 3)%nat; [|lia]. apply L.
  intros q [<-|[<-|[<-|[<-|[]]]]]; auto.
Qed.
Lemma extreme_four P e : 0 <= e -> margin P e -> four_pts P -> exists a b c d, Extreme P a /\ Extreme P b /\ Extreme P c /\ Extreme P d /\ dist4 a b c d.
Proof.
  intros E M H4. pose proof H4 as (p & _ & _ & _ & Hp & _).
  destruct (ext_sign P (1, 0, 0, 0) p Hp) as (x & Ex & _); [cbn; lra|].
  destruct (fourth x x x H4) as (w & Hw & Nw & _ & _). destruct (fourth x w w H4) as (u & Hu & Nu1 & Nu2 & _).
  destruct (fourth x w u H4) as (s & Hs & Ns1 & Ns2 & Ns3).
  pose proof (proj1 Ex) as Hx.
  assert (Y : exists y, Extreme P y /\ svol x w u y <> 0).
  { apply (@ext_off P x w u s Hs). eapply margin_nz; eauto. }
  destruct Y as (y & Ey & Zy). pose proof (proj1 Ey) as Hy.
  assert (Nyx : y <> x) by (intros ->; apply Zy, svol_a).
  destruct (fourth x y y H4) as (w' & Hw' & Nw1 & Nw2 & _). destruct (fourth x y w' H4) as (u' & Hu' & Nu1' & Nu2' & Nu3').
  assert (Y : exists z, Extreme P z /\ svol x y w' z <> 0).
  { apply (@ext_off P x y w' u' Hu'). eapply margin_nz; eauto. }
  destruct Y as (z & Ez & Zz). pose proof (proj1 Ez) as Hz.
  assert (Nzx : z <> x) by (intros ->; apply Zz, svol_a). assert (Nzy : z <> y) by (intros ->; apply Zz, svol_b).
  destruct (fourth x y z H4) as (u2 & Hu2 & A1 & A2 & A3).
  assert (Y : exists d, Extreme P d /\ svol x y z d <> 0).
  { apply (@ext_off P x y z u2 Hu2). eapply margin_nz; eauto. }
  destruct Y as (d & Ed & Zd). exists x, y, z, d.
  assert (d <> x) by (intros ->; apply Zd, svol_a). assert (d <> y) by (intros ->; apply Zd, svol_b). assert (d <> z) by (intros ->; apply Zd, svol_c).
  unfold dist4. intuition congruence.
Qed.

Section Sub.
  Variable P Q : list p3.
  Variable e : R.
  Hypothesis e0 : 0 <= e.
  Hypothesis M : margin P e.
  Hypothesis H4 : four_pts P.
  Hypothesis QP : incl Q P.
  Hypothesis EQ : forall v, Extreme P v -> In v Q.

  Lemma sub_four : four_pts Q.
  Proof.
    destruct (extreme_four e0 M H4) as (a & b & c & d & A & B & C & D & N). exists a, b, c, d.
    split; [apply EQ; auto|]. split; [apply EQ; auto|]. split; [apply EQ; auto|]. split; [apply EQ; auto|exact N].
  Qed.
  Lemma sub_side x y z q : In x P -> In y P -> In z P -> x <> y -> y <> z -> z <> x ->
    (forall q, In q Q -> ~ isCorner (x, y, z) q -> svol x y z q < 0) -> In q P -> ~ isCorner (x, y, z) q -> svol x y z q < 0.
  Proof.
    intros X Y Z N1 N2 N3 H Hq Nq. destruct (Rlt_dec (svol x y z q) 0) as [L|L]; auto. exfalso.
    assert (Np : q <> x /\ q <> y /\ q <> z) by (cbn in Nq; tauto). destruct Np as (A & B & C).
    assert (Nz : svol x y z q <> 0) by (eapply margin_nz; eauto).
    destruct (@ext_svol P x y z q Hq) as (v & Ev & Lv); [lra|].
    assert (Nv : ~ isCorner (x, y, z) v) by (intros [->|[->| ->]]; [rewrite svol_a in Lv|rewrite svol_b in Lv|rewrite svol_c in Lv]; lra).
    specialize (H v (EQ Ev) Nv). lra.
  Qed.
  Lemma sub_facet t : HullFacet P t <-> HullFacet Q t.
  Proof.
    destruct t as [[x y] z]. split.
    - intros HF. assert (Cx : forall w, isCorner (x, y, z) w -> In w Q) by (intros w Hw; apply EQ; eapply facet_extreme; eauto).
      destruct HF as (X & Y & Z & N1 & N2 & N3 & S).
      split; [apply Cx; cbn; auto|]. split; [apply Cx; cbn; auto|]. split; [apply Cx; cbn; auto|].
      split; auto. split; auto. split; auto. destruct S as [S|S]; [left|right]; intros q Hq; apply S; auto.
    - intros (X & Y & Z & N1 & N2 & N3 & S). unfold HullFacet. split; auto. split; auto. split; auto. split; auto. split; auto. split; auto.
      destruct S as [S|S]; [left|right]; intros q Hq Nq.
      + apply sub_side; auto.
      + assert (L : svol x z y q < 0); [|rewrite svol_swap in L; lra].
        assert (Nq' : ~ isCorner (x, z, y) q) by (cbn in *; tauto).
        apply sub_side; auto. intros w Hw Nw. rewrite svol_swap. assert (0 < svol x y z w) by (apply S; auto; cbn in *; tauto). lra.
  Qed.
  Lemma sub_hull L : hull_facets P L <-> hull_facets Q L.
  Proof.
    split; intros (A & B & C); (split; [|split; auto]).
    - intros t Ht. apply sub_facet; auto.
    - intros t Ht. apply B, sub_facet; auto.
    - intros t Ht. apply sub_facet; auto.
    - intros t Ht. apply B, sub_facet; auto.
  Qed.
End Sub.

(** what is lost with an extreme point *)
Lemma lost_extreme P Q e v L : 0 <= e -> margin P e -> four_pts P -> incl Q P -> Extreme P v -> ~ In v Q -> hull_facets Q L ->
  (exists t, HullFacet P t /\ isCorner t v) -> ~ hull_facets P L.
Proof.
  intros E M H4 I Ev Nv (A & _) (t & Ht & Ct) (_ & B & _). destruct (B t Ht) as (u & Hu & S). specialize (A u Hu).
  apply S in Ct. destruct u as [[x y] z]. destruct A as (X & Y & Z & _). apply Nv. destruct Ct as [->|[->| ->]]; auto.
Qed.
