(** The end of the Delaunay triangulation: what the list of triangles is. *)
From Coq Require Import Reals Lra Psatz.
From Verif Require Import Base Num Sched DelModel DelGeom DelTopo DelFlip DelCav DelTree DelRound DelMain DelInit.
Set Implicit Arguments.
Local Open Scope R_scope.

(** *** Circles with a known centre *)
Lemma circ_power a b c d o r : sqd a o = r -> sqd b o = r -> sqd c o = r -> incirc a b c d = (r - sqd d o) * area2 a b c.
Proof.
  intros A B C.
  assert (E : forall x, sqd x o = r -> sqd x d = r + sqd d o - 2 * ((fst x - fst o) * (fst d - fst o) + (snd x - snd o) * (snd d - snd o))).
  { intros x <-. clear. pts. geom. ring. }
  unfold incirc. rewrite (E a A), (E b B), (E c C). clear. pts. geom. ring.
Qed.
Definition centre (a b c : P2) : P2 :=
  let b1 := fst b - fst a in let b2 := snd b - snd a in let c1 := fst c - fst a in let c2 := snd c - snd a in
  let d := 2 * (b1 * c2 - b2 * c1) in
  (fst a + (c2 * (b1 * b1 + b2 * b2) - b2 * (c1 * c1 + c2 * c2)) / d, snd a + (b1 * (c1 * c1 + c2 * c2) - c1 * (b1 * b1 + b2 * b2)) / d).
Lemma centre_ok a b c : area2 a b c <> 0 -> sqd a (centre a b c) = sqd b (centre a b c) /\ sqd a (centre a b c) = sqd c (centre a b c).
Proof. pts. geom. unfold centre. cbn [fst snd]. intros H. split; field; auto. Qed.

Lemma ccw_perm a b c : 0 < area2 a b c -> 0 < area2 b a c -> False.
Proof. rewrite area2_swap. lra. Qed.

Section End.
  Variables n nb : nat.
  Variable vp : nat -> P2.
  Hypothesis GP : genpos n nb vp.
  Notation vok := (vok n nb).
  Notation bnd := (bnd n nb).
  Notation ccwv := (ccwv vp).
  Notation iv := (iv vp).
  Hypothesis N1 : (1 <= n)%nat.
  (** the points are inside the circle of the boundary *)
  Hypothesis Disc : forall a b c p, bnd a -> bnd b -> bnd c -> ccwv a b c -> (p < n)%nat -> 0 < iv a b c p.

  Variable m : mesh.
  Hypothesis G : good n nb vp m (fun v => (v < n)%nat).
  Let D := g_del G.
  Let W := d_wf D.

  Lemma all_alive X : (X < cap m)%nat -> alive m X.
  Proof. intros H. destruct (g_all G H) as [A|(v & H1 & H2 & _)]; auto. lia. Qed.
  Lemma ib_vok v : vok v <-> (v < n)%nat \/ bnd v.
  Proof. unfold DelCav.vok, DelCav.bnd. lia. Qed.

  Lemma end_sound t a b c : tri3 m t a b c -> vok a /\ vok b /\ vok c /\ ccwv a b c /\ forall v, vok v -> iv a b c v <= 0.
  Proof.
    intros T. destruct (tri3_vok D T) as (Va & Vb & Vc). do 3 (split; auto). split; [apply (w_ccw W T)|].
    intros v Hv. apply (d_emp D T). apply ib_vok. auto.
  Qed.

  Lemma end_cover x t : hl n nb vp x -> alive m t -> exists t0, alive m t0 /\ inT vp m x t0.
  Proof. intros H. apply (@reach n nb vp GP m _ D x (fun _ => exists t0, alive m t0 /\ inT vp m x t0)); eauto. Qed.

  Lemma hull_nonneg a b c : hull n nb a b -> vok c -> 0 <= area2 (vp a) (vp b) (vp c).
  Proof.
    intros H V. destruct (Nat.eq_dec c a) as [->|Na]; [rewrite area2_aba; lra|].
    destruct (Nat.eq_dec c b) as [->|Nb]; [rewrite area2_ab; lra|]. left. apply (hull_left GP H V Na Nb).
  Qed.

  Lemma end_complete a b c : vok a -> vok b -> vok c -> ccwv a b c -> (forall v, vok v -> iv a b c v <= 0) -> exists t, tri3 m t a b c.
  Proof.
    intros Va Vb Vc C E. destruct (ccwv_ne C) as (Nab & Nbc & Nac).
    set (x := ((fst (vp a) + fst (vp b) + fst (vp c)) / 3, (snd (vp a) + snd (vp b) + snd (vp c)) / 3)).
    assert (Ax : forall u v, area2 u v x = (area2 u v (vp a) + area2 u v (vp b) + area2 u v (vp c)) / 3).
    { intros u v. unfold x. clear. generalize (vp a) (vp b) (vp c). intros. pts. geom. field. }
    assert (Hx : hl n nb vp x).
    { intros u v H. rewrite Ax. pose proof (hull_nonneg H Va). pose proof (hull_nonneg H Vb). pose proof (hull_nonneg H Vc).
      enough (0 < area2 (vp u) (vp v) (vp a) \/ 0 < area2 (vp u) (vp v) (vp b) \/ 0 < area2 (vp u) (vp v) (vp c)) by lra.
      destruct (Nat.eq_dec a u) as [->|]; [|destruct (Nat.eq_dec a v) as [->|]].
      - right. destruct (Nat.eq_dec b v) as [->|]; [right|left]; apply (hull_left GP H); auto.
      - right. destruct (Nat.eq_dec b u) as [->|]; [right|left]; apply (hull_left GP H); auto.
      - left. apply (hull_left GP H); auto. }
    assert (C0 : (0 < cap m)%nat) by (pose proof (g_cap G); lia).
    destruct (@end_cover x 0 Hx (all_alive C0)) as (t0 & A0 & I0).
    destruct (alive_tri3 A0) as (a' & b' & c' & T). destruct (tri3_hasE T) as (E1 & E2 & E3).
    destruct (end_sound T) as (Va' & Vb' & Vc' & C' & E').
    assert (Pos : 0 < area2 (vp a) (vp b) x /\ 0 < area2 (vp b) (vp c) x /\ 0 < area2 (vp c) (vp a) x).
    { rewrite !Ax. rewrite !area2_ab, !area2_aba. assert (Q : 0 < area2 (vp a) (vp b) (vp c)) by exact C.
      pose proof (area2_rot (vp a) (vp b) (vp c)). pose proof (area2_rot (vp b) (vp c) (vp a)). lra. }
    destruct Pos as (X1 & X2 & X3).
    destruct (@same_circle (vp a) (vp b) (vp c) (vp a') (vp b') (vp c') x) as (Z1 & Z2 & Z3); auto; try (apply E'; auto; fail); try (apply E; auto; fail).
    assert (NB : ~ (bnd a' /\ bnd b' /\ bnd c')).
    { intros (B1 & B2 & B3). pose proof (@Disc a' b' c' 0%nat B1 B2 B3 C' ltac:(lia)). specialize (E' 0%nat). 
      assert (vok 0%nat) by (unfold DelCav.vok; lia). specialize (E' H0). lra. }
    destruct (ccwv_ne C') as (Nab' & Nbc' & Nac').
    assert (Mem : forall v, vok v -> iv a' b' c' v = 0 -> v = a' \/ v = b' \/ v = c').
    { intros v Hv Q. destruct (Nat.eq_dec v a') as [|Q1]; auto. destruct (Nat.eq_dec v b') as [|Q2]; auto. destruct (Nat.eq_dec v c') as [|Q3]; auto.
      exfalso. apply NB. destruct (gp4 GP (a := a') (b := b') (c := c') (d := v)) as (? & ? & ? & _); auto.
      repeat constructor; cbn; intuition. }
    pose proof (Mem a Va Z1) as Ma. pose proof (Mem b Vb Z2) as Mb. pose proof (Mem c Vc Z3) as Mc. clear Mem Z1 Z2 Z3 X1 X2 X3.
    exists t0.
    assert (Sw : ~ ccwv b' a' c').
    { intros Q. unfold DelTopo.ccwv, DelTopo.A2 in *. apply (ccw_perm C' Q). }
    destruct Ma as [Ma|[Ma|Ma]], Mb as [Mb|[Mb|Mb]], Mc as [Mc|[Mc|Mc]]; try congruence; subst a b c;
      first [exact T|exact (tri3_rot T)|exact (tri3_rot (tri3_rot T))
            |exfalso; apply Sw; exact C|exfalso; apply Sw; exact (ccwv_rot C)|exfalso; apply Sw; exact (ccwv_rot (ccwv_rot C))].
  Qed.

  Lemma end_unique t t' a b c a' b' c' : tri3 m t a b c -> tri3 m t' a' b' c' ->
    (a', b', c') = (a, b, c) \/ (a', b', c') = (b, c, a) \/ (a', b', c') = (c, a, b) -> t = t'.
  Proof.
    intros T T' H. assert (T2 : tri3 m t' a b c).
    { destruct H as [H|[H|H]]; injection H as -> -> ->; auto; [apply tri3_rot, tri3_rot; auto|apply tri3_rot; auto]. }
    destruct (tri3_hasE T) as (E & _). destruct (tri3_hasE T2) as (E' & _). apply (w_de W E E').
  Qed.

  Lemma end_opposite t a b : hasE m t a b -> hull n nb a b \/ exists t', hasE m t' b a.
  Proof.
    intros (f & i & E & Hi & <- & <-). apply vxs_some in E as (r & E & <-). pose proof (w_lk W _ E Hi) as L.
    destruct (ng r i) as [y|]; eauto.
  Qed.
End End.
