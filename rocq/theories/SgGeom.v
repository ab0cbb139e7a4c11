(** Geometry of the Gabriel graph: closed discs on a diameter and empty circles. *)
From Coq Require Import Reals Lra Psatz.
From Verif Require Import Base Num DelModel DelGeom DelTopo DelFlip DelCav DelEnd DelSpec DelDrive SgSpec.
Set Implicit Arguments.
Local Open Scope R_scope.

(** (x - a) . (x - b): positive iff x is outside the closed disc with diameter a b *)
Definition dotv (a b x : pt) : R := (fst x - fst a) * (fst x - fst b) + (snd x - snd a) * (snd x - snd b).

Lemma dot_mid a b x : dotv a b x = dsq (mid a b) x - dsq (mid a b) a.
Proof. unfold dotv, dsq, mid. cbn [fst snd]. field. Qed.
Lemma dotv_sym a b x : dotv b a x = dotv a b x.
Proof. unfold dotv. ring. Qed.
Lemma incirc_dot a b w x : incirc a b w x = dotv a b w * turn a b x - dotv a b x * turn a b w.
Proof. unfold incirc, sqd, area2, dotv, turn. ring. Qed.
Lemma turn_swap a b x : turn b a x = - turn a b x.
Proof. unfold turn. ring. Qed.

(** A finite set of reals has a least element. *)
Lemma argmin (f : nat -> R) (l : list nat) : l <> [] -> exists x, In x l /\ forall y, In y l -> f x <= f y.
Proof.
  induction l as [|a l IH]; [congruence|]. intros _. destruct l as [|b l]; [exists a; split; [left; auto|intros y [<-|[]]; lra]|].
  destruct IH as (x & Hx & L); [discriminate|]. destruct (Rle_dec (f a) (f x)) as [Q|Q].
  - exists a. split; [left; auto|]. intros y [<-|Hy]; [lra|]. specialize (L y Hy). lra.
  - exists x. split; [right; auto|]. intros y [<-|Hy]; [lra|auto].
Qed.

Section Ring.
  Variables cs sn : nat -> R.
  Hypothesis RG : ring10 cs sn.
  Variable P B : list pt.
  Let n := length P.
  Hypothesis N2 : (2 <= n)%nat.
  Hypothesis RO : ringOf cs sn P B.
  Let V := P ++ B.
  Hypothesis GEN : genPos V n.

  Lemma ring_facts : @boundaryPoints RNum cs sn P 10 = Ok B /\ length V = (n + 10)%nat /\
    (forall i, (i < n)%nat -> at_ V i = at_ P i) /\
    (forall u, (u < n)%nat -> inRing V n (at_ V u)) /\
    (forall u v w, (u < n)%nat -> (v < n)%nat -> (n <= w < n + 10)%nat -> 0 < dotv (at_ V u) (at_ V v) (at_ V w)).
  Proof.
    assert (NE : P <> []) by (intros ->; cbn in *; lia).
    destruct (ringOf_ok cs sn NE) as (B' & EB & HB). pose proof (proj1 (HB B) RO) as E. subst B'.
    assert (AtP : forall i, (i < n)%nat -> at_ V i = at_ P i) by (intros i Hi; apply (app_nth1 P B); auto).
    split; auto. assert (IDS : Permutation (seq 0 n) (seq 0 n)) by auto.
    destruct (@driver_genpos cs sn RG P N2 B EB GEN (seq 0 n) IDS) as (GP & _ & _ & LV & HU).
    split; auto. split; auto.
    assert (Vp : forall v, (v < n + 10)%nat -> nth (nth v (seq 0 n) v) (P ++ B) (0, 0) = at_ V v).
    { intros v Hv. destruct (le_lt_dec n v) as [Q|Q]; [rewrite (nth_ids_ge IDS Q); auto|]. rewrite seq_nth by auto. auto. }
    split.
    - intros u Hu a Ha. pose proof (inside GP) as I. specialize (I a (next n a) u). unfold ccwv, A2 in I.
      assert (Hb : (next n a < n + 10)%nat) by (unfold next; destruct (Nat.eqb_spec (a + 1) (n + 10)); lia).
      rewrite !Vp in I by lia. apply I; auto. apply HU. split; auto.
    - destruct (@two_pts cs sn P N2 B EB GEN) as (p & q & Hp & Hq & Npq).
      destruct (@ring_ok cs sn P) as (c & rad & B' & EB' & Hr & LB & HBB & HPP); [exists p, q; auto|].
      rewrite EB in EB'. injection EB' as <-. intros u v w Hu Hv Hw.
      assert (Ew : at_ V w = (fst c + rad * cs (w - n)%nat, snd c + rad * sn (w - n)%nat)).
      { unfold at_, V. etransitivity; [apply (app_nth2 P B); lia|]. apply HBB. fold n. lia. }
      assert (Iu : In (at_ V u) P) by (rewrite (AtP u Hu); apply nth_In; auto).
      assert (Iv : In (at_ V v) P) by (rewrite (AtP v Hv); apply nth_In; auto).
      pose proof (HPP _ Iu) as (U1 & U2). pose proof (HPP _ Iv) as (V1 & V2).
      pose proof (@r_unit _ _ RG (w - n)) as UN. specialize (UN ltac:(lia)).
      set (a1 := fst (at_ V u) - fst c) in *. set (a2 := snd (at_ V u) - snd c) in *.
      set (b1 := fst (at_ V v) - fst c) in *. set (b2 := snd (at_ V v) - snd c) in *.
      set (e1 := cs (w - n)%nat) in *. set (e2 := sn (w - n)%nat) in *.
      assert (Ed : dotv (at_ V u) (at_ V v) (at_ V w) = rad * rad * (e1 * e1 + e2 * e2) - rad * (e1 * (a1 + b1) + e2 * (a2 + b2)) + (a1 * b1 + a2 * b2)).
      { unfold dotv. rewrite Ew. cbn [fst snd]. unfold a1, a2, b1, b2. ring. }
      rewrite Ed, UN.
      assert (E1 : -1 <= e1 <= 1) by nra. assert (E2 : -1 <= e2 <= 1) by nra.
      assert (Q1 : e1 * (a1 + b1) <= 3 / 10 * rad) by nra. assert (Q2 : e2 * (a2 + b2) <= 3 / 10 * rad) by nra.
      assert (Q3 : - (9 / 400 * (rad * rad)) <= a1 * b1).
      { assert (0 <= (3 / 20 * rad - a1) * (3 / 20 * rad + b1)) by (apply Rmult_le_pos; lra).
        assert (0 <= (3 / 20 * rad + a1) * (3 / 20 * rad - b1)) by (apply Rmult_le_pos; lra). nra. }
      assert (Q4 : - (9 / 400 * (rad * rad)) <= a2 * b2).
      { assert (0 <= (3 / 20 * rad - a2) * (3 / 20 * rad + b2)) by (apply Rmult_le_pos; lra).
        assert (0 <= (3 / 20 * rad + a2) * (3 / 20 * rad - b2)) by (apply Rmult_le_pos; lra). nra. }
      assert (Q5 : rad * (e1 * (a1 + b1) + e2 * (a2 + b2)) <= rad * (6 / 10 * rad)) by (apply Rmult_le_compat_l; lra).
      nra.
  Qed.

  Let LV : length V = (n + 10)%nat.
  Proof. apply ring_facts. Qed.

  (** Some ring point is to the left of u v. *)
  Lemma ring_left u v : (u < n)%nat -> (v < n)%nat -> u <> v -> exists w, (n <= w < n + 10)%nat /\ 0 < turn (at_ V u) (at_ V v) (at_ V w).
  Proof.
    intros Hu Hv Nuv. destruct ring_facts as (_ & _ & _ & IR & _). specialize (IR u Hu).
    set (h := fun w => - turn (at_ V u) (at_ V v) (at_ V w)).
    set (d := (fst (at_ V v) - fst (at_ V u), snd (at_ V v) - snd (at_ V u))).
    set (p := fun w => fst d * (fst (at_ V w) - fst (at_ V u)) + snd d * (snd (at_ V w) - snd (at_ V u))).
    assert (Dec : (exists w, (n <= w < n + 10)%nat /\ 0 < turn (at_ V u) (at_ V v) (at_ V w)) \/ forall w, (n <= w < n + 10)%nat -> 0 < h w).
    { assert (G : forall k, (k <= 10)%nat -> (exists w, (n <= w < n + k)%nat /\ 0 < turn (at_ V u) (at_ V v) (at_ V w)) \/ forall w, (n <= w < n + k)%nat -> 0 < h w).
      { induction k as [|k IH]; intros Hk; [right; intros w Hw; lia|]. destruct IH as [(w & Hw & T)|IH]; [lia|left; exists w; split; [lia|auto]|].
        destruct (Rlt_dec 0 (turn (at_ V u) (at_ V v) (at_ V (n + k)))) as [Q|Q]; [left; exists (n + k)%nat; split; [lia|auto]|].
        right. intros w Hw. destruct (Nat.eq_dec w (n + k)) as [->|]; [|apply IH; lia]. unfold h.
        pose proof (proj1 GEN u v (n + k)%nat) as N. rewrite LV in N. specialize (N ltac:(lia) ltac:(lia) ltac:(lia) Nuv ltac:(lia) ltac:(lia)). lra. }
      apply G. lia. }
    destruct Dec as [D|D]; auto. exfalso.
    assert (DD : 0 < fst d * fst d + snd d * snd d).
    { pose proof (D n ltac:(lia)) as Q. unfold h, turn in Q. unfold d. cbn [fst snd].
      set (d1 := fst (at_ V v) - fst (at_ V u)) in *. set (d2 := snd (at_ V v) - snd (at_ V u)) in *.
      pose proof (Rle_0_sqr d1) as S1. pose proof (Rle_0_sqr d2) as S2. unfold Rsqr in S1, S2.
      destruct (Req_dec d1 0) as [Z1|Z1]; [|pose proof (Rsqr_pos_lt _ Z1) as S3; unfold Rsqr in S3; lra].
      destruct (Req_dec d2 0) as [Z2|Z2]; [|pose proof (Rsqr_pos_lt _ Z2) as S3; unfold Rsqr in S3; lra]. rewrite Z1, Z2 in Q. lra. }
    assert (Mono : forall a, (n <= a < n + 10)%nat -> p a / h a < p (next n a) / h (next n a)).
    { intros a Ha. assert (Hb : (n <= next n a < n + 10)%nat) by (unfold next; destruct (Nat.eqb_spec (a + 1) (n + 10)); lia).
      pose proof (D a Ha) as H1. pose proof (D _ Hb) as H2. pose proof (IR a Ha) as H3. set (b := next n a) in *.
      assert (E : turn (at_ V a) (at_ V b) (at_ V u) * (fst d * fst d + snd d * snd d) = p b * h a - p a * h b).
      { unfold p, h, d, turn. cbn [fst snd]. ring. }
      assert (Q : p a * h b < p b * h a).
      { pose proof (Rmult_lt_0_compat _ _ H3 DD) as Z. rewrite E in Z. lra. }
      apply Rmult_lt_reg_r with (h a * h b); [apply Rmult_lt_0_compat; auto|].
      replace (p a / h a * (h a * h b)) with (p a * h b) by (field; lra). replace (p b / h b * (h a * h b)) with (p b * h a) by (field; lra). auto. }
    assert (Up : forall k, (k <= 9)%nat -> p n / h n <= p (n + k)%nat / h (n + k)%nat).
    { induction k as [|k IH]; intros Hk; [rewrite Nat.add_0_r; lra|]. specialize (IH ltac:(lia)). pose proof (Mono (n + k)%nat ltac:(lia)) as M.
      unfold next in M. destruct (Nat.eqb_spec (n + k + 1) (n + 10)); [lia|]. replace (n + S k)%nat with (n + k + 1)%nat by lia. lra. }
    pose proof (Up 9%nat ltac:(lia)) as U9. pose proof (Mono (n + 9)%nat ltac:(lia)) as M9. unfold next in M9.
    replace (n + 9 + 1)%nat with (n + 10)%nat in M9 by lia. rewrite Nat.eqb_refl in M9. lra.
  Qed.

  (** A disc with diameter u v that contains no other point gives a triangle with
      an empty circle on the left of u v. *)
  Lemma gabriel_tri u v : (u < n)%nat -> (v < n)%nat -> u <> v ->
    (forall w, (w < n)%nat -> w <> u -> w <> v -> 0 < dotv (at_ V u) (at_ V v) (at_ V w)) -> exists w, delTri V (u, v, w).
  Proof.
    intros Hu Hv Nuv HD. destruct ring_facts as (_ & _ & _ & IR & FAR).
    set (A := fun w => turn (at_ V u) (at_ V v) (at_ V w)). set (D := fun w => dotv (at_ V u) (at_ V v) (at_ V w)).
    assert (Dp : forall w, (w < n + 10)%nat -> w <> u -> w <> v -> 0 < D w).
    { intros w Hw N1 N3. destruct (le_lt_dec n w); [apply FAR; auto|apply HD; auto]. }
    set (L := filter (fun w => if Rlt_dec 0 (A w) then true else false) (seq 0 (n + 10))).
    assert (InL : forall w, In w L <-> (w < n + 10)%nat /\ 0 < A w).
    { intros w. unfold L. rewrite filter_In, in_seq. destruct (Rlt_dec 0 (A w)); split; intros (Q1 & Q2); split; auto; try lia; try discriminate; tauto. }
    assert (NL : L <> []). { destruct (ring_left Hu Hv Nuv) as (w & Hw & Q). intros E. assert (I : In w L) by (apply InL; split; [lia|auto]). rewrite E in I. destruct I. }
    destruct (argmin (fun w => D w / A w) NL) as (w & Iw & Mn). apply InL in Iw. destruct Iw as (Hw & Aw).
    assert (Au : A u = 0) by (unfold A, turn; ring). assert (Av : A v = 0) by (unfold A, turn; ring).
    assert (Nwu : w <> u) by (intros ->; lra). assert (Nwv : w <> v) by (intros ->; lra).
    exists w. unfold delTri. rewrite LV. split; [lia|]. split; [exact Aw|]. intros l Hl I. apply inDisc_iff in I; [|exact Aw].
    rewrite incirc_dot in I. fold (A l) (A w) (D l) (D w) in I. pose proof (Dp w Hw Nwu Nwv) as Dw.
    destruct (Nat.eq_dec l u) as [->|Nu]; [rewrite Au in I; unfold D, dotv in I; nra|].
    destruct (Nat.eq_dec l v) as [->|Nv]; [rewrite Av in I; unfold D, dotv in I; nra|].
    pose proof (Dp l Hl Nu Nv) as Dl. destruct (Rlt_dec 0 (A l)) as [Q|Q].
    - specialize (Mn l (proj2 (InL l) (conj Hl Q))). cbv beta in Mn.
      apply (Rmult_le_compat_r (A w * A l)) in Mn; [|apply Rmult_le_pos; lra].
      replace (D w / A w * (A w * A l)) with (D w * A l) in Mn by (field; lra). replace (D l / A l * (A w * A l)) with (D l * A w) in Mn by (field; lra). lra.
    - assert (D w * A l <= 0) by nra. assert (0 < D l * A w) by (apply Rmult_lt_0_compat; auto). lra.
  Qed.

  (** Conversely: apexes outside the closed disc on both sides keep all points
      outside. *)
  Lemma apex_left u v w x : delTri V (u, v, w) -> (x < length V)%nat -> 0 < dotv (at_ V u) (at_ V v) (at_ V w) ->
    0 < turn (at_ V u) (at_ V v) (at_ V x) -> 0 < dotv (at_ V u) (at_ V v) (at_ V x).
  Proof.
    intros (_ & C & E) Hx Dw Ax. destruct (Rlt_dec 0 (dotv (at_ V u) (at_ V v) (at_ V x))) as [|Q]; auto. exfalso. apply (E x Hx).
    apply inDisc_iff; [exact C|]. rewrite incirc_dot. assert (0 < dotv (at_ V u) (at_ V v) (at_ V w) * turn (at_ V u) (at_ V v) (at_ V x)) by (apply Rmult_lt_0_compat; auto).
    assert (dotv (at_ V u) (at_ V v) (at_ V x) * turn (at_ V u) (at_ V v) (at_ V w) <= 0) by nra. lra.
  Qed.
End Ring.

(** Closed discs on a diameter and lunes *)
Lemma disc_lune beta a b x : 1 <= beta -> dotv a b x <= 0 -> inLune beta a b x.
Proof.
  intros Hb Hd.
  assert (Sq : 0 <= dsq a b).
  { unfold dsq. pose proof (Rle_0_sqr (fst a - fst b)) as S1. pose proof (Rle_0_sqr (snd a - snd b)) as S2. unfold Rsqr in S1, S2. lra. }
  assert (Key : forall c d, (c = a /\ d = b) \/ (c = b /\ d = a) -> sqrt (dsq (centreB beta c d) x) <= beta * sqrt (dsq a b) / 2).
  { intros c d Q. pose proof (sqrt_pos (dsq a b)) as Sp. pose proof (sqrt_sqrt _ Sq) as SS.
    rewrite <- (sqrt_square (beta * sqrt (dsq a b) / 2)) by nra. apply sqrt_le_1_alt.
    replace (beta * sqrt (dsq a b) / 2 * (beta * sqrt (dsq a b) / 2)) with (beta * beta * (sqrt (dsq a b) * sqrt (dsq a b)) / 4) by field. rewrite SS.
    assert (Hd' : dotv c d x <= 0) by (destruct Q as [(-> & ->)|(-> & ->)]; auto; rewrite dotv_sym; auto).
    assert (Es : dsq a b = dsq c d) by (destruct Q as [(-> & ->)|(-> & ->)]; auto; unfold dsq; ring). rewrite Es.
    unfold dotv in Hd'. unfold dsq, centreB. cbn [fst snd]. clear - Hb Hd'.
    set (e1 := (fst d - fst c) / 2). set (e2 := (snd d - snd c) / 2).
    set (y1 := fst x - (fst c + fst d) / 2). set (y2 := snd x - (snd c + snd d) / 2).
    assert (H : y1 * y1 + y2 * y2 <= e1 * e1 + e2 * e2).
    { unfold y1, y2, e1, e2. nra. }
    replace (fst c * (1 - beta / 2) + fst d * (beta / 2) - fst x) with ((beta - 1) * e1 - y1) by (unfold y1, e1; field).
    replace (snd c * (1 - beta / 2) + snd d * (beta / 2) - snd x) with ((beta - 1) * e2 - y2) by (unfold y2, e2; field).
    replace (fst c - fst d) with (- (2 * e1)) by (unfold e1; field). replace (snd c - snd d) with (- (2 * e2)) by (unfold e2; field).
    assert (Z : - (y1 * e1 + y2 * e2) <= e1 * e1 + e2 * e2).
    { pose proof (Rle_0_sqr (y1 + e1)) as S1. pose proof (Rle_0_sqr (y2 + e2)) as S2. unfold Rsqr in S1, S2. lra. }
    assert (Z2 : (beta - 1) * - (y1 * e1 + y2 * e2) <= (beta - 1) * (e1 * e1 + e2 * e2)) by (apply Rmult_le_compat_l; lra). lra. }
  split; apply Key; auto.
Qed.
