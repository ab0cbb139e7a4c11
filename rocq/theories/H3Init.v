(** The first tetrahedron. *)
From Coq Require Import Reals Lra Lia Psatz List Bool Permutation.
From Verif Require Import Base Num Hull2dModel H3Model H3Geom H3Surf H3Heap H3Edge H3Front H3Link H3Place H3Round H3Loop.
Set Implicit Arguments.
Open Scope R_scope.

Definition dist4 (a b c d : p3) : Prop := a <> b /\ a <> c /\ a <> d /\ b <> c /\ b <> d /\ c <> d.

Lemma svol_cdba a b c d : svol c d b a = - svol a b c d. Proof. sv. Qed.
Lemma svol_cadb a b c d : svol c a d b = - svol a b c d. Proof. sv. Qed.
Lemma svol_adbc a b c d : svol a d b c = svol a b c d. Proof. sv. Qed.
Lemma svol_cbda a b c d : svol c b d a = svol a b c d. Proof. sv. Qed.
Lemma svol_cdab a b c d : svol c d a b = svol a b c d. Proof. sv. Qed.

(** *** Linking the four facets *)
Section Tetra.
  Variable a b c d : p3.
  Hypothesis D : dist4 a b c d.
  Let Nab : eq3 RNum a b = false. Proof. apply eq3_neq; apply D. Qed.
  Let Nac : eq3 RNum a c = false. Proof. apply eq3_neq; apply D. Qed.
  Let Nad : eq3 RNum a d = false. Proof. apply eq3_neq; apply D. Qed.
  Let Nbc : eq3 RNum b c = false. Proof. apply eq3_neq; apply D. Qed.
  Let Nbd : eq3 RNum b d = false. Proof. apply eq3_neq; apply D. Qed.
  Let Ncd : eq3 RNum c d = false. Proof. apply eq3_neq; apply D. Qed.
  Let Nba : eq3 RNum b a = false. Proof. apply eq3_neq, not_eq_sym; apply D. Qed.
  Let Nca : eq3 RNum c a = false. Proof. apply eq3_neq, not_eq_sym; apply D. Qed.
  Let Nda : eq3 RNum d a = false. Proof. apply eq3_neq, not_eq_sym; apply D. Qed.
  Let Ncb : eq3 RNum c b = false. Proof. apply eq3_neq, not_eq_sym; apply D. Qed.
  Let Ndb : eq3 RNum d b = false. Proof. apply eq3_neq, not_eq_sym; apply D. Qed.
  Let Ndc : eq3 RNum d c = false. Proof. apply eq3_neq, not_eq_sym; apply D. Qed.

  Definition link4 (h1 : heap3) : res heap3 :=
    h2 <- linkFacet h1 0 [Some 1; Some 2; Some 3]%nat ;;
    h3 <- linkFacet h2 1 [Some 0; Some 2; Some 3]%nat ;;
    h4 <- linkFacet h3 2 [Some 1; Some 0; Some 3]%nat ;;
    linkFacet h4 3 [Some 1; Some 2; Some 0]%nat.
  Definition F' (x y z : p3) (l1 l2 l3 : option nat) s : option fct3 := Some (Fct RNum x y z l1 l2 l3 s).

  Ltac step := progress (cbn -[eq3 RNum]; rewrite ?eq3_refl, ?Nab, ?Nac, ?Nad, ?Nbc, ?Nbd, ?Ncd, ?Nba, ?Nca, ?Nda, ?Ncb, ?Ndb, ?Ndc).
  Ltac side := match goal with |- context [linkSide ?a ?b ?c ?d ?e ?f] =>
    let E := fresh in eassert (E : linkSide a b c d e f = Ok _);
      [unfold linkSide, linkEdge, findFacet, hasEdge; repeat step; reflexivity | rewrite E; clear E; cbn [bind]] end.
  Lemma link4_pos s0 s1 s2 s3 :
    link4 [F' a c b None None None s0; F' a b d None None None s1; F' c d b None None None s2; F' c a d None None None s3] =
    Ok [F' a c b (Some 3) (Some 2) (Some 1) s0; F' a b d (Some 0) (Some 2) (Some 3) s1;
        F' c d b (Some 3) (Some 1) (Some 0) s2; F' c a d (Some 0) (Some 1) (Some 2) s3]%nat.
  Proof. unfold link4, linkFacet. do 12 side. reflexivity. Qed.
  Lemma link4_neg s0 s1 s2 s3 :
    link4 [F' a b c None None None s0; F' a d b None None None s1; F' c b d None None None s2; F' c d a None None None s3] =
    Ok [F' a b c (Some 1) (Some 2) (Some 3) s0; F' a d b (Some 3) (Some 2) (Some 0) s1;
        F' c b d (Some 0) (Some 1) (Some 3) s2; F' c d a (Some 2) (Some 1) (Some 0) s3]%nat.
  Proof. unfold link4, linkFacet. do 12 side. reflexivity. Qed.

  Lemma lv4 (f0 f1 f2 f3 f : fct3) i : lv [Some f0; Some f1; Some f2; Some f3] i f ->
    (i = 0 /\ f = f0 \/ i = 1 /\ f = f1 \/ i = 2 /\ f = f2 \/ i = 3 /\ f = f3)%nat.
  Proof. unfold lv. destruct i as [|[|[|[|[|i]]]]]; cbn; intros H; inversion H; auto 10. Qed.

  Definition W4 (q : p3) : Prop := q = a \/ q = b \/ q = c \/ q = d.
  Hypothesis Z : forall t, ht t O3 = (ht t a + ht t b + ht t c + ht t d) / 4.

  Ltac fin := cbn [ht]; rewrite ?svol_a, ?svol_b, ?svol_c.
  Ltac enum := unfold F'; intros;
      repeat match goal with L : lv [_; _; _; _] _ _ |- _ => apply lv4 in L; destruct L as [[-> ->]|[[-> ->]|[[-> ->]|[-> ->]]]] end.
  Lemma tetra_pos s0 s1 s2 s3 : 0 < svol a b c d ->
    SInv [F' a c b (Some 3) (Some 2) (Some 1) s0; F' a b d (Some 0) (Some 2) (Some 3) s1;
        F' c d b (Some 3) (Some 1) (Some 0) s2; F' c a d (Some 0) (Some 1) (Some 2) s3]%nat W4.
  Proof.
    intros P.
    assert (E1 : svol a c b d = - svol a b c d) by (apply svol_swap).
    assert (E2 : svol a b d c = - svol a b c d) by (apply svol_swapd).
    assert (E3 : svol c d b a = - svol a b c d) by (apply svol_cdba).
    assert (E4 : svol c a d b = - svol a b c d) by (apply svol_cadb).
    destruct D as (D1 & D2 & D3 & D4 & D5 & D6).
    split.
    - enum; unfold corners in *; cbn [fa fb fc corner] in *; unfold W4; tauto.
    - enum; unfold corners in *; cbn [fa fb fc corner] in *; unfold W4 in *;
        match goal with H : ?q = a \/ _ |- _ => destruct H as [-> | [-> | [-> | ->]]] end; try (exfalso; tauto); cbn [ht]; lra.
    - enum; unfold frot in *; cbn [fa fb fc fab fbc fca] in *.
      all: match goal with H : _ \/ _ |- _ => destruct H as [H|[H|H]]; destruct H as (-> & -> & -> & ->) end.
      all: eexists; eexists; eexists; split; [reflexivity|]; split; [reflexivity|]; cbn [fa fb fc fab fbc fca].
      all: first [left; repeat split; reflexivity | right; left; repeat split; reflexivity | right; right; repeat split; reflexivity].
    - enum; cbn [fa fb fc]; repeat split; auto.
    - enum; auto; exfalso; match goal with H : forall q, corner _ q -> _ |- _ => rename H into H' end; unfold corners in *; cbn [fa fb fc corner] in *;
        first [solve [destruct (H' a) as [?|[?|?]]; [auto|congruence..]] | solve [destruct (H' b) as [?|[?|?]]; [auto|congruence..]] | solve [destruct (H' c) as [?|[?|?]]; [auto|congruence..]] | solve [destruct (H' d) as [?|[?|?]]; [auto|congruence..]]].
    - enum; rewrite Z; unfold corners; cbn [fa fb fc]; fin; lra.
  Qed.
  Lemma tetra_neg s0 s1 s2 s3 : svol a b c d < 0 ->
    SInv [F' a b c (Some 1) (Some 2) (Some 3) s0; F' a d b (Some 3) (Some 2) (Some 0) s1;
        F' c b d (Some 0) (Some 1) (Some 3) s2; F' c d a (Some 2) (Some 1) (Some 0) s3]%nat W4.
  Proof.
    intros P.
    assert (E2 : svol a d b c = svol a b c d) by (apply svol_adbc).
    assert (E3 : svol c b d a = svol a b c d) by (apply svol_cbda).
    assert (E4 : svol c d a b = svol a b c d) by (apply svol_cdab).
    destruct D as (D1 & D2 & D3 & D4 & D5 & D6).
    split.
    - enum; unfold corners in *; cbn [fa fb fc corner] in *; unfold W4; tauto.
    - enum; unfold corners in *; cbn [fa fb fc corner] in *; unfold W4 in *;
        match goal with H : ?q = a \/ _ |- _ => destruct H as [-> | [-> | [-> | ->]]] end; try (exfalso; tauto); cbn [ht]; lra.
    - enum; unfold frot in *; cbn [fa fb fc fab fbc fca] in *.
      all: match goal with H : _ \/ _ |- _ => destruct H as [H|[H|H]]; destruct H as (-> & -> & -> & ->) end.
      all: eexists; eexists; eexists; split; [reflexivity|]; split; [reflexivity|]; cbn [fa fb fc fab fbc fca].
      all: first [left; repeat split; reflexivity | right; left; repeat split; reflexivity | right; right; repeat split; reflexivity].
    - enum; cbn [fa fb fc]; repeat split; auto.
    - enum; auto; exfalso; match goal with H : forall q, corner _ q -> _ |- _ => rename H into H' end; unfold corners in *; cbn [fa fb fc corner] in *;
        first [solve [destruct (H' a) as [?|[?|?]]; [auto|congruence..]] | solve [destruct (H' b) as [?|[?|?]]; [auto|congruence..]] | solve [destruct (H' c) as [?|[?|?]]; [auto|congruence..]] | solve [destruct (H' d) as [?|[?|?]]; [auto|congruence..]]].
    - enum; rewrite Z; unfold corners; cbn [fa fb fc]; fin; lra.
  Qed.
End Tetra.

(** *** Contracts of minmax_element_serial and max_element_serial *)
Definition minmax3_ok (mm : (p3 -> p3 -> bool) -> list p3 -> nat * nat) : Prop := forall (key : p3 -> R) P, P <> [] ->
  exists a b, nth_error P (fst (mm (fun i j => Rltb (key i) (key j)) P)) = Some a /\
              nth_error P (snd (mm (fun i j => Rltb (key i) (key j)) P)) = Some b /\ forall q, In q P -> key a <= key q <= key b.
Definition maxel3_ok (mx : (p3 -> p3 -> bool) -> list p3 -> nat) : Prop := forall (key : p3 -> R) P, P <> [] ->
  exists b, nth_error P (mx (fun i j => Rltb (key i) (key j)) P) = Some b /\ forall q, In q P -> key q <= key b.

Definition four_pts (P : list p3) : Prop := exists a b c d, In a P /\ In b P /\ In c P /\ In d P /\ dist4 a b c d.

Lemma other_pt P (l : list p3) : four_pts P -> (length l < 4)%nat -> exists q, In q P /\ ~ In q l.
Proof.
  intros (a & b & c & d & A & B & C & D & N1 & N2 & N3 & N4 & N5 & N6) L.
  destruct (in_dec p3_eq_dec a l) as [Ia|]; [|eauto]. destruct (in_dec p3_eq_dec b l) as [Ib|]; [|eauto].
  destruct (in_dec p3_eq_dec c l) as [Ic|]; [|eauto]. destruct (in_dec p3_eq_dec d l) as [Id|]; [|eauto]. exfalso.
  assert (X : (length [a; b; c; d] <= length l)%nat); [|cbn in X; lia].
  apply NoDup_incl_length.
  - repeat constructor; cbn; intuition congruence.
  - intros x [<-|[<-|[<-|[<-|[]]]]]; auto.
Qed.

Lemma svol_flat a b c d : vz a = vz d -> vz b = vz d -> vz c = vz d -> svol a b c d = 0.
Proof. unfold svol. intros -> -> ->. ring. Qed.
Lemma cross_svol a b i j : svol a b i j = dot3 RNum (sub3 RNum j i) (cross3 RNum (sub3 RNum a i) (sub3 RNum b i)) * -1.
Proof. destruct a, b, i, j. unfold svol, dot3, cross3, sub3. cbn. ring. Qed.
Lemma length_zero v : length3 RNum v <= 0 -> v = V3 0 0 0.
Proof.
  destruct v as [x y z]. unfold length3, dot3. cbn. intros H.
  assert (E : 0 + x * x + y * y + z * z = 0).
  { assert (Z : sqrt (0 + x * x + y * y + z * z) = 0) by (pose proof (sqrt_pos (0 + x * x + y * y + z * z)); lra). apply sqrt_eq_0 in Z; auto. nra. }
  assert (x = 0) by nra. assert (y = 0) by nra. assert (z = 0) by nra. congruence.
Qed.
Lemma cross_self a b : cross3 RNum (sub3 RNum a a) (sub3 RNum b a) = V3 0 0 0.
Proof. destruct a, b. unfold cross3, sub3. cbn. f_equal; ring. Qed.
Lemma cross_self2 a b : cross3 RNum (sub3 RNum a b) (sub3 RNum b b) = V3 0 0 0.
Proof. destruct a, b. unfold cross3, sub3. cbn. f_equal; ring. Qed.
Lemma length_0 : length3 RNum (V3 0 0 0) = 0.
Proof. unfold length3, dot3. cbn. replace (0 + 0 * 0 + 0 * 0 + 0 * 0) with 0 by ring. apply sqrt_0. Qed.
Lemma av_svol a b c i : abs3 RNum (dot3 RNum (sub3 RNum c i) (cross3 RNum (sub3 RNum a c) (sub3 RNum b c))) = Rabs (svol a b c i).
Proof.
  assert (E : dot3 RNum (sub3 RNum c i) (cross3 RNum (sub3 RNum a c) (sub3 RNum b c)) = svol a b c i).
  { destruct a, b, c, i. unfold svol, dot3, cross3, sub3. cbn. ring. }
  rewrite E. unfold abs3. cbn. destruct (Rltb _ 0) eqn:L; [apply Rltb_true in L|apply Rltb_false in L]; unfold Rabs; destruct (Rcase_abs _); lra.
Qed.

Lemma at_nth X (l : list X) i x : nth_error l i = Some x -> at_ l i = Ok x.
Proof. unfold at_. now intros ->. Qed.

Section Init.
  Variable P : list p3.
  Variable eps : R.
  Hypothesis eps0 : 0 <= eps.
  Hypothesis GP : margin P (4 * eps).
  Hypothesis H4 : four_pts P.
  Variable mm : (p3 -> p3 -> bool) -> list p3 -> nat * nat.
  Variable mx : (p3 -> p3 -> bool) -> list p3 -> nat.
  Hypothesis Hmm : minmax3_ok mm.
  Hypothesis Hmx : maxel3_ok mx.

  Lemma margin_n0 a b c d : In a P -> In b P -> In c P -> In d P -> dist4 a b c d -> svol a b c d <> 0.
  Proof. intros A B C D (N1 & N2 & N3 & N4 & N5 & N6) E. pose proof (GP A B C D N1 N2 N3 N4 N5 N6) as X. rewrite E, Rabs_R0 in X. lra. Qed.

  Lemma simplex_ok : exists c1 c2 c3 c4 p1 p2 p3 p4, @initSimplex RNum mm mx P = Ok (c1, c2, c3, c4) /\
    nth_error P c1 = Some p1 /\ nth_error P c2 = Some p2 /\ nth_error P c3 = Some p3 /\ nth_error P c4 = Some p4 /\ dist4 p1 p2 p3 p4.
  Proof.
    assert (NE : P <> []) by (destruct H4 as (a & _ & _ & _ & A & _); intros ->; destruct A).
    destruct (Hmm (fun p => vx p) NE) as (x0 & x1 & X0 & X1 & HX). destruct (Hmm (fun p => vy p) NE) as (y0 & y1 & Y0 & Y1 & HY).
    destruct (Hmm (fun p => vz p) NE) as (z0 & z1 & Z0 & Z1 & HZ).
    assert (Dz : vz z0 < vz z1).
    { apply Rnot_le_lt. intros L. destruct H4 as (a & b & c & d & A & B & C & D & Ds). apply (margin_n0 A B C D Ds).
      pose proof (HZ a A). pose proof (HZ b B). pose proof (HZ c C). pose proof (HZ d D). apply svol_flat; lra. }
    unfold initSimplex. cbv zeta.
    set (X := mm (fun i j : v3 (nT RNum) => nlt RNum (vx i) (vx j)) P). set (Y := mm (fun i j : v3 (nT RNum) => nlt RNum (vy i) (vy j)) P).
    set (Z := mm (fun i j : v3 (nT RNum) => nlt RNum (vz i) (vz j)) P).
    change (nth_error P (fst X) = Some x0) in X0. change (nth_error P (snd X) = Some x1) in X1.
    change (nth_error P (fst Y) = Some y0) in Y0. change (nth_error P (snd Y) = Some y1) in Y1.
    change (nth_error P (fst Z) = Some z0) in Z0. change (nth_error P (snd Z) = Some z1) in Z1.
    clearbody X Y Z. change (nT RNum) with R.
    rewrite (at_nth _ _ X0), (at_nth _ _ X1), (at_nth _ _ Y0), (at_nth _ _ Y1), (at_nth _ _ Z0), (at_nth _ _ Z1).
    cbn [bind nlt nsub RNum].
    assert (C12 : exists c1 c2 p1 p2, (if Rltb (vy y1 - vy y0) (vx x1 - vx x0) && Rltb (vz z1 - vz z0) (vx x1 - vx x0) then X
      else if Rltb (vx x1 - vx x0) (vy y1 - vy y0) && Rltb (vz z1 - vz z0) (vy y1 - vy y0) then Y else Z) = (c1, c2) /\
      nth_error P c1 = Some p1 /\ nth_error P c2 = Some p2 /\ p1 <> p2).
    { destruct (_ && _) eqn:E1; [|destruct (_ && _) eqn:E2 in |- *].
      - destruct X as [c1 c2]. exists c1, c2, x0, x1. repeat split; auto. intros ->. apply andb_true_iff in E1. destruct E1 as [_ E1]. apply Rltb_true in E1. lra.
      - destruct Y as [c1 c2]. exists c1, c2, y0, y1. repeat split; auto. intros ->. apply andb_true_iff in E2. destruct E2 as [_ E2]. apply Rltb_true in E2. lra.
      - destruct Z as [c1 c2]. exists c1, c2, z0, z1. repeat split; auto. intros ->. lra. }
    destruct C12 as (c1 & c2 & p1 & p2 & E12 & E1 & E2 & N12). rewrite E12. rewrite (at_nth _ _ E1), (at_nth _ _ E2). cbn [bind].
    pose proof (nth_error_In _ _ E1) as I1. pose proof (nth_error_In _ _ E2) as I2.
    destruct (Hmx (fun i => length3 RNum (cross3 RNum (sub3 RNum p1 i) (sub3 RNum p2 i))) NE) as (q3 & E3 & M3).
    set (c3 := mx _ P) in *. rewrite (at_nth _ _ E3). cbn [bind]. pose proof (nth_error_In _ _ E3) as I3.
    destruct (@other_pt P [p1; p2] H4) as (i & Ii & Ni); [cbn; lia|]. destruct (@other_pt P [p1; p2; i] H4) as (j & Ij & Nj); [cbn; lia|].
    assert (L3 : 0 < length3 RNum (cross3 RNum (sub3 RNum p1 q3) (sub3 RNum p2 q3))).
    { apply Rnot_le_lt. intros L. pose proof (M3 i Ii) as Mi. cbn beta in Mi. assert (Z0' : cross3 RNum (sub3 RNum p1 i) (sub3 RNum p2 i) = V3 0 0 0) by (apply length_zero; lra).
      apply (@margin_n0 p1 p2 i j); auto; [cbn in Ni, Nj; unfold dist4; intuition congruence|]. rewrite cross_svol, Z0'. unfold dot3. cbn. ring. }
    assert (N13 : p1 <> q3) by (intros ->; rewrite cross_self, length_0 in L3; lra).
    assert (N23 : p2 <> q3) by (intros ->; rewrite cross_self2, length_0 in L3; lra).
    destruct (Hmx (fun i => abs3 RNum (dot3 RNum (sub3 RNum q3 i) (cross3 RNum (sub3 RNum p1 q3) (sub3 RNum p2 q3)))) NE) as (q4 & E4 & M4).
    set (c4 := mx _ P) in E4, M4.
    destruct (@other_pt P [p1; p2; q3] H4) as (k & Ik & Nk); [cbn; lia|].
    pose proof (M4 k Ik) as Mk. cbn beta in Mk. rewrite !av_svol in Mk.
    assert (Pk : 0 < Rabs (svol p1 p2 q3 k)). { apply Rabs_pos_lt. apply margin_n0; auto. cbn in Nk; unfold dist4; intuition congruence. }
    assert (N4 : svol p1 p2 q3 q4 <> 0) by (intros E; rewrite E, Rabs_R0 in Mk; lra).
    exists c1, c2, c3, c4, p1, p2, q3, q4. split; [reflexivity|]. repeat (split; [assumption|]). unfold dist4.
    repeat split; auto; intros ->; apply N4; [apply svol_a|apply svol_b|apply svol_c].
  Qed.
End Init.
