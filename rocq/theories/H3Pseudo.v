(** The pseudo hull keeps the extreme points. *)
From Coq Require Import Reals Lra Lia Psatz List Bool Permutation.
From Verif Require Import Base Num Hull2dModel KdBuild H3Brute H3ParHeap H3ParRound H3ParMain H3Model H3Geom H3Surf H3Heap H3Loop H3Init H3Init2 H3Spec H3Final H3Inst H3ParModel H3Sub H3SubDc H3PseudoModel.
Set Implicit Arguments.
Open Scope R_scope.

(** *** Inside a tetrahedron *)
Definition oneSide (a b c d v : p3) : Prop := 0 < svol a b c d * svol a b c v.
Definition inTet (a b c d v : p3) : Prop := oneSide a b c d v /\ oneSide a b d c v /\ oneSide b c d a v /\ oneSide c a d b v.
Lemma svol_bcda a b c d : svol b c d a = - svol a b c d. Proof. sv. Qed.
Lemma svol_cadb' a b c d : svol c a d b = - svol a b c d. Proof. sv. Qed.
Lemma svol_w1 b c d v : svol v b c d = - svol b c d v. Proof. sv. Qed.
Lemma svol_w2 a c d v : svol a v c d = - svol c a d v. Proof. sv. Qed.
Lemma svol_w3 a b d v : svol a b v d = - svol a b d v. Proof. sv. Qed.
Lemma inTet_inner P a b c d v : In a P -> In b P -> In c P -> In d P -> inTet a b c d v -> ~ Extreme P v.
Proof.
  intros A B C D (S0 & S1 & S2 & S3) (_ & nx & ny & nz & H). unfold oneSide in *.
  rewrite (svol_swapd a b c d) in S1. rewrite svol_bcda in S2. rewrite svol_cadb' in S3.
  set (Lf := (- (nx * vx v + ny * vy v + nz * vz v), nx, ny, nz)).
  assert (Lv : aff Lf v = 0) by (unfold Lf, aff; lra).
  assert (Ln : forall q, In q P -> q <> v -> aff Lf q < 0) by (intros q Hq N; specialize (H q Hq N); unfold Lf, aff; lra).
  assert (Na : a <> v) by (intros ->; rewrite svol_a in S0; lra). assert (Nb : b <> v) by (intros ->; rewrite svol_b in S0; lra).
  assert (Nc : c <> v) by (intros ->; rewrite svol_c in S0; lra). assert (Nd : d <> v) by (intros ->; rewrite svol_c in S1; lra).
  pose proof (Ln a A Na) as La. pose proof (Ln b B Nb) as Lb. pose proof (Ln c C Nc) as Lc. pose proof (Ln d D Nd) as Ld.
  pose proof (bary_aff Lf d a b c v) as BA. pose proof (bary_sum d a b c v) as BS. rewrite (svol_w1 b c d v), (svol_w2 a c d v), (svol_w3 a b d v) in BA, BS. rewrite Lv in BA.
  revert S0 S1 S2 S3 BA BS La Lb Lc Ld. generalize (svol a b c d) (svol a b c v) (svol b c d v) (svol c a d v) (svol a b d v) (aff Lf a) (aff Lf b) (aff Lf c) (aff Lf d).
  clear. intros V x0 x2 x3 x1 A B C D S0 S1 S2 S3 BA BS La Lb Lc Ld.
  assert (E0 : (x1 + x2 + x3 - (x0 - V)) * D = 0) by (replace (x1 + x2 + x3 - (x0 - V)) with 0 by lra; ring).
  assert (E : x0 * D = x2 * A + x3 * B + x1 * C) by lra.
  destruct (Rtotal_order V 0) as [N|[N|N]].
  - assert (x0 < 0) by nra. assert (0 < x1) by nra. assert (0 < x2) by nra. assert (0 < x3) by nra. nra.
  - subst. lra.
  - assert (0 < x0) by nra. assert (x1 < 0) by nra. assert (x2 < 0) by nra. assert (x3 < 0) by nra. nra.
Qed.

(** *** Facets turned away from the centre *)
Section Mk.
  Variable eps : R.
  Hypothesis eps0 : 0 <= eps.
  Lemma mk_out x y z w : svol x y z O3 = svol x y z w / 4 -> 4 * eps < Rabs (svol x y z w) ->
    let t := @mkTri RNum eps x y z in
    ht t w < 0 /\ (forall q, isCorner t q <-> q = x \/ q = y \/ q = z) /\ (forall v, ht t v < 0 -> oneSide x y z w v).
  Proof.
    intros E G. unfold mkTri. rewrite det3_R. cbn [nlt RNum]. rewrite E. unfold oneSide.
    assert (SG : 4 * eps < svol x y z w \/ svol x y z w < - (4 * eps)) by (unfold Rabs in G; destruct (Rcase_abs _); lra).
    destruct SG as [SG|SG].
    - replace (Rltb eps (svol x y z w / 4)) with true by (symmetry; apply Rltb_true; lra). cbv zeta. cbn [ht isCorner].
      split; [rewrite svol_swap; lra|]. split; [intros q; tauto|]. intros v Hv. rewrite svol_swap in Hv. nra.
    - replace (Rltb eps (svol x y z w / 4)) with false by (symmetry; apply Rltb_false; lra). cbv zeta. cbn [ht isCorner].
      split; [lra|]. split; [intros q; tauto|]. intros v Hv. nra.
  Qed.

  Definition cornersL (t : tri3) : list p3 := let '(a, b, c) := t in [a; b; c].
  Definition distT (t : tri3) : Prop := let '(a, b, c) := t in a <> b /\ b <> c /\ c <> a.
  Lemma cornersL_in t q : In q (cornersL t) <-> isCorner t q.
  Proof. destruct t as [[a b] c]. cbn. intuition congruence. Qed.
  Lemma mk_dist x y z : distT (x, y, z) -> distT (@mkTri RNum eps x y z).
  Proof. unfold mkTri. destruct (nlt _ _ _); cbn; intuition congruence. Qed.
  Lemma mk_corner x y z q : isCorner (@mkTri RNum eps x y z) q <-> q = x \/ q = y \/ q = z.
  Proof. unfold mkTri. destruct (nlt _ _ _); cbn; tauto. Qed.
  Lemma corner_ht t q : isCorner t q -> ht t q = 0.
  Proof. destruct t as [[a b] c]. cbn. intros [->|[->| ->]]; [apply svol_a|apply svol_b|apply svol_c]. Qed.
  Lemma clear_ht X t q : margin X (4 * eps) -> incl (cornersL t) X -> distT t -> In q X -> ~ isCorner t q -> ht t q <= eps -> ht t q < 0.
  Proof.
    intros M I D Hq N L. destruct t as [[a b] c]. cbn [cornersL distT isCorner ht] in *. destruct D as (D1 & D2 & D3).
    assert (G : 4 * eps < Rabs (svol a b c q)).
    { apply M; auto; try (apply I; cbn; auto; fail); intuition congruence. }
    unfold Rabs in G. destruct (Rcase_abs _); lra.
  Qed.
  Lemma pvisible_iff t p : @pvisible RNum eps t p = true <-> eps < ht t p \/ isCorner t p.
  Proof.
    destruct t as [[a b] c]. unfold pvisible. rewrite vol_R. cbn [nlt RNum]. rewrite !orb_true_iff, !eq3_iff, Rltb_true. cbn [isCorner]. tauto.
  Qed.

  (** *** The furthest point is one that is seen *)
  Variable mx : (p3 -> p3 -> bool) -> list p3 -> nat.
  Hypothesis Hmx : maxel3_ok mx.
  Lemma pfurthest_ok t Q q : In q Q -> eps < ht t q -> In (@pfurthest RNum eps t Q) Q /\ eps < ht t (@pfurthest RNum eps t Q).
  Proof.
    intros Hq Lq. set (g := fun (m : R * p3) p => if Rltb (fst m) (ht t p) then (ht t p, p) else m).
    assert (Eg : forall m, fold_left (fun m p => if nlt RNum (fst m) (@vol RNum t p) then (@vol RNum t p, p) else m) Q m = fold_left g Q m).
    { clear Hq. induction Q as [|p l IH]; intros m; [reflexivity|]. cbn [fold_left]. rewrite IH. unfold g at 2. rewrite vol_R. reflexivity. }
    unfold pfurthest. rewrite Eg. clear Eg.
    assert (G : forall l m, (fst m = eps \/ (In (snd m) Q /\ fst m = ht t (snd m) /\ eps < fst m)) -> incl l Q ->
      (fst (fold_left g l m) = eps \/ (In (snd (fold_left g l m)) Q /\ fst (fold_left g l m) = ht t (snd (fold_left g l m)) /\ eps < fst (fold_left g l m))) /\
      fst m <= fst (fold_left g l m) /\ forall p, In p l -> ht t p <= fst (fold_left g l m)).
    { induction l as [|p l IH]; intros m Hm I; cbn [fold_left].
      - split; auto. split; [apply Rle_refl|]. intros p [].
      - assert (Il : incl l Q) by (intros z Hz; apply I; right; auto).
        assert (Hm' : fst (g m p) = eps \/ (In (snd (g m p)) Q /\ fst (g m p) = ht t (snd (g m p)) /\ eps < fst (g m p))).
        { unfold g. destruct (Rltb (fst m) (ht t p)) eqn:E; auto. apply Rltb_true in E. right. cbn [fst snd].
          split; [apply I; left; auto|]. split; auto. destruct Hm as [Hm|(_ & _ & L)]; lra. }
        assert (Lm : fst m <= fst (g m p) /\ ht t p <= fst (g m p)).
        { unfold g. destruct (Rltb (fst m) (ht t p)) eqn:E; [apply Rltb_true in E|apply Rltb_false in E]; cbn [fst]; lra. }
        destruct (IH (g m p) Hm' Il) as (A & B & C). split; auto. split; [lra|]. intros z [<-|Hz]; [lra|auto]. }
    destruct (G Q (eps, @emptyPt RNum) (or_introl eq_refl) (incl_refl Q)) as (A & _ & C). specialize (C q Hq).
    destruct A as [A|(A & B & L)].
    - exfalso. rewrite A in C. lra.
    - split; [exact A|]. eapply Rlt_le_trans; [exact L|]. apply Req_le. exact B.
  Qed.
  Lemma pfurthestPar_ok t Q q : In q Q -> eps < ht t q -> exists d, @pfurthestPar RNum eps mx t Q = Ok d /\ In d Q /\ eps < ht t d.
  Proof.
    intros Hq Lq. unfold pfurthestPar. destruct (Nat.ltb (@length (v3 (nT RNum)) Q) 1000).
    - eexists. split; [reflexivity|]. eapply pfurthest_ok; eauto.
    - assert (NE : Q <> []) by (intros ->; destruct Hq). destruct (Hmx (fun p => @vol RNum t p) NE) as (b & Eb & Mb).
      exists b. cbn [nlt RNum]. split; [|split].
      + match goal with |- match ?x with _ => _ end = _ => replace x with (Some b) by (symmetry; exact Eb) end. reflexivity.
      + eapply nth_error_In; eauto.
      + specialize (Mb q Hq). rewrite !vol_R in Mb. lra.
  Qed.

  Lemma pclass_vis ts p : forall i t, nth_error ts i = Some t -> @pclass RNum eps ts p = i -> eps < ht t p \/ isCorner t p.
  Proof.
    induction ts as [|u ts IH]; intros [|i] t E C; try discriminate; cbn [pclass nth_error] in *.
    - injection E as <-. destruct (@pvisible RNum eps u p) eqn:V; [|discriminate]. apply pvisible_iff; auto.
    - destruct (@pvisible RNum eps u p) eqn:V; [discriminate|]. injection C as C. eapply IH; eauto.
  Qed.
  Lemma pclass_le ts p : (@pclass RNum eps ts p <= length ts)%nat.
  Proof. induction ts as [|u ts IH]; cbn [pclass length]; [auto|]. destruct (@pvisible RNum eps u p); lia. Qed.
  Lemma pclass_out ts p : @pclass RNum eps ts p = length ts -> forall t, In t ts -> ht t p <= eps /\ ~ isCorner t p.
  Proof.
    induction ts as [|u ts IH]; intros C t Ht; [destruct Ht|]. cbn [pclass length] in C. destruct (@pvisible RNum eps u p) eqn:V; [discriminate|].
    injection C as C. destruct Ht as [<-|Ht]; auto.
    assert (N : ~ (eps < ht u p \/ isCorner u p)) by (rewrite <- pvisible_iff; congruence). split; [apply Rnot_lt_le; tauto|tauto].
  Qed.

  (** *** The recursion *)
  Definition strict (t : tri3) (Q : list p3) : list p3 := filter (fun p => Rltb eps (ht t p)) Q.
  Definition goodQ (fuel : nat) : Prop := forall t Q, NoDup Q -> distT t -> margin (cornersL t ++ Q) (4 * eps) ->
    (forall q, In q Q -> eps < ht t q \/ isCorner t q) -> (length (strict t Q) < fuel)%nat ->
    exists R, @phelper RNum eps mx fuel t Q = Ok R /\ incl R Q /\ forall v, In v Q -> Extreme (cornersL t ++ Q) v -> In v R.
  Lemma branch fuel X ts Q i t : goodQ fuel -> nth_error ts i = Some t -> NoDup Q -> incl (cornersL t) X -> incl Q X -> margin X (4 * eps) -> distT t ->
    (length (strict t (@chunk RNum eps ts Q i)) < fuel)%nat ->
    exists R, @phelper RNum eps mx fuel t (@chunk RNum eps ts Q i) = Ok R /\ incl R (@chunk RNum eps ts Q i) /\
      forall v, In v Q -> @pclass RNum eps ts v = i -> Extreme X v -> In v R.
  Proof.
    intros IH E ND I1 I2 M D L. set (C := @chunk RNum eps ts Q i) in *.
    assert (IC : incl C Q) by (intros x Hx; apply filter_In in Hx; tauto).
    assert (IX : incl (cornersL t ++ C) X) by (apply incl_app; auto; intros x Hx; auto).
    destruct (IH t C) as (R & ER & IR & HR); auto.
    - apply NoDup_filter; auto.
    - eapply margin_incl; eauto.
    - intros q Hq. apply filter_In in Hq. destruct Hq as (_ & Hq). apply Nat.eqb_eq in Hq. eapply pclass_vis; eauto.
    - exists R. split; auto. split; auto. intros v Hv Cv Ev.
      assert (Iv : In v C) by (apply filter_In; split; auto; apply Nat.eqb_eq; auto).
      apply HR; auto. eapply extreme_incl; [exact IX| |exact Ev]. apply in_or_app; auto.
  Qed.
  Lemma extreme_sub P o v : Extreme P v -> Extreme (map (fun p => subR p o) P) (subR v o).
  Proof.
    intros (I & nx & ny & nz & H). split; [apply in_map_iff; eauto|]. exists nx, ny, nz. intros q Hq N. apply in_map_iff in Hq. destruct Hq as (p & <- & Hp).
    assert (Np : p <> v) by congruence. specialize (H p Hp Np). destruct p, v, o. unfold sub3 in *. cbn in *. lra.
  Qed.
  Lemma oneSide_sub a b c d v o : oneSide a b c d v -> oneSide (subR a o) (subR b o) (subR c o) (subR d o) (subR v o).
  Proof. unfold oneSide. now rewrite !svol_sub. Qed.
  Lemma NoDup_sub Q o : NoDup Q -> NoDup (map (fun p => subR p o) Q).
  Proof.
    induction 1 as [|x l N ND IH]; cbn; constructor; auto. intros H. apply in_map_iff in H. destruct H as (y & E & Hy). apply sub_inj in E. subst y. contradiction.
  Qed.

  Lemma some_strict t Q : NoDup Q -> (4 <= length Q)%nat -> (forall q, In q Q -> eps < ht t q \/ isCorner t q) -> exists q, In q Q /\ eps < ht t q.
  Proof.
    intros ND L H. destruct (strict t Q) as [|q l] eqn:E.
    - exfalso. assert (I : incl Q (cornersL t)).
      { intros q Hq. apply cornersL_in. destruct (H q Hq) as [A|A]; auto. exfalso. assert (X : In q (strict t Q)) by (apply filter_In; split; auto; apply Rltb_true; auto). rewrite E in X. exact X. }
      pose proof (NoDup_incl_length ND I) as Le. destruct t as [[a b] c]. cbn in Le. lia.
    - exists q. assert (X : In q (strict t Q)) by (rewrite E; left; auto). apply filter_In in X. destruct X as (X & Y). apply Rltb_true in Y. auto.
  Qed.

  Lemma mapR_parts X (ts : list tri3) (C : nat -> list p3) (h : tri3 -> list p3 -> res (list p3)) (cls : p3 -> nat) (Ext : p3 -> Prop) Q :
    (forall i t, nth_error ts i = Some t -> exists R, h t (C i) = Ok R /\ incl R X /\ forall v, In v Q -> cls v = i -> Ext v -> In v R) ->
    exists l, mapR (fun x => h (snd x) (C (fst x))) (combine (seq 0 (length ts)) ts) = Ok l /\ incl (concat l) X /\
      forall v, In v Q -> (cls v < length ts)%nat -> Ext v -> In v (concat l).
  Proof.
    intros H. destruct (@mapR_all _ _ (fun x => h (snd x) (C (fst x))) (fun x R => incl R X /\ forall v, In v Q -> cls v = fst x -> Ext v -> In v R) (combine (seq 0 (length ts)) ts)) as (l & E & F2).
    { intros [i t] Hx. apply H3Brute.iP_in in Hx. destruct (H i t Hx) as (R & A & B). exists R. auto. }
    exists l. split; auto. split.
    - intros v Hv. apply in_concat in Hv. destruct Hv as (R & HR & Hv). destruct (@F2_r _ _ _ _ _ R F2 HR) as (x & _ & I & _). auto.
    - intros v Hv Lv Ev. destruct (nth_error ts (cls v)) as [t|] eqn:Et; [|apply nth_error_None in Et; lia].
      destruct (@F2_l _ _ _ _ _ (cls v, t) F2) as (R & HR & _ & B); [apply H3Brute.iP_in; auto|]. apply in_concat. exists R. split; auto.
  Qed.

  Lemma helper_ok : forall fuel, goodQ fuel.
  Proof.
    induction fuel as [|fuel IH]; intros [[a b] c] Q ND DT M Vis Lf; [lia|].
    cbn [phelper]. change (nT RNum) with R. destruct (Nat.ltb_spec (length Q) 4) as [L4|L4].
    { exists Q. split; auto. split; [apply incl_refl|auto]. }
    destruct (@some_strict (a, b, c) Q ND L4 Vis) as (q0 & Hq0 & Lq0).
    destruct (@pfurthestPar_ok (a, b, c) Q q0 Hq0 Lq0) as (d & Ed & Hd & Ld).
    match goal with |- context [bind ?x _] => replace x with (Ok d) by (symmetry; exact Ed) end. cbn [bind]. cbv zeta.
    set (o := interior RNum a b c d).
    assert (Z : forall t, ht t O3 = (ht t (subR a o) + ht t (subR b o) + ht t (subR c o) + ht t (subR d o)) / 4) by (intros t; apply cen4_0).
    assert (Nd : ~ isCorner (a, b, c) d) by (intros X; rewrite (@corner_ht _ _ X) in Ld; lra).
    assert (Dab : a <> b /\ b <> c /\ c <> a) by exact DT. assert (Dd : d <> a /\ d <> b /\ d <> c) by (cbn in Nd; tauto).
    assert (Pv : 0 < svol a b c d) by (cbn [ht] in Ld; lra).
    assert (Gv : 4 * eps < Rabs (svol a b c d)).
    { apply M; cbn [cornersL app In]; auto 6; intuition congruence. }
    set (X := map (fun p => subR p o) (cornersL (a, b, c) ++ Q)).
    assert (MX : margin X (4 * eps)) by (apply margin_sub; auto).
    set (Q' := map (fun p : v3 R => subR p o) Q).
    assert (EX : X = [subR a o; subR b o; subR c o] ++ Q') by reflexivity.
    set (a' := subR a o) in *. set (b' := subR b o) in *. set (c' := subR c o) in *. set (d' := subR d o) in *.
    assert (Hd' : In d' Q') by (unfold d', Q'; apply (in_map (fun p => subR p o)); auto).
    assert (D' : a' <> b' /\ b' <> c' /\ c' <> a' /\ d' <> a' /\ d' <> b' /\ d' <> c').
    { repeat split; intros K; apply sub_inj in K; tauto. }
    assert (Gv' : 4 * eps < Rabs (svol a' b' c' d')) by (unfold a', b', c', d'; rewrite svol_sub; auto).
    set (f0 := @mkTri RNum eps a' b' d'). set (f1 := @mkTri RNum eps b' c' d'). set (f2 := @mkTri RNum eps c' a' d').
    assert (O0 : svol a' b' d' O3 = svol a' b' d' c' / 4) by (pose proof (Z (a', b', d')) as Y; cbn [ht] in Y; rewrite Y, svol_a, svol_b, svol_c; lra).
    assert (O1 : svol b' c' d' O3 = svol b' c' d' a' / 4) by (pose proof (Z (b', c', d')) as Y; cbn [ht] in Y; rewrite Y, svol_a, svol_b, svol_c; lra).
    assert (O2 : svol c' a' d' O3 = svol c' a' d' b' / 4) by (pose proof (Z (c', a', d')) as Y; cbn [ht] in Y; rewrite Y, svol_a, svol_b, svol_c; lra).
    assert (G0 : 4 * eps < Rabs (svol a' b' d' c')) by (rewrite svol_swapd, Rabs_Ropp; auto).
    assert (G1 : 4 * eps < Rabs (svol b' c' d' a')) by (rewrite svol_bcda, Rabs_Ropp; auto).
    assert (G2 : 4 * eps < Rabs (svol c' a' d' b')) by (rewrite svol_cadb', Rabs_Ropp; auto).
    pose proof (@mk_out a' b' d' c' O0 G0) as (W0 & C0 & S0). pose proof (@mk_out b' c' d' a' O1 G1) as (W1 & C1 & S1). pose proof (@mk_out c' a' d' b' O2 G2) as (W2 & C2 & S2).
    fold f0 in W0, C0, S0. fold f1 in W1, C1, S1. fold f2 in W2, C2, S2.
    assert (T0 : distT f0) by (apply mk_dist; cbn; intuition congruence). assert (T1 : distT f1) by (apply mk_dist; cbn; intuition congruence). assert (T2 : distT f2) by (apply mk_dist; cbn; intuition congruence).
    set (ts := [f0; f1; f2]).
    assert (IX : forall q, q = a' \/ q = b' \/ q = c' \/ q = d' -> In q X).
    { intros q H. rewrite EX. destruct H as [->|[->|[->| ->]]]; cbn [app In]; auto. }
    assert (FA : forall i t, nth_error ts i = Some t -> distT t /\ incl (cornersL t) X /\ isCorner t d' /\ (ht t a' <= 0 /\ ht t b' <= 0 /\ ht t c' <= 0)).
    { assert (Le : forall t q, isCorner t q \/ ht t q < 0 -> ht t q <= 0) by (intros t q [K|K]; [rewrite (@corner_ht _ _ K)|]; lra).
      intros [|[|[|[|i]]]] t E; try discriminate; injection E as <-.
      - split; auto. split; [intros q Hq; apply cornersL_in, C0 in Hq; apply IX; tauto|]. split; [apply C0; auto|].
        repeat split; apply Le; rewrite ?C0; auto.
      - split; auto. split; [intros q Hq; apply cornersL_in, C1 in Hq; apply IX; tauto|]. split; [apply C1; auto|].
        repeat split; apply Le; rewrite ?C1; auto.
      - split; auto. split; [intros q Hq; apply cornersL_in, C2 in Hq; apply IX; tauto|]. split; [apply C2; auto|].
        repeat split; apply Le; rewrite ?C2; auto. }
    assert (NQ' : NoDup Q') by (apply NoDup_sub; auto).
    assert (IQ' : incl Q' X) by (rewrite EX; intros q Hq; apply in_or_app; auto).
    destruct (@mapR_parts Q' ts (fun i => @chunk RNum eps ts Q' i) (@phelper RNum eps mx fuel) (@pclass RNum eps ts) (Extreme X) Q') as (l & El & Il & Hl).
    { intros i t E. destruct (FA i t E) as (A1 & A2 & A3 & A4 & A5 & A6).
      destruct (@branch fuel X ts Q' i t IH E NQ' A2 IQ' MX A1) as (R & ER & IR & HR).
      - apply Nat.lt_le_trans with (length (strict (a, b, c) Q)); [|lia].
        apply Nat.le_trans with (length (map (fun p => subR p o) (strict (a, b, c) Q))); [|apply Nat.eq_le_incl, map_length].
        change (S (length (strict t (@chunk RNum eps ts Q' i))) <= length (map (fun p => subR p o) (strict (a, b, c) Q)))%nat.
        apply (@NoDup_incl_length _ (d' :: strict t (@chunk RNum eps ts Q' i))).
        + constructor; [|apply NoDup_filter, NoDup_filter; auto]. intros K. apply filter_In in K. destruct K as (_ & K). apply Rltb_true in K. rewrite (@corner_ht _ _ A3) in K. lra.
        + intros q [<-|Hq]; [apply (in_map (fun p => subR p o)); apply filter_In; split; auto; apply Rltb_true; auto|].
          apply filter_In in Hq. destruct Hq as (Hq & Lq). apply Rltb_true in Lq. apply filter_In in Hq. destruct Hq as (Hq & _).
          apply in_map_iff in Hq. destruct Hq as (p & <- & Hp). apply (in_map (fun p => subR p o)). apply filter_In. split; auto. apply Rltb_true.
          destruct (Vis p Hp) as [V|V]; auto. exfalso. cbn [isCorner] in V. destruct V as [->|[->| ->]]; fold a' b' c' in Lq; lra.
      - exists R. split; auto. split; auto. intros q Hq. apply IR in Hq. apply filter_In in Hq. tauto. }
    exists (map (fun p => add3 RNum p o) (concat l)). split; [|split].
    - etransitivity; [apply (f_equal (fun x => bind x _)); exact El|]. reflexivity.
    - intros q Hq. apply in_map_iff in Hq. destruct Hq as (p & <- & Hp). apply Il in Hp. apply in_map_iff in Hp. destruct Hp as (r & <- & Hr). rewrite add_sub. auto.
    - intros v Hv Ev. apply in_map_iff. exists (subR v o). split; [apply add_sub|]. 
      assert (Hv' : In (subR v o) Q') by (apply (in_map (fun p => subR p o)); auto).
      assert (Ev' : Extreme X (subR v o)) by (apply extreme_sub; auto).
      apply Hl; auto. pose proof (pclass_le ts (subR v o)) as Lc. destruct (Nat.eq_dec (@pclass RNum eps ts (subR v o)) (length ts)) as [Ec|Ec]; [|apply Nat.le_neq; split; [exact Lc|exact Ec]]. exfalso.
      pose proof (pclass_out _ _ Ec) as Out. set (v' := subR v o) in *.
      assert (K : forall i t, nth_error ts i = Some t -> ht t v' < 0).
      { intros i t E. destruct (FA i t E) as (A1 & A2 & _). destruct (Out t (nth_error_In _ _ E)) as (B1 & B2). eapply (@clear_ht X); eauto. }
      pose proof (K 0%nat f0 eq_refl) as K0. pose proof (K 1%nat f1 eq_refl) as K1. pose proof (K 2%nat f2 eq_refl) as K2.
      assert (Nv : ~ isCorner (a, b, c) v).
      { destruct (Out f0 (or_introl eq_refl)) as (_ & B0). destruct (Out f1 (or_intror (or_introl eq_refl))) as (_ & B1). rewrite C0 in B0. rewrite C1 in B1.
        intros [->|[->| ->]]; [apply B0|apply B0|apply B1]; auto. }
      destruct (Vis v Hv) as [V|V]; [|contradiction].
      apply (@inTet_inner X a' b' c' d' v'); auto. split; [|split; [|split]]; auto.
      apply oneSide_sub. unfold oneSide. cbn [ht] in V. nra.
  Qed.
End Mk.

(** *** The first four facets *)
Section Top.
  Variable eps : R.
  Hypothesis eps0 : 0 <= eps.
  Variable mm : (p3 -> p3 -> bool) -> list p3 -> nat * nat.
  Variable mx : (p3 -> p3 -> bool) -> list p3 -> nat.
  Hypothesis Hmm : minmax3_ok mm.
  Hypothesis Hmx : maxel3_ok mx.
  Variable P : list p3.
  Hypothesis GP : margin P (4 * eps).
  Hypothesis ND : NoDup P.
  Hypothesis H4 : four_pts P.

  Lemma pseudo_ok fuel : (length P < fuel)%nat ->
    exists R, @pseudoHull RNum eps mm mx fuel P = Ok R /\ incl R P /\ forall v, Extreme P v -> In v R.
  Proof.
    intros Lf. destruct (@simplex_ok P eps eps0 GP H4 mm mx Hmm Hmx) as (c1 & c2 & c3 & c4 & a & b & c & d & E & E1 & E2 & E3 & E4 & Ds).
    unfold pseudoHull. rewrite E. cbn [bind]. change (nT RNum) with R in *.
    assert (At : forall l i p, nth_error l i = Some p -> @at3 RNum l i = Ok p).
    { intros l i p H. unfold at3. replace (@nth_error (v3 (nT RNum)) l i) with (Some p) by (symmetry; exact H). reflexivity. }
    rewrite (At _ _ _ E1), (At _ _ _ E2), (At _ _ _ E3), (At _ _ _ E4). cbn [bind]. cbv zeta.
    set (o := interior RNum a b c d). set (X := @map (v3 R) (v3 R) (fun p : v3 R => subR p o) P).
    assert (Sh : forall i p, nth_error P i = Some p -> nth_error X i = Some (subR p o)) by (intros i p H; unfold X; rewrite nth_error_map; now rewrite H).
    pose proof (Sh _ _ E1) as X1. pose proof (Sh _ _ E2) as X2. pose proof (Sh _ _ E3) as X3. pose proof (Sh _ _ E4) as X4.
    rewrite (At _ _ _ X1), (At _ _ _ X2), (At _ _ _ X3), (At _ _ _ X4). cbn [bind].
    assert (Z : forall t, ht t O3 = (ht t (subR a o) + ht t (subR b o) + ht t (subR c o) + ht t (subR d o)) / 4) by (intros t; apply cen4_0).
    assert (MX : margin X (4 * eps)) by (apply margin_sub; auto).
    set (a' := subR a o) in *. set (b' := subR b o) in *. set (c' := subR c o) in *. set (d' := subR d o) in *.
    destruct Ds as (N1 & N2 & N3 & N4 & N5 & N6).
    assert (D' : a' <> b' /\ a' <> c' /\ a' <> d' /\ b' <> c' /\ b' <> d' /\ c' <> d') by (repeat split; intros K; apply sub_inj in K; tauto).
    assert (I1 : In a' X) by (eapply nth_error_In; eauto). assert (I2 : In b' X) by (eapply nth_error_In; eauto).
    assert (I3 : In c' X) by (eapply nth_error_In; eauto). assert (I4 : In d' X) by (eapply nth_error_In; eauto).
    assert (Gv : 4 * eps < Rabs (svol a' b' c' d')) by (apply MX; tauto).
    set (f0 := @mkTri RNum eps a' b' c'). set (f1 := @mkTri RNum eps a' b' d'). set (f2 := @mkTri RNum eps c' d' b'). set (f3 := @mkTri RNum eps c' d' a').
    assert (O0 : svol a' b' c' O3 = svol a' b' c' d' / 4) by (pose proof (Z (a', b', c')) as Y; cbn [ht] in Y; rewrite Y, svol_a, svol_b, svol_c; lra).
    assert (O1 : svol a' b' d' O3 = svol a' b' d' c' / 4) by (pose proof (Z (a', b', d')) as Y; cbn [ht] in Y; rewrite Y, svol_a, svol_b, svol_c; lra).
    assert (O2 : svol c' d' b' O3 = svol c' d' b' a' / 4) by (pose proof (Z (c', d', b')) as Y; cbn [ht] in Y; rewrite Y, svol_a, svol_b, svol_c; lra).
    assert (O3' : svol c' d' a' O3 = svol c' d' a' b' / 4) by (pose proof (Z (c', d', a')) as Y; cbn [ht] in Y; rewrite Y, svol_a, svol_b, svol_c; lra).
    assert (G1 : 4 * eps < Rabs (svol a' b' d' c')) by (rewrite svol_swapd, Rabs_Ropp; auto).
    assert (G2 : 4 * eps < Rabs (svol c' d' b' a')) by (rewrite svol_cdba, Rabs_Ropp; auto).
    assert (G3 : 4 * eps < Rabs (svol c' d' a' b')) by (rewrite svol_cdab; auto).
    pose proof (@mk_out eps eps0 a' b' c' d' O0 Gv) as (_ & C0 & S0). pose proof (@mk_out eps eps0 a' b' d' c' O1 G1) as (_ & C1 & S1).
    pose proof (@mk_out eps eps0 c' d' b' a' O2 G2) as (_ & C2 & S2). pose proof (@mk_out eps eps0 c' d' a' b' O3' G3) as (_ & C3 & S3).
    fold f0 in C0, S0. fold f1 in C1, S1. fold f2 in C2, S2. fold f3 in C3, S3.
    set (ts := [f0; f1; f2; f3]).
    assert (NX : NoDup X) by (apply NoDup_sub; auto).
    assert (FA : forall i t, nth_error ts i = Some t -> distT t /\ incl (cornersL t) X).
    { intros [|[|[|[|[|i]]]]] t Et; try discriminate; injection Et as <-; (split; [apply mk_dist; cbn; intuition congruence|]); intros q Hq; apply cornersL_in in Hq.
      - apply C0 in Hq. destruct Hq as [->|[->| ->]]; auto.
      - apply C1 in Hq. destruct Hq as [->|[->| ->]]; auto.
      - apply C2 in Hq. destruct Hq as [->|[->| ->]]; auto.
      - apply C3 in Hq. destruct Hq as [->|[->| ->]]; auto. }
    destruct (@mapR_parts X ts (fun i => @chunk RNum eps ts X i) (@phelper RNum eps mx fuel) (@pclass RNum eps ts) (Extreme X) X) as (l & El & Il & Hl).
    { intros i t Et. destruct (FA i t Et) as (A1 & A2).
      destruct (@branch eps mx fuel X ts X i t (@helper_ok eps eps0 mx Hmx fuel) Et NX A2 (incl_refl X) MX A1) as (R & ER & IR & HR).
      - apply Nat.le_lt_trans with (length P); auto. apply Nat.le_trans with (length X); [|unfold X; rewrite map_length; auto].
        apply NoDup_incl_length; [apply NoDup_filter, NoDup_filter; auto|]. intros q Hq. apply filter_In in Hq. destruct Hq as (Hq & _). apply filter_In in Hq. tauto.
      - exists R. split; auto. split; auto. intros q Hq. apply IR in Hq. apply filter_In in Hq. tauto. }
    exists (map (fun p => add3 RNum p o) (concat l)). split; [|split].
    - etransitivity; [apply (f_equal (fun x => bind x _)); exact El|]. reflexivity.
    - intros q Hq. apply in_map_iff in Hq. destruct Hq as (p & <- & Hp). apply Il in Hp. apply in_map_iff in Hp. destruct Hp as (r & <- & Hr). rewrite add_sub. auto.
    - intros v Ev. apply in_map_iff. exists (subR v o). split; [apply add_sub|].
      assert (Hv' : In (subR v o) X) by (apply (in_map (fun p => subR p o)); exact (proj1 Ev)).
      assert (Ev' : Extreme X (subR v o)) by (apply extreme_sub; auto).
      apply Hl; auto. pose proof (pclass_le eps ts (subR v o)) as Lc.
      destruct (Nat.eq_dec (@pclass RNum eps ts (subR v o)) (length ts)) as [Ec|Ec]; [|apply Nat.le_neq; split; [exact Lc|exact Ec]]. exfalso.
      pose proof (pclass_out _ _ _ Ec) as Out. set (v' := subR v o) in *.
      assert (K : forall i t, nth_error ts i = Some t -> ht t v' < 0).
      { intros i t Et. destruct (FA i t Et) as (A1 & A2). destruct (Out t (nth_error_In _ _ Et)) as (B1 & B2). eapply (@clear_ht eps eps0 X); eauto. }
      pose proof (S0 _ (K 0%nat f0 eq_refl)) as K0. pose proof (S1 _ (K 1%nat f1 eq_refl)) as K1.
      pose proof (S2 _ (K 2%nat f2 eq_refl)) as K2. pose proof (S3 _ (K 3%nat f3 eq_refl)) as K3.
      apply (@inTet_inner X a' b' c' d' v'); auto. split; [auto|split; [auto|split]]; unfold oneSide in *.
      + rewrite <- (svol_rot b' c' d' a'), <- (svol_rot b' c' d' v'). exact K2.
      + rewrite (svol_swap c' d' a' b'), (svol_swap c' d' a' v'). lra.
  Qed.
End Top.
