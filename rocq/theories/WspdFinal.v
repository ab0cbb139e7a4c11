(** Separation guarantee over the reals, and decompositions of built trees. *)
From Coq Require Import Reals Lra.
From Verif Require Import Base Num KdModel KdSpec KdBuild KdConstruct RGeom RangeModel RangeProofs KdExtra
  BccpModel DistLaws BccpProofs BccpFinal ParBufModel WspdModel WspdProofs.
Set Implicit Arguments.
Local Open Scope R_scope.

Section Geo.
  Variable dim : nat.
  Notation co p d := (@coord RNum p d).

  Lemma wsSum_rsum f : wsSum RNum dim f = rsum f dim.
  Proof. unfold wsSum. cbn [nadd nzero RNum nT]. rewrite fold_rsum. lra. Qed.

  Definition centre (b : box RNum) : list R := map (boxAvg RNum b) (seq 0 dim).

  Lemma centre_dist b1 b2 : dist RNum dim (centre b1) (centre b2)
    = R_sqrt.sqrt (wsSum RNum dim (fun d => let t := nsub RNum (boxAvg RNum b1 d) (boxAvg RNum b2 d) in nmul RNum t t)).
  Proof.
    unfold dist. cbn [nsqrt RNum]. f_equal. rewrite distSqr_sum, wsSum_rsum. apply rsum_ext.
    intros i Hi. unfold centre. rewrite !coord_map by auto. reflexivity.
  Qed.

  Lemma diam_nonneg b : 0 <= circleDiam RNum dim b.
  Proof. unfold circleDiam. cbn [nsqrt RNum]. apply sqrt_pos. Qed.

  Lemma in_circle b p : inBox dim b p -> dist RNum dim p (centre b) <= circleDiam RNum dim b / 2.
  Proof.
    intros I. pose proof (diam_nonneg b). apply dist_le_sqr; [lra|].
    unfold circleDiam. cbn [nsqrt RNum].
    set (S := wsSum RNum dim (fun d => nmul RNum (boxDiff RNum b d) (boxDiff RNum b d))).
    assert (HS : 0 <= S).
    { unfold S. rewrite wsSum_rsum. apply rsum_nonneg. intros. cbn [nmul RNum]. apply Rle_0_sqr. }
    replace (R_sqrt.sqrt S / 2 * (R_sqrt.sqrt S / 2)) with (1/4 * (R_sqrt.sqrt S * R_sqrt.sqrt S)) by lra.
    rewrite sqrt_sqrt by auto. unfold S. rewrite wsSum_rsum, distSqr_sum, <- rsum_scal.
    apply rsum_le. intros i Hi. unfold centre. rewrite coord_map by auto.
    destruct (I i Hi) as [A B]. cbn [nle RNum] in A, B. rewrite Rleb_true in A, B.
    unfold boxAvg, boxDiff. cbn [nmul nsub nadd ndiv ntwo RNum]. nra.
  Qed.

  Lemma same_side b p p' : inBox dim b p -> inBox dim b p' -> dist RNum dim p p' <= circleDiam RNum dim b.
  Proof.
    intros H1 H2. pose proof (@in_circle b p H1). pose proof (@in_circle b p' H2).
    pose proof (dist_triangle dim p (centre b) p'). rewrite (dist_sym dim (centre b) p') in *. lra.
  Qed.

  Lemma radius_bound b1 b2 : circleDiam RNum dim b1 <= 2 * circleRadius RNum dim b1 b2 /\
    circleDiam RNum dim b2 <= 2 * circleRadius RNum dim b1 b2 /\ 0 <= circleRadius RNum dim b1 b2.
  Proof.
    unfold circleRadius, nmax2. cbn [nlt ndiv ntwo RNum].
    pose proof (diam_nonneg b1). pose proof (diam_nonneg b2).
    destruct (Rltb_spec (circleDiam RNum dim b1) (circleDiam RNum dim b2)); lra.
  Qed.

  Lemma ws_separated s b1 b2 p q : geomWellSeparated RNum dim s b1 b2 = true ->
    inBox dim b1 p -> inBox dim b2 q ->
    s * circleRadius RNum dim b1 b2 <= edist dim p q.
  Proof.
    intros H I1 I2. unfold geomWellSeparated in H. rewrite <- dist_edist.
    pose proof (centre_dist b1 b2) as E. cbn [nsqrt RNum] in H.
    cbv zeta in E, H. rewrite <- E in H. cbn [nle nmul nsub ndiv ntwo RNum] in H. rewrite Rleb_true in H.
    pose proof (@in_circle b1 p I1). pose proof (@in_circle b2 q I2).
    pose proof (dist_triangle dim (centre b1) p (centre b2)). pose proof (dist_triangle dim p q (centre b2)).
    rewrite (dist_sym dim (centre b1) p) in *. lra.
  Qed.

  (** In particular the two sides are far apart compared to their extent. *)
  Lemma ws_spread s b1 b2 p p' q : 0 <= s -> geomWellSeparated RNum dim s b1 b2 = true ->
    inBox dim b1 p -> inBox dim b1 p' -> inBox dim b2 q ->
    s / 2 * edist dim p p' <= edist dim p q.
  Proof.
    intros Hs H I1 I1' I2. pose proof (@ws_separated s b1 b2 p q H I1 I2).
    destruct (radius_bound b1 b2) as (B1 & _ & _).
    pose proof (@same_side b1 p p' I1 I1') as D. rewrite dist_edist in D. nra.
  Qed.
  Lemma ws_spread' s b1 b2 p q q' : 0 <= s -> geomWellSeparated RNum dim s b1 b2 = true ->
    inBox dim b1 p -> inBox dim b2 q -> inBox dim b2 q' ->
    s / 2 * edist dim q q' <= edist dim p q.
  Proof.
    intros Hs H I1 I2 I2'. pose proof (@ws_separated s b1 b2 p q H I1 I2).
    destruct (radius_bound b1 b2) as (_ & B2 & _).
    pose proof (@same_side b2 q q' I2 I2') as D. rewrite dist_edist in D. nra.
  Qed.

  (** Boxes of single points are always separated. *)
  Lemma ws_points s b1 b2 : 
    (forall d, (d < dim)%nat -> co (bmin b1) d = co (bmax b1) d) ->
    (forall d, (d < dim)%nat -> co (bmin b2) d = co (bmax b2) d) ->
    geomWellSeparated RNum dim s b1 b2 = true.
  Proof.
    intros H1 H2.
    assert (Z : forall b, (forall d, (d < dim)%nat -> co (bmin b) d = co (bmax b) d) -> circleDiam RNum dim b = 0).
    { intros b H. unfold circleDiam. cbn [nsqrt RNum]. rewrite wsSum_rsum, rsum_zero; [apply sqrt_0|].
      intros i Hi. unfold boxDiff. cbn [nsub nmul RNum]. rewrite (H i Hi). ring. }
    unfold geomWellSeparated, circleRadius. rewrite !Z by auto.
    unfold nmax2. cbn [nlt ndiv ntwo nle nmul nsub nsqrt RNum]. apply Rleb_true.
    match goal with |- _ <= R_sqrt.sqrt ?x - _ - _ => pose proof (sqrt_pos x) end.
    destruct (Rltb_spec 0 0); lra.
  Qed.
End Geo.

Section Built.
  Variable dim : nat.
  Hypothesis Hdim : (1 <= dim)%nat.
  Variable A : Type.
  Variable pt : A -> list (nT RNum).
  Variables (parallel : bool) (workers threshold : nat).
  Hypothesis Hw : (0 < workers)%nat.

  (** With leaf size 1 the decomposition never throws. *)
  Lemma wspd_built_ok leafSize P t s : (1 <= leafSize)%nat -> P <> [] ->
    build RNum dim A pt parallel workers threshold leafSize P = Ok t -> leafSize = 1%nat ->
    exists out, wspdSerial RNum dim A s t = Ok out.
  Proof.
    intros HL HP E ->. apply wspd_total.
    destruct (@build_boxes _ _ R_ordlaws R_span dim A pt parallel workers threshold 1%nat P t
      Hdim HL Hw HP (@okptsR A pt dim P) E) as (_ & H2 & _ & _ & H5 & _).
    assert (Z : forall x, In x (subtrees t) -> isLeaf x = true ->
      forall d, (d < dim)%nat -> coord (bmin (tbox x)) d = coord (bmax (tbox x)) d).
    { intros x Hx Lx d Hd. destruct x as [its b|]; [|discriminate].
      assert (Hs : shape 1 (Leaf its b)) by (eapply shape_subtrees; eauto).
      cbn [shape] in Hs. destruct its as [|z [|]]; simpl in Hs; try lia.
      destruct (H5 _ Hx d Hd) as (_ & (x1 & [<-|[]] & E1) & (x2 & [<-|[]] & E2)).
      rewrite <- E1, <- E2. auto. }
    intros x y Hx Hy Lx Ly. apply ws_points; apply Z; auto.
  Qed.

  Lemma wspd_built_separated leafSize P t s out : (1 <= leafSize)%nat -> P <> [] -> 0 <= s ->
    build RNum dim A pt parallel workers threshold leafSize P = Ok t ->
    wspdSerial RNum dim A s t = Ok out ->
    forall u v, In (u, v) out -> forall p q, In p (items u) -> In q (items v) ->
      s * circleRadius RNum dim (tbox u) (tbox v) <= edist dim (pt p) (pt q) /\
      (forall p', In p' (items u) -> s / 2 * edist dim (pt p) (pt p') <= edist dim (pt p) (pt q)) /\
      (forall q', In q' (items v) -> s / 2 * edist dim (pt q) (pt q') <= edist dim (pt p) (pt q)).
  Proof.
    intros HL HP Hs E Eo u v Huv p q Hp Hq.
    destruct (@build_boxes _ _ R_ordlaws R_span dim A pt parallel workers threshold leafSize P t
      Hdim HL Hw HP (@okptsR A pt dim P) E) as (_ & _ & H3 & _ & _ & _).
    destruct (wspd_cross _ _ _ Eo) as (_ & W & S). specialize (W _ Huv). destruct (S _ Huv) as [Su Sv].
    cbn [fst snd] in *.
    assert (IB : forall n x, In n (subtrees t) -> In x (items n) -> inBox dim (tbox n) (pt x)).
    { intros n x Hn Hx d Hd. apply (H3 n Hn d Hd x Hx). }
    split; [|split].
    - apply ws_separated; auto.
    - intros p' Hp'. eapply ws_spread; eauto.
    - intros q' Hq'. eapply ws_spread'; eauto.
  Qed.
End Built.

Lemma cross_singletons N A (t : tree N A) : shape 1 t -> forall x y, In x (items t) -> In y (items t) ->
  x <> y -> In (x, y) (cross t).
Proof.
  induction t as [its b|b l IHl r IHr]; cbn [shape items cross]; intros HS x y Hx Hy Hne.
  - destruct its as [|z [|]]; simpl in HS; try lia. destruct Hx as [<-|[]], Hy as [<-|[]]. congruence.
  - destruct HS as (_ & Sl & Sr). rewrite !in_app_iff, (in_sym (fun _ _ => true)). cbn [fst snd].
    apply in_app_or in Hx as [Hx|Hx]; apply in_app_or in Hy as [Hy|Hy]; auto.
Qed.

Lemma wspd_covers N dim A (ws : tree N A -> tree N A -> bool) t out :
  computeWspdSerial N dim A ws t = Ok out -> NoDup (items t) ->
  (forall pre L1 mid L2 post x y, leaves t = pre ++ L1 :: mid ++ L2 :: post -> In x L1 -> In y L2 ->
     exists i p, nth_error out i = Some p /\ relates x y p /\
       forall j p', nth_error out j = Some p' -> relates x y p' -> j = i) /\
  (forall p x, In p out -> ~ relates x x p) /\
  (forall p, In p out -> ws (fst p) (snd p) = true /\ In (fst p) (subtrees t) /\ In (snd p) (subtrees t)).
Proof.
  intros E HN. destruct (wspd_unique _ _ _ E HN) as [H1 H2]. destruct (wspd_cross _ _ _ E) as (_ & H3 & H4).
  split; [|split].
  - intros pre L1 mid L2 post x y EL Hx Hy. apply H1.
    exact (proj1 (@cross_complete N A ws t L1 L2 pre mid post x y EL Hx Hy)).
  - intros p x Hp Hr. apply H2 in Hr; auto. exact (@cross_irrefl N A ws t x HN Hr).
  - intros p Hp. split; [apply H3|apply H4]; auto.
Qed.

Lemma wspd_built dim : (1 <= dim)%nat -> forall A (pt : A -> list R) parallel workers threshold P t s,
  (0 < workers)%nat -> P <> [] -> NoDup P ->
  build RNum dim A pt parallel workers threshold 1 P = Ok t ->
  exists out, wspdSerial RNum dim A s t = Ok out /\
    forall x y, In x P -> In y P -> x <> y ->
      exists i p, nth_error out i = Some p /\ relates x y p /\
        forall j p', nth_error out j = Some p' -> relates x y p' -> j = i.
Proof.
  intros Hd A pt par w th P t s Hw HP HN E.
  destruct (@wspd_built_ok dim Hd A pt par w th Hw 1%nat P t s) as (out & Eo); auto.
  exists out. split; auto.
  destruct (@build_boxes _ _ R_ordlaws R_span dim A pt par w th 1%nat P t
      Hd ltac:(lia) Hw HP (@okptsR A pt dim P) E) as (H1 & H2 & _).
  assert (HN' : NoDup (items t)) by (eapply Permutation_NoDup; [symmetry|]; eauto).
  intros x y Hx Hy Hne. destruct (wspd_unique _ _ _ Eo HN') as [H3 _]. apply H3.
  apply cross_singletons; auto; eapply Permutation_in; [symmetry| |symmetry|]; eauto.
Qed.

Lemma wspd_parallel N dim A (ws : tree N A -> tree N A -> bool) cutoff t calls procs logs order :
  PCompute N dim A ws cutoff t calls -> (1 <= procs <= size t)%nat ->
  length logs = procs -> Permutation (concat logs) calls -> (forall w, Permutation (order w) w) ->
  exists out, computeWspdSerial N dim A ws t = Ok out /\
    exists out', wspdCollect _ (size t) procs logs order = Ok (map Some out') /\ Permutation out' out.
Proof.
  intros HP Hp HL HC HO. destruct (pcompute_perm HP) as (out & E & PO).
  exists out. split; auto. exists (concat logs). split; [|rewrite HC; auto].
  apply wspd_collect; auto; lia.
Qed.
