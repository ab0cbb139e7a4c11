(** C87, C88: the dual-tree nearest-neighbour search on the kd-trees of
    include/batchKdtree and on the logarithmic forest. *)
From Coq Require Import Reals Floats Lra.
From Verif Require Import Base Num FloatNum FloatLaws KeySort KdModel KdSpec RGeom RangeModel RangeProofs KdExtra KnnModel KnnBuf KnnFinal
  BatchSplit BatchAddr BatchModel BatchTree BatchMedian BatchPack BatchErase BatchObj BatchInst BatchRun PropBatch
  LogModel LogPlan LogExec LogInsert LogErase PropLog BatchKnn BatchKnnProofs LogKnn PropBatchKnn DualModel DualProofs DualMain.
Set Implicit Arguments.

Lemma Forall2_weaken B C (P P' : B -> C -> Prop) l r : (forall x y, P x y -> P' x y) -> Forall2 P l r -> Forall2 P' l r.
Proof. intros H. induction 1; constructor; auto. Qed.

(** C87: in every state of the tree reached by insertions and bulk erasures in
    which it holds a point, for every non-empty list of queries, every order
    in which the parallel branches run and every correct nth_element: the
    queries come back rearranged, and each gets k different live items, no
    other live item being closer; with fewer than k live items the search
    throws.  [edist] is the Euclidean distance, [Rfmax] the largest float the
    radii start from. *)
Theorem C87_dual_knn : forall dim A (pt : A -> list R) dflt ls max full build P b e nthel qls qmax qbuild,
  0 < dim -> 1 <= ls -> treeLayout (N := RNum) (fun _ => True) dim pt ls max full build ->
  reach (N := RNum) (fun _ => True) dim pt dflt build full P max b e -> bt_cur b <> 0 ->
  nth_ok (N := RNum) (fun _ => True) nthel ->
  1 <= qls -> treeLayout (N := RNum) (fun _ => True) dim pt qls qmax false qbuild ->
  forall queries k, queries <> [] -> length queries <= qmax -> 1 <= k ->
  (forall q x, In q queries -> In x (blive b) -> edist dim (pt q) (pt x) < Rfmax)%R ->
  (map snd (bEnts 0 b) = blive b /\ NoDup (map fst (bEnts 0 b))) /\
  exists order, Permutation queries order /\
  forall sched,
  (k <= length (blive b) ->
     exists rows, dualKnn (N := RNum) dim pt nthel sched qbuild queries b k = Ok (order, rows) /\
       Forall2 (fun q l => nearest k (fun x => edist dim (pt q) (pt (snd x))) (bEnts 0 b) l) order rows) /\
  (length (blive b) < k -> dualKnn (N := RNum) dim pt nthel sched qbuild queries b k = Throw).
Proof.
  intros dim A pt dflt ls max full build P b e nthel qls qmax qbuild Hd Hl HL R Hne Hn Hql HQL queries k Hqn Hqm Hk Hnear.
  destruct (@reach_inv RNum (fun _ => True) dim A pt dflt build R_ordlaws R_eqlaw Hd max full
              (layout_spec R_ordlaws Hd Hl HL) P b e R) as [[T _ _ _] _].
  split; [split; [apply liveEnts_items|apply liveEnts_NoDup]|].
  destruct (queryTree_ok (pt := pt) Hd Hql HQL Hqn Hqm) as (qt & Q & EQ & HQ).
  exists (bt_items qt). split; [apply HQ|]. intros sched.
  assert (Hlen : length (bt_items qt) <> 0).
  { rewrite <- (Permutation_length (qo_items HQ)). destruct queries; cbn; [congruence|lia]. }
  assert (HT : forall q, In q (bt_items qt) -> okT dim pt (pt q) (0, b)).
  { intros q Hq. split; [exact T|]. split; [exact Hne|]. intros x Hx. rewrite dist_edist. apply Hnear; auto.
    eapply Permutation_in; [symmetry; apply (qo_items HQ)|exact Hq]. }
  pose proof (@dualBase_ok dim A pt nthel Hn k Hk sched queries qt Q HQ b Hlen HT) as H.
  unfold dualKnn. rewrite EQ. cbn [bind]. rewrite <- (to_cur T). split.
  - intros Hle. apply Nat.leb_le in Hle. rewrite Hle in H. destruct H as (rows & E & HF). rewrite E. cbn [bind].
    exists rows. split; auto. eapply Forall2_weaken; [|exact HF].
    intros q l HN. eapply nearest_ext; [|exact HN]. intros x. apply dist_edist.
  - intros Hlt. apply Nat.leb_gt in Hlt. rewrite Hlt in H. rewrite H. reflexivity.
Qed.
Print Assumptions C87_dual_knn.

(** Two schedules on a tree of doubles after an erasure and an insertion. *)
Definition dualF (sched : nat -> bool -> bool) (b : btree FNum (list float)) (k : nat) (qs : list (list float)) :=
  dualKnn (N := FNum) 2 (@idp FNum) (fun _ => @isort FNum _) (fun _ _ => sched) fco qs b k.
Definition demoQs : list (list float) := [[3; 6]; [9; 9]; [0; 0]; [8; 3]; [5; 5]]%float.
Definition demoB := b <- insF 1 (newF 3) (firstn 5 demoPts) ;; b <- eraF 1 false b [[1; 8]; [6; 6]; [9; 2]]%float ;;
   insF 1 b (skipn 5 demoPts).
Example C87_example :
  (b <- demoB ;; r <- dualF (fun _ s => s) b 2 demoQs ;; Ok (blive b, fst r, map (map snd) (snd r)))
  = Ok ([[2; 5]; [3; 7]; [5; 1]; [7; 6]; [8; 4]]%float,
        [[0; 0]; [3; 6]; [8; 3]; [5; 5]; [9; 9]]%float,
        [[[5; 1]; [2; 5]]; [[3; 7]; [2; 5]]; [[8; 4]; [7; 6]]; [[7; 6]; [3; 7]]; [[7; 6]; [8; 4]]]%float) /\
  (b <- demoB ;; r <- dualF (fun _ s => s) b 2 demoQs ;; r' <- dualF (fun _ s => negb s) b 2 demoQs ;;
   Ok (fst r', map (map snd) (snd r'))) =
  (b <- demoB ;; r <- dualF (fun _ s => s) b 2 demoQs ;; Ok (fst r, map (map snd) (snd r))) /\
  (b <- demoB ;; dualF (fun _ s => s) b 6 demoQs) = Throw.
Proof. repeat split; vm_compute; reflexivity. Qed.

(** Without a query, and on a tree that was never built, the search is
    undefined. *)
Theorem C87_empty_refuted :
  (b <- demoB ;; dualF (fun _ s => s) b 2 []) = UB /\ dualF (fun _ s => s) (newF 3) 1 demoQs = UB.
Proof. split; vm_compute; reflexivity. Qed.
Print Assumptions C87_empty_refuted.

(** C88: the same on every state of the forest.  The buffer must be empty or
    hold k points, and the forest must hold k points; a buffer with fewer
    makes the search throw although the forest may hold k points, and with an
    empty buffer and too few points unset answers are read. *)
Theorem C88_forest_dual_knn_partial : forall dim A (pt : A -> list R) dflt lsb lss smax bbuild sbuild num lg P f t,
  0 < dim -> 1 <= lsb -> 1 <= lss ->
  let B := 2 ^ lg in
  (forall k, k < num -> 2 ^ k * B <= smax) ->
  treeLayout (N := RNum) (fun _ => True) dim pt lsb B true bbuild ->
  treeLayout (N := RNum) (fun _ => True) dim pt lss smax false sbuild ->
  forest (N := RNum) (fun _ => True) dim pt B dflt bbuild sbuild P num lg f t ->
  forall nthel, nth_ok (N := RNum) (fun _ => True) nthel ->
  forall qls qmax qbuild, 1 <= qls -> treeLayout (N := RNum) (fun _ => True) dim pt qls qmax false qbuild ->
  forall queries k, queries <> [] -> length queries <= qmax -> 1 <= k ->
  (forall q x, In q queries -> In x (stored t) -> edist dim (pt q) (pt x) < Rfmax)%R ->
  (map snd (ltEnts t) = stored t /\ NoDup (map fst (ltEnts t))) /\
  exists order, Permutation queries order /\
  forall sched upar,
  let search := ltDualKnn (N := RNum) dim pt nthel sched upar qbuild queries t k in
  let inBuffer := length (blive (lt_buf t)) in
  (inBuffer = 0 \/ k <= inBuffer -> k <= length (stored t) ->
     exists rows, search = Ok (order, rows) /\
       Forall2 (fun q l => nearest k (fun x => edist dim (pt q) (pt (snd x))) (ltEnts t) l) order rows) /\
  (0 < inBuffer < k -> search = Throw) /\
  (inBuffer = 0 -> length (stored t) < k -> search = UB).
Proof.
  intros dim A pt dflt lsb lss smax bbuild sbuild num lg P f t Hd Hb Hs B Hmax Lb Ls RF nthel Hn
    qls qmax qbuild Hql HQL queries k Hqn Hqm Hk Hnear.
  pose proof (layout_spec R_ordlaws Hd Hb Lb) as SB. pose proof (layout_spec R_ordlaws Hd Hs Ls) as SS.
  assert (HB : 0 < B) by (unfold B; pose proof (pow2_pos lg); lia).
  destruct (@forest_inv RNum (fun _ => True) R_ordlaws R_eqlaw dim Hd A pt B HB dflt bbuild sbuild smax SS SB P num lg f t
              eq_refl (fun _ _ => Logic.I) Hmax RF) as (I & _).
  split; [split; [apply ltEnts_items|apply slotEnts_NoDup]|].
  destruct (queryTree_ok (pt := pt) Hd Hql HQL Hqn Hqm) as (qt & Q & EQ & HQ).
  exists (bt_items qt). split; [apply HQ|]. intros sched upar search inBuffer.
  assert (Hlen : length (bt_items qt) <> 0).
  { rewrite <- (Permutation_length (qo_items HQ)). destruct queries; cbn; [congruence|lia]. }
  assert (HIn : forall id b, In (id, b) (fullTrees t) -> treeOk (N := RNum) (fun _ => True) dim pt b /\ bt_cur b <> 0 /\
             forall x, In x (blive b) -> In x (stored t)).
  { intros id b H. apply (fullTrees_In _ _ I) in H as [H1 H2]. destruct id as [|j]; cbn in H1.
    - injection H1 as <-. split; [apply (li_buf I)|]. split; auto. intros x Hx. unfold stored. apply in_or_app. auto.
    - split; [apply (so_ok (li_slots I j H1))|]. split; auto. intros x Hx. unfold stored. apply in_or_app. right.
      apply in_flat_map. exists b. split; auto. eapply nth_error_In; eauto. }
  assert (HT : forall nb, In nb (fullTrees t) -> forall q, In q (bt_items qt) -> okT dim pt (pt q) nb).
  { intros [id b] H q Hq. destruct (HIn id b H) as (H1 & H2 & H3). split; auto. split; auto.
    intros x Hx. rewrite dist_edist. apply Hnear; auto.
    eapply Permutation_in; [symmetry; apply (qo_items HQ)|exact Hq]. }
  pose proof (@ltDualBase_ok dim A pt nthel Hn k Hk sched upar queries qt Q HQ t Hlen HT) as H.
  cbn zeta in H. rewrite (fullTrees_ents I) in H.
  assert (HS : length (ltEnts t) = length (stored t)) by (rewrite <- ltEnts_items, map_length; reflexivity).
  rewrite HS, (to_cur (li_buf I)) in H. fold inBuffer in H.
  unfold search, ltDualKnn. rewrite EQ. cbn [bind]. split; [|split].
  - intros H1 H2. destruct (Nat.eqb_spec inBuffer 0), (Nat.ltb_spec inBuffer k); cbn [negb andb] in H; try lia;
      (destruct (Nat.leb_spec k (length (stored t))); [|lia]); destruct H as (rows & E & HF); rewrite E; cbn [bind];
      exists rows; (split; [reflexivity|]); (eapply Forall2_weaken; [|exact HF]);
      intros q l HN; (eapply nearest_ext; [|exact HN]); intros x; apply dist_edist.
  - intros H1. destruct (Nat.eqb_spec inBuffer 0), (Nat.ltb_spec inBuffer k); cbn [negb andb] in H; try lia.
    rewrite H. reflexivity.
  - intros H1 H2. rewrite H1 in H. cbn [Nat.eqb negb andb] in H.
    destruct (Nat.leb_spec k (length (stored t))); [lia|]. rewrite H. reflexivity.
Qed.
Print Assumptions C88_forest_dual_knn_partial.

(** A forest with one point in the buffer and four in a static tree, and one
    with an empty buffer. *)
Definition ltDualF (sched : nat -> bool -> bool) (t : ltree FNum (list float)) (k : nat) (qs : list (list float)) :=
  ltDualKnn (N := FNum) 2 (@idp FNum) (fun _ => @isort FNum _) (fun _ _ => sched) (fun _ => true) fco qs t k.
Definition demoT := t <- ltInsF (ltF 2) (firstn 3 demoPts) ;; ltInsF t (firstn 2 (skipn 3 demoPts)).
Definition demoT4 := ltInsF (ltF 2) (firstn 4 demoPts).
Example C88_example :
  (t <- demoT ;; r <- ltDualF (fun _ s => s) t 1 demoQs ;; Ok (shapeOf t, fst r, map (map snd) (snd r)))
  = Ok ((2, [[5; 1]]%float, [[]; [[3; 7]; [1; 8]; [9; 2]; [7; 6]]]%float),
        [[0; 0]; [3; 6]; [8; 3]; [5; 5]; [9; 9]]%float,
        [[[5; 1]]; [[3; 7]]; [[9; 2]]; [[7; 6]]; [[7; 6]]]%float) /\
  (t <- demoT4 ;; r <- ltDualF (fun _ s => negb s) t 3 (firstn 2 demoQs) ;; Ok (shapeOf t, fst r, map (map snd) (snd r)))
  = Ok ((2, [], [[]; [[3; 7]; [1; 8]; [5; 1]; [9; 2]]]%float),
        [[3; 6]; [9; 9]]%float,
        [[[3; 7]; [1; 8]; [5; 1]]; [[3; 7]; [9; 2]; [1; 8]]]%float).
Proof. repeat split; vm_compute; reflexivity. Qed.

Theorem C88_refuted :
  (t <- demoT ;; Ok (ltSize t, ltDualF (fun _ s => s) t 2 demoQs)) = Ok (5, Throw) /\
  (t <- demoT4 ;; Ok (ltSize t, ltDualF (fun _ s => s) t 5 demoQs)) = Ok (4, UB) /\
  ltDualF (fun _ s => s) (ltF 2) 1 demoQs = UB.
Proof. repeat split; vm_compute; reflexivity. Qed.
Print Assumptions C88_refuted.
