(** C67, C68: nearest neighbours on the kd-trees of include/batchKdtree and on
    the logarithmic forest. *)
From Coq Require Import Reals Floats Lra.
From Verif Require Import Base Num FloatNum FloatLaws KeySort KdModel KdSpec RGeom RangeModel RangeProofs KdExtra KnnModel KnnBuf KnnFinal
  BatchSplit BatchAddr BatchModel BatchTree BatchMedian BatchPack BatchErase BatchObj BatchInst BatchRun PropBatch
  LogModel LogPlan LogExec LogInsert LogErase PropLog BatchKnn BatchKnnProofs LogKnn.
Set Implicit Arguments.

(** C67: in every state reached by insertions and bulk erasures in which the
    tree holds a point, for every list of queries and both template
    parameters: each query gets k different live items, and no other live item
    is closer than one of them; with fewer than k live items the search
    throws. *)
Theorem C67_batch_knn : forall dim A (pt : A -> list R) dflt ls max full build P b e nthel,
  0 < dim -> 1 <= ls -> treeLayout (N := RNum) (fun _ => True) dim pt ls max full build ->
  reach (N := RNum) (fun _ => True) dim pt dflt build full P max b e -> bt_cur b <> 0 ->
  nth_ok (N := RNum) (fun _ => True) nthel -> forall k update recurse queries, 1 <= k ->
  (forall q x, In q queries -> In x (blive b) -> edist dim q (pt x) < Rfmax)%R ->
  (map snd (bEnts 0 b) = blive b /\ NoDup (map fst (bEnts 0 b))) /\
  (k <= length (blive b) ->
     exists rows, mapRes (fun q => bknn (N := RNum) dim pt nthel q update recurse b k) queries = Ok rows /\
       Forall2 (fun q l => nearest k (fun x => edist dim q (pt (snd x))) (bEnts 0 b) l) queries rows) /\
  (length (blive b) < k -> queries <> [] ->
     mapRes (fun q => bknn (N := RNum) dim pt nthel q update recurse b k) queries = Throw).
Proof.
  intros dim A pt dflt ls max full build P b e nthel Hd Hl HL R Hne Hn k update recurse queries Hk Hnear.
  destruct (@reach_inv RNum (fun _ => True) dim A pt dflt build R_ordlaws R_eqlaw Hd max full
              (layout_spec R_ordlaws Hd Hl HL) P b e R) as [[T _ _ _] _].
  split; [split; [apply liveEnts_items|apply liveEnts_NoDup]|].
  assert (S : forall q, In q queries -> if k <=? bt_cur b then
      exists l, bknn (N := RNum) dim pt nthel q update recurse b k = Ok l /\ nearest k (fun x => edist dim q (pt (snd x))) (bEnts 0 b) l
    else bknn (N := RNum) dim pt nthel q update recurse b k = Throw).
  { intros q Hq. pose proof (@bknn_spec dim A pt nthel Hn k Hk q update recurse b T Hne) as H.
    assert (H' : forall x, In x (blive b) -> (dist RNum dim q (pt x) < Rfmax)%R).
    { intros x Hx. rewrite dist_edist. apply Hnear; auto. }
    specialize (H H'). destruct (k <=? bt_cur b); auto. destruct H as (l & E & H). exists l. split; auto.
    eapply nearest_ext; [|exact H]. intros x. apply dist_edist. }
  rewrite <- (to_cur T). split.
  - intros Hle. apply mapRes_ok. intros q Hq. specialize (S q Hq). apply Nat.leb_le in Hle. rewrite Hle in S. exact S.
  - intros Hlt Hqn. destruct queries as [|q qs]; [congruence|]. cbn [mapRes].
    specialize (S q (or_introl eq_refl)). apply Nat.leb_gt in Hlt. rewrite Hlt in S. rewrite S. reflexivity.
Qed.
Print Assumptions C67_batch_knn.

(** A tree of doubles after an erasure and an insertion. *)
Definition bknnF (b : btree FNum (list float)) (k : nat) (update recurse : bool) (qs : list (list float)) :=
  mapRes (fun q => bknn (N := FNum) 2 (@idp FNum) (fun _ => @isort FNum _) q update recurse b k) qs.
Example C67_example :
  (b <- insF 1 (newF 3) (firstn 5 demoPts) ;; b <- eraF 1 false b [[1; 8]; [6; 6]; [9; 2]]%float ;;
   b <- insF 1 b (skipn 5 demoPts) ;; b <- eraF 1 false b [[7; 6]]%float ;;
   r <- bknnF b 2 true false [[3; 6]; [9; 9]]%float ;; r' <- bknnF b 2 false true [[3; 6]; [9; 9]]%float ;;
   Ok (blive b, r, r'))
  = Ok ([[2; 5]; [3; 7]; [5; 1]; [8; 4]]%float,
        [[(0%nat, 1%nat, [3; 7]); (0%nat, 0%nat, [2; 5])]; [(0%nat, 4%nat, [8; 4]); (0%nat, 1%nat, [3; 7])]]%float,
        [[(0%nat, 1%nat, [3; 7]); (0%nat, 0%nat, [2; 5])]; [(0%nat, 4%nat, [8; 4]); (0%nat, 1%nat, [3; 7])]]%float) /\
  (b <- insF 1 (newF 3) (firstn 5 demoPts) ;; bknnF b 6 true false [[3; 6]]%float) = Throw.
Proof. split; vm_compute; reflexivity. Qed.

(** A tree that was never built is read uninitialised. *)
Theorem C67_unbuilt_refuted : bknnF (newF 3) 1 true false [[3; 6]]%float = UB.
Proof. vm_compute. reflexivity. Qed.
Print Assumptions C67_unbuilt_refuted.

(** C68: in every state of the forest reached by insertions and bulk erasures.
    [fullTrees] are the non-empty trees, the buffer first.  The serial search
    and knn2 need k points in the first of them, knn3 in the last, the parallel
    search in each; then each query gets k different stored items, no other
    stored item being closer; else they throw, although the forest may hold k
    points. *)
Theorem C68_forest_knn_partial : forall dim A (pt : A -> list R) dflt lsb lss smax bbuild sbuild num lg P f t,
  0 < dim -> 1 <= lsb -> 1 <= lss ->
  let B := 2 ^ lg in
  (forall k, k < num -> 2 ^ k * B <= smax) ->
  treeLayout (N := RNum) (fun _ => True) dim pt lsb B true bbuild ->
  treeLayout (N := RNum) (fun _ => True) dim pt lss smax false sbuild ->
  forest (N := RNum) (fun _ => True) dim pt B dflt bbuild sbuild P num lg f t ->
  forall nthel, nth_ok (N := RNum) (fun _ => True) nthel ->
  forall k update recurse queries, 1 <= k ->
  (forall q x, In q queries -> In x (stored t) -> edist dim q (pt x) < Rfmax)%R ->
  let answers := fun q l => nearest k (fun x => edist dim q (pt (snd x))) (ltEnts t) l in
  let serial := fun q => ltKnnSerial (N := RNum) dim pt nthel q update recurse t k in
  let knn2 := fun q => ltKnn2 (N := RNum) dim pt nthel q update recurse t k in
  let knn3 := fun q => ltKnn3 (N := RNum) dim pt nthel q update recurse t k in
  let parallel := fun q => ltKnnParallel (N := RNum) dim pt nthel q update recurse t k in
  let good := fun f => exists rows, mapRes f queries = Ok rows /\ Forall2 answers queries rows in
  let enough := fun nb : nat * btree RNum A => k <= length (blive (snd nb)) in
  (map snd (ltEnts t) = stored t /\ NoDup (map fst (ltEnts t))) /\
  (forall id b, In (id, b) (fullTrees t) <-> nth_error (lt_buf t :: lt_trees t) id = Some b /\ blive b <> []) /\
  (forall first rest, fullTrees t = first :: rest ->
     (enough first -> good serial /\ good knn2) /\
     (~ enough first -> queries <> [] -> mapRes serial queries = Throw /\ mapRes knn2 queries = Throw)) /\
  (forall init last, fullTrees t = init ++ [last] ->
     (enough last -> good knn3) /\ (~ enough last -> queries <> [] -> mapRes knn3 queries = Throw)) /\
  (fullTrees t <> [] ->
     ((forall nb, In nb (fullTrees t) -> enough nb) -> good parallel) /\
     (forall nb, In nb (fullTrees t) -> ~ enough nb -> queries <> [] -> mapRes parallel queries = Throw)) /\
  (* with a used static tree and 2k at most the buffer size, knn3 works *)
  (2 * k <= B -> (exists b, In b (lt_trees t) /\ blive b <> []) -> good knn3).
Proof.
  intros dim A pt dflt lsb lss smax bbuild sbuild num lg P f t Hd Hb Hs B Hmax Lb Ls RF nthel Hn
    k update recurse queries Hk Hnear answers serial knn2 knn3 parallel good enough.
  pose proof (layout_spec R_ordlaws Hd Hb Lb) as SB. pose proof (layout_spec R_ordlaws Hd Hs Ls) as SS.
  assert (HB : 0 < B) by (unfold B; pose proof (pow2_pos lg); lia).
  destruct (@forest_inv RNum (fun _ => True) R_ordlaws R_eqlaw dim Hd A pt B HB dflt bbuild sbuild smax SS SB P num lg f t
              eq_refl (fun _ _ => Logic.I) Hmax RF) as (I & _).
  assert (HIn : forall id b, In (id, b) (fullTrees t) -> treeOk (N := RNum) (fun _ => True) dim pt b /\ bt_cur b <> 0 /\
             forall x, In x (blive b) -> In x (stored t)).
  { intros id b H. apply (fullTrees_In _ _ I) in H as [H1 H2]. destruct id as [|j]; cbn in H1.
    - injection H1 as <-. split; [apply (li_buf I)|]. split; auto. intros x Hx. unfold stored. apply in_or_app. auto.
    - split; [apply (so_ok (li_slots I j H1))|]. split; auto. intros x Hx. unfold stored. apply in_or_app. right.
      apply in_flat_map. exists b. split; auto. eapply nth_error_In; eauto. }
  assert (HT : forall q, In q queries -> forall nb, In nb (fullTrees t) -> okT dim pt q nb).
  { intros q Hq [id b] H. destruct (HIn id b H) as (H1 & H2 & H3). split; auto. split; auto.
    intros x Hx. rewrite dist_edist. apply Hnear; auto. }
  assert (HE : forall q x, entDist RNum dim pt q x = edist dim q (pt (snd x))) by (intros; apply dist_edist).
  assert (Hcur : forall nb, In nb (fullTrees t) -> bt_cur (snd nb) = length (blive (snd nb))).
  { intros [id b] H. destruct (HIn id b H) as (H1 & _). apply (to_cur H1). }
  assert (Hthrow : forall g : list R -> res (list (ent A)), queries <> [] ->
      (forall q, In q queries -> g q = Throw) -> mapRes g queries = Throw).
  { intros g Hqn H. destruct queries as [|q qs]; [congruence|]. cbn [mapRes]. rewrite H by (left; auto). reflexivity. }
  assert (K3 : forall init last, fullTrees t = init ++ [last] ->
     (enough last -> good knn3) /\ (~ enough last -> queries <> [] -> mapRes knn3 queries = Throw)).
  { intros init last E. assert (HL : In last (fullTrees t)) by (rewrite E; apply in_or_app; cbn; auto).
    assert (S : forall q, In q queries -> if k <=? bt_cur (snd last) then
        exists l, ltKnn3 (N := RNum) dim pt nthel q update recurse t k = Ok l /\ answers q l
      else ltKnn3 (N := RNum) dim pt nthel q update recurse t k = Throw).
    { intros q Hq. unfold ltKnn3. rewrite E, rev_app_distr. cbn [rev app].
      pose proof (@knnSeq_spec dim A pt nthel Hn k Hk q update recurse last (rev init)) as H.
      assert (HPm : Permutation (last :: rev init) (fullTrees t)).
      { rewrite E. rewrite <- Permutation_cons_append. constructor. symmetry. apply Permutation_rev. }
      specialize (H (fun nb Hnb => HT q Hq nb (Permutation_in _ HPm Hnb))).
      destruct (k <=? bt_cur (snd last)); auto. destruct H as (l & E1 & H1). exists l. split; auto.
      eapply nearest_ext; [apply HE|]. eapply nearest_perm; [|exact H1]. rewrite <- (fullTrees_ents I). apply Permutation_flat_map. exact HPm. }
    rewrite (Hcur last HL) in S. split.
    - intros He. apply mapRes_ok. intros q Hq. specialize (S q Hq). apply Nat.leb_le in He. rewrite He in S. exact S.
    - intros He Hqn. apply (Hthrow knn3); auto. intros q Hq. specialize (S q Hq).
      unfold enough in He. destruct (Nat.leb_spec k (length (blive (snd last)))); [lia|exact S]. }
  split; [split; [apply ltEnts_items|apply slotEnts_NoDup]|]. split; [|split; [|split; [exact K3|split]]].
  - intros id b. rewrite (fullTrees_In _ _ I).
    assert (HH : nth_error (lt_buf t :: lt_trees t) id = Some b -> bt_cur b = length (blive b)).
    { destruct id as [|j]; cbn; intros H; [injection H as <-; apply (to_cur (li_buf I))|].
      apply (to_cur (so_ok (li_slots I j H))). }
    split; intros [H1 H2]; split; auto; specialize (HH H1); destruct (blive b); cbn in *; try congruence; lia.
  - intros first rest E. assert (HF : In first (fullTrees t)) by (rewrite E; cbn; auto).
    assert (S : forall q, In q queries -> if k <=? bt_cur (snd first) then
        exists l, ltKnnSerial (N := RNum) dim pt nthel q update recurse t k = Ok l /\ answers q l
      else ltKnnSerial (N := RNum) dim pt nthel q update recurse t k = Throw).
    { intros q Hq. unfold ltKnnSerial. rewrite E.
      pose proof (@knnSeq_spec dim A pt nthel Hn k Hk q update recurse first rest) as H.
      assert (H' : forall nb, In nb (first :: rest) -> okT dim pt q nb) by (rewrite <- E; auto).
      specialize (H H'). destruct (k <=? bt_cur (snd first)); auto. destruct H as (l & E1 & H1). exists l. split; auto.
      rewrite <- E, (fullTrees_ents I) in H1. eapply nearest_ext; [apply HE|exact H1]. }
    rewrite (Hcur first HF) in S. split.
    + intros He. assert (G : good serial); [|split; exact G].
      apply mapRes_ok. intros q Hq. specialize (S q Hq). apply Nat.leb_le in He. rewrite He in S. exact S.
    + intros He Hqn. assert (G : mapRes serial queries = Throw); [|split; exact G].
      apply (Hthrow serial); auto. intros q Hq. specialize (S q Hq).
      unfold enough in He. destruct (Nat.leb_spec k (length (blive (snd first)))); [lia|exact S].
  - intros Hne.
    assert (S : forall q, In q queries -> if forallb (fun nb => k <=? bt_cur (snd nb)) (fullTrees t) then
        exists l, ltKnnParallel (N := RNum) dim pt nthel q update recurse t k = Ok l /\ answers q l
      else ltKnnParallel (N := RNum) dim pt nthel q update recurse t k = Throw).
    { intros q Hq. unfold ltKnnParallel.
      pose proof (@knnParallel_spec dim A pt nthel Hn k Hk q update recurse _ Hne (HT q Hq)) as H.
      destruct (forallb _ (fullTrees t)); auto. destruct H as (l & E1 & H1). exists l. split; auto.
      rewrite (fullTrees_ents I) in H1. eapply nearest_ext; [apply HE|exact H1]. }
    split.
    + intros Ha. apply mapRes_ok. intros q Hq. specialize (S q Hq).
      replace (forallb (fun nb => k <=? bt_cur (snd nb)) (fullTrees t)) with true in S; [exact S|].
      symmetry. apply forallb_forall. intros nb Hnb. rewrite (Hcur nb Hnb). apply Nat.leb_le. apply Ha. auto.
    + intros nb Hnb He Hqn. apply (Hthrow parallel); auto. intros q Hq. specialize (S q Hq).
      destruct (forallb (fun nb => k <=? bt_cur (snd nb)) (fullTrees t)) eqn:Ef; [|exact S].
      exfalso. rewrite forallb_forall in Ef. specialize (Ef nb Hnb). rewrite (Hcur nb Hnb) in Ef.
      apply Nat.leb_le in Ef. auto.
  - intros H2k (b & Hb1 & Hb2).
    apply In_nth_error in Hb1 as [j Hj].
    assert (Hin : In (S j, b) (fullTrees t)).
    { apply (fullTrees_In _ _ I). split; auto. rewrite (to_cur (so_ok (li_slots I j Hj))). destruct (blive b); cbn; congruence. }
    destruct (@exists_last _ (fullTrees t)) as (init & last & E); [intros E; rewrite E in Hin; destruct Hin|].
    destruct (K3 init last E) as [G _]. apply G.
    assert (HLi : In last (fullTrees t)) by (rewrite E; apply in_or_app; cbn; auto).
    unfold enough. rewrite <- Hcur by auto.
    destruct last as [id b']. pose proof (@fullTrees_last RNum A t init id b' j b E Hin) as Hid.
    destruct id as [|j']; [congruence|].
    apply (fullTrees_In _ _ I) in HLi as [HLi Hc]. cbn in HLi.
    pose proof (so_cur (li_slots I j' HLi)) as Hcur'. cbn [snd].
    destruct (Nat.testbit (lt_mask t) j'); [|congruence]. pose proof (pow2_pos j').
    assert (B <= 2 ^ j' * B) by nia. lia.
Qed.
Print Assumptions C68_forest_knn_partial.

(** The four searches on a forest of doubles: buffer [5 1], one static tree of
    four points. *)
Definition knnF (which : nat) (t : ltree FNum (list float)) (k : nat) (qs : list (list float)) :=
  let f := match which with
           | 0 => @ltKnnSerial FNum | 1 => @ltKnn2 FNum | 2 => @ltKnn3 FNum | _ => @ltKnnParallel FNum end in
  mapRes (fun q => f 2 (list float) (@idp FNum) (fun _ => @isort FNum _) q true false t k) qs.
Example C68_example :
  (t <- ltInsF (ltF 2) (firstn 3 demoPts) ;; t <- ltInsF t (firstn 2 (skipn 3 demoPts)) ;;
   r0 <- knnF 0 t 1 [[6; 5]]%float ;; r1 <- knnF 1 t 1 [[6; 5]]%float ;; r2 <- knnF 2 t 3 [[6; 5]]%float ;;
   r3 <- knnF 3 t 1 [[6; 5]]%float ;; Ok (shapeOf t, r0, r1, r2, r3))
  = Ok ((2, [[5; 1]]%float, [[]; [[3; 7]; [1; 8]; [9; 2]; [7; 6]]]%float),
        [[(2%nat, 3%nat, [7; 6])]]%float, [[(2%nat, 3%nat, [7; 6])]]%float,
        [[(2%nat, 3%nat, [7; 6]); (2%nat, 0%nat, [3; 7]); (0%nat, 0%nat, [5; 1])]]%float, [[(2%nat, 3%nat, [7; 6])]]%float).
Proof. vm_compute. reflexivity. Qed.

(** With a single point in the buffer the searches throw for k = 2, although
    the forest holds five points; so does the search of an empty forest, with
    worse consequences. *)
Theorem C68_refuted :
  (t <- ltInsF (ltF 2) (firstn 3 demoPts) ;; t <- ltInsF t (firstn 2 (skipn 3 demoPts)) ;;
   Ok (ltSize t, knnF 0 t 2 [[6; 5]]%float, knnF 1 t 2 [[6; 5]]%float, knnF 3 t 2 [[6; 5]]%float))
  = Ok (5, Throw, Throw, Throw) /\
  knnF 0 (ltF 2) 1 [[6; 5]]%float = UB /\ knnF 3 (ltF 2) 1 [[6; 5]]%float = UB.
Proof. repeat split; vm_compute; reflexivity. Qed.
Print Assumptions C68_refuted.
