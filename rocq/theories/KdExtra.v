(** Corollaries for the kd-tree properties. *)
From Coq Require Import Reals Lra.
From Verif Require Import Base Num FloatNum FloatLaws KdModel KdSpec KdBuild KdConstruct RGeom
  RangeModel RangeProofs SplitModel SplitProofs.
Set Implicit Arguments.

(** In exact arithmetic a tight box is determined by the items. *)
Lemma tight_unique A (pt : A -> list (nT RNum)) dim b b' its d :
  tight dim pt b its -> tight dim pt b' its -> d < dim ->
  coord (bmin b) d = coord (bmin b') d /\ coord (bmax b) d = coord (bmax b') d.
Proof.
  intros H H' Hd. destruct (H d Hd) as (H1 & (x & Hx & Ex) & (y & Hy & Ey)).
  destruct (H' d Hd) as (H1' & (x' & Hx' & Ex') & (y' & Hy' & Ey')).
  pose proof (H1 _ Hx') as [A1 A2]. pose proof (H1' _ Hx) as [A3 A4].
  pose proof (H1 _ Hy') as [B1 B2]. pose proof (H1' _ Hy) as [B3 B4].
  simpl in *. rewrite Rleb_true in *.
  rewrite Ex, Ey, Ex', Ey' in *. split; lra.
Qed.

Lemma bbox_workers A (pt : A -> list (nT RNum)) dim its w w' :
  0 < w -> 0 < w' -> its <> [] ->
  exists b b' b'', boundingBoxParallel RNum dim A pt w its = Ok b /\
    boundingBoxParallel RNum dim A pt w' its = Ok b' /\
    boundingBoxSerial RNum dim A pt its = Ok b'' /\
    forall d, d < dim ->
      coord (bmin b) d = coord (bmin b') d /\ coord (bmax b) d = coord (bmax b') d /\
      coord (bmin b) d = coord (bmin b'') d /\ coord (bmax b) d = coord (bmax b'') d.
Proof.
  intros Hw Hw' Hi.
  assert (O : okpts (fun _ : nT RNum => True) dim pt its) by (repeat intro; exact I).
  destruct (boundingBoxParallel_tight R_ordlaws Hw Hi O) as (b & E & T).
  destruct (boundingBoxParallel_tight R_ordlaws Hw' Hi O) as (b' & E' & T').
  destruct (boundingBoxSerial_tight R_ordlaws Hi O) as (b'' & E'' & T'').
  exists b, b', b''. repeat (split; [assumption|]). intros d Hd.
  destruct (tight_unique T T' Hd), (tight_unique T T'' Hd). auto.
Qed.

Lemma items_app_subtrees N A (t : tree N A) b l r : In (Node b l r) (subtrees t) ->
  items (Node b l r) = items l ++ items r.
Proof. reflexivity. Qed.

(** The built tree carries what the searches need. *)
Lemma build_boxes N (ok : nT N -> Prop) (OL : OrdLaws N ok) (SL : SpanLaw N ok) dim A
  (pt : A -> list (nT N)) parallel workers threshold leafSize P t :
  1 <= dim -> 1 <= leafSize -> 0 < workers -> P <> [] -> okpts ok dim pt P ->
  build N dim A pt parallel workers threshold leafSize P = Ok t ->
  Permutation (items t) P /\ shape leafSize t /\ boxes_ok dim pt t /\
  okpts ok dim pt (items t) /\
  (forall s, In s (subtrees t) -> tight dim pt (tbox s) (items s)) /\
  (forall s, In s (subtrees t) -> okbox ok dim (tbox s)).
Proof.
  intros Hd HL HW HP Hok E.
  destruct (@build_all N ok OL SL dim Hd A pt parallel workers threshold leafSize P)
    as (t' & E' & H1 & H2 & H3); auto.
  rewrite E in E'. inversion E'; subst t'.
  assert (Hoki : okpts ok dim pt (items t)) by (eapply okpts_perm; [symmetry; exact H1|auto]).
  split; auto. split; auto. split; [|split; [auto|split]]; auto.
  - intros s Hs d Hdd. apply (H3 s Hs d Hdd).
  - intros s Hs. apply (@tight_okbox N ok OL dim A pt (tbox s) (items s)); auto.
    intros x Hx. apply Hoki. eapply subtrees_incl; eauto.
Qed.

Lemma okptsR A (pt : A -> list (nT RNum)) dim P : okpts (fun _ : nT RNum => True) dim pt P.
Proof. repeat intro; exact I. Qed.

Lemma rangeSearch_correct dim A (pt : A -> list (nT RNum)) parallel workers threshold leafSize P t :
  1 <= dim -> 1 <= leafSize -> 0 < workers -> P <> [] ->
  build RNum dim A pt parallel workers threshold leafSize P = Ok t ->
  forall q r, Permutation (rangeSearch RNum dim A pt t q r)
                          (filter (fun x => Rleb (edist dim q (pt x)) r) P).
Proof.
  intros Hd HL HW HP E q r.
  destruct (@build_boxes _ _ R_ordlaws R_span dim A pt parallel workers threshold leafSize P t Hd HL HW HP (@okptsR A pt dim P) E)
    as (H1 & _ & H3 & _).
  unfold rangeSearch, rangeTraverse. rewrite rangeHelper_spec by auto.
  rewrite (filter_ext _ (fun x => Rleb (edist dim q (pt x)) r))
    by (intros; rewrite dist_edist; auto).
  apply Permutation_filter, H1.
Qed.

Lemma orthSearch_correct N (ok : nT N -> Prop) (OL : OrdLaws N ok) (SL : SpanLaw N ok) dim A
  (pt : A -> list (nT N)) parallel workers threshold leafSize P t :
  1 <= dim -> 1 <= leafSize -> 0 < workers -> P <> [] -> okpts ok dim pt P ->
  build N dim A pt parallel workers threshold leafSize P = Ok t ->
  forall q h,
    (forall d, d < dim -> ok (nsub N (coord q d) h) /\
                          ok (nadd N (nsub N (coord q d) h) (nmul N h (ntwo N)))) ->
    let inside x := forallb (fun d =>
        nle N (nsub N (coord q d) h) (coord (pt x) d) &&
        nle N (coord (pt x) d) (nadd N (nsub N (coord q d) h) (nmul N h (ntwo N)))) (seq 0 dim) in
    Permutation (orthogonalRangeSearch N dim A pt t q h) (filter inside P).
Proof.
  intros Hd HL HW HP Hok E q h Hq inside.
  destruct (@build_boxes N ok OL SL dim A pt parallel workers threshold leafSize P t Hd HL HW HP Hok E)
    as (H1 & _ & H3 & H4 & _ & H6).
  unfold orthogonalRangeSearch, orthogonalRangeTraverse.
  assert (Q1 : forall d, d < dim -> coord (bmin (queryBox N dim q h)) d = nsub N (coord q d) h).
  { intros d Hdd. unfold queryBox, coord at 1; cbn [bmin]. rewrite nth_map_seq; auto. }
  assert (Q2 : forall d, d < dim -> coord (bmax (queryBox N dim q h)) d
                         = nadd N (nsub N (coord q d) h) (nmul N h (ntwo N))).
  { intros d Hdd. unfold queryBox, coord at 1; cbn [bmax]. rewrite nth_map_seq; auto. }
  assert (Hqb : okbox ok dim (queryBox N dim q h)).
  { intros d Hdd. rewrite Q1, Q2 by auto. auto. }
  rewrite (@orthRangeHelper_spec N ok OL) by auto.
  etransitivity; [|apply Permutation_filter, H1].
  rewrite (@filter_ext_in _ _ inside); [reflexivity|].
  intros x Hx. unfold inside.
  assert (Hx' : forall d, d < dim -> ok (coord (pt x) d)) by (intros; apply H4; auto).
  pose proof (@inQBox_spec N ok OL dim A pt (queryBox N dim q h) x Hqb Hx') as HI.
  match goal with |- _ = ?f => destruct f eqn:Ef end.
  - apply HI. intros d Hdd. rewrite forallb_forall in Ef.
    specialize (Ef d ltac:(apply in_seq0; auto)). apply andb_true_iff in Ef.
    rewrite Q1, Q2 by auto. auto.
  - destruct (inQBox N dim A pt (queryBox N dim q h) x) eqn:Ei; auto.
    rewrite <- Ef. symmetry. apply forallb_forall. intros d Hdd. apply in_seq0 in Hdd.
    assert (inBox dim pt (queryBox N dim q h) x) as HB by (apply HI; auto).
    specialize (HB d Hdd). rewrite Q1, Q2 in HB by auto. apply andb_true_iff. auto.
Qed.

(** For every number type: nothing outside the computed ball is returned, each
    item at most as often as it is stored. *)
Lemma rangeHelper_sound N dim A (pt : A -> list (nT N)) (t : tree N A) q qb r x :
  In x (rangeHelper N dim A pt t q qb r) ->
  In x (items t) /\ (nle N (dist N dim (pt x) q) r = true \/ nle N (dist N dim q (pt x)) r = true).
Proof.
  induction t as [its b|b l IHl r' IHr]; cbn [rangeHelper tbox items];
    destruct (boxCompare N dim qb b); cbn [items]; intros H; try contradiction.
  - apply filter_In in H. tauto.
  - apply filter_In in H. tauto.
  - apply filter_In in H. tauto.
  - rewrite in_app_iff in *. destruct H as [H|H]; [apply IHl in H|apply IHr in H]; tauto.
Qed.

(** The block-parallel split used by the parallel build equals the split of
    the construction model, for every execution. *)
Lemma split_two_construct A (fl : A -> bool) its bs ws : 1 <= bs ->
  Permutation ws (splitWrites bs (map (fun x => (x, fl x)) its)) ->
  split_two bs (map (fun x => (x, fl x)) its) ws
  = (Ok (map Some (fst (splitFlags A fl its))), snd (splitFlags A fl its)).
Proof.
  intros Hb HP. rewrite split_two_correct by auto.
  assert (E1 : falses (map (fun x => (x, fl x)) its) = filter (fun x => negb (fl x)) its).
  { unfold falses. clear. induction its as [|a l IH]; simpl; auto.
    destruct (fl a); simpl; rewrite ?IH; auto. }
  assert (E2 : trues (map (fun x => (x, fl x)) its) = filter fl its).
  { unfold trues. clear. induction its as [|a l IH]; simpl; auto.
    destruct (fl a); simpl; rewrite ?IH; auto. }
  rewrite E1, E2. reflexivity.
Qed.

Lemma shape_size N A leafSize (t : tree N A) : shape leafSize t -> 1 <= size t.
Proof.
  unfold size. induction t as [its b|b l IHl r IHr]; simpl; [lia|].
  intros (_ & Hl & Hr). rewrite app_length. specialize (IHl Hl). lia.
Qed.

Lemma shape_subtrees N A leafSize (t s : tree N A) : shape leafSize t -> In s (subtrees t) ->
  shape leafSize s.
Proof.
  induction t as [its b|b l IHl r IHr]; simpl; intros H Hs.
  - destruct Hs as [<-|[]]. exact H.
  - destruct Hs as [<-|Hs]; [exact H|]. destruct H as (_ & Hl & Hr).
    apply in_app_or in Hs as [Hs|Hs]; auto.
Qed.

Lemma build_pool (N : Num) dim A (pt : A -> list (nT N)) parallel workers threshold leafSize P t :
  1 <= leafSize -> 0 < workers -> P <> [] ->
  build N dim A pt parallel workers threshold leafSize P = Ok t ->
  (forall s, In s (subtrees t) ->
     match s with
     | Leaf its _ => 1 <= length its <= leafSize
     | Node _ l r => 1 <= size l /\ 1 <= size r /\ size s = size l + size r /\ leafSize < size s
     end) /\
  NoDup (slots t 0) /\
  (forall o, In o (slots t 0) -> o < 2 * length P - 1) /\
  length (slots t 0) + 1 = length (subtrees t).
Proof.
  intros HL HW HP E.
  pose proof (@build_struct N dim A pt parallel workers threshold leafSize P HL HW HP) as H.
  rewrite E in H. destruct H as (H1 & H2). split.
  - intros s Hs. pose proof (@shape_subtrees _ _ _ _ _ H2 Hs) as S.
    destruct s as [its b|b l r]; [exact S|]. destruct S as (S1 & S2 & S3).
    pose proof (@shape_size _ _ _ _ S2). pose proof (@shape_size _ _ _ _ S3). unfold size in *. cbn [items] in *.
    rewrite app_length. lia.
  - destruct (@slots_spec _ _ _ _ H2 0) as (S1 & S2 & S3 & S4). split; auto. split; [|lia].
    intros o Ho. apply S2 in Ho. unfold size in Ho. rewrite (Permutation_length H1) in Ho. lia.
Qed.

Lemma shape1_leaves N A (t : tree N A) : shape 1 t ->
  leaves t = map (fun x => [x]) (items t) /\ length (subtrees t) + 1 = 2 * length (items t).
Proof.
  induction t as [its b|b l IHl r IHr]; simpl; intros H.
  - destruct its as [|x [|y its]]; simpl in *; try lia. auto.
  - destruct H as (_ & Hl & Hr). destruct (IHl Hl) as [E1 L1], (IHr Hr) as [E2 L2].
    rewrite map_app, E1, E2. rewrite !app_length. split; auto. lia.
Qed.

Lemma build_singletons (N : Num) dim A (pt : A -> list (nT N)) parallel workers threshold P t :
  0 < workers -> P <> [] ->
  build N dim A pt parallel workers threshold 1 P = Ok t ->
  leaves t = map (fun x => [x]) (items t) /\ length (subtrees t) = 2 * length P - 1.
Proof.
  intros HW HP E.
  pose proof (@build_struct N dim A pt parallel workers threshold 1 P (le_n 1) HW HP) as H.
  rewrite E in H. destruct H as (H1 & H2). destruct (@shape1_leaves _ _ _ H2) as [E1 L1].
  rewrite (Permutation_length H1) in L1. split; auto. lia.
Qed.

(** A callback threaded through the traversal (rangeTraverse calls [func] on
    each reported item in order). *)
Lemma rangeTraverse_fold dim A (pt : A -> list (nT RNum)) parallel workers threshold leafSize P t :
  1 <= dim -> 1 <= leafSize -> 0 < workers -> P <> [] ->
  build RNum dim A pt parallel workers threshold leafSize P = Ok t ->
  forall S (f : S -> A -> S) s0 q r,
  exists l, Permutation l (filter (fun x => Rleb (edist dim q (pt x)) r) P) /\
    fold_left f (rangeTraverse RNum dim A pt t q r) s0 = fold_left f l s0.
Proof.
  intros Hd HL HW HP E S f s0 q r. eexists. split; [|reflexivity].
  exact (@rangeSearch_correct dim A pt parallel workers threshold leafSize P t Hd HL HW HP E q r).
Qed.

Lemma rangeSearch_sound N dim A (pt : A -> list (nT N)) (t : tree N A) q r x :
  In x (rangeSearch N dim A pt t q r) ->
  In x (items t) /\ (nle N (dist N dim (pt x) q) r = true \/ nle N (dist N dim q (pt x)) r = true).
Proof. apply rangeHelper_sound. Qed.

Lemma split_two_stable T bs (X : list (T * bool)) ws : 1 <= bs -> Permutation ws (splitWrites bs X) ->
  split_two bs X ws
  = (Ok (map Some (map fst (filter (fun x => negb (snd x)) X) ++ map fst (filter snd X))),
     length (filter (fun x => negb (snd x)) X)).
Proof.
  intros Hb HP. rewrite split_two_correct by auto. unfold falses, trues. rewrite map_length. reflexivity.
Qed.
