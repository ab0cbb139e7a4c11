(** Node distances over the reals are exact; closest pairs of built trees. *)
From Coq Require Import Reals Lra.
From Verif Require Import Base Num FloatNum FloatLaws FloatMono DistLaws KdModel KdSpec KdBuild
  KdConstruct RGeom RangeModel RangeProofs KdExtra BccpModel BccpProofs.
Set Implicit Arguments.

Section Exact.
  Local Open Scope R_scope.
  Variable dim : nat.
  Notation co p d := (@coord RNum p d).

  Definition nonemptyBox (b : box RNum) : Prop :=
    forall d, (d < dim)%nat -> co (bmin b) d <= co (bmax b) d.

  Definition near1 (b1 b2 : box RNum) (d : nat) : R :=
    if Rlt_dec (co (bmax b2) d) (co (bmin b1) d) then co (bmin b1) d
    else if Rlt_dec (co (bmax b1) d) (co (bmin b2) d) then co (bmax b1) d
    else Rmax (co (bmin b1) d) (co (bmin b2) d).

  Lemma coord_map (f : nat -> R) n d : (d < n)%nat -> co (map f (seq 0 n)) d = f d.
  Proof.
    intros H. unfold coord. rewrite nth_indep with (d' := f 0%nat) by (rewrite map_length, seq_length; auto).
    rewrite map_nth, seq_nth; auto.
  Qed.

  Lemma gap_near b1 b2 d : nonemptyBox b1 -> nonemptyBox b2 -> (d < dim)%nat ->
    axisGap RNum b1 b2 d * axisGap RNum b1 b2 d
    = (near1 b1 b2 d - near1 b2 b1 d) * (near1 b1 b2 d - near1 b2 b1 d) /\
    co (bmin b1) d <= near1 b1 b2 d <= co (bmax b1) d.
  Proof.
    intros H1 H2 Hd. specialize (H1 d Hd). specialize (H2 d Hd).
    assert (G : (axisGap RNum b1 b2 d = near1 b1 b2 d - near1 b2 b1 d \/
                 axisGap RNum b1 b2 d = near1 b2 b1 d - near1 b1 b2 d) /\
                co (bmin b1) d <= near1 b1 b2 d <= co (bmax b1) d).
    { unfold axisGap, near1, nmax2. cbn [nlt nsub nzero RNum].
      destruct (Rlt_dec (co (bmax b2) d) (co (bmin b1) d)); destruct (Rlt_dec (co (bmax b1) d) (co (bmin b2) d));
        try lra;
        repeat match goal with |- context [Rltb ?a ?b] => lazymatch b with context [Rltb _ _] => fail | _ =>
          lazymatch a with context [Rltb _ _] => fail | _ => destruct (Rltb_spec a b) end end end; try lra;
        unfold Rmax; repeat match goal with |- context [Rle_dec ?a ?b] => destruct (Rle_dec a b) end; 
        (split; [first [left; lra|right; lra]|lra]). }
    destruct G as [[G|G] G']; rewrite G; split; auto; ring.
  Qed.

  Lemma nodeDistance_sum b1 b2 : nonemptyBox b1 -> nonemptyBox b2 ->
    nodeDistance RNum dim b1 b2
    = R_sqrt.sqrt (rsum (fun i => axisGap RNum b1 b2 i * axisGap RNum b1 b2 i) dim).
  Proof.
    intros H1 H2. unfold nodeDistance.
    assert (Z : forall d, (d < dim)%nat -> disjointAt RNum b1 b2 d = false -> axisGap RNum b1 b2 d = 0).
    { intros d Hd. specialize (H1 d Hd). specialize (H2 d Hd). unfold disjointAt, axisGap, nmax2.
      cbn [nlt nsub nzero RNum]. rewrite orb_false_iff, !Rltb_false. intros [A B].
      repeat match goal with |- context [Rltb ?a ?b] => lazymatch b with context [Rltb _ _] => fail | _ =>
          lazymatch a with context [Rltb _ _] => fail | _ => destruct (Rltb_spec a b) end end end; lra. }
    destruct (find (disjointAt RNum b1 b2) (seq 0 dim)) as [d|] eqn:E.
    - cbn [nsqrt RNum]. f_equal.
      assert (Hd : (d < dim)%nat) by (apply find_some in E as [Hd _]; apply in_seq0 in Hd; auto).
      assert (Hpre : forall i, (i < d)%nat -> disjointAt RNum b1 b2 i = false).
      { intros i Hi. clear - E Hi Hd.
        assert (Es : seq 0 dim = seq 0 d ++ seq d (dim - d)) by (rewrite <- seq_app; f_equal; lia).
        rewrite Es in E.
        assert (G : forall l, find (disjointAt RNum b1 b2) (l ++ seq d (dim - d)) = Some d -> ~ In d l ->
           forall i, In i l -> disjointAt RNum b1 b2 i = false).
        { induction l as [|x l IH]; simpl; intros F Hn j Hj; [contradiction|].
          destruct (disjointAt RNum b1 b2 x) eqn:Ex.
          - inversion F; subst. exfalso. auto.
          - destruct Hj as [<-|Hj]; auto. }
        apply (G _ E); [rewrite in_seq; lia|apply in_seq; lia]. }
      transitivity (0 + rsum (fun i => axisGap RNum b1 b2 i * axisGap RNum b1 b2 i) dim); [|lra].
      rewrite <- fold_rsum. replace dim with (d + (dim - d))%nat at 2 by lia.
      rewrite seq_app, fold_left_app. simpl Nat.add.
      rewrite fold_rsum, rsum_zero.
      + rewrite Rplus_0_r. reflexivity.
      + intros i Hi. rewrite Z; auto; [lra|lia].
    - rewrite rsum_zero; [rewrite sqrt_0; auto|].
      intros i Hi. rewrite Z; [lra|auto|]. apply find_none with (x := i) in E; auto. apply in_seq0; auto.
  Qed.

  Lemma nodeDistance_attained b1 b2 : nonemptyBox b1 -> nonemptyBox b2 ->
    exists p q, inBox dim b1 p /\ inBox dim b2 q /\ edist dim p q = nodeDistance RNum dim b1 b2.
  Proof.
    intros H1 H2.
    exists (map (near1 b1 b2) (seq 0 dim)), (map (near1 b2 b1) (seq 0 dim)).
    split; [|split].
    - intros d Hd. rewrite coord_map by auto. destruct (@gap_near b1 b2 d H1 H2 Hd) as [_ [A B]].
      simpl. rewrite !Rleb_true. auto.
    - intros d Hd. rewrite coord_map by auto. destruct (@gap_near b2 b1 d H2 H1 Hd) as [_ [A B]].
      simpl. rewrite !Rleb_true. auto.
    - rewrite nodeDistance_sum by auto. unfold edist. f_equal. apply rsum_ext. intros i Hi.
      destruct (@gap_near b1 b2 i H1 H2 Hi) as [E _]. rewrite E.
      change (nth i (map (near1 b1 b2) (seq 0 dim)) 0) with (co (map (near1 b1 b2) (seq 0 dim)) i).
      change (nth i (map (near1 b2 b1) (seq 0 dim)) 0) with (co (map (near1 b2 b1) (seq 0 dim)) i).
      rewrite !coord_map by auto. ring.
  Qed.

  Lemma nodeDistance_bounds (b1 b2 : box RNum) p q : inBox dim b1 p -> inBox dim b2 q ->
    nodeDistance RNum dim b1 b2 <= edist dim p q <= nodeFarDistance RNum dim b1 b2.
  Proof.
    intros I1 I2. rewrite <- dist_edist. split.
    - apply Rleb_true. apply (nodeDistance_le R_distlaws); auto; repeat intro; auto.
    - apply Rleb_true. apply (nodeFar_ge R_distlaws); auto; repeat intro; auto.
  Qed.
End Exact.

(** Built trees have what the search needs. *)
Lemma build_good N (ok fin nn : nT N -> Prop) (DL : DistLaws N ok fin nn) (FL : OrdLaws N fin)
  (SL : SpanLaw N fin) dim A (pt : A -> list (nT N)) parallel workers threshold leafSize P t :
  1 <= dim -> 1 <= leafSize -> 0 < workers -> P <> [] -> okpts fin dim pt P ->
  build N dim A pt parallel workers threshold leafSize P = Ok t ->
  goodTree fin dim pt t /\ Permutation (items t) P.
Proof.
  intros Hd HL HW HP Hok E.
  destruct (@build_boxes N fin FL SL dim A pt parallel workers threshold leafSize P t Hd HL HW HP Hok E) as (H1 & _ & H3 & H4 & _ & H6).
  split; auto. split; [exact H3|split].
  - intros s Hs. exact (H6 s Hs).
  - intros x Hx d Hdd. apply H4; auto.
Qed.

Lemma bccp_built N (ok fin nn : nT N -> Prop) (DL : DistLaws N ok fin nn) (FL : OrdLaws N fin)
  (SL : SpanLaw N fin) dim A (pt : A -> list (nT N)) srt :
  @sort4_ok N ok srt ->
  forall par1 par2 w1 w2 th1 th2 ls1 ls2 P Q t1 t2,
  1 <= dim -> 1 <= ls1 -> 1 <= ls2 -> 0 < w1 -> 0 < w2 -> P <> [] -> Q <> [] ->
  okpts fin dim pt P -> okpts fin dim pt Q ->
  build N dim A pt par1 w1 th1 ls1 P = Ok t1 -> build N dim A pt par2 w2 th2 ls2 Q = Ok t2 ->
  (exists x y, In x P /\ In y Q /\ nlt N (dist N dim (pt x) (pt y)) (nmax N) = true) ->
  exists u v, bichromaticClosestPair N dim A pt srt t1 t2 = (Some (u, v), dist N dim (pt u) (pt v)) /\
    In u P /\ In v Q /\
    forall x y, In x P -> In y Q -> nle N (dist N dim (pt u) (pt v)) (dist N dim (pt x) (pt y)) = true.
Proof.
  intros HS par1 par2 w1 w2 th1 th2 ls1 ls2 P Q t1 t2 Hd H1 H2 H3 H4 H5 H6 H7 H8 E1 E2 (x0 & y0 & Hx & Hy & Hlt).
  destruct (@build_good N ok fin nn DL FL SL dim A pt par1 w1 th1 ls1 P t1) as [G1 P1]; auto.
  destruct (@build_good N ok fin nn DL FL SL dim A pt par2 w2 th2 ls2 Q t2) as [G2 P2]; auto.
  assert (I1 : forall x, In x P <-> In x (items t1)).
  { intros; split; apply Permutation_in; auto. symmetry; auto. }
  assert (I2 : forall x, In x Q <-> In x (items t2)).
  { intros; split; apply Permutation_in; auto. symmetry; auto. }
  assert (C := @bccp_correct N ok fin nn DL dim A pt srt HS t1 t2 G1 G2).
  destruct (bichromaticClosestPair N dim A pt srt t1 t2) as [[[u v]|] d].
  - destruct C as (Hu & Hv & -> & Hm). exists u, v. split; auto. rewrite I1, I2. split; auto. split; auto.
    intros x y Hx' Hy'. apply Hm; [apply I1|apply I2]; auto.
  - exfalso. destruct C as (_ & C). rewrite I1 in Hx. rewrite I2 in Hy. specialize (C x0 y0 Hx Hy).
    rewrite (ol_le (dl_ord DL)) in C.
    + rewrite Hlt in C. discriminate.
    + apply (dl_max DL).
    + apply (dl_nn_ok DL). apply (dist_nn DL); [apply G1|apply G2]; auto.
Qed.

(** Insertion sort on the keys. *)
Fixpoint kins N (e : nT N * nat) (l : list (nT N * nat)) : list (nT N * nat) :=
  match l with
  | [] => [e]
  | x :: l' => if nlt N (fst e) (fst x) then e :: l else x :: kins N e l'
  end.
Definition ksort N (l : list (nT N * nat)) : list (nT N * nat) := fold_right (kins N) [] l.
Lemma ksort_perm N l : Permutation (ksort N l) l.
Proof.
  induction l as [|x l IH]; simpl; auto.
  assert (K : forall e l, Permutation (kins N e l) (e :: l)).
  { clear. intros e l. induction l as [|y l IH]; simpl; auto.
    destruct (nlt N (fst e) (fst y)); auto. rewrite IH. constructor. }
  rewrite K, IH. auto.
Qed.
Lemma ksort_ok N ok : @sort4_ok N ok (ksort N).
Proof. intros l _. apply ksort_perm. Qed.

Lemma bccp_exact dim A (pt : A -> list R) srt : @sort4_ok RNum (fun _ => True) srt ->
  forall par1 par2 w1 w2 th1 th2 ls1 ls2 P Q t1 t2,
  1 <= dim -> 1 <= ls1 -> 1 <= ls2 -> 0 < w1 -> 0 < w2 -> P <> [] -> Q <> [] ->
  build RNum dim A pt par1 w1 th1 ls1 P = Ok t1 -> build RNum dim A pt par2 w2 th2 ls2 Q = Ok t2 ->
  (exists x y, In x P /\ In y Q /\ (edist dim (pt x) (pt y) < Rfmax)%R) ->
  exists u v, bichromaticClosestPair RNum dim A pt srt t1 t2 = (Some (u, v), edist dim (pt u) (pt v)) /\
    In u P /\ In v Q /\
    forall x y, In x P -> In y Q -> (edist dim (pt u) (pt v) <= edist dim (pt x) (pt y))%R.
Proof.
  intros HS par1 par2 w1 w2 th1 th2 ls1 ls2 P Q t1 t2 H1 H2 H3 H4 H5 H6 H7 E1 E2 (x & y & Hx & Hy & Hlt).
  destruct (@bccp_built RNum _ _ _ R_distlaws R_ordlaws R_span dim A pt srt HS par1 par2 w1 w2 th1 th2 ls1 ls2
    P Q t1 t2) as (u & v & E & Hu & Hv & Hm); auto; try (repeat intro; exact I).
  - exists x, y. split; auto. split; auto. apply Rltb_true. rewrite dist_edist. auto.
  - exists u, v. rewrite <- dist_edist. split; auto. split; auto. split; auto. intros a b Ha Hb.
    specialize (Hm a b Ha Hb). apply Rleb_true in Hm. rewrite <- (dist_edist dim (pt a)). exact Hm.
Qed.

(** Exact diameter and longest side of a box. *)
Lemma diag_exact dim (b : box RNum) : diag RNum dim b = edist dim (bmax b) (bmin b).
Proof. rewrite <- dist_edist. reflexivity. Qed.
Lemma diag_diameter dim (b : box RNum) p q : inBox dim b p -> inBox dim b q ->
  (edist dim p q <= diag RNum dim b)%R.
Proof.
  intros I1 I2. pose proof (nodeDistance_bounds (b2 := b) I1 I2) as [_ H].
  replace (diag RNum dim b) with (nodeFarDistance RNum dim b b); auto.
  unfold nodeFarDistance, diag. f_equal. apply fold_left_ext'. intros acc i.
  unfold nmax2, nmin2. destruct (nlt RNum _ _), (nlt RNum _ _); auto.
Qed.
Lemma lMax_spec dim (b : box RNum) :
  (forall d, (d < dim)%nat -> (coord (bmax b) d - coord (bmin b) d <= lMax RNum dim b)%R) /\
  (lMax RNum dim b = 0%R \/ exists d, (d < dim)%nat /\ lMax RNum dim b = (coord (bmax b) d - coord (bmin b) d)%R) /\
  (0 <= lMax RNum dim b)%R.
Proof.
  unfold lMax. set (step := fun (m : nT RNum) i => _).
  assert (G : forall n, (n <= dim)%nat -> let m := fold_left step (seq 0 n) (nzero RNum) in
    (forall d, (d < n)%nat -> (coord (bmax b) d - coord (bmin b) d <= m)%R) /\
    (m = 0%R \/ exists d, (d < n)%nat /\ m = (coord (bmax b) d - coord (bmin b) d)%R) /\ (0 <= m)%R).
  { induction n as [|n IH]; intros Hn; cbv zeta.
    - simpl. split; [intros; lia|]. split; auto. apply Rle_refl.
    - rewrite seq_S, fold_left_app, Nat.add_0_l. cbn [fold_left].
      destruct (IH ltac:(lia)) as (H1 & H2 & H3). set (m := fold_left step (seq 0 n) (nzero RNum)) in *.
      unfold step. cbn [RNum nsub nlt]. set (sp := (coord (bmax b) n - coord (bmin b) n)%R).
      destruct (Rltb m sp) eqn:E.
      + apply Rltb_true in E. split; [|split; [right; exists n; split; auto; lia|unfold sp in *; lra]].
        intros d Hd. destruct (Nat.eq_dec d n) as [->|]; [apply Rle_refl|].
        specialize (H1 d ltac:(lia)). cbn [nT RNum] in *. lra.
      + apply Rltb_false in E. split; [|split; auto].
        * intros d Hd. destruct (Nat.eq_dec d n) as [->|]; [exact E|apply H1; lia].
        * destruct H2 as [H2|(d & Hd & E2)]; [left; exact H2|right; exists d; split; auto]. }
  exact (G dim (le_n _)).
Qed.
