(** Correctness of range searching. *)
From Coq Require Import Reals Lra Psatz.
From Verif Require Import Base Num KdModel KdSpec KdBuild KdConstruct RGeom RangeModel.
Set Implicit Arguments.

Section Orth.
  Variable N : Num.
  Variable ok : nT N -> Prop.
  Hypothesis OL : OrdLaws N ok.
  Variable dim : nat.
  Variable A : Type.
  Variable pt : A -> list (nT N).

  (** [x] is in the closed box: the specification of the orthogonal search. *)
  Definition inBox (b : box N) (x : A) : Prop :=
    forall d, d < dim -> nle N (coord (bmin b) d) (coord (pt x) d) = true /\
                         nle N (coord (pt x) d) (coord (bmax b) d) = true.

  Definition okbox (b : box N) : Prop :=
    forall d, d < dim -> ok (coord (bmin b) d) /\ ok (coord (bmax b) d).

  Lemma inQBox_spec qb x : okbox qb -> (forall d, d < dim -> ok (coord (pt x) d)) ->
    (inQBox N dim A pt qb x = true <-> inBox qb x).
  Proof.
    intros Hq Hx. unfold inQBox, inBox. rewrite forallb_forall. split.
    - intros H d Hd. specialize (H d ltac:(apply in_seq0; auto)).
      apply negb_true_iff, orb_false_iff in H as [H1 H2].
      destruct (Hq d Hd). specialize (Hx d Hd).
      split; apply (nlt_false_le OL); auto.
    - intros H d Hd. apply in_seq0 in Hd. destruct (H d Hd) as [H1 H2].
      destruct (Hq d Hd). specialize (Hx d Hd).
      apply negb_true_iff, orb_false_iff. split; apply (nle_false_lt OL); auto.
  Qed.

  Lemma boxCompare_orth qb b its : okbox qb -> okbox b -> okpts ok dim pt its ->
    bounds dim pt b its ->
    match boxCompare N dim qb b with
    | BoxExclude => forall x, In x its -> inQBox N dim A pt qb x = false
    | BoxInclude => forall x, In x its -> inQBox N dim A pt qb x = true
    | BoxOverlap => True
    end.
  Proof.
    intros Hq Hb0 Hok Hb. unfold boxCompare.
    match goal with |- context [existsb ?f _] => destruct (existsb f (seq 0 dim)) eqn:Ex end.
    - intros x Hx.
      apply existsb_exists in Ex as (d & Hd & Ed). apply in_seq0 in Hd.
      destruct (inQBox N dim A pt qb x) eqn:E; auto.
      rewrite inQBox_spec in E; auto. exfalso.
      destruct (E d Hd) as [E1 E2]. destruct (Hb d Hd x Hx) as [E3 E4].
      destruct (Hq d Hd) as [Q1 Q2], (Hb0 d Hd) as [B1 B2]. pose proof (Hok x Hx d Hd) as Ox.
      apply orb_true_iff in Ed as [Ed|Ed].
      + assert (H4 : nle N (coord (bmin b) d) (coord (bmax qb) d) = true)
          by (apply (nle_trans OL) with (y := coord (pt x) d); auto).
        apply (nle_false_lt OL) in H4; auto; congruence.
      + assert (H4 : nle N (coord (bmin qb) d) (coord (bmax b) d) = true)
          by (apply (nle_trans OL) with (y := coord (pt x) d); auto).
        apply (nle_false_lt OL) in H4; auto; congruence.
    - match goal with |- context [existsb ?f _] => destruct (existsb f (seq 0 dim)) eqn:Ei end; auto.
      intros x Hx. apply inQBox_spec; auto.
      intros d Hd. rewrite existsb_false in Ei.
      specialize (Ei d ltac:(apply in_seq0; auto)). apply orb_false_iff in Ei as [E1 E2].
      destruct (Hb d Hd x Hx) as [E3 E4].
      destruct (Hq d Hd) as [Q1 Q2], (Hb0 d Hd) as [B1 B2]. pose proof (Hok x Hx d Hd) as Ox.
      split.
      + apply (nle_trans OL) with (y := coord (bmin b) d); auto. apply (nlt_false_le OL); auto.
      + apply (nle_trans OL) with (y := coord (bmax b) d); auto. apply (nlt_false_le OL); auto.
  Qed.

  Lemma orthRangeHelper_spec (t : tree N A) qb :
    okbox qb -> okpts ok dim pt (items t) ->
    (forall s, In s (subtrees t) -> okbox (tbox s)) ->
    boxes_ok dim pt t ->
    orthRangeHelper N dim A pt t qb = filter (inQBox N dim A pt qb) (items t).
  Proof.
    intros Hq. induction t as [its b|b l IHl r IHr]; intros Hok Hbx Hb.
    - cbn [orthRangeHelper tbox].
      pose proof (@boxCompare_orth qb b its Hq (Hbx (Leaf its b) (or_introl eq_refl)) Hok
                    (Hb (Leaf its b) (or_introl eq_refl))) as HC.
      destruct (boxCompare N dim qb b); cbn [items]; auto; symmetry.
      + apply filter_all; auto.
      + apply filter_none; auto.
    - cbn [orthRangeHelper tbox].
      pose proof (@boxCompare_orth qb b (items (Node b l r)) Hq
                    (Hbx (Node b l r) (or_introl eq_refl)) Hok
                    (Hb (Node b l r) (or_introl eq_refl))) as HC.
      destruct (boxCompare N dim qb b).
      + symmetry. apply filter_all; auto.
      + cbn [items]. rewrite filter_app, IHl, IHr; auto.
        * intros x Hx. apply Hok. cbn [items]. apply in_or_app; auto.
        * intros s Hs. apply Hbx. simpl. right. apply in_or_app; auto.
        * intros s Hs. apply Hb. simpl. right. apply in_or_app; auto.
        * intros x Hx. apply Hok. cbn [items]. apply in_or_app; auto.
        * intros s Hs. apply Hbx. simpl. right. apply in_or_app; auto.
        * intros s Hs. apply Hb. simpl. right. apply in_or_app; auto.
      + symmetry. apply filter_none; auto.
  Qed.

  Lemma tight_bounds b its : tight dim pt b its -> bounds dim pt b its.
  Proof. intros H d Hd. apply (H d Hd). Qed.

  Lemma tight_okbox b its : okpts ok dim pt its -> tight dim pt b its -> okbox b.
  Proof. intros Hok H d Hd. destruct (tight_ok OL Hok H Hd) as (H1 & H2 & _). auto. Qed.
End Orth.

Arguments inBox {N} dim {A} pt b x.
Arguments okbox {N} ok dim b.

Section Ball.
  Variable dim : nat.
  Variable A : Type.
  Variable pt : A -> list (nT RNum).
  Open Scope R_scope.

  Lemma queryBox_min q r d : (d < dim)%nat ->
    @coord RNum (bmin (queryBox RNum dim q r)) d = @coord RNum q d - r.
  Proof. intros H. unfold queryBox, coord at 1; cbn [bmin]. rewrite nth_map_seq; auto. Qed.
  Lemma queryBox_max q r d : (d < dim)%nat ->
    @coord RNum (bmax (queryBox RNum dim q r)) d = @coord RNum q d + r.
  Proof.
    intros H. unfold queryBox, coord at 1; cbn [bmax]. rewrite nth_map_seq; auto.
    simpl. lra.
  Qed.

  (** Items of an excluded box are farther than [r]. *)
  Lemma exclude_far (b : box RNum) its q r x :
    bounds dim pt b its -> In x its ->
    boxCompare RNum dim (queryBox RNum dim q r) b = BoxExclude ->
    r < dist RNum dim q (pt x).
  Proof.
    intros Hb Hx. unfold boxCompare.
    match goal with |- context [existsb ?f _] => destruct (existsb f (seq 0 dim)) eqn:Ex end.
    - intros _. apply existsb_exists in Ex as (d & Hd & Ed). apply in_seq0 in Hd.
      destruct (Hb d Hd x Hx) as [E1 E2]. simpl in E1, E2. rewrite Rleb_true in E1, E2.
      rewrite queryBox_min, queryBox_max in Ed by auto. simpl in Ed.
      pose proof (coord_le_dist dim q (pt x) d Hd) as HC.
      apply orb_true_iff in Ed as [Ed|Ed]; apply Rltb_true in Ed.
      + pose proof (Rle_abs (- (@coord RNum q d - @coord RNum (pt x) d))) as HA.
        rewrite Rabs_Ropp in HA. lra.
      + pose proof (Rle_abs (@coord RNum q d - @coord RNum (pt x) d)) as HA. lra.
    - match goal with |- context [existsb ?f _] => destruct (existsb f (seq 0 dim)) end; discriminate.
  Qed.

  Lemma rangeHelper_spec (t : tree RNum A) q r : boxes_ok dim pt t ->
    rangeHelper RNum dim A pt t q (queryBox RNum dim q r) r
    = filter (fun x => Rleb (dist RNum dim q (pt x)) r) (items t).
  Proof.
    assert (Sym : forall l, filter (fun x => Rleb (dist RNum dim (pt x) q) r) l
                  = filter (fun x => Rleb (dist RNum dim q (pt x)) r) l).
    { intros l. apply filter_ext. intros x. rewrite dist_sym; auto. }
    induction t as [its b|b l IHl r' IHr]; intros Hb; cbn [rangeHelper tbox].
    - destruct (boxCompare RNum dim (queryBox RNum dim q r) b) eqn:E; [apply Sym|reflexivity|].
      symmetry. apply filter_none. intros x Hx. apply Rleb_false.
        eapply exclude_far; eauto. apply (Hb (Leaf its b)); simpl; auto.
    - assert (Hbl : boxes_ok dim pt l).
      { intros s Hs. apply Hb. simpl. right. apply in_or_app; auto. }
      assert (Hbr : boxes_ok dim pt r').
      { intros s Hs. apply Hb. simpl. right. apply in_or_app; auto. }
      specialize (IHl Hbl). specialize (IHr Hbr).
      destruct (boxCompare RNum dim (queryBox RNum dim q r) b) eqn:E.
      + apply Sym.
      + rewrite IHl, IHr. simpl items. rewrite filter_app. auto.
      + symmetry. apply filter_none. intros x Hx. apply Rleb_false.
        eapply exclude_far; eauto. apply (Hb (Node b l r')); simpl; auto.
  Qed.
End Ball.

Lemma bruteforceRange_spec (N : Num) dim A (pt : A -> list (nT N)) elems q r i :
  In i (bruteforceRange N dim A pt elems q r) <->
  exists x, nth_error elems i = Some x /\ nle N (dist N dim (pt x) q) r = true.
Proof.
  unfold bruteforceRange. rewrite filter_In, in_map_iff. split.
  - intros ((j & Hj & Hj2) & Hi). apply Nat.ltb_lt in Hi.
    destruct (nth_error elems j) as [x|] eqn:E; [|lia].
    destruct (nle N (dist N dim (pt x) q) r) eqn:E2; [|lia]. subst j. eauto.
  - intros (x & Hx & Hr). assert (i < length elems) by (apply nth_error_Some; congruence).
    split; [|apply Nat.ltb_lt; auto]. exists i. rewrite Hx, Hr. split; auto. apply in_seq0; auto.
Qed.
