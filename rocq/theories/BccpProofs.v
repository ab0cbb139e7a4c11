(** Node distance bounds and correctness of the bichromatic closest pair, for
    every number type with the distance laws (exact reals and doubles). *)
From Coq Require Import Reals Lra.
From Verif Require Import Base Num FloatNum FloatLaws FloatMono DistLaws KdModel KdSpec KdBuild
  KdConstruct RGeom RangeModel RangeProofs KdExtra BccpModel.
Set Implicit Arguments.

Section Gen.
  Variable N : Num.
  Variables ok fin nn : nT N -> Prop.
  Hypothesis DL : DistLaws N ok fin nn.
  Variable dim : nat.

  Let OL := dl_ord DL.
  Notation le x y := (nle N x y = true).

  (** Sums of non-negative terms, term by term. *)
  Lemma fold_nn (f : nat -> nT N) l a : nn a -> (forall i, In i l -> nn (f i)) ->
    nn (fold_left (fun acc i => nadd N acc (f i)) l a).
  Proof.
    revert a. induction l as [|i l IH]; simpl; intros a Ha Hf; auto.
    apply IH; auto. apply (dl_add DL); auto.
  Qed.
  Lemma fold_le (f g : nat -> nT N) l a b : nn a -> nn b -> le a b ->
    (forall i, In i l -> nn (f i) /\ nn (g i) /\ le (f i) (g i)) ->
    le (fold_left (fun acc i => nadd N acc (f i)) l a) (fold_left (fun acc i => nadd N acc (g i)) l b).
  Proof.
    revert a b. induction l as [|i l IH]; simpl; intros a b Ha Hb Hab H; auto.
    destruct (H i (or_introl eq_refl)) as (H1 & H2 & H3).
    apply IH; auto; try (apply (dl_add DL); auto). apply (dl_add_mono DL); auto.
  Qed.

  (** Point [p] in box [b]. *)
  Definition inBox (b : box N) (p : list (nT N)) : Prop :=
    forall d, d < dim -> le (coord (bmin b) d) (coord p d) /\ le (coord p d) (coord (bmax b) d).
  Definition finBox (b : box N) : Prop :=
    forall d, d < dim -> fin (coord (bmin b) d) /\ fin (coord (bmax b) d).
  Definition finPt (p : list (nT N)) : Prop := forall d, d < dim -> fin (coord p d).

  Lemma gap_ok b1 b2 i : finBox b1 -> finBox b2 -> i < dim -> ok (axisGap N b1 b2 i).
  Proof.
    intros H1 H2 Hi. destruct (H1 i Hi), (H2 i Hi). unfold axisGap.
    apply nmax2_ok; [apply nmax2_ok|]; try (apply (dl_sub_ok DL); auto). apply (dl_nn_ok DL), (dl_zero DL).
  Qed.

  Lemma gap_le b1 b2 p q i : finBox b1 -> finBox b2 -> finPt p -> finPt q -> inBox b1 p -> inBox b2 q ->
    i < dim ->
    le (nmul N (axisGap N b1 b2 i) (axisGap N b1 b2 i))
       (nmul N (nsub N (coord p i) (coord q i)) (nsub N (coord p i) (coord q i))).
  Proof.
    intros F1 F2 Fp Fq I1 I2 Hi.
    destruct (F1 i Hi) as [Fa Fb], (F2 i Hi) as [Fc Fd].
    specialize (Fp i Hi). specialize (Fq i Hi).
    destruct (I1 i Hi) as [Ia Ib], (I2 i Hi) as [Ic Id].
    assert (Z : ok (nzero N)) by (apply (dl_nn_ok DL), (dl_zero DL)).
    assert (S : nn (nmul N (nsub N (coord p i) (coord q i)) (nsub N (coord p i) (coord q i))))
      by (apply (dl_sq DL), (dl_sub_ok DL); auto).
    unfold axisGap. unfold nmax2 at 1 3.
    match goal with |- context [nlt N ?t (nzero N)] => set (t0 := t) end.
    assert (Ht : ok t0) by (apply nmax2_ok; apply (dl_sub_ok DL); auto).
    destruct (nlt N t0 (nzero N)) eqn:E.
    { apply (dl_sq_zero DL); auto; apply (nle_refl OL); auto. }
    destruct (nlt N (nzero N) t0) eqn:E'.
    - destruct (nmax2_or (nsub N (coord (bmin b1) i) (coord (bmax b2) i))
                         (nsub N (coord (bmin b2) i) (coord (bmax b1) i))) as [M|M];
        fold t0 in M; rewrite M in *.
      + apply (dl_sq_mono DL); auto; [apply (dl_sub_ok DL); auto|]. apply (dl_sub_mono DL); auto.
      + apply (nle_trans OL) with (y := nmul N (nsub N (coord q i) (coord p i)) (nsub N (coord q i) (coord p i))).
        * apply (dl_nn_ok DL), (dl_sq DL); auto.
        * apply (dl_nn_ok DL), (dl_sq DL), (dl_sub_ok DL); auto.
        * apply (dl_nn_ok DL); auto.
        * apply (dl_sq_mono DL); auto; [apply (dl_sub_ok DL); auto|]. apply (dl_sub_mono DL); auto.
        * apply (dl_sq_sym DL); auto.
    - apply (dl_sq_zero DL); auto; apply (nlt_false_le OL); auto.
  Qed.

  Lemma distSqr_nn p q : finPt p -> finPt q -> nn (distSqr N dim p q).
  Proof.
    intros Fp Fq. unfold distSqr.
    apply (@fold_nn (fun i => let d := nsub N (coord p i) (coord q i) in nmul N d d)).
    - apply (dl_zero DL).
    - intros i Hi. apply in_seq0 in Hi. apply (dl_sq DL), (dl_sub_ok DL); auto.
  Qed.
  Lemma dist_nn p q : finPt p -> finPt q -> nn (dist N dim p q).
  Proof. intros. apply (dl_sqrt DL), distSqr_nn; auto. Qed.

  (** C12, lower bound. *)
  Lemma nodeDistance_le b1 b2 p q : finBox b1 -> finBox b2 -> finPt p -> finPt q ->
    inBox b1 p -> inBox b2 q -> le (nodeDistance N dim b1 b2) (dist N dim p q).
  Proof.
    intros F1 F2 Fp Fq I1 I2. unfold nodeDistance.
    destruct (find (disjointAt N b1 b2) (seq 0 dim)) as [d|] eqn:E.
    2: { apply (dl_zero_le DL), dist_nn; auto. }
    apply find_some in E as [Hd _]. apply in_seq0 in Hd.
    assert (Hin : forall i, In i (seq d (dim - d)) -> i < dim) by (intros i Hi; apply in_seq in Hi; lia).
    assert (Hpre : forall i, In i (seq 0 d) -> i < dim) by (intros i Hi; apply in_seq in Hi; lia).
    set (f := fun i => nmul N (axisGap N b1 b2 i) (axisGap N b1 b2 i)).
    set (g := fun i => nmul N (nsub N (coord p i) (coord q i)) (nsub N (coord p i) (coord q i))).
    assert (Nf : forall i, i < dim -> nn (f i)) by (intros; apply (dl_sq DL), gap_ok; auto).
    assert (Ng : forall i, i < dim -> nn (g i)) by (intros; apply (dl_sq DL), (dl_sub_ok DL); auto).
    unfold dist. apply (dl_sqrt_mono DL).
    - apply (@fold_nn f); auto. apply (dl_zero DL).
    - apply distSqr_nn; auto.
    - unfold distSqr. replace dim with (d + (dim - d)) at 2 by lia.
      rewrite seq_app, fold_left_app.
      apply (@fold_le f g).
      + apply (dl_zero DL).
      + apply (@fold_nn g); auto. apply (dl_zero DL).
      + apply (dl_zero_le DL). apply (@fold_nn g); auto. apply (dl_zero DL).
      + intros i Hi. split; [auto|split; auto]. apply gap_le; auto.
  Qed.

  Lemma nodeDistance_nn b1 b2 : finBox b1 -> finBox b2 -> nn (nodeDistance N dim b1 b2).
  Proof.
    intros F1 F2. unfold nodeDistance.
    destruct (find (disjointAt N b1 b2) (seq 0 dim)) as [d|] eqn:E; [|apply (dl_zero DL)].
    apply (dl_sqrt DL). apply (@fold_nn (fun i => nmul N (axisGap N b1 b2 i) (axisGap N b1 b2 i))).
    - apply (dl_zero DL).
    - intros i Hi. apply (dl_sq DL), gap_ok; auto. apply in_seq in Hi. lia.
  Qed.

  (** C12, upper bound: for any two points of the two boxes. *)
  Lemma nodeFar_ge b1 b2 p q : finBox b1 -> finBox b2 -> finPt p -> finPt q ->
    (inBox b1 p \/ inBox b2 p) -> (inBox b1 q \/ inBox b2 q) ->
    le (dist N dim p q) (nodeFarDistance N dim b1 b2).
  Proof.
    intros F1 F2 Fp Fq Ip Iq.
    set (M := fun i => nmax2 N (coord (bmax b1) i) (coord (bmax b2) i)).
    set (m := fun i => nmin2 N (coord (bmin b1) i) (coord (bmin b2) i)).
    assert (FM : forall i, i < dim -> fin (M i) /\ fin (m i)).
    { intros i Hi. destruct (F1 i Hi), (F2 i Hi). unfold M, m, nmax2, nmin2.
      split; match goal with |- context [if ?c then _ else _] => destruct c end; auto. }
    assert (Hb : forall x, finPt x -> (inBox b1 x \/ inBox b2 x) -> forall i, i < dim ->
              le (m i) (coord x i) /\ le (coord x i) (M i)).
    { intros x Fx Ix i Hi. destruct (F1 i Hi) as [Ha Hb], (F2 i Hi) as [Hc Hd].
      pose proof (dl_fin_ok DL) as FO. destruct (FM i Hi) as [HM Hm]. specialize (Fx i Hi).
      assert (le (m i) (coord (bmin b1) i)) by (apply (nmin2_le_l OL); auto).
      assert (le (m i) (coord (bmin b2) i)) by (apply (nmin2_le_r OL); auto).
      assert (le (coord (bmax b1) i) (M i)) by (apply (nmax2_le_l OL); auto).
      assert (le (coord (bmax b2) i) (M i)) by (apply (nmax2_le_r OL); auto).
      destruct Ix as [Ix|Ix]; destruct (Ix i Hi); split.
      - apply (nle_trans OL) with (y := coord (bmin b1) i); auto.
      - apply (nle_trans OL) with (y := coord (bmax b1) i); auto.
      - apply (nle_trans OL) with (y := coord (bmin b2) i); auto.
      - apply (nle_trans OL) with (y := coord (bmax b2) i); auto. }
    unfold dist, nodeFarDistance. apply (dl_sqrt_mono DL).
    - apply distSqr_nn; auto.
    - apply (@fold_nn (fun i => nmul N (nsub N (M i) (m i)) (nsub N (M i) (m i)))); [apply (dl_zero DL)|].
      intros i Hi. apply in_seq0 in Hi. destruct (FM i Hi). apply (dl_sq DL), (dl_sub_ok DL); auto.
    - apply (@fold_le (fun i => nmul N (nsub N (coord p i) (coord q i)) (nsub N (coord p i) (coord q i)))
                      (fun i => nmul N (nsub N (M i) (m i)) (nsub N (M i) (m i)))).
      + apply (dl_zero DL).
      + apply (dl_zero DL).
      + apply (nle_refl OL), (dl_nn_ok DL), (dl_zero DL).
      + intros i Hi. apply in_seq0 in Hi. destruct (FM i Hi) as [HM Hm].
        destruct (Hb p Fp Ip i Hi) as [P1 P2], (Hb q Fq Iq i Hi) as [Q1 Q2].
        specialize (Fp i Hi). specialize (Fq i Hi).
        assert (Z : ok (nzero N)) by (apply (dl_nn_ok DL), (dl_zero DL)).
        assert (O1 : ok (nsub N (coord p i) (coord q i))) by (apply (dl_sub_ok DL); auto).
        assert (O2 : ok (nsub N (coord q i) (coord p i))) by (apply (dl_sub_ok DL); auto).
        assert (O3 : ok (nsub N (M i) (m i))) by (apply (dl_sub_ok DL); auto).
        split; [apply (dl_sq DL); auto|]. split; [apply (dl_sq DL); auto|].
        destruct (nlt N (nzero N) (nsub N (coord p i) (coord q i))) eqn:E1.
        { apply (dl_sq_mono DL); auto. apply (dl_sub_mono DL); auto. }
        destruct (nlt N (nzero N) (nsub N (coord q i) (coord p i))) eqn:E2.
        { apply (nle_trans OL) with (y := nmul N (nsub N (coord q i) (coord p i)) (nsub N (coord q i) (coord p i)));
            try (apply (dl_nn_ok DL), (dl_sq DL); auto).
          - apply (dl_sq_sym DL); auto.
          - apply (dl_sq_mono DL); auto. apply (dl_sub_mono DL); auto. }
        apply (dl_sq_zero DL); auto.
        * apply (dl_sq DL); auto.
        * apply (nlt_false_le OL); auto.
        * apply (dl_sub_anti DL); auto. apply (nlt_false_le OL); auto.
  Qed.

  (** ** Bichromatic closest pair *)
  Variable A : Type.
  Variable pt : A -> list (nT N).
  Variable srt : list (nT N * nat) -> list (nT N * nat).
  (** std::sort keeps the elements when the keys are comparable. *)
  Definition sort4_ok : Prop := forall l, (forall e, In e l -> ok (fst e)) -> Permutation (srt l) l.
  Hypothesis Hsrt : sort4_ok.

  Notation D u v := (dist N dim (pt u) (pt v)).

  (** [r'] is [r] improved by the pairs of [l1] x [l2]. *)
  Definition improves (l1 l2 : list A) (r r' : bcp N A) : Prop :=
    (r' = r \/ exists u v, In u l1 /\ In v l2 /\ r' = (Some (u, v), D u v)) /\
    le (snd r') (snd r) /\
    ok (snd r').
  Definition covered (l1 l2 : list A) (r' : bcp N A) : Prop :=
    forall u v, In u l1 -> In v l2 -> le (snd r') (D u v).

  Definition goodTree (t : tree N A) : Prop :=
    boxes_ok dim pt t /\ (forall s, In s (subtrees t) -> finBox (tbox s)) /\
    (forall x, In x (items t) -> finPt (pt x)).

  Lemma good_node b l r : goodTree (Node b l r) -> goodTree l /\ goodTree r.
  Proof.
    intros (H1 & H2 & H3). split; (split; [|split]).
    - intros s Hs. apply H1. simpl. right. apply in_or_app; auto.
    - intros s Hs. apply H2. simpl. right. apply in_or_app; auto.
    - intros x Hx. apply H3. simpl. apply in_or_app; auto.
    - intros s Hs. apply H1. simpl. right. apply in_or_app; auto.
    - intros s Hs. apply H2. simpl. right. apply in_or_app; auto.
    - intros x Hx. apply H3. simpl. apply in_or_app; auto.
  Qed.

  Lemma improves_refl l1 l2 r : ok (snd r) -> improves l1 l2 r r.
  Proof. intros H. split; auto. split; auto. apply (nle_refl OL); auto. Qed.

  Lemma improves_trans l1 l2 m1 m2 k1 k2 r r1 r2 : ok (snd r) ->
    incl l1 k1 -> incl l2 k2 -> incl m1 k1 -> incl m2 k2 ->
    improves l1 l2 r r1 -> improves m1 m2 r1 r2 -> improves k1 k2 r r2.
  Proof.
    intros Hr I1 I2 I3 I4 (A1 & A2 & A3) (B1 & B2 & B3). split; [|split; auto].
    - destruct B1 as [->|(u & v & Hu & Hv & ->)].
      + destruct A1 as [->|(u & v & Hu & Hv & ->)]; auto. right. exists u, v. auto.
      + right. exists u, v. auto.
    - eapply (nle_trans OL); [| | |exact B2|exact A2]; auto.
  Qed.

  Lemma covered_mono l1 l2 m1 m2 r r' : ok (snd r) -> 
    (forall x, In x l1 -> finPt (pt x)) -> (forall x, In x l2 -> finPt (pt x)) ->
    covered l1 l2 r -> improves m1 m2 r r' -> covered l1 l2 r'.
  Proof.
    intros Hr F1 F2 H (_ & B & C) u v Hu Hv. eapply (nle_trans OL); [| | |exact B|apply H; auto]; auto.
    apply (dl_nn_ok DL), dist_nn; auto.
  Qed.

  Lemma update_spec r u v : ok (snd r) -> finPt (pt u) -> finPt (pt v) ->
    improves [u] [v] r (bcpUpdate N dim A pt r u v) /\ covered [u] [v] (bcpUpdate N dim A pt r u v).
  Proof.
    intros Hr Hu Hv. assert (HD : ok (D u v)) by (apply (dl_nn_ok DL), dist_nn; auto).
    unfold bcpUpdate. destruct (nlt N (D u v) (snd r)) eqn:E.
    - split; [split; [|split]|]; cbn [fst snd]; auto.
      + right. exists u, v. simpl; auto.
      + apply (nlt_le OL); auto.
      + intros x y [<-|[]] [<-|[]]. apply (nle_refl OL); auto.
    - split; [apply improves_refl; auto|].
      intros x y [<-|[]] [<-|[]]. apply (nlt_false_le OL); auto.
  Qed.

  Lemma inner_spec l2 : forall u r, ok (snd r) -> finPt (pt u) -> (forall x, In x l2 -> finPt (pt x)) ->
    let r' := fold_left (fun r v => bcpUpdate N dim A pt r u v) l2 r in
    improves [u] l2 r r' /\ covered [u] l2 r'.
  Proof.
    induction l2 as [|v l2 IH]; intros u r Hr Hu Hl; cbn [fold_left].
    - split; [apply improves_refl; auto|]. intros x y _ [].
    - destruct (@update_spec r u v Hr Hu (Hl v (or_introl eq_refl))) as [U1 U2].
      destruct (IH u (bcpUpdate N dim A pt r u v)) as [V1 V2].
      + apply U1.
      + auto.
      + intros x Hx; apply Hl; simpl; auto.
      + split.
        * eapply improves_trans; [| | | | |exact U1|exact V1]; auto;
            intros x; simpl; intuition.
        * intros x y Hx [<-|Hy]; [|apply V2; auto].
          eapply (@covered_mono [u] [v] [u] l2); [exact (proj2 (proj2 U1))| | |exact U2|exact V1| |]; simpl; auto.
          -- intros z [<-|[]]; auto.
          -- intros z [<-|[]]; auto. apply Hl; simpl; auto.
  Qed.

  Lemma loop_spec l2 : forall l1 r, ok (snd r) -> (forall x, In x l1 -> finPt (pt x)) ->
    (forall x, In x l2 -> finPt (pt x)) ->
    improves l1 l2 r (bcpLoop N dim A pt l1 l2 r) /\ covered l1 l2 (bcpLoop N dim A pt l1 l2 r).
  Proof.
    unfold bcpLoop. induction l1 as [|u l1 IH]; intros r Hr H1 H2; cbn [fold_left].
    - split; [apply improves_refl; auto|]. intros x y [].
    - destruct (@inner_spec l2 u r Hr (H1 u (or_introl eq_refl)) H2) as [U1 U2].
      destruct (IH _ (proj2 (proj2 U1)) (fun x Hx => H1 x (or_intror Hx)) H2) as [V1 V2].
      split.
      + eapply improves_trans; [| | | | |exact U1|exact V1]; auto; intros x; simpl; intuition.
      + intros x y [<-|Hx] Hy; [|apply V2; auto].
        eapply (@covered_mono [u] l2 l1 l2); [exact (proj2 (proj2 U1))| | |exact U2|exact V1| |]; simpl; auto.
        intros z [<-|[]]. apply H1; simpl; auto.
  Qed.

  Definition goal (n1 n2 : tree N A) : Prop := forall r, ok (snd r) ->
    improves (items n1) (items n2) r (bcpHelper N dim A pt srt n1 n2 r) /\
    covered (items n1) (items n2) (bcpHelper N dim A pt srt n1 n2 r).

  (** Two successive searches. *)
  Lemma goal_seq (a1 a2 b1 b2 : tree N A) (k1 k2 : list A) r :
    goodTree a1 -> goodTree a2 -> goal a1 a2 -> goal b1 b2 -> ok (snd r) ->
    incl (items a1) k1 -> incl (items a2) k2 -> incl (items b1) k1 -> incl (items b2) k2 ->
    let r' := bcpHelper N dim A pt srt b1 b2 (bcpHelper N dim A pt srt a1 a2 r) in
    improves k1 k2 r r' /\ covered (items a1) (items a2) r' /\ covered (items b1) (items b2) r'.
  Proof.
    intros G1 G2 Ga Gb Hr I1 I2 I3 I4. destruct (Ga r Hr) as [U1 U2].
    destruct (Gb _ (proj2 (proj2 U1))) as [V1 V2]. cbv zeta. split; [|split]; auto.
    - eapply improves_trans; [| | | | |exact U1|exact V1]; auto.
    - eapply covered_mono; [exact (proj2 (proj2 U1))| | |exact U2|exact V1]; [apply G1|apply G2].
  Qed.

  Lemma helper_cut n1 n2 r : goodTree n1 -> goodTree n2 -> ok (snd r) ->
    nlt N (snd r) (nd N dim A n1 n2) = true ->
    improves (items n1) (items n2) r r /\ covered (items n1) (items n2) r.
  Proof.
    intros (B1 & F1 & P1) (B2 & F2 & P2) Hr E. split; [apply improves_refl; auto|].
    intros u v Hu Hv. pose proof (F1 _ (subtrees_self n1)) as FB1. pose proof (F2 _ (subtrees_self n2)) as FB2.
    assert (O1 : ok (nd N dim A n1 n2)) by (apply (dl_nn_ok DL), nodeDistance_nn; auto).
    assert (O2 : ok (D u v)) by (apply (dl_nn_ok DL), dist_nn; auto).
    apply (nle_trans OL) with (y := nd N dim A n1 n2); auto.
    - apply (nlt_le OL); auto.
    - apply nodeDistance_le; auto.
      + intros d Hd. apply (B1 n1 (subtrees_self n1) d Hd u Hu).
      + intros d Hd. apply (B2 n2 (subtrees_self n2) d Hd v Hv).
  Qed.

  Lemma nd_ok n1 n2 : goodTree n1 -> goodTree n2 -> ok (nd N dim A n1 n2).
  Proof.
    intros (B1 & F1 & P1) (B2 & F2 & P2). apply (dl_nn_ok DL), nodeDistance_nn; auto using subtrees_self.
  Qed.

  (** A list of searches over pairs of sub-trees. *)
  Lemma fold_goal (k1 k2 : list A) (f : nat -> bcp N A -> bcp N A) (S1 S2 : nat -> list A) :
    (forall x, In x k1 -> finPt (pt x)) -> (forall x, In x k2 -> finPt (pt x)) ->
    (forall i, incl (S1 i) k1 /\ incl (S2 i) k2) ->
    (forall i r, ok (snd r) -> improves (S1 i) (S2 i) r (f i r) /\ covered (S1 i) (S2 i) (f i r)) ->
    forall (os : list (nT N * nat)) r, ok (snd r) ->
    let r' := fold_left (fun r o => f (snd o) r) os r in
    improves k1 k2 r r' /\ (forall o, In o os -> covered (S1 (snd o)) (S2 (snd o)) r').
  Proof.
    intros P1 P2 HI Hf. induction os as [|o os IH]; intros r Hr; cbn [fold_left].
    - split; [apply improves_refl; auto|]. intros o [].
    - destruct (Hf (snd o) r Hr) as [U1 U2].
      destruct (IH _ (proj2 (proj2 U1))) as [V1 V2]. destruct (HI (snd o)) as [I1 I2]. split.
      + eapply improves_trans; [| | | | |exact U1|exact V1]; auto using incl_refl.
      + intros o' [<-|Ho]; [|apply V2; auto].
        eapply covered_mono; [exact (proj2 (proj2 U1))| | |exact U2|exact V1]; auto.
  Qed.

  Lemma helper_spec : forall n1 n2, goodTree n1 -> goodTree n2 -> goal n1 n2.
  Proof.
    induction n1 as [l1 b1|b1 L1 IHL1 R1 IHR1]; induction n2 as [l2 b2|b2 L2 IHL2 R2 IHR2];
      intros G1 G2 r Hr; cbn [bcpHelper];
      match goal with |- context [nlt N (snd r) ?d] => destruct (nlt N (snd r) d) eqn:E end;
      try (apply helper_cut; auto; fail).
    - apply loop_spec; auto; [apply G1|apply G2].
    - destruct (good_node G2) as [GL GR]. specialize (IHL2 G1 GL). specialize (IHR2 G1 GR).
      fold (bcpHelper N dim A pt srt). cbn [bcpHelper] in IHL2, IHR2.
      destruct (nlt N (nd N dim A (Leaf l1 b1) L2) (nd N dim A (Leaf l1 b1) R2)).
      + destruct (@goal_seq (Leaf l1 b1) L2 (Leaf l1 b1) R2 l1 (items L2 ++ items R2) r) as (U & V & W); auto;
          try (intros x; simpl; auto; intros; apply in_or_app; auto; fail).
        split; [exact U|]. intros u v Hu Hv. cbn [items] in Hv. apply in_app_or in Hv as [Hv|Hv]; [apply V|apply W]; auto.
      + destruct (@goal_seq (Leaf l1 b1) R2 (Leaf l1 b1) L2 l1 (items L2 ++ items R2) r) as (U & V & W); auto;
          try (intros x; simpl; auto; intros; apply in_or_app; auto; fail).
        split; [exact U|]. intros u v Hu Hv. cbn [items] in Hv. apply in_app_or in Hv as [Hv|Hv]; [apply W|apply V]; auto.
    - destruct (good_node G1) as [GL GR].
      specialize (IHL1 (Leaf l2 b2) GL G2). specialize (IHR1 (Leaf l2 b2) GR G2).
      destruct (nlt N (nd N dim A (Leaf l2 b2) L1) (nd N dim A (Leaf l2 b2) R1)).
      + destruct (@goal_seq L1 (Leaf l2 b2) R1 (Leaf l2 b2) (items L1 ++ items R1) l2 r) as (U & V & W); auto;
          try (intros x; simpl; auto; intros; apply in_or_app; auto; fail).
        split; [exact U|]. intros u v Hu Hv. cbn [items] in Hu. apply in_app_or in Hu as [Hu|Hu]; [apply V|apply W]; auto.
      + destruct (@goal_seq R1 (Leaf l2 b2) L1 (Leaf l2 b2) (items L1 ++ items R1) l2 r) as (U & V & W); auto;
          try (intros x; simpl; auto; intros; apply in_or_app; auto; fail).
        split; [exact U|]. intros u v Hu Hv. cbn [items] in Hu. apply in_app_or in Hu as [Hu|Hu]; [apply W|apply V]; auto.
    - destruct (good_node G1) as [GL1 GR1], (good_node G2) as [GL2 GR2].
      clear IHL2 IHR2.
      set (os := [(nd N dim A L1 L2, 0); (nd N dim A L1 R2, 1); (nd N dim A R1 L2, 2); (nd N dim A R1 R2, 3)]).
      assert (HP : Permutation (srt os) os).
      { apply Hsrt. intros e He. unfold os in He. simpl in He.
        destruct He as [<-|[<-|[<-|[<-|[]]]]]; apply nd_ok; auto. }
      set (f := fun i r => match i with
            | 0 => bcpHelper N dim A pt srt L1 L2 r
            | 1 => bcpHelper N dim A pt srt L1 R2 r
            | 2 => bcpHelper N dim A pt srt R1 L2 r
            | _ => bcpHelper N dim A pt srt R1 R2 r end).
      destruct (@fold_goal (items L1 ++ items R1) (items L2 ++ items R2) f
        (fun i => match i with 0 => items L1 | 1 => items L1 | 2 => items R1 | _ => items R1 end)
        (fun i => match i with 0 => items L2 | 1 => items R2 | 2 => items L2 | _ => items R2 end))
        with (os := srt os) (r := r) as [U V]; auto.
      + apply G1.
      + apply G2.
      + intros i. destruct i as [|[|[|i]]]; split; intros x Hx; apply in_or_app; auto.
      + intros i r0 Hr0. unfold f. destruct i as [|[|[|i]]].
        * apply (IHL1 L2 GL1 GL2); auto.
        * apply (IHL1 R2 GL1 GR2); auto.
        * apply (IHR1 L2 GR1 GL2); auto.
        * apply (IHR1 R2 GR1 GR2); auto.
      + split; [exact U|]. intros u v Hu Hv. cbn [items] in Hu, Hv.
        assert (VV : forall o, In o os -> covered
          (match snd o with 0 => items L1 | 1 => items L1 | 2 => items R1 | _ => items R1 end)
          (match snd o with 0 => items L2 | 1 => items R2 | 2 => items L2 | _ => items R2 end)
          (fold_left (fun r o => f (snd o) r) (srt os) r)).
        { intros o Ho. apply V. eapply Permutation_in; [symmetry|]; eauto. }
        apply in_app_or in Hu as [Hu|Hu]; apply in_app_or in Hv as [Hv|Hv].
        * apply (VV (nd N dim A L1 L2, 0)); simpl; auto.
        * apply (VV (nd N dim A L1 R2, 1)); simpl; auto.
        * apply (VV (nd N dim A R1 L2, 2)); simpl; auto.
        * apply (VV (nd N dim A R1 R2, 3)); simpl; auto.
  Qed.

  (** The result is a closest pair, or the initial value when every distance
      reaches the largest number. *)
  Lemma bccp_correct n1 n2 : goodTree n1 -> goodTree n2 ->
    match bichromaticClosestPair N dim A pt srt n1 n2 with
    | (Some (u, v), d) => In u (items n1) /\ In v (items n2) /\ d = D u v /\
        forall x y, In x (items n1) -> In y (items n2) -> le d (D x y)
    | (None, d) => d = nmax N /\ forall x y, In x (items n1) -> In y (items n2) -> le (nmax N) (D x y)
    end.
  Proof.
    intros G1 G2. unfold bichromaticClosestPair.
    destruct (@helper_spec n1 n2 G1 G2 (bcp0 N A) (dl_max DL)) as [(U & _ & _) V].
    destruct U as [E|(u & v & Hu & Hv & E)].
    - rewrite E in *. split; auto.
    - rewrite E in *. split; auto.
  Qed.

  Lemma bruteforce_correct l1 l2 : (forall x, In x l1 -> finPt (pt x)) -> (forall x, In x l2 -> finPt (pt x)) ->
    match bcpBruteforce N dim A pt l1 l2 with
    | (Some (u, v), d) => In u l1 /\ In v l2 /\ d = D u v /\
        forall x y, In x l1 -> In y l2 -> le d (D x y)
    | (None, d) => d = nmax N /\ forall x y, In x l1 -> In y l2 -> le (nmax N) (D x y)
    end.
  Proof.
    intros G1 G2. unfold bcpBruteforce.
    destruct (@loop_spec l2 l1 (bcp0 N A) (dl_max DL) G1 G2) as [(U & _ & _) V].
    destruct U as [E|(u & v & Hu & Hv & E)].
    - rewrite E in *. split; auto.
    - rewrite E in *. split; auto.
  Qed.
End Gen.
