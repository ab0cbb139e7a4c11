(** The driver of the Delaunay triangulation over the reals: the ring of ten
    points, the permutation, the output. *)
From Coq Require Import Reals Lra Psatz.
From Verif Require Import Base Num Sched DelModel DelGeom DelTopo DelFlip DelCav DelTree DelRound DelMain DelInit DelEnd DelSpec.
Set Implicit Arguments.
Local Open Scope R_scope.

(** *** Specification and geometry *)
Lemma inDisc_iff a b c d : 0 < area2 a b c -> (inDisc a b c d <-> 0 < incirc a b c d).
Proof.
  intros C.
  assert (Sy : forall u v, dsq u v = sqd v u) by (intros [] []; unfold dsq, sqd; cbn; ring).
  split.
  - intros (o & E1 & E2 & L). rewrite (Sy o a), (Sy o b) in E1. rewrite (Sy o a), (Sy o c) in E2. rewrite (Sy o a), (Sy o d) in L. rewrite (@circ_power a b c d o (sqd a o) eq_refl (eq_sym E1) (eq_sym E2)). apply Rmult_lt_0_compat; lra.
  - intros H. destruct (@centre_ok a b c) as (E1 & E2); [lra|]. exists (centre a b c). rewrite (Sy _ a), (Sy _ b), (Sy _ c), (Sy _ d). split; auto. split; auto.
    rewrite (@circ_power a b c d (centre a b c) _ eq_refl (eq_sym E1) (eq_sym E2)) in H.
    destruct (Rlt_dec (sqd d (centre a b c)) (sqd a (centre a b c))) as [|N]; auto. exfalso.
    pose proof (Rmult_le_pos (sqd d (centre a b c) - sqd a (centre a b c)) (area2 a b c) ltac:(lra) ltac:(lra)). lra.
Qed.
Lemma cocirc_of a b c d : area2 a b c <> 0 -> incirc a b c d = 0 -> cocircular a b c d.
Proof.
  intros C H. destruct (@centre_ok a b c C) as (E1 & E2).
  assert (Sy : forall u v, dsq u v = sqd v u) by (intros [] []; unfold dsq, sqd; cbn; ring).
  exists (centre a b c). rewrite (Sy _ a), (Sy _ b), (Sy _ c), (Sy _ d). split; auto. split; auto.
  rewrite (@circ_power a b c d (centre a b c) _ eq_refl (eq_sym E1) (eq_sym E2)) in H.
  apply Rmult_integral in H. destruct H; [lra|congruence].
Qed.

(** The directions of the ring: on the unit circle, in convex position, with the
    square of side 3/10 around the centre inside *)
Record ring10 (cs sn : nat -> R) : Prop := {
  r_unit : forall i, (i < 10)%nat -> cs i * cs i + sn i * sn i = 1;
  r_cvx : forall i j k, (i < j)%nat -> (j < k)%nat -> (k < 10)%nat -> 0 < turn (cs i, sn i) (cs j, sn j) (cs k, sn k);
  r_core : forall i v, (i < 10)%nat -> -3/20 <= fst v <= 3/20 -> -3/20 <= snd v <= 3/20 ->
    0 < turn (cs i, sn i) (cs ((i + 1) mod 10)%nat, sn ((i + 1) mod 10)%nat) v;
}.

Section Corner.
  Lemma corner_min (P : list P2) : forall p0,
    (forall p, p = p0 \/ In p P -> fst (@corner RNum (nmin2 RNum) p0 P) <= fst p /\ snd (@corner RNum (nmin2 RNum) p0 P) <= snd p).
  Proof.
    unfold corner. induction P as [|q P IH]; intros p0 p; cbn [fold_left].
    - intros [->|[]]. split; apply Rle_refl.
    - set (p1 := (nmin2 RNum (fst p0) (fst q), nmin2 RNum (snd p0) (snd q))).
      assert (M : forall x y : R, nmin2 RNum x y <= x /\ nmin2 RNum x y <= y).
      { intros x y. unfold nmin2. cbn [nlt RNum]. destruct (Rltb y x) eqn:E; [apply Rltb_true in E|apply Rltb_false in E]; lra. }
      intros [->|[->|H]].
      + destruct (IH p1 p1 (or_introl eq_refl)) as (I1 & I2). split; [apply (Rle_trans _ _ _ I1)|apply (Rle_trans _ _ _ I2)]; apply M.
      + destruct (IH p1 p1 (or_introl eq_refl)) as (I1 & I2). split; [apply (Rle_trans _ _ _ I1)|apply (Rle_trans _ _ _ I2)]; apply M.
      + apply (IH p1 p). auto.
  Qed.
  Lemma corner_max (P : list P2) : forall p0,
    (forall p, p = p0 \/ In p P -> fst p <= fst (@corner RNum (nmax2 RNum) p0 P) /\ snd p <= snd (@corner RNum (nmax2 RNum) p0 P)).
  Proof.
    unfold corner. induction P as [|q P IH]; intros p0 p; cbn [fold_left].
    - intros [->|[]]. split; apply Rle_refl.
    - set (p1 := (nmax2 RNum (fst p0) (fst q), nmax2 RNum (snd p0) (snd q))).
      assert (M : forall x y : R, x <= nmax2 RNum x y /\ y <= nmax2 RNum x y).
      { intros x y. unfold nmax2. cbn [nlt RNum]. destruct (Rltb x y) eqn:E; [apply Rltb_true in E|apply Rltb_false in E]; lra. }
      intros [->|[->|H]].
      + destruct (IH p1 p1 (or_introl eq_refl)) as (I1 & I2). split; [refine (Rle_trans _ _ _ _ I1)|refine (Rle_trans _ _ _ _ I2)]; apply M.
      + destruct (IH p1 p1 (or_introl eq_refl)) as (I1 & I2). split; [refine (Rle_trans _ _ _ _ I1)|refine (Rle_trans _ _ _ _ I2)]; apply M.
      + apply (IH p1 p). auto.
  Qed.
End Corner.

Section Ring.
  Variables cs sn : nat -> R.
  Hypothesis RG : ring10 cs sn.
  Variable P : list P2.
  Hypothesis P2pts : exists p q, In p P /\ In q P /\ p <> q.

  (** The ring: centre, radius, points *)
  Lemma ring_ok : exists c rad B, @boundaryPoints RNum cs sn P 10 = Ok B /\ 0 < rad /\ length B = 10%nat /\
    (forall i, (i < 10)%nat -> nth i B (0, 0) = (fst c + rad * cs i, snd c + rad * sn i)) /\
    (forall p, In p P -> -3/20 * rad <= fst p - fst c <= 3/20 * rad /\ -3/20 * rad <= snd p - snd c <= 3/20 * rad).
  Proof.
    destruct P2pts as (p & q & Hp & Hq & Npq). assert (EP : exists p0 P', P = p0 :: P') by (destruct P; [destruct Hp|eauto]).
    destruct EP as (p0 & P' & EP).
    set (lo := @corner RNum (nmin2 RNum) p0 P). set (hi := @corner RNum (nmax2 RNum) p0 P).
    assert (Hlo : forall p, In p P -> fst lo <= fst p /\ snd lo <= snd p) by (intros x Hx; apply corner_min; auto).
    assert (Hhi : forall p, In p P -> fst p <= fst hi /\ snd p <= snd hi) by (intros x Hx; apply corner_max; auto).
    set (dx := fst hi - fst lo). set (dy := snd hi - snd lo).
    set (size := sqrt (dx * dx + dy * dy)).
    assert (D0 : 0 <= dx /\ 0 <= dy /\ (0 < dx \/ 0 < dy)).
    { pose proof (Hlo _ Hp). pose proof (Hlo _ Hq). pose proof (Hhi _ Hp). pose proof (Hhi _ Hq). unfold dx, dy. split; [lra|]. split; [lra|].
      destruct p as [p1 p2], q as [q1 q2]. cbn [fst snd] in *.
      destruct (Req_dec p1 q1) as [->|N1]; [|left; lra]. right. assert (p2 <> q2) by congruence. lra. }
    destruct D0 as (Dx & Dy & Dp).
    assert (S2 : size * size = dx * dx + dy * dy) by (unfold size; apply sqrt_sqrt; nra).
    assert (S0 : 0 <= size) by apply sqrt_pos.
    assert (S1 : 0 < size) by (destruct S0 as [S0|S0]; auto; exfalso; rewrite <- S0 in S2; destruct Dp; nra).
    assert (Sx : dx <= size) by nra. assert (Sy : dy <= size) by nra.
    assert (T10 : @nten RNum = 10) by (unfold nten; cbn; lra).
    exists (fst hi + dx / 2, snd hi + dy / 2), (10 * size). eexists. split; [|split; [lra|]].
    { unfold boundaryPoints. rewrite EP at 1. cbv beta iota zeta. rewrite T10. unfold psub. cbn [nsub nadd nmul ndiv nsqrt ntwo RNum fst snd nT].
      fold lo hi. fold dx dy. fold size. reflexivity. }
    split; [rewrite map_length; apply seq_length|]. split.
    - intros i Hi. rewrite (nth_indep _ (0, 0) ((fun i => (fst hi + dx / 2 + 10 * size * cs i, snd hi + dy / 2 + 10 * size * sn i)) 0%nat))
        by (rewrite map_length, seq_length; auto).
      rewrite (map_nth (fun i => (fst hi + dx / 2 + 10 * size * cs i, snd hi + dy / 2 + 10 * size * sn i))).
      rewrite seq_nth by auto. reflexivity.
    - intros x Hx. pose proof (Hlo _ Hx). pose proof (Hhi _ Hx). cbn [fst snd]. unfold dx, dy in *. lra.
  Qed.
End Ring.

(** *** The permutation *)
Lemma nth_ids_lt n ids v : Permutation ids (seq 0 n) -> (v < n)%nat -> (nth v ids v < n)%nat.
Proof.
  intros H L. assert (Q : length ids = n) by (rewrite (Permutation_length H); apply seq_length).
  assert (I : In (nth v ids v) ids) by (apply nth_In; lia). apply (Permutation_in _ H) in I. apply in_seq in I. lia.
Qed.
Lemma nth_ids_ge n ids v : Permutation ids (seq 0 n) -> (n <= v)%nat -> nth v ids v = v.
Proof. intros H L. apply nth_overflow. rewrite (Permutation_length H), seq_length. auto. Qed.
Lemma nth_ids_inj n ids u v : Permutation ids (seq 0 n) -> nth u ids u = nth v ids v -> u = v.
Proof.
  intros H E. assert (Q : length ids = n) by (rewrite (Permutation_length H); apply seq_length).
  destruct (le_lt_dec n u) as [U|U], (le_lt_dec n v) as [V|V].
  - rewrite !(nth_ids_ge H) in E by auto. auto.
  - rewrite (nth_ids_ge H U) in E. pose proof (nth_ids_lt H V). lia.
  - rewrite (nth_ids_ge H V) in E. pose proof (nth_ids_lt H U). lia.
  - assert (ND : NoDup ids) by (apply (Permutation_NoDup (Permutation_sym H)); apply seq_NoDup).
    rewrite (nth_indep ids v u) in E by lia. apply (proj1 (NoDup_nth ids u) ND u v); lia.
Qed.
Lemma nth_ids_sur n ids l k : Permutation ids (seq 0 n) -> (l < n + k)%nat -> exists v, (v < n + k)%nat /\ nth v ids v = l.
Proof.
  intros H L. assert (Q : length ids = n) by (rewrite (Permutation_length H); apply seq_length).
  destruct (le_lt_dec n l) as [U|U]; [exists l; split; auto; apply (nth_ids_ge H U)|].
  assert (I : In l ids) by (apply (Permutation_in l (Permutation_sym H)); apply in_seq; lia).
  apply (In_nth _ _ l) in I. destruct I as (v & Lv & E). exists v. split; [lia|]. rewrite (nth_indep ids v l) by lia. auto.
Qed.

(** What the driver returns *)
Record outOk (n : nat) (V : list pt) (T : list tri) : Prop := {
  o_len : length T = (2 * n + 8)%nat;
  o_sound : forall t, In t T -> delTri V t;
  o_comp : forall t, delTri V t -> once t T;
  o_edge : forall i j t t' a b, nth_error T i = Some t -> nth_error T j = Some t' -> edge t a b -> edge t' a b -> i = j;
  o_opp : forall t a b, In t T -> edge t a b -> (n <= a /\ b = next n a)%nat \/ exists t', In t' T /\ edge t' b a;
  o_cover : forall x, inRing V n x -> exists t, In t T /\ inTri V t x;
}.

Lemma boundary_len cs sn P nb B : @boundaryPoints RNum cs sn P nb = Ok B -> length B = nb.
Proof.
  unfold boundaryPoints. destruct P; [discriminate|]. intros E. injection E as <-. rewrite map_length. apply seq_length.
Qed.

Lemma corner_at (pick : R -> R -> R) (Hpick : forall x y, pick x y = x \/ pick x y = y) (P : list P2) : forall p0,
  (fst (@corner RNum pick p0 P) = fst p0 \/ exists p, In p P /\ fst p = fst (@corner RNum pick p0 P)) /\
  (snd (@corner RNum pick p0 P) = snd p0 \/ exists p, In p P /\ snd p = snd (@corner RNum pick p0 P)).
Proof.
  unfold corner. induction P as [|q P IH]; intros p0; cbn [fold_left]; [auto|].
  destruct (IH (pick (fst p0) (fst q), pick (snd p0) (snd q))) as (I1 & I2). cbn [fst snd] in I1, I2. split.
  - destruct I1 as [I1|(p & Hp & E)]; [|right; exists p; split; [right|]; auto].
    destruct (Hpick (fst p0) (fst q)) as [Q|Q]; [left; exact (eq_trans I1 Q)|right; exists q; split; [left; auto|exact (eq_sym (eq_trans I1 Q))]].
  - destruct I2 as [I2|(p & Hp & E)]; [|right; exists p; split; [right|]; auto].
    destruct (Hpick (snd p0) (snd q)) as [Q|Q]; [left; exact (eq_trans I2 Q)|right; exists q; split; [left; auto|exact (eq_sym (eq_trans I2 Q))]].
Qed.

Lemma least_unique f P a b : least f P a -> least f P b -> a = b.
Proof.
  intros ((p & Hp & E) & L) ((q & Hq & E') & L'). pose proof (L q Hq). pose proof (L' p Hp). lra.
Qed.
Lemma greatest_unique f P a b : greatest f P a -> greatest f P b -> a = b.
Proof.
  intros ((p & Hp & E) & L) ((q & Hq & E') & L'). pose proof (L q Hq). pose proof (L' p Hp). lra.
Qed.

Lemma ringOf_ok cs sn P : P <> [] -> exists B, @boundaryPoints RNum cs sn P 10 = Ok B /\ forall B', ringOf cs sn P B' <-> B' = B.
Proof.
  intros NE. assert (EP : exists p0 P', P = p0 :: P') by (destruct P; [congruence|eauto]). destruct EP as (p0 & P' & EP).
  assert (I0 : In p0 P) by (rewrite EP; left; auto).
  assert (Pmin : forall x y, nmin2 RNum x y = x \/ nmin2 RNum x y = y) by (intros x y; unfold nmin2; destruct (nlt RNum y x); auto).
  assert (Pmax : forall x y, nmax2 RNum x y = x \/ nmax2 RNum x y = y) by (intros x y; unfold nmax2; destruct (nlt RNum x y); auto).
  set (lo := @corner RNum (nmin2 RNum) p0 P). set (hi := @corner RNum (nmax2 RNum) p0 P).
  destruct (@corner_at (nmin2 RNum) Pmin P p0) as (A1 & A2). destruct (@corner_at (nmax2 RNum) Pmax P p0) as (A3 & A4). fold lo in A1, A2. fold hi in A3, A4.
  assert (L1 : least fst P (fst lo)) by (split; [destruct A1 as [A|A]; auto; exists p0; auto|intros p Hp; apply (@corner_min P p0 p); auto]).
  assert (L2 : least snd P (snd lo)) by (split; [destruct A2 as [A|A]; auto; exists p0; auto|intros p Hp; apply (@corner_min P p0 p); auto]).
  assert (L3 : greatest fst P (fst hi)) by (split; [destruct A3 as [A|A]; auto; exists p0; auto|intros p Hp; apply (@corner_max P p0 p); auto]).
  assert (L4 : greatest snd P (snd hi)) by (split; [destruct A4 as [A|A]; auto; exists p0; auto|intros p Hp; apply (@corner_max P p0 p); auto]).
  assert (T10 : @nten RNum = 10) by (unfold nten; cbn; lra).
  set (s := sqrt ((fst hi - fst lo) * (fst hi - fst lo) + (snd hi - snd lo) * (snd hi - snd lo))).
  exists (map (fun i => (fst hi + (fst hi - fst lo) / 2 + 10 * s * cs i, snd hi + (snd hi - snd lo) / 2 + 10 * s * sn i)) (seq 0 10)). split.
  - unfold boundaryPoints. rewrite EP at 1. cbv beta iota zeta. rewrite T10. unfold psub. cbn [nsub nadd nmul ndiv nsqrt ntwo RNum fst snd nT].
    fold lo hi. fold s. reflexivity.
  - intros B'. split.
    + intros (x0 & y0 & x1 & y1 & Q1 & Q2 & Q3 & Q4 & E). rewrite (least_unique Q1 L1), (least_unique Q2 L2), (greatest_unique Q3 L3), (greatest_unique Q4 L4) in E.
      exact E.
    + intros ->. exists (fst lo), (snd lo), (fst hi), (snd hi). auto.
Qed.

Section Driver.
  Variables cs sn : nat -> R.
  Hypothesis RG : ring10 cs sn.
  Variable P : list P2.
  Let n := length P.
  Hypothesis N2 : (2 <= n)%nat.
  Variable B : list P2.
  Hypothesis EB : @boundaryPoints RNum cs sn P 10 = Ok B.
  Let V := P ++ B.
  Hypothesis GEN : genPos V n.
  Variable ids : list nat.
  Hypothesis IDS : Permutation ids (seq 0 n).
  Let vid v := nth v ids v.
  Let vp v := nth (vid v) V (0, 0).

  Lemma two_pts : exists p q, In p P /\ In q P /\ p <> q.
  Proof.
    assert (B10 : length B = 10%nat) by apply (@boundary_len _ _ _ _ _ EB).
    assert (LV : @length pt V = (n + 10)%nat) by (etransitivity; [apply (app_length P B)|]; rewrite B10; reflexivity).
    exists (nth 0 P (0, 0)), (nth 1 P (0, 0)). split; [apply nth_In; fold n; lia|]. split; [apply nth_In; fold n; lia|]. intros E.
    apply (proj1 GEN 0%nat 1%nat n); try lia.
    assert (At : forall i, (i < n)%nat -> at_ V i = nth i P (0, 0)) by (intros i Hi; apply (app_nth1 P B); auto).
    rewrite (At 0%nat), (At 1%nat) by lia. rewrite E. unfold turn. ring.
  Qed.

  Lemma driver_genpos : genpos n 10 vp /\
    (forall a b c d, bnd n 10 a -> bnd n 10 b -> bnd n 10 c -> bnd n 10 d -> iv vp a b c d <= 0) /\
    (forall a b c p, bnd n 10 a -> bnd n 10 b -> bnd n 10 c -> ccwv vp a b c -> (p < n)%nat -> 0 < iv vp a b c p) /\
    @length pt V = (n + 10)%nat /\ (forall a b, hull n 10 a b <-> bnd n 10 a /\ b = next n a).
  Proof.
    destruct (@ring_ok cs sn P two_pts) as (c & rad & B' & EB' & Hr & LB & HB & HP).
    rewrite EB in EB'. injection EB' as <-.
    assert (LV : @length pt V = (n + 10)%nat) by (etransitivity; [apply (app_length P B)|exact (f_equal (Nat.add n) LB)]).
    assert (Vb : forall v, bnd n 10 v -> vp v = (fst c + rad * cs (v - n)%nat, snd c + rad * sn (v - n)%nat)).
    { intros v (H1 & H2). unfold vp, vid, V. rewrite (nth_ids_ge IDS H1). rewrite (app_nth2 P) by (fold n; lia). fold n. apply HB. lia. }
    assert (Vp : forall v, (v < n)%nat -> In (vp v) P).
    { intros v H. unfold vp, vid, V. pose proof (nth_ids_lt IDS H). rewrite (app_nth1 P) by (fold n; lia). apply nth_In. fold n. lia. }
    assert (Vl : forall v, vok n 10 v -> (vid v < @length pt V)%nat).
    { intros v H. unfold vok in H. rewrite LV. unfold vid. destruct (le_lt_dec n v) as [Q|Q]; [rewrite (nth_ids_ge IDS Q); auto|].
      pose proof (nth_ids_lt IDS Q). lia. }
    assert (Inj : forall u v, vid u = vid v -> u = v) by (intros u v; apply (@nth_ids_inj n ids u v IDS)).
    assert (Sc : forall i j k, area2 (fst c + rad * cs i, snd c + rad * sn i) (fst c + rad * cs j, snd c + rad * sn j) (fst c + rad * cs k, snd c + rad * sn k)
                  = rad * rad * turn (cs i, sn i) (cs j, sn j) (cs k, sn k)).
    { intros. unfold area2, turn. cbn [fst snd]. ring. }
    assert (R2 : 0 < rad * rad) by nra.
    assert (On : forall v, bnd n 10 v -> sqd (vp v) c = rad * rad).
    { intros v H. rewrite (Vb v H). pose proof (@r_unit _ _ RG (v - n)) as U. unfold bnd in H. specialize (U ltac:(lia)).
      unfold sqd. cbn [fst snd]. transitivity (rad * rad * (cs (v - n)%nat * cs (v - n)%nat + sn (v - n)%nat * sn (v - n)%nat)); [ring|]. rewrite U. ring. }
    assert (HU : forall a b, hull n 10 a b <-> bnd n 10 a /\ b = next n a).
    { intros a b. unfold hull, bnd, next. destruct (Nat.eqb_spec (a + 1) (n + 10)); lia. }
    assert (GPv : genpos n 10 vp).
    { constructor.
      - lia.
      - intros i j k H1 H2 H3 H4. unfold ccwv, A2. rewrite !Vb by (unfold bnd; lia). rewrite Sc. apply Rmult_lt_0_compat; auto. apply (r_cvx RG); lia.
      - intros a b p H Hp. apply HU in H. destruct H as (Ha & Hb). unfold ccwv, A2.
        assert (Bb : bnd n 10 b). { subst b. unfold next, bnd in *. destruct (Nat.eqb_spec (a + 1) (n + 10)); lia. }
        rewrite !Vb by auto. specialize (HP _ (Vp _ Hp)). set (x := vp p) in *.
        pose proof (@r_core _ _ RG (a - n) ((fst x - fst c) / rad, (snd x - snd c) / rad)) as Q. cbn [fst snd] in Q.
        assert (Ei : ((a - n + 1) mod 10)%nat = (b - n)%nat).
        { unfold bnd in Ha. subst b. unfold next. destruct (Nat.eqb_spec (a + 1) (n + 10)).
          - replace (a - n + 1)%nat with 10%nat by lia. rewrite Nat.mod_same by lia. lia.
          - rewrite Nat.mod_small by lia. lia. }
        rewrite Ei in Q.
        assert (Dv : forall y, -3/20 * rad <= y <= 3/20 * rad -> -3/20 <= y / rad <= 3/20).
        { intros y Hy. split; apply Rmult_le_reg_r with rad; auto; replace (y / rad * rad) with y by (field; lra); lra. }
        assert (Q' : 0 < turn (cs (a - n)%nat, sn (a - n)%nat) (cs (b - n)%nat, sn (b - n)%nat) ((fst x - fst c) / rad, (snd x - snd c) / rad)).
        { apply Q; [unfold bnd in Ha; lia|apply Dv; apply HP|apply Dv; apply HP]. }
        assert (E : area2 (fst c + rad * cs (a - n)%nat, snd c + rad * sn (a - n)%nat) (fst c + rad * cs (b - n)%nat, snd c + rad * sn (b - n)%nat) x
           = rad * rad * turn (cs (a - n)%nat, sn (a - n)%nat) (cs (b - n)%nat, sn (b - n)%nat) ((fst x - fst c) / rad, (snd x - snd c) / rad)).
        { unfold area2, turn. cbn [fst snd]. field. lra. }
        rewrite E. apply Rmult_lt_0_compat; auto.
      - intros a b d Ha Hb Hd N1 N3 N4. apply (proj1 GEN (vid a) (vid b) (vid d)); auto.
      - intros a b d e Ha Hb Hd He ND Z.
        assert (C : area2 (vp a) (vp b) (vp d) <> 0).
        { inversion ND as [|? ? X1 ND1]; subst. inversion ND1 as [|? ? X2 ND2]; subst. cbn in X1, X2.
          apply (proj1 GEN (vid a) (vid b) (vid d)); auto; intros Q; apply Inj in Q; subst; tauto. }
        pose proof (cocirc_of C Z) as CO.
        assert (ND' : NoDup [vid a; vid b; vid d; vid e]).
        { change [vid a; vid b; vid d; vid e] with (map vid [a; b; d; e]). apply FinFun.Injective_map_NoDup; auto. }
        destruct (proj2 GEN (vid a) (vid b) (vid d) (vid e)) as (Q1 & Q2 & Q3 & Q4); auto.
        assert (Bd : forall v, vok n 10 v -> (n <= vid v)%nat -> bnd n 10 v).
        { intros v Hv Q. unfold vok in Hv. unfold bnd. destruct (le_lt_dec n v); [lia|]. pose proof (nth_ids_lt IDS l). unfold vid in Q. lia. }
        repeat split; apply Bd; auto. }
    split; auto. split; [|split; [|split; auto]].
    - intros a b d e Ha Hb Hd He. unfold iv. rewrite (@circ_power _ _ _ _ c (rad * rad)) by auto. rewrite (On e He). lra.
    - intros a b d p Ha Hb Hd C Hp. unfold iv. rewrite (@circ_power _ _ _ _ c (rad * rad)) by auto. apply Rmult_lt_0_compat; auto.
      specialize (HP _ (Vp _ Hp)). unfold sqd. set (x := vp p) in *. nra.
  Qed.

  Let GP : genpos n 10 vp := proj1 driver_genpos.
  Let N1 : (1 <= n)%nat.
  Proof. lia. Qed.
  Let LV : @length pt V = (n + 10)%nat.
  Proof. apply driver_genpos. Qed.

  Section Final.
    Variable m : mesh.
    Hypothesis G : good n 10 vp m (fun v => (v < n)%nat).
    Hypothesis Cap : cap m = (2 * n + 8)%nat.

    Definition corner3 (t : nat) : nat * nat * nat :=
      match tm m t with Some r => (vid (vx r 0), vid (vx r 1), vid (vx r 2)) | None => (0, 0, 0)%nat end.
    Lemma out_eq : mapR (corners vid m) (seq 0 (cap m)) = Ok (map corner3 (seq 0 (cap m))).
    Proof.
      apply mapR_ok. intros t Ht. apply in_seq in Ht. assert (A : alive m t) by (apply (all_alive N1 G); lia).
      unfold corners, corner3, getT. unfold alive, vxs in A. destruct (tm m t); [reflexivity|]. cbn in A. congruence.
    Qed.
    Let T := map corner3 (seq 0 (cap m)).

    Lemma T_nth t x : nth_error T t = Some x -> exists a b c, (t < cap m)%nat /\ tri3 m t a b c /\ x = (vid a, vid b, vid c).
    Proof.
      intros E. assert (L : (t < cap m)%nat).
      { assert (Q : nth_error T t <> None) by congruence. apply nth_error_Some in Q. unfold T in Q. rewrite map_length, seq_length in Q. auto. }
      assert (A : alive m t) by (apply (all_alive N1 G); auto).
      assert (E' : nth_error T t = Some (corner3 t)).
      { unfold T. apply map_nth_error. rewrite (nth_error_nth' _ 0%nat) by (rewrite seq_length; auto). rewrite seq_nth by auto. reflexivity. }
      rewrite E in E'. injection E' as ->. unfold corner3. unfold alive, vxs in A. destruct (tm m t) as [r|] eqn:Er; [|cbn in A; congruence].
      exists (vx r 0), (vx r 1), (vx r 2). split; auto. split; auto. exists (vx r), 0%nat. rewrite (@vxs_tm _ _ _ Er). auto 10.
    Qed.
    Lemma T_of t a b c : tri3 m t a b c -> exists x, nth_error T t = Some x /\ rotOf (vid a, vid b, vid c) x.
    Proof.
      intros H. assert (L : (t < cap m)%nat) by (apply (w_cap (d_wf (g_del G))); apply (tri3_alive H)).
      destruct (nth_error T t) as [x|] eqn:E.
      - exists x. split; auto. destruct (T_nth _ E) as (a' & b' & c' & _ & H' & ->).
        destruct (tri3_same H H') as [Q|[Q|Q]]; injection Q as -> -> ->; cbn; auto.
      - apply nth_error_None in E. unfold T in E. rewrite map_length, seq_length in E. lia.
    Qed.
    Lemma vok_vid v : vok n 10 v -> (vid v < @length pt V)%nat.
    Proof.
      intros H. unfold vok in H. rewrite LV. unfold vid. destruct (le_lt_dec n v) as [Q|Q]; [rewrite (nth_ids_ge IDS Q); auto|].
      pose proof (nth_ids_lt IDS Q). lia.
    Qed.
    Lemma delTri_iff a b c : vok n 10 a -> vok n 10 b -> vok n 10 c ->
      (delTri V (vid a, vid b, vid c) <-> ccwv vp a b c /\ forall v, vok n 10 v -> iv vp a b c v <= 0).
    Proof.
      intros Va Vb Vc. unfold delTri, at_. fold (vp a) (vp b) (vp c). split.
      - intros (_ & C & E). split; auto. intros v Hv. unfold iv. destruct (Rle_dec (incirc (vp a) (vp b) (vp c) (vp v)) 0) as [|N]; auto.
        exfalso. apply (E (vid v) (vok_vid Hv)). apply (inDisc_iff _ C). exact (Rnot_le_lt _ _ N).
      - intros (C & E). split; [auto using vok_vid|]. split; auto. intros l Hl Q. rewrite LV in Hl.
        destruct (@nth_ids_sur n ids l 10 IDS Hl) as (v & Hv & <-). apply (inDisc_iff _ C) in Q. exact (Rlt_not_le _ _ Q (E v Hv)).
    Qed.
    Lemma edge_of t a b c u w : tri3 m t a b c -> edge (vid a, vid b, vid c) u w ->
      exists x y, hasE m t x y /\ u = vid x /\ w = vid y.
    Proof.
      intros H E. destruct (tri3_hasE H) as (E1 & E2 & E3). destruct E as [E|[E|E]]; injection E as -> ->; eauto.
    Qed.
    Lemma edge_in t x y : hasE m t x y -> exists tt, nth_error T t = Some tt /\ edge tt (vid x) (vid y).
    Proof.
      intros H. destruct (hasE_tri3 H) as (c & H'). destruct (T_of H') as (x' & E & [->|[->| ->]]); eexists; (split; [apply E|]); cbn; auto.
    Qed.

    Lemma out_ok : outOk n V T.
    Proof.
      pose proof driver_genpos as DG. destruct DG as (DG & CC & DISC & LV' & HU). clear DG LV'.
      assert (Inj : forall u v, vid u = vid v -> u = v) by (intros u v; apply (@nth_ids_inj n ids u v IDS)).
      constructor.
      - unfold T. rewrite map_length, seq_length. auto.
      - intros t Ht. apply In_nth_error in Ht. destruct Ht as (i & Ht). destruct (T_nth _ Ht) as (a & b & c & _ & H & ->).
        destruct (end_sound N1 G H) as (Va & Vb & Vc & C & E). apply delTri_iff; auto.
      - intros [[i j] k] Hd. pose proof Hd as Hd2. destruct Hd as ((Li & Lj & Lk) & _).
        rewrite LV in Li, Lj, Lk.
        destruct (@nth_ids_sur n ids i 10 IDS Li) as (a & Va & <-), (@nth_ids_sur n ids j 10 IDS Lj) as (b & Vb & <-), (@nth_ids_sur n ids k 10 IDS Lk) as (c & Vc & <-).
        fold (vid a) (vid b) (vid c) in *. apply delTri_iff in Hd2; auto. destruct Hd2 as (C & E).
        destruct (@end_complete n 10 vp GP N1 DISC m G a b c Va Vb Vc C E) as (t & H).
        destruct (T_of H) as (x & Ex & Rx). exists t, x. split; auto. split; auto. intros t' x' Ex' Rx'.
        destruct (T_nth _ Ex') as (a' & b' & c' & _ & H' & ->). symmetry. apply (@end_unique n 10 vp m G t t' a b c a' b' c' H H').
        destruct Rx' as [Q|[Q|Q]]; injection Q as Q1 Q2 Q3; apply Inj in Q1, Q2, Q3; subst; auto.
      - intros i j t t' u w Ei Ej Et Et'. destruct (T_nth _ Ei) as (a & b & c & _ & H & ->), (T_nth _ Ej) as (a' & b' & c' & _ & H' & ->).
        destruct (edge_of H Et) as (x & y & Q & -> & ->). destruct (edge_of H' Et') as (x' & y' & Q' & Ex & Ey). apply Inj in Ex, Ey. subst x' y'.
        apply (w_de (d_wf (g_del G)) Q Q').
      - intros t u w Ht Et. apply In_nth_error in Ht. destruct Ht as (i & Ht). destruct (T_nth _ Ht) as (a & b & c & _ & H & ->).
        destruct (edge_of H Et) as (x & y & Q & -> & ->). destruct (@end_opposite n 10 vp m G _ _ _ Q) as [Hh|(t' & Q')].
        + left. apply HU in Hh. destruct Hh as ((L1 & L2) & ->). unfold vid. rewrite (nth_ids_ge IDS L1). split; auto.
          apply (nth_ids_ge IDS). unfold next. destruct (x + 1 =? n + 10)%nat; lia.
        + right. destruct (edge_in Q') as (t2 & E2 & Q2). exists t2. split; auto. eapply nth_error_In; eauto.
      - intros x Hx. assert (Hl : hl n 10 vp x).
        { intros a b H. apply HU in H. destruct H as ((L1 & L2) & ->). specialize (Hx a (conj L1 L2)). unfold vp, vid.
          rewrite (nth_ids_ge IDS L1). rewrite (nth_ids_ge (v := next n a) IDS); [exact Hx|].
          unfold next. destruct (a + 1 =? n + 10)%nat; lia. }
        destruct (@end_cover n 10 vp GP m G x 0%nat Hl) as (t & A & I); [apply (all_alive N1 G); lia|].
        destruct (alive_tri3 A) as (a & b & c & H).
        assert (L : (t < cap m)%nat) by (apply (w_cap (d_wf (g_del G))); auto).
        destruct (nth_error T t) as [y|] eqn:E; [|apply nth_error_None in E; unfold T in E; rewrite map_length, seq_length in E; lia].
        destruct (T_nth _ E) as (a' & b' & c' & _ & H' & ->). destruct (tri3_hasE H') as (E1 & E2 & E3).
        exists (vid a', vid b', vid c'). split; [eapply nth_error_In; eauto|]. split; [apply (I _ _ E1)|]. split; [apply (I _ _ E2)|apply (I _ _ E3)].
    Qed.
  End Final.

  Variable knn : (nat -> P2) -> list nat -> nat -> res nat.
  Hypothesis Hknn : forall l v, l <> [] -> ~ In v l -> (v < n)%nat -> (forall c, In c l -> (c <= n)%nat) -> exists u, knn vp l v = Ok u /\ In u l.
  Variable worder : nat -> list (nat * nat) -> list (nat * nat).
  Hypothesis Hwo : forall r l, Permutation (worder r l) l.
  Variable fuel : nat.
  Hypothesis Hfuel : (2 * n + 10 <= fuel)%nat.

  Lemma vid_inj u v : (u < n)%nat -> (v < n)%nat -> vid u = vid v -> u = v.
  Proof. intros _ _. apply (@nth_ids_inj n ids u v IDS). Qed.

  Lemma start_LI : exists m, initMesh n 10 = Ok m /\ LI n 10 vp (mkL m (fun _ => None) [] [] 100 [n] 0).
  Proof.
    pose proof driver_genpos as DG. destruct DG as (DG & CC & DG'). clear DG DG'. destruct (@init_fan n 10 ltac:(lia)) as (m & E & F). exists m. split; auto.
    constructor; cbn [lm lR ldone lremain lnext lcand lround length app]; auto; try lia.
    - apply (@fan_good n 10 ltac:(lia) vp GP CC m F).
    - rewrite (fi_cap F). lia.
    - discriminate.
    - intros c [<-|[]]. auto.
  Qed.

  Lemma final_good st : LI n 10 vp st -> length (ldone st) = n -> good n 10 vp (lm st) (fun v => (v < n)%nat) /\ cap (lm st) = (2 * n + 8)%nat.
  Proof.
    intros L E. split; [|rewrite (l_cap L); lia]. apply good_ext with (fun v => In v (ldone st)); [|apply (l_good L)].
    pose proof (l_le L) as Le. assert (Q : lremain st = []) by (destruct (lremain st); auto; cbn in Le; lia).
    pose proof (l_perm L) as Pm. rewrite Q, app_nil_r in Pm. cbn [length] in Pm. rewrite Nat.add_0_r, E in Pm.
    intros v. split.
    - intros I. apply (Permutation_in _ Pm) in I. apply in_seq in I. lia.
    - intros I. apply (Permutation_in _ (Permutation_sym Pm)). apply in_seq. lia.
  Qed.

  Lemma delaunay_unf sched : @delaunay RNum cs sn knn worder sched ids fuel P =
    (T <- (m <- initMesh n 10 ;;
           st <- @addPoints RNum vp vid (knn vp) worder sched (seq 0 n) fuel n (mkL m (fun _ => None) [] [] 100 [n] 0) ;;
           mapR (corners vid (lm st)) (seq 0 (cap (lm st)))) ;; Ok (V, T)).
  Proof. unfold delaunay. rewrite EB. reflexivity. Qed.

  Lemma delaunay_all sched :
    match @delaunay RNum cs sn knn worder sched ids fuel P with
    | Ok (V', T) => V' = P ++ B /\ outOk n V T
    | Fuel => True
    | _ => False
    end.
  Proof.
    rewrite delaunay_unf. destruct start_LI as (m & Em & L). rewrite Em. cbn [bind].
    pose proof (@add_ok n 10 vp GP vid vid_inj (knn vp) Hknn worder Hwo fuel Hfuel sched n _ L) as A. cbn [ldone length] in A.
    specialize (A ltac:(lia)).
    destruct (@addPoints RNum vp vid (knn vp) worder sched (seq 0 n) fuel n (mkL m (fun _ => None) [] [] 100 [n] 0)) as [st| | |]; auto. cbn [bind].
    destruct A as (L' & E). destruct (final_good L' E) as (G & Cp).
    rewrite (out_eq G Cp). cbn [bind]. split; auto. apply (out_ok G Cp).
  Qed.

  Lemma delaunay_extend sched : exists sched' r, (forall k, exists e, sched' k = sched k ++ e) /\
    @delaunay RNum cs sn knn worder sched' ids fuel P = Ok r.
  Proof.
    destruct start_LI as (m & Em & L).
    destruct (@add_extend n 10 vp GP vid vid_inj (knn vp) Hknn worder Hwo fuel Hfuel sched n _ L) as (sched' & st & Hs & E & L' & Ed).
    { cbn [ldone length]. lia. }
    exists sched'. eexists. split; auto. rewrite delaunay_unf, Em. cbn [bind].
    rewrite E. cbn [bind]. destruct (final_good L' Ed) as (G & Cp). rewrite (out_eq G Cp). reflexivity.
  Qed.
End Driver.
