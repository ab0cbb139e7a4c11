(** Closed surfaces made of oriented triangles: moving to a neighbour that is
    higher in some direction leads to the highest triangle. *)
From Coq Require Import Reals Lra Lia Psatz List Bool Permutation.
From Verif Require Import Base Num Hull2dModel H3Model H3Geom.
Set Implicit Arguments.
Open Scope R_scope.

(** Height of the point [w] relative to the plane of [t], seen from [o]: 0 at
    [o], 1 on the plane. *)
Definition val (o : p3) (t : tri3) (w : p3) : R := (ht t w - ht t o) / - ht t o.

Lemma val_le o t f w : ht t o < 0 -> ht f o < 0 ->
  (val o t w <= val o f w <-> (ht t w - ht t o) * - ht f o <= (ht f w - ht f o) * - ht t o).
Proof.
  intros Ht Hf. unfold val.
  set (x := ht t w - ht t o). set (y := ht f w - ht f o). set (u := - ht t o). set (v := - ht f o).
  assert (Hu : 0 < u) by (unfold u; lra). assert (Hv : 0 < v) by (unfold v; lra).
  clearbody x y u v. clear - Hu Hv.
  split; intros H.
  - replace (x * v) with (x / u * (u * v)) by (field; lra).
    replace (y * u) with (y / v * (u * v)) by (field; lra).
    apply Rmult_le_compat_r; auto. nra.
  - apply Rmult_le_reg_r with (u * v); [nra|].
    replace (x / u * (u * v)) with (x * v) by (field; lra).
    replace (y / v * (u * v)) with (y * u) by (field; lra). auto.
Qed.
Lemma val_gt1 o t w : ht t o < 0 -> (1 < val o t w <-> 0 < ht t w).
Proof.
  intros H. unfold val. split; intros H1.
  - assert (X : (ht t w - ht t o) / - ht t o * - ht t o = ht t w - ht t o) by (field; lra). nra.
  - apply Rmult_lt_reg_r with (- ht t o); [lra|].
    replace ((ht t w - ht t o) / - ht t o * - ht t o) with (ht t w - ht t o) by (field; lra). lra.
Qed.

(** [w - o] lies in the cone of a triangle that is no lower than its neighbours. *)
Lemma local_max o a b c g1 g2 g3 w :
  svol a b c o < 0 -> ht g1 o < 0 -> ht g2 o < 0 -> ht g3 o < 0 ->
  ht g1 a = 0 -> ht g1 b = 0 -> ht g1 c < 0 ->
  ht g2 b = 0 -> ht g2 c = 0 -> ht g2 a < 0 ->
  ht g3 c = 0 -> ht g3 a = 0 -> ht g3 b < 0 ->
  val o g1 w <= val o (a, b, c) w -> val o g2 w <= val o (a, b, c) w -> val o g3 w <= val o (a, b, c) w ->
  svol w b c o <= 0 /\ svol a w c o <= 0 /\ svol a b w o <= 0.
Proof.
  intros D O1 O2 O3 A1 B1 C1 B2 C2 A2 C3 A3 B3 V1 V2 V3.
  pose proof (bary (a, b, c) o a b c w) as E0. cbn [ht] in E0. rewrite svol_a, svol_b, svol_c in E0.
  pose proof (bary g1 o a b c w) as E1. rewrite A1, B1 in E1.
  pose proof (bary g2 o a b c w) as E2. rewrite B2, C2 in E2.
  pose proof (bary g3 o a b c w) as E3. rewrite C3, A3 in E3.
  apply val_le in V1, V2, V3; auto; try (cbn [ht]; lra). cbn [ht] in V1, V2, V3.
  set (D0 := svol a b c o) in *. set (W := svol a b c w) in *.
  set (wa := svol w b c o) in *. set (wb := svol a w c o) in *. set (wc := svol a b w o) in *.
  set (s := wa + wb + wc).
  assert (EW : W - D0 = - s).
  { apply Rmult_eq_reg_l with D0; [|lra]. rewrite E0. unfold s. ring. }
  clearbody D0 W wa wb wc. rewrite EW in *. clear E0.
  split; [|split].
  - set (G := ht g2 o) in *. set (A := ht g2 a) in *. set (X := ht g2 w) in *. clearbody G A X.
    assert (Y : D0 * ((X - G) * - D0) >= D0 * (- s * - G)) by nra.
    replace (D0 * ((X - G) * - D0)) with (- D0 * (D0 * (X - G))) in Y by ring. rewrite E2 in Y.
    assert (Z : D0 * (wa * A) <= 0) by (unfold s in Y; nra).
    assert (0 <= wa * A) by nra. nra.
  - set (G := ht g3 o) in *. set (A := ht g3 b) in *. set (X := ht g3 w) in *. clearbody G A X.
    assert (Y : D0 * ((X - G) * - D0) >= D0 * (- s * - G)) by nra.
    replace (D0 * ((X - G) * - D0)) with (- D0 * (D0 * (X - G))) in Y by ring. rewrite E3 in Y.
    assert (Z : D0 * (wb * A) <= 0) by (unfold s in Y; nra).
    assert (0 <= wb * A) by nra. nra.
  - set (G := ht g1 o) in *. set (A := ht g1 c) in *. set (X := ht g1 w) in *. clearbody G A X.
    assert (Y : D0 * ((X - G) * - D0) >= D0 * (- s * - G)) by nra.
    replace (D0 * ((X - G) * - D0)) with (- D0 * (D0 * (X - G))) in Y by ring. rewrite E1 in Y.
    assert (Z : D0 * (wc * A) <= 0) by (unfold s in Y; nra).
    assert (0 <= wc * A) by nra. nra.
Qed.
(** … so it is no lower than any triangle above which none of its corners is. *)
Lemma cone_max o a b c w k : svol a b c o < 0 ->
  svol w b c o <= 0 -> svol a w c o <= 0 -> svol a b w o <= 0 ->
  ht k o < 0 -> ht k a <= 0 -> ht k b <= 0 -> ht k c <= 0 -> val o k w <= val o (a, b, c) w.
Proof.
  intros D wa wb wc K A B C. apply val_le; auto. cbn [ht].
  pose proof (bary (a, b, c) o a b c w) as E0. cbn [ht] in E0. rewrite svol_a, svol_b, svol_c in E0.
  pose proof (bary k o a b c w) as E.
  set (D0 := svol a b c o) in *. set (W := svol a b c w) in *.
  set (wa' := svol w b c o) in *. set (wb' := svol a w c o) in *. set (wc' := svol a b w o) in *.
  assert (EW : W - D0 = - (wa' + wb' + wc')) by (apply Rmult_eq_reg_l with D0; [rewrite E0; ring|lra]).
  rewrite EW. replace ((ht k w - ht k o) * - D0) with (- (D0 * (ht k w - ht k o))) by ring. rewrite E.
  clearbody D0 W wa' wb' wc'. nra.
Qed.

Definition corner (t : tri3) (q : p3) : Prop := let '(a, b, c) := t in q = a \/ q = b \/ q = c.
Definition rot3 (t : tri3) (a b c : p3) : Prop := t = (a, b, c) \/ t = (b, c, a) \/ t = (c, a, b).
Lemma rot3_ht t a b c q : rot3 t a b c -> ht t q = svol a b c q.
Proof.
  intros [-> | [-> | ->]]; cbn [ht]; auto.
  - apply svol_rot. - rewrite <- svol_rot. auto.
Qed.
Lemma rot3_corner t a b c q : rot3 t a b c -> (corner t q <-> q = a \/ q = b \/ q = c).
Proof. intros [-> | [-> | ->]]; cbn [corner]; tauto. Qed.
Lemma rot3_next t a b c : rot3 t a b c -> rot3 t b c a.
Proof. unfold rot3; tauto. Qed.

(** Centroids *)
Definition cen (t : tri3) : p3 := let '(a, b, c) := t in
  V3 ((vx a + vx b + vx c) / 3) ((vy a + vy b + vy c) / 3) ((vz a + vz b + vz c) / 3).
Lemma ht_cen t k : let '(a, b, c) := t in ht k (cen t) = (ht k a + ht k b + ht k c) / 3.
Proof.
  destruct t as [[a b] c]. destruct (ht_aff k) as [[[[k0 k1] k2] k3] H]. rewrite !H. unfold aff, cen; cbn [vx vy vz]. field.
Qed.
(** Points on a line *)
Definition lerp (s : R) (p q : p3) : p3 := V3 (vx p + s * (vx q - vx p)) (vy p + s * (vy q - vy p)) (vz p + s * (vz q - vz p)).
Lemma ht_lerp k s p q : ht k (lerp s p q) = ht k p + s * (ht k q - ht k p).
Proof. destruct (ht_aff k) as [[[[k0 k1] k2] k3] H]. rewrite !H. unfold aff, lerp; cbn [vx vy vz]. ring. Qed.

Section Surf.
  Variable I : list nat.
  Variable T : nat -> tri3.
  Variable adj : nat -> nat -> Prop.

  Inductive path (P : nat -> Prop) : nat -> nat -> Prop :=
  | path_refl i : P i -> path P i i
  | path_step i j k : P i -> adj i j -> path P j k -> path P i k.
  Lemma path_impl (P P' : nat -> Prop) i j : (forall x, P x -> P' x) -> path P i j -> path P' i j.
  Proof. intros H; induction 1; [apply path_refl|eapply path_step]; eauto. Qed.
  Lemma path_end (P : nat -> Prop) i j : path P i j -> P j.
  Proof. induction 1; auto. Qed.
  Lemma path_trans P i j k : path P i j -> path P j k -> path P i k.
  Proof. induction 1; auto. intros. eapply path_step; eauto. Qed.

  Hypothesis HA : forall i a b c, In i I -> rot3 (T i) a b c ->
    exists j, In j I /\ adj i j /\ ht (T j) a = 0 /\ ht (T j) b = 0 /\ ht (T j) c < 0.
  Hypothesis HC : forall i j q, In i I -> In j I -> corner (T j) q -> ht (T i) q <= 0.
  Hypothesis HD : forall i j, In i I -> In j I -> i <> j -> exists q, corner (T j) q /\ ht (T i) q < 0.

  Section Climb.
    Variable o : p3.
    Hypothesis HO : forall i, In i I -> ht (T i) o < 0.
    Variable w : p3.
    Let v i := val o (T i) w.

    Definition inCone (i : nat) : Prop :=
      let '(a, b, c) := T i in svol w b c o <= 0 /\ svol a w c o <= 0 /\ svol a b w o <= 0.

    Lemma climb_step i : In i I -> inCone i \/ exists j, In j I /\ adj i j /\ v i < v j.
    Proof.
      intros Hi. destruct (T i) as [[a b] c] eqn:E.
      destruct (HA (a := a) (b := b) (c := c) Hi) as (g1 & G1 & J1 & A1 & B1 & C1); [rewrite E; left; auto|].
      destruct (HA (a := b) (b := c) (c := a) Hi) as (g2 & G2 & J2 & A2 & B2 & C2); [rewrite E; right; right; auto|].
      destruct (HA (a := c) (b := a) (c := b) Hi) as (g3 & G3 & J3 & A3 & B3 & C3); [rewrite E; right; left; auto|].
      destruct (Rle_dec (v g1) (v i)) as [L1|L1]; [|right; exists g1; repeat split; auto; lra].
      destruct (Rle_dec (v g2) (v i)) as [L2|L2]; [|right; exists g2; repeat split; auto; lra].
      destruct (Rle_dec (v g3) (v i)) as [L3|L3]; [|right; exists g3; repeat split; auto; lra].
      left. unfold inCone. rewrite E. unfold v in *. rewrite E in *.
      pose proof (HO _ Hi) as Oi. rewrite E in Oi. cbn [ht] in Oi.
      eapply local_max with (g1 := T g1) (g2 := T g2) (g3 := T g3); eauto.
    Qed.

    Lemma climb i : In i I -> exists m, In m I /\ path (fun j => In j I /\ v i <= v j) i m /\ inCone m.
    Proof.
      remember (length (filter (fun j => if Rlt_dec (v i) (v j) then true else false) I)) as n eqn:En.
      revert i En. induction n as [n IH] using lt_wf_ind. intros i En Hi.
      destruct (climb_step i Hi) as [L|(j & Hj & Jij & Lt)].
      - exists i. split; [|split]; auto. apply path_refl. split; auto. lra.
      - destruct (IH (length (filter (fun k => if Rlt_dec (v j) (v k) then true else false) I))) with (i := j) as (m & Hm & Pm & Cm); auto.
        + subst n. clear - Hj Lt. clearbody v.
          revert Hj. induction I as [|x l IHl]; intros Hj; [destruct Hj|].
          assert (Lg : forall l', (length (filter (fun k => if Rlt_dec (v j) (v k) then true else false) l') <=
                          length (filter (fun k => if Rlt_dec (v i) (v k) then true else false) l'))%nat).
          { induction l' as [|y l' IH']; cbn [filter length]; auto.
            destruct (Rlt_dec (v j) (v y)), (Rlt_dec (v i) (v y)); cbn [length]; try lia. lra. }
          cbn [filter]. destruct Hj as [->|Hj].
          * destruct (Rlt_dec (v j) (v j)); [lra|]. destruct (Rlt_dec (v i) (v j)); [|lra]. cbn [length].
            specialize (Lg l). lia.
          * specialize (IHl Hj). destruct (Rlt_dec (v j) (v x)), (Rlt_dec (v i) (v x)); cbn [length]; try lia. lra.
        + exists m. split; [|split]; auto. eapply path_step; [split; auto; lra|eauto|].
          eapply path_impl; [|eauto]. cbn. intros x [Hx Lx]. split; auto. lra.
    Qed.

    Lemma cone_ge m k : In m I -> inCone m -> ht k o < 0 -> (forall q, corner (T m) q -> ht k q <= 0) -> val o k w <= v m.
    Proof.
      intros Hm Cm Ko Kc. unfold inCone in Cm. unfold v. pose proof (HO _ Hm) as Om.
      destruct (T m) as [[a b] c]. destruct Cm as (wa & wb & wc). cbn [ht] in Om.
      apply cone_max; auto; apply Kc; cbn; auto.
    Qed.
    Lemma cone_max_I m k : In m I -> inCone m -> In k I -> v k <= v m.
    Proof. intros Hm Cm Hk. apply cone_ge; auto. intros q Cq. apply (@HC k m q); auto. Qed.
  End Climb.

  (** *** The highest triangle over a point inside triangle [g] is [g]. *)
  Lemma cen_neg i g : In i I -> In g I -> i <> g -> ht (T i) (cen (T g)) < 0.
  Proof.
    intros Hi Hg Ne. destruct (@HD i g Hi Hg Ne) as (q & Cq & Lq).
    pose proof (ht_cen (T g) (T i)) as X. pose proof (fun q => @HC i g q Hi Hg) as Y.
    destruct (T g) as [[a b] c]. rewrite X.
    pose proof (Y a (or_introl eq_refl)). pose proof (Y b (or_intror (or_introl eq_refl))).
    pose proof (Y c (or_intror (or_intror eq_refl))).
    destruct Cq as [-> | [-> | ->]]; lra.
  Qed.
  Lemma cen_zero g : ht (T g) (cen (T g)) = 0.
  Proof.
    pose proof (ht_cen (T g) (T g)) as X. destruct (T g) as [[a b] c]. rewrite X. cbn [ht]. rewrite svol_a, svol_b, svol_c. lra.
  Qed.

  (** a point inside, beyond the centroid of [g] as seen from [p] *)
  Lemma inner_point g p (l : list nat) : (forall i, In i l -> In i I) -> In g I -> 0 < ht (T g) p ->
    exists d, 0 < d /\ forall i, In i l -> ht (T i) (lerp (- d) (cen (T g)) p) < 0.
  Proof.
    intros Hl Hg Hp. induction l as [|i l IH].
    - exists 1. split; [lra|]. intros i [].
    - destruct IH as (d & Pd & Hd); [intros; apply Hl; right; auto|].
      destruct (Nat.eq_dec i g) as [->|Ne].
      + exists d. split; auto. intros j [<-|Hj]; auto. rewrite ht_lerp, cen_zero. nra.
      + pose proof (cen_neg (Hl i (or_introl eq_refl)) Hg Ne) as C.
        set (M := Rabs (ht (T i) p - ht (T i) (cen (T g))) + 1).
        assert (M1 : 1 <= M) by (unfold M; pose proof (Rabs_pos (ht (T i) p - ht (T i) (cen (T g)))); lra).
        set (d' := Rmin d (- ht (T i) (cen (T g)) / (2 * M))).
        assert (X : 0 < - ht (T i) (cen (T g)) / (2 * M)) by (apply Rdiv_lt_0_compat; lra).
        assert (D1 : d' <= d) by apply Rmin_l. assert (D2 : d' <= - ht (T i) (cen (T g)) / (2 * M)) by apply Rmin_r.
        assert (D0 : 0 < d') by (unfold d'; apply Rmin_glb_lt; auto).
        exists d'. split; auto. intros j [<-|Hj].
        * rewrite ht_lerp. set (z := ht (T i) p - ht (T i) (cen (T g))) in *.
          assert (Z : - d' * z <= d' * M).
          { assert (- z <= Rabs z) by (pose proof (Rle_abs (- z)); rewrite Rabs_Ropp in *; auto). unfold M. nra. }
          assert (Y : d' * (2 * M) <= - ht (T i) (cen (T g))).
          { apply Rmult_le_compat_r with (r := 2 * M) in D2; [|lra].
            replace (- ht (T i) (cen (T g)) / (2 * M) * (2 * M)) with (- ht (T i) (cen (T g))) in D2 by (field; lra). auto. }
          nra.
        * specialize (Hd j Hj). rewrite ht_lerp in *.
          destruct (Nat.eq_dec j g) as [->|Nj]; [rewrite cen_zero in *; nra|].
          pose proof (cen_neg (Hl j (or_intror Hj)) Hg Nj). 
          set (c0 := ht (T j) (cen (T g))) in *. set (z := ht (T j) p - c0) in *. clearbody c0 z.
          destruct (Rle_dec 0 z); nra.
  Qed.

  (** seen from such a point, [g] is the strictly highest triangle in the direction of [p] *)
  Lemma strict_max g p d t : 0 < d -> 0 < ht (T g) p ->
    ht t (lerp (- d) (cen (T g)) p) < 0 -> ht t (cen (T g)) < 0 ->
    val (lerp (- d) (cen (T g)) p) t p < val (lerp (- d) (cen (T g)) p) (T g) p.
  Proof.
    intros Pd Hp Ho Hc. unfold val. rewrite !ht_lerp in *. rewrite cen_zero in *.
    set (P := ht (T g) p) in *. set (c := ht t (cen (T g))) in *. set (x := ht t p) in *. clearbody P c x.
    assert (P1 : (P - (0 + - d * (P - 0))) / - (0 + - d * (P - 0)) = (1 + d) / d) by (field; split; lra).
    rewrite P1.
    assert (E : (x - (c + - d * (x - c))) / - (c + - d * (x - c)) = (1 + d) * (x - c) / (d * (x - c) - c)) by (field; lra).
    rewrite E. apply Rmult_lt_reg_r with (d * (d * (x - c) - c)); [nra|].
    replace ((1 + d) * (x - c) / (d * (x - c) - c) * (d * (d * (x - c) - c))) with ((1 + d) * (x - c) * d) by (field; lra).
    replace ((1 + d) / d * (d * (d * (x - c) - c))) with ((1 + d) * (d * (x - c) - c)) by (field; lra).
    nra.
  Qed.

  (** *** Triangles visible from [p] are connected through visible ones. *)
  Lemma visible_path g k p : In g I -> In k I -> 0 < ht (T g) p -> 0 < ht (T k) p ->
    path (fun i => In i I /\ 0 < ht (T i) p) k g.
  Proof.
    intros Hg Hk Pg Pk. destruct (@inner_point g p I (fun i H => H) Hg Pg) as (d & Pd & Hd).
    set (o := lerp (- d) (cen (T g)) p) in *.
    destruct (@climb o Hd p k Hk) as (m & Hm & Pm & Cm).
    assert (m = g).
    { destruct (Nat.eq_dec m g) as [|Ne]; auto. exfalso.
      pose proof (@cone_max_I o Hd p m g Hm Cm Hg) as L.
      pose proof (@strict_max g p d (T m) Pd Pg (Hd m Hm) (@cen_neg m g Hm Hg Ne)) as S. fold o in S. lra. }
    subst m. eapply path_impl; [|exact Pm]. cbn. intros i [Hi Li]. split; auto.
    apply (@val_gt1 o (T i) p); auto. apply (@val_gt1 o (T k) p) in Pk; auto. lra.
  Qed.

  (** *** All triangles are connected. *)
  Lemma all_path o g k : (forall i, In i I -> ht (T i) o < 0) -> In g I -> In k I -> path (fun i => In i I) k g.
  Proof.
    intros HO Hg Hk. destruct (@climb o HO (cen (T g)) k Hk) as (m & Hm & Pm & Cm).
    assert (m = g).
    { destruct (Nat.eq_dec m g) as [|Ne]; auto. exfalso.
      pose proof (@cone_max_I o HO (cen (T g)) m g Hm Cm Hg) as L.
      apply val_le in L; auto. pose proof (@cen_neg m g Hm Hg Ne). rewrite cen_zero in L.
      pose proof (HO g Hg). pose proof (HO m Hm). nra. }
    subst m. eapply path_impl; [|exact Pm]. cbn. tauto.
  Qed.

  (** *** Some triangle is not visible. *)
  Lemma some_below o p k : (forall i, In i I -> ht (T i) o < 0) -> In k I -> 0 < ht (T k) p ->
    exists m, In m I /\ ht (T m) p < 0.
  Proof.
    intros HO Hk Pk. set (w := lerp (-1) o p).
    destruct (@climb o HO w k Hk) as (m & Hm & _ & Cm).
    exists m. split; auto.
    pose proof (HO m Hm) as Om. pose proof (ht_lerp (T m) (-1) o p) as X. fold w in X.
    (* w - o is in the cone of m, so m's plane is not below o in the direction of w *)
    assert (L : 0 <= ht (T m) w - ht (T m) o).
    { unfold inCone in Cm. destruct (T m) as [[a b] c]. destruct Cm as (wa & wb & wc). cbn [ht] in *.
      pose proof (bary (a, b, c) o a b c w) as E0. cbn [ht] in E0. rewrite svol_a, svol_b, svol_c in E0. nra. }
    lra.
  Qed.

  (** *** A triangle above which no corner lies, and whose own corners are not above the surface, is a triangle of the surface. *)
  Lemma facet_in o k x y z : (forall i, In i I -> ht (T i) o < 0) -> In k I ->
    ht (x, y, z) o < 0 -> (forall i q, In i I -> corner (T i) q -> ht (x, y, z) q <= 0) ->
    (forall i q, In i I -> corner (x, y, z) q -> ht (T i) q <= 0 /\ (ht (T i) q = 0 -> corner (T i) q)) ->
    exists m, In m I /\ forall q, corner (T m) q <-> corner (x, y, z) q.
  Proof.
    intros HO Hk Ho Hb Hi. set (w := cen (x, y, z)).
    destruct (@climb o HO w k Hk) as (m & Hm & _ & Cm). exists m. split; auto.
    pose proof (@cone_ge o HO w m (x, y, z) Hm Cm Ho (fun q => Hb m q Hm)) as L.
    apply val_le in L; auto. pose proof (ht_cen (x, y, z) (x, y, z)) as W0. cbn beta iota in W0. fold w in W0.
    pose proof (ht_cen (x, y, z) (T m)) as W1. cbn beta iota in W1. fold w in W1.
    cbn [ht] in W0. rewrite svol_a, svol_b, svol_c in W0. cbn [ht] in *. rewrite W0 in L.
    destruct (Hi m x Hm) as [Lx Ex]; [cbn; auto|]. destruct (Hi m y Hm) as [Ly Ey]; [cbn; auto|].
    destruct (Hi m z Hm) as [Lz Ez]; [cbn; auto|]. pose proof (HO m Hm) as Om.
    assert (Z : 0 <= ht (T m) w) by nra.
    assert (Cx : corner (T m) x) by (apply Ex; lra). assert (Cy : corner (T m) y) by (apply Ey; lra).
    assert (Cz : corner (T m) z) by (apply Ez; lra).
    assert (Nxy : x <> y) by (intros ->; rewrite svol_aab in Ho; lra).
    assert (Nyz : y <> z) by (intros ->; rewrite svol_abb in Ho; lra).
    assert (Nxz : x <> z) by (intros ->; rewrite svol_aba in Ho; lra).
    clear - Cx Cy Cz Nxy Nyz Nxz. destruct (T m) as [[a b] c]. cbn [corner] in *.
    intros q. split; [|intros [-> | [-> | ->]]; auto].
    intros [-> | [-> | ->]]; destruct Cx as [-> | [-> | ->]], Cy as [-> | [-> | ->]], Cz as [-> | [-> | ->]]; tauto.
  Qed.
End Surf.

(** *** A point above the removed triangle [f] and above no new triangle is above no triangle of the new surface. *)
Lemma dropped_inside (I I' : list nat) (T : nat -> tri3) (adj' : nat -> nat -> Prop) f q :
  (forall i a b c, In i I' -> rot3 (T i) a b c ->
     exists j, In j I' /\ adj' i j /\ ht (T j) a = 0 /\ ht (T j) b = 0 /\ ht (T j) c < 0) ->
  (forall i j q, In i I -> In j I -> corner (T j) q -> ht (T i) q <= 0) ->
  (forall i j, In i I -> In j I -> i <> j -> exists q, corner (T j) q /\ ht (T i) q < 0) ->
  (forall x, (forall j, In j I -> ht (T j) x < 0) -> forall i, In i I' -> ht (T i) x < 0) ->
  In f I -> ~ In f I' -> 0 < ht (T f) q -> (forall i, In i I' -> ~ In i I -> ht (T i) q <= 0) ->
  forall i, In i I' -> ht (T i) q <= 0.
Proof.
  intros HA' HC HD Hin Hf Hf' Pf Hn i Hi. apply Rnot_lt_le. intros Pi.
  destruct (@inner_point I T HC HD f q I (fun i H => H) Hf Pf) as (d & Pd & Hd).
  set (o := lerp (- d) (cen (T f)) q) in *.
  destruct (@climb I' T adj' HA' o (Hin o Hd) q i Hi) as (m & Hm & Pm & Cm).
  apply path_end in Pm. destruct Pm as [_ Lm].
  assert (Qm : 0 < ht (T m) q).
  { apply (@val_gt1 o (T m) q); [apply (Hin o Hd); auto|]. apply (@val_gt1 o (T i) q) in Pi; [lra|apply (Hin o Hd); auto]. }
  assert (Im : In m I).
  { destruct (in_dec Nat.eq_dec m I) as [|Ni]; auto. specialize (Hn m Hm Ni). lra. }
  assert (Ne : m <> f) by (intros ->; auto).
  pose proof (@cone_ge I' T o (Hin o Hd) q m (T f) Hm Cm (Hd f Hf) (fun x => HC f m x Hf Im)) as L1.
  pose proof (@strict_max T f q d (T m) Pd Pf (Hd m Im) (@cen_neg I T HC HD m f Im Hf Ne)) as L2. fold o in L2. lra.
Qed.

(** ** The horizon of a set of points seen from [p] *)
Lemma p3_eq_dec (a b : p3) : {a = b} + {a <> b}.
Proof.
  destruct a as [x y z], b as [x' y' z'].
  destruct (Req_EM_T x x') as [->|N]; [|right; congruence].
  destruct (Req_EM_T y y') as [->|N]; [|right; congruence].
  destruct (Req_EM_T z z') as [->|N]; [left; auto|right; congruence].
Qed.

(** the triangle of a horizon edge and [p] is below nothing that both sides are above *)
Lemma new_below a b c d p q : 0 < svol a b c p -> svol b a d p < 0 -> svol a b c d < 0 ->
  svol a b c q <= 0 -> svol b a d q <= 0 ->
  svol a b p q <= 0 /\ (svol a b c q < 0 \/ svol b a d q < 0 -> svol a b p q < 0).
Proof.
  intros H1 H2 H3 H4 H5. pose proof (pencil a b c d p q) as E.
  set (N := svol a b p q) in *. set (X := svol a b c d) in *. set (A := svol a b c p) in *. set (B := svol b a d p) in *.
  set (U := svol a b c q) in *. set (V := svol b a d q) in *. clearbody N X A B U V.
  split; [nra|]. intros [L|L].
  - assert (N * - X < 0) by nra. nra.
  - assert (N * - X < 0) by nra. nra.
Qed.

Lemma svol_24 a b c d : svol a d c b = - svol a b c d. Proof. sv. Qed.
Lemma svol_14 a b c d : svol d b c a = - svol a b c d. Proof. sv. Qed.
Lemma svol_x a b c d : svol d c a b = - svol a b c d. Proof. sv. Qed.
Lemma pluck3 p x u v w y : svol x p u w * svol x p y v = svol x p u v * svol x p y w + svol x p v w * svol x p y u.
Proof. v3d. unfold svol; cbn [vx vy vz]. ring. Qed.

Section Horizon.
  Variable W : p3 -> Prop.
  Variable p : p3.
  Definition hor (a b : p3) : Prop := W a /\ W b /\ a <> b /\ forall q, W q -> q <> a -> q <> b -> svol a b p q < 0.

  Lemma hor_succ a b b' : hor a b -> hor a b' -> b = b'.
  Proof.
    intros (A & B & N & H) (_ & B' & N' & H'). destruct (p3_eq_dec b b') as [|Ne]; auto. exfalso.
    pose proof (H b' B' ltac:(congruence) ltac:(congruence)). pose proof (H' b B ltac:(congruence) ltac:(congruence)).
    pose proof (svol_24 a b p b'). lra.
  Qed.
  Lemma hor_pred a a' b : hor a b -> hor a' b -> a = a'.
  Proof.
    intros (A & B & N & H) (A' & _ & N' & H'). destruct (p3_eq_dec a a') as [|Ne]; auto. exfalso.
    pose proof (H a' A' ltac:(congruence) ltac:(congruence)). pose proof (H' a A ltac:(congruence) ltac:(congruence)).
    pose proof (svol_14 a b p a'). lra.
  Qed.

  Lemma hor_cycle v m : (1 <= m)%nat -> v m = v 0%nat -> (forall i, (i < m)%nat -> hor (v i) (v (S i))) ->
    forall x y, hor x y -> exists i, (i < m)%nat /\ x = v i /\ y = v (S i).
  Proof.
    intros Hm Hc Hv x y Hxy.
    assert (D : forall n, (exists i, (i < n)%nat /\ x = v i) \/ forall i, (i < n)%nat -> x <> v i).
    { induction n as [|n [(i & L & E)|IH]]; [right; intros; lia|left; exists i; split; auto; lia|].
      destruct (p3_eq_dec x (v n)) as [E|N]; [left; exists n; split; auto; lia|].
      right. intros i L. destruct (Nat.eq_dec i n) as [->|]; auto. apply IH. lia. }
    destruct (D m) as [(i & L & E)|N].
    { exists i. repeat split; auto. subst x. eapply hor_succ; eauto. }
    exfalso. assert (N' : forall i, (i <= m)%nat -> x <> v i).
    { intros i L. destruct (Nat.eq_dec i m) as [->|]; [rewrite Hc|]; apply N; lia. }
    assert (Y : forall i, (i <= m)%nat -> y <> v i).
    { intros i L E. subst y. destruct i as [|i].
      - rewrite <- Hc in Hxy. destruct m as [|m']; [lia|]. apply (N m'); [lia|]. eapply hor_pred; eauto.
      - apply (N i); [lia|]. eapply hor_pred; eauto. }
    assert (S1 : forall i, (i < m)%nat -> 0 < svol x p (v i) (v (S i))).
    { intros i L. destruct (Hv i L) as (A & B & _ & H). destruct Hxy as (X & _).
      pose proof (svol_x (v i) (v (S i)) p x).
      assert (svol (v i) (v (S i)) p x < 0) by (apply H; auto; apply N'; lia). lra. }
    assert (S2 : forall i, (i <= m)%nat -> 0 < svol x p y (v i)).
    { intros i L. assert (W (v i)).
      { destruct (Nat.eq_dec i m) as [->|]; [rewrite Hc; apply (Hv 0%nat); lia|apply (Hv i); lia]. }
      destruct Hxy as (X & _ & _ & H').
      pose proof (svol_swap x y p (v i)).
      assert (svol x y p (v i) < 0).
      { apply H'; auto; intros E; [apply (N' i L)|apply (Y i L)]; auto. }
      lra. }
    assert (S3 : forall i, (1 <= i <= m)%nat -> 0 < svol x p (v 0%nat) (v i)).
    { intros i. induction i as [|i IH]; [lia|]. intros L. destruct (Nat.eq_dec i 0) as [->|].
      - apply S1. lia.
      - pose proof (pluck3 p x (v 0%nat) (v i) (v (S i)) y) as E.
        pose proof (IH ltac:(lia)). pose proof (S1 i ltac:(lia)). pose proof (S2 i ltac:(lia)).
        pose proof (S2 (S i) ltac:(lia)). pose proof (S2 0%nat ltac:(lia)).
        set (a := svol x p (v 0%nat) (v (S i))) in *. nra. }
    pose proof (S3 m ltac:(lia)) as Z. rewrite Hc in Z. rewrite svol_c in Z. lra.
  Qed.
End Horizon.
