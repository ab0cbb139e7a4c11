(** The facets and the vertices returned by the serial quickhull. *)
From Coq Require Import Reals Lra Lia Psatz List Bool Permutation.
From Verif Require Import Base Num Hull2dModel H3Model H3Geom H3Surf H3Heap H3Edge H3Front H3Link H3Place H3Round H3Loop H3Main H3Init H3Init2 H3Spec.
Set Implicit Arguments.
Open Scope R_scope.

Notation addR := (add3 RNum).
Lemma add_sub p o : addR (subR p o) o = p.
Proof. destruct p, o. unfold add3, sub3. cbn. f_equal; ring. Qed.
Lemma sub_add p o : subR (addR p o) o = p.
Proof. destruct p, o. unfold add3, sub3. cbn. f_equal; ring. Qed.
Lemma svol_add a b c d o : svol (addR a o) (addR b o) (addR c o) (addR d o) = svol a b c d.
Proof. destruct a, b, c, d, o. unfold svol, add3. cbn. ring. Qed.
Definition shiftT (o : p3) (t : tri3) : tri3 := let '(a, b, c) := t in (addR a o, addR b o, addR c o).
Lemma outFacet_corner t q : isCorner (@outFacet RNum t) q <-> isCorner t q.
Proof. destruct t as [[a b] c]. unfold outFacet. destruct (nlt _ _ _); cbn; tauto. Qed.
Lemma shiftT_corner o t q : isCorner (shiftT o t) q <-> corner t (subR q o).
Proof.
  destruct t as [[a b] c]. cbn. split; (intros [H|[H|H]]; [left|right; left|right; right]).
  1-3: subst q; apply sub_add. 1-3: rewrite <- H; symmetry; apply add_sub.
Qed.
Lemma HullFacet_out P t : HullFacet P (@outFacet RNum t) <-> HullFacet P t.
Proof.
  destruct t as [[a b] c]. unfold outFacet. destruct (nlt _ _ _); [|tauto]. cbn [HullFacet].
  assert (X : forall q, svol a c b q = - svol a b c q) by (intros; apply svol_swap).
  assert (Y : forall q, ~ isCorner (a, c, b) q <-> ~ isCorner (a, b, c) q) by (intros q; cbn; tauto).
  split; intros (A & B & C & D & E & F & G); repeat (split; [auto; fail|]);
    (destruct G as [G|G]; [right|left]; intros q Hq Nq; specialize (G q Hq (proj2 (Y q) Nq)) || specialize (G q Hq (proj1 (Y q) Nq)); specialize (X q); lra).
Qed.
Lemma HullFacet_shift P o t : HullFacet (map (fun p => subR p o) P) t <-> HullFacet P (shiftT o t).
Proof.
  destruct t as [[a b] c]. cbn [shiftT HullFacet].
  assert (I : forall x, In x (map (fun p => subR p o) P) <-> In (addR x o) P).
  { intros x. rewrite in_map_iff. split; [intros (p & <- & H); now rewrite add_sub|]. intros H. exists (addR x o). split; auto. apply sub_add. }
  assert (N : forall x y, x <> y <-> addR x o <> addR y o).
  { intros x y. split; intros H E; apply H; [|congruence]. rewrite <- (sub_add x o), <- (sub_add y o). congruence. }
  assert (S : forall q, svol (addR a o) (addR b o) (addR c o) q = svol a b c (subR q o)).
  { intros q. rewrite <- (add_sub q o) at 1. apply svol_add. }
  assert (C : forall q, isCorner (addR a o, addR b o, addR c o) q <-> isCorner (a, b, c) (subR q o)).
  { intros q. exact (shiftT_corner o (a, b, c) q). }
  rewrite !I, (N a b), (N b c), (N c a). assert (G : forall pr : R -> Prop, (forall q, In q (map (fun p => subR p o) P) -> ~ isCorner (a, b, c) q -> pr (svol a b c q)) <->
    (forall q, In q P -> ~ isCorner (addR a o, addR b o, addR c o) q -> pr (svol (addR a o) (addR b o) (addR c o) q))).
  { intros pr. split; intros H q Hq Nq.
    - rewrite S. apply H; [apply I; now rewrite add_sub|]. now rewrite <- C.
    - specialize (H (addR q o)). rewrite S, C, sub_add in H. apply H; auto. apply I; auto. }
  rewrite (G (fun x => x < 0)), (G (fun x => 0 < x)). tauto.
Qed.

(** *** A corner of a facet is extreme *)
Lemma small_delta (P : list p3) (k g : p3 -> R) : (forall q, In q P -> k q < 0) -> exists d, 0 < d /\ forall q, In q P -> k q + d * g q < 0.
Proof.
  induction P as [|p P IH]; intros H; [exists 1; split; [lra|intros q []]|].
  destruct IH as (d & Hd & Hq); [intros; apply H; right; auto|]. pose proof (H p (or_introl eq_refl)) as Hp.
  destruct (Rle_dec (g p) 0) as [L|L].
  - exists d. split; auto. intros q [<-|Hi]; auto. nra.
  - apply Rnot_le_lt in L. exists (Rmin d (- k p / (2 * g p))).
    assert (X : 0 < - k p / (2 * g p)) by (apply Rdiv_lt_0_compat; lra).
    split; [apply Rmin_glb_lt; auto|]. intros q [<-|Hi].
    + pose proof (Rmin_r d (- k p / (2 * g p))). assert (- k p / (2 * g p) * g p = - k p / 2) by (field; lra). nra.
    + pose proof (Rmin_l d (- k p / (2 * g p))). specialize (Hq q Hi). specialize (H q (or_intror Hi)).
      destruct (Rle_dec (g q) 0); [|nra]. assert (0 < Rmin d (- k p / (2 * g p))) by (apply Rmin_glb_lt; auto). nra.
Qed.
Lemma svol_affa b c d : exists k, forall q, svol q b c d = aff k q.
Proof.
  destruct (svol_aff b c d) as [k Hk]. destruct k as [[[k0 k1] k2] k3]. exists (- k0, - k1, - k2, - k3). intros q.
  assert (E : svol q b c d = - svol b c d q) by (destruct q, b, c, d; unfold svol; cbn; ring). rewrite E, Hk. unfold aff. ring.
Qed.
Lemma facet_extreme0 P x y z d : In x P -> In d P -> ~ isCorner (x, y, z) d -> x <> y -> x <> z ->
  (forall q, In q P -> ~ isCorner (x, y, z) q -> svol x y z q < 0) -> Extreme P x.
Proof.
  intros Hx Hd Nd Nxy Nxz H. split; auto. pose proof (H d Hd Nd) as Dn.
  destruct (svol_aff x y z) as [k Hk]. destruct (svol_affa y z d) as [g Hg].
  set (Pr := filter (fun q => if p3_eq_dec q x then false else if p3_eq_dec q y then false else if p3_eq_dec q z then false else true) P).
  destruct (@small_delta Pr (fun q => svol x y z q) (fun q => - svol q y z d)) as (e & He & Hq).
  { intros q Hq. apply filter_In in Hq. destruct Hq as [Hq F]. apply H; auto. cbn.
    destruct (p3_eq_dec q x), (p3_eq_dec q y), (p3_eq_dec q z); try discriminate. tauto. }
  destruct k as [[[k0 k1] k2] k3], g as [[[g0 g1] g2] g3].
  exists (k1 - e * g1), (k2 - e * g2), (k3 - e * g3). intros q Hi Ne.
  assert (V : forall q, svol x y z q + e * - svol q y z d = (k0 - e * g0) + (k1 - e * g1) * vx q + (k2 - e * g2) * vy q + (k3 - e * g3) * vz q).
  { intros q'. rewrite Hk, Hg. unfold aff. ring. }
  pose proof (V x) as Vx. pose proof (V q) as Vq. rewrite svol_a in Vx.
  assert (L : svol x y z q + e * - svol q y z d <= 0).
  { destruct (p3_eq_dec q y) as [->|Ny]; [rewrite svol_b, svol_aab; lra|].
    destruct (p3_eq_dec q z) as [->|Nz]; [rewrite svol_c, svol_aba; lra|].
    apply Rlt_le, Hq. apply filter_In. split; auto. destruct (p3_eq_dec q x), (p3_eq_dec q y), (p3_eq_dec q z); tauto. }
  nra.
Qed.
Lemma facet_extreme P t q : HullFacet P t -> four_pts P -> isCorner t q -> Extreme P q.
Proof.
  destruct t as [[x y] z]. intros (A & B & C & D & E & F & G) H4 Hc.
  destruct (@other_pt P [x; y; z] H4) as (d & Hd & Nd); [cbn; lia|].
  assert (Nd' : ~ isCorner (x, y, z) d) by (cbn in *; intuition congruence).
  assert (W : forall x y z, In x P -> x <> y -> x <> z -> ~ isCorner (x, y, z) d -> (forall q, isCorner (x, y, z) q <-> isCorner (x, z, y) q) ->
     ((forall q, In q P -> ~ isCorner (x, y, z) q -> svol x y z q < 0) \/ (forall q, In q P -> ~ isCorner (x, y, z) q -> 0 < svol x y z q)) -> Extreme P x).
  { clear - Hd. intros x y z A D F Nd Sw [G|G]; [eapply facet_extreme0 with (y := y) (z := z) (d := d); auto|].
    eapply facet_extreme0 with (y := z) (z := y) (d := d); auto; [now rewrite <- Sw|]. intros q Hq Nq. rewrite svol_swap.
    specialize (G q Hq). rewrite Sw in G. specialize (G Nq). lra. }
  assert (R1 : forall q, svol y z x q = svol x y z q) by (intros; apply svol_rot).
  assert (R2 : forall q, svol z x y q = svol x y z q) by (intros; rewrite svol_rot; apply svol_rot).
  assert (C1 : forall q, isCorner (y, z, x) q <-> isCorner (x, y, z) q) by (intros; cbn; tauto).
  assert (C2 : forall q, isCorner (z, x, y) q <-> isCorner (x, y, z) q) by (intros; cbn; tauto).
  destruct Hc as [-> | [-> | ->]].
  - apply (@W x y z); auto. intros; cbn; tauto.
  - apply (@W y z x); auto; [now rewrite C1|intros; cbn; tauto|].
    destruct G as [G|G]; [left|right]; intros q Hq Nq; rewrite R1; apply G; auto; now rewrite <- C1.
  - apply (@W z x y); auto; [now rewrite C2|intros; cbn; tauto|].
    destruct G as [G|G]; [left|right]; intros q Hq Nq; rewrite R2; apply G; auto; now rewrite <- C2.
Qed.

(** *** An extreme point that is no corner would lie strictly inside *)
Lemma bary_aff L o a b c w : svol a b c o * (aff L w - aff L o) =
  svol w b c o * (aff L a - aff L o) + svol a w c o * (aff L b - aff L o) + svol a b w o * (aff L c - aff L o).
Proof. destruct L as [[[k0 k1] k2] k3]. unfold aff. destruct o, a, b, c, w. unfold svol. cbn. ring. Qed.
Lemma bary_sum o a b c w : svol a b c o - svol a b c w = svol w b c o + svol a w c o + svol a b w o.
Proof. destruct o, a, b, c, w. unfold svol. cbn. ring. Qed.

Lemma unique_in (l : list p3) q : In q (@unique RNum l) <-> In q l.
Proof.
  destruct l as [|x l]; [tauto|]. cbn [unique].
  assert (X : forall l x, In q (x :: @uniqueFrom RNum x l) <-> In q (x :: l)).
  { clear. induction l as [|y l IH]; intros x; [tauto|]. cbn [uniqueFrom]. destruct (eq3 RNum x y) eqn:E.
    - apply eq3_iff in E. subst y. specialize (IH x). cbn [In] in *. tauto.
    - specialize (IH y). cbn [In] in *. tauto. }
  apply X.
Qed.

Section Fin.
  Variable P : list p3.
  Variable o : p3.
  Notation Q := (map (fun p => subR p o) P).
  Variable eps : R.
  Hypothesis eps0 : 0 <= eps.
  Hypothesis GP : margin Q eps.
  Variable S1 : hull RNum.
  Variable W : p3 -> Prop.
  Notation h := (hh S1).
  Hypothesis R1 : RInv Q eps h W.
  Hypothesis NS : forall i f, lv h i f -> see f = [].
  Hypothesis LH : exists f, lv h (hH S1) f.
  Variable q1 q2 q3 q4 : p3.
  Hypothesis I1 : In q1 Q.
  Hypothesis I2 : In q2 Q.
  Hypothesis I3 : In q3 Q.
  Hypothesis I4 : In q4 Q.
  Hypothesis D4 : dist4 q1 q2 q3 q4.
  Hypothesis Z4 : forall L, aff L O3 = (aff L q1 + aff L q2 + aff L q3 + aff L q4) / 4.
  Let SI := ri_S R1.

  Lemma corner_Q i f q : lv h i f -> corner (corners f) q -> In q Q.
  Proof. intros L C. eapply (ri_WQ R1). eapply (si_W SI); eauto. Qed.
  Lemma live_facet i f : lv h i f -> HullFacet Q (corners f).
  Proof.
    intros L. destruct (si_nd SI L) as (A & B & C). unfold corners at 1. cbn [HullFacet].
    split; [eapply corner_Q; eauto; cbn; auto|]. split; [eapply corner_Q; eauto; cbn; auto|]. split; [eapply corner_Q; eauto; cbn; auto|].
    repeat (split; [auto; fail|]). left. intros q Hq Nq. assert (X : ht (corners f) q < - eps); [|cbn in X; lra].
    eapply (@end_ok Q eps); eauto.
  Qed.
  Lemma facet_live t : HullFacet Q t -> exists i f, lv h i f /\ forall q, isCorner (corners f) q <-> isCorner t q.
  Proof.
    assert (X : forall x y z, In x Q -> In y Q -> In z Q -> (forall q, In q Q -> ~ isCorner (x, y, z) q -> svol x y z q < 0) ->
      exists i f, lv h i f /\ forall q, isCorner (corners f) q <-> isCorner (x, y, z) q).
    { intros x y z Hx Hy Hz H. destruct LH as [f0 L0].
      assert (Le : forall q, In q Q -> svol x y z q <= 0).
      { intros q Hq. destruct (p3_eq_dec q x) as [->|]; [rewrite svol_a; lra|]. destruct (p3_eq_dec q y) as [->|]; [rewrite svol_b; lra|].
        destruct (p3_eq_dec q z) as [->|]; [rewrite svol_c; lra|]. apply Rlt_le, H; auto. cbn; tauto. }
      assert (Ho : ht (x, y, z) O3 < 0).
      { destruct (svol_aff x y z) as [L HL]. cbn [ht]. rewrite HL, Z4. rewrite <- !HL.
        pose proof (Le _ I1). pose proof (Le _ I2). pose proof (Le _ I3). pose proof (Le _ I4).
        assert (exists q, In q [q1; q2; q3; q4] /\ ~ In q [x; y; z]) as (q & Hq & Nq).
        { apply (@other_pt [q1; q2; q3; q4] [x; y; z]); [|cbn; lia]. exists q1, q2, q3, q4. cbn. auto 10. }
        assert (S : svol x y z q < 0).
        { apply H; [|cbn in *; intuition congruence]. destruct Hq as [<-|[<-|[<-|[<-|[]]]]]; auto. }
        destruct Hq as [<-|[<-|[<-|[<-|[]]]]]; lra. }
      destruct (@facet_in (ids h) (trOf h) (adjH h) (@surf_HA h W SI) O3 (hH S1) x y z) as (m & Hm & Em); auto.
      - apply (@surf_HO h W SI).
      - apply ids_in; eauto.
      - intros i q Hi Cq. apply ids_in in Hi. destruct Hi as [f L]. rewrite (trOf_lv L) in Cq. cbn [ht]. apply Le. eapply corner_Q; eauto.
      - intros i q Hi Cq. apply ids_in in Hi. destruct Hi as [f L]. rewrite (trOf_lv L).
        assert (Hq : In q Q) by (destruct Cq as [-> | [-> | ->]]; auto).
        destruct (In_dec p3_eq_dec q [fa f; fb f; fc f]) as [Ic|Nc].
        + assert (Cf : corner (corners f) q) by (unfold corners; cbn in Ic |- *; intuition). rewrite (ht_corner _ _ Cf). split; [lra|auto].
        + assert (Y : ht (corners f) q < - eps). { eapply (@end_ok Q eps); eauto. unfold corners; cbn in Nc |- *; intuition. }
          split; [lra|]. intros; lra.
      - apply ids_in in Hm. destruct Hm as [f L]. exists m, f. split; auto. intros q. rewrite (trOf_lv L) in Em. apply Em. }
    destruct t as [[x y] z]. intros (A & B & C & N1 & N2 & N3 & [G|G]).
    - apply X; auto.
    - destruct (X x z y) as (i & f & L & E); auto.
      + intros q Hq Nq. rewrite svol_swap. assert (0 < svol x y z q); [|lra]. apply G; auto. cbn in *; tauto.
      + exists i, f. split; auto. intros q. rewrite E. cbn; tauto.
  Qed.

  Lemma getFacet_len : exists L, @getFacet RNum o S1 = Ok L /\ hull_facets P L /\ length L = length (ids h).
  Proof.
    unfold getFacet.
    match goal with |- context [dfsF ?g ?st h ?s ?a] => destruct (@dfsF_ok h W SI _ g st a s LH) as (L & E & ND & LL & _ & C); set (g0 := g) in * end.
    assert (CL : forall i, In i L <-> exists f, lv h i f) by (destruct C as [C|[_ C]]; [discriminate|exact C]). clear C.
    exists (map (fun i => @outFacet RNum (shiftT o (trOf h i))) L). split.
    - rewrite E. f_equal. unfold run. assert (X : forall L acc, (forall i, In i L -> exists f, lv h i f) ->
        fold_left (act h g0) L acc = acc ++ map (fun i => @outFacet RNum (shiftT o (trOf h i))) L).
      { clear. induction L as [|i L IH]; intros acc HL; [cbn; now rewrite app_nil_r|]. cbn [fold_left map].
        rewrite IH by (intros; apply HL; right; auto). destruct (HL i (or_introl eq_refl)) as [f Lf]. unfold act. rewrite Lf, (trOf_lv Lf).
        unfold g0. rewrite <- app_assoc. reflexivity. }
      apply X; auto.
    - split; [|rewrite map_length; apply Permutation_length, NoDup_Permutation; [auto|apply NoDup_filter, seq_NoDup|intros i; rewrite CL; symmetry; apply ids_in]].
      split; [|split].
      + intros t Ht. apply in_map_iff in Ht. destruct Ht as (i & <- & Hi). apply LL in Hi. destruct Hi as [f Lf]. rewrite (trOf_lv Lf).
        apply HullFacet_out, HullFacet_shift. eapply live_facet; eauto.
      + intros t Ht. set (t' := let '(a, b, c) := t in (subR a o, subR b o, subR c o)).
        assert (Et : shiftT o t' = t) by (destruct t as [[a b] c]; cbn; now rewrite !add_sub).
        rewrite <- Et in Ht. apply HullFacet_shift in Ht. destruct (@facet_live t' Ht) as (i & f & Lf & Ec).
        exists (@outFacet RNum (shiftT o (trOf h i))). split; [apply in_map_iff; exists i; split; auto; apply CL; eauto|].
        intros q. rewrite outFacet_corner, (trOf_lv Lf). rewrite <- Et. rewrite !shiftT_corner. apply Ec.
      + intros i j t u Hi Hj Ss. rewrite nth_error_map in Hi, Hj.
        destruct (nth_error L i) as [i'|] eqn:Ei; [|discriminate]. destruct (nth_error L j) as [j'|] eqn:Ej; [|discriminate]. cbn in Hi, Hj.
        assert (i' = j').
        { destruct (LL i' (nth_error_In _ _ Ei)) as [f Lf]. destruct (LL j' (nth_error_In _ _ Ej)) as [g Lg]. apply (si_dup SI Lf Lg).
          intros q Cq. injection Hi as Hi. injection Hj as Hj. specialize (Ss (addR q o)). rewrite <- Hi, <- Hj in Ss.
          rewrite !outFacet_corner, (trOf_lv Lf), (trOf_lv Lg), !shiftT_corner, sub_add in Ss. apply Ss; auto. }
        subst j'. rewrite NoDup_nth_error in ND. apply ND; [apply nth_error_Some; congruence|congruence].
  Qed.
  Lemma getFacet_ok : exists L, @getFacet RNum o S1 = Ok L /\ hull_facets P L.
  Proof. destruct getFacet_len as (L & E & H & _). eauto. Qed.

  Lemma extreme_corner v : Extreme Q v -> exists i f, lv h i f /\ corner (corners f) v.
  Proof.
    intros (Hv & nx & ny & nz & H). set (L := (0, nx, ny, nz)).
    assert (HL : forall q, In q Q -> q <> v -> aff L q < aff L v) by (intros q Hq Nq; specialize (H q Hq Nq); unfold aff, L; lra).
    destruct LH as [f0 L0].
    destruct (@climb (ids h) (trOf h) (adjH h) (@surf_HA h W SI) O3 (@surf_HO h W SI) v (hH S1)) as (m & Hm & _ & Cm); [apply ids_in; eauto|].
    apply ids_in in Hm. destruct Hm as [f Lf]. unfold inCone in Cm. rewrite (trOf_lv Lf) in Cm. unfold corners in Cm. destruct Cm as (wa & wb & wc).
    destruct (In_dec p3_eq_dec v [fa f; fb f; fc f]) as [Ic|Nc].
    { exists m, f. split; auto. unfold corners; cbn in Ic |- *; intuition. }
    exfalso. assert (Nc' : ~ corner (corners f) v) by (unfold corners; cbn in Nc |- *; intuition).
    pose proof (@end_ok Q eps GP h W R1 NS m f v Lf Hv Nc') as Y. unfold corners in Y. cbn [ht] in Y.
    pose proof (si_in SI Lf) as O0. unfold corners in O0. cbn [ht] in O0.
    assert (Ca : aff L (fa f) < aff L v) by (apply HL; [eapply corner_Q; eauto; unfold corners; cbn; auto|cbn in Nc; intuition]).
    assert (Cb : aff L (fb f) < aff L v) by (apply HL; [eapply corner_Q; eauto; unfold corners; cbn; auto|cbn in Nc; intuition]).
    assert (Cc : aff L (fc f) < aff L v) by (apply HL; [eapply corner_Q; eauto; unfold corners; cbn; auto|cbn in Nc; intuition]).
    assert (Le : forall q, In q Q -> aff L q <= aff L v) by (intros q Hq; destruct (p3_eq_dec q v) as [->|]; [lra|apply Rlt_le; auto]).
    assert (Co : aff L O3 < aff L v).
    { rewrite Z4. pose proof (Le _ I1). pose proof (Le _ I2). pose proof (Le _ I3). pose proof (Le _ I4).
      destruct D4 as (N12 & _). destruct (p3_eq_dec q1 v) as [E1|N1]; [|pose proof (HL _ I1 N1); lra].
      assert (N2 : q2 <> v) by congruence. pose proof (HL _ I2 N2). lra. }
    pose proof (bary_aff L O3 (fa f) (fb f) (fc f) v) as B. pose proof (bary_sum O3 (fa f) (fb f) (fc f) v) as Sm.
    revert B Sm wa wb wc Y O0 Ca Cb Cc Co eps0. generalize (svol (fa f) (fb f) (fc f) O3) as d, (svol (fa f) (fb f) (fc f) v) as s,
      (svol v (fb f) (fc f) O3) as x, (svol (fa f) v (fc f) O3) as y, (svol (fa f) (fb f) v O3) as z, (aff L (fa f)) as A, (aff L (fb f)) as B,
      (aff L (fc f)) as C, (aff L v) as V, (aff L O3) as U. clear. intros. assert (d * (V - U) < (x + y + z) * (V - U)) by nra. nra.
  Qed.

  Lemma corners_extreme v : Extreme P v <-> exists i f, lv h i f /\ corner (corners f) (subR v o).
  Proof.
    assert (FP : four_pts P).
    { apply in_map_iff in I1, I2, I3, I4. destruct I1 as (a & E1 & A), I2 as (b & E2 & B), I3 as (c & E3 & C), I4 as (d & E4 & D).
      exists a, b, c, d. unfold dist4 in *. intuition congruence. }
    split.
    - intros (Hv & nx & ny & nz & H). apply extreme_corner. split; [apply in_map_iff; eauto|]. exists nx, ny, nz.
      intros q Hq Nq. apply in_map_iff in Hq. destruct Hq as (p & <- & Hp). assert (Np : p <> v) by congruence. specialize (H p Hp Np).
      destruct p, v, o. cbn in *. lra.
    - intros (i & f & L & C). apply facet_extreme with (t := shiftT o (corners f)); auto.
      + apply HullFacet_shift. eapply live_facet; eauto.
      + apply shiftT_corner; auto.
  Qed.

  Lemma getVertex_ok (srt : (p3 -> p3 -> bool) -> list p3 -> list p3) : (forall lt l, Permutation l (srt lt l)) ->
    exists L, @getVertex RNum srt o S1 = Ok L /\ forall v, In v L <-> Extreme P v.
  Proof.
    intros Hs. unfold getVertex.
    match goal with |- context [dfsF ?g ?st h ?s ?a] => destruct (@dfsF_ok h W SI _ g st a s LH) as (L & E & ND & LL & _ & C); set (g0 := g) in * end.
    assert (CL : forall i, In i L <-> exists f, lv h i f) by (destruct C as [C|[_ C]]; [discriminate|exact C]). clear C.
    rewrite E. cbn [bind]. eexists. split; [reflexivity|]. intros v. etransitivity; [apply unique_in|].
    set (cs := fun i => let '(a, b, c) := shiftT o (trOf h i) in [a; b; c]).
    assert (X : forall L acc, (forall i, In i L -> exists f, lv h i f) -> fold_left (act h g0) L acc = acc ++ flat_map cs L).
    { clear. induction L as [|i L IH]; intros acc HL; [cbn; now rewrite app_nil_r|]. cbn [fold_left flat_map].
      rewrite IH by (intros; apply HL; right; auto). destruct (HL i (or_introl eq_refl)) as [f Lf]. unfold act. rewrite Lf. unfold cs. rewrite (trOf_lv Lf).
      unfold g0. rewrite <- app_assoc. reflexivity. }
    assert (Y : In v (flat_map cs L) <-> Extreme P v).
    { rewrite corners_extreme, in_flat_map. split.
      - intros (i & Hi & Hv). apply LL in Hi. destruct Hi as [f Lf]. exists i, f. split; auto. unfold cs in Hv. rewrite (trOf_lv Lf) in Hv.
        apply shiftT_corner. unfold corners in *. cbn in Hv |- *. intuition.
      - intros (i & f & Lf & Hc). exists i. split; [apply CL; eauto|]. unfold cs. rewrite (trOf_lv Lf). apply shiftT_corner in Hc. unfold corners in *. cbn in Hc |- *. intuition. }
    rewrite <- Y. unfold run. rewrite X by auto. cbn [app]. split; apply Permutation_in; [apply Permutation_sym|]; apply Hs.
  Qed.
End Fin.

(** *** The whole program *)
Section Whole.
  Variable P : list p3.
  Variable eps : R.
  Hypothesis eps0 : 0 <= eps.
  Hypothesis GP : margin P (4 * eps).
  Hypothesis H4 : four_pts P.
  Variable mm : (p3 -> p3 -> bool) -> list p3 -> nat * nat.
  Variable mx : (p3 -> p3 -> bool) -> list p3 -> nat.
  Hypothesis Hmm : minmax3_ok mm.
  Hypothesis Hmx : maxel3_ok mx.

  Lemma margin_le Q e e' : e' <= e -> margin Q e -> margin Q e'.
  Proof. intros L M a b c d A B C D N1 N2 N3 N4 N5 N6. pose proof (M a b c d A B C D N1 N2 N3 N4 N5 N6). lra. Qed.

  Lemma quick_ok : exists o S1 W q1 q2 q3 q4, @quickHull3 RNum eps mm mx P = Ok (o, S1) /\
    let Q := map (fun p => subR p o) P in
    margin Q eps /\ RInv Q eps (hh S1) W /\ (forall i f, lv (hh S1) i f -> see f = []) /\ (exists f, lv (hh S1) (hH S1) f) /\
    In q1 Q /\ In q2 Q /\ In q3 Q /\ In q4 Q /\ dist4 q1 q2 q3 q4 /\
    forall L, aff L O3 = (aff L q1 + aff L q2 + aff L q3 + aff L q4) / 4.
  Proof.
    unfold quickHull3. destruct (@init_ok P eps eps0 GP H4 mm mx Hmm Hmx) as (o & S0 & W & q1 & q2 & q3 & q4 & E & R0 & T & L0 & I1 & I2 & I3 & I4 & D & Z).
    rewrite E. cbn [bind].
    assert (G : margin (map (fun p => subR p o) P) eps) by (apply margin_sub; eapply margin_le; [|exact GP]; lra).
    destruct (@loop_ok _ eps eps0 G (S (length P)) S0 W R0) as (S1 & W1 & E1 & R1 & L1 & N1); auto; [lia|].
    change (nT RNum) with R. rewrite E1. cbn [bind]. exists o, S1, W1, q1, q2, q3, q4. split; auto. cbv zeta. repeat (split; [assumption|]).
    intros [[[k0 k1] k2] k3].
    pose proof (Z (V3 0 0 0, V3 1 0 0, V3 0 1 0)) as Z3. pose proof (Z (V3 0 0 0, V3 0 1 0, V3 0 0 1)) as Z1. pose proof (Z (V3 0 0 0, V3 0 0 1, V3 1 0 0)) as Z2.
    cbn [ht] in Z1, Z2, Z3. unfold svol, O3 in Z1, Z2, Z3. cbn [vx vy vz] in Z1, Z2, Z3. unfold aff, O3. cbn [vx vy vz]. nra.
  Qed.

End Whole.
