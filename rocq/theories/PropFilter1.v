(** C99: the filter of the sampling hull that tests every point against every facet. *)
From Coq Require Import Floats Reals Lra Lia Psatz List Bool Permutation.
From Verif Require Import Base Num FloatNum Hull2dModel H3Model H3Geom H3Surf H3Heap H3Edge H3Front H3Link H3Place H3Round H3Loop H3Main H3Init H3Init2 H3Spec H3Final H3Inst H3Sub H3SubMain H3Filter1Model PropHull3d PropHull3dSub.
Set Implicit Arguments.
Open Scope R_scope.

(** ** A point no facet of the hull of a part sees is not extreme *)
Lemma part_seen S e P v : 0 <= e -> margin S (4 * e) -> four_pts S -> incl S P -> Extreme P v ->
  exists t, HullFacet S t /\ outward S t /\ (isCorner t v \/ 0 < ht t v).
Proof.
  intros E0 G H4 IS (Hv & nx & ny & nz & H).
  destruct (@quick_ok S e E0 G H4 minmaxI3 argmaxI minmaxI_ok3 maxelI_ok) as (o & S1 & W & q1 & q2 & q3 & q4 & E & GQ & R1 & NS & LH & I1 & I2 & I3 & I4 & D & Z).
  set (Q := map (fun p => subR p o) S) in *. set (h := hh S1) in *. pose proof (ri_S R1) as SI.
  set (L := (0, nx, ny, nz)). set (w := subR v o).
  assert (HL : forall q, In q Q -> q <> w -> aff L q < aff L w).
  { intros q Hq Nq. apply in_map_iff in Hq. destruct Hq as (p & <- & Hp). assert (Np : p <> v) by (intros ->; apply Nq; reflexivity).
    specialize (H p (IS p Hp) Np). unfold aff, L, w. destruct p, v, o. cbn in *. lra. }
  pose proof LH as [f0 L0].
  destruct (@climb (ids h) (trOf h) (adjH h) (@surf_HA h W SI) O3 (@surf_HO h W SI) w (hH S1)) as (m & Hm & _ & Cm); [apply ids_in; eauto|].
  apply ids_in in Hm. destruct Hm as [f Lf]. unfold inCone in Cm. rewrite (trOf_lv Lf) in Cm. unfold corners in Cm. destruct Cm as (wa & wb & wc).
  exists (shiftT o (corners f)). split; [apply HullFacet_shift; eapply live_facet; eauto|].
  assert (HT : forall q, ht (shiftT o (corners f)) q = ht (corners f) (subR q o)).
  { intros q. unfold corners, shiftT. cbn [ht]. rewrite <- (@svol_sub _ _ _ q o). now rewrite !sub_add. }
  split.
  { intros q Hq Nq. rewrite HT. assert (X : ht (corners f) (subR q o) < - e); [|lra]. eapply (@end_ok Q e); eauto.
    - apply in_map_iff. eauto.
    - intros C. apply Nq. apply shiftT_corner. exact C. }
  rewrite HT. fold w. destruct (In_dec p3_eq_dec w [fa f; fb f; fc f]) as [Ic|Nc].
  { left. apply shiftT_corner. fold w. unfold corners; cbn in Ic |- *; intuition. }
  right. destruct (Rlt_dec 0 (ht (corners f) w)) as [|Y]; auto. exfalso. apply Rnot_lt_le in Y. unfold corners in Y. cbn [ht] in Y.
  pose proof (si_in SI Lf) as O0. unfold corners in O0. cbn [ht] in O0.
  assert (CQ : forall q, corner (corners f) q -> In q Q) by (intros q Cq; eapply corner_Q; eauto).
  assert (Ca : aff L (fa f) < aff L w) by (apply HL; [apply CQ; unfold corners; cbn; auto|cbn in Nc; intuition]).
  assert (Cb : aff L (fb f) < aff L w) by (apply HL; [apply CQ; unfold corners; cbn; auto|cbn in Nc; intuition]).
  assert (Cc : aff L (fc f) < aff L w) by (apply HL; [apply CQ; unfold corners; cbn; auto|cbn in Nc; intuition]).
  assert (Le : forall q, In q Q -> aff L q <= aff L w) by (intros q Hq; destruct (p3_eq_dec q w) as [->|]; [lra|apply Rlt_le; auto]).
  assert (Co : aff L O3 < aff L w).
  { rewrite Z. pose proof (Le _ I1). pose proof (Le _ I2). pose proof (Le _ I3). pose proof (Le _ I4).
    destruct D as (N12 & _). destruct (p3_eq_dec q1 w) as [E1|N1]; [|pose proof (HL _ I1 N1); lra].
    assert (N2 : q2 <> w) by congruence. pose proof (HL _ I2 N2). lra. }
  pose proof (bary_aff L O3 (fa f) (fb f) (fc f) w) as B. pose proof (bary_sum O3 (fa f) (fb f) (fc f) w) as Sm.
  revert B Sm wa wb wc Y O0 Ca Cb Cc Co. generalize (svol (fa f) (fb f) (fc f) O3) as d, (svol (fa f) (fb f) (fc f) w) as s,
    (svol w (fb f) (fc f) O3) as x, (svol (fa f) w (fc f) O3) as y, (svol (fa f) (fb f) w O3) as z, (aff L (fa f)) as A, (aff L (fb f)) as B,
    (aff L (fc f)) as C, (aff L w) as V, (aff L O3) as U. clear. intros.
  (* d (V - U) = x (A - U) + y (B - U) + z (C - U) and d = s + x + y + z *)
  assert (0 <= s * (U - V)) by nra. assert (0 <= x * (A - V)) by nra. assert (0 <= y * (B - V)) by nra. assert (0 <= z * (C - V)) by nra.
  assert (T : s * (U - V) + x * (A - V) + y * (B - V) + z * (C - V) = 0) by nra.
  assert (s * (U - V) = 0) by lra. assert (x * (A - V) = 0) by lra. assert (y * (B - V) = 0) by lra. assert (z * (C - V) = 0) by lra.
  assert (s = 0) by nra. assert (x = 0) by nra. assert (y = 0) by nra. assert (z = 0) by nra. lra.
Qed.

(** Two ways to write a facet with the other points below see the same. *)
Lemma outward_same S t u q : four_pts S -> HullFacet S t -> HullFacet S u -> sameFacet t u -> outward S t -> outward S u -> ht t q = ht u q.
Proof.
  intros (p1 & p2 & p3' & p4 & A1 & A2 & A3 & A4 & D) Ht Hu Su Ot Ou. destruct t as [[a b] c], u as [[x y] z].
  assert (exists p, In p [p1; p2; p3'; p4] /\ ~ In p [a; b; c]) as (p & Hp & Np).
  { apply (@other_pt [p1; p2; p3'; p4] [a; b; c]); [|cbn; lia]. exists p1, p2, p3', p4. cbn. auto 10. }
  assert (Ip : In p S) by (destruct Hp as [<-|[<-|[<-|[<-|[]]]]]; auto).
  assert (N1 : ~ isCorner (a, b, c) p) by (cbn in *; intuition congruence).
  assert (N2 : ~ isCorner (x, y, z) p) by (rewrite <- (Su p); exact N1).
  pose proof (Ot p Ip N1) as Vt. pose proof (Ou p Ip N2) as Vu. cbn [ht] in *.
  destruct Ht as (_ & _ & _ & T1 & T2 & T3 & _). destruct Hu as (_ & _ & _ & U1 & U2 & U3 & _).
  pose proof (proj1 (Su a) (or_introl eq_refl)) as Ca. pose proof (proj1 (Su b) (or_intror (or_introl eq_refl))) as Cb.
  pose proof (proj1 (Su c) (or_intror (or_intror eq_refl))) as Cc. cbn [isCorner] in Ca, Cb, Cc. clear Su Ot Ou N1 N2.
  destruct Ca as [-> | [-> | ->]]; destruct Cb as [-> | [-> | ->]]; try (exfalso; congruence);
    destruct Cc as [-> | [-> | ->]]; try (exfalso; congruence); unfold svol in *; first [ring | exfalso; lra].
Qed.

(** ** The filter over the reals *)
Lemma outOf_iff o p t : @outOf RNum o p t = true <-> 0 < ht t p \/ isCorner t p.
Proof.
  destruct t as [[a b] c]. unfold outOf, area. rewrite !orb_true_iff, !eq3_iff.
  match goal with |- context [nlt RNum _ ?x] => assert (E : x = svol a b c p) end.
  { destruct a, b, c, p, o. unfold dot3, sub3, cross3, svol. cbn. ring. }
  rewrite E. cbn [nlt RNum nzero]. rewrite Rltb_true. cbn [ht isCorner]. intuition congruence.
Qed.

(** What the filter keeps, in order; the interior point has no effect. *)
Definition kept (F : list tri3) (p : v3 R) : Prop := exists t, In t F /\ (0 < ht t p \/ isCorner t p).
(** the points of a list that satisfy [f], in their order *)
Inductive keepsOnly (f : v3 R -> Prop) : list (v3 R) -> list (v3 R) -> Prop :=
| KNil : keepsOnly f [] []
| KIn p P R : f p -> keepsOnly f P R -> keepsOnly f (p :: P) (p :: R)
| KOut p P R : ~ f p -> keepsOnly f P R -> keepsOnly f (p :: P) R.
Lemma keepsOnly_in f P R p : keepsOnly f P R -> In p R <-> In p P /\ f p.
Proof.
  induction 1 as [|q P R Hf _ IH|q P R Hf _ IH]; cbn [In]; [tauto| |].
  - rewrite IH. split; [intros [<-|[A B]]; auto|intros [[<-|A] B]; auto].
  - rewrite IH. split; [tauto|]. intros [[<-|A] B]; tauto.
Qed.

Theorem C99_filter_exact : forall P F, F <> [] -> exists R, @filter1 RNum P F = Ok R /\ keepsOnly (kept F) P R.
Proof.
  intros P F NF. unfold filter1. assert (exists o, @innerPt RNum F = Ok o) as (o & ->).
  { destruct F as [|[[a b] c] F]; [congruence|]. unfold innerPt. destruct (last _ _) as [[z z'] z'']. eauto. }
  cbn [bind]. eexists. split; [reflexivity|]. clear NF.
  assert (X : forall p, @isOut RNum o F p = true <-> kept F p).
  { intros p. unfold isOut, kept. rewrite existsb_exists. split; intros (t & Ht & H); exists t; (split; [exact Ht|]); apply (outOf_iff o p t); exact H. }
  induction P as [|p P IH]; cbn [filter]; [constructor|]. destruct (@isOut RNum o F p) eqn:E.
  - constructor; auto. apply X; auto.
  - constructor; auto. intros K. apply X in K. congruence.
Qed.
Print Assumptions C99_filter_exact.

(** With the facets of the hull of a sample around the origin no extreme point is
    lost, and the points kept have the hull of all. *)
Theorem C99_filter_hull : forall eps mm mx P S F, minmax3_ok mm -> maxel3_ok mx -> 0 <= eps -> general S (4 * eps) -> fourOf S ->
  ((10 < length S)%nat \/ NoDup S) ->
  (forall x y z, HullFacet S (x, y, z) -> (forall q, In q S -> ~ isCorner (x, y, z) q -> svol x y z q < 0) -> svol x y z (V3 0 0 0) < 0) ->
  incl S P -> @compute RNum eps mm mx S = Ok F ->
  exists R, @filter1 RNum P F = Ok R /\ incl R P /\ (forall v, Extreme P v -> In v R) /\
    (general P (4 * eps) -> forall L, hull_facets P L <-> hull_facets R L).
Proof.
  intros eps mm mx P S F Hm Hx E0 G F4 DS OI IS EF. destruct (@C61_quickhull eps mm mx S Hm Hx E0 G F4) as [_ H]. destruct (H DS) as (F' & EF' & HF).
  rewrite EF in EF'. injection EF' as <-. pose proof (proj1 (general_margin S (4 * eps)) G) as M. pose proof (fourOf_pts F4) as S4.
  assert (K : forall v, Extreme P v -> kept F v).
  { intros v Ev. destruct (@part_seen S eps P v E0 M S4 IS Ev) as (t & Ht & Ot & C). destruct (proj1 (proj2 HF) t Ht) as (u & Hu & Su).
    exists u. split; auto. destruct C as [C|C]; [right; apply Su; exact C|]. left. replace (ht u v) with (ht t v); auto.
    apply (@outward_same S); auto.
    - apply HF; auto.
    - intros q. symmetry. apply Su.
    - destruct u as [[x y] z]. intros q Hq Nq. exact (@C66_outward_partial eps mm mx S F Hm Hx E0 G F4 DS OI EF x y z Hu q Hq Nq). }
  assert (NF : F <> []).
  { destruct (@extreme_four S (4 * eps)) as (v & _ & _ & _ & Ev & _); [lra|auto|auto|].
    destruct (@extreme_facet S eps v E0 M S4 Ev) as (t & Ht & _). destruct (proj1 (proj2 HF) t Ht) as (u & Hu & _). intros ->. exact Hu. }
  destruct (@C99_filter_exact P F NF) as (R & ER & KR). exists R. split; auto.
  assert (IR : incl R P) by (intros p Hp; apply (keepsOnly_in p KR); auto). split; auto.
  assert (XR : forall v, Extreme P v -> In v R). { intros v Ev. apply (keepsOnly_in v KR). split; [exact (proj1 Ev)|auto]. }
  split; auto. intros GP L. apply (@sub_hull P R (4 * eps)); auto; [lra|apply general_margin; auto|].
  destruct S4 as (a & b & c & d & A & B & C & D & N). exists a, b, c, d. repeat (split; [apply IS; auto|]); auto.
Qed.
Print Assumptions C99_filter_hull.

(** No facets: the first one is read all the same. *)
Theorem C99_empty_refuted : forall K P, @filter1 K P [] = UB.
Proof. reflexivity. Qed.
Print Assumptions C99_empty_refuted.

(** The points of [C81_refuted] and two inside: all six are kept, the other two
    are not. *)
Example C99_example : (F <- @compute FNum epsF minmaxI3 argmaxI (skipn 2 six) ;; @filter1 FNum (V 0 0 1 :: six ++ [V 0.5 0.25 0]) F) = Ok six.
Proof. vm_compute. reflexivity. Qed.

(** The same sample and a point outside, moved away from the origin: the facet
    the point is beyond lists its corners the other way round, and the point,
    which is on the hull, is lost. *)
Definition away : list (v3 (nT FNum)) := map (fun p => add3 FNum p (V 8 0 0)) (V (-2.5) 0 (-0.5) :: skipn 2 six).
Theorem C99_away_refuted : forallb (fun v => existsb (cornerF v) (brute3 FNum epsF away)) away = true /\
  (F <- @compute FNum epsF minmaxI3 argmaxI (skipn 1 away) ;; @filter1 FNum away F) = Ok (skipn 1 away).
Proof. split; vm_compute; reflexivity. Qed.
Print Assumptions C99_away_refuted.
