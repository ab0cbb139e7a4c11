(** One turn of the quickhull loop keeps the surface. *)
From Coq Require Import Reals Lra Lia Psatz List Bool Permutation.
From Verif Require Import Base Num Hull2dModel H3Model H3Geom H3Surf H3Heap H3Edge H3Front H3Link H3Place.
Set Implicit Arguments.
Open Scope R_scope.

Lemma frot_setSee (f : fct3) s u v w l : frot (setSee f s) u v w l <-> frot f u v w l. Proof. reflexivity. Qed.
Lemma ht_corner t q : corner t q -> ht t q = 0.
Proof. destruct t as [[a b] c]. cbn [corner ht]. intros [-> | [-> | ->]]; [apply svol_a|apply svol_b|apply svol_c]. Qed.

Section Rebuild.
  Variable h : heap3.
  Variable W : p3 -> Prop.
  Hypothesis SI : SInv h W.
  Variable eps : R.
  Hypothesis eps0 : 0 <= eps.
  Variable p : p3.
  Hypothesis MP : forall i f, lv h i f -> @visible RNum eps f p = false -> ht (corners f) p < 0.
  Hypothesis Np : ~ W p.
  Notation vis := (vis h eps p).
  Notation bnd := (bnd h eps p).
  Notation bndE := (bndE h eps p).
  Notation drt := (drt h).
  Variable fr : list edge3.
  Hypothesis Fcyc : forall i e e', nth_error fr i = Some e -> nth_error fr ((i + 1) mod length fr) = Some e' -> eb e = ea e'.
  Hypothesis Fnd : NoDup (map key fr).
  Hypothesis Fb : forall e, In e fr -> bndE e.
  Hypothesis Fall : forall u v, bnd u v -> exists e, In e fr /\ key e = (u, v).
  Notation n0 := (length h).
  Notation m := (length fr).
  Hypothesis m0 : (0 < m)%nat.
  Notation h1 := (h1 h eps p fr).
  Variable h2 h3 h4 : heap3.
  Hypothesis M2 : Mid h eps p fr h2.
  Hypothesis DN : forall i, (i < m)%nat -> Done h p fr h2 i.
  Hypothesis S3 : SS h2 h3.
  Hypothesis D4 : forall k f, lv h4 k f <-> (~ vis k /\ lv h3 k f).

  Notation fr_hor := (@fr_hor h W SI eps eps0 p MP fr Fb).
  Notation fr_np := (@fr_np h W SI eps eps0 p MP Np fr Fb).
  Notation fr_in := (@fr_in h W SI eps eps0 p MP fr Fb).
  Notation h1_inv := (@h1_inv h W SI eps eps0 p MP fr Fb m0).
  Notation h1_new := (@h1_new h W SI eps eps0 p MP fr Fb m0).

  Lemma vis_lt k : vis k -> (k < n0)%nat.
  Proof. intros (f & L & _). eapply lv_len; eauto. Qed.

  (** a facet left: an old one that is not visible *)
  Definition oldF (k : nat) (f4 : fct3) : Prop := exists f, (k < n0)%nat /\ ~ vis k /\ lv h k f /\ corners f4 = corners f /\
    forall u v w l j, frot f4 u v w l -> frot f u v w (Some j) ->
      (vis j /\ exists i e, nth_error fr i = Some e /\ key e = (v, u) /\ l = Some (n0 + i)%nat) \/ (~ vis j /\ l = Some j).
  (** or a new one *)
  Definition newF (k : nat) (f4 : fct3) : Prop := exists i e, k = (n0 + i)%nat /\ nth_error fr i = Some e /\
    fa f4 = ea e /\ fb f4 = eb e /\ fc f4 = p /\ fab f4 = eff e /\ fbc f4 = Some (n0 + sc fr i)%nat /\ fca f4 = Some (n0 + pd fr i)%nat.

  Lemma no_key j k u v w e : drt v u w j k -> ~ vis j -> In e fr -> key e <> (v, u).
  Proof.
    intros D Nj He K. destruct (Fb _ He) as (i & j' & w2 & _ & _ & De & Vi & _). unfold key in K. injection K as E1 E2.
    rewrite E1, E2 in De. destruct (drt_fun SI D De) as (_ & <- & _). auto.
  Qed.

  Lemma live4 k f4 : lv h4 k f4 -> oldF k f4 \/ newF k f4.
  Proof.
    intros L4. apply D4 in L4. destruct L4 as [Nk L3]. destruct (ss_inv S3 L3) as [f2 L2]. destruct (ss_ex S3 L2) as [s L3'].
    rewrite (lv_fun L3 L3') in *. clear L3 L3' f4.
    destruct (md_inv M2 L2) as [f1 L1]. destruct (md_ex M2 L1) as (f2' & L2' & G & HI). rewrite (lv_fun L2' L2) in *. clear f2' L2'.
    destruct (h1_inv L1) as [[Lk L]|(i & e & -> & Hi & ->)].
    - left. exists f1. split; auto. split; auto. split; auto. split; [apply (geo_corners G)|].
      intros u v w l j R2 R. rewrite frot_setSee in R2.
      assert (D : drt u v w k j) by (exists f1; auto). destruct (drt_twin SI D) as [w' D'].
      destruct (vis_dec h eps p j) as [Vj|Nj].
      + left. split; auto. destruct (@Fall v u) as (e & He & K); [exists w', j, k; auto|].
        apply In_nth_error in He. destruct He as [i Hi]. assert (Li : (i < m)%nat) by (apply nth_error_Some; congruence).
        destruct (Fb _ (nth_error_In _ _ Hi)) as (ib & j' & w2 & _ & Ef & De & _). unfold key in K. injection K as E1 E2.
        rewrite E1, E2 in De. destruct (drt_fun SI D' De) as (_ & _ & <-).
        destruct (@DN i Li e k Hi Ef) as (_ & _ & _ & HH). rewrite E1, E2 in HH. destruct (HH f2 w l L2 R2) as [(_ & i' & e' & A & B & C)|(i' & e' & A & _)]; [eauto|lia].
      + right. split; auto. destruct (HI _ _ _ _ R2) as [[(_ & i' & e' & A & B & C)|(i' & e' & A & _)]|R']; [|lia|].
        * exfalso. eapply no_key; eauto. eapply nth_error_In; eauto.
        * assert (X : drt u v w k j) by auto.
          destruct (side_unique SI L L R R') as (_ & _ & _ & E). auto.
    - right. exists i, e. split; auto. split; auto. destruct G as (A & B & C & _). cbn in A, B, C.
      assert (Li : (i < m)%nat) by (apply nth_error_Some; congruence).
      pose proof (nth_error_In _ _ Hi) as He. destruct (Fb _ He) as (ib & j' & w2 & _ & Ef & De & _).
      destruct (@DN i Li e j' Hi Ef) as (X1 & X2 & X3 & _).
      cbn [setSee fa fb fc fab fbc fca].
      destruct (fr_np _ He) as (N1 & N2 & N3).
      assert (R1 : frot f2 (ea e) (eb e) p (fab f2)) by (unfold frot; rewrite A, B, C; tauto).
      assert (R2 : frot f2 (eb e) p (ea e) (fbc f2)) by (unfold frot; rewrite A, B, C; tauto).
      assert (R3 : frot f2 p (ea e) (eb e) (fca f2)) by (unfold frot; rewrite A, B, C; tauto).
      assert (EI : forall i' e', (n0 + i = n0 + i')%nat -> nth_error fr i' = Some e' -> i' = i /\ e' = e).
      { intros i' e' Ei He'. assert (i' = i) by lia. subst. split; congruence. }
      destruct (X1 _ _ _ L2 R1) as [[Z _]|(i1 & e1 & Z1 & Z2 & Z3)]; [lia|]. destruct (EI _ _ Z1 Z2) as [-> ->].
      destruct (X2 _ _ _ L2 R2) as [[Z _]|(i2 & e2 & Y1 & Y2 & Y3)]; [lia|]. destruct (EI _ _ Y1 Y2) as [-> ->].
      destruct (X3 _ _ _ L2 R3) as [[Z _]|(i3 & e3 & V1 & V2 & V3)]; [lia|]. destruct (EI _ _ V1 V2) as [-> ->].
      destruct Z3 as [(_ & _ & Z3)|[(Z3 & Z4 & _)|(Z3 & _)]]; try congruence.
      destruct Y3 as [(Y3 & _)|[(_ & _ & Y3)|(Y3 & _)]]; try congruence.
      destruct V3 as [(V3 & _)|[(V3 & V4 & _)|(_ & _ & V3)]]; try congruence. repeat (split; auto).
  Qed.
  Lemma keep_old k f : lv h k f -> ~ vis k -> exists f4, lv h4 k f4 /\ corners f4 = corners f.
  Proof.
    intros L Nk. destruct (Mid_old M2 L) as (f2 & L2 & G). destruct (ss_ex S3 L2) as [s L3].
    exists (setSee f2 s). split; [apply D4; auto|]. apply (geo_corners G).
  Qed.
  Lemma add_new i e : nth_error fr i = Some e -> exists f4, lv h4 (n0 + i) f4 /\ corners f4 = (ea e, eb e, p).
  Proof.
    intros Hi. destruct (@Mid_new h W SI eps eps0 p MP fr Fb m0 _ _ _ M2 Hi) as (f2 & L2 & A & B & C & _). destruct (ss_ex S3 L2) as [s L3].
    exists (setSee f2 s). split; [apply D4; split; auto; intros V; apply vis_lt in V; lia|]. unfold corners; cbn. congruence.
  Qed.
  Lemma oldF_of k f4 : lv h4 k f4 -> (k < n0)%nat -> oldF k f4.
  Proof. intros L Lk. destruct (live4 L) as [|(i & e & -> & _)]; auto. lia. Qed.
  Lemma newF_of i f4 : lv h4 (n0 + i) f4 -> newF (n0 + i) f4.
  Proof. intros L. destruct (live4 L) as [(f & Lk & _)|]; auto. lia. Qed.

  Definition W' (q : p3) : Prop := W q \/ q = p.
  Lemma W_ne e q : In e fr -> W q -> q <> p. Proof. intros _ H ->. auto. Qed.

  Lemma SInv4 : SInv h4 W'.
  Proof.
    assert (NdF : forall k f4, lv h4 k f4 -> fa f4 <> fb f4 /\ fb f4 <> fc f4 /\ fc f4 <> fa f4).
    { intros k f4 L4. destruct (live4 L4) as [(f & _ & _ & L & C & _)|(i & e & _ & Hi & A & B & C & _)].
      - unfold corners in C. inversion C as [[C1 C2 C3]]. rewrite C1, C2, C3. eapply (si_nd SI); eauto.
      - rewrite A, B, C. destruct (fr_np _ (nth_error_In _ _ Hi)) as (N1 & N2 & N3). auto. }
    split; auto.
    - intros k f4 q L4 Cq. destruct (live4 L4) as [(f & _ & _ & L & C & _)|(i & e & _ & Hi & A & B & C & _)].
      + rewrite C in Cq. left. eapply (si_W SI); eauto.
      + unfold corners in Cq; cbn [corner] in Cq. rewrite A, B, C in Cq. destruct (fr_hor _ (nth_error_In _ _ Hi)) as (Wa & Wb & _).
        destruct Cq as [-> | [-> | ->]]; [left|left|right]; auto.
    - intros k f4 q L4 Wq Cq. destruct (live4 L4) as [(f & _ & Nk & L & C & _)|(i & e & _ & Hi & A & B & C & _)].
      + rewrite C in *. destruct Wq as [Wq| ->]; [eapply (si_neg SI); eauto|]. apply (MP L).
        destruct (@visible RNum eps f p) eqn:E; auto. exfalso. apply Nk. exists f; auto.
      + unfold corners in *. cbn [corner ht] in *. rewrite A, B, C in *. destruct (fr_hor _ (nth_error_In _ _ Hi)) as (Wa & Wb & _ & X).
        destruct Wq as [Wq| ->]; [|tauto]. apply X; auto; intros ->; tauto.
    - intros k f4 u v w l L4 R4. destruct (live4 L4) as [(f & Lk & Nk & L & C & S)|(i & e & -> & Hi & A & B & C & Ea & Eb & Ec)].
      + assert (R : exists l0, frot f u v w l0).
        { apply rot3_frot. rewrite <- C. eapply frot_rot3; eauto. }
        destruct R as [l0 R]. destruct (si_link SI L R) as (j & g & w' & -> & Lg & Rg).
        destruct (S _ _ _ _ _ R4 R) as [(Vj & i & e & Hi & K & ->)|(Nj & ->)].
        * unfold key in K. injection K as K1 K2.
          destruct (add_new _ Hi) as (g4 & Lg4 & Cg). destruct (newF_of _ Lg4) as (i' & e' & Ei & Hi' & A' & B' & C' & X & _).
          assert (i' = i) by lia. subst i'. assert (e' = e) by congruence. subst e'.
          exists (n0 + i)%nat, g4, p. split; auto. split; auto. left. rewrite A', B', C', X. repeat split; auto.
          destruct (Fb _ (nth_error_In _ _ Hi)) as (ib & j' & w2 & _ & Ef & De & _). rewrite Ef. f_equal.
          rewrite K1, K2 in De. assert (D' : drt v u w' j k) by (exists g; auto). destruct (drt_fun SI D' De) as (_ & _ & E); auto.
        * destruct (keep_old Lg Nj) as (g4 & Lg4 & Cg). exists j, g4, w'. split; auto. split; auto.
          assert (Rg4 : exists l4, frot g4 v u w' l4) by (apply rot3_frot; rewrite Cg; eapply frot_rot3; eauto).
          destruct Rg4 as [l4 Rg4]. destruct (oldF_of Lg4 (lv_len Lg)) as (g' & _ & _ & Lg' & _ & S').
          rewrite (lv_fun Lg' Lg) in S'. destruct (S' _ _ _ _ _ Rg4 Rg) as [(Vk & _)|(_ & ->)]; tauto.
      + assert (Li : (i < m)%nat) by (apply nth_error_Some; congruence).
        pose proof (nth_error_In _ _ Hi) as He. destruct (Fb _ He) as (ib & j & w2 & _ & Ef & De & Vib & Nj).
        destruct (fr_nth fr m0 (sc_lt fr m0 i)) as [en Hn]. destruct (fr_nth fr m0 (pd_lt fr m0 i)) as [ep Hp].
        pose proof (Fcyc _ Hi Hn) as En. pose proof (Fcyc _ Hp (e' := e)) as Ep. fold (sc fr (pd fr i)) in Ep. rewrite (sc_pd fr m0 Li) in Ep. specialize (Ep Hi).
        destruct R4 as [(-> & -> & -> & ->)|[(-> & -> & -> & ->)|(-> & -> & -> & ->)]].
        * rewrite ?A, ?B, ?C, Ea, Ef. destruct (drt_twin SI De) as [w' D']. pose proof D' as (g & Lg & Rg).
          destruct (keep_old Lg Nj) as (g4 & Lg4 & Cg). exists j, g4, w'. split; auto. split; auto.
          assert (Rg4 : exists l4, frot g4 (eb e) (ea e) w' l4) by (apply rot3_frot; rewrite Cg; eapply frot_rot3; eauto).
          destruct Rg4 as [l4 Rg4]. destruct (oldF_of Lg4 (lv_len Lg)) as (g' & _ & _ & Lg' & _ & S').
          rewrite (lv_fun Lg' Lg) in S'. destruct (S' _ _ _ _ _ Rg4 Rg) as [(Vk & i' & e' & Hi' & K' & ->)|(Nv & _)]; [|tauto].
          assert (i' = i). { eapply fr_key; eauto. } subst. auto.
        * rewrite ?A, ?B, ?C, Eb. destruct (add_new _ Hn) as (g4 & Lg4 & _).
          destruct (newF_of _ Lg4) as (i' & e' & Ei & Hi' & A' & B' & C' & _ & _ & X).
          assert (i' = sc fr i) by lia. subst i'. assert (e' = en) by congruence. subst e'.
          exists (n0 + sc fr i)%nat, g4, (eb en). split; auto. split; auto. right; right. rewrite A', B', C', X, (pd_sc fr m0 Li). auto.
        * rewrite ?A, ?B, ?C, Ec. destruct (add_new _ Hp) as (g4 & Lg4 & _).
          destruct (newF_of _ Lg4) as (i' & e' & Ei & Hi' & A' & B' & C' & _ & X & _).
          assert (i' = pd fr i) by lia. subst i'. assert (e' = ep) by congruence. subst e'.
          exists (n0 + pd fr i)%nat, g4, (ea ep). split; auto. split; auto. right; left. rewrite A', B', C', X, (sc_pd fr m0 Li). auto.
    - intros k j f4 g4 Lf Lg Hc.
      destruct (live4 Lf) as [(f & Lk & Nk & L & C & _)|(i & e & -> & Hi & A & B & C & _)];
      destruct (live4 Lg) as [(g & Lj & Nj & L' & C' & _)|(i' & e' & -> & Hi' & A' & B' & C' & _)].
      + rewrite C, C' in Hc. eapply (si_dup SI); eauto.
      + exfalso. rewrite C in Hc. unfold corners at 2 in Hc. rewrite A', B', C' in Hc. cbn [corner] in Hc.
        assert (X : forall q, corner (corners f) q -> q = ea e' \/ q = eb e').
        { intros q Cq. destruct (Hc q Cq) as [|[| ->]]; auto. exfalso. apply Np. eapply (si_W SI); eauto. }
        destruct (si_nd SI L) as (N1 & N2 & N3).
        destruct (X (fa f)) as [X1|X1]; [cbn; auto| |]; (destruct (X (fb f)) as [X2|X2]; [cbn; auto| |]); (destruct (X (fc f)) as [X3|X3]; [cbn; auto| |]); congruence.
      + exfalso. rewrite C' in Hc. apply Np. eapply (si_W SI L'). apply Hc. unfold corners; cbn [corner]; auto.
      + f_equal. pose proof (nth_error_In _ _ Hi) as He. pose proof (nth_error_In _ _ Hi') as He'.
        destruct (fr_np _ He) as (N1 & N2 & N3). unfold corners in Hc. rewrite A, B, C, A', B', C' in Hc. cbn [corner] in Hc.
        destruct (Hc (ea e)) as [X|[X|X]]; [auto| | |congruence]; (destruct (Hc (eb e)) as [Y|[Y|Y]]; [auto| | |congruence]); try congruence.
        * eapply fr_key; eauto. unfold key. congruence.
        * exfalso. apply (@fr_nrev h W SI eps eps0 p MP fr Fb e e' He He'); auto.
    - intros k f4 L4. destruct (live4 L4) as [(f & _ & _ & L & C & _)|(i & e & _ & Hi & A & B & C & _)].
      + rewrite C. eapply (si_in SI); eauto.
      + unfold corners; cbn [ht]. rewrite A, B, C. apply fr_in. eapply nth_error_In; eauto.
  Qed.

  (** a point below all the old facets is below the new ones *)
  Lemma new_in q e : In e fr -> (forall k f, lv h k f -> ht (corners f) q < 0) -> svol (ea e) (eb e) p q < 0.
  Proof.
    intros He Hq. pose proof (Fb _ He) as (i & j & w & _ & _ & D & Vi & Vj). destruct (drt_twin SI D) as [w' D'].
    pose proof (twin_apex SI D D') as T1. destruct D as (f & Lf & Rf), D' as (g & Lg & Rg).
    assert (Pf : 0 < svol (ea e) (eb e) w p).
    { rewrite <- (rot3_ht _ (frot_rot3 Rf)). apply (vis_lv eps p Lf) in Vi. pose proof (@vis_pos h eps p i f Lf Vi). lra. }
    assert (Pg : svol (eb e) (ea e) w' p < 0).
    { rewrite <- (rot3_ht _ (frot_rot3 Rg)). apply (MP Lg). destruct (@visible RNum eps g p) eqn:E; auto. exfalso. apply Vj. exists g; auto. }
    pose proof (Hq _ _ Lf) as A1. pose proof (Hq _ _ Lg) as A2.
    rewrite (rot3_ht _ (frot_rot3 Rf)) in A1. rewrite (rot3_ht _ (frot_rot3 Rg)) in A2.
    apply (@new_below (ea e) (eb e) w w' p q Pf Pg T1); lra.
  Qed.

  (** a point over a removed facet and over no new facet is over no facet *)
  Lemma dropped q i f : lv h i f -> vis i -> 0 < ht (corners f) q -> (forall e, In e fr -> svol (ea e) (eb e) p q <= 0) ->
    forall k f4, lv h4 k f4 -> ht (corners f4) q <= 0.
  Proof.
    intros L Vi Pq Hn k f4 L4.
    pose (T := fun k => if lt_dec k n0 then trOf h k else trOf h4 k).
    assert (T4 : forall k, In k (ids h4) -> T k = trOf h4 k).
    { intros j Hj. unfold T. destruct (lt_dec j n0) as [Lj|]; auto. apply ids_in in Hj. destruct Hj as [g4 Lg].
      destruct (oldF_of Lg Lj) as (g & _ & _ & Lg' & C & _). rewrite (trOf_lv Lg), (trOf_lv Lg'). auto. }
    assert (T0 : forall k, In k (ids h) -> T k = trOf h k).
    { intros j Hj. unfold T. destruct (lt_dec j n0) as [Lj|Nj]; auto. apply ids_in in Hj. destruct Hj as [g Lg]. apply lv_len in Lg. lia. }
    assert (Hk : In k (ids h4)) by (apply ids_in; eauto).
    rewrite <- (trOf_lv L4), <- (T4 k Hk).
    apply (@dropped_inside (ids h) (ids h4) T (adjH h4) i q); auto.
    - intros j a b c Hj R. rewrite (T4 j Hj) in R. destruct (surf_HA SInv4 _ Hj R) as (j' & Hj' & Aj & X). exists j'.
      rewrite (T4 j' Hj'). auto.
    - intros j j' x Hj Hj'. rewrite (T0 j Hj), (T0 j' Hj'). apply (surf_HC SI); auto.
    - intros j j' Hj Hj'. rewrite (T0 j Hj), (T0 j' Hj'). apply (surf_HD SI); auto.
    - intros x Hx j Hj. rewrite (T4 j Hj). pose proof Hj as Hj'. apply ids_in in Hj'. destruct Hj' as [g4 Lg]. rewrite (trOf_lv Lg).
      assert (Hx' : forall k f, lv h k f -> ht (corners f) x < 0).
      { intros k' f' L'. assert (Hk' : In k' (ids h)) by (apply ids_in; eauto). specialize (Hx k' Hk'). rewrite (T0 k' Hk'), (trOf_lv L') in Hx. auto. }
      destruct (live4 Lg) as [(g & _ & _ & Lg' & C & _)|(i' & e & _ & Hi & A & B & C & _)].
      + rewrite C. eapply Hx'; eauto.
      + unfold corners; cbn [ht]. rewrite A, B, C. apply new_in; auto. eapply nth_error_In; eauto.
    - apply ids_in; eauto.
    - intros Hi. apply ids_in in Hi. destruct Hi as [g Lg]. apply D4 in Lg. tauto.
    - rewrite T0 by (apply ids_in; eauto). rewrite (trOf_lv L). auto.
    - intros j Hj Nj. rewrite (T4 j Hj). apply ids_in in Hj. destruct Hj as [g4 Lg]. rewrite (trOf_lv Lg).
      destruct (live4 Lg) as [(g & _ & _ & Lg' & C & _)|(i' & e & _ & Hi & A & B & C & _)].
      + exfalso. apply Nj. apply ids_in; eauto.
      + unfold corners; cbn [ht]. rewrite A, B, C. apply Hn. eapply nth_error_In; eauto.
  Qed.
End Rebuild.
