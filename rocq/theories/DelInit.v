(** The boundary of the Delaunay triangulation: a fan of triangles. *)
From Coq Require Import Reals Lra.
From Verif Require Import Base Num Sched DelModel DelGeom DelTopo DelFlip DelCav DelTree DelRound.
Set Implicit Arguments.

Section Init.
  Variables n nb : nat.
  Hypothesis B3 : 3 <= nb.

  (** After k extensions. *)
  Record fanI (k : nat) (m : mesh) : Prop := {
    fi_cap : cap m = 2 * n + (nb - 2);
    fi_k : k + 3 <= nb;
    fi_none : forall t, ~ (2 * n <= t <= 2 * n + k) -> tm m t = None;
    fi_tri : forall j, j <= k -> exists r, tm m (2 * n + j) = Some r /\
      vx r 0 = n /\ vx r 1 = n + j + 1 /\ vx r 2 = n + j + 2 /\
      ng r 0 = (if j =? k then None else Some (2 * n + j + 1)) /\
      ng r 1 = (if j =? 0 then None else Some (2 * n + j - 1)) /\ ng r 2 = None;
    fi_vt : forall v, v < n -> vt m v = Some (2 * v);
    fi_vb : forall v, n <= v <= n + k + 2 -> exists j, j <= k /\ vt m v = Some (2 * n + j);
  }.

  Lemma fan_first m : cap m = 2 * n + (nb - 2) -> (forall t, tm m t = None) -> (forall v, v < n -> vt m v = Some (2 * v)) ->
    exists m', firstSimplex m n (n + 1) (n + 2) (2 * n) = Ok m' /\ fanI 0 m'.
  Proof.
    intros Hc Ht Hv. unfold firstSimplex. rewrite setT_ok by lia. cbn [bind]. eexists. split; [reflexivity|].
    constructor; cbn [cap tm vt setVt]; auto; unfold fset.
    - intros t H. destruct (Nat.eqb_spec t (2 * n)); [lia|auto].
    - intros j Hj. assert (j = 0) as -> by lia. rewrite Nat.add_0_r. rewrite Nat.eqb_refl. eexists. split; [reflexivity|].
      cbn [vx ng of3]. repeat split; auto; lia.
    - intros v H. destruct (Nat.eqb_spec v (n + 2)); [lia|]. destruct (Nat.eqb_spec v (n + 1)); [lia|]. destruct (Nat.eqb_spec v n); [lia|auto].
    - intros v H. exists 0. split; auto. rewrite Nat.add_0_r.
      destruct (Nat.eqb_spec v (n + 2)); [auto|]. destruct (Nat.eqb_spec v (n + 1)); [auto|]. destruct (Nat.eqb_spec v n); [auto|lia].
  Qed.

  Lemma fan_extend k m : fanI k m -> k + 3 < nb ->
    exists m', extend m (2 * n + k, 0, false) (n + k + 3) (2 * n + k + 1) = Ok (m', (2 * n + k + 1, 0, false)) /\ fanI (k + 1) m'.
  Proof.
    intros F Hk. destruct (fi_tri F (Nat.le_refl k)) as (r & Er & V0 & V1 & V2 & N0 & N1 & N2). rewrite Nat.eqb_refl in N0.
    unfold extend, getT. cbn [sT sO fst snd]. rewrite Er. cbn [bind]. rewrite N0.
    rewrite setT_ok by (rewrite (fi_cap F); lia). cbn [bind]. rewrite setT_ok by (cbn [cap]; rewrite (fi_cap F); lia). cbn [bind].
    eexists. split; [reflexivity|].
    change (mod3 (0 + 2)) with 2. rewrite V0, V2.
    constructor; cbn [cap tm vt setVt].
    - apply (fi_cap F).
    - lia.
    - intros t H. unfold fset. destruct (Nat.eqb_spec t (2 * n + k + 1)); [lia|]. destruct (Nat.eqb_spec t (2 * n + k)); [lia|].
      apply (fi_none F). lia.
    - intros j Hj. unfold fset at 1. destruct (Nat.eqb_spec (2 * n + j) (2 * n + k + 1)) as [E|E].
      + assert (j = k + 1) as -> by lia. eexists. split; [reflexivity|]. cbn [vx ng of3]. rewrite Nat.eqb_refl.
        destruct (Nat.eqb_spec (k + 1) 0); [lia|]. repeat split; try lia. f_equal. lia.
      + unfold fset at 1. destruct (Nat.eqb_spec (2 * n + j) (2 * n + k)) as [E'|E'].
        * assert (j = k) as -> by lia. eexists. split; [reflexivity|]. cbn [wNg vx ng]. unfold fset. cbn [Nat.eqb].
          destruct (Nat.eqb_spec k (k + 1)); [lia|]. repeat split; auto; try lia.
        * destruct (@fi_tri _ _ F j) as (r' & Er' & Q0 & Q1 & Q2 & Q3 & Q4 & Q5); [lia|]. exists r'. split; auto.
          destruct (Nat.eqb_spec j k); [lia|]. destruct (Nat.eqb_spec j (k + 1)); [lia|]. repeat split; auto.
    - intros v Hv. unfold fset. destruct (Nat.eqb_spec v (n + k + 3)); [lia|]. apply (fi_vt F). auto.
    - intros v Hv. unfold fset. destruct (Nat.eqb_spec v (n + k + 3)).
      + exists (k + 1). split; auto. f_equal. lia.
      + destruct (@fi_vb _ _ F v) as (j & Hj & E); [lia|]. exists j. split; [lia|auto].
  Qed.

  Lemma fan_all d : forall k m, fanI k m -> k + 3 + d = nb ->
    exists m', extendAll m (2 * n + k, 0, false) (n + k + 3) (2 * n + k + 1) d = Ok m' /\ fanI (nb - 3) m'.
  Proof.
    induction d as [|d IH]; intros k m F Hk; cbn [extendAll].
    - exists m. split; auto. replace (nb - 3) with k by lia. auto.
    - destruct (fan_extend F) as (m' & E & F'); [lia|]. rewrite E. cbn [bind].
      destruct (IH (k + 1) m' F') as (m2 & E2 & F2); [lia|]. exists m2. split; auto. rewrite <- E2.
      f_equal; lia || (f_equal; f_equal; lia).
  Qed.

  Lemma init_fan : exists m, initMesh n nb = Ok m /\ fanI (nb - 3) m.
  Proof.
    unfold initMesh.
    destruct (@fan_first (mkM (2 * n + (nb - 2)) (fun _ => None) (fun v => if v <? n then Some (2 * v) else None))) as (m & E & F); auto.
    { intros v Hv. cbn [vt]. destruct (Nat.ltb_spec v n); [auto|lia]. }
    rewrite E. cbn [bind]. destruct (@fan_all (nb - 3) 0 m F) as (m' & E' & F'); [lia|].
    exists m'. split; auto. rewrite <- E'. f_equal; lia || (f_equal; f_equal; lia).
  Qed.

  Variable vp : nat -> P2.
  Hypothesis GP : genpos n nb vp.
  Hypothesis CC : forall a b c d, bnd n nb a -> bnd n nb b -> bnd n nb c -> bnd n nb d -> (iv vp a b c d <= 0)%R.

  Section Fan.
    Variable m : mesh.
    Hypothesis F : fanI (nb - 3) m.

    Lemma fan_alive t : alive m t <-> 2 * n <= t < 2 * n + (nb - 2).
    Proof.
      unfold alive, vxs. split.
      - intros A. destruct (le_lt_dec (2 * n) t) as [H1|H1]; [destruct (le_lt_dec t (2 * n + (nb - 3))) as [H2|H2]; [lia|]|];
          rewrite (fi_none F) in A by lia; cbn in A; congruence.
      - intros H. destruct (@fi_tri _ _ F (t - 2 * n)) as (r & E & _); [lia|]. replace (2 * n + (t - 2 * n)) with t in E by lia.
        rewrite E. discriminate.
    Qed.
    Lemma fan_tri j : j <= nb - 3 -> tri3 m (2 * n + j) n (n + j + 1) (n + j + 2).
    Proof.
      intros H. destruct (fi_tri F H) as (r & E & V0 & V1 & V2 & _). exists (vx r), 0. rewrite (@vxs_tm _ _ _ E). change (m1 0) with 1. change (m2 0) with 2. auto 10.
    Qed.
    Lemma fan_edge j a b : hasE m (2 * n + j) a b -> j <= nb - 3 /\
      ((a, b) = (n, n + j + 1) \/ (a, b) = (n + j + 1, n + j + 2) \/ (a, b) = (n + j + 2, n)).
    Proof.
      intros H. assert (A : alive m (2 * n + j)) by (destruct (hasE_tri3 H) as (c & T); apply (tri3_alive T)).
      apply fan_alive in A. split; [lia|]. apply (tri3_edges (@fan_tri j ltac:(lia)) H).
    Qed.
    Lemma fan_ix t : alive m t -> exists j, t = 2 * n + j /\ j <= nb - 3.
    Proof. intros A. apply fan_alive in A. exists (t - 2 * n). lia. Qed.
    Lemma hasE_alive t a b : hasE m t a b -> alive m t.
    Proof. intros H. destruct (hasE_tri3 H) as (c & T). apply (tri3_alive T). Qed.

    Lemma tri3_same t a b c a' b' c' : tri3 m t a b c -> tri3 m t a' b' c' ->
      (a', b', c') = (a, b, c) \/ (a', b', c') = (b, c, a) \/ (a', b', c') = (c, a, b).
    Proof.
      intros (f & i & E & Hi & <- & <- & <-) (g & k & E' & Hk & <- & <- & <-). rewrite E in E'. injection E' as <-.
      destruct (i3_cases Hi Hk) as [ -> | [ -> | -> ] ]; rewrite ?m1_m1, ?m1_m2, ?m2_m1, ?m2_m2 by auto; auto.
    Qed.

    Lemma fan_wf : wf vp (vok n nb) (hull n nb) m.
    Proof.
      constructor.
      - intros t a b c T. destruct (fan_ix (tri3_alive T)) as (j & -> & Hj).
        assert (C : ccwv vp n (n + j + 1) (n + j + 2)) by (apply (convex GP); lia).
        destruct (tri3_same (fan_tri Hj) T) as [Q|[Q|Q]]; injection Q as -> -> ->; auto.
        + apply ccwv_rot; auto.
        + apply ccwv_rot, ccwv_rot; auto.
      - intros t a b E. destruct (fan_ix (hasE_alive E)) as (j & -> & Hj). apply fan_edge in E. unfold vok.
        destruct E as (_ & [E|[E|E]]); injection E as -> ->; lia.
      - intros t t' a b E E'. destruct (fan_ix (hasE_alive E)) as (j & -> & Hj), (fan_ix (hasE_alive E')) as (j' & -> & Hj').
        apply fan_edge in E. apply fan_edge in E'. destruct E as (_ & [E|[E|E]]), E' as (_ & [E'|[E'|E']]); injection E as -> ->; injection E'; intros; lia.
      - intros t r i E Hi. assert (A : alive m t) by (unfold alive; rewrite (@vxs_tm _ _ _ E); discriminate).
        destruct (fan_ix A) as (j & -> & Hj). destruct (fi_tri F Hj) as (r' & E' & V0 & V1 & V2 & N0 & N1 & N2).
        rewrite E in E'. injection E' as <-. clear E A. i3 i; [change (m2 0) with 2|change (m2 1) with 0|change (m2 2) with 1].
        + rewrite N0, V0, V2. destruct (Nat.eqb_spec j (nb - 3)) as [->|N].
          * unfold hull, bnd. lia.
          * destruct (tri3_hasE (@fan_tri (j + 1) ltac:(lia))) as (Q & _).
            replace (2 * n + j + 1) with (2 * n + (j + 1)) by lia. replace (n + j + 2) with (n + (j + 1) + 1) by lia. auto.
        + rewrite N1, V0, V1. destruct (Nat.eqb_spec j 0) as [->|N].
          * unfold hull, bnd. lia.
          * destruct (tri3_hasE (@fan_tri (j - 1) ltac:(lia))) as (_ & _ & Q).
            replace (2 * n + j - 1) with (2 * n + (j - 1)) by lia. replace (n + j + 1) with (n + (j - 1) + 2) by lia. auto.
        + rewrite N2, V1, V2. unfold hull, bnd. lia.
      - intros t A. apply fan_alive in A. rewrite (fi_cap F). lia.
    Qed.

    Lemma fan_good : good n nb vp m (fun v => In v []).
    Proof.
      assert (EB : forall t a b, hasE m t a b -> bnd n nb a).
      { intros t a b E. destruct (fan_ix (hasE_alive E)) as (j & -> & Hj). apply fan_edge in E. unfold bnd.
        destruct E as (_ & [E|[E|E]]); injection E as -> ->; lia. }
      constructor.
      - constructor.
        + apply fan_wf.
        + intros t a b E. right. eauto.
        + intros t a b c v T [[]|Hv]. destruct (tri3_hasE T) as (E1 & E2 & E3). apply CC; eauto.
        + intros t a b c T _ _ _. destruct (fan_ix (tri3_alive T)) as (j & -> & Hj). exists (n + j + 1). split; [lia|]. split; [lia|].
          replace (n + j + 1 + 1) with (n + j + 2) by lia. apply fan_tri. auto.
      - intros v [].
      - rewrite (fi_cap F). lia.
      - intros v Hv _. split; [apply (fi_vt F); auto|]. split; apply (fi_none F); lia.
      - intros v [[]|Hv]. unfold bnd in Hv. destruct (@fi_vb _ _ F v) as (j & Hj & E); [lia|]. eexists. split; [apply E|].
        apply fan_alive. lia.
      - intros X HX. rewrite (fi_cap F) in HX. destruct (le_lt_dec (2 * n) X) as [H|H]; [left; apply fan_alive; lia|].
        right. exists (X / 2). pose proof (Nat.div_mod X 2 ltac:(lia)) as Q. pose proof (Nat.mod_upper_bound X 2 ltac:(lia)).
        split; [lia|]. split; auto. lia.
    Qed.
  End Fan.
End Init.
