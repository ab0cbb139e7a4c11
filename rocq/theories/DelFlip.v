(** flip and split keep the mesh consistent. *)
From Coq Require Import Reals Lra.
From Verif Require Import Base Num DelModel DelGeom DelTopo.
Set Implicit Arguments.

Definition option_eq_dec A (d : forall x y : A, {x = y} + {x <> y}) (x y : option A) : {x = y} + {x <> y}.
Proof. decide equality. Defined.

Lemma setT_ok m t r : t < cap m -> setT m t r = Ok (mkM (cap m) (fset (tm m) t (Some r)) (vt m)).
Proof. intros H. unfold setT. apply Nat.ltb_lt in H. rewrite H. reflexivity. Qed.
Lemma modT_ok m t f r : tm m t = Some r -> t < cap m -> modT m t f = Ok (mkM (cap m) (fset (tm m) t (Some (f r))) (vt m)).
Proof. intros E H. unfold modT, getT. rewrite E. cbn [bind]. apply setT_ok; auto. Qed.
Lemma getT_ok m t r : tm m t = Some r -> getT m t = Ok r.
Proof. intros E. unfold getT. rewrite E. reflexivity. Qed.

Lemma vxs_tm m t r : tm m t = Some r -> vxs m t = Some (vx r).
Proof. intros E. unfold vxs. rewrite E. reflexivity. Qed.
Lemma vxs_some m t f : vxs m t = Some f -> exists r, tm m t = Some r /\ vx r = f.
Proof. unfold vxs. destruct (tm m t) as [r|]; [|discriminate]. intros H. injection H as <-. eauto. Qed.

Section Flip.
  Variable vp : nat -> P2.
  Variable vok : nat -> Prop.
  Variable hull : nat -> nat -> Prop.
  Hypothesis hull_left : forall a b c, hull a b -> vok c -> c <> a -> c <> b -> ccwv vp a b c.
  Notation wf := (wf vp vok hull).
  Notation ccwv := (ccwv vp).

  Section One.
    Variable m : mesh.
    Hypothesis W : wf m.
    Variables T o S so : nat.
    Variables rT rS : trec.
    Hypothesis ET : tm m T = Some rT.
    Hypothesis ES : tm m S = Some rS.
    Hypothesis Ho : o < 3.
    Hypothesis Hso : so < 3.
    Let a := vx rT o.
    Let b := vx rT (m2 o).
    Let c := vx rT (m1 o).
    Let p := vx rS (m1 so).
    Hypothesis Hb : vx rS so = b.
    Hypothesis Ha : vx rS (m2 so) = a.
    Hypothesis Cl : ccwv p a c.
    Hypothesis Cr : ccwv p c b.
    Hypothesis Npc : forall t, ~ hasE m t p c.
    Hypothesis Ncp : forall t, ~ hasE m t c p.

    Lemma flip_vT : vxs m T = Some (vx rT). Proof. apply vxs_tm; auto. Qed.
    Lemma flip_vS : vxs m S = Some (vx rS). Proof. apply vxs_tm; auto. Qed.
    Lemma flip_tT : tri3 m T a c b.
    Proof. exists (vx rT), o. rewrite flip_vT. repeat split; auto. Qed.
    Lemma flip_tS : tri3 m S b p a.
    Proof. exists (vx rS), so. rewrite flip_vS. repeat split; auto. Qed.
    Lemma flip_ne : a <> b /\ a <> c /\ b <> c /\ p <> a /\ p <> b /\ p <> c.
    Proof.
      destruct (ccwv_ne (w_ccw W flip_tT)) as (N1 & N2 & N3). destruct (ccwv_ne (w_ccw W flip_tS)) as (N4 & N5 & N6).
      destruct (ccwv_ne Cl) as (N7 & N8 & N9). repeat split; congruence.
    Qed.
    Lemma flip_TS : T <> S.
    Proof.
      intros E. apply (no_rev_self W (t := T) (a := b) (b := a)).
      - exists (vx rT), o. rewrite flip_vT. auto.
      - rewrite E. exists (vx rS), so. rewrite flip_vS. auto.
    Qed.

    Definition fT : nat -> nat := fset (vx rT) o p.
    Definition fS : nat -> nat := fset (vx rS) so c.
    Definition flipped (m' : mesh) : Prop :=
      cap m' = cap m /\ vxs m' T = Some fT /\ vxs m' S = Some fS /\
      (forall X, X <> T -> X <> S -> vxs m' X = vxs m X) /\
      (forall v, vt m' v = vt m v \/ (v = a \/ v = b) /\ (vt m' v = Some T \/ vt m' v = Some S)).

    Section After.
      Variable m' : mesh.
      Hypothesis F : flipped m'.
      Lemma flip_tT' : tri3 m' T p c b.
      Proof.
        destruct F as (_ & HT & _). exists fT, o. unfold fT. rewrite HT. unfold fT. rewrite fset_eq, !fset_ne by auto with m3.
        repeat split; auto.
      Qed.
      Lemma flip_tS' : tri3 m' S p a c.
      Proof.
        destruct F as (_ & _ & HS & _). exists fS, (m1 so). rewrite HS. unfold fS.
        rewrite m1_m1, m2_m1, fset_eq, !fset_ne by auto with m3. repeat split; auto with m3.
      Qed.
      Lemma flip_other X x y : X <> T -> X <> S -> hasE m' X x y <-> hasE m X x y.
      Proof. intros H1 H2. destruct F as (_ & _ & _ & H & _). unfold hasE. rewrite H by auto. reflexivity. Qed.
      Lemma flip_hasE X x y : hasE m' X x y ->
        (X = T /\ ((x, y) = (p, c) \/ (x, y) = (c, b) \/ (x, y) = (b, p))) \/
        (X = S /\ ((x, y) = (p, a) \/ (x, y) = (a, c) \/ (x, y) = (c, p))) \/
        (X <> T /\ X <> S /\ hasE m X x y).
      Proof.
        intros H. destruct (Nat.eq_dec X T) as [ -> |H1].
        - left. split; auto. apply (tri3_edges flip_tT' H).
        - right. destruct (Nat.eq_dec X S) as [ -> |H2].
          + left. split; auto. apply (tri3_edges flip_tS' H).
          + right. apply flip_other in H; auto.
      Qed.
      Lemma flip_de t t' x y : hasE m' t x y -> hasE m' t' x y -> t = t'.
      Proof.
        destruct flip_ne as (N1 & N2 & N3 & N4 & N5 & N6).
        destruct (tri3_hasE flip_tT) as (Tac & Tcb & Tba). destruct (tri3_hasE flip_tS) as (Sbp & Spa & Sab).
        assert (Wde := w_de W).
        assert (G : forall t t' x y, hasE m' t x y -> hasE m' t' x y -> t = T -> t' = T \/ t' = S -> t = t').
        { intros t0 t1 x0 y0 H H' -> [ -> | -> ]; auto. exfalso.
          pose proof (tri3_edges flip_tT' H) as D. pose proof (tri3_edges flip_tS' H') as D'.
          destruct D as [D|[D|D]], D' as [D'|[D'|D']]; rewrite D in D'; injection D'; intros; congruence. }
        assert (G2 : forall t x y, hasE m t x y -> hasE m' T x y -> t <> T -> t <> S -> False).
        { intros t0 x0 y0 H H' HT HS. pose proof (tri3_edges flip_tT' H') as D.
          destruct D as [D|[D|D]]; injection D as -> ->.
          - eapply Npc; eauto.
          - apply HT. eapply Wde; eauto.
          - apply HS. eapply Wde; eauto. }
        assert (G3 : forall t x y, hasE m t x y -> hasE m' S x y -> t <> T -> t <> S -> False).
        { intros t0 x0 y0 H H' HT HS. pose proof (tri3_edges flip_tS' H') as D.
          destruct D as [D|[D|D]]; injection D as -> ->.
          - apply HS. eapply Wde; eauto.
          - apply HT. eapply Wde; eauto.
          - eapply Ncp; eauto. }
        intros H H'.
        destruct (Nat.eq_dec t T) as [H1|H1], (Nat.eq_dec t' T) as [H2|H2]; try congruence.
        - destruct (Nat.eq_dec t' S) as [H3|H3]; [eapply G; eauto|].
          exfalso. apply flip_other in H'; auto. subst t. eapply G2; eauto.
        - destruct (Nat.eq_dec t S) as [H3|H3]; [symmetry; eapply G; eauto|].
          exfalso. apply flip_other in H; auto. subst t'. eapply G2; eauto.
        - destruct (Nat.eq_dec t S) as [H3|H3], (Nat.eq_dec t' S) as [H4|H4]; try congruence.
          + exfalso. apply flip_other in H'; auto. subst t. eapply G3; eauto.
          + exfalso. apply flip_other in H; auto. subst t'. eapply G3; eauto.
          + apply flip_other in H, H'; auto. eapply Wde; eauto.
      Qed.
      Lemma flip_ccw t x y z : tri3 m' t x y z -> ccwv x y z.
      Proof.
        intros H. destruct (Nat.eq_dec t T) as [ -> |H1]; [|destruct (Nat.eq_dec t S) as [ -> |H2]].
        - destruct (ccwv_ne Cr) as (M1 & M2 & M3). destruct (tri3_hasE H) as (E1 & E2 & _).
          pose proof (ccwv_rot Cr). pose proof (ccwv_rot (ccwv_rot Cr)).
          destruct (tri3_edges flip_tT' E1) as [D|[D|D]], (tri3_edges flip_tT' E2) as [D'|[D'|D']];
            injection D; injection D'; intros; subst; try congruence; auto.
        - destruct (ccwv_ne Cl) as (M1 & M2 & M3). destruct (tri3_hasE H) as (E1 & E2 & _).
          pose proof (ccwv_rot Cl). pose proof (ccwv_rot (ccwv_rot Cl)).
          destruct (tri3_edges flip_tS' E1) as [D|[D|D]], (tri3_edges flip_tS' E2) as [D'|[D'|D']];
            injection D; injection D'; intros; subst; try congruence; auto.
        - destruct F as (_ & _ & _ & HF & _). apply (w_ccw W (t := t)). unfold tri3 in *. rewrite HF in H by auto. auto.
      Qed.
      Lemma flip_vok t x y : hasE m' t x y -> vok x.
      Proof.
        destruct (tri3_hasE flip_tT) as (Tac & Tcb & Tba). destruct (tri3_hasE flip_tS) as (Sbp & Spa & Sab).
        assert (V := w_vok W).
        intros H. destruct (flip_hasE H) as [[_ D]|[[_ D]|(_ & _ & D)]].
        - destruct D as [D|[D|D]]; injection D as -> ->; eauto.
        - destruct D as [D|[D|D]]; injection D as -> ->; eauto.
        - eauto.
      Qed.
    End After.
  End One.

  (** A pointer update seen from the mesh [m] it started from. *)
  Lemma upd_link m m0 x s tn u w : wf m -> hasE m s u w ->
    (forall y, x = Some y -> hasE m y w u /\ tm m0 y = tm m y /\ y < cap m0) ->
    exists m', update m0 x s tn = Ok m' /\ cap m' = cap m0 /\ vt m' = vt m0 /\
      (forall X, x <> Some X -> tm m' X = tm m0 X) /\
      (forall y, x = Some y -> exists ry k, tm m y = Some ry /\ k < 3 /\ vx ry (m2 k) = w /\ vx ry k = u /\
         tm m' y = Some (wNg k (Some tn) ry)).
  Proof.
    intros W Hs H. destruct x as [y|].
    - destruct (H y eq_refl) as ((f & k & Ef & Hk & H1 & H2) & E0 & Hc). apply vxs_some in Ef as (ry & Ey & <-).
      rewrite Ey in E0. assert (L : hasE m s (vx ry k) (vx ry (m2 k))) by (rewrite H1, H2; auto).
      exists (mkM (cap m0) (fset (tm m0) y (Some (wNg k (Some tn) ry))) (vt m0)). split.
      + exact (@update_ok vp vok hull hull_left m W y ry s tn k m0 Ey Hk L E0 Hc).
      + cbn. repeat split; auto.
        * intros X HX. apply fset_ne. congruence.
        * intros z Hz. injection Hz as <-. exists ry, k. repeat split; auto. apply fset_eq.
    - exists m0. repeat split; auto. discriminate.
  Qed.

  Lemma edge_index m t r i k : wf m -> tm m t = Some r -> i < 3 -> k < 3 -> vx r i = vx r k -> i = k.
  Proof.
    intros W E Hi Hk H. apply vxs_tm in E.
    assert (T : tri3 m t (vx r i) (vx r (m1 i)) (vx r (m2 i))) by (exists (vx r), i; auto).
    destruct (ccwv_ne (w_ccw W T)) as (N1 & N2 & N3).
    destruct (i3_cases Hi Hk) as [ -> | [ -> | -> ] ]; congruence.
  Qed.

  Lemma flip_ok m T o S so rT rS bd : wf m -> tm m T = Some rT -> tm m S = Some rS -> o < 3 -> so < 3 ->
    vx rS so = vx rT (m2 o) -> vx rS (m2 so) = vx rT o ->
    let p := vx rS (m1 so) in let c := vx rT (m1 o) in
    ccwv p (vx rT o) c -> ccwv p c (vx rT (m2 o)) ->
    (forall t, ~ hasE m t p c) -> (forall t, ~ hasE m t c p) ->
    exists m', flip m (T, o, bd) = Ok m' /\ wf m' /\ flipped m T o S so rT rS m'.
  Proof.
    intros W ET ES Ho Hso Hb Ha p c Cl Cr Npc Ncp.
    pose proof (flip_tT m T ET Ho) as tT. pose proof (flip_tS m o S rT ES Hso Hb Ha) as tS.
    pose proof (flip_ne W T S ET ES Ho Hso Hb Ha Cl) as (N1 & N2 & N3 & N4 & N5 & N6).
    assert (TS : T <> S) by (intros E0; exact (flip_TS W ET ES Ho Hso Hb Ha E0)).
    destruct (tri3_hasE tT) as (Tac & Tcb & Tba). destruct (tri3_hasE tS) as (Sbp & Spa & Sab).
    fold p c in tT, tS, N1, N2, N3, N4, N5, N6, Tac, Tcb, Tba, Sbp, Spa, Sab. set (a := vx rT o) in *. set (b := vx rT (m2 o)) in *.
    set (t1 := ng rT (m1 o)). set (t2 := ng rS (m1 so)).
    assert (L2 := w_lk W _ ES (m1_lt Hso)). rewrite m2_m1 in L2 by auto. fold t2 p in L2. rewrite Hb in L2.
    assert (L1 := w_lk W _ ET (m1_lt Ho)). rewrite m2_m1 in L1 by auto. fold t1 c a in L1.
    assert (Y2 : forall y, t2 = Some y -> hasE m y p b /\ y <> T /\ y <> S).
    { intros y Hy. rewrite Hy in L2. split; auto. split; intros ->.
      - destruct (tri3_edges tT L2) as [D|[D|D]]; injection D; intros; congruence.
      - apply (no_rev_self W Sbp L2). }
    assert (Y1 : forall y, t1 = Some y -> hasE m y c a /\ y <> T /\ y <> S).
    { intros y Hy. rewrite Hy in L1. split; auto. split; intros ->.
      - apply (no_rev_self W Tac L1).
      - destruct (tri3_edges tS L1) as [D|[D|D]]; injection D; intros; congruence. }
    assert (Y12 : forall y, t1 = Some y -> t2 = Some y -> False).
    { intros y H1 H2. destruct (Y1 y H1) as (E1 & _). destruct (Y2 y H2) as (E2 & _).
      destruct (hasE_tri3 E1) as (z & Tz). destruct (tri3_edges Tz E2) as [D|[D|D]]; injection D; intros; congruence. }
    assert (CT : T < cap m) by (apply (w_cap W), (tri3_alive tT)).
    assert (CS : S < cap m) by (apply (w_cap W), (tri3_alive tS)).
    assert (CY : forall y x z, hasE m y x z -> y < cap m).
    { intros y x z Hy. destruct (hasE_tri3 Hy) as (w & Hw). apply (w_cap W), (tri3_alive Hw). }
    unfold flip. cbn [sT sO fst snd].
    rewrite (@across_ok vp vok hull hull_left m W T rT o S rS so bd ET Ho ES Hso Ha Hb). cbn [bind sT sO fst snd].
    rewrite (@getT_ok _ _ _ ET), (@getT_ok _ _ _ ES). cbn [bind].
    change (mod3 (o + 1)) with (m1 o). change (mod3 (so + 1)) with (m1 so). fold t1 t2 a p c.
    set (ma := setVt m a S).
    rewrite (@modT_ok ma T _ rT ET) by exact CT. cbn [bind].
    set (mb := mkM _ _ _).
    destruct (@upd_link m mb t2 S T b p W Sbp) as (mc & Emc & Cmc & Vmc & Omc & Umc).
    { intros y Hy. destruct (Y2 y Hy) as (E1 & E2 & E3). split; auto. unfold mb, ma. cbn. split; [apply fset_ne; auto|eauto]. }
    rewrite Emc. cbn [bind].
    assert (EcT : tm mc T = Some (wNg o t2 (wVx o p rT))).
    { rewrite Omc by (intros E; destruct (Y2 T E) as (_ & ? & _); congruence). unfold mb. cbn. apply fset_eq. }
    rewrite (@modT_ok mc T _ _ EcT) by (rewrite Cmc; exact CT). cbn [bind].
    set (md := mkM _ _ _).
    assert (EdS : tm md S = Some rS).
    { unfold md. cbn. rewrite fset_ne by congruence. rewrite Omc by (intros E; destruct (Y2 S E) as (_ & _ & ?); congruence).
      unfold mb, ma. cbn. rewrite fset_ne by congruence. exact ES. }
    rewrite (@getT_ok _ _ _ EdS). cbn [bind]. rewrite Hb.
    set (me := setVt md b T).
    assert (Cme : cap me = cap m) by (unfold me, md; cbn; rewrite Cmc; reflexivity).
    rewrite (@modT_ok me S _ rS EdS) by (rewrite Cme; exact CS). cbn [bind].
    set (mf := mkM _ _ _).
    destruct (@upd_link m mf t1 T S a c W Tac) as (mg & Emg & Cmg & Vmg & Omg & Umg).
    { intros y Hy. destruct (Y1 y Hy) as (E1 & E2 & E3). split; auto. unfold mf, me, md. cbn.
      split; [|rewrite Cmc; eauto]. rewrite !fset_ne by auto. rewrite Omc by (intros E; eapply Y12; eauto).
      unfold mb, ma. cbn. rewrite fset_ne by auto. reflexivity. }
    rewrite Emg. cbn [bind].
    assert (EgS : tm mg S = Some (wNg so t1 (wVx so c rS))).
    { rewrite Omg by (intros E; destruct (Y1 S E) as (_ & _ & ?); congruence). unfold mf. cbn. apply fset_eq. }
    assert (Cg : cap mg = cap m) by (rewrite Cmg; exact Cme).
    rewrite (@modT_ok mg S _ _ EgS) by (rewrite Cg; exact CS).
    set (m' := mkM _ _ _). exists m'. split; auto.
    (* the records of m' *)
    assert (RT : tm m' T = Some (wNg (m1 o) (Some S) (wNg o t2 (wVx o p rT)))).
    { unfold m'. cbn. rewrite fset_ne by auto. rewrite Omg by (intros E; destruct (Y1 T E) as (_ & ? & _); congruence).
      unfold mf, me, md. cbn. rewrite fset_ne by auto. apply fset_eq. }
    assert (RS : tm m' S = Some (wNg (m1 so) (Some T) (wNg so t1 (wVx so c rS)))).
    { unfold m'. cbn. apply fset_eq. }
    assert (R2 : forall y, t2 = Some y -> exists ry k, tm m y = Some ry /\ k < 3 /\ vx ry (m2 k) = p /\ vx ry k = b /\
               tm m' y = Some (wNg k (Some T) ry)).
    { intros y Hy. destruct (Y2 y Hy) as (E1 & E2 & E3). destruct (Umc y Hy) as (ry & k & Er & Hk & H1 & H2 & H3).
      exists ry, k. repeat split; auto. unfold m'. cbn. rewrite fset_ne by auto. rewrite Omg by (intros E; eapply Y12; eauto).
      unfold mf, me, md. cbn. rewrite !fset_ne by auto. exact H3. }
    assert (R1 : forall y, t1 = Some y -> exists ry k, tm m y = Some ry /\ k < 3 /\ vx ry (m2 k) = c /\ vx ry k = a /\
               tm m' y = Some (wNg k (Some S) ry)).
    { intros y Hy. destruct (Y1 y Hy) as (E1 & E2 & E3). destruct (Umg y Hy) as (ry & k & Er & Hk & H1 & H2 & H3).
      exists ry, k. repeat split; auto. unfold m'. cbn. rewrite fset_ne by auto. exact H3. }
    assert (RO : forall X, X <> T -> X <> S -> t1 <> Some X -> t2 <> Some X -> tm m' X = tm m X).
    { intros X H1 H2 H3 H4. unfold m'. cbn. rewrite fset_ne by auto. rewrite Omg by auto.
      unfold mf, me, md. cbn. rewrite !fset_ne by auto. rewrite Omc by auto. unfold mb, ma. cbn. apply fset_ne. auto. }
    assert (RX : forall X, X <> T -> X <> S -> (exists r r', tm m X = Some r /\ tm m' X = Some r' /\ vx r' = vx r) \/ tm m' X = tm m X).
    { intros X H1 H2. destruct (option_eq_dec Nat.eq_dec t1 (Some X)) as [E|E].
      - left. destruct (R1 X E) as (ry & k & H3 & _ & _ & _ & H4). exists ry, (wNg k (Some S) ry). auto.
      - destruct (option_eq_dec Nat.eq_dec t2 (Some X)) as [E'|E']; [|right; auto].
        left. destruct (R2 X E') as (ry & k & H3 & _ & _ & _ & H4). exists ry, (wNg k (Some T) ry). auto. }
    assert (F : flipped m T o S so rT rS m').
    { split; [exact Cg|]. split; [rewrite (@vxs_tm _ _ _ RT); reflexivity|]. split; [rewrite (@vxs_tm _ _ _ RS); reflexivity|]. split.
      - intros X H1 H2. destruct (RX X H1 H2) as [(r & r' & E1 & E2 & E3)|E]; [|unfold vxs; rewrite E; reflexivity].
        rewrite (@vxs_tm _ _ _ E1), (@vxs_tm _ _ _ E2). congruence.
      - intros v. unfold m'. cbn. rewrite Vmg. unfold mf, me. cbn. rewrite Vmc. unfold mb, ma. cbn. unfold fset.
        destruct (Nat.eqb_spec v b); [right; split; auto|]. destruct (Nat.eqb_spec v a); auto. }
    split; auto.
    pose proof (flip_tT' Ho F) as tT'. pose proof (flip_tS' Hso Ha F) as tS'.
    fold p c a b in tT', tS'.
    destruct (tri3_hasE tT') as (Tpc & Tcb' & Tbp). destruct (tri3_hasE tS') as (Spa' & Sac & Scp).
    assert (FO := fun X x y h1 h2 => proj2 (@flip_other m T o S so rT rS m' F X x y h1 h2)).
    constructor.
    - intros t x y z. apply (flip_ccw W Ho Hso Ha Cl Cr F).
    - intros t x y. apply (flip_vok W ET ES Ho Hso Hb Ha F).
    - intros t t' x y. apply (flip_de W ET ES Ho Hso Hb Ha Cl Npc Ncp F).
    - intros t r i Er Hi. destruct (Nat.eq_dec t T) as [ -> |HT]; [|destruct (Nat.eq_dec t S) as [ -> |HS]].
      + rewrite RT in Er. injection Er as <-. cbn [ng vx wNg wVx].
        destruct (i3_cases Ho Hi) as [ -> | [ -> | -> ] ].
        * rewrite fset_ne by (apply not_eq_sym; auto with m3). rewrite !fset_eq. rewrite fset_ne by auto with m3. fold b.
          destruct t2 as [y|] eqn:E2; [|exact L2]. destruct (Y2 y eq_refl) as (H1 & H2 & H3). apply FO; auto.
        * rewrite fset_eq. rewrite m2_m1 by auto. rewrite fset_eq, fset_ne by auto with m3. exact Scp.
        * assert (L := w_lk W _ ET (m2_lt Ho)). rewrite m2_m2 in * by auto.
          rewrite !fset_ne by (auto with m3; apply not_eq_sym; auto with m3). fold b c in L |- *.
          destruct (ng rT (m2 o)) as [z|]; auto. apply FO; auto.
          -- intros ->. apply (no_rev_self W Tcb L).
          -- intros ->. destruct (tri3_edges tS L) as [D|[D|D]]; injection D; intros; congruence.
      + rewrite RS in Er. injection Er as <-. cbn [ng vx wNg wVx].
        destruct (i3_cases Hso Hi) as [ -> | [ -> | -> ] ].
        * rewrite fset_ne by (apply not_eq_sym; auto with m3). rewrite !fset_eq. rewrite fset_ne by auto with m3. rewrite Ha.
          destruct t1 as [y|] eqn:E1; [|exact L1]. destruct (Y1 y eq_refl) as (H1 & H2 & H3). apply FO; auto.
        * rewrite fset_eq. rewrite m2_m1 by auto. rewrite fset_eq, fset_ne by auto with m3. exact Tpc.
        * assert (L := w_lk W _ ES (m2_lt Hso)). rewrite m2_m2 in * by auto.
          rewrite !fset_ne by (auto with m3; apply not_eq_sym; auto with m3). fold p in L |- *. rewrite Ha in L |- *.
          destruct (ng rS (m2 so)) as [z|]; auto. apply FO; auto.
          -- intros ->. destruct (tri3_edges tT L) as [D|[D|D]]; injection D; intros; congruence.
          -- intros ->. apply (no_rev_self W Spa L).
      + (* another triangle: its old record, and the link *)
        assert (G : forall r0 i, tm m t = Some r0 -> i < 3 ->
            (t1 = Some t -> vx r0 i = a -> vx r0 (m2 i) = c -> False) ->
            (t2 = Some t -> vx r0 i = b -> vx r0 (m2 i) = p -> False) ->
            match ng r0 i with Some y => hasE m' y (vx r0 i) (vx r0 (m2 i)) | None => hull (vx r0 (m2 i)) (vx r0 i) end).
        { clear i Hi. intros r0 i E0 Hi Q1 Q2. assert (L := w_lk W _ E0 Hi). destruct (ng r0 i) as [z|]; auto.
          assert (He : hasE m t (vx r0 (m2 i)) (vx r0 i)) by (exists (vx r0), i; rewrite (@vxs_tm _ _ _ E0); auto).
          destruct (Nat.eq_dec z T) as [ -> |H1]; [|destruct (Nat.eq_dec z S) as [ -> |H2]; [|apply FO; auto]].
          - destruct (tri3_edges tT L) as [D|[D|D]]; injection D as D1 D2; rewrite D1, D2 in *.
            + exfalso. apply Q1; auto. apply (link_to hull_left W T ET (m1_lt Ho)).
              rewrite m2_m1 by auto. fold a c. exact He.
            + exact Tcb'.
            + exfalso. apply HS. apply (w_de W He Sab).
          - destruct (tri3_edges tS L) as [D|[D|D]]; injection D as D1 D2; rewrite D1, D2 in *.
            + exfalso. apply Q2; auto. apply (link_to hull_left W S ES (m1_lt Hso)).
              rewrite m2_m1 by auto. fold p. rewrite Hb. exact He.
            + exact Spa'.
            + exfalso. apply HT. apply (w_de W He Tba). }
        destruct (option_eq_dec Nat.eq_dec t1 (Some t)) as [E1|E1].
        { destruct (R1 t E1) as (ry & k & E0 & Hk & H1 & H2 & H3). rewrite H3 in Er. injection Er as <-. cbn [ng vx wNg].
          destruct (Nat.eq_dec i k) as [ -> |Hik].
          - rewrite fset_eq, H1, H2. exact Sac.
          - rewrite fset_ne by auto. apply G; auto.
            + intros _ E _. apply Hik. apply (@edge_index m t ry i k W E0 Hi Hk). congruence.
            + intros E. exfalso. eapply Y12; eauto. }
        destruct (option_eq_dec Nat.eq_dec t2 (Some t)) as [E2|E2].
        { destruct (R2 t E2) as (ry & k & E0 & Hk & H1 & H2 & H3). rewrite H3 in Er. injection Er as <-. cbn [ng vx wNg].
          destruct (Nat.eq_dec i k) as [ -> |Hik].
          - rewrite fset_eq, H1, H2. exact Tbp.
          - rewrite fset_ne by auto. apply G; auto.
            intros _ E _. apply Hik. apply (@edge_index m t ry i k W E0 Hi Hk). congruence. }
        rewrite RO in Er by auto. apply G; auto; intros E; exfalso; auto.
    - intros t Ht. rewrite (proj1 F). destruct (Nat.eq_dec t T) as [ -> |H1]; auto. destruct (Nat.eq_dec t S) as [ -> |H2]; auto.
      apply (w_cap W). destruct F as (_ & _ & _ & HF & _). unfold alive in *. rewrite HF in Ht by auto. exact Ht.
  Qed.

  (** *** split *)
  Definition splitted (m : mesh) (t v ta0 ta1 : nat) (r : trec) (m' : mesh) : Prop :=
    cap m' = cap m /\ tri3 m' t v (vx r 2) (vx r 0) /\ tri3 m' ta0 v (vx r 0) (vx r 1) /\ tri3 m' ta1 v (vx r 1) (vx r 2) /\
    (forall X, X <> t -> X <> ta0 -> X <> ta1 -> vxs m' X = vxs m X) /\
    (forall u, u = v /\ vt m' u = Some t \/ u = vx r 1 /\ vt m' u = Some ta0 \/ u <> v /\ vt m' u = vt m u).

  Lemma split_ok m t v ta0 ta1 r : wf m -> tm m t = Some r -> vok v -> (forall X x, ~ hasE m X v x) ->
    tm m ta0 = None -> tm m ta1 = None -> ta0 <> ta1 -> ta0 < cap m -> ta1 < cap m ->
    ccwv v (vx r 2) (vx r 0) -> ccwv v (vx r 0) (vx r 1) -> ccwv v (vx r 1) (vx r 2) ->
    exists m', split m t v ta0 ta1 = Ok m' /\ wf m' /\ splitted m t v ta0 ta1 r m'.
  Proof.
    intros W Et Vv Fv D0 D1 D01 C0 C1 A1 A2 A3.
    assert (tT : tri3 m t (vx r 0) (vx r 1) (vx r 2)) by (exists (vx r), 0; rewrite (@vxs_tm _ _ _ Et); repeat split; auto; lia).
    destruct (tri3_hasE tT) as (E12 & E23 & E31).
    assert (L1 := w_lk W t (i := 0) Et ltac:(lia)). assert (L2 := w_lk W t (i := 1) Et ltac:(lia)). assert (L3 := w_lk W t (i := 2) Et ltac:(lia)).
    change (m2 0) with 2 in L1. change (m2 1) with 0 in L2. change (m2 2) with 1 in L3.
    destruct (ccwv_ne (w_ccw W tT)) as (N12 & N23 & N13).
    destruct (ccwv_ne A1) as (Nv3 & _ & Nv1). destruct (ccwv_ne A2) as (_ & _ & Nv2).
    set (v1 := vx r 0) in *. set (v2 := vx r 1) in *. set (v3 := vx r 2) in *.
    set (t1 := ng r 0) in *. set (t2 := ng r 1) in *. set (t3 := ng r 2) in *.
    assert (T0 : t <> ta0) by congruence. assert (T1 : t <> ta1) by congruence.
    assert (AL : forall y x z, hasE m y x z -> y <> ta0 /\ y <> ta1 /\ y < cap m).
    { intros y x z Hy. destruct (hasE_tri3 Hy) as (w & Hw). pose proof (tri3_alive Hw) as Al.
      repeat split; [intros ->|intros ->|apply (w_cap W); auto]; unfold alive, vxs in Al; [rewrite D0 in Al|rewrite D1 in Al]; auto. }
    assert (FvR : forall X x, ~ hasE m X x v).
    { intros X x H. destruct (hasE_tri3 H) as (w & Hw). destruct (tri3_hasE Hw) as (_ & H2 & _). eapply Fv; eauto. }
    assert (Y2 : forall y, t2 = Some y -> hasE m y v2 v1 /\ y <> t).
    { intros y Hy. rewrite Hy in L2. split; auto. intros ->. apply (no_rev_self W E12 L2). }
    assert (Y3 : forall y, t3 = Some y -> hasE m y v3 v2 /\ y <> t).
    { intros y Hy. rewrite Hy in L3. split; auto. intros ->. apply (no_rev_self W E23 L3). }
    assert (Y1 : forall y, t1 = Some y -> hasE m y v1 v3 /\ y <> t).
    { intros y Hy. rewrite Hy in L1. split; auto. intros ->. apply (no_rev_self W E31 L1). }
    assert (Y23 : forall y, t2 = Some y -> t3 = Some y -> False).
    { intros y H2 H3. apply (no_two_shared W tT (proj1 (Y2 y H2)) (proj1 (Y3 y H3))). }
    assert (Ct : t < cap m) by apply (AL _ _ _ E12).
    unfold split. cbn [setVt getT tm]. unfold getT at 1. cbn [tm setVt]. rewrite Et. cbn [bind]. fold v1 v2 v3 t1 t2 t3.
    rewrite setT_ok by exact Ct. cbn [bind]. rewrite setT_ok by exact C0. cbn [bind]. rewrite setT_ok by exact C1. cbn [bind].
    set (mb := mkM _ _ _).
    destruct (@upd_link m mb t2 t ta0 v1 v2 W E12) as (mc & Emc & Cmc & Vmc & Omc & Umc).
    { intros y Hy. destruct (Y2 y Hy) as (H1 & H2). destruct (AL _ _ _ H1) as (H3 & H4 & H5).
      split; auto. unfold mb. cbn. split; auto. rewrite !fset_ne by auto. reflexivity. }
    rewrite Emc. cbn [bind].
    destruct (@upd_link m mc t3 t ta1 v2 v3 W E23) as (mg & Emg & Cmg & Vmg & Omg & Umg).
    { intros y Hy. destruct (Y3 y Hy) as (H1 & H2). destruct (AL _ _ _ H1) as (H3 & H4 & H5).
      split; auto. rewrite Cmc. split; auto. rewrite Omc by (intros E; eapply Y23; eauto). unfold mb. cbn.
      rewrite !fset_ne by auto. reflexivity. }
    rewrite Emg. cbn [bind]. set (m' := setVt mg v2 ta0). exists m'. split; auto.
    assert (NE : forall y, y = t \/ y = ta0 \/ y = ta1 -> t2 <> Some y /\ t3 <> Some y).
    { intros y Hy. split; intros E; [destruct (Y2 y E) as (H1 & H2)|destruct (Y3 y E) as (H1 & H2)];
        destruct (AL _ _ _ H1) as (H3 & H4 & H5); intuition congruence. }
    assert (RB : forall y, y = t \/ y = ta0 \/ y = ta1 -> tm m' y = tm mb y).
    { intros y Hy. destruct (NE y Hy). unfold m'. cbn. rewrite Omg, Omc by auto. reflexivity. }
    assert (Rt : tm m' t = Some (wVx 1 v (wNg 2 (Some ta1) (wNg 1 (Some ta0) r)))).
    { rewrite RB by auto. unfold mb. cbn. rewrite 2 fset_ne by auto. apply fset_eq. }
    assert (R0 : tm m' ta0 = Some (mkT (of3 t2 (Some ta1) (Some t)) (of3 v2 v v1))).
    { rewrite RB by auto. unfold mb. cbn. rewrite fset_ne by auto. apply fset_eq. }
    assert (Ra : tm m' ta1 = Some (mkT (of3 t3 (Some t) (Some ta0)) (of3 v3 v v2))).
    { rewrite RB by auto. unfold mb. cbn. apply fset_eq. }
    assert (R2 : forall y, t2 = Some y -> exists ry k, tm m y = Some ry /\ k < 3 /\ vx ry (m2 k) = v2 /\ vx ry k = v1 /\
               tm m' y = Some (wNg k (Some ta0) ry)).
    { intros y Hy. destruct (Umc y Hy) as (ry & k & H1 & H2 & H3 & H4 & H5). exists ry, k. repeat split; auto.
      unfold m'. cbn. rewrite Omg by (intros E; eapply Y23; eauto). exact H5. }
    assert (R3 : forall y, t3 = Some y -> exists ry k, tm m y = Some ry /\ k < 3 /\ vx ry (m2 k) = v3 /\ vx ry k = v2 /\
               tm m' y = Some (wNg k (Some ta1) ry)).
    { intros y Hy. destruct (Umg y Hy) as (ry & k & H1 & H2 & H3 & H4 & H5). exists ry, k. repeat split; auto. }
    assert (RO : forall X, X <> t -> X <> ta0 -> X <> ta1 -> t2 <> Some X -> t3 <> Some X -> tm m' X = tm m X).
    { intros X H1 H2 H3 H4 H5. unfold m'. cbn. rewrite Omg, Omc by auto. unfold mb. cbn. rewrite !fset_ne by auto. reflexivity. }
    assert (VO : forall X, X <> t -> X <> ta0 -> X <> ta1 -> vxs m' X = vxs m X).
    { intros X H1 H2 H3. unfold vxs. destruct (option_eq_dec Nat.eq_dec t2 (Some X)) as [E|E].
      - destruct (R2 X E) as (ry & k & E1 & _ & _ & _ & E2). rewrite E1, E2. reflexivity.
      - destruct (option_eq_dec Nat.eq_dec t3 (Some X)) as [E'|E']; [|rewrite RO; auto].
        destruct (R3 X E') as (ry & k & E1 & _ & _ & _ & E2). rewrite E1, E2. reflexivity. }
    assert (FO : forall X x y, X <> t -> X <> ta0 -> X <> ta1 -> (hasE m' X x y <-> hasE m X x y)).
    { intros X x y H1 H2 H3. unfold hasE. rewrite VO by auto. reflexivity. }
    assert (Tt : tri3 m' t v v3 v1) by (eexists; exists 1; rewrite (@vxs_tm _ _ _ Rt); repeat split; auto; lia).
    assert (T0' : tri3 m' ta0 v v1 v2) by (eexists; exists 1; rewrite (@vxs_tm _ _ _ R0); repeat split; auto; lia).
    assert (T1' : tri3 m' ta1 v v2 v3) by (eexists; exists 1; rewrite (@vxs_tm _ _ _ Ra); repeat split; auto; lia).
    assert (SP : splitted m t v ta0 ta1 r m').
    { split; [unfold m'; cbn; rewrite Cmg, Cmc; reflexivity|]. repeat (split; [assumption|]).
      intros u. unfold m'. cbn. rewrite Vmg, Vmc. unfold mb. cbn. unfold fset.
      destruct (Nat.eqb_spec u v2) as [Hu|Hu]; auto. destruct (Nat.eqb_spec u v); auto. }
    split; auto.
    destruct (tri3_hasE Tt) as (Tv3 & T31 & T1v). destruct (tri3_hasE T0') as (Tv1 & T12 & T2v). destruct (tri3_hasE T1') as (Tv2 & T23 & T3v).
    assert (HC : forall X x y, hasE m' X x y ->
      (X = t /\ ((x, y) = (v, v3) \/ (x, y) = (v3, v1) \/ (x, y) = (v1, v))) \/
      (X = ta0 /\ ((x, y) = (v, v1) \/ (x, y) = (v1, v2) \/ (x, y) = (v2, v))) \/
      (X = ta1 /\ ((x, y) = (v, v2) \/ (x, y) = (v2, v3) \/ (x, y) = (v3, v))) \/
      (X <> t /\ X <> ta0 /\ X <> ta1 /\ hasE m X x y)).
    { intros X x y H. destruct (Nat.eq_dec X t) as [ -> |H1]; [left; split; auto; apply (tri3_edges Tt H)|].
      destruct (Nat.eq_dec X ta0) as [ -> |H2]; [right; left; split; auto; apply (tri3_edges T0' H)|].
      destruct (Nat.eq_dec X ta1) as [ -> |H3]; [right; right; left; split; auto; apply (tri3_edges T1' H)|].
      right; right; right. apply FO in H; auto. }
    constructor.
    - assert (G : forall X a b c x y z, tri3 m' X a b c -> ccwv a b c -> tri3 m' X x y z -> ccwv x y z).
      { intros X a b c x y z H HA H'. destruct (ccwv_ne HA) as (M1 & M2 & M3). destruct (tri3_hasE H') as (E1 & E2 & _).
        pose proof (ccwv_rot HA). pose proof (ccwv_rot (ccwv_rot HA)).
        destruct (tri3_edges H E1) as [D|[D|D]], (tri3_edges H E2) as [D'|[D'|D']];
          injection D; injection D'; intros; subst; try congruence; auto. }
      intros X x y z H. destruct (Nat.eq_dec X t) as [ -> |H1]; [eapply G; [apply Tt| |]; eauto|].
      destruct (Nat.eq_dec X ta0) as [ -> |H2]; [eapply G; [apply T0'| |]; eauto|].
      destruct (Nat.eq_dec X ta1) as [ -> |H3]; [eapply G; [apply T1'| |]; eauto|].
      apply (w_ccw W (t := X)). unfold tri3 in *. rewrite VO in H by auto. auto.
    - assert (Q := w_vok W). intros X x y H. destruct (HC X x y H) as [[_ D]|[[_ D]|[[_ D]|(_ & _ & _ & D)]]]; eauto;
        destruct D as [D|[D|D]]; injection D; intros; subst x y; eauto.
    - intros X X' x y H H'. assert (Q := w_de W).
      destruct (HC X x y H) as [[Z D]|[[Z D]|[[Z D]|(Z1 & Z2 & Z3 & D)]]];
      destruct (HC X' x y H') as [[Z' D']|[[Z' D']|[[Z' D']|(Z1' & Z2' & Z3' & D')]]]; try congruence;
      try (exfalso; destruct D as [D|[D|D]], D' as [D'|[D'|D']]; rewrite D in D'; injection D'; intros; congruence);
      try (exfalso; destruct D as [D|[D|D]]; injection D; intros; subst x y; first [eapply Fv; eassumption|eapply FvR; eassumption|
             apply Z1'; eapply Q; eassumption]);
      try (exfalso; destruct D' as [D'|[D'|D']]; injection D'; intros; subst x y; first [eapply Fv; eassumption|eapply FvR; eassumption|
             apply Z1; eapply Q; eassumption]).
      eapply Q; eauto.
    - intros X rX i Er Hi. destruct (Nat.eq_dec X t) as [ -> |H1].
      { rewrite Rt in Er. injection Er as <-. i3 i; cbn; auto. fold t1.
        destruct t1 as [y|] eqn:E1; auto. destruct (Y1 y eq_refl) as (Q1 & Q2). destruct (AL _ _ _ Q1) as (Q3 & Q4 & _).
        apply FO; auto. }
      destruct (Nat.eq_dec X ta0) as [ -> |H2].
      { rewrite R0 in Er. injection Er as <-. i3 i; cbn; auto.
        destruct t2 as [y|] eqn:E2; auto. destruct (Y2 y eq_refl) as (Q1 & Q2). destruct (AL _ _ _ Q1) as (Q3 & Q4 & _).
        apply FO; auto. }
      destruct (Nat.eq_dec X ta1) as [ -> |H3].
      { rewrite Ra in Er. injection Er as <-. i3 i; cbn; auto.
        destruct t3 as [y|] eqn:E3; auto. destruct (Y3 y eq_refl) as (Q1 & Q2). destruct (AL _ _ _ Q1) as (Q3 & Q4 & _).
        apply FO; auto. }
      assert (G : forall r0 i, tm m X = Some r0 -> i < 3 ->
            (t2 = Some X -> vx r0 i = v1 -> vx r0 (m2 i) = v2 -> False) ->
            (t3 = Some X -> vx r0 i = v2 -> vx r0 (m2 i) = v3 -> False) ->
            match ng r0 i with Some y => hasE m' y (vx r0 i) (vx r0 (m2 i)) | None => hull (vx r0 (m2 i)) (vx r0 i) end).
      { clear i Hi. intros r0 i E0 Hi Q1 Q2. assert (L := w_lk W _ E0 Hi). destruct (ng r0 i) as [z|]; auto.
        assert (He : hasE m X (vx r0 (m2 i)) (vx r0 i)) by (exists (vx r0), i; rewrite (@vxs_tm _ _ _ E0); auto).
        destruct (AL _ _ _ L) as (Q3 & Q4 & _).
        destruct (Nat.eq_dec z t) as [ -> |Hz]; [|apply FO; auto].
        destruct (tri3_edges tT L) as [D|[D|D]]; injection D as D1' D2'; rewrite D1', D2' in *.
        - exfalso. apply Q1; auto. apply (link_to hull_left W t Et (i := 1)); auto.
        - exfalso. apply Q2; auto. apply (link_to hull_left W t Et (i := 2)); auto.
        - exact T31. }
      destruct (option_eq_dec Nat.eq_dec t2 (Some X)) as [E2|E2].
      { destruct (R2 X E2) as (ry & k & E0 & Hk & Q1 & Q2 & Q3). rewrite Q3 in Er. injection Er as <-. cbn [ng vx wNg].
        destruct (Nat.eq_dec i k) as [ -> |Hik].
        - rewrite fset_eq, Q1, Q2. exact T12.
        - rewrite fset_ne by auto. apply G; auto.
          + intros _ E _. apply Hik. apply (@edge_index m X ry i k W E0 Hi Hk). congruence.
          + intros E. exfalso. eapply Y23; eauto. }
      destruct (option_eq_dec Nat.eq_dec t3 (Some X)) as [E3|E3].
      { destruct (R3 X E3) as (ry & k & E0 & Hk & Q1 & Q2 & Q3). rewrite Q3 in Er. injection Er as <-. cbn [ng vx wNg].
        destruct (Nat.eq_dec i k) as [ -> |Hik].
        - rewrite fset_eq, Q1, Q2. exact T23.
        - rewrite fset_ne by auto. apply G; auto.
          intros _ E _. apply Hik. apply (@edge_index m X ry i k W E0 Hi Hk). congruence. }
      rewrite RO in Er by auto. apply G; auto; intros E; exfalso; auto.
    - intros X HX. replace (cap m') with (cap m) by (symmetry; apply SP).
      destruct (Nat.eq_dec X t) as [ -> |H1]; auto. destruct (Nat.eq_dec X ta0) as [ -> |H2]; auto.
      destruct (Nat.eq_dec X ta1) as [ -> |H3]; auto. apply (w_cap W). unfold alive in *. rewrite VO in HX by auto. exact HX.
  Qed.
End Flip.
