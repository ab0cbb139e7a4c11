(** The mesh of triangles: consistency of the neighbour links, and that flip and
    split keep it. *)
From Coq Require Import Reals Lra.
From Verif Require Import Base Num DelModel DelGeom.
Set Implicit Arguments.

(** *** Indices modulo 3 *)
Definition m1 (i : nat) : nat := mod3 (i + 1).
Definition m2 (i : nat) : nat := mod3 (i + 2).
Ltac i3 i := destruct i as [|[|[|?]]]; try lia.
Lemma m1_lt i : i < 3 -> m1 i < 3. Proof. intros; i3 i; cbn; lia. Qed.
Lemma m2_lt i : i < 3 -> m2 i < 3. Proof. intros; i3 i; cbn; lia. Qed.
Lemma m1_m1 i : i < 3 -> m1 (m1 i) = m2 i. Proof. intros; i3 i; reflexivity. Qed.
Lemma m1_m2 i : i < 3 -> m1 (m2 i) = i. Proof. intros; i3 i; reflexivity. Qed.
Lemma m2_m1 i : i < 3 -> m2 (m1 i) = i. Proof. intros; i3 i; reflexivity. Qed.
Lemma m2_m2 i : i < 3 -> m2 (m2 i) = m1 i. Proof. intros; i3 i; reflexivity. Qed.
Lemma m1_ne i : i < 3 -> m1 i <> i. Proof. intros; i3 i; cbn; lia. Qed.
Lemma m2_ne i : i < 3 -> m2 i <> i. Proof. intros; i3 i; cbn; lia. Qed.
Lemma m12_ne i : i < 3 -> m1 i <> m2 i. Proof. intros; i3 i; cbn; lia. Qed.
Lemma i3_cases i k : i < 3 -> k < 3 -> k = i \/ k = m1 i \/ k = m2 i.
Proof. intros; i3 i; i3 k; cbn; lia. Qed.
#[export] Hint Resolve m1_lt m2_lt m1_ne m2_ne m12_ne : m3.

Lemma fset_eq A (f : nat -> A) i x : fset f i x i = x.
Proof. unfold fset. rewrite Nat.eqb_refl. reflexivity. Qed.
Lemma fset_ne A (f : nat -> A) i x j : j <> i -> fset f i x j = f j.
Proof. unfold fset. intros H. apply Nat.eqb_neq in H. rewrite H. reflexivity. Qed.

Section Topo.
  Variable vp : nat -> P2.
  Variable vok : nat -> Prop.
  Variable hull : nat -> nat -> Prop.
  Definition A2 (a b c : nat) : R := area2 (vp a) (vp b) (vp c).
  Definition ccwv (a b c : nat) : Prop := (0 < A2 a b c)%R.
  Hypothesis hull_left : forall a b c, hull a b -> vok c -> c <> a -> c <> b -> ccwv a b c.

  Lemma ccwv_rot a b c : ccwv a b c -> ccwv b c a.
  Proof. unfold ccwv, A2. rewrite (area2_rot (vp a) (vp b) (vp c)). auto. Qed.
  Lemma ccwv_ne a b c : ccwv a b c -> a <> b /\ b <> c /\ a <> c.
  Proof.
    unfold ccwv, A2. intros H. repeat split; intros ->; revert H.
    - rewrite area2_aa. lra.
    - rewrite area2_ab. lra.
    - rewrite area2_aba. lra.
  Qed.
  Lemma ccwv_anti a b c : ccwv a b c -> ccwv b a c -> False.
  Proof. unfold ccwv, A2. rewrite (area2_swap (vp a)). lra. Qed.

  (** *** Corners and edges *)
  Definition vxs (m : mesh) (t : nat) : option (nat -> nat) := option_map vx (tm m t).
  Definition alive (m : mesh) (t : nat) : Prop := vxs m t <> None.
  Definition hasE (m : mesh) (t a b : nat) : Prop :=
    exists f i, vxs m t = Some f /\ i < 3 /\ f (m2 i) = a /\ f i = b.
  Definition tri3 (m : mesh) (t a b c : nat) : Prop :=
    exists f i, vxs m t = Some f /\ i < 3 /\ f i = a /\ f (m1 i) = b /\ f (m2 i) = c.

  Lemma tri3_rot m t a b c : tri3 m t a b c -> tri3 m t b c a.
  Proof.
    intros (f & i & H & Hi & Ha & Hb & Hc). exists f, (m1 i). repeat split; auto with m3.
    - rewrite m1_m1; auto.
    - rewrite m2_m1; auto.
  Qed.
  Lemma hasE_tri3 m t a b : hasE m t a b -> exists c, tri3 m t a b c.
  Proof.
    intros (f & i & H & Hi & Ha & Hb). exists (f (m1 i)). exists f, (m2 i). repeat split; auto with m3.
    - rewrite m1_m2; auto.
    - rewrite m2_m2; auto.
  Qed.
  Lemma tri3_hasE m t a b c : tri3 m t a b c -> hasE m t a b /\ hasE m t b c /\ hasE m t c a.
  Proof.
    intros H. assert (G : forall x y z, tri3 m t x y z -> hasE m t x y).
    { intros x y z (f & i & E & Hi & Hx & Hy & Hz). exists f, (m1 i). repeat split; auto with m3. rewrite m2_m1; auto. }
    split; [eauto|]. split; eapply G; [apply tri3_rot|apply tri3_rot; apply tri3_rot]; eauto.
  Qed.
  Lemma tri3_edges m t a b c x y : tri3 m t a b c -> hasE m t x y -> (x, y) = (a, b) \/ (x, y) = (b, c) \/ (x, y) = (c, a).
  Proof.
    intros (f & i & E & Hi & <- & <- & <-) (g & k & E' & Hk & <- & <-). rewrite E in E'. injection E' as <-.
    destruct (i3_cases Hi Hk) as [ -> | [ -> | -> ] ]; rewrite ?m2_m1, ?m2_m2 by auto; auto.
  Qed.
  Lemma tri3_alive m t a b c : tri3 m t a b c -> alive m t.
  Proof. intros (f & i & E & _). unfold alive. rewrite E. discriminate. Qed.
  Lemma alive_tri3 m t : alive m t -> exists a b c, tri3 m t a b c.
  Proof.
    unfold alive. destruct (vxs m t) as [f|] eqn:E; [|congruence]. intros _.
    exists (f 0), (f 1), (f 2), f, 0. repeat split; auto; lia.
  Qed.

  Record wf (m : mesh) : Prop := {
    w_ccw : forall t a b c, tri3 m t a b c -> ccwv a b c;
    w_vok : forall t a b, hasE m t a b -> vok a;
    w_de : forall t t' a b, hasE m t a b -> hasE m t' a b -> t = t';
    w_lk : forall t r i, tm m t = Some r -> i < 3 ->
      match ng r i with
      | Some y => hasE m y (vx r i) (vx r (m2 i))
      | None => hull (vx r (m2 i)) (vx r i)
      end;
    w_cap : forall t, alive m t -> t < cap m;
  }.

  Section Wf.
    Variable m : mesh.
    Hypothesis W : wf m.

    Lemma hull_not_rev a b t : hull a b -> ~ hasE m t b a.
    Proof.
      intros H E. destruct (hasE_tri3 E) as (c & T). pose proof (w_ccw W T) as C.
      destruct (ccwv_ne C) as (N1 & N2 & N3).
      assert (vok c). { destruct (tri3_hasE T) as (_ & _ & E3). eapply w_vok; eauto. }
      eapply ccwv_anti; [apply C|]. apply hull_left; auto.
    Qed.

    (** One triangle cannot have an edge and its reverse, two cannot share two
        edges. *)
    Lemma no_rev_self t a b : hasE m t a b -> ~ hasE m t b a.
    Proof.
      intros E E'. destruct (hasE_tri3 E) as (c & T). destruct (ccwv_ne (w_ccw W T)) as (N1 & N2 & N3).
      destruct (tri3_edges T E') as [X|[X|X]]; injection X; intros; congruence.
    Qed.
    Lemma no_two_shared t t' a b c : tri3 m t a b c -> hasE m t' b a -> ~ hasE m t' c b.
    Proof.
      intros T E1 E2. pose proof (w_ccw W T) as C. destruct (ccwv_ne C) as (N1 & N2 & N3).
      destruct (hasE_tri3 E1) as (d & T'). pose proof (w_ccw W T') as C'. destruct (ccwv_ne C') as (N1' & N2' & N3').
      destruct (tri3_edges T' E2) as [X|[X|X]]; injection X; intros; try congruence.
      subst d. eapply ccwv_anti; eauto.
    Qed.
    Lemma shared_once t t' r i j : tm m t = Some r -> i < 3 -> j < 3 ->
      hasE m t' (vx r i) (vx r (m2 i)) -> hasE m t' (vx r j) (vx r (m2 j)) -> i = j.
    Proof.
      intros E Hi Hj H1 H2. assert (V : vxs m t = Some (vx r)) by (unfold vxs; rewrite E; reflexivity).
      destruct (i3_cases Hi Hj) as [ -> | [ -> | -> ] ]; auto; exfalso.
      - rewrite m2_m1 in H2 by auto.
        refine (no_two_shared (t := t) (a := vx r (m2 i)) (b := vx r i) (c := vx r (m1 i)) _ H1 H2).
        exists (vx r), (m2 i). repeat split; auto with m3; [rewrite m1_m2|rewrite m2_m2]; auto.
      - rewrite m2_m2 in H2 by auto.
        refine (no_two_shared (t := t) (a := vx r (m1 i)) (b := vx r (m2 i)) (c := vx r i) _ H2 H1).
        exists (vx r), (m1 i). repeat split; auto with m3; [rewrite m1_m1|rewrite m2_m1]; auto.
    Qed.

    (** The link across an edge leads to the triangle with the reversed edge. *)
    Lemma link_to t r i y : tm m t = Some r -> i < 3 -> hasE m y (vx r i) (vx r (m2 i)) -> ng r i = Some y.
    Proof.
      intros E Hi H. pose proof (w_lk W _ E Hi) as L.
      assert (Ht : hasE m t (vx r (m2 i)) (vx r i)).
      { exists (vx r), i. unfold vxs. rewrite E. auto. }
      destruct (ng r i) as [z|].
      - f_equal. eapply w_de; eauto.
      - exfalso. eapply hull_not_rev; eauto.
    Qed.
    Lemma isT_true x t : isT x t = true <-> x = Some t.
    Proof.
      destruct x; cbn; [|split; discriminate]. rewrite Nat.eqb_eq. split; [intros -> | intros H; injection H]; auto.
    Qed.
    Lemma locate_spec r t k : k < 3 -> ng r k = Some t -> (forall j, j < 3 -> ng r j = Some t -> j = k) -> locate r t = Ok k.
    Proof.
      intros Hk E U. unfold locate.
      assert (B : forall j, j < 3 -> isT (ng r j) t = (j =? k)).
      { intros j Hj. destruct (Nat.eqb_spec j k) as [->|Hne]; [apply isT_true; auto|].
        destruct (isT (ng r j) t) eqn:F; auto. apply isT_true in F. exfalso. auto. }
      rewrite !B by lia. i3 k; reflexivity.
    Qed.
    Lemma locate_ok y ry t k : tm m y = Some ry -> k < 3 -> hasE m t (vx ry k) (vx ry (m2 k)) -> locate ry t = Ok k.
    Proof.
      intros E Hk H. apply locate_spec; auto; [eapply link_to; eauto|].
      intros j Hj F. pose proof (w_lk W _ E Hj) as L. rewrite F in L. eapply shared_once; eauto.
    Qed.
    Lemma across_ok t r i y ry k bd : tm m t = Some r -> i < 3 -> tm m y = Some ry -> k < 3 ->
      vx ry (m2 k) = vx r i -> vx ry k = vx r (m2 i) -> across m (t, i, bd) = Ok (y, k, false).
    Proof.
      intros E Hi Ey Hk H1 H2. unfold across, sT, sO. cbn [fst snd]. unfold getT. rewrite E. cbn [bind].
      assert (Hy : hasE m y (vx r i) (vx r (m2 i))).
      { exists (vx ry), k. unfold vxs. rewrite Ey. auto. }
      rewrite (link_to _ E Hi Hy). rewrite Ey. cbn [bind].
      rewrite (@locate_ok y ry t k Ey Hk); auto. exists (vx r), i. unfold vxs. rewrite E. auto.
    Qed.
    Lemma across_cases t r i bd : tm m t = Some r -> i < 3 ->
      (hull (vx r (m2 i)) (vx r i) /\ across m (t, i, bd) = Ok (t, i, true)) \/
      (exists y ry k, tm m y = Some ry /\ k < 3 /\ vx ry (m2 k) = vx r i /\ vx ry k = vx r (m2 i) /\
         across m (t, i, bd) = Ok (y, k, false)).
    Proof.
      intros E Hi. pose proof (w_lk W _ E Hi) as L. destruct (ng r i) as [y|] eqn:F.
      - right. destruct L as (f & k & Ef & Hk & H1 & H2). unfold vxs in Ef. destruct (tm m y) as [ry|] eqn:Ey; [|discriminate].
        injection Ef as <-. exists y, ry, k. repeat split; auto. eapply across_ok; eauto.
      - left. split; auto. unfold across, getT, sT, sO. cbn [fst snd]. rewrite E. cbn [bind]. rewrite F. reflexivity.
    Qed.

    Lemma update_ok y ry t tn k m' : tm m y = Some ry -> k < 3 -> hasE m t (vx ry k) (vx ry (m2 k)) ->
      tm m' y = Some ry -> y < cap m' ->
      update m' (Some y) t tn = Ok (mkM (cap m') (fset (tm m') y (Some (wNg k (Some tn) ry))) (vt m')).
    Proof.
      intros E Hk H E' Hc. unfold update, getT. rewrite E'. cbn [bind]. rewrite (@locate_ok y ry t k E Hk H). cbn [bind].
      unfold setT. apply Nat.ltb_lt in Hc. rewrite Hc. reflexivity.
    Qed.
  End Wf.
End Topo.
