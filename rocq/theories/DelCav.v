(** Walking in a Delaunay mesh, and the cavity of a point. *)
From Coq Require Import Reals Lra.
From Verif Require Import Base Num DelModel DelGeom DelTopo DelFlip.
Set Implicit Arguments.

(** *** The tests of the code over the reals *)
Lemma ccw_spec a b c : counterClockwise (N:=RNum) a b c = true <-> (0 < area2 a b c)%R.
Proof.
  unfold counterClockwise, cross2, psub, area2. cbn [nlt RNum nzero nsub nmul fst snd].
  rewrite Rltb_true. reflexivity.
Qed.
Lemma inCircle_spec a b c d : inCircle (N:=RNum) a b c d = true <-> (0 < incirc a b c d)%R.
Proof.
  unfold inCircle, dot3, cross3, onParabola, psub. cbn [nlt RNum nzero nsub nmul nadd fst snd].
  rewrite Rltb_true.
  match goal with |- (0 < ?x)%R <-> (0 < ?y)%R => replace y with x; [reflexivity|] end.
  destruct a, b, c, d. unfold incirc, sqd, area2. cbn [fst snd]. ring.
Qed.

(** *** Induction along a relation on finitely many numbers *)
Section Fin.
  Variable N : nat.
  Variable A : nat -> Prop.
  Variable R : nat -> nat -> Prop.
  Hypothesis HA : forall t, A t -> t < N.
  Hypothesis Rt : forall t u v, R t u -> R u v -> R t v.
  Hypothesis Ri : forall t, ~ R t t.

  Lemma fin_fuel (P : nat -> nat -> Prop) :
    (forall k t, A t -> (forall t', A t' -> R t t' -> P k t') -> P (S k) t) -> forall k t, A t -> N <= k -> P k t.
  Proof.
    intros H. enough (G : forall k L t, A t -> NoDup (t :: L) -> (forall u, In u L -> A u /\ R u t) -> N <= k + length L -> P k t).
    { intros k t Ht Hk. apply (G k []); auto; [repeat constructor; auto|intros u []|cbn; lia]. }
    induction k as [|k IH]; intros L t Ht ND HL Hk.
    - exfalso. assert (incl (t :: L) (seq 0 N)).
      { intros u [<-|Hu]; apply in_seq; [apply HA in Ht|apply HL in Hu; destruct Hu as [Hu _]; apply HA in Hu]; lia. }
      apply NoDup_incl_length in H0; auto. rewrite seq_length in H0. cbn in H0, Hk. lia.
    - apply H; auto. intros t' Ht' HR. apply (IH (t :: L)); auto.
      + constructor; auto. intros [->|Hi]; [eapply Ri; eauto|]. apply HL in Hi. eapply Ri, Rt; [apply HR|apply Hi].
      + intros u [<-|Hu]; auto. apply HL in Hu. split; [apply Hu|]. eapply Rt; [apply Hu|apply HR].
      + cbn. lia.
  Qed.
  Lemma fin_ind (P : nat -> Prop) :
    (forall t, A t -> (forall t', A t' -> R t t' -> P t') -> P t) -> forall t, A t -> P t.
  Proof. intros H t Ht. apply (@fin_fuel (fun _ t => P t)) with N; auto. Qed.
End Fin.

Section Cav.
  (** n points and nb boundary vertices behind them. *)
  Variables n nb : nat.
  Variable vp : nat -> P2.
  Definition bnd (v : nat) : Prop := n <= v < n + nb.
  Definition vok (v : nat) : Prop := v < n + nb.
  Definition hull (a b : nat) : Prop := bnd a /\ bnd b /\ (b = a + 1 \/ b = n /\ a + 1 = n + nb).
  Notation A2 := (A2 vp).
  Notation ccwv := (ccwv vp).
  Notation wf := (wf vp vok hull).
  Definition iv (a b c d : nat) : R := incirc (vp a) (vp b) (vp c) (vp d).

  (** General position: no three points on a line; four on a circle only on the
      boundary, which is convex and around the points. *)
  Record genpos : Prop := {
    nb3 : 3 <= nb;
    convex : forall i j k, n <= i -> i < j -> j < k -> k < n + nb -> ccwv i j k;
    inside : forall a b p, hull a b -> p < n -> ccwv a b p;
    gp3 : forall a b c, vok a -> vok b -> vok c -> a <> b -> b <> c -> a <> c -> A2 a b c <> 0%R;
    gp4 : forall a b c d, vok a -> vok b -> vok c -> vok d -> NoDup [a; b; c; d] ->
      iv a b c d = 0%R -> bnd a /\ bnd b /\ bnd c /\ bnd d;
  }.
  Hypothesis GP : genpos.

  Lemma hull_left a b c : hull a b -> vok c -> c <> a -> c <> b -> ccwv a b c.
  Proof.
    intros H V Na Nb. destruct (Nat.lt_ge_cases c n) as [Hc|Hc]; [apply (inside GP); auto|].
    destruct H as (Ba & Bb & H). unfold vok, bnd in *. destruct H as [->|[-> E]].
    - destruct (Nat.lt_ge_cases c a) as [L|L].
      + apply ccwv_rot. apply (convex GP); lia.
      + apply (convex GP); lia.
    - apply ccwv_rot, ccwv_rot. apply (convex GP); lia.
  Qed.
  Lemma ccwv_rot2 a b c : ccwv a b c -> ccwv c a b.
  Proof. intros. apply ccwv_rot, ccwv_rot. auto. Qed.

  (** *** Delaunay meshes of the inserted points [ins] and the boundary *)
  Record dmesh (m : mesh) (ins : nat -> Prop) : Prop := {
    d_wf : wf m;
    d_in : forall t a b, hasE m t a b -> ins a \/ bnd a;
    d_emp : forall t a b c v, tri3 m t a b c -> ins v \/ bnd v -> (iv a b c v <= 0)%R;
    d_fan : forall t a b c, tri3 m t a b c -> bnd a -> bnd b -> bnd c ->
      exists i, n < i /\ i + 1 < n + nb /\ tri3 m t n i (i + 1);
  }.

  Section Walk.
    Variable m : mesh.
    Variable ins : nat -> Prop.
    Hypothesis D : dmesh m ins.
    Hypothesis ins_n : forall v, ins v -> v < n.
    Let W : wf m := d_wf D.

    Lemma tri3_vok t a b c : tri3 m t a b c -> vok a /\ vok b /\ vok c.
    Proof.
      intros T. destruct (tri3_hasE T) as (E1 & E2 & E3). repeat split; eapply w_vok; eauto.
    Qed.
    Lemma tri3_ib t a b c : tri3 m t a b c -> (ins a \/ bnd a) /\ (ins b \/ bnd b) /\ (ins c \/ bnd c).
    Proof.
      intros T. destruct (tri3_hasE T) as (E1 & E2 & E3). repeat split; eapply d_in; eauto.
    Qed.
    Lemma tri3_third t a b c d : tri3 m t a b c -> tri3 m t a b d -> c = d.
    Proof.
      intros T T'. destruct (tri3_hasE T) as (E1 & E2 & E3). destruct (ccwv_ne (w_ccw W T)) as (N1 & N2 & N3).
      destruct (ccwv_ne (w_ccw W T')) as (N1' & N2' & N3').
      destruct (tri3_hasE T') as (E1' & E2' & E3').
      destruct (tri3_edges T E2') as [X|[X|X]]; injection X; intros; congruence.
    Qed.

    Definition fanT (t i : nat) : Prop := n < i /\ i + 1 < n + nb /\ tri3 m t n i (i + 1).
    Lemma fanT_eq t i j : fanT t i -> fanT t j -> i = j.
    Proof.
      intros (H1 & H2 & T) (H3 & H4 & T'). destruct (tri3_hasE T') as (E & _).
      destruct (tri3_edges T E) as [X|[X|X]]; injection X; intros; lia.
    Qed.

    Definition nearOf (t : nat) (x : P2) : R :=
      match vxs m t with Some f => near (vp (f 0)) (vp (f 1)) (vp (f 2)) x | None => 0%R end.
    Lemma nearOf_tri t a b c x : tri3 m t a b c -> nearOf t x = near (vp a) (vp b) (vp c) x.
    Proof.
      intros (f & i & E & Hi & <- & <- & <-). unfold nearOf. rewrite E. i3 i; cbn; auto.
      - symmetry. apply near_rot.
      - apply near_rot.
    Qed.
    Definition k2 (i : nat) (x : P2) : R := (area2 (vp i) (vp (i + 1)) x / area2 (vp n) (vp i) (vp (i + 1)))%R.

    Definition lower (x : P2) (t t' : nat) : Prop :=
      (nearOf t x < nearOf t' x)%R \/
      nearOf t x = nearOf t' x /\ exists i j, fanT t i /\ fanT t' j /\ (k2 j x < k2 i x)%R.
    Lemma lower_trans x t u v : lower x t u -> lower x u v -> lower x t v.
    Proof.
      intros [H|(H & i & j & F1 & F2 & K)] [H'|(H' & i' & j' & F1' & F2' & K')]; try (left; lra).
      right. split; [lra|]. exists i, j'. repeat split; try apply F1; try apply F2'. rewrite (fanT_eq F2 F1') in K. lra.
    Qed.
    Lemma lower_irr x t : ~ lower x t t.
    Proof.
      intros [H|(H & i & j & F1 & F2 & K)]; [lra|]. rewrite (fanT_eq F2 F1) in K. lra.
    Qed.

    (** A step towards x. *)
    Definition tow (x : P2) (t t' : nat) : Prop :=
      exists a b, hasE m t a b /\ hasE m t' b a /\ (area2 (vp a) (vp b) x < 0)%R.

    Lemma k2_step o a b d x : (0 < area2 o a b)%R -> (0 < area2 o b d)%R -> (0 < area2 a b d)%R ->
      ((0 < area2 o b x)%R -> (area2 b d x / area2 o b d < area2 a b x / area2 o a b)%R) /\
      ((area2 o b x < 0)%R -> (area2 a b x / area2 o a b < area2 b d x / area2 o b d)%R).
    Proof.
      intros H1 H2 H3.
      assert (E : (area2 a b x * area2 o b d - area2 b d x * area2 o a b = area2 a b d * area2 o b x)%R).
      { destruct o, a, b, d, x. unfold area2. cbn [fst snd]. ring. }
      split; intros H.
      - assert (0 < area2 a b d * area2 o b x)%R by (apply Rmult_lt_0_compat; auto).
        apply Rmult_lt_reg_r with (area2 o a b * area2 o b d)%R; [apply Rmult_lt_0_compat; auto|].
        field_simplify; lra.
      - assert (0 < area2 a b d * - area2 o b x)%R by (apply Rmult_lt_0_compat; lra).
        apply Rmult_lt_reg_r with (area2 o a b * area2 o b d)%R; [apply Rmult_lt_0_compat; auto|].
        field_simplify; lra.
    Qed.

    Lemma tow_lower x t t' : tow x t t' -> lower x t t'.
    Proof.
      intros (a & b & E & E' & X). destruct (hasE_tri3 E) as (c & T). destruct (hasE_tri3 E') as (d & T').
      pose proof (w_ccw W T) as C. pose proof (w_ccw W T') as C'.
      destruct (tri3_vok T) as (Va & Vb & Vc). destruct (tri3_vok T') as (_ & _ & Vd).
      destruct (tri3_ib T') as (_ & _ & Id).
      destruct (ccwv_ne C) as (N1 & N2 & N3). destruct (ccwv_ne C') as (N1' & N2' & N3').
      pose proof (d_emp D T Id) as Em. unfold iv in Em. unfold DelTopo.ccwv, DelTopo.A2 in C, C'.
      assert (C'' : (area2 (vp a) (vp b) (vp d) < 0)%R) by (rewrite (area2_swap (vp a)) in C'; lra).
      destruct (Rle_lt_or_eq_dec _ _ Em) as [L|Z].
      - left. rewrite (nearOf_tri x T), (nearOf_tri x T'). apply near_lt; auto. apply walk_power_lt; auto.
      - assert (Ncd : c <> d) by (intros ->; lra).
        assert (ND : NoDup [a; b; c; d]) by (repeat constructor; cbn; intuition congruence).
        destruct (gp4 GP Va Vb Vc Vd ND Z) as (Ba & Bb & Bc & Bd).
        right. split.
        { rewrite (nearOf_tri x T), (nearOf_tri x T'). pose proof (pencil (vp a) (vp b) (vp c) (vp d) x) as P.
          rewrite Z, Rmult_0_l in P. apply Rle_antisym; apply near_le; auto;
            rewrite (incirc_swap (vp a)), (area2_swap (vp a) (vp b) (vp d)); lra. }
        destruct (d_fan D T Ba Bb Bc) as (i & I1 & I2 & F). destruct (d_fan D T' Bb Ba Bd) as (j & J1 & J2 & F').
        exists i, j. repeat split; auto. unfold k2.
        destruct (tri3_edges F E) as [Y|[Y|Y]]; injection Y as Ya Yb; destruct (tri3_edges F' E') as [Y'|[Y'|Y']]; injection Y' as Yb' Ya'; try lia.
        + (* (n, i) and (j + 1, n) *)
          assert (Hij : i = j + 1) by lia. rewrite Hij in *. clear i Hij. rewrite Ya, Yb in X. apply k2_step; auto.
          * apply (convex GP); lia.
          * apply (convex GP); lia.
          * apply (convex GP); lia.
        + (* (i + 1, n) and (n, j) *)
          assert (Hij : j = i + 1) by lia. rewrite Hij in *. clear j Hij. rewrite Ya, Yb in X. rewrite (area2_swap (vp n)) in X. apply k2_step; auto; try lra.
          * apply (convex GP); lia.
          * apply (convex GP); lia.
          * apply (convex GP); lia.
    Qed.

    Lemma alive_cap t : alive m t -> t < cap m.
    Proof. apply (w_cap W). Qed.

    (** A triangle without a step towards x contains x; [hl]: x is left of the
        border. *)
    Definition hl (x : P2) : Prop := forall a b, hull a b -> (0 < area2 (vp a) (vp b) x)%R.
    Lemma step_or_in x t a b : hl x -> hasE m t a b -> (area2 (vp a) (vp b) x < 0)%R -> exists t', alive m t' /\ tow x t t'.
    Proof.
      intros H (f & i & E & Hi & <- & <-) X. apply vxs_some in E as (r & E & <-).
      pose proof (w_lk W _ E Hi) as L.
      assert (He : hasE m t (vx r (m2 i)) (vx r i)) by (exists (vx r), i; rewrite (@vxs_tm _ _ _ E); auto).
      destruct (ng r i) as [y|].
      - exists y. split; [destruct (hasE_tri3 L) as (c & T); apply (tri3_alive T)|]. eexists; eexists; eauto.
      - exfalso. apply H in L. lra.
    Qed.

    Definition inT (x : P2) (t : nat) : Prop := forall a b, hasE m t a b -> (0 <= area2 (vp a) (vp b) x)%R.

    Lemma reach x (P : nat -> Prop) : hl x ->
      (forall t, alive m t -> inT x t -> P t) ->
      (forall t t', alive m t -> alive m t' -> tow x t t' -> P t' -> P t) ->
      forall t, alive m t -> P t.
    Proof.
      intros H H0 H1. apply (@fin_ind (cap m) (alive m) (lower x) alive_cap (@lower_trans x) (@lower_irr x)). intros t Ht IH.
      assert (C : (exists a b, hasE m t a b /\ (area2 (vp a) (vp b) x < 0)%R) \/ inT x t).
      { destruct (alive_tri3 Ht) as (a & b & c & T). destruct (tri3_hasE T) as (E1 & E2 & E3).
        destruct (Rlt_le_dec (area2 (vp a) (vp b) x) 0) as [L1|L1]; [left; eauto|].
        destruct (Rlt_le_dec (area2 (vp b) (vp c) x) 0) as [L2|L2]; [left; eauto|].
        destruct (Rlt_le_dec (area2 (vp c) (vp a) x) 0) as [L3|L3]; [left; eauto|].
        right. intros u w E. destruct (tri3_edges T E) as [X|[X|X]]; injection X as -> ->; auto. }
      destruct C as [(a & b & E & X)|C]; auto.
      destruct (@step_or_in x t a b H E X) as (t' & A' & S). apply (H1 t t'); auto. apply IH; auto. apply tow_lower; auto.
    Qed.

    (** *** A point of the input not yet in the mesh *)
    Section Point.
      Variable p : nat.
      Hypothesis Hp : p < n.
      Hypothesis Np : ~ ins p.
      Lemma p_vok : vok p. Proof. unfold vok. lia. Qed.
      Lemma p_hl : hl (vp p). Proof. intros a b H. apply (inside GP); auto. Qed.
      Lemma p_nb : ~ bnd p. Proof. unfold bnd. lia. Qed.
      Lemma p_ne t a b : hasE m t a b -> a <> p /\ b <> p.
      Proof.
        intros E. destruct (hasE_tri3 E) as (c & T). destruct (tri3_ib T) as (Ia & Ib & _). pose proof p_nb.
        split; intros ->; tauto.
      Qed.
      Lemma p_nocol t a b : hasE m t a b -> A2 a b p <> 0%R.
      Proof.
        intros E. destruct (hasE_tri3 E) as (c & T). destruct (tri3_vok T) as (Va & Vb & _).
        destruct (p_ne E). destruct (ccwv_ne (w_ccw W T)) as (N1 & _). apply (gp3 GP); auto; apply p_vok.
      Qed.
      Definition inTs (t : nat) : Prop := forall a b, hasE m t a b -> ccwv a b p.
      Lemma inTs_of t : inT (vp p) t -> inTs t.
      Proof.
        intros H a b E. pose proof (H a b E) as H1. pose proof (p_nocol E). unfold DelTopo.ccwv, DelTopo.A2 in *. lra.
      Qed.
      Definition conf (t : nat) : Prop := exists a b c, tri3 m t a b c /\ (0 < iv a b c p)%R.
      Lemma conf_tri t a b c : conf t -> tri3 m t a b c -> (0 < iv a b c p)%R.
      Proof.
        intros (x & y & z & T & H) T'. unfold iv in *. destruct (tri3_hasE T') as (E1 & E2 & E3).
        destruct (ccwv_ne (w_ccw W T)) as (N1 & N2 & N3).
        destruct (tri3_edges T E1) as [X|[X|X]], (tri3_edges T E2) as [Y|[Y|Y]]; injection X; injection Y; intros; subst; try congruence; auto.
        - rewrite incirc_rot. auto.
        - rewrite incirc_rot, incirc_rot. auto.
      Qed.
      Lemma conf_near t : alive m t -> (conf t <-> (0 < nearOf t (vp p))%R).
      Proof.
        intros A. destruct (alive_tri3 A) as (a & b & c & T). pose proof (w_ccw W T) as C. rewrite (nearOf_tri _ T). unfold near.
        unfold DelTopo.ccwv, DelTopo.A2 in C. split.
        - intros H. pose proof (conf_tri H T) as Q. apply Rdiv_lt_0_compat; auto.
        - intros H. exists a, b, c. split; auto. unfold iv.
          apply Rmult_lt_compat_r with (r := area2 (vp a) (vp b) (vp c)) in H; auto. rewrite Rmult_0_l in H. field_simplify in H; lra.
      Qed.
      Lemma inTs_conf t : alive m t -> inTs t -> conf t.
      Proof.
        intros A H. destruct (alive_tri3 A) as (a & b & c & T). exists a, b, c. split; auto.
        destruct (tri3_hasE T) as (E1 & E2 & E3). apply inside_incirc; apply H; auto.
      Qed.
      Lemma tow_conf t t' : alive m t -> alive m t' -> tow (vp p) t t' -> conf t -> conf t'.
      Proof.
        intros A A' S C. apply conf_near in C; auto. apply conf_near; auto. apply tow_lower in S. destruct S as [S|(S & _)]; lra.
      Qed.

      (** Only one triangle contains p. *)
      Lemma inTs_unique t t' : alive m t -> alive m t' -> inTs t -> inTs t' -> t = t'.
      Proof.
        intros A A' I I'. destruct (alive_tri3 A) as (a & b & c & T). destruct (alive_tri3 A') as (a' & b' & c' & T').
        destruct (tri3_hasE T) as (E1 & E2 & E3). destruct (tri3_hasE T') as (E1' & E2' & E3').
        destruct (tri3_ib T) as (Ia & Ib & Ic). destruct (tri3_ib T') as (Ia' & Ib' & Ic').
        destruct (tri3_vok T) as (Va & Vb & Vc). destruct (tri3_vok T') as (Va' & Vb' & Vc').
        pose proof (I _ _ E1) as H1. pose proof (I _ _ E2) as H2. pose proof (I _ _ E3) as H3.
        pose proof (I' _ _ E1') as H1'. pose proof (I' _ _ E2') as H2'. pose proof (I' _ _ E3') as H3'.
        unfold DelTopo.ccwv, DelTopo.A2 in *.
        pose proof (w_ccw W T) as C. pose proof (w_ccw W T') as C'. unfold DelTopo.ccwv, DelTopo.A2 in C, C'.
        destruct (@same_circle (vp a) (vp b) (vp c) (vp a') (vp b') (vp c') (vp p)) as (Z1 & Z2 & Z3); auto; try lra;
          try (apply (d_emp D T'); auto); try (apply (d_emp D T); auto).
        destruct (ccwv_ne (w_ccw W T)) as (N1 & N2 & N3). destruct (ccwv_ne (w_ccw W T')) as (M1 & M2 & M3).
        (* each corner of T is a corner of T', or all four are boundary *)
        assert (G : forall x, vok x -> incirc (vp a') (vp b') (vp c') (vp x) = 0%R ->
                      x = a' \/ x = b' \/ x = c' \/ (bnd a' /\ bnd b' /\ bnd c' /\ bnd x)).
        { intros x Vx Z. destruct (Nat.eq_dec x a'); auto. destruct (Nat.eq_dec x b'); auto. destruct (Nat.eq_dec x c'); auto.
          do 3 right. apply (gp4 GP); auto. repeat constructor; cbn; intuition congruence. }
        assert (GA : (bnd a' /\ bnd b' /\ bnd c' /\ bnd a /\ bnd b /\ bnd c) \/
                     ((a = a' \/ a = b' \/ a = c') /\ (b = a' \/ b = b' \/ b = c') /\ (c = a' \/ c = b' \/ c = c'))).
        { assert (Bx : bnd a' /\ bnd b' /\ bnd c' -> bnd a' /\ bnd b' /\ bnd c' /\ bnd a /\ bnd b /\ bnd c).
          { intros (B1 & B2 & B3). assert (Y : forall x, vok x -> incirc (vp a') (vp b') (vp c') (vp x) = 0%R -> bnd x).
            { intros x Vx Z. destruct (G x Vx Z) as [ -> |[ -> |[ -> |(_ & _ & _ & Bx)]]]; auto. }
            repeat split; try apply B1; try apply B2; try apply B3; apply Y; auto. }
          assert (G' : forall x, vok x -> incirc (vp a') (vp b') (vp c') (vp x) = 0%R ->
                    (x = a' \/ x = b' \/ x = c') \/ (bnd a' /\ bnd b' /\ bnd c')).
          { intros x Vx Z. destruct (G x Vx Z) as [Q|[Q|[Q|(Q1 & Q2 & Q3 & _)]]]; auto. }
          destruct (G' a Va Z1) as [Xa|Xa]; [|left; auto]. destruct (G' b Vb Z2) as [Xb|Xb]; [|left; auto].
          destruct (G' c Vc Z3) as [Xc|Xc]; [|left; auto]. right. auto. }
        destruct GA as [(B1 & B2 & B3 & B4 & B5 & B6)|(Xa & Xb & Xc)].
        - destruct (d_fan D T) as (i & I1 & I2 & F); auto. destruct (d_fan D T') as (j & J1 & J2 & F'); auto.
          destruct (tri3_hasE F) as (Fa & Fb & Fc). destruct (tri3_hasE F') as (Fa' & Fb' & Fc').
          assert (Q : forall i j, n < i -> i < j -> j + 1 < n + nb -> ccwv n i p -> ccwv (i + 1) n p -> ccwv n j p -> ccwv (j + 1) n p -> False).
          { clear - GP. intros i j I1 IJ J2 Q1 Q2 Q3 Q4. apply (@cone_excl (vp n) (vp i) (vp (j + 1)) (vp j) (vp p)).
            - assert (Cn : cone (vp n) (vp i) (vp (i + 1)) (vp p)) by (split; [apply Q1|apply ccwv_rot in Q2; apply Q2]).
              destruct (Nat.eq_dec (i + 1) j) as [<-|Hj]; auto.
              apply cone_left with (vp (i + 1)); auto; [apply (convex GP); lia|]. split; apply (convex GP); lia.
            - split; [apply Q3|apply ccwv_rot in Q4; apply Q4]. }
          destruct (Nat.lt_trichotomy i j) as [L|[<-|L]].
          + exfalso. apply (Q i j); auto.
          + apply (w_de W Fa Fa').
          + exfalso. apply (Q j i); auto.
        - (* same corners: same rotation, since both are counterclockwise *)
          assert (Rv : forall x y z, tri3 m t' x y z -> tri3 m t y x z -> False).
          { intros x y z Q1 Q2. eapply ccwv_anti; [apply (w_ccw W Q1)|apply (w_ccw W Q2)]. }
          assert (Sm : forall x y z, tri3 m t' x y z -> tri3 m t x y z -> t = t').
          { intros x y z Q1 Q2. destruct (tri3_hasE Q1) as (R1 & _). destruct (tri3_hasE Q2) as (R2 & _). apply (w_de W R2 R1). }
          pose proof (tri3_rot T') as T1'. pose proof (tri3_rot T1') as T2'.
          pose proof (tri3_rot T) as T1. pose proof (tri3_rot T1) as T2.
          destruct Xa as [Xa|[Xa|Xa]], Xb as [Xb|[Xb|Xb]], Xc as [Xc|[Xc|Xc]]; subst; try congruence;
            try (eapply Sm; eassumption); exfalso; eapply Rv; eassumption.
      Qed.
      Lemma containing t : alive m t -> exists t0, alive m t0 /\ inTs t0.
      Proof.
        apply (@reach (vp p) (fun _ => exists t0, alive m t0 /\ inTs t0) p_hl).
        - intros u A I. exists u. split; auto. apply inTs_of; auto.
        - auto.
      Qed.

      (** *** find *)
      Fixpoint itr (k o : nat) : nat := match k with 0 => o | S k' => itr k' (m1 o) end.
      Lemma findRot_ok r t : tm m t = Some r -> forall k o bd, o < 3 ->
        (@findRot RNum vp m p k (t, o, bd) = Ok (t, itr k o, match k with 0 => bd | _ => false end, false) /\
         (forall j, j < k -> ccwv (vx r (itr j o)) (vx r (m1 (itr j o))) p)) \/
        (exists i, i < 3 /\ (A2 (vx r (m2 i)) (vx r i) p < 0)%R /\
           @findRot RNum vp m p k (t, o, bd) = (s' <- across m (t, i, false) ;; Ok (s', true))).
      Proof.
        intros E. induction k as [|k IH]; intros o bd Ho.
        - left. split; auto. intros; lia.
        - cbn [findRot]. unfold rot, outside, sT, sO, sB. cbn [fst snd]. unfold getT. rewrite E. cbn [bind].
          fold (m1 o). change (mod3 (m1 o + 2)) with (m2 (m1 o)). rewrite m2_m1 by auto.
          destruct (counterClockwise (N:=RNum) (vp (vx r o)) (vp p) (vp (vx r (m1 o)))) eqn:C; cbn [bind].
          + right. exists (m1 o). repeat split; auto with m3. rewrite m2_m1 by auto. apply ccw_spec in C.
            unfold DelTopo.A2. rewrite area2_swap23 in C. lra.
          + assert (L : ccwv (vx r o) (vx r (m1 o)) p).
            { assert (He : hasE m t (vx r o) (vx r (m1 o))).
              { exists (vx r), (m1 o). rewrite (@vxs_tm _ _ _ E), m2_m1 by auto. auto with m3. }
              pose proof (p_nocol He) as Z.
              assert (~ (0 < area2 (vp (vx r o)) (vp p) (vp (vx r (m1 o))))%R) by (rewrite <- ccw_spec, C; discriminate).
              unfold DelTopo.ccwv, DelTopo.A2 in *.
              rewrite area2_swap23 in H. lra. }
            destruct (IH (m1 o) false ltac:(auto with m3)) as [(Q & J)|Q]; [left|right; exact Q].
            rewrite Q. split.
            * destruct k; reflexivity.
            * intros j Hj. destruct j as [|j]; auto. apply (J j). lia.
      Qed.

      Lemma find_ok fuel t o : alive m t -> o < 3 -> cap m <= fuel ->
        exists t0 o0, @find RNum vp fuel m p (t, o, false) = Ok (t0, o0, false) /\ o0 < 3 /\ alive m t0 /\ inTs t0.
      Proof.
        intros A Ho Hf. revert o Ho. revert fuel t A Hf.
        apply (@fin_fuel (cap m) (alive m) (lower (vp p)) alive_cap (@lower_trans _) (@lower_irr _)
                 (fun fuel t => forall o, o < 3 -> exists t0 o0, @find RNum vp fuel m p (t, o, false) = Ok (t0, o0, false) /\ o0 < 3 /\ alive m t0 /\ inTs t0)).
        intros k t A IH o Ho. cbn [find].
        assert (exists r, tm m t = Some r) as (r & E).
        { unfold alive, vxs in A. destruct (tm m t); eauto. cbn in A. congruence. }
        destruct (@findRot_ok r t E 3 o false Ho) as [(Q & J)|(i & Hi & S & Q)].
        - rewrite Q. cbn [bind negb]. exists t, o. replace (itr 3 o) with o by (i3 o; reflexivity).
          repeat split; auto. intros a b (f & j & Ef & Hj & <- & <-). rewrite (@vxs_tm _ _ _ E) in Ef. injection Ef as <-.
          pose proof (J 0 ltac:(lia)) as J0. pose proof (J 1 ltac:(lia)) as J1. pose proof (J 2 ltac:(lia)) as J2. cbn in J0, J1, J2.
          destruct (i3_cases (m1_lt (m1_lt (m1_lt Ho))) Hj) as [ -> | [ -> | -> ] ].
          + rewrite m2_m1 by auto with m3. exact J2.
          + rewrite m2_m1 by auto with m3. replace (m1 (m1 (m1 o))) with o by (i3 o; reflexivity). exact J0.
          + rewrite m2_m2, m2_m1 by auto with m3. i3 o; cbn in *; auto.
        - rewrite Q. destruct (across_cases hull_left W t false E Hi) as [(Hh & _)|(y & ry & j & Ey & Hj & Q1 & Q2 & ->)].
          + exfalso. apply (inside GP) with (p := p) in Hh; auto. unfold DelTopo.ccwv in Hh. lra.
          + cbn [bind negb sB snd].
            assert (Ay : alive m y) by (unfold alive; rewrite (@vxs_tm _ _ _ Ey); discriminate).
            apply IH; auto. apply tow_lower. exists (vx r (m2 i)), (vx r i). split; [|split; auto].
            * exists (vx r), i. rewrite (@vxs_tm _ _ _ E). auto.
            * exists (vx ry), j. rewrite (@vxs_tm _ _ _ Ey). auto.
      Qed.
    End Point.
  End Walk.
End Cav.
