(** One round of insertions under an arbitrary schedule. *)
From Coq Require Import Reals Lra.
From Verif Require Import Base Num Sched DelModel DelGeom DelTopo DelFlip DelCav DelTree.
Set Implicit Arguments.

Definition fends (F : list fent) : list nat := map (fun e => snd (fst e)) F.

Lemma fverts_perm F : Permutation (fverts F) (fends F ++ flat_map (fun e => ino (snd e)) F).
Proof.
  unfold fverts, fends. induction F as [|[[a b] tr] F IH]; cbn [flat_map map fst snd app]; auto.
  cbn. constructor. rewrite IH. rewrite !app_assoc. apply Permutation_app_tail. apply Permutation_app_comm.
Qed.
Lemma fends_verts F x : In x (fends F) -> In x (fverts F).
Proof. intros H. apply (Permutation_in x (Permutation_sym (fverts_perm F))). apply in_app_iff. auto. Qed.

(** The first tree that is not a leaf. *)
Lemma fqueue_cons F x q : fqueue F = x :: q -> exists F1 a b T o c l r F2,
  F = F1 ++ (a, b, CNode T o c l r) :: F2 /\ x = (T, o, false) /\ q = fqueue (F1 ++ (a, c, l) :: (c, b, r) :: F2).
Proof.
  unfold fqueue. induction F as [|[[a b] tr] F IH]; cbn; [discriminate|]. destruct tr as [|T o c l r]; cbn; intros H.
  - destruct (IH H) as (F1 & a' & b' & T & o & c & l & r & F2 & -> & H1 & H2).
    exists ((a, b, CLeaf) :: F1), a', b', T, o, c, l, r, F2. auto.
  - injection H as <- <-. exists [], a, b, T, o, c, l, r, F. cbn. rewrite app_assoc. auto.
Qed.
Lemma fqueue_nil F : fqueue F = [] -> fpend F = [] /\ forall a b tr, In (a, b, tr) F -> tr = CLeaf.
Proof.
  unfold fqueue, fpend. induction F as [|[[a b] tr] F IH]; cbn; [split; auto; intros ? ? ? []|]. destruct tr as [|T o c l r]; cbn; [|discriminate].
  intros H. destruct (IH H) as (H1 & H2). split; auto. intros a' b' tr' [E|E]; [injection E; auto|eauto].
Qed.

Section Round.
  Variables n nb : nat.
  Variable vp : nat -> P2.
  Notation vok := (vok n nb).
  Notation hull := (hull n nb).
  Notation bnd := (bnd n nb).
  Notation A2 := (A2 vp).
  Notation ccwv := (ccwv vp).
  Notation wf := (wf vp vok hull).
  Notation iv := (iv vp).
  Hypothesis GP : genpos n nb vp.
  Let HL := hull_left GP.

  (** A mesh between two rounds. *)
  Definition fresh (m : mesh) (v : nat) : Prop := vt m v = Some (2 * v) /\ tm m (2 * v) = None /\ tm m (2 * v + 1) = None.
  Record good (m : mesh) (ins : nat -> Prop) : Prop := {
    g_del : dmesh n nb vp m ins;
    g_ins : forall v, ins v -> v < n;
    g_cap : 2 * n <= cap m;
    g_fresh : forall v, v < n -> ~ ins v -> fresh m v;
    g_vt : forall v, ins v \/ bnd v -> exists X, vt m v = Some X /\ alive m X;
    g_all : forall X, X < cap m -> alive m X \/ exists v, v < n /\ ~ ins v /\ (X = 2 * v \/ X = 2 * v + 1);
  }.

  Variable m0 : mesh.
  Variable ins : nat -> Prop.
  Hypothesis G0 : good m0 ins.
  Let D : dmesh n nb vp m0 ins := g_del G0.
  Let W0 : wf m0 := d_wf D.

  (** A located trial vertex and its cavity. *)
  Record trOk (tr : trial) (F0 : list fent) : Prop := {
    t_n : tv tr < n;
    t_new : ~ ins (tv tr);
    t_al : alive m0 (sT (ts tr));
    t_in : inTs vp m0 (tv tr) (sT (ts tr));
    t_q : tq tr = fqueue F0;
    t_u : tu tr = fverts F0;
    t_cav : cavOk n nb vp m0 ins (tv tr) (sT (ts tr)) F0;
    t_front : exists r o tr0 tr1 tr2, tm m0 (sT (ts tr)) = Some r /\ o < 3 /\ F0 = front0 r o tr0 tr1 tr2;
  }.
  Definition inCav (tr : trial) (F0 : list fent) (X : nat) : Prop := X = sT (ts tr) \/ In X (fpend F0).

  Variable vid : nat -> nat.
  Variable trs : list trial.
  Hypothesis Htr : forall tr, In tr trs -> exists F0, trOk tr F0.
  Hypothesis Hnd : NoDup (map tv trs).
  Hypothesis Hvid : forall tr tr', In tr trs -> In tr' trs -> vid (tv tr) = vid (tv tr') -> tv tr = tv tr'.
  Variable R0 : nat -> option nat.
  Hypothesis R0_from : forall u x, R0 u = Some x -> exists tr, In tr trs /\ In u (tu tr) /\ vid (tv tr) = x.
  Hypothesis R0_max : forall tr u, In tr trs -> In u (tu tr) -> exists x, R0 u = Some x /\ vid (tv tr) <= x.

  Definition winner (tr : trial) : Prop := forall u, In u (tu tr) -> R0 u = Some (vid (tv tr)).

  Definition preS (tr : trial) (F0 : list fent) (m : mesh) : Prop :=
    (forall X x, ~ hasE m X (tv tr) x) /\ (forall X, inCav tr F0 X -> vxs m X = vxs m0 X).
  Record frontS (tr : trial) (F0 F : list fent) (m : mesh) : Prop := {
    f_ok : Forall (fentOk n nb vp m0 (tv tr)) F;
    f_perm : Permutation (fverts F) (tu tr);
    f_nd : NoDup (fpend F);
    f_incl : incl (fpend F) (fpend F0);
    f_pend : forall X, In X (fpend F) -> vxs m X = vxs m0 X;
    f_done : forall X, inCav tr F0 X -> ~ In X (fpend F) -> exists x, hasE m X (tv tr) x;
    f_tri : forall a b t, In (a, b, t) F -> exists S, tri3 m S (tv tr) a b;
    f_to : forall X x, hasE m X x (tv tr) -> In x (fends F);
    f_from : forall X x, hasE m X (tv tr) x -> In x (fends F);
  }.

  (** *** What one step may change *)
  Record chg (m m' : mesh) (p : nat) (V : list nat) : Prop := {
    h_cap : cap m' = cap m;
    h_C : exists C, (forall X, ~ In X C -> vxs m' X = vxs m X) /\
      (forall X, In X C -> (tm m X = None /\ (X = 2 * p \/ X = 2 * p + 1) \/ alive m X /\ forall x y, hasE m X x y -> In x V) /\
        (exists x, hasE m' X p x) /\ (forall x y, hasE m' X x y -> In x V));
    h_vt : forall v, vt m' v = vt m v \/ In v V /\ exists X, vt m' v = Some X /\ alive m' X;
  }.

  Lemma alive_hasE m X : alive m X <-> exists x y, hasE m X x y.
  Proof.
    split.
    - intros H. destruct (alive_tri3 H) as (a & b & c & T). destruct (tri3_hasE T) as (E & _). eauto.
    - intros (x & y & E). destruct (hasE_tri3 E) as (c & T). apply (tri3_alive T).
  Qed.
  Lemma tm_alive m X : tm m X = None <-> ~ alive m X.
  Proof.
    unfold alive, vxs. destruct (tm m X); cbn; split; intros; try congruence. exfalso. apply H. discriminate.
  Qed.

  Lemma same_hasE m m' X x y : vxs m' X = vxs m X -> (hasE m' X x y <-> hasE m X x y).
  Proof. intros E. unfold hasE. rewrite E. reflexivity. Qed.
  Lemma same_tri3 m m' X x y z : vxs m' X = vxs m X -> (tri3 m' X x y z <-> tri3 m X x y z).
  Proof. intros E. unfold tri3. rewrite E. reflexivity. Qed.
  Lemma same_alive m m' X : vxs m' X = vxs m X -> (alive m' X <-> alive m X).
  Proof. intros E. unfold alive. rewrite E. reflexivity. Qed.

  Arguments same_hasE {m m' X} x y _.
  Arguments same_tri3 {m m' X} x y z _.
  Arguments same_alive {m m' X} _.
  Section Frame.
    Variables (m m' : mesh) (p : nat) (V : list nat).
    Hypothesis H : chg m m' p V.
    Lemma chg_alive X : alive m X -> alive m' X.
    Proof.
      intros A. destruct (h_C H) as (C & H1 & H2). destruct (in_dec Nat.eq_dec X C) as [I|I].
      - destruct (H2 X I) as (_ & (x & E) & _). apply alive_hasE. eauto.
      - apply (same_alive (H1 X I)). auto.
    Qed.
    (** A triangle with a corner outside V stays. *)
    Lemma chg_keep X x y : hasE m X x y -> ~ In x V -> vxs m' X = vxs m X.
    Proof.
      intros E N. destruct (h_C H) as (C & H1 & H2). destruct (in_dec Nat.eq_dec X C) as [I|I]; auto. exfalso.
      destruct (H2 X I) as ([(Q & _)|(_ & Q)] & _); [|apply N; eauto].
      apply tm_alive in Q. apply Q, alive_hasE. eauto.
    Qed.
    Lemma chg_new X x y : hasE m' X x y -> ~ In x V -> hasE m X x y /\ vxs m' X = vxs m X.
    Proof.
      intros E N. destruct (h_C H) as (C & H1 & H2). destruct (in_dec Nat.eq_dec X C) as [I|I].
      - exfalso. destruct (H2 X I) as (_ & _ & Q). apply N; eauto.
      - split; auto. apply (same_hasE x y (H1 X I)). auto.
    Qed.
    Lemma chg_pre tr F0 : ~ In (tv tr) V -> (forall u, In u (tu tr) -> ~ In u V) -> trOk tr F0 -> preS tr F0 m -> preS tr F0 m'.
    Proof.
      intros Np Nu K (P1 & P2). split.
      - intros X x E. destruct (chg_new E Np) as (E' & _). eapply P1; eauto.
      - intros X HX. rewrite <- (P2 X HX).
        assert (A : alive m0 X).
        { destruct HX as [->|HX]; [apply (t_al K)|]. destruct (c_conf (t_cav K) (or_intror HX)) as (a & b & c & T & _). apply (tri3_alive T). }
        apply alive_hasE in A. destruct A as (x & y & E). apply chg_keep with x y.
        + apply (same_hasE x y (P2 X HX)). auto.
        + apply Nu. rewrite (t_u K). exact (proj1 (c_cor (t_cav K) HX E)).
    Qed.
    Lemma chg_front tr F0 F : ~ In (tv tr) V -> (forall u, In u (tu tr) -> ~ In u V) -> trOk tr F0 -> frontS tr F0 F m -> frontS tr F0 F m'.
    Proof.
      intros Np Nu K P. constructor; try apply P.
      - intros X HX. rewrite <- (f_pend P X HX). pose proof (f_incl P X HX) as HX'.
        destruct (c_conf (t_cav K) (or_intror HX')) as (a & b & c & T & _). destruct (tri3_hasE T) as (E & _).
        apply chg_keep with a b.
        + apply (same_hasE a b (f_pend P X HX)). auto.
        + apply Nu. rewrite (t_u K). exact (proj1 (c_cor (t_cav K) (or_intror HX') E)).
      - intros X HX HX'. destruct (f_done P HX HX') as (x & E). exists x. apply (same_hasE _ _ (chg_keep E Np)). auto.
      - intros a b t I. destruct (f_tri P _ _ _ I) as (S & T). exists S. destruct (tri3_hasE T) as (E & _).
        apply (same_tri3 _ _ _ (chg_keep E Np)). auto.
      - intros X x E. destruct (hasE_tri3 E) as (c & T). destruct (tri3_hasE T) as (_ & E2 & _).
        destruct (chg_new E2 Np) as (_ & Q). apply (f_to P (X := X)). apply (same_hasE _ _ Q). auto.
      - intros X x E. destruct (chg_new E Np) as (E' & _). eapply (f_from P); eauto.
    Qed.
    Lemma chg_fresh v : v <> p -> ~ In v V -> fresh m v -> fresh m' v.
    Proof.
      intros Nv Nv' (F1 & F2 & F3). destruct (h_C H) as (C & H1 & H2).
      assert (Q : forall X, tm m X = None -> X <> 2 * p -> X <> 2 * p + 1 -> tm m' X = None).
      { intros X E N1 N2. destruct (in_dec Nat.eq_dec X C) as [I|I].
        - exfalso. destruct (H2 X I) as ([(_ & Q)|(Q & _)] & _); [lia|]. apply tm_alive in E. auto.
        - apply tm_alive. rewrite (same_alive (H1 X I)). apply tm_alive. auto. }
      split; [|split; apply Q; auto; lia].
      destruct (h_vt H v) as [E|(I & _)]; [rewrite E; auto|tauto].
    Qed.
  End Frame.

  (** *** The two mesh operations *)
  Lemma p_fresh tr F0 : trOk tr F0 -> forall X x y, hasE m0 X x y -> x <> tv tr /\ y <> tv tr.
  Proof.
    intros K X x y E. destruct (hasE_tri3 E) as (c & T). destruct (tri3_ib D T) as (Ia & Ib & _). pose proof (t_n K). pose proof (t_new K).
    unfold DelCav.bnd in *. split; intros E'; rewrite E' in *; [destruct Ia|destruct Ib]; tauto || lia.
  Qed.

  Lemma split_step m tr F0 : wf m -> cap m = cap m0 -> trOk tr F0 -> preS tr F0 m -> fresh m (tv tr) ->
    exists m', split m (sT (ts tr)) (tv tr) (2 * tv tr) (2 * tv tr + 1) = Ok m' /\ wf m' /\ frontS tr F0 F0 m' /\
      chg m m' (tv tr) (tv tr :: tu tr) /\ alive m' (2 * tv tr) /\ alive m' (2 * tv tr + 1) /\
      exists X, vt m' (tv tr) = Some X /\ alive m' X.
  Proof.
    intros W EC K (P1 & P2) (Fv & Fa & Fb). destruct (t_front K) as (r & o & tr0 & tr1 & tr2 & Er & Ho & EF).
    set (p := tv tr) in *. set (t0 := sT (ts tr)) in *.
    assert (V0 : vxs m t0 = Some (vx r)).
    { rewrite (P2 t0) by (left; auto). apply vxs_tm; auto. }
    apply vxs_some in V0. destruct V0 as (r' & Er' & Ev).
    assert (Edge : forall i, i < 3 -> ccwv (vx r (m2 i)) (vx r i) p).
    { intros i Hi. apply (t_in K). exists (vx r), i. rewrite <- (@vxs_tm _ _ _ Er). auto. }
    pose proof (Edge 0 ltac:(lia)) as C0. pose proof (Edge 1 ltac:(lia)) as C1. pose proof (Edge 2 ltac:(lia)) as C2. cbn in C0, C1, C2.
    pose proof (t_n K) as Hp. pose proof (g_cap G0) as Hcap. fold p in Hp.
    destruct (@split_ok vp vok hull HL m t0 p (2 * p) (2 * p + 1) r') as (m' & E & W' & S); auto; try lia.
    { unfold DelCav.vok. lia. }
    1,2,3: rewrite Ev; apply ccwv_rot2; auto.
    exists m'. split; auto. split; auto.
    destruct S as (S1 & S2 & S3 & S4 & S5 & S6). rewrite Ev in *.
    assert (A0 : alive m t0) by (unfold alive; rewrite (@vxs_tm _ _ _ Er'); discriminate).
    assert (Dead : forall X, X = 2 * p \/ X = 2 * p + 1 -> ~ alive m X) by (intros X [->| ->]; apply tm_alive; auto).
    assert (V3 : In (vx r 0) (tu tr) /\ In (vx r 1) (tu tr) /\ In (vx r 2) (tu tr)).
    { rewrite (t_u K), EF. unfold front0, fverts. cbn [flat_map fst snd app]. clear - Ho. i3 o; cbn; rewrite ?in_app_iff; cbn; rewrite ?in_app_iff; cbn; tauto. }
    destruct V3 as (V0 & V1 & V2).
    assert (EN : In (vx r 0) (fends F0) /\ In (vx r 1) (fends F0) /\ In (vx r 2) (fends F0)).
    { rewrite EF. unfold front0, fends. cbn. clear - Ho. i3 o; cbn; tauto. }
    destruct EN as (N0 & N1 & N2).
    assert (HC : forall X x y, hasE m' X x y -> (exists a b, (X = t0 \/ X = 2 * p \/ X = 2 * p + 1) /\ tri3 m' X p a b /\ In a (fends F0) /\ In b (fends F0)) \/
                  (X <> t0 /\ X <> 2 * p /\ X <> 2 * p + 1 /\ hasE m X x y)).
    { intros X x y H. destruct (Nat.eq_dec X t0) as [->|Q1]; [left; exists (vx r 2), (vx r 0); auto|].
      destruct (Nat.eq_dec X (2 * p)) as [->|Q2]; [left; exists (vx r 0), (vx r 1); auto|].
      destruct (Nat.eq_dec X (2 * p + 1)) as [->|Q3]; [left; exists (vx r 1), (vx r 2); auto|].
      right. repeat split; auto. apply (same_hasE x y (S5 X Q1 Q2 Q3)). auto. }
    assert (Np : forall X x, ~ hasE m X x p).
    { intros X x Q. destruct (hasE_tri3 Q) as (c & T). destruct (tri3_hasE T) as (_ & E2 & _). eapply P1; eauto. }
    assert (AL : alive m' t0 /\ alive m' (2 * p) /\ alive m' (2 * p + 1)).
    { split; [apply (tri3_alive S2)|]. split; [apply (tri3_alive S3)|apply (tri3_alive S4)]. }
    split; [constructor|].
    - apply (c_ok (t_cav K)).
    - rewrite (t_u K). reflexivity.
    - apply (c_pend (t_cav K)).
    - intros X; auto.
    - intros X HX. rewrite <- (P2 X (or_intror HX)).
      assert (A : alive m X).
      { apply (same_alive (P2 X (or_intror HX))). destruct (c_conf (t_cav K) (or_intror HX)) as (a & b & c & T & _). apply (tri3_alive T). }
      apply S5; [intros ->; apply (c_t0 (t_cav K)); auto| |]; intros EX; apply (Dead X); auto.
    - intros X [->|HX] HX'; [|tauto]. destruct (tri3_hasE S2) as (Q & _). fold t0 p. eauto.
    - intros a b t I. rewrite EF in I. unfold front0 in I. cbn in I. clear - I S2 S3 S4 Ho.
      destruct I as [I|[I|[I|[]]]]; injection I as <- <- <-; i3 o; cbn; eauto.
    - intros X x Q. destruct (HC X x _ Q) as [(a & b & HX & T & Ia & Ib)|(_ & _ & _ & Q')]; [|exfalso; eapply Np; eauto].
      destruct (tri3_edges T Q) as [Y|[Y|Y]]; injection Y; intros; subst; auto.
    - intros X x Q. destruct (HC X _ x Q) as [(a & b & HX & T & Ia & Ib)|(_ & _ & _ & Q')]; [|exfalso; eapply P1; eauto].
      destruct (tri3_edges T Q) as [Y|[Y|Y]]; injection Y; intros; subst; auto.
    - split.
      + constructor; auto.
        * exists [t0; 2 * p; 2 * p + 1]. split.
          -- intros X HX. cbn in HX. apply S5; intuition.
          -- intros X HX. cbn in HX. split; [|split].
             ++ destruct HX as [<-|[<-|[<-|[]]]]; auto. right. split; auto. intros x y Q. right.
                rewrite (t_u K). apply (same_hasE x y (P2 t0 (or_introl eq_refl))) in Q. exact (proj1 (c_cor (t_cav K) (or_introl eq_refl) Q)).
             ++ destruct HX as [<-|[<-|[<-|[]]]]; [destruct (tri3_hasE S2)|destruct (tri3_hasE S3)|destruct (tri3_hasE S4)]; eauto.
             ++ intros x y Q. destruct HX as [<-|[<-|[<-|[]]]];
                  [destruct (tri3_edges S2 Q) as [Y|[Y|Y]]|destruct (tri3_edges S3 Q) as [Y|[Y|Y]]|destruct (tri3_edges S4 Q) as [Y|[Y|Y]]];
                  injection Y as -> ->; cbn; auto.
        * intros v. destruct (S6 v) as [(-> & Q)|[(-> & Q)|(_ & Q)]]; auto; right; cbn; split; auto; eexists; split; eauto; apply AL.
      + split; [apply AL|split; [apply AL|]]. destruct (S6 p) as [(_ & Q)|[(_ & Q)|(Q & _)]]; [| |congruence]; eexists; split; eauto; apply AL.
  Qed.

  Lemma tri3_to m X p a b x : tri3 m X p a b -> ccwv p a b -> hasE m X x p -> x = b.
  Proof. intros T C E. destruct (ccwv_ne C) as (M1 & M2 & M3). destruct (tri3_edges T E) as [Y|[Y|Y]]; injection Y; congruence. Qed.
  Lemma tri3_from m X p a b x : tri3 m X p a b -> ccwv p a b -> hasE m X p x -> x = a.
  Proof. intros T C E. destruct (ccwv_ne C) as (M1 & M2 & M3). destruct (tri3_edges T E) as [Y|[Y|Y]]; injection Y; congruence. Qed.

  Lemma flip_step m tr F0 F x q : wf m -> cap m = cap m0 -> trOk tr F0 -> frontS tr F0 F m -> fqueue F = x :: q ->
    exists m' F', flip m x = Ok m' /\ wf m' /\ frontS tr F0 F' m' /\ fqueue F' = q /\ chg m m' (tv tr) (tv tr :: tu tr).
  Proof.
    intros W EC K P Q. destruct (fqueue_cons F Q) as (F1 & a & b & T & o & c & l & r & F2 & EF & -> & ->).
    set (p := tv tr) in *. set (F' := F1 ++ (a, c, l) :: (c, b, r) :: F2).
    assert (OK := f_ok P). fold p in OK. rewrite EF in OK. apply Forall_app in OK. destruct OK as (OK1 & OK2).
    inversion OK2 as [|? ? OKe OK3]; subst x l0. clear OK2.
    destruct (fentOk_node D OKe) as (OKl & OKr & rT0 & ET0 & Ho & Ea & Eb & Ec).
    assert (ccwv p a c /\ ccwv p c b) as (Ca & Cb) by (split; [apply OKl|apply OKr]).
    assert (Ie : In (a, b, CNode T o c l r) F) by (rewrite EF; apply in_app_iff; cbn; auto).
    destruct (f_tri P _ _ _ Ie) as (S & TS). fold p in TS.
    assert (TP : In T (fpend F)).
    { unfold fpend. apply in_flat_map. eexists; split; [apply Ie|]. cbn [snd]. rewrite nodes_node. left; auto. }
    assert (VT := f_pend P T TP). rewrite (@vxs_tm _ _ _ ET0) in VT. apply vxs_some in VT. destruct VT as (rT & ET & EvT).
    destruct (tri3_rot (tri3_rot TS)) as (f & so & EfS & Hso & Sb & Sp & Sa). apply vxs_some in EfS. destruct EfS as (rS & ES & <-).
    assert (NDV : NoDup (fverts F)) by (apply (Permutation_NoDup (Permutation_sym (f_perm P))); rewrite (t_u K); apply (c_nd (t_cav K))).
    assert (NDE : NoDup (fends F ++ flat_map (fun e => ino (snd e)) F)) by (apply (Permutation_NoDup (fverts_perm F)); auto).
    assert (Ic : In c (flat_map (fun e => ino (snd e)) F)).
    { apply in_flat_map. eexists; split; [apply Ie|]. cbn. apply in_app_iff. cbn. auto. }
    assert (Nc : ~ In c (fends F)).
    { intros I. clear - NDE I Ic. induction (fends F) as [|y L IH]; [destruct I|]. cbn in NDE. inversion NDE; subst.
      destruct I as [->|I]; auto. apply H1. apply in_app_iff. auto. }
    assert (EvS : forall i, vx rS i = vx rS i) by auto.
    destruct (@flip_ok vp vok hull HL m T o S so rT rS false W ET ES Ho Hso) as (m' & Em & W' & FL).
    { rewrite EvT, Eb, Sb. auto. }
    { rewrite EvT, Ea, Sa. auto. }
    { rewrite EvT, Ea, Ec, Sp. auto. }
    { rewrite EvT, Eb, Ec, Sp. auto. }
    { rewrite EvT, Ec, Sp. intros t Q'. apply Nc. apply (f_from P Q'). }
    { rewrite EvT, Ec, Sp. intros t Q'. apply Nc. apply (f_to P Q'). }
    exists m', F'. split; auto. split; auto.
    assert (HbE : vx rS so = vx rT (m2 o)) by (rewrite EvT, Eb, Sb; auto).
    assert (HaE : vx rS (m2 so) = vx rT o) by (rewrite EvT, Ea, Sa; auto).
    assert (tT' : tri3 m' T p c b).
    { pose proof (flip_tT' Ho FL) as Z. rewrite EvT, Eb, Ec, Sp in Z. exact Z. }
    assert (tS' : tri3 m' S p a c).
    { pose proof (flip_tS' Hso HaE FL) as Z. rewrite EvT, Ea, Ec, Sp in Z. exact Z. }
    destruct FL as (FL1 & _ & _ & FL4 & FL5).
    assert (tT : tri3 m T b a c).
    { apply (same_tri3 _ _ _ (f_pend P T TP)). rewrite <- Ea, <- Eb, <- Ec. apply rec_tri; auto. }
    assert (pT : forall x y, hasE m T x y -> x <> p /\ y <> p).
    { intros x y E. apply (same_hasE _ _ (f_pend P T TP)) in E. apply (p_fresh K E). }
    assert (TneS : T <> S).
    { intros E. destruct (tri3_hasE TS) as (Q' & _). rewrite <- E in Q'. apply pT in Q'. tauto. }
    destruct (tri3_hasE tT') as (Tpc & Tcb & Tbp). destruct (tri3_hasE tS') as (Spa & Sac & Scp). destruct (tri3_hasE TS) as (Spa0 & Sab0 & Sbp0).
    assert (EE : fends F' = fends F1 ++ c :: b :: fends F2) by (unfold F', fends; rewrite map_app; reflexivity).
    assert (EE0 : fends F = fends F1 ++ b :: fends F2) by (rewrite EF; unfold fends; rewrite map_app; reflexivity).
    assert (SubE : forall x, In x (fends F) -> In x (fends F')).
    { intros x. rewrite EE, EE0, !in_app_iff. cbn. tauto. }
    assert (InC : In c (fends F')) by (rewrite EE, in_app_iff; cbn; auto).
    assert (EP : fpend F' = fpend F1 ++ nodes l ++ nodes r ++ fpend F2).
    { unfold F', fpend. rewrite flat_map_app. reflexivity. }
    assert (EP0 : fpend F = fpend F1 ++ T :: nodes l ++ nodes r ++ fpend F2).
    { rewrite EF. unfold fpend. rewrite flat_map_app. cbn [flat_map snd]. rewrite nodes_node. cbn. rewrite app_assoc. reflexivity. }
    assert (NDP := f_nd P). rewrite EP0 in NDP. apply NoDup_remove in NDP. rewrite <- EP in NDP. destruct NDP as (NDP & NTP).
    assert (SubP : forall X, In X (fpend F') -> In X (fpend F) /\ X <> T).
    { intros X HX. split; [|intros ->; auto]. rewrite EP0. rewrite EP in HX. rewrite in_app_iff in *. cbn. tauto. }
    assert (SubP' : forall X, In X (fpend F) -> X = T \/ In X (fpend F')).
    { intros X HX. rewrite EP0 in HX. rewrite EP. rewrite in_app_iff in *. cbn in HX. destruct HX as [HX|[HX|HX]]; auto. }
    assert (PermV : Permutation (fverts F') (fverts F)).
    { rewrite !fverts_perm, EE, EE0. rewrite EF. unfold F'. rewrite !flat_map_app. cbn [flat_map snd ino].
      rewrite <- !app_assoc. apply Permutation_app_head.
      clear. generalize (flat_map (fun e : nat * nat * ctree => ino (snd e)) F1) (flat_map (fun e : nat * nat * ctree => ino (snd e)) F2) (ino l) (ino r).
      intros X1 X2 X3 X4. change ((c :: b :: fends F2) ++ X1 ++ X3 ++ X4 ++ X2) with (c :: (b :: fends F2) ++ X1 ++ X3 ++ X4 ++ X2).
      generalize (b :: fends F2). intros X5. cbn [app]. rewrite !app_assoc. rewrite <- (app_assoc _ X4 X2). apply Permutation_middle. }
    split; [constructor|split].
    - unfold F'. fold p. apply Forall_app. split; auto.
    - rewrite PermV. apply (f_perm P).
    - exact NDP.
    - intros X HX. apply (f_incl P). apply SubP; auto.
    - intros X HX. destruct (SubP X HX) as (HX' & NX). rewrite <- (f_pend P X HX'). apply FL4; auto.
      intros ->. apply (same_hasE _ _ (f_pend P S HX')) in Spa0. apply (p_fresh K) in Spa0. unfold p in Spa0. tauto.
    - intros X HX HX'. fold p. destruct (Nat.eq_dec X T) as [->|NT]; [eauto|]. destruct (Nat.eq_dec X S) as [->|NS]; [eauto|].
      destruct (f_done P HX) as (x & E).
      + intros I. destruct (SubP' X I); auto.
      + exists x. apply (same_hasE _ _ (FL4 X NT NS)). auto.
    - intros a' b' t I. fold p. unfold F' in I. rewrite in_app_iff in I.
      assert (Old : In (a', b', t) F1 \/ In (a', b', t) F2 -> exists S, tri3 m' S p a' b').
      { intros I'. assert (I2 : In (a', b', t) F) by (rewrite EF, in_app_iff; cbn; tauto).
        destruct (f_tri P _ _ _ I2) as (S' & TS'). fold p in TS'. exists S'.
        assert (N1 : S' <> T). { intros ->. destruct (tri3_hasE TS') as (Q' & _). apply pT in Q'. tauto. }
        assert (N2 : S' <> S).
        { intros ->. assert (Eb' : b' = b).
          { destruct (tri3_hasE TS') as (Q1 & _ & Q3). destruct (ccwv_ne (w_ccw W TS)) as (M1 & M2 & M3).
            destruct (tri3_edges TS Q3) as [Y|[Y|Y]]; injection Y; intros; congruence. }
          subst b'. assert (NE : NoDup (fends F)).
          { clear - NDE. induction (fends F) as [|y L IH]; [constructor|]. cbn in NDE. inversion NDE; subst. constructor; auto. intros I. apply H1. apply in_app_iff; auto. }
          rewrite EE0 in NE. apply NoDup_remove_2 in NE. apply NE. apply in_app_iff.
          destruct I' as [I'|I']; [left|right]; apply (in_map (fun e : fent => snd (fst e))) in I'; exact I'. }
        apply (same_tri3 _ _ _ (FL4 S' N1 N2)). auto. }
      destruct I as [I|[I|[I|I]]]; auto; injection I as <- <- <-; eauto.
    - intros X x E. fold p in E. destruct (Nat.eq_dec X T) as [->|NT]; [|destruct (Nat.eq_dec X S) as [->|NS]].
      + rewrite (tri3_to tT' Cb E). apply SubE. apply (f_to P Sbp0).
      + rewrite (tri3_to tS' Ca E). auto.
      + apply SubE. apply (f_to P (X := X)). apply (same_hasE _ _ (FL4 X NT NS)). auto.
    - intros X x E. fold p in E. destruct (Nat.eq_dec X T) as [->|NT]; [|destruct (Nat.eq_dec X S) as [->|NS]].
      + rewrite (tri3_from tT' Cb E). auto.
      + rewrite (tri3_from tS' Ca E). apply SubE. apply (f_from P Spa0).
      + apply SubE. apply (f_from P (X := X)). apply (same_hasE _ _ (FL4 X NT NS)). auto.
    - reflexivity.
    - assert (InV : forall x, In x (fends F') -> In x (p :: tu tr)).
      { intros x I. right. apply fends_verts in I. apply (Permutation_in x PermV) in I. apply (Permutation_in x (f_perm P)). auto. }
      assert (Ia : In a (p :: tu tr)) by (apply InV, SubE, (f_from P Spa0)).
      assert (Ib : In b (p :: tu tr)) by (apply InV, SubE, (f_to P Sbp0)).
      constructor; auto.
      + exists [T; S]. split.
        * intros X HX. cbn in HX. apply FL4; intuition.
        * intros X HX. cbn in HX. destruct HX as [<-|[<-|[]]].
          -- split; [right; split; [apply (tri3_alive tT)|]|split; [eauto|]].
             ++ intros x y E. destruct (tri3_edges tT E) as [Y|[Y|Y]]; injection Y as -> ->; auto.
             ++ intros x y E. destruct (tri3_edges tT' E) as [Y|[Y|Y]]; injection Y as -> ->; cbn; auto. apply InV; auto.
          -- split; [right; split; [apply (tri3_alive TS)|]|split; [eauto|]].
             ++ intros x y E. destruct (tri3_edges TS E) as [Y|[Y|Y]]; injection Y as -> ->; auto. cbn; auto.
             ++ intros x y E. destruct (tri3_edges tS' E) as [Y|[Y|Y]]; injection Y as -> ->; cbn; auto. apply InV; auto.
      + intros v. destruct (FL5 v) as [E|(Hv & E)]; auto. right. rewrite EvT, Ea, Eb in Hv. split; [destruct Hv as [->| ->]; auto|].
        destruct E as [E|E]; eexists; split; eauto; [apply (tri3_alive tT')|apply (tri3_alive tS')].
  Qed.

  (** *** The invariant of a round *)
  Definition begun (c : pc) : Prop := match c with PFlip _ | PDone false => True | _ => False end.
  Definition TI (m : mesh) (R : nat -> option nat) (l : thr) : Prop :=
    let '(tr, c) := l in
    exists F0, trOk tr F0 /\
      match c with
      | PCheck us flag =>
        (winner tr -> preS tr F0 m) /\
        (exists dn, tu tr = dn ++ us /\
          if flag then exists u, In u dn /\ R0 u <> Some (vid (tv tr)) else forall u, In u dn -> R0 u = Some (vid (tv tr))) /\
        (forall u, In u us -> R0 u = Some (vid (tv tr)) -> R u = Some (vid (tv tr)))
      | PSplit => winner tr /\ preS tr F0 m
      | PFlip q => winner tr /\ exists F, frontS tr F0 F m /\ q = fqueue F
      | PDone true => ~ winner tr
      | PDone false => winner tr /\ exists F, frontS tr F0 F m /\ fqueue F = []
      end.
  Record RI (ls : list thr) (s : mesh * (nat -> option nat)) : Prop := {
    i_map : map fst ls = trs;
    i_wf : wf (fst s);
    i_cap : cap (fst s) = cap m0;
    i_TI : forall j l, nth_error ls j = Some l -> TI (fst s) (snd s) l;
    i_R1 : forall u, snd s u = R0 u \/ snd s u = None;
    i_R2 : forall u x, snd s u = Some x -> exists j tr us f, nth_error ls j = Some (tr, PCheck us f) /\ In u us /\ vid (tv tr) = x;
    i_X : forall X, vxs (fst s) X = vxs m0 X \/ exists j tr c x, nth_error ls j = Some (tr, c) /\ begun c /\ hasE (fst s) X (tv tr) x;
    i_al : forall X, alive m0 X -> alive (fst s) X;
    i_vt : forall v, (ins v \/ bnd v) \/ (exists j tr c, nth_error ls j = Some (tr, c) /\ begun c /\ tv tr = v) ->
      exists X, vt (fst s) v = Some X /\ alive (fst s) X;
    i_fr : forall v, v < n -> ~ ins v -> (forall j tr c, nth_error ls j = Some (tr, c) -> begun c -> tv tr <> v) -> fresh (fst s) v;
    i_new : forall j tr c, nth_error ls j = Some (tr, c) -> begun c -> alive (fst s) (2 * tv tr) /\ alive (fst s) (2 * tv tr + 1);
  }.

  Lemma ls_in ls s j tr c : RI ls s -> nth_error ls j = Some (tr, c) -> In tr trs /\ nth_error (map tv trs) j = Some (tv tr).
  Proof.
    intros I E. rewrite <- (i_map I). split.
    - apply in_map_iff. exists (tr, c). split; auto. eapply nth_error_In; eauto.
    - rewrite map_map. apply (map_nth_error (fun x : thr => tv (fst x)) j ls) in E. exact E.
  Qed.
  Arguments ls_in {ls s j tr c} _ _.
  Lemma ls_inj ls s j tr c j' tr' c' : RI ls s -> nth_error ls j = Some (tr, c) -> nth_error ls j' = Some (tr', c') -> tv tr = tv tr' -> j = j'.
  Proof.
    intros I E E' H. destruct (ls_in I E) as (_ & Q). destruct (ls_in I E') as (_ & Q'). rewrite <- H in Q'.
    apply (proj1 (NoDup_nth_error (map tv trs)) Hnd); [|congruence].
    apply nth_error_Some. rewrite Q. discriminate.
  Qed.

  Arguments ls_inj {ls s j tr c j' tr' c'} _ _ _ _.

  Lemma win_disj ls s j tr c j' tr' c' F0 : RI ls s -> nth_error ls j = Some (tr, c) -> nth_error ls j' = Some (tr', c') -> j <> j' ->
    winner tr -> trOk tr F0 -> winner tr' -> trOk tr' F0 \/ (exists F0', trOk tr' F0') ->
    ~ In (tv tr') (tv tr :: tu tr) /\ forall u, In u (tu tr') -> ~ In u (tv tr :: tu tr).
  Proof.
    intros I E E' N H K H' K'. assert (K2 : exists F, trOk tr' F) by (destruct K' as [K'|K']; eauto). destruct K2 as (F' & K2).
    destruct (ls_in I E) as (Q1 & _). destruct (ls_in I E') as (Q2 & _).
    assert (NE : tv tr <> tv tr') by (intros Q; apply N; eapply ls_inj; eauto).
    split.
    - intros [Q|Q]; auto. rewrite (t_u K) in Q. apply (c_ib (t_cav K)) in Q. pose proof (t_n K2). pose proof (t_new K2).
      destruct Q as [Q|Q]; auto. unfold DelCav.bnd in Q. lia.
    - intros u Hu [Q|Q].
      + subst u. rewrite (t_u K2) in Hu. apply (c_ib (t_cav K2)) in Hu. pose proof (t_n K). pose proof (t_new K).
        destruct Hu as [Hu|Hu]; auto. unfold DelCav.bnd in Hu. lia.
      + apply NE. apply Hvid; auto. specialize (H u Q). specialize (H' u Hu). congruence.
  Qed.

  Lemma nth_upd (ls : list thr) i l l' j x : nth_error ls i = Some l -> nth_error (upd i l' ls) j = Some x ->
    j = i /\ x = l' \/ j <> i /\ nth_error ls j = Some x.
  Proof.
    intros E H. destruct (Nat.eq_dec j i) as [->|N].
    - rewrite nth_error_upd_eq in H by (apply nth_error_Some; congruence). left. split; congruence.
    - rewrite nth_error_upd_neq in H by auto. auto.
  Qed.
  Lemma map_upd (ls : list thr) i tr c c' : nth_error ls i = Some (tr, c) -> map fst (upd i (tr, c') ls) = map fst ls.
  Proof.
    revert i. induction ls as [|x ls IH]; intros [|i]; cbn; try discriminate.
    - intros E. injection E as ->. reflexivity.
    - intros E. f_equal. auto.
  Qed.

  Arguments nth_upd {ls i l l' j x} _ _.
  Arguments map_upd {ls i tr c} c' _.
  Arguments win_disj {ls s j tr c j' tr' c' F0} _ _ _ _ _ _ _ _.

  (** A step that leaves the mesh alone *)
  Lemma keep_step ls m R i tr c c' R' : RI ls (m, R) -> nth_error ls i = Some (tr, c) ->
    (begun c <-> begun c') -> TI m R' (tr, c') ->
    (forall u, R' u = R u \/ R' u = None /\ R u = Some (vid (tv tr))) ->
    (forall u us f, c = PCheck us f -> In u us -> R' u = Some (vid (tv tr)) -> exists us' f', c' = PCheck us' f' /\ In u us') ->
    RI (upd i (tr, c') ls) (m, R').
  Proof.
    intros I E Hb HT HR HU.
    assert (Li : i < length ls) by (apply nth_error_Some; congruence).
    assert (Up : forall j tr' c'', nth_error (upd i (tr, c') ls) j = Some (tr', c'') -> begun c'' -> exists c3, nth_error ls j = Some (tr', c3) /\ begun c3).
    { intros j tr' c'' Q B. destruct (nth_upd E Q) as [(-> & Q')|(N & Q')]; [|eauto].
      injection Q' as -> ->. exists c. split; auto. apply Hb; auto. }
    assert (Dn : forall j tr' c'', nth_error ls j = Some (tr', c'') -> begun c'' -> exists c3, nth_error (upd i (tr, c') ls) j = Some (tr', c3) /\ begun c3).
    { intros j tr' c'' Q B. destruct (Nat.eq_dec j i) as [->|N].
      - rewrite E in Q. injection Q as <- <-. exists c'. rewrite nth_error_upd_eq by auto. split; auto. apply Hb; auto.
      - exists c''. rewrite nth_error_upd_neq by auto. auto. }
    constructor; cbn [fst snd].
    - rewrite (map_upd _ E). apply (i_map I).
    - apply (i_wf I).
    - apply (i_cap I).
    - intros j l Q. destruct (nth_upd E Q) as [(-> & ->)|(N & Q')]; auto.
      pose proof (i_TI I j Q') as Z. cbn [fst snd] in Z. destruct l as [tr' c'']. destruct Z as (F0 & K & Z). exists F0. split; auto.
      destruct c''; auto. destruct Z as (Z1 & Z2 & Z3). split; auto. split; auto. intros u Hu Hu'. specialize (Z3 u Hu Hu').
      destruct (HR u) as [->|(_ & Q3)]; auto. exfalso. rewrite Q3 in Z3. injection Z3 as Z3. apply N. symmetry.
      apply (ls_inj I E Q'). apply Hvid; auto; eapply ls_in; eauto.
    - intros u. destruct (i_R1 I u) as [Q|Q]; cbn in Q; destruct (HR u) as [->|(Q2 & _)]; auto.
    - intros u x Q. assert (Q' : R u = Some x) by (destruct (HR u) as [Q'|(Q' & _)]; congruence).
      destruct (i_R2 I u Q') as (j & tr' & us & f & Ej & Hu & Hx). destruct (Nat.eq_dec j i) as [->|N].
      + rewrite E in Ej. injection Ej as <- ->. rewrite <- Hx in Q. destruct (HU u us f eq_refl Hu Q) as (us' & f' & -> & Hu').
        exists i, tr, us', f'. rewrite nth_error_upd_eq by auto. auto.
      + exists j, tr', us, f. rewrite nth_error_upd_neq by auto. auto.
    - intros X. destruct (i_X I X) as [Q|(j & tr' & c'' & x & Q & B & Q3)]; auto. right.
      destruct (Dn _ _ _ Q B) as (c3 & Q4 & Q5). exists j, tr', c3, x. auto.
    - apply (i_al I).
    - intros v Hv. apply (i_vt I). destruct Hv as [Hv|(j & tr' & c'' & Q & B & Hv)]; auto. right.
      destruct (Up _ _ _ Q B) as (c3 & Q4 & Q5). exists j, tr', c3. auto.
    - intros v Hn Hv H. apply (i_fr I); auto. intros j tr' c'' Q B. destruct (Dn _ _ _ Q B) as (c3 & Q4 & Q5). eapply H; eauto.
    - intros j tr' c'' Q B. destruct (Up _ _ _ Q B) as (c3 & Q4 & Q5). apply (i_new I _ Q4 Q5).
  Qed.

  Arguments keep_step {ls m R i tr c c' R'} _ _ _ _ _ _.

  (** A step of a winner on the mesh *)
  Lemma mesh_step ls m R i tr c c' m' F0 : RI ls (m, R) -> nth_error ls i = Some (tr, c) -> trOk tr F0 -> winner tr ->
    wf m' -> chg m m' (tv tr) (tv tr :: tu tr) -> begun c' -> TI m' R (tr, c') ->
    (forall us f, c <> PCheck us f) ->
    (begun c \/ alive m' (2 * tv tr) /\ alive m' (2 * tv tr + 1) /\ exists X, vt m' (tv tr) = Some X /\ alive m' X) ->
    RI (upd i (tr, c') ls) (m', R).
  Proof.
    intros I E K Wn W' H Hb HT Hc Hnew.
    assert (Li : i < length ls) by (apply nth_error_Some; congruence).
    assert (Dn : forall j tr' c'', nth_error ls j = Some (tr', c'') -> begun c'' -> exists c3, nth_error (upd i (tr, c') ls) j = Some (tr', c3) /\ begun c3).
    { intros j tr' c'' Q B. destruct (Nat.eq_dec j i) as [->|N].
      - rewrite E in Q. injection Q as <- <-. exists c'. rewrite nth_error_upd_eq by auto. auto.
      - exists c''. rewrite nth_error_upd_neq by auto. auto. }
    assert (Oth : forall j tr' c'', j <> i -> nth_error ls j = Some (tr', c'') -> winner tr' -> (exists F, trOk tr' F) ->
      ~ In (tv tr') (tv tr :: tu tr) /\ forall u, In u (tu tr') -> ~ In u (tv tr :: tu tr)).
    { intros j tr' c'' N Q Wn' K'. apply (win_disj I E Q (not_eq_sym N) Wn K Wn'). auto. }
    assert (Vt : forall v X, vt m v = Some X -> alive m X -> exists X', vt m' v = Some X' /\ alive m' X').
    { intros v X Q A. destruct (h_vt H v) as [Q'|(_ & Q')]; auto. exists X. split; [congruence|]. apply (chg_alive H); auto. }
    constructor; cbn [fst snd].
    - rewrite (map_upd _ E). apply (i_map I).
    - auto.
    - rewrite (h_cap H). apply (i_cap I).
    - intros j l Q. destruct (nth_upd E Q) as [(-> & ->)|(N & Q')]; auto.
      pose proof (i_TI I j Q') as Z. cbn [fst snd] in Z. destruct l as [tr' c'']. destruct Z as (F & K' & Z). exists F. split; auto.
      destruct c''.
      + destruct Z as (Z1 & Z2 & Z3). split; [|split]; auto. intros Wn'.
        destruct (Oth _ _ _ N Q' Wn' (ex_intro _ F K')). apply (chg_pre H); auto.
      + destruct Z as (Wn' & Z). destruct (Oth _ _ _ N Q' Wn' (ex_intro _ F K')). split; auto. apply (chg_pre H); auto.
      + destruct Z as (Wn' & F' & Z & Z'). destruct (Oth _ _ _ N Q' Wn' (ex_intro _ F K')). split; auto.
        exists F'. split; auto. apply (chg_front H); auto.
      + destruct flag; auto. destruct Z as (Wn' & F' & Z & Z'). destruct (Oth _ _ _ N Q' Wn' (ex_intro _ F K')). split; auto.
        exists F'. split; auto. apply (chg_front H); auto.
    - apply (i_R1 I).
    - intros u x Q. destruct (i_R2 I u Q) as (j & tr' & us & f & Ej & Hu & Hx). destruct (Nat.eq_dec j i) as [->|N].
      + rewrite E in Ej. injection Ej as <- ->. exfalso. eapply Hc; eauto.
      + exists j, tr', us, f. rewrite nth_error_upd_neq by auto. auto.
    - intros X. destruct (h_C H) as (C & H1 & H2). destruct (in_dec Nat.eq_dec X C) as [IC|IC].
      + right. destruct (H2 X IC) as (_ & (x & Q) & _). exists i, tr, c', x. rewrite nth_error_upd_eq by auto. auto.
      + pose proof (H1 X IC) as S. rewrite S. destruct (i_X I X) as [Q|(j & tr' & c'' & x & Q & B & Q3)]; auto. right.
        destruct (Dn _ _ _ Q B) as (c3 & Q4 & Q5). exists j, tr', c3, x. split; auto. split; auto. apply (same_hasE _ _ S). auto.
    - intros X A. apply (chg_alive H). apply (i_al I). auto.
    - intros v [Hv|(j & tr' & c'' & Q & B & Hv)].
      + destruct (i_vt I (or_introl Hv)) as (X & Q1 & Q2). eapply Vt; eauto.
      + destruct (nth_upd E Q) as [(-> & Q')|(N & Q')].
        * injection Q' as -> ->. destruct Hnew as [B0|(_ & _ & Z)]; [|rewrite <- Hv; auto].
          destruct (i_vt I (v := v)) as (X & Q1 & Q2); [right; exists i, tr, c; auto|]. eapply Vt; eauto.
        * destruct (i_vt I (v := v)) as (X & Q1 & Q2); [right; exists j, tr', c''; auto|]. eapply Vt; eauto.
    - intros v Hn Hv Hj.
      assert (Nv : v <> tv tr). { intros ->. apply (Hj i tr c'); auto. rewrite nth_error_upd_eq by auto. auto. }
      apply (chg_fresh H); auto.
      + intros [Q|Q]; auto. rewrite (t_u K) in Q. apply (c_ib (t_cav K)) in Q. destruct Q as [Q|Q]; auto. unfold DelCav.bnd in Q. lia.
      + apply (i_fr I); auto. intros j tr' c'' Q B. destruct (Dn _ _ _ Q B) as (c3 & Q4 & Q5). eapply Hj; eauto.
    - intros j tr' c'' Q B. destruct (nth_upd E Q) as [(-> & Q')|(N & Q')].
      + injection Q' as -> ->. destruct Hnew as [B0|(Z1 & Z2 & _)]; auto.
        destruct (i_new I _ E B0). split; apply (chg_alive H); auto.
      + destruct (i_new I _ Q' B). split; apply (chg_alive H); auto.
  Qed.

  Arguments mesh_step {ls m R i tr c c' m' F0} _ _ _ _ _ _ _ _ _ _.

  Lemma step_ok ls s i l : RI ls s -> nth_error ls i = Some l -> pcFin l = false ->
    exists l' s', insStep vid l s = Ok (l', s') /\ RI (upd i l' ls) s'.
  Proof.
    intros I E Hf. destruct s as [m R]. destruct l as [tr c]. pose proof (i_TI I i E) as Z. cbn [fst snd] in Z. destruct Z as (F0 & K & Z).
    pose proof (i_wf I) as W. pose proof (i_cap I) as EC. cbn [fst] in W, EC.
    assert (NDu : NoDup (tu tr)) by (rewrite (t_u K); apply (c_nd (t_cav K))).
    destruct c as [us flag| |q|flag]; cbn [insStep].
    - destruct Z as (Zp & (dn & Eu & Zd) & Zr). destruct us as [|u us].
      + rewrite app_nil_r in Eu. destruct flag; eexists; eexists; (split; [reflexivity|]).
        * apply (keep_step I E); auto.
          -- cbn. tauto.
          -- exists F0. split; auto. intros Wn. destruct Zd as (u & Hu & N). apply N, Wn. rewrite Eu. auto.
          -- intros u us f Q. injection Q as <- <-. intros [].
        * assert (Wn : winner tr) by (intros u Hu; apply Zd; rewrite <- Eu; auto).
          apply (keep_step I E); auto.
          -- cbn. tauto.
          -- exists F0. auto.
          -- intros u us f Q. injection Q as <- <-. intros [].
      + assert (Eu' : tu tr = (dn ++ [u]) ++ us) by (rewrite <- app_assoc; auto).
        assert (Nu : ~ In u us).
        { rewrite Eu in NDu. apply NoDup_remove_2 in NDu. intros Q. apply NDu. apply in_app_iff. auto. }
        destruct (isT (R u) (vid (tv tr))) eqn:ET; eexists; eexists; (split; [reflexivity|]).
        * assert (Ru : R u = Some (vid (tv tr))).
          { destruct (R u); cbn in ET; [|discriminate]. apply Nat.eqb_eq in ET. congruence. }
          assert (Ru0 : R0 u = Some (vid (tv tr))) by (destruct (i_R1 I u) as [Q|Q]; cbn in Q; congruence).
          apply (keep_step I E); auto.
          -- cbn. tauto.
          -- exists F0. split; auto. split; auto. split.
             ++ exists (dn ++ [u]). split; auto. destruct flag.
                ** destruct Zd as (x & Hx & N). exists x. rewrite in_app_iff. auto.
                ** intros x Hx. rewrite in_app_iff in Hx. destruct Hx as [Hx|[<-|[]]]; auto.
             ++ intros x Hx Hx'. unfold fset. destruct (Nat.eqb_spec x u) as [->|_]; [tauto|]. apply Zr; cbn; auto.
          -- intros x. unfold fset. destruct (Nat.eqb_spec x u) as [->|_]; auto.
          -- intros x us' f Q Hx Rx. injection Q as <- <-. exists us, flag. split; auto. destruct Hx as [<-|Hx]; auto.
             unfold fset in Rx. rewrite Nat.eqb_refl in Rx. discriminate.
        * assert (Ru : R u <> Some (vid (tv tr))).
          { intros Q. rewrite Q in ET. cbn in ET. rewrite Nat.eqb_refl in ET. discriminate. }
          assert (Ru0 : R0 u <> Some (vid (tv tr))) by (intros Q; apply Ru, Zr; cbn; auto).
          apply (keep_step I E); auto.
          -- cbn. tauto.
          -- exists F0. split; auto. split; auto. split.
             ++ exists (dn ++ [u]). split; auto. exists u. rewrite in_app_iff. cbn. auto.
             ++ intros x Hx. apply Zr. cbn. auto.
          -- intros x us' f Q Hx Rx. injection Q as <- <-. exists us, true. split; auto. destruct Hx as [<-|Hx]; auto. tauto.
    - destruct Z as (Wn & Zp).
      assert (Fr : fresh m (tv tr)).
      { apply (i_fr I); [apply (t_n K)|apply (t_new K)|]. intros j tr' c' Q B Q'. rewrite <- (ls_inj I E Q (eq_sym Q')) in Q.
        rewrite E in Q. injection Q as <- <-. destruct B. }
      destruct (split_step W EC K Zp Fr) as (m' & Em & W' & FS & H & A1 & A2 & AX). rewrite (proj1 Fr), Em. cbn [bind].
      eexists; eexists; (split; [reflexivity|]). apply (mesh_step I E K); auto.
      + cbn. auto.
      + exists F0. split; auto. split; auto. exists F0. split; auto. apply (t_q K).
      + discriminate.
    - destruct Z as (Wn & F & FS & ->). destruct (fqueue F) as [|x q] eqn:EQ.
      + eexists; eexists; (split; [reflexivity|]). apply (keep_step I E); auto.
        * cbn. tauto.
        * exists F0. split; auto. split; auto. exists F. auto.
        * discriminate.
      + destruct (flip_step W EC K FS EQ) as (m' & F' & Em & W' & FS' & EQ' & H). rewrite Em. cbn [bind].
        eexists; eexists; (split; [reflexivity|]). apply (mesh_step I E K); auto.
        * cbn. auto.
        * exists F0. split; auto. split; auto. exists F'. auto.
        * discriminate.
        * left. cbn. auto.
    - cbn in Hf. discriminate.
  Qed.

  Definition start : list thr := map (fun tr => (tr, PCheck (tu tr) false)) trs.
  Lemma start_nth j tr c : nth_error start j = Some (tr, c) -> In tr trs /\ c = PCheck (tu tr) false.
  Proof.
    intros E. apply nth_error_In in E. unfold start in E. apply in_map_iff in E. destruct E as (tr' & Q & H). injection Q as -> <-. auto.
  Qed.
  Lemma init_RI : RI start (m0, R0).
  Proof.
    constructor; cbn [fst snd].
    - unfold start. rewrite map_map. cbn. apply map_id.
    - exact W0.
    - reflexivity.
    - intros j [tr c] E. apply start_nth in E. destruct E as (H & ->). destruct (Htr _ H) as (F0 & K). exists F0. split; auto. split; [|split].
      + intros _. split; auto. intros X x E. destruct (p_fresh K E). tauto.
      + exists []. split; auto. intros u [].
      + auto.
    - auto.
    - intros u x E. destruct (R0_from E) as (tr & H & Hu & Hx). apply In_nth_error in H. destruct H as (j & H).
      exists j, tr, (tu tr), false. split; auto. unfold start. apply (map_nth_error (fun tr => (tr, PCheck (tu tr) false)) j trs H).
    - auto.
    - auto.
    - intros v [Hv|(j & tr & c & E & B & _)]; [apply (g_vt G0); auto|]. apply start_nth in E. destruct E as (_ & ->). destruct B.
    - intros v Hn Hv _. apply (g_fresh G0); auto.
    - intros j tr c E B. apply start_nth in E. destruct E as (_ & ->). destruct B.
  Qed.

  (** The weight of what a thread still has to do *)
  Definition weight (l : thr) : nat :=
    match snd l with
    | PCheck us _ => length us + length (tq (fst l)) + 3
    | PSplit => length (tq (fst l)) + 2
    | PFlip q => length q + 1
    | PDone _ => 0
    end.
  Definition meas (ls : list thr) (s : mesh * (nat -> option nat)) (k : nat) : Prop := k = list_sum (map weight ls).
  Lemma sum_upd ls i l l' : nth_error ls i = Some l -> weight l' < weight l -> list_sum (map weight (upd i l' ls)) < list_sum (map weight ls).
  Proof.
    revert i. induction ls as [|x ls IH]; intros [|i]; cbn [nth_error upd map list_sum fold_right]; try discriminate.
    - intros E H. injection E as ->. lia.
    - intros E H. specialize (IH i E H). unfold list_sum in *. lia.
  Qed.
  Lemma meas_step ls s i l l' s' k : RI ls s -> nth_error ls i = Some l -> pcFin l = false -> insStep vid l s = Ok (l', s') ->
    meas ls s k -> exists k', meas (upd i l' ls) s' k' /\ k' < k.
  Proof.
    intros _ E Hf H ->. eexists. split; [reflexivity|]. apply (@sum_upd _ _ _ _ E).
    destruct l as [tr c], s as [m R]. destruct c as [[|u us] [|]| |[|x q]|fl]; cbn [insStep] in H; try discriminate Hf;
      try (destruct (isT (R u) (vid (tv tr))); injection H as <- _; cbn; lia);
      try (injection H as <- _; cbn; lia).
    - destruct (vt m (tv tr)); [|discriminate]. destruct (split m (sT (ts tr)) (tv tr) n0 (n0 + 1)) as [m'| | |]; try discriminate.
      injection H as <- _. cbn. lia.
    - destruct (flip m x) as [m'| | |]; try discriminate. injection H as <- _. cbn. lia.
  Qed.

  (** *** The end of a round *)
  Section End.
    Variable ls : list thr.
    Variable m : mesh.
    Variable R : nat -> option nat.
    Hypothesis I : RI ls (m, R).
    Hypothesis Fin : forallb pcFin ls = true.
    Definition ins' (v : nat) : Prop := ins v \/ exists l, In l ls /\ flagOf l = false /\ tv (fst l) = v.

    Lemma fin_done j tr c : nth_error ls j = Some (tr, c) -> exists fl, c = PDone fl.
    Proof.
      intros E. apply nth_error_In in E. pose proof (proj1 (forallb_forall _ _) Fin _ E) as Q. destruct c; cbn in Q; try discriminate. eauto.
    Qed.
    Lemma end_R u : R u = None.
    Proof.
      destruct (R u) as [x|] eqn:E; auto. destruct (i_R2 I u E) as (j & tr & us & f & Ej & _). destruct (fin_done _ Ej). discriminate.
    Qed.
    Lemma end_flag tr c : In (tr, c) ls -> (flagOf (tr, c) = false <-> winner tr).
    Proof.
      intros E. apply In_nth_error in E. destruct E as (j & E). destruct (fin_done _ E) as (fl & ->).
      destruct (i_TI I j E) as (F0 & K & Z). cbn. destruct fl; [|tauto]. split; [discriminate|tauto].
    Qed.
    Lemma end_win tr c : In (tr, c) ls -> flagOf (tr, c) = false -> winner tr /\ exists F0 F, trOk tr F0 /\ frontS tr F0 F m /\ fqueue F = [].
    Proof.
      intros E Hf. apply In_nth_error in E. destruct E as (j & E). destruct (fin_done _ E) as (fl & ->). cbn in Hf. subst fl.
      destruct (i_TI I j E) as (F0 & K & Wn & F & FS & EQ). eauto 10.
    Qed.

    (** Two winners: the cavities have no corner in common. *)
    Lemma win_apart tr c tr' c' u : In (tr, c) ls -> In (tr', c') ls -> flagOf (tr, c) = false -> flagOf (tr', c') = false ->
      In u (tu tr) -> In u (tu tr') -> tv tr = tv tr'.
    Proof.
      intros H H' Hf Hf' Hu Hu'. apply end_flag in Hf; auto. apply end_flag in Hf'; auto.
      apply Hvid; [| |specialize (Hf u Hu); specialize (Hf' u Hu'); congruence]; rewrite <- (i_map I); [apply (in_map fst) in H; exact H|apply (in_map fst) in H'; exact H'].
    Qed.
    Lemma win_same tr c tr' c' : In (tr, c) ls -> In (tr', c') ls -> tv tr = tv tr' -> tr = tr' /\ c = c'.
    Proof.
      intros H H' Q. apply In_nth_error in H. apply In_nth_error in H'. destruct H as (j & H), H' as (j' & H').
      rewrite (ls_inj I H H' Q) in H. rewrite H in H'. injection H' as -> ->. auto.
    Qed.

    (** Emptiness of a triangle of the old mesh with respect to a new vertex
        that is not in conflict with it *)
    Lemma old_emp T a b c v : tri3 m0 T a b c -> ins' v \/ bnd v ->
      (forall tr k, In (tr, k) ls -> flagOf (tr, k) = false -> tv tr = v -> exists u, (u = a \/ u = b \/ u = c) /\ ~ In u (tu tr)) \/
      (forall tr k, In (tr, k) ls -> flagOf (tr, k) = false -> tv tr = v -> vxs m T = vxs m0 T) ->
      (iv a b c v <= 0)%R.
    Proof.
      intros T0 Hv H. assert (Hv' : (ins v \/ bnd v) \/ exists l, In l ls /\ flagOf l = false /\ tv (fst l) = v) by (destruct Hv as [[Hv|Hv]|Hv]; auto).
      destruct Hv' as [Hv'|([tr pc0] & Hl & Hf & Ev)]; [apply (d_emp D T0); auto|].
      destruct (Rle_dec (iv a b c v) 0) as [Q|Q]; auto. exfalso. cbn in Ev. subst v.
      destruct (end_win _ _ Hl Hf) as (Wn & F0 & F & K & FS & EQ).
      assert (CF : conf vp m0 (tv tr) T) by (exists a, b, c; split; auto; lra).
      pose proof (c_all (t_cav K) (tri3_alive T0) CF) as IC. destruct (tri3_hasE T0) as (E1 & E2 & E3).
      destruct H as [H|H].
      - destruct (H _ _ Hl Hf eq_refl) as (u & Hu & N). apply N. rewrite (t_u K).
        destruct Hu as [->|[->| ->]]; [exact (proj1 (c_cor (t_cav K) IC E1))|exact (proj1 (c_cor (t_cav K) IC E2))|exact (proj1 (c_cor (t_cav K) IC E3))].
      - pose proof (H _ _ Hl Hf eq_refl) as S. destruct (f_done FS (X := T)) as (x & E); auto.
        { rewrite (proj1 (fqueue_nil _ EQ)). auto. }
        apply (same_hasE _ _ S) in E. apply (p_fresh K) in E. tauto.
    Qed.

    (** The triangles of the new mesh *)
    Lemma new_tri X : alive m X -> vxs m X = vxs m0 X \/
      exists tr c F0 a b, In (tr, c) ls /\ flagOf (tr, c) = false /\ trOk tr F0 /\ winner tr /\ tri3 m X (tv tr) a b /\
        fentOk n nb vp m0 (tv tr) (a, b, CLeaf) /\ In a (tu tr) /\ In b (tu tr).
    Proof.
      intros A. destruct (i_X I X) as [Q|(j & tr & c & x & Ej & B & E)]; auto. right. cbn [fst] in E.
      destruct (fin_done _ Ej) as (fl & ->). destruct fl; [destruct B|]. apply nth_error_In in Ej.
      destruct (end_win _ _ Ej eq_refl) as (Wn & F0 & F & K & FS & EQ). destruct (fqueue_nil _ EQ) as (_ & Lf).
      destruct (hasE_tri3 E) as (y & T). destruct (tri3_hasE T) as (_ & _ & E3).
      pose proof (f_to FS E3) as Iy. unfold fends in Iy. apply in_map_iff in Iy. destruct Iy as ([[a b] t] & Q & Ie). cbn in Q. subst b.
      pose proof (Lf _ _ _ Ie) as ->. destruct (f_tri FS _ _ _ Ie) as (S & TS). destruct (tri3_hasE TS) as (_ & _ & E3').
      pose proof (w_de (i_wf I) E3 E3') as <-.
      assert (x = a).
      { pose proof (w_ccw (i_wf I) TS) as C. apply (tri3_from TS C E). }
      subst a. exists tr, (PDone false), F0, x, y. do 5 (split; [auto|]). split; [|split].
      - exact (proj1 (Forall_forall _ _) (f_ok FS) _ Ie).
      - apply (Permutation_in x (f_perm FS)). apply fends_verts. apply (f_from FS E).
      - apply (Permutation_in y (f_perm FS)). apply fends_verts. apply (f_to FS E3).
    Qed.

    Lemma iv_rot a b c d : iv b c a d = iv a b c d.
    Proof. unfold DelCav.iv. apply incirc_rot. Qed.

    Lemma new_emp tr c F0 a b v : In (tr, c) ls -> flagOf (tr, c) = false -> trOk tr F0 -> fentOk n nb vp m0 (tv tr) (a, b, CLeaf) ->
      In a (tu tr) -> In b (tu tr) -> ins' v \/ bnd v -> (iv a b (tv tr) v <= 0)%R.
    Proof.
      intros Hl Hf K (C & CT & T & x & TT & IV) Ia Ib Hv.
      destruct (Nat.eq_dec v (tv tr)) as [->|Nv].
      { unfold DelCav.iv. rewrite incirc_c. lra. }
      assert (Ap : forall T' y y' z, tri3 m0 T' y y' z -> y = a \/ y = b -> (iv y y' z v <= 0)%R).
      { intros T' y y' z T1 Hy. apply (old_emp T1); auto. left. intros tr' c' Hl' Hf' Ev. exists y. split; auto. intros Q.
        apply Nv. rewrite <- Ev. symmetry. apply (@win_apart tr c tr' c' y); auto. destruct Hy as [->| ->]; auto. }
      assert (In1 : (iv a b x v <= 0)%R) by (apply (Ap _ _ _ _ TT); auto).
      assert (Cab : (0 < area2 (vp a) (vp b) (vp (tv tr)))%R).
      { apply ccwv_rot in C. exact C. }
      assert (Cx : (0 < area2 (vp a) (vp b) (vp x))%R) by exact (w_ccw W0 TT).
      destruct (Rle_dec 0 (area2 (vp a) (vp b) (vp v))) as [Pos|Neg].
      - apply new_empty_in with (vp x); auto.
      - assert (Neg' : (area2 (vp a) (vp b) (vp v) < 0)%R) by lra. clear Neg. inversion CT as [? ? Hh _ | ? ? d T' T1 IV' |]; subst.
        + exfalso. assert (Vv : vok v).
          { destruct Hv as [[Hv|([tr' c'] & Hl' & _ & <-)]|Hv].
            - apply (g_ins G0) in Hv. unfold DelCav.vok. lia.
            - unfold DelCav.vok. cbn. assert (In tr' trs) by (rewrite <- (i_map I); apply in_map_iff; eexists; split; [|apply Hl']; auto).
              destruct (Htr _ H) as (F' & K'). pose proof (t_n K'). lia.
            - unfold DelCav.vok, DelCav.bnd in *. lia. }
          destruct (Nat.eq_dec v a) as [->|Na]; [rewrite area2_aba in Neg'; lra|].
          destruct (Nat.eq_dec v b) as [->|Nb]; [rewrite area2_ab in Neg'; lra|].
          pose proof (hull_left GP Hh Vv Na Nb) as Q. unfold DelTopo.ccwv, DelTopo.A2 in Q. lra.
        + apply new_empty_out with (vp d); auto; try lra.
          * pose proof (w_ccw W0 T1) as Q. unfold DelTopo.ccwv, DelTopo.A2 in Q. rewrite area2_swap in Q. lra.
          * apply (Ap _ _ _ _ T1); auto.
    Qed.

    Lemma end_good : good m ins'.
    Proof.
      assert (Min : forall tr c, In (tr, c) ls -> In tr trs) by (intros tr c H; rewrite <- (i_map I); apply in_map_iff; exists (tr, c); auto).
      assert (Dec : forall v, (exists l, In l ls /\ flagOf l = false /\ tv (fst l) = v) \/ ~ (exists l, In l ls /\ flagOf l = false /\ tv (fst l) = v)).
      { intros v. destruct (existsb (fun l => negb (flagOf l) && (tv (fst l) =? v)) ls) eqn:E.
        - left. apply existsb_exists in E. destruct E as (l & H & Q). apply andb_true_iff in Q. destruct Q as (Q1 & Q2).
          apply negb_true_iff in Q1. apply Nat.eqb_eq in Q2. eauto.
        - right. intros (l & H & Q1 & Q2). assert (existsb (fun l => negb (flagOf l) && (tv (fst l) =? v)) ls = true).
          { apply existsb_exists. exists l. split; auto. rewrite Q1, Q2, Nat.eqb_refl. auto. }
          congruence. }
      constructor.
      - constructor.
        + apply (i_wf I).
        + intros X a b E. assert (A : alive m X) by (apply alive_hasE; eauto).
          destruct (new_tri A) as [S|(tr & c & F0 & x & y & Hl & Hf & K & Wn & T & _ & Ix & Iy)].
          * apply (same_hasE _ _ S) in E. destruct (d_in D E); unfold ins'; auto.
          * assert (Hx : forall x, In x (tu tr) -> ins' x \/ bnd x).
            { intros z Hz. rewrite (t_u K) in Hz. apply (c_ib (t_cav K)) in Hz. unfold ins'. tauto. }
            destruct (tri3_edges T E) as [Y|[Y|Y]]; injection Y as -> ->; auto. left. right. exists (tr, c). auto.
        + intros X a b c v T Hv. destruct (new_tri (tri3_alive T)) as [S|(tr & c' & F0 & x & y & Hl & Hf & K & Wn & T' & Fe & Ix & Iy)].
          * apply (same_tri3 _ _ _ S) in T. apply (old_emp T Hv). right. auto.
          * assert (Q : (iv x y (tv tr) v <= 0)%R) by (apply (@new_emp tr c' F0); auto).
            destruct T as (f & i & Ef & Hi & <- & <- & <-). destruct T' as (f' & i' & Ef' & Hi' & Ep & Ex & Ey).
            rewrite Ef in Ef'. injection Ef' as <-. rewrite <- Ep, <- Ex, <- Ey in Q. clear - Q Hi Hi'.
            destruct (i3_cases Hi' Hi) as [ -> | [ -> | -> ] ]; rewrite ?m1_m1, ?m1_m2, ?m2_m1, ?m2_m2 by auto.
            -- rewrite <- (iv_rot (f i')). auto.
            -- auto.
            -- rewrite iv_rot. rewrite <- iv_rot. rewrite iv_rot. auto.
        + intros X a b c T Ba Bb Bc. destruct (new_tri (tri3_alive T)) as [S|(tr & c' & F0 & x & y & Hl & Hf & K & Wn & T' & _ & Ix & Iy)].
          * apply (same_tri3 _ _ _ S) in T. destruct (d_fan D T Ba Bb Bc) as (i & H1 & H2 & H3). exists i. split; auto. split; auto.
            apply (same_tri3 _ _ _ S). auto.
          * exfalso. pose proof (t_n K). destruct (tri3_hasE T') as (E & _). unfold DelCav.bnd in *.
            destruct (tri3_edges T E) as [Y|[Y|Y]]; injection Y as Y1 Y2; lia.
      - intros v [Hv|([tr c] & Hl & _ & <-)]; [apply (g_ins G0); auto|]. destruct (Htr _ (Min _ _ Hl)) as (F0 & K). apply (t_n K).
      - pose proof (i_cap I) as Q. cbn in Q. rewrite Q. apply (g_cap G0).
      - intros v Hn Hv. apply (i_fr I); auto.
        + intros Q. apply Hv. left. auto.
        + intros j tr c E B Q. apply Hv. right. exists (tr, c). destruct (fin_done _ E) as (fl & ->). destruct fl; [destruct B|].
          apply nth_error_In in E. auto.
      - intros v Hv. apply (i_vt I). destruct Hv as [[Hv|([tr c] & Hl & Hf & Ev)]|Hv]; auto. right.
        apply In_nth_error in Hl. destruct Hl as (j & E). destruct (fin_done _ E) as (fl & ->). cbn in Hf. subst fl.
        exists j, tr, (PDone false). cbn. auto.
      - intros X HX. pose proof (i_cap I) as EC. cbn in EC. rewrite EC in HX. destruct (g_all G0 HX) as [A|(v & Hn & Hv & EX)].
        + left. apply (i_al I). auto.
        + destruct (Dec v) as [([tr c] & Hl & Hf & Ev)|N].
          * left. apply In_nth_error in Hl. destruct Hl as (j & E). destruct (fin_done _ E) as (fl & ->). cbn in Hf, Ev. subst fl.
            destruct (i_new I _ E) as (A1 & A2); [cbn; auto|]. rewrite Ev in *. destruct EX as [->| ->]; auto.
          * right. exists v. split; auto. split; auto. intros [Q|Q]; auto.
    Qed.

    (** The trial vertex with the largest id gets in. *)
    Lemma end_progress : trs <> [] -> exists l, In l ls /\ flagOf l = false.
    Proof.
      intros NE. assert (Mx : exists tr, In tr trs /\ forall tr', In tr' trs -> vid (tv tr') <= vid (tv tr)).
      { clear - NE. induction trs as [|t l IH]; [congruence|]. destruct l as [|t' l].
        - exists t. cbn. split; auto. intros tr' [->|[]]; auto.
        - destruct IH as (x & Hx & Hm); [discriminate|]. destruct (le_lt_dec (vid (tv x)) (vid (tv t))) as [Q|Q].
          + exists t. split; [left; auto|]. intros tr' [->|H]; auto. specialize (Hm _ H). lia.
          + exists x. split; [right; auto|]. intros tr' [->|H]; auto. lia. }
      destruct Mx as (tr & Hin & Hm).
      assert (Wn : winner tr).
      { intros u Hu. destruct (R0_max _ _ Hin Hu) as (x & E & Hle). destruct (R0_from E) as (tr' & H' & _ & Ex). specialize (Hm _ H').
        rewrite E. f_equal. lia. }
      pose proof Hin as Hin'. rewrite <- (i_map I) in Hin'. apply in_map_iff in Hin'. destruct Hin' as ([tr' c] & Q & H). cbn in Q. subst tr'.
      exists (tr, c). split; auto. apply end_flag; auto.
    Qed.
  End End.
End Round.
