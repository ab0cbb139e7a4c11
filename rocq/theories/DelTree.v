(** The cavity of a point: the search tree of findCavity. *)
From Coq Require Import Reals Lra.
From Verif Require Import Base Num DelModel DelGeom DelTopo DelFlip DelCav.
Set Implicit Arguments.

(** A conflicting triangle T entered at orientation o, with its far corner c. *)
Inductive ctree := CLeaf | CNode (T o c : nat) (l r : ctree).
Fixpoint pre (tr : ctree) : list simp :=
  match tr with CLeaf => [] | CNode T o c l r => (T, o, false) :: pre l ++ pre r end.
Fixpoint ino (tr : ctree) : list nat :=
  match tr with CLeaf => [] | CNode T o c l r => ino l ++ c :: ino r end.
Fixpoint apx (tr : ctree) : list (nat * nat) :=
  match tr with CLeaf => [] | CNode T o c l r => (T, c) :: apx l ++ apx r end.
Definition nodes (tr : ctree) : list nat := map fst (apx tr).

Lemma nodes_node T o c l r : nodes (CNode T o c l r) = T :: nodes l ++ nodes r.
Proof. unfold nodes. cbn. rewrite map_app. reflexivity. Qed.
Lemma apx_ino tr : Permutation (map snd (apx tr)) (ino tr).
Proof.
  induction tr as [|T o c l IHl r IHr]; cbn; auto. rewrite map_app, IHl, IHr. apply Permutation_middle.
Qed.

Lemma nd_app A (l l' : list A) : NoDup l -> NoDup l' -> (forall x, In x l -> In x l' -> False) -> NoDup (l ++ l').
Proof.
  induction 1 as [|x l Hx ND IH]; cbn; auto. intros H' H. constructor.
  - rewrite in_app_iff. intros [Q|Q]; [auto|eapply H; cbn; eauto].
  - apply IH; auto. intros y Hy Hy'. eapply H; cbn; eauto.
Qed.
Lemma nd_fst A B (l : list (A * B)) : NoDup (map snd l) -> (forall a b b', In (a, b) l -> In (a, b') l -> b = b') -> NoDup (map fst l).
Proof.
  induction l as [|[a b] l IH]; cbn; [constructor|]. intros ND H. inversion ND as [|? ? N1 N2]; subst. constructor.
  - rewrite in_map_iff. intros ([a' b'] & E & I). cbn in E. subst a'. apply N1. rewrite (H a b b'); auto. apply (in_map snd) in I. exact I.
  - apply IH; auto. intros; eapply H; eauto.
Qed.

(** A front: edges seen from p, each with the tree behind it. *)
Definition fent : Type := nat * nat * ctree.
Definition fverts (F : list fent) : list nat := flat_map (fun e => snd (fst e) :: ino (snd e)) F.
Definition fpend (F : list fent) : list nat := flat_map (fun e => nodes (snd e)) F.
Definition fqueue (F : list fent) : list simp := flat_map (fun e => pre (snd e)) F.
Definition fapx (F : list fent) : list (nat * nat) := flat_map (fun e => apx (snd e)) F.

Lemma fpend_apx F : fpend F = map fst (fapx F).
Proof. unfold fpend, fapx, nodes. induction F as [|e F IH]; cbn; auto. rewrite map_app, IH. reflexivity. Qed.

Section Tree.
  Variables n nb : nat.
  Variable vp : nat -> P2.
  Notation vok := (vok n nb).
  Notation hull := (hull n nb).
  Notation bnd := (bnd n nb).
  Notation A2 := (A2 vp).
  Notation ccwv := (ccwv vp).
  Notation wf := (wf vp vok hull).
  Notation iv := (iv vp).
  Hypothesis GP : genpos n nb vp.
  Variable m : mesh.
  Variable ins : nat -> Prop.
  Hypothesis D : dmesh n nb vp m ins.
  Variable p : nat.
  Hypothesis Hp : p < n.
  Hypothesis Np : ~ ins p.
  Let W : wf m := d_wf D.
  Notation conf := (conf vp m p).

  Inductive ctok : nat -> nat -> ctree -> Prop :=
  | ck_hull a b : hull a b -> (forall t, ~ hasE m t b a) -> ctok a b CLeaf
  | ck_leaf a b c T : tri3 m T b a c -> (iv b a c p <= 0)%R -> ctok a b CLeaf
  | ck_node a b c T o l r rT : tm m T = Some rT -> o < 3 -> vx rT o = a -> vx rT (m2 o) = b -> vx rT (m1 o) = c ->
      (0 < iv b a c p)%R -> ctok a c l -> ctok c b r -> ctok a b (CNode T o c l r).

  Lemma rec_tri T r o : tm m T = Some r -> o < 3 -> tri3 m T (vx r (m2 o)) (vx r o) (vx r (m1 o)).
  Proof.
    intros E Ho. exists (vx r), (m2 o). rewrite (@vxs_tm _ _ _ E), m1_m2, m2_m2 by auto. auto with m3.
  Qed.

  (** p lies in the cone of the two other edges. *)
  Lemma conf_apex T a b c : tri3 m T b a c -> ccwv a b p -> (0 < iv b a c p)%R -> ccwv p a c /\ ccwv p c b.
  Proof. intros T1 H1 H2. apply cone_apex; auto. apply (w_ccw W T1). Qed.

  Lemma findCavity_ok fuel T r o : cap m <= fuel -> tm m T = Some r -> o < 3 -> ccwv (vx r o) (vx r (m2 o)) p ->
    exists tr, @findCavity RNum vp (S fuel) m p (T, o, false) = Ok (pre tr, ino tr) /\ ctok (vx r o) (vx r (m2 o)) tr.
  Proof.
    intros Hf E Ho C. assert (A : alive m T) by (unfold alive; rewrite (@vxs_tm _ _ _ E); discriminate).
    revert r o E Ho C. revert fuel T A Hf.
    apply (@fin_fuel (cap m) (alive m) (fun t t' => lower n nb vp m (vp p) t' t) (alive_cap D)
             (fun t u v H1 H2 => lower_trans H2 H1) (fun t H => lower_irr H)
             (fun fuel T => forall r o, tm m T = Some r -> o < 3 -> ccwv (vx r o) (vx r (m2 o)) p ->
                exists tr, @findCavity RNum vp (S fuel) m p (T, o, false) = Ok (pre tr, ino tr) /\ ctok (vx r o) (vx r (m2 o)) tr)).
    intros k T A IH r o E Ho C.
    pose proof (@rec_tri T r o E Ho) as T1.
    assert (T0 : tri3 m T (vx r 0) (vx r 1) (vx r 2)) by (exists (vx r), 0; rewrite (@vxs_tm _ _ _ E); repeat split; auto; lia).
    set (s := S k). cbn [findCavity]. unfold inCirc, sB, sT. cbn [fst snd]. unfold getT at 1. rewrite E. cbn [bind].
    destruct (inCircle (N:=RNum) (vp (vx r 0)) (vp (vx r 1)) (vp (vx r 2)) (vp p)) eqn:IC.
    2:{ exists CLeaf. split; auto. apply ck_leaf with (vx r (m1 o)) T; auto.
        destruct (Rle_lt_dec (iv (vx r (m2 o)) (vx r o) (vx r (m1 o)) p) 0) as [L|L]; auto. exfalso.
        assert (Cf : conf T) by (exists (vx r (m2 o)), (vx r o), (vx r (m1 o)); auto).
        pose proof (conf_tri D Cf T0) as Q. apply inCircle_spec in Q. congruence. }
    apply inCircle_spec in IC.
    assert (Cf : conf T) by (exists (vx r 0), (vx r 1), (vx r 2); auto).
    pose proof (conf_tri D Cf T1) as IV.
    destruct (conf_apex T1 C IV) as (Ca & Cb).
    assert (Sub : forall i, i < 3 -> ccwv (vx r (m2 i)) (vx r i) p -> exists s' tr, across m (T, i, false) = Ok s' /\
              @findCavity RNum vp s m p s' = Ok (pre tr, ino tr) /\ ctok (vx r (m2 i)) (vx r i) tr).
    { intros i Hi Ci. destruct (across_cases (hull_left GP) W T false E Hi) as [(Hh & Q)|(y & ry & j & Ey & Hj & Q1 & Q2 & Q)].
      - exists (T, i, true), CLeaf. split; [exact Q|]. split; [reflexivity|]. apply ck_hull; auto. intros t. apply (hull_not_rev (hull_left GP) W); auto.
      - assert (Ay : alive m y) by (unfold alive; rewrite (@vxs_tm _ _ _ Ey); discriminate).
        destruct (IH y Ay) with (r := ry) (o := j) as (tr & F1 & F2); auto.
        + apply (tow_lower GP D). exists (vx r i), (vx r (m2 i)). split; [|split].
          * exists (vx ry), j. rewrite (@vxs_tm _ _ _ Ey). auto.
          * exists (vx r), i. rewrite (@vxs_tm _ _ _ E). auto.
          * unfold DelTopo.ccwv, DelTopo.A2 in Ci. rewrite (area2_swap (vp (vx r (m2 i)))). lra.
        + rewrite Q1, Q2. auto.
        + exists (y, j, false), tr. rewrite Q1, Q2 in F2. auto. }
    unfold rot. cbn [sT sO fst snd]. change (mod3 (o + 1)) with (m1 o). change (mod3 (m1 o + 1)) with (m1 (m1 o)). rewrite m1_m1 by auto.
    destruct (Sub (m1 o)) as (s1 & l & X1 & X2 & X3); [auto with m3| |].
    { rewrite m2_m1 by auto. apply ccwv_rot. auto. }
    destruct (Sub (m2 o)) as (s2 & r' & Y1 & Y2 & Y3); [auto with m3| |].
    { rewrite m2_m2 by auto. apply ccwv_rot. auto. }
    rewrite X1. cbn [bind]. rewrite X2. cbn [bind]. unfold firstVertex, getT at 1. cbn [sT sO fst snd]. rewrite E. cbn [bind].
    rewrite Y1. cbn [bind]. rewrite Y2. cbn [bind].
    exists (CNode T o (vx r (m1 o)) l r'). split; [reflexivity|].
    rewrite m2_m1 in X3 by auto. rewrite m2_m2 in Y3 by auto. eapply ck_node; eauto.
  Qed.

  (** *** Cones *)
  Lemma ctok_cone a b tr : ctok a b tr -> ccwv p a b ->
    (forall x, In x (ino tr) -> cone (vp p) (vp a) (vp b) (vp x)) /\ NoDup (ino tr).
  Proof.
    induction 1 as [| |a b c T o l r rT E Ho Ea Eb Ec IV Cl IHl Cr IHr]; intros C; cbn.
    1,2: split; [intros x []|constructor].
    pose proof (@rec_tri T rT o E Ho) as T1. rewrite Ea, Eb, Ec in T1.
    destruct (conf_apex T1) as (Ca & Cb); auto; [apply ccwv_rot; auto|].
    destruct (IHl Ca) as (L1 & L2). destruct (IHr Cb) as (R1 & R2).
    assert (Cc : cone (vp p) (vp a) (vp b) (vp c)) by (split; auto).
    split.
    - intros x Hx. apply in_app_iff in Hx. destruct Hx as [Hx|[<-|Hx]]; auto.
      + apply cone_left with (vp c); auto.
      + apply cone_right with (vp c); auto.
    - apply nd_app; auto.
      + constructor; auto. intros Hx. apply R1 in Hx. eapply cone_irr_left; eauto.
      + intros x Hx [<-|Hx']; [apply L1 in Hx; eapply cone_irr_right; eauto|]. apply L1 in Hx. apply R1 in Hx'. exact (cone_excl Hx Hx').
  Qed.

  (** The corner of a conflicting triangle opposite to the edge p lies beyond. *)
  Definition apexOf (T c : nat) : Prop := exists x y, tri3 m T y x c /\ ccwv x y p /\ (0 < iv y x c p)%R.
  Lemma apex_unique T c c' : apexOf T c -> apexOf T c' -> c = c'.
  Proof.
    intros (x & y & T1 & C1 & I1) (x' & y' & T1' & C1' & I1').
    destruct (conf_apex T1 C1 I1) as (Ca & Cb). destruct (tri3_hasE T1') as (E & _).
    destruct (tri3_edges T1 E) as [X|[X|X]]; injection X as -> ->.
    - eapply (tri3_third D); eauto.
    - exfalso. eapply (ccwv_anti (vp:=vp)); [apply C1'|]. apply ccwv_rot in Ca. auto.
    - exfalso. eapply (ccwv_anti (vp:=vp)); [apply C1'|]. apply ccwv_rot in Cb. auto.
  Qed.
  Lemma ctok_apx a b tr : ctok a b tr -> ccwv p a b -> forall T c, In (T, c) (apx tr) ->
    In c (ino tr) /\ exists x y, tri3 m T y x c /\ ccwv x y p /\ (0 < iv y x c p)%R /\
      (x = a \/ x = b \/ In x (ino tr)) /\ (y = a \/ y = b \/ In y (ino tr)).
  Proof.
    induction 1 as [| |a b c T o l r rT E Ho Ea Eb Ec IV Cl IHl Cr IHr]; intros C T' c' I; [destruct I|destruct I|].
    pose proof (@rec_tri T rT o E Ho) as T1. rewrite Ea, Eb, Ec in T1.
    destruct (conf_apex T1) as (Ca & Cb); auto; [apply ccwv_rot; auto|].
    cbn [apx ino] in *. destruct I as [I|I]; [|apply in_app_iff in I; destruct I as [I|I]].
    - injection I as <- <-. split; [apply in_app_iff; cbn; auto|]. exists a, b. repeat split; auto. apply ccwv_rot; auto.
    - destruct (IHl Ca _ _ I) as (I' & x & y & H1 & H2 & H3 & H4 & H5). split; [apply in_app_iff; auto|].
      exists x, y. repeat split; auto; rewrite in_app_iff; cbn; [destruct H4 as [->|[->|H4]]|destruct H5 as [->|[->|H5]]]; auto.
    - destruct (IHr Cb _ _ I) as (I' & x & y & H1 & H2 & H3 & H4 & H5). split; [apply in_app_iff; cbn; auto|].
      exists x, y. repeat split; auto; rewrite in_app_iff; cbn; [destruct H4 as [->|[->|H4]]|destruct H5 as [->|[->|H5]]]; auto.
  Qed.

  (** *** The tree contains every conflicting triangle it can reach *)
  Lemma ctok_root a b tr X : ctok a b tr -> hasE m X b a -> conf X -> In X (nodes tr).
  Proof.
    intros H E C. destruct H as [a b H H'|a b c T T1 I|a b c T o l r rT Er Ho Ea Eb Ec IV Cl Cr].
    - exfalso. eapply H'; eauto.
    - exfalso. assert (X = T) by (destruct (tri3_hasE T1) as (E1 & _); apply (w_de W E E1)). subst X.
      pose proof (conf_tri D C T1). lra.
    - rewrite nodes_node. left. pose proof (@rec_tri T rT o Er Ho) as T1. rewrite Ea, Eb, Ec in T1.
      destruct (tri3_hasE T1) as (E1 & _). apply (w_de W E1 E).
  Qed.
  Lemma ctok_closed a b tr X X' u w : ctok a b tr -> ccwv p a b -> In X' (nodes tr) -> hasE m X' w u -> hasE m X u w ->
    ccwv w u p -> conf X -> In X (nodes tr).
  Proof.
    intros H. induction H as [| |a b c T o l r rT E Ho Ea Eb Ec IV Cl IHl Cr IHr]; intros C I Ex Ey Cw Cf; [destruct I|destruct I|].
    pose proof (@rec_tri T rT o E Ho) as T1. rewrite Ea, Eb, Ec in T1.
    destruct (conf_apex T1) as (Ca & Cb); auto; [apply ccwv_rot; auto|].
    rewrite nodes_node in *. destruct I as [<-|I]; [|apply in_app_iff in I; destruct I as [I|I]].
    - right. apply in_app_iff. destruct (tri3_edges T1 Ex) as [Y|[Y|Y]]; injection Y as -> ->.
      + exfalso. eapply (ccwv_anti (vp:=vp)); [apply Cw|]. apply ccwv_rot; auto.
      + left. eapply ctok_root; eauto.
      + right. eapply ctok_root; eauto.
    - right. apply in_app_iff. left. auto.
    - right. apply in_app_iff. right. auto.
  Qed.

  (** *** Fronts *)
  Definition fentOk (e : fent) : Prop :=
    let '(a, b, tr) := e in ccwv p a b /\ ctok a b tr /\ exists T c, tri3 m T a b c /\ (0 < iv a b c p)%R.

  Lemma fentOk_node a b T o c l r : fentOk (a, b, CNode T o c l r) ->
    fentOk (a, c, l) /\ fentOk (c, b, r) /\
    exists rT, tm m T = Some rT /\ o < 3 /\ vx rT o = a /\ vx rT (m2 o) = b /\ vx rT (m1 o) = c.
  Proof.
    intros (C & H & _). inversion H as [| |? ? ? ? ? ? ? rT E Ho Ea Eb Ec IV Cl Cr]; subst.
    pose proof (@rec_tri T rT o E Ho) as T1.
    destruct (conf_apex T1) as (Ca & Cb); auto; [apply ccwv_rot; auto|].
    unfold DelCav.iv in *.
    split; [|split].
    - split; auto. split; auto. exists T, (vx rT (m2 o)). split; [apply tri3_rot; auto|]. unfold DelCav.iv. rewrite incirc_rot. auto.
    - split; auto. split; auto. exists T, (vx rT o). split; [apply tri3_rot, tri3_rot; auto|]. unfold DelCav.iv. rewrite incirc_rot, incirc_rot. auto.
    - eauto 10.
  Qed.

  (** The cavity found from the triangle t0 that contains p. *)
  Record cavOk (t0 : nat) (F : list fent) : Prop := {
    c_ok : Forall fentOk F;
    c_nd : NoDup (fverts F);
    c_pend : NoDup (fpend F);
    c_t0 : ~ In t0 (fpend F);
    c_all : forall X, alive m X -> conf X -> X = t0 \/ In X (fpend F);
    c_conf : forall X, X = t0 \/ In X (fpend F) -> conf X;
    c_ib : forall x, In x (fverts F) -> ins x \/ bnd x;
    c_cor : forall X a b, X = t0 \/ In X (fpend F) -> hasE m X a b -> In a (fverts F) /\ In b (fverts F);
  }.

  Definition front0 (r : trec) (o : nat) (tr0 tr1 tr2 : ctree) : list fent :=
    [(vx r (m2 o), vx r o, tr0); (vx r o, vx r (m1 o), tr1); (vx r (m1 o), vx r (m2 o), tr2)].

  Lemma cavity_ok fuel t0 o : cap m <= fuel -> alive m t0 -> inTs vp m p t0 -> o < 3 ->
    exists r tr0 tr1 tr2, tm m t0 = Some r /\
      @cavity RNum vp (S fuel) 3 m p (t0, o, false) = Ok (fqueue (front0 r o tr0 tr1 tr2), fverts (front0 r o tr0 tr1 tr2)) /\
      cavOk t0 (front0 r o tr0 tr1 tr2).
  Proof.
    intros Hf A I Ho.
    assert (exists r, tm m t0 = Some r) as (r & E).
    { unfold alive, vxs in A. destruct (tm m t0); eauto. cbn in A. congruence. }
    pose proof (@rec_tri t0 r o E Ho) as T1. destruct (tri3_hasE T1) as (E20 & E01 & E12).
    set (s := S fuel) in *.
    assert (Sub : forall i bd, i < 3 -> exists s' tr, across m (t0, i, bd) = Ok s' /\
              @findCavity RNum vp s m p s' = Ok (pre tr, ino tr) /\ ctok (vx r (m2 i)) (vx r i) tr).
    { intros i bd Hi. destruct (across_cases (hull_left GP) W t0 bd E Hi) as [(Hh & Q)|(y & ry & j & Ey & Hj & Q1 & Q2 & Q)].
      - exists (t0, i, true), CLeaf. split; [exact Q|]. split; [reflexivity|]. apply ck_hull; auto. intros t. apply (hull_not_rev (hull_left GP) W); auto.
      - destruct (@findCavity_ok fuel y ry j) as (tr & F1 & F2); auto.
        + rewrite Q1, Q2. apply I. exists (vx r), i. rewrite (@vxs_tm _ _ _ E). auto.
        + exists (y, j, false), tr. rewrite Q1, Q2 in F2. auto. }
    destruct (Sub o false Ho) as (s0 & tr0 & A0 & B0 & C0).
    destruct (Sub (m1 o) false (m1_lt Ho)) as (s1 & tr1 & A1 & B1 & C1). rewrite m2_m1 in C1 by auto.
    destruct (Sub (m2 o) false (m2_lt Ho)) as (s2 & tr2 & A2' & B2 & C2). rewrite m2_m2 in C2 by auto.
    exists r, tr0, tr1, tr2. split; auto. split.
    { cbn [cavity]. unfold firstVertex, getT, rot. cbn [sT sO fst snd]. rewrite E. cbn [bind].
      change (mod3 (o + 1)) with (m1 o). change (mod3 (m1 o + 1)) with (m1 (m1 o)). rewrite m1_m1 by auto.
      rewrite A0. cbn [bind]. rewrite B0. cbn [bind]. rewrite A1. cbn [bind]. rewrite B1. cbn [bind].
      rewrite A2'. cbn [bind]. rewrite B2. cbn [bind].
      unfold front0, fqueue, fverts. cbn. rewrite !app_nil_r. reflexivity. }
    set (x0 := vx r o) in *. set (x1 := vx r (m1 o)) in *. set (x2 := vx r (m2 o)) in *.
    pose proof (I _ _ E20) as H20. pose proof (I _ _ E01) as H01. pose proof (I _ _ E12) as H12.
    assert (G20 : ccwv p x2 x0) by (apply ccwv_rot2; auto).
    assert (G01 : ccwv p x0 x1) by (apply ccwv_rot2; auto).
    assert (G12 : ccwv p x1 x2) by (apply ccwv_rot2; auto).
    assert (Cf : conf t0) by (apply (inTs_conf A I)).
    assert (IV : (0 < iv x2 x0 x1 p)%R) by (apply (conf_tri D Cf T1)).
    set (F := front0 r o tr0 tr1 tr2).
    assert (EF : F = [(x2, x0, tr0); (x0, x1, tr1); (x1, x2, tr2)]) by reflexivity.
    assert (OK : Forall fentOk F).
    { rewrite EF. repeat constructor; auto.
      - exists t0, x1. auto.
      - exists t0, x2. split; [apply tri3_rot; auto|]. unfold DelCav.iv. rewrite incirc_rot. auto.
      - exists t0, x0. split; [apply tri3_rot, tri3_rot; auto|]. unfold DelCav.iv. rewrite incirc_rot, incirc_rot. auto. }
    destruct (ctok_cone C0 G20) as (K0 & N0). destruct (ctok_cone C1 G01) as (K1 & N1). destruct (ctok_cone C2 G12) as (K2 & N2).
    assert (EV : fverts F = x0 :: ino tr0 ++ x1 :: ino tr1 ++ x2 :: ino tr2).
    { rewrite EF. unfold fverts. cbn. rewrite app_nil_r. reflexivity. }
    destruct (ccwv_ne (w_ccw W T1)) as (M1 & M2 & M3).
    assert (AN : forall a b, ccwv p a b -> ~ (0 < area2 (vp p) (vp b) (vp a))%R).
    { intros a b Q. rewrite area2_swap23. unfold DelTopo.ccwv, DelTopo.A2 in Q. lra. }
    assert (ND : NoDup (fverts F)).
    { rewrite EV. constructor; [|apply nd_app; [auto| |]; [constructor; [|apply nd_app; [auto| |]; [constructor; auto|]]|]].
      - rewrite !in_app_iff. cbn. rewrite !in_app_iff. cbn.
        intros [Q|[Q|[Q|[Q|Q]]]]; try congruence.
        + apply K0 in Q. eapply cone_irr_right; eauto.
        + apply K1 in Q. eapply cone_irr_left; eauto.
        + apply K2 in Q. destruct Q as [Q _]. apply (AN _ _ G01 Q).
      - rewrite in_app_iff. cbn. intros [Q|[Q|Q]]; try congruence.
        + apply K1 in Q. eapply cone_irr_right; eauto.
        + apply K2 in Q. eapply cone_irr_left; eauto.
      - intros Q. apply K2 in Q. eapply cone_irr_right; eauto.
      - intros x Qx [<-|Q].
        + apply K1 in Qx. destruct Qx as [Qx _]. apply (AN _ _ G20 Qx).
        + apply K1 in Qx. apply K2 in Q. exact (cone_excl Qx Q).
      - intros x Qx [<-|Q].
        + apply K0 in Qx. destruct Qx as [Qx _]. apply (AN _ _ G12 Qx).
        + apply in_app_iff in Q. destruct Q as [Q|[<-|Q]].
          * apply K0 in Qx. apply K1 in Q. exact (cone_excl Qx Q).
          * apply K0 in Qx. eapply cone_irr_left; eauto.
          * apply K0 in Qx. apply K2 in Q. exact (cone_excl Q Qx). }
    assert (AP : forall T c, In (T, c) (fapx F) -> In c (fverts F) /\ exists x y, tri3 m T y x c /\ ccwv x y p /\ (0 < iv y x c p)%R /\
                   In x (fverts F) /\ In y (fverts F)).
    { intros T c Q. unfold fapx in Q. apply in_flat_map in Q. destruct Q as (e & He & Q).
      assert (Inc : forall a b tr, In (a, b, tr) F -> In b (fverts F) /\ In a (fverts F) /\ (forall x, In x (ino tr) -> In x (fverts F))).
      { intros a b tr Hin. rewrite EV. rewrite EF in Hin. cbn in Hin. clear - Hin. destruct Hin as [X|[X|[X|[]]]]; injection X as <- <- <-;
          repeat split; try intros x Hx; cbn; rewrite ?in_app_iff; cbn; rewrite ?in_app_iff; cbn; tauto. }
      destruct e as [[a b] tr]. destruct (Inc a b tr He) as (I1 & I2 & I3).
      rewrite Forall_forall in OK. destruct (OK _ He) as (Q1 & Q2 & _).
      destruct (ctok_apx Q2 Q1 _ _ Q) as (R1 & x & y & R2 & R3 & R4 & R5 & R6). split; auto.
      exists x, y. repeat split; auto; [destruct R5 as [->|[->|R5]]|destruct R6 as [->|[->|R6]]]; auto. }
    constructor; auto.
    - (* no repeated triangle *)
      rewrite fpend_apx. apply nd_fst.
      + assert (P : exists l, Permutation (map snd (fapx F) ++ l) (fverts F)).
        { clear. induction F as [|[[a b] tr] F (l & IH)]; [exists []; auto|]. unfold fapx, fverts in *. cbn [flat_map fst snd].
          exists (b :: l). rewrite map_app, apx_ino. rewrite <- IH, <- app_assoc.
          rewrite <- app_comm_cons, !app_assoc. symmetry. apply Permutation_middle. }
        destruct P as (l & P). apply Permutation_sym in P. apply (Permutation_NoDup P) in ND.
        clear - ND. induction (map snd (fapx F)) as [|y q IH]; [constructor|]. cbn in ND. inversion ND; subst. constructor; auto.
        intros Q. apply H1. apply in_app_iff. auto.
      + intros T c c' Q1 Q2. destruct (AP _ _ Q1) as (_ & x & y & R1 & R2 & R3 & _). destruct (AP _ _ Q2) as (_ & x' & y' & R1' & R2' & R3' & _).
        apply (@apex_unique T); [exists x, y|exists x', y']; auto.
    - rewrite fpend_apx. intros Q. apply in_map_iff in Q. destruct Q as ([T c] & Q1 & Q2). cbn in Q1. subst T.
      destruct (AP _ _ Q2) as (_ & x & y & R1 & R2 & R3 & _). destruct (tri3_hasE R1) as (Q & _). apply I in Q.
      eapply (ccwv_anti (vp:=vp)); eauto.
    - apply (@reach n nb vp GP m ins D (vp p) (fun X => conf X -> X = t0 \/ In X (fpend F)) (p_hl GP Hp)).
      + intros t At It _. left. exact (@inTs_unique n nb vp GP m ins D p t t0 At A (inTs_of GP D Hp Np It) I).
      + intros t t' At At' Tw IH Ct. right.
        pose proof (tow_conf GP D At At' Tw Ct) as Ct'. destruct Tw as (u & w & Eu & Ew & S).
        assert (Cw : ccwv w u p) by (unfold DelTopo.ccwv, DelTopo.A2; rewrite area2_swap; lra).
        rewrite Forall_forall in OK.
        assert (Put : forall a b tr, In (a, b, tr) F -> In t (nodes tr) -> In t (fpend F)).
        { intros a b tr Q1 Q2. unfold fpend. apply in_flat_map. exists (a, b, tr). auto. }
        destruct (IH Ct') as [->|Q].
        * destruct (tri3_edges T1 Ew) as [X|[X|X]]; injection X as -> ->.
          -- apply (Put x2 x0 tr0); [rewrite EF; cbn; auto|]. eapply ctok_root; eauto.
          -- apply (Put x0 x1 tr1); [rewrite EF; cbn; auto|]. eapply ctok_root; eauto.
          -- apply (Put x1 x2 tr2); [rewrite EF; cbn; auto|]. eapply ctok_root; eauto.
        * unfold fpend in Q. apply in_flat_map in Q. destruct Q as ([[a b] tr] & Q1 & Q2). cbn in Q2.
          destruct (OK _ Q1) as (Q3 & Q4 & _). eapply Put; eauto. eapply ctok_closed; eauto.
    - intros X [->|Q]; auto. rewrite fpend_apx in Q. apply in_map_iff in Q. destruct Q as ([T c] & Q1 & Q2). cbn in Q1. subst T.
      destruct (AP _ _ Q2) as (_ & x & y & R1 & R2 & R3 & _). exists y, x, c. auto.
    - intros x Hx. destruct (tri3_ib D T1) as (J2 & J0 & J1).
      assert (Ji : forall a b tr, In (a, b, tr) F -> In x (ino tr) -> ins x \/ bnd x).
      { intros a b tr Q1 Q2. rewrite <- apx_ino in Q2. apply in_map_iff in Q2. destruct Q2 as ([T c] & Q3 & Q4). cbn in Q3. subst c.
        assert (Q5 : In (T, x) (fapx F)) by (unfold fapx; apply in_flat_map; exists (a, b, tr); auto).
        destruct (AP _ _ Q5) as (_ & u & w & R1 & _). apply (tri3_ib D R1). }
      rewrite EV in Hx. cbn in Hx. rewrite !in_app_iff in Hx. cbn in Hx. rewrite in_app_iff in Hx. cbn in Hx.
      assert (F0 : In (x2, x0, tr0) F /\ In (x0, x1, tr1) F /\ In (x1, x2, tr2) F) by (rewrite EF; cbn; tauto).
      destruct F0 as (F0 & F1 & F2).
      destruct Hx as [ <- |[Hx|[ <- |[Hx|[ <- |Hx]]]]]; auto; [apply (Ji _ _ _ F0 Hx)|apply (Ji _ _ _ F1 Hx)|apply (Ji _ _ _ F2 Hx)].
    - assert (G : forall X x y z a b, tri3 m X x y z -> In x (fverts F) -> In y (fverts F) -> In z (fverts F) -> hasE m X a b ->
                    In a (fverts F) /\ In b (fverts F)).
      { intros X x y z a b Tx Ix Iy Iz Ex. destruct (tri3_edges Tx Ex) as [Y|[Y|Y]]; injection Y as -> ->; auto. }
      intros X a b [->|Q] Ex.
      + apply (G _ _ _ _ _ _ T1); auto; rewrite EV; cbn; rewrite ?in_app_iff; cbn; rewrite ?in_app_iff; cbn; tauto.
      + rewrite fpend_apx in Q. apply in_map_iff in Q. destruct Q as ([T c] & Q1 & Q2). cbn in Q1. subst T.
        destruct (AP _ _ Q2) as (Ic & x & y & R1 & R2 & R3 & R4 & R5). apply (G _ _ _ _ _ _ R1); auto.
  Qed.
End Tree.
