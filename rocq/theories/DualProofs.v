(** The dual-tree search over exact arithmetic. *)
From Coq Require Import Reals Lra.
From Verif Require Import Base Num KdModel KdSpec KdBuild KdConstruct RGeom RangeModel RangeProofs
  KnnModel KnnBuf BatchModel BatchTree BatchPack BatchErase BatchObj LogModel LogInsert BatchKnn BatchKnnProofs LogKnn DualModel.
Set Implicit Arguments.
Local Open Scope R_scope.

Section BoxDist.
  Variable dim : nat.
  Lemma nmax2_l a b : a <= nmax2 RNum a b.
  Proof. unfold nmax2. cbn. destruct (Rltb_spec a b); lra. Qed.
  Lemma nmax2_r a b : b <= nmax2 RNum a b.
  Proof. unfold nmax2. cbn. destruct (Rltb_spec a b); lra. Qed.
  Lemma nmax2_lub a b c : a <= c -> b <= c -> nmax2 RNum a b <= c.
  Proof. unfold nmax2. cbn. destruct (Rltb_spec a b); lra. Qed.

  (** Points of two boxes are at least the box distance apart. *)
  Lemma boxDist_le (b1 b2 : box RNum) (p q : list R) :
    (forall d, (d < dim)%nat -> @coord RNum (bmin b1) d <= @coord RNum p d <= @coord RNum (bmax b1) d) ->
    (forall d, (d < dim)%nat -> @coord RNum (bmin b2) d <= @coord RNum q d <= @coord RNum (bmax b2) d) ->
    @boxDist RNum dim b1 b2 <= dist RNum dim p q.
  Proof.
    intros H1 H2. unfold boxDist, dist. cbn [nsqrt RNum]. apply sqrt_le_1_alt.
    rewrite distSqr_sum.
    eapply Rle_trans; [apply Req_le; exact (fold_rsum (fun i =>
      let v := nmax2 RNum (nmax2 RNum 0 (@coord RNum (bmin b1) i - @coord RNum (bmax b2) i))
                     (@coord RNum (bmin b2) i - @coord RNum (bmax b1) i) in v * v) dim 0)|].
    rewrite Rplus_0_l. apply rsum_le. intros i Hi. cbv zeta.
    specialize (H1 i Hi). specialize (H2 i Hi).
    set (v := nmax2 RNum _ _).
    assert (0 <= v).
    { unfold v. eapply Rle_trans; [|apply nmax2_l]. apply nmax2_l. }
    assert (v <= Rabs (@coord RNum p i - @coord RNum q i)).
    { unfold v. apply nmax2_lub; [apply nmax2_lub|].
      - apply Rabs_pos.
      - eapply Rle_trans; [|apply Rle_abs]. lra.
      - rewrite Rabs_minus_sym. eapply Rle_trans; [|apply Rle_abs]. lra. }
    apply Rle_trans with (Rabs (@coord RNum p i - @coord RNum q i) * Rabs (@coord RNum p i - @coord RNum q i)).
    - apply Rmult_le_compat; auto.
    - rewrite <- Rabs_mult, Rabs_right; [lra|]. apply Rle_ge, Rle_0_sqr.
  Qed.
End BoxDist.

Section Dual.
  Variable dim : nat.
  Variable A : Type.
  Variable pt : A -> list (nT RNum).
  Notation ent := (ent A).
  Notation elem := (elem RNum ent).
  Variable nthel : nat -> list elem -> list elem.
  Hypothesis Hnth : nth_ok (fun _ : nT RNum => True) nthel.
  Variable k : nat.
  Hypothesis Hk : (1 <= k)%nat.
  Notation tree := (kt (nT RNum) (box RNum)).
  Notation cbuf := (cbuffer RNum ent).
  Notation rep := (crep (fun _ : nT RNum => True) k).
  Notation rs t := (fst (kRange t)).
  Notation re t := (snd (kRange t)).
  Notation dom := (@dom A k).
  Notation dominated := (@dominated A k).
  Variable sched : tree -> tree -> nat -> bool -> bool.
  Variable qits : list A.
  Variable qpres : list bool.
  Hypothesis Hqpres : forall i, (i < length qits)%nat -> nth_error qpres i = Some true.

  Definition qp (i : nat) : list R := match nth_error qits i with Some x => pt x | None => [] end.

  (** The buffer of a query: [V] was inserted and is selected, the rest of
      [all] is dominated by it. *)
  Definition bufOk (V all : list elem) (c : cbuf) : Prop :=
    rep V c /\ (exists U, Permutation (V ++ U) all /\ dominated V U) /\
    (forall e, In e V -> nearE e) /\
    ((k <= length V)%nat -> bptr (cb c) = k /\ cached c = true).
  Definition bufsOk (s e : nat) (bufs : list cbuf) (V all : nat -> list elem) : Prop :=
    forall i, (s <= i < e)%nat -> exists c, nth_error bufs i = Some c /\ bufOk (V i) (all i) c.

  (** A radius above the cost of k of the candidates, or no radius at all. *)
  Definition radOk (r : R) (V : list elem) : Prop := Rfmax <= r \/ dom V r.
  Lemma radOk_le r r' V : r <= r' -> radOk r V -> radOk r' V.
  Proof. intros H [H1|H1]; [left; lra|right; eapply dom_le; eauto]. Qed.

  Fixpoint radsOk (Q : tree) (st : rtree (nT RNum)) (V : nat -> list elem) : Prop :=
    (forall i, (rs Q <= i < re Q)%nat -> radOk (rad st) (V i)) /\
    match Q, st with
    | KLeaf _ _ _ _, RLeaf _ => True
    | KNode _ _ _ _ _ Ql Qr, RNode _ sl sr => radsOk Ql sl V /\ radsOk Qr sr V
    | _, _ => False
    end.

  Lemma radsOk_ext Q : forall st V V', inv (fun _ : nT RNum => True) dim pt qits qpres Q ->
    (forall i, (rs Q <= i < re Q)%nat -> V' i = V i) ->
    radsOk Q st V -> radsOk Q st V'.
  Proof.
    induction Q as [s e np b|d sv s e b Ql IHl Qr IHr]; intros [r|r sl sr] V V' HI HE [H1 H2];
      cbn [radsOk]; cbn [kRange fst snd] in *; try tauto.
    - split; auto. intros i Hi. rewrite HE by auto. auto.
    - split; [intros i Hi; rewrite HE by auto; auto|].
      cbn [inv] in HI. destruct HI as (I1 & I2 & I3 & I4 & I5 & _).
      assert (J1 := I1). assert (J2 := I2). apply inv_range in J1, J2.
      destruct H2 as [H2 H3].
      split; [apply (IHl sl V V' I1)|apply (IHr sr V V' I2)]; auto; intros i Hi; apply HE; lia.
  Qed.

  Lemma freshR_ok Q V : radsOk Q (freshR Q) V.
  Proof.
    induction Q as [s e np b|d sv s e b Ql IHl Qr IHr]; cbn [freshR radsOk rad];
      (split; [intros i Hi; left; cbn; lra|auto]).
  Qed.

  (** *** One candidate tree *)
  Variable id : nat.
  Variable its : list A.
  Variable pres : list bool.
  Notation invR := (inv (fun _ : nT RNum => True) dim pt its pres).
  Notation invQ := (inv (fun _ : nT RNum => True) dim pt qits qpres).
  Definition els (i : nat) (R : tree) : list elem :=
    map (entElem RNum dim pt (qp i)) (liveEnts id (rs R) (re R) its pres).
  Definition nearT (s e : nat) (R : tree) : Prop :=
    forall i x, (s <= i < e)%nat -> In x (els i R) -> nearE x.

  Lemma els_node i d sv s e b Rl Rr : invR (KNode d sv s e b Rl Rr) ->
    els i (KNode d sv s e b Rl Rr) = els i Rl ++ els i Rr.
  Proof. intros HI. unfold els. apply (elems_node Hk). exact HI. Qed.

  Lemma near_node s e d sv s' e' b Rl Rr : invR (KNode d sv s' e' b Rl Rr) ->
    nearT s e (KNode d sv s' e' b Rl Rr) -> nearT s e Rl /\ nearT s e Rr.
  Proof.
    intros HI H. split; intros i x Hi Hx; apply (H i x Hi); rewrite els_node by auto; apply in_or_app; auto.
  Qed.

  (** What is pruned is dominated. *)
  Lemma prune_ok Q R r V i : invQ Q -> invR R -> (rs Q <= i < re Q)%nat ->
    (forall x, In x (els i R) -> nearE x) -> radOk r V ->
    r < @boxDist RNum dim (kBox Q) (kBox R) -> dominated V (els i R).
  Proof.
    intros HQ HR Hi HN Hr Hlt w Hw.
    destruct (elems_cost _ _ _ _ _ _ _ _ Hw) as (x & _ & Hx & Hc).
    assert (HL : (i < length qits)%nat) by (assert (J := HQ); apply inv_range in J; lia).
    destruct (nth_error qits i) as [a|] eqn:Ea; [|apply nth_error_None in Ea; lia].
    assert (Hqa : qp i = pt a) by (unfold qp; rewrite Ea; auto).
    assert (HB : @boxDist RNum dim (kBox Q) (kBox R) <= cost w).
    { rewrite Hc, Hqa. apply boxDist_le; intros d Hd.
      - destruct (inv_box _ HQ) as [_ HB]. destruct (HB d Hd a) as [E1 E2].
        + rewrite packed_flat. apply in_flat_map. exists i. split; [apply in_seq; lia|].
          unfold pick. rewrite Ea, Hqpres by auto. left; auto.
        + cbn in E1, E2. rewrite Rleb_true in E1, E2. auto.
      - destruct (inv_box _ HR) as [_ HB]. destruct (HB d Hd (snd x) Hx) as [E1 E2].
        cbn in E1, E2. rewrite Rleb_true in E1, E2. auto. }
    specialize (HN w Hw). unfold nearE in HN. destruct Hr as [Hr|Hr]; [lra|].
    eapply dom_le; [|exact Hr]. lra.
  Qed.

  (** *** The leaf step *)
  Lemma qRadius_ok V all c : bufOk V all c ->
    exists r, qRadius nthel c = Ok (r, c) /\ radOk r V /\ ((k <= length V)%nat -> dom V r) /\
      ((length V < k)%nat -> r = Rfmax).
  Proof.
    intros (HR & HU & HN & HS). unfold qRadius. rewrite (crep_hasK Hk HR).
    destruct (Nat.leb_spec k (length V)) as [Hle|Hgt].
    - destruct (keepK_settled Hnth Hk HR Hle) as (m & c' & E & _ & _ & Em & Hd).
      destruct (HS Hle) as [Hp Hc].
      assert (c' = c) as ->.
      { unfold ckeepK in E. rewrite Hc in E. destruct (_ <? _)%nat; [discriminate|].
        destruct (_ =? _)%nat; [discriminate|]. destruct (_ <? _)%nat; [discriminate|]. congruence. }
      rewrite E. cbn [bind]. exists (fst m). split; auto. split; [right; exact Hd|]. split; auto. lia.
    - exists Rfmax. split; auto. split; [left; lra|]. split; [lia|auto].
  Qed.

  Lemma settle_ok V all c : rep V c -> (exists U, Permutation (V ++ U) all /\ dominated V U) ->
    (forall e, In e V -> nearE e) ->
    exists r c', qRadius nthel c = Ok (r, c') /\ bufOk V all c' /\ radOk r V.
  Proof.
    intros HR HU HN. unfold qRadius. rewrite (crep_hasK Hk HR).
    destruct (Nat.leb_spec k (length V)) as [Hle|Hgt].
    - destruct (keepK_settled Hnth Hk HR Hle) as (m & c' & E & (HR' & Hp & Hc & _) & _ & Em & Hd).
      rewrite E. cbn [bind]. exists (fst m), c'. split; auto. split; [|right; exact Hd].
      split; auto.
    - exists Rfmax, c. split; auto. split; [|left; lra]. split; auto. split; auto. split; auto. lia.
  Qed.

  Lemma addOne R V all c i x : nth_error qits i = Some x -> (forall e, In e (els i R) -> nearE e) ->
    bufOk V all c ->
    exists r c2 r' c3 V', qRadius nthel c = Ok (r, c) /\
      knnAdd dim pt nthel (pt x) id its pres R r c = Ok c2 /\
      qRadius nthel c2 = Ok (r', c3) /\ bufOk V' (all ++ els i R) c3 /\ radOk r' V'.
  Proof.
    intros Hx HN HB. destruct (qRadius_ok HB) as (r & E & _ & Hd & Hm).
    destruct HB as (HR & (U & HP & HU) & HNV & HS).
    assert (Eq : qp i = pt x) by (unfold qp; rewrite Hx; auto).
    unfold els in *. rewrite Eq in *.
    exists r. destruct (Nat.lt_ge_cases (length V) k) as [Hlt|Hge].
    - rewrite (Hm Hlt) in *. clear Hm Hd.
      destruct (knnAdd_all dim pt Hnth Hk (pt x) id its pres R HR HN) as (c2 & E2 & HR2).
      destruct (@settle_ok (V ++ map (entElem RNum dim pt (pt x)) (liveEnts id (rs R) (re R) its pres))
         (all ++ map (entElem RNum dim pt (pt x)) (liveEnts id (rs R) (re R) its pres)) c2 HR2) as (r' & c3 & E3 & H3 & H4).
      { exists U. split; [|apply dominated_app; auto]. rewrite <- HP, <- !app_assoc.
        apply Permutation_app_head, Permutation_app_comm. }
      { intros e He. apply in_app_or in He as [He|He]; auto. }
      exists c2, r', c3. eexists. split; [exact E|]. split; [exact E2|]. split; [exact E3|]. split; [exact H3|exact H4].
    - specialize (Hd Hge). destruct (knnAdd_spec dim pt Hnth Hk (pt x) id its pres R r HR) as (c2 & V' & W & E2 & HR2 & HPW & HW).
      destruct (@settle_ok (V ++ V')
         (all ++ map (entElem RNum dim pt (pt x)) (liveEnts id (rs R) (re R) its pres)) c2 HR2) as (r' & c3 & E3 & H3 & H4).
      { exists (U ++ W). split.
        - rewrite <- HP, <- HPW, <- !app_assoc. apply Permutation_app_head.
          rewrite !app_assoc. apply Permutation_app_tail. apply Permutation_app_comm.
        - intros w Hw. apply dom_app. apply in_app_or in Hw as [Hw|Hw]; auto.
          eapply dom_le; [|exact Hd]. specialize (HW w Hw). lra. }
      { intros e He. apply in_app_or in He as [He|He]; auto. apply HN.
        eapply Permutation_in; [exact HPW|]. apply in_or_app; auto. }
      exists c2, r', c3. eexists. split; [exact E|]. split; [exact E2|]. split; [exact E3|]. split; [exact H3|exact H4].
  Qed.

  (** Everything outside [s, e) is untouched. *)
  Definition frame (s e : nat) (bufs bufs' : list cbuf) (V V' : nat -> list elem) : Prop :=
    length bufs' = length bufs /\
    forall i, ~ (s <= i < e)%nat -> nth_error bufs' i = nth_error bufs i /\ V' i = V i.

  Lemma frame_trans s e b1 b2 b3 V1 V2 V3 : frame s e b1 b2 V1 V2 -> frame s e b2 b3 V2 V3 -> frame s e b1 b3 V1 V3.
  Proof.
    intros [L1 H1] [L2 H2]. split; [congruence|]. intros i Hi. destruct (H1 i Hi), (H2 i Hi). split; congruence.
  Qed.
  Lemma frame_weak s e s' e' b b' V V' : (s' <= s)%nat -> (e <= e')%nat -> frame s e b b' V V' -> frame s' e' b b' V V'.
  Proof. intros H1 H2 [HL H]. split; auto. intros i Hi. apply H. lia. Qed.
  Lemma frame_refl s e b V : frame s e b b V V.
  Proof. split; auto. Qed.
  Lemma frame_bufsOk s e s' e' b b' V V' all : frame s e b b' V V' -> (e <= s' \/ e' <= s)%nat ->
    bufsOk s' e' b V all -> bufsOk s' e' b' V' all.
  Proof.
    intros [_ H] Hd HB i Hi. destruct (HB i Hi) as (c & Ec & Hc). destruct (H i) as [E1 E2]; [lia|].
    exists c. rewrite E1, E2. auto.
  Qed.
  Lemma bufsOk_sub s e s' e' b V all : (s <= s')%nat -> (e' <= e)%nat -> bufsOk s e b V all -> bufsOk s' e' b V all.
  Proof. intros H1 H2 H i Hi. apply H. lia. Qed.
  Lemma bufsOk_all s e b V all all' : (forall i, (s <= i < e)%nat -> Permutation (all i) (all' i)) ->
    bufsOk s e b V all -> bufsOk s e b V all'.
  Proof.
    intros HP H i Hi. destruct (H i Hi) as (c & Ec & (H1 & (U & H2 & H3) & H4 & H5)). exists c. split; auto.
    split; auto. split; auto. exists U. rewrite <- (HP i Hi). auto.
  Qed.

  Lemma relax_ok R n : forall s new bufs V all, nearT s (s + n) R -> (s + n <= length qits)%nat ->
    bufsOk s (s + n) bufs V all ->
    exists new' bufs' V', relax dim pt nthel qits id its pres R (seq s n) new bufs = Ok (new', bufs') /\
      new <= new' /\ bufsOk s (s + n) bufs' V' (fun i => all i ++ els i R) /\
      (forall i, (s <= i < s + n)%nat -> radOk new' (V' i)) /\ frame s (s + n) bufs bufs' V V'.
  Proof.
    induction n as [|n IH]; intros s new bufs V all HN HL HB.
    - exists new, bufs, V. cbn [seq relax]. split; auto. split; [lra|]. split; [intros i Hi; lia|].
      split; [intros i Hi; lia|]. apply frame_refl.
    - cbn [seq relax]. destruct (nth_error qits s) as [x|] eqn:Ex; [|apply nth_error_None in Ex; lia].
      destruct (HB s ltac:(lia)) as (c & Ec & Hc). rewrite Ec.
      destruct (@addOne R (V s) (all s) c s x Ex) as (r & c2 & r' & c3 & V3 & E1 & E2 & E3 & H3 & Hr3); auto.
      { intros e He. apply (HN s); auto. lia. }
      rewrite E1. cbn [bind]. rewrite E2. cbn [bind]. rewrite E3. cbn [bind].
      set (V1 := fun i => if (i =? s)%nat then V3 else V i).
      assert (HLs : (s < length bufs)%nat) by (apply nth_error_Some; congruence).
      destruct (IH (S s) (nmax2 RNum new r') (upd s c3 bufs) V1 all) as (new' & bufs' & V' & E & Hnew & HB' & HR' & [HF1 HF2]).
      { intros i e Hi He. apply (HN i); auto. lia. }
      { lia. }
      { intros i Hi. destruct (HB i ltac:(lia)) as (ci & Eci & Hci). exists ci.
        rewrite nth_error_upd_neq by lia. split; auto. unfold V1. destruct (Nat.eqb_spec i s); [lia|auto]. }
      destruct (HF2 s ltac:(lia)) as [Es EVs].
      rewrite nth_error_upd_eq in Es by auto. unfold V1 in EVs. rewrite Nat.eqb_refl in EVs.
      exists new', bufs', V'. split; auto.
      split; [pose proof (nmax2_l new r'); lra|]. split; [|split].
      + intros i Hi. destruct (Nat.eq_dec i s) as [->|Hne].
        * exists c3. rewrite EVs. auto.
        * apply HB'. lia.
      + intros i Hi. destruct (Nat.eq_dec i s) as [->|Hne].
        * rewrite EVs. eapply radOk_le; [|exact Hr3]. pose proof (nmax2_r new r'). lra.
        * apply HR'. lia.
      + split; [rewrite HF1, upd_length; auto|]. intros i Hi. destruct (HF2 i ltac:(lia)) as [G1 G2].
        rewrite G1, nth_error_upd_neq by lia. rewrite G2. unfold V1. destruct (Nat.eqb_spec i s); [lia|auto].
  Qed.

  (** *** A query leaf *)
  Lemma dualLeaf_ok s e np qb (R : tree) : invQ (KLeaf s e np qb) -> invR R -> nearT s e R ->
    forall r bufs V all, (forall i, (s <= i < e)%nat -> radOk r (V i)) -> bufsOk s e bufs V all ->
    exists r' bufs' V', dualLeaf dim pt nthel qits id its pres s e qb R (r, bufs) = Ok (r', bufs') /\
      (forall i, (s <= i < e)%nat -> radOk r' (V' i)) /\
      bufsOk s e bufs' V' (fun i => all i ++ els i R) /\ frame s e bufs bufs' V V'.
  Proof.
    intros HQ. 
    assert (PR : forall R r bufs V all, invR R -> nearT s e R -> (forall i, (s <= i < e)%nat -> radOk r (V i)) ->
      bufsOk s e bufs V all -> r < @boxDist RNum dim qb (kBox R) ->
      bufsOk s e bufs V (fun i => all i ++ els i R)).
    { intros R0 r bufs V all HI HN HR HB Hlt i Hi. destruct (HB i Hi) as (c & Ec & (H1 & (U & HP & HU) & H3)).
      exists c. split; auto. split; auto. split; auto. exists (U ++ els i R0). split; [rewrite app_assoc, HP; auto|].
      intros w Hw. apply in_app_or in Hw as [Hw|Hw]; auto.
      apply (@prune_ok (KLeaf s e np qb) R0 r (V i) i HQ HI Hi (fun x Hx => HN i x Hi Hx) (HR i Hi) Hlt w Hw). }
    induction R as [s' e' np' b'|d sv s' e' b' Rl IHl Rr IHr]; intros HI HN r bufs V all HR HB.
    - cbn [dualLeaf fst snd]. destruct (nlt RNum r _) eqn:El.
      + cbn in El. apply Rltb_true in El. exists r, bufs, V. split; auto. split; auto. split; [|apply frame_refl].
        eapply PR; eauto.
      + assert (HQ' := HQ). cbn [inv] in HQ'. destruct HQ' as (Hse & Hel & _).
        destruct (@relax_ok (KLeaf s' e' np' b') (e - s) s 0 bufs V all) as (new & bufs' & V' & E & _ & H1 & H2 & H3);
          replace (s + (e - s))%nat with e in * by lia; auto.
        exists new, bufs', V'. split; [exact E|]. auto.
    - cbn [dualLeaf fst snd]. destruct (nlt RNum r _) eqn:El.
      + cbn in El. apply Rltb_true in El. exists r, bufs, V. split; auto. split; auto. split; [|apply frame_refl].
        eapply PR; eauto.
      + clear El. destruct (near_node HI HN) as [HNl HNr].
        assert (HIl : invR Rl) by (cbn [inv] in HI; tauto).
        assert (HIr : invR Rr) by (cbn [inv] in HI; tauto).
        specialize (IHl HIl HNl). specialize (IHr HIr HNr).
        destruct (nlt RNum _ _).
        * destruct (IHl r bufs V all HR HB) as (r1 & b1 & V1 & -> & HR1 & HB1 & HF1). cbn [bind].
          destruct (IHr r1 b1 V1 _ HR1 HB1) as (r2 & b2 & V2 & E2 & HR2 & HB2 & HF2).
          exists r2, b2, V2. split; [exact E2|]. split; auto. split; [|eapply frame_trans; eauto].
          eapply bufsOk_all; [|exact HB2]. intros i Hi. cbn beta. rewrite (els_node _ HI), app_assoc. auto.
        * destruct (IHr r bufs V all HR HB) as (r1 & b1 & V1 & -> & HR1 & HB1 & HF1). cbn [bind].
          destruct (IHl r1 b1 V1 _ HR1 HB1) as (r2 & b2 & V2 & E2 & HR2 & HB2 & HF2).
          exists r2, b2, V2. split; [exact E2|]. split; auto. split; [|eapply frame_trans; eauto].
          eapply bufsOk_all; [|exact HB2]. intros i Hi. cbn beta. rewrite (els_node _ HI), <- app_assoc.
          apply Permutation_app_head, Permutation_app_comm.
  Qed.

  (** *** Two subtrees of the query tree, in either order *)
  Notation DU := (dual dim pt nthel sched qits id its pres).
  Definition dualSpec (Q R : tree) : Prop :=
    forall st bufs V all, radsOk Q st V -> bufsOk (rs Q) (re Q) bufs V all ->
    exists st' bufs' V', DU Q R (st, bufs) = Ok (st', bufs') /\ radsOk Q st' V' /\
      bufsOk (rs Q) (re Q) bufs' V' (fun i => all i ++ els i R) /\ frame (rs Q) (re Q) bufs bufs' V V'.

  Lemma radsOk_frame s e bufs bufs' V V' Q st : invQ Q -> frame s e bufs bufs' V V' ->
    (re Q <= s \/ e <= rs Q)%nat -> radsOk Q st V -> radsOk Q st V'.
  Proof. intros HI [_ HF] Hd. apply radsOk_ext; auto. intros i Hi. apply HF. lia. Qed.

  Lemma both_ok Ql Qr RA RB : invQ Ql -> invQ Qr -> (re Ql <= rs Qr)%nat -> dualSpec Ql RA -> dualSpec Qr RB ->
    forall lfirst sl sr bufs V al ar, radsOk Ql sl V -> radsOk Qr sr V ->
    bufsOk (rs Ql) (re Ql) bufs V al -> bufsOk (rs Qr) (re Qr) bufs V ar ->
    exists sl' sr' bufs' V', both lfirst (DU Ql RA) (DU Qr RB) sl sr bufs = Ok (sl', sr', bufs') /\
      radsOk Ql sl' V' /\ radsOk Qr sr' V' /\
      bufsOk (rs Ql) (re Ql) bufs' V' (fun i => al i ++ els i RA) /\
      bufsOk (rs Qr) (re Qr) bufs' V' (fun i => ar i ++ els i RB) /\
      frame (rs Ql) (re Qr) bufs bufs' V V'.
  Proof.
    intros HIl HIr Hd Sl Sr lfirst sl sr bufs V al ar Rl Rr Bl Br.
    assert (Jl := HIl). assert (Jr := HIr). apply inv_range in Jl, Jr.
    unfold both. destruct lfirst.
    - destruct (Sl sl bufs V al Rl Bl) as (sl' & b1 & V1 & E1 & Rl1 & Bl1 & F1). rewrite E1. cbn [bind].
      destruct (Sr sr b1 V1 ar) as (sr' & b2 & V2 & E2 & Rr2 & Br2 & F2).
      { eapply radsOk_frame; eauto. }
      { eapply frame_bufsOk; eauto. }
      rewrite E2. cbn [bind]. exists sl', sr', b2, V2. split; auto.
      split; [eapply radsOk_frame; eauto|]. split; auto. split; [eapply frame_bufsOk; eauto|]. split; auto.
      eapply frame_trans; (eapply frame_weak; [| |eassumption]); lia.
    - destruct (Sr sr bufs V ar Rr Br) as (sr' & b1 & V1 & E1 & Rr1 & Br1 & F1). rewrite E1. cbn [bind].
      destruct (Sl sl b1 V1 al) as (sl' & b2 & V2 & E2 & Rl2 & Bl2 & F2).
      { eapply radsOk_frame; eauto. }
      { eapply frame_bufsOk; eauto. }
      rewrite E2. cbn [bind]. exists sl', sr', b2, V2. split; auto.
      split; auto. split; [eapply radsOk_frame; eauto|]. split; auto. split; [eapply frame_bufsOk; eauto|].
      eapply frame_trans; (eapply frame_weak; [| |eassumption]); lia.
  Qed.

  Lemma radsOk_root Q st V : radsOk Q st V -> forall i, (rs Q <= i < re Q)%nat -> radOk (rad st) (V i).
  Proof. destruct Q; intros [H _]; exact H. Qed.

  (** The children of a query node cover its queries. *)
  Lemma node_cover d sv s e b Ql Qr i : invQ (KNode d sv s e b Ql Qr) -> (s <= i < e)%nat ->
    (rs Ql <= i < re Ql \/ rs Qr <= i < re Qr)%nat.
  Proof.
    cbn [inv]. intros (_ & _ & _ & _ & _ & H6 & _ & H8 & _) Hi. apply H8; auto. apply Hqpres. lia.
  Qed.

  Theorem dual_ok Q : invQ Q -> forall R, invR R -> nearT (rs Q) (re Q) R -> dualSpec Q R.
  Proof.
    induction Q as [s e np qb|d sv s e qb Ql IHl Qr IHr]; intros HQ R HR HN st bufs V all HRad HB.
    - destruct st as [r|r sl sr]; [|destruct HRad as [_ []]]. cbn [kRange fst snd] in *.
      destruct (@dualLeaf_ok s e np qb R HQ HR HN r bufs V all) as (r' & b' & V' & E & H1 & H2 & H3); auto.
      { apply HRad. }
      exists (RLeaf r'), b', V'. split.
      + cbn [dual fst snd]. etransitivity; [apply (f_equal (fun z => bind z _)); exact E|]. reflexivity.
      + split; [split; auto|]. split; auto.
    - destruct st as [r|r sl sr]; [destruct HRad as [_ []]|].
      assert (HC := fun i => @node_cover d sv s e qb Ql Qr i HQ).
      assert (HQ' := HQ). cbn [inv] in HQ'. destruct HQ' as (HIl & HIr & I3 & I4 & I5 & _).
      assert (Jl := HIl). assert (Jr := HIr). apply inv_range in Jl, Jr.
      destruct HRad as (HRad & HRl & HRr). cbn [kRange fst snd rad] in *. cbn [dual fst snd].
      destruct (nlt RNum r _) eqn:El.
      { cbn in El. apply Rltb_true in El. exists (RNode r sl sr), bufs, V. split; auto.
        split; [split; auto|]. split; [|apply frame_refl].
        intros i Hi. destruct (HB i Hi) as (c & Ec & (H1 & (U & HP & HU) & H3)).
        exists c. split; auto. split; auto. split; auto. exists (U ++ els i R). split; [rewrite app_assoc, HP; auto|].
        intros w Hw. apply in_app_or in Hw as [Hw|Hw]; auto.
        apply (@prune_ok (KNode d sv s e qb Ql Qr) R r (V i) i HQ HR Hi (fun x Hx => HN i x Hi Hx) (HRad i Hi) El w Hw). }
      clear El.
      assert (HBl : bufsOk (rs Ql) (re Ql) bufs V all) by (eapply bufsOk_sub; [| |exact HB]; lia).
      assert (HBr : bufsOk (rs Qr) (re Qr) bufs V all) by (eapply bufsOk_sub; [| |exact HB]; lia).
      assert (NS : forall R', nearT s e R' -> nearT (rs Ql) (re Ql) R' /\ nearT (rs Qr) (re Qr) R').
      { intros R' H. split; intros i x Hi; apply H; lia. }
      assert (FIN : forall sl' sr' bufs' V' R', radsOk Ql sl' V' -> radsOk Qr sr' V' ->
         bufsOk (rs Ql) (re Ql) bufs' V' (fun i => all i ++ els i R') ->
         bufsOk (rs Qr) (re Qr) bufs' V' (fun i => all i ++ els i R') ->
         radsOk (KNode d sv s e qb Ql Qr) (RNode (nmax2 RNum (rad sl') (rad sr')) sl' sr') V' /\
         bufsOk s e bufs' V' (fun i => all i ++ els i R')).
      { intros sl' sr' bufs' V' R' H1 H2 H3 H4. split.
        - split; [|auto]. cbn [kRange fst snd rad]. intros i Hi. destruct (HC i Hi) as [H|H].
          + eapply radOk_le; [apply nmax2_l|]. eapply radsOk_root; eauto.
          + eapply radOk_le; [apply nmax2_r|]. eapply radsOk_root; eauto.
        - intros i Hi. destruct (HC i Hi) as [H|H]; auto. }
      destruct R as [s' e' np' b'|d' sv' s' e' b' Rl Rr].
      + destruct (NS _ HN) as [HNl HNr].
        match goal with |- context [sched ?a ?b ?c ?e] => set (lf := sched a b c e) end.
        destruct (@both_ok Ql Qr _ _ HIl HIr I4 (IHl HIl _ HR HNl) (IHr HIr _ HR HNr) lf
                    sl sr bufs V all all HRl HRr HBl HBr) as (sl' & sr' & bufs' & V' & E & R1 & R2 & B1 & B2 & F).
        destruct (FIN sl' sr' bufs' V' _ R1 R2 B1 B2) as [G1 G2].
        eexists. exists bufs', V'. split; [|split; [exact G1|]].
        * etransitivity; [apply (f_equal (fun z => bind z _)); exact E|]. reflexivity.
        * split; auto. eapply frame_weak; [| |exact F]; lia.
      + destruct (near_node HR HN) as [HN1 HN2]. destruct (NS _ HN1) as [N1 N2]. destruct (NS _ HN2) as [N3 N4].
        assert (HR1 : invR Rl) by (cbn [inv] in HR; tauto).
        assert (HR2 : invR Rr) by (cbn [inv] in HR; tauto).
        set (lc := nlt RNum (boxDist dim (kBox Ql) (kBox Rl)) _).
        set (rc := nlt RNum (boxDist dim (kBox Qr) (kBox Rl)) _).
        assert (SPL : forall c : bool, dualSpec Ql (if c then Rl else Rr)) by (intros []; apply IHl; auto).
        assert (SPR : forall c : bool, dualSpec Qr (if c then Rl else Rr)) by (intros []; apply IHr; auto).
        assert (SPL' : forall c : bool, dualSpec Ql (if c then Rr else Rl)) by (intros []; apply IHl; auto).
        assert (SPR' : forall c : bool, dualSpec Qr (if c then Rr else Rl)) by (intros []; apply IHr; auto).
        destruct (@both_ok Ql Qr _ _ HIl HIr I4 (SPL lc) (SPR rc)
                    (sched (KNode d sv s e qb Ql Qr) (KNode d' sv' s' e' b' Rl Rr) 0 true)
                    sl sr bufs V all all HRl HRr HBl HBr) as (sl1 & sr1 & b1 & V1 & E1 & R1 & R2 & B1 & B2 & F1).
        destruct (@both_ok Ql Qr _ _ HIl HIr I4 (SPL' lc) (SPR' rc)
                    (sched (KNode d sv s e qb Ql Qr) (KNode d' sv' s' e' b' Rl Rr) 1 true)
                    sl1 sr1 b1 V1 _ _ R1 R2 B1 B2) as (sl2 & sr2 & b2 & V2 & E2 & R3 & R4 & B3 & B4 & F2).
        assert (PP : forall (c : bool) i, Permutation ((all i ++ els i (if c then Rl else Rr)) ++ els i (if c then Rr else Rl))
                                       (all i ++ els i (KNode d' sv' s' e' b' Rl Rr))).
        { intros c i. rewrite (els_node i HR), <- app_assoc. apply Permutation_app_head.
          destruct c; [reflexivity|apply Permutation_app_comm]. }
        destruct (FIN sl2 sr2 b2 V2 (KNode d' sv' s' e' b' Rl Rr) R3 R4) as [G1 G2].
        { eapply bufsOk_all; [|exact B3]. intros i Hi. apply PP. }
        { eapply bufsOk_all; [|exact B4]. intros i Hi. apply PP. }
        eexists. exists b2, V2. split; [|split; [exact G1|]].
        * etransitivity; [apply (f_equal (fun z => bind z _)); exact E1|]. cbn [bind].
          etransitivity; [apply (f_equal (fun z => bind z _)); exact E2|]. reflexivity.
        * split; auto. eapply frame_trans; (eapply frame_weak; [| |eassumption]); lia.
  Qed.
End Dual.
