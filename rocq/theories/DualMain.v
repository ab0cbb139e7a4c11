(** The dual-tree search from the query list to the answers, on one tree and on
    the forest. *)
From Coq Require Import Reals Lra.
From Verif Require Import Base Num KdModel KdSpec KdBuild KdConstruct RGeom RangeModel RangeProofs
  KnnModel KnnBuf KnnFinal BatchSplit BatchAddr BatchModel BatchTree BatchMedian BatchPack BatchErase BatchObj BatchInst BatchRun
  LogModel LogInsert BatchKnn BatchKnnProofs LogKnn DualModel DualProofs.
Set Implicit Arguments.
Local Open Scope R_scope.

Fixpoint leavesFull {F B} (t : kt F B) : Prop :=
  match t with
  | KLeaf s e _ _ => (s < e)%nat
  | KNode _ _ _ _ _ l r => leavesFull l /\ leavesFull r
  end.

Section QueryTree.
  Variable dim : nat.
  Variable A : Type.
  Variable pt : A -> list (nT RNum).

  Lemma ktOk_full ls its t0 : forall s n sd t, ktOk RNum dim pt ls its s n sd t0 ->
    withBox RNum dim pt its t0 = Ok t -> leavesFull t.
  Proof.
    induction t0 as [s' e' np u|d sv s' e' u l IHl r IHr]; intros s n sd t HK HW; cbn [ktOk withBox] in *.
    - destruct (leafBox RNum dim pt (slice s' e' its)); try discriminate. cbn [bind] in HW. injection HW as <-.
      cbn. destruct HK as (-> & -> & _ & H & _). lia.
    - destruct (withBox RNum dim pt its l) as [tl| | |] eqn:El; try discriminate. cbn [bind] in HW.
      destruct (withBox RNum dim pt its r) as [tr| | |] eqn:Er; try discriminate. cbn [bind] in HW.
      injection HW as <-. destruct HK as (_ & _ & _ & _ & _ & K1 & K2). cbn. split; [eapply IHl|eapply IHr]; eauto.
  Qed.

  (** The tree of the queries: a rearrangement of them, all present. *)
  Record qtOk (queries : list A) (qt : btree RNum A) (Q : kt (nT RNum) (box RNum)) : Prop := {
    qo_items : Permutation queries (bt_items qt);
    qo_cur : bt_cur qt = length (bt_items qt);
    qo_root : bt_root qt = Some Q;
    qo_range : kRange Q = (0%nat, length (bt_items qt));
    qo_inv : inv (fun _ : nT RNum => True) dim pt (bt_items qt) (bt_pres qt) Q;
    qo_full : leavesFull Q;
    qo_pres : forall i, (i < length (bt_items qt))%nat -> nth_error (bt_pres qt) i = Some true }.

  Lemma queryTree_ok ls max build queries : (0 < dim)%nat -> (1 <= ls)%nat ->
    treeLayout (N := RNum) (fun _ => True) dim pt ls max false build ->
    queries <> [] -> (length queries <= max)%nat ->
    exists qt Q, queryTree build queries = Ok qt /\ qtOk queries qt Q.
  Proof.
    intros Hd Hl HL Hne Hmax. inversion HL as [msplit psplit par ord H1 H2 H3 H4 H5 E1 E2|]. subst build. clear HL E1.
    set (n := length queries) in *.
    assert (Hn : (0 < n)%nat) by (unfold n; destruct queries; cbn; [congruence|lia]).
    assert (Hcap : (n <= 2 ^ Nat.log2_up n)%nat).
    { destruct (Nat.eq_dec n 1) as [->|]; [cbn; lia|]. apply Nat.log2_up_spec. lia. }
    set (bld := coBuilder RNum dim pt ls split_points child_indices msplit psplit par ord) in *.
    assert (BO : bldOk (fun _ : nT RNum => True) dim pt bld max)
      by exact (@coBuilder_ok RNum dim A pt (fun _ => True) R_ordlaws Hd ls Hl msplit psplit H1 H2 par H3 ord H4 max H5).
    destruct (BO queries Hne Hmax) as (ls' & its' & t0 & t & Eb & P & HK & HW); [intros x _ d _; exact I|].
    assert (PL := Permutation_length P). fold n in PL.
    set (qt := mkBt (Some t) its' (repeat true (2 ^ Nat.log2_up n)) n n (2 ^ Nat.log2_up n)).
    exists qt, t. split.
    - unfold queryTree. fold n. destruct (Nat.eqb_spec n 0); [lia|]. unfold cobuild. cbn [bt_cap bnew bt_pres].
      fold n. destruct (Nat.eqb_spec n 0); [lia|]. destruct (Nat.ltb_spec (2 ^ Nat.log2_up n) n); [lia|].
      fold bld. rewrite Eb. reflexivity.
    - assert (Hrep : forall i, (i < 2 ^ Nat.log2_up n)%nat -> nth_error (repeat true (2 ^ Nat.log2_up n)) i = Some true).
      { intros i Hi. apply nth_error_repeat. auto. }
      destruct (@built_obj RNum (fun _ => True) R_ordlaws dim A pt bld max Hd BO (bnew RNum (Nat.log2_up n) []) queries its' t [])
        as (TO & _).
      + exact Hcap.
      + cbn. apply repeat_length.
      + exact Hrep.
      + exact Hne.
      + exact Hmax.
      + intros x _ d _; exact I.
      + exact Eb.
      + rewrite app_nil_r. cbn. lia.
      + intros x [].
      + rewrite app_nil_r in TO. destruct (to_root TO) as (t' & Et & Kt & It); [cbn; fold n; lia|].
        cbn in Et. injection Et as <-. cbn [bt_items bt_pres bt_build] in *.
        constructor; cbn [qt bt_items bt_cur bt_root bt_pres]; auto.
        * rewrite Kt. fold n. congruence.
        * eapply ktOk_full; eauto.
        * intros i Hi. apply Hrep. lia.
  Qed.
End QueryTree.

Lemma upd_id B i (x : B) : forall l, nth_error l i = Some x -> upd i x l = l.
Proof.
  induction i as [|i IH]; intros [|y l] H; cbn in *; try discriminate.
  - injection H as ->. reflexivity.
  - rewrite IH; auto.
Qed.

Lemma mapRes_along B C D (f : B -> res C) (P : D -> C -> Prop) : forall (bs : list B) (ds : list D),
  length bs = length ds ->
  (forall i b d, nth_error bs i = Some b -> nth_error ds i = Some d -> exists c, f b = Ok c /\ P d c) ->
  exists cs, mapRes f bs = Ok cs /\ Forall2 P ds cs.
Proof.
  induction bs as [|b bs IH]; intros [|d ds] HL H; cbn in HL; try discriminate.
  - exists []. split; auto.
  - destruct (H 0%nat b d eq_refl eq_refl) as (c & E & HP).
    destruct (IH ds) as (cs & E2 & HF); [lia|intros i; apply (H (S i))|].
    exists (c :: cs). cbn [mapRes]. rewrite E. cbn [bind]. rewrite E2. split; auto.
Qed.

Lemma readEntries_unset N A (l : list (elem N (ent A))) : In (emptyElem N (ent A)) l -> readEntries l = UB.
Proof.
  induction l as [|[c [x|]] l IH]; cbn; intros H; [destruct H| |auto].
  destruct H as [H|H]; [discriminate|]. rewrite (IH H). reflexivity.
Qed.

Section Main.
  Variable dim : nat.
  Variable A : Type.
  Variable pt : A -> list (nT RNum).
  Notation ent := (ent A).
  Notation elem := (elem RNum ent).
  Variable nthel : nat -> list elem -> list elem.
  Hypothesis Hnth : nth_ok (fun _ : nT RNum => True) nthel.
  Variable k : nat.
  Hypothesis Hk : (1 <= k)%nat.
  Notation tree := (kt (nT RNum) (box RNum)).
  Notation cbuf := (cbuffer RNum ent).
  Notation rs t := (fst (kRange t)).
  Notation re t := (snd (kRange t)).
  Variable sched : tree -> tree -> nat -> bool -> bool.
  Variable upar : tree -> bool.
  Variable queries : list A.
  Variable qt : btree RNum A.
  Variable Q : tree.
  Hypothesis HQ : qtOk dim pt queries qt Q.
  Notation qits := (bt_items qt).
  Notation qpres := (bt_pres qt).
  Notation n := (length qits).
  Notation mk i := (entElem RNum dim pt (qp pt qits i)).
  Notation DU id b := (dual dim pt nthel sched qits id (bt_items b) (bt_pres b)).
  Notation okT q nb := (okT dim pt q nb).

  (** The state of the search once the entries [L] were offered. *)
  Definition stOk (L : list ent) (st : rtree (nT RNum)) (bufs : list cbuf) : Prop :=
    length bufs = n /\ exists V, radsOk k Q st V /\ bufsOk k 0 n bufs V (fun i => map (mk i) L).

  Lemma nth_fresh i : (i < n)%nat -> nth_error (freshBufs RNum A k n) i = Some (onSlice k false (freshSlice RNum A k)).
  Proof. intros H. unfold freshBufs. rewrite nth_error_repeat; auto. Qed.

  Lemma stOk_fresh : stOk [] (freshR Q) (freshBufs RNum A k n).
  Proof.
    split; [apply repeat_length|]. exists (fun _ => []). split; [apply freshR_ok|].
    intros i Hi. eexists. split; [apply nth_fresh; lia|]. split; [apply (@crep_new RNum _ ent k Hk)|].
    split; [exists []; split; auto; intros w []|]. split; [intros e []|cbn; lia].
  Qed.

  Lemma qp_nth i x : nth_error qits i = Some x -> qp pt qits i = pt x.
  Proof. intros H. unfold qp. rewrite H. reflexivity. Qed.

  Lemma dual_step L st bufs id b : (forall q, In q qits -> okT (pt q) (id, b)) -> n <> 0%nat -> stOk L st bufs ->
    exists R st' bufs', bt_root b = Some R /\ DU id b Q R (st, bufs) = Ok (st', bufs') /\ stOk (L ++ bEnts id b) st' bufs'.
  Proof.
    intros HT Hn (HLb & V & HR & HB).
    assert (H0 : exists q, In q qits) by (destruct qits as [|q l]; [cbn in Hn; lia|exists q; left; auto]).
    destruct H0 as (q0 & Hq0). destruct (HT q0 Hq0) as (T & Hne & _). cbn [snd] in *.
    destruct (to_root T Hne) as (R & ER & KR & IR). pose proof (qo_range HQ) as KQ.
    assert (HE : forall i, els dim pt qits id (bt_items b) (bt_pres b) i R = map (mk i) (bEnts id b)).
    { intros i. unfold els. rewrite KR. reflexivity. }
    assert (HN : nearT dim pt qits id (bt_items b) (bt_pres b) (rs Q) (re Q) R).
    { intros i e Hi He. rewrite KQ in Hi. cbn [fst snd] in Hi. rewrite HE in He.
      destruct (nth_error qits i) as [x|] eqn:Ex; [|apply nth_error_None in Ex; lia].
      rewrite (qp_nth _ Ex) in He.
      apply (@okT_near dim A pt (pt x) (id, b) e); auto. apply HT. eapply nth_error_In; eauto. }
    pose proof (@dual_ok dim A pt nthel Hnth k Hk sched qits qpres (qo_pres HQ) id (bt_items b) (bt_pres b) Q (qo_inv HQ)
              R IR HN st bufs V (fun i => map (mk i) L) HR) as HD.
    rewrite KQ in HD. cbn [fst snd] in HD. destruct (HD HB) as (st' & bufs' & V' & E & HR' & HB' & HF).
    exists R, st', bufs'. split; auto. split; [exact E|]. split; [destruct HF; congruence|].
    exists V'. split; auto. intros i Hi. destruct (HB' i Hi) as (c & Ec & Hc). exists c. split; auto.
    rewrite HE, <- map_app in Hc. exact Hc.
  Qed.

  (** *** Reading the answers *)
  Lemma bufOk_covers (V all : list elem) (c : cbuf) : bufOk k V all c -> covers k all c.
  Proof. intros (HR & (U & HP & HU) & _). exists V, U. auto. Qed.

  Lemma keepRow_ok V q L c : bufOk k V (map (entElem RNum dim pt q) L) c ->
    if (k <=? length L)%nat then exists l, keepRow nthel k c = Ok l /\ nearest k (entDist RNum dim pt q) L l
    else keepRow nthel k c = Throw.
  Proof.
    intros HB. pose proof (bufOk_covers HB) as HC. unfold keepRow.
    destruct (Nat.leb_spec k (length L)) as [Hle|Hgt].
    - destruct (covers_keepK Hnth Hk HC) as (m & c' & E & HS); [rewrite map_length; auto|].
      rewrite E. cbn [bind]. unfold rowOf. rewrite (bufAt_firstn Hk HS). apply read_settled; [exact Hk|]. exact HS.
    - destruct HC as (V' & U & HR & HP & HU). rewrite (crep_keepK_throw nthel Hk HR); auto.
      destruct (covers_len Hk HP HU) as [[H1 _] _]. rewrite map_length in H1.
      destruct (Nat.lt_ge_cases (length V') k) as [|H2]; auto. specialize (H1 H2). lia.
  Qed.

  Lemma rowOf_ok V q L c : bufOk k V (map (entElem RNum dim pt q) L) c ->
    if (k <=? length L)%nat then exists l, rowOf k c = Ok l /\ nearest k (entDist RNum dim pt q) L l
    else rowOf k c = UB.
  Proof.
    intros HB. pose proof (bufOk_covers HB) as HC. pose proof HB as (HR & (U & HP & HU) & _ & HS).
    destruct (covers_len Hk HP HU) as [HL _]. rewrite map_length in HL. unfold rowOf.
    destruct (Nat.leb_spec k (length L)) as [Hle|Hgt].
    - destruct HS as [Hp Hc]; [tauto|]. pose proof (covers_settled Hnth Hk HC Hp Hc) as HSet.
      rewrite (bufAt_firstn Hk HSet). apply read_settled; [exact Hk|]. exact HSet.
    - pose proof (crep_hasK Hk HR) as HK.
      destruct (Nat.leb_spec k (length V)); [lia|]. unfold hasK in HK. destruct HR as (H1 & _). rewrite H1 in HK.
      apply Nat.leb_gt in HK. apply readEntries_unset. apply in_map_iff. exists (k - 1)%nat.
      split; [|apply in_seq; lia]. unfold bufAt. destruct (Nat.ltb_spec (k - 1) (bptr (cb c))); auto. lia.
  Qed.

  Notation answers L := (fun q l => nearest k (entDist RNum dim pt (pt q)) L l).

  Lemma rows_ok (f : cbuf -> res (list ent)) L st bufs :
    (forall V q c, bufOk k V (map (entElem RNum dim pt q) L) c ->
       exists l, f c = Ok l /\ nearest k (entDist RNum dim pt q) L l) ->
    stOk L st bufs -> exists rows, mapRes f bufs = Ok rows /\ Forall2 (answers L) qits rows.
  Proof.
    intros Hf (HLb & V & _ & HB). apply mapRes_along; auto. intros i c x Hc Hx.
    assert (Hi : (i < n)%nat) by (apply nth_error_Some; congruence).
    destruct (HB i) as (c' & Ec & HO); [lia|]. rewrite Hc in Ec. injection Ec as <-.
    rewrite (qp_nth _ Hx) in HO. eapply Hf; eauto.
  Qed.
  Lemma rows_fail (f : cbuf -> res (list ent)) (o : forall B, res B) L st bufs :
    (forall B C (g : B -> res C), bind (o B) g = o C) ->
    (forall V q c, bufOk k V (map (entElem RNum dim pt q) L) c -> f c = o _) ->
    n <> 0%nat -> stOk L st bufs -> mapRes f bufs = o _.
  Proof.
    intros Ho Hf Hn (HLb & V & _ & HB). destruct (HB 0%nat) as (c & Ec & HO); [lia|].
    destruct bufs as [|c' bufs]; [discriminate|]. cbn in Ec. injection Ec as ->.
    cbn [mapRes]. rewrite (Hf _ _ _ HO). apply Ho.
  Qed.

  Theorem dualBase_ok b : n <> 0%nat -> (forall q, In q qits -> okT (pt q) (0%nat, b)) ->
    if (k <=? bt_cur b)%nat then
      exists rows, dualBase dim pt nthel sched qt b k = Ok rows /\ Forall2 (answers (bEnts 0 b)) qits rows
    else dualBase dim pt nthel sched qt b k = Throw.
  Proof.
    intros Hn HT. destruct (dual_step HT Hn stOk_fresh) as (R & st & bufs & ER & E & HS).
    unfold dualBase. rewrite (qo_root HQ), ER, (qo_cur HQ), E. cbn [bind].
    assert (HL : length (bEnts 0 b) = bt_cur b).
    { assert (H0 : exists q, In q qits) by (destruct qits as [|q l]; [cbn in Hn; lia|exists q; left; auto]).
      destruct H0 as (q0 & Hq0). destruct (HT q0 Hq0) as (T & _). cbn [snd] in T.
      rewrite (to_cur T). unfold blive. rewrite <- (liveEnts_items 0), map_length. reflexivity. }
    rewrite <- HL. cbn [app] in HS.
    destruct (k <=? length (bEnts 0 b))%nat eqn:Ek.
    - apply (rows_ok (keepRow nthel k)) in HS; auto.
      intros V q c HB. apply keepRow_ok in HB. rewrite Ek in HB. exact HB.
    - apply (@rows_fail (keepRow nthel k) (fun B => Throw) _ _ _ (fun _ _ _ => eq_refl)) in HS; auto.
      intros V q c HB. apply keepRow_ok in HB. rewrite Ek in HB. exact HB.
  Qed.

  (** *** The forest *)
  Lemma knnBufs_ok b : bt_cur b <> 0%nat -> (k <= bt_cur b)%nat -> forall qs, (forall q, In q qs -> okT (pt q) (0%nat, b)) ->
    exists bufs, knnBufs dim pt nthel b qs (freshBufs RNum A k (length qs)) = Ok bufs /\ length bufs = length qs /\
      forall i x, nth_error qs i = Some x -> exists c, nth_error bufs i = Some c /\
        settled k (map (entElem RNum dim pt (pt x)) (bEnts 0 b)) c.
  Proof.
    intros Hne Hle. induction qs as [|q qs IH]; intros HT.
    - exists []. split; auto. split; auto. intros [|i] x H; discriminate.
    - destruct IH as (bufs & E & HL & HB); [intros; apply HT; right; auto|].
      assert (HO := HT q (or_introl eq_refl)). destruct HO as (T & _ & HN). cbn [snd] in *.
      pose proof (@knnSingle_spec dim A pt nthel Hnth k Hk (pt q) false false 0 b [] (onSlice k false (freshSlice RNum A k)) T Hne) as H.
      cbn [length plus app] in H.
      specialize (H (fun e He => @okT_near dim A pt (pt q) (0%nat, b) e (HT q (or_introl eq_refl)) He)
                    (fun e He => match He with end) (@fresh_covers A k Hk)).
      apply Nat.leb_le in Hle. rewrite Hle in H. destruct H as (c & Ec & HS).
      exists (c :: bufs). unfold freshBufs in *. cbn [length repeat knnBufs].
      split; [|split; [cbn; lia|]].
      + rewrite Ec. cbn [bind]. rewrite E. reflexivity.
      + intros [|i] x Hx; cbn in *; [injection Hx as <-; eauto|apply HB; auto].
  Qed.

  Lemma knnBufs_throw b : bt_cur b <> 0%nat -> (bt_cur b < k)%nat -> forall qs, qs <> [] -> (forall q, In q qs -> okT (pt q) (0%nat, b)) ->
    knnBufs dim pt nthel b qs (freshBufs RNum A k (length qs)) = Throw.
  Proof.
    intros Hne Hlt [|q qs] Hqs HT; [congruence|].
    assert (HO := HT q (or_introl eq_refl)). destruct HO as (T & _ & HN). cbn [snd] in *.
    pose proof (@knnSingle_spec dim A pt nthel Hnth k Hk (pt q) false false 0 b [] (onSlice k false (freshSlice RNum A k)) T Hne) as H.
    cbn [length plus app] in H.
    specialize (H (fun e He => @okT_near dim A pt (pt q) (0%nat, b) e (HT q (or_introl eq_refl)) He)
                  (fun e He => match He with end) (@fresh_covers A k Hk)).
    apply Nat.leb_gt in Hlt. rewrite Hlt in H. unfold freshBufs. cbn [length repeat knnBufs]. rewrite H. reflexivity.
  Qed.

  Lemma ckeepK_ok (V all : list elem) (c : cbuf) : bufOk k V all c -> (k <= length V)%nat ->
    exists m, ckeepK nthel c = Ok (m, c) /\ dom k V (fst m).
  Proof.
    intros HB HL. destruct (qRadius_ok Hnth Hk HB) as (r & E & _ & Hd & _). destruct HB as (HR & _).
    unfold qRadius in E. rewrite (crep_hasK Hk HR) in E. apply Nat.leb_le in HL. rewrite HL in E.
    apply Nat.leb_le in HL. destruct (ckeepK nthel c) as [[m c1]| | |]; try discriminate. cbn [bind] in E.
    injection E as <- <-. exists m. split; auto.
  Qed.

  Lemma leafMax_ok bufs (V all : nat -> list elem) m : forall s new,
    (forall i, (s <= i < s + m)%nat -> exists c, nth_error bufs i = Some c /\ bufOk k (V i) (all i) c /\ (k <= length (V i))%nat) ->
    exists r, leafMax nthel (seq s m) new bufs = Ok (r, bufs) /\ new <= r /\
      forall i, (s <= i < s + m)%nat -> dom k (V i) r.
  Proof.
    induction m as [|m IH]; intros s new H; cbn [seq leafMax].
    - exists new. split; auto. split; [lra|]. intros i Hi. lia.
    - destruct (H s) as (c & Ec & HB & HL); [lia|]. rewrite Ec.
      destruct (ckeepK_ok HB HL) as (x & Ex & Hd). rewrite Ex. cbn [bind]. rewrite (upd_id _ _ Ec).
      destruct (IH (S s) (nmax2 RNum new (fst x))) as (r & Er & Hr & HD); [intros i Hi; apply H; lia|].
      pose proof (nmax2_l new (fst x)). pose proof (nmax2_r new (fst x)).
      exists r. split; [exact Er|]. split; [cbn in *; lra|]. intros i Hi. destruct (Nat.eq_dec i s) as [->|].
      + eapply dom_le; [|exact Hd]. cbn in *; lra.
      + apply HD. lia.
  Qed.

  Lemma updDual_ok bufs (V all : nat -> list elem) t : inv (fun _ : nT RNum => True) dim pt qits qpres t -> leavesFull t ->
    (forall i, (rs t <= i < re t)%nat -> exists c, nth_error bufs i = Some c /\ bufOk k (V i) (all i) c /\ (k <= length (V i))%nat) ->
    exists st, updDual nthel upar t bufs = Ok (st, bufs) /\ radsOk k t st V.
  Proof.
    induction t as [s e np b|d sv s e b Ql IHl Qr IHr]; intros HI HF H; cbn [updDual]; cbn [kRange fst snd] in H.
    - cbn in HF. destruct (H s) as (c & Ec & HB & HL); [lia|]. rewrite Ec.
      destruct HB as (HR & _). rewrite (crep_hasK Hk HR). apply Nat.leb_le in HL. rewrite HL.
      destruct (@leafMax_ok bufs V all (e - s) s (nzero RNum)) as (r & Er & _ & HD); [intros i Hi; apply H; lia|].
      rewrite Er. cbn [bind]. exists (RLeaf r). split; auto. cbn [radsOk kRange fst snd rad]. split; auto.
      intros i Hi. right. apply HD. lia.
    - assert (HI' := HI). cbn [inv] in HI'. destruct HI' as (I1 & I2 & I3 & I4 & I5 & _). destruct HF as [F1 F2].
      assert (J1 := I1). assert (J2 := I2). apply inv_range in J1, J2.
      destruct IHl as (sl & El & Rl); auto; [intros i Hi; apply H; lia|].
      destruct IHr as (sr & Er & Rr); auto; [intros i Hi; apply H; lia|].
      rewrite El. cbn [bind]. rewrite Er. cbn [bind]. eexists. split; [reflexivity|].
      cbn [radsOk]. split; auto. cbn [kRange fst snd rad]. intros i Hi.
      set (r := if upar _ then _ else _).
      assert (Hr : rad sl <= r /\ rad sr <= r).
      { unfold r. destruct (upar _).
        - split; [apply nmax2_l|apply nmax2_r].
        - split; [|apply nmax2_r]. eapply Rle_trans; [apply (nmax2_r (nzero RNum))|apply nmax2_l]. }
      destruct (node_cover Hk (qo_pres HQ) HI Hi) as [Hc|Hc].
      + apply (@radOk_le A k (rad sl)); [tauto|]. eapply radsOk_root; eauto.
      + apply (@radOk_le A k (rad sr)); [tauto|]. eapply radsOk_root; eauto.
  Qed.

  Lemma buffer_step b : n <> 0%nat -> (k <= bt_cur b)%nat -> (forall q, In q qits -> okT (pt q) (0%nat, b)) ->
    exists bufs st, knnBufs dim pt nthel b qits (freshBufs RNum A k n) = Ok bufs /\
      updDual nthel upar Q bufs = Ok (st, bufs) /\ stOk (bEnts 0 b) st bufs.
  Proof.
    intros Hn Hle HT.
    assert (H0 : exists q, In q qits) by (destruct qits as [|q l]; [cbn in Hn; lia|exists q; left; auto]).
    destruct H0 as (q0 & Hq0). destruct (HT q0 Hq0) as (T & Hne & _). cbn [snd] in *.
    destruct (knnBufs_ok Hne Hle qits HT) as (bufs & E & HL & HB).
    set (V := fun i => map (mk i) (bEnts 0 b)).
    assert (HV : forall i, (0 <= i < n)%nat -> exists c, nth_error bufs i = Some c /\ bufOk k (V i) (V i) c /\ (k <= length (V i))%nat).
    { intros i Hi. destruct (nth_error qits i) as [x|] eqn:Ex; [|apply nth_error_None in Ex; lia].
      destruct (HB i x Ex) as (c & Ec & HS). exists c. split; auto. unfold V. rewrite (qp_nth _ Ex).
      pose proof HS as (HR & Hp & Hc & G & HPG & HLF & _). split.
      - split; auto. split; [exists []; rewrite app_nil_r; split; auto; intros w []|]. split; [|auto].
        intros e He. apply (@okT_near dim A pt (pt x) (0%nat, b) e); auto. apply HT. eapply nth_error_In; eauto.
      - apply Permutation_length in HPG. rewrite app_length in HPG. lia. }
    destruct (@updDual_ok bufs V V Q (qo_inv HQ) (qo_full HQ)) as (st & Es & HR).
    { rewrite (qo_range HQ). exact HV. }
    exists bufs, st. split; auto. split; auto. split; auto. exists V. split; auto.
    intros i Hi. destruct (HV i Hi) as (c & Ec & HO & _). exists c. auto.
  Qed.

  Lemma runTrees_ok : n <> 0%nat -> forall ts, (forall nb, In nb ts -> fst nb <> 0%nat /\ forall q, In q qits -> okT (pt q) nb) ->
    forall L st bufs, stOk L st bufs ->
    exists st' bufs', runTrees dim pt nthel sched qits upar Q ts (st, bufs) = Ok (st', bufs') /\
      stOk (L ++ flat_map (fun nb => bEnts (fst nb) (snd nb)) ts) st' bufs'.
  Proof.
    intros Hn. induction ts as [|[id b] ts IH]; intros HT L st bufs HS; cbn [runTrees flat_map].
    - rewrite app_nil_r. eauto.
    - destruct (HT (id, b) (or_introl eq_refl)) as [Hid HO]. cbn [fst snd] in *.
      apply Nat.eqb_neq in Hid. rewrite Hid.
      destruct (dual_step HO Hn HS) as (R & st1 & b1 & ER & E & HS1). rewrite ER, E. cbn [bind].
      rewrite app_assoc. apply IH; auto. intros nb Hnb. apply HT. right; auto.
  Qed.

  Notation entsOf ts := (flat_map (fun nb : nat * btree RNum A => bEnts (fst nb) (snd nb)) ts).
  (** What the forest search gives on the non-empty trees. *)
  Theorem ltDualBase_ok (t : ltree RNum A) : n <> 0%nat ->
    (forall nb, In nb (fullTrees t) -> forall q, In q qits -> okT (pt q) nb) ->
    let L := entsOf (fullTrees t) in
    if negb (bt_cur (lt_buf t) =? 0)%nat && (bt_cur (lt_buf t) <? k)%nat then ltDualBase dim pt nthel sched upar qt t k = Throw
    else if (k <=? length L)%nat then
      exists rows, ltDualBase dim pt nthel sched upar qt t k = Ok rows /\ Forall2 (answers L) qits rows
    else ltDualBase dim pt nthel sched upar qt t k = UB.
  Proof.
    intros Hn HT L. unfold ltDualBase. rewrite (qo_root HQ), (qo_cur HQ).
    assert (FIN : forall ts st bufs, stOk L st bufs ->
      runTrees dim pt nthel sched qits upar Q ts (freshR Q, freshBufs RNum A k n) = Ok (st, bufs) ->
      if (k <=? length L)%nat then
        exists rows, ('(_, bufs) <- runTrees dim pt nthel sched qits upar Q ts (freshR Q, freshBufs RNum A k n) ;;
          mapRes (rowOf k) bufs) = Ok rows /\ Forall2 (answers L) qits rows
      else ('(_, bufs) <- runTrees dim pt nthel sched qits upar Q ts (freshR Q, freshBufs RNum A k n) ;;
          mapRes (rowOf k) bufs) = UB).
    { intros ts st bufs HS E. rewrite E. cbn [bind]. destruct (k <=? length L)%nat eqn:Ek.
      - apply (rows_ok (@rowOf RNum A k)) in HS; auto.
        intros V q c HB. apply rowOf_ok in HB. rewrite Ek in HB. exact HB.
      - apply (@rows_fail (@rowOf RNum A k) (fun B => UB) _ _ _ (fun _ _ _ => eq_refl)) in HS; auto.
        intros V q c HB. apply rowOf_ok in HB. rewrite Ek in HB. exact HB. }
    set (ST := map (fun kb => (S (fst kb), snd kb))
        (filter (fun kb => Nat.testbit (lt_mask t) (fst kb)) (combine (seq 0 (length (lt_trees t))) (lt_trees t)))).
    assert (HST : forall nb, In nb ST -> fst nb <> 0%nat).
    { intros nb H. apply in_map_iff in H as (kb & <- & _). cbn. lia. }
    assert (EF : fullTrees t = (if (bt_cur (lt_buf t) =? 0)%nat then [] else [(0%nat, lt_buf t)]) ++ ST) by reflexivity.
    assert (HT2 : forall nb, In nb ST -> fst nb <> 0%nat /\ forall q, In q qits -> okT (pt q) nb).
    { intros nb H. split; auto. apply HT. rewrite EF. apply in_or_app; auto. }
    destruct (bt_cur (lt_buf t) =? 0)%nat eqn:Ez.
    - cbn [negb andb]. rewrite EF. cbn [app].
      destruct (runTrees_ok Hn ST HT2 stOk_fresh) as (st & bufs & E & HS).
      apply (FIN ST st bufs); auto. unfold L. rewrite EF. exact HS.
    - cbn [negb andb]. assert (HTb : forall q, In q qits -> okT (pt q) (0%nat, lt_buf t)).
      { apply HT. rewrite EF. left; auto. }
      apply Nat.eqb_neq in Ez. rewrite EF. cbn [app].
      destruct (Nat.ltb_spec (bt_cur (lt_buf t)) k) as [Hlt|Hge].
      + cbn [runTrees Nat.eqb snd]. rewrite knnBufs_throw; auto. destruct qits; [cbn in Hn; lia|congruence].
      + destruct (buffer_step Hn Hge HTb) as (bufs & st & E1 & E2 & HS1).
        destruct (runTrees_ok Hn ST HT2 HS1) as (st2 & bufs2 & E & HS).
        apply (FIN ((0%nat, lt_buf t) :: ST) st2 bufs2).
        * unfold L. rewrite EF. exact HS.
        * cbn [runTrees Nat.eqb snd]. rewrite E1. cbn [bind]. rewrite E2. cbn [bind]. exact E.
  Qed.
End Main.
