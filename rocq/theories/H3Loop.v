(** The quickhull loop: the points seen by the facets. *)
From Coq Require Import Reals Lra Lia Psatz List Bool Permutation.
From Verif Require Import Base Num Hull2dModel H3Model H3Geom H3Surf H3Heap H3Edge H3Front H3Link H3Place H3Round.
Set Implicit Arguments.
Open Scope R_scope.

(** any four distinct points are well off a common plane *)
Definition margin (Q : list p3) (eps : R) : Prop := forall a b c d, In a Q -> In b Q -> In c Q -> In d Q ->
  a <> b -> a <> c -> a <> d -> b <> c -> b <> d -> c <> d -> eps < Rabs (svol a b c d).

Lemma filter_lt A (np : A -> bool) p l : In p l -> np p = false -> (length (filter np l) < length l)%nat.
Proof.
  intros Hp E0. induction l as [|x l IH]; [destruct Hp|]. destruct Hp as [Ex|H].
  - subst x. cbn [filter length]. rewrite E0. pose proof (filter_length_le np l). lia.
  - specialize (IH H). cbn [filter length]. destruct (np x); cbn [length]; lia.
Qed.

Section Loop.
  Variable Q : list p3.
  Variable eps : R.
  Hypothesis eps0 : 0 <= eps.
  Hypothesis GP : margin Q eps.

  Record RInv (h : heap3) (W : p3 -> Prop) : Prop := {
    ri_S : SInv h W;
    ri_WQ : forall q, W q -> In q Q;
    ri_see : forall i f q k, lv h i f -> In (q, k) (see f) -> k = i /\ In q Q /\ eps < ht (corners f) q;
    ri_cov : forall q, In q Q -> (exists i f k, lv h i f /\ In (q, k) (see f)) \/ forall i f, lv h i f -> ht (corners f) q <= eps;
  }.

  Lemma off h W i f q : SInv h W -> (forall q, W q -> In q Q) -> lv h i f -> In q Q -> ~ corner (corners f) q -> ht (corners f) q <= eps -> ht (corners f) q < - eps.
  Proof.
    intros SI WQ L Hq Nc Le. destruct (si_nd SI L) as (N1 & N2 & N3). unfold corners in *; cbn [corner ht] in *.
    assert (X : eps < Rabs (svol (fa f) (fb f) (fc f) q)).
    { apply GP; auto; try (apply WQ; eapply (si_W SI L); cbn; auto; fail); intros E; apply Nc; auto. }
    unfold Rabs in X. destruct (Rcase_abs _); lra.
  Qed.

  (** [redis] moves the points as the serial code does, to new facets that see none *)
  Definition redis_ok (redis : heap3 -> list nat -> list nat -> res heap3) : Prop := forall h2 fs n0 m, length h2 = (n0 + m)%nat ->
    (forall k, In k (seq n0 m) -> exists f, lv h2 k f /\ see f = []) -> (forall i, In i fs -> (i < n0)%nat /\ exists f, lv h2 i f) ->
    redis h2 fs (seq n0 m) = @redistribute RNum eps h2 fs (seq n0 m).

  (** the last part of the loop body, for a given apex *)
  Lemma grow_ok redis h W start s (p : p3) : redis_ok redis -> RInv h W -> lv h start s -> In (p, start) (see s) ->
    exists fr fs h4, @computeFrontier RNum eps h (p, start) = Ok (fr, fs) /\ consecutive fr = true /\
      @grow RNum eps redis h p fr fs = Ok h4 /\
      RInv h4 (fun q => W q \/ q = p) /\ (tot h4 < tot h)%nat /\ (exists f, lv h4 (length h) f) /\
      (forall e, In e fr -> bndE h eps p e) /\ (forall u v, bnd h eps p u v -> exists e, In e fr /\ key e = (u, v)) /\
      NoDup fs /\ (forall j, In j fs <-> vis h eps p j) /\
      forall k f, (k < length h)%nat -> ~ In k fs -> (forall e, In e fr -> eff e <> Some k) -> (lv h4 k f <-> lv h k f).
  Proof.
    intros RD R Ls Hs.
    pose proof (ri_S R) as SI. destruct (@ri_see _ _ R _ _ _ _ Ls Hs) as (_ & Qp & Pp).
    assert (Np : ~ W p) by (intros Wp; pose proof (@si_le h W SI start s p Ls Wp); lra).
    assert (MP : forall i f, lv h i f -> @visible RNum eps f p = false -> ht (corners f) p < 0).
    { intros i f L V. assert (X : ht (corners f) p < - eps); [|lra]. eapply (@off h W i f p); eauto; [apply R| |].
      - intros C. apply Np. eapply (si_W SI L); eauto.
      - unfold visible, sees in V. cbn [nlt RNum] in V. apply Rltb_false in V. rewrite vol_R in V. auto. }
    assert (Vs : @visible RNum eps s p = true).
    { unfold visible, sees. cbn [nlt RNum]. apply Rltb_true. rewrite vol_R. auto. }
    destruct (@frontier_ok h W SI eps eps0 p MP start s Ls Vs) as (fr & fs & EF & NE & Ch & Cl & Fnd & Fb & Fall & NF & Ffs).
    exists fr, fs. unfold grow.
    pose proof (cyc Ch Cl) as Fcyc.
    assert (m0 : (0 < length fr)%nat) by (destruct fr; [congruence|cbn; lia]).
    destruct (@links_ok h W SI eps eps0 p MP Np fr Fcyc Fb m0) as (h2 & E2 & M2 & DN).
    change (foldR _ (seq 0 (length fr)) (h ++ _)) with (linkAll h fr (h1 h eps p fr) (seq 0 (length fr))). cbv zeta. rewrite E2. cbn [bind].
    destruct (Nat.eqb_spec (length fr) 0) as [E|_]; [lia|].
    assert (L2 : length h2 = (length h + length fr)%nat) by (rewrite (md_len M2); apply h1_len).
    destruct (@redistribute_ok eps h2 (length h) (fun v => negb (eq3 RNum p v)) (seq (length h) (length fr))) with (fs := fs) as (h3 & E3 & J3).
    { intros k. rewrite in_seq, L2. lia. }
    { intros k Hk. apply in_seq in Hk. destruct (@fr_nth fr m0 (k - length h)) as [e He]; [lia|].
      destruct (@Mid_new h W SI eps eps0 p MP fr Fb m0 _ _ _ M2 He) as (f2 & Lf & _ & _ & C & S). replace (length h + (k - length h))%nat with k in Lf by lia. eauto. }
    { intros k f v Hk Lf Ev. apply in_seq in Hk. destruct (@fr_nth fr m0 (k - length h)) as [e He]; [lia|].
      destruct (@Mid_new h W SI eps eps0 p MP fr Fb m0 _ _ _ M2 He) as (f2 & Lf2 & _ & _ & C & S). replace (length h + (k - length h))%nat with k in Lf2 by lia.
      rewrite (lv_fun Lf Lf2). apply negb_false_iff in Ev. unfold keep. rewrite C, Ev. rewrite !andb_false_r. auto. }
    { intros i Hi. apply Ffs in Hi. destruct Hi as (f & L & _). split; [eapply lv_len; eauto|]. destruct (Mid_old M2 L) as (f2 & Lf & _). eauto. }
    rewrite (RD h2 fs (length h) (length fr)); auto; [|
      intros k Hk; apply in_seq in Hk; destruct (@fr_nth fr m0 (k - length h)) as [e He]; [lia|];
      destruct (@Mid_new h W SI eps eps0 p MP fr Fb m0 _ _ _ M2 He) as (f2 & Lf & _ & _ & C & S); replace (length h + (k - length h))%nat with k in Lf by lia; eauto |
      intros i Hi; apply Ffs in Hi; destruct Hi as (f & L & _); split; [eapply lv_len; eauto|]; destruct (Mid_old M2 L) as (f2 & Lf & _); eauto].
    rewrite E3. cbn [bind].
    destruct (@delete_ok fs h3 NF) as (h4 & E4 & Ln4 & D4 & T4).
    { intros i Hi. apply Ffs in Hi. destruct Hi as (f & L & _). destruct (Mid_old M2 L) as (f2 & Lf & _). destruct (ss_ex (j_ss J3) Lf) as [z Lz]. eauto. }
    rewrite E4. exists h4. split; [exact EF|]. split; [apply (consecutive_ok Ch Cl)|]. split; [reflexivity|].
    assert (D4' : forall k f, lv h4 k f <-> (~ vis h eps p k /\ lv h3 k f)) by (intros k f; rewrite D4, Ffs; tauto).
    pose proof (@SInv4 h W SI eps eps0 p MP Np fr Fcyc Fnd Fb Fall m0 h2 h3 h4 M2 DN (j_ss J3) D4') as SI4.
    pose proof (@live4 h W SI eps eps0 p MP Np fr Fb Fall m0 h2 h3 h4 M2 DN (j_ss J3) D4') as LV4.
    assert (SeeOld : forall k f4 f, lv h k f -> lv h3 k f4 -> see f4 = see f).
    { intros k f4 f L Lf. destruct (Mid_old M2 L) as (f2 & Lf2 & (_ & _ & _ & G)).
      rewrite (@j_old _ _ _ _ _ _ _ J3 k f2 f4 (lv_len L) Lf2 Lf). auto. }
    assert (SeeOf : forall k f, lv h k f -> seeOf h2 k = map fst (see f)).
    { intros k f L. destruct (Mid_old M2 L) as (f2 & Lf2 & (_ & _ & _ & G)). unfold seeOf. rewrite Lf2, G. auto. }
    assert (KeepNew : forall (f : fct3) q, @keep RNum eps f q = true -> eps < ht (corners f) q).
    { intros f q K. unfold keep in K. rewrite !andb_true_iff in K. destruct K as [[[K _] _] _]. unfold visible, sees in K. cbn [nlt RNum] in K.
      apply Rltb_true in K. rewrite vol_R in K. auto. }
    assert (KeepNot : forall (f : fct3) q, @keep RNum eps f q = false -> ht (corners f) q <= eps).
    { intros f q K. unfold keep in K. rewrite !andb_false_iff, !negb_false_iff, !eq3_iff in K.
      destruct K as [[[K|K]|K]|K]; [|subst q; rewrite ht_corner; [lra|unfold corners; cbn; auto]..].
      unfold visible, sees in K. cbn [nlt RNum] in K. apply Rltb_false in K. rewrite vol_R in K. auto. }
    split; [|split; [|split; [|split; [exact Fb|split; [exact Fall|split; [exact NF|split; [exact Ffs|]]]]]]].
    - split; auto.
      + intros q [Wq| ->]; auto. eapply ri_WQ; eauto.
      + intros k f4 q k' L4 Hin. pose proof L4 as L3. apply D4' in L3. destruct L3 as [Nk L3].
        destruct (LV4 k f4 L4) as [(f & Lk & _ & L & C & _)|(i & e & -> & Hi & _)].
        * rewrite (SeeOld _ _ _ L L3) in Hin. rewrite C. eapply (ri_see R); eauto.
        * destruct (@j_new _ _ _ _ _ _ _ J3 (length h + i)%nat f4 q k') as (A & B & D); auto; [lia|]. split; auto. split; auto.
          apply in_flat_map in D. destruct D as (j & Hj & Dj). apply Ffs in Hj. destruct Hj as (g & Lg & _).
          rewrite (SeeOf _ _ Lg) in Dj. apply in_map_iff in Dj. destruct Dj as ([q' j'] & Eq & Hq). cbn in Eq. subst q'.
          eapply (ri_see R); eauto.
      + intros q Hq. destruct (ri_cov R q Hq) as [(i & f & k & L & Hin)|Hc].
        * destruct (vis_dec h eps p i) as [Vi|Ni].
          -- assert (Hd : In q (flat_map (seeOf h2) fs)).
             { apply in_flat_map. exists i. split; [apply Ffs; auto|]. rewrite (SeeOf _ _ L). apply in_map_iff. exists (q, k); auto. }
             destruct (j_cov J3 _ Hd) as [(k' & f3 & Hk & L3 & Hq3)|Hno].
             ++ left. exists k', f3, k'. split; auto. apply D4'. split; auto. intros V. destruct V as (g & Lg & _). apply lv_len in Lg. lia.
             ++ right. intros k' f4 L4. apply Rle_trans with 0; [|lra].
                apply (@dropped h W SI eps eps0 p MP Np fr Fcyc Fnd Fb Fall m0 h2 h3 h4 M2 DN (j_ss J3) D4' q i f) with k'; auto.
                { destruct (@ri_see _ _ R _ _ _ _ L Hin) as (_ & _ & X). lra. }
                intros e He. apply In_nth_error in He. destruct He as [a Ha]. assert (La : (a < length fr)%nat) by (apply nth_error_Some; congruence).
                destruct (@add_new h W SI eps eps0 p MP fr Fb m0 h2 h3 h4 M2 (j_ss J3) D4' a e Ha) as (g4 & Lg4 & Cg).
                pose proof Lg4 as Lg3. apply D4' in Lg3. destruct Lg3 as [_ Lg3].
                pose proof (KeepNot g4 q (Hno (length h + a)%nat g4 ltac:(apply in_seq; lia) Lg3)) as Le.
                assert (Z : ht (corners g4) q <= 0); [|rewrite Cg in Z; auto].
                destruct (p3_eq_dec q (fa g4)) as [->|Na]; [rewrite ht_corner; [lra|cbn; auto]|].
                destruct (p3_eq_dec q (fb g4)) as [->|Nb]; [rewrite ht_corner; [lra|cbn; auto]|].
                destruct (p3_eq_dec q (fc g4)) as [->|Nc]; [rewrite ht_corner; [lra|cbn; auto]|].
                assert (X : ht (corners g4) q < - eps); [|lra].
                eapply (@off h4 _ (length h + a)%nat g4 q SI4); auto; [intros x [Wx| ->]; auto; eapply ri_WQ; eauto|cbn; tauto].
          -- left. destruct (@keep_old h eps p fr h2 h3 h4 M2 (j_ss J3) D4' i f L Ni) as (f4 & L4 & C4).
             exists i, f4, k. split; auto. pose proof L4 as L3. apply D4' in L3. rewrite (SeeOld _ _ _ L (proj2 L3)). auto.
        * right. intros k f4 L4. destruct (LV4 k f4 L4) as [(f & Lk & _ & L & C & _)|(i & e & -> & Hi & A & B & C & _)]; [rewrite C; eauto|].
          assert (Nqp : q <> p). { intros ->. specialize (Hc _ _ Ls). lra. }
          assert (Wdec : W q \/ forall k f, lv h k f -> ht (corners f) q < 0).
          { destruct (In_dec (fun a b => p3_eq_dec a b) q (flat_map (fun j => match nth_error h j with Some (Some f) => [fa f; fb f; fc f] | _ => [] end) (seq 0 (length h)))) as [Hin|Hni].
            - left. apply in_flat_map in Hin. destruct Hin as (j & _ & Hin). destruct (nth_error h j) as [[f|]|] eqn:E; [|destruct Hin..].
              apply (@si_W _ _ SI j f q E). unfold corners; cbn [corner]. destruct Hin as [<-|[<-|[<-|[]]]]; auto.
            - right. intros j f L. assert (X : ht (corners f) q < - eps); [|lra].
              eapply (@off h W j f q); eauto; [apply R|]. intros Cq. apply Hni. apply in_flat_map. exists j. split; [apply in_seq; apply lv_len in L; lia|].
              rewrite L. unfold corners in Cq; cbn [corner] in Cq. cbn. intuition. }
          destruct Wdec as [Wq|Hq0].
          -- pose proof (@si_le h4 _ SI4 _ f4 q L4 (or_introl Wq)). lra.
          -- unfold corners; cbn [ht]. rewrite A, B, C.
             pose proof (@new_in h W SI eps eps0 p MP fr Fb q e (nth_error_In _ _ Hi) Hq0). lra.
    - assert (T1 : tot (h1 h eps p fr) = tot h).
      { unfold h1. rewrite tot_app. assert (Z : tot (map (fun e => Some (newFct RNum eps (ea e) (eb e) p)) fr) = 0%nat); [|lia].
        clear. induction fr as [|e l IH]; auto. unfold tot in *. cbn [map list_sum fold_right]. unfold list_sum in IH. rewrite IH.
        unfold newFct. destruct (mkTri RNum eps (ea e) (eb e) p) as [[? ?] ?]. auto. }
      assert (T2 : tot h2 = tot (h1 h eps p fr)).
      { symmetry. apply tot_ext; [rewrite (md_len M2); auto|]. intros k o o' Ho Ho'. destruct o as [f|].
        - destruct (@md_ex _ _ _ _ _ M2 k f Ho) as (f' & L' & (_ & _ & _ & G) & _). unfold lv in L'. rewrite L' in Ho'. inversion Ho'. cbn. congruence.
        - destruct o' as [f'|]; auto. destruct (@md_inv _ _ _ _ _ M2 k f' Ho') as [f Lf]. unfold lv in Lf. congruence. }
      pose proof (j_tot J3) as T3.
      assert (Sz : list_sum (map (szAt h3) fs) = length (flat_map (seeOf h2) fs)).
      { assert (X : forall i, In i fs -> szAt h3 i = length (seeOf h2 i)).
        { intros i Hi. apply Ffs in Hi. destruct Hi as (f & L & _). destruct (Mid_old M2 L) as (f2 & Lf & _). destruct (ss_ex (j_ss J3) Lf) as [z Lz].
          rewrite (SeeOf _ _ L), map_length. unfold szAt. rewrite Lz. cbn [szO]. now rewrite (SeeOld _ _ _ L Lz). }
        clear - X. induction fs as [|i l IH]; auto. cbn [map list_sum fold_right flat_map]. rewrite app_length, X by (left; auto).
        unfold list_sum in IH. rewrite IH; auto. intros; apply X; right; auto. }
      assert (Fl : (length (filter (fun v => negb (eq3 RNum p v)) (flat_map (seeOf h2) fs)) < length (flat_map (seeOf h2) fs))%nat).
      { assert (Hp : In p (flat_map (seeOf h2) fs)).
        { apply in_flat_map. exists start. split; [apply Ffs; exists s; auto|]. rewrite (SeeOf _ _ Ls). apply in_map_iff. exists (p, start); auto. }
        apply (@filter_lt _ _ p); [exact Hp|]. cbn beta. now rewrite eq3_refl. }
      rewrite <- Sz in Fl. eapply Nat.add_lt_mono_r. rewrite T4. eapply Nat.le_lt_trans; [exact T3|]. rewrite T2, T1. apply Nat.add_lt_mono_l. exact Fl.
    - destruct (@fr_nth fr m0 0 m0) as [e He]. destruct (@add_new h W SI eps eps0 p MP fr Fb m0 h2 h3 h4 M2 (j_ss J3) D4' 0 e He) as (g4 & Lg4 & _).
      rewrite Nat.add_0_r in Lg4. eauto.
    - intros k f Lk Nk Ne. assert (Nv : ~ vis h eps p k) by (rewrite <- Ffs; auto).
      assert (Same : forall g g4, lv h k g -> lv h3 k g4 -> g4 = g).
      { intros g g4 L L3. destruct (@md_ex _ _ _ _ _ M2 k g) as (f2 & L2' & (A & B & C & G) & Fl); [apply h1_old; auto|].
        destruct (ss_ex (j_ss J3) L2') as [z Lz]. pose proof (SeeOld _ _ _ L L3) as Es.
        rewrite (lv_fun L3 Lz) in *. cbn [setSee see] in Es. subst z.
        assert (Fl' : forall u v w l, frot f2 u v w l -> frot g u v w l).
        { intros u v w l Rf. destruct (Fl _ _ _ _ Rf) as [[(_ & i & e & He & Ke & _)|(i & e & -> & _)]|Y]; auto; [exfalso|lia].
          apply nth_error_In in He. destruct (Fb e He) as (i' & j & w' & _ & Ej & D & _). unfold key in Ke. injection Ke as Ka Kb. rewrite Ka, Kb in D.
          destruct (drt_twin SI D) as (w2 & g2 & Lg2 & Rg2).
          assert (Rg : exists l0, frot g u v w l0).
          { unfold frot in Rf. rewrite A, B, C in Rf. destruct Rf as [(->&->&->&_)|[(->&->&->&_)|(->&->&->&_)]]; unfold frot; eexists; intuition. }
          destruct Rg as [l0 Rg]. destruct (side_unique SI L Lg2 Rg Rg2) as (-> & _). apply (Ne e He). exact Ej. }
        destruct (si_nd SI L) as (N1 & N2 & N3).
        assert (Y1 : frot g (fa f2) (fb f2) (fc f2) (fab f2)) by (apply Fl'; unfold frot; auto).
        assert (Y2 : frot g (fb f2) (fc f2) (fa f2) (fbc f2)) by (apply Fl'; right; left; repeat split).
        assert (Y3 : frot g (fc f2) (fa f2) (fb f2) (fca f2)) by (apply Fl'; right; right; repeat split).
        unfold frot in Y1, Y2, Y3. rewrite A, B, C in Y1, Y2, Y3.
        assert (fab f2 = fab g) by (intuition congruence). assert (fbc f2 = fbc g) by (intuition congruence). assert (fca f2 = fca g) by (intuition congruence).
        unfold setSee. rewrite A, B, C, H, H0, H1. destruct g; reflexivity. }
      rewrite D4'. split.
      + intros [_ L3]. destruct (ss_inv (j_ss J3) L3) as [f2 L2']. destruct (md_inv M2 L2') as [f1 L1]. apply h1_old in L1; auto.
        now rewrite (Same _ _ L1 L3).
      + intros L. split; auto. destruct (Mid_old M2 L) as (f2 & L2' & _). destruct (ss_ex (j_ss J3) L2') as [z Lz].
        pose proof (Same _ _ L Lz) as E. now rewrite E in Lz.
  Qed.

  Lemma body_ok h W start s (p : p3) S0 f0 : RInv h W -> lv h start s -> In (p, start) (see s) -> hh S0 = h ->
    (if (hn S0 <? 512)%nat then facetWalk S0 else Ok (hH S0)) = Ok f0 ->
    @furthestApex RNum eps S0 f0 = Ok (Some (p, start)) ->
    exists h4 n', @round RNum eps S0 = Ok (Some (Hull h4 (length h) n')) /\
      RInv h4 (fun q => W q \/ q = p) /\ (tot h4 < tot h)%nat /\ exists f, lv h4 (length h) f.
  Proof.
    intros R Ls Hs Eh Ew Ea. unfold round. rewrite Ew. cbn [bind]. rewrite Ea. cbn [bind]. rewrite Eh. cbn [fst snd].
    destruct (@grow_ok (@redistribute RNum eps) h W start s p) as (fr & fs & h4 & EF & EC & EG & R4 & T4 & L4 & _); auto; [intros ? ? ? ? _ _ _; auto|].
    rewrite EF. cbn [bind]. rewrite EC. cbn [negb]. rewrite EG. cbn [bind]. eauto 8.
  Qed.
End Loop.
