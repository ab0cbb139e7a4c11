(** Insertion into the logarithmic forest. *)
From Coq Require Import ZArith.
From Verif Require Import Base Num KdModel KdSpec RangeModel RangeProofs BatchModel BatchSlice BatchTree BatchMedian BatchPack BatchErase BatchObj BatchRun
  LogModel LogPlan LogExec.
Set Implicit Arguments.

Section Insert.
  Variable N : Num.
  Variable ok : nT N -> Prop.
  Variable dim : nat.
  Variable A : Type.
  Variable pt : A -> list (nT N).
  Notation okI := (okItem N ok dim pt).
  Notation tOk := (treeOk ok dim pt).
  Variable dflt : A.
  Variables bbuild sbuild : btree N A -> list A -> res (btree N A).
  Variable B : nat.
  Hypothesis HB : 0 < B.
  Hypothesis Hdim : 0 < dim.
  Variable smax : nat.
  Hypothesis Hsb : buildSpec ok dim pt smax sbuild (pre false).
  Hypothesis Hbb : buildSpec ok dim pt B bbuild (pre true).

  Notation lt := (ltree N A).

  (** The points in the forest. *)
  Definition stored (t : lt) : list A := blive (lt_buf t) ++ flat_map (@blive N A) (lt_trees t).

  Record slotOk (k : nat) (bit : bool) (b : btree N A) : Prop := {
    so_ok : tOk b; so_fresh : fresh b; so_cap : bt_cap b = 2 ^ k * B;
    so_cur : if bit then 2 ^ k * B < 2 * bt_cur b else bt_cur b = 0 }.

  Record ltInv (t : lt) : Prop := {
    li_buf : tOk (lt_buf t); li_fresh : fresh (lt_buf t); li_cap : bt_cap (lt_buf t) = B;
    li_pre : pre true (lt_buf t) B;
    li_mask : lt_mask t < 2 ^ length (lt_trees t);
    li_slots : forall k b, nth_error (lt_trees t) k = Some b -> slotOk k (Nat.testbit (lt_mask t) k) b;
    li_max : forall k, k < length (lt_trees t) -> 2 ^ k * B <= smax }.

  Definition ltSep (t : lt) : Prop :=
    treeSep pt (lt_buf t) /\ forall k b, nth_error (lt_trees t) k = Some b -> treeSep pt b.
  (** Every used slot is full. *)
  Definition ltFull (t : lt) : Prop :=
    forall k b, nth_error (lt_trees t) k = Some b -> Nat.testbit (lt_mask t) k = true -> bt_cur b = 2 ^ k * B.

  (** How many buffers' worth of points go into the static trees. *)
  Definition carried (n bsz : nat) : nat := n / B + (if B <? n mod B + bsz then 1 else 0).

  Lemma carried_bounds n bsz : bsz <= B -> carried n bsz * B <= n + bsz /\ n + bsz <= carried n bsz * B + B.
  Proof.
    intros H. unfold carried. pose proof (Nat.div_mod n B). pose proof (Nat.mod_upper_bound n B).
    destruct (Nat.ltb_spec B (n mod B + bsz)); nia.
  Qed.

  Lemma sum_live_le (T : list (btree N A)) ks :
    (forall k, In k ks -> length (liveAt T k) <= 2 ^ k * B) ->
    length (flat_map (liveAt T) ks) <= list_sum (map (fun t => 2 ^ t * B) ks).
  Proof.
    induction ks as [|k ks IH]; intros H; cbn; auto. rewrite app_length. change (fold_right Nat.add 0) with list_sum.
    specialize (IH (fun j Hj => H j (or_intror Hj))). specialize (H k (or_introl eq_refl)). lia.
  Qed.
  Lemma sum_live_ge (T : list (btree N A)) ks :
    (forall k, In k ks -> 2 ^ k * B <= 2 * length (liveAt T k)) ->
    list_sum (map (fun t => 2 ^ t * B) ks) <= 2 * length (flat_map (liveAt T) ks).
  Proof.
    induction ks as [|k ks IH]; intros H; cbn [map list_sum fold_right flat_map]; [lia|]. rewrite app_length.
    change (fold_right Nat.add 0) with list_sum.
    specialize (IH (fun j Hj => H j (or_intror Hj))). specialize (H k (or_introl eq_refl)). lia.
  Qed.
  Lemma sum_live_eq (T : list (btree N A)) ks :
    (forall k, In k ks -> 2 ^ k * B = length (liveAt T k)) ->
    list_sum (map (fun t => 2 ^ t * B) ks) = length (flat_map (liveAt T) ks).
  Proof.
    induction ks as [|k ks IH]; intros H; cbn [map list_sum fold_right flat_map]; auto. rewrite app_length.
    change (fold_right Nat.add 0) with list_sum.
    rewrite (IH (fun j Hj => H j (or_intror Hj))), (H k (or_introl eq_refl)). lia.
  Qed.

  Lemma In_slice X (x : X) s e l : In x (slice s e l) -> In x l.
  Proof. intros H. unfold slice in H. apply KdSplit.In_firstn in H. apply KdSplit.In_skipn in H. auto. Qed.

  Theorem ltInsert_throw ord t points : ltInv t ->
    2 ^ length (lt_trees t) <= lt_mask t + carried (length points) (length (blive (lt_buf t))) ->
    ltInsert dflt bbuild sbuild B ord t points = Throw.
  Proof.
    intros I H. unfold ltInsert, insertPlan. set (n := length points) in *.
    rewrite (to_cur (li_buf I)). set (bsz := length (blive (lt_buf t))) in *.
    assert (Hbsz : bsz <= B) by (rewrite <- (li_cap I); apply (live_le_cap Hdim (li_buf I))).
    unfold carried in H. set (useb := B <? n mod B + bsz) in *.
    set (fb := n / B + (if useb then 1 else 0)) in *.
    set (NUM := length (lt_trees t)) in *. set (old := lt_mask t) in *.
    pose proof (li_mask I) as Hm. fold NUM old in Hm.
    destruct (@planLoop_over B old (old + fb) HB useb bsz Hbsz (if useb then n mod B + bsz - B else n mod B)
      (S NUM) NUM (Z.of_nat fb) n []) as (fb' & pend' & ms & -> & Hpos).
    - lia.
    - unfold D. rewrite (Nat.mod_small old) by lia.
      pose proof (Nat.div_mod (old + fb) (2 ^ NUM)) as DM.
      assert (1 <= (old + fb) / 2 ^ NUM) by (apply Nat.div_le_lower_bound; pose proof (pow2_pos NUM); lia).
      pose proof (pow2_pos NUM). nia.
    - unfold fb, useb. pose proof (Nat.div_mod n B). pose proof (Nat.mod_upper_bound n B).
      destruct (Nat.ltb_spec B (n mod B + bsz)); nia.
    - cbn [bind]. destruct (Z.eqb_spec fb' 0); [lia|]. reflexivity.
  Qed.

  Theorem ltInsert_ok ord t points : (forall l, Permutation l (ord l)) -> ltInv t ->
    (forall x, In x points -> okI x) ->
    lt_mask t + carried (length points) (length (blive (lt_buf t))) < 2 ^ length (lt_trees t) ->
    exists t', ltInsert dflt bbuild sbuild B ord t points = Ok t' /\ ltInv t' /\
      length (lt_trees t') = length (lt_trees t) /\
      lt_mask t' = lt_mask t + carried (length points) (length (blive (lt_buf t))) /\
      Permutation (stored t ++ points) (stored t') /\
      (ltFull t -> ltFull t') /\
      (ltSep t -> tieFree N dim pt (stored t ++ points) -> ltSep t').
  Proof.
    intros Hord I Hpts H. unfold ltInsert, insertPlan. set (n := length points) in *.
    rewrite (to_cur (li_buf I)). set (bsz := length (blive (lt_buf t))) in *.
    assert (Hbsz : bsz <= B) by (rewrite <- (li_cap I); apply (live_le_cap Hdim (li_buf I))).
    unfold carried in *. set (useb := B <? n mod B + bsz) in *.
    set (fb := n / B + (if useb then 1 else 0)) in *.
    set (rem := if useb then n mod B + bsz - B else n mod B).
    set (T := lt_trees t) in *. set (NUM := length T) in *. set (old := lt_mask t) in *.
    pose proof (li_mask I) as Hm. fold T NUM old in Hm.
    pose proof (Nat.div_mod n B) as DM. pose proof (Nat.mod_upper_bound n B) as MU.
    assert (Hrem : rem <= n /\ (if useb then rem else rem + bsz) <= B).
    { unfold rem, useb. destruct (Nat.ltb_spec B (n mod B + bsz)); nia. }
    assert (Hup : useb = true -> 0 < fb) by (unfold fb; intros ->; lia).
    destruct (@planLoop_exact B old (old + fb) HB useb bsz Hbsz rem (S NUM) NUM (Z.of_nat fb) n [])
      as (ms & -> & M).
    { lia. }
    { unfold D. rewrite !Nat.mod_small by lia. lia. }
    { lia. }
    { unfold owes. destruct useb eqn:Eu; cbn [andb].
      - rewrite (proj2 (Z.ltb_lt 0 (Z.of_nat fb))) by (specialize (Hup eq_refl); lia).
        unfold rem, fb. apply Nat.ltb_lt in Eu. nia.
      - unfold rem, fb. nia. }
    cbn [bind app]. rewrite Z.eqb_refl. cbn [negb].
    assert (EU : (useb && (0 <? Z.of_nat fb)%Z) = useb).
    { destruct useb; auto. cbn. apply Z.ltb_lt. specialize (Hup eq_refl). lia. }
    rewrite EU in M. destruct M as [M1 M2 M3 M4 M5 M6 M7 Mp Me M8 M9].
    assert (EXB : existsb mv_buf ms = useb).
    { destruct (existsb mv_buf ms) eqn:X.
      - apply existsb_exists in X as (m & X1 & X2).
        assert (X3 : In m (filter mv_buf ms)) by (apply filter_In; auto).
        destruct useb; auto. destruct (filter mv_buf ms); [destruct X3|discriminate].
      - destruct useb; auto. destruct (filter mv_buf ms) as [|m l] eqn:Y; [discriminate|].
        assert (X3 : In m (filter mv_buf ms)) by (rewrite Y; left; auto). apply filter_In in X3 as [X3 X4].
        assert (existsb mv_buf ms = true) by (apply existsb_exists; eauto). congruence. }
    rewrite EXB.
    set (bufPts := if useb then blive (lt_buf t) else []).
    set (buf1 := if useb then bclear (lt_buf t) else lt_buf t).
    assert (E1 : (if useb then moveElements dflt (lt_buf t) else Ok ([], lt_buf t)) = Ok (bufPts, buf1)).
    { unfold bufPts, buf1. destruct useb; auto. apply moveElements_ok with (1 := li_buf I). }
    rewrite E1. cbn [bind]. clear E1.
    assert (NB : forall m, In m ms -> mv_buf m = true -> useb = true).
    { intros m X1 X2. rewrite <- EXB. apply existsb_exists. eauto. }
    assert (LB : forall m, In m ms -> length (if mv_buf m then bufPts else []) = (if mv_buf m then bsz else 0)).
    { intros m Hm'. destruct (mv_buf m) eqn:X; auto. unfold bufPts. rewrite (NB m Hm' X). reflexivity. }
    (* the buffer *)
    assert (T1 : tOk buf1 /\ fresh buf1 /\ bt_cap buf1 = B /\ pre true buf1 B /\
                 length (blive buf1) = (if useb then 0 else bsz)).
    { unfold buf1. destruct useb.
      - split; [apply treeOk_clear; apply I|]. split; [apply bclear_fresh; apply (li_buf I)|].
        split; [apply (li_cap I)|]. split; auto. apply (@pre_items N A true (lt_buf t)); [reflexivity|apply I].
      - split; [apply I|]. split; [apply I|]. split; [apply I|]. split; [apply I|reflexivity]. }
    destruct T1 as (T1 & F1 & C1 & P1 & L1).
    assert (LF : length (firstn rem points) = rem) by (rewrite firstn_length; fold n; lia).
    destruct (@binsert_ok N ok dim A pt B bbuild (pre true) Hbb (pre_items (full:=true)) dflt buf1 (firstn rem points) T1 F1)
      as (bufF & HF & TF & FF & CF & PF & SF & SepF).
    { intros x Hx. apply Hpts. eapply KdSplit.In_firstn; eauto. }
    { rewrite L1, LF, C1. destruct useb; lia. }
    { rewrite L1, LF. destruct useb; lia. }
    { apply (@pre_le N dim A Hdim true buf1 B); auto. rewrite L1, LF. destruct useb; lia. }
    rewrite C1 in CF, PF. specialize (PF P1).
    (* the slots *)
    assert (SLOT : forall k, k < NUM -> exists b, nth_error T k = Some b /\ slotOk k (Nat.testbit old k) b).
    { intros k Hk. destruct (nth_error T k) as [b|] eqn:E; [|apply nth_error_None in E; unfold NUM in Hk; lia].
      exists b. split; auto. apply (li_slots I k E). }
    assert (LIVE : forall k b, nth_error T k = Some b -> slotOk k (Nat.testbit old k) b -> liveAt T k = blive b /\
               length (liveAt T k) = bt_cur b /\ bt_cur b <= 2 ^ k * B).
    { intros k b E S. unfold liveAt. rewrite E. split; auto. rewrite (to_cur (so_ok S)). split; auto.
      rewrite <- (so_cap S). apply (live_le_cap Hdim (so_ok S)). }
    assert (LEN : forall m, In m ms -> length (newItems points bufPts m T) =
        length (flat_map (liveAt T) (mv_trees m)) + (mv_e m - mv_s m + (if mv_buf m then bsz else 0))).
    { intros m Hm'. unfold newItems. rewrite !app_length, (LB m Hm').
      rewrite slice_length by (apply Me; auto). lia. }
    assert (READY : forall m, In m ms -> moveReady ok dim pt smax points bufPts m T).
    { intros m Hm'. split; [|split].
      - intros k Hk. destruct (SLOT k) as (b & E & S); [apply (M1 m k Hm'); right; auto|]. exists b. split; auto. apply S.
      - destruct (SLOT (mv_new m)) as (b & E & S); [apply (M1 m _ Hm'); left; auto|].
        destruct (M3 m Hm') as [Nw Ow]. pose proof (so_cur S) as SC. rewrite Ow in SC.
        exists b. split; auto. split; [apply S|]. split; [apply S|]. split; [exact SC|]. split.
        + rewrite (LEN m Hm'), (so_cap S). destruct (M7 m Hm') as [_ Q]. rewrite <- Q.
          assert (length (flat_map (liveAt T) (mv_trees m)) <= list_sum (map (fun t0 => 2 ^ t0 * B) (mv_trees m))); [|lia].
          apply sum_live_le. intros k Hk. destruct (SLOT k) as (b' & E' & S'); [apply (M1 m k Hm'); right; auto|].
          destruct (LIVE k b' E' S') as (_ & G & G'). lia.
        + rewrite (so_cap S). apply (li_max I). fold T NUM. apply (M1 m _ Hm'). left. auto.
      - intros x Hx. unfold newItems in Hx. rewrite !in_app_iff in Hx. destruct Hx as [Hx | [Hx | Hx]].
        + apply in_flat_map in Hx as (k & Hk & Hx).
          destruct (SLOT k) as (b & E & S); [apply (M1 m k Hm'); right; auto|].
          unfold liveAt in Hx. rewrite E in Hx. apply (@blive_okI N ok dim A pt b x (so_ok S) Hx).
        + apply Hpts. eapply In_slice; eauto.
        + destruct (mv_buf m); [|destruct Hx]. unfold bufPts in Hx. destruct useb; [|destruct Hx].
          apply (@blive_okI N ok dim A pt _ x (li_buf I) Hx). }
    set (ts := ord (None :: map Some ms)).
    pose proof (Hord (None :: map Some ms)) as PT. fold ts in PT.
    assert (PF2 : Permutation (flat_map feet ms) (flat_map feetO ts)).
    { rewrite <- (Permutation_flat_map feetO PT). cbn [flat_map feetO app]. rewrite (flat_map_concat_map feetO), map_map.
      cbn [feetO]. rewrite <- flat_map_concat_map. reflexivity. }
    assert (INM : forall m, In (Some m) ts <-> In m ms).
    { intros m. split; intros X.
      - apply (Permutation_in _ (Permutation_sym PT)) in X. destruct X as [X | X]; [discriminate|].
        apply in_map_iff in X as (m' & X1 & X2). injection X1 as <-. auto.
      - apply (Permutation_in _ PT). right. apply in_map. auto. }
    destruct (@runTasks_ok N ok dim A pt dflt bbuild sbuild smax Hsb points bufPts rem buf1 bufF HF ts T buf1)
      as (T' & ET & LT & KP & DN).
    { apply (Permutation_NoDup PF2); auto. }
    { intros m X. apply READY. apply INM. auto. }
    { assert (X : length (filter isFill ts) = length (filter isFill (None :: map Some ms)))
        by (apply Permutation_length, Permutation_filter, Permutation_sym; exact PT).
      rewrite X. cbn [filter isFill length]. clear. induction ms as [|m l IH]; cbn in *; auto. }
    { auto. }
    assert (EF : existsb isFill ts = true).
    { apply existsb_exists. exists None. split; auto. apply (Permutation_in _ PT). left. auto. }
    rewrite EF in ET. rewrite ET. cbn [bind]. eexists. split; [reflexivity|].
    assert (KP' : forall k, ~ In k (flat_map feet ms) -> nth_error T' k = nth_error T k).
    { intros k Hk. apply KP. intros X. apply Hk. apply (Permutation_in _ (Permutation_sym PF2)). auto. }
    assert (DN' : forall m, In m ms -> moveDone ok dim pt points bufPts m T T') by (intros m X; apply DN, INM; auto).
    (* what each slot holds afterwards *)
    assert (NEW : forall k b, nth_error T' k = Some b ->
       (~ In k (flat_map feet ms) /\ nth_error T k = Some b /\ Nat.testbit (old + fb) k = Nat.testbit old k) \/
       (exists m, In m ms /\ In k (mv_trees m) /\ Nat.testbit (old + fb) k = false /\
          exists b0, nth_error T k = Some b0 /\ b = bclear b0) \/
       (exists m b0, In m ms /\ k = mv_new m /\ Nat.testbit (old + fb) k = true /\ nth_error T k = Some b0 /\
          newOk ok dim pt points bufPts m T b0 b)).
    { intros k b E. assert (Hk : k < NUM) by (unfold NUM; rewrite <- LT; apply nth_error_Some; congruence).
      destruct (in_dec Nat.eq_dec k (flat_map feet ms)) as [X | X].
      - right. apply in_flat_map in X as (m & Hm' & [<- | Hk']).
        + right. destruct (DN' m Hm') as [_ (b0 & b' & E1 & E2 & E3)]. exists m, b0. destruct (M3 m Hm').
          split; auto. split; auto. split; auto. split; auto. congruence.
        + left. destruct (DN' m Hm') as [E1 _]. destruct (E1 k Hk') as (b0 & E2 & _ & E3). exists m. destruct (M4 m k Hm' Hk').
          split; auto. split; auto. split; auto. exists b0. split; auto. congruence.
      - left. split; auto. rewrite <- (KP' k X). split; auto.
        destruct (Nat.testbit (old + fb) k) eqn:Nk.
        + destruct (M5 k Hk Nk) as [G | G]; auto. exfalso. apply X. apply in_map_iff in G as (m & <- & Hm').
          apply in_flat_map. exists m. split; auto. left. auto.
        + destruct (Nat.testbit old k) eqn:Ok_; auto. destruct (M6 k Hk Ok_) as [G | G]; [congruence|]. exfalso. apply X.
          apply in_flat_map in G as (m & Hm' & G). apply in_flat_map. exists m. split; auto. right. auto. }
    assert (CURN : forall m b0 b, In m ms -> newOk ok dim pt points bufPts m T b0 b ->
        bt_cur b = length (flat_map (liveAt T) (mv_trees m)) + (2 ^ mv_new m * B - list_sum (map (fun t0 => 2 ^ t0 * B) (mv_trees m)))).
    { intros m b0 b Hm' (X1 & X2 & X3 & X4 & X5). rewrite (to_cur X1), <- (Permutation_length X4), (LEN m Hm').
      destruct (M7 m Hm') as [_ Q]. lia. }
    assert (STO : Permutation (stored t ++ points) (blive bufF ++ flat_map (@blive N A) T')).
    { rewrite <- SF. rewrite (@moves_stored N ok dim A pt points bufPts T T' ms LT M2 DN').
      - destruct M9 as (l & El & MC). destruct (MC A points) as [PC _].
        rewrite flat_map_if, M8. unfold stored.
        assert (X : Permutation (flat_map (fun m => slice (mv_s m) (mv_e m) points) ms) (skipn rem points)).
        { rewrite <- (slice_skipn rem (n := n) points) by reflexivity. rewrite PC, El.
          rewrite (flat_map_concat_map _ (map _ ms)), map_map. cbn [fst snd]. rewrite <- flat_map_concat_map. reflexivity. }
        rewrite X. fold T. rewrite <- (firstn_skipn rem points) at 1.
        rewrite <- !app_assoc. set (fr := firstn rem points). set (sk := skipn rem points). set (fl := flat_map (@blive N A) T).
        unfold buf1, bufPts. destruct useb; cbn [repeat concat app].
        + rewrite app_nil_r. change (blive (bclear (lt_buf t))) with (@nil A). cbn [app].
          rewrite (Permutation_app_comm (blive (lt_buf t))). rewrite <- !app_assoc.
          rewrite (Permutation_app_swap_app fl fr). apply Permutation_app_head.
          apply Permutation_app_head. reflexivity.
        + rewrite app_nil_r. apply Permutation_app_head. apply Permutation_app_swap_app.
      - intros m Hm'. destruct (SLOT (mv_new m)) as (b & E & S); [apply (M1 m _ Hm'); left; auto|].
        pose proof (so_cur S) as SC. destruct (M3 m Hm') as [_ Ow]. rewrite Ow in SC.
        destruct (LIVE _ b E S) as (_ & G & _). rewrite SC in G. destruct (liveAt T (mv_new m)); [auto|discriminate].
      - auto. }
    split; [|split; [|split; [|split; [|split]]]].
    - constructor; cbn [lt_buf lt_mask lt_trees]; auto; try (rewrite LT; fold NUM; auto).
      2:{ intros k Hk. apply (li_max I). exact Hk. }
      intros k b E. destruct (NEW k b E) as [(X1 & X2 & X3) | [(m & X1 & X2 & X3 & b0 & X4 & ->) | (m & b0 & X1 & -> & X2 & X3 & X4)]].
      + rewrite X3. apply (li_slots I k X2).
      + pose proof (li_slots I k X4) as S. rewrite X3. constructor.
        * apply treeOk_clear. apply S. * apply bclear_fresh. apply (to_pres (so_ok S)). * apply S. * reflexivity.
      + rewrite X2. pose proof (CURN m b0 b X1 X4) as CN. destruct X4 as (Y1 & Y2 & Y3 & Y4 & Y5).
        pose proof (li_slots I _ X3) as S. constructor; auto; [rewrite Y3; apply S|].
        assert (G : list_sum (map (fun t0 => 2 ^ t0 * B) (mv_trees m)) <= 2 * length (flat_map (liveAt T) (mv_trees m))).
        { apply sum_live_ge. intros k Hk. destruct (SLOT k) as (b' & E' & S'); [apply (M1 m k X1); right; auto|].
          destruct (LIVE k b' E' S') as (_ & G & _). pose proof (so_cur S') as SC. destruct (M4 m k X1 Hk) as [Ok_ _].
          rewrite Ok_ in SC. lia. }
        specialize (Mp m X1). lia.
    - exact LT.
    - reflexivity.
    - exact STO.
    - intros FU k b E Hb. cbn [lt_mask lt_trees] in *.
      destruct (NEW k b E) as [(X1 & X2 & X3) | [(m & X1 & X2 & X3 & _) | (m & b0 & X1 & -> & X2 & X3 & X4)]].
      + rewrite X3 in Hb. apply (FU k b X2 Hb).
      + congruence.
      + rewrite (CURN m b0 b X1 X4). rewrite <- sum_live_eq.
        * specialize (Mp m X1). lia.
        * intros k Hk. destruct (SLOT k) as (b' & E' & S'); [apply (M1 m k X1); right; auto|].
          destruct (LIVE k b' E' S') as (_ & G & _). destruct (M4 m k X1 Hk) as [Ok_ _].
          rewrite G. symmetry. apply (FU k b' E' Ok_).
    - intros [S1 S2] HT.
      assert (HT' : tieFree N dim pt (blive bufF ++ flat_map (@blive N A) T')) by (eapply tieFree_perm; eauto).
      split; cbn [lt_buf lt_trees].
      + apply SepF.
        * unfold buf1. destruct useb; auto. intros G. cbn in G. congruence.
        * eapply tieFree_perm; [apply Permutation_sym, SF|]. intros d Hd. specialize (HT' d Hd). apply FOP_app in HT'. tauto.
      + intros k b E. destruct (NEW k b E) as [(X1 & X2 & X3) | [(m & X1 & X2 & X3 & b0 & X4 & ->) | (m & b0 & X1 & -> & X2 & X3 & X4)]].
        * apply (S2 k b X2).
        * intros G. cbn in G. congruence.
        * destruct X4 as (Y1 & Y2 & Y3 & Y4 & Y5). apply Y5. eapply tieFree_perm; [apply Permutation_sym; exact Y4|].
          apply tieFree_sub in HT'. apply nth_error_split in E as (l1 & l2 & -> & _).
          rewrite flat_map_app in HT'. apply tieFree_sub in HT'. cbn [flat_map] in HT'.
          intros d Hd. specialize (HT' d Hd). apply FOP_app in HT'. tauto.
  Qed.
End Insert.
