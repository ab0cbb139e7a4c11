(** The sampling hull: which points the filter keeps. *)
From Coq Require Import Reals Lra Psatz.
From Verif Require Import Base Num Sched KdModel KdSpec Hull2dModel Hull2dGeom Hull2dQuick Hull2dDc.
Set Implicit Arguments.

Section Sample.
  Local Open Scope R_scope.
  Notation pt := (list (nT RNum)).
  Notation box_ok lo hi p := (nth 0 lo 0 <= nth 0 p 0 <= nth 0 hi 0 /\ nth 1 lo 0 <= nth 1 p 0 <= nth 1 hi 0).

  Lemma corners (a b lo hi p : list R) M : box_ok lo hi p ->
    orient a b [nth 0 lo 0; nth 1 lo 0] <= M -> orient a b [nth 0 lo 0; nth 1 hi 0] <= M ->
    orient a b [nth 0 hi 0; nth 1 lo 0] <= M -> orient a b [nth 0 hi 0; nth 1 hi 0] <= M -> orient a b p <= M.
  Proof.
    unfold orient. cbn [nth]. generalize (nth 0 a 0) (nth 1 a 0) (nth 0 b 0) (nth 1 b 0) (nth 0 lo 0) (nth 1 lo 0) (nth 0 hi 0) (nth 1 hi 0) (nth 0 p 0) (nth 1 p 0).
    intros a0 a1 b0 b1 l0 l1 h0 h1 p0 p1 [[X1 X2] [Y1 Y2]] H1 H2 H3 H4.
    destruct (Rle_dec 0 (b0 - a0)) as [S|S]; destruct (Rle_dec 0 (b1 - a1)) as [T|T]; try apply Rnot_le_lt in S; try apply Rnot_le_lt in T.
    - enough ((b0 - a0) * (p1 - a1) - (b1 - a1) * (p0 - a0) <= (b0 - a0) * (h1 - a1) - (b1 - a1) * (l0 - a0)) by lra. nra.
    - enough ((b0 - a0) * (p1 - a1) - (b1 - a1) * (p0 - a0) <= (b0 - a0) * (h1 - a1) - (b1 - a1) * (h0 - a0)) by lra. nra.
    - enough ((b0 - a0) * (p1 - a1) - (b1 - a1) * (p0 - a0) <= (b0 - a0) * (l1 - a1) - (b1 - a1) * (l0 - a0)) by lra. nra.
    - enough ((b0 - a0) * (p1 - a1) - (b1 - a1) * (p0 - a0) <= (b0 - a0) * (l1 - a1) - (b1 - a1) * (h0 - a0)) by lra. nra.
  Qed.

  Notation lo t := (bmin (tbox t)).
  Notation hi t := (bmax (tbox t)).

  Lemma nodeVol_max (t : tree RNum nat) (fa fb : pt) : snd (nodeVol (tbox t) fa fb) <= 0 <->
    orient fa fb [nth 0 (lo t) 0; nth 1 (lo t) 0] <= 0 /\ orient fa fb [nth 0 (lo t) 0; nth 1 (hi t) 0] <= 0 /\
    orient fa fb [nth 0 (hi t) 0; nth 1 (lo t) 0] <= 0 /\ orient fa fb [nth 0 (hi t) 0; nth 1 (hi t) 0] <= 0.
  Proof.
    unfold nodeVol. cbn [fold_left fst snd]. change (triArea RNum) with orient. unfold coord, nmax2. cbn [nlt nneg1 nzero RNum].
    change (nT RNum) with R.
    repeat (match goal with |- context [orient ?a ?b ?c] => generalize (orient a b c); intros ? end).
    repeat (match goal with |- context [Rltb ?a ?b] => lazymatch a with context [Rltb] => fail | _ => lazymatch b with context [Rltb] => fail | _ => destruct (Rltb_spec a b) end end end); split; intros; repeat split; lra.
  Qed.
  Lemma nodeVol_min (t : tree RNum nat) (fa fb : pt) :
    orient fa fb [nth 0 (lo t) 0; nth 1 (lo t) 0] <= 0 -> fst (nodeVol (tbox t) fa fb) <= 0.
  Proof.
    unfold nodeVol. cbn [fold_left fst snd]. change (triArea RNum) with orient. unfold coord, nmin2. cbn [nlt nneg1 nzero nmax RNum].
    change (nT RNum) with R.
    repeat (match goal with |- context [orient ?a ?b ?c] => generalize (orient a b c); intros ? end).
    repeat (match goal with |- context [Rltb ?a ?b] => lazymatch a with context [Rltb] => fail | _ => lazymatch b with context [Rltb] => fail | _ => destruct (Rltb_spec a b) end end end); lra.
  Qed.

  Variable P : list pt.
  Notation q i := (nth i P (@nil R)).

  (** every point strictly outside a facet is visited, with a point on or
      outside the facet first in its node *)
  Lemma in_mark its i : In i its -> exists j, In j its /\ In (true, j) (mark its).
  Proof. destruct its as [|j its]; [intros []|]. intros _. exists j. simpl. auto. Qed.
  Lemma mark_in its b i : In (b, i) (mark its) -> In i its.
  Proof. destruct its as [|j its]; [intros []|]. intros [E|H]; [injection E; intros; subst; simpl; auto|]. apply in_map_iff in H as (k & E & Hk). injection E as _ <-. right. auto. Qed.

  Lemma corners_lo (a b lo hi p : list R) M : box_ok lo hi p ->
    M <= orient a b [nth 0 lo 0; nth 1 lo 0] -> M <= orient a b [nth 0 lo 0; nth 1 hi 0] ->
    M <= orient a b [nth 0 hi 0; nth 1 lo 0] -> M <= orient a b [nth 0 hi 0; nth 1 hi 0] -> M <= orient a b p.
  Proof.
    intros B. rewrite !(orient_swap b a). intros. pose proof (@corners b a lo hi p (- M) B). lra.
  Qed.
  Lemma nodeVol_le (t : tree RNum nat) (fa fb : pt) :
    fst (nodeVol (tbox t) fa fb) <= orient fa fb [nth 0 (lo t) 0; nth 1 (lo t) 0] /\ fst (nodeVol (tbox t) fa fb) <= orient fa fb [nth 0 (lo t) 0; nth 1 (hi t) 0] /\
    fst (nodeVol (tbox t) fa fb) <= orient fa fb [nth 0 (hi t) 0; nth 1 (lo t) 0] /\ fst (nodeVol (tbox t) fa fb) <= orient fa fb [nth 0 (hi t) 0; nth 1 (hi t) 0].
  Proof.
    unfold nodeVol. cbn [fold_left fst snd]. change (triArea RNum) with orient. unfold coord, nmin2. cbn [nlt nneg1 nzero nmax RNum].
    change (nT RNum) with R.
    repeat (match goal with |- context [orient ?a ?b ?c] => generalize (orient a b c); intros ? end).
    repeat (match goal with |- context [Rltb ?a ?b] => lazymatch a with context [Rltb] => fail | _ => lazymatch b with context [Rltb] => fail | _ => destruct (Rltb_spec a b) end end end); repeat split; lra.
  Qed.
  Lemma samePt_eq (a p : pt) : samePt RNum a p = true -> nth 0 a 0 = nth 0 p 0 /\ nth 1 a 0 = nth 1 p 0.
  Proof.
    unfold samePt, neq0, coord. cbn [nle nzero RNum]. rewrite !andb_true_iff, !Rleb_true. change (nT RNum) with R. lra.
  Qed.

  Lemma boxed (t : tree RNum nat) : boxes_ok 2 (fun i => q i) t -> forall i, In i (items t) -> box_ok (lo t) (hi t) (q i).
  Proof.
    intros HB i Hi. pose proof (HB _ (subtrees_self _)) as B. pose proof (B 0%nat ltac:(lia) i Hi) as [B1 B2]. pose proof (B 1%nat ltac:(lia) i Hi) as [B3 B4].
    apply Rleb_true in B1, B2, B3, B4. auto.
  Qed.

  Lemma flag_visits fa fb (t : tree RNum nat) : boxes_ok 2 (fun i => q i) t ->
    (forall b i, In (b, i) (flagVisible P t fa fb) -> In i (items t) /\ 0 <= orient fa fb (q i)) /\
    forall i, In i (items t) -> 0 < orient fa fb (q i) ->
      (exists b, In (b, i) (flagVisible P t fa fb)) /\ exists j, In (true, j) (flagVisible P t fa fb).
  Proof.
    assert (MK : forall its i, In i its -> (exists b, In (b, i) (mark its)) /\ exists j, In (true, j) (mark its)).
    { intros its i Hi. split; [|destruct (in_mark its i Hi) as (j & _ & H); eauto].
      destruct its as [|j its]; [destruct Hi|]. destruct Hi as [->|Hi]; [exists true; simpl; auto|].
      exists false. right. apply in_map. auto. }
    assert (LO : forall s : tree RNum nat, boxes_ok 2 (fun i => q i) s -> nle RNum (fst (nodeVol (tbox s) fa fb)) (nzero RNum) = false ->
      forall b i, In (b, i) (mark (items s)) -> In i (items s) /\ 0 <= orient fa fb (q i)).
    { intros s Hs E b i Hi. apply mark_in in Hi. split; auto. apply Rleb_false in E. cbn [nzero RNum] in E.
      destruct (nodeVol_le s fa fb) as (C1 & C2 & C3 & C4). apply (@corners_lo _ _ (lo s) (hi s)); [apply boxed; auto| | | |]; (eapply Rle_trans; [apply Rlt_le, E|assumption]). }
    assert (UP : forall s : tree RNum nat, boxes_ok 2 (fun i => q i) s -> nle RNum (snd (nodeVol (tbox s) fa fb)) (nzero RNum) = true ->
      forall i, In i (items s) -> orient fa fb (q i) <= 0).
    { intros s Hs E i Hi. apply Rleb_true, nodeVol_max in E as (C1 & C2 & C3 & C4). apply (@corners _ _ (lo s) (hi s)); auto. apply boxed; auto. }
    induction t as [its b|b l IHl r IHr]; intros HB.
    - cbn [flagVisible]. specialize (LO _ HB). specialize (UP _ HB).
      destruct (nle RNum (fst (nodeVol (tbox (Leaf its b)) fa fb)) (nzero RNum)) eqn:E1; cbn [andb]; [|split; [exact (LO eq_refl)|intros i Hi _; apply MK; exact Hi]].
      destruct (nle RNum (snd (nodeVol (tbox (Leaf its b)) fa fb)) (nzero RNum)) eqn:E2.
      + split; [intros ? ? []|]. intros i Hi Ho. specialize (UP eq_refl i Hi). change (nT RNum) with R in *. lra.
      + assert (E3 : nlt RNum (nzero RNum) (snd (nodeVol (tbox (Leaf its b)) fa fb)) = true) by (apply Rltb_true; apply Rleb_false in E2; exact E2).
        rewrite E3. split.
        * intros b' i Hi. apply mark_in, filter_In in Hi as [Hi G]. split; auto. cbn zeta in G. apply orb_true_iff in G as [G|G].
          -- apply orb_true_iff in G as [G|G]; [apply Rleb_true in G; exact G|]. apply samePt_eq in G as [G1 G2].
             unfold orient. change (nT RNum) with R in *. rewrite G1, G2. right. ring.
          -- apply samePt_eq in G as [G1 G2]. unfold orient. change (nT RNum) with R in *. rewrite G1, G2. right. ring.
        * intros i Hi Ho. apply MK. apply filter_In. split; [exact Hi|]. cbn zeta.
          assert (T : nle RNum (nzero RNum) (triArea RNum fa fb (nth i P [])) = true) by (apply Rleb_true; left; exact Ho).
          rewrite T. reflexivity.
    - cbn [flagVisible]. specialize (LO _ HB). specialize (UP _ HB).
      destruct (nle RNum (fst (nodeVol (tbox (Node b l r)) fa fb)) (nzero RNum)) eqn:E1; cbn [andb]; [|split; [exact (LO eq_refl)|intros i Hi _; apply MK; exact Hi]].
      destruct (nle RNum (snd (nodeVol (tbox (Node b l r)) fa fb)) (nzero RNum)) eqn:E2.
      + split; [intros ? ? []|]. intros i Hi Ho. specialize (UP eq_refl i Hi). change (nT RNum) with R in *. lra.
      + assert (E3 : nlt RNum (nzero RNum) (snd (nodeVol (tbox (Node b l r)) fa fb)) = true) by (apply Rltb_true; apply Rleb_false in E2; exact E2).
        rewrite E3. destruct IHl as [L1 L2]; [intros s Hs; apply HB; cbn [subtrees]; right; apply in_or_app; auto|].
        destruct IHr as [R1 R2]; [intros s Hs; apply HB; cbn [subtrees]; right; apply in_or_app; auto|]. cbn [items]. split.
        * intros b' i Hi. apply in_app_or in Hi as [Hi|Hi]; [apply L1 in Hi|apply R1 in Hi]; rewrite in_app_iff; tauto.
        * intros i Hi Ho. apply in_app_or in Hi as [Hi|Hi].
          -- destruct (L2 i Hi Ho) as [(x & X) (j & J)]. split; [exists x|exists j]; apply in_or_app; auto.
          -- destruct (R2 i Hi Ho) as [(x & X) (j & J)]. split; [exists x|exists j]; apply in_or_app; auto.
  Qed.

  (** *** the compare-exchanges under any interleaving *)
  Lemma nth_upd_bool i j (b : bool) l : nth i (upd j b l) false = if (i =? j)%nat && (j <? length l)%nat then b else nth i l false.
  Proof.
    destruct (Nat.eqb_spec i j) as [->|N]; cbn [andb]; [|apply nth_upd_neq; auto].
    destruct (Nat.ltb_spec j (length l)) as [H|H]; [apply nth_upd_eq; auto|].
    rewrite !nth_overflow; auto. rewrite upd_length. auto.
  Qed.
  Lemma cas_run (progs : list (list (bool * nat))) sched ls flag : (forall p b i, In p progs -> In (b, i) p -> (i < length P)%nat) ->
    runT casStep casFin sched (map (fun p => (p, false)) progs) (repeat false (length P)) = Ok (ls, flag) ->
    (forall i, nth i flag false = true -> exists p b, In p progs /\ In (b, i) p) /\
    (forall p i, In p progs -> In (true, i) p -> nth i flag false = true).
  Proof.
    intros HB E.
    set (I := fun (ls : list (list (bool * nat) * bool)) (s : list bool) => length s = length P /\ length ls = length progs /\
      (forall i, nth i s false = true -> exists p b, In p progs /\ In (b, i) p) /\
      forall k l, nth_error ls k = Some l -> exists p d, nth_error progs k = Some p /\ p = d ++ fst l /\ forall i, In (true, i) d -> nth i s false = true).
    pose proof (@runT_inv _ _ (casStep) casFin I) as Inv.
    specialize (Inv) with (sched := sched) (ls := map (fun p => (p, false)) progs) (s := repeat false (length P)).
    rewrite E in Inv. destruct Inv as ((I1 & I1' & I2 & I3) & Fn & Ln).
    - (* step *)
      intros l1 s k l (J1 & J1' & J2 & J3) Hk Hf. destruct l as [prog F]. unfold casFin in Hf. cbn [fst] in Hf. destruct prog as [|[new i] rest]; [discriminate|].
      destruct (J3 _ _ Hk) as (p & d & Hp & Ep & Hd). cbn [fst] in Ep.
      assert (Pi : In p progs) by (apply (nth_error_In _ _ Hp)).
      assert (Ii : In (new, i) p) by (rewrite Ep; apply in_or_app; right; simpl; auto).
      pose proof (HB _ _ _ Pi Ii) as Bi.
      assert (K : forall s' F', length s' = length P -> (forall j, nth j s' false = true -> nth j s false = true \/ j = i) ->
        (forall j, nth j s false = true -> nth j s' false = true) -> (new = true -> nth i s' false = true) -> I (upd k (rest, F') l1) s').
      { intros s' F' L1 U1 U2 U3. split; [auto|]. split; [rewrite upd_length; auto|]. split.
        - intros j Hj. apply U1 in Hj as [Hj| ->]; eauto.
        - intros k' l' Hk'. destruct (Nat.eq_dec k' k) as [->|Nk].
          + rewrite nth_error_upd_eq in Hk' by (apply nth_error_Some; congruence). injection Hk' as <-. cbn [fst].
            exists p, (d ++ [(new, i)]). split; auto. split; [rewrite Ep, <- app_assoc; reflexivity|].
            intros j Hj. apply in_app_or in Hj as [Hj|[Hj|[]]]; [apply U2, Hd; auto|]. injection Hj as -> ->. auto.
          + rewrite nth_error_upd_neq in Hk' by auto. destruct (J3 _ _ Hk') as (p' & d' & X1 & X2 & X3). exists p', d'. auto. }
      unfold casStep. cbn [fst snd]. destruct (Bool.eqb (nth i s false) (if new then false else F)) eqn:Eq.
      + do 2 eexists. split; [reflexivity|]. apply K.
        * rewrite upd_length. auto.
        * intros j. rewrite nth_upd_bool. destruct (Nat.eqb_spec j i); auto.
        * intros j Hj. rewrite nth_upd_bool. destruct (_ && _); auto.
        * intros _. rewrite nth_upd_bool, Nat.eqb_refl. rewrite (proj2 (Nat.ltb_lt i (length s))) by lia. reflexivity.
      + do 2 eexists. split; [reflexivity|]. apply K; auto. intros ->. destruct (nth i s false); auto.
    - (* initially *)
      split; [apply repeat_length|]. split; [apply map_length|]. split.
      + intros i Hi. exfalso. revert Hi. clear. revert i. induction (length P); intros [|i]; cbn [repeat nth]; try discriminate. apply IHn.
      + intros k l Hk. rewrite nth_error_map in Hk. destruct (nth_error progs k) as [p|] eqn:Ek; [|discriminate]. injection Hk as <-.
        exists p, []. split; auto.
    - split; auto. intros p i Hp Hi. apply In_nth_error in Hp as (k & Hk).
      destruct (nth_error ls k) as [l|] eqn:El; [|apply nth_error_None in El; assert (k < length progs)%nat by (apply nth_error_Some; congruence); lia].
      destruct (I3 _ _ El) as (p' & d & X1 & X2 & X3). rewrite Hk in X1. injection X1 as <-. apply X3.
      rewrite forallb_forall in Fn. pose proof (Fn l (nth_error_In _ _ El)) as X. unfold casFin in X. destruct (fst l); [|discriminate]. rewrite app_nil_r in X2. congruence.
  Qed.

  Lemma flag_none fa fb (t : tree RNum nat) : (forall p, box_ok (lo t) (hi t) p -> orient fa fb p <= 0) ->
    nth 0 (lo t) 0 <= nth 0 (hi t) 0 -> nth 1 (lo t) 0 <= nth 1 (hi t) 0 -> flagVisible P t fa fb = [].
  Proof.
    intros H X Y.
    assert (M : snd (nodeVol (tbox t) fa fb) <= 0) by (apply nodeVol_max; repeat split; apply H; cbn [nth]; lra).
    assert (M' : fst (nodeVol (tbox t) fa fb) <= 0) by (apply nodeVol_min, H; cbn [nth]; lra).
    destruct t; cbn [flagVisible]; cbn [nle nzero RNum];
      rewrite (proj2 (Rleb_true _ _) M), (proj2 (Rleb_true _ _) M'); reflexivity.
  Qed.

  Variable red : (cipairs RNum -> cipairs RNum -> cipairs RNum) -> cipairs RNum -> list (cipairs RNum) -> cipairs RNum.
  Hypothesis Hred : forall f id l, redOf f id l (red f id l).
  Variable minmax : (pt -> pt -> bool) -> list pt -> nat * nat.
  Hypothesis Hmm : minmax_ok RNum minmax.

  Lemma cyc_adj X (l : list X) d i : (i < length l)%nat -> adj (nth i l d) (nth ((i + 1) mod length l) l d) (l ++ [hd d l]).
  Proof.
    intros H. destruct (Nat.eq_dec (i + 1) (length l)) as [E|E].
    - rewrite E, Nat.mod_same by lia. exists (firstn i l), [].
      replace (nth 0 l d) with (hd d l) by (destruct l; auto).
      rewrite <- (firstn_skipn i l) at 1. rewrite <- app_assoc. f_equal.
      destruct (@nth_split _ i l d H) as (l1 & l2 & El & Hl). rewrite El at 1. rewrite <- Hl at 1.
      rewrite skipn_app, skipn_all, Nat.sub_diag. cbn [skipn app].
      assert (l2 = []) as -> by (destruct l2; auto; rewrite El, app_length in E; cbn [length] in E; lia). reflexivity.
    - rewrite Nat.mod_small by lia. destruct (@nth_split _ i l d H) as (l1 & l2 & El & Hl).
      destruct l2 as [|b l2]; [rewrite El, app_length in E; cbn [length] in E; lia|].
      exists l1, (l2 ++ [hd d l]). rewrite El at 1. rewrite <- app_assoc. cbn [app]. f_equal. f_equal. f_equal.
      rewrite El, app_nth2 by lia. replace (i + 1 - length l1)%nat with 1%nat by lia. reflexivity.
  Qed.

  (** the facets *)
  Lemma facets_ok (sample : list pt) F : (forall i, In i F -> (i < length sample)%nat) ->
    mapR (fun i => a <- at_ F i ;; b <- at_ F ((i + 1) mod length F) ;;
                 pa <- at_ sample a ;; pb <- at_ sample b ;; Ok (pa, pb)) (seq 0 (length F)) =
    Ok (map (fun i => (nth (nth i F 0%nat) sample [], nth (nth ((i + 1) mod length F) F 0%nat) sample [])) (seq 0 (length F))).
  Proof.
    intros HF. apply mapR_map. intros i Hi. apply in_seq in Hi.
    assert ((i + 1) mod length F < length F)%nat by (apply Nat.mod_upper_bound; lia).
    rewrite (@at_nth _ F i 0%nat), (@at_nth _ F ((i + 1) mod length F) 0%nat) by lia. cbn [bind].
    rewrite !(@at_nth _ sample _ []) by (apply HF, nth_In; lia). reflexivity.
  Qed.

  (** the kept points are input points on or outside an edge of the sample
      hull, and each edge with a point strictly outside keeps one *)
  Theorem filter2_keeps (t : tree RNum nat) sched (sample : list pt) F remain : boxes_ok 2 (fun i => q i) t -> Permutation (items t) (seq 0 (length P)) ->
    (forall i, In i F -> (i < length sample)%nat) ->
    filter2 P t sched sample F = Ok remain ->
    (forall p, In p remain -> In p P /\ exists i, (i < length F)%nat /\
       0 <= orient (nth (nth i F 0%nat) sample []) (nth (nth ((i + 1) mod length F) F 0%nat) sample []) p) /\
    forall i p, (i < length F)%nat -> In p P ->
       0 < orient (nth (nth i F 0%nat) sample []) (nth (nth ((i + 1) mod length F) F 0%nat) sample []) p ->
       exists p', In p' remain /\ 0 <= orient (nth (nth i F 0%nat) sample []) (nth (nth ((i + 1) mod length F) F 0%nat) sample []) p'.
  Proof.
    intros HB HP HF. unfold filter2. rewrite facets_ok by auto. cbn [bind].
    set (fs := map _ (seq 0 (length F))).
    rewrite <- (map_map (fun f => flagVisible P t (fst f) (snd f)) (fun p => (p, false)) fs).
    destruct (runT _ _ _ _ _) as [[ls flag]| | |] eqn:E; try discriminate. cbn [bind].
    assert (It : forall i, In i (items t) <-> (i < length P)%nat).
    { intros i. rewrite (Permutation_in' (eq_refl i) HP), in_seq. lia. }
    apply cas_run in E as [S1 S2].
    2:{ intros p b i Hp Hi. apply in_map_iff in Hp as (f & <- & Hf). apply (proj1 (flag_visits _ _ HB)) in Hi as [Hi _]. apply It. auto. }
    intros ER. apply (f_equal (fun r => match r with Ok x => x | _ => [] end)) in ER. cbn beta iota in ER. subst remain. split.
    - intros p Hp. apply in_map_iff in Hp as (i & <- & Hi). apply filter_In in Hi as [Hi Fi]. apply in_seq in Hi. split; [apply nth_In; lia|].
      apply S1 in Fi as (pr & b & Hpr & Hb). apply in_map_iff in Hpr as (f & <- & Hf). unfold fs in Hf. apply in_map_iff in Hf as (k & <- & Hk). apply in_seq in Hk.
      exists k. split; [lia|]. apply (proj1 (flag_visits _ _ HB)) in Hb as [_ Hb]. exact Hb.
    - intros k p Hk Hp Ho. apply In_nth with (d := []) in Hp as (i & Hi & <-).
      set (fa := nth (nth k F 0%nat) sample []) in *. set (fb := nth (nth ((k + 1) mod length F) F 0%nat) sample []) in *.
      assert (Hf : In (fa, fb) fs) by (unfold fs; apply in_map_iff; exists k; split; [reflexivity|apply in_seq; lia]).
      destruct (proj2 (flag_visits fa fb HB) i) as (_ & j & Hj); [apply It; auto|exact Ho|].
      exists (q j). destruct (proj1 (flag_visits fa fb HB) true j Hj) as [Ij Oj]. split; [|exact Oj].
      apply in_map_iff. exists j. split; [reflexivity|]. apply It in Ij. apply filter_In. split; [apply in_seq; lia|].
      apply (S2 (flagVisible P t fa fb)); auto. apply in_map_iff. exists (fa, fb). auto.
  Qed.

  (** when the corners of the bounding box of the input are sampled nothing is
      kept *)
  Theorem filter2_square (t : tree RNum nat) sched (sample : list pt) F x0 x1 y0 y1 :
    nth 0 (lo t) 0 = x0 -> nth 1 (lo t) 0 = y0 -> nth 0 (hi t) 0 = x1 -> nth 1 (hi t) 0 = y1 -> x0 <= x1 -> y0 <= y1 ->
    In [x0; y0] sample -> In [x0; y1] sample -> In [x1; y0] sample -> In [x1; y1] sample ->
    isHull sample F -> filter2 P t sched sample F = Ok [].
  Proof.
    intros E1 E2 E3 E4 X Y S1 S2 S3 S4 (HF & HA & _). unfold filter2. rewrite facets_ok by auto. cbn [bind]. f_equal.
    set (fs := map _ (seq 0 (length F))).
    assert (G : forall f, In f fs -> flagVisible P t (fst f) (snd f) = []).
    { intros f Hf. unfold fs in Hf. apply in_map_iff in Hf as (i & <- & Hi). apply in_seq in Hi. cbn [fst snd].
      apply flag_none; [|rewrite E1, E3; auto|rewrite E2, E4; auto].
      intros p Hb. pose proof (HA _ _ (@cyc_adj _ F 0%nat i ltac:(lia))) as HA'.
      rewrite <- E1, <- E2, <- E3, <- E4 in *.
      apply (@corners _ _ (lo t) (hi t)); [exact Hb| | | |]; apply HA'; assumption. }
    assert (Z : forall ls, (forall l, In l ls -> fst l = []) -> forall flag, runT casStep casFin sched ls flag = Ok (ls, flag)).
    { clear. intros ls H flag. induction sched as [|k sc IH]; cbn [runT].
      - replace (forallb casFin ls) with true; auto. symmetry. apply forallb_forall. intros l Hl. unfold casFin. rewrite H; auto.
      - destruct (nth_error ls k) as [l|] eqn:E; auto. unfold casFin at 1. rewrite H by (apply (nth_error_In _ _ E)). auto. }
    rewrite Z. 2:{ intros l Hl. apply in_map_iff in Hl as (f & <- & Hf). apply G. auto. }
    cbn [bind]. f_equal. clear. generalize (length P) at 1 as m. intros m.
    enough (X : forall l, filter (fun i => nth i (repeat false m) false) l = []) by (rewrite X; reflexivity).
    intros l. induction l as [|i l IH]; auto. cbn [filter]. replace (nth i (repeat false m) false) with false; auto.
    clear. revert i. induction m; intros [|i]; cbn [repeat nth]; auto.
  Qed.

  Lemma samplingHull_small (t : tree RNum nat) sched sample : (length P < N.to_nat 1000)%nat ->
    @samplingHull RNum red minmax P t sched sample = @quickHull RNum red minmax P.
  Proof. intros H. unfold samplingHull. rewrite (proj2 (Nat.ltb_lt _ _) H). reflexivity. Qed.

  Theorem samplingHull_square (t : tree RNum nat) sched (sample : list pt) x0 x1 y0 y1 : (N.to_nat 1000 <= length P)%nat ->
    nth 0 (lo t) 0 = x0 -> nth 1 (lo t) 0 = y0 -> nth 0 (hi t) 0 = x1 -> nth 1 (hi t) 0 = y1 -> x0 <= x1 -> y0 <= y1 ->
    In [x0; y0] sample -> In [x0; y1] sample -> In [x1; y0] sample -> In [x1; y1] sample ->
    exists i j, @samplingHull RNum red minmax P t sched sample = Ok [i; j].
  Proof.
    intros Hn E1 E2 E3 E4 X Y S1 S2 S3 S4. unfold samplingHull. rewrite (proj2 (Nat.ltb_ge _ _) Hn).
    destruct (@quickHull_ok red Hred minmax Hmm sample) as (F & -> & HF & _). { intros ->. destruct S1. }
    cbn [bind]. rewrite (@filter2_square t sched sample F x0 x1 y0 y1) by auto. cbn [bind]. do 2 eexists. reflexivity.
  Qed.

  (** two positions cannot cover a rectangle *)
  Lemma two_not_square i j x0 x1 y0 y1 : x0 < x1 -> y0 < y1 -> (forall p, In p [[x0; y0]; [x0; y1]; [x1; y0]] ->
    exists a b c, In a [i; j] /\ In b [i; j] /\ In c [i; j] /\ inTriangle (q a) (q b) (q c) p) -> False.
  Proof.
    intros X Y H.
    assert (S : forall p, In p [[x0; y0]; [x0; y1]; [x1; y0]] -> exists u, nth 0 p 0 = nth 0 (q i) 0 + u * (nth 0 (q j) 0 - nth 0 (q i) 0) /\
      nth 1 p 0 = nth 1 (q i) 0 + u * (nth 1 (q j) 0 - nth 1 (q i) 0)).
    { intros p Hp. destruct (H p Hp) as (a & b & c & Ha & Hb & Hc & (u & v & w & _ & _ & _ & E & E0 & E1)).
      assert (W : forall k, exists s, In k [i; j] -> forall d, nth d (q k) 0 = nth d (q i) 0 + s * (nth d (q j) 0 - nth d (q i) 0)).
      { change (nT RNum) with R. intros k. destruct (Nat.eq_dec k i) as [->|]; [exists 0; intros; ring|]. exists 1. intros [->|[->|[]]] d; [congruence|ring]. }
      destruct (W a) as [sa Wa], (W b) as [sb Wb], (W c) as [sc Wc].
      exists (u * sa + v * sb + w * sc). change (nT RNum) with R in *. rewrite E0, E1, !(Wa Ha), !(Wb Hb), !(Wc Hc).
      replace u with (1 - v - w) by lra. split; ring. }
    destruct (S [x0; y0]) as (u1 & A1 & B1); [simpl; auto|]. destruct (S [x0; y1]) as (u2 & A2 & B2); [simpl; auto|].
    destruct (S [x1; y0]) as (u3 & A3 & B3); [simpl; auto|]. cbn [nth] in *. change (nT RNum) with R in *.
    set (dx := nth 0 (q j) 0 - nth 0 (q i) 0) in *. set (dy := nth 1 (q j) 0 - nth 1 (q i) 0) in *. clearbody dx dy.
    assert (G1 : (u2 - u1) * dx = 0) by lra. assert (G2 : (u2 - u1) * dy = y1 - y0) by lra. assert (G3 : (u3 - u1) * dx = x1 - x0) by lra.
    apply Rmult_integral in G1 as [G1|G1]; [rewrite G1 in G2; lra|rewrite G1 in G3; lra].
  Qed.

  Theorem samplingHull_bad (t : tree RNum nat) sched (sample : list pt) x0 x1 y0 y1 : (N.to_nat 1000 <= length P)%nat ->
    tight 2 (fun i => q i) (tbox t) (items t) -> Permutation (items t) (seq 0 (length P)) ->
    x0 < x1 -> y0 < y1 -> (forall p, In p P -> x0 <= nth 0 p 0 <= x1 /\ y0 <= nth 1 p 0 <= y1) ->
    incl [[x0; y0]; [x0; y1]; [x1; y0]; [x1; y1]] sample -> incl sample P ->
    exists i j, @samplingHull RNum red minmax P t sched sample = Ok [i; j] /\
      ~ forall p, In p P -> exists a b c, In a [i; j] /\ In b [i; j] /\ In c [i; j] /\ inTriangle (q a) (q b) (q c) p.
  Proof.
    intros Hn HT HP X Y HR HS HSP.
    assert (It : forall i, In i (items t) <-> (i < length P)%nat).
    { intros i. rewrite (Permutation_in' (eq_refl i) HP), in_seq. lia. }
    assert (Cn : forall p, In p [[x0; y0]; [x0; y1]; [x1; y0]; [x1; y1]] -> exists i, In i (items t) /\ q i = p).
    { intros p Hp. apply HS, HSP, In_nth with (d := []) in Hp as (k & Hk & E). exists k. rewrite It. auto. }
    destruct (Cn [x0; y0]) as (k0 & K0 & E0); [simpl; auto|]. destruct (Cn [x1; y1]) as (k1 & K1 & E1); [simpl; auto|].
    destruct (HT 0%nat ltac:(lia)) as (B0 & (l0 & L0 & M0) & (h0 & H0 & N0)). destruct (HT 1%nat ltac:(lia)) as (B1 & (l1 & L1 & M1) & (h1 & H1 & N1)).
    apply It in L0, H0, L1, H1. unfold coord in *. cbn [nzero RNum] in *.
    pose proof (proj1 (HR _ (nth_In P [] L0))) as R0. pose proof (proj1 (HR _ (nth_In P [] H0))) as R1.
    pose proof (proj2 (HR _ (nth_In P [] L1))) as R2. pose proof (proj2 (HR _ (nth_In P [] H1))) as R3.
    destruct (B0 k0 K0) as [C0 C0']. destruct (B0 k1 K1) as [C1 C1']. destruct (B1 k0 K0) as [D0 D0']. destruct (B1 k1 K1) as [D1 D1'].
    cbn [nle RNum] in *. rewrite Rleb_true in *. rewrite E0, E1 in *. cbn [nth] in *. change (nT RNum) with R in *.
    destruct (@samplingHull_square t sched sample x0 x1 y0 y1) as (i & j & E); try lra; auto; try (change (nT RNum) with R; lra); try (apply HS; simpl; auto; fail).
    exists i, j. split; [exact E|]. intros G. apply (@two_not_square i j x0 x1 y0 y1 X Y). intros p Hp. apply G, HSP, HS. simpl in *. tauto.
  Qed.
End Sample.
