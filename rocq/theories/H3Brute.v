(** The brute-force hull. *)
From Coq Require Import Reals Lra Lia Psatz List Bool Permutation.
From Verif Require Import Base Num Hull2dModel H3Model H3Geom H3Surf H3Heap H3Link H3Loop H3Init H3Init2 H3Spec H3Final.
Set Implicit Arguments.
Open Scope R_scope.

Lemma flat_map_map X Y Z (f : Y -> list Z) (g : X -> Y) l : flat_map f (map g l) = flat_map (fun x => f (g x)) l.
Proof. induction l; cbn; congruence. Qed.
Lemma flat_map_prod X Y Z (f : X * Y -> list Z) l l' : flat_map f (list_prod l l') = flat_map (fun x => flat_map (fun y => f (x, y)) l') l.
Proof. induction l as [|x l IH]; auto. cbn [list_prod flat_map]. rewrite flat_map_app, IH, flat_map_map. auto. Qed.
Lemma flat_map_filter X Y (ok : X -> bool) (g : X -> Y) l : flat_map (fun x => if ok x then [g x] else []) l = map g (filter ok l).
Proof. induction l as [|x l IH]; auto. cbn. destruct (ok x); cbn; congruence. Qed.
Lemma NoDup_prod X Y (l : list X) (l' : list Y) : NoDup l -> NoDup l' -> NoDup (list_prod l l').
Proof.
  intros H H'. induction l as [|x l IH]; [constructor|]. inversion H as [|? ? N H2]; subst. cbn [list_prod].
  apply NoDup_app_intro; auto.
  - apply FinFun.Injective_map_NoDup; auto. intros a b E. congruence.
  - intros [a b] Ha Hb. apply in_map_iff in Ha. destruct Ha as (y & E & _). inversion E; subst. apply in_prod_iff in Hb. tauto.
Qed.
Lemma iP_in X (P : list X) i x : In (i, x) (combine (seq 0 (length P)) P) <-> nth_error P i = Some x.
Proof.
  assert (G : forall s, In (i, x) (combine (seq s (length P)) P) <-> (s <= i)%nat /\ nth_error P (i - s) = Some x).
  { induction P as [|y P IH]; intros s; cbn [length seq combine In].
    - destruct (i - s)%nat; split; try tauto; intros [_ H]; discriminate.
    - rewrite IH. destruct (Nat.eq_dec i s) as [->|Ne].
      + rewrite Nat.sub_diag. cbn. split; [intros [E|[E _]]; [inversion E; auto|lia]|intros [_ E]; left; congruence].
      + split.
        * intros [E|[E H]]; [congruence|]. split; [lia|]. replace (i - s)%nat with (S (i - S s)) by lia. auto.
        * intros [E H]. right. split; [lia|]. replace (i - s)%nat with (S (i - S s)) in H by lia. auto. }
  rewrite G, Nat.sub_0_r. intuition lia.
Qed.
Lemma NoDup_combine X (P : list X) : NoDup (combine (seq 0 (length P)) P).
Proof.
  assert (G : forall s, NoDup (combine (seq s (length P)) P)).
  { induction P as [|y P IH]; intros s; [constructor|]. cbn. constructor; auto. intros H. apply in_combine_l in H. apply in_seq in H. lia. }
  auto.
Qed.

Section Brute.
  Variable P : list p3.
  Variable eps : R.
  Hypothesis eps0 : 0 <= eps.
  Hypothesis GP : margin P eps.
  Hypothesis ND : NoDup P.
  Notation iP := (combine (seq 0 (length P)) P).

  Definition okT (x : (nat * p3) * (nat * p3) * (nat * p3)) : bool := let '(i, j, k) := x in
    ((fst i <? fst j) && (fst j <? fst k) && @bruteOn RNum eps P (fst i) (fst j) (fst k) (@mkTri RNum eps (snd i) (snd j) (snd k)))%nat.
  Definition gT (x : (nat * p3) * (nat * p3) * (nat * p3)) : tri3 := let '(i, j, k) := x in
    @outFacet RNum (@mkTri RNum eps (snd i) (snd j) (snd k)).
  Lemma brute3_eq : @brute3 RNum eps P = map gT (filter okT (list_prod (list_prod iP iP) iP)).
  Proof.
    rewrite <- flat_map_filter, flat_map_prod, flat_map_prod. unfold brute3.
    apply flat_map_ext. intros i. apply flat_map_ext. intros j. apply flat_map_ext. intros k. unfold okT, gT.
    destruct i as [i a], j as [j b], k as [k c]. cbn [fst snd]. destruct (i <? j)%nat, (j <? k)%nat; reflexivity.
  Qed.

  Lemma mk_corner a b c q : isCorner (@mkTri RNum eps a b c) q <-> q = a \/ q = b \/ q = c.
  Proof. unfold mkTri. destruct (nlt _ _ _); cbn; tauto. Qed.
  Lemma g_corner i j k q : isCorner (gT (i, j, k)) q <-> q = snd i \/ q = snd j \/ q = snd k.
  Proof. unfold gT. rewrite outFacet_corner. apply mk_corner. Qed.

  Lemma on_facet i j k a b c : nth_error P i = Some a -> nth_error P j = Some b -> nth_error P k = Some c -> (i < j < k)%nat ->
    (@bruteOn RNum eps P i j k (@mkTri RNum eps a b c) = true <-> HullFacet P (@mkTri RNum eps a b c)).
  Proof.
    intros Ei Ej Ek Lt.
    assert (Inj : forall i j x, nth_error P i = Some x -> nth_error P j = Some x -> i = j).
    { intros i' j' x Hi Hj. rewrite NoDup_nth_error in ND. apply ND; [apply nth_error_Some; congruence|congruence]. }
    assert (Nab : a <> b) by (intros ->; pose proof (Inj _ _ _ Ei Ej); lia).
    assert (Nbc : b <> c) by (intros ->; pose proof (Inj _ _ _ Ej Ek); lia).
    assert (Nac : a <> c) by (intros ->; pose proof (Inj _ _ _ Ei Ek); lia).
    pose proof (nth_error_In _ _ Ei) as Ia. pose proof (nth_error_In _ _ Ej) as Ib. pose proof (nth_error_In _ _ Ek) as Ic.
    set (t := @mkTri RNum eps a b c).
    assert (Ct : forall q, isCorner t q <-> q = a \/ q = b \/ q = c) by (intros; apply mk_corner).
    assert (St : forall q, In q P -> ~ isCorner t q -> (@sees RNum eps t q = true <-> 0 < ht t q) /\ ht t q <> 0).
    { intros q Hq Nq. rewrite Ct in Nq.
      assert (M : eps < Rabs (ht t q)).
      { unfold t, mkTri. destruct (nlt _ _ _); cbn [ht]; [rewrite svol_swap, Rabs_Ropp|]; apply GP; auto. }
      unfold sees. cbn [nlt RNum]. rewrite Rltb_true, vol_R. unfold Rabs in M. destruct (Rcase_abs _); split; try lra; split; lra. }
    unfold bruteOn. set (F := filter _ _).
    assert (HF : forall l q, In (l, q) F <-> nth_error P l = Some q /\ ~ isCorner t q).
    { intros l q. unfold F. rewrite filter_In, iP_in, Ct. cbn [fst]. rewrite negb_true_iff, !orb_false_iff, !Nat.eqb_neq.
      split; intros [A B]; split; auto.
      - intros [-> | [-> | ->]]; [pose proof (Inj _ _ _ A Ei)|pose proof (Inj _ _ _ A Ej)|pose proof (Inj _ _ _ A Ek)]; lia.
      - repeat split; intros ->; apply B; rewrite A in *; [left|right; left|right; right]; congruence. }
    assert (HP : forall q, In q P -> ~ isCorner t q -> exists l, In (l, q) F).
    { intros q Hq Nq. apply In_nth_error in Hq. destruct Hq as [l Hl]. exists l. apply HF; auto. }
    assert (Tail : HullFacet P t <-> (forall q, In q P -> ~ isCorner t q -> ht t q < 0) \/ (forall q, In q P -> ~ isCorner t q -> 0 < ht t q)).
    { assert (Id : let '(x, y, z) := t in In x P /\ In y P /\ In z P /\ x <> y /\ y <> z /\ z <> x).
      { unfold t, mkTri. destruct (nlt _ _ _); auto 10. }
      destruct t as [[x y] z]. cbn [HullFacet ht] in *. tauto. }
    rewrite Tail. clear Tail. clearbody F. destruct F as [|[l0 x0] F].
    - split; auto. intros _. left. intros q Hq Nq. destruct (HP q Hq Nq) as [l []].
    - rewrite forallb_forall. destruct (proj1 (HF l0 x0) (or_introl eq_refl)) as [E0 N0].
      pose proof (St x0 (nth_error_In _ _ E0) N0) as [S0 Z0]. cbn [snd] in *. split.
      + intros H. assert (G : forall q, In q P -> ~ isCorner t q -> @sees RNum eps t q = @sees RNum eps t x0).
        { intros q Hq Nq. destruct (HP q Hq Nq) as [l [E|Hl]]; [congruence|]. specialize (H _ Hl). apply eqb_prop in H. auto. }
        destruct (@sees RNum eps t x0) eqn:E.
        * right. intros q Hq Nq. apply St; auto.
        * left. intros q Hq Nq. destruct (St q Hq Nq) as [A B]. specialize (G q Hq Nq). destruct (Rtotal_order (ht t q) 0) as [|[|C]]; auto; [tauto|].
          apply A in C. congruence.
      + intros H [l q] Hl. cbn [snd]. destruct (proj1 (HF l q) (or_intror Hl)) as [El Nl]. apply eqb_true_iff.
        pose proof (St q (nth_error_In _ _ El) Nl) as [S1 Z1].
        destruct H as [H|H]; pose proof (H q (nth_error_In _ _ El) Nl); pose proof (H x0 (nth_error_In _ _ E0) N0).
        * destruct (@sees RNum eps t q); [pose proof (proj1 S1 eq_refl); lra|]. destruct (@sees RNum eps t x0); [pose proof (proj1 S0 eq_refl); lra|]. auto.
        * rewrite (proj2 S1), (proj2 S0); auto.
  Qed.

  Theorem brute_ok : hull_facets P (@brute3 RNum eps P).
  Proof.
    rewrite brute3_eq. split; [|split].
    - intros t Ht. apply in_map_iff in Ht. destruct Ht as ([[[i a] [j b]] [k c]] & <- & Hx). apply filter_In in Hx. destruct Hx as [Hx Ok].
      rewrite !in_prod_iff, !iP_in in Hx. destruct Hx as [[Ei Ej] Ek]. unfold okT in Ok. cbn [fst snd] in Ok. rewrite !andb_true_iff, !Nat.ltb_lt in Ok.
      destruct Ok as [[L1 L2] Ok]. unfold gT. cbn [snd]. apply HullFacet_out. apply (on_facet Ei Ej Ek); auto.
    - intros t Ht.
      assert (X : exists i j k a b c, nth_error P i = Some a /\ nth_error P j = Some b /\ nth_error P k = Some c /\ (i < j < k)%nat /\
        forall q, isCorner t q <-> q = a \/ q = b \/ q = c).
      { destruct t as [[x y] z]. destruct Ht as (A & B & C & N1 & N2 & N3 & _).
        apply In_nth_error in A, B, C. destruct A as [i A], B as [j B], C as [k C].
        assert (i <> j) by congruence. assert (j <> k) by congruence. assert (k <> i) by congruence. cbn [isCorner].
        destruct (Nat.lt_ge_cases i j), (Nat.lt_ge_cases j k), (Nat.lt_ge_cases k i); try lia.
        - exists i, j, k, x, y, z. repeat (split; [assumption|]). split; [lia|intros; tauto].
        - exists k, i, j, z, x, y. repeat (split; [assumption|]). split; [lia|intros; tauto].
        - exists i, k, j, x, z, y. repeat (split; [assumption|]). split; [lia|intros; tauto].
        - exists j, k, i, y, z, x. repeat (split; [assumption|]). split; [lia|intros; tauto].
        - exists j, i, k, y, x, z. repeat (split; [assumption|]). split; [lia|intros; tauto].
        - exists k, j, i, z, y, x. repeat (split; [assumption|]). split; [lia|intros; tauto]. }
      destruct X as (i & j & k & a & b & c & Ei & Ej & Ek & Lt & Ec).
      exists (gT ((i, a), (j, b), (k, c))). split; [|intros q; rewrite g_corner, Ec; reflexivity].
      apply in_map. apply filter_In. split; [rewrite !in_prod_iff, !iP_in; auto|]. unfold okT. cbn [fst snd]. rewrite !andb_true_iff, !Nat.ltb_lt.
      split; [lia|]. apply (on_facet Ei Ej Ek); auto.
      assert (Eq : sameFacet (@mkTri RNum eps a b c) t) by (intros q; rewrite mk_corner, Ec; reflexivity).
      assert (N3 : a <> b /\ b <> c /\ c <> a).
      { rewrite NoDup_nth_error in ND. repeat split; intros ->; [assert (i = j)|assert (j = k)|assert (k = i)]; try lia; apply ND; try (apply nth_error_Some; congruence); congruence. }
      clear - Ht Eq Ec N3 Ei Ej Ek.
      destruct N3 as (M1 & M2 & M3). pose proof (nth_error_In _ _ Ei) as Ia. pose proof (nth_error_In _ _ Ej) as Ib. pose proof (nth_error_In _ _ Ek) as Ic.
      assert (Sg : exists s, (s = 1 \/ s = -1) /\ forall q, ht (@mkTri RNum eps a b c) q = s * ht t q).
      { destruct t as [[x y] z]. cbn [isCorner ht] in *.
        assert (A : x = a \/ x = b \/ x = c) by (apply Ec; auto). assert (B : y = a \/ y = b \/ y = c) by (apply Ec; auto). assert (C : z = a \/ z = b \/ z = c) by (apply Ec; auto).
        destruct Ht as (_ & _ & _ & N1 & N2 & N3 & _).
        assert (Y : exists s, (s = 1 \/ s = -1) /\ forall q, svol a b c q = s * svol x y z q).
        { destruct A as [-> | [-> | ->]], B as [-> | [-> | ->]], C as [-> | [-> | ->]]; try congruence.
          - exists 1. split; auto. intros; lra.
          - exists (-1). split; auto. intros q. rewrite (svol_swap a b c q). lra.
          - exists (-1). split; auto. intros q. rewrite (svol_swap1 a b c q). lra.
          - exists 1. split; auto. intros q. rewrite (svol_rot a b c q). lra.
          - exists 1. split; auto. intros q. rewrite <- (svol_rot c a b q). lra.
          - exists (-1). split; auto. intros q. rewrite (svol_swap c a b q), <- (svol_rot c a b q). lra. }
        destruct Y as (s & Hs & Y). unfold mkTri. destruct (nlt _ _ _); cbn [ht].
        - exists (- s). split; [lra|]. intros q. rewrite svol_swap, Y. lra.
        - exists s. auto. }
      destruct Sg as (s & Hs & Sg).
      assert (Fin : (forall q, In q P -> ~ isCorner (@mkTri RNum eps a b c) q -> ht (@mkTri RNum eps a b c) q < 0) \/
                    (forall q, In q P -> ~ isCorner (@mkTri RNum eps a b c) q -> 0 < ht (@mkTri RNum eps a b c) q)).
      { assert (G : (forall q, In q P -> ~ isCorner t q -> ht t q < 0) \/ (forall q, In q P -> ~ isCorner t q -> 0 < ht t q)).
        { destruct t as [[x y] z]. apply Ht. }
        destruct Hs as [-> | ->], G as [G|G]; [left|right|right|left]; intros q Hq Nq; rewrite (Eq q) in Nq; specialize (G q Hq Nq); rewrite Sg; lra. }
      revert Fin. unfold mkTri. destruct (nlt _ _ _); cbn [HullFacet ht]; intros Fin; repeat (split; [auto; fail|]); auto.
    - intros n m t u Hn Hm Ss. rewrite nth_error_map in Hn, Hm. set (F := filter okT _) in *.
      destruct (nth_error F n) as [x|] eqn:En; [|discriminate]. destruct (nth_error F m) as [y|] eqn:Em; [|discriminate]. cbn in Hn, Hm. injection Hn as Hn. injection Hm as Hm.
      assert (NF : NoDup F). { apply NoDup_filter. repeat apply NoDup_prod; apply NoDup_combine. }
      enough (x = y). { subst y. rewrite NoDup_nth_error in NF. apply NF; [apply nth_error_Some; congruence|congruence]. }
      pose proof (nth_error_In _ _ En) as Hx. pose proof (nth_error_In _ _ Em) as Hy. unfold F in Hx, Hy. apply filter_In in Hx, Hy.
      destruct x as [[[i a] [j b]] [k c]], y as [[[i' a'] [j' b']] [k' c']]. rewrite !in_prod_iff, !iP_in in Hx, Hy. unfold okT in Hx, Hy. cbn [fst snd] in Hx, Hy.
      rewrite !andb_true_iff, !Nat.ltb_lt in Hx, Hy. destruct Hx as [[[Ei Ej] Ek] [[L1 L2] _]], Hy as [[[Ei' Ej'] Ek'] [[L1' L2'] _]].
      rewrite <- Hn, <- Hm in Ss.
      assert (Inj : forall i j x, nth_error P i = Some x -> nth_error P j = Some x -> i = j).
      { intros i0 j0 x Hi Hj. rewrite NoDup_nth_error in ND. apply ND; [apply nth_error_Some; congruence|congruence]. }
      assert (T : forall l q, nth_error P l = Some q -> (l = i \/ l = j \/ l = k <-> l = i' \/ l = j' \/ l = k')).
      { intros l q El. specialize (Ss q). rewrite !g_corner in Ss. cbn [snd] in Ss.
        assert (A1 : forall s p, nth_error P s = Some p -> (l = s <-> q = p)) by (intros s p Es; split; [intros ->; congruence|intros ->; eapply Inj; eauto]).
        rewrite (A1 _ _ Ei), (A1 _ _ Ej), (A1 _ _ Ek), (A1 _ _ Ei'), (A1 _ _ Ej'), (A1 _ _ Ek'). exact Ss. }
      assert (Q3 : (i = i' /\ j = j' /\ k = k')%nat).
      { pose proof (proj1 (T _ _ Ei) (or_introl eq_refl)) as T1. pose proof (proj1 (T _ _ Ej) (or_intror (or_introl eq_refl))) as T2.
        pose proof (proj1 (T _ _ Ek) (or_intror (or_intror eq_refl))) as T3. clear - T1 T2 T3 L1 L2 L1' L2'. lia. }
      destruct Q3 as (-> & -> & ->). congruence.
  Qed.
End Brute.
