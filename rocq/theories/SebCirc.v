(** In exact arithmetic the ball constructor computes the circumscribed ball. *)
From Coq Require Import Reals Lra.
From Verif Require Import Base Num KdModel RGeom SebModel SebPrefix SebGeom.
Set Implicit Arguments.
Unset Strict Implicit.
Local Open Scope R_scope.

Section Circ.
  Variable dim : nat.
  Notation pt := (list (nT RNum)).
  Definition cv (p : list (nT RNum)) : vec := @coord RNum p.
  Notation ip := (ip dim). Notation D2 := (D2 dim).
  Notation vadd := (vadd RNum dim). Notation vsub := (vsub RNum dim).
  Notation pd := (pd RNum dim). Notation pn := (pn RNum).

  Lemma nth_map_seq' A (f : nat -> A) n i d : (i < n)%nat -> nth i (map f (seq 0 n)) d = f i.
  Proof.
    intros H. rewrite (nth_indep _ d (f 0%nat)) by (rewrite map_length, seq_length; auto).
    rewrite map_nth, seq_nth; auto.
  Qed.
  Lemma coord_map f i : (i < dim)%nat -> cv (map f (seq 0 dim)) i = f i.
  Proof. intros. unfold cv, coord. apply nth_map_seq'; auto. Qed.
  Lemma coord_add p q i : (i < dim)%nat -> cv (vadd p q) i = cv p i + cv q i.
  Proof. intros. unfold SebModel.vadd, vmap2. rewrite coord_map; auto. Qed.
  Lemma coord_sub p q i : (i < dim)%nat -> cv (vsub p q) i = cv p i - cv q i.
  Proof. intros. unfold SebModel.vsub, vmap2. rewrite coord_map; auto. Qed.
  Lemma coord_scale p a i : (i < dim)%nat -> cv (vscale RNum dim p a) i = cv p i * a.
  Proof. intros. unfold vscale. rewrite coord_map; auto. Qed.
  Lemma coord_quot p a i : (i < dim)%nat -> cv (vquot RNum dim p a) i = cv p i / a.
  Proof. intros. unfold vquot. rewrite coord_map; auto. Qed.
  Lemma coord_zero i : (i < dim)%nat -> cv (vzero RNum dim) i = 0.
  Proof. intros. unfold vzero. rewrite coord_map; auto. Qed.
  Lemma sumN_rsum f n : sumN RNum f n = rsum f n.
  Proof. unfold sumN. cbn [nadd nzero RNum]. rewrite fold_rsum. lra. Qed.
  Lemma dot_ip p q : dot RNum dim p q = ip (cv p) (cv q).
  Proof. unfold dot. rewrite sumN_rsum. reflexivity. Qed.
  Lemma distSqr_D2 p q : distSqr RNum dim p q = D2 (cv q) (cv p).
  Proof. rewrite distSqr_sum. reflexivity. Qed.
  Lemma dist_D2 p q : dist RNum dim p q = R_sqrt.sqrt (D2 (cv q) (cv p)).
  Proof. unfold dist. rewrite distSqr_D2. reflexivity. Qed.

  (** differences to the first point *)
  Definition q (P : list pt) (j : nat) : vec := cv (pd P (1 + j)).
  Lemma q_coord P j i : (i < dim)%nat -> q P j i = cv (pn P (1 + j)) i - cv (pn P 0) i.
  Proof. intros. unfold q, SebModel.pd. rewrite coord_sub; auto. Qed.

  Definition span (P : list pt) (La : nat -> R) : vec := fun i => rsum (fun j => La j * q P j i) (length P - 1).

  Lemma fold_recompute P La l c i : (i < dim)%nat ->
    cv (fold_left (fun c i => vadd c (vscale RNum dim (pd P i) (La (i - 1)%nat))) l c) i =
    cv c i + fold_right (fun j acc => La (j - 1)%nat * cv (pd P j) i + acc) 0 l.
  Proof.
    intros Hi. revert c. induction l as [|j l IH]; intros c; cbn [fold_left fold_right]; [lra|].
    rewrite IH, coord_add, coord_scale by auto. lra.
  Qed.
  Lemma fold_right_rsum (f : nat -> R) a n : fold_right (fun j acc => f j + acc) 0 (seq a n) = rsum (fun j => f (a + j)%nat) n.
  Proof.
    revert a. induction n as [|n IH]; intros a; cbn [seq fold_right]; [reflexivity|].
    rewrite IH. clear IH. revert a. induction n as [|n IH]; intros a; cbn [rsum] in *.
    - rewrite Nat.add_0_r. lra.
    - replace (S a + n)%nat with (a + S n)%nat by lia. specialize (IH a). lra.
  Qed.

  Lemma recompute_spec P La : exists c0 : list R,
    (forall i, (i < dim)%nat -> cv c0 i = span P La i) /\
    (forall i, (i < dim)%nat -> cv (fst (recompute RNum dim P La)) i = cv (pn P 0) i + span P La i) /\
    snd (recompute RNum dim P La) = R_sqrt.sqrt (ip (span P La) (span P La)).
  Proof.
    unfold recompute. cbn [fst snd].
    match goal with |- context [vadd ?c (pn P 0)] => set (c0 := c) end. exists c0.
    assert (E : forall i, (i < dim)%nat -> cv c0 i = span P La i).
    { intros i Hi. unfold c0. rewrite fold_recompute, coord_zero by auto.
      rewrite (fold_right_rsum (fun j => La (j - 1)%nat * cv (pd P j) i)). unfold span.
      rewrite Rplus_0_l. apply rsum_ext. intros j Hj. replace (1 + j - 1)%nat with j by lia. reflexivity. }
    split; auto. split.
    - intros i Hi. rewrite coord_add, E by auto. lra.
    - cbn [nsqrt RNum]. f_equal. rewrite dot_ip. apply ip_ext; auto.
  Qed.

  (** Result of a construction on P. *)
  Definition good (P : list pt) (C : pt) (r : R) : Prop :=
    0 <= r /\ (forall k, (k < length P)%nat -> D2 (cv C) (cv (pn P k)) = r * r) /\
    exists La, forall i, (i < dim)%nat -> cv C i - cv (pn P 0) i = span P La i.

  Lemma recompute_good P La : (1 <= length P)%nat ->
    (forall k, (k < length P - 1)%nat -> 2 * ip (q P k) (span P La) = ip (q P k) (q P k)) ->
    good P (fst (recompute RNum dim P La)) (snd (recompute RNum dim P La)).
  Proof.
    intros HP H. destruct (recompute_spec P La) as (c0 & E0 & E1 & E2). set (C := fst _) in *. set (r := snd _) in *.
    assert (Hr : r * r = ip (span P La) (span P La)) by (rewrite E2; apply sqrt_sqrt, ip_pos).
    split; [rewrite E2; apply sqrt_pos|]. split.
    - intros k Hk. rewrite Hr.
      assert (D : D2 (cv C) (cv (pn P k)) = ip (vminus (vminus (cv (pn P k)) (cv (pn P 0))) (span P La))
                                              (vminus (vminus (cv (pn P k)) (cv (pn P 0))) (span P La))).
      { unfold SebGeom.D2. apply ip_ext; intros i Hi; unfold vminus; rewrite E1 by auto; lra. }
      rewrite D. destruct k as [|k].
      + unfold SebGeom.ip. apply rsum_ext. intros i Hi. unfold vminus. ring.
      + match goal with |- SebGeom.ip _ (vminus ?u ?s) _ = _ => fold (D2 s u) end. rewrite D2_expand. specialize (H k ltac:(lia)).
        assert (Q1 : ip (vminus (cv (pn P (S k))) (cv (pn P 0))) (vminus (cv (pn P (S k))) (cv (pn P 0))) = ip (q P k) (q P k)).
        { apply ip_ext; intros i Hi; unfold vminus; rewrite q_coord; auto. }
        assert (Q2 : ip (vminus (cv (pn P (S k))) (cv (pn P 0))) (span P La) = ip (q P k) (span P La)).
        { apply ip_ext; intros i Hi; auto; unfold vminus; rewrite q_coord; auto. }
        rewrite (ip_sym dim (span P La)), Q1, Q2. lra.
    - exists La. intros i Hi. rewrite E1 by auto. lra.
  Qed.

  (** *** inverse matrices *)
  Definition delta (i k : nat) : R := if (i =? k)%nat then 1 else 0.
  Lemma rsum_swap (f : nat -> nat -> R) m n : rsum (fun i => rsum (f i) n) m = rsum (fun j => rsum (fun i => f i j) m) n.
  Proof.
    induction m as [|m IH]; cbn [rsum].
    - symmetry. apply rsum_zero. auto.
    - rewrite IH, <- rsum_plus. reflexivity.
  Qed.
  Lemma rsum_scal_r c f n : rsum (fun i => f i * c) n = rsum f n * c.
  Proof. rewrite (rsum_ext _ (fun i => c * f i)) by (intros; ring). rewrite rsum_scal. ring. Qed.
  Lemma rsum_delta f n k : (k < n)%nat -> rsum (fun i => delta k i * f i) n = f k.
  Proof.
    induction n as [|n IH]; intros Hk; [lia|]. cbn [rsum]. unfold delta at 2. destruct (Nat.eqb_spec k n) as [->|].
    - rewrite rsum_zero; [ring|]. intros i Hi. unfold delta. destruct (Nat.eqb_spec n i); [lia|ring].
    - rewrite IH by lia. ring.
  Qed.

  Definition inv (G A : nat -> nat -> R) (m : nat) : Prop :=
    (forall i k, (i < m)%nat -> (k < m)%nat -> rsum (fun j => G i j * A j k) m = delta i k) /\
    forall i k, (i < m)%nat -> (k < m)%nat -> A i k = A k i.

  Lemma inv_apply G A m Q k : inv G A m -> (k < m)%nat ->
    rsum (fun j => G k j * rsum (fun i => A j i * Q i) m) m = Q k.
  Proof.
    intros [H _] Hk.
    rewrite (rsum_ext _ (fun j => rsum (fun i => G k j * A j i * Q i) m)).
    2:{ intros j Hj. rewrite <- rsum_scal. apply rsum_ext. intros; ring. }
    rewrite (rsum_swap (fun j i => G k j * A j i * Q i)).
    rewrite (rsum_ext _ (fun i => delta k i * Q i)).
    2:{ intros i Hi. rewrite rsum_scal_r, H by auto. reflexivity. }
    apply rsum_delta; auto.
  Qed.

  Definition bordered (A : nat -> nat -> R) (mu : nat -> R) (z : R) (m : nat) : nat -> nat -> R := fun i j =>
    if (i <? m)%nat then if (j <? m)%nat then A i j + mu i * mu j / z else (-1 * mu i) / z
    else if (j <? m)%nat then (-1 * mu j) / z else 1 / z.
  Lemma inv_step G A m : inv G A m -> (forall i j, G i j = G j i) ->
    let mu := fun i => rsum (fun j => A i j * G j m) m in
    let z := G m m - rsum (fun i => G i m * mu i) m in z <> 0 -> inv G (bordered A mu z m) (S m).
  Proof.
    intros [H HS] Gs mu z Hz.
    assert (F1 : forall i, (i < m)%nat -> rsum (fun j => G i j * mu j) m = G i m).
    { intros i Hi. unfold mu. apply (@inv_apply G A m (fun j => G j m) i); [split|]; auto. }
    assert (F2 : forall k, (k < m)%nat -> rsum (fun j => G m j * A j k) m = mu k).
    { intros k Hk. unfold mu. apply rsum_ext. intros j Hj. rewrite (HS j k), (Gs m j) by auto. ring. }
    assert (L : forall i, (i < m)%nat -> (i <? m)%nat = true) by (intros; apply Nat.ltb_lt; auto).
    assert (L' : (m <? m)%nat = false) by (apply Nat.ltb_irrefl).
    split.
    - intros i k Hi Hk. cbn [rsum].
      destruct (Nat.eq_dec k m) as [->|Nk].
      + rewrite (rsum_ext _ (fun j => (-1/z) * (G i j * mu j))).
        2:{ intros j Hj. unfold bordered. rewrite L, L' by auto. field; auto. }
        rewrite rsum_scal. unfold bordered. rewrite !L'. destruct (Nat.eq_dec i m) as [->|Ni].
        * unfold delta. rewrite Nat.eqb_refl.
          rewrite (rsum_ext _ (fun i => G i m * mu i)) by (intros; rewrite (Gs m); auto).
          replace (rsum (fun i => G i m * mu i) m) with (G m m - z) by (unfold z; ring). field; auto.
        * unfold delta. destruct (Nat.eqb_spec i m); [lia|]. rewrite F1 by lia. field; auto.
      + assert (k < m)%nat by lia.
        rewrite (rsum_ext _ (fun j => G i j * A j k + (mu k / z) * (G i j * mu j))).
        2:{ intros j Hj. unfold bordered. rewrite !L by auto. field; auto. }
        rewrite rsum_plus, rsum_scal. unfold bordered. rewrite L', L by auto.
        destruct (Nat.eq_dec i m) as [->|Ni].
        * unfold delta. destruct (Nat.eqb_spec m k); [lia|]. rewrite F2 by auto.
          rewrite (rsum_ext _ (fun i => G i m * mu i)) by (intros; rewrite (Gs m); auto).
          replace (rsum (fun i => G i m * mu i) m) with (G m m - z) by (unfold z; ring). field; auto.
        * rewrite H, F1 by lia. field; auto.
    - intros i k Hi Hk. unfold bordered. destruct (Nat.ltb_spec i m), (Nat.ltb_spec k m); auto.
      rewrite (HS i k) by auto. field; auto.
  Qed.

  (** *** Gram matrices of independent differences *)
  Definition G (P : list pt) (i j : nat) : R := 2 * ip (q P i) (q P j).
  Lemma G_sym P i j : G P i j = G P j i.
  Proof. unfold G. rewrite ip_sym. reflexivity. Qed.
  Definition indq (P : list pt) (m : nat) : Prop :=
    forall a, (forall i, (i < dim)%nat -> rsum (fun j => a j * q P j i) m = 0) -> forall j, (j < m)%nat -> a j = 0.
  Lemma indq_le P m m' : (m <= m')%nat -> indq P m' -> indq P m.
  Proof.
    intros Hm H a Ha j Hj.
    assert (Z : (fun j => if (j <? m)%nat then a j else 0) j = 0).
    { apply (H (fun j => if (j <? m)%nat then a j else 0)); [|lia]. intros i Hi. clear j Hj. eapply eq_trans; [|exact (Ha i Hi)]. clear H Ha. revert Hm. 
      intros Hm. induction Hm as [|m' Hm IH].
      - apply rsum_ext. intros j Hj. destruct (Nat.ltb_spec j m); [auto|lia].
      - cbn [rsum]. rewrite IH. destruct (Nat.ltb_spec m' m); [lia|ring]. }
    cbv beta in Z. destruct (Nat.ltb_spec j m); [auto|lia].
  Qed.

  (** The Schur complement is the squared length of the part of q_m orthogonal
      to the others. *)
  Lemma schur P A m : inv (G P) A m -> indq P (S m) ->
    let mu := fun i => rsum (fun j => A i j * G P j m) m in
    G P m m - rsum (fun i => G P i m * mu i) m <> 0.
  Proof.
    intros HI Hq mu.
    set (w := vminus (q P m) (fun i => rsum (fun j => mu j * q P j i) m)).
    assert (E : G P m m - rsum (fun i => G P i m * mu i) m = 2 * ip w w).
    { unfold w. rewrite ip_minus_l, !ip_minus_r, !ip_sum_l. rewrite (ip_sym dim (q P m) (fun i => rsum (fun j => mu j * q P j i) m)), ip_sum_l.
      rewrite (rsum_ext (fun j => mu j * ip (q P j) (fun i => rsum (fun j0 => mu j0 * q P j0 i) m)) (fun j => mu j * ip (q P j) (q P m))).
      - unfold G. rewrite (rsum_ext _ (fun i => 2 * (mu i * ip (q P i) (q P m)))) by (intros; ring).
        rewrite rsum_scal. ring.
      - intros j Hj. f_equal. rewrite ip_sym, ip_sum_l.
        assert (E : rsum (fun j0 => G P j j0 * mu j0) m = G P j m) by exact (inv_apply (fun j => G P j m) HI Hj).
        rewrite (rsum_ext _ (fun j0 => 2 * (mu j0 * ip (q P j0) (q P j)))) in E.
        2:{ intros i Hi. unfold G. rewrite (ip_sym dim (q P j)). ring. }
        rewrite rsum_scal in E. unfold G in E. lra. }
    rewrite E. intros Z. assert (Zw : ip w w = 0) by lra.
    pose proof (ip_zero Zw) as Hw.
    assert (C : (fun j => if (j <? m)%nat then - mu j else 1) m = 0).
    { apply (Hq (fun j => if (j <? m)%nat then - mu j else 1)); [|lia]. intros i Hi. cbn [rsum]. specialize (Hw i Hi). unfold w, vminus in Hw.
      rewrite Nat.ltb_irrefl. rewrite (rsum_ext _ (fun j => -1 * (mu j * q P j i))).
      2:{ intros j Hj. destruct (Nat.ltb_spec j m); [ring|lia]. }
      rewrite rsum_scal. lra. }
    cbv beta in C. rewrite Nat.ltb_irrefl in C. lra.
  Qed.

  Lemma inv_ext G1 G2 A1 A2 m : (forall i j, (i < m)%nat -> (j < m)%nat -> G1 i j = G2 i j) ->
    (forall i j, (i < m)%nat -> (j < m)%nat -> A1 i j = A2 i j) -> inv G1 A1 m -> inv G2 A2 m.
  Proof.
    intros HG HA [H S]. split.
    - intros i k Hi Hk. rewrite <- H by auto. apply rsum_ext. intros j Hj. rewrite HG, HA by auto. reflexivity.
    - intros i k Hi Hk. rewrite <- !HA by auto. auto.
  Qed.

  Lemma inv_one P : indq P 1 -> inv (G P) (fun _ _ => 1 / G P 0%nat 0%nat) 1 /\ G P 0%nat 0%nat <> 0.
  Proof.
    intros H. assert (N : G P 0%nat 0%nat <> 0).
    { unfold G. intros Z. assert (Z' : ip (q P 0) (q P 0) = 0) by lra.
      pose proof (ip_zero Z') as Hw. assert (C : (fun _ : nat => 1) 0%nat = 0); [|cbv beta in C; lra].
      refine (H (fun _ => 1) _ 0%nat ltac:(lia)). intros i Hi. cbn [rsum]. rewrite Hw by auto. ring. }
    split; auto. split.
    - intros i k Hi Hk. assert (i = 0%nat) by lia. assert (k = 0%nat) by lia. subst. cbn [rsum]. unfold delta. simpl. field. auto.
    - auto.
  Qed.

  Lemma inv_two P : indq P 2 -> inv (G P) (inverse2 RNum 1 (G P)) 2.
  Proof.
    intros H. destruct (@inv_one P) as [I1 N1]; [apply (indq_le (m' := 2)); auto|].
    pose proof (schur I1 H) as N2. cbv zeta in N2. cbn [rsum] in N2.
    assert (D : G P 0%nat 0%nat * G P 1%nat 1%nat - G P 0%nat 1%nat * G P 1%nat 0%nat <> 0).
    { intros Z. apply N2. rewrite (G_sym P 1 0) in Z.
      transitivity ((G P 0%nat 0%nat * G P 1%nat 1%nat - G P 0%nat 1%nat * G P 0%nat 1%nat) / G P 0%nat 0%nat); [field; auto|].
      rewrite Z. field. auto. }
    pose proof (G_sym P 1 0) as S.
    split.
    - intros i k Hi Hk. destruct i as [|[|]]; [| |lia]; (destruct k as [|[|]]; [| |lia]); cbn [rsum inverse2 delta Nat.eqb];
        unfold delta, neg; cbn [Nat.eqb nsub nmul ndiv nneg1 RNum]; rewrite ?S; rewrite ?S in D; field; auto.
    - intros i k Hi Hk. destruct i as [|[|]]; [| |lia]; (destruct k as [|[|]]; [| |lia]); cbn [inverse2]; rewrite ?S; auto.
  Qed.

  (** *** the constructor *)
  Definition Inv (b : inner RNum) : Prop :=
    let m := (length (iP b) - 1)%nat in
    inv (G (iP b)) (iA b) m /\ (forall i, (i < m)%nat -> iQ b i = ip (q (iP b) i) (q (iP b) i)) /\
    good (iP b) (iC b) (iR b).

  Lemma lambda_good P A Q : let m := (length P - 1)%nat in (1 <= length P)%nat -> inv (G P) A m ->
    (forall i, (i < m)%nat -> Q i = ip (q P i) (q P i)) ->
    good P (fst (recompute RNum dim P (lambda RNum A Q m))) (snd (recompute RNum dim P (lambda RNum A Q m))).
  Proof.
    intros m HP HI HQ. apply recompute_good; auto. intros k Hk. rewrite ip_sym. unfold span. rewrite ip_sum_l.
    rewrite <- HQ by auto. rewrite <- (inv_apply Q HI Hk). rewrite <- rsum_scal. apply rsum_ext. intros j Hj.
    unfold lambda. rewrite sumN_rsum. cbn [nmul RNum]. unfold G. rewrite (ip_sym dim (q P j)). fold m. ring.
  Qed.

  Lemma threePoint_inv P : length P = 3%nat -> indq P 2 -> iP (threePoint RNum dim 1 P) = P /\ Inv (threePoint RNum dim 1 P).
  Proof.
    intros HL HI. split; [reflexivity|]. unfold Inv, threePoint; cbn [iP iA iQ iC iR]. rewrite HL. cbn [Nat.sub].
    assert (I : inv (G P) (inverse2 RNum 1 (fun i j => nmul RNum (ntwo RNum) (dot RNum dim (pd P (1 + i)) (pd P (1 + j))))) 2).
    { eapply inv_ext; [| |apply (inv_two HI)]; auto. intros i j Hi Hj. unfold inverse2. unfold G, q. rewrite !dot_ip. reflexivity. }
    split; auto. split.
    - intros i Hi. rewrite dot_ip. reflexivity.
    - match type of I with inv _ ?A _ =>
        pose proof (@lambda_good P A (fun i => dot RNum dim (pd P (1 + i)) (pd P (1 + i))) ltac:(lia)) as L end.
      rewrite HL in L. cbn [Nat.sub] in L. apply L; [exact I|]. intros i Hi. apply dot_ip.
  Qed.

  Lemma pn_app P x k : (k < length P)%nat -> pn (P ++ x) k = pn P k.
  Proof. intros. unfold SebModel.pn. apply app_nth1; auto. Qed.
  Lemma q_app P x k : (S k < length P)%nat -> q (P ++ x) k = q P k.
  Proof. intros. unfold q, SebModel.pd. rewrite !pn_app by (cbn [plus nT RNum] in *; lia). reflexivity. Qed.

  Lemma grow_inv b x : Inv b -> (3 <= length (iP b))%nat -> (length (iP b) <= dim)%nat ->
    indq (iP b ++ [x]) (length (iP b)) -> exists b', @grow RNum dim 1 b x = Ok b' /\ iP b' = iP b ++ [x] /\ Inv b'.
  Proof.
    intros (I & HQ & _) H3 HD Hq. unfold grow.
    destruct (Nat.ltb_spec (dim + 1) (length (iP b) + 1)); [lia|].
    set (P := iP b ++ [x]) in *. assert (HL : length P = S (length (iP b))) by (unfold P; rewrite app_length; cbn [length]; lia).
    destruct (Nat.eqb_spec (length P) 3); [lia|].
    eexists. split; [reflexivity|]. cbn [iP]. split; auto. unfold Inv; cbn [iP iA iQ iC iR].
    set (m := (length P - 2)%nat). assert (Hm : m = (length (iP b) - 1)%nat) by (unfold m; lia).
    assert (Hm1 : (length P - 1)%nat = S m) by (unfold m; lia). rewrite Hm1.
    assert (QE : forall k, (k < m)%nat -> q P k = q (iP b) k) by (intros; unfold P; apply q_app; lia).
    rewrite <- Hm in I, HQ.
    assert (I' : inv (G P) (iA b) m).
    { eapply inv_ext; [| |apply I]; auto. intros i j Hi Hj. unfold G. rewrite !QE by auto. reflexivity. }
    assert (Hq' : indq P (S m)) by (rewrite Hm; replace (S (length (iP b) - 1)) with (length (iP b)) by lia; auto).
    assert (Hm0 : (m <= length (iP b))%nat) by lia.
    pose proof (inv_step I' (G_sym P) (schur I' Hq')) as I2. cbv zeta in I2.
    set (mu := fun i => rsum (fun j => iA b i j * G P j m) m) in I2.
    set (z := G P m m - rsum (fun i => G P i m * mu i) m) in I2.
    assert (MU : forall i, sumN RNum (fun j => nmul RNum (iA b i j) (nmul RNum (ntwo RNum) (dot RNum dim (pd P (1 + j)) (pd P (1 + m))))) m = mu i).
    { intros i. rewrite sumN_rsum. apply rsum_ext. intros j Hj. rewrite dot_ip. reflexivity. }
    match goal with |- context [lambda RNum ?A ?Q _] => set (A' := A); set (Q' := Q) end.
    assert (IA : inv (G P) A' (S m)).
    { eapply inv_ext; [| |apply I2]; auto. intros i j Hi Hj. unfold bordered, A'.
      assert (Z : nsub RNum (nmul RNum (ntwo RNum) (dot RNum dim (pd P (1 + m)) (pd P (1 + m))))
          (sumN RNum (fun i0 => nmul RNum (nmul RNum (ntwo RNum) (dot RNum dim (pd P (1 + i0)) (pd P (1 + m))))
            (sumN RNum (fun j0 => nmul RNum (iA b i0 j0) (nmul RNum (ntwo RNum) (dot RNum dim (pd P (1 + j0)) (pd P (1 + m))))) m)) m) = z).
      { unfold z. cbn [nsub RNum]. f_equal; [rewrite dot_ip; reflexivity|]. rewrite sumN_rsum. apply rsum_ext.
        intros k Hk. rewrite MU, dot_ip. reflexivity. }
      rewrite Z. rewrite !MU. reflexivity. }
    assert (HQ' : forall i, (i < S m)%nat -> Q' i = ip (q P i) (q P i)).
    { intros i Hi. unfold Q'. destruct (Nat.eqb_spec i m) as [->|]; [apply dot_ip|]. rewrite HQ, QE by lia. reflexivity. }
    split; auto. split; auto.
    pose proof (@lambda_good P A' Q' ltac:(lia)) as L. cbv zeta in L; rewrite Hm1 in L. apply L; auto.
  Qed.

  Lemma indq_app P x m : (m < length P)%nat -> indq (P ++ x) m -> indq P m.
  Proof.
    intros Hm H a Ha. apply H. intros i Hi. eapply eq_trans; [|exact (Ha i Hi)]. apply rsum_ext. intros j Hj. rewrite q_app; auto. lia.
  Qed.

  Lemma grow_all rest : forall b, Inv b -> (3 <= length (iP b))%nat -> (length (iP b ++ rest) <= dim + 1)%nat ->
    indq (iP b ++ rest) (length (iP b ++ rest) - 1) ->
    exists b', foldR (@grow RNum dim 1) rest b = Ok b' /\ iP b' = iP b ++ rest /\ Inv b'.
  Proof.
    induction rest as [|x rest IH]; intros b HI H3 HD Hq; cbn [foldR].
    - exists b. rewrite app_nil_r. auto.
    - rewrite app_length in HD, Hq. cbn [length] in HD, Hq. 
      assert (E : iP b ++ x :: rest = (iP b ++ [x]) ++ rest) by (rewrite <- app_assoc; reflexivity).
      destruct (@grow_inv b x) as (b1 & -> & E1 & I1); auto; try lia.
      { apply indq_app with (x := rest); [rewrite app_length; cbn [length]; lia|].
        apply (indq_le (m' := (length (iP b) + S (length rest) - 1))); [lia|]. rewrite <- E. auto. }
      cbn [bind]. destruct (IH b1 I1) as (b2 & E2 & E3 & I2).
      + rewrite E1, app_length. cbn [length]. lia.
      + rewrite E1, !app_length. cbn [length]. lia.
      + rewrite E1. rewrite <- E. rewrite app_length. exact Hq.
      + exists b2. split; auto. split; auto. rewrite E3, E1, <- app_assoc. reflexivity.
  Qed.

  (** *** shift by the offset *)
  Lemma vec_eq f p : length p = dim -> (forall i, (i < dim)%nat -> f i = cv p i) -> map f (seq 0 dim) = p.
  Proof.
    intros HL H. apply nth_ext with (d := 0) (d' := 0); [rewrite map_length, seq_length; auto|].
    intros i Hi. rewrite map_length, seq_length in Hi. rewrite nth_map_seq' by auto. apply H; auto.
  Qed.
  Lemma unshift off PP : Forall (fun p => length p = dim) PP ->
    map (fun p => vadd p off) (map (fun p => vsub p off) PP) = PP.
  Proof.
    induction 1 as [|p PP HL H IH]; auto. cbn [map]. rewrite IH. f_equal.
    unfold SebModel.vadd at 1, vmap2. apply vec_eq; auto. intros i Hi. cbn [nadd RNum].
    change (@coord RNum (vsub p off) i) with (cv (vsub p off) i). change (@coord RNum off i) with (cv off i).
    rewrite coord_sub by auto. lra.
  Qed.
  Lemma pn_shift off PP k : (k < length PP)%nat -> pn (map (fun p => vsub p off) PP) k = vsub (pn PP k) off.
  Proof. intros. unfold SebModel.pn. rewrite (nth_indep _ [] (vsub [] off)) by (rewrite map_length; auto). apply (map_nth (fun p => vsub p off)). Qed.
  Lemma q_shift off p0 PP k i : (k < length PP)%nat -> (i < dim)%nat ->
    q (map (fun p => vsub p off) (p0 :: PP)) k i = diffs (cv p0) (map cv PP) k i.
  Proof.
    intros Hk Hi. rewrite q_coord by auto. rewrite !pn_shift by (cbn [length plus]; lia).
    rewrite !coord_sub by auto. cbn [plus]. unfold diffs, vminus. rewrite (nth_indep _ _ (cv [])) by (rewrite map_length; auto).
    rewrite map_nth. unfold SebModel.pn. cbn [nth]. lra.
  Qed.

  Lemma good_circ off PP C r : (2 <= length PP)%nat -> good (map (fun p => vsub p off) PP) C r ->
    circ dim (map cv PP) (cv (vadd C off)) (r * r).
  Proof.
    destruct PP as [|p0 PP]; intros HP (Hr & Hon & La & HLa); [cbn [length] in HP; lia|]. cbn [map circ]. split.
    - intros x Hx. change (In x (map cv (p0 :: PP))) in Hx. apply in_map_iff in Hx as (p & <- & Hp).
      apply In_nth with (d := []) in Hp as (k & Hk & <-). rewrite <- (Hon k) by (rewrite map_length; auto).
      rewrite pn_shift by auto. unfold SebGeom.D2. 
      apply ip_ext; intros i Hi; unfold vminus; rewrite coord_add, coord_sub by auto; unfold SebModel.pn; lra.
    - exists La. intros i Hi. rewrite coord_add by auto. rewrite map_length.
      specialize (HLa i Hi). rewrite pn_shift in HLa by (cbn [length]; lia). rewrite coord_sub in HLa by auto.
      unfold SebModel.pn in HLa. cbn [nth] in HLa.
      transitivity (cv C i - (cv p0 i - cv off i)); [lra|]. rewrite HLa. unfold span. rewrite map_length. cbn [length].
      replace (S (length PP) - 1)%nat with (length PP) by lia. apply rsum_ext. intros j Hj. rewrite q_shift by auto. reflexivity.
  Qed.

  Lemma twoPoint_good P : length P = 2%nat -> good P (iC (twoPoint RNum dim P)) (iR (twoPoint RNum dim P)).
  Proof.
    intros HL. unfold twoPoint; cbn [iC iR]. cbn [ndiv ntwo RNum].
    assert (Hc : forall i, (i < dim)%nat -> cv (vquot RNum dim (vadd (pn P 0) (pn P 1)) 2) i = (cv (pn P 0) i + cv (pn P 1) i) / 2).
    { intros i Hi. rewrite coord_quot, coord_add by auto. reflexivity. }
    set (C := vquot _ _ _ _) in *. set (r := dist RNum _ _ _ / 2).
    assert (Hr : r * r = D2 (cv (pn P 1)) (cv (pn P 0)) / 4).
    { unfold r. rewrite dist_D2. rewrite <- (sqrt_sqrt (D2 (cv (pn P 1)) (cv (pn P 0)))) at 3 by apply D2_pos. lra. }
    split; [unfold r; pose proof (dist_nonneg dim (pn P 0) (pn P 1));  lra|]. split.
    - intros k Hk. rewrite Hr. rewrite HL in Hk. unfold SebGeom.D2, SebGeom.ip.
      unfold Rdiv. rewrite <- rsum_scal_r. apply rsum_ext. intros i Hi. unfold vminus. rewrite Hc by auto.
      destruct k as [|[|]]; [| |lia]; field.
    - exists (fun _ => 1/2). intros i Hi. rewrite Hc by auto. unfold span. rewrite HL. cbn [Nat.sub rsum].
      rewrite q_coord by auto. cbn [plus]. field.
  Qed.

  Theorem ballNew_circ PP : (2 <= length PP <= dim + 1)%nat -> Forall (fun p => length p = dim) PP ->
    (length PP = 2%nat \/ indep dim (map cv PP)) ->
    exists B, ballNew RNum dim 1 PP = Ok B /\ bP B = PP /\ 0 <= bR B /\
              circ dim (map cv PP) (cv (center dim B)) (bR B * bR B).
  Proof.
    intros HL HF HI. unfold ballNew. destruct (Nat.ltb_spec (dim + 1) (length PP)); [lia|].
    set (off := vquot RNum dim _ _). set (P := map (fun p => vsub p off) PP).
    assert (HP : length P = length PP) by (unfold P; rewrite map_length; auto).
    destruct (Nat.leb_spec (length PP) 1); [lia|]. destruct (Nat.eqb_spec (length PP) 2) as [E2|N2].
    - cbn [bind]. eexists. split; [reflexivity|]. cbn [bP bR]. unfold center; cbn [bC bOff].
      pose proof (@twoPoint_good P ltac:(lia)) as Gd. split; [apply unshift; auto|]. split; [apply Gd|].
      apply good_circ; auto.
    - destruct HI as [|HI]; [lia|].
      assert (Hq : indq P (length P - 1)).
      { unfold P. destruct PP as [|p0 PP']; [cbn [length] in HL; lia|]. cbn [map] in HI. cbn [indep] in HI.
        intros a Ha j Hj. rewrite map_length in Hj, Ha. cbn [length] in Hj, Ha.
        apply HI; [|rewrite map_length; lia]. intros i Hi. eapply eq_trans; [|exact (Ha i Hi)]. rewrite map_length.
        cbn [Nat.sub]. rewrite Nat.sub_0_r. apply rsum_ext. intros k Hk. rewrite q_shift; auto. }
      pose proof (firstn_skipn 3 P) as FS. assert (L3 : length (firstn 3 P) = 3%nat) by (rewrite firstn_length; lia).
      destruct (@threePoint_inv (firstn 3 P)) as [E3 I3]; auto.
      { apply indq_app with (x := skipn 3 P); [ lia|]. rewrite FS. apply (indq_le (m' := (length P - 1))); auto. cbn [nT RNum] in *; lia. }
      destruct (@grow_all (skipn 3 P) (threePoint RNum dim 1 (firstn 3 P))) as (b & Eb & EP & Ib).
      + exact I3.
      + rewrite E3.  lia.
      + rewrite E3, FS.  lia.
      + rewrite E3, FS. auto.
      + rewrite E3, FS in EP. rewrite Eb. cbn [bind]. eexists. split; [reflexivity|]. cbn [bP bR]. unfold center; cbn [bC bOff].
        destruct Ib as (_ & _ & Gd). rewrite EP in *. split; [apply unshift; auto|]. split; [apply Gd|]. apply good_circ; auto.
  Qed.

  Lemma contain_iff (B : ball RNum) p : 0 <= bR B -> @contain RNum dim 0 B p = true <-> D2 (cv (center dim B)) (cv p) <= bR B * bR B.
  Proof.
    intros Hr. unfold contain. cbn [nle nadd RNum]. rewrite dist_D2.
    assert (E : D2 (cv (bC B)) (cv (vsub p (bOff B))) = D2 (cv (center dim B)) (cv p)).
    { unfold center, SebGeom.D2. apply ip_ext; intros i Hi; unfold vminus; rewrite coord_add, coord_sub by auto; lra. }
    rewrite E. rewrite Rleb_true. set (d := D2 (cv (center dim B)) (cv p)) in *.
    assert (Hd : 0 <= d) by apply D2_pos. pose proof (sqrt_pos d). pose proof (sqrt_sqrt d Hd). rewrite Rplus_0_r.
    split; intros.
    - rewrite <- H0. apply Rmult_le_compat; auto.
    - destruct (Rle_dec (R_sqrt.sqrt d) (bR B)); auto. nra.
  Qed.
End Circ.
