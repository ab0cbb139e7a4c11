(** Grid samples over the reals. *)
From Coq Require Import NArith ZArith Reals Lra Lia List.
From Verif Require Import Base Num KdModel UniModel UniProofs GridModel GridSpec.
Set Implicit Arguments.
Open Scope R_scope.

Definition RtoSize (x : R) : option BinNums.N :=
  if Rle_dec 0 x then if Rlt_dec x (IZR (2 ^ 64)) then Some (Z.to_N (Int_part x)) else None else None.

Lemma low_spec (P : list (list R)) j : forall a,
  let m := fold_left (fun a p => nmin2 RNum a (@coord RNum p j)) P a in
  m <= a /\ (forall p, In p P -> m <= crd p j) /\ (m = a \/ exists p, In p P /\ crd p j = m).
Proof.
  induction P as [|p P IH]; intros a; cbn [fold_left].
  - split; [lra|]. split; [intros p []|auto].
  - destruct (IH (nmin2 RNum a (@coord RNum p j))) as (H1 & H2 & H3). cbv zeta in *.
    set (m := fold_left _ _ _) in *. assert (T : nmin2 RNum a (@coord RNum p j) <= a /\ nmin2 RNum a (@coord RNum p j) <= crd p j /\
      (nmin2 RNum a (@coord RNum p j) = a \/ nmin2 RNum a (@coord RNum p j) = crd p j)).
    { unfold nmin2. cbn [RNum nlt]. unfold Rltb, crd, coord. cbn [RNum nzero nT]. destruct (Rlt_dec _ _); repeat split; try lra; auto. }
    destruct T as (T1 & T2 & T3). cbn [RNum nT] in *. split; [lra|]. split.
    + intros q [<-|Hq]; [lra|auto].
    + destruct H3 as [E|(q & Hq & E)]; [|right; exists q; simpl; auto].
      destruct T3 as [T3|T3]; [left; lra|right; exists p; split; [simpl; auto|lra]].
Qed.
Lemma high_spec (P : list (list R)) j : forall a,
  let m := fold_left (fun a p => nmax2 RNum a (@coord RNum p j)) P a in
  a <= m /\ (forall p, In p P -> crd p j <= m) /\ (m = a \/ exists p, In p P /\ crd p j = m).
Proof.
  induction P as [|p P IH]; intros a; cbn [fold_left].
  - split; [lra|]. split; [intros p []|auto].
  - destruct (IH (nmax2 RNum a (@coord RNum p j))) as (H1 & H2 & H3). cbv zeta in *.
    set (m := fold_left _ _ _) in *. assert (T : a <= nmax2 RNum a (@coord RNum p j) /\ crd p j <= nmax2 RNum a (@coord RNum p j) /\
      (nmax2 RNum a (@coord RNum p j) = a \/ nmax2 RNum a (@coord RNum p j) = crd p j)).
    { unfold nmax2. cbn [RNum nlt]. unfold Rltb, crd, coord. cbn [RNum nzero nT]. destruct (Rlt_dec _ _); repeat split; try lra; auto. }
    destruct T as (T1 & T2 & T3). cbn [RNum nT] in *. split; [lra|]. split.
    + intros q [<-|Hq]; [lra|auto].
    + destruct H3 as [E|(q & Hq & E)]; [|right; exists q; simpl; auto].
      destruct T3 as [T3|T3]; [left; lra|right; exists p; split; [simpl; auto|lra]].
Qed.
Lemma span_spec (f : nat -> R) l : forall a,
  let m := fold_left (fun a j => nmax2 RNum a (f j)) l a in
  a <= m /\ (forall j, In j l -> f j <= m) /\ (m = a \/ exists j, In j l /\ f j = m).
Proof.
  induction l as [|p P IH]; intros a; cbn [fold_left].
  - split; [lra|]. split; [intros p []|auto].
  - destruct (IH (nmax2 RNum a (f p))) as (H1 & H2 & H3). cbv zeta in *.
    set (m := fold_left _ _ _) in *. assert (T : a <= nmax2 RNum a (f p) /\ f p <= nmax2 RNum a (f p) /\
      (nmax2 RNum a (f p) = a \/ nmax2 RNum a (f p) = f p)).
    { unfold nmax2. cbn [RNum nlt]. unfold Rltb. destruct (Rlt_dec _ _); repeat split; try lra; auto. }
    destruct T as (T1 & T2 & T3). cbn [RNum nT] in *. split; [lra|]. split.
    + intros q [<-|Hq]; [lra|auto].
    + destruct H3 as [E|(q & Hq & E)]; [|right; exists q; simpl; auto].
      destruct T3 as [T3|T3]; [left; lra|right; exists p; split; [simpl; auto|lra]].
Qed.

Lemma mapG_ok X Y (f : X -> res Y) (g : X -> Y) l : (forall x, In x l -> f x = Ok (g x)) -> mapG f l = Ok (map g l).
Proof.
  induction l as [|x l IH]; intros H; auto. cbn. rewrite (H x) by (left; auto). cbn.
  rewrite IH by (intros y Hy; apply H; right; auto). reflexivity.
Qed.

Section Box.
  Variable dim : nat.
  Variable P : list (list R).
  Hypothesis fits : forall p j, In p P -> (j < dim)%nat -> - Rfmax < crd p j < Rfmax.
  Hypothesis some : P <> [].
  Notation lo := (low RNum P).
  Notation hi := (high RNum P).
  Lemma low_ok : corner dim P lo.
  Proof.
    intros j Hj. destruct (low_spec P j Rfmax) as (H1 & H2 & H3). split; [exact H2|].
    destruct H3 as [E|H]; [|exact H]. exfalso. destruct P as [|p P']; [auto|].
    pose proof (fits p (or_introl eq_refl) Hj). pose proof (H2 p (or_introl eq_refl)). lra.
  Qed.
  Lemma high_ok j : (j < dim)%nat -> (forall p, In p P -> crd p j <= hi j) /\ exists p, In p P /\ crd p j = hi j.
  Proof.
    intros Hj. destruct (high_spec P j (0 - Rfmax)) as (H1 & H2 & H3). split; [exact H2|].
    destruct H3 as [E|H]; [|exact H]. exfalso. destruct P as [|p P']; [auto|].
    pose proof (fits p (or_introl eq_refl) Hj). pose proof (H2 p (or_introl eq_refl)). lra.
  Qed.
  Lemma span_ok : (0 < dim)%nat -> widest dim P (maxSpan RNum dim P).
  Proof.
    intros Hd. destruct (span_spec (fun j => hi j - lo j) (seq 0 dim) 0) as (H1 & H2 & H3).
    change (widest dim P (fold_left (fun a j => nmax2 RNum a (hi j - lo j)) (seq 0 dim) 0)). cbv zeta in *. set (w := fold_left _ _ _) in *.
    split.
    - intros p q j Hp Hq Hj. pose proof (H2 j ltac:(apply in_seq; lia)).
      pose proof (proj1 (low_ok Hj) q Hq). pose proof (proj1 (high_ok Hj) p Hp). cbn [RNum nT] in *. lra.
    - destruct H3 as [E|(j & Hj & E)].
      + exists (hd [] P), (hd [] P), 0%nat. destruct P as [|p P']; [now destruct some|]. cbn [hd]. repeat split; simpl; auto. cbn [RNum nT] in *. lra.
      + apply in_seq in Hj. destruct (proj2 (low_ok (proj2 Hj))) as (q & Hq & E1). destruct (proj2 (high_ok (proj2 Hj))) as (p & Hp & E2).
        exists p, q, j. repeat split; auto; [lia|]. cbn [RNum nT] in *. rewrite E1, E2. exact E.
  Qed.
End Box.

(** cells *)
Lemma toSize_ok x (d : BinNums.N) : (d <= 2000000)%N -> 0 <= x <= RofN d ->
  exists c, RtoSize x = Some c /\ RofN c <= x < RofN c + 1 /\ (c <= d)%N.
Proof.
  intros Hd [H1 H2]. unfold RtoSize. destruct (Rle_dec 0 x) as [_|]; [|lra].
  assert (B : RofN d <= IZR 2000000) by (apply IZR_le; lia).
  assert (L : IZR 2000000 < IZR (2 ^ 64)) by (apply IZR_lt; reflexivity).
  destruct (Rlt_dec x (IZR (2 ^ 64))) as [_|]; [|lra].
  destruct (base_Int_part x) as [I1 I2].
  assert (Z0 : (0 <= Int_part x)%Z).
  { assert (-1 < Int_part x)%Z by (apply lt_IZR; lra). lia. }
  exists (Z.to_N (Int_part x)). split; auto. unfold RofN in *. rewrite Z2N.id by auto. split; [lra|].
  assert (Int_part x <= Z.of_N d)%Z by (apply le_IZR; lra). lia.
Qed.

Lemma idOf_number dim d (c : nat -> BinNums.N) : (dim = 2 \/ dim = 3)%nat -> (d <= 2000000)%N -> (forall j, (j < dim)%nat -> (c j <= d)%N) ->
  idOf d (map c (seq 0 dim)) = number dim d c /\ (number dim d c < 2 ^ 64 - 1)%N.
Proof.
  intros [->| ->] Hd Hc; unfold idOf; cbn [seq map number].
  - pose proof (Hc 0%nat ltac:(lia)). pose proof (Hc 1%nat ltac:(lia)).
    assert (B : (c 0%nat * d + c 1%nat <= 2000000 * 2000000 + 2000000)%N) by (apply N.add_le_mono; [apply N.mul_le_mono; lia|lia]).
    unfold wrap64. rewrite !N.mul_0_l, !N.add_0_l, N.mod_small; [split; auto|]; lia.
  - pose proof (Hc 0%nat ltac:(lia)). pose proof (Hc 1%nat ltac:(lia)). pose proof (Hc 2%nat ltac:(lia)).
    assert (B : (c 0%nat * d * d + c 1%nat * d + c 2%nat <= 2000000 * 2000000 * 2000000 + 2000000 * 2000000 + 2000000)%N).
    { apply N.add_le_mono; [apply N.add_le_mono|lia]; [|apply N.mul_le_mono; lia]. apply N.mul_le_mono; [apply N.mul_le_mono|]; lia. }
    assert (E : (((0 * d + c 0%nat) * d + c 1%nat) * d + c 2%nat = c 0%nat * d * d + c 1%nat * d + c 2%nat)%N) by lia.
    rewrite E. unfold wrap64. rewrite N.mod_small; [split; auto|]; lia.
Qed.

(** winners *)
Definition insertContract (wins : list BinNums.N -> nat -> bool) : Prop :=
  forall ids k, In k ids -> exists i, ((i < length ids)%nat /\ nth i ids 0%N = k /\ wins ids i = true) /\
    forall i', (i' < length ids)%nat -> nth i' ids 0%N = k -> wins ids i' = true -> i' = i.

Section Win.
  Variable A : Type.
  Variable num : A -> BinNums.N.
  Variable win : nat -> bool.
  Variable isE : A -> bool.
  Variable e : A.
  Hypothesis He : isE e = true.
  Definition pick (k : nat) (P : list A) := filter (fun p => negb (isE p)) (map (fun ip => if win (fst ip) then snd ip else e) (combine (seq k (length P)) P)).
  Lemma pick_in P : forall k p, (forall q, In q P -> isE q = false) ->
    (In p (pick k P) <-> exists i, nth_error P i = Some p /\ win (k + i) = true).
  Proof.
    induction P as [|q P IH]; intros k p HP.
    - cbn. split; [intros []|]. intros (i & E & _). destruct i; discriminate.
    - unfold pick. cbn [length seq combine map filter fst snd]. change (filter _ (map _ (combine (seq (S k) (length P)) P))) with (pick (S k) P).
      assert (IH' := IH (S k) p (fun q' H => HP q' (or_intror H))). destruct (win k) eqn:W.
      + rewrite (HP q (or_introl eq_refl)). cbn [negb]. split.
        * intros [<-|H]; [exists 0%nat; rewrite Nat.add_0_r; auto|]. apply IH' in H. destruct H as (i & E & Wi). exists (S i). rewrite Nat.add_succ_r. auto.
        * intros ([|i] & E & Wi); cbn in E; [left; congruence|right; apply IH'; exists i; rewrite Nat.add_succ_r in Wi; auto].
      + rewrite He. cbn [negb]. rewrite IH'. split.
        * intros (i & E & Wi). exists (S i). rewrite Nat.add_succ_r. auto.
        * intros ([|i] & E & Wi); [rewrite Nat.add_0_r in Wi; congruence|]. exists i. rewrite Nat.add_succ_r in Wi. auto.
  Qed.
  Lemma pick_nodup P : forall k, (forall q, In q P -> isE q = false) ->
    (forall i i' p p', nth_error P i = Some p -> nth_error P i' = Some p' -> num p = num p' -> win (k + i) = true -> win (k + i') = true -> i = i') ->
    NoDup (map num (pick k P)).
  Proof.
    induction P as [|q P IH]; intros k HP HU; [constructor|].
    assert (HP' : forall q', In q' P -> isE q' = false) by (intros; apply HP; right; auto).
    assert (IHk : NoDup (map num (pick (S k) P))).
    { apply IH; auto. intros i i' p p' E E' N W W'. assert (S i = S i'); [|lia].
      apply (HU (S i) (S i') p p'); auto; rewrite Nat.add_succ_r; auto. }
    unfold pick. cbn [length seq combine map filter fst snd]. change (filter _ (map _ (combine (seq (S k) (length P)) P))) with (pick (S k) P).
    destruct (win k) eqn:W.
    - rewrite (HP q (or_introl eq_refl)). cbn [negb map]. constructor; auto. intros H. apply in_map_iff in H. destruct H as (p & E & H).
      apply pick_in in H; auto. destruct H as (i & Ei & Wi). assert (0 = S i)%nat; [|lia].
      apply (HU 0%nat (S i) q p); auto; [rewrite Nat.add_0_r; auto|rewrite Nat.add_succ_r; auto].
    - rewrite He. cbn [negb]. exact IHk.
  Qed.
End Win.
