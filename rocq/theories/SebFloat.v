(** Radii of balls in double arithmetic. *)
From Coq Require Import Reals Lra ZArith Lia Bool Floats SpecFloat.
From Flocq Require Import Core IEEE754.BinarySingleNaN IEEE754.PrimFloat.
From Verif Require Import Base Num FloatNum FloatLaws FloatMono DistLaws RadLaws KdModel MortonSort SebModel SebScan SebMain.
Set Implicit Arguments.
Local Open Scope R_scope.
Local Existing Instance Hprec.
Local Existing Instance Hmax.

(** point.h:24 *)
Definition feps : PrimFloat.float := 0x1.4f8b588e368f1p-17%float.

Lemma sqrt_nn x : fok (PrimFloat.sqrt x) -> fnn (PrimFloat.sqrt x).
Proof.
  intros H. split; auto. unfold fok, ev in *. rewrite is_nan_equiv, sqrt_equiv in H. rewrite sqrt_equiv.
  destruct (Prim2B x) as [s|[]| |s m e Hb] eqn:E; simpl in H; try discriminate; try (simpl; lra).
  - simpl. pose proof big_pos. lra.
  - destruct s; [simpl in H; discriminate|].
    assert (F : fnn x).
    { split; unfold fok, ev; [rewrite is_nan_equiv, E; reflexivity|]. rewrite E. simpl.
      apply F2R_ge_0. simpl. lia. }
    pose proof (proj2 (proj1 (ev_sqrt F))) as G. unfold ev in G. rewrite sqrt_equiv, E in G. exact G.
Qed.

Lemma half_nn s : (fok s -> fnn s) -> fok (s / 2)%float -> fnn (s / 2)%float.
Proof.
  intros Hs H.
  assert (Ks : fok s).
  { unfold fok in *. rewrite is_nan_equiv in *. rewrite div_equiv in H. destruct (Prim2B s); auto. }
  apply Hs in Ks. destruct (@ev_lit 2%float 4503599627370496 (-51) ltac:(vm_compute; reflexivity)) as [F2 E2].
  assert (E2' : ev 2%float = 2).
  { rewrite E2. change (bpow radix2 (-51)) with (/ IZR 2251799813685248). lra. }
  destruct (nn_cases Ks) as [Fs|Is].
  - split; auto. pose proof (ev_bnd Fs) as Bs. destruct Ks as [_ Ks].
    assert (0 <= rne (ev s / ev 2%float) <= ev s).
    { rewrite E2'. split; [rewrite <- rne_0; apply rne_le; lra|].
      rewrite <- (rne_id (ev_F Fs)) at 2. apply rne_le. lra. }
    destruct (@ev_div s 2%float Fs F2) as [_ G]; [lra|rewrite Rabs_right; lra|]. rewrite G. lra.
  - split; auto. unfold ev. rewrite div_equiv, Is. pose proof big_pos.
    change (0 <= bv (Bdiv mode_NE (B754_infinity false) (Prim2B 2%float))).
    pose proof (fin_B F2) as FB. unfold ev in E2'.
    destruct (Prim2B 2%float) as [z|[]| |[] m e Hb]; simpl in *; try lra; try discriminate.
    pose proof (F2R_lt_0 radix2 {| Fnum := Z.neg m; Fexp := e |} ltac:(simpl; lia)). lra.
Qed.

Lemma ltb_fok x y : PrimFloat.ltb x y = true -> fok x /\ fok y.
Proof.
  unfold fok. rewrite ltb_equiv, !is_nan_equiv. unfold Bltb, SFltb.
  destruct (Prim2B x) as [?|[]| |?]; destruct (Prim2B y) as [?|[]| |?]; simpl; try discriminate; auto.
Qed.

Lemma F_radlaw r : (fok r -> fnn r) -> radLaw FNum feps r.
Proof.
  intros Hr d. cbn [nlt nadd nneg1 FNum]. intros H.
  destruct (ltb_fok H) as [K1 K2].
  assert (Kr : fok r).
  { unfold fok in *. rewrite is_nan_equiv in *. rewrite add_equiv in K1. destruct (Prim2B r); auto. }
  apply Hr in Kr.
  assert (Ke : fnn feps).
  { split; [reflexivity|]. destruct (@ev_lit feps 5902958103587057 (-69) ltac:(vm_compute; reflexivity)) as [_ ->].
    pose proof (bpow_gt_0 radix2 (-69)). lra. }
  destruct (ev_add_nn Kr Ke) as [_ E]. apply flt_ev in H; auto. rewrite E in H.
  assert (0 <= rnd (ev r + ev feps)) by (apply rnd_nonneg; destruct Kr, Ke; lra).
  assert (N : forall x m e, Prim2SF x = S754_finite true m e -> fok x /\ ev x < 0).
  { intros x m e Hx. unfold fok, ev. rewrite is_nan_equiv. rewrite <- B2SF_Prim2B in Hx.
    destruct (Prim2B x) as [s|s| |s m' e' Hb]; cbn [B2SF] in Hx; try discriminate. inversion Hx; subst.
    split; auto. simpl. apply F2R_lt_0. simpl. lia. }
  split; apply flt_ev; auto; try reflexivity.
  all: match goal with |- ev ?x < _ => destruct (N x _ _ ltac:(vm_compute; reflexivity)) end; apply Rlt_trans with (rnd (ev r + ev feps)); auto; eapply Rlt_le_trans; eauto.
Qed.

Lemma made_F dim one (B : ball FNum) : made dim one B -> fok (bR B) -> fnn (bR B).
Proof.
  intros M. destruct (made_radius M) as [[x ->]|[x ->]]; cbn [nsqrt ndiv ntwo FNum].
  - apply sqrt_nn.
  - apply half_nn, sqrt_nn.
Qed.

Section Scan.
  Variables (dim : nat) (one : PrimFloat.float) (maxElement : (nat -> nT FNum) -> nat -> nat -> nat).
  Variables (mtf piv : bool) (cutoff PREFIX THRESH : nat) (order : list nat -> list nat) (pfuel workers : nat).
  Definition fsolve (P : list (list (nT FNum))) : res (ball FNum) :=
    @welzlCompute FNum dim one feps maxElement mtf piv cutoff PREFIX THRESH order pfuel P.

  Theorem F_scan_clear fuel A B : @scanCompute FNum dim feps fsolve workers fuel A = Ok B -> @clear FNum dim feps A B.
  Proof.
    eapply scanCompute_clear with (good := @made FNum dim one).
    - intros S B'. apply welzlCompute_made.
    - intros B' M. apply F_radlaw, (made_F M).
  Qed.
  Theorem F_sampling_clear fuel A B : @samplingCompute FNum dim feps fsolve workers fuel A = Ok B -> @clear FNum dim feps A B.
  Proof.
    eapply samplingCompute_clear with (good := @made FNum dim one).
    - intros S B'. apply welzlCompute_made.
    - intros B' M. apply F_radlaw, (made_F M).
  Qed.
End Scan.

Lemma pivot_oob_F : forall maxElement : (nat -> nT FNum) -> nat -> nat -> nat, (forall f n, maxElement f n n = n) ->
  forall mtf PREFIX order pfuel k, (1997 <= k)%nat -> (N.of_nat k < 499997)%N ->
  @welzlCompute FNum 2 1%float feps maxElement mtf true 2000 PREFIX (N.to_nat 500000) order pfuel
    ([0;0]%float :: [1;0]%float :: repeat [0.5;0]%float k ++ [[2;0]%float]) = UB.
Proof.
  intros mx Hm mtf PREFIX order pfuel k H1 H2.
  destruct (ballNew FNum 2 1%float [[0;0];[1;0]]%float) as [B| | |] eqn:E; [|exfalso; vm_compute in E; discriminate..].
  eapply pivot_oob with (B := B); auto.
  - rewrite repeat_length. split; [lia|]. lia.
  - assert (EB : B = match ballNew FNum 2 1%float [[0;0];[1;0]]%float with Ok B => B | _ => B end) by (rewrite E; auto).
    intros y [<-|[<-|Hy]]; [| |apply repeat_spec in Hy; subst y]; rewrite EB; vm_compute; reflexivity.
  - assert (EB : B = match ballNew FNum 2 1%float [[0;0];[1;0]]%float with Ok B => B | _ => B end) by (rewrite E; auto).
    rewrite EB; vm_compute; reflexivity.
Qed.
