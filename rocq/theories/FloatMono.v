(** Monotonicity of double arithmetic, infinities included: a non-NaN double is
    valued in R with +-2^1024 standing for the infinities. *)
From Coq Require Import Reals Lra ZArith Lia Bool Floats SpecFloat.
From Flocq Require Import Core IEEE754.BinarySingleNaN IEEE754.PrimFloat.
From Verif Require Import Base Num FloatNum FloatLaws.
Set Implicit Arguments.
Local Open Scope R_scope.

Local Existing Instance Hprec.
Local Existing Instance Hmax.
Notation bf := (binary_float prec emax).
Notation rne := (round radix2 (SpecFloat.fexp prec emax) (round_mode mode_NE)).
Definition big : R := bpow radix2 emax.

Definition bv (b : bf) : R :=
  match b with B754_infinity true => - big | B754_infinity false => big | _ => B2R b end.
Definition ev (x : PrimFloat.float) : R := bv (Prim2B x).

Lemma big_pos : 0 < big.
Proof. apply bpow_gt_0. Qed.

Lemma bv_fin b : BinarySingleNaN.is_finite b = true -> bv b = B2R b /\ - big < bv b < big.
Proof.
  intros H. pose proof (abs_B2R_lt_emax _ _ b) as A. fold big in A.
  assert (E : bv b = B2R b) by (destruct b; simpl in *; auto; discriminate).
  rewrite E. split; auto. apply Rabs_lt_inv; auto.
Qed.

Lemma bv_bound b : - big <= bv b <= big.
Proof.
  pose proof big_pos. destruct (BinarySingleNaN.is_finite b) eqn:E.
  - apply bv_fin in E. lra.
  - destruct b as [s|[]| |s m e Hb]; simpl in *; try discriminate; lra.
Qed.

Lemma Bleb_bv (x y : bf) : BinarySingleNaN.is_nan x = false -> BinarySingleNaN.is_nan y = false ->
  (Bleb x y = true <-> bv x <= bv y).
Proof.
  intros Hx Hy. pose proof big_pos.
  destruct (BinarySingleNaN.is_finite x) eqn:Fx; [destruct (BinarySingleNaN.is_finite y) eqn:Fy|].
  - rewrite Bleb_correct by auto. rewrite (proj1 (bv_fin _ Fx)), (proj1 (bv_fin _ Fy)).
    case Rle_bool_spec; intros; split; intros; auto; try lra; discriminate.
  - destruct (bv_fin _ Fx) as [_ Bx].
    destruct y as [s|[]| |s m e Hb]; simpl in Fy, Hy; try discriminate; unfold bv at 2.
    + split; [|lra]. destruct x as [s|[]| |[] m e Hb]; simpl in *; discriminate.
    + split; [lra|]. intros _. destruct x as [s|[]| |[] m e Hb]; simpl in *; try discriminate; auto.
  - destruct x as [s|[]| |s m e Hb]; simpl in Fx, Hx; try discriminate; unfold bv at 1.
    + split; [intros; apply bv_bound|]. intros _. destruct y as [s|[]| |[] m e Hb]; simpl in *; try discriminate; auto.
    + pose proof (bv_bound y). split.
      * destruct y as [s|[]| |[] m e Hb]; simpl; try discriminate; lra.
      * intros L. destruct (BinarySingleNaN.is_finite y) eqn:Fy; [apply bv_fin in Fy; lra|].
        destruct y as [s|[]| |[] m e Hb]; simpl in *; try discriminate; auto; lra.
Qed.

Lemma fle_ev x y : fok x -> fok y -> (PrimFloat.leb x y = true <-> ev x <= ev y).
Proof.
  unfold fok, ev. rewrite !is_nan_equiv, leb_equiv. intros. apply Bleb_bv; auto.
Qed.
Lemma flt_ev x y : fok x -> fok y -> (PrimFloat.ltb x y = true <-> ev x < ev y).
Proof.
  intros Hx Hy. pose proof (ol_le F_ordlaws y x Hy Hx) as H. simpl in H.
  pose proof (@fle_ev y x Hy Hx) as L. destruct (PrimFloat.ltb x y); simpl in H; rewrite H in L.
  - split; auto. intros _. destruct (Rlt_dec (ev x) (ev y)); auto.
    assert (false = true) by (apply L; lra). discriminate.
  - split; [discriminate|]. intros. assert (ev y <= ev x) by (apply L; auto). lra.
Qed.

(** Rounding with overflow. *)
Definition rnd (z : R) : R :=
  if Rlt_bool (Rabs (rne z)) big then rne z else if Rlt_bool (rne z) 0 then - big else big.

Global Instance fexpV : Valid_exp (SpecFloat.fexp prec emax).
Proof. apply fexp_correct. reflexivity. Qed.

Lemma rne_le x y : x <= y -> rne x <= rne y.
Proof. intros. apply round_le; auto with typeclass_instances. Qed.
Lemma rne_0 : rne 0 = 0.
Proof. apply round_0. auto with typeclass_instances. Qed.
Lemma rne_big : rne big = big.
Proof.
  apply round_generic; auto with typeclass_instances.
  apply generic_format_bpow. vm_compute. discriminate.
Qed.

Lemma rnd_mono x y : x <= y -> rnd x <= rnd y.
Proof.
  intros H. apply rne_le in H. unfold rnd. pose proof big_pos.
  case (Rlt_bool_spec (Rabs (rne x))); intros H1; case (Rlt_bool_spec (Rabs (rne y))); intros H2; auto.
  - apply Rabs_lt_inv in H1. case Rlt_bool_spec; intros; [|lra].
    rewrite Rabs_left in H2 by auto. lra.
  - apply Rabs_lt_inv in H2. case Rlt_bool_spec; intros; [lra|].
    rewrite Rabs_right in H1 by lra. lra.
  - case Rlt_bool_spec; intros; case Rlt_bool_spec; intros; lra.
Qed.
Lemma rnd_0 : rnd 0 = 0.
Proof. unfold rnd. rewrite rne_0, Rabs_R0, Rlt_bool_true; auto. apply big_pos. Qed.
Lemma rnd_nonneg x : 0 <= x -> 0 <= rnd x.
Proof. intros. rewrite <- rnd_0. apply rnd_mono; auto. Qed.
Lemma rnd_big x : big <= x -> rnd x = big.
Proof.
  intros H. apply rne_le in H. rewrite rne_big in H. unfold rnd. pose proof big_pos.
  rewrite Rabs_right by lra. rewrite !Rlt_bool_false by lra. auto.
Qed.

Lemma over_inf (b : bf) s : B2SF b = binary_overflow prec emax mode_NE s -> b = B754_infinity s.
Proof. destruct b; simpl; intros E; inversion E; auto. Qed.

Lemma sign_neg (b : bf) : Bsign b = true -> BinarySingleNaN.is_nan b = false -> B2R b <= 0.
Proof.
  destruct b as [s|s| |s m e Hb]; simpl; intros; subst; try lra; try discriminate.
  apply F2R_le_0. simpl. lia.
Qed.
Lemma sign_pos (b : bf) : Bsign b = false -> 0 <= B2R b.
Proof.
  destruct b as [s|s| |s m e Hb]; simpl; intros; subst; try lra; try discriminate.
  apply F2R_ge_0. simpl. lia.
Qed.

Lemma rnd_over z (s : bool) : big <= Rabs (rne z) -> (if s then z <= 0 else 0 <= z) ->
  rnd z = (if s then - big else big).
Proof.
  intros H Hs. unfold rnd. rewrite Rlt_bool_false by auto. pose proof big_pos. destruct s.
  - apply rne_le in Hs. rewrite rne_0 in Hs.
    rewrite Rabs_left1 in H by auto. rewrite Rlt_bool_true; auto. lra.
  - apply rne_le in Hs. rewrite rne_0 in Hs. rewrite Rlt_bool_false by lra. auto.
Qed.

Lemma bv_add (x y : bf) : BinarySingleNaN.is_finite x = true -> BinarySingleNaN.is_finite y = true ->
  BinarySingleNaN.is_nan (Bplus mode_NE x y) = false /\ bv (Bplus mode_NE x y) = rnd (bv x + bv y).
Proof.
  intros Fx Fy. pose proof (Bplus_correct _ _ Hprec Hmax mode_NE x y Fx Fy) as C.
  rewrite (proj1 (bv_fin _ Fx)), (proj1 (bv_fin _ Fy)). revert C. case Rlt_bool_spec; intros Ho C.
  - destruct C as (C1 & C2 & _). split; [destruct (Bplus mode_NE x y); simpl in *; auto; discriminate|].
    rewrite (proj1 (bv_fin _ C2)), C1. unfold rnd. rewrite Rlt_bool_true; auto.
  - destruct C as (C1 & C2). apply over_inf in C1. rewrite C1. split; auto.
    rewrite (@rnd_over _ (Bsign x) Ho); [destruct (Bsign x); auto|].
    destruct (Bsign x) eqn:S.
    + assert (B2R x <= 0) by (apply sign_neg; auto; destruct x; simpl in *; auto; discriminate).
      assert (B2R y <= 0) by (apply sign_neg; auto; destruct y; simpl in *; auto; discriminate). lra.
    + assert (0 <= B2R x) by (apply sign_pos; auto). assert (0 <= B2R y) by (apply sign_pos; auto). lra.
Qed.

Lemma bv_sub (x y : bf) : BinarySingleNaN.is_finite x = true -> BinarySingleNaN.is_finite y = true ->
  BinarySingleNaN.is_nan (Bminus mode_NE x y) = false /\ bv (Bminus mode_NE x y) = rnd (bv x - bv y).
Proof.
  intros Fx Fy. pose proof (Bminus_correct _ _ Hprec Hmax mode_NE x y Fx Fy) as C.
  rewrite (proj1 (bv_fin _ Fx)), (proj1 (bv_fin _ Fy)). revert C. case Rlt_bool_spec; intros Ho C.
  - destruct C as (C1 & C2 & _). split; [destruct (Bminus mode_NE x y); simpl in *; auto; discriminate|].
    rewrite (proj1 (bv_fin _ C2)), C1. unfold rnd. rewrite Rlt_bool_true; auto.
  - destruct C as (C1 & C2). apply over_inf in C1. rewrite C1. split; auto.
    rewrite (@rnd_over _ (Bsign x) Ho); [destruct (Bsign x); auto|].
    destruct (Bsign x) eqn:S.
    + assert (B2R x <= 0) by (apply sign_neg; auto; destruct x; simpl in *; auto; discriminate).
      assert (0 <= B2R y) by (apply sign_pos; destruct (Bsign y); auto; discriminate). lra.
    + assert (0 <= B2R x) by (apply sign_pos; auto).
      assert (B2R y <= 0) by (apply sign_neg; [destruct (Bsign y); auto; discriminate|destruct y; simpl in *; auto; discriminate]). lra.
Qed.

Lemma fin_B x : ffin x -> BinarySingleNaN.is_finite (Prim2B x) = true.
Proof. unfold ffin. rewrite is_finite_equiv. auto. Qed.

Lemma ev_add x y : ffin x -> ffin y -> fok (x + y)%float /\ ev (x + y)%float = rnd (ev x + ev y).
Proof.
  intros Hx Hy. unfold fok, ev. rewrite is_nan_equiv, add_equiv. apply bv_add; apply fin_B; auto.
Qed.

Lemma ev_sub x y : ffin x -> ffin y -> fok (x - y)%float /\ ev (x - y)%float = rnd (ev x - ev y).
Proof.
  intros Hx Hy. unfold fok, ev. rewrite is_nan_equiv, sub_equiv. apply bv_sub; apply fin_B; auto.
Qed.

(** Non-NaN and not negative. *)
Definition fnn (x : PrimFloat.float) : Prop := fok x /\ 0 <= ev x.

Lemma nn_cases x : fnn x -> ffin x \/ Prim2B x = B754_infinity false.
Proof.
  intros [H1 H2]. unfold fok, ffin, ev in *. rewrite is_nan_equiv in H1. rewrite is_finite_equiv.
  pose proof big_pos. destruct (Prim2B x) as [s|[]| |s m e Hb]; simpl in *; auto; try discriminate. lra.
Qed.

Lemma ev_add_nn x y : fnn x -> fnn y -> fnn (x + y)%float /\ ev (x + y)%float = rnd (ev x + ev y).
Proof.
  intros Hx Hy.
  assert (K : fok (x + y)%float /\ ev (x + y)%float = rnd (ev x + ev y)).
  { destruct (nn_cases Hx) as [Fx|Ix]; destruct (nn_cases Hy) as [Fy|Iy].
    - apply ev_add; auto.
    - unfold fok, ev. rewrite is_nan_equiv, add_equiv. destruct Hx as [_ Hx]. unfold ev in Hx. rewrite Iy.
      apply fin_B in Fx.
      rewrite rnd_big by (simpl bv at 2; lra).
      destruct (Prim2B x) as [s|[]| |s m e Hb]; simpl in *; auto; try discriminate.
    - unfold fok, ev. rewrite is_nan_equiv, add_equiv. destruct Hy as [_ Hy]. unfold ev in Hy. rewrite Ix.
      apply fin_B in Fy.
      rewrite rnd_big by (simpl bv at 1; lra).
      destruct (Prim2B y) as [s|[]| |s m e Hb]; simpl in *; auto; try discriminate.
    - unfold fok, ev. rewrite is_nan_equiv, add_equiv, Ix, Iy. pose proof big_pos.
      rewrite rnd_big by (simpl; lra). auto. }
  destruct K as [K1 K2]. split; auto. split; auto. rewrite K2. apply rnd_nonneg.
  destruct Hx, Hy; lra.
Qed.

Lemma ev_sq t : fok t -> fnn (t * t)%float /\ ev (t * t)%float = rnd (ev t * ev t).
Proof.
  intros Ht.
  assert (K : fok (t * t)%float /\ ev (t * t)%float = rnd (ev t * ev t)).
  { unfold fok, ev in *. rewrite is_nan_equiv in *. rewrite mul_equiv.
    destruct (BinarySingleNaN.is_finite (Prim2B t)) eqn:F.
    - pose proof (Bmult_correct _ _ Hprec Hmax mode_NE (Prim2B t) (Prim2B t)) as C.
      rewrite (proj1 (bv_fin _ F)). revert C. case Rlt_bool_spec; intros Ho C.
      + destruct C as (C1 & C2 & _). rewrite F in C2. simpl in C2.
        split; [destruct (Bmult mode_NE (Prim2B t) (Prim2B t)); simpl in *; auto; discriminate|].
        rewrite (proj1 (bv_fin _ C2)), C1. unfold rnd. rewrite Rlt_bool_true; auto.
      + apply over_inf in C. rewrite C. split; auto.
        rewrite xorb_nilpotent. rewrite (@rnd_over _ false Ho); auto. apply Rle_0_sqr.
    - destruct (Prim2B t) as [s|[]| |s m e Hb]; simpl in F, Ht; try discriminate; (split; [reflexivity|]);
        simpl; symmetry; apply rnd_big; unfold big;
        assert (B1 : 1 <= bpow radix2 emax) by (change 1 with (bpow radix2 0); apply bpow_le; vm_compute; discriminate); nra. }
  destruct K as [K1 K2]. split; auto. split; auto. rewrite K2. apply rnd_nonneg, Rle_0_sqr.
Qed.

Lemma ev_sqrt x : fnn x -> fnn (PrimFloat.sqrt x) /\
  ev (PrimFloat.sqrt x) = if PrimFloat.is_finite x then rne (R_sqrt.sqrt (ev x)) else big.
Proof.
  intros Hx.
  assert (K : fok (PrimFloat.sqrt x) /\ ev (PrimFloat.sqrt x) = if PrimFloat.is_finite x then rne (R_sqrt.sqrt (ev x)) else big).
  { destruct (nn_cases Hx) as [Fx|Ix].
    - unfold fok, ev. rewrite is_nan_equiv, sqrt_equiv. unfold ffin in Fx. rewrite Fx. apply fin_B in Fx.
      destruct (Bsqrt_correct _ _ Hprec Hmax mode_NE (Prim2B x)) as (C1 & C2 & _).
      assert (C3 : BinarySingleNaN.is_finite (Bsqrt mode_NE (Prim2B x)) = true).
      { rewrite C2. destruct Hx as [_ Hx]. unfold ev in Hx.
        destruct (Prim2B x) as [s|[]| |[] m e Hb]; simpl in *; auto; try discriminate.
        exfalso. pose proof (F2R_lt_0 radix2 {| Fnum := Z.neg m; Fexp := e |} ltac:(simpl; lia)). lra. }
      split; [destruct (Bsqrt mode_NE (Prim2B x)); simpl in *; auto; discriminate|].
      rewrite (proj1 (bv_fin _ C3)), C1, (proj1 (bv_fin _ Fx)). auto.
    - unfold fok, ev. rewrite is_nan_equiv, sqrt_equiv, is_finite_equiv, Ix. split; reflexivity. }
  destruct K as [K1 K2]. split; auto. split; auto. rewrite K2.
  pose proof big_pos. destruct (PrimFloat.is_finite x); [|lra].
  rewrite <- rne_0. apply rne_le. apply sqrt_pos.
Qed.

Lemma sqrt_mono x y : fnn x -> fnn y -> ev x <= ev y -> ev (PrimFloat.sqrt x) <= ev (PrimFloat.sqrt y).
Proof.
  intros Hx Hy H. destruct (ev_sqrt Hx) as [_ Ex], (ev_sqrt Hy) as [_ Ey]. rewrite Ex, Ey.
  destruct (PrimFloat.is_finite y) eqn:F.
  - destruct (PrimFloat.is_finite x) eqn:G.
    + apply rne_le, sqrt_le_1_alt; auto.
    + exfalso. unfold ev in H. rewrite is_finite_equiv in F, G. apply bv_fin in F.
      destruct (nn_cases Hx) as [C|C]; [apply fin_B in C; congruence|]. rewrite C in H. simpl in H. lra.
  - destruct (PrimFloat.is_finite x) eqn:G; [|lra].
    rewrite <- Ex. apply bv_bound.
Qed.
