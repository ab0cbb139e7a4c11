(** The order laws hold for IEEE doubles that are not NaN, and the span law
    for finite doubles. *)
From Coq Require Import Reals Lra ZArith Lia Bool Floats SpecFloat.
From Flocq Require Import Core IEEE754.BinarySingleNaN IEEE754.PrimFloat.
From Verif Require Import Base Num FloatNum.
Set Implicit Arguments.

(** Finite double. *)
Definition ffin (x : PrimFloat.float) : Prop := PrimFloat.is_finite x = true.

(** Lexicographic key of a non-NaN value. *)
Definition skey (x : spec_float) : Z * (Z * Z) :=
  match x with
  | S754_infinity true => (-2, (0, 0))%Z
  | S754_finite true m e => (-1, (- e, Zneg m))%Z
  | S754_zero _ => (0, (0, 0))%Z
  | S754_nan => (0, (0, 0))%Z
  | S754_finite false m e => (1, (e, Zpos m))%Z
  | S754_infinity false => (2, (0, 0))%Z
  end.

Definition klt (a b : Z * (Z * Z)) : Prop :=
  (fst a < fst b \/ (fst a = fst b /\
    (fst (snd a) < fst (snd b) \/ (fst (snd a) = fst (snd b) /\ snd (snd a) < snd (snd b)))))%Z.

Definition snan (x : spec_float) : bool := match x with S754_nan => true | _ => false end.

Lemma SFltb_key x y : snan x = false -> snan y = false ->
  (SFltb x y = true <-> klt (skey x) (skey y)).
Proof.
  unfold SFltb, klt.
  destruct x as [sx|sx| |sx mx ex]; destruct y as [sy|sy| |sy my ey]; simpl; try discriminate;
    intros _ _; try (destruct sx); try (destruct sy); simpl;
    try (split; [intros; try discriminate; lia | intros; try reflexivity; exfalso; lia]).
  all: change (Pos.compare_cont Eq mx my) with (Pos.compare mx my).
  all: destruct (Z.compare_spec ex ey);
    try (destruct (Pos.compare_spec mx my)); simpl;
    (split; [intros; try discriminate; lia | intros; try reflexivity; exfalso; lia]).
Qed.

Lemma SFleb_ltb x y : snan x = false -> snan y = false -> SFleb x y = negb (SFltb y x).
Proof.
  unfold SFltb, SFleb.
  destruct x as [sx|sx| |sx mx ex]; destruct y as [sy|sy| |sy my ey]; simpl; try discriminate;
    intros _ _; try (destruct sx); try (destruct sy); simpl; auto;
    rewrite (Z.compare_antisym ex ey); destruct (Z.compare ex ey); simpl; auto;
    change (Pos.compare_cont Eq mx my) with (Pos.compare mx my);
    change (Pos.compare_cont Eq my mx) with (Pos.compare my mx);
    rewrite (Pos.compare_antisym mx my); destruct (Pos.compare mx my); simpl; auto.
Qed.

Lemma fok_snan x : fok x -> snan (Prim2SF x) = false.
Proof.
  unfold fok. rewrite is_nan_equiv, <- B2SF_Prim2B.
  destruct (Prim2B x); simpl; auto.
Qed.

Lemma F_ordlaws : OrdLaws FNum fok.
Proof.
  assert (K : forall x y, fok x -> fok y ->
    (PrimFloat.ltb x y = true <-> klt (skey (Prim2SF x)) (skey (Prim2SF y)))).
  { intros x y Hx Hy. rewrite FloatAxioms.ltb_spec. apply SFltb_key; apply fok_snan; auto. }
  constructor; simpl.
  - intros x Hx. destruct (PrimFloat.ltb x x) eqn:E; auto.
    apply K in E; auto. unfold klt in E. lia.
  - intros x y z Hx Hy Hz. rewrite !K by auto. unfold klt. lia.
  - intros x y z Hx Hy Hz. rewrite !K by auto. unfold klt. lia.
  - intros x y Hx Hy. rewrite FloatAxioms.ltb_spec, FloatAxioms.leb_spec.
    apply SFleb_ltb; apply fok_snan; auto.
Qed.

Lemma ffin_fok x : ffin x -> fok x.
Proof.
  unfold ffin, fok. rewrite is_finite_equiv, is_nan_equiv.
  destruct (Prim2B x); simpl; auto; discriminate.
Qed.

Lemma F_ordlaws_fin : OrdLaws FNum ffin.
Proof.
  pose proof F_ordlaws as [H1 H2 H3 H4].
  constructor; intros; [apply H1|eapply H2; eauto|apply H3|apply H4]; auto; apply ffin_fok; auto.
Qed.

Lemma F_span : SpanLaw FNum ffin.
Proof.
  intros x y Hx Hy. simpl. unfold ffin in *. rewrite is_finite_equiv in *.
  rewrite !ltb_equiv, sub_equiv.
  rewrite Bltb_correct by auto.
  intros H.
  assert (Hle : (B2R (Prim2B x) <= B2R (Prim2B y))%R).
  { revert H. case Rlt_bool_spec; intros; [discriminate|]. auto. }
  pose proof (Bminus_correct _ _ Hprec Hmax mode_NE (Prim2B y) (Prim2B x) Hy Hx) as C.
  revert C. case Rlt_bool_spec; intros Hov C.
  - destruct C as (C1 & C2 & _). rewrite Bltb_correct; auto.
    case Rlt_bool_spec; auto. intros Hbad. exfalso.
    rewrite C1 in Hbad.
    assert (R0 : (0 <= round radix2 (SpecFloat.fexp prec emax) (round_mode mode_NE)
                    (B2R (Prim2B y) - B2R (Prim2B x)))%R).
    { rewrite <- (round_0 radix2 (SpecFloat.fexp prec emax) (round_mode mode_NE)).
      apply round_le; auto with typeclass_instances.
      apply fexp_correct. reflexivity. lra. }
    assert (B2R (Prim2B (-1)%float) = -1)%R.
    { assert (E : B2SF (Prim2B (-1)%float) = Prim2SF (-1)%float) by apply B2SF_Prim2B.
      rewrite <- SF2R_B2SF, E.
      replace (Prim2SF (-1)%float) with (S754_finite true 4503599627370496 (-52)) by (vm_compute; reflexivity).
      simpl. unfold F2R. simpl. lra. }
    lra.
  - destruct C as (C1 & C2).
    assert (S : Bsign (Prim2B y) = false).
    { destruct (Bsign (Prim2B y)) eqn:S; auto. exfalso.
      assert (B2R (Prim2B y) <= 0)%R.
      { destruct (Prim2B y) as [s|s| |s m e Hb]; simpl in *; subst; try lra.
        apply F2R_le_0. simpl. lia. }
      assert (0 <= B2R (Prim2B x))%R.
      { destruct (Prim2B x) as [s|s| |s m e Hb]; simpl in *; try lra.
        destruct s; try discriminate. apply F2R_ge_0. simpl. lia. }
      replace (B2R (Prim2B y) - B2R (Prim2B x))%R with 0%R in Hov by lra.
      rewrite round_0, Rabs_R0 in Hov by (auto with typeclass_instances).
      pose proof (bpow_gt_0 radix2 emax). lra. }
    rewrite S in C1. unfold Bltb. rewrite C1.
    rewrite B2SF_Prim2B. reflexivity.
Qed.
