(** Monotonicity laws of distance computations, with exact arithmetic and
    doubles (overflow and underflow included) as instances. *)
From Coq Require Import Reals Lra Floats.
From Flocq Require Import Core IEEE754.BinarySingleNaN IEEE754.PrimFloat.
From Verif Require Import Base Num FloatNum FloatLaws FloatMono.
Set Implicit Arguments.

(** [ok]: comparable; [fin]: admissible coordinate; [nn]: not negative. *)
Record DistLaws (N : Num) (ok fin nn : nT N -> Prop) : Prop := {
  dl_ord : OrdLaws N ok;
  dl_fin_ok : forall x, fin x -> ok x;
  dl_nn_ok : forall x, nn x -> ok x;
  dl_max : ok (nmax N);
  dl_sub_ok : forall x y, fin x -> fin y -> ok (nsub N x y);
  dl_sub_mono : forall a b c d, fin a -> fin b -> fin c -> fin d ->
    nle N a c = true -> nle N d b = true -> nle N (nsub N a b) (nsub N c d) = true;
  dl_sq : forall t, ok t -> nn (nmul N t t);
  dl_sq_mono : forall s t, ok s -> ok t -> nlt N (nzero N) s = true -> nle N s t = true ->
    nle N (nmul N s s) (nmul N t t) = true;
  dl_sq_sym : forall x y, fin x -> fin y ->
    nle N (nmul N (nsub N x y) (nsub N x y)) (nmul N (nsub N y x) (nsub N y x)) = true;
  dl_sq_zero : forall t z, ok t -> nn z -> nle N t (nzero N) = true -> nle N (nzero N) t = true ->
    nle N (nmul N t t) z = true;
  dl_sub_anti : forall x y, fin x -> fin y -> nle N (nsub N y x) (nzero N) = true ->
    nle N (nzero N) (nsub N x y) = true;
  dl_zero : nn (nzero N);
  dl_zero_le : forall z, nn z -> nle N (nzero N) z = true;
  dl_add : forall a b, nn a -> nn b -> nn (nadd N a b);
  dl_add_mono : forall a b c d, nn a -> nn b -> nn c -> nn d ->
    nle N a c = true -> nle N b d = true -> nle N (nadd N a b) (nadd N c d) = true;
  dl_sqrt : forall a, nn a -> nn (nsqrt N a);
  dl_sqrt_mono : forall a b, nn a -> nn b -> nle N a b = true -> nle N (nsqrt N a) (nsqrt N b) = true;
}.

Lemma R_distlaws : DistLaws RNum (fun _ => True) (fun _ => True) (fun x : R => (0 <= x)%R).
Proof.
  constructor; simpl; intros; auto; rewrite ?Rleb_true, ?Rltb_true in *; try lra; try nra.
  - apply R_ordlaws.
  - apply R_sqrt.sqrt_pos.
  - apply sqrt_le_1_alt; auto.
Qed.

Lemma rnd_opp x : rnd (- x) = (- rnd x)%R.
Proof.
  unfold rnd. pose proof (round_NE_opp radix2 (SpecFloat.fexp prec emax) x) as E.
  change (round radix2 (SpecFloat.fexp prec emax) ZnearestE) with rne in E.
  pose proof big_pos.
  change (Znearest (fun t => negb (Z.even t))) with ZnearestE in E.
  assert (E' : rne (- x) = (- rne x)%R) by exact E.
  rewrite E', Rabs_Ropp. case Rlt_bool_spec; intros; auto.
  case Rlt_bool_spec; intros; case Rlt_bool_spec; intros; try lra.
  exfalso. assert (Z : rne x = 0%R) by lra. rewrite Z, Rabs_R0 in *. lra.
Qed.

Lemma F_distlaws : DistLaws FNum fok ffin fnn.
Proof.
  assert (FO := ffin_fok).
  constructor; cbn [nT nlt nle nadd nsub nmul nsqrt nzero nmax FNum].
  - exact F_ordlaws.
  - exact FO.
  - intros x []; auto.
  - reflexivity.
  - intros x y Hx Hy. apply (ev_sub Hx Hy).
  - intros a b c d Ha Hb Hc Hd H1 H2.
    destruct (ev_sub Ha Hb) as [K1 E1], (ev_sub Hc Hd) as [K2 E2].
    rewrite fle_ev in * by auto. rewrite E1, E2. apply rnd_mono. lra.
  - intros t Ht. apply (ev_sq Ht).
  - intros s t Hs Ht H1 H2. destruct (ev_sq Hs) as [[K1 _] E1], (ev_sq Ht) as [[K2 _] E2].
    rewrite fle_ev in * by auto. rewrite flt_ev in H1; auto; [|reflexivity].
    rewrite E1, E2. apply rnd_mono.
    assert (Z : ev 0%float = 0%R) by reflexivity. rewrite Z in H1. nra.
  - intros x y Hx Hy. destruct (ev_sub Hx Hy) as [K1 E1], (ev_sub Hy Hx) as [K2 E2].
    destruct (ev_sq K1) as [[L1 _] S1], (ev_sq K2) as [[L2 _] S2].
    rewrite fle_ev by auto. rewrite S1, S2, E1, E2. apply rnd_mono.
    replace (ev x - ev y)%R with (- (ev y - ev x))%R by lra. rewrite rnd_opp. lra.
  - intros t z Ht [Hz1 Hz2] H1 H2. destruct (ev_sq Ht) as [[L1 _] S1].
    assert (Z : ev 0%float = 0%R) by reflexivity.
    rewrite fle_ev in * by (auto; reflexivity). rewrite Z in H1, H2.
    rewrite S1. replace (ev t) with 0%R by lra. rewrite Rmult_0_l, rnd_0. auto.
  - intros x y Hx Hy H. destruct (ev_sub Hx Hy) as [K1 E1], (ev_sub Hy Hx) as [K2 E2].
    assert (Z : ev 0%float = 0%R) by reflexivity.
    rewrite fle_ev in * by (auto; reflexivity). rewrite Z, E2 in H. rewrite Z, E1.
    replace (ev y - ev x)%R with (- (ev x - ev y))%R in H by lra. rewrite rnd_opp in H. lra.
  - split; [reflexivity|]. assert (Z : ev 0%float = 0%R) by reflexivity. rewrite Z. lra.
  - intros z [H1 H2]. rewrite fle_ev by (auto; reflexivity).
    assert (Z : ev 0%float = 0%R) by reflexivity. rewrite Z. lra.
  - intros a b Ha Hb. apply (ev_add_nn Ha Hb).
  - intros a b c d Ha Hb Hc Hd H1 H2.
    destruct (ev_add_nn Ha Hb) as [[K1 _] E1], (ev_add_nn Hc Hd) as [[K2 _] E2].
    pose proof (proj1 Ha). pose proof (proj1 Hb). pose proof (proj1 Hc). pose proof (proj1 Hd).
    rewrite fle_ev in * by auto. rewrite E1, E2. apply rnd_mono. lra.
  - intros a Ha. apply (ev_sqrt Ha).
  - intros a b Ha Hb H. destruct (ev_sqrt Ha) as [[K1 _] _], (ev_sqrt Hb) as [[K2 _] _].
    pose proof (proj1 Ha). pose proof (proj1 Hb).
    rewrite fle_ev in * by auto. apply sqrt_mono; auto.
Qed.
