(** Laws of searches with a box of half-width [r] around a point, [r] being a
    computed distance: what the box misses is at computed distance [r] or more.
    Instances: exact arithmetic and doubles. *)
From Coq Require Import Reals Lra ZArith Lia Bool Floats SpecFloat.
From Flocq Require Import Core IEEE754.BinarySingleNaN IEEE754.PrimFloat.
From Verif Require Import Base Num FloatNum FloatLaws FloatMono DistLaws.
Set Implicit Arguments.
Local Open Scope R_scope.

Record RadLaws (N : Num) (ok fin nn rad : nT N -> Prop) : Prop := {
  rl_nn : forall r, rad r -> nn r;
  rl_sqrt : forall s, nn s -> rad (nsqrt N s);
  rl_add_l : forall a t, nn a -> nn t -> nle N a (nadd N a t) = true;
  rl_add_r : forall a t, nn a -> nn t -> nle N t (nadd N a t) = true;
  rl_hi : forall q r x, fin q -> fin x -> rad r -> nlt N (nadd N q r) x = true ->
    nle N r (nsqrt N (nmul N (nsub N q x) (nsub N q x))) = true;
  rl_lo : forall q r x, fin q -> fin x -> rad r -> nlt N x (nsub N q r) = true ->
    nle N r (nsqrt N (nmul N (nsub N q x) (nsub N q x))) = true;
  rl_add_ok : forall q r, fin q -> rad r -> ok (nadd N q r);
  rl_sub_ok : forall q r, fin q -> rad r -> ok (nsub N q r);
}.

Lemma R_radlaws : RadLaws RNum (fun _ => True) (fun _ => True) (fun x : R => 0 <= x) (fun x : R => 0 <= x).
Proof.
  constructor; cbn [nT nlt nle nadd nsub nmul nsqrt RNum]; intros; auto;
    rewrite ?Rleb_true, ?Rltb_true in *; try lra.
  - apply R_sqrt.sqrt_pos.
  - fold (Rsqr (q - x)). rewrite sqrt_Rsqr_abs. unfold Rabs. destruct (Rcase_abs (q - x)); lra.
  - fold (Rsqr (q - x)). rewrite sqrt_Rsqr_abs. unfold Rabs. destruct (Rcase_abs (q - x)); lra.
Qed.

Notation fx := (SpecFloat.fexp prec emax).
Notation Fm := (generic_format radix2 fx).
Lemma fx_eq e : fx e = Z.max (e - 53) (-1074).
Proof. reflexivity. Qed.

Lemma rne_id x : Fm x -> rne x = x.
Proof. intros. apply round_generic; auto with typeclass_instances. Qed.
Lemma rne_F x : Fm (rne x).
Proof. apply generic_format_round; auto with typeclass_instances. Qed.

(** The smallest positive double. *)
Lemma F_pos_min s : Fm s -> 0 < s -> bpow radix2 (-1074) <= s.
Proof.
  intros F H. rewrite F in *. unfold F2R in *. cbn [Fnum Fexp] in *. unfold cexp in *. rewrite fx_eq in *.
  set (m := Ztrunc _) in *. set (e := Z.max _ _) in *.
  assert (0 < bpow radix2 e) by apply bpow_gt_0.
  assert (M : (1 <= m)%Z). { assert (0 < IZR m) by nra. apply lt_IZR in H1. lia. }
  apply IZR_le in M. assert (bpow radix2 (-1074) <= bpow radix2 e) by (apply bpow_le; lia). nra.
Qed.

Lemma pred_le_min s : Fm s -> 0 < s -> pred radix2 fx s <= s - bpow radix2 (-1074).
Proof.
  intros F H. rewrite pred_eq_pos by lra. unfold pred_pos.
  case Req_bool_spec; intros E.
  - apply Rplus_le_compat_l, Ropp_le_contravar, bpow_le. rewrite fx_eq. lia.
  - rewrite ulp_neq_0 by lra. unfold cexp. apply Rplus_le_compat_l, Ropp_le_contravar, bpow_le. rewrite fx_eq. lia.
Qed.

(** The computed root of the computed square of a computed root is not below
    it. *)
Lemma sqrt_sq_ge s : Fm s -> 0 <= s ->
  rne (R_sqrt.sqrt s) <= rne (R_sqrt.sqrt (rne (rne (R_sqrt.sqrt s) * rne (R_sqrt.sqrt s)))).
Proof.
  intros Fs Hs. destruct (Rle_lt_or_eq_dec 0 s Hs) as [Hs0|<-].
  2:{ rewrite sqrt_0, rne_0, Rmult_0_l, rne_0, sqrt_0, rne_0. lra. }
  set (r := rne (R_sqrt.sqrt s)).
  assert (Fr : Fm r) by apply rne_F.
  assert (Hr : bpow radix2 (-537) <= r).
  { apply round_ge_generic; auto with typeclass_instances.
    - apply generic_format_bpow. vm_compute. discriminate.
    - replace (bpow radix2 (-537)) with (R_sqrt.sqrt (bpow radix2 (-1074))).
      + apply sqrt_le_1_alt, F_pos_min; auto.
      + change (-1074)%Z with (-537 + -537)%Z. rewrite bpow_plus. apply sqrt_square, bpow_ge_0. }
  assert (Hr0 : 0 < r) by (pose proof (bpow_gt_0 radix2 (-537)); lra).
  destruct (mag radix2 r) as [e1 He1]. specialize (He1 (Rgt_not_eq _ _ Hr0)).
  rewrite Rabs_right in He1 by lra. set (e := (e1 - 1)%Z) in *.
  assert (Ee : (-537 <= e)%Z).
  { assert (-537 < e1)%Z by (apply (lt_bpow radix2); lra). lia. }
  assert (U : ulp radix2 fx r = bpow radix2 (e - 52)).
  { rewrite ulp_neq_0 by lra. f_equal. unfold cexp.
    rewrite (mag_unique_pos radix2 r e1) by (fold e; lra). rewrite fx_eq. lia. }
  replace e1 with (e + 1)%Z in He1 by lia.
  set (u := bpow radix2 (e - 52)) in *.
  assert (Hu : 0 < u) by apply bpow_gt_0.
  assert (B1 : bpow radix2 (e + 1) = 2 * bpow radix2 e).
  { rewrite bpow_plus. simpl (bpow radix2 1). lra. }
  assert (B2 : bpow radix2 (e + e - 52) = bpow radix2 e * u).
  { unfold u. rewrite <- bpow_plus. f_equal. lia. }
  destruct (Z_le_gt_dec (-1022) (e + e)) as [Hn|Hn].
  - destruct (Req_dec r (bpow radix2 e)) as [Er|Er].
    + rewrite Er, <- bpow_plus, (@rne_id (bpow radix2 (e + e))).
      * rewrite bpow_plus, sqrt_square by apply bpow_ge_0. rewrite rne_id; [lra|].
        rewrite <- Er; auto.
      * apply generic_format_bpow. rewrite fx_eq. lia.
    + assert (Hp : pred radix2 fx r = r - u).
      { rewrite pred_eq_pos by lra. unfold pred_pos. rewrite (mag_unique_pos radix2 r (e + 1)).
        - replace (e + 1 - 1)%Z with e by lia. rewrite Req_bool_false by auto. rewrite U. auto.
        - replace (e + 1 - 1)%Z with e by lia. lra. }
      assert (Hru : bpow radix2 e <= r - u).
      { assert (u < bpow radix2 e) by (apply bpow_lt; lia).
        rewrite <- U. apply id_m_ulp_ge_bpow; auto; [rewrite U|]; lra. }
      set (t := rne (r * r)).
      assert (Hq : r * r < bpow radix2 (e + e + 2)).
      { replace (e + e + 2)%Z with ((e + 1) + (e + 1))%Z by lia. rewrite bpow_plus. nra. }
      assert (Ht : r * r - bpow radix2 e * u <= t).
      { pose proof (@error_le_half_ulp radix2 fx _ (fun x => negb (Z.even x)) (r * r)) as HE.
        assert (HU : ulp radix2 fx (r * r) <= bpow radix2 (e + e - 51)).
        { rewrite ulp_neq_0 by nra. apply bpow_le. unfold cexp. rewrite fx_eq.
          assert (mag radix2 (r * r) <= e + e + 2)%Z by (apply mag_le_bpow; [nra|rewrite Rabs_right; nra]). lia. }
        assert (B3 : bpow radix2 (e + e - 51) = 2 * (bpow radix2 e * u)).
        { rewrite <- B2. replace (e + e - 51)%Z with (1 + (e + e - 52))%Z by lia. rewrite bpow_plus.
          simpl (bpow radix2 1). lra. }
        change (round radix2 fx (Znearest (fun x => negb (Z.even x))) (r * r)) with t in HE.
        pose proof (Rle_abs (- (t - r * r))) as HA. rewrite Rabs_Ropp in HA. lra. }
      assert (Hm : (r - u / 2) * (r - u / 2) < t) by nra.
      apply (@round_N_ge_midp radix2 fx _ (fun x => negb (Z.even x))); auto. rewrite Hp.
      replace ((r + (r - u)) / 2) with (r - u / 2) by lra.
      pose proof (bpow_gt_0 radix2 e).
      rewrite <- (sqrt_square (r - u / 2)) by lra. apply sqrt_lt_1_alt. split; [nra|auto].
  - assert (Hs2 : s <= rne (r * r)).
    { apply (@round_N_ge_midp radix2 fx _ (fun x => negb (Z.even x))); auto.
      pose proof (pred_le_min Fs Hs0) as HP.
      assert (HE : Rabs (r - R_sqrt.sqrt s) <= / 2 * ulp radix2 fx r).
      { apply (@error_le_half_ulp_round radix2 fx _ _ (fun x => negb (Z.even x))). }
      rewrite U in HE. pose proof (Rle_abs (- (r - R_sqrt.sqrt s))) as HA. rewrite Rabs_Ropp in HA.
      assert (HQ : R_sqrt.sqrt s <= r + u / 2) by lra.
      assert (HS : s <= (r + u / 2) * (r + u / 2)).
      { rewrite <- (sqrt_sqrt s) by lra. pose proof (sqrt_pos s). apply Rmult_le_compat; lra. }
      assert (HU : r + u <= bpow radix2 (e + 1)).
      { rewrite <- U. apply id_p_ulp_le_bpow; auto. lra. }
      assert (B3 : 2 * (bpow radix2 e * u) <= / 2 * bpow radix2 (-1074)).
      { rewrite <- B2. replace (/ 2) with (bpow radix2 (-1)) by reflexivity. rewrite <- bpow_plus.
        replace (2 * bpow radix2 (e + e - 52)) with (bpow radix2 (1 + (e + e - 52))) by (rewrite bpow_plus; reflexivity).
        apply bpow_le. lia. }
      nra. }
    unfold r at 1. apply rne_le, sqrt_le_1_alt; auto.
Qed.

Lemma ev_F x : ffin x -> Fm (ev x).
Proof.
  intros H. unfold ev. apply fin_B in H. rewrite (proj1 (bv_fin _ H)). apply generic_format_B2R.
Qed.
Lemma ev_bnd x : ffin x -> - big < ev x < big.
Proof. intros H. apply fin_B in H. apply (bv_fin _ H). Qed.
Lemma rnd_id x : Fm x -> - big < x < big -> rnd x = x.
Proof. intros F H. unfold rnd. rewrite (rne_id F), Rlt_bool_true; auto. apply Rabs_lt. lra. Qed.
Lemma rnd_ev x : fok x -> rnd (ev x) = ev x.
Proof.
  intros H. destruct (PrimFloat.is_finite x) eqn:E.
  - apply rnd_id; [apply ev_F|apply ev_bnd]; auto.
  - unfold fok in H. rewrite is_nan_equiv in H. rewrite is_finite_equiv in E. unfold ev.
    destruct (Prim2B x) as [s|[]| |s m ee Hb]; simpl in *; try discriminate.
    + rewrite rnd_opp, rnd_big; lra.
    + rewrite rnd_big; lra.
Qed.
Lemma rnd_bnd x : - big <= rnd x <= big.
Proof.
  unfold rnd. pose proof big_pos. case Rlt_bool_spec; intros Hx.
  - apply Rabs_lt_inv in Hx. lra.
  - case Rlt_bool_spec; intros; lra.
Qed.

(** A computed distance. *)
Definition frad (r : PrimFloat.float) : Prop := exists s, fnn s /\ r = PrimFloat.sqrt s.

Lemma frad_nn r : frad r -> fnn r.
Proof. intros (s & Hs & ->). apply (ev_sqrt Hs). Qed.

Lemma frad_dist r d : frad r -> fok d -> ev r <= Rabs (ev d) ->
  PrimFloat.leb r (PrimFloat.sqrt (d * d)%float) = true.
Proof.
  intros Hr Hd H. pose proof (frad_nn Hr) as Nr. destruct (ev_sq Hd) as [Nq Eq].
  destruct (ev_sqrt Nq) as [Nsq Esq].
  apply fle_ev; [apply Nr|apply Nsq|].
  assert (Nr2 := ev_sq (proj1 Nr)). destruct Nr2 as [Nrr Err].
  assert (M : ev (r * r)%float <= ev (d * d)%float).
  { rewrite Err, Eq. apply rnd_mono. destruct Nr as [_ Nr].
    rewrite <- (Rabs_pos_eq (ev d * ev d)) by nra. rewrite Rabs_mult. nra. }
  apply Rle_trans with (ev (PrimFloat.sqrt (r * r)%float)); [|apply sqrt_mono; auto].
  destruct (ev_sqrt Nrr) as [_ ->].
  destruct (PrimFloat.is_finite (r * r)%float) eqn:Frr; [|apply bv_bound].
  destruct Hr as (s & Hs & ->). destruct (ev_sqrt Hs) as [_ Es].
  destruct (PrimFloat.is_finite s) eqn:Fs.
  - rewrite Err. rewrite Es in *.
    set (q := rne (R_sqrt.sqrt (ev s)) * rne (R_sqrt.sqrt (ev s))) in *.
    assert (Hb := ev_bnd Frr). rewrite Err in Hb.
    assert (Hrr : rnd q = rne q).
    { revert Hb. unfold rnd. pose proof big_pos. case Rlt_bool_spec; intros; auto.
      destruct (Rlt_bool (rne q) 0); lra. }
    rewrite Hrr. apply sqrt_sq_ge; [apply ev_F; auto|apply Hs].
  - exfalso. assert (Hb := ev_bnd Frr). rewrite Err, Es in Hb. rewrite rnd_big in Hb; [lra|].
    unfold big. assert (1 <= bpow radix2 emax) by (change 1 with (bpow radix2 0); apply bpow_le; vm_compute; discriminate).
    nra.
Qed.

Lemma add_inf q r : ffin q -> Prim2B r = B754_infinity false -> Prim2B (q + r)%float = B754_infinity false.
Proof.
  intros Hq Hr. rewrite add_equiv, Hr. apply fin_B in Hq.
  destruct (Prim2B q) as [s|[]| |s m ee Hb]; simpl in *; try discriminate; auto.
Qed.
Lemma sub_inf q r : ffin q -> Prim2B r = B754_infinity false -> Prim2B (q - r)%float = B754_infinity true.
Proof.
  intros Hq Hr. rewrite sub_equiv, Hr. apply fin_B in Hq.
  destruct (Prim2B q) as [s|[]| |s m ee Hb]; simpl in *; try discriminate; auto.
Qed.

Lemma F_radlaws : RadLaws FNum fok ffin fnn frad.
Proof.
  constructor; cbn [nT nlt nle nadd nsub nmul nsqrt FNum].
  - exact frad_nn.
  - intros s Hs. exists s. auto.
  - intros a t Ha Ht. destruct (ev_add_nn Ha Ht) as [[K1 _] E]. pose proof (proj1 Ha) as Ka.
    apply fle_ev; auto. rewrite E, <- (rnd_ev Ka). rewrite (rnd_ev Ka) at 2. apply rnd_mono.
    destruct Ht. lra.
  - intros a t Ha Ht. destruct (ev_add_nn Ha Ht) as [[K1 _] E]. pose proof (proj1 Ht) as Kt.
    apply fle_ev; auto. rewrite E, <- (rnd_ev Kt). rewrite (rnd_ev Kt) at 2. apply rnd_mono.
    destruct Ha. lra.
  - intros q r x Hq Hx Hr H. pose proof (frad_nn Hr) as Nr. destruct (ev_sub Hq Hx) as [Kd Ed].
    apply frad_dist; auto. rewrite Ed.
    destruct (nn_cases Nr) as [Fr|Ir].
    + destruct (ev_add Hq Fr) as [Ks Es]. apply flt_ev in H; auto; [|apply ffin_fok; auto].
      rewrite Es in H.
      assert (L : ev q + ev r < ev x).
      { destruct (Rlt_le_dec (ev q + ev r) (ev x)) as [|L]; auto. apply rnd_mono in L.
        rewrite (rnd_ev (ffin_fok Hx)) in L. lra. }
      assert (ev r <= rnd (ev x - ev q)).
      { rewrite <- (rnd_ev (ffin_fok Fr)). apply rnd_mono. lra. }
      replace (ev q - ev x) with (- (ev x - ev q)) by lra. rewrite rnd_opp, Rabs_Ropp.
      apply Rle_trans with (1 := H0), Rle_abs.
    + exfalso. apply flt_ev in H; [|unfold fok; rewrite is_nan_equiv, (@add_inf q r Hq Ir); auto|apply ffin_fok; auto].
      unfold ev at 1 in H. rewrite (@add_inf q r Hq Ir) in H. apply ev_bnd in Hx. simpl in H. lra.
  - intros q r x Hq Hx Hr H. pose proof (frad_nn Hr) as Nr. destruct (ev_sub Hq Hx) as [Kd Ed].
    apply frad_dist; auto. rewrite Ed.
    destruct (nn_cases Nr) as [Fr|Ir].
    + destruct (ev_sub Hq Fr) as [Ks Es]. apply flt_ev in H; auto; [|apply ffin_fok; auto].
      rewrite Es in H.
      assert (L : ev x < ev q - ev r).
      { destruct (Rlt_le_dec (ev x) (ev q - ev r)) as [|L]; auto. apply rnd_mono in L.
        rewrite (rnd_ev (ffin_fok Hx)) in L. lra. }
      assert (ev r <= rnd (ev q - ev x)).
      { rewrite <- (rnd_ev (ffin_fok Fr)). apply rnd_mono. lra. }
      apply Rle_trans with (1 := H0), Rle_abs.
    + exfalso. apply flt_ev in H; [|apply ffin_fok; auto|unfold fok; rewrite is_nan_equiv, (@sub_inf q r Hq Ir); auto].
      unfold ev at 2 in H. rewrite (@sub_inf q r Hq Ir) in H. apply ev_bnd in Hx. simpl in H. lra.
  - intros q r Hq Hr. destruct (nn_cases (frad_nn Hr)) as [Fr|Ir]; [apply ev_add; auto|].
    unfold fok. rewrite is_nan_equiv, (@add_inf q r Hq Ir). auto.
  - intros q r Hq Hr. destruct (nn_cases (frad_nn Hr)) as [Fr|Ir]; [apply ev_sub; auto|].
    unfold fok. rewrite is_nan_equiv, (@sub_inf q r Hq Ir). auto.
Qed.
