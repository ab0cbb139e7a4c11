(** The z-order sort: result and absence of exceptions. *)
From Coq Require Import Reals Lra ZArith NArith Lia Bool Floats SpecFloat.
From Flocq Require Import Core IEEE754.BinarySingleNaN IEEE754.PrimFloat.
From Flocq Require Import Relative.
From Verif Require Import Base Num FloatNum FloatLaws FloatMono DistLaws RadLaws KdModel MortonModel MortonBits.
Set Implicit Arguments.

Section Generic.
  Variable K : Num.
  Variable dim : nat.
  Variable A : Type.
  Variable pt : A -> list (nT K).
  Variable toCell : nT K -> option N.
  Variables c101 cRange : nT K.
  Variable srt : list (N * A) -> list (N * A).
  Hypothesis Hsrt : zsort_ok srt.
  Notation zsort := (@zorderSort K dim A pt toCell c101 cRange srt).
  Notation zord := (@zorder K dim A pt toCell).

  Lemma mapZ_ok B C (f : B -> res C) l ys : mapZ f l = Ok ys -> Forall2 (fun x y => f x = Ok y) l ys.
  Proof.
    revert ys. induction l as [|x l IH]; intros ys; cbn [mapZ].
    - intros E; inversion E; constructor.
    - intros E. apply bind_ok in E as (y & E1 & E). apply bind_ok in E as (r & E2 & E). inversion E; subst.
      constructor; auto.
  Qed.
  Lemma mapZ_total B C (f : B -> res C) l : (forall x, In x l -> exists y, f x = Ok y) -> exists ys, mapZ f l = Ok ys.
  Proof.
    induction l as [|x l IH]; intros H; cbn [mapZ]; [eauto|].
    destruct (H x ltac:(simpl; auto)) as (y & ->). destruct IH as (ys & ->); [intros; apply H; simpl; auto|].
    cbn [bind]. eauto.
  Qed.

  Lemma Forall2_combine B C (Q : B -> C -> Prop) l ys : Forall2 Q l ys -> forall p, In p (combine ys l) -> Q (snd p) (fst p).
  Proof. induction 1 as [|x y l ys H1 H2 IH]; simpl; [tauto|]. intros p [<-|Hp]; auto. Qed.

  Lemma map_snd_combine B C (l : list B) (ys : list C) : length ys = length l -> map snd (combine ys l) = l.
  Proof. revert ys. induction l as [|x l IH]; intros [|y ys]; simpl; intros E; try lia; auto. rewrite IH; auto. Qed.

  Lemma SSorted_map B C (f : B -> C) (Q : C -> C -> Prop) (R : B -> B -> Prop) l :
    (forall x y, In x l -> In y l -> R x y -> Q (f x) (f y)) -> StronglySorted R l -> StronglySorted Q (map f l).
  Proof.
    intros H. induction 1 as [|x l HS IH HF]; simpl; constructor.
    - apply IH. intros; apply H; simpl; auto.
    - rewrite Forall_forall in *. intros z Hz. apply in_map_iff in Hz as (y & <- & Hy). apply H; simpl; auto.
  Qed.

  (** A returned sequence is the input rearranged by non-decreasing key, the keys
      taken with respect to one origin and one cell size. *)
  Lemma zsort_result omax omin P out : zsort omax omin P = Ok out ->
    Permutation out P /\ exists p0 P', P = p0 :: P' /\
    let pMin := fun i => minOf K pt p0 (omin i P) i in
    let bs := boxSize K c101 cRange (maxSpan K dim (fun i => nsub K (maxOf K pt p0 (omax i P) i) (pMin i))) in
    StronglySorted (fun x y => exists a b, zord pMin bs x = Ok a /\ zord pMin bs y = Ok b /\ (a <= b)%N) out.
  Proof.
    unfold zorderSort. destruct P as [|p0 P']; [discriminate|]. set (P := p0 :: P').
    set (pMin := fun i => minOf K pt p0 (omin i P) i).
    set (bs := boxSize K c101 cRange (maxSpan K dim (fun i => nsub K (maxOf K pt p0 (omax i P) i) (pMin i)))).
    cbn zeta. intros E. apply bind_ok in E as (keys & Ek & E). inversion E; subst out; clear E.
    apply mapZ_ok in Ek. destruct (Hsrt (combine keys P)) as [HP HS].
    assert (HL : length keys = length P) by (clear - Ek; induction Ek; simpl; auto).
    split.
    - rewrite HP. rewrite map_snd_combine; auto.
    - exists p0, P'. split; auto. apply SSorted_map with (R := fun a b => (fst a <= fst b)%N); auto.
      intros x y Hx Hy Hle. exists (fst x), (fst y).
      split; [|split; auto]; apply (Forall2_combine Ek); eapply Permutation_in; eauto.
  Qed.

  Variable ok : nT K -> Prop.
  Hypothesis OL : OrdLaws K ok.
  Notation le a b := (nle K a b = true).

  Lemma fold_wmax l m : ok m -> (forall x, In x l -> ok x) ->
    let r := fold_left (wmax K) l m in ok r /\ (r = m \/ In r l) /\ le m r /\ forall x, In x l -> le x r.
  Proof.
    revert m. induction l as [|x l IH]; intros m Hm Hl; cbn [fold_left] in *; cbn zeta.
    - split; auto. split; auto. split; [apply (nle_refl OL); auto|intros ? []].
    - assert (Hx : ok x) by (apply Hl; simpl; auto).
      assert (Hw : ok (wmax K m x)) by (unfold wmax; destruct (nlt K m x); auto).
      destruct (IH (wmax K m x) Hw ltac:(intros; apply Hl; simpl; auto)) as (H1 & H2 & H3 & H4). cbn zeta in *.
      set (r := fold_left (wmax K) l (wmax K m x)) in *.
      assert (G : le m (wmax K m x) /\ le x (wmax K m x) /\ (wmax K m x = m \/ wmax K m x = x)).
      { unfold wmax. destruct (nlt K m x) eqn:E.
        - split; [apply (nlt_le OL); auto|]. split; [apply (nle_refl OL); auto|auto].
        - split; [apply (nle_refl OL); auto|]. split; [apply (nlt_false_le OL); auto|auto]. }
      destruct G as (G1 & G2 & G3). split; auto. split.
      + destruct H2 as [->|H2]; [|simpl; auto]. destruct G3 as [-> | ->]; simpl; auto.
      + split; [apply (nle_trans OL) with (y := wmax K m x); auto|].
        intros y [<-|Hy]; auto. apply (nle_trans OL) with (y := wmax K m x); auto.
  Qed.
  Lemma fold_wmin l m : ok m -> (forall x, In x l -> ok x) ->
    let r := fold_left (wmin K) l m in ok r /\ (r = m \/ In r l) /\ le r m /\ forall x, In x l -> le r x.
  Proof.
    revert m. induction l as [|x l IH]; intros m Hm Hl; cbn [fold_left] in *; cbn zeta.
    - split; auto. split; auto. split; [apply (nle_refl OL); auto|intros ? []].
    - assert (Hx : ok x) by (apply Hl; simpl; auto).
      assert (Hw : ok (wmin K m x)) by (unfold wmin; destruct (nlt K x m); auto).
      destruct (IH (wmin K m x) Hw ltac:(intros; apply Hl; simpl; auto)) as (H1 & H2 & H3 & H4). cbn zeta in *.
      set (r := fold_left (wmin K) l (wmin K m x)) in *.
      assert (G : le (wmin K m x) m /\ le (wmin K m x) x /\ (wmin K m x = m \/ wmin K m x = x)).
      { unfold wmin. destruct (nlt K x m) eqn:E.
        - split; [apply (nlt_le OL); auto|]. split; [apply (nle_refl OL); auto|auto].
        - split; [apply (nle_refl OL); auto|]. split; [apply (nlt_false_le OL); auto|auto]. }
      destruct G as (G1 & G2 & G3). split; auto. split.
      + destruct H2 as [->|H2]; [|simpl; auto]. destruct G3 as [-> | ->]; simpl; auto.
      + split; [apply (nle_trans OL) with (y := wmin K m x); auto|].
        intros y [<-|Hy]; auto. apply (nle_trans OL) with (y := wmin K m x); auto.
  Qed.

  Lemma span_max ext : (1 <= dim)%nat -> (forall i, (i < dim)%nat -> ok (ext i)) ->
    (exists i, (i < dim)%nat /\ maxSpan K dim ext = ext i) /\
    forall i, (i < dim)%nat -> le (ext i) (maxSpan K dim ext).
  Proof.
    intros Hd Hok. unfold maxSpan.
    assert (G : forall l acc, (forall i, In i l -> ok (ext i)) -> ok acc ->
      let r := fold_left (fun acc i => stdmax K (ext i) acc) l acc in
      (r = acc \/ exists i, In i l /\ r = ext i) /\ ok r /\ le acc r /\ forall i, In i l -> le (ext i) r).
    { induction l as [|i l IH]; intros acc Hl Ha; cbn [fold_left]; cbn zeta.
      - split; auto. split; auto. split; [apply (nle_refl OL); auto|intros ? []].
      - assert (Hi : ok (ext i)) by (apply Hl; simpl; auto).
        assert (Q : ok (stdmax K (ext i) acc) /\ le acc (stdmax K (ext i) acc) /\ le (ext i) (stdmax K (ext i) acc) /\
                    (stdmax K (ext i) acc = acc \/ stdmax K (ext i) acc = ext i)).
        { unfold stdmax. destruct (nlt K (ext i) acc) eqn:E.
          - split; auto. split; [apply (nle_refl OL); auto|]. split; [apply (nlt_le OL); auto|auto].
          - split; auto. split; [apply (nlt_false_le OL); auto|]. split; [apply (nle_refl OL); auto|auto]. }
        destruct Q as (Q1 & Q2 & Q3 & Q4).
        destruct (IH _ ltac:(intros; apply Hl; simpl; auto) Q1) as (H1 & H2 & H3 & H4). cbn zeta in *.
        split; [|split; auto; split].
        + destruct H1 as [->|(j & Hj & ->)]; [|right; exists j; simpl; auto].
          destruct Q4 as [-> | ->]; [auto|right; exists i; simpl; auto].
        + apply (nle_trans OL) with (y := stdmax K (ext i) acc); auto.
        + intros j [<-|Hj]; auto. apply (nle_trans OL) with (y := stdmax K (ext i) acc); auto. }
    destruct (G (seq 1 (dim - 1)) (ext 0%nat)) as (H1 & _ & H3 & H4).
    { intros i Hi. apply in_seq in Hi. apply Hok. lia. }
    { apply Hok. lia. }
    cbn zeta in *. split.
    - destruct H1 as [H1|(i & Hi & H1)]; [exists 0%nat; split; [lia|auto]|].
      apply in_seq in Hi. exists i. split; [lia|auto].
    - intros [|i] Hi; auto. apply H4. apply in_seq. lia.
  Qed.

  (** Cells within range give a key for every point. *)
  Lemma zorder_total pMin bs x : (dim <= 3)%nat ->
    (forall i, (i < dim)%nat -> exists c, toCell (ndiv K (nsub K (coord (pt x) i) (pMin i)) bs) = Some c /\ (c <= 65535)%N) ->
    exists k, zord pMin bs x = Ok k.
  Proof.
    intros Hd H. unfold zorder.
    assert (G : forall l, (forall i, In i l -> (i < dim)%nat) -> exists cells,
      mapO (fun i => toCell (ndiv K (nsub K (coord (pt x) i) (pMin i)) bs)) l = Some cells /\
      length cells = length l /\ Forall (fun c => (c <= 65535)%N) cells).
    { induction l as [|i l IH]; intros Hl; cbn [mapO]; [exists []; auto|].
      destruct (H i (Hl i ltac:(simpl; auto))) as (c & -> & Hc).
      destruct IH as (cells & -> & H1 & H2); [intros; apply Hl; simpl; auto|]. exists (c :: cells). simpl; auto. }
    destruct (G (seq 0 dim)) as (cells & -> & HL & HF); [intros i Hi; apply in_seq in Hi; lia|].
    rewrite seq_length in HL. destruct (zkey_bits) with (cells := cells) as (k & E & _); auto; [lia|]. eauto.
  Qed.
End Generic.

(** *** exact arithmetic *)
Local Open Scope R_scope.
Definition toCellR (x : R) : option N :=
  if Rle_dec 0 x then if Rlt_dec x (IZR (2 ^ 64)) then Some (Z.to_N (Zfloor x)) else None else None.

Section OverR.
  Variable dim : nat.
  Variable A : Type.
  Variable pt : A -> list R.
  Variable srt : list (N * A) -> list (N * A).

  Lemma zsort_total_R omax omin P : (1 <= dim <= 3)%nat ->
    (forall i l, Permutation (omax i l) l) -> (forall i l, Permutation (omin i l) l) ->
    (exists x y i, In x P /\ In y P /\ (i < dim)%nat /\ coord (N := RNum) (pt x) i <> coord (N := RNum) (pt y) i) ->
    exists out, @zorderSort RNum dim A pt toCellR (101/100) 65535 srt omax omin P = Ok out.
  Proof.
    intros Hd Hmax Hmin (x & y & i & Hx & Hy & Hi & Hne).
    unfold zorderSort. destruct P as [|p0 P']; [destruct Hx|]. set (P := p0 :: P') in *. cbn zeta.
    set (pMin := fun i => minOf RNum pt p0 (omin i P) i).
    set (pMax := fun i => maxOf RNum pt p0 (omax i P) i).
    set (ext := fun i => nsub RNum (pMax i) (pMin i)).
    assert (Lo : forall i z, In z P -> (pMin i <= coord (N := RNum) (pt z) i)%R).
    { intros j z Hz. destruct (@fold_wmin RNum _ R_ordlaws (map (fun x => @coord RNum (pt x) j) (omin j P)) (@coord RNum (pt p0) j) I) as (_ & _ & _ & H); auto.
      apply Rleb_true. apply H. apply in_map_iff. exists z. split; auto. eapply Permutation_in; [symmetry; apply Hmin|auto]. }
    assert (Hi' : forall i z, In z P -> (coord (N := RNum) (pt z) i <= pMax i)%R).
    { intros j z Hz. destruct (@fold_wmax RNum _ R_ordlaws (map (fun x => @coord RNum (pt x) j) (omax j P)) (@coord RNum (pt p0) j) I) as (_ & _ & _ & H); auto.
      apply Rleb_true. apply H. apply in_map_iff. exists z. split; auto. eapply Permutation_in; [symmetry; apply Hmax|auto]. }
    destruct (@span_max RNum dim _ R_ordlaws ext ltac:(lia) (fun _ _ => I)) as (_ & Sp).
    set (S := maxSpan RNum dim ext) in *.
    assert (HS : forall i, (i < dim)%nat -> pMax i - pMin i <= S).
    { intros j Hj. specialize (Sp j Hj). apply Rleb_true in Sp. exact Sp. }
    assert (HSpos : 0 < S).
    { specialize (HS i Hi). pose proof (Lo i x Hx). pose proof (Lo i y Hy). pose proof (Hi' i x Hx). pose proof (Hi' i y Hy).
      cbn [nT RNum] in *. lra. }
    set (bs := boxSize RNum (101/100) 65535 S).
    assert (Eb : bs = 101/100 * S / 65535) by reflexivity.
    destruct (@mapZ_total A N (@zorder RNum dim A pt toCellR pMin bs) P) as (keys & Ek).
    { intros z Hz. apply zorder_total; [lia|]. intros j Hj.
      specialize (HS j Hj). pose proof (Lo j z Hz) as L1. pose proof (Hi' j z Hz) as L2.
      cbn [ndiv nsub RNum nT] in *.
      set (d := @coord RNum (pt z) j - pMin j) in *. assert (Hd0 : 0 <= d <= S) by (unfold d; lra).
      assert (Bpos : 0 < bs) by (rewrite Eb; lra).
      assert (Q1 : 0 <= d / bs) by (apply Rmult_le_pos; [lra|apply Rlt_le, Rinv_0_lt_compat; auto]).
      assert (Q2 : d / bs < 65536).
      { apply Rmult_lt_reg_r with bs; auto. unfold Rdiv. rewrite Rmult_assoc, Rinv_l, Rmult_1_r by lra. rewrite Eb. lra. }
      unfold toCellR. destruct (Rle_dec 0 (d / bs)) as [_|]; [|contradiction].
      destruct (Rlt_dec (d / bs) (IZR (2 ^ 64))) as [_|C]; [|exfalso; apply C; apply Rlt_trans with 65536; auto; apply IZR_lt; reflexivity].
      eexists. split; [reflexivity|].
      assert (F1 : (0 <= Zfloor (d / bs))%Z) by (apply Zfloor_lub; auto).
      assert (F2 : (Zfloor (d / bs) < 65536)%Z).
      { apply lt_IZR. apply Rle_lt_trans with (d / bs); [apply Zfloor_lb|auto]. }
      lia. }
    fold pMin. cbn [nT RNum] in *. 
    match goal with |- exists out, bind ?m _ = _ => replace m with (Ok keys) by (symmetry; exact Ek) end.
    cbn [bind]. eauto.
  Qed.
End OverR.

(** *** doubles *)
Local Existing Instance Hprec.
Local Existing Instance Hmax.

Definition toCellF (x : PrimFloat.float) : option N :=
  match Prim2SF x with
  | S754_zero _ => Some 0%N
  | S754_finite false m e =>
      let v := if (0 <=? e)%Z then (Z.pos m * 2 ^ e)%Z else (Z.pos m / 2 ^ (- e))%Z in
      if (v <? 2 ^ 64)%Z then Some (Z.to_N v) else None
  | _ => None
  end.

Lemma toCellF_bound x : ffin x -> 0 <= ev x -> ev x < 65536 ->
  exists c, toCellF x = Some c /\ (c <= 65535)%N.
Proof.
  intros F H0 H1. pose proof (fin_B F) as FB. unfold toCellF, ev in *. rewrite <- B2SF_Prim2B.
  destruct (Prim2B x) as [s|s| |s m e Hb]; simpl in FB; try discriminate; cbn [B2SF].
  - exists 0%N. split; auto. lia.
  - cbn [bv] in *. destruct s.
    + exfalso. cbn [B2R cond_Zopp] in H0. assert (F2R (Float radix2 (Z.neg m) e) < 0) by (apply F2R_lt_0; simpl; lia).
      change (- Z.pos m)%Z with (Z.neg m) in H0. lra.
    + cbn [B2R cond_Zopp] in *.
      set (v := if (0 <=? e)%Z then (Z.pos m * 2 ^ e)%Z else (Z.pos m / 2 ^ (- e))%Z).
      assert (V : (0 <= v)%Z /\ IZR v <= F2R (Float radix2 (Z.pos m) e)).
      { unfold v. destruct (Z.leb_spec 0 e) as [He|He].
        - split; [assert (0 <= 2 ^ e)%Z by (apply Z.pow_nonneg; lia); nia|].
          unfold F2R. cbn [Fnum Fexp]. rewrite mult_IZR. right. f_equal. rewrite <- IZR_Zpower; auto.
        - assert (Pp : (0 < 2 ^ (- e))%Z) by (apply Z.pow_pos_nonneg; lia).
          split; [apply Z.div_pos; lia|].
          unfold F2R. cbn [Fnum Fexp].
          assert (E : bpow radix2 e = / IZR (2 ^ (- e))).
          { replace e with (- (- e))%Z at 1 by lia. rewrite bpow_opp. f_equal.
            change 2%Z with (radix_val radix2). symmetry. apply IZR_Zpower. lia. }
          rewrite E. apply IZR_lt in Pp. apply Rmult_le_reg_r with (IZR (2 ^ (- e))); [lra|].
          rewrite Rmult_assoc, Rinv_l, Rmult_1_r by lra. rewrite <- mult_IZR. apply IZR_le.
          rewrite Z.mul_comm. apply Z.mul_div_le. apply lt_IZR; auto. }
      destruct V as [V1 V2].
      assert (V3 : (v < 65536)%Z) by (apply lt_IZR; lra).
      destruct (Z.ltb_spec v (2 ^ 64)) as [_|C]; [|exfalso; assert (65536 < 2 ^ 64)%Z by reflexivity; lia].
      exists (Z.to_N v). split; auto. lia.
Qed.

Lemma ev_mul x y : ffin x -> ffin y -> Rabs (rne (ev x * ev y)) < big ->
  ffin (x * y)%float /\ ev (x * y)%float = rne (ev x * ev y).
Proof.
  intros Hx Hy Ho. pose proof (fin_B Hx) as Fx. pose proof (fin_B Hy) as Fy.
  unfold ffin, ev in *. rewrite is_finite_equiv, mul_equiv.
  pose proof (Bmult_correct _ _ Hprec Hmax mode_NE (Prim2B x) (Prim2B y)) as C.
  rewrite (proj1 (bv_fin _ Fx)), (proj1 (bv_fin _ Fy)) in *. rewrite Rlt_bool_true in C by exact Ho.
  destruct C as (C1 & C2 & _). rewrite Fx, Fy in C2. simpl in C2. split; auto.
  rewrite (proj1 (bv_fin _ C2)). exact C1.
Qed.
Lemma ev_div x y : ffin x -> ffin y -> ev y <> 0 -> Rabs (rne (ev x / ev y)) < big ->
  ffin (x / y)%float /\ ev (x / y)%float = rne (ev x / ev y).
Proof.
  intros Hx Hy Hn Ho. pose proof (fin_B Hx) as Fx. pose proof (fin_B Hy) as Fy.
  unfold ffin, ev in *. rewrite is_finite_equiv, div_equiv.
  rewrite (proj1 (bv_fin _ Fx)), (proj1 (bv_fin _ Fy)) in *.
  pose proof (Bdiv_correct _ _ Hprec Hmax mode_NE (Prim2B x) (Prim2B y) Hn) as C.
  rewrite Rlt_bool_true in C by exact Ho.
  destruct C as (C1 & C2 & _). rewrite Fx in C2. split; auto.
  rewrite (proj1 (bv_fin _ C2)). exact C1.
Qed.

Definition f101 : PrimFloat.float := 0x1.028f5c28f5c29p+0%float.
Definition f65535 : PrimFloat.float := 65535%float.
(** 2^-1006 and 2^1023 *)
Definition spanLo : PrimFloat.float := 0x1p-1006%float.
Definition spanHi : PrimFloat.float := 0x1p+1023%float.

Lemma ev_lit x m e : Prim2SF x = S754_finite false m e -> ffin x /\ ev x = IZR (Z.pos m) * bpow radix2 e.
Proof.
  intros H. unfold ffin, ev. rewrite is_finite_equiv. rewrite <- B2SF_Prim2B in H.
  destruct (Prim2B x) as [s|s| |s m' e' Hb]; cbn [B2SF] in H; try discriminate. inversion H; subst.
  split; auto.
Qed.

Lemma ev_f101 : ffin f101 /\ 1 <= ev f101 <= 3 / 2.
Proof.
  destruct (@ev_lit f101 4548635623644201 (-52) ltac:(vm_compute; reflexivity)) as [F E]. split; auto. rewrite E.
  change (bpow radix2 (-52)) with (/ IZR 4503599627370496). lra.
Qed.
Lemma ev_f65535 : ffin f65535 /\ ev f65535 = 65535.
Proof.
  destruct (@ev_lit f65535 9007061815787520 (-37) ltac:(vm_compute; reflexivity)) as [F E]. split; auto. rewrite E.
  change (bpow radix2 (-37)) with (/ IZR 137438953472). lra.
Qed.
Lemma ev_spanLo : ffin spanLo /\ ev spanLo = bpow radix2 (-1006).
Proof.
  destruct (@ev_lit spanLo 4503599627370496 (-1058) ltac:(vm_compute; reflexivity)) as [F E]. split; auto. rewrite E.
  change 4503599627370496%Z with (2 ^ 52)%Z. change (2 ^ 52)%Z with (radix2 ^ 52)%Z. rewrite IZR_Zpower by lia. rewrite <- bpow_plus. reflexivity.
Qed.
Lemma ev_spanHi : ffin spanHi /\ ev spanHi = bpow radix2 1023.
Proof.
  destruct (@ev_lit spanHi 4503599627370496 971 ltac:(vm_compute; reflexivity)) as [F E]. split; auto. rewrite E.
  change 4503599627370496%Z with (2 ^ 52)%Z. change (2 ^ 52)%Z with (radix2 ^ 52)%Z. rewrite IZR_Zpower by lia. rewrite <- bpow_plus. reflexivity.
Qed.

Lemma Fm_mult m e : (0 < m < 2 ^ 53)%Z -> (-1074 <= e)%Z -> Fm (IZR m * bpow radix2 e).
Proof.
  intros Hm He. apply generic_format_FLT. exists (Float radix2 m e); auto.
  simpl. rewrite Z.abs_eq by lia. exact (proj2 Hm).
Qed.

Lemma box_big S : ffin S -> bpow radix2 (-1006) <= ev S <= bpow radix2 1023 ->
  let bs := ((f101 * S) / f65535)%float in ffin bs /\ ev S / (65535 + / 4) <= ev bs.
Proof.
  intros FS HS bs. destruct ev_f101 as [F1 E1]. destruct ev_f65535 as [F2 E2].
  assert (Sp : 0 < ev S) by (pose proof (bpow_gt_0 radix2 (-1006)); lra).
  assert (B23 : 2 * bpow radix2 1023 = big).
  { unfold big. change 2 with (bpow radix2 1). rewrite <- bpow_plus. reflexivity. }
  assert (Bp : 0 < bpow radix2 1023) by apply bpow_gt_0.
  assert (M1 : ev S <= rne (ev f101 * ev S)).
  { rewrite <- (rne_id (ev_F FS)) at 1. apply rne_le. nra. }
  assert (M2 : rne (ev f101 * ev S) <= 3 * bpow radix2 1022).
  { rewrite <- (rne_id (@Fm_mult 3 1022 ltac:(lia) ltac:(lia))). apply rne_le.
    change 1023%Z with (1 + 1022)%Z in HS. rewrite bpow_plus in HS. change (bpow radix2 1) with 2 in HS.
    pose proof (bpow_gt_0 radix2 1022). nra. }
  assert (M2' : 3 * bpow radix2 1022 < big).
  { rewrite <- B23. change 1023%Z with (1 + 1022)%Z. rewrite bpow_plus. change (bpow radix2 1) with 2.
    pose proof (bpow_gt_0 radix2 1022). lra. }
  destruct (@ev_mul f101 S F1 FS) as [Fa Ea]; [apply Rabs_lt; lra|].
  assert (D1 : rne (ev (f101 * S)%float / ev f65535) < big).
  { apply Rle_lt_trans with (ev (f101 * S)%float).
    - rewrite <- (rne_id (ev_F Fa)) at 2. apply rne_le. rewrite E2. rewrite Ea. lra.
    - rewrite Ea. lra. }
  assert (D0 : 0 <= ev (f101 * S)%float / ev f65535) by (rewrite E2, Ea; lra).
  assert (D2 : 0 <= rne (ev (f101 * S)%float / ev f65535)) by (rewrite <- rne_0; apply rne_le; auto).
  destruct (@ev_div (f101 * S)%float f65535 Fa F2) as [Fb Eb]; [rewrite E2; lra|apply Rabs_lt; lra|].
  split; auto. unfold bs. rewrite Eb. rewrite E2, Ea.
  apply Rle_trans with (rne (ev S / 65535)); [|apply rne_le; lra].
  destruct (relative_error_N_FLT_ex radix2 (-1074) 53 ltac:(lia) (fun x => negb (Z.even x)) (ev S / 65535)) as (eps & He & Er).
  { rewrite Rabs_pos_eq by lra. apply Rle_trans with (bpow radix2 (-1022)); [apply bpow_le; lia|].
    change (-1022)%Z with (-16 + -1006)%Z. rewrite bpow_plus.
    change (bpow radix2 (-16)) with (/ 65536). lra. }
  change (rne (ev S / 65535)) with (round radix2 (FLT_exp (-1074) 53) ZnearestE (ev S / 65535)).
  rewrite Er. change (bpow radix2 (- (53) + 1)) with (/ 4503599627370496) in He.
  apply Rabs_le_inv in He.
  assert (/ (65535 + / 4) <= / 65535 * (1 - / 2 * / 4503599627370496)) by lra.
  assert (Q : / (65535 + / 4) <= / 65535 * (1 + eps)) by lra.
  unfold Rdiv. rewrite Rmult_assoc. apply Rmult_le_compat_l; [lra|exact Q].
Qed.

Section OverF.
  Variable dim : nat.
  Variable A : Type.
  Variable pt : A -> list PrimFloat.float.
  Variable srt : list (N * A) -> list (N * A).
  Notation cf := (@coord FNum).

  Lemma zsort_total_F omax omin P : (1 <= dim <= 3)%nat ->
    (forall i l, Permutation (omax i l) l) -> (forall i l, Permutation (omin i l) l) ->
    (forall x i, In x P -> (i < dim)%nat -> ffin (cf (pt x) i)) ->
    (forall x y i, In x P -> In y P -> (i < dim)%nat -> PrimFloat.leb (cf (pt x) i - cf (pt y) i)%float spanHi = true) ->
    (exists x y i, In x P /\ In y P /\ (i < dim)%nat /\ PrimFloat.leb spanLo (cf (pt x) i - cf (pt y) i)%float = true) ->
    exists out, @zorderSort FNum dim A pt toCellF f101 f65535 srt omax omin P = Ok out.
  Proof.
    intros Hd Hmax Hmin Hfin Hup (x & y & i & Hx & Hy & Hi & Hlo).
    destruct ev_spanLo as [FL EL]. destruct ev_spanHi as [FH EH].
    unfold zorderSort. destruct P as [|p0 P']; [destruct Hx|]. set (P := p0 :: P') in *. cbn zeta.
    set (pMin := fun i => minOf FNum pt p0 (omin i P) i).
    set (pMax := fun i => maxOf FNum pt p0 (omax i P) i).
    set (ext := fun i => nsub FNum (pMax i) (pMin i)).
    assert (Hp0 : In p0 P) by (simpl; auto).
    assert (Lo : forall i, (i < dim)%nat -> (exists z, In z P /\ pMin i = cf (pt z) i) /\ forall z, In z P -> ev (pMin i) <= ev (cf (pt z) i)).
    { intros j Hj. destruct (@fold_wmin FNum _ F_ordlaws (map (fun x => cf (pt x) j) (omin j P)) (cf (pt p0) j)) as (O & H1 & _ & H2).
      - apply ffin_fok; auto.
      - intros t Ht. apply in_map_iff in Ht as (z & <- & Hz). apply ffin_fok, Hfin; auto. exact (Permutation_in _ (Hmin j P) Hz).
      - split.
        + destruct H1 as [H1|H1]; [exists p0; split; auto|]. apply in_map_iff in H1 as (z & E & Hz).
          exists z. split; [exact (Permutation_in _ (Hmin j P) Hz)|]. symmetry. exact E.
        + intros z Hz. apply fle_ev; [exact O|apply ffin_fok; auto|]. apply H2. apply in_map_iff. exists z. split; auto.
          eapply Permutation_in; [symmetry; apply Hmin|auto]. }
    assert (Up : forall i, (i < dim)%nat -> (exists z, In z P /\ pMax i = cf (pt z) i) /\ forall z, In z P -> ev (cf (pt z) i) <= ev (pMax i)).
    { intros j Hj. destruct (@fold_wmax FNum _ F_ordlaws (map (fun x => cf (pt x) j) (omax j P)) (cf (pt p0) j)) as (O & H1 & _ & H2).
      - apply ffin_fok; auto.
      - intros t Ht. apply in_map_iff in Ht as (z & <- & Hz). apply ffin_fok, Hfin; auto. exact (Permutation_in _ (Hmax j P) Hz).
      - split.
        + destruct H1 as [H1|H1]; [exists p0; split; auto|]. apply in_map_iff in H1 as (z & E & Hz).
          exists z. split; [exact (Permutation_in _ (Hmax j P) Hz)|]. symmetry. exact E.
        + intros z Hz. apply fle_ev; [apply ffin_fok; auto|exact O|]. apply H2. apply in_map_iff. exists z. split; auto.
          eapply Permutation_in; [symmetry; apply Hmax|auto]. }
    assert (FMin : forall j, (j < dim)%nat -> ffin (pMin j)).
    { intros j Hj. destruct (Lo j Hj) as [(z & Hz & E) _]. rewrite E. auto. }
    assert (FMax : forall j, (j < dim)%nat -> ffin (pMax j)).
    { intros j Hj. destruct (Up j Hj) as [(z & Hz & E) _]. rewrite E. auto. }
    assert (Eok : forall j, (j < dim)%nat -> fok (ext j) /\ ev (ext j) = rnd (ev (pMax j) - ev (pMin j))).
    { intros j Hj. apply ev_sub; auto. }
    destruct (@span_max FNum dim _ F_ordlaws ext ltac:(lia) ltac:(apply Eok)) as ((k & Hk & ES) & Sp).
    set (S := maxSpan FNum dim ext) in *.
    assert (OS : fok S) by (rewrite ES; apply Eok; auto).
    assert (HS : forall j, (j < dim)%nat -> rnd (ev (pMax j) - ev (pMin j)) <= ev S).
    { intros j Hj. destruct (Eok j Hj) as [O <-]. apply fle_ev; [auto|auto|apply Sp; auto]. }
    assert (SB : bpow radix2 (-1006) <= ev S <= bpow radix2 1023).
    { split.
      - rewrite <- EL. destruct (@ev_sub (cf (pt x) i) (cf (pt y) i)) as [O1 O2]; auto.
        apply fle_ev in Hlo; [|apply ffin_fok; auto|auto]. apply Rle_trans with (1 := Hlo). rewrite O2.
        apply Rle_trans with (2 := HS i Hi). apply rnd_mono.
        pose proof (proj2 (Up i Hi) x Hx). pose proof (proj2 (Lo i Hi) y Hy). lra.
      - rewrite <- EH. rewrite ES. destruct (Up k Hk) as [(u & Hu & E1) _]. destruct (Lo k Hk) as [(v & Hv & E2) _].
        apply fle_ev; [apply Eok; auto|apply ffin_fok; auto|]. unfold ext. rewrite E1, E2. apply Hup; auto. }
    assert (BB : bpow radix2 1023 < big) by (apply bpow_lt; reflexivity).
    assert (FS : ffin S).
    { destruct (nn_cases (x := S)) as [C|C]; auto.
      - split; auto. pose proof (bpow_gt_0 radix2 (-1006)). lra.
      - exfalso. unfold ev in SB. rewrite C in SB. simpl bv in SB. fold big in *. lra. }
    destruct (box_big FS SB) as [Fb Eb]. cbn zeta in Fb, Eb.
    set (bs := boxSize FNum f101 f65535 S).
    change (f101 * S / f65535)%float with bs in Fb, Eb.
    assert (Sp0 : 0 < ev S) by (pose proof (bpow_gt_0 radix2 (-1006)); lra).
    assert (Bp0 : 0 < ev bs) by lra.
    destruct (@mapZ_total A N (@zorder FNum dim A pt toCellF pMin bs) P) as (keys & Ek).
    { intros z Hz. apply zorder_total; [lia|]. intros j Hj.
      pose proof (proj2 (Lo j Hj) z Hz) as L1. pose proof (proj2 (Up j Hj) z Hz) as L2.
      destruct (@ev_sub (cf (pt z) j) (pMin j)) as [O1 O2]; auto.
      cbn [ndiv nsub FNum nT] in *. set (d := (cf (pt z) j - pMin j)%float) in *.
      assert (D : 0 <= ev d <= ev S).
      { rewrite O2. split; [apply rnd_nonneg; lra|]. apply Rle_trans with (2 := HS j Hj). apply rnd_mono. lra. }
      assert (Fd : ffin d).
      { destruct (nn_cases (x := d)) as [C|C]; auto; [split; [auto|lra]|].
        exfalso. unfold ev at 2 in D. rewrite C in D. simpl bv in D. fold big in *. lra. }
      assert (Q0 : 0 <= ev d / ev bs) by (apply Rmult_le_pos; [lra|apply Rlt_le, Rinv_0_lt_compat; auto]).
      assert (Q1 : ev d / ev bs <= 65535 + / 2).
      { apply Rmult_le_reg_r with (ev bs); auto. unfold Rdiv. rewrite Rmult_assoc, Rinv_l, Rmult_1_r by lra. lra. }
      assert (R0 : 0 <= rne (ev d / ev bs)) by (rewrite <- rne_0; apply rne_le; auto).
      assert (R1 : rne (ev d / ev bs) <= 65535 + / 2).
      { replace (65535 + / 2) with (IZR 131071 * bpow radix2 (-1)) in * by (change (bpow radix2 (-1)) with (/ 2); lra).
        rewrite <- (rne_id (@Fm_mult 131071 (-1) ltac:(lia) ltac:(lia))). apply rne_le; auto. }
      assert (BG : 65536 < big).
      { change 65536 with (bpow radix2 16). apply bpow_lt. reflexivity. }
      destruct (@ev_div d bs Fd Fb) as [Fq Eq]; [lra|apply Rabs_lt; lra|].
      apply toCellF_bound; auto; rewrite Eq; lra. }
    fold pMin. cbn [nT FNum] in *.
    match goal with |- exists out, bind ?m _ = _ => replace m with (Ok keys) by (symmetry; exact Ek) end.
    cbn [bind]. eauto.
  Qed.
End OverF.

(** *** the order, stated on cells *)
Definition mortonLess (cs ds : list N) : Prop :=
  exists i c, (c < length cs)%nat /\
     N.testbit (nth c cs 0%N) i = false /\ N.testbit (nth c ds 0%N) i = true /\
     forall i' c', (c' < length cs)%nat -> (i < i')%N \/ (i' = i /\ (c < c')%nat) ->
       N.testbit (nth c' cs 0%N) i' = N.testbit (nth c' ds 0%N) i'.

Lemma Nle_dec (a b : N) : {(a <= b)%N} + {~ (a <= b)%N}.
Proof. destruct (a <=? b)%N eqn:E; [left; apply N.leb_le; auto|right; apply N.leb_gt in E; lia]. Qed.

Section OrderR.
  Variable dim : nat.
  Variable A : Type.
  Variable pt : A -> list R.
  Variable srt : list (N * A) -> list (N * A).
  Hypothesis Hsrt : zsort_ok srt.
  Notation cr := (@coord RNum).

  Definition cellOf (mn : nat -> R) (S : R) (x : A) : list N :=
    map (fun i => Z.to_N (Zfloor ((cr (pt x) i - mn i) / (101 / 100 * S / 65535)))) (seq 0 dim).

  Lemma mapO_toCellR f l cells : mapO (fun i : nat => toCellR (f i)) l = Some cells -> cells = map (fun i => Z.to_N (Zfloor (f i))) l.
  Proof.
    revert cells. induction l as [|i l IH]; intros cells; cbn [mapO map]; [congruence|].
    unfold toCellR at 1. destruct (Rle_dec 0 (f i)); [|discriminate]. destruct (Rlt_dec (f i) _); [|discriminate].
    destruct (mapO _ l) as [r'|] eqn:E; [|discriminate]. intros H. inversion H. f_equal. apply IH; auto.
  Qed.

  Lemma zsort_order_R omax omin P out : (1 <= dim <= 3)%nat ->
    (forall i l, Permutation (omax i l) l) -> (forall i l, Permutation (omin i l) l) ->
    @zorderSort RNum dim A pt toCellR (101/100) 65535 srt omax omin P = Ok out ->
    Permutation out P /\ exists mn S,
    (forall i, (i < dim)%nat -> (exists z, In z P /\ mn i = cr (pt z) i) /\ forall z, In z P -> mn i <= cr (pt z) i) /\
    (exists i x y, (i < dim)%nat /\ In x P /\ In y P /\ S = cr (pt x) i - cr (pt y) i) /\
    (forall i x y, (i < dim)%nat -> In x P -> In y P -> cr (pt x) i - cr (pt y) i <= S) /\
    StronglySorted (fun x y => ~ mortonLess (cellOf mn S y) (cellOf mn S x)) out.
  Proof.
    intros Hd Hmax Hmin E. destruct (@zsort_result RNum dim A pt toCellR _ _ srt Hsrt omax omin P out E) as (HP & p0 & P' & EP & HS).
    split; auto. cbn zeta in HS.
    set (pMin := fun i => minOf RNum pt p0 (omin i P) i) in *.
    set (pMax := fun i => maxOf RNum pt p0 (omax i P) i).
    set (ext := fun i => nsub RNum (pMax i) (pMin i)).
    assert (Hp0 : In p0 P) by (rewrite EP; simpl; auto).
    assert (Lo : forall i, (exists z, In z P /\ pMin i = cr (pt z) i) /\ forall z, In z P -> pMin i <= cr (pt z) i).
    { intros j. destruct (@fold_wmin RNum _ R_ordlaws (map (fun x => cr (pt x) j) (omin j P)) (cr (pt p0) j) I (fun _ _ => I)) as (_ & H1 & _ & H2).
      split.
      - destruct H1 as [H1|H1]; [exists p0; split; auto|]. apply in_map_iff in H1 as (z & E' & Hz).
        exists z. split; [exact (Permutation_in _ (Hmin j P) Hz)|]. symmetry. exact E'.
      - intros z Hz. apply Rleb_true. apply H2. apply in_map_iff. exists z. split; auto.
        eapply Permutation_in; [symmetry; apply Hmin|auto]. }
    assert (Up : forall i, (exists z, In z P /\ pMax i = cr (pt z) i) /\ forall z, In z P -> cr (pt z) i <= pMax i).
    { intros j. destruct (@fold_wmax RNum _ R_ordlaws (map (fun x => cr (pt x) j) (omax j P)) (cr (pt p0) j) I (fun _ _ => I)) as (_ & H1 & _ & H2).
      split.
      - destruct H1 as [H1|H1]; [exists p0; split; auto|]. apply in_map_iff in H1 as (z & E' & Hz).
        exists z. split; [exact (Permutation_in _ (Hmax j P) Hz)|]. symmetry. exact E'.
      - intros z Hz. apply Rleb_true. apply H2. apply in_map_iff. exists z. split; auto.
        eapply Permutation_in; [symmetry; apply Hmax|auto]. }
    destruct (@span_max RNum dim _ R_ordlaws ext ltac:(lia) (fun _ _ => I)) as ((k & Hk & ES) & Sp).
    set (S := maxSpan RNum dim ext) in *.
    exists pMin, S. split; [intros; apply Lo|]. split; [|split].
    - destruct (proj1 (Up k)) as (u & Hu & E1). destruct (proj1 (Lo k)) as (v & Hv & E2).
      exists k, u, v. split; auto. split; auto. split; auto. rewrite <- E1, <- E2. exact ES.
    - intros i x y Hi Hx Hy. specialize (Sp i Hi). apply Rleb_true in Sp. apply Rle_trans with (2 := Sp).
      unfold ext. pose proof (proj2 (Lo i) y Hy). pose proof (proj2 (Up i) x Hx). cbn [nsub RNum nT] in *. lra.
    - change (boxSize RNum (101/100) 65535 (maxSpan RNum dim (fun i => nsub RNum (maxOf RNum pt p0 (omax i P) i) (pMin i))))
        with (boxSize RNum (101/100) 65535 S) in HS.
      assert (Z : forall x a, @zorder RNum dim A pt toCellR pMin (boxSize RNum (101/100) 65535 S) x = Ok a ->
                  zkey (cellOf pMin S x) = Ok a /\ Forall (fun c => (c <= 65535)%N) (cellOf pMin S x)).
      { intros x a. unfold zorder.
        destruct (mapO _ (seq 0 dim)) as [cells|] eqn:EM; [|discriminate].
        apply (mapO_toCellR (fun i => ndiv RNum (nsub RNum (cr (pt x) i) (pMin i)) (boxSize RNum (101/100) 65535 S))) in EM.
        assert (EC : cells = cellOf pMin S x) by exact EM. rewrite EC. intros EK. split; auto.
        destruct (Forall_Exists_dec (fun c => (c <= 65535)%N) (fun c => Nle_dec c 65535) (cellOf pMin S x)) as [F|F]; auto.
        rewrite zkey_throws in EK; [discriminate|]. apply Exists_exists in F as (c & H1 & H2). apply Exists_exists. exists c. split; auto. lia. }
      rewrite <- (map_id out). apply SSorted_map with (2 := HS). intros x y _ _ (a & b & Ea & Eb & Hle) Hm. cbn beta in Hm.
      destruct (Z x a Ea) as [Kx Fx]. destruct (Z y b Eb) as [Ky Fy].
      apply (zkey_lt (cs := cellOf pMin S y) (ds := cellOf pMin S x) (a := b) (b := a)) in Hm; auto; [lia| |].
      + unfold cellOf. rewrite !map_length. reflexivity.
      + unfold cellOf. rewrite map_length, seq_length. lia.
  Qed.
End OrderR.

(** A concrete stable sort for the examples. *)
Section NSort.
  Variable A : Type.
  Fixpoint nins (x : N * A) (l : list (N * A)) : list (N * A) :=
    match l with
    | [] => [x]
    | y :: l' => if (fst x <=? fst y)%N then x :: l else y :: nins x l'
    end.
  Definition nsort (l : list (N * A)) : list (N * A) := fold_right nins [] l.
  Lemma nins_perm x l : Permutation (nins x l) (x :: l).
  Proof. induction l as [|y l IH]; simpl; auto. destruct (_ <=? _)%N; auto. rewrite IH. apply perm_swap. Qed.
  Lemma nins_sorted x l : StronglySorted (fun a b => (fst a <= fst b)%N) l -> StronglySorted (fun a b => (fst a <= fst b)%N) (nins x l).
  Proof.
    induction 1 as [|y l HS IH HF]; simpl; [repeat constructor|].
    destruct (N.leb_spec (fst x) (fst y)).
    - constructor; [constructor; auto|]. constructor; auto. eapply Forall_impl; [|exact HF]. simpl. intros. lia.
    - constructor; auto. rewrite Forall_forall in *. intros z Hz.
      apply (Permutation_in _ (nins_perm x l)) in Hz as [<-|Hz]; [lia|auto].
  Qed.
  Lemma nsort_ok : zsort_ok nsort.
  Proof.
    intros l. induction l as [|x l [IH1 IH2]]; simpl; [split; constructor|]. split.
    - rewrite nins_perm. auto.
    - apply nins_sorted; auto.
  Qed.
End NSort.
