(** The scanning and the sampling algorithm in exact arithmetic; the scan on
    binary64 numbers. *)
From Coq Require Import Reals Lra.
From Verif Require Import Base Num KdModel RGeom SebModel SebPrefix SebGeom SebCirc SebWelzl SebScan.
Set Implicit Arguments.
Unset Strict Implicit.
Local Open Scope R_scope.

Section Exact.
  Variable dim : nat.
  Hypothesis Hdim : (2 <= dim)%nat.
  Notation pt := (list (nT RNum)).
  Notation ballNew := (ballNew RNum dim 1).
  Notation md := (md dim). Notation D2 := (D2 dim).
  Notation ctr B := (cv (center dim B)).
  Notation cvs := (map cv).
  Variable solve : list pt -> res (ball RNum).
  Hypothesis Hsolve : forall S, (2 <= length S <= 4 * dim + 1 + 2 ^ dim)%nat -> Forall (fun p => length p = dim) S ->
    exists B, solve S = Ok B /\ okBall dim S [] B.
  Variable workers : nat.
  Variable A : list pt.
  Hypothesis HA : Forall (fun p => length p = dim) A.

  Definition okB (B : ball RNum) : Prop :=
    0 <= bR B /\ md (cvs (bP B)) [] (ctr B) (bR B * bR B) /\ incl (bP B) A /\ ballNew (bP B) = Ok B.

  Lemma ballNew_len PP B : ballNew PP = Ok B -> (2 <= length PP <= dim + 1)%nat.
  Proof.
    unfold SebModel.ballNew. destruct (Nat.ltb_spec (dim + 1) (length PP)); [discriminate|].
    destruct (Nat.leb_spec (length PP) 1); [discriminate|]. lia.
  Qed.
  Lemma okBall_okB S B : incl S A -> okBall dim S [] B -> okB B.
  Proof.
    intros HS (H1 & _ & H3 & H4 & _ & H6). split; auto. split; auto. split; auto. rewrite app_nil_r in H4. eapply incl_tran; eauto.
  Qed.

  Lemma outs_len (Z : list pt) l : forall new, outs RNum Z l = Ok new -> (length new <= length l)%nat.
  Proof.
    induction l as [|[i|] l IH]; intros new; cbn [outs].
    - intros E; inversion E; cbn; lia.
    - intros E. apply bind_ok in E as (p & _ & E). apply bind_ok in E as (r & E1 & E). inversion E; subst. apply IH in E1. cbn [length]. lia.
    - intros E. apply IH in E. cbn [length]. lia.
  Qed.
  Lemma ortScan_len c r Z n new : (n <= length Z)%nat -> ortScan RNum dim 0 workers c r Z n (freshDist RNum dim) = Ok new -> (length new <= 2 ^ dim)%nat.
  Proof.
    intros Hn. unfold ortScan. destruct (n <? 2000)%nat.
    - destruct (@scanRange_spec RNum dim 0 c r Z 0 n Hn) as (t & -> & (T1 & _) & _). cbn [bind].
      intros E. apply outs_len in E. rewrite map_length in E. unfold SebModel.slot in *. rewrite T1 in E. auto.
    - intros E. apply bind_ok in E as (ts & _ & E). apply outs_len in E. rewrite map_length in E.
      assert (L : forall ts g, length (fold_left (@mergeSlots RNum) ts g) = length g).
      { induction ts0 as [|t ts0 IH]; intros g; cbn [fold_left]; auto. rewrite IH, merge_len. auto. }
      rewrite L, map_length in E. unfold freshDist in E. rewrite repeat_length in E. auto.
  Qed.

  (** *** one round strictly enlarges the ball *)
  Lemma larger B S B' x : okB B -> incl (bP B) S -> In x S -> bR B * bR B < D2 (ctr B) (cv x) ->
    okBall dim S [] B' -> bR B < bR B'.
  Proof.
    intros (H1 & M & _ & HN) HS Hx Hout (H1' & M' & _).
    assert (F : feas dim (cvs (bP B)) [] (ctr B') (bR B' * bR B')).
    { split; [|intros ? []]. intros y Hy. apply in_cvs in Hy as (p & <- & Hp). apply M'. apply in_map; auto. }
    assert (L : bR B * bR B <= bR B' * bR B') by (apply (proj2 (proj2 M) (ctr B')); auto; nra).
    destruct (Rlt_dec (bR B) (bR B')) as [|Hn]; auto. exfalso.
    assert (E : bR B = bR B') by nra.
    assert (M2 : md (cvs (bP B)) [] (ctr B') (bR B * bR B)).
    { split; [rewrite E; auto|]. split; [nra|]. apply M. }
    assert (Hne : cvs (bP B) <> []).
    { intros Z. apply map_eq_nil in Z. apply ballNew_len in HN. rewrite Z in HN. cbn in HN. lia. }
    destruct (md_uniq (or_introl Hne) M M2) as [_ EC].
    assert (Hin : D2 (ctr B') (cv x) <= bR B' * bR B') by (apply M'; apply in_map; auto).
    rewrite (@D2_ext dim (ctr B) (ctr B') (cv x) (cv x)) in Hout by auto. rewrite E in Hout. lra.
  Qed.

  (** *** finitely many support lists *)
  Fixpoint tuples (k : nat) : list (list pt) :=
    match k with O => [[]] | S k' => [] :: flat_map (fun l => map (fun p => p :: l) A) (tuples k') end.
  Lemma tuples_in k : forall l, incl l A -> (length l <= k)%nat -> In l (tuples k).
  Proof.
    induction k as [|k IH]; intros [|p l] HI HL; cbn [tuples length] in *; try lia; [simpl; auto|simpl; auto|].
    right. apply in_flat_map. exists l. split; [apply IH; [intros x Hx; apply HI; simpl; auto|lia]|].
    apply in_map_iff. exists p. split; auto. apply HI. simpl; auto.
  Qed.
  Definition radOf (l : list pt) : R := match ballNew l with Ok B => bR B | _ => 0 end.
  Definition above (r : R) : nat := length (filter (fun l => Rltb r (radOf l)) (tuples (dim + 1))).
  Lemma above_lt r r' l : r < r' -> In l (tuples (dim + 1)) -> radOf l = r' -> (above r' < above r)%nat.
  Proof.
    intros Hr HI HR. unfold above. revert HI. generalize (tuples (dim + 1)). 
    assert (Le : forall L : list (list pt), (length (filter (fun l => Rltb r' (radOf l)) L) <= length (filter (fun l => Rltb r (radOf l)) L))%nat).
    { induction L as [|x L IH]; cbn [filter length]; auto. destruct (Rltb_spec r' (radOf x)), (Rltb_spec r (radOf x)); cbn [length]; try lia. lra. }
    induction l0 as [|x L IH]; intros HI; [destruct HI|]. destruct HI as [->|HI]; cbn [filter].
    - destruct (Rltb_spec r' (radOf l)); [lra|]. destruct (Rltb_spec r (radOf l)); [|lra]. cbn [length]. specialize (Le L). lia.
    - specialize (IH HI). destruct (Rltb_spec r' (radOf x)), (Rltb_spec r (radOf x)); cbn [length]; try lia. lra.
  Qed.

  Lemma out_D2 (B : ball RNum) p : 0 <= bR B -> nlt RNum (nadd RNum (bR B) 0) (dist RNum dim p (center dim B)) = true <->
    bR B * bR B < D2 (ctr B) (cv p).
  Proof.
    intros Hr. cbn [nlt nadd RNum]. rewrite Rltb_true, Rplus_0_r, dist_edist.
    pose proof (edist_le dim p (center dim B) Hr). split; intros H1; apply Rnot_le_lt; intros H2.
    - apply H in H2. lra.
    - apply H in H2. lra.
  Qed.
  Lemma R_radlaw r : 0 <= r -> radLaw RNum 0 r.
  Proof. intros Hr d. cbn [nlt nadd nneg1 RNum]. rewrite !Rltb_true. lra. Qed.

  (** a round *)
  Lemma round B (Z : list pt) n : okB B -> (n <= length Z)%nat -> incl Z A ->
    exists new, ortScan RNum dim 0 workers (center dim B) (bR B) Z n (freshDist RNum dim) = Ok new /\
      (new = [] -> forall i, (i < n)%nat -> D2 (ctr B) (cv (nth i Z [])) <= bR B * bR B) /\
      (new <> [] -> exists B', solve (bP B ++ new) = Ok B' /\ okB B' /\ bR B < bR B').
  Proof.
    intros HB Hn HZ. pose proof HB as (H1 & M & HI & HN).
    destruct (@ortScan_spec RNum dim 0 (center dim B) (bR B) Z workers n Hn) as (new & E & Hin & Hnew).
    exists new. split; auto. split.
    - intros En i Hi. apply Rnot_lt_le. intros F. apply (Hnew (R_radlaw H1) En i Hi). unfold out, far. apply out_D2; auto.
    - intros Hne. pose proof (ortScan_len Hn E) as HLn. pose proof (ballNew_len HN) as HLb.
      assert (Hnin : forall p, In p new -> In p A /\ bR B * bR B < D2 (ctr B) (cv p)).
      { intros p Hp. destruct (Hin p Hp) as (j & Hj & O & ->). split; [apply HZ, nth_In; lia|]. apply out_D2; auto. }
      assert (HS : incl (bP B ++ new) A). { intros p Hp. apply in_app_iff in Hp as [Hp|Hp]; [auto|apply Hnin; auto]. }
      destruct (@Hsolve (bP B ++ new)) as (B' & E' & OK').
      + rewrite app_length. lia.
      + apply Forall_forall. intros p Hp. rewrite Forall_forall in HA. apply HA, HS; auto.
      + exists B'. split; auto. split; [eapply okBall_okB; eauto|].
        destruct new as [|x new]; [congruence|]. apply (@larger B (bP B ++ x :: new) B' x); auto.
        * apply incl_appl, incl_refl.
        * apply in_app_iff; simpl; auto.
        * apply Hnin; simpl; auto.
  Qed.

  Lemma okB_smallest B : okB B -> (forall p, In p A -> D2 (ctr B) (cv p) <= bR B * bR B) -> smallest dim A (center dim B) (bR B).
  Proof.
    intros (H1 & M & HI & _) H. split; auto. split.
    - intros p Hp. apply edist_le; auto.
    - intros c' r' Hr' H'. assert (bR B * bR B <= r' * r').
      { apply (proj2 (proj2 M) (cv c')); [|nra]. split; [|intros ? []]. intros x Hx. apply in_cvs in Hx as (p & <- & Hp).
        apply edist_le; auto. }
      destruct (Rle_dec (bR B) r'); auto. nra.
  Qed.

  Lemma scanLoop_exact fuel : forall B, okB B -> (above (bR B) < fuel)%nat ->
    exists B', @scanLoop RNum dim 0 solve workers fuel A B = Ok B' /\ smallest dim A (center dim B') (bR B').
  Proof.
    induction fuel as [|fuel IH]; intros B HB Hf; [lia|]. cbn [scanLoop].
    destruct (@round B A (length A) HB (le_n _) (incl_refl _)) as (new & -> & R1 & R2). cbn [bind].
    destruct new as [|x new].
    - exists B. split; auto. apply okB_smallest; auto. intros p Hp. apply In_nth with (d := []) in Hp as (i & Hi & <-). apply R1; auto.
    - destruct R2 as (B' & -> & HB' & Hlt); [discriminate|]. cbn [bind]. apply IH; auto.
      pose proof HB' as (_ & _ & HI & HN). assert ((above (bR B') < above (bR B))%nat); [|lia].
      apply above_lt with (l := bP B'); auto.
      + apply tuples_in; auto. apply ballNew_len in HN. lia.
      + unfold radOf. rewrite HN. reflexivity.
  Qed.

  Lemma cut_spec a b : (b <= length A)%nat -> cut RNum A a b = Ok (firstn (b - a) (skipn a A)).
  Proof. intros H. unfold cut. destruct (Nat.leb_spec b (length A)); [auto|lia]. Qed.

  Lemma first_ball : (3 * dim <= length A)%nat -> exists B, (S <- cut RNum A 0 (dim * 3) ;; solve S) = Ok B /\ okB B /\
    (forall i, (i < 3 * dim)%nat -> D2 (ctr B) (cv (nth i A [])) <= bR B * bR B).
  Proof.
    intros HL. rewrite cut_spec by lia. cbn [bind]. set (S := firstn _ _).
    assert (HS : incl S A) by (intros x Hx; unfold S in Hx; cbn [skipn] in Hx; eapply firstn_in; eauto).
    destruct (@Hsolve S) as (B & E & OK).
    - unfold S. cbn [skipn]. rewrite firstn_length. lia.
    - apply Forall_forall. intros p Hp. rewrite Forall_forall in HA. apply HA, HS; auto.
    - exists B. split; auto. split; [eapply okBall_okB; eauto|]. intros i Hi.
      destruct OK as (_ & M & _). apply M. apply in_map. rewrite <- (firstn_skipn (dim * 3 - 0) A). rewrite app_nth1 by (rewrite firstn_length; lia).
      apply nth_In. unfold S. cbn [skipn]. rewrite firstn_length. lia.
  Qed.

  Lemma bind_assoc X Y Z (x : res X) (f : X -> res Y) (g : Y -> res Z) : (z <- x ;; y <- f z ;; g y) = (y <- (z <- x ;; f z) ;; g y).
  Proof. destruct x; reflexivity. Qed.

  Theorem scanCompute_exact : (3 * dim <= length A)%nat -> exists N, forall fuel, (N <= fuel)%nat ->
    exists B, @scanCompute RNum dim 0 solve workers fuel A = Ok B /\ smallest dim A (center dim B) (bR B).
  Proof.
    intros HL. destruct (first_ball HL) as (B & E & HB & _). exists (S (above (bR B))). intros fuel Hf.
    unfold scanCompute. rewrite bind_assoc. rewrite E. cbn [bind]. apply scanLoop_exact; auto.
  Qed.

  (** *** sampling *)
  Lemma sampleLoop_exact step fuel : forall sc B, okB B -> (length A - sc < fuel)%nat ->
    (exists B', @sampleLoop RNum dim 0 solve workers fuel A step sc B = Ok B' /\ okB B') \/
    (@sampleLoop RNum dim 0 solve workers fuel A step sc B = UB /\ exists k, (sc + k * step < length A < sc + k * step + step)%nat).
  Proof.
    induction fuel as [|fuel IH]; intros sc B HB Hf; [lia|]. cbn [sampleLoop].
    destruct (Nat.ltb_spec sc (length A)) as [Hlt|]; [|left; eauto].
    unfold cut. destruct (Nat.leb_spec (sc + step) (length A)) as [Hc|Hc]; cbn [bind].
    2:{ right. split; auto. exists 0%nat. lia. }
    replace (sc + step - sc)%nat with step by lia. set (S := firstn step (skipn sc A)).
    assert (HS : incl S A). { intros x Hx. unfold S in Hx. apply firstn_in in Hx. rewrite <- (firstn_skipn sc A). apply in_app_iff; auto. }
    assert (HSl : length S = step) by (unfold S; rewrite firstn_length, skipn_length; lia).
    destruct (@round B S step HB ltac:(lia) HS) as (new & E & R1 & R2). rewrite E. cbn [bind].
    destruct new as [|x new]; [left; eauto|].
    destruct R2 as (B' & -> & HB' & Hr); [discriminate|]. cbn [bind].
    assert (Hst : (0 < step)%nat).
    { destruct step; [|lia]. exfalso. destruct (@ortScan_spec RNum dim 0 (center dim B) (bR B) S workers 0 ltac:(lia)) as (new' & E' & Hin & _).
      rewrite E in E'. inversion E'; subst. destruct (Hin x) as (j & Hj & _); [simpl; auto|lia]. }
    destruct (IH (sc + step)%nat B' HB' ltac:(lia)) as [H|[H (k & Hk)]]; [left; auto|]. right. split; auto.
    exists (Datatypes.S k). lia.
  Qed.

  (** a first chunk inside the initial sample ends the sampling *)
  Lemma sampleLoop_first step fuel B : okB B -> (forall i, (i < 3 * dim)%nat -> D2 (ctr B) (cv (nth i A [])) <= bR B * bR B) ->
    (3 * dim <= length A)%nat -> (step <= 3 * dim)%nat -> (0 < fuel)%nat ->
    @sampleLoop RNum dim 0 solve workers fuel A step 0 B = Ok B.
  Proof.
    intros HB Hc HL Hs Hf. destruct fuel as [|fuel]; [lia|]. cbn [sampleLoop].
    destruct (Nat.ltb_spec 0 (length A)); [|lia]. cbn [plus]. rewrite cut_spec by lia. cbn [bind skipn].
    rewrite Nat.sub_0_r.
    destruct (@ortScan_spec RNum dim 0 (center dim B) (bR B) (firstn step A) workers step) as (new & -> & Hin & _).
    { rewrite firstn_length. lia. }
    cbn [bind]. destruct new as [|x new]; auto. exfalso. destruct (Hin x) as (j & Hj & O & _); [simpl; auto|].
    apply out_D2 in O; [|apply HB].
    specialize (Hc j ltac:(lia)). rewrite <- (firstn_skipn step A) in Hc. rewrite app_nth1 in Hc by (rewrite firstn_length; lia).
    lra.
  Qed.

  Theorem samplingCompute_exact : (3 * dim <= length A)%nat -> exists N, forall fuel, (N <= fuel)%nat ->
    (exists B, @samplingCompute RNum dim 0 solve workers fuel A = Ok B /\ smallest dim A (center dim B) (bR B)) \/
    (@samplingCompute RNum dim 0 solve workers fuel A = UB /\ (3 * dim < length A / 100)%nat /\ (length A mod (length A / 100) <> 0)%nat).
  Proof.
    intros HL. destruct (first_ball HL) as (B & E & HB & Hc).
    exists (S (above (-1) + length A)). intros fuel Hf.
    unfold samplingCompute. rewrite bind_assoc. rewrite E. cbn [bind].
    destruct (@sampleLoop_exact (length A / 100) fuel 0 B HB ltac:(lia)) as [(B' & -> & HB')|[Hu (k & Hk)]]; cbn [bind].
    - left. apply scanLoop_exact; auto. 
      assert (above (bR B') <= above (-1))%nat; [|lia]. unfold above.
      generalize (tuples (dim + 1)). induction l as [|x L IH]; cbn [filter length]; auto. pose proof (proj1 HB').
      destruct (Rltb_spec (bR B') (radOf x)), (Rltb_spec (-1) (radOf x)); cbn [length]; try lia. lra.
    - right. split; [rewrite Hu; auto|]. set (st := (length A / 100)%nat) in *. cbn [plus] in Hk.
      split.
      + apply Nat.nle_gt. intros Hle. rewrite (@sampleLoop_first st fuel B) in Hu by (auto; lia). discriminate.
      + intros Hm. apply Nat.mod_divides in Hm as (c & Hq); [|lia]. clearbody st. rewrite Hq in Hk. assert (k < c)%nat by nia. nia.
  Qed.
End Exact.
