(** The seed spreader over the reals. *)
From Coq Require Import NArith ZArith Reals Lra.
From Verif Require Import Base Num KdModel RGeom UniModel UniProofs SpreadModel SpreadSpec.
Set Implicit Arguments.
Open Scope R_scope.

Ltac bindr E := match goal with |- bind ?x ?f = _ => refine (eq_trans (f_equal (fun r => bind r f) E) _) end.

Section SpreadR.
  Variable rand : nat -> BinNums.N.
  Variable randMax : BinNums.N.
  Hypothesis Hrand : forall k, (rand k <= randMax)%N.
  Hypothesis Hodd : N.odd randMax = true.
  Variable dim : nat.
  Hypothesis Hdim : (0 < dim)%nat.
  Notation rd := (randomDouble RNum RofN rand randMax).
  Notation dr := (draws RNum RofN rand randMax dim).

  Lemma frac k : exists f, 0 <= f <= 1 /\ f <> 1 / 2 /\ forall lo hi : R, rd k lo hi = lo + f * (hi - lo).
  Proof.
    exists (RofN (rand k) / RofN randMax). assert (P : 0 < RofN randMax).
    { unfold RofN. apply IZR_lt. destruct randMax; [discriminate|reflexivity]. }
    assert (A : 0 <= RofN (rand k)) by (apply IZR_le; lia).
    assert (B : RofN (rand k) <= RofN randMax) by (apply IZR_le; specialize (Hrand k); lia).
    split; [split|split].
    - apply Rmult_le_pos; [auto|]. left. apply Rinv_0_lt_compat. auto.
    - apply Rmult_le_reg_r with (RofN randMax); [auto|]. unfold Rdiv. rewrite Rmult_assoc, Rinv_l by lra. lra.
    - intros E. assert (F : 2 * RofN (rand k) = RofN randMax).
      { apply Rmult_eq_reg_r with (/ RofN randMax); [|apply Rinv_neq_0_compat; lra]. rewrite Rinv_r by lra. unfold Rdiv in E. lra. }
      unfold RofN in F. rewrite <- mult_IZR in F. apply eq_IZR in F.
      assert (G : randMax = (2 * rand k)%N) by lia. rewrite G, N.odd_mul in Hodd. discriminate.
    - intros. reflexivity.
  Qed.
  Lemma dr_length k lo hi : length (dr k lo hi) = dim.
  Proof. unfold draws. rewrite map_length. apply seq_length. Qed.
  Lemma dr_nth k (lo hi : R) i : (i < dim)%nat -> nth i (dr k lo hi) 0 = rd (k + i) lo hi.
  Proof.
    intros H. unfold draws. refine (eq_trans (nth_indep _ 0 (rd (k + 0) lo hi) _) _); [rewrite map_length, seq_length; auto|].
    refine (eq_trans (map_nth (fun i => rd (k + i) lo hi) (seq 0 dim) 0%nat i) _). rewrite nth_seq0 by auto. reflexivity.
  Qed.
  Lemma co_length (f : nat -> R) : length (coords RNum dim f) = dim.
  Proof. unfold coords. rewrite map_length. apply seq_length. Qed.
  Lemma co_nth (f : nat -> R) i : (i < dim)%nat -> nth i (coords RNum dim f) 0 = f i.
  Proof.
    intros H. unfold coords. refine (eq_trans (nth_indep _ 0 (f 0%nat) _) _); [rewrite map_length, seq_length; auto|].
    refine (eq_trans (map_nth f (seq 0 dim) 0%nat i) _). rewrite nth_seq0 by auto. reflexivity.
  Qed.
  Lemma dr_box k : inBox dim (dr k (boxLo RNum) (boxHi RNum RofN)).
  Proof.
    split; [apply dr_length|]. intros i Hi. refine (eq_ind_r (fun x : R => 0 <= x <= 100000) _ (dr_nth k _ _ Hi)).
    destruct (frac (k + i)) as (f & F & _ & E). rewrite E. unfold boxLo, boxHi, lit. cbn [RNum nzero].
    replace (RofN 100000) with 100000 by reflexivity. nra.
  Qed.
  Lemma plen_norm (p : list R) : plen RNum dim p = norm dim p.
  Proof. unfold plen, norm. cbn [RNum nsqrt nadd nmul nzero nT]. f_equal. refine (eq_trans (fold_rsum _ _ _) _). unfold coord. cbn. lra. Qed.

  Lemma shift_dist rS (s : sp RNum) : 0 <= rS -> edist dim (pos RNum s) (pos RNum (shift RNum RofN rand randMax dim rS s)) = rS.
  Proof.
    intros H. unfold shift. cbn [pos]. set (dir := dr _ _ _). set (x := pos RNum s).
    assert (Hd : nth 0 dir 0 <> 0).
    { intros E. assert (E2 : rd (drawn RNum s + 0) (-1) 1 = 0).
      { rewrite <- E. unfold dir. rewrite one_R. symmetry. apply (@dr_nth (drawn RNum s) (-1) 1 0%nat Hdim). }
      destruct (frac (drawn RNum s + 0)) as (f & _ & F & G). rewrite G in E2. apply F. lra. }
    assert (HL : 0 < norm dim dir).
    { apply sqrt_lt_R0. assert (T : nth 0 dir 0 * nth 0 dir 0 <= rsum (fun i => nth i dir 0 * nth i dir 0) dim).
      { apply (rsum_term (fun i => nth i dir 0 * nth i dir 0)); auto. intros; apply Rle_0_sqr. }
      exact (Rlt_le_trans _ _ _ (Rsqr_pos_lt _ Hd) T). }
    unfold edist. rewrite (rsum_ext _ (fun i => (rS / norm dim dir) * (rS / norm dim dir) * (nth i dir 0 * nth i dir 0))).
    - rewrite rsum_scal, sqrt_mult_alt by apply Rle_0_sqr. fold (norm dim dir).
      assert (P : 0 <= rS / norm dim dir) by (apply Rmult_le_pos; [auto|left; apply Rinv_0_lt_compat; auto]).
      rewrite sqrt_square by auto. unfold Rdiv. rewrite Rmult_assoc, Rinv_l by (apply Rgt_not_eq; exact HL). ring.
    - intros i Hi. refine (eq_trans (f_equal (fun y : R => (nth i x 0 - y) ^ 2) (co_nth _ Hi)) _).
      pose proof (plen_norm dir) as E. unfold coord. cbn [RNum nadd ndiv nmul nzero nT] in *. rewrite E. unfold Rdiv. ring.
  Qed.

  Lemma nearLoop_ok rV (x : list R) : 0 <= rV -> forall fuel k,
    nearLoop RNum RofN rand randMax dim fuel rV x k = Fuel \/
    exists pt k', nearLoop RNum RofN rand randMax dim fuel rV x k = Ok (pt, k') /\ length pt = dim /\ edist dim x pt <= rV.
  Proof.
    intros HV. induction fuel as [|f IH]; intros k; cbn [nearLoop]; auto.
    match goal with |- context[dist RNum dim x ?p] => set (pt := p) end.
    destruct (nlt RNum rV (dist RNum dim x pt)) eqn:E; [apply IH|]. right. exists pt, (k + dim)%nat. split; [reflexivity|].
    split; [apply co_length|]. apply Rltb_false in E. rewrite <- dist_edist. exact E.
  Qed.

  Section Gen.
    Variable fuel : nat.
    Variable radii : nat -> R * R.
    Hypothesis HR : forall g, 0 <= fst (radii g) /\ 0 <= snd (radii g).
    Variable n : nat.
    Variable rho : R.
    Notation rS := (fun g => fst (radii g)).
    Notation rV := (fun g => snd (radii g)).
    Definition share : R := (1 - rho) * INR n.
    Notation genR := (gen RNum RofN rand randMax dim fuel radii n rho).

    Lemma next_ok rr (s : sp RNum) : (counter RNum s <= 100)%nat -> length (pos RNum s) = dim ->
      let g := generated RNum s in
      next_ RNum RofN rand randMax dim fuel 100 rr (fst (radii g)) (snd (radii g)) s = Fuel \/
      exists pt s', next_ RNum RofN rand randMax dim fuel 100 rr (fst (radii g)) (snd (radii g)) s = Ok (pt, s') /\
        generated RNum s' = S g /\ (counter RNum s' <= 100)%nat /\ length (pos RNum s') = dim /\
        length pt = dim /\ edist dim (pos RNum s') pt <= snd (radii g) /\
        ((pos RNum s' = pos RNum s /\ (counter RNum s < 100)%nat /\ counter RNum s' = S (counter RNum s)) \/
         (counter RNum s = 100%nat /\ edist dim (pos RNum s) (pos RNum s') = fst (radii g) /\ counter RNum s' = 1%nat) \/
         (inBox dim (pos RNum s') /\ counter RNum s' = 1%nat)).
    Proof.
      intros HC HL g. destruct (HR g) as [H1 H2]. unfold next_.
      set (s1 := {| pos := pos RNum s; counter := counter RNum s; generated := generated RNum s; drawn := S (drawn RNum s) |}).
      set (s2 := if nle RNum _ rr then _ else s1). set (s3 := if (100 <=? counter RNum s2)%nat then _ else s2).
      assert (K : generated RNum s3 = g /\ (counter RNum s3 < 100)%nat /\ length (pos RNum s3) = dim /\
         ((pos RNum s3 = pos RNum s /\ (counter RNum s < 100)%nat /\ counter RNum s3 = counter RNum s) \/
          (counter RNum s = 100%nat /\ edist dim (pos RNum s) (pos RNum s3) = fst (radii g) /\ counter RNum s3 = 0%nat) \/
          (inBox dim (pos RNum s3) /\ counter RNum s3 = 0%nat))).
      { unfold s3, s2. destruct (nle RNum _ rr).
        - unfold restart at 1. cbn [counter Nat.leb]. split; [reflexivity|]. split; [cbn; lia|]. split; [apply dr_length|]. right. right. split; [apply dr_box|reflexivity].
        - destruct (Nat.leb_spec 100 (counter RNum s1)) as [Q|Q]; unfold s1 in *; cbn [counter pos generated drawn] in *.
          + split; [reflexivity|]. split; [cbn; lia|]. split; [apply co_length|]. right. left. split; [lia|]. split; [|reflexivity].
            apply (@shift_dist (fst (radii g)) s1 H1).
          + split; [reflexivity|]. split; [lia|]. split; [exact HL|]. left. auto. }
      clearbody s3. destruct K as (K1 & K2 & K3 & K4).
      destruct (@nearLoop_ok (snd (radii g)) (pos RNum s3) H2 fuel (drawn RNum s3)) as [E|(pt & k & E & L & D)].
      - left. bindr E. reflexivity.
      - right. exists pt, {| pos := pos RNum s3; counter := S (counter RNum s3); generated := S (generated RNum s3); drawn := k |}.
        split; [bindr E; reflexivity|]. cbn [pos counter generated]. split; [lia|]. split; [lia|]. split; [exact K3|].
        split; [exact L|]. split; [exact D|]. destruct K4 as [(A & B & C)|[(A & B & C)|(A & C)]]; [left; split; [exact A|lia]|right; left; split; [exact A|split; [exact B|lia]]|right; right; split; [exact A|lia]].
    Qed.

    Lemma noise_ok left : forall k, length (noise RNum RofN rand randMax dim left k) = left /\
      forall p, In p (noise RNum RofN rand randMax dim left k) -> inBox dim p.
    Proof.
      induction left as [|l IH]; intros k; cbn [noise]; [split; [reflexivity|intros p []]|]. destruct (IH (k + dim)%nat) as [L B].
      split; [cbn [length]; rewrite L; reflexivity|]. intros p [<-|Hp]; auto. apply dr_box.
    Qed.
    Lemma cond p : nlt RNum (lit RNum RofN (N.of_nat p)) (nmul RNum (nsub RNum (one RNum) rho) (lit RNum RofN (N.of_nat n))) = Rltb (INR p) share.
    Proof.
      unfold lit, RofN, share. rewrite one_R, !nat_N_Z, !INR_IZR_INZ. reflexivity.
    Qed.

    Lemma gen_ok left : forall p (s : sp RNum), (left + p = n)%nat -> share <= INR n ->
      (counter RNum s <= 100)%nat -> length (pos RNum s) = dim ->
      genR left p s = Fuel \/
      exists data m, genR left p s = Ok data /\ length data = left /\ (m <= left)%nat /\
        (forall q, (q < m)%nat -> INR (p + q) < share) /\ share <= INR (p + m) /\
        spread dim rS rV (generated RNum s) (pos RNum s) (counter RNum s) (firstn m data) /\
        forall x, In x (skipn m data) -> inBox dim x.
    Proof.
      induction left as [|l IH]; intros p s Hp Hs HC HL; cbn [gen]; rewrite cond; destruct (Rltb (INR p) share) eqn:E.
      - apply Rltb_true in E. replace p with n in E by lia. lra.
      - right. apply Rltb_false in E. exists [], 0%nat. split; [reflexivity|]. split; [reflexivity|]. split; [lia|].
        split; [intros; lia|]. rewrite Nat.add_0_r. split; [exact E|]. split; [constructor|intros x []].
      - apply Rltb_true in E. destruct (@next_ok (rhoRestart RNum RofN n rho) s HC HL) as [En|(pt & s' & En & G & C & L & Lp & D & T)].
        + left. destruct (radii (generated RNum s)) as [rs rv]. cbn [fst snd] in En. bindr En. reflexivity.
        + assert (Eg : genR (S l) p s = bind (genR l (S p) s') (fun r => Ok (pt :: r))).
          { cbn [gen]. rewrite cond, (proj2 (Rltb_true _ _) E). destruct (radii (generated RNum s)) as [rs rv]. cbn [fst snd] in En.
            exact (f_equal (fun r => bind r (fun x : upt RNum * sp RNum => let (pt, s') := x in bind (genR l (S p) s') (fun r => Ok (pt :: r)))) En). }
          cbn [gen] in Eg. rewrite cond, (proj2 (Rltb_true _ _) E) in Eg. rewrite Eg. clear Eg.
          destruct (IH (S p) s') as [I|(data & m & I & I1 & I2 & I3 & I4 & I5 & I6)]; auto; [lia|left; rewrite I; reflexivity|].
          right. rewrite I. cbn [bind]. exists (pt :: data), (S m). split; [reflexivity|]. split; [cbn [length]; rewrite I1; reflexivity|]. split; [lia|].
          split.
          { intros [|q] Hq; [rewrite Nat.add_0_r; exact E|]. replace (p + S q)%nat with (S p + q)%nat by lia. apply I3. lia. }
          split; [replace (p + S m)%nat with (S p + m)%nat by lia; exact I4|]. split; [|exact I6].
          cbn [firstn]. apply (@spread_next dim rS rV _ _ _ (pos RNum s') (counter RNum s')); auto. rewrite <- G. exact I5.
      - right. apply Rltb_false in E. destruct (noise_ok (S l) (drawn RNum s)) as [L B]. eexists _, 0%nat. split; [reflexivity|]. split; [exact L|].
        split; [lia|]. split; [intros; lia|]. rewrite Nat.add_0_r. split; [exact E|]. split; [constructor|exact B].
    Qed.
    Lemma gen_over left : forall p (s : sp RNum), (left + p = n)%nat -> INR n < share ->
      (counter RNum s <= 100)%nat -> length (pos RNum s) = dim -> genR left p s = Fuel \/ genR left p s = UB.
    Proof.
      induction left as [|l IH]; intros p s Hp Hs HC HL.
      - right. cbn [gen]. rewrite cond. replace p with n by lia. rewrite (proj2 (Rltb_true _ _) Hs). reflexivity.
      - assert (E : INR p < share) by (apply Rle_lt_trans with (INR n); [apply le_INR; lia|exact Hs]).
        cbn [gen]. rewrite cond, (proj2 (Rltb_true _ _) E).
        destruct (@next_ok (rhoRestart RNum RofN n rho) s HC HL) as [En|(pt & s' & En & G & C & L & Lp & D & T)];
          destruct (radii (generated RNum s)) as [rs rv]; cbn [fst snd] in En.
        + left. bindr En. reflexivity.
        + destruct (IH (S p) s') as [I|I]; auto; [lia| |]; [left|right];
            (transitivity (bind (genR l (S p) s') (fun r => Ok (pt :: r)));
             [exact (f_equal (fun r => bind r (fun x : upt RNum * sp RNum => let (pt, s') := x in bind (genR l (S p) s') (fun r => Ok (pt :: r)))) En)|rewrite I; reflexivity]).
    Qed.
  End Gen.
End SpreadR.
