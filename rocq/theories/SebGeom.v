(** Balls with prescribed boundary points: combination of balls, uniqueness of
    the smallest one, affine independence.  Points and centres are coordinate
    functions; a ball is a centre and a squared radius. *)
From Coq Require Import Reals Lra.
From Verif Require Import Base Num KdModel RGeom.
Set Implicit Arguments.
Unset Strict Implicit.
Local Open Scope R_scope.

Notation real := Rdefinitions.R.
Definition vec := nat -> real.

(** *** any n+1 vectors of R^n are dependent *)
Definition skip (k j : nat) : nat := if (j <? k)%nat then j else S j.

Lemma rsum_skip f k n : (k <= n)%nat -> rsum f (S n) = rsum (fun j => f (skip k j)) n + f k.
Proof.
  revert k. induction n as [|n IH]; intros k Hk.
  - assert (k = 0)%nat by lia. subst. simpl. lra.
  - destruct (Nat.eq_dec k (S n)) as [->|Hne].
    + cbn [rsum]. f_equal. rewrite (rsum_ext (fun j => f (skip (S n) j)) f n).
      * f_equal. unfold skip. destruct (Nat.ltb_spec n (S n)); [auto|lia].
      * intros i Hi. unfold skip. destruct (Nat.ltb_spec i (S n)); [auto|lia].
    + change (rsum f (S (S n))) with (rsum f (S n) + f (S n)). rewrite (IH k) by lia.
      cbn [rsum]. replace (f (skip k n)) with (f (S n)); [lra|]. unfold skip. destruct (Nat.ltb_spec n k); [lia|auto].
Qed.


Lemma pivot_dec (f : nat -> real) n : (exists k, (k < n)%nat /\ f k <> 0) \/ forall k, (k < n)%nat -> f k = 0.
Proof.
  induction n as [|n IH]; [right; intros; lia|]. destruct IH as [(k & Hk & H)|H]; [left; exists k; split; [lia|auto]|].
  destruct (Req_dec (f n) 0) as [E|E]; [|left; exists n; split; [lia|auto]].
  right. intros k Hk. destruct (Nat.eq_dec k n) as [->|]; auto. apply H. lia.
Qed.

Lemma dependent n : forall v : nat -> vec, exists a : nat -> real,
  (exists j, (j < S n)%nat /\ a j <> 0) /\ forall i, (i < n)%nat -> rsum (fun j => a j * v j i) (S n) = 0.
Proof.
  induction n as [|n IH]; intros v.
  - exists (fun _ => 1). split; [exists 0%nat; split; [lia|lra]|]. intros; lia.
  - destruct (pivot_dec (fun j => v j n) (S (S n))) as [(k & Hk & Hv)|Hz].
    + set (w := fun j i => v (skip k j) i - v (skip k j) n / v k n * v k i).
      destruct (IH w) as (b & (j0 & Hj0 & Hb) & Hs).
      set (t := rsum (fun j => b j * v (skip k j) n) (S n)).
      set (un := fun j => if (j <? k)%nat then j else (j - 1)%nat).
      set (a := fun j => if (j =? k)%nat then - (t / v k n) else b (un j)).
      assert (Ask : forall j, a (skip k j) = b j).
      { intros j. unfold a, un, skip. destruct (Nat.ltb_spec j k).
        - destruct (Nat.eqb_spec j k); [lia|]. destruct (Nat.ltb_spec j k); [auto|lia].
        - destruct (Nat.eqb_spec (S j) k); [lia|]. destruct (Nat.ltb_spec (S j) k); [lia|]. f_equal. lia. }
      assert (Ak : a k = - (t / v k n)) by (unfold a; rewrite Nat.eqb_refl; auto).
      exists a. split.
      * exists (skip k j0). split; [unfold skip; destruct (_ <? _)%nat; lia|]. rewrite Ask. auto.
      * intros i Hi. rewrite (rsum_skip (fun j => a j * v j i) (k := k)) by lia. rewrite Ak.
        rewrite (rsum_ext (fun j => a (skip k j) * v (skip k j) i) (fun j => b j * v (skip k j) i)) by (intros; rewrite Ask; auto).
        destruct (Nat.eq_dec i n) as [->|Hne].
        -- fold t. field. auto.
        -- specialize (Hs i ltac:(lia)). unfold w in Hs.
           rewrite (rsum_ext _ (fun j => b j * v (skip k j) i + (- (v k i / v k n)) * (b j * v (skip k j) n))) in Hs
             by (intros; field; auto).
           rewrite rsum_plus, rsum_scal in Hs. fold t in Hs. rewrite <- Hs. field. auto.
    + destruct (IH v) as (b & (j0 & Hj0 & Hb) & Hs).
      exists (fun j => if (j <? S n)%nat then b j else 0). split.
      * exists j0. split; [lia|]. destruct (Nat.ltb_spec j0 (S n)); [auto|lia].
      * intros i Hi. change (S (S n)) with (1 + S n)%nat. cbn [plus]. 
        change (rsum (fun j => (if (j <? S n)%nat then b j else 0) * v j i) (S n) + (if (S n <? S n)%nat then b (S n) else 0) * v (S n) i = 0).
        rewrite (rsum_ext _ (fun j => b j * v j i)).
        2:{ intros j Hj. destruct (Nat.ltb_spec j (S n)); [auto|lia]. }
        destruct (Nat.ltb_spec (S n) (S n)); [lia|].
        destruct (Nat.eq_dec i n) as [->|Hne].
        -- rewrite rsum_zero; [lra|]. intros j Hj. rewrite Hz by lia. lra.
        -- rewrite Hs by lia. lra.
Qed.

Section Dim.
  Variable dim : nat.

  Definition ip (u v : vec) : R := rsum (fun i => u i * v i) dim.
  Definition vminus (u v : vec) : vec := fun i => u i - v i.
  Definition D2 (c x : vec) : R := ip (vminus x c) (vminus x c).

  Lemma ip_sym u v : ip u v = ip v u.
  Proof. unfold ip. apply rsum_ext. intros. ring. Qed.
  Lemma ip_pos u : 0 <= ip u u.
  Proof. apply rsum_nonneg. intros. apply Rle_0_sqr. Qed.
  Lemma ip_zero u : ip u u = 0 -> forall i, (i < dim)%nat -> u i = 0.
  Proof.
    intros H i Hi. assert (u i * u i = 0).
    { apply (rsum_zero_inv (fun i => u i * u i) dim); auto. intros. apply Rle_0_sqr. }
    nra.
  Qed.
  Lemma ip_minus_l u v w : ip (vminus u v) w = ip u w - ip v w.
  Proof.
    unfold ip, vminus. rewrite (rsum_ext _ (fun i => u i * w i + (-1) * (v i * w i))) by (intros; ring).
    rewrite rsum_plus, rsum_scal. ring.
  Qed.
  Lemma ip_minus_r u v w : ip w (vminus u v) = ip w u - ip w v.
  Proof. rewrite ip_sym, ip_minus_l, !(ip_sym w). reflexivity. Qed.
  Lemma ip_ext u u' v v' : (forall i, (i < dim)%nat -> u i = u' i) -> (forall i, (i < dim)%nat -> v i = v' i) -> ip u v = ip u' v'.
  Proof. intros H1 H2. unfold ip. apply rsum_ext. intros. rewrite H1, H2; auto. Qed.
  Lemma ip_sum_l (a : nat -> real) (w : nat -> vec) m u :
    ip (fun i => rsum (fun j => a j * w j i) m) u = rsum (fun j => a j * ip (w j) u) m.
  Proof.
    induction m as [|m IH].
    - unfold ip. cbn [rsum]. apply rsum_zero. intros; ring.
    - cbn [rsum]. rewrite <- IH. unfold ip at 1.
      rewrite (rsum_ext _ (fun i => rsum (fun j => a j * w j i) m * u i + a m * (w m i * u i))) by (intros; ring).
      rewrite rsum_plus, rsum_scal. reflexivity.
  Qed.
  Lemma D2_pos c x : 0 <= D2 c x. Proof. apply ip_pos. Qed.
  Lemma D2_expand c x : D2 c x = ip x x - 2 * ip c x + ip c c.
  Proof. unfold D2. rewrite ip_minus_l, !ip_minus_r, (ip_sym x c). ring. Qed.
  Lemma D2_ext c c' x x' : (forall i, (i < dim)%nat -> c i = c' i) -> (forall i, (i < dim)%nat -> x i = x' i) -> D2 c x = D2 c' x'.
  Proof. intros H1 H2. unfold D2, vminus. apply ip_ext; intros; rewrite H1, H2; auto. Qed.

  Definition mix (t : real) (c1 c2 : vec) : vec := fun i => (1 - t) * c1 i + t * c2 i.
  Lemma ip_mix_l t c1 c2 u : ip (mix t c1 c2) u = (1 - t) * ip c1 u + t * ip c2 u.
  Proof.
    unfold ip, mix. rewrite (rsum_ext _ (fun i => (1 - t) * (c1 i * u i) + t * (c2 i * u i))) by (intros; ring).
    rewrite rsum_plus, !rsum_scal. reflexivity.
  Qed.
  Lemma D2_mix t c1 c2 x : D2 (mix t c1 c2) x = (1 - t) * D2 c1 x + t * D2 c2 x - t * (1 - t) * D2 c1 c2.
  Proof.
    rewrite !D2_expand, !ip_mix_l. rewrite (ip_sym c1 (mix t c1 c2)), (ip_sym c2 (mix t c1 c2)), !ip_mix_l.
    rewrite (ip_sym c2 c1). ring.
  Qed.

  (** *** smallest balls *)
  Definition feas (P R : list vec) (c : vec) (s : real) : Prop :=
    (forall p, In p P -> D2 c p <= s) /\ (forall p, In p R -> D2 c p = s).
  Definition md (P R : list vec) (c : vec) (s : real) : Prop :=
    feas P R c s /\ 0 <= s /\ forall c' s', feas P R c' s' -> 0 <= s' -> s <= s'.

  Lemma feas_mix P R c1 s1 c2 s2 t : 0 <= t <= 1 -> feas P R c1 s1 -> feas P R c2 s2 ->
    feas P R (mix t c1 c2) ((1 - t) * s1 + t * s2 - t * (1 - t) * D2 c1 c2).
  Proof.
    intros Ht [A1 A2] [B1 B2]. split; intros p Hp; rewrite D2_mix.
    - specialize (A1 p Hp). specialize (B1 p Hp). nra.
    - rewrite A2, B2 by auto. ring.
  Qed.

  (** Moving from a ball that misses p to one that contains it, p is met on the way. *)
  Lemma meet P R c0 s0 c1 s1 p : feas P R c0 s0 -> s0 < D2 c0 p -> feas P R c1 s1 -> D2 c1 p <= s1 ->
    exists t, 0 < t <= 1 /\
    let c := mix t c0 c1 in let s := (1 - t) * s0 + t * s1 - t * (1 - t) * D2 c0 c1 in
    feas P R c s /\ D2 c p = s.
  Proof.
    intros F0 H0 F1 H1. set (f0 := D2 c0 p - s0). set (f1 := D2 c1 p - s1).
    assert (0 < f0) by (unfold f0; lra). assert (f1 <= 0) by (unfold f1; lra).
    exists (f0 / (f0 - f1)).
    assert (T : 0 < f0 / (f0 - f1) <= 1).
    { split; [apply Rdiv_lt_0_compat; lra|]. apply Rmult_le_reg_r with (f0 - f1); [lra|].
      unfold Rdiv. rewrite Rmult_assoc, Rinv_l by lra. lra. }
    split; auto. cbn zeta. split; [apply feas_mix; auto; lra|]. rewrite D2_mix.
    set (t := f0 / (f0 - f1)). assert (E : (1 - t) * f0 + t * f1 = 0) by (unfold t; field; lra).
    unfold f0, f1 in E. lra.
  Qed.

  Lemma meet_le t s0 s1 k : 0 <= t <= 1 -> 0 <= k -> s0 <= s1 -> (1 - t) * s0 + t * s1 - t * (1 - t) * k <= s1.
  Proof. intros. assert (0 <= t * (1 - t) * k) by (apply Rmult_le_pos; [apply Rmult_le_pos|]; lra). nra. Qed.

  Lemma feas_nonneg P R c s p : feas P R c s -> D2 c p = s -> 0 <= s.
  Proof. intros _ <-. apply D2_pos. Qed.

  (** Welzl's step: if p is outside the smallest ball of P with R on the boundary,
      then p is on the boundary of the smallest ball of p and P with R on it. *)
  Lemma feas_step P R c0 s0 p c1 s1 : md P R c0 s0 -> s0 < D2 c0 p -> feas (p :: P) R c1 s1 -> 0 <= s1 ->
    exists c s, feas P (p :: R) c s /\ 0 <= s /\ s <= s1.
  Proof.
    intros (F0 & P0 & M0) H0 [A1 A2] S1.
    assert (F1 : feas P R c1 s1) by (split; auto; intros; apply A1; simpl; auto).
    destruct (meet F0 H0 F1 (A1 p ltac:(simpl; auto))) as (t & Ht & [G1 G2] & G3). cbn zeta in *.
    eexists _, _. split; [split|split].
    - exact G1.
    - intros q [<-|Hq]; [exact G3|apply G2; auto].
    - rewrite <- G3. apply D2_pos.
    - apply meet_le; [lra|apply D2_pos|]. apply (M0 c1 s1); auto.
  Qed.
  Lemma md_step P R c0 s0 p c s : md P R c0 s0 -> s0 < D2 c0 p -> md P (p :: R) c s -> md (p :: P) R c s.
  Proof.
    intros M0 H0 ([F1 F2] & S & M). split; [split|split]; auto.
    - intros q [<-|Hq]; auto. rewrite F2; simpl; auto. lra.
    - intros q Hq. apply F2. simpl; auto.
    - intros c1 s1 G1 S1. destruct (feas_step M0 H0 G1 S1) as (c' & s' & G' & S' & L). specialize (M c' s' G' S'). lra.
  Qed.
  Lemma md_inside P R c s p : md P R c s -> D2 c p <= s -> md (p :: P) R c s.
  Proof.
    intros ([F1 F2] & S & M) H. split; [split|split]; auto.
    - intros q [<-|Hq]; auto.
    - intros c' s' [G1 G2] S'. apply (M c' s'); auto. split; auto. intros; apply G1; simpl; auto.
  Qed.
  (** ... and the same for a set T of points which, with R, already determines the ball. *)
  Lemma supp_step P R c0 s0 p T c s : md P R c0 s0 -> s0 < D2 c0 p -> s0 <= s ->
    (forall x, In x T -> x = p \/ In x P \/ In x R) -> In p T -> md T (p :: R) c s -> md T R c s.
  Proof.
    intros ([F0 F0'] & P0 & M0) H0 L HT Hp ([F1 F2] & S & M). split; [split|split]; auto.
    - intros q Hq. apply F2. simpl; auto.
    - intros c1 s1 G1 S1. destruct (Rle_dec s s1) as [|Hlt]; auto. exfalso.
      assert (F0T : feas [] R c0 s0) by (split; auto; intros ? []).
      assert (F1T : feas [] R c1 s1) by (split; [intros ? []|apply G1]).
      destruct (meet F0T H0 F1T (proj1 G1 p Hp)) as (t & Ht & [_ Q2] & Q3). cbn zeta in *.
      set (st := (1 - t) * s0 + t * s1 - t * (1 - t) * D2 c0 c1) in *.
      assert (Fin : feas T (p :: R) (mix t c0 c1) st).
      { split.
        - intros x Hx. destruct (HT x Hx) as [->|[Hx'|Hx']]; [lra| |rewrite Q2; auto; lra].
          rewrite D2_mix. unfold st. specialize (F0 x Hx'). pose proof (proj1 G1 x Hx). nra.
        - intros x [<-|Hx]; auto. }
      assert (0 <= st) by (rewrite <- Q3; apply D2_pos).
      specialize (M _ _ Fin H). unfold st in M.
      assert (0 <= t * (1 - t) * D2 c0 c1) by (apply Rmult_le_pos; [apply Rmult_le_pos; lra|apply D2_pos]).
      nra.
  Qed.
  Lemma md_uniq P R c1 s1 c2 s2 : P <> [] \/ R <> [] -> md P R c1 s1 -> md P R c2 s2 ->
    s1 = s2 /\ forall i, (i < dim)%nat -> c1 i = c2 i.
  Proof.
    intros Hne (F1 & S1 & M1) (F2 & S2 & M2).
    assert (E : s1 = s2) by (apply Rle_antisym; [apply (M1 c2)|apply (M2 c1)]; auto). split; auto.
    set (K := D2 c1 c2).
    destruct (Req_dec K 0) as [Z|Z].
    - intros i Hi. assert (V : vminus c2 c1 i = 0) by (apply ip_zero; auto). unfold vminus in V. lra.
    - exfalso. assert (0 < K) by (pose proof (D2_pos c1 c2); unfold K in *; lra).
      pose proof (@feas_mix P R c1 s1 c2 s2 (1/2) ltac:(lra) F1 F2) as Fm. fold K in Fm.
      assert (S : 0 <= (1 - 1 / 2) * s1 + 1 / 2 * s2 - 1 / 2 * (1 - 1 / 2) * K).
      { destruct Fm as [G1 G2]. destruct Hne as [Hne|Hne].
        - destruct P as [|p P]; [congruence|]. eapply Rle_trans; [apply D2_pos|apply G1; simpl; auto].
        - destruct R as [|p R]; [congruence|]. rewrite <- (G2 p); [apply D2_pos|simpl; auto]. }
      pose proof (M1 _ _ Fm S). lra.
  Qed.
  Lemma md_ext P P' R R' c s : (forall x, In x P <-> In x P') -> (forall x, In x R <-> In x R') -> md P R c s -> md P' R' c s.
  Proof.
    intros HP HR ([F1 F2] & S & M). split; [split|split]; auto.
    - intros p Hp. apply F1, HP; auto.
    - intros p Hp. apply F2, HR; auto.
    - intros c' s' [G1 G2] S'. apply (M c' s'); auto. split; intros p Hp; [apply G1, HP|apply G2, HR]; auto.
  Qed.
  (** A ball that is smallest for a part is smallest for the whole it contains. *)
  Lemma md_larger P P' R c s : (forall x, In x P' -> In x P) -> md P' R c s -> (forall x, In x P -> D2 c x <= s) -> md P R c s.
  Proof.
    intros HP ([F1 F2] & S & M) H. split; [split|split]; auto.
    intros c' s' [G1 G2] S'. apply (M c' s'); auto. split; auto.
  Qed.

  (** *** affine independence *)
  Definition diffs (r0 : vec) (rs : list vec) : nat -> vec := fun j => vminus (nth j rs r0) r0.
  Definition indep (R : list vec) : Prop :=
    match R with
    | [] => True
    | r0 :: rs => forall a : nat -> real, (forall i, (i < dim)%nat -> rsum (fun j => a j * diffs r0 rs j i) (length rs) = 0) ->
                  forall j, (j < length rs)%nat -> a j = 0
    end.

  (** Two balls through all of R differ, as functions, by a linear function that
      vanishes on R. *)
  Lemma through_two r0 x c1 s1 c2 s2 : D2 c1 r0 = s1 -> D2 c2 r0 = s2 ->
    (D2 c1 x - s1) - (D2 c2 x - s2) = -2 * ip (vminus c1 c2) (vminus x r0).
  Proof. intros <- <-. rewrite !D2_expand, ip_minus_l, !ip_minus_r. ring. Qed.

  Lemma indep_step R c1 s1 c2 s2 p : indep R -> feas [] R c1 s1 -> s1 < D2 c1 p -> feas [] (p :: R) c2 s2 -> indep (R ++ [p]).
  Proof.
    destruct R as [|r0 rs]; intros HI [_ F1] Hp [_ F2]; cbn [app indep].
    - simpl. intros; lia.
    - intros a Ha. rewrite app_length in *. simpl length in *.
      set (e := vminus c1 c2).
      assert (B1 : D2 c1 r0 = s1) by (apply F1; simpl; auto). assert (B2 : D2 c2 r0 = s2) by (apply F2; simpl; auto).
      assert (E0 : forall j, (j < length rs)%nat -> ip (diffs r0 rs j) e = 0).
      { intros j Hj. assert (HIn : In (nth j rs r0) (r0 :: rs)) by (right; apply nth_In; auto).
        pose proof (through_two (nth j rs r0) B1 B2) as T. rewrite (F1 _ HIn), (F2 (nth j rs r0)) in T by (simpl in *; tauto).
        unfold diffs. rewrite ip_sym. unfold e. lra. }
      assert (Ep : ip (vminus p r0) e <> 0).
      { pose proof (through_two p B1 B2) as T. rewrite (F2 p) in T by (simpl; auto). rewrite ip_sym. unfold e. lra. }
      assert (Dif : forall j, (j < length rs)%nat -> diffs r0 (rs ++ [p]) j = diffs r0 rs j).
      { intros j Hj. unfold diffs. rewrite app_nth1; auto. }
      assert (Dp : diffs r0 (rs ++ [p]) (length rs) = vminus p r0).
      { unfold diffs. rewrite app_nth2 by lia. rewrite Nat.sub_diag. reflexivity. }
      replace (length rs + 1)%nat with (S (length rs)) in * by lia.
      assert (Z : a (length rs) = 0).
      { assert (Q : ip (fun i => rsum (fun j => a j * diffs r0 (rs ++ [p]) j i) (S (length rs))) e = 0).
        { unfold ip. apply rsum_zero. intros i Hi. rewrite Ha by auto. ring. }
        rewrite ip_sum_l in Q. cbn [rsum] in Q. rewrite Dp in Q. rewrite rsum_zero in Q.
        - assert (a (length rs) * ip (vminus p r0) e = 0) by lra. apply Rmult_integral in H. tauto.
        - intros j Hj. rewrite Dif, E0 by auto. ring. }
      assert (Q : forall j, (j < length rs)%nat -> a j = 0).
      { apply HI. intros i Hi. specialize (Ha i Hi). cbn [rsum] in Ha. rewrite Z in Ha.
        rewrite (rsum_ext _ (fun j => a j * diffs r0 rs j i)) in Ha by (intros; rewrite Dif; auto). lra. }
      intros j Hj. destruct (Nat.eq_dec j (length rs)) as [->|]; auto. apply Q. lia.
  Qed.

  (** dim+1 independent points: nothing is orthogonal to all differences. *)
  Lemma indep_full r0 rs e : indep (r0 :: rs) -> length rs = dim ->
    (forall j, (j < dim)%nat -> ip (diffs r0 rs j) e = 0) -> forall i, (i < dim)%nat -> e i = 0.
  Proof.
    intros HI HL He. apply ip_zero.
    set (w := fun j => if (j <? dim)%nat then diffs r0 rs j else e).
    destruct (@dependent dim w) as (a & (j0 & Hj0 & Hne) & Hs).
    destruct (Req_dec (ip e e) 0) as [|Z]; auto. exfalso.
    assert (Wd : w dim = e) by (unfold w; destruct (Nat.ltb_spec dim dim); [lia|auto]).
    assert (Wj : forall j, (j < dim)%nat -> w j = diffs r0 rs j) by (intros j Hj; unfold w; destruct (Nat.ltb_spec j dim); [auto|lia]).
    assert (Zd : a dim = 0).
    { assert (Q : ip (fun i => rsum (fun j => a j * w j i) (S dim)) e = 0).
      { unfold ip. apply rsum_zero. intros i Hi. rewrite Hs by auto. ring. }
      rewrite ip_sum_l in Q. cbn [rsum] in Q. rewrite Wd, rsum_zero in Q.
      - assert (a dim * ip e e = 0) by lra. apply Rmult_integral in H. tauto.
      - intros j Hj. rewrite Wj, He by auto. ring. }
    apply Hne. destruct (Nat.eq_dec j0 dim) as [->|]; auto.
    apply HI; [|rewrite HL; lia]. rewrite HL. intros i Hi. specialize (Hs i Hi). cbn [rsum] in Hs. rewrite Zd in Hs.
    rewrite (rsum_ext _ (fun j => a j * diffs r0 rs j i)) in Hs by (intros; rewrite Wj; auto). lra.
  Qed.

  (** A ball through R whose centre lies in the affine hull of R. *)
  Definition circ (R : list vec) (c : vec) (s : real) : Prop :=
    match R with
    | [] => False
    | r0 :: rs => (forall x, In x R -> D2 c x = s) /\
        exists La : nat -> real, forall i, (i < dim)%nat -> c i - r0 i = rsum (fun j => La j * diffs r0 rs j i) (length rs)
    end.

  Lemma circ_orth r0 rs c s c' s' : circ (r0 :: rs) c s -> feas [] (r0 :: rs) c' s' ->
    (forall j, (j < length rs)%nat -> ip (diffs r0 rs j) (vminus c' c) = 0) /\ s' = s + D2 c c'.
  Proof.
    intros [H1 (La & HL)] [_ F].
    assert (B1 : D2 c r0 = s) by (apply H1; simpl; auto). assert (B2 : D2 c' r0 = s') by (apply F; simpl; auto).
    assert (E0 : forall j, (j < length rs)%nat -> ip (diffs r0 rs j) (vminus c' c) = 0).
    { intros j Hj. assert (HIn : In (nth j rs r0) (r0 :: rs)) by (right; apply nth_In; auto).
      pose proof (through_two (nth j rs r0) B2 B1) as T. rewrite (F _ HIn), (H1 _ HIn) in T.
      unfold diffs. rewrite ip_sym. lra. }
    split; auto.
    assert (Ec : ip (vminus c r0) (vminus c' c) = 0).
    { rewrite (@ip_ext (vminus c r0) (fun i => rsum (fun j => La j * diffs r0 rs j i) (length rs)) (vminus c' c) (vminus c' c)); auto.
      rewrite ip_sum_l. apply rsum_zero. intros j Hj. rewrite E0 by auto. ring. }
    rewrite <- B1, <- B2, !D2_expand in *. rewrite ip_minus_l, !ip_minus_r in Ec.
    rewrite (ip_sym r0 c'), (ip_sym r0 c) in Ec. lra.
  Qed.
  Lemma circ_md R c s : circ R c s -> md [] R c s.
  Proof.
    destruct R as [|r0 rs]; [intros []|]. intros H. split; [split|split].
    - intros ? [].
    - apply H.
    - rewrite <- (proj1 H r0); [apply D2_pos|simpl; auto].
    - intros c' s' F _. destruct (circ_orth H F) as [_ ->]. pose proof (D2_pos c c'). lra.
  Qed.
  (** dim+1 independent points: the circumscribed ball is the only ball through them. *)
  Lemma circ_full R c s P c' s' : circ R c s -> indep R -> length R = S dim -> feas P R c' s' -> md P R c s.
  Proof.
    destruct R as [|r0 rs]; [intros []|]. intros H HI HL F.
    assert (F0 : feas [] (r0 :: rs) c' s') by (split; [intros ? []|apply F]).
    destruct (circ_orth H F0) as [E0 E1].
    assert (EQ : forall i, (i < dim)%nat -> c' i = c i).
    { intros i Hi. assert (V : vminus c' c i = 0); [|unfold vminus in V; lra].
      simpl in HL. apply (@indep_full r0 rs (vminus c' c) HI); [lia| |auto]. intros j Hj. apply E0. lia. }
    assert (ES : s' = s).
    { rewrite E1. assert (Z : D2 c c' = 0); [|lra]. unfold D2, ip. apply rsum_zero. intros i Hi. unfold vminus. rewrite EQ by auto. ring. }
    apply md_larger with (P' := []); [intros ? []|apply circ_md; auto|].
    intros x Hx. rewrite <- ES. rewrite (@D2_ext c c' x x); auto; [apply F; auto|]. intros; symmetry; auto.
  Qed.
End Dim.
