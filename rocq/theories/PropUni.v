(** C94: uniform data sets. *)
From Coq Require Import NArith ZArith Floats Reals Lra.
From Verif Require Import Base Num FloatNum KdModel RGeom UniModel UniProofs.
Set Implicit Arguments.
Open Scope R_scope.

(** parlay::hash64 has values of 64 bits; the conversion to size_t truncates *)
Definition hash64 (hash : BinNums.N -> BinNums.N) : Prop := forall i, (hash i < 2 ^ 64)%N.
Definition truncContract (toSize : R -> res nat) : Prop :=
  forall x, 0 <= x -> exists k, toSize x = Ok k /\ INR k <= x < INR k + 1.
(** the scale used: n by default *)
Definition used (n : nat) (scale : R) : R := if Rlt_dec scale 0 then INR n else scale.
Definition zero (dim : nat) : list R := repeat 0 dim.

Lemma used_scaleOf n scale : scaleOf RNum RofN n scale = used n scale.
Proof.
  unfold scaleOf, used. cbn [RNum nlt nzero]. destruct (Rltb scale 0) eqn:E; destruct (Rlt_dec scale 0) as [L|L]; auto.
  - unfold RofN, idx. rewrite nat_N_Z. symmetry. apply INR_IZR_INZ.
  - apply Rltb_true in E. lra.
  - apply Rltb_false in E. lra.
Qed.
Lemma used_pos n scale : 0 <= used n scale.
Proof. unfold used. destruct (Rlt_dec scale 0); [apply pos_INR|lra]. Qed.
Lemma norm_edist dim (p : list R) : norm dim p = edist dim p (zero dim).
Proof. rewrite <- dist_norm. apply dist_edist. Qed.
Lemma nth_pmul (p : list R) c i : nth i (pmul RNum p c) 0 = nth i p 0 * c.
Proof. unfold pmul. cbn [RNum nmul]. apply (@nth_map0 (fun x => x * c)). ring. Qed.

(** C94: shape 1 (a cube): n points, with coordinates of absolute value at most the scale. *)
Theorem C94_box : forall hash fuel dim n scale, hash64 hash -> (0 < dim)%nat ->
  exists P, uniformInPolyPoints RNum RofN hash fuel dim n 1 scale = Ok P /\ length P = n /\
    forall p, In p P -> length p = dim /\ forall i, (i < dim)%nat -> Rabs (nth i p 0) <= used n scale.
Proof.
  intros hash fuel dim n scale HH Hd. unfold uniformInPolyPoints. rewrite used_scaleOf. cbn [Nat.eqb].
  rewrite (@fillM_all _ _ _ (fun i => pmul RNum (randNd RNum RofN hash dim (idx i)) (used n scale))) by reflexivity.
  eexists. split; [reflexivity|]. split; [rewrite map_length; apply seq_length|].
  intros p Hp. apply in_map_iff in Hp as (k & <- & _). split.
  - unfold pmul. rewrite map_length. apply nd_length. auto.
  - intros i Hi. pose proof (@nd_near hash HH dim (idx k) Hd i Hi) as B. pose proof (used_pos n scale) as S.
    pose proof (nth_pmul (randNd RNum RofN hash dim (idx k)) (used n scale) i) as E. cbn [RNum nT] in *. rewrite E, Rabs_mult, (Rabs_pos_eq (used n scale)) by auto.
    pose proof (Rabs_pos (nth i (randNd RNum RofN hash dim (idx k)) 0)). cbn [RNum nT] in *. nra.
Qed.
Print Assumptions C94_box.

(** C94: shape 0 (a ball): when the rejection loops end, n points at distance at
    most the scale from the origin. *)
Theorem C94_ball : forall hash fuel dim n scale, hash64 hash -> (0 < dim)%nat ->
  uniformInPolyPoints RNum RofN hash fuel dim n 0 scale = Fuel \/
  exists P, uniformInPolyPoints RNum RofN hash fuel dim n 0 scale = Ok P /\ length P = n /\
    forall p, In p P -> length p = dim /\ edist dim p (zero dim) <= used n scale.
Proof.
  intros hash fuel dim n scale HH Hd. unfold uniformInPolyPoints. rewrite used_scaleOf. cbn [Nat.eqb].
  set (F := fun i : nat => _). destruct (@fillM_out _ _ F (seq 0 n)) as [E|(P & E)]; [|left; exact E|].
  - intros i _. unfold F, randInUnitSphere. destruct (sphereLoop_out hash fuel dim 0 (idx i)) as [->|(p & ->)]; [left; reflexivity|right; eexists; reflexivity].
  - right. exists P. split; [exact E|]. destruct (@fillM_nth _ _ F _ _ E) as [L W]. rewrite seq_length in *. split; auto.
    intros p Hp. apply In_nth with (d := []) in Hp as (i & Hi & <-). rewrite L in Hi. specialize (W i 0%nat [] Hi).
    rewrite nth_seq0 in W by auto. unfold F in W. apply bind_ok in W as (v & Hv & W).
    unfold randInUnitSphere in Hv. apply sphereLoop_ok in Hv as [[s ->] B]. injection W as W.
    assert (EW : nth i P [] = pmul RNum (randNd RNum RofN hash dim s) (used n scale)) by (symmetry; exact W).
    rewrite EW. split; [unfold pmul; rewrite map_length; apply nd_length; auto|].
    rewrite <- norm_edist. refine (eq_ind_r (fun x : R => x <= _) _ (norm_mul dim _ _)).
    pose proof (used_pos n scale). rewrite Rabs_pos_eq by auto.
    assert (0 <= norm dim (randNd RNum RofN hash dim s)) by apply sqrt_pos. nra.
Qed.
Print Assumptions C94_ball.

(** C94: near a sphere, thickness in [0,1): when the loops end, n1 points between
    the radii 1 and 1+t and the others between 1-t and 1 (times the scale); n1 is
    the share (1+t)^(d-1) of (1+t)^(d-1) + (1-t)^(d-1), rounded down. *)
Lemma npow_R (x : R) k : npow RNum x k = x ^ k.
Proof.
  unfold npow. rewrite one_R. cbn [RNum nmul nT].
  assert (W : forall s a, fold_left (fun a _ => a * x) (seq s k) a = a * x ^ k).
  { induction k as [|k IH]; intros s a; cbn [seq fold_left pow]; [ring|]. rewrite IH. ring. }
  rewrite W. ring.
Qed.
Theorem C94_shell : forall hash toSize fuel dim n t scale, hash64 hash -> truncContract toSize -> (0 < dim)%nat -> 0 <= t < 1 ->
  let a1 := (1 + t) ^ (dim - 1) in let a2 := (1 - t) ^ (dim - 1) in
  uniformOnPolyPoints RNum RofN toSize hash fuel dim n 0 t scale = Fuel \/
  exists P n1, uniformOnPolyPoints RNum RofN toSize hash fuel dim n 0 t scale = Ok P /\ length P = n /\ (n1 <= n)%nat /\
    INR n1 <= a1 * INR n / (a1 + a2) < INR n1 + 1 /\
    forall i, (i < n)%nat -> length (nth i P []) = dim /\
      let r := edist dim (nth i P []) (zero dim) in
      if (i <? n1)%nat then used n scale <= r <= (1 + t) * used n scale else (1 - t) * used n scale <= r <= used n scale.
Proof.
  intros hash toSize fuel dim n t scale HH HT Hd Ht a1 a2.
  assert (A1 : 0 < a1) by (apply pow_lt; lra). assert (A2 : 0 < a2) by (apply pow_lt; lra).
  pose proof (pos_INR n) as Hn.
  assert (Hx : 0 <= a1 * INR n / (a1 + a2)) by (apply Rmult_le_pos; [nra|left; apply Rinv_0_lt_compat; lra]).
  destruct (HT _ Hx) as (n1 & E1 & B1).
  assert (Hle : (n1 <= n)%nat).
  { apply INR_le. apply Rle_trans with (a1 * INR n / (a1 + a2)); [lra|]. apply Rmult_le_reg_r with (a1 + a2); [lra|].
    unfold Rdiv. rewrite Rmult_assoc, Rinv_l by lra. nra. }
  unfold uniformOnPolyPoints, onSphere. rewrite used_scaleOf. cbn [Nat.eqb]. rewrite !npow_R, one_R. cbn [RNum nadd nsub ndiv nmul nT].
  replace (RofN (idx n)) with (INR n).
  2:{ unfold RofN, idx. rewrite nat_N_Z. apply INR_IZR_INZ. }
  fold a1 a2. rewrite E1. cbn [bind]. destruct (Nat.ltb_spec n n1) as [F|_]; [lia|].
  set (F := fun i : nat => _).
  assert (HO : forall i r, randOnUnitSphere RNum RofN hash fuel dim i r = Fuel \/ exists p, randOnUnitSphere RNum RofN hash fuel dim i r = Ok p).
  { intros i r. unfold randOnUnitSphere, randInUnitSphere. destruct (sphereLoop_out hash fuel dim 0 i) as [->|(p & ->)]; [left; reflexivity|right; eexists; reflexivity]. }
  destruct (@fillM_out _ _ F (seq 0 n)) as [E|(P & E)]; [|left; exact E|].
  - intros i _. unfold F. destruct (i <? n1)%nat.
    + destruct (HO (idx i) (1 + t)) as [->|(p & ->)]; [left; reflexivity|right; eexists; reflexivity].
    + destruct (HO (idx i) (1 - t)) as [->|(p & ->)]; [left; reflexivity|right; eexists; reflexivity].
  - right. exists P, n1. split; [exact E|]. destruct (@fillM_nth _ _ F _ _ E) as [L W]. rewrite seq_length in *. split; auto. split; auto. split; auto.
    intros i Hi. specialize (W i 0%nat [] Hi). rewrite nth_seq0 in W by auto. unfold F in W.
    pose proof (rf_range hash HH (idx i)) as RF. set (f := randFloat RNum RofN hash (idx i)) in *. pose proof (used_pos n scale) as S.
    assert (K : forall r s p, 0 < r -> 0 <= s -> randOnUnitSphere RNum RofN hash fuel dim (idx i) r = Ok p ->
               nth i P [] = pmul RNum (pmul RNum p s) (used n scale) ->
               length (nth i P []) = dim /\ edist dim (nth i P []) (zero dim) = used n scale * (s * r)).
    { intros r s p Hr Hs Hp EP. apply on_sphere in Hp as [Np Lp]; auto. rewrite EP. split.
      - unfold pmul. rewrite !map_length. exact Lp.
      - rewrite <- norm_edist. refine (eq_trans (norm_mul dim _ _) _). rewrite (Rabs_pos_eq (used n scale)) by auto. f_equal.
        refine (eq_trans (norm_mul dim _ _) _). rewrite Np, (Rabs_pos_eq s), (Rabs_pos_eq r) by lra. reflexivity. }
    assert (F0 : 0 <= (f : R) <= 1) by exact RF. clearbody f. cbn [RNum nT] in f.
    destruct (i <? n1)%nat; apply bind_ok in W as (p & Hp & W).
    + assert (I : (1 + t) * / (1 + t) = 1) by (apply Rinv_r; lra).
      assert (Iv : 0 < / (1 + t)) by (apply Rinv_0_lt_compat; lra).
      assert (Sv : 0 <= 1 - (1 - 1 / (1 + t)) * f) by (unfold Rdiv; nra).
      destruct (K (1 + t) (1 - (1 - 1 / (1 + t)) * f) p) as [L1 L2]; [lra|exact Sv|exact Hp|congruence|].
      split; auto. cbv zeta. refine (eq_ind_r (fun r : R => _ <= r <= _) _ L2).
      replace ((1 - (1 - 1 / (1 + t)) * f) * (1 + t)) with (1 + t - t * f).
      2:{ replace (1 + t - t * f) with ((1 + t) - ((1 + t) - (1 + t) * / (1 + t)) * f) by (rewrite I; ring). unfold Rdiv. ring. }
      assert (Q : 1 <= 1 + t - t * f <= 1 + t) by nra. clear - Q S. generalize dependent (1 + t - t * f). intros x Q. nra.
    + assert (I : (1 - t) * / (1 - t) = 1) by (apply Rinv_r; lra).
      assert (Iv : 0 < / (1 - t)) by (apply Rinv_0_lt_compat; lra).
      assert (Sv : 0 <= (1 / (1 - t) - 1) * f + 1) by (unfold Rdiv; nra).
      destruct (K (1 - t) ((1 / (1 - t) - 1) * f + 1) p) as [L1 L2]; [lra|exact Sv|exact Hp|congruence|].
      split; auto. cbv zeta. refine (eq_ind_r (fun r : R => _ <= r <= _) _ L2).
      replace (((1 / (1 - t) - 1) * f + 1) * (1 - t)) with (1 - t + t * f).
      2:{ replace (1 - t + t * f) with (((1 - t) * / (1 - t) - (1 - t)) * f + (1 - t)) by (rewrite I; ring). unfold Rdiv. ring. }
      assert (Q : 1 - t <= 1 - t + t * f <= 1) by nra. clear - Q S. generalize dependent (1 - t + t * f). intros x Q. nra.
Qed.
Print Assumptions C94_shell.

(** The sides of the square or cube: number k is the side of coordinate d-1-k/2,
    the upper one for even k. *)
Definition onSide (dim k : nat) (t s : R) (p : list R) : Prop :=
  let c := (dim - 1 - Nat.div2 k)%nat in
  length p = dim /\ Rabs (nth c p 0 - (if Nat.even k then s else - s)) <= t * s /\
  forall i, (i < dim)%nat -> i <> c -> Rabs (nth i p 0) <= s.
Lemma near_onSide dim c up t s p k : 0 <= s -> near t dim c up p -> c = (dim - 1 - Nat.div2 k)%nat -> up = Nat.even k ->
  onSide dim k t s (pmul RNum p s).
Proof.
  intros Hs (L & H1 & H2) Ec Eu. unfold onSide. rewrite <- Ec, <- Eu. split; [unfold pmul; rewrite map_length; exact L|]. split.
  - refine (eq_ind_r (fun x : R => Rabs (x - _) <= _) _ (nth_pmul p s c)).
    replace (nth c p 0 * s - (if up then s else - s)) with ((nth c p 0 - (if up then 1 else -1)) * s) by (destruct up; ring).
    rewrite Rabs_mult, (Rabs_pos_eq s) by auto. apply Rmult_le_compat_r; auto.
  - intros i Hi Hn. refine (eq_ind_r (fun x : R => Rabs x <= _) _ (nth_pmul p s i)).
    rewrite Rabs_mult, (Rabs_pos_eq s) by auto. specialize (H2 i Hi Hn). rewrite <- (Rmult_1_l s) at 2. apply Rmult_le_compat_r; auto.
Qed.
Ltac sideK := match goal with |- context[((?m <=? ?i)%nat && (?i <? ?k)%nat)] =>
  destruct (Nat.leb_spec m i); destruct (Nat.ltb_spec i k); cbn [andb] end.

(** C94: near the sides of a square or a cube, positive thickness: n points; the
    sides but the last get n/(2d) consecutive points each, the last one the rest. *)
Theorem C94_cube : forall hash toSize fuel dim n t scale, hash64 hash -> dim = 2%nat \/ dim = 3%nat -> 0 < t ->
  exists P, uniformOnPolyPoints RNum RofN toSize hash fuel dim n 1 t scale = Ok P /\ length P = n /\
    forall i, (i < n)%nat -> let q := (n / (2 * dim))%nat in
      exists k, (k < 2 * dim)%nat /\ (k * q <= i)%nat /\ ((i < (k + 1) * q)%nat \/ k = (2 * dim - 1)%nat) /\
        onSide dim k t (used n scale) (nth i P []).
Proof.
  intros hash toSize fuel dim n t scale HH Hdim Ht. unfold uniformOnPolyPoints. rewrite used_scaleOf. cbn [Nat.eqb]. unfold onCube.
  assert (Eb : ((dim =? 2) || (dim =? 3))%nat = true) by (destruct Hdim as [-> | ->]; reflexivity). rewrite Eb. clear Eb.
  set (q := (n / (2 * dim))%nat). set (P0 := map _ (seq 0 n)).
  assert (Hq : (2 * dim * q <= n)%nat) by (apply Nat.mul_div_le; lia).
  assert (Hlen : length (sides dim) = (2 * dim)%nat) by (destruct Hdim as [-> | ->]; reflexivity).
  destruct (@runSides_ok hash HH t Ht dim n q (sides dim)) with (m := 0%nat) (P := P0) as (P & E & L & _ & S).
  - destruct Hdim as [-> | ->]; intros s; cbn; intros H; repeat (destruct H as [<-|H]; [cbn; lia|]); destruct H.
  - unfold P0. rewrite map_length. apply seq_length.
  - rewrite Hlen. lia.
  - intros i Hi. unfold P0. pose (d := randNd RNum RofN hash dim (idx 0)).
    refine (eq_trans (nth_indep _ [] d _) _); [rewrite map_length, seq_length; lia|].
    refine (eq_trans (map_nth (fun i => randNd RNum RofN hash dim (idx i)) (seq 0 n) 0%nat i) _). rewrite nth_seq0 by lia. reflexivity.
  - exists (map (fun p => pmul RNum p (used n scale)) P).
    split; [exact (f_equal (fun r => bind r (fun P' => Ok (map (fun p => pmul RNum p (used n scale)) P'))) E)|].
    split; [rewrite map_length; exact L|]. intros i Hi. cbv zeta.
    assert (EN : nth i (map (fun p => pmul RNum p (used n scale)) P) [] = pmul RNum (nth i P []) (used n scale)) by
      exact (map_nth (fun p => pmul RNum p (used n scale)) P [] i).
    assert (W : forall k, (k < 2 * dim)%nat -> (k * q <= i)%nat -> ((i < (k + 1) * q)%nat \/ k = (2 * dim - 1)%nat) ->
      sideAt n q 0 (sides dim) i = Some ((dim - 1 - Nat.div2 k)%nat, Nat.even k) ->
      exists k, (k < 2 * dim)%nat /\ (k * q <= i)%nat /\ ((i < (k + 1) * q)%nat \/ k = (2 * dim - 1)%nat) /\
        onSide dim k t (used n scale) (nth i (map (fun p => pmul RNum p (used n scale)) P) [])).
    { intros k K1 K2 K3 K4. exists k. split; auto. split; auto. split; auto.
      refine (eq_ind_r (onSide dim k t (used n scale)) _ EN). eapply near_onSide; [apply used_pos|apply (S i _ (conj (Nat.le_0_l i) Hi) K4)|reflexivity|reflexivity]. }
    clearbody q. destruct Hdim as [-> | ->].
    + destruct (lt_dec i q); [apply (W 0%nat)|destruct (lt_dec i (2 * q)); [apply (W 1%nat)|destruct (lt_dec i (3 * q)); [apply (W 2%nat)|apply (W 3%nat)]]];
        try lia; cbn [sides rev seq flat_map app sideAt]; repeat (sideK; try lia); reflexivity.
    + destruct (lt_dec i q); [apply (W 0%nat)|destruct (lt_dec i (2 * q)); [apply (W 1%nat)|destruct (lt_dec i (3 * q)); [apply (W 2%nat)|
        destruct (lt_dec i (4 * q)); [apply (W 3%nat)|destruct (lt_dec i (5 * q)); [apply (W 4%nat)|apply (W 5%nat)]]]]];
        try lia; cbn [sides rev seq flat_map app sideAt]; repeat (sideK; try lia); reflexivity.
Qed.
Print Assumptions C94_cube.

(** C94: the errors: a shape from 2 on, a shell of a cube outside two and three
    dimensions, and a thickness that is not positive throw. *)
Lemma sideLoop_thin hash t (b : R) P m k c : t <= 0 ->
  sideLoop RNum RofN hash P m k c (b - t) (b + t) =
  if existsb (fun i => (m <=? i)%nat && (i <? m + k)%nat) (seq 0 (length P)) then Throw else Ok P.
Proof.
  intros Ht. unfold sideLoop. set (F := fun ip : nat * upt RNum => _).
  assert (HR : forall i, randRange RNum RofN hash i (b - t) (b + t) = Throw).
  { intros i. unfold randRange. cbn [RNum nle]. destruct (Rleb (b + t) (b - t)) eqn:E; auto. apply Rleb_false in E. lra. }
  assert (HF : forall a, F a = if (m <=? fst a)%nat && (fst a <? m + k)%nat then Throw else Ok (snd a)).
  { intros a. unfold F. destruct (_ && _); [|reflexivity].
    exact (f_equal (fun r => bind r (fun v => Ok (setC RNum (snd a) c v))) (HR (idx (fst a)))). }
  clearbody F. generalize 0%nat. induction P as [|p P IH]; intros s; [reflexivity|].
  cbn [length seq combine fillM existsb]. rewrite HF. cbn [fst snd]. destruct (_ && _); [reflexivity|]. cbn [bind orb].
  specialize (IH (S s)). destruct (existsb _ _); rewrite IH; reflexivity.
Qed.
Theorem C94_errors : forall hash toSize fuel dim n t scale,
  (forall shape, (2 <= shape)%nat -> (0 < n)%nat -> uniformInPolyPoints RNum RofN hash fuel dim n shape scale = Throw) /\
  (forall shape, (2 <= shape)%nat -> uniformOnPolyPoints RNum RofN toSize hash fuel dim n shape t scale = Throw) /\
  (dim <> 2%nat -> dim <> 3%nat -> uniformOnPolyPoints RNum RofN toSize hash fuel dim n 1 t scale = Throw) /\
  (dim = 2%nat \/ dim = 3%nat -> (0 < n)%nat -> t <= 0 -> uniformOnPolyPoints RNum RofN toSize hash fuel dim n 1 t scale = Throw).
Proof.
  intros hash toSize fuel dim n t scale. split; [|split; [|split]].
  - intros shape Hs Hn. unfold uniformInPolyPoints. destruct n as [|n]; [lia|]. destruct shape as [|[|shape]]; [lia|lia|]. reflexivity.
  - intros shape Hs. destruct shape as [|[|shape]]; [lia|lia|]. reflexivity.
  - intros H2 H3. unfold uniformOnPolyPoints, onCube. cbn [Nat.eqb].
    destruct (Nat.eqb_spec dim 2); [congruence|]. destruct (Nat.eqb_spec dim 3); [congruence|]. reflexivity.
  - intros Hd Hn Ht. unfold uniformOnPolyPoints, onCube. cbn [Nat.eqb].
    assert (Eb : ((dim =? 2) || (dim =? 3))%nat = true) by (destruct Hd as [-> | ->]; reflexivity). rewrite Eb. clear Eb.
    set (q := (n / (2 * dim))%nat). assert (Hq : (2 * dim * q <= n)%nat) by (apply Nat.mul_div_le; lia). clearbody q.
    set (P := map _ (seq 0 n)). assert (HP : length P = n) by (unfold P; rewrite map_length; apply seq_length).
    assert (W : forall ss m, ss <> [] -> (m + length ss * q <= n)%nat -> (m < n)%nat -> runSides RNum RofN hash n q m t ss P = Throw).
    { induction ss as [|[c up] ss IH]; intros m Hne Hm Hl; [congruence|]. cbn [runSides].
      match goal with |- bind (sideLoop _ _ _ _ ?a ?k ?c _ _) _ = _ => set (kk := k) end.
      pose proof (@sideLoop_thin hash t (if up then one RNum else nneg1 RNum) P m kk c Ht) as E. cbn [RNum nsub nadd] in *.
      match goal with |- bind ?x _ = _ => replace x with (if existsb (fun i => (m <=? i)%nat && (i <? m + kk)%nat) (seq 0 (length P)) then Throw else Ok P) by (symmetry; exact E) end.
      destruct (existsb _ _) eqn:X; [reflexivity|]. cbn [bind].
      assert (Hk : kk = 0%nat).
      { destruct kk as [|k'] eqn:K; auto. exfalso. assert (Y : existsb (fun i => (m <=? i)%nat && (i <? m + S k')%nat) (seq 0 (length P)) = true).
        { apply existsb_exists. exists m. split; [apply in_seq; rewrite HP; lia|]. apply andb_true_iff. rewrite Nat.leb_le, Nat.ltb_lt. lia. }
        congruence. }
      destruct ss as [|s2 ss]; [unfold kk in Hk; lia|]. unfold kk in Hk. subst q. apply IH; [discriminate|cbn [length] in *; lia|lia]. }
    match goal with |- bind ?x _ = _ => replace x with (@Throw (list (upt RNum))) end; [reflexivity|].
    symmetry. apply W; [destruct Hd as [-> | ->]; discriminate|destruct Hd as [-> | ->]; cbn [sides rev seq flat_map app length]; lia|lia].
Qed.
Print Assumptions C94_errors.

(** Examples on doubles, with a linear congruence for the hash function. *)
Definition FofN (n : BinNums.N) : float :=
  (PrimFloat.of_uint63 (Uint63.of_Z (Z.of_N (n / 2 ^ 32))) * 0x1p+32 + PrimFloat.of_uint63 (Uint63.of_Z (Z.of_N (n mod 2 ^ 32))))%float.
Definition lcg (n : BinNums.N) : BinNums.N := ((n + 1) * 6364136223846793005 mod 2 ^ 64)%N.
Definition fin (lo hi x : float) : bool := (PrimFloat.leb lo x && PrimFloat.leb x hi)%bool.
Example C94_example :
  (exists P, uniformInPolyPoints FNum FofN lcg 20 3 4 0 (-1)%float = Ok P /\ length P = 4%nat /\
    forallb (fun p => PrimFloat.leb (dist FNum 3 p (origin FNum 3)) 4) P = true) /\
  (exists P, uniformOnPolyPoints FNum FofN (fun _ => Ok 2%nat) lcg 20 2 5 1 0x1p-3%float 1%float = Ok P /\
    map (fun p : list float => (fin 0x1.cp-1 0x1.2p+0 (@coord FNum p 1), fin (-0x1.2p+0) (-0x1.cp-1) (@coord FNum p 1),
                   fin 0x1.cp-1 0x1.2p+0 (@coord FNum p 0), fin (-0x1.2p+0) (-0x1.cp-1) (@coord FNum p 0))) P =
    [(true, false, false, false); (false, true, false, false); (false, false, true, false); (false, true, false, true); (false, false, false, true)]).
Proof. split; eexists; (split; [vm_compute; reflexivity|]); try split; vm_compute; reflexivity. Qed.

(** C94: whether the rejection loop ends depends on the hash function: with the
    constant 0 it does not, in two dimensions. *)
Theorem C94_rejection_refuted : exists hash, hash64 hash /\
  forall fuel n scale, (0 < n)%nat -> uniformInPolyPoints RNum RofN hash fuel 2 n 0 scale = Fuel.
Proof.
  exists (fun _ => 0%N). split; [intros i; reflexivity|]. intros fuel n scale Hn. destruct n as [|n]; [lia|].
  unfold uniformInPolyPoints. cbn [seq fillM Nat.eqb].
  assert (E : forall j i, sphereLoop RNum RofN (fun _ => 0%N) fuel 2 j i = Fuel).
  { induction fuel as [|f IH]; intros j i; cbn [sphereLoop]; auto. rewrite dist_norm, one_R. cbn [RNum nlt].
    match goal with |- context[Rltb 1 ?x] => assert (L : 1 < x) end.
    { unfold norm, randNd. rewrite one_R. cbn [seeds Nat.sub map rsum nth]. unfold randFloat. cbn [RNum ndiv nsub nmul ntwo nT].
      replace (RofN 0) with 0 by reflexivity. rewrite <- sqrt_1 at 1. apply sqrt_lt_1_alt. unfold Rdiv. rewrite Rmult_0_l. lra. }
    rewrite (proj2 (Rltb_true _ _) L). auto. }
  unfold randInUnitSphere. rewrite E. reflexivity.
Qed.
Print Assumptions C94_rejection_refuted.

(** C94_shell rests on 2^64-1 being odd: over the reals no coordinate is 0.  The
    doubles round it to 2^64; with the hash value 2^63 the point is the origin and
    the division by its length gives NaN. *)
Theorem C94_origin_refuted : exists hash, hash64 hash /\
  exists p, randOnUnitSphere FNum FofN hash 1 2 0%N 1%float = Ok p /\ map PrimFloat.is_nan p = [true; true].
Proof. exists (fun _ => (2 ^ 63)%N). split; [intros i; reflexivity|]. eexists. split; vm_compute; reflexivity. Qed.
Print Assumptions C94_origin_refuted.

(** The seeds of the coordinates wrap at 2^64: s1 = i + hash(i), s2 = 2 i + hash(s1). *)
Example C94_seeds_example :
  seeds (fun x => x) 2 1%N (2 ^ 64 - 1)%N (2 ^ 64 - 1)%N = [(2 ^ 64 - 2)%N; (2 ^ 64 - 4)%N] /\ wrap64 (2 ^ 64 - 1 + 1)%N = 0%N.
Proof. split; vm_compute; reflexivity. Qed.
