(** Uniform data sets over the reals. *)
From Coq Require Import NArith ZArith Reals Lra.
From Verif Require Import Base Num KdModel RGeom UniModel.
Set Implicit Arguments.
Open Scope R_scope.

Definition RofN (n : BinNums.N) : R := IZR (Z.of_N n).

Section UniR.
  Variable hash : BinNums.N -> BinNums.N.
  Hypothesis Hhash : forall i, (hash i < 2 ^ 64)%N.
  Notation rf := (randFloat RNum RofN hash).
  Notation nd := (randNd RNum RofN hash).

  Lemma one_R : one RNum = 1.
  Proof. unfold one. cbn. lra. Qed.
  Lemma max_pos : 0 < RofN (2 ^ 64 - 1)%N.
  Proof. unfold RofN. apply IZR_lt. reflexivity. Qed.
  Lemma rf_range i : 0 <= rf i <= 1.
  Proof.
    unfold randFloat. cbn [RNum ndiv]. pose proof max_pos as P. unfold RofN in *.
    assert (A : 0 <= IZR (Z.of_N (hash i))) by (apply IZR_le; lia).
    assert (B : IZR (Z.of_N (hash i)) <= IZR (Z.of_N (2 ^ 64 - 1))) by (apply IZR_le; specialize (Hhash i); lia).
    split.
    - apply Rmult_le_pos; [auto|]. left. apply Rinv_0_lt_compat. auto.
    - apply Rmult_le_reg_r with (IZR (Z.of_N (2 ^ 64 - 1))); [auto|]. unfold Rdiv. rewrite Rmult_assoc, Rinv_l by lra. lra.
  Qed.
  (** 2^64-1 is odd *)
  Lemma rf_half i : 2 * rf i - 1 <> 0.
  Proof.
    unfold randFloat. cbn [RNum ndiv]. pose proof max_pos as P. unfold RofN in *. intros E.
    assert (F : 2 * IZR (Z.of_N (hash i)) = IZR (Z.of_N (2 ^ 64 - 1))).
    { apply Rmult_eq_reg_r with (/ IZR (Z.of_N (2 ^ 64 - 1))); [|apply Rinv_neq_0_compat; lra].
      rewrite Rinv_r by lra. unfold Rdiv in E. lra. }
    rewrite <- mult_IZR in F. apply eq_IZR in F. lia.
  Qed.
  Lemma seeds_length k : forall j s i, length (seeds hash k j s i) = k.
  Proof. induction k as [|k IH]; intros; cbn; auto. Qed.
  Lemma nd_length dim i : (0 < dim)%nat -> length (nd dim i) = dim.
  Proof. intros H. unfold randNd. rewrite map_length. cbn [length]. rewrite seeds_length. lia. Qed.
  Lemma nd_in dim i x : In x (nd dim i) -> exists s, x = 2 * rf s - 1.
  Proof. unfold randNd. rewrite one_R. intros H. apply in_map_iff in H as (s & <- & _). exists s. reflexivity. Qed.
  Lemma nd_range dim i x : In x (nd dim i) -> -1 <= x <= 1 /\ x <> 0.
  Proof. intros H. apply nd_in in H as (s & ->). pose proof (rf_range s). pose proof (@rf_half s). split; [lra|auto]. Qed.

  (** *** Norms *)
  Definition norm (dim : nat) (p : list R) : R := sqrt (rsum (fun i => nth i p 0 * nth i p 0) dim).
  Lemma nth_origin dim i : nth i (origin RNum dim) 0 = 0.
  Proof. unfold origin. cbn. revert i. induction dim as [|d IH]; intros [|i]; cbn; auto. Qed.
  Lemma dist_norm dim (p : list R) : dist RNum dim p (origin RNum dim) = norm dim p.
  Proof.
    unfold dist, norm. cbn [RNum nsqrt]. rewrite distSqr_sum. f_equal. apply rsum_ext. intros i _. unfold coord.
    change (nzero RNum) with 0.
    pose proof (nth_origin dim i) as E. cbn [RNum nT] in *. rewrite E. ring.
  Qed.
  Lemma nth_map0 (f : R -> R) p i : f 0 = 0 -> nth i (map f p) 0 = f (nth i p 0).
  Proof. intros H. rewrite <- H at 1. apply map_nth. Qed.
  Lemma norm_mul dim (p : list R) c : norm dim (pmul RNum p c) = Rabs c * norm dim p.
  Proof.
    unfold norm, pmul. cbn [RNum nmul]. rewrite (rsum_ext _ (fun i => (c * c) * (nth i p 0 * nth i p 0))).
    - rewrite rsum_scal, sqrt_mult_alt by apply Rle_0_sqr. rewrite <- (sqrt_Rsqr_abs c). reflexivity.
    - intros i _. rewrite (@nth_map0 (fun x => x * c)) by ring. ring.
  Qed.
  Lemma norm_div dim (p : list R) c : norm dim (pdiv RNum p c) = Rabs (/ c) * norm dim p.
  Proof.
    unfold norm, pdiv. cbn [RNum ndiv]. rewrite (rsum_ext _ (fun i => (/ c * / c) * (nth i p 0 * nth i p 0))).
    - rewrite rsum_scal, sqrt_mult_alt by apply Rle_0_sqr. rewrite <- (sqrt_Rsqr_abs (/ c)). reflexivity.
    - intros i _. rewrite (@nth_map0 (fun x => x / c)) by (unfold Rdiv; ring). unfold Rdiv. ring.
  Qed.
  Lemma norm_pos dim i : (0 < dim)%nat -> 0 < norm dim (nd dim i).
  Proof.
    intros H. apply sqrt_lt_R0. set (p := nd dim i). assert (Hn : nth 0 p 0 <> 0).
    { apply (@nd_range dim i). apply nth_In. rewrite nd_length; auto. }
    assert (T : nth 0 p 0 * nth 0 p 0 <= rsum (fun i => nth i p 0 * nth i p 0) dim).
    { apply (rsum_term (fun i => nth i p 0 * nth i p 0)); auto. intros; apply Rle_0_sqr. }
    pose proof (Rsqr_pos_lt _ Hn) as Q. exact (Rlt_le_trans _ _ _ Q T).
  Qed.

  Lemma sphereLoop_ok fuel dim : forall j i p, sphereLoop RNum RofN hash fuel dim j i = Ok p ->
    (exists s, p = nd dim s) /\ norm dim p <= 1.
  Proof.
    induction fuel as [|f IH]; intros j i p H; cbn [sphereLoop] in H; [discriminate|].
    rewrite dist_norm, one_R in H. cbn [RNum nlt] in H.
    destruct (Rltb 1 (norm dim (nd dim (wrap64 (hash j + i)%N)))) eqn:E; [eauto|].
    inversion H; subst. apply Rltb_false in E. eauto.
  Qed.
  Lemma sphereLoop_out fuel dim : forall j i,
    sphereLoop RNum RofN hash fuel dim j i = Fuel \/ exists p, sphereLoop RNum RofN hash fuel dim j i = Ok p.
  Proof. induction fuel as [|f IH]; intros j i; cbn [sphereLoop]; auto. destruct (nlt _ _ _); eauto. Qed.

  Lemma on_sphere fuel dim i r p : (0 < dim)%nat -> randOnUnitSphere RNum RofN hash fuel dim i r = Ok p ->
    norm dim p = Rabs r /\ length p = dim.
  Proof.
    intros Hd H. unfold randOnUnitSphere in H. apply bind_ok in H as (v & Hv & H). inversion H; subst; clear H.
    apply sphereLoop_ok in Hv as [[s ->] _].
    pose proof (dist_norm dim (nd dim s)) as E. rewrite norm_mul, norm_div. split.
    - pose proof (@norm_pos dim s Hd) as P.
      transitivity (Rabs r * (Rabs (/ norm dim (nd dim s)) * norm dim (nd dim s))); [rewrite <- E; reflexivity|]. rewrite (Rabs_pos_eq (/ _)) by (left; apply Rinv_0_lt_compat; auto). rewrite Rinv_l by lra. ring.
    - unfold pmul, pdiv. rewrite !map_length. apply nd_length. auto.
  Qed.
End UniR.

(** *** Filling *)
Lemma fillM_nth {A B} (f : A -> res B) l : forall r, fillM f l = Ok r ->
  length r = length l /\ forall i a b, (i < length l)%nat -> f (nth i l a) = Ok (nth i r b).
Proof.
  induction l as [|x l IH]; intros r H; cbn [fillM] in H.
  - inversion H; subst. split; auto. cbn. lia.
  - apply bind_ok in H as (y & Hy & H). apply bind_ok in H as (r' & Hr & H). inversion H; subst. apply IH in Hr as [L W].
    split; [cbn; lia|]. intros [|i] a b Hi; cbn [nth]; auto. apply W. cbn in Hi. lia.
Qed.
Lemma fillM_all {A B} (f : A -> res B) (g : A -> B) l : (forall a, In a l -> f a = Ok (g a)) -> fillM f l = Ok (map g l).
Proof.
  induction l as [|x l IH]; intros H; auto. cbn [fillM map]. rewrite H by (left; auto). cbn [bind].
  rewrite IH by (intros; apply H; right; auto). reflexivity.
Qed.
Lemma fillM_out {A B} (f : A -> res B) l : (forall a, In a l -> f a = Fuel \/ exists b, f a = Ok b) ->
  fillM f l = Fuel \/ exists r, fillM f l = Ok r.
Proof.
  induction l as [|x l IH]; intros H; cbn [fillM]; eauto. destruct (H x (or_introl eq_refl)) as [->|(b & ->)]; [auto|].
  cbn [bind]. destruct IH as [->|(r & ->)]; [intros; apply H; right; auto|auto|]. cbn [bind]. eauto.
Qed.
Lemma fillM_total {A B} (f : A -> res B) l : (forall a, In a l -> exists b, f a = Ok b) -> exists r, fillM f l = Ok r.
Proof.
  induction l as [|x l IH]; intros H; cbn [fillM]; eauto. destruct (H x (or_introl eq_refl)) as (b & ->).
  cbn [bind]. destruct IH as (r & ->); [intros; apply H; right; auto|]. cbn [bind]. eauto.
Qed.
Lemma fillM_throw {A B} (f : A -> res B) l : (exists a, In a l /\ f a = Throw) ->
  (forall a, In a l -> f a = Throw \/ exists b, f a = Ok b) -> fillM f l = Throw.
Proof.
  induction l as [|x l IH]; intros (a & Ha & E) H; [destruct Ha|]. cbn [fillM].
  destruct (H x (or_introl eq_refl)) as [->|(b & Eb)]; [reflexivity|]. rewrite Eb. cbn [bind].
  rewrite IH; [reflexivity| |intros; apply H; right; auto]. destruct Ha as [->|Ha]; [congruence|eauto].
Qed.
Lemma nth_seq0 n i d : (i < n)%nat -> nth i (seq 0 n) d = i.
Proof. intros. rewrite seq_nth by auto. reflexivity. Qed.

(** *** Sides *)
Lemma setC_length {N} (p : list (nT N)) c v : (c < length p)%nat -> length (setC N p c v) = length p.
Proof. intros H. unfold setC. rewrite app_length. cbn [length]. rewrite firstn_length, skipn_length. lia. Qed.
Lemma set_nth_gen {A} (p : list A) c v i d : (c < length p)%nat ->
  nth i (firstn c p ++ v :: skipn (S c) p) d = if (i =? c)%nat then v else nth i p d.
Proof.
  intros H. assert (L : length (firstn c p) = c) by (rewrite firstn_length; lia).
  destruct (Nat.eqb_spec i c) as [E|E].
  - subst i. rewrite app_nth2, L, Nat.sub_diag by lia. reflexivity.
  - destruct (lt_dec i c) as [Q|Q].
    + rewrite app_nth1 by lia. rewrite <- (firstn_skipn c p) at 2. rewrite app_nth1 by lia. reflexivity.
    + rewrite app_nth2 by lia. rewrite L. destruct (i - c)%nat as [|k] eqn:Ek; [lia|]. cbn [nth].
      assert (Hs : forall (l : list A) m k, nth k (skipn m l) d = nth (m + k) l d).
      { induction l as [|x l IH]; intros [|m] j; cbn; auto. destruct j; auto. }
      rewrite Hs. f_equal. lia.
Qed.
Lemma setC_nth (p : list R) c v i : (c < length p)%nat -> nth i (setC RNum p c v) 0 = if (i =? c)%nat then v else nth i p 0.
Proof. exact (@set_nth_gen R p c v i 0). Qed.
Lemma nth_combine_seq {A} (P : list A) i d : (i < length P)%nat -> nth i (combine (seq 0 (length P)) P) (0%nat, d) = (i, nth i P d).
Proof. intros H. rewrite combine_nth by (rewrite seq_length; auto). rewrite nth_seq0 by auto. reflexivity. Qed.

Section Cube.
  Variable hash : BinNums.N -> BinNums.N.
  Hypothesis Hhash : forall i, (hash i < 2 ^ 64)%N.
  Notation nd := (randNd RNum RofN hash).
  Variable t : R.
  Hypothesis Ht : 0 < t.

  (** near the side [c], [up] of the cube *)
  Definition near (dim c : nat) (up : bool) (p : list R) : Prop :=
    length p = dim /\ Rabs (nth c p 0 - (if up then 1 else -1)) <= t /\
    forall i, (i < dim)%nat -> i <> c -> Rabs (nth i p 0) <= 1.

  Lemma range_ok i b : exists v, randRange RNum RofN hash i (b - t) (b + t) = Ok v /\ Rabs (v - b) <= t.
  Proof.
    unfold randRange. cbn [RNum nle]. destruct (Rleb (b + t) (b - t)) eqn:E; [apply Rleb_true in E; lra|].
    eexists. split; [reflexivity|]. cbn [RNum nadd nsub nmul]. pose proof (rf_range hash Hhash (wrap64 (i + 1))) as R.
    set (f := randFloat _ _ _ _) in *. apply Rabs_le. cbn [RNum nT] in *. nra.
  Qed.
  Lemma nd_near dim i : (0 < dim)%nat -> forall k, (k < dim)%nat -> Rabs (nth k (nd dim i) 0) <= 1.
  Proof.
    intros Hd k Hk. apply Rabs_le. apply (@nd_range hash Hhash dim i). apply nth_In. rewrite nd_length; auto.
  Qed.

  Lemma sideLoop_ok dim (P : list (list R)) m k c (up : bool) : (c < dim)%nat ->
    (forall i, (m <= i < m + k)%nat -> (i < length P)%nat -> nth i P [] = nd dim (idx i)) ->
    exists P', sideLoop RNum RofN hash P m k c ((if up then 1 else -1) - t) ((if up then 1 else -1) + t) = Ok P' /\
      length P' = length P /\
      (forall i, (i < length P)%nat -> ~ (m <= i < m + k)%nat -> nth i P' [] = nth i P []) /\
      (forall i, (i < length P)%nat -> (m <= i < m + k)%nat -> near dim c up (nth i P' [])).
  Proof.
    intros Hc HP. unfold sideLoop. set (b := if up then 1 else -1). set (F := fun ip : nat * upt RNum => _).
    assert (HF : exists P', fillM F (combine (seq 0 (length P)) P) = Ok P').
    { apply fillM_total. intros a _. unfold F. destruct (_ && _); [|eauto]. destruct (range_ok (idx (fst a)) b) as (v & Ev & _).
      exists (setC RNum (snd a) c v). exact (f_equal (fun r => bind r (fun v => Ok (setC RNum (snd a) c v))) Ev). }
    destruct HF as (P' & E).
    exists P'. split; [exact E|]. destruct (@fillM_nth _ _ F _ _ E) as [L W]. rewrite combine_length, seq_length, Nat.min_id in *.
    split; auto. split; intros i Hi Hr; pose proof (eq_trans (f_equal F (eq_sym (nth_combine_seq P [] Hi))) (W i (0%nat, []) [] Hi)) as W'; clear W; rename W' into W; unfold F in W; cbn [fst snd] in W.
    - destruct (Nat.leb_spec m i); destruct (Nat.ltb_spec i (m + k)); cbn [andb] in W; try lia; inversion W; auto.
    - destruct (Nat.leb_spec m i); destruct (Nat.ltb_spec i (m + k)); cbn [andb] in W; try lia.
      destruct (range_ok (idx i) b) as (v & Ev & Hv).
      assert (EW : Ok (setC RNum (nth i P []) c v) = Ok (nth i P' [])).
      { rewrite <- W. symmetry. exact (f_equal (fun r => bind r (fun v => Ok (setC RNum (nth i P []) c v))) Ev). }
      assert (EN : nth i P' [] = setC RNum (nd dim (idx i)) c v) by (rewrite <- (HP i) by auto; congruence).
      assert (Ld : length (nd dim (idx i)) = dim) by (apply nd_length; lia).
      assert (Lc : (c < @length R (nd dim (idx i)))%nat) by (replace (@length R (nd dim (idx i))) with dim by (symmetry; exact Ld); exact Hc).
      unfold near. rewrite EN. split; [refine (eq_trans (@setC_length RNum (nd dim (idx i)) c v Lc) Ld)|]. split.
      + pose proof (@setC_nth (nd dim (idx i)) c v c Lc) as Q. rewrite Nat.eqb_refl in Q.
        exact (eq_ind_r (fun x : R => Rabs (x - b) <= t) Hv Q).
      + intros j Hj Hn. pose proof (@setC_nth (nd dim (idx i)) c v j Lc) as Q.
        destruct (Nat.eqb_spec j c); [congruence|].
        refine (eq_ind_r (fun x : R => Rabs x <= 1) _ Q). apply nd_near; lia.
  Qed.

  (** the side of position i, when m positions are done *)
  Fixpoint sideAt (n sideN m : nat) (ss : list (nat * bool)) (i : nat) : option (nat * bool) :=
    match ss with
    | [] => None
    | s :: ss' =>
      if (m <=? i)%nat && (i <? m + match ss' with [] => n - m | _ => sideN end)%nat then Some s
      else sideAt n sideN (m + sideN) ss' i
    end.
  Lemma runSides_ok dim n sideN ss : (forall s, In s ss -> (fst s < dim)%nat) -> forall m (P : list (list R)),
    length P = n -> (m + length ss * sideN <= n)%nat ->
    (forall i, (m <= i < n)%nat -> nth i P [] = nd dim (idx i)) ->
    exists P', runSides RNum RofN hash n sideN m t ss P = Ok P' /\ length P' = n /\
      (forall i, (i < m)%nat -> (i < n)%nat -> nth i P' [] = nth i P []) /\
      (forall i s, (m <= i < n)%nat -> sideAt n sideN m ss i = Some s -> near dim (fst s) (snd s) (nth i P' [])).
  Proof.
    induction ss as [|[c up] ss IH]; intros Hs m P HL Hm HP.
    - exists P. split; [reflexivity|]. split; auto. split; auto. intros i s _ F. discriminate.
    - cbn [runSides sideAt]. set (k := match ss with [] => (n - m)%nat | _ => sideN end).
      assert (Hk : (m + k <= n)%nat) by (unfold k; destruct ss; cbn [length] in Hm; lia).
      destruct (@sideLoop_ok dim P m k c up) as (P1 & E1 & L1 & K1 & S1).
      { apply (Hs (c, up)). left. auto. }
      { intros i Hi Hl. apply HP. lia. }
      assert (E1' : sideLoop RNum RofN hash P m k c (nsub RNum (if up then one RNum else nneg1 RNum) t)
                     (nadd RNum (if up then one RNum else nneg1 RNum) t) = Ok P1).
      { rewrite one_R. exact E1. }
      rewrite E1'. cbn [bind]. destruct ss as [|s2 ss].
      + exists P1. split; [reflexivity|]. split; [lia|]. split.
        * intros i Hi Hn. apply K1; lia.
        * intros i s Hi Hsd. cbn [sideAt] in Hsd. destruct (_ && _) eqn:B; [|discriminate]. injection Hsd as <-.
          apply andb_true_iff in B as [B1 B2]. apply Nat.leb_le in B1. apply Nat.ltb_lt in B2. apply S1; lia.
      + destruct (IH ltac:(intros; apply Hs; right; auto) (m + sideN)%nat P1) as (P2 & E2 & L2 & K2 & S2).
        * exact (eq_trans L1 HL).
        * cbn [length] in *. lia.
        * intros i Hi. refine (eq_trans (K1 i _ _) _); [rewrite HL; lia|unfold k; lia|]. apply HP. lia.
        * exists P2. split; [exact E2|]. split; auto. split.
          -- intros i Hi Hn. refine (eq_trans (K2 i _ _) (K1 i _ _)); try rewrite HL; unfold k; lia.
          -- intros i s Hi Hsd. destruct ((m <=? i)%nat && (i <? m + k)%nat) eqn:B.
             ++ injection Hsd as <-. apply andb_true_iff in B as [B1 B2]. apply Nat.leb_le in B1. apply Nat.ltb_lt in B2.
                refine (eq_ind_r (near dim c up) _ (K2 i _ _)); [apply S1; rewrite ?HL; lia|unfold k in B2; lia|lia].
             ++ assert (m + sideN <= i)%nat.
                { apply andb_false_iff in B as [B|B]; [apply Nat.leb_gt in B; lia|apply Nat.ltb_ge in B; unfold k in B; lia]. }
                apply S2; auto. lia.
  Qed.
End Cube.
