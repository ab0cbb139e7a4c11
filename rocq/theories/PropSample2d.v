(** C101: the samples of the planar hull. *)
From Coq Require Import Floats Reals Lra Lia List Bool Arith.
From Verif Require Import Base Num FloatNum KdModel Hull2dModel Hull2dQuick Sample2dModel.
Set Implicit Arguments.
Import ListNotations.
Open Scope nat_scope.

Notation pt2 := (list R).
Definition px (p : pt2) : R := nth 0 p 0%R.
Definition py (p : pt2) : R := nth 1 p 0%R.
(** the position of [z] along the line from [a] to [b], times its length *)
Definition along (a b z : pt2) : R := ((px z - px a) * (px b - px a) + (py z - py a) * (py b - py a))%R.
(** the points from position [s] on, at most [k] *)
Definition window (P : list pt2) (s k : nat) (z : pt2) : Prop := exists i, s <= i < s + k /\ nth_error P i = Some z.
(** a lowest and a highest point of the window along the line of two points *)
Definition lowHigh (P : list pt2) (s k : nat) (p q : pt2) : Prop :=
  exists a b, nth_error P s = Some a /\ nth_error P (length P - s) = Some b /\ window P s k p /\ window P s k q /\
    forall z, window P s k z -> (along a b p <= along a b z <= along a b q)%R.

Lemma mapR_ub X Y (f : X -> res Y) l x : In x l -> f x = UB -> (forall y, In y l -> f y = UB \/ exists z, f y = Ok z) -> mapR f l = UB.
Proof.
  induction l as [|y l IH]; intros Hx Ex H; [destruct Hx|]. cbn [mapR]. destruct (H y (or_introl eq_refl)) as [E|[z E]]; rewrite E; [reflexivity|]. cbn [bind].
  destruct Hx as [->|Hx]; [congruence|]. rewrite IH; auto. intros; apply H; right; auto.
Qed.
Lemma mapR_get X Y (f : X -> res Y) l : (forall x, In x l -> exists y, f x = Ok y) -> exists ys, mapR f l = Ok ys /\ Forall2 (fun x y => f x = Ok y) l ys.
Proof.
  induction l as [|x l IH]; intros H; [exists []; auto|]. destruct (H x (or_introl eq_refl)) as (y & E). destruct IH as (ys & Ey & F); [intros; apply H; right; auto|].
  exists (y :: ys). cbn [mapR]. rewrite E. cbn [bind]. rewrite Ey. split; auto.
Qed.
Lemma nth_firstn X k : forall (l : list X) i z, nth_error (firstn k l) i = Some z <-> i < k /\ nth_error l i = Some z.
Proof.
  induction k as [|k IH]; intros l i z; [cbn; destruct i; split; [discriminate|lia|discriminate|lia]|].
  destruct l as [|x l]; [cbn; destruct i; split; intros H; try discriminate; destruct H; discriminate|]. destruct i as [|i]; cbn [firstn nth_error]; [|rewrite IH].
  - split; [intros ->; split; [lia|auto]|tauto].
  - split; intros [A B]; split; auto; lia.
Qed.
Lemma nth_skipn X s : forall (l : list X) i, nth_error (skipn s l) i = nth_error l (s + i).
Proof. induction s as [|s IH]; intros l i; auto. destruct l as [|x l]; [cbn; destruct i; auto|]. cbn [skipn]. rewrite IH. reflexivity. Qed.
Lemma window_in P s k n z : n = length P -> In z (firstn (Nat.min (s + k) n - s) (skipn s P)) <-> window P s k z.
Proof.
  intros ->. unfold window. split.
  - intros H. apply In_nth_error in H as (i & E). apply nth_firstn in E as [L E]. rewrite nth_skipn in E. exists (s + i). split; [lia|auto].
  - intros (i & L & E). assert (i < length P) by (apply nth_error_Some; congruence). apply nth_error_In with (n := i - s). apply nth_firstn. split; [lia|].
    rewrite nth_skipn. replace (s + (i - s)) with i by lia. exact E.
Qed.

Section Proj.
  Variable hash : nat -> nat.
  Variable mm : (pt2 -> pt2 -> bool) -> list pt2 -> nat * nat.
  Hypothesis Hmm : minmax_ok RNum mm.
  Variable P : list pt2.
  Hypothesis NP : P <> [].
  Notation n := (length P).
  Lemma n0 : n <> 0. Proof. destruct P; [congruence|discriminate]. Qed.
  Lemma hashed2_ok i : @hashed2 RNum hash P i = Ok (hash i mod n).
  Proof. unfold hashed2. change (@length (list (nT RNum)) P) with n. destruct (Nat.eqb_spec n 0) as [E|E]; [destruct (n0 E)|reflexivity]. Qed.
  Lemma at_get X (l : list X) i : i < length l -> exists x, at_ l i = Ok x /\ nth_error l i = Some x.
  Proof. intros H. unfold at_. destruct (nth_error l i) eqn:E; [eauto|]. apply nth_error_None in E. lia. Qed.

  Lemma project2_ub m i : hash i mod n = 0 -> @project2 RNum hash mm P m i = UB.
  Proof.
    intros E. unfold project2. rewrite hashed2_ok, E. cbn [bind]. destruct (@at_get (list (nT RNum)) P 0) as (a & -> & _); [apply Nat.neq_0_lt_0; exact n0|]. cbn [bind].
    unfold at_ at 1. rewrite Nat.sub_0_r. assert (X : @nth_error (list (nT RNum)) P (@length (list (nT RNum)) P) = None) by (apply nth_error_None; apply le_n).
    rewrite X. reflexivity.
  Qed.
  Lemma project2_ok m i : 0 < m -> hash i mod n <> 0 -> exists p q, @project2 RNum hash mm P m i = Ok [p; q] /\ lowHigh P (hash i mod n) (m * 2) p q.
  Proof.
    intros Hm Hi. unfold project2. rewrite hashed2_ok. cbn [bind]. set (s := hash i mod n) in *. assert (Ls : s < n) by (apply Nat.mod_upper_bound, n0).
    destruct (@at_get (list (nT RNum)) P s Ls) as (a & -> & Ea). cbn [bind]. change (@length (list (nT RNum)) P) with n.
    assert (Lb : n - s < n) by lia. destruct (@at_get (list (nT RNum)) P (n - s) Lb) as (b & -> & Eb). cbn [bind]. cbv zeta.
    set (ab := @sub2 RNum b a). set (lt := fun p1 p2 : list (nT RNum) => _). set (C := firstn _ _).
    assert (WC : forall z, In z C <-> window P s (m * 2) z) by (intros z; apply window_in; auto).
    assert (NC : C <> []).
    { intros E. assert (In a C) by (apply WC; exists s; split; [lia|auto]). rewrite E in H. destruct H. }
    assert (SW : swo lt).
    { unfold lt. cbn [nlt RNum]. split; [|split].
      - intros x. apply Rltb_false. lra.
      - intros x y z A B. apply Rltb_true in A, B. apply Rltb_true. lra.
      - intros x y z A. apply Rltb_true in A. rewrite !Rltb_true. match goal with |- (?u < ?v)%R \/ _ => destruct (Rlt_dec u v) end; auto. right. lra. }
    destruct (Hmm SW NC) as (L1 & L2 & H). destruct (mm lt C) as [l h] eqn:EM. cbn [fst snd] in *.
    destruct (@at_get (list (nT RNum)) C l L1) as (p & Ep & Np). destruct (@at_get (list (nT RNum)) C h L2) as (q & Eq & Nq).
    exists p, q. split.
    { etransitivity; [apply (f_equal (fun x => bind x _)); exact Ep|]. cbn [bind]. etransitivity; [apply (f_equal (fun x => bind x _)); exact Eq|]. reflexivity. }
    exists a, b. repeat (split; [assumption|]). split; [apply WC; eapply nth_error_In; eauto|]. split; [apply WC; eapply nth_error_In; eauto|].
    intros z Hz. apply WC in Hz. destruct (H z Hz) as (A & B). rewrite (nth_error_nth C l [] Np) in A. rewrite (nth_error_nth C h [] Nq) in B.
    assert (K : forall u v, lt u v = false -> (along a b v <= along a b u)%R).
    { intros u v E. unfold lt in E. cbn [nlt RNum] in E. apply Rltb_false in E. cbn [ndiv RNum] in E.
      assert (D : forall w, @dot2 RNum (@sub2 RNum w a) ab = along a b w).
      { intros w. change (0 + (px w - px a) * (px b - px a) + (py w - py a) * (py b - py a) = along a b w)%R. unfold along. ring. }
      rewrite !D in E. assert (Dab : @dot2 RNum ab ab = ((px b - px a) * (px b - px a) + (py b - py a) * (py b - py a))%R).
      { change (0 + (px b - px a) * (px b - px a) + (py b - py a) * (py b - py a) = (px b - px a) * (px b - px a) + (py b - py a) * (py b - py a))%R. ring. }
      rewrite Dab in E. unfold along in *. set (x := (px b - px a)%R) in *. set (y := (py b - py a)%R) in *.
      destruct (Req_dec (x * x + y * y) 0) as [Z|Z].
      - assert (x = 0)%R by nra. assert (y = 0)%R by nra. rewrite H0, H1. lra.
      - assert (G : (0 < x * x + y * y)%R) by nra. apply Rmult_le_compat_r with (r := (x * x + y * y)%R) in E; [|lra].
        unfold Rdiv in E. rewrite !Rmult_assoc, Rinv_l, !Rmult_1_r in E by lra. exact E. }
    split; apply K; auto.
  Qed.
End Proj.

Lemma pairs_nth (X : Type) (R : nat -> X -> X -> Prop) (f : nat -> res (list X)) : forall m s ys, Forall2 (fun i l => f i = Ok l) (seq s m) ys ->
  (forall i, s <= i < s + m -> exists p q, f i = Ok [p; q] /\ R i p q) ->
  length (concat ys) = 2 * m /\ forall i, i < m -> exists p q, nth_error (concat ys) (2 * i) = Some p /\ nth_error (concat ys) (2 * i + 1) = Some q /\ R (s + i) p q.
Proof.
  induction m as [|m IH]; intros s ys F H; cbn [seq] in F.
  - inversion F; subst ys. split; auto. intros; lia.
  - destruct ys as [|y ys]; [inversion F|]. assert (Fy : f s = Ok y /\ Forall2 (fun i l => f i = Ok l) (seq (S s) m) ys) by (inversion F; auto). clear F. destruct Fy as [Ey F].
    destruct (H s ltac:(lia)) as (p & q & E & Rpq). rewrite E in Ey. injection Ey as <-.
    destruct (IH (S s) ys F) as (L & G); [intros i Hi; apply H; lia|]. cbn [concat app length]. split; [lia|].
    intros [|i] Hi; [exists p, q; rewrite Nat.add_0_r; auto|]. destruct (G i ltac:(lia)) as (p' & q' & A & B & C). exists p', q'.
    replace (2 * S i) with (S (S (2 * i))) by lia. replace (S (S (2 * i)) + 1) with (S (S (2 * i + 1))) by lia. cbn [nth_error].
    replace (s + S i) with (S s + i) by lia. auto.
Qed.

(** C101: the sample by random projections: for each of the [m] hash values, the
    lowest and the highest point of a window along a line. *)
Theorem C101_projection_partial : forall hash mm P m0, minmax_ok RNum mm -> P <> [] -> let m := Nat.max 2 (m0 / 2) in
  (forall i, i < m -> hash i mod length P <> 0) -> exists Sm, @randomProjection2 RNum hash mm P m0 = Ok Sm /\ length Sm = 2 * m /\
    forall i, i < m -> exists p q, nth_error Sm (2 * i) = Some p /\ nth_error Sm (2 * i + 1) = Some q /\ lowHigh P (hash i mod length P) (2 * m) p q.
Proof.
  intros hash mm P m0 Hm NP m H. unfold randomProjection2. fold m. cbv zeta.
  assert (M0 : 0 < m) by (unfold m; lia).
  assert (Ok1 : forall i, 0 <= i < 0 + m -> exists p q, @project2 RNum hash mm P m i = Ok [p; q] /\ lowHigh P (hash i mod length P) (2 * m) p q).
  { intros i Hi. rewrite (Nat.mul_comm 2). apply project2_ok; auto. apply H. lia. }
  destruct (@mapR_get _ _ (@project2 RNum hash mm P m) (seq 0 m)) as (ys & Ey & F).
  { intros i Hi. apply in_seq in Hi. destruct (Ok1 i Hi) as (p & q & E & _). eauto. }
  rewrite Ey. cbn [bind]. exists (concat ys). split; auto.
  exact (@pairs_nth _ (fun i p q => lowHigh P (hash i mod length P) (2 * m) p q) _ m 0 ys F Ok1).
Qed.
Print Assumptions C101_projection_partial.

(** C101: the random sample. *)
Theorem C101_sample : forall hash P m, P <> [] -> exists Sm, @randomSample2 RNum hash P m = Ok Sm /\ length Sm = m /\
  forall i, i < m -> nth_error Sm i = nth_error P (hash i mod length P).
Proof.
  intros hash P m NP. unfold randomSample2.
  assert (G : forall i, exists p, (j <- @hashed2 RNum hash P i ;; at_ P j) = Ok p /\ nth_error P (hash i mod length P) = Some p).
  { intros i. rewrite (hashed2_ok hash NP). cbn [bind]. apply at_get, Nat.mod_upper_bound, n0; auto. }
  assert (X : forall m s, exists Sm, mapR (fun i => j <- @hashed2 RNum hash P i ;; at_ P j) (seq s m) = Ok Sm /\ length Sm = m /\
    forall i, i < m -> nth_error Sm i = nth_error P (hash (s + i) mod length P)).
  { clear m. induction m as [|m IH]; intros s; [exists []; repeat split; intros; lia|]. destruct (G s) as (p & E & Np). destruct (IH (S s)) as (Sm & ES & L & H).
    exists (p :: Sm). cbn [seq mapR]. rewrite E. cbn [bind]. rewrite ES. cbn [bind length]. split; [auto|]. split; [lia|]. intros [|i] Hi; cbn [nth_error].
    - rewrite Nat.add_0_r. auto.
    - rewrite H by lia. do 3 f_equal. lia. }
  exact (X m 0).
Qed.
Print Assumptions C101_sample.

(** C101 refuted: a hash value that is a multiple of the number of points reads
    one past the last point, and the hull of a thousand points or more with it. *)
Theorem C101_past_end_refuted : forall hash mm red P t sched size i, minmax_ok RNum mm -> 1000 <= length P ->
  i < Nat.max 2 (Nat.max size 5 / 2) -> hash i mod length P = 0 -> @sampledHull2 RNum hash mm red P t sched size = UB.
Proof.
  intros hash mm red P t sched size i Hm L Hi E. unfold sampledHull2. assert (NP : P <> []) by (intros ->; cbn in L; lia).
  destruct (Nat.ltb_spec (@length (list (nT RNum)) P) (N.to_nat 1000)) as [L1|_].
  { exfalso. apply (Nat.lt_irrefl 1000). eapply Nat.le_lt_trans; [exact L|]. exact L1. }
  unfold randomProjection2. set (m := Nat.max 2 (Nat.max size 5 / 2)) in *. cbv zeta.
  rewrite (@mapR_ub _ _ (@project2 RNum hash mm P m) (seq 0 m) i); [reflexivity|apply in_seq; lia|apply project2_ub; auto|].
  intros j _. destruct (Nat.eq_dec (hash j mod length P) 0) as [Z|Z]; [left; apply project2_ub; auto|].
  right. destruct (@project2_ok hash mm Hm P NP m j) as (p & q & Ej & _); [unfold m; lia|auto|eauto].
Qed.
Print Assumptions C101_past_end_refuted.

(** A run on doubles; the windows start at positions 3, 1 and 6. *)
Definition seven : list (list (nT FNum)) := [[0; 0]; [4; 1]; [1; 3]; [2; 2]; [5; 5]; [3; 0]; [-1; 2]]%float.
Example C101_example : @randomProjection2 FNum (fun i => 5 * i + 3) (@minmaxI FNum) seven 7 = Ok [[-1; 2]; [5; 5]; [5; 5]; [-1; 2]; [-1; 2]; [-1; 2]]%float.
Proof. vm_compute. reflexivity. Qed.
(** The hypotheses of the refuted claim are met: the first hash value is 2000. *)
Example C101_past_end_example : @sampledHull2 RNum (fun i => i + N.to_nat 2000) (@minmaxI RNum) (@redI _) (repeat [1; 2]%R (N.to_nat 1000)) (@Leaf RNum nat [] {| bmin := []; bmax := [] |}) [] 10 = UB.
Proof.
  apply C101_past_end_refuted with (i := 0); [apply minmaxI_ok|rewrite repeat_length; lia|cbn; lia|]. rewrite repeat_length. cbn [Nat.add].
  replace (N.to_nat 2000) with (2 * N.to_nat 1000) by lia. apply Nat.mod_mul. lia.
Qed.
