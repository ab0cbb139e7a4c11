(** Welzl's algorithm and its variants compute the smallest enclosing ball in
    exact arithmetic. *)
From Coq Require Import Reals Lra.
From Verif Require Import Base Num KdModel RGeom SebModel SebPrefix SebGeom SebCirc.
Set Implicit Arguments.
Unset Strict Implicit.
Local Open Scope R_scope.

(** *** swaps *)
Section Swap.
  Notation pt := (list (nT RNum)).
  Notation swap := (swap RNum).
  Lemma swap_length (A : list pt) i j : length (swap A i j) = length A.
  Proof. unfold SebModel.swap. rewrite !upd_length. reflexivity. Qed.
  Lemma upd_firstn2 T i (x : T) n l : (i < n)%nat -> firstn n (upd i x l) = upd i x (firstn n l).
  Proof.
    revert i n. induction l as [|y l IH]; intros i n H; [destruct i, n; reflexivity|].
    destruct n; [lia|]. destruct i; cbn [upd firstn]; auto. rewrite IH by lia. reflexivity.
  Qed.
  Lemma upd_firstn1 T i (x : T) n l : (n <= i)%nat -> firstn n (upd i x l) = firstn n l.
  Proof.
    revert i n. induction l as [|y l IH]; intros i n H; [destruct i, n; reflexivity|].
    destruct n; [reflexivity|]. destruct i; [lia|]. cbn [upd firstn]. rewrite IH by lia. reflexivity.
  Qed.
  Lemma upd_skipn T i (x : T) n l : (i < n)%nat -> skipn n (upd i x l) = skipn n l.
  Proof.
    revert i n. induction l as [|y l IH]; intros i n H; [destruct i, n; reflexivity|].
    destruct n; [lia|]. destruct i; cbn [upd skipn]; auto. apply IH. lia.
  Qed.
  Lemma nth_firstn T i n (l : list T) d : (i < n)%nat -> nth i (firstn n l) d = nth i l d.
  Proof.
    revert i n. induction l as [|y l IH]; intros i n H; [destruct i, n; reflexivity|].
    destruct n; [lia|]. destruct i; cbn [firstn nth]; auto. apply IH. lia.
  Qed.
  Lemma swap_firstn (A : list pt) i j n : (i < n)%nat -> (j < n)%nat -> firstn n (swap A i j) = swap (firstn n A) i j.
  Proof. intros. unfold SebModel.swap. rewrite !upd_firstn2, !nth_firstn by auto. reflexivity. Qed.
  Lemma swap_firstn_lt (A : list pt) i j n : (n <= i)%nat -> (n <= j)%nat -> firstn n (swap A i j) = firstn n A.
  Proof. intros. unfold SebModel.swap. rewrite !upd_firstn1 by auto. reflexivity. Qed.
  Lemma swap_skipn (A : list pt) i j n : (i < n)%nat -> (j < n)%nat -> skipn n (swap A i j) = skipn n A.
  Proof. intros. unfold SebModel.swap. rewrite !upd_skipn by auto. reflexivity. Qed.
  Lemma upd_perm T i (x : T) l d : (i < length l)%nat -> Permutation (x :: l) (nth i l d :: upd i x l).
  Proof.
    revert i. induction l as [|y l IH]; intros i H; [cbn in H; lia|]. destruct i; cbn [upd nth].
    - apply perm_swap.
    - cbn [length] in H. eapply perm_trans; [apply perm_swap|]. eapply perm_trans; [apply perm_skip, (IH i); lia|]. apply perm_swap.
  Qed.
  Lemma swap_perm (A : list pt) i j : (i < length A)%nat -> (j < length A)%nat -> Permutation A (swap A i j).
  Proof.
    intros Hi Hj. unfold SebModel.swap.
    pose proof (upd_perm (i := i) (nth j A []) (l := upd j (nth i A []) A) [] ltac:(rewrite upd_length; auto)) as P1.
    pose proof (upd_perm (i := j) (nth i A []) (l := A) [] Hj) as P2.
    destruct (Nat.eq_dec i j) as [->|Hne].
    - rewrite nth_upd_eq in P1 by auto. apply Permutation_cons_inv in P1. apply Permutation_cons_inv in P2. eapply perm_trans; eauto.
    - rewrite nth_upd_neq in P1 by auto.
      apply Permutation_cons_inv with (a := nth i A []). eapply perm_trans; [exact P2|]. exact P1.
  Qed.
  Lemma swap_nth1 (A : list pt) i j : (i < length A)%nat -> nth i (swap A i j) [] = nth j A [].
  Proof. intros. unfold SebModel.swap. apply nth_upd_eq. rewrite upd_length; auto. Qed.
  Lemma swap_nth2 (A : list pt) i j : (i < length A)%nat -> (j < length A)%nat -> nth j (swap A i j) [] = nth i A [].
  Proof.
    intros. unfold SebModel.swap. destruct (Nat.eq_dec i j) as [->|]; [apply nth_upd_eq; rewrite upd_length; auto|].
    rewrite nth_upd_neq by auto. apply nth_upd_eq. auto.
  Qed.
  Lemma firstn_S T n (l : list T) d : (n < length l)%nat -> firstn (S n) l = firstn n l ++ [nth n l d].
  Proof.
    revert n. induction l as [|y l IH]; intros n H; [cbn in H; lia|]. destruct n; cbn [firstn nth app]; auto.
    rewrite <- IH by (cbn in H; lia). reflexivity.
  Qed.
  Lemma nth_skipn T n k (l : list T) d : nth k (skipn n l) d = nth (n + k) l d.
  Proof. revert n. induction l as [|y l IH]; intros n; destruct n; cbn [skipn plus nth]; auto. destruct k; auto. Qed.
  Lemma skipn_skipn T a b (l : list T) : skipn a (skipn b l) = skipn (a + b) l.
  Proof.
    rewrite Nat.add_comm. revert b. induction l as [|y l IH]; intros b; [rewrite !skipn_nil; reflexivity|].
    destruct b; cbn [skipn plus]; auto.
  Qed.
  Lemma perm_len (A A' : list pt) n : Permutation (firstn n A) (firstn n A') -> skipn n A' = skipn n A -> length A' = length A.
  Proof.
    intros H1 H2. rewrite <- (firstn_skipn n A), <- (firstn_skipn n A'), !app_length, H2. f_equal. symmetry. apply Permutation_length; auto.
  Qed.
End Swap.

Section Welzl.
  Variable dim : nat.
  Hypothesis Hdim : (2 <= dim)%nat.
  Variables mtf piv : bool.
  Notation pt := (list (nT RNum)).
  Notation D2 := (D2 dim). Notation md := (md dim). Notation feas := (feas dim).
  Notation ctr B := (cv (center dim B)).
  Notation rd := (rd RNum).
  Notation ballNew := (ballNew RNum dim 1).
  Notation support2Ball := (support2Ball RNum dim 1).
  Notation cvs := (map cv).
  Notation process := (@process RNum dim 0).

  Definition okBall (Pts R : list pt) (B : ball RNum) : Prop :=
    0 <= bR B /\ md (cvs Pts) (cvs R) (ctr B) (bR B * bR B) /\ md (cvs (bP B)) (cvs R) (ctr B) (bR B * bR B) /\
    incl (bP B) (Pts ++ R) /\ incl R (bP B) /\ ballNew (bP B) = Ok B.

  Definition pre (A : list pt) (n : nat) (R : list pt) : Prop :=
    (n <= length A)%nat /\ Forall (fun p => length p = dim) A /\ Forall (fun p => length p = dim) R /\
    (length R <= dim + 1)%nat /\ indep dim (cvs R) /\ (2 <= n + length R)%nat /\
    exists c s, 0 <= s /\ feas (cvs (firstn n A)) (cvs R) c s.

  Definition post (A : list pt) (n : nat) (R : list pt) (r : res (state RNum)) : Prop :=
    exists A' B, r = Ok (A', B) /\ Permutation (firstn n A) (firstn n A') /\ skipn n A' = skipn n A /\
      okBall (firstn n A') R B.

  Lemma rd_ok (A : list pt) i : (i < length A)%nat -> rd A i = Ok (nth i A []).
  Proof. intros H. unfold SebModel.rd. rewrite (nth_error_nth' A [] H). reflexivity. Qed.

  Lemma in_cvs x (l : list pt) : In x (cvs l) <-> exists p, cv p = x /\ In p l.
  Proof. apply in_map_iff. Qed.

  (** the ball of two points *)
  Lemma two_md (a b : pt) c s : circ dim (cvs [a; b]) c s -> md (cvs [a; b]) [] c s.
  Proof.
    cbn [map circ]. intros [H (La & HLa)].
    assert (Ha : D2 c (cv a) = s) by (apply H; simpl; auto). assert (Hb : D2 c (cv b) = s) by (apply H; simpl; auto).
    split; [split|split].
    - intros p [<-|[<-|[]]]; lra.
    - intros ? [].
    - rewrite <- Ha. apply D2_pos.
    - intros c' s' [F _] Hs'. pose proof (F (cv a) ltac:(simpl; auto)) as Fa. pose proof (F (cv b) ltac:(simpl; auto)) as Fb.
      assert (E1 : D2 (cv a) (cv b) = 4 * s).
      { set (t := La 0%nat). set (D := D2 (cv a) (cv b)) in *.
        assert (Sa : D2 c (cv a) = t * t * D).
        { unfold D, SebGeom.D2, SebGeom.ip. rewrite <- rsum_scal. apply rsum_ext. intros i Hi. unfold vminus.
          specialize (HLa i Hi). cbn [length rsum] in HLa. unfold diffs, vminus in HLa. cbn [nth] in HLa. fold t in HLa.
          replace (c i) with (cv a i + t * (cv b i - cv a i)) by lra. ring. }
        assert (Sb : D2 c (cv b) = (1 - t) * (1 - t) * D).
        { unfold D, SebGeom.D2, SebGeom.ip. rewrite <- rsum_scal. apply rsum_ext. intros i Hi. unfold vminus.
          specialize (HLa i Hi). cbn [length rsum] in HLa. unfold diffs, vminus in HLa. cbn [nth] in HLa. fold t in HLa.
          replace (c i) with (cv a i + t * (cv b i - cv a i)) by lra. ring. }
        assert (EQ : (1 - 2 * t) * D = 0) by nra. apply Rmult_integral in EQ as [EQ|EQ].
        - assert (t = 1/2) by lra. rewrite H0 in Sa. nra.
        - rewrite EQ in *. lra. }
      assert (E2 : D2 (cv a) (cv b) <= 2 * (D2 c' (cv a) + D2 c' (cv b))).
      { assert (S : 0 <= rsum (fun i => (cv a i + cv b i - 2 * c' i) * (cv a i + cv b i - 2 * c' i)) dim)
          by (apply rsum_nonneg; intros; apply Rle_0_sqr).
        enough (E : 2 * (D2 c' (cv a) + D2 c' (cv b)) =
                D2 (cv a) (cv b) + rsum (fun i => (cv a i + cv b i - 2 * c' i) * (cv a i + cv b i - 2 * c' i)) dim) by lra.
        unfold SebGeom.D2, SebGeom.ip. rewrite <- !rsum_plus, <- rsum_scal. apply rsum_ext. intros i Hi. unfold vminus. ring. }
      lra.
  Qed.

  Lemma md_more (P R R' : list vec) c s : md P R c s -> (forall x, In x R -> In x R') -> (forall x, In x R' -> D2 c x = s) -> md P R' c s.
  Proof.
    intros ([F1 F2] & S & M) HR H. split; [split|split]; auto.
    intros c' s' [G1 G2] S'. apply (M c' s'); auto. split; auto.
  Qed.

  Lemma forall_in (A : list pt) (p : pt) : Forall (fun p => length p = dim) A -> In p A -> length p = dim.
  Proof. intros H. rewrite Forall_forall in H. auto. Qed.

  Lemma firstn_in T n (l : list T) x : In x (firstn n l) -> In x l.
  Proof. intros H. rewrite <- (firstn_skipn n l). apply in_or_app; auto. Qed.

  Lemma start A n R : pre A n R -> exists B, support2Ball A R = Ok B /\
    (size B = (dim + 1)%nat -> okBall (firstn n A) R B) /\ (size B <> (dim + 1)%nat -> (length R <= dim)%nat) /\
    exists m, (m <= n)%nat /\ (2 <= m + length R)%nat /\ okBall (firstn m A) R B.
  Proof.
    intros (Hn & HA & HR & HRl & HI & H2 & c & s & Hs & HF). unfold SebModel.support2Ball.
    destruct R as [|r [|r' R]].
    - cbn [length] in H2. rewrite !rd_ok by lia. cbn [bind].
      set (a := nth 0 A []). set (b := nth 1 A []).
      assert (Ha : length a = dim) by (apply (forall_in HA), nth_In; lia).
      assert (Hb : length b = dim) by (apply (forall_in HA), nth_In; lia).
      destruct (@ballNew_circ dim [a; b]) as (B & E & EP & HB & HC); [cbn [length]; lia|repeat constructor; auto|left; auto|].
      exists B. split; auto. unfold size. rewrite EP. cbn [length]. split; [lia|]. split; [lia|].
      exists 2%nat. split; [lia|]. split; [lia|].
      assert (E2 : firstn 2 A = [a; b]). { destruct A as [|x [|y A']]; cbn [length] in *; try lia. reflexivity. }
      assert (M : md (cvs [a; b]) [] (ctr B) (bR B * bR B)) by (apply two_md; auto).
      unfold okBall. rewrite E2, EP. split; [auto|]. split; [exact M|]. split; [exact M|].
      split; [intros x; cbn; tauto|]. split; [intros ? []|]. exact E.
    - cbn [length] in H2. rewrite !rd_ok by lia. cbn [bind].
      set (a := nth 0 A []). assert (Ha : length a = dim) by (apply (forall_in HA), nth_In; lia).
      assert (Hr : length r = dim) by (apply (forall_in HR); simpl; auto).
      destruct (@ballNew_circ dim [r; a]) as (B & E & EP & HB & HC); [cbn [length]; lia|repeat constructor; auto|left; auto|].
      exists B. split; auto. unfold size. rewrite EP. cbn [length]. split; [lia|]. split; [lia|].
      exists 1%nat. split; [lia|]. split; [lia|].
      assert (E2 : firstn 1 A = [a]). { destruct A as [|x A']; cbn [length] in *; try lia. reflexivity. }
      assert (M : md (cvs [r; a]) [] (ctr B) (bR B * bR B)) by (apply two_md; auto).
      assert (M' : md (cvs [r; a]) (cvs [r]) (ctr B) (bR B * bR B)).
      { eapply md_more; [exact M|intros ? []|]. intros x [<-|[]]. cbn [map circ] in HC. apply HC. simpl; auto. }
      unfold okBall. rewrite E2, EP. split; [auto|]. split; [|split; [|split; [|split]]]; auto.
      + destruct M' as ([F1 F2] & S & MM). split; [split|split]; auto.
        * intros x [<-|[]]. apply F1. simpl; auto.
        * intros c' s' [G1 G2] S'. apply (MM c' s'); auto. split; auto. intros x [<-|[<-|[]]]; [|apply G1; simpl; auto].
          rewrite G2; [lra|simpl; auto].
      + intros x; cbn; tauto.
      + intros x; cbn; tauto.
    - set (RR := r :: r' :: R) in *.
      destruct (@ballNew_circ dim RR) as (B & E & EP & HB & HC); [assert (2 <= length RR)%nat by (unfold RR; cbn [length]; lia); lia|auto|right; auto|].
      exists B. split; auto. unfold size. rewrite EP.
      assert (M0 : md [] (cvs RR) (ctr B) (bR B * bR B)) by (apply circ_md; auto).
      assert (MR : md (cvs RR) (cvs RR) (ctr B) (bR B * bR B)).
      { eapply md_larger; [|exact M0|]; [intros ? []|]. intros x Hx. rewrite (proj2 (proj1 M0) x Hx). lra. }
      assert (Base : incl RR RR /\ incl RR RR /\ ballNew RR = Ok B) by (split; [apply incl_refl|split; [apply incl_refl|auto]]).
      split.
      { intros HL. unfold okBall. rewrite EP. split; auto. split; [|split; auto; split; [apply incl_appr, incl_refl|]; apply Base].
        eapply circ_full; [exact HC|exact HI|rewrite map_length; lia|exact HF]. }
      split; [intros; lia|].
      exists 0%nat. split; [lia|]. split; [unfold RR; cbn [length]; lia|]. unfold okBall. cbn [firstn map app]. rewrite EP. tauto.
  Qed.

  Definition pivotOk (n : nat) (pivot : list pt -> ball RNum -> nat -> res (option nat)) : Prop :=
    piv = true -> forall (A : list pt) (B : ball RNum) i, (n <= length A)%nat -> (i < n)%nat -> 0 <= bR B -> exists o, pivot A B (1 + i)%nat = Ok o /\
      match o with None => True | Some ii => (i < ii < n)%nat /\ bR B * bR B < D2 (ctr B) (cv (nth ii A [])) end.

  Section Level.
    Variable n : nat.
    Variable pivot : list pt -> ball RNum -> nat -> res (option nat).
    Variable rec : list pt -> nat -> list pt -> res (state RNum).
    Hypothesis Hpiv : pivotOk n pivot.
    Variable A : list pt.
    Variable R : list pt.
    Hypothesis Hpre : pre A n R.
    Hypothesis HRd : (length R <= dim)%nat.
    Hypothesis Hrec : forall A i p, pre A i (R ++ [p]) -> post A i (R ++ [p]) (rec A i (R ++ [p])).
    Notation conflict := (@conflict RNum dim mtf piv n pivot rec R).

    Definition J (i : nat) (s : state RNum) : Prop :=
      Permutation (firstn n A) (firstn n (fst s)) /\ skipn n (fst s) = skipn n A /\
      exists m, (i <= m <= n)%nat /\ (2 <= m + length R)%nat /\ okBall (firstn m (fst s)) R (snd s).

    Lemma process_spec (s : state RNum) i : (i < length (fst s))%nat -> 0 <= bR (snd s) -> exists b, process s i = Ok b /\
      (b = true <-> bR (snd s) * bR (snd s) < D2 (ctr (snd s)) (cv (nth i (fst s) []))).
    Proof.
      intros Hi Hr. unfold SebModel.process. rewrite rd_ok by auto. cbn [bind]. eexists; split; [reflexivity|].
      rewrite Bool.negb_true_iff. destruct (contain dim _ _ _) eqn:E.
      - apply contain_iff in E; auto. split; [discriminate|lra].
      - split; auto. intros _. apply Rnot_le_lt. intros H. apply contain_iff in H; auto. congruence.
    Qed.
    Lemma J_len i s : J i s -> length (fst s) = length A /\ (n <= length (fst s))%nat /\ 0 <= bR (snd s).
    Proof.
      intros (H1 & H2 & m & H3 & H4 & H5). assert (E := perm_len H1 H2). split; auto.
      split; [rewrite E; apply Hpre|]. apply H5.
    Qed.
    Lemma J_proc i s j : J i s -> (i <= j < n)%nat -> exists b, process s j = Ok b.
    Proof.
      intros HJ Hj. destruct (J_len HJ) as (L1 & L2 & L3). destruct (@process_spec s j) as (b & E & _); eauto. lia.
    Qed.
    Lemma J_mono i s : J (S i) s -> J i s.
    Proof. intros (H1 & H2 & m & H3 & H4). split; auto. split; auto. exists m. split; auto. lia. Qed.
    Lemma in_firstn_lt (l : list pt) k m : (k < m)%nat -> (k < length l)%nat -> In (nth k l []) (firstn m l).
    Proof. intros. rewrite <- (@nth_firstn _ k m) by auto. apply nth_In. rewrite firstn_length. lia. Qed.
    Lemma inside_below m (s : state RNum) k : okBall (firstn m (fst s)) R (snd s) -> (k < m)%nat -> (k < length (fst s))%nat ->
      D2 (ctr (snd s)) (cv (nth k (fst s) [])) <= bR (snd s) * bR (snd s).
    Proof. intros (_ & M & _) Hk HL. apply (proj1 (proj1 M)). apply in_map. apply in_firstn_lt; auto. Qed.

    Lemma J_skip i s : J i s -> (i < n)%nat -> process s i = Ok false -> J (S i) s.
    Proof.
      intros HJ Hi Hp. destruct (J_len HJ) as (L1 & L2 & L3). pose proof HJ as (H1 & H2 & m & H3 & H4 & H5).
      split; auto. split; auto. destruct (Nat.eq_dec m i) as [->|]; [|exists m; split; [lia|auto]].
      exists (S i). split; [lia|]. split; [lia|].
      destruct (@process_spec s i) as (b & E & Hb); [lia|auto|]. rewrite Hp in E. inversion E; subst b.
      assert (Hin : D2 (ctr (snd s)) (cv (nth i (fst s) [])) <= bR (snd s) * bR (snd s)).
      { apply Rnot_lt_le. intros F. apply Hb in F. discriminate. }
      destruct H5 as (B1 & B2 & B3 & B4 & B5). rewrite (firstn_S []) by lia.
      split; [auto|]. split; [|split; [auto|split; [|auto]]].
      - eapply md_ext; [| |exact (md_inside B2 Hin)].
        + intros x. rewrite map_app, in_app_iff. cbn. tauto.
        + intros; tauto.
      - intros x Hx. apply B4 in Hx. rewrite !in_app_iff in *. tauto.
    Qed.

    Lemma J_clean i s : J i s -> (i < n)%nat -> process s i = Ok true ->
      exists s', conflict s i = Ok s' /\ J (S i) s' /\ process s' i = Ok false.
    Proof.
      intros HJ Hi Hp. destruct (J_len HJ) as (L1 & L2 & L3). pose proof HJ as (H1 & H2 & m & H3 & H4 & H5).
      destruct (@process_spec s i) as (b & E & Hb); [lia|auto|]. rewrite Hp in E. inversion E; subst b. clear E.
      pose proof (proj1 Hb eq_refl) as Hout. clear Hb.
      assert (m = i). { destruct (Nat.eq_dec m i); auto. pose proof (@inside_below m s i H5 ltac:(lia) ltac:(lia)). lra. } subst m.
      destruct s as [A0 B]. cbn [fst snd] in *. unfold SebModel.conflict.
      (* the pivot *)
      assert (Piv : exists A1, (if piv then ii <- pivot A0 B (1 + i) ;; Ok (match ii with Some ii => swap RNum A0 ii i | None => A0 end) else Ok A0) = Ok A1 /\
        firstn i A1 = firstn i A0 /\ Permutation (firstn n A0) (firstn n A1) /\ skipn n A1 = skipn n A0 /\
        bR B * bR B < D2 (ctr B) (cv (nth i A1 []))).
      { destruct piv eqn:Ep; [|eexists; split; [reflexivity|auto]].
        destruct (Hpiv Ep (A := A0) (B := B) (i := i)) as (o & -> & Ho); auto. cbn [bind]. eexists; split; [reflexivity|].
        destruct o as [ii|]; auto. destruct Ho as [Ho1 Ho2].
        rewrite swap_firstn_lt by lia. rewrite swap_firstn, swap_skipn by lia. split; auto. split; [|split; auto].
        - apply swap_perm; rewrite firstn_length; lia.
        - rewrite swap_nth2 by lia. auto. }
      destruct Piv as (A1 & -> & E1 & P1 & S1 & O1). cbn [bind].
      assert (L1' : length A1 = length A0) by (apply (perm_len P1 S1)).
      rewrite rd_ok by lia. cbn [bind]. set (p := nth i A1 []) in *.
      (* no exception *)
      assert (NT : (length R =? size B) && (dim + 1 <? size B + 1) = false).
      { destruct (Nat.eqb_spec (length R) (size B)) as [ES|NS]; cbn [andb]; auto. apply Nat.ltb_ge. lia. }
      rewrite NT.
      destruct Hpre as (Q1 & Q2 & Q3 & Q4 & Q5 & Q6 & c & sq & Q7 & Q8).
      destruct H5 as (B1 & B2 & B3 & B4 & B5 & B6).
      assert (PA : Permutation (firstn n A) (firstn n A1)) by (eapply perm_trans; eauto).
      assert (SA : skipn n A1 = skipn n A) by congruence.
      assert (HA1 : Forall (fun p => length p = dim) A1) by
             (apply Forall_forall; intros x Hx; apply (forall_in Q2);
              rewrite <- (firstn_skipn n A1) in Hx; rewrite <- (firstn_skipn n A), <- SA;
              apply in_app_iff in Hx; apply in_app_iff; destruct Hx; auto; left;
              exact (Permutation_in _ (Permutation_sym PA) H)).
      assert (Hp1 : In p (firstn n A1)) by (apply in_firstn_lt; lia).
      assert (F2 : forall x, In x (cvs (firstn n A1)) -> D2 c x <= sq) by
             (intros x Hx; apply (proj1 Q8); apply in_cvs in Hx as (y & <- & Hy); apply in_map;
              exact (Permutation_in _ (Permutation_sym PA) Hy)).
      rewrite <- E1 in B2, B4.
      assert (F3 : feas (cv p :: cvs (firstn i A1)) (cvs R) c sq) by
             (split; [intros x [<-|Hx]; apply F2; [apply in_map; auto|]; apply in_cvs in Hx as (y & <- & Hy); apply in_map;
                      rewrite <- (firstn_skipn i (firstn n A1)); apply in_or_app; left; rewrite firstn_firstn, Nat.min_l by lia; auto
                     |apply Q8]).
      destruct (feas_step B2 O1 F3 Q7) as (c2 & s2 & F4 & S4 & _).
      assert (Eqv : forall x, In x (cv p :: cvs R) <-> In x (cvs (R ++ [p]))) by
             (intros x; rewrite map_app, in_app_iff; cbn; tauto).
      assert (Pre2 : pre A1 i (R ++ [p])).
      1: split; [lia|]; split; [auto|]; split; [apply Forall_app; split; auto; repeat constructor; apply (forall_in HA1); apply nth_In; lia|];
            rewrite app_length; cbn [length]; split; [lia|]; split;
            [rewrite map_app; apply (@indep_step dim (cvs R) (ctr B) (bR B * bR B) c2 s2 (cv p)); auto;
             [split; [intros ? []|apply B2]|split; [intros ? []|apply F4]]|];
            split; [lia|]; exists c2, s2; split; auto; split; [apply F4|]; intros x Hx; apply F4; apply Eqv; auto.
      destruct (Hrec Pre2) as (A2 & B' & -> & PA2 & SA2 & K1 & K2 & K3 & K4 & K5 & K6); cbn [bind].
      assert (L2' : length A2 = length A1) by (apply (perm_len PA2 SA2)).
      assert (Np : nth i A2 [] = p) by (unfold p; rewrite <- (Nat.add_0_r i), <- !nth_skipn, SA2; auto).
      assert (M2 : md (cvs (firstn i A2)) (cv p :: cvs R) (ctr B') (bR B' * bR B')) by
             (eapply md_ext; [| |exact K2]; [tauto|intros; symmetry; auto]).
      assert (M1 : md (cvs (firstn i A2)) (cvs R) (ctr B) (bR B * bR B)) by
             (eapply md_ext; [| |exact B2]; [|tauto]; intros x; split; intros Hx; apply in_cvs in Hx as (y & <- & Hy); apply in_map;
              [exact (Permutation_in _ PA2 Hy)|exact (Permutation_in _ (Permutation_sym PA2) Hy)]).
      assert (M3 : md (cv p :: cvs (firstn i A2)) (cvs R) (ctr B') (bR B' * bR B')) by (eapply md_step; eauto).
      assert (SL : bR B * bR B <= bR B' * bR B') by
             (apply (proj2 (proj2 M1) (ctr B')); [split; [apply M2|intros x Hx; apply M2; simpl; auto]|apply M2]).
      assert (MT : md (cvs (bP B')) (cvs R) (ctr B') (bR B' * bR B')).
      1: eapply supp_step with (P := cvs (firstn i A2)) (c0 := ctr B) (s0 := bR B * bR B) (p := cv p); auto;
            [intros x Hx; apply in_cvs in Hx as (y & <- & Hy); apply K4 in Hy; rewrite !in_app_iff in Hy; cbn [In] in Hy;
             destruct Hy as [Hy|[Hy|[<-|[]]]]; [right; left; apply in_map; auto|right; right; apply in_map; auto|auto]
            |apply in_map; apply K5; apply in_app_iff; cbn; auto
            |eapply md_ext; [| |exact K3]; [tauto|intros; symmetry; auto]].
      assert (OK : okBall (firstn (S i) A2) R B').
      1: split; [auto|]; split; [|split; [auto|split; [|split; [|auto]]]];
            [eapply md_ext; [| |exact M3]; [|tauto]; intros x; rewrite (firstn_S []) by lia; rewrite Np, map_app, in_app_iff; cbn; tauto
            |intros x Hx; apply K4 in Hx; rewrite (firstn_S []) by lia; rewrite Np; rewrite !in_app_iff in *; cbn in *; tauto
            |intros x Hx; apply K5; apply in_app_iff; auto].
      assert (PN : Permutation (firstn n A1) (firstn n A2)).
      1: rewrite <- (firstn_skipn i (firstn n A1)), <- (firstn_skipn i (firstn n A2));
            rewrite !firstn_firstn, !Nat.min_l, !skipn_firstn_comm, SA2 by lia; apply Permutation_app_tail; auto.
      assert (SN : skipn n A2 = skipn n A1).
      1: replace n with ((n - i) + i)%nat by lia; rewrite <- !skipn_skipn, SA2; auto.
      set (A3 := if mtf && (dim - length R <? i) then swap RNum A2 (dim - length R) i else A2).
      assert (G3 : Permutation (firstn (S i) A2) (firstn (S i) A3) /\ skipn (S i) A3 = skipn (S i) A2).
      1: unfold A3; destruct (mtf && (dim - length R <? i))%bool eqn:Em; [|split; auto];
            apply andb_prop in Em as [_ Em]; apply Nat.ltb_lt in Em; split;
            [rewrite swap_firstn by lia; apply swap_perm; rewrite firstn_length; lia|apply swap_skipn; lia].
      destruct G3 as [G3 G4].
      assert (L3' : length A3 = length A2) by (apply (perm_len G3 G4)).
      assert (OK3 : okBall (firstn (S i) A3) R B').
      1: destruct OK as (O2 & O3 & O4 & O5 & O6 & O7); split; [auto|]; split; [|split; [auto|split; [|auto]]];
            [eapply md_ext; [| |exact O3]; [|tauto]; intros x; split; intros Hx; apply in_cvs in Hx as (y & <- & Hy); apply in_map;
              [exact (Permutation_in _ G3 Hy)|exact (Permutation_in _ (Permutation_sym G3) Hy)]
            |intros x Hx; apply O5 in Hx; rewrite in_app_iff in *; destruct Hx; auto; left; exact (Permutation_in _ G3 H)].
      assert (P3 : Permutation (firstn n A2) (firstn n A3)).
      1: rewrite <- (firstn_skipn (S i) (firstn n A2)), <- (firstn_skipn (S i) (firstn n A3));
            rewrite !firstn_firstn, !Nat.min_l, !skipn_firstn_comm, G4 by lia; apply Permutation_app_tail; auto.
      assert (S3 : skipn n A3 = skipn n A2).
      1: replace n with ((n - S i) + S i)%nat by lia; rewrite <- !skipn_skipn, G4; auto.
      exists (A3, B'); split; [reflexivity|]; split;
           [split; [cbn [fst]; eapply perm_trans; [exact PA|]; eapply perm_trans; eauto|];
            split; [cbn [fst]; congruence|]; exists (S i); cbn [fst snd]; split; [lia|]; split; [lia|auto]|].
      destruct (@process_spec (A3, B') i) as (b & Eb & Hb); [cbn [fst]; lia|auto|]; rewrite Eb; f_equal;
           destruct b; auto; pose proof (proj1 Hb eq_refl); cbn [fst snd] in *;
           pose proof (@inside_below (S i) (A3, B') i OK3 ltac:(lia) ltac:(cbn [fst]; lia)); cbn [fst snd] in *; lra.
    Qed.
  End Level.

  (** *** the recursion *)
  Lemma findPivot_ok n : pivotOk n (fun A B s => @findPivot RNum dim A n B s).
  Proof.
    intros _ A B i HL Hi Hr. unfold findPivot.
    match goal with |- context [foldR ?f _ _] => set (step := f) end.
    set (Q := fun acc : option nat * nT RNum => 0 <= snd acc /\
       match fst acc with None => True | Some ii => (i < ii < n)%nat /\ bR B * bR B < D2 (ctr B) (cv (nth ii A [])) end).
    assert (L : forall l acc, (forall ii, In ii l -> (i < ii < n)%nat) -> Q acc -> exists acc', foldR step l acc = Ok acc' /\ Q acc').
    { induction l as [|ii l IH]; intros acc Hl HQ; cbn [foldR]; [eauto|].
      unfold step at 1. rewrite rd_ok by (pose proof (Hl ii ltac:(simpl; auto)); lia). cbn [bind]. apply IH; [intros; apply Hl; simpl; auto|].
      cbn [nlt nsub nmul RNum]. destruct (Rltb_spec (snd acc) (distSqr RNum dim (nth ii A []) (center dim B) - bR B * bR B)) as [Hlt|]; auto.
      destruct HQ as [HQ1 HQ2]. split; cbn [fst snd]; [lra|]. split; [apply Hl; simpl; auto|].
      rewrite distSqr_D2 in Hlt. lra. }
    destruct (L (seq (1 + i) (n - (1 + i))) (None, nzero RNum)) as ([o d] & E & HQ).
    - intros ii Hin. apply in_seq in Hin. lia.
    - split; cbn [fst snd nzero RNum]; [lra|auto].
    - exists o. split; [|apply HQ]. rewrite E. reflexivity.
  Qed.

  Lemma J_finish n A R s : (n <= length A)%nat -> J n A R n s -> post A n R (Ok s).
  Proof.
    intros HL (H1 & H2 & m & H3 & _ & H5). assert (m = n) by lia. subst m. destruct s as [A' B]. exists A', B. auto.
  Qed.
  Lemma J_start n A R B m : (m <= n)%nat -> (2 <= m + length R)%nat -> okBall (firstn m A) R B -> J n A R 0 (A, B).
  Proof. intros. split; auto. split; auto. exists m. split; [lia|auto]. Qed.

  Theorem welzlSerial_post k : forall A n R, (dim + 1 - length R < k)%nat -> pre A n R ->
    post A n R (welzlSerial RNum dim 1 0 mtf piv k A n R).
  Proof.
    induction k as [|k IH]; intros A n R Hk Hpre; [lia|]. cbn [welzlSerial].
    destruct (start Hpre) as (B & E & S1 & S2 & m & S3 & S4 & S5). rewrite E. cbn [bind].
    destruct (Nat.eqb_spec (size B) (dim + 1)) as [Es|Ns].
    - exists A, B. split; auto.
    - specialize (S2 Ns).
      set (rec := welzlSerial RNum dim 1 0 mtf piv k).
      assert (Hrec : forall A i p, pre A i (R ++ [p]) -> post A i (R ++ [p]) (rec A i (R ++ [p]))).
      { intros A0 i p Hp. apply IH; auto. rewrite app_length. cbn [length]. lia. }
      unfold serialPrefix.
      destruct (@foldR_J _ (@process) (@conflict RNum dim mtf piv n (fun A B s => @findPivot RNum dim A n B s) rec R) n (J n A R)) with (m := n) (i := 0%nat) (s := (A, B))
        as (s' & E' & HJ'); auto.
      + intros i s j. apply J_proc; auto.
      + intros i s. apply J_skip; auto.
      + intros i s H1 H2 H3. destruct (@J_clean n _ rec (@findPivot_ok n) A R Hpre S2 Hrec i s H1 H2 H3) as (s' & C1 & C2 & _). eauto.
      + eapply J_start; eauto.
      + rewrite E'. apply J_finish; auto. apply Hpre.
  Qed.

  Variable maxElement : (nat -> nT RNum) -> nat -> nat -> nat.
  Variables cutoff PREFIX THRESH : nat.
  Variable order : list nat -> list nat.
  Variable pfuel : nat.
  Hypothesis Hord : forall l, Permutation (order l) l.
  Hypothesis Hpt : (0 < PREFIX <= THRESH)%nat.

  Theorem welzlParallel_post k : forall A n R, (dim + 1 - length R < k)%nat -> pre A n R ->
    (2 * n + 1 < pfuel)%nat -> (piv = false \/ (n < cutoff)%nat) ->
    post A n R (welzlParallel RNum dim 1 0 maxElement mtf piv cutoff PREFIX THRESH order pfuel k A n R).
  Proof.
    induction k as [|k IH]; intros A n R Hk Hpre Hf Hc; [lia|]. cbn [welzlParallel].
    destruct (Nat.ltb_spec n cutoff) as [Hlt|Hge]; [apply (@welzlSerial_post (S k)); auto|].
    destruct Hc as [Hpv|]; [|lia].
    destruct (start Hpre) as (B & E & S1 & S2 & m & S3 & S4 & S5). rewrite E. cbn [bind].
    destruct (Nat.eqb_spec (size B) (dim + 1)) as [Es|Ns].
    - exists A, B. split; auto.
    - specialize (S2 Ns).
      set (rec := welzlParallel RNum dim 1 0 maxElement mtf piv cutoff PREFIX THRESH order pfuel k).
      assert (Pv : pivotOk n (fun A B s => @findPivotPar RNum dim maxElement A n B s)) by (intros Q; congruence).
      (* only prefixes of the current slice occur in recursive calls *)
      set (rec' := fun A i R' => if (i <? n)%nat then rec A i R' else welzlSerial RNum dim 1 0 mtf piv k A i R').
      assert (Hrec : forall A i p, pre A i (R ++ [p]) -> post A i (R ++ [p]) (rec' A i (R ++ [p]))).
      { intros A0 i p Hp. unfold rec'. destruct (Nat.ltb_spec i n).
        - apply IH; auto; [rewrite app_length; cbn [length]; lia|lia].
        - apply welzlSerial_post; auto. rewrite app_length; cbn [length]; lia. }
      set (cl := @conflict RNum dim mtf piv n (fun A B s => @findPivotPar RNum dim maxElement A n B s) rec R).
      set (cl' := @conflict RNum dim mtf piv n (fun A B s => @findPivotPar RNum dim maxElement A n B s) rec' R).
      assert (CE : forall s i, (i < n)%nat -> cl s i = cl' s i).
      { intros [A0 B0] i Hi. unfold cl, cl', SebModel.conflict, rec'. assert (E' : (i <? n)%nat = true) by (apply Nat.ltb_lt; auto). rewrite E'. reflexivity. }
      assert (H1 : forall i s j, J n A R i s -> (i <= j < n)%nat -> exists b, process s j = Ok b) by (intros i s j; apply J_proc; auto).
      assert (H2 : forall i s, J n A R i s -> (i < n)%nat -> process s i = Ok false -> J n A R (S i) s) by (intros i s; apply J_skip; auto).
      assert (H3 : forall i s, J n A R i s -> (i < n)%nat -> process s i = Ok true -> exists s', cl s i = Ok s' /\ J n A R (S i) s').
      { intros i s Q1 Q2 Q3. rewrite CE by auto.
        destruct (@J_clean n _ rec' Pv A R Hpre S2 Hrec i s Q1 Q2 Q3) as (s' & C1 & C2 & _). eauto. }
      assert (H4 : forall i s s', J n A R i s -> (i < n)%nat -> process s i = Ok true -> cl s i = Ok s' -> J n A R i s' /\ process s' i = Ok false).
      { intros i s s' Q1 Q2 Q3. rewrite CE by auto.
        destruct (@J_clean n _ rec' Pv A R Hpre S2 Hrec i s Q1 Q2 Q3) as (s2 & C1 & C2 & C3). unfold cl'. rewrite C1. intros Q; inversion Q; subst.
        split; auto. apply J_mono; auto. }
      assert (J0 : J n A R 0 (A, B)) by (eapply J_start; eauto).
      unfold parallelPrefix. destruct (Nat.ltb_spec n THRESH) as [Ht|Ht].
      + destruct (@foldR_J _ _ _ _ _ H1 H2 H3 n 0%nat (A, B)) as (s' & E' & HJ'); auto.
        unfold serialPrefix. rewrite E'. apply J_finish; auto. apply Hpre.
      + destruct (@parallelPrefix_serial _ _ _ _ _ H1 H2 H3 H4 PREFIX THRESH order Hord ltac:(lia) ltac:(lia) pfuel (A, B) J0 Hf) as (E1 & s' & E2 & HJ').
        unfold parallelPrefix in E1. destruct (Nat.ltb_spec n THRESH); [lia|]. rewrite E1, E2. apply J_finish; auto. apply Hpre.
  Qed.

  (** *** the top level *)
  Lemma edist_D2 (p x : list (nT RNum)) : edist dim p x = R_sqrt.sqrt (D2 (cv x) (cv p)).
  Proof. rewrite <- dist_edist, dist_D2. reflexivity. Qed.
  Lemma edist_le (p x : list (nT RNum)) r : 0 <= r -> edist dim p x <= r <-> D2 (cv x) (cv p) <= r * r.
  Proof.
    intros Hr. rewrite edist_D2. set (d := D2 _ _). assert (Hd : 0 <= d) by apply D2_pos.
    pose proof (sqrt_pos d). pose proof (sqrt_sqrt d Hd). split; intros; [rewrite <- H0; apply Rmult_le_compat; auto|].
    destruct (Rle_dec (R_sqrt.sqrt d) r); auto. nra.
  Qed.

  Lemma big_ball (P : list vec) : exists s, 0 <= s /\ feas P [] (fun _ => 0) s.
  Proof.
    induction P as [|p P (s & Hs & [F _])].
    - exists 0. split; [lra|]. split; intros ? [].
    - exists (s + D2 (fun _ => 0) p). pose proof (D2_pos dim (fun _ => 0) p). split; [lra|]. split; [|intros ? []].
      intros x [<-|Hx]; [lra|]. specialize (F x Hx). lra.
  Qed.

  (** smallest enclosing ball *)
  Definition smallest (P : list pt) (c : pt) (r : R) : Prop :=
    0 <= r /\ (forall p, In p P -> edist dim p c <= r) /\
    forall c' r', 0 <= r' -> (forall p, In p P -> edist dim p c' <= r') -> r <= r'.

  Lemma okBall_smallest (Pts Pts' : list pt) B : okBall Pts [] B -> (forall x, In x Pts <-> In x Pts') -> smallest Pts' (center dim B) (bR B).
  Proof.
    intros (H0 & M & _) HP. split; auto. split.
    - intros p Hp. apply edist_le; auto. apply M. apply in_map, HP; auto.
    - intros c' r' Hr' H. assert (bR B * bR B <= r' * r').
      { apply (proj2 (proj2 M) (cv c')); [|nra]. split; [|intros ? []]. intros x Hx. apply in_cvs in Hx as (p & <- & Hp).
        apply edist_le; auto. apply H, HP; auto. }
      destruct (Rle_dec (bR B) r'); auto. nra.
  Qed.

  Lemma pre_top P : (2 <= length P)%nat -> Forall (fun p => length p = dim) P -> pre P (length P) [].
  Proof.
    intros HL HF. repeat split; auto; [cbn; lia|cbn [length]; lia|].
    rewrite firstn_all. destruct (big_ball (cvs P)) as (s & Hs & F). exists (fun _ => 0), s. auto.
  Qed.

  Theorem welzlCompute_smallest P : (2 <= length P)%nat -> Forall (fun p => length p = dim) P ->
    (2 * length P + 1 < pfuel)%nat -> (piv = false \/ (length P < cutoff)%nat) ->
    exists B, welzlCompute RNum dim 1 0 maxElement mtf piv cutoff PREFIX THRESH order pfuel P = Ok B /\
              smallest P (center dim B) (bR B) /\ okBall P [] B.
  Proof.
    intros HL HF Hf Hc. unfold welzlCompute.
    destruct (@welzlParallel_post (dim + 2) P (length P) [] ltac:(cbn [length]; lia) (pre_top HL HF) Hf Hc) as (A' & B & -> & Pm & _ & OK).
    cbn [bind snd]. exists B. split; auto. rewrite firstn_all in Pm.
    assert (HP : forall x, In x (firstn (length P) A') <-> In x P).
    { intros x. split; intros Hx; [exact (Permutation_in _ (Permutation_sym Pm) Hx)|exact (Permutation_in _ Pm Hx)]. }
    split; [eapply okBall_smallest; eauto|].
    destruct OK as (O1 & O2 & O3 & O4 & O5 & O6). split; auto. split; [|split; auto; split; auto].
    - eapply md_ext; [| |exact O2]; [|tauto]. intros x. split; intros Hx; apply in_cvs in Hx as (y & <- & Hy); apply in_map, HP; auto.
    - intros x Hx. apply O4 in Hx. rewrite app_nil_r in *. apply HP; auto.
  Qed.
End Welzl.
