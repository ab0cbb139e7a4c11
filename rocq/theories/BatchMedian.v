(** The median splits of shared/utils.h meet the contract the builders need. *)
From Coq Require Import Sorted Reals Lra.
From Verif Require Import Base Num KdModel KdSplit KeySort BatchModel BatchSlice.
Set Implicit Arguments.

Section Median.
  Variable N : Num.
  Variable ok : nT N -> Prop.
  Hypothesis OL : OrdLaws N ok.
  Variable dim : nat.
  Variable A : Type.
  Variable pt : A -> list (nT N).

  Definition okItem (x : A) : Prop := forall d, d < dim -> ok (coord (pt x) d).

  (** Contract of [std::nth_element(begin, begin+m, end)] comparing coordinate
      [d]: a rearrangement in which no item before position [m] is greater and
      no item after it smaller than the item at [m]. *)
  Definition nth_contract (nthel : nat -> nat -> list A -> list A) : Prop :=
    forall d m its, d < dim -> m < length its -> (forall x, In x its -> okItem x) ->
    Permutation its (nthel d m its) /\
    forall z, nth_error (nthel d m its) m = Some z ->
      (forall x, In x (firstn m (nthel d m its)) -> nlt N (coord (pt z) d) (coord (pt x) d) = false) /\
      (forall y, In y (skipn m (nthel d m its)) -> nlt N (coord (pt y) d) (coord (pt z) d) = false).

  (** Contract of [parlay::sort_inplace] comparing coordinate [d]. *)
  Definition sort_contract (srt : nat -> list A -> list A) : Prop :=
    forall d its, d < dim -> (forall x, In x its -> okItem x) ->
    Permutation its (srt d its) /\
    StronglySorted (fun x y => nle N (coord (pt x) d) (coord (pt y) d) = true) (srt d its).

  Lemma sort_instance : sort_contract (fun d => sortBy N (fun x => coord (pt x) d)).
  Proof.
    intros d its Hd Hok. split; [apply Permutation_sym, sortBy_perm|].
    apply (sortBy_sorted (fun x => coord (pt x) d) OL). intros y Hy. apply Hok; auto.
  Qed.

  Lemma sorted_nth (key : A -> nT N) l m z :
    (forall x, In x l -> ok (key x)) ->
    StronglySorted (fun x y => nle N (key x) (key y) = true) l -> nth_error l m = Some z ->
    (forall x, In x (firstn m l) -> nle N (key x) (key z) = true) /\
    (forall y, In y (skipn m l) -> nle N (key z) (key y) = true).
  Proof.
    intros Hok HS Hz. rewrite <- (firstn_skipn m l) in HS. apply SSorted_app in HS as (_ & S2 & S3).
    assert (Ez : exists r, skipn m l = z :: r).
    { pose proof (nth_error_skipn m l 0) as E. rewrite Nat.add_0_r, Hz in E.
      destruct (skipn m l) as [|z' r]; [discriminate|]. inversion E; subst. eauto. }
    destruct Ez as [r Ez]. rewrite Ez in *. split.
    - intros x Hx. apply S3; simpl; auto.
    - inversion S2 as [|? ? _ F]; subst. rewrite Forall_forall in F.
      intros y [<- | Hy]; auto. apply (nle_refl OL). apply Hok. eapply nth_error_In; eauto.
  Qed.

  Lemma nth_instance : nth_contract (fun d _ => sortBy N (fun x => coord (pt x) d)).
  Proof.
    intros d m its Hd Hm Hok. destruct (@sort_instance d its Hd Hok) as [P S]. split; auto.
    intros z Hz.
    assert (Hok' : forall x, In x (sortBy N (fun x => coord (pt x) d) its) -> ok (coord (pt x) d)).
    { intros x Hx. apply Hok; auto. eapply Permutation_in; [apply Permutation_sym; exact P|auto]. }
    destruct (@sorted_nth (fun x => coord (pt x) d) _ m z Hok' S Hz) as [G1 G2].
    pose proof (nth_error_In _ _ Hz) as Hzi.
    split.
    - intros x Hx. specialize (G1 x Hx). rewrite (ol_le OL) in G1; [|apply Hok', In_firstn with m; auto|auto].
      apply negb_true_iff in G1; auto.
    - intros y Hy. specialize (G2 y Hy). rewrite (ol_le OL) in G2; [|auto|apply Hok', In_skipn with m; auto].
      apply negb_true_iff in G2; auto.
  Qed.

  Lemma slice_0_firstn B m (l : list B) : slice 0 m l = firstn m l.
  Proof. unfold slice. cbn [skipn]. rewrite Nat.sub_0_r. reflexivity. Qed.
  Lemma slice_skipn B m n (l : list B) : n = length l -> slice m n l = skipn m l.
  Proof. intros ->. unfold slice. apply firstn_all2. rewrite skipn_length. lia. Qed.

  Lemma serial_median_ok nthel : nth_contract nthel ->
    msplit_ok N dim pt okItem (serialMedianPartition N pt nthel).
  Proof.
    intros HN d its Hd Hl Hok. unfold serialMedianPartition. cbv zeta. set (m := length its / 2).
    assert (Hm : m < length its) by (apply Nat.div_lt; lia).
    destruct (HN d m its Hd Hm Hok) as [P H]. set (its' := nthel d m its) in *.
    pose proof (Permutation_length P) as Hl'.
    destruct (nth_error its' m) as [z|] eqn:Ez.
    2:{ apply nth_error_None in Ez. lia. }
    destruct (H z eq_refl) as [H1 H2]. exists its', (coord (pt z) d). split; auto. split; auto.
    unfold splitOk. cbv zeta. fold m. rewrite !Nat.add_0_l, slice_0_firstn, slice_skipn by lia.
    split; auto. split; auto. intros Hs x Hx.
    assert (Hz : In z (skipn m its')).
    { pose proof (nth_error_skipn m its' 0) as E. rewrite Nat.add_0_r, Ez in E.
      eapply nth_error_In; eauto. }
    destruct (Hs x z Hx Hz) as [G | G]; auto. rewrite (H1 x Hx) in G. discriminate.
  Qed.

  (** Two splits, one used from some size on. *)
  Lemma msplit_choose okI ms1 ms2 (big : nat -> bool) :
    msplit_ok N dim pt okI ms1 -> msplit_ok N dim pt okI ms2 ->
    msplit_ok N dim pt okI (fun d its => if big (length its) then ms1 d its else ms2 d its).
  Proof. intros H1 H2 d its Hd Hl Hok. destruct (big (length its)); auto. Qed.
End Median.

Lemma parallel_median_ok dim A (pt : A -> list (nT RNum)) srt :
  sort_contract RNum (fun _ => True) dim pt srt ->
  msplit_ok RNum dim pt (okItem RNum (fun _ => True) dim pt) (parallelMedianPartition RNum pt srt).
Proof.
  intros HS d its Hd Hl Hok. unfold parallelMedianPartition. cbv zeta. set (m := length its / 2).
  assert (Hm : m < length its) by (apply Nat.div_lt; lia).
  assert (Hm1 : 1 <= m) by (apply Nat.div_le_lower_bound; lia).
  destruct (HS d its Hd Hok) as [P HSS]. set (its' := srt d its) in *.
  pose proof (Permutation_length P) as Hl'.
  destruct m as [|m'] eqn:Em; [lia|]. rewrite <- Em in *.
  destruct (nth_error its' m) as [y|] eqn:Ey; [|apply nth_error_None in Ey; lia].
  destruct (nth_error its' m') as [x|] eqn:Ex; [|apply nth_error_None in Ex; lia].
  eexists its', _. split; [reflexivity|]. split; auto.
  unfold splitOk. cbv zeta. replace (length its / 2) with m by auto.
  rewrite !Nat.add_0_l, slice_0_firstn, slice_skipn by lia.
  destruct (sorted_nth R_ordlaws (fun x => coord (pt x) d) m (l := its') (fun _ _ => I) HSS Ey) as [G1 G2].
  assert (G3 : forall x', In x' (firstn m its') -> (coord (pt x') d <= coord (pt x) d)%R).
  { intros x' Hx'. destruct (sorted_nth R_ordlaws (fun x => coord (pt x) d) m' (l := its') (fun _ _ => I) HSS Ex) as [G _].
    rewrite Em in Hx'. assert (Hx2 : In x' (firstn m' its') \/ x' = x).
    { apply In_nth_error in Hx' as [k Hk]. assert (k < S m').
      { assert (k < length (firstn (S m') its')) by (apply nth_error_Some; congruence).
        rewrite firstn_length in *. lia. }
      rewrite nth_error_firstn in Hk by auto.
      destruct (Nat.eq_dec k m') as [-> | Hne]; [right; congruence|left].
      apply nth_error_In with k. rewrite nth_error_firstn by lia. auto. }
    destruct Hx2 as [Hx2 | ->]; [|change (nT RNum) with R in *; lra].
    specialize (G _ Hx2). cbn [nle RNum] in G. apply Rleb_true in G. exact G. }
  assert (Hxi : In x (firstn m its')).
  { apply nth_error_In with m'. rewrite nth_error_firstn by lia. auto. }
  assert (Hyi : In y (skipn m its')).
  { pose proof (nth_error_skipn m its' 0) as E. rewrite Nat.add_0_r, Ey in E. eapply nth_error_In; eauto. }
  assert (G4 : forall y', In y' (skipn m its') -> (coord (pt y) d <= coord (pt y') d)%R).
  { intros y' Hy'. specialize (G2 _ Hy'). apply Rleb_true in G2. exact G2. }
  assert (Gxy : (coord (pt x) d <= coord (pt y) d)%R).
  { specialize (G1 _ Hxi). apply Rleb_true in G1. exact G1. }
  cbn [nlt ndiv nadd ntwo RNum]. split; [|split].
  - intros x' Hx'. apply Rltb_false. specialize (G3 _ Hx'). change (nT RNum) with R in *. lra.
  - intros y' Hy'. apply Rltb_false. specialize (G4 _ Hy'). change (nT RNum) with R in *. lra.
  - intros Hs x' Hx'. specialize (Hs _ _ Hxi Hyi). cbn [nlt RNum] in Hs. rewrite !Rltb_true in Hs. apply Rltb_true.
    specialize (G3 _ Hx'). change (nT RNum) with R in *. lra.
Qed.
