(** Siblings of a built kd-tree are separated by a coordinate unless all their
    points coincide (exact arithmetic). *)
From Coq Require Import Reals Lra.
From Verif Require Import Base Num KdModel KdSpec KdBuild KdConstruct RGeom RangeModel RangeProofs KdExtra.
Set Implicit Arguments.
Local Open Scope R_scope.

Section Sep.
  Variable dim : nat.
  Hypothesis Hdim : (1 <= dim)%nat.
  Variable A : Type.
  Variable pt : A -> list (nT RNum).
  Notation c x d := (@coord RNum (pt x) d).

  Definition coincide (its : list A) : Prop :=
    forall x y, In x its -> In y its -> forall d, (d < dim)%nat -> c x d = c y d.

  Definition apart (l r : list A) : Prop :=
    exists d, (d < dim)%nat /\
      ((forall x y, In x l -> In y r -> c x d < c y d) \/
       (forall x y, In x l -> In y r -> c y d < c x d)).

  Fixpoint septree (t : tree RNum A) : Prop :=
    match t with
    | Leaf _ _ => True
    | Node _ l r => (apart (items l) (items r) \/ coincide (items l ++ items r)) /\
                    septree l /\ septree r
    end.

  Lemma findWidest_max (b : box RNum) k : findWidest RNum dim b = Some k ->
    forall d, (d < dim)%nat ->
      coord (bmax b) d - coord (bmin b) d <= coord (bmax b) k - coord (bmin b) k.
  Proof.
    unfold findWidest. set (span d := coord (bmax b) d - coord (bmin b) d).
    set (step := fun (st : nT RNum * option nat) kk => _).
    assert (G : forall n, (n <= dim)%nat ->
      let st := fold_left step (seq 0 n) (nneg1 RNum, None) in
      (forall d, (d < n)%nat -> span d <= fst st) /\
      (forall k, snd st = Some k -> span k = fst st)).
    { induction n as [|n IH]; intros Hn; cbv zeta.
      - simpl. split; [intros; lia|discriminate].
      - rewrite seq_S, fold_left_app. cbn [fold_left plus].
        destruct (IH ltac:(lia)) as [H1 H2].
        set (st := fold_left step (seq 0 n) (nneg1 RNum, None)) in *.
        assert (Es : step st n = if Rltb (fst st) (span n) then (span n, Some n) else st) by reflexivity.
        rewrite Es. clear Es.
        destruct (Rltb_spec (fst st) (span n)) as [Hlt|Hge]; cbn [fst snd].
        + split.
          * intros d Hd. destruct (Nat.eq_dec d n) as [->|]; [lra|].
            specialize (H1 d ltac:(lia)). lra.
          * intros k' [= <-]. auto.
        + split; auto. intros d Hd. destruct (Nat.eq_dec d n) as [->|]; [lra|].
          apply H1; lia. }
    intros E d Hd. destruct (G dim (le_n _)) as [H1 H2]. specialize (H1 d Hd).
    rewrite <- (H2 k E) in H1. exact H1.
  Qed.

  Lemma coincide_perm l l' : Permutation l l' -> coincide l -> coincide l'.
  Proof.
    intros HP H x y Hx Hy. apply H; eapply Permutation_in; try (symmetry; exact HP); auto.
  Qed.

  (** zero widest span: all points coincide *)
  Lemma flat_coincide b its k : tight dim pt b its -> findWidest RNum dim b = Some k ->
    coord (bmax b) k <= coord (bmin b) k -> coincide its.
  Proof.
    intros Ht Hw Hk x y Hx Hy d Hd. pose proof (findWidest_max b Hw Hd) as Hm.
    destruct (Ht d Hd) as (H1 & _). destruct (H1 x Hx) as [X1 X2]. destruct (H1 y Hy) as [Y1 Y2].
    simpl in *. rewrite Rleb_true in *. lra.
  Qed.

  (** The split of one node. [lo] and [hi] are the two sides of the partition,
      below and not below the middle. *)
  Lemma split_cases b its k lo hi : tight dim pt b its -> its <> [] ->
    findWidest RNum dim b = Some k -> (k < dim)%nat -> Permutation (lo ++ hi) its ->
    let xM := (coord (bmax b) k + coord (bmin b) k) / 2 in
    (forall x, In x lo -> c x k < xM) -> (forall x, In x hi -> xM <= c x k) ->
    ((lo = [] \/ hi = []) -> coincide its) /\
    (forall x y, In x lo -> In y hi -> c x k < c y k).
  Proof.
    intros Ht Hne Hw Hkd HP xM Hlo Hhi. split.
    - intros Hor. apply (flat_coincide Ht Hw).
      destruct (Ht k Hkd) as (_ & (x & Hx & Ex) & (y & Hy & Ey)).
      assert (Hx' : In x (lo ++ hi)) by (eapply Permutation_in; [symmetry|]; eauto).
      assert (Hy' : In y (lo ++ hi)) by (eapply Permutation_in; [symmetry|]; eauto).
      destruct Hor as [-> | ->].
      + cbn [app] in *. specialize (Hhi x Hx'). rewrite Ex in Hhi. unfold xM in Hhi.
        simpl in Hhi |- *. lra.
      + rewrite app_nil_r in *. specialize (Hlo y Hy'). rewrite Ey in Hlo.
        unfold xM in Hlo. simpl in Hlo |- *. lra.
    - intros x y Hx Hy. specialize (Hlo x Hx). specialize (Hhi y Hy). lra.
  Qed.

  Definition sep_post (r : res (tree RNum A)) : Prop :=
    match r with Ok t => septree t | _ => True end.

  Notation okR := (@okptsR A pt dim).

  Lemma constructSerial_sep leafSize : (1 <= leafSize)%nat ->
    forall fuel its, its <> [] -> (length its < fuel)%nat ->
    sep_post (constructSerial RNum dim A pt fuel leafSize its).
  Proof.
    intros HLS. induction fuel as [|f IH]; intros its Hne Hf; [lia|].
    cbn [constructSerial].
    destruct (boundingBoxSerial_tight R_ordlaws Hne (okR its)) as (b & -> & Hb).
    cbn [bind].
    destruct (Nat.leb_spec (length its) leafSize) as [Hle|Hgt]; [exact I|].
    destruct (findWidest RNum dim b) as [k|] eqn:Hw; [|exact I].
    assert (Hkd : (k < dim)%nat).
    { destruct (widest_ok R_ordlaws R_span Hdim Hne (okR its) Hb) as (k' & E & H).
      rewrite E in Hw. inversion Hw; subst; auto. }
    set (xM := ndiv RNum _ _).
    destruct (@splitItemSerial_spec RNum A pt k xM its) as (its' & m0 & E & HP & Hm0); [lia|].
    destruct (@splitItemSerial_part RNum A pt (fun _ => True) R_ordlaws k xM its its' m0 I (fun _ _ => I) E)
      as [Plo Phi].
    rewrite E. cbn [bind].
    set (m := if (m0 =? 0)%nat || (m0 =? length its)%nat then _ else m0).
    assert (Hm : (0 < m < length its)%nat).
    { apply fallback_bounds; auto. apply half_up_bounds; lia. }
    assert (Hlen : length its' = length its) by (apply Permutation_length; auto).
    destruct (@firstn_ne A its' m) as (H1 & H2 & H3 & H4); [lia|].
    assert (SC := @split_cases b its k (firstn m0 its') (skipn m0 its') Hb Hne Hw Hkd).
    rewrite firstn_skipn in SC. specialize (SC HP). cbv zeta in SC.
    assert (Plo' : forall x, In x (firstn m0 its') -> c x k < (coord (bmax b) k + coord (bmin b) k) / 2).
    { intros x Hx. apply Rltb_true. apply (Plo x Hx). }
    assert (Phi' : forall x, In x (skipn m0 its') -> (coord (bmax b) k + coord (bmin b) k) / 2 <= c x k).
    { intros x Hx. apply Rleb_true. apply (Phi x Hx). }
    specialize (SC Plo' Phi'). destruct SC as [SC1 SC2].
    pose proof (IH (firstn m its') H1 ltac:(lia)) as Sl.
    pose proof (IH (skipn m its') H2 ltac:(lia)) as Sr.
    pose proof (@constructSerial_struct RNum dim A pt leafSize HLS f (firstn m its') H1 ltac:(lia)) as Pl.
    pose proof (@constructSerial_struct RNum dim A pt leafSize HLS f (skipn m its') H2 ltac:(lia)) as Pr.
    destruct (constructSerial RNum dim A pt f leafSize (firstn m its')) as [l| | |]; try exact I.
    cbn [bind].
    destruct (constructSerial RNum dim A pt f leafSize (skipn m its')) as [r| | |]; try exact I.
    cbn [bind sep_post septree]. destruct Pl as [Pl _], Pr as [Pr _].
    split; [|split; auto].
    destruct ((m0 =? 0)%nat || (m0 =? length its)%nat) eqn:Efb.
    - right. assert (coincide its) as Hco.
      { apply SC1. apply orb_true_iff in Efb as [Ef|Ef]; apply Nat.eqb_eq in Ef; subst m0.
        - left; reflexivity. - right. apply skipn_all2. lia. }
      eapply coincide_perm; [|exact Hco]. rewrite Pl, Pr, firstn_skipn. symmetry. auto.
    - left. exists k. split; auto. left. subst m. intros x y Hx Hy. apply SC2.
      + eapply Permutation_in; [exact Pl|auto].
      + eapply Permutation_in; [exact Pr|auto].
  Qed.

  Lemma constructParallel_sep leafSize workers threshold : (1 <= leafSize)%nat -> (0 < workers)%nat ->
    forall fuel its, its <> [] -> (length its < fuel)%nat ->
    sep_post (constructParallel RNum dim A pt fuel workers threshold leafSize its).
  Proof.
    intros HLS HW. induction fuel as [|f IH]; intros its Hne Hf; [lia|].
    cbn [constructParallel].
    destruct (boundingBoxParallel_tight R_ordlaws HW Hne (okR its)) as (b & -> & Hb).
    cbn [bind].
    destruct (Nat.leb_spec (length its) leafSize) as [Hle|Hgt]; [exact I|].
    destruct (findWidest RNum dim b) as [k|] eqn:Hw; [|exact I].
    assert (Hkd : (k < dim)%nat).
    { destruct (widest_ok R_ordlaws R_span Hdim Hne (okR its) Hb) as (k' & E & H).
      rewrite E in Hw. inversion Hw; subst; auto. }
    set (xM := ndiv RNum _ _). set (fl := fun x => nlt RNum _ _).
    unfold splitFlags. set (hi := filter (fun x => negb (fl x)) its). set (lo := filter fl its).
    set (m := if (length hi =? 0)%nat || (length hi =? length its)%nat then _ else length hi).
    pose proof (splitFlags_perm fl its) as HP. pose proof (splitFlags_count fl its) as Hm0.
    unfold splitFlags in HP, Hm0. cbn [fst snd] in HP, Hm0. fold hi lo in HP, Hm0.
    assert (Hm : (0 < m < length its)%nat).
    { apply fallback_bounds; auto. apply half_down_bounds; lia. }
    assert (Hlen : length (hi ++ lo) = length its) by (apply Permutation_length; auto).
    destruct (@firstn_ne A (hi ++ lo) m) as (H1 & H2 & H3 & H4); [lia|].
    assert (SC := @split_cases b its k lo hi Hb Hne Hw Hkd).
    rewrite Permutation_app_comm in SC. specialize (SC HP). cbv zeta in SC.
    assert (Plo' : forall x, In x lo -> c x k < (coord (bmax b) k + coord (bmin b) k) / 2).
    { intros x Hx. apply filter_In in Hx as [_ Hx]. apply Rltb_true. exact Hx. }
    assert (Phi' : forall x, In x hi -> (coord (bmax b) k + coord (bmin b) k) / 2 <= c x k).
    { intros x Hx. apply filter_In in Hx as [_ Hx]. apply negb_true_iff in Hx. apply Rltb_false. exact Hx. }
    specialize (SC Plo' Phi'). destruct SC as [SC1 SC2].
    set (child := fun cc : list A => if (threshold <? length cc)%nat
      then constructParallel RNum dim A pt f workers threshold leafSize cc
      else constructSerial RNum dim A pt (S (length cc)) leafSize cc).
    cbv zeta. change (sep_post (l <- child (firstn m (hi ++ lo)) ;; r <- child (skipn m (hi ++ lo)) ;;
      Ok (Node b l r))).
    assert (Hchild : forall cc, cc <> [] -> (length cc < length its)%nat ->
      sep_post (child cc) /\ struct_post leafSize cc (child cc)).
    { intros cc Hc1 Hc2. unfold child. destruct (threshold <? length cc)%nat.
      - split; [apply IH; auto; lia|apply constructParallel_struct; auto; lia].
      - split; [apply constructSerial_sep; auto|apply constructSerial_struct; auto]. }
    destruct (Hchild (firstn m (hi ++ lo)) H1 ltac:(lia)) as [Sl Pl].
    destruct (Hchild (skipn m (hi ++ lo)) H2 ltac:(lia)) as [Sr Pr].
    destruct (child (firstn m (hi ++ lo))) as [l| | |]; try exact I.
    cbn [bind].
    destruct (child (skipn m (hi ++ lo))) as [r| | |]; try exact I.
    cbn [bind sep_post septree]. destruct Pl as [Pl _], Pr as [Pr _].
    split; [|split; auto].
    destruct ((length hi =? 0)%nat || (length hi =? length its)%nat) eqn:Efb.
    - right. assert (coincide its) as Hco.
      { apply SC1. apply orb_true_iff in Efb as [Ef|Ef]; apply Nat.eqb_eq in Ef.
        - right. destruct hi; auto; discriminate.
        - left. rewrite app_length in Hlen. destruct lo; auto; simpl in Hlen; lia. }
      eapply coincide_perm; [|exact Hco]. rewrite Pl, Pr, firstn_skipn. symmetry. auto.
    - left. exists k. split; auto. right. subst m. intros x y Hx Hy. apply SC2.
      + assert (In y (skipn (length hi) (hi ++ lo))) as Hy' by (eapply Permutation_in; [exact Pr|auto]).
        rewrite skipn_app, skipn_all2, Nat.sub_diag in Hy' by lia. exact Hy'.
      + assert (In x (firstn (length hi) (hi ++ lo))) as Hx' by (eapply Permutation_in; [exact Pl|auto]).
        rewrite firstn_app, firstn_all2, Nat.sub_diag, firstn_O, app_nil_r in Hx' by lia. exact Hx'.
  Qed.

  Lemma build_sep parallel workers threshold leafSize P t :
    (1 <= leafSize)%nat -> (0 < workers)%nat -> P <> [] ->
    build RNum dim A pt parallel workers threshold leafSize P = Ok t -> septree t.
  Proof.
    intros HL HW HP. unfold build.
    destruct (Nat.eqb_spec (length P) 0); [discriminate|].
    destruct (parallel && _); intros E.
    - pose proof (@constructParallel_sep leafSize workers threshold HL HW (S (length P)) P HP (le_n _)) as H.
      rewrite E in H. exact H.
    - pose proof (@constructSerial_sep leafSize HL (S (length P)) P HP (le_n _)) as H.
      rewrite E in H. exact H.
  Qed.
End Sep.
