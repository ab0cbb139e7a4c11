(** The split rule of the construction: widest dimension, middle of the box,
    halving when one side is empty. *)
From Coq Require Import Reals Lra Floats.
From Flocq Require Import Core IEEE754.BinarySingleNaN IEEE754.PrimFloat.
From Verif Require Import Base Num FloatNum FloatLaws FloatMono DistLaws KdModel KdSpec KdBuild KdConstruct.
Set Implicit Arguments.
Local Open Scope nat_scope.

Local Existing Instance Hprec.
Local Existing Instance Hmax.

(** The middle of two admissible coordinates is comparable. *)
Definition MidLaw (N : Num) (ok fin : nT N -> Prop) : Prop :=
  forall x y, fin x -> fin y -> ok (ndiv N (nadd N x y) (ntwo N)).

Lemma R_mid : MidLaw RNum (fun _ => True) (fun _ => True).
Proof. repeat intro. exact I. Qed.

Lemma F_mid : MidLaw FNum fok ffin.
Proof.
  intros x y Hx Hy. cbn [ndiv nadd ntwo FNum].
  destruct (ev_add Hx Hy) as [H _]. unfold fok in *.
  rewrite is_nan_equiv in *. rewrite div_equiv.
  set (z := Prim2B (x + y)%float) in *. clearbody z.
  set (two := Prim2B 2%float).
  destruct z as [s|s| |s m e Hb]; try reflexivity; try discriminate.
  assert (Z2 : B2R two <> 0%R).
  { assert (E2 : B2R two = 2%R).
    { unfold B2R. set (t := two). assert (B2SF t = S754_finite false 4503599627370496 (-51)) as E.
      { unfold t, two. rewrite B2SF_Prim2B. vm_compute. reflexivity. }
      destruct t as [|[]| |[] m2 e2 Hb2]; simpl in E; inversion E; subst. 
      unfold F2R; simpl. lra. }
    rewrite E2. lra. }
  pose proof (Bdiv_correct _ _ Hprec Hmax mode_NE (B754_finite s m e Hb) two Z2) as C.
  revert C. case Rlt_bool_spec; intros _ C.
  - destruct C as (_ & C & _). 
    change (BinarySingleNaN.is_finite (B754_finite s m e Hb)) with true in C.
    set (q := Bdiv mode_NE (B754_finite s m e Hb) two) in *. clearbody q.
    destruct q; try reflexivity. discriminate C.
  - apply over_inf in C. rewrite C. reflexivity.
Qed.

Lemma In_firstn A (l : list A) m x : In x (firstn m l) -> In x l.
Proof. intros. rewrite <- (firstn_skipn m l). apply in_or_app; auto. Qed.
Lemma In_skipn A (l : list A) m x : In x (skipn m l) -> In x l.
Proof. intros. rewrite <- (firstn_skipn m l). apply in_or_app; auto. Qed.

Section Rule.
  Variable N : Num.
  Variables ok fin nn : nT N -> Prop.
  Hypothesis DL : DistLaws N ok fin nn.
  Hypothesis FL : OrdLaws N fin.
  Hypothesis SL : SpanLaw N fin.
  Hypothesis ML : MidLaw N ok fin.
  Hypothesis N1 : ok (nneg1 N).
  Variable dim : nat.
  Hypothesis Hdim : 1 <= dim.
  Variable A : Type.
  Variable pt : A -> list (nT N).

  Definition span (b : box N) d : nT N := nsub N (coord (bmax b) d) (coord (bmin b) d).
  Definition mid (b : box N) k : nT N := ndiv N (nadd N (coord (bmax b) k) (coord (bmin b) k)) (ntwo N).

  (** First dimension of greatest span. *)
  Definition widest (b : box N) k : Prop :=
    k < dim /\ (forall d, d < dim -> nle N (span b d) (span b k) = true) /\
    (forall d, d < k -> nlt N (span b d) (span b k) = true).

  Definition below b k (l : list A) := forall x, In x l -> nlt N (coord (pt x) k) (mid b k) = true.
  Definition above b k (l : list A) := forall x, In x l -> nle N (mid b k) (coord (pt x) k) = true.

  Definition halved (l r : list A) : Prop :=
    length l = length r \/ length l = S (length r) \/ S (length l) = length r.

  Definition ruleAt (b : box N) (l r : list A) : Prop :=
    exists k, widest b k /\
      ((below b k l /\ above b k r) \/ (above b k l /\ below b k r) \/
       ((below b k (l ++ r) \/ above b k (l ++ r)) /\ halved l r)).

  Definition ruleTree (t : tree N A) : Prop :=
    forall b l r, In (Node b l r) (subtrees t) -> ruleAt b (items l) (items r).

  Lemma findWidest_widest b k : (forall d, d < dim -> ok (span b d)) ->
    findWidest N dim b = Some k -> widest b k.
  Proof.
    intros HO. unfold findWidest. set (step := fun (st : nT N * option nat) kk => _).
    assert (OL := dl_ord DL).
    assert (G : forall n, n <= dim ->
      let st := fold_left step (seq 0 n) (nneg1 N, None) in
      ok (fst st) /\ (forall d, d < n -> nle N (span b d) (fst st) = true) /\
      (forall j, snd st = Some j -> fst st = span b j /\ j < n /\
         forall d, d < j -> nlt N (span b d) (span b j) = true)).
    { induction n as [|n IH]; intros Hn; cbv zeta.
      - cbn [seq fold_left fst snd]. split; auto. split; [intros; lia|intros; discriminate].
      - rewrite seq_S, fold_left_app, Nat.add_0_l. cbn [fold_left].
        destruct (IH ltac:(lia)) as (H1 & H2 & H3).
        destruct (fold_left step (seq 0 n) (nneg1 N, None)) as [v o]. cbn [fst snd] in H1, H2, H3.
        unfold step. cbn [fst snd].
        change (nsub N (coord (bmax b) n) (coord (bmin b) n)) with (span b n).
        destruct (nlt N v (span b n)) eqn:E; cbn [fst snd].
        + assert (L : forall d, d < n -> nlt N (span b d) (span b n) = true).
          { intros d Hd. apply (nle_lt_trans OL) with (y := v); auto; apply HO; lia. }
          split; [apply HO; lia|]. split.
          * intros d Hd. destruct (Nat.eq_dec d n) as [->|].
            -- apply (nle_refl OL). apply HO; lia.
            -- apply (nlt_le OL); [apply HO; lia|apply HO; lia|apply L; lia].
          * intros j [= <-]. split; auto. 
        + split; auto. split.
          * intros d Hd. destruct (Nat.eq_dec d n) as [->|]; [|apply H2; lia].
            rewrite (ol_le OL); [rewrite E; auto|apply HO; lia|auto].
          * intros j Ej. destruct (H3 j Ej) as (F1 & F2 & F3). split; auto. }
    intros E. destruct (G dim (le_n _)) as (_ & G2 & G3). destruct (G3 k E) as (E1 & E2 & E3).
    rewrite E1 in G2. split; auto.
  Qed.

  Lemma fin_perm (l l' : list A) : Permutation l l' -> okpts fin dim pt l -> okpts fin dim pt l'.
  Proof. apply okpts_perm. Qed.

  Lemma sub_fin (l l' : list A) : (forall x, In x l' -> In x l) -> okpts fin dim pt l -> okpts fin dim pt l'.
  Proof. intros H1 H2 x Hx. apply H2; auto. Qed.

  Definition rule_post (r : res (tree N A)) : Prop :=
    match r with Ok t => ruleTree t | _ => True end.

  Lemma rule_node b l r : ruleAt b (items l) (items r) -> ruleTree l -> ruleTree r -> ruleTree (Node b l r).
  Proof.
    intros H Hl Hr b' l' r' Hin. simpl in Hin. destruct Hin as [E|Hin].
    - inversion E; subst; auto.
    - apply in_app_or in Hin as [Hin|Hin]; auto.
  Qed.

  Lemma below_perm b k l l' : Permutation l l' -> below b k l -> below b k l'.
  Proof. intros HP H x Hx. apply H. eapply Permutation_in; [symmetry|]; eauto. Qed.
  Lemma above_perm b k l l' : Permutation l l' -> above b k l -> above b k l'.
  Proof. intros HP H x Hx. apply H. eapply Permutation_in; [symmetry|]; eauto. Qed.

  Lemma half_up_halved (l : list A) : halved (firstn ((length l + 1) / 2) l) (skipn ((length l + 1) / 2) l).
  Proof.
    unfold halved. rewrite firstn_length, skipn_length.
    pose proof (Nat.div_mod (length l + 1) 2 ltac:(lia)). pose proof (Nat.mod_upper_bound (length l + 1) 2 ltac:(lia)).
    lia.
  Qed.
  Lemma half_down_halved (l : list A) : halved (firstn (length l / 2) l) (skipn (length l / 2) l).
  Proof.
    unfold halved. rewrite firstn_length, skipn_length.
    pose proof (Nat.div_mod (length l) 2 ltac:(lia)). pose proof (Nat.mod_upper_bound (length l) 2 ltac:(lia)).
    lia.
  Qed.

  Lemma tight_spans b its : okpts fin dim pt its -> tight dim pt b its -> 
    (forall d, d < dim -> ok (span b d)) /\ (forall d, d < dim -> ok (mid b d)).
  Proof.
    intros HF Ht. split; intros d Hd; destruct (tight_ok FL HF Ht (d := d)) as (H1 & H2 & _); auto.
    - apply (dl_sub_ok DL); auto.
    - apply ML; auto.
  Qed.

  Lemma constructSerial_rule leafSize : 1 <= leafSize ->
    forall fuel its, its <> [] -> length its < fuel -> okpts fin dim pt its ->
    rule_post (constructSerial N dim A pt fuel leafSize its).
  Proof.
    intros HLS. induction fuel as [|f IH]; intros its Hne Hf HF; [lia|].
    cbn [constructSerial].
    destruct (boundingBoxSerial_tight FL Hne HF) as (b & -> & Hb). cbn [bind].
    destruct (tight_spans HF Hb) as [HS HM].
    destruct (Nat.leb_spec (length its) leafSize) as [Hle|Hgt].
    { intros b' l' r' [E|[]]; discriminate. }
    destruct (findWidest N dim b) as [k|] eqn:Hw; [|exact I].
    pose proof (findWidest_widest _ HS Hw) as W. assert (Hk : k < dim) by apply W.
    change (ndiv N _ _) with (mid b k).
    destruct (@splitItemSerial_spec N A pt k (mid b k) its) as (its' & m0 & E & HP & Hm0); [lia|].
    destruct (@splitItemSerial_part N A pt ok (dl_ord DL) k (mid b k) its its' m0) as [Plo Phi]; auto.
    { intros x Hx. apply (dl_fin_ok DL). apply HF; auto. }
    rewrite E. cbn [bind].
    set (m := if (m0 =? 0) || (m0 =? length its) then _ else m0).
    assert (Hm : 0 < m < length its).
    { apply fallback_bounds; auto. apply half_up_bounds; lia. }
    assert (Hlen : length its' = length its) by (apply Permutation_length; auto).
    destruct (@firstn_ne A its' m) as (H1 & H2 & H3 & H4); [lia|].
    assert (HF' : okpts fin dim pt its') by (eapply fin_perm; [symmetry|]; eauto).
    pose proof (IH (firstn m its') H1 ltac:(lia)) as Sl.
    pose proof (IH (skipn m its') H2 ltac:(lia)) as Sr.
    assert (F1 : okpts fin dim pt (firstn m its')).
    { apply sub_fin with (l := its'); auto. intros x. apply In_firstn. }
    assert (F2 : okpts fin dim pt (skipn m its')).
    { apply sub_fin with (l := its'); auto. intros x. apply In_skipn. }
    specialize (Sl F1). specialize (Sr F2).
    pose proof (@constructSerial_struct N dim A pt leafSize HLS f (firstn m its') H1 ltac:(lia)) as Pl.
    pose proof (@constructSerial_struct N dim A pt leafSize HLS f (skipn m its') H2 ltac:(lia)) as Pr.
    destruct (constructSerial N dim A pt f leafSize (firstn m its')) as [l| | |]; try exact I.
    cbn [bind].
    destruct (constructSerial N dim A pt f leafSize (skipn m its')) as [r| | |]; try exact I.
    cbn [bind rule_post]. destruct Pl as [Pl _], Pr as [Pr _].
    apply rule_node; auto. exists k. split; auto.
    destruct ((m0 =? 0) || (m0 =? length its)) eqn:Efb.
    - right. right. split.
      + assert (PP : Permutation its' (items l ++ items r)) by (rewrite Pl, Pr, firstn_skipn; auto).
        apply orb_true_iff in Efb as [Ef|Ef]; apply Nat.eqb_eq in Ef.
        * right. eapply above_perm; [exact PP|]. intros x Hx. apply Phi. rewrite Ef. auto.
        * left. eapply below_perm; [exact PP|]. intros x Hx. apply Plo. rewrite firstn_all2 by lia. auto.
      + pose proof (half_up_halved its') as HH. unfold halved in *. rewrite Hlen in HH. 
        rewrite (Permutation_length Pl), (Permutation_length Pr). exact HH.
    - left. subst m. split.
      + eapply below_perm; [symmetry; exact Pl|]. exact Plo.
      + eapply above_perm; [symmetry; exact Pr|]. exact Phi.
  Qed.

  Lemma constructParallel_rule leafSize workers threshold : 1 <= leafSize -> 0 < workers ->
    forall fuel its, its <> [] -> length its < fuel -> okpts fin dim pt its ->
    rule_post (constructParallel N dim A pt fuel workers threshold leafSize its).
  Proof.
    intros HLS HW. induction fuel as [|f IH]; intros its Hne Hf HF; [lia|].
    cbn [constructParallel].
    destruct (boundingBoxParallel_tight FL HW Hne HF) as (b & -> & Hb). cbn [bind].
    destruct (tight_spans HF Hb) as [HS HM].
    destruct (Nat.leb_spec (length its) leafSize) as [Hle|Hgt].
    { intros b' l' r' [E|[]]; discriminate. }
    destruct (findWidest N dim b) as [k|] eqn:Hw; [|exact I].
    pose proof (findWidest_widest _ HS Hw) as W. assert (Hk : k < dim) by apply W.
    change (ndiv N _ _) with (mid b k). set (fl := fun x => nlt N _ (mid b k)).
    unfold splitFlags. set (hi := filter (fun x => negb (fl x)) its). set (lo := filter fl its).
    set (m := if (length hi =? 0) || (length hi =? length its) then _ else length hi).
    pose proof (splitFlags_perm fl its) as HP. pose proof (splitFlags_count fl its) as Hm0.
    unfold splitFlags in HP, Hm0. cbn [fst snd] in HP, Hm0. fold hi lo in HP, Hm0.
    assert (Hm : 0 < m < length its).
    { apply fallback_bounds; auto. apply half_down_bounds; lia. }
    assert (Hlen : length (hi ++ lo) = length its) by (apply Permutation_length; auto).
    destruct (@firstn_ne A (hi ++ lo) m) as (H1 & H2 & H3 & H4); [lia|].
    assert (Plo : below b k lo).
    { intros x Hx. apply filter_In in Hx as [_ Hx]. exact Hx. }
    assert (Phi : above b k hi).
    { intros x Hx. apply filter_In in Hx as [Hi Hx]. apply negb_true_iff in Hx.
      rewrite (ol_le (dl_ord DL)); [unfold fl in Hx; rewrite Hx; auto|auto|].
      apply (dl_fin_ok DL). apply HF; auto. }
    assert (HF' : okpts fin dim pt (hi ++ lo)) by (eapply fin_perm; [symmetry|]; eauto).
    assert (F1 : okpts fin dim pt (firstn m (hi ++ lo))).
    { apply sub_fin with (l := hi ++ lo); auto. intros x. apply In_firstn. }
    assert (F2 : okpts fin dim pt (skipn m (hi ++ lo))).
    { apply sub_fin with (l := hi ++ lo); auto. intros x. apply In_skipn. }
    set (child := fun cc : list A => if threshold <? length cc
      then constructParallel N dim A pt f workers threshold leafSize cc
      else constructSerial N dim A pt (S (length cc)) leafSize cc).
    cbv zeta. change (rule_post (l <- child (firstn m (hi ++ lo)) ;; r <- child (skipn m (hi ++ lo)) ;;
      Ok (Node b l r))).
    assert (Hchild : forall cc, cc <> [] -> length cc < length its -> okpts fin dim pt cc ->
      rule_post (child cc) /\ struct_post leafSize cc (child cc)).
    { intros cc Hc1 Hc2 Hc3. unfold child. destruct (threshold <? length cc).
      - split; [apply IH; auto; lia|apply constructParallel_struct; auto; lia].
      - split; [apply constructSerial_rule; auto|apply constructSerial_struct; auto]. }
    destruct (Hchild (firstn m (hi ++ lo)) H1 ltac:(lia) F1) as [Sl Pl].
    destruct (Hchild (skipn m (hi ++ lo)) H2 ltac:(lia) F2) as [Sr Pr].
    destruct (child (firstn m (hi ++ lo))) as [l| | |]; try exact I.
    cbn [bind].
    destruct (child (skipn m (hi ++ lo))) as [r| | |]; try exact I.
    cbn [bind rule_post]. destruct Pl as [Pl _], Pr as [Pr _].
    apply rule_node; auto. exists k. split; auto.
    destruct ((length hi =? 0) || (length hi =? length its)) eqn:Efb.
    - right. right. split.
      + assert (PP : Permutation (hi ++ lo) (items l ++ items r)) by (rewrite Pl, Pr, firstn_skipn; auto).
        apply orb_true_iff in Efb as [Ef|Ef]; apply Nat.eqb_eq in Ef.
        * left. eapply below_perm; [exact PP|]. destruct hi; [exact Plo|discriminate].
        * right. eapply above_perm; [exact PP|]. rewrite app_length in Hlen.
          destruct lo; [rewrite app_nil_r; exact Phi|simpl in Hlen; lia].
      + pose proof (half_down_halved (hi ++ lo)) as HH. unfold halved in *. rewrite Hlen in HH.
        rewrite (Permutation_length Pl), (Permutation_length Pr). exact HH.
    - right. left. subst m. split.
      + eapply above_perm; [symmetry; exact Pl|].
        rewrite firstn_app, firstn_all2, Nat.sub_diag, firstn_O, app_nil_r by lia. exact Phi.
      + eapply below_perm; [symmetry; exact Pr|].
        rewrite skipn_app, skipn_all2, Nat.sub_diag by lia. exact Plo.
  Qed.

  Lemma build_rule parallel workers threshold leafSize P t :
    1 <= leafSize -> 0 < workers -> P <> [] -> okpts fin dim pt P ->
    build N dim A pt parallel workers threshold leafSize P = Ok t -> ruleTree t.
  Proof.
    intros HL HW HP HF. unfold build.
    destruct (Nat.eqb_spec (length P) 0); [discriminate|].
    destruct (parallel && _); intros E.
    - pose proof (@constructParallel_rule leafSize workers threshold HL HW (S (length P)) P HP (le_n _) HF) as H.
      rewrite E in H. exact H.
    - pose proof (@constructSerial_rule leafSize HL (S (length P)) P HP (le_n _) HF) as H.
      rewrite E in H. exact H.
  Qed.
End Rule.

Lemma split_double dim : 1 <= dim -> forall A (pt : A -> list (nT FNum)) parallel workers threshold leafSize P t,
  1 <= leafSize -> 0 < workers -> P <> [] -> okpts (N := FNum) ffin dim pt P ->
  build FNum dim A pt parallel workers threshold leafSize P = Ok t ->
  forall b l r, In (Node b l r) (subtrees t) ->
  exists k, k < dim /\
    (forall d, d < dim -> nle FNum (span b d) (span b k) = true) /\
    (forall d, d < k -> nlt FNum (span b d) (span b k) = true) /\
    ((below pt b k (items l) /\ above pt b k (items r)) \/ (above pt b k (items l) /\ below pt b k (items r)) \/
     ((below pt b k (items l ++ items r) \/ above pt b k (items l ++ items r)) /\
      halved (items l) (items r))).
Proof.
  intros Hd A pt par w th ls P t H1 H2 H3 H4 E b l r Hin.
  destruct (@build_rule FNum fok ffin fnn F_distlaws F_ordlaws_fin F_mid eq_refl dim Hd A pt par w th ls P t
    H1 H2 H3 H4 E b l r Hin) as (k & (W1 & W2 & W3) & HH).
  exists k. split; auto.
Qed.

Lemma split_exact dim : 1 <= dim -> forall A (pt : A -> list (nT RNum)) parallel workers threshold leafSize P t,
  1 <= leafSize -> 0 < workers -> P <> [] ->
  build RNum dim A pt parallel workers threshold leafSize P = Ok t ->
  forall b l r, In (Node b l r) (subtrees t) -> @ruleAt RNum dim A pt b (items l) (items r).
Proof.
  intros Hd A pt par w th ls P t H1 H2 H3 E.
  exact (@build_rule RNum _ _ _ R_distlaws R_ordlaws R_mid I dim Hd A pt par w th ls P t
    H1 H2 H3 (fun _ _ _ _ => I) E).
Qed.
