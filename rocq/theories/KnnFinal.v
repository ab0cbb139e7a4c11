(** kNN on built trees, and an nth_element/sort instance. *)
From Coq Require Import Reals Lra.
From Verif Require Import Base Num KdModel KdSpec KdBuild KdConstruct RGeom RangeModel RangeProofs
  KdExtra KnnModel KnnBuf KnnProofs KdSep.
Set Implicit Arguments.
Local Open Scope R_scope.

(** An implementation of nth_element and sort meeting the contracts. *)
Section Isort.
  Variable N : Num.
  Variable A : Type.
  Fixpoint ins (e : elem N A) (l : list (elem N A)) : list (elem N A) :=
    match l with
    | [] => [e]
    | x :: l' => if nlt N (fst e) (fst x) then e :: l else x :: ins e l'
    end.
  Definition isort (l : list (elem N A)) : list (elem N A) := fold_right ins [] l.

  Variable ok : nT N -> Prop.
  Hypothesis OL : OrdLaws N ok.

  Lemma ins_perm e l : Permutation (ins e l) (e :: l).
  Proof.
    induction l as [|x l IH]; simpl; auto. destruct (nlt N (fst e) (fst x)); auto.
    rewrite IH. constructor.
  Qed.
  Lemma isort_perm l : Permutation (isort l) l.
  Proof. induction l as [|x l IH]; simpl; auto. rewrite ins_perm, IH. auto. Qed.

  Lemma ins_sorted e l : ok (fst e) -> (forall x, In x l -> ok (fst x)) ->
    StronglySorted (@le N A) l -> StronglySorted (@le N A) (ins e l).
  Proof.
    intros He. induction l as [|x l IH]; simpl; intros Hl HS.
    - constructor; constructor.
    - inversion HS as [|? ? HS' HF]; subst.
      destruct (nlt N (fst e) (fst x)) eqn:E.
      + constructor; auto. constructor.
        * unfold le. apply (nle_false_lt OL); auto. apply (nlt_le OL); auto.
        * rewrite Forall_forall in HF |- *. intros y Hy.
          apply (@le_trans N ok OL A e x y); auto.
          unfold le. apply (nle_false_lt OL); auto. apply (nlt_le OL); auto.
      + constructor; [apply IH; auto|]. rewrite Forall_forall in HF |- *. intros y Hy.
        apply (Permutation_in _ (ins_perm e l)) in Hy. destruct Hy as [<-|Hy]; auto.
  Qed.

  Lemma isort_sorted l : (forall x, In x l -> ok (fst x)) -> StronglySorted (@le N A) (isort l).
  Proof.
    induction l as [|x l IH]; simpl; intros H; [constructor|].
    apply ins_sorted; auto.
    intros y Hy. apply H. right. eapply Permutation_in; [apply isort_perm|]; auto.
  Qed.

  Lemma ssorted_nth (l : list (elem N A)) : StronglySorted (@le N A) l -> (forall x, In x l -> ok (fst x)) ->
    forall i j a b, (i <= j)%nat -> nth_error l i = Some a -> nth_error l j = Some b -> le a b.
  Proof.
    induction 1 as [|x l HS IH HF]; intros Hok i j a b Hij Ha Hb; [destruct i; discriminate|].
    rewrite Forall_forall in HF. destruct i as [|i], j as [|j]; simpl in *; try lia.
    - inversion Ha; inversion Hb; subst. inversion Hb; subst. apply le_refl with (ok := ok); auto.
    - inversion Ha; subst. apply HF. eapply nth_error_In; eauto.
    - apply (IH (fun x Hx => Hok x (or_intror Hx)) i j); auto. lia.
  Qed.

  Lemma isort_sort_ok : sort_ok ok isort.
  Proof.
    intros l Hl. split; [apply isort_perm|]. intros i j a b Hij Ha Hb.
    assert (Hok : forall x, In x (isort l) -> ok (fst x)).
    { intros x Hx. apply Hl. eapply Permutation_in; [apply isort_perm|]; auto. }
    exact (@ssorted_nth (isort l) (@isort_sorted l Hl) Hok i j a b Hij Ha Hb).
  Qed.
  Lemma isort_nth_ok : nth_ok ok (fun _ => isort).
  Proof.
    intros n l Hn Hl. destruct (isort_sort_ok l Hl) as [H1 H2]. split; auto.
    intros i j a b Hi Hj. apply H2. lia.
  Qed.
End Isort.

Lemma Forall2_weaken X Y (R1 R2 : X -> Y -> Prop) l l' :
  (forall x y, R1 x y -> R2 x y) -> Forall2 R1 l l' -> Forall2 R2 l l'.
Proof. intros H. induction 1; auto. Qed.

Section Built.
  Variable dim : nat.
  Hypothesis Hdim : (1 <= dim)%nat.
  Variable A : Type.
  Variable pt : A -> list (nT RNum).

  (** At most [leafSize] items at one location. *)
  Definition fewEqual (leafSize : nat) (P : list A) : Prop :=
    forall L rest, Permutation (L ++ rest) P ->
      (forall x y, In x L -> In y L -> forall d, (d < dim)%nat -> coord (pt x) d = coord (pt y) d) ->
      (length L <= leafSize)%nat.

  Lemma fewEqual_app leafSize l r : fewEqual leafSize (l ++ r) -> fewEqual leafSize l /\ fewEqual leafSize r.
  Proof.
    intros H. split; intros L rest HP HL.
    - apply (H L (rest ++ r)); auto. rewrite app_assoc, HP. auto.
    - apply (H L (l ++ rest)); auto.
      rewrite <- HP. rewrite !app_assoc. apply Permutation_app_tail. apply Permutation_app_comm.
  Qed.

  (** Items at pairwise different locations. *)
  Lemma distinct_fewEqual leafSize P : (1 <= leafSize)%nat -> NoDup P ->
    (forall x y, In x P -> In y P -> x <> y -> exists d, (d < dim)%nat /\ coord (pt x) d <> coord (pt y) d) ->
    fewEqual leafSize P.
  Proof.
    intros HL HN HD L rest HP HC.
    assert (HN' : NoDup (L ++ rest)) by (eapply Permutation_NoDup; [symmetry|]; eauto).
    assert (HI : forall x, In x L -> In x P).
    { intros x Hx. eapply Permutation_in; [exact HP|]. apply in_or_app; auto. }
    apply NoDup_app_elim in HN'. destruct HN' as (HNL & _).
    destruct L as [|x [|y L]]; simpl; try lia.
    exfalso. assert (Hxy : x <> y).
    { intros ->. inversion HNL as [|? ? Hn _]; subst. apply Hn. simpl; auto. }
    destruct (HD x y) as (d & Hd & Hne); auto; try (apply HI; simpl; auto).
    apply Hne, HC; simpl; auto.
  Qed.

  Lemma hit_item (t : tree RNum A) x : bounds dim pt (tbox t) (items t) -> In x (items t) ->
    hit dim (pt x) t = true.
  Proof.
    intros Hb Hx. unfold hit, boxCompare. cbn [bmin bmax].
    match goal with |- context [existsb ?f _] => destruct (existsb f (seq 0 dim)) eqn:Ex end.
    - exfalso. apply existsb_exists in Ex as (d & Hd & E). apply in_seq0 in Hd.
      destruct (Hb d Hd x Hx) as [H1 H2]. simpl in H1, H2, E. rewrite Rleb_true in *.
      apply orb_true_iff in E as [E|E]; apply Rltb_true in E; lra.
    - reflexivity.
  Qed.

  Lemma miss_apart (t : tree RNum A) q d : tight dim pt (tbox t) (items t) -> (d < dim)%nat ->
    ((forall y, In y (items t) -> @coord RNum q d < coord (pt y) d) \/
     (forall y, In y (items t) -> coord (pt y) d < @coord RNum q d)) ->
    hit dim q t = false.
  Proof.
    intros Ht Hd H. unfold hit, boxCompare. cbn [bmin bmax].
    match goal with |- context [existsb ?f _] => assert (E : existsb f (seq 0 dim) = true) end.
    { apply existsb_exists. exists d. split; [apply in_seq0; auto|].
      destruct (Ht d Hd) as (_ & (x & Hx & Ex) & (y & Hy & Ey)).
      apply orb_true_iff. simpl. rewrite !Rltb_true. destruct H as [H|H].
      - right. specialize (H x Hx). rewrite Ex in H. exact H.
      - left. specialize (H y Hy). rewrite Ey in H. exact H. }
    rewrite E. reflexivity.
  Qed.

  Lemma path_built leafSize (t : tree RNum A) x : septree dim pt t -> shape leafSize t ->
    (forall s, In s (subtrees t) -> tight dim pt (tbox s) (items s)) ->
    fewEqual leafSize (items t) -> In x (items t) -> pathok dim (pt x) t.
  Proof.
    induction t as [its b|b l IHl r IHr]; intros HS Hsh Ht HF Hx; cbn [pathok]; auto.
    destruct HS as (Hap & HSl & HSr). destruct Hsh as (Hsz & Hshl & Hshr).
    cbn [items] in *. destruct (@fewEqual_app _ _ _ HF) as [HFl HFr].
    assert (Htl : forall s, In s (subtrees l) -> tight dim pt (tbox s) (items s)).
    { intros s Hs. apply Ht. simpl. right. apply in_or_app; auto. }
    assert (Htr : forall s, In s (subtrees r) -> tight dim pt (tbox s) (items s)).
    { intros s Hs. apply Ht. simpl. right. apply in_or_app; auto. }
    destruct Hap as [(d & Hd & Hap)|Hco].
    - apply in_app_or in Hx as [Hx|Hx].
      + left. split; [|split].
        * apply hit_item; auto. apply tight_bounds. apply Htl, subtrees_self.
        * apply miss_apart with (d := d); [apply Htr, subtrees_self|auto|].
          destruct Hap as [Hap|Hap]; [left|right]; intros y Hy; apply Hap; auto.
        * apply IHl; auto.
      + right. split; [|split].
        * apply miss_apart with (d := d); [apply Htl, subtrees_self|auto|].
          destruct Hap as [Hap|Hap]; [right|left]; intros y Hy; apply Hap; auto.
        * apply hit_item; auto. apply tight_bounds. apply Htr, subtrees_self.
        * apply IHr; auto.
    - exfalso. specialize (HF (items l ++ items r) []). rewrite app_nil_r in HF.
      specialize (HF (Permutation_refl _) Hco). rewrite app_length in HF. lia.
  Qed.

  Variable nthel : nat -> list (elem RNum A) -> list (elem RNum A).
  Hypothesis Hnth : nth_ok (fun _ : nT RNum => True) nthel.
  Variable srt : list (elem RNum A) -> list (elem RNum A).
  Hypothesis Hsrt : sort_ok (fun _ : nT RNum => True) srt.

  Lemma mapRes_ok B C (f : B -> res C) (Pr : B -> C -> Prop) l :
    (forall x, In x l -> exists y, f x = Ok y /\ Pr x y) ->
    exists ys, mapRes f l = Ok ys /\ Forall2 Pr l ys.
  Proof.
    induction l as [|x l IH]; intros H; simpl.
    - exists []. split; auto.
    - destruct (H x ltac:(simpl; auto)) as (y & -> & Hy). cbn [bind].
      destruct IH as (ys & -> & Hys); [intros; apply H; simpl; auto|].
      exists (y :: ys). split; auto.
  Qed.

  Lemma knn_item parallel workers threshold leafSize P t k sorted x :
    (1 <= leafSize)%nat -> (0 < workers)%nat -> (1 <= k)%nat ->
    build RNum dim A pt parallel workers threshold leafSize P = Ok t ->
    fewEqual leafSize P ->
    (forall y z, In y P -> In z P -> edist dim (pt y) (pt z) < Rfmax) -> In x P ->
    if (k <=? length P)%nat then
      exists l, knnOne RNum dim A pt nthel srt t k sorted (pt x) = Ok l /\
        length l = k /\
        (exists rest, Permutation (l ++ rest) P /\
           forall y z, In y l -> In z rest -> edist dim (pt x) (pt y) <= edist dim (pt x) (pt z)) /\
        (sorted = true -> forall i j y z, (i <= j)%nat -> nth_error l i = Some y -> nth_error l j = Some z ->
           edist dim (pt x) (pt y) <= edist dim (pt x) (pt z))
    else knnOne RNum dim A pt nthel srt t k sorted (pt x) = Throw.
  Proof.
    intros HL HW Hk E HF Hmax Hx.
    assert (HP : P <> []) by (intros ->; destruct Hx).
    destruct (@build_boxes _ _ R_ordlaws R_span dim A pt parallel workers threshold leafSize P t
      Hdim HL HW HP (@okptsR A pt dim P) E) as (H1 & H2 & H3 & _ & H5 & _).
    pose proof (@build_sep dim Hdim A pt parallel workers threshold leafSize P t HL HW HP E) as HS.
    assert (Hx' : In x (items t)) by (eapply Permutation_in; [symmetry|]; eauto).
    assert (HF' : fewEqual leafSize (items t)).
    { intros L rest HPL. apply (HF L rest). rewrite HPL. auto. }
    pose proof (@knnOne_spec dim A pt nthel Hnth srt Hsrt k Hk (pt x) t sorted) as KS.
    rewrite (Permutation_length H1) in KS.
    assert (HK := KS (hit_item t x (H3 t (subtrees_self t)) Hx')
                     (@path_built leafSize t x HS H2 H5 HF' Hx') H3).
    assert (Hnear : forall y, In y (items t) -> near dim pt (pt x) y).
    { intros y Hy. unfold near. rewrite dist_edist. apply Hmax; auto. eapply Permutation_in; eauto. }
    specialize (HK Hnear). destruct (k <=? length P)%nat; auto.
    destruct HK as (l & El & (HLl & rest & HPr & Hle) & Hso).
    exists l. split; auto. split; auto. split.
    - exists rest. rewrite <- H1. split; auto. intros y z Hy Hz.
      rewrite <- !dist_edist. apply Hle; auto.
    - intros Es i j y z Hij Hy Hz. rewrite <- !dist_edist. apply (Hso Es i j); auto.
  Qed.

  Lemma batchKnn_correct parallel workers threshold leafSize P t k sorted :
    (1 <= leafSize)%nat -> (0 < workers)%nat -> (1 <= k <= length P)%nat ->
    build RNum dim A pt parallel workers threshold leafSize P = Ok t ->
    fewEqual leafSize P ->
    (forall y z, In y P -> In z P -> edist dim (pt y) (pt z) < Rfmax) ->
    exists rows, batchKnn RNum dim A pt nthel srt t k sorted (map pt P) = Ok rows /\
      Forall2 (fun x l => length l = k /\
        (exists rest, Permutation (l ++ rest) P /\
           forall y z, In y l -> In z rest -> edist dim (pt x) (pt y) <= edist dim (pt x) (pt z)) /\
        (sorted = true -> forall i j y z, (i <= j)%nat -> nth_error l i = Some y -> nth_error l j = Some z ->
           edist dim (pt x) (pt y) <= edist dim (pt x) (pt z))) P rows.
  Proof.
    intros HL HW Hk E HF Hmax. unfold batchKnn.
    assert (EM : mapRes (knnOne RNum dim A pt nthel srt t k sorted) (map pt P)
               = mapRes (fun x => knnOne RNum dim A pt nthel srt t k sorted (pt x)) P).
    { clear. induction P as [|x l IH]; cbn [map mapRes]; auto. rewrite IH. auto. }
    rewrite EM. apply mapRes_ok. intros x Hx.
    assert (HKI := @knn_item parallel workers threshold leafSize P t k sorted x HL HW ltac:(lia) E HF Hmax Hx).
    destruct (Nat.leb_spec k (length P)); [exact HKI|lia].
  Qed.

  Lemma batchKnn_toofew parallel workers threshold leafSize P t k sorted :
    (1 <= leafSize)%nat -> (0 < workers)%nat -> P <> [] -> (length P < k)%nat ->
    build RNum dim A pt parallel workers threshold leafSize P = Ok t ->
    fewEqual leafSize P ->
    (forall y z, In y P -> In z P -> edist dim (pt y) (pt z) < Rfmax) ->
    batchKnn RNum dim A pt nthel srt t k sorted (map pt P) = Throw.
  Proof.
    intros HL HW HP Hk E HF Hmax. destruct P as [|x P']; [congruence|].
    assert (HKI := @knn_item parallel workers threshold leafSize (x :: P') t k sorted x HL HW ltac:(simpl in *; lia) E HF Hmax ltac:(simpl; auto)).
    destruct (Nat.leb_spec k (length (x :: P'))); [lia|].
    unfold batchKnn. simpl map. cbn [mapRes]. rewrite HKI. reflexivity.
  Qed.

  Lemma knn_distinct parallel workers threshold leafSize P t k sorted :
    (1 <= leafSize)%nat -> (0 < workers)%nat -> (1 <= k <= length P)%nat -> NoDup P ->
    build RNum dim A pt parallel workers threshold leafSize P = Ok t ->
    fewEqual leafSize P ->
    (forall y z, In y P -> In z P -> edist dim (pt y) (pt z) < Rfmax) ->
    exists rows, batchKnn RNum dim A pt nthel srt t k sorted (map pt P) = Ok rows /\
      Forall (fun l => length l = k /\ NoDup l /\ incl l P) rows.
  Proof.
    intros HL HW Hk HN E HF Hmax.
    destruct (@batchKnn_correct parallel workers threshold leafSize P t k sorted HL HW Hk E HF Hmax)
      as (rows & Er & HR).
    exists rows. split; auto.
    assert (G : forall Q rows, Forall2 (fun (x : A) (l : list A) => length l = k /\
      exists rest, Permutation (l ++ rest) P) Q rows ->
      Forall (fun l => length l = k /\ NoDup l /\ incl l P) rows).
    { induction 1 as [|x l Q rs (H1 & rest & H2) H3 IH]; constructor; auto.
      split; auto. split.
      - assert (HN' : NoDup (l ++ rest)) by (eapply Permutation_NoDup; [symmetry|]; eauto).
        apply NoDup_app_elim in HN'. tauto.
      - intros y Hy. eapply Permutation_in; [exact H2|]. apply in_or_app; auto. }
    apply (G P). eapply Forall2_weaken; [|exact HR]. intros x l (H1 & (rest & H2 & _) & _). eauto.
  Qed.
End Built.

Lemma buffer_k_smallest (N : Num) (ok : nT N -> Prop) : OrdLaws N ok -> ok (nmax N) ->
  forall A nthel, nth_ok ok nthel -> forall k, (1 <= k)%nat ->
  forall es : list (elem N A),
  (forall e, In e es -> snd e <> None /\ ok (fst e) /\ nlt N (fst e) (nmax N) = true) ->
  exists b, insertAll nthel es (newBuffer N A k) = Ok b /\
    ((length es < k)%nat -> keepK nthel b = Throw) /\
    ((k <= length es)%nat -> exists c b' rest, keepK nthel b = Ok (c, b') /\ bptr b' = k /\
       let kept := firstn k (bbuf b') in
       length kept = k /\ Permutation (kept ++ rest) es /\ In c kept /\
       (forall a, In a kept -> nlt N (fst c) (fst a) = false) /\
       (forall a g, In a kept -> In g rest -> nlt N (fst g) (fst a) = false)).
Proof.
  intros OL Hm A nthel Hn k Hk es Hes.
  assert (Hg : forall e, In e es -> good ok e).
  { intros [c o] He. destruct (Hes _ He) as (H1 & H2 & H3). split; [|split]; auto.
    unfold isReal. simpl in *. destruct o; congruence. }
  exact (@buffer_correct N ok OL Hm A nthel Hn k Hk es Hg).
Qed.

Lemma cbuffer_k_smallest (N : Num) (ok : nT N -> Prop) : OrdLaws N ok ->
  forall A nthel, nth_ok ok nthel -> forall k, (1 <= k)%nat ->
  forall es : list (elem N A), (forall e, In e es -> ok (fst e)) ->
  exists c, cinsertAll nthel es (newCBuffer N A k) = Ok c /\
    ((length es < k)%nat -> ckeepK nthel c = Throw) /\
    ((k <= length es)%nat -> exists m c' rest, ckeepK nthel c = Ok (m, c') /\ bptr (cb c') = k /\
       let kept := firstn k (bbuf (cb c')) in
       length kept = k /\ Permutation (kept ++ rest) es /\ m = nth (k - 1) kept (emptyElem N A) /\
       (forall a g, In a kept -> In g rest -> nlt N (fst g) (fst a) = false)).
Proof. intros OL A nthel Hn k Hk es Hes. exact (@cbuffer_correct N ok OL A nthel Hn k Hk es Hes). Qed.
