(** Lemmas about the live items of a range, equality of points, and boxes. *)
From Verif Require Import Base Num KdModel KdSpec KdBuild RangeModel RangeProofs
  BatchModel BatchSlice BatchTree BatchMedian.
Set Implicit Arguments.

Section Pack.
  Variable A : Type.

  Definition pick (its : list A) (pres : list bool) (i : nat) : list A :=
    match nth_error its i, nth_error pres i with
    | Some x, Some true => [x]
    | _, _ => []
    end.

  Lemma flat_map_nil B C (f : B -> list C) l : (forall x, f x = []) -> flat_map f l = [].
  Proof. intros H. induction l as [|x l IH]; cbn; auto. rewrite H, IH. reflexivity. Qed.

  Lemma packed_flat0 n : forall (l1 : list A) l2,
    map fst (filter snd (combine (firstn n l1) (firstn n l2))) = flat_map (pick l1 l2) (seq 0 n).
  Proof.
    induction n as [|n IH]; intros l1 l2; [reflexivity|].
    cbn [seq flat_map]. rewrite <- seq_shift, flat_map_concat_map, map_map, <- flat_map_concat_map.
    destruct l1 as [|x l1].
    { rewrite flat_map_nil; [reflexivity|]. intros k. reflexivity. }
    destruct l2 as [|b l2].
    { rewrite flat_map_nil; [reflexivity|]. intros k. unfold pick. cbn. destruct (nth_error l1 k); auto. }
    cbn [firstn combine filter snd]. unfold pick at 1. cbn [nth_error].
    change (flat_map (fun x0 => pick (x :: l1) (b :: l2) (S x0)) (seq 0 n)) with (flat_map (pick l1 l2) (seq 0 n)).
    rewrite <- IH. destruct b; reflexivity.
  Qed.

  Lemma packed_flat s e (its : list A) pres : packed s e its pres = flat_map (pick its pres) (seq s (e - s)).
  Proof.
    unfold packed, slice. rewrite packed_flat0.
    assert (G : forall n k, flat_map (pick (skipn s its) (skipn s pres)) (seq k n) =
                            flat_map (pick its pres) (seq (s + k) n)).
    { induction n as [|n IH]; intros k; [reflexivity|]. cbn [seq flat_map].
      rewrite IH, Nat.add_succ_r. f_equal. unfold pick. rewrite !nth_error_skipn. reflexivity. }
    rewrite G, Nat.add_0_r. reflexivity.
  Qed.

  Lemma In_packed s e (its : list A) pres x : In x (packed s e its pres) <->
    exists i, s <= i < e /\ nth_error its i = Some x /\ nth_error pres i = Some true.
  Proof.
    rewrite packed_flat, in_flat_map. split.
    - intros (i & Hi & H). apply in_seq in Hi. exists i. split; [lia|]. unfold pick in H.
      destruct (nth_error its i); [|destruct H]. destruct (nth_error pres i) as [[|]|]; try (destruct H; fail).
      destruct H as [<- | []]. auto.
    - intros (i & Hi & H1 & H2). exists i. split; [apply in_seq; lia|]. unfold pick. rewrite H1, H2. simpl; auto.
  Qed.

  Lemma packed_split s m e (its : list A) pres : s <= m <= e ->
    packed s e its pres = packed s m its pres ++ packed m e its pres.
  Proof.
    intros H. rewrite !packed_flat, <- flat_map_app. f_equal.
    replace (e - s) with ((m - s) + (e - m)) by lia. rewrite seq_app. do 2 f_equal. lia.
  Qed.

  Lemma packed_ext s e (its : list A) pres pres' :
    (forall i, s <= i < e -> nth_error pres' i = nth_error pres i) -> packed s e its pres' = packed s e its pres.
  Proof.
    intros H. rewrite !packed_flat. rewrite !flat_map_concat_map. f_equal. apply map_ext_in.
    intros i Hi. apply in_seq in Hi. unfold pick. rewrite H by lia. reflexivity.
  Qed.

  Lemma packed_nil s e (its : list A) pres :
    (forall i, s <= i < e -> nth_error pres i = Some true -> False) -> packed s e its pres = [].
  Proof.
    intros H. destruct (packed s e its pres) as [|x l] eqn:E; auto.
    assert (Hx : In x (packed s e its pres)) by (rewrite E; simpl; auto).
    apply In_packed in Hx as (i & Hi & _ & Hp). exfalso. eauto.
  Qed.

  Lemma packed_cover s a b c d e (its : list A) pres : s <= a <= b -> b <= c <= d -> d <= e ->
    (forall i, s <= i < e -> nth_error pres i = Some true -> a <= i < b \/ c <= i < d) ->
    packed s e its pres = packed a b its pres ++ packed c d its pres.
  Proof.
    intros H1 H2 H3 H. rewrite (@packed_split s a e) by lia. rewrite (@packed_split a b e) by lia.
    rewrite (@packed_split b c e) by lia. rewrite (@packed_split c d e) by lia.
    rewrite (@packed_nil s a), (@packed_nil b c), (@packed_nil d e), app_nil_r by (intros i Hi Hp; specialize (H i); lia || (apply H in Hp; lia)).
    reflexivity.
  Qed.

  Lemma packed_sub s a b e (its : list A) pres : s <= a <= b -> b <= e ->
    (forall i, s <= i < e -> nth_error pres i = Some true -> a <= i < b) ->
    packed s e its pres = packed a b its pres.
  Proof.
    intros H1 H2 H. rewrite (@packed_cover s a b b b e); try lia.
    - rewrite (@packed_nil b b), app_nil_r by lia. reflexivity.
    - intros i Hi Hp. left. auto.
  Qed.

  Lemma packed_upd s e (its : list A) pres i x : s <= i < e -> nth_error its i = Some x ->
    nth_error pres i = Some true ->
    Permutation (packed s e its pres) (x :: packed s e its (upd i false pres)).
  Proof.
    intros Hi Hx Hp.
    assert (Hl : i < length pres) by (apply nth_error_Some; congruence).
    rewrite (@packed_split s i e its pres), (@packed_split s i e its (upd i false pres)) by lia.
    rewrite (@packed_split i (S i) e its pres), (@packed_split i (S i) e its (upd i false pres)) by lia.
    rewrite (@packed_ext s i its pres (upd i false pres)) by (intros j Hj; rewrite nth_error_upd_neq; auto; lia).
    rewrite (@packed_ext (S i) e its pres (upd i false pres)) by (intros j Hj; rewrite nth_error_upd_neq; auto; lia).
    rewrite (@packed_flat i (S i) its pres), (@packed_flat i (S i) its (upd i false pres)).
    replace (S i - i) with 1 by lia. cbn [seq flat_map]. unfold pick. rewrite Hx, Hp, nth_error_upd_eq by auto.
    cbn [app]. apply Permutation_sym, Permutation_middle.
  Qed.

  Lemma packed_all s e (its : list A) pres : e <= length its -> e <= length pres ->
    (forall i, s <= i < e -> nth_error pres i = Some true) -> packed s e its pres = slice s e its.
  Proof.
    intros H1 H2 H. unfold packed.
    assert (G : forall (l : list A) bl, length l = length bl -> (forall b, In b bl -> b = true) ->
              map fst (filter snd (combine l bl)) = l).
    { induction l as [|x l IH]; intros [|b bl] Hl Hb; try discriminate; auto.
      cbn. rewrite (Hb b) by (simpl; auto). cbn. f_equal. apply IH; auto. intros; apply Hb; simpl; auto. }
    apply G; [rewrite !slice_length; auto|].
    intros b Hb. apply In_nth_error in Hb as [k Hk].
    assert (Hk' : k < e - s).
    { rewrite <- (@slice_length _ s e pres H2). apply nth_error_Some. congruence. }
    rewrite nth_error_slice in Hk by auto. rewrite H in Hk by lia. congruence.
  Qed.
End Pack.

(** *** Equality of points. *)
Record EqLaw (N : Num) (ok : nT N -> Prop) : Prop := {
  eq_refl_ : forall a, ok a -> neqC N a a = false;
  eq_sym_ : forall a b, ok a -> ok b -> neqC N a b = neqC N b a;
  eq_trans_ : forall a b c, ok a -> ok b -> ok c -> neqC N a b = false -> neqC N b c = false -> neqC N a c = false;
  eq_lt_ : forall a b, ok a -> ok b -> neqC N a b = false -> forall c, nlt N a c = nlt N b c;
}.

Section Eq.
  Variable N : Num.
  Variable ok : nT N -> Prop.
  Hypothesis EL : EqLaw N ok.
  Variable dim : nat.

  Definition okP (p : list (nT N)) : Prop := forall d, d < dim -> ok (coord p d).

  Lemma peq_iff p q : peq N dim p q = true <-> forall d, d < dim -> neqC N (coord p d) (coord q d) = false.
  Proof.
    unfold peq. rewrite forallb_forall. split; intros H d Hd.
    - apply negb_true_iff. apply H, in_seq. lia.
    - apply in_seq in Hd. apply negb_true_iff. apply H. lia.
  Qed.
  Lemma peq_refl p : okP p -> peq N dim p p = true.
  Proof. intros H. apply peq_iff. intros d Hd. apply (eq_refl_ EL). auto. Qed.
  Lemma peq_sym p q : okP p -> okP q -> peq N dim p q = peq N dim q p.
  Proof.
    intros Hp Hq. apply eq_true_iff_eq. rewrite !peq_iff.
    split; intros H d Hd; rewrite (eq_sym_ EL); auto.
  Qed.
  Lemma peq_trans p q r : okP p -> okP q -> okP r -> peq N dim p q = true -> peq N dim q r = true -> peq N dim p r = true.
  Proof. rewrite !peq_iff. intros Hp Hq Hr H1 H2 d Hd. eapply (eq_trans_ EL); [| | |apply H1|apply H2]; auto. Qed.
  Lemma peq_lt p q d c : okP p -> okP q -> peq N dim p q = true -> d < dim -> nlt N (coord p d) c = nlt N (coord q d) c.
  Proof. intros Hp Hq H Hd. rewrite peq_iff in H. apply (eq_lt_ EL); auto. Qed.
End Eq.

(** *** Boxes. *)
Section Boxes.
  Variable N : Num.
  Variable ok : nT N -> Prop.
  Hypothesis OL : OrdLaws N ok.
  Variable dim : nat.
  Variable A : Type.
  Variable pt : A -> list (nT N).
  Notation okI := (okItem N ok dim pt).

  Lemma bboxUpd_ok (b : box N) x : okbox ok dim b -> okI x -> okbox ok dim (bboxUpd dim pt b x).
  Proof.
    intros Hb Hx d Hd. destruct (Hb d Hd) as [B1 B2]. cbn [bboxUpd bmin bmax].
    rewrite coord_minCoords, coord_maxCoords by auto.
    split; [apply nmin2_ok|apply nmax2_ok]; auto; apply Hx; auto.
  Qed.

  Lemma foldBox_bounds l : forall (b : box N), okbox ok dim b -> (forall x, In x l -> okI x) ->
    let b' := fold_left (bboxUpd dim pt) l b in
    okbox ok dim b' /\ bounds dim pt b' l /\
    forall d, d < dim -> nle N (coord (bmin b') d) (coord (bmin b) d) = true /\
                         nle N (coord (bmax b) d) (coord (bmax b') d) = true.
  Proof.
    induction l as [|x l IH]; intros b Hb Hl; cbn [fold_left].
    - split; auto. split; [intros d Hd x []|].
      intros d Hd. destruct (Hb d Hd). split; apply (nle_refl OL); auto.
    - assert (Hx : okI x) by (apply Hl; simpl; auto).
      assert (Hb1 : okbox ok dim (bboxUpd dim pt b x)) by (apply bboxUpd_ok; auto).
      specialize (IH _ Hb1 (fun y Hy => Hl y (or_intror Hy))). cbv zeta in *.
      set (b' := fold_left _ l _) in *. destruct IH as (I1 & I2 & I3).
      assert (S : forall d, d < dim -> nle N (coord (bmin (bboxUpd dim pt b x)) d) (coord (bmin b) d) = true /\
                 nle N (coord (bmin (bboxUpd dim pt b x)) d) (coord (pt x) d) = true /\
                 nle N (coord (bmax b) d) (coord (bmax (bboxUpd dim pt b x)) d) = true /\
                 nle N (coord (pt x) d) (coord (bmax (bboxUpd dim pt b x)) d) = true).
      { intros d Hd. destruct (Hb d Hd) as [B1 B2]. pose proof (Hx d Hd) as Ox.
        cbn [bboxUpd bmin bmax]. rewrite coord_minCoords, coord_maxCoords by auto.
        split; [apply (nmin2_le_l OL); auto|]. split; [apply (nmin2_le_r OL); auto|].
        split; [apply (nmax2_le_l OL); auto|apply (nmax2_le_r OL); auto]. }
      split; auto. split.
      + intros d Hd y [<- | Hy]; [|apply I2; auto].
        destruct (I1 d Hd) as [O1 O2], (Hb1 d Hd) as [O3 O4], (I3 d Hd) as [L1 L2], (S d Hd) as (S1 & S2 & S3 & S4).
        pose proof (Hx d Hd).
        split; [apply (nle_trans OL) with (coord (bmin (bboxUpd dim pt b x)) d)|
                apply (nle_trans OL) with (coord (bmax (bboxUpd dim pt b x)) d)]; auto.
      + intros d Hd.
        destruct (I1 d Hd) as [O1 O2], (Hb1 d Hd) as [O3 O4], (Hb d Hd) as [O5 O6], (I3 d Hd) as [L1 L2], (S d Hd) as (S1 & S2 & S3 & S4).
        split; [apply (nle_trans OL) with (coord (bmin (bboxUpd dim pt b x)) d)|
                apply (nle_trans OL) with (coord (bmax (bboxUpd dim pt b x)) d)]; auto.
  Qed.

  Lemma ptBox_ok x : okI x -> okbox ok dim {| bmin := pt x; bmax := pt x |}.
  Proof. intros H d Hd. cbn. split; apply H; auto. Qed.

  Lemma leafBox_ok its : its <> [] -> (forall x, In x its -> okI x) ->
    exists b, leafBox N dim pt its = Ok b /\ okbox ok dim b /\ bounds dim pt b its.
  Proof.
    intros Hne Hok. unfold leafBox. destruct its as [|x l]; [congruence|].
    eexists. split; [reflexivity|].
    destruct (@foldBox_bounds (x :: l) {| bmin := pt x; bmax := pt x |}) as (B1 & B2 & _); auto.
    apply ptBox_ok. apply Hok; simpl; auto.
  Qed.

  Lemma relivedBox_ok old live : live <> [] -> (forall x, In x live -> okI x) ->
    okbox ok dim (relivedBox dim pt old live) /\ bounds dim pt (relivedBox dim pt old live) live.
  Proof.
    intros Hne Hok. unfold relivedBox. destruct live as [|x l]; [congruence|].
    assert (Hx : okI x) by (apply Hok; simpl; auto).
    destruct (@foldBox_bounds l {| bmin := pt x; bmax := pt x |}) as (B1 & B2 & B3); auto.
    { apply ptBox_ok; auto. }
    { intros; apply Hok; simpl; auto. }
    split; auto. intros d Hd y [<- | Hy]; [apply (B3 d Hd)|apply B2; auto].
  Qed.

  Lemma boxUnion_ok (b1 b2 : box N) l1 l2 : okbox ok dim b1 -> okbox ok dim b2 ->
    (forall x, In x (l1 ++ l2) -> okI x) -> bounds dim pt b1 l1 -> bounds dim pt b2 l2 ->
    okbox ok dim (boxUnion dim b1 b2) /\ bounds dim pt (boxUnion dim b1 b2) (l1 ++ l2).
  Proof.
    intros O1 O2 Hok H1 H2. split.
    - intros d Hd. destruct (O1 d Hd), (O2 d Hd). cbn [boxUnion bmin bmax].
      rewrite coord_minCoords, coord_maxCoords by auto. split; [apply nmin2_ok|apply nmax2_ok]; auto.
    - intros d Hd x Hx. destruct (O1 d Hd) as [P1 P2], (O2 d Hd) as [P3 P4].
      pose proof (Hok x Hx d Hd) as Ox. cbn [boxUnion bmin bmax].
      rewrite coord_minCoords, coord_maxCoords by auto.
      pose proof (@nmin2_ok N ok _ _ P1 P3). pose proof (@nmax2_ok N ok _ _ P2 P4).
      apply in_app_iff in Hx as [Hx | Hx].
      + destruct (H1 d Hd x Hx). split.
        * apply (nle_trans OL) with (coord (bmin b1) d); auto. apply (nmin2_le_l OL); auto.
        * apply (nle_trans OL) with (coord (bmax b1) d); auto. apply (nmax2_le_l OL); auto.
      + destruct (H2 d Hd x Hx). split.
        * apply (nle_trans OL) with (coord (bmin b2) d); auto. apply (nmin2_le_r OL); auto.
        * apply (nle_trans OL) with (coord (bmax b2) d); auto. apply (nmax2_le_r OL); auto.
  Qed.
End Boxes.
