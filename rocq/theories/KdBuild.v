(** Correctness of the kd-tree construction. *)
From Verif Require Import Base Num KdModel KdSpec.
Set Implicit Arguments.

Section Swap.
  Variable A : Type.

  Lemma swap_length i j (l : list A) : length (swap A i j l) = length l.
  Proof.
    unfold swap. destruct (nth_error l i), (nth_error l j); auto.
    rewrite !upd_length; auto.
  Qed.

  Lemma upd_split i (x y : A) l : nth_error l i = Some y ->
    exists l1 l2, l = l1 ++ y :: l2 /\ length l1 = i /\ upd i x l = l1 ++ x :: l2.
  Proof.
    revert i; induction l as [|z l IH]; intros [|i] H; simpl in *; try discriminate.
    - injection H as ->. exists [], l; auto.
    - destruct (IH _ H) as (l1 & l2 & -> & Hl & Hu).
      exists (z :: l1), l2. simpl. rewrite Hu. auto.
  Qed.

  Lemma swap_perm i j (l : list A) : Permutation (swap A i j l) l.
  Proof.
    unfold swap. destruct (nth_error l i) as [x|] eqn:Ei; auto.
    destruct (nth_error l j) as [y|] eqn:Ej; auto.
    destruct (Nat.eq_dec i j) as [->|Hij].
    - rewrite Ei in Ej. injection Ej as ->.
      destruct (@upd_split j y y l Ei) as (l1 & l2 & -> & Hl & Hu).
      rewrite Hu. rewrite <- Hu, Hu. rewrite <- Hl.
      assert (forall (a b c : list A) z, upd (length a) z (a ++ z :: c) = a ++ z :: c).
      { clear. induction a; simpl; intros; auto. f_equal; auto. }
      rewrite H; auto.
    - destruct (@upd_split i y x l Ei) as (l1 & l2 & E1 & Hl & Hu).
      assert (E2 : nth_error (upd i y l) j = Some y).
      { rewrite nth_error_upd_neq; auto. }
      destruct (@upd_split j x y _ E2) as (l3 & l4 & E3 & Hl3 & Hu3).
      rewrite Hu3. subst l.
      rewrite Hu in E3.
      apply Permutation_trans with (x :: l3 ++ l4); [symmetry; apply Permutation_middle|].
      assert (Permutation (y :: l1 ++ l2) (y :: l3 ++ l4)).
      { rewrite Permutation_middle, E3. symmetry. apply Permutation_middle. }
      apply Permutation_cons_inv in H.
      rewrite <- H. apply Permutation_middle.
  Qed.

  Lemma swap_nth i j (l : list A) x y : nth_error l i = Some x -> nth_error l j = Some y ->
    forall k, nth_error (swap A i j l) k =
      if k =? j then Some x else if k =? i then Some y else nth_error l k.
  Proof.
    intros Hi Hj k. unfold swap. rewrite Hi, Hj.
    assert (i < length l) by (apply nth_error_Some; congruence).
    assert (j < length l) by (apply nth_error_Some; congruence).
    destruct (Nat.eqb_spec k j) as [->|Hkj].
    - apply nth_error_upd_eq. rewrite upd_length; auto.
    - rewrite nth_error_upd_neq by auto.
      destruct (Nat.eqb_spec k i) as [->|Hki].
      + apply nth_error_upd_eq; auto.
      + apply nth_error_upd_neq; auto.
  Qed.
End Swap.

Section BuildProofs.
  Variable N : Num.
  Variable dim : nat.
  Variable A : Type.
  Variable pt : A -> list (nT N).

  Notation atge := (atge N A pt).
  Notation atlt := (atlt N A pt).

  Lemma splitInner_spec k xM its l r : l <= r ->
    let r1 := splitInner N A pt k xM its l r in
    l <= r1 <= r /\
    (forall i, r1 < i <= r -> atge k xM its i = true) /\
    (l < r1 -> atge k xM its r1 = false).
  Proof.
    induction r as [|r IH]; intros Hlr; simpl.
    - split; [lia|]. split; [lia|lia].
    - destruct (atge k xM its (S r)) eqn:E; simpl.
      + destruct (Nat.ltb_spec l (S r)); simpl.
        * destruct IH as (H1 & H2 & H3); [lia|]. split; [lia|]. split; auto.
          intros i Hi. destruct (Nat.eq_dec i (S r)) as [->|]; auto. apply H2; lia.
        * split; [lia|]. split; lia.
      + split; [lia|]. split; [lia|]. auto.
  Qed.

  Lemma atge_swap k xM its l r x y i :
    nth_error its l = Some x -> nth_error its r = Some y ->
    atge k xM (swap A l r its) i =
      if i =? r then atge k xM its l else if i =? l then atge k xM its r else atge k xM its i.
  Proof.
    intros Hl Hr. unfold KdModel.atge. rewrite (@swap_nth _ _ _ _ _ _ Hl Hr), Hl, Hr.
    destruct (i =? r); auto. destruct (i =? l); auto.
  Qed.

  Definition part_at k xM (its : list A) (m : nat) : Prop :=
    (forall i, i < m -> i < length its -> atge k xM its i = false) /\
    (forall i, m <= i -> i < length its -> atge k xM its i = true).

  Lemma splitOuter_spec k xM fuel : forall its l r,
    r + 1 - l < fuel -> l <= r + 1 -> l < length its -> r < length its ->
    (forall i, i < l -> atge k xM its i = false) ->
    (forall i, r < i -> i < length its -> atge k xM its i = true) ->
    exists its' l', splitOuter N A pt fuel k xM its l r = Ok (its', l') /\
      Permutation its' its /\ l' < length its /\
      (part_at k xM its' l' \/ (part_at k xM its' (S l') /\ atge k xM its' l' = false)).
  Proof.
    induction fuel as [|f IH]; intros its l r Hf Hlr Hl Hr Hlo Hhi; [lia|]. simpl.
    destruct (Nat.ltb_spec l r) as [Hlt|Hge].
    - destruct (atge k xM its l) eqn:El.
      + destruct (@splitInner_spec k xM its l r) as (Hb & Hge & Hlast); [lia|].
        set (r1 := splitInner N A pt k xM its l r) in *.
        destruct (Nat.ltb_spec l r1) as [Hl1|Hl1].
        * destruct (nth_error its l) as [x|] eqn:Ex; [|apply nth_error_None in Ex; lia].
          destruct (nth_error its r1) as [y|] eqn:Ey; [|apply nth_error_None in Ey; lia].
          destruct (IH (swap A l r1 its) (S l) (r1 - 1)) as (its' & l' & H1 & H2 & H3 & H4);
            try (rewrite swap_length; lia); try lia.
          { intros i Hi. rewrite (@atge_swap k xM _ _ _ _ _ i Ex Ey).
            destruct (Nat.eqb_spec i r1); [lia|].
            destruct (Nat.eqb_spec i l); auto. apply Hlo; lia. }
          { intros i Hi Hi2. rewrite swap_length in Hi2.
            rewrite (@atge_swap k xM _ _ _ _ _ i Ex Ey).
            destruct (Nat.eqb_spec i r1); auto.
            destruct (Nat.eqb_spec i l); [lia|].
            destruct (Nat.le_gt_cases i r); [apply Hge; lia | apply Hhi; lia]. }
          exists its', l'. split; auto. split; [rewrite H2; apply swap_perm|].
          rewrite swap_length in H3. auto.
        * assert (r1 = l) by lia. exists its, l. split; auto. split; auto. split; auto.
          left. split; [intros; apply Hlo; lia|].
          intros i Hi Hi2. destruct (Nat.eq_dec i l) as [->|]; auto.
          destruct (Nat.le_gt_cases i r); [apply Hge; lia | apply Hhi; lia].
      + apply IH; auto; try lia.
        intros i Hi. destruct (Nat.eq_dec i l) as [->|]; auto. apply Hlo; lia.
    - exists its, l. split; auto. split; auto. split; auto.
      destruct (Nat.eq_dec l (r + 1)) as [->|].
      + left. split; [intros; apply Hlo; lia | intros; apply Hhi; lia].
      + assert (l = r) by lia. subst r.
        destruct (atge k xM its l) eqn:El.
        * left. split; [intros; apply Hlo; lia|]. intros i Hi Hi2.
          destruct (Nat.eq_dec i l) as [->|]; auto. apply Hhi; lia.
        * right. split; auto. split.
          -- intros i Hi _. destruct (Nat.eq_dec i l) as [->|]; auto. apply Hlo; lia.
          -- intros i Hi Hi2. apply Hhi; lia.
  Qed.

  Lemma splitItemSerial_spec k xM its : 2 <= length its ->
    exists its' m, splitItemSerial N A pt k xM its = Ok (its', m) /\
      Permutation its' its /\ m <= length its.
  Proof.
    intros H. unfold splitItemSerial. destruct (Nat.ltb_spec (length its) 2); [lia|].
    destruct (@splitOuter_spec k xM (S (length its)) its 0 (length its - 1))
      as (its' & l' & E & HP & Hl & _); try lia.
    rewrite E. cbn [bind].
    exists its', (if atlt k xM its' l' then S l' else l'). split; [reflexivity|].
    split; auto. destruct (atlt k xM its' l'); lia.
  Qed.

  (** With a total order the serial split is a partition around [xM]. *)
  Lemma splitItemSerial_part (ok : nT N -> Prop) (OL : OrdLaws N ok) k xM its its' m :
    ok xM -> (forall x, In x its -> ok (coord (pt x) k)) ->
    splitItemSerial N A pt k xM its = Ok (its', m) ->
    (forall x, In x (firstn m its') -> nlt N (coord (pt x) k) xM = true) /\
    (forall x, In x (skipn m its') -> nle N xM (coord (pt x) k) = true).
  Proof.
    intros Hok Hits H. unfold splitItemSerial in H.
    destruct (Nat.ltb_spec (length its) 2); [discriminate|].
    destruct (@splitOuter_spec k xM (S (length its)) its 0 (length its - 1))
      as (its1 & l' & E & HP & Hl & Hpart); try lia.
    rewrite E in H. cbn [bind] in H. injection H as <- <-.
    assert (Hlen : length its1 = length its) by (apply Permutation_length; auto).
    assert (Hok1 : forall x, In x its1 -> ok (coord (pt x) k)).
    { intros x Hx. apply Hits. eapply Permutation_in; eauto. }
    assert (Hlt : forall i, i < length its1 -> atlt k xM its1 i = negb (atge k xM its1 i)).
    { intros i Hi. unfold KdModel.atlt, KdModel.atge.
      destruct (nth_error its1 i) as [x|] eqn:Ex; [|apply nth_error_None in Ex; lia].
      rewrite (ol_le OL); [rewrite negb_involutive; auto|auto|].
      apply Hok1. eapply nth_error_In; eauto. }
    set (m := if atlt k xM its1 l' then S l' else l').
    assert (Hm : part_at k xM its1 m).
    { unfold m. rewrite Hlt by lia.
      destruct Hpart as [Hp|[Hp Hg]].
      - destruct Hp as [Hp1 Hp2]. rewrite (Hp2 l') by lia. split; auto.
      - rewrite Hg. simpl. auto. }
    destruct Hm as [Hm1 Hm2]. split.
    - intros x Hx. destruct (In_nth_error _ _ Hx) as [i Hi].
      assert (Hi0 : i < length (firstn m its1)) by (apply nth_error_Some; congruence).
      rewrite firstn_length in Hi0.
      assert (Hn : nth_error its1 i = Some x).
      { rewrite <- Hi. rewrite <- (firstn_skipn m its1) at 1.
        rewrite nth_error_app1; auto. rewrite firstn_length; lia. }
      specialize (Hlt i ltac:(lia)). rewrite (Hm1 i) in Hlt by lia.
      unfold KdModel.atlt in Hlt. rewrite Hn in Hlt. auto.
    - intros x Hx. destruct (In_nth_error _ _ Hx) as [i Hi].
      assert (Hi0 : i < length (skipn m its1)) by (apply nth_error_Some; congruence).
      rewrite skipn_length in Hi0.
      assert (Hn : nth_error its1 (m + i) = Some x).
      { rewrite <- Hi. rewrite <- (firstn_skipn m its1) at 1.
        rewrite nth_error_app2; rewrite firstn_length; [f_equal; lia | lia]. }
      specialize (Hm2 (m + i) ltac:(lia) ltac:(lia)).
      unfold KdModel.atge in Hm2. rewrite Hn in Hm2. auto.
  Qed.

  Lemma splitFlags_perm fl its : Permutation (fst (splitFlags A fl its)) its.
  Proof.
    unfold splitFlags; simpl. rewrite Permutation_app_comm. apply filter_perm_split.
  Qed.

  Lemma splitFlags_count fl its : snd (splitFlags A fl its) <= length its.
  Proof. unfold splitFlags; simpl. apply filter_length_le. Qed.
End BuildProofs.

(** ** Bounding boxes *)
Section Folds.
  Variable N : Num.
  Variable ok : nT N -> Prop.
  Hypothesis OL : OrdLaws N ok.

  Lemma fold_min_spec (l : list (nT N)) : forall a, ok a -> (forall x, In x l -> ok x) ->
    let m := fold_left (nmin2 N) l a in
    ok m /\ nle N m a = true /\ (forall x, In x l -> nle N m x = true) /\ In m (a :: l).
  Proof.
    induction l as [|x l IH]; intros a Ha Hl; simpl.
    - split; auto. split; [apply (nle_refl OL); auto|]. split; [tauto|auto].
    - assert (Hx : ok x) by (apply Hl; simpl; auto).
      assert (Hm : ok (nmin2 N a x)) by (apply nmin2_ok; auto).
      destruct (IH (nmin2 N a x)) as (H1 & H2 & H3 & H4); auto.
      { intros; apply Hl; simpl; auto. }
      split; auto. split.
      { eapply (nle_trans OL); [| |auto|exact H2|]; auto. apply (nmin2_le_l OL); auto. }
      split.
      { intros y [<-|Hy]; auto. eapply (nle_trans OL); [| |auto|exact H2|]; auto.
        apply (nmin2_le_r OL); auto. }
      destruct H4 as [H4|H4]; [|auto].
      rewrite <- H4. destruct (nmin2_or a x) as [->| ->]; auto.
  Qed.

  Lemma fold_max_spec (l : list (nT N)) : forall a, ok a -> (forall x, In x l -> ok x) ->
    let m := fold_left (nmax2 N) l a in
    ok m /\ nle N a m = true /\ (forall x, In x l -> nle N x m = true) /\ In m (a :: l).
  Proof.
    induction l as [|x l IH]; intros a Ha Hl; simpl.
    - split; auto. split; [apply (nle_refl OL); auto|]. split; [tauto|auto].
    - assert (Hx : ok x) by (apply Hl; simpl; auto).
      assert (Hm : ok (nmax2 N a x)) by (apply nmax2_ok; auto).
      destruct (IH (nmax2 N a x)) as (H1 & H2 & H3 & H4); auto.
      { intros; apply Hl; simpl; auto. }
      split; auto. split.
      { eapply (nle_trans OL); [| |exact H1| |exact H2]; auto. apply (nmax2_le_l OL); auto. }
      split.
      { intros y [<-|Hy]; auto. eapply (nle_trans OL); [| |exact H1| |exact H2]; auto.
        apply (nmax2_le_r OL); auto. }
      destruct H4 as [H4|H4]; [|auto].
      rewrite <- H4. destruct (nmax2_or a x) as [->| ->]; auto.
  Qed.
End Folds.

Lemma coord_minCoords N dim (m p : list (nT N)) d : d < dim ->
  coord (minCoords N dim m p) d = nmin2 N (coord m d) (coord p d).
Proof. intros; unfold minCoords, coord at 1. rewrite nth_map_seq; auto. Qed.
Lemma coord_maxCoords N dim (m p : list (nT N)) d : d < dim ->
  coord (maxCoords N dim m p) d = nmax2 N (coord m d) (coord p d).
Proof. intros; unfold maxCoords, coord at 1. rewrite nth_map_seq; auto. Qed.

Lemma coord_fold_min N dim B (f : B -> list (nT N)) (l : list B) d : d < dim -> forall m,
  coord (fold_left (fun m y => minCoords N dim m (f y)) l m) d =
  fold_left (nmin2 N) (map (fun y => coord (f y) d) l) (coord m d).
Proof.
  intros Hd; induction l as [|y l IH]; intros m; simpl; auto.
  rewrite IH, coord_minCoords; auto.
Qed.
Lemma coord_fold_max N dim B (f : B -> list (nT N)) (l : list B) d : d < dim -> forall m,
  coord (fold_left (fun m y => maxCoords N dim m (f y)) l m) d =
  fold_left (nmax2 N) (map (fun y => coord (f y) d) l) (coord m d).
Proof.
  intros Hd; induction l as [|y l IH]; intros m; simpl; auto.
  rewrite IH, coord_maxCoords; auto.
Qed.

Lemma in_slice A s e (l : list A) x : In x (slice s e l) -> In x l.
Proof.
  unfold slice. intros H. rewrite <- (firstn_skipn s l). apply in_or_app; right.
  rewrite <- (firstn_skipn (e - s) (skipn s l)). apply in_or_app; left; auto.
Qed.

Lemma slice_nth A s e (l : list A) i : s <= i < e ->
  nth_error (slice s e l) (i - s) = nth_error l i.
Proof.
  intros Hi. unfold slice.
  assert (H : forall n (l' : list A) k, k < n -> nth_error (firstn n l') k = nth_error l' k).
  { induction n; intros [|y l'] [|k] Hk; simpl; auto; try lia. apply IHn; lia. }
  rewrite H by lia.
  assert (H2 : forall n (l' : list A) k, nth_error (skipn n l') k = nth_error l' (n + k)).
  { induction n; intros [|y l'] k; simpl; auto. destruct k; auto. }
  rewrite H2. f_equal. lia.
Qed.

(** every index lies in exactly the block of its quotient, and the P blocks
    cover the array *)
Lemma block_cover n P j : 0 < P -> j < n -> let bs := (n + P - 1) / P in
  exists p, p < P /\ p * bs <= j < Nat.min ((p + 1) * bs) n.
Proof.
  intros HP Hj bs.
  assert (Hbs : n <= bs * P).
  { unfold bs. pose proof (Nat.div_mod (n + P - 1) P ltac:(lia)).
    pose proof (Nat.mod_upper_bound (n + P - 1) P ltac:(lia)). nia. }
  assert (0 < bs) by nia.
  exists (j / bs).
  pose proof (Nat.div_mod j bs ltac:(lia)).
  pose proof (Nat.mod_upper_bound j bs ltac:(lia)).
  split; [|split; [nia|apply Nat.min_glb_lt; nia]].
  apply Nat.div_lt_upper_bound; nia.
Qed.

Section BoxProofs.
  Variable N : Num.
  Variable ok : nT N -> Prop.
  Hypothesis OL : OrdLaws N ok.
  Variable dim : nat.
  Variable A : Type.
  Variable pt : A -> list (nT N).

  Definition okpts (its : list A) : Prop :=
    forall x, In x its -> forall d, d < dim -> ok (coord (pt x) d).

  Lemma boundingBoxSerial_tight its : its <> [] -> okpts its ->
    exists b, boundingBoxSerial N dim A pt its = Ok b /\ tight dim pt b its.
  Proof.
    intros Hne Hok. destruct its as [|x its]; [congruence|].
    eexists; split; [reflexivity|]. set (l := x :: its) in *.
    intros d Hd. cbn [bmin bmax].
    rewrite (@coord_fold_min N dim A pt l d Hd), (@coord_fold_max N dim A pt l d Hd).
    assert (Hx : ok (coord (pt x) d)) by (apply Hok; simpl; auto).
    assert (Hl : forall y, In y (map (fun y => coord (pt y) d) l) -> ok y).
    { intros y Hy. apply in_map_iff in Hy as (z & <- & Hz). apply Hok; auto. }
    destruct (@fold_min_spec N ok OL _ _ Hx Hl) as (_ & _ & Hmin & Imin).
    destruct (@fold_max_spec N ok OL _ _ Hx Hl) as (_ & _ & Hmax & Imax).
    split; [|split].
    - intros y Hy. split; [apply Hmin|apply Hmax]; apply in_map_iff; eauto.
    - destruct Imin as [<-|Imin]; [exists x; simpl; auto|].
      apply in_map_iff in Imin as (z & Hz & Hz2). exists z; auto.
    - destruct Imax as [<-|Imax]; [exists x; simpl; auto|].
      apply in_map_iff in Imax as (z & Hz & Hz2). exists z; auto.
  Qed.

  Lemma boundingBoxParallel_tight workers its : 0 < workers -> its <> [] -> okpts its ->
    exists b, boundingBoxParallel N dim A pt workers its = Ok b /\ tight dim pt b its.
  Proof.
    intros HW Hne Hok. destruct its as [|x its]; [congruence|].
    unfold boundingBoxParallel. destruct (Nat.eqb_spec (workers * 8) 0); [lia|].
    eexists; split; [reflexivity|]. set (P := workers * 8) in *.
    set (l := x :: its) in *. set (bs := (length l + P - 1) / P).
    set (sl := fun p => slice (p * bs) (Nat.min ((p + 1) * bs) (length l)) l).
    intros d Hd. cbn [bmin bmax].
    assert (Hx : ok (coord (pt x) d)) by (apply Hok; simpl; auto).
    assert (Hin : forall p y, In y (sl p) -> In y l) by (intros p y; apply in_slice).
    rewrite (@coord_fold_min N dim _ (fun y => y) _ d Hd), (@coord_fold_max N dim _ (fun y => y) _ d Hd).
    rewrite !map_map.
    assert (Emin : map (fun p => coord (fold_left (fun m y => minCoords N dim m (pt y)) (sl p) (pt x)) d) (seq 0 P)
       = map (fun p => fold_left (nmin2 N) (map (fun y => coord (pt y) d) (sl p)) (coord (pt x) d)) (seq 0 P)).
    { apply map_ext; intros p. apply coord_fold_min; auto. }
    assert (Emax : map (fun p => coord (fold_left (fun m y => maxCoords N dim m (pt y)) (sl p) (pt x)) d) (seq 0 P)
       = map (fun p => fold_left (nmax2 N) (map (fun y => coord (pt y) d) (sl p)) (coord (pt x) d)) (seq 0 P)).
    { apply map_ext; intros p. apply coord_fold_max; auto. }
    unfold sl in Emin, Emax; rewrite Emin, Emax. clear Emin Emax.
    assert (Hl : forall p y, In y (map (fun y => coord (pt y) d) (sl p)) -> ok y).
    { intros p y Hy. apply in_map_iff in Hy as (z & <- & Hz). apply Hok; eauto. }
    pose (lm := fun p => fold_left (nmin2 N) (map (fun y => coord (pt y) d) (sl p)) (coord (pt x) d)).
    pose (lM := fun p => fold_left (nmax2 N) (map (fun y => coord (pt y) d) (sl p)) (coord (pt x) d)).
    change (fun p => fold_left (nmin2 N) (map (fun y => coord (pt y) d)
              (slice (p * bs) (Nat.min ((p + 1) * bs) (length l)) l)) (coord (pt x) d)) with lm.
    change (fun p => fold_left (nmax2 N) (map (fun y => coord (pt y) d)
              (slice (p * bs) (Nat.min ((p + 1) * bs) (length l)) l)) (coord (pt x) d)) with lM.
    assert (Hlm : forall p, ok (lm p) /\ (forall y, In y (sl p) -> nle N (lm p) (coord (pt y) d) = true)
              /\ exists y, In y l /\ coord (pt y) d = lm p).
    { intros p. destruct (@fold_min_spec N ok OL _ _ Hx (Hl p)) as (H1 & _ & H2 & H3).
      split; auto. split.
      - intros y Hy. apply H2. apply in_map_iff; eauto.
      - destruct H3 as [H3|H3]; [exists x; simpl; auto|].
        apply in_map_iff in H3 as (z & Hz & Hz2). exists z; eauto. }
    assert (HlM : forall p, ok (lM p) /\ (forall y, In y (sl p) -> nle N (coord (pt y) d) (lM p) = true)
              /\ exists y, In y l /\ coord (pt y) d = lM p).
    { intros p. destruct (@fold_max_spec N ok OL _ _ Hx (Hl p)) as (H1 & _ & H2 & H3).
      split; auto. split.
      - intros y Hy. apply H2. apply in_map_iff; eauto.
      - destruct H3 as [H3|H3]; [exists x; simpl; auto|].
        apply in_map_iff in H3 as (z & Hz & Hz2). exists z; eauto. }
    assert (Ok1 : forall y, In y (map lm (seq 0 P)) -> ok y).
    { intros y Hy. apply in_map_iff in Hy as (p & <- & _). apply Hlm. }
    assert (Ok2 : forall y, In y (map lM (seq 0 P)) -> ok y).
    { intros y Hy. apply in_map_iff in Hy as (p & <- & _). apply HlM. }
    destruct (@fold_min_spec N ok OL _ _ Hx Ok1) as (Okm & _ & Hmin & Imin).
    destruct (@fold_max_spec N ok OL _ _ Hx Ok2) as (OkM & _ & Hmax & Imax).
    split; [|split].
    - intros y Hy. destruct (In_nth_error _ _ Hy) as [j Hj].
      assert (Hjl : j < length l) by (apply nth_error_Some; congruence).
      destruct (@block_cover (length l) P j) as (p & Hp & Hpj); [lia|auto|]. fold bs in Hpj.
      assert (Hys : In y (sl p)).
      { apply nth_error_In with (n := j - p * bs). unfold sl.
        rewrite slice_nth; auto. }
      split.
      + eapply (nle_trans OL); [exact Okm| | | |apply Hlm; eauto]; [apply Hlm|apply Hok; auto|].
        apply Hmin. apply in_map, in_seq0; auto.
      + eapply (nle_trans OL); [ | |exact OkM|apply HlM; eauto| ]; [apply Hok; auto|apply HlM|].
        apply Hmax. apply in_map, in_seq0; auto.
    - destruct Imin as [<-|Imin]; [exists x; simpl; auto|].
      apply in_map_iff in Imin as (p & <- & _). apply Hlm.
    - destruct Imax as [<-|Imax]; [exists x; simpl; auto|].
      apply in_map_iff in Imax as (p & <- & _). apply HlM.
  Qed.

  Lemma tight_perm b its its' : Permutation its its' -> tight dim pt b its -> tight dim pt b its'.
  Proof.
    intros HP H d Hd. destruct (H d Hd) as (H1 & (x & Hx & Ex) & (y & Hy & Ey)).
    split; [|split].
    - intros z Hz. apply H1. eapply Permutation_in; [symmetry|]; eauto.
    - exists x; split; auto. eapply Permutation_in; eauto.
    - exists y; split; auto. eapply Permutation_in; eauto.
  Qed.

  Lemma tight_ok b its : okpts its -> tight dim pt b its -> forall d, d < dim ->
    ok (coord (bmin b) d) /\ ok (coord (bmax b) d) /\ nlt N (coord (bmax b) d) (coord (bmin b) d) = false.
  Proof.
    intros Hok H d Hd. destruct (H d Hd) as (H1 & (x & Hx & Ex) & (y & Hy & Ey)).
    assert (ok (coord (bmin b) d)) by (rewrite <- Ex; apply Hok; auto).
    assert (ok (coord (bmax b) d)) by (rewrite <- Ey; apply Hok; auto).
    split; auto. split; auto.
    apply (nle_false_lt OL); auto. rewrite <- Ey. apply H1; auto.
  Qed.

  (** findWidest finds a dimension as soon as some span is > -1 *)
  Lemma findWidest_some b : (exists d, d < dim /\
      nlt N (nneg1 N) (nsub N (coord (bmax b) d) (coord (bmin b) d)) = true) ->
    exists k, findWidest N dim b = Some k /\ k < dim.
  Proof.
    intros (d & Hd & Hs). unfold findWidest.
    assert (G : forall l st,
      (forall k, snd st = Some k -> k < dim) -> (forall k, In k l -> k < dim) ->
      (snd st <> None \/ (fst st = nneg1 N /\ In d l)) ->
      exists k, snd (fold_left (fun (st : nT N * option nat) kk =>
        if nlt N (fst st) (nsub N (coord (bmax b) kk) (coord (bmin b) kk))
        then (nsub N (coord (bmax b) kk) (coord (bmin b) kk), Some kk) else st) l st) = Some k /\ k < dim).
    { induction l as [|kk l IH]; intros st H1 H2 H3; simpl.
      - destruct H3 as [H3|[_ []]]. destruct (snd st) as [k|]; [|congruence]. exists k; auto.
      - apply IH.
        + intros k. destruct (nlt N (fst st) _); simpl; auto.
          intros [= <-]. apply H2; simpl; auto.
        + intros; apply H2; simpl; auto.
        + destruct (nlt N (fst st) _) eqn:E; simpl; [left; discriminate|].
          destruct H3 as [H3|[H3 [->|H4]]]; auto. rewrite H3 in E. congruence. }
    apply G.
    - simpl; discriminate.
    - intros k; rewrite in_seq0; auto.
    - right. split; auto. rewrite in_seq0; auto.
  Qed.
End BoxProofs.
Arguments okpts {N} ok dim {A} pt its.
