(** Coverage of the decomposition for any separation predicate, and agreement
    of the parallel version. *)
From Verif Require Import Base Num KdModel KdSpec BccpModel SplitModel ParBufModel ParBufProofs WspdModel.
Set Implicit Arguments.

Section Cover.
  Variable N : Num.
  Variable dim : nat.
  Variable A : Type.
  Variable ws : tree N A -> tree N A -> bool.
  Notation tr := (tree N A).
  Notation fps := (findPairSerial N dim A ws).
  Notation kids := (children N dim A).

  (** All ordered item pairs a node pair relates. *)
  Definition sym (p : tr * tr) : list (A * A) :=
    list_prod (items (fst p)) (items (snd p)) ++ list_prod (items (snd p)) (items (fst p)).
  (** All ordered pairs of items in different leaves. *)
  Fixpoint cross (t : tr) : list (A * A) :=
    match t with
    | Leaf _ _ => []
    | Node _ l r => sym (l, r) ++ cross l ++ cross r
    end.

  Lemma list_prod_app1 (a b c : list A) : list_prod (a ++ b) c = list_prod a c ++ list_prod b c.
  Proof. induction a as [|x a IH]; simpl; auto. rewrite IH, app_assoc. auto. Qed.
  Lemma list_prod_app2 (a b c : list A) : Permutation (list_prod a (b ++ c)) (list_prod a b ++ list_prod a c).
  Proof.
    induction a as [|x a IH]; simpl; auto. rewrite IH, map_app.
    rewrite <- !app_assoc. apply Permutation_app_head.
    rewrite !app_assoc. apply Permutation_app_tail. apply Permutation_app_comm.
  Qed.
  Lemma sym_swap (u v : tr) : Permutation (sym (u, v)) (sym (v, u)).
  Proof. unfold sym. apply Permutation_app_comm. Qed.
  Lemma perm_4 (a b c d : list (A * A)) : Permutation ((a ++ b) ++ c ++ d) ((a ++ c) ++ b ++ d).
  Proof.
    rewrite <- !app_assoc. apply Permutation_app_head. rewrite !app_assoc. apply Permutation_app_tail.
    apply Permutation_app_comm.
  Qed.
  Lemma sym_node b (l r v : tr) : Permutation (sym (Node b l r, v)) (sym (l, v) ++ sym (r, v)).
  Proof.
    unfold sym. cbn [fst snd items]. rewrite list_prod_app1, list_prod_app2. apply perm_4.
  Qed.

  Lemma children_sym u v a b c d : kids u v = Some ((a, b), (c, d)) ->
    Permutation (sym (u, v)) (sym (a, b) ++ sym (c, d)).
  Proof.
    destruct u as [lu bu|bu ul ur], v as [lv bv|bv vl vr]; cbn [children]; try discriminate.
    - intros E; inversion E; subst. rewrite sym_swap. apply sym_node.
    - intros E; inversion E; subst. apply sym_node.
    - destruct (nlt N _ _); intros E; inversion E; subst; [apply sym_node|].
      rewrite sym_swap. apply sym_node.
  Qed.

  Lemma children_height u v a b c d : kids u v = Some ((a, b), (c, d)) ->
    height a + height b < height u + height v /\ height c + height d < height u + height v.
  Proof.
    destruct u as [lu bu|bu ul ur], v as [lv bv|bv vl vr]; cbn [children]; try discriminate;
      try (destruct (nlt N _ _)); intros E; inversion E; subst; simpl; lia.
  Qed.

  Lemma children_size u v a b c d : kids u v = Some ((a, b), (c, d)) ->
    size a + size b <= size u + size v /\ size c + size d <= size u + size v.
  Proof.
    destruct u as [lu bu|bu ul ur], v as [lv bv|bv vl vr]; cbn [children]; try discriminate;
      try (destruct (nlt N _ _)); intros E; inversion E; subst; unfold size; cbn [items];
      rewrite ?app_length; lia.
  Qed.

  Lemma children_subtrees u v a b c d t : kids u v = Some ((a, b), (c, d)) ->
    (forall s, In s (subtrees u) -> In s (subtrees t)) -> (forall s, In s (subtrees v) -> In s (subtrees t)) ->
    (forall s, In s (subtrees a) \/ In s (subtrees b) \/ In s (subtrees c) \/ In s (subtrees d) ->
       In s (subtrees t)).
  Proof.
    destruct u as [lu bu|bu ul ur], v as [lv bv|bv vl vr]; cbn [children]; try discriminate;
      try (destruct (nlt N _ _)); intros E; inversion E; subst; intros Hu Hv s Hs;
      (destruct Hs as [H|[H|[H|H]]];
       first [apply Hu; exact H|apply Hv; exact H
             |apply Hu; simpl; right; apply in_or_app; auto; fail
             |apply Hv; simpl; right; apply in_or_app; auto; fail]).
  Qed.

  Lemma fps_spec f : forall u v l, fps f u v = Ok l ->
    Permutation (flat_map sym l) (sym (u, v)) /\
    (forall p, In p l -> ws (fst p) (snd p) = true) /\
    (forall t, (forall s, In s (subtrees u) -> In s (subtrees t)) ->
               (forall s, In s (subtrees v) -> In s (subtrees t)) ->
       forall p, In p l -> In (fst p) (subtrees t) /\ In (snd p) (subtrees t)).
  Proof.
    induction f as [|f IH]; intros u v l; cbn [findPairSerial]; [discriminate|].
    destruct (ws u v) eqn:E.
    - intros H; inversion H; subst. split; [simpl; rewrite app_nil_r; auto|]. split.
      + intros p [<-|[]]; auto.
      + intros t Hu Hv p [<-|[]]. simpl. split; [apply Hu|apply Hv]; apply subtrees_self.
    - destruct (kids u v) as [[[a b] [c d]]|] eqn:K; [|discriminate].
      destruct (fps f a b) as [l1| | |] eqn:E1; try discriminate. cbn [bind].
      destruct (fps f c d) as [l2| | |] eqn:E2; try discriminate. cbn [bind].
      intros H; inversion H; subst.
      destruct (IH _ _ _ E1) as (P1 & W1 & S1), (IH _ _ _ E2) as (P2 & W2 & S2). split; [|split].
      + rewrite flat_map_app, P1, P2. symmetry. apply children_sym; auto.
      + intros p Hp. apply in_app_or in Hp as [Hp|Hp]; auto.
      + intros t Hu Hv p Hp. pose proof (@children_subtrees _ _ _ _ _ _ t K Hu Hv) as HS.
        apply in_app_or in Hp as [Hp|Hp]; [apply S1|apply S2]; auto.
  Qed.

  (** Enough fuel: no Fuel outcome, and the outcome does not depend on it. *)
  Lemma fps_fuel f : forall g u v, height u + height v < f -> height u + height v < g ->
    fps f u v = fps g u v /\ fps f u v <> Fuel /\ fps f u v <> UB.
  Proof.
    induction f as [|f IH]; intros g u v H1 H2; [lia|]. destruct g as [|g]; [lia|].
    cbn [findPairSerial]. destruct (ws u v); [split; [auto|split; discriminate]|].
    destruct (kids u v) as [[[a b] [c d]]|] eqn:K; [|split; [auto|split; discriminate]].
    destruct (children_height _ _ K).
    destruct (IH g a b) as (E1 & F1 & G1); try lia. destruct (IH g c d) as (E2 & F2 & G2); try lia.
    rewrite <- E1, <- E2. split; auto.
    destruct (fps f a b); cbn [bind]; try (split; congruence).
    destruct (fps f c d); cbn [bind]; split; congruence.
  Qed.

  Lemma findPair_unfold u v : findPair N dim A ws u v =
    if ws u v then Ok [(u, v)]
    else match kids u v with
         | None => Throw
         | Some ((a, b), (c, d)) =>
           l1 <- findPair N dim A ws a b ;; l2 <- findPair N dim A ws c d ;; Ok (l1 ++ l2)
         end.
  Proof.
    unfold findPair at 1. cbn [findPairSerial]. destruct (ws u v); auto.
    destruct (kids u v) as [[[a b] [c d]]|] eqn:K; auto.
    destruct (children_height _ _ K) as [H1 H2]. unfold findPair.
    rewrite (proj1 (@fps_fuel (height u + height v) (S (height a + height b)) a b ltac:(lia) ltac:(lia))).
    rewrite (proj1 (@fps_fuel (height u + height v) (S (height c + height d)) c d ltac:(lia) ltac:(lia))).
    reflexivity.
  Qed.

  (** No exception when every pair of leaves is accepted. *)
  Definition leafAccept (u v : tr) : Prop :=
    forall x y, In x (subtrees u) -> In y (subtrees v) -> isLeaf x = true -> isLeaf y = true ->
      ws x y = true /\ ws y x = true.

  Lemma leafAccept_sub u v u' v' : leafAccept u v ->
    (forall s, In s (subtrees u') -> In s (subtrees u)) -> (forall s, In s (subtrees v') -> In s (subtrees v)) ->
    leafAccept u' v'.
  Proof. intros H H1 H2 x y Hx Hy. apply H; auto. Qed.
  Lemma leafAccept_swap u v : leafAccept u v -> leafAccept v u.
  Proof. intros H x y Hx Hy Lx Ly. destruct (H y x Hy Hx Ly Lx). auto. Qed.

  Lemma sub_l b (l r : tr) s : In s (subtrees l) -> In s (subtrees (Node b l r)).
  Proof. intros. simpl. right. apply in_or_app; auto. Qed.
  Lemma sub_r b (l r : tr) s : In s (subtrees r) -> In s (subtrees (Node b l r)).
  Proof. intros. simpl. right. apply in_or_app; auto. Qed.

  Lemma fps_total f : forall u v, height u + height v < f -> leafAccept u v ->
    exists l, fps f u v = Ok l.
  Proof.
    induction f as [|f IH]; intros u v Hf HL; [lia|]. cbn [findPairSerial].
    destruct (ws u v) eqn:E; [eauto|].
    destruct (kids u v) as [[[a b] [c d]]|] eqn:K.
    - destruct (children_height _ _ K).
      assert (HA : leafAccept a b /\ leafAccept c d).
      { destruct u as [lu bu|bu ul ur], v as [lv bv|bv vl vr]; cbn [children] in K; try discriminate;
          try (destruct (nlt N _ _)); inversion K; subst; split;
          first [eapply leafAccept_sub; [exact HL| |]; intros; auto using sub_l, sub_r; fail
                |eapply leafAccept_sub; [exact (leafAccept_swap HL)| |]; intros; auto using sub_l, sub_r; fail]. }
      destruct (IH a b) as (l1 & ->); try lia; [apply HA|].
      destruct (IH c d) as (l2 & ->); try lia; [apply HA|]. cbn [bind]. eauto.
    - destruct u as [lu bu|bu ul ur], v as [lv bv|bv vl vr]; cbn [children] in K; try discriminate;
        try (destruct (nlt N _ _); discriminate).
      destruct (HL (Leaf lu bu) (Leaf lv bv)); simpl; auto; congruence.
  Qed.

  Definition allAccept (t : tr) : Prop :=
    forall x y, In x (subtrees t) -> In y (subtrees t) -> isLeaf x = true -> isLeaf y = true -> ws x y = true.

  Lemma wspd_total t : allAccept t -> exists out, computeWspdSerial N dim A ws t = Ok out.
  Proof.
    induction t as [its b|b l IHl r IHr]; intros H; cbn [computeWspdSerial]; [eauto|].
    destruct IHl as (o1 & ->); [intros x y Hx Hy; apply H; auto using sub_l|].
    destruct IHr as (o2 & ->); [intros x y Hx Hy; apply H; auto using sub_r|]. cbn [bind].
    destruct (@fps_total (S (height l + height r)) l r) as (o3 & E3); [lia| |].
    - intros x y Hx Hy Lx Ly. split; apply H; auto using sub_l, sub_r.
    - unfold findPair. rewrite E3. cbn [bind]. eauto.
  Qed.

  (** The pairs of the output relate every pair of items of different leaves,
      each ordered pair exactly once. *)
  Lemma wspd_cross t out : computeWspdSerial N dim A ws t = Ok out ->
    Permutation (flat_map sym out) (cross t) /\
    (forall p, In p out -> ws (fst p) (snd p) = true) /\
    (forall p, In p out -> In (fst p) (subtrees t) /\ In (snd p) (subtrees t)).
  Proof.
    revert out. induction t as [its b|b l IHl r IHr]; intros out; cbn [computeWspdSerial].
    - intros H; inversion H; subst. simpl. split; [auto|]. split; intros p [].
    - destruct (computeWspdSerial N dim A ws l) as [o1| | |] eqn:E1; try discriminate.
      destruct (computeWspdSerial N dim A ws r) as [o2| | |] eqn:E2; try discriminate. cbn [bind].
      unfold findPair. destruct (fps (S (height l + height r)) l r) as [o3| | |] eqn:E3; try discriminate. cbn [bind].
      intros H; inversion H; subst.
      destruct (IHl _ eq_refl) as (P1 & W1 & S1), (IHr _ eq_refl) as (P2 & W2 & S2), (fps_spec _ _ _ E3) as (P3 & W3 & S3).
      split; [|split].
      + rewrite !flat_map_app, P1, P2, P3. cbn [cross].
        rewrite app_assoc. apply Permutation_app_comm.
      + intros p Hp. apply in_app_or in Hp as [Hp|Hp]; auto. apply in_app_or in Hp as [Hp|Hp]; auto.
      + intros p Hp. apply in_app_or in Hp as [Hp|Hp].
        { destruct (S1 p Hp). split; apply sub_l; auto. }
        apply in_app_or in Hp as [Hp|Hp].
        { destruct (S2 p Hp). split; apply sub_r; auto. }
        apply (S3 (Node b l r)); auto using sub_l, sub_r.
  Qed.

  Lemma in_sym (x y : A) p : In (x, y) (sym p) <->
    (In x (items (fst p)) /\ In y (items (snd p))) \/ (In x (items (snd p)) /\ In y (items (fst p))).
  Proof. unfold sym. rewrite in_app_iff, !in_prod_iff. tauto. Qed.

  Lemma cross_in t x y : In (x, y) (cross t) -> In x (items t) /\ In y (items t).
  Proof.
    induction t as [its b|b l IHl r IHr]; cbn [cross]; [intros []|].
    rewrite !in_app_iff, in_sym. cbn [fst snd items]. rewrite !in_app_iff. tauto.
  Qed.

  Lemma NoDup_prod (a b : list A) : NoDup a -> NoDup b -> NoDup (list_prod a b).
  Proof.
    intros Ha Hb. induction Ha as [|x a Hx Ha IH]; simpl; [constructor|].
    assert (NM : NoDup (map (fun y => (x, y)) b)).
    { clear - Hb. induction Hb as [|y b Hy Hb IH]; simpl; constructor; auto.
      rewrite in_map_iff. intros (z & E & Hz). inversion E; subst; auto. }
    apply NoDup_app_intro; auto.
    intros [p q] H1 H2. rewrite in_map_iff in H1. destruct H1 as (z & E & _). inversion E; subst.
    apply in_prod_iff in H2 as [H2 _]. auto.
  Qed.

  Lemma cross_nodup t : NoDup (items t) -> NoDup (cross t).
  Proof.
    induction t as [its b|b l IHl r IHr]; cbn [cross items]; intros HN; [constructor|].
    apply NoDup_app_elim in HN as (Hl & Hr & Hd).
    assert (HS : NoDup (sym (l, r))).
    { unfold sym. cbn [fst snd]. apply NoDup_app_intro; try (apply NoDup_prod; auto).
      intros [x y] H1 H2. apply in_prod_iff in H1 as [H1 _]. apply in_prod_iff in H2 as [H2 _].
      exact (Hd x H1 H2). }
    apply NoDup_app_intro; auto; [apply NoDup_app_intro; auto|].
    - intros [x y] H1 H2. apply cross_in in H1 as [H1 _]. apply cross_in in H2 as [H2 _]. exact (Hd x H1 H2).
    - intros [x y] H1 H2. apply in_sym in H1. cbn [fst snd] in H1.
      rewrite in_app_iff in H2. destruct H2 as [H2|H2]; apply cross_in in H2 as [Hx Hy];
        destruct H1 as [[K1 K2]|[K1 K2]]; eauto.
  Qed.

  (** Items of different leaves. *)
  Lemma cross_complete t L1 L2 pre mid post x y : leaves t = pre ++ L1 :: mid ++ L2 :: post ->
    In x L1 -> In y L2 -> In (x, y) (cross t) /\ In (y, x) (cross t).
  Proof.
    revert pre mid post. induction t as [its b|b l IHl r IHr]; cbn [leaves cross]; intros pre mid post E Hx Hy.
    - destruct pre as [|? [|]]; simpl in E; inversion E; destruct mid; discriminate.
    - rewrite !in_app_iff, !in_sym. cbn [fst snd].
      assert (IL : forall (t : tr) (L : list A) p q z, leaves t = p ++ L :: q -> In z L -> In z (items t)).
      { clear. intros t L p q z E Hz. rewrite <- leaves_items, E, concat_app. simpl.
        rewrite !in_app_iff. auto. }
      symmetry in E. apply app_eq_app in E as (m & [[E1 E2]|[E1 E2]]).
      + (* pre = leaves l ++ m *)
        subst. destruct (IHr m mid post) as [K1 K2]; auto. 
      + (* leaves l = pre ++ m *)
        destruct m as [|L m].
        * simpl in E2. destruct (IHr [] mid post) as [K1 K2]; auto. 
        * simpl in E2. inversion E2 as [[H1 H2]]. subst L.
          symmetry in H2. apply app_eq_app in H2 as (m' & [[F1 F2]|[F1 F2]]).
          -- (* m = mid ++ m' *)
             destruct m' as [|L m'].
             ++ simpl in F2. rewrite app_nil_r in F1. subst m.
                assert (Kx : In x (items l)) by (eapply IL; eauto).
                assert (Ky : In y (items r)) by (apply (IL r L2 [] post); auto).
                auto.
             ++ simpl in F2. inversion F2; subst. 
                destruct (IHl pre mid m') as [K1 K2]; auto. 
          -- (* mid = m ++ m' *)
             subst mid.
             assert (Kx : In x (items l)) by (eapply IL; eauto).
             assert (Ky : In y (items r)) by (eapply IL; eauto).
             auto.
  Qed.

  Lemma flat_map_nodup_unique B C (f : B -> list C) l : NoDup (flat_map f l) ->
    forall i j a b z, nth_error l i = Some a -> nth_error l j = Some b -> In z (f a) -> In z (f b) -> i = j.
  Proof.
    induction l as [|x l IH]; simpl; intros HN i j a b z Hi Hj Ha Hb; [destruct i; discriminate|].
    apply NoDup_app_elim in HN as (H1 & H2 & H3).
    destruct i as [|i], j as [|j]; simpl in *; auto.
    - inversion Hi; subst. exfalso. apply (H3 z); auto. apply in_flat_map. exists b. split; auto.
      eapply nth_error_In; eauto.
    - inversion Hj; subst. exfalso. apply (H3 z); auto. apply in_flat_map. exists a. split; auto.
      eapply nth_error_In; eauto.
    - f_equal. apply (IH H2 i j a b z); auto.
  Qed.

  (** Exactly one node pair relates two items of different leaves; none relates
      an item to itself or two items of one leaf. *)
  Definition relates (x y : A) (p : tr * tr) : Prop :=
    (In x (items (fst p)) /\ In y (items (snd p))) \/ (In x (items (snd p)) /\ In y (items (fst p))).

  Lemma wspd_unique t out : computeWspdSerial N dim A ws t = Ok out -> NoDup (items t) ->
    (forall x y, In (x, y) (cross t) ->
       exists i p, nth_error out i = Some p /\ relates x y p /\
         forall j p', nth_error out j = Some p' -> relates x y p' -> j = i) /\
    (forall p x y, In p out -> relates x y p -> In (x, y) (cross t)).
  Proof.
    intros E HN. destruct (wspd_cross _ E) as (P & _ & _). pose proof (@cross_nodup t HN) as HC.
    assert (HF : NoDup (flat_map sym out)) by (eapply Permutation_NoDup; [symmetry|]; eauto).
    split.
    - intros x y Hxy. apply (Permutation_in _ (Permutation_sym P)) in Hxy.
      apply in_flat_map in Hxy as (p & Hp & Hs). apply In_nth_error in Hp as (i & Hi).
      exists i, p. split; auto. split; [apply in_sym; auto|].
      intros j p' Hj Hr. apply in_sym in Hr.
      eapply (flat_map_nodup_unique sym out HF); eauto.
    - intros p x y Hp Hr. apply (Permutation_in _ P). apply in_flat_map. exists p. split; auto.
      apply in_sym; auto.
  Qed.

  Lemma cross_irrefl t x : NoDup (items t) -> ~ In (x, x) (cross t).
  Proof.
    induction t as [its b|b l IHl r IHr]; cbn [cross items]; intros HN; auto.
    apply NoDup_app_elim in HN as (Hl & Hr & Hd). rewrite !in_app_iff, in_sym. cbn [fst snd].
    intros [[[H1 H2]|[H1 H2]]|[H|H]]; eauto.
    - exact (IHl Hl H).
    - exact (IHr Hr H).
  Qed.

  (** *** Parallel version *)
  Lemma shuffle_perm X (a b c : list X) : shuffle a b c -> Permutation c (a ++ b).
  Proof.
    induction 1; simpl; auto. rewrite IHshuffle. apply Permutation_middle.
  Qed.
  Lemma shuffle_app X (a b : list X) : shuffle a b (a ++ b).
  Proof.
    induction a as [|x a IH]; simpl; [|constructor; auto].
    induction b; constructor; auto.
  Qed.

  Variable cutoff : nat.
  Lemma pfind_perm u v l : PFind N dim A ws cutoff u v l ->
    exists l', findPair N dim A ws u v = Ok l' /\ Permutation l l'.
  Proof.
    induction 1 as [u v l Hc E|u v Hc E|u v a b c d l1 l2 l Hc E K H1 (m1 & E1 & P1) H2 (m2 & E2 & P2) HS].
    - eauto.
    - exists [(u, v)]. split; auto. rewrite findPair_unfold, E. auto.
    - rewrite findPair_unfold, E, K, E1, E2. cbn [bind]. eexists. split; auto.
      rewrite (shuffle_perm HS), P1, P2. auto.
  Qed.

  Lemma pfind_exists : forall n u v l, height u + height v < n -> findPair N dim A ws u v = Ok l ->
    exists l', PFind N dim A ws cutoff u v l'.
  Proof.
    induction n as [|n IH]; intros u v l Hn E; [lia|].
    destruct (le_lt_dec cutoff (size u + size v)) as [Hc|Hc]; [|exists l; apply pf_serial; auto].
    rewrite findPair_unfold in E. destruct (ws u v) eqn:W; [exists [(u, v)]; apply pf_run; auto|].
    destruct (kids u v) as [[[a b] [c d]]|] eqn:K; [|discriminate].
    destruct (children_height _ _ K).
    destruct (findPair N dim A ws a b) as [m1| | |] eqn:E1; try discriminate.
    destruct (findPair N dim A ws c d) as [m2| | |] eqn:E2; try discriminate.
    destruct (IH a b m1) as (k1 & H1); try lia; auto. destruct (IH c d m2) as (k2 & H2); try lia; auto.
    exists (k1 ++ k2). eapply pf_par; eauto using shuffle_app.
  Qed.

  Lemma pcompute_perm t l : PCompute N dim A ws cutoff t l ->
    exists l', computeWspdSerial N dim A ws t = Ok l' /\ Permutation l l'.
  Proof.
    induction 1 as [t l Hc E|its b Hc|b l r o1 o2 o12 o3 Hc H1 (m1 & E1 & P1) H2 (m2 & E2 & P2) HS HF].
    - eauto.
    - exists []. auto.
    - destruct (pfind_perm HF) as (m3 & E3 & P3). cbn [computeWspdSerial]. rewrite E1, E2, E3. cbn [bind].
      eexists. split; auto. rewrite (shuffle_perm HS), P1, P2, P3, app_assoc. auto.
  Qed.

  Lemma pcompute_exists t : forall l, computeWspdSerial N dim A ws t = Ok l ->
    exists l', PCompute N dim A ws cutoff t l'.
  Proof.
    induction t as [its b|b l IHl r IHr]; intros o E.
    - destruct (le_lt_dec cutoff (size (Leaf its b))); [exists []; apply pc_leaf|eexists; eapply pc_serial]; eauto.
    - destruct (le_lt_dec cutoff (size (Node b l r))); [|eexists; eapply pc_serial; eauto].
      cbn [computeWspdSerial] in E.
      destruct (computeWspdSerial N dim A ws l) as [o1| | |] eqn:E1; try discriminate.
      destruct (computeWspdSerial N dim A ws r) as [o2| | |] eqn:E2; try discriminate. cbn [bind] in E.
      destruct (findPair N dim A ws l r) as [o3| | |] eqn:E3; try discriminate.
      destruct (IHl _ eq_refl) as (k1 & H1), (IHr _ eq_refl) as (k2 & H2).
      destruct (@pfind_exists (S (height l + height r)) l r o3) as (k3 & H3); auto.
      eexists. eapply pc_node; eauto using shuffle_app.
  Qed.
End Cover.

(** Collection from the worker buffers. *)
Lemma wspd_collect T n procs (logs : list (list T)) order :
  1 <= procs -> procs <= n -> length logs = procs ->
  (forall w, Permutation (order w) w) ->
  wspdCollect T n procs logs order = Ok (map Some (concat logs)).
Proof.
  intros Hp Hn HL Ho. unfold wspdCollect.
  assert (HI : 1 <= n / procs) by (apply Nat.div_le_lower_bound; lia).
  destruct (@parbuf_correct T 16 ltac:(lia) (repeat (n / procs) (length logs)) logs) as (bufs & tot & w & E1 & E2 & E3).
  - apply repeat_length.
  - intros m Hm. apply repeat_spec in Hm. lia.
  - assert (E0 : forall l, mapM (fun p => pushAll 16 (create T (fst p)) (snd p)) (combine (repeat (n / procs) (length l)) l)
      = mapM (pushAll 16 (create T (n / procs))) l).
    { induction l as [|x l IH]; cbn [repeat length combine mapM fst snd]; auto. rewrite IH. auto. }
    rewrite E0 in E1. rewrite E1. cbn [bind]. rewrite E2. cbn [bind]. apply E3. auto.
Qed.
