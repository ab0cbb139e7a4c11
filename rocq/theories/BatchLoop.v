(** The loop over the bottom subtrees of the cache-oblivious build: in whatever
    order the subtrees are handled, the top block ends up linked to them. *)
From Verif Require Import Base Num KdModel BatchSplit BatchAddr BatchModel BatchSlice.
Set Implicit Arguments.

Lemma div2_pow i t : 1 <= t -> i < 2 ^ t -> i / 2 < 2 ^ (t - 1).
Proof. intros H1 H2. apply half_lt. replace (S (t - 1)) with t by lia. auto. Qed.

Lemma bend_le_bst s n d : forall q q', q < q' -> q' < 2 ^ d ->
  bst s n d q + bsz n d q <= bst s n d q'.
Proof.
  intros q q' Hq. induction Hq as [|q' Hq IH]; intros Hb.
  - replace (S q) with (q + 1) in * by lia. rewrite bst_next; lia.
  - replace (S q') with (q' + 1) in * by lia. rewrite bst_next by lia.
    specialize (IH ltac:(lia)). lia.
Qed.

(** A bucket of level [t] lies inside one range of level [d <= t] and is
    disjoint from the others. *)
Lemma nested s n d t q i : d <= t -> q < 2 ^ d -> i < 2 ^ t ->
  (bst s n d q <= bst s n t i /\ bst s n t i + bsz n t i <= bst s n d q + bsz n d q) \/
  bst s n d q + bsz n d q <= bst s n t i \/ bst s n t i + bsz n t i <= bst s n d q.
Proof.
  intros Hdt Hq Hi. set (k := t - d). assert (Et : t = d + k) by (unfold k; lia).
  clearbody k. subst t.
  set (q' := i / 2 ^ k).
  assert (Hq' : q' < 2 ^ d) by (apply div_pow_lt; auto).
  assert (C : bst s n d q' <= bst s n (d + k) i /\
              bst s n (d + k) i + bsz n (d + k) i <= bst s n d q' + bsz n d q').
  { rewrite bst_app, bsz_app by auto. apply bst_bounds.
    apply Nat.mod_upper_bound. pose proof (pow2_pos k). lia. }
  destruct (lt_eq_lt_dec q q') as [[H | H] | H].
  - pose proof (bend_le_bst s n d H Hq'). lia.
  - subst q. auto.
  - pose proof (bend_le_bst s n d H Hq). lia.
Qed.

  Definition inb (i : nat) (l : list nat) : bool := existsb (Nat.eqb i) l.
  Lemma inb_in i l : inb i l = true <-> In i l.
  Proof.
    unfold inb. rewrite existsb_exists. split.
    - intros (x & H & E). apply Nat.eqb_eq in E. subst; auto.
    - intros H. exists i. split; auto. apply Nat.eqb_refl.
  Qed.

Section Loop.
  Variable N : Num.
  Variable dim : nat.
  Variable A : Type.
  Variable pt : A -> list (nT N).
  Variable okI : A -> Prop.
  Notation nodes := (nodes N).
  Notation st := (st N A).

  Lemma link_ok i parent c (ns : nodes) x : ns parent = Some x ->
    exists ns', link i parent c ns = Ok ns' /\
      ns' parent = Some (mkCn (cn_s x) (cn_e x) (cn_k x)
          (if Nat.even i then Some c else cn_l x) (if Nat.even i then cn_r x else Some c)) /\
      (forall k, k <> parent -> ns' k = ns k).
  Proof.
    intros H. unfold link, setLeft, setRight. rewrite H.
    destruct (Nat.even i); eexists; (split; [reflexivity|]); split; unfold nset.
    - rewrite Nat.eqb_refl. reflexivity.
    - intros k Hk. apply Nat.eqb_neq in Hk. rewrite Hk. reflexivity.
    - rewrite Nat.eqb_refl. reflexivity.
    - intros k Hk. apply Nat.eqb_neq in Hk. rewrite Hk. reflexivity.
  Qed.

  Variables (s n t na : nat) (pos cnt : nat -> nat) (len : nat).
  Variable Q : nat -> list A -> nodes -> Prop.
  Variable ns0 : nodes.
  Variable its0 : list A.
  Hypothesis Ht : 1 <= t.
  Hypothesis Hlen : s + n <= len.
  Hypothesis Hlen0 : length its0 = len.
  Hypothesis Hpos0 : forall i, i < 2 ^ t -> na + (2 ^ t - 1) <= pos i.
  Hypothesis Hdisj : forall i j, i < j -> j < 2 ^ t -> pos i + cnt i <= pos j.
  Hypothesis Htop : forall d p, d < t -> p < 2 ^ d -> ns0 (na + addr t d p) <> None.
  Hypothesis Qframe : forall i its its' ns ns', i < 2 ^ t -> Q i its ns ->
    (forall k, pos i <= k < pos i + cnt i -> ns' k = ns k) ->
    length its' = length its ->
    (forall k, bst s n t i <= k < bst s n t i + bsz n t i -> nth_error its' k = nth_error its k) ->
    Q i its' ns'.
  Variable sub : nat -> st -> res (nat * st).
  Variable cret : nat -> nat -> Prop.
  Hypothesis Hsub : forall i its ns, i < 2 ^ t -> length its = len -> (forall x, In x its -> okI x) ->
    exists c its' ns', sub i (its, ns) = Ok (c, (its', ns')) /\ cret i c /\
      sperm (bst s n t i) (bst s n t i + bsz n t i) its its' /\
      (forall k, k < pos i \/ pos i + cnt i <= k -> ns' k = ns k) /\ Q i its' ns'.

  Definition linked (done : list nat) (d p : nat) (c : cnode N) : cnode N :=
    if d =? t - 1 then
      mkCn (cn_s c) (cn_e c) (cn_k c)
           (if inb (2 * p) done then Some (pos (2 * p)) else cn_l c)
           (if inb (2 * p + 1) done then Some (pos (2 * p + 1)) else cn_r c)
    else c.

  Definition Inv (done : list nat) (its : list A) (ns : nodes) : Prop :=
    length its = len /\
    sperm s (s + n) its0 its /\
    (forall d q, d <= t -> q < 2 ^ d ->
       Permutation (slice (bst s n d q) (bst s n d q + bsz n d q) its0)
                   (slice (bst s n d q) (bst s n d q + bsz n d q) its)) /\
    (forall d p, d < t -> p < 2 ^ d ->
       ns (na + addr t d p) = option_map (linked done d p) (ns0 (na + addr t d p))) /\
    (forall k, k < na \/ (na + (2 ^ t - 1) <= k /\
        forall j, j < 2 ^ t -> k < pos j \/ pos j + cnt j <= k) -> ns k = ns0 k) /\
    (forall j, In j done -> Q j its ns).

  Lemma addr_parent i : i < 2 ^ t -> addr t (t - 1) (i / 2) < 2 ^ t - 1.
  Proof. intros H. apply addr_bound; try lia. apply div2_pow; auto. Qed.

  Lemma linked_cons i done d p c : d = t - 1 -> p = i / 2 ->
    linked (i :: done) d p c =
    mkCn (cn_s (linked done d p c)) (cn_e (linked done d p c)) (cn_k (linked done d p c))
         (if Nat.even i then Some (pos i) else cn_l (linked done d p c))
         (if Nat.even i then cn_r (linked done d p c) else Some (pos i)).
  Proof.
    intros -> ->. unfold linked. rewrite Nat.eqb_refl. cbn [cn_s cn_e cn_k cn_l cn_r].
    unfold inb. cbn [existsb].
    destruct (Nat.even i) eqn:E.
    - pose proof (even_div2 _ E) as Ei. rewrite <- Ei, Nat.eqb_refl. cbn [orb].
      assert (E2 : (i + 1 =? i) = false) by (apply Nat.eqb_neq; lia). rewrite E2. reflexivity.
    - pose proof (odd_div2 _ E) as Ei. rewrite <- Ei, Nat.eqb_refl. cbn [orb].
      assert (E2 : (2 * (i / 2) =? i) = false) by (apply Nat.eqb_neq; lia). rewrite E2. reflexivity.
  Qed.

  Lemma linked_other i done d p c : d <> t - 1 \/ p <> i / 2 ->
    linked (i :: done) d p c = linked done d p c.
  Proof.
    intros H. unfold linked. destruct (Nat.eqb_spec d (t - 1)) as [Ed | Ed]; auto.
    assert (Hp : p <> i / 2) by (destruct H; auto; lia).
    unfold inb. cbn [existsb].
    assert (E1 : (2 * p =? i) = false).
    { apply Nat.eqb_neq. intros E. apply Hp. rewrite <- E. rewrite div2_2p; auto. }
    assert (E2 : (2 * p + 1 =? i) = false).
    { apply Nat.eqb_neq. intros E. apply Hp. rewrite <- E. rewrite div2_2p1; auto. }
    rewrite E1, E2. reflexivity.
  Qed.

  Lemma pstep done its ns i : Inv done its ns -> (forall x, In x its -> okI x) ->
    (forall j, In j done -> j < 2 ^ t) -> ~ In i done -> i < 2 ^ t ->
    exists ns1 c its' ns',
      link i (na + addr t (t - 1) (i / 2)) (pos i) ns = Ok ns1 /\
      sub i (its, ns1) = Ok (c, (its', ns')) /\ cret i c /\
      Inv (i :: done) its' ns' /\ (forall x, In x its' -> okI x).
  Proof.
    intros (I1 & I2 & I3 & I4 & I5 & I6) Hok Hdone Hni Hi.
    pose proof (addr_parent Hi) as Hap.
    pose proof (div2_pow Ht Hi) as Hi2.
    pose proof (I4 (t - 1) (i / 2) ltac:(lia) Hi2) as Hn.
    destruct (ns0 (na + addr t (t - 1) (i / 2))) as [c0|] eqn:E0.
    2:{ exfalso. eapply Htop; [| |exact E0]; auto; lia. }
    cbn [option_map] in Hn.
    destruct (@link_ok i _ (pos i) ns _ Hn) as (ns1 & Hl & Hl1 & Hl2).
    destruct (@Hsub i its ns1 Hi I1 Hok) as (c & its' & ns' & Es & Hc & Sp & Fr & HQ).
    exists ns1, c, its', ns'. split; [exact Hl|]. split; [exact Es|]. split; [exact Hc|].
    pose proof (@bst_bounds s n t i Hi) as [Bs Be].
    pose proof (Hpos0 Hi) as Hp0.
    assert (Wid : sperm s (s + n) its its') by (eapply sperm_wider; [|exact Sp| |]; lia).
    split.
    - split; [destruct Sp; lia|].
      split; [eapply sperm_trans; eauto|].
      split.
      { intros d q Hd Hq. eapply Permutation_trans; [apply I3; auto|].
        destruct (@nested s n d t q i Hd Hq Hi) as [[C1 C2] | [C | C]].
        - assert (W : sperm (bst s n d q) (bst s n d q + bsz n d q) its its')
            by (eapply sperm_wider; [|exact Sp| |]; lia).
          apply W.
        - erewrite <- sperm_same; [apply Permutation_refl|exact Sp|]. lia.
        - erewrite <- sperm_same; [apply Permutation_refl|exact Sp|]. lia. }
      split.
      { intros d p Hd Hp. pose proof (@addr_bound t d p Ht Hd Hp) as Hb.
        rewrite Fr by lia.
        destruct (Nat.eq_dec d (t - 1)) as [Ed | Ed].
        - destruct (Nat.eq_dec p (i / 2)) as [Ep | Ep].
          + subst d p. rewrite Hl1, E0. cbn [option_map]. f_equal.
            rewrite linked_cons by auto. reflexivity.
          + rewrite Hl2.
            2:{ intros E. apply Ep. apply Nat.add_cancel_l in E.
                apply addr_inj in E; auto; try lia. }
            rewrite I4 by auto. destruct (ns0 (na + addr t d p)); cbn [option_map]; [f_equal|reflexivity].
            symmetry; apply linked_other; auto.
        - rewrite Hl2.
          2:{ intros E. apply Ed. apply Nat.add_cancel_l in E.
              apply addr_inj in E; auto; try lia. }
          rewrite I4 by auto. destruct (ns0 (na + addr t d p)); cbn [option_map]; [f_equal|reflexivity].
          symmetry; apply linked_other; auto. }
      split.
      { intros k Hk. rewrite Fr.
        2:{ destruct Hk as [Hk | [Hk1 Hk2]]; [lia|]. apply Hk2; auto. }
        rewrite Hl2 by lia. apply I5; auto. }
      { intros j [-> | Hj]; [exact HQ|].
        assert (Hjb : j < 2 ^ t) by (apply Hdone; auto).
        assert (Hne : j <> i) by (intros ->; auto).
        apply (@Qframe j its its' ns ns'); auto.
        - intros k Hk. pose proof (Hpos0 Hjb) as Hpj.
          rewrite Fr.
          + apply Hl2. lia.
          + destruct (lt_eq_lt_dec i j) as [[H | H] | H]; [|lia|].
            * pose proof (Hdisj H Hjb). lia.
            * pose proof (Hdisj H Hi). lia.
        - destruct Sp; lia.
        - intros k Hk. destruct Sp as (_ & Sp2 & _). apply Sp2.
          destruct (lt_eq_lt_dec i j) as [[H | H] | H]; [|lia|].
          + pose proof (bend_le_bst s n t H Hjb). lia.
          + pose proof (bend_le_bst s n t H Hi). lia. }
    - intros x Hx. apply Hok.
      assert (P : Permutation its its') by (apply (sperm_perm (s := s) (e := s + n)); auto; lia).
      apply (Permutation_in _ (Permutation_sym P) Hx).
  Qed.

  Lemma Inv_init : Inv [] its0 ns0.
  Proof.
    split; auto. split; [apply sperm_refl|]. split; [auto|]. split; [|split; auto].
    - intros d p Hd Hp. destruct (ns0 (na + addr t d p)) as [c|]; auto.
      cbn [option_map]. unfold linked, inb. cbn [existsb].
      destruct (d =? t - 1); auto. destruct c; reflexivity.
    - intros j [].
  Qed.
End Loop.
