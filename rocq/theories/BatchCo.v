(** The cache-oblivious builds produce a balanced kd-tree that fits the node array. *)
From Verif Require Import Base Num KdModel BatchSplit BatchAddr BatchModel BatchSlice BatchLoop.
Set Implicit Arguments.

Lemma numLevels_bounds ls n : 1 <= ls -> 1 <= n ->
  n <= ls * 2 ^ (numLevels ls n - 1) /\
  (2 <= numLevels ls n -> ls * 2 ^ (numLevels ls n - 2) < n).
Proof.
  intros Hl Hn. unfold numLevels. set (c := (n + (ls - 1)) / ls).
  assert (Hc1 : ls * c <= n + (ls - 1)) by (apply Nat.mul_div_le; lia).
  assert (Hc2 : n + (ls - 1) < ls * (c + 1)).
  { replace (c + 1) with (S c) by lia. apply Nat.mul_succ_div_gt; lia. }
  assert (Hc : 1 <= c) by nia.
  replace (1 + Nat.log2_up c - 1) with (Nat.log2_up c) by lia.
  destruct (Nat.eq_dec c 1) as [E | E].
  - rewrite E. change (Nat.log2_up 1) with 0. rewrite Nat.pow_0_r. split; [nia|]. intros; lia.
  - destruct (Nat.log2_up_spec c) as [H1 H2]; [lia|]. split; [nia|].
    intros H3. replace (1 + Nat.log2_up c - 2) with (pred (Nat.log2_up c)) by lia. nia.
Qed.

Lemma numLevels_le ls n L : 1 <= ls -> 1 <= L -> 1 <= n -> n <= ls * 2 ^ (L - 1) -> numLevels ls n <= L.
Proof.
  intros Hl HL Hn H. destruct (@numLevels_bounds ls n Hl Hn) as [_ H2].
  destruct (Nat.le_gt_cases (numLevels ls n) L) as [|Hgt]; auto.
  specialize (H2 ltac:(lia)).
  assert (2 ^ (L - 1) <= 2 ^ (numLevels ls n - 2)) by (apply Nat.pow_le_mono_r; lia).
  nia.
Qed.

Lemma numLevels_pos ls n : 1 <= numLevels ls n.
Proof. unfold numLevels. lia. Qed.

Lemma pow_split L d : d <= L -> 2 ^ L = 2 ^ (L - d) * 2 ^ d.
Proof. intros H. rewrite <- Nat.pow_add_r. f_equal. lia. Qed.

Lemma addr_root L : addr L 0 0 = 0.
Proof.
  induction L as [L IH] using lt_wf_ind.
  destruct (Nat.le_gt_cases L 1) as [H | H].
  - destruct L as [|[|L]]; try lia; reflexivity.
  - destruct (@bottomNumLevels_bounds L) as [B1 B2]; [lia|].
    rewrite addr_unfold by lia. cbv zeta.
    destruct (Nat.ltb_spec 0 (L - bottomNumLevels L)); [|lia]. apply IH. lia.
Qed.

Lemma dm2 p k : 2 * p / 2 ^ S k = p / 2 ^ k /\ 2 * p mod 2 ^ S k = 2 * (p mod 2 ^ k) /\
  (2 * p + 1) / 2 ^ S k = p / 2 ^ k /\ (2 * p + 1) mod 2 ^ S k = 2 * (p mod 2 ^ k) + 1.
Proof.
  pose proof (pow2_pos k) as Hk. pose proof (Nat.div_mod p (2 ^ k) ltac:(lia)) as Hd.
  pose proof (Nat.mod_upper_bound p (2 ^ k) ltac:(lia)) as Hm.
  assert (E : 2 ^ S k = 2 * 2 ^ k) by reflexivity. rewrite E.
  set (q := p / 2 ^ k) in *. set (r := p mod 2 ^ k) in *.
  split; [|split; [|split]].
  - symmetry. apply (Nat.div_unique _ _ q (2 * r)); nia.
  - symmetry. apply (Nat.mod_unique _ _ q (2 * r)); nia.
  - symmetry. apply (Nat.div_unique _ _ q (2 * r + 1)); nia.
  - symmetry. apply (Nat.mod_unique _ _ q (2 * r + 1)); nia.
Qed.

Section Co.
  Variable N : Num.
  Variable dim : nat.
  Variable A : Type.
  Variable pt : A -> list (nT N).
  Variable okI : A -> Prop.
  Notation nodes := (nodes N).
  Notation st := (st N A).
  Notation splitOk := (splitOk N pt).
  Notation ktOk := (ktOk N dim pt).
  Hypothesis Hdim : 0 < dim.

  Lemma splitOk_perm (its its' : list A) s n d sv :
    Permutation (slice s (s + n / 2) its) (slice s (s + n / 2) its') ->
    Permutation (slice (s + n / 2) (s + n) its) (slice (s + n / 2) (s + n) its') ->
    splitOk its s n d sv -> splitOk its' s n d sv.
  Proof.
    intros P1 P2 (S1 & S2 & S3). split; [|split].
    - intros x Hx. apply S1. apply (Permutation_in _ (Permutation_sym P1) Hx).
    - intros x Hx. apply S2. apply (Permutation_in _ (Permutation_sym P2) Hx).
    - intros H x Hx. apply S3; [|apply (Permutation_in _ (Permutation_sym P1) Hx)].
      intros a b Ha Hb. apply H; [apply (Permutation_in _ P1 Ha)|apply (Permutation_in _ P2 Hb)].
  Qed.
  Lemma splitOk_eq (its its' : list A) s n d sv :
    length its' = length its ->
    (forall k, s <= k < s + n -> nth_error its' k = nth_error its k) ->
    splitOk its s n d sv -> splitOk its' s n d sv.
  Proof.
    intros Hl H. pose proof (half_le n). apply splitOk_perm.
    - rewrite (@slice_eq _ _ _ its' its) by (auto; intros; apply H; lia). auto.
    - rewrite (@slice_eq _ _ _ its' its) by (auto; intros; apply H; lia). auto.
  Qed.

  (** The block of [L] full levels at [na] over items [s, s+n). *)
  Definition topOk (its : list A) (ns : nodes) (na L sd s n : nat) : Prop :=
    forall d p, d < L -> p < 2 ^ d -> exists sv,
      ns (na + addr L d p) = Some (mkCn (bst s n d p) (bst s n d p + bsz n d p)
        (Some ((sd + d) mod dim, sv))
        (if S d <? L then Some (na + addr L (S d) (2 * p)) else None)
        (if S d <? L then Some (na + addr L (S d) (2 * p + 1)) else None)) /\
      splitOk its (bst s n d p) (bsz n d p) ((sd + d) mod dim) sv.

  Lemma topOk_frame its its' ns ns' na L sd s n : 1 <= L ->
    topOk its ns na L sd s n ->
    (forall k, na <= k < na + (2 ^ L - 1) -> ns' k = ns k) ->
    length its' = length its ->
    (forall k, s <= k < s + n -> nth_error its' k = nth_error its k) ->
    topOk its' ns' na L sd s n.
  Proof.
    intros HL HT Hns Hl Hits d p Hd Hp. destruct (HT d p Hd Hp) as (sv & E & SO).
    exists sv. split.
    - rewrite Hns; [exact E|]. pose proof (@addr_bound L d p HL Hd Hp). lia.
    - destruct (@bst_bounds s n d p Hp) as [B1 B2].
      eapply splitOk_eq; [exact Hl| |exact SO]. intros k Hk. apply Hits. lia.
  Qed.

  Lemma topOk_some its ns na L sd s n : topOk its ns na L sd s n ->
    forall d p, d < L -> p < 2 ^ d -> ns (na + addr L d p) <> None.
  Proof. intros H d p Hd Hp. destruct (H d p Hd Hp) as (sv & E & _). rewrite E. discriminate. Qed.

  Definition cpos (t na : nat) (pos : nat -> nat) (d p : nat) : nat :=
    if d =? t then pos p else na + addr t d p.

  (** After the loop: the top block with its last level linked. *)
  Definition topLinked (its : list A) (ns : nodes) (na t sd s n : nat) (pos : nat -> nat) : Prop :=
    forall d p, d < t -> p < 2 ^ d -> exists sv,
      ns (na + addr t d p) = Some (mkCn (bst s n d p) (bst s n d p + bsz n d p)
        (Some ((sd + d) mod dim, sv))
        (Some (cpos t na pos (S d) (2 * p))) (Some (cpos t na pos (S d) (2 * p + 1)))) /\
      splitOk its (bst s n d p) (bsz n d p) ((sd + d) mod dim) sv.

  Lemma inv_linked its0 ns0 its ns na t sd s n pos cnt len Q done :
    1 <= t -> topOk its0 ns0 na t sd s n ->
    @Inv N A s n t na pos cnt len Q ns0 its0 done its ns ->
    (forall i, i < 2 ^ t -> In i done) ->
    topLinked its ns na t sd s n pos.
  Proof.
    intros Ht HT (I1 & I2 & I3 & I4 & I5 & I6) Hall d p Hd Hp.
    destruct (HT d p Hd Hp) as (sv & E & SO). exists sv. split.
    - rewrite I4 by auto. rewrite E. cbn [option_map]. f_equal. unfold linked, cpos.
      destruct (Nat.eqb_spec d (t - 1)) as [Ed | Ed].
      + cbn [cn_s cn_e cn_k cn_l cn_r]. assert (ES : S d = t) by lia. rewrite ES, Nat.eqb_refl.
        assert (Hp2 : 2 * p + 1 < 2 ^ t) by (rewrite <- ES; simpl; lia).
        assert (E1 : inb (2 * p) done = true) by (apply (proj2 (inb_in _ _)); apply Hall; lia).
        assert (E2 : inb (2 * p + 1) done = true) by (apply (proj2 (inb_in _ _)); apply Hall; lia).
        rewrite E1, E2. reflexivity.
      + destruct (Nat.ltb_spec (S d) t); [|lia].
        destruct (Nat.eqb_spec (S d) t); [lia|]. reflexivity.
    - assert (Hp2 : 2 * p + 1 < 2 ^ S d) by (simpl; lia).
      pose proof (I3 (S d) (2 * p) ltac:(lia) ltac:(lia)) as P1.
      pose proof (I3 (S d) (2 * p + 1) ltac:(lia) ltac:(lia)) as P2.
      cbn [bst bsz] in P1, P2. rewrite even_2p, div2_2p in P1. rewrite even_2p1, div2_2p1 in P2.
      eapply splitOk_perm; [exact P1| |exact SO].
      pose proof (half_le (bsz n d p)).
      replace (bst s n d p + bsz n d p) with (bst s n d p + bsz n d p / 2 + (bsz n d p - bsz n d p / 2)) by lia.
      exact P2.
  Qed.

  Lemma mod_shift sd t k : ((sd + t) mod dim + k) mod dim = (sd + (t + k)) mod dim.
  Proof. rewrite Nat.add_mod_idemp_l by lia. f_equal. lia. Qed.

  (** Top block made of a top block and [2^t] blocks of [b] levels. *)
  Lemma compose_top its ns na L sd s n pos : 2 <= L ->
    let b := bottomNumLevels L in let t := L - b in
    (forall i, pos i = na + (2 ^ t - 1) + i * (2 ^ b - 1)) ->
    topLinked its ns na t sd s n pos ->
    (forall i, i < 2 ^ t -> topOk its ns (pos i) b ((sd + t) mod dim) (bst s n t i) (bsz n t i)) ->
    topOk its ns na L sd s n.
  Proof.
    intros HL b t Epos HT HB d p Hd Hp.
    destruct (@bottomNumLevels_bounds L) as [B1 B2]; [lia|]. fold b in B1, B2.
    assert (EL : L = t + b) by (unfold t; lia).
    destruct (Nat.lt_ge_cases d t) as [Hdt | Hdt].
    - destruct (HT d p Hdt Hp) as (sv & E & SO). exists sv. split; [|exact SO].
      rewrite addr_unfold by lia. cbv zeta. fold b. fold t.
      destruct (Nat.ltb_spec d t); [|lia]. rewrite E.
      destruct (Nat.ltb_spec (S d) L); [|lia]. unfold cpos.
      destruct (Nat.eqb_spec (S d) t) as [Et | Et].
      + assert (G : forall q, addr L (S d) q = 2 ^ t - 1 + q * (2 ^ b - 1)).
        { intros q. rewrite addr_unfold by lia. cbv zeta. fold b. fold t.
          destruct (Nat.ltb_spec (S d) t); [lia|].
          replace (S d - t) with 0 by lia. rewrite Nat.pow_0_r, Nat.div_1_r, Nat.mod_1_r, addr_root. lia. }
        rewrite !G, !Epos. rewrite !Nat.add_assoc. reflexivity.
      + assert (G : forall q, addr L (S d) q = addr t (S d) q).
        { intros q. rewrite addr_unfold by lia. cbv zeta. fold b. fold t.
          destruct (Nat.ltb_spec (S d) t); [reflexivity|lia]. }
        rewrite !G. reflexivity.
    - assert (exists k, d = t + k) as [k Ek] by (exists (d - t); lia).
      subst d. assert (Hk : k < b) by lia.
      assert (Hi : p / 2 ^ k < 2 ^ t) by (apply div_pow_lt; auto).
      assert (Hm : p mod 2 ^ k < 2 ^ k) by (apply Nat.mod_upper_bound; pose proof (pow2_pos k); lia).
      destruct (HB _ Hi k _ Hk Hm) as (sv & E & SO).
      rewrite mod_shift in E, SO. exists sv.
      rewrite bst_app, bsz_app by auto. split; [|exact SO].
      destruct (dm2 p k) as (D1 & D2 & D3 & D4).
      assert (G : forall k' q, k' < b -> addr L (t + k') q =
                 2 ^ t - 1 + q / 2 ^ k' * (2 ^ b - 1) + addr b k' (q mod 2 ^ k')).
      { intros k' q Hk'. rewrite addr_unfold by lia. cbv zeta. fold b. fold t.
        destruct (Nat.ltb_spec (t + k') t); [lia|].
        replace (t + k' - t) with k' by lia. reflexivity. }
      rewrite (G k p Hk). rewrite Epos in E.
      rewrite !Nat.add_assoc in *. rewrite E. f_equal.
      replace (S (t + k) <? L) with (S k <? b).
      2:{ destruct (Nat.ltb_spec (S k) b), (Nat.ltb_spec (S (t + k)) L); auto; lia. }
      destruct (Nat.ltb_spec (S k) b) as [Hb | Hb]; [|reflexivity].
      replace (S (t + k)) with (t + S k) by lia.
      rewrite !G by auto. rewrite D1, D2, D3, D4, !Nat.add_assoc. reflexivity.
  Qed.

  Definition botOk (ls : nat) (its : list A) (ns : nodes) (na cnt sd s n : nat) : Prop :=
    exists tr al, rep ns na tr al /\ NoDup al /\ (forall k, In k al -> na <= k < na + cnt) /\
      ktOk ls its s n sd tr.

  Lemma rep_frame ns ns' : forall tr na al, rep (N := N) ns na tr al ->
    (forall k, In k al -> ns' k = ns k) -> rep ns' na tr al.
  Proof.
    induction tr as [s e np b | d sv s e b l IHl r IHr]; intros na al H Hf; cbn [rep] in *.
    - destruct H as (-> & -> & E). repeat split; auto. rewrite Hf; simpl; auto.
    - destruct H as (pl & pr & al1 & al2 & -> & E & H1 & H2).
      exists pl, pr, al1, al2. split; auto. split; [rewrite Hf; simpl; auto|].
      split; [apply IHl; auto|apply IHr; auto]; intros k Hk; apply Hf; simpl; right; apply in_or_app; auto.
  Qed.

  Lemma ktOk_frame ls its its' : length its' = length its -> forall (tr : kt (nT N) unit) s n sd,
    (forall k, s <= k < s + n -> nth_error its' k = nth_error its k) ->
    ktOk ls its s n sd tr -> ktOk ls its' s n sd tr.
  Proof.
    intros Hl. induction tr as [s' e np b | d sv s' e b l IHl r IHr]; intros s n sd Hf H; cbn [BatchModel.ktOk] in *.
    - exact H.
    - destruct H as (-> & -> & -> & Hn & SO & H1 & H2). pose proof (half_le n).
      repeat split; auto.
      + eapply splitOk_eq; eauto.
      + eapply splitOk_eq; eauto.
      + eapply splitOk_eq; eauto.
      + apply IHl; auto. intros; apply Hf; lia.
      + apply IHr; auto. intros; apply Hf; lia.
  Qed.

  Lemma botOk_frame ls its its' ns ns' na cnt sd s n :
    botOk ls its ns na cnt sd s n ->
    (forall k, na <= k < na + cnt -> ns' k = ns k) ->
    length its' = length its ->
    (forall k, s <= k < s + n -> nth_error its' k = nth_error its k) ->
    botOk ls its' ns' na cnt sd s n.
  Proof.
    intros (tr & al & H1 & H2 & H3 & H4) Hns Hl Hits. exists tr, al.
    split; [eapply rep_frame; eauto|]. split; auto. split; auto. eapply ktOk_frame; eauto.
  Qed.

  (** The tree below node [(d, p)] of the top block. *)
  Lemma compose_sub ls its ns na t sd s n pos cnt : 1 <= t -> 
    (forall i, i < 2 ^ t -> na + (2 ^ t - 1) <= pos i) ->
    (forall i j, i < j -> j < 2 ^ t -> pos i + cnt i <= pos j) ->
    topLinked its ns na t sd s n pos ->
    (forall d p, d < t -> p < 2 ^ d -> ls < bsz n d p) ->
    (forall i, i < 2 ^ t -> botOk ls its ns (pos i) (cnt i) ((sd + t) mod dim) (bst s n t i) (bsz n t i)) ->
    forall k d p, d + k = t -> p < 2 ^ d ->
    exists tr al, rep ns (cpos t na pos d p) tr al /\ NoDup al /\
      (forall x, In x al ->
         (exists d' p', d <= d' /\ d' < t /\ p' < 2 ^ d' /\ p' / 2 ^ (d' - d) = p /\ x = na + addr t d' p') \/
         (exists i, i < 2 ^ t /\ i / 2 ^ (t - d) = p /\ pos i <= x < pos i + cnt i)) /\
      ktOk ls its (bst s n d p) (bsz n d p) ((sd + d) mod dim) tr.
  Proof.
    intros Ht Hpos Hdis HT Hls HB. induction k as [|k IH]; intros d p Hd Hp.
    - assert (d = t) by lia. subst d. unfold cpos. rewrite Nat.eqb_refl.
      destruct (HB p Hp) as (tr & al & R1 & R2 & R3 & R4). exists tr, al. repeat split; auto.
      intros x Hx. right. exists p. split; auto. split; auto.
      rewrite Nat.sub_diag, Nat.pow_0_r, Nat.div_1_r. reflexivity.
    - assert (Hdt : d < t) by lia.
      assert (Hp2 : 2 * p + 1 < 2 ^ S d) by (simpl; lia).
      destruct (IH (S d) (2 * p) ltac:(lia) ltac:(lia)) as (tl & all_ & L1 & L2 & L3 & L4).
      destruct (IH (S d) (2 * p + 1) ltac:(lia) ltac:(lia)) as (tr & alr & R1 & R2 & R3 & R4).
      destruct (HT d p Hdt Hp) as (sv & E & SO).
      assert (Hdiv : forall x j, x / 2 ^ j / 2 = x / 2 ^ S j).
      { intros x j. rewrite Nat.div_div by (pose proof (pow2_pos j); lia). f_equal. simpl. lia. }
      exists (KNode ((sd + d) mod dim) sv (bst s n d p) (bst s n d p + bsz n d p) tt tl tr).
      exists (na + addr t d p :: all_ ++ alr).
      assert (Ec : cpos t na pos d p = na + addr t d p).
      { unfold cpos. destruct (Nat.eqb_spec d t); [lia|reflexivity]. }
      split; [|split; [|split]].
      + cbn [rep]. do 4 eexists. split; [rewrite Ec; reflexivity|]. split; [rewrite Ec; exact E|].
        split; [exact L1|exact R1].
      + constructor.
        * intros Hin. pose proof (@addr_bound t d p Ht Hdt Hp) as Hb.
          apply in_app_iff in Hin. destruct Hin as [Hin | Hin]; [apply L3 in Hin|apply R3 in Hin];
            destruct Hin as [(d' & p' & A1 & A2 & A3 & A4 & A5) | (i & A1 & A2 & A3)].
          -- apply Nat.add_cancel_l in A5. apply addr_inj in A5; auto; lia.
          -- specialize (Hpos i A1). lia.
          -- apply Nat.add_cancel_l in A5. apply addr_inj in A5; auto; lia.
          -- specialize (Hpos i A1). lia.
        * apply NoDup_app_intro; auto.
          intros x Hx1 Hx2. apply L3 in Hx1. apply R3 in Hx2.
          destruct Hx1 as [(d1 & p1 & A1 & A2 & A3 & A4 & A5) | (i & A1 & A2 & A3)];
          destruct Hx2 as [(d2 & p2 & C1 & C2 & C3 & C4 & C5) | (j & C1 & C2 & C3)].
          -- rewrite A5 in C5. apply Nat.add_cancel_l in C5. apply addr_inj in C5; auto.
             destruct C5 as [-> ->]. lia.
          -- specialize (Hpos j C1). pose proof (@addr_bound t d1 p1 Ht A2 A3). lia.
          -- specialize (Hpos i A1). pose proof (@addr_bound t d2 p2 Ht C2 C3). lia.
          -- destruct (lt_eq_lt_dec i j) as [[H | H] | H].
             ++ pose proof (Hdis i j H C1). lia.
             ++ subst. lia.
             ++ pose proof (Hdis j i H A1). lia.
      + intros x [<- | Hx].
        * left. exists d, p. repeat split; auto. rewrite Nat.sub_diag, Nat.pow_0_r, Nat.div_1_r. reflexivity.
        * apply in_app_iff in Hx.
          destruct Hx as [Hx | Hx]; [apply L3 in Hx|apply R3 in Hx];
            destruct Hx as [(d' & p' & A1 & A2 & A3 & A4 & A5) | (i & A1 & A2 & A3)].
          -- left. exists d', p'. repeat split; auto; try lia.
             replace (d' - d) with (S (d' - S d)) by lia. rewrite <- Hdiv, A4. apply div2_2p.
          -- right. exists i. split; auto. split; auto.
             replace (t - d) with (S (t - S d)) by lia. rewrite <- Hdiv, A2. apply div2_2p.
          -- left. exists d', p'. repeat split; auto; try lia.
             replace (d' - d) with (S (d' - S d)) by lia. rewrite <- Hdiv, A4. apply div2_2p1.
          -- right. exists i. split; auto. split; auto.
             replace (t - d) with (S (t - S d)) by lia. rewrite <- Hdiv, A2. apply div2_2p1.
      + cbn [BatchModel.ktOk]. cbn [bst bsz] in L4, R4.
        rewrite even_2p, div2_2p in L4. rewrite even_2p1, div2_2p1 in R4.
        assert (Em : forall x, (x + S d) mod dim = ((x + d) mod dim + 1) mod dim).
        { intros x. rewrite Nat.add_mod_idemp_l by lia. f_equal. lia. }
        rewrite Em in L4, R4.
        split; [reflexivity|]. split; [reflexivity|]. split; [reflexivity|].
        split; [apply Hls; auto|]. split; [exact SO|]. split; [exact L4|exact R4].
  Qed.

  Lemma compose_bot ls its ns na t sd s n pos cnt total : 1 <= t -> sd < dim ->
    (forall i, i < 2 ^ t -> na + (2 ^ t - 1) <= pos i) ->
    (forall i j, i < j -> j < 2 ^ t -> pos i + cnt i <= pos j) ->
    (forall i, i < 2 ^ t -> pos i + cnt i <= na + total) ->
    2 ^ t - 1 <= total ->
    topLinked its ns na t sd s n pos ->
    (forall d p, d < t -> p < 2 ^ d -> ls < bsz n d p) ->
    (forall i, i < 2 ^ t -> botOk ls its ns (pos i) (cnt i) ((sd + t) mod dim) (bst s n t i) (bsz n t i)) ->
    botOk ls its ns na total sd s n.
  Proof.
    intros Ht Hsd Hpos Hdis Htot Htot2 HT Hls HB.
    destruct (@compose_sub ls its ns na t sd s n pos cnt Ht Hpos Hdis HT Hls HB t 0 0) as (tr & al & H1 & H2 & H3 & H4);
      [lia|simpl; lia|].
    exists tr, al.
    assert (Ec : cpos t na pos 0 0 = na).
    { unfold cpos. destruct (Nat.eqb_spec 0 t); [lia|]. rewrite addr_root. lia. }
    rewrite Ec in H1. split; auto. split; auto. split.
    - intros x Hx. destruct (H3 x Hx) as [(d' & p' & A1 & A2 & A3 & A4 & ->) | (i & A1 & A2 & A3)].
      + pose proof (@addr_bound t d' p' Ht A2 A3). lia.
      + specialize (Hpos i A1). specialize (Htot i A1). lia.
    - cbn [bst bsz] in H4. rewrite Nat.add_0_r, Nat.mod_small in H4 by auto. exact H4.
  Qed.
End Co.
