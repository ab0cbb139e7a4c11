(** The serial, parallel and heap-layout builders are correct. *)
From Verif Require Import Base Num KdModel KdSplit BatchSplit BatchAddr BatchModel BatchSlice BatchLoop BatchCo.
Set Implicit Arguments.

Lemma firstn_seq0 m : forall a k, k <= m -> firstn k (seq a m) = seq a k.
Proof.
  induction m as [|m IH]; intros a [|k] H; try reflexivity; [lia|].
  cbn [seq firstn]. rewrite IH by lia. reflexivity.
Qed.

Definition csum (f : nat -> nat) (i : nat) : nat := list_sum (map f (seq 0 i)).
Lemma csum_S f i : csum f (S i) = csum f i + f i.
Proof. unfold csum. rewrite seq_S, map_app, list_sum_app. unfold list_sum; simpl. lia. Qed.
Lemma csum_mono f i j : i <= j -> csum f i <= csum f j.
Proof. intros H. induction H as [|j H IH]; auto. rewrite csum_S. lia. Qed.
Lemma csum_step f i j : i < j -> csum f i + f i <= csum f j.
Proof. intros H. rewrite <- csum_S. apply csum_mono. lia. Qed.
Lemma csum_const c i : csum (fun _ => c) i = i * c.
Proof. induction i as [|i IH]; [reflexivity|]. rewrite csum_S, IH. lia. Qed.
Lemma csum_le f g i : (forall j, j < i -> f j <= g j) -> csum f i <= csum g i.
Proof.
  induction i as [|i IH]; intros H; [cbn; lia|]. rewrite !csum_S.
  pose proof (H i ltac:(lia)). assert (csum f i <= csum g i) by (apply IH; auto). lia.
Qed.
Lemma csum_ext f g i : (forall j, j < i -> f j = g j) -> csum f i = csum g i.
Proof.
  induction i as [|i IH]; intros H; [reflexivity|]. rewrite !csum_S, IH, H; auto.
Qed.
Lemma bst_csum s n t i : i < 2 ^ t -> bst s n t i = s + csum (bsz n t) i.
Proof. apply bst_sum. Qed.
Lemma bsz_csum n t : csum (bsz n t) (2 ^ t) = n.
Proof. apply bsz_sum. Qed.
Lemma csum_nodes n t i : (forall j, j < i -> 1 <= bsz n t j) ->
  csum (fun j => 2 * bsz n t j - 1) i + i = 2 * csum (bsz n t) i.
Proof.
  induction i as [|i IH]; intros H; [reflexivity|]. rewrite !csum_S.
  pose proof (H i ltac:(lia)). assert (csum (fun j => 2 * bsz n t j - 1) i + i = 2 * csum (bsz n t) i) by (apply IH; auto).
  lia.
Qed.

Section Build.
  Variable N : Num.
  Variable dim : nat.
  Variable A : Type.
  Variable pt : A -> list (nT N).
  Variable okI : A -> Prop.
  Notation nodes := (nodes N).
  Notation st := (st N A).
  Notation splitOk := (splitOk N pt).
  Notation ktOk := (ktOk N dim pt).
  Notation topOk := (topOk dim pt).
  Notation botOk := (botOk dim pt).
  Hypothesis Hdim : 0 < dim.
  Variable ls : nat.
  Hypothesis Hls : 1 <= ls.
  Variables sp ci : list (list nat).
  Hypothesis Gsp : sp_good sp.
  Hypothesis Gci : ci_good ci.
  Variable msplit : nat -> list A -> res (list A * nT N).
  Hypothesis Hms : msplit_ok N dim pt okI msplit.

  Lemma placeSplit_ok ms s e na sd its ns : msplit_ok N dim pt okI ms ->
    s + 2 <= e -> e <= length its -> sd < dim -> (forall x, In x its -> okI x) ->
    exists its' ns', placeSplit ms s e na sd (its, ns) = Ok (1, (its', ns')) /\
      sperm s e its its' /\ (forall k, k < na \/ na + 1 <= k -> ns' k = ns k) /\
      exists sv, ns' na = Some (mkCn s e (Some (sd, sv)) None None) /\ splitOk its' s (e - s) sd sv.
  Proof.
    intros HM H1 H2 Hsd Hok. unfold placeSplit. cbn [fst snd].
    destruct (Nat.leb_spec (e - s) 1); [lia|].
    assert (Hl : length (slice s e its) = e - s) by (apply slice_length; auto).
    destruct (HM sd (slice s e its)) as (m & sv & E & P & S); auto; [lia| |].
    { intros x Hx. apply Hok. unfold slice in Hx. apply In_firstn in Hx. apply In_skipn in Hx. auto. }
    rewrite E. cbn [bind]. eexists _, _. split; [reflexivity|].
    assert (Hm : length m = e - s) by (rewrite <- (Permutation_length P); auto).
    split; [apply sperm_set; auto; lia|]. split.
    - intros k Hk. unfold nset. destruct (Nat.eqb_spec k na); [lia|reflexivity].
    - exists sv. split; [unfold nset; rewrite Nat.eqb_refl; reflexivity|].
      rewrite Hl in S. unfold BatchModel.splitOk in *. cbv zeta in *.
      pose proof (half_le (e - s)).
      assert (G : forall a b, b <= e - s -> slice (s + a) (s + b) (setSlice s e m its) = slice a b m).
      { intros a b Hb. rewrite <- (@slice_slice _ s e a b) by lia. rewrite setSlice_slice by (auto; lia). reflexivity. }
      rewrite !(G _ _) by lia. replace (slice s (s + (e - s) / 2) (setSlice s e m its)) with (slice 0 ((e - s) / 2) m).
      2:{ rewrite <- (G 0) by lia. rewrite Nat.add_0_r. reflexivity. }
      exact S.
  Qed.

  Section L.
    Variables (s n t na len : nat) (cnt : nat -> nat).
    Let pos := fun i => na + (2 ^ t - 1) + csum cnt i.
    Variable Q : nat -> list A -> nodes -> Prop.
    Variable ns0 : nodes.
    Variable its0 : list A.
    Hypothesis Ht : 1 <= t.
    Hypothesis Hlen : s + n <= len.
    Hypothesis Hlen0 : length its0 = len.
    Hypothesis Htop : forall d p, d < t -> p < 2 ^ d -> ns0 (na + addr t d p) <> None.
    Hypothesis Hok0 : forall x, In x its0 -> okI x.
    Hypothesis Qframe : forall i its its' ns ns', i < 2 ^ t -> Q i its ns ->
      (forall k, pos i <= k < pos i + cnt i -> ns' k = ns k) ->
      length its' = length its ->
      (forall k, bst s n t i <= k < bst s n t i + bsz n t i -> nth_error its' k = nth_error its k) ->
      Q i its' ns'.
    Variable sub : nat -> nat -> nat -> st -> res (nat * st).
    Hypothesis Tsp : t < length sp.
    Hypothesis Tci : t < length ci.

    Lemma posdis : forall i j, i < j -> j < 2 ^ t -> pos i + cnt i <= pos j.
    Proof. intros i j H _. unfold pos. pose proof (csum_step cnt H). lia. Qed.
    Lemma posge : forall i, i < 2 ^ t -> na + (2 ^ t - 1) <= pos i.
    Proof. intros. unfold pos. lia. Qed.

    Section Serial.
      Hypothesis Hsub : forall i its ns, i < 2 ^ t -> length its = len -> (forall x, In x its -> okI x) ->
        exists its' ns', sub (bst s n t i) (bst s n t i + bsz n t i) (pos i) (its, ns) = Ok (cnt i, (its', ns')) /\
          sperm (bst s n t i) (bst s n t i + bsz n t i) its its' /\
          (forall k, k < pos i \/ pos i + cnt i <= k -> ns' k = ns k) /\ Q i its' ns'.

      Lemma coLoop_ok m : forall i done its ns, i + m = 2 ^ t ->
        Inv s n t na pos cnt len Q ns0 its0 done its ns ->
        (forall x, In x its -> okI x) ->
        (forall j, In j done <-> j < i) ->
        exists its' ns' done',
          coLoop sp ci sub (n / 2 ^ t) (n mod 2 ^ t) t na (seq i m) (s + csum (bsz n t) i) (pos i) (its, ns)
            = Ok (pos (2 ^ t) - na, (its', ns')) /\
          Inv s n t na pos cnt len Q ns0 its0 done' its' ns' /\
          (forall x, In x its' -> okI x) /\ (forall j, j < 2 ^ t -> In j done').
      Proof.
        induction m as [|m IH]; intros i done its ns Hi HI Hok Hdone.
        - assert (i = 2 ^ t) by lia. subst i. exists its, ns, done.
          split; [reflexivity|]. split; auto. split; auto. intros j Hj. apply Hdone; auto.
        - assert (Hib : i < 2 ^ t) by lia.
          destruct (@pstep N A okI s n t na pos cnt len Q ns0 its0 Ht Hlen Hlen0 posge posdis Htop Qframe
                      (fun i => sub (bst s n t i) (bst s n t i + bsz n t i) (pos i)) (fun i c => c = cnt i))
            with (done := done) (its := its) (ns := ns) (i := i)
            as (ns1 & c & its' & ns' & P1 & P2 & P3 & P4 & P5); auto.
          { intros i' its2 ns2 H1 H2 H3. destruct (@Hsub i' its2 ns2 H1 H2 H3) as (its' & ns' & G1 & G2 & G3 & G4).
            exists (cnt i'), its', ns'. auto. }
          { intros j Hj. apply Hdone in Hj. lia. }
          { intros Hin. apply Hdone in Hin. lia. }
          cbn [seq coLoop]. rewrite (ci_nth Gci Ht Tci (div2_pow Ht Hib)).
          assert (Esp : nth_error (nth t sp []) i = Some (nth i (spLevel t) 0)).
          { rewrite (Gsp Tsp). apply nth_error_nth'. rewrite spLevel_length. auto. }
          rewrite Esp. cbn [fst snd]. rewrite P1. cbn [bind].
          assert (Ere : s + csum (bsz n t) i + n / 2 ^ t + (if nth i (spLevel t) 0 <=? n mod 2 ^ t then 1 else 0)
                        = bst s n t i + bsz n t i).
          { rewrite bst_csum by auto. rewrite <- (formula_bsz n t Hib). lia. }
          rewrite Ere. rewrite <- bst_csum by auto. rewrite P2. cbn [bind].
          destruct (IH (S i) (i :: done) its' ns') as (its2 & ns2 & done2 & R1 & R2); auto; [lia| |].
          { intros j. cbn [In]. rewrite Hdone. lia. }
          exists its2, ns2, done2. split; auto. rewrite <- R1. f_equal.
          + rewrite bst_csum, csum_S by auto. lia.
          + unfold pos. rewrite csum_S, P3. lia.
      Qed.
    End Serial.

    Section Parallel.
      Hypothesis Hsub : forall i its ns, i < 2 ^ t -> length its = len -> (forall x, In x its -> okI x) ->
        exists c its' ns', sub (bst s n t i) (bst s n t i + bsz n t i) (pos i) (its, ns) = Ok (c, (its', ns')) /\
          sperm (bst s n t i) (bst s n t i + bsz n t i) its its' /\
          (forall k, k < pos i \/ pos i + cnt i <= k -> ns' k = ns k) /\ Q i its' ns'.
      Variable offs : nat -> nat.
      Hypothesis Hoffs : forall i, i < 2 ^ t -> offs i = csum cnt i.

      Lemma leftEnds_nth i : i <= 2 ^ t ->
        nth_error (computeLeftEndpoints sp t n) i = Some (csum (bsz n t) i).
      Proof.
        intros Hi. rewrite (nth_error_nth' _ 0).
        - rewrite leftEndpoints_spec by auto. rewrite halves_map, firstn_map. unfold csum.
          rewrite firstn_seq0 by auto. reflexivity.
        - unfold computeLeftEndpoints. rewrite scanIncl_length. cbn [length].
          rewrite map_length, seq_length. lia.
      Qed.

      Lemma coLoopP_ok is_ : forall done its ns,
        NoDup is_ -> (forall j, In j is_ -> ~ In j done /\ j < 2 ^ t) ->
        Inv s n t na pos cnt len Q ns0 its0 done its ns ->
        (forall x, In x its -> okI x) ->
        (forall j, In j done -> j < 2 ^ t) ->
        exists its' ns' done',
          coLoopP ci sub (computeLeftEndpoints sp t n) offs s t na (na + numNodesTop t) is_ (its, ns)
            = Ok (its', ns') /\
          Inv s n t na pos cnt len Q ns0 its0 done' its' ns' /\
          (forall x, In x its' -> okI x) /\ (forall j, In j is_ \/ In j done -> In j done').
      Proof.
        induction is_ as [|i is_ IH]; intros done its ns ND Hnew HI Hok Hdone.
        - exists its, ns, done. split; [reflexivity|]. split; auto. split; auto. intros j [[] | H]; auto.
        - apply NoDup_cons_iff in ND. destruct ND as [ND1 ND2].
          destruct (Hnew i) as [Hni Hib]; [left; auto|].
          destruct (@pstep N A okI s n t na pos cnt len Q ns0 its0 Ht Hlen Hlen0 posge posdis Htop Qframe
                      (fun i => sub (bst s n t i) (bst s n t i + bsz n t i) (pos i)) (fun i c => True))
            with (done := done) (its := its) (ns := ns) (i := i)
            as (ns1 & c & its' & ns' & P1 & P2 & P3 & P4 & P5); auto.
          { intros i' its2 ns2 H1 H2 H3. destruct (@Hsub i' its2 ns2 H1 H2 H3) as (c & its' & ns' & G1 & G2 & G3 & G4).
            exists c, its', ns'. auto. }
          cbn [coLoopP]. rewrite (ci_nth Gci Ht Tci (div2_pow Ht Hib)).
          rewrite !leftEnds_nth by lia. cbn [fst snd].
          assert (Epos : na + numNodesTop t + offs i = pos i) by (unfold pos, numNodesTop; rewrite Hoffs by auto; lia).
          rewrite Epos, P1. cbn [bind].
          rewrite csum_S, Nat.add_assoc, <- bst_csum by auto. rewrite P2. cbn [bind].
          destruct (IH (i :: done) its' ns') as (its2 & ns2 & done2 & R1 & R2 & R3 & R4); auto.
          { intros j Hj. destruct (Hnew j) as [G1 G2]; [right; auto|]. split; auto.
            intros [-> | G]; auto. }
          { intros j [<- | Hj]; auto. }
          exists its2, ns2, done2. split; auto. split; auto. split; auto.
          intros j Hj. apply R4. cbn [In] in *. tauto.
      Qed.
    End Parallel.
  End L.

  (** Number of nodes the serial build uses below a bottom subtree. *)
  Fixpoint cntB (f n : nat) : nat :=
    match f with
    | 0 => 0
    | S f' =>
      let L := numLevels ls n in
      if L =? 1 then 1
      else let t := L - bottomNumLevels L in
           (2 ^ t - 1) + csum (fun i => cntB f' (bsz n t i)) (2 ^ t)
    end.

  (** Facts about a bottom build of [n] items with at least two levels. *)
  Lemma bot_facts n : 1 <= n -> let L := numLevels ls n in let t := L - bottomNumLevels L in
    2 <= L ->
    1 <= t /\ t < L /\ 2 ^ t <= n /\
    (forall d p, d < t -> p < 2 ^ d -> ls < bsz n d p) /\
    (forall i, i < 2 ^ t -> 1 <= bsz n t i /\ numLevels ls (bsz n t i) <= L - t).
  Proof.
    intros Hn L t HL. destruct (@bottomNumLevels_bounds L HL) as [B1 B2].
    destruct (@numLevels_bounds ls n Hls Hn) as [N1 N2]. fold L in N1, N2. specialize (N2 HL).
    assert (T1 : 1 <= t) by (unfold t; lia). assert (T2 : t < L) by (unfold t; lia).
    assert (T3 : L = 2 \/ t <= L - 2).
    { destruct (Nat.eq_dec L 2) as [|H2]; [left; auto|right]. unfold t.
      assert (2 <= bottomNumLevels L); [|lia].
      unfold bottomNumLevels, hyperCeiling.
      assert (Hm : 2 <= (L + 1) / 2) by (apply Nat.div_le_lower_bound; lia).
      pose proof (Nat.log2_log2_up_spec ((L + 1) / 2) ltac:(lia)). lia. }
    assert (P : 2 ^ t <= n).
    { destruct T3 as [T3 | T3].
      - assert (t = 1) by lia. rewrite H. rewrite T3 in N2. simpl in *. lia.
      - assert (2 ^ t <= 2 ^ (L - 2)) by (apply Nat.pow_le_mono_r; lia). nia. }
    split; auto. split; auto. split; auto. split.
    - intros d p Hd Hp. destruct T3 as [T3 | T3].
      + assert (d = 0) by lia. subst d. cbn [bsz]. rewrite T3 in N2. simpl in N2. lia.
      + assert (2 * ls <= bsz n d p); [|lia].
        apply bsz_lower; auto.
        assert (E : 2 ^ (L - 2) = 2 ^ (L - 2 - d) * 2 ^ d) by (apply pow_split; lia).
        assert (2 ^ 1 <= 2 ^ (L - 2 - d)) by (apply Nat.pow_le_mono_r; lia).
        change (2 ^ 1) with 2 in H. rewrite E in N2. nia.
    - intros i Hi. assert (H1 : 1 <= bsz n t i) by (apply bsz_lower; auto; lia). split; auto.
      apply numLevels_le; auto; [lia|]. apply bsz_upper; auto.
      eapply Nat.le_trans; [exact N1|].
      rewrite <- Nat.mul_assoc. apply Nat.mul_le_mono_l.
      rewrite <- Nat.pow_add_r. apply Nat.pow_le_mono_r; lia.
  Qed.

  Lemma cntB_bound f : forall n, 1 <= n -> cntB f n <= 2 * n - 1.
  Proof.
    induction f as [|f IH]; intros n Hn; cbn [cntB]; [lia|].
    destruct (Nat.eqb_spec (numLevels ls n) 1) as [E | E]; [lia|].
    pose proof (numLevels_pos ls n).
    destruct (@bot_facts n Hn) as (T1 & T2 & T3 & T4 & T5); [lia|].
    set (t := numLevels ls n - bottomNumLevels (numLevels ls n)) in *.
    assert (G : csum (fun i => cntB f (bsz n t i)) (2 ^ t) <= csum (fun j => 2 * bsz n t j - 1) (2 ^ t)).
    { apply csum_le. intros j Hj. apply IH. apply T5; auto. }
    pose proof (@csum_nodes n t (2 ^ t) (fun j Hj => proj1 (T5 j Hj))) as G2.
    rewrite bsz_csum in G2. pose proof (pow2_pos t). lia.
  Qed.

  Lemma okI_sperm s e (its its' : list A) : s <= e -> e <= length its -> sperm s e its its' ->
    (forall x, In x its -> okI x) -> (forall x, In x its' -> okI x).
  Proof.
    intros H1 H2 H3 H x Hx. apply H.
    apply (Permutation_in _ (Permutation_sym (sperm_perm H1 H2 H3)) Hx).
  Qed.

  Definition topSpec (bld : nat -> nat -> nat -> nat -> nat -> st -> res (nat * st)) (exact_ : bool) (L : nat) : Prop :=
    forall s e na sd its ns, s + 2 ^ L <= e -> e <= length its -> sd < dim -> (forall x, In x its -> okI x) ->
    exists c its' ns', bld s e na sd L (its, ns) = Ok (c, (its', ns')) /\
      (exact_ = true -> c = 2 ^ L - 1) /\
      sperm s e its its' /\ (forall k, k < na \/ na + (2 ^ L - 1) <= k -> ns' k = ns k) /\
      topOk its' ns' na L sd s (e - s).

  Lemma top_base ms exact_ (x : bool) : msplit_ok N dim pt okI ms ->
    topSpec (fun s e na sd L => placeSplit ms s e na sd) exact_ 1.
  Proof.
    intros HM s e na sd its ns H1 H2 H3 H4. change (2 ^ 1) with 2 in *.
    destruct (@placeSplit_ok ms s e na sd its ns HM H1 H2 H3 H4) as (its' & ns' & E & S & F & sv & E2 & S2).
    exists 1, its', ns'. split; auto. split; auto. split; auto. split; auto.
    intros d p Hd Hp. assert (d = 0) by lia. subst d. simpl in Hp. assert (p = 0) by lia. subst p.
    exists sv. cbn [bst bsz]. rewrite addr_one, !Nat.add_0_r, Nat.mod_small by auto.
    replace (s + (e - s)) with e by lia. split; auto.
  Qed.

  Lemma coTop_ok f : forall L, 1 <= L -> L <= f -> L < length sp -> L < length ci ->
    topSpec (fun s e na sd L => coBuild dim ls sp ci msplit f true s e na sd L) true L.
  Proof.
    induction f as [|f IH]; intros L HL1 HLf HLs HLc; [lia|].
    destruct (Nat.eq_dec L 1) as [-> | HL].
    { intros s e na sd its ns H1 H2 H3 H4.
      exact (@top_base msplit true true Hms s e na sd its ns H1 H2 H3 H4). }
    intros s e na sd its ns H1 H2 H3 H4. cbn [coBuild].
    destruct (Nat.eqb_spec L 0) as [|_]; [lia|]. destruct (Nat.eqb_spec L 1) as [|_]; [lia|].
    set (b := bottomNumLevels L). set (t := L - b).
    destruct (@bottomNumLevels_bounds L) as [B1 B2]; [lia|]. fold b in B1, B2.
    assert (T1 : 1 <= t) by (unfold t; lia). assert (EL : L = t + b) by (unfold t; lia).
    assert (EP : 2 ^ L = 2 ^ t * 2 ^ b) by (rewrite EL, Nat.pow_add_r; auto).
    pose proof (pow2_pos t). pose proof (pow2_pos b).
    destruct (IH t ltac:(lia) ltac:(lia) ltac:(lia) ltac:(lia) s e na sd its ns) as (c & its1 & ns1 & E1 & C1 & S1 & F1 & K1); auto; [nia|].
    rewrite E1. cbn [bind]. rewrite C1 by auto. clear C1.
    set (n := e - s) in *.
    set (cnt := fun _ : nat => 2 ^ b - 1).
    set (pos := fun i => na + (2 ^ t - 1) + csum cnt i).
    assert (Hl1 : length its1 = length its) by (destruct S1; auto).
    assert (Hok1 : forall x, In x its1 -> okI x) by (eapply okI_sperm; [|exact H2|exact S1|]; auto; lia).
    assert (Hbs : forall i, i < 2 ^ t -> 2 ^ b <= bsz n t i).
    { intros i Hi. apply bsz_lower; auto. unfold n. nia. }
    set (Q := fun i its ns => topOk its ns (pos i) b ((sd + t) mod dim) (bst s n t i) (bsz n t i)).
    destruct (@coLoop_ok s n t na (length its) cnt Q ns1 its1 T1) with (sub := fun le re na' x' =>
         coBuild dim ls sp ci msplit f true le re na' ((sd + t) mod dim) b x') (m := 2 ^ t) (i := 0) (done := @nil nat) (its := its1) (ns := ns1)
      as (its2 & ns2 & done & R1 & R2 & R3 & R4); auto; try lia.
    { eapply topOk_some; eauto. }
    { intros i a a' m m' Hi HQ Hn Hl He. unfold Q in *.
      eapply topOk_frame; [exact Hdim|exact B1|exact HQ| |auto|auto]. exact Hn. }
    { intros i a m Hi Hl Hok. pose proof (@bst_bounds s n t i Hi) as [Bs Be].
      destruct (IH b ltac:(lia) ltac:(lia) ltac:(lia) ltac:(lia) (bst s n t i) (bst s n t i + bsz n t i) (pos i)
                  ((sd + t) mod dim) a m) as (c' & a' & m' & G1 & G2 & G3 & G4 & G5); auto.
      - specialize (Hbs i Hi). lia.
      - lia.
      - apply Nat.mod_upper_bound. lia.
      - exists a', m'. rewrite G2 in G1 by auto. split; [exact G1|]. split; auto. split; auto.
        unfold Q. replace (bst s n t i + bsz n t i - bst s n t i) with (bsz n t i) in G5 by lia. exact G5. }
    { apply Inv_init; auto. }
    { intros j. simpl. lia. }
    replace (s + csum (bsz n t) 0) with s in R1 by (unfold csum; cbn; lia).
    replace (na + (2 ^ t - 1) + csum cnt 0) with (na + (2 ^ t - 1)) in R1 by (unfold csum; cbn; lia).
    rewrite R1.
    exists (pos (2 ^ t) - na), its2, ns2. split; [reflexivity|].
    assert (Eend : pos (2 ^ t) = na + (2 ^ L - 1)) by (unfold pos, cnt; rewrite csum_const, EP; nia).
    split; [intros _; rewrite Eend; lia|].
    split.
    { eapply sperm_trans; [exact S1|]. destruct R2 as (_ & R2 & _). replace (s + n) with e in R2 by lia. exact R2. }
    split.
    { intros k Hk. destruct R2 as (_ & _ & _ & _ & R5 & _). rewrite R5.
      - apply F1. assert (2 ^ t <= 2 ^ L) by (apply Nat.pow_le_mono_r; lia). lia.
      - destruct Hk as [Hk | Hk]; [left; auto|right].
        assert (2 ^ t <= 2 ^ L) by (apply Nat.pow_le_mono_r; lia).
        split; [lia|]. intros j Hj. right. pose proof (csum_step cnt Hj). unfold pos in *. lia. }
    { apply (@compose_top N dim A pt Hdim its2 ns2 na L sd s n pos); auto; [lia| | |].
      - intros i. fold b. fold t. unfold pos, cnt. rewrite csum_const. lia.
      - fold b. fold t. eapply inv_linked; [exact Hdim|exact T1|exact K1|exact R2|exact R4].
      - fold b. fold t. intros i Hi. destruct R2 as (_ & _ & _ & _ & _ & R2). apply R2, R4, Hi. }
  Qed.

  Definition botSpec (bld : nat -> nat -> nat -> nat -> st -> res (nat * st)) (cnt : nat -> nat) (exact_ : bool) (L : nat) : Prop :=
    forall s e na sd its ns, s < e -> numLevels ls (e - s) = L -> e <= length its -> sd < dim -> (forall x, In x its -> okI x) ->
    exists c its' ns', bld s e na sd (its, ns) = Ok (c, (its', ns')) /\
      (exact_ = true -> c = cnt (e - s)) /\
      sperm s e its its' /\ (forall k, k < na \/ na + cnt (e - s) <= k -> ns' k = ns k) /\
      botOk ls its' ns' na (cnt (e - s)) sd s (e - s).

  Lemma placeLeaf_ok s e na sd its ns : s < e -> e <= length its -> e - s <= ls ->
    exists ns', placeLeaf s e na (its, ns) = Ok (1, (its, ns')) /\
      (forall k, k < na \/ na + 1 <= k -> ns' k = ns k) /\ botOk ls its ns' na 1 sd s (e - s).
  Proof.
    intros H1 H2 H3. unfold placeLeaf. cbn [fst snd].
    destruct (Nat.leb_spec e s); [lia|]. destruct (Nat.ltb_spec (length its) e); [lia|]. cbn [orb].
    eexists. split; [reflexivity|]. split.
    - intros k Hk. unfold nset. destruct (Nat.eqb_spec k na); [lia|reflexivity].
    - exists (KLeaf s e (e - s) tt), [na]. split; [|split; [|split]].
      + cbn [rep]. unfold nset. rewrite Nat.eqb_refl. auto.
      + repeat constructor. intros [].
      + intros k [<- | []]. lia.
      + cbn [BatchModel.ktOk]. repeat split; lia.
  Qed.

  Lemma coBot_ok f : forall L, L <= f -> L < length sp -> L < length ci ->
    botSpec (fun s e na sd x => coBuild dim ls sp ci msplit f false s e na sd (numLevels ls (e - s)) x) (cntB f) true L.
  Proof.
    induction f as [|f IH]; intros L HLf HLs HLc s e na sd its ns Hse EL H2 H3 H4.
    { pose proof (numLevels_pos ls (e - s)). lia. }
    pose proof (numLevels_pos ls (e - s)) as HL1.
    set (n := e - s) in *. rewrite EL in *. cbn [coBuild cntB]. rewrite EL.
    destruct (Nat.eqb_spec L 0) as [|_]; [lia|]. destruct (Nat.eqb_spec L 1) as [E1 | NE1].
    { destruct (@numLevels_bounds ls n Hls ltac:(lia)) as [N1 _]. rewrite EL, E1 in N1. simpl in N1.
      destruct (@placeLeaf_ok s e na sd its ns) as (ns' & P1 & P2 & P3); auto; [lia|].
      exists 1, its, ns'. split; auto. split; auto. split; [apply sperm_refl|]. split; auto. }
    destruct (@bot_facts n ltac:(lia)) as (T1 & T2 & T3 & T4 & T5); [lia|]. rewrite EL in T1, T2, T3, T4, T5.
    set (b := bottomNumLevels L) in *. set (t := L - b) in *.
    pose proof (pow2_pos t) as Hpt.
    destruct (@coTop_ok f t ltac:(lia) ltac:(lia) ltac:(lia) ltac:(lia) s e na sd its ns) as (c & its1 & ns1 & E1 & C1 & S1 & F1 & K1); auto; [lia|].
    rewrite E1. cbn [bind]. rewrite C1 by auto. clear C1. fold n in K1.
    set (cnt := fun i => cntB f (bsz n t i)).
    set (pos := fun i => na + (2 ^ t - 1) + csum cnt i).
    assert (Hl1 : length its1 = length its) by (destruct S1; auto).
    assert (Hok1 : forall x, In x its1 -> okI x) by (eapply okI_sperm; [|exact H2|exact S1|]; auto; lia).
    set (Q := fun i its ns => botOk ls its ns (pos i) (cnt i) ((sd + t) mod dim) (bst s n t i) (bsz n t i)).
    destruct (@coLoop_ok s n t na (length its) cnt Q ns1 its1 T1) with (sub := fun le re na' x' =>
         coBuild dim ls sp ci msplit f false le re na' ((sd + t) mod dim) (numLevels ls (re - le)) x') (m := 2 ^ t) (i := 0) (done := @nil nat) (its := its1) (ns := ns1)
      as (its2 & ns2 & done & R1 & R2 & R3 & R4); auto; try lia.
    { eapply topOk_some; eauto. }
    { intros i a a' m m' Hi HQ Hn Hl He. unfold Q in *.
      eapply botOk_frame; [exact Hdim|exact HQ| |auto|auto]. exact Hn. }
    { intros i a m Hi Hl Hok. pose proof (@bst_bounds s n t i Hi) as [Bs Be].
      destruct (T5 i Hi) as [Z1 Z2].
      assert (Eb : bst s n t i + bsz n t i - bst s n t i = bsz n t i) by lia.
      destruct (IH (numLevels ls (bsz n t i)) ltac:(lia) ltac:(lia) ltac:(lia) (bst s n t i) (bst s n t i + bsz n t i) (pos i)
                  ((sd + t) mod dim) a m) as (c' & a' & m' & G1 & G2 & G3 & G4 & G5); auto.
      - lia.
      - lia.
      - apply Nat.mod_upper_bound. lia.
      - rewrite Eb in G2, G4, G5. rewrite (G2 eq_refl) in G1.
        exists a', m'. split; [exact G1|]. split; auto. }
    { apply Inv_init; auto. }
    { intros j. simpl. lia. }
    replace (s + csum (bsz n t) 0) with s in R1 by (unfold csum; cbn; lia).
    replace (na + (2 ^ t - 1) + csum cnt 0) with (na + (2 ^ t - 1)) in R1 by (unfold csum; cbn; lia).
    fold n; rewrite R1.
    exists (pos (2 ^ t) - na), its2, ns2. split; [reflexivity|].
    fold cnt. assert (Eend : pos (2 ^ t) = na + (2 ^ t - 1 + csum cnt (2 ^ t))) by (unfold pos; lia).
    split; [intros _; rewrite Eend; lia|].
    split.
    { eapply sperm_trans; [exact S1|]. destruct R2 as (_ & R2 & _). replace (s + n) with e in R2 by lia. exact R2. }
    split.
    { intros k Hk. destruct R2 as (_ & _ & _ & _ & R5 & _). rewrite R5; [apply F1; lia|].
      destruct Hk as [Hk | Hk]; [left; auto|right].
      split; [lia|]. intros j Hj. right. pose proof (csum_step cnt Hj). unfold pos in *. lia. }
    { apply (@compose_bot N dim A pt Hdim ls its2 ns2 na t sd s n pos cnt); auto.
      - intros i Hi. unfold pos. lia.
      - intros i j Hi Hj. unfold pos. pose proof (csum_step cnt Hi). lia.
      - intros i Hi. unfold pos. pose proof (csum_step cnt Hi). lia.
      - lia.
      - eapply inv_linked; [exact Hdim|exact T1|exact K1|exact R2|exact R4].
      - intros i Hi. destruct R2 as (_ & _ & _ & _ & _ & R2). apply R2, R4, Hi. }
  Qed.

  (** *** The parallel build *)
  Variable psplit : nat -> list A -> res (list A * nT N).
  Hypothesis Hps : msplit_ok N dim pt okI psplit.
  Variable par : nat -> bool.
  Hypothesis Hpar : forall n, par n = true -> ls < n.
  Variable ord : nat -> list nat.
  Hypothesis Hord : forall n, Permutation (seq 0 n) (ord n).

  Lemma ord_nodup n : NoDup (ord n).
  Proof. eapply Permutation_NoDup; [apply Hord|apply seq_NoDup]. Qed.
  Lemma ord_in n j : In j (ord n) <-> j < n.
  Proof.
    split; intros H.
    - apply (Permutation_in _ (Permutation_sym (Hord n))) in H. apply in_seq in H. lia.
    - apply (Permutation_in _ (Hord n)). apply in_seq. lia.
  Qed.

  Lemma coTopP_ok f : forall L, 1 <= L -> L <= f -> L < length sp -> L < length ci ->
    topSpec (fun s e na sd L => coBuildP dim ls sp ci msplit psplit par ord f true s e na sd L) false L.
  Proof.
    induction f as [|f IH]; intros L HL1 HLf HLs HLc; [lia|].
    intros s e na sd its ns H1 H2 H3 H4.
    change (coBuildP dim ls sp ci msplit psplit par ord (S f) true s e na sd L (its, ns)) with
      (if negb (par (e - s)) then coBuild dim ls sp ci msplit (S f) true s e na sd L (its, ns)
       else if L =? 0 then UB
       else if true && (L =? 1) then placeSplit psplit s e na sd (its, ns)
       else if L =? 1 then UB
       else
          let b := bottomNumLevels L in
          let t := L - b in
          '(_, x1) <- coBuildP dim ls sp ci msplit psplit par ord f true s e na sd t (its, ns) ;;
          x2 <- coLoopP ci (fun le re na' x' =>
                    coBuildP dim ls sp ci msplit psplit par ord f true le re na' ((sd + t) mod dim) b x')
                  (computeLeftEndpoints sp t (e - s)) (fun i => i * numNodesTop b)
                  s t na (na + numNodesTop t) (ord (2 ^ t)) x1 ;;
          Ok (0, x2)).
    destruct (par (e - s)) eqn:Ep; cbn [negb].
    2:{ destruct (@coTop_ok (S f) L HL1 HLf HLs HLc s e na sd its ns H1 H2 H3 H4)
          as (c & its' & ns' & G1 & G2 & G3). exists c, its', ns'. split; auto. }
    destruct (Nat.eqb_spec L 0) as [|_]; [lia|]. cbn [andb].
    destruct (Nat.eqb_spec L 1) as [-> | HL].
    { exact (@top_base psplit false true Hps s e na sd its ns H1 H2 H3 H4). }
    cbv zeta.
    set (b := bottomNumLevels L). set (t := L - b).
    destruct (@bottomNumLevels_bounds L) as [B1 B2]; [lia|]. fold b in B1, B2.
    assert (T1 : 1 <= t) by (unfold t; lia). assert (EL : L = t + b) by (unfold t; lia).
    assert (EP : 2 ^ L = 2 ^ t * 2 ^ b) by (rewrite EL, Nat.pow_add_r; auto).
    pose proof (pow2_pos t). pose proof (pow2_pos b).
    destruct (IH t ltac:(lia) ltac:(lia) ltac:(lia) ltac:(lia) s e na sd its ns) as (c & its1 & ns1 & E1 & C1 & S1 & F1 & K1); auto; [nia|].
    rewrite E1. cbn [bind]. clear C1.
    set (n := e - s) in *.
    set (cnt := fun _ : nat => 2 ^ b - 1).
    set (pos := fun i => na + (2 ^ t - 1) + csum cnt i).
    assert (Hl1 : length its1 = length its) by (destruct S1; auto).
    assert (Hok1 : forall x, In x its1 -> okI x) by (eapply okI_sperm; [|exact H2|exact S1|]; auto; lia).
    assert (Hbs : forall i, i < 2 ^ t -> 2 ^ b <= bsz n t i).
    { intros i Hi. apply bsz_lower; auto. unfold n. nia. }
    set (Q := fun i its ns => topOk its ns (pos i) b ((sd + t) mod dim) (bst s n t i) (bsz n t i)).
    destruct (@coLoopP_ok s n t na (length its) cnt Q ns1 its1 T1) with (sub := fun le re na' x' =>
         coBuildP dim ls sp ci msplit psplit par ord f true le re na' ((sd + t) mod dim) b x')
         (offs := fun i => i * numNodesTop b) (is_ := ord (2 ^ t)) (done := @nil nat) (its := its1) (ns := ns1)
      as (its2 & ns2 & done & R1 & R2 & R3 & R4); auto; try lia.
    { eapply topOk_some; eauto. }
    { intros i a a' m m' Hi HQ Hn Hl He. unfold Q in *.
      eapply topOk_frame; [exact Hdim|exact B1|exact HQ| |auto|auto]. exact Hn. }
    { intros i a m Hi Hl Hok. pose proof (@bst_bounds s n t i Hi) as [Bs Be].
      destruct (IH b ltac:(lia) ltac:(lia) ltac:(lia) ltac:(lia) (bst s n t i) (bst s n t i + bsz n t i) (pos i)
                  ((sd + t) mod dim) a m) as (c' & a' & m' & G1 & G2 & G3 & G4 & G5); auto.
      - specialize (Hbs i Hi). lia.
      - lia.
      - apply Nat.mod_upper_bound. lia.
      - exists c', a', m'. split; [exact G1|]. split; auto. split; auto.
        unfold Q. replace (bst s n t i + bsz n t i - bst s n t i) with (bsz n t i) in G5 by lia. exact G5. }
    { intros i Hi. unfold cnt. rewrite csum_const. reflexivity. }
    { apply ord_nodup. }
    { intros j Hj. split; [intros []|]. apply ord_in; auto. }
    { apply Inv_init; auto. }
    { intros j []. }
    rewrite R1. cbn [bind].
    exists 0, its2, ns2. split; [reflexivity|].
    assert (Eend : pos (2 ^ t) = na + (2 ^ L - 1)) by (unfold pos, cnt; rewrite csum_const, EP; nia).
    split; [discriminate|].
    assert (R4' : forall j, j < 2 ^ t -> In j done) by (intros j Hj; apply R4; left; apply ord_in; auto).
    split.
    { eapply sperm_trans; [exact S1|]. destruct R2 as (_ & R2 & _). replace (s + n) with e in R2 by lia. exact R2. }
    split.
    { intros k Hk. destruct R2 as (_ & _ & _ & _ & R5 & _).
      assert (2 ^ t <= 2 ^ L) by (apply Nat.pow_le_mono_r; lia).
      rewrite R5; [apply F1; lia|].
      destruct Hk as [Hk | Hk]; [left; auto|right].
      split; [lia|]. intros j Hj. right. pose proof (csum_step cnt Hj). unfold pos in *. lia. }
    { apply (@compose_top N dim A pt Hdim its2 ns2 na L sd s n pos); auto; [lia| | |].
      - intros i. fold b. fold t. unfold pos, cnt. rewrite csum_const. lia.
      - fold b. fold t. eapply inv_linked; [exact Hdim|exact T1|exact K1|exact R2|exact R4'].
      - fold b. fold t. intros i Hi. destruct R2 as (_ & _ & _ & _ & _ & R2). apply R2, R4', Hi. }
  Qed.

  Lemma botOk_wider its (ns : nodes) na c c' sd s n : c <= c' ->
    botOk ls its ns na c sd s n -> botOk ls its ns na c' sd s n.
  Proof.
    intros H (tr & al & H1 & H2 & H3 & H4). exists tr, al. split; auto. split; auto. split; auto.
    intros k Hk. apply H3 in Hk. lia.
  Qed.

  Lemma coBotP_ok f : forall L, L <= f -> L < length sp -> L < length ci ->
    botSpec (fun s e na sd x => coBuildP dim ls sp ci msplit psplit par ord f false s e na sd (numLevels ls (e - s)) x)
            numNodesBottom false L.
  Proof.
    induction f as [|f IH]; intros L HLf HLs HLc s e na sd its ns Hse EL H2 H3 H4.
    { pose proof (numLevels_pos ls (e - s)). lia. }
    pose proof (numLevels_pos ls (e - s)) as HL1.
    set (n := e - s) in *. rewrite EL in *.
    change (coBuildP dim ls sp ci msplit psplit par ord (S f) false s e na sd L (its, ns)) with
      (if negb (par (e - s)) then coBuild dim ls sp ci msplit (S f) false s e na sd L (its, ns)
       else if L =? 0 then UB
       else if false && (L =? 1) then placeSplit psplit s e na sd (its, ns)
       else if L =? 1 then UB
       else
          let b := bottomNumLevels L in
          let t := L - b in
          '(_, x1) <- coBuildP dim ls sp ci msplit psplit par ord f true s e na sd t (its, ns) ;;
          x2 <- coLoopP ci (fun le re na' x' =>
                    coBuildP dim ls sp ci msplit psplit par ord f false le re na' ((sd + t) mod dim) (numLevels ls (re - le)) x')
                  (computeLeftEndpoints sp t (e - s)) (fun i => nth i (computeBottomChildSizes sp t (e - s)) 0)
                  s t na (na + numNodesTop t) (ord (2 ^ t)) x1 ;;
          Ok (0, x2)).
    fold n. destruct (par n) eqn:Ep; cbn [negb].
    2:{ destruct (@coBot_ok (S f) L HLf HLs HLc s e na sd its ns Hse EL H2 H3 H4)
          as (c & its' & ns' & G1 & G2 & G3 & G4 & G5). cbv beta in G1. fold n in G1, G2, G4, G5. rewrite EL in G1.
        pose proof (@cntB_bound (S f) n ltac:(lia)) as CB.
        exists c, its', ns'. split; [exact G1|]. split; [discriminate|]. split; [exact G3|]. split.
        - intros k Hk. apply G4. unfold numNodesBottom in Hk. lia.
        - eapply botOk_wider; [|exact G5]. unfold numNodesBottom. lia. }
    destruct (Nat.eqb_spec L 0) as [|_]; [lia|]. cbn [andb].
    destruct (Nat.eqb_spec L 1) as [E1 | NE1].
    { exfalso. destruct (@numLevels_bounds ls n Hls ltac:(lia)) as [N1 _]. rewrite EL, E1 in N1. simpl in N1.
      apply Hpar in Ep. lia. }
    cbv zeta.
    destruct (@bot_facts n ltac:(lia)) as (T1 & T2 & T3 & T4 & T5); [lia|]. rewrite EL in T1, T2, T3, T4, T5.
    set (b := bottomNumLevels L) in *. set (t := L - b) in *.
    pose proof (pow2_pos t) as Hpt.
    destruct (@coTopP_ok f t ltac:(lia) ltac:(lia) ltac:(lia) ltac:(lia) s e na sd its ns) as (c & its1 & ns1 & E1 & C1 & S1 & F1 & K1); auto; [lia|].
    rewrite E1. cbn [bind]. clear C1. fold n in K1.
    set (cnt := fun i => numNodesBottom (bsz n t i)).
    set (pos := fun i => na + (2 ^ t - 1) + csum cnt i).
    assert (Hl1 : length its1 = length its) by (destruct S1; auto).
    assert (Hok1 : forall x, In x its1 -> okI x) by (eapply okI_sperm; [|exact H2|exact S1|]; auto; lia).
    set (Q := fun i its ns => botOk ls its ns (pos i) (cnt i) ((sd + t) mod dim) (bst s n t i) (bsz n t i)).
    destruct (@coLoopP_ok s n t na (length its) cnt Q ns1 its1 T1) with (sub := fun le re na' x' =>
         coBuildP dim ls sp ci msplit psplit par ord f false le re na' ((sd + t) mod dim) (numLevels ls (re - le)) x')
         (offs := fun i => nth i (computeBottomChildSizes sp t n) 0) (is_ := ord (2 ^ t)) (done := @nil nat) (its := its1) (ns := ns1)
      as (its2 & ns2 & done & R1 & R2 & R3 & R4); auto; try lia.
    { eapply topOk_some; eauto. }
    { intros i a a' m m' Hi HQ Hn Hl He. unfold Q in *.
      eapply botOk_frame; [exact Hdim|exact HQ| |auto|auto]. exact Hn. }
    { intros i a m Hi Hl Hok. pose proof (@bst_bounds s n t i Hi) as [Bs Be].
      destruct (T5 i Hi) as [Z1 Z2].
      assert (Eb : bst s n t i + bsz n t i - bst s n t i = bsz n t i) by lia.
      destruct (IH (numLevels ls (bsz n t i)) ltac:(lia) ltac:(lia) ltac:(lia) (bst s n t i) (bst s n t i + bsz n t i) (pos i)
                  ((sd + t) mod dim) a m) as (c' & a' & m' & G1 & G2 & G3 & G4 & G5); auto.
      - lia.
      - lia.
      - apply Nat.mod_upper_bound. lia.
      - rewrite Eb in G4, G5.
        exists c', a', m'. split; [exact G1|]. split; auto. }
    { intros i Hi. rewrite bottomChildSizes_spec by (auto; lia).
      rewrite halves_map, firstn_map, map_map, firstn_seq0 by lia. reflexivity. }
    { apply ord_nodup. }
    { intros j Hj. split; [intros []|]. apply ord_in; auto. }
    { apply Inv_init; auto. }
    { intros j []. }
    rewrite R1. cbn [bind].
    exists 0, its2, ns2. split; [reflexivity|]. split; [discriminate|].
    assert (R4' : forall j, j < 2 ^ t -> In j done) by (intros j Hj; apply R4; left; apply ord_in; auto).
    pose proof (@csum_nodes n t (2 ^ t) (fun j Hj => proj1 (T5 j Hj))) as G2. rewrite bsz_csum in G2.
    assert (Eend : pos (2 ^ t) = na + numNodesBottom n).
    { unfold pos, cnt, numNodesBottom. lia. }
    split.
    { eapply sperm_trans; [exact S1|]. destruct R2 as (_ & R2 & _). replace (s + n) with e in R2 by lia. exact R2. }
    assert (Hlast : forall j, j < 2 ^ t -> pos j + cnt j <= na + numNodesBottom n).
    { intros j Hj. rewrite <- Eend. unfold pos. pose proof (csum_step cnt Hj). lia. }
    split.
    { intros k Hk. destruct R2 as (_ & _ & _ & _ & R5 & _).
      assert (2 ^ t - 1 <= numNodesBottom n) by (unfold numNodesBottom; lia).
      rewrite R5; [apply F1; lia|].
      destruct Hk as [Hk | Hk]; [left; auto|right].
      split; [lia|]. intros j Hj. right. specialize (Hlast j Hj). unfold pos, cnt in *. cbv beta in *. lia. }
    { apply (@compose_bot N dim A pt Hdim ls its2 ns2 na t sd s n pos cnt); auto.
      - intros i Hi. unfold pos. lia.
      - intros i j Hi Hj. unfold pos. pose proof (csum_step cnt Hi). lia.
      - unfold numNodesBottom. lia.
      - eapply inv_linked; [exact Hdim|exact T1|exact K1|exact R2|exact R4'].
      - intros i Hi. destruct R2 as (_ & _ & _ & _ & _ & R2). apply R2, R4', Hi. }
  Qed.
End Build.
