(** The builders meet the contract used by the tree objects; the comparison
    laws hold for reals and for finite doubles. *)
From Coq Require Import Reals Lra ZArith Floats.
From Flocq Require Import Core IEEE754.BinarySingleNaN IEEE754.PrimFloat.
From Flocq Require Plus_error.
From Verif Require Import Base Num FloatNum FloatLaws FloatMono KdModel KdSpec BatchSplit BatchAddr BatchModel BatchSlice
  BatchCo BatchBuild BatchBhl BatchMedian BatchTree BatchPack BatchErase BatchObj.
Set Implicit Arguments.

(** *** Reading the node array *)
Section Read.
  Variable N : Num.
  Variable dim : nat.
  Variable A : Type.
  Variable pt : A -> list (nT N).

  Fixpoint depth {B} (t : kt (nT N) B) : nat :=
    match t with KLeaf _ _ _ _ => 1 | KNode _ _ _ _ _ l r => S (Nat.max (depth l) (depth r)) end.

  Lemma readTree_ok ns : forall t r al f, rep (N := N) ns r t al -> depth t <= f -> readTree f ns r = Ok t.
  Proof.
    induction t as [s e np [] | d sv s e [] l IHl r IHr]; intros k al f H Hf; cbn [depth rep] in *;
      (destruct f as [|f]; [lia|]); cbn [readTree].
    - destruct H as (-> & -> & ->). reflexivity.
    - destruct H as (pl & pr & al1 & al2 & -> & -> & H1 & H2). cbn [cn_k cn_l cn_r cn_s cn_e].
      rewrite (IHl _ _ f H1), (IHr _ _ f H2) by lia. reflexivity.
  Qed.

  Lemma depth_le B ls its : 1 <= ls -> forall (t : kt (nT N) B) s n sd, ktOk N dim pt ls its s n sd t -> depth t <= n.
  Proof.
    intros Hls. induction t as [s' e' np b | d sv s' e' b l IHl r IHr]; intros s n sd H; cbn [ktOk depth] in *; [lia|].
    destruct H as (_ & _ & _ & Hn & _ & Hl & Hr). apply IHl in Hl. apply IHr in Hr.
    assert (n / 2 < n) by (apply Nat.div_lt; lia).
    assert (1 <= n / 2) by (apply Nat.div_le_lower_bound; lia). lia.
  Qed.

  Variable ok : nT N -> Prop.
  Hypothesis OL : OrdLaws N ok.
  Notation okI := (okItem N ok dim pt).
  Hypothesis Hdim : 0 < dim.
  Variable ls : nat.
  Hypothesis Hls : 1 <= ls.

  Lemma finish_ok its ns t al : rep ns 0 t al -> its <> [] -> (forall x, In x its -> okI x) ->
    ktOk N dim pt ls its 0 (length its) 0 t ->
    exists t', finish dim pt (its, ns) = Ok (its, t') /\ withBox N dim pt its t = Ok t'.
  Proof.
    intros Hr Hne Hok Hk. unfold finish. cbn [fst snd].
    pose proof (@depth_le _ ls its Hls t _ _ _ Hk). rewrite (@readTree_ok ns t 0 al (2 * length its) Hr) by lia. cbn [bind].
    destruct (@built_inv N ok OL dim A pt ls its [] (repeat true (length its)) Hdim)
      with (t0 := t) (s := 0) (n := length its) (sd := 0) as (t' & E & _); auto.
    - rewrite app_nil_r. auto.
    - rewrite repeat_length. auto.
    - intros i Hi. apply nth_error_repeat. auto.
    - rewrite E. cbn [bind]. eauto.
  Qed.

  Variable msplit psplit : nat -> list A -> res (list A * nT N).
  Hypothesis Hms : msplit_ok N dim pt okI msplit.
  Hypothesis Hps : msplit_ok N dim pt okI psplit.
  Variable par : nat -> bool.
  Hypothesis Hpar : forall n, par n = true -> ls < n.
  Variable ord : nat -> list nat.
  Hypothesis Hord : forall n, Permutation (seq 0 n) (ord n).

  (** The cache-oblivious build, node array included. *)
  Theorem coNodes_ok points : points <> [] -> numLevels ls (length points) <= maxLevels ->
    (forall x, In x points -> okI x) ->
    let n := length points in
    let L := numLevels ls n in
    exists c its' ns' t al,
      coBuildP dim ls split_points child_indices msplit psplit par ord (S L) false 0 n 0 0 L
        (points, fun _ => None) = Ok (c, (its', ns')) /\
      Permutation points its' /\ rep ns' 0 t al /\ NoDup al /\ (forall k, In k al -> k < 2 * n - 1) /\
      (forall k, 2 * n - 1 <= k -> ns' k = None) /\ ktOk N dim pt ls its' 0 n 0 t.
  Proof.
    intros Hne HL Hok n L.
    destruct split_points_good as [Gsp Lsp]. destruct child_indices_good as [Gci Lci].
    assert (Hn : 0 < n) by (unfold n; destruct points; [congruence|cbn; lia]).
    fold n L in HL.
    destruct (@coBotP_ok N dim A pt okI Hdim ls Hls split_points child_indices Gsp Gci msplit Hms psplit Hps par Hpar ord Hord
      (S L) L ltac:(lia) ltac:(lia) ltac:(lia) 0 n 0 0 points (fun _ => None)) as (c & its' & ns' & E & _ & (S1 & S2 & S3) & F & B);
      auto.
    { unfold L. f_equal. lia. }
    rewrite Nat.sub_0_r in E, F, B. fold L in E. rewrite Nat.add_0_l in F. 
    destruct B as (t & al & R & ND & Al & K). rewrite Nat.add_0_l in Al.
    exists c, its', ns', t, al. split; auto. split.
    { unfold n in S3. rewrite slice_full in S3. rewrite <- S1 in S3. rewrite slice_full in S3. auto. }
    split; auto. split; auto. assert (EN : numNodesBottom n = 2 * n - 1) by reflexivity.
    split; [intros k Hk; apply Al in Hk; lia|]. split; auto.
  Qed.

  Theorem coBuilder_ok max : numLevels ls max <= maxLevels ->
    bldOk ok dim pt (coBuilder N dim pt ls split_points child_indices msplit psplit par ord) max.
  Proof.
    intros HM points Hne Hmax Hok.
    assert (Hn : 1 <= length points) by (destruct points; [congruence|cbn; lia]).
    assert (HL : numLevels ls (length points) <= maxLevels).
    { eapply Nat.le_trans; [|exact HM]. apply numLevels_le; auto; [apply numLevels_pos|].
      destruct (@numLevels_bounds ls max Hls) as [G _]; lia. }
    destruct (coNodes_ok Hne HL Hok) as (c & its' & ns' & t & al & E & P & R & _ & _ & _ & K).
    pose proof (Permutation_length P) as PL.
    destruct (@finish_ok its' ns' t al R) as (t' & F & W).
    - intros ->. cbn in PL. lia.
    - intros x Hx. apply Hok. eapply Permutation_in; [apply Permutation_sym|]; eauto.
    - rewrite <- PL. auto.
    - exists ls, its', t, t'. unfold coBuilder. rewrite E. cbn [bind]. rewrite F. auto.
  Qed.

  (** The heap-layout build. *)
  Theorem bhlNodes_ok points j : points <> [] -> length points <= 2 ^ j ->
    (forall x, In x points -> okI x) ->
    let n := length points in
    exists its' ns' t al,
      bhlBuild dim ls msplit (S n) 0 n 0 0 (points, fun _ => None) = Ok (its', ns') /\
      Permutation points its' /\ rep ns' 0 t al /\ NoDup al /\ (forall k, In k al -> k < 2 * 2 ^ j - 1) /\
      (forall k, 2 * 2 ^ j - 1 <= k -> ns' k = None) /\ ktOk N dim pt ls its' 0 n 0 t.
  Proof.
    intros Hne Hj Hok n.
    assert (Hn : 0 < n) by (unfold n; destruct points; [congruence|cbn; lia]).
    assert (J : exists i, i <= j /\ i <= n /\ n <= 2 ^ i).
    { destruct (Nat.le_gt_cases j n) as [H | H]; [exists j; split; auto|].
      exists n. split; [lia|]. split; auto. pose proof (Nat.pow_gt_lin_r 2 n). lia. }
    destruct J as (i & Hij & Hin & Hni).
    destruct (@bhl_ok N dim A pt okI Hdim ls Hls msplit Hms i (S n) 0 n 0 0 points (fun _ => None))
      as (its' & ns' & E & (S1 & S2 & S3) & F & (t & al & R & ND & Al & K)); auto; try lia.
    rewrite Nat.sub_0_r in K.
    assert (2 ^ i <= 2 ^ j) by (apply Nat.pow_le_mono_r; lia).
    exists its', ns', t, al. split; auto. split.
    { unfold n in S3. rewrite slice_full in S3. rewrite <- S1 in S3. rewrite slice_full in S3. auto. }
    split; auto. split; auto. split.
    { intros k Hk. apply Al, desc_root in Hk. lia. }
    split; auto. intros k Hk. apply F. intros D. apply desc_root in D. lia.
  Qed.

  Theorem bhlBuilder_ok max : bldOk ok dim pt (bhlBuilder N dim pt ls msplit) max.
  Proof.
    intros points Hne _ Hok.
    assert (Hj : length points <= 2 ^ length points) by (pose proof (Nat.pow_gt_lin_r 2 (length points)); lia).
    destruct (@bhlNodes_ok points (length points) Hne Hj Hok) as (its' & ns' & t & al & E & P & R & _ & _ & _ & K).
    pose proof (Permutation_length P) as PL.
    destruct (@finish_ok its' ns' t al R) as (t' & F & W).
    - intros ->. apply Hne. apply Permutation_nil, Permutation_sym. auto.
    - intros x Hx. apply Hok. eapply Permutation_in; [apply Permutation_sym|]; eauto.
    - rewrite <- PL. auto.
    - exists ls, its', t, t'. unfold bhlBuilder. rewrite E. cbn [bind]. rewrite F. auto.
  Qed.
End Read.

Lemma part_instance A : part_ok (@partition A).
Proof.
  intros f Q. induction Q as [|q Q IH]; [cbn; intuition|].
  cbn [partition]. destruct (partition f Q) as [l r]. destruct IH as (P & H1 & H2). destruct (f q) eqn:E.
  - split; [apply perm_skip; auto|]. split; auto. intros x [<- | Hx]; auto.
  - split; [apply Permutation_cons_app; auto|]. split; auto. intros x [<- | Hx]; auto.
Qed.

(** *** Comparison laws *)
Local Open Scope R_scope.
Lemma R_neqC (a b : R) : neqC RNum a b = false <-> a = b.
Proof.
  unfold neqC. cbn [nT nsub nlt nzero RNum]. unfold Rltb.
  destruct (Rlt_dec 0 (a - b)), (Rlt_dec (a - b) 0); cbn; split; intros; try discriminate; try lra; auto.
Qed.
Lemma R_eqlaw : EqLaw RNum (fun _ => True).
Proof.
  constructor; intros.
  - apply R_neqC. auto.
  - destruct (neqC RNum a b) eqn:E1, (neqC RNum b a) eqn:E2; auto.
    + apply R_neqC in E2. subst. rewrite (proj2 (R_neqC a a)) in E1; auto.
    + apply R_neqC in E1. subst. rewrite (proj2 (R_neqC b b)) in E2; auto.
  - rewrite R_neqC in *. congruence.
  - apply R_neqC in H1. subst. auto.
Qed.

Lemma ev_fmt x : ffin x -> generic_format radix2 (SpecFloat.fexp prec emax) (ev x).
Proof.
  intros H. apply fin_B in H. unfold ev. rewrite (proj1 (bv_fin _ H)). apply generic_format_B2R.
Qed.
Lemma rnd_sub_0 x y : ffin x -> ffin y -> rnd (ev x - ev y) = 0 -> ev x = ev y.
Proof.
  intros Hx Hy H. destruct (Req_dec (ev x) (ev y)) as [|Hn]; auto. exfalso.
  assert (G : rne (ev x + - ev y) <> 0).
  { apply Plus_error.round_plus_neq_0; auto with typeclass_instances.
    - apply monotone_exp_not_FTZ; [exact fexpV|apply FLT_exp_monotone].
    - apply ev_fmt; auto.
    - apply generic_format_opp, ev_fmt; auto.
    - lra. }
  unfold rnd in H. pose proof big_pos. unfold Rminus in H.
  destruct (Rlt_bool (Rabs (rne (ev x + - ev y))) big); [contradiction|].
  destruct (Rlt_bool (rne (ev x + - ev y)) 0); lra.
Qed.
Lemma ev_0 : ev 0%float = 0.
Proof. reflexivity. Qed.
Lemma F_neqC (a b : PrimFloat.float) : ffin a -> ffin b -> (neqC FNum a b = false <-> ev a = ev b).
Proof.
  intros Ha Hb. unfold neqC. cbn [nsub nlt nzero FNum]. destruct (ev_sub Ha Hb) as [K E].
  assert (K0 : fok 0%float) by reflexivity.
  pose proof (flt_ev K0 K) as L1. pose proof (flt_ev K K0) as L2. rewrite ev_0, E in L1, L2.
  destruct (PrimFloat.ltb 0 (a - b)), (PrimFloat.ltb (a - b) 0); cbn; split; intros H; try discriminate;
    try (rewrite H, Rminus_diag_eq, rnd_0 in L1, L2; auto; exfalso;
         first [apply (Rlt_irrefl 0), L1; reflexivity | apply (Rlt_irrefl 0), L2; reflexivity]); auto.
  apply rnd_sub_0; auto. destruct (Rtotal_order (rnd (ev a - ev b)) 0) as [G | [G | G]]; auto.
  - apply L2 in G. discriminate.
  - apply L1 in G. discriminate.
Qed.
Lemma fbool_iff (b1 b2 : bool) : (b1 = true <-> b2 = true) -> b1 = b2.
Proof. destruct b1, b2; intuition. Qed.
Lemma flt_nan a c : PrimFloat.is_nan c = true -> PrimFloat.ltb a c = false.
Proof.
  rewrite is_nan_equiv, ltb_equiv. intros H. destruct (Prim2B c); try discriminate.
  unfold Bltb, SpecFloat.SFltb. destruct (Prim2B a) as [|[|]| |[|]]; reflexivity.
Qed.
Lemma F_eqlaw : EqLaw FNum ffin.
Proof.
  constructor.
  - intros a Ha. apply F_neqC; auto.
  - intros a b Ha Hb. apply fbool_iff.
    destruct (neqC FNum a b) eqn:E1, (neqC FNum b a) eqn:E2; try tauto.
    + apply F_neqC in E2; auto. rewrite (proj2 (F_neqC Ha Hb)) in E1; auto. discriminate.
    + apply F_neqC in E1; auto. rewrite (proj2 (F_neqC Hb Ha)) in E2; auto. discriminate.
  - intros a b c Ha Hb Hc. rewrite !F_neqC by auto. congruence.
  - intros a b Ha Hb. rewrite F_neqC by auto. intros E c. cbn [nlt FNum].
    pose proof (ffin_fok Ha) as Ka. pose proof (ffin_fok Hb) as Kb.
    destruct (PrimFloat.is_nan c) eqn:Ec.
    + rewrite !flt_nan; auto.
    + apply fbool_iff. rewrite !flt_ev, E by auto. tauto.
Qed.
