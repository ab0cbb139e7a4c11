(** The edges of spanner.cpp form a t-spanner. *)
From Coq Require Import Reals Lra Permutation.
From Verif Require Import Base Num FloatNum KdModel KdSpec KdBuild KdConstruct RGeom RangeModel RangeProofs KdExtra
  BccpModel DistLaws BccpProofs BccpFinal ParBufModel SplitModel SplitProofs WspdModel WspdProofs WspdFinal KnnModel GraphModel.
Set Implicit Arguments.
Local Open Scope R_scope.

(** A walk along undirected edges and its length. *)
Inductive walk (E : list (nat * nat)) (d : nat -> nat -> R) : nat -> nat -> R -> Prop :=
| walk_nil a : walk E d a a 0
| walk_cons a b c w : In (a, b) E \/ In (b, a) E -> walk E d b c w -> walk E d a c (d a b + w).

Lemma walk_app E d a b c w1 w2 : walk E d a b w1 -> walk E d b c w2 -> walk E d a c (w1 + w2).
Proof.
  induction 1 as [a|a b b' w HE H IH]; intros H2.
  - rewrite Rplus_0_l. auto.
  - rewrite Rplus_assoc. constructor; auto.
Qed.
Lemma walk_incl E E' d a b w : incl E E' -> walk E d a b w -> walk E' d a b w.
Proof.
  intros HI. induction 1 as [a|a b b' w HE H IH]; constructor; auto.
  destruct HE; auto.
Qed.
Lemma walk_sym E d a b w : (forall x y, d x y = d y x) -> walk E d a b w -> walk E d b a w.
Proof.
  intros HS. induction 1 as [a|a b c w HE H IH]; [constructor|].
  rewrite Rplus_comm. apply (walk_app IH). rewrite HS, <- (Rplus_0_r (d b a)). constructor; [tauto|constructor].
Qed.

Lemma mkEdge_either a b : mkEdge a b = (a, b) \/ mkEdge a b = (b, a).
Proof. unfold mkEdge. destruct (b <? a)%nat; auto. Qed.
Lemma mkEdge_sym a b : a <> b -> mkEdge a b = mkEdge b a.
Proof. intros. unfold mkEdge. destruct (Nat.ltb_spec b a), (Nat.ltb_spec a b); auto; lia. Qed.

Section Stretch.
  Variable N : Num.
  Variable dim : nat.
  Variable ws : tree N nat -> tree N nat -> bool.
  Variable d : nat -> nat -> R.
  Hypothesis d_sym : forall x y, d x y = d y x.
  Hypothesis d_nonneg : forall x y, 0 <= d x y.
  Hypothesis d_tri : forall x y z, d x z <= d x y + d y z.
  Variable tau : R.
  Hypothesis Htau : 1 < tau.
  (** the items of a node are close together compared to the distance of the
      two nodes *)
  Definition separated (u v : tree N nat) : Prop :=
    forall p q, In p (items u) -> In q (items v) ->
      (forall p', In p' (items u) -> 2 * (tau + 1) * d p p' <= (tau - 1) * d p q) /\
      (forall q', In q' (items v) -> 2 * (tau + 1) * d q q' <= (tau - 1) * d p q).

  Lemma separated_swap u v : separated u v -> separated v u.
  Proof.
    intros H p q Hp Hq. destruct (H q p Hq Hp) as [H1 H2]. rewrite (d_sym p q). split; auto.
  Qed.

  Lemma detour dpa dqb dab dpq w1 w2 : w1 <= tau * dpa -> w2 <= tau * dqb ->
    dab <= dpa + dpq + dqb ->
    2 * (tau + 1) * dpa <= (tau - 1) * dpq -> 2 * (tau + 1) * dqb <= (tau - 1) * dpq ->
    w1 + (dab + w2) <= tau * dpq.
  Proof. intros. nra. Qed.

  Lemma stretch t : forall out, computeWspdSerial N dim nat ws t = Ok out -> NoDup (items t) -> shape 1 t ->
    (forall u v, In (u, v) out -> separated u v) ->
    forall E, (forall u v a b lu lv, In (u, v) out -> items u = a :: lu -> items v = b :: lv -> In (mkEdge a b) E) ->
    forall p q, In p (items t) -> In q (items t) -> exists w, walk E d p q w /\ w <= tau * d p q.
  Proof.
    induction t as [its b|b l IHl r IHr]; intros out Eo HN HS Hsep E HE p q Hp Hq.
    - cbn [shape items] in *. destruct its as [|z [|]]; simpl in HS; try lia.
      destruct Hp as [<-|[]], Hq as [<-|[]]. exists 0. split; [constructor|]. pose proof (d_nonneg z z). nra.
    - cbn [computeWspdSerial] in Eo.
      apply bind_ok in Eo as (o1 & E1 & Eo). apply bind_ok in Eo as (o2 & E2 & Eo). apply bind_ok in Eo as (o3 & E3 & Eo).
      inversion Eo; subst out; clear Eo.
      cbn [shape items] in *. destruct HS as (_ & Sl & Sr). pose proof HN as HN0.
      apply NoDup_app_elim in HN as (Nl & Nr & Nd).
      assert (Hl : forall p q, In p (items l) -> In q (items l) -> exists w, walk E d p q w /\ w <= tau * d p q).
      { apply (IHl o1 E1 Nl Sl).
        - intros u v Huv. apply Hsep. apply in_or_app; auto.
        - intros u v a b' lu lv Huv. apply HE. apply in_or_app; auto. }
      assert (Hr : forall p q, In p (items r) -> In q (items r) -> exists w, walk E d p q w /\ w <= tau * d p q).
      { apply (IHr o2 E2 Nr Sr).
        - intros u v Huv. apply Hsep. apply in_or_app; right; apply in_or_app; auto.
        - intros u v a b' lu lv Huv. apply HE. apply in_or_app; right; apply in_or_app; auto. }
      clear IHl IHr.
      unfold findPair in E3. destruct (fps_spec _ _ _ _ _ E3) as (PS & _ & _).
      assert (Hx : forall p q, In p (items l) -> In q (items r) -> exists w, walk E d p q w /\ w <= tau * d p q).
      { clear p q Hp Hq. intros p q Hp Hq.
        assert (HI : In (p, q) (flat_map (@sym N nat) o3)).
        { eapply Permutation_in; [symmetry; exact PS|]. apply (in_sym ws). cbn [fst snd]. auto. }
        apply in_flat_map in HI as ([u v] & Huv & HI).
        assert (G : forall x y, In (x, y) (sym (u, v)) -> (In x (items l) /\ In y (items r)) \/ (In x (items r) /\ In y (items l))).
        { intros x y Hxy. apply (in_sym ws x y (l, r)). eapply Permutation_in; [exact PS|].
          apply in_flat_map. eauto. }
        assert (K : forall u v, separated u v ->
                  (forall a b lu lv, items u = a :: lu -> items v = b :: lv -> In (a, b) E \/ In (b, a) E) ->
                  (forall x y, In x (items u) -> In y (items v) -> (In x (items l) /\ In y (items r)) \/ (In x (items r) /\ In y (items l))) ->
                  In p (items u) -> In q (items v) -> exists w, walk E d p q w /\ w <= tau * d p q).
        { clear u v Huv HI G. intros u v Sp HEe G Pu Qv.
          destruct (items u) as [|a lu] eqn:Eu; [destruct Pu|]. destruct (items v) as [|c lv] eqn:Ev; [destruct Qv|].
          assert (La : In a (items l)).
          { destruct (G a q ltac:(left; auto) Qv) as [[H _]|[_ H]]; auto. exfalso; exact (Nd q H Hq). }
          assert (Rc : In c (items r)).
          { destruct (G p c Pu ltac:(left; auto)) as [[_ H]|[H _]]; auto. exfalso; exact (Nd p Hp H). }
          destruct (Hl p a Hp La) as (w1 & W1 & B1). destruct (Hr c q Rc Hq) as (w2 & W2 & B2).
          destruct (Sp p q) as (S1 & S2); [rewrite Eu; auto|rewrite Ev; auto|].
          rewrite Eu in S1. rewrite Ev in S2.
          specialize (S1 a ltac:(simpl; auto)). specialize (S2 c ltac:(simpl; auto)).
          exists (w1 + (d a c + w2)). split.
          - apply (walk_app W1). constructor; [|exact W2]. eapply HEe; eauto.
          - apply detour with (dpa := d p a) (dqb := d q c); auto.
            + rewrite (d_sym q c). auto.
            + pose proof (d_tri a p c). pose proof (d_tri p q c). rewrite (d_sym a p) in *. lra. }
        assert (Ed : forall a b lu lv, items u = a :: lu -> items v = b :: lv -> In (a, b) E \/ In (b, a) E).
        { intros a c lu lv Eu Ev. pose proof (HE u v a c lu lv ltac:(rewrite !in_app_iff; auto) Eu Ev) as H.
          destruct (mkEdge_either a c) as [M|M]; rewrite M in H; auto. }
        assert (Sp : separated u v) by (apply Hsep; rewrite !in_app_iff; auto).
        apply (in_sym ws) in HI. cbn [fst snd] in HI. destruct HI as [[Pu Qv]|[Pv Qu]].
        - apply (K u v Sp Ed); auto. intros x y Hxu Hyv. apply G. apply (in_sym ws). cbn [fst snd]. auto.
        - apply (K v u (separated_swap Sp)); auto.
          + intros a c lu lv Ea Ec. destruct (Ed _ _ _ _ Ec Ea); auto.
          + intros x y Hxu Hyv. apply G. apply (in_sym ws). cbn [fst snd]. auto. }
      apply in_app_or in Hp as [Hp|Hp]; apply in_app_or in Hq as [Hq|Hq]; auto.
      destruct (Hx q p Hq Hp) as (w & W & B). exists w. split; [apply walk_sym; auto|]. rewrite d_sym; auto.
  Qed.
End Stretch.

(** The separation constant of spanner.cpp. *)
Lemma spanSep_eq tau : spanSep RNum tau = 4 * (tau + 1) / (tau - 1).
Proof.
  unfold spanSep. cbn [ndiv nmul nadd nsub ntwo RNum].
  replace (2 / 2) with 1 by lra. replace (2 * 2) with 4 by lra. reflexivity.
Qed.

Section Spanner.
  Variable dim : nat.
  Hypothesis Hdim : (1 <= dim)%nat.
  Variable pts : list (list R).
  Notation n := (length pts).
  Notation vertex := (vertex RNum pts).
  Definition vdist (p q : nat) : R := edist dim (nth p pts []) (nth q pts []).

  Lemma vdist_sym x y : vdist x y = vdist y x.
  Proof. unfold vdist. rewrite <- !dist_edist. apply dist_sym. Qed.
  Lemma vdist_nonneg x y : 0 <= vdist x y.
  Proof. unfold vdist. rewrite <- dist_edist. unfold dist. cbn [nsqrt RNum]. apply sqrt_pos. Qed.
  Lemma vdist_tri x y z : vdist x z <= vdist x y + vdist y z.
  Proof. unfold vdist. rewrite <- !dist_edist. apply dist_triangle. Qed.

  Lemma pairEdges_ok (out : list (tree RNum nat * tree RNum nat)) order :
    (forall p, In p out -> items (fst p) <> [] /\ items (snd p) <> []) ->
    (forall w, Permutation (order w) w) ->
    exists E, pairEdges order (map Some out) = Ok (map Some E) /\
      E = map (fun p => mkEdge (hd 0%nat (items (fst p))) (hd 0%nat (items (snd p)))) out.
  Proof.
    intros HN HO. eexists. split; [|reflexivity]. unfold pairEdges.
    assert (EM : mapM (@pairEdge RNum) (map Some out) =
                 Ok (map (fun p => mkEdge (hd 0%nat (items (fst p))) (hd 0%nat (items (snd p)))) out)).
    { clear HO order. induction out as [|[u v] out IH]; simpl; auto.
      destruct (HN (u, v) ltac:(simpl; auto)) as [H1 H2]. cbn [fst snd] in *.
      destruct (items u) eqn:Eu; [congruence|]. destruct (items v) eqn:Ev; [congruence|]. cbn [bind hd].
      rewrite IH by (intros; apply HN; simpl; auto). reflexivity. }
    rewrite EM. cbn [bind]. rewrite map_length.
    set (E := map _ out).
    replace (length out) with (length E) by (unfold E; apply map_length).
    apply runWrites_target. apply HO.
  Qed.

  Variables (workers threshold cutoff : nat).
  Hypothesis Hw : (0 < workers)%nat.

  Lemma spanner_correct tau r : 1 < tau -> (2 <= n)%nat -> (workers <= n)%nat ->
    spanner RNum dim pts workers threshold cutoff tau r ->
    exists E, r = Ok (map Some E) /\
      (forall p q, (p < n)%nat -> (q < n)%nat -> exists w, walk E vdist p q w /\ w <= tau * vdist p q) /\
      (forall p q, In (p, q) E -> (p < q < n)%nat) /\ NoDup E.
  Proof.
    intros Ht Hn Hwn H. destruct H as [Hlt|tr calls logs o1 o2 _ Eb HP HL HC HO1 HO2]; cbn [nT RNum] in *; [lia|].
    assert (HPn : seq 0 n <> []) by (intros Z; apply (f_equal (@length nat)) in Z; rewrite seq_length in Z; cbn [length] in Z; lia).
    destruct (@build_boxes _ _ R_ordlaws R_span dim nat vertex true workers threshold 1%nat (seq 0 n) tr
      Hdim ltac:(lia) Hw HPn (@okptsR nat vertex dim (seq 0 n)) Eb) as (H1 & H2 & H3 & _ & _ & _).
    assert (Hsz : size tr = n) by (unfold size; rewrite (Permutation_length H1), seq_length; auto).
    destruct (@wspd_parallel _ _ _ _ _ _ _ workers logs o1 HP ltac:(lia) HL HC HO1) as (out & Eo & out' & Ec & PO).
    rewrite Ec. cbn [bind].
    assert (HN' : NoDup (items tr)) by (eapply Permutation_NoDup; [symmetry; exact H1|apply seq_NoDup]).
    destruct (wspd_cross _ _ _ Eo) as (_ & W & Sb).
    assert (NE : forall x, In x (subtrees tr) -> items x <> []).
    { intros x Hx. assert (Hs : shape 1 x) by (eapply shape_subtrees; eauto).
      clear - Hs. induction x as [its b|b l IHl r IHr]; cbn [shape items] in *.
      - destruct its; simpl in *; [lia|discriminate].
      - destruct Hs as (Hs & _). destruct (items l); simpl in *; [|discriminate]. destruct (items r); [simpl in *; lia|discriminate]. }
    assert (Io : forall p, In p out' <-> In p out) by (intros p; split; apply Permutation_in; auto using Permutation_sym).
    destruct (@pairEdges_ok out' o2) as (E & EE & ->); [|exact HO2|].
    { intros p Hp. apply Io in Hp. destruct (Sb p Hp). split; apply NE; auto. }
    eexists. split; [exact EE|].
    assert (HE : forall u v a b lu lv, In (u, v) out -> items u = a :: lu -> items v = b :: lv ->
       In (mkEdge a b) (map (fun p => mkEdge (hd 0%nat (items (fst p))) (hd 0%nat (items (snd p)))) out')).
    { intros u v a b lu lv Huv Eu Ev. apply in_map_iff. exists (u, v). cbn [fst snd]. rewrite Eu, Ev.
      split; auto. apply Io; auto. }
    assert (Rel : forall p, In p out -> relates (hd 0%nat (items (fst p))) (hd 0%nat (items (snd p))) p).
    { intros p Hp. destruct (Sb p Hp) as [A B]. apply NE in A, B. left.
      destruct (items (fst p)), (items (snd p)); try congruence. simpl; auto. }
    destruct (wspd_unique _ _ _ Eo HN') as [U1 U2].
    split; [|split].
    - intros p q Hp Hq.
      apply (@stretch RNum dim _ vdist vdist_sym vdist_nonneg vdist_tri tau Ht tr out Eo HN' H2).
      + intros u v Huv. specialize (W _ Huv). destruct (Sb _ Huv) as [Su Sv]. cbn [fst snd] in *.
        assert (IB : forall x y, In x (subtrees tr) -> In y (items x) -> inBox dim (tbox x) (vertex y)).
        { intros x y Hx Hy i Hi. apply (H3 x Hx i Hi y Hy). }
        assert (Hs : 0 <= spanSep RNum tau).
        { rewrite spanSep_eq. apply Rmult_le_pos; [lra|]. apply Rlt_le, Rinv_0_lt_compat. lra. }
        assert (AR : forall a b, spanSep RNum tau / 2 * a <= b -> 2 * (tau + 1) * a <= (tau - 1) * b).
        { intros a b Hab. rewrite spanSep_eq in Hab.
          replace (4 * (tau + 1) / (tau - 1) / 2 * a) with (2 * (tau + 1) * a * / (tau - 1)) in Hab by (field; lra).
          apply (Rmult_le_compat_r (tau - 1)) in Hab; [|lra].
          rewrite Rmult_assoc, Rinv_l, Rmult_1_r in Hab by lra. lra. }
        intros x y Hx Hy. split; intros z Hz; apply AR.
        * eapply ws_spread; eauto; apply IB; auto.
        * eapply ws_spread'; [exact Hs|exact W| | |]; apply IB; auto.
      + exact HE.
      + eapply Permutation_in; [symmetry; exact H1|]. apply in_seq0; auto.
      + eapply Permutation_in; [symmetry; exact H1|]. apply in_seq0; auto.
    - intros p q Hpq. apply in_map_iff in Hpq as (uv & Epq & Huv). apply Io in Huv.
      pose proof (U2 _ _ _ Huv (Rel _ Huv)) as Hc.
      destruct (cross_in (fun _ _ => true) _ _ _ Hc) as [Ia Ib].
      apply (Permutation_in _ H1) in Ia, Ib. apply in_seq0 in Ia, Ib.
      assert (Hne : hd 0%nat (items (fst uv)) <> hd 0%nat (items (snd uv))).
      { intros Heq. rewrite Heq in Hc. exact (cross_irrefl (fun _ _ => true) tr _ HN' Hc). }
      unfold mkEdge in Epq. destruct (Nat.ltb_spec (hd 0%nat (items (snd uv))) (hd 0%nat (items (fst uv))));
        inversion Epq; subst; lia.
    - assert (NO : NoDup out').
      { apply Permutation_NoDup with out; [symmetry; auto|]. rewrite NoDup_nth_error. intros i j Hi Eij.
        destruct (nth_error out i) as [p|] eqn:Ei; [|apply nth_error_None in Ei; lia].
        pose proof (nth_error_In _ _ Ei) as Ip. pose proof (Rel p Ip) as Rp.
        destruct (U1 _ _ (U2 _ _ _ Ip Rp)) as (k & p' & _ & _ & Uk).
        rewrite (Uk i p Ei Rp). symmetry. apply (Uk j p); auto. }
      clear EE HE Ec. assert (Hsub : forall p, In p out' -> In p out) by (intros p; apply Io).
      clear Io PO. induction NO as [|p l Hp NO IH]; simpl; constructor.
      + intros Hin. apply in_map_iff in Hin as (p' & Ep & Hp').
        assert (A1 : In p out) by (apply Hsub; simpl; auto). assert (A2 : In p' out) by (apply Hsub; simpl; auto).
        assert (p = p'); [|subst; auto].
        pose proof (Rel p A1) as R1. pose proof (Rel p' A2) as R2.
        assert (R3 : relates (hd 0%nat (items (fst p))) (hd 0%nat (items (snd p))) p').
        { destruct (mkEdge_either (hd 0%nat (items (fst p))) (hd 0%nat (items (snd p)))) as [M|M];
            destruct (mkEdge_either (hd 0%nat (items (fst p'))) (hd 0%nat (items (snd p')))) as [M'|M'];
            rewrite M, M' in Ep; inversion Ep as [[Q1 Q2]]; rewrite <- ?Q1, <- ?Q2; auto; unfold relates in *; tauto. }
        destruct (U1 _ _ (U2 _ _ _ A1 R1)) as (k & pk & Ek & _ & Uk).
        apply In_nth_error in A1 as (i & Ei). apply In_nth_error in A2 as (j & Ej).
        pose proof (Uk _ _ Ei R1). pose proof (Uk _ _ Ej R3). congruence.
      + apply IH. intros; apply Hsub; simpl; auto.
  Qed.

  Lemma spanner_exists tau : (workers <= n)%nat -> exists r, spanner RNum dim pts workers threshold cutoff tau r.
  Proof.
    intros Hwn. destruct (Nat.lt_ge_cases n 2) as [Hn|Hn]; [eexists; apply sp_abort; auto|].
    assert (HPn : seq 0 n <> []) by (intros Z; apply (f_equal (@length nat)) in Z; rewrite seq_length in Z; cbn [length] in Z; lia).
    destruct (@build_all _ _ R_ordlaws R_span dim Hdim nat vertex) with (parallel := true) (workers := workers) (threshold := threshold) (leafSize := 1%nat) (P := seq 0 n)
      as (tr & Eb & _); auto.
    { apply okptsR. }
    destruct (@wspd_built_ok dim Hdim nat vertex true workers threshold Hw 1%nat (seq 0 n) tr (spanSep RNum tau)) as (out & Eo); auto.
    unfold wspdSerial in Eo. destruct (pcompute_exists _ _ cutoff _ Eo) as (calls & HP).
    eexists. apply sp_run with (tr := tr) (calls := calls) (logs := calls :: repeat [] (workers - 1)) (order1 := fun w => w) (order2 := fun w => w); eauto.
    - simpl. rewrite repeat_length. lia.
    - simpl. assert (E0 : concat (repeat (@nil (tree RNum nat * tree RNum nat)) (workers - 1)) = []).
      { induction (workers - 1)%nat; simpl; auto. }
      rewrite E0, app_nil_r. auto.
  Qed.
End Spanner.

(** An executable one-worker run, for the examples. *)
Section Run.
  Variable N : Num.
  Variable dim : nat.
  Variable pts : list (list (nT N)).
  Definition spannerRun (workers threshold : nat) (t : nT N) : res (list (option (nat * nat))) :=
    tr <- build N dim nat (vertex N pts) true workers threshold 1 (seq 0 (length pts)) ;;
    out <- wspdSerial N dim nat (spanSep N t) tr ;;
    W <- wspdCollect _ (size tr) workers (out :: repeat [] (workers - 1)) (fun w => w) ;;
    pairEdges (fun w => w) W.
  Lemma spannerRun_spec workers threshold cutoff t tr out :
    (2 <= length pts < cutoff)%nat -> (1 <= workers)%nat ->
    build N dim nat (vertex N pts) true workers threshold 1 (seq 0 (length pts)) = Ok tr ->
    (size tr < cutoff)%nat ->
    wspdSerial N dim nat (spanSep N t) tr = Ok out ->
    spanner N dim pts workers threshold cutoff t (spannerRun workers threshold t).
  Proof.
    intros Hn Hw Eb Hs Eo. unfold spannerRun. rewrite Eb. cbn [bind]. rewrite Eo. cbn [bind].
    apply sp_run with (calls := out) (order1 := fun w => w) (order2 := fun w => w); auto; try lia.
    - apply pc_serial; auto.
    - simpl. rewrite repeat_length. lia.
    - assert (E0 : concat (repeat (@nil (tree N nat * tree N nat)) (workers - 1)) = []).
      { induction (workers - 1)%nat; simpl; auto. }
      cbn [concat]. rewrite E0, app_nil_r. auto.
  Qed.
End Run.
