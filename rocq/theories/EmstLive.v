(** Executions of emst that return exist, and the serial code is one of them. *)
From Coq Require Import Reals Lra Psatz Sorted Permutation.
From Verif Require Import Base Num KdModel KdSpec KdBuild KdConstruct RGeom KdExtra DistLaws ParBufModel ParBufProofs
  BccpModel BccpProofs BccpFinal WspdModel WspdProofs WspdFinal UfModel UfProofs KruskalSpec
  SpecCommit Msf KruskalModel KruskalFinal BatchKruskal EmstModel EmstCover EmstMark EmstProofs EmstFinal.
Set Implicit Arguments.

(** A function picking a representative *)
Lemma finite_choice (Q : nat -> nat -> Prop) n : (forall i, i < n -> exists r, Q i r) -> exists f, forall i, i < n -> Q i (f i).
Proof.
  induction n as [|n IH]; intros H.
  - exists (fun _ => 0). intros; lia.
  - destruct IH as (f & Hf); [auto|]. destruct (H n) as (r & Hr); [lia|].
    exists (fun i => if i =? n then r else f i). intros i Hi. destruct (i =? n) eqn:E.
    + apply Nat.eqb_eq in E. subst; auto.
    + apply Nat.eqb_neq in E. apply Hf. lia.
Qed.

Section Rho.
  Local Open Scope R_scope.
  Variable dim : nat.
  Variable pt : nat -> list R.
  Variable beta : nat.
  Notation inode := (@inode RNum dim).

  (** The serial execution is one of those described by rhoExec *)
  Lemma rhoFind_exec f : forall u v rho rho', @rhoFind RNum dim beta f u v rho = Ok rho' ->
    rho' <= rho /\ exists L, (forall fin, fin <= rho' -> @RFind RNum dim beta fin u v L) /\
      (rho' = rho \/ In rho' (map (fun p => inode (fst p) (snd p)) L)) /\
      forall p, In p L -> rho' <= inode (fst p) (snd p).
  Proof.
    induction f as [|f IH]; intros u v rho rho' E; [discriminate|]. cbn [rhoFind] in E.
    destruct (rhoMoveon beta u v) eqn:M; cbn [andb] in E.
    2: { inversion E; subst. split; [apply Rle_refl|]. exists []. split; [intros; constructor; auto|]. split; auto. intros p []. }
    destruct (nle RNum rho (inode u v)) eqn:Q; cbn [negb] in E.
    { inversion E; subst. split; [apply Rle_refl|]. exists []. split; [|split; auto; intros p []].
      intros fin Hf. apply rf_far with rho'; auto. cbn [nlt RNum]. apply Rltb_false. exact Hf. }
    cbn [nle RNum] in Q. apply Rleb_false in Q.
    destruct (iws dim u v) eqn:W.
    { cbn [nlt RNum] in E. destruct (Rltb (inode u v) rho) eqn:Z; [|apply Rltb_false in Z; lra]. inversion E; subst.
      split; [lra|]. exists [(u, v)]. split; [intros; apply rf_run; auto|]. split; [right; left; auto|].
      intros p [<-|[]]. apply Rle_refl. }
    destruct (ichildren dim u v) as [[[a b] [c d]]|] eqn:C; [|discriminate].
    destruct (@rhoFind RNum dim beta f a b rho) as [r1| | |] eqn:E1; cbn [bind] in E; try discriminate.
    destruct (IH _ _ _ _ E1) as (A1 & L1 & B1 & C1 & D1). destruct (IH _ _ _ _ E) as (A2 & L2 & B2 & C2 & D2).
    split; [lra|]. exists (L1 ++ L2). split; [|split].
    - intros fin Hf. apply rf_kids with a b c d; auto. apply B1. lra.
    - rewrite map_app, in_app_iff. destruct C2 as [->|C2]; auto. destruct C1 as [->|C1]; auto.
    - intros p Hp. apply in_app_iff in Hp. destruct Hp as [Hp|Hp]; [specialize (D1 p Hp); lra|auto].
  Qed.
  Lemma rhoCompute_exec t : forall rho rho', @rhoCompute RNum dim beta t rho = Ok rho' ->
    rho' <= rho /\ exists L, (forall fin, fin <= rho' -> @RCompute RNum dim beta fin t L) /\
      (rho' = rho \/ In rho' (map (fun p => inode (fst p) (snd p)) L)) /\
      forall p, In p L -> rho' <= inode (fst p) (snd p).
  Proof.
    induction t as [i its b|i b l IHl r IHr]; intros rho rho' E; cbn [rhoCompute] in E.
    { inversion E; subst. split; [apply Rle_refl|]. exists []. split; [intros; constructor|]. split; auto. intros p []. }
    destruct (rhoStart beta (INode i b l r)) eqn:St.
    2: { inversion E; subst. split; [apply Rle_refl|]. exists []. split; [intros; constructor; auto|]. split; auto. intros p []. }
    destruct (@rhoCompute RNum dim beta l rho) as [r1| | |] eqn:E1; cbn [bind] in E; try discriminate.
    destruct (@rhoCompute RNum dim beta r r1) as [r2| | |] eqn:E2; cbn [bind] in E; try discriminate.
    destruct (IHl _ _ E1) as (A1 & L1 & B1 & C1 & D1). destruct (IHr _ _ E2) as (A2 & L2 & B2 & C2 & D2).
    destruct (rhoFind_exec _ _ _ _ E) as (A3 & L3 & B3 & C3 & D3).
    split; [lra|]. exists (L1 ++ L2 ++ L3). split; [|split].
    - intros fin Hf. apply rc_node; auto; [apply B1|apply B2]; lra.
    - rewrite !map_app, !in_app_iff. destruct C3 as [->|C3]; auto. destruct C2 as [->|C2]; auto. destruct C1 as [->|C1]; auto.
    - intros p Hp. rewrite !in_app_iff in Hp. destruct Hp as [Hp|[Hp|Hp]]; [specialize (D1 p Hp)|specialize (D2 p Hp)|auto]; lra.
  Qed.
  Lemma rho_serial t fin : @rhoCompute RNum dim beta t Rfmax = Ok fin -> @rhoExec RNum dim beta fin t.
  Proof.
    intros E. destruct (rhoCompute_exec _ _ E) as (A & L & B & C & H). exists L.
    split; [apply B, Rle_refl|]. split; auto. split; [apply Rltb_false; auto|].
    intros p Hp. apply Rltb_false. auto.
  Qed.

  (** It never runs out of fuel and never throws on a tree of single points *)
  Lemma rhoFind_total f : forall u v rho, (iheight u + iheight v < f)%nat -> nice dim pt u -> nice dim pt v ->
    exists rho', @rhoFind RNum dim beta f u v rho = Ok rho'.
  Proof.
    induction f as [|f IH]; intros u v rho Hf Nu Nv; [lia|]. cbn [rhoFind].
    destruct (negb _); eauto. destruct (iws dim u v) eqn:W; eauto.
    destruct (ichildren dim u v) as [[[a b] [c d]]|] eqn:C.
    - destruct (@child_nice dim pt u v a b c d C Nu Nv) as (Na & Nb & Nc & Nd & _). destruct (ichildren_height _ _ _ C).
      destruct (IH a b rho ltac:(lia) Na Nb) as (r1 & ->). cbn [bind]. apply IH; auto. lia.
    - rewrite (@leaves_ws dim pt u v Nu Nv C) in W. discriminate.
  Qed.
  Lemma rhoCompute_total t : nice dim pt t -> forall rho, exists rho', @rhoCompute RNum dim beta t rho = Ok rho'.
  Proof.
    induction t as [i its b|i b l IHl r IHr]; intros Nt rho; cbn [rhoCompute]; eauto.
    destruct (rhoStart _ _); eauto. destruct Nt as (_ & Nl & Nr).
    destruct (IHl Nl rho) as (r1 & ->). cbn [bind]. destruct (IHr Nr r1) as (r2 & ->). cbn [bind].
    apply rhoFind_total; auto.
  Qed.
End Rho.

Section Get.
  Local Open Scope R_scope.
  Variable dim : nat.
  Variable pt : nat -> list R.
  Variables (lo hi : R) (cutoff : nat).
  Notation getFind := (@getFind RNum dim lo hi).
  Notation getCompute := (@getCompute RNum dim lo hi).

  Lemma getFind_total f : forall u v, (iheight u + iheight v < f)%nat -> nice dim pt u -> nice dim pt v -> exists L, getFind f u v = Ok L.
  Proof.
    induction f as [|f IH]; intros u v Hf Nu Nv; [lia|]. cbn [EmstModel.getFind].
    destruct (negb _); eauto. destruct (iws dim u v) eqn:W; eauto.
    destruct (ichildren dim u v) as [[[a b] [c d]]|] eqn:C.
    - destruct (@child_nice dim pt u v a b c d C Nu Nv) as (Na & Nb & Nc & Nd & _). destruct (ichildren_height _ _ _ C).
      destruct (IH a b ltac:(lia) Na Nb) as (l1 & ->). destruct (IH c d ltac:(lia) Nc Nd) as (l2 & ->). cbn [bind]. eauto.
    - rewrite (@leaves_ws dim pt u v Nu Nv C) in W. discriminate.
  Qed.
  Lemma gfind_exists f : forall u v, (iheight u + iheight v < f)%nat -> nice dim pt u -> nice dim pt v -> exists L, @GFind RNum dim lo hi cutoff u v L.
  Proof.
    induction f as [|f IH]; intros u v Hf Nu Nv; [lia|].
    destruct (@getMoveon RNum dim lo hi u v) eqn:M; [|exists []; constructor; auto].
    destruct (le_lt_dec cutoff (isize u + isize v)) as [Sz|Sz].
    - destruct (iws dim u v) eqn:W; [exists [(u, v)]; apply gf_run; auto|].
      destruct (ichildren dim u v) as [[[a b] [c d]]|] eqn:C.
      + destruct (@child_nice dim pt u v a b c d C Nu Nv) as (Na & Nb & Nc & Nd & _). destruct (ichildren_height _ _ _ C).
        destruct (IH a b ltac:(lia) Na Nb) as (l1 & H1). destruct (IH c d ltac:(lia) Nc Nd) as (l2 & H2).
        exists (l1 ++ l2). eapply gf_par; eauto. apply shuffle_app.
      + rewrite (@leaves_ws dim pt u v Nu Nv C) in W. discriminate.
    - destruct (@getFind_total (S (iheight u + iheight v)) u v ltac:(lia) Nu Nv) as (L & E). exists L. apply gf_serial; auto.
  Qed.
  Lemma getCompute_total t : nice dim pt t -> exists L, getCompute t = Ok L.
  Proof.
    induction t as [i its b|i b l IHl r IHr]; intros Nt; cbn [EmstModel.getCompute]; eauto.
    destruct (@getStart RNum dim lo _); eauto. destruct Nt as (_ & Nl & Nr).
    destruct (IHl Nl) as (l1 & ->). destruct (IHr Nr) as (l2 & ->). cbn [bind].
    destruct (@getFind_total (S (iheight l + iheight r)) l r ltac:(lia) Nl Nr) as (L & ->). cbn [bind]. eauto.
  Qed.
  Lemma gcompute_exists t : nice dim pt t -> exists L, @GCompute RNum dim lo hi cutoff t L.
  Proof.
    induction t as [i its b|i b l IHl r IHr]; intros Nt.
    - exists []. destruct (le_lt_dec cutoff (isize (ILeaf i its b))); [apply gc_leaf; auto|apply gc_serial; auto].
    - destruct (le_lt_dec cutoff (isize (INode i b l r))) as [Sz|Sz].
      + destruct (@getStart RNum dim lo (INode i b l r)) eqn:St; [|exists []; apply gc_stop; auto].
        destruct Nt as (_ & Nl & Nr). destruct (IHl Nl) as (l1 & H1). destruct (IHr Nr) as (l2 & H2).
        destruct (@gfind_exists (S (iheight l + iheight r)) l r ltac:(lia) Nl Nr) as (l3 & H3).
        exists ((l1 ++ l2) ++ l3). eapply gc_node; eauto. apply shuffle_app.
      + destruct (getCompute_total _ Nt) as (L & E). exists L. apply gc_serial; auto.
  Qed.
End Get.

Section Live.
  Local Open Scope R_scope.
  Variable dim : nat.
  Hypothesis Hdim : (1 <= dim)%nat.
  Variable pt : nat -> list R.
  Notation D p q := (edist dim (pt p) (pt q)).
  Variable srt : list (R * nat) -> list (R * nat).
  Hypothesis Hsrt : @sort4_ok RNum (fun _ => True) srt.
  Variable sort : list (iedge RNum) -> list (iedge RNum).
  Hypothesis Hsort : @sort_ok RNum (fun _ => True) sort.
  Variables (n procs cutoff : nat).
  Hypothesis Hprocs : (1 <= procs <= n)%nat.
  Hypothesis Hn : (n <= 91)%nat.
  Hypothesis Hmax : forall p q, (p < n)%nat -> (q < n)%nat -> D p q < Rfmax.
  Variable t0 : tree RNum nat.
  Hypothesis N0 : niceT dim pt t0.
  Hypothesis I0 : Permutation (items t0) (seq 0 n).
  Notation inv := (@inv dim pt n t0).

  Lemma round_exists s : inv s -> exists s', @round RNum dim pt srt sort n procs cutoff s (Ok s').
  Proof.
    intros HI. pose proof (s_nice N0 HI) as Ns.
    destruct (@rhoCompute_total dim pt (eBeta s) (eT s) Ns Rfmax) as (hi & E). pose proof (@rho_serial dim (eBeta s) (eT s) hi E) as HR.
    destruct (@gcompute_exists dim pt (eLo s) hi cutoff (eT s) Ns) as (calls & HG).
    destruct procs as [|pr] eqn:Epr; [lia|]. rewrite <- Epr in *.
    set (all := flat_map (@getRun RNum dim pt srt (eBeta s) (eLo s) hi) calls).
    assert (HX : @getExec RNum dim pt srt (eBeta s) (eLo s) hi cutoff n procs (eT s) (Ok (map Some all))).
    { exists calls, (all :: repeat [] pr), (fun w => w). split; auto.
      assert (EL : length (all :: repeat [] pr) = procs) by (simpl; rewrite repeat_length; lia).
      assert (EC : concat (all :: repeat [] pr) = all).
      { cbn [concat]. replace (concat (repeat [] pr)) with (@nil (wedge RNum)); [apply app_nil_r|]. clear. induction pr; simpl; auto. }
      split; auto. split; [rewrite EC; auto|]. split; [auto|].
      rewrite gfk_collect; auto; try lia. rewrite EC. auto. }
    destruct (getExec_spec Hprocs Ns HX) as (L & out & EL & Eo & HP). inversion Eo as [E1]. apply map_Some_inj in E1. subst out.
    destruct all as [|e all'] eqn:EA.
    { eexists. eapply rd_empty; eauto. }
    set (out := e :: all') in *.
    pose proof (@out_good dim pt srt Hsrt n procs Hprocs t0 N0 I0 s hi HI L out EL HP) as Gd.
    assert (Len : (length out <= 4101)%nat).
    { pose proof (@getRun_len dim Hdim pt srt n procs Hprocs (eBeta s) (eLo s) hi L) as H1.
      pose proof (@getCompute_len dim Hdim pt n procs Hprocs _ _ _ _ EL Ns) as H2. rewrite <- (Permutation_length HP) in H1.
      assert (Sz : isize (eT s) = n).
      { unfold isize, size. rewrite (iv_t HI). rewrite (Permutation_length I0). apply seq_length. }
      rewrite Sz in H2. assert (n * (n - 1) <= 91 * 90)%nat by nia. lia. }
    pose proof (iv_uf HI) as HU.
    destruct (@kruskalLoop_live n (map (@ends3 RNum) (getEdge n (eUF s))) (ends (sort (tagEdges out)))
      ltac:(intros a b H; apply in_app_iff in H; destruct H as [H|H]; [apply (uf_in HU); auto|apply (es_in Hsort Gd _ _ H)])
      (fun _ _ => false) (fun _ _ => false) (fst (eUF s)) (uf_forest HU) (uf_conn HU)
      ltac:(rewrite (es_len Hsort Gd); exact Len)) as (sched & st & EK).
    pose proof (@batchKruskal_correct RNum (fun _ => True) R_ordlaws sort Hsort n (eUF s) out (fun _ _ => false) (fun _ _ => false) sched HU Gd) as B.
    destruct (batchKruskal sort (fun _ _ => false) (fun _ _ => false) sched n out (eUF s)) as [U| | |] eqn:EB.
    2-4: unfold batchKruskal in EB; rewrite EK in EB; discriminate.
    destruct B as (HU' & _).
    destruct (@finite_choice (rep (fst U)) n) as (rt & Hrt); [intros i Hi; apply (proj2 (uf_forest HU' Hi))|].
    eexists. eapply rd_batch with (out := out) (P2 := fst U); eauto.
    - discriminate.
    - apply (uf_forest HU').
    - tauto.
  Qed.

  Lemma loop_exists m : forall s, inv s -> (n <= 2 ^ m * eBeta s)%nat ->
    exists k T, @emstLoop RNum dim pt srt sort n procs cutoff k s (Ok T).
  Proof.
    induction m as [|m IH]; intros s HI Hm; destruct (le_lt_dec (n - 1) (numEdge n (eUF s))) as [Q|Q].
    1, 3: exists 0%nat; eexists; apply em_stop; auto.
    - destruct (round_exists HI) as (s' & HR).
      pose proof (round_inv Hsrt Hsort Hprocs N0 I0 HI HR) as (HI' & HB & _ & Hx). simpl in Hm.
      exists 1%nat. eexists. eapply em_round; eauto. apply em_stop.
      apply (inv_max Hprocs Hmax HI'). apply Hx. lia.
    - destruct (round_exists HI) as (s' & HR).
      pose proof (round_inv Hsrt Hsort Hprocs N0 I0 HI HR) as (HI' & HB & _ & Hx).
      destruct (IH s' HI') as (k & T & HT); [rewrite HB; rewrite Nat.pow_succ_r' in Hm; lia|].
      exists (S k), T. eapply em_round; eauto.
  Qed.
End Live.
