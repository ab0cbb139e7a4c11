(** The loop of emst: invariant, correctness of the result, number of rounds. *)
From Coq Require Import Reals Lra Sorted Permutation.
From Verif Require Import Base Num KdModel KdSpec KdBuild KdConstruct RGeom KdExtra DistLaws ParBufModel ParBufProofs
  BccpModel BccpProofs BccpFinal WspdModel WspdProofs WspdFinal UfModel UfProofs KruskalSpec
  SpecCommit Msf KruskalModel KruskalFinal BatchKruskal EmstModel EmstCover EmstMark.
Set Implicit Arguments.

Lemma gfk_collect N n procs (logs : list (list (wedge N))) order :
  1 <= procs -> procs <= n -> length logs = procs ->
  (forall w, Permutation (order w) w) -> gfkCollect n procs logs order = Ok (map Some (concat logs)).
Proof.
  intros Hp Hn HL Ho. unfold gfkCollect.
  assert (HI : 1 <= n / procs) by (apply Nat.div_le_lower_bound; lia).
  destruct (@parbuf_correct (wedge N) 24 ltac:(lia) (repeat (n / procs) (length logs)) logs) as (bufs & tot & w & E1 & E2 & E3).
  - apply repeat_length.
  - intros m Hm. apply repeat_spec in Hm. lia.
  - assert (E0 : forall l, mapM (fun p => pushAll 24 (create (wedge N) (fst p)) (snd p)) (combine (repeat (n / procs) (length l)) l)
      = mapM (pushAll 24 (create (wedge N) (n / procs))) l).
    { induction l as [|x l IH]; cbn [repeat length combine mapM fst snd]; auto. rewrite IH. auto. }
    rewrite E0 in E1. rewrite E1. cbn [bind]. rewrite E2. cbn [bind]. apply E3. auto.
Qed.

Lemma map_Some_inj A (l l' : list A) : map Some l = map Some l' -> l = l'.
Proof. revert l'. induction l as [|x l IH]; intros [|y l']; simpl; intros H; try discriminate; auto. inversion H. f_equal; auto. Qed.

Section Lew.
  Local Open Scope R_scope.
  Notation Ends := (map (@ends3 RNum)).
  Definition lew (r : R) (T : list (wedge RNum)) := filter (fun e => Rleb (snd e) r) T.
  Lemma lew_in r T e : In e (lew r T) <-> In e T /\ snd e <= r.
  Proof. unfold lew. rewrite filter_In. rewrite Rleb_true. tauto. Qed.
  Lemma lew_mono r r' T T' : r <= r' -> incl T T' -> incl (Ends (lew r T)) (Ends (lew r' T')).
  Proof. intros H HI. apply incl_map. intros e He. apply lew_in in He. apply lew_in. destruct He. split; auto. lra. Qed.
End Lew.

Section Loop.
  Local Open Scope R_scope.
  Variable dim : nat.
  Variable pt : nat -> list R.
  Notation D p q := (edist dim (pt p) (pt q)).
  Variable srt : list (R * nat) -> list (R * nat).
  Hypothesis Hsrt : @sort4_ok RNum (fun _ => True) srt.
  Variable sort : list (iedge RNum) -> list (iedge RNum).
  Hypothesis Hsort : @sort_ok RNum (fun _ => True) sort.
  Variables (n procs cutoff : nat).
  Hypothesis Hprocs : (1 <= procs <= n)%nat.
  Hypothesis Hmax : forall p q, (p < n)%nat -> (q < n)%nat -> D p q < Rfmax.
  Notation Ends := (map (@ends3 RNum)).

  (** The collected edges *)
  Lemma getRun_spec beta lo hi u v e : nice dim pt u -> nice dim pt v -> In e (@getRun RNum dim pt srt beta lo hi (u, v)) ->
    exists a b, e = (a, b, D a b) /\ In a (iitems u) /\ In b (iitems v) /\ lo <= D a b < hi.
  Proof.
    intros Nu Nv H. unfold getRun in H. pose proof (@bccp_any dim pt srt Hsrt u v) as B.
    destruct (bichromaticClosestPair RNum dim nat pt srt (strip u) (strip v)) as [[[a b]|] d].
    - destruct (B a b d Nu Nv eq_refl) as (Ha & Hb & ->).
      destruct (((isize u + isize v <=? beta)%nat && nle RNum lo (D a b)) && nlt RNum (D a b) hi) eqn:Q; [|destruct H].
      apply andb_true_iff in Q. destruct Q as [Q Q3]. apply andb_true_iff in Q. destruct Q as [Q1 Q2].
      cbn [nle nlt RNum] in Q2, Q3. apply Rleb_true in Q2. apply Rltb_true in Q3. destruct H as [<-|[]].
      exists a, b. auto.
    - destruct (_ && _); destruct H.
  Qed.
  Arguments getRun_spec beta lo hi u v e _ _ _ : clear implicits.

  Lemma getFind_nice lo hi f : forall u v L, @getFind RNum dim lo hi f u v = Ok L -> nice dim pt u -> nice dim pt v ->
    forall a b, In (a, b) L -> nice dim pt a /\ nice dim pt b /\ incl (iitems a ++ iitems b) (iitems u ++ iitems v).
  Proof.
    induction f as [|f IH]; intros u v L E Nu Nv a b H; [discriminate|]. cbn [getFind] in E.
    destruct (negb (getMoveon dim lo hi u v)); [inversion E; subst; destruct H|].
    destruct (iws dim u v); [inversion E; subst; destruct H as [H|[]]; inversion H; subst; split; auto; split; auto; apply incl_refl|].
    destruct (ichildren dim u v) as [[[x y] [z w]]|] eqn:C; [|discriminate].
    destruct (@getFind RNum dim lo hi f x y) as [l1| | |] eqn:E1; try discriminate.
    destruct (@getFind RNum dim lo hi f z w) as [l2| | |] eqn:E2; try discriminate. inversion E; subst.
    pose proof (@child_nice dim pt u v x y z w C Nu Nv) as (Nx & Ny & Nz & Nw & _).
    apply in_app_iff in H. apply ichildren_spec in C. destruct H as [H|H].
    - destruct (IH _ _ _ E1 Nx Ny _ _ H) as (A & B & I). split; auto. split; auto. intros k Hk. apply I in Hk.
      rewrite in_app_iff in *. destruct C as [(i & bx & -> & -> & ->)|(i & bx & -> & -> & ->)]; cbn [iitems strip items];
        rewrite in_app_iff; tauto.
    - destruct (IH _ _ _ E2 Nz Nw _ _ H) as (A & B & I). split; auto. split; auto. intros k Hk. apply I in Hk.
      rewrite in_app_iff in *. destruct C as [(i & bx & -> & -> & ->)|(i & bx & -> & -> & ->)]; cbn [iitems strip items];
        rewrite in_app_iff; tauto.
  Qed.
  Lemma getCompute_nice lo hi t : forall L, @getCompute RNum dim lo hi t = Ok L -> nice dim pt t ->
    forall a b, In (a, b) L -> nice dim pt a /\ nice dim pt b /\ incl (iitems a ++ iitems b) (iitems t).
  Proof.
    induction t as [i its b|i b l IHl r IHr]; intros L E Nt x y H; cbn [getCompute] in E; [inversion E; subst; destruct H|].
    destruct (@getStart RNum dim lo (INode i b l r)); [|inversion E; subst; destruct H].
    destruct (@getCompute RNum dim lo hi l) as [l1| | |] eqn:E1; try discriminate.
    destruct (@getCompute RNum dim lo hi r) as [l2| | |] eqn:E2; try discriminate.
    cbn [bind] in E. destruct (@getFind RNum dim lo hi (S (iheight l + iheight r)) l r) as [l3| | |] eqn:E3; try discriminate.
    inversion E; subst. destruct Nt as (_ & Nl & Nr). rewrite !in_app_iff in H. cbn [iitems strip items]. destruct H as [H|[H|H]].
    - destruct (IHl _ eq_refl Nl _ _ H) as (A & B & I). split; auto. split; auto. apply incl_appl; auto.
    - destruct (IHr _ eq_refl Nr _ _ H) as (A & B & I). split; auto. split; auto. apply incl_appr; auto.
    - apply (getFind_nice _ _ _ _ _ E3 Nl Nr _ _ H).
  Qed.

  Lemma getExec_spec beta lo hi t o : nice dim pt t -> @getExec RNum dim pt srt beta lo hi cutoff n procs t o ->
    exists L out, @getCompute RNum dim lo hi t = Ok L /\ o = Ok (map Some out) /\
      Permutation out (flat_map (@getRun RNum dim pt srt beta lo hi) L).
  Proof.
    intros Nt (calls & logs & order & HG & HL & HP & Ho & ->).
    destruct (gcompute_perm HG) as (L & EL & PL).
    exists L, (concat logs). split; auto. split; [apply gfk_collect; auto; lia|].
    etransitivity; [exact HP|]. apply Permutation_flat_map; auto.
  Qed.

  Variable t0 : tree RNum nat.
  Hypothesis N0 : niceT dim pt t0.
  Hypothesis I0 : Permutation (items t0) (seq 0 n).
  Definition repn (P : parents) p i := (p < n)%nat /\ rep P p i.

  Record inv (s : est RNum) : Prop := {
    iv_t : strip (eT s) = t0;
    iv_uf : ufOk n (eUF s);
    iv_w : forall a b w, In (a, b, w) (getEdge n (eUF s)) -> w = D a b /\ w < eLo s;
    iv_near : forall p q, (p < n)%nat -> (q < n)%nat -> D p q < eLo s -> conn (Ends (lew (D p q) (getEdge n (eUF s)))) p q;
    iv_ids : idsOk (repn (fst (eUF s))) (eT s);
    iv_dn : idsDn (eT s);
    iv_rho : forall hi, @rhoExec RNum dim (eBeta s) hi (eT s) -> eLo s <= hi }.

  Lemma idsOk_impl (R1 R2 : nat -> nat -> Prop) (t : IT) : (forall p i, In p (iitems t) -> R1 p i -> R2 p i) -> idsOk R1 t -> idsOk R2 t.
  Proof.
    induction t as [i its b|i b l IHl r IHr]; intros H; cbn [idsOk].
    - intros [A _]. split; auto.
    - intros (A & Bl & Br). split; [eauto|]. split; [apply IHl; auto|apply IHr; auto];
        intros p j Hp; apply H; cbn [iitems strip items]; apply in_app_iff; auto.
  Qed.
  Lemma idsOk_grouped (P : parents) rt (t : IT) : idsOk (repn P) t -> (forall p q, (p < n)%nat -> (q < n)%nat -> samerep P p q -> rt p = rt q) ->
    grouped rt t.
  Proof.
    induction t as [i its b|i b l IHl r IHr]; cbn [idsOk grouped]; intros H HR.
    - split; auto. intros Hi p q Hp Hq. destruct i as [i|]; [|cbn in Hi; congruence].
      destruct H as [H _]. destruct (H i eq_refl p Hp), (H i eq_refl q Hq). apply HR; auto. exists i; auto.
    - destruct H as (H & Hl & Hr). split; auto. intros Hi p q Hp Hq. destruct i as [i|]; [|cbn in Hi; congruence].
      destruct (H i eq_refl p Hp), (H i eq_refl q Hq). apply HR; auto. exists i; auto.
  Qed.
  Lemma nice_nonempty (t : tree RNum nat) : niceT dim pt t -> nonempty t.
  Proof. induction t as [its b|b l IHl r IHr]; cbn [niceT nonempty]; [intros [_ H]; destruct its; [discriminate|congruence]|tauto]. Qed.

  Section Round.
    Variables (s : est RNum) (hi : R).
    Hypothesis HI : inv s.
    Hypothesis HR : @rhoExec RNum dim (eBeta s) hi (eT s).
    Variables (L : list (IT * IT)) (out : list (wedge RNum)).
    Hypothesis HL : @getCompute RNum dim (eLo s) hi (eT s) = Ok L.
    Hypothesis Hout : Permutation out (flat_map (@getRun RNum dim pt srt (eBeta s) (eLo s) hi) L).
    Notation T := (getEdge n (eUF s)).

    Lemma s_nice : nice dim pt (eT s).
    Proof. unfold nice. rewrite (iv_t HI). exact N0. Qed.
    Lemma s_items p : In p (iitems (eT s)) <-> (p < n)%nat.
    Proof. 
      unfold iitems. rewrite (iv_t HI). split; intros H.
      - apply (Permutation_in _ I0) in H. apply in_seq in H. lia.
      - apply (Permutation_in _ (Permutation_sym I0)). apply in_seq. lia.
    Qed.
    Lemma lo_hi : eLo s <= hi.
    Proof. apply (iv_rho HI HR). Qed.
    Lemma hi_max : hi <= Rfmax.
    Proof. destruct HR as (L0 & _ & _ & H & _). cbn [nlt nmax RNum] in H. apply Rltb_false in H. auto. Qed.

    Lemma out_spec e : In e out -> exists a b, e = (a, b, D a b) /\ (a < n)%nat /\ (b < n)%nat /\ eLo s <= D a b < hi.
    Proof.
      intros H. apply (Permutation_in _ Hout) in H. apply in_flat_map in H. destruct H as ([u v] & Hp & He).
      destruct (@getCompute_nice _ _ _ _ HL s_nice u v Hp) as (Nu & Nv & Inc).
      destruct (getRun_spec _ _ _ _ _ _ Nu Nv He) as (a & b & -> & Ha & Hb & Hd).
      exists a, b. split; auto. split; [|split; auto]; apply s_items, Inc, in_app_iff; auto.
    Qed.
    Lemma out_good : @good RNum (fun _ => True) n out.
    Proof. intros a b w H. apply out_spec in H. destruct H as (a' & b' & E & Ha & Hb & _). inversion E; subst. auto. Qed.

    Variable T' : list (wedge RNum).
    Variable New : list (wedge RNum).
    Hypothesis HT' : Permutation T' (T ++ New).
    Hypothesis HNew : forall a b w, In (a, b, w) out ->
      conn (Ends (T ++ filter (fun e => negb (nlt RNum w (snd e))) New)) a b.

    Lemma round_near p q : (p < n)%nat -> (q < n)%nat -> D p q < hi -> conn (Ends (lew (D p q) T')) p q.
    Proof.
      intros Hp Hq HD.
      set (dom := fun p => (p < n)%nat).
      set (K := fun p q => dom p -> dom q -> conn (Ends (lew (D p q) T')) p q).
      assert (IT' : incl T T') by (intros e He; apply (Permutation_in _ (Permutation_sym HT')), in_app_iff; auto).
      assert (Klo : forall p q, D p q < eLo s -> K p q).
      { intros a b Hab Ha Hb. eapply conn_mono; [|apply (iv_near HI); auto]. apply lew_mono; auto. lra. }
      assert (Tall : forall a b, eLo s <= D a b -> incl (Ends T) (Ends (lew (D a b) T'))).
      { intros a b Hab. apply incl_map. intros [[x y] w] He. apply lew_in. split; auto. cbn [snd].
        destruct (iv_w HI _ _ _ He). lra. }
      assert (G : K p q); [|apply G; auto].
      destruct HR as (L0 & RC & _ & _ & RL).
      refine (@compute_cover dim pt srt Hsrt (eBeta s) (eLo s) hi hi_max K _ Klo dom _ (fun p i => (p < n)%nat /\ (i < n)%nat /\ samerep (fst (eUF s)) p i) _ _
        out _ _ (eT s) L HL s_nice _ _ _ _ p q _ _ HD).
      - intros a b H Ha Hb. apply conn_sym. rewrite D_sym. apply H; auto.
      - intros x a b y Da Db H1 H2 H3 Kxa Kab Kyb Dx Dy.
        apply conn_trans with a; [eapply conn_mono; [|apply Kxa; auto]; apply lew_mono; auto; apply incl_refl|].
        apply conn_trans with b; [eapply conn_mono; [|apply Kab; auto]; apply lew_mono; auto; apply incl_refl|].
        apply conn_sym. eapply conn_mono; [|apply Kyb; auto]; apply lew_mono; auto; apply incl_refl.
      - intros a b (Ha & Hb & Hs) _ _. destruct (Rlt_dec (D a b) (eLo s)) as [Q|Q]; [apply Klo; auto|].
        eapply conn_mono; [apply Tall; lra|]. apply (uf_conn (iv_uf HI)); auto.
      - intros x y i (Hx & Hi & r & R1 & R2) (Hy & _ & r' & R3 & R4). split; auto. split; auto.
        exists r. split; auto. rewrite (rep_det R2 R4). auto.
      - intros a b d He Ed Da Db. destruct (out_spec _ He) as (a' & b' & E & _ & _ & Hd). inversion E; subst a' b'.
        eapply conn_mono; [|apply (@HNew a b d He)]. rewrite map_app. apply incl_app; [apply Tall; tauto|].
        apply incl_map. intros e Hf. apply filter_In in Hf. destruct Hf as [Hf Q]. apply lew_in.
        split; [apply (Permutation_in _ (Permutation_sym HT')), in_app_iff; auto|].
        cbn [nlt RNum] in Q. apply negb_true_iff in Q. apply Rltb_false in Q. rewrite <- Ed. exact Q.
      - intros x Hx _. constructor.
      - apply idsOk_impl with (2 := iv_ids HI). intros x i Hx (Hxn & Hr). split; auto.
        split; [apply (rep_in (uf_forest (iv_uf HI)) Hxn Hr)|]. exists i. split; auto. constructor. eapply rep_is_root; eauto.
      - intros x Hx. apply s_items; auto.
      - left. exists L0. split; auto. intros pr Hpr. specialize (RL pr Hpr). cbn [nlt RNum] in RL. apply Rltb_false in RL. auto.
      - intros pr e Hpr He. apply (Permutation_in _ (Permutation_sym Hout)). apply in_flat_map. eauto.
      - apply s_items; auto.
      - apply s_items; auto.
    Qed.
    Lemma round_w : incl New out -> forall a b w, In (a, b, w) T' -> w = D a b /\ w < hi.
    Proof.
      intros HN a b w H. apply (Permutation_in _ HT') in H. apply in_app_iff in H. destruct H as [H|H].
      - destruct (iv_w HI _ _ _ H). split; auto. pose proof lo_hi. lra.
      - apply HN in H. destruct (out_spec _ H) as (a' & b' & E & _ & _ & Hd). inversion E; subst. split; auto. tauto.
    Qed.
  End Round.

  Lemma ids_merge (U : eufT RNum) (U2 : eufT RNum) : ufOk n U -> ufOk n U2 -> incl (Ends (getEdge n U)) (Ends (getEdge n U2)) ->
    forall p q, (p < n)%nat -> (q < n)%nat -> samerep (fst U) p q -> samerep (fst U2) p q.
  Proof. intros H1 H2 HI p q Hp Hq H. apply (uf_conn H2); auto. eapply conn_mono; [exact HI|]. apply (uf_conn H1); auto. Qed.

  Theorem round_inv s o : inv s -> @round RNum dim pt srt sort n procs cutoff s o ->
    match o with
    | Ok s' => inv s' /\ eBeta s' = (2 * eBeta s)%nat /\ (incl (getEdge n (eUF s)) (getEdge n (eUF s'))) /\ ((n <= eBeta s)%nat -> eLo s' = Rfmax)
    | Throw => exists hi L, @getCompute RNum dim (eLo s) hi (eT s) = Ok L /\
        (4101 < length (flat_map (@getRun RNum dim pt srt (eBeta s) (eLo s) hi) L))%nat
    | Fuel => True
    | UB => False
    end.
  Proof.
    intros HI HRd. pose proof (s_nice HI) as Ns.
    assert (Hmx : forall hi, @rhoExec RNum dim (eBeta s) hi (eT s) -> (n <= eBeta s)%nat -> hi = Rfmax).
    { intros hi (L0 & RC & Hf & _ & _) Hb.
      assert (Sz : isize (eT s) = n).
      { unfold isize, size. rewrite (iv_t HI). rewrite (Permutation_length I0). apply seq_length. }
      inversion RC as [i its b E1 E2|i b l r St E1 E2|i b l r l1 l2 l3 St R1 R2 R3 E1 E2]; subst L0.
      - destruct Hf as [Hf|[]]. auto.
      - destruct Hf as [Hf|[]]. auto.
      - exfalso. rewrite E1 in St. unfold rhoStart in St. apply Nat.ltb_lt in St. lia. }
    destruct HRd as [hi HR HG|hi out big small sched U rt P2 HR HG HO HK HRt HF2 HP2|hi o HR HG HN|hi out big small sched o HR HG HO HK HN].
    - destruct (getExec_spec Ns HG) as (L & out & EL & Eo & HP).
      inversion Eo as [E1]. symmetry in E1. destruct out; [|discriminate].
      split; [|split; [|split]]; cbn [eT eUF eBeta eLo]; auto; [|apply incl_refl].
      pose proof (@round_near s hi HI HR L [] EL HP (getEdge n (eUF s)) [] ltac:(rewrite app_nil_r; auto) ltac:(intros a b w [])) as RN.
      constructor; cbn [eT eUF eBeta eLo]; try apply HI; auto.
      + intros a b w Hw. destruct (iv_w HI _ _ _ Hw). split; auto. pose proof (lo_hi HI HR). lra.
      + intros hi' HR'.
        assert (M : forall p q i j k, repn (fst (eUF s)) p i -> repn (fst (eUF s)) q i -> repn (fst (eUF s)) p j -> repn (fst (eUF s)) q k -> j = k).
        { intros p q i j k (_ & H1) (_ & H2) (_ & H3) (_ & H4). rewrite (rep_det H3 H1), (rep_det H4 H2). auto. }
        apply (@rho_mono dim pt _ _ M (eBeta s) (2 * eBeta s) ltac:(lia) hi hi' (eT s) (eT s)); auto.
        * apply grow_refl.
        * apply (iv_ids HI).
        * apply (iv_ids HI).
    - destruct (getExec_spec Ns HG) as (L & out' & EL & Eo & HP). inversion Eo as [E1]. apply map_Some_inj in E1. subst out'.
      pose proof (@batchKruskal_correct RNum (fun _ => True) R_ordlaws sort Hsort n (eUF s) out big small sched (iv_uf HI) (@out_good s hi HI L out EL HP)) as B.
      rewrite HK in B. destruct B as (HU & New & HPn & HNi & HNc).
      assert (Hrep : forall p i, (p < n)%nat -> rep (fst U) p i <-> rt p = i).
      { intros p i Hp. split; intros H; [apply (rep_det (HRt p Hp) H)|subst; auto]. }
      assert (HU2 : ufOk n (P2, snd U)).
      { constructor; cbn [fst snd]; try apply HU; auto.
        - intros a b Ha Hb. rewrite <- (uf_conn HU Ha Hb). split; intros (r & R1 & R2); exists r; split; apply HP2; auto.
        - intros x Hx Px. apply (uf_link HU); auto. assert (R1 : rep (fst U) x x) by (apply HP2; auto; constructor; auto).
          apply (rep_is_root R1). }
      assert (Inc : incl (getEdge n (eUF s)) (getEdge n U)).
      { intros e He. apply (Permutation_in _ (Permutation_sym HPn)), in_app_iff; auto. }
      assert (Mg : forall p q, (p < n)%nat -> (q < n)%nat -> samerep (fst (eUF s)) p q -> rt p = rt q).
      { intros p q Hp Hq Hs. destruct (ids_merge (iv_uf HI) HU (incl_map _ Inc) Hp Hq Hs) as (r & R1 & R2).
        apply Hrep in R1; auto. apply Hrep in R2; auto. congruence. }
      destruct (@mark_spec rt (eT s)) as (MS & MG & MD & MO).
      { rewrite (iv_t HI). apply nice_nonempty, N0. }
      { apply (iv_dn HI). }
      { apply (@idsOk_grouped _ rt (eT s) (iv_ids HI)). exact Mg. }
      assert (MO' : idsOk (repn P2) (mark rt (eT s))).
      { apply idsOk_impl with (2 := MO). intros p i Hp E. assert (Hpn : (p < n)%nat).
        { apply (s_items HI). unfold iitems in *. rewrite <- MS. auto. }
        split; auto. apply HP2; auto. apply Hrep; auto. }
      split; [|split; [|split]]; cbn [eT eUF eBeta eLo]; auto.
      pose proof (@round_near s hi HI HR L out EL HP (getEdge n U) New HPn HNc) as RN.
      constructor; cbn [eT eUF eBeta eLo]; auto.
      + rewrite MS. apply (iv_t HI).
      + exact (@round_w s hi HI HR L out EL HP (getEdge n U) New HPn HNi).
      + intros hi' HR'.
        assert (M : forall p q i j k, repn (fst (eUF s)) p i -> repn (fst (eUF s)) q i -> repn P2 p j -> repn P2 q k -> j = k).
        { intros p q i j k (Hp & H1) (Hq & H2) (_ & H3) (_ & H4). apply HP2 in H3; auto. apply HP2 in H4; auto.
          apply Hrep in H3; auto. apply Hrep in H4; auto. subst. apply Mg; auto. exists i; auto. }
        apply (@rho_mono dim pt _ _ M (eBeta s) (2 * eBeta s) ltac:(lia) hi hi' (eT s) (mark rt (eT s))); auto.
        apply (iv_ids HI).
    - destruct (getExec_spec Ns HG) as (L & out & EL & Eo & HP). exfalso. apply (HN out). auto.
    - destruct (getExec_spec Ns HG) as (L & out' & EL & Eo & HP). inversion Eo as [E1]. apply map_Some_inj in E1. subst out'.
      pose proof (@batchKruskal_correct RNum (fun _ => True) R_ordlaws sort Hsort n (eUF s) out big small sched (iv_uf HI) (@out_good s hi HI L out EL HP)) as B.
      rewrite HK in B. destruct o as [U| | |]; cbn [bind]; auto; [destruct (HN U eq_refl)|].
      exists hi, L. split; auto. rewrite <- (Permutation_length HP). auto.
  Qed.
End Loop.
