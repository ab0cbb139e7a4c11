(** emst: the result is a minimum spanning tree; bounds on rounds; executions
    that complete exist. *)
From Coq Require Import Reals Lra Psatz Sorted Permutation.
From Verif Require Import Base Num KdModel KdSpec KdBuild KdConstruct RGeom KdExtra DistLaws ParBufModel ParBufProofs
  BccpModel BccpProofs BccpFinal WspdModel WspdProofs WspdFinal UfModel UfProofs KruskalSpec
  SpecCommit Msf KruskalModel KruskalFinal BatchKruskal EmstModel EmstCover EmstMark EmstProofs.
Set Implicit Arguments.

(** ** The specification *)
Definition spanningTree (n : nat) (F : list (nat * nat)) : Prop :=
  inrange n F /\ acyclic F /\ forall a b, a < n -> b < n -> conn F a b.

Section Spec.
  Local Open Scope R_scope.
  Variable d : nat -> nat -> R.
  Definition treeLength (F : list (nat * nat)) : R := rtot (map (fun e => d (fst e) (snd e)) F).

  Lemma tree_size n F : spanningTree n F -> length F = (n - 1)%nat.
  Proof. intros (H1 & H2 & H3). pose proof (forest_size H1 H2). pose proof (span_full H3). lia. Qed.

  Lemma filter_acyclic (f : nat * nat -> bool) F : acyclic F -> acyclic (filter f F).
  Proof. intros H. apply acyclic_sub with F; auto. exists (filter (fun x => negb (f x)) F). apply filter_perm. Qed.

  (** A spanning tree in which any two vertices are joined by a path of edges
      not longer than their distance is minimal. *)
  Lemma bottleneck_minimal n T : spanningTree n T ->
    (forall p q, (p < n)%nat -> (q < n)%nat -> conn (filter (fun e => Rleb (d (fst e) (snd e)) (d p q)) T) p q) ->
    forall F, spanningTree n F -> treeLength T <= treeLength F.
  Proof.
    intros HT HB F HF. apply dominate_sum.
    - rewrite !map_length, (tree_size HT), (tree_size HF). auto.
    - intros r. unfold cle.
      assert (E : forall l, length (filter (fun x => Rleb x r) (map (fun e : nat * nat => d (fst e) (snd e)) l))
        = length (filter (fun e : nat * nat => Rleb (d (fst e) (snd e)) r) l)).
      { induction l as [|e l IH]; simpl; auto. destruct (Rleb (d (fst e) (snd e)) r); simpl; auto. }
      rewrite !E. apply indep_le with (X := []).
      + intros F1 a b F2 EF. destruct HF as (_ & HA & _). exact (@filter_acyclic _ F HA F1 a b F2 EF).
      + intros a b H. apply filter_In in H. destruct H as [H Hr]. apply Rleb_true in Hr. cbn [fst snd] in Hr.
        destruct HF as (HI & _). destruct (HI a b H). eapply conn_mono; [|apply HB; auto].
        intros e He. apply filter_In in He. destruct He as [He Hq]. apply Rleb_true in Hq.
        apply filter_In. split; auto. apply Rleb_true. lra.
  Qed.
End Spec.

Section Final.
  Local Open Scope R_scope.
  Variable dim : nat.
  Hypothesis Hdim : (1 <= dim)%nat.
  Variable pt : nat -> list R.
  Notation D p q := (edist dim (pt p) (pt q)).
  Variable srt : list (R * nat) -> list (R * nat).
  Hypothesis Hsrt : @sort4_ok RNum (fun _ => True) srt.
  Variable sort : list (iedge RNum) -> list (iedge RNum).
  Hypothesis Hsort : @sort_ok RNum (fun _ => True) sort.
  Variables (n procs cutoff : nat).
  Hypothesis Hprocs : (1 <= procs <= n)%nat.
  Hypothesis Hmax : forall p q, (p < n)%nat -> (q < n)%nat -> D p q < Rfmax.
  Notation Ends := (map (@ends3 RNum)).

  Lemma build_nice parallel workers threshold t : (0 < workers)%nat ->
    build RNum dim nat pt parallel workers threshold 1 (seq 0 n) = Ok t ->
    niceT dim pt t /\ Permutation (items t) (seq 0 n).
  Proof.
    intros HW E. assert (HP : seq 0 n <> []) by (destruct n; [lia|discriminate]).
    pose proof (@build_boxes RNum (fun _ => True) R_ordlaws R_span dim nat pt parallel workers threshold 1 (seq 0 n) t
      Hdim ltac:(lia) HW HP (fun _ _ _ _ => I) E) as B.
    pose proof (@build_pool RNum dim nat pt parallel workers threshold 1 (seq 0 n) t ltac:(lia) HW HP E) as (Sh & _).
    pose proof (@build_struct RNum dim nat pt parallel workers threshold 1 (seq 0 n) ltac:(lia) HW HP) as St. rewrite E in St.
    split; [|tauto]. destruct B as (_ & _ & _ & _ & B & _). clear -B Sh.
    induction t as [its b|b l IHl r IHr]; cbn [niceT].
    - split; [intros d Hd; apply (B _ (or_introl eq_refl) d Hd)|]. pose proof (Sh _ (or_introl eq_refl)) as Q. cbn in Q. lia.
    - split; [intros d Hd; apply (B _ (or_introl eq_refl) d Hd)|].
      split; [apply IHl|apply IHr]; intros s Hs; try apply B; try apply Sh; cbn [subtrees]; right; apply in_app_iff; auto.
  Qed.

  (** at most one collected edge for every two points *)
  Lemma nice_size t : nice dim pt t -> (1 <= isize t)%nat.
  Proof. intros H. destruct (@niceT_ne dim pt _ H) as (x & Hx). unfold isize, size. destruct (items (strip t)); [destruct Hx|simpl; lia]. Qed.
  Lemma isize_node i b (l r : IT) : isize (INode i b l r) = (isize l + isize r)%nat.
  Proof. unfold isize, size. cbn [strip items]. apply app_length. Qed.
  Lemma getFind_len lo hi f : forall u v L, @getFind RNum dim lo hi f u v = Ok L -> nice dim pt u -> nice dim pt v ->
    (length L <= isize u * isize v)%nat.
  Proof.
    induction f as [|f IH]; intros u v L E Nu Nv; [discriminate|]. cbn [getFind] in E.
    pose proof (@nice_size u Nu). pose proof (@nice_size v Nv).
    destruct (negb (getMoveon dim lo hi u v)); [inversion E; subst; simpl; lia|].
    destruct (iws dim u v); [inversion E; subst; simpl; nia|].
    destruct (ichildren dim u v) as [[[x y] [z w]]|] eqn:C; [|discriminate].
    destruct (@getFind RNum dim lo hi f x y) as [l1| | |] eqn:E1; try discriminate.
    destruct (@getFind RNum dim lo hi f z w) as [l2| | |] eqn:E2; try discriminate. inversion E; subst.
    pose proof (@child_nice dim pt u v x y z w C Nu Nv) as (Nx & Ny & Nz & Nw & _).
    pose proof (IH _ _ _ E1 Nx Ny). pose proof (IH _ _ _ E2 Nz Nw). rewrite app_length.
    apply ichildren_spec in C. destruct C as [(i & bx & -> & -> & ->)|(i & bx & -> & -> & ->)]; rewrite isize_node; nia.
  Qed.
  Lemma getCompute_len lo hi t : forall L, @getCompute RNum dim lo hi t = Ok L -> nice dim pt t ->
    (2 * length L <= isize t * (isize t - 1))%nat.
  Proof.
    induction t as [i its b|i b l IHl r IHr]; intros L E Nt; cbn [getCompute] in E; [inversion E; subst; simpl; lia|].
    destruct (@getStart RNum dim lo (INode i b l r)); [|inversion E; subst; simpl; lia].
    destruct (@getCompute RNum dim lo hi l) as [l1| | |] eqn:E1; try discriminate.
    destruct (@getCompute RNum dim lo hi r) as [l2| | |] eqn:E2; try discriminate.
    cbn [bind] in E. destruct (@getFind RNum dim lo hi (S (iheight l + iheight r)) l r) as [l3| | |] eqn:E3; try discriminate.
    inversion E; subst. destruct Nt as (_ & Nl & Nr). rewrite !app_length, isize_node.
    pose proof (@getFind_len _ _ _ l r _ E3 Nl Nr). pose proof (IHl _ eq_refl Nl). pose proof (IHr _ eq_refl Nr).
    pose proof (@nice_size l Nl). pose proof (@nice_size r Nr). nia.
  Qed.
  Lemma getRun_len beta lo hi L : (length (flat_map (@getRun RNum dim pt srt beta lo hi) L) <= length L)%nat.
  Proof.
    induction L as [|[u v] L IH]; cbn [flat_map length]; auto. rewrite app_length.
    assert (length (@getRun RNum dim pt srt beta lo hi (u, v)) <= 1)%nat; [|lia].
    unfold getRun. destruct (bichromaticClosestPair _ _ _ _ _ _ _) as [[[a b]|] d]; destruct (_ && _ && _); simpl; lia.
  Qed.

  Variable t0 : tree RNum nat.
  Hypothesis N0 : niceT dim pt t0.
  Hypothesis I0 : Permutation (items t0) (seq 0 n).
  Notation inv := (@inv dim pt n t0).

  Lemma inv_start lo0 : lo0 <= 0 ->
    inv {| eT := fresh t0; eUF := (fun _ => None, fun _ => None); eBeta := 2; eLo := lo0 |}.
  Proof.
    intros H0. assert (E : getEdge (N := RNum) n (fun _ => None, fun _ => None) = []).
    { unfold getEdge. generalize (seq 0 n). clear. induction l; simpl; auto. }
    constructor; cbn [eT eUF eBeta eLo fst].
    - clear. induction t0; simpl; congruence.
    - constructor; cbn [fst snd]; rewrite ?E.
      + apply forest_init.
      + intros. apply samerep_init.
      + apply acyclic_nil.
      + intros a b [].
      + auto.
    - rewrite E. intros a b w [].
    - intros p q _ _ HD. exfalso. unfold edist in HD. match type of HD with sqrt ?x < _ => pose proof (sqrt_pos x) end. lra.
    - clear. induction t0; simpl; repeat split; auto; discriminate.
    - clear. induction t0; simpl; repeat split; auto; discriminate.
    - intros hi (L & _ & [->|Hf] & _); [cbn [nmax RNum]; assert (0 < Rfmax) by (apply IZR_lt; reflexivity); lra|].
      apply in_map_iff in Hf. destruct Hf as (p & <- & _). pose proof (@inode_pos dim (fst p) (snd p)). lra.
  Qed.

  Lemma inv_done s : inv s -> (n - 1 <= numEdge n (eUF s))%nat ->
    spanningTree n (Ends (getEdge n (eUF s))) /\
    (forall a b w, In (a, b, w) (getEdge n (eUF s)) -> w = D a b) /\
    forall F, spanningTree n F -> rtot (map snd (getEdge n (eUF s))) <= treeLength (fun a b => D a b) F.
  Proof.
    intros HI HN. set (T := getEdge n (eUF s)) in *. pose proof (iv_uf HI) as HU.
    assert (Hc : forall a b, (a < n)%nat -> (b < n)%nat -> conn (Ends T) a b).
    { apply forest_full; [apply (uf_in HU)|apply (uf_acyclic HU)|]. rewrite map_length. exact HN. }
    assert (HT : spanningTree n (Ends T)) by (split; [apply (uf_in HU)|]; split; [apply (uf_acyclic HU)|auto]).
    split; auto. assert (HW : forall a b w, In (a, b, w) T -> w = D a b) by (intros a b w H; apply (iv_w HI _ _ _ H)).
    split; auto. intros F HF.
    assert (EL : rtot (map snd T) = treeLength (fun a b => D a b) (Ends T)).
    { unfold treeLength. f_equal. rewrite map_map. apply map_ext_in. intros [[a b] w] H. apply (HW a b w H). }
    rewrite EL. apply bottleneck_minimal with (n := n); auto.
    assert (EF : forall r, filter (fun e => Rleb (D (fst e) (snd e)) r) (Ends T) = Ends (lew r T)).
    { intros r. unfold lew. revert HW. clear. induction T as [|[[a b] w] T IH]; intros HW; auto. cbn [map filter ends3 fst snd].
      rewrite (HW a b w (or_introl eq_refl)). rewrite IH by (intros; apply HW; right; auto).
      destruct (Rleb (D a b) r); auto. }
    intros p q Hp Hq. rewrite EF. destruct (Rlt_dec (D p q) (eLo s)) as [Q|Q]; [apply (iv_near HI); auto|].
    eapply conn_mono; [|apply Hc; auto]. apply incl_map. intros [[a b] w] H. apply (proj2 (lew_in (D p q) T (a, b, w))). split; auto.
    destruct (iv_w HI _ _ _ H). cbn [snd]. lra.
  Qed.

  Lemma inv_max s : inv s -> eLo s = Rfmax -> (n - 1 <= numEdge n (eUF s))%nat.
  Proof.
    intros HI E. unfold numEdge. rewrite <- (map_length (@ends3 RNum)). apply span_full. intros a b Ha Hb.
    eapply conn_mono; [|apply (iv_near HI Ha Hb)]; [|rewrite E; auto].
    apply incl_map. intros e He. apply lew_in in He. tauto.
  Qed.

  Lemma loop_correct k s o : inv s -> @emstLoop RNum dim pt srt sort n procs cutoff k s o ->
    match o with
    | Ok T => spanningTree n (Ends T) /\ (forall a b w, In (a, b, w) T -> w = D a b) /\
        (forall F, spanningTree n F -> rtot (map snd T) <= treeLength (fun a b => D a b) F) /\
        (k = 0%nat \/ k = 1%nat \/ (2 ^ (k - 2) * eBeta s < n)%nat)
    | Throw => (91 < n)%nat
    | Fuel => True
    | UB => False
    end.
  Proof.
    intros HI HL. induction HL as [s HN|k s s' o HN HR HL IH|s o HN HR HO].
    - destruct (inv_done HI HN) as (A & B & C). split; auto.
    - pose proof (round_inv Hsrt Hsort Hprocs N0 I0 HI HR) as (HI' & HB & Hinc & Hm). specialize (IH HI').
      destruct o as [T| | |]; auto. destruct IH as (A & B & C & E). split; auto. split; auto. split; auto.
      destruct (le_lt_dec n (eBeta s)) as [Q|Q].
      + right; left. specialize (Hm Q). pose proof (inv_max HI' Hm). inversion HL; subst; auto; lia.
      + right. destruct k as [|[|k]]; [left; auto|right; simpl; lia|].
        right. rewrite HB in E. replace (S (S (S k)) - 2)%nat with (S k) by lia. replace (S (S k) - 2)%nat with k in E by lia.
        rewrite Nat.pow_succ_r'. destruct E as [E|[E|E]]; try discriminate. lia.
    - pose proof (round_inv Hsrt Hsort Hprocs N0 I0 HI HR) as H. destruct o as [s'| | |]; cbn [bind]; auto; [destruct (HO s' eq_refl)|].
      destruct H as (hi & L & EL & Hlen). pose proof (getRun_len (eBeta s) (eLo s) hi L) as H1.
      pose proof (@getCompute_len _ _ _ _ EL (s_nice N0 HI)) as H2.
      assert (Sz : isize (eT s) = n).
      { unfold isize, size. rewrite (iv_t HI). rewrite (Permutation_length I0). apply seq_length. }
      rewrite Sz in H2. destruct (le_lt_dec n 91) as [Q|Q]; auto. exfalso.
      assert (n * (n - 1) <= 91 * 90)%nat by nia. lia.
  Qed.
End Final.
