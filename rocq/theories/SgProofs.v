(** Correctness of the spatial graphs of SgModel.v over the reals, given a
    Delaunay triangulation in the sense of [outOk] (DelDrive.v). *)
From Coq Require Import Reals Lra Psatz.
From Verif Require Import Base Num KdModel KdSpec KdBuild KdConstruct RGeom RangeModel RangeProofs KdExtra
  DelModel DelMain DelGeom DelSpec DelDrive SgModel SgList SgSpec SgGeom.
Set Implicit Arguments.

Definition sortOk X (key : X -> sedge) (sort : list X -> list X) : Prop :=
  forall l, Permutation (sort l) l /\ sortedK key (sort l).

(** Directed edges *)
Lemma nodup_flat A B (f : A -> list B) : forall T, (forall t, In t T -> NoDup (f t)) ->
  (forall i j t t' d, nth_error T i = Some t -> nth_error T j = Some t' -> In d (f t) -> In d (f t') -> i = j) -> NoDup (flat_map f T).
Proof.
  induction T as [|t T IH]; intros H1 H2; [constructor|]. cbn [flat_map].
  assert (Dj : forall d, In d (f t) -> ~ In d (flat_map f T)).
  { intros d Hd Q. apply in_flat_map in Q. destruct Q as (t' & Ht' & Q). apply In_nth_error in Ht'. destruct Ht' as (j & Hj).
    specialize (H2 0 (S j) t t' d eq_refl Hj Hd Q). discriminate. }
  assert (N1 : NoDup (f t)) by (apply H1; left; auto).
  assert (N2 : NoDup (flat_map f T)).
  { apply IH; [intros t' Ht'; apply H1; right; auto|]. intros i j x x' d Hi Hj. pose proof (H2 (S i) (S j) x x' d Hi Hj) as Q. intros D1 D2. specialize (Q D1 D2). lia. }
  clear - Dj N1 N2. revert Dj N1. generalize (f t). intros l. induction l as [|a l IH]; auto. intros Dj N1. inversion N1; subst. cbn [app]. constructor.
  - rewrite in_app_iff. intros [Q|Q]; [auto|]. apply (Dj a); [left|]; auto.
  - apply IH; auto. intros d Hd. apply Dj. right. auto.
Qed.

Lemma delTri_rot V a b c : delTri V (a, b, c) -> delTri V (b, c, a).
Proof.
  intros (L & C & E). split; [tauto|]. split; [unfold turn in *; lra|]. intros l Hl (o & O1 & O2 & O3). apply (E l Hl). exists o.
  split; [congruence|]. split; [congruence|]. rewrite <- O2. exact O3.
Qed.
Lemma delTri_neq V a b c : delTri V (a, b, c) -> a <> b /\ b <> c /\ a <> c.
Proof. intros (_ & C & _). repeat split; intros ->; unfold turn in C; lra. Qed.
Lemma delTri_len V a b c : delTri V (a, b, c) -> (a < length V /\ b < length V /\ c < length V)%nat.
Proof. intros (L & _). exact L. Qed.

Lemma mkE_sym u v : mkE u v = mkE v u.
Proof. unfold mkE. destruct (Nat.ltb_spec v u), (Nat.ltb_spec u v); auto; try lia. f_equal; lia. Qed.
Lemma mkE_lt u v : (u < v)%nat -> mkE u v = (u, v).
Proof. intros H. unfold mkE. destruct (Nat.ltb_spec v u); auto; lia. Qed.
Lemma mkE_inv a b u v : mkE a b = (u, v) -> (a = u /\ b = v) \/ (a = v /\ b = u).
Proof. unfold mkE. destruct (b <? a); intros [= -> ->]; auto. Qed.
Lemma mkE_le a b u v : mkE a b = (u, v) -> (u <= v)%nat.
Proof. unfold mkE. destruct (Nat.ltb_spec b a); intros [= <- <-]; lia. Qed.

Section Common.
  Variable V : list pt.
  Variable n : nat.
  Variable T : list (nat * nat * nat).
  Hypothesis OUT : outOk n V T.
  Hypothesis LV : length V = (n + 10)%nat.

  Definition dirOf (k : nat * nat * nat) : sedge := (snd (fst k), snd k).
  Let K := flat_map triRots T.
  Let D := map dirOf K.

  Lemma K_in x u v : In (x, u, v) K <-> exists t, In t T /\ rotOf (u, v, x) t.
  Proof.
    unfold K. rewrite in_flat_map. split; intros (t & Ht & Q); exists t; (split; [exact Ht|]); destruct t as [[a b] c].
    - cbn [triRots In] in Q. unfold rotOf. destruct Q as [Q|[Q|[Q|[]]]]; injection Q as -> -> ->; auto.
    - unfold rotOf in Q. cbn [triRots In]. destruct Q as [Q|[Q|Q]]; injection Q as -> -> ->; auto.
  Qed.
  Lemma K_tri x u v : In (x, u, v) K <-> delTri V (u, v, x).
  Proof.
    rewrite K_in. split.
    - intros (t & Ht & Q). pose proof (o_sound OUT t Ht) as S. unfold rotOf in Q. destruct Q as [-> | [-> | -> ]]; auto; repeat (apply delTri_rot; try assumption).
    - intros H. destruct (o_comp OUT _ H) as (i & t' & Hi & R & _). exists t'. split; auto. eapply nth_error_In; eauto.
  Qed.
  Lemma D_in u v : In (u, v) D <-> exists x, delTri V (u, v, x).
  Proof.
    unfold D. rewrite in_map_iff. split.
    - intros ([[x a] b] & E & Hk). unfold dirOf in E. cbn [fst snd] in E. injection E as -> ->. exists x. apply K_tri; auto.
    - intros (x & H). exists (x, u, v). split; auto. apply K_tri; auto.
  Qed.
  Lemma D_opp u v : (u < n)%nat -> In (u, v) D -> In (v, u) D.
  Proof.
    rewrite !D_in. intros Hu (x & H). destruct (o_comp OUT _ H) as (i & t & Hi & R & _). apply nth_error_In in Hi.
    assert (E : edge t u v) by (unfold rotOf in R; destruct R as [-> | [-> | -> ]]; unfold edge; auto).
    destruct (o_opp OUT _ _ _ Hi E) as [(Q & _)|(t' & Ht' & E')]; [lia|]. pose proof (o_sound OUT _ Ht') as S'.
    destruct t' as [[a b] c]. unfold edge in E'. destruct E' as [Q|[Q|Q]]; injection Q as -> ->; eexists; [exact S'|apply delTri_rot; exact S'|apply delTri_rot, delTri_rot; exact S'].
  Qed.
  Lemma D_nodup : NoDup D.
  Proof.
    unfold D, K. rewrite flat_map_concat_map, concat_map, map_map, <- flat_map_concat_map. apply nodup_flat.
    - intros t Ht. pose proof (o_sound OUT t Ht) as S. destruct t as [[a b] c]. destruct (delTri_neq S) as (N1 & N2 & N3).
      cbn [triRots map dirOf fst snd]. repeat constructor; cbn [In]; intros Q; repeat (destruct Q as [Q|Q]; [injection Q; intros; congruence|]); destruct Q.
    - intros i j t t' d Hi Hj D1 D2. destruct d as [u v]. apply (o_edge OUT i j (t := t) (t' := t') u v); auto.
      + destruct t as [[a b] c]. cbn [triRots map dirOf fst snd In] in D1. unfold edge. destruct D1 as [Q|[Q|[Q|[]]]]; rewrite <- Q; auto.
      + destruct t' as [[a b] c]. cbn [triRots map dirOf fst snd In] in D2. unfold edge. destruct D2 as [Q|[Q|[Q|[]]]]; rewrite <- Q; auto.
  Qed.

  Lemma count2 (f : nat * nat * nat -> sedge) u v : (u < v < n)%nat -> (In (u, v) D \/ In (v, u) D) ->
    (forall k, In k K -> (f k = (u, v) <-> dirOf k = (u, v) \/ dirOf k = (v, u))) -> length (filter (fun k => eqE (f k) (u, v)) K) = 2%nat.
  Proof.
    intros Huv I Hf.
    rewrite (@filter_ext_in _ _ (fun k => eqE (dirOf k) (u, v) || eqE (dirOf k) (v, u))).
    2:{ intros k Hk. specialize (Hf k Hk). rewrite <- !eqE_spec in Hf. destruct (eqE (f k) (u, v)), (eqE (dirOf k) (u, v)), (eqE (dirOf k) (v, u)); cbn [orb]; auto; intuition congruence. }
    rewrite filter_or, !filter_one by (try apply D_nodup; intros k Q; apply eqE_spec in Q; rewrite Q; apply eqE_false; intros [= ? ?]; lia).
    assert (I1 : In (u, v) D) by (destruct I as [I|I]; auto; apply D_opp; auto; lia).
    assert (I2 : In (v, u) D) by (apply D_opp; auto; lia).
    assert (E : forall d, In d D -> existsb (fun k => eqE (dirOf k) d) K = true).
    { intros d Hd. unfold D in Hd. apply in_map_iff in Hd. destruct Hd as (k & Ek & Hk). apply existsb_exists. exists k. split; auto. rewrite Ek. apply eqE_refl. }
    rewrite !E; auto.
  Qed.

  Lemma cnt_map X (key : X -> sedge) (g : nat * nat * nat -> X) e : cnt key e (map g K) = length (filter (fun k => eqE (key (g k)) e) K).
  Proof. unfold cnt. generalize K. intros l. induction l as [|a l IH]; auto. cbn [map filter]. destruct (eqE (key (g a)) e); cbn [length]; auto. Qed.
  Lemma K_len : length K = (3 * length T)%nat.
  Proof. unfold K. clear. induction T as [|[[a b] c] T' IH]; auto. cbn [flat_map triRots]. rewrite app_length, IH. cbn [length]. lia. Qed.

  (** *** delaunayGraph *)
  Section DG.
    Variable M : nat.
    Hypothesis HM : (n <= M)%nat.
    Variable sort : list sedge -> list sedge.
    Hypothesis SO : sortOk (fun e => e) sort.
    Variable p : sedge.
    Variable spare : nat.
    Hypothesis SP : (1 <= spare)%nat.

    Lemma dg_list : flat_map (dgTri M n) T = map (fun k => dgEdge M n (dirOf k)) K.
    Proof. unfold K. clear. induction T as [|[[a b] c] T' IH]; auto. cbn [flat_map triRots]. rewrite map_app, <- IH. auto. Qed.

    Let L := flat_map (dgTri M n) T ++ [emptyE M].
    Let es := sort L.
    Let ne (e : sedge) : bool := negb (isEmptyE M e).

    Lemma dg_ne e : In e L -> ne e = true -> exists u v, e = (u, v) /\ (u < v < n)%nat /\ (In (u, v) D \/ In (v, u) D).
    Proof.
      unfold L, ne. rewrite in_app_iff, dg_list. intros [H|[<-|[]]] Q.
      - apply in_map_iff in H. destruct H as ([[x a] b] & <- & Hk). unfold dgEdge, dirOf in *. cbn [fst snd] in *.
        destruct ((a <? n) && (b <? n)) eqn:E; [|unfold isEmptyE, emptyE in Q; cbn [fst] in Q; rewrite Nat.eqb_refl in Q; discriminate].
        apply andb_true_iff in E. rewrite !Nat.ltb_lt in E. pose proof (proj1 (K_tri _ _ _) Hk) as S. destruct (delTri_neq S) as (N1 & _).
        assert (Ind : In (a, b) D) by (apply D_in; eauto).
        destruct (lt_dec a b) as [Z|Z]; [exists a, b; rewrite mkE_lt by auto|exists b, a; rewrite mkE_sym, mkE_lt by lia]; (split; [auto|split; [lia|auto]]).
      - unfold isEmptyE, emptyE in Q. cbn [fst] in Q. rewrite Nat.eqb_refl in Q. discriminate.
    Qed.

    Lemma dgraph_ok : exists E, dgraph M sort (Some p) spare n T = Ok E /\ StronglySorted (fun a b => ltE a b = true) E /\
      forall u v, In (u, v) E <-> delEdge V n u v.
    Proof.
      destruct (SO L) as (PE & SE). fold es in PE, SE.
      assert (Les : length es = (3 * length T + 1)%nat).
      { rewrite (Permutation_length PE). unfold L. rewrite app_length, dg_list, map_length, K_len. auto. }
      assert (Ine : forall e, In e es <-> In e L) by (intros e; split; intros H; [eapply Permutation_in; [exact PE|auto]|eapply Permutation_in; [symmetry; exact PE|auto]]).
      assert (Etest : forall a b, (eqE a b && negb (isEmptyE M a))%bool = test (fun e => e) ne a b).
      { intros a b. unfold test, ne. destruct (eqE a b) eqn:E; auto. apply eqE_spec in E. rewrite E. destruct (isEmptyE M b); auto. }
      exists (scan (fun e => e) ne p es). split; [|].
      { unfold dgraph. fold L. change (sort L) with es.
        rewrite (@mapR_ok _ _ _ (fun i => test (fun e => e) ne (nth i es p) (nth (i + 1) es p))).
        - cbn [bind]. rewrite flags_map, pack_scan. auto.
        - intros i Hi. apply in_seq in Hi. rewrite !(rdPast_all es p) by lia. cbn [bind]. rewrite wrAt_ok by lia. cbn [bind]. rewrite Etest. auto. }
      destruct (@scan_spec sedge (fun e => e) ne p es SE) as (S1 & S2).
      { intros e He Ne. apply Ine in He. destruct (dg_ne _ He Ne) as (u & v & -> & Huv & ID). rewrite (@cnt_perm _ _ _ _ _ PE). unfold L. rewrite cnt_app, dg_list, cnt_map.
        assert (Z : cnt (fun e : sedge => e) (u, v) [emptyE M] = 0%nat).
        { unfold cnt. cbn [filter]. assert (Q : eqE (emptyE M) (u, v) = false) by (apply eqE_false; unfold emptyE; intros [= ? ?]; lia). rewrite Q. auto. }
        rewrite Z, Nat.add_0_r. apply count2; auto. intros [[x a] b] Hk. unfold dgEdge, dirOf. cbn [fst snd].
        destruct ((a <? n) && (b <? n)) eqn:E.
        - split; [intros Q; apply mkE_inv in Q; destruct Q as [(-> & ->)|(-> & ->)]; auto|]. intros [[= -> ->]|[= -> ->]]; [|rewrite mkE_sym]; apply mkE_lt; lia.
        - apply andb_false_iff in E. rewrite !Nat.ltb_ge in E. split; [unfold emptyE; intros [= ? ?]; lia|intros [[= ? ?]|[= ? ?]]; lia]. }
      { intros l0 x E. assert (Q : ltE x (emptyE M) = false).
        { rewrite E in SE. apply (last_big _ _ SE). rewrite <- E. apply Ine. apply in_or_app. right. left. auto. }
        destruct (ne x) eqn:Nx; auto. assert (Hx : In x L) by (apply Ine; rewrite E; apply in_or_app; right; left; auto).
        destruct (dg_ne _ Hx Nx) as (u & v & -> & Huv & _). apply ltE_not in Q. cbn [fst snd emptyE] in Q. unfold emptyE in Q. cbn [fst snd] in Q. lia. }
      split; [exact S1|]. intros u v. specialize (S2 (u, v)). rewrite map_id in S2. rewrite S2. unfold delEdge. rewrite <- D_in. split.
      - intros ((x & Hx & ->) & Al). specialize (Al _ Hx eq_refl). apply Ine in Hx. destruct (dg_ne _ Hx Al) as (u' & v' & [= <- <-] & Huv & ID).
        split; auto. destruct ID as [ID|ID]; auto. apply D_opp; auto. lia.
      - intros (Huv & ID). split.
        + exists (u, v). split; auto. apply Ine. unfold L. rewrite dg_list. apply in_or_app. left. unfold D in ID. apply in_map_iff in ID. destruct ID as (k & Ek & Hk).
          apply in_map_iff. exists k. split; auto. rewrite Ek. unfold dgEdge. cbn [fst snd]. destruct (Nat.ltb_spec u n), (Nat.ltb_spec v n); try lia. cbn [andb]. apply mkE_lt. lia.
        + intros x _ ->. unfold ne, isEmptyE. cbn [fst]. destruct (Nat.eqb_spec u M); auto; lia.
    Qed.
  End DG.
End Common.

(** As written: the scan runs one cell too far. *)
Lemma dgraph_ub M sort past spare n T : (forall l, Permutation (sort l) l) -> past = None \/ spare = 0%nat -> dgraph M sort past spare n T = UB.
Proof.
  intros SO H. unfold dgraph. set (es := sort (flat_map (dgTri M n) T ++ [emptyE M])).
  assert (Les : length es = (3 * length T + 1)%nat).
  { unfold es. rewrite (Permutation_length (SO _)), app_length. cbn [length]. f_equal. clear. induction T as [|[[a b] c] T' IH]; auto. cbn [flat_map]. rewrite app_length, IH. cbn [length dgTri triDirs map]. lia. }
  rewrite mapR_ub; auto.
  - intros i Hi. apply in_seq in Hi. rewrite (@rdPast_in _ es past _ (emptyE M)) by lia. cbn [bind]. unfold rdPast. destruct (nth_error es (i + 1)).
    + cbn [bind]. unfold wrAt. destruct (i <? _); cbn [bind]; eauto.
    + destruct past as [q|]; cbn [bind]; auto. destruct (i + 1 =? length es); cbn [bind]; auto. unfold wrAt. destruct (i <? _); cbn [bind]; eauto.
  - exists (3 * length T)%nat. split; [apply in_seq; lia|]. rewrite (@rdPast_in _ es past _ (emptyE M)) by lia. cbn [bind].
    unfold rdPast. rewrite (proj2 (nth_error_None es (3 * length T + 1))) by lia. destruct H as [->| ->]; auto.
    destruct past as [q|]; auto. destruct (_ =? _); cbn [bind]; auto. unfold wrAt. rewrite Nat.add_0_r, Nat.ltb_irrefl. auto.
Qed.

(** *** gabrielGraph *)
Lemma len_dsq (a b : pt) : @plen RNum (@psub RNum a b) = sqrt (dsq a b).
Proof. unfold plen, psub, dsq. cbn [fst snd nsqrt nadd nmul nsub nzero nT RNum]. f_equal. ring. Qed.
Lemma centre_mid (a b : pt) : @pdivs RNum (@padd RNum a b) (ntwo RNum) = mid a b.
Proof. unfold pdivs, padd, mid. cbn [fst snd ndiv nadd ntwo nT RNum]. auto. Qed.
Lemma dsq_nn a b : (0 <= dsq a b)%R.
Proof. unfold dsq. pose proof (Rle_0_sqr (fst a - fst b)) as S1. pose proof (Rle_0_sqr (snd a - snd b)) as S2. unfold Rsqr in S1, S2. lra. Qed.

Lemma gab_flag (a b x : pt) : Rleb (sqrt (dsq x (mid a b))) (sqrt (dsq a b) / 2) = negb (if Rlt_dec 0 (dotv a b x) then true else false).
Proof.
  assert (E : (sqrt (dsq a b) / 2 = sqrt (dsq (mid a b) a))%R).
  { rewrite <- (sqrt_square (sqrt (dsq a b) / 2)) by (pose proof (sqrt_pos (dsq a b)); lra). f_equal.
    replace (sqrt (dsq a b) / 2 * (sqrt (dsq a b) / 2))%R with (sqrt (dsq a b) * sqrt (dsq a b) / 4)%R by field. rewrite sqrt_sqrt by apply dsq_nn. unfold dsq, mid. cbn [fst snd]. field. }
  rewrite E, dot_mid. assert (S : dsq x (mid a b) = dsq (mid a b) x) by (unfold dsq; ring). rewrite S.
  destruct (Rlt_dec 0 (dsq (mid a b) x - dsq (mid a b) a)) as [Q|Q]; cbn [negb].
  - apply Rleb_false. apply sqrt_lt_1_alt. split; [apply dsq_nn|lra].
  - apply Rleb_true. apply sqrt_le_1_alt. lra.
Qed.

Section Gab.
  Variables cs sn : nat -> R.
  Hypothesis RG : ring10 cs sn.
  Variables P B : list pt.
  Let n := length P.
  Hypothesis N2 : (2 <= n)%nat.
  Hypothesis RO : ringOf cs sn P B.
  Let V := P ++ B.
  Hypothesis GEN : genPos V n.
  Variable T : list (nat * nat * nat).
  Hypothesis OUT : outOk n V T.
  Variable M : nat.
  Hypothesis HM : (n + 10 <= M)%nat.
  Variable sort : list (sedge * bool) -> list (sedge * bool).
  Hypothesis SO : sortOk fst sort.
  Variable p : sedge * bool.
  Variable pastP : nat -> option pt.
  Hypothesis PP : forall x, (n <= x < n + 10)%nat -> pastP x <> None.

  Let K := flat_map triRots T.
  Let D := map dirOf K.
  Let far (a b x : nat) : bool := if Rlt_dec 0 (dotv (at_ V a) (at_ V b) (at_ V x)) then true else false.
  Let gbV (k : nat * nat * nat) : sedge * bool := let '(x, u, v) := k in (mkE u v, (u <? n) && (v <? n) && far u v x).

  Let RF := ring_facts RG N2 RO GEN.
  Let LV : length V = (n + 10)%nat := proj1 (proj2 RF).
  Let AtP : forall i, (i < n)%nat -> at_ V i = at_ P i := proj1 (proj2 (proj2 RF)).
  Let FAR : forall u v w, (u < n)%nat -> (v < n)%nat -> (n <= w < n + 10)%nat -> (0 < dotv (at_ V u) (at_ V v) (at_ V w))%R := proj2 (proj2 (proj2 (proj2 RF))).

  Lemma getP_in i : (i < n)%nat -> @getP RNum pastP P i = Ok (at_ V i).
  Proof.
    intros H. unfold getP. change (@nth_error (pt2 RNum) P i) with (@nth_error pt P i). rewrite (nth_error_nth' P (0, 0)%R H). f_equal. symmetry. exact (AtP H).
  Qed.
  Lemma getP_out i : (n <= i < n + 10)%nat -> exists q, @getP RNum pastP P i = Ok q.
  Proof.
    intros H. unfold getP. change (@nth_error (pt2 RNum) P i) with (@nth_error pt P i). rewrite (proj2 (nth_error_None P i)) by (fold n; lia).
    specialize (PP H). destruct (pastP i) as [q|]; [eauto|congruence].
  Qed.
  Lemma far_true a b x : far a b x = true <-> (0 < dotv (at_ V a) (at_ V b) (at_ V x))%R.
  Proof. unfold far. destruct (Rlt_dec 0 _); split; auto; try discriminate; tauto. Qed.

  Lemma gb_run k : In k K -> @gbEdge RNum pastP P k = Ok (gbV k).
  Proof.
    intros Hk. destruct k as [[x u] v]. pose proof (proj1 (K_tri OUT _ _ _) Hk) as S. destruct (delTri_len S) as (L1 & L2 & L3). rewrite LV in L1, L2, L3.
    unfold gbEdge, gbV. change (@length (pt2 RNum) P) with n. destruct (Nat.leb_spec n u) as [Q|Q], (Nat.ltb_spec u n) as [Q'|Q']; try lia; cbn [orb andb]; auto.
    destruct (Nat.leb_spec n v) as [Z|Z], (Nat.ltb_spec v n) as [Z'|Z']; try lia; cbn [andb]; auto.
    rewrite (getP_in Q), (getP_in Z). cbn [bind].
    destruct (Nat.ltb_spec x n) as [Y|Y].
    - rewrite (getP_in Y). cbn [bind andb]. f_equal. f_equal. rewrite centre_mid. rewrite !len_dsq.
      etransitivity; [exact (f_equal negb (gab_flag (at_ V u) (at_ V v) (at_ V x)))|]. rewrite negb_involutive. auto.
    - destruct (getP_out (conj Y L3)) as (q & Eq). rewrite Eq. cbn [bind andb negb].
      f_equal. f_equal. symmetry. apply far_true. apply FAR; auto.
  Qed.

  Let L := map gbV K ++ [(emptyE M, false)].
  Let es := sort L.

  Lemma gb_in e : In e L -> snd e = true -> exists x a b, e = (mkE a b, true) /\ In (x, a, b) K /\ (a < n)%nat /\ (b < n)%nat /\ (0 < dotv (at_ V a) (at_ V b) (at_ V x))%R.
  Proof.
    unfold L. rewrite in_app_iff. intros [H|[<-|[]]] Q; [|discriminate]. apply in_map_iff in H. destruct H as ([[x a] b] & <- & Hk). cbn [gbV snd] in *.
    rewrite Q. apply andb_true_iff in Q. destruct Q as (Q & F). apply andb_true_iff in Q. rewrite !Nat.ltb_lt in Q. apply far_true in F. exists x, a, b. tauto.
  Qed.

  Lemma firstn_pack A (l : list A) fl x : packF (firstn (length l) (l ++ [x])) (fl ++ [false]) = packF (l ++ [x]) (fl ++ [false]) \/ length fl <> length l.
  Proof.
    destruct (Nat.eq_dec (length fl) (length l)) as [E|E]; auto. left. rewrite firstn_app, Nat.sub_diag, firstn_all. cbn [firstn]. rewrite app_nil_r.
    revert fl E. induction l as [|a l IH]; intros [|f fl] E; cbn in *; auto; try lia. destruct f; [f_equal|]; apply IH; lia.
  Qed.

  Lemma ggraph_ok : exists E, @ggraph M RNum sort (Some p) pastP P T = Ok E /\ StronglySorted (fun a b => ltE a b = true) E /\
    forall u v, In (u, v) E <-> gabriel P u v.
  Proof.
    destruct (SO L) as (PE & SE). fold es in PE, SE.
    assert (Les : length es = (3 * length T + 1)%nat).
    { rewrite (Permutation_length PE). unfold L. rewrite app_length, map_length. unfold K. rewrite K_len. auto. }
    assert (Ine : forall e, In e es <-> In e L) by (intros e; split; intros H; [eapply Permutation_in; [exact PE|auto]|eapply Permutation_in; [symmetry; exact PE|auto]]).
    assert (LA : forall l0 x, es = l0 ++ [x] -> snd x = false).
    { intros l0 x E. assert (Q : ltE (fst x) (emptyE M) = false).
      { rewrite E in SE. apply (last_big _ _ SE (emptyE M, false)). rewrite <- E. apply Ine. apply in_or_app. right. left. auto. }
      destruct (snd x) eqn:Nx; auto. assert (Hx : In x L) by (apply Ine; rewrite E; apply in_or_app; right; left; auto).
      destruct (gb_in _ Hx Nx) as (y & a & b & -> & Hk & Ha & Hb & _). cbn [fst] in Q. apply ltE_not in Q. unfold emptyE, mkE in Q. destruct (b <? a); cbn [fst snd] in Q; lia. }
    exists (map fst (scan fst snd p es)). split; [|].
    { unfold ggraph. rewrite (@mapR_ok _ _ _ gbV) by (intros k Hk; apply gb_run; exact Hk). cbn [bind]. fold K. fold L. change (sort L) with es.
      rewrite (@mapR_ok _ _ _ (fun i => test fst snd (nth i es p) (nth (i + 1) es p))).
      - cbn [bind]. rewrite flags_map. f_equal. destruct (exists_last (l := es)) as (l0 & x & E); [intros Z; rewrite Z in Les; cbn in Les; lia|].
        rewrite <- pack_scan.
        assert (Ef : flagsOf fst snd p es = removelast (flagsOf fst snd p es) ++ [false]).
        { rewrite E. clear - LA E. specialize (LA l0 x E). revert LA. clear. intros LA. induction l0 as [|a l0 IH].
          - cbn [app flagsOf removelast]. unfold test. rewrite LA, andb_false_r. auto.
          - cbn [app flagsOf]. rewrite IH at 1. cbn [removelast].
            destruct (flagsOf fst snd p (l0 ++ [x])) as [|f fl] eqn:G; [destruct l0; discriminate|]. cbn [app]. auto. }
        assert (Lf : length (flagsOf fst snd p es) = length es) by (clear; generalize es; intros l0; induction l0 as [|a l IH]; cbn [flagsOf length]; auto).
        rewrite Ef. assert (L0 : length l0 = (3 * length T)%nat) by (rewrite E, app_length in Les; cbn [length] in Les; lia).
        set (fl := removelast (flagsOf fst snd p es)) in *.
        assert (Lf' : length fl = length l0) by (rewrite Ef, E, !app_length in Lf; cbn [length] in Lf; lia).
        rewrite E, map_app. cbn [map]. rewrite <- L0. rewrite <- (map_length fst l0) at 1.
        destruct (firstn_pack (map fst l0) fl (fst x)) as [Q|Q]; [|rewrite map_length in Q; lia]. rewrite Q.
        clear - Lf'. clearbody fl. revert fl Lf'. induction l0 as [|a l IH]; intros [|f fl] H; cbn in *; auto; try lia. destruct f; cbn [map]; [f_equal|]; apply IH; lia.
      - intros i Hi. apply in_seq in Hi. rewrite !(rdPast_all es p) by lia. cbn [bind]. rewrite wrAt_ok by lia. auto. }
    destruct (@scan_spec _ fst snd p es SE) as (S1 & S2); auto.
    { intros e He Ne. apply Ine in He. destruct (gb_in _ He Ne) as (x & a & b & -> & Hk & Ha & Hb & _). cbn [fst].
      assert (Nab : a <> b) by (apply (delTri_neq (proj1 (K_tri OUT _ _ _) Hk))).
      assert (ID : In (a, b) D) by (apply (D_in OUT); exists x; apply (K_tri OUT); auto).
      assert (G : forall u v, (u < v < n)%nat -> mkE a b = (u, v) -> In (u, v) D \/ In (v, u) D -> cnt fst (u, v) es = 2%nat).
      { intros u v Huv Em I2. rewrite (@cnt_perm _ _ _ _ _ PE). unfold L. rewrite cnt_app. unfold K. rewrite cnt_map.
        assert (Z : cnt (@fst sedge bool) (u, v) [(emptyE M, false)] = 0%nat).
        { unfold cnt. cbn [filter fst]. assert (Q : eqE (emptyE M) (u, v) = false) by (apply eqE_false; unfold emptyE; intros [= ? ?]; lia). rewrite Q. auto. }
        rewrite Z, Nat.add_0_r. apply (@count2 V n T OUT LV (fun k => fst (gbV k)) u v); auto. intros [[x' a'] b'] Hk'. unfold gbV, dirOf. cbn [fst snd].
        split; [intros Q; apply mkE_inv in Q; destruct Q as [(-> & ->)|(-> & ->)]; auto|]. intros [[= -> ->]|[= -> ->]]; [|rewrite mkE_sym]; apply mkE_lt; lia. }
      destruct (lt_dec a b) as [Z|Z]; [rewrite mkE_lt by auto; apply G; auto; apply mkE_lt; auto|].
      rewrite mkE_sym, mkE_lt by lia. apply G; auto; [lia|]. rewrite mkE_sym. apply mkE_lt. lia. }
    split.
    { revert S1. generalize (scan fst snd p es). clear. intros l H. induction H as [|a l H1 IH H2]; cbn [map]; constructor; auto.
      rewrite Forall_forall in *. intros y Hy. apply in_map_iff in Hy. destruct Hy as (z & <- & Hz). auto. }
    intros u v. rewrite (S2 (u, v)). split.
    - intros ((e & He & Ee) & Al). pose proof (Al e He Ee) as Fe. apply Ine in He. destruct (gb_in _ He Fe) as (x & a & b & -> & Hk & Ha & Hb & _). cbn [fst] in Ee.
      assert (Nab : a <> b) by (apply (delTri_neq (proj1 (K_tri OUT _ _ _) Hk))).
      assert (ID : In (a, b) D) by (apply (D_in OUT); exists x; apply (K_tri OUT); auto).
      assert (Huv : (u < v < n)%nat).
      { pose proof (mkE_le _ _ Ee) as Q. apply mkE_inv in Ee. destruct Ee as [(-> & ->)|(-> & ->)]; lia. }
      assert (I1 : In (u, v) D). { pose proof (mkE_inv _ _ Ee) as Q. destruct Q as [(-> & ->)|(-> & ->)]; auto. apply (D_opp OUT); auto. }
      assert (I2 : In (v, u) D) by (apply (D_opp OUT); auto; lia).
      assert (Fl : forall c d w, mkE c d = (u, v) -> delTri V (c, d, w) -> (0 < dotv (at_ V c) (at_ V d) (at_ V w))%R).
      { intros c d w Em S. assert (Hw : In (w, c, d) K) by (apply (K_tri OUT); auto).
        assert (Hg : In (gbV (w, c, d)) es) by (apply Ine; unfold L; apply in_or_app; left; apply in_map; auto).
        pose proof (Al _ Hg Em) as F. cbn [gbV snd] in F. apply andb_true_iff in F. apply far_true. tauto. }
      apply (D_in OUT) in I1. apply (D_in OUT) in I2. destruct I1 as (w & S1'), I2 as (w' & S2').
      pose proof (Fl u v w (mkE_lt (proj1 Huv)) S1') as F1. pose proof (Fl v u w' (eq_trans (mkE_sym _ _) (mkE_lt (proj1 Huv))) S2') as F2.
      split; [exact Huv|]. intros z Hz N1 N3. fold n in Hz. rewrite <- !AtP by lia.
      assert (Q : (0 < dotv (at_ V u) (at_ V v) (at_ V z))%R); [|rewrite dot_mid in Q; lra].
      pose proof (proj1 GEN u v z) as NZ. rewrite LV in NZ. specialize (NZ ltac:(lia) ltac:(lia) ltac:(lia) ltac:(lia) ltac:(auto) ltac:(auto)).
      destruct (Rlt_dec 0 (turn (at_ V u) (at_ V v) (at_ V z))) as [Q|Q].
      + apply (@apex_left P B u v w z S1'); auto. change (z < length V)%nat. rewrite LV. lia.
      + rewrite <- dotv_sym. apply (@apex_left P B v u w' z S2'); auto; [change (z < length V)%nat; rewrite LV; lia|].
        change (0 < turn (at_ V v) (at_ V u) (at_ V z))%R. rewrite turn_swap. lra.
    - intros (Huv & G). fold n in Huv, G.
      assert (Gd : forall w, (w < n + 10)%nat -> w <> u -> w <> v -> (0 < dotv (at_ V u) (at_ V v) (at_ V w))%R).
      { intros w Hw N1 N3. destruct (le_lt_dec n w); [apply FAR; lia|]. rewrite dot_mid, !AtP by lia. specialize (G w l N1 N3). lra. }
      destruct (@gabriel_tri cs sn RG P B N2 RO GEN u v) as (w & Hw); [fold n; lia|fold n; lia|lia|intros w Hw W1 W2; apply Gd; auto; change (w < n)%nat in Hw; lia|].
      fold V in Hw. assert (Hk : In (w, u, v) K) by (apply (K_tri OUT); auto). split.
      + exists (gbV (w, u, v)). split; [apply Ine; unfold L; apply in_or_app; left; apply in_map; auto|]. cbn [gbV fst]. apply mkE_lt. lia.
      + intros e He Ee. apply Ine in He. unfold L in He. apply in_app_or in He. destruct He as [He|[<-|[]]]; [|cbn [fst] in Ee; unfold emptyE in Ee; injection Ee; intros; lia].
        apply in_map_iff in He. destruct He as ([[x a] b] & <- & Hx). cbn [gbV fst snd] in *. pose proof (proj1 (K_tri OUT _ _ _) Hx) as S.
        destruct (delTri_neq S) as (Q1 & Q2 & Q3). destruct (delTri_len S) as (L1 & L2 & L3). rewrite LV in L1, L2, L3.
        apply andb_true_iff. split; [apply andb_true_iff; rewrite !Nat.ltb_lt; apply mkE_inv in Ee; lia|]. apply far_true.
        apply mkE_inv in Ee. destruct Ee as [(-> & ->)|(-> & ->)]; [apply Gd; auto|rewrite dotv_sym; apply Gd; auto].
  Qed.
End Gab.

Lemma ggraph_ub M sort pastP (P : list (pt2 RNum)) T : (forall l, Permutation (sort l) l) -> @ggraph M RNum sort None pastP P T = UB.
Proof.
  intros SO. unfold ggraph.
  assert (G : forall k, (exists y, @gbEdge RNum pastP P k = Ok y) \/ @gbEdge RNum pastP P k = UB).
  { intros [[x u] v]. unfold gbEdge. destruct (_ || _); eauto. assert (GP : forall i, (exists q, @getP RNum pastP P i = Ok q) \/ @getP RNum pastP P i = UB).
    { intros i. unfold getP. destruct (nth_error P i); eauto. destruct (pastP i); eauto. }
    destruct (GP u) as [(q & E)|E]; rewrite E; cbn [bind]; auto. destruct (GP v) as [(q' & E')|E']; rewrite E'; cbn [bind]; auto.
    destruct (GP x) as [(q'' & E'')|E'']; rewrite E''; cbn [bind]; eauto. }
  assert (R : (exists L, mapR (@gbEdge RNum pastP P) (flat_map triRots T) = Ok L /\ length L = (3 * length T)%nat) \/ mapR (@gbEdge RNum pastP P) (flat_map triRots T) = UB).
  { rewrite <- K_len. generalize (flat_map triRots T). intros l. induction l as [|k l IH]; cbn [mapR]; [left; exists []; auto|].
    destruct (G k) as [(y & E)|E]; rewrite E; cbn [bind]; auto. destruct IH as [(L & EL & LL)|EL]; rewrite EL; cbn [bind]; auto. left. exists (y :: L). cbn [length]. auto. }
  destruct R as [(L & EL & LL)|EL]; rewrite EL; cbn [bind]; auto. set (es := sort (L ++ [(emptyE M, false)])).
  assert (Les : length es = (3 * length T + 1)%nat) by (unfold es; rewrite (Permutation_length (SO _)), app_length, LL; auto).
  rewrite mapR_ub; auto.
  - intros i Hi. apply in_seq in Hi. rewrite (@rdPast_in _ es None _ (emptyE M, false)) by lia. cbn [bind]. unfold rdPast. destruct (nth_error es (i + 1)); cbn [bind]; auto.
    unfold wrAt. destruct (i <? _); cbn [bind]; eauto.
  - exists (3 * length T)%nat. split; [apply in_seq; lia|]. rewrite (@rdPast_in _ es None _ (emptyE M, false)) by lia. cbn [bind].
    unfold rdPast. rewrite (proj2 (nth_error_None es (3 * length T + 1))) by lia. auto.
Qed.
