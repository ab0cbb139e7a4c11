(** The beta skeleton of SgModel.v over the reals. *)
From Coq Require Import Reals Lra Psatz.
From Verif Require Import Base Num KdModel KdSpec KdBuild KdConstruct RGeom RangeModel RangeProofs KdExtra
  DelModel DelMain DelGeom DelSpec DelDrive SgModel SgList SgSpec SgGeom SgProofs.
Set Implicit Arguments.

Lemma dist2 (a b : pt) : dist RNum 2 (@coords RNum a) (@coords RNum b) = sqrt (dsq a b).
Proof. unfold dist, distSqr, coords, coord, dsq. cbn [seq fold_left nth nsqrt nadd nmul nsub nzero nT RNum]. f_equal. ring. Qed.

Lemma sqrt_abs (a b : pt) r : (sqrt (dsq a b) <= r)%R ->
  (fst a - r <= fst b <= fst a + r)%R /\ (snd a - r <= snd b <= snd a + r)%R.
Proof.
  intros H. pose proof (sqrt_pos (dsq a b)) as S. pose proof (sqrt_sqrt _ (dsq_nn a b)) as SS.
  assert (Q : (dsq a b <= r * r)%R). { rewrite <- SS. apply Rmult_le_compat; lra. }
  unfold dsq in Q. pose proof (Rle_0_sqr (fst a - fst b)) as S1. pose proof (Rle_0_sqr (snd a - snd b)) as S2. unfold Rsqr in S1, S2.
  assert (R0 : (0 <= r)%R) by lra.
  assert (G : forall y, (y * y <= r * r -> - r <= y <= r)%R) by (intros y Hy; split; nra).
  pose proof (G (fst a - fst b)%R ltac:(lra)). pose proof (G (snd a - snd b)%R ltac:(lra)). lra.
Qed.

Section Skel.
  Variable P : list pt.
  Let n := length P.

  Definition nearB (p1 : pt) (r1 : R) (p2 : pt) (r2 : R) (e1 e2 i : nat) : bool :=
    negb ((i =? e1) || (i =? e2)) && (Rleb (sqrt (dsq p1 (at_ P i))) r1 && Rleb (sqrt (dsq p2 (at_ P i))) r2).
  Lemma nearB_true p1 r1 p2 r2 e1 e2 i : nearB p1 r1 p2 r2 e1 e2 i = true <->
    i <> e1 /\ i <> e2 /\ (sqrt (dsq p1 (at_ P i)) <= r1)%R /\ (sqrt (dsq p2 (at_ P i)) <= r2)%R.
  Proof. unfold nearB. rewrite andb_true_iff, negb_true_iff, orb_false_iff, !Nat.eqb_neq, andb_true_iff, !Rleb_true. tauto. Qed.

  Lemma ptOf_at i : @ptOf RNum P i = @coords RNum (at_ P i).
  Proof. reflexivity. Qed.

  Lemma leaf_ok p1 r1 p2 r2 e1 e2 its :
    @luneLeaf RNum P (fun x => x) true p1 r1 p2 r2 e1 e2 its = Ok (existsb (nearB p1 r1 p2 r2 e1 e2) its).
  Proof.
    induction its as [|i its IH]; auto. cbn [luneLeaf existsb]. unfold nearB at 1. destruct ((i =? e1) || (i =? e2)); cbn [negb andb orb]; auto.
    rewrite !ptOf_at, !dist2. change (nle RNum) with Rleb. destruct (Rleb (sqrt (dsq p1 (at_ P i))) r1 && Rleb (sqrt (dsq p2 (at_ P i))) r2); cbn [orb]; auto.
  Qed.

  Lemma box_out (p : pt) r b its : bounds 2 (@ptOf RNum P) b its ->
    boxCompare RNum 2 (@discBox RNum p r) b = BoxExclude -> forall i, In i its -> (r < sqrt (dsq p (at_ P i)))%R.
  Proof.
    intros Hb H i Hi. destruct (Rlt_le_dec r (sqrt (dsq p (at_ P i)))) as [|Q]; auto. exfalso. apply sqrt_abs in Q. destruct Q as (Q1 & Q2).
    unfold boxCompare in H. match type of H with (if ?c then _ else _) = _ => destruct c eqn:E end.
    2:{ match type of H with (if ?c then _ else _) = _ => destruct c end; discriminate. }
    clear H. apply existsb_exists in E. destruct E as (d & Hd & E). apply in_seq in Hd. assert (Hd' : (d < 2)%nat) by lia. destruct (Hb d Hd' i Hi) as (B1 & B2).
    cbn [nle RNum] in B1, B2. apply Rleb_true in B1. apply Rleb_true in B2. apply orb_true_iff in E. cbn [nlt RNum] in E. rewrite !Rltb_true in E.
    destruct d as [|[|d]]; [| |lia].
    - change (coord (bmin b) 0 <= fst (at_ P i))%R in B1. change (fst (at_ P i) <= coord (bmax b) 0)%R in B2.
      change (fst p + r < coord (bmin b) 0 \/ coord (bmax b) 0 < fst p - r)%R in E. destruct E; lra.
    - change (coord (bmin b) 1 <= snd (at_ P i))%R in B1. change (snd (at_ P i) <= coord (bmax b) 1)%R in B2.
      change (snd p + r < coord (bmin b) 1 \/ coord (bmax b) 1 < snd p - r)%R in E. destruct E; lra.
  Qed.

  Lemma helper_ok b1 b2 p1 r1 p2 r2 e1 e2 : b1 = @discBox RNum p1 r1 -> b2 = @discBox RNum p2 r2 -> forall t, boxes_ok 2 (@ptOf RNum P) t ->
    @luneHelper RNum P (fun x => x) true b1 b2 p1 r1 p2 r2 e1 e2 t = Ok (existsb (nearB p1 r1 p2 r2 e1 e2) (items t)).
  Proof.
    intros E1 E2. induction t as [its b|b l IHl r IHr]; intros HB.
    - pose proof (HB _ (subtrees_self _)) as Bt. cbn [luneHelper items tbox] in *.
      assert (X : boxCompare RNum 2 b1 b = BoxExclude \/ boxCompare RNum 2 b2 b = BoxExclude -> existsb (nearB p1 r1 p2 r2 e1 e2) its = false).
      { intros X. destruct (existsb _ its) eqn:Z; auto. exfalso. apply existsb_exists in Z. destruct Z as (i & Hi & Z). apply nearB_true in Z. destruct Z as (_ & _ & Z1 & Z2).
        destruct X as [X|X]; [rewrite E1 in X; pose proof (@box_out p1 r1 _ _ Bt X i Hi)|rewrite E2 in X; pose proof (@box_out p2 r2 _ _ Bt X i Hi)]; lra. }
      destruct (boxCompare RNum 2 b1 b); try (rewrite X by auto; auto; fail); destruct (boxCompare RNum 2 b2 b); try (rewrite X by auto; auto; fail); apply leaf_ok.
    - pose proof (HB _ (subtrees_self _)) as Bt. cbn [luneHelper tbox] in *.
      assert (X : boxCompare RNum 2 b1 b = BoxExclude \/ boxCompare RNum 2 b2 b = BoxExclude -> existsb (nearB p1 r1 p2 r2 e1 e2) (items (Node b l r)) = false).
      { intros X. destruct (existsb (nearB p1 r1 p2 r2 e1 e2) (items (Node b l r))) eqn:Z; auto. exfalso. apply existsb_exists in Z. destruct Z as (i & Hi & Z). apply nearB_true in Z. destruct Z as (_ & _ & Z1 & Z2).
        destruct X as [X|X]; [rewrite E1 in X; pose proof (@box_out p1 r1 _ _ Bt X i Hi)|rewrite E2 in X; pose proof (@box_out p2 r2 _ _ Bt X i Hi)]; lra. }
      assert (Rec : (x <- @luneHelper RNum P (fun x => x) true b1 b2 p1 r1 p2 r2 e1 e2 l ;; if x : bool then Ok true else @luneHelper RNum P (fun x => x) true b1 b2 p1 r1 p2 r2 e1 e2 r)
                    = Ok (existsb (nearB p1 r1 p2 r2 e1 e2) (items (Node b l r)))).
      { rewrite IHl, IHr by (intros s Hs; apply HB; cbn [subtrees]; right; apply in_or_app; auto). cbn [bind items]. rewrite existsb_app. destruct (existsb _ (items l)); auto. }
      destruct (boxCompare RNum 2 b1 b); try (rewrite X by auto; auto; fail); destruct (boxCompare RNum 2 b2 b); try (rewrite X by auto; auto; fail); exact Rec.
  Qed.

  Variable workers threshold : nat.
  Hypothesis HW : (0 < workers)%nat.
  Hypothesis NE : P <> [].

  (** An edge is dropped when some other point is in both discs. *)
  Definition discsFree (c1 c2 : pt) (r : R) (u v : nat) : Prop :=
    forall w, (w < n)%nat -> w <> u -> w <> v -> ~ ((sqrt (dsq c1 (at_ P w)) <= r)%R /\ (sqrt (dsq c2 (at_ P w)) <= r)%R).
  Definition keepEdge (beta : R) (u v : nat) : Prop :=
    if Rlt_dec beta 1 then discsFree (at_ P u) (at_ P v) (sqrt (dsq (at_ P u) (at_ P v)) / (2 * beta)) u v
    else discsFree (centreB beta (at_ P u) (at_ P v)) (centreB beta (at_ P v) (at_ P u)) (beta * sqrt (dsq (at_ P u) (at_ P v)) / 2) u v.

  Lemma none1 : none RNum = 1%R.
  Proof. change ((2 / 2)%R = 1%R). field. Qed.

  Lemma skelEdge_ok beta t u v : (u < n)%nat -> (v < n)%nat -> boxes_ok 2 (@ptOf RNum P) t -> Permutation (items t) (seq 0 n) ->
    exists b, @skelEdge RNum P (fun x => x) true beta t (u, v) = Ok b /\ (b = true <-> keepEdge beta u v).
  Proof.
    intros Hu Hv HB PI. unfold skelEdge. change (@nth_error (pt2 RNum) P u) with (@nth_error pt P u). change (@nth_error (pt2 RNum) P v) with (@nth_error pt P v).
    rewrite (nth_error_nth' P (0, 0)%R Hu), (nth_error_nth' P (0, 0)%R Hv). fold (at_ P u) (at_ P v).
    assert (G : forall c1 c2 r, exists b, (b0 <- @nonEmptyLune RNum P (fun x => x) true t c1 r c2 r u v ;; Ok (negb b0)) = Ok b /\ (b = true <-> discsFree c1 c2 r u v)).
    { intros c1 c2 r. unfold nonEmptyLune. rewrite (@helper_ok _ _ c1 r c2 r u v eq_refl eq_refl t HB). cbn [bind]. eexists. split; [reflexivity|].
      rewrite negb_true_iff. split.
      - intros Q w Hw N1 N2 (D1 & D2). assert (Z : existsb (nearB c1 r c2 r u v) (items t) = true); [|congruence].
        apply existsb_exists. exists w. split; [eapply Permutation_in; [symmetry; exact PI|apply in_seq; lia]|]. apply nearB_true. auto.
      - intros Q. destruct (existsb _ _) eqn:Z; auto. exfalso. apply existsb_exists in Z. destruct Z as (w & Hw & Z). apply nearB_true in Z. destruct Z as (N1 & N2 & D1 & D2).
        apply (Permutation_in _ PI) in Hw. apply in_seq in Hw. apply (Q w); auto. lia. }
    unfold keepEdge. rewrite !dist2. cbv zeta.
    destruct (nlt RNum beta (none RNum)) eqn:LT.
    - assert (LB : (beta < 1)%R). { rewrite none1 in LT. apply Rltb_true. exact LT. }
      destruct (Rlt_dec beta 1) as [_|Q]; [|lra]. apply G.
    - assert (LB : (1 <= beta)%R). { rewrite none1 in LT. apply Rltb_false. exact LT. }
      destruct (Rlt_dec beta 1) as [Q|_]; [lra|].
      assert (C1 : @padd RNum (@pmuls RNum (at_ P u) (nsub RNum (none RNum) (ndiv RNum beta (ntwo RNum)))) (@pmuls RNum (at_ P v) (ndiv RNum beta (ntwo RNum))) = centreB beta (at_ P u) (at_ P v)).
      { rewrite none1. reflexivity. }
      assert (C2 : @padd RNum (@pmuls RNum (at_ P u) (ndiv RNum beta (ntwo RNum))) (@pmuls RNum (at_ P v) (nsub RNum (none RNum) (ndiv RNum beta (ntwo RNum)))) = centreB beta (at_ P v) (at_ P u)).
      { rewrite none1. unfold padd, pmuls, centreB. cbn [fst snd nadd nmul nsub ndiv ntwo nT RNum]. f_equal; apply Rplus_comm. }
      rewrite C1, C2. apply G.
  Qed.

  Lemma packF_sorted (Q : sedge -> sedge -> Prop) E fl : StronglySorted Q E -> StronglySorted Q (packF E fl) /\ (forall e, In e (packF E fl) -> In e E).
  Proof.
    intros H. revert fl. induction H as [|a l H1 IH H2]; intros [|f fl]; cbn [packF]; try (split; [constructor|intros e []]).
    destruct (IH fl) as (I1 & I2). destruct f; (split; [|intros e He]).
    - constructor; auto. rewrite Forall_forall in *. auto.
    - destruct He as [<-|He]; [left|right]; auto.
    - auto.
    - right. auto.
  Qed.

  Lemma skeleton_ok beta E : (0 <= beta)%R -> StronglySorted (fun a b => ltE a b = true) E -> (forall u v, In (u, v) E -> (u < n /\ v < n)%nat) ->
    exists E', @skeleton RNum P (fun x => x) true workers threshold beta E = Ok E' /\ StronglySorted (fun a b => ltE a b = true) E' /\
      forall u v, In (u, v) E' <-> In (u, v) E /\ keepEdge beta u v.
  Proof.
    intros HB SE RE. unfold skeleton.
    assert (LB : nlt RNum beta (nzero RNum) = false) by (apply Rltb_false; exact HB). rewrite LB. change (@length (pt2 RNum) P) with n.
    assert (NS : seq 0 n <> []) by (unfold n; destruct P; [congruence|discriminate]).
    destruct (@build_all _ _ R_ordlaws R_span 2 ltac:(lia) nat (@ptOf RNum P) true workers threshold 16 (seq 0 n) ltac:(lia) HW NS (@okptsR nat (@ptOf RNum P) 2 (seq 0 n))) as (t & Et & PI & _ & TI).
    rewrite Et. cbn [bind]. assert (BO : boxes_ok 2 (@ptOf RNum P) t) by (intros s Hs d Hd; apply (TI s Hs d Hd)).
    assert (G : exists fl, mapR (@skelEdge RNum P (fun x => x) true beta t) E = Ok fl /\ forall u v, In (u, v) (packF E fl) <-> In (u, v) E /\ keepEdge beta u v).
    { clear SE. induction E as [|[a b] E IH]; [exists []; split; auto; intros u v; cbn; tauto|]. cbn [mapR].
      destruct (RE a b (or_introl eq_refl)) as (Ra & Rb).
      destruct (@skelEdge_ok beta t a b Ra Rb BO PI) as (f & Ef & Hf). rewrite Ef. cbn [bind].
      destruct IH as (fl & Efl & Hfl); [intros u v I; apply RE; right; auto|]. rewrite Efl. cbn [bind]. exists (f :: fl). split; auto. intros u v. cbn [packF].
      destruct f; cbn [In]; rewrite Hfl.
      - split; [intros [[= <- <-]|(I & K)]; [split; [auto|apply Hf; auto]|auto]|tauto].
      - split; [tauto|]. intros ([[= -> ->]|I] & K); [apply Hf in K; discriminate|auto]. }
    destruct G as (fl & Efl & Hfl). rewrite Efl. cbn [bind]. exists (packF E fl). split; auto. split; auto. apply packF_sorted; auto.
  Qed.

  (** The items of the tree are freed before the searches: undefined for every edge. *)
  Lemma box_in (p : pt) r b its i : bounds 2 (@ptOf RNum P) b its -> In i its -> (sqrt (dsq p (at_ P i)) <= r)%R ->
    boxCompare RNum 2 (@discBox RNum p r) b <> BoxExclude.
  Proof. intros Hb Hi Q H. pose proof (@box_out p r _ _ Hb H i Hi). lra. Qed.

  Lemma helper_ub b1 b2 p1 r1 p2 r2 e1 e2 i : b1 = @discBox RNum p1 r1 -> b2 = @discBox RNum p2 r2 ->
    (sqrt (dsq p1 (at_ P i)) <= r1)%R -> (sqrt (dsq p2 (at_ P i)) <= r2)%R -> forall t, boxes_ok 2 (@ptOf RNum P) t -> shape 16 t ->
    (In i (items t) -> @luneHelper RNum P (fun x => x) false b1 b2 p1 r1 p2 r2 e1 e2 t = UB) /\
    (@luneHelper RNum P (fun x => x) false b1 b2 p1 r1 p2 r2 e1 e2 t = UB \/ @luneHelper RNum P (fun x => x) false b1 b2 p1 r1 p2 r2 e1 e2 t = Ok false).
  Proof.
    intros E1 E2 D1 D2. induction t as [its b|b l IHl r IHr]; intros HB SH.
    - pose proof (HB _ (subtrees_self _)) as Bt. cbn [luneHelper items tbox] in *.
      assert (L : @luneLeaf RNum P (fun x => x) false p1 r1 p2 r2 e1 e2 its = UB \/ its = []) by (destruct its; auto). split.
      + intros Hi. assert (X1 : boxCompare RNum 2 b1 b <> BoxExclude) by (rewrite E1; eapply box_in; eauto).
        assert (X2 : boxCompare RNum 2 b2 b <> BoxExclude) by (rewrite E2; eapply box_in; eauto).
        destruct L as [L| ->]; [|destruct Hi]. destruct (boxCompare RNum 2 b1 b); [| |congruence]; destruct (boxCompare RNum 2 b2 b); first [exact L|congruence].
      + destruct L as [L| ->]; destruct (boxCompare RNum 2 b1 b); auto; destruct (boxCompare RNum 2 b2 b); auto.
    - pose proof (HB _ (subtrees_self _)) as Bt. cbn [luneHelper tbox] in *. cbn [shape] in SH.
      destruct IHl as (L1 & L2); [intros s Hs; apply HB; cbn [subtrees]; right; apply in_or_app; auto|tauto|].
      destruct IHr as (R1 & R2); [intros s Hs; apply HB; cbn [subtrees]; right; apply in_or_app; auto|tauto|]. split.
      + intros Hi. assert (X1 : boxCompare RNum 2 b1 b <> BoxExclude) by (rewrite E1; eapply box_in; eauto).
        assert (X2 : boxCompare RNum 2 b2 b <> BoxExclude) by (rewrite E2; eapply box_in; eauto).
        assert (Rec : (x <- @luneHelper RNum P (fun x => x) false b1 b2 p1 r1 p2 r2 e1 e2 l ;; if x : bool then Ok true else @luneHelper RNum P (fun x => x) false b1 b2 p1 r1 p2 r2 e1 e2 r) = UB).
        { cbn [items] in Hi. apply in_app_or in Hi. destruct Hi as [Hi|Hi]; [rewrite (L1 Hi); auto|]. destruct L2 as [L2|L2]; rewrite L2; cbn [bind]; auto. }
        destruct (boxCompare RNum 2 b1 b); [| |congruence]; destruct (boxCompare RNum 2 b2 b); first [exact Rec|congruence].
      + assert (Rec : (x <- @luneHelper RNum P (fun x => x) false b1 b2 p1 r1 p2 r2 e1 e2 l ;; if x : bool then Ok true else @luneHelper RNum P (fun x => x) false b1 b2 p1 r1 p2 r2 e1 e2 r) = UB
          \/ (x <- @luneHelper RNum P (fun x => x) false b1 b2 p1 r1 p2 r2 e1 e2 l ;; if x : bool then Ok true else @luneHelper RNum P (fun x => x) false b1 b2 p1 r1 p2 r2 e1 e2 r) = Ok false).
        { destruct L2 as [L2|L2]; rewrite L2; cbn [bind]; auto. }
        destruct (boxCompare RNum 2 b1 b); auto; destruct (boxCompare RNum 2 b2 b); auto.
  Qed.

  Lemma centre_end beta (a b : pt) : (0 <= beta)%R -> (sqrt (dsq (centreB beta a b) a) <= beta * sqrt (dsq a b) / 2)%R.
  Proof.
    intros Hb. pose proof (sqrt_pos (dsq a b)) as Sp. rewrite <- (sqrt_square (beta * sqrt (dsq a b) / 2)) by nra. apply sqrt_le_1_alt.
    replace (beta * sqrt (dsq a b) / 2 * (beta * sqrt (dsq a b) / 2))%R with (beta * beta * (sqrt (dsq a b) * sqrt (dsq a b)) / 4)%R by field.
    rewrite sqrt_sqrt by apply dsq_nn. right. unfold dsq, centreB. cbn [fst snd]. field.
  Qed.
  Lemma centre_other beta (a b : pt) : (1 <= beta)%R -> (sqrt (dsq (centreB beta b a) a) <= beta * sqrt (dsq a b) / 2)%R.
  Proof.
    intros Hb. pose proof (sqrt_pos (dsq a b)) as Sp. rewrite <- (sqrt_square (beta * sqrt (dsq a b) / 2)) by nra. apply sqrt_le_1_alt.
    replace (beta * sqrt (dsq a b) / 2 * (beta * sqrt (dsq a b) / 2))%R with (beta * beta * (sqrt (dsq a b) * sqrt (dsq a b)) / 4)%R by field.
    rewrite sqrt_sqrt by apply dsq_nn. assert (E : (dsq (centreB beta b a) a = (1 - beta / 2) * (1 - beta / 2) * dsq a b)%R) by (unfold dsq, centreB; cbn [fst snd]; ring).
    rewrite E. pose proof (dsq_nn a b). assert (0 <= (beta - 1) * dsq a b)%R by (apply Rmult_le_pos; lra). nra.
  Qed.

  Lemma skeleton_ub beta E : (1 <= beta)%R -> E <> [] -> (forall u v, In (u, v) E -> (u < n /\ v < n)%nat) ->
    @skeleton RNum P (fun x => x) false workers threshold beta E = UB.
  Proof.
    intros HB NEE RE. unfold skeleton.
    assert (B0 : (0 <= beta)%R) by lra. assert (LB : nlt RNum beta (nzero RNum) = false) by (apply Rltb_false; exact B0). rewrite LB. change (@length (pt2 RNum) P) with n.
    assert (NS : seq 0 n <> []) by (unfold n; destruct P; [congruence|discriminate]).
    destruct (@build_all _ _ R_ordlaws R_span 2 ltac:(lia) nat (@ptOf RNum P) true workers threshold 16 (seq 0 n) ltac:(lia) HW NS (@okptsR nat (@ptOf RNum P) 2 (seq 0 n))) as (t & Et & PI & SH & TI).
    rewrite Et. cbn [bind]. assert (BO : boxes_ok 2 (@ptOf RNum P) t) by (intros s Hs d Hd; apply (TI s Hs d Hd)).
    destruct E as [|[u v] E]; [congruence|]. destruct (RE u v (or_introl eq_refl)) as (Hu & Hv). cbn [mapR].
    assert (Z : @skelEdge RNum P (fun x => x) false beta t (u, v) = UB); [|rewrite Z; auto].
    unfold skelEdge. change (@nth_error (pt2 RNum) P u) with (@nth_error pt P u). change (@nth_error (pt2 RNum) P v) with (@nth_error pt P v).
    rewrite (nth_error_nth' P (0, 0)%R Hu), (nth_error_nth' P (0, 0)%R Hv). fold (at_ P u) (at_ P v). rewrite !dist2. cbv zeta.
    assert (LT : nlt RNum beta (none RNum) = false) by (rewrite none1; apply Rltb_false; exact HB). rewrite LT.
    assert (E' : @padd RNum (@pmuls RNum (at_ P u) (ndiv RNum beta (ntwo RNum))) (@pmuls RNum (at_ P v) (nsub RNum (none RNum) (ndiv RNum beta (ntwo RNum)))) = centreB beta (at_ P v) (at_ P u)).
    { rewrite none1. unfold padd, pmuls, centreB. cbn [fst snd nadd nmul nsub ndiv ntwo nT RNum]. f_equal; apply Rplus_comm. }
    rewrite E', none1.
    assert (I : In u (items t)) by (eapply Permutation_in; [symmetry; exact PI|apply in_seq; split; [apply Nat.le_0_l|exact Hu]]).
    pose proof (proj1 (@helper_ub _ _ _ _ _ _ u v u eq_refl eq_refl (centre_end (at_ P u) (at_ P v) B0) (centre_other (at_ P u) (at_ P v) HB) t BO SH) I) as U.
    exact (f_equal (fun r => b <- r ;; Ok (negb b)) U).
  Qed.
End Skel.
