(** The filter of the sampling hull. *)
From Coq Require Import Reals Lra Lia List Bool Permutation.
From Verif Require Import Base Num KdModel KdSpec KdBuild Sched H3Model H3Geom H3Surf H3Heap H3SubModel.
Set Implicit Arguments.
Open Scope nat_scope.

(** ** The flags under any interleaving *)
Definition flagOn (fl : list bool) (i : nat) : Prop := nth_error fl i = Some true.
(** the first is flagged, and one of any two neighbours *)
Definition okv (fl : list bool) (c : list nat) : Prop :=
  (forall i c', c = i :: c' -> flagOn fl i) /\ forall a i j b, c = a ++ i :: j :: b -> flagOn fl i \/ flagOn fl j.

Lemma okv_nil fl : okv fl [].
Proof. split; [discriminate|]. intros [|x a] i j b H; discriminate. Qed.
Lemma okv_mono fl fl' c : (forall i, flagOn fl i -> flagOn fl' i) -> okv fl c -> okv fl' c.
Proof.
  intros M (A & B). split; [intros i c' E; apply M; eapply A; eauto|].
  intros a i j b E. destruct (B a i j b E); auto.
Qed.
Lemma okv_snoc fl c i : okv fl c -> (flagOn fl i \/ exists c' l, c = c' ++ [l] /\ flagOn fl l) -> okv fl (c ++ [i]).
Proof.
  intros (A & B) H. split.
  - intros x c' E. destruct c as [|y c]; cbn [app] in E; injection E as -> E; [|eapply A; eauto].
    destruct H as [H|(c0 & l & H & _)]; auto. destruct c0; discriminate.
  - intros a x y b E. destruct b as [|b0 b] using rev_ind.
    + replace (a ++ [x; y]) with ((a ++ [x]) ++ [y]) in E by (rewrite <- app_assoc; reflexivity).
      apply app_inj_tail in E. destruct E as [-> ->]. destruct H as [H|(c0 & l & H & F)]; auto.
      apply app_inj_tail in H. destruct H as [_ ->]. auto.
    + clear IHb. replace (a ++ x :: y :: b ++ [b0]) with ((a ++ x :: y :: b) ++ [b0]) in E by (rewrite <- app_assoc; reflexivity).
      apply app_inj_tail in E. destruct E as [-> _]. eapply B; eauto.
Qed.

Lemma flagOn_upd fl i j : flagOn fl j -> flagOn (upd i true fl) j.
Proof.
  unfold flagOn. intros H. destruct (Nat.eq_dec i j) as [->|N]; [|rewrite nth_error_upd_neq; auto].
  apply nth_error_upd_eq. apply nth_error_Some. congruence.
Qed.

Section Flags.
  Variable vss : list (list (list nat)).
  Variable n : nat.
  Hypothesis Bound : forall vs v i, In vs vss -> In v vs -> In i v -> i < n.

  (** how far a thread is in its lists *)
  Definition thr (fl : list bool) (vs : list (list nat)) (l : thread) : Prop :=
    exists dn, Forall (okv fl) dn /\
      match snd l with
      | [] => vs = dn
      | v :: rest => exists c, vs = dn ++ (c ++ v) :: rest /\ okv fl c /\ (fst l = true -> exists c' x, c = c' ++ [x] /\ flagOn fl x)
      end.
  Lemma thr_mono fl fl' vs l : (forall i, flagOn fl i -> flagOn fl' i) -> thr fl vs l -> thr fl' vs l.
  Proof.
    intros M (dn & D & H). exists dn. split; [eapply Forall_impl; [|exact D]; intros; eapply okv_mono; eauto|].
    destruct (snd l) as [|v rest]; auto. destruct H as (c & E & O & G). exists c. split; auto. split; [eapply okv_mono; eauto|].
    intros T. destruct (G T) as (c' & x & E' & Fx). exists c', x. auto.
  Qed.

  Definition FI (ls : list thread) (fl : list bool) : Prop :=
    length fl = n /\ length ls = length vss /\
    (forall i, flagOn fl i -> exists vs v, In vs vss /\ In v vs /\ In i v) /\
    (forall t vs, nth_error vss t = Some vs -> exists l, nth_error ls t = Some l /\ thr fl vs l).

  Definition start : list thread := map (fun vs => (false, vs)) vss.
  Lemma FI_start : FI start (repeat false n).
  Proof.
    split; [apply repeat_length|]. split; [apply map_length|]. split.
    - intros i H. unfold flagOn in H. apply nth_error_In, repeat_spec in H. discriminate.
    - intros t vs H. exists (false, vs). split; [unfold start; rewrite nth_error_map, H; reflexivity|].
      exists []. split; auto. cbn [snd]. destruct vs as [|v rest]; auto. exists []. split; auto. split; [apply okv_nil|discriminate].
  Qed.

  Lemma FI_step ls fl t l : FI ls fl -> nth_error ls t = Some l -> ffin l = false ->
    exists l' fl', fstep l fl = Ok (l', fl') /\ FI (upd t l' ls) fl'.
  Proof.
    intros (L & LL & S & T) Hl Fin. assert (Lt : t < length ls) by (apply nth_error_Some; congruence).
    destruct (nth_error vss t) as [vs|] eqn:Ev; [|apply nth_error_None in Ev; lia].
    destruct (T t vs Ev) as (l0 & E0 & Th). rewrite Hl in E0. injection E0 as <-.
    assert (Build : forall l' fl', (forall i, flagOn fl i -> flagOn fl' i) -> length fl' = n ->
      (forall i, flagOn fl' i -> exists vs v, In vs vss /\ In v vs /\ In i v) -> thr fl' vs l' -> FI (upd t l' ls) fl').
    { intros l' fl' M L' S' Th'. split; auto. split; [rewrite upd_length; auto|]. split; auto. intros u us Hu.
      destruct (Nat.eq_dec t u) as [<-|N].
      - exists l'. rewrite nth_error_upd_eq by auto. split; auto. rewrite Ev in Hu. injection Hu as <-. auto.
      - rewrite nth_error_upd_neq by auto. destruct (T u us Hu) as (lu & Elu & Tu). exists lu. split; auto. eapply thr_mono; eauto. }
    destruct l as [F todo]. destruct todo as [|v rest]; [discriminate Fin|]. destruct Th as (dn & D & c & E & O & G). cbn [fst snd] in *.
    destruct v as [|i v].
    - exists (false, rest), fl. split; auto. apply Build; auto. exists (dn ++ [c]). split; [apply Forall_app; auto|]. cbn [snd fst].
      rewrite app_nil_r in E. destruct rest as [|v rest]; [exact E|]. exists []. split; [rewrite <- app_assoc; exact E|]. split; [apply okv_nil|discriminate].
    - assert (Iv : In i (c ++ i :: v)) by (apply in_or_app; right; left; auto).
      assert (Ivs : In (c ++ i :: v) vs) by (rewrite E; apply in_or_app; right; left; auto).
      assert (Ib : i < n) by (eapply Bound; eauto using nth_error_In).
      destruct (nth_error fl i) as [b|] eqn:Eb; [|apply nth_error_None in Eb; lia].
      assert (Cons : forall F' fl', (forall j, flagOn fl j -> flagOn fl' j) -> okv fl' (c ++ [i]) -> (F' = true -> flagOn fl' i) ->
        thr fl' vs (F', v :: rest)).
      { intros F' fl' M O' G'. exists dn. split; [eapply Forall_impl; [|exact D]; intros; eapply okv_mono; eauto|]. cbn [fst snd].
        exists (c ++ [i]). split; [rewrite <- app_assoc; exact E|]. split; auto. intros T'. exists c, i. auto. }
      unfold fstep. cbn [fst snd]. unfold cas. rewrite Eb. destruct (Bool.eqb b F) eqn:Q.
      + apply eqb_prop in Q. subst b. exists (F, v :: rest), (upd i true fl). split; auto.
        assert (Fi : flagOn (upd i true fl) i) by (apply nth_error_upd_eq; lia).
        apply Build; [intros j; apply flagOn_upd|rewrite upd_length; auto| |].
        * intros j Hj. destruct (Nat.eq_dec i j) as [<-|N]; [exists vs, (c ++ i :: v); eauto using nth_error_In|].
          apply S. unfold flagOn in *. rewrite nth_error_upd_neq in Hj; auto.
        * apply Cons; auto; [intros j; apply flagOn_upd|]. apply okv_snoc; auto. eapply okv_mono; [|exact O]. intros j; apply flagOn_upd.
      + exists (b, v :: rest), fl. split; auto. apply Build; auto. apply Cons; auto.
        * apply okv_snoc; auto. destruct b; [left; exact Eb|]. right. apply G. destruct F; auto; discriminate.
        * intros ->. exact Eb.
  Qed.

  Definition left_ (ls : list thread) : nat := list_sum (map (fun l : thread => length (snd l) + list_sum (map (@length _) (snd l))) ls).
  Lemma sum_upd (g : thread -> nat) ls t l l' : nth_error ls t = Some l -> g l' < g l ->
    list_sum (map g (upd t l' ls)) < list_sum (map g ls).
  Proof.
    unfold list_sum. revert t. induction ls as [|x ls IH]; intros [|t] H L; try discriminate; cbn [upd map fold_right nth_error] in *.
    - injection H as ->. lia.
    - specialize (IH t H L). lia.
  Qed.
  Lemma left_dec ls fl t l l' fl' : nth_error ls t = Some l -> ffin l = false -> fstep l fl = Ok (l', fl') -> left_ (upd t l' ls) < left_ ls.
  Proof.
    intros H Fin E. unfold left_. eapply sum_upd; eauto. destruct l as [F todo]. destruct todo as [|v rest]; [discriminate Fin|].
    unfold fstep in E. cbn [fst snd] in *. destruct v as [|i v].
    - injection E as <- <-. cbn. lia.
    - destruct (cas fl i F) as [[F' f']| | |]; try discriminate. cbn [bind] in E. injection E as <- <-. cbn. lia.
  Qed.

  Lemma flags_run sched : match runT fstep ffin sched start (repeat false n) with
    | Ok (_, fl) => length fl = n /\ (forall i, flagOn fl i -> exists vs v, In vs vss /\ In v vs /\ In i v) /\
        (forall vs v, In vs vss -> In v vs -> okv fl v)
    | Fuel => True
    | _ => False
    end.
  Proof.
    pose proof (@runT_inv _ _ fstep ffin FI (fun ls s i l => @FI_step ls s i l) sched _ _ FI_start) as H.
    destruct (runT fstep ffin sched start (repeat false n)) as [[ls fl]| | |]; auto.
    destruct H as ((L & LL & S & T) & Fin & _). split; auto. split; auto. intros vs v Hvs Hv.
    apply In_nth_error in Hvs. destruct Hvs as (t & Ht). destruct (T t vs Ht) as (l & El & dn & D & X).
    assert (Fl : ffin l = true) by (rewrite forallb_forall in Fin; apply Fin; eapply nth_error_In; eauto).
    unfold ffin in Fl. destruct (snd l); [|discriminate]. subst dn. rewrite Forall_forall in D. auto.
  Qed.
  Lemma flags_finish sched : exists sched' r, runT fstep ffin (sched ++ sched') start (repeat false n) = Ok r.
  Proof.
    apply (@runT_extend _ _ fstep ffin FI (fun ls s i l => @FI_step ls s i l) (fun ls _ k => k = left_ ls)).
    - intros ls s _. eauto.
    - intros ls s i l l' s' k HI Hl Fin E ->. eexists. split; [reflexivity|]. eapply left_dec; eauto.
    - apply FI_start.
  Qed.
End Flags.

(** ** Boxes *)
Section Vis.
  Open Scope R_scope.
  Notation tree := (tree RNum nat).
  Variable P : list p3.
  Notation O := (V3 0 0 0 : p3).
  Definition ptOf (i : nat) : p3 := nth i P O.
  Definition coR (i : nat) : list R := co RNum (ptOf i).

  Lemma box_lo k (b : box RNum) (p : p3) :
    (coord (bmin b) 0 <= vx p <= coord (bmax b) 0) -> (coord (bmin b) 1 <= vy p <= coord (bmax b) 1) -> (coord (bmin b) 2 <= vz p <= coord (bmax b) 2) ->
    exists c, In c (corners8 b) /\ aff k c <= aff k p.
  Proof.
    intros X Y Z. destruct k as [[[k0 k1] k2] k3].
    assert (pick : forall kk lo hi x, lo <= x <= hi -> exists s : bool, kk * (if s then hi else lo) <= kk * x).
    { intros kk lo hi x H. destruct (Rle_dec 0 kk); [exists false|exists true]; nra. }
    destruct (pick k1 _ _ _ X) as (s1 & A), (pick k2 _ _ _ Y) as (s2 & B), (pick k3 _ _ _ Z) as (s3 & C).
    exists (boxPt b s1 s2 s3). split; [unfold corners8; destruct s1, s2, s3; cbn [In]; tauto|].
    destruct p as [px py pz]. unfold aff, boxPt. cbn [vx vy vz] in *. destruct s1, s2, s3; lra.
  Qed.
  Lemma box_hi k (b : box RNum) (p : p3) :
    (coord (bmin b) 0 <= vx p <= coord (bmax b) 0) -> (coord (bmin b) 1 <= vy p <= coord (bmax b) 1) -> (coord (bmin b) 2 <= vz p <= coord (bmax b) 2) ->
    exists c, In c (corners8 b) /\ aff k p <= aff k c.
  Proof.
    intros X Y Z. destruct k as [[[k0 k1] k2] k3]. destruct (@box_lo (- k0, - k1, - k2, - k3) b p X Y Z) as (c & Ic & L).
    exists c. split; auto. unfold aff in *. lra.
  Qed.

  Lemma nodeVol_fold (t : tri3) l (m : R * R) : let r := fold_left (fun m c => (nmin2 RNum (fst m) (@vol RNum t c), nmax2 RNum (snd m) (@vol RNum t c))) l m in
    (fst r <= fst m /\ forall c, In c l -> fst r <= ht t c) /\ (snd m <= snd r /\ forall c, In c l -> ht t c <= snd r) .
  Proof.
    revert m. induction l as [|c l IH]; intros m; cbn [fold_left]; cbv zeta.
    - split; (split; [apply Rle_refl|intros c []]).
    - set (m' := (nmin2 RNum (fst m) (@vol RNum t c), nmax2 RNum (snd m) (@vol RNum t c))). specialize (IH m'). cbv zeta in IH.
      destruct IH as ((A & B) & C & D).
      assert (Lo : fst m' <= fst m /\ fst m' <= ht t c).
      { unfold m'. cbn [fst]. unfold nmin2. rewrite vol_R. cbn [nlt RNum]. destruct (Rltb (ht t c) (fst m)) eqn:E; [apply Rltb_true in E|apply Rltb_false in E]; lra. }
      assert (Hi : snd m <= snd m' /\ ht t c <= snd m').
      { unfold m'. cbn [snd]. unfold nmax2. rewrite vol_R. cbn [nlt RNum]. destruct (Rltb (snd m) (ht t c)) eqn:E; [apply Rltb_true in E|apply Rltb_false in E]; lra. }
      split; split.
      + eapply Rle_trans; [exact A|exact (proj1 Lo)].
      + intros c' [<-|Hc]; [eapply Rle_trans; [exact A|exact (proj2 Lo)]|auto].
      + eapply Rle_trans; [exact (proj1 Hi)|exact C].
      + intros c' [<-|Hc]; [eapply Rle_trans; [exact (proj2 Hi)|exact C]|auto].
  Qed.

  Definition inBox (b : box RNum) (p : p3) : Prop :=
    (coord (bmin b) 0 <= vx p <= coord (bmax b) 0) /\ (coord (bmin b) 1 <= vy p <= coord (bmax b) 1) /\ (coord (bmin b) 2 <= vz p <= coord (bmax b) 2).
  Lemma nodeVol_in (t : tri3) b p : inBox b p -> fst (@nodeVol RNum t b) <= ht t p <= snd (@nodeVol RNum t b).
  Proof.
    intros (X & Y & Z). unfold nodeVol.
    pose proof (nodeVol_fold t (corners8 b) (nmax RNum, nneg1 RNum)) as H. cbv zeta in H. destruct H as ((_ & A) & _ & B).
    destruct t as [[x y] z]. cbn [ht] in *. destruct (svol_aff x y z) as (k & Hk).
    destruct (@box_lo k b p X Y Z) as (c1 & I1 & L1). destruct (@box_hi k b p X Y Z) as (c2 & I2 & L2).
    specialize (A c1 I1). specialize (B c2 I2). rewrite Hk in A, B. rewrite Hk. split.
    - eapply Rle_trans; [exact A|exact L1].
    - eapply Rle_trans; [exact L2|exact B].
  Qed.

  (** seen from a facet or one of its corners *)
  Definition Cand (t : tri3) (p : p3) : Prop := 0 <= ht t p \/ let '(a, b, c) := t in p = a \/ p = b \/ p = c.
  Lemma cand_iff (t : tri3) i : @cand RNum P t i = true <-> Cand t (ptOf i).
  Proof.
    unfold cand, Cand. destruct t as [[a b] c]. change (nth i P (V3 (nzero RNum) (nzero RNum) (nzero RNum))) with (ptOf i).
    rewrite vol_R. rewrite !orb_true_iff, !eq3_iff. cbn [nle RNum nzero]. rewrite Rleb_true. intuition (subst; auto).
  Qed.

  Definition boxesR (T : tree) : Prop := forall s i, In s (subtrees T) -> In i (items s) -> inBox (tbox s) (ptOf i).

  Lemma visits_eq (t : tri3) (T : tree) : @visits RNum P t T =
    let m := @nodeVol RNum t (tbox T) in
    if nle RNum (fst m) 0 && nle RNum (snd m) 0 then []
    else if nle RNum (fst m) 0 && nlt RNum 0 (snd m) then
      match T with Leaf its _ => [filter (@cand RNum P t) its] | Node _ l r => @visits RNum P t l ++ @visits RNum P t r end
    else [items T].
  Proof. destruct T; cbn [visits]; destruct (@nodeVol RNum t _) as [mn mx]; reflexivity. Qed.

  Lemma visits_sound (t : tri3) T : boxesR T -> forall v i, In v (@visits RNum P t T) -> In i v -> In i (items T) /\ Cand t (ptOf i).
  Proof.
    induction T as [its b|b l IHl r IHr]; intros B v i Hv Hi; rewrite visits_eq in Hv; cbv zeta in Hv; cbn [nle nlt RNum] in Hv;
      set (m := @nodeVol RNum t _) in *;
      destruct (Rleb (fst m) 0) eqn:E1; cbn [andb] in Hv.
    - destruct (Rleb (snd m) 0) eqn:E2; [destruct Hv|]. destruct (Rltb 0 (snd m)) eqn:E3; [|apply Rltb_false in E3; apply Rleb_false in E2; cbn in *; lra].
      destruct Hv as [<-|[]]. apply filter_In in Hi. destruct Hi as (Hi & C). split; auto. apply cand_iff; auto.
    - destruct Hv as [<-|[]]. split; auto. left. apply Rleb_false in E1.
      pose proof (@nodeVol_in t _ _ (B _ i (or_introl eq_refl) Hi)) as N. fold m in N. lra.
    - destruct (Rleb (snd m) 0) eqn:E2; [destruct Hv|]. destruct (Rltb 0 (snd m)) eqn:E3; [|apply Rltb_false in E3; apply Rleb_false in E2; cbn in *; lra].
      apply in_app_or in Hv. destruct Hv as [Hv|Hv].
      + destruct (IHl) with (v := v) (i := i) as (A & C); auto; [intros s j Hs; apply B; cbn; right; apply in_or_app; auto|].
        split; auto. cbn. apply in_or_app; auto.
      + destruct (IHr) with (v := v) (i := i) as (A & C); auto; [intros s j Hs; apply B; cbn; right; apply in_or_app; auto|].
        split; auto. cbn. apply in_or_app; auto.
    - destruct Hv as [<-|[]]. split; auto. left. apply Rleb_false in E1.
      pose proof (@nodeVol_in t _ _ (B _ i (or_introl eq_refl) Hi)) as N. fold m in N. lra.
  Qed.

  Lemma filter_all X (f : X -> bool) l : (forall x, In x l -> f x = true) -> filter f l = l.
  Proof. induction l as [|x l IH]; intros H; cbn; auto. rewrite H by (left; auto). f_equal. apply IH. intros y Hy. apply H. right; auto. Qed.

  (** the points of a leaf that are tried come one after the other *)
  Lemma visits_leaf (t : tri3) T : boxesR T -> forall its b j, In (Leaf its b) (subtrees T) -> In j its -> 0 < ht t (ptOf j) ->
    exists v x y, In v (@visits RNum P t T) /\ v = x ++ filter (@cand RNum P t) its ++ y.
  Proof.
    induction T as [its0 b0|b0 l IHl r IHr]; intros B its b j HL Hj Pos; rewrite visits_eq; cbv zeta; cbn [nle nlt RNum];
      set (m := @nodeVol RNum t _);
      (assert (Sup : 0 < snd m) by
        (pose proof (@nodeVol_in t _ (ptOf j) (B _ j (subtrees_self _) (subtrees_incl _ _ HL j Hj))) as N; fold m in N; lra));
      (assert (E2 : Rleb (snd m) 0 = false) by (apply Rleb_false; exact Sup));
      (assert (E3 : Rltb 0 (snd m) = true) by (apply Rltb_true; exact Sup));
      rewrite E2, E3, andb_false_r, andb_true_r;
      destruct (Rleb (fst m) 0) eqn:E1.
    - destruct HL as [HL|[]]. injection HL as -> ->. eexists _, [], []. split; [left; reflexivity|]. rewrite app_nil_r. reflexivity.
    - destruct HL as [HL|[]]. injection HL as -> ->. exists its, [], []. split; [left; reflexivity|]. rewrite app_nil_r. cbn.
      symmetry. apply filter_all. intros i Hi. apply cand_iff. left. apply Rleb_false in E1.
      pose proof (@nodeVol_in t _ (ptOf i) (B _ i (subtrees_self _) Hi)) as N. fold m in N. lra.
    - cbn [subtrees] in HL. destruct HL as [HL|HL]; [discriminate|]. apply in_app_or in HL. destruct HL as [HL|HL].
      + destruct IHl with (its := its) (b := b) (j := j) as (v & x & y & Hv & E); auto; [intros s i Hs; apply B; cbn; right; apply in_or_app; auto|].
        exists v, x, y. split; auto. apply in_or_app; auto.
      + destruct IHr with (its := its) (b := b) (j := j) as (v & x & y & Hv & E); auto; [intros s i Hs; apply B; cbn; right; apply in_or_app; auto|].
        exists v, x, y. split; auto. apply in_or_app; auto.
    - assert (S : forall i, In i (items (Node b0 l r)) -> @cand RNum P t i = true).
      { intros i Hi. apply cand_iff. left. apply Rleb_false in E1.
        pose proof (@nodeVol_in t _ (ptOf i) (B _ i (subtrees_self _) Hi)) as N. fold m in N. lra. }
      rewrite filter_all by (intros i Hi; apply S; exact (subtrees_incl _ _ HL i Hi)).
      assert (Sp : exists x y, items (Node b0 l r) = x ++ its ++ y).
      { clear - HL. revert HL. generalize (Node b0 l r : tree). intros T. induction T as [i0 c0|c0 l1 IHl r1 IHr]; intros HL.
        - destruct HL as [HL|[]]. injection HL as -> ->. exists [], []. now rewrite app_nil_r.
        - cbn [subtrees] in HL. destruct HL as [HL|HL]; [discriminate|]. apply in_app_or in HL. cbn [items]. destruct HL as [HL|HL].
          + destruct (IHl HL) as (x & y & ->). exists x, (y ++ items r1). now rewrite <- !app_assoc.
          + destruct (IHr HL) as (x & y & ->). exists (items l1 ++ x), y. now rewrite <- !app_assoc. }
      destruct Sp as (x & y & E). exists (items (Node b0 l r)), x, y. split; [left; reflexivity|exact E].
  Qed.
End Vis.
