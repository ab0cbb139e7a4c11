(** Linking the new facets to the horizon and to each other. *)
From Coq Require Import Reals Lra Lia Psatz List Bool Permutation.
From Verif Require Import Base Num Hull2dModel H3Model H3Geom H3Surf H3Heap H3Edge H3Front.
Set Implicit Arguments.
Open Scope R_scope.

Definition geo (f f' : fct3) : Prop := fa f' = fa f /\ fb f' = fb f /\ fc f' = fc f /\ see f' = see f.
Definition nd3 (f : fct3) : Prop := fa f <> fb f /\ fb f <> fc f /\ fc f <> fa f.
Lemma geo_refl f : geo f f. Proof. repeat split; auto. Qed.
Lemma geo_trans f g k : geo f g -> geo g k -> geo f k.
Proof. intros (A & B & C & D) (A' & B' & C' & D'). repeat split; congruence. Qed.
Lemma geo_corners (f f' : fct3) : geo f f' -> corners f' = corners f.
Proof. intros (A & B & C & D). unfold corners. congruence. Qed.
Lemma geo_nd f f' : geo f f' -> nd3 f -> nd3 f'.
Proof. intros (A & B & C & D) (E & F & G). unfold nd3. rewrite A, B, C. auto. Qed.

Definition sideSet (f : fct3) (u v : p3) (g : nat) (f' : fct3) : Prop :=
  geo f f' /\ forall x y z l, frot f' x y z l -> (x = u /\ y = v /\ l = Some g) \/ ((x, y) <> (u, v) /\ frot f x y z l).

Lemma setAb_ok f g : nd3 f -> sideSet f (fa f) (fb f) g (setAb f g).
Proof.
  intros (A & B & C). split; [repeat split|]. intros x y z l [(->&->&->&->)|[(->&->&->&->)|(->&->&->&->)]]; cbn; auto.
  - right. split; [congruence|unfold frot; tauto]. - right. split; [congruence|unfold frot; tauto].
Qed.
Lemma setBc_ok f g : nd3 f -> sideSet f (fb f) (fc f) g (setBc f g).
Proof.
  intros (A & B & C). split; [repeat split|]. intros x y z l [(->&->&->&->)|[(->&->&->&->)|(->&->&->&->)]]; cbn; auto.
  - right. split; [congruence|unfold frot; tauto]. - right. split; [congruence|unfold frot; tauto].
Qed.
Lemma setCa_ok f g : nd3 f -> sideSet f (fc f) (fa f) g (setCa f g).
Proof.
  intros (A & B & C). split; [repeat split|]. intros x y z l [(->&->&->&->)|[(->&->&->&->)|(->&->&->&->)]]; cbn; auto.
  - right. split; [congruence|unfold frot; tauto]. - right. split; [congruence|unfold frot; tauto].
Qed.

Lemma eq3_neq (p q : p3) : p <> q -> eq3 RNum p q = false. Proof. apply eq3_false. Qed.

Lemma linkEdge_ok h g j f u v w l v1 v2 : lv h j f -> nd3 f -> frot f u v w l -> (v1 = u /\ v2 = v) \/ (v1 = v /\ v2 = u) ->
  exists f', linkEdge h g j v1 v2 = Ok (upd j (Some f') h) /\ sideSet f u v g f'.
Proof.
  intros L ND R E. pose proof ND as (N1 & N2 & N3). unfold linkEdge. rewrite (getF_lv L). cbn [bind].
  assert (NE : forall a b : p3, a <> b -> b <> a) by auto.
  destruct R as [(->&->&->&_)|[(->&->&->&_)|(->&->&->&_)]], E as [[-> ->]|[-> ->]].
  - rewrite !eq3_refl. eexists. split; [reflexivity|]. apply setAb_ok; auto.
  - rewrite !eq3_refl, orb_true_r. eexists. split; [reflexivity|]. apply setAb_ok; auto.
  - rewrite !eq3_refl, !(eq3_neq (NE _ _ N3)), (eq3_neq N1), ?andb_false_l, ?andb_false_r. cbn. eexists. split; [reflexivity|]. apply setBc_ok; auto.
  - rewrite !eq3_refl, !(eq3_neq (NE _ _ N3)), (eq3_neq N1), ?andb_false_l, ?andb_false_r, orb_true_r. cbn. eexists. split; [reflexivity|]. apply setBc_ok; auto.
  - rewrite !eq3_refl, ?(eq3_neq N2), ?(eq3_neq (NE _ _ N3)), ?(eq3_neq (NE _ _ N1)), ?(eq3_neq N3), ?andb_false_l, ?andb_false_r. cbn.
    eexists. split; [reflexivity|]. apply setCa_ok; auto.
  - rewrite !eq3_refl, ?(eq3_neq N2), ?(eq3_neq (NE _ _ N3)), ?(eq3_neq (NE _ _ N1)), ?(eq3_neq N3), ?andb_false_l, ?andb_false_r, ?orb_true_r. cbn.
    eexists. split; [reflexivity|]. apply setCa_ok; auto.
Qed.

Lemma hasEdge_yes f u v w l v1 v2 : frot f u v w l -> (v1 = u /\ v2 = v) \/ (v1 = v /\ v2 = u) -> hasEdge f v1 v2 = true.
Proof.
  intros [(->&->&->&_)|[(->&->&->&_)|(->&->&->&_)]] [[-> ->]|[-> ->]]; unfold hasEdge; rewrite !eq3_refl; cbn; rewrite ?orb_true_r; auto.
Qed.
Lemma hasEdge_no (f : fct3) v1 v2 : ~ corner (corners f) v1 \/ ~ corner (corners f) v2 -> hasEdge f v1 v2 = false.
Proof.
  unfold corners; cbn [corner]. intros H. destruct (hasEdge f v1 v2) eqn:E; auto. exfalso. unfold hasEdge in E.
  rewrite !orb_true_iff, !andb_true_iff, !eq3_iff in E. intuition congruence.
Qed.

Lemma lv_upd_eq h j f : (j < length h)%nat -> lv (upd j (Some f) h) j f.
Proof. intros H. unfold lv. now apply nth_error_upd_eq. Qed.
Lemma lv_upd_neq h j k f x : j <> k -> (lv (upd j x h) k f <-> lv h k f).
Proof. intros H. unfold lv. now rewrite nth_error_upd_neq. Qed.

Lemma foldR_app X Y (f : Y -> X -> res Y) l1 l2 y : foldR f (l1 ++ l2) y = bind (foldR f l1 y) (foldR f l2).
Proof. revert y; induction l1 as [|x l1 IH]; intros y; cbn [foldR app bind]; auto. destruct (f y x); cbn [bind]; auto. Qed.

Section Link.
  Variable h : heap3.
  Variable W : p3 -> Prop.
  Hypothesis SI : SInv h W.
  Variable eps : R.
  Hypothesis eps0 : 0 <= eps.
  Variable p : p3.
  Hypothesis MP : forall i f, lv h i f -> @visible RNum eps f p = false -> ht (corners f) p < 0.
  Hypothesis Np : ~ W p.
  Notation vis := (vis h eps p).
  Notation bnd := (bnd h eps p).
  Notation bndE := (bndE h eps p).
  Notation drt := (drt h).
  Variable fr : list edge3.
  Hypothesis Fcyc : forall i e e', nth_error fr i = Some e -> nth_error fr ((i + 1) mod length fr) = Some e' -> eb e = ea e'.
  Hypothesis Fnd : NoDup (map key fr).
  Hypothesis Fb : forall e, In e fr -> bndE e.
  Hypothesis Fall : forall u v, bnd u v -> exists e, In e fr /\ key e = (u, v).
  Notation n0 := (length h).
  Notation m := (length fr).
  Hypothesis m0 : (0 < m)%nat.

  Lemma fr_hor e : In e fr -> hor W p (ea e) (eb e).
  Proof. intros He. eapply bnd_hor; eauto. eapply bndE_bnd; eauto. Qed.
  Lemma fr_key i j e e' : nth_error fr i = Some e -> nth_error fr j = Some e' -> key e = key e' -> i = j.
  Proof.
    intros Hi Hj E. eapply (proj1 (NoDup_nth_error (map key fr)) Fnd); [rewrite map_length; apply nth_error_Some; congruence|].
    rewrite !nth_error_map, Hi, Hj. cbn. congruence.
  Qed.
  (** the horizon turns one way *)
  Lemma fr_nrev e e' : In e fr -> In e' fr -> ea e' = eb e -> eb e' <> ea e.
  Proof.
    intros He He' E1 E2. pose proof (Fb _ He) as (i & j & w & _ & _ & D & _).
    destruct (drt_nd SI D) as (N1 & N2 & N3).
    destruct (fr_hor _ He) as (A & B & C & X), (fr_hor _ He') as (_ & _ & _ & Y).
    assert (Ww : W w). { destruct D as (f & Lf & Rf). apply (si_W SI Lf). apply (frot_corner Rf). }
    specialize (X w Ww N3 ltac:(auto)). specialize (Y w Ww ltac:(congruence) ltac:(congruence)).
    rewrite E1, E2, svol_swap1 in Y. lra.
  Qed.
  Lemma fr_np e : In e fr -> ea e <> p /\ eb e <> p /\ ea e <> eb e.
  Proof. intros He. destruct (fr_hor _ He) as (A & B & C & _). repeat split; auto; congruence. Qed.
  Lemma fr_in e : In e fr -> svol (ea e) (eb e) p O3 < 0.
  Proof.
    intros He. pose proof (Fb _ He) as (i & j & w & _ & _ & D & Vi & Vj). destruct (drt_twin SI D) as [w' D'].
    pose proof (twin_apex SI D D') as T1. destruct D as (f & Lf & Rf), D' as (g & Lg & Rg).
    assert (Pf : 0 < svol (ea e) (eb e) w p).
    { rewrite <- (rot3_ht _ (frot_rot3 Rf)). apply (vis_lv eps p Lf) in Vi. pose proof (@vis_pos h eps p i f Lf Vi). lra. }
    assert (Pg : svol (eb e) (ea e) w' p < 0).
    { rewrite <- (rot3_ht _ (frot_rot3 Rg)). apply (MP Lg). destruct (@visible RNum eps g p) eqn:E; auto. exfalso. apply Vj. exists g; auto. }
    pose proof (si_in SI Lf) as A1. pose proof (si_in SI Lg) as A2.
    rewrite (rot3_ht _ (frot_rot3 Rf)) in A1. rewrite (rot3_ht _ (frot_rot3 Rg)) in A2.
    apply (@new_below (ea e) (eb e) w w' p O3 Pf Pg T1); lra.
  Qed.

  Definition N (e : edge3) : fct3 := Fct RNum (ea e) (eb e) p None None None [].
  Lemma newFct_ok e : In e fr -> newFct RNum eps (ea e) (eb e) p = N e.
  Proof.
    intros He. unfold newFct, mkTri. cbn [nlt RNum]. rewrite det3_R.
    destruct (Rltb eps (svol (ea e) (eb e) p O3)) eqn:E; auto. apply Rltb_true in E. pose proof (fr_in _ He). lra.
  Qed.
  Definition h1 : heap3 := h ++ map (fun e => Some (newFct RNum eps (ea e) (eb e) p)) fr.
  Lemma h1_len : length h1 = (n0 + m)%nat. Proof. unfold h1. now rewrite app_length, map_length. Qed.
  Lemma h1_old k f : (k < n0)%nat -> (lv h1 k f <-> lv h k f).
  Proof. intros Hk. unfold lv, h1. now rewrite nth_error_app1. Qed.
  Lemma h1_new i e : nth_error fr i = Some e -> lv h1 (n0 + i) (N e).
  Proof.
    intros Hi. unfold lv, h1. rewrite nth_error_app2 by lia. replace (n0 + i - n0)%nat with i by lia.
    rewrite nth_error_map, Hi. cbn. now rewrite newFct_ok by (eapply nth_error_In; eauto).
  Qed.
  Lemma h1_inv k f : lv h1 k f -> ((k < n0)%nat /\ lv h k f) \/ exists i e, k = (n0 + i)%nat /\ nth_error fr i = Some e /\ f = N e.
  Proof.
    intros L. destruct (lt_dec k n0) as [Hk|Hk]; [left; split; auto; apply h1_old; auto|right].
    unfold lv, h1 in L. rewrite nth_error_app2 in L by lia. rewrite nth_error_map in L.
    destruct (nth_error fr (k - n0)) as [e|] eqn:E; [|discriminate]. cbn in L. inversion L.
    exists (k - n0)%nat, e. split; [lia|]. split; auto. rewrite newFct_ok; auto. eapply nth_error_In; eauto.
  Qed.
  Lemma N_nd e : In e fr -> nd3 (N e).
  Proof. intros He. destruct (fr_np _ He) as (A & B & C). unfold nd3, N; cbn. auto. Qed.
  Lemma h1_nd k f : lv h1 k f -> nd3 f.
  Proof.
    intros L. destruct (h1_inv L) as [[_ Lh]|(i & e & _ & Hi & ->)]; [exact (si_nd SI Lh)|].
    apply N_nd. eapply nth_error_In; eauto.
  Qed.

  Definition sc (i : nat) : nat := ((i + 1) mod m)%nat.
  Definition pd (i : nat) : nat := ((i + m - 1) mod m)%nat.
  Lemma sc_lt i : (sc i < m)%nat. Proof. apply Nat.mod_upper_bound. lia. Qed.
  Lemma pd_lt i : (pd i < m)%nat. Proof. apply Nat.mod_upper_bound. lia. Qed.
  Lemma sc_pd i : (i < m)%nat -> sc (pd i) = i.
  Proof.
    intros Hi. unfold sc, pd. destruct i as [|i].
    - replace (0 + m - 1)%nat with (m - 1)%nat by lia. rewrite (Nat.mod_small (m - 1)) by lia.
      replace (m - 1 + 1)%nat with m by lia. apply Nat.mod_same; lia.
    - replace (S i + m - 1)%nat with (i + 1 * m)%nat by lia. rewrite Nat.mod_add by lia. rewrite (Nat.mod_small i) by lia.
      rewrite Nat.mod_small by lia. lia.
  Qed.
  Lemma pd_sc i : (i < m)%nat -> pd (sc i) = i.
  Proof.
    intros Hi. unfold sc, pd. destruct (Nat.eq_dec (i + 1) m) as [E|E].
    - rewrite E, Nat.mod_same by lia. rewrite Nat.mod_small by lia. lia.
    - rewrite (Nat.mod_small (i + 1)) by lia. replace (i + 1 + m - 1)%nat with (i + 1 * m)%nat by lia.
      rewrite Nat.mod_add by lia. apply Nat.mod_small; auto.
  Qed.
  Lemma fr_nth i : (i < m)%nat -> exists e, nth_error fr i = Some e.
  Proof. intros Hi. destruct (nth_error fr i) eqn:E; eauto. apply nth_error_None in E. lia. Qed.

  (** the link wanted across a side *)
  Definition Int (k : nat) (u v : p3) (l : option nat) : Prop :=
    ((k < n0)%nat /\ exists i e, nth_error fr i = Some e /\ key e = (v, u) /\ l = Some (n0 + i)%nat) \/
    (exists i e, k = (n0 + i)%nat /\ nth_error fr i = Some e /\
       ((u = ea e /\ v = eb e /\ l = eff e) \/ (u = eb e /\ v = p /\ l = Some (n0 + sc i)%nat) \/
        (u = p /\ v = ea e /\ l = Some (n0 + pd i)%nat))).

  Record Mid (h' : heap3) : Prop := {
    md_len : length h' = length h1;
    md_ex : forall k f, lv h1 k f -> exists f', lv h' k f' /\ geo f f' /\ forall u v w l, frot f' u v w l -> Int k u v l \/ frot f u v w l;
    md_inv : forall k f', lv h' k f' -> exists f, lv h1 k f;
  }.
  Definition Have (h' : heap3) (k : nat) (u v : p3) : Prop := forall f' w l, lv h' k f' -> frot f' u v w l -> Int k u v l.

  Lemma Mid_h1 : Mid h1.
  Proof. split; auto; eauto. intros k f L. exists f. split; auto. split; [apply geo_refl|]. auto. Qed.
  Lemma Mid_nd h' k f : Mid h' -> lv h' k f -> nd3 f.
  Proof.
    intros M L. destruct (md_inv M L) as [g Lg]. destruct (md_ex M Lg) as (f' & L' & G & _). rewrite (lv_fun L L').
    eapply geo_nd; eauto. eapply h1_nd; eauto.
  Qed.
  Lemma Mid_write h' k f' u v g f'' : Mid h' -> lv h' k f' -> sideSet f' u v g f'' -> Int k u v (Some g) ->
    let h2 := upd k (Some f'') h' in
    Mid h2 /\ Have h2 k u v /\ lv h2 k f'' /\ forall k2 x y, Have h' k2 x y -> Have h2 k2 x y.
  Proof.
    intros M L [G S] I h2. assert (Lk : (k < length h')%nat) by (eapply lv_len; eauto).
    assert (L2 : lv h2 k f'') by (apply lv_upd_eq; auto).
    split; [|split; [|split]]; auto.
    - split.
      + unfold h2. rewrite upd_length. apply M.
      + intros j f Lj. destruct (md_ex M Lj) as (g' & Lg & Gg & Sg). destruct (Nat.eq_dec k j) as [<-|Ne].
        * rewrite (lv_fun Lg L) in *. exists f''. split; auto. split; [eapply geo_trans; eauto|].
          intros x y z l R. destruct (S x y z l R) as [(-> & -> & ->)|[_ R']]; auto.
        * exists g'. split; auto. apply lv_upd_neq; auto.
      + intros j f Lj. destruct (Nat.eq_dec k j) as [<-|Ne]; [eapply (md_inv M); eauto|].
        apply lv_upd_neq in Lj; auto. eapply (md_inv M); eauto.
    - intros f w l Lf R. rewrite (lv_fun Lf L2) in R. destruct (S _ _ _ _ R) as [(_ & _ & ->)|[Ne _]]; auto. congruence.
    - intros k2 x y Hv f w l Lf R. destruct (Nat.eq_dec k k2) as [<-|Ne].
      + rewrite (lv_fun Lf L2) in R. destruct (S _ _ _ _ R) as [(-> & -> & ->)|[_ R']]; auto. eapply Hv; eauto.
      + apply lv_upd_neq in Lf; auto. eapply Hv; eauto.
  Qed.

  Lemma Mid_old h' k f : Mid h' -> lv h k f -> exists f', lv h' k f' /\ geo f f'.
  Proof.
    intros M L. destruct (@md_ex _ M k f) as (f' & L' & G & _); [apply h1_old; auto; eapply lv_len; eauto|]. eauto.
  Qed.
  Lemma Mid_new h' i e : Mid h' -> nth_error fr i = Some e ->
    exists f', lv h' (n0 + i) f' /\ fa f' = ea e /\ fb f' = eb e /\ fc f' = p /\ see f' = [].
  Proof.
    intros M Hi. destruct (md_ex M (h1_new _ Hi)) as (f' & L' & (A & B & C & D) & _). exists f'. cbn in *. auto.
  Qed.

  Lemma geo_frot f f' u v w l : geo f f' -> frot f u v w l -> exists l', frot f' u v w l'.
  Proof.
    intros (A & B & C & _) R. unfold frot in *. rewrite A, B, C.
    destruct R as [(->&->&->&_)|[(->&->&->&_)|(->&->&->&_)]]; [exists (fab f')|exists (fbc f')|exists (fca f')]; tauto.
  Qed.

  Lemma linkSide_ok set (u v : fct3 -> p3) h' k x F g y w l : Mid h' -> lv h' k x -> sideSet x (u x) (v x) g (set x g) ->
    findFacet h' F (u x) (v x) = Ok g -> Int k (u x) (v x) (Some g) ->
    lv h' g y -> frot y (v x) (u x) w l -> Int g (v x) (u x) (Some k) -> k <> g ->
    exists h'', linkSide set u v h' k F = Ok h'' /\ Mid h'' /\ Have h'' k (u x) (v x) /\ Have h'' g (v x) (u x) /\
      forall k2 a b, Have h' k2 a b -> Have h'' k2 a b.
  Proof.
    intros M Lx Sx Ef Ik Ly Ry Ig Ne. unfold linkSide. rewrite (getF_lv Lx). cbn [bind]. rewrite Ef. cbn [bind].
    destruct (Mid_write M Lx Sx Ik) as (M1 & H1 & _ & P1).
    assert (Ly' : lv (upd k (Some (set x g)) h') g y) by (apply lv_upd_neq; auto).
    destruct (@linkEdge_ok _ k g y (v x) (u x) w l (u x) (v x) Ly' (Mid_nd M1 Ly') Ry) as (y' & E & Sy); auto.
    rewrite E. eexists. split; [reflexivity|]. destruct (Mid_write M1 Ly' Sy Ig) as (M2 & H2 & _ & P2).
    split; auto.
  Qed.

  Lemma link_one h' i e : Mid h' -> nth_error fr i = Some e ->
    exists h'' j, eff e = Some j /\ linkFacet h' (n0 + i) [Some (n0 + sc i)%nat; eff e; Some (n0 + pd i)%nat] = Ok h'' /\ Mid h'' /\
      (forall k x y, Have h' k x y -> Have h'' k x y) /\
      Have h'' (n0 + i) (ea e) (eb e) /\ Have h'' (n0 + i) (eb e) p /\ Have h'' (n0 + i) p (ea e) /\ Have h'' j (eb e) (ea e).
  Proof.
    intros M Hi. assert (He : In e fr) by (eapply nth_error_In; eauto). assert (Li : (i < m)%nat) by (apply nth_error_Some; congruence).
    pose proof (Fb _ He) as (ib & j & w & Eb & Ef & D & Vi & Vj). destruct (drt_twin SI D) as [w' D']. pose proof D' as (g & Lg & Rg).
    destruct (fr_nth (sc_lt i)) as [en Hn]. destruct (fr_nth (pd_lt i)) as [ep Hp].
    assert (Hne : In en fr) by (eapply nth_error_In; eauto). assert (Hpe : In ep fr) by (eapply nth_error_In; eauto).
    pose proof (Fcyc _ Hi Hn) as En. pose proof (Fcyc _ Hp (e' := e)) as Ep. fold (sc (pd i)) in Ep. rewrite (sc_pd Li) in Ep. specialize (Ep Hi).
    destruct (fr_np _ He) as (N1 & N2 & N3), (fr_np _ Hne) as (K1 & K2 & K3), (fr_np _ Hpe) as (Q1 & Q2 & Q3).
    assert (Nn : eb en <> ea e) by (apply (fr_nrev _ _ He Hne); auto).
    assert (Nq : eb e <> ea ep) by (apply (fr_nrev _ _ Hpe He); auto).
    assert (Ns : sc i <> i). { intros E. rewrite E in Hn. assert (en = e) by congruence. subst. congruence. }
    assert (Npd : pd i <> i). { intros E. rewrite E in Hp. assert (ep = e) by congruence. subst. congruence. }
    assert (Lj : (j < n0)%nat) by (eapply lv_len; eauto).
    unfold linkFacet. rewrite Ef.
    (* ab *)
    destruct (@Mid_new _ _ _ M Hi) as (x & Lx & Xa & Xb & Xc & Xs).
    destruct (@Mid_new _ _ _ M Hn) as (yn & Lyn & Ya & Yb & Yc & Ys).
    destruct (Mid_old M Lg) as (g' & Lg' & Gg). destruct (geo_frot Gg Rg) as [lg Rg'].
    pose proof (setAb_ok j (Mid_nd M Lx)) as S1.
    assert (F1 : findFacet h' [Some (n0 + sc i)%nat; Some j; Some (n0 + pd i)%nat] (fa x) (fb x) = Ok j).
    { cbn [findFacet]. rewrite (getF_lv Lyn), (getF_lv Lg'). cbn [bind].
      assert (T1 : hasEdge yn (fa x) (fb x) = false).
      { apply hasEdge_no. left. unfold corners; cbn [corner]. rewrite Xa, Ya, Yb, Yc. intuition congruence. }
      assert (T2 : hasEdge g' (fa x) (fb x) = true) by (apply (hasEdge_yes Rg'); rewrite Xa, Xb; auto).
      now rewrite T1, T2. }
    destruct (@linkSide_ok (@setAb RNum) (@fa RNum) (@fb RNum) h' (n0 + i) x _ j g' w' lg M Lx S1 F1) as (h2 & E1 & M1 & HA1 & HA2 & P1); auto.
    { right. exists i, e. rewrite Xa, Xb. split; [auto|]. split; [auto|]. left. auto. }
    { rewrite Xa, Xb. auto. }
    { left. split; auto. exists i, e. rewrite Xa, Xb. auto. }
    { lia. }
    rewrite E1. cbn [bind]. rewrite Xa, Xb in HA1, HA2.
    (* bc *)
    clear x Lx Xa Xb Xc Xs yn Lyn Ya Yb Yc Ys g' Lg' Gg lg Rg' S1 F1.
    destruct (@Mid_new _ _ _ M1 Hi) as (x & Lx & Xa & Xb & Xc & Xs).
    destruct (@Mid_new _ _ _ M1 Hn) as (yn & Lyn & Ya & Yb & Yc & Ys).
    pose proof (setBc_ok (n0 + sc i) (Mid_nd M1 Lx)) as S1.
    assert (Ry : frot yn p (eb e) (eb en) (fca yn)) by (unfold frot; rewrite Ya, Yb, Yc, En; tauto).
    assert (F1 : findFacet h2 [Some (n0 + sc i)%nat; Some j; Some (n0 + pd i)%nat] (fb x) (fc x) = Ok (n0 + sc i)%nat).
    { cbn [findFacet]. rewrite (getF_lv Lyn). cbn [bind]. 
      assert (T1 : hasEdge yn (fb x) (fc x) = true) by (apply (hasEdge_yes Ry); rewrite Xb, Xc; auto). now rewrite T1. }
    destruct (@linkSide_ok (@setBc RNum) (@fb RNum) (@fc RNum) h2 (n0 + i) x _ (n0 + sc i) yn (eb en) (fca yn) M1 Lx S1 F1) as (h3 & E2 & M2 & HB1 & HB2 & P2); auto.
    { right. exists i, e. rewrite Xb, Xc. split; [auto|]. split; [auto|]. right; left. auto. }
    { rewrite Xb, Xc. auto. }
    { right. exists (sc i), en. rewrite Xb, Xc. split; [auto|]. split; [auto|]. right. right. rewrite (pd_sc Li). auto. }
    { lia. }
    rewrite E2. cbn [bind]. rewrite Xb, Xc in HB1, HB2.
    clear x Lx Xa Xb Xc Xs yn Lyn Ya Yb Yc Ys S1 F1 Ry.
    destruct (@Mid_new _ _ _ M2 Hi) as (x & Lx & Xa & Xb & Xc & Xs).
    destruct (@Mid_new _ _ _ M2 Hn) as (yn & Lyn & Ya & Yb & Yc & Ys).
    destruct (@Mid_new _ _ _ M2 Hp) as (yp & Lyp & Za & Zb & Zc & Zs).
    destruct (Mid_old M2 Lg) as (g' & Lg' & Gg).
    pose proof (setCa_ok (n0 + pd i) (Mid_nd M2 Lx)) as S1.
    assert (Ry : frot yp (ea e) p (ea ep) (fbc yp)) by (unfold frot; rewrite Za, Zb, Zc, Ep; tauto).
    assert (F1 : findFacet h3 [Some (n0 + sc i)%nat; Some j; Some (n0 + pd i)%nat] (fc x) (fa x) = Ok (n0 + pd i)%nat).
    { cbn [findFacet]. rewrite (getF_lv Lyn), (getF_lv Lg'), (getF_lv Lyp). cbn [bind].
      assert (T1 : hasEdge yn (fc x) (fa x) = false).
      { apply hasEdge_no. right. unfold corners; cbn [corner]. rewrite Xa, Ya, Yb, Yc. intuition congruence. }
      assert (T2 : hasEdge g' (fc x) (fa x) = false).
      { apply hasEdge_no. left. rewrite Xc, (geo_corners Gg). intros C. apply Np. eapply (si_W SI Lg); eauto. }
      assert (T3 : hasEdge yp (fc x) (fa x) = true) by (apply (hasEdge_yes Ry); rewrite Xa, Xc; auto).
      now rewrite T1, T2, T3. }
    destruct (@linkSide_ok (@setCa RNum) (@fc RNum) (@fa RNum) h3 (n0 + i) x _ (n0 + pd i) yp (ea ep) (fbc yp) M2 Lx S1 F1) as (h4 & E3 & M3 & HC1 & HC2 & P3); auto.
    { right. exists i, e. rewrite Xa, Xc. split; [auto|]. split; [auto|]. right; right. auto. }
    { rewrite Xa, Xc. auto. }
    { right. exists (pd i), ep. rewrite Xa, Xc. split; [auto|]. split; [auto|]. right. left. rewrite (sc_pd Li). auto. }
    { lia. }
    exists h4, j. split; auto. split; auto. split; auto. split; [auto|].
    rewrite Xc, Xa in HC1. repeat split; auto.
  Qed.

  Definition linkAll (h' : heap3) (l : list nat) : res heap3 :=
    foldR (fun h i => match nth_error fr i with
                      | Some e => linkFacet h (n0 + i) [Some (n0 + (i + 1) mod m)%nat; eff e; Some (n0 + (i + m - 1) mod m)%nat]
                      | None => UB
                      end) l h'.
  Definition Done (h' : heap3) (i : nat) : Prop := forall e j, nth_error fr i = Some e -> eff e = Some j ->
    Have h' (n0 + i) (ea e) (eb e) /\ Have h' (n0 + i) (eb e) p /\ Have h' (n0 + i) p (ea e) /\ Have h' j (eb e) (ea e).
  Lemma linkAll_ok l : forall h', Mid h' -> (forall i, In i l -> (i < m)%nat) ->
    exists h2, linkAll h' l = Ok h2 /\ Mid h2 /\ (forall k x y, Have h' k x y -> Have h2 k x y) /\ forall i, In i l -> Done h2 i.
  Proof.
    induction l as [|i l IH]; intros h' M Hl; [exists h'; split; [reflexivity|]; split; [auto|]; split; [auto|]; intros i []|].
    unfold linkAll; cbn [foldR]. destruct (fr_nth (Hl i (or_introl eq_refl))) as [e Hi]. rewrite Hi.
    destruct (@link_one _ _ _ M Hi) as (h2 & j & Ej & E & M2 & P & A & B & C & D). unfold sc, pd in E. rewrite E. cbn [bind].
    destruct (IH h2 M2) as (h3 & E3 & M3 & P3 & D3); [intros; apply Hl; right; auto|].
    exists h3. split; [exact E3|]. split; auto. split; [auto|].
    intros k [<-|Hk]; auto. intros e' j' He' Hj'. assert (e' = e) by congruence. subst e'. assert (j' = j) by congruence. subst j'. auto 6.
  Qed.

  (** all links in place *)
  Lemma links_ok : exists h2, linkAll h1 (seq 0 m) = Ok h2 /\ Mid h2 /\ forall i, (i < m)%nat -> Done h2 i.
  Proof.
    destruct (linkAll_ok (seq 0 m) Mid_h1) as (h2 & E & M & _ & D); [intros i Hi; apply in_seq in Hi; lia|].
    exists h2. split; auto. split; auto. intros i Hi. apply D. apply in_seq; lia.
  Qed.
End Link.
