(** The search for the horizon: the edges found are all the horizon edges, in
    order around the apex, and the facets found are all the visible ones. *)
From Coq Require Import Reals Lra Lia Psatz List Bool Permutation.
From Verif Require Import Base Num Hull2dModel H3Model H3Geom H3Surf H3Heap.
Set Implicit Arguments.
Open Scope R_scope.

Notation edge3 := (edge RNum).
Notation dpt := (p3 * p3)%type.
Definition key (e : edge3) : dpt := (ea e, eb e).
Lemma edgeEq_iff (e : edge3) (v : dpt) : edgeEq e v = true <-> key e = v.
Proof.
  destruct v as [u v]. unfold edgeEq, key; cbn [fst snd]. rewrite andb_true_iff, !eq3_iff. split; [intros [-> ->]; auto|].
  intros E; inversion E; auto.
Qed.
Lemma existsb_edge (e : edge3) V : existsb (edgeEq e) V = true <-> In (key e) V.
Proof.
  rewrite existsb_exists. split.
  - intros (x & Hx & E). apply edgeEq_iff in E. subst; auto.
  - intros H. exists (key e). split; auto. apply edgeEq_iff; auto.
Qed.

Definition chain (fr : list edge3) : Prop := forall i e e', nth_error fr i = Some e -> nth_error fr (S i) = Some e' -> eb e = ea e'.
Definition closedC (fr : list edge3) : Prop :=
  exists e d, nth_error fr 0 = Some e /\ nth_error fr (length fr - 1) = Some d /\ eb d = ea e.

Section EdgeDfs.
  Variable h : heap3.
  Variable W : p3 -> Prop.
  Hypothesis SI : SInv h W.
  Variable eps : R.
  Hypothesis eps0 : 0 <= eps.
  Variable p : p3.
  (** the apex is well off every facet *)
  Hypothesis MP : forall i f, lv h i f -> @visible RNum eps f p = false -> ht (corners f) p < 0.

  Definition drt (u v w : p3) (i j : nat) : Prop := exists f, lv h i f /\ frot f u v w (Some j).
  Definition vis (i : nat) : Prop := exists f, lv h i f /\ @visible RNum eps f p = true.

  Lemma drt_fun u v w i j w' i' j' : drt u v w i j -> drt u v w' i' j' -> w = w' /\ i = i' /\ j = j'.
  Proof.
    intros (f & Lf & Rf) (g & Lg & Rg). destruct (side_unique SI Lf Lg Rf Rg) as (-> & -> & -> & E). inversion E; auto.
  Qed.
  Lemma drt_twin u v w i j : drt u v w i j -> exists w', drt v u w' j i.
  Proof. intros (f & Lf & Rf). destruct (si_link SI Lf Rf) as (j' & g & w' & E & Lg & Rg). inversion E; subst. exists w', g; auto. Qed.
  Lemma drt_next u v w i j : drt u v w i j -> exists j', drt v w u i j'.
  Proof.
    intros (f & Lf & Rf). destruct (frot_next Rf) as [l R]. destruct (si_link SI Lf R) as (j' & g & w' & -> & _). exists j', f; auto.
  Qed.
  Lemma drt_nd u v w i j : drt u v w i j -> u <> v /\ v <> w /\ w <> u.
  Proof. intros (f & Lf & Rf). eapply frot_nd; eauto. Qed.
  Lemma vis_dec i : {vis i} + {~ vis i}.
  Proof.
    unfold vis, lv. destruct (nth_error h i) as [[f|]|]; [|right; intros (g & E & _); discriminate..].
    destruct (@visible RNum eps f p) eqn:E; [left; eauto|right]. intros (g & E' & V). congruence.
  Qed.
  Lemma vis_lv i f : lv h i f -> (vis i <-> @visible RNum eps f p = true).
  Proof. intros L. split; [intros (g & Lg & V); now rewrite (lv_fun L Lg)|exists f; auto]. Qed.
  Lemma vis_pos i f : lv h i f -> @visible RNum eps f p = true -> eps < ht (corners f) p.
  Proof. intros L. unfold visible, sees. cbn [nlt RNum]. rewrite Rltb_true. intros H. rewrite vol_R in H. auto. Qed.

  Definition sig (x y : dpt) : Prop :=
    exists u v w i j w', x = (u, v) /\ y = (u, w') /\ drt u v w i j /\ vis i /\ vis j /\ drt v u w' j i.
  Definition bnd (u v : p3) : Prop := exists w i j, drt u v w i j /\ vis i /\ ~ vis j.
  Definition vdart (x : dpt) : Prop := exists w i j, drt (fst x) (snd x) w i j /\ vis i.

  Lemma sig_fst x y : sig x y -> fst x = fst y.
  Proof. intros (u & v & w & i & j & w' & -> & -> & _). auto. Qed.
  Lemma sig_vdart x y : sig x y -> vdart y.
  Proof.
    intros (u & v & w & i & j & w' & -> & -> & D & Vi & Vj & D'). destruct (drt_next D') as [j' D2].
    exists v, j, j'. auto.
  Qed.
  Lemma sig_inj x x' y : sig x y -> sig x' y -> x = x'.
  Proof.
    intros (u & v & w & i & j & w' & -> & -> & D & Vi & Vj & D') (u2 & v2 & w2 & i2 & j2 & w2' & -> & E & E1 & Vi2 & Vj2 & E').
    inversion E; subst u2 w2'.
    destruct (drt_next D') as [k D2], (drt_next E') as [k2 E2]. destruct (drt_fun D2 E2) as (<- & _). auto.
  Qed.

  (** ** Turning around a corner *)
  Inductive orb (x : dpt) : dpt -> Prop :=
  | orb_refl : orb x x
  | orb_step y z : orb x y -> sig y z -> orb x z.
  Lemma orb_fst x y : orb x y -> fst x = fst y.
  Proof. induction 1; auto. rewrite IHorb. apply sig_fst; auto. Qed.

  Definition dartsOf (i : nat) : list dpt :=
    match nth_error h i with Some (Some f) => [(fa f, fb f); (fb f, fc f); (fc f, fa f)] | _ => [] end.
  Definition darts : list dpt := flat_map dartsOf (seq 0 (length h)).
  Lemma darts_length : (length darts <= 3 * length h)%nat.
  Proof.
    unfold darts. assert (X : forall l, (length (flat_map dartsOf l) <= 3 * length l)%nat).
    { induction l as [|x l IH]; cbn [flat_map length]; [lia|]. rewrite app_length.
      unfold dartsOf at 1. destruct (nth_error h x) as [[f|]|]; cbn [length]; lia. }
    specialize (X (seq 0 (length h))). now rewrite seq_length in X.
  Qed.
  Lemma drt_darts u v w i j : drt u v w i j -> In (u, v) darts.
  Proof.
    intros (f & Lf & Rf). unfold darts. apply in_flat_map. exists i. split; [apply in_seq; apply lv_len in Lf; lia|].
    unfold dartsOf. rewrite Lf. destruct Rf as [(->&->&_)|[(->&->&_)|(->&->&_)]]; cbn; auto.
  Qed.

  Inductive olist (nd : dpt) : list dpt -> Prop :=
  | ol_one : olist nd [nd]
  | ol_cons x y L : olist nd (x :: L) -> sig x y -> olist nd (y :: x :: L).
  Lemma olist_pred nd L : olist nd L -> forall z, In z L -> z = nd \/ exists L1 z' L2, L = L1 ++ z :: z' :: L2 /\ sig z' z.
  Proof.
    induction 1 as [|x y L H IH Hs]; intros z Hz.
    - destruct Hz as [<-|[]]; auto.
    - destruct Hz as [<-|Hz]; [right; exists [], x, L; auto|].
      destruct (IH z Hz) as [E|(L1 & z' & L2 & E & S)]; auto.
      right. exists (y :: L1), z', L2. split; auto. rewrite E. auto.
  Qed.
  Lemma olist_NoDup nd L : (forall x, ~ sig x nd) -> olist nd L -> NoDup L.
  Proof.
    intros Np. induction 1 as [|x y L H IH Hs]; [repeat constructor; auto|].
    constructor; auto. intros Hy. destruct (olist_pred H _ Hy) as [->|(L1 & z' & L2 & E & S)]; [eapply Np; eauto|].
    assert (z' = x) by (eapply sig_inj; eauto). subst z'.
    destruct L1 as [|q L1]; cbn [app] in E.
    - injection E as E1 E2. rewrite E2 in IH. inversion IH as [|? ? NI _]. apply NI. left; auto.
    - injection E as E1 E2. rewrite E2 in IH. inversion IH as [|? ? NI _]. apply NI. apply in_or_app. right. right. left; auto.
  Qed.
  Lemma olist_vd nd L : vdart nd -> olist nd L -> forall z, In z L -> vdart z.
  Proof.
    intros V. induction 1 as [|x y L H IH Hs]; intros z Hz.
    - destruct Hz as [<-|[]]; auto. - destruct Hz as [<-|Hz]; [eapply sig_vdart; eauto|auto].
  Qed.
  Lemma orb_olist nd x : orb nd x -> exists L, olist nd (x :: L).
  Proof. induction 1 as [|y z H [L IH] S]; [exists []; constructor|]. exists (y :: L). constructor; auto. Qed.
  Lemma vdart_case x : vdart x -> bnd (fst x) (snd x) \/ exists y, sig x y.
  Proof.
    destruct x as [u v]. intros (w & i & j & D & Vi). cbn [fst snd] in *. destruct (vis_dec j) as [Vj|Vj].
    - right. destruct (drt_twin D) as [w' D']. exists (u, w'). exists u, v, w, i, j, w'. repeat (split; auto).
    - left. exists w, i, j. auto.
  Qed.
  Lemma orb_bnd_aux n : forall nd x L, (forall x, ~ sig x nd) -> vdart nd -> olist nd (x :: L) ->
    (3 * length h - length (x :: L) < n)%nat -> exists y, orb x y /\ bnd (fst y) (snd y).
  Proof.
    induction n as [|n IH]; [lia|]. intros nd x L Np Vn OL F.
    destruct (vdart_case (olist_vd Vn OL x (or_introl eq_refl))) as [B|[y S]]; [exists x; split; auto; constructor|].
    assert (OL2 : olist nd (y :: x :: L)) by (constructor; auto).
    assert (Len : (length (y :: x :: L) <= 3 * length h)%nat).
    { pose proof darts_length. pose proof (olist_NoDup Np OL2) as ND. eapply NoDup_incl_length with (l' := darts) in ND; [lia|].
      intros z Hz. destruct (olist_vd Vn OL2 z Hz) as (w & i & j & D & _). destruct z. eapply drt_darts; eauto. }
    destruct (IH nd y (x :: L) Np Vn OL2) as (z & Oz & Bz); [cbn [length] in *; lia|].
    exists z. split; auto. clear - S Oz. induction Oz; [eapply orb_step; [constructor|auto]|eapply orb_step; eauto].
  Qed.
  Lemma next_no_pred t u w i j j' : drt t u w i j -> ~ vis j -> drt u w t i j' -> forall x, ~ sig x (u, w).
  Proof.
    intros D Nj D2 x (u2 & v2 & w2 & i2 & j2 & w' & -> & E & E1 & Vi2 & Vj2 & E'). inversion E; subst u2 w'.
    destruct (drt_next E') as [k E2]. destruct (drt_fun D2 E2) as (<- & -> & _).
    destruct (drt_fun D E') as (_ & _ & ->). auto.
  Qed.
  Lemma orb_bnd t u w i j j' x (V : list dpt) : drt t u w i j -> vis i -> ~ vis j -> drt u w t i j' -> orb (u, w) x ->
    (forall a b, In a V -> sig a b -> In b V) -> In x V -> exists y, In (u, y) V /\ bnd u y.
  Proof.
    intros D Vi Nj D2 O CL Hx. destruct (orb_olist O) as [L OL].
    destruct (@orb_bnd_aux (S (3 * length h)) (u, w) x L) as ([u' y] & Oy & B); auto.
    - eapply next_no_pred; eauto.
    - exists t, i, j'; auto.
    - cbn [length]. lia.
    - assert (u' = u) by (apply orb_fst in O; apply orb_fst in Oy; cbn in *; congruence). subst u'.
      exists y. split; auto. clear - Oy CL Hx. induction Oy; auto. eapply CL; eauto.
  Qed.

  (** ** Horizon edges *)
  Lemma twin_apex u v w i j w' : drt u v w i j -> drt v u w' j i -> svol u v w w' < 0.
  Proof.
    intros (f & Lf & Rf) (g & Lg & Rg). rewrite <- (rot3_ht _ (frot_rot3 Rf)).
    apply si_neg with h W i; auto; [apply (si_W SI Lg); apply (frot_corner Rg)|].
    destruct (frot_nd SI Lf Rf) as (N1 & N2 & N3), (frot_nd SI Lg Rg) as (M1 & M2 & M3).
    rewrite (rot3_corner _ (frot_rot3 Rf)). intros [E|[E|E]]; try congruence. subst w'.
    assert (i = j). { eapply (si_dup SI Lf Lg). intros q. rewrite (rot3_corner _ (frot_rot3 Rf)), (rot3_corner _ (frot_rot3 Rg)). tauto. }
    subst j. rewrite (lv_fun Lg Lf) in *.
    destruct Rf as [(->&->&->&_)|[(->&->&->&_)|(->&->&->&_)]], Rg as [(E1&E2&E3&_)|[(E1&E2&E3&_)|(E1&E2&E3&_)]]; congruence.
  Qed.
  Lemma bnd_hor u v : bnd u v -> hor W p u v.
  Proof.
    intros (w & i & j & D & Vi & Vj). destruct (drt_twin D) as [w' D'].
    pose proof (twin_apex D D') as T1. pose proof (twin_apex D' D) as T2.
    destruct (drt_nd D) as (N1 & N2 & N3).
    destruct D as (f & Lf & Rf), D' as (g & Lg & Rg).
    assert (Pf : 0 < svol u v w p).
    { rewrite <- (rot3_ht _ (frot_rot3 Rf)). apply (vis_lv Lf) in Vi. pose proof (vis_pos Lf Vi). lra. }
    assert (Pg : svol v u w' p < 0).
    { rewrite <- (rot3_ht _ (frot_rot3 Rg)). apply (MP Lg). destruct (@visible RNum eps g p) eqn:E; auto. exfalso. apply Vj. exists g; auto. }
    destruct (frot_corner Rf) as (C1 & C2 & C3).
    split; [apply (si_W SI Lf C1)|]. split; [apply (si_W SI Lf C2)|]. split; auto.
    intros q Wq Nu Nv.
    pose proof (@si_le h W SI i f q Lf Wq) as A1. pose proof (@si_le h W SI j g q Lg Wq) as A2.
    rewrite (rot3_ht _ (frot_rot3 Rf)) in A1. rewrite (rot3_ht _ (frot_rot3 Rg)) in A2.
    apply (@new_below u v w w' p q Pf Pg T1 A1 A2).
    destruct (p3_eq_dec q w) as [->|Nw]; [right; auto|left].
    rewrite <- (rot3_ht _ (frot_rot3 Rf)). apply si_neg with h W i; auto. rewrite (rot3_corner _ (frot_rot3 Rf)). tauto.
  Qed.

  Definition ent (e : edge3) : Prop := exists i j w, efb e = Some i /\ eff e = Some j /\ drt (ea e) (eb e) w i j.
  Definition visE (e : edge3) : Prop := exists i, efb e = Some i /\ vis i.
  Definition bndE (e : edge3) : Prop := exists i j w, efb e = Some i /\ eff e = Some j /\ drt (ea e) (eb e) w i j /\ vis i /\ ~ vis j.
  Lemma bndE_bnd e : bndE e -> bnd (ea e) (eb e).
  Proof. intros (i & j & w & _ & _ & D & V & N). exists w, i, j; auto. Qed.

  Lemma closing fr d e0 : chain fr -> (forall e, In e fr -> bndE e) -> NoDup (map key fr) ->
    nth_error fr (length fr - 1) = Some d -> In e0 fr -> ea e0 = eb d -> closedC fr.
  Proof.
    intros Ch Hb ND Hd He Ee. apply In_nth_error in He. destruct He as [[|i] Hi]; [exists e0, d; auto|]. exfalso.
    assert (Li : (S i < length fr)%nat) by (apply nth_error_Some; congruence).
    destruct (nth_error fr i) as [e1|] eqn:E1; [|apply nth_error_None in E1; lia].
    pose proof (Ch _ _ _ E1 Hi) as E2.
    pose proof (bnd_hor (bndE_bnd (Hb e1 (nth_error_In _ _ E1)))) as H1.
    pose proof (bnd_hor (bndE_bnd (Hb d (nth_error_In _ _ Hd)))) as H2.
    assert (ea e1 = ea d). { eapply hor_pred; [exact H1|]. replace (eb e1) with (eb d) by congruence. exact H2. }
    assert (K : key e1 = key d) by (unfold key; f_equal; congruence).
    assert (i = length fr - 1)%nat; [|lia].
    eapply (proj1 (NoDup_nth_error (map key fr)) ND); [rewrite map_length; lia|].
    rewrite !nth_error_map, E1, Hd. cbn. congruence.
  Qed.
  Lemma closed_all fr : chain fr -> (forall e, In e fr -> bndE e) -> closedC fr ->
    forall u v, bnd u v -> exists e, In e fr /\ key e = (u, v).
  Proof.
    intros Ch Hb (e0 & d & H0 & Hd & E) u v B.
    assert (Lp : (0 < length fr)%nat) by (apply nth_error_Some; congruence).
    pose (vv := fun i => match nth_error fr i with Some e => ea e | None => ea e0 end).
    destruct (@hor_cycle W p vv (length fr)) with (x := u) (y := v) as (i & Hi & Eu & Ev).
    - lia.
    - unfold vv. rewrite H0. assert (N : nth_error fr (length fr) = None) by (apply nth_error_None; lia). now rewrite N.
    - intros i Hi. unfold vv. destruct (nth_error fr i) as [e|] eqn:E1; [|apply nth_error_None in E1; lia].
      pose proof (bnd_hor (bndE_bnd (Hb e (nth_error_In _ _ E1)))) as H1.
      destruct (nth_error fr (S i)) as [e'|] eqn:E2; [rewrite <- (Ch _ _ _ E1 E2); auto|].
      apply nth_error_None in E2. replace (length fr - 1)%nat with i in Hd by lia. assert (e = d) by congruence. subst. rewrite <- E; auto.
    - apply bnd_hor; auto.
    - unfold vv in *. destruct (nth_error fr i) as [e|] eqn:E1; [|apply nth_error_None in E1; lia].
      exists e. split; [eapply nth_error_In; eauto|]. unfold key. f_equal; auto.
      destruct (nth_error fr (S i)) as [e'|] eqn:E2; [rewrite (Ch _ _ _ E1 E2); auto|].
      apply nth_error_None in E2. replace (length fr - 1)%nat with i in Hd by lia. assert (e = d) by congruence. subst. auto.
  Qed.

  (** ** The machine *)
  Variable start : nat.
  Variable d0 : dpt.
  Hypothesis d0s : forall w i j, drt (fst d0) (snd d0) w i j -> j = start.
  Hypothesis Vstart : vis start.

  Record MInv (S : list edge3) (V : list dpt) (fr : list edge3) (fs : list nat) : Prop := {
    m_ent : forall e, In e S -> ent e;
    m_nd : NoDup V;
    m_V : forall x, In x V -> vdart x \/ x = d0;
    m_grp : forall j u v w k, In j fs -> drt u v w j k -> In (u, v) V \/ exists e, In e S /\ key e = (u, v);
    m_fs : NoDup fs /\ (forall j, In j fs -> vis j) /\ In start fs;
    m_efb : forall e i, In e S -> efb e = Some i -> vis i -> In i fs;
    m_eff : forall u v w i j, In (u, v) V -> drt u v w i j -> vis i -> vis j -> In j fs;
    m_fr1 : forall u v, In (u, v) V -> bnd u v -> exists e, In e fr /\ key e = (u, v);
    m_fr2 : forall e, In e fr -> In (key e) V /\ bndE e;
    m_fr3 : NoDup (map key fr);
    m_A : forall x y, In x V -> sig x y -> In y V \/ exists e S', S = e :: S' /\ key e = y;
    m_B : forall S1 e S2, S = S1 ++ e :: S2 -> bndE e -> S2 = [] \/ exists e' S', S2 = e' :: S' /\ efb e' = efb e /\ ea e' = eb e;
    m_ch : chain fr;
    m_C : fr = [] \/ closedC fr \/
      exists d x S1 S2, nth_error fr (length fr - 1) = Some d /\ S = S1 ++ x :: S2 /\ (forall e, In e S1 -> ~ visE e) /\ visE x /\
        forall w i j, drt (ea d) (eb d) w i j -> orb (eb d, w) (key x);
  }.

  Lemma push_spec (e : edge3) i j w : efb e = Some i -> eff e = Some j -> drt (ea e) (eb e) w i j ->
    exists g w' l1 l2, lv h j g /\ drt (eb e) (ea e) w' j i /\ drt (ea e) w' (eb e) j l1 /\ drt w' (eb e) (ea e) j l2 /\
      pushEdges g e = [Edge RNum (ea e) w' (Some l1) (Some j); Edge RNum w' (eb e) (Some l2) (Some j); Edge RNum (eb e) (ea e) (Some i) (Some j)].
  Proof.
    intros Eb Ef D. destruct (drt_twin D) as [w' D']. destruct (drt_next D') as [l1 D1]. destruct (drt_next D1) as [l2 D2].
    pose proof D' as (g & Lg & Rg). exists g, w', l1, l2. split; auto. split; auto. split; auto. split; auto.
    destruct D1 as (g1 & Lg1 & R1), D2 as (g2 & Lg2 & R2).
    rewrite (lv_fun Lg1 Lg) in R1. rewrite (lv_fun Lg2 Lg) in R2. clear g1 Lg1 g2 Lg2.
    destruct (si_nd SI Lg) as (N1 & N2 & N3). unfold pushEdges. rewrite Ef.
    destruct Rg as [(E1&E2&E3&E4)|[(E1&E2&E3&E4)|(E1&E2&E3&E4)]]; rewrite E1, E2, E3 in *.
    - rewrite eq3_refl. f_equal; [|f_equal; [|f_equal]].
      + f_equal. destruct R1 as [(A&_)|[(_&_&_&A)|(_&A&_)]]; congruence.
      + f_equal. destruct R2 as [(A&_)|[(A&_)|(_&_&_&A)]]; congruence.
      + f_equal. congruence.
    - assert (Q : eq3 RNum (fa g) (fb g) = false) by (apply eq3_false; auto). rewrite Q, eq3_refl. f_equal; [|f_equal; [|f_equal]].
      + f_equal. destruct R1 as [(A&_)|[(A&_)|(_&_&_&A)]]; congruence.
      + f_equal. destruct R2 as [(_&_&_&A)|[(A&_)|(A&_)]]; congruence.
      + f_equal. congruence.
    - assert (Q : eq3 RNum (fa g) (fc g) = false) by (apply eq3_false; auto).
      assert (Q2 : eq3 RNum (fb g) (fc g) = false) by (apply eq3_false; auto). rewrite Q, Q2, eq3_refl. f_equal; [|f_equal; [|f_equal]].
      + f_equal. destruct R1 as [(_&_&_&A)|[(A&_)|(A&_)]]; congruence.
      + f_equal. destruct R2 as [(A&_)|[(_&_&_&A)|(A&_)]]; congruence.
      + f_equal. congruence.
  Qed.

  Lemma m_len S V fr fs : MInv S V fr fs -> (length V <= 3 * length h + 1)%nat.
  Proof.
    intros M. pose proof darts_length. assert (incl V (d0 :: darts)).
    { intros x Hx. destruct (m_V M x Hx) as [(w & i & j & D & _)| ->]; [right|left; auto]. destruct x; eapply drt_darts; eauto. }
    apply NoDup_incl_length in H0; [|apply (m_nd M)]. cbn [length] in H0. lia.
  Qed.

  (** popping an entry already visited *)
  Lemma step_seen e S V fr fs : MInv (e :: S) V fr fs -> In (key e) V -> MInv S V fr fs.
  Proof.
    intros M Hin.
    assert (CL : forall a b, In a V -> sig a b -> In b V).
    { intros a b Ha Hs. destruct (m_A M Ha Hs) as [|(e' & S' & E & K)]; auto. inversion E; subst; auto. }
    split; try solve [apply M].
    - intros e' He; apply (m_ent M); right; auto.
    - intros j u v w k Hj D. destruct (m_grp M Hj D) as [|(e' & [<-|He] & K)]; auto; [left; congruence|right; eauto].
    - intros e' i He; apply (m_efb M); right; auto.
    - intros x y Hx Hs. left; eauto.
    - intros S1 e' S2 E B. apply (@m_B _ _ _ _ M (e :: S1) e' S2); auto. cbn; congruence.
    - destruct (m_C M) as [C|[C|(d & x & S1 & S2 & Hd & ES & HS1 & Vx & O)]]; auto.
      destruct S1 as [|s1 S1].
      + cbn [app] in ES. inversion ES; subst x S2. right; left.
        pose proof (m_fr2 M _ (nth_error_In _ _ Hd)) as [_ (i & j & w & _ & _ & D & Vi & Vj)].
        destruct (drt_next D) as [j' D2].
        destruct (@orb_bnd _ _ _ _ _ _ (key e) V D Vi Vj D2 (O _ _ _ D) CL Hin) as (y & Hy & By).
        destruct (m_fr1 M Hy By) as (e0 & He0 & K0).
        eapply closing; eauto; [apply M|intros; now apply (m_fr2 M)|apply M|]. unfold key in K0. congruence.
      + cbn [app] in ES. inversion ES; subst. right; right. exists d, x, S1, S2. repeat (split; auto). intros; apply HS1; right; auto.
  Qed.

  (** popping an entry behind which the facet is not visible *)
  Lemma step_dead e S V fr fs : MInv (e :: S) V fr fs -> ~ visE e -> MInv S V fr fs.
  Proof.
    intros M Nv.
    assert (NK : forall x, key e = x -> ~ vdart x).
    { intros x K (w & i & j & D & Vi). subst x. cbn [key fst snd] in D. destruct (m_ent M e (or_introl eq_refl)) as (i' & j' & w' & Eb & Ef & D').
      destruct (drt_fun D D') as (_ & <- & _). apply Nv. exists i; auto. }
    split; try solve [apply M].
    - intros e' He; apply (m_ent M); right; auto.
    - intros j u v w k Hj D. destruct (m_grp M Hj D) as [|(e' & [<-|He] & K)]; auto; [|right; eauto].
      exfalso. apply (NK _ K). exists w, j, k. split; auto. apply (m_fs M); auto.
    - intros e' i He; apply (m_efb M); right; auto.
    - intros x y Hx Hs. destruct (m_A M Hx Hs) as [|(e' & S' & E & K)]; auto. exfalso. inversion E; subst.
      apply (NK _ eq_refl). eapply sig_vdart; eauto.
    - intros S1 e' S2 E B. apply (@m_B _ _ _ _ M (e :: S1) e' S2); auto. cbn; congruence.
    - destruct (m_C M) as [C|[C|(d & x & S1 & S2 & Hd & ES & HS1 & Vx & O)]]; auto.
      destruct S1 as [|s1 S1]; cbn [app] in ES; inversion ES; subst; [tauto|].
      right; right. exists d, x, S1, S2. repeat (split; auto). intros; apply HS1; right; auto.
  Qed.

  (** crossing an edge between visible facets *)
  Lemma step_in e S V fr fs i j w w' l1 l2 : MInv (e :: S) V fr fs -> ~ In (key e) V ->
    efb e = Some i -> eff e = Some j -> drt (ea e) (eb e) w i j -> vis i -> vis j ->
    drt (eb e) (ea e) w' j i -> drt (ea e) w' (eb e) j l1 -> drt w' (eb e) (ea e) j l2 ->
    MInv (Edge RNum (ea e) w' (Some l1) (Some j) :: Edge RNum w' (eb e) (Some l2) (Some j) :: Edge RNum (eb e) (ea e) (Some i) (Some j) :: S)
      (key e :: V) fr (if existsb (Nat.eqb j) fs then fs else fs ++ [j]).
  Proof.
    intros M Nin Eb Ef D Vi Vj D' D1 D2.
    set (fs' := if existsb (Nat.eqb j) fs then fs else fs ++ [j]).
    assert (Hfs : forall k, In k fs' <-> In k fs \/ k = j).
    { intros k. unfold fs'. destruct (existsb (Nat.eqb j) fs) eqn:E.
      - apply existsb_exists in E. destruct E as (x & Hx & E). apply Nat.eqb_eq in E. subst x. intuition congruence.
      - rewrite in_app_iff. cbn. intuition congruence. }
    split.
    - intros e' [<-|[<-|[<-|He]]]; [exists j, l1, (eb e)|exists j, l2, (ea e)|exists j, i, w'|apply (m_ent M); right; auto]; cbn; auto.
    - constructor; auto. apply M.
    - intros x [<-|Hx]; [left; exists w, i, j; auto|apply (m_V M); auto].
    - intros k u v x l Hk Dk. apply Hfs in Hk. destruct Hk as [Hk| ->].
      + destruct (m_grp M Hk Dk) as [|(e' & [<-|He] & K)]; [left; right; auto|left; left; auto|].
        right. exists e'. split; auto. cbn; auto.
      + right. destruct Dk as (f & Lf & Rf), D' as (g & Lg & Rg), D1 as (g1 & Lg1 & R1), D2 as (g2 & Lg2 & R2).
        rewrite (lv_fun Lg Lf) in *. rewrite (lv_fun Lg1 Lf) in *. rewrite (lv_fun Lg2 Lf) in *. destruct (si_nd SI Lf) as (N1 & N2 & N3).
        assert (X : (u, v) = (ea e, w') \/ (u, v) = (w', eb e) \/ (u, v) = (eb e, ea e)).
        { destruct Rg as [(E1&E2&E3&E4)|[(E1&E2&E3&E4)|(E1&E2&E3&E4)]], Rf as [(F1&F2&F3&F4)|[(F1&F2&F3&F4)|(F1&F2&F3&F4)]];
            rewrite E1, E2, E3, F1, F2; tauto. }
        destruct X as [X|[X|X]]; [exists (Edge RNum (ea e) w' (Some l1) (Some j))|exists (Edge RNum w' (eb e) (Some l2) (Some j))
          |exists (Edge RNum (eb e) (ea e) (Some i) (Some j))]; split; cbn; auto.
    - destruct (m_fs M) as (A & B & C). split; [|split].
      + unfold fs'. destruct (existsb (Nat.eqb j) fs) eqn:E; auto. apply NoDup_app_intro; auto.
        * repeat constructor; auto.
        * intros x Hx [<-|[]]. assert (existsb (Nat.eqb j) fs = true) by (apply existsb_exists; exists j; split; auto; apply Nat.eqb_refl). congruence.
      + intros k Hk. apply Hfs in Hk. destruct Hk as [| ->]; auto.
      + apply Hfs; auto.
    - intros e' k He Ek Vk. apply Hfs. destruct He as [<-|[<-|[<-|He]]]; cbn in Ek; try (inversion Ek; auto).
      left. eapply (m_efb M); eauto. right; auto.
    - intros u v x i' j' [Hx|Hx] Dx Vi' Vj'.
      + unfold key in Hx. inversion Hx; subst. destruct (drt_fun D Dx) as (_ & _ & <-). apply Hfs; auto.
      + apply Hfs. left. eapply (m_eff M); eauto.
    - intros u v [Hx|Hx] B; [|apply (m_fr1 M); auto]. unfold key in Hx. inversion Hx; subst.
      destruct B as (x & i' & j' & Dx & _ & Nj). destruct (drt_fun D Dx) as (_ & _ & <-). tauto.
    - intros e' He. destruct (m_fr2 M e' He). split; auto. right; auto.
    - apply M.
    - intros x y [Hx|Hx] Hs.
      + right. destruct Hs as (u & v & x' & i' & j' & y' & -> & -> & Dx & _ & _ & Dy). unfold key in Hx. inversion Hx; subst u v.
        destruct (drt_fun D' Dy) as (<- & _). eexists _, _. split; [reflexivity|]. auto.
      + left. destruct (m_A M Hx Hs) as [|(e' & S' & E & K)]; [right; auto|]. inversion E; subst. left; auto.
    - intros S1 e' S2 E B. destruct S1 as [|s1 [|s2 [|s3 S1]]]; cbn [app] in E; inversion E; subst.
      + right. eexists _, _. split; [reflexivity|]. auto.
      + right. eexists _, _. split; [reflexivity|]. auto.
      + exfalso. destruct B as (i' & j' & x & _ & Ej & _ & _ & Nj). cbn in Ej. inversion Ej; subst. tauto.
      + apply (@m_B _ _ _ _ M (e :: S1) e' S2); auto.
    - apply M.
    - destruct (m_C M) as [C|[C|(d & x & S1 & S2 & Hd & ES & HS1 & Vx & O)]]; auto. right; right.
      destruct S1 as [|s1 S1]; cbn [app] in ES; inversion ES; subst.
      + eexists d, (Edge RNum (ea x) w' (Some l1) (Some j)), [], _. split; auto. split; [reflexivity|]. split; [intros ? []|]. split; [exists j; auto|].
        intros y i' j' Dd. eapply orb_step; [apply (O _ _ _ Dd)|]. exists (ea x), (eb x), w, i, j, w'. repeat (split; auto).
      + exfalso. apply (HS1 s1); [left; auto|]. exists i; auto.
  Qed.

  (** a horizon edge *)
  Lemma step_out e S V fr fs i j w e1 e2 e3 : MInv (e :: S) V fr fs -> ~ In (key e) V ->
    efb e = Some i -> eff e = Some j -> drt (ea e) (eb e) w i j -> vis i -> ~ vis j ->
    ent e1 -> ent e2 -> ent e3 -> efb e1 = Some j -> efb e2 = Some j -> efb e3 = Some j ->
    MInv (e1 :: e2 :: e3 :: S) (key e :: V) (fr ++ [e]) fs.
  Proof.
    intros M Nin Eb Ef D Vi Vj T1 T2 T3 F1 F2 F3.
    assert (Be : bndE e) by (exists i, j, w; auto).
    assert (NV : forall x, efb x = Some j -> ~ visE x) by (intros x Ex (k & Ek & Vk); congruence).
    assert (FR1 : forall u v, In (u, v) (key e :: V) -> bnd u v -> exists e', In e' (fr ++ [e]) /\ key e' = (u, v)).
    { intros u v [Hx|Hx] B; [exists e; split; auto; apply in_or_app; right; left; auto|].
      destruct (m_fr1 M Hx B) as (e' & He & K). exists e'. split; auto. apply in_or_app; auto. }
    assert (FR2 : forall e', In e' (fr ++ [e]) -> In (key e') (key e :: V) /\ bndE e').
    { intros e' He. apply in_app_or in He. destruct He as [He|[<-|[]]]; [|split; auto; left; auto].
      destruct (m_fr2 M e' He). split; auto. right; auto. }
    assert (FR3 : NoDup (map key (fr ++ [e]))).
    { rewrite map_app. apply NoDup_app_intro; [apply M|repeat constructor; auto|].
      intros x Hx [<-|[]]. apply in_map_iff in Hx. destruct Hx as (e' & K & He). apply (m_fr2 M) in He. apply Nin. rewrite <- K. apply He. }
    assert (CH : chain (fr ++ [e])).
    { intros k a b Ha Hb. assert (Lk : (Datatypes.S k < length (fr ++ [e]))%nat) by (apply nth_error_Some; congruence).
      rewrite app_length in Lk; cbn [length] in Lk. rewrite nth_error_app1 in Ha by lia.
      destruct (Nat.eq_dec (Datatypes.S k) (length fr)) as [Ek|Ek].
      - rewrite nth_error_app2 in Hb by lia. rewrite Ek, Nat.sub_diag in Hb. cbn in Hb. inversion Hb; subst b.
        destruct (m_C M) as [C|[C|(d & x & S1 & S2 & Hd & ES & HS1 & Vx & O)]].
        + subst fr; cbn in Ek; lia.
        + exfalso. destruct (@closed_all fr) with (u := ea e) (v := eb e) as (e0 & He0 & K0); auto; try solve [apply M].
          * apply bndE_bnd; auto.
          * apply Nin. replace (key e) with (key e0) by exact K0. apply (m_fr2 M); auto.
        + destruct S1 as [|s1 S1]; cbn [app] in ES; inversion ES; subst; [|exfalso; apply (HS1 s1); [left; auto|exists i; auto]].
          replace (length fr - 1)%nat with k in Hd by lia. assert (d = a) by congruence. subst d.
          destruct (m_fr2 M a (nth_error_In _ _ Hd)) as [_ (i' & j' & w' & _ & _ & Da & _)].
          pose proof (orb_fst (O _ _ _ Da)) as X. cbn in X. auto.
      - rewrite nth_error_app1 in Hb by lia. eapply (m_ch M); eauto. }
    assert (Hl : nth_error (fr ++ [e]) (length (fr ++ [e]) - 1) = Some e).
    { rewrite app_length. cbn [length]. rewrite nth_error_app2 by lia. replace (length fr + 1 - 1 - length fr)%nat with 0%nat by lia. auto. }
    assert (CL : forall a b, In a (key e :: V) -> sig a b -> In b (key e :: V)).
    { intros a b [Ha|Ha] Hs.
      - exfalso. destruct Hs as (u & v & x' & i' & j' & y' & -> & -> & Dx & _ & Vj' & Dy). unfold key in Ha. inversion Ha; subst u v.
        destruct (drt_fun D Dx) as (_ & _ & <-). tauto.
      - destruct (m_A M Ha Hs) as [|(e' & S' & E & K)]; [right; auto|]. inversion E; subst; left; auto. }
    split; auto.
    - intros e' [<-|[<-|[<-|He]]]; auto. apply (m_ent M); right; auto.
    - constructor; auto. apply M.
    - intros x [<-|Hx]; [left; exists w, i, j; auto|apply (m_V M); auto].
    - intros k u v x l Hk Dk. destruct (m_grp M Hk Dk) as [|(e' & [<-|He] & K)]; [left; right; auto|left; left; auto|].
      right. exists e'. split; auto. cbn; auto.
    - apply M.
    - intros e' k [<-|[<-|[<-|He]]] Ek Vk; try congruence. eapply (m_efb M); eauto. right; auto.
    - intros u v x i' j' [Hx|Hx] Dx Vi' Vj'; [|eapply (m_eff M); eauto]. unfold key in Hx. inversion Hx; subst.
      destruct (drt_fun D Dx) as (_ & _ & <-). tauto.
    - intros x y Hx Hs. left. eauto.
    - intros S1 e' S2 E B. assert (NB : forall x, efb x = Some j -> ~ bndE x) by (intros x Ex (k & l & y & Ek & _ & _ & Vk & _); congruence).
      destruct S1 as [|s1 [|s2 [|s3 S1]]]; cbn [app] in E.
      + injection E as <- <-. destruct (NB _ F1 B).
      + injection E as <- <- <-. destruct (NB _ F2 B).
      + injection E as <- <- <- <-. destruct (NB _ F3 B).
      + injection E as <- <- <- ->. apply (@m_B _ _ _ _ M (e :: S1) e' S2); auto.
    - right. destruct (drt_next D) as [l Dn].
      assert (Hc : In (eb e, w) (key e :: V) -> closedC (fr ++ [e])).
      { intros Hin. destruct (@orb_bnd _ _ _ _ _ _ (eb e, w) (key e :: V) D Vi Vj Dn (orb_refl _) CL Hin) as (y & Hy & By).
        destruct (FR1 _ _ Hy By) as (e0 & He0 & K0). eapply closing; eauto; [intros; now apply FR2|]. unfold key in K0; congruence. }
      destruct (@m_B _ _ _ _ M [] e S eq_refl Be) as [Es|(e' & S' & -> & Eb' & Ea')]; [subst S|].
      + left. apply Hc. destruct (m_grp M (j := i) (u := eb e) (v := w) (w := ea e) (k := l)) as [|(e' & [<-|[]] & K)]; auto.
        * eapply (m_efb M); eauto. left; auto. * right; auto.
        * unfold key in K. inversion K. destruct (drt_nd D) as (N1 & _). congruence.
      + right. exists e, e', [e1; e2; e3], S'. split; auto. split; auto.
        split; [intros x [<-|[<-|[<-|[]]]]; auto|]. split; [exists i; split; auto; congruence|].
        intros w2 i2 j2 D2. destruct (drt_fun D D2) as (<- & <- & <-).
        destruct (m_ent M e') as (i3 & j3 & w3 & A1 & A2 & A3); [right; left; auto|].
        assert (i3 = i) by congruence. subst i3. rewrite Ea' in A3.
        assert (eb e' = w).
        { destruct A3 as (f & Lf & Rf), Dn as (g & Lg & Rg). rewrite (lv_fun Lg Lf) in *. destruct (si_nd SI Lf) as (N1 & N2 & N3).
          destruct Rg as [(E1&E2&E3&E4)|[(E1&E2&E3&E4)|(E1&E2&E3&E4)]], Rf as [(G1&G2&G3&G4)|[(G1&G2&G3&G4)|(G1&G2&G3&G4)]]; congruence. }
        unfold key. rewrite Ea', H. constructor.
  Qed.

  Lemma dfsEdge_ok fuel : forall S V fr fs, MInv S V fr fs -> (length S + 3 * (3 * length h + 1 - length V) < fuel)%nat ->
    exists V' fr' fs', @dfsEdge RNum eps fuel h p S V fr fs = Ok (fr', fs') /\ MInv [] V' fr' fs'.
  Proof.
    induction fuel as [|fuel IH]; [lia|]. intros S V fr fs M F. cbn [dfsEdge].
    destruct S as [|e S]; [exists V, fr, fs; auto|].
    cbn [length] in F.
    destruct (existsb (edgeEq e) V) eqn:Ev.
    { apply existsb_edge in Ev. apply IH; [eapply step_seen; eauto|lia]. }
    assert (Nin : ~ In (key e) V) by (rewrite <- existsb_edge; congruence). clear Ev.
    pose proof (m_ent M e (or_introl eq_refl)) as (i & j & w & Eb & Ef & D).
    pose proof D as (f & Lf & Rf). destruct (push_spec _ Eb Ef D) as (g & w' & l1 & l2 & Lg & D' & D1 & D2 & EP).
    unfold fVisit, fDoE. rewrite Eb, Ef, (getF_lv Lf), (getF_lv Lg). cbn [bind].
    destruct (@visible RNum eps f p) eqn:Vf.
    - assert (Vi : vis i) by (exists f; auto). cbn [andb]. rewrite EP, orb_false_r.
      assert (LV : (length (key e :: V) <= 3 * length h + 1)%nat -> forall S', length S' = 3%nat ->
        (length (S' ++ S) + 3 * (3 * length h + 1 - length (key e :: V)) < fuel)%nat).
      { intros X S' LS. rewrite app_length. cbn [length] in *. lia. }
      destruct (@visible RNum eps g p) eqn:Vg; cbn [negb andb].
      + assert (Vj : vis j) by (exists g; auto).
        assert (M2 := step_in M Nin Eb Ef D Vi Vj D' D1 D2).
        replace (if negb (existsb (Nat.eqb j) fs) then fs ++ [j] else fs) with (if existsb (Nat.eqb j) fs then fs else fs ++ [j])
          by (destruct (existsb (Nat.eqb j) fs); auto).
        apply IH; auto. apply LV; auto. eapply m_len; eauto.
      + assert (Vj : ~ vis j) by (rewrite (vis_lv Lg); congruence).
        assert (M2 := @step_out e S V fr fs i j w (Edge RNum (ea e) w' (Some l1) (Some j)) (Edge RNum w' (eb e) (Some l2) (Some j)) (Edge RNum (eb e) (ea e) (Some i) (Some j)) M Nin Eb Ef D Vi Vj).
        apply IH; [apply M2; cbn; auto; [exists j, l1, (eb e)|exists j, l2, (ea e)|exists j, i, w']; cbn; auto|].
        apply LV; auto. eapply m_len. apply M2; cbn; auto; [exists j, l1, (eb e)|exists j, l2, (ea e)|exists j, i, w']; cbn; auto.
    - apply IH; [eapply step_dead; eauto|lia]. intros (k & Ek & Vk). assert (k = i) by congruence. subst.
      apply (vis_lv Lf) in Vk. congruence.
  Qed.
End EdgeDfs.
