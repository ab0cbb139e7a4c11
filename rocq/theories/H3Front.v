(** The horizon and the visible facets, whole. *)
From Coq Require Import Reals Lra Lia Psatz List Bool Permutation.
From Verif Require Import Base Num Hull2dModel H3Model H3Geom H3Surf H3Heap H3Edge.
Set Implicit Arguments.
Open Scope R_scope.

Section Front.
  Variable h : heap3.
  Variable W : p3 -> Prop.
  Hypothesis SI : SInv h W.
  Variable eps : R.
  Hypothesis eps0 : 0 <= eps.
  Variable p : p3.
  Hypothesis MP : forall i f, lv h i f -> @visible RNum eps f p = false -> ht (corners f) p < 0.
  Notation vis := (vis h eps p).
  Notation bnd := (bnd h eps p).
  Notation bndE := (bndE h eps p).
  Notation drt := (drt h).

  Lemma vis_ht i : In i (ids h) -> (vis i <-> 0 < ht (trOf h i) p).
  Proof.
    rewrite ids_in. intros [f Lf]. rewrite (trOf_lv Lf), (vis_lv eps p Lf). split.
    - intros V. pose proof (@vis_pos h eps p i f Lf V). lra.
    - intros P. destruct (@visible RNum eps f p) eqn:E; auto. pose proof (MP Lf E). lra.
  Qed.

  Lemma bnd_exists i : vis i -> exists u v, bnd u v.
  Proof.
    intros Vi. assert (Hi : In i (ids h)) by (apply ids_in; destruct Vi as (f & L & _); eauto).
    pose proof (proj1 (@vis_ht i Hi) Vi) as Pi.
    destruct (@some_below (ids h) (trOf h) (adjH h) (surf_HA SI) O3 p i (surf_HO SI) Hi Pi) as (m & Hm & Pm).
    pose proof (@all_path (ids h) (trOf h) (adjH h) (surf_HA SI) (surf_HC SI) (surf_HD SI) O3 m i (surf_HO SI) Hm Hi) as P.
    clear Pi Hi. induction P as [i Hi|i j k Hi A P IH].
    - apply (@vis_ht i Hi) in Vi. lra.
    - apply ids_in in Hi. destruct Hi as [f Lf]. destruct (adjH_inv Lf A) as (u & v & w & Rf).
      destruct (vis_dec h eps p j) as [Vj|Nj]; [apply IH; auto|].
      exists u, v, w, i, j. split; auto. exists f; auto.
  Qed.

  Lemma frontier_ok start s : lv h start s -> @visible RNum eps s p = true ->
    exists fr fs, @computeFrontier RNum eps h (p, start) = Ok (fr, fs) /\
      fr <> [] /\ chain fr /\ closedC fr /\ NoDup (map key fr) /\ (forall e, In e fr -> bndE e) /\
      (forall u v, bnd u v -> exists e, In e fr /\ key e = (u, v)) /\
      NoDup fs /\ forall j, In j fs <-> vis j.
  Proof.
    intros Ls Vs. unfold computeFrontier. cbn [fst snd]. rewrite (getF_lv Ls). cbn [bind].
    replace (9 * length h + 5)%nat with (S (9 * length h + 4)) by lia. cbn [dfsEdge existsb].
    unfold fVisit; cbn [efb bind]. unfold fDoE; cbn [eff efb]. rewrite (getF_lv Ls). cbn [bind ea eb].
    unfold pushEdges; cbn [ea eb eff efb]. rewrite eq3_refl. rewrite orb_true_r. cbn [existsb negb andb app].
    destruct (@si_link _ _ SI _ _ (fa s) (fb s) (fc s) (fab s) Ls) as (j1 & g1 & w1 & E1 & L1 & R1); [unfold frot; tauto|].
    destruct (@si_link _ _ SI _ _ (fb s) (fc s) (fa s) (fbc s) Ls) as (j2 & g2 & w2 & E2 & L2 & R2); [unfold frot; tauto|].
    destruct (@si_link _ _ SI _ _ (fc s) (fa s) (fb s) (fca s) Ls) as (j3 & g3 & w3 & E3 & L3 & R3); [unfold frot; tauto|].
    assert (Vst : vis start) by (exists s; auto).
    assert (D1 : drt (fa s) (fb s) (fc s) start j1) by (exists s; split; auto; unfold frot; rewrite E1; tauto).
    assert (D2 : drt (fb s) (fc s) (fa s) start j2) by (exists s; split; auto; unfold frot; rewrite E2; tauto).
    assert (D3 : drt (fc s) (fa s) (fb s) start j3) by (exists s; split; auto; unfold frot; rewrite E3; tauto).
    assert (D0 : forall w i j, drt (fb s) (fa s) w i j -> j = start).
    { intros w i j D. destruct (drt_twin SI D) as [w' D']. destruct (drt_fun SI D1 D') as (_ & <- & _). auto. }
    rewrite E1, E2, E3.
    assert (M : MInv h eps p start (fb s, fa s)
      [Edge RNum (fb s) (fc s) (Some j2) (Some start); Edge RNum (fc s) (fa s) (Some j3) (Some start); Edge RNum (fa s) (fb s) (Some j1) (Some start)]
      [(fb s, fa s)] [] [start]).
    { split.
      - intros e [<-|[<-|[<-|[]]]]; [exists start, j2, (fa s)|exists start, j3, (fb s)|exists start, j1, (fc s)]; cbn; auto.
      - repeat constructor; auto.
      - intros x [<-|[]]; auto.
      - intros j u v w k [<-|[]] (f & Lf & Rf). rewrite (lv_fun Lf Ls) in *. right.
        destruct Rf as [(->&->&_)|[(->&->&_)|(->&->&_)]].
        + eexists. split; [right; right; left; reflexivity|]; auto.
        + eexists. split; [left; reflexivity|]; auto.
        + eexists. split; [right; left; reflexivity|]; auto.
      - split; [repeat constructor; auto|]. split; [intros j [<-|[]]; auto|left; auto].
      - intros e i [<-|[<-|[<-|[]]]]; cbn; intros Ei; inversion Ei; auto.
      - intros u v w i j [E|[]] D Vi Vj. inversion E; subst. left. symmetry. eapply D0; eauto.
      - intros u v [E|[]] (w & i & j & D & Vi & Vj). inversion E; subst. rewrite (D0 _ _ _ D) in Vj. tauto.
      - intros e [].
      - constructor.
      - intros x y [<-|[]] (u & v & w & i & j & w' & E & -> & D & _ & _ & D'). inversion E; subst u v. right.
        destruct (drt_fun SI D1 D') as (<- & _). eexists _, _. split; reflexivity.
      - intros S1 e S2 E B. destruct S1 as [|s1 [|s2 [|s3 S1]]]; cbn [app] in E; inversion E; subst; auto.
        + right. eexists _, _. split; [reflexivity|]. auto.
        + right. eexists _, _. split; [reflexivity|]. auto.
        + destruct S1; discriminate.
      - intros i e e' Hi. destruct i; discriminate.
      - auto. }
    destruct (@dfsEdge_ok h W SI eps eps0 p MP start (fb s, fa s) (9 * length h + 4)%nat _ _ _ _ M) as (V & fr & fs & E & M2).
    { cbn [length]. lia. }
    exists fr, fs. split; [exact E|].
    assert (FS : forall j, In j fs <-> vis j).
    { intros j. destruct (m_fs M2) as (NF & VF & SF). split; auto. intros Vj.
      assert (Hj : In j (ids h)) by (apply ids_in; destruct Vj as (f & L & _); eauto).
      assert (Hs : In start (ids h)) by (apply ids_in; eauto).
      pose proof (@visible_path (ids h) (trOf h) (adjH h) (surf_HA SI) (surf_HC SI) (surf_HD SI) j start p Hj Hs (proj1 (@vis_ht j Hj) Vj) (proj1 (@vis_ht start Hs) Vst)) as P.
      assert (CLF : forall i j, In i fs -> vis i -> vis j -> adjH h i j -> In j fs).
      { intros i k Hi Vi Vk A. pose proof Vi as (f & Lf & _). destruct (adjH_inv Lf A) as (u & v & w & Rf).
        assert (D : drt u v w i k) by (exists f; auto).
        destruct (m_grp M2 Hi D) as [Hin|(e & [] & _)]. eapply (m_eff M2); eauto. }
      clear - P SF SI eps0 MP CLF. induction P as [i Hi|i j k Hi A P IH]; auto. apply IH.
      assert (Hj : In j (ids h) /\ 0 < ht (trOf h j) p) by (clear - P; induction P; auto).
      destruct Hi as [Hi Pi], Hj as [Hj Pj]. apply (@vis_ht j Hj) in Pj. apply (@vis_ht i Hi) in Pi. eauto. }
    assert (ALL : forall u v, bnd u v -> exists e, In e fr /\ key e = (u, v)).
    { intros u v B. pose proof B as (w & i & j & D & Vi & Vj). apply FS in Vi.
      destruct (m_grp M2 Vi D) as [Hin|(e & [] & _)]. apply (m_fr1 M2 Hin B). }
    assert (NE : fr <> []).
    { destruct (bnd_exists Vst) as (u & v & B). destruct (ALL u v B) as (e & He & _). intros ->. destruct He. }
    split; auto. split; [apply (m_ch M2)|]. split.
    { destruct (m_C M2) as [C|[C|(d & x & S1 & S2 & _ & ES & _)]]; auto; [tauto|]. destruct S1; discriminate. }
    split; [apply (m_fr3 M2)|]. split; [intros e He; apply (m_fr2 M2 e He)|]. split; auto. split; auto. apply (m_fs M2).
  Qed.

  (** the order around the apex *)
  Lemma cyc fr : chain fr -> closedC fr -> forall i e e', nth_error fr i = Some e ->
    nth_error fr ((i + 1) mod length fr) = Some e' -> eb e = ea e'.
  Proof.
    intros Ch (e0 & d & H0 & Hd & E) i e e' Hi Hn.
    assert (Li : (i < length fr)%nat) by (apply nth_error_Some; congruence).
    destruct (Nat.eq_dec (i + 1) (length fr)) as [El|El].
    - rewrite El, Nat.mod_same in Hn by lia. replace (length fr - 1)%nat with i in Hd by lia. congruence.
    - rewrite Nat.mod_small in Hn by lia. rewrite Nat.add_1_r in Hn. eapply Ch; eauto.
  Qed.
  Lemma consecutive_ok fr : chain fr -> closedC fr -> consecutive fr = true.
  Proof.
    intros Ch Cl. unfold consecutive. apply forallb_forall. intros i Hi. apply in_seq in Hi.
    destruct (nth_error fr i) as [e|] eqn:E; [|apply nth_error_None in E; lia].
    destruct (nth_error fr ((i + 1) mod length fr)) as [e'|] eqn:E'.
    - apply eq3_iff. eapply cyc; eauto.
    - apply nth_error_None in E'. pose proof (Nat.mod_upper_bound (i + 1) (length fr)). lia.
  Qed.
End Front.
