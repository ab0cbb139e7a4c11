(** The linked facets in memory as a closed convex surface; traversal of all facets. *)
From Coq Require Import Reals Lra Lia Psatz List Bool Permutation.
From Verif Require Import Base Num Hull2dModel H3Model H3Geom H3Surf.
Set Implicit Arguments.
Open Scope R_scope.

Notation fct3 := (fct RNum).
Notation heap3 := (list (option (fct RNum))).
Definition O3 : p3 := V3 0 0 0.

Lemma eq3_iff (p q : p3) : eq3 RNum p q = true <-> p = q.
Proof.
  destruct p as [x y z], q as [x' y' z']. unfold eq3, eqn; cbn [vx vy vz nle RNum].
  rewrite !andb_true_iff, !Rleb_true. split.
  - intros [[[A B] [C D]] [E F]]. f_equal; lra.
  - intros H; inversion H; lra.
Qed.
Lemma eq3_false (p q : p3) : eq3 RNum p q = false <-> p <> q.
Proof. rewrite <- eq3_iff. destruct (eq3 RNum p q); split; congruence. Qed.
Lemma eq3_refl (p : p3) : eq3 RNum p p = true. Proof. apply eq3_iff; auto. Qed.

Lemma vol_R (t : tri3) q : @vol RNum t q = ht t q.
Proof.
  destruct t as [[a b] c]. unfold vol, dot3, sub3, cross3; cbn [nT ht vx vy vz nadd nsub nmul nzero RNum]. unfold svol. ring.
Qed.
Lemma det3_R (a b c : p3) : det3 RNum a b c = svol a b c O3.
Proof. unfold det3, svol, O3; cbn [nT vx vy vz nadd nsub nmul RNum]. ring. Qed.

Lemma fold_left_ext_in X Y (f g : Y -> X -> Y) l : forall a, (forall x b, In x l -> f b x = g b x) -> fold_left f l a = fold_left g l a.
Proof.
  induction l as [|x l IH]; intros a H; cbn [fold_left]; auto.
  rewrite H by (left; auto). apply IH. intros; apply H; right; auto.
Qed.

Definition lv (h : heap3) (i : nat) (f : fct3) : Prop := nth_error h i = Some (Some f).
Lemma lv_fun h i f g : lv h i f -> lv h i g -> f = g. Proof. unfold lv; congruence. Qed.
Lemma lv_len h i f : lv h i f -> (i < length h)%nat.
Proof. intros H. apply nth_error_Some. unfold lv in H. congruence. Qed.
Lemma getF_lv h i f : lv h i f -> getF h (Some i) = Ok f.
Proof. unfold lv, getF. now intros ->. Qed.

(** side [u v] of [f], with the opposite corner [w] and the link [l] across it *)
Definition frot (f : fct3) (u v w : p3) (l : option nat) : Prop :=
  (u = fa f /\ v = fb f /\ w = fc f /\ l = fab f) \/
  (u = fb f /\ v = fc f /\ w = fa f /\ l = fbc f) \/
  (u = fc f /\ v = fa f /\ w = fb f /\ l = fca f).

Lemma frot_rot3 (f : fct3) u v w l : frot f u v w l -> rot3 (corners f) u v w.
Proof. unfold frot, rot3, corners. intros [(->&->&->&_)|[(->&->&->&_)|(->&->&->&_)]]; auto. Qed.
Lemma rot3_frot (f : fct3) u v w : rot3 (corners f) u v w -> exists l, frot f u v w l.
Proof.
  unfold frot, rot3, corners. intros [E|[E|E]]; inversion E; subst.
  - exists (fab f). tauto. - exists (fca f). tauto. - exists (fbc f). tauto.
Qed.
Lemma frot_next (f : fct3) u v w l : frot f u v w l -> exists l', frot f v w u l'.
Proof. intros H. apply rot3_frot, rot3_next. eapply frot_rot3; eauto. Qed.
Lemma frot_corner (f : fct3) u v w l : frot f u v w l -> corner (corners f) u /\ corner (corners f) v /\ corner (corners f) w.
Proof. intros H. apply frot_rot3 in H. rewrite !(fun q => rot3_corner q H). tauto. Qed.

(** [W] are the points the surface is the hull of. *)
Record SInv (h : heap3) (W : p3 -> Prop) : Prop := {
  si_W : forall i f q, lv h i f -> corner (corners f) q -> W q;
  si_neg : forall i f q, lv h i f -> W q -> ~ corner (corners f) q -> ht (corners f) q < 0;
  si_link : forall i f u v w l, lv h i f -> frot f u v w l -> exists j g w', l = Some j /\ lv h j g /\ frot g v u w' (Some i);
  si_nd : forall i f, lv h i f -> fa f <> fb f /\ fb f <> fc f /\ fc f <> fa f;
  si_dup : forall i j f g, lv h i f -> lv h j g -> (forall q, corner (corners f) q -> corner (corners g) q) -> i = j;
  si_in : forall i f, lv h i f -> ht (corners f) O3 < 0;
}.

Definition trOf (h : heap3) (i : nat) : tri3 :=
  match nth_error h i with Some (Some f) => corners f | _ => (O3, O3, O3) end.
Definition liveB (h : heap3) (i : nat) : bool := match nth_error h i with Some (Some _) => true | _ => false end.
Definition ids (h : heap3) : list nat := filter (liveB h) (seq 0 (length h)).
Definition adjH (h : heap3) (i j : nat) : Prop := exists f, lv h i f /\ (fab f = Some j \/ fbc f = Some j \/ fca f = Some j).

Lemma ids_in h i : In i (ids h) <-> exists f, lv h i f.
Proof.
  unfold ids. rewrite filter_In, in_seq. unfold liveB, lv. split.
  - intros [_ H]. destruct (nth_error h i) as [[f|]|]; try discriminate. eauto.
  - intros [f Hf]. rewrite Hf. split; auto. apply lv_len in Hf. lia.
Qed.
Lemma ids_NoDup h : NoDup (ids h).
Proof. unfold ids. apply NoDup_filter, seq_NoDup. Qed.
Lemma ids_length h : (length (ids h) <= length h)%nat.
Proof. unfold ids. pose proof (filter_length_le (liveB h) (seq 0 (length h))). rewrite seq_length in *. lia. Qed.
Lemma trOf_lv h i f : lv h i f -> trOf h i = corners f.
Proof. unfold lv, trOf. now intros ->. Qed.
Lemma adjH_frot h i f u v w j : lv h i f -> frot f u v w (Some j) -> adjH h i j.
Proof. intros L [(_&_&_&E)|[(_&_&_&E)|(_&_&_&E)]]; exists f; split; auto. Qed.
Lemma adjH_inv h i j f : lv h i f -> adjH h i j -> exists u v w, frot f u v w (Some j).
Proof.
  intros L (g & Lg & H). rewrite (lv_fun L Lg) in *. unfold frot.
  destruct H as [H|[H|H]]; rewrite <- H.
  - exists (fa g), (fb g), (fc g). tauto.
  - exists (fb g), (fc g), (fa g). tauto.
  - exists (fc g), (fa g), (fb g). tauto.
Qed.

Section SurfOf.
  Variable h : heap3.
  Variable W : p3 -> Prop.
  Hypothesis SI : SInv h W.

  Lemma frot_nd i f u v w l : lv h i f -> frot f u v w l -> u <> v /\ v <> w /\ w <> u.
  Proof. intros L H. destruct (si_nd SI L) as (A & B & C). destruct H as [(->&->&->&_)|[(->&->&->&_)|(->&->&->&_)]]; repeat split; auto. Qed.

  Lemma si_le i f q : lv h i f -> W q -> ht (corners f) q <= 0.
  Proof.
    intros L Wq. destruct (p3_eq_dec q (fa f)) as [->|A]; [unfold corners; cbn [ht]; rewrite svol_a; lra|].
    destruct (p3_eq_dec q (fb f)) as [->|B]; [unfold corners; cbn [ht]; rewrite svol_b; lra|].
    destruct (p3_eq_dec q (fc f)) as [->|C]; [unfold corners; cbn [ht]; rewrite svol_c; lra|].
    apply Rlt_le. eapply si_neg; eauto. unfold corners; cbn [corner]. tauto.
  Qed.

  (** an oriented side belongs to one facet *)
  Lemma side_unique i j f g u v w w' l l' : lv h i f -> lv h j g -> frot f u v w l -> frot g u v w' l' -> i = j /\ f = g /\ w = w' /\ l = l'.
  Proof.
    intros Lf Lg Rf Rg.
    assert (Ew : w = w').
    { destruct (p3_eq_dec w w') as [|N]; auto. exfalso.
      destruct (frot_nd Lf Rf) as (N1 & N2 & N3), (frot_nd Lg Rg) as (M1 & M2 & M3).
      assert (A : ht (corners f) w' < 0).
      { apply si_neg with h W i; auto; [apply (si_W SI Lg); apply (frot_corner Rg)|].
        rewrite (rot3_corner _ (frot_rot3 Rf)). intuition congruence. }
      assert (B : ht (corners g) w < 0).
      { apply si_neg with h W j; auto; [apply (si_W SI Lf); apply (frot_corner Rf)|].
        rewrite (rot3_corner _ (frot_rot3 Rg)). intuition congruence. }
      rewrite (rot3_ht _ (frot_rot3 Rf)) in A. rewrite (rot3_ht _ (frot_rot3 Rg)) in B.
      pose proof (svol_swapd u v w w'). lra. }
    subst w'. assert (i = j).
    { eapply (si_dup SI Lf Lg). intros q. rewrite (rot3_corner _ (frot_rot3 Rf)), (rot3_corner _ (frot_rot3 Rg)). auto. }
    subst j. rewrite (lv_fun Lg Lf) in *. repeat split; auto.
    destruct (si_nd SI Lf) as (N1 & N2 & N3).
    destruct Rf as [(->&->&->&->)|[(->&->&->&->)|(->&->&->&->)]], Rg as [(E1&E2&E3&->)|[(E1&E2&E3&->)|(E1&E2&E3&->)]]; congruence.
  Qed.

  Lemma surf_HA i a b c : In i (ids h) -> rot3 (trOf h i) a b c ->
    exists j, In j (ids h) /\ adjH h i j /\ ht (trOf h j) a = 0 /\ ht (trOf h j) b = 0 /\ ht (trOf h j) c < 0.
  Proof.
    rewrite ids_in. intros [f Lf]. rewrite (trOf_lv Lf). intros R. destruct (rot3_frot R) as [l Rf].
    destruct (si_link SI Lf Rf) as (j & g & w' & -> & Lg & Rg).
    exists j. rewrite ids_in. split; [eauto|]. split; [eapply adjH_frot; eauto|].
    rewrite (trOf_lv Lg), !(rot3_ht _ (frot_rot3 Rg)), svol_a, svol_b. repeat split; auto.
    rewrite <- (rot3_ht _ (frot_rot3 Rg)). apply si_neg with h W j; auto; [apply (si_W SI Lf); apply (frot_corner Rf)|].
    destruct (frot_nd Lf Rf) as (N1 & N2 & N3), (frot_nd Lg Rg) as (M1 & M2 & M3).
    rewrite (rot3_corner _ (frot_rot3 Rg)). intros [E|[E|E]]; try congruence. subst w'.
    assert (i = j). { eapply (si_dup SI Lf Lg). intros q. rewrite (rot3_corner _ (frot_rot3 Rf)), (rot3_corner _ (frot_rot3 Rg)). tauto. }
    subst j. rewrite (lv_fun Lg Lf) in *.
    destruct Rf as [(->&->&->&_)|[(->&->&->&_)|(->&->&->&_)]], Rg as [(E1&E2&E3&_)|[(E1&E2&E3&_)|(E1&E2&E3&_)]]; congruence.
  Qed.
  Lemma surf_HC i j q : In i (ids h) -> In j (ids h) -> corner (trOf h j) q -> ht (trOf h i) q <= 0.
  Proof.
    rewrite !ids_in. intros [f Lf] [g Lg]. rewrite (trOf_lv Lf), (trOf_lv Lg). intros C.
    apply si_le with i; auto. eapply si_W; eauto.
  Qed.
  Lemma surf_HD i j : In i (ids h) -> In j (ids h) -> i <> j -> exists q, corner (trOf h j) q /\ ht (trOf h i) q < 0.
  Proof.
    rewrite !ids_in. intros [f Lf] [g Lg]. rewrite (trOf_lv Lf), (trOf_lv Lg). intros Ne.
    assert (X : exists q, corner (corners g) q /\ ~ corner (corners f) q).
    { assert (D : forall q, {corner (corners f) q} + {~ corner (corners f) q}).
      { intros q. unfold corners; cbn [corner].
        destruct (p3_eq_dec q (fa f)), (p3_eq_dec q (fb f)), (p3_eq_dec q (fc f)); tauto. }
      destruct (D (fa g)) as [A|A]; [|exists (fa g); split; auto; cbn; auto].
      destruct (D (fb g)) as [B|B]; [|exists (fb g); split; auto; cbn; auto].
      destruct (D (fc g)) as [C|C]; [|exists (fc g); split; auto; cbn; auto].
      exfalso. apply Ne. symmetry. eapply (si_dup SI Lg Lf). unfold corners at 1; cbn [corner]. intros q [->|[->| ->]]; auto. }
    destruct X as (q & Cg & Cf). exists q. split; auto. apply si_neg with h W i; auto. eapply si_W; eauto.
  Qed.
  Lemma surf_HO i : In i (ids h) -> ht (trOf h i) O3 < 0.
  Proof. rewrite ids_in. intros [f Lf]. rewrite (trOf_lv Lf). eapply si_in; eauto. Qed.

  Lemma adj_sym i j : adjH h i j -> adjH h j i.
  Proof.
    intros H. pose proof H as (f & Lf & _). destruct (adjH_inv Lf H) as (u & v & w & Rf).
    destruct (si_link SI Lf Rf) as (j' & g & w' & E & Lg & Rg). inversion E; subst j'. eapply adjH_frot; eauto.
  Qed.
  Lemma path_sym P i j : path (adjH h) P i j -> path (adjH h) P j i.
  Proof.
    induction 1 as [|i j k Pi A Hp IH]; [apply path_refl; auto|].
    eapply path_trans; [apply IH|]. eapply path_step; [apply path_end in IH; clear IH; induction Hp; auto| |].
    - apply adj_sym; eauto. - apply path_refl; auto.
  Qed.

  (** ** Traversal of the facets *)
  Section Dfs.
    Variable A : Type.
    Variable fDo : A -> nat -> fct3 -> A.
    Variable fStop : A -> bool.
    Variable a0 : A.
    Definition act (a : A) (i : nat) : A := match nth_error h i with Some (Some f) => fDo a i f | _ => a end.
    Definition run (L : list nat) : A := fold_left act L a0.

    Lemma dfsFacet_ok fuel : forall S V,
      (forall e, In e S -> exists i f, e = Some i /\ lv h i f) ->
      NoDup V -> (forall i, In i V -> exists f, lv h i f) ->
      (length S + 3 * (length h - length V) < fuel)%nat ->
      (forall i f u v w l, In i V -> lv h i f -> frot f u v w l -> exists j, l = Some j /\ (In j V \/ In (Some j) S)) ->
      (forall L1 L2, rev V = L1 ++ L2 -> V <> [] -> L1 <> [] -> fStop (run L1) = false) ->
      exists L, dfsFacet fDo fStop fuel h S V (run (rev V)) = Ok (run L) /\
        NoDup L /\ (forall i, In i L -> exists f, lv h i f) /\ (forall i, In i V -> In i L) /\
        (forall L1 L2, L = L1 ++ L2 -> L1 <> [] -> L2 <> [] -> fStop (run L1) = false) /\
        (fStop (run L) = true \/
         (forall L1 L2, L = L1 ++ L2 -> L1 <> [] -> fStop (run L1) = false) /\
         (forall j, In (Some j) S -> In j L) /\
         forall i f u v w l, In i L -> lv h i f -> frot f u v w l -> exists j, l = Some j /\ In j L).
    Proof.
      induction fuel as [|fuel IH]; [lia|]. intros S V HS NV LV F CL ST. cbn [dfsFacet].
      destruct S as [|e S].
      - exists (rev V). split; auto. split; [apply NoDup_rev; auto|]. split; [intros i Hi; apply LV, in_rev; auto|].
        split; [intros i Hi; apply in_rev in Hi; auto|].
        assert (ST' : forall L1 L2, rev V = L1 ++ L2 -> L1 <> [] -> fStop (run L1) = false).
        { intros L1 L2 E N. apply (ST L1 L2 E); auto. intros ->. destruct L1; [tauto|discriminate]. }
        split; [intros; eapply ST'; eauto|]. right. split; [|split]; auto.
        + intros j [].
        + intros i f u v w l Hi Lf R. apply in_rev in Hi. destruct (CL i f u v w l Hi Lf R) as (j & E & [Hj|[]]).
          exists j. split; auto. now apply -> in_rev.
      - destruct (HS e (or_introl eq_refl)) as (i & f & -> & Lf).
        destruct (existsb (Nat.eqb i) V) eqn:Ev.
        + apply existsb_exists in Ev. destruct Ev as (i' & Hi' & Ei). apply Nat.eqb_eq in Ei. subst i'.
          assert (S0 : fStop (run (rev V)) = false).
          { apply (ST (rev V) []); [now rewrite app_nil_r| |]; intros E; [subst V; destruct Hi'|].
            apply (f_equal (@rev nat)) in E. rewrite rev_involutive in E. cbn in E. subst V. destruct Hi'. }
          rewrite S0. destruct (IH S V) as (L & E & ND & LL & VL & PL & C); auto.
          * intros e He; apply HS; right; auto.
          * cbn [length] in F; lia.
          * intros k g u v w l Hk Lg R. destruct (CL k g u v w l Hk Lg R) as (j & El & [Hj|[Hj|Hj]]); exists j; split; auto.
            left. inversion Hj; subst; auto.
          * exists L. repeat (split; auto). destruct C as [C|(C1 & C2 & C3)]; auto. right. split; [|split]; auto.
            intros j [Hj|Hj]; auto. inversion Hj; subst; auto.
        + assert (Nv : ~ In i V).
          { intros H. assert (existsb (Nat.eqb i) V = true) by (apply existsb_exists; exists i; split; auto; apply Nat.eqb_refl). congruence. }
          rewrite (getF_lv Lf). cbn [bind].
          assert (ER : fDo (run (rev V)) i f = run (rev (i :: V))).
          { cbn [rev]. unfold run. rewrite fold_left_app. cbn [fold_left]. unfold act at 2. now rewrite Lf. }
          rewrite ER. destruct (fStop (run (rev (i :: V)))) eqn:Es.
          * exists (rev (i :: V)). split; auto. split; [apply NoDup_rev; constructor; auto|].
            split; [intros k Hk; apply in_rev in Hk; destruct Hk as [<-|Hk]; eauto|].
            split; [intros k Hk; apply -> in_rev; right; auto|].
            split; [|left; auto].
            intros L1 L2 E N1 N2. destruct (exists_last N2) as (L2' & x & ->). cbn [rev] in E. rewrite app_assoc in E.
            apply app_inj_tail in E. destruct E as [E _]. apply (ST L1 L2' E); auto. intros ->.
            destruct L1; [tauto|discriminate].
          * destruct (IH (fbc f :: fca f :: fab f :: S) (i :: V)) as (L & E & ND & LL & VL & PL & C); auto.
            -- intros e [<-|[<-|[<-|He]]]; [| | |apply HS; right; auto].
               ++ destruct (si_link SI Lf (u := fb f) (v := fc f) (w := fa f) (l := fbc f)) as (j & g & _ & E & Lg & _); [unfold frot; tauto|]; eauto.
               ++ destruct (si_link SI Lf (u := fc f) (v := fa f) (w := fb f) (l := fca f)) as (j & g & _ & E & Lg & _); [unfold frot; tauto|]; eauto.
               ++ destruct (si_link SI Lf (u := fa f) (v := fb f) (w := fc f) (l := fab f)) as (j & g & _ & E & Lg & _); [unfold frot; tauto|]; eauto.
            -- constructor; auto.
            -- intros k [<-|Hk]; eauto.
            -- cbn [length] in *. assert (length V < length h)%nat; [|lia].
               assert (incl (i :: V) (ids h)) by (intros k [<-|Hk]; apply ids_in; eauto).
               apply NoDup_incl_length in H; [|constructor; auto]. pose proof (ids_length h). cbn [length] in H. lia.
            -- intros k g u v w l [<-|Hk] Lg R.
               ++ rewrite (lv_fun Lg Lf) in *. destruct (si_link SI Lf R) as (j & g' & w' & El & _). exists j. split; auto. right.
                  destruct R as [(_&_&_&X)|[(_&_&_&X)|(_&_&_&X)]]; rewrite <- El, X; cbn; auto.
               ++ destruct (CL k g u v w l Hk Lg R) as (j & El & [Hj|[Hj|Hj]]); exists j; split; auto.
                  ** left. right; auto. ** left. left. congruence. ** right. cbn; auto.
            -- intros L1 L2 E _ N1. destruct L2 as [|x L2].
               ++ rewrite app_nil_r in E. rewrite <- E. auto.
               ++ destruct (exists_last (l := x :: L2)) as (L2' & y & El2); [discriminate|]. rewrite El2 in E.
                  cbn [rev] in E. rewrite app_assoc in E. apply app_inj_tail in E. destruct E as [E _].
                  apply (ST L1 L2' E); auto. intros ->. destruct L1; [tauto|discriminate].
            -- exists L. split; auto. split; auto. split; auto. split; [intros k Hk; apply VL; right; auto|].
               split; auto. destruct C as [C|(C1 & C2 & C3)]; auto. right. split; [|split]; auto.
               intros j [Hj|Hj]; [inversion Hj; subst; apply VL; left; auto|]. apply C2. cbn; auto.
    Qed.

    Lemma dfsF_ok s : (exists f, lv h s f) ->
      exists L, dfsF fDo fStop h s a0 = Ok (run L) /\ NoDup L /\ (forall i, In i L -> exists f, lv h i f) /\
        (forall L1 L2, L = L1 ++ L2 -> L1 <> [] -> L2 <> [] -> fStop (run L1) = false) /\
        (fStop (run L) = true \/
         (forall L1 L2, L = L1 ++ L2 -> L1 <> [] -> fStop (run L1) = false) /\ forall i, In i L <-> exists f, lv h i f).
    Proof.
      intros [f Lf]. unfold dfsF.
      destruct (@dfsFacet_ok (3 * length h + 2) [Some s] []) as (L & E & ND & LL & _ & PL & C); auto.
      - intros e [<-|[]]. eauto.
      - constructor.
      - intros i [].
      - cbn [length]. lia.
      - intros i g u v w l [].
      - intros; congruence.
      - exists L. split; [exact E|]. split; auto. split; auto. split; auto. destruct C as [C|(C1 & C2 & C3)]; [auto|]. right. split; auto.
        intros i. split; auto. intros Hi. apply ids_in in Hi.
        assert (Hs : In s (ids h)) by (apply ids_in; eauto).
        pose proof (@all_path (ids h) (trOf h) (adjH h) surf_HA surf_HC surf_HD O3 i s surf_HO Hi Hs) as P.
        specialize (C2 s (or_introl eq_refl)).
        clear - P C2 C3. induction P as [|i j k Hi A P IH]; auto. apply IH.
        apply ids_in in Hi. destruct Hi as [g Lg]. destruct (adjH_inv Lg A) as (u & v & w & R).
        destruct (C3 _ _ _ _ _ _ C2 Lg R) as (j' & Ej & Hj). inversion Ej; subst; auto.
    Qed.
  End Dfs.
End SurfOf.
