(** The state before the first turn. *)
From Coq Require Import Reals Lra Lia Psatz List Bool Permutation.
From Verif Require Import Base Num Hull2dModel H3Model H3Geom H3Surf H3Heap H3Edge H3Front H3Link H3Place H3Round H3Loop H3Init.
Set Implicit Arguments.
Open Scope R_scope.

Notation subR := (sub3 RNum).
Lemma svol_sub a b c d o : svol (subR a o) (subR b o) (subR c o) (subR d o) = svol a b c d.
Proof. destruct a, b, c, d, o. unfold svol, sub3. cbn. ring. Qed.
Lemma sub_inj a b o : subR a o = subR b o -> a = b.
Proof. destruct a as [x y z], b as [x' y' z'], o as [u v w]. unfold sub3. cbn. intros E. injection E as E1 E2 E3. f_equal; lra. Qed.
Lemma cen4_0 a b c d t : let o := interior RNum a b c d in
  ht t O3 = (ht t (subR a o) + ht t (subR b o) + ht t (subR c o) + ht t (subR d o)) / 4.
Proof.
  cbv zeta. destruct (ht_aff t) as [[[[k0 k1] k2] k3] E]. rewrite !E. destruct a, b, c, d. unfold aff, interior, div3, add3, sub3, O3, four. cbn. field.
Qed.
Lemma margin_sub P o e : margin P e -> margin (map (fun p => subR p o) P) e.
Proof.
  intros M a b c d A B C D N1 N2 N3 N4 N5 N6. apply in_map_iff in A, B, C, D.
  destruct A as (a' & <- & A), B as (b' & <- & B), C as (c' & <- & C), D as (d' & <- & D). rewrite svol_sub. apply M; auto; congruence.
Qed.
Lemma keep_pos eps (f : fct3) q : @keep RNum eps f q = true -> eps < ht (corners f) q.
Proof.
  intros K. unfold keep in K. rewrite !andb_true_iff in K. destruct K as [[[K _] _] _]. unfold visible, sees in K. cbn [nlt RNum] in K.
  apply Rltb_true in K. rewrite vol_R in K. auto.
Qed.
Lemma keep_neg eps (f : fct3) q : 0 <= eps -> @keep RNum eps f q = false -> ht (corners f) q <= eps.
Proof.
  intros E0 K. unfold keep in K. rewrite !andb_false_iff, !negb_false_iff, !eq3_iff in K.
  destruct K as [[[K|K]|K]|K]; [|subst q; rewrite ht_corner; [lra|unfold corners; cbn; auto]..].
  unfold visible, sees in K. cbn [nlt RNum] in K. apply Rltb_false in K. rewrite vol_R in K. auto.
Qed.
Lemma heap4 (h0 h1 : heap3) f0 f1 f2 f3 : h0 = [Some f0; Some f1; Some f2; Some f3] -> SS h0 h1 ->
  exists s0 s1 s2 s3, h1 = [Some (setSee f0 s0); Some (setSee f1 s1); Some (setSee f2 s2); Some (setSee f3 s3)].
Proof.
  intros -> SSh. pose proof (ss_len SSh) as L.
  destruct h1 as [|o0 [|o1 [|o2 [|o3 [|]]]]]; try discriminate.
  destruct (ss_ex SSh (k := 0) (f := f0) eq_refl) as [s0 E0]. destruct (ss_ex SSh (k := 1) (f := f1) eq_refl) as [s1 E1].
  destruct (ss_ex SSh (k := 2) (f := f2) eq_refl) as [s2 E2]. destruct (ss_ex SSh (k := 3) (f := f3) eq_refl) as [s3 E3].
  unfold lv in *. cbn in *. exists s0, s1, s2, s3. congruence.
Qed.
Lemma filter_all X (l : list X) : filter (fun _ => true) l = l.
Proof. induction l; cbn; congruence. Qed.

Section Init.
  Variable P : list p3.
  Variable eps : R.
  Hypothesis eps0 : 0 <= eps.
  Hypothesis GP : margin P (4 * eps).
  Hypothesis H4 : four_pts P.
  Variable mm : (p3 -> p3 -> bool) -> list p3 -> nat * nat.
  Variable mx : (p3 -> p3 -> bool) -> list p3 -> nat.
  Hypothesis Hmm : minmax3_ok mm.
  Hypothesis Hmx : maxel3_ok mx.

  (** same corners and links seen by the same points *)
  Lemma RInv_of Q h0 h1 h5 W : (forall k f5, lv h5 k f5 -> exists f1, lv h1 k f1 /\ corners f5 = corners f1 /\ see f5 = see f1) ->
    (forall k f1, lv h1 k f1 -> exists f5, lv h5 k f5 /\ corners f5 = corners f1 /\ see f5 = see f1) ->
    J eps h0 0 (fun _ => true) [0; 1; 2; 3]%nat h1 Q -> (forall k, In k [0; 1; 2; 3]%nat <-> (k < length h1)%nat) ->
    SInv h5 W -> (forall q, W q -> In q Q) -> RInv Q eps h5 W.
  Proof.
    intros A B Jh Hk SI WQ. split; auto.
    - intros i f q k L Hin. destruct (A _ _ L) as (f1 & L1 & C & S). rewrite S in Hin. rewrite C.
      destruct (@j_new _ _ _ _ _ _ _ Jh i f1 q k) as (E & K & D); auto; [lia|]. split; auto. split; auto. apply keep_pos; auto.
    - intros q Hq. destruct (j_cov Jh q Hq) as [(k & f1 & _ & L & Hin)|Hno].
      + left. destruct (B _ _ L) as (f5 & L5 & C & S). exists k, f5, k. split; auto. rewrite S. auto.
      + right. intros i f L. destruct (A _ _ L) as (f1 & L1 & C & S). rewrite C. apply keep_neg; auto. apply Hno with i; auto.
        apply Hk. eapply lv_len; eauto.
  Qed.

  Lemma init_ok : exists o S0 W q1 q2 q3 q4, @init RNum eps mm mx P = Ok (o, S0) /\
    let Q := map (fun p => subR p o) P in
    RInv Q eps (hh S0) W /\ (tot (hh S0) <= length P)%nat /\ (exists f, lv (hh S0) (hH S0) f) /\
    In q1 Q /\ In q2 Q /\ In q3 Q /\ In q4 Q /\ dist4 q1 q2 q3 q4 /\
    forall t, ht t O3 = (ht t q1 + ht t q2 + ht t q3 + ht t q4) / 4.
  Proof.
    destruct (@simplex_ok P eps eps0 GP H4 mm mx Hmm Hmx) as (c1 & c2 & c3 & c4 & p1 & p2 & p3 & p4 & E & E1 & E2 & E3 & E4 & Ds).
    unfold init, initWith. rewrite E. cbn [bind]. change (nT RNum) with R in *.
    rewrite (at_nth _ _ E1), (at_nth _ _ E2), (at_nth _ _ E3), (at_nth _ _ E4). cbn [bind]. cbv zeta.
    set (o := interior RNum p1 p2 p3 p4). set (Q := @map (v3 R) (v3 R) (fun p : v3 R => subR p o) P).
    assert (X : forall c p, nth_error P c = Some p -> nth_error Q c = Some (subR p o)) by (intros c p H; unfold Q; rewrite nth_error_map; now rewrite H).
    rewrite (at_nth _ _ (X _ _ E1)), (at_nth _ _ (X _ _ E2)), (at_nth _ _ (X _ _ E3)), (at_nth _ _ (X _ _ E4)). cbn [bind].
    pose proof (fun t => cen4_0 p1 p2 p3 p4 t) as Z. cbv zeta in Z. fold o in Z.
    assert (Dv : 4 * eps < Rabs (svol (subR p1 o) (subR p2 o) (subR p3 o) (subR p4 o))).
    { rewrite svol_sub. destruct Ds as (N1 & N2 & N3 & N4 & N5 & N6). apply GP; auto; eapply nth_error_In; eauto. }
    assert (Ds' : dist4 (subR p1 o) (subR p2 o) (subR p3 o) (subR p4 o)).
    { destruct Ds as (N1 & N2 & N3 & N4 & N5 & N6). repeat split; intros K; apply sub_inj in K; auto. }
    assert (I1 : In (subR p1 o) Q) by (eapply nth_error_In; eauto). assert (I2 : In (subR p2 o) Q) by (eapply nth_error_In; eauto).
    assert (I3 : In (subR p3 o) Q) by (eapply nth_error_In; eauto). assert (I4 : In (subR p4 o) Q) by (eapply nth_error_In; eauto).
    assert (LQ : length Q = length P) by (unfold Q; apply map_length).
    revert I1 I2 I3 I4 Ds' Dv Z. generalize (subR p1 o) as a, (subR p2 o) as b, (subR p3 o) as c, (subR p4 o) as d.
    intros a b c d I1 I2 I3 I4 Ds' Dv Z.
    assert (M1 : det3 RNum a b c = svol a b c d / 4) by (rewrite det3_R; pose proof (Z (a, b, c)) as Y; cbn [ht] in Y; rewrite Y, svol_a, svol_b, svol_c; lra).
    assert (M2 : det3 RNum a b d = - svol a b c d / 4).
    { rewrite det3_R; pose proof (Z (a, b, d)) as Y; cbn [ht] in Y; rewrite Y, svol_a, svol_b, svol_c, (svol_swapd a b c d); lra. }
    assert (M3 : det3 RNum c d b = - svol a b c d / 4).
    { rewrite det3_R; pose proof (Z (c, d, b)) as Y; cbn [ht] in Y; rewrite Y, svol_a, svol_b, svol_c, (svol_cdba a b c d); lra. }
    assert (M4 : det3 RNum c d a = svol a b c d / 4).
    { rewrite det3_R; pose proof (Z (c, d, a)) as Y; cbn [ht] in Y; rewrite Y, svol_a, svol_b, svol_c, (svol_cdab a b c d); lra. }
    unfold newFct, mkTri. rewrite M1, M2, M3, M4. cbn [nlt RNum].
    assert (SG : 4 * eps < svol a b c d \/ svol a b c d < - (4 * eps)) by (unfold Rabs in Dv; destruct (Rcase_abs _); lra).
    assert (HN : forall h : heap3, length h = 4%nat -> forall k, In k [0; 1; 2; 3]%nat <-> (0 <= k < length h)%nat) by (intros h -> k; cbn; lia).
    destruct SG as [SG|SG].
    - replace (Rltb eps (svol a b c d / 4)) with true by (symmetry; apply Rltb_true; lra).
      replace (Rltb eps (- svol a b c d / 4)) with false by (symmetry; apply Rltb_false; lra).
      cbv beta iota.
      set (h0 := [Some (Fct RNum a c b None None None []); Some (Fct RNum a b d None None None []); Some (Fct RNum c d b None None None []); Some (Fct RNum c a d None None None [])]).
      destruct (@J_list eps h0 0 (fun _ => true) [0; 1; 2; 3]%nat (HN h0 eq_refl)) with (vs := Q) (h' := h0) (done := @nil (v3 R)) as (h1 & E5 & Jh).
      { intros k [<-|[<-|[<-|[<-|[]]]]]; eexists; split; reflexivity. }
      { intros; discriminate. }
      { apply J_start; auto. intros k [<-|[<-|[<-|[<-|[]]]]]; eexists; split; reflexivity. }
      match goal with |- context [@foldR ?A ?B ?f ?q ?h] => replace (@foldR A B f q h) with (@Ok heap3 h1) by (symmetry; exact E5) end.
      cbn [bind app] in *. destruct (heap4 eq_refl (j_ss Jh)) as (s0 & s1 & s2 & s3 & Eh).
      pose proof (link4_pos Ds' s0 s1 s2 s3) as EL. unfold link4, F' in EL. unfold setSee in Eh. cbn [fa fb fc fab fbc fca] in Eh. rewrite <- Eh in EL.
      match type of EL with ?l = Ok ?h5 => set (h5' := h5) in EL end.
      exists o, (Hull h5' 0 4), (W4 a b c d), a, b, c, d.
      split.
      { destruct (linkFacet h1 0 _) as [h2| | |]; try discriminate. cbn [bind] in EL |- *. destruct (linkFacet h2 1 _) as [h3| | |]; try discriminate. cbn [bind] in EL |- *.
        destruct (linkFacet h3 2 _) as [h4| | |]; try discriminate. cbn [bind] in EL |- *. rewrite EL. reflexivity. }
      cbn [hh hH]. split; [|split; [|split; [unfold lv, h5'; cbn; eauto|]]].
      3: { repeat (split; [assumption|]). exact Z. }
      + apply (@RInv_of Q h0 h1 h5' (W4 a b c d)); auto.
        * intros k f5 L. unfold h5' in L. apply lv4 in L. rewrite Eh. destruct L as [[-> ->]|[[-> ->]|[[-> ->]|[-> ->]]]]; eexists; repeat split; reflexivity.
        * intros k f5 L. rewrite Eh in L. apply lv4 in L. destruct L as [[-> ->]|[[-> ->]|[[-> ->]|[-> ->]]]]; eexists; repeat split; reflexivity.
        * intros k. rewrite (HN h1); [lia|]. rewrite Eh; auto.
        * apply tetra_pos; auto. lra.
        * intros q [-> | [-> | [-> | ->]]]; auto.
      + pose proof (j_tot Jh) as T. rewrite filter_all, LQ in T. replace (tot h5') with (tot h1); [exact T|]. rewrite Eh. reflexivity.
    - replace (Rltb eps (svol a b c d / 4)) with false by (symmetry; apply Rltb_false; lra).
      replace (Rltb eps (- svol a b c d / 4)) with true by (symmetry; apply Rltb_true; lra).
      cbv beta iota.
      set (h0 := [Some (Fct RNum a b c None None None []); Some (Fct RNum a d b None None None []); Some (Fct RNum c b d None None None []); Some (Fct RNum c d a None None None [])]).
      destruct (@J_list eps h0 0 (fun _ => true) [0; 1; 2; 3]%nat (HN h0 eq_refl)) with (vs := Q) (h' := h0) (done := @nil (v3 R)) as (h1 & E5 & Jh).
      { intros k [<-|[<-|[<-|[<-|[]]]]]; eexists; split; reflexivity. }
      { intros; discriminate. }
      { apply J_start; auto. intros k [<-|[<-|[<-|[<-|[]]]]]; eexists; split; reflexivity. }
      match goal with |- context [@foldR ?A ?B ?f ?q ?h] => replace (@foldR A B f q h) with (@Ok heap3 h1) by (symmetry; exact E5) end.
      cbn [bind app] in *. destruct (heap4 eq_refl (j_ss Jh)) as (s0 & s1 & s2 & s3 & Eh).
      pose proof (link4_neg Ds' s0 s1 s2 s3) as EL. unfold link4, F' in EL. unfold setSee in Eh. cbn [fa fb fc fab fbc fca] in Eh. rewrite <- Eh in EL.
      match type of EL with ?l = Ok ?h5 => set (h5' := h5) in EL end.
      exists o, (Hull h5' 0 4), (W4 a b c d), a, b, c, d.
      split.
      { destruct (linkFacet h1 0 _) as [h2| | |]; try discriminate. cbn [bind] in EL |- *. destruct (linkFacet h2 1 _) as [h3| | |]; try discriminate. cbn [bind] in EL |- *.
        destruct (linkFacet h3 2 _) as [h4| | |]; try discriminate. cbn [bind] in EL |- *. rewrite EL. reflexivity. }
      cbn [hh hH]. split; [|split; [|split; [unfold lv, h5'; cbn; eauto|]]].
      3: { repeat (split; [assumption|]). exact Z. }
      + apply (@RInv_of Q h0 h1 h5' (W4 a b c d)); auto.
        * intros k f5 L. unfold h5' in L. apply lv4 in L. rewrite Eh. destruct L as [[-> ->]|[[-> ->]|[[-> ->]|[-> ->]]]]; eexists; repeat split; reflexivity.
        * intros k f5 L. rewrite Eh in L. apply lv4 in L. destruct L as [[-> ->]|[[-> ->]|[[-> ->]|[-> ->]]]]; eexists; repeat split; reflexivity.
        * intros k. rewrite (HN h1); [lia|]. rewrite Eh; auto.
        * apply tetra_neg; auto. lra.
        * intros q [-> | [-> | [-> | ->]]]; auto.
      + pose proof (j_tot Jh) as T. rewrite filter_all, LQ in T. replace (tot h5') with (tot h1); [exact T|]. rewrite Eh. reflexivity.
  Qed.
End Init.
