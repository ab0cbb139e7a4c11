(** mark: node ids, and monotonicity of rho over the iterations. *)
From Coq Require Import Reals Lra Sorted Permutation.
From Verif Require Import Base Num KdModel KdSpec RGeom DistLaws BccpModel BccpProofs BccpFinal WspdModel UfModel UfProofs KruskalSpec
  SpecCommit KruskalModel EmstModel EmstCover.
Set Implicit Arguments.

Section Mark.
  Notation iid := (@iid RNum).
  (** an id is inherited by the descendants *)
  Fixpoint idsDn (t : IT) : Prop :=
    match t with
    | ILeaf _ _ _ => True
    | INode i _ l r => (forall k, i = Some k -> iid l = Some k /\ iid r = Some k) /\ idsDn l /\ idsDn r
    end.
  Fixpoint allId (k : nat) (t : IT) : Prop :=
    iid t = Some k /\ match t with ILeaf _ _ _ => True | INode _ _ l r => allId k l /\ allId k r end.
  (** same tree, ids are only added *)
  Fixpoint grow (t t' : IT) : Prop :=
    match t, t' with
    | ILeaf i its b, ILeaf i' its' b' => its = its' /\ b = b' /\ (i <> None -> i' <> None)
    | INode i b l r, INode i' b' l' r' => b = b' /\ (i <> None -> i' <> None) /\ grow l l' /\ grow r r'
    | _, _ => False
    end.

  Lemma grow_refl t : grow t t.
  Proof. induction t; simpl; auto. Qed.
  Lemma grow_strip t : forall t', grow t t' -> strip t = strip t'.
  Proof.
    induction t as [i its b|i b l IHl r IHr]; intros [i' its' b'|i' b' l' r']; simpl; try tauto.
    - intros (-> & -> & _). auto.
    - intros (-> & _ & H1 & H2). rewrite (IHl _ H1), (IHr _ H2). auto.
  Qed.
  Lemma grow_id t t' : grow t t' -> iid t <> None -> iid t' <> None.
  Proof. destruct t, t'; simpl; tauto. Qed.

  Lemma allId_dn k t : idsDn t -> iid t = Some k -> allId k t.
  Proof.
    induction t as [i its b|i b l IHl r IHr]; simpl; intros H E; auto.
    destruct H as (H & Hl & Hr). destruct (H k E) as [El Er]. auto.
  Qed.
  Lemma allId_idsDn k t : allId k t -> idsDn t.
  Proof.
    induction t as [i its b|i b l IHl r IHr]; simpl; auto. intros (E & Hl & Hr). split; [|split; auto].
    intros j Ej. rewrite E in Ej. inversion Ej; subst. destruct l, r; simpl in *; tauto.
  Qed.
  Lemma allId_id k t : allId k t -> iid t = Some k.
  Proof. destruct t; simpl; tauto. Qed.
  Lemma allId_ok (same : nat -> nat -> Prop) k t : allId k t -> (forall p, In p (iitems t) -> same p k) -> idsOk same t.
  Proof.
    induction t as [i its b|i b l IHl r IHr]; cbn [allId idsOk]; intros (E & H) Hs.
    - split; auto. intros j Ej. rewrite E in Ej. inversion Ej; subst. auto.
    - destruct H as [Hl Hr]. split; [|split].
      + intros j Ej. rewrite E in Ej. inversion Ej; subst. auto.
      + apply IHl; auto. intros p Hp. apply Hs. cbn [iitems strip items]. apply in_app_iff; auto.
      + apply IHr; auto. intros p Hp. apply Hs. cbn [iitems strip items]. apply in_app_iff; auto.
  Qed.

  Lemma markAll_spec k t : idsDn t -> allId k (markAll k t) /\ strip (markAll k t) = strip t /\ grow t (markAll k t).
  Proof.
    induction t as [i its b|i b l IHl r IHr]; intros H; cbn [markAll].
    - simpl. repeat split; auto; congruence.
    - destruct (match i with Some j => j =? k | None => false end) eqn:Q.
      + destruct i as [j|]; [|discriminate]. apply Nat.eqb_eq in Q. subst j.
        pose proof (@allId_dn k _ H eq_refl) as A. split; auto. split; auto. apply grow_refl.
      + destruct H as (_ & Hl & Hr). destruct (IHl Hl) as (A1 & B1 & C1). destruct (IHr Hr) as (A2 & B2 & C2).
        simpl. rewrite B1, B2. repeat split; auto. congruence.
  Qed.

  Variable rt : nat -> nat.
  (** nodes with an id lie in one component *)
  Fixpoint grouped (t : IT) : Prop :=
    (iid t <> None -> forall p q, In p (iitems t) -> In q (iitems t) -> rt p = rt q) /\
    match t with ILeaf _ _ _ => True | INode _ _ l r => grouped l /\ grouped r end.
  Fixpoint nonempty (t : tree RNum nat) : Prop :=
    match t with Leaf its _ => its <> [] | Node _ l r => nonempty l /\ nonempty r end.
  Lemma nonempty_hd t : nonempty t -> In (hd 0 (items t)) (items t).
  Proof.
    induction t as [its b|b l IHl r IHr]; simpl.
    - destruct its; [congruence|simpl; auto].
    - intros [Hl _]. specialize (IHl Hl). destruct (items l) as [|x m]; [destruct IHl|]. simpl in *. destruct IHl; auto.
  Qed.

  Lemma mark_spec t : nonempty (strip t) -> idsDn t -> grouped t ->
    strip (mark rt t) = strip t /\ grow t (mark rt t) /\ idsDn (mark rt t) /\ idsOk (fun p i => rt p = i) (mark rt t).
  Proof.
    induction t as [i its b|i b l IHl r IHr]; intros HN HD HG.
    - destruct i as [k|].
      + cbn [mark]. set (root := rt _). destruct (@markAll_spec root (ILeaf (Some k) its b) HD) as (A & B & C).
        split; auto. split; auto. split; [eapply allId_idsDn; eauto|]. apply allId_ok with root; auto.
        intros p Hp. unfold iitems in Hp. rewrite B in Hp. destruct HG as [HG _]. apply HG; auto; [discriminate|].
        apply (@nonempty_hd (strip (ILeaf (Some k) its b))); auto.
      + cbn [mark]. set (root := rt (hd 0 (iitems (ILeaf None its b)))).
        split; auto. split; [simpl; auto|]. split; [exact I|]. simpl. split; auto.
        intros j Ej p Hp. destruct (forallb (fun i => root =? rt i) (tl its)) eqn:Q; [|discriminate]. inversion Ej; subst j.
        rewrite forallb_forall in Q. destruct its as [|x m]; [destruct Hp|]. destruct Hp as [<-|Hp]; auto.
        specialize (Q p Hp). apply Nat.eqb_eq in Q. auto.
    - destruct i as [k|].
      + cbn [mark]. set (root := rt _). destruct (@markAll_spec root (INode (Some k) b l r) HD) as (A & B & C).
        split; auto. split; auto. split; [eapply allId_idsDn; eauto|]. apply allId_ok with root; auto.
        intros p Hp. unfold iitems in Hp. rewrite B in Hp. destruct HG as [HG _]. apply HG; auto; [discriminate|].
        apply (@nonempty_hd (strip (INode (Some k) b l r))); auto.
      + cbn [mark]. set (root := rt _). destruct HN as [Nl Nr]. destruct HD as (_ & Dl & Dr). destruct HG as (_ & Gl & Gr).
        destruct (IHl Nl Dl Gl) as (A1 & B1 & C1 & E1). destruct (IHr Nr Dr Gr) as (A2 & B2 & C2 & E2).
        cbv zeta. cbn [strip grow idsDn idsOk iid EmstModel.iid]. rewrite A1, A2.
        destruct (isId root (EmstModel.iid (mark rt l)) && isId root (EmstModel.iid (mark rt r))) eqn:Q.
        * apply andb_true_iff in Q. destruct Q as [Q1 Q2]. unfold isId in Q1, Q2.
          destruct (EmstModel.iid (mark rt l)) as [x|] eqn:X; [|discriminate]. destruct (EmstModel.iid (mark rt r)) as [y|] eqn:Y; [|discriminate].
          apply Nat.eqb_eq in Q1. apply Nat.eqb_eq in Q2. subst x y.
          split; auto. split; [repeat split; auto; congruence|]. split; [split; [intros k Ek; inversion Ek; subst; auto|auto]|].
          split; [|auto]. intros j Ej p Hp. inversion Ej; subst j. cbn [iitems strip items] in Hp. apply in_app_iff in Hp.
          destruct Hp as [Hp|Hp].
          -- destruct (mark rt l); destruct E1 as [E1 _]; apply E1; auto.
          -- destruct (mark rt r); destruct E2 as [E2 _]; apply E2; auto.
        * split; auto. split; [repeat split; auto; congruence|]. split; [split; [discriminate|auto]|]. split; [discriminate|auto].
  Qed.
End Mark.

Section Mono.
  Local Open Scope R_scope.
  Variable dim : nat.
  Variable pt : nat -> list R.
  Notation inode := (@inode RNum dim).
  Notation nice := (nice dim pt).

  Lemma inode_sym u v : nice u -> nice v -> inode u v = inode v u.
  Proof.
    assert (G : forall u v, nice u -> nice v -> inode u v <= inode v u).
    { intros u0 v0 Hu Hv. destruct (@nodeDistance_attained dim (ibox v0) (ibox u0)) as (x & y & Hx & Hy & E);
        [apply tight_box with pt (iitems v0), niceT_tight, Hv|apply tight_box with pt (iitems u0), niceT_tight, Hu|].
      unfold EmstModel.inode. rewrite <- E.
      replace (edist dim x y) with (edist dim y x) by (rewrite <- !dist_edist; apply dist_sym).
      apply nodeDistance_bounds; auto. }
    intros Hu Hv. apply Rle_antisym; apply G; auto.
  Qed.

  Arguments inode_sym {u v} _ _.

  Lemma child_nice u v a b c d : ichildren dim u v = Some ((a, b), (c, d)) -> nice u -> nice v ->
    nice a /\ nice b /\ nice c /\ nice d /\ inode u v <= inode a b /\ inode u v <= inode c d.
  Proof.
    intros C Nu Nv. apply ichildren_spec in C. destruct C as [(i & bx & -> & -> & ->)|(i & bx & -> & -> & ->)].
    - pose proof Nu as (_ & Na & Nc). repeat split; auto; apply (@inode_mono dim pt); auto; try apply incl_refl;
        intros x Hx; cbn [iitems strip items]; apply in_app_iff; auto.
    - pose proof Nv as (_ & Na & Nc). rewrite (inode_sym Nu Nv).
      repeat split; auto; apply (@inode_mono dim pt); auto; try apply incl_refl;
        intros x Hx; cbn [iitems strip items]; apply in_app_iff; auto.
  Qed.

  Lemma rfind_sub beta fin u v L : RFind dim beta fin u v L -> nice u -> nice v ->
    forall p, In p L -> inode u v <= inode (fst p) (snd p).
  Proof.
    induction 1 as [u v M|u v rho M Hr Hf|u v M W|u v a b c d l1 l2 M W C R1 IH1 R2 IH2]; intros Nu Nv p Hp.
    - destruct Hp.
    - destruct Hp.
    - destruct Hp as [<-|[]]. apply Rle_refl.
    - destruct (child_nice _ _ C Nu Nv) as (Na & Nb & Nc & Nd & A & B). apply in_app_iff in Hp. destruct Hp as [Hp|Hp].
      + specialize (IH1 Na Nb p Hp). lra.
      + specialize (IH2 Nc Nd p Hp). lra.
  Qed.

  (** the second state has at least the ids of the first *)
  Variables R1 R2 : nat -> nat -> Prop.
  Hypothesis merge : forall p q i j k, R1 p i -> R1 q i -> R2 p j -> R2 q k -> j = k.

  Lemma grow_same u v u' v' : grow u u' -> grow v v' -> nice u -> nice v -> idsOk R1 u -> idsOk R1 v -> idsOk R2 u' -> idsOk R2 v' ->
    sameId u v = true -> sameId u' v' = true.
  Proof.
    intros Gu Gv Nu Nv Ou Ov Ou' Ov' H. unfold sameId in *.
    destruct (iid u) as [i|] eqn:Eu; [|discriminate]. destruct (iid v) as [j|] eqn:Ev; [|discriminate].
    apply Nat.eqb_eq in H. subst j.
    assert (Hu' : iid u' <> None) by (apply (grow_id _ _ Gu); congruence).
    assert (Hv' : iid v' <> None) by (apply (grow_id _ _ Gv); congruence).
    destruct (iid u') as [j|] eqn:Eu'; [|congruence]. destruct (iid v') as [k|] eqn:Ev'; [|congruence].
    apply Nat.eqb_eq.
    destruct (@niceT_ne dim pt _ Nu) as (p & Hp). destruct (@niceT_ne dim pt _ Nv) as (q & Hq).
    assert (Hp' : In p (iitems u')) by (unfold iitems; rewrite <- (grow_strip _ _ Gu); auto).
    assert (Hq' : In q (iitems v')) by (unfold iitems; rewrite <- (grow_strip _ _ Gv); auto).
    apply (@merge p q i).
    - destruct u; destruct Ou as [Ou _]; apply Ou; auto.
    - destruct v; destruct Ov as [Ov _]; apply Ov; auto.
    - destruct u'; destruct Ou' as [Ou' _]; apply Ou'; auto.
    - destruct v'; destruct Ov' as [Ov' _]; apply Ov'; auto.
  Qed.

  Lemma grow_children u v u' v' a' b' c' d' : grow u u' -> grow v v' -> ichildren dim u' v' = Some ((a', b'), (c', d')) ->
    exists a b c d, ichildren dim u v = Some ((a, b), (c, d)) /\ grow a a' /\ grow b b' /\ grow c c' /\ grow d d'.
  Proof.
    intros Gu Gv C.
    destruct u as [i its b|i b l r], u' as [i' its' b0|i' b0 l' r']; simpl in Gu; try tauto;
    destruct v as [j jts e|j e m s], v' as [j' jts' e0|j' e0 m' s']; simpl in Gv; try tauto; cbn [ichildren] in *; try discriminate.
    - inversion C; subst. exists m, (ILeaf i its b), s, (ILeaf i its b). simpl. tauto.
    - inversion C; subst. exists l, (ILeaf j jts e), r, (ILeaf j jts e). simpl. tauto.
    - destruct Gu as (-> & Gi & Gl & Gr). destruct Gv as (-> & Gj & Gm & Gs). destruct (nlt RNum _ _); inversion C; subst.
      + exists l, (INode j e0 m s), r, (INode j e0 m s). simpl. tauto.
      + exists m, (INode i b0 l r), s, (INode i b0 l r). simpl. tauto.
  Qed.

  Lemma grow_eqs u u' : grow u u' -> ibox u = ibox u' /\ iitems u = iitems u' /\ isize u = isize u'.
  Proof. intros G. unfold ibox, iitems, isize. rewrite (grow_strip _ _ G). auto. Qed.

  Variables beta beta' : nat.
  Hypothesis Hb : (beta <= beta')%nat.

  Lemma idsOk_kids (R' : nat -> nat -> Prop) u v a b c d : ichildren dim u v = Some ((a, b), (c, d)) -> idsOk R' u -> idsOk R' v ->
    idsOk R' a /\ idsOk R' b /\ idsOk R' c /\ idsOk R' d.
  Proof.
    intros C Hu Hv. apply ichildren_spec in C. destruct C as [(i & bx & -> & -> & ->)|(i & bx & -> & -> & ->)];
      [destruct Hu as (_ & A & B)|destruct Hv as (_ & A & B)]; auto.
  Qed.

  Lemma mono_find fin fin' u' v' L' : RFind dim beta' fin' u' v' L' ->
    forall u v L, grow u u' -> grow v v' -> nice u -> nice v -> idsOk R1 u -> idsOk R1 v -> idsOk R2 u' -> idsOk R2 v' ->
    RFind dim beta fin u v L -> (forall p, In p L -> fin <= inode (fst p) (snd p)) ->
    forall p, In p L' -> fin <= inode (fst p) (snd p).
  Proof.
    induction 1 as [u' v' M|u' v' rho M Hr Hf|u' v' M W|u' v' a' b' c' d' l1 l2 M W C HR1 IH1 HR2 IH2];
      intros u v L Gu Gv Nu Nv Ou Ov Ou' Ov' HR HL p Hp; try (destruct Hp; fail).
    - destruct Hp as [<-|[]]. cbn [fst snd].
      destruct (grow_eqs _ _ Gu) as (E1 & E2 & E3). destruct (grow_eqs _ _ Gv) as (F1 & F2 & F3).
      assert (En : inode u' v' = inode u v) by (unfold EmstModel.inode; rewrite E1, F1; auto). rewrite En.
      assert (Ew : iws dim u v = true) by (unfold iws in *; rewrite E1, F1; auto).
      inversion HR as [? ? M2|? ? rho M2 Hr Hf|? ? M2 W2|? ? a b c d l1 l2 M2 W2 C2 X1 X2]; subst.
      + exfalso. unfold rhoMoveon in *. apply andb_true_iff in M. destruct M as [M1 M3].
        apply andb_false_iff in M2. destruct M2 as [M2|M2]; apply negb_false_iff in M2.
        * rewrite (@grow_same u v u' v') in M1; auto. discriminate.
        * apply negb_true_iff in M3. apply Nat.leb_gt in M3. apply Nat.leb_le in M2. lia.
      + cbn [nlt nle RNum] in Hr, Hf. rewrite Rltb_false in Hr. rewrite Rleb_true in Hf. lra.
      + apply (HL (u, v)). left; auto.
      + congruence.
    - destruct (@grow_children u v _ _ _ _ _ _ Gu Gv C) as (a & b & c & d & C0 & Ga & Gb & Gc & Gd).
      destruct (grow_eqs _ _ Gu) as (E1 & E2 & E3). destruct (grow_eqs _ _ Gv) as (F1 & F2 & F3).
      assert (Ew : iws dim u v = false) by (unfold iws in *; rewrite E1, F1; auto).
      destruct (child_nice _ _ C0 Nu Nv) as (Na & Nb & Nc & Nd & A & B).
      destruct (@idsOk_kids _ u v _ _ _ _ C0 Ou Ov) as (Oa & Ob & Oc & Od).
      destruct (@idsOk_kids _ _ _ _ _ _ _ C Ou' Ov') as (Oa' & Ob' & Oc' & Od').
      inversion HR as [? ? M2|? ? rho M2 Hr Hf|? ? M2 W2|? ? a0 b0 c0 d0 k1 k2 M2 W2 C2 X1 X2]; subst.
      + exfalso. unfold rhoMoveon in *. apply andb_true_iff in M. destruct M as [M1 M3].
        apply andb_false_iff in M2. destruct M2 as [M2|M2]; apply negb_false_iff in M2.
        * rewrite (@grow_same u v u' v') in M1; auto. discriminate.
        * apply negb_true_iff in M3. apply Nat.leb_gt in M3. apply Nat.leb_le in M2. lia.
      + cbn [nlt nle RNum] in Hr, Hf. rewrite Rltb_false in Hr. rewrite Rleb_true in Hf.
        assert (Nu' : nice u') by (unfold EmstCover.nice; rewrite <- (grow_strip _ _ Gu); auto).
        assert (Nv' : nice v') by (unfold EmstCover.nice; rewrite <- (grow_strip _ _ Gv); auto).
        assert (En : inode u' v' = inode u v) by (unfold EmstModel.inode; rewrite E1, F1; auto).
        assert (S : inode u' v' <= inode (fst p) (snd p)).
        { apply (@rfind_sub beta' fin' u' v' (l1 ++ l2)); auto. eapply rf_kids; eauto. }
        lra.
      + congruence.
      + rewrite C0 in C2. inversion C2; subst. apply in_app_iff in Hp. destruct Hp as [Hp|Hp].
        * apply (IH1 a0 b0 k1); auto. intros x Hx. apply HL, in_app_iff; auto.
        * apply (IH2 c0 d0 k2); auto. intros x Hx. apply HL, in_app_iff; auto.
  Qed.

  Lemma mono_compute fin fin' t' L' : RCompute dim beta' fin' t' L' ->
    forall t L, grow t t' -> nice t -> idsOk R1 t -> idsOk R2 t' ->
    RCompute dim beta fin t L -> (forall p, In p L -> fin <= inode (fst p) (snd p)) ->
    forall p, In p L' -> fin <= inode (fst p) (snd p).
  Proof.
    induction 1 as [i its b|i b l' r' St|i b l' r' l1 l2 l3 St HR1 IH1 HR2 IH2 HF]; intros t L G Nt O1 O2 HR HL p Hp;
      try (destruct Hp; fail).
    destruct t as [|i0 b0 l r]; [destruct G|]. pose proof (grow_eqs _ _ G) as (_ & _ & Es).
    destruct G as (-> & Gi & Gl & Gr). destruct Nt as (_ & Nl & Nr). destruct O1 as (_ & Ol & Or). destruct O2 as (_ & Ol' & Or').
    inversion HR as [|? ? ? ? Hs|? ? ? ? k1 k2 k3 Hs X1 X2 X3]; subst.
    - exfalso. unfold rhoStart in *. apply Nat.ltb_lt in St. apply Nat.ltb_ge in Hs. rewrite Es in Hs. lia.
    - rewrite !in_app_iff in Hp. destruct Hp as [Hp|[Hp|Hp]].
      + apply (IH1 l k1); auto. intros x Hx. apply HL. rewrite !in_app_iff; auto.
      + apply (IH2 r k2); auto. intros x Hx. apply HL. rewrite !in_app_iff; auto.
      + apply (mono_find HF Gl Gr (L := k3)); auto. intros x Hx. apply HL. rewrite !in_app_iff; auto.
  Qed.

  Lemma rho_mono fin fin' t t' : grow t t' -> nice t -> idsOk R1 t -> idsOk R2 t' ->
    rhoExec dim beta fin t -> rhoExec dim beta' fin' t' -> fin <= fin'.
  Proof.
    intros G Nt O1 O2 (L & HR & _ & Hm & HL) (L' & HR' & Hf' & _ & _).
    cbn [nlt nmax RNum] in Hm. rewrite Rltb_false in Hm.
    destruct Hf' as [->|Hf']; [cbn [nmax RNum]; lra|].
    apply in_map_iff in Hf'. destruct Hf' as (p & <- & Hp).
    apply (@mono_compute fin _ t' L' HR' t L G Nt O1 O2 HR); auto.
    intros q Hq. specialize (HL q Hq). cbn [nlt RNum] in HL. rewrite Rltb_false in HL. auto.
  Qed.
End Mono.
