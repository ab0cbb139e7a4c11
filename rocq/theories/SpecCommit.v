(** The commit phase of a round of speculative Kruskal. *)
From Verif Require Import Base Sched UfModel UfProofs KruskalSpec SpecReserve.
Set Implicit Arguments.

Definition samerep (P : parents) (a b : nat) : Prop := exists r, rep P a r /\ rep P b r.

Definition cid (l : clocal) : nat := fst (fst (fst l)).

Lemma ex_upd A (Q : A -> Prop) ls k l l' : nth_error ls k = Some l -> (Q l -> Q l') ->
  ((exists x, In x (upd k l' ls) /\ Q x) <-> Q l' \/ exists x, In x ls /\ Q x).
Proof.
  intros Hk HQ. assert (Hlen : k < length ls) by (apply nth_error_Some; congruence). split.
  - intros (x & Hx & Qx). apply In_nth_error in Hx. destruct Hx as (j & Hj).
    destruct (Nat.eq_dec k j) as [<-|D].
    + rewrite nth_error_upd_eq in Hj by auto. left. congruence.
    + rewrite nth_error_upd_neq in Hj by auto. right. exists x. split; auto. eapply nth_error_In; eauto.
  - intros [H|(x & Hx & Qx)].
    + exists l'. split; auto. eapply nth_error_In. apply nth_error_upd_eq; auto.
    + apply In_nth_error in Hx. destruct Hx as (j & Hj). destruct (Nat.eq_dec k j) as [<-|D].
      * exists l'. split; [eapply nth_error_In; apply nth_error_upd_eq; auto|]. apply HQ. congruence.
      * exists x. split; auto. eapply nth_error_In. rewrite nth_error_upd_neq; eauto.
Qed.
Lemma in_upd A (ls : list A) k l l' x : nth_error ls k = Some l -> In x (upd k l' ls) ->
  x = l' \/ In x ls.
Proof.
  intros Hk Hx. apply In_nth_error in Hx. destruct Hx as (j & Hj).
  assert (Hlen : k < length ls) by (apply nth_error_Some; congruence).
  destruct (Nat.eq_dec k j) as [<-|D].
  - rewrite nth_error_upd_eq in Hj by auto. left; congruence.
  - rewrite nth_error_upd_neq in Hj by auto. right. eapply nth_error_In; eauto.
Qed.
Lemma map_upd A B (f : A -> B) k l' ls l : nth_error ls k = Some l -> f l' = f l -> map f (upd k l' ls) = map f ls.
Proof.
  revert k; induction ls as [|x ls IH]; intros [|k] Hk Hf; simpl in *; try discriminate; auto.
  - inversion Hk; subst. rewrite Hf. auto.
  - f_equal. apply (IH k); auto.
Qed.

Section Commit.
  Variable n : nat.
  Variable s1 : ush.
  Notation P1 := (par s1).
  Notation R1 := (rsv s1).
  Hypothesis F1 : forest n P1.
  (** iterations of the round with their roots, started or skipped *)
  Variable T : list clocal.
  Hypothesis Tstart : forall i u v st, In (i, u, v, st) T -> st = C0 \/ st = CSkip.
  Hypothesis Tid : NoDup (map cid T).
  Hypothesis Troot : forall i u v, In (i, u, v, C0) T -> u <> v /\ u < n /\ v < n /\ P1 u = None /\ P1 v = None.

  Variable pre es : list (nat * nat).
  Variable C : list nat.
  Hypothesis Conn1 : forall a b, a < n -> b < n -> (samerep P1 a b <-> conn (pre ++ edgesOf es C) a b).
  Hypothesis Cin : inrange n (pre ++ es).
  Hypothesis Csel : forall k, In k C -> selected pre es k.
  Hypothesis Tedge : forall i u v, In (i, u, v, C0) T -> ~ In i C /\ exists a b, nth_error es i = Some (a, b) /\
    conn (pre ++ edgesOf es C) a u /\ conn (pre ++ edgesOf es C) b v.
  (** owners are selected *)
  Hypothesis Town : forall i u v, In (i, u, v, C0) T -> (R1 v = Some i \/ R1 u = Some i) -> selected pre es i.
  Hypothesis Ttag : forall x, P1 x = None -> tag s1 x = None.

  Definition owns (i u v : nat) : Prop := R1 v = Some i \/ R1 u = Some i.
  Definition xlink (i u v : nat) : nat := if oeqb (R1 v) (Some i) then v else u.
  Definition ylink (i u v : nat) : nat := if oeqb (R1 v) (Some i) then u else v.

  Definition linked (l : clocal) : Prop :=
    match snd l with CS _ => True | CDone true => True | _ => False end.
  Definition past (l : clocal) : Prop :=
    match snd l with CL _ _ => True | CS _ => True | CDone true => True | _ => False end.
  Definition over (l : clocal) : Prop := snd l = CDone true.
  Definition xof (l : clocal) : nat := let '(i, u, v, _) := l in xlink i u v.

  Definition wasReset (i u v : nat) (R : nat -> option nat) : Prop := R1 v = Some i -> R1 u = Some i -> R u = None.

  Definition cinv (l : clocal) (R : nat -> option nat) : Prop :=
    let '(i, u, v, st) := l in
    match st with
    | C0 => In (i, u, v, C0) T
    | C1 => In (i, u, v, C0) T /\ R1 v = Some i
    | C2 => In (i, u, v, C0) T /\ R1 v = Some i /\ R1 u = Some i
    | C3 => In (i, u, v, C0) T /\ R1 v <> Some i
    | CL x y => In (i, u, v, C0) T /\ owns i u v /\ x = xlink i u v /\ y = ylink i u v /\ wasReset i u v R
    | CS x => In (i, u, v, C0) T /\ owns i u v /\ x = xlink i u v /\ wasReset i u v R
    | CDone true => In (i, u, v, C0) T /\ owns i u v /\ wasReset i u v R
    | CDone false => In (i, u, v, C0) T /\ ~ owns i u v
    | CSkip => In (i, u, v, CSkip) T
    end.

  Definition cI (ls : list clocal) (s : ush) : Prop :=
    map fst ls = map fst T /\
    (forall l, In l ls -> cinv l (rsv s)) /\
    (forall x, rsv s x = R1 x \/ (rsv s x = None /\
       exists l, In l ls /\ (past l /\ let '(i, u, v, _) := l in R1 x = Some i /\ u = x /\ R1 v = Some i))) /\
    (exists D, (forall i, In i D <-> exists l, In l ls /\ (cid l = i /\ linked l)) /\ forest n (par s) /\
       forall a b, a < n -> b < n -> (samerep (par s) a b <-> conn (pre ++ edgesOf es (D ++ C)) a b)) /\
    (forall x, par s x = None <-> P1 x = None /\ ~ exists l, In l ls /\ (linked l /\ xof l = x)) /\
    (forall i, inST s i = true <-> inST s1 i = true \/ exists l, In l ls /\ (cid l = i /\ over l)) /\
    (forall x i, tag s x = Some i <-> tag s1 x = Some i \/ exists l, In l ls /\ (cid l = i /\ over l /\ xof l = x)).

  Lemma cid_fst (ls ls' : list clocal) : map fst ls = map fst ls' -> map cid ls = map cid ls'.
  Proof.
    intros H. assert (G : forall l : list clocal, map cid l = map (fun x => fst (fst x)) (map fst l))
      by (intros l; rewrite map_map; reflexivity).
    rewrite !G, H. reflexivity.
  Qed.

  Lemma same_id ls l l' : map fst ls = map fst T -> In l ls -> In l' ls -> cid l = cid l' -> l = l'.
  Proof.
    intros HT Hl Hl' E. pose proof Tid as ND. rewrite <- (cid_fst _ _ HT) in ND. clear HT.
    induction ls as [|a ls IH]; [destruct Hl|]. simpl in ND. inversion ND as [|? ? N1 N2]; subst.
    destruct Hl as [->|Hl], Hl' as [->|Hl']; auto.
    - exfalso. apply N1. rewrite E. apply in_map; auto.
    - exfalso. apply N1. rewrite <- E. apply in_map; auto.
  Qed.

  Lemma xlink_owner i u v : owns i u v -> R1 (xlink i u v) = Some i.
  Proof.
    unfold owns, xlink. destruct (oeqb (R1 v) (Some i)) eqn:Q.
    - intros _. apply oeqb_eq in Q; auto.
    - intros [H|H]; auto. assert (oeqb (R1 v) (Some i) = true) by (apply oeqb_eq; auto). congruence.
  Qed.

  (** Resets only clear more cells. *)
  Lemma cinv_reset l R x : cinv l R -> cinv l (fupd R x None).
  Proof.
    destruct l as [[[i u] v] st]. simpl.
    assert (W : wasReset i u v R -> wasReset i u v (fupd R x None)).
    { intros H A B. destruct (Nat.eq_dec u x) as [->|D]; [apply fupd_eq|]. rewrite fupd_neq; auto. }
    destruct st as [| | | |? ?|?|[|]|]; intuition auto.
  Qed.

  Lemma c_step ls s k l : cI ls s -> nth_error ls k = Some l -> cdone l = false ->
    exists l' s', cstep n l s = Ok (l', s') /\ cI (upd k l' ls) s'.
  Proof.
    intros (HT & Hinv & HR & (D & HD & HF & HC) & HP & HS & HG) Hk Hd.
    assert (Hl : In l ls) by (eapply nth_error_In; eauto).
    pose proof (Hinv l Hl) as Hl0. destruct l as [[[i u] v] st].
    assert (InT : In (i, u, v, C0) T) by (destruct st as [| | | |? ?|?|[|]|]; simpl in Hl0, Hd; try discriminate; tauto).
    destruct (Troot _ _ _ InT) as (Duv & Hun & Hvn & Ru & Rv).
    (* reading the reservations gives the values of the end of the reserve phase *)
    assert (RVr : R1 v = Some i -> rsv s v = Some i).
    { intros H. destruct (HR v) as [->|(E & [[[i' u'] v'] st'] & Hl' & Hp & H1 & H2 & H3)]; auto.
      exfalso. assert (i' = i) by congruence. subst i'.
      pose proof (@same_id ls _ _ HT Hl Hl' eq_refl) as Q. inversion Q; subst. congruence. }
    assert (RVn : R1 v <> Some i -> rsv s v <> Some i).
    { intros H. destruct (HR v) as [->|(-> & _)]; auto. discriminate. }
    (* a thread that keeps its standing, with the shared state unchanged but for resets *)
    assert (Local : forall st', map fst (upd k (i, u, v, st') ls) = map fst T).
    { intros st'. rewrite (map_upd fst k _ _ Hk); auto. }
    assert (Keep : forall st' s', cinv (i, u, v, st') (rsv s') -> par s' = par s -> inST s' = inST s -> tag s' = tag s ->
      (forall m R, cinv m R -> R = rsv s -> cinv m (rsv s')) ->
      (forall x, rsv s' x = R1 x \/ (rsv s' x = None /\
        exists m, In m (upd k (i, u, v, st') ls) /\ (past m /\ let '(i0, u0, v0, _) := m in R1 x = Some i0 /\ u0 = x /\ R1 v0 = Some i0))) ->
      ~ linked (i, u, v, st) -> ~ linked (i, u, v, st') -> cI (upd k (i, u, v, st') ls) s').
    { intros st' s' Hc' E1 E2 E3 Hst HRn NL NL'. split; [apply Local|]. split.
      { intros m Hm. destruct (@in_upd _ ls k _ _ m Hk Hm) as [->|Hm']; auto. eapply Hst; eauto. }
      split; [exact HRn|].
      assert (NO : ~ over (i, u, v, st)) by (intros Q; apply NL; unfold over, linked in *; simpl in *; subst; exact I).
      assert (NO' : ~ over (i, u, v, st')) by (intros Q; apply NL'; unfold over, linked in *; simpl in *; subst; exact I).
      split; [|split; [|split]].
      - exists D. rewrite E1. split; [|auto]. intros j.
        rewrite (@ex_upd _ (fun x => cid x = j /\ linked x) ls k _ (i, u, v, st') Hk) by tauto. rewrite HD. tauto.
      - intros x. rewrite E1, HP. rewrite (@ex_upd _ (fun m => linked m /\ xof m = x) ls k _ (i, u, v, st') Hk) by tauto. tauto.
      - intros j. rewrite E2, HS. rewrite (@ex_upd _ (fun x => cid x = j /\ over x) ls k _ (i, u, v, st') Hk) by tauto. tauto.
      - intros x j. rewrite E3, HG. rewrite (@ex_upd _ (fun m => cid m = j /\ over m /\ xof m = x) ls k _ (i, u, v, st') Hk) by tauto. tauto. }
    assert (RStay : forall st', (past (i, u, v, st) -> past (i, u, v, st')) -> forall x, rsv s x = R1 x \/ (rsv s x = None /\
        exists m, In m (upd k (i, u, v, st') ls) /\ (past m /\ let '(i0, u0, v0, _) := m in R1 x = Some i0 /\ u0 = x /\ R1 v0 = Some i0))).
    { intros st' Hp x. destruct (HR x) as [H|(E & H)]; auto. right. split; auto.
      apply (@ex_upd _ (fun m : clocal => past m /\ let '(i0, u0, v0, _) := m in R1 x = Some i0 /\ u0 = x /\ R1 v0 = Some i0) ls k _ (i, u, v, st') Hk); auto.
      intros [A B]. split; auto. }
    destruct st as [| | | |x y|x|b|]; simpl in Hl0; try (destruct b; discriminate); try discriminate.
    - (* C0 *)
      simpl. rewrite (load_in (rsv s) Hvn). simpl. do 2 eexists. split; [reflexivity|].
      destruct (oeqb (rsv s v) (Some i)) eqn:Q.
      + apply oeqb_eq in Q. apply Keep; auto; [|intros; subst; auto].
        split; auto. destruct (HR v) as [E|(E & _)]; congruence.
      + apply Keep; auto; [|intros; subst; auto].
        split; auto. intros Q'. apply RVr in Q'. apply (proj2 (oeqb_eq _ _)) in Q'. congruence.
    - (* C1 *)
      destruct Hl0 as [_ Ov]. simpl. rewrite (load_in (rsv s) Hun). simpl. do 2 eexists. split; [reflexivity|].
      assert (Ru1 : R1 u = Some i -> rsv s u = Some i).
      { intros H. destruct (HR u) as [->|(E & [[[i' u'] v'] st'] & Hl' & Hp & H1 & H2 & H3)]; auto.
        exfalso. assert (i' = i) by congruence. subst i'.
        pose proof (@same_id ls _ _ HT Hl Hl' eq_refl) as Q. inversion Q; subst. exact Hp. }
      destruct (oeqb (rsv s u) (Some i)) eqn:Q.
      + apply oeqb_eq in Q. apply Keep; auto; [|intros; subst; auto].
        repeat split; auto. destruct (HR u) as [E|(E & _)]; congruence.
      + apply Keep; auto; [|intros; subst; auto|apply RStay; intros []].
        assert (Xv : oeqb (R1 v) (Some i) = true) by (apply oeqb_eq; auto).
        repeat split; auto; [left; auto|unfold xlink; rewrite Xv; auto|unfold ylink; rewrite Xv; auto|].
        intros _ Q'. apply Ru1 in Q'. apply (proj2 (oeqb_eq _ _)) in Q'. congruence.
    - (* C2 *)
      destruct Hl0 as (_ & Ov & Ou). simpl. rewrite (load_in (rsv s) Hun). simpl. do 2 eexists. split; [reflexivity|].
      assert (Xv : oeqb (R1 v) (Some i) = true) by (apply oeqb_eq; auto).
      apply Keep; auto.
      + repeat split; auto; [left; auto|unfold xlink; rewrite Xv; auto|unfold ylink; rewrite Xv; auto|].
        intros _ _. simpl. apply fupd_eq.
      + intros m R Hm ->. simpl. apply cinv_reset; auto.
      + intros x. simpl. destruct (Nat.eq_dec x u) as [->|Dx].
        * right. split; [apply fupd_eq|]. exists (i, u, v, CL v u). split.
          -- apply nth_error_In with k. apply nth_error_upd_eq. apply (proj1 (nth_error_Some ls k)). rewrite Hk. discriminate.
          -- split; [exact I|auto].
        * rewrite fupd_neq by auto. apply RStay. intros [].
    - (* C3 *)
      destruct Hl0 as [_ Nv]. simpl. rewrite (load_in (rsv s) Hun). simpl. do 2 eexists. split; [reflexivity|].
      assert (Ru1 : R1 u = Some i -> rsv s u = Some i).
      { intros H. destruct (HR u) as [->|(E & [[[i' u'] v'] st'] & Hl' & Hp & H1 & H2 & H3)]; auto.
        exfalso. assert (i' = i) by congruence. subst i'.
        pose proof (@same_id ls _ _ HT Hl Hl' eq_refl) as Q. inversion Q; subst. exact Hp. }
      assert (Xv : oeqb (R1 v) (Some i) = false).
      { destruct (oeqb (R1 v) (Some i)) eqn:Q; auto. apply oeqb_eq in Q. congruence. }
      destruct (oeqb (rsv s u) (Some i)) eqn:Q.
      + apply oeqb_eq in Q. apply Keep; auto; [|intros; subst; auto|apply RStay; intros []].
        assert (Ou : R1 u = Some i) by (destruct (HR u) as [E|(E & _)]; congruence).
        repeat split; auto; [right; auto|unfold xlink; rewrite Xv; auto|unfold ylink; rewrite Xv; auto|].
        intros Q' _. congruence.
      + apply Keep; auto; [|intros; subst; auto].
        split; auto. intros [Q'|Q']; auto. apply Ru1 in Q'. apply (proj2 (oeqb_eq _ _)) in Q'. congruence.
    - (* CL *)
      destruct Hl0 as (_ & Ow & -> & -> & Wr).
      assert (Hx : xlink i u v < n) by (unfold xlink; destruct (oeqb _ _); auto).
      assert (Hy : ylink i u v < n) by (unfold ylink; destruct (oeqb _ _); auto).
      simpl. unfold link. rewrite (load_in (par s) Hx). simpl. do 2 eexists. split; [reflexivity|].
      destruct (Tedge _ _ _ InT) as (NiC & a & b & Eab & Ca & Cb).
      assert (Si : selected pre es i) by (exact (@Town i u v InT Ow)).
      assert (NiD : ~ In i (D ++ C)).
      { rewrite in_app_iff. intros [Q|Q]; auto. apply HD in Q. destruct Q as (l' & Hl' & E & L).
        pose proof (@same_id ls _ _ HT Hl Hl' (eq_sym E)) as Q. subst l'. exact L. }
      assert (SD : forall j, In j (D ++ C) -> selected pre es j).
      { intros j Hj. apply in_app_iff in Hj. destruct Hj as [Hj|Hj]; auto. apply HD in Hj.
        destruct Hj as ([[[i' u'] v'] st'] & Hl' & E & L). simpl in E. unfold cid in E. simpl in E. subst i'.
        pose proof (Hinv _ Hl') as H'. unfold linked in L. simpl in L, H'.
        destruct st' as [| | | | |?|[|]|]; try contradiction; apply (@Town j u' v'); tauto. }
      pose proof (@sel_acyclic pre es (D ++ C) i a b SD Si NiD Eab) as NC.
      assert (Up : forall p q, conn (pre ++ edgesOf es C) p q -> conn (pre ++ edgesOf es (D ++ C)) p q).
      { intros p q. apply conn_mono. apply incl_app; [apply incl_appl, incl_refl|apply incl_appr].
        unfold edgesOf. rewrite map_app. apply incl_appr, incl_refl. }
      apply Up in Ca. apply Up in Cb.
      set (X := pre ++ edgesOf es (D ++ C)) in *.
      (* x and y are the two roots, in some order *)
      assert (Nxy : ~ samerep (par s) (ylink i u v) (xlink i u v)).
      { intros Q. apply HC in Q; auto. apply NC.
        unfold xlink, ylink in Q. destruct (oeqb (R1 v) (Some i)); eauto using conn. }
      assert (Rx : par s (xlink i u v) = None).
      { apply HP. split.
        - unfold xlink. destruct (oeqb _ _); auto.
        - intros ([[[i' u'] v'] st'] & Hl' & L & Ex). simpl in Ex.
          pose proof (Hinv _ Hl') as H'. simpl in H'.
          assert (Ow' : owns i' u' v') by (unfold linked in L; simpl in L; destruct st' as [| | | | |?|[|]|]; try contradiction; tauto).
          pose proof (xlink_owner Ow') as O1. rewrite Ex in O1. rewrite (xlink_owner Ow) in O1. inversion O1; subst i'.
          pose proof (@same_id ls _ _ HT Hl Hl' eq_refl) as Q. inversion Q; subst. exact L. }
      assert (Ny : ~ rep (par s) (ylink i u v) (xlink i u v)).
      { intros Q. apply Nxy. exists (xlink i u v). split; auto. apply rep_root; auto. }
      destruct (fupd_rep HF Hx Hy Rx Ny) as [HF' HR'].
      split; [apply Local|]. split.
      { intros m Hm. destruct (@in_upd _ ls k _ _ m Hk Hm) as [->|Hm']; [|apply (Hinv m); auto]. simpl. auto. }
      split; [apply RStay; intros; exact I|].
      split; [|split; [|split]].
      + exists (i :: D). split; [|split; [exact HF'|]].
        * intros j. rewrite (@ex_upd _ (fun x => cid x = j /\ linked x) ls k _ (i, u, v, CS (xlink i u v)) Hk) by (intros [_ []]).
          rewrite <- HD. simpl. unfold cid, linked. simpl. tauto.
        * intros p q Hp Hq. simpl par.
          assert (Esame : conn (pre ++ edgesOf es ((i :: D) ++ C)) p q <-> conn ((a, b) :: X) p q).
          { assert (Ei : nth i es (0, 0) = (a, b)) by (apply nth_error_nth; auto).
            split; apply conn_mono; intros e He; simpl in *; rewrite ?Ei in *.
            - apply in_app_iff in He. destruct He as [He|[<-|He]]; [right; unfold X; apply in_app_iff; auto|left; auto|right; unfold X; apply in_app_iff; auto].
            - destruct He as [<-|He]; [apply in_app_iff; right; left; auto|].
              unfold X in He. apply in_app_iff in He. apply in_app_iff. destruct He; [left; auto|right; right; auto]. }
          rewrite Esame, conn_cons.
          destruct (proj2 (HF p Hp)) as (rp & Hrp). destruct (proj2 (HF q Hq)) as (rq & Hrq).
          destruct (proj2 (HF _ Hy)) as (ry & Hry).
          set (x := xlink i u v) in *. set (y := ylink i u v) in *.
          assert (Sx : forall z rz, z < n -> rep (par s) z rz -> (rz = x <-> conn X z x)).
          { intros z rz Hz Hrz. rewrite <- HC by auto. split.
            - intros ->. exists x. split; auto. apply rep_root; auto.
            - intros (r & A & B). assert (r = x) by (apply (rep_det B); apply rep_root; auto).
              subst. apply (rep_det Hrz A). }
          assert (Sy : forall z rz, z < n -> rep (par s) z rz -> (rz = ry <-> conn X z y)).
          { intros z rz Hz Hrz. rewrite <- HC by auto. split.
            - intros ->. exists ry. auto.
            - intros (r & A & B). rewrite (rep_det Hrz A). apply (rep_det B Hry). }
          (* the union of the classes of x and y *)
          assert (M : samerep (fupd (par s) x (Some y)) p q <-> conn X p q \/ (conn X p x /\ conn X y q) \/ (conn X p y /\ conn X x q)).
          { assert (Nxr : ry <> x) by (intros Q; apply Ny; rewrite <- Q; auto).
            assert (RR : forall z rz, z < n -> rep (par s) z rz -> rep (fupd (par s) x (Some y)) z (if rz =? x then ry else rz)).
            { intros z rz Hz Hrz. apply HR'; auto. destruct (rz =? x) eqn:Q.
              - apply Nat.eqb_eq in Q. subst. right. auto.
              - apply Nat.eqb_neq in Q. left. auto. }
            pose proof (RR p rp Hp Hrp) as Rp. pose proof (RR q rq Hq Hrq) as Rq.
            assert (S1 : samerep (fupd (par s) x (Some y)) p q <-> (if rp =? x then ry else rp) = (if rq =? x then ry else rq)).
            { split.
              - intros (r & A & B). rewrite (rep_det Rp A). apply (rep_det B Rq).
              - intros Q. rewrite Q in Rp. exists (if rq =? x then ry else rq). auto. }
            rewrite S1.
            assert (S2 : conn X p q <-> rp = rq).
            { rewrite <- HC by auto. split.
              - intros (r & A & B). rewrite (rep_det Hrp A). apply (rep_det B Hrq).
              - intros <-. exists rp. auto. }
            assert (CS1 : conn X y q <-> conn X q y) by (split; apply conn_sym).
            assert (CS2 : conn X x q <-> conn X q x) by (split; apply conn_sym).
            rewrite S2, CS1, CS2, <- (Sx p rp), <- (Sx q rq), <- (Sy p rp), <- (Sy q rq) by auto.
            destruct (rp =? x) eqn:Q1, (rq =? x) eqn:Q2;
              rewrite ?Nat.eqb_eq, ?Nat.eqb_neq in *; intuition congruence. }
          rewrite M.
          unfold x, y, xlink, ylink. destruct (oeqb (R1 v) (Some i)).
          -- split; (intros [H|[[H1 H2]|[H1 H2]]]; [left; auto|right; right|right; left]; split; eauto using conn).
          -- split; (intros [H|[[H1 H2]|[H1 H2]]]; [left; auto|right; left|right; right]; split; eauto using conn).
      + intros z. simpl.
        rewrite (@ex_upd _ (fun m => linked m /\ xof m = z) ls k _ (i, u, v, CS (xlink i u v)) Hk) by (intros [[] _]).
        destruct (Nat.eq_dec z (xlink i u v)) as [->|Dz].
        * rewrite fupd_eq. split; [discriminate|]. intros [_ Q]. exfalso. apply Q. left. split; [exact I|reflexivity].
        * rewrite fupd_neq by auto. rewrite HP. unfold linked at 2. simpl.
          split; intros [A B]; (split; [auto|]); intros Q; apply B; [|tauto].
          destruct Q as [[_ Q]|Q]; [congruence|auto].
      + intros j. simpl. rewrite HS.
        rewrite (@ex_upd _ (fun m => cid m = j /\ over m) ls k _ (i, u, v, CS (xlink i u v)) Hk) by (intros [_ Q]; discriminate Q).
        assert (~ over (i, u, v, CS (xlink i u v))) by discriminate. tauto.
      + intros z j. simpl. rewrite HG.
        rewrite (@ex_upd _ (fun m => cid m = j /\ over m /\ xof m = z) ls k _ (i, u, v, CS (xlink i u v)) Hk) by (intros (_ & Q & _); discriminate Q).
        assert (~ over (i, u, v, CS (xlink i u v))) by discriminate. tauto.
    - (* CS *)
      destruct Hl0 as (_ & Ow & -> & Wr). simpl. do 2 eexists. split; [reflexivity|].
      split; [apply Local|]. split.
      { intros m Hm. destruct (@in_upd _ ls k _ _ m Hk Hm) as [->|Hm']; [|apply (Hinv m); auto]. simpl. auto. }
      split; [apply RStay; intros; exact I|].
      split; [|split; [|split]].
      + exists D. split; [|auto]. intros j.
        rewrite (@ex_upd _ (fun x => cid x = j /\ linked x) ls k _ (i, u, v, CDone true) Hk) by (intros [A _]; split; [exact A|exact I]).
        rewrite HD. split; [tauto|]. intros [[<- _]|Q]; auto. exists (i, u, v, CS (xlink i u v)). split; auto. split; [reflexivity|exact I].
      + intros z. simpl. rewrite HP.
        rewrite (@ex_upd _ (fun m => linked m /\ xof m = z) ls k _ (i, u, v, CDone true) Hk) by (intros [_ A]; split; [exact I|exact A]).
        split; intros [A B]; (split; [auto|]); intros Q; apply B; [|tauto].
        destruct Q as [[_ <-]|Q]; auto. exists (i, u, v, CS (xlink i u v)). split; auto. split; [exact I|reflexivity].
      + intros j. simpl.
        rewrite (@ex_upd _ (fun m => cid m = j /\ over m) ls k _ (i, u, v, CDone true) Hk) by (intros [_ Q]; discriminate Q).
        destruct (Nat.eq_dec j i) as [->|Dj].
        * rewrite fupd_eq. split; auto. intros _. right. left. split; reflexivity.
        * rewrite fupd_neq by auto. rewrite HS. unfold cid at 2. simpl. split; [tauto|]. intros [Q|[[Q _]|Q]]; auto; congruence.
      + intros z j. simpl.
        rewrite (@ex_upd _ (fun m => cid m = j /\ over m /\ xof m = z) ls k _ (i, u, v, CDone true) Hk) by (intros (_ & Q & _); discriminate Q).
        assert (Hroot : P1 (xlink i u v) = None) by (unfold xlink; destruct (oeqb _ _); auto).
        destruct (Nat.eq_dec z (xlink i u v)) as [->|Dz].
        * rewrite fupd_eq. split.
          -- intros Q; inversion Q; subst. right. left. split; [reflexivity|]. split; reflexivity.
          -- rewrite (Ttag _ Hroot). intros [Q|[(Q & _)|Q]]; [discriminate|unfold cid in Q; simpl in Q; congruence|].
             exfalso. destruct Q as ([[[i' u'] v'] st'] & Hl' & E & Q & Ex). unfold over in Q. simpl in Q. subst st'.
             pose proof (Hinv _ Hl') as H'. simpl in H'. simpl in Ex.
             destruct H' as (_ & Ow' & _). pose proof (xlink_owner Ow') as O1. rewrite Ex, (xlink_owner Ow) in O1. inversion O1; subst i'.
             pose proof (@same_id ls _ _ HT Hl Hl' eq_refl) as Q. discriminate Q.
        * rewrite fupd_neq by auto. rewrite HG. simpl. split; [tauto|]. intros [Q|[(_ & _ & Q)|Q]]; auto. congruence.
  Qed.

  Lemma cI_start : cI T s1.
  Proof.
    assert (NS : forall l, In l T -> ~ past l /\ ~ linked l /\ ~ over l).
    { intros [[[i u] v] st] Hl. unfold past, linked, over. simpl. destruct (Tstart _ _ _ _ Hl) as [->| ->]; intuition discriminate. }
    split; auto. split; [|split; [auto|split; [|split; [|split]]]].
    - intros [[[i u] v] st] Hl. simpl. destruct (Tstart _ _ _ _ Hl) as [->| ->]; auto.
    - exists []. split; [|split; auto]. intros i. split; [intros []|]. intros (l & Hl & _ & L). destruct (NS l Hl) as (_ & NL & _). contradiction.
    - intros x. split; [|tauto]. intros Hx. split; auto. intros (l & Hl & L & _). destruct (NS l Hl) as (_ & NL & _). contradiction.
    - intros i. split; [auto|]. intros [H|(l & Hl & _ & L)]; auto. destruct (NS l Hl) as (_ & _ & NL). contradiction.
    - intros x i. split; [auto|]. intros [H|(l & Hl & _ & L & _)]; auto. destruct (NS l Hl) as (_ & _ & NL). contradiction.
  Qed.

  (** Termination: at most five actions per thread. *)
  Definition cleft (l : clocal) : nat :=
    match snd l with C0 => 5 | C1 => 4 | C2 => 3 | C3 => 4 | CL _ _ => 2 | CS _ => 1 | _ => 0 end.
  Lemma c_measure ls s k l l' s' m : cI ls s -> nth_error ls k = Some l -> cdone l = false ->
    cstep n l s = Ok (l', s') -> m = list_sum (map cleft ls) -> exists m', m' = list_sum (map cleft (upd k l' ls)) /\ m' < m.
  Proof.
    intros _ Hk Hd E ->. eexists. split; [reflexivity|].
    assert (Hlt : cleft l' < cleft l).
    { destruct l as [[[i u] v] st]. unfold cleft.
      destruct st as [| | | |x y|x|b|]; simpl in E, Hd; try discriminate;
        repeat (match type of E with bind ?e _ = _ => destruct e; simpl in E; try discriminate end);
        inversion E; subst; simpl; try lia; destruct (oeqb _ _); lia. }
    clear E Hd. revert k Hk. induction ls as [|x ls IH]; intros [|k] Hk; simpl in *; try discriminate.
    - inversion Hk; subst. lia.
    - specialize (IH k Hk). lia.
  Qed.

  Lemma commit_live sched : exists sched' r, runT (cstep n) cdone (sched ++ sched') T s1 = Ok r.
  Proof.
    apply (runT_extend (cstep n) cdone cI c_step (fun ls _ m => m = list_sum (map cleft ls))); [eauto| |apply cI_start].
    intros; eapply c_measure; eauto.
  Qed.

  (** Result of the phase. *)
  Lemma commit_phase sched :
    match runT (cstep n) cdone sched T s1 with
    | Ok (ls, s) => cI ls s /\ (forall l, In l ls -> cdone l = true)
    | Fuel => True
    | _ => False
    end.
  Proof.
    pose proof (runT_inv (cstep n) cdone cI c_step sched _ _ cI_start) as H.
    destruct (runT (cstep n) cdone sched T s1) as [[ls s]| | |]; auto.
    destruct H as (H & Hf & _). split; auto. apply forallb_forall. auto.
  Qed.
End Commit.
