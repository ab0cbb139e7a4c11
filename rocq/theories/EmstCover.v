(** One iteration of the EMST loop: the edges collected below rho connect all
    pairs of points closer than rho. *)
From Coq Require Import Reals Lra Sorted Permutation.
From Verif Require Import Base Num KdModel KdSpec KdBuild KdConstruct RGeom RangeModel RangeProofs KdExtra DistLaws
  BccpModel BccpProofs BccpFinal WspdModel WspdProofs WspdFinal UfModel UfProofs KruskalSpec SpecCommit Msf KruskalModel KruskalFinal EmstModel.
Set Implicit Arguments.

Notation IT := (itree RNum).

Section Geo.
  Local Open Scope R_scope.
  Variable dim : nat.
  Variable pt : nat -> list R.
  Notation D p q := (edist dim (pt p) (pt q)).
  Notation inode := (@inode RNum dim).
  Notation ifar := (@ifar RNum dim).
  Notation iws := (@iws RNum dim).
  Notation tight := (@tight RNum nat dim pt).

  (** What the built tree satisfies: exact boxes, one item per leaf. *)
  Fixpoint niceT (t : tree RNum nat) : Prop :=
    match t with
    | Leaf its b => tight b its /\ length its = 1%nat
    | Node b l r => tight b (items l ++ items r) /\ niceT l /\ niceT r
    end.
  Definition nice (t : IT) : Prop := niceT (strip t).

  Lemma niceT_tight t : niceT t -> tight (tbox t) (items t).
  Proof. destruct t; simpl; tauto. Qed.
  Arguments niceT_tight t _ d _ : clear implicits.
  Lemma niceT_ne t : niceT t -> exists x, In x (items t).
  Proof.
    induction t as [its b|b l IHl r IHr]; simpl.
    - intros [_ H]. destruct its as [|x [|]]; try discriminate. exists x; simpl; auto.
    - intros (_ & Hl & _). destruct (IHl Hl) as (x & Hx). exists x. apply in_app_iff; auto.
  Qed.
  Lemma niceT_good t : niceT t -> @goodTree RNum (fun _ => True) dim nat pt t.
  Proof.
    intros H. split; [|split].
    - revert H. induction t as [its b|b l IHl r IHr]; intros H s Hs d Hd x Hx; cbn [subtrees] in Hs.
      + destruct Hs as [<-|[]]. apply (niceT_tight _ H d Hd); auto.
      + destruct Hs as [<-|Hs]; [apply (niceT_tight _ H d Hd); auto|]. cbn [niceT] in H. destruct H as (_ & Hl & Hr).
        apply in_app_iff in Hs. destruct Hs as [Hs|Hs]; [apply (IHl Hl s Hs d Hd x Hx)|apply (IHr Hr s Hs d Hd x Hx)].
    - intros s Hs d Hd. auto.
    - intros x Hx d Hd. exact I.
  Qed.
  Lemma tight_in b its x : tight b its -> In x its -> inBox dim b (pt x).
  Proof. intros H Hx d Hd. apply (H d Hd); auto. Qed.
  Lemma nice_in t x : nice t -> In x (iitems t) -> inBox dim (ibox t) (pt x).
  Proof. intros H Hx. eapply tight_in; [apply niceT_tight, H|auto]. Qed.
  Arguments nice_in {t x} _ _ d _.

  Lemma D_sym p q : D p q = D q p.
  Proof. rewrite <- !dist_edist. apply dist_sym. Qed.
  Lemma inode_le u v p q : nice u -> nice v -> In p (iitems u) -> In q (iitems v) -> inode u v <= D p q.
  Proof. intros. apply nodeDistance_bounds; apply nice_in; auto. Qed.
  Lemma ifar_ge u v p q : nice u -> nice v -> In p (iitems u) -> In q (iitems v) -> D p q <= ifar u v.
  Proof. intros. apply nodeDistance_bounds; apply nice_in; auto. Qed.
  Lemma inode_pos u v : 0 <= inode u v.
  Proof.
    unfold inode, nodeDistance. destruct (find _ _); [apply sqrt_pos|apply Rle_refl].
  Qed.

  Lemma tight_box b its : tight b its -> nonemptyBox dim b.
  Proof.
    intros H d Hd. destruct (H d Hd) as (H1 & (x & Hx & Ex) & _). destruct (H1 x Hx) as [_ A].
    cbn [nle RNum] in A. rewrite Rleb_true in A. rewrite Ex in A. exact A.
  Qed.
  Lemma tight_nested b its b' its' y : tight b its -> tight b' its' -> incl its' its -> inBox dim b' y -> inBox dim b y.
  Proof.
    intros H H' HI Hy d Hd. destruct (H d Hd) as (H1 & _). destruct (H' d Hd) as (_ & (x & Hx & Ex) & (z & Hz & Ez)).
    destruct (Hy d Hd) as [A B]. destruct (H1 x (HI x Hx)) as [C _]. destruct (H1 z (HI z Hz)) as [_ E].
    cbn [nle RNum] in *. apply Rleb_true in A. apply Rleb_true in B. apply Rleb_true in C. apply Rleb_true in E.
    rewrite Ex in C. rewrite Ez in E. split; apply Rleb_true; cbn [nT RNum] in *; lra.
  Qed.
  Lemma inode_mono u v u' v' : nice u -> nice v -> nice u' -> nice v' -> incl (iitems u') (iitems u) -> incl (iitems v') (iitems v) ->
    inode u v <= inode u' v'.
  Proof.
    intros Hu Hv Hu' Hv' Iu Iv.
    destruct (@nodeDistance_attained dim (ibox u') (ibox v')) as (x & y & Hx & Hy & E);
      [apply tight_box with (iitems u'), niceT_tight, Hu'|apply tight_box with (iitems v'), niceT_tight, Hv'|].
    unfold EmstModel.inode. rewrite <- E. apply nodeDistance_bounds.
    - apply tight_nested with (2 := niceT_tight _ Hu') (its := iitems u); auto. apply niceT_tight, Hu.
    - apply tight_nested with (2 := niceT_tight _ Hv') (its := iitems v); auto. apply niceT_tight, Hv.
  Qed.
  Lemma inode_sym_items (u v : IT) : iitems u = items (strip u). Proof. reflexivity. Qed.

  (** the closest pair of two nodes *)
  Variable srt : list (R * nat) -> list (R * nat).
  Hypothesis Hsrt : @sort4_ok RNum (fun _ => True) srt.
  Lemma bccp_nice u v p q : nice u -> nice v -> In p (iitems u) -> In q (iitems v) -> D p q < Rfmax ->
    exists a b, bichromaticClosestPair RNum dim nat pt srt (strip u) (strip v) = (Some (a, b), D a b) /\
      In a (iitems u) /\ In b (iitems v) /\ forall x y, In x (iitems u) -> In y (iitems v) -> D a b <= D x y.
  Proof.
    intros Hu Hv Hp Hq HD.
    pose proof (@bccp_correct RNum _ _ _ R_distlaws dim nat pt srt Hsrt (strip u) (strip v) (niceT_good _ Hu) (niceT_good _ Hv)) as C.
    destruct (bichromaticClosestPair RNum dim nat pt srt (strip u) (strip v)) as [[[a b]|] d].
    - destruct C as (Ha & Hb & -> & Hm). exists a, b. rewrite <- dist_edist. split; auto. split; auto. split; auto.
      intros x y Hx Hy. specialize (Hm x y Hx Hy). cbn [nle RNum] in Hm. rewrite Rleb_true in Hm. rewrite <- (dist_edist dim (pt x)). exact Hm.
    - exfalso. destruct C as (_ & C). specialize (C p q Hp Hq). cbn [nle RNum nmax] in C. rewrite Rleb_true in C.
      rewrite dist_edist in C. lra.
  Qed.
  (** what the search returns is always a pair with its distance *)
  Lemma bccp_any u v a b d : nice u -> nice v ->
    bichromaticClosestPair RNum dim nat pt srt (strip u) (strip v) = (Some (a, b), d) ->
    In a (iitems u) /\ In b (iitems v) /\ d = D a b.
  Proof.
    intros Hu Hv E.
    pose proof (@bccp_correct RNum _ _ _ R_distlaws dim nat pt srt Hsrt (strip u) (strip v) (niceT_good _ Hu) (niceT_good _ Hv)) as C.
    rewrite E in C. destruct C as (Ha & Hb & -> & _). rewrite dist_edist. auto.
  Qed.

  Lemma iws_spread u v p p' q : nice u -> nice v -> iws u v = true -> In p (iitems u) -> In p' (iitems u) -> In q (iitems v) ->
    D p p' <= D p q.
  Proof.
    intros Hu Hv W H1 H2 H3. unfold EmstModel.iws in W.
    pose proof (@ws_spread dim 2 (ibox u) (ibox v) (pt p) (pt p') (pt q) ltac:(lra) W (nice_in Hu H1) (nice_in Hu H2) (nice_in Hv H3)). lra.
  Qed.
  Lemma iws_spread' u v p q q' : nice u -> nice v -> iws u v = true -> In p (iitems u) -> In q (iitems v) -> In q' (iitems v) ->
    D q q' <= D p q.
  Proof.
    intros Hu Hv W H1 H2 H3. unfold EmstModel.iws in W.
    pose proof (@ws_spread' dim 2 (ibox u) (ibox v) (pt p) (pt q) (pt q') ltac:(lra) W (nice_in Hu H1) (nice_in Hv H2) (nice_in Hv H3)). lra.
  Qed.

  Lemma leaves_ws u v : nice u -> nice v -> ichildren dim u v = None -> iws u v = true.
  Proof.
    intros Hu Hv H.
    assert (Z : forall i its b, nice (ILeaf i its b) -> forall d, (d < dim)%nat -> @coord RNum (bmin b) d = @coord RNum (bmax b) d).
    { intros i its b [Ht Hl] d Hd. destruct its as [|z [|]]; try discriminate.
      destruct (Ht d Hd) as (_ & (x1 & [<-|[]] & E1) & (x2 & [<-|[]] & E2)). rewrite <- E1, <- E2. auto. }
    unfold EmstModel.iws. destruct u as [i its b|i b l r], v as [j jts c|j c l' r']; cbn [ichildren] in H; try discriminate.
    - apply ws_points; [apply (Z _ _ _ Hu)|apply (Z _ _ _ Hv)].
    - destruct (nlt RNum _ _); discriminate.
  Qed.
End Geo.

(** The recursive calls split one of the two nodes. *)
Lemma ichildren_spec N dim (u v a b c d : itree N) : ichildren dim u v = Some ((a, b), (c, d)) ->
  (exists i bx, u = INode i bx a c /\ b = v /\ d = v) \/ (exists i bx, v = INode i bx a c /\ b = u /\ d = u).
Proof.
  destruct u as [i its bx|i bx l r], v as [j jts by'|j by' l' r']; cbn [ichildren]; intros H; try discriminate.
  - inversion H; subst. right; eauto.
  - inversion H; subst. left; eauto.
  - destruct (nlt N _ _); inversion H; subst; [left|right]; eauto.
Qed.

Lemma ichildren_height N dim (u v a b c d : itree N) : ichildren dim u v = Some ((a, b), (c, d)) ->
  iheight a + iheight b < iheight u + iheight v /\ iheight c + iheight d < iheight u + iheight v.
Proof.
  intros H. apply ichildren_spec in H. destruct H as [(i & bx & -> & -> & ->)|(i & bx & -> & -> & ->)]; cbn [iheight]; lia.
Qed.

Section Perm.
  Variable N : Num.
  Variables (dim : nat) (lo hi : nT N).
  Notation getFind := (getFind dim lo hi).
  Notation getCompute := (getCompute dim lo hi).

  Lemma getFind_mono f : forall f' u v l, f <= f' -> getFind f u v = Ok l -> getFind f' u v = Ok l.
  Proof.
    induction f as [|f IH]; intros f' u v l Hf; [discriminate|]. destruct f' as [|f']; [lia|]. cbn [EmstModel.getFind].
    destruct (negb (getMoveon dim lo hi u v)); auto. destruct (iws dim u v); auto.
    destruct (ichildren dim u v) as [[[a b] [c d]]|]; auto.
    destruct (getFind f a b) as [l1| | |] eqn:E1; cbn [bind]; try discriminate.
    destruct (getFind f c d) as [l2| | |] eqn:E2; cbn [bind]; try discriminate.
    rewrite (IH f' a b l1), (IH f' c d l2) by (auto; lia). cbn [bind]. auto.
  Qed.

  Lemma shuffle_perm' X (a b c : list X) : shuffle a b c -> Permutation c (a ++ b).
  Proof.
    induction 1; simpl; auto. rewrite IHshuffle. apply Permutation_middle.
  Qed.

  Variable cutoff : nat.
  Lemma gfind_perm u v l : GFind dim lo hi cutoff u v l ->
    exists l', getFind (S (iheight u + iheight v)) u v = Ok l' /\ Permutation l l'.
  Proof.
    induction 1 as [u v M|u v l M Sz E|u v M Sz W|u v a b c d l1 l2 l M Sz W K H1 IH1 H2 IH2 Sh].
    - exists []. cbn [EmstModel.getFind]. rewrite M. auto.
    - eauto.
    - exists [(u, v)]. cbn [EmstModel.getFind]. rewrite M, W. auto.
    - destruct IH1 as (k1 & E1 & P1). destruct IH2 as (k2 & E2 & P2). destruct (ichildren_height _ _ _ K) as [A B].
      exists (k1 ++ k2). cbn [EmstModel.getFind]. rewrite M, W, K. cbn [negb].
      rewrite (@getFind_mono (S (iheight a + iheight b)) (iheight u + iheight v) a b k1), (@getFind_mono (S (iheight c + iheight d)) (iheight u + iheight v) c d k2) by (auto; lia).
      cbn [bind]. split; auto. rewrite (shuffle_perm' Sh), P1, P2. auto.
  Qed.
  Lemma gcompute_perm t l : GCompute dim lo hi cutoff t l -> exists l', getCompute t = Ok l' /\ Permutation l l'.
  Proof.
    induction 1 as [t l S E|i its b S|i b l r S St|i b l r o1 o2 o12 o3 S St H1 IH1 H2 IH2 Sh H3].
    - eauto.
    - exists []. auto.
    - exists []. cbn [EmstModel.getCompute]. rewrite St. auto.
    - destruct IH1 as (k1 & E1 & P1). destruct IH2 as (k2 & E2 & P2). destruct (gfind_perm H3) as (k3 & E3 & P3).
      exists (k1 ++ k2 ++ k3). cbn [EmstModel.getCompute]. rewrite St, E1, E2. cbn [bind]. rewrite E3. cbn [bind].
      split; auto. rewrite (shuffle_perm' Sh), P1, P2, P3, app_assoc. auto.
  Qed.
End Perm.

Section Cover.
  Local Open Scope R_scope.
  Variable dim : nat.
  Variable pt : nat -> list R.
  Variable srt : list (R * nat) -> list (R * nat).
  Hypothesis Hsrt : @sort4_ok RNum (fun _ => True) srt.
  Notation D p q := (edist dim (pt p) (pt q)).
  Variable beta : nat.
  Variables lo hi : R.
  Hypothesis Hhi : hi <= Rfmax.

  (** a relation that holds of close pairs, of pairs of one component, of the
      collected edges, and is closed under composition of shorter steps *)
  Variable K : nat -> nat -> Prop.
  Hypothesis K_sym : forall p q, K p q -> K q p.
  Hypothesis K_lo : forall p q, D p q < lo -> K p q.
  Variable dom : nat -> Prop.
  Hypothesis K_comp : forall p a b q, dom a -> dom b -> D p a <= D p q -> D a b <= D p q -> D q b <= D p q -> K p a -> K a b -> K q b -> K p q.
  Variable same : nat -> nat -> Prop.
  Hypothesis K_same : forall p q, same p q -> K p q.

  (** equal ids mean one component *)
  Fixpoint idsOk (t : IT) : Prop :=
    (forall i, iid t = Some i -> forall p, In p (iitems t) -> same p i) /\
    match t with ILeaf _ _ _ => True | INode _ _ l r => idsOk l /\ idsOk r end.
  Hypothesis same_join : forall p q i, same p i -> same q i -> same p q.

  Variable E : list (wedge RNum).
  Hypothesis K_edge : forall a b d, In (a, b, d) E -> d = D a b -> K a b.

  Notation known u v := ((exists L, @RFind RNum dim beta hi u v L /\ forall p, In p L -> hi <= @inode RNum dim (fst p) (snd p)) \/
    (isize u + isize v <= beta)%nat \/ (forall p q, In p (iitems u) -> In q (iitems v) -> hi <= D p q)).

  Lemma sameId_K u v p q : idsOk u -> idsOk v -> sameId u v = true -> In p (iitems u) -> In q (iitems v) -> K p q.
  Proof.
    intros Hu Hv H Hp Hq. unfold sameId in H. destruct (iid u) as [i|] eqn:Eu; [|discriminate].
    destruct (iid v) as [j|] eqn:Ev; [|discriminate]. apply Nat.eqb_eq in H. subst j.
    apply K_same. apply same_join with i.
    - destruct u; apply Hu; auto.
    - destruct v; apply Hv; auto.
  Qed.

  Lemma size_items (u : IT) : isize u = length (iitems u). Proof. reflexivity. Qed.

  Lemma known_kids u v a b c d : nice dim pt u -> nice dim pt v -> idsOk u -> idsOk v ->
    ichildren dim u v = Some ((a, b), (c, d)) -> iws dim u v = false -> sameId u v = false -> known u v ->
    known a b /\ known c d.
  Proof.
    intros Nu Nv Iu Iv C W SI [(L & HR & HL)|[HB|HD]].
    - inversion HR as [? ? M|? ? rho M Hr Hf|? ? M W'|? ? a' b' c' d' l1 l2 M W' C' R1 R2]; subst.
      + unfold rhoMoveon in M. rewrite SI in M. cbn [negb andb] in M. apply negb_false_iff in M. apply Nat.leb_le in M.
        unfold isize, size in M. apply ichildren_spec in C.
        destruct C as [(i & bx & -> & -> & ->)|(i & bx & -> & -> & ->)]; cbn [strip items] in M; rewrite app_length in M; unfold isize, size;
          split; right; left; lia.
      + assert (HD : forall p q, In p (iitems u) -> In q (iitems v) -> hi <= D p q).
        { intros p q Hp Hq. pose proof (@inode_le dim pt u v p q Nu Nv Hp Hq) as A.
          cbn [nlt nle RNum] in Hr, Hf. rewrite Rltb_false in Hr. rewrite Rleb_true in Hf. lra. }
        apply ichildren_spec in C. destruct C as [(i & bx & -> & -> & ->)|(i & bx & -> & -> & ->)]; split; right; right; intros p q Hp Hq;
          first [apply HD; auto; cbn [iitems strip items]; apply in_app_iff; auto
                |rewrite D_sym; apply HD; auto; cbn [iitems strip items]; apply in_app_iff; auto].
      + congruence.
      + rewrite C in C'. inversion C'; subst. split; left; eexists; (split; [eassumption|]); intros p Hp; apply HL, in_app_iff; auto.
    - apply ichildren_spec in C. unfold isize, size in HB.
      destruct C as [(i & bx & -> & -> & ->)|(i & bx & -> & -> & ->)]; cbn [strip items] in HB; rewrite app_length in HB;
        unfold isize, size; split; right; left; lia.
    - apply ichildren_spec in C. destruct C as [(i & bx & -> & -> & ->)|(i & bx & -> & -> & ->)]; split; right; right; intros p q Hp Hq;
          first [apply HD; auto; cbn [iitems strip items]; apply in_app_iff; auto
                |rewrite D_sym; apply HD; auto; cbn [iitems strip items]; apply in_app_iff; auto].
  Qed.

  Lemma find_cover fuel : forall u v L S1 S2, @getFind RNum dim lo hi fuel u v = Ok L ->
    nice dim pt u -> nice dim pt v -> idsOk u -> idsOk v ->
    incl (iitems u) S1 -> incl (iitems v) S2 -> (forall p, In p S1 -> dom p) -> (forall p, In p S2 -> dom p) ->
    (forall p q, In p S1 -> In q S1 -> D p q < hi -> K p q) ->
    (forall p q, In p S2 -> In q S2 -> D p q < hi -> K p q) ->
    known u v -> (forall pr e, In pr L -> In e (@getRun RNum dim pt srt beta lo hi pr) -> In e E) ->
    forall p q, In p (iitems u) -> In q (iitems v) -> D p q < hi -> K p q.
  Proof.
    induction fuel as [|f IH]; intros u v L S1 S2 HG Nu Nv Iu Iv U V D1 D2 PK1 PK2 HK HE p q Hp Hq HD; [discriminate|].
    cbn [EmstModel.getFind] in HG. destruct (@getMoveon RNum dim lo hi u v) eqn:M; cbn [negb] in HG.
    2:{ unfold getMoveon in M. apply andb_false_iff in M. destruct M as [M|M].
        - apply andb_false_iff in M. destruct M as [M|M]; apply negb_false_iff in M.
          + apply (sameId_K u v p q); auto.
          + cbn [nle RNum] in M. rewrite Rleb_true in M. pose proof (@inode_le dim pt u v p q Nu Nv Hp Hq). lra.
        - apply negb_false_iff in M. cbn [nlt RNum] in M. rewrite Rltb_true in M.
          pose proof (@ifar_ge dim pt u v p q Nu Nv Hp Hq). apply K_lo. lra. }
    assert (SI : sameId u v = false).
    { unfold getMoveon in M. apply andb_true_iff in M. destruct M as [M _]. apply andb_true_iff in M. destruct M as [M _].
      apply negb_true_iff in M. auto. }
    destruct (iws dim u v) eqn:W.
    - inversion HG; subst L. clear HG.
      destruct (@bccp_nice dim pt srt Hsrt u v p q Nu Nv Hp Hq) as (a & b & Eb & Ha & Hb & Hm); [lra|].
      pose proof (Hm p q Hp Hq) as Dab.
      pose proof (@iws_spread dim pt u v p a q Nu Nv W Hp Ha Hq) as Dpa.
      pose proof (@iws_spread' dim pt u v p q b Nu Nv W Hp Hq Hb) as Dqb.
      apply K_comp with a b; auto; [apply PK1; auto; lra| |apply PK2; auto; lra].
      destruct (Rlt_dec (D a b) lo) as [Lab|Lab]; [apply K_lo; auto|].
      assert (SZ : (isize u + isize v <= beta)%nat).
      { destruct HK as [(L & HR & HL)|[HB|HB]]; auto; [|specialize (HB p q Hp Hq); lra].
        pose proof (@inode_le dim pt u v p q Nu Nv Hp Hq) as ND.
        inversion HR as [? ? M'|? ? rho M' Hr Hf|? ? M' W'|? ? a' b' c' d' l1 l2 M' W' C' R1 R2]; subst.
        - unfold rhoMoveon in M'. rewrite SI in M'. cbn [negb andb] in M'. apply negb_false_iff in M'. apply Nat.leb_le in M'. auto.
        - cbn [nlt nle RNum] in Hr, Hf. rewrite Rltb_false in Hr. rewrite Rleb_true in Hf. lra.
        - specialize (HL (u, v) (or_introl eq_refl)). cbn [fst snd] in HL. lra.
        - congruence. }
      apply K_edge with (D a b); auto. apply (HE (u, v)); [left; auto|].
      unfold getRun. cbn [nT RNum] in *. rewrite Eb.
      destruct (Nat.leb_spec (isize u + isize v) beta); [|lia]. cbn [andb nle nlt RNum].
      destruct (Rleb lo (D a b)) eqn:Q1; [|apply Rleb_false in Q1; lra].
      destruct (Rltb (D a b) hi) eqn:Q2; [|apply Rltb_false in Q2; lra]. left; auto.
    - destruct (ichildren dim u v) as [[[a b] [c d]]|] eqn:C; [|discriminate].
      destruct (@getFind RNum dim lo hi f a b) as [l1| | |] eqn:G1; cbn [bind] in HG; try discriminate.
      destruct (@getFind RNum dim lo hi f c d) as [l2| | |] eqn:G2; cbn [bind] in HG; try discriminate.
      inversion HG; subst L. clear HG.
      destruct (known_kids Nu Nv Iu Iv C W SI HK) as [K1 K2].
      assert (HE1 : forall pr e, In pr l1 -> In e (@getRun RNum dim pt srt beta lo hi pr) -> In e E) by (intros; eapply HE; [apply in_app_iff|]; eauto).
      assert (HE2 : forall pr e, In pr l2 -> In e (@getRun RNum dim pt srt beta lo hi pr) -> In e E) by (intros; eapply HE; [apply in_app_iff|]; eauto).
      apply ichildren_spec in C. destruct C as [(i & bx & -> & -> & ->)|(i & bx & -> & -> & ->)].
      + destruct Nu as (_ & Na & Nc). destruct Iu as (_ & Ia & Ic). cbn [iitems strip items] in Hp, U. apply in_app_iff in Hp.
        destruct Hp as [Hp|Hp].
        * apply (IH a v l1 S1 S2 G1); auto. intros x Hx. apply U, in_app_iff; auto.
        * apply (IH c v l2 S1 S2 G2); auto. intros x Hx. apply U, in_app_iff; auto.
      + destruct Nv as (_ & Na & Nc). destruct Iv as (_ & Ia & Ic). cbn [iitems strip items] in Hq, V. apply in_app_iff in Hq.
        apply K_sym. rewrite D_sym in HD. destruct Hq as [Hq|Hq].
        * apply (IH a u l1 S2 S1 G1); auto. intros x Hx. apply V, in_app_iff; auto.
        * apply (IH c u l2 S2 S1 G2); auto. intros x Hx. apply V, in_app_iff; auto.
  Qed.

  Hypothesis K_refl : forall p, K p p.

  Lemma compute_cover t : forall L, @getCompute RNum dim lo hi t = Ok L -> nice dim pt t -> idsOk t -> (forall p, In p (iitems t) -> dom p) ->
    ((exists L', @RCompute RNum dim beta hi t L' /\ forall p, In p L' -> hi <= @inode RNum dim (fst p) (snd p)) \/ (isize t <= beta)%nat) ->
    (forall pr e, In pr L -> In e (@getRun RNum dim pt srt beta lo hi pr) -> In e E) ->
    forall p q, In p (iitems t) -> In q (iitems t) -> D p q < hi -> K p q.
  Proof.
    induction t as [i its b|i b l IHl r IHr]; intros L HG Nt It Dt HK HE p q Hp Hq HD.
    - destruct Nt as [_ Hl]. cbn [iitems strip items] in Hp, Hq. destruct its as [|z [|]]; try discriminate.
      destruct Hp as [<-|[]], Hq as [<-|[]]. auto.
    - cbn [EmstModel.getCompute] in HG. destruct (@getStart RNum dim lo (INode i b l r)) eqn:St.
      2:{ unfold getStart in St. cbn [nle RNum] in St. rewrite Rleb_false in St. apply K_lo.
          pose proof (diag_diameter (@nice_in dim pt _ _ Nt Hp) (@nice_in dim pt _ _ Nt Hq)). lra. }
      destruct (@getCompute RNum dim lo hi l) as [o1| | |] eqn:G1; cbn [bind] in HG; try discriminate.
      destruct (@getCompute RNum dim lo hi r) as [o2| | |] eqn:G2; cbn [bind] in HG; try discriminate.
      destruct (@getFind RNum dim lo hi (S (iheight l + iheight r)) l r) as [o3| | |] eqn:G3; cbn [bind] in HG; try discriminate.
      inversion HG; subst L. clear HG.
      assert (HE1 : forall pr e, In pr o1 -> In e (@getRun RNum dim pt srt beta lo hi pr) -> In e E) by (intros; eapply HE; [rewrite !in_app_iff|]; eauto).
      assert (HE2 : forall pr e, In pr o2 -> In e (@getRun RNum dim pt srt beta lo hi pr) -> In e E) by (intros; eapply HE; [rewrite !in_app_iff|]; eauto).
      assert (HE3 : forall pr e, In pr o3 -> In e (@getRun RNum dim pt srt beta lo hi pr) -> In e E) by (intros; eapply HE; [rewrite !in_app_iff|]; eauto).
      assert (Dl : forall x, In x (iitems l) -> dom x) by (intros x Hx; apply Dt; cbn [iitems strip items]; apply in_app_iff; auto).
      assert (Dr : forall x, In x (iitems r) -> dom x) by (intros x Hx; apply Dt; cbn [iitems strip items]; apply in_app_iff; auto).
      destruct Nt as (_ & Nl & Nr). destruct It as (_ & Il & Ir).
      assert (KK : ((exists L', @RCompute RNum dim beta hi l L' /\ forall p, In p L' -> hi <= @inode RNum dim (fst p) (snd p)) \/ (isize l <= beta)%nat) /\
                   ((exists L', @RCompute RNum dim beta hi r L' /\ forall p, In p L' -> hi <= @inode RNum dim (fst p) (snd p)) \/ (isize r <= beta)%nat) /\
                   known l r).
      { assert (Sm : (isize (INode i b l r) <= beta)%nat -> (isize l <= beta /\ isize r <= beta /\ isize l + isize r <= beta)%nat).
        { unfold isize, size. cbn [strip items]. rewrite app_length. lia. }
        destruct HK as [(L' & HR & HL)|HB].
        - inversion HR as [|? ? ? ? Hs|? ? ? ? l1 l2 l3 Hs R1 R2 R3]; subst.
          + unfold rhoStart in Hs. apply Nat.ltb_ge in Hs. destruct (Sm Hs) as (A & B & C). auto.
          + split; [left; exists l1; split; auto; intros; apply HL; rewrite !in_app_iff; auto|].
            split; [left; exists l2; split; auto; intros; apply HL; rewrite !in_app_iff; auto|].
            left; exists l3; split; auto; intros; apply HL; rewrite !in_app_iff; auto.
        - destruct (Sm HB) as (A & B & C). auto. }
      destruct KK as (Kl & Kr & Klr).
      cbn [iitems strip items] in Hp, Hq. apply in_app_iff in Hp. apply in_app_iff in Hq.
      assert (Cross : forall x y, In x (iitems l) -> In y (iitems r) -> D x y < hi -> K x y).
      { apply (find_cover (S (iheight l + iheight r)) (S1 := iitems l) (S2 := iitems r) G3); auto using incl_refl.
        - apply (IHl o1); auto.
        - apply (IHr o2); auto. }
      destruct Hp as [Hp|Hp], Hq as [Hq|Hq].
      + apply (IHl o1); auto.
      + apply Cross; auto.
      + apply K_sym. apply Cross; auto. rewrite D_sym; auto.
      + apply (IHr o2); auto.
  Qed.
End Cover.
