(** The tree objects: build, insert and bulk erase keep the object invariant
    and have the expected effect on the stored points. *)
From Verif Require Import Base Num KdModel KdSpec KdBuild RangeModel RangeProofs
  BatchModel BatchSlice BatchTree BatchMedian BatchPack BatchErase.
Set Implicit Arguments.

(** *** Pairwise relations and permutations *)
Lemma FOP_perm A (R : A -> A -> Prop) l l' : (forall x y, R x y -> R y x) ->
  Permutation l l' -> ForallOrdPairs R l -> ForallOrdPairs R l'.
Proof.
  intros HR. induction 1 as [|x l l' H IH|x y l|l l' l'' H1 IH1 H2 IH2]; intros F; auto.
  - inversion F as [|? ? F1 F2]; subst. constructor; auto.
    rewrite Forall_forall in *. intros y Hy. apply F1. eapply Permutation_in; [apply Permutation_sym|]; eauto.
  - inversion F as [|? ? F1 F2]; subst. inversion F2 as [|? ? F3 F4]; subst.
    inversion F1 as [|? ? F5 F6]; subst. constructor; [constructor; auto|]. constructor; auto.
Qed.
Lemma FOP_app A (R : A -> A -> Prop) l1 l2 : ForallOrdPairs R (l1 ++ l2) ->
  ForallOrdPairs R l1 /\ ForallOrdPairs R l2 /\ forall x y, In x l1 -> In y l2 -> R x y.
Proof.
  induction l1 as [|a l1 IH]; cbn; intros F.
  - split; [constructor|]. split; auto. intros x y [].
  - inversion F as [|? ? F1 F2]; subst. destruct (IH F2) as (G1 & G2 & G3).
    apply Forall_app in F1 as [F1 F1']. split; [constructor; auto|]. split; auto.
    rewrite Forall_forall in F1'. intros x y [<- | Hx] Hy; auto.
Qed.

Lemma slice_app_l A s e (l r : list A) : e <= length l -> slice s e (l ++ r) = slice s e l.
Proof.
  intros H. unfold slice. destruct (Nat.le_gt_cases e s) as [Hs | Hs].
  { replace (e - s) with 0 by lia. reflexivity. }
  rewrite skipn_app, firstn_app, skipn_length.
  replace (e - s - (length l - s)) with 0 by lia. cbn. apply app_nil_r.
Qed.

Section Obj.
  Variable N : Num.
  Variable ok : nT N -> Prop.
  Hypothesis OL : OrdLaws N ok.
  Variable dim : nat.
  Variable A : Type.
  Variable pt : A -> list (nT N).
  Notation okI := (okItem N ok dim pt).
  Notation tree := (kt (nT N) (box N)).
  Notation rs t := (fst (kRange t)).
  Notation re t := (snd (kRange t)).

  (** No two of the points share a coordinate in any dimension. *)
  Definition apart (d : nat) (x y : A) : Prop :=
    nlt N (coord (pt x) d) (coord (pt y) d) = true \/ nlt N (coord (pt y) d) (coord (pt x) d) = true.
  Definition tieFree (l : list A) : Prop := forall d, d < dim -> ForallOrdPairs (apart d) l.

  Lemma tieFree_perm l l' : Permutation l l' -> tieFree l -> tieFree l'.
  Proof. intros P H d Hd. eapply FOP_perm; eauto. unfold apart. tauto. Qed.

  (** What a builder delivers. *)
  Definition bldOk (bld : list A -> res (list A * tree)) (max : nat) : Prop :=
    forall points, points <> [] -> length points <= max -> (forall x, In x points -> okI x) ->
    exists ls its' t0 t, bld points = Ok (its', t) /\ Permutation points its' /\
      ktOk N dim pt ls its' 0 (length points) 0 t0 /\ withBox N dim pt its' t0 = Ok t.

  (** *** A fresh tree satisfies the invariant. *)
  Lemma built_inv ls (its0 rest : list A) pres : 0 < dim ->
    (forall x, In x (its0 ++ rest) -> okI x) -> length its0 <= length pres ->
    (forall i, i < length its0 -> nth_error pres i = Some true) ->
    forall t0 s n sd, sd < dim -> s + n <= length its0 -> ktOk N dim pt ls its0 s n sd t0 ->
    exists t, withBox N dim pt its0 t0 = Ok t /\ kRange t = (s, s + n) /\
      inv ok dim pt (its0 ++ rest) pres t /\
      ((forall d, d < dim -> ForallOrdPairs (apart d) (slice s (s + n) its0)) ->
        sep pt (its0 ++ rest) pres t).
  Proof.
    intros Hdim Hok Hlen Hpres.
    assert (PK : forall s e, e <= length its0 -> packed s e (its0 ++ rest) pres = slice s e its0).
    { intros s e He. rewrite packed_all; [apply slice_app_l; auto|rewrite app_length; lia|lia|].
      intros i Hi. apply Hpres. lia. }
    assert (SI : forall s e x, In x (slice s e its0) -> okI x).
    { intros s e x Hx. apply Hok, in_app_iff. left. unfold slice in Hx.
      apply KdSplit.In_firstn, KdSplit.In_skipn in Hx. auto. }
    induction t0 as [s' e' np b | d sv s' e' b l IHl r IHr]; intros s n sd Hsd Hn Hk; cbn [ktOk withBox] in *.
    - destruct Hk as (-> & -> & -> & Hk).
      destruct (@leafBox_ok N ok OL dim A pt (slice s (s + n) its0)) as (b' & Hb & B1 & B2).
      { intros E. apply (f_equal (@length A)) in E. rewrite slice_length in E by auto. cbn in E. lia. }
      { intros x Hx; eapply SI; eauto. }
      rewrite Hb. cbn [bind]. exists (KLeaf s (s + n) n b'). split; auto. split; auto. split; [|cbn; auto].
      cbn [inv]. unfold boxOk. rewrite PK by auto. rewrite slice_length, app_length by auto.
      split; [lia|]. split; [lia|]. split; [lia|]. auto.
    - destruct Hk as (-> & -> & -> & Hls & SO & Kl & Kr).
      assert (Hh : n / 2 <= n) by (apply Nat.div_le_upper_bound; lia).
      assert (Hsd' : (sd + 1) mod dim < dim) by (apply Nat.mod_upper_bound; lia).
      destruct (IHl s (n / 2) ((sd + 1) mod dim)) as (l' & -> & L1 & L2 & L3); auto; [lia|].
      destruct (IHr (s + n / 2) (n - n / 2) ((sd + 1) mod dim)) as (r' & -> & R1 & R2 & R3); auto; [lia|].
      replace (s + n / 2 + (n - n / 2)) with (s + n) in * by lia.
      cbn [bind]. eexists. split; [reflexivity|]. split; [reflexivity|]. split.
      + cbn [inv]. rewrite L1, R1. cbn [fst snd]. split; auto. split; auto. do 3 (split; [lia|]).
        split; [rewrite app_length; lia|]. split; auto. split; [intros; lia|].
        assert (E : packed s (s + n) (its0 ++ rest) pres =
                    packed s (s + n / 2) (its0 ++ rest) pres ++ packed (s + n / 2) (s + n) (its0 ++ rest) pres)
          by (apply packed_split; lia).
        pose proof (inv_box _ L2) as [BL1 BL2]. pose proof (inv_box _ R2) as [BR1 BR2].
        rewrite L1 in BL2. rewrite R1 in BR2. cbn [fst snd] in *.
        unfold boxOk. rewrite E. eapply boxUnion_ok; eauto.
        intros x Hx. rewrite <- E, PK in Hx by auto. eapply SI; eauto.
      + intros TF. cbn [sep]. rewrite L1, R1. cbn [fst snd]. rewrite !PK by lia.
        assert (ES : slice s (s + n) its0 = slice s (s + n / 2) its0 ++ slice (s + n / 2) (s + n) its0)
          by (apply slice_split; lia).
        destruct SO as (S1 & S2 & S3). cbv zeta in *.
        split; [|split; [|split]].
        * apply S3. intros x y Hx Hy. specialize (TF sd Hsd). rewrite ES in TF.
          apply FOP_app in TF as (_ & _ & TF). apply TF; auto.
        * auto.
        * apply L3. intros d Hd. specialize (TF d Hd). rewrite ES in TF. apply FOP_app in TF. tauto.
        * apply R3. intros d Hd. specialize (TF d Hd). rewrite ES in TF. apply FOP_app in TF. tauto.
  Qed.

  (** *** Object invariant *)
  Record treeOk (b : btree N A) : Prop := {
    to_pres : length (bt_pres b) = bt_cap b;
    to_items : length (bt_items b) <= bt_cap b;
    to_okI : forall x, In x (bt_items b) -> okI x;
    to_cur : bt_cur b = length (blive b);
    to_root : bt_cur b <> 0 -> exists t, bt_root b = Some t /\ kRange t = (0, bt_build b) /\
                inv ok dim pt (bt_items b) (bt_pres b) t;
  }.
  Definition treeSep (b : btree N A) : Prop :=
    bt_cur b <> 0 -> forall t, bt_root b = Some t -> sep pt (bt_items b) (bt_pres b) t.
  (** No flag is left over when the tree is empty. *)
  Definition fresh (b : btree N A) : Prop :=
    bt_cur b = 0 -> forall i, i < bt_cap b -> nth_error (bt_pres b) i = Some true.

  Lemma nth_error_repeat B (x : B) n i : i < n -> nth_error (repeat x n) i = Some x.
  Proof. revert i. induction n as [|n IH]; intros [|i] H; cbn; auto; try lia. apply IH. lia. Qed.

  Lemma bnew_ok j its : length its <= 2 ^ j -> (forall x, In x its -> okI x) ->
    treeOk (bnew N j its) /\ fresh (bnew N j its) /\ blive (bnew N j its) = [].
  Proof.
    intros H1 H2. assert (E : blive (bnew N j its) = []) by reflexivity. split; [|split; auto].
    - constructor; cbn; auto; [apply repeat_length|congruence].
    - intros _ i Hi. apply nth_error_repeat. auto.
  Qed.

  Lemma bclear_fresh b : length (bt_pres b) = bt_cap b -> fresh (bclear b).
  Proof. intros H _ i Hi. cbn in *. apply nth_error_repeat. lia. Qed.

  Lemma treeOk_clear b : treeOk b -> treeOk (bclear b).
  Proof.
    intros T. constructor; cbn; try apply T; try congruence.
    - rewrite repeat_length. apply T.
  Qed.

  (** Queries *)
  Theorem borth_ok b qb : treeOk b -> okbox ok dim qb ->
    borth dim pt b qb = Ok (filter (inQBox N dim A pt qb) (blive b)).
  Proof.
    intros T Hq. unfold borth. destruct (Nat.eqb_spec (bt_cur b) 0) as [E | E].
    - rewrite (to_cur T) in E. destruct (blive b); [reflexivity|discriminate].
    - destruct (to_root T E) as (t & -> & K & I).
      rewrite (@orthQ_ok N ok OL dim A pt (bt_items b) (to_okI T) (bt_pres b) t qb Hq I), K. reflexivity.
  Qed.

  Variable EL : EqLaw N ok.

  Lemma bcontains_run b q : treeOk b -> exists r, bcontains dim pt b q = Ok r /\
    (r = true -> exists x, In x (blive b) /\ peq N dim (pt q) (pt x) = true) /\
    (r = false -> treeSep b -> okI q -> forall x, In x (blive b) -> peq N dim (pt q) (pt x) = false).
  Proof.
    intros T. unfold bcontains. destruct (Nat.eqb_spec (bt_cur b) 0) as [E | E].
    - exists false. split; auto. split; [discriminate|]. intros _ _ _ x Hx.
      rewrite (to_cur T) in E. destruct (blive b); [destruct Hx|discriminate].
    - destruct (to_root T E) as (t & R & K & I). rewrite R.
      pose proof (walk_range (pt q) I) as W. pose proof (inv_range _ I) as IR.
      pose proof (to_items T) as HI. pose proof (to_pres T) as HP.
      destruct (walk N (pt q) t) as [s e] eqn:Ew. cbn [fst snd] in W. rewrite K in W, IR. cbn [fst snd] in W, IR.
      destruct (@leafScan_ok N dim A pt (bt_items b) (bt_pres b) q s e) as (o & -> & Ho); [lia|lia|].
      cbn [bind]. eexists. split; [reflexivity|]. destruct o as [i|].
      + split; [|discriminate]. intros _. destruct Ho as (Hi & Hp & x & Hx & Hq). exists x. split; auto.
        apply In_packed. exists i. split; auto. lia.
      + split; [discriminate|]. intros _ S Oq x Hx.
        destruct (peq N dim (pt q) (pt x)) eqn:Eq; auto.
        assert (Hx' : In x (packed s e (bt_items b) (bt_pres b))).
        { pose proof (@walk_in N ok dim A pt (bt_items b) (bt_pres b) (pt q) t x I (S E t R)) as G.
          rewrite K, Ew in G. apply G; auto.
          intros d c Hd. apply (@peq_lt N ok EL dim (pt q) (pt x) d c); auto.
          apply (to_okI T). apply In_packed in Hx as (i & _ & Hx & _). eapply nth_error_In; eauto. }
        rewrite (Ho x Hx') in Eq. discriminate.
  Qed.

  Theorem bcontains_ok b q : treeOk b -> treeSep b -> okI q ->
    exists r, bcontains dim pt b q = Ok r /\
    (r = true <-> exists x, In x (blive b) /\ peq N dim (pt q) (pt x) = true).
  Proof.
    intros T S Oq. destruct (bcontains_run q T) as (r & Hr & R1 & R2). exists r. split; auto. split; auto.
    intros (x & Hx & He). destruct r; auto. rewrite (R2 eq_refl S Oq x Hx) in He. discriminate.
  Qed.

  (** Bulk erase of the base class *)
  Section E.
    Variable part : (A -> bool) -> list A -> list A * list A.
    Hypothesis Hpart : part_ok part.
    Variable lfirst : nat -> nat -> bool.

    Theorem bbulkErase_ok b Q : treeOk b -> exists b', bbulkErase dim pt part lfirst b Q = Ok b' /\
      treeOk b' /\ bt_cap b' = bt_cap b /\ bt_items b' = bt_items b /\
      (exists rem, Permutation (blive b) (rem ++ blive b') /\
         forall x, In x rem -> exists q, In q Q /\ peq N dim (pt q) (pt x) = true) /\
      (treeSep b -> (forall q, In q Q -> okI q) -> treeSep b' /\
         forall p, okP N ok dim p -> cnt dim pt p (blive b') = cnt dim pt p (blive b) - cnt dim pt p Q).
    Proof.
      intros T. unfold bbulkErase. destruct (Nat.eqb_spec (bt_cur b) 0) as [E | E].
      - exists b. split; auto. split; auto. split; auto. split; auto.
        assert (EB : blive b = []) by (rewrite (to_cur T) in E; destruct (blive b); [auto|discriminate]).
        split.
        + exists []. split; auto. intros x [].
        + intros S HQ. split; auto. intros p Hp. rewrite EB. reflexivity.
      - destruct (to_root T E) as (t & R & K & I). rewrite R.
        pose proof (to_items T) as HI. pose proof (to_pres T) as HP.
        destruct (@bulkErase_ok N ok OL dim A pt (bt_items b) (to_okI T) EL part Hpart lfirst t Q (bt_pres b))
          as (t' & o & k & pres' & -> & [O1 O2] & ((E1 & rem & L & P & M) & K' & I' & _ & S')); auto; [lia|].
        cbn [bind]. rewrite K in *. cbn [fst snd] in *.
        eexists. split; [reflexivity|].
        pose proof (Permutation_length P) as PL. rewrite app_length in PL.
        split; [|split; [reflexivity|split; [reflexivity|split]]].
        + constructor; cbn [bt_pres bt_cap bt_items bt_cur bt_root bt_build]; try apply T.
          * lia.
          * rewrite (to_cur T). unfold blive in *. cbn [bt_build bt_items bt_pres]. lia.
          * intros _. exists t'. split; auto.
        + exists rem. split; auto.
        + intros S HQ. destruct (S' (S E t R) HQ) as (G1 & G2 & _). split; auto.
          intros _ u Hu. cbn in Hu. injection Hu as <-. exact G2.
    Qed.
  End E.

  (** Building *)
  Variable bld : list A -> res (list A * tree).
  Variable max : nat.
  Hypothesis Hdim : 0 < dim.
  Hypothesis Hbld : bldOk bld max.

  Definition buildSpec (build : btree N A -> list A -> res (btree N A)) (pre : btree N A -> nat -> Prop) : Prop :=
    forall b points, length (bt_pres b) = bt_cap b -> length (bt_items b) <= bt_cap b ->
      (forall x, In x (bt_items b) -> okI x) ->
      (forall i, i < bt_cap b -> nth_error (bt_pres b) i = Some true) ->
      length points <= bt_cap b -> length points <= max -> pre b (length points) ->
      (forall x, In x points -> okI x) ->
      exists b', build b points = Ok b' /\ treeOk b' /\ fresh b' /\ bt_cap b' = bt_cap b /\
        (pre b (bt_cap b) -> pre b' (bt_cap b)) /\
        Permutation points (blive b') /\ (tieFree points -> treeSep b').

  Lemma built_obj (b : btree N A) points its' t rest : length points <= bt_cap b ->
    length (bt_pres b) = bt_cap b ->
    (forall i, i < bt_cap b -> nth_error (bt_pres b) i = Some true) ->
    points <> [] -> length points <= max -> (forall x, In x points -> okI x) ->
    bld points = Ok (its', t) -> length (its' ++ rest) <= bt_cap b -> (forall x, In x rest -> okI x) ->
    let b' := mkBt (Some t) (its' ++ rest) (bt_pres b) (length points) (length points) (bt_cap b) in
    treeOk b' /\ fresh b' /\ Permutation points (blive b') /\ (tieFree points -> treeSep b').
  Proof.
    intros Hc Hp Hall Hne Hmax Hok Hb Hr Hrest b'.
    destruct (Hbld Hne Hmax Hok) as (ls & its1 & t0 & t1 & Hb1 & P & Kt & Wb).
    rewrite Hb1 in Hb. injection Hb as -> ->.
    pose proof (Permutation_length P) as PL.
    assert (Hok' : forall x, In x (its' ++ rest) -> okI x).
    { intros x Hx. apply in_app_iff in Hx as [Hx | Hx]; auto. apply Hok.
      eapply Permutation_in; [apply Permutation_sym|]; eauto. }
    assert (Hpres : forall i, i < length its' -> nth_error (bt_pres b) i = Some true) by (intros; apply Hall; lia).
    destruct (@built_inv ls its' rest (bt_pres b) Hdim Hok' ltac:(lia) Hpres t0 0 (length points) 0)
      as (t' & Wb' & K & I & S); auto; [lia|].
    rewrite Wb in Wb'. injection Wb' as <-. cbn [Nat.add] in *.
    assert (EL' : blive b' = its').
    { unfold blive, b'. cbn [bt_build bt_items bt_pres].
      rewrite packed_all; [rewrite slice_app_l by lia; rewrite PL; apply slice_full|rewrite app_length; lia|lia|].
      intros i Hi. apply Hall. lia. }
    split; [|split; [|split]].
    - constructor; cbn [b' bt_pres bt_cap bt_items bt_cur bt_root bt_build]; auto.
      + fold b'. rewrite EL'. auto.
      + intros _. exists t. split; auto.
    - intros E. cbn in E. destruct points; [congruence|discriminate].
    - rewrite EL'. auto.
    - intros TF _ u Hu. cbn in Hu. injection Hu as <-. cbn [b' bt_items bt_pres]. apply S.
      intros d Hd. rewrite PL, slice_full. eapply tieFree_perm; eauto.
  Qed.

  Theorem cobuild_ok : buildSpec (cobuild bld) (fun _ _ => True).
  Proof.
    intros b points H1 H2 H3 H4 H5 H6 _ H7. unfold cobuild.
    destruct (Nat.eqb_spec (length points) 0) as [E | E].
    - destruct points; [|discriminate]. eexists. split; [reflexivity|].
      split; [constructor; cbn; auto; try lia; try congruence; intros x []|].
      split; [intros _; exact H4|]. split; [reflexivity|]. split; auto. split; [reflexivity|].
      intros _ G. cbn in G. congruence.
    - destruct (Nat.ltb_spec (bt_cap b) (length points)); [lia|].
      assert (Hne : points <> []) by (intros ->; cbn in E; lia).
      destruct (Hbld Hne H6 H7) as (ls & its' & t0 & t & Hb & P & _). rewrite Hb. cbn [bind].
      eexists. split; [reflexivity|].
      pose proof (Permutation_length P).
      destruct (@built_obj b points its' t []) as (G1 & G2 & G3 & G4); auto.
      { rewrite app_nil_r. lia. } { intros x []. }
      rewrite app_nil_r in *. do 4 (split; auto).
  Qed.

  Theorem bhlbuild_ok : buildSpec (bhlbuild bld) (fun b n => n <= length (bt_items b)).
  Proof.
    intros b points H1 H2 H3 H4 H5 H6 Hpre H7. unfold bhlbuild.
    destruct (Nat.eqb_spec (length points) 0) as [E | E].
    - destruct points; [|discriminate]. eexists. split; [reflexivity|].
      split; [constructor; cbn; auto; try lia; try congruence|].
      split; [intros _; exact H4|]. split; [reflexivity|]. split; [cbn; lia|]. split; [reflexivity|].
      intros _ G. cbn in G. congruence.
    - destruct (Nat.ltb_spec (bt_cap b) (length points)); [lia|].
      destruct (Nat.ltb_spec (length (bt_items b)) (length points)); [lia|]. cbn [orb].
      assert (Hne : points <> []) by (intros ->; cbn in E; lia).
      destruct (Hbld Hne H6 H7) as (ls & its' & t0 & t & Hb & P & _). rewrite Hb. cbn [bind].
      eexists. split; [reflexivity|].
      pose proof (Permutation_length P).
      destruct (@built_obj b points its' t (skipn (length points) (bt_items b))) as (G1 & G2 & G3 & G4); auto.
      { rewrite app_length, skipn_length. lia. }
      { intros x Hx. apply H3. eapply KdSplit.In_skipn; eauto. }
      split; auto. split; auto. split; auto. split; auto.
      cbn. rewrite app_length, skipn_length. lia.
  Qed.

  (** moveElementsTo *)
  Lemma moveElements_ok dflt b : treeOk b -> moveElements dflt b = Ok (blive b, bclear b).
  Proof.
    intros T. unfold moveElements. rewrite (to_cur T), Nat.ltb_irrefl, Nat.sub_diag. cbn.
    rewrite app_nil_r. reflexivity.
  Qed.

  Section Ops.
    Variable build : btree N A -> list A -> res (btree N A).
    Variable pre : btree N A -> nat -> Prop.
    Hypothesis Hbuild : buildSpec build pre.
    Hypothesis Hpre_items : forall b b' n, bt_items b = bt_items b' -> pre b n -> pre b' n.
    Variable dflt : A.

    Lemma blive_okI b x : treeOk b -> In x (blive b) -> okI x.
    Proof.
      intros T Hx. apply (to_okI T). apply In_packed in Hx as (i & _ & Hx & _). eapply nth_error_In; eauto.
    Qed.

    Theorem binsert_ok b points : treeOk b -> fresh b -> (forall x, In x points -> okI x) ->
      let n := length (blive b) + length points in
      n <= bt_cap b -> n <= max -> pre b n ->
      exists b', binsert dflt build b points = Ok b' /\ treeOk b' /\ fresh b' /\ bt_cap b' = bt_cap b /\
        (pre b (bt_cap b) -> pre b' (bt_cap b)) /\
        Permutation (blive b ++ points) (blive b') /\
        (treeSep b -> tieFree (blive b ++ points) -> treeSep b').
    Proof.
      intros T F Hok n Hc Hm Hp. unfold binsert. destruct (Nat.eqb_spec (length points) 0) as [E | E].
      - destruct points; [|discriminate]. exists b. rewrite app_nil_r. auto 8.
      - destruct (Nat.eqb_spec (bt_cur b) 0) as [Ec | Ec].
        + assert (EB : blive b = []) by (rewrite (to_cur T) in Ec; destruct (blive b); [auto|discriminate]).
          unfold n in *. rewrite EB in *. cbn [length Nat.add app] in *.
          destruct (Hbuild points (to_pres T) (to_items T) (to_okI T) (F Ec) Hc Hm Hp Hok)
            as (b' & B1 & B2 & B3 & B4 & BP & B5 & B6).
          exists b'. auto 8.
        + rewrite (moveElements_ok dflt T). cbn [bind].
          assert (Hl : length (blive b ++ points) = n) by (rewrite app_length; reflexivity).
          pose proof (treeOk_clear T) as TC.
          destruct (@Hbuild (bclear b) (blive b ++ points)) as (b' & B1 & B2 & B3 & B4 & BP & B5 & B6).
          * apply TC. * apply TC. * apply TC.
          * apply bclear_fresh; [apply T|reflexivity].
          * rewrite Hl. auto. * rewrite Hl. auto.
          * rewrite Hl. apply (Hpre_items (b := b)); auto.
          * intros x Hx. apply in_app_iff in Hx as [Hx | Hx]; [|apply Hok; exact Hx]. apply (blive_okI x T Hx).
          * exists b'. split; auto. split; auto. split; auto. split; auto. split; auto.
            intros Hp'. apply BP. cbn. apply (Hpre_items (b := b)); auto.
    Qed.

    Variable part : (A -> bool) -> list A -> list A * list A.
    Hypothesis Hpart : part_ok part.
    Variable lfirst : nat -> nat -> bool.

    (** With rebuilding: everything is as after a fresh build. *)
    Theorem bbulkEraseR_ok b Q : treeOk b -> length (blive b) <= max ->
      (forall n, n <= length (blive b) -> pre b n) ->
      exists b', bbulkEraseR dim pt dflt build part lfirst true b Q = Ok b' /\
        treeOk b' /\ fresh b' /\ bt_cap b' = bt_cap b /\
        (pre b (bt_cap b) -> pre b' (bt_cap b)) /\
        (exists rem, Permutation (blive b) (rem ++ blive b') /\
           forall x, In x rem -> exists q, In q Q /\ peq N dim (pt q) (pt x) = true) /\
        (treeSep b -> (forall q, In q Q -> okI q) ->
           forall p, okP N ok dim p -> cnt dim pt p (blive b') = cnt dim pt p (blive b) - cnt dim pt p Q) /\
        (tieFree (blive b) -> treeSep b').
    Proof.
      intros T Hm Hp. unfold bbulkEraseR.
      destruct (@bbulkErase_ok part Hpart lfirst b Q T) as (b1 & -> & T1 & C1 & I1 & (rem & P & M) & S1).
      cbn [bind]. rewrite (moveElements_ok dflt T1). cbn [bind].
      pose proof (Permutation_length P) as PL. rewrite app_length in PL.
      pose proof (treeOk_clear T1) as TC.
      assert (HlC : length (blive b1) <= bt_cap b1).
      { pose proof (to_items T1). unfold blive. rewrite packed_flat.
        destruct (Nat.eq_dec (bt_cur b1) 0) as [E | E].
        - rewrite (to_cur T1) in E. unfold blive in E. rewrite packed_flat in E. lia.
        - destruct (to_root T1 E) as (t & _ & K & I). apply inv_range in I. rewrite K in I. cbn in I.
          assert (G : forall l, length (flat_map (pick (bt_items b1) (bt_pres b1)) l) <= length l).
          { induction l as [|i l IH]; cbn; auto. rewrite app_length. unfold pick at 1.
            destruct (nth_error (bt_items b1) i); [destruct (nth_error (bt_pres b1) i) as [[|]|]|]; cbn; lia. }
          eapply Nat.le_trans; [apply G|]. rewrite seq_length. lia. }
      destruct (@Hbuild (bclear b1) (blive b1)) as (b' & B1 & B2 & B3 & B4 & BP & B5 & B6); try apply TC; auto.
      * apply bclear_fresh; [apply T1|reflexivity].
      * lia.
      * apply (Hpre_items (b := b)); auto. apply Hp. lia.
      * intros x Hx. eapply blive_okI; [exact T1|auto].
      * exists b'. split; auto. split; auto. split; auto. split; [cbn in B4; congruence|]. split; [|split; [|split]].
        -- intros Hp'. rewrite <- C1. apply BP. cbn. apply (Hpre_items (b := b)); auto. rewrite C1. auto.
        -- exists rem. split; auto. eapply Permutation_trans; [exact P|]. apply Permutation_app_head. auto.
        -- intros S HQ p Hokp. destruct (S1 S HQ) as [_ G]. rewrite <- (G p Hokp). symmetry. apply cnt_perm. auto.
        -- intros TF. apply B6. intros d Hd. specialize (TF d Hd).
           assert (F : ForallOrdPairs (apart d) (rem ++ blive b1)).
           { eapply FOP_perm; [|exact P|exact TF]. unfold apart. tauto. }
           apply FOP_app in F. tauto.
    Qed.
  End Ops.
End Obj.
