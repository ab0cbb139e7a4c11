(** Nearest-neighbour searches on the tree objects and on the forest. *)
From Coq Require Import Reals Lra.
From Verif Require Import Base Num KdModel KdSpec KdBuild KdConstruct RGeom RangeModel RangeProofs
  KnnModel KnnBuf BatchModel BatchTree BatchPack BatchErase BatchObj LogModel LogInsert BatchKnn BatchKnnProofs.
Set Implicit Arguments.
Local Open Scope R_scope.

(** All live entries of a tree, and of all trees of a forest. *)
Definition bEnts {N A} (id : nat) (b : btree N A) : list (ent A) :=
  liveEnts id 0 (bt_build b) (bt_items b) (bt_pres b).
Fixpoint slotEnts {N A} (i : nat) (bs : list (btree N A)) : list (ent A) :=
  match bs with [] => [] | b :: bs' => bEnts i b ++ slotEnts (S i) bs' end.
Definition ltEnts {N A} (t : ltree N A) : list (ent A) := slotEnts 0 (lt_buf t :: lt_trees t).

Section Facts.
  Variable N : Num.
  Variable A : Type.
  Lemma slotEnts_items (bs : list (btree N A)) : forall i, map snd (slotEnts i bs) = flat_map (@blive N A) bs.
  Proof.
    induction bs as [|b bs IH]; intros i; cbn; auto. rewrite map_app, IH. f_equal. apply liveEnts_items.
  Qed.
  Lemma ltEnts_items (t : ltree N A) : map snd (ltEnts t) = stored t.
  Proof. unfold ltEnts. rewrite slotEnts_items. reflexivity. Qed.

  Lemma slotEnts_id (bs : list (btree N A)) : forall i x, In x (slotEnts i bs) -> (i <= fst (fst x))%nat.
  Proof.
    induction bs as [|b bs IH]; intros i x; cbn; [tauto|]. intros H. apply in_app_or in H as [H|H].
    - apply liveEnts_In in H as (j & a & -> & _). cbn. lia.
    - apply IH in H. lia.
  Qed.
  Lemma NoDup_disj B (l1 l2 : list B) : NoDup l1 -> NoDup l2 -> (forall x, In x l1 -> In x l2 -> False) -> NoDup (l1 ++ l2).
  Proof.
    induction 1 as [|x l1 Hx H1 IH]; intros H2 H; auto. cbn. constructor.
    - intros Hin. apply in_app_or in Hin as [Hin|Hin]; [auto|]. apply (H x); cbn; auto.
    - apply IH; auto. intros y Hy. apply H. cbn; auto.
  Qed.
  Lemma slotEnts_NoDup (bs : list (btree N A)) : forall i, NoDup (map fst (slotEnts i bs)).
  Proof.
    induction bs as [|b bs IH]; intros i; [constructor|]. cbn [slotEnts]. rewrite map_app.
    apply NoDup_disj; [apply liveEnts_NoDup|apply IH|].
    intros y Hy Hz. apply in_map_iff in Hy as (x & <- & Hx). apply liveEnts_In in Hx as (j & a & -> & _).
    apply in_map_iff in Hz as (x & Ex & Hx). apply slotEnts_id in Hx. rewrite Ex in Hx. cbn in Hx. lia.
  Qed.
End Facts.

Section Obj.
  Variable dim : nat.
  Variable A : Type.
  Variable pt : A -> list (nT RNum).
  Notation ent := (ent A).
  Notation elem := (elem RNum ent).
  Variable nthel : nat -> list elem -> list elem.
  Hypothesis Hnth : nth_ok (fun _ : nT RNum => True) nthel.
  Variable k : nat.
  Hypothesis Hk : (1 <= k)%nat.
  Variable q : list R.
  Notation mk := (entElem RNum dim pt q).
  Notation rep := (crep (fun _ : nT RNum => True) k).
  Notation D := (entDist RNum dim pt q).
  Notation tOk := (treeOk (fun _ : nT RNum => True) dim pt).
  Notation covers := (@covers A k).
  Notation settled := (@settled A k).
  Notation elemsB id b := (map mk (bEnts id b)).

  Lemma settled_covers V c : settled V c -> covers V c.
  Proof.
    intros (HR & _). exists V, []. split; auto. rewrite app_nil_r. split; auto. intros w [].
  Qed.
  Lemma settled_onSlice V c : settled V c -> onSlice k true (bbuf (cb c)) = c.
  Proof.
    intros ((H1 & _) & Hp & Hc & _). unfold onSlice. destruct c as [[bk0 p0 bf] ca]. cbn in *. subst. reflexivity.
  Qed.
  Lemma fresh_covers : covers [] (onSlice k false (freshSlice RNum A k)).
  Proof.
    exists [], []. split; [apply crep_new; auto|]. split; auto. intros w [].
  Qed.

  Lemma settled_perm V V' c : Permutation V V' -> settled V c -> settled V' c.
  Proof.
    intros P (HR & Hp & Hc & G & HG). split; [|split; auto; split; auto; exists G; rewrite <- P; auto].
    destruct HR as (H1 & H2 & H3 & H4 & H5 & DD & HD & HS). split; auto. split; auto. split; auto.
    split; [intros; exact I|]. split; auto. exists DD. rewrite <- P. auto.
  Qed.

  (** A covering buffer that is already selected is settled. *)
  Lemma covers_settled all c : covers all c -> bptr (cb c) = k -> cached c = true -> settled all c.
  Proof.
    intros HC Hp Hc. assert (HL : (k <= length all)%nat).
    { pose proof (covers_hasK Hk HC) as H. destruct HC as (V & U & HR & _). destruct HR as (H1 & _).
      unfold hasK in H. rewrite H1, Hp, Nat.leb_refl in H. symmetry in H. apply Nat.leb_le in H. auto. }
    destruct (covers_keepK Hnth Hk HC HL) as (m & c' & E & HS).
    assert (c' = c); [|subst; auto].
    unfold ckeepK in E. rewrite Hc in E. destruct (_ <? _)%nat; [discriminate|].
    destruct (_ =? _)%nat; [discriminate|]. destruct (_ <? _)%nat; [discriminate|]. congruence.
  Qed.

  (** *** One tree object *)
  Lemma knnSingle_spec update recurse id b prior c : tOk b -> bt_cur b <> 0%nat ->
    (forall e, In e (elemsB id b) -> nearE e) -> (forall e, In e prior -> nearE e) -> covers prior c ->
    if (k <=? length prior + bt_cur b)%nat then
      exists c', knnSingle dim pt nthel q update recurse id b c = Ok c' /\ settled (prior ++ elemsB id b) c'
    else knnSingle dim pt nthel q update recurse id b c = Throw.
  Proof.
    intros T Hne HN HNP HC. destruct (to_root T Hne) as (t & Er & ER & HI).
    assert (EE : elemsB id b = map mk (liveEnts id (fst (kRange t)) (snd (kRange t)) (bt_items b) (bt_pres b))).
    { rewrite ER. reflexivity. }
    assert (HLB : length (elemsB id b) = bt_cur b).
    { rewrite map_length. transitivity (length (map snd (bEnts id b))); [rewrite map_length; auto|].
      unfold bEnts. rewrite liveEnts_items. rewrite (to_cur T). reflexivity. }
    unfold knnSingle. rewrite Er. rewrite EE in HN.
    destruct (knnHelper_spec dim pt Hnth Hk q id _ _ update recurse t HI HN HNP HC) as (c1 & E1 & HC1).
    rewrite E1. cbn [bind]. rewrite <- EE in HC1.
    destruct (Nat.leb_spec k (length prior + bt_cur b)) as [Hle|Hgt].
    - destruct (covers_keepK Hnth Hk HC1) as (m & c' & -> & HS); [rewrite app_length, HLB; auto|].
      cbn [bind]. eauto.
    - destruct HC1 as (V & U & HR & HP & HU). rewrite (crep_keepK_throw nthel Hk HR); auto.
      destruct (covers_len Hk HP HU) as [[H1 _] _]. rewrite app_length, HLB in H1.
      destruct (Nat.lt_ge_cases (length V) k) as [|H2]; auto. specialize (H1 H2). lia.
  Qed.

  (** Reading the first k *)
  Lemma read_map (L : list ent) : readEntries (map mk L) = Ok L.
  Proof. induction L as [|x L IH]; cbn; auto. rewrite IH. reflexivity. Qed.

  Lemma read_settled L c : settled (map mk L) c ->
    exists l, readEntries (firstn k (bbuf (cb c))) = Ok l /\ nearest k D L l.
  Proof.
    intros (_ & _ & _ & G & HP & HLF & HFG & _).
    apply Permutation_map_inv in HP as (l3 & E3 & HP3).
    set (F := firstn k (bbuf (cb c))) in *.
    assert (EF : F = map mk (firstn k l3)).
    { rewrite <- firstn_map, <- E3, firstn_app, HLF, Nat.sub_diag, firstn_O, app_nil_r.
      rewrite firstn_all2; auto. lia. }
    assert (EG : G = map mk (skipn k l3)).
    { rewrite <- skipn_map, <- E3, skipn_app, HLF, Nat.sub_diag. rewrite skipn_all2 by lia. reflexivity. }
    exists (firstn k l3). rewrite EF, read_map. split; auto. split; [rewrite EF, map_length in HLF; auto|].
    exists (skipn k l3). rewrite firstn_skipn. split; [symmetry; auto|].
    intros x y Hx Hy. apply (HFG (mk x) (mk y)); [rewrite EF|rewrite EG]; apply in_map; auto.
  Qed.

  Lemma bufAt_firstn V c : settled V c -> map (bufAt (cb c)) (seq 0 k) = firstn k (bbuf (cb c)).
  Proof.
    intros (HR & Hp & _ & G & _ & HLF & _). rewrite firstn_length in HLF.
    apply nth_ext with (d := emptyElem RNum ent) (d' := emptyElem RNum ent).
    - rewrite map_length, seq_length, firstn_length. auto.
    - rewrite map_length, seq_length. intros i Hi.
      rewrite (nth_indep _ (emptyElem RNum ent) (bufAt (cb c) 0)) by (rewrite map_length, seq_length; auto).
      rewrite map_nth, seq_nth by auto. cbn [plus]. unfold bufAt. rewrite Hp.
      destruct (Nat.ltb_spec i k); [|lia]. rewrite <- (firstn_skipn k (bbuf (cb c))) at 1.
      rewrite app_nth1; auto. rewrite firstn_length. lia.
  Qed.

  (** *** The tree's own search *)
  Theorem bknn_spec update recurse b : tOk b -> bt_cur b <> 0%nat ->
    (forall x, In x (blive b) -> dist RNum dim q (pt x) < Rfmax) ->
    if (k <=? bt_cur b)%nat then
      exists l, bknn dim pt nthel q update recurse b k = Ok l /\ nearest k D (bEnts 0 b) l
    else bknn dim pt nthel q update recurse b k = Throw.
  Proof.
    intros T Hne HN. unfold bknn.
    pose proof (@knnSingle_spec update recurse 0 b [] (onSlice k false (freshSlice RNum A k)) T Hne) as H.
    cbn [length plus app] in H.
    assert (HN' : forall e, In e (elemsB 0 b) -> nearE e).
    { intros e He. apply in_map_iff in He as (x & <- & Hx). apply HN. unfold blive.
      rewrite <- (liveEnts_items 0). apply in_map. exact Hx. }
    specialize (H HN' (fun e He => match He with end) fresh_covers).
    destruct (k <=? bt_cur b)%nat.
    - destruct H as (c & -> & HS). cbn [bind]. rewrite (bufAt_firstn HS). apply read_settled. exact HS.
    - rewrite H. reflexivity.
  Qed.

  (** *** The forest *)
  Definition okT (nb : nat * btree RNum A) : Prop :=
    tOk (snd nb) /\ bt_cur (snd nb) <> 0%nat /\ forall x, In x (blive (snd nb)) -> dist RNum dim q (pt x) < Rfmax.
  Notation entsOf ts := (flat_map (fun nb : nat * btree RNum A => bEnts (fst nb) (snd nb)) ts).

  Lemma okT_near nb e : okT nb -> In e (elemsB (fst nb) (snd nb)) -> nearE e.
  Proof.
    intros (_ & _ & HN) He. apply in_map_iff in He as (x & <- & Hx). apply HN. unfold blive.
    rewrite <- (liveEnts_items (fst nb)). apply in_map. exact Hx.
  Qed.

  Lemma knnChain_spec update recurse ts : (forall nb, In nb ts -> okT nb) ->
    forall V c, (forall e, In e V -> nearE e) -> settled V c ->
    exists c', knnChain dim pt nthel q update recurse k true ts (bbuf (cb c)) = Ok (bbuf (cb c')) /\
      settled (V ++ map mk (entsOf ts)) c'.
  Proof.
    induction ts as [|[id b] ts IH]; intros HT V c HNV HS; cbn [knnChain flat_map map].
    - rewrite app_nil_r. eauto.
    - destruct (HT (id, b) (or_introl eq_refl)) as (T & Hne & HN). cbn [fst snd] in *.
      rewrite (settled_onSlice HS).
      pose proof (@knnSingle_spec update recurse id b V c T Hne) as H.
      assert (HN' : forall e, In e (elemsB id b) -> nearE e).
      { intros e He. apply (@okT_near (id, b)); auto. apply HT; left; auto. }
      specialize (H HN' HNV (settled_covers HS)).
      assert (HL : (k <= length V)%nat).
      { destruct HS as (_ & _ & _ & G & HP & HLF & _). apply Permutation_length in HP.
        rewrite app_length in HP. lia. }
      destruct (Nat.leb_spec k (length V + bt_cur b)); [|lia].
      destruct H as (c1 & -> & HS1). cbn [bind].
      destruct (IH (fun nb Hnb => HT nb (or_intror Hnb)) (V ++ elemsB id b) c1) as (c2 & E & HS2); auto.
      { intros e He. apply in_app_or in He as [He|He]; auto. }
      exists c2. split; auto. rewrite map_app, app_assoc. auto.
  Qed.

  Theorem knnSeq_spec update recurse nb ts : (forall nb', In nb' (nb :: ts) -> okT nb') ->
    if (k <=? bt_cur (snd nb))%nat then
      exists l, knnSeq dim pt nthel q update recurse k (nb :: ts) = Ok l /\ nearest k D (entsOf (nb :: ts)) l
    else knnSeq dim pt nthel q update recurse k (nb :: ts) = Throw.
  Proof.
    intros HT. destruct nb as [id b]. cbn [snd]. unfold knnSeq. cbn [knnChain].
    destruct (HT (id, b) (or_introl eq_refl)) as (T & Hne & HN). cbn [fst snd] in *.
    pose proof (@knnSingle_spec update recurse id b [] (onSlice k false (freshSlice RNum A k)) T Hne) as H.
    assert (HN' : forall e, In e (elemsB id b) -> nearE e).
    { intros e He. apply (@okT_near (id, b)); auto. apply HT; left; auto. }
    specialize (H HN' (fun e He => match He with end) fresh_covers). cbn [length plus app] in H.
    destruct (k <=? bt_cur b)%nat.
    - destruct H as (c & -> & HS). cbn [bind].
      destruct (@knnChain_spec update recurse ts (fun nb Hnb => HT nb (or_intror Hnb)) _ c HN' HS) as (c2 & E & HS2).
      unfold freshSlice in *. rewrite E. cbn [bind]. apply read_settled. cbn [flat_map]. rewrite map_app. exact HS2.
    - rewrite H. reflexivity.
  Qed.

  (** Inserting into a full half fills the buffer and selects. *)
  Lemma fill_settled es : forall V c, rep V c -> (k <= bptr (cb c))%nat -> es <> [] ->
    (bptr (cb c) + length es = 2 * k)%nat ->
    exists c', cinsertAll nthel es c = Ok c' /\ settled (V ++ es) c'.
  Proof.
    induction es as [|e es IH]; intros V c HR Hp Hne HL; [congruence|]. cbn [cinsertAll].
    destruct (@crep_insert RNum _ R_ordlaws ent nthel Hnth k Hk V c e HR I) as (c1 & E1 & HR1).
    rewrite E1. cbn [bind]. cbn [length] in HL.
    assert (Hb : bk (cb c) = k /\ length (bbuf (cb c)) = (2 * k)%nat) by (split; apply HR).
    destruct Hb as [Hbk Hbl].
    unfold cinsert in E1. cbn [cb bbuf bptr] in E1.
    destruct (Nat.leb_spec (length (bbuf (cb c))) (bptr (cb c))); [lia|].
    rewrite upd_length in E1.
    destruct (Nat.leb_spec (length (bbuf (cb c))) (S (bptr (cb c)))) as [Hf|Hf].
    - assert (es = []) as -> by (destruct es; auto; cbn in HL; lia). cbn [cinsertAll].
      exists c1. split; auto.
      match type of E1 with ('(_, _) <- ?z ;; _) = _ => destruct z as [[m c2]| | |] eqn:E2 end; try discriminate.
      cbn [bind] in E1. injection E1 as <-. apply covers_settled.
      + exists (V ++ [e]), []. split; auto. rewrite app_nil_r. split; auto. intros w [].
      + unfold ckeepK in E2. cbn [cb bk bptr bbuf cached] in E2. rewrite Hbk in E2.
        destruct (_ <? _)%nat; [discriminate|]. destruct (_ =? _)%nat; [discriminate|].
        destruct (_ <? _)%nat; [discriminate|]. injection E2 as _ <-. reflexivity.
      + eapply ckeepK_cached; eauto.
    - injection E1 as <-. destruct (IH (V ++ [e]) _ HR1) as (c2 & E2 & HS2); cbn [cb bptr]; try lia.
      { intros ->. cbn in HL. lia. }
      exists c2. split; auto. rewrite <- app_assoc in HS2. exact HS2.
  Qed.

  Lemma fill_many fs : forall V c, settled V c -> (forall f, In f fs -> length f = k) ->
    exists c', cinsertAll nthel (concat fs) c = Ok c' /\ settled (V ++ concat fs) c'.
  Proof.
    induction fs as [|f fs IH]; intros V c HS HL; cbn [concat].
    - rewrite app_nil_r. exists c. auto.
    - pose proof (HL f (or_introl eq_refl)) as Hf.
      destruct HS as (HR & Hp & _).
      destruct (@fill_settled f V c HR) as (c1 & E1 & HS1); [lia| |lia|].
      { intros ->. cbn in Hf. lia. }
      destruct (IH (V ++ f) c1 HS1) as (c2 & E2 & HS2); [intros; apply HL; right; auto|].
      exists c2. split; [|rewrite app_assoc; auto].
      revert E1 E2. clear. revert c. induction f as [|e f IHf]; intros c E1 E2; cbn in *.
      + injection E1 as <-. auto.
      + destruct (cinsert nthel e c); try discriminate. cbn [bind] in *. apply IHf; auto.
  Qed.

  Lemma knnEach_spec update recurse ts : (forall nb, In nb ts -> okT nb) ->
    if forallb (fun nb => k <=? bt_cur (snd nb))%nat ts then
      exists cs, knnEach dim pt nthel q update recurse k ts = Ok (map (fun c => bbuf (cb c)) cs) /\
        Forall2 (fun nb c => settled (elemsB (fst nb) (snd nb)) c) ts cs
    else knnEach dim pt nthel q update recurse k ts = Throw.
  Proof.
    induction ts as [|[id b] ts IH]; intros HT; cbn [forallb knnEach].
    - exists []. split; auto.
    - destruct (HT (id, b) (or_introl eq_refl)) as (T & Hne & HN). cbn [fst snd] in *.
      pose proof (@knnSingle_spec update recurse id b [] (onSlice k false (freshSlice RNum A k)) T Hne) as H.
      assert (HN' : forall e, In e (elemsB id b) -> nearE e).
      { intros e He. apply (@okT_near (id, b)); auto. apply HT; left; auto. }
      specialize (H HN' (fun e He => match He with end) fresh_covers). cbn [length plus app] in H.
      specialize (IH (fun nb Hnb => HT nb (or_intror Hnb))).
      destruct (k <=? bt_cur b)%nat; cbn [andb].
      + destruct H as (c & -> & HS). cbn [bind].
        destruct (forallb _ ts).
        * destruct IH as (cs & -> & HF). cbn [bind]. exists (c :: cs). split; auto.
        * rewrite IH. reflexivity.
      + rewrite H. reflexivity.
  Qed.

  Theorem knnParallel_spec update recurse ts : ts <> [] -> (forall nb, In nb ts -> okT nb) ->
    if forallb (fun nb => k <=? bt_cur (snd nb))%nat ts then
      exists l, (sls <- knnEach dim pt nthel q update recurse k ts ;; knnMerge nthel k sls) = Ok l /\
        nearest k D (entsOf ts) l
    else (sls <- knnEach dim pt nthel q update recurse k ts ;; knnMerge nthel k sls) = Throw.
  Proof.
    intros Hne HT. pose proof (@knnEach_spec update recurse ts HT) as H.
    destruct (forallb _ ts); [|rewrite H; reflexivity].
    destruct H as (cs & -> & HF). cbn [bind].
    destruct HF as [|nb c0 ts cs HS0 HF]; [congruence|]. cbn [map knnMerge].
    rewrite (settled_onSlice HS0).
    assert (HG : exists Gs, Permutation (concat (map (fun c => firstn k (bbuf (cb c))) cs) ++ Gs) (map mk (entsOf ts)) /\
      (forall f, In f (map (fun c => firstn k (bbuf (cb c))) cs) -> length f = k) /\
      forall g, In g Gs -> dom k (concat (map (fun c => firstn k (bbuf (cb c))) cs)) (cost g)).
    { clear HS0 Hne HT nb c0. induction HF as [|nb c ts cs HS HF IH].
      - exists []. split; auto. split; [intros f []|intros g []].
      - destruct IH as (Gs & HP & HL & HD).
        destruct HS as (_ & _ & _ & G & HPG & HLF & HFG & _).
        exists (G ++ Gs). cbn [map concat flat_map]. rewrite map_app. split; [|split].
        + rewrite <- HPG, <- HP. rewrite <- !app_assoc. apply Permutation_app_head.
          rewrite !app_assoc. apply Permutation_app_tail. apply Permutation_app_comm.
        + intros f [<-|Hf]; auto.
        + intros g Hg. apply in_app_or in Hg as [Hg|Hg].
          * exists (firstn k (bbuf (cb c))). eexists. split; [reflexivity|]. split; [lia|]. auto.
          * destruct (HD g Hg) as (F1 & G1 & P1 & L1 & H1).
            exists F1, (firstn k (bbuf (cb c)) ++ G1). split; auto.
            rewrite <- P1. rewrite !app_assoc. apply Permutation_app_tail. apply Permutation_app_comm. }
    destruct HG as (Gs & HP & HL & HD).
    destruct (@fill_many (map (fun c => firstn k (bbuf (cb c))) cs) _ c0 HS0 HL) as (c' & E & HS').
    rewrite map_map. rewrite E. cbn [bind]. rewrite (bufAt_firstn HS').
    apply read_settled. cbn [flat_map]. rewrite map_app.
    apply covers_settled; [|apply HS'|apply HS'].
    eexists. exists Gs. split; [apply HS'|]. split; [rewrite <- app_assoc, HP; reflexivity|].
    intros g Hg. destruct (HD g Hg) as (F1 & G1 & P1 & L1 & H1).
    exists F1, (G1 ++ elemsB (fst nb) (snd nb)). split; auto. rewrite app_assoc, P1. apply Permutation_app_comm.
  Qed.

  Lemma nearest_perm B (d : B -> R) L L' l : Permutation L L' -> nearest k d L l -> nearest k d L' l.
  Proof. intros P (H1 & rest & H2 & H3). split; auto. exists rest. rewrite <- P. auto. Qed.
End Obj.

Lemma nearest_ext E k (d d' : E -> R) all l : (forall x, d x = d' x) -> nearest k d all l -> nearest k d' all l.
Proof. intros H (H1 & rest & H2 & H3). split; auto. exists rest. split; auto. intros x y Hx Hy. rewrite <- !H. auto. Qed.

(** *** The trees a forest gathers *)
Section Gather.
  Variable N : Num.
  Variable ok : nT N -> Prop.
  Variable dim : nat.
  Variable A : Type.
  Variable pt : A -> list (nT N).
  Variables B smax : nat.
  Notation tOk := (treeOk ok dim pt).

  Lemma empty_ents id (b : btree N A) : tOk b -> bt_cur b = 0%nat -> bEnts id b = [].
  Proof.
    intros T H. rewrite (to_cur T) in H. unfold blive in H. rewrite <- (liveEnts_items id) in H.
    rewrite map_length in H. unfold bEnts. destruct (liveEnts _ _ _ _ _); auto. discriminate.
  Qed.

  Lemma gather_slots (bs : list (btree N A)) mask : forall i,
    (forall j b, nth_error bs j = Some b -> tOk b /\ (Nat.testbit mask (i + j) = false -> bt_cur b = 0%nat)) ->
    flat_map (fun nb => bEnts (fst nb) (snd nb))
      (map (fun kb => (S (fst kb), snd kb))
        (filter (fun kb => Nat.testbit mask (fst kb)) (combine (seq i (length bs)) bs)))
    = slotEnts (S i) bs.
  Proof.
    induction bs as [|b bs IH]; intros i H; [reflexivity|].
    cbn [length seq combine filter fst slotEnts].
    assert (IH' := IH (S i)). rewrite <- IH'.
    2:{ intros j b' Hj. replace (S i + j)%nat with (i + S j)%nat by lia. apply H. auto. }
    destruct (H 0%nat b eq_refl) as [T Hc]. rewrite Nat.add_0_r in Hc.
    destruct (Nat.testbit mask i); [reflexivity|]. rewrite (empty_ents (S i) T (Hc eq_refl)). reflexivity.
  Qed.

  Lemma fullTrees_ents (t : ltree N A) : ltInv ok dim pt B smax t ->
    flat_map (fun nb => bEnts (fst nb) (snd nb)) (fullTrees t) = ltEnts t.
  Proof.
    intros I. unfold fullTrees, ltEnts. rewrite flat_map_app. cbn [slotEnts]. f_equal.
    - destruct (Nat.eqb_spec (bt_cur (lt_buf t)) 0) as [E|E].
      + rewrite (empty_ents 0 (li_buf I) E). reflexivity.
      + cbn. rewrite app_nil_r. reflexivity.
    - apply gather_slots. intros j b Hj. pose proof (li_slots I j Hj) as S. split; [apply (so_ok S)|].
      intros Hb. cbn [plus] in Hb. pose proof (so_cur S) as Hc. rewrite Hb in Hc. auto.
  Qed.

  (** What is gathered: the buffer if it holds a point, and every static tree
      that does. *)
  Lemma fullTrees_In (t : ltree N A) id b : ltInv ok dim pt B smax t ->
    (In (id, b) (fullTrees t) <-> nth_error (lt_buf t :: lt_trees t) id = Some b /\ bt_cur b <> 0%nat).
  Proof.
    intros I. unfold fullTrees. rewrite in_app_iff.
    assert (HS : In (id, b) (map (fun kb => (S (fst kb), snd kb))
        (filter (fun kb => Nat.testbit (lt_mask t) (fst kb)) (combine (seq 0 (length (lt_trees t))) (lt_trees t)))) <->
        exists j, id = S j /\ nth_error (lt_trees t) j = Some b /\ Nat.testbit (lt_mask t) j = true).
    { rewrite in_map_iff.
      assert (HC : forall (l : list (btree N A)) i j x, In (j, x) (combine (seq i (length l)) l) <->
                 exists m, j = (i + m)%nat /\ nth_error l m = Some x).
      { induction l as [|y l IH]; intros i j x; cbn [length seq combine].
        - split; [intros []|]. intros (m & _ & H). destruct m; discriminate.
        - cbn [In]. rewrite IH. split.
          + intros [H|(m & -> & H)]; [injection H as -> ->; exists 0%nat; split; auto; lia|].
            exists (S m). split; auto. lia.
          + intros (m & -> & H). destruct m as [|m]; [left; cbn in H; injection H as ->; f_equal; lia|].
            right. exists m. split; auto. lia. }
      split.
      - intros ((j & x) & E & H). cbn in E. injection E as <- ->. apply filter_In in H as [H1 H2].
        apply HC in H1 as (m & -> & H1). exists m. auto.
      - intros (j & -> & H1 & H2). exists (j, b). split; auto. apply filter_In. split; auto.
        apply HC. exists j. auto. }
    rewrite HS. split.
    - intros [H|(j & -> & H1 & H2)].
      + destruct (Nat.eqb_spec (bt_cur (lt_buf t)) 0); [destruct H|]. destruct H as [H|[]].
        injection H as <- <-. auto.
      + split; auto. pose proof (so_cur (li_slots I j H1)) as Hc. rewrite H2 in Hc. lia.
    - intros [H1 H2]. destruct id as [|j]; cbn [nth_error] in H1.
      + injection H1 as <-. left. destruct (Nat.eqb_spec (bt_cur (lt_buf t)) 0); [congruence|]. left; auto.
      + right. exists j. split; auto. split; auto. pose proof (so_cur (li_slots I j H1)) as Hc.
        destruct (Nat.testbit (lt_mask t) j); auto; congruence.
  Qed.

  (** The buffer comes first, so the last one is static if one is. *)
  Lemma fullTrees_last (t : ltree N A) init id b j b' :
    fullTrees t = init ++ [(id, b)] -> In (S j, b') (fullTrees t) -> id <> 0%nat.
  Proof.
    unfold fullTrees. set (M := map _ _). intros E H ->.
    destruct M as [|m M'] eqn:EM.
    - rewrite app_nil_r in H. destruct (_ =? _)%nat; [destruct H|]. destruct H as [H|[]]. discriminate.
    - destruct (@exists_last _ (m :: M')) as (M2 & m2 & E2); [discriminate|].
      assert (Hm : In m2 M) by (rewrite EM, E2; apply in_or_app; cbn; auto).
      rewrite E2, app_assoc in E. apply app_inj_tail in E as [_ ->].
      apply in_map_iff in Hm as (kb & Hm & _). discriminate.
  Qed.
End Gather.
