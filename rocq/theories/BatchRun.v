(** Histories of one tree object: any sequence of insertions and bulk erasures
    from the empty tree. *)
From Verif Require Import Base Num KdModel KdSpec RangeModel RangeProofs BatchModel BatchTree BatchMedian BatchPack BatchErase BatchObj.
Set Implicit Arguments.

Section Run.
  Variable N : Num.
  Variable ok : nT N -> Prop.
  Variable dim : nat.
  Variable A : Type.
  Variable pt : A -> list (nT N).
  Notation okI := (okItem N ok dim pt).
  Variable dflt : A.
  Variable build : btree N A -> list A -> res (btree N A).

  (** [reach full P b e]: [b] results from a new tree by insertions of
      non-empty batches and bulk erasures, where the points held after each
      insertion satisfy [P] and fit the tree.  [e] is set when the last thing
      that happened to a non-empty tree was a bulk erase without rebuild; a
      batch is only inserted then if some point is left (see C27).  [full]:
      the item array has full length from the start (bhlkdtree.h). *)
  Inductive reach (full : bool) (P : list A -> Prop) (max : nat) : btree N A -> bool -> Prop :=
  | reach_new j its : 2 ^ j <= max -> length its <= 2 ^ j -> (full = true -> length its = 2 ^ j) ->
      (forall x, In x its -> okI x) -> reach full P max (bnew N j its) false
  | reach_insert b e points b' : reach full P max b e -> points <> [] -> (forall x, In x points -> okI x) ->
      (e = true -> bt_cur b <> 0) -> length (blive b) + length points <= bt_cap b ->
      P (blive b ++ points) -> binsert dflt build b points = Ok b' -> reach full P max b' false
  | reach_erase b e part lfirst rebuild Q b' : reach full P max b e -> part_ok part ->
      (forall q, In q Q -> okI q) ->
      bbulkEraseR dim pt dflt build part lfirst rebuild b Q = Ok b' ->
      reach full P max b' (if rebuild then false else if bt_cur b =? 0 then e else true).

  Hypothesis OL : OrdLaws N ok.
  Hypothesis EL : EqLaw N ok.
  Hypothesis Hdim : 0 < dim.
  Variable max : nat.
  Variable full : bool.
  Definition pre (b : btree N A) (n : nat) : Prop := full = true -> n <= length (bt_items b).
  Hypothesis Hbuild : buildSpec ok dim pt max build pre.

  Lemma pre_items b b' n : bt_items b = bt_items b' -> pre b n -> pre b' n.
  Proof. unfold pre. intros ->. auto. Qed.
  Lemma pre_le b n m : m <= n -> pre b n -> pre b m.
  Proof. unfold pre. intros H1 H2 H3. specialize (H2 H3). lia. Qed.

  Record runInv (b : btree N A) (e : bool) : Prop := {
    ri_tree : treeOk ok dim pt b;
    ri_fresh : e = false -> fresh b;
    ri_pre : pre b (bt_cap b);
    ri_max : bt_cap b <= max }.

  Lemma live_le_cap b : treeOk ok dim pt b -> length (blive b) <= bt_cap b.
  Proof.
    intros T. pose proof (to_items T). unfold blive. rewrite packed_flat.
    assert (G : forall l, length (flat_map (pick (bt_items b) (bt_pres b)) l) <= length l).
    { induction l as [|i l IH]; cbn; auto. rewrite app_length. unfold pick at 1.
      destruct (nth_error (bt_items b) i); [destruct (nth_error (bt_pres b) i) as [[|]|]|]; cbn; lia. }
    destruct (Nat.eq_dec (bt_cur b) 0) as [E | E].
    - rewrite (to_cur T) in E. unfold blive in E. rewrite packed_flat in E. lia.
    - destruct (to_root T E) as (t & _ & K & I). apply inv_range in I. rewrite K in I. cbn in I.
      eapply Nat.le_trans; [apply G|]. rewrite seq_length. lia.
  Qed.

  (** One insertion. *)
  Lemma insert_step b e points : runInv b e -> (e = true -> bt_cur b <> 0) -> (forall x, In x points -> okI x) ->
    length (blive b) + length points <= bt_cap b ->
    exists b', binsert dflt build b points = Ok b' /\ (points <> [] -> runInv b' false) /\ bt_cap b' = bt_cap b /\
      Permutation (blive b ++ points) (blive b') /\
      (treeSep pt b -> tieFree N dim pt (blive b ++ points) -> treeSep pt b').
  Proof.
    intros [T F Pr M] He Hok Hc.
    assert (F' : fresh b).
    { destruct e; [|auto]. intros E. exfalso. apply He; auto. }
    destruct (@binsert_ok N ok dim A pt max build pre Hbuild pre_items dflt b points T F' Hok Hc)
      as (b' & B1 & B2 & B3 & B4 & B5 & B6 & B7).
    { lia. } { apply (@pre_le b (bt_cap b)); auto. }
    exists b'. split; auto. split; auto. intros _. constructor; auto.
    - rewrite B4. auto.
    - rewrite B4. auto.
  Qed.

  (** One bulk erasure. *)
  Lemma erase_step b e part lfirst rebuild Q : runInv b e -> part_ok part ->
    exists b', bbulkEraseR dim pt dflt build part lfirst rebuild b Q = Ok b' /\
      runInv b' (if rebuild then false else if bt_cur b =? 0 then e else true) /\ bt_cap b' = bt_cap b /\
      (exists rem, Permutation (blive b) (rem ++ blive b') /\
         forall x, In x rem -> exists q, In q Q /\ peq N dim (pt q) (pt x) = true) /\
      (treeSep pt b -> (forall q, In q Q -> okI q) -> forall p, okP N ok dim p ->
         cnt dim pt p (blive b') = cnt dim pt p (blive b) - cnt dim pt p Q) /\
      (treeSep pt b -> (forall q, In q Q -> okI q) -> tieFree N dim pt (blive b) -> treeSep pt b').
  Proof.
    intros [T F Pr M] Hpart. destruct rebuild.
    - destruct (@bbulkEraseR_ok N ok OL dim A pt EL max Hdim build pre Hbuild pre_items dflt part Hpart lfirst b Q T)
        as (b' & B1 & B2 & B3 & B4 & B5 & B6 & B7 & B8).
      + pose proof (live_le_cap T). lia.
      + intros n Hn. apply (@pre_le b (bt_cap b)); auto. pose proof (live_le_cap T). lia.
      + exists b'. split; auto. split; [|auto 6]. constructor; auto; rewrite B4; auto.
    - destruct (@bbulkErase_ok N ok OL dim A pt EL part Hpart lfirst b Q T) as (b' & B1 & B2 & B3 & B4 & B5 & B6).
      exists b'. unfold bbulkEraseR. rewrite B1. cbn [bind]. split; auto. split; [|split; [|split; [|split]]]; auto.
      + constructor; auto.
        * destruct (Nat.eqb_spec (bt_cur b) 0) as [E | E]; [|discriminate].
          intros ->. unfold bbulkErase in B1. rewrite E in B1. injection B1 as <-. auto.
        * rewrite B3. apply (@pre_items b); auto.
        * rewrite B3. auto.
      + intros S HQ. apply (B6 S HQ).
      + intros S HQ _. apply (B6 S HQ).
  Qed.

  Lemma tieFree_sub l r : tieFree N dim pt (l ++ r) -> tieFree N dim pt r.
  Proof. intros H d Hd. specialize (H d Hd). apply FOP_app in H. tauto. Qed.

  Theorem reach_inv P b e : reach full P max b e ->
    runInv b e /\ ((forall l, P l -> tieFree N dim pt l) -> treeSep pt b /\ tieFree N dim pt (blive b)).
  Proof.
    induction 1 as [j its Hj Hl Hf Hok | b e points b' R [I S] Hne Hok He Hc HP E
                   | b e part lfirst rebuild Q b' R [I S] Hpart HQ E].
    - destruct (@bnew_ok N ok dim A pt j its Hl Hok) as (T & F & L). split.
      + constructor; auto. intros G. cbn. rewrite Hf; auto.
      + intros _. split; [intros G; cbn in G; congruence|]. rewrite L. intros d Hd. constructor.
    - destruct (@insert_step b e points I He Hok Hc) as (b1 & E1 & I1 & _ & P1 & S1).
      rewrite E in E1. injection E1 as <-. split; auto. intros HT. split; [apply S1|]; auto.
      + apply S; auto.
      + eapply tieFree_perm; [exact P1|]. auto.
    - destruct (@erase_step b e part lfirst rebuild Q I Hpart) as (b1 & E1 & I1 & _ & (rem & P1 & _) & _ & S1).
      rewrite E in E1. injection E1 as <-. split; auto. intros HT. destruct (S HT) as [S' T']. split; [apply S1; auto|].
      eapply tieFree_sub. eapply tieFree_perm; [exact P1|]. auto.
  Qed.

  (** *** In any reachable state *)
  Definition anyP (l : list A) : Prop := True.

  Theorem run_general b e : reach full anyP max b e ->
    (* the stored points, by range query *)
    (forall qb, okbox ok dim qb -> borth dim pt b qb = Ok (filter (inQBox N dim A pt qb) (blive b))) /\
    bt_cur b = length (blive b) /\
    (* an insertion adds exactly the batch *)
    (forall points, points <> [] -> (forall x, In x points -> okI x) -> (e = true -> bt_cur b <> 0) ->
       length (blive b) + length points <= bt_cap b ->
       exists b', binsert dflt build b points = Ok b' /\ reach full anyP max b' false /\
         Permutation (blive b ++ points) (blive b')) /\
    (* an erasure removes only requested points *)
    (forall part lfirst rebuild Q, part_ok part -> (forall q, In q Q -> okI q) ->
       exists b', bbulkEraseR dim pt dflt build part lfirst rebuild b Q = Ok b' /\
         reach full anyP max b' (if rebuild then false else if bt_cur b =? 0 then e else true) /\
         exists rem, Permutation (blive b) (rem ++ blive b') /\
           forall x, In x rem -> exists q, In q Q /\ peq N dim (pt q) (pt x) = true) /\
    (* a point that is not stored is not reported *)
    (forall q, exists r, bcontains dim pt b q = Ok r /\
       (r = true -> exists x, In x (blive b) /\ peq N dim (pt q) (pt x) = true)).
  Proof.
    intros R. destruct (reach_inv R) as [I _]. pose proof (ri_tree I) as T.
    split; [intros; apply (borth_ok OL T); auto|]. split; [apply T|]. split; [|split].
    - intros points Hne Hok He Hc. destruct (@insert_step b e points I He Hok Hc) as (b' & E & _ & _ & P & _).
      exists b'. split; auto. split; auto. eapply reach_insert; eauto. exact Logic.I.
    - intros part lfirst rebuild Q Hpart HQ.
      destruct (@erase_step b e part lfirst rebuild Q I Hpart) as (b' & E & _ & _ & H & _).
      exists b'. split; auto. split; auto. eapply reach_erase; eauto.
    - intros q. destruct (bcontains_run EL q T) as (r & H1 & H2 & _). eauto.
  Qed.

  (** When no two stored points share a coordinate, exactly the requested ones go. *)
  Lemma erase_filter (b b' : btree N A) Q rem : treeOk ok dim pt b -> tieFree N dim pt (blive b) ->
    (forall q, In q Q -> okI q) -> Permutation (blive b) (rem ++ blive b') ->
    (forall x, In x rem -> exists q, In q Q /\ peq N dim (pt q) (pt x) = true) ->
    (forall p, okP N ok dim p -> cnt dim pt p (blive b') = cnt dim pt p (blive b) - cnt dim pt p Q) ->
    Permutation (blive b') (filter (fun x => negb (existsb (fun q => peq N dim (pt q) (pt x)) Q)) (blive b)).
  Proof.
    intros T TF HQ P Hrem HC.
    assert (OKL : forall x, In x (blive b) -> okI x) by (intros x Hx; apply (blive_okI x T Hx)).
    assert (EQd : forall d x y, okI x -> okI y -> d < dim -> peq N dim (pt x) (pt y) = true -> ~ apart N pt d x y).
    { intros d x y Hx Hy Hd Hxy Ha. unfold apart in Ha.
      assert (G : nlt N (coord (pt x) d) (coord (pt x) d) = false /\ nlt N (coord (pt y) d) (coord (pt y) d) = false)
        by (split; apply (ol_irrefl OL); auto).
      rewrite peq_iff in Hxy. specialize (Hxy d Hd). destruct G as [G1 G2].
      pose proof (eq_lt_ EL (coord (pt x) d) (coord (pt y) d) (Hx d Hd) (Hy d Hd) Hxy) as L.
      destruct Ha as [Ha | Ha].
      - rewrite L in Ha. congruence.
      - rewrite <- L in Ha. congruence. }
    (* in a tie-free list at most one point equals a given one *)
    assert (ONE : forall l p, (forall x, In x l -> okI x) -> okP N ok dim p -> tieFree N dim pt l -> cnt dim pt p l <= 1).
    { induction l as [|y l IH]; intros p Hl Hp HT; [cbn; lia|]. unfold cnt. cbn [filter].
      assert (HT' : tieFree N dim pt l) by (intros d Hd; specialize (HT d Hd); inversion HT; auto).
      destruct (peq N dim p (pt y)) eqn:E1; [|apply IH; auto; intros x Hx; apply Hl; right; auto].
      cbn [length]. fold (cnt dim pt p l). rewrite cnt_0; [lia|].
      intros z Hz. destruct (peq N dim p (pt z)) eqn:E2; auto. exfalso.
      assert (Oy : okI y) by (apply Hl; left; auto). assert (Oz : okI z) by (apply Hl; right; auto).
      specialize (HT 0 Hdim). inversion HT as [|? ? F1 F2]; subst. rewrite Forall_forall in F1.
      apply (EQd 0 y z Oy Oz Hdim); auto.
      apply (peq_trans EL Oy Hp Oz); auto. rewrite (peq_sym EL Oy Hp). auto. }
    assert (KEEP : forall x, In x (blive b') -> existsb (fun q => peq N dim (pt q) (pt x)) Q = false).
    { intros x Hx. destruct (existsb _ Q) eqn:Ex; auto. exfalso.
      apply existsb_exists in Ex as (q & Hq & Eq).
      assert (Ox : okI x).
      { apply OKL. eapply Permutation_in; [apply Permutation_sym; exact P|]. apply in_or_app. auto. }
      pose proof (HC (pt x) Ox) as C. pose proof (ONE (blive b) (pt x) OKL Ox TF) as C1.
      assert (C2 : 1 <= cnt dim pt (pt x) (blive b')).
      { unfold cnt. assert (Hi : In x (filter (fun y => peq N dim (pt x) (pt y)) (blive b'))).
        { apply filter_In. split; auto. apply (peq_refl EL Ox). }
        destruct (filter _ (blive b')); [destruct Hi|cbn; lia]. }
      assert (C3 : 1 <= cnt dim pt (pt x) Q).
      { unfold cnt. assert (Hi : In q (filter (fun y => peq N dim (pt x) (pt y)) Q)).
        { apply filter_In. split; auto. rewrite (peq_sym EL Ox (HQ q Hq)). auto. }
        destruct (filter _ Q); [destruct Hi|cbn; lia]. }
      lia. }
    assert (G : filter (fun x => negb (existsb (fun q => peq N dim (pt q) (pt x)) Q)) (rem ++ blive b') = blive b').
    { rewrite filter_app.
      replace (filter _ rem) with (@nil A).
      - cbn [app]. clear -KEEP. induction (blive b') as [|x l IH]; cbn; auto.
        rewrite KEEP by (left; auto). cbn. rewrite IH; auto. intros y Hy. apply KEEP. right. auto.
      - symmetry. clear -Hrem. induction rem as [|x l IH]; cbn; auto.
        destruct (Hrem x (or_introl eq_refl)) as (q & Hq & Eq).
        assert (Ex : existsb (fun q => peq N dim (pt q) (pt x)) Q = true) by (apply existsb_exists; eauto).
        rewrite Ex. cbn. apply IH. intros y Hy. apply Hrem. right. auto. }
    rewrite <- G at 1. apply Permutation_filter. apply Permutation_sym. auto.
  Qed.

  (** When no two stored points ever share a coordinate. *)
  Theorem run_tieFree b e : reach full (tieFree N dim pt) max b e ->
    (forall q, okI q -> exists r, bcontains dim pt b q = Ok r /\
       (r = true <-> exists x, In x (blive b) /\ peq N dim (pt q) (pt x) = true)) /\
    (forall part lfirst rebuild Q, part_ok part -> (forall q, In q Q -> okI q) ->
       exists b', bbulkEraseR dim pt dflt build part lfirst rebuild b Q = Ok b' /\
         Permutation (blive b') (filter (fun x => negb (existsb (fun q => peq N dim (pt q) (pt x)) Q)) (blive b))).
  Proof.
    intros R. destruct (reach_inv R) as [I S]. destruct S as [S TF]; auto. pose proof (ri_tree I) as T.
    split; [intros q Hq; apply (bcontains_ok EL T S Hq)|].
    intros part lfirst rebuild Q Hpart HQ.
    destruct (@erase_step b e part lfirst rebuild Q I Hpart) as (b' & E & _ & _ & (rem & P & Hrem) & HC & _).
    exists b'. split; auto. specialize (HC S HQ).
    apply (@erase_filter b b' Q rem T TF HQ P Hrem HC).
  Qed.
End Run.

(** *** The two layouts *)
From Verif Require Import BatchSplit BatchAddr BatchInst.

Section Layout.
  Variable N : Num.
  Variable ok : nT N -> Prop.
  Variable dim : nat.
  Variable A : Type.
  Variable pt : A -> list (nT N).
  Notation okI := (okItem N ok dim pt).

  (** The build function of a cache-oblivious tree (serial or parallel) or of a
      heap-layout tree; the flag tells whether the item array is preallocated. *)
  Inductive treeLayout (ls max : nat) : bool -> (btree N A -> list A -> res (btree N A)) -> Prop :=
  | layCO msplit psplit par ord : msplit_ok N dim pt okI msplit -> msplit_ok N dim pt okI psplit ->
      (forall n, par n = true -> ls < n) -> (forall n, Permutation (seq 0 n) (ord n)) ->
      numLevels ls max <= maxLevels ->
      treeLayout ls max false (cobuild (coBuilder N dim pt ls split_points child_indices msplit psplit par ord))
  | layBHL msplit : msplit_ok N dim pt okI msplit ->
      treeLayout ls max true (bhlbuild (bhlBuilder N dim pt ls msplit)).

  Lemma layout_spec ls max full build : OrdLaws N ok -> 0 < dim -> 1 <= ls -> treeLayout ls max full build ->
    buildSpec ok dim pt max build (pre full).
  Proof.
    intros OL Hdim Hls [msplit psplit par ord H1 H2 H3 H4 H5 | msplit H1].
    - pose proof (cobuild_ok OL Hdim (@coBuilder_ok N dim A pt ok OL Hdim ls Hls msplit psplit H1 H2 par H3 ord H4 max H5)) as S.
      intros b points E1 E2 E3 E4 E5 E6 _ E7.
      destruct (S b points E1 E2 E3 E4 E5 E6 Logic.I E7) as (b' & B1 & B2 & B3 & B4 & _ & B5).
      exists b'. split; auto. split; auto. split; auto. split; auto. split; auto. intros _ G. discriminate.
    - pose proof (bhlbuild_ok OL Hdim (@bhlBuilder_ok N dim A pt ok OL Hdim ls Hls msplit H1 max)) as S.
      intros b points E1 E2 E3 E4 E5 E6 Hp E7.
      destruct (S b points E1 E2 E3 E4 E5 E6 (Hp eq_refl) E7) as (b' & B1 & B2 & B3 & B4 & BP & B5).
      exists b'. split; auto. split; auto. split; auto. split; auto. split; auto. intros G _. apply BP. auto.
  Qed.
End Layout.
