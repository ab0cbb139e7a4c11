(** Correctness of the kNN search over exact arithmetic. *)
From Coq Require Import Reals Lra.
From Verif Require Import Base Num KdModel KdSpec KdBuild KdConstruct RGeom RangeModel RangeProofs
  KnnModel KnnBuf.
Set Implicit Arguments.
Local Open Scope R_scope.

Section KnnProofs.
  Variable dim : nat.
  Variable A : Type.
  Variable pt : A -> list (nT RNum).
  Variable nthel : nat -> list (elem RNum A) -> list (elem RNum A).
  Hypothesis Hnth : nth_ok (fun _ : nT RNum => True) nthel.
  Variable srt : list (elem RNum A) -> list (elem RNum A).
  Hypothesis Hsrt : sort_ok (fun _ : nT RNum => True) srt.
  Variable k : nat.
  Hypothesis Hk : (1 <= k)%nat.
  Variable q : list R.

  Notation D x := (dist RNum dim q (pt x)).
  Notation mk := (mkElem RNum dim A pt q).
  Notation rep := (bufrep (fun _ : nT RNum => True) k).

  Definition near (x : A) : Prop := D x < Rfmax.

  Lemma mk_good x : near x -> good (fun _ : nT RNum => True) (mk x).
  Proof. intros H. split; [reflexivity|]. split; auto. simpl. apply Rltb_true. exact H. Qed.

  Lemma mk_le x y : le (mk x) (mk y) <-> D x <= D y.
  Proof. unfold le, mkElem; simpl. rewrite Rltb_false. reflexivity. Qed.

  Lemma rep_insert_items V V' b : rep (map mk V) b -> (forall x, In x V' -> near x) ->
    exists b', insertAll nthel (map mk V') b = Ok b' /\ rep (map mk (V ++ V')) b'.
  Proof.
    intros HR HN.
    destruct (@rep_insertAll RNum _ R_ordlaws I A nthel Hnth k Hk (map mk V') (map mk V) b HR)
      as (b' & E & HR').
    { intros e He. apply in_map_iff in He as (x & <- & Hx). apply mk_good; auto. }
    rewrite map_app. eauto.
  Qed.

  (** knnRange inserts a part V' of the items; the rest is farther than the
      radius. *)
  Lemma knnRange_spec r (t : tree RNum A) : boxes_ok dim pt t -> (forall x, In x (items t) -> near x) ->
    forall V b, rep (map mk V) b ->
    exists b' V' W, knnRangeHelper RNum dim A pt nthel t q (queryBox RNum dim q r) r b = Ok b' /\
      rep (map mk (V ++ V')) b' /\ Permutation (V' ++ W) (items t) /\
      forall w, In w W -> r < D w.
  Proof.
    induction t as [its bx|bx tl IHl tr IHr]; intros Hb HN V b HR; cbn [knnRangeHelper tbox].
    - destruct (boxCompare RNum dim (queryBox RNum dim q r) bx) eqn:E.
      + destruct (@rep_insert_items V (items (Leaf its bx)) b HR HN) as (b' & E' & HR').
        exists b', (items (Leaf its bx)), []. split; auto. split; auto. rewrite app_nil_r. split; auto.
        intros w [].
      + set (f := fun x => nle RNum (dist RNum dim q (pt x)) r).
        destruct (@rep_insert_items V (filter f its) b HR) as (b' & E' & HR').
        { intros x Hx. apply filter_In in Hx. apply HN. tauto. }
        exists b', (filter f its), (filter (fun x => negb (f x)) its). split; auto. split; auto.
        split; [apply filter_perm_split|].
        intros w Hw. apply filter_In in Hw as [_ Hw]. apply negb_true_iff in Hw.
        unfold f in Hw. simpl in Hw. apply Rleb_false in Hw. exact Hw.
      + exists b, [], its. rewrite app_nil_r. split; auto. split; auto. split; auto.
        intros w Hw. eapply exclude_far; eauto. apply (Hb (Leaf its bx)); simpl; auto.
    - assert (Hbl : boxes_ok dim pt tl).
      { intros s Hs. apply Hb. simpl. right. apply in_or_app; auto. }
      assert (Hbr : boxes_ok dim pt tr).
      { intros s Hs. apply Hb. simpl. right. apply in_or_app; auto. }
      destruct (boxCompare RNum dim (queryBox RNum dim q r) bx) eqn:E.
      + destruct (@rep_insert_items V (items (Node bx tl tr)) b HR HN) as (b' & E' & HR').
        exists b', (items (Node bx tl tr)), []. split; auto. split; auto. rewrite app_nil_r. split; auto.
        intros w [].
      + destruct (IHl Hbl (fun x Hx => HN x (in_or_app _ _ _ (or_introl Hx))) V b HR)
          as (b1 & V1 & W1 & E1 & HR1 & HP1 & HW1).
        rewrite E1. cbn [bind].
        destruct (IHr Hbr (fun x Hx => HN x (in_or_app _ _ _ (or_intror Hx))) _ b1 HR1)
          as (b2 & V2 & W2 & E2 & HR2 & HP2 & HW2).
        exists b2, (V1 ++ V2), (W1 ++ W2). split; auto. rewrite app_assoc. split; auto. split.
        * cbn [items]. rewrite <- HP1, <- HP2. rewrite <- !app_assoc. apply Permutation_app_head.
          rewrite !app_assoc. apply Permutation_app_tail. apply Permutation_app_comm.
        * intros w Hw. apply in_app_or in Hw as [Hw|Hw]; auto.
      + exists b, [], (items (Node bx tl tr)). rewrite app_nil_r. split; auto. split; auto. split; auto.
        intros w Hw. eapply exclude_far; eauto. apply (Hb (Node bx tl tr)); simpl; auto.
  Qed.

  (** [b] represents a part of [all]; every other item has k inserted ones at
      most as far. *)
  Definition covers (all : list A) (b : buffer RNum A) : Prop :=
    exists V U, rep (map mk V) b /\ Permutation (V ++ U) all /\
      forall u, In u U -> exists F G, Permutation (F ++ G) V /\ (k <= length F)%nat /\
                                      forall f, In f F -> D f <= D u.

  Lemma covers_perm all all' b : Permutation all all' -> covers all b -> covers all' b.
  Proof. intros HP (V & U & H1 & H2 & H3). exists V, U. rewrite <- HP. auto. Qed.

  Lemma covers_hasK all b : covers all b -> hasK b = (k <=? length all)%nat.
  Proof.
    intros (V & U & H1 & H2 & H3). rewrite (rep_hasK Hk H1), map_length.
    apply Permutation_length in H2. rewrite app_length in H2.
    destruct U as [|u U].
    - simpl in H2. f_equal. lia.
    - destruct (H3 u ltac:(simpl; auto)) as (F & G & HP & HF & _).
      apply Permutation_length in HP. rewrite app_length in HP.
      transitivity true; [|symmetry]; apply Nat.leb_le; lia.
  Qed.

  (** keepK in terms of items *)
  Lemma keepK_items V b : rep (map mk V) b -> (k <= length V)%nat ->
    exists c b' F G, keepK nthel b = Ok (mk c, b') /\ rep (map mk V) b' /\ bptr b' = k /\
      firstn k (bbuf b') = map mk F /\ length F = k /\ Permutation (F ++ G) V /\ In c F /\
      (forall f, In f F -> D f <= D c) /\ (forall g, In g G -> D c <= D g).
  Proof.
    intros HR HL.
    destruct (@rep_keepK RNum _ R_ordlaws I A nthel Hnth k Hk (map mk V) b HR) as
      (c & b' & E & HR' & Hp & HLF & Hc & Hac & G & HPG & Hcg & _); [rewrite map_length; auto|].
    apply Permutation_map_inv in HPG as (l3 & E3 & HP3).
    set (F := firstn k (bbuf b')) in *.
    assert (EF : F = map mk (firstn k l3)).
    { rewrite <- firstn_map, <- E3, firstn_app, HLF, Nat.sub_diag, firstn_O, app_nil_r.
      rewrite firstn_all2; auto. lia. }
    assert (EG : G = map mk (skipn k l3)).
    { rewrite <- skipn_map, <- E3, skipn_app, HLF, Nat.sub_diag. rewrite skipn_all2 by lia. reflexivity. }
    rewrite EF in Hc. apply in_map_iff in Hc as (x & Ex & Hx). subst c.
    exists x, b', (firstn k l3), (skipn k l3). split; auto. split; auto. split; auto. split; auto.
    split; [rewrite EF, map_length in HLF; auto|]. rewrite firstn_skipn. split; [symmetry; auto|].
    split; auto. split.
    - intros f Hf. apply mk_le. apply Hac. rewrite EF. apply in_map; auto.
    - intros g Hg. apply mk_le. apply Hcg. rewrite EG. apply in_map; auto.
  Qed.

  Lemma knnSibling_some s all b : boxes_ok dim pt s -> (forall x, In x (items s) -> near x) ->
    covers all b ->
    exists b', knnSibling RNum dim A pt nthel (Some s) q b = Ok b' /\ covers (all ++ items s) b'.
  Proof.
    intros Hb HN HC. pose proof (covers_hasK HC) as HK. destruct HC as (V & U & HR & HP & HU).
    unfold knnSibling. rewrite HK.
    destruct (Nat.leb_spec k (length all)) as [Hle|Hgt].
    - assert (HV : (k <= length V)%nat).
      { rewrite (rep_hasK Hk HR), map_length in HK. destruct (Nat.leb_spec k (length V)); auto.
        destruct (Nat.leb_spec k (length all)); [discriminate|lia]. }
      destruct (@keepK_items V _ HR HV) as (c & b1 & F & G & E & HR1 & _ & _ & HLF & HPF & Hc & HFc & HcG).
      rewrite E. cbn [bind fst]. unfold knnRange.
      destruct (@knnRange_spec (fst (mk c)) s Hb HN V b1 HR1) as (b2 & V2 & W & E2 & HR2 & HP2 & HW).
      exists b2. split; [exact E2|]. exists (V ++ V2), (U ++ W). split; auto. split.
      + rewrite <- HP, <- HP2. rewrite <- !app_assoc. apply Permutation_app_head.
        rewrite !app_assoc. apply Permutation_app_tail. apply Permutation_app_comm.
      + intros u Hu. apply in_app_or in Hu as [Hu|Hu].
        * destruct (HU u Hu) as (F' & G' & HP' & HL' & HF'). exists F', (G' ++ V2).
          rewrite app_assoc, HP'. auto.
        * exists F, (G ++ V2). rewrite app_assoc, HPF. split; auto. split; [lia|].
          intros f Hf. specialize (HFc f Hf). specialize (HW u Hu).
          change (fst (mk c)) with (D c) in HW. lra.
    - destruct (@rep_insert_items V (items s) b HR HN) as (b' & E & HR').
      exists b'. split; auto.
      assert (U = []) as ->.
      { destruct U as [|u U]; auto. destruct (HU u ltac:(simpl; auto)) as (F & G & HPF & HF & _).
        apply Permutation_length in HPF, HP. rewrite app_length in *. lia. }
      exists (V ++ items s), []. split; auto. rewrite app_nil_r in *. split; [rewrite HP; auto|].
      intros u [].
  Qed.

  Definition hit (t : tree RNum A) : bool :=
    match boxCompare RNum dim (tbox t) {| bmin := q : list (nT RNum); bmax := q |} with
    | BoxExclude => false | _ => true end.

  (** Along the search path exactly one child contains the query. *)
  Fixpoint pathok (t : tree RNum A) : Prop :=
    match t with
    | Leaf _ _ => True
    | Node _ l r => (hit l = true /\ hit r = false /\ pathok l) \/
                    (hit l = false /\ hit r = true /\ pathok r)
    end.

  Definition knnBody (t : tree RNum A) (out : buffer RNum A) : res (buffer RNum A) :=
    match t with
    | Leaf its _ => insertAll nthel (map mk its) out
    | Node _ l r =>
      o <- knnHelper RNum dim A pt nthel l (Some r) q out ;;
      knnHelper RNum dim A pt nthel r (Some l) q o
    end.

  Lemma knnHelper_eq t sib out :
    knnHelper RNum dim A pt nthel t sib q out =
    if hit t then o <- knnBody t out ;; knnSibling RNum dim A pt nthel sib q o else Ok out.
  Proof.
    unfold hit. destruct t; cbn [knnHelper knnBody tbox];
      destruct (boxCompare _ _ _ _); reflexivity.
  Qed.

  Lemma knnBody_spec t : pathok t -> boxes_ok dim pt t -> (forall x, In x (items t) -> near x) ->
    exists b, knnBody t (newBuffer RNum A k) = Ok b /\ covers (items t) b.
  Proof.
    induction t as [its bx|bx l IHl r IHr]; intros HPt Hb HN.
    - cbn [knnBody].
      destruct (@rep_insert_items [] its (newBuffer RNum A k)) as (b & E & HR).
      { apply rep_new; auto. }
      { exact HN. }
      exists b. split; auto. exists its, []. split; auto. split; [rewrite app_nil_r; auto|].
      intros u [].
    - assert (Hbl : boxes_ok dim pt l).
      { intros s Hs. apply Hb. simpl. right. apply in_or_app; auto. }
      assert (Hbr : boxes_ok dim pt r).
      { intros s Hs. apply Hb. simpl. right. apply in_or_app; auto. }
      assert (Nl : forall x, In x (items l) -> near x) by (intros; apply HN; cbn [items]; apply in_or_app; auto).
      assert (Nr : forall x, In x (items r) -> near x) by (intros; apply HN; cbn [items]; apply in_or_app; auto).
      cbn [knnBody]. destruct HPt as [(Hl & Hr & HP)|(Hl & Hr & HP)].
      + rewrite knnHelper_eq, Hl. destruct (IHl HP Hbl Nl) as (b & -> & HC). cbn [bind].
        destruct (knnSibling_some Hbr Nr HC) as (b' & -> & HC'). cbn [bind].
        rewrite knnHelper_eq, Hr. eauto.
      + rewrite knnHelper_eq, Hl. cbn [bind]. rewrite knnHelper_eq, Hr.
        destruct (IHr HP Hbr Nr) as (b & -> & HC). cbn [bind].
        destruct (knnSibling_some Hbl Nl HC) as (b' & -> & HC').
        exists b'. split; auto. eapply covers_perm; [|exact HC'].
        cbn [items]. apply Permutation_app_comm.
  Qed.

  Definition sortedBy (l : list A) : Prop :=
    forall i j a b, (i <= j)%nat -> nth_error l i = Some a -> nth_error l j = Some b -> D a <= D b.

  (** The answer: k items, nothing else is closer. *)
  Definition isKnn (all l : list A) : Prop :=
    length l = k /\ exists rest, Permutation (l ++ rest) all /\
      forall x y, In x l -> In y rest -> D x <= D y.

  Lemma readBack (b : buffer RNum A) (F : list A) : bptr b = k -> (k <= length (bbuf b))%nat ->
    firstn k (bbuf b) = map mk F ->
    fold_right (fun i acc =>
      match snd (bufAt b i) with
      | Some x => l <- acc ;; Ok (x :: l)
      | None => UB
      end) (Ok []) (seq 0 k) = Ok F.
  Proof.
    intros Hp HL E.
    assert (HLF : length F = k).
    { rewrite <- (map_length mk), <- E, firstn_length. lia. }
    assert (G : forall m, (m <= k)%nat -> fold_right (fun i acc =>
      match snd (bufAt b i) with
      | Some x => l <- acc ;; Ok (x :: l)
      | None => UB
      end) (Ok []) (seq (k - m) m) = Ok (skipn (k - m) F)).
    { induction m as [|m IH]; intros Hm.
      - simpl. rewrite Nat.sub_0_r, skipn_all2 by lia. auto.
      - cbn [seq fold_right]. replace (S (k - S m)) with (k - m)%nat by lia.
        rewrite IH by lia. cbn [bind].
        unfold bufAt. rewrite Hp. destruct (Nat.ltb_spec (k - S m) k); [|lia].
        destruct (nth_error F (k - S m)) as [x|] eqn:Ex; [|apply nth_error_None in Ex; lia].
        assert (En : nth_error (bbuf b) (k - S m) = Some (mk x)).
        { rewrite <- (@firstn_nth_error _ k) by lia. rewrite E. apply map_nth_error; auto. }
        rewrite (nth_error_nth _ _ _ En). cbn [snd mkElem]. f_equal.
        replace (k - m)%nat with (S (k - S m)) by lia.
        clear - Ex. revert Ex. generalize (k - S m)%nat as i. clear.
        induction F as [|y F IH]; intros [|i] Ex; simpl in *; try discriminate.
        + inversion Ex; auto.
        + destruct F; [destruct i; discriminate|]. rewrite <- IH; auto. }
    specialize (G k (le_n k)). rewrite Nat.sub_diag in G. exact G.
  Qed.

  Lemma knnOne_spec t sorted : hit t = true -> pathok t -> boxes_ok dim pt t ->
    (forall x, In x (items t) -> near x) ->
    if (k <=? length (items t))%nat then
      exists l, knnOne RNum dim A pt nthel srt t k sorted q = Ok l /\ isKnn (items t) l /\
                (sorted = true -> sortedBy l)
    else knnOne RNum dim A pt nthel srt t k sorted q = Throw.
  Proof.
    intros Hh HP Hb HN. unfold knnOne. rewrite knnHelper_eq, Hh.
    destruct (knnBody_spec HP Hb HN) as (b & -> & HC). cbn [bind].
    unfold knnSibling. rewrite (covers_hasK HC).
    destruct (Nat.leb_spec k (length (items t))) as [Hle|Hgt]; [|reflexivity].
    cbn [bind]. pose proof (covers_hasK HC) as HK.
    destruct HC as (V & U & HR & HPV & HU).
    assert (HV : (k <= length V)%nat).
    { rewrite (rep_hasK Hk HR), map_length in HK. destruct (Nat.leb_spec k (length V)); auto.
      destruct (Nat.leb_spec k (length (items t))); [discriminate|lia]. }
    destruct (@keepK_items V _ HR HV) as (c & b1 & F & G & E & HR1 & Hp & EF & HLF & HPF & Hc & HFc & HcG).
    rewrite E. cbn [bind].
    assert (HLb : length (bbuf b1) = (2 * k)%nat) by (apply HR1).
    assert (Hkb : bk b1 = k) by (apply HR1).
    assert (Hdom : forall f y, In f F -> In y (G ++ U) -> D f <= D y).
    { intros f y Hf Hy. apply in_app_or in Hy as [Hy|Hy].
      - specialize (HFc f Hf). specialize (HcG y Hy). lra.
      - destruct (HU y Hy) as (F' & G' & HP' & HL' & HF').
        destruct (Rle_dec (D f) (D y)) as [|Hn]; auto. exfalso.
        set (g := fun x => Rltb (D x) (D f)).
        assert (g f = true); [|unfold g in *; apply Rltb_true in H; lra].
        apply (pigeon g F G); auto.
        + rewrite HLF. rewrite (Permutation_length (Permutation_filter g HPF)).
          rewrite <- (Permutation_length (Permutation_filter g HP')).
          rewrite filter_app, app_length, (filter_all g F'); [lia|].
          intros x Hx. apply Rltb_true. specialize (HF' x Hx). lra.
        + intros x Hx Ex z Hz. apply Rltb_false. specialize (HFc f Hf). specialize (HcG z Hz). lra. }
    assert (HKN : forall F', Permutation F' F -> isKnn (items t) F').
    { intros F' HPF'. split; [rewrite (Permutation_length HPF'); auto|].
      exists (G ++ U). split.
      - rewrite HPF', app_assoc, HPF. exact HPV.
      - intros x y Hx Hy. apply Hdom; auto. eapply Permutation_in; eauto. }
    destruct sorted.
    - unfold sortBuf. rewrite Hkb, Hp, HLb. destruct (Nat.ltb_spec k k); [lia|].
      destruct (Nat.ltb_spec (2 * k) k); [lia|]. cbn [bind]. rewrite EF.
      destruct (@Hsrt (map mk F)) as [HPs Hs]; [intros; exact I|].
      destruct (Permutation_map_inv _ _ HPs) as (F2 & EF2 & HPF2).
      rewrite (@readBack _ F2).
      + exists F2. split; auto. split; [apply HKN; symmetry; auto|].
        intros _ i j a b' Hij Ha Hb'. apply mk_le. apply (Hs i j); auto;
          rewrite EF2; apply map_nth_error; auto.
      + reflexivity.
      + cbn [bbuf]. rewrite app_length, (Permutation_length HPs), map_length. lia.
      + cbn [bbuf]. rewrite firstn_app, (Permutation_length HPs), map_length, HLF, Nat.sub_diag.
        rewrite firstn_O, app_nil_r, firstn_all2; auto. rewrite (Permutation_length HPs), map_length. lia.
    - cbn [bind]. rewrite (@readBack b1 F); auto; [|lia].
      exists F. split; auto. split; auto. discriminate.
  Qed.
End KnnProofs.
