(** Correctness of the nearest-neighbour searches of the batch kd-trees over
    exact arithmetic. *)
From Coq Require Import Reals Lra.
From Verif Require Import Base Num KdModel KdSpec KdBuild KdConstruct RGeom RangeModel RangeProofs
  KnnModel KnnBuf BatchModel BatchTree BatchPack BatchErase BatchObj LogModel BatchKnn.
Set Implicit Arguments.
Local Open Scope R_scope.

Section Ents.
  Variable A : Type.
  Lemma liveEnts_items id s e (its : list A) pres : map snd (liveEnts id s e its pres) = packed s e its pres.
  Proof.
    rewrite packed_flat. unfold liveEnts. induction (seq s (e - s)) as [|i l IH]; cbn; auto.
    rewrite map_app, IH. f_equal. unfold pick. destruct (nth_error its i); auto.
    destruct (nth_error pres i) as [[]|]; auto.
  Qed.

  Lemma liveEnts_In id s e (its : list A) pres x : In x (liveEnts id s e its pres) <->
    exists i a, x = (id, i, a) /\ (s <= i < e)%nat /\ nth_error its i = Some a /\ nth_error pres i = Some true.
  Proof.
    unfold liveEnts. rewrite in_flat_map. split.
    - intros (i & Hi & H). apply in_seq in Hi. destruct (nth_error its i) as [a|] eqn:E; [|destruct H].
      destruct (nth_error pres i) as [[]|] eqn:E2; try (destruct H; fail).
      destruct H as [<-|[]]. exists i, a. split; auto. split; [lia|]. auto.
    - intros (i & a & -> & Hi & E1 & E2). exists i. split; [apply in_seq; lia|]. rewrite E1, E2. simpl; auto.
  Qed.

  Lemma liveEnts_NoDup id s e (its : list A) pres : NoDup (map fst (liveEnts id s e its pres)).
  Proof.
    unfold liveEnts. generalize (e - s)%nat as n. intros n. revert s.
    induction n as [|n IH]; intros s; [constructor|]. cbn [seq flat_map]. rewrite map_app.
    specialize (IH (S s)).
    assert (H : forall y, In y (map fst (flat_map (fun i => match nth_error its i with
       | Some x => match nth_error pres i with Some true => [(id, i, x)] | _ => [] end
       | None => [] end) (seq (S s) n))) -> (S s <= snd y)%nat).
    { intros y Hy. apply in_map_iff in Hy as (z & <- & Hz). apply in_flat_map in Hz as (i & Hi & Hz).
      apply in_seq in Hi. destruct (nth_error its i); [|destruct Hz].
      destruct (nth_error pres i) as [[]|]; try (destruct Hz; fail). destruct Hz as [<-|[]]. cbn. lia. }
    destruct (nth_error its s) as [a|]; [|exact IH].
    destruct (nth_error pres s) as [[]|]; try exact IH.
    cbn. constructor; auto. intros Hin. apply H in Hin. cbn in Hin. lia.
  Qed.

  Lemma liveEnts_split id s m e (its : list A) pres : (s <= m <= e)%nat ->
    liveEnts id s e its pres = liveEnts id s m its pres ++ liveEnts id m e its pres.
  Proof.
    intros H. unfold liveEnts. rewrite <- flat_map_app. f_equal.
    replace (e - s)%nat with ((m - s) + (e - m))%nat by lia. rewrite seq_app. do 2 f_equal. lia.
  Qed.

  Lemma liveEnts_nil id s e (its : list A) pres :
    (forall i, (s <= i < e)%nat -> nth_error pres i = Some true -> False) -> liveEnts id s e its pres = [].
  Proof.
    intros H. destruct (liveEnts id s e its pres) as [|x l] eqn:E; auto.
    assert (Hx : In x (liveEnts id s e its pres)) by (rewrite E; simpl; auto).
    apply liveEnts_In in Hx as (i & a & _ & Hi & _ & Hp). exfalso. eauto.
  Qed.

  Lemma liveEnts_cover id s a b c d e (its : list A) pres : (s <= a <= b)%nat -> (b <= c <= d)%nat -> (d <= e)%nat ->
    (forall i, (s <= i < e)%nat -> nth_error pres i = Some true -> (a <= i < b \/ c <= i < d)%nat) ->
    liveEnts id s e its pres = liveEnts id a b its pres ++ liveEnts id c d its pres.
  Proof.
    intros H1 H2 H3 H. rewrite (@liveEnts_split id s a e) by lia. rewrite (@liveEnts_split id a b e) by lia.
    rewrite (@liveEnts_split id b c e) by lia. rewrite (@liveEnts_split id c d e) by lia.
    rewrite (@liveEnts_nil id s a), (@liveEnts_nil id b c), (@liveEnts_nil id d e), app_nil_r
      by (intros i Hi Hp; specialize (H i); lia || (apply H in Hp; lia)).
    reflexivity.
  Qed.
End Ents.

(** The answer: k of [all], nothing else is closer. *)
Definition nearest {E} (k : nat) (D : E -> R) (all l : list E) : Prop :=
  length l = k /\ exists rest, Permutation (l ++ rest) all /\
    forall x y, In x l -> In y rest -> D x <= D y.

Section Proofs.
  Variable dim : nat.
  Variable A : Type.
  Variable pt : A -> list (nT RNum).
  Notation ent := (ent A).
  Notation elem := (elem RNum ent).
  Variable nthel : nat -> list elem -> list elem.
  Hypothesis Hnth : nth_ok (fun _ : nT RNum => True) nthel.
  Variable k : nat.
  Hypothesis Hk : (1 <= k)%nat.
  Variable q : list R.
  Notation tree := (kt (nT RNum) (box RNum)).
  Notation mk := (entElem RNum dim pt q).
  Notation rep := (crep (fun _ : nT RNum => True) k).
  Notation D := (entDist RNum dim pt q).
  Notation rs t := (fst (kRange t)).
  Notation re t := (snd (kRange t)).

  Definition cost (e : elem) : R := fst e.
  Definition nearE (e : elem) : Prop := cost e < Rfmax.

  (** Some k of [V] have cost at most [r]. *)
  Definition dom (V : list elem) (r : R) : Prop :=
    exists F G, Permutation (F ++ G) V /\ (k <= length F)%nat /\ forall f, In f F -> cost f <= r.

  Lemma dom_app V V' r : dom V r -> dom (V ++ V') r.
  Proof.
    intros (F & G & HP & HL & HF). exists F, (G ++ V'). split; [rewrite app_assoc, HP; auto|]. auto.
  Qed.
  Lemma dom_le V r r' : r <= r' -> dom V r -> dom V r'.
  Proof.
    intros H (F & G & HP & HL & HF). exists F, G. split; auto. split; auto.
    intros f Hf. specialize (HF f Hf). lra.
  Qed.
  Lemma dom_perm V V' r : Permutation V V' -> dom V r -> dom V' r.
  Proof. intros P (F & G & HP & H). exists F, G. rewrite <- P. auto. Qed.
  Lemma dom_len V r : dom V r -> (k <= length V)%nat.
  Proof. intros (F & G & HP & HL & _). apply Permutation_length in HP. rewrite app_length in HP. lia. Qed.

  (** *** keepK *)
  Lemma ckeepK_cached c m c' : ckeepK nthel c = Ok (m, c') -> cached c' = true.
  Proof.
    unfold ckeepK. destruct (bptr (cb c) <? bk (cb c))%nat; [discriminate|].
    destruct (bk (cb c) =? 0)%nat; [discriminate|].
    destruct (length (bbuf (cb c)) <? bk (cb c))%nat; [discriminate|].
    destruct (cached c) eqn:E; intros H; injection H as _ <-; auto.
  Qed.

  (** What a finished buffer holds: its first k are the k smallest. *)
  Definition settled (V : list elem) (c : cbuffer RNum ent) : Prop :=
    rep V c /\ bptr (cb c) = k /\ cached c = true /\
    exists G, Permutation (firstn k (bbuf (cb c)) ++ G) V /\ length (firstn k (bbuf (cb c))) = k /\
      (forall a g, In a (firstn k (bbuf (cb c))) -> In g G -> cost a <= cost g) /\
      (forall a, In a (firstn k (bbuf (cb c))) -> cost a <= cost (nth (k - 1) (bbuf (cb c)) (emptyElem RNum ent))).

  Lemma keepK_settled V c : rep V c -> (k <= length V)%nat ->
    exists m c', ckeepK nthel c = Ok (m, c') /\ settled V c' /\ In m V /\
      m = nth (k - 1) (bbuf (cb c')) (emptyElem RNum ent) /\ dom V (cost m).
  Proof.
    intros HR HL.
    destruct (@crep_keepK RNum _ R_ordlaws ent nthel Hnth k Hk V c HR HL) as (c' & E & HR' & Hp).
    pose proof (ckeepK_cached _ E) as Hc.
    destruct (crep_topk Hk HR' Hp) as (HLF & G & HPG & HG).
    assert (Hmax : forall a, In a (firstn k (bbuf (cb c'))) ->
       cost a <= cost (nth (k - 1) (bbuf (cb c')) (emptyElem RNum ent))).
    { destruct HR' as (_ & _ & _ & _ & H5 & _). destruct (H5 Hc) as [Hz|[_ H6]]; [lia|].
      intros a Ha. specialize (H6 a Ha). unfold le in H6. cbn in H6. apply Rltb_false in H6. exact H6. }
    assert (Hin : In (nth (k - 1) (bbuf (cb c')) (emptyElem RNum ent)) (firstn k (bbuf (cb c')))).
    { rewrite firstn_length in HLF. apply firstn_nth_in; lia. }
    eexists. exists c'. split; [exact E|]. split; [|split; [|split; [reflexivity|]]].
    - split; auto. split; auto. split; auto. exists G. split; auto. split; auto. split; auto.
      intros a g Ha Hg. specialize (HG a g Ha Hg). unfold le in HG. cbn in HG. apply Rltb_false in HG. exact HG.
    - eapply Permutation_in; [exact HPG|]. apply in_or_app. auto.
    - exists (firstn k (bbuf (cb c'))), G. split; auto. split; [lia|]. auto.
  Qed.

  (** *** One tree *)
  Variable id : nat.
  Variable its : list A.
  Variable pres : list bool.
  Notation invT := (inv (fun _ : nT RNum => True) dim pt its pres).
  Notation elems t := (map mk (liveEnts id (rs (t : tree)) (re (t : tree)) its pres)).

  Lemma ballBox_min r d : (d < dim)%nat -> @coord RNum (bmin (ballBox RNum dim q r)) d = @coord RNum q d - r.
  Proof. intros H. unfold ballBox, coord at 1; cbn [bmin]. rewrite nth_map_seq; auto. Qed.
  Lemma ballBox_max r d : (d < dim)%nat -> @coord RNum (bmax (ballBox RNum dim q r)) d = @coord RNum q d + r.
  Proof. intros H. unfold ballBox, coord at 1; cbn [bmax]. rewrite nth_map_seq; auto. Qed.

  Lemma ball_far (b : box RNum) l r x : bounds dim pt b l -> In x l ->
    boxCompare RNum dim (ballBox RNum dim q r) b = BoxExclude -> r < dist RNum dim q (pt x).
  Proof.
    intros Hb Hx. unfold boxCompare.
    match goal with |- context [existsb ?f _] => destruct (existsb f (seq 0 dim)) eqn:Ex end.
    - intros _. apply existsb_exists in Ex as (d & Hd & Ed). apply in_seq0 in Hd.
      destruct (Hb d Hd x Hx) as [E1 E2]. simpl in E1, E2. rewrite Rleb_true in E1, E2.
      rewrite ballBox_min, ballBox_max in Ed by auto. simpl in Ed.
      pose proof (coord_le_dist dim q (pt x) d Hd) as HC.
      apply orb_true_iff in Ed as [Ed|Ed]; apply Rltb_true in Ed.
      + pose proof (Rle_abs (- (@coord RNum q d - @coord RNum (pt x) d))) as HA.
        rewrite Rabs_Ropp in HA. lra.
      + pose proof (Rle_abs (@coord RNum q d - @coord RNum (pt x) d)) as HA. lra.
    - match goal with |- context [existsb ?f _] => destruct (existsb f (seq 0 dim)) end; discriminate.
  Qed.

  Lemma elems_cost (t : tree) e : In e (elems t) -> exists x, e = mk x /\ In (snd x) (packed (rs t) (re t) its pres) /\
    cost e = dist RNum dim q (pt (snd x)).
  Proof.
    intros H. apply in_map_iff in H as (x & <- & Hx). exists x. split; auto. split; auto.
    rewrite <- (liveEnts_items id). apply in_map. auto.
  Qed.

  Lemma elems_node d sv s e b tl tr : invT (KNode d sv s e b tl tr) ->
    elems (KNode d sv s e b tl tr) = elems tl ++ elems tr.
  Proof.
    cbn [inv kRange fst snd]. intros (H1 & H2 & H3 & H4 & H5 & H6 & H7 & H8 & _).
    apply inv_range in H1, H2. rewrite <- map_app. f_equal. apply liveEnts_cover; auto; lia.
  Qed.

  (** knnAddToBuffer with a radius *)
  Lemma knnAdd_spec (t : tree) r V c : rep V c ->
    exists c' V' W, knnAdd dim pt nthel q id its pres t r c = Ok c' /\ rep (V ++ V') c' /\
      Permutation (V' ++ W) (elems t) /\ forall w, In w W -> r < cost w.
  Proof.
    intros HR. unfold knnAdd. destruct (kRange t) as [s e] eqn:ER. cbn [fst snd].
    set (L := liveEnts id s e its pres).
    set (f := fun x => nle RNum (D x) r).
    destruct (@crep_insertAll RNum _ R_ordlaws ent nthel Hnth k Hk (map mk (filter f L)) V c HR)
      as (c' & E & HR'); [auto|].
    exists c', (map mk (filter f L)), (map mk (filter (fun x => negb (f x)) L)).
    split; [exact E|]. split; auto. split.
    - rewrite <- map_app. apply Permutation_map. apply filter_perm_split.
    - intros w Hw. apply in_map_iff in Hw as (x & <- & Hx). apply filter_In in Hx as [_ Hx].
      apply negb_true_iff in Hx. unfold f in Hx. simpl in Hx. apply Rleb_false in Hx. exact Hx.
  Qed.

  Lemma knnAdd_all (t : tree) V c : rep V c -> (forall e, In e (elems t) -> nearE e) ->
    exists c', knnAdd dim pt nthel q id its pres t (nmax RNum) c = Ok c' /\ rep (V ++ elems t) c'.
  Proof.
    intros HR HN. unfold knnAdd. destruct (kRange t) as [s e] eqn:ER. cbn [fst snd] in *.
    rewrite BatchErase.filter_all.
    - apply (@crep_insertAll RNum _ R_ordlaws ent nthel Hnth k Hk); auto.
    - intros x Hx. specialize (HN (mk x) (in_map _ _ _ Hx)). unfold nearE, cost in HN. cbn in HN.
      apply Rleb_true. cbn. lra.
  Qed.

  (** The state of a pruned search: k candidates within the radius. *)
  Definition pst (V : list elem) (x : nT RNum * box RNum * cbuffer RNum ent) : Prop :=
    let '(r, qb, c) := x in rep V c /\ qb = ballBox RNum dim q r /\ dom V r.

  Lemma tighten_spec V update x : (forall e, In e V -> nearE e) ->
    (pst V x \/ (update = true /\ (k <= length V)%nat /\ rep V (snd x) /\ fst (fst x) = Rfmax)) ->
    exists x', knnTighten dim nthel q update x = Ok x' /\ pst V x'.
  Proof.
    intros HN H. destruct x as [[r qb] c]. cbn [fst snd] in H. unfold knnTighten. destruct update.
    - assert (HR : rep V c) by (destruct H as [(? & _)|(_ & _ & ? & _)]; auto).
      assert (HL : (k <= length V)%nat) by (destruct H as [(_ & _ & Hd)|(_ & ? & _)]; auto; eapply dom_len; eauto).
      destruct (@keepK_settled V c HR HL) as (m & c' & E & (HR' & _) & Hm & _ & Hd). rewrite E. cbn [bind].
      destruct (nlt RNum (fst m) r) eqn:El.
      + eexists. split; [reflexivity|]. split; [|split]; auto.
      + eexists. split; [reflexivity|]. split; auto.
        destruct H as [(_ & ? & ?)|(_ & _ & _ & ->)]; auto.
        exfalso. cbn in El. apply Rltb_false in El. specialize (HN m Hm). unfold nearE, cost in HN.
        change (nT RNum) with R in *. lra.
    - exists (r, qb, c). split; auto. destruct H as [|[]]; auto. discriminate.
  Qed.

  Definition dominated (V : list elem) (W : list elem) : Prop := forall w, In w W -> dom V (cost w).
  Lemma dominated_app V V' W : dominated V W -> dominated (V ++ V') W.
  Proof. intros H w Hw. apply dom_app; auto. Qed.

  Lemma knnPrune_spec update (t : tree) : invT t -> (forall e, In e (elems t) -> nearE e) ->
    forall V x, (forall e, In e V -> nearE e) ->
    (pst V x \/ (update = true /\ (k <= length V)%nat /\ rep V (snd x) /\ fst (fst x) = Rfmax)) ->
    exists x' V' W, knnPrune dim pt nthel q id its pres update t x = Ok x' /\
      pst (V ++ V') x' /\ Permutation (V' ++ W) (elems t) /\ dominated (V ++ V') W.
  Proof.
    assert (ADD : forall (t : tree) V x, pst V x -> let '(r, qb, c) := x in
      exists x' V' W, (c1 <- knnAdd dim pt nthel q id its pres t r c ;; Ok (r, qb, c1)) = Ok x' /\
        pst (V ++ V') x' /\ Permutation (V' ++ W) (elems t) /\ dominated (V ++ V') W).
    { intros u V [[r qb] c] (HR & Hqb & Hd).
      destruct (@knnAdd_spec u r V c HR) as (c' & V' & W & E & HR' & HP & HW). rewrite E. cbn [bind].
      eexists. exists V', W. split; [reflexivity|]. split; [split; auto; split; auto; apply dom_app; auto|].
      split; auto. intros w Hw. apply dom_app. apply (@dom_le V r); auto. specialize (HW w Hw). lra. }
    assert (EXC : forall (t : tree) V x, invT t -> pst V x -> let '(r, qb, c) := x in
      boxCompare RNum dim qb (kBox t) = BoxExclude -> dominated V (elems t)).
    { intros u V [[r qb] c] HI (HR & -> & Hd) Hex w Hw.
      destruct (elems_cost _ _ Hw) as (x & _ & Hx & ->). apply (@dom_le V r); auto.
      apply Rlt_le. destruct (inv_box _ HI) as [_ HB]. eapply ball_far; eauto. }
    induction t as [s e np b | d sv s e b tl IHl tr IHr]; intros HI HN V x HNV HX;
      destruct (@tighten_spec V update x HNV HX) as (x1 & E1 & HP1);
      cbn [knnPrune]; rewrite E1; cbn [bind]; destruct x1 as [[r qb] c].
    - destruct (boxCompare RNum dim qb (kBox (KLeaf s e np b))) eqn:EB.
      + apply (ADD (KLeaf s e np b) V (r, qb, c) HP1).
      + apply (ADD (KLeaf s e np b) V (r, qb, c) HP1).
      + eexists. exists [], (elems (KLeaf s e np b)). split; [reflexivity|]. rewrite app_nil_r.
        split; auto. split; auto. apply (EXC _ V (r, qb, c) HI HP1 EB).
    - destruct (boxCompare RNum dim qb (kBox (KNode d sv s e b tl tr))) eqn:EB.
      + apply (ADD (KNode d sv s e b tl tr) V (r, qb, c) HP1).
      + rewrite (elems_node HI) in HN |- *.
        assert (HIl : invT tl) by (cbn [inv] in HI; tauto).
        assert (HIr : invT tr) by (cbn [inv] in HI; tauto).
        destruct (IHl HIl (fun e He => HN e (in_or_app _ _ _ (or_introl He))) V (r, qb, c) HNV (or_introl HP1))
          as (x2 & V2 & W2 & -> & HP2 & HQ2 & HD2). cbn [bind].
        destruct (IHr HIr (fun e He => HN e (in_or_app _ _ _ (or_intror He))) (V ++ V2) x2)
          as (x3 & V3 & W3 & -> & HP3 & HQ3 & HD3).
        { intros z Hz. apply in_app_or in Hz as [Hz|Hz]; auto. apply HN. apply in_or_app. left.
          eapply Permutation_in; [exact HQ2|]. apply in_or_app; auto. }
        { left; auto. }
        exists x3, (V2 ++ V3), (W2 ++ W3). split; auto. rewrite app_assoc. split; auto. split.
        * rewrite <- HQ2, <- HQ3. rewrite <- !app_assoc. apply Permutation_app_head.
          rewrite !app_assoc. apply Permutation_app_tail. apply Permutation_app_comm.
        * intros w Hw. apply in_app_or in Hw as [Hw|Hw]; auto. apply dom_app; auto.
      + eexists. exists [], (elems (KNode d sv s e b tl tr)). split; [reflexivity|]. rewrite app_nil_r.
        split; auto. split; auto. apply (EXC _ V (r, qb, c) HI HP1 EB).
  Qed.

  (** [c] holds a part of [all] that dominates the rest. *)
  Definition covers (all : list elem) (c : cbuffer RNum ent) : Prop :=
    exists V U, rep V c /\ Permutation (V ++ U) all /\ dominated V U.

  Lemma covers_perm all all' c : Permutation all all' -> covers all c -> covers all' c.
  Proof. intros HP (V & U & H1 & H2 & H3). exists V, U. rewrite <- HP. auto. Qed.

  Lemma covers_len all V U : Permutation (V ++ U) all -> dominated V U ->
    ((k <= length V)%nat <-> (k <= length all)%nat) /\ ((length V < k)%nat -> U = []).
  Proof.
    intros HP HD. apply Permutation_length in HP. rewrite app_length in HP.
    destruct U as [|u U].
    - cbn in HP. split; [lia|auto].
    - pose proof (dom_len (HD u (or_introl eq_refl))). split; [lia|lia].
  Qed.

  Lemma covers_hasK all c : covers all c -> hasK (cb c) = (k <=? length all)%nat.
  Proof.
    intros (V & U & H1 & H2 & H3). rewrite (crep_hasK Hk H1). destruct (covers_len H2 H3) as [[H4 H5] _].
    destruct (Nat.leb_spec k (length V)), (Nat.leb_spec k (length all)); auto; lia.
  Qed.

  (** A part of [all] that is already there, plus a tree *)
  Lemma knnOther_spec update recurse (t : tree) rec all c : invT t -> (forall e, In e (elems t) -> nearE e) ->
    (forall e, In e all -> nearE e) ->
    (forall all c, (forall e, In e all -> nearE e) -> covers all c ->
       exists c', rec c = Ok c' /\ covers (all ++ elems t) c') ->
    covers all c ->
    exists c', knnOther dim pt nthel q id its pres update recurse t rec c = Ok c' /\ covers (all ++ elems t) c'.
  Proof.
    intros HI HN HNA Hrec HC. unfold knnOther. rewrite (covers_hasK HC).
    assert (HC' := HC). destruct HC as (V & U & HR & HP & HU).
    destruct (covers_len HP HU) as [Hlen HUnil].
    assert (HNV : forall e, In e V -> nearE e).
    { intros e He. apply HNA. eapply Permutation_in; [exact HP|]. apply in_or_app; auto. }
    destruct (Nat.leb_spec k (length all)) as [Hle|Hgt].
    - assert (HV : (k <= length V)%nat) by tauto.
      assert (S1 : exists x, (if update then Ok (nmax RNum, dfltBox RNum dim, c)
              else '(tmp, out1) <- ckeepK nthel c ;;
                   if nlt RNum (fst tmp) (nmax RNum) then Ok (fst tmp, ballBox RNum dim q (fst tmp), out1)
                   else Ok (nmax RNum, dfltBox RNum dim, out1)) = Ok x /\
         (pst V x \/ (update = true /\ (k <= length V)%nat /\ rep V (snd x) /\ fst (fst x) = Rfmax))).
      { destruct update.
        - eexists. split; [reflexivity|]. right. auto.
        - destruct (@keepK_settled V c HR HV) as (m & c' & E & (HR' & _) & Hm & _ & Hd). rewrite E. cbn [bind].
          specialize (HNV m Hm). unfold nearE, cost in HNV.
          replace (nlt RNum (fst m) (nmax RNum)) with true by (symmetry; apply Rltb_true; exact HNV).
          eexists. split; [reflexivity|]. left. split; auto. }
      destruct S1 as (x & -> & HX). cbn [bind].
      destruct (@knnPrune_spec update t HI HN V x HNV HX) as (x' & V' & W & -> & HP' & HQ & HD). cbn [bind].
      destruct x' as [[r qb] c']. exists c'. split; auto. exists (V ++ V'), (U ++ W).
      destruct HP' as (HR' & _). split; auto. split.
      + rewrite <- HP, <- HQ. rewrite <- !app_assoc. apply Permutation_app_head.
        rewrite !app_assoc. apply Permutation_app_tail. apply Permutation_app_comm.
      + intros w Hw. apply in_app_or in Hw as [Hw|Hw]; auto. apply dom_app; auto.
    - destruct recurse; [apply Hrec; auto|].
      destruct (@knnAdd_all t V c HR HN) as (c' & E & HR').
      exists c'. split; auto. exists (V ++ elems t), []. split; auto.
      rewrite HUnil in HP by lia. rewrite app_nil_r in *. split; [rewrite HP; auto|]. intros w [].
  Qed.

  Lemma knnHelper_spec update recurse (t : tree) : invT t -> (forall e, In e (elems t) -> nearE e) ->
    forall all c, (forall e, In e all -> nearE e) -> covers all c ->
    exists c', knnHelper dim pt nthel q id its pres update recurse t c = Ok c' /\ covers (all ++ elems t) c'.
  Proof.
    induction t as [s e np b | d sv s e b tl IHl tr IHr]; intros HI HN all c HNA HC.
    - cbn [knnHelper]. destruct HC as (V & U & HR & HP & HU).
      destruct (@knnAdd_all (KLeaf s e np b) V c HR HN) as (c' & E & HR').
      exists c'. split; auto. exists (V ++ elems (KLeaf s e np b)), U. split; auto. split.
      + rewrite <- HP. rewrite <- !app_assoc. apply Permutation_app_head. apply Permutation_app_comm.
      + apply dominated_app; auto.
    - cbn [knnHelper]. rewrite (elems_node HI) in HN |- *.
      assert (HIl : invT tl) by (cbn [inv] in HI; tauto).
      assert (HIr : invT tr) by (cbn [inv] in HI; tauto).
      assert (HNl : forall e, In e (elems tl) -> nearE e) by (intros; apply HN, in_or_app; auto).
      assert (HNr : forall e, In e (elems tr) -> nearE e) by (intros; apply HN, in_or_app; auto).
      specialize (IHl HIl HNl). specialize (IHr HIr HNr).
      destruct (nlt RNum (@coord RNum q d) sv).
      + destruct (IHl all c HNA HC) as (c1 & -> & HC1). cbn [bind].
        destruct (@knnOther_spec update recurse tr (knnHelper dim pt nthel q id its pres update recurse tr)
                    (all ++ elems tl) c1 HIr HNr) as (c2 & E & HC2); auto.
        { intros z Hz. apply in_app_or in Hz as [Hz|Hz]; auto. }
        exists c2. split; auto. rewrite app_assoc. auto.
      + destruct (IHr all c HNA HC) as (c1 & -> & HC1). cbn [bind].
        destruct (@knnOther_spec update recurse tl (knnHelper dim pt nthel q id its pres update recurse tl)
                    (all ++ elems tr) c1 HIl HNl) as (c2 & E & HC2); auto.
        { intros z Hz. apply in_app_or in Hz as [Hz|Hz]; auto. }
        exists c2. split; auto. eapply covers_perm; [|exact HC2].
        rewrite <- app_assoc. apply Permutation_app_head. apply Permutation_app_comm.
  Qed.

  Lemma covers_keepK all c : covers all c -> (k <= length all)%nat ->
    exists m c', ckeepK nthel c = Ok (m, c') /\ settled all c'.
  Proof.
    intros (V & U & HR & HP & HU) HL. destruct (covers_len HP HU) as [HV _].
    destruct (@keepK_settled V c HR) as (m & c' & E & HS & Hm & -> & Hd); [tauto|].
    eexists. exists c'. split; [exact E|].
    destruct HS as (HR' & Hp & Hc & G & HPG & HLF & HFG & Hmax).
    set (F := firstn k (bbuf (cb c'))) in *.
    assert (Hdom : forall f y, In f F -> In y (G ++ U) -> cost f <= cost y).
    { intros f y Hf Hy. apply in_app_or in Hy as [Hy|Hy]; [auto|].
      destruct (HU y Hy) as (F' & G' & HP' & HL' & HF').
      destruct (Rle_dec (cost f) (cost y)) as [|Hn]; auto. exfalso.
      set (g := fun x => Rltb (cost x) (cost f)).
      assert (Eg : g f = true); [|unfold g in Eg; apply Rltb_true in Eg; lra].
      apply (pigeon g F G); auto.
      - rewrite HLF. rewrite (Permutation_length (Permutation_filter g HPG)).
        rewrite <- (Permutation_length (Permutation_filter g HP')).
        rewrite filter_app, app_length, (BatchErase.filter_all g F'); [lia|].
        intros x Hx. apply Rltb_true. specialize (HF' x Hx). lra.
      - intros x Hx Ex z Hz. apply Rltb_false. apply HFG; auto. }
    assert (HPall : Permutation (F ++ (G ++ U)) all) by (rewrite app_assoc, HPG; auto).
    split; [|split; auto; split; auto; exists (G ++ U); auto].
    destruct HR' as (H1 & H2 & H3 & H4 & H5 & _). split; auto. split; auto. split; auto. split; auto. split; auto.
    rewrite Hp. exists (G ++ U). split; auto. intros z Hz. split; auto.
    intros a Ha. unfold le. cbn. apply Rltb_false. apply Hdom; auto.
  Qed.
End Proofs.
