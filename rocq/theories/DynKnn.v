(** k nearest neighbours on the dynamic kd-tree. *)
From Coq Require Import Sorted.
From Verif Require Import Base Num DistLaws RadLaws KdModel KdSpec KdBuild BccpModel BccpProofs DynModel DynProofs.
Set Implicit Arguments.

(** std::priority_queue: top is a maximum (ties broken in any way). *)
Definition popMax_ok {N : Num} {A} (ok : nT N -> Prop) (popMax : nT N * A -> list (nT N * A) -> (nT N * A) * list (nT N * A)) : Prop :=
  forall x q, (forall e, In e (x :: q) -> ok (fst e)) ->
    Permutation (fst (popMax x q) :: snd (popMax x q)) (x :: q) /\
    forall e, In e (snd (popMax x q)) -> nle N (fst e) (fst (fst (popMax x q))) = true.

Section Knn.
  Variable N : Num.
  Variable ok fin nn rad : nT N -> Prop.
  Hypothesis DL : DistLaws N ok fin nn.
  Hypothesis RL : RadLaws N ok fin nn rad.
  Variable dim : nat.
  Variable A : Type.
  Variable pt : A -> list (nT N).
  Variable popMax : nT N * A -> list (nT N * A) -> (nT N * A) * list (nT N * A).
  Hypothesis Hpop : popMax_ok ok popMax.
  Variable qp : list (nT N).
  Hypothesis Hqp : forall d, d < dim -> fin (coord qp d).
  Variable k : nat.
  Hypothesis Hk : 1 <= k.

  Notation le x y := (nle N x y = true).
  Notation tr := (dtree N A).
  Notation OL := (dl_ord DL).
  Notation FLa := (FL OL (dl_fin_ok DL)).
  Let D (x : A) : nT N := dist N dim qp (pt x).
  Let C (x : A) : nT N * A := (D x, x).
  Notation finIt := (@finIt N fin dim A pt).
  Notation inB := (@inB N dim A pt).
  Notation binv := (@binv N fin dim).

  (** [q] holds the k smallest of [L]. *)
  Definition kbest (q L : list (nT N * A)) : Prop :=
    exists rest, Permutation (q ++ rest) L /\ length q = Nat.min k (length L) /\
      forall a b, In a q -> In b rest -> le (fst a) (fst b).
  Definition okL (L : list (nT N * A)) : Prop := forall e, In e L -> ok (fst e).

  Lemma kbest_nil : kbest [] [].
  Proof. exists []. simpl. rewrite Nat.min_0_r. split; auto. Qed.

  Lemma kbest_okq q L : okL L -> kbest q L -> okL q.
  Proof. intros H (rest & P & _) e He. apply H. eapply Permutation_in; [exact P|apply in_or_app; auto]. Qed.

  Lemma kbest_insert q L e : okL (e :: L) -> kbest q L -> kbest (insertK N A popMax k q e) (e :: L) /\
    (forall a, In a (insertK N A popMax k q e) -> In a (e :: q)).
  Proof.
    intros HO HB. assert (Oq := kbest_okq (fun e0 H => HO e0 (or_intror H)) HB).
    destruct HB as (rest & P & Len & B). unfold insertK.
    assert (PL := Permutation_length P). rewrite app_length in PL.
    destruct (Nat.ltb_spec k (length (e :: q))) as [Hf|Hf]; cbn [length] in Hf.
    - destruct (@Hpop e q) as [P1 M].
      { intros a [<-|Ha]; auto. apply HO; simpl; auto. }
      set (m := fst (popMax e q)) in *. set (q' := snd (popMax e q)) in *.
      assert (PL1 := Permutation_length P1). cbn [length] in PL1.
      split.
      + exists (m :: rest). split; [|split].
        * apply Permutation_trans with ((m :: q') ++ rest); [symmetry; apply Permutation_middle|].
          rewrite P1, <- P. auto.
        * cbn [length]. lia.
        * intros a b Ha [<-|Hb]; auto.
          assert (Hb' : ok (fst b)) by (apply HO; right; eapply Permutation_in; [exact P|apply in_or_app; auto]).
          assert (Hm : In m (e :: q)) by (eapply Permutation_in; [exact P1|simpl; auto]).
          destruct Hm as [Em|Hm].
          -- apply B; auto. rewrite <- Em in P1. apply Permutation_cons_inv in P1.
             eapply Permutation_in; eauto.
          -- apply (nle_trans OL) with (y := fst m); auto.
             assert (Ha' : In a (e :: q)) by (eapply Permutation_in; [exact P1|simpl; auto]).
             destruct Ha' as [<-|Ha']; auto. apply HO; simpl; auto.
      + intros a Ha. eapply Permutation_in; [exact P1|simpl; auto].
    - split; auto. exists rest. split; [simpl; auto|]. split; [cbn [length] in *; lia|].
      intros a b [<-|Ha] Hb; auto.
      assert (length rest = 0) by lia. destruct rest; [destruct Hb|discriminate].
  Qed.

  Lemma okL_C xs : (forall x, In x xs -> finIt x) -> okL (map C xs).
  Proof.
    intros H e He. apply in_map_iff in He as (x & <- & Hx). simpl. unfold D.
    apply (dl_nn_ok DL), (dist_nn DL); auto. apply H; auto.
  Qed.

  Lemma kbest_perm q L L' : Permutation L L' -> kbest q L -> kbest q L'.
  Proof.
    intros P (rest & P1 & Len & B). exists rest. rewrite <- P. auto.
  Qed.

  Lemma kbest_inserts xs : forall q L, okL (map C xs ++ L) -> kbest q L ->
    kbest (insertItems N dim A pt popMax k qp xs q) (map C xs ++ L) /\
    (forall a, In a (insertItems N dim A pt popMax k qp xs q) -> In a (map C xs ++ q)).
  Proof.
    induction xs as [|x xs IH]; intros q L HO HB; [split; auto|].
    unfold insertItems. cbn [fold_left]. fold (C x). change (dist N dim qp (pt x), x) with (C x).
    assert (HO1 : okL (C x :: L)).
    { intros e [<-|He]; apply HO; [simpl; auto|apply in_or_app; auto]. }
    destruct (kbest_insert HO1 HB) as [B1 I1].
    destruct (IH (insertK N A popMax k q (C x)) (C x :: L)) as [B2 I2]; auto.
    { intros e He. apply HO. apply in_app_or in He as [He|[<-|He]]; simpl; rewrite ?in_app_iff; auto. }
    split.
    - eapply kbest_perm; [|exact B2]. simpl. symmetry. apply Permutation_middle.
    - intros a Ha. apply I2 in Ha. apply in_app_or in Ha as [Ha|Ha]; simpl; rewrite in_app_iff; auto.
      apply I1 in Ha. simpl in Ha. tauto.
  Qed.

  (** Items at distance [r] or more change nothing once k items at distance at
      most [r] are known. *)
  Lemma kbest_skip q L M r : kbest q L -> length q = k -> okL (M ++ L) -> ok r ->
    (forall a, In a q -> le (fst a) r) -> (forall b, In b M -> le r (fst b)) -> kbest q (M ++ L).
  Proof.
    intros HB Lq HO Hr Hq HM. assert (Oq : okL q).
    { apply (kbest_okq (L := L)); auto. intros e He. apply HO, in_or_app; auto. }
    destruct HB as (rest & P & Len & B). exists (M ++ rest). split; [|split].
    - rewrite <- P, !app_assoc. apply Permutation_app_tail, Permutation_app_comm.
    - rewrite app_length. lia.
    - intros a b Ha Hb. apply in_app_or in Hb as [Hb|Hb]; auto.
      apply (nle_trans OL) with (y := r); auto. apply HO, in_or_app; auto.
  Qed.

  (** ** Pruning *)
  Lemma sum_ge (g : nat -> nT N) l : (forall i, In i l -> nn (g i)) -> forall acc, nn acc ->
    nn (fold_left (fun a i => nadd N a (g i)) l acc) /\
    le acc (fold_left (fun a i => nadd N a (g i)) l acc) /\
    forall i, In i l -> le (g i) (fold_left (fun a i => nadd N a (g i)) l acc).
  Proof.
    induction l as [|j l IH]; intros Hg acc Ha; cbn [fold_left].
    - split; auto. split; [apply (nle_refl OL), (dl_nn_ok DL); auto|intros i []].
    - assert (Hj : nn (g j)) by (apply Hg; simpl; auto).
      assert (Hn : nn (nadd N acc (g j))) by (apply (dl_add DL); auto).
      destruct (IH (fun i Hi => Hg i (or_intror Hi)) _ Hn) as (I1 & I2 & I3).
      split; auto. split.
      + apply (nle_trans OL) with (y := nadd N acc (g j)); auto; try (apply (dl_nn_ok DL); auto). apply (rl_add_l RL); auto.
      + intros i [<-|Hi]; auto.
        apply (nle_trans OL) with (y := nadd N acc (g j)); auto; try (apply (dl_nn_ok DL); auto). apply (rl_add_r RL); auto.
  Qed.

  Lemma axis_le_dist x i : finIt x -> i < dim ->
    le (nsqrt N (nmul N (nsub N (coord qp i) (coord (pt x) i)) (nsub N (coord qp i) (coord (pt x) i)))) (D x).
  Proof.
    intros Fx Hi. unfold D, dist, distSqr.
    set (g := fun i => nmul N (nsub N (coord qp i) (coord (pt x) i)) (nsub N (coord qp i) (coord (pt x) i))).
    assert (Hg : forall i, In i (seq 0 dim) -> nn (g i)).
    { intros j Hj. apply in_seq0 in Hj. apply (dl_sq DL), (dl_sub_ok DL); auto. }
    destruct (@sum_ge g (seq 0 dim) Hg (nzero N) (dl_zero DL)) as (H1 & _ & H2).
    apply (dl_sqrt_mono DL); auto.
    - apply Hg, in_seq0; auto.
    - apply (H2 i). apply in_seq0; auto.
  Qed.

  Lemma boxCompare_exclude b1 b2 : boxCompare N dim b1 b2 = BoxExclude -> exists i, i < dim /\
    (nlt N (coord (bmax b1) i) (coord (bmin b2) i) || nlt N (coord (bmax b2) i) (coord (bmin b1) i))%bool = true.
  Proof.
    unfold boxCompare. destruct (existsb (fun i => nlt N (coord (bmax b1) i) (coord (bmin b2) i) || _) _) eqn:E.
    - intros _. apply existsb_exists in E as (i & Hi & E). apply in_seq0 in Hi. eauto.
    - clear E. match goal with |- (if ?c then _ else _) = _ -> _ => destruct c end; intros HH; discriminate HH.
  Qed.

  Lemma exclude_far r b x : rad r -> binv b -> finIt x -> inB b x ->
    boxCompare N dim (rangeBox N dim qp r) b = BoxExclude -> le r (D x).
  Proof.
    intros Hr Hb Fx Ix EB. apply boxCompare_exclude in EB as (i & Hi & E).
    assert (Cl : coord (bmin (rangeBox N dim qp r)) i = nsub N (coord qp i) r).
    { unfold rangeBox, coord at 1. cbn [bmin]. rewrite nth_map_seq; auto. }
    assert (Ch : coord (bmax (rangeBox N dim qp r)) i = nadd N (coord qp i) r).
    { unfold rangeBox, coord at 1. cbn [bmax]. rewrite nth_map_seq; auto. }
    rewrite Cl, Ch in E.
    destruct (Hb i Hi) as (F1 & F2 & _). destruct (Ix i Hi) as [I1 I2]. assert (Fi := Fx i Hi).
    assert (Kr : ok r) by (apply (dl_nn_ok DL), (rl_nn RL); auto).
    assert (FO := dl_fin_ok DL).
    apply (nle_trans OL) with
      (y := nsqrt N (nmul N (nsub N (coord qp i) (coord (pt x) i)) (nsub N (coord qp i) (coord (pt x) i)))); auto.
    - apply (dl_nn_ok DL), (dl_sqrt DL), (dl_sq DL), (dl_sub_ok DL); auto.
    - apply (dl_nn_ok DL), (dist_nn DL); auto.
    - apply orb_true_iff in E as [E|E].
      + apply (rl_hi RL); auto. apply (nlt_le_trans OL) with (y := coord (bmin b) i); auto.
        apply (rl_add_ok RL); auto.
      + apply (rl_lo RL); auto. apply (nle_lt_trans OL) with (y := coord (bmax b) i); auto.
        apply (rl_sub_ok RL); auto.
    - apply axis_le_dist; auto.
  Qed.

  Lemma filter_far r xs : rad r -> (forall x, In x xs -> finIt x) ->
    forall b, In b (map C (filter (fun x => negb (inRange N dim A pt qp r x)) xs)) -> le r (fst b).
  Proof.
    intros Hr HF b Hb. apply in_map_iff in Hb as (x & <- & Hx). apply filter_In in Hx as [Hx E].
    apply negb_true_iff in E. unfold inRange in E. fold (D x) in E. simpl.
    assert (K1 : ok r) by (apply (dl_nn_ok DL), (rl_nn RL); auto).
    assert (K2 : ok (D x)) by (apply (dl_nn_ok DL), (dist_nn DL); auto; intros d Hd; apply HF; auto).
    rewrite (ol_le OL) in E by auto. apply negb_false_iff in E. apply (nlt_le OL); auto.
  Qed.

  Definition full (r : nT N) (q : list (nT N * A)) : Prop :=
    length q = k /\ forall a, In a q -> le (fst a) r.

  Lemma items_range r xs q L : rad r -> (forall x, In x xs -> finIt x) -> okL L ->
    kbest q L -> full r q ->
    let q' := insertItems N dim A pt popMax k qp (filter (inRange N dim A pt qp r) xs) q in
    kbest q' (map C xs ++ L) /\ full r q'.
  Proof.
    intros Hr HF HO HB [Lq Hq] q'.
    set (near := filter (inRange N dim A pt qp r) xs) in *.
    set (far := filter (fun x => negb (inRange N dim A pt qp r x)) xs).
    assert (PX : Permutation (near ++ far) xs) by (apply filter_perm_split).
    assert (OX : okL (map C xs)) by (apply okL_C; auto).
    assert (HN : okL (map C near ++ L)).
    { intros e He. apply in_app_or in He as [He|He]; auto. apply OX.
      apply in_map_iff in He as (x & <- & Hx). apply in_map. apply filter_In in Hx as [Hx _]; auto. }
    destruct (kbest_inserts near HN HB) as [B1 I1]. fold q' in B1, I1.
    assert (Lq' : length q' = k).
    { destruct B1 as (rest & P & Len & _). destruct HB as (rest0 & P0 & Len0 & _).
      rewrite app_length in Len. lia. }
    assert (Hq' : forall a, In a q' -> le (fst a) r).
    { intros a Ha. apply I1 in Ha. apply in_app_or in Ha as [Ha|Ha]; auto.
      apply in_map_iff in Ha as (x & <- & Hx). apply filter_In in Hx as [_ Hx]. exact Hx. }
    split; [|split; auto].
    eapply kbest_perm; [|eapply kbest_skip with (M := map C far) (r := r); [exact B1|exact Lq'| | |exact Hq'|]].
    - rewrite <- PX, map_app, !app_assoc. apply Permutation_app_tail, Permutation_app_comm.
    - intros e He. apply in_app_or in He as [He|He]; auto. apply OX.
      apply in_map_iff in He as (x & <- & Hx). apply in_map. apply filter_In in Hx as [Hx _]; auto.
    - apply (dl_nn_ok DL), (rl_nn RL); auto.
    - apply filter_far; auto.
  Qed.

  Notation boxed := (@boxed N fin dim A pt).

  Lemma rangeHelper_spec r (Hr : rad r) t : forall q L, boxed t -> okL L -> kbest q L -> full r q ->
    let q' := rangeHelper N dim A pt popMax k qp r (rangeBox N dim qp r) t q in
    kbest q' (map C (iter t) ++ L) /\ full r q'.
  Proof.
    induction t as [data n b|n kk s b l IHl rr IHr]; intros q L HB HO HQ HF; cbv zeta.
    - cbn [rangeHelper]. apply items_range; auto. intros x Hx.
      apply (@boxed_iter N ok fin (dl_ord DL) (dl_fin_ok DL) dim A pt _ x HB Hx).
    - assert (FI : forall x, In x (iter (DNode n kk s b l rr)) -> finIt x /\ inB b x).
      { intros x Hx. apply (@boxed_iter N ok fin (dl_ord DL) (dl_fin_ok DL) dim A pt _ x HB Hx). }
      cbn [rangeHelper]. destruct (boxCompare N dim (rangeBox N dim qp r) b) eqn:E.
      + apply items_range; auto. intros x Hx. apply FI; auto.
      + destruct HB as (Hb & S1 & S2 & Hkk & Bl & Br).
        destruct (IHl q L) as [Q1 F1]; auto.
        destruct (IHr (rangeHelper N dim A pt popMax k qp r (rangeBox N dim qp r) l q) (map C (iter l) ++ L)) as [Q2 F2]; auto.
        { intros e He. apply in_app_or in He as [He|He]; auto. revert e He. apply okL_C. intros x Hx.
          apply FI. cbn [iter]. apply in_or_app; auto. }
        split; auto. eapply kbest_perm; [|exact Q2]. cbn [iter]. rewrite map_app, !app_assoc.
        apply Permutation_app_tail, Permutation_app_comm.
      + split; auto. destruct HF as [Lq Hq]. eapply kbest_skip; eauto.
        * intros e He. apply in_app_or in He as [He|He]; auto. revert e He. apply okL_C. intros x Hx. apply FI; auto.
        * apply (dl_nn_ok DL), (rl_nn RL); auto.
        * intros c Hc. apply in_map_iff in Hc as (x & <- & Hx). simpl. destruct (FI x Hx) as [F1 I1].
          apply (@exclude_far r b); auto. destruct HB; auto.
  Qed.

  (** every cost in a queue is a computed distance of a finite item *)
  Lemma goSibling_spec sib q xs : boxed sib -> (forall x, In x xs -> finIt x) -> kbest q (map C xs) ->
    exists q', goSibling N dim A pt popMax k qp sib q = Ok q' /\ kbest q' (map C (iter sib ++ xs)).
  Proof.
    intros HB HX HQ. unfold goSibling, hasK. assert (HO := @okL_C _ HX).
    assert (FI : forall x, In x (iter sib) -> finIt x).
    { intros x Hx. apply (@boxed_iter N ok fin (dl_ord DL) (dl_fin_ok DL) dim A pt _ x HB Hx). }
    destruct (Nat.leb_spec k (length q)) as [Hf|Hf].
    - assert (Lq : length q = k) by (destruct HQ as (? & _ & Len & _); lia).
      assert (Oq := kbest_okq HO HQ).
      destruct q as [|q0 q1]; [simpl in Lq; lia|]. set (q := q0 :: q1) in *.
      destruct (@Hpop q0 q1) as [P M]; [auto|].
      cbn [getK bind]. unfold getK, q. cbn [bind]. fold q. eexists. split; [reflexivity|].
      fold q in P. set (m := fst (popMax q0 q1)) in *.
      assert (Hm : In m q) by (eapply Permutation_in; [exact P|simpl; auto]).
      assert (Hr : rad (fst m)).
      { destruct HQ as (rest & PQ & _). assert (In m (map C xs)) by (eapply Permutation_in; [exact PQ|apply in_or_app; auto]).
        apply in_map_iff in H as (x & <- & Hx). simpl. unfold D, dist. apply (rl_sqrt RL).
        apply (distSqr_nn DL); auto. apply HX; auto. }
      unfold kNNRange. destruct (@rangeHelper_spec (fst m) Hr sib q (map C xs)) as [B _]; auto.
      + split; auto. intros a Ha. eapply Permutation_in in Ha; [|symmetry; exact P].
        destruct Ha as [<-|Ha]; [apply (nle_refl OL); auto|auto].
      + rewrite map_app. exact B.
    - eexists. split; [reflexivity|]. rewrite map_app. apply kbest_inserts; auto.
      intros e He. apply in_app_or in He as [He|He]; auto. apply (@okL_C _ FI); auto.
  Qed.

  Lemma kNNHelper_spec t : forall sib q xs, boxed t -> (forall s, sib = Some s -> boxed s) ->
    (forall x, In x xs -> finIt x) -> kbest q (map C xs) ->
    exists q', kNNHelper N dim A pt popMax k qp t sib q = Ok q' /\
      kbest q' (map C (match sib with Some s => iter s | None => [] end ++ iter t ++ xs)).
  Proof.
    revert t. assert (BF : forall t, boxed t -> forall x, In x (iter t) -> finIt x).
    { intros t HB x Hx. apply (@boxed_iter N ok fin (dl_ord DL) (dl_fin_ok DL) dim A pt _ x HB Hx). }
    assert (FIN : forall t sib q1 xs, boxed t -> (forall s, sib = Some s -> boxed s) ->
      (forall x, In x xs -> finIt x) -> kbest q1 (map C (iter t ++ xs)) ->
      exists q', match sib with None => Ok q1 | Some s => goSibling N dim A pt popMax k qp s q1 end = Ok q' /\
        kbest q' (map C (match sib with Some s => iter s | None => [] end ++ iter t ++ xs))).
    { intros t [s|] q1 xs HB HS HX HQ; [|eexists; split; [reflexivity|exact HQ]].
      apply goSibling_spec; auto. intros x Hx. apply in_app_or in Hx as [Hx|Hx]; auto. eapply BF; eauto. }
    intros t; induction t as [data n b|n kk s b l IHl r IHr]; intros sib q xs HB HS HX HQ.
    - cbn [kNNHelper bind]. apply FIN; auto.
      rewrite map_app. apply kbest_inserts; auto. intros e He. apply in_app_or in He as [He|He].
      + revert e He. apply okL_C. eapply BF; eauto.
      + apply (@okL_C _ HX); auto.
    - assert (HB' := HB). destruct HB' as (Hb & S1 & S2 & Hkk & Bl & Br). cbn [kNNHelper].
      assert (Q1 : exists q1, (if nlt N (coord qp kk) s then kNNHelper N dim A pt popMax k qp l (Some r) q
          else kNNHelper N dim A pt popMax k qp r (Some l) q) = Ok q1 /\ kbest q1 (map C (iter (DNode n kk s b l r) ++ xs))).
      { destruct (nlt N (coord qp kk) s).
        - destruct (IHl (Some r) q xs) as (q1 & E & K); auto. { intros s0 Es; inversion Es; subst; auto. }
          exists q1. split; auto. eapply kbest_perm; [|exact K]. apply Permutation_map. cbn [iter].
          rewrite !app_assoc. apply Permutation_app_tail, Permutation_app_comm.
        - destruct (IHr (Some l) q xs) as (q1 & E & K); auto. { intros s0 Es; inversion Es; subst; auto. }
          exists q1. split; auto. eapply kbest_perm; [|exact K]. apply Permutation_map. cbn [iter].
          rewrite !app_assoc. auto. }
      destruct Q1 as (q1 & -> & K). cbn [bind]. apply FIN; auto.
  Qed.

  (** ** The result *)
  Definition nearest (its : list A) (l : list A) : Prop :=
    exists rest, Permutation (l ++ rest) its /\ length l = Nat.min k (length its) /\ (forall y z, In y l -> In z rest -> le (D y) (D z)) /\
      StronglySorted (fun y z => le (D y) (D z)) l.

  Lemma drain_spec : forall f q acc, length q = f -> (forall e, In e q -> ok (fst e) /\ fst e = D (snd e)) ->
    (forall y, In y acc -> ok (D y)) ->
    (forall e y, In e q -> In y acc -> le (fst e) (D y)) -> StronglySorted (fun y z => le (D y) (D z)) acc ->
    Permutation (drain N A popMax f q acc) (map snd q ++ acc) /\ StronglySorted (fun y z => le (D y) (D z)) (drain N A popMax f q acc).
  Proof.
    induction f as [|f IH]; intros q acc Lq Hq Ha Hqa HS.
    - destruct q; [|discriminate]. simpl. auto.
    - destruct q as [|q0 q1]; [discriminate|]. cbn [drain]. set (q := q0 :: q1) in *.
      destruct (@Hpop q0 q1) as [P M]; [intros e He; apply Hq; auto|]. fold q in P.
      destruct (popMax q0 q1) as [m q']. cbn [fst snd] in P, M.
      assert (Hin : forall e, In e (m :: q') -> In e q) by (intros e He; eapply Permutation_in; [exact P|auto]).
      destruct (Hq m (Hin m (or_introl eq_refl))) as [Km Em].
      destruct (IH q' (snd m :: acc)) as [P1 S1].
      + apply Permutation_length in P. simpl in P, Lq. lia.
      + intros e He. apply Hq, Hin. simpl; auto.
      + intros y [<-|Hy]; auto. rewrite <- Em; auto.
      + intros e y He [<-|Hy]; [rewrite <- Em; auto|]. apply Hqa; auto. apply Hin; simpl; auto.
      + constructor; auto. apply Forall_forall. intros y Hy. rewrite <- Em. apply Hqa; auto. apply Hin; simpl; auto.
      + split; auto. rewrite P1. rewrite <- P. cbn [map app]. symmetry. apply Permutation_middle.
  Qed.

  Lemma kNN_spec t : boxed t -> exists l, kNN N dim A pt popMax t qp k = Ok l /\ nearest (iter t) l.
  Proof.
    intros HB. destruct (@kNNHelper_spec t None [] []) as (q & E & K); auto.
    { discriminate. } { intros x []. } { apply kbest_nil. }
    unfold kNN. rewrite E. cbn [bind]. eexists. split; [reflexivity|].
    rewrite app_nil_r in K. cbn [app] in K.
    assert (FI : forall x, In x (iter t) -> finIt x).
    { intros x Hx. apply (@boxed_iter N ok fin (dl_ord DL) (dl_fin_ok DL) dim A pt _ x HB Hx). }
    destruct K as (rest & P & Len & B).
    assert (HC : forall e, In e (q ++ rest) -> ok (fst e) /\ fst e = D (snd e)).
    { intros e He. assert (He' : In e (map C (iter t))) by (eapply Permutation_in; [exact P|auto]).
      split; [apply (@okL_C _ FI); auto|]. apply in_map_iff in He' as (x & <- & _). reflexivity. }
    destruct (@drain_spec (length q) q []) as [P1 S1]; auto.
    { intros e He. apply HC, in_or_app; auto. } { simpl; tauto. } { constructor. }
    rewrite app_nil_r in P1.
    exists (map snd rest). split; [|split; [|split]]; auto.
    - rewrite P1, <- map_app, P, map_map. simpl. rewrite map_id. auto.
    - rewrite (Permutation_length P1), map_length, Len, map_length. auto.
    - intros y z Hy Hz. eapply Permutation_in in Hy; [|exact P1].
      apply in_map_iff in Hy as (a & <- & Ha). apply in_map_iff in Hz as (b & <- & Hb).
      rewrite <- (proj2 (HC a (in_or_app _ _ _ (or_introl Ha)))), <- (proj2 (HC b (in_or_app _ _ _ (or_intror Hb)))).
      auto.
  Qed.
End Knn.
