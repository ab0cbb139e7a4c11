(** Proofs about the neighbour structure over the reals. *)
From Coq Require Import Reals Lra Psatz NArith Sorted.
From Verif Require Import Base Num DelModel OctModel OctSpec.
Set Implicit Arguments.

Definition P2 : Type := (R * R)%type.

(** *** Boxes *)
Definition inB (b : P2 * P2) (p : P2) : Prop :=
  (fst (fst b) <= fst p <= fst (snd b) /\ snd (fst b) <= snd p <= snd (snd b))%R.

Lemma min2R a b : (nmin2 RNum a b <= a /\ nmin2 RNum a b <= b)%R.
Proof. unfold nmin2. cbn [nlt RNum]. destruct (Rltb b a) eqn:E; [apply Rltb_true in E|apply Rltb_false in E]; lra. Qed.
Lemma max2R a b : (a <= nmax2 RNum a b /\ b <= nmax2 RNum a b)%R.
Proof. unfold nmax2. cbn [nlt RNum]. destruct (Rltb a b) eqn:E; [apply Rltb_true in E|apply Rltb_false in E]; lra. Qed.

Lemma minmax_in b c p : inB b p \/ inB c p -> inB (@minmax RNum b c) p.
Proof.
  destruct b as [[b1 b2] [b3 b4]], c as [[c1 c2] [c3 c4]]. unfold inB, minmax, minC, maxC. cbn [fst snd].
  pose proof (min2R b1 c1) as H1. pose proof (min2R b2 c2) as H2. pose proof (max2R b3 c3) as H3. pose proof (max2R b4 c4) as H4.
  cbn [nT RNum] in *. intros [Q|Q]; lra.
Qed.

Section Tree.
  Variable vp : nat -> P2.

  Lemma box_fold (L : list nat) : forall b, 
    (forall p, inB b p -> inB (fold_left (@minmax RNum) (map (fun u => (vp u, vp u)) L) b) p) /\
    (forall u, In u L -> inB (fold_left (@minmax RNum) (map (fun u => (vp u, vp u)) L) b) (vp u)).
  Proof.
    induction L as [|v L IH]; intros b; cbn [map fold_left].
    - split; [auto|intros u []].
    - destruct (IH (@minmax RNum b (vp v, vp v))) as (A & B). split.
      + intros p Hp. apply A. apply minmax_in. auto.
      + intros u [<-|I]; auto. apply A. apply minmax_in. right. unfold inB. cbn [fst snd]. lra.
  Qed.
  Lemma getBox_ok V : V <> [] -> exists b, @getBox RNum vp V = Ok b /\ forall u, In u V -> inB b (vp u).
  Proof.
    destruct V as [|v V]; [congruence|]. intros _. unfold getBox. eexists. split; [reflexivity|].
    apply (proj2 (box_fold (v :: V) (vp v, vp v))).
  Qed.

  Fixpoint oitems (t : otree RNum) : list nat :=
    match t with OLeaf _ its => its | ONode _ _ l r => oitems l ++ oitems r end.
  Fixpoint oleaves (t : otree RNum) : list (list nat) :=
    match t with OLeaf _ its => [its] | ONode _ _ l r => oleaves l ++ oleaves r end.
  Fixpoint otOk (t : otree RNum) : Prop :=
    (forall u, In u (oitems t) -> inB (obx t) (vp u)) /\ osize t = length (oitems t) /\
    match t with OLeaf _ _ => True | ONode _ _ l r => otOk l /\ otOk r end.

  Lemma otOk_box t : otOk t -> forall u, In u (oitems t) -> inB (obx t) (vp u).
  Proof. destruct t; cbn [otOk]; tauto. Qed.
  Lemma otOk_size t : otOk t -> osize t = length (oitems t).
  Proof. destruct t; cbn [otOk]; tauto. Qed.

  Lemma flat_ok t : otOk t -> forall off, map fst (flatW t off) = seq off (osize t) /\ map snd (flatW t off) = oitems t.
  Proof.
    induction t as [b its|b n l IHl r IHr]; cbn [otOk]; intros H off; cbn [flatW osize oitems].
    - generalize off. clear H. induction its as [|i its IH]; intros o; cbn [length seq combine map fst snd]; [auto|].
      destruct (IH (S o)) as (-> & ->). auto.
    - destruct H as (_ & E & Hl & Hr). cbn [osize oitems] in E. rewrite !map_app.
      destruct (IHl Hl off) as (-> & ->). destruct (IHr Hr (off + osize l)) as (-> & ->).
      rewrite app_length in E. rewrite <- (otOk_size l Hl), <- (otOk_size r Hr) in E. subst n. rewrite seq_app. auto.
  Qed.

  (** *** Building *)
  Variable bsearch : list (N * nat) -> (N * nat -> bool) -> nat.
  (** the position of the first element that fails, when those that pass come first *)
  Hypothesis Hbs : forall l f k, (forall i x, nth_error l i = Some x -> f x = (i <? k)) -> k <= length l -> bsearch l f = k.

  Definition tagSorted (l : list (N * nat)) : Prop := StronglySorted (fun a b => (fst a <= fst b)%N) l.
  Definition shares (b : nat) (l : list (N * nat)) : Prop :=
    forall x y, In x l -> In y l -> N.shiftr (fst x) (N.of_nat b) = N.shiftr (fst y) (N.of_nat b).

  Lemma StronglySorted_firstn {A} (R : A -> A -> Prop) l : StronglySorted R l -> forall k, StronglySorted R (firstn k l).
  Proof.
    induction 1 as [|x l S IH F]; intros [|k]; cbn [firstn]; try constructor; auto.
    rewrite Forall_forall in *. intros y I. apply F. revert I. clear. revert k. induction l as [|z l IHl]; intros [|k]; cbn; auto; [tauto|].
    intros [->|I]; eauto.
  Qed.
  Lemma StronglySorted_skipn {A} (R : A -> A -> Prop) l : StronglySorted R l -> forall k, StronglySorted R (skipn k l).
  Proof. induction 1 as [|x l S IH F]; intros [|k]; cbn [skipn]; try constructor; auto. Qed.

  (** the elements that pass come first *)
  Lemma part_point (f : N * nat -> bool) l : (forall i j x y, i < j -> nth_error l i = Some x -> nth_error l j = Some y -> f y = true -> f x = true) ->
    exists k, k <= length l /\ forall i x, nth_error l i = Some x -> f x = (i <? k).
  Proof.
    induction l as [|x l IH]; intros H.
    - exists 0. split; auto. intros [|i] x E; discriminate.
    - destruct (f x) eqn:Fx.
      + destruct IH as (k & Hk & K). { intros i j a b L E1 E2. apply (H (S i) (S j)); auto. lia. }
        exists (S k). cbn [length]. split; [lia|]. intros [|i] y E; cbn in E; [injection E as <-; auto|].
        rewrite (K _ _ E). reflexivity.
      + exists 0. split; [lia|]. intros i y E. destruct i as [|i]; [injection E as <-; auto|]. cbn in *.
        destruct (f y) eqn:Fy; auto. specialize (H 0 (S i) x y ltac:(lia) eq_refl E Fy). congruence.
  Qed.

  Lemma sorted_nth {A} (R : A -> A -> Prop) l : StronglySorted R l -> forall i j x y, i < j -> nth_error l i = Some x -> nth_error l j = Some y -> R x y.
  Proof.
    induction 1 as [|z l S IH F]; intros [|i] [|j] x y L E1 E2; try lia; cbn in *; try discriminate.
    - injection E1 as <-. rewrite Forall_forall in F. apply F. eapply nth_error_In; eauto.
    - apply (IH i j); auto. lia.
  Qed.

  Lemma low_iff b (x : N * nat) : lowSide (S b) x = negb (N.testbit (fst x) (N.of_nat b)).
  Proof.
    unfold lowSide. replace (S b - 1) with b by lia. rewrite N.land_ones, N.shiftl_1_l.
    replace (N.of_nat (S b)) with (N.succ (N.of_nat b)) by lia. rewrite N.pow_succ_r'. set (p := (2 ^ N.of_nat b)%N).
    assert (Hp : (p <> 0)%N) by (apply N.pow_nonzero; discriminate).
    rewrite (N.mul_comm 2 p), N.mod_mul_r by (auto; discriminate).
    rewrite N.testbit_eqb. fold p. set (d := (fst x / p)%N).
    pose proof (N.mod_lt (fst x) p Hp). pose proof (N.mod_lt d 2 ltac:(discriminate)).
    revert H H0. generalize (fst x mod p)%N as r, (d mod 2)%N as e. clearbody p. intros r e H H0.
    destruct (N.eqb_spec e 1) as [E|E]; cbn [negb].
    - apply N.ltb_ge. rewrite E, N.mul_1_r. lia.
    - apply N.ltb_lt. assert (e = 0)%N as -> by lia. rewrite N.mul_0_r. lia.
  Qed.
  Lemma shift_step b x : N.shiftr x (N.of_nat b) = (2 * N.shiftr x (N.of_nat (S b)) + N.b2n (N.testbit x (N.of_nat b)))%N.
  Proof.
    replace (N.of_nat (S b)) with (N.of_nat b + 1)%N by lia. rewrite <- N.shiftr_shiftr.
    replace (N.testbit x (N.of_nat b)) with (N.testbit (N.shiftr x (N.of_nat b)) 0) by (rewrite N.shiftr_spec'; f_equal; lia).
    rewrite <- N.div2_spec, N.bit0_odd. apply N.div2_odd.
  Qed.

  Lemma In_firstn' {A} (l : list A) k x : In x (firstn k l) -> exists i, i < k /\ nth_error l i = Some x.
  Proof.
    revert k. induction l as [|y l IH]; intros [|k]; cbn; try tauto. intros [->|I]; [exists 0; split; auto; lia|].
    destruct (IH _ I) as (i & L & E). exists (S i). split; auto. lia.
  Qed.
  Lemma In_skipn' {A} (l : list A) k x : In x (skipn k l) -> exists i, k <= i /\ nth_error l i = Some x.
  Proof.
    revert k. induction l as [|y l IH]; intros [|k]; cbn [skipn]; intros I; try (destruct I; fail).
    - apply In_nth_error in I. destruct I as (i & E). exists i. split; auto. lia.
    - destruct (IH _ I) as (i & L & E). exists (S i). split; auto. lia.
  Qed.

  Lemma mkNode_ok l r : otOk l -> otOk r -> otOk (mkNode l r).
  Proof.
    intros Hl Hr. unfold mkNode. cbn [otOk oitems obx osize]. split; [|split; [|auto]].
    - intros u I. apply in_app_iff in I. apply minmax_in. destruct I as [I|I]; [left|right]; eapply otOk_box; eauto.
    - rewrite app_length, <- (otOk_size l Hl), <- (otOk_size r Hr). reflexivity.
  Qed.

  Lemma mkLeaf_ok Pts : Pts <> [] -> exists t, @mkLeaf RNum vp Pts = Ok t /\ otOk t /\ oitems t = map snd Pts /\ oleaves t = [map snd Pts] /\ odepth t = 0.
  Proof.
    intros NE. unfold mkLeaf. destruct (@getBox_ok (map snd Pts)) as (b & -> & Hb); [destruct Pts; [congruence|discriminate]|]. cbn [bind].
    eexists. split; [reflexivity|]. cbn [otOk oitems obx osize oleaves odepth]. auto.
  Qed.

  Definition leafOk (key : nat -> N) (its : list nat) : Prop := length its < 20 \/ forall u v, In u its -> In v its -> key u = key v.

  Lemma build_ok key bit : forall Pts, Pts <> [] -> tagSorted Pts -> shares bit Pts -> (forall x, In x Pts -> fst x = key (snd x)) ->
    exists t, @buildRec RNum vp bsearch Pts bit = Ok t /\ otOk t /\ oitems t = map snd Pts /\
      (forall its, In its (oleaves t) -> its <> [] /\ leafOk key its) /\ odepth t <= bit.
  Proof.
    induction bit as [|bit IH]; intros Pts NE TS SH KY; cbn [buildRec];
      (destruct (Nat.eqb_spec (length Pts) 0) as [Q|Q]; [destruct Pts; [congruence|discriminate]|]).
    - destruct (mkLeaf_ok NE) as (t & -> & O & E & L & D). exists t. split; auto. split; auto. split; auto. split; [|lia].
      rewrite L. intros its [<-|[]]. split; [destruct Pts; [congruence|discriminate]|]. right. intros u v Hu Hv.
      apply in_map_iff in Hu, Hv. destruct Hu as (x & <- & Ix), Hv as (y & <- & Iy). rewrite <- !KY by auto.
      exact (SH x y Ix Iy).
    - destruct (Nat.ltb_spec (length Pts) 20) as [Q1|Q1].
      { destruct (mkLeaf_ok NE) as (t & -> & O & E & L & D). exists t. split; auto. split; auto. split; auto. split; [|lia].
        rewrite L. intros its [<-|[]]. split; [destruct Pts; [congruence|discriminate]|]. left. rewrite map_length. auto. }
      destruct (@part_point (lowSide (S bit)) Pts) as (k & Hk & K).
      { intros i j x y L Ex Ey. rewrite !low_iff. pose proof (sorted_nth TS L Ex Ey) as LE. cbv beta in LE.
        pose proof (SH x y (nth_error_In _ _ Ex) (nth_error_In _ _ Ey)) as S1. pose proof (shift_step bit (fst x)) as Sx. pose proof (shift_step bit (fst y)) as Sy.
        assert (LS : (N.shiftr (fst x) (N.of_nat bit) <= N.shiftr (fst y) (N.of_nat bit))%N).
        { rewrite !N.shiftr_div_pow2. apply N.div_le_mono; [apply N.pow_nonzero; discriminate|auto]. }
        destruct (N.testbit (fst x) (N.of_nat bit)), (N.testbit (fst y) (N.of_nat bit)); cbn [negb N.b2n] in *; auto. lia. }
      rewrite (@Hbs Pts (lowSide (S bit)) k K Hk).
      assert (SH2 : forall l, (forall x, In x l -> In x Pts) -> (exists c, forall x, In x l -> lowSide (S bit) x = c) -> shares bit l).
      { intros l Hl (c & Hc) x y Ix Iy. rewrite (shift_step bit (fst x)), (shift_step bit (fst y)). rewrite (SH x y) by auto. f_equal.
        pose proof (Hc _ Ix) as E1. pose proof (Hc _ Iy) as E2. rewrite low_iff in E1, E2. destruct (N.testbit (fst x) _), (N.testbit (fst y) _); cbn in *; congruence. }
      destruct (Nat.eqb_spec k 0) as [K0|K0]; cbn [orb]; [|destruct (Nat.eqb_spec k (length Pts)) as [K1|K1]].
      + destruct (IH Pts) as (t & E & O & I & L & D); auto.
        { apply SH2; auto. exists false. intros x Ix. apply In_nth_error in Ix. destruct Ix as (i & Ei). rewrite (K _ _ Ei). subst k. reflexivity. }
        exists t. repeat split; auto; try apply (L its); auto.
      + destruct (IH Pts) as (t & E & O & I & L & D); auto.
        { apply SH2; auto. exists true. intros x Ix. apply In_nth_error in Ix. destruct Ix as (i & Ei). rewrite (K _ _ Ei).
          apply Nat.ltb_lt. rewrite K1. apply nth_error_Some. congruence. }
        exists t. repeat split; auto; try apply (L its); auto.
      + assert (F1 : forall x, In x (firstn k Pts) -> In x Pts) by (intros x I; destruct (In_firstn' _ _ _ I) as (i & _ & Ei); eapply nth_error_In; eauto).
        assert (F2 : forall x, In x (skipn k Pts) -> In x Pts) by (intros x I; destruct (In_skipn' _ _ _ I) as (i & _ & Ei); eapply nth_error_In; eauto).
        destruct (IH (firstn k Pts)) as (t1 & E1 & O1 & I1 & L1 & D1).
        { intros Z. apply (f_equal (@length _)) in Z. rewrite firstn_length in Z. cbn in Z. lia. }
        { apply StronglySorted_firstn; auto. }
        { apply SH2; auto. exists true. intros x I. destruct (In_firstn' _ _ _ I) as (i & Li & Ei). rewrite (K _ _ Ei). apply Nat.ltb_lt. auto. }
        { auto. }
        destruct (IH (skipn k Pts)) as (t2 & E2 & O2 & I2 & L2 & D2).
        { intros Z. apply (f_equal (@length _)) in Z. rewrite skipn_length in Z. cbn in Z. lia. }
        { apply StronglySorted_skipn; auto. }
        { apply SH2; auto. exists false. intros x I. destruct (In_skipn' _ _ _ I) as (i & Li & Ei). rewrite (K _ _ Ei). apply Nat.ltb_ge. auto. }
        { auto. }
        rewrite E1. cbn [bind]. rewrite E2. cbn [bind]. exists (mkNode t1 t2). split; auto. split; [apply mkNode_ok; auto|].
        split; [cbn [mkNode oitems]; rewrite I1, I2, <- map_app, firstn_skipn; auto|]. split; [|cbn [mkNode odepth]; lia].
        cbn [mkNode oleaves]. intros its I. apply in_app_iff in I. destruct I as [I|I]; auto.
  Qed.

  Variable toU : R -> res N.
  Hypothesis HtoU : forall x, exists u, toU x = Ok u /\ (u < 2 ^ 32)%N.
  Variable sort : list (N * nat) -> list (N * nat).
  Hypothesis Hsort : forall l, Permutation (sort l) l /\ tagSorted (sort l).

  Lemma bitAt_small x i loc : (i < 32)%nat -> (loc < 64)%nat -> forall j, (64 <= j)%N -> N.testbit (bitAt x i loc) j = false.
  Proof.
    intros Hi Hl j Hj. unfold bitAt. rewrite N.shiftl_spec_high' by lia. rewrite N.land_spec.
    replace (N.testbit 1 (j - N.of_nat loc)) with false; [apply andb_false_r|]. symmetry. destruct (j - N.of_nat loc)%N eqn:E; [lia|reflexivity].
  Qed.
  Lemma interleave_small x y : N.shiftr (interleave x y) (N.of_nat 64) = 0%N.
  Proof.
    apply N.bits_inj_0. intros j. rewrite N.shiftr_spec'. assert (Hj : (64 <= j + N.of_nat 64)%N) by lia. revert Hj. generalize (j + N.of_nat 64)%N. clear j. intros j Hj.
    unfold interleave. assert (H0 : N.testbit 0 j = false) by apply N.bits_0. revert H0. generalize 0%N as r.
    assert (G : forall L, (forall i, In i L -> i < 32) -> forall r, N.testbit r j = false ->
      N.testbit (fold_left (fun r i => N.lor (N.lor r (bitAt x i (2 * i))) (bitAt y i (2 * i + 1))) L r) j = false).
    { induction L as [|i L IH]; intros HL r Hr; cbn [fold_left]; auto. apply IH; [intros; apply HL; right; auto|].
      specialize (HL i (or_introl eq_refl)). rewrite !N.lor_spec, Hr, !bitAt_small by lia. reflexivity. }
    apply G. intros i I. apply in_seq in I. lia.
  Qed.

  Lemma keyOf_ok p lo d : exists k, @keyOf RNum toU p lo d = Ok k /\ N.shiftr k (N.of_nat 64) = 0%N.
  Proof.
    unfold keyOf. match goal with |- context[toU ?a] => destruct (HtoU a) as (x & -> & _) end. cbn [bind].
    match goal with |- context[toU ?a] => destruct (HtoU a) as (y & -> & _) end. cbn [bind].
    eexists. split; [reflexivity|]. apply interleave_small.
  Qed.

  Lemma tag_map (f : nat -> res N) V : (forall v, exists k, f v = Ok k /\ N.shiftr k (N.of_nat 64) = 0%N) ->
    exists key, (forall v, f v = Ok (key v) /\ N.shiftr (key v) (N.of_nat 64) = 0%N) /\
      mapR (fun v => k <- f v ;; Ok (k, v)) V = Ok (map (fun v => (key v, v)) V).
  Proof.
    intros H. exists (fun v => match f v with Ok k => k | _ => 0%N end). split.
    - intros v. destruct (H v) as (k & E & S). rewrite E. auto.
    - induction V as [|v V IH]; cbn [mapR map]; auto. destruct (H v) as (k & E & S). rewrite E. cbn [bind]. rewrite IH. reflexivity.
  Qed.

  Lemma octBuild_ok V : V <> [] -> exists key t, @octBuild RNum vp toU sort bsearch V = Ok t /\ otOk t /\ Permutation (oitems t) V /\
    (forall b, @getBox RNum vp V = Ok b -> forall v, @keyOf RNum toU (vp v) (fst b) (delta b) = Ok (key v)) /\
    StronglySorted (fun u v => (key u <= key v)%N) (oitems t) /\
    (forall its, In its (oleaves t) -> its <> [] /\ leafOk key its) /\ odepth t <= 64.
  Proof.
    intros NE. unfold octBuild. destruct V as [|v0 V0] eqn:EV; [congruence|]. rewrite <- EV in *. clear EV.
    unfold tagPoints. destruct (getBox_ok NE) as (b & Eb & Hb). rewrite Eb. cbn [bind].
    destruct (@tag_map (fun v => @keyOf RNum toU (vp v) (fst b) (delta b)) V) as (key & Hk & Em); [intros; apply keyOf_ok|].
    rewrite Em. cbn [bind]. set (L := map (fun v => (key v, v)) V). destruct (Hsort L) as (Pm & TS).
    assert (LN : sort L <> []). { intros Z. rewrite Z in Pm. apply Permutation_nil in Pm. destruct V; [congruence|discriminate]. }
    assert (KY : forall x, In x (sort L) -> fst x = key (snd x)).
    { intros x I. apply (Permutation_in _ Pm) in I. apply in_map_iff in I. destruct I as (v & <- & _). reflexivity. }
    destruct (@build_ok key 64 (sort L) LN TS) as (t & E & O & I & LO & D); auto.
    { intros x y Ix Iy. rewrite !KY by auto. rewrite !(proj2 (Hk _)). reflexivity. }
    exists key, t. split; auto. split; auto. split; [|split; [|split; [|split; [exact LO|exact D]]]].
    - rewrite I, Pm. unfold L. rewrite map_map. cbn [snd]. rewrite map_id. reflexivity.
    - intros b' Hb' v. injection Hb' as <-. apply Hk.
    - rewrite I. clear - TS KY. revert KY. induction TS as [|x l S IH F]; intros KY; cbn [map]; constructor.
      + apply IH. intros; apply KY; right; auto.
      + rewrite Forall_forall in *. intros y Iy. apply in_map_iff in Iy. destruct Iy as (z & <- & Iz).
        rewrite <- (KY x), <- (KY z); [apply F; auto|right; auto|left; auto].
  Qed.
End Tree.
