(** The divide and conquer closest pair in exact arithmetic: the recursion. *)
From Coq Require Import Reals Lra Sorted.
From Verif Require Import KeySort Sched Base Num KdModel RGeom CpModel CpProofs.
Set Implicit Arguments.
Local Open Scope R_scope.

(** contract of the sorts *)
Definition csort_ok (K : Num) (srt : nat -> list (list (nT K)) -> list (list (nT K))) : Prop :=
  forall k P, Permutation (srt k P) P /\
    forall i j, (i < j < length P)%nat -> nlt K (coord (nth j (srt k P) []) k) (coord (nth i (srt k P) []) k) = false.

Section Main.
  Variable dim : nat.
  Hypothesis Hdim : (2 <= dim <= 4)%nat.
  Notation D := (edist dim).
  Notation pp := (pp RNum).
  Variables srt psrt : nat -> list pt -> list pt.
  Hypothesis Hsrt : csort_ok RNum srt.
  Hypothesis Hpsrt : csort_ok RNum psrt.
  Variables cutSerial cutParallel cutSlab : nat.
  Hypothesis Hcut : (4 <= cutSerial)%nat.
  Variable minE : list pp -> option pp.

  Definition valid (P : list pt) (a : pp) : Prop :=
    pd a = Rfmax \/ (pairIn (pu a) (pv a) P /\ pd a = D (pu a) (pv a)).
  Definition isClosest (P : list pt) (a : pp) : Prop :=
    pairIn (pu a) (pv a) P /\ pd a = D (pu a) (pv a) /\ apart dim (pd a) P.
  Definition small (P : list pt) : Prop := forall p q, In p P -> In q P -> D p q < Rfmax.

  Notation pd := (@pd RNum). Notation pu := (@pu RNum). Notation pv := (@pv RNum).
  Lemma foldR_min X (f : pp -> X -> res pp) (Q : X -> pp -> Prop) (V : pp -> Prop) l :
    (forall x a, In x l -> V a -> exists a', f a x = Ok a' /\ V a' /\ pd a' <= pd a /\ Q x a') ->
    (forall x a a', Q x a -> pd a' <= pd a -> Q x a') ->
    forall a, V a -> exists a', foldR f l a = Ok a' /\ V a' /\ pd a' <= pd a /\ forall x, In x l -> Q x a'.
  Proof.
    intros H HQ. induction l as [|x l IH]; intros a Ha; cbn [foldR].
    - exists a. split; auto. split; auto. split; [apply Rle_refl|intros ? []].
    - destruct (H x a) as (a1 & E1 & V1 & L1 & Q1); [simpl; auto|auto|]. rewrite E1. cbn [bind].
      destruct (IH ltac:(intros; apply H; simpl; auto) a1 V1) as (a' & E & V' & L & Q').
      exists a'. split; auto. split; auto. split; [lra|]. intros y [->|Hy]; auto. eapply HQ; eauto.
  Qed.

  Lemma closer_ok P a u v : valid P a -> pairIn u v P ->
    valid P (closer dim a u v) /\ pd (closer dim a u v) <= pd a /\ pd (closer dim a u v) <= D u v.
  Proof.
    intros Ha Hp. unfold closer. cbn [nlt RNum]. destruct (Rltb_spec (dist RNum dim u v) (pd a)).
    - rewrite dist_edist in *. cbn [ppNew pd pu pv]. rewrite dist_edist. split; [|split; lra].
      right. cbn [ppNew pu pv pd]. rewrite dist_edist. auto.
    - rewrite dist_edist in *. split; auto. split; lra.
  Qed.

  Lemma rd_nth (P : list pt) i : (i < length P)%nat -> rd RNum P i = Ok (nth i P []).
  Proof. intros H. unfold rd. rewrite (nth_error_nth' P [] H). reflexivity. Qed.

  Lemma brute_ok P : (2 <= length P)%nat -> small P -> exists r, bruteForceSerial RNum dim P = Ok r /\ isClosest P r.
  Proof.
    intros HL HS. unfold bruteForceSerial. rewrite !rd_nth by lia. cbn [bind].
    destruct (@foldR_min nat (fun a i =>
      foldR (fun a j => u <- rd RNum P i ;; v <- rd RNum P j ;; Ok (closer dim a u v)) (seq (i + 1) (length P - (i + 1))) a)
      (fun i a => forall j, (i < j < length P)%nat -> pd a <= D (nth i P []) (nth j P [])) (valid P) (seq 0 (length P))) with (a := ppFar RNum (nth 0 P []) (nth 1 P []))
      as (r & E & V & _ & Q).
    - intros i a Hi Ha. apply in_seq in Hi.
      destruct (@foldR_min nat (fun a j => u <- rd RNum P i ;; v <- rd RNum P j ;; Ok (closer dim a u v))
        (fun j a => pd a <= D (nth i P []) (nth j P [])) (valid P) (seq (i + 1) (length P - (i + 1)))) with (a := a)
        as (r & E & V & L & Q); auto.
      + intros j b Hj Hb. apply in_seq in Hj. rewrite !rd_nth by lia. cbn [bind].
        destruct (@closer_ok P b (nth i P []) (nth j P [])) as (C1 & C2 & C3); auto; [apply pairIn_nth; lia|]. eauto.
      + intros. lra.
      + exists r. split; auto. split; auto. split; auto. intros j Hj. apply Q. apply in_seq. lia.
    - intros i a a' H1 H2 j Hj. specialize (H1 j Hj). lra.
    - left. reflexivity.
    - exists r. split; auto.
      assert (Ap : apart dim (pd r) P).
      { intros p q Hpq. apply pairIn_idx with (d := []) in Hpq as (i & j & Hij & H).
        assert (G : pd r <= D (nth i P []) (nth j P [])) by (apply Q; [apply in_seq; lia|lia]).
        destruct H as [[<- <-]|[<- <-]]; auto. rewrite D_sym. auto. }
      destruct V as [V|[V1 V2]]; [|split; auto].
      exfalso. pose proof (Ap _ _ (@pairIn_nth _ [] P 0 1 ltac:(lia))) as F.
      pose proof (HS (nth 0 P []) (nth 1 P []) ltac:(apply nth_In; lia) ltac:(apply nth_In; lia)). lra.
  Qed.

  Lemma brute_few P : (length P < 2)%nat -> bruteForceSerial RNum dim P = UB.
  Proof.
    intros H. unfold bruteForceSerial, rd. destruct P as [|p [|q P]]; cbn [length nth_error bind] in *; auto; lia.
  Qed.

  (** *** the slab *)
  Lemma layers_perm m del k C C' : Permutation C C' -> layers dim m del k C -> layers dim m del k C'.
  Proof.
    intros HP [H1 H2]. split.
    - intros a i Ha. apply H1. apply (Permutation_in _ (Permutation_sym HP)); auto.
    - intros a b i Hab. apply H2. eapply pairIn_perm; [symmetry; eauto|auto].
  Qed.
  Lemma layers_app m del k C C' : layers dim m del k (C ++ C') -> layers dim m del k C /\ layers dim m del k C'.
  Proof.
    intros [H1 H2]. split; split.
    - intros a i Ha. apply H1. apply in_app_iff; auto.
    - intros a b i Ha. apply H2. apply pairIn_app_l; auto.
    - intros a i Ha. apply H1. apply in_app_iff; auto.
    - intros a b i Ha. apply H2. apply pairIn_app_r; auto.
  Qed.
  (** coloured versions of parts of a list *)
  Definition lay m del (k : nat) (P : list pt) : Prop := exists C, map fst C = P /\ layers dim m del k C.
  Lemma lay_perm m del k P P' : Permutation P P' -> lay m del k P -> lay m del k P'.
  Proof.
    intros HP (C & <- & HL). symmetry in HP. apply Permutation_map_inv in HP as (C' & -> & HC). exists C'. split; auto.
    eapply layers_perm; eauto.
  Qed.
  Lemma lay_app m del k P P' : lay m del k (P ++ P') -> lay m del k P /\ lay m del k P'.
  Proof.
    intros (C & E & HL). apply map_eq_app in E as (C1 & C2 & -> & <- & <-). apply layers_app in HL as [H1 H2].
    split; eexists; eauto.
  Qed.
  Lemma lay_filter m del k f P : lay m del k P -> lay m del k (filter f P).
  Proof.
    intros H. apply lay_perm with (P' := filter f P ++ filter (fun x => negb (f x)) P) in H; [|symmetry; apply filter_perm_split].
    apply lay_app in H. tauto.
  Qed.

  Definition updf T (f : nat -> T) (k : nat) (x : T) : nat -> T := fun i => if (i =? k)%nat then x else f i.

  (** one more layer *)
  Lemma lay_slab m del k L R xm d : (k < dim)%nat -> lay m del k (L ++ R) -> apart dim d L -> apart dim d R ->
    (forall p, In p L -> coord (N := RNum) p k <= xm) -> (forall p, In p R -> xm <= coord (N := RNum) p k) ->
    lay (updf m k xm) (updf del k d) (k - 1) (filter (findSlab RNum xm d k) (L ++ R)).
  Proof.
    intros Hk (C & E & HL) AL AR HLx HRx. rewrite filter_app.
    apply map_eq_app in E as (C1 & C2 & -> & <- & <-).
    set (f := findSlab RNum xm d k).
    set (mk := fun b (a : cpt) => (fst a, updf (snd a) k b) : cpt).
    exists (map (mk false) (filter (fun a => f (fst a)) C1) ++ map (mk true) (filter (fun a => f (fst a)) C2)).
    assert (FM : forall (C : list cpt) b, map fst (map (mk b) (filter (fun a => f (fst a)) C)) = filter f (map fst C)).
    { induction C as [|a C IH]; intros b; cbn [map filter]; auto. destruct (f (fst a)); cbn [map fst mk]; rewrite IH; auto. }
    split; [rewrite map_app, !FM; auto|]. destruct HL as [H1 H2].
    assert (Hf : forall p, f p = true -> xm - d <= coord (N := RNum) p k <= xm + d).
    { intros p. unfold f, findSlab. cbn [nle nadd nsub RNum]. rewrite andb_true_iff, !Rleb_true. lra. }
    split.
    - intros a i Ha Hi. apply in_app_iff in Ha as [Ha|Ha]; apply in_map_iff in Ha as (b & <- & Hb); apply filter_In in Hb as [Hb Fb];
        pose proof (Hf _ Fb) as B; unfold half, mk, updf; cbn [fst snd]; destruct (Nat.eqb_spec i k) as [->|Hne].
      + split; [lra|]. apply HLx. apply in_map; auto.
      + apply (H1 b i); [apply in_app_iff; auto|lia].
      + split; [|lra]. apply HRx. apply in_map; auto.
      + apply (H1 b i); [apply in_app_iff; auto|lia].
    - assert (PM : forall X Y (g : X -> Y) l a b, pairIn a b (map g l) -> exists x y, pairIn x y l /\ a = g x /\ b = g y).
      { intros X Y g l a b (r & Hr). symmetry in Hr. apply Permutation_map_inv in Hr as (l3 & E3 & P3).
        destruct l3 as [|x [|y l3]]; cbn [map] in E3; try discriminate. injection E3 as -> -> ->.
        exists x, y. split; auto. exists l3. auto. }
      intros a b i Hab Hi Hc. apply pairIn_app in Hab as [Hab|[Hab|[[Ha Hb]|[Ha Hb]]]].
      + apply PM in Hab as (x & y & Hxy & -> & ->). apply pairIn_filter_inv in Hxy.
        unfold mk, updf in *; cbn [fst snd] in *. destruct (Nat.eqb_spec i k) as [->|Hne].
        * apply AL. destruct Hxy as (r & Hr). exists (map fst r). rewrite Hr. reflexivity.
        * apply H2; auto; [apply pairIn_app_l; auto|lia].
      + apply PM in Hab as (x & y & Hxy & -> & ->). apply pairIn_filter_inv in Hxy.
        unfold mk, updf in *; cbn [fst snd] in *. destruct (Nat.eqb_spec i k) as [->|Hne].
        * apply AR. destruct Hxy as (r & Hr). exists (map fst r). rewrite Hr. reflexivity.
        * apply H2; auto; [apply pairIn_app_r; auto|lia].
      + apply in_map_iff in Ha as (x & <- & Hx); apply filter_In in Hx as [Hx _].
        apply in_map_iff in Hb as (y & <- & Hy); apply filter_In in Hy as [Hy _].
        unfold mk, updf in *; cbn [fst snd] in *. destruct (Nat.eqb_spec i k) as [->|Hne]; [discriminate|].
        apply H2; auto; [apply pairIn_across; auto|lia].
      + apply in_map_iff in Ha as (x & <- & Hx); apply filter_In in Hx as [Hx _].
        apply in_map_iff in Hb as (y & <- & Hy); apply filter_In in Hy as [Hy _].
        unfold mk, updf in *; cbn [fst snd] in *. destruct (Nat.eqb_spec i k) as [->|Hne]; [discriminate|].
        apply H2; auto; [apply pairIn_sym, pairIn_across; auto|lia].
  Qed.

  Lemma nth_seg (S : list pt) i n t : (t < n)%nat -> nth t (firstn n (skipn i S)) [] = nth (i + t) S [].
  Proof.
    intros H.
    rewrite <- (firstn_skipn i S) at 2. destruct (Nat.le_gt_cases i (length S)) as [Hi|Hi].
    - rewrite app_nth2 by (rewrite firstn_length; lia). rewrite firstn_length, Nat.min_l by auto.
      replace (i + t - i)%nat with t by lia.
      destruct (Nat.lt_ge_cases t (length (skipn i S))) as [Ht|Ht].
      + rewrite <- (firstn_skipn n (skipn i S)) at 2. rewrite app_nth1; auto. rewrite firstn_length. lia.
      + rewrite !nth_overflow; auto. rewrite firstn_length. lia.
    - rewrite !nth_overflow; auto; rewrite ?app_length, ?firstn_length, ?skipn_length; lia.
  Qed.

  Lemma slab_ok m del S a : lay m del 0 S -> (forall i, (1 <= i < dim)%nat -> 0 < del i) ->
    (forall i j, (i < j < length S)%nat -> coord (N := RNum) (nth i S []) 0 <= coord (N := RNum) (nth j S []) 0) ->
    pd a = Rfmax ->
    exists r, slabSerial dim S a = Ok r /\ valid S r /\ forall p q, pairIn p q S -> D p q < del 1%nat -> pd r <= D p q.
  Proof.
    intros HLay Hdel Hs Ha. unfold slabSerial.
    destruct (@foldR_min nat (fun a i =>
      foldR (fun a j => if (i + j + 1 <? length S)%nat then u <- rd RNum S i ;; v <- rd RNum S (i + j + 1) ;; Ok (closer dim a u v) else Ok a)
        (seq 0 (numToCheck dim)) a)
      (fun i a => forall j, (j < numToCheck dim)%nat -> (i + j + 1 < length S)%nat -> pd a <= D (nth i S []) (nth (i + j + 1) S [])) (valid S) (seq 0 (length S))) with (a := a)
      as (r & E & V & _ & Q).
    - intros i b Hi Hb. apply in_seq in Hi.
      destruct (@foldR_min nat (fun a j => if (i + j + 1 <? length S)%nat then u <- rd RNum S i ;; v <- rd RNum S (i + j + 1) ;; Ok (closer dim a u v) else Ok a)
        (fun j a => (i + j + 1 < length S)%nat -> pd a <= D (nth i S []) (nth (i + j + 1) S [])) (valid S) (seq 0 (numToCheck dim))) with (a := b)
        as (r & E & V & L & Q); auto.
      + intros j c Hj Hc. destruct (Nat.ltb_spec (i + j + 1) (length S)).
        * rewrite !rd_nth by lia. cbn [bind].
          destruct (@closer_ok S c (nth i S []) (nth (i + j + 1) S [])) as (C1 & C2 & C3); auto; [apply pairIn_nth; lia|]. eauto.
        * exists c. split; auto. split; auto. split; [lra|]. lia.
      + intros j c c' H1 H2 H3. specialize (H1 H3). lra.
      + exists r. split; auto. split; auto. split; auto. intros j Hj Hl. apply Q; auto. apply in_seq. lia.
    - intros i b b' H1 H2 j Hj Hl. specialize (H1 j Hj Hl). lra.
    - left. auto.
    - exists r. split; auto. split; auto. intros p q Hpq Hlt.
      assert (G : forall i j, (i < j < length S)%nat -> D (nth i S []) (nth j S []) < del 1%nat -> pd r <= D (nth i S []) (nth j S [])).
      { intros i j Hij Hd. assert (Hn : (j - i < numToCheck dim + 1)%nat).
        { set (Z := firstn (j - i + 1) (skipn i S)).
          assert (HZ : length Z = (j - i + 1)%nat) by (unfold Z; rewrite firstn_length, skipn_length; lia).
          assert (HlZ : lay m del 0 Z).
          { assert (E' : S = firstn i S ++ Z ++ skipn (j - i + 1) (skipn i S)) by (unfold Z; rewrite !firstn_skipn; auto).
            rewrite E' in HLay. apply lay_app in HLay as [_ HLay]. apply lay_app in HLay. tauto. }
          destruct HlZ as (C & EC & HC).
          assert (HCl : length C = (j - i + 1)%nat) by (rewrite <- HZ, <- EC, map_length; auto).
          set (x := coord (N := RNum) (nth i S []) 0). set (w := coord (N := RNum) (nth j S []) 0 - x).
          pose proof (Hs i j Hij) as Hij0.
          assert (Hw : 0 <= w < del 1%nat).
          { unfold w, x. split; [lra|]. eapply Rle_lt_trans; [|exact Hd]. eapply Rle_trans; [|apply (@D_coord dim _ _ 0); lia].
            rewrite Rabs_minus_sym. apply Rle_abs. }
          assert (length C <= 2 ^ (dim * 2 - 1))%nat; [|unfold numToCheck; lia].
          apply (@packing dim m del C x w); auto.
          intros a' Ha'. assert (Hin : In (fst a') Z) by (rewrite <- EC; apply in_map; auto).
          apply In_nth with (d := []) in Hin as (t & Ht & Et). rewrite HZ in Ht. unfold Z in Et. rewrite nth_seg in Et by auto. rewrite <- Et.
          unfold w, x. destruct (Nat.eq_dec t 0) as [->|]; [rewrite Nat.add_0_r; lra|].
          destruct (Nat.eq_dec t (j - i)) as [->|]; [replace (i + (j - i))%nat with j by lia; lra|].
          pose proof (Hs i (i + t)%nat ltac:(lia)). pose proof (Hs (i + t)%nat j ltac:(lia)). lra. }
        replace j with (i + (j - i - 1) + 1)%nat in * by lia. apply Q; [apply in_seq; lia|lia|lia]. }
      apply pairIn_idx with (d := []) in Hpq as (i & j & Hij & [[<- <-]|[<- <-]]); auto.
      rewrite D_sym in *. auto.
  Qed.

  (** *** combining the halves *)
  Lemma closest_perm P P' a : Permutation P P' -> isClosest P a -> isClosest P' a.
  Proof.
    intros HP (H1 & H2 & H3). split; [eapply pairIn_perm; eauto|]. split; auto.
    intros p q Hpq. apply H3. eapply pairIn_perm; [symmetry; eauto|auto].
  Qed.
  Definition pick (l r : pp) : pp := if nlt RNum (pd l) (pd r) then l else r.
  Lemma pick_ok L R l r : isClosest L l -> isClosest R r ->
    let b := pick l r in pairIn (pu b) (pv b) (L ++ R) /\ pd b = D (pu b) (pv b) /\ apart dim (pd b) L /\ apart dim (pd b) R.
  Proof.
    intros (L1 & L2 & L3) (R1 & R2 & R3). unfold pick. cbn [nlt RNum]. destruct (Rltb_spec (pd l) (pd r)); cbn zeta.
    - split; [apply pairIn_app_l; auto|]. split; auto. split; auto. intros p q H. specialize (R3 p q H). lra.
    - split; [apply pairIn_app_r; auto|]. split; auto. split; auto. intros p q H. specialize (L3 p q H). lra.
  Qed.

  Lemma slab_in p xm d k : Rabs (coord (N := RNum) p k - xm) <= d -> findSlab RNum xm d k p = true.
  Proof.
    intros H. pose proof (Rle_abs (coord (N := RNum) p k - xm)). pose proof (Rle_abs (- (coord (N := RNum) p k - xm))) as H1. rewrite Rabs_Ropp in H1. unfold findSlab. cbn [nle nadd nsub RNum]. rewrite andb_true_iff, !Rleb_true. lra.
  Qed.

  Lemma combine (L R : list pt) k xm (l r s : pp) : (k < dim)%nat -> isClosest L l -> isClosest R r -> small (L ++ R) ->
    (forall p, In p L -> coord (N := RNum) p k <= xm) -> (forall p, In p R -> xm <= coord (N := RNum) p k) ->
    valid (L ++ R) s ->
    (forall p q, pairIn p q (filter (findSlab RNum xm (pd (pick l r)) k) (L ++ R)) -> D p q < pd (pick l r) -> pd s <= D p q) ->
    isClosest (L ++ R) (if nlt RNum (pd s) (pd (pick l r)) then s else pick l r).
  Proof.
    intros Hk Hl Hr HS HL HR Hv Hs. destruct (pick_ok Hl Hr) as (B1 & B2 & B3 & B4). set (b := pick l r) in *.
    assert (Ac : forall p q, In p L -> In q R -> pd b <= D p q \/ pd s <= D p q).
    { intros p q Hp Hq. destruct (Rlt_le_dec (D p q) (pd b)) as [Hlt|]; auto. right. apply Hs; auto.
      pose proof (HL p Hp). pose proof (HR q Hq). pose proof (@D_coord dim p q k Hk) as C.
      rewrite Rabs_minus_sym, Rabs_right in C by lra.
      apply pairIn_filter; [apply pairIn_across; auto| |]; apply slab_in; [rewrite Rabs_minus_sym|]; rewrite Rabs_right; lra. }
    assert (Al : forall p q, pairIn p q (L ++ R) -> pd b <= D p q \/ pd s <= D p q).
    { intros p q H. apply pairIn_app in H as [H|[H|[[H1 H2]|[H1 H2]]]]; auto.
      rewrite D_sym. auto. }
    cbn [nlt RNum]. destruct (Rltb_spec (pd s) (pd b)).
    - assert (Hb : pd b < Rfmax). { rewrite B2. apply pairIn_in in B1 as [? ?]. apply HS; auto. }
      destruct Hv as [Hv|[V1 V2]]; [lra|]. split; auto. split; auto.
      intros p q H. destruct (Al p q H); lra.
    - split; auto. split; auto. intros p q H. destruct (Al p q H); lra.
  Qed.

  Lemma lay_sub m del k P P' R : Permutation P (P' ++ R) -> lay m del k P -> lay m del k P'.
  Proof. intros H1 H2. eapply lay_perm in H2; [|exact H1]. apply lay_app in H2. tauto. Qed.
  Lemma small_incl P P' : incl P' P -> small P -> small P'.
  Proof. intros H1 H2 p q Hp Hq. apply H2; auto. Qed.

  (** correct, or undefined under the condition U *)
  Definition good (U : nat -> Prop) (P : list pt) (k : nat) (x : res (pp * list pt)) : Prop :=
    (exists r P', x = Ok (r, P') /\ Permutation P P' /\ isClosest P r) \/ (x = UB /\ U k).

  (** the split of a sorted array *)
  Lemma split_sorted so k P : csort_ok RNum so -> (4 <= length P)%nat -> let P1 := so k P in let xm := (length P1 / 2)%nat in
    Permutation P1 P /\ length P1 = length P /\ (2 <= length (firstn xm P1))%nat /\ (2 <= length (skipn xm P1))%nat /\
    (length (firstn xm P1) < length P)%nat /\ (length (skipn xm P1) < length P)%nat /\ (xm < length P1)%nat /\
    (forall p, In p (firstn xm P1) -> coord (N := RNum) p k <= coord (N := RNum) (nth xm P1 []) k) /\
    (forall p, In p (skipn xm P1) -> coord (N := RNum) (nth xm P1 []) k <= coord (N := RNum) p k).
  Proof.
    intros Hso HL. destruct (Hso k P) as [Hp Hs]. cbn zeta. pose proof (Permutation_length Hp) as Hl.
    set (P1 := so k P) in *. set (xm := (length P1 / 2)%nat).
    assert (Hx : (2 <= xm)%nat) by (unfold xm; apply Nat.div_le_lower_bound; lia).
    assert (Hx2 : (xm * 2 <= length P1)%nat) by (unfold xm; rewrite Nat.mul_comm; apply Nat.mul_div_le; lia).
    assert (Hsr : forall i j, (i <= j < length P1)%nat -> coord (N := RNum) (nth i P1 []) k <= coord (N := RNum) (nth j P1 []) k).
    { intros i j Hij. destruct (Nat.eq_dec i j) as [->|]; [lra|]. specialize (Hs i j ltac:(lia)).
      cbn [nlt RNum] in Hs. destruct (Rltb_spec (coord (N := RNum) (nth j P1 []) k) (coord (N := RNum) (nth i P1 []) k)); [discriminate|lra]. }
    split; auto. split; auto. rewrite firstn_length, skipn_length.
    split; [lia|]. split; [lia|]. split; [lia|]. split; [lia|]. split; [lia|]. split.
    - intros p Hp'. apply In_nth with (d := []) in Hp' as (t & Ht & <-). rewrite firstn_length in Ht.
      rewrite <- (firstn_skipn xm P1) at 2. 
      replace (nth t (firstn xm P1) []) with (nth t P1 []).
      + rewrite firstn_skipn. apply Hsr. lia.
      + rewrite <- (firstn_skipn xm P1) at 1. rewrite app_nth1; auto. rewrite firstn_length; lia.
    - intros p Hp'. apply In_nth with (d := []) in Hp' as (t & Ht & <-). rewrite skipn_length in Ht.
      replace (nth t (skipn xm P1) []) with (nth (xm + t) P1 []).
      + apply Hsr. lia.
      + rewrite <- (firstn_skipn xm P1) at 1. rewrite app_nth2 by (rewrite firstn_length; lia).
        rewrite firstn_length. f_equal. lia.
  Qed.

  Lemma zero_closest (P : list pt) a : pairIn (pu a) (pv a) P -> pd a = D (pu a) (pv a) -> isZero RNum (pd a) = true -> isClosest P a.
  Proof.
    intros H1 H2 H3. split; auto. split; auto. unfold isZero in H3. cbn [nle nzero RNum] in H3.
    apply andb_true_iff in H3 as [H3 _]. apply Rleb_true in H3. intros p q _. pose proof (D_nonneg dim p q). lra.
  Qed.

  (** one level of the recursion *)
  Section Step.
    Variable U : nat -> Prop.
    Hypothesis HU : forall k, (2 <= k)%nat -> U k.
    Variable so : nat -> list pt -> list pt.
    Hypothesis Hso : csort_ok RNum so.
    Variable rec : list pt -> nat -> res (pp * list pt).
    Variable Y : Type.
    Variable pre : list pt -> res Y.
    Variable slab : Y -> list pt -> res pp.
    Variables (P : list pt) (k : nat) (m del : nat -> R).
    Hypothesis Hpre : forall P2, Permutation P P2 -> exists y, pre P2 = Ok y.
    Hypothesis Hk : (1 <= k < dim)%nat.
    Hypothesis HP : (4 <= length P)%nat.
    Hypothesis HS : small P.
    Hypothesis HLay : lay m del k P.
    Hypothesis Hdel : forall i, (k < i < dim)%nat -> 0 < del i.
    Hypothesis Hrec : forall P' k' m' del', (2 <= length P')%nat -> small P' -> lay m' del' k' P' ->
      (forall i, (k' < i < dim)%nat -> 0 < del' i) ->
      (k' = k /\ (length P' < length P)%nat) \/ (1 <= k' /\ S k' = k /\ length P' <= length P)%nat -> good U P' k' (rec P' k').
    Hypothesis Hfew : forall P' k', (length P' < 2)%nat -> rec P' k' = UB.
    Hypothesis Hslab : forall y Pp m' del', k = 1%nat -> lay m' del' 0 Pp -> (forall i, (1 <= i < dim)%nat -> 0 < del' i) ->
      (exists s, slab y Pp = Ok s /\ valid Pp s /\ forall p q, pairIn p q Pp -> D p q < del' 1%nat -> pd s <= D p q) \/
      (slab y Pp = UB /\ U 1).

    Definition level : res (pp * list pt) :=
      let P1 := so k P in
      let xm := (length P1 / 2)%nat in
      c <- rd RNum P1 xm ;;
      let xmm := coord c k in
      l <- rec (firstn xm P1) k ;;
      r <- rec (skipn xm P1) k ;;
      let P2 := snd l ++ snd r in
      let better := pick (fst l) (fst r) in
      if isZero RNum (pd better) then Ok (better, P2)
      else if (dim <=? k)%nat then Throw
      else
        let Pp := filter (findSlab RNum xmm (pd better) k) P2 in
        y <- pre P2 ;;
        slabR <- (if (2 <=? k)%nat then s <- rec Pp (k - 1)%nat ;; Ok (fst s)
                  else if (k =? 1)%nat then slab y Pp
                  else Throw) ;;
        Ok (if nlt RNum (pd slabR) (pd better) then slabR else better, P2).

    Lemma level_ok : good U P k level.
    Proof.
      unfold level.
      destruct (@split_sorted so k P Hso HP) as (Hp & Hl & Hl1 & Hl2 & Hl3 & Hl4 & Hx & HLc & HRc). cbn zeta.
      set (P1 := so k P) in *. set (xm := (length P1 / 2)%nat) in *.
      rewrite rd_nth by auto. cbn [bind]. set (xmm := coord (N := RNum) (nth xm P1 []) k) in *.
      set (L := firstn xm P1) in *. set (R := skipn xm P1) in *.
      assert (HLR : L ++ R = P1) by apply firstn_skipn.
      assert (HPLR : Permutation P (L ++ R)) by (rewrite HLR; symmetry; auto).
      assert (SL : small L) by (eapply small_incl; [|exact HS]; intros z Hz; apply (Permutation_in _ (Permutation_sym HPLR)), in_app_iff; auto).
      assert (SR : small R) by (eapply small_incl; [|exact HS]; intros z Hz; apply (Permutation_in _ (Permutation_sym HPLR)), in_app_iff; auto).
      destruct (@Hrec L k m del) as [(l & L' & -> & PL & CL)|[-> E]]; auto.
      { eapply lay_sub; eauto. }
      2:{ right. auto. }
      cbn [bind].
      destruct (@Hrec R k m del) as [(r & R' & -> & PR & CR)|[-> E]]; auto.
      { eapply lay_sub; [rewrite Permutation_app_comm; eauto|auto]. }
      2:{ right. auto. }
      cbn [bind fst snd].
      assert (HP2 : Permutation P (L' ++ R')) by (rewrite HPLR, PL, PR; reflexivity).
      pose proof (closest_perm PL CL) as CL'. pose proof (closest_perm PR CR) as CR'.
      assert (HLc' : forall p, In p L' -> coord (N := RNum) p k <= xmm) by (intros p Hq; apply HLc; apply (Permutation_in _ (Permutation_sym PL)); auto).
      assert (HRc' : forall p, In p R' -> xmm <= coord (N := RNum) p k) by (intros p Hq; apply HRc; apply (Permutation_in _ (Permutation_sym PR)); auto).
      assert (HS2 : small (L' ++ R')) by (eapply small_incl; [|exact HS]; intros z Hz; apply (Permutation_in _ (Permutation_sym HP2)); auto).
      destruct (pick_ok CL' CR') as (B1 & B2 & B3 & B4). set (b := pick l r) in *.
      destruct (isZero RNum (pd b)) eqn:Ez.
      { left. exists b, (L' ++ R'). split; auto. split; auto. apply closest_perm with (P := L' ++ R'); [symmetry; auto|].
        apply zero_closest; auto. }
      assert (Hb0 : 0 < pd b).
      { unfold isZero in Ez. cbn [nle nzero RNum] in Ez. pose proof (D_nonneg dim (pu b) (pv b)) as G. rewrite <- B2 in G.
        destruct (Rleb_spec (pd b) 0); [|lra]. destruct (Rleb_spec 0 (pd b)); [discriminate|lra]. }
      destruct (Nat.leb_spec dim k); [lia|].
      set (Pp := filter (findSlab RNum xmm (pd b) k) (L' ++ R')).
      assert (HLp : lay (updf m k xmm) (updf del k (pd b)) (k - 1) Pp).
      { apply lay_slab; auto. eapply lay_perm; eauto. }
      assert (Hd' : forall i, (k - 1 < i < dim)%nat -> 0 < updf del k (pd b) i).
      { intros i Hi. unfold updf. destruct (Nat.eqb_spec i k); auto. apply Hdel. lia. }
      assert (HPpl : (length Pp <= length P)%nat) by (rewrite (Permutation_length HP2); apply filter_length_le).
      assert (SPp : small Pp) by (eapply small_incl; [|exact HS2]; intros z Hz; apply filter_In in Hz; tauto).
      assert (Fin : forall s, valid (L' ++ R') s -> (forall p q, pairIn p q Pp -> D p q < pd b -> pd s <= D p q) ->
        isClosest P (if nlt RNum (pd s) (pd b) then s else b)).
      { intros s V Hs. apply closest_perm with (P := L' ++ R'); [symmetry; auto|]. apply combine with (k := k) (xm := xmm); auto. }
      destruct (Hpre HP2) as [y ->]. cbn [bind].
      destruct (Nat.leb_spec 2 k) as [H2|H2].
      + destruct (Nat.lt_ge_cases (length Pp) 2) as [Hsm|Hmany].
        * right. split; auto. rewrite Hfew; auto.
        * destruct (@Hrec Pp (k - 1)%nat _ _ Hmany SPp HLp Hd') as [(s & P' & -> & PP & CS)|[-> E]]; [right; lia| |].
          2:{ right. split; auto. }
          cbn [bind fst]. left. eexists _, (L' ++ R'). split; [reflexivity|]. split; auto. apply Fin.
          -- destruct CS as (C1 & C2 & _). right. split; auto. eapply pairIn_filter_inv; eauto.
          -- intros p q Hpq _. apply CS; auto.
      + assert (Hk1 : k = 1%nat) by lia. rewrite Hk1 in HLp, Hd'. destruct (Nat.eqb_spec k 1) as [_|]; [|lia].
        destruct (@Hslab y Pp _ _ Hk1 HLp) as [(s & -> & V & Hs)|[-> E]].
        * intros i Hi. apply Hd'. lia.
        * cbn [bind]. left. eexists _, (L' ++ R'). split; [reflexivity|]. split; auto. apply Fin.
          -- destruct V as [V|[V1 V2]]; [left; auto|right]. split; auto. eapply pairIn_filter_inv; eauto.
          -- intros p q Hpq Hlt. apply Hs; auto.
        * right. rewrite Hk1. auto.
    Qed.
  End Step.

  (** *** the two recursions *)
  Lemma sorted_slab so m del Pp a : csort_ok RNum so -> lay m del 0 Pp -> (forall i, (1 <= i < dim)%nat -> 0 < del i) -> pd a = Rfmax ->
    exists s, slabSerial dim (so 0%nat Pp) a = Ok s /\ valid Pp s /\ forall p q, pairIn p q Pp -> D p q < del 1%nat -> pd s <= D p q.
  Proof.
    intros Hso HL Hd Ha. destruct (Hso 0%nat Pp) as [Qp Qs]. pose proof (Permutation_length Qp) as Ql.
    destruct (@slab_ok m del (so 0%nat Pp) a) as (s & -> & V & Hs); auto.
    - eapply lay_perm; [symmetry; exact Qp|auto].
    - intros i j Hij. rewrite Ql in Hij. specialize (Qs i j Hij). cbn [nlt RNum] in Qs.
      destruct (Rltb_spec (coord (N := RNum) (nth j (so 0%nat Pp) []) 0) (coord (N := RNum) (nth i (so 0%nat Pp) []) 0)); [discriminate|lra].
    - exists s. split; auto. split.
      + destruct V as [V|[V1 V2]]; [left; auto|right]. split; auto. eapply pairIn_perm; eauto.
      + intros p q Hpq Hlt. apply Hs; auto. eapply pairIn_perm; [symmetry; exact Qp|auto].
  Qed.

  Lemma serial_few fuel P k : (length P < 2)%nat -> (0 < fuel)%nat -> divideConquerSerial RNum dim srt cutSerial fuel P k = UB.
  Proof.
    intros H Hf. destruct fuel; [lia|]. cbn [divideConquerSerial]. destruct (Nat.ltb_spec (length P) cutSerial); [|lia].
    rewrite brute_few by auto. reflexivity.
  Qed.

  Lemma serial_ok N fuel : forall P k m del, (1 <= k < dim)%nat -> (2 <= length P <= N)%nat -> small P -> lay m del k P ->
    (forall i, (k < i < dim)%nat -> 0 < del i) -> (k * S N + length P < fuel)%nat ->
    good (fun k => 2 <= k)%nat P k (divideConquerSerial RNum dim srt cutSerial fuel P k).
  Proof.
    induction fuel as [|fuel IH]; intros P k m del Hk HP HS HLay Hdel Hf; [lia|]. cbn [divideConquerSerial].
    destruct (Nat.ltb_spec (length P) cutSerial) as [Hb|Hb].
    - destruct (@brute_ok P) as (r & -> & Hr); auto; [lia|]. cbn [bind]. left. exists r, P. auto.
    - apply (@level_ok (fun k => 2 <= k)%nat (fun k H => H) srt Hsrt (divideConquerSerial RNum dim srt cutSerial fuel)
        unit (fun _ => Ok tt) (fun _ Pp => slabSerial dim (srt 0%nat Pp) (ppEmpty RNum)) P k m del); auto; try lia.
      + eauto.
      + intros P' k' m' del' H1 H2 H3 H4 H5. apply (IH P' k' m' del'); auto; try lia; nia.
      + intros P' k' H. apply serial_few; auto. lia.
      + intros P2 Pp m' del' _ H1 H2. left. eapply sorted_slab; eauto.
  Qed.

  Lemma slabParallel_ub Pp : (0 < length Pp)%nat -> slabParallel dim minE Pp = UB.
  Proof.
    intros H. unfold slabParallel.
    assert (Hn : (0 < numToCheck dim)%nat).
    { unfold numToCheck. assert (2 ^ 1 < 2 ^ (dim * 2 - 1))%nat by (apply Nat.pow_lt_mono_r; lia). cbn in H0. lia. }
    assert (G : forall X Y (f : X -> res Y) l, (exists x, In x l /\ f x = UB) -> (forall x, In x l -> (exists y, f x = Ok y) \/ f x = UB) -> mapR f l = UB).
    { intros X Y f l (x & Hx & E) Hall. induction l as [|z l IH]; [destruct Hx|]. cbn [mapR].
      destruct (Hall z) as [(y & Ey)|Ez]; [simpl; auto| |rewrite Ez; auto]. rewrite Ey. cbn [bind].
      destruct Hx as [->|Hx]; [congruence|]. rewrite IH; auto. intros z' Hz'. apply Hall. simpl; auto. }
    assert (Gok : forall X Y (f : X -> res Y) l, (forall x, In x l -> (exists y, f x = Ok y) \/ f x = UB) -> (exists ys, mapR f l = Ok ys) \/ mapR f l = UB).
    { intros X Y f l Hall. induction l as [|z l IH]; cbn [mapR]; [left; eauto|].
      destruct (Hall z) as [(y & Ey)|Ez]; [simpl; auto| |right; rewrite Ez; auto]. rewrite Ey. cbn [bind].
      destruct IH as [(ys & ->)| ->]; [intros; apply Hall; simpl; auto| |]; cbn [bind]; eauto. }
    assert (F : forall i j, (exists y, (u <- rd RNum Pp i ;; v <- rd RNum Pp (i + j + 1) ;; Ok (if (i + j + 1 <? length Pp)%nat then ppNew RNum dim u v else ppFar RNum u v)) = Ok y) \/
      (u <- rd RNum Pp i ;; v <- rd RNum Pp (i + j + 1) ;; Ok (if (i + j + 1 <? length Pp)%nat then ppNew RNum dim u v else ppFar RNum u v)) = UB).
    { intros i j. unfold rd. destruct (nth_error Pp i); cbn [bind]; auto. destruct (nth_error Pp (i + j + 1)); cbn [bind]; eauto. }
    rewrite G; auto.
    - exists (length Pp - 1)%nat. split; [apply in_seq; lia|]. apply G; [|intros; apply F].
      exists 0%nat. split; [apply in_seq; lia|]. rewrite rd_nth by lia. cbn [bind].
      unfold rd. assert (E : nth_error Pp (length Pp - 1 + 0 + 1) = None) by (apply nth_error_None; lia). rewrite E. reflexivity.
  Qed.

  Lemma lay_top P k : S k = dim -> lay (fun _ => 0) (fun _ => 0) k P.
  Proof.
    intros Hk. exists (map (fun p => (p, fun _ => false)) P). split; [rewrite map_map; apply map_id|].
    split; intros; lia.
  Qed.

  Definition answer (P : list pt) (x : res (pt * pt)) : Prop :=
    exists u v, x = Ok (u, v) /\ pairIn u v P /\ forall p q, pairIn p q P -> D u v <= D p q.

  Theorem serial_closest P : (2 <= length P)%nat -> small P ->
    answer P (@closestPair RNum dim srt psrt cutSerial cutParallel cutSlab minE true P) \/
    (@closestPair RNum dim srt psrt cutSerial cutParallel cutSlab minE true P = UB /\ (3 <= dim)%nat).
  Proof.
       intros HP HS. unfold closestPair.
    destruct (@serial_ok (length P) (fuelFor dim (length P)) P (dim - 1) (fun _ => 0) (fun _ => 0)) as [(r & P' & -> & _ & H1 & H2 & H3)|[-> H]]; auto.
    - lia.
    - apply lay_top. lia.
    - intros; lia.
    - unfold fuelFor. nia.
    - left. cbn [bind fst]. exists (pu r), (pv r). split; auto. split; auto. intros p q Hpq. rewrite <- H2. auto.
    - right. split; auto. lia.
  Qed.

  Hypothesis Hcutp : (4 <= cutParallel)%nat.
  Lemma parallel_ok N fuel : forall P k m del, (1 <= k < dim)%nat -> (2 <= length P <= N)%nat -> small P -> lay m del k P ->
    (forall i, (k < i < dim)%nat -> 0 < del i) -> (k * S N + length P < fuel)%nat ->
    good (fun _ => True) P k (@divideConquerParallel RNum dim srt psrt cutSerial cutParallel cutSlab minE fuel P k).
  Proof.
    induction fuel as [|fuel IH]; intros P k m del Hk HP HS HLay Hdel Hf; [lia|]. cbn [divideConquerParallel].
    destruct (Nat.ltb_spec (length P) cutParallel) as [Hb|Hb].
    - destruct (@serial_ok N (S fuel) P k m del) as [H|[H _]]; auto; [left; auto|right; auto].
    - apply (@level_ok (fun _ => True) (fun _ _ => I) psrt Hpsrt (@divideConquerParallel RNum dim srt psrt cutSerial cutParallel cutSlab minE fuel)
        (list (nT RNum) * list (nT RNum))%type (fun P2 => p <- rd RNum P2 0 ;; q <- rd RNum P2 1 ;; Ok (p, q))
        (fun ab Pp => if (cutSlab <? length Pp)%nat then slabParallel dim minE (psrt 0%nat Pp) else slabSerial dim (srt 0%nat Pp) (ppFar RNum (fst ab) (snd ab)))
        P k m del); auto; try lia.
      + intros P2 HP2. pose proof (Permutation_length HP2). rewrite !rd_nth by lia. cbn [bind]. eauto.
      + intros P' k' m' del' H1 H2 H3 H4 H5. apply (IH P' k' m' del'); auto; try lia; nia.
      + intros P' k' H. destruct fuel; [lia|]. cbn [divideConquerParallel]. destruct (Nat.ltb_spec (length P') cutParallel); [|lia].
        apply serial_few; auto. lia.
      + intros ab Pp m' del' _ H1 H2. destruct (Nat.ltb_spec cutSlab (length Pp)).
        * right. split; auto. apply slabParallel_ub. rewrite (Permutation_length (proj1 (Hpsrt 0%nat Pp))). lia.
        * left. eapply sorted_slab; eauto.
  Qed.

  Theorem parallel_closest P : (2 <= length P)%nat -> small P ->
    answer P (@closestPair RNum dim srt psrt cutSerial cutParallel cutSlab minE false P) \/
    @closestPair RNum dim srt psrt cutSerial cutParallel cutSlab minE false P = UB.
  Proof.
    intros HP HS. unfold closestPair.
    destruct (@parallel_ok (length P) (fuelFor dim (length P)) P (dim - 1) (fun _ => 0) (fun _ => 0)) as [(r & P' & -> & _ & H1 & H2 & H3)|[-> H]]; auto.
    - lia.
    - apply lay_top. lia.
    - intros; lia.
    - unfold fuelFor. nia.
    - left. cbn [bind fst]. exists (pu r), (pv r). split; auto. split; auto. intros p q Hpq. rewrite <- H2. auto.
  Qed.

  (** points of equal ordinate: the slab is the whole array *)
  Theorem parallel_oob P c : dim = 2%nat -> (cutParallel <= length P)%nat -> (cutSlab < length P)%nat -> small P ->
    (forall p, In p P -> coord (N := RNum) p 1 = c) -> (forall p q, pairIn p q P -> 0 < D p q) ->
    @closestPair RNum dim srt psrt cutSerial cutParallel cutSlab minE false P = UB.
  Proof.
    intros Hd2 HP HC HS Hc Hpos. unfold closestPair. unfold fuelFor.
    set (fuel := (dim * S (length P) + length P)%nat). assert (Hfu : (3 * length P < fuel)%nat) by (unfold fuel; nia). clearbody fuel.
    replace (dim - 1)%nat with 1%nat by lia. cbn [divideConquerParallel].
    destruct (Nat.ltb_spec (length P) cutParallel); [lia|].
    destruct (@split_sorted psrt 1 P Hpsrt ltac:(lia)) as (Hp & Hl & Hl1 & Hl2 & Hl3 & Hl4 & Hx & HLc & HRc).
    set (P1 := psrt 1%nat P) in *. set (xm := (length P1 / 2)%nat) in *.
    rewrite rd_nth by auto. cbn [bind]. set (xmm := coord (N := RNum) (nth xm P1 []) 1) in *.
    set (L := firstn xm P1) in *. set (R := skipn xm P1) in *.
    assert (HLR : L ++ R = P1) by apply firstn_skipn.
    assert (HPLR : Permutation P (L ++ R)) by (rewrite HLR; symmetry; auto).
    assert (Hm : xmm = c) by (apply Hc, (Permutation_in _ Hp), nth_In; auto).
    assert (SL : small L) by (eapply small_incl; [|exact HS]; intros z Hz; apply (Permutation_in _ (Permutation_sym HPLR)), in_app_iff; auto).
    assert (SR : small R) by (eapply small_incl; [|exact HS]; intros z Hz; apply (Permutation_in _ (Permutation_sym HPLR)), in_app_iff; auto).
    destruct (@parallel_ok (length P) fuel L 1 (fun _ => 0) (fun _ => 0)) as [(l & L' & -> & PL & CL)|[-> _]]; auto; try lia.
    { apply lay_top. lia. }
    cbn [bind].
    destruct (@parallel_ok (length P) fuel R 1 (fun _ => 0) (fun _ => 0)) as [(r & R' & -> & PR & CR)|[-> _]]; auto; try lia.
    { apply lay_top. lia. }
    cbn [bind fst snd].
    assert (HP2 : Permutation P (L' ++ R')) by (rewrite HPLR, PL, PR; reflexivity).
    pose proof (closest_perm PL CL) as CL'. pose proof (closest_perm PR CR) as CR'.
    destruct (pick_ok CL' CR') as (B1 & B2 & B3 & B4). unfold pick in B1, B2, B3, B4.
    set (b := if nlt RNum (pd l) (pd r) then l else r) in *.
    assert (Hb0 : 0 < pd b).
    { rewrite B2. apply Hpos. eapply pairIn_perm; [symmetry; exact HP2|auto]. }
    destruct (isZero RNum (pd b)) eqn:Ez.
    { unfold isZero in Ez. cbn [nle nzero RNum] in Ez. apply andb_true_iff in Ez as [Ez _]. apply Rleb_true in Ez. lra. }
    destruct (Nat.leb_spec dim 1); [lia|]. rewrite !rd_nth by (rewrite <- (Permutation_length HP2); lia). cbn [bind fst snd].
    cbn [Nat.leb Nat.eqb].
    assert (EF : filter (findSlab RNum xmm (pd b) 1) (L' ++ R') = L' ++ R').
    { assert (Hall : forall l0, (forall z, In z l0 -> In z P) -> filter (findSlab RNum xmm (pd b) 1) l0 = l0).
      { induction l0 as [|z l0 IH]; intros Hz; cbn [filter]; auto. rewrite IH by (intros; apply Hz; simpl; auto).
        unfold findSlab. cbn [nle nadd nsub RNum]. rewrite (Hc z) by (apply Hz; simpl; auto). rewrite Hm.
        destruct (Rleb_spec c (c + pd b)); [|lra]. destruct (Rleb_spec (c - pd b) c); [|lra]. reflexivity. }
      apply Hall. intros z Hz. apply (Permutation_in _ (Permutation_sym HP2)); auto. }
    rewrite EF. rewrite <- (Permutation_length HP2). destruct (Nat.ltb_spec cutSlab (length P)); [|lia].
    rewrite slabParallel_ub; [reflexivity|]. rewrite (Permutation_length (proj1 (Hpsrt 0%nat (L' ++ R')))), <- (Permutation_length HP2). lia.
  Qed.
End Main.

(** sorting by insertion meets the contract *)
Definition csort (K : Num) (k : nat) (P : list (list (nT K))) : list (list (nT K)) := sortBy K (fun p => coord p k) P.

Lemma csort_R : csort_ok RNum (csort RNum).
Proof.
  intros k P. split; [apply sortBy_perm|]. unfold csort.
  pose proof (sortBy_sorted (fun p => coord (N := RNum) p k) R_ordlaws P (fun _ _ => I)) as H.
  rewrite <- (Permutation_length (sortBy_perm RNum (fun p => coord (N := RNum) p k) P)).
  induction H as [|a l H IH HF]; cbn [length nth]; intros i j Hij; [lia|].
  destruct j as [|j]; [lia|]. destruct i as [|i]; [|apply IH; lia].
  assert (Hn : In (nth j l []) l) by (apply nth_In; lia). rewrite Forall_forall in HF. specialize (HF _ Hn).
  cbn [nle nlt RNum] in *. apply Rleb_true in HF. destruct (Rltb_spec (coord (N := RNum) (nth j l []) k) (coord (N := RNum) a k)); [lra|reflexivity].
Qed.

(** *** the statements used by PropCp.v *)
Lemma R_serial2 srt psrt cutSerial cutParallel cutSlab minE (P : list pt) :
  csort_ok RNum srt -> (4 <= cutSerial)%nat -> (2 <= length P)%nat ->
  (forall p q, In p P -> In q P -> edist 2 p q < Rfmax) ->
  exists u v, @closestPair RNum 2 srt psrt cutSerial cutParallel cutSlab minE true P = Ok (u, v) /\
    (exists rest, Permutation P (u :: v :: rest)) /\
    forall p q rest, Permutation P (p :: q :: rest) -> edist 2 u v <= edist 2 p q.
Proof.
  intros Hs Hc HP HS.
  destruct (@serial_closest 2 ltac:(lia) srt psrt Hs cutSerial cutParallel cutSlab Hc minE P HP HS) as [(u & v & E & H1 & H2)|[_ H]]; [|lia].
  exists u, v. split; auto. split; auto. intros p q rest H. apply H2. exists rest. auto.
Qed.
Lemma R_serial34 dim srt psrt cutSerial cutParallel cutSlab minE (P : list pt) :
  (2 <= dim <= 4)%nat -> csort_ok RNum srt -> (4 <= cutSerial)%nat -> (2 <= length P)%nat ->
  (forall p q, In p P -> In q P -> edist dim p q < Rfmax) ->
  let r := @closestPair RNum dim srt psrt cutSerial cutParallel cutSlab minE true P in
  r = UB \/ exists u v, r = Ok (u, v) /\ (exists rest, Permutation P (u :: v :: rest)) /\
    forall p q rest, Permutation P (p :: q :: rest) -> edist dim u v <= edist dim p q.
Proof.
  intros Hd Hs Hc HP HS.
  destruct (@serial_closest dim Hd srt psrt Hs cutSerial cutParallel cutSlab Hc minE P HP HS) as [(u & v & E & H1 & H2)|[H _]]; [right|left; auto].
  exists u, v. split; auto. split; auto. intros p q rest H. apply H2. exists rest. auto.
Qed.
Lemma R_parallel dim srt psrt cutSerial cutParallel cutSlab minE (P : list pt) :
  (2 <= dim <= 4)%nat -> csort_ok RNum srt -> csort_ok RNum psrt -> (4 <= cutSerial)%nat -> (4 <= cutParallel)%nat -> (2 <= length P)%nat ->
  (forall p q, In p P -> In q P -> edist dim p q < Rfmax) ->
  let r := @closestPair RNum dim srt psrt cutSerial cutParallel cutSlab minE false P in
  r = UB \/ exists u v, r = Ok (u, v) /\ (exists rest, Permutation P (u :: v :: rest)) /\
    forall p q rest, Permutation P (p :: q :: rest) -> edist dim u v <= edist dim p q.
Proof.
  intros Hd Hs Hps Hc Hcp HP HS.
  destruct (@parallel_closest dim Hd srt psrt Hs Hps cutSerial cutParallel cutSlab Hc minE Hcp P HP HS) as [(u & v & E & H1 & H2)|H]; [right|left; auto].
  exists u, v. split; auto. split; auto. intros p q rest H. apply H2. exists rest. auto.
Qed.
Lemma R_parallel_oob srt psrt cutSerial cutParallel cutSlab minE (P : list pt) c :
  csort_ok RNum srt -> csort_ok RNum psrt -> (4 <= cutSerial)%nat -> (4 <= cutParallel)%nat ->
  (cutParallel <= length P)%nat -> (cutSlab < length P)%nat ->
  (forall p q, In p P -> In q P -> edist 2 p q < Rfmax) ->
  (forall p, In p P -> nth 1 p 0 = c) -> (forall p q rest, Permutation P (p :: q :: rest) -> 0 < edist 2 p q) ->
  @closestPair RNum 2 srt psrt cutSerial cutParallel cutSlab minE false P = UB.
Proof.
  intros Hs Hps Hc Hcp H1 H2 HS Hy Hpos.
  eapply (@parallel_oob 2 ltac:(lia) srt psrt Hs Hps cutSerial cutParallel cutSlab Hc minE Hcp P c); auto.
  intros p q (rest & H). eauto.
Qed.

(** equally spaced points on a horizontal line *)
Definition lineR (n : nat) : list pt := map (fun i => [INR i; 0]) (seq 0 n).
Lemma lineR_dist i j : edist 2 [INR i; 0] [INR j; 0] = Rabs (INR i - INR j).
Proof.
  unfold edist. cbn [rsum nth]. rewrite <- sqrt_Rsqr_abs. f_equal. unfold Rsqr. lra.
Qed.
Lemma R_line_oob srt psrt cutSerial cutParallel cutSlab minE n :
  csort_ok RNum srt -> csort_ok RNum psrt -> (4 <= cutSerial)%nat -> (4 <= cutParallel)%nat ->
  (cutParallel <= n)%nat -> (cutSlab < n)%nat -> INR n < Rfmax ->
  @closestPair RNum 2 srt psrt cutSerial cutParallel cutSlab minE false (lineR n) = UB.
Proof.
  intros Hs Hps H1 H2 H3 H4 Hn.
  assert (Hl : length (lineR n) = n) by (unfold lineR; rewrite map_length, seq_length; auto).
  apply R_parallel_oob with (c := 0); auto; try (rewrite Hl; auto).
  - unfold lineR. intros p q Hp Hq. apply in_map_iff in Hp as (i & <- & Hi). apply in_map_iff in Hq as (j & <- & Hj).
    rewrite lineR_dist. apply in_seq in Hi, Hj. apply Rabs_def1; pose proof (pos_INR i); pose proof (pos_INR j);
    pose proof (lt_INR i n); pose proof (lt_INR j n); lra || (destruct Hi, Hj; simpl in *; specialize (H5 ltac:(lia)); specialize (H6 ltac:(lia)); lra).
  - unfold lineR. intros p Hp. apply in_map_iff in Hp as (i & <- & Hi). reflexivity.
  - intros p q rest HP.
    assert (Hin : In p (lineR n) /\ In q (lineR n)) by (split; apply (Permutation_in _ (Permutation_sym HP)); simpl; auto).
    assert (ND : NoDup (lineR n)).
    { unfold lineR. apply FinFun.Injective_map_NoDup; [|apply seq_NoDup]. intros i j E. apply (f_equal (fun l => nth 0 l 0)) in E. cbn [nth] in E. apply INR_eq; auto. }
    apply (Permutation_NoDup HP) in ND. inversion ND as [|? ? Hni _]; subst.
    destruct Hin as [Hp Hq]. unfold lineR in Hp, Hq. apply in_map_iff in Hp as (i & <- & Hi). apply in_map_iff in Hq as (j & <- & Hj).
    rewrite lineR_dist. apply Rabs_pos_lt. intros E. apply Hni. left. f_equal. lra.
Qed.

(** *** the racing brute force returns input points under every schedule *)
Lemma in_upd A i (x t : A) l : In t (upd i x l) -> t = x \/ In t l.
Proof.
  revert i. induction l as [|a l IH]; intros [|i]; simpl; auto.
  - intros [<-|H]; auto.
  - intros [<-|H]; auto. destruct (IH _ H); auto.
Qed.
Lemma race_members (K : Num) dim (P : list (list (nT K))) sched ls a a0 : In (pu a0) P -> In (pv a0) P ->
  runT (raceStep (K := K) dim) (@raceFin K) sched (raceThreads K P) a0 = Ok (ls, a) -> In (pu a) P /\ In (pv a) P.
Proof.
  intros H1 H2 E.
  set (J := fun (ls : list (thr K)) (a : pp K) => (In (pu a) P /\ In (pv a) P) /\
    forall t u v, In t ls -> In (u, v) (todo t) -> In u P /\ In v P).
  assert (HJ : J (raceThreads K P) a0).
  { split; auto. intros t u v Ht Hin. unfold raceThreads in Ht. apply in_map_iff in Ht as (i & <- & Hi). cbn [todo] in Hin.
    apply in_map_iff in Hin as (q & E' & Hq). apply in_seq in Hi.
    split.
    - replace u with (nth i P []) by congruence. apply nth_In. lia.
    - replace v with q by congruence. rewrite <- (firstn_skipn (i + 1) P). apply in_app_iff. auto. }
  assert (Hst : forall ls0 s i l, J ls0 s -> nth_error ls0 i = Some l -> raceFin l = false ->
    exists l' s', raceStep (K := K) dim l s = Ok (l', s') /\ J (upd i l' ls0) s').
  { intros ls0 s i l [HS HT] Hl Hf. unfold raceStep, raceFin in *.
    destruct (todo l) as [|[u v] rest] eqn:Et; [discriminate|].
    assert (Hl' : In l ls0) by (eapply nth_error_In; eauto).
    assert (Huv : In u P /\ In v P) by (apply (HT l); auto; rewrite Et; simpl; auto).
    assert (HT' : forall l', (forall x, In x (todo l') -> In x (todo l)) -> forall t u v, In t (upd i l' ls0) -> In (u, v) (todo t) -> In u P /\ In v P).
    { intros l' Hsub t u' v' Ht Hin. apply in_upd in Ht as [->|Ht]; [apply (HT l); auto|apply (HT t); auto]. }
    destruct (tpc l); [destruct (nlt K (dist K dim u v) (pd s))| | |];
      (eexists _, _; split; [reflexivity|]; split; cbn [pu pv]; [tauto|apply HT'; cbn [todo]; rewrite ?Et; simpl; auto]). }
  pose proof (runT_inv (raceStep (K := K) dim) (@raceFin K) J Hst sched _ _ HJ) as G.
  rewrite E in G. destruct G as [[G _] _]. exact G.
Qed.
