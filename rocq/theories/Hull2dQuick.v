(** Quickhull in exact arithmetic. *)
From Coq Require Import Reals Lra.
From Verif Require Import Base Num KdModel Hull2dModel Hull2dGeom.
Set Implicit Arguments.

Definition adj (A : Type) (a b : A) (l : list A) : Prop := exists l1 l2, l = l1 ++ a :: b :: l2.
Lemma adj_cons A (a b x : A) l : adj a b (x :: l) -> (exists l', l = b :: l' /\ a = x) \/ adj a b l.
Proof.
  intros ([|y l1] & l2 & E); simpl in E.
  - injection E as -> ->. left; eauto.
  - injection E as -> ->. right. exists l1, l2. auto.
Qed.
Lemma adj_app A (a b m : A) l l' : adj a b (l ++ m :: l') -> adj a b (l ++ [m]) \/ adj a b (m :: l').
Proof.
  induction l as [|x l IH]; simpl; auto. intros H. apply adj_cons in H as [(l2 & E & ->)|H].
  - left. destruct l as [|y l]; simpl in *; injection E as <- <-; [exists [], []|exists [], (l ++ [m])]; auto.
  - destruct (IH H) as [(l1 & l2 & E)|]; auto. left. exists (x :: l1), l2. simpl. congruence.
Qed.

Lemma NoDup_app_intro A (l l' : list A) : NoDup l -> NoDup l' -> (forall x, In x l -> In x l' -> False) -> NoDup (l ++ l').
Proof.
  induction 1 as [|x l Hx H IH]; simpl; auto. intros H' Hd. constructor.
  - rewrite in_app_iff. intros [G|G]; [auto|]. apply (Hd x); auto.
  - apply IH; auto. intros y Hy. apply Hd; auto.
Qed.

(** *** reductions *)
Section Red.
  Variable K : Num.
  Variable ok : nT K -> Prop.
  Hypothesis OL : OrdLaws K ok.
  Hypothesis ok0 : ok (nzero K).
  Definition okp (x : cipairs K) : Prop := ok (fst (fst x)) /\ ok (fst (snd x)).
  Notation le x y := (nlt K y x = false).

  Lemma le_tr x y z : ok x -> ok y -> ok z -> le x y -> le y z -> le x z.
  Proof.
    intros Hx Hy Hz H1 H2. destruct (nlt K z x) eqn:E; auto.
    destruct (ol_cotrans OL z y x) as [H|H]; auto; congruence.
  Qed.
  Lemma lt_le x y : ok x -> ok y -> nlt K x y = true -> le x y.
  Proof.
    intros Hx Hy H. destruct (nlt K y x) eqn:E; auto. rewrite <- (ol_irrefl OL x Hx). symmetry. eapply (ol_trans OL); eauto.
  Qed.

  Lemma red_max l r : redOf (pairMax (K := K)) (cid K) l r -> (forall x, In x l -> okp x) ->
    okp r /\
    (forall x, In x l -> le (fst (fst x)) (fst (fst r)) /\ le (fst (snd x)) (fst (snd r))) /\
    (fst r = fst (cid K) \/ exists x, In x l /\ fst r = fst x) /\
    (snd r = snd (cid K) \/ exists x, In x l /\ snd r = snd x).
  Proof.
    induction 1 as [|x|l1 l2 x y H1 IH1 H2 IH2]; intros Hok.
    - split; [split; auto|]. split; [intros ? []|]. auto.
    - split; [apply Hok; simpl; auto|]. split; [intros z [<-|[]]|]; [|split; right; exists x; simpl; auto].
      destruct (Hok x) as [A B]; [simpl; auto|]. split; apply (ol_irrefl OL); auto.
    - destruct IH1 as (O1 & M1 & F1 & S1); [intros; apply Hok, in_app_iff; auto|].
      destruct IH2 as (O2 & M2 & F2 & S2); [intros; apply Hok, in_app_iff; auto|].
      destruct O1 as [O1 O1'], O2 as [O2 O2']. unfold pairMax.
      split; [split; cbn [fst snd]; destruct (nlt K _ _); auto|].
      split; [|split].
      + intros z Hz. pose proof (Hok z Hz) as [Oz Oz']. cbn [fst snd]. apply in_app_iff in Hz as [Hz|Hz].
        * destruct (M1 z Hz) as [A B]. split.
          -- destruct (nlt K (fst (fst y)) (fst (fst x))) eqn:E; auto. apply le_tr with (fst (fst x)); auto.
          -- destruct (nlt K (fst (snd y)) (fst (snd x))) eqn:E; auto. apply le_tr with (fst (snd x)); auto.
        * destruct (M2 z Hz) as [A B]. split.
          -- destruct (nlt K (fst (fst y)) (fst (fst x))) eqn:E; auto. apply le_tr with (fst (fst y)); auto. apply lt_le; auto.
          -- destruct (nlt K (fst (snd y)) (fst (snd x))) eqn:E; auto. apply le_tr with (fst (snd y)); auto. apply lt_le; auto.
      + cbn [fst]. destruct (nlt K (fst (fst y)) (fst (fst x))).
        * destruct F1 as [F|(z & Hz & E)]; auto. right. exists z. rewrite in_app_iff; auto.
        * destruct F2 as [F|(z & Hz & E)]; auto. right. exists z. rewrite in_app_iff; auto.
      + cbn [snd]. destruct (nlt K (fst (snd y)) (fst (snd x))).
        * destruct S1 as [F|(z & Hz & E)]; auto. right. exists z. rewrite in_app_iff; auto.
        * destruct S2 as [F|(z & Hz & E)]; auto. right. exists z. rewrite in_app_iff; auto.
  Qed.
  Lemma red_minmax l r : redOf (pairMinMax (K := K)) (cid K) l r -> (forall x, In x l -> okp x) ->
    okp r /\
    (forall x, In x l -> le (fst (fst r)) (fst (fst x)) /\ le (fst (snd x)) (fst (snd r))) /\
    (fst r = fst (cid K) \/ exists x, In x l /\ fst r = fst x) /\
    (snd r = snd (cid K) \/ exists x, In x l /\ snd r = snd x).
  Proof.
    induction 1 as [|x|l1 l2 x y H1 IH1 H2 IH2]; intros Hok.
    - split; [split; auto|]. split; [intros ? []|]. auto.
    - split; [apply Hok; simpl; auto|]. split; [intros z [<-|[]]|]; [|split; right; exists x; simpl; auto].
      destruct (Hok x) as [A B]; [simpl; auto|]. split; apply (ol_irrefl OL); auto.
    - destruct IH1 as (O1 & M1 & F1 & S1); [intros; apply Hok, in_app_iff; auto|].
      destruct IH2 as (O2 & M2 & F2 & S2); [intros; apply Hok, in_app_iff; auto|].
      destruct O1 as [O1 O1'], O2 as [O2 O2']. unfold pairMinMax.
      split; [split; cbn [fst snd]; destruct (nlt K _ _); auto|].
      split; [|split].
      + intros z Hz. pose proof (Hok z Hz) as [Oz Oz']. cbn [fst snd]. apply in_app_iff in Hz as [Hz|Hz].
        * destruct (M1 z Hz) as [A B]. split.
          -- destruct (nlt K (fst (fst x)) (fst (fst y))) eqn:E; auto. apply le_tr with (fst (fst x)); auto.
          -- destruct (nlt K (fst (snd y)) (fst (snd x))) eqn:E; auto. apply le_tr with (fst (snd x)); auto.
        * destruct (M2 z Hz) as [A B]. split.
          -- destruct (nlt K (fst (fst x)) (fst (fst y))) eqn:E; auto. apply le_tr with (fst (fst y)); auto. apply lt_le; auto.
          -- destruct (nlt K (fst (snd y)) (fst (snd x))) eqn:E; auto. apply le_tr with (fst (snd y)); auto. apply lt_le; auto.
      + cbn [fst]. destruct (nlt K (fst (fst x)) (fst (fst y))).
        * destruct F1 as [F|(z & Hz & E)]; auto. right. exists z. rewrite in_app_iff; auto.
        * destruct F2 as [F|(z & Hz & E)]; auto. right. exists z. rewrite in_app_iff; auto.
      + cbn [snd]. destruct (nlt K (fst (snd y)) (fst (snd x))).
        * destruct S1 as [F|(z & Hz & E)]; auto. right. exists z. rewrite in_app_iff; auto.
        * destruct S2 as [F|(z & Hz & E)]; auto. right. exists z. rewrite in_app_iff; auto.
  Qed.
End Red.

(** contract of minmax_element, for a strict weak order *)
Definition swo (X : Type) (lt : X -> X -> bool) : Prop :=
  (forall x, lt x x = false) /\ (forall x y z, lt x y = true -> lt y z = true -> lt x z = true) /\
  (forall x y z, lt x z = true -> lt x y = true \/ lt y z = true).
Definition minmax_ok (K : Num) (minmax : (list (nT K) -> list (nT K) -> bool) -> list (list (nT K)) -> nat * nat) : Prop :=
  forall lt P, swo lt -> P <> [] -> fst (minmax lt P) < length P /\ snd (minmax lt P) < length P /\
    forall p, In p P -> lt p (nth (fst (minmax lt P)) P []) = false /\ lt (nth (snd (minmax lt P)) P []) p = false.

(** instances *)
Fixpoint redI (X : Type) (f : X -> X -> X) (id : X) (l : list X) : X :=
  match l with [] => id | [x] => x | x :: l' => f x (redI f id l') end.
Lemma redI_ok X (f : X -> X -> X) id l : redOf f id l (redI f id l).
Proof.
  induction l as [|x [|y l] IH]; [constructor..|]. change (x :: y :: l) with ([x] ++ (y :: l)) at 1.
  change (redI f id (x :: y :: l)) with (f x (redI f id (y :: l))). constructor; [constructor|exact IH].
Qed.
Definition minmaxI (K : Num) (lt : list (nT K) -> list (nT K) -> bool) (P : list (list (nT K))) : nat * nat :=
  fold_left (fun m i => (if lt (nth i P []) (nth (fst m) P []) then i else fst m,
                         if lt (nth (snd m) P []) (nth i P []) then i else snd m)) (seq 0 (length P)) (0, 0).
Lemma minmaxI_ok K : minmax_ok K (minmaxI K).
Proof.
  intros lt P (I & T & C) HP. unfold minmaxI.
  assert (HL : 0 < length P) by (destruct P; [congruence|simpl; lia]).
  enough (G : forall l m (D : list nat), (forall i, In i l -> i < length P) -> fst m < length P -> snd m < length P ->
    (forall i, In i D -> lt (nth i P []) (nth (fst m) P []) = false /\ lt (nth (snd m) P []) (nth i P []) = false) ->
    let r := fold_left (fun m i => (if lt (nth i P []) (nth (fst m) P []) then i else fst m,
                         if lt (nth (snd m) P []) (nth i P []) then i else snd m)) l m in
    fst r < length P /\ snd r < length P /\
    forall i, In i (D ++ l) -> lt (nth i P []) (nth (fst r) P []) = false /\ lt (nth (snd r) P []) (nth i P []) = false).
  { destruct (G (seq 0 (length P)) (0, 0) []) as (G1 & G2 & G3); auto; [intros i Hi; apply in_seq in Hi; lia|intros i []|].
    split; [exact G1|]. split; [exact G2|]. intros p Hp. apply In_nth with (d := []) in Hp as (k & Hk & <-). apply G3. apply in_seq. lia. }
  induction l as [|j l IH]; intros m D Hl H1 H2 HD; cbn [fold_left].
  - rewrite app_nil_r. auto.
  - replace (D ++ j :: l) with ((D ++ [j]) ++ l) by (rewrite <- app_assoc; reflexivity).
    pose proof (Hl j (or_introl eq_refl)) as Hj.
    apply IH; cbn [fst snd]; [intros; apply Hl; simpl; auto|destruct (lt _ _); auto|destruct (lt _ _); auto|].
    intros i Hi. apply in_app_or in Hi as [Hi|[<-|[]]].
    + destruct (HD i Hi) as [D1 D2]. split.
      * destruct (lt (nth j P []) (nth (fst m) P [])) eqn:E; auto. apply not_true_iff_false. intros G.
        rewrite (T _ _ _ G E) in D1. discriminate.
      * destruct (lt (nth (snd m) P []) (nth j P [])) eqn:E; auto. apply not_true_iff_false. intros G.
        rewrite (T _ _ _ E G) in D2. discriminate.
    + split.
      * destruct (lt (nth j P []) (nth (fst m) P [])) eqn:E; auto.
      * destruct (lt (nth (snd m) P []) (nth j P [])) eqn:E; auto.
Qed.

Lemma mapR_map X Y (f : X -> res Y) (g : X -> Y) l : (forall x, In x l -> f x = Ok (g x)) -> mapR f l = Ok (map g l).
Proof.
  induction l as [|x l IH]; intros H; cbn [mapR map]; auto. rewrite H by (simpl; auto). cbn [bind].
  rewrite IH by (intros; apply H; simpl; auto). reflexivity.
Qed.
Lemma at_nth X (P : list X) i d : i < length P -> at_ P i = Ok (nth i P d).
Proof. intros H. unfold at_. rewrite (nth_error_nth' P d H). reflexivity. Qed.

Section Quick.
  Local Open Scope R_scope.
  Variable red : (cipairs RNum -> cipairs RNum -> cipairs RNum) -> cipairs RNum -> list (cipairs RNum) -> cipairs RNum.
  Hypothesis Hred : forall f id l, redOf f id l (red f id l).
  Variable minmax : (pt -> pt -> bool) -> list pt -> nat * nat.
  Hypothesis Hmm : minmax_ok RNum minmax.

  Section Helper.
    Variable P : list pt.
    Notation n := (length P).
    Notation q i := (nth i P (@nil R)).
    Definition seesA (l r : nat) : Prop := forall m p, (m < n)%nat -> (p < n)%nat ->
      0 < orient (q l) (q r) (q m) -> 0 < orient (q l) (q m) (q p) -> 0 < orient (q l) (q r) (q p).
    Definition seesB (l r : nat) : Prop := forall m p, (m < n)%nat -> (p < n)%nat ->
      0 < orient (q l) (q r) (q m) -> 0 < orient (q m) (q r) (q p) -> 0 < orient (q l) (q r) (q p).
    Definition chain (l : nat) (H : list nat) (r : nat) : Prop :=
      forall a b, adj a b (l :: H ++ [r]) -> forall p, (p < n)%nat -> orient (q a) (q b) (q p) <= 0.
    Definition covers (l : nat) (H : list nat) (r p : nat) : Prop :=
      exists a b c, In a (l :: H ++ [r]) /\ In b (l :: H ++ [r]) /\ In c (l :: H ++ [r]) /\ inTriangle (q a) (q b) (q c) (q p).

    Lemma covers_self l H r p : In p H -> covers l H r p.
    Proof.
      intros Hp. exists p, p, p. assert (In p (l :: H ++ [r])) by (right; apply in_app_iff; auto).
      repeat split; auto. exists 1, 0, 0. repeat split; lra.
    Qed.

    Lemma helper_ok fuel : forall Idxs l mid r, (l < n)%nat -> (r < n)%nat -> NoDup Idxs ->
      (forall p, In p Idxs <-> (p < n)%nat /\ 0 < orient (q l) (q r) (q p)) ->
      (Idxs <> [] -> In mid Idxs /\ forall p, (p < n)%nat -> orient (q l) (q r) (q p) <= orient (q l) (q r) (q mid)) ->
      seesA l r -> seesB l r -> (length Idxs < fuel)%nat ->
      exists H, @quickHullHelper RNum red fuel P Idxs l mid r = Ok H /\ NoDup H /\ incl H Idxs /\ chain l H r /\ forall p, In p Idxs -> covers l H r p.
    Proof.
      induction fuel as [|fuel IH]; intros Idxs l mid r Hl Hr ND HI Hmid HA HB Hf; [lia|]. cbn [quickHullHelper].
      destruct (Nat.leb_spec (length Idxs) 1) as [Hs|Hs].
      { exists Idxs. split; auto. split; auto. split; [apply incl_refl|]. split; [|intros p Hp; apply covers_self; auto].
        destruct Idxs as [|x [|y Idxs]]; [| |cbn in Hs; lia].
        - intros a b Hab p Hp. apply adj_cons in Hab as [(l' & E & ->)|Hab].
          + cbn in E. injection E as <- <-. apply Rnot_lt_le. intros G. apply (HI p). auto.
          + destruct Hab as ([|? [|? ?]] & l2 & E); discriminate.
        - destruct Hmid as [[->|[]] Hmax]; [discriminate|].
          assert (Hm : (mid < n)%nat /\ 0 < orient (q l) (q r) (q mid)) by (apply HI; simpl; auto). destruct Hm as [Hm Hm0].
          intros a b Hab p Hp. apply adj_cons in Hab as [(l' & E & ->)|Hab].
          + cbn in E. injection E as <- <-. apply Rnot_lt_le. intros G.
            assert (Gp : In p [mid]) by (apply HI; split; auto; apply (HA mid p); auto). destruct Gp as [->|[]]. rewrite orient_ab in G. lra.
          + apply adj_cons in Hab as [(l' & E & ->)|Hab].
            * cbn in E. injection E as <- <-. apply Rnot_lt_le. intros G.
              assert (Gp : In p [mid]) by (apply HI; split; auto; apply (HB mid p); auto). destruct Gp as [->|[]]. rewrite orient_aba in G. lra.
            * destruct Hab as ([|? [|? ?]] & l2 & E); discriminate. }
      destruct Hmid as [HmI Hmax]; [intros E; rewrite E in Hs; cbn in Hs; lia|].
      assert (Hm : (mid < n)%nat /\ 0 < orient (q l) (q r) (q mid)) by (apply HI; auto). destruct Hm as [Hm Hm0].
      rewrite (at_nth P (@nil R) Hl), (at_nth P (@nil R) Hm), (at_nth P (@nil R) Hr). cbn [bind].
      set (g := fun j => (j, (orient (q l) (q mid) (q j), orient (q mid) (q r) (q j)))).
      rewrite (@mapR_map _ _ _ g Idxs).
      2:{ intros j Hj. apply HI in Hj as [Hj _]. rewrite (at_nth P (@nil R) Hj). reflexivity. }
      cbn [bind]. rewrite map_map.
      set (lst := map (fun x => ((orient (q l) (q mid) (q x), x), (orient (q mid) (q r) (q x), x))) Idxs).
      destruct (@red_max RNum _ R_ordlaws I lst _ (Hred (pairMax (K := RNum)) (cid RNum) lst)) as (_ & Rm & Rf & Rs).
      { intros x _. split; exact I. }
      set (prs := red (pairMax (K := RNum)) (cid RNum) lst) in *.
      set (left := map fst (filter (fun x => nlt RNum (nzero RNum) (fst (snd x))) (map g Idxs))).
      set (right := map fst (filter (fun x => nlt RNum (nzero RNum) (snd (snd x))) (map g Idxs))).
      assert (FL : left = filter (fun j => Rltb 0 (orient (q l) (q mid) (q j))) Idxs).
      { unfold left. clear. induction Idxs as [|j Idxs IH]; auto. cbn [map filter]. unfold g at 1. cbn [fst snd nlt nzero RNum].
        destruct (Rltb 0 _); cbn [map]; [f_equal; exact IH|exact IH]. }
      assert (FR : right = filter (fun j => Rltb 0 (orient (q mid) (q r) (q j))) Idxs).
      { unfold right. clear. induction Idxs as [|j Idxs IH]; auto. cbn [map filter]. unfold g at 1. cbn [fst snd nlt nzero RNum].
        destruct (Rltb 0 _); cbn [map]; [f_equal; exact IH|exact IH]. }
      assert (IL : forall p, In p left <-> (p < n)%nat /\ 0 < orient (q l) (q mid) (q p)).
      { intros p. rewrite FL, filter_In, HI, Rltb_true. split; [tauto|]. intros [Hp G]. repeat split; auto. apply (HA mid p); auto. }
      assert (IR : forall p, In p right <-> (p < n)%nat /\ 0 < orient (q mid) (q r) (q p)).
      { intros p. rewrite FR, filter_In, HI, Rltb_true. split; [tauto|]. intros [Hp G]. repeat split; auto. apply (HB mid p); auto. }
      assert (Len : forall f, f mid = false -> (length (filter f Idxs) < length Idxs)%nat).
      { intros f Hf'. clear - HmI Hf'. induction Idxs as [|x Idxs IH]; [destruct HmI|]. cbn [filter length].
        pose proof (filter_length_le f Idxs). destruct HmI as [->|H'].
        - rewrite Hf'. lia.
        - specialize (IH H'). destruct (f x); cbn [length]; lia. }
      (* the furthest point on the left *)
      assert (ML : left <> [] -> In (snd (fst prs)) left /\ forall p, (p < n)%nat -> orient (q l) (q mid) (q p) <= orient (q l) (q mid) (q (snd (fst prs)))).
      { intros Hne. assert (Hx : exists x, In x left) by (destruct left; [congruence|eexists; left; eauto]).
        destruct Hx as (x & Hx). apply IL in Hx as [Hx G].
        assert (Xin : In x Idxs) by (apply HI; split; auto; apply (HA mid x); auto).
        assert (Up : forall j, In j Idxs -> orient (q l) (q mid) (q j) <= fst (fst prs)).
        { intros j Hj. destruct (Rm ((orient (q l) (q mid) (q j), j), (orient (q mid) (q r) (q j), j))) as [U _].
          { unfold lst. apply (in_map (fun x => ((orient (q l) (q mid) (q x), x), (orient (q mid) (q r) (q x), x)))); auto. }
          cbn [nlt RNum fst] in U. apply Rltb_false in U. exact U. }
        destruct Rf as [Rf|(z & Hz & Ez)].
        - specialize (Up x Xin). rewrite Rf in Up. cbn [cid fst nzero RNum] in Up. lra.
        - unfold lst in Hz. apply in_map_iff in Hz as (j & <- & Hj). cbn [fst snd] in Ez.
          assert (Ej : snd (fst prs) = j /\ fst (fst prs) = orient (q l) (q mid) (q j)) by (rewrite Ez; auto).
          destruct Ej as [Ej1 Ej2]. rewrite Ej1, Ej2 in *. pose proof (Up x Xin).
          pose proof (proj1 (HI j) Hj) as [Hjn _].
          split; [apply IL; split; auto; lra|]. intros p Hp.
          destruct (Rlt_dec 0 (orient (q l) (q mid) (q p))); [|lra]. apply Up. apply HI. split; auto. apply (HA mid p); auto. }
      assert (MR : right <> [] -> In (snd (snd prs)) right /\ forall p, (p < n)%nat -> orient (q mid) (q r) (q p) <= orient (q mid) (q r) (q (snd (snd prs)))).
      { intros Hne. assert (Hx : exists x, In x right) by (destruct right; [congruence|eexists; left; eauto]).
        destruct Hx as (x & Hx). apply IR in Hx as [Hx G].
        assert (Xin : In x Idxs) by (apply HI; split; auto; apply (HB mid x); auto).
        assert (Up : forall j, In j Idxs -> orient (q mid) (q r) (q j) <= fst (snd prs)).
        { intros j Hj. destruct (Rm ((orient (q l) (q mid) (q j), j), (orient (q mid) (q r) (q j), j))) as [_ U].
          { unfold lst. apply (in_map (fun x => ((orient (q l) (q mid) (q x), x), (orient (q mid) (q r) (q x), x)))); auto. }
          cbn [nlt RNum fst snd] in U. apply Rltb_false in U. exact U. }
        destruct Rs as [Rs|(z & Hz & Ez)].
        - specialize (Up x Xin). rewrite Rs in Up. cbn [cid fst snd nzero RNum] in Up. lra.
        - unfold lst in Hz. apply in_map_iff in Hz as (j & <- & Hj). cbn [fst snd] in Ez.
          assert (Ej : snd (snd prs) = j /\ fst (snd prs) = orient (q mid) (q r) (q j)) by (rewrite Ez; auto).
          destruct Ej as [Ej1 Ej2]. rewrite Ej1, Ej2 in *. pose proof (Up x Xin).
          pose proof (proj1 (HI j) Hj) as [Hjn _].
          split; [apply IR; split; auto; lra|]. intros p Hp.
          destruct (Rlt_dec 0 (orient (q mid) (q r) (q p))); [|lra]. apply Up. apply HI. split; auto. apply (HB mid p); auto. }
      assert (A1 : seesA l mid).
      { intros m p Hm' Hp G1 G2. assert (0 < orient (q l) (q r) (q m)) by (apply (HA mid m); auto).
        apply left_trans with (r := q r) (b := q m); auto. apply (HA m p); auto. }
      assert (B1 : seesB l mid).
      { intros m p Hm' Hp G1 G2. apply max_left_b with (r := q r) (m := q m); auto. }
      assert (A2 : seesA mid r).
      { intros m p Hm' Hp G1 G2. apply max_left_a with (l := q l) (m := q m); auto. }
      assert (B2 : seesB mid r).
      { intros m p Hm' Hp G1 G2. assert (0 < orient (q l) (q r) (q m)) by (apply (HB mid m); auto).
        assert (0 < orient (q l) (q r) (q p)) by (apply (HB m p); auto).
        apply right_trans with (l := q l) (b := q m); auto. }
      change (exists H, (leftR <- @quickHullHelper RNum red fuel P left l (snd (fst prs)) mid ;;
        rightR <- @quickHullHelper RNum red fuel P right mid (snd (snd prs)) r ;; Ok (leftR ++ mid :: rightR)) = Ok H /\
        NoDup H /\ incl H Idxs /\ chain l H r /\ forall p, In p Idxs -> covers l H r p).
      assert (NDf : forall f, NoDup (filter f Idxs)) by (intros; apply NoDup_filter; auto).
      destruct (IH left l (snd (fst prs)) mid) as (HL & -> & NL & SL & CL & VL); auto; try (rewrite FL; auto).
      { assert (length (filter (fun j => Rltb 0 (orient (q l) (q mid) (q j))) Idxs) < length Idxs)%nat; [|lia].
        apply Len. rewrite orient_ab. apply Rltb_false. lra. }
      cbn [bind].
      destruct (IH right mid (snd (snd prs)) r) as (HR & -> & NR & SR & CR & VR); auto; try (rewrite FR; auto).
      { assert (length (filter (fun j => Rltb 0 (orient (q mid) (q r) (q j))) Idxs) < length Idxs)%nat; [|lia].
        apply Len. rewrite orient_aba. apply Rltb_false. lra. }
      cbn [bind]. exists (HL ++ mid :: HR). split; auto.
      assert (Inc : forall x, In x (HL ++ mid :: HR) -> In x Idxs).
      { intros x Hx. apply in_app_iff in Hx as [Hx|[<-|Hx]]; auto.
        - apply SL in Hx. rewrite FL in Hx. apply filter_In in Hx. tauto.
        - apply SR in Hx. rewrite FR in Hx. apply filter_In in Hx. tauto. }
      split; [|split; [exact Inc|split]].
      - apply NoDup_app_intro; auto; [constructor; auto; intros Hx; apply SR, IR in Hx as [_ Hx]; rewrite orient_aba in Hx; lra|].
        intros x Hx [<-|Hx'].
        + apply SL, IL in Hx as [_ Hx]. rewrite orient_ab in Hx. lra.
        + apply SL, IL in Hx as [Hxn Hx]. apply SR, IR in Hx' as [_ Hx']. pose proof (orient_sum (q l) (q mid) (q r) (q x)). specialize (Hmax x Hxn). lra.
      - intros a b Hab p Hp. replace (l :: (HL ++ mid :: HR) ++ [r]) with ((l :: HL) ++ mid :: (HR ++ [r])) in Hab by (cbn; rewrite <- app_assoc; auto).
        apply adj_app in Hab as [Hab|Hab]; [apply CL; auto|apply CR; auto].
      - intros p Hp.
        assert (W1 : forall x, In x (l :: HL ++ [mid]) -> In x (l :: (HL ++ mid :: HR) ++ [r])).
        { intros x Hx. cbn in *. rewrite !in_app_iff in *. cbn in *. tauto. }
        assert (W2 : forall x, In x (mid :: HR ++ [r]) -> In x (l :: (HL ++ mid :: HR) ++ [r])).
        { intros x Hx. cbn in *. rewrite !in_app_iff in *. cbn in *. tauto. }
        pose proof (proj1 (HI p) Hp) as [Hpn Hp0].
        destruct (Rlt_dec 0 (orient (q l) (q mid) (q p))) as [G|G].
        { destruct (VL p) as (a & b & c & Ha & Hb & Hc & T); [apply IL; auto|]. exists a, b, c. auto. }
        destruct (Rlt_dec 0 (orient (q mid) (q r) (q p))) as [G'|G'].
        { destruct (VR p) as (a & b & c & Ha & Hb & Hc & T); [apply IR; auto|]. exists a, b, c. auto. }
        exists l, mid, r. cbn. rewrite !in_app_iff. cbn. repeat split; auto. apply Rnot_lt_le in G, G'. apply triangle_in; auto; apply Rlt_le; auto.
    Qed.
  End Helper.

  (** *** the whole hull *)
  Lemma pntless_lex (p q : pt) : pntless RNum p q = false -> lexle q p.
  Proof.
    unfold pntless, neq0, lexle, coord. cbn [nlt nle nzero nT RNum]. change (nT RNum) with R in *. intros H. apply orb_false_iff in H as [H1 H2].
    apply Rltb_false in H1. destruct (Rtotal_order (nth 0 p 0) (nth 0 q 0)) as [G|[G|G]]; [lra| |left; lra].
    right. split; auto. destruct (Rleb_spec (nth 0 p 0) (nth 0 q 0)); [|lra]. destruct (Rleb_spec (nth 0 q 0) (nth 0 p 0)); [|lra].
    cbn [andb] in H2. apply Rltb_false in H2. lra.
  Qed.

  Lemma pntless_swo : swo (pntless RNum).
  Proof.
    assert (E : forall p q : pt, pntless RNum p q = true <-> nth 0 p 0 < nth 0 q 0 \/ (nth 0 p 0 = nth 0 q 0 /\ nth 1 p 0 < nth 1 q 0)).
    { intros p q. unfold pntless, neq0, coord. cbn [nlt nle nzero nT RNum]. change (nT RNum) with R in *.
      rewrite orb_true_iff, !andb_true_iff, !Rltb_true, !Rleb_true. lra. }
    split; [|split].
    - intros x. apply not_true_iff_false. rewrite E. lra.
    - intros x y z. rewrite !E. lra.
    - intros x y z. rewrite !E. lra.
  Qed.

  Definition isHull (P : list pt) (H : list nat) : Prop :=
    (forall i, In i H -> (i < length P)%nat) /\
    (forall a b, adj a b (H ++ [hd 0%nat H]) -> forall p, In p P -> orient (nth a P []) (nth b P []) p <= 0) /\
    (forall p, In p P -> exists a b c, In a H /\ In b H /\ In c H /\ inTriangle (nth a P []) (nth b P []) (nth c P []) p).

  Theorem quickHull_ok P : P <> [] -> exists H, @quickHull RNum red minmax P = Ok H /\ isHull P H /\
    ((exists p p', In p P /\ In p' P /\ (nth 0 p 0 <> nth 0 p' 0 \/ nth 1 p 0 <> nth 1 p' 0)) -> NoDup H).
  Proof.
    intros HP. unfold quickHull. destruct (Hmm pntless_swo HP) as (Hmn & Hmx & Hex).
    set (mn := fst (minmax (pntless RNum) P)) in *. set (mx := snd (minmax (pntless RNum) P)) in *. cbn zeta.
    set (n := length P) in *.
    assert (Lmn : forall p, In p P -> lexle (nth mn P []) p) by (intros p Hp; apply pntless_lex, Hex; auto).
    assert (Lmx : forall p, In p P -> lexle p (nth mx P [])) by (intros p Hp; apply pntless_lex, Hex; auto).
    assert (NI : forall i, (i < n)%nat -> In (nth i P []) P) by (intros; apply nth_In; auto).
    set (g := fun i => (i, orient (nth mn P []) (nth mx P []) (nth i P []))).
    rewrite (@mapR_map _ _ _ g (seq 0 n)).
    2:{ intros i Hi. apply in_seq in Hi. rewrite (at_nth P (@nil R) Hmn), (at_nth P (@nil R) Hmx). cbn [bind].
        rewrite (at_nth P (@nil R)) by (fold n; lia). reflexivity. }
    cbn [bind]. rewrite map_map.
    set (lst := map (fun x => ((snd (g x), fst (g x)), (snd (g x), fst (g x)))) (seq 0 n)).
    destruct (@red_minmax RNum _ R_ordlaws I lst _ (Hred (pairMinMax (K := RNum)) (cid RNum) lst)) as (_ & Rm & Rf & Rs).
    { intros x _. split; exact I. }
    set (prs := red (pairMinMax (K := RNum)) (cid RNum) lst) in *.
    set (upper := map fst (filter (fun x => nlt RNum (nzero RNum) (snd x)) (map g (seq 0 n)))).
    set (lower := map fst (filter (fun x => nlt RNum (snd x) (nzero RNum)) (map g (seq 0 n)))).
    set (o := fun i => orient (nth mn P []) (nth mx P []) (nth i P [])).
    assert (FU : upper = filter (fun j => Rltb 0 (o j)) (seq 0 n)).
    { unfold upper. clear. induction (seq 0 n) as [|j l IH]; auto. cbn [map filter]. unfold g at 1. cbn [fst snd nlt nzero RNum]. fold (o j).
      destruct (Rltb 0 _); cbn [map]; [f_equal; exact IH|exact IH]. }
    assert (FL : lower = filter (fun j => Rltb (o j) 0) (seq 0 n)).
    { unfold lower. clear. induction (seq 0 n) as [|j l IH]; auto. cbn [map filter]. unfold g at 1. cbn [fst snd nlt nzero RNum]. fold (o j).
      destruct (Rltb _ 0); cbn [map]; [f_equal; exact IH|exact IH]. }
    assert (IU : forall p, In p upper <-> (p < n)%nat /\ 0 < o p).
    { intros p. rewrite FU, filter_In, in_seq, Rltb_true. split; [|]; intros [H1 H2]; split; auto; lia. }
    assert (IL : forall p, In p lower <-> (p < n)%nat /\ o p < 0).
    { intros p. rewrite FL, filter_In, in_seq, Rltb_true. split; [|]; intros [H1 H2]; split; auto; lia. }
    assert (SW : forall p, orient (nth mx P []) (nth mn P []) (nth p P []) = - o p) by (intros; apply orient_swap).
    assert (Bnd : forall j, (j < n)%nat -> fst (fst prs) <= o j <= fst (snd prs)).
    { intros j Hj. destruct (Rm ((o j, j), (o j, j))) as [U V].
      { unfold lst. apply (in_map (fun x => ((snd (g x), fst (g x)), (snd (g x), fst (g x)))) (seq 0 n) j). apply in_seq. lia. }
      cbn [nlt RNum fst snd] in U, V. apply Rltb_false in U, V. split; auto. }
    change (exists H, (upperR <- @quickHullHelper RNum red (S n) P upper mn (snd (snd prs)) mx ;;
        lowerR <- @quickHullHelper RNum red (S n) P lower mx (snd (fst prs)) mn ;; Ok (mn :: upperR ++ mx :: lowerR)) = Ok H /\
        isHull P H /\ ((exists p p', In p P /\ In p' P /\ (nth 0 p 0 <> nth 0 p' 0 \/ nth 1 p 0 <> nth 1 p' 0)) -> NoDup H)).
    destruct (@helper_ok P (S n) upper mn (snd (snd prs)) mx) as (HU & -> & NU & SU & CU & VU); auto.
    { rewrite FU. apply NoDup_filter, seq_NoDup. }
    { intros Hne. assert (Hx : exists x, In x upper) by (destruct upper; [congruence|eexists; left; eauto]).
      destruct Hx as (x & Hx). apply IU in Hx as [Hx G]. pose proof (Bnd x Hx).
      destruct Rs as [Rs|(z & Hz & Ez)]; [rewrite Rs in H; cbn [cid fst snd nzero RNum] in H; lra|].
      unfold lst in Hz. apply in_map_iff in Hz as (j & <- & Hj). apply in_seq in Hj.
      assert (Ej : snd (snd prs) = j /\ fst (snd prs) = o j) by (rewrite Ez; auto). destruct Ej as [E1 E2]. rewrite E1. rewrite E2 in *.
      split; [apply IU; split; [lia|lra]|]. intros p Hp. change (o p <= o j). apply Bnd; auto. }
    { intros m p Hm Hp. apply lex_trans_min; auto. }
    { intros m p Hm Hp G1 G2. 
      enough (T : 0 < orient (nth mx P []) (nth p P []) (nth mn P [])) by (rewrite orient_rot in T; exact T).
      apply lex_trans_max with (b := nth m P []); auto; rewrite orient_rot; auto. }
    { rewrite FU. pose proof (filter_length_le (fun j => Rltb 0 (o j)) (seq 0 n)) as G. rewrite seq_length in G. lia. }
    cbn [bind].
    destruct (@helper_ok P (S n) lower mx (snd (fst prs)) mn) as (HL & -> & NL & SL & CL & VL); auto.
    { rewrite FL. apply NoDup_filter, seq_NoDup. }
    { intros p. rewrite IL, SW. split; intros [? ?]; split; auto; lra. }
    { intros Hne. assert (Hx : exists x, In x lower) by (destruct lower; [congruence|eexists; left; eauto]).
      destruct Hx as (x & Hx). apply IL in Hx as [Hx G]. pose proof (Bnd x Hx).
      destruct Rf as [Rf|(z & Hz & Ez)]; [rewrite Rf in H; cbn [cid fst snd nzero RNum] in H; lra|].
      unfold lst in Hz. apply in_map_iff in Hz as (j & <- & Hj). apply in_seq in Hj.
      assert (Ej : snd (fst prs) = j /\ fst (fst prs) = o j) by (rewrite Ez; auto). destruct Ej as [E1 E2]. rewrite E1. rewrite E2 in *.
      split; [apply IL; split; [lia|lra]|]. intros p Hp. rewrite !SW. pose proof (Bnd p Hp). lra. }
    { intros m p Hm Hp. apply lex_trans_max; auto. }
    { intros m p Hm Hp G1 G2. 
      enough (T : 0 < orient (nth mn P []) (nth p P []) (nth mx P [])) by (rewrite orient_rot in T; exact T).
      apply lex_trans_min with (b := nth m P []); auto; rewrite orient_rot; auto. }
    { rewrite FL. pose proof (filter_length_le (fun j => Rltb (o j) 0) (seq 0 n)) as G. rewrite seq_length in G. lia. }
    cbn [bind]. exists (mn :: HU ++ mx :: HL). split; auto.
    assert (W1 : forall x, In x (mn :: HU ++ [mx]) -> In x (mn :: HU ++ mx :: HL)).
    { intros x Hx. cbn in *. rewrite !in_app_iff in *. cbn in *. tauto. }
    assert (W2 : forall x, In x (mx :: HL ++ [mn]) -> In x (mn :: HU ++ mx :: HL)).
    { intros x Hx. cbn in *. rewrite !in_app_iff in *. cbn in *. tauto. }
    split; [split; [|split]|].
    - intros i Hi. cbn in Hi. rewrite in_app_iff in Hi. cbn in Hi. destruct Hi as [<-|[Hi|[<-|Hi]]]; auto.
      + apply SU, IU in Hi. tauto.
      + apply SL, IL in Hi. tauto.
    - intros a b Hab p Hp. apply In_nth with (d := []) in Hp as (t & Ht & <-). cbn [hd] in Hab.
      replace ((mn :: HU ++ mx :: HL) ++ [mn]) with ((mn :: HU) ++ mx :: (HL ++ [mn])) in Hab by (cbn; rewrite <- app_assoc; auto).
      apply adj_app in Hab as [Hab|Hab]; [apply CU; auto|apply CL; auto].
    - intros p Hp. apply In_nth with (d := []) in Hp as (t & Ht & <-).
      destruct (Rtotal_order (o t) 0) as [G|[G|G]].
      + destruct (VL t) as (a & b & c & Ha & Hb & Hc & T); [apply IL; auto|]. exists a, b, c. auto.
      + exists mn, mn, mx. split; [left; auto|]. split; [left; auto|]. split; [right; apply in_app_iff; right; left; auto|]. apply segment_in; auto.
      + destruct (VU t) as (a & b & c & Ha & Hb & Hc & T); [apply IU; auto|]. exists a, b, c. auto.
    - intros (p & p' & Hp & Hp' & Hne).
      assert (Hd : mn <> mx).
      { intros E. pose proof (Lmn p Hp) as G1. pose proof (Lmx p Hp) as G2. pose proof (Lmn p' Hp') as G3. pose proof (Lmx p' Hp') as G4.
        rewrite <- E in G2, G4. destruct (lex_eq G1 G2 G3 G4). tauto. }
      assert (Omn : o mn = 0) by apply orient_aba. assert (Omx : o mx = 0) by apply orient_ab.
      constructor.
      + rewrite in_app_iff. cbn. intros [G|[G|G]]; [|congruence|].
        * apply SU, IU in G. lra.
        * apply SL, IL in G. lra.
      + apply NoDup_app_intro; auto.
        * constructor; auto. intros G. apply SL, IL in G. lra.
        * intros x Hx [<-|Hx'].
          -- apply SU, IU in Hx. lra.
          -- apply SU, IU in Hx. apply SL, IL in Hx'. lra.
  Qed.

  (** the lexicographically least point comes first, the greatest occurs *)
  Theorem quickHull_lex P H : P <> [] -> @quickHull RNum red minmax P = Ok H ->
    (forall p, In p P -> lexle (nth (hd 0%nat H) P []) p) /\
    exists i, In i H /\ forall p, In p P -> lexle p (nth i P []).
  Proof.
    intros HP. unfold quickHull. destruct (Hmm pntless_swo HP) as (Hmn & Hmx & Hex).
    set (mn := fst (minmax (pntless RNum) P)) in *. set (mx := snd (minmax (pntless RNum) P)) in *. cbn zeta.
    destruct (mapR _ _) as [A| | |]; try discriminate. cbn [bind].
    destruct (quickHullHelper _ _ _ _ _ _ _) as [U| | |]; try discriminate. cbn [bind].
    destruct (quickHullHelper _ _ _ _ _ _ _) as [L| | |]; try discriminate. cbn [bind]. intros E. injection E as <-. cbn [hd]. split.
    - intros p Hp. apply pntless_lex, Hex; auto.
    - exists mx. split; [right; apply in_or_app; right; simpl; auto|]. intros p Hp. apply pntless_lex, Hex; auto.
  Qed.
End Quick.
