(** Queries and bulk erasure on one tree keep the invariant and have the
    expected effect. *)
From Verif Require Import Base Num KdModel KdSpec KdBuild RangeModel RangeProofs
  BatchModel BatchSlice BatchTree BatchMedian BatchPack.
Set Implicit Arguments.

Lemma filter_all A (f : A -> bool) l : (forall x, In x l -> f x = true) -> filter f l = l.
Proof.
  induction l as [|x l IH]; intros H; cbn; auto. rewrite (H x) by (simpl; auto).
  f_equal. apply IH. intros; apply H; simpl; auto.
Qed.

Lemma filter_none A (f : A -> bool) l : (forall x, In x l -> f x = false) -> filter f l = [].
Proof.
  induction l as [|x l IH]; intros H; cbn; auto. rewrite (H x) by (simpl; auto).
  apply IH. intros; apply H; simpl; auto.
Qed.

Section Erase.
  Variable N : Num.
  Variable ok : nT N -> Prop.
  Hypothesis OL : OrdLaws N ok.
  Variable dim : nat.
  Variable A : Type.
  Variable pt : A -> list (nT N).
  Notation okI := (okItem N ok dim pt).
  Notation tree := (kt (nT N) (box N)).
  Notation peqI := (fun q x => peq N dim (pt q) (pt x)).
  Notation rs t := (fst (kRange t)).
  Notation re t := (snd (kRange t)).

  Variable its : list A.
  Hypothesis Hits : forall x, In x its -> okI x.

  (** The box bounds the live items of [s, e). *)
  Definition boxOk (pres : list bool) (b : box N) (s e : nat) : Prop :=
    okbox ok dim b /\ bounds dim pt b (packed s e its pres).

  Fixpoint inv (pres : list bool) (t : tree) : Prop :=
    match t with
    | KLeaf s e np b => s <= e /\ e <= length its /\ np = length (packed s e its pres) /\ boxOk pres b s e
    | KNode d sv s e b l r =>
        inv pres l /\ inv pres r /\ s <= rs l /\ re l <= rs r /\ re r <= e /\ e <= length its /\ d < dim /\
        (forall i, s <= i < e -> nth_error pres i = Some true -> rs l <= i < re l \/ rs r <= i < re r) /\
        boxOk pres b s e
    end.

  (** Every live item is on the side of each split its coordinate says. *)
  Fixpoint sep (pres : list bool) (t : tree) : Prop :=
    match t with
    | KLeaf _ _ _ _ => True
    | KNode d sv s e b l r =>
        (forall x, In x (packed (rs l) (re l) its pres) -> nlt N (coord (pt x) d) sv = true) /\
        (forall x, In x (packed (rs r) (re r) its pres) -> nlt N (coord (pt x) d) sv = false) /\
        sep pres l /\ sep pres r
    end.

  Lemma inv_range pres t : inv pres t -> rs t <= re t <= length its.
  Proof.
    induction t as [s e np b | d sv s e b l IHl r IHr]; cbn [inv kRange fst snd].
    - intros (H1 & H2 & _). lia.
    - intros (H1 & H2 & H3 & H4 & H5 & H6 & _). specialize (IHl H1). specialize (IHr H2). lia.
  Qed.

  Arguments inv_range pres {t} _.

  Lemma inv_box pres t : inv pres t -> boxOk pres (kBox t) (rs t) (re t).
  Proof. destruct t; cbn [inv kBox kRange fst snd]; tauto. Qed.

  Arguments inv_box pres {t} _.

  Lemma packed_okI pres s e x : In x (packed s e its pres) -> okI x.
  Proof. intros H. apply In_packed in H as (i & _ & H & _). apply Hits. eapply nth_error_In; eauto. Qed.

  Arguments packed_okI pres s e x _ : clear implicits.

  Lemma inv_node_packed pres d sv s e b l r : inv pres (KNode d sv s e b l r) ->
    packed s e its pres = packed (rs l) (re l) its pres ++ packed (rs r) (re r) its pres.
  Proof.
    cbn [inv]. intros (H1 & H2 & H3 & H4 & H5 & H6 & H7 & H8 & _).
    apply inv_range in H1, H2. apply packed_cover; auto; lia.
  Qed.

  Arguments inv_node_packed pres d sv s e b l r _ : clear implicits.

  Lemma boxOk_sub pres pres' b s e :
    (forall i, s <= i < e -> nth_error pres' i = Some true -> nth_error pres i = Some true) ->
    boxOk pres b s e -> boxOk pres' b s e.
  Proof.
    intros H [B1 B2]. split; auto. intros d Hd x Hx. apply B2; auto.
    apply In_packed in Hx as (i & Hi & Hx & Hp). apply In_packed. exists i. auto.
  Qed.

  Lemma inv_frame pres pres' t :
    (forall i, rs t <= i < re t -> nth_error pres' i = nth_error pres i) -> inv pres t -> inv pres' t.
  Proof.
    induction t as [s e np b | d sv s e b l IHl r IHr]; cbn [inv kRange fst snd]; intros Hf.
    - intros (H1 & H2 & H3 & H4). split; auto. split; auto. split.
      + rewrite (@packed_ext _ s e its pres pres'); auto.
      + eapply boxOk_sub; [|exact H4]. intros i Hi. rewrite Hf by auto. auto.
    - intros (H1 & H2 & H3 & H4 & H5 & H6 & H7 & H8 & H9).
      pose proof (inv_range _ H1). pose proof (inv_range _ H2).
      split; [apply IHl; auto; intros; apply Hf; lia|].
      split; [apply IHr; auto; intros; apply Hf; lia|].
      do 5 (split; auto). split.
      + intros i Hi. rewrite Hf by auto. auto.
      + eapply boxOk_sub; [|exact H9]. intros i Hi. rewrite Hf by auto. auto.
  Qed.

  Lemma sep_frame pres pres' t : inv pres t ->
    (forall i, rs t <= i < re t -> nth_error pres' i = nth_error pres i) -> sep pres t -> sep pres' t.
  Proof.
    induction t as [s e np b | d sv s e b l IHl r IHr]; cbn [inv sep kRange fst snd]; auto.
    intros (H1 & H2 & H3 & H4 & H5 & _) Hf (S1 & S2 & S3 & S4).
    pose proof (inv_range _ H1). pose proof (inv_range _ H2).
    rewrite !(@packed_ext _ (rs l) (re l) its pres pres'), !(@packed_ext _ (rs r) (re r) its pres pres') by (intros; apply Hf; lia).
    split; auto. split; auto. split; [apply IHl|apply IHr]; auto; intros; apply Hf; lia.
  Qed.

  (** *** Range query *)
  Theorem orthQ_ok pres t qb : okbox ok dim qb -> inv pres t ->
    orthQ dim pt its pres t qb = filter (inQBox N dim A pt qb) (packed (rs t) (re t) its pres).
  Proof.
    intros Hq. induction t as [s e np b | d sv s e b l IHl r IHr]; intros Hi;
      pose proof (inv_box _ Hi) as [B1 B2]; cbn [kBox kRange fst snd] in B1, B2;
      cbn [orthQ kBox kRange fst snd];
      pose proof (@boxCompare_orth N ok OL dim A pt qb _ (packed s e its pres) Hq B1) as BC;
      specialize (BC (fun x Hx => packed_okI _ _ _ _ Hx) B2).
    - destruct (boxCompare N dim qb b); auto.
      + symmetry. apply filter_all. auto.
      + symmetry. apply filter_none. auto.
    - destruct (boxCompare N dim qb b); auto.
      + symmetry. apply filter_all. auto.
      + rewrite (inv_node_packed _ _ _ _ _ _ _ _ Hi), filter_app. cbn [inv] in Hi.
        rewrite IHl, IHr by tauto. reflexivity.
      + symmetry. apply filter_none. auto.
  Qed.

  (** *** Lookup *)
  Lemma leafScan_ok pres q s e : e <= length its -> e <= length pres ->
    exists o, leafScan N dim pt q its pres (seq s (e - s)) = Ok o /\
    match o with
    | Some i => s <= i < e /\ nth_error pres i = Some true /\
                exists x, nth_error its i = Some x /\ peq N dim (pt q) (pt x) = true
    | None => forall x, In x (packed s e its pres) -> peq N dim (pt q) (pt x) = false
    end.
  Proof.
    intros H1 H2. remember (e - s) as n eqn:En. revert s En.
    induction n as [|n IH]; intros s En; cbn [seq leafScan].
    - exists None. split; auto. intros x Hx. apply In_packed in Hx as (i & Hi & _). lia.
    - destruct (nth_error its s) as [x|] eqn:Ex; [|apply nth_error_None in Ex; lia].
      destruct (nth_error pres s) as [b|] eqn:Eb; [|apply nth_error_None in Eb; lia].
      destruct (b && peq N dim (pt q) (pt x)) eqn:E.
      + apply andb_true_iff in E as [-> E]. exists (Some s). split; auto. split; [lia|]. split; auto. eauto.
      + destruct (IH (S s)) as (o & Ho & Hs); [lia|]. exists o. split; auto.
        destruct o as [i|].
        * destruct Hs as (Hi & Hs). split; auto. lia.
        * intros y Hy. apply In_packed in Hy as (i & Hi & Hy & Hp).
          destruct (Nat.eq_dec i s) as [-> | Hne].
          -- rewrite Eb in Hp. injection Hp as ->. rewrite Ex in Hy. injection Hy as <-. exact E.
          -- apply Hs. apply In_packed. exists i. split; auto. lia.
  Qed.

  Lemma walk_range pres q t : inv pres t ->
    rs t <= fst (walk N q t) /\ fst (walk N q t) <= snd (walk N q t) /\ snd (walk N q t) <= re t.
  Proof.
    induction t as [s e np b | d sv s e b l IHl r IHr]; cbn [inv walk kRange fst snd].
    - intros (H1 & _). lia.
    - intros (H1 & H2 & H3 & H4 & H5 & _). pose proof (inv_range _ H1). pose proof (inv_range _ H2).
      specialize (IHl H1). specialize (IHr H2). destruct (nlt N (coord q d) sv); lia.
  Qed.

  Lemma walk_in pres q t x : inv pres t -> sep pres t -> In x (packed (rs t) (re t) its pres) ->
    (forall d c, d < dim -> nlt N (coord q d) c = nlt N (coord (pt x) d) c) ->
    In x (packed (fst (walk N q t)) (snd (walk N q t)) its pres).
  Proof.
    intros Hi Hs Hx Hq. induction t as [s e np b | d sv s e b l IHl r IHr]; [exact Hx|].
    cbn [kRange fst snd] in Hx. rewrite (inv_node_packed _ _ _ _ _ _ _ _ Hi) in Hx.
    cbn [inv sep walk] in *.
    destruct Hi as (H1 & H2 & _ & _ & _ & _ & H7 & _). destruct Hs as (S1 & S2 & S3 & S4).
    rewrite (Hq d sv H7). apply in_app_iff in Hx as [Hx | Hx].
    - rewrite (S1 x Hx). auto.
    - rewrite (S2 x Hx). auto.
  Qed.

  (** *** Erasure at a leaf *)
  Variable EL : EqLaw N ok.

  Definition cnt (p : list (nT N)) (l : list A) : nat := length (filter (fun x => peq N dim p (pt x)) l).

  Lemma cnt_perm p l l' : Permutation l l' -> cnt p l = cnt p l'.
  Proof.
    unfold cnt. induction 1 as [|x l l' H IH|x y l|l l' l'' H1 IH1 H2 IH2]; cbn; auto.
    - destruct (peq N dim p (pt x)); cbn; auto.
    - destruct (peq N dim p (pt x)), (peq N dim p (pt y)); cbn; auto.
    - congruence.
  Qed.
  Lemma cnt_app p l l' : cnt p (l ++ l') = cnt p l + cnt p l'.
  Proof. unfold cnt. rewrite filter_app, app_length. reflexivity. Qed.
  Lemma cnt_0 p l : (forall x, In x l -> peq N dim p (pt x) = false) -> cnt p l = 0.
  Proof.
    unfold cnt. induction l as [|x l IH]; intros H; cbn; auto.
    rewrite (H x) by (simpl; auto). apply IH. intros; apply H; simpl; auto.
  Qed.

  (** What has been erased from [s, e): local to the range. *)
  Definition erased (s e : nat) (Q : list A) (pres : list bool) (k : nat) (pres' : list bool) : Prop :=
    (forall i, s <= i < e -> nth_error pres' i = Some true -> nth_error pres i = Some true) /\
    exists rem, length rem = k /\ Permutation (packed s e its pres) (rem ++ packed s e its pres') /\
      forall x, In x rem -> exists q, In q Q /\ peq N dim (pt q) (pt x) = true.
  Definition erasedAll (s e : nat) (Q : list A) (pres pres' : list bool) : Prop :=
    forall p, okP N ok dim p -> cnt p (packed s e its pres') = cnt p (packed s e its pres) - cnt p Q.
  Definition outside (s e : nat) (pres pres' : list bool) : Prop :=
    length pres' = length pres /\ forall i, i < s \/ e <= i -> nth_error pres' i = nth_error pres i.

  Lemma leafErase_ok s e Q : forall pres, e <= length its -> e <= length pres ->
    exists k pres', leafErase N dim pt its s e Q pres = Ok (k, pres') /\
      outside s e pres pres' /\ erased s e Q pres k pres' /\
      ((forall q, In q Q -> okI q) -> erasedAll s e Q pres pres').
  Proof.
    induction Q as [|q Q IH]; intros pres H1 H2; cbn [leafErase].
    - exists 0, pres. split; auto. split; [split; auto|]. split.
      + split; auto. exists []. split; auto. split; auto. intros x [].
      + intros _ p _. unfold cnt at 3. cbn. lia.
    - destruct (leafScan_ok pres q s H1 H2) as (o & -> & Ho). cbn [bind]. destruct o as [i|].
      + destruct Ho as (Hi & Hp & x & Hx & Hq).
        destruct (IH (upd i false pres)) as (k & pres' & -> & O & E & G); auto; [rewrite upd_length; auto|].
        cbn [bind]. exists (S k), pres'. split; auto.
        assert (Hil : i < length pres) by (apply nth_error_Some; congruence).
        assert (Hsub : forall j, nth_error (upd i false pres) j = Some true -> nth_error pres j = Some true).
        { intros j Hj. destruct (Nat.eq_dec i j) as [-> | Hne].
          - rewrite nth_error_upd_eq in Hj by auto. discriminate.
          - rewrite nth_error_upd_neq in Hj; auto. }
        pose proof (@packed_upd _ s e its pres i x Hi Hx Hp) as P.
        split; [|split].
        * destruct O as [O1 O2]. split; [rewrite O1, upd_length; auto|].
          intros j Hj. rewrite O2 by auto. apply nth_error_upd_neq. lia.
        * destruct E as [E1 (rem & L & P' & R)]. split; [auto|].
          exists (x :: rem). split; [cbn; auto|]. split.
          -- eapply Permutation_trans; [exact P|]. cbn. constructor. exact P'.
          -- intros y [<- | Hy]; [exists q; simpl; auto|]. destruct (R y Hy) as (q' & Hq' & Hy'). exists q'; simpl; auto.
        * intros HQ p Hokp. rewrite (G (fun q' Hq' => HQ q' (or_intror Hq')) p Hokp).
          rewrite (cnt_perm p P).
          assert (Ox : okP N ok dim (pt x)) by (apply Hits; eapply nth_error_In; eauto).
          assert (Oq : okP N ok dim (pt q)) by (apply HQ; simpl; auto).
          assert (Eqx : peq N dim p (pt q) = peq N dim p (pt x)).
          { apply eq_true_iff_eq. split; intros Hpq.
            - eapply (peq_trans EL); [| | |exact Hpq|exact Hq]; auto.
            - eapply (peq_trans EL); [| | |exact Hpq|]; auto. rewrite (peq_sym EL); auto. }
          unfold cnt at 3 4. cbn [filter]. rewrite Eqx.
          destruct (peq N dim p (pt x)); cbn [length]; unfold cnt; lia.
      + destruct (IH pres) as (k & pres' & -> & O & E & G); auto. exists k, pres'. split; auto.
        split; auto. split.
        * destruct E as [E1 (rem & L & P' & R)]. split; auto. exists rem. split; auto. split; auto.
          intros y Hy. destruct (R y Hy) as (q' & Hq' & Hy'). exists q'; simpl; auto.
        * intros HQ p Hokp. rewrite (G (fun q' Hq' => HQ q' (or_intror Hq')) p Hokp).
          unfold cnt at 4. cbn [filter]. destruct (peq N dim p (pt q)) eqn:Epq; cbn [length]; [|reflexivity].
          fold (cnt p Q). rewrite (@cnt_0 p (packed s e its pres)); [lia|].
          intros x Hx. destruct (peq N dim p (pt x)) eqn:Epx; auto.
          pose proof (packed_okI _ _ _ _ Hx) as Ox.
          assert (Oq : okP N ok dim (pt q)) by (apply HQ; simpl; auto).
          rewrite <- (Ho x Hx). symmetry. eapply (peq_trans EL) with (q := p); auto. rewrite (peq_sym EL); auto.
  Qed.

  (** *** Erasure in a tree *)
  Definition part_ok (part : (A -> bool) -> list A -> list A * list A) : Prop :=
    forall f Q, let '(l, r) := part f Q in Permutation Q (l ++ r) /\
      (forall q, In q l -> f q = true) /\ (forall q, In q r -> f q = false).

  Definition retOk (pres' : list bool) (s e : nat) (o : option tree) : Prop :=
    match o with
    | Some u => inv pres' u /\ s <= rs u /\ re u <= e /\
                forall i, s <= i < e -> nth_error pres' i = Some true -> rs u <= i < re u
    | None => forall i, s <= i < e -> nth_error pres' i = Some true -> False
    end.
  Definition resOk (t : tree) (Q : list A) (pres : list bool) (t' : tree) (o : option tree) (k : nat) (pres' : list bool) : Prop :=
    erased (rs t) (re t) Q pres k pres' /\ kRange t' = kRange t /\ inv pres' t' /\
    retOk pres' (rs t) (re t) o /\
    (sep pres t -> (forall q, In q Q -> okI q) ->
       erasedAll (rs t) (re t) Q pres pres' /\ sep pres' t' /\
       match o with Some u => sep pres' u | None => True end).

  Lemma resOk_frame t Q p1 t' o k p1' p2 p2' : inv p1 t ->
    (forall i, rs t <= i < re t -> nth_error p2 i = nth_error p1 i) ->
    (forall i, rs t <= i < re t -> nth_error p2' i = nth_error p1' i) ->
    resOk t Q p1 t' o k p1' -> resOk t Q p2 t' o k p2'.
  Proof.
    intros Hi F1 F2 ((E1 & rem & L & P & R) & K & I & O & S).
    assert (Hp1 := @packed_ext _ (rs t) (re t) its p1 p2 F1).
    assert (Hp2 := @packed_ext _ (rs t) (re t) its p1' p2' F2).
    split; [|split; [|split; [|split]]].
    - split.
      + intros i Hi'. rewrite F1, F2 by auto. auto.
      + exists rem. split; auto. split; auto. rewrite Hp1, Hp2. auto.
    - auto.
    - eapply inv_frame; [|exact I]. rewrite K. auto.
    - destruct o as [u|]; cbn [retOk] in *.
      + destruct O as (O1 & O2 & O3 & O4). split.
        * eapply inv_frame; [|exact O1]. pose proof (inv_range _ O1). intros i Hi'. apply F2. lia.
        * split; auto. split; auto. intros i Hi'. rewrite F2 by auto. auto.
      + intros i Hi'. rewrite F2 by auto. exact (O i Hi').
    - intros S2 HQ. destruct S as (G1 & G2 & G3).
      { eapply sep_frame; [| |exact S2].
        - eapply inv_frame; [|exact Hi]. auto.
        - intros i Hi'. rewrite F1; auto. }
      { auto. }
      split; [|split].
      + intros p Hp. rewrite Hp1, Hp2. auto.
      + eapply sep_frame; [exact I| |exact G2]. rewrite K. auto.
      + destruct o as [u|]; auto. destruct O as (O1 & O2 & O3 & O4).
        eapply sep_frame; [exact O1| |exact G3]. pose proof (inv_range _ O1). intros i Hi'. apply F2. lia.
  Qed.

  Lemma sep_sub d sv s e b l r pres pres' l' r' :
    rs l <= rs l' -> re l' <= re l -> rs r <= rs r' -> re r' <= re r ->
    (forall i, nth_error pres' i = Some true -> rs l <= i < re l \/ rs r <= i < re r -> nth_error pres i = Some true) ->
    sep pres (KNode d sv s e b l r) -> sep pres' l' -> sep pres' r' -> forall b', sep pres' (KNode d sv s e b' l' r').
  Proof.
    intros H1 H2 H3 H4 H (S1 & S2 & _) Sl Sr b'. cbn [sep]. split; [|split; auto].
    - intros x Hx. apply In_packed in Hx as (i & Hi & Hx & Hp). apply S1. apply In_packed.
      exists i. split; [lia|]. split; auto. apply H; auto. lia.
    - intros x Hx. apply In_packed in Hx as (i & Hi & Hx & Hp). apply S2. apply In_packed.
      exists i. split; [lia|]. split; auto. apply H; auto. lia.
  Qed.

  Lemma join_ok d sv s e b l r Q Ql Qr pres pres' li lo kl ri ro kr :
    inv pres (KNode d sv s e b l r) ->
    Permutation Q (Ql ++ Qr) ->
    (forall q, In q Ql -> nlt N (coord (pt q) d) sv = true) ->
    (forall q, In q Qr -> nlt N (coord (pt q) d) sv = false) ->
    (forall i, ~ (rs l <= i < re l) -> ~ (rs r <= i < re r) -> nth_error pres' i = nth_error pres i) ->
    resOk l Ql pres li lo kl pres' -> resOk r Qr pres ri ro kr pres' ->
    let '(t', o) := eraseJoin dim d sv s e b li lo ri ro in
    resOk (KNode d sv s e b l r) Q pres t' o (kl + kr) pres'.
  Proof.
    intros Hinv HP HQl HQr Hout RL RR.
    pose proof (inv_node_packed _ _ _ _ _ _ _ _ Hinv) as PK.
    pose proof Hinv as Hinv'. cbn [inv] in Hinv'.
    destruct Hinv' as (I1 & I2 & I3 & I4 & I5 & I6 & I7 & I8 & I9).
    pose proof (inv_range _ I1) as R1. pose proof (inv_range _ I2) as R2.
    destruct RL as ((EL1 & reml & LL & PL & ML) & KL & IL & OL' & SL).
    destruct RR as ((ER1 & remr & LR & PR & MR) & KR & IR & OR' & SR).
    assert (Sub : forall i, s <= i < e -> nth_error pres' i = Some true -> nth_error pres i = Some true).
    { intros i Hi Hp. destruct (Nat.lt_ge_cases i (rs l)); [rewrite <- Hout; auto; lia|].
      destruct (Nat.lt_ge_cases i (re l)); [apply EL1; auto|].
      destruct (Nat.lt_ge_cases i (rs r)); [rewrite <- Hout; auto; lia|].
      destruct (Nat.lt_ge_cases i (re r)); [apply ER1; auto|]. rewrite <- Hout; auto; lia. }
    assert (Cov : forall i, s <= i < e -> nth_error pres' i = Some true -> rs l <= i < re l \/ rs r <= i < re r) by auto.
    assert (PK' : packed s e its pres' = packed (rs l) (re l) its pres' ++ packed (rs r) (re r) its pres').
    { apply packed_cover; auto; lia. }
    assert (Ein : inv pres' (KNode d sv s e b li ri)).
    { cbn [inv]. rewrite KL, KR. do 6 (split; auto). split; auto. split; auto.
      eapply boxOk_sub; [|exact I9]. auto. }
    assert (ERA : erased s e Q pres (kl + kr) pres').
    { split; auto. exists (reml ++ remr). split; [rewrite app_length; lia|]. split.
      - rewrite PK, PK'. eapply Permutation_trans; [apply Permutation_app; [exact PL|exact PR]|].
        rewrite <- !app_assoc. apply Permutation_app_head. rewrite !app_assoc. apply Permutation_app_tail.
        apply Permutation_app_comm.
      - intros x Hx. apply in_app_iff in Hx as [Hx | Hx]; [destruct (ML x Hx) as (q & Hq & Hx')|destruct (MR x Hx) as (q & Hq & Hx')];
          exists q; split; auto; (eapply Permutation_in; [apply Permutation_sym; exact HP|]); apply in_app_iff; auto. }
    assert (ALL : sep pres (KNode d sv s e b l r) -> (forall q, In q Q -> okI q) -> erasedAll s e Q pres pres').
    { intros (S1 & S2 & S3 & S4) HQ p Hp.
      destruct (SL S3) as (GL & _).
      { intros q Hq. apply HQ. eapply Permutation_in; [apply Permutation_sym; exact HP|]. apply in_app_iff; auto. }
      destruct (SR S4) as (GR & _).
      { intros q Hq. apply HQ. eapply Permutation_in; [apply Permutation_sym; exact HP|]. apply in_app_iff; auto. }
      rewrite PK, PK', !cnt_app, (cnt_perm p HP), cnt_app, (GL p Hp), (GR p Hp).
      assert (HQo : forall q, In q (Ql ++ Qr) -> okI q).
      { intros q Hq. apply HQ. eapply Permutation_in; [apply Permutation_sym; exact HP|]. auto. }
      destruct (nlt N (coord p d) sv) eqn:Ep.
      - rewrite (@cnt_0 p (packed (rs r) (re r) its pres)), (@cnt_0 p Qr); [lia| |].
        + intros q Hq. destruct (peq N dim p (pt q)) eqn:Epq; auto.
          rewrite (@peq_lt N ok EL dim p (pt q) d sv) in Ep; auto; [|apply HQo, in_app_iff; auto].
          rewrite (HQr q Hq) in Ep. discriminate.
        + intros x Hx. destruct (peq N dim p (pt x)) eqn:Epx; auto.
          rewrite (@peq_lt N ok EL dim p (pt x) d sv) in Ep; auto; [|eapply packed_okI; eauto].
          rewrite (S2 x Hx) in Ep. discriminate.
      - rewrite (@cnt_0 p (packed (rs l) (re l) its pres)), (@cnt_0 p Ql); [lia| |].
        + intros q Hq. destruct (peq N dim p (pt q)) eqn:Epq; auto.
          rewrite (@peq_lt N ok EL dim p (pt q) d sv) in Ep; auto; [|apply HQo, in_app_iff; auto].
          rewrite (HQl q Hq) in Ep. discriminate.
        + intros x Hx. destruct (peq N dim p (pt x)) eqn:Epx; auto.
          rewrite (@peq_lt N ok EL dim p (pt x) d sv) in Ep; auto; [|eapply packed_okI; eauto].
          rewrite (S1 x Hx) in Ep. discriminate. }
    assert (SEPS : sep pres (KNode d sv s e b l r) -> (forall q, In q Q -> okI q) ->
       sep pres' (KNode d sv s e b li ri) /\
       match lo with Some u => sep pres' u | None => True end /\ match ro with Some u => sep pres' u | None => True end).
    { intros HS HQ. pose proof HS as (S1 & S2 & S3 & S4).
      destruct (SL S3) as (_ & GL1 & GL2).
      { intros q Hq. apply HQ. eapply Permutation_in; [apply Permutation_sym; exact HP|]. apply in_app_iff; auto. }
      destruct (SR S4) as (_ & GR1 & GR2).
      { intros q Hq. apply HQ. eapply Permutation_in; [apply Permutation_sym; exact HP|]. apply in_app_iff; auto. }
      split; auto. eapply sep_sub with (l := l) (r := r) (pres := pres); [| | | | |exact HS|exact GL1|exact GR1]; rewrite ?KL, ?KR; auto.
      intros i Hp [Hi | Hi]; auto. }
    destruct lo as [l'|], ro as [r'|]; cbn [eraseJoin retOk] in *.
    - destruct OL' as (A1 & A2 & A3 & A4), OR' as (B1 & B2 & B3 & B4).
      pose proof (inv_range _ A1) as R3. pose proof (inv_range _ B1) as R4.
      assert (Cov2 : forall i, s <= i < e -> nth_error pres' i = Some true -> rs l' <= i < re l' \/ rs r' <= i < re r').
      { intros i Hi Hp. destruct (Cov i Hi Hp) as [G | G]; auto. }
      assert (I' : inv pres' (KNode d sv s e (boxUnion dim (kBox l') (kBox r')) l' r')).
      { cbn [inv]. split; auto. split; auto. do 3 (split; [lia|]). split; auto. split; auto. split; auto.
        destruct (inv_box _ A1) as [C1 C2], (inv_box _ B1) as [D1 D2].
        assert (PK2 : packed s e its pres' = packed (rs l') (re l') its pres' ++ packed (rs r') (re r') its pres').
        { apply packed_cover; auto; lia. }
        unfold boxOk. rewrite PK2. eapply boxUnion_ok; eauto.
        intros x Hx. rewrite <- PK2 in Hx. eapply packed_okI; eauto. }
      split; [exact ERA|]. split; [reflexivity|]. split; [exact I'|]. split.
      + cbn [retOk kRange fst snd]. auto.
      + intros HS HQ. destruct (SEPS HS HQ) as (G1 & G2 & G3). split; [apply ALL; auto|].
        assert (G : sep pres' (KNode d sv s e (boxUnion dim (kBox l') (kBox r')) l' r')).
        { eapply sep_sub with (l := l) (r := r) (pres := pres); [| | | | |exact HS|exact G2|exact G3]; auto.
          intros i Hp [Hi | Hi]; auto. }
        auto.
    - split; [exact ERA|]. split; [reflexivity|]. split; [exact Ein|]. split.
      + cbn [retOk kRange fst snd]. destruct OL' as (A1 & A2 & A3 & A4). split; auto. split; [lia|]. split; [lia|].
        intros i Hi Hp. destruct (Cov i Hi Hp) as [G | G]; auto. exfalso; eauto.
      + intros HS HQ. destruct (SEPS HS HQ) as (G1 & G2 & G3). split; [apply ALL; auto|]. auto.
    - split; [exact ERA|]. split; [reflexivity|]. split; [exact Ein|]. split.
      + cbn [retOk kRange fst snd]. destruct OR' as (A1 & A2 & A3 & A4). split; auto. split; [lia|]. split; [lia|].
        intros i Hi Hp. destruct (Cov i Hi Hp) as [G | G]; auto. exfalso; eauto.
      + intros HS HQ. destruct (SEPS HS HQ) as (G1 & G2 & G3). split; [apply ALL; auto|]. auto.
    - split; [exact ERA|]. split; [reflexivity|]. split; [exact Ein|]. split.
      + cbn [retOk kRange fst snd]. intros i Hi Hp. destruct (Cov i Hi Hp) as [G | G]; eauto.
      + intros HS HQ. destruct (SEPS HS HQ) as (G1 & G2 & G3). split; [apply ALL; auto|]. auto.
  Qed.

  Variable part : (A -> bool) -> list A -> list A * list A.
  Hypothesis Hpart : part_ok part.
  Variable lfirst : nat -> nat -> bool.

  Theorem bulkErase_ok t : forall Q pres, length its <= length pres -> inv pres t ->
    exists t' o k pres', bulkErase dim pt part lfirst its t Q pres = Ok (t', o, k, pres') /\
      outside (rs t) (re t) pres pres' /\ resOk t Q pres t' o k pres'.
  Proof.
    induction t as [s e np b | d sv s e b l IHl r IHr]; intros Q pres Hlen Hinv.
    - cbn [bulkErase inv kRange fst snd] in *. destruct Hinv as (I1 & I2 & I3 & I4).
      destruct (@leafErase_ok s e Q pres) as (k & pres' & -> & O & E & G); auto; [lia|]. cbn [bind]. cbv zeta.
      pose proof E as (E1 & rem & L & P & R).
      assert (Hnp : np - k = length (packed s e its pres')).
      { apply Permutation_length in P. rewrite app_length in P. lia. }
      assert (Bx : boxOk pres' b s e) by (eapply boxOk_sub; [|exact I4]; auto).
      destruct (Nat.eqb_spec (np - k) 0) as [Hz | Hnz].
      + exists (KLeaf s e (np - k) b), None, k, pres'. split; auto. split; auto.
        split; [exact E|]. split; auto. split; [cbn [inv]; auto|]. split.
        * cbn [retOk kRange fst snd]. intros i Hi Hp.
          destruct (nth_error its i) as [x|] eqn:Ex; [|apply nth_error_None in Ex; lia].
          assert (Hx : In x (packed s e its pres')) by (apply In_packed; exists i; auto).
          rewrite Hnp in Hz. destruct (packed s e its pres'); [destruct Hx|discriminate].
        * cbn [sep]. auto.
      + set (b' := if k =? 0 then b else relivedBox dim pt b (packed s e its pres')).
        assert (I' : inv pres' (KLeaf s e (np - k) b')).
        { cbn [inv]. split; auto. split; auto. split; auto. unfold b'. destruct (k =? 0); auto.
          apply (relivedBox_ok OL).
          - intros Hn. rewrite Hn in Hnp. cbn in Hnp. lia.
          - intros x Hx. eapply packed_okI; eauto. }
        exists (KLeaf s e (np - k) b'), (Some (KLeaf s e (np - k) b')), k, pres'. split; auto. split; auto.
        split; [exact E|]. split; auto. split; auto. split.
        * cbn [retOk kRange fst snd]. auto.
        * cbn [sep]. auto.
    - pose proof Hinv as Hinv'. cbn [inv] in Hinv'.
      destruct Hinv' as (I1 & I2 & I3 & I4 & I5 & I6 & I7 & I8 & I9).
      pose proof (inv_range _ I1) as R1. pose proof (inv_range _ I2) as R2.
      cbn [bulkErase]. pose proof (Hpart (fun q => nlt N (coord (pt q) d) sv) Q) as HP.
      destruct (part (fun q => nlt N (coord (pt q) d) sv) Q) as [Ql Qr]. destruct HP as (HP & HQl & HQr).
      destruct (lfirst s e).
      + destruct (IHl Ql pres Hlen I1) as (li & lo & kl & p1 & -> & [L1 O1] & RL). cbn [bind].
        destruct (IHr Qr p1) as (ri & ro & kr & p2 & -> & [L2 O2] & RR); [lia| |].
        { eapply inv_frame; [|exact I2]. intros i Hi. apply O1. lia. }
        cbn [bind].
        assert (RL' : resOk l Ql pres li lo kl p2).
        { eapply resOk_frame; [exact I1| | |exact RL]; auto. intros i Hi. apply O2. lia. }
        assert (RR' : resOk r Qr pres ri ro kr p2).
        { eapply resOk_frame; [| | |exact RR]; auto.
          - eapply inv_frame; [|exact I2]. intros i Hi. apply O1. lia.
          - intros i Hi. symmetry. apply O1. lia. }
        pose proof (@join_ok d sv s e b l r Q Ql Qr pres p2 li lo kl ri ro kr Hinv HP HQl HQr) as J.
        destruct (eraseJoin dim d sv s e b li lo ri ro) as [t' o].
        exists t', o, (kl + kr), p2. split; auto. split.
        * cbn [kRange fst snd]. split; [lia|]. intros i Hi. rewrite O2, O1; auto; lia.
        * apply J; auto. intros i H1 H2. rewrite O2, O1; auto; lia.
      + destruct (IHr Qr pres Hlen I2) as (ri & ro & kr & p1 & -> & [L1 O1] & RR). cbn [bind].
        destruct (IHl Ql p1) as (li & lo & kl & p2 & -> & [L2 O2] & RL); [lia| |].
        { eapply inv_frame; [|exact I1]. intros i Hi. apply O1. lia. }
        cbn [bind].
        assert (RR' : resOk r Qr pres ri ro kr p2).
        { eapply resOk_frame; [exact I2| | |exact RR]; auto. intros i Hi. apply O2. lia. }
        assert (RL' : resOk l Ql pres li lo kl p2).
        { eapply resOk_frame; [| | |exact RL]; auto.
          - eapply inv_frame; [|exact I1]. intros i Hi. apply O1. lia.
          - intros i Hi. symmetry. apply O1. lia. }
        pose proof (@join_ok d sv s e b l r Q Ql Qr pres p2 li lo kl ri ro kr Hinv HP HQl HQr) as J.
        destruct (eraseJoin dim d sv s e b li lo ri ro) as [t' o].
        exists t', o, (kl + kr), p2. split; auto. split.
        * cbn [kRange fst snd]. split; [lia|]. intros i Hi. rewrite O2, O1; auto; lia.
        * apply J; auto. intros i H1 H2. rewrite O2, O1; auto; lia.
  Qed.
End Erase.
Arguments inv_range {N ok dim A pt its} pres {t} _.
Arguments inv_box {N ok dim A pt its} pres {t} _.
Arguments walk_range {N ok dim A pt its pres} q {t} _.
Arguments cnt_perm {N dim A pt} p {l l'} _.
Arguments cnt {N} dim {A} pt p l.
