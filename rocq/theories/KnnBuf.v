(** The kNN candidate buffers keep the k smallest elements. *)
From Verif Require Import Base Num KdModel KnnModel.
Set Implicit Arguments.

Lemma upd_app A i (x : A) l : i < length l ->
  upd i x l = firstn i l ++ x :: skipn (S i) l.
Proof.
  revert i; induction l as [|y l IH]; intros [|i] H; simpl in *; try lia; auto.
  rewrite IH by lia. auto.
Qed.
Lemma split_at A i (l : list A) d : i < length l ->
  l = firstn i l ++ nth i l d :: skipn (S i) l.
Proof.
  revert i; induction l as [|y l IH]; intros [|i] H; simpl in *; try lia; auto.
  f_equal. apply IH. lia.
Qed.

Lemma firstn_in A n (l : list A) x : In x (firstn n l) -> In x l.
Proof. intros H. rewrite <- (firstn_skipn n l). apply in_or_app; auto. Qed.
Lemma skipn_in A n (l : list A) x : In x (skipn n l) -> In x l.
Proof. intros H. rewrite <- (firstn_skipn n l). apply in_or_app; auto. Qed.
Lemma firstn_nth_in A n (l : list A) i d : i < n -> i < length l -> In (nth i l d) (firstn n l).
Proof.
  revert l i; induction n as [|n IH]; intros l i Hi Hl; [lia|].
  destruct l as [|x l]; simpl in *; [lia|]. destruct i; [left; auto|right; apply IH; lia].
Qed.
Lemma skipn_nth_error A n (l : list A) i : nth_error (skipn n l) i = nth_error l (n + i).
Proof.
  revert l; induction n as [|n IH]; intros l; simpl; auto. destruct l; simpl; auto.
  destruct i; auto.
Qed.
Lemma firstn_nth_error A n (l : list A) i : i < n -> nth_error (firstn n l) i = nth_error l i.
Proof.
  revert l i; induction n as [|n IH]; intros l i Hi; [lia|].
  destruct l as [|x l]; simpl; [destruct i; auto|]. destruct i; simpl; auto. apply IH; lia.
Qed.

Lemma filter_length_lt A (f : A -> bool) l x : In x l -> f x = false ->
  length (filter f l) < length l.
Proof.
  induction l as [|y l IH]; simpl; [tauto|]. intros [->|H] E.
  - rewrite E. pose proof (filter_length_le f l). lia.
  - specialize (IH H E). destruct (f y); simpl; lia.
Qed.

(** Selecting from [F ++ T]: if at least |F| elements satisfy [f] and an
    element of F not satisfying f would exclude all of T, then all of F satisfy
    f. *)
Lemma pigeon A (f : A -> bool) (F T : list A) :
  length F <= length (filter f (F ++ T)) ->
  (forall x, In x F -> f x = false -> forall y, In y T -> f y = false) ->
  forall x, In x F -> f x = true.
Proof.
  intros H1 H2 x Hx. destruct (f x) eqn:E; auto. exfalso.
  rewrite filter_app, app_length in H1. rewrite (filter_none f T) in H1.
  - simpl in H1. pose proof (@filter_length_lt _ f F x Hx E). lia.
  - apply (H2 x Hx E).
Qed.

Definition isReal {N A} (e : elem N A) : bool := match snd e with Some _ => true | None => false end.

Section NthContract.
  Variable N : Num.
  Variable ok : nT N -> Prop.
  Variable A : Type.

  (** [std::nth_element]: a rearrangement such that no element at or before
      position n is greater than an element at or after it. *)
  Definition nth_ok (nthel : nat -> list (elem N A) -> list (elem N A)) : Prop :=
    forall n (l : list (elem N A)), n < length l -> (forall e : elem N A, In e l -> ok (fst e)) ->
      Permutation (nthel n l) l /\
      forall i j (a b : elem N A), i <= n -> n <= j ->
        nth_error (nthel n l) i = Some a -> nth_error (nthel n l) j = Some b ->
        nlt N (fst b) (fst a) = false.

  (** [parlay::sort_inplace] *)
  Definition sort_ok (srt : list (elem N A) -> list (elem N A)) : Prop :=
    forall l : list (elem N A), (forall e : elem N A, In e l -> ok (fst e)) ->
      Permutation (srt l) l /\
      forall i j (a b : elem N A), i <= j -> nth_error (srt l) i = Some a -> nth_error (srt l) j = Some b ->
        nlt N (fst b) (fst a) = false.
End NthContract.

Section BufProofs.
  Variable N : Num.
  Variable ok : nT N -> Prop.
  Hypothesis OL : OrdLaws N ok.
  Hypothesis Hmax : ok (nmax N).
  Variable A : Type.
  Variable nthel : nat -> list (elem N A) -> list (elem N A).
  Hypothesis Hnth : nth_ok ok nthel.
  Variable k : nat.
  Hypothesis Hk : 1 <= k.

  Notation elem := (elem N A).
  Notation empty := (emptyElem N A).

  Definition good (e : elem) : Prop :=
    isReal e = true /\ ok (fst e) /\ nlt N (fst e) (nmax N) = true.

  Definition le (a b : elem) : Prop := nlt N (fst b) (fst a) = false.

  Lemma le_trans a b c : ok (fst a) -> ok (fst b) -> ok (fst c) -> le a b -> le b c -> le a c.
  Proof.
    unfold le. intros Ha Hb Hc H1 H2. apply (nle_false_lt OL); auto.
    apply (nle_trans OL) with (y := fst b); auto; apply (nlt_false_le OL); auto.
  Qed.
  Lemma le_refl a : ok (fst a) -> le a a.
  Proof. intros H. apply (ol_irrefl OL); auto. Qed.

  (** Contents of the buffer relative to the multiset [es] of inserted
      elements; [D] are the overwritten ones. *)
  Definition bufrep (es : list elem) (b : buffer N A) : Prop :=
    bk b = k /\ length (bbuf b) = 2 * k /\ bptr b < 2 * k /\
    (forall e, In e es -> good e) /\
    exists D, Permutation (bbuf b ++ D) (es ++ repeat empty (2 * k)) /\
      (forall e, In e (firstn (bptr b) (bbuf b)) -> isReal e = true) /\
      (forall s, In s (skipn (bptr b) (bbuf b) ++ D) ->
         s = empty \/ (k <= bptr b /\ forall a, In a (firstn k (bbuf b)) -> le a s)).

  Lemma rep_new : bufrep [] (newBuffer N A k).
  Proof.
    unfold bufrep, newBuffer. cbn [bk bptr bbuf]. rewrite repeat_length.
    split; auto. split; auto. split; [lia|]. split; [intros e []|].
    exists []. rewrite app_nil_r. split; [reflexivity|].
    split; [intros e []|]. intros s Hs. left. apply (repeat_spec (2 * k) _ s).
    rewrite app_nil_r in Hs. exact Hs.
  Qed.

  Lemma entries_ok es b D : (forall e, In e es -> good e) ->
    Permutation (bbuf b ++ D) (es ++ repeat empty (2 * k)) ->
    forall e, In e (bbuf b ++ D) ->
      ok (fst e) /\ (isReal e = true -> In e es) /\ (isReal e = false -> e = empty).
  Proof.
    intros Hg HP e He. apply (Permutation_in _ HP) in He. apply in_app_or in He as [He|He].
    - destruct (Hg e He) as (H1 & H2 & H3). repeat split; auto. congruence.
    - apply repeat_spec in He. subst e. unfold emptyElem, isReal; simpl. split; auto.
      split; auto. discriminate.
  Qed.

  Lemma real_count es b D : (forall e, In e es -> good e) ->
    Permutation (bbuf b ++ D) (es ++ repeat empty (2 * k)) ->
    length (filter isReal (bbuf b ++ D)) = length es.
  Proof.
    intros Hg HP. rewrite (Permutation_length (Permutation_filter isReal HP)).
    rewrite filter_app, app_length, (filter_all isReal es), (filter_none isReal (repeat _ _)).
    - simpl. lia.
    - intros e He. apply repeat_spec in He. subst; auto.
    - intros e He. apply Hg; auto.
  Qed.

  Lemma rep_hasK es b : bufrep es b -> hasK b = (k <=? length es).
  Proof.
    intros (H1 & H2 & H3 & Hg & D & HP & Hr & Hs). unfold hasK. rewrite H1.
    pose proof (@real_count es b D Hg HP) as HC.
    rewrite <- (firstn_skipn (bptr b) (bbuf b)) in HC.
    rewrite <- app_assoc, filter_app, app_length, (filter_all isReal (firstn _ _)) in HC by auto.
    rewrite firstn_length_le in HC by lia.
    destruct (Nat.leb_spec k (bptr b)) as [Hp|Hp].
    - symmetry. apply Nat.leb_le. lia.
    - symmetry. apply Nat.leb_gt. rewrite (filter_none isReal) in HC; [simpl in HC; lia|].
      intros e He. destruct (Hs e He) as [->|[H _]]; [reflexivity|lia].
  Qed.

  (** Selection step. *)
  Lemma keepK_rep_gen es b D : bk b = k -> length (bbuf b) = 2 * k -> k <= bptr b ->
    (forall e, In e es -> good e) ->
    Permutation (bbuf b ++ D) (es ++ repeat empty (2 * k)) ->
    (forall e, In e (firstn (bptr b) (bbuf b)) -> isReal e = true) ->
    (forall s, In s D -> s = empty \/ (k <= bptr b /\ forall a, In a (firstn k (bbuf b)) -> le a s)) ->
    exists c b', keepK nthel b = Ok (c, b') /\ bufrep es b' /\ bptr b' = k /\
      let F := firstn k (bbuf b') in
      length F = k /\ In c F /\ (forall a, In a F -> le a c) /\
      exists G, Permutation (F ++ G) es /\ (forall g, In g G -> le c g) /\
                (forall a g, In a F -> In g G -> le a g).
  Proof.
    intros H1 H2 H3 Hg HP Hr Hs.
    pose proof (@entries_ok es b D Hg HP) as Hent.
    unfold keepK. rewrite H1. destruct (Nat.ltb_spec (bptr b) k); [lia|].
    destruct (Nat.eqb_spec k 0); [lia|]. rewrite H2. destruct (Nat.ltb_spec (2 * k) k); [lia|].
    set (buf' := nthel (k - 1) (bbuf b)).
    destruct (@Hnth (k - 1) (bbuf b)) as [HPn Hord]; [lia| |].
    { intros e He. apply Hent, in_or_app; auto. }
    fold buf' in HPn, Hord.
    assert (HL' : length buf' = 2 * k) by (rewrite (Permutation_length HPn); auto).
    set (F := firstn k buf'). set (T := skipn k buf').
    assert (EFT : buf' = F ++ T) by (symmetry; apply firstn_skipn).
    assert (HLF : length F = k) by (unfold F; rewrite firstn_length; lia).
    set (c := nth (k - 1) buf' empty).
    assert (Hc : nth_error buf' (k - 1) = Some c) by (apply nth_error_nth'; lia).
    assert (Hent' : forall e, In e (buf' ++ D) ->
       ok (fst e) /\ (isReal e = true -> In e es) /\ (isReal e = false -> e = empty)).
    { intros e He. apply Hent. apply in_app_or in He as [He|He]; apply in_or_app; auto.
      left. eapply Permutation_in; eauto. }
    assert (HF : forall a, In a F -> exists i, i < k /\ nth_error buf' i = Some a).
    { intros a Ha. apply In_nth_error in Ha as [i Hi]. exists i.
      assert (i < k) by (rewrite <- HLF; apply nth_error_Some; congruence).
      split; auto. unfold F in Hi. rewrite firstn_nth_error in Hi; auto. }
    assert (HT : forall g, In g T -> exists j, k <= j /\ nth_error buf' j = Some g).
    { intros g Hgg. apply In_nth_error in Hgg as [j Hj]. exists (k + j). split; [lia|].
      unfold T in Hj. rewrite skipn_nth_error in Hj; auto. }
    assert (Hac : forall a, In a F -> le a c).
    { intros a Ha. destruct (HF a Ha) as (i & Hi & Ei). apply (Hord i (k - 1) a c); auto; lia. }
    assert (Hcg : forall g, In g T -> le c g).
    { intros g Hgg. destruct (HT g Hgg) as (j & Hj & Ej). apply (Hord (k - 1) j c g); auto; lia. }
    assert (Hag : forall a g, In a F -> In g T -> le a g).
    { intros a g Ha Hgg. destruct (HF a Ha) as (i & Hi & Ei). destruct (HT g Hgg) as (j & Hj & Ej).
      apply (Hord i j a g); auto; lia. }
    assert (HcF : In c F).
    { unfold c, F. apply firstn_nth_in; lia. }
    assert (HP' : Permutation (buf' ++ D) (es ++ repeat empty (2 * k))) by (rewrite HPn; auto).
    (* F is real *)
    assert (HrF : forall a, In a F -> isReal a = true).
    { apply (pigeon isReal F T).
      - rewrite HLF, <- EFT, (Permutation_length (Permutation_filter isReal HPn)).
        rewrite <- (firstn_skipn (bptr b) (bbuf b)), filter_app, app_length.
        rewrite (filter_all isReal (firstn _ _)) by auto. rewrite firstn_length. lia.
      - intros x Hx Ex y Hy. destruct (isReal y) eqn:Ey; auto. exfalso.
        assert (x = empty) as -> by (apply Hent'; auto; apply in_or_app; left; rewrite EFT; apply in_or_app; auto).
        pose proof (@Hag empty y Hx Hy) as HL. unfold le in HL. simpl in HL.
        assert (In y es) as Hye by (apply Hent'; auto; apply in_or_app; left; rewrite EFT; apply in_or_app; auto).
        destruct (Hg y Hye) as (_ & _ & Hlt). congruence. }
    (* D dominated *)
    assert (HD : forall s, In s D -> s = empty \/ (k <= k /\ forall a, In a F -> le a s)).
    { intros s Hss. destruct (Hs s Hss) as [->|[_ Hdom]]; auto. right. split; auto.
      intros a Ha.
      assert (Hoks : ok (fst s)) by (apply Hent', in_or_app; auto).
      unfold le. destruct (nlt N (fst s) (fst a)) eqn:E; auto. exfalso.
      set (f := fun e : elem => nlt N (fst e) (fst a)).
      assert (Hoka : ok (fst a)) by (apply Hent'; apply in_or_app; left; rewrite EFT; apply in_or_app; auto).
      assert (f a = true); [|unfold f in *; rewrite (ol_irrefl OL) in *; auto; discriminate].
      apply (pigeon f F T); auto.
      - rewrite HLF, <- EFT, (Permutation_length (Permutation_filter f HPn)).
        rewrite <- (firstn_skipn k (bbuf b)), filter_app, app_length.
        rewrite (filter_all f (firstn _ _)); [rewrite firstn_length; lia|].
        intros e He. unfold f. pose proof (Hdom e He) as Hle. unfold le in Hle.
        apply (nle_lt_trans OL) with (y := fst s); auto.
        + apply Hent, in_or_app; left. eapply firstn_in; eauto.
        + apply (nlt_false_le OL); auto. apply Hent, in_or_app; left. eapply firstn_in; eauto.
      - intros x Hx Ex y Hy. unfold f. apply (Hag a y Ha Hy). }
    exists c, (mkBuf k k buf'). split; [reflexivity|]. split.
    - unfold bufrep. cbn [bk bptr bbuf]. split; auto. split; auto. split; [lia|]. split; auto.
      exists D. split; auto. split; [exact HrF|].
      intros s Hss. apply in_app_or in Hss as [Hss|Hss].
      + right. split; auto.
      + apply HD; auto.
    - cbn [bptr bbuf]. split; auto. cbv zeta. split; auto. split; auto. split; auto.
      exists (filter isReal (T ++ D)). split; [|split].
      + assert (E : filter isReal (es ++ repeat empty (2 * k)) = es).
        { rewrite filter_app, (filter_all isReal es), (filter_none isReal), app_nil_r; auto.
          - intros e He. apply repeat_spec in He. subst; auto.
          - intros e He. apply Hg; auto. }
        assert (E2 : filter isReal (buf' ++ D) = F ++ filter isReal (T ++ D)).
        { rewrite EFT at 1. rewrite <- app_assoc, (filter_app _ F), (filter_all isReal F) by auto. auto. }
        fold F. rewrite <- E2, <- E at 1. apply Permutation_filter, HP'.
      + intros g Hgg. apply filter_In in Hgg as [Hgg Hgr]. apply in_app_or in Hgg as [Hgg|Hgg]; auto.
        destruct (HD g Hgg) as [->|[_ HH]]; [discriminate|]. apply HH; auto.
      + intros a g Ha Hgg. apply filter_In in Hgg as [Hgg Hgr].
        apply in_app_or in Hgg as [Hgg|Hgg]; auto.
        destruct (HD g Hgg) as [->|[_ HH]]; [discriminate|]. apply HH; auto.
  Qed.

  Lemma rep_keepK es b : bufrep es b -> k <= length es ->
    exists c b', keepK nthel b = Ok (c, b') /\ bufrep es b' /\ bptr b' = k /\
      let F := firstn k (bbuf b') in
      length F = k /\ In c F /\ (forall a, In a F -> le a c) /\
      exists G, Permutation (F ++ G) es /\ (forall g, In g G -> le c g) /\
                (forall a g, In a F -> In g G -> le a g).
  Proof.
    intros HR Hlen. pose proof (rep_hasK HR) as HK.
    destruct HR as (H1 & H2 & H3 & Hg & D & HP & Hr & Hs).
    apply Nat.leb_le in Hlen. rewrite Hlen in HK. unfold hasK in HK. rewrite H1 in HK.
    apply Nat.leb_le in HK.
    apply keepK_rep_gen with (D := D); auto.
    intros s Hss. apply Hs, in_or_app; auto.
  Qed.

  Lemma rep_keepK_throw es b : bufrep es b -> length es < k -> keepK nthel b = Throw.
  Proof.
    intros HR Hlen. pose proof (rep_hasK HR) as HK.
    destruct (Nat.leb_spec k (length es)); [lia|]. unfold hasK in HK. unfold keepK.
    destruct HR as (H1 & _). rewrite H1 in *. apply Nat.leb_gt in HK.
    destruct (Nat.ltb_spec (bptr b) k); auto; lia.
  Qed.

  Lemma bufrep_perm es es' b : Permutation es es' -> bufrep es b -> bufrep es' b.
  Proof.
    intros HP (H1 & H2 & H3 & Hg & D & HPD & HH). split; auto. split; auto. split; auto.
    split; [intros e He; apply Hg; eapply Permutation_in; [symmetry|]; eauto|].
    exists D. split; auto. rewrite HPD, HP. reflexivity.
  Qed.

  Lemma rep_insert es b e : bufrep es b -> good e ->
    exists b', insert nthel e b = Ok b' /\ bufrep (es ++ [e]) b'.
  Proof.
    intros (H1 & H2 & H3 & Hg & D & HP & Hr & Hs) He.
    set (old := nth (bptr b) (bbuf b) empty).
    set (b1 := mkBuf (bk b) (S (bptr b)) (upd (bptr b) e (bbuf b))).
    assert (Hlen : bptr b < length (bbuf b)) by lia.
    assert (Hbuf : bbuf b1 = firstn (bptr b) (bbuf b) ++ e :: skipn (S (bptr b)) (bbuf b)).
    { unfold b1; cbn [bbuf]. apply upd_app; auto. }
    assert (Hold : bbuf b = firstn (bptr b) (bbuf b) ++ old :: skipn (S (bptr b)) (bbuf b)).
    { apply split_at; auto. }
    assert (Hf : firstn (S (bptr b)) (bbuf b1) = firstn (bptr b) (bbuf b) ++ [e]).
    { rewrite Hbuf. rewrite firstn_app, firstn_length_le by lia.
      replace (S (bptr b) - bptr b) with 1 by lia. rewrite firstn_all2 by (rewrite firstn_length; lia).
      simpl. auto. }
    assert (Hsk : skipn (S (bptr b)) (bbuf b1) = skipn (S (bptr b)) (bbuf b)).
    { rewrite Hbuf at 1. rewrite skipn_app, firstn_length_le by lia.
      replace (S (bptr b) - bptr b) with 1 by lia. rewrite skipn_all2 by (rewrite firstn_length; lia).
      reflexivity. }
    assert (Hskold : skipn (bptr b) (bbuf b) = old :: skipn (S (bptr b)) (bbuf b)).
    { rewrite Hold at 1. rewrite skipn_app, firstn_length_le by lia.
      replace (bptr b - bptr b) with 0 by lia. rewrite skipn_all2 by (rewrite firstn_length; lia).
      reflexivity. }
    assert (Hg' : forall x, In x (es ++ [e]) -> good x).
    { intros x Hx. apply in_app_or in Hx as [Hx|[<-|[]]]; auto. }
    assert (HP1 : Permutation (bbuf b1 ++ old :: D) ((es ++ [e]) ++ repeat empty (2 * k))).
    { rewrite Hbuf. transitivity (e :: bbuf b ++ D).
      - rewrite Hold at 3.
        rewrite <- !app_assoc. cbn [app].
        transitivity (e :: firstn (bptr b) (bbuf b) ++ skipn (S (bptr b)) (bbuf b) ++ old :: D).
        { symmetry. apply Permutation_middle. }
        constructor. apply Permutation_app_head. symmetry. apply Permutation_middle.
      - rewrite HP. rewrite <- app_assoc. cbn [app]. apply Permutation_middle. }
    assert (Hr1 : forall x, In x (firstn (S (bptr b)) (bbuf b1)) -> isReal x = true).
    { rewrite Hf. intros x Hx. apply in_app_or in Hx as [Hx|[<-|[]]]; auto. apply He. }
    assert (Hs1 : forall s, In s (skipn (S (bptr b)) (bbuf b1) ++ old :: D) ->
        s = empty \/ (k <= S (bptr b) /\ forall a, In a (firstn k (bbuf b1)) -> le a s)).
    { rewrite Hsk. intros s Hss.
      assert (Hss' : In s (skipn (bptr b) (bbuf b) ++ D)).
      { rewrite Hskold. rewrite in_app_iff in *. simpl in *. tauto. }
      destruct (Hs s Hss') as [->|[Hkp Hdom]]; auto. right. split; [lia|].
      intros a Ha. apply Hdom. rewrite Hbuf in Ha. rewrite Hold.
      rewrite firstn_app, firstn_length_le in Ha |- * by lia.
      replace (k - bptr b) with 0 in * by lia. auto. }
    unfold insert. destruct (Nat.leb_spec (length (bbuf b)) (bptr b)); [lia|].
    fold b1. assert (HL1 : length (bbuf b1) = 2 * k) by (unfold b1; cbn [bbuf]; rewrite upd_length; auto).
    rewrite HL1. cbn [bptr b1].
    destruct (Nat.leb_spec (2 * k) (S (bptr b))) as [Hfull|Hroom].
    - destruct (@keepK_rep_gen (es ++ [e]) b1 (old :: D)) as (c & b' & E & HR & _); auto.
      + cbn [bptr b1]. lia.
      + intros s Hss. apply Hs1. apply in_or_app; auto.
      + rewrite E. cbn [bind]. eauto.
    - exists b1. split; auto. split; auto. split; auto. split; [cbn [bptr b1]; lia|].
      split; auto. exists (old :: D). auto.
  Qed.

  Lemma rep_insertAll es' : forall es b, bufrep es b -> (forall e, In e es' -> good e) ->
    exists b', insertAll nthel es' b = Ok b' /\ bufrep (es ++ es') b'.
  Proof.
    induction es' as [|e es' IH]; intros es b HR Hg; simpl.
    - rewrite app_nil_r. eauto.
    - destruct (rep_insert HR (Hg e ltac:(simpl; auto))) as (b1 & -> & HR1). cbn [bind].
      destruct (IH (es ++ [e]) b1 HR1) as (b2 & E & HR2); [intros; apply Hg; simpl; auto|].
      rewrite <- app_assoc in HR2. eauto.
  Qed.

  (** Main statement about the buffer. *)
  Lemma buffer_correct es : (forall e, In e es -> good e) ->
    exists b, insertAll nthel es (newBuffer N A k) = Ok b /\
      (length es < k -> keepK nthel b = Throw) /\
      (k <= length es -> exists c b' G, keepK nthel b = Ok (c, b') /\ bptr b' = k /\
         let F := firstn k (bbuf b') in
         length F = k /\ Permutation (F ++ G) es /\ In c F /\
         (forall a, In a F -> le a c) /\ (forall a g, In a F -> In g G -> le a g)).
  Proof.
    intros Hg. destruct (@rep_insertAll es [] _ rep_new Hg) as (b & E & HR). simpl in HR.
    exists b. split; auto. split; [apply rep_keepK_throw; auto|].
    intros Hl. destruct (rep_keepK HR Hl) as (c & b' & E' & _ & Hp & H1 & H2 & H3 & G & H4 & H5 & H6).
    exists c, b', G. split; auto. split; auto.
  Qed.
End BufProofs.

(** The buffer of batchKdtree/shared/knnbuffer.h: same guarantee without the
    bound on the costs, because only inserted elements are selected from. *)
Section CBufProofs.
  Variable N : Num.
  Variable ok : nT N -> Prop.
  Hypothesis OL : OrdLaws N ok.
  Variable A : Type.
  Variable nthel : nat -> list (elem N A) -> list (elem N A).
  Hypothesis Hnth : nth_ok ok nthel.
  Variable k : nat.
  Hypothesis Hk : 1 <= k.

  Notation elem := (elem N A).
  Notation empty := (emptyElem N A).
  Notation le := (@le N A).

  Definition crep (es : list elem) (c : cbuffer N A) : Prop :=
    let b := cb c in
    bk b = k /\ length (bbuf b) = 2 * k /\ bptr b < 2 * k /\
    (forall e, In e es -> ok (fst e)) /\
    (cached c = true -> bptr b = 0 \/
       (bptr b = k /\ forall a, In a (firstn k (bbuf b)) -> le a (nth (k - 1) (bbuf b) empty))) /\
    exists D, Permutation (firstn (bptr b) (bbuf b) ++ D) es /\
      (forall s, In s D -> k <= bptr b /\
         (forall a, In a (firstn k (bbuf b)) -> le a s)).

  Lemma crep_new : crep [] (newCBuffer N A k).
  Proof.
    unfold crep, newCBuffer, newBuffer. cbn [cb bk bptr bbuf cached]. rewrite repeat_length.
    split; auto. split; auto. split; [lia|]. split; [intros e []|]. split; auto.
    exists []. simpl. split; auto. intros s [].
  Qed.

  Lemma crep_hasK es c : crep es c -> hasK (cb c) = (k <=? length es).
  Proof.
    intros (H1 & H2 & H3 & Hg & _ & D & HP & Hs). unfold hasK. rewrite H1.
    apply Permutation_length in HP. rewrite app_length, firstn_length_le in HP by lia.
    destruct (Nat.leb_spec k (bptr (cb c))) as [Hp|Hp].
    - symmetry. apply Nat.leb_le. lia.
    - symmetry. apply Nat.leb_gt. destruct D as [|d D]; [simpl in HP; lia|].
      destruct (Hs d ltac:(simpl; auto)). lia.
  Qed.

  Lemma ckeepK_gen es b D : bk b = k -> length (bbuf b) = 2 * k -> k <= bptr b <= 2 * k ->
    (forall e, In e es -> ok (fst e)) ->
    Permutation (firstn (bptr b) (bbuf b) ++ D) es ->
    (forall s, In s D -> k <= bptr b /\
         (forall a, In a (firstn k (bbuf b)) -> le a s)) ->
    exists c', ckeepK nthel (mkCBuf b false) = Ok (nth (k - 1) (bbuf (cb c')) empty, c') /\
      crep es c' /\ bptr (cb c') = k.
  Proof.
    intros H1 H2 H3 Hg HP Hs.
    unfold ckeepK. cbn [cb cached]. rewrite H1. destruct (Nat.ltb_spec (bptr b) k); [lia|].
    destruct (Nat.eqb_spec k 0); [lia|]. rewrite H2. destruct (Nat.ltb_spec (2 * k) k); [lia|].
    set (pre := firstn (bptr b) (bbuf b)) in *.
    assert (HLp : length pre = bptr b) by (unfold pre; rewrite firstn_length; lia).
    assert (Hpre : forall e, In e pre -> ok (fst e)).
    { intros e He. apply Hg. eapply Permutation_in; [exact HP|]. apply in_or_app; auto. }
    destruct (@Hnth (k - 1) pre) as [HPn Hord]; [lia|auto|].
    set (pre' := nthel (k - 1) pre) in *.
    assert (HLp' : length pre' = bptr b) by (rewrite (Permutation_length HPn); auto).
    set (buf' := pre' ++ skipn (bptr b) (bbuf b)).
    set (F := firstn k pre'). set (T := skipn k pre').
    assert (EFT : pre' = F ++ T) by (symmetry; apply firstn_skipn).
    assert (HLF : length F = k) by (unfold F; rewrite firstn_length; lia).
    assert (EF : firstn k buf' = F).
    { unfold buf'. rewrite firstn_app. replace (k - length pre') with 0 by lia.
      rewrite firstn_O, app_nil_r. reflexivity. }
    set (c := nth (k - 1) buf' empty).
    assert (Hc : nth_error pre' (k - 1) = Some c).
    { unfold c, buf'. rewrite app_nth1 by lia. apply nth_error_nth'. lia. }
    assert (Hpre' : forall e, In e pre' -> ok (fst e)).
    { intros e He. apply Hpre. eapply Permutation_in; eauto. }
    assert (HF : forall a, In a F -> exists i, i < k /\ nth_error pre' i = Some a).
    { intros a Ha. apply In_nth_error in Ha as [i Hi]. exists i.
      assert (i < k) by (rewrite <- HLF; apply nth_error_Some; congruence).
      split; auto. unfold F in Hi. rewrite firstn_nth_error in Hi; auto. }
    assert (HT : forall g, In g T -> exists j, k <= j /\ nth_error pre' j = Some g).
    { intros g Hgg. apply In_nth_error in Hgg as [j Hj]. exists (k + j). split; [lia|].
      unfold T in Hj. rewrite skipn_nth_error in Hj; auto. }
    assert (Hac : forall a, In a F -> le a c).
    { intros a Ha. destruct (HF a Ha) as (i & Hi & Ei). apply (Hord i (k - 1) a c); auto; lia. }
    assert (Hag : forall a g, In a F -> In g T -> le a g).
    { intros a g Ha Hgg. destruct (HF a Ha) as (i & Hi & Ei). destruct (HT g Hgg) as (j & Hj & Ej).
      apply (Hord i j a g); auto; lia. }
    assert (HD : forall s, In s D -> forall a, In a F -> le a s).
    { intros s Hss a Ha. destruct (Hs s Hss) as (_ & Hdom).
      assert (Hoks : ok (fst s)).
      { apply Hg. eapply Permutation_in; [exact HP|]. apply in_or_app; auto. }
      unfold KnnBuf.le. destruct (nlt N (fst s) (fst a)) eqn:E; auto. exfalso.
      set (f := fun e : elem => nlt N (fst e) (fst a)).
      assert (Hoka : ok (fst a)) by (apply Hpre'; rewrite EFT; apply in_or_app; auto).
      assert (f a = true); [|unfold f in *; rewrite (ol_irrefl OL) in *; auto; discriminate].
      apply (pigeon f F T); auto.
      - rewrite HLF, <- EFT, (Permutation_length (Permutation_filter f HPn)).
        rewrite <- (firstn_skipn k pre), filter_app, app_length.
        assert (Epre : firstn k pre = firstn k (bbuf b)).
        { unfold pre. rewrite firstn_firstn. f_equal. lia. }
        rewrite (filter_all f (firstn _ _)); [rewrite firstn_length; lia|].
        intros e He. unfold f.
        assert (Hoke : ok (fst e)) by (apply Hpre; eapply firstn_in; eauto).
        rewrite Epre in He. pose proof (Hdom e He) as Hle. unfold KnnBuf.le in Hle.
        apply (nle_lt_trans OL) with (y := fst s); auto.
        apply (nlt_false_le OL); auto.
      - intros x Hx Ex y Hy. unfold f. apply (Hag a y Ha Hy). }
    exists (mkCBuf (mkBuf k k buf') true). split; [reflexivity|]. split; [|reflexivity].
    unfold crep. cbn [cb bk bptr bbuf cached]. split; auto. split.
    { unfold buf'. rewrite app_length, HLp', skipn_length. lia. }
    split; [lia|]. split; auto. rewrite EF. split; [intros _; right; split; auto|].
    exists (T ++ D). split.
    - rewrite app_assoc, <- EFT, HPn. exact HP.
    - intros s Hss. split; [lia|]. intros a Ha. apply in_app_or in Hss as [Hss|Hss]; auto.
  Qed.

  Lemma crep_keepK es c : crep es c -> k <= length es ->
    exists c', ckeepK nthel c = Ok (nth (k - 1) (bbuf (cb c')) empty, c') /\
      crep es c' /\ bptr (cb c') = k.
  Proof.
    intros HR Hlen. pose proof (crep_hasK HR) as HK.
    assert (HR0 := HR). destruct HR as (H1 & H2 & H3 & Hg & Hc & D & HP & Hs).
    apply Nat.leb_le in Hlen. rewrite Hlen in HK. unfold hasK in HK. rewrite H1 in HK.
    apply Nat.leb_le in HK. destruct c as [b []]; cbn [cb cached] in *.
    - destruct (Hc eq_refl) as [Hz|[Hp Hle]]; [lia|].
      exists (mkCBuf b true). split; [|split; auto].
      unfold ckeepK. cbn [cb cached]. rewrite H1, Hp, H2.
      destruct (Nat.ltb_spec k k); [lia|]. destruct (Nat.eqb_spec k 0); [lia|].
      destruct (Nat.ltb_spec (2 * k) k); [lia|]. reflexivity.
    - apply ckeepK_gen with (D := D); auto. lia.
  Qed.

  Lemma crep_keepK_throw es c : crep es c -> length es < k -> ckeepK nthel c = Throw.
  Proof.
    intros HR Hlen. pose proof (crep_hasK HR) as HK.
    destruct (Nat.leb_spec k (length es)); [lia|]. unfold hasK in HK. unfold ckeepK.
    destruct HR as (H1 & _). rewrite H1 in *. apply Nat.leb_gt in HK.
    destruct (Nat.ltb_spec (bptr (cb c)) k); auto; lia.
  Qed.

  Lemma crep_insert es c e : crep es c -> ok (fst e) ->
    exists c', cinsert nthel e c = Ok c' /\ crep (es ++ [e]) c'.
  Proof.
    intros (H1 & H2 & H3 & Hg & _ & D & HP & Hs) He.
    destruct c as [b h]; cbn [cb] in *.
    set (b1 := mkBuf (bk b) (S (bptr b)) (upd (bptr b) e (bbuf b))).
    assert (Hlen : bptr b < length (bbuf b)) by lia.
    assert (Hbuf : bbuf b1 = firstn (bptr b) (bbuf b) ++ e :: skipn (S (bptr b)) (bbuf b)).
    { unfold b1; cbn [bbuf]. apply upd_app; auto. }
    assert (Hf : firstn (S (bptr b)) (bbuf b1) = firstn (bptr b) (bbuf b) ++ [e]).
    { rewrite Hbuf. rewrite firstn_app, firstn_length_le by lia.
      replace (S (bptr b) - bptr b) with 1 by lia. rewrite firstn_all2 by (rewrite firstn_length; lia).
      simpl. auto. }
    assert (Hg' : forall x, In x (es ++ [e]) -> ok (fst x)).
    { intros x Hx. apply in_app_or in Hx as [Hx|[<-|[]]]; auto. }
    assert (HP1 : Permutation (firstn (S (bptr b)) (bbuf b1) ++ D) (es ++ [e])).
    { rewrite Hf, <- app_assoc. cbn [app]. rewrite <- HP, <- app_assoc.
      apply Permutation_app_head. change (e :: D) with ([e] ++ D). apply Permutation_app_comm. }
    assert (Hs1 : forall s, In s D -> k <= S (bptr b) /\
        (forall a, In a (firstn k (bbuf b1)) -> le a s)).
    { intros s Hss. destruct (Hs s Hss) as (Hkp & Hdom). split; [lia|].
      intros a Ha. apply Hdom. rewrite Hbuf in Ha.
      rewrite firstn_app, firstn_length_le in Ha by lia.
      replace (k - bptr b) with 0 in * by lia. rewrite firstn_O, app_nil_r, firstn_firstn in Ha.
      replace (Nat.min k (bptr b)) with k in Ha by lia. auto. }
    unfold cinsert. cbv zeta. cbn [cb]. destruct (Nat.leb_spec (length (bbuf b)) (bptr b)); [lia|].
    change (mkBuf (bk b) (S (bptr b)) (upd (bptr b) e (bbuf b))) with b1. assert (HL1 : length (bbuf b1) = 2 * k) by (unfold b1; cbn [bbuf]; rewrite upd_length; auto).
    rewrite HL1. cbn [bptr b1].
    destruct (Nat.leb_spec (2 * k) (S (bptr b))) as [Hfull|Hroom].
    - destruct (@ckeepK_gen (es ++ [e]) b1 D) as (c' & E & HR & _); auto.
      + cbn [bptr b1]. lia.
      + rewrite E. cbn [bind]. eauto.
    - exists (mkCBuf b1 false). split; auto. unfold crep. cbn [cb cached].
      split; auto. split; auto. split; [cbn [bptr b1]; lia|].
      split; auto. split; [discriminate|]. exists D. auto.
  Qed.

  Lemma crep_insertAll es' : forall es c, crep es c -> (forall e, In e es' -> ok (fst e)) ->
    exists c', cinsertAll nthel es' c = Ok c' /\ crep (es ++ es') c'.
  Proof.
    induction es' as [|e es' IH]; intros es c HR Hg; simpl.
    - rewrite app_nil_r. eauto.
    - destruct (crep_insert e HR (Hg e ltac:(simpl; auto))) as (b1 & -> & HR1). cbn [bind].
      destruct (IH (es ++ [e]) b1 HR1) as (b2 & E & HR2); [intros; apply Hg; simpl; auto|].
      rewrite <- app_assoc in HR2. eauto.
  Qed.

  (** What the kept prefix is, once [ptr = k]. *)
  Lemma crep_topk es c : crep es c -> bptr (cb c) = k ->
    let F := firstn k (bbuf (cb c)) in
    length F = k /\ exists G, Permutation (F ++ G) es /\
      (forall a g, In a F -> In g G -> le a g).
  Proof.
    intros (H1 & H2 & H3 & Hg & Hc & D & HP & Hs) Hp. rewrite Hp in *. split.
    - rewrite firstn_length. lia.
    - exists D. split; auto. intros a g Ha Hgg. apply (Hs g Hgg); auto.
  Qed.

  Lemma cbuffer_correct es : (forall e, In e es -> ok (fst e)) ->
    exists c, cinsertAll nthel es (newCBuffer N A k) = Ok c /\
      (length es < k -> ckeepK nthel c = Throw) /\
      (k <= length es -> exists m c' G, ckeepK nthel c = Ok (m, c') /\ bptr (cb c') = k /\
         let F := firstn k (bbuf (cb c')) in
         length F = k /\ Permutation (F ++ G) es /\ m = nth (k - 1) F empty /\
         (forall a g, In a F -> In g G -> le a g)).
  Proof.
    intros Hg. destruct (@crep_insertAll es [] _ crep_new Hg) as (c & E & HR). simpl in HR.
    exists c. split; auto. split; [apply crep_keepK_throw; auto|].
    intros Hl. destruct (crep_keepK HR Hl) as (c' & E' & HR' & Hp).
    destruct (crep_topk HR' Hp) as (HL & G & H4 & H5).
    exists (nth (k - 1) (bbuf (cb c')) empty), c', G.
    split; auto. split; auto. cbv zeta. split; auto. split; auto. split; auto.
    rewrite <- (firstn_skipn k (bbuf (cb c'))) at 1. rewrite app_nth1; auto. lia.
  Qed.
End CBufProofs.
