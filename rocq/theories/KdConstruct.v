(** The construction theorem and the node-pool layout. *)
From Verif Require Import Base Num KdModel KdSpec KdBuild.
Set Implicit Arguments.

Section Structure.
  Variable N : Num.
  Variable dim : nat.
  Variable A : Type.
  Variable pt : A -> list (nT N).

  (** What holds for every number type, without any law. *)
  Definition struct_post (leafSize : nat) (its : list A) (r : res (tree N A)) : Prop :=
    match r with
    | Ok t => Permutation (items t) its /\ shape leafSize t
    | UB => True                  (* no dimension with span > -1: NaN only *)
    | Throw | Fuel => False
    end.

  Lemma shape_leaf_children leafSize (b : box N) (l r : tree N A) (its : list A) m its' :
    leafSize < length its ->
    Permutation its' its ->
    struct_post leafSize (firstn m its') (Ok l) ->
    struct_post leafSize (skipn m its') (Ok r) ->
    struct_post leafSize its (Ok (Node b l r)).
  Proof.
    intros Hlen HP [HPl Hl] [HPr Hr]. simpl.
    assert (HP2 : Permutation (items l ++ items r) its).
    { rewrite HPl, HPr, firstn_skipn; auto. }
    split; auto. split; auto.
    rewrite <- app_length. rewrite (Permutation_length HP2). auto.
  Qed.

  Lemma fallback_bounds (m0 n half : nat) : m0 <= n -> 0 < half < n ->
    0 < (if (m0 =? 0) || (m0 =? n) then half else m0) < n.
  Proof.
    intros H1 H2. destruct (Nat.eqb_spec m0 0); simpl; auto.
    destruct (Nat.eqb_spec m0 n); simpl; auto. lia.
  Qed.

  Lemma half_up_bounds n : 2 <= n -> 0 < (n + 1) / 2 < n.
  Proof.
    intros H. split; [apply Nat.div_str_pos; lia|apply Nat.div_lt_upper_bound; lia].
  Qed.
  Lemma half_down_bounds n : 2 <= n -> 0 < n / 2 < n.
  Proof.
    intros H. split; [apply Nat.div_str_pos; lia|apply Nat.div_lt; lia].
  Qed.

  Lemma firstn_ne (l : list A) m : 0 < m < length l -> firstn m l <> [] /\ skipn m l <> [] /\
    length (firstn m l) < length l /\ length (skipn m l) < length l.
  Proof.
    intros H. assert (length (firstn m l) = m) by (rewrite firstn_length; lia).
    assert (length (skipn m l) = length l - m) by (rewrite skipn_length; lia).
    split; [intros E; rewrite E in *; simpl in *; lia|].
    split; [intros E; rewrite E in *; simpl in *; lia|]. lia.
  Qed.

  Lemma constructSerial_struct leafSize : 1 <= leafSize ->
    forall fuel its, its <> [] -> length its < fuel ->
    struct_post leafSize its (constructSerial N dim A pt fuel leafSize its).
  Proof.
    intros HLS. induction fuel as [|f IH]; intros its Hne Hf; [lia|].
    cbn [constructSerial].
    assert (Hb : exists b, boundingBoxSerial N dim A pt its = Ok b).
    { destruct its; [congruence|]. eexists; reflexivity. }
    destruct Hb as [b ->]. cbn [bind].
    destruct (Nat.leb_spec (length its) leafSize) as [Hle|Hgt].
    - simpl. split; auto. split; auto. destruct its; simpl; [congruence|lia].
    - destruct (findWidest N dim b) as [k|]; [|exact I].
      set (xM := ndiv N _ _).
      destruct (@splitItemSerial_spec N A pt k xM its) as (its' & m0 & -> & HP & Hm0); [lia|].
      cbn [bind].
      set (m := if (m0 =? 0) || (m0 =? length its) then _ else m0).
      assert (Hm : 0 < m < length its).
      { apply fallback_bounds; auto. apply half_up_bounds; lia. }
      assert (Hlen : length its' = length its) by (apply Permutation_length; auto).
      destruct (@firstn_ne its' m) as (H1 & H2 & H3 & H4); [lia|].
      pose proof (IH (firstn m its') H1 ltac:(lia)) as Hl.
      pose proof (IH (skipn m its') H2 ltac:(lia)) as Hr.
      destruct (constructSerial N dim A pt f leafSize (firstn m its')) as [l| | |]; try contradiction; [|exact I].
      cbn [bind].
      destruct (constructSerial N dim A pt f leafSize (skipn m its')) as [r| | |]; try contradiction; [|exact I].
      cbn [bind]. eapply shape_leaf_children; eauto.
  Qed.

  Lemma constructParallel_struct leafSize workers threshold : 1 <= leafSize -> 0 < workers ->
    forall fuel its, its <> [] -> length its < fuel ->
    struct_post leafSize its (constructParallel N dim A pt fuel workers threshold leafSize its).
  Proof.
    intros HLS HW. induction fuel as [|f IH]; intros its Hne Hf; [lia|].
    cbn [constructParallel].
    assert (Hb : exists b, boundingBoxParallel N dim A pt workers its = Ok b).
    { destruct its; [congruence|]. unfold boundingBoxParallel.
      destruct (Nat.eqb_spec (workers * 8) 0); [lia|]. eexists; reflexivity. }
    destruct Hb as [b ->]. cbn [bind].
    destruct (Nat.leb_spec (length its) leafSize) as [Hle|Hgt].
    - simpl. split; auto. split; auto. destruct its; simpl; [congruence|lia].
    - destruct (findWidest N dim b) as [k|]; [|exact I].
      set (xM := ndiv N _ _). set (fl := fun x => nlt N _ _).
      pose proof (splitFlags_perm fl its) as HP.
      pose proof (splitFlags_count fl its) as Hm0.
      destruct (splitFlags A fl its) as [its' m0]. simpl in HP, Hm0.
      set (m := if (m0 =? 0) || (m0 =? length its) then _ else m0).
      assert (Hm : 0 < m < length its).
      { apply fallback_bounds; auto. apply half_down_bounds; lia. }
      assert (Hlen : length its' = length its) by (apply Permutation_length; auto).
      destruct (@firstn_ne its' m) as (H1 & H2 & H3 & H4); [lia|].
      assert (Hc : forall c, c <> [] -> length c < length its ->
        struct_post leafSize c (if threshold <? length c
             then constructParallel N dim A pt f workers threshold leafSize c
             else constructSerial N dim A pt (S (length c)) leafSize c)).
      { intros c Hc1 Hc2. destruct (threshold <? length c).
        - apply IH; auto; lia. - apply constructSerial_struct; auto. }
      pose proof (Hc (firstn m its') H1 ltac:(lia)) as Hl.
      pose proof (Hc (skipn m its') H2 ltac:(lia)) as Hr.
      match type of Hl with struct_post _ _ ?e => destruct e as [l| | |] end;
        try contradiction; [|exact I].
      cbn [bind].
      match type of Hr with struct_post _ _ ?e => destruct e as [r| | |] end;
        try contradiction; [|exact I].
      cbn [bind]. eapply shape_leaf_children; eauto.
  Qed.

  Lemma build_struct parallel workers threshold leafSize P :
    1 <= leafSize -> 0 < workers -> P <> [] ->
    struct_post leafSize P (build N dim A pt parallel workers threshold leafSize P).
  Proof.
    intros HL HW HP. unfold build.
    destruct (Nat.eqb_spec (length P) 0); [destruct P; simpl in *; [congruence|lia]|].
    destruct (parallel && _).
    - apply constructParallel_struct; auto.
    - apply constructSerial_struct; auto.
  Qed.

  (** ** Node pool *)
  Lemma slots_spec leafSize (t : tree N A) : shape leafSize t -> forall sp,
    NoDup (slots t sp) /\ (forall s, In s (slots t sp) -> sp <= s < sp + 2 * size t - 2) /\
    S (length (slots t sp)) = length (subtrees t) /\ 1 <= size t.
  Proof.
    unfold size. induction t as [its b|b l IHl r IHr]; simpl; intros Hs sp.
    - split; [constructor|]. split; [tauto|]. split; auto. lia.
    - destruct Hs as (_ & Hl & Hr).
      destruct (IHl Hl (sp + 1)) as (Nl & Bl & Ll & Sl).
      destruct (IHr Hr (sp + 2 * size l)) as (Nr & Br & Lr & Sr).
      unfold size in *. rewrite app_length.
      set (nl := length (items l)) in *. set (nr := length (items r)) in *.
      split; [|split; [|split]].
      + constructor.
        * rewrite in_app_iff. simpl. intros [H|[H|H]].
          -- apply Bl in H; lia. -- lia. -- apply Br in H; lia.
        * apply NoDup_app_intro; auto.
          -- constructor; auto. intros H. apply Br in H; lia.
          -- intros x H1 H2. apply Bl in H1. destruct H2 as [H2|H2]; [lia|].
             apply Br in H2. lia.
      + intros s [H|H]; [lia|]. rewrite in_app_iff in H. destruct H as [H|H].
        * apply Bl in H; lia.
        * destruct H as [H|H]; [lia|]. apply Br in H; lia.
      + rewrite !app_length in *. simpl in *. lia.
      + lia.
  Qed.
End Structure.

Section WithLaws.
  Variable N : Num.
  Variable ok : nT N -> Prop.
  Hypothesis OL : OrdLaws N ok.
  Hypothesis SL : SpanLaw N ok.
  Variable dim : nat.
  Hypothesis Hdim : 1 <= dim.
  Variable A : Type.
  Variable pt : A -> list (nT N).

  Definition tight_post (its : list A) (r : res (tree N A)) : Prop :=
    exists t, r = Ok t /\ Permutation (items t) its /\
      forall s, In s (subtrees t) -> tight dim pt (tbox s) (items s).

  Lemma okpts_perm (l l' : list A) : Permutation l l' -> okpts ok dim pt l -> okpts ok dim pt l'.
  Proof. intros HP H x Hx. apply H. eapply Permutation_in; [symmetry|]; eauto. Qed.

  Lemma tight_node b its its' m (rl rr : res (tree N A)) :
    tight dim pt b its -> Permutation its' its ->
    tight_post (firstn m its') rl -> tight_post (skipn m its') rr ->
    tight_post its (l <- rl ;; r <- rr ;; Ok (Node b l r)).
  Proof.
    intros Hb HP (l & -> & HPl & Hl) (r & -> & HPr & Hr).
    exists (Node b l r). cbn [bind]. split; auto.
    assert (HP2 : Permutation (items l ++ items r) its).
    { rewrite HPl, HPr, firstn_skipn; auto. }
    split; auto. intros s Hs. simpl in Hs. destruct Hs as [<-|Hs].
    - simpl. eapply tight_perm; [symmetry|]; eauto.
    - apply in_app_or in Hs as [Hs|Hs]; auto.
  Qed.

  Lemma widest_ok b its : its <> [] -> okpts ok dim pt its -> tight dim pt b its ->
    exists k, findWidest N dim b = Some k /\ k < dim.
  Proof.
    intros Hne Hok Hb. apply findWidest_some. exists 0. split; [lia|].
    destruct (tight_ok OL Hok Hb (d := 0)) as (H1 & H2 & H3); [lia|].
    apply SL; auto.
  Qed.

  Lemma constructSerial_tight leafSize : 1 <= leafSize ->
    forall fuel its, its <> [] -> length its < fuel -> okpts ok dim pt its ->
    tight_post its (constructSerial N dim A pt fuel leafSize its).
  Proof.
    intros HLS. induction fuel as [|f IH]; intros its Hne Hf Hok; [lia|].
    cbn [constructSerial].
    destruct (boundingBoxSerial_tight OL Hne Hok) as (b & -> & Hb).
    cbn [bind].
    destruct (Nat.leb_spec (length its) leafSize) as [Hle|Hgt].
    - exists (Leaf its b). split; auto. split; auto. simpl. intros s [<-|[]]. auto.
    - destruct (widest_ok Hne Hok Hb) as (k & -> & Hk).
      set (xM := ndiv N _ _).
      destruct (@splitItemSerial_spec N A pt k xM its) as (its' & m0 & -> & HP & Hm0); [lia|].
      cbn [bind].
      set (m := if (m0 =? 0) || (m0 =? length its) then _ else m0).
      assert (Hm : 0 < m < length its).
      { apply fallback_bounds; auto. apply half_up_bounds; lia. }
      assert (Hlen : length its' = length its) by (apply Permutation_length; auto).
      destruct (@firstn_ne A its' m) as (H1 & H2 & H3 & H4); [lia|].
      assert (Hok' : okpts ok dim pt its') by (eapply okpts_perm; [symmetry|]; eauto).
      eapply tight_node; eauto; apply IH; auto; try lia.
      + intros x Hx. apply Hok'. rewrite <- (firstn_skipn m its'). apply in_or_app; auto.
      + intros x Hx. apply Hok'. rewrite <- (firstn_skipn m its'). apply in_or_app; auto.
  Qed.

  Lemma constructParallel_tight leafSize workers threshold : 1 <= leafSize -> 0 < workers ->
    forall fuel its, its <> [] -> length its < fuel -> okpts ok dim pt its ->
    tight_post its (constructParallel N dim A pt fuel workers threshold leafSize its).
  Proof.
    intros HLS HW. induction fuel as [|f IH]; intros its Hne Hf Hok; [lia|].
    cbn [constructParallel].
    destruct (boundingBoxParallel_tight OL HW Hne Hok) as (b & -> & Hb).
    cbn [bind].
    destruct (Nat.leb_spec (length its) leafSize) as [Hle|Hgt].
    - exists (Leaf its b). split; auto. split; auto. simpl. intros s [<-|[]]. auto.
    - destruct (widest_ok Hne Hok Hb) as (k & -> & Hk).
      set (xM := ndiv N _ _). set (fl := fun x => nlt N _ _).
      pose proof (splitFlags_perm fl its) as HP.
      pose proof (splitFlags_count fl its) as Hm0.
      destruct (splitFlags A fl its) as [its' m0]. simpl in HP, Hm0.
      set (m := if (m0 =? 0) || (m0 =? length its) then _ else m0).
      assert (Hm : 0 < m < length its).
      { apply fallback_bounds; auto. apply half_down_bounds; lia. }
      assert (Hlen : length its' = length its) by (apply Permutation_length; auto).
      destruct (@firstn_ne A its' m) as (H1 & H2 & H3 & H4); [lia|].
      assert (Hok' : okpts ok dim pt its') by (eapply okpts_perm; [symmetry|]; eauto).
      eapply tight_node; eauto.
      + assert (okpts ok dim pt (firstn m its')).
        { intros x Hx. apply Hok'. rewrite <- (firstn_skipn m its'). apply in_or_app; auto. }
        destruct (threshold <? _); [apply IH; auto; lia|apply constructSerial_tight; auto].
      + assert (okpts ok dim pt (skipn m its')).
        { intros x Hx. apply Hok'. rewrite <- (firstn_skipn m its'). apply in_or_app; auto. }
        destruct (threshold <? _); [apply IH; auto; lia|apply constructSerial_tight; auto].
  Qed.

  Lemma build_tight parallel workers threshold leafSize P :
    1 <= leafSize -> 0 < workers -> P <> [] -> okpts ok dim pt P ->
    tight_post P (build N dim A pt parallel workers threshold leafSize P).
  Proof.
    intros HL HW HP Hok. unfold build.
    destruct (Nat.eqb_spec (length P) 0); [destruct P; simpl in *; [congruence|lia]|].
    destruct (parallel && _).
    - apply constructParallel_tight; auto.
    - apply constructSerial_tight; auto.
  Qed.

  Lemma build_all parallel workers threshold leafSize P :
    1 <= leafSize -> 0 < workers -> P <> [] -> okpts ok dim pt P ->
    exists t, build N dim A pt parallel workers threshold leafSize P = Ok t /\
      Permutation (items t) P /\ shape leafSize t /\
      (forall s, In s (subtrees t) -> tight dim pt (tbox s) (items s)).
  Proof.
    intros HL HW HP Hok.
    destruct (build_tight parallel threshold HL HW HP Hok) as (t & E & H1 & H2).
    exists t. split; auto. split; auto. split; auto.
    pose proof (@build_struct N dim A pt parallel workers threshold leafSize P HL HW HP) as H.
    rewrite E in H. apply H.
  Qed.
End WithLaws.
