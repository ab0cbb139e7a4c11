(** Running the tasks of an insertion into the forest, in any order. *)
From Coq Require Import ZArith.
From Verif Require Import Base Num KdModel KdSpec RangeModel RangeProofs BatchModel BatchSlice BatchTree BatchMedian BatchPack BatchErase BatchObj BatchRun
  LogModel LogPlan.
Set Implicit Arguments.

Section Lists.
  Lemma flat_map_app2 X Y (f g : X -> list Y) l :
    Permutation (flat_map (fun x => f x ++ g x) l) (flat_map f l ++ flat_map g l).
  Proof.
    induction l as [|x l IH]; cbn; auto. rewrite IH. rewrite <- !app_assoc. apply Permutation_app_head.
    apply Permutation_app_swap_app.
  Qed.
  Lemma flat_map_if X Y (c : X -> bool) (P : list Y) l :
    flat_map (fun x => if c x then P else []) l = concat (repeat P (length (filter c l))).
  Proof. induction l as [|x l IH]; cbn; auto. rewrite IH. destruct (c x); reflexivity. Qed.
  Lemma flat_map_flat_map X Y Z (f : Y -> list Z) (g : X -> list Y) l :
    flat_map f (flat_map g l) = flat_map (fun x => flat_map f (g x)) l.
  Proof. induction l as [|x l IH]; cbn; auto. rewrite flat_map_app, IH. reflexivity. Qed.
  Lemma flat_map_ext_in X Y (f g : X -> list Y) l : (forall x, In x l -> f x = g x) -> flat_map f l = flat_map g l.
  Proof.
    induction l as [|x l IH]; intros H; cbn; auto. rewrite (H x) by (left; auto). f_equal.
    apply IH. intros y Hy. apply H. right. auto.
  Qed.
  Lemma flat_map_perm_in X Y (f g : X -> list Y) l : (forall x, In x l -> Permutation (f x) (g x)) ->
    Permutation (flat_map f l) (flat_map g l).
  Proof.
    induction l as [|x l IH]; intros H; cbn; auto. apply Permutation_app.
    - apply H. left. auto.
    - apply IH. intros y Hy. apply H. right. auto.
  Qed.
  (** Pull a duplicate-free list of indices to the front. *)
  Lemma seq_front F n : NoDup F -> (forall k, In k F -> k < n) ->
    exists rest, Permutation (seq 0 n) (F ++ rest) /\ forall k, In k rest -> k < n /\ ~ In k F.
  Proof.
    intros ND Hlt. exists (filter (fun k => negb (existsb (Nat.eqb k) F)) (seq 0 n)).
    assert (EX : forall k, existsb (Nat.eqb k) F = true <-> In k F).
    { intros k. rewrite existsb_exists. split; [intros (y & Hy & E); apply Nat.eqb_eq in E; subst; auto|].
      intros H. exists k. split; auto. apply Nat.eqb_refl. }
    assert (HR : forall k, In k (filter (fun k => negb (existsb (Nat.eqb k) F)) (seq 0 n)) <-> k < n /\ ~ In k F).
    { intros k. rewrite filter_In, in_seq, negb_true_iff. rewrite <- EX.
      destruct (existsb (Nat.eqb k) F); split; intros [H1 H2]; split; try lia; try congruence. }
    split; [|intros k Hk; apply HR; auto].
    apply NoDup_Permutation.
    - apply seq_NoDup.
    - apply NoDup_app_intro; auto; [apply NoDup_filter, seq_NoDup|].
      intros x Hx Hy. apply HR in Hy. tauto.
    - intros k. rewrite in_app_iff, HR, in_seq. split.
      + intros H. destruct (existsb (Nat.eqb k) F) eqn:E; [left; apply EX; auto|].
        right. split; [lia|]. rewrite <- EX. congruence.
      + intros [H | H]; [apply Hlt in H; lia|lia].
  Qed.
  Lemma flat_map_seq X Y (f : X -> list Y) l :
    flat_map f l = flat_map (fun k => match nth_error l k with Some x => f x | None => [] end) (seq 0 (length l)).
  Proof.
    induction l as [|x l IH] using rev_ind; auto.
    rewrite app_length, seq_app, !flat_map_app. cbn [length seq flat_map Nat.add]. rewrite IH at 1.
    rewrite nth_error_app2, Nat.sub_diag by lia. cbn. f_equal.
    apply flat_map_ext_in. intros k Hk. apply in_seq in Hk. rewrite nth_error_app1 by lia. reflexivity.
  Qed.
End Lists.

Section Exec.
  Variable N : Num.
  Variable ok : nT N -> Prop.
  Variable dim : nat.
  Variable A : Type.
  Variable pt : A -> list (nT N).
  Notation okI := (okItem N ok dim pt).
  Notation tOk := (treeOk ok dim pt).
  Variable dflt : A.
  Variables bbuild sbuild : btree N A -> list A -> res (btree N A).
  Variable B : nat.
  Variable smax : nat.
  Hypothesis Hsb : buildSpec ok dim pt smax sbuild (pre false).

  Notation trees := (list (btree N A)).
  Definition liveAt (T : trees) (k : nat) : list A :=
    match nth_error T k with Some b => blive b | None => [] end.

  Lemma gatherTrees_ok : forall ks (T : trees), NoDup ks ->
    (forall k, In k ks -> exists b, nth_error T k = Some b /\ tOk b) ->
    exists T', gatherTrees dflt ks T = Ok (flat_map (liveAt T) ks, T') /\ length T' = length T /\
      (forall k, ~ In k ks -> nth_error T' k = nth_error T k) /\
      (forall k b, In k ks -> nth_error T k = Some b -> nth_error T' k = Some (bclear b)).
  Proof.
    induction ks as [|k ks IH]; intros T ND H.
    - exists T. cbn. split; auto. split; auto. split; auto. intros k b [].
    - cbn [gatherTrees flat_map]. destruct (H k (or_introl eq_refl)) as (b & Hb & Tb). rewrite Hb.
      rewrite (moveElements_ok dflt Tb). cbn [bind].
      inversion ND as [|? ? NI ND']; subst.
      assert (Hk : k < length T) by (apply nth_error_Some; congruence).
      assert (SAME : forall j, In j ks -> nth_error (upd k (bclear b) T) j = nth_error T j).
      { intros j Hj. apply nth_error_upd_neq. intros ->. contradiction. }
      destruct (IH (upd k (bclear b) T) ND') as (T' & E & L & H1 & H2).
      { intros j Hj. rewrite (SAME j Hj). apply H. right. auto. }
      rewrite E. cbn [bind]. exists T'. split; [|split; [|split]].
      + unfold liveAt at 2. rewrite Hb. f_equal. f_equal. f_equal. apply flat_map_ext_in.
        intros j Hj. unfold liveAt. rewrite (SAME j Hj). reflexivity.
      + rewrite L, upd_length. reflexivity.
      + intros j Hj. rewrite H1 by (intros G; apply Hj; right; auto).
        apply nth_error_upd_neq. intros ->. apply Hj. left. auto.
      + intros j b' [<- | Hj] Hb'.
        * rewrite (H1 k NI). rewrite nth_error_upd_eq by auto. congruence.
        * apply H2; auto. rewrite (SAME j Hj). auto.
  Qed.

  (** The effect of one move, on the trees [T] before and [T'] after. *)
  Variable points : list A.
  Variable bufPts : list A.
  Definition newItems (m : move) (T : trees) : list A :=
    flat_map (liveAt T) (mv_trees m) ++ slice (mv_s m) (mv_e m) points ++ (if mv_buf m then bufPts else []).
  Definition newOk (m : move) (T : trees) (b b' : btree N A) : Prop :=
    tOk b' /\ fresh b' /\ bt_cap b' = bt_cap b /\ Permutation (newItems m T) (blive b') /\
    (tieFree N dim pt (newItems m T) -> treeSep pt b').
  Definition moveDone (m : move) (T T' : trees) : Prop :=
    (forall k, In k (mv_trees m) -> exists b, nth_error T k = Some b /\ tOk b /\ nth_error T' k = Some (bclear b)) /\
    exists b b', nth_error T (mv_new m) = Some b /\ nth_error T' (mv_new m) = Some b' /\ newOk m T b b'.

  Definition moveReady (m : move) (T : trees) : Prop :=
    (forall k, In k (mv_trees m) -> exists b, nth_error T k = Some b /\ tOk b) /\
    (exists b, nth_error T (mv_new m) = Some b /\ tOk b /\ fresh b /\ bt_cur b = 0 /\
       length (newItems m T) <= bt_cap b /\ bt_cap b <= smax) /\
    (forall x, In x (newItems m T) -> okI x).

  Lemma runTask_move m rem (b : btree N A) T : NoDup (feet m) -> moveReady m T ->
    exists T', runTask dflt bbuild sbuild points rem bufPts (b, T) (Some m) = Ok (b, T') /\
      length T' = length T /\ (forall k, ~ In k (feet m) -> nth_error T' k = nth_error T k) /\ moveDone m T T'.
  Proof.
    intros ND (R1 & (bn & Hbn & Tn & Fn & Cn & Ln & Mn) & R3). inversion ND as [|? ? NI ND']; subst.
    cbn [runTask fst snd]. destruct (@gatherTrees_ok (mv_trees m) T ND' R1) as (T1 & -> & L1 & G1 & G2).
    cbn [bind]. rewrite (G1 _ NI), Hbn. fold (newItems m T).
    destruct (@Hsb bn (newItems m T)) as (b' & E & B1 & B2 & B3 & _ & B5 & B6);
      try apply Tn; auto; [lia|intros G; discriminate|].
    rewrite E. cbn [bind]. exists (upd (mv_new m) b' T1). split; auto.
    assert (Hlt : mv_new m < length T1) by (rewrite L1; apply nth_error_Some; congruence).
    split; [rewrite upd_length; auto|]. split; [|split].
    - intros k Hk. rewrite nth_error_upd_neq by (intros G; apply Hk; left; auto). apply G1.
      intros G. apply Hk. right. auto.
    - intros k Hk. destruct (R1 k Hk) as (bk & Hbk & Tk). exists bk. split; auto. split; auto.
      rewrite nth_error_upd_neq by (intros G; rewrite G in NI; contradiction). apply G2; auto.
    - exists bn, b'. split; auto. split; [apply nth_error_upd_eq; auto|]. repeat split; auto; apply B1.
  Qed.

  Lemma newItems_same m T T' : (forall k, In k (feet m) -> nth_error T' k = nth_error T k) ->
    newItems m T' = newItems m T.
  Proof.
    intros H. unfold newItems. f_equal. apply flat_map_ext_in. intros k Hk. unfold liveAt. rewrite H; auto. right. auto.
  Qed.
  Lemma moveReady_same m T T' : (forall k, In k (feet m) -> nth_error T' k = nth_error T k) ->
    moveReady m T -> moveReady m T'.
  Proof.
    intros H (R1 & R2 & R3). unfold moveReady. rewrite (@newItems_same m T T' H). split; [|split; auto].
    - intros k Hk. rewrite H by (right; auto). auto.
    - rewrite H by (left; auto). auto.
  Qed.

  Definition feetO (t : option move) : list nat := match t with None => [] | Some m => feet m end.
  Definition isFill (t : option move) : bool := match t with None => true | _ => false end.

  (** All tasks; [bufF] is what filling the buffer gives. *)
  Theorem runTasks_ok rem (buf bufF : btree N A) :
    binsert dflt bbuild buf (firstn rem points) = Ok bufF ->
    forall ts T b, NoDup (flat_map feetO ts) -> (forall m, In (Some m) ts -> moveReady m T) ->
    length (filter isFill ts) <= 1 -> (In None ts -> b = buf) ->
    exists T', runTasks dflt bbuild sbuild points rem bufPts (b, T) ts = Ok (if existsb isFill ts then bufF else b, T') /\
      length T' = length T /\
      (forall k, ~ In k (flat_map feetO ts) -> nth_error T' k = nth_error T k) /\
      (forall m, In (Some m) ts -> moveDone m T T').
  Proof.
    intros HF. induction ts as [|t ts IH]; intros T b ND R C Hb.
    - exists T. cbn. split; auto. split; auto. split; auto. intros m [].
    - cbn [flat_map] in ND. apply NoDup_app_elim in ND as (ND1 & ND2 & DJ). cbn [runTasks].
      destruct t as [m|].
      + destruct (@runTask_move m rem b T ND1 (R m (or_introl eq_refl))) as (T1 & -> & L1 & G1 & D1).
        cbn [bind]. cbn [feetO] in *.
        assert (SAME : forall m', In (Some m') ts -> forall k, In k (feet m') -> nth_error T1 k = nth_error T k).
        { intros m' Hm k Hk. apply G1. intros Hk'. apply (DJ k Hk'). apply in_flat_map. exists (Some m'). auto. }
        destruct (IH T1 b ND2) as (T' & E & L & G & D'); auto.
        { intros m' Hm. eapply moveReady_same; [apply SAME; auto|]. apply R. right. auto. }
        { intros Hn. apply Hb. right. auto. }
        exists T'. cbn [existsb isFill orb]. split; auto. split; [congruence|]. split.
        * intros k Hk. cbn [flat_map feetO] in Hk. rewrite in_app_iff in Hk. rewrite G by tauto. apply G1. tauto.
        * intros m' [E' | Hm].
          -- injection E' as <-. destruct D1 as [A1 (bn & b' & A2 & A3 & A4)].
             assert (KEEP : forall k, In k (feet m) -> nth_error T' k = nth_error T1 k).
             { intros k Hk. apply G. intros Hk'. apply (DJ k Hk Hk'). }
             split.
             ++ intros k Hk. rewrite KEEP by (right; auto). auto.
             ++ exists bn, b'. rewrite KEEP by (left; auto). auto.
          -- destruct (D' m' Hm) as [A1 (bn & b' & A2 & A3 & A4)]. specialize (SAME m' Hm). split.
             ++ intros k Hk. rewrite <- SAME by (right; auto). auto.
             ++ exists bn, b'. rewrite <- SAME by (left; auto). split; auto. split; auto.
                unfold newOk in *. rewrite <- (@newItems_same m' T T1) by auto. auto.
      + cbn [runTask fst snd]. rewrite (Hb (or_introl eq_refl)), HF. cbn [bind].
        cbn [filter isFill length] in C.
        assert (NF : filter isFill ts = []) by (destruct (filter isFill ts); auto; cbn in C; lia).
        assert (NN : ~ In None ts).
        { intros H. assert (In None (filter isFill ts)) by (apply filter_In; auto). rewrite NF in *. contradiction. }
        destruct (IH T bufF ND2) as (T' & E & L & G & D'); auto.
        { intros m' Hm. apply R. right. auto. } { rewrite NF. cbn. lia. } { contradiction. }
        exists T'. cbn [existsb isFill orb].
        assert (EF : existsb isFill ts = false).
        { destruct (existsb isFill ts) eqn:X; auto. apply existsb_exists in X as ([m|] & X1 & X2); [discriminate|contradiction]. }
        rewrite EF in E. split; auto. split; auto. split; auto.
        intros m' [? | Hm]; [discriminate|auto].
  Qed.

  (** The points after all moves. *)
  Lemma moves_stored (T T' : trees) ms : length T' = length T -> NoDup (flat_map feet ms) ->
    (forall m, In m ms -> moveDone m T T') -> (forall m, In m ms -> liveAt T (mv_new m) = []) ->
    (forall k, ~ In k (flat_map feet ms) -> nth_error T' k = nth_error T k) ->
    Permutation (flat_map (@blive N A) T')
      (flat_map (@blive N A) T ++ flat_map (fun m => slice (mv_s m) (mv_e m) points) ms ++
       flat_map (fun m => if mv_buf m then bufPts else []) ms).
  Proof.
    intros L ND DN EM KP. rewrite (flat_map_seq (@blive N A) T'), (flat_map_seq (@blive N A) T).
    change (fun k => match nth_error T' k with Some x => blive x | None => [] end) with (liveAt T').
    change (fun k => match nth_error T k with Some x => blive x | None => [] end) with (liveAt T).
    rewrite L.
    destruct (@seq_front (flat_map feet ms) (length T) ND) as (rest & P & HR).
    { intros k Hk. apply in_flat_map in Hk as (m & Hm & [<- | Hk]); apply nth_error_Some.
      - destruct (DN m Hm) as [_ (b & b' & E & _)]. congruence.
      - destruct (DN m Hm) as [E _]. destruct (E k Hk) as (b & E' & _). congruence. }
    rewrite (Permutation_flat_map (liveAt T') P), (Permutation_flat_map (liveAt T) P), !flat_map_app.
    rewrite (flat_map_ext_in (liveAt T') (liveAt T) rest).
    2:{ intros k Hk. unfold liveAt. rewrite KP; auto. apply HR. auto. }
    rewrite <- !app_assoc. rewrite (Permutation_app_comm (flat_map (liveAt T) rest)).
    rewrite app_assoc. apply Permutation_app_tail.
    rewrite !flat_map_flat_map.
    rewrite (@flat_map_perm_in _ _ (fun m => flat_map (liveAt T') (feet m)) (fun m => newItems m T)).
    - rewrite (flat_map_ext_in (fun m => flat_map (liveAt T) (feet m)) (fun m => flat_map (liveAt T) (mv_trees m))).
      2:{ intros m Hm. cbn [feet flat_map]. rewrite (EM m Hm). reflexivity. }
      unfold newItems. rewrite flat_map_app2. apply Permutation_app_head. apply flat_map_app2.
    - intros m Hm. destruct (DN m Hm) as [D1 (b & b' & E1 & E2 & _ & _ & _ & E3 & _)]. cbn [feet flat_map].
      unfold liveAt at 1. rewrite E2, E3.
      rewrite (flat_map_ext_in (liveAt T') (fun _ => []) (mv_trees m)).
      + rewrite flat_map_concat_map. replace (concat (map (fun _ => []) (mv_trees m))) with (@nil A).
        * rewrite app_nil_r. reflexivity.
        * clear. induction (mv_trees m); cbn; auto.
      + intros k Hk. destruct (D1 k Hk) as (bk & _ & _ & E). unfold liveAt. rewrite E. reflexivity.
  Qed.
End Exec.
