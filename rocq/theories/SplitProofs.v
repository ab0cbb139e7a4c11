(** Correctness of the block-parallel flag splits, for every order of writes. *)
From Verif Require Import Base Num KdModel KdBuild SplitModel.
Set Implicit Arguments.

(** Executing writes to distinct in-range cells in any order. *)
Section Writes.
  Variable T : Type.

  Lemma writes_spec (ws : list (nat * T)) : forall m,
    NoDup (map fst ws) -> (forall p v, In (p, v) ws -> p < length m) ->
    exists m', fold_left write1 ws (Ok m) = Ok m' /\ length m' = length m /\
      (forall p v, In (p, v) ws -> nth_error m' p = Some (Some v)) /\
      (forall p, ~ In p (map fst ws) -> nth_error m' p = nth_error m p).
  Proof.
    induction ws as [|[p v] ws IH]; simpl; intros m ND HB.
    - exists m. split; auto. split; auto. split; auto. intros ? ? [].
    - inversion ND as [|? ? Hp ND']; subst.
      assert (Hlt : p < length m) by (apply (HB p v); auto).
      destruct (Nat.ltb_spec p (length m)); [|lia].
      destruct (IH (upd p (Some v) m)) as (m' & E & L & H1 & H2); auto.
      { intros q w Hq. rewrite upd_length. apply (HB q w); auto. }
      rewrite upd_length in L.
      exists m'. split; auto. split; auto. split.
      + intros q w [Hq|Hq].
        * inversion Hq; subst. rewrite H2 by auto. apply nth_error_upd_eq; auto.
        * auto.
      + intros q Hq. rewrite H2 by tauto. apply nth_error_upd_neq. tauto.
  Qed.

  Lemma map_fst_combine B C (l : list B) (l' : list C) :
    length l = length l' -> map fst (combine l l') = l.
  Proof.
    revert l'; induction l as [|a l IH]; intros [|b l']; simpl; intros H; try lia; auto.
    rewrite IH; auto.
  Qed.

  Lemma runWrites_target (target : list T) ws :
    Permutation ws (combine (seq 0 (length target)) target) ->
    runWrites (length target) ws = Ok (map Some target).
  Proof.
    intros HP. unfold runWrites.
    assert (ND : NoDup (map fst ws)).
    { eapply Permutation_NoDup; [symmetry; apply Permutation_map, HP|].
      rewrite map_fst_combine by (rewrite seq_length; auto). apply seq_NoDup. }
    destruct (@writes_spec ws (repeat None (length target))) as (m' & E & L & H1 & H2); auto.
    { intros p v Hp. rewrite repeat_length.
      apply (Permutation_in _ HP) in Hp. apply in_combine_l, in_seq in Hp. lia. }
    rewrite E. f_equal. rewrite repeat_length in L.
    apply nth_error_ext. intros i.
    destruct (Nat.lt_ge_cases i (length target)) as [Hi|Hi].
    - destruct (nth_error target i) as [v|] eqn:Ev; [|apply nth_error_None in Ev; lia].
      rewrite (H1 i v). { symmetry. apply map_nth_error; auto. }
      apply (Permutation_in _ (Permutation_sym HP)).
      assert (G : forall s, nth_error (combine (seq s (length target)) target) i = Some (s + i, v)).
      { clear -Ev Hi. revert i Ev Hi. induction target as [|a l IH]; intros [|i]; simpl; intros E Hi s; try lia.
        - inversion E; subst. f_equal. f_equal. lia.
        - rewrite IH; auto; [f_equal; f_equal; lia|lia]. }
      eapply nth_error_In. apply (G 0).
    - rewrite (proj2 (nth_error_None m' i)) by lia.
      symmetry. apply nth_error_None. rewrite map_length; auto.
  Qed.
End Writes.

(** Blocks cover the list in order. *)
Lemma slice_firstn_skipn B s e (l : list B) : s <= e -> e <= length l ->
  firstn s l ++ slice s e l = firstn e l.
Proof.
  intros H1 H2. unfold slice.
  rewrite <- (firstn_skipn s l) at 3. rewrite firstn_app, firstn_length.
  replace (e - Nat.min s (length l)) with (e - s) by lia.
  f_equal. rewrite firstn_firstn. f_equal. lia.
Qed.

Lemma nth_blocks B bs (l : list B) i : i < num_blocks (length l) bs ->
  nth i (blocks bs l) [] = slice (i * bs) (Nat.min ((i + 1) * bs) (length l)) l.
Proof. intros H. unfold blocks. rewrite nth_map_seq; auto. Qed.

Lemma blocks_length B bs (l : list B) : length (blocks bs l) = num_blocks (length l) bs.
Proof. unfold blocks. rewrite map_length, seq_length; auto. Qed.

Lemma num_blocks_bound n bs i : 1 <= bs -> i < num_blocks n bs -> i * bs < n.
Proof.
  unfold num_blocks. destruct (Nat.eqb_spec n 0); intros Hb Hi; [lia|].
  assert (i <= (n - 1) / bs) by lia.
  assert (bs * ((n - 1) / bs) <= n - 1) by (apply Nat.mul_div_le; lia). nia.
Qed.

Lemma blocks_firstn B bs (l : list B) : 1 <= bs -> forall i, i <= num_blocks (length l) bs ->
  concat (firstn i (blocks bs l)) = firstn (i * bs) l.
Proof.
  intros Hb. induction i as [|i IH]; intros Hi; [reflexivity|].
  assert (Hlt : i < length (blocks bs l)) by (rewrite blocks_length; lia).
  assert (E : firstn (S i) (blocks bs l) = firstn i (blocks bs l) ++ [nth i (blocks bs l) []]).
  { apply firstn_S_nth; auto. }
  rewrite E, concat_app, IH by lia. simpl. rewrite app_nil_r, nth_blocks by lia.
  pose proof (@num_blocks_bound (length l) bs i Hb ltac:(lia)).
  rewrite slice_firstn_skipn by lia.
  destruct (Nat.le_gt_cases ((i + 1) * bs) (length l)).
  - rewrite Nat.min_l by lia. f_equal. lia.
  - rewrite Nat.min_r by lia. rewrite !firstn_all2; auto; lia.
Qed.

Lemma blocks_concat B bs (l : list B) : 1 <= bs -> concat (blocks bs l) = l.
Proof.
  intros Hb. rewrite <- (firstn_all (blocks bs l)), blocks_length.
  rewrite blocks_firstn by auto. apply firstn_all2.
  unfold num_blocks. destruct (Nat.eqb_spec (length l) 0); [lia|].
  assert (length l - 1 < bs * (S ((length l - 1) / bs))).
  { apply Nat.mul_succ_div_gt. lia. }
  nia.
Qed.

Lemma scan_spec l : forall a,
  snd (scan a l) = a + list_sum l /\ length (fst (scan a l)) = length l /\
  forall i, i < length l -> nth i (fst (scan a l)) 0 = a + list_sum (firstn i l).
Proof.
  induction l as [|x l IH]; simpl; intros a.
  - split; [lia|]. split; auto. intros; lia.
  - destruct (IH (a + x)) as (H1 & H2 & H3). destruct (scan (a + x) l) as [p t]. simpl in *.
    split; [lia|]. split; [auto|].
    intros [|i] Hi; simpl; [lia|]. rewrite H3 by lia. lia.
Qed.


Section Two.
  Variable T : Type.
  Implicit Types b X : list (T * bool).

  Lemma countFalse_app b b' : countFalse (b ++ b') = countFalse b + countFalse b'.
  Proof. unfold countFalse. rewrite filter_app, app_length; auto. Qed.
  Lemma countFalse_concat (L : list (list (T * bool))) :
    list_sum (map (@countFalse T) L) = countFalse (concat L).
  Proof. induction L; simpl; auto. rewrite countFalse_app; lia. Qed.
  Lemma countFalse_le b : countFalse b <= length b.
  Proof. apply filter_length_le. Qed.

  Lemma blockWrites_app b : forall b' c0 c1,
    blockWrites (b ++ b') c0 c1
    = blockWrites b c0 c1 ++ blockWrites b' (c0 + countFalse b) (c1 + (length b - countFalse b)).
  Proof.
    induction b as [|[x fl] b IH]; intros b' c0 c1.
    - cbn [app length blockWrites]. unfold countFalse; simpl. f_equal; lia.
    - cbn [app blockWrites]. pose proof (countFalse_le b).
      destruct fl; rewrite IH.
      + change (countFalse ((x, true) :: b)) with (countFalse b).
        change (length ((x, true) :: b)) with (S (length b)).
        replace (c1 + (S (length b) - countFalse b)) with (S c1 + (length b - countFalse b)) by lia.
        reflexivity.
      + change (countFalse ((x, false) :: b)) with (S (countFalse b)).
        change (length ((x, false) :: b)) with (S (length b)).
        replace (c0 + S (countFalse b)) with (S c0 + countFalse b) by lia. reflexivity.
  Qed.

  (** The blocks together perform the writes of one sequential pass. *)
  Lemma splitWrites_seq bs X : 1 <= bs ->
    splitWrites bs X = blockWrites X 0 (countFalse X).
  Proof.
    intros Hb. unfold splitWrites.
    pose proof (scan_spec (map (@countFalse T) (blocks bs X)) 0) as (S1 & S2 & S3).
    destruct (scan 0 (map (@countFalse T) (blocks bs X))) as [Sums m]. simpl in S1, S2, S3.
    rewrite countFalse_concat, blocks_concat in S1 by auto. rewrite map_length in S2, S3.
    assert (G : forall i, i <= length (blocks bs X) ->
      concat (map (fun i => blockWrites (nth i (blocks bs X) []) (nth i Sums 0)
                              (i * bs + (m - nth i Sums 0))) (seq 0 i))
      = blockWrites (concat (firstn i (blocks bs X))) 0 m).
    { induction i as [|i IH]; intros Hi; [reflexivity|].
      rewrite seq_S, map_app, concat_app, IH by lia.
      rewrite (@firstn_S_nth _ i (blocks bs X) []) by lia. rewrite concat_app.
      cbn [map concat Nat.add]. rewrite !app_nil_r, blockWrites_app. f_equal.
      rewrite S3 by lia. rewrite <- firstn_map || rewrite firstn_map.
      rewrite countFalse_concat. rewrite blocks_length in Hi.
      assert (Hx : i * bs < length X) by (apply num_blocks_bound; auto).
      pose proof (countFalse_le (firstn (i * bs) X)) as Hc.
      rewrite blocks_firstn by (auto; lia).
      rewrite firstn_length in *. f_equal; try lia.
      assert (countFalse (firstn (i * bs) X) <= m).
      { rewrite S1. rewrite <- (firstn_skipn (i * bs) X) at 2. rewrite countFalse_app. lia. }
      lia. }
    rewrite G by lia. rewrite firstn_all, blocks_concat by auto. rewrite S1. auto.
  Qed.

  Definition falses X := map fst (filter (fun x => negb (snd x)) X).
  Definition trues X := map fst (filter (fun x : T * bool => snd x) X).

  Lemma blockWrites_perm X : forall c0 c1,
    Permutation (blockWrites X c0 c1)
      (combine (seq c0 (length (falses X))) (falses X) ++
       combine (seq c1 (length (trues X))) (trues X)).
  Proof.
    induction X as [|[x fl] X IH]; intros c0 c1; [constructor|].
    unfold falses, trues in *. destruct fl; simpl.
    - etransitivity; [|apply Permutation_middle]. constructor. apply IH.
    - constructor. apply IH.
  Qed.

  Lemma combine_seq_app B (l l' : list B) s :
    combine (seq s (length (l ++ l'))) (l ++ l')
    = combine (seq s (length l)) l ++ combine (seq (s + length l) (length l')) l'.
  Proof.
    revert s. induction l as [|a l IH]; intros s; simpl.
    - f_equal. f_equal. lia.
    - rewrite IH. f_equal. f_equal. f_equal. f_equal. lia.
  Qed.

  Lemma split_two_correct bs X ws : 1 <= bs -> Permutation ws (splitWrites bs X) ->
    split_two bs X ws = (Ok (map Some (falses X ++ trues X)), length (falses X)).
  Proof.
    intros Hb HP. unfold split_two. f_equal.
    - assert (EL : length X = length (falses X ++ trues X)).
      { rewrite app_length. unfold falses, trues. rewrite !map_length.
        clear. induction X as [|[x []] X IH]; simpl; lia. }
      rewrite EL. apply runWrites_target. rewrite HP, splitWrites_seq by auto.
      rewrite blockWrites_perm, combine_seq_app. simpl.
      assert (E : countFalse X = length (falses X)).
      { unfold countFalse, falses. rewrite map_length; auto. }
      rewrite E. reflexivity.
    - pose proof (scan_spec (map (@countFalse T) (blocks bs X)) 0) as (S1 & _).
      rewrite S1, countFalse_concat, blocks_concat by auto. simpl.
      unfold countFalse, falses. rewrite map_length; auto.
  Qed.
End Two.

Section K.
  Variable T : Type.
  Implicit Types b X : list (T * nat).

  Definition classOf (x : nat) X : list T := map fst (filter (fun e => snd e =? x) X).

  Lemma countClass_app x b b' : countClass x (b ++ b') = countClass x b + countClass x b'.
  Proof. unfold countClass. rewrite filter_app, app_length; auto. Qed.
  Lemma countClass_concat x (L : list (list (T * nat))) :
    list_sum (map (@countClass T x) L) = countClass x (concat L).
  Proof. induction L; simpl; auto. rewrite countClass_app; lia. Qed.

  Lemma blockWritesK_class k b x : x < k -> forall c,
    map snd (filter (fun w => fst w =? x) (blockWritesK k b c))
    = combine (seq (c x) (length (classOf x b))) (classOf x b).
  Proof.
    intros Hx. unfold classOf. induction b as [|[e y] b IH]; intros c; [reflexivity|]. simpl.
    destruct (Nat.ltb_spec y k).
    - simpl. destruct (Nat.eqb_spec y x).
      + subst. simpl. rewrite IH. rewrite Nat.eqb_refl. reflexivity.
      + rewrite IH. destruct (Nat.eqb_spec x y); [lia|]. reflexivity.
    - destruct (Nat.eqb_spec y x); [lia|]. apply IH.
  Qed.

  Lemma splitWritesK_class k bs X x : 1 <= bs -> x < k ->
    map snd (filter (fun w => fst w =? x) (splitWritesK k bs X))
    = combine (seq 0 (length (classOf x X))) (classOf x X).
  Proof.
    intros Hb Hx. unfold splitWritesK.
    pose proof (scan_spec (map (@countClass T x) (blocks bs X)) 0) as (S1 & S2 & S3).
    rewrite map_length in S2, S3.
    assert (G : forall i, i <= length (blocks bs X) ->
      map snd (filter (fun w => fst w =? x)
        (concat (map (fun i => blockWritesK k (nth i (blocks bs X) [])
           (fun x => nth i (fst (scan 0 (map (@countClass T x) (blocks bs X)))) 0)) (seq 0 i))))
      = combine (seq 0 (length (classOf x (concat (firstn i (blocks bs X))))))
                (classOf x (concat (firstn i (blocks bs X))))).
    { induction i as [|i IH]; intros Hi; [reflexivity|].
      rewrite seq_S, map_app, concat_app, filter_app, map_app, IH by lia.
      rewrite (@firstn_S_nth _ i (blocks bs X) []) by lia. rewrite concat_app.
      cbn [map concat Nat.add]. rewrite !app_nil_r, blockWritesK_class by auto.
      unfold classOf at 5 6. rewrite filter_app, map_app. fold (classOf x (concat (firstn i (blocks bs X)))).
      fold (classOf x (nth i (blocks bs X) [])).
      rewrite combine_seq_app. f_equal. simpl.
      rewrite S3 by lia. rewrite firstn_map, countClass_concat.
      unfold classOf at 3. rewrite map_length. reflexivity. }
    rewrite G by lia. rewrite firstn_all, blocks_concat by auto. reflexivity.
  Qed.

  Lemma Permutation_filter_map_snd (f : nat * (nat * T) -> bool) l l' :
    Permutation l l' -> Permutation (map snd (filter f l)) (map snd (filter f l')).
  Proof. intros H. apply Permutation_map, Permutation_filter, H. Qed.

  Lemma split_k_correct k bs X ws : 1 <= bs -> Permutation ws (splitWritesK k bs X) ->
    split_k k bs X ws = map (fun x => Ok (map Some (classOf x X))) (seq 0 k).
  Proof.
    intros Hb HP. unfold split_k. apply map_ext_in. intros x Hx. apply in_seq0 in Hx.
    unfold split_k_chunk.
    pose proof (scan_spec (map (@countClass T x) (blocks bs X)) 0) as (S1 & _).
    rewrite S1, countClass_concat, blocks_concat by auto. simpl.
    replace (countClass x X) with (length (classOf x X))
      by (unfold classOf, countClass; rewrite map_length; auto).
    apply runWrites_target.
    rewrite (Permutation_filter_map_snd _ HP), splitWritesK_class by auto. reflexivity.
  Qed.
End K.
