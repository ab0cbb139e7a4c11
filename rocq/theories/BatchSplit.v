(** Index arithmetic of the cache-oblivious kd-tree.
    Models /repo/include/batchKdtree/cache-oblivious/utils.h. *)
From Verif Require Import Base.
Set Implicit Arguments.

(* ------------------------------------------------------------------ *)
(** ** Model *)

(** utils.h 37-41 [numLevels]; [ls] is [leaf_size]: CLUSTER_SIZE when the tree
    is coarsened and 1 otherwise (cokdtree.h 58).  [std::ceil(std::log2(x))] on
    an [int] is modelled by the exact ceiling of the binary logarithm. *)
Definition numLevels (ls num_leaves : nat) : nat :=
  1 + Nat.log2_up ((num_leaves + (ls - 1)) / ls).

(** utils.h 42-43 *)
Definition numNodesTop (num_levels : nat) : nat := 2 ^ num_levels - 1.
Definition numNodesBottom (num_points : nat) : nat := 2 * num_points - 1.

(** utils.h 54-57 *)
Definition hyperCeiling (n : nat) : nat := 2 ^ Nat.log2_up n.
Definition bottomNumLevels (total : nat) : nat := hyperCeiling ((total + 1) / 2).

(** utils.h 93-98: one row of [split_points] from the previous one. *)
Definition spRow (level : nat) (prev : list nat) : list nat :=
  map (fun leaf => nth (leaf / 2) prev 0 +
                   (if Nat.even leaf then 2 ^ (level - 1) else 0))
      (seq 0 (2 ^ level)).

(** utils.h 92-99: rows [level .. num_levels] appended to the table. *)
Fixpoint spFill (cnt : nat) (tbl : list (list nat)) : list (list nat) :=
  match cnt with
  | 0 => tbl
  | S c => let level := length tbl in
           spFill c (tbl ++ [spRow level (nth (level - 1) tbl [])])
  end.

(** utils.h 79-101 [initializeSplitPoints] on the global table. *)
Definition initializeSplitPoints (num_levels : nat) (tbl : list (list nat)) :=
  if num_levels <? length tbl then tbl
  else
    let tbl0 := if length tbl =? 0 then [[1]] else tbl in
    spFill (num_levels + 1 - length tbl0) tbl0.

(** utils.h 147-161: one row of [child_indices]. *)
Definition ciRow (level : nat) (tbl : list (list nat)) : list nat :=
  let bottom := bottomNumLevels level in
  let top := level - bottom in
  flat_map (fun subtree =>
      map (fun child => (2 ^ top - 1) + subtree * (2 ^ bottom - 1) + child)
          (nth bottom tbl []))
    (seq 0 (2 ^ top)).

Fixpoint ciFill (cnt : nat) (tbl : list (list nat)) : list (list nat) :=
  match cnt with
  | 0 => tbl
  | S c => ciFill c (tbl ++ [ciRow (length tbl) tbl])
  end.

(** utils.h 141-163 [initializeChildIndices]; the table starts as [{{}}]. *)
Definition initializeChildIndices (num_levels : nat) (tbl : list (list nat)) :=
  if num_levels <? length tbl then tbl
  else
    let tbl0 := if length tbl =? 1 then tbl ++ [[0]] else tbl in
    ciFill (num_levels + 1 - length tbl0) tbl0.

(** utils.h 165-172 [initialize]: both tables up to 24 levels. *)
Definition maxLevels : nat := 24.
Definition split_points := initializeSplitPoints maxLevels [].
Definition child_indices := initializeChildIndices maxLevels [[]].

(** cokdtree.h 309 (and utils.h 112, 131): size of bucket [i] of [2^levels]. *)
Definition bucketSize (sp : list (list nat)) (levels n i : nat) : nat :=
  n / 2 ^ levels +
  (if nth i (nth levels sp []) 0 <=? n mod 2 ^ levels then 1 else 0).

(** [parlay::scan_inclusive] / [parlay::scan] of a sequence of counts. *)
Fixpoint scanIncl (acc : nat) (l : list nat) : list nat :=
  match l with [] => [] | x :: l' => (acc + x) :: scanIncl (acc + x) l' end.
Fixpoint scanExcl (acc : nat) (l : list nat) : list nat :=
  match l with [] => [] | x :: l' => acc :: scanExcl (acc + x) l' end.

(** utils.h 104-119 [computeLeftEndpoints] *)
Definition computeLeftEndpoints (sp : list (list nat)) (levels n : nat) : list nat :=
  scanIncl 0 (0 :: map (bucketSize sp levels n) (seq 0 (2 ^ levels))).

(** utils.h 122-137 [computeBottomChildSizes] *)
Definition computeBottomChildSizes (sp : list (list nat)) (levels n : nat) : list nat :=
  scanExcl 0 (map (fun i => numNodesBottom (bucketSize sp levels n i))
                  (seq 0 (2 ^ levels))).

(* ------------------------------------------------------------------ *)
(** ** Specification: repeated halving, the right half taking the odd item. *)

Fixpoint halves (d n : nat) : list nat :=
  match d with
  | 0 => [n]
  | S d' => halves d' (n / 2) ++ halves d' (n - n / 2)
  end.

(** Bottom-up description of the same numbers. *)
Fixpoint bsz (n d p : nat) : nat :=
  match d with
  | 0 => n
  | S d' => let m := bsz n d' (p / 2) in if Nat.even p then m / 2 else m - m / 2
  end.

(** Start of bucket [p] at level [d] when the whole range starts at [s]. *)
Fixpoint bst (s n d p : nat) : nat :=
  match d with
  | 0 => s
  | S d' => if Nat.even p then bst s n d' (p / 2)
            else bst s n d' (p / 2) + bsz n d' (p / 2) / 2
  end.

(* ------------------------------------------------------------------ *)
(** ** Proofs *)

Lemma pow2_pos k : 0 < 2 ^ k.
Proof. pose proof (Nat.pow_nonzero 2 k). lia. Qed.

Lemma even_div2 p : Nat.even p = true -> p = 2 * (p / 2).
Proof.
  intros H. apply Nat.even_spec in H. destruct H as [k ->].
  rewrite Nat.mul_comm, Nat.div_mul by lia. lia.
Qed.
Lemma odd_div2 p : Nat.even p = false -> p = 2 * (p / 2) + 1.
Proof.
  intros H. assert (H2 : Nat.odd p = true) by (unfold Nat.odd; rewrite H; reflexivity).
  apply Nat.odd_spec in H2. destruct H2 as [k ->].
  assert (E : (2 * k + 1) / 2 = k).
  { symmetry. apply (Nat.div_unique _ _ _ 1); lia. }
  rewrite E. lia.
Qed.
Lemma div2_2p p : 2 * p / 2 = p.
Proof. rewrite Nat.mul_comm, Nat.div_mul; lia. Qed.
Lemma div2_2p1 p : (2 * p + 1) / 2 = p.
Proof. symmetry. apply (Nat.div_unique _ _ _ 1); lia. Qed.
Lemma even_2p p : Nat.even (2 * p) = true.
Proof. apply Nat.even_spec. exists p; lia. Qed.
Lemma even_2p1 p : Nat.even (2 * p + 1) = false.
Proof. rewrite Nat.even_add, even_2p. reflexivity. Qed.

Lemma half_lt p d : p < 2 ^ S d -> p / 2 < 2 ^ d.
Proof. intros H. apply Nat.div_lt_upper_bound; simpl in *; lia. Qed.

Lemma bst_next s n d : forall p, p + 1 < 2 ^ d ->
  bst s n d (p + 1) = bst s n d p + bsz n d p.
Proof.
  induction d as [|d IH]; intros p Hp; [simpl in Hp; lia|].
  cbn [bst bsz]. destruct (Nat.even p) eqn:E.
  - pose proof (even_div2 _ E) as Ep.
    replace ((p + 1) / 2) with (p / 2) by (rewrite Ep at 2; rewrite div2_2p1; auto).
    assert (E2 : Nat.even (p + 1) = false) by (rewrite Ep; apply even_2p1).
    rewrite E2. reflexivity.
  - pose proof (odd_div2 _ E) as Ep.
    replace ((p + 1) / 2) with (p / 2 + 1).
    2:{ rewrite Ep at 2. replace (2 * (p / 2) + 1 + 1) with (2 * (p / 2 + 1)) by lia.
        rewrite div2_2p; auto. }
    assert (E2 : Nat.even (p + 1) = true).
    { rewrite Ep. replace (2 * (p / 2) + 1 + 1) with (2 * (p / 2 + 1)) by lia. apply even_2p. }
    rewrite E2. rewrite IH.
    + pose proof (Nat.div_le_upper_bound (bsz n d (p/2)) 2 (bsz n d (p/2))). lia.
    + simpl in Hp. lia.
Qed.

Lemma bst_first s n d : bst s n d 0 = s.
Proof. induction d; simpl; auto. Qed.

Lemma half_le n : n / 2 <= n.
Proof. apply Nat.div_le_upper_bound; lia. Qed.

Lemma bst_last s n d : bst s n d (2 ^ d - 1) + bsz n d (2 ^ d - 1) = s + n.
Proof.
  induction d as [|d IH]; [simpl; lia|].
  pose proof (pow2_pos d).
  assert (E : 2 ^ S d - 1 = 2 * (2 ^ d - 1) + 1) by (simpl; lia).
  rewrite E. cbn [bst bsz]. rewrite even_2p1, div2_2p1.
  pose proof (half_le (bsz n d (2 ^ d - 1))). lia.
Qed.

Lemma bst_bounds s n d p : p < 2 ^ d ->
  s <= bst s n d p /\ bst s n d p + bsz n d p <= s + n.
Proof.
  revert p; induction d as [|d IH]; intros p Hp; [simpl; lia|].
  cbn [bst bsz]. specialize (IH (p / 2) (half_lt _ Hp)).
  pose proof (half_le (bsz n d (p / 2))).
  destruct (Nat.even p); lia.
Qed.

Lemma bsz_app n d1 : forall d2 p, p < 2 ^ (d1 + d2) ->
  bsz n (d1 + d2) p = bsz (bsz n d1 (p / 2 ^ d2)) d2 (p mod 2 ^ d2).
Proof.
  induction d2 as [|d2 IH]; intros p Hp.
  - rewrite Nat.add_0_r, Nat.pow_0_r, Nat.div_1_r. reflexivity.
  - rewrite Nat.add_succ_r in *. cbn [bsz].
    pose proof (pow2_pos d2) as Hpos.
    rewrite IH by (apply half_lt; exact Hp).
    assert (E1 : p / 2 / 2 ^ d2 = p / 2 ^ S d2).
    { rewrite Nat.div_div by lia. f_equal. }
    assert (E2 : (p / 2) mod 2 ^ d2 = (p mod 2 ^ S d2) / 2).
    { cbn [Nat.pow]. rewrite (Nat.mod_mul_r p 2 (2 ^ d2)) by lia.
      apply (Nat.div_unique _ 2 _ (p mod 2)); [apply Nat.mod_upper_bound; lia|lia]. }
    assert (E3 : Nat.even (p mod 2 ^ S d2) = Nat.even p).
    { cbn [Nat.pow]. rewrite (Nat.mod_mul_r p 2 (2 ^ d2)) by lia.
      rewrite Nat.even_add, Nat.even_mul. simpl (Nat.even 2). cbn [orb].
      rewrite Nat.mod_eq by lia.
      assert (Ev : Nat.even (p - 2 * (p / 2)) = Nat.even p).
      { rewrite Nat.even_sub by (apply Nat.mul_div_le; lia).
        rewrite even_2p. destruct (Nat.even p); auto. }
      rewrite Ev. destruct (Nat.even p); auto. }
    rewrite E1, E2, E3. reflexivity.
Qed.

Lemma bst_app s n d1 : forall d2 p, p < 2 ^ (d1 + d2) ->
  bst s n (d1 + d2) p = bst (bst s n d1 (p / 2 ^ d2)) (bsz n d1 (p / 2 ^ d2)) d2 (p mod 2 ^ d2).
Proof.
  induction d2 as [|d2 IH]; intros p Hp.
  - rewrite Nat.add_0_r, Nat.pow_0_r, Nat.div_1_r. reflexivity.
  - rewrite Nat.add_succ_r in *. cbn [bst].
    pose proof (pow2_pos d2) as Hpos.
    rewrite IH by (apply half_lt; exact Hp).
    rewrite bsz_app by (apply half_lt; exact Hp).
    assert (E1 : p / 2 / 2 ^ d2 = p / 2 ^ S d2).
    { rewrite Nat.div_div by lia. f_equal. }
    assert (E2 : (p / 2) mod 2 ^ d2 = (p mod 2 ^ S d2) / 2).
    { cbn [Nat.pow]. rewrite (Nat.mod_mul_r p 2 (2 ^ d2)) by lia.
      apply (Nat.div_unique _ 2 _ (p mod 2)); [apply Nat.mod_upper_bound; lia|lia]. }
    assert (E3 : Nat.even (p mod 2 ^ S d2) = Nat.even p).
    { cbn [Nat.pow]. rewrite (Nat.mod_mul_r p 2 (2 ^ d2)) by lia.
      rewrite Nat.even_add, Nat.even_mul. simpl (Nat.even 2). cbn [orb].
      rewrite Nat.mod_eq by lia.
      assert (Ev : Nat.even (p - 2 * (p / 2)) = Nat.even p).
      { rewrite Nat.even_sub by (apply Nat.mul_div_le; lia).
        rewrite even_2p. destruct (Nat.even p); auto. }
      rewrite Ev. destruct (Nat.even p); auto. }
    rewrite E1, E2, E3. reflexivity.
Qed.

(** *** The two descriptions of the sizes agree. *)
Lemma halves_length d : forall n, length (halves d n) = 2 ^ d.
Proof.
  induction d as [|d IH]; intros n; cbn [halves]; [reflexivity|].
  rewrite app_length, !IH. simpl. lia.
Qed.

Lemma halves_bsz d : forall n p, p < 2 ^ d -> nth p (halves d n) 0 = bsz n d p.
Proof.
  induction d as [|d IH]; intros n p Hp.
  - simpl in Hp. replace p with 0 by lia. reflexivity.
  - cbn [halves].
    replace (S d) with (1 + d) in * by lia.
    rewrite bsz_app by exact Hp.
    pose proof (pow2_pos d).
    destruct (Nat.lt_ge_cases p (2 ^ d)) as [L | G].
    + rewrite app_nth1 by (rewrite halves_length; auto).
      rewrite IH by auto. rewrite (Nat.div_small p), (Nat.mod_small p) by auto. reflexivity.
    + rewrite app_nth2 by (rewrite halves_length; auto).
      rewrite halves_length.
      assert (Hlt : p - 2 ^ d < 2 ^ d) by (cbn in Hp; lia).
      rewrite IH by lia.
      assert (Hd : p / 2 ^ d = 1) by (symmetry; apply (Nat.div_unique _ _ _ (p - 2 ^ d)); lia).
      assert (Hm : p mod 2 ^ d = p - 2 ^ d) by (symmetry; apply (Nat.mod_unique _ _ 1); lia).
      rewrite Hd, Hm. reflexivity.
Qed.

Lemma halves_map d n : halves d n = map (bsz n d) (seq 0 (2 ^ d)).
Proof.
  apply nth_ext with (d := 0) (d' := 0).
  - rewrite map_length, seq_length, halves_length; reflexivity.
  - intros p Hp. rewrite halves_length in Hp.
    rewrite nth_map_seq by auto. apply halves_bsz; auto.
Qed.

Lemma halves_sum d : forall n, list_sum (halves d n) = n.
Proof.
  induction d as [|d IH]; intros n; cbn [halves]; [simpl; lia|].
  rewrite list_sum_app, !IH. pose proof (half_le n). lia.
Qed.

(** *** The memoised split points. *)
Fixpoint spLevel (level : nat) : list nat :=
  match level with 0 => [1] | S l => spRow (S l) (spLevel l) end.

Lemma spFill_spec cnt : forall tbl, 0 < length tbl ->
  (forall l, l < length tbl -> nth l tbl [] = spLevel l) ->
  length (spFill cnt tbl) = length tbl + cnt /\
  (forall l, l < length tbl + cnt -> nth l (spFill cnt tbl) [] = spLevel l).
Proof.
  induction cnt as [|cnt IH]; intros tbl Hl Ht; cbn [spFill].
  - split; [lia|]. intros l Hl'. apply Ht; lia.
  - set (tbl' := tbl ++ [spRow (length tbl) (nth (length tbl - 1) tbl [])]).
    assert (L' : length tbl' = length tbl + 1) by (unfold tbl'; rewrite app_length; simpl; lia).
    destruct (IH tbl') as [I1 I2].
    + lia.
    + intros l Hl'. unfold tbl'.
      destruct (Nat.eq_dec l (length tbl)) as [-> | Hne].
      * rewrite app_nth2, Nat.sub_diag by lia. cbn [nth].
        rewrite Ht by lia.
        destruct (length tbl) as [|m] eqn:Em; [lia|].
        cbn [spLevel]. replace (S m - 1) with m by lia. reflexivity.
      * rewrite app_nth1 by lia. apply Ht; lia.
    + split; [lia|]. intros l Hl'. apply I2; lia.
Qed.

Definition sp_good (tbl : list (list nat)) : Prop :=
  forall l, l < length tbl -> nth l tbl [] = spLevel l.

Lemma initializeSplitPoints_spec L tbl : sp_good tbl ->
  sp_good (initializeSplitPoints L tbl) /\
  L < length (initializeSplitPoints L tbl).
Proof.
  intros G. unfold initializeSplitPoints.
  destruct (Nat.ltb_spec L (length tbl)) as [Hlt | Hge]; [auto|].
  set (tbl0 := if length tbl =? 0 then [[1]] else tbl).
  assert (L0 : 0 < length tbl0 /\ length tbl0 <= L + 1).
  { unfold tbl0. destruct (Nat.eqb_spec (length tbl) 0); simpl; lia. }
  assert (G0 : sp_good tbl0).
  { unfold tbl0. destruct (Nat.eqb_spec (length tbl) 0); auto.
    intros l Hl. simpl in Hl. replace l with 0 by lia. reflexivity. }
  destruct (@spFill_spec (L + 1 - length tbl0) tbl0) as [I1 I2]; [lia|exact G0|].
  split.
  - intros l Hl. apply I2. lia.
  - lia.
Qed.

Lemma spLevel_length l : length (spLevel l) = 2 ^ l.
Proof. destruct l; [reflexivity|]. cbn [spLevel]. unfold spRow. rewrite map_length, seq_length. auto. Qed.

Lemma spLevel_nth l p : p < 2 ^ S l ->
  nth p (spLevel (S l)) 0 = nth (p / 2) (spLevel l) 0 + (if Nat.even p then 2 ^ l else 0).
Proof.
  intros H. cbn [spLevel]. unfold spRow. rewrite nth_map_seq by auto.
  replace (S l - 1) with l by lia. reflexivity.
Qed.

Lemma spLevel_range l : forall p, p < 2 ^ l ->
  1 <= nth p (spLevel l) 0 <= 2 ^ l.
Proof.
  induction l as [|l IH]; intros p Hp.
  - simpl in Hp. replace p with 0 by lia. simpl. lia.
  - rewrite spLevel_nth by auto. specialize (IH _ (half_lt _ Hp)).
    cbn [Nat.pow]. destruct (Nat.even p); lia.
Qed.

Lemma formula_bsz n d : forall p, p < 2 ^ d ->
  n / 2 ^ d + (if nth p (spLevel d) 0 <=? n mod 2 ^ d then 1 else 0) = bsz n d p.
Proof.
  induction d as [|d IH]; intros p Hp.
  - simpl in Hp. replace p with 0 by lia. cbn [Nat.pow nth spLevel bsz].
    rewrite Nat.div_1_r, Nat.mod_1_r. simpl. lia.
  - rewrite spLevel_nth by auto. cbn [bsz].
    rewrite <- (IH (p / 2)) by (apply half_lt; auto).
    pose proof (spLevel_range d (half_lt _ Hp)) as Hr.
    set (s := nth (p / 2) (spLevel d) 0) in *.
    pose proof (pow2_pos d) as Hpos.
    set (P := 2 ^ d) in *.
    assert (EP : 2 ^ S d = P * 2) by (unfold P; simpl; lia).
    rewrite EP.
    assert (EM : n mod (P * 2) = n mod P + P * ((n / P) mod 2)) by (apply Nat.mod_mul_r; lia).
    assert (ED : n / (P * 2) = n / P / 2) by (rewrite Nat.div_div by lia; reflexivity).
    rewrite EM, ED.
    pose proof (Nat.mod_upper_bound n P) as Hm.
    set (q := n / P) in *. set (r := n mod P) in *. clearbody q r s.
    assert (Hr' : r < P) by (apply Hm; lia). clear Hm EM ED IH EP.
    pose proof (Nat.div_mod q 2) as Eq.
    pose proof (Nat.mod_upper_bound q 2) as Hq.
    set (h := q / 2) in *. set (b := q mod 2) in *. clearbody h b P.
    assert (Hb : b = 0 \/ b = 1) by lia.
    assert (Eq' : q = 2 * h + b) by lia. clear Eq Hq.
    assert (D0 : 2 * h / 2 = h) by apply div2_2p.
    assert (D1 : (2 * h + 1) / 2 = h) by apply div2_2p1.
    assert (D2 : (2 * h + 1 + 1) / 2 = h + 1).
    { replace (2 * h + 1 + 1) with (2 * (h + 1)) by lia. apply div2_2p. }
    subst q.
    destruct Hb as [-> | ->]; destruct (Nat.even p);
      destruct (Nat.leb_spec s r);
      repeat match goal with |- context [?x <=? ?y] => destruct (Nat.leb_spec x y) end;
      try lia;
      rewrite ?Nat.add_0_r; try lia.
Qed.

(** Sizes of one level differ by at most one. *)
Lemma bsz_balanced n d p : p < 2 ^ d -> n / 2 ^ d <= bsz n d p <= n / 2 ^ d + 1.
Proof.
  intros Hp. rewrite <- formula_bsz by auto. destruct (_ <=? _); lia.
Qed.

(** And not more than the ceiling. *)
Lemma bsz_upper n d p m : p < 2 ^ d -> n <= m * 2 ^ d -> bsz n d p <= m.
Proof.
  revert p m; induction d as [|d IH]; intros p m Hp Hn; [simpl in *; lia|].
  cbn [bsz]. specialize (IH (p / 2) (2 * m) (half_lt _ Hp)).
  assert (H : bsz n d (p / 2) <= 2 * m) by (apply IH; simpl in Hn; lia).
  set (z := bsz n d (p / 2)) in *. clearbody z.
  pose proof (Nat.div_mod z 2). pose proof (Nat.mod_upper_bound z 2).
  destruct (Nat.even p); lia.
Qed.

Lemma bsz_lower n d p m : p < 2 ^ d -> m * 2 ^ d <= n -> m <= bsz n d p.
Proof.
  intros Hp Hn. pose proof (bsz_balanced n d Hp) as [H _].
  eapply Nat.le_trans; [|exact H].
  apply Nat.div_le_lower_bound; [pose proof (pow2_pos d); lia|lia].
Qed.

Lemma bucketSize_bsz sp d n p : sp_good sp -> d < length sp -> p < 2 ^ d ->
  bucketSize sp d n p = bsz n d p.
Proof.
  intros G Hd Hp. unfold bucketSize. rewrite (G d Hd). apply formula_bsz; auto.
Qed.

Lemma split_points_good : sp_good split_points /\ maxLevels < length split_points.
Proof. apply initializeSplitPoints_spec. intros l Hl; simpl in Hl; lia. Qed.

(** *** Scans *)
Lemma scanIncl_length l : forall a, length (scanIncl a l) = length l.
Proof. induction l; intros; simpl; auto. Qed.
Lemma scanIncl_nth l : forall a k, k < length l ->
  nth k (scanIncl a l) 0 = a + list_sum (firstn (S k) l).
Proof.
  induction l as [|x l IH]; intros a k Hk; [simpl in Hk; lia|].
  cbn [scanIncl]. destruct k as [|k]; [simpl; lia|].
  cbn [nth]. rewrite IH by (simpl in Hk; lia). cbn [firstn list_sum fold_right]. unfold list_sum. simpl. lia.
Qed.
Lemma scanExcl_nth l : forall a k, k < length l ->
  nth k (scanExcl a l) 0 = a + list_sum (firstn k l).
Proof.
  induction l as [|x l IH]; intros a k Hk; [simpl in Hk; lia|].
  cbn [scanExcl]. destruct k as [|k]; [simpl; lia|].
  cbn [nth]. rewrite IH by (simpl in Hk; lia). cbn [firstn]. unfold list_sum. simpl. lia.
Qed.

(** Offsets: bucket [p] starts at the sum of the sizes before it. *)
Lemma bst_sum s n d : forall p, p < 2 ^ d ->
  bst s n d p = s + list_sum (map (bsz n d) (seq 0 p)).
Proof.
  induction p as [|p IH]; intros Hp.
  - rewrite bst_first. simpl. lia.
  - replace (S p) with (p + 1) at 1 by lia. rewrite bst_next by lia.
    rewrite IH by lia. rewrite seq_S, map_app, list_sum_app. simpl. lia.
Qed.

Lemma bsz_sum n d : list_sum (map (bsz n d) (seq 0 (2 ^ d))) = n.
Proof. rewrite <- halves_map. apply halves_sum. Qed.

Lemma leftEndpoints_spec sp d n i : sp_good sp -> d < length sp -> i <= 2 ^ d ->
  nth i (computeLeftEndpoints sp d n) 0 = list_sum (firstn i (halves d n)).
Proof.
  intros G Hd Hi. unfold computeLeftEndpoints.
  rewrite scanIncl_nth by (cbn [length]; rewrite map_length, seq_length; lia).
  cbn [firstn list_sum fold_right]. rewrite halves_map.
  replace (map (bucketSize sp d n) (seq 0 (2 ^ d))) with (map (bsz n d) (seq 0 (2 ^ d))).
  2:{ apply map_ext_in. intros p Hp. apply in_seq in Hp. rewrite bucketSize_bsz; auto; lia. }
  reflexivity.
Qed.

Lemma bottomChildSizes_spec sp d n i : sp_good sp -> d < length sp -> i < 2 ^ d ->
  nth i (computeBottomChildSizes sp d n) 0 =
  list_sum (map numNodesBottom (firstn i (halves d n))).
Proof.
  intros G Hd Hi. unfold computeBottomChildSizes.
  rewrite scanExcl_nth by (rewrite map_length, seq_length; lia).
  rewrite halves_map, <- !firstn_map, map_map, Nat.add_0_l.
  f_equal. f_equal. apply map_ext_in. intros p Hp. apply in_seq in Hp.
  rewrite bucketSize_bsz; auto; lia.
Qed.
