(** Van Emde Boas layout of the cache-oblivious kd-tree: addresses of nodes and
    the table of last-level nodes (cache-oblivious/utils.h 139-163). *)
From Verif Require Import Base BatchSplit.
Set Implicit Arguments.

Lemma bottomNumLevels_bounds L : 2 <= L ->
  1 <= bottomNumLevels L /\ bottomNumLevels L < L.
Proof.
  intros HL. unfold bottomNumLevels, hyperCeiling.
  set (m := (L + 1) / 2).
  assert (Hm : 2 * m <= L + 1) by (unfold m; pose proof (Nat.mul_div_le (L + 1) 2); lia).
  assert (Hm1 : 1 <= m) by (unfold m; apply Nat.div_le_lower_bound; lia).
  split; [apply pow2_pos|].
  destruct (Nat.eq_dec m 1) as [-> | Hne].
  - simpl. lia.
  - destruct (Nat.log2_up_spec m) as [H1 _]; [lia|].
    assert (Hk : 0 < Nat.log2_up m) by (apply Nat.log2_up_pos; lia).
    destruct (Nat.log2_up m) as [|k]; [lia|].
    cbn [Nat.pred] in H1. cbn [Nat.pow]. lia.
Qed.

(** Address of node [p] of depth [d] in a complete tree of [L] levels: the top
    [t] levels first, then the [2^t] bottom trees one after the other. *)
Fixpoint addrF (f L d p : nat) : nat :=
  match f with
  | 0 => 0
  | S f' =>
    if L <=? 1 then 0
    else
      let b := bottomNumLevels L in
      let t := L - b in
      if d <? t then addrF f' t d p
      else (2 ^ t - 1) + (p / 2 ^ (d - t)) * (2 ^ b - 1) + addrF f' b (d - t) (p mod 2 ^ (d - t))
  end.
Definition addr (L d p : nat) : nat := addrF L L d p.

Lemma addrF_fuel f : forall f' L d p, L <= f -> L <= f' -> addrF f L d p = addrF f' L d p.
Proof.
  induction f as [|f IH]; intros f' L d p H1 H2.
  - destruct f'; simpl; auto. destruct L; [|lia]. reflexivity.
  - destruct f' as [|f'].
    + destruct L; [|lia]. reflexivity.
    + cbn [addrF]. destruct (Nat.leb_spec L 1); auto.
      destruct (@bottomNumLevels_bounds L) as [B1 B2]; [lia|].
      destruct (d <? L - bottomNumLevels L).
      * apply IH; lia.
      * f_equal. apply IH; lia.
Qed.

Lemma addr_unfold L d p : 2 <= L ->
  addr L d p =
  let b := bottomNumLevels L in
  let t := L - b in
  if d <? t then addr t d p
  else (2 ^ t - 1) + (p / 2 ^ (d - t)) * (2 ^ b - 1) + addr b (d - t) (p mod 2 ^ (d - t)).
Proof.
  intros HL. unfold addr at 1. destruct L as [|L]; [lia|].
  cbn [addrF]. destruct (Nat.leb_spec (S L) 1); [lia|]. cbv zeta.
  destruct (@bottomNumLevels_bounds (S L)) as [B1 B2]; [lia|].
  destruct (d <? S L - bottomNumLevels (S L)).
  - apply addrF_fuel; lia.
  - f_equal. apply addrF_fuel; lia.
Qed.

Lemma addr_one d p : addr 1 d p = 0.
Proof. reflexivity. Qed.

Lemma div_pow_lt p t k : p < 2 ^ (t + k) -> p / 2 ^ k < 2 ^ t.
Proof.
  intros H. apply Nat.div_lt_upper_bound; [pose proof (pow2_pos k); lia|].
  rewrite <- Nat.pow_add_r. replace (k + t) with (t + k) by lia. exact H.
Qed.

Lemma mul_lt_bound i n k x : i < n -> x < k -> i * k + x < n * k.
Proof. intros. nia. Qed.

Lemma addr_bound L : forall d p, 1 <= L -> d < L -> p < 2 ^ d -> addr L d p < 2 ^ L - 1.
Proof.
  induction L as [L IH] using lt_wf_ind. intros d p HL Hd Hp.
  destruct (Nat.eq_dec L 1) as [-> | HL1]; [cbn; lia|].
  rewrite addr_unfold by lia. cbv zeta.
  destruct (@bottomNumLevels_bounds L) as [B1 B2]; [lia|].
  set (b := bottomNumLevels L) in *. set (t := L - b) in *.
  assert (EL : L = t + b) by lia. clearbody b t.
  pose proof (pow2_pos b) as Pb. pose proof (pow2_pos t) as Pt.
  assert (EP : 2 ^ L = 2 ^ t * 2 ^ b) by (rewrite EL; apply Nat.pow_add_r).
  destruct (Nat.ltb_spec d t) as [Hdt | Hdt].
  - specialize (IH t ltac:(lia) d p ltac:(lia) Hdt Hp). rewrite EP. nia.
  - assert (Hq : p / 2 ^ (d - t) < 2 ^ t).
    { apply div_pow_lt. replace (t + (d - t)) with d by lia. exact Hp. }
    assert (Hr : p mod 2 ^ (d - t) < 2 ^ (d - t)).
    { apply Nat.mod_upper_bound. pose proof (pow2_pos (d - t)); lia. }
    specialize (IH b ltac:(lia) (d - t) _ ltac:(lia) ltac:(lia) Hr).
    set (i := p / 2 ^ (d - t)) in *. set (x := addr b (d - t) (p mod 2 ^ (d - t))) in *.
    pose proof (mul_lt_bound Hq IH).
    assert (E2 : 2 ^ t * 2 ^ b = 2 ^ t * (2 ^ b - 1) + 2 ^ t) by nia.
    rewrite EP, E2. lia.
Qed.

Lemma region_inj n i j x y : x < n -> y < n -> i * n + x = j * n + y -> i = j /\ x = y.
Proof. intros Hx Hy E. assert (i = j) by nia. subst. split; lia. Qed.

Lemma addr_inj L : forall d p d' p', 1 <= L -> d < L -> d' < L -> p < 2 ^ d -> p' < 2 ^ d' ->
  addr L d p = addr L d' p' -> d = d' /\ p = p'.
Proof.
  induction L as [L IH] using lt_wf_ind. intros d p d' p' HL Hd Hd' Hp Hp' E.
  destruct (Nat.eq_dec L 1) as [-> | HL1].
  { assert (d = 0) by lia. assert (d' = 0) by lia. subst. simpl in *. split; lia. }
  rewrite !addr_unfold in E by lia. cbv zeta in E.
  destruct (@bottomNumLevels_bounds L) as [B1 B2]; [lia|].
  set (b := bottomNumLevels L) in *. set (t := L - b) in *.
  assert (EL : L = t + b) by lia. clearbody b t.
  pose proof (pow2_pos b) as Pb. pose proof (pow2_pos t) as Pt.
  assert (M : forall d p, d - t < b -> addr b (d - t) (p mod 2 ^ (d - t)) < 2 ^ b - 1).
  { intros d0 p0 H0. apply addr_bound; auto.
    apply Nat.mod_upper_bound. pose proof (pow2_pos (d0 - t)); lia. }
  destruct (Nat.ltb_spec d t) as [Hdt | Hdt]; destruct (Nat.ltb_spec d' t) as [Hdt' | Hdt'].
  - apply (IH t); auto; lia.
  - pose proof (@addr_bound t d p ltac:(lia) Hdt Hp). lia.
  - pose proof (@addr_bound t d' p' ltac:(lia) Hdt' Hp'). lia.
  - pose proof (M d p ltac:(lia)) as M1. pose proof (M d' p' ltac:(lia)) as M2.
    assert (E' : p / 2 ^ (d - t) * (2 ^ b - 1) + addr b (d - t) (p mod 2 ^ (d - t)) =
      p' / 2 ^ (d' - t) * (2 ^ b - 1) + addr b (d' - t) (p' mod 2 ^ (d' - t))) by lia.
    destruct (region_inj _ _ M1 M2 E') as [E1 E2].
    apply IH in E2; try lia.
    + destruct E2 as [E2 E3]. assert (d = d') by lia. subst d'. split; auto.
      rewrite (Nat.div_mod p (2 ^ (d - t))), (Nat.div_mod p' (2 ^ (d - t)));
        try (pose proof (pow2_pos (d - t)); lia).
    + apply Nat.mod_upper_bound. pose proof (pow2_pos (d - t)); lia.
    + apply Nat.mod_upper_bound. pose proof (pow2_pos (d' - t)); lia.
Qed.

(** *** The table of last-level nodes. *)
Definition ciLevel (L : nat) : list nat :=
  match L with 0 => [] | S l => map (addr (S l) l) (seq 0 (2 ^ l)) end.

Lemma flat_map_blocks A (g : nat -> list A) k (f : nat -> A) n :
  (forall i, i < n -> g i = map (fun j => f (i * k + j)) (seq 0 k)) ->
  flat_map g (seq 0 n) = map f (seq 0 (n * k)).
Proof.
  induction n as [|n IH]; intros H; [reflexivity|].
  rewrite seq_S, flat_map_app, IH by (intros; apply H; lia).
  cbn [flat_map]. rewrite app_nil_r. rewrite Nat.add_0_l, H by lia.
  replace (S n * k) with (n * k + k) by lia.
  rewrite seq_app, map_app. f_equal.
  rewrite Nat.add_0_l.
  rewrite <- (map_map (fun j => n * k + j) f). f_equal.
  generalize (n * k) as c. clear. intros c.
  assert (G : forall m a, map (fun j => c + j) (seq a m) = seq (c + a) m).
  { induction m as [|m IH]; intros a; [reflexivity|].
    cbn [seq map]. f_equal. rewrite IH. f_equal. lia. }
  rewrite G. f_equal. lia.
Qed.

Lemma ciRow_level L tbl : 2 <= L ->
  (forall l, l < L -> nth l tbl [] = ciLevel l) -> ciRow L tbl = ciLevel L.
Proof.
  intros HL Ht. unfold ciRow.
  destruct (@bottomNumLevels_bounds L) as [B1 B2]; [lia|].
  destruct L as [|l]; [lia|]. unfold ciLevel.
  set (L := S l) in *.
  assert (exists b, b = bottomNumLevels L) as [b Eb] by eauto. rewrite <- Eb in *.
  assert (exists t, t = L - b) as [t Et] by eauto. rewrite <- Et in *.
  assert (EL : L = t + b) by lia.
  rewrite Ht by lia.
  assert (El : 2 ^ l = 2 ^ t * 2 ^ (b - 1)).
  { rewrite <- Nat.pow_add_r. f_equal. lia. }
  rewrite El. apply flat_map_blocks. intros i Hi.
  destruct b as [|b']; [lia|]. unfold ciLevel. rewrite map_map.
  replace (S b' - 1) with b' by lia.
  apply map_ext_in. intros j Hj. apply in_seq in Hj.
  rewrite (@addr_unfold L) by lia. cbv zeta.
  rewrite <- Eb, <- Et.
  destruct (Nat.ltb_spec l t); [lia|].
  assert (Ed : l - t = b') by (unfold L in *; lia). rewrite Ed.
  assert (E1 : (i * 2 ^ b' + j) / 2 ^ b' = i).
  { symmetry. apply (Nat.div_unique _ _ _ j); [lia|]. lia. }
  assert (E2 : (i * 2 ^ b' + j) mod 2 ^ b' = j).
  { symmetry. apply (Nat.mod_unique _ _ i); [lia|]. lia. }
  rewrite E1, E2. reflexivity.
Qed.

Definition ci_good (tbl : list (list nat)) : Prop :=
  0 < length tbl /\ forall l, l < length tbl -> nth l tbl [] = ciLevel l.

Lemma ciFill_spec cnt : forall tbl, 2 <= length tbl -> ci_good tbl ->
  ci_good (ciFill cnt tbl) /\ length (ciFill cnt tbl) = length tbl + cnt.
Proof.
  induction cnt as [|cnt IH]; intros tbl Hl [H0 G]; cbn [ciFill].
  - split; [split; auto|lia].
  - set (tbl' := tbl ++ [ciRow (length tbl) tbl]).
    assert (L' : length tbl' = length tbl + 1) by (unfold tbl'; rewrite app_length; simpl; lia).
    destruct (IH tbl') as [I1 I2].
    + lia.
    + split; [lia|]. intros l Hl'. unfold tbl'.
      destruct (Nat.eq_dec l (length tbl)) as [-> | Hne].
      * rewrite app_nth2, Nat.sub_diag by lia. cbn [nth]. apply ciRow_level; auto.
      * rewrite app_nth1 by lia. apply G; lia.
    + split; [auto|lia].
Qed.

Lemma initializeChildIndices_spec L tbl : ci_good tbl ->
  ci_good (initializeChildIndices L tbl) /\
  L < length (initializeChildIndices L tbl).
Proof.
  intros [H0 G]. unfold initializeChildIndices.
  destruct (Nat.ltb_spec L (length tbl)) as [Hlt | Hge]; [split; [split|]; auto|].
  destruct (Nat.eqb_spec (length tbl) 1) as [E1 | E1].
  - assert (G1 : ci_good (tbl ++ [[0]])).
    { split; [rewrite app_length; simpl; lia|]. intros l Hl.
      rewrite app_length in Hl. simpl in Hl.
      destruct l as [|l].
      - rewrite app_nth1 by lia. apply G; lia.
      - rewrite app_nth2 by lia. replace (S l - length tbl) with 0 by lia.
        replace l with 0 by lia. reflexivity. }
    assert (Ll : length (tbl ++ [[0]]) = 2) by (rewrite app_length; simpl; lia).
    destruct (@ciFill_spec (L + 1 - length (tbl ++ [[0]])) (tbl ++ [[0]])) as [I1 I2];
      [lia|auto|].
    split; auto. rewrite I2. lia.
  - destruct (@ciFill_spec (L + 1 - length tbl) tbl) as [I1 I2]; [lia|split; auto|].
    split; auto. rewrite I2. lia.
Qed.

Lemma child_indices_good : ci_good child_indices /\ maxLevels < length child_indices.
Proof.
  apply initializeChildIndices_spec. split; [simpl; lia|].
  intros l Hl. simpl in Hl. replace l with 0 by lia. reflexivity.
Qed.

Lemma ci_nth tbl L p : ci_good tbl -> 1 <= L -> L < length tbl -> p < 2 ^ (L - 1) ->
  nth_error (nth L tbl []) p = Some (addr L (L - 1) p).
Proof.
  intros [_ G] HL HL2 Hp. rewrite G by auto. destruct L as [|l]; [lia|].
  replace (S l - 1) with l in * by lia. unfold ciLevel.
  rewrite (nth_error_nth' _ 0) by (rewrite map_length, seq_length; auto).
  f_equal. rewrite nth_map_seq by auto. reflexivity.
Qed.
