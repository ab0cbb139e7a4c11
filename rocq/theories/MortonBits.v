(** Bits of the z-order key. *)
From Coq Require Import NArith.
From Verif Require Import Base Num KdModel MortonModel.
Set Implicit Arguments.
Local Open Scope N_scope.

(** Bit j of the current value is the disjunction of the input bits [nth j L]. *)
Definition rep (x0 x : N) (L : list (list N)) : Prop :=
  forall j, N.testbit x j = existsb (N.testbit x0) (nth (N.to_nat j) L []).
Definition symStep (L : list (list N)) (sm : N * N) : list (list N) :=
  map (fun j => if N.testbit (snd sm) (N.of_nat j)
                then nth j L [] ++ (if (N.to_nat (fst sm) <=? j)%nat then nth (j - N.to_nat (fst sm)) L [] else [])
                else []) (seq 0 64).

Lemma shl_bit x s j : N.testbit (shl x s) j = (s <=? j) && (j <? 64) && N.testbit x (j - s).
Proof.
  unfold shl. rewrite N.land_spec. destruct (N.leb_spec s j).
  - rewrite N.shiftl_spec_high' by auto. destruct (N.ltb_spec j 64).
    + rewrite N.ones_spec_low by auto. cbn [andb]. apply andb_true_r.
    + rewrite N.ones_spec_high by auto. apply andb_false_r.
  - rewrite N.shiftl_spec_low by auto. auto.
Qed.

Lemma step_rep x0 x L s m : m < 2 ^ 64 -> rep x0 x L -> rep x0 (spreadStep x (s, m)) (symStep L (s, m)).
Proof.
  intros Hm H j. unfold spreadStep, symStep. cbn [fst snd]. rewrite N.land_spec, N.lor_spec, shl_bit.
  destruct (N.ltb_spec j 64) as [Hj|Hj].
  - assert (Hj' : (N.to_nat j < 64)%nat) by lia.
    set (f := fun j : nat => _). rewrite (nth_map_seq f) by auto. unfold f.
    rewrite N2Nat.id. destruct (N.testbit m j); [|rewrite andb_false_r; auto]. rewrite andb_true_r, existsb_app, H.
    f_equal. destruct (Nat.leb_spec (N.to_nat s) (N.to_nat j)) as [Hs|Hs]; destruct (N.leb_spec s j); try lia; cbn [andb]; auto.
    rewrite H. rewrite N2Nat.inj_sub. auto.
  - rewrite nth_overflow by (rewrite map_length, seq_length; lia). cbn [existsb].
    assert (Z : N.testbit m j = false).
    { destruct (N.eq_dec m 0) as [->|Hz]; [apply N.bits_0|]. apply N.bits_above_log2.
      apply N.log2_lt_pow2; [lia|]. apply N.lt_le_trans with (2 ^ 64); auto. apply N.pow_le_mono_r; lia. }
    rewrite Z. apply andb_false_r.
Qed.

Lemma fold_rep x0 sms : (forall sm, In sm sms -> snd sm < 2 ^ 64) -> forall x L, rep x0 x L ->
  rep x0 (fold_left spreadStep sms x) (fold_left symStep sms L).
Proof.
  induction sms as [|[s m] sms IH]; intros Hm x L H; simpl; auto.
  apply IH; [intros; apply Hm; simpl; auto|]. apply step_rep; auto. apply (Hm (s, m)); simpl; auto.
Qed.

Definition start : list (list N) := map (fun i => [N.of_nat i]) (seq 0 16).
Lemma rep_start x : x <= 65535 -> rep x x start.
Proof.
  intros Hx j. destruct (N.ltb_spec j 16) as [Hj|Hj].
  - unfold start. rewrite (nth_map_seq (fun i => [N.of_nat i])) by lia. rewrite N2Nat.id. simpl. rewrite orb_false_r. auto.
  - rewrite nth_overflow by (unfold start; rewrite map_length, seq_length; lia). simpl.
    destruct (N.eq_dec x 0) as [->|Hz]; [apply N.bits_0|]. apply N.bits_above_log2.
    apply N.log2_lt_pow2; [lia|]. apply N.lt_le_trans with (2 ^ 16); [change (2 ^ 16) with 65536; lia|].
    apply N.pow_le_mono_r; lia.
Qed.

(** The four steps send bit i to bit 3i. *)
Lemma spread_bits x : x <= 65535 -> exists s, spread x = Ok s /\
  forall j, N.testbit s j = (j mod 3 =? 0) && N.testbit x (j / 3).
Proof.
  intros Hx. unfold spread. destruct (N.ltb_spec 65535 x); [lia|]. eexists. split; [reflexivity|].
  intros j.
  assert (R : rep x (fold_left spreadStep spreadSteps x) (fold_left symStep spreadSteps start)).
  { apply fold_rep; [|apply rep_start; auto]. intros sm Hs. repeat (destruct Hs as [<-|Hs]; [reflexivity|]). destruct Hs. }
  rewrite (R j).
  assert (C : fold_left symStep spreadSteps start =
              map (fun j => if (j mod 3 =? 0)%nat && (j <? 48)%nat then [N.of_nat (j / 3)] else []) (seq 0 64)).
  { vm_compute. reflexivity. }
  rewrite C. clear C R.
  assert (Hhigh : 16 <= j / 3 -> N.testbit x (j / 3) = false).
  { intros Hj. rewrite (rep_start Hx). rewrite nth_overflow; auto. unfold start. rewrite map_length, seq_length. lia. }
  assert (M : forall n, N.of_nat (n mod 3) = N.of_nat n mod 3) by (intros; rewrite Nat2N.inj_mod; auto).
  assert (D : forall n, N.of_nat (n / 3) = N.of_nat n / 3) by (intros; rewrite Nat2N.inj_div; auto).
  destruct (N.ltb_spec j 64) as [Hj|Hj].
  - set (f := fun j : nat => _). rewrite (nth_map_seq f) by lia. unfold f.
    rewrite D, N2Nat.id.
    assert (E : ((N.to_nat j mod 3 =? 0)%nat = (j mod 3 =? 0))).
    { specialize (M (N.to_nat j)). rewrite N2Nat.id in M. rewrite <- M.
      destruct (Nat.eqb_spec (N.to_nat j mod 3) 0), (N.eqb_spec (N.of_nat (N.to_nat j mod 3)) 0); auto; lia. }
    rewrite E. destruct (j mod 3 =? 0); cbn [andb]; auto.
    destruct (Nat.ltb_spec (N.to_nat j) 48); cbn [existsb]; [rewrite orb_false_r; auto|].
    symmetry. apply Hhigh. apply N.div_le_lower_bound; lia.
  - rewrite nth_overflow by (rewrite map_length, seq_length; lia). cbn [existsb].
    rewrite Hhigh, andb_false_r; auto. apply N.div_le_lower_bound; lia.
Qed.

(** *** the key *)
Lemma bit48 s x : x <= 65535 -> (forall j, N.testbit s j = (j mod 3 =? 0) && N.testbit x (j / 3)) ->
  forall j, 48 <= j -> N.testbit s j = false.
Proof.
  intros Hx H j Hj. rewrite H.
  assert (16 <= j / 3) by (apply N.div_le_lower_bound; lia).
  rewrite (rep_start Hx), nth_overflow by (unfold start; rewrite map_length, seq_length; lia).
  apply andb_false_r.
Qed.

(** key bit 3i+c is bit i of coordinate c *)
Lemma zkeyFrom_bits cells : Forall (fun x => x <= 65535) cells -> forall c, c + N.of_nat (length cells) <= 3 ->
  exists k, zkeyFrom c cells = Ok k /\
  forall j, N.testbit k j = (c <=? j mod 3) && N.testbit (nth (N.to_nat (j mod 3 - c)) cells 0) (j / 3).
Proof.
  induction 1 as [|x xs Hx HF IH]; intros c Hc; cbn [zkeyFrom length] in *.
  - exists 0. split; auto. intros j. rewrite N.bits_0. destruct (N.to_nat (j mod 3 - c)); simpl; rewrite andb_false_r; auto.
  - destruct (spread_bits Hx) as (s & Es & Hs). rewrite Es. cbn [bind].
    destruct (IH (c + 1) ltac:(lia)) as (r & Er & Hr). rewrite Er. cbn [bind].
    eexists. split; [reflexivity|]. intros j. rewrite N.lor_spec, shl_bit, Hr.
    assert (Hm : j mod 3 < 3) by (apply N.mod_lt; lia).
    pose proof (N.div_mod j 3 ltac:(lia)) as DM.
    assert (G : (c <=? j) && (j <? 64) && N.testbit s (j - c) = (j mod 3 =? c) && N.testbit x (j / 3)).
    { destruct (N.ltb_spec j 51) as [Hj|Hj].
      - assert (j <? 64 = true) as -> by (apply N.ltb_lt; lia). rewrite andb_true_r.
        destruct (N.leb_spec c j) as [Hcj|Hcj]; cbn [andb].
        + rewrite Hs. destruct (N.eqb_spec (j mod 3) c) as [Hjc|Hjc]; cbn [andb].
          * assert (E : j - c = 3 * (j / 3)) by lia. rewrite E, N.mul_comm, N.mod_mul, N.div_mul by lia. auto.
          * destruct (N.eqb_spec ((j - c) mod 3) 0) as [Hz|]; auto. exfalso. apply Hjc.
            pose proof (N.div_mod (j - c) 3 ltac:(lia)) as DM2. rewrite Hz in DM2.
            assert (E : j = c + (j - c) / 3 * 3) by lia. rewrite E, N.mod_add by lia. apply N.mod_small. lia.
        + destruct (N.eqb_spec (j mod 3) c); auto. exfalso.
          pose proof (N.mod_le j 3 ltac:(lia)). lia.
      - rewrite (@bit48 s x Hx Hs) by lia. rewrite andb_false_r. symmetry.
        assert (16 <= j / 3) by (apply N.div_le_lower_bound; lia).
        rewrite (rep_start Hx), nth_overflow by (unfold start; rewrite map_length, seq_length; lia). apply andb_false_r. }
    rewrite G. destruct (N.eqb_spec (j mod 3) c) as [Hjc|Hjc].
    + rewrite Hjc. assert (c + 1 <=? c = false) as -> by (apply N.leb_gt; lia). rewrite N.leb_refl, N.sub_diag.
      cbn [andb]. rewrite orb_false_r. reflexivity.
    + cbn [andb orb]. destruct (N.leb_spec c (j mod 3)) as [H1|H1]; destruct (N.leb_spec (c + 1) (j mod 3)) as [H2|H2]; try lia; cbn [andb]; auto.
      f_equal. replace (N.to_nat (j mod 3 - c)) with (S (N.to_nat (j mod 3 - (c + 1)))) by lia. reflexivity.
Qed.

Lemma zkey_bits cells : (length cells <= 3)%nat -> Forall (fun x => x <= 65535) cells ->
  exists k, zkey cells = Ok k /\
  forall j, N.testbit k j = N.testbit (nth (N.to_nat (j mod 3)) cells 0) (j / 3).
Proof.
  intros HL HF. destruct (zkeyFrom_bits HF 0 ltac:(lia)) as (k & E & H). exists k. split; auto.
  intros j. rewrite H, N.sub_0_r. assert (0 <=? j mod 3 = true) as -> by (apply N.leb_le, N.le_0_l). auto.
Qed.

Lemma zkey_throws cells : Exists (fun x => 65535 < x) cells -> zkey cells = Throw.
Proof.
  unfold zkey. generalize 0. induction cells as [|x xs IH]; intros c H; [inversion H|]. cbn [zkeyFrom].
  unfold spread at 1. destruct (N.ltb_spec 65535 x) as [Hx|Hx]; [reflexivity|].
  inversion H as [? ? H1|? ? H1]; subst; [lia|]. cbn [bind]. rewrite IH; auto.
Qed.

(** *** comparison of numbers is comparison at the highest differing bit *)
Lemma lt_bits a b : a < b <-> exists j, N.testbit a j = false /\ N.testbit b j = true /\
  forall k, j < k -> N.testbit a k = N.testbit b k.
Proof.
  assert (G : forall a b j, N.testbit a j = false -> N.testbit b j = true ->
             (forall k, j < k -> N.testbit a k = N.testbit b k) -> a < b).
  { clear a b. intros a b j Ha Hb Hk.
    assert (E : a / 2 ^ (j + 1) = b / 2 ^ (j + 1)).
    { apply N.bits_inj. intros k. rewrite <- !N.shiftr_div_pow2, !N.shiftr_spec'. apply Hk. lia. }
    assert (Hp : 2 ^ (j + 1) = 2 * 2 ^ j) by (rewrite N.add_1_r, N.pow_succ_r'; auto).
    assert (P0 : 0 < 2 ^ j) by (apply N.neq_0_lt_0, N.pow_nonzero; lia).
    pose proof (N.testbit_spec' a j) as Ta. pose proof (N.testbit_spec' b j) as Tb. rewrite Ha in Ta. rewrite Hb in Tb.
    cbn [N.b2n] in Ta, Tb.
    assert (NZ : 2 ^ j <> 0) by (apply N.pow_nonzero; discriminate).
    assert (N2 : 2 <> 0) by discriminate.
    pose proof (N.div_mod (a / 2 ^ j) 2 N2) as Da. pose proof (N.div_mod (b / 2 ^ j) 2 N2) as Db.
    rewrite N.div_div in Da by auto. rewrite N.div_div in Db by auto. rewrite (N.mul_comm (2 ^ j) 2), <- Hp in Da, Db. rewrite E in Da.
    pose proof (N.div_mod a (2 ^ j) NZ). pose proof (N.div_mod b (2 ^ j) NZ).
    pose proof (N.mod_lt a (2 ^ j) NZ). pose proof (N.mod_lt b (2 ^ j) NZ).
    assert (Q : a / 2 ^ j + 1 = b / 2 ^ j) by (rewrite <- Ta in Da; rewrite <- Tb in Db; rewrite Da, Db; clear; lia).
    rewrite <- Q, N.mul_add_distr_l in H0.
    rewrite N.mul_1_r in H0.
    assert (Ar : forall x y p q r s, x = q + r -> y = q + p + s -> r < p -> x < y) by (clear; intros; lia).
    exact (Ar _ _ _ _ _ _ H H0 H1). }
  split.
  - intros Hlt. set (m := N.log2 (N.lxor a b)).
    assert (Hx : N.lxor a b <> 0) by (intros Z; apply N.lxor_eq in Z; lia).
    assert (Hm : N.testbit (N.lxor a b) m = true) by (apply N.bit_log2; auto).
    assert (Hk : forall k, m < k -> N.testbit a k = N.testbit b k).
    { intros k Hk. assert (Z : N.testbit (N.lxor a b) k = false) by (apply N.bits_above_log2; auto).
      rewrite N.lxor_spec in Z. destruct (N.testbit a k), (N.testbit b k); auto; discriminate. }
    rewrite N.lxor_spec in Hm. exists m.
    destruct (N.testbit a m) eqn:Ea, (N.testbit b m) eqn:Eb; try discriminate; [|auto].
    exfalso. assert (b < a) by (apply (G b a m Eb Ea); intros; symmetry; auto). lia.
  - intros (j & Ha & Hb & Hk). eauto.
Qed.

(** Keys compare by the highest bit level first and, within a level, the last
    coordinate first. *)
Lemma zkey_lt cs ds a b : length cs = length ds -> (length cs <= 3)%nat ->
  Forall (fun x => x <= 65535) cs -> Forall (fun x => x <= 65535) ds ->
  zkey cs = Ok a -> zkey ds = Ok b ->
  (a < b <-> exists i c, (c < length cs)%nat /\
     N.testbit (nth c cs 0) i = false /\ N.testbit (nth c ds 0) i = true /\
     forall i' c', (c' < length cs)%nat -> i < i' \/ (i' = i /\ (c < c')%nat) ->
       N.testbit (nth c' cs 0) i' = N.testbit (nth c' ds 0) i').
Proof.
  intros HL H3 HC HD Ea Eb.
  destruct (zkey_bits H3 HC) as (a' & Ea' & Ha). rewrite Ea in Ea'. inversion Ea'; subst a'; clear Ea'.
  destruct (@zkey_bits ds ltac:(lia) HD) as (b' & Eb' & Hb). rewrite Eb in Eb'. inversion Eb'; subst b'; clear Eb'.
  rewrite lt_bits. split.
  - intros (j & Ja & Jb & Jk). pose proof (N.div_mod j 3 ltac:(lia)) as DM. pose proof (N.mod_lt j 3 ltac:(lia)) as ML.
    rewrite Ha in Ja. rewrite Hb in Jb.
    assert (Hc : (N.to_nat (j mod 3) < length cs)%nat).
    { destruct (Nat.lt_ge_cases (N.to_nat (j mod 3)) (length cs)); auto. rewrite nth_overflow in Jb by lia. rewrite N.bits_0 in Jb. discriminate. }
    exists (j / 3), (N.to_nat (j mod 3)). split; [auto|split; [auto|split; [auto|]]].
    intros i' c' Hc' Hi. specialize (Jk (3 * i' + N.of_nat c')). rewrite Ha, Hb in Jk.
    assert (E1 : (3 * i' + N.of_nat c') mod 3 = N.of_nat c').
    { rewrite N.add_comm, N.mul_comm, N.mod_add by lia. apply N.mod_small. lia. }
    assert (E2 : (3 * i' + N.of_nat c') / 3 = i').
    { rewrite N.add_comm, N.mul_comm, N.div_add by lia. rewrite N.div_small by lia. lia. }
    rewrite E1, E2, Nat2N.id in Jk. apply Jk. lia.
  - intros (i & c & Hc & Ci & Di & Hk). exists (3 * i + N.of_nat c). rewrite Ha, Hb.
    assert (E1 : (3 * i + N.of_nat c) mod 3 = N.of_nat c).
    { rewrite N.add_comm, N.mul_comm, N.mod_add by lia. apply N.mod_small. lia. }
    assert (E2 : (3 * i + N.of_nat c) / 3 = i).
    { rewrite N.add_comm, N.mul_comm, N.div_add by lia. rewrite N.div_small by lia. lia. }
    rewrite E1, E2, Nat2N.id. split; auto. split; auto. intros k Hk'. rewrite Ha, Hb.
    pose proof (N.div_mod k 3 ltac:(lia)) as DM. pose proof (N.mod_lt k 3 ltac:(lia)) as ML.
    destruct (Nat.lt_ge_cases (N.to_nat (k mod 3)) (length cs)) as [Hl|Hl]; [|rewrite !nth_overflow by lia; auto].
    apply Hk; auto. destruct (N.lt_trichotomy i (k / 3)) as [|[E|]]; [auto| |exfalso; lia].
    right. split; [auto|]. lia.
Qed.

Lemma zkey_inj cs ds a : length cs = length ds -> (length cs <= 3)%nat ->
  Forall (fun x => x <= 65535) cs -> Forall (fun x => x <= 65535) ds ->
  zkey cs = Ok a -> zkey ds = Ok a -> cs = ds.
Proof.
  intros HL H3 HC HD Ea Eb.
  destruct (zkey_bits H3 HC) as (a' & Ea' & Ha). rewrite Ea in Ea'. inversion Ea'; subst a'; clear Ea'.
  destruct (@zkey_bits ds ltac:(lia) HD) as (b' & Eb' & Hb). rewrite Eb in Eb'. inversion Eb'; subst b'; clear Eb'.
  apply nth_ext with (d := 0) (d' := 0); auto. intros c Hc. apply N.bits_inj. intros i.
  specialize (Ha (3 * i + N.of_nat c)). specialize (Hb (3 * i + N.of_nat c)).
  assert (E1 : (3 * i + N.of_nat c) mod 3 = N.of_nat c).
  { rewrite N.add_comm, N.mul_comm, N.mod_add by lia. apply N.mod_small. lia. }
  assert (E2 : (3 * i + N.of_nat c) / 3 = i).
  { rewrite N.add_comm, N.mul_comm, N.div_add by lia. rewrite N.div_small by lia. lia. }
  rewrite E1, E2, Nat2N.id in Ha, Hb. congruence.
Qed.

Lemma zkey_mono cs ds a b : Forall2 N.le cs ds -> (length cs <= 3)%nat ->
  Forall (fun x => x <= 65535) ds -> zkey cs = Ok a -> zkey ds = Ok b -> a <= b.
Proof.
  intros HF H3 HD Ea Eb.
  assert (HL : length cs = length ds) by (clear - HF; induction HF; simpl; auto).
  assert (HC : Forall (fun x => x <= 65535) cs).
  { clear - HF HD. induction HF; constructor; inversion HD; subst; auto. lia. }
  assert (Hn : forall c, nth c cs 0 <= nth c ds 0).
  { clear - HF. induction HF; intros [|c]; simpl; auto; lia. }
  destruct (N.le_gt_cases a b) as [|Hgt]; auto. exfalso.
  apply (@zkey_lt ds cs b a) in Hgt; auto; try lia.
  destruct Hgt as (i & c & Hc & Bi & Ai & Hk).
  assert (nth c ds 0 < nth c cs 0); [|specialize (Hn c); lia].
  apply lt_bits. exists i. split; [auto|split; [auto|]]. intros k Hki. apply Hk; auto.
Qed.
