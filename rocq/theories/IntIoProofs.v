(** Integer files: what is written and read. *)
From Coq Require Import Ascii String NArith ZArith.
From Verif Require Import Base Sched IoModel IoProofs GraphIoModel GraphIoSpec GraphIoProofs IntIoModel IntIoSpec.
Set Implicit Arguments.
Open Scope list_scope.
Open Scope nat_scope.

Definition inKind (k : ikind) (z : Z) : Prop := (iLo k <= z < iHi k)%Z.

(** *** Decimal texts and their lengths *)
Lemma luF_short fuel : forall n k, 0 < k -> (n < 10 ^ N.of_nat k)%N -> length (luF fuel n) <= k.
Proof.
  induction fuel as [|f IH]; intros n k Hk H; cbn [luF]; [cbn; lia|]. destruct (N.ltb_spec n 10) as [L|L]; [cbn; lia|].
  destruct k as [|k]; [lia|]. rewrite app_length. cbn [length]. destruct k as [|k].
  - cbn in H. lia.
  - rewrite Nat2N.inj_succ, N.pow_succ_r' in H.
    assert (length (luF f (n / 10)) <= S k); [|lia]. apply IH; [lia|]. apply N.div_lt_upper_bound; [lia|exact H].
Qed.
Lemma ldText_signed k z : inKind k z -> signedDecimal z (ldText z).
Proof.
  intros H. assert (H64 : (- 2 ^ 63 <= z < 2 ^ 64)%Z) by (destruct k; unfold inKind, iLo, iHi in H; lia).
  unfold ldText. destruct (Z.ltb_spec z 0) as [L|L].
  - right. split; auto. eexists. split; [reflexivity|]. apply luText_decimal. unfold word64. lia.
  - left. split; auto. apply luText_decimal. unfold word64. lia.
Qed.
Lemma ldText_length k z : inKind k z -> length (ldText z) < iW k.
Proof.
  intros H. unfold ldText.
  assert (W : (Z.to_N (Z.abs z) < 10 ^ N.of_nat (match k with Int | Uint => 10 | Long => 19 | Ulong => 20 end))%N).
  { destruct k; unfold inKind, iLo, iHi in H; match goal with |- (_ < ?p)%N => let v := eval vm_compute in p in change p with v end; lia. }
  assert (P : 0 < match k with Int | Uint => 10 | Long => 19 | Ulong => 20 end) by (destruct k; lia).
  destruct (Z.ltb_spec z 0) as [L|L].
  - rewrite Z.abs_neq in W by lia. pose proof (@luF_short 20 _ _ P W) as S. fold (luText (Z.to_N (- z))) in S. cbn [length].
    destruct k; unfold inKind, iLo, iHi, iW in *; lia.
  - rewrite Z.abs_eq in W by lia. pose proof (@luF_short 20 _ _ P W) as S. fold (luText (Z.to_N z)) in S.
    destruct k; unfold iW; lia.
Qed.
Lemma signed_char z s c : signedDecimal z s -> In c s -> isDigit c \/ c = "-"%char.
Proof.
  intros [(_ & _ & H & _)|(_ & s' & -> & _ & H & _)]; [auto|]. intros [<-|Hc]; auto.
Qed.
Lemma signed_nonempty z s : signedDecimal z s -> s <> [].
Proof. intros [(_ & H & _)|(_ & s' & -> & _)]; [auto|discriminate]. Qed.
Lemma separator_space c : is_space c = true <-> separator c.
Proof.
  unfold separator. split; [|intros H].
  - destruct c as [[] [] [] [] [] [] [] []]; vm_compute; intros H; try discriminate; tauto.
  - cbn [In] in H. rewrite <- (ascii_nat_embedding c). repeat (destruct H as [<-|H]; [reflexivity|]). destruct H.
Qed.
Lemma signed_nonspace z s c : signedDecimal z s -> In c s -> is_space c = false.
Proof.
  intros H Hc. destruct (is_space c) eqn:E; auto. exfalso. apply separator_space in E. unfold separator in E. cbn [In] in E.
  destruct (@signed_char z s c H Hc) as [D| ->]; [unfold isDigit in D; lia|]. vm_compute in E. intuition discriminate.
Qed.

(** *** Writing *)
Definition iLine (z : Z) : text := ldText z ++ [NL].
Lemma intString_ok k sched A : A <> [] -> (forall z, In z A -> inKind k z) ->
  (intSeqToString k sched A = Fuel \/ intSeqToString k sched A = Ok (concat (map iLine A) ++ [NUL])) /\
  exists sched', intSeqToString k (sched ++ sched') A = Ok (concat (map iLine A) ++ [NUL]).
Proof.
  intros Hne HA. assert (E : concat (map iLine A) = concat (map ctext (flat_map (intThreads k) A))).
  { rewrite map_concat_flat. f_equal. apply map_ext. intros z. unfold iLine, ctext, intThreads. cbn [map concat fst snd]. rewrite !app_nil_r. reflexivity. }
  rewrite E. apply threadsToString_ok.
  - intros t c Ht Hc. apply in_flat_map in Ht as (z & Hz & Ht). unfold intThreads in Ht.
    destruct Ht as [<-|[]]; destruct Hc as [<-|[]]. pose proof (ldText_length (HA z Hz)) as L. split; [|split]; cbn [fst snd].
    + lia.
    + intros x Hx F. subst x. pose proof (@signed_nonspace z _ NUL (ldText_signed (HA z Hz)) Hx) as S. discriminate.
    + discriminate.
  - destruct A as [|z A]; [congruence|]. discriminate.
Qed.

(** *** Reading *)
Lemma tokF_sep pre : (forall c, In c pre -> separator c) -> forall s, tokF [] (pre ++ s) = tokF [] s.
Proof.
  induction pre as [|c pre IH]; intros H s; auto. cbn [app tokF].
  rewrite (proj2 (separator_space c)) by (apply H; left; auto). apply IH. intros; apply H; right; auto.
Qed.
Lemma tokF_word w : (forall c, In c w -> ~ separator c) -> forall cur s, tokF cur (w ++ s) = tokF (cur ++ w) s.
Proof.
  induction w as [|c w IH]; intros H cur s; cbn [app]; [rewrite app_nil_r; auto|]. cbn [tokF].
  destruct (is_space c) eqn:E.
  - exfalso. apply separator_space in E. apply (H c); auto. left. auto.
  - rewrite IH by (intros; apply H; right; auto). rewrite <- app_assoc. reflexivity.
Qed.
Lemma tokens_layout ws s : layout ws s -> tokens s = ws.
Proof.
  unfold tokens. induction 1 as [s H|pre w H1 H2 H3|pre w c ws s H1 H2 H3 H4 H5 IH].
  - rewrite <- (app_nil_r s). rewrite tokF_sep by auto. reflexivity.
  - rewrite tokF_sep by auto. rewrite <- (app_nil_r w) at 1. rewrite tokF_word by auto. cbn. destruct w; congruence.
  - rewrite tokF_sep by auto. rewrite tokF_word by auto. cbn [app tokF]. rewrite (proj2 (separator_space c)) by auto.
    destruct w; [congruence|]. rewrite IH. reflexivity.
Qed.
Lemma textEq_spec a : forall b, textEq a b = true <-> a = b.
Proof.
  induction a as [|x a IH]; intros [|y b]; cbn; try (split; congruence).
  rewrite andb_true_iff, IH. unfold ceq. rewrite Ascii.eqb_eq. split; [intros [-> ->]; auto|intros E; injection E; auto].
Qed.
Lemma layout_lines A : Forall (fun z => signedDecimal z (ldText z)) A -> layout (map ldText A) (concat (map iLine A)).
Proof.
  induction A as [|z A IH]; intros H; cbn [map concat]; [constructor; intros c []|]. inversion_clear H as [|? ? Hz HA].
  unfold iLine. rewrite <- app_assoc. cbn [app].
  apply (@lay_word [] (ldText z) NL).
  - intros c [].
  - apply (signed_nonempty Hz).
  - intros c Hc F. apply separator_space in F. rewrite (@signed_nonspace z _ c Hz Hc) in F. discriminate.
  - apply separator_space. reflexivity.
  - auto.
Qed.
Lemma iCast_id k z : inKind k z -> iCast k z = z.
Proof. intros H. unfold iCast. unfold inKind in H. rewrite Z.mod_small by lia. lia. Qed.

(** *** The concrete chars_to_long *)
Lemma digitsVal_value s : (forall c, In c s -> isDigit c) -> forall a,
  digitsVal (Z.of_N a) s = Z.of_N (fold_left (fun a c => (10 * a + N.of_nat (nat_of_ascii c - 48))%N) s a).
Proof.
  induction s as [|c s IH]; intros H a; auto. cbn [digitsVal fold_left].
  destruct (H c (or_introl eq_refl)) as [L1 L2].
  rewrite (proj2 (Nat.leb_le _ _) L1), (proj2 (Nat.leb_le _ _) L2). cbn [andb].
  rewrite <- IH by (intros; apply H; right; auto). f_equal. lia.
Qed.
Lemma charsToLong0_ok z s : signedDecimal z s -> inLong z = true -> charsToLong0 s = Ok z.
Proof.
  intros H HL. unfold charsToLong0. destruct H as [(L & Hne & HD & HV & _)|(L & s' & -> & Hne & HD & HV & _)].
  - assert (E : digitsVal 0 s = z).
    { change 0%Z with (Z.of_N 0). rewrite digitsVal_value by auto. unfold value in HV. rewrite HV. lia. }
    destruct s as [|c s]; [congruence|]. pose proof (HD c (or_introl eq_refl)) as Hc.
    destruct (ceq_spec c "-"%char) as [->|_]; [vm_compute in Hc; lia|].
    destruct (ceq_spec c "+"%char) as [->|_]; [vm_compute in Hc; lia|]. rewrite E, HL. reflexivity.
  - assert (E : (- digitsVal 0 s')%Z = z).
    { change 0%Z with (Z.of_N 0). rewrite digitsVal_value by auto. unfold value in HV. rewrite HV. lia. }
    cbn [ceq]. destruct (ceq_spec "-"%char "-"%char) as [_|F]; [|congruence]. rewrite E, HL. reflexivity.
Qed.
