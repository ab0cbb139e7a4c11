(** C93: integer sequence files. *)
From Coq Require Import Ascii String NArith ZArith.
From Verif Require Import Base Sched IoModel IoProofs GraphIoModel GraphIoSpec GraphIoProofs IntIoModel IntIoSpec IntIoProofs.
Set Implicit Arguments.
Open Scope list_scope.
Open Scope nat_scope.

(** The contract of parlay::chars_to_long: the decimal text of a [long] gives that [long]. *)
Definition longContract (charsToLong : text -> res Z) : Prop :=
  forall z s, signedDecimal z s -> (- 2 ^ 63 <= z < 2 ^ 63)%Z -> charsToLong s = Ok z.
Lemma charsToLong0_contract : longContract charsToLong0.
Proof.
  intros z s H L. apply charsToLong0_ok; auto. unfold inLong. apply andb_true_iff. rewrite Z.leb_le, Z.ltb_lt. lia.
Qed.

(** C93: what is written, for every element type, block size and schedule: the
    header and one line for each number. *)
Theorem C93_written : forall k bsize scheds A, 0 < bsize -> A <> [] -> (forall z, In z A -> (iLo k <= z < iHi k)%Z) ->
  exists nums, Forall2 signedDecimal A nums /\
    let file := txt "sequenceInt" ++ newline :: concat (map (fun s => s ++ [newline]) nums) in
    (writeIntSeqToFile k bsize scheds A = Fuel \/ writeIntSeqToFile k bsize scheds A = Ok file) /\
    exists more, writeIntSeqToFile k bsize (fun o => scheds o ++ more o) A = Ok file.
Proof.
  intros k bsize scheds A Hb Hne HA. exists (map ldText A). split.
  - clear Hne. induction A as [|z A IH]; constructor; [|apply IH; intros; apply HA; right; auto].
    apply (@ldText_signed k). apply HA. left. auto.
  - rewrite map_map. destruct (@fileG_ok _ (intSeqToString k) iLine (inKind k)
      (fun sched B HB HK => @intString_ok k sched B HB HK) A HA bsize Hb scheds Hne) as [[E|E] (more & Em)].
    all: split; [|exists more; unfold writeIntSeqToFile; rewrite Em; reflexivity]; unfold writeIntSeqToFile; rewrite E; cbn [bind].
    + left. reflexivity.
    + right. reflexivity.
Qed.
Print Assumptions C93_written.

(** C93: what is read: a file whose words, whatever separates them, are the header
    and decimal numbers in the range of the element type. *)
Theorem C93_read : forall charsToLong k file nums A, longContract charsToLong ->
  layout (txt "sequenceInt" :: nums) file -> Forall2 signedDecimal A nums ->
  (forall z, In z A -> (iLo k <= z < iHi k)%Z /\ (z < 2 ^ 63)%Z) ->
  readIntSeqFromFile charsToLong k file = Ok A.
Proof.
  intros ctl k file nums A HC HL HF HA. unfold readIntSeqFromFile. rewrite (tokens_layout HL).
  rewrite (proj2 (textEq_spec _ _) eq_refl). clear HL. induction HF as [|z s A nums Hs HF IH]; [reflexivity|].
  cbn [mapM]. destruct (HA z (or_introl eq_refl)) as [Hz H63]. rewrite (HC z s).
  - cbn [bind]. rewrite iCast_id by exact Hz. rewrite IH by (intros; apply HA; right; auto). reflexivity.
  - auto.
  - destruct k; unfold iLo in Hz; lia.
Qed.
Print Assumptions C93_read.

(** C93: a written file is read back, under every schedule. *)
Theorem C93_round_trip : forall charsToLong k bsize scheds A file, longContract charsToLong -> 0 < bsize ->
  (forall z, In z A -> (iLo k <= z < iHi k)%Z /\ (z < 2 ^ 63)%Z) ->
  writeIntSeqToFile k bsize scheds A = Ok file ->
  readIntSeqFromFile charsToLong k file = Ok A.
Proof.
  intros ctl k bsize scheds A file HC Hb HA HW. assert (Hne : A <> []) by (intros ->; discriminate).
  assert (HK : forall z, In z A -> (iLo k <= z < iHi k)%Z) by (intros z Hz; apply HA; auto).
  destruct (@fileG_ok _ (intSeqToString k) iLine (inKind k)
      (fun sched B HB HK => @intString_ok k sched B HB HK) A HK bsize Hb scheds Hne) as [[E|E] _].
  all: unfold writeIntSeqToFile in HW; rewrite E in HW; cbn [bind] in HW; inversion HW; subst file; clear HW.
  assert (HS : Forall (fun z => signedDecimal z (ldText z)) A).
  { apply Forall_forall. intros z Hz. apply (@ldText_signed k). exact (HK z Hz). }
  apply (@C93_read ctl k _ (map ldText A)); auto.
  - apply (@lay_word [] (txt "sequenceInt") NL).
    + intros c [].
    + discriminate.
    + intros c Hc F. apply separator_space in F. cbn in Hc. repeat (destruct Hc as [<-|Hc]; [discriminate|]). destruct Hc.
    + apply separator_space. reflexivity.
    + apply layout_lines. auto.
  - clear - HS. induction HS; constructor; auto.
Qed.
Print Assumptions C93_round_trip.

(** C93: a file whose first word is not the header is refused. *)
Theorem C93_bad_header : forall charsToLong k file w ws, layout (w :: ws) file -> w <> txt "sequenceInt" ->
  readIntSeqFromFile charsToLong k file = Throw.
Proof.
  intros ctl k file w ws HL Hw. unfold readIntSeqFromFile. rewrite (tokens_layout HL).
  destruct (textEq w intHeader) eqn:E; auto. apply textEq_spec in E. destruct (Hw E).
Qed.
Print Assumptions C93_bad_header.

Example C93_example :
  writeIntSeqToFile Int 2 (fun _ => concat (repeat [2; 1; 0] 13)) [-2147483648; 0; 1203]%Z
    = Ok (txt "sequenceInt" ++ [NL] ++ txt "-2147483648" ++ [NL] ++ txt "0" ++ [NL] ++ txt "1203" ++ [NL]) /\
  readIntSeqFromFile charsToLong0 Int (txt " sequenceInt" ++ [CR; NL] ++ txt "-2147483648,0;;" ++ [NL] ++ txt "1203")
    = Ok [-2147483648; 0; 1203]%Z /\
  readIntSeqFromFile charsToLong0 Int (txt "1 2") = Throw.
Proof. split; [|split]; vm_compute; reflexivity. Qed.

(** C93 refuted for the empty sequence: it cannot be written, although the file
    that holds the header alone is read as the empty sequence; a file without a word
    is read at W[0]. *)
Theorem C93_empty_refuted : forall charsToLong k bsize scheds,
  writeIntSeqToFile k bsize scheds [] = UB /\
  readIntSeqFromFile charsToLong k (txt "sequenceInt") = Ok [] /\
  readIntSeqFromFile charsToLong k (txt " ") = UB.
Proof. intros. split; [|split]; reflexivity. Qed.
Print Assumptions C93_empty_refuted.

(** C93 refuted without the range: a file of [long]s is read as [int]s without an
    error (for every chars_to_long). *)
Theorem C93_range_refuted : forall charsToLong, longContract charsToLong -> exists file,
  writeIntSeqToFile Long 5 (fun _ => []) [2147483648]%Z = Ok file /\
  readIntSeqFromFile charsToLong Int file = Ok [-2147483648]%Z.
Proof.
  intros ctl HC. exists (txt "sequenceInt" ++ [NL] ++ txt "2147483648" ++ [NL]). split; [vm_compute; reflexivity|].
  unfold readIntSeqFromFile. change (tokens _) with [txt "sequenceInt"; txt "2147483648"].
  change (textEq (txt "sequenceInt") intHeader) with true. cbn [mapM].
  rewrite (HC 2147483648%Z (txt "2147483648")); [reflexivity| |lia].
  change (txt "2147483648") with (ldText 2147483648). apply (@ldText_signed Long). split; [discriminate|reflexivity].
Qed.
Print Assumptions C93_range_refuted.
