(** C92: graph files. *)
From Coq Require Import Ascii String NArith.
From Verif Require Import Base Sched IoModel IoProofs GraphIoModel GraphIoSpec GraphIoProofs.
Set Implicit Arguments.
Open Scope list_scope.
Open Scope nat_scope.

(** C92: under every schedule the edge file holds exactly one line [u v] for each
    edge, in order, whatever the block size, and every schedule can be completed. *)
Theorem C92_edges : forall bsize scheds es, 0 < bsize -> es <> [] ->
  (forall e, In e es -> word64 (fst e) /\ word64 (snd e)) ->
  exists lines, Forall2 edgeLine es lines /\
    (writeEdgeSeqToFile bsize scheds es = Fuel \/ writeEdgeSeqToFile bsize scheds es = Ok (concat lines)) /\
    exists more, writeEdgeSeqToFile bsize (fun o => scheds o ++ more o) es = Ok (concat lines).
Proof.
  intros bsize scheds es Hb Hne H64. exists (map eLine es). split.
  - clear Hne. induction es as [|e es IH]; constructor.
    + destruct (H64 e (or_introl eq_refl)) as [Hu Hv]. exists (luText (fst e)), (luText (snd e)).
      split; [apply luText_decimal; auto|]. split; [apply luText_decimal; auto|]. reflexivity.
    + apply IH. intros. apply H64. right. auto.
  - unfold writeEdgeSeqToFile. apply (@fileG_ok _ edgeSeqToString eLine (fun _ => True)); auto.
    intros sched A HA _. apply edgeString_ok. auto.
Qed.
Print Assumptions C92_edges.

(** C92 with weights, whose texts have at most 18 characters. *)
Theorem C92_weighted : forall bsize scheds es, 0 < bsize -> es <> [] ->
  (forall e, In e es -> word64 (fst (fst e)) /\ word64 (snd (fst e)) /\
     length (snd e) <= 18 /\ forall c, In c (snd e) -> c <> NUL) ->
  exists lines, Forall2 wghLine es lines /\
    (writeWghEdgeSeqToFile bsize scheds es = Fuel \/ writeWghEdgeSeqToFile bsize scheds es = Ok (concat lines)) /\
    exists more, writeWghEdgeSeqToFile bsize (fun o => scheds o ++ more o) es = Ok (concat lines).
Proof.
  intros bsize scheds es Hb Hne H64. exists (map wLine es). split.
  - clear Hne. induction es as [|e es IH]; constructor.
    + destruct (H64 e (or_introl eq_refl)) as (Hu & Hv & _). exists (luText (fst (fst e))), (luText (snd (fst e))).
      split; [apply luText_decimal; auto|]. split; [apply luText_decimal; auto|]. reflexivity.
    + apply IH. intros. apply H64. right. auto.
  - unfold writeWghEdgeSeqToFile. apply (@fileG_ok _ wghEdgeSeqToString wLine (fun e => okWgh (snd e))); auto.
    + intros sched A HA Hok. apply wghString_ok; auto.
    + intros e He. destruct (H64 e He) as (_ & _ & K). exact K.
Qed.
Print Assumptions C92_weighted.

(** C92: the weights of the code are doubles under [%.11le] (the text of twelve
    digits and an exponent, [fmtLe]): they fit unless the double is negative with an
    exponent of three digits. *)
Theorem C92_double_fits : forall neg ds e, length ds = 12 -> (forall d, In d ds -> d < 10) ->
  neg = false \/ Z.abs_nat e < 100 ->
  length (fmtLe neg ds e) <= 18 /\ forall c, In c (fmtLe neg ds e) -> c <> NUL.
Proof.
  intros neg ds e H1 H2 H3. destruct (@fmtLe_okField neg ds e H1 H2 H3) as (_ & L & N). split; [exact L|].
  intros c Hc F. apply N in Hc. subst c. discriminate.
Qed.
Print Assumptions C92_double_fits.

(** C92: the files of different edge lists are different. *)
Theorem C92_injective : forall es es' lines lines', Forall2 edgeLine es lines -> Forall2 edgeLine es' lines' ->
  concat lines = concat lines' -> es = es'.
Proof.
  induction es as [|[u v] es IH]; intros [|[u' v'] es'] lines lines' H H' E; inversion H as [|? l ? ls He Hes]; inversion H' as [|? l' ? ls' He' Hes']; subst.
  - reflexivity.
  - exfalso. destruct He' as (su & sv & _ & _ & ->). cbn in E. destruct su; discriminate.
  - exfalso. destruct He as (su & sv & _ & _ & ->). cbn in E. destruct su; discriminate.
  - destruct He as (su & sv & Du & Dv & ->). destruct He' as (su' & sv' & Du' & Dv' & ->). cbn [fst snd] in *.
    cbn [concat] in E. rewrite <- !app_assoc in E. cbn [app] in E.
    assert (B : (nat_of_ascii blank < 48)%nat) by (cbn; lia). assert (L : (nat_of_ascii newline < 48)%nat) by (cbn; lia).
    apply split_sep in E as [-> E]; eauto using decimal_not.
    rewrite <- !app_assoc in E. cbn [app] in E. apply split_sep in E as [-> E]; eauto using decimal_not.
    f_equal; eauto. destruct Du as (_ & _ & <- & _), Du' as (_ & _ & <- & _), Dv as (_ & _ & <- & _), Dv' as (_ & _ & <- & _). reflexivity.
Qed.
Print Assumptions C92_injective.

(** C92: the same with weights, whose texts hold no end of line. *)
Theorem C92_weighted_injective : forall es es' lines lines', Forall2 wghLine es lines -> Forall2 wghLine es' lines' ->
  (forall e, In e (es ++ es') -> ~ In newline (snd e)) ->
  concat lines = concat lines' -> es = es'.
Proof.
  induction es as [|[[u v] w] es IH]; intros [|[[u' v'] w'] es'] lines lines' H H' HN E; inversion H as [|? l ? ls He Hes]; inversion H' as [|? l' ? ls' He' Hes']; subst.
  - reflexivity.
  - exfalso. destruct He' as (su & sv & _ & _ & ->). cbn in E. destruct su; discriminate.
  - exfalso. destruct He as (su & sv & _ & _ & ->). cbn in E. destruct su; discriminate.
  - destruct He as (su & sv & Du & Dv & ->). destruct He' as (su' & sv' & Du' & Dv' & ->). cbn [fst snd] in *.
    cbn [concat] in E. rewrite <- !app_assoc in E. cbn [app] in E.
    assert (B : (nat_of_ascii blank < 48)%nat) by (cbn; lia).
    apply split_sep in E as [-> E]; eauto using decimal_not.
    rewrite <- !app_assoc in E. cbn [app] in E. apply split_sep in E as [-> E]; eauto using decimal_not.
    rewrite <- !app_assoc in E. cbn [app] in E. apply split_sep in E as [-> E].
    2:{ apply (HN (u, v, w)). left. auto. }
    2:{ apply (HN (u', v', w')). apply in_or_app. right. left. auto. }
    f_equal.
    + destruct Du as (_ & _ & <- & _), Du' as (_ & _ & <- & _), Dv as (_ & _ & <- & _), Dv' as (_ & _ & <- & _). reflexivity.
    + apply (IH es' ls ls'); auto. intros e He. apply HN. apply in_app_or in He as [He|He]; [right; apply in_or_app; auto|apply in_or_app; right; right; auto].
Qed.
Print Assumptions C92_weighted_injective.

(** Schedules of the examples: the threads in turn, byte by byte. *)
Definition turns (k t : nat) : list nat := concat (repeat (rev (seq 0 t)) k).

Example C92_example :
  writeEdgeSeqToFile 2 (fun _ => turns 24 3) [(0, 7); (120, 18446744073709551615); (3, 10)]%N
    = Ok (txt "0 7" ++ [NL] ++ txt "120 18446744073709551615" ++ [NL] ++ txt "3 10" ++ [NL]) /\
  writeWghEdgeSeqToFile 2 (fun _ => turns 64 1) [(0, 7, txt "1.50000000000e+00"); (12, 3, txt "-2.00000000000e-05"); (5, 6, txt "9.99999999999e+307")]%N
    = Ok (txt "0 7 1.50000000000e+00" ++ [NL] ++ txt "12 3 -2.00000000000e-05" ++ [NL] ++ txt "5 6 9.99999999999e+307" ++ [NL]).
Proof. split; vm_compute; reflexivity. Qed.

(** C92 refuted for the empty edge list: A[0] is read before anything else. *)
Theorem C92_empty_refuted : forall bsize scheds,
  writeEdgeSeqToFile bsize scheds [] = UB /\ writeWghEdgeSeqToFile bsize scheds [] = UB.
Proof. intros. split; reflexivity. Qed.
Print Assumptions C92_empty_refuted.

(** C92 refuted for a negative weight with an exponent of three digits (its text has
    19 characters): the last digit is overwritten, and a weight 10^-5 times or 10^5
    times off is written: -1e-105 comes out as -1e-10. *)
Theorem C92_wide_weight_refuted : exists w file, w = fmtLe true (1 :: repeat 0 11) (-105) /\
  writeWghEdgeSeqToFile 5 (fun _ => []) [(0, 1, w)]%N = Ok file /\
  file = txt "0 1 " ++ fmtLe true (1 :: repeat 0 11) (-10) ++ [NL].
Proof. eexists _, _. split; [reflexivity|]. split; vm_compute; reflexivity. Qed.
Print Assumptions C92_wide_weight_refuted.

(** C92 refuted: the final NUL of such a weight lands on the first digit of the
    next edge; the schedule decides whether that digit survives. *)
Theorem C92_race_refuted : exists w s1 s2 f1 f2,
  writeWghEdgeSeqToFile 5 (fun _ => s1) [(0, 1, w); (7, 8, txt "1"); (2, 2, txt "1")]%N = Ok f1 /\
  writeWghEdgeSeqToFile 5 (fun _ => s2) [(0, 1, w); (7, 8, txt "1"); (2, 2, txt "1")]%N = Ok f2 /\
  f1 = txt "0 1 " ++ fmtLe true (1 :: repeat 0 11) (-10) ++ [NL] ++ txt "7 8 1" ++ [NL] ++ txt "2 2 1" ++ [NL] /\
  f2 = txt "0 1 " ++ fmtLe true (1 :: repeat 0 11) (-10) ++ [NL] ++ txt " 8 1" ++ [NL] ++ txt "2 2 1" ++ [NL].
Proof.
  exists (fmtLe true (1 :: repeat 0 11) (-105)), (repeat 0 40 ++ repeat 1 40), (repeat 1 40 ++ repeat 0 40). eexists _, _.
  split; [vm_compute; reflexivity|]. split; [vm_compute; reflexivity|]. split; vm_compute; reflexivity.
Qed.
Print Assumptions C92_race_refuted.
