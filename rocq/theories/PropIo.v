(** C42-C43: point files. *)
From Coq Require Import Reals Lra Ascii String Floats.
From Flocq Require Import Core BinarySingleNaN PrimFloat.
From Verif Require Import Base Sched IoModel IoProofs.
Set Implicit Arguments.
Open Scope list_scope.
Open Scope nat_scope.

(** C42: points whose fields fit (non-empty, at most 18 characters, no
    separators) are written as one line each, whatever the interleaving of the
    byte writes, and read back field by field; so is the dimension.  The first
    field must look like a number.  [Fuel]: the schedule stops before the
    writers do; every schedule can be continued. *)
Theorem C42_round_trip : forall T (atof : text -> T) bsize scheds d A,
  0 < bsize -> 0 < d -> A <> [] ->
  (forall a, In a A -> length a = d /\ forall s, In s a -> s <> [] /\ length s <= 18 /\ forall c, In c s -> is_space c = false) ->
  (forall a s c, hd_error A = Some a -> In s a -> In c s -> is_number c = true) ->
  let w := fun sc => writeSeqToFile bsize sc [] A in
  (forall file, w scheds = Ok file ->
     (let '(s, W) := stringToWords file in mapM (cstr s) W = Ok (concat A)) /\
     readPoints atof d file = Ok (map (map atof) A) /\ readHeader file = Ok d) /\
  w scheds <> UB /\ w scheds <> Throw /\ exists more file, w (fun o => scheds o ++ more o) = Ok file.
Proof.
  intros T atof bsize scheds d A Hb Hd Hne H Hn w.
  assert (Hok : forall a, In a A -> okPt a /\ length a = d).
  { intros a Ha. destruct (H a Ha) as [L K]. split; auto. split; [destruct a; [cbn in L; lia|discriminate]|].
    intros f Hf. exact (K f Hf). }
  destruct (@writeFile_ok bsize scheds [] A Hb Hne (fun a Ha => proj1 (Hok a Ha))) as [E (more & Em)].
  unfold w. split; [|split; [|split]].
  - intros file Ef. destruct E as [E|E]; rewrite E in Ef; [discriminate|]. injection Ef as <-.
    cbn [headed length Nat.eqb app]. split; [|split].
    + apply file_words. intros; apply Hok; auto.
    + apply readPoints_ok; auto. destruct A as [|a A]; [congruence|]. destruct (Hok a (or_introl eq_refl)) as [[Ha _] _].
      destruct a as [|s a]; [congruence|]. cbn. intros s' Es. injection Es as <-. intros c Hc.
      eapply Hn; [reflexivity|left; reflexivity|auto].
    + destruct A as [|a A]; [congruence|]. destruct (Hok a (or_introl eq_refl)) as [Ha <-].
      apply readHeader_plain; auto. intros s Hs c Hc. eapply Hn; eauto. reflexivity.
  - destruct E as [E|E]; rewrite E; discriminate.
  - destruct E as [E|E]; rewrite E; discriminate.
  - exists more. eauto.
Qed.
Print Assumptions C42_round_trip.

(** C42 with the PBBS header (two to nine dimensions). *)
Theorem C42_pbbs : forall T (atof : text -> T) bsize scheds d A hdr file,
  0 < bsize -> A <> [] ->
  (forall a, In a A -> length a = d /\ forall s, In s a -> s <> [] /\ length s <= 18 /\ forall c, In c s -> is_space c = false) ->
  pbbsHeader d = Ok hdr -> writeSeqToFile bsize scheds hdr A = Ok file ->
  readPoints atof d file = Ok (map (map atof) A) /\ readHeader file = Ok d.
Proof.
  intros T atof bsize scheds d A hdr file Hb Hne H Eh Ef.
  assert (Hd : 2 <= d <= 9).
  { unfold pbbsHeader in Eh. destruct (Nat.ltb_spec d 2), (Nat.ltb_spec 9 d); cbn in Eh; try discriminate. lia. }
  assert (Hok : forall a, In a A -> okPt a /\ length a = d).
  { intros a Ha. destruct (H a Ha) as [L K]. split; auto. split; [destruct a; [cbn in L; lia|discriminate]|].
    intros f Hf. exact (K f Hf). }
  assert (K : hdr <> [] /\ (forall c, In c hdr -> is_space c = false) /\ isGenericHeader hdr = true).
  { do 2 (destruct d as [|d]; [lia|]). do 8 (destruct d as [|d]; [injection Eh as <-; split; [discriminate|split; [|reflexivity]];
      intros c Hc; cbn in Hc; repeat (destruct Hc as [<-|Hc]; [reflexivity|]); destruct Hc|]). lia. }
  destruct K as (K1 & K2 & K3).
  destruct (@writeFile_ok bsize scheds hdr A Hb Hne (fun a Ha => proj1 (Hok a Ha))) as [[E|E] _]; rewrite E in Ef; [discriminate|].
  injection Ef as <-. unfold headed. destruct hdr as [|h0 hdr]; [congruence|]. cbn [length Nat.eqb].
  rewrite <- app_assoc. split.
  - apply readPoints_header; auto. lia.
  - destruct A as [|a A]; [congruence|]. destruct (Hok a (or_introl eq_refl)) as [Ha <-]. apply readHeader_headed; auto.
Qed.
Print Assumptions C42_pbbs.

Definition f1 := fmtLe false [1;2;3;4;5;6;7;8;9;0;1;2] 0.
Definition f2 := fmtLe true [5;0;0;0;0;0;0;0;0;0;0;0] (-3).
Definition f3 := fmtLe false [1;0;0;0;0;0;0;0;0;0;0;0] 100.
Example C42_example :
  f1 = txt "1.23456789012e+00" /\ f2 = txt "-5.00000000000e-03" /\
  exists file, writeSeqToFile 2 (fun _ => repeat 0 200) [] [[f1; f2]; [f3; f1]; [f2; f2]] = Ok file /\
    readPoints (fun s => s) 2 file = Ok [[f1; f2]; [f3; f1]; [f2; f2]] /\ readHeader file = Ok 2.
Proof.
  split; [reflexivity|]. split; [reflexivity|]. exists (concat (map line [[f1; f2]; [f3; f1]; [f2; f2]])).
  split; [vm_compute; reflexivity|]. split; vm_compute; reflexivity.
Qed.

(** C42: without the condition on the first field: an infinite first
    coordinate is taken for a header, and every coordinate moves up by one. *)
Theorem C42_infinite_refuted : exists A file,
  writeSeqToFile 10 (fun _ => repeat 0 80 ++ repeat 1 80) [] A = Ok file /\
  (forall a s, In a A -> In s a -> length s <= 18) /\
  readPoints (fun s => s) 2 file = Ok [[f1; f2]; [f3; f1]] /\ A = [[txt "inf"; f1]; [f2; f3]; [f1; f1]].
Proof.
  exists [[txt "inf"; f1]; [f2; f3]; [f1; f1]]. eexists.
  split; [vm_compute; reflexivity|]. split; [|split; [vm_compute; reflexivity|reflexivity]].
  intros a s Ha Hs. cbn [In] in Ha. decompose [or] Ha; subst; try contradiction;
    cbn [In] in Hs; decompose [or] Hs; subst; try contradiction; vm_compute; lia.
Qed.
Print Assumptions C42_infinite_refuted.

(** A file that does not end in a separator is read past its end. *)
Theorem C42_unterminated_refuted : exists file,
  (forall c, In c file -> is_number c = true \/ c = SP) /\ readPoints (fun s => s) 2 file = UB.
Proof.
  exists (txt "1 25"). split; [|vm_compute; reflexivity]. intros c Hc.
  cbn in Hc. repeat (destruct Hc as [<-|Hc]; [auto|]). destruct Hc.
Qed.
Print Assumptions C42_unterminated_refuted.

(** * C43 *)
(** [x] correctly rounded to twelve significant digits [ds] and exponent [e] *)
Definition digitsVal (ds : list nat) : Z := fold_left (fun v d => v * 10 + Z.of_nat d)%Z ds 0%Z.
Definition decimal12 (x : R) (neg : bool) (ds : list nat) (e : Z) : Prop :=
  (neg = true <-> (x < 0)%R) /\ length ds = 12 /\ (forall d, In d ds -> d < 10) /\
  hd 0 ds <> 0 /\
  (Rabs (Rabs x - IZR (digitsVal ds) * powerRZ 10 (e - 11)) <= / 2 * powerRZ 10 (e - 11))%R.

(** C43: the text of a non-zero double fits, unless it is negative with an
    exponent of three digits; then it is one character too long. *)
Theorem C43_fits : forall x neg ds e, decimal12 x neg ds e ->
  let s := fmtLe neg ds e in
  ((0 <= x)%R \/ (Z.abs e < 100)%Z -> s <> [] /\ length s <= 18 /\ forall c, In c s -> is_number c = true /\ is_space c = false) /\
  ((x < 0)%R -> (100 <= Z.abs e)%Z -> length s = 19).
Proof.
  intros x neg ds e (H1 & H2 & H3 & _) s. split.
  - intros H. assert (K : neg = false \/ Z.abs_nat e < 100).
    { destruct H as [H|H]; [|right; lia]. left. destruct neg; auto. exfalso. pose proof (proj1 H1 eq_refl). lra. }
    destruct (@fmtLe_okField neg ds e H2 H3 K) as (K1 & K2 & K3). split; auto. split; [exact K2|].
    intros c Hc. split; [eapply fmtLe_number; eauto|auto].
  - intros Hx He. unfold s. rewrite fmtLe_length by auto. rewrite (proj2 H1 Hx).
    destruct (Nat.ltb_spec (Z.abs_nat e) 100); lia.
Qed.
Print Assumptions C43_fits.

(** zero is written with zero digits and exponent 0 *)
Example C43_zero : length (fmtLe true (repeat 0 12) 0) = 18.
Proof. reflexivity. Qed.

Definition tenE100 : text := fmtLe true [1;0;0;0;0;0;0;0;0;0;0;0] 100.
Lemma runT_nil sched b : runT w_step w_fin sched [] b = Ok ([], b).
Proof. induction sched as [|i sc IH]; auto. cbn. destruct i; auto. Qed.

(** C43 refuted: the double -1e100 has the text of 19 characters; as the first
    coordinate of a point it is read back as -1e10 under every schedule. *)
Theorem C43_refuted : exists x : PrimFloat.float,
  decimal12 (B2R (Prim2B x)) true [1;0;0;0;0;0;0;0;0;0;0;0] 100 /\
  forall scheds, exists file, writeSeqToFile 10 scheds [] [[tenE100; f1]] = Ok file /\
    readPoints (fun s => s) 2 file = Ok [[fmtLe true [1;0;0;0;0;0;0;0;0;0;0;0] 10; f1]].
Proof.
  exists (-0x1.249ad2594c37dp+332)%float. split.
  - assert (EX : B2R (Prim2B (-0x1.249ad2594c37dp+332)%float) = IZR (- 5147557589468029 * 2 ^ 280)).
    { assert (E : B2SF (Prim2B (-0x1.249ad2594c37dp+332)%float) = Prim2SF (-0x1.249ad2594c37dp+332)%float) by apply B2SF_Prim2B.
      replace (Prim2SF (-0x1.249ad2594c37dp+332)%float) with (SpecFloat.S754_finite true 5147557589468029 280) in E by (vm_compute; reflexivity).
      rewrite <- (SF2R_B2SF _ _ (Prim2B (-0x1.249ad2594c37dp+332)%float)), E. unfold SF2R, F2R. cbn [Fnum Fexp cond_Zopp].
      rewrite mult_IZR. f_equal. }
    rewrite EX. repeat split.
    + intros _. apply IZR_lt. reflexivity.
    + intros d Hd. cbn in Hd. repeat (destruct Hd as [<-|Hd]; [lia|]). destruct Hd.
    + discriminate.
    + rewrite <- abs_IZR. replace (powerRZ 10 (100 - 11)) with (IZR (10 ^ Z.of_nat 89)).
      2:{ replace (100 - 11)%Z with (Z.of_nat 89) by reflexivity. rewrite <- pow_powerRZ, pow_IZR. f_equal. }
      rewrite <- mult_IZR, <- minus_IZR, <- abs_IZR.
      apply Rmult_le_reg_l with 2%R; [lra|]. rewrite <- Rmult_assoc, Rinv_r, Rmult_1_l by lra.
      rewrite <- mult_IZR. apply IZR_le. vm_compute. discriminate.
  - intros scheds. eexists. split.
    + unfold writeSeqToFile. cbn [length Nat.eqb writeLoop Nat.ltb Nat.leb Nat.add Nat.min Nat.sub firstn skipn].
      unfold seqToString. cbn [length Nat.eqb Nat.sub seq map]. rewrite runT_nil. vm_compute. reflexivity.
    + vm_compute. reflexivity.
Qed.
Print Assumptions C43_refuted.

(** As the last coordinate it also races with the next point: here the minus
    sign of the next point is lost. *)
Theorem C43_race_refuted : exists scheds file,
  writeSeqToFile 10 scheds [] [[f1; tenE100]; [f2; f1]; [f1; f1]] = Ok file /\
  readPoints (fun s => s) 2 file =
    Ok [[f1; fmtLe true [1;0;0;0;0;0;0;0;0;0;0;0] 10]; [fmtLe false [5;0;0;0;0;0;0;0;0;0;0;0] (-3); f1]; [f1; f1]].
Proof. exists (fun _ => repeat 1 80 ++ repeat 0 80). eexists. split; vm_compute; reflexivity. Qed.
Print Assumptions C43_race_refuted.
