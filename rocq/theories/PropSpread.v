(** C95: seed spreader data sets. *)
From Coq Require Import NArith ZArith Floats Reals Lra.
From Verif Require Import Base Num FloatNum KdModel RGeom UniModel UniProofs SpreadModel SpreadSpec SpreadProofs.
Set Implicit Arguments.
Open Scope R_scope.

(** rand() is at most RAND_MAX, which is odd (2^31-1, 2^15-1, ...). *)
Definition randContract (rand : nat -> BinNums.N) (randMax : BinNums.N) : Prop :=
  (forall k, (rand k <= randMax)%N) /\ N.odd randMax = true.

(** n points, the first m of them clustered, where m is the least number from
    (1 - rho) n on; the first centre c is in the box, and so is the noise. *)
Definition dataSet (dim n : nat) (rho : R) (rS rV : nat -> R) (data : list (list R)) : Prop :=
  length data = n /\ exists m c, (m <= n)%nat /\
    (forall q, (q < m)%nat -> INR q < (1 - rho) * INR n) /\ (1 - rho) * INR n <= INR m /\
    inBox dim c /\ spread dim rS rV 0 c 0 (firstn m data) /\ forall p, In p (skipn m data) -> inBox dim p.

Lemma spread_ext dim rS rV rS' rV' : (forall g, rS g = rS' g) -> (forall g, rV g = rV' g) ->
  forall g c k ps, spread dim rS rV g c k ps -> spread dim rS' rV' g c k ps.
Proof.
  intros E1 E2 g c k ps H. induction H as [|g c k c' k' p ps T L D H IH]; [constructor|].
  apply (@spread_next dim rS' rV' g c k c' k'); auto; [rewrite <- E1; exact T|rewrite <- E2; exact D].
Qed.
Lemma share_le rho n : 0 <= rho -> (1 - rho) * INR n <= INR n.
Proof. intros H. pose proof (pos_INR n). nra. Qed.
Lemma RofN_nat k : RofN (N.of_nat k) = INR k.
Proof. unfold RofN. rewrite nat_N_Z. symmetry. apply INR_IZR_INZ. Qed.
Lemma RofN_mul a k : RofN (N.pos a * N.of_nat k) = IZR (Z.pos a) * INR k.
Proof. unfold RofN. rewrite N2Z.inj_mul, mult_IZR, nat_N_Z, INR_IZR_INZ. reflexivity. Qed.

Lemma generator_ok rand randMax dim fuel radii n rho rS rV : randContract rand randMax -> (0 < dim)%nat -> 0 <= rho ->
  (forall g, fst (radii g) = rS g /\ snd (radii g) = rV g) -> (forall g, 0 <= rS g /\ 0 <= rV g) ->
  generator RNum RofN rand randMax dim fuel radii n rho = Fuel \/
  exists data, generator RNum RofN rand randMax dim fuel radii n rho = Ok data /\ dataSet dim n rho rS rV data.
Proof.
  intros [C1 C2] Hd Hr HE HP. unfold generator.
  assert (HR : forall g, 0 <= fst (radii g) /\ 0 <= snd (radii g)).
  { intros g. destruct (HE g) as [E1 E2]. cbn [RNum nT] in *. rewrite E1, E2. apply HP. }
  pose proof (@dr_box rand randMax C1 C2 dim Hd 0) as HB.
  destruct (@gen_ok rand randMax C1 C2 dim Hd fuel radii HR n rho n 0%nat (newSp RNum RofN rand randMax dim)) as [E|(data & m & E & L & Hm & H1 & H2 & H3 & H4)].
  - lia.
  - apply share_le. auto.
  - cbn. lia.
  - apply HB.
  - left. exact E.
  - right. exists data. split; [exact E|]. split; [exact L|]. eexists m, _. split; [exact Hm|].
    split; [exact H1|]. split; [exact H2|]. split; [exact HB|]. split; [|exact H4].
    eapply spread_ext; [| |exact H3]; intros g; apply HE.
Qed.

(** C95: simden: radius 100, centres 50 d apart. *)
Theorem C95_simden : forall rand randMax dim fuel n rho, randContract rand randMax -> (0 < dim)%nat -> 0 <= rho ->
  simdenGenerator RNum RofN rand randMax dim fuel n rho = Fuel \/
  exists data, simdenGenerator RNum RofN rand randMax dim fuel n rho = Ok data /\
    dataSet dim n rho (fun _ => 50 * INR dim) (fun _ => 100) data.
Proof.
  intros rand randMax dim fuel n rho C Hd Hr. unfold simdenGenerator. apply generator_ok; auto.
  - intros g. unfold simdenR, lit. cbn [fst snd]. split; [apply RofN_mul|reflexivity].
  - intros g. pose proof (pos_INR dim). lra.
Qed.
Print Assumptions C95_simden.

(** C95: varden: after g points the radius is 100 ((g mod 10) + 1), and a new
    centre is d/2 times as far. *)
Theorem C95_varden : forall rand randMax dim fuel n rho, randContract rand randMax -> (0 < dim)%nat -> 0 <= rho ->
  vardenGenerator RNum RofN rand randMax dim fuel n rho = Fuel \/
  exists data, vardenGenerator RNum RofN rand randMax dim fuel n rho = Ok data /\
    dataSet dim n rho (fun g => 100 * INR (g mod 10 + 1) * INR dim / 2) (fun g => 100 * INR (g mod 10 + 1)) data.
Proof.
  intros rand randMax dim fuel n rho C Hd Hr. unfold vardenGenerator. apply generator_ok; auto.
  - intros g. unfold vardenR, lit. cbn [fst snd RNum ndiv nmul ntwo]. rewrite RofN_mul, RofN_nat. split; reflexivity.
  - intros g. pose proof (pos_INR dim). pose proof (pos_INR (g mod 10 + 1)). split; [|lra]. unfold Rdiv.
    apply Rmult_le_pos; [|lra]. apply Rmult_le_pos; lra.
Qed.
Print Assumptions C95_varden.

(** C95 refuted for a negative rhoNoise: more than n points are written. *)
Theorem C95_negative_refuted : forall rand randMax dim fuel n rho, randContract rand randMax -> (0 < dim)%nat -> (0 < n)%nat -> rho < 0 ->
  (simdenGenerator RNum RofN rand randMax dim fuel n rho = Fuel \/ simdenGenerator RNum RofN rand randMax dim fuel n rho = UB) /\
  (vardenGenerator RNum RofN rand randMax dim fuel n rho = Fuel \/ vardenGenerator RNum RofN rand randMax dim fuel n rho = UB).
Proof.
  intros rand randMax dim fuel n rho [C1 C2] Hd Hn Hr.
  assert (Hs : INR n < share n rho) by (unfold share; apply lt_INR in Hn; cbn in Hn; nra).
  split; unfold simdenGenerator, vardenGenerator, generator; apply (@gen_over rand randMax C1 C2 dim Hd fuel); auto; try (cbn; lia); try apply (@dr_box rand randMax C1 C2 dim Hd 0).
  - intros g. unfold simdenR, lit. cbn [fst snd]. rewrite RofN_mul. pose proof (pos_INR dim). split; [lra|apply IZR_le; lia].
  - intros g. unfold vardenR, lit. cbn [fst snd RNum ndiv nmul ntwo]. rewrite RofN_mul, RofN_nat. pose proof (pos_INR dim). pose proof (pos_INR (g mod 10 + 1)).
    split; [|lra]. unfold Rdiv. apply Rmult_le_pos; [|lra]. apply Rmult_le_pos; lra.
Qed.
Print Assumptions C95_negative_refuted.

(** On doubles.  The stream of the examples. *)
Definition FofN (n : BinNums.N) : float := PrimFloat.of_uint63 (Uint63.of_Z (Z.of_N n)).
Definition lcgRand (k : nat) : BinNums.N := N.iter (N.of_nat (S k)) (fun x => (1103515245 * x + 12345) mod 2 ^ 31)%N 42%N.
Definition randMax31 : BinNums.N := (2 ^ 31 - 1)%N.
Example C95_example : exists data,
  vardenGenerator FNum FofN lcgRand randMax31 2 10 20 0x1p-2%float = Ok data /\ length data = 20%nat /\
  forallb (fun p : list float => forallb (fun x => PrimFloat.ltb (-1000) x && PrimFloat.ltb x 101000) p) data = true.
Proof. eexists. split; [vm_compute; reflexivity|]. split; vm_compute; reflexivity. Qed.

(** C95 refuted: clustered points need not lie in the box of the centres. *)
Theorem C95_outside_refuted : exists rand data, (forall k, (rand k <= randMax31)%N) /\
  simdenGenerator FNum FofN rand randMax31 2 5 1 0%float = Ok [data] /\ PrimFloat.ltb (@coord FNum data 0) (-10)%float = true.
Proof.
  exists (fun k : nat => match k with 5%nat => 536870912%N | 6%nat => 1073741823%N | _ => 0%N end). eexists. split.
  - intros k. do 7 (destruct k as [|k]; [vm_compute; discriminate|]). vm_compute. discriminate.
  - split; vm_compute; reflexivity.
Qed.
Print Assumptions C95_outside_refuted.
