(** C96: grid samples. *)
From Coq Require Import NArith ZArith Floats Reals Lra Lia List.
From Verif Require Import Base Num FloatNum KdModel UniModel UniProofs GridModel GridSpec GridProofs.
Set Implicit Arguments.
Open Scope R_scope.

(** The points fit in a double below the largest one, which marks empty points, and are not all equal. *)
Definition spreadOut (dim : nat) (P : list (list R)) : Prop :=
  (forall p j, In p P -> (j < dim)%nat -> - Rfmax < crd p j < Rfmax) /\
  exists p q j, In p P /\ In q P /\ (j < dim)%nat /\ crd p j <> crd q j.

(** C96: a grid sample has one input point for each cell number that occurs; the
    numbers do not wrap. *)
Theorem C96_grid : forall dim side wins P m, (dim = 2 \/ dim = 3)%nat -> insertContract wins -> spreadOut dim P ->
  (0 < side m)%N ->
  let run := gridSample RNum RofN RtoSize dim side wins P m in
  ((side m <= 2000000)%N -> exists S, run = Ok S /\ gridSampleOf dim (side m) P S) /\
  ((2000000 < side m)%N -> run = Throw).
Proof.
  intros dim side wins P m Hdim HW (HF & p0 & q0 & j0 & Hp0 & Hq0 & Hj0 & Hne) Hd run. unfold run, gridSample.
  set (d := side m) in *. split.
  2:{ intros H. destruct (N.ltb_spec 2000000 d); [reflexivity|lia]. }
  intros Hd2. destruct (N.ltb_spec 2000000 d) as [|_]; [lia|].
  assert (NE : P <> []) by (intros ->; auto).
  assert (D0 : (0 < dim)%nat) by lia.
  pose proof (low_ok HF NE) as HL. pose proof (span_ok HF NE D0) as HSp. set (w := maxSpan RNum dim P) in *. cbn [RNum nT] in w.
  assert (W0 : 0 < w).
  { destruct HSp as [H _]. pose proof (H p0 q0 j0 Hp0 Hq0 Hj0). pose proof (H q0 p0 j0 Hq0 Hp0 Hj0).
    destruct (Rtotal_order (crd p0 j0) (crd q0 j0)) as [?|[?|?]]; [|now destruct Hne|]; cbn [RNum nT] in *; lra. }
  assert (DR : 0 < RofN d) by (apply IZR_lt; lia).
  set (r := w / RofN d). assert (R0 : 0 < r) by (apply Rdiv_lt_0_compat; auto).
  assert (RD : r * RofN d = w) by (unfold r; field; lra).
  set (q := fun p j => (crd p j - low RNum P j) / r).
  assert (QR : forall p j, In p P -> (j < dim)%nat -> 0 <= q p j <= RofN d).
  { intros p j Hp Hj. destruct (HL j Hj) as (L1 & pl & Hpl & L2). pose proof (L1 p Hp) as A1.
    pose proof (proj1 HSp p pl j Hp Hpl Hj) as A2. cbn [RNum nT] in *. rewrite L2 in A2. unfold q. cbn [RNum nT]. split.
    - apply Rmult_le_pos; [lra|]. left. apply Rinv_0_lt_compat; auto.
    - apply Rmult_le_reg_r with r; auto. unfold Rdiv. rewrite Rmult_assoc, Rinv_l, Rmult_1_r by lra. rewrite Rmult_comm. fold w in A2. lra. }
  set (cell := fun p j => match RtoSize (q p j) with Some c => c | None => 0%N end).
  assert (CS : forall p j, In p P -> (j < dim)%nat -> RtoSize (q p j) = Some (cell p j) /\ RofN (cell p j) <= q p j < RofN (cell p j) + 1 /\ (cell p j <= d)%N).
  { intros p j Hp Hj. destruct (toSize_ok Hd2 (QR p j Hp Hj)) as (c & E & H1 & H2). unfold cell. rewrite E. auto. }
  set (num := fun p => number dim d (cell p)).
  assert (CE : forall p, In p P -> cellOf RNum RofN RtoSize dim P d p = Ok (map (cell p) (seq 0 dim))).
  { intros p Hp. unfold cellOf. apply mapG_ok. intros j Hj. apply in_seq in Hj. destruct (CS p j Hp ltac:(lia)) as [E _].
    change (match RtoSize (q p j) with Some x => Ok x | None => UB end = Ok (cell p j)). rewrite E. reflexivity. }
  assert (NB : forall p, In p P -> idOf d (map (cell p) (seq 0 dim)) = num p /\ (num p < 2 ^ 64 - 1)%N).
  { intros p Hp. apply idOf_number; auto. intros j Hj. apply CS; auto. }
  rewrite (@mapG_ok _ _ _ num P).
  2:{ intros p Hp. rewrite (CE p Hp). cbn [bind]. f_equal. apply NB; auto. }
  cbn [bind]. set (ids := map num P).
  assert (EE : @isEmpty RNum (emptyPt RNum dim) = true).
  { unfold isEmpty, emptyPt. destruct dim; [lia|]. cbn [repeat coord nth RNum nle nT nmax]. unfold Rleb.
    destruct (Rle_dec Rfmax Rfmax); [reflexivity|lra]. }
  assert (EP : forall p, In p P -> @isEmpty RNum p = false).
  { intros p Hp. destruct (HF p 0%nat Hp D0) as [_ B]. unfold isEmpty. cbn [RNum nle nmax]. unfold Rleb.
    change (@coord RNum p 0) with (crd p 0). destruct (Rle_dec Rfmax (crd p 0)); [lra|]. apply Bool.andb_false_r. }
  set (S := filter _ _). assert (ES : S = @pick (list R) (wins ids) (@isEmpty RNum) (emptyPt RNum dim) 0 P) by reflexivity.
  exists S. split; [reflexivity|].
  assert (NTH : forall i p, nth_error P i = Some p -> (i < length ids)%nat /\ nth i ids 0%N = num p).
  { intros i p E. split; [unfold ids; rewrite map_length; apply nth_error_Some; congruence|].
    unfold ids. apply nth_error_nth. rewrite nth_error_map, E. reflexivity. }
  assert (INS : forall p, In p S <-> exists i, nth_error P i = Some p /\ wins ids i = true).
  { intros p. rewrite ES. apply (@pick_in (list R) (wins ids) (@isEmpty RNum) (emptyPt RNum dim) EE P 0 p EP). }
  exists (low RNum P), w, num. split; [exact HL|]. split; [exact HSp|]. split; [|split; [intros p Hp; apply NB; auto|split; [|split]]].
  - intros p Hp. exists (cell p). split; [|split; [reflexivity|intros j Hj; apply CS; auto]].
    intros j Hj. destruct (CS p j Hp Hj) as (_ & [B1 B2] & _). change (w / IZR (Z.of_N d)) with r. change (IZR (Z.of_N (cell p j))) with (RofN (cell p j)).
    assert (QE : q p j * r = crd p j - low RNum P j) by (unfold q; cbn [RNum nT]; field; lra). cbn [RNum nT] in *.
    pose proof (Rmult_le_compat_r r _ _ (Rlt_le _ _ R0) B1). pose proof (Rmult_lt_compat_r r _ _ R0 B2). lra.
  - intros p Hp. apply INS in Hp. destruct Hp as (i & E & _). eapply nth_error_In; eauto.
  - rewrite ES. apply (@pick_nodup (list R) num (wins ids) (@isEmpty RNum) (emptyPt RNum dim) EE P 0 EP).
    intros i i' p p' E E' N1 W1 W2. destruct (NTH i p E) as [A1 A2]. destruct (NTH i' p' E') as [B1 B2].
    destruct (HW ids (num p)) as (k & _ & U); [rewrite <- A2; apply nth_In; auto|].
    rewrite (U i A1 A2 W1). symmetry. apply U; auto. rewrite B2. auto.
  - intros p Hp. destruct (HW ids (num p)) as (k & (K1 & K2 & K3) & _); [apply in_map; auto|].
    unfold ids in K1. rewrite map_length in K1. apply nth_error_Some in K1. destruct (nth_error P k) as [p'|] eqn:E; [|now destruct K1].
    destruct (NTH k p' E) as [_ E2]. fold ids in K2. rewrite E2 in K2. rewrite <- K2. apply in_map. apply INS. eauto.
Qed.
Print Assumptions C96_grid.

(** C96: away from the upper faces equal numbers mean equal cells, so the sample
    point is less than a cell side away along every axis. *)
Theorem C96_cells : forall dim d o r c c' p q, inCell dim o r c p -> inCell dim o r c' q ->
  (forall j, (1 <= j < dim)%nat -> (c j < d)%N /\ (c' j < d)%N) -> number dim d c = number dim d c' ->
  forall j, (j < dim)%nat -> c j = c' j /\ Rabs (crd p j - crd q j) < r.
Proof.
  intros dim d o r c c' p q H1 H2 HT HN.
  assert (G : forall k, (k <= dim)%nat -> number k d c = number k d c' -> forall j, (j < k)%nat -> c j = c' j).
  { induction k as [|k IH]; intros Hk E j Hj; [lia|]. cbn [number] in E. destruct k as [|k].
    - cbn [number] in E. replace j with 0%nat by lia. lia.
    - destruct (HT (S k) ltac:(lia)) as [T1 T2].
      rewrite (N.mul_comm _ d), (N.mul_comm (number (S k) d c') d) in E.
      destruct (N.div_mod_unique d _ _ _ _ T1 T2 E) as [E1 E2].
      destruct (Nat.eq_dec j (S k)) as [->|]; [auto|]. apply IH; auto; lia. }
  intros j Hj. pose proof (G dim (le_n _) HN j Hj) as E. split; auto.
  pose proof (H1 j Hj) as A. pose proof (H2 j Hj) as B. rewrite <- E in B. apply Rabs_def1; lra.
Qed.
Print Assumptions C96_cells.

(** On doubles. *)
Definition FofN (n : BinNums.N) : float := PrimFloat.of_uint63 (Uint63.of_Z (Z.of_N n)).
Definition FtoSize (x : float) : option BinNums.N :=
  match Prim2SF x with
  | S754_zero _ => Some 0%N
  | S754_finite false a e => let v := Z.shiftl (Z.pos a) e in if (v <? 2 ^ 64)%Z then Some (Z.to_N v) else None
  | _ => None
  end.
(** The insertions run in order: the first one of a key wins.  Or the last one does. *)
Definition firstWins (ids : list BinNums.N) (i : nat) : bool := negb (existsb (N.eqb (nth i ids 0%N)) (firstn i ids)).
Definition lastWins (ids : list BinNums.N) (i : nat) : bool := negb (existsb (N.eqb (nth i ids 0%N)) (skipn (S i) ids)).
Lemma firstWins_ok : insertContract firstWins.
Proof.
  assert (F : forall ids i, firstWins ids i = true <-> ~ In (nth i ids 0%N) (firstn i ids)).
  { intros ids i. unfold firstWins. rewrite Bool.negb_true_iff. split.
    - intros H K. assert (existsb (N.eqb (nth i ids 0%N)) (firstn i ids) = true); [|congruence].
      apply existsb_exists. eexists. split; eauto. apply N.eqb_refl.
    - intros H. destruct (existsb _ _) eqn:E; auto. apply existsb_exists in E. destruct E as (x & Hx & Ex). apply N.eqb_eq in Ex. subst x. contradiction. }
  intros ids k Hk. assert (X : exists i, (i < length ids)%nat /\ nth i ids 0%N = k /\ ~ In k (firstn i ids)).
  { induction ids as [|a l IH]; [destruct Hk|]. destruct (N.eq_dec a k) as [->|Ne].
    - exists 0%nat. cbn. repeat split; auto; lia.
    - destruct Hk as [|Hk]; [contradiction|]. destruct (IH Hk) as (i & H1 & H2 & H3). exists (S i). cbn. repeat split; auto; [lia|].
      intros [|]; auto. }
  destruct X as (i & H1 & H2 & H3). exists i. split; [repeat split; auto; apply F; rewrite H2; auto|].
  intros i' L' E' W'. apply F in W'. rewrite E' in W'.
  assert (IN : forall a b, (a < b)%nat -> (a < length ids)%nat -> In (nth a ids 0%N) (firstn b ids)).
  { clear. intros a b Hab Hl. revert a b Hab Hl. induction ids as [|x l IH]; intros a b Hab Hl; [cbn in Hl; lia|].
    destruct b; [lia|]. cbn [firstn]. destruct a; [left; auto|right]. apply IH; cbn in Hl; lia. }
  destruct (Nat.lt_trichotomy i i') as [L|[L|L]]; auto; exfalso.
  - apply W'. rewrite <- H2. apply IN; auto.
  - apply H3. rewrite <- E'. apply IN; auto.
Qed.

Open Scope float_scope.
Definition grid8 : list (list float) := [[0;0;0]; [2;0;0]; [0.5;0.25;0]; [0.5;1.5;1.5]; [1;1;1]; [1.75;1;1.25]].
Example C96_example :
  gridSample FNum FofN FtoSize 3 (fun _ => 2%N) firstWins grid8 8 = Ok [[0;0;0]; [2;0;0]; [0.5;1.5;1.5]; [1;1;1]] /\
  gridSample FNum FofN FtoSize 3 (fun _ => 2%N) lastWins grid8 8 = Ok [[2;0;0]; [0.5;0.25;0]; [0.5;1.5;1.5]; [1.75;1;1.25]] /\
  gridSample FNum FofN FtoSize 2 (fun _ => 4%N) firstWins [[0;0]; [4;1]; [0.5;0.75]; [1;3]; [1.25;3.5]] 16 = Ok [[0;0]; [4;1]; [1;3]].
Proof. vm_compute. repeat split; reflexivity. Qed.

(** C96 refuted for the upper faces: (0,0,2) and (0,1,0) lie in different cells
    with one number, and only one of them is sampled. *)
Theorem C96_faces_refuted : exists P, length P = 4%nat /\ NoDup P /\
  (exists cs, mapG (cellOf FNum FofN FtoSize 3 P 2) P = Ok cs /\ NoDup cs) /\
  forall wins, wins = firstWins \/ wins = lastWins -> exists S, gridSample FNum FofN FtoSize 3 (fun _ => 2%N) wins P 8 = Ok S /\ length S = 3%nat.
Proof.
  exists [[0;0;0]; [2;0;0]; [0;0;2]; [0;1;0]]. split; [reflexivity|]. split.
  - assert (N : (0 : float) <> 2) by (intros H; apply (f_equal (fun x => PrimFloat.eqb x 0)) in H; vm_compute in H; discriminate).
    assert (N1 : (0 : float) <> 1) by (intros H; apply (f_equal (fun x => PrimFloat.eqb x 0)) in H; vm_compute in H; discriminate).
    repeat constructor; cbn [In]; intros H; repeat (destruct H as [H|H]; [injection H; intros; congruence|]); exact H.
  - split.
    + eexists. split; [vm_compute; reflexivity|]. repeat constructor; cbn [In]; intros H; repeat (destruct H as [H|H]; [discriminate H|]); exact H.
    + intros w [->| ->]; eexists; (split; [vm_compute; reflexivity|reflexivity]).
Qed.
Print Assumptions C96_faces_refuted.

(** C96 refuted for equal points: 0/0 is converted to an integer. *)
Theorem C96_equal_refuted : forall wins, gridSample FNum FofN FtoSize 3 (fun _ => 2%N) wins [[1;2;3]; [1;2;3]] 8 = UB.
Proof. intros wins. vm_compute. reflexivity. Qed.
Print Assumptions C96_equal_refuted.
