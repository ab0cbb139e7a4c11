(** Instances of the enclosing ball theorems, and two failures. *)
From Coq Require Import Reals Lra.
From Verif Require Import Base Num KdModel RGeom SebModel SebPrefix SebGeom SebCirc SebWelzl SebScan SebExact.
Set Implicit Arguments.

(** *** an element that stays in conflict *)
Definition always (s i : nat) : res bool := Ok true.
Definition noop (s i : nat) : res nat := Ok s.

Lemma serial_always l s : foldR (visit always noop) l s = Ok s.
Proof. induction l; cbn [foldR visit always noop bind]; auto. Qed.

Lemma parLoop_always PREFIX THRESH n : 0 < THRESH -> PREFIX + 4 * THRESH <= n ->
  forall fuel i, 0 < i -> i <= PREFIX + 2 * THRESH -> i <= PREFIX \/ i <= 2 * THRESH ->
  parLoop always noop fuel n PREFIX THRESH (fun l => l) i 0 = Fuel.
Proof.
  intros Ht Hn fuel i H0 Hi Hj. destruct (Nat.lt_ge_cases (2 * i) THRESH) as [Hs|Hb].
  - revert i H0 Hi Hj Hs. induction fuel as [|fuel IH]; intros i H0 Hi Hj Hs; [reflexivity|]. cbn [parLoop].
    destruct (Nat.ltb_spec i n); [|lia]. destruct (Nat.eqb_spec i 0); [lia|].
    rewrite Nat.min_l by lia. destruct (Nat.ltb_spec (i * 3 - i) THRESH) as [_|]; [|lia].
    rewrite serial_always. cbn [bind].
    destruct (Nat.lt_ge_cases (2 * (i + (i * 3 - i))) THRESH).
    + apply IH; lia.
    + eapply parLoop_diverges with (Q := fun s => s = 0); auto; try lia.
      * destruct (Nat.eqb_spec (i + (i * 3 - i)) 0); lia.
      * destruct (Nat.eqb_spec (i + (i * 3 - i)) 0); lia.
      * intros s ->. split; auto. split; [intros; exists true; auto|]. exists 0. auto.
  - eapply parLoop_diverges with (Q := fun s => s = 0); auto; try lia.
    * destruct (Nat.eqb_spec i 0); lia.
    * destruct (Nat.eqb_spec i 0); lia.
    * intros s ->. split; auto. split; [intros; exists true; auto|]. exists 0. auto.
Qed.

Theorem prefix_hangs PREFIX THRESH n : 0 < PREFIX < THRESH -> PREFIX + 4 * THRESH <= n ->
  serialPrefix always noop n 0 = Ok 0 /\
  forall fuel, parallelPrefix always noop fuel n PREFIX THRESH (fun l => l) 0 = Fuel.
Proof.
  intros HP Hn. split; [apply serial_always|]. intros fuel. unfold parallelPrefix.
  destruct (Nat.ltb_spec n THRESH); [lia|]. destruct fuel as [|fuel]; [reflexivity|]. cbn [parLoop].
  destruct (Nat.ltb_spec 0 n); [|lia]. cbn [Nat.eqb]. rewrite Nat.sub_0_r.
  destruct (Nat.ltb_spec PREFIX THRESH); [|lia]. rewrite serial_always. cbn [bind plus].
  apply parLoop_always; lia.
Qed.

(** *** the parallel pivot search of the last element *)
Section Pivot.
  Variable K : Num.
  Variable dim : nat.
  Variables one eps : nT K.
  Variable maxElement : (nat -> nT K) -> nat -> nat -> nat.
  Hypothesis Hend : forall f n, maxElement f n n = n.

  Variable mtf : bool.
  Variables cutoff PREFIX THRESH : nat.
  Variable order : list nat -> list nat.
  Variable pfuel : nat.

  Lemma visit_skip (pr : state K -> nat -> res bool) (cl : state K -> nat -> res (state K)) s l :
    (forall i, In i l -> pr s i = Ok false) -> foldR (visit pr cl) l s = Ok s.
  Proof.
    induction l as [|i l IH]; intros H; cbn [foldR]; auto. unfold visit at 1. rewrite H by (simpl; auto). cbn [bind].
    apply IH. intros j Hj. apply H. simpl; auto.
  Qed.
  Lemma foldR_app X Y (f : Y -> X -> res Y) l1 l2 y : foldR f (l1 ++ l2) y = (z <- foldR f l1 y ;; foldR f l2 z).
  Proof.
    revert y. induction l1 as [|x l1 IH]; intros y; cbn [foldR app bind]; auto.
    destruct (f y x); cbn [bind]; auto.
  Qed.

  Lemma pivot_end A n B : length A = n -> findPivotPar dim maxElement A n B n = UB.
  Proof.
    intros H. unfold findPivotPar. rewrite Hend. unfold rd.
    assert (N : nth_error A n = None) by (apply nth_error_None; lia). rewrite N. reflexivity.
  Qed.

  Theorem pivot_oob p q Q x B : cutoff <= S (S (S (length Q))) < THRESH -> 2 <= dim ->
    ballNew K dim one [p; q] = Ok B ->
    (forall y, In y (p :: q :: Q) -> contain dim eps B y = true) -> contain dim eps B x = false ->
    welzlCompute K dim one eps maxElement mtf true cutoff PREFIX THRESH order pfuel (p :: q :: Q ++ [x]) = UB.
  Proof.
    intros Hn Hd EB Hin Hx. unfold welzlCompute. rewrite Nat.add_comm. cbn [plus welzlParallel].
    set (A := p :: q :: Q ++ [x]).
    assert (HL : length A = S (S (S (length Q)))) by (unfold A; cbn [length]; rewrite app_length; cbn [length]; lia).
    rewrite HL. destruct (Nat.ltb_spec (S (S (S (length Q)))) cutoff); [lia|].
    cbn [support2Ball]. unfold A at 1. unfold rd at 1. cbn [nth_error bind]. unfold A at 1. unfold rd at 1. cbn [nth_error bind].
    rewrite EB. cbn [bind].
    assert (Hs : size B = 2).
    { unfold ballNew in EB. destruct (_ <? _); [discriminate|]. cbn [length Nat.leb Nat.eqb bind] in EB. inversion EB; reflexivity. }
    rewrite Hs. destruct (Nat.eqb_spec 2 (dim + 1)); [lia|].
    unfold parallelPrefix. destruct (Nat.ltb_spec (S (S (S (length Q)))) THRESH); [|lia].
    unfold serialPrefix. replace (S (S (S (length Q)))) with (S (S (length Q)) + 1) by lia. rewrite seq_app, foldR_app.
    rewrite visit_skip.
    2:{ intros i Hi. apply in_seq in Hi. unfold process, rd. cbn [fst snd].
        assert (E : nth_error A i = Some (nth i (p :: q :: Q) [])).
        { unfold A. change (p :: q :: Q ++ [x]) with ((p :: q :: Q) ++ [x]). rewrite nth_error_app1 by (cbn [length]; lia).
          apply nth_error_nth'. cbn [length]; lia. }
        rewrite E. cbn [bind]. rewrite Hin; auto. apply nth_In. cbn [length]; lia. }
    cbn [bind seq foldR plus]. unfold visit, process at 1, rd at 1. cbn [fst snd].
    assert (E : nth_error A (S (S (length Q))) = Some x).
    { unfold A. change (p :: q :: Q ++ [x]) with ((p :: q :: Q) ++ [x]). rewrite nth_error_app2 by (cbn [length]; lia).
      cbn [length]. replace (_ - _) with 0 by lia. reflexivity. }
    rewrite E. cbn [bind]. rewrite Hx. cbn [negb bind]. unfold conflict at 1. cbv beta iota.
    change (1 + S (S (length Q))) with (S (S (S (length Q)))). replace (S (S (length Q + 1))) with (S (S (S (length Q)))) by lia.
    rewrite pivot_end by auto. reflexivity.
  Qed.
End Pivot.

(** *** the base solver of the scanning algorithms *)
Local Open Scope R_scope.
Section Solve.
  Variable dim : nat.
  Hypothesis Hdim : (2 <= dim)%nat.
  Variable maxElement : (nat -> nT RNum) -> nat -> nat -> nat.
  Variables cutoff PREFIX THRESH : nat.
  Variable order : list nat -> list nat.
  Variable pfuel : nat.
  Hypothesis Hord : forall l, Permutation (order l) l.
  Hypothesis Hpre : (0 < PREFIX <= THRESH)%nat.
  Hypothesis Hfuel : (2 * (4 * dim + 1 + 2 ^ dim) + 1 < pfuel)%nat.
  Notation pt := (list (nT RNum)).
  Definition rsolve (S : list pt) : res (ball RNum) :=
    @welzlCompute RNum dim 1 0 maxElement false false cutoff PREFIX THRESH order pfuel S.

  Lemma rsolve_ok S : (2 <= length S <= 4 * dim + 1 + 2 ^ dim)%nat -> Forall (fun p => length p = dim) S ->
    exists B, rsolve S = Ok B /\ okBall dim S [] B.
  Proof.
    intros HL HF. destruct (@welzlCompute_smallest dim Hdim false false maxElement cutoff PREFIX THRESH order pfuel) with (P := S) as (B & E & _ & H); auto; try lia.
    exists B. auto.
  Qed.

  Variable workers : nat.
  Variable A : list pt.
  Hypothesis HA : Forall (fun p => length p = dim) A.
  Hypothesis HL : (3 * dim <= length A)%nat.

  Theorem R_scan_exact : exists N, forall fuel, (N <= fuel)%nat ->
    exists B, @scanCompute RNum dim 0 rsolve workers fuel A = Ok B /\ smallest dim A (center dim B) (bR B).
  Proof. apply scanCompute_exact; auto. intros S H1 H2. apply rsolve_ok; auto. Qed.

  Theorem R_sampling_exact : exists N, forall fuel, (N <= fuel)%nat ->
    (exists B, @samplingCompute RNum dim 0 rsolve workers fuel A = Ok B /\ smallest dim A (center dim B) (bR B)) \/
    (@samplingCompute RNum dim 0 rsolve workers fuel A = UB /\ (3 * dim < length A / 100)%nat /\ (length A mod (length A / 100) <> 0)%nat).
  Proof. apply samplingCompute_exact; auto. intros S H1 H2. apply rsolve_ok; auto. Qed.
End Solve.

Lemma welzl_smallest dim : (2 <= dim)%nat -> forall mtf piv maxElement cutoff PREFIX THRESH order pfuel,
  (forall l, Permutation (order l) l) -> (0 < PREFIX <= THRESH)%nat ->
  forall P : list (list (nT RNum)), (2 <= length P)%nat -> Forall (fun p => length p = dim) P -> (2 * length P + 1 < pfuel)%nat ->
  piv = false \/ (length P < cutoff)%nat ->
  exists B, @welzlCompute RNum dim 1 0 maxElement mtf piv cutoff PREFIX THRESH order pfuel P = Ok B /\
    0 <= bR B /\ (forall p, In p P -> edist dim p (center dim B) <= bR B) /\
    (forall c' r', 0 <= r' -> (forall p, In p P -> edist dim p c' <= r') -> bR B <= r').
Proof.
  intros Hd mtf piv mx cutoff PREFIX THRESH order pfuel Ho Hp P HL HF Hf Hc.
  destruct (@welzlCompute_smallest dim Hd mtf piv mx cutoff PREFIX THRESH order pfuel Ho Hp P HL HF Hf Hc) as (B & E & H & _).
  exists B. split; auto.
Qed.

Lemma few_points (K : Num) (eps : nT K) dim workers fuel solve (A : list (list (nT K))) : (length A < 3 * dim)%nat ->
  @scanCompute K dim eps solve workers fuel A = UB /\ @samplingCompute K dim eps solve workers fuel A = UB.
Proof.
  intros H. unfold scanCompute, samplingCompute, cut. destruct (Nat.leb_spec (dim * 3) (length A)); [lia|]. auto.
Qed.
