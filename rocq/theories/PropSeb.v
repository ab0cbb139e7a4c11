(** Properties C39-C41, C48-C51: smallest enclosing balls. *)
From Coq Require Import Reals Floats.
From Verif Require Import Base Num FloatNum FloatLaws KdModel RGeom SebModel SebPrefix SebWelzl SebScan SebExact SebFloat SebMain.

(** an instance of max_element, for the examples *)
Definition maxI (K : Num) (f : nat -> nT K) (s n : nat) : nat :=
  match seq s (n - s) with
  | [] => n
  | i :: l => fold_left (fun b j => if nlt K (f b) (f j) then j else b) l i
  end.
Definition welzlF (mtf piv : bool) : list (list float) -> res (ball FNum) :=
  @welzlCompute FNum 2 1%float feps (maxI FNum) mtf piv 2000 100 300 (fun l => l) 100.
Definition ballIs (r : res (ball FNum)) (x y rad : float) : bool :=
  match r with
  | Ok B => match center 2 B with [a; b] => (a =? x)%float && (b =? y)%float && (bR B =? rad)%float | _ => false end
  | _ => false
  end.

(** C39: a ball returned by the scanning or the sampling algorithm leaves out no
    input point, up to the tolerance.  Doubles, any input (NaN included), any
    setting of the base solver. *)
Theorem C39_scan :
  forall dim one maxElement mtf piv cutoff PREFIX THRESH order pfuel workers fuel (A : list (list float)) B,
  @scanCompute FNum dim feps (@welzlCompute FNum dim one feps maxElement mtf piv cutoff PREFIX THRESH order pfuel)
    workers fuel A = Ok B ->
  forall p, In p A -> (bR B + feps <? dist FNum dim p (center dim B))%float = false.
Proof. exact F_scan_clear. Qed.
Print Assumptions C39_scan.

Theorem C39_sampling :
  forall dim one maxElement mtf piv cutoff PREFIX THRESH order pfuel workers fuel (A : list (list float)) B,
  @samplingCompute FNum dim feps (@welzlCompute FNum dim one feps maxElement mtf piv cutoff PREFIX THRESH order pfuel)
    workers fuel A = Ok B ->
  forall p, In p A -> (bR B + feps <? dist FNum dim p (center dim B))%float = false.
Proof. exact F_sampling_clear. Qed.
Print Assumptions C39_sampling.

Example C39_example :
  ballIs (@scanCompute FNum 2 feps (welzlF false false) 4 10
            [[0;0];[1;0];[1;1.5];[1;1];[0.5;0.5];[1;0.5];[4;0];[2;2];[2;-2];[1.5;1]]%float) 2 0 2 = true /\
  ballIs (@samplingCompute FNum 2 feps (welzlF false false) 4 10
            [[0;0];[1;0];[1;1.5];[1;1];[0.5;0.5];[1;0.5];[4;0];[2;2];[2;-2];[1.5;1]]%float) 2 0 2 = true.
Proof. vm_compute. auto. Qed.

(** C40: two balls of different centre and radius compare equal. *)
Theorem C40_refuted : exists B1 B2 : ball FNum,
  ballNew FNum 2 1%float [[0;0];[2;0]]%float = Ok B1 /\ ballNew FNum 2 1%float [[0;0];[0;8]]%float = Ok B2 /\
  center 2 B1 = [1;0]%float /\ center 2 B2 = [0;4]%float /\ bR B1 = 1%float /\ bR B2 = 4%float /\
  ballEq 2 B1 B2 = true.
Proof. do 2 eexists. repeat split; vm_compute; reflexivity. Qed.
Print Assumptions C40_refuted.

(** C41: the parallel prefix loop computes what the serial one computes, if an
    element is not in conflict again after its clean-up; J is an invariant. *)
Theorem C41_parallel_prefix :
  forall (St : Type) (process : St -> nat -> res bool) (cleanUp : St -> nat -> res St) n (J : nat -> St -> Prop),
  (forall i s j, J i s -> i <= j < n -> exists b, process s j = Ok b) ->
  (forall i s, J i s -> i < n -> process s i = Ok false -> J (S i) s) ->
  (forall i s, J i s -> i < n -> process s i = Ok true -> exists s', cleanUp s i = Ok s' /\ J (S i) s') ->
  (forall i s s', J i s -> i < n -> process s i = Ok true -> cleanUp s i = Ok s' -> J i s' /\ process s' i = Ok false) ->
  forall PREFIX THRESH order, (forall l, Permutation (order l) l) -> 0 < PREFIX <= n -> 0 < THRESH ->
  forall fuel s, J 0 s -> 2 * n + 1 < fuel ->
  parallelPrefix process cleanUp fuel n PREFIX THRESH order s = serialPrefix process cleanUp n s /\
  exists s', serialPrefix process cleanUp n s = Ok s' /\ J n s'.
Proof. exact parallelPrefix_serial. Qed.
Print Assumptions C41_parallel_prefix.

(** If the element stays in conflict, the parallel loop never ends, for every
    block size; the serial one does. *)
Theorem C41_hang_refuted : exists (process : nat -> nat -> res bool) (cleanUp : nat -> nat -> res nat),
  forall PREFIX THRESH n, 0 < PREFIX < THRESH -> PREFIX + 4 * THRESH <= n ->
  serialPrefix process cleanUp n 0 = Ok 0 /\
  forall fuel, parallelPrefix process cleanUp fuel n PREFIX THRESH (fun l => l) 0 = Fuel.
Proof. exact (ex_intro _ always (ex_intro _ noop prefix_hangs)). Qed.
Print Assumptions C41_hang_refuted.

(** the running maximum of a permutation of 0..29 *)
Example C41_example :
  let a := fun i => (i * 7) mod 30 in
  let process := fun m i => Ok (m <? a i) in
  let cleanUp := fun (m : nat) i => Ok (a i) in
  parallelPrefix process cleanUp 70 30 2 4 (fun l => l) 0 = Ok 29 /\
  serialPrefix process cleanUp 30 0 = Ok 29.
Proof. vm_compute. auto. Qed.

(** C48: exact arithmetic, tolerance 0: the plain, the move-to-front and, below
    the cutoff, the pivoting version of Welzl's algorithm return the smallest
    ball enclosing the points: no ball of any centre that encloses them has a
    smaller radius. *)
Theorem C48_welzl :
  forall dim, 2 <= dim -> forall mtf piv maxElement cutoff PREFIX THRESH order pfuel,
  (forall l, Permutation (order l) l) -> 0 < PREFIX <= THRESH ->
  forall P : list (list R), 2 <= length P -> Forall (fun p => length p = dim) P -> 2 * length P + 1 < pfuel ->
  piv = false \/ length P < cutoff ->
  exists B, @welzlCompute RNum dim 1%R 0%R maxElement mtf piv cutoff PREFIX THRESH order pfuel P = Ok B /\
    (0 <= bR B)%R /\ (forall p, In p P -> (edist dim p (center dim B) <= bR B)%R) /\
    (forall c' r', (0 <= r')%R -> (forall p, In p P -> (edist dim p c' <= r')%R) -> (bR B <= r')%R).
Proof. exact welzl_smallest. Qed.
Print Assumptions C48_welzl.

Example C48_example :
  let P := [[0;0];[1;1];[4;0];[2;2];[2;-2];[1.5;1]]%float in
  ballIs (welzlF false false P) 2 0 2 = true /\ ballIs (welzlF true false P) 2 0 2 = true /\
  ballIs (welzlF true true P) 2 0 2 = true /\
  ballIs (welzlF true true [[0;0];[8;0];[0;6];[1;1]]%float) 4 3 5 = true.
Proof. vm_compute. auto. Qed.

(** C49: from 2000 points on, the pivoting version reads past the end of the
    array if the last point is the first one outside the current ball. *)
Theorem C49_pivot_refuted : forall maxElement : (nat -> float) -> nat -> nat -> nat, (forall f n, maxElement f n n = n) ->
  forall mtf PREFIX order pfuel k, 1997 <= k -> (N.of_nat k < 499997)%N ->
  @welzlCompute FNum 2 1%float feps maxElement mtf true 2000 PREFIX (N.to_nat 500000) order pfuel
    ([0;0]%float :: [1;0]%float :: repeat [0.5;0]%float k ++ [[2;0]%float]) = UB.
Proof. exact pivot_oob_F. Qed.
Print Assumptions C49_pivot_refuted.

(** C50: exact arithmetic: the scanning algorithm terminates with the smallest
    enclosing ball. *)
Theorem C50_scan :
  forall dim, 2 <= dim -> forall maxElement cutoff PREFIX THRESH order pfuel,
  (forall l, Permutation (order l) l) -> 0 < PREFIX <= THRESH -> 2 * (4 * dim + 1 + 2 ^ dim) + 1 < pfuel ->
  forall workers (A : list (list R)), Forall (fun p => length p = dim) A -> 3 * dim <= length A ->
  exists N, forall fuel, N <= fuel -> exists B,
    @scanCompute RNum dim 0%R (@welzlCompute RNum dim 1%R 0%R maxElement false false cutoff PREFIX THRESH order pfuel)
      workers fuel A = Ok B /\
    (0 <= bR B)%R /\ (forall p, In p A -> (edist dim p (center dim B) <= bR B)%R) /\
    (forall c' r', (0 <= r')%R -> (forall p, In p A -> (edist dim p c' <= r')%R) -> (bR B <= r')%R).
Proof. exact R_scan_exact. Qed.
Print Assumptions C50_scan.

(** fewer than 3*dim points: the sample is read past the end *)
Theorem C50_few_refuted : forall dim workers fuel solve (A : list (list float)), length A < 3 * dim ->
  @scanCompute FNum dim feps solve workers fuel A = UB /\ @samplingCompute FNum dim feps solve workers fuel A = UB.
Proof. exact (@few_points FNum feps). Qed.
Print Assumptions C50_few_refuted.

(** C51: exact arithmetic: the sampling algorithm terminates with the smallest
    enclosing ball or reads past the end; the latter only if a chunk is larger
    than the sample and the number of points is not a multiple of its size. *)
Theorem C51_sampling_partial :
  forall dim, 2 <= dim -> forall maxElement cutoff PREFIX THRESH order pfuel,
  (forall l, Permutation (order l) l) -> 0 < PREFIX <= THRESH -> 2 * (4 * dim + 1 + 2 ^ dim) + 1 < pfuel ->
  forall workers (A : list (list R)), Forall (fun p => length p = dim) A -> 3 * dim <= length A ->
  exists N, forall fuel, N <= fuel ->
    let r := @samplingCompute RNum dim 0%R (@welzlCompute RNum dim 1%R 0%R maxElement false false cutoff PREFIX THRESH order pfuel)
      workers fuel A in
    (exists B, r = Ok B /\
      (0 <= bR B)%R /\ (forall p, In p A -> (edist dim p (center dim B) <= bR B)%R) /\
      (forall c' r', (0 <= r')%R -> (forall p, In p A -> (edist dim p c' <= r')%R) -> (bR B <= r')%R)) \/
    (r = UB /\ 3 * dim < length A / 100 /\ length A mod (length A / 100) <> 0).
Proof. exact R_sampling_exact. Qed.
Print Assumptions C51_sampling_partial.

(** 701 points on a line, each outside the ball of the previous ones *)
Fixpoint lineF (n : nat) (x : float) : list (list float) :=
  match n with 0 => [] | S n' => [x; 0%float] :: lineF n' (x + 1)%float end.
Theorem C51_oob_refuted :
  @samplingCompute FNum 2 feps (welzlF false false) 4 200 (lineF 701 0%float) = UB.
Proof. vm_compute. reflexivity. Qed.
Print Assumptions C51_oob_refuted.
