(** C28, C52-C54: closest pair (src/closestPair/closestPair.cpp). *)
From Coq Require Import Reals NArith Lia Floats.
From Verif Require Import Base Num FloatNum Sched KdModel RGeom CpModel CpMain.
Set Implicit Arguments.

Definition ten4 : nat := N.to_nat 10000.
(** an instance of min_element, for the examples *)
Definition minI (K : Num) (l : list (pp K)) : option (pp K) :=
  match l with [] => None | a :: l => Some (fold_left (fun b c => if nlt K (pd c) (pd b) then c else b) l a) end.
Definition cpF (dim : nat) (serial : bool) (P : list (list float)) : res (list float * list float) :=
  @closestPair FNum dim (csort FNum) (csort FNum) 100 ten4 100 (minI (K := FNum)) serial P.

(** C28: exact arithmetic, in the plane: the serial algorithm returns two
    elements of the array (the same point twice only if it occurs twice) at the
    least distance over all pairs. *)
Theorem C28_planar :
  forall srt psrt minE (P : list (list R)), csort_ok RNum srt -> 2 <= length P ->
  (forall p q, In p P -> In q P -> (edist 2 p q < Rfmax)%R) ->
  exists u v, @closestPair RNum 2 srt psrt 100 ten4 100 minE true P = Ok (u, v) /\
    (exists rest, Permutation P (u :: v :: rest)) /\
    forall p q rest, Permutation P (p :: q :: rest) -> (edist 2 u v <= edist 2 p q)%R.
Proof. intros srt psrt minE P H1. apply R_serial2; [exact H1|lia]. Qed.
Print Assumptions C28_planar.

Lemma C28_sort_exists : csort_ok RNum (csort RNum).
Proof. exact csort_R. Qed.

(** 120 points on a parabola, the two closest straddle no cut *)
Fixpoint parab (n : nat) (x : float) : list (list float) :=
  match n with 0 => [] | S n' => [(x * x)%float; x] :: parab n' (x + 1)%float end.
Example C28_example : cpF 2 true (parab 110 0%float ++ [[25%float; 4.75%float]]) = Ok ([25; 4.75]%float, [25; 5]%float).
Proof. vm_compute. reflexivity. Qed.

(** C52: in three and four dimensions the serial algorithm returns a closest
    pair or reads past the end of an array. *)
Theorem C52_spatial_partial :
  forall dim srt psrt minE (P : list (list R)), 2 <= dim <= 4 -> csort_ok RNum srt -> 2 <= length P ->
  (forall p q, In p P -> In q P -> (edist dim p q < Rfmax)%R) ->
  let r := @closestPair RNum dim srt psrt 100 ten4 100 minE true P in
  r = UB \/ exists u v, r = Ok (u, v) /\ (exists rest, Permutation P (u :: v :: rest)) /\
    forall p q rest, Permutation P (p :: q :: rest) -> (edist dim u v <= edist dim p q)%R.
Proof. intros dim srt psrt minE P H0 H1. apply R_serial34; [exact H0|exact H1|lia]. Qed.
Print Assumptions C52_spatial_partial.

(** one hundred points of which two are close and the rest spread: the slab
    holds the median only, and its brute force reads its second point *)
Fixpoint spread (n : nat) (z : float) : list (list float) :=
  match n with 0 => [] | S n' => [0; 0; z]%float :: spread n' (z + 10)%float end.
Theorem C52_slab_refuted :
  cpF 3 true ([0; 0; 0]%float :: [0; 0; 1]%float :: spread 98 10%float) = UB.
Proof. vm_compute. reflexivity. Qed.
Print Assumptions C52_slab_refuted.

Example C52_example : cpF 3 true ([0; 0; 0]%float :: [0; 0; 1]%float :: spread 97 10%float) = Ok ([0; 0; 0]%float, [0; 0; 1]%float).
Proof. vm_compute. reflexivity. Qed.

(** C53: the parallel algorithm returns a closest pair or reads past the end of
    an array; on n >= 10000 points of equal ordinate it does the latter. *)
Theorem C53_parallel_partial :
  forall dim srt psrt minE (P : list (list R)), 2 <= dim <= 4 -> csort_ok RNum srt -> csort_ok RNum psrt -> 2 <= length P ->
  (forall p q, In p P -> In q P -> (edist dim p q < Rfmax)%R) ->
  let r := @closestPair RNum dim srt psrt 100 ten4 100 minE false P in
  r = UB \/ exists u v, r = Ok (u, v) /\ (exists rest, Permutation P (u :: v :: rest)) /\
    forall p q rest, Permutation P (p :: q :: rest) -> (edist dim u v <= edist dim p q)%R.
Proof. intros dim srt psrt minE P H0 H1 H2. apply R_parallel; [exact H0|exact H1|exact H2|lia|unfold ten4; lia]. Qed.
Print Assumptions C53_parallel_partial.

Theorem C53_table_refuted :
  forall srt psrt minE n, csort_ok RNum srt -> csort_ok RNum psrt -> ten4 <= n -> (INR n < Rfmax)%R ->
  @closestPair RNum 2 srt psrt 100 ten4 100 minE false (map (fun i => [INR i; 0%R]) (seq 0 n)) = UB.
Proof. intros srt psrt minE n H1 H2 H3. apply R_line_oob; [exact H1|exact H2|lia|unfold ten4; lia|exact H3|unfold ten4 in H3; lia]. Qed.
Print Assumptions C53_table_refuted.

Example C53_example : cpF 2 false [[0; 0]; [3; 4]; [3; 1]; [0; 2]]%float = Ok ([0; 0]%float, [0; 2]%float).
Proof. vm_compute. reflexivity. Qed.

(** C54: the brute force compares and writes the shared pair without
    synchronisation: an interleaving of its parallel loop on three points ends
    with the pair at distance 4 although two points are at distance 1. *)
Definition three : list (list float) := [[0; 0]; [0; 5]; [0; 1]]%float.
Theorem C54_race_refuted : exists ls a,
  runT (raceStep (K := FNum) 2) (@raceFin FNum) [1; 0; 0; 0; 0; 0; 0; 0; 0; 1; 1; 1] (raceThreads FNum three)
    (ppFar FNum [0; 0]%float [0; 5]%float) = Ok (ls, a) /\
  pu a = [0; 5]%float /\ pv a = [0; 1]%float /\ (dist FNum 2 [0; 0] [0; 1] <? pd a)%float = true.
Proof. eexists _, _. split; [vm_compute; reflexivity|]. repeat split. Qed.
Print Assumptions C54_race_refuted.

(** Under every interleaving the two points are input points. *)
Theorem C54_members_partial :
  forall dim (P : list (list float)) p q sched ls a, In p P -> In q P ->
  runT (raceStep (K := FNum) dim) (@raceFin FNum) sched (raceThreads FNum P) (ppFar FNum p q) = Ok (ls, a) ->
  In (pu a) P /\ In (pv a) P.
Proof. intros dim P p q sched ls a Hp Hq. exact (@race_members FNum dim P sched ls a (ppFar FNum p q) Hp Hq). Qed.
Print Assumptions C54_members_partial.

(** in order, the loop finds the closest pair *)
Example C54_example : exists ls a,
  runT (raceStep (K := FNum) 2) (@raceFin FNum) (repeat 0 8 ++ repeat 1 4) (raceThreads FNum three)
    (ppFar FNum [0; 0]%float [0; 5]%float) = Ok (ls, a) /\ pu a = [0; 0]%float /\ pv a = [0; 1]%float.
Proof. eexists _, _. split; [vm_compute; reflexivity|]. repeat split. Qed.
