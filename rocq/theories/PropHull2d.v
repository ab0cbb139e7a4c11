(** C37, C38, C55, C56: planar convex hulls. *)
From Coq Require Import Reals NArith Lia Floats.
From Verif Require Import Base Num FloatNum FloatLaws Sched KdModel KdSpec Hull2dModel Hull2dGeom Hull2dQuick Hull2dDc Hull2dSample Hull2dBrute Hull2dFloat.
Set Implicit Arguments.

(** instances of parlay::reduce and minmax_element, for the examples *)
Lemma C37_reduce_exists : forall f id l, redOf f id l (@redI (cipairs RNum) f id l).
Proof. exact (fun f id l => redI_ok f id l). Qed.
Lemma C37_minmax_exists : minmax_ok RNum (minmaxI RNum).
Proof. exact (@minmaxI_ok RNum). Qed.
Definition qhF (P : list (list float)) : res (list nat) := @quickHull FNum (@redI (cipairs FNum)) (minmaxI FNum) P.

(** C37: exact arithmetic: quickHull returns positions of the input, in
    clockwise order; no input point is to the left of an edge, every input
    point is in a triangle of three answers, the lexicographically least point
    is first and the greatest is an answer; no position is repeated unless all
    points are equal.  For every way of bracketing the reductions. *)
Theorem C37_exact :
  forall red minmax (P : list (list R)), (forall f id l, redOf f id l (red f id l)) -> minmax_ok RNum minmax -> P <> [] ->
  exists H, @quickHull RNum red minmax P = Ok H /\
    (forall i, In i H -> i < length P) /\
    (forall k p, k < length H -> In p P ->
       (orient (nth (nth k H 0%nat) P []) (nth (nth ((k + 1) mod length H) H 0%nat) P []) p <= 0)%R) /\
    (forall p, In p P -> exists a b c, In a H /\ In b H /\ In c H /\ inTriangle (nth a P []) (nth b P []) (nth c P []) p) /\
    (forall p, In p P -> lexle (nth (hd 0 H) P []) p) /\
    (exists i, In i H /\ forall p, In p P -> lexle p (nth i P [])) /\
    ((exists p p', In p P /\ In p' P /\ (nth 0 p 0 <> nth 0 p' 0 \/ nth 1 p 0 <> nth 1 p' 0)%R) -> NoDup H).
Proof.
  intros red minmax P Hr Hm HP. destruct (@quickHull_ok red Hr minmax Hm P HP) as (H & E & (H1 & H2 & H3) & H4).
  destruct (@quickHull_lex red minmax Hm P H HP E) as [L1 L2].
  exists H. split; [exact E|]. split; [exact H1|]. split; [|auto].
  intros k p Hk Hp. apply H2; [apply cyc_adj; exact Hk|exact Hp].
Qed.
Print Assumptions C37_exact.

(** doubles: if no area computed from three input points is a NaN, quickHull
    ends and returns positions of the input *)
Theorem C37_double :
  forall red minmax (P : list (list float)), (forall f id l, redOf f id l (red f id l)) ->
  (forall a b c, In a P -> In b P -> In c P -> PrimFloat.is_nan (triArea FNum a b c) = false) ->
  fst (minmax (pntless FNum) P) < length P /\ snd (minmax (pntless FNum) P) < length P ->
  exists H, @quickHull FNum red minmax P = Ok H /\ forall i, In i H -> i < length P.
Proof.
  intros red minmax P Hr Hn. exact (@quickHull_total FNum fok F_ordlaws eq_refl red Hr minmax P Hn
    (fun a b _ _ => F_abb a b) (fun a b _ _ => F_aba a b)).
Qed.
Print Assumptions C37_double.

Definition ptsF : list (list float) := [[1; 1]; [4; 0]; [2; 3]; [0; 0]; [5; 4]; [0; 5]; [3; 3]; [4.5; 1]]%float.
Example C37_example : qhF ptsF = Ok [3; 5; 4; 7; 1].
Proof. vm_compute. reflexivity. Qed.
(** equal points: the same position twice *)
Example C37_example_equal : qhF [[1; 1]; [1; 1]]%float = Ok [0; 0].
Proof. vm_compute. reflexivity. Qed.

(** C38: the divide-and-conquer hull encloses the points of its blocks; the
    number of blocks and the block size are those of lines 22-27. *)
Theorem C38_blocks_partial :
  forall red minmax workers numProc (P : list (list R)), (forall f id l, redOf f id l (red f id l)) -> minmax_ok RNum minmax ->
  10 <= length P -> 0 < (if numProc =? 0 then workers else numProc) ->
  exists np blk H, shrink (length P) ((if numProc =? 0 then workers else numProc) * 8) = Ok (np, blk) /\
    np * blk <= length P /\
    @divideConquer RNum red minmax workers numProc P = Ok H /\
    let Q := firstn (np * blk) P in
    (forall i, In i H -> i < length P /\ In (nth i P []) Q) /\
    (forall k p, k < length H -> In p Q ->
       (orient (nth (nth k H 0%nat) P []) (nth (nth ((k + 1) mod length H) H 0%nat) P []) p <= 0)%R) /\
    (forall a b p, In p Q -> exists i, In i H /\
       (a * nth 0 p 0 + b * nth 1 p 0 <= a * nth 0 (nth i P []) 0 + b * nth 1 (nth i P []) 0)%R).
Proof.
  intros red minmax w np P Hr Hm H10 Hw. destruct (@divideConquer_ok red Hr minmax Hm w np P H10 Hw) as (n' & blk & H & E1 & E2 & (H1 & H2 & H3)).
  exists n', blk, H. split; [exact E1|]. split; [exact (proj2 (proj2 (proj2 (shrink_ok _ _ E1))))|]. split; [exact E2|]. split; [exact H1|].
  split; [|exact H3]. intros k p Hk Hp. apply H2; [apply cyc_adj; exact Hk|exact Hp].
Qed.
Print Assumptions C38_blocks_partial.

Fixpoint circ (n : nat) (x : float) : list (list float) :=
  match n with 0 => [] | S n' => [x; (x * (10 - x))%float] :: circ n' (x + 0.5)%float end.
Definition dcF (w : nat) (P : list (list float)) : res (list nat) := @divideConquer FNum (@redI (cipairs FNum)) (minmaxI FNum) w 0 P.
(** one worker, 21 points, the last of them far away: it is dropped *)
Theorem C38_tail_refuted :
  exists H, dcF 1 (circ 20 0%float ++ [[1000; 1000]]%float) = Ok H /\ ~ In 20 H /\
    (exists k, k < length H /\
      PrimFloat.ltb 0 (triArea FNum (nth (nth k H 0) (circ 20 0%float) []) (nth (nth ((k + 1) mod length H) H 0) (circ 20 0%float) []) [1000; 1000]%float) = true).
Proof. eexists. split; [vm_compute; reflexivity|]. split; [cbn [In]; lia|]. exists 18. split; vm_compute; [lia|reflexivity]. Qed.
Print Assumptions C38_tail_refuted.

(** fewer than ten points: division by zero *)
Theorem C38_few_refuted :
  forall red minmax workers numProc (P : list (list R)), length P < 10 -> @divideConquer RNum red minmax workers numProc P = UB.
Proof. intros red minmax w np P H. exact (@divideConquer_few red minmax w np P H). Qed.
Print Assumptions C38_few_refuted.

Example C38_example : exists H, dcF 1 (circ 20 0%float) = Ok H /\ length H = 20.
Proof. eexists. split; [vm_compute; reflexivity|reflexivity]. Qed.

(** C55: the sampling hull.  What the filter keeps: only input points on or
    outside an edge of the sample hull, and at least one for each edge with an
    input point strictly outside; under every interleaving. *)
Theorem C55_filter_partial :
  forall (P : list (list R)) (t : tree RNum nat) sched (sample : list (list R)) F remain,
  @boxes_ok RNum nat 2 (fun i => nth i P []) t -> Permutation (items t) (seq 0 (length P)) -> (forall i, In i F -> i < length sample) ->
  @filter2 RNum P t sched sample F = Ok remain ->
  (forall p, In p remain -> In p P /\ exists i, i < length F /\
     (0 <= orient (nth (nth i F 0%nat) sample []) (nth (nth ((i + 1) mod length F) F 0%nat) sample []) p)%R) /\
  forall i p, i < length F -> In p P ->
     (0 < orient (nth (nth i F 0%nat) sample []) (nth (nth ((i + 1) mod length F) F 0%nat) sample []) p)%R ->
     exists p', In p' remain /\ (0 <= orient (nth (nth i F 0%nat) sample []) (nth (nth ((i + 1) mod length F) F 0%nat) sample []) p')%R.
Proof. intros P t sched sample F remain. exact (@filter2_keeps P t sched sample F remain). Qed.
Print Assumptions C55_filter_partial.

(** below 1000 points it is quickHull *)
Theorem C55_small :
  forall red minmax (P : list (list R)) (t : tree RNum nat) sched sample, length P < N.to_nat 1000 ->
  @samplingHull RNum red minmax P t sched sample = @quickHull RNum red minmax P.
Proof. intros red minmax P t sched sample. exact (@samplingHull_small P red minmax t sched sample). Qed.
Print Assumptions C55_small.

(** if the corners of the bounding box are sampled, every point is filtered
    out and two arbitrary positions are returned, which do not enclose the
    input *)
Theorem C55_corners_refuted :
  forall red minmax (P : list (list R)) (t : tree RNum nat) sched (sample : list (list R)) x0 x1 y0 y1,
  (forall f id l, redOf f id l (red f id l)) -> minmax_ok RNum minmax -> N.to_nat 1000 <= length P ->
  @tight RNum nat 2 (fun i => nth i P []) (tbox t) (items t) -> Permutation (items t) (seq 0 (length P)) ->
  (x0 < x1)%R -> (y0 < y1)%R -> (forall p, In p P -> x0 <= nth 0 p 0 <= x1 /\ y0 <= nth 1 p 0 <= y1)%R ->
  incl [[x0; y0]; [x0; y1]; [x1; y0]; [x1; y1]] sample -> incl sample P ->
  exists i j, @samplingHull RNum red minmax P t sched sample = Ok [i; j] /\
    ~ forall p, In p P -> exists a b c, In a [i; j] /\ In b [i; j] /\ In c [i; j] /\ inTriangle (nth a P []) (nth b P []) (nth c P []) p.
Proof. intros red minmax P t sched sample x0 x1 y0 y1 Hr Hm. exact (@samplingHull_bad P red Hr minmax Hm t sched sample x0 x1 y0 y1). Qed.
Print Assumptions C55_corners_refuted.

(** such inputs exist *)
Example C55_corners_example :
  let P := ([[0; 0]; [0; 1]; [1; 0]; [1; 1]] ++ repeat [1 / 2; 1 / 2] (N.to_nat 996))%R in
  N.to_nat 1000 <= length P /\ forall p, In p P -> (0 <= nth 0 p 0 <= 1 /\ 0 <= nth 1 p 0 <= 1)%R.
Proof.
  cbn zeta. rewrite app_length, repeat_length. split; [cbn [length]; lia|].
  intros p Hp. apply in_app_or in Hp as [Hp|Hp]; [|apply repeat_spec in Hp as ->; cbn [nth]; Lra.lra].
  repeat (destruct Hp as [<-|Hp]; [cbn [nth]; Lra.lra|]). destruct Hp.
Qed.

(** a failed compare-exchange stores the flag in the expected value, so that
    the exchange after it fails too: a point strictly outside an edge is lost *)
Definition triF : list (list float) := [[0; 0]; [2; 4]; [4; 0]]%float.
Definition casP : list (list float) := [[2; 6]; [4; 3]; [2; 1]]%float.
Definition casT : tree FNum nat := @Leaf FNum nat [0; 1; 2] (Build_box FNum [2; 1]%float [4; 6]%float).
Theorem C55_exchange_refuted :
  qhF triF = Ok [0; 1; 2] /\
  @build FNum 2 nat (fun i => nth i casP []) false 1 (N.to_nat 2000) 128 [0; 1; 2] = Ok casT /\
  @filter2 FNum casP casT [0; 0; 0; 1; 1; 1; 2; 2; 2] triF [0; 1; 2] = Ok [[2; 6]]%float /\
  PrimFloat.ltb 0 (triArea FNum [2; 4] [4; 0] [4; 3])%float = true.
Proof. vm_compute. auto. Qed.
Print Assumptions C55_exchange_refuted.
Example C55_example : (* the facets in the other order *)
  @filter2 FNum casP casT [1; 1; 1; 0; 0; 0; 2; 2; 2] triF [0; 1; 2] = Ok [[2; 6]; [4; 3]]%float.
Proof. vm_compute. reflexivity. Qed.

(** C56: the brute-force hull.  In general position (no three points on a line,
    at least three points, exact arithmetic) it returns quickHull's cycle, from
    some vertex in one of the two directions. *)
Theorem C56_general :
  forall red minmax (P : list (list R)), (forall f id l, redOf f id l (red f id l)) -> minmax_ok RNum minmax -> 3 <= length P ->
  (forall i j l, i < length P -> j < length P -> l < length P -> i <> j -> j <> l -> i <> l ->
     orient (nth i P []) (nth j P []) (nth l P []) <> 0%R) ->
  exists Q, @quickHull RNum red minmax P = Ok Q /\ NoDup Q /\ 
    exists C k, (C = Q \/ C = rev Q) /\ bruteHull RNum P = Ok (map (fun j => nth ((k + j) mod length Q) C 0) (seq 0 (length Q))).
Proof.
  intros red minmax P Hr Hm H3 HG. destruct (@bruteHull_ok P HG H3 red Hr minmax Hm) as (Q & E & _ & N & C). exists Q. auto.
Qed.
Print Assumptions C56_general.

(** whatever the input, consecutive answers are an edge with all points on one
    side *)
Theorem C56_sides :
  forall (P : list (list R)) H, bruteHull RNum P = Ok H -> forall k, k + 1 < length H ->
  let a := nth k H 0 in let b := nth (k + 1) H 0 in
  a < length P /\ b < length P /\ a <> b /\
  ((forall p, In p P -> (0 <= orient (nth a P []) (nth b P []) p)%R) \/ (forall p, In p P -> (orient (nth a P []) (nth b P []) p <= 0)%R)).
Proof.
  intros P H E k Hk a b.
  assert (A : adj a b H).
  { destruct (@nth_split _ k H 0 ltac:(lia)) as (l1 & l2 & El & Hl). destruct l2 as [|b' l2]; [rewrite El, app_length in Hk; cbn [length] in Hk; lia|].
    exists l1, l2. unfold a, b. rewrite El at 1. do 3 f_equal. rewrite El, app_nth2 by lia. replace (k + 1 - length l1) with 1 by lia. reflexivity. }
  destruct (@bruteHull_sides P H E a b A) as (H1 & H2 & H3 & H4). split; [exact H1|]. split; [exact H2|]. split; [exact H3|].
  destruct H4 as [H4|H4]; [left|right]; intros p Hp; apply In_nth with (d := []) in Hp as (l & Hl & <-); apply H4; exact Hl.
Qed.
Print Assumptions C56_sides.

(** one point; two points; points on an edge: a corner of the hull is missing *)
Theorem C56_degenerate_refuted :
  bruteHull FNum [[1; 1]]%float = UB /\
  bruteHull FNum [[0; 0]; [1; 1]]%float = Ok [0] /\
  bruteHull FNum [[0; 0]; [1; 0]; [2; 0]; [1; -1]]%float = Ok [0; 1; 2; 0; 1] /\
  bruteHull FNum [[0; 0]; [1; 0]; [2; 0]; [1; 1]; [0; 2]; [2; 2]]%float = Ok [0; 4; 5].
Proof. vm_compute. auto. Qed.
Print Assumptions C56_degenerate_refuted.

Example C56_example : bruteHull FNum ptsF = Ok [1; 3; 5; 4; 7].
Proof. vm_compute. reflexivity. Qed.
