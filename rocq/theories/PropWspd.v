(** Properties C11-C15: node distances, bichromatic closest pair, WSPD. *)
From Coq Require Import Reals Floats.
From Verif Require Import Base Num FloatNum FloatLaws FloatMono DistLaws KdModel KdSpec KdBuild KdConstruct RGeom
  RangeModel RangeProofs KdExtra BccpModel BccpProofs BccpFinal ParBufModel WspdModel WspdProofs WspdFinal.

(** C11, doubles: for finite inputs of any size and any two trees built over
    them, the search returns a pair whose computed distance is the least
    computed distance of all pairs.  [srt] is any sort of the four child
    pairs. *)
Theorem C11_bccp_double :
  forall dim A (pt : A -> list float) srt, @sort4_ok FNum fok srt ->
  forall par1 par2 w1 w2 th1 th2 ls1 ls2 P Q t1 t2,
  1 <= dim -> 1 <= ls1 -> 1 <= ls2 -> 0 < w1 -> 0 < w2 -> P <> [] -> Q <> [] ->
  (forall x, In x P -> forall d, d < dim -> PrimFloat.is_finite (nth d (pt x) 0%float) = true) ->
  (forall x, In x Q -> forall d, d < dim -> PrimFloat.is_finite (nth d (pt x) 0%float) = true) ->
  build FNum dim A pt par1 w1 th1 ls1 P = Ok t1 -> build FNum dim A pt par2 w2 th2 ls2 Q = Ok t2 ->
  (exists x y, In x P /\ In y Q /\ PrimFloat.ltb (dist FNum dim (pt x) (pt y)) (nmax FNum) = true) ->
  exists u v, bichromaticClosestPair FNum dim A pt srt t1 t2 = (Some (u, v), dist FNum dim (pt u) (pt v)) /\
    In u P /\ In v Q /\
    forall x y, In x P -> In y Q -> PrimFloat.leb (dist FNum dim (pt u) (pt v)) (dist FNum dim (pt x) (pt y)) = true.
Proof. exact (bccp_built F_distlaws F_ordlaws_fin F_span). Qed.
Print Assumptions C11_bccp_double.

(** C11, exact arithmetic: the Euclidean closest pair. *)
Theorem C11_bccp_exact :
  forall dim A (pt : A -> list R) srt, @sort4_ok RNum (fun _ => True) srt ->
  forall par1 par2 w1 w2 th1 th2 ls1 ls2 P Q t1 t2,
  1 <= dim -> 1 <= ls1 -> 1 <= ls2 -> 0 < w1 -> 0 < w2 -> P <> [] -> Q <> [] ->
  build RNum dim A pt par1 w1 th1 ls1 P = Ok t1 -> build RNum dim A pt par2 w2 th2 ls2 Q = Ok t2 ->
  (exists x y, In x P /\ In y Q /\ (edist dim (pt x) (pt y) < Rfmax)%R) ->
  exists u v, bichromaticClosestPair RNum dim A pt srt t1 t2 = (Some (u, v), edist dim (pt u) (pt v)) /\
    In u P /\ In v Q /\
    forall x y, In x P -> In y Q -> (edist dim (pt u) (pt v) <= edist dim (pt x) (pt y))%R.
Proof. exact bccp_exact. Qed.
Print Assumptions C11_bccp_exact.

(** When every distance reaches the largest number no pair is reported. *)
Theorem C11_overflow_refuted :
  exists t1 t2, build FNum 2 _ (fun x => x) false 1 2000 1 [[0;0]]%float = Ok t1 /\
    build FNum 2 _ (fun x => x) false 1 2000 1 [[0x1p700;0]]%float = Ok t2 /\
    bichromaticClosestPair FNum 2 _ (fun x => x) (ksort FNum) t1 t2 = (None, nmax FNum).
Proof. do 2 eexists. do 2 (split; [vm_compute; reflexivity|]). vm_compute. reflexivity. Qed.
Print Assumptions C11_overflow_refuted.

(** The brute force search. *)
Theorem C11_bruteforce :
  forall N ok fin nn, DistLaws N ok fin nn -> forall dim A (pt : A -> list (nT N)) P Q,
  (forall x, In x P -> finPt N fin dim (pt x)) -> (forall x, In x Q -> finPt N fin dim (pt x)) ->
  match bcpBruteforce N dim A pt P Q with
  | (Some (u, v), d) => In u P /\ In v Q /\ d = dist N dim (pt u) (pt v) /\
      forall x y, In x P -> In y Q -> nle N d (dist N dim (pt x) (pt y)) = true
  | (None, d) => d = nmax N /\
      forall x y, In x P -> In y Q -> nle N (nmax N) (dist N dim (pt x) (pt y)) = true
  end.
Proof. exact bruteforce_correct. Qed.
Print Assumptions C11_bruteforce.

Example C11_sort_exists : @sort4_ok FNum fok (ksort FNum).
Proof. exact (ksort_ok FNum fok). Qed.
Example C11_example : exists t1 t2,
  build FNum 2 _ (fun x => x) false 1 2000 1 [[0;0];[1;5];[4;4]]%float = Ok t1 /\
  build FNum 2 _ (fun x => x) false 1 2000 2 [[9;9];[5;7];[2;-3];[6;4.5]]%float = Ok t2 /\
  bichromaticClosestPair FNum 2 _ (fun x => x) (ksort FNum) t1 t2
  = (Some ([4;4], [6;4.5]), 0x1.07e0f66afed07p+1)%float.
Proof. do 2 eexists. do 2 (split; [vm_compute; reflexivity|]). vm_compute. reflexivity. Qed.

(** C12: the box distances bound the distances of all contained points, and the
    near distance is attained. *)
Theorem C12_node_distance_bounds :
  forall dim (b1 b2 : box RNum) p q, inBox dim b1 p -> inBox dim b2 q ->
  (nodeDistance RNum dim b1 b2 <= edist dim p q <= nodeFarDistance RNum dim b1 b2)%R.
Proof. exact nodeDistance_bounds. Qed.
Print Assumptions C12_node_distance_bounds.
Theorem C12_node_distance_attained :
  forall dim (b1 b2 : box RNum),
  (forall d, (d < dim)%nat -> (coord (bmin b1) d <= coord (bmax b1) d)%R) ->
  (forall d, (d < dim)%nat -> (coord (bmin b2) d <= coord (bmax b2) d)%R) ->
  exists p q, inBox dim b1 p /\ inBox dim b2 q /\ edist dim p q = nodeDistance RNum dim b1 b2.
Proof. exact nodeDistance_attained. Qed.
Print Assumptions C12_node_distance_attained.
(** The far distance bounds any two points of the two boxes together. *)
Theorem C12_far_distance_diameter :
  forall N ok fin nn, DistLaws N ok fin nn -> forall dim (b1 b2 : box N) p q,
  finBox fin dim b1 -> finBox fin dim b2 -> finPt N fin dim p -> finPt N fin dim q ->
  inBox dim b1 p \/ inBox dim b2 p -> inBox dim b1 q \/ inBox dim b2 q ->
  nle N (dist N dim p q) (nodeFarDistance N dim b1 b2) = true.
Proof. exact nodeFar_ge. Qed.
Print Assumptions C12_far_distance_diameter.
(** On doubles both bounds hold for the computed values, whatever the rounding,
    overflow or underflow. *)
Theorem C12_node_distance_bounds_double :
  forall dim (b1 b2 : box FNum) p q,
  @finBox FNum ffin dim b1 -> @finBox FNum ffin dim b2 -> finPt FNum ffin dim p -> finPt FNum ffin dim q ->
  inBox dim b1 p -> inBox dim b2 q ->
  PrimFloat.leb (nodeDistance FNum dim b1 b2) (dist FNum dim p q) = true /\
  PrimFloat.leb (dist FNum dim p q) (nodeFarDistance FNum dim b1 b2) = true.
Proof.
  exact (fun dim b1 b2 p q F1 F2 Fp Fq I1 I2 =>
    conj (nodeDistance_le F_distlaws F1 F2 Fp Fq I1 I2)
         (nodeFar_ge F_distlaws F1 F2 Fp Fq (or_introl I1) (or_intror I2))).
Qed.
Print Assumptions C12_node_distance_bounds_double.

(** Box diameter and longest side. *)
Theorem C12_diag :
  forall dim (b : box RNum), diag RNum dim b = edist dim (bmax b) (bmin b) /\
  forall p q, inBox dim b p -> inBox dim b q -> (edist dim p q <= diag RNum dim b)%R.
Proof. exact (fun dim b => conj (diag_exact dim b) (@diag_diameter dim b)). Qed.
Print Assumptions C12_diag.
Theorem C12_lMax :
  forall dim (b : box RNum),
  (forall d, (d < dim)%nat -> (coord (bmax b) d - coord (bmin b) d <= lMax RNum dim b)%R) /\
  (lMax RNum dim b = 0%R \/ exists d, (d < dim)%nat /\ lMax RNum dim b = (coord (bmax b) d - coord (bmin b) d)%R) /\
  (0 <= lMax RNum dim b)%R.
Proof. exact lMax_spec. Qed.
Print Assumptions C12_lMax.

Example C12_example :
  nodeDistance FNum 2 (@Build_box FNum [0;0] [1;1])%float
                      (@Build_box FNum [4;5] [6;6])%float = 5%float /\
  nodeFarDistance FNum 2 (@Build_box FNum [0;0] [1;1])%float
                      (@Build_box FNum [4;5] [8;6])%float = 10%float.
Proof. split; vm_compute; reflexivity. Qed.

(** C13: in the decomposition of a tree, any two items of different leaves are
    related by exactly one node pair and no node pair relates an item to
    itself; for every separation predicate and every number type. *)
Theorem C13_wspd_covers :
  forall N dim A (ws : tree N A -> tree N A -> bool) t out,
  computeWspdSerial N dim A ws t = Ok out -> NoDup (items t) ->
  (forall pre L1 mid L2 post x y, leaves t = pre ++ L1 :: mid ++ L2 :: post -> In x L1 -> In y L2 ->
     exists i p, nth_error out i = Some p /\ relates x y p /\
       forall j p', nth_error out j = Some p' -> relates x y p' -> j = i) /\
  (forall p x, In p out -> ~ relates x x p) /\
  (forall p, In p out -> ws (fst p) (snd p) = true /\ In (fst p) (subtrees t) /\ In (snd p) (subtrees t)).
Proof. exact wspd_covers. Qed.
Print Assumptions C13_wspd_covers.

(** For a tree built with leaf size 1 the decomposition exists and relates every
    two different items exactly once. *)
Theorem C13_wspd_built :
  forall dim, (1 <= dim)%nat -> forall A (pt : A -> list R) parallel workers threshold P t s,
  (0 < workers)%nat -> P <> [] -> NoDup P ->
  build RNum dim A pt parallel workers threshold 1 P = Ok t ->
  exists out, wspdSerial RNum dim A s t = Ok out /\
    forall x y, In x P -> In y P -> x <> y ->
      exists i p, nth_error out i = Some p /\ relates x y p /\
        forall j p', nth_error out j = Some p' -> relates x y p' -> j = i.
Proof. exact wspd_built. Qed.
Print Assumptions C13_wspd_built.

(** No exception when the predicate accepts all pairs of leaves. *)
Theorem C13_wspd_total :
  forall N dim A (ws : tree N A -> tree N A -> bool) t,
  (forall x y, In x (subtrees t) -> In y (subtrees t) -> isLeaf x = true -> isLeaf y = true -> ws x y = true) ->
  exists out, computeWspdSerial N dim A ws t = Ok out.
Proof. exact wspd_total. Qed.
Print Assumptions C13_wspd_total.

(** On doubles the midpoint of huge coordinates overflows and the decomposition
    of two points throws. *)
Theorem C13_huge_coordinates_refuted :
  exists t, build FNum 2 _ (fun x => x) false 1 2000 1 [[0x1p1023;0];[0x1.8p1023;0]]%float = Ok t /\
    wspdSerial FNum 2 _ 2%float t = Throw.
Proof. eexists. split; vm_compute; reflexivity. Qed.
Print Assumptions C13_huge_coordinates_refuted.
(** With the default leaf size, leaves need not be separable: an exception. *)
Theorem C13_big_leaves_refuted :
  exists t, build FNum 2 _ (fun x => x) false 1 2000 2 [[0;0];[1;0];[2;0]]%float = Ok t /\
    wspdSerial FNum 2 _ 3%float t = Throw.
Proof. eexists. split; vm_compute; reflexivity. Qed.
Print Assumptions C13_big_leaves_refuted.

Example C13_example : exists t out,
  build FNum 2 _ (fun x => x) false 1 2000 1 [[0;0];[1;0];[20;0];[21;1]]%float = Ok t /\
  wspdSerial FNum 2 _ 2%float t = Ok out /\
  map (fun p => (items (fst p), items (snd p))) out =
    [([[0;0]], [[1;0]]); ([[20;0]], [[21;1]]); ([[0;0];[1;0]], [[20;0];[21;1]])]%float.
Proof. do 2 eexists. do 2 (split; [vm_compute; reflexivity|]). vm_compute. reflexivity. Qed.

(** C14: separation of the reported pairs. *)
Theorem C14_wspd_separated :
  forall dim, (1 <= dim)%nat -> forall A (pt : A -> list R) parallel workers threshold, (0 < workers)%nat ->
  forall leafSize P t s out, (1 <= leafSize)%nat -> P <> [] -> (0 <= s)%R ->
  build RNum dim A pt parallel workers threshold leafSize P = Ok t ->
  wspdSerial RNum dim A s t = Ok out ->
  forall u v, In (u, v) out -> forall p q, In p (items u) -> In q (items v) ->
    (s * circleRadius RNum dim (tbox u) (tbox v) <= edist dim (pt p) (pt q) /\
    (forall p', In p' (items u) -> s / 2 * edist dim (pt p) (pt p') <= edist dim (pt p) (pt q)) /\
    (forall q', In q' (items v) -> s / 2 * edist dim (pt q) (pt q') <= edist dim (pt p) (pt q)))%R.
Proof. exact wspd_built_separated. Qed.
Print Assumptions C14_wspd_separated.
Example C14_example :
  geomWellSeparated FNum 2 2%float
    (@Build_box FNum [0;0] [1;0])%float
    (@Build_box FNum [20;0] [21;1])%float = true /\
  geomWellSeparated FNum 2 2%float
    (@Build_box FNum [0;0] [1;0])%float
    (@Build_box FNum [2;0] [3;1])%float = false.
Proof. split; vm_compute; reflexivity. Qed.

(** C15: for every interleaving of the parallel search, every distribution of
    its calls over [procs] workers and every order of the collecting writes,
    the result is a permutation of the serial one. *)
Theorem C15_parallel_equals_serial :
  forall N dim A (ws : tree N A -> tree N A -> bool) cutoff t calls procs logs order,
  PCompute N dim A ws cutoff t calls -> (1 <= procs <= size t)%nat ->
  length logs = procs -> Permutation (concat logs) calls -> (forall w, Permutation (order w) w) ->
  exists out, computeWspdSerial N dim A ws t = Ok out /\
    exists out', wspdCollect _ (size t) procs logs order = Ok (map Some out') /\ Permutation out' out.
Proof. exact wspd_parallel. Qed.
Print Assumptions C15_parallel_equals_serial.
(** A parallel execution exists whenever the serial one succeeds. *)
Theorem C15_parallel_runs :
  forall N dim A (ws : tree N A -> tree N A -> bool) cutoff t out,
  computeWspdSerial N dim A ws t = Ok out -> exists calls, PCompute N dim A ws cutoff t calls.
Proof. exact pcompute_exists. Qed.
Print Assumptions C15_parallel_runs.
(** With more workers than items the buffers have size 0 and the first call
    overruns. *)
Theorem C15_more_workers_than_items_refuted :
  forall T (x : T) procs logs order, wspdCollect T 0 (S procs) ([x] :: logs) order = UB /\
    wspdCollect T 3 4 [[x]] order = UB.
Proof. exact (fun T x procs logs order => conj eq_refl eq_refl). Qed.
Print Assumptions C15_more_workers_than_items_refuted.
Example C15_example :
  wspdCollect nat 4 2 [[7;8];[9]] (@rev _) = Ok [Some 7; Some 8; Some 9].
Proof. vm_compute. reflexivity. Qed.
