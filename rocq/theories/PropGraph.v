(** Properties C35 and C36: spanner and k-nearest-neighbour graph. *)
From Coq Require Import Reals Floats Lra.
From Verif Require Import Base Num FloatNum FloatLaws KdModel KdSpec RGeom KnnModel KnnBuf KnnFinal WspdModel ParBufModel
  GraphModel SpannerProofs KnnGraphProofs.

(** C35: for t > 1 every execution returns edges p < q without repetition such
    that any two input points, coinciding ones included, are joined by a walk of
    length at most t times their distance. *)
Theorem C35_spanner :
  forall dim, (1 <= dim)%nat -> forall (pts : list (list R)) workers threshold cutoff, (0 < workers)%nat ->
  forall t r, (1 < t)%R -> (2 <= length pts)%nat -> (workers <= length pts)%nat ->
  spanner RNum dim pts workers threshold cutoff t r ->
  exists E, r = Ok (map Some E) /\
    (forall p q, (p < length pts)%nat -> (q < length pts)%nat ->
       exists w, walk E (fun a b => edist dim (nth a pts []) (nth b pts [])) p q w /\
         (w <= t * edist dim (nth p pts []) (nth q pts []))%R) /\
    (forall p q, In (p, q) E -> (p < q < length pts)%nat) /\ NoDup E.
Proof. exact spanner_correct. Qed.
Print Assumptions C35_spanner.

(** An execution always exists. *)
Theorem C35_completes :
  forall dim, (1 <= dim)%nat -> forall (pts : list (list R)) workers threshold cutoff, (0 < workers)%nat ->
  forall t, (workers <= length pts)%nat -> exists r, spanner RNum dim pts workers threshold cutoff t r.
Proof. exact spanner_exists. Qed.
Print Assumptions C35_completes.

Definition corners : list (list float) := [[0;0];[1;0];[0;1];[20;0];[20;0];[21;1]]%float.
(** t = 2 on six points, two of them equal: 6 of the 15 possible edges. *)
Example C35_example :
  spanner FNum 2 corners 1 2000 2000 2%float
    (Ok (map Some [(0,2);(0,1);(1,2);(3,4);(3,5);(0,3)])).
Proof.
  assert (E : spannerRun FNum 2 corners 1 2000 2%float = Ok (map Some [(0,2);(0,1);(1,2);(3,4);(3,5);(0,3)]))
    by (vm_compute; reflexivity).
  rewrite <- E.
  eapply spannerRun_spec; [cbn [corners length]; lia|lia|vm_compute; reflexivity|cbn [size items length app]; lia|vm_compute; reflexivity].
Qed.

(** t = 1 is accepted, the separation constant is infinite, and the
    decomposition throws on two points. *)
Theorem C35_stretch_one_refuted :
  exists tr, build FNum 2 nat (vertex FNum [[0;0];[1;0]]%float) true 1 2000 1 [0;1] = Ok tr /\
    wspdSerial FNum 2 nat (spanSep FNum 1%float) tr = Throw.
Proof. eexists. split; vm_compute; reflexivity. Qed.
Print Assumptions C35_stretch_one_refuted.

(** With more workers than points the buffers have size 0: out of bounds. *)
Theorem C35_more_workers_than_points_refuted :
  spanner FNum 2 corners 7 2000 2000 2%float UB.
Proof.
  assert (E : spannerRun FNum 2 corners 7 2000 2%float = UB) by (vm_compute; reflexivity).
  rewrite <- E.
  eapply spannerRun_spec; [cbn [corners length]; lia|lia|vm_compute; reflexivity|cbn [size items length app]; lia|vm_compute; reflexivity].
Qed.
Print Assumptions C35_more_workers_than_points_refuted.

(** C36: with 1 <= k < n, at most min(16, k+1) points at one location and
    distances below the largest double, the edge array consists of n consecutive
    rows of k edges (i, j), and row i lists the k nearest other vertices; for
    every nth_element and every order of the writes. *)
Theorem C36_knn_graph_partial :
  forall dim, (1 <= dim)%nat -> forall (pts : list (list R)) nthel,
  nth_ok (fun _ : nT RNum => True) nthel -> forall srt, sort_ok (fun _ : nT RNum => True) srt ->
  forall workers threshold k order, (0 < workers)%nat -> (1 <= k < length pts)%nat ->
  fewEqual dim (fun i => nth i pts []) (Nat.min 16 (k + 1)) (seq 0 (length pts)) ->
  (forall y z, (y < length pts)%nat -> (z < length pts)%nat ->
     edist dim (nth y pts []) (nth z pts []) < Rfmax)%R ->
  (forall w, Permutation (order w) w) ->
  exists nb : nat -> list nat,
    @knnGraph RNum dim pts nthel srt workers threshold k order
      = Ok (map Some (flat_map (fun i => map (pair i) (nb i)) (seq 0 (length pts)))) /\
    forall i, (i < length pts)%nat ->
      length (nb i) = k /\ exists rest, Permutation (i :: nb i ++ rest) (seq 0 (length pts)) /\
        forall y z, In y (nb i) -> In z rest ->
          (edist dim (nth i pts []) (nth y pts []) <= edist dim (nth i pts []) (nth z pts []))%R.
Proof. exact knnGraph_correct. Qed.
Print Assumptions C36_knn_graph_partial.

(** k out of range throws on a nonempty input ... *)
Theorem C36_range :
  forall N dim (pts : list (list (nT N))) nthel srt workers threshold k order,
  pts <> [] -> (k < 1 \/ length pts <= k)%nat ->
  @knnGraph N dim pts nthel srt workers threshold k order = Throw.
Proof. exact knnGraph_range. Qed.
Print Assumptions C36_range.
(** ... but not on the empty one, where n-1 wraps around. *)
Theorem C36_empty_refuted :
  forall N dim nthel srt workers threshold k order, (1 <= k)%nat ->
  @knnGraph N dim [] nthel srt workers threshold k order = UB.
Proof.
  intros N dim nthel srt workers threshold k order Hk. unfold knnGraph.
  destruct (Nat.ltb_spec k 1); [lia|reflexivity].
Qed.
Print Assumptions C36_empty_refuted.

(** Missing: more than k+1 equal points.  The row of a vertex need not contain
    the vertex, k+1 edges are written to k slots, and the last vertex writes
    outside the array. *)
Theorem C36_equal_points_refuted :
  let nthel := fun (_ : nat) l => @isort FNum nat (rev l) in
  nth_ok (N := FNum) fok nthel /\
  @knnGraph FNum 2 [[1;1];[1;1];[1;1]]%float nthel (@isort FNum _) 1 2000 1 (fun w => w) = UB.
Proof. split; [exact (@isort_rev_nth_ok FNum fok F_ordlaws nat)|vm_compute; reflexivity]. Qed.
Print Assumptions C36_equal_points_refuted.
(** The same with another nth_element: two iterations write one slot, and
    depending on their order vertex 3 is left without an edge. *)
Theorem C36_lost_edge_refuted :
  let nthel := fun (_ : nat) l => @isort FNum nat l in
  let P := [[1;1];[1;1];[1;1];[9;9]]%float in
  nth_ok (N := FNum) fok nthel /\
  @knnGraph FNum 2 P nthel (@isort FNum _) 1 2000 1 (fun w => w) = Ok (map Some [(0,1);(1,0);(2,0);(3,0)]) /\
  @knnGraph FNum 2 P nthel (@isort FNum _) 1 2000 1 (@rev _) = Ok (map Some [(0,1);(1,0);(2,0);(2,1)]).
Proof.
  split; [exact (isort_nth_ok F_ordlaws (A := nat))|]. split; vm_compute; reflexivity.
Qed.
Print Assumptions C36_lost_edge_refuted.

Example C36_example :
  @knnGraph FNum 2 corners (fun _ => @isort FNum _) (@isort FNum _) 1 2000 2 (@rev _)
    = Ok (map Some [(0,1);(0,2);(1,0);(1,2);(2,0);(2,1);(3,4);(3,5);(4,3);(4,5);(5,3);(5,4)]).
Proof. vm_compute. reflexivity. Qed.
