(** Properties C08-C10: k nearest neighbours on the static kd-tree and the two
    k-smallest buffers. *)
From Coq Require Import Reals Floats Lra.
From Verif Require Import Base Num FloatNum FloatLaws KdModel KdSpec KdBuild KdConstruct RGeom
  RangeModel RangeProofs KdExtra KnnModel KnnBuf KnnProofs KdSep KnnFinal.

(** C08: every item gets a row of k items of the input, no other item is closer
    than a listed one, and the row is sorted when asked for.  [nthel] and [srt]
    are any nth_element and sort.  At most [leafSize] items may share a
    location and all distances are below the largest double. *)
Theorem C08_knn_correct :
  forall dim, (1 <= dim)%nat -> forall A (pt : A -> list R) nthel,
  nth_ok (fun _ : nT RNum => True) nthel -> forall srt, sort_ok (fun _ : nT RNum => True) srt ->
  forall parallel workers threshold leafSize P t k sorted,
  (1 <= leafSize)%nat -> (0 < workers)%nat -> (1 <= k <= length P)%nat ->
  build RNum dim A pt parallel workers threshold leafSize P = Ok t ->
  fewEqual dim pt leafSize P ->
  (forall y z, In y P -> In z P -> edist dim (pt y) (pt z) < Rfmax)%R ->
  exists rows, batchKnn RNum dim A pt nthel srt t k sorted (map pt P) = Ok rows /\
    Forall2 (fun x l => length l = k /\
      (exists rest, Permutation (l ++ rest) P /\
         forall y z, In y l -> In z rest -> (edist dim (pt x) (pt y) <= edist dim (pt x) (pt z))%R) /\
      (sorted = true -> forall i j y z, (i <= j)%nat -> nth_error l i = Some y -> nth_error l j = Some z ->
         (edist dim (pt x) (pt y) <= edist dim (pt x) (pt z))%R)) P rows.
Proof. exact batchKnn_correct. Qed.
Print Assumptions C08_knn_correct.

(** Pairwise different locations satisfy the multiplicity condition. *)
Theorem C08_distinct_points :
  forall dim, (1 <= dim)%nat -> forall A (pt : A -> list R) leafSize P, (1 <= leafSize)%nat -> NoDup P ->
  (forall x y, In x P -> In y P -> x <> y -> exists d, (d < dim)%nat /\ coord (N := RNum) (pt x) d <> coord (N := RNum) (pt y) d) ->
  fewEqual dim pt leafSize P.
Proof. exact distinct_fewEqual. Qed.
Print Assumptions C08_distinct_points.

(** With fewer than k points the search throws. *)
Theorem C08_too_few_throws :
  forall dim, (1 <= dim)%nat -> forall A (pt : A -> list R) nthel,
  nth_ok (fun _ : nT RNum => True) nthel -> forall srt, sort_ok (fun _ : nT RNum => True) srt ->
  forall parallel workers threshold leafSize P t k sorted,
  (1 <= leafSize)%nat -> (0 < workers)%nat -> P <> [] -> (length P < k)%nat ->
  build RNum dim A pt parallel workers threshold leafSize P = Ok t ->
  fewEqual dim pt leafSize P ->
  (forall y z, In y P -> In z P -> edist dim (pt y) (pt z) < Rfmax)%R ->
  batchKnn RNum dim A pt nthel srt t k sorted (map pt P) = Throw.
Proof. exact batchKnn_toofew. Qed.
Print Assumptions C08_too_few_throws.

(** A query point that is not in the data can make the search throw although k
    points exist. *)
Theorem C08_foreign_query_refuted :
  exists t, build FNum 2 _ (fun x => x) false 1 2000 1 [[0;0];[1;0];[5;5];[6;5]]%float = Ok t /\
    batchKnn FNum 2 _ (fun x => x) (fun _ => @isort FNum _) (@isort FNum _) t 2 true [[0.5;0];[7;7]]%float = Throw.
Proof. eexists. split; vm_compute; reflexivity. Qed.
Print Assumptions C08_foreign_query_refuted.

(** The contracts are met by an implementation. *)
Example C08_contracts : nth_ok (fun _ : nT RNum => True) (fun _ => @isort RNum (list R)) /\
  sort_ok (fun _ : nT RNum => True) (@isort RNum (list R)).
Proof. exact (conj (isort_nth_ok R_ordlaws (A := list R)) (isort_sort_ok R_ordlaws (A := list R))). Qed.

Definition grid5 : list (list float) := [[0;0];[1;0];[0;2];[5;5];[6;5]]%float.
Example C08_example : exists t,
  build FNum 2 _ (fun x => x) false 1 2000 1 grid5 = Ok t /\
  batchKnn FNum 2 _ (fun x => x) (fun _ => @isort FNum _) (@isort FNum _) t 3 true grid5 = Ok
   [[[0;0];[1;0];[0;2]]; [[1;0];[0;0];[0;2]]; [[0;2];[0;0];[1;0]];
    [[5;5];[6;5];[0;2]]; [[6;5];[5;5];[0;2]]]%float.
Proof. eexists. split; vm_compute; reflexivity. Qed.

(** C09: the rows list pairwise distinct items of the input when no more than
    [leafSize] items share a location. *)
Theorem C09_knn_distinct_partial :
  forall dim, (1 <= dim)%nat -> forall A (pt : A -> list R) nthel,
  nth_ok (fun _ : nT RNum => True) nthel -> forall srt, sort_ok (fun _ : nT RNum => True) srt ->
  forall parallel workers threshold leafSize P t k sorted,
  (1 <= leafSize)%nat -> (0 < workers)%nat -> (1 <= k <= length P)%nat -> NoDup P ->
  build RNum dim A pt parallel workers threshold leafSize P = Ok t ->
  fewEqual dim pt leafSize P ->
  (forall y z, In y P -> In z P -> edist dim (pt y) (pt z) < Rfmax)%R ->
  exists rows, batchKnn RNum dim A pt nthel srt t k sorted (map pt P) = Ok rows /\
    Forall (fun l => length l = k /\ NoDup l /\ incl l P) rows.
Proof. exact knn_distinct. Qed.
Print Assumptions C09_knn_distinct_partial.

(** Missing: the multiplicity condition cannot be dropped.  17 items at one
    location plus one far item, default leaf size 16: the first
    row has 10 distinct items and lacks the far item, although all k = 18 are
    asked for. *)
Definition stacked : list (nat * list float) :=
  map (fun i => (i, [1;1]%float)) (seq 0 17) ++ [(17, [9;9]%float)].
Theorem C09_knn_distinct_refuted :
  NoDup stacked /\ exists t rows,
    build FNum 2 _ snd false 1 2000 16 stacked = Ok t /\
    batchKnn FNum 2 _ snd (fun _ => @isort FNum _) (@isort FNum _) t 18 true (map snd stacked) = Ok rows /\
    length (nodup Nat.eq_dec (map fst (nth 0 rows []))) = 10 /\ length (nth 0 rows []) = 18 /\
    ~ In 17 (map fst (nth 0 rows [])).
Proof.
  split; [repeat constructor; simpl; intuition discriminate|].
  eexists; eexists. split; [vm_compute; reflexivity|]. split; [vm_compute; reflexivity|].
  split; [vm_compute; reflexivity|]. split; [vm_compute; reflexivity|].
  vm_compute. intuition discriminate.
Qed.
Print Assumptions C09_knn_distinct_refuted.

Example C09_example : exists t rows,
  build FNum 2 _ (fun x => x) false 1 2000 1 grid5 = Ok t /\
  batchKnn FNum 2 _ (fun x => x) (fun _ => @isort FNum _) (@isort FNum _) t 5 true grid5 = Ok rows /\
  map (@length _) rows = [5;5;5;5;5]%nat.
Proof. eexists; eexists. split; [vm_compute; reflexivity|]. split; vm_compute; reflexivity. Qed.

(** C10: after any sequence of insertions the buffer of knnImpl.h keeps the k
    cheapest elements, whatever nth_element does within its contract; with fewer
    than k it throws.  Costs are comparable and below the largest double. *)
Theorem C10_buffer_keeps_k_smallest :
  forall (N : Num) (ok : nT N -> Prop), OrdLaws N ok -> ok (nmax N) ->
  forall A nthel, nth_ok ok nthel -> forall k, 1 <= k ->
  forall es : list (elem N A),
  (forall e, In e es -> snd e <> None /\ ok (fst e) /\ nlt N (fst e) (nmax N) = true) ->
  exists b, insertAll nthel es (newBuffer N A k) = Ok b /\
    (length es < k -> keepK nthel b = Throw) /\
    (k <= length es -> exists c b' rest, keepK nthel b = Ok (c, b') /\ bptr b' = k /\
       let kept := firstn k (bbuf b') in
       length kept = k /\ Permutation (kept ++ rest) es /\ In c kept /\
       (forall a, In a kept -> nlt N (fst c) (fst a) = false) /\
       (forall a g, In a kept -> In g rest -> nlt N (fst g) (fst a) = false)).
Proof. exact buffer_k_smallest. Qed.
Print Assumptions C10_buffer_keeps_k_smallest.

(** The buffer of batchKdtree/shared/knnbuffer.h needs no bound on the costs. *)
Theorem C10_cached_buffer_keeps_k_smallest :
  forall (N : Num) (ok : nT N -> Prop), OrdLaws N ok ->
  forall A nthel, nth_ok ok nthel -> forall k, 1 <= k ->
  forall es : list (elem N A), (forall e, In e es -> ok (fst e)) ->
  exists c, cinsertAll nthel es (newCBuffer N A k) = Ok c /\
    (length es < k -> ckeepK nthel c = Throw) /\
    (k <= length es -> exists m c' rest, ckeepK nthel c = Ok (m, c') /\ bptr (cb c') = k /\
       let kept := firstn k (bbuf (cb c')) in
       length kept = k /\ Permutation (kept ++ rest) es /\ m = nth (k - 1) kept (emptyElem N A) /\
       (forall a g, In a kept -> In g rest -> nlt N (fst g) (fst a) = false)).
Proof. exact cbuffer_k_smallest. Qed.
Print Assumptions C10_cached_buffer_keeps_k_smallest.

(** With an infinite cost (an overflowed distance) the default elements win:
    the kept element was never inserted. *)
Theorem C10_infinite_cost_refuted :
  exists b b' : buffer FNum nat,
    insertAll (fun _ => @isort FNum _) [(infinity, Some 7)] (newBuffer FNum nat 1) = Ok b /\
    keepK (fun _ => @isort FNum _) b = Ok (emptyElem FNum nat, b').
Proof. eexists; eexists. split; vm_compute; reflexivity. Qed.
Print Assumptions C10_infinite_cost_refuted.

(** The same through the public search, with finite input points. *)
Theorem C10_overflowing_points_refuted :
  exists t, build FNum 2 _ (fun x => x) false 1 2000 16 [[0;0];[0x1p700;0]]%float = Ok t /\
    batchKnn FNum 2 _ (fun x => x) (fun _ => @isort FNum _) (@isort FNum _) t 2 true [[0;0];[0x1p700;0]]%float = UB.
Proof. eexists. split; vm_compute; reflexivity. Qed.
Print Assumptions C10_overflowing_points_refuted.

Example C10_example : exists b m b',
  insertAll (fun _ => @isort FNum _) (map (fun i => (i, Some i)) [5;3;8;1;9;2;7]%float) (newBuffer FNum float 3) = Ok b /\
  keepK (fun _ => @isort FNum _) b = Ok (m, b') /\
  map fst (firstn 3 (bbuf b')) = [1;2;3]%float.
Proof. eexists; eexists; eexists. split; [vm_compute; reflexivity|]. split; vm_compute; reflexivity. Qed.
Example C10_double_contract : nth_ok (N := FNum) fok (fun _ => @isort FNum nat) /\ fok (nmax FNum).
Proof. split; [exact (isort_nth_ok F_ordlaws (A := nat))|vm_compute; auto]. Qed.
