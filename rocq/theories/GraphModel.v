(** Model of src/spatialGraph/spanner/spanner.cpp and
    src/spatialGraph/knnGraph/knnGraph.cpp.  Points are the indices of the input
    sequence ([getItem(0) - base], spanner.cpp:38-39). *)
From Verif Require Import Base Num KdModel BccpModel ParBufModel SplitModel WspdModel KnnModel.
Set Implicit Arguments.

(** include/spatialGraph/edge.h:11-13 the constructor of an undirected edge (the
    weighted one at lines 38-40 is the same) *)
Definition mkEdge (u v : nat) : nat * nat := if v <? u then (v, u) else (u, v).

Section Graph.
  Variable N : Num.
  Variable dim : nat.
  Variable pts : list (list (nT N)).
  Definition vertex (i : nat) : list (nT N) := nth i pts [].

  (** spanner.cpp:21  4*((double)t+1)/((double)t-1); the constants 4 and 1 are
      2*2 and 2/2 *)
  Definition spanSep (t : nT N) : nT N :=
    let one := ndiv N (ntwo N) (ntwo N) in
    ndiv N (nmul N (nmul N (ntwo N) (ntwo N)) (nadd N t one)) (nsub N t one).

  (** spanner.cpp:38-40 one iteration; an unwritten cell of [wspd] or an empty
      node is UB *)
  Definition pairEdge (c : option (tree N nat * tree N nat)) : res (nat * nat) :=
    match c with
    | None => UB
    | Some (u, v) =>
      match items u, items v with
      | a :: _, b :: _ => Ok (mkEdge a b)
      | _, _ => UB
      end
    end.

  (** spanner.cpp:35-41: the writes [edges[i] = ...] in the order [order] *)
  Definition pairEdges (order : list (nat * (nat * nat)) -> list (nat * (nat * nat)))
    (W : list (option (tree N nat * tree N nat))) : res (list (option (nat * nat))) :=
    es <- mapM pairEdge W ;;
    runWrites (length W) (order (combine (seq 0 (length W)) es)).

  Section Span.
    (** of kdTree::build and of wellSeparatedPairDecomp *)
    Variables (workers threshold cutoff : nat).

    (** spanner.cpp:9-47: the outcomes of the executions on [workers] workers *)
    Inductive spanner (t : nT N) : res (list (option (nat * nat))) -> Prop :=
    | sp_abort : length pts < 2 -> spanner t Throw
    | sp_run tr calls logs order1 order2 : 2 <= length pts ->
        build N dim nat vertex true workers threshold 1 (seq 0 (length pts)) = Ok tr ->
        PCompute N dim nat
          (fun u v => geomWellSeparated N dim (spanSep t) (tbox u) (tbox v)) cutoff tr calls ->
        length logs = workers -> Permutation (concat logs) calls ->
        (forall w, Permutation (order1 w) w) -> (forall w, Permutation (order2 w) w) ->
        spanner t (W <- wspdCollect _ (size tr) workers logs order1 ;; pairEdges order2 W).
  End Span.

  (** knnGraph.cpp:25-30: the writes of iteration i; jj counts the entries
      different from i *)
  Definition rowWrites (k i : nat) (row : list nat) : list (nat * (nat * nat)) :=
    let l := filter (fun j => negb (j =? i)) row in
    combine (seq (i * k) (length l)) (map (pair i) l).

  (** knnGraph.cpp:13-35.  [P.size()-1] is unsigned, so no bound is tested on an
      empty input. *)
  Definition knnGraph (nthel : nat -> list (elem N nat) -> list (elem N nat))
    (srt : list (elem N nat) -> list (elem N nat)) (workers threshold k : nat)
    (order : list (nat * (nat * nat)) -> list (nat * (nat * nat))) : res (list (option (nat * nat))) :=
    let n := length pts in
    if (k <? 1) || (negb (n =? 0) && (n - 1 <? k)) then Throw
    else
      tr <- build N dim nat vertex true workers threshold 16 (seq 0 n) ;;
      rows <- batchKnn N dim nat vertex nthel srt tr (k + 1) false (map vertex (seq 0 n)) ;;
      runWrites (k * n) (order (concat (map (fun p => rowWrites k (fst p) (snd p)) (combine (seq 0 n) rows)))).
End Graph.
