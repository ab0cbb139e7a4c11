(** The k-nearest-neighbour searches of the batch kd-trees
    (batchKdtree/shared/kdnode.h, shared/kdtree.h) and of the logarithmic forest
    (log-tree/logtree.h).  Definitions only.  shared/macro.h sets FEWER_SQRT and
    SPATIAL_SORT to 0, so the branches compared on plain distances are modelled
    and the queries are not reordered. *)
From Verif Require Import Base Num KdModel RangeModel KnnModel BatchModel BatchTree LogModel.
Set Implicit Arguments.

Section BatchKnn.
  Variable N : Num.
  Variable dim : nat.
  Variable A : Type.
  Variable pt : A -> list (nT N).
  Notation tree := (kt (nT N) (box N)).

  (** A pointer into the item array of a tree: the number of the tree, the
      position, and the item there. *)
  Definition ent : Type := nat * nat * A.
  Variable nthel : nat -> list (elem N ent) -> list (elem N ent).

  (** kdnode.h 480-481: the live items of [s, e), in order. *)
  Definition liveEnts (id s e : nat) (its : list A) (pres : list bool) : list ent :=
    flat_map (fun i => match nth_error its i, nth_error pres i with
                       | Some x, Some true => [(id, i, x)]
                       | _, _ => []
                       end) (seq s (e - s)).

  Variable q : list (nT N).
  Definition entDist (x : ent) : nT N := dist N dim q (pt (snd x)).
  Definition entElem (x : ent) : elem N ent := (entDist x, Some x).

  (** 505-508: the box of the ball; 574: two default-constructed points
      (geometry.h 37) *)
  Definition ballBox (r : nT N) : box N :=
    {| bmin := map (fun i => nsub N (coord q i) r) (seq 0 dim);
       bmax := map (fun i => nadd N (coord q i) r) (seq 0 dim) |}.
  Definition dfltBox : box N := {| bmin := repeat (nmax N) dim; bmax := repeat (nmax N) dim |}.

  Section OneTree.
    Variable id : nat.
    Variable its : list A.
    Variable pres : list bool.
    Variables update recurse : bool.

    (** 470-489 [knnAddToBuffer] *)
    Definition knnAdd (t : tree) (radius : nT N) (out : cbuffer N ent) : res (cbuffer N ent) :=
      let '(s, e) := kRange t in
      cinsertAll nthel (map entElem (filter (fun x => nle N (entDist x) radius) (liveEnts id s e its pres))) out.

    (** 500-513: radius and box are shared along the recursion. *)
    Definition knnTighten (x : nT N * box N * cbuffer N ent) : res (nT N * box N * cbuffer N ent) :=
      if update then
        let '(r, qb, out) := x in
        '(tmp, out1) <- ckeepK nthel out ;;
        if nlt N (fst tmp) r then Ok (fst tmp, ballBox (fst tmp), out1) else Ok (r, qb, out1)
      else Ok x.

    (** 491-535 [knnPrune] *)
    Fixpoint knnPrune (t : tree) (x : nT N * box N * cbuffer N ent) : res (nT N * box N * cbuffer N ent) :=
      '(r, qb, out) <- knnTighten x ;;
      match boxCompare N dim qb (kBox t) with
      | BoxExclude => Ok (r, qb, out)
      | BoxInclude => out1 <- knnAdd t r out ;; Ok (r, qb, out1)
      | BoxOverlap =>
        match t with
        | KLeaf _ _ _ _ => out1 <- knnAdd t r out ;; Ok (r, qb, out1)
        | KNode _ _ _ _ _ tl tr => x1 <- knnPrune tl (r, qb, out) ;; knnPrune tr x1
        end
      end.

    (** 562-595: the other child; [rec] is knnHelper on it.  The assertion of
        line 590 is compiled out. *)
    Definition knnOther (t : tree) (rec : cbuffer N ent -> res (cbuffer N ent)) (out : cbuffer N ent)
        : res (cbuffer N ent) :=
      if hasK (cb out) then
        x <- (if update then Ok (nmax N, dfltBox, out)
              else '(tmp, out1) <- ckeepK nthel out ;;
                   if nlt N (fst tmp) (nmax N) then Ok (fst tmp, ballBox (fst tmp), out1)
                   else Ok (nmax N, dfltBox, out1)) ;;
        '(_, _, out2) <- knnPrune t x ;; Ok out2
      else if recurse then rec out
      else knnAdd t (nmax N) out.

    (** 540-596 [knnHelper] *)
    Fixpoint knnHelper (t : tree) (out : cbuffer N ent) : res (cbuffer N ent) :=
      match t with
      | KLeaf _ _ _ _ => knnAdd t (nmax N) out
      | KNode d sv _ _ _ tl tr =>
        if nlt N (coord q d) sv then
          out1 <- knnHelper tl out ;; knnOther tr (knnHelper tr) out1
        else
          out1 <- knnHelper tr out ;; knnOther tl (knnHelper tl) out1
      end.
  End OneTree.

  (** kdtree.h 303-309 [knnSinglePoint]; the nodes of a tree that was never
      built are uninitialised memory. *)
  Definition knnSingle (update recurse : bool) (id : nat) (b : btree N A) (out : cbuffer N ent)
      : res (cbuffer N ent) :=
    match bt_root b with
    | None => UB
    | Some t =>
      out1 <- knnHelper id (bt_items b) (bt_pres b) update recurse t out ;;
      '(_, out2) <- ckeepK nthel out1 ;; Ok out2
    end.

  (** 319-320: a buffer over a given slice, empty or preloaded *)
  Definition onSlice (k : nat) (preload : bool) (sl : list (elem N ent)) : cbuffer N ent :=
    mkCBuf (mkBuf k (if preload then k else 0) sl) true.
  Definition freshSlice (k : nat) : list (elem N ent) := repeat (emptyElem N ent) (2 * k).

  (** Reading the entries out; an entry that was never set is uninitialised. *)
  Fixpoint readEntries (l : list (elem N ent)) : res (list ent) :=
    match l with
    | [] => Ok []
    | (_, Some x) :: l' => r <- readEntries l' ;; Ok (x :: r)
    | (_, None) :: _ => UB
    end.

  (** 323-327, 409-418 [knn(queries, k)], one query *)
  Definition bknn (update recurse : bool) (b : btree N A) (k : nat) : res (list ent) :=
    c <- knnSingle update recurse 0 b (onSlice k false (freshSlice k)) ;;
    readEntries (map (bufAt (cb c)) (seq 0 k)).

  (** *** The forest: logtree.h *)

  (** 800-811 [gatherFullTrees], with the tree in place of its number; the
      buffer is tree 0, static tree i is tree i + 1. *)
  Definition fullTrees (t : ltree N A) : list (nat * btree N A) :=
    (if bt_cur (lt_buf t) =? 0 then [] else [(0, lt_buf t)]) ++
    map (fun kb => (S (fst kb), snd kb))
        (filter (fun kb => Nat.testbit (lt_mask t) (fst kb))
                (combine (seq 0 (length (lt_trees t))) (lt_trees t))).

  (** The trees one after the other on the same slice, all but the first
      preloaded: 854-855, 896-905, 981-983. *)
  Fixpoint knnChain (update recurse : bool) (k : nat) (preload : bool) (ts : list (nat * btree N A))
      (sl : list (elem N ent)) : res (list (elem N ent)) :=
    match ts with
    | [] => Ok sl
    | (id, b) :: ts' =>
      c <- knnSingle update recurse id b (onSlice k preload sl) ;;
      knnChain update recurse k true ts' (bbuf (cb c))
    end.
  Definition knnSeq (update recurse : bool) (k : nat) (ts : list (nat * btree N A)) : res (list ent) :=
    sl <- knnChain update recurse k false ts (freshSlice k) ;; readEntries (firstn k sl).

  (** 918-1025 [knn] of the serial forest (979-984, 1008-1013), 876-916 [knn2]
      and 813-874 [knn3], one query *)
  Definition ltKnnSerial update recurse (t : ltree N A) (k : nat) : res (list ent) :=
    knnSeq update recurse k (fullTrees t).
  Definition ltKnn2 := ltKnnSerial.
  Definition ltKnn3 update recurse (t : ltree N A) (k : nat) : res (list ent) :=
    knnSeq update recurse k (rev (fullTrees t)).

  (** 973-977: every tree on its own slice *)
  Fixpoint knnEach (update recurse : bool) (k : nat) (ts : list (nat * btree N A))
      : res (list (list (elem N ent))) :=
    match ts with
    | [] => Ok []
    | (id, b) :: ts' =>
      c <- knnSingle update recurse id b (onSlice k false (freshSlice k)) ;;
      sls <- knnEach update recurse k ts' ;; Ok (bbuf (cb c) :: sls)
    end.
  (** 992-1005: the first k of every other slice go into the first; without
      trees there is no first slice. *)
  Definition knnMerge (k : nat) (sls : list (list (elem N ent))) : res (list ent) :=
    match sls with
    | [] => UB
    | sl :: sls' =>
      c <- cinsertAll nthel (concat (map (firstn k) sls')) (onSlice k true sl) ;;
      readEntries (map (bufAt (cb c)) (seq 0 k))
    end.
  Definition ltKnnParallel update recurse (t : ltree N A) (k : nat) : res (list ent) :=
    sls <- knnEach update recurse k (fullTrees t) ;; knnMerge k sls.
End BatchKnn.
