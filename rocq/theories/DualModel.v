(** The dual-tree nearest-neighbour search: batchKdtree/shared/dual.h,
    shared/kdtree.h 456-497 and log-tree/logtree.h 1033-1196.  Definitions only.
    shared/macro.h sets DUAL_KNN_MODE to DKNN_NONATOMIC_LEAF, FEWER_SQRT to 0 and
    LOGTREE_BUFFER to BHL_BUFFER; those branches are modelled. *)
From Verif Require Import Base Num KdModel RangeModel KnnModel BatchModel BatchTree LogModel BatchKnn.
Set Implicit Arguments.

(** The field dualKnnDist of the nodes of the query tree, kept apart from the
    nodes: a tree of the same shape. *)
Inductive rtree (F : Type) : Type :=
| RLeaf (r : F)
| RNode (r : F) (tl tr : rtree F).
Arguments RLeaf {F} r.
Arguments RNode {F} r tl tr.
Definition rad {F} (t : rtree F) : F := match t with RLeaf r => r | RNode r _ _ => r end.

Section DualKnn.
  Variable N : Num.
  Variable dim : nat.
  Variable A : Type.
  Variable pt : A -> list (nT N).
  Notation tree := (kt (nT N) (box N)).
  Notation ent := (ent A).
  Notation cbuf := (cbuffer N ent).
  Variable nthel : nat -> list (elem N ent) -> list (elem N ent).

  (** shared/box.h 78-92 [BoundingBoxDistance], kdnode.h 656-661 *)
  Definition boxDist (b1 b2 : box N) : nT N :=
    nsqrt N (fold_left (fun acc i =>
      let v := nmax2 N (nzero N) (nsub N (coord (bmin b1) i) (coord (bmax b2) i)) in
      let v := nmax2 N v (nsub N (coord (bmin b2) i) (coord (bmax b1) i)) in
      nadd N acc (nmul N v v)) (seq 0 dim) (nzero N)).

  (** kdnode.h 95: the constructor *)
  Fixpoint freshR (t : tree) : rtree (nT N) :=
    match t with
    | KLeaf _ _ _ _ => RLeaf (nmax N)
    | KNode _ _ _ _ _ tl tr => RNode (nmax N) (freshR tl) (freshR tr)
    end.

  (** dual.h 177, 183 *)
  Definition qRadius (c : cbuf) : res (nT N * cbuf) :=
    if hasK (cb c) then '(m, c1) <- ckeepK nthel c ;; Ok (fst m, c1) else Ok (nmax N, c).

  (** The order in which the two branches of a par_do run, given the order of
      the serial code; the second number tells the two par_do of lines 217-220
      apart.  The branches work on different query nodes and buffers. *)
  Variable sched : tree -> tree -> nat -> bool -> bool.

  Definition both (lfirst : bool) (f g : rtree (nT N) * list cbuf -> res (rtree (nT N) * list cbuf))
      (sl sr : rtree (nT N)) (bufs : list cbuf) : res (rtree (nT N) * rtree (nT N) * list cbuf) :=
    if lfirst then
      '(sl', b1) <- f (sl, bufs) ;; '(sr', b2) <- g (sr, b1) ;; Ok (sl', sr', b2)
    else
      '(sr', b1) <- g (sr, bufs) ;; '(sl', b2) <- f (sl, b1) ;; Ok (sl', sr', b2).

  Variable qits : list A.

  Section OneTree.
    Variable id : nat.
    Variable its : list A.
    Variable pres : list bool.

    (** 173-185: the queries of a leaf against the points of a leaf *)
    Fixpoint relax (R : tree) (l : list nat) (new : nT N) (bufs : list cbuf) : res (nT N * list cbuf) :=
      match l with
      | [] => Ok (new, bufs)
      | i :: l' =>
        match nth_error qits i, nth_error bufs i with
        | Some x, Some c =>
          '(r, c1) <- qRadius c ;;
          c2 <- knnAdd dim pt nthel (pt x) id its pres R r c1 ;;
          '(r', c3) <- qRadius c2 ;;
          relax R l' (nmax2 N new r') (upd i c3 bufs)
        | _, _ => UB
        end
      end.

    (** 156-194 for a query leaf; 160 is the pruning test *)
    Fixpoint dualLeaf (s e : nat) (qb : box N) (R : tree) (st : nT N * list cbuf) : res (nT N * list cbuf) :=
      if nlt N (fst st) (boxDist qb (kBox R)) then Ok st
      else match R with
      | KLeaf _ _ _ _ => relax R (seq s (e - s)) (nzero N) (snd st)
      | KNode _ _ _ _ _ Rl Rr =>
        if nlt N (boxDist qb (kBox Rl)) (boxDist qb (kBox Rr)) then
          st1 <- dualLeaf s e qb Rl st ;; dualLeaf s e qb Rr st1
        else
          st1 <- dualLeaf s e qb Rr st ;; dualLeaf s e qb Rl st1
      end.

    (** 82-233 [DualKnnHelper].  Builds and bulk erasures leave no node with a
        single child, so lines 113-125 are not modelled. *)
    Fixpoint dual (Q R : tree) (st : rtree (nT N) * list cbuf) : res (rtree (nT N) * list cbuf) :=
      match Q, fst st with
      | KLeaf s e _ qb, RLeaf r =>
        '(r', bufs) <- dualLeaf s e qb R (r, snd st) ;; Ok (RLeaf r', bufs)
      | KNode _ _ _ _ qb Ql Qr, RNode r sl sr =>
        if nlt N r (boxDist qb (kBox R)) then Ok st
        else match R with
        | KLeaf _ _ _ _ =>
          '(sl', sr', bufs) <- both (sched Q R 0 (nlt N (boxDist (kBox Ql) (kBox R)) (boxDist (kBox Qr) (kBox R))))
                                    (dual Ql R) (dual Qr R) sl sr (snd st) ;;
          Ok (RNode (nmax2 N (rad sl') (rad sr')) sl' sr', bufs)
        | KNode _ _ _ _ _ Rl Rr =>
          let lc := nlt N (boxDist (kBox Ql) (kBox Rl)) (boxDist (kBox Ql) (kBox Rr)) in
          let rc := nlt N (boxDist (kBox Qr) (kBox Rl)) (boxDist (kBox Qr) (kBox Rr)) in
          '(sl1, sr1, b1) <- both (sched Q R 0 true)
              (dual Ql (if lc then Rl else Rr)) (dual Qr (if rc then Rl else Rr)) sl sr (snd st) ;;
          '(sl2, sr2, b2) <- both (sched Q R 1 true)
              (dual Ql (if lc then Rr else Rl)) (dual Qr (if rc then Rr else Rl)) sl1 sr1 b1 ;;
          Ok (RNode (nmax2 N (rad sl2) (rad sr2)) sl2 sr2, b2)
        end
      | _, _ => UB
      end.
  End OneTree.

  (** kdtree.h 457-469 *)
  Definition freshBufs (k n : nat) : list cbuf := repeat (onSlice k false (freshSlice N A k)) n.

  (** 482-493: the answer to one query *)
  Definition rowOf (k : nat) (c : cbuf) : res (list ent) := readEntries (map (bufAt (cb c)) (seq 0 k)).
  Definition keepRow (k : nat) (c : cbuf) : res (list ent) :=
    '(_, c1) <- ckeepK nthel c ;; rowOf k c1.

  (** *** The forest *)
  (** kdnode.h 112-167 [updateDualDist]; [upar] tells where both children are
      updated in parallel.  A leaf whose first buffer is short gets radius 0. *)
  Fixpoint leafMax (l : list nat) (new : nT N) (bufs : list cbuf) : res (nT N * list cbuf) :=
    match l with
    | [] => Ok (new, bufs)
    | i :: l' =>
      match nth_error bufs i with
      | Some c => '(m, c1) <- ckeepK nthel c ;; leafMax l' (nmax2 N new (fst m)) (upd i c1 bufs)
      | None => UB
      end
    end.
  Variable upar : tree -> bool.
  Fixpoint updDual (Q : tree) (bufs : list cbuf) : res (rtree (nT N) * list cbuf) :=
    match Q with
    | KLeaf s e _ _ =>
      match nth_error bufs s with
      | None => UB
      | Some c =>
        if hasK (cb c) then '(r, b1) <- leafMax (seq s (e - s)) (nzero N) bufs ;; Ok (RLeaf r, b1)
        else Ok (RLeaf (nzero N), bufs)
      end
    | KNode _ _ _ _ _ Ql Qr =>
      '(sl, b1) <- updDual Ql bufs ;; '(sr, b2) <- updDual Qr b1 ;;
      let r := if upar Q then nmax2 N (rad sl) (rad sr)
               else nmax2 N (nmax2 N (nzero N) (rad sl)) (rad sr) in
      Ok (RNode r sl sr, b2)
    end.

  (** kdtree.h 331-360 [knn(queries, bufs)] *)
  Fixpoint knnBufs (b : btree N A) (qs : list A) (bufs : list cbuf) : res (list cbuf) :=
    match qs, bufs with
    | x :: qs', c :: bufs' =>
      c1 <- knnSingle dim pt nthel (pt x) false false 0 b c ;;
      r <- knnBufs b qs' bufs' ;; Ok (c1 :: r)
    | _, _ => Ok []
    end.

  (** logtree.h 1075-1135 [run_on_tree], tree after tree (1148-1165) *)
  Fixpoint runTrees (Q : tree) (ts : list (nat * btree N A)) (st : rtree (nT N) * list cbuf)
      : res (rtree (nT N) * list cbuf) :=
    match ts with
    | [] => Ok st
    | (id, b) :: ts' =>
      st1 <- (if id =? 0 then bufs <- knnBufs b qits (snd st) ;; updDual Q bufs
              else match bt_root b with
                   | None => UB
                   | Some R => dual id (bt_items b) (bt_pres b) Q R st
                   end) ;;
      runTrees Q ts' st1
    end.
End DualKnn.

Section Entry.
  Variable N : Num.
  Variable dim : nat.
  Variable A : Type.
  Variable pt : A -> list (nT N).
  Notation tree := (kt (nT N) (box N)).
  Variable nthel : nat -> list (elem N (ent A)) -> list (elem N (ent A)).
  Variable sched : tree -> tree -> nat -> bool -> bool.
  Variable upar : tree -> bool.
  Variable build : btree N A -> list A -> res (btree N A).

  (** dual.h 43-44: the query tree.  The conversion of ceil(log2(0)) to int is
      undefined; for other sizes the logarithm is taken to be exact. *)
  Definition queryTree (queries : list A) : res (btree N A) :=
    if length queries =? 0 then UB
    else build (bnew N (Nat.log2_up (length queries)) []) queries.

  (** kdtree.h 456-497 [dualKnnBase] *)
  Definition dualBase (qt b : btree N A) (k : nat) : res (list (list (ent A))) :=
    match bt_root qt, bt_root b with
    | Some Q, Some R =>
      '(_, bufs) <- dual dim pt nthel sched (bt_items qt) 0 (bt_items b) (bt_pres b) Q R
                         (freshR Q, freshBufs N A k (bt_cur qt)) ;;
      mapRes (keepRow nthel k) bufs
    | _, _ => UB
    end.
  (** dual.h 35-53 [dualKnn]: the queries come back in the order of the tree,
      and the answers in the same order. *)
  Definition dualKnn (queries : list A) (b : btree N A) (k : nat) : res (list A * list (list (ent A))) :=
    qt <- queryTree queries ;; rows <- dualBase qt b k ;; Ok (bt_items qt, rows).

  (** logtree.h 1033-1196 [dualKnnBase], 1180-1192 the results *)
  Definition ltDualBase (qt : btree N A) (t : ltree N A) (k : nat) : res (list (list (ent A))) :=
    match bt_root qt with
    | None => UB
    | Some Q =>
      '(_, bufs) <- runTrees dim pt nthel sched (bt_items qt) upar Q (fullTrees t)
                             (freshR Q, freshBufs N A k (bt_cur qt)) ;;
      mapRes (rowOf k) bufs
    end.
  (** dual.h 55-80 *)
  Definition ltDualKnn (queries : list A) (t : ltree N A) (k : nat) : res (list A * list (list (ent A))) :=
    qt <- queryTree queries ;; rows <- ltDualBase qt t k ;; Ok (bt_items qt, rows).
End Entry.
