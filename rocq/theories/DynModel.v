(** Model of include/dynamicKdTree/dynKdTree.h: the dynamic kd-tree with leaf
    buckets, batch insertion, batch erasure and k nearest neighbours. *)
From Coq Require Import ZArith.
From Verif Require Import Base Num KdModel.

Section Dyn.
  Variable N : Num.
  Variable dim : nat.
  Variable A : Type.
  Variable pt : A -> list (nT N).

  (** dynKdTree.h:295: 16 in the code *)
  Variable thr : nat.

  (** dynKdTree.h:353-364 dataNode (items with their flag, the counter n) and
      533-548 internalNode.  Sibling pointers are not stored: a node's sibling
      is the other child of its parent (maintained at 648-650, 691-711; the
      race on them is modelled in [DynRace]). *)
  Inductive dtree :=
  | DLeaf (data : list (A * bool)) (n : Z) (b : box N)
  | DNode (n : Z) (k : nat) (split : nT N) (b : box N) (l r : dtree).

  Definition dsize (t : dtree) : Z := match t with DLeaf _ n _ => n | DNode n _ _ _ _ _ => n end.
  Definition dbox (t : dtree) : box N := match t with DLeaf _ _ b => b | DNode _ _ _ b _ _ => b end.

  (** iterate, lines 473-483 and 783-789 *)
  Fixpoint iter (t : dtree) : list A :=
    match t with
    | DLeaf data _ _ => map fst (filter snd data)
    | DNode _ _ _ _ l r => iter l ++ iter r
    end.

  (** lines 156-162 boundingBox::update *)
  Definition bupdate (b : box N) (x : A) : box N :=
    {| bmin := minCoords N dim (pt x) (bmin b); bmax := maxCoords N dim (pt x) (bmax b) |}.

  (** lines 133-153 boundingBox(_input,s,e); the empty range leaves the
      coordinates uninitialised *)
  Definition bboxOf (its : list A) : res (box N) :=
    match its with
    | [] => UB
    | x :: _ => Ok (fold_left bupdate its {| bmin := pt x; bmax := pt x |})
    end.

  (** std::partition (583) or split_two (595): [part f its] are the items with
      f true and the others, each in some order. *)
  Variable part : (A -> bool) -> list A -> list A * list A.
  (** std::nth_element at n/2 (608) or sort_inplace (615) by coordinate k: the
      items before position n/2, and the rest. *)
  Variable med : nat -> list A -> list A * list A.

  Definition goesLeft (k : nat) (split : nT N) (x : A) : bool := nlt N (coord (pt x) k) split.

  (** lines 376-397 dataNode constructor *)
  Definition mkLeaf (its : list A) : res dtree :=
    b <- bboxOf its ;; Ok (DLeaf (map (fun x => (x, true)) its) (Z.of_nat (length its)) b).

  (** lines 577-624: the split dimension, the split value and the two sides *)
  Definition chooseSplit (k : nat) (b : box N) (its : list A) : res (nat * nT N * list A * list A) :=
    let split := ndiv N (nadd N (coord (bmax b) k) (coord (bmin b) k)) (ntwo N) in
    let '(l, r) := part (goesLeft k split) its in
    if (length l =? 0) || (length l =? length its) then
      let k' := (k + 1) mod dim in
      let '(l', r') := med k' (l ++ r) in
      match r' with
      | [] => UB
      | h :: _ => Ok (k', coord (pt h) k', l', r')
      end
    else Ok (k, split, l, r).

  (** lines 560-652 internalNode constructor *)
  Fixpoint mkNode (fuel : nat) (k : nat) (its : list A) : res dtree :=
    match fuel with
    | 0 => Fuel
    | S f =>
      if length its <? 2 then Throw else
      b <- bboxOf its ;;
      '(k', split, l, r) <- chooseSplit k b its ;;
      tl <- (if length l <? thr then mkLeaf l else mkNode f ((k' + 1) mod dim) l) ;;
      tr <- (if length r <? thr then mkLeaf r else mkNode f ((k' + 1) mod dim) r) ;;
      Ok (DNode (Z.of_nat (length its)) k' split b tl tr)
    end.

  Definition build (its : list A) : res dtree := mkNode (S (length its)) 0 its.

  (** lines 399-436 dataNode::insert.  The array [tmp] has e-s+size() cells;
      [Some t] is a replacement node.  When size() is below the number of live
      items the copy runs over the end of [tmp]; when it is above, cells stay
      uninitialised. *)
  Definition leafInsert (xs : list A) (data : list (A * bool)) (n : Z) (b : box N) : res dtree :=
    if (Z.of_nat thr <=? Z.of_nat (length xs) + n)%Z then
      let live := map fst (filter snd data) in
      if (n =? Z.of_nat (length live))%Z then mkNode (S (length (xs ++ live))) 0 (xs ++ live) else UB
    else Ok (DLeaf (data ++ map (fun x => (x, true)) xs) (n + Z.of_nat (length xs)) (fold_left bupdate xs b)).

  (** lines 654-724 internalNode::insert *)
  Fixpoint insert (xs : list A) (t : dtree) : res dtree :=
    match t with
    | DLeaf data n b => leafInsert xs data n b
    | DNode n k split b l r =>
      let '(xl, xr) := part (goesLeft k split) xs in
      l' <- insert xl l ;;
      r' <- insert xr r ;;
      Ok (DNode (n + Z.of_nat (length xs)) k split (fold_left bupdate xs b) l' r')
    end.

  (** lines 452-459: coordinate-wise != (a NaN differs from everything) *)
  Definition sameCoords (x y : A) : bool :=
    forallb (fun i => nle N (coord (pt x) i) (coord (pt y) i) && nle N (coord (pt y) i) (coord (pt x) i))
            (seq 0 dim).

  (** lines 438-471 dataNode::erase: every match counts, also of items whose
      flag is 0 already *)
  Definition leafErase (xs : list A) (data : list (A * bool)) : list (A * bool) * Z :=
    (map (fun e => (fst e, snd e && negb (existsb (fun x => sameCoords (fst e) x) xs))) data,
     Z.of_nat (list_sum (map (fun x => length (filter (fun e => sameCoords (fst e) x) data)) xs))).

  (** lines 726-774 internalNode::erase *)
  Fixpoint erase (xs : list A) (t : dtree) : dtree * Z :=
    if length xs =? 0 then (t, 0%Z) else
    match t with
    | DLeaf data n b => let '(d', e) := leafErase xs data in (DLeaf d' (n - e) b, e)
    | DNode n k split b l r =>
      let '(xl, xr) := part (goesLeft k split) xs in
      let '(l', el) := erase xl l in
      let '(r', er) := erase xr r in
      (DNode (n - (el + er)) k split b l' r', (el + er)%Z)
    end.

  (** lines 201-228 kBuffer, a std::priority_queue of (distance, item) pairs;
      [popMax x l] removes a maximal element of the non-empty queue x :: l. *)
  Notation kelem := (nT N * A)%type.
  Variable popMax : kelem -> list kelem -> kelem * list kelem.

  Definition insertK (k : nat) (q : list kelem) (e : kelem) : list kelem :=
    if k <? length (e :: q) then snd (popMax e q) else e :: q.
  Definition hasK (k : nat) (q : list kelem) : bool := k <=? length q.
  (** top of an empty queue is undefined *)
  Definition getK (q : list kelem) : res (nT N) :=
    match q with [] => UB | x :: q' => Ok (fst (fst (popMax x q'))) end.

  Definition insertItems (k : nat) (qp : list (nT N)) (xs : list A) (q : list kelem) : list kelem :=
    fold_left (fun q x => insertK k q (dist N dim qp (pt x), x)) xs q.

  (** lines 502-516 and 809-834 kNNRangeHelper *)
  Definition inRange (qp : list (nT N)) (radius : nT N) (x : A) : bool :=
    nle N (dist N dim qp (pt x)) radius.
  Fixpoint rangeHelper (k : nat) (qp : list (nT N)) (radius : nT N) (bb : box N) (t : dtree)
           (q : list kelem) : list kelem :=
    match t with
    | DLeaf _ _ _ => insertItems k qp (filter (inRange qp radius) (iter t)) q
    | DNode _ _ _ b l r =>
      match boxCompare N dim bb b with
      | BoxInclude => insertItems k qp (filter (inRange qp radius) (iter t)) q
      | BoxOverlap => rangeHelper k qp radius bb r (rangeHelper k qp radius bb l q)
      | BoxExclude => q
      end
    end.
  (** lines 330-345 kNNRange *)
  Definition rangeBox (qp : list (nT N)) (radius : nT N) : box N :=
    {| bmin := map (fun i => nsub N (coord qp i) radius) (seq 0 dim);
       bmax := map (fun i => nadd N (coord qp i) radius) (seq 0 dim) |}.
  Definition kNNRange (k : nat) (qp : list (nT N)) (radius : nT N) (t : dtree) (q : list kelem) :=
    rangeHelper k qp radius (rangeBox qp radius) t q.

  (** lines 490-498 and 797-805: continue in the sibling *)
  Definition goSibling (k : nat) (qp : list (nT N)) (sib : dtree) (q : list kelem) : res (list kelem) :=
    if hasK k q then r <- getK q ;; Ok (kNNRange k qp r sib q)
    else Ok (insertItems k qp (iter sib) q).

  (** lines 485-500, 791-807 and 877-885 kNNHelper; the root has no sibling *)
  Fixpoint kNNHelper (k : nat) (qp : list (nT N)) (t : dtree) (sib : option dtree) (q : list kelem)
    : res (list kelem) :=
    q1 <- match t with
          | DLeaf _ _ _ => Ok (insertItems k qp (iter t) q)
          | DNode _ kd split _ l r =>
            if nlt N (coord qp kd) split then kNNHelper k qp l (Some r) q
            else kNNHelper k qp r (Some l) q
          end ;;
    match sib with
    | None => Ok q1
    | Some s => goSibling k qp s q1
    end.

  (** lines 905-912: the queue is emptied from the largest to the smallest *)
  Fixpoint drain (fuel : nat) (q : list kelem) (acc : list A) : list A :=
    match fuel with
    | 0 => acc
    | S f => match q with
             | [] => acc
             | x :: q1 => let '(m, q') := popMax x q1 in drain f q' (snd m :: acc)
             end
    end.

  (** lines 890-915 kNN *)
  Definition kNN (t : dtree) (qp : list (nT N)) (k : nat) : res (list A) :=
    q <- kNNHelper k qp t None [] ;; Ok (drain (length q) q []).

  (** lines 164-173 contains, 518-528 and 836-851 check (the sibling test is
      true by construction; the box of the right child is not tested) *)
  Definition contains (b : box N) (p : list (nT N)) : bool :=
    forallb (fun i => negb (nlt N (coord p i) (coord (bmin b) i)) && negb (nlt N (coord (bmax b) i) (coord p i)))
            (seq 0 dim).
  Fixpoint check (t : dtree) : bool :=
    match t with
    | DLeaf data _ b => forallb (fun e => contains b (pt (fst e))) data
    | DNode _ _ _ b l r =>
      contains b (bmin (dbox l)) && contains b (bmax (dbox l)) && check l && check r
    end.

  (** A client: batches of insertions and erasures after the construction. *)
  Inductive dop := Ins (xs : list A) | Del (xs : list A).
  Fixpoint runOps (ops : list dop) (t : dtree) : res dtree :=
    match ops with
    | [] => Ok t
    | Ins xs :: ops' => t' <- insert xs t ;; runOps ops' t'
    | Del xs :: ops' => runOps ops' (fst (erase xs t))
    end.
End Dyn.

Arguments DLeaf {N A} data n b.
Arguments DNode {N A} n k split b l r.
Arguments dsize {N A} t.
Arguments dbox {N A} t.
Arguments iter {N A} t.
Arguments Ins {A} xs.
Arguments Del {A} xs.
