(** Model of the static kd-tree construction:
    include/kdTree/kdTree.h and include/kdTree/treeImpl.h. *)
From Verif Require Import Base Num.

(** A point is the list of its coordinates; [pargeo::_point<dim>]
    (include/pargeo/point.h:37-60).  Coordinates are only ever read at indices
    below [dim], so the default of [nth] is never observed. *)
Definition coord (N : Num) (p : list (nT N)) (i : nat) : nT N := nth i p (nzero N).
Arguments coord {N} p i.

(** kdTree.h:203 pMin, pMax *)
Record box (N : Num) := { bmin : list (nT N); bmax : list (nT N) }.
Arguments bmin {N} b.
Arguments bmax {N} b.

Inductive boxrel := BoxInclude | BoxOverlap | BoxExclude.

(** kdTree.h:343-360 boxCompare(pMin1,pMax1,pMin2,pMax2) *)
Definition boxCompare (N : Num) (dim : nat) (b1 b2 : box N) : boxrel :=
  let exclude := existsb (fun i =>
      nlt N (coord (bmax b1) i) (coord (bmin b2) i)
      || nlt N (coord (bmax b2) i) (coord (bmin b1) i)) (seq 0 dim) in
  let notinclude := existsb (fun i =>
      nlt N (coord (bmax b1) i) (coord (bmax b2) i)
      || nlt N (coord (bmin b2) i) (coord (bmin b1) i)) (seq 0 dim) in
  if exclude then BoxExclude
  else if notinclude then BoxOverlap else BoxInclude.

(** kdTree.h:213-223 minCoords / maxCoords *)
Definition minCoords (N : Num) (dim : nat) (m p : list (nT N)) : list (nT N) :=
  map (fun i => nmin2 N (coord m i) (coord p i)) (seq 0 dim).
Definition maxCoords (N : Num) (dim : nat) (m p : list (nT N)) : list (nT N) :=
  map (fun i => nmax2 N (coord m i) (coord p i)) (seq 0 dim).

(** include/pargeo/point.h distSqr and dist: sum of squared differences, in
    index order, then sqrt *)
Definition distSqr (N : Num) (dim : nat) (p q : list (nT N)) : nT N :=
  fold_left (fun acc i =>
    let d := nsub N (coord p i) (coord q i) in nadd N acc (nmul N d d))
    (seq 0 dim) (nzero N).
Definition dist (N : Num) (dim : nat) (p q : list (nT N)) : nT N :=
  nsqrt N (distSqr N dim p q).

Section Build.
  Variable N : Num.
  Variable dim : nat.
  (** [A] is the type of items ([objT*] pointers, i.e. identities); [pt] reads
      the coordinates of an item. *)
  Variable A : Type.
  Variable pt : A -> list (nT N).

  (** kdTree.h:186-212 node; the item slice of an internal node is, after
      construction, the concatenation of the slices of its children (the
      children's slices are [items.cut(0,median)] and
      [items.cut(median,size())], treeImpl.h:187-188). *)
  Inductive tree :=
  | Leaf (its : list A) (b : box N)
  | Node (b : box N) (l r : tree).

  Fixpoint items (t : tree) : list A :=
    match t with Leaf its _ => its | Node _ l r => items l ++ items r end.

  Definition tbox (t : tree) : box N :=
    match t with Leaf _ b => b | Node b _ _ => b end.

  Definition size (t : tree) : nat := length (items t).

  Definition isLeaf (t : tree) : bool :=
    match t with Leaf _ _ => true | Node _ _ _ => false end.

  (** treeImpl.h:80-90 boundingBoxSerial; [items[0]] on an empty slice is UB *)
  Definition boundingBoxSerial (its : list A) : res (box N) :=
    match its with
    | [] => UB
    | x :: _ =>
      Ok {| bmin := fold_left (fun m y => minCoords N dim m (pt y)) its (pt x);
            bmax := fold_left (fun m y => maxCoords N dim m (pt y)) its (pt x) |}
    end.

  (** slice [items[s..e)] *)
  Definition slice {B} (s e : nat) (l : list B) : list B := firstn (e - s) (skipn s l).

  (** treeImpl.h:92-122 boundingBoxParallel with P = num_workers()*8 blocks;
      the P iterations write disjoint localMin[p]/localMax[p]. *)
  Definition boundingBoxParallel (workers : nat) (its : list A) : res (box N) :=
    let P := workers * 8 in
    match its with
    | [] => UB
    | x :: _ =>
      if P =? 0 then UB else
      let n := length its in
      let bs := (n + P - 1) / P in
      let localMin := map (fun p =>
          fold_left (fun m y => minCoords N dim m (pt y))
            (slice (p * bs) (Nat.min ((p + 1) * bs) n) its) (pt x)) (seq 0 P) in
      let localMax := map (fun p =>
          fold_left (fun m y => maxCoords N dim m (pt y))
            (slice (p * bs) (Nat.min ((p + 1) * bs) n) its) (pt x)) (seq 0 P) in
      Ok {| bmin := fold_left (fun m y => minCoords N dim m y) localMin (pt x);
            bmax := fold_left (fun m y => maxCoords N dim m y) localMax (pt x) |}
    end.

  (** kdTree.h:241-253 findWidest; [k] is an uninitialised member until some
      dimension has span > -1, hence [None]. *)
  Definition findWidest (b : box N) : option nat :=
    snd (fold_left (fun (st : nT N * option nat) kk =>
      let span := nsub N (coord (bmax b) kk) (coord (bmin b) kk) in
      if nlt N (fst st) span then (span, Some kk) else st)
      (seq 0 dim) (nneg1 N, None)).

  (** treeImpl.h:124-157 splitItemSerial, two-pointer in-place partition.
      [ge i] is [items[i]->at(k) >= xM]. *)
  Definition swap (i j : nat) (l : list A) : list A :=
    match nth_error l i, nth_error l j with
    | Some x, Some y => upd j x (upd i y l)
    | _, _ => l
    end.

  Definition atge (k : nat) (xM : nT N) (l : list A) (i : nat) : bool :=
    match nth_error l i with Some x => nle N xM (coord (pt x) k) | None => false end.
  Definition atlt (k : nat) (xM : nT N) (l : list A) (i : nat) : bool :=
    match nth_error l i with Some x => nlt N (coord (pt x) k) xM | None => false end.

  (** lines 138-141: inner while *)
  Fixpoint splitInner (k : nat) (xM : nT N) (its : list A) (l r : nat) : nat :=
    match r with
    | 0 => 0
    | S r' => if atge k xM its r && (l <? r) then splitInner k xM its l r' else r
    end.

  (** lines 134-153: outer while; returns the array and lPt *)
  Fixpoint splitOuter (fuel : nat) (k : nat) (xM : nT N) (its : list A) (l r : nat)
    : res (list A * nat) :=
    match fuel with
    | 0 => Fuel
    | S f =>
      if l <? r then
        if atge k xM its l then
          let r1 := splitInner k xM its l r in
          if l <? r1 then splitOuter f k xM (swap l r1 its) (S l) (r1 - 1)
          else Ok (its, l)
        else splitOuter f k xM its (S l) r
      else Ok (its, l)
    end.

  Definition splitItemSerial (k : nat) (xM : nT N) (its : list A) : res (list A * nat) :=
    if length its <? 2 then Throw
    else
      '(its', l) <- splitOuter (S (length its)) k xM its 0 (length its - 1) ;;
      Ok (its', if atlt k xM its' l then S l else l).

  (** treeImpl.h:159-194 constructSerial.  Fuel is excluded by the theorems
      ([length its] suffices).  [ceil(size()/2.0)] is [(n+1)/2]. *)
  Fixpoint constructSerial (fuel : nat) (leafSize : nat) (its : list A) : res tree :=
    match fuel with
    | 0 => Fuel
    | S f =>
      b <- boundingBoxSerial its ;;
      if length its <=? leafSize then Ok (Leaf its b)
      else
        match findWidest b with
        | None => UB
        | Some k =>
          let xM := ndiv N (nadd N (coord (bmax b) k) (coord (bmin b) k)) (ntwo N) in
          '(its', m0) <- splitItemSerial k xM its ;;
          let m := if (m0 =? 0) || (m0 =? length its) then (length its + 1) / 2 else m0 in
          l <- constructSerial f leafSize (firstn m its') ;;
          r <- constructSerial f leafSize (skipn m its') ;;
          Ok (Node b l r)
        end
    end.

  (** Specification-level result of kdTreeInternal::split_two
      (treeImpl.h:35-77; its block algorithm is modelled in [SplitModel.v], C17_build_uses_split):
      items with a false flag first, each part in order. *)
  Definition splitFlags (fl : A -> bool) (its : list A) : list A * nat :=
    (filter (fun x => negb (fl x)) its ++ filter fl its,
     length (filter (fun x => negb (fl x)) its)).

  (** treeImpl.h:196-263 constructParallel and the node constructor that
      switches to the serial code at 2000 items or fewer.  The two branches of
      par_do work on disjoint item slices, flag slices and node-pool slots. *)
  Fixpoint constructParallel (fuel workers threshold leafSize : nat) (its : list A)
    : res tree :=
    match fuel with
    | 0 => Fuel
    | S f =>
      b <- boundingBoxParallel workers its ;;
      if length its <=? leafSize then Ok (Leaf its b)
      else
        match findWidest b with
        | None => UB
        | Some k =>
          let xM := ndiv N (nadd N (coord (bmax b) k) (coord (bmin b) k)) (ntwo N) in
          let '(its', m0) := splitFlags (fun x => nlt N (coord (pt x) k) xM) its in
          let m := if (m0 =? 0) || (m0 =? length its) then length its / 2 else m0 in
          let child c := if threshold <? length c
                         then constructParallel f workers threshold leafSize c
                         else constructSerial (S (length c)) leafSize c in
          l <- child (firstn m its') ;;
          r <- child (skipn m its') ;;
          Ok (Node b l r)
        end
    end.

  (** treeImpl.h:312-330 build and the tree constructors, kdTree.h:127-177.
      The pool of 2n-1 nodes makes n = 0 undefined. The constant 2000 of the
      code is the parameter [threshold]. *)
  Definition build (parallel : bool) (workers threshold leafSize : nat) (P : list A)
    : res tree :=
    if length P =? 0 then UB
    else if parallel && (threshold <? length P)
    then constructParallel (S (length P)) workers threshold leafSize P
    else constructSerial (S (length P)) leafSize P.

  (** Node-pool slots (offsets from [space]) written for the proper
      descendants of a node whose subtree was built with [space] at offset
      [sp]: treeImpl.h:187-190 and 237-242. *)
  Fixpoint slots (t : tree) (sp : nat) : list nat :=
    match t with
    | Leaf _ _ => []
    | Node _ l r =>
      let m := size l in
      (sp :: slots l (sp + 1)) ++ ((sp + 2 * m - 1) :: slots r (sp + 2 * m))
    end.
End Build.

Arguments Leaf {N A} its b.
Arguments Node {N A} b l r.
Arguments items {N A} t.
Arguments tbox {N A} t.
Arguments size {N A} t.
Arguments isLeaf {N A} t.
Arguments slots {N A} t sp.
Arguments slice {B} s e l.
