(** Model of the neighbour structure of the Delaunay triangulation:
    src/delaunayTriangulation/incremental/oct_tree.h and neighbors.h, for
    two-dimensional points.  Definitions only.

    Vertices are indices; [vp] gives their points.  [reduce] is a fold; the tree
    is immutable, without parent pointers and statistics. *)
From Coq Require Import NArith.
From Verif Require Import Base Num DelModel.
Set Implicit Arguments.

Section Oct.
  Variable N : Num.
  Variable vp : nat -> pt2 N.

  (** geometry.h 288, 315, 318-319 *)
  Definition vlen (v : pt2 N) : nT N := nsqrt N (nadd N (nmul N (fst v) (fst v)) (nmul N (snd v) (snd v))).
  Definition minC (a b : pt2 N) : pt2 N := (nmin2 N (fst a) (fst b), nmin2 N (snd a) (snd b)).
  Definition maxC (a b : pt2 N) : pt2 N := (nmax2 N (fst a) (fst b), nmax2 N (snd a) (snd b)).

  Definition obox : Type := pt2 N * pt2 N.
  (** oct_tree.h 225-237 *)
  Definition minmax (x y : obox) : obox := (minC (fst x) (fst y), maxC (snd x) (snd y)).
  Definition getBox (V : list nat) : res obox :=
    match V with
    | [] => UB
    | v :: _ => Ok (fold_left minmax (map (fun u => (vp u, vp u)) V) (vp v, vp v))
    end.

  (** oct_tree.h 45-79, 148-160: box, centre, size, and the vertices or the children *)
  Inductive otree : Type :=
  | OLeaf (b : obox) (its : list nat)
  | ONode (b : obox) (n : nat) (l r : otree).
  Definition obx (t : otree) : obox := match t with OLeaf b _ => b | ONode b _ _ _ => b end.
  Definition osize (t : otree) : nat := match t with OLeaf _ its => length its | ONode _ n _ _ => n end.
  Definition ocentre (t : otree) : pt2 N :=
    let '(lo, hi) := obx t in
    let d := psub hi lo in
    (nadd N (fst lo) (ndiv N (fst d) (ntwo N)), nadd N (snd lo) (ndiv N (snd d) (ntwo N))).

  (** 102-106, 169-180: the cells written by [flatten], each with its value; the
      two recursive calls may run in parallel *)
  Fixpoint flatW (t : otree) (off : nat) : list (nat * nat) :=
    match t with
    | OLeaf _ its => combine (seq off (length its)) its
    | ONode _ _ l r => flatW l off ++ flatW r (off + osize l)
    end.
  (** 122-131 *)
  Fixpoint odepth (t : otree) : nat :=
    match t with OLeaf _ _ => 0 | ONode _ _ l r => 1 + Nat.max (odepth l) (odepth r) end.

  (** 207-221; [toU] is the conversion of the double [floor(x)] to [unsigned int] *)
  Variable toU : nT N -> res BinNums.N.
  Definition n2p32 : nT N := Nat.iter 31 (fun x => nmul N x (ntwo N)) (ntwo N).
  Definition maxval : nT N := nsub N n2p32 (ndiv N (ntwo N) (ntwo N)).
  Definition bitAt (x : BinNums.N) (i : nat) (loc : nat) : BinNums.N :=
    N.shiftl (N.land (N.shiftr x (N.of_nat i)) 1) (N.of_nat loc).
  Definition interleave (x y : BinNums.N) : BinNums.N :=
    fold_left (fun r i => N.lor (N.lor r (bitAt x i (2 * i))) (bitAt y i (2 * i + 1))) (seq 0 32) 0%N.
  Definition keyOf (p lo : pt2 N) (delta : nT N) : res BinNums.N :=
    x <- toU (ndiv N (nmul N maxval (nsub N (fst p) (fst lo))) delta) ;;
    y <- toU (ndiv N (nmul N maxval (nsub N (snd p) (snd lo))) delta) ;;
    Ok (interleave x y).

  (** [parlay::sort] by the first component; [parlay::internal::binary_search] *)
  Variable sort : list (BinNums.N * nat) -> list (BinNums.N * nat).
  Variable bsearch : list (BinNums.N * nat) -> (BinNums.N * nat -> bool) -> nat.

  (** 242-264 *)
  Definition delta (b : obox) : nT N :=
    let d := psub (snd b) (fst b) in nmax2 N (nmax2 N (nzero N) (fst d)) (snd d).
  Definition tagPoints (V : list nat) : res (list (BinNums.N * nat)) :=
    b <- getBox V ;;
    L <- mapR (fun v => k <- keyOf (vp v) (fst b) (delta b) ;; Ok (k, v)) V ;;
    Ok (sort L).

  (** 59-79 *)
  Definition mkLeaf (Pts : list (BinNums.N * nat)) : res otree :=
    let its := map snd Pts in b <- getBox its ;; Ok (OLeaf b its).
  Definition mkNode (l r : otree) : otree := ONode (minmax (obx l) (obx r)) (osize l + osize r) l r.

  (** 269-301 *)
  Definition lowSide (bit : nat) (x : BinNums.N * nat) : bool :=
    (N.land (fst x) (N.ones (N.of_nat bit)) <? N.shiftl 1 (N.of_nat (bit - 1)))%N.
  Fixpoint buildRec (Pts : list (BinNums.N * nat)) (bit : nat) : res otree :=
    let n := length Pts in
    if n =? 0 then Throw
    else
      match bit with
      | 0 => mkLeaf Pts
      | S bit' =>
        if n <? 20 then mkLeaf Pts
        else
          let pos := bsearch Pts (lowSide bit) in
          if (pos =? 0) || (pos =? n) then buildRec Pts bit'
          else
            l <- buildRec (firstn pos Pts) bit' ;;
            r <- buildRec (skipn pos Pts) bit' ;;
            Ok (mkNode l r)
      end.
  (** 190-198 *)
  Definition octBuild (V : list nat) : res otree :=
    match V with
    | [] => UB
    | _ => Pts <- tagPoints V ;; buildRec Pts 64
    end.

  (** neighbors.h 55-145: [q] is the vertex; the arrays neighbors and distances
      as a list of pairs, nearest last *)
  Section Search.
    Variable q : nat.
    Definition entry : Type := option nat * nT N.
    (** 78-81 *)
    Definition startE (k : nat) : list entry := repeat (None, nmax N) k.
    (** 90-94 *)
    Fixpoint bubble (e : entry) (st : list entry) : list entry :=
      match st with
      | [] => [e]
      | e' :: st' => if nlt N (snd e) (snd e') then e' :: bubble e st' else e :: st
      end.
    (** 85-96, 121 *)
    Definition updN (st : list entry) (o : nat) : list entry :=
      if o =? q then st
      else
        let d := vlen (psub (vp q) (vp o)) in
        match st with
        | [] => []
        | e0 :: st' => if nlt N d (snd e0) then bubble (Some o, d) st' else st
        end.
    (** 98-107 *)
    Definition withinB (b : obox) (eps : nT N) : bool :=
      let p := vp q in
      (nlt N (nsub N (fst (fst b)) eps) (fst p) && nlt N (fst p) (nadd N (fst (snd b)) eps)) &&
      (nlt N (nsub N (snd (fst b)) eps) (snd p) && nlt N (snd p) (nadd N (snd (snd b)) eps)).
    (** 109-111 *)
    Definition cdist (t : otree) : nT N := vlen (psub (ocentre t) (vp q)).
    (** 114-130; [distances[0]] of an array without cells is not read (k >= 1) *)
    Definition eps0 (st : list entry) : nT N := match st with [] => nmax N | e :: _ => snd e end.
    Fixpoint knnRec (t : otree) (st : list entry) : list entry :=
      if withinB (obx t) (eps0 st) then
        match t with
        | OLeaf _ its => fold_left updN its st
        | ONode _ _ l r => if nlt N (cdist l) (cdist r) then knnRec r (knnRec l st) else knnRec l (knnRec r st)
        end
      else st.
    (** 133-143 *)
    Fixpoint nearRec (t : otree) (st : list entry) : list entry :=
      match t with
      | OLeaf _ its => fold_left updN its st
      | ONode _ _ l r => if nlt N (cdist l) (cdist r) then nearRec l st else nearRec r st
      end.
    (** 147-153: the fields ngh[0..k-1]; the array has [maxk] cells *)
    Definition kNearest (maxk k : nat) (t : otree) : res (list (option nat)) :=
      if maxk <? k then Throw
      else if k =? 0 then UB
      else Ok (rev (map fst (knnRec t (startE k)))).
    (** 155-166 *)
    Definition nearest (t : otree) : option nat := match knnRec t (startE 1) with e :: _ => fst e | [] => None end.
    Definition near (t : otree) : option nat := match nearRec t (startE 1) with e :: _ => fst e | [] => None end.
  End Search.

  (** delaunay.cpp 243-244, 262, 275: build from the vertices [l], then look up
      [v]; the result is dereferenced *)
  Definition octNearest (l : list nat) (v : nat) : res nat :=
    t <- octBuild l ;;
    match nearest v t with Some u => Ok u | None => UB end.

  (** neighbors.h 173-203: the ngh fields of all vertices in the order of
      [flatten]; every iteration writes its own vertex *)
  Definition allNearest (maxk k : nat) (V : list nat) : res (list (nat * list (option nat))) :=
    t <- octBuild V ;;
    mapR (fun v => r <- kNearest v maxk k t ;; Ok (v, r)) (map snd (flatW t 0)).
End Oct.
