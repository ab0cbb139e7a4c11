(** Model of include/kdTree/rangeSearchImpl.h. *)
From Verif Require Import Base Num KdModel.

Section Range.
  Variable N : Num.
  Variable dim : nat.
  Variable A : Type.
  Variable pt : A -> list (nT N).

  (** rangeSearchImpl.h:33-70 rangeHelper.  The callback [func] is called
      sequentially; the model returns the list of items it is called on, in
      call order. *)
  Fixpoint rangeHelper (t : tree N A) (q : list (nT N)) (qb : box N) (radius : nT N)
    : list A :=
    match boxCompare N dim qb (tbox t) with
    | BoxExclude => []
    | BoxInclude => filter (fun x => nle N (dist N dim (pt x) q) radius) (items t)
    | BoxOverlap =>
      match t with
      | Leaf its _ => filter (fun x => nle N (dist N dim q (pt x)) radius) its
      | Node _ l r => rangeHelper l q qb radius ++ rangeHelper r q qb radius
      end
    end.

  (** lines 79-85 and 169-175: qMin[i] = q[i] - r, qMax[i] = (q[i] - r) + r*2 *)
  Definition queryBox (q : list (nT N)) (radius : nT N) : box N :=
    {| bmin := map (fun i => nsub N (coord q i) radius) (seq 0 dim);
       bmax := map (fun i => nadd N (nsub N (coord q i) radius) (nmul N radius (ntwo N)))
                   (seq 0 dim) |}.

  (** lines 72-101 rangeTraverse / rangeSearch (output in push_back order) *)
  Definition rangeTraverse (t : tree N A) (q : list (nT N)) (radius : nT N) : list A :=
    rangeHelper t q (queryBox q radius) radius.
  Definition rangeSearch := rangeTraverse.

  (** lines 146-150: the leaf test of the orthogonal search *)
  Definition inQBox (qb : box N) (x : A) : bool :=
    forallb (fun d => negb (nlt N (coord (bmax qb) d) (coord (pt x) d)
                            || nlt N (coord (pt x) d) (coord (bmin qb) d))) (seq 0 dim).

  (** lines 119-161 orthRangeHelper *)
  Fixpoint orthRangeHelper (t : tree N A) (qb : box N) : list A :=
    match boxCompare N dim qb (tbox t) with
    | BoxExclude => []
    | BoxInclude => items t
    | BoxOverlap =>
      match t with
      | Leaf its _ => filter (inQBox qb) its
      | Node _ l r => orthRangeHelper l qb ++ orthRangeHelper r qb
      end
    end.

  (** lines 163-189 *)
  Definition orthogonalRangeTraverse (t : tree N A) (q : list (nT N)) (halfLen : nT N) : list A :=
    orthRangeHelper t (queryBox q halfLen).
  Definition orthogonalRangeSearch := orthogonalRangeTraverse.

  (** lines 103-117 bruteforceRange: indices, in order; [flag[i]] keeps the
      sentinel n unless the point qualifies *)
  Definition bruteforceRange (elems : list A) (q : list (nT N)) (radius : nT N) : list nat :=
    let n := length elems in
    let flag := map (fun i => match nth_error elems i with
        | Some x => if nle N (dist N dim (pt x) q) radius then i else n
        | None => n end) (seq 0 n) in
    filter (fun i => i <? n) flag.
End Range.
