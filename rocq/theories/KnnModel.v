(** Model of include/kdTree/knnImpl.h and of the buffer of
    include/batchKdtree/shared/knnbuffer.h. *)
From Verif Require Import Base Num KdModel RangeModel.

Section Buffer.
  Variable N : Num.
  Variable A : Type.

  (** knnImpl.h:41-54 elem: a cost and an entry; the default constructor leaves
      the entry uninitialised ([None]) and sets the largest finite cost. *)
  Definition elem : Type := nT N * option A.
  Definition emptyElem : elem := (nmax N, None).
  Definition elt (a b : elem) : bool := nlt N (fst a) (fst b).

  (** [std::nth_element(begin, begin+n, end)]; a parameter constrained by its
      contract in the theorems. *)
  Variable nthel : nat -> list elem -> list elem.

  (** knnImpl.h:57-64 buffer *)
  Record buffer := mkBuf { bk : nat; bptr : nat; bbuf : list elem }.

  (** knnImpl.h:220 and 224: a slice of 2k default-constructed elements *)
  Definition newBuffer (k : nat) : buffer := mkBuf k 0 (repeat emptyElem (2 * k)).

  (** knnImpl.h:68 *)
  Definition hasK (b : buffer) : bool := bk b <=? bptr b.

  (** knnImpl.h:70-77; k = 0 reads buf[-1] *)
  Definition keepK (b : buffer) : res (elem * buffer) :=
    if bptr b <? bk b then Throw
    else if bk b =? 0 then UB
    else if length (bbuf b) <? bk b then UB
    else
      let buf' := nthel (bk b - 1) (bbuf b) in
      Ok (nth (bk b - 1) buf' emptyElem, mkBuf (bk b) (bk b) buf').

  (** knnImpl.h:86-91 *)
  Definition insert (e : elem) (b : buffer) : res buffer :=
    if length (bbuf b) <=? bptr b then UB
    else
      let b' := mkBuf (bk b) (S (bptr b)) (upd (bptr b) e (bbuf b)) in
      if length (bbuf b') <=? bptr b' then '(_, b'') <- keepK b' ;; Ok b''
      else Ok b'.

  (** knnImpl.h:79-84 sort: [srt] stands for parlay::sort_inplace *)
  Variable srt : list elem -> list elem.
  Definition sortBuf (b : buffer) : res buffer :=
    if bptr b <? bk b then Throw
    else if length (bbuf b) <? bk b then UB
    else Ok (mkBuf (bk b) (bptr b) (srt (firstn (bk b) (bbuf b)) ++ skipn (bk b) (bbuf b))).

  (** knnImpl.h:93-99 operator[] *)
  Definition bufAt (b : buffer) (i : nat) : elem :=
    if i <? bptr b then nth i (bbuf b) emptyElem else emptyElem.

  Fixpoint insertAll (es : list elem) (b : buffer) : res buffer :=
    match es with
    | [] => Ok b
    | e :: es' => b' <- insert e b ;; insertAll es' b'
    end.

  (** *** batchKdtree/shared/knnbuffer.h:50-84: only the first [ptr] elements
      are selected from, and the selection is skipped when nothing was inserted
      since the last one *)
  Record cbuffer := mkCBuf { cb : buffer; cached : bool }.
  Definition newCBuffer (k : nat) : cbuffer := mkCBuf (newBuffer k) true.

  (** lines 61-69 *)
  Definition ckeepK (c : cbuffer) : res (elem * cbuffer) :=
    let b := cb c in
    if bptr b <? bk b then Throw
    else if bk b =? 0 then UB
    else if length (bbuf b) <? bk b then UB
    else if cached c then Ok (nth (bk b - 1) (bbuf b) emptyElem, c)
    else
      let buf' := nthel (bk b - 1) (firstn (bptr b) (bbuf b)) ++ skipn (bptr b) (bbuf b) in
      Ok (nth (bk b - 1) buf' emptyElem, mkCBuf (mkBuf (bk b) (bk b) buf') true).

  (** lines 71-75 *)
  Definition cinsert (e : elem) (c : cbuffer) : res cbuffer :=
    let b := cb c in
    if length (bbuf b) <=? bptr b then UB
    else
      let c' := mkCBuf (mkBuf (bk b) (S (bptr b)) (upd (bptr b) e (bbuf b))) false in
      if length (bbuf (cb c')) <=? bptr (cb c') then '(_, c'') <- ckeepK c' ;; Ok c''
      else Ok c'.

  Fixpoint cinsertAll (es : list elem) (c : cbuffer) : res cbuffer :=
    match es with
    | [] => Ok c
    | e :: es' => c' <- cinsert e c ;; cinsertAll es' c'
    end.
End Buffer.

Arguments mkBuf {N A} bk bptr bbuf.
Arguments bk {N A} b.
Arguments bptr {N A} b.
Arguments bbuf {N A} b.
Arguments hasK {N A} b.
Arguments keepK {N A} nthel b.
Arguments insert {N A} nthel e b.
Arguments insertAll {N A} nthel es b.
Arguments sortBuf {N A} srt b.
Arguments bufAt {N A} b i.
Arguments mkCBuf {N A} cb cached.
Arguments cb {N A} c.
Arguments cached {N A} c.
Arguments ckeepK {N A} nthel c.
Arguments cinsert {N A} nthel e c.
Arguments cinsertAll {N A} nthel es c.

Section Knn.
  Variable N : Num.
  Variable dim : nat.
  Variable A : Type.
  Variable pt : A -> list (nT N).
  Variable nthel : nat -> list (elem N A) -> list (elem N A).
  Variable srt : list (elem N A) -> list (elem N A).

  (** [knnBuf::elem(q.dist( *p), p)] *)
  Definition mkElem (q : list (nT N)) (x : A) : elem N A := (dist N dim q (pt x), Some x).

  (** knnImpl.h:103-141 knnRangeHelper *)
  Fixpoint knnRangeHelper (t : tree N A) (q : list (nT N)) (qb : box N) (radius : nT N)
           (out : buffer N A) : res (buffer N A) :=
    match boxCompare N dim qb (tbox t) with
    | BoxExclude => Ok out
    | BoxInclude => insertAll nthel (map (mkElem q) (items t)) out
    | BoxOverlap =>
      match t with
      | Leaf its _ =>
        insertAll nthel (map (mkElem q) (filter (fun x => nle N (dist N dim q (pt x)) radius) its)) out
      | Node _ l r =>
        out1 <- knnRangeHelper l q qb radius out ;;
        knnRangeHelper r q qb radius out1
      end
    end.

  (** knnImpl.h:143-154 knnRange *)
  Definition knnRange (t : tree N A) (q : list (nT N)) (radius : nT N) (out : buffer N A)
    : res (buffer N A) := knnRangeHelper t q (queryBox N dim q radius) radius out.

  (** knnImpl.h:185-204: the part after the recursion; [sib] is tree->siblin() *)
  Definition knnSibling (sib : option (tree N A)) (q : list (nT N)) (out : buffer N A)
    : res (buffer N A) :=
    if hasK out then
      match sib with
      | None => Ok out
      | Some s => '(tmp, out1) <- keepK nthel out ;; knnRange s q (fst tmp) out1
      end
    else
      match sib with
      | None => Throw
      | Some s => insertAll nthel (map (mkElem q) (items s)) out
      end.

  (** knnImpl.h:156-205 knnHelper *)
  Fixpoint knnHelper (t : tree N A) (sib : option (tree N A)) (q : list (nT N))
           (out : buffer N A) : res (buffer N A) :=
    match boxCompare N dim (tbox t) {| bmin := q; bmax := q |} with
    | BoxExclude => Ok out
    | _ =>
      out1 <- match t with
              | Leaf its _ => insertAll nthel (map (mkElem q) its) out
              | Node _ l r =>
                o <- knnHelper l (Some r) q out ;;
                knnHelper r (Some l) q o
              end ;;
      knnSibling sib q out1
    end.

  (** knnImpl.h:224-232: one iteration of the parallel loop of batchKnn.  Each
      iteration owns the slices [i*2k,(i+1)*2k) of [out] and [i*k,(i+1)*k) of
      [idx].  Reading an uninitialised entry is UB. *)
  Definition knnOne (t : tree N A) (k : nat) (sorted : bool) (q : list (nT N)) : res (list A) :=
    b <- knnHelper t None q (newBuffer N A k) ;;
    '(_, b1) <- keepK nthel b ;;
    b2 <- (if sorted then sortBuf srt b1 else Ok b1) ;;
    fold_right (fun i acc =>
      match snd (bufAt b2 i) with
      | Some x => l <- acc ;; Ok (x :: l)
      | None => UB
      end) (Ok []) (seq 0 k).

  Fixpoint mapRes {B C} (f : B -> res C) (l : list B) : res (list C) :=
    match l with
    | [] => Ok []
    | x :: l' => y <- f x ;; ys <- mapRes f l' ;; Ok (y :: ys)
    end.

  (** knnImpl.h:207-237 batchKnn with a given tree: row i of the result is the
      slice [i*k,(i+1)*k) of idx, as items. *)
  Definition batchKnn (t : tree N A) (k : nat) (sorted : bool) (queries : list (list (nT N)))
    : res (list (list A)) := mapRes (knnOne t k sorted) queries.
End Knn.
