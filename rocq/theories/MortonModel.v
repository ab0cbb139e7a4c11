(** Model of include/mortonSort/mortonSortImpl.h: z-order keys and sorting.
    zorderSort2d (lines 101-165), zorderSort3d (243-312) and their variants for
    batchKdTree (33-99, 169-241) differ only in the dimension and in how a
    coordinate is read; [dim] is 2 or 3 here. *)
From Coq Require Import NArith.
From Verif Require Import Base Num KdModel.
Set Implicit Arguments.

(** size_t shifts: 64 bits *)
Definition shl (x s : N) : N := N.land (N.shiftl x s) (N.ones 64).

(** lines 115-118: x = (x | (x << s)) & mask *)
Definition spreadStep (x : N) (sm : N * N) : N := N.land (N.lor x (shl x (fst sm))) (snd sm).
Definition spreadSteps : list (N * N) :=
  [(16, 0x001f0000ff0000ff); (8, 0x100f00f00f00f00f); (4, 0x10c30c30c30c30c3); (2, 0x1249249249249249)]%N.

(** lines 109-120 shift *)
Definition spread (x : N) : res N :=
  if (65535 <? x)%N then Throw else Ok (fold_left spreadStep spreadSteps x).

(** lines 126-128 and 195-198: x | (y << 1) | (z << 2); [c] is the coordinate *)
Fixpoint zkeyFrom (c : N) (cells : list N) : res N :=
  match cells with
  | [] => Ok 0%N
  | x :: xs =>
    s <- spread x ;;
    r <- zkeyFrom (c + 1) xs ;;
    Ok (N.lor (shl s c) r)
  end.
Definition zkey (cells : list N) : res N := zkeyFrom 0 cells.

Section Sort.
  Variable K : Num.
  Variable dim : nat.
  Variable A : Type.
  Variable pt : A -> list (nT K).
  (** [(size_t)floor(x)]; [None] when the value is not representable *)
  Variable toCell : nT K -> option N.
  (** the constants 1.01 and 65535 of line 147 *)
  Variables c101 cRange : nT K.

  (** lines 133-143: extrema start at P[0]; the parallel write_max and write_min
      calls on one cell take effect in some order *)
  Definition wmax (m x : nT K) : nT K := if nlt K m x then x else m.
  Definition wmin (m x : nT K) : nT K := if nlt K x m then x else m.
  Definition maxOf (p0 : A) (calls : list A) (i : nat) : nT K :=
    fold_left wmax (map (fun x => coord (pt x) i) calls) (coord (pt p0) i).
  Definition minOf (p0 : A) (calls : list A) (i : nat) : nT K :=
    fold_left wmin (map (fun x => coord (pt x) i) calls) (coord (pt p0) i).

  (** lines 145 and 218-220: std::max of the extents, the last coordinate first *)
  Definition stdmax (a b : nT K) : nT K := if nlt K a b then b else a.
  Definition maxSpan (ext : nat -> nT K) : nT K :=
    fold_left (fun acc i => stdmax (ext i) acc) (seq 1 (dim - 1)) (ext 0).

  (** line 147 *)
  Definition boxSize (span : nT K) : nT K := ndiv K (nmul K c101 span) cRange.

  (** lines 122-129 zorder: first all conversions, then the shifts *)
  Fixpoint mapO {B C} (f : B -> option C) (l : list B) : option (list C) :=
    match l with
    | [] => Some []
    | x :: l' => match f x, mapO f l' with Some y, Some r => Some (y :: r) | _, _ => None end
    end.
  Definition zorder (pMin : nat -> nT K) (bs : nT K) (x : A) : res N :=
    match mapO (fun i => toCell (ndiv K (nsub K (coord (pt x) i) (pMin i)) bs)) (seq 0 dim) with
    | None => UB
    | Some cells => zkey cells
    end.

  (** parlay::sort_inplace by the first component *)
  Variable srt : list (N * A) -> list (N * A).
  Definition zsort_ok : Prop := forall l, Permutation (srt l) l /\
    StronglySorted (fun a b => (fst a <= fst b)%N) (srt l).

  Fixpoint mapZ {B C} (f : B -> res C) (l : list B) : res (list C) :=
    match l with
    | [] => Ok []
    | x :: l' => y <- f x ;; r <- mapZ f l' ;; Ok (y :: r)
    end.

  (** lines 101-165; [omax i] and [omin i] are the orders of the write_max and
      write_min calls on coordinate i *)
  Definition zorderSort (omax omin : nat -> list A -> list A) (P : list A) : res (list A) :=
    match P with
    | [] => UB
    | p0 :: _ =>
      let pMax := fun i => maxOf p0 (omax i P) i in
      let pMin := fun i => minOf p0 (omin i P) i in
      let bs := boxSize (maxSpan (fun i => nsub K (pMax i) (pMin i))) in
      keys <- mapZ (zorder pMin bs) P ;;
      Ok (map snd (srt (combine keys P)))
    end.
End Sort.
