(** Grid samples of the hull algorithms: gridSample in
    include/convexHull3d/sampling/sampling.h 51-94 and
    include/convexHull2d/sampling/sampling.h 50-91.  Definitions only. *)
From Coq Require Import NArith.
From Verif Require Import Base Num KdModel UniModel.

Section Grid.
  Variable N : Num.
  Variable ofN : BinNums.N -> nT N.
  (** size_t x = floor(...): nothing when the value does not fit (undefined) *)
  Variable toSize : nT N -> option BinNums.N.
  Variable dim : nat.
  (** size_t(ceil(pow(m, 1/dim))), 3d 57-58, 2d 56-57 *)
  Variable side : nat -> BinNums.N.
  (** whether the i-th T.insert returns true; the calls run in parallel *)
  Variable wins : list BinNums.N -> nat -> bool.

  (** 3d 63-74: the parallel write_min and write_max, as a fold (their order does not matter, C18) *)
  Definition low (P : list (upt N)) (j : nat) : nT N := fold_left (fun a p => nmin2 N a (coord p j)) P (nmax N).
  Definition high (P : list (upt N)) (j : nat) : nT N :=
    fold_left (fun a p => nmax2 N a (coord p j)) P (nsub N (nzero N) (nmax N)).
  (** 3d 76-78 *)
  Definition maxSpan (P : list (upt N)) : nT N :=
    fold_left (fun a j => nmax2 N a (nsub N (high P j) (low P j))) (seq 0 dim) (nzero N).
  Definition cellSide (P : list (upt N)) (di : BinNums.N) : nT N := ndiv N (maxSpan P) (ofN di).

  Fixpoint mapG {X Y} (f : X -> res Y) (l : list X) : res (list Y) :=
    match l with [] => Ok [] | x :: l' => y <- f x ;; r <- mapG f l' ;; Ok (y :: r) end.
  (** 3d 80-85, 2d 77-81 *)
  Definition cellOf (P : list (upt N)) (di : BinNums.N) (p : upt N) : res (list BinNums.N) :=
    mapG (fun j => match toSize (ndiv N (nsub N (coord p j) (low P j)) (cellSide P di)) with
                   | Some x => Ok x
                   | None => UB
                   end) (seq 0 dim).
  Definition idOf (di : BinNums.N) (c : list BinNums.N) : BinNums.N :=
    wrap64 (match c with
            | [x; y] => x * di + y
            | [x; y; z] => x * di * di + y * di + z
            | _ => 0
            end)%N.
  (** point.h 31, 47: the empty point *)
  Definition emptyPt : upt N := repeat (nmax N) dim.
  Definition isEmpty (p : upt N) : bool := nle N (coord p 0) (nmax N) && nle N (nmax N) (coord p 0).
  (** 3d 51-94, 2d 50-91 gridSample *)
  Definition gridSample (P : list (upt N)) (m : nat) : res (list (upt N)) :=
    let di := side m in
    if (2000000 <? di)%N then Throw
    else
      ids <- mapG (fun p => c <- cellOf P di p ;; Ok (idOf di c)) P ;;
      Ok (filter (fun p => negb (isEmpty p))
            (map (fun ip => if wins ids (fst ip) then snd ip else emptyPt) (combine (seq 0 (length P)) P))).
End Grid.
