(** What a seed spreader data set is, independently of the code. *)
From Coq Require Import Reals List.
From Verif Require Import RGeom.
Import ListNotations.
Open Scope R_scope.

Definition inBox (dim : nat) (p : list R) : Prop :=
  length p = dim /\ forall i, (i < dim)%nat -> 0 <= nth i p 0 <= 100000.
(** Points around centres: the centre after g points is c and has k of them.  The
    next point is near the same centre, which then has fewer than 100 points, or
    near a centre at distance [rS g] from it after exactly 100 points, or near a new
    centre in the box. *)
Inductive spread (dim : nat) (rS rV : nat -> R) : nat -> list R -> nat -> list (list R) -> Prop :=
| spread_nil g c k : spread dim rS rV g c k []
| spread_next g c k c' k' p ps :
    (c' = c /\ (k < 100)%nat /\ k' = S k) \/ (k = 100%nat /\ edist dim c c' = rS g /\ k' = 1%nat) \/ (inBox dim c' /\ k' = 1%nat) ->
    length p = dim -> edist dim c' p <= rV g ->
    spread dim rS rV (S g) c' k' ps -> spread dim rS rV g c k (p :: ps).
