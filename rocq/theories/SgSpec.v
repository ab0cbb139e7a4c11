(** Specification of the Delaunay graph, the Gabriel graph and the beta
    skeleton of points in the plane (beta at least 1).  No code here. *)
From Coq Require Import Reals Lra.
From Verif Require Import Base DelSpec.
Set Implicit Arguments.
Local Open Scope R_scope.

(** u v is the side of a counterclockwise triangle of V with an empty
    circumscribed circle *)
Definition delEdge (V : list pt) (n u v : nat) : Prop := (u < v < n)%nat /\ exists w, delTri V (u, v, w).

Definition mid (a b : pt) : pt := ((fst a + fst b) / 2, (snd a + snd b) / 2).
(** No other point of P in the closed disc with diameter u v *)
Definition gabriel (P : list pt) (u v : nat) : Prop :=
  (u < v < length P)%nat /\
  forall w, (w < length P)%nat -> w <> u -> w <> v -> dsq (mid (at_ P u) (at_ P v)) (at_ P u) < dsq (mid (at_ P u) (at_ P v)) (at_ P w).

(** c = (1 - beta/2) a + (beta/2) b *)
Definition centreB (beta : R) (a b : pt) : pt :=
  (fst a * (1 - beta / 2) + fst b * (beta / 2), snd a * (1 - beta / 2) + snd b * (beta / 2)).
(** x lies in both closed discs of radius beta/2 |a b| *)
Definition inLune (beta : R) (a b x : pt) : Prop :=
  sqrt (dsq (centreB beta a b) x) <= beta * sqrt (dsq a b) / 2 /\ sqrt (dsq (centreB beta b a) x) <= beta * sqrt (dsq a b) / 2.
Definition skeletonEdge (beta : R) (P : list pt) (u v : nat) : Prop :=
  (u < v < length P)%nat /\ forall w, (w < length P)%nat -> w <> u -> w <> v -> ~ inLune beta (at_ P u) (at_ P v) (at_ P w).
