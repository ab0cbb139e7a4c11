(** What the neighbour structure of the Delaunay triangulation should return. *)
From Coq Require Import Reals.
From Verif Require Import Base.
Set Implicit Arguments.

Definition edist (a b : R * R) : R := sqrt ((fst a - fst b) * (fst a - fst b) + (snd a - snd b) * (snd a - snd b)).

(** [l] lists [k] different elements of [C] by increasing [D], and no other
    element of [C] is smaller than one of [l]. *)
Definition kNearestOf (D : nat -> R) (C : list nat) (k : nat) (l : list nat) : Prop :=
  length l = k /\ NoDup l /\ (forall u, In u l -> In u C) /\
  (forall i j u v, i < j -> nth_error l i = Some u -> nth_error l j = Some v -> (D u <= D v)%R) /\
  (forall u w, In u l -> In w C -> ~ In w l -> (D u <= D w)%R).
