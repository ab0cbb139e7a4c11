(** What a grid sample is, independently of the code. *)
From Coq Require Import Reals List NArith.
Import ListNotations.
Open Scope R_scope.

Definition crd (p : list R) (j : nat) : R := nth j p 0.
(** o is the lowest corner of the box around P *)
Definition corner (dim : nat) (P : list (list R)) (o : nat -> R) : Prop :=
  forall j, (j < dim)%nat -> (forall p, In p P -> o j <= crd p j) /\ exists p, In p P /\ crd p j = o j.
(** w is the largest extent of P along an axis *)
Definition widest (dim : nat) (P : list (list R)) (w : R) : Prop :=
  (forall p q j, In p P -> In q P -> (j < dim)%nat -> crd p j - crd q j <= w) /\
  exists p q j, In p P /\ In q P /\ (j < dim)%nat /\ crd p j - crd q j = w.
(** p lies in the cell c of the grid with corner o and cells of side r *)
Definition inCell (dim : nat) (o : nat -> R) (r : R) (c : nat -> N) (p : list R) : Prop :=
  forall j, (j < dim)%nat -> o j + IZR (Z.of_N (c j)) * r <= crd p j < o j + (IZR (Z.of_N (c j)) + 1) * r.
(** the number of a cell, the digits of c to the base d *)
Fixpoint number (dim : nat) (d : N) (c : nat -> N) : N :=
  match dim with O => 0 | S k => number k d c * d + c k end.
(** One point of P for each cell number that occurs. *)
Definition gridSampleOf (dim : nat) (d : N) (P S : list (list R)) : Prop :=
  exists o w num, corner dim P o /\ widest dim P w /\
    (forall p, In p P -> exists c, inCell dim o (w / IZR (Z.of_N d)) c p /\ num p = number dim d c /\
       forall j, (j < dim)%nat -> (c j <= d)%N) /\
    (forall p, In p P -> (num p < 2 ^ 64 - 1)%N) /\
    incl S P /\ NoDup (map num S) /\ forall p, In p P -> In (num p) (map num S).
