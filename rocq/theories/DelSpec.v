(** Specification of the Delaunay triangulation of points in the plane.  No
    code here. *)
From Coq Require Import Reals Lra.
From Verif Require Import Base.
Set Implicit Arguments.
Local Open Scope R_scope.

Definition pt : Type := R * R.
Definition turn (a b c : pt) : R := (fst b - fst a) * (snd c - snd a) - (snd b - snd a) * (fst c - fst a).
Definition dsq (a b : pt) : R := (fst a - fst b) * (fst a - fst b) + (snd a - snd b) * (snd a - snd b).
(** d is strictly inside the circle through a, b, c. *)
Definition inDisc (a b c d : pt) : Prop :=
  exists o, dsq o a = dsq o b /\ dsq o a = dsq o c /\ dsq o d < dsq o a.
Definition cocircular (a b c d : pt) : Prop :=
  exists o, dsq o a = dsq o b /\ dsq o a = dsq o c /\ dsq o a = dsq o d.

Section Spec.
  Variable V : list pt.
  Definition at_ (i : nat) : pt := nth i V (0, 0).
  Definition tri : Type := nat * nat * nat.
  (** A counterclockwise triangle of V whose circumscribed circle has no point
      of V strictly inside *)
  Definition delTri (t : tri) : Prop :=
    let '(i, j, k) := t in
    (i < length V /\ j < length V /\ k < length V)%nat /\ 0 < turn (at_ i) (at_ j) (at_ k) /\
    forall l, (l < length V)%nat -> ~ inDisc (at_ i) (at_ j) (at_ k) (at_ l).
  Definition rotOf (t t' : tri) : Prop :=
    let '(i, j, k) := t in t' = (i, j, k) \/ t' = (j, k, i) \/ t' = (k, i, j).
  (** t is listed once, up to rotation *)
  Definition once (t : tri) (T : list tri) : Prop :=
    exists i t', nth_error T i = Some t' /\ rotOf t t' /\ forall j t'', nth_error T j = Some t'' -> rotOf t t'' -> j = i.

  (** No three points on a line; four points on a circle only from index n on. *)
  Definition genPos (n : nat) : Prop :=
    (forall i j k, (i < length V)%nat -> (j < length V)%nat -> (k < length V)%nat -> i <> j -> j <> k -> i <> k ->
       turn (at_ i) (at_ j) (at_ k) <> 0) /\
    (forall i j k l, (i < length V)%nat -> (j < length V)%nat -> (k < length V)%nat -> (l < length V)%nat -> NoDup [i; j; k; l] ->
       cocircular (at_ i) (at_ j) (at_ k) (at_ l) -> (n <= i /\ n <= j /\ n <= k /\ n <= l)%nat).

  (** [edge t a b]: the directed edge a b belongs to the triangle t *)
  Definition edge (t : tri) (a b : nat) : Prop :=
    let '(i, j, k) := t in (a, b) = (i, j) \/ (a, b) = (j, k) \/ (a, b) = (k, i).
  Definition inTri (t : tri) (x : pt) : Prop :=
    let '(i, j, k) := t in
    0 <= turn (at_ i) (at_ j) x /\ 0 <= turn (at_ j) (at_ k) x /\ 0 <= turn (at_ k) (at_ i) x.
End Spec.

(** The ring of ten points around P: its centre is the upper right corner of the
    bounding box moved by half the diagonal, its radius ten times the diagonal,
    its directions the angles a0, a1, ... given by [cs] and [sn]. *)
Definition least (f : pt -> R) (P : list pt) (m : R) : Prop := (exists p, In p P /\ f p = m) /\ forall p, In p P -> m <= f p.
Definition greatest (f : pt -> R) (P : list pt) (m : R) : Prop := (exists p, In p P /\ f p = m) /\ forall p, In p P -> f p <= m.
Definition ringOf (cs sn : nat -> R) (P B : list pt) : Prop :=
  exists x0 y0 x1 y1, least fst P x0 /\ least snd P y0 /\ greatest fst P x1 /\ greatest snd P y1 /\
    let s := sqrt ((x1 - x0) * (x1 - x0) + (y1 - y0) * (y1 - y0)) in
    B = map (fun i => (x1 + (x1 - x0) / 2 + 10 * s * cs i, y1 + (y1 - y0) / 2 + 10 * s * sn i)) (seq 0 10).
(** The edge from a ring point to the next one *)
Definition next (n a : nat) : nat := if (a + 1 =? n + 10)%nat then n else (a + 1)%nat.
(** Inside the ring *)
Definition inRing (V : list pt) (n : nat) (x : pt) : Prop :=
  forall a, (n <= a < n + 10)%nat -> 0 < turn (at_ V a) (at_ V (next n a)) x.
