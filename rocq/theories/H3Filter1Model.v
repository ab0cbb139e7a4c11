(** Model of the filter that tests every point against every facet:
    include/convexHull3d/sampling/filter.h:19-48. *)
From Verif Require Import Base Num H3Model.
Set Implicit Arguments.

Section F1.
  Variable K : Num.
  Notation pt := (v3 (nT K)).
  Notation tri := (tri K).

  (** 26: [F[0]] and [F[F.size()-1]] are read *)
  Definition innerPt (F : list tri) : res pt :=
    match F with
    | [] => UB
    | t :: _ =>
      let '(a, _, _) := t in
      let '(z, _, _) := last F t in
      Ok (div3 K (add3 K a z) (ntwo K))
    end.
  (** 28-33 *)
  Definition area (t : tri) : pt := let '(a, b, c) := t in cross3 K (sub3 K b a) (sub3 K c a).
  (** 38-40 *)
  Definition outOf (o p : pt) (t : tri) : bool :=
    let '(a, b, c) := t in
    nlt K (nzero K) (dot3 K (sub3 K (sub3 K a o) (sub3 K p o)) (area t)) || eq3 K a p || eq3 K b p || eq3 K c p.
  (** 35-45 *)
  Definition isOut (o : pt) (F : list tri) (p : pt) : bool := existsb (outOf o p) F.
  (** 19-48; parlay::filter keeps the order *)
  Definition filter1 (P : list pt) (F : list tri) : res (list pt) := o <- innerPt F ;; Ok (filter (isOut o F) P).
End F1.
