(** What a convex hull in space is. *)
From Coq Require Import Reals List.
From Verif Require Import H3Model H3Geom.
Open Scope R_scope.

Definition isCorner (t : tri3) (q : p3) : Prop := let '(a, b, c) := t in q = a \/ q = b \/ q = c.
Definition sameFacet (t u : tri3) : Prop := forall q, isCorner t q <-> isCorner u q.

(** a triangle of points with all the others strictly on one side *)
Definition HullFacet (P : list p3) (t : tri3) : Prop := let '(x, y, z) := t in
  In x P /\ In y P /\ In z P /\ x <> y /\ y <> z /\ z <> x /\
  ((forall q, In q P -> ~ isCorner t q -> svol x y z q < 0) \/ (forall q, In q P -> ~ isCorner t q -> 0 < svol x y z q)).

(** a point that is strictly the farthest in some direction *)
Definition Extreme (P : list p3) (v : p3) : Prop :=
  In v P /\ exists nx ny nz, forall q, In q P -> q <> v ->
    nx * vx q + ny * vy q + nz * vz q < nx * vx v + ny * vy v + nz * vz v.

(** the facets of the hull, each once *)
Definition hull_facets (P : list p3) (L : list tri3) : Prop :=
  (forall t, In t L -> HullFacet P t) /\
  (forall t, HullFacet P t -> exists u, In u L /\ sameFacet u t) /\
  (forall i j t u, nth_error L i = Some t -> nth_error L j = Some u -> sameFacet t u -> i = j).
