(** Model of the samples of the planar hull:
    include/convexHull2d/sampling/sampling.h and their use in
    src/convexHull2d/sampling/hull.cpp. *)
From Verif Require Import Base Num KdModel Hull2dModel.
Set Implicit Arguments.

Section S2.
  Variable K : Num.
  Notation num := (nT K).
  Notation point := (list (nT K)).
  (** point.h:56-69, 107-123 *)
  Definition sub2 (p q : point) : point := [nsub K (coord p 0) (coord q 0); nsub K (coord p 1) (coord q 1)].
  Definition dot2 (p q : point) : num := nadd K (nadd K (nzero K) (nmul K (coord p 0) (coord q 0))) (nmul K (coord p 1) (coord q 1)).

  (** parlay::hash64 *)
  Variable hash : nat -> nat.
  Variable minmax : (point -> point -> bool) -> list point -> nat * nat.
  Definition hashed2 (P : list point) (i : nat) : res nat := if length P =? 0 then UB else Ok (hash i mod length P).
  (** sampling.h:13-19 *)
  Definition randomSample2 (P : list point) (m : nat) : res (list point) := mapR (fun i => j <- hashed2 P i ;; at_ P j) (seq 0 m).
  (** sampling.h:29-45; the slice is [P.cut(ii, min(ii+m*2, P.size()))] *)
  Definition project2 (P : list point) (m i : nat) : res (list point) :=
    ii <- hashed2 P i ;;
    a <- at_ P ii ;;
    b <- at_ P (length P - ii) ;;
    let ab := sub2 b a in
    let lt p1 p2 := nlt K (ndiv K (dot2 (sub2 p1 a) ab) (dot2 ab ab)) (ndiv K (dot2 (sub2 p2 a) ab) (dot2 ab ab)) in
    let C := firstn (Nat.min (ii + m * 2) (length P) - ii) (skipn ii P) in
    let '(l, h) := minmax lt C in
    p <- at_ C l ;; q <- at_ C h ;; Ok [p; q].
  (** sampling.h:21-49; the iterations write different cells *)
  Definition randomProjection2 (P : list point) (m0 : nat) : res (list point) :=
    let m := Nat.max 2 (m0 / 2) in
    l <- mapR (project2 P m) (seq 0 m) ;; Ok (concat l).

  (** hull.cpp:12-68; [size] is [P.size() * fraction] *)
  Variable red : (cipairs K -> cipairs K -> cipairs K) -> cipairs K -> list (cipairs K) -> cipairs K.
  Definition sampledHull2 (P : list point) (t : tree K nat) (sched : list nat) (size : nat) : res (list nat) :=
    if length P <? N.to_nat 1000 then quickHull red minmax P
    else
      sample <- randomProjection2 P (Nat.max size 5) ;;
      samplingHull red minmax P t sched sample.
End S2.
