(** Model of the hulls in space that work on part of the points:
    include/convexHull3d/sampling/{sampling,filter}.h,
    src/convexHull3d/sampling/hull.cpp and
    src/convexHull3d/divideConquer/hull.cpp. *)
From Verif Require Import Base Num Hull2dModel KdModel Sched H3Model H3ParModel.
Set Implicit Arguments.

Section H3S.
  Variable K : Num.
  Notation num := (nT K).
  Notation pt := (v3 (nT K)).
  Notation tri := (tri K).
  Notation tree := (tree K nat).
  Variable eps : num.

  (** ** sampling.h *)
  (** parlay::hash64 *)
  Variable hash : nat -> nat.
  Definition at_ (P : list pt) (i : nat) : res pt := match nth_error P i with Some p => Ok p | None => UB end.
  Definition hashed (P : list pt) (i : nat) : res nat := if length P =? 0 then UB else Ok (hash i mod length P).
  (** sampling.h:14-20 *)
  Definition randomSample (P : list pt) (m : nat) : res (list pt) := mapR (fun i => j <- hashed P i ;; at_ P j) (seq 0 m).
  Variable minmax : (pt -> pt -> bool) -> list pt -> nat * nat.
  (** sampling.h:22-49.  The slice is [P.cut(ii, min(ii+m*2, P.size()))]. *)
  Definition project (P : list pt) (m i : nat) : res (list pt) :=
    ii <- hashed P i ;;
    a <- at_ P ii ;;
    b <- at_ P (length P - ii) ;;
    let ab := sub3 K b a in
    let lt p1 p2 := nlt K (ndiv K (dot3 K (sub3 K p1 a) ab) (dot3 K ab ab)) (ndiv K (dot3 K (sub3 K p2 a) ab) (dot3 K ab ab)) in
    let C := slice ii (Nat.min (ii + m * 2) (length P)) P in
    let '(l, h) := minmax lt C in
    p <- at_ C l ;; q <- at_ C h ;; Ok [p; q].
  Definition randomProjection (P : list pt) (m0 : nat) : res (list pt) :=
    let m := Nat.max 2 (m0 / 2) in
    l <- mapR (project P m) (seq 0 m) ;; Ok (concat l).

  (** ** filter.h *)
  Definition co (p : pt) : list num := [vx p; vy p; vz p].
  Definition boxPt (b : box K) (i j k : bool) : pt :=
    V3 (coord (if i then bmax b else bmin b) 0) (coord (if j then bmax b else bmin b) 1) (coord (if k then bmax b else bmin b) 2).
  (** filter.h:69-104 *)
  Definition corners8 (b : box K) : list pt :=
    [boxPt b false false false; boxPt b true false false; boxPt b false true false; boxPt b false false true;
     boxPt b true true false; boxPt b false true true; boxPt b true false true; boxPt b true true true].
  Definition nodeVol (t : tri) (b : box K) : num * num :=
    fold_left (fun m c => (nmin2 K (fst m) (vol t c), nmax2 K (snd m) (vol t c))) (corners8 b) (nmax K, nneg1 K).

  (** filter.h:129-134: the test on a point of a leaf *)
  Definition cand (P : list pt) (t : tri) (i : nat) : bool :=
    let p := nth i P (V3 (nzero K) (nzero K) (nzero K)) in
    let '(a, b, c) := t in
    nle K (nzero K) (vol t p) || eq3 K a p || eq3 K b p || eq3 K c p.
  (** filter.h:106-155: the points on which a call tries to set the flag; a list
      for every call that has its own variable [F].  They do not depend on the
      flags. *)
  Fixpoint visits (P : list pt) (t : tri) (T : tree) : list (list nat) :=
    let '(mn, mx) := nodeVol t (tbox T) in
    if nle K mn (nzero K) && nle K mx (nzero K) then []
    else if nle K mn (nzero K) && nlt K (nzero K) mx then
      match T with
      | Leaf its _ => [filter (cand P t) its]
      | Node _ l r => visits P t l ++ visits P t r
      end
    else [items T].

  (** filter.h:136,149: [atomic_compare_exchange_weak(&flag[i], &F, true)].  When
      the flag is [F] it is set; otherwise [F] becomes the flag. *)
  Definition thread : Type := (bool * list (list nat))%type.
  Definition cas (fl : list bool) (i : nat) (F : bool) : res (bool * list bool) :=
    match nth_error fl i with
    | None => UB
    | Some b => Ok (if Bool.eqb b F then (F, upd i true fl) else (b, fl))
    end.
  Definition fstep (l : thread) (fl : list bool) : res (thread * list bool) :=
    match snd l with
    | [] => Ok (l, fl)
    | [] :: vs => Ok ((false, vs), fl)
    | (i :: v) :: vs => '(F, fl') <- cas fl i (fst l) ;; Ok ((F, v :: vs), fl')
    end.
  Definition ffin (l : thread) : bool := match snd l with [] => true | _ => false end.

  Definition pack (P : list pt) (fl : list bool) : list pt := map fst (filter snd (combine P fl)).
  Definition kdTree (workers : nat) (P : list pt) : res tree :=
    build K 3 nat (fun i => co (nth i P (V3 (nzero K) (nzero K) (nzero K)))) true workers 2000 128 (seq 0 (length P)).
  (** filter.h:157-202; the iterations over the facets are interleaved by [sched].
      [facets[0]] is read. *)
  Definition filter2 (sched : list nat) (workers : nat) (P : list pt) (F : list tri) : res (list pt) :=
    T <- kdTree workers P ;;
    if length F =? 0 then UB
    else
      '(_, fl) <- runT fstep ffin sched (map (fun t => (false, visits P (outFacet t) T)) F) (repeat false (length P)) ;;
      Ok (pack P fl).

  (** ** sampling/hull.cpp:38-81 and the variants at 91-101, 109-119, 127-137, which differ in
      the sample *)
  Variable choose : nat -> fct K -> nat.
  Variable addr : nat -> nat.
  Variable qord : list (pt * nat) -> list (pt * nat).
  Variable shuf : nat -> forall X, list X -> list X.
  Variable maxel : (pt -> pt -> bool) -> list pt -> nat.
  Definition samplingHull (sched : list nat) (workers : nat) (take : list pt -> res (list pt)) (P : list pt) : res (list tri) :=
    if length P <? 1000 then compute K eps minmax maxel P
    else
      sample <- take P ;;
      F <- compute K eps minmax maxel sample ;;
      R <- filter2 sched workers P F ;;
      computePar eps choose addr qord shuf minmax maxel workers R.

  (** ** divideConquer/hull.cpp *)
  (** 61-66: [numProc] goes down until a block has ten points; [floor] of a
      quotient of integers *)
  Fixpoint shrink (n k : nat) : res nat :=
    match k with
    | 0 => UB
    | S k' => if n / k <? 10 then shrink n k' else Ok k
    end.
  Variable sort : (pt -> pt -> bool) -> list pt -> list pt.
  (** 49-97 *)
  Definition concurrentHull (P : list pt) (numProc : nat) : res (list pt) :=
    k <- shrink (length P) (numProc * 8) ;;
    let b := length P / k in
    l <- mapR (fun i => computeVertex K eps minmax maxel sort (slice (i * b) (Nat.min (length P) ((i + 1) * b)) P)) (seq 0 k) ;;
    Ok (concat l).
  (** 99-141, sampling/hullTest.cpp:11-28: the sample of [size] hashed points; the
      fraction of its points on its hull is below 0.8 *)
  Definition few (P : list pt) (size : nat) : res bool :=
    sample <- randomSample P size ;;
    V <- computeVertex K eps minmax maxel sort sample ;;
    Ok (5 * length V <? 4 * size).
  Definition divideConquer (workers numProc size : nat) (P : list pt) : res (list tri) :=
    if length P <? 1000 then compute K eps minmax maxel P
    else
      fw <- few P size ;;
      if (fw : bool) then
        Q <- concurrentHull P (if numProc =? 0 then workers else numProc) ;;
        computePar eps choose addr qord shuf minmax maxel workers Q
      else computePar eps choose addr qord shuf minmax maxel workers P.
End H3S.
