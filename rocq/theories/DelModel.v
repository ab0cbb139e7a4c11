(** Model of the parallel incremental Delaunay triangulation
    (src/delaunayTriangulation/incremental/topology.h and delaunay.cpp,
    include/delaunayTriangulation/geometry.h).  Definitions only.

    Pointers are indices into the arrays Vertices and Triangles.  A triangle
    whose fields were never written is [None]; reading it is undefined.  The
    point location structure (neighbors.h) is a parameter; OctModel.v models it. *)
From Verif Require Import Base Num Sched.
Set Implicit Arguments.

Definition fset {A} (f : nat -> A) (i : nat) (x : A) : nat -> A := fun j => if j =? i then x else f j.

Section Del.
  Variable N : Num.
  Definition pt2 : Type := nT N * nT N.

  (** geometry.h 271-290, 311-336 (vector2d, point2d) *)
  Definition psub (a b : pt2) : pt2 := (nsub N (fst a) (fst b), nsub N (snd a) (snd b)).
  Definition cross2 (v w : pt2) : nT N := nsub N (nmul N (fst v) (snd w)) (nmul N (snd v) (fst w)).

  (** geometry.h 371-374 *)
  Definition counterClockwise (a b c : pt2) : bool := nlt N (nzero N) (cross2 (psub b a) (psub c a)).

  (** geometry.h 176-205 (vector3d), 376-391 *)
  Definition onParabola (v : pt2) : nT N * nT N * nT N :=
    (fst v, snd v, nadd N (nmul N (fst v) (fst v)) (nmul N (snd v) (snd v))).
  Definition cross3 (v w : nT N * nT N * nT N) : nT N * nT N * nT N :=
    let '(x, y, z) := v in
    let '(x', y', z') := w in
    (nsub N (nmul N y z') (nmul N z y'), nsub N (nmul N z x') (nmul N x z'), nsub N (nmul N x y') (nmul N y x')).
  Definition dot3 (v w : nT N * nT N * nT N) : nT N :=
    let '(x, y, z) := v in
    let '(x', y', z') := w in nadd N (nadd N (nmul N x x') (nmul N y y')) (nmul N z z').
  Definition inCircle (a b c d : pt2) : bool :=
    nlt N (nzero N) (dot3 (cross3 (onParabola (psub a d)) (onParabola (psub b d))) (onParabola (psub c d))).

  (** topology.h 45-73: neighbours and corners of a triangle *)
  Record trec := mkT { ng : nat -> option nat; vx : nat -> nat }.
  (** Triangles and the [t] fields of Vertices; [cap] triangles exist. *)
  Record mesh := mkM { cap : nat; tm : nat -> option trec; vt : nat -> option nat }.

  Definition getT (m : mesh) (t : nat) : res trec :=
    match tm m t with Some r => Ok r | None => UB end.
  Definition setT (m : mesh) (t : nat) (r : trec) : res mesh :=
    if t <? cap m then Ok (mkM (cap m) (fset (tm m) t (Some r)) (vt m)) else UB.
  Definition modT (m : mesh) (t : nat) (f : trec -> trec) : res mesh :=
    r <- getT m t ;; setT m t (f r).
  Definition setVt (m : mesh) (v t : nat) : mesh := mkM (cap m) (tm m) (fset (vt m) v (Some t)).
  Definition wNg (i : nat) (x : option nat) (r : trec) : trec := mkT (fset (ng r) i x) (vx r).
  Definition wVx (i : nat) (x : nat) (r : trec) : trec := mkT (ng r) (fset (vx r) i x).
  Definition of3 {A} (a b c : A) : nat -> A := fun i => match i with 0 => a | 1 => b | _ => c end.

  Definition isT (x : option nat) (t : nat) : bool := match x with Some y => y =? t | None => false end.
  (** 59-66 *)
  Definition locate (r : trec) (t : nat) : res nat :=
    if isT (ng r 0) t then Ok 0 else if isT (ng r 1) t then Ok 1 else if isT (ng r 2) t then Ok 2 else Throw.
  (** 67-72, on a pointer that may be NULL (the callers test it) *)
  Definition update (m : mesh) (x : option nat) (t tn : nat) : res mesh :=
    match x with
    | None => Ok m
    | Some y => r <- getT m y ;; i <- locate r t ;; setT m y (wNg i (Some tn) r)
    end.

  (** 95 *)
  Definition mod3 (i : nat) : nat := if 2 <? i then i - 3 else i.

  (** 101-125: triangle, orientation, boundary flag *)
  Definition simp : Type := nat * nat * bool.
  Definition sT (s : simp) : nat := fst (fst s).
  Definition sO (s : simp) : nat := snd (fst s).
  Definition sB (s : simp) : bool := snd s.

  (** 135-139 *)
  Definition across (m : mesh) (s : simp) : res simp :=
    r <- getT m (sT s) ;;
    match ng r (sO s) with
    | Some y => ry <- getT m y ;; j <- locate ry (sT s) ;; Ok (y, j, false)
    | None => Ok (sT s, sO s, true)
    end.
  (** 142 *)
  Definition rot (s : simp) : simp := (sT s, mod3 (sO s + 1), false).
  (** 148 *)
  Definition firstVertex (m : mesh) (s : simp) : res nat := r <- getT m (sT s) ;; Ok (vx r (sO s)).

  (** 169-190 [flip], 195-206 [split] *)
  Definition flip (m : mesh) (s : simp) : res mesh :=
    let t := sT s in
    let o := sO s in
    a <- across m s ;;
    let s' := sT a in
    let os := sO a in
    let o1 := mod3 (o + 1) in
    let os1 := mod3 (os + 1) in
    r <- getT m t ;;
    rs <- getT m s' ;;
    let t1 := ng r o1 in
    let t2 := ng rs os1 in
    let v1 := vx r o1 in
    let v2 := vx rs os1 in
    let m := setVt m (vx r o) s' in
    m <- modT m t (fun r => wNg o t2 (wVx o v2 r)) ;;
    m <- update m t2 s' t ;;
    m <- modT m t (wNg o1 (Some s')) ;;
    rs <- getT m s' ;;
    let m := setVt m (vx rs os) t in
    m <- modT m s' (fun r => wNg os t1 (wVx os v1 r)) ;;
    m <- update m t1 t s' ;;
    modT m s' (wNg os1 (Some t)).

  Definition split (m : mesh) (t v ta0 ta1 : nat) : res mesh :=
    let m := setVt m v t in
    r <- getT m t ;;
    let t1 := ng r 0 in let t2 := ng r 1 in let t3 := ng r 2 in
    let v1 := vx r 0 in let v2 := vx r 1 in let v3 := vx r 2 in
    m <- setT m t (wVx 1 v (wNg 2 (Some ta1) (wNg 1 (Some ta0) r))) ;;
    m <- setT m ta0 (mkT (of3 t2 (Some ta1) (Some t)) (of3 v2 v v1)) ;;
    m <- setT m ta1 (mkT (of3 t3 (Some t) (Some ta0)) (of3 v3 v v2)) ;;
    m <- update m t2 t ta0 ;;
    m <- update m t3 t ta1 ;;
    Ok (setVt m v2 ta0).

  (** 109-118 the first simplex, 228-236 [extend] *)
  Definition firstSimplex (m : mesh) (a b c tt : nat) : res mesh :=
    m <- setT m tt (mkT (fun _ => None) (of3 a b c)) ;;
    Ok (setVt (setVt (setVt m a tt) b tt) c tt).
  Definition extend (m : mesh) (s : simp) (v ta : nat) : res (mesh * simp) :=
    r <- getT m (sT s) ;;
    match ng r (sO s) with
    | Some _ => Throw
    | None =>
      m <- setT m (sT s) (wNg (sO s) (Some ta) r) ;;
      m <- setT m ta (mkT (of3 None (Some (sT s)) None) (of3 (vx r (sO s)) (vx r (mod3 (sO s + 2))) v)) ;;
      Ok (setVt m v ta, (ta, 0, false))
    end.

  (** *** delaunay.cpp *)
  (** the points and the ids of Vertices *)
  Variable vp : nat -> pt2.
  Variable vid : nat -> nat.

  (** topology.h 150-154, 163-166 *)
  Definition inCirc (m : mesh) (v : nat) (s : simp) : res bool :=
    if sB s then Ok false
    else r <- getT m (sT s) ;; Ok (inCircle (vp (vx r 0)) (vp (vx r 1)) (vp (vx r 2)) (vp v)).
  Definition outside (m : mesh) (v : nat) (s : simp) : res bool :=
    if sB s then Ok false
    else r <- getT m (sT s) ;; Ok (counterClockwise (vp (vx r (mod3 (sO s + 2)))) (vp v) (vp (vx r (sO s)))).

  (** delaunay.cpp 74-85 *)
  Fixpoint findRot (m : mesh) (p k : nat) (s : simp) : res (simp * bool) :=
    match k with
    | 0 => Ok (s, false)
    | S k' =>
      let s := rot s in
      b <- outside m p s ;;
      if b : bool then s' <- across m s ;; Ok (s', true) else findRot m p k' s
    end.
  Fixpoint find (fuel : nat) (m : mesh) (p : nat) (s : simp) : res simp :=
    match fuel with
    | 0 => Fuel
    | S f =>
      '(s', hit) <- findRot m p 3 s ;;
      if negb hit then Ok s' else if sB s' then Ok s' else find f m p s'
    end.

  (** 99-108: the simplices and the vertices pushed *)
  Fixpoint findCavity (fuel : nat) (m : mesh) (p : nat) (s : simp) : res (list simp * list nat) :=
    match fuel with
    | 0 => Fuel
    | S f =>
      b <- inCirc m p s ;;
      if b : bool then
        let s1 := rot s in
        a1 <- across m s1 ;; '(q1, v1) <- findCavity f m p a1 ;;
        c <- firstVertex m s1 ;;
        let s2 := rot s1 in
        a2 <- across m s2 ;; '(q2, v2) <- findCavity f m p a2 ;;
        Ok (s :: q1 ++ q2, v1 ++ c :: v2)
      else Ok ([], [])
    end.
  (** 115-121 *)
  Fixpoint cavity (fuel k : nat) (m : mesh) (p : nat) (s : simp) : res (list simp * list nat) :=
    match k with
    | 0 => Ok ([], [])
    | S k' =>
      u <- firstVertex m s ;;
      a <- across m s ;; '(q, v) <- findCavity fuel m p a ;;
      '(q', v') <- cavity fuel k' m p (rot s) ;;
      Ok (q ++ q', u :: v ++ v')
    end.

  (** A trial vertex with its triangle and its queues *)
  Record trial := mkTr { tv : nat; ts : simp; tq : list simp; tu : list nat }.

  (** 122-127: reserve fields, -1 is [None]; one atomic write_max *)
  Definition writeMax (R : nat -> option nat) (w : nat * nat) : nat -> option nat :=
    let '(u, id) := w in
    match R u with
    | Some x => if x <? id then fset R u (Some id) else R
    | None => fset R u (Some id)
    end.
  Definition resWrites (trs : list trial) : list (nat * nat) :=
    flat_map (fun tr => map (fun u => (u, vid (tv tr))) (tu tr)) trs.

  (** 131-154 [insert]: what is left to do *)
  Inductive pc :=
  | PCheck (us : list nat) (flag : bool)
  | PSplit
  | PFlip (q : list simp)
  | PDone (flag : bool).
  Definition thr : Type := trial * pc.
  Definition pcFin (l : thr) : bool := match snd l with PDone _ => true | _ => false end.
  Definition flagOf (l : thr) : bool := match snd l with PDone f => f | _ => true end.

  Definition insStep (l : thr) (s : mesh * (nat -> option nat)) : res (thr * (mesh * (nat -> option nat))) :=
    let '(tr, c) := l in
    let '(m, R) := s in
    match c with
    | PCheck (u :: us) flag =>
      if isT (R u) (vid (tv tr)) then Ok ((tr, PCheck us flag), (m, fset R u None))
      else Ok ((tr, PCheck us true), (m, R))
    | PCheck [] true => Ok ((tr, PDone true), s)
    | PCheck [] false => Ok ((tr, PSplit), s)
    | PSplit =>
      match vt m (tv tr) with
      | None => UB
      | Some t1 => m' <- split m (sT (ts tr)) (tv tr) t1 (t1 + 1) ;; Ok ((tr, PFlip (tq tr)), (m', R))
      end
    | PFlip (x :: q) => m' <- flip m x ;; Ok ((tr, PFlip q), (m', R))
    | PFlip [] => Ok ((tr, PDone false), s)
    | PDone _ => Ok (l, s)
    end.

  (** The point location structure: [knn cand v] is built from [cand] and queried
      for [v]; the
      order of the reservations, and the schedule of the insertions of a round *)
  Variable knn : list nat -> nat -> res nat.
  Variable worder : nat -> list (nat * nat) -> list (nat * nat).
  Variable sched : nat -> list nat.

  (** 273-276 *)
  Definition locateTrial (fuel : nat) (m : mesh) (cand : list nat) (v : nat) : res trial :=
    w <- knn cand v ;;
    match vt m w with
    | None => UB
    | Some t0 =>
      s <- find fuel m v (t0, 0, false) ;;
      '(q, u) <- cavity fuel 3 m v s ;;
      Ok (mkTr v s q u)
    end.
  Fixpoint mapR {A B} (f : A -> res B) (l : list A) : res (list B) :=
    match l with [] => Ok [] | x :: l' => y <- f x ;; r <- mapR f l' ;; Ok (y :: r) end.

  Fixpoint packF {A} (l : list A) (fl : list bool) : list A :=
    match l, fl with
    | x :: l', true :: fl' => x :: packF l' fl'
    | _ :: l', false :: fl' => packF l' fl'
    | _, _ => []
    end.

  (** 228-301 [incrementally_add_points]; [v] is the list of the n vertices.
      The state: mesh, reserve fields, done, remain, num_next_rebuild, vertices
      in the point location structure. *)
  Section Loop.
    Variable vs : list nat.
    Let n := length vs.
    Definition maxBlock : nat := n / 1000 + 1.
    Record lstate := mkL { lm : mesh; lR : nat -> option nat; ldone : list nat; lremain : list nat;
                           lnext : nat; lcand : list nat; lround : nat }.
    Definition roundSize (nd : nat) : nat := Nat.min (Nat.min (1 + nd / 50) (n - nd)) maxBlock.
    Definition buffer (st : lstate) : res (list nat) :=
      let nd := length (ldone st) in
      mapR (fun j => match (if j <? length (lremain st) then nth_error (lremain st) j else nth_error vs (j + nd)) with
                     | Some v => Ok v | None => UB end)
           (seq 0 (roundSize nd)).
    Definition roundStep (fuel : nat) (st : lstate) : res lstate :=
      let nd := length (ldone st) in
      let rebuild := (lnext st <=? nd) && (nd <=? n / 10) in
      let cand := if rebuild then ldone st else lcand st in
      buf <- buffer st ;;
      trs <- mapR (locateTrial fuel (lm st) cand) buf ;;
      let R := fold_left writeMax (worder (lround st) (resWrites trs)) (lR st) in
      '(ls, (m, R)) <- runT insStep pcFin (sched (lround st))
                         (map (fun tr => (tr, PCheck (tu tr) false)) trs) (lm st, R) ;;
      let flags := map flagOf ls in
      Ok (mkL m R (ldone st ++ packF buf (map negb flags)) (packF buf flags)
              (if rebuild then lnext st * 10 else lnext st) cand (S (lround st))).
    Fixpoint addPoints (fuel k : nat) (st : lstate) : res lstate :=
      if length (ldone st) <? n then
        match k with
        | 0 => Fuel
        | S k' => st' <- roundStep fuel st ;; addPoints fuel k' st'
        end
      else Ok st.
  End Loop.

  (** 191-221 [generate_boundary]; the boundary vertices are n, ..., n + nb - 1 *)
  Fixpoint extendAll (m : mesh) (s : simp) (v t k : nat) : res mesh :=
    match k with
    | 0 => Ok m
    | S k' => '(m', s') <- extend m s v t ;; extendAll m' s' (v + 1) (t + 1) k'
    end.
  Definition initMesh (n nb : nat) : res mesh :=
    let m := mkM (2 * n + (nb - 2)) (fun _ => None) (fun v => if v <? n then Some (2 * v) else None) in
    m <- firstSimplex m n (n + 1) (n + 2) (2 * n) ;;
    extendAll m (2 * n, 0, false) (n + 3) (2 * n + 1) (nb - 3).

  (** 312-318, 338-359: the three corners of every triangle *)
  Definition corners (m : mesh) (t : nat) : res (nat * nat * nat) :=
    r <- getT m t ;; Ok (vid (vx r 0), vid (vx r 1), vid (vx r 2)).
  Definition triangulate (fuel n nb : nat) : res (list (nat * nat * nat)) :=
    m <- initMesh n nb ;;
    st <- addPoints (seq 0 n) fuel n (mkL m (fun _ => None) [] [] 100 [n] 0) ;;
    mapR (corners (lm st)) (seq 0 (cap (lm st))).
End Del.

(** The driver, 308-372: [ids] is the inverse of the random permutation, so
    vertex v is P[ids[v]]; [cs] and [sn] are the cosines and sines of lines
    208-209. *)
Section Driver.
  Variable N : Num.
  Variables cs sn : nat -> nT N.
  Definition nten : nT N := nadd N (nmul N (ntwo N) (nmul N (ntwo N) (ntwo N))) (ntwo N).

  (** 196-212; [reduce] as a fold *)
  Definition corner (pick : nT N -> nT N -> nT N) (p0 : pt2 N) (P : list (pt2 N)) : pt2 N :=
    fold_left (fun a b => (pick (fst a) (fst b), pick (snd a) (snd b))) P p0.
  Definition boundaryPoints (P : list (pt2 N)) (nb : nat) : res (list (pt2 N)) :=
    match P with
    | [] => UB
    | p0 :: _ =>
      let lo := corner (nmin2 N) p0 P in
      let hi := corner (nmax2 N) p0 P in
      let d := psub hi lo in
      let size := nsqrt N (nadd N (nmul N (fst d) (fst d)) (nmul N (snd d) (snd d))) in
      let radius := nmul N nten size in
      let c := (nadd N (fst hi) (ndiv N (fst d) (ntwo N)), nadd N (snd hi) (ndiv N (snd d) (ntwo N))) in
      Ok (map (fun i => (nadd N (fst c) (nmul N radius (cs i)), nadd N (snd c) (nmul N radius (sn i)))) (seq 0 nb))
    end.

  Definition delaunay (knn : (nat -> pt2 N) -> list nat -> nat -> res nat)
      (worder : nat -> list (nat * nat) -> list (nat * nat)) (sched : nat -> list nat)
      (ids : list nat) (fuel : nat) (P : list (pt2 N)) : res (list (pt2 N) * list (nat * nat * nat)) :=
    B <- boundaryPoints P 10 ;;
    let n := length P in
    let vid := fun v => nth v ids v in
    let vp := fun v => nth (vid v) (P ++ B) (nzero N, nzero N) in
    T <- triangulate (N := N) vp vid (knn vp) worder sched fuel n 10 ;;
    Ok (P ++ B, T).
End Driver.
