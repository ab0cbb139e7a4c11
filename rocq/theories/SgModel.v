(** Model of the graphs built on the Delaunay triangulation:
    src/spatialGraph/delaunayGraph/delaunayGraph.cpp, gabrielGraph/gabrielGraph.cpp,
    betaSkeleton/betaSkeleton.cpp with betaSkeleton/kdt.h, and
    include/spatialGraph/edge.h.  Definitions only.

    Reading one cell past the end of an array gives [past]: [None] (undefined)
    in the code, any value in the repaired variants. *)
From Verif Require Import Base Num KdModel DelModel.
Set Implicit Arguments.

Definition sedge : Type := nat * nat.
(** edge.h 12-14 *)
Definition mkE (u v : nat) : sedge := if v <? u then (v, u) else (u, v).
(** 20-22 *)
Definition eqE (a b : sedge) : bool := (fst b =? fst a) && (snd b =? snd a).
(** delaunayGraph.cpp 68-71, gabrielGraph.cpp 78-82 *)
Definition ltE (a b : sedge) : bool := if fst a =? fst b then snd a <? snd b else fst a <? fst b.

Definition rdPast {A} (l : list A) (past : option A) (i : nat) : res A :=
  match nth_error l i with
  | Some x => Ok x
  | None => match past with Some x => if i =? length l then Ok x else UB | None => UB end
  end.
Definition wrAt (len i : nat) : res unit := if i <? len then Ok tt else UB.

Section Graphs.
  (** [M] is the value of [(size_t) -1]. *)
  Variable M : nat.
  (** edge.h 16-18 *)
  Definition emptyE : sedge := (M, M).
  Definition isEmptyE (e : sedge) : bool := fst e =? M.

  Section DelaunayGraph.
    (** [sort_inplace] *)
    Variable sort : list sedge -> list sedge.
    Variable past : option sedge.
    (** cells of [flag] beyond the 3*nt of the code *)
    Variable spare : nat.

    (** delaunayGraph.cpp 45-58 *)
    Definition dgEdge (n : nat) (d : nat * nat) : sedge :=
      if (fst d <? n) && (snd d <? n) then mkE (fst d) (snd d) else emptyE.
    Definition triDirs (t : nat * nat * nat) : list (nat * nat) := let '(a, b, c) := t in [(b, c); (c, a); (a, b)].
    Definition dgTri (n : nat) (t : nat * nat * nat) : list sedge := map (dgEdge n) (triDirs t).

    (** 42-43, 61-85; the iterations of the loops write different cells *)
    Definition dgraph (n : nat) (T : list (nat * nat * nat)) : res (list sedge) :=
      let es := sort (flat_map (dgTri n) T ++ [emptyE]) in
      fl <- mapR (fun i =>
              e <- rdPast es past i ;;
              e' <- rdPast es past (i + 1) ;;
              _ <- wrAt (3 * length T + spare) i ;;
              Ok (eqE e e' && negb (isEmptyE e))) (seq 0 (length es)) ;;
      Ok (packF es fl).
  End DelaunayGraph.

  Section GabrielGraph.
    Variable N : Num.
    Variable sort : list (sedge * bool) -> list (sedge * bool).
    Variable past : option (sedge * bool).
    (** memory after the points *)
    Variable pastP : nat -> option (pt2 N).
    Variable P : list (pt2 N).
    Let n := length P.

    (** point.h 49-71, 115-123 *)
    Definition padd (a b : pt2 N) : pt2 N := (nadd N (fst a) (fst b), nadd N (snd a) (snd b)).
    Definition pdivs (a : pt2 N) (s : nT N) : pt2 N := (ndiv N (fst a) s, ndiv N (snd a) s).
    Definition pmuls (a : pt2 N) (s : nT N) : pt2 N := (nmul N (fst a) s, nmul N (snd a) s).
    Definition plen (a : pt2 N) : nT N :=
      nsqrt N (nadd N (nadd N (nzero N) (nmul N (fst a) (fst a))) (nmul N (snd a) (snd a))).
    Definition getP (i : nat) : res (pt2 N) :=
      match nth_error P i with
      | Some p => Ok p
      | None => match pastP i with Some p => Ok p | None => UB end
      end.

    (** gabrielGraph.cpp 45-70 *)
    Definition gbEdge (k : nat * nat * nat) : res (sedge * bool) :=
      let '(x, u, v) := k in
      if (n <=? u) || (n <=? v) then Ok (mkE u v, false)
      else
        pu <- getP u ;; pv <- getP v ;;
        let c := pdivs (padd pu pv) (ntwo N) in
        let rq := ndiv N (plen (psub pu pv)) (ntwo N) in
        px <- getP x ;;
        let dis := plen (psub px c) in
        Ok (mkE u v, negb ((x <? n) && nle N dis rq)).
    Definition triRots (t : nat * nat * nat) : list (nat * nat * nat) := let '(a, b, c) := t in [(a, b, c); (b, c, a); (c, a, b)].

    (** 42-43, 72-118; the scan and the scatter of lines 107-116 are a pack of
        the first 3*nt cells *)
    Definition ggraph (T : list (nat * nat * nat)) : res (list sedge) :=
      L <- mapR gbEdge (flat_map triRots T) ;;
      let es := sort (L ++ [(emptyE, false)]) in
      fl <- mapR (fun i =>
              e <- rdPast es past i ;;
              e' <- rdPast es past (i + 1) ;;
              _ <- wrAt (3 * length T + 1) i ;;
              Ok (eqE (fst e) (fst e') && snd e && snd e')) (seq 0 (length es)) ;;
      Ok (packF (firstn (3 * length T) (map fst es)) fl).
  End GabrielGraph.

  Section BetaSkeleton.
    Variable N : Num.
    Variable P : list (pt2 N).
    (** the conversion of a double to [float] (kdt.h 339-340) *)
    Variable narrow : nT N -> nT N.
    (** [kept] = false: the sequence [items] of [buildKdt] (kdt.h 284) is gone
        when the tree is searched *)
    Variable kept : bool.

    Definition coords (p : pt2 N) : list (nT N) := [fst p; snd p].
    Definition ptOf (i : nat) : list (nT N) := coords (nth i P (nzero N, nzero N)).

    (** kdt.h 334-345; items are indices *)
    Fixpoint luneLeaf (p1 : pt2 N) (r1 : nT N) (p2 : pt2 N) (r2 : nT N) (e1 e2 : nat) (its : list nat) : res bool :=
      match its with
      | [] => Ok false
      | i :: its' =>
        if kept then
          if (i =? e1) || (i =? e2) then luneLeaf p1 r1 p2 r2 e1 e2 its'
          else
            if nle N (narrow (dist N 2 (coords p1) (ptOf i))) r1 && nle N (narrow (dist N 2 (coords p2) (ptOf i))) r2
            then Ok true else luneLeaf p1 r1 p2 r2 e1 e2 its'
        else UB
      end.
    (** 310-354 *)
    Fixpoint luneHelper (b1 b2 : box N) (p1 : pt2 N) (r1 : nT N) (p2 : pt2 N) (r2 : nT N) (e1 e2 : nat) (t : tree N nat) : res bool :=
      match boxCompare N 2 b1 (tbox t), boxCompare N 2 b2 (tbox t) with
      | BoxExclude, _ | _, BoxExclude => Ok false
      | _, _ =>
        match t with
        | Leaf its _ => luneLeaf p1 r1 p2 r2 e1 e2 its
        | Node _ l r =>
          x <- luneHelper b1 b2 p1 r1 p2 r2 e1 e2 l ;;
          if x then Ok true else luneHelper b1 b2 p1 r1 p2 r2 e1 e2 r
        end
      end.
    (** 362-371 *)
    Definition discBox (p : pt2 N) (r : nT N) : box N :=
      {| bmin := [nsub N (fst p) r; nsub N (snd p) r]; bmax := [nadd N (fst p) r; nadd N (snd p) r] |}.
    Definition nonEmptyLune (t : tree N nat) (p1 : pt2 N) (r1 : nT N) (p2 : pt2 N) (r2 : nT N) (e1 e2 : nat) : res bool :=
      luneHelper (discBox p1 r1) (discBox p2 r2) p1 r1 p2 r2 e1 e2 t.

    (** betaSkeleton.cpp 38-48 *)
    Definition none : nT N := ndiv N (ntwo N) (ntwo N).
    Definition skelEdge (beta : nT N) (t : tree N nat) (e : sedge) : res bool :=
      let '(u, v) := e in
      match nth_error P u, nth_error P v with
      | Some pu, Some pv =>
        let d := dist N 2 (coords pu) (coords pv) in
        if nlt N beta none then
          let r := ndiv N d (nmul N (ntwo N) beta) in
          b <- nonEmptyLune t pu r pv r u v ;; Ok (negb b)
        else
          let r := ndiv N (nmul N beta d) (ntwo N) in
          let h := ndiv N beta (ntwo N) in
          let h' := nsub N none h in
          b <- nonEmptyLune t (padd (pmuls pu h') (pmuls pv h)) r (padd (pmuls pu h) (pmuls pv h')) r u v ;; Ok (negb b)
      | _, _ => UB
      end.
    (** 18-22, 31-49; kdt.h 280-304 *)
    Definition skeleton (workers threshold : nat) (beta : nT N) (dedges : list sedge) : res (list sedge) :=
      if nlt N beta (nzero N) then Throw
      else
        t <- build N 2 nat ptOf true workers threshold 16 (seq 0 (length P)) ;;
        fl <- mapR (skelEdge beta t) dedges ;;
        Ok (packF dedges fl).
  End BetaSkeleton.
End Graphs.

(** The three functions for two-dimensional points on a run of the
    triangulation: [dr] is its result. *)
Section Drivers.
  Variable N : Num.
  Variable M : nat.
  Definition delaunayGraph (sort : list sedge -> list sedge) (past : option sedge) (spare : nat) (P : list (pt2 N))
      (dr : res (list (pt2 N) * list (nat * nat * nat))) : res (list sedge) :=
    '(_, T) <- dr ;; dgraph M sort past spare (length P) T.
  Definition gabrielGraph (sort : list (sedge * bool) -> list (sedge * bool)) (past : option (sedge * bool))
      (pastP : nat -> option (pt2 N)) (P : list (pt2 N)) (dr : res (list (pt2 N) * list (nat * nat * nat))) : res (list sedge) :=
    '(_, T) <- dr ;; ggraph M sort past pastP P T.
  Definition betaSkeleton (sort : list sedge -> list sedge) (past : option sedge) (spare : nat) (narrow : nT N -> nT N) (kept : bool)
      (workers threshold : nat) (beta : nT N) (P : list (pt2 N)) (dr : res (list (pt2 N) * list (nat * nat * nat))) : res (list sedge) :=
    if nlt N beta (nzero N) then Throw
    else E <- delaunayGraph sort past spare P dr ;; skeleton P narrow kept workers threshold beta E.
End Drivers.
