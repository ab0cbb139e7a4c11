(** The gift wrapping hull: convexHull3d/gift/hull.h.  Definitions only. *)
From Coq Require Import ZArith.
From Verif Require Import Base Num H3Model HashModel.
Set Implicit Arguments.

(** Lines 27-51 [pairHash]: directed edges as pairs of int (indices below 2^31),
    the empty key is (-1,-1).  The hash function is a parameter. *)
Definition edge : Type := (Z * Z)%type.
Definition edgeEqb (a b : edge) : bool := Z.eqb (fst a) (fst b) && Z.eqb (snd a) (snd b).
Definition noEdge : edge := (-1, -1)%Z.
Definition dir (u v : nat) : edge := (Z.of_nat u, Z.of_nat v).
(** sparse_table.h:128-130, the product with 1.1 is exact *)
Definition pairCells (n : nat) : nat := tableSize (n * 11 / 10).
Notation edgeTable := (list (edge * unit)).

(** A facet: three positions *)
Definition fc : Type := (nat * nat * nat)%type.

(** The sequence H, the number of times it was moved, and the table T.  A pointer
    to a facet is the number of moves when it was taken, and a position. *)
Record gstate := GS { gH : list fc; gMoves : nat; gT : edgeTable }.
Definition ptr : Type := (nat * nat)%type.

Section Gift.
  Variable K : Num.
  Notation num := (nT K).
  Notation pt := (v3 (nT K)).
  (** acos, and 0 in place of NaN (66-68) *)
  Variable acosf : num -> num.
  (** min_element by x; max_element by a value: positions *)
  Variable minPos : list pt -> nat.
  Variable maxPos : (pt -> num) -> list pt -> nat.
  (** whether emplace_back moves a sequence of this length *)
  Variable realloc : nat -> bool.
  Variable hash : edge -> nat.
  Variable P : list pt.

  Definition cells : nat := pairCells (4 * length P).
  (** 44-50: the lone thread runs the steps of [insert] *)
  Definition mark (e : edge) (tab : edgeTable) : res edgeTable :=
    '(tab', ths) <- run edgeEqb noEdge (cells - 1) (repeat 0 (3 * cells)) (tab, start hash (cells - 1) [(e, tt)]) ;;
    match ths with [(_, PDone _)] => Ok tab' | _ => Fuel end.
  Fixpoint marks (es : list edge) (tab : edgeTable) : res edgeTable :=
    match es with
    | [] => Ok tab
    | e :: es' => tab' <- mark e tab ;; marks es' tab'
    end.
  Definition processed (e : edge) (tab : edgeTable) : res bool :=
    contains edgeEqb noEdge hash (cells - 1) cells e tab.

  (** 61-69 *)
  Definition facetAngle (a1 b1 c1 c2 : pt) : num :=
    let v1 := cross3 K (sub3 K b1 a1) (sub3 K c1 a1) in
    let v2 := cross3 K (sub3 K b1 a1) (sub3 K c2 a1) in
    acosf (ndiv K (dot3 K v1 v2) (nsqrt K (nmul K (dot3 K v1 v1) (dot3 K v2 v2)))).
  (** 78-87, 89-98 *)
  Definition pivotOnFacet0 (p1 q1 q2 : pt) : nat := maxPos (facetAngle p1 q1 q2) P.
  Definition getP (i : nat) : res pt := match nth_error P i with Some p => Ok p | None => UB end.
  Definition pivotOnFacet (p1 q1 q2 : nat) : res nat :=
    a <- getP p1 ;; b <- getP q1 ;; c <- getP q2 ;; Ok (pivotOnFacet0 a b c).

  (** 115-122 *)
  Definition newFc (a b c : nat) : res fc :=
    pa <- getP a ;; pb <- getP b ;; pc <- getP c ;;
    Ok (if nlt K (nzero K) (det3 K pa pb pc) then (c, b, a) else (a, b, c)).

  Definition deref (p : ptr) (s : gstate) : res fc :=
    if fst p =? gMoves s then match nth_error (gH s) (snd p) with Some f => Ok f | None => UB end else UB.
  (** 188-189, emplace_back and the pointer pushed *)
  Definition emplace (f : fc) (s : gstate) : gstate * ptr :=
    let g := if realloc (length (gH s)) then S (gMoves s) else gMoves s in
    (GS (gH s ++ [f]) g (gT s), (g, length (gH s))).
  Definition edgesOf (f : fc) : list edge := let '(a, b, c) := f in [dir a b; dir b c; dir c a].

  (** 171-192: edge j of the facet at [p] *)
  Definition turn (j : nat) (f : fc) : fc :=
    let '(a, b, c) := f in
    match j with 0 => (b, a, c) | 1 => (c, b, a) | _ => (a, c, b) end.
  Definition wrapEdge (p : ptr) (j : nat) (s : gstate) (Q : list ptr) : res (gstate * list ptr) :=
    f <- deref p s ;;
    let '(e1, e2, e3) := turn j f in
    b <- processed (dir e1 e2) (gT s) ;;
    if b : bool then Ok (s, Q)
    else
      q <- pivotOnFacet e1 e2 e3 ;;
      f' <- newFc e1 q e2 ;;
      let '(s', p') := emplace f' s in
      tab <- marks (edgesOf f') (gT s') ;;
      Ok (GS (gH s') (gMoves s') tab, Q ++ [p']).
  Fixpoint wrapEdges (p : ptr) (js : list nat) (s : gstate) (Q : list ptr) : res (gstate * list ptr) :=
    match js with
    | [] => Ok (s, Q)
    | j :: js' => '(s', Q') <- wrapEdge p j s Q ;; wrapEdges p js' s' Q'
    end.
  (** 166-194 *)
  Fixpoint wrap (fuel : nat) (s : gstate) (Q : list ptr) : res gstate :=
    match fuel, Q with
    | _, [] => Ok s
    | 0, _ => Fuel
    | S fuel', p :: Q' => '(s', Q'') <- wrapEdges p [0; 1; 2] s Q' ;; wrap fuel' s' Q''
    end.

  (** 124-164 *)
  Definition none1 : num := nsub K (nzero K) (nneg1 K).
  Definition firstFacet : res (nat * nat * nat) :=
    let p1 := minPos P in
    a <- getP p1 ;;
    let q1 := V3 (vx a) (nadd K (vy a) none1) (vz a) in
    let q2 := V3 (vx a) (vy a) (nadd K (vz a) none1) in
    let p2 := pivotOnFacet0 a q1 q2 in
    b <- getP p2 ;;
    Ok (p1, p2, pivotOnFacet0 a b q1).
  Definition giftFacets (fuel : nat) : res (list fc) :=
    '(p1, p2, p3) <- firstFacet ;;
    f <- newFc p1 p2 p3 ;;
    tab <- marks [dir p2 p1; dir p3 p2; dir p1 p3] (cleared noEdge tt cells) ;;
    s <- wrap fuel (GS [f] 0 tab) [(0, 0)] ;;
    Ok (gH s).
  (** 196-199 *)
  Fixpoint outFacets (H : list fc) : res (list (pt * pt * pt)) :=
    match H with
    | [] => Ok []
    | (a, b, c) :: H' =>
      pa <- getP a ;; pb <- getP b ;; pc <- getP c ;; l <- outFacets H' ;;
      Ok (outFacet (K := K) (pa, pb, pc) :: l)
    end.
  Definition giftHull (fuel : nat) : res (list (pt * pt * pt)) := H <- giftFacets fuel ;; outFacets H.
End Gift.
