(** Model of the planar hulls: include/convexHull2d/quickHull/hull.h,
    src/convexHull2d/divideConquer/hull.cpp, src/convexHull2d/sampling/hull.cpp
    with include/convexHull2d/sampling/filter.h, and
    src/convexHull2d/bruteforce/hull.cpp. *)
From Verif Require Import Base Num Sched KdModel.
Set Implicit Arguments.

Fixpoint mapR {X Y} (f : X -> res Y) (l : list X) : res (list Y) :=
  match l with [] => Ok [] | x :: l' => y <- f x ;; r <- mapR f l' ;; Ok (y :: r) end.

(** contract of parlay::reduce: the elements are combined in order, bracketed
    in any way, with the identity mixed in anywhere *)
Inductive redOf (X : Type) (f : X -> X -> X) (id : X) : list X -> X -> Prop :=
| red_nil : redOf f id [] id
| red_one x : redOf f id [x] x
| red_app l1 l2 x y : redOf f id l1 x -> redOf f id l2 y -> redOf f id (l1 ++ l2) (f x y).

Section Hull.
  Variable K : Num.
  Notation num := (nT K).
  Notation point := (list (nT K)).

  (** quickHull/hull.h:34-40 *)
  Definition triArea (a b c : point) : num :=
    nsub K (nmul K (nsub K (coord b 0) (coord a 0)) (nsub K (coord c 1) (coord a 1)))
           (nmul K (nsub K (coord b 1) (coord a 1)) (nsub K (coord c 0) (coord a 0))).

  Definition at_ {X} (P : list X) (i : nat) : res X :=
    match nth_error P i with Some p => Ok p | None => UB end.

  (** lines 70-75, 134-139 *)
  Definition cipair := (num * nat)%type.
  Definition cipairs := (cipair * cipair)%type.
  Definition pairMax (a b : cipairs) : cipairs :=
    (if nlt K (fst (fst b)) (fst (fst a)) then fst a else fst b,
     if nlt K (fst (snd b)) (fst (snd a)) then snd a else snd b).
  Definition pairMinMax (a b : cipairs) : cipairs :=
    (if nlt K (fst (fst a)) (fst (fst b)) then fst a else fst b,
     if nlt K (fst (snd b)) (fst (snd a)) then snd a else snd b).
  Definition cid : cipairs := ((nzero K, 0), (nzero K, 0)).

  (** parlay::reduce; parlay::minmax_element (two positions) *)
  Variable red : (cipairs -> cipairs -> cipairs) -> cipairs -> list cipairs -> cipairs.
  Variable minmax : (point -> point -> bool) -> list point -> nat * nat.

  (** lines 57-115; the two calls work on separate arrays *)
  Fixpoint quickHullHelper (fuel : nat) (P : list point) (Idxs : list nat) (l mid r : nat) : res (list nat) :=
    match fuel with
    | 0 => Fuel
    | S fuel' =>
      if length Idxs <=? 1 then Ok Idxs else
      lP <- at_ P l ;; midP <- at_ P mid ;; rP <- at_ P r ;;
      A <- mapR (fun j => q <- at_ P j ;; Ok (j, (triArea lP midP q, triArea midP rP q))) Idxs ;;
      let prs := red pairMax cid (map (fun x => ((fst (snd x), fst x), (snd (snd x), fst x))) A) in
      let left := map fst (filter (fun x => nlt K (nzero K) (fst (snd x))) A) in
      let right := map fst (filter (fun x => nlt K (nzero K) (snd (snd x))) A) in
      leftR <- quickHullHelper fuel' P left l (snd (fst prs)) mid ;;
      rightR <- quickHullHelper fuel' P right mid (snd (snd prs)) r ;;
      Ok (leftR ++ mid :: rightR)
    end.

  (** line 125-126; a == b is not (a < b or b < a) up to NaN *)
  Definition neq0 (a b : num) : bool := nle K a b && nle K b a.
  Definition pntless (a b : point) : bool :=
    nlt K (coord a 0) (coord b 0) || (neq0 (coord a 0) (coord b 0) && nlt K (coord a 1) (coord b 1)).

  (** lines 117-182 *)
  Definition quickHull (P : list point) : res (list nat) :=
    let n := length P in
    let mm := minmax pntless P in
    let mn := fst mm in let mx := snd mm in
    A <- mapR (fun i => p <- at_ P mn ;; q <- at_ P mx ;; c <- at_ P i ;; Ok (i, triArea p q c)) (seq 0 n) ;;
    let prs := red pairMinMax cid (map (fun x => ((snd x, fst x), (snd x, fst x))) A) in
    let upper := map fst (filter (fun x => nlt K (nzero K) (snd x)) A) in
    let lower := map fst (filter (fun x => nlt K (snd x) (nzero K)) A) in
    upperR <- quickHullHelper (S n) P upper mn (snd (snd prs)) mx ;;
    lowerR <- quickHullHelper (S n) P lower mx (snd (fst prs)) mn ;;
    Ok (mn :: upperR ++ mx :: lowerR).

  (** *** divideConquer/hull.cpp *)
  (** lines 22-27: the number of blocks and the block size; the division by
      zero is undefined *)
  Fixpoint shrink (n numProc : nat) : res (nat * nat) :=
    match numProc with
    | 0 => UB
    | S np => if n / numProc <? 10 then shrink n np else Ok (numProc, n / numProc)
    end.
  (** lines 15-67; [workers] is parlay::num_workers() *)
  Definition divideConquer (workers numProc0 : nat) (P : list point) : res (list nat) :=
    let numProc := (if numProc0 =? 0 then workers else numProc0) * 8 in
    '(np, blk) <- shrink (length P) numProc ;;
    subHulls <- mapR (fun i =>
        let s := i * blk in let e := Nat.min (length P) ((i + 1) * blk) in
        h <- quickHull (slice s e P) ;; Ok (map (fun j => s + j) h)) (seq 0 np) ;;
    let uniquePts := concat subHulls in
    Q2 <- mapR (at_ P) uniquePts ;;
    H2 <- quickHull Q2 ;;
    mapR (at_ uniquePts) H2.

  (** *** sampling/filter.h *)
  (** lines 42-69: least and largest area at the corners of the box *)
  Definition nodeVol (b : box K) (fa fb : point) : num * num :=
    fold_left (fun v c => let vol := triArea fa fb c in (nmin2 K (fst v) vol, nmax2 K (snd v) vol))
      [[coord (bmin b) 0; coord (bmin b) 1]; [coord (bmin b) 0; coord (bmax b) 1];
       [coord (bmax b) 0; coord (bmin b) 1]; [coord (bmax b) 0; coord (bmax b) 1]]
      (nmax K, nneg1 K).
  (** point.h operator==: equal coordinates *)
  Definition samePt (p q : point) : bool := neq0 (coord p 0) (coord q 0) && neq0 (coord p 1) (coord q 1).
  (** lines 71-110: the compare-exchanges of one facet, in order, on positions
      in P; [true] marks the first one of a node, where F has just been set to
      false (line 81) *)
  Definition mark (its : list nat) : list (bool * nat) :=
    match its with [] => [] | i :: its' => (true, i) :: map (pair false) its' end.
  Fixpoint flagVisible (P : list point) (t : tree K nat) (fa fb : point) : list (bool * nat) :=
    let v := nodeVol (tbox t) fa fb in
    if nle K (fst v) (nzero K) && nle K (snd v) (nzero K) then []
    else if nle K (fst v) (nzero K) && nlt K (nzero K) (snd v) then
      match t with
      | Node _ l r => flagVisible P l fa fb ++ flagVisible P r fa fb
      | Leaf its _ => mark (filter (fun i => let p := nth i P [] in
          nle K (nzero K) (triArea fa fb p) || samePt fa p || samePt fb p) its)
      end
    else mark (items t).
  (** atomic_compare_exchange_weak(&flag[i], &F, true), lines 98 and 106: the
      expected value F is overwritten when the exchange fails *)
  Definition casStep (l : list (bool * nat) * bool) (flag : list bool) : res ((list (bool * nat) * bool) * list bool) :=
    match fst l with
    | [] => Ok (l, flag)
    | (new, i) :: rest =>
      let F := if new then false else snd l in
      let f := nth i flag false in
      if Bool.eqb f F then Ok ((rest, F), upd i true flag) else Ok ((rest, f), flag)
    end.
  Definition casFin (l : list (bool * nat) * bool) : bool := match fst l with [] => true | _ => false end.
  (** lines 112-169: the kept points, in order; the facets run in parallel *)
  Definition filter2 (P : list point) (t : tree K nat) (sched : list nat) (sample : list point) (F : list nat) : res (list point) :=
    facets <- mapR (fun i => a <- at_ F i ;; b <- at_ F ((i + 1) mod length F) ;;
                 pa <- at_ sample a ;; pb <- at_ sample b ;; Ok (pa, pb)) (seq 0 (length F)) ;;
    '(_, flag) <- runT casStep casFin sched (map (fun f => (flagVisible P t (fst f) (snd f), false)) facets)
                   (repeat false (length P)) ;;
    Ok (map (fun i => nth i P []) (filter (fun i => nth i flag false) (seq 0 (length P)))).
  (** sampling/hull.cpp:12-68 with the sample and the tree given *)
  Definition samplingHull (P : list point) (t : tree K nat) (sched : list nat) (sample : list point) : res (list nat) :=
    if length P <? N.to_nat 1000 then quickHull P else
    sampleHull <- quickHull sample ;;
    remain <- filter2 P t sched sample sampleHull ;;
    quickHull remain.

  (** *** bruteforce/hull.cpp *)
  (** lines 50-69: facet (i,j); [None] is the uninitialised dir *)
  Definition onHull (P : list point) (i j : nat) : bool :=
    let others := filter (fun l => negb ((l =? i) || (l =? j))) (seq 0 (length P)) in
    let side l := nlt K (nzero K) (triArea (nth i P []) (nth j P []) (nth l P [])) in
    match others with
    | [] => true
    | l :: ls => forallb (fun l' => Bool.eqb (side l') (side l)) (l :: ls)
    end.
  Definition bruteFacets (P : list point) : list (nat * nat) :=
    flat_map (fun i => map (fun j => (i, j)) (filter (onHull P i) (seq (i + 1) (length P - (i + 1))))) (seq 0 (length P)).
  (** lines 25-36 *)
  Definition sameFacet (f g : nat * nat) : bool :=
    ((fst f =? fst g) && (snd f =? snd g)) || ((snd f =? fst g) && (fst f =? snd g)).
  Definition connect (f g : nat * nat) : bool := negb (sameFacet f g) && ((snd f =? fst g) || (snd f =? snd g)).
  Definition getConnect (f g : nat * nat) : nat * nat := if snd f =? fst g then g else (snd g, fst g).
  (** lines 76-93 *)
  Fixpoint walk (H : list (nat * nat)) (steps : nat) (prev : nat * nat) (H2 : list nat) : res (list nat) :=
    match steps with
    | 0 => Ok H2
    | S steps' =>
      match find (connect prev) H with
      | Some f => let next := getConnect prev f in walk H steps' next (H2 ++ [fst next])
      | None => Throw
      end
    end.
  Definition bruteHull (P : list point) : res (list nat) :=
    let H := bruteFacets P in
    match H with
    | [] => UB
    | f :: _ => walk H (length H - 1) f [fst f]
    end.
End Hull.
