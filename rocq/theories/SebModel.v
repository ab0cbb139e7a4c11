(** Model of the smallest enclosing ball algorithms: include/enclosingBall/ball.h,
    prefixFor.h, welzl/welzl.h, src/enclosingBall/{scan,sampling}/seb.cpp. *)
From Verif Require Import Base Num KdModel.
Set Implicit Arguments.

(** *** prefixFor.h *)
Section Prefix.
  Variable St : Type.
  (** [process s i] reads A[i] in state s; [cleanUp s i] *)
  Variable process : St -> nat -> res bool.
  Variable cleanUp : St -> nat -> res St.

  Definition visit (s : St) (i : nat) : res St :=
    b <- process s i ;; if b then cleanUp s i else Ok s.
  Fixpoint foldR {X Y} (f : Y -> X -> res Y) (l : list X) (y : Y) : res Y :=
    match l with [] => Ok y | x :: l' => y' <- f y x ;; foldR f l' y' end.
  (** lines 22-27 *)
  Definition serialPrefix (n : nat) (s : St) : res St := foldR visit (seq 0 n) s.

  Fixpoint mapR {X Y} (f : X -> res Y) (l : list X) : res (list Y) :=
    match l with [] => Ok [] | x :: l' => y <- f x ;; r <- mapR f l' ;; Ok (y :: r) end.
  (** parlay::scan_inplace: exclusive sums *)
  Fixpoint exSums (a : nat) (l : list bool) : list nat :=
    match l with [] => [] | b :: l' => a :: exSums (a + (if b then 1 else 0)) l' end.
  Definition total (l : list bool) : nat := length (filter (fun b => b) l).
  (** lines 87-91: iterations that write [conflict] *)
  Definition firstBad (flags : list bool) : list nat :=
    let sc := exSums 0 flags ++ [total flags] in
    filter (fun j => (nth j sc 0 =? 0) && negb (nth j sc 0 =? nth (1 + j) sc 0)) (seq 0 (length flags)).

  (** lines 29-124; [order] is the order of the writes to [conflict] *)
  Fixpoint parLoop (fuel n PREFIX THRESH : nat) (order : list nat -> list nat) (i : nat) (s : St) : res St :=
    match fuel with
    | 0 => Fuel
    | S fuel' =>
      if i <? n then
        let prefix := if i =? 0 then PREFIX else Nat.min (i * 3) n in
        if prefix - i <? THRESH then
          s' <- foldR visit (seq i (prefix - i)) s ;;
          parLoop fuel' n PREFIX THRESH order (i + (prefix - i)) s'
        else
          flags <- mapR (process s) (seq i (prefix - i)) ;;
          if 0 <? total flags then
            match rev (order (firstBad flags)) with
            | [] => UB
            | conflict :: _ =>
              s' <- cleanUp s (i + conflict) ;;
              parLoop fuel' n PREFIX THRESH order (i + conflict) s'
            end
          else parLoop fuel' n PREFIX THRESH order prefix s
      else Ok s
    end.
  Definition parallelPrefix (fuel n PREFIX THRESH : nat) (order : list nat -> list nat) (s : St) : res St :=
    if n <? THRESH then serialPrefix n s else parLoop fuel n PREFIX THRESH order 0 s.
End Prefix.

Section Seb.
  Variable K : Num.
  Variable dim : nat.
  (** the literal 1 *)
  Variable one : nT K.
  (** point.h:24 *)
  Variable eps : nT K.

  Notation num := (nT K).
  Notation point := (list (nT K)).

  (** point.h:48-69, 107-115 *)
  Definition vmap2 (f : num -> num -> num) (p q : point) : point :=
    map (fun i => f (coord p i) (coord q i)) (seq 0 dim).
  Definition vadd := vmap2 (nadd K).
  Definition vsub := vmap2 (nsub K).
  Definition vscale (p : point) (a : num) : point := map (fun i => nmul K (coord p i) a) (seq 0 dim).
  Definition vquot (p : point) (a : num) : point := map (fun i => ndiv K (coord p i) a) (seq 0 dim).
  Definition sumN (f : nat -> num) (n : nat) : num :=
    fold_left (fun acc i => nadd K acc (f i)) (seq 0 n) (nzero K).
  Definition dot (p q : point) : num := sumN (fun i => nmul K (coord p i) (coord q i)) dim.
  Definition vzero : point := map (fun _ => nzero K) (seq 0 dim).
  (** conversion of a small int to double *)
  Fixpoint nof (n : nat) : num := match n with 0 => nzero K | S n' => nadd K (nof n') one end.
  Definition neg (x : num) : num := nmul K (nneg1 K) x.

  (** *** ball.h *)
  (** the fields used by the constructor; the row-major arrays AInv, Q, La are
      functions of their indices *)
  Record inner := { iP : list point; iA : nat -> nat -> num; iQ : nat -> num; iC : point; iR : num }.
  Definition pn (P : list point) (i : nat) : point := nth i P [].
  Definition pd (P : list point) (i : nat) : point := vsub (pn P i) (pn P 0).

  (** ball.h:47-54; [P] has d points *)
  Definition recompute (P : list point) (La : nat -> num) : point * num :=
    let c := fold_left (fun c i => vadd c (vscale (pd P i) (La (i - 1)))) (seq 1 (length P - 1)) vzero in
    (vadd c (pn P 0), nsqrt K (dot c c)).

  (** ball.h:56-60 *)
  Definition twoPoint (P : list point) : inner :=
    {| iP := P; iA := fun _ _ => nzero K; iQ := fun _ => nzero K;
       iC := vquot (vadd (pn P 0) (pn P 1)) (ntwo K);
       iR := ndiv K (dist K dim (pn P 0) (pn P 1)) (ntwo K) |}.

  (** ball.h:37-45 *)
  Definition inverse2 (m : nat -> nat -> num) : nat -> nat -> num :=
    let det := nsub K (nmul K (m 0 0) (m 1 1)) (nmul K (m 0 1) (m 1 0)) in
    let coeff := ndiv K one det in
    fun i j => match i, j with
      | 0, 0 => nmul K (m 1 1) coeff
      | 0, _ => nmul K (neg (m 0 1)) coeff
      | _, 0 => nmul K (neg (m 1 0)) coeff
      | _, _ => nmul K (m 0 0) coeff
      end.

  (** ball.h:75-80, 186-190 *)
  Definition lambda (A : nat -> nat -> num) (Q : nat -> num) (n i : nat) : num :=
    sumN (fun j => nmul K (A i j) (Q j)) n.

  (** ball.h:62-84 *)
  Definition threePoint (P : list point) : inner :=
    let Q := fun i => dot (pd P (1 + i)) (pd P (1 + i)) in
    let A := fun i j => nmul K (ntwo K) (dot (pd P (1 + i)) (pd P (1 + j))) in
    let AInv := inverse2 A in
    let cr := recompute P (lambda AInv Q 2) in
    {| iP := P; iA := AInv; iQ := Q; iC := fst cr; iR := snd cr |}.

  (** ball.h:139-193; [m] is d-2 after the increment of d *)
  Definition grow (b : inner) (q : point) : res inner :=
    if dim + 1 <? length (iP b) + 1 then Throw
    else
    let P := iP b ++ [q] in
    if length P =? 3 then Ok (threePoint P)
    else
    let m := length P - 2 in
    let Qm := pd P (1 + m) in
    let tmp := fun j => nmul K (ntwo K) (dot (pd P (1 + j)) Qm) in
    let mu := fun i => sumN (fun j => nmul K (iA b i j) (tmp j)) m in
    let tmp2 := sumN (fun i => nmul K (tmp i) (mu i)) m in
    let z := nsub K (nmul K (ntwo K) (dot Qm Qm)) tmp2 in
    let A := fun i j =>
      if i <? m then
        if j <? m then nadd K (iA b i j) (ndiv K (nmul K (mu i) (mu j)) z)
        else ndiv K (neg (mu i)) z
      else if j <? m then ndiv K (neg (mu j)) z else ndiv K one z in
    let Q := fun i => if i =? m then dot Qm Qm else iQ b i in
    let cr := recompute P (lambda A Q (1 + m)) in
    Ok {| iP := P; iA := A; iQ := Q; iC := fst cr; iR := snd cr |}.

  Record ball := { bP : list point; bOff : point; bC : point; bR : num }.
  Definition size (B : ball) : nat := length (bP B).

  (** ball.h:110-137, with ROBUST_BALL *)
  Definition ballNew (PP : list point) : res ball :=
    let d := length PP in
    if dim + 1 <? d then UB
    else
    let off := vquot (fold_left vadd PP vzero) (nof d) in
    let P := map (fun p => vsub p off) PP in
    if d <=? 1 then Throw
    else
    b <- (if d =? 2 then Ok (twoPoint P)
          else foldR grow (skipn 3 P) (threePoint (firstn 3 P))) ;;
    Ok {| bP := map (fun p => vadd p off) (iP b); bOff := off; bC := iC b; bR := iR b |}.

  (** ball.h:87-90 *)
  Definition center (B : ball) : point := vadd (bC B) (bOff B).
  Definition contain (B : ball) (p : point) : bool :=
    nle K (dist K dim (vsub p (bOff B)) (bC B)) (nadd K (bR B) eps).
  (** point.h:88-91 and ball.h:103-105, which compares each field with itself *)
  Definition neq (a b : num) : bool := negb (nle K a b && nle K b a).
  Definition pointEq (p q : point) : bool := forallb (fun i => negb (neq (coord p i) (coord q i))) (seq 0 dim).
  Definition ballEq (B1 B2 : ball) : bool := pointEq (bC B1) (bC B1) && negb (neq (bR B1) (bR B1)).

  (** *** welzl.h *)
  Definition rd (A : list point) (i : nat) : res point :=
    match nth_error A i with Some p => Ok p | None => UB end.

  (** lines 76-95; a slice is the whole array together with a length *)
  Definition support2Ball (A : list point) (support : list point) : res ball :=
    match support with
    | [] => p <- rd A 0 ;; q <- rd A 1 ;; ballNew [p; q]
    | [s] => p <- rd A 0 ;; ballNew [s; p]
    | _ => ballNew support
    end.

  Definition swap (A : list point) (i j : nat) : list point := upd i (nth j A []) (upd j (nth i A []) A).

  (** lines 97-115; the result -1 is None *)
  Definition findPivot (A : list point) (n : nat) (B : ball) (s : nat) : res (option nat) :=
    let rSqr := nmul K (bR B) (bR B) in
    r <- foldR (fun acc ii =>
           p <- rd A ii ;;
           let t := nsub K (distSqr K dim p (center B)) rSqr in
           Ok (if nlt K (snd acc) t then (Some ii, t) else acc))
         (seq s (n - s)) (None, nzero K) ;;
    Ok (fst r).
  (** lines 117-132; max_element returns the end of an empty range, and otherwise
      an element that no other exceeds *)
  Variable maxElement : (nat -> num) -> nat -> nat -> nat.
  Definition findPivotPar (A : list point) (n : nat) (B : ball) (s : nat) : res (option nat) :=
    let best := maxElement (fun i => distSqr K dim (nth i A []) (center B)) s n in
    p <- rd A best ;;
    Ok (if nlt K (nmul K (bR B) (bR B)) (distSqr K dim p (center B)) then Some best else None).

  (** vanilla (lines 136-202), move to front (206-283), move to front with pivot
      (286-365) *)
  Variables mtf piv : bool.

  Definition state := (list point * ball)%type.
  Definition process (s : state) (i : nat) : res bool :=
    p <- rd (fst s) i ;; Ok (negb (contain (snd s) p)).

  (** conflict handling; [rec] is the recursive call and [pivot] the pivot search.
      The ball grown before the recursive call is overwritten there, only the
      exception of [grow] remains. *)
  Definition conflict (n : nat) (pivot : list point -> ball -> nat -> res (option nat))
             (rec : list point -> nat -> list point -> res state)
             (support : list point) (s : state) (i : nat) : res state :=
    let (A, B) := s in
    A1 <- (if piv then
             ii <- pivot A B (1 + i) ;;
             Ok (match ii with Some ii => swap A ii i | None => A end)
           else Ok A) ;;
    p <- rd A1 i ;;
    if (length support =? size B) && (dim + 1 <? size B + 1) then Throw
    else
    r <- rec A1 i (support ++ [p]) ;;
    let (A2, B2) := (r : state) in
    Ok (if mtf && (dim - length support <? i) then swap A2 (dim - length support) i else A2, B2).

  Fixpoint welzlSerial (k : nat) (A : list point) (n : nat) (support : list point) : res state :=
    match k with
    | 0 => Fuel
    | S k' =>
      B <- support2Ball A support ;;
      if size B =? dim + 1 then Ok (A, B)
      else serialPrefix process (conflict n (fun A B s => findPivot A n B s) (welzlSerial k') support) n (A, B)
    end.

  (** [pfuel]: fuel of the prefix loops *)
  Variables cutoff PREFIX THRESH : nat.
  Variable order : list nat -> list nat.
  Variable pfuel : nat.
  Fixpoint welzlParallel (k : nat) (A : list point) (n : nat) (support : list point) : res state :=
    match k with
    | 0 => Fuel
    | S k' =>
      if n <? cutoff then welzlSerial k A n support
      else
      B <- support2Ball A support ;;
      if size B =? dim + 1 then Ok (A, B)
      else parallelPrefix process (conflict n (fun A B s => findPivotPar A n B s) (welzlParallel k') support)
             pfuel n PREFIX THRESH order (A, B)
    end.

  (** src/enclosingBall/welzl/seb*.cpp lines 9-20; [P] is the shuffled input *)
  Definition welzlCompute (P : list point) : res ball :=
    r <- welzlParallel (dim + 2) P (length P) [] ;; Ok (snd r).
End Seb.

(** *** scan/seb.cpp and sampling/seb.cpp *)
Section Scan.
  Variable K : Num.
  Variable dim : nat.
  Variable eps : nT K.
  Notation num := (nT K).
  Notation point := (list (nT K)).

  (** scan/seb.cpp:38-49 *)
  Definition quadrant (p center : point) : nat :=
    fold_left (fun index i => if nlt K (coord center i) (coord p i) then index + 2 ^ i else index) (seq 0 dim) 0.

  (** per orthant: distance and index of the farthest point found *)
  Definition slot := (num * option nat)%type.
  (** lines 65-75 and 113-124: the loop over A[s..e) on one table *)
  Definition scanPoint (c : point) (r : num) (A : list point) (t : list slot) (i : nat) : res (list slot) :=
    p <- rd K A i ;;
    let d := dist K dim p c in
    if nlt K (nadd K r eps) d then
      let o := quadrant c p in
      match nth_error t o with
      | None => UB
      | Some (dm, _) => Ok (if nlt K (nadd K dm eps) d then upd o (d, Some i) t else t)
      end
    else Ok t.
  Definition scanRange (c : point) (r : num) (A : list point) (s e : nat) (dist : list num) : res (list slot) :=
    foldR (scanPoint c r A) (seq s (e - s)) (map (fun d => (d, None)) dist).

  (** lines 77-84, 141-147: the points pushed *)
  Fixpoint outs (A : list point) (l : list (option nat)) : res (list point) :=
    match l with
    | [] => Ok []
    | None :: l' => outs A l'
    | Some i :: l' => p <- rd K A i ;; r <- outs A l' ;; Ok (p :: r)
    end.
  (** lines 129-139: one block of the table, then the merge over blocks *)
  Fixpoint mergeSlots (g t : list slot) : list slot :=
    match g, t with
    | (dg, ig) :: g', (dt, it) :: t' =>
      (match it with
       | None => (dg, ig)
       | Some i => if nlt K dg dt then (dt, Some i) else (dg, ig)
       end) :: mergeSlots g' t'
    | _, _ => g
    end.

  (** lines 51-148 on the slice A[base..base+n); the pushed points.  The blocks
      run in parallel on disjoint parts of the tables. *)
  Definition ortScan (workers : nat) (c : point) (r : num) (A : list point) (n : nat) (dist : list num)
    : res (list point) :=
    if n <? 2000 then
      t <- scanRange c r A 0 n dist ;; outs A (map snd t)
    else
      let P := Nat.max 96 workers in
      let blockSize := (n + P - 1) / P in
      ts <- mapR (fun p => scanRange c r A (p * blockSize) (Nat.min ((p + 1) * blockSize) n) dist) (seq 0 P) ;;
      outs A (map snd (fold_left mergeSlots ts (map (fun d => (d, None)) dist))).

  Definition freshDist : list num := repeat (nneg1 K) (2 ^ dim).

  (** the base solver: welzlParallel on a whole sequence *)
  Variable solve : list point -> res (ball K).
  Variable workers : nat.

  (** lines 166-185 *)
  Fixpoint scanLoop (fuel : nat) (A : list point) (B : ball K) : res (ball K) :=
    match fuel with
    | 0 => Fuel
    | S fuel' =>
      new <- ortScan workers (center dim B) (bR B) A (length A) freshDist ;;
      match new with
      | [] => Ok B
      | _ => B' <- solve (bP B ++ new) ;; scanLoop fuel' A B'
      end
    end.

  (** reading a slice of the array; outside it is undefined *)
  Definition cut (A : list point) (a b : nat) : res (list point) :=
    if b <=? length A then Ok (firstn (b - a) (skipn a A)) else UB.

  (** scan/seb.cpp:150-187 *)
  Definition scanCompute (fuel : nat) (A : list point) : res (ball K) :=
    S <- cut A 0 (dim * 3) ;; B <- solve S ;; scanLoop fuel A B.

  (** sampling/seb.cpp:170-190 *)
  Fixpoint sampleLoop (fuel : nat) (A : list point) (step scanned : nat) (B : ball K) : res (ball K) :=
    match fuel with
    | 0 => Fuel
    | S fuel' =>
      if scanned <? length A then
        S <- cut A scanned (scanned + step) ;;
        new <- ortScan workers (center dim B) (bR B) S step freshDist ;;
        match new with
        | [] => Ok B
        | _ => B' <- solve (bP B ++ new) ;; sampleLoop fuel' A step (scanned + step) B'
        end
      else Ok B
    end.
  (** sampling/seb.cpp:150-212 *)
  Definition samplingCompute (fuel : nat) (A : list point) : res (ball K) :=
    S <- cut A 0 (dim * 3) ;; B <- solve S ;;
    B' <- sampleLoop fuel A (length A / 100) 0 B ;;
    scanLoop fuel A B'.
End Scan.
