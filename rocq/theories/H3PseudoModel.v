(** Model of the pseudo hull: src/convexHull3d/pseudoHull/hull.cpp. *)
From Verif Require Import Base Num Hull2dModel Sched H3Model H3ParModel.
Set Implicit Arguments.

Section Pseudo.
  Variable K : Num.
  Notation num := (nT K).
  Notation pt := (v3 (nT K)).
  Notation tri := (tri K).
  Variable eps : num.
  Variable minmax : (pt -> pt -> bool) -> list pt -> nat * nat.
  Variable maxel : (pt -> pt -> bool) -> list pt -> nat.

  (** hull.cpp:27-30.  The constructor (54-59) is [mkTri], [signedVolume] [vol]. *)
  Definition pvisible (t : tri) (p : pt) : bool :=
    let '(a, b, c) := t in nlt K eps (vol t p) || eq3 K p a || eq3 K p b || eq3 K p c.
  (** point.h:31 *)
  Definition emptyPt : pt := V3 (nmax K) (nmax K) (nmax K).
  (** hull.cpp:32-40 *)
  Definition pfurthest (t : tri) (Q : list pt) : pt :=
    snd (fold_left (fun m p => if nlt K (fst m) (vol t p) then (vol t p, p) else m) Q (eps, emptyPt)).
  (** hull.cpp:42-52 *)
  Definition pfurthestPar (t : tri) (Q : list pt) : res pt :=
    if length Q <? 1000 then Ok (pfurthest t Q)
    else match nth_error Q (maxel (fun a b => nlt K (vol t a) (vol t b)) Q) with Some p => Ok p | None => UB end.
  (** the first facet that sees the point, and [split_k] *)
  Fixpoint pclass (ts : list tri) (p : pt) : nat :=
    match ts with [] => 0 | t :: ts' => if pvisible t p then 0 else S (pclass ts' p) end.
  Definition chunk (ts : list tri) (Q : list pt) (i : nat) : list pt := filter (fun p => pclass ts p =? i) Q.

  (** hull.cpp:66-112 *)
  Fixpoint phelper (fuel : nat) (t : tri) (Q : list pt) : res (list pt) :=
    if length Q <? 4 then Ok Q
    else match fuel with
    | 0 => Fuel
    | S fuel' =>
      let '(a, b, c) := t in
      d <- pfurthestPar t Q ;;
      let o := interior K a b c d in
      let a' := sub3 K a o in let b' := sub3 K b o in let c' := sub3 K c o in let d' := sub3 K d o in
      let ts := [mkTri K eps a' b' d'; mkTri K eps b' c' d'; mkTri K eps c' a' d'] in
      let Q' := map (fun p => sub3 K p o) Q in
      l <- mapR (fun x => phelper fuel' (snd x) (chunk ts Q' (fst x))) (combine (seq 0 3) ts) ;;
      Ok (map (fun p => add3 K p o) (concat l))
    end.

  (** hull.cpp:114-200 *)
  Definition at3 (P : list pt) (i : nat) : res pt := match nth_error P i with Some p => Ok p | None => UB end.
  Definition pseudoHull (fuel : nat) (P : list pt) : res (list pt) :=
    '(c1, c2, c3, c4) <- initSimplex K minmax maxel P ;;
    p1 <- at3 P c1 ;; p2 <- at3 P c2 ;; p3 <- at3 P c3 ;; p4 <- at3 P c4 ;;
    let o := interior K p1 p2 p3 p4 in
    let Q := map (fun p => sub3 K p o) P in
    q1 <- at3 Q c1 ;; q2 <- at3 Q c2 ;; q3 <- at3 Q c3 ;; q4 <- at3 Q c4 ;;
    let ts := [mkTri K eps q1 q2 q3; mkTri K eps q1 q2 q4; mkTri K eps q3 q4 q2; mkTri K eps q3 q4 q1] in
    l <- mapR (fun x => phelper fuel (snd x) (chunk ts Q (fst x))) (combine (seq 0 4) ts) ;;
    Ok (map (fun p => add3 K p o) (concat l)).

  Variable choose : nat -> fct K -> nat.
  Variable addr : nat -> nat.
  Variable qord : list (pt * nat) -> list (pt * nat).
  Variable shuf : nat -> forall X, list X -> list X.
  (** hull.cpp:202-226 *)
  Definition pseudo (fuel workers : nat) (P : list pt) : res (list tri) :=
    Q <- pseudoHull fuel P ;; computePar eps choose addr qord shuf minmax maxel workers Q.
End Pseudo.
