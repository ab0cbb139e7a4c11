(** Model of src/closestPair/closestPair.cpp. *)
From Verif Require Import Base Num KdModel.
Set Implicit Arguments.

Section Cp.
  Variable K : Num.
  Variable dim : nat.
  Notation num := (nT K).
  Notation point := (list (nT K)).

  (** pointPair, lines 39-88 *)
  Record pp := { pu : point; pv : point; pd : num }.
  (** line 49; the default points are not read *)
  Definition ppEmpty : pp := {| pu := []; pv := []; pd := nmax K |}.
  (** lines 51, 53-54 *)
  Definition ppFar (u v : point) : pp := {| pu := u; pv := v; pd := nmax K |}.
  Definition ppNew (u v : point) : pp := {| pu := u; pv := v; pd := dist K dim u v |}.
  (** lines 58-64 *)
  Definition closer (a : pp) (u v : point) : pp :=
    if nlt K (dist K dim u v) (pd a) then ppNew u v else a.

  Definition rd (P : list point) (i : nat) : res point :=
    match nth_error P i with Some p => Ok p | None => UB end.
  Fixpoint foldR {X Y} (f : Y -> X -> res Y) (l : list X) (y : Y) : res Y :=
    match l with [] => Ok y | x :: l' => y' <- f y x ;; foldR f l' y' end.

  (** lines 107-116; the parallel_for runs its iterations in order here *)
  Definition bruteForceSerial (P : list point) : res pp :=
    p <- rd P 0 ;; q <- rd P 1 ;;
    foldR (fun a i =>
      foldR (fun a j => u <- rd P i ;; v <- rd P j ;; Ok (closer a u v)) (seq (i + 1) (length P - (i + 1))) a)
      (seq 0 (length P)) (ppFar p q).

  (** lines 123-135 *)
  Definition findSlab (xm delta : num) (k : nat) (p : point) : bool :=
    nle K (coord p k) (nadd K xm delta) && nle K (nsub K xm delta) (coord p k).
  (** lines 137-144 *)
  Definition numToCheck : nat := 2 ^ (dim * 2 - 1) - 1.
  (** x == 0 *)
  Definition isZero (x : num) : bool := nle K x (nzero K) && nle K (nzero K) x.

  (** seq_sort_inplace and sort_inplace by a coordinate *)
  Variables srt psrt : nat -> list point -> list point.

  (** lines 182-187, 247-252 on the sorted slab *)
  Definition slabSerial (Pp : list point) (a : pp) : res pp :=
    foldR (fun a i =>
      foldR (fun a j => if i + j + 1 <? length Pp then u <- rd Pp i ;; v <- rd Pp (i + j + 1) ;; Ok (closer a u v) else Ok a)
        (seq 0 numToCheck) a)
      (seq 0 (length Pp)) a.

  (** line 160: 100; line 205: 10000; line 230: 100 *)
  Variables cutSerial cutParallel cutSlab : nat.

  (** lines 156-193; the slice is sorted in place, so the array is returned too *)
  Fixpoint divideConquerSerial (fuel : nat) (P : list point) (k : nat) : res (pp * list point) :=
    match fuel with
    | 0 => Fuel
    | S fuel' =>
      if length P <? cutSerial then r <- bruteForceSerial P ;; Ok (r, P)
      else
        let P1 := srt k P in
        let xm := length P1 / 2 in
        c <- rd P1 xm ;;
        let xmm := coord c k in
        l <- divideConquerSerial fuel' (firstn xm P1) k ;;
        r <- divideConquerSerial fuel' (skipn xm P1) k ;;
        let P2 := snd l ++ snd r in
        let better := if nlt K (pd (fst l)) (pd (fst r)) then fst l else fst r in
        if isZero (pd better) then Ok (better, P2)
        else if dim <=? k then Throw
        else
          let Pp := filter (findSlab xmm (pd better) k) P2 in
          slabR <- (if 2 <=? k then s <- divideConquerSerial fuel' Pp (k - 1) ;; Ok (fst s)
                    else if k =? 1 then slabSerial (srt 0 Pp) ppEmpty
                    else Throw) ;;
          Ok (if nlt K (pd slabR) (pd better) then slabR else better, P2)
    end.

  (** lines 230-243: the table, read past the end of the slab for the last
      points; [minE] is min_element by dist *)
  Variable minE : list pp -> option pp.
  Fixpoint mapR {X Y} (f : X -> res Y) (l : list X) : res (list Y) :=
    match l with [] => Ok [] | x :: l' => y <- f x ;; r <- mapR f l' ;; Ok (y :: r) end.
  Definition slabParallel (Pp : list point) : res pp :=
    A <- mapR (fun i => mapR (fun j =>
           u <- rd Pp i ;; v <- rd Pp (i + j + 1) ;;
           Ok (if i + j + 1 <? length Pp then ppNew u v else ppFar u v)) (seq 0 numToCheck)) (seq 0 (length Pp)) ;;
    match minE (concat A) with Some a => Ok a | None => UB end.

  (** lines 201-261 *)
  Fixpoint divideConquerParallel (fuel : nat) (P : list point) (k : nat) : res (pp * list point) :=
    match fuel with
    | 0 => Fuel
    | S fuel' =>
      if length P <? cutParallel then divideConquerSerial fuel P k
      else
        let P1 := psrt k P in
        let xm := length P1 / 2 in
        c <- rd P1 xm ;;
        let xmm := coord c k in
        l <- divideConquerParallel fuel' (firstn xm P1) k ;;
        r <- divideConquerParallel fuel' (skipn xm P1) k ;;
        let P2 := snd l ++ snd r in
        let better := if nlt K (pd (fst l)) (pd (fst r)) then fst l else fst r in
        if isZero (pd better) then Ok (better, P2)
        else if dim <=? k then Throw
        else
          let Pp := filter (findSlab xmm (pd better) k) P2 in
          ab <- (p <- rd P2 0 ;; q <- rd P2 1 ;; Ok (p, q)) ;;
          slabR <- (if 2 <=? k then s <- divideConquerParallel fuel' Pp (k - 1) ;; Ok (fst s)
                    else if k =? 1 then
                      if cutSlab <? length Pp then slabParallel (psrt 0 Pp)
                      else slabSerial (srt 0 Pp) (ppFar (fst ab) (snd ab))
                    else Throw) ;;
          Ok (if nlt K (pd slabR) (pd better) then slabR else better, P2)
    end.

  (** lines 269-283; fuel for the two recursions *)
  Definition fuelFor (n : nat) : nat := S (dim * S n + n).
  Definition closestPair (serial : bool) (P : list point) : res (point * point) :=
    r <- (if serial then divideConquerSerial (fuelFor (length P)) P (dim - 1)
          else divideConquerParallel (fuelFor (length P)) P (dim - 1)) ;;
    Ok (pu (fst r), pv (fst r)).
End Cp.

(** *** the parallel_for of bruteForceSerial: closer is not atomic *)
Section Race.
  Variable K : Num.
  Variable dim : nat.
  Notation point := (list (nT K)).
  (** lines 58-64: compare with the shared dist, then write u, v and dist *)
  Inductive pc := Cmp | WrU | WrV | WrD.
  Record thr := { tpc : pc; todo : list (point * point) }.
  Definition raceFin (t : thr) : bool := match todo t with [] => true | _ => false end.
  Definition raceStep (t : thr) (a : pp K) : res (thr * pp K) :=
    match todo t with
    | [] => Ok (t, a)
    | (u, v) :: l =>
      let d := dist K dim u v in
      Ok match tpc t with
         | Cmp => if nlt K d (pd a) then ({| tpc := WrU; todo := todo t |}, a) else ({| tpc := Cmp; todo := l |}, a)
         | WrU => ({| tpc := WrV; todo := todo t |}, {| pu := u; pv := pv a; pd := pd a |})
         | WrV => ({| tpc := WrD; todo := todo t |}, {| pu := pu a; pv := v; pd := pd a |})
         | WrD => ({| tpc := Cmp; todo := l |}, {| pu := pu a; pv := pv a; pd := d |})
         end
    end.
  (** one thread per iteration *)
  Definition raceThreads (P : list point) : list thr :=
    map (fun i => {| tpc := Cmp; todo := map (fun q => (nth i P [], q)) (skipn (i + 1) P) |}) (seq 0 (length P)).
End Race.
