(** The seed spreader: src/dataset/seedSpreader.cpp, include/dataset/seedSpreader.h.
    Definitions only. *)
From Coq Require Import NArith.
From Verif Require Import Base Num KdModel UniModel.

Section Spread.
  Variable N : Num.
  Variable ofN : BinNums.N -> nT N.
  (** rand(): the k-th value, and RAND_MAX *)
  Variable rand : nat -> BinNums.N.
  Variable randMax : BinNums.N.
  Variable dim : nat.
  Definition lit (n : BinNums.N) : nT N := ofN n.

  (** 11-15 randomDouble *)
  Definition randomDouble (k : nat) (lo hi : nT N) : nT N :=
    let f := ndiv N (ofN (rand k)) (ofN randMax) in nadd N lo (nmul N f (nsub N hi lo)).
  (** a loop over the coordinates that draws one number for each *)
  Definition draws (k : nat) (lo hi : nT N) : upt N := map (fun i => randomDouble (k + i) lo hi) (seq 0 dim).
  Definition coords (f : nat -> nT N) : upt N := map f (seq 0 dim).

  (** seedSpreader.h 15-46: the position, the counters, and the number of values drawn *)
  Record sp := { pos : upt N; counter : nat; generated : nat; drawn : nat }.
  Definition boxLo : nT N := nzero N.
  Definition boxHi : nT N := lit 100000.

  (** 49-53 restart *)
  Definition restart (s : sp) : sp :=
    {| pos := draws (drawn s) boxLo boxHi; counter := 0; generated := generated s; drawn := drawn s + dim |}.
  (** 19-47: the constructors *)
  Definition newSp : sp := restart {| pos := []; counter := 0; generated := 0; drawn := 0 |}.
  (** 55-66 shift *)
  Definition plen (p : upt N) : nT N :=
    nsqrt N (fold_left (fun a i => nadd N a (nmul N (coord p i) (coord p i))) (seq 0 dim) (nzero N)).
  Definition shift (rShift : nT N) (s : sp) : sp :=
    let dir := draws (drawn s) (nneg1 N) (one N) in
    let len := plen dir in
    {| pos := coords (fun i => nadd N (coord (pos s) i) (ndiv N (nmul N rShift (coord dir i)) len));
       counter := 0; generated := generated s; drawn := drawn s + dim |}.
  (** 82-85: a point near the position; the loop takes fuel *)
  Fixpoint nearLoop (fuel : nat) (rV : nT N) (x : upt N) (k : nat) : res (upt N * nat) :=
    match fuel with
    | 0 => Fuel
    | S f =>
      let off := draws k (nsub N (nzero N) rV) rV in
      let pt := coords (fun i => nadd N (coord x i) (coord off i)) in
      if nlt N rV (dist N dim x pt) then nearLoop f rV x (k + dim) else Ok (pt, k + dim)
    end.
  (** 76-89 _next *)
  Definition next_ (fuel cReset : nat) (rho rShift rV : nT N) (s : sp) : res (upt N * sp) :=
    let u := randomDouble (drawn s) (nzero N) (one N) in
    let s1 := {| pos := pos s; counter := counter s; generated := generated s; drawn := S (drawn s) |} in
    let s2 := if nle N u rho then restart s1 else s1 in
    let s3 := if cReset <=? counter s2 then shift rShift s2 else s2 in
    '(pt, k) <- nearLoop fuel rV (pos s3) (drawn s3) ;;
    Ok (pt, {| pos := pos s3; counter := S (counter s3); generated := S (generated s3); drawn := k |}).

  (** 91-104 simdenSpreader, 106-127 vardenSpreader: shift length and radius for the
      number of points generated so far *)
  Definition simdenR (g : nat) : nT N * nT N := (lit (50 * N.of_nat dim), lit 100).
  Definition vardenR (g : nat) : nT N * nT N :=
    let rV := lit (100 * N.of_nat (g mod 10 + 1)) in (ndiv N (nmul N rV (lit (N.of_nat dim))) (ntwo N), rV).

  (** 68-74, 131-181: clustered points while p < (1 - rhoNoise) * n, then noise *)
  Section Gen.
    Variable fuel : nat.
    Variable radii : nat -> nT N * nT N.
    Variable n : nat.
    Variable rhoNoise : nT N.
    Definition rhoRestart : nT N := ndiv N (lit 10) (nmul N (lit (N.of_nat n)) (nsub N (one N) rhoNoise)).
    Fixpoint noise (left k : nat) : list (upt N) :=
      match left with 0 => [] | S l => draws k boxLo boxHi :: noise l (k + dim) end.
    Fixpoint gen (left p : nat) (s : sp) : res (list (upt N)) :=
      if nlt N (lit (N.of_nat p)) (nmul N (nsub N (one N) rhoNoise) (lit (N.of_nat n))) then
        match left with
        | 0 => UB   (* data[n] *)
        | S l =>
          let '(rS, rV) := radii (generated s) in
          '(pt, s') <- next_ fuel 100 rhoRestart rS rV s ;;
          r <- gen l (S p) s' ;;
          Ok (pt :: r)
        end
      else Ok (noise left (drawn s)).
    Definition generator : res (list (upt N)) := gen n 0 newSp.
  End Gen.
  Definition simdenGenerator (fuel n : nat) (rhoNoise : nT N) : res (list (upt N)) := generator fuel simdenR n rhoNoise.
  Definition vardenGenerator (fuel n : nat) (rhoNoise : nT N) : res (list (upt N)) := generator fuel vardenR n rhoNoise.
End Spread.
