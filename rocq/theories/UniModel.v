(** Uniform data sets: include/dataset/uniform.h.  Definitions only. *)
From Coq Require Import NArith.
From Verif Require Import Base Num KdModel.

Section Uni.
  Variable N : Num.
  (** the conversions from and to size_t, and parlay::hash64 *)
  Variable ofN : BinNums.N -> nT N.
  Variable toSize : nT N -> res nat.
  Variable hash : BinNums.N -> BinNums.N.
  Definition wrap64 (n : BinNums.N) : BinNums.N := (n mod 2 ^ 64)%N.
  Definition one : nT N := nsub N (nzero N) (nneg1 N).
  Definition upt := list (nT N).

  (** 17-18 *)
  Definition randFloat (i : BinNums.N) : nT N := ndiv N (ofN (hash i)) (ofN (2 ^ 64 - 1)%N).
  (** 22-27 *)
  Definition randRange (i : BinNums.N) (lo hi : nT N) : res (nT N) :=
    if nle N hi lo then Throw
    else Ok (nadd N (nmul N (randFloat (wrap64 (i + 1)%N)) (nsub N hi lo)) lo).
  (** 30-42: the seeds, then the coordinates *)
  Fixpoint seeds (k : nat) (j : BinNums.N) (prev i : BinNums.N) : list BinNums.N :=
    match k with
    | 0 => []
    | S k' => let s := wrap64 (j * i + hash prev)%N in s :: seeds k' (j + 1)%N s i
    end.
  Definition randNd (dim : nat) (i : BinNums.N) : upt :=
    map (fun s => nsub N (nmul N (ntwo N) (randFloat s)) one) (i :: seeds (dim - 1) 1%N i i).
  Definition origin (dim : nat) : upt := repeat (nzero N) dim.
  (** 44-55: the loop takes fuel *)
  Fixpoint sphereLoop (fuel dim : nat) (j i : BinNums.N) : res upt :=
    match fuel with
    | 0 => Fuel
    | S f =>
      let p := randNd dim (wrap64 (hash j + i)%N) in
      if nlt N one (dist N dim p (origin dim)) then sphereLoop f dim (wrap64 (j + 1)%N) i else Ok p
    end.
  Definition randInUnitSphere (fuel dim : nat) (i : BinNums.N) : res upt := sphereLoop fuel dim 0%N i.
  (** point.h operator* and operator/ *)
  Definition pmul (p : upt) (c : nT N) : upt := map (fun x => nmul N x c) p.
  Definition pdiv (p : upt) (c : nT N) : upt := map (fun x => ndiv N x c) p.
  (** 57-64 *)
  Definition randOnUnitSphere (fuel dim : nat) (i : BinNums.N) (scale : nT N) : res upt :=
    v <- randInUnitSphere fuel dim i ;;
    Ok (pmul (pdiv v (dist N dim v (origin dim))) scale).

  (** a parallel loop whose iteration i fills P[i] *)
  Fixpoint fillM {A B} (f : A -> res B) (l : list A) : res (list B) :=
    match l with
    | [] => Ok []
    | a :: l' => b <- f a ;; r <- fillM f l' ;; Ok (b :: r)
    end.
  Definition idx (i : nat) : BinNums.N := N.of_nat i.

  (** 68-85 *)
  Definition scaleOf (n : nat) (scale : nT N) : nT N := if nlt N scale (nzero N) then ofN (idx n) else scale.
  Definition uniformInPolyPoints (fuel dim n shape : nat) (scale : nT N) : res (list upt) :=
    let scale := scaleOf n scale in
    fillM (fun i =>
      if shape =? 0 then p <- randInUnitSphere fuel dim (idx i) ;; Ok (pmul p scale)
      else if shape =? 1 then Ok (pmul (randNd dim (idx i)) scale)
      else Throw) (seq 0 n).

  (** 100-120: near the unit sphere *)
  Definition npow (x : nT N) (k : nat) : nT N := fold_left (fun a _ => nmul N a x) (seq 0 k) one.
  Definition onSphere (fuel dim n : nat) (t scale : nT N) : res (list upt) :=
    let r1 := nadd N one t in
    let r2 := nsub N one t in
    let a1 := npow r1 (dim - 1) in
    let a2 := npow r2 (dim - 1) in
    n1 <- toSize (ndiv N (nmul N a1 (ofN (idx n))) (nadd N a1 a2)) ;;
    let t1 := nsub N one (ndiv N one r1) in
    let t2 := nsub N (ndiv N one r2) one in
    if n <? n1 then UB
    else
      fillM (fun i =>
        if i <? n1 then
          p <- randOnUnitSphere fuel dim (idx i) r1 ;;
          Ok (pmul (pmul p (nsub N one (nmul N t1 (randFloat (idx i))))) scale)
        else
          p <- randOnUnitSphere fuel dim (idx i) r2 ;;
          Ok (pmul (pmul p (nadd N (nmul N t2 (randFloat (idx i))) one)) scale)) (seq 0 n).

  (** 122-151: near the sides of a square or a cube.  A loop over k positions
      from m on sets one coordinate. *)
  Definition setC (p : upt) (c : nat) (v : nT N) : upt := firstn c p ++ v :: skipn (S c) p.
  Definition sideLoop (P : list upt) (m k c : nat) (lo hi : nT N) : res (list upt) :=
    fillM (fun ip : nat * upt =>
      if (m <=? fst ip) && (fst ip <? m + k) then v <- randRange (idx (fst ip)) lo hi ;; Ok (setC (snd ip) c v)
      else Ok (snd ip)) (combine (seq 0 (length P)) P).
  (** the sides in the order of the code: the last coordinate first, the upper
      side first; the last side gets the rest *)
  Definition sides (dim : nat) : list (nat * bool) := flat_map (fun c => [(c, true); (c, false)]) (rev (seq 0 dim)).
  Fixpoint runSides (n sideN m : nat) (t : nT N) (ss : list (nat * bool)) (P : list upt) : res (list upt) :=
    match ss with
    | [] => Ok P
    | (c, up) :: ss' =>
      let b := if up then one else nneg1 N in
      P' <- sideLoop P m (match ss' with [] => n - m | _ => sideN end) c (nsub N b t) (nadd N b t) ;;
      runSides n sideN (m + sideN) t ss' P'
    end.
  Definition onCube (dim n : nat) (t scale : nT N) : res (list upt) :=
    let P := map (fun i => randNd dim (idx i)) (seq 0 n) in
    if (dim =? 2) || (dim =? 3) then
      P' <- runSides n (n / (2 * dim)) 0 t (sides dim) P ;;
      Ok (map (fun p => pmul p scale) P')
    else Throw.

  (** 87-155 *)
  Definition uniformOnPolyPoints (fuel dim n shape : nat) (t scale : nT N) : res (list upt) :=
    let scale := scaleOf n scale in
    if shape =? 0 then onSphere fuel dim n t scale
    else if shape =? 1 then onCube dim n t scale
    else Throw.
End Uni.
