(** Model of the node distances (include/kdTree/treeImpl.h:275-310,
    include/kdTree/kdTree.h:318-341) and of the bichromatic closest pair
    (include/kdTree/bccpImpl.h). *)
From Verif Require Import Base Num KdModel.

Section NodeDist.
  Variable N : Num.
  Variable dim : nat.

  (** treeImpl.h:282 disjointness on axis d *)
  Definition disjointAt (b1 b2 : box N) (d : nat) : bool :=
    nlt N (coord (bmax b2) d) (coord (bmin b1) d) || nlt N (coord (bmax b1) d) (coord (bmin b2) d).

  (** treeImpl.h:288-290 *)
  Definition axisGap (b1 b2 : box N) (d : nat) : nT N :=
    nmax2 N (nmax2 N (nsub N (coord (bmin b1) d) (coord (bmax b2) d))
                     (nsub N (coord (bmin b2) d) (coord (bmax b1) d))) (nzero N).

  (** treeImpl.h:275-297 nodeDistance *)
  Definition nodeDistance (b1 b2 : box N) : nT N :=
    match find (disjointAt b1 b2) (seq 0 dim) with
    | None => nzero N
    | Some d =>
      nsqrt N (fold_left (fun acc i => let g := axisGap b1 b2 i in nadd N acc (nmul N g g))
                         (seq d (dim - d)) (nzero N))
    end.

  (** treeImpl.h:299-310 nodeFarDistance *)
  Definition nodeFarDistance (b1 b2 : box N) : nT N :=
    nsqrt N (fold_left (fun acc i =>
      let g := nsub N (nmax2 N (coord (bmax b1) i) (coord (bmax b2) i))
                      (nmin2 N (coord (bmin b1) i) (coord (bmin b2) i)) in
      nadd N acc (nmul N g g)) (seq 0 dim) (nzero N)).

  (** kdTree.h:318-327 diag *)
  Definition diag (b : box N) : nT N :=
    nsqrt N (fold_left (fun acc i =>
      let g := nsub N (coord (bmax b) i) (coord (bmin b) i) in nadd N acc (nmul N g g))
      (seq 0 dim) (nzero N)).

  (** kdTree.h:329-341 lMax *)
  Definition lMax (b : box N) : nT N :=
    fold_left (fun m i =>
      let t := nsub N (coord (bmax b) i) (coord (bmin b) i) in if nlt N m t then t else m)
      (seq 0 dim) (nzero N).
End NodeDist.

Section Bccp.
  Variable N : Num.
  Variable dim : nat.
  Variable A : Type.
  Variable pt : A -> list (nT N).

  (** bccpImpl.h:35-54 bcp: the pair (null at first) and the distance *)
  Definition bcp : Type := option (A * A) * nT N.
  Definition bcp0 : bcp := (None, nmax N).
  Definition bcpUpdate (r : bcp) (u v : A) : bcp :=
    let d := dist N dim (pt u) (pt v) in
    if nlt N d (snd r) then (Some (u, v), d) else r.

  (** bccpImpl.h:59-66 and 80-87: the double loop *)
  Definition bcpLoop (l1 l2 : list A) (r : bcp) : bcp :=
    fold_left (fun r u => fold_left (fun r v => bcpUpdate r u v) l2 r) l1 r.

  (** bccpImpl.h:56-69 bcpBruteforce *)
  Definition bcpBruteforce (l1 l2 : list A) : bcp := bcpLoop l1 l2 bcp0.

  Definition nd (a b : tree N A) : nT N := nodeDistance N dim (tbox a) (tbox b).

  (** std::sort of the four child pairs, keyed by their distance
      (bccpImpl.h:121-129); pair [i] is (L,L),(L,R),(R,L),(R,R). *)
  Variable srt : list (nT N * nat) -> list (nT N * nat).

  (** bccpImpl.h:71-139 bcpHelper *)
  Fixpoint bcpHelper (n1 : tree N A) : tree N A -> bcp -> bcp :=
    fix inner (n2 : tree N A) (r : bcp) : bcp :=
      if nlt N (snd r) (nd n1 n2) then r
      else
        match n1, n2 with
        | Leaf l1 _, Leaf l2 _ => bcpLoop l1 l2 r
        | Leaf _ _, Node _ l2 r2 =>
          if nlt N (nd n1 l2) (nd n1 r2) then inner r2 (inner l2 r) else inner l2 (inner r2 r)
        | Node _ l1 r1, Leaf _ _ =>
          if nlt N (nd n2 l1) (nd n2 r1) then bcpHelper r1 n2 (bcpHelper l1 n2 r)
          else bcpHelper l1 n2 (bcpHelper r1 n2 r)
        | Node _ l1 r1, Node _ l2 r2 =>
          fold_left (fun r o =>
            match snd o with
            | 0 => bcpHelper l1 l2 r
            | 1 => bcpHelper l1 r2 r
            | 2 => bcpHelper r1 l2 r
            | _ => bcpHelper r1 r2 r
            end)
            (srt [(nd l1 l2, 0); (nd l1 r2, 1); (nd r1 l2, 2); (nd r1 r2, 3)]) r
        end.

  (** bccpImpl.h:143-161 bichromaticClosestPair *)
  Definition bichromaticClosestPair (n1 n2 : tree N A) : bcp := bcpHelper n1 n2 bcp0.
End Bccp.
