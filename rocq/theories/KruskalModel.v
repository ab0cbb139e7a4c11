(** Model of kruskal and batchKruskal, include/euclideanMst/kruskal.h:140-196,
    and of union_roots, unionFind.h:74-79. *)
From Coq Require Import ZArith.
From Verif Require Import Base Num Sched UfModel.
Set Implicit Arguments.

Section Kruskal.
  Variable N : Num.
  (** kruskal.h:50-57 *)
  Record iedge := { eU : nat; eV : nat; eid : nat; ew : nT N }.
  (** weighted edges of the caller: u, v, weight *)
  Definition wedge := (nat * nat * nT N)%type.

  (** kruskal.h:151-152 and 186-187.  a == b on doubles is a <= b && b <= a. *)
  Definition edgeLess (a b : iedge) : bool :=
    nlt N (ew a) (ew b) || ((nle N (ew a) (ew b) && nle N (ew b) (ew a)) && (eid a <? eid b)).

  (** kruskal.h:155-156 and 190-191 *)
  Definition tagEdges (E : list wedge) : list iedge :=
    map (fun i => let '(u, v, w) := nth i E (0, 0, nzero N) in {| eU := u; eV := v; eid := i; ew := w |}) (seq 0 (length E)).

  (** parlay::sort *)
  Variable sort : list iedge -> list iedge.

  (** the argument of [speculative_for]: see UfModel.v *)
  Variable big small : nat -> nat -> bool.
  Variable sched : nat -> list nat * list nat.

  Definition ends (IW : list iedge) : list (nat * nat) := map (fun e => (eU e, eV e)) IW.
  Definition idAt (IW : list iedge) (p : nat) : nat := nth p (map eid IW) 0.

  (** kruskal.h:140-172; mstFlags[E[i].id] is set for the committed i *)
  Definition kruskal (n : nat) (E : list wedge) : res (list nat) :=
    let IW := sort (tagEdges E) in
    s <- kruskalLoop n big small sched (ends IW) (fun _ => None) (fun _ => None) ;;
    let flag id := existsb (fun p => inST s p && (idAt IW p =? id)) (seq 0 (length IW)) in
    Ok (filter flag (seq 0 (length E))).

  (** kruskal.h:175-196; the union-find is the parents and the edge stored at
      every linked vertex (unionFind.h:119-122).  The stored edge is (u,v) or
      (v,u), whichever side was linked; the model always stores (u,v). *)
  Definition eufT := (parents * (nat -> option wedge))%type.
  Definition batchKruskal (n : nat) (E : list wedge) (U : eufT) : res eufT :=
    let IW := sort (tagEdges E) in
    s <- kruskalLoop n big small sched (ends IW) (fst U) (fun _ => None) ;;
    Ok (par s, fun x => match tag s x with
                        | Some p => nth_error (map (fun e => (eU e, eV e, ew e)) IW) p
                        | None => snd U x
                        end).
End Kruskal.

(** ** union_roots, unionFind.h:74-79, with the encoding of [parents] it uses *)
Section UnionRoots.
  Local Open Scope Z_scope.
  Definition zat (P : list Z) (u : Z) : res Z :=
    if u <? 0 then UB else match nth_error P (Z.to_nat u) with Some x => Ok x | None => UB end.
  Definition zset (P : list Z) (u x : Z) : list Z := upd (Z.to_nat u) x P.
  Definition unionRoots (u v : Z) (P : list Z) : res (list Z) :=
    pv <- zat P v ;; pu <- zat P u ;;
    let '(u, v) := if pv <? pu then (v, u) else (u, v) in
    pv <- zat P v ;; pu <- zat P u ;;
    Ok (zset (zset P u (pu + pv)) v u).
  (** find, unionFind.h:52-66, on the same encoding *)
  Fixpoint zfindLoop (fuel : nat) (i p : Z) (P : list Z) : res (Z * list Z) :=
    match fuel with
    | O => Fuel
    | S k =>
      gp <- zat P p ;;
      let P' := zset P i gp in
      x <- zat P' gp ;;
      if x =? -1 then Ok (gp, P') else zfindLoop k p gp P'
    end.
  Definition zfind (fuel : nat) (i : Z) (P : list Z) : res (Z * list Z) :=
    x <- zat P i ;; if x =? -1 then Ok (i, P) else
    y <- zat P x ;; if y =? -1 then Ok (x, P) else zfindLoop fuel i x P.
End UnionRoots.
