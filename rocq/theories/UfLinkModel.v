(** unionFind::tryLink, include/euclideanMst/unionFind.h 83-87, running together
    with find.  Every access to [parents] is one action, as in [UfModel].
    Definitions only. *)
From Verif Require Import Base Sched UfModel.
Set Implicit Arguments.

(** [TTry u v]: parents[u] == -1 at 85; [TCas u v]: the compare-and-swap at 86;
    [TRet u v b]: returned b. *)
Inductive tstate := TFind (f : fstate) | TTry (u v : nat) | TCas (u v : nat) | TRet (u v : nat) (b : bool).

Section UfLink.
  Variable n : nat.
  Definition tstep (t : tstate) (P : parents) : res (tstate * parents) :=
    match t with
    | TFind f => '(f', P') <- fstep n f P ;; Ok (TFind f', P')
    | TTry u v => x <- load n P u ;; Ok (match x with None => TCas u v | Some _ => TRet u v false end, P)
    | TCas u v => x <- load n P u ;;
      Ok (match x with None => (TRet u v true, fupd P u (Some v)) | Some _ => (TRet u v false, P) end)
    | TRet _ _ _ => Ok (t, P)
    end.
  Definition tdone (t : tstate) : bool := match t with TFind f => fdone f | TRet _ _ _ => true | _ => false end.
End UfLink.
(** the calls *)
Inductive op := OFind (i : nat) | OLink (u v : nat).
Definition start (o : op) : tstate := match o with OFind i => TFind (FRoot i) | OLink u v => TTry u v end.
