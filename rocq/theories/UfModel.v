(** Model of include/euclideanMst/unionFind.h, kruskal.h and speculativeFor.h:
    union-find with path compression, and Kruskal's algorithm by deterministic
    reservations.  Every access to shared memory is a separate action; threads
    interleave arbitrarily (sequential consistency).  Vertex and edge ids are
    naturals; [None] is -1 in [parents] and max_idx in a reservation. *)
From Verif Require Import Base Sched.
Set Implicit Arguments.

Definition fupd {V} (f : nat -> V) (i : nat) (v : V) : nat -> V := fun j => if j =? i then v else f j.

(** unionFind.h:44-45 and 89-90: -1 marks a root *)
Definition parents := nat -> option nat.

(** ** find, unionFind.h:52-66 and 99-113 (the same text)

    [FRoot i]: is_root(i) at 53; [FLoadP i]: line 54; [FTest i p]: is_root(p) at
    55 and 64; [FLoadG i p], [FStore i p g]: lines 60-63; [FRet r]: returned. *)
Inductive fstate :=
| FRoot (i : nat) | FLoadP (i : nat) | FTest (i p : nat) | FLoadG (i p : nat)
| FStore (i p g : nat) | FRet (r : nat).

Section Uf.
  (** number of vertices: the size of [parents] and of the reservations *)
  Variable n : nat.

  Definition load {V} (f : nat -> V) (i : nat) : res V := if i <? n then Ok (f i) else UB.

  (** -1 used as an index *)
  Definition vid (o : option nat) : res nat := match o with Some p => Ok p | None => UB end.

  Definition fstep (f : fstate) (P : parents) : res (fstate * parents) :=
    match f with
    | FRoot i => x <- load P i ;; Ok (match x with None => FRet i | Some _ => FLoadP i end, P)
    | FLoadP i => x <- load P i ;; p <- vid x ;; Ok (FTest i p, P)
    | FTest i p => x <- load P p ;; Ok (match x with None => FRet p | Some _ => FLoadG i p end, P)
    | FLoadG i p => x <- load P p ;; g <- vid x ;; Ok (FStore i p g, P)
    | FStore i p g => _ <- load P i ;; Ok (FTest p g, fupd P i (Some g))
    | FRet r => Ok (FRet r, P)
    end.
  Definition fdone (f : fstate) : bool := match f with FRet _ => true | _ => false end.

  (** find run alone *)
  Fixpoint findSeq (fuel : nat) (f : fstate) (P : parents) : res (nat * parents) :=
    match f with
    | FRet r => Ok (r, P)
    | _ => match fuel with
           | 0 => Fuel
           | S k => '(f', P') <- fstep f P ;; findSeq k f' P'
           end
    end.

  (** link, unionFind.h:83-84 *)
  Definition link (u v : nat) (P : parents) : res parents := _ <- load P u ;; Ok (fupd P u (Some v)).

  (** ** The shared state of the Kruskal loops: parents, reservations R, the
      flags inST (UnionFindStep, kruskal.h:45-83) and the edge stored at a
      linked vertex (EdgeUnionFindStep, kruskal.h:86-125, through
      edgeUnionFind::link, unionFind.h:119-122).  Each of the two steps writes
      one of the last two arrays; the model writes both. *)
  Record ush := { par : parents; rsv : nat -> option nat; inST : nat -> bool; tag : nat -> option nat }.
  Definition setPar (s : ush) (P : parents) : ush :=
    {| par := P; rsv := rsv s; inST := inST s; tag := tag s |}.
  Definition setRsv (s : ush) (x : nat) (o : option nat) : ush :=
    {| par := par s; rsv := fupd (rsv s) x o; inST := inST s; tag := tag s |}.

  (** ** reserve, kruskal.h:57-65 and 99-107

      [RU f v]: UF.find(E[i].u); [RV u f]: UF.find(E[i].v); then
      R[v].reserve(i) and R[u].reserve(i) (speculativeFor.h:44,
      parlay::write_min: a load, and a compare-and-swap retried while i is
      smaller); [second] tells the two apart.  E[i] is accessed by thread i
      only: its new content is in the final local state. *)
  Inductive rstate :=
  | RU (f : fstate) (v : nat)
  | RV (u : nat) (f : fstate)
  | RLoad (second : bool) (u v : nat)
  | RCas (second : bool) (u v : nat) (c : option nat)
  | RDone (u v : nat) (keep : bool).

  Definition below (i : nat) (c : option nat) : bool :=
    match c with None => true | Some j => i <? j end.
  Definition oeqb (a b : option nat) : bool :=
    match a, b with None, None => true | Some x, Some y => x =? y | _, _ => false end.

  Definition rnext (second : bool) (u v : nat) : rstate := if second then RDone u v true else RLoad true u v.

  Definition rstep (l : nat * rstate) (s : ush) : res ((nat * rstate) * ush) :=
    let '(i, st) := l in
    match st with
    | RU (FRet u) v => Ok ((i, RV u (FRoot v)), s)
    | RU f v => '(f', P') <- fstep f (par s) ;; Ok ((i, RU f' v), setPar s P')
    | RV u (FRet v) => Ok ((i, if u =? v then RDone u v false else RLoad false u v), s)
    | RV u f => '(f', P') <- fstep f (par s) ;; Ok ((i, RV u f'), setPar s P')
    | RLoad second u v =>
      c <- load (rsv s) (if second then u else v) ;;
      Ok ((i, if below i c then RCas second u v c else rnext second u v), s)
    | RCas second u v c =>
      let x := if second then u else v in
      c' <- load (rsv s) x ;;
      if oeqb c' c then Ok ((i, rnext second u v), setRsv s x (Some i))
      else Ok ((i, RLoad second u v), s)
    | RDone _ _ _ => Ok (l, s)
    end.
  Definition rdone (l : nat * rstate) : bool := match snd l with RDone _ _ _ => true | _ => false end.

  (** ** commit, kruskal.h:67-81 and 109-123

      [C0]: R[v].check(i); [C1], [C2]: the test and the store of
      R[u].checkReset(i) (speculativeFor.h:49-52); [C3]: R[u].check(i);
      [CL x y]: UF.link(x,y); [CS x]: inST / edges; [CDone]: returned.
      [CSkip]: keep[i] is false, commit is not called (speculativeFor.h:101). *)
  Inductive cstate :=
  | C0 | C1 | C2 | C3 | CL (x y : nat) | CS (x : nat) | CDone (b : bool) | CSkip.

  Definition clocal := (nat * nat * nat * cstate)%type.

  Definition cstep (l : clocal) (s : ush) : res (clocal * ush) :=
    let '(i, u, v, st) := l in
    let to st' := (i, u, v, st') in
    match st with
    | C0 => c <- load (rsv s) v ;; Ok (to (if oeqb c (Some i) then C1 else C3), s)
    | C1 => c <- load (rsv s) u ;; Ok (to (if oeqb c (Some i) then C2 else CL v u), s)
    | C2 => _ <- load (rsv s) u ;; Ok (to (CL v u), setRsv s u None)
    | C3 => c <- load (rsv s) u ;; Ok (to (if oeqb c (Some i) then CL u v else CDone false), s)
    | CL x y => P' <- link x y (par s) ;; Ok (to (CS x), setPar s P')
    | CS x => Ok (to (CDone true),
                  {| par := par s; rsv := rsv s; inST := fupd (inST s) i true; tag := fupd (tag s) x (Some i) |})
    | CDone _ | CSkip => Ok (l, s)
    end.
  Definition cdone (l : clocal) : bool :=
    match snd l with CDone _ | CSkip => true | _ => false end.

  (** ** One round, speculativeFor.h:81-106 *)
  Definition startR (E : nat -> nat * nat) (i : nat) : nat * rstate := (i, RU (FRoot (fst (E i))) (snd (E i))).
  Definition updE (E : nat -> nat * nat) (l : nat * rstate) : nat -> nat * nat :=
    match snd l with RDone u v _ => fupd E (fst l) (u, v) | _ => E end.
  Definition startC (l : nat * rstate) : clocal :=
    match snd l with
    | RDone u v keep => (fst l, u, v, if keep then C0 else CSkip)
    | _ => (fst l, 0, 0, CSkip)
    end.
  (** keep[i] after the commit phase *)
  Definition kept (l : clocal) : bool := match snd l with CDone b => negb b | _ => false end.

  Definition round (sr sc : list nat) (I : list nat) (E : nat -> nat * nat) (s : ush)
    : res (list nat * (nat -> nat * nat) * ush) :=
    '(ls1, s1) <- runT rstep rdone sr (map (startR E) I) s ;;
    '(ls2, s2) <- runT cstep cdone sc (map startC ls1) s1 ;;
    Ok (map (fun l => fst (fst (fst l))) (filter kept ls2), fold_left updE ls1 E, s2).

  (** ** speculative_for, speculativeFor.h:56-119

      [big k s]: float(k)/float(s) > .2 at 112; [small k s]: < .1 at 115; the
      theorems hold for all of them.  [tries] is maxTries + 1 - round: the loop
      throws at line 79 when it is used up.  [sched r] are the schedules of the
      two phases of round r. *)
  Variable big small : nat -> nat -> bool.
  Variable sched : nat -> list nat * list nat.

  Definition roundSize (maxSize cur k s : nat) : nat :=
    if big k s then Nat.max (cur / 2) (Nat.max (maxSize / 64 + 1) k)
    else if small k s then Nat.min (cur * 2) maxSize
    else cur.

  Fixpoint specLoop (tries : nat) (maxSize e : nat) (done : nat) (Ihold : list nat) (cur : nat)
           (E : nat -> nat * nat) (s : ush) : res ush :=
    if e <=? done then Ok s else
    match tries with
    | 0 => Throw
    | S t =>
      let size := Nat.min cur (e - done) in
      if maxSize <? size then UB else       (* I and keep have maxSize cells *)
      let I := map (fun j => if j <? length Ihold then nth j Ihold 0 else done + j) (seq 0 size) in
      '(Ih, E', s') <- round (fst (sched t)) (snd (sched t)) I E s ;;
      specLoop t maxSize e (done + (size - length Ih)) Ih (roundSize maxSize cur (length Ih) size) E' s'
    end.

  (** lines 58-62, called with s = 0 *)
  Definition speculative_for (granularity maxTries : nat) (e : nat) (E : nat -> nat * nat) (s : ush) : res ush :=
    let maxSize := Nat.max 4 (e / granularity + 1) in
    specLoop (S maxTries) maxSize e 0 [] (maxSize / 4) E s.

  (** kruskal.h:163-165 and 193-195 on the sorted edges: fresh reservations,
      granularity 20, maxTries 100 + 200 * 20. *)
  Definition kruskalLoop (es : list (nat * nat)) (P : parents) (tg : nat -> option nat) : res ush :=
    speculative_for 20 (100 + 200 * 20) (length es) (fun i => nth i es (0, 0))
      {| par := P; rsv := fun _ => None; inST := fun _ => false; tag := tg |}.
End Uf.
