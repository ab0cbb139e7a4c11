(** Graph files: include/pargeo/graphIO.h.  Definitions only.  Vertices are
    unsigned long; a weight is the text [sprintf] produces for it. *)
From Coq Require Import Ascii String NArith.
From Verif Require Import Base Sched IoModel.
Set Implicit Arguments.
Open Scope list_scope.
Open Scope nat_scope.

(** graphIO.h 20: [%lu] *)
Fixpoint luF (fuel : nat) (n : N) : text :=
  match fuel with
  | 0 => []
  | S f => if (n <? 10)%N then [digit (N.to_nat n)] else luF f (n / 10)%N ++ [digit (N.to_nat (n mod 10)%N)]
  end.
Definition luText (n : N) : text := luF 20 n.

(** graphIO.h 19, 22: the widths *)
Definition luW : nat := 21.
Definition leW : nat := 18.

(** A field: its text, its width, and the separator written after it *)
Definition cell : Type := (text * nat * ascii)%type.
Definition cellLen (c : cell) : nat := snd (fst c) + 1.
Definition cellsLen (cs : list cell) : nat := list_sum (map cellLen cs).
Definition cellW (p : nat) (c : cell) : list wr := let '(s, w, sep) := c in sprintfW p s ++ [(p + w, sep)].
Fixpoint cellsW (p : nat) (cs : list cell) : list wr :=
  match cs with [] => [] | c :: cs' => cellW p c ++ cellsW (p + cellLen c) cs' end.

(** graphIO.h 41-77 and 130-152: the iterations of the parallel loop are threads that write
    byte by byte; the last one is executed after the loop, with a further end of
    line.  L is the scan of the widths. *)
Definition toff (T : list (list cell)) (i : nat) : nat := list_sum (map cellsLen (firstn i T)).
Definition threadW (T : list (list cell)) (i : nat) : list wr := cellsW (toff T i) (nth i T []).
Definition threadsToString (sched : list nat) (T : list (list cell)) : res text :=
  let n := length T in
  if n =? 0 then UB
  else
    let m := toff T n in
    '(_, b1) <- runT w_step w_fin sched (map (threadW T) (seq 0 (n - 1))) (repeat NUL (m + 1)) ;;
    b2 <- puts (threadW T (n - 1) ++ [(m, NL)]) b1 ;;
    let c := filter (fun c => negb (ceq c NUL)) b2 in
    if length c =? 0 then UB else Ok (removelast c ++ [NUL]).

(** 31-40, 59-66: one thread for each weighted edge *)
Definition wghEdge : Type := (N * N * text)%type.
Definition wghThreads (e : wghEdge) : list (list cell) :=
  let '(u, v, w) := e in [[(luText u, luW, SP); (luText v, luW, SP); (w, leW, NL)]].
Definition wghEdgeSeqToString (sched : list nat) (es : list wghEdge) : res text :=
  threadsToString sched (flat_map wghThreads es).
(** 122-128, 140-146: one thread for each number *)
Definition edgeThreads (e : N * N) : list (list cell) :=
  let '(u, v) := e in [[(luText u, luW, SP)]; [(luText v, luW, NL)]].
Definition edgeSeqToString (sched : list nat) (es : list (N * N)) : res text :=
  threadsToString sched (flat_map edgeThreads es).

(** 80-92, 155-167: parts of [bsize] edges; 94-116, 169-191: the first edge is read
    before the file is opened, no header is written. *)
Section Write.
  Variable E : Type.
  Variable toStr : list nat -> list E -> res text.
  Fixpoint writePartsG (fuel bsize offset : nat) (scheds : nat -> list nat) (A : list E) : res text :=
    match fuel with
    | 0 => Fuel
    | S f =>
      if offset <? length A then
        s <- toStr (scheds offset) (firstn (Nat.min (offset + bsize) (length A) - offset) (skipn offset A)) ;;
        r <- writePartsG f bsize (offset + bsize) scheds A ;;
        Ok (removelast s ++ r)
      else Ok []
    end.
  Definition writeFileG (bsize : nat) (scheds : nat -> list nat) (A : list E) : res text :=
    if length A =? 0 then UB else writePartsG (S (length A)) bsize 0 scheds A.
End Write.
Definition writeWghEdgeSeqToFile := writeFileG wghEdgeSeqToString.
Definition writeEdgeSeqToFile := writeFileG edgeSeqToString.
