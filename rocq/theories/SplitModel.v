(** Model of the block-parallel flag splits:
    kdTreeInternal::split_two (include/kdTree/treeImpl.h:35-77) and
    parlay::split_k (include/pargeo/parlayAddon.h:52-100). *)
From Verif Require Import Base Num KdModel.
Set Implicit Arguments.

(** parlay::internal::num_blocks(n, block_size) *)
Definition num_blocks (n bs : nat) : nat := if n =? 0 then 0 else 1 + (n - 1) / bs.

(** The block ranges of parlay::sliced_for: block i is [i*bs, min((i+1)*bs, n)). *)
Definition blocks {B} (bs : nat) (l : list B) : list (list B) :=
  map (fun i => slice (i * bs) (Nat.min ((i + 1) * bs) (length l)) l)
      (seq 0 (num_blocks (length l) bs)).

(** parlay::scan_inplace with addm: exclusive prefix sums and the total. *)
Fixpoint scan (a : nat) (l : list nat) : list nat * nat :=
  match l with
  | [] => ([], a)
  | x :: l' => let '(p, t) := scan (a + x) l' in (a :: p, t)
  end.

(** Memory cells: [None] is an uninitialised cell.  Writing outside the array
    is undefined behaviour. *)
Definition write1 {T} (mem : res (list (option T))) (w : nat * T) : res (list (option T)) :=
  m <- mem ;;
  if fst w <? length m then Ok (upd (fst w) (Some (snd w)) m) else UB.
Definition runWrites {T} (n : nat) (ws : list (nat * T)) : res (list (option T)) :=
  fold_left write1 ws (Ok (repeat None n)).

Section SplitTwo.
  Variable T : Type.

  (** lines 51-56: number of elements of a block whose flag is false *)
  Definition countFalse (b : list (T * bool)) : nat :=
    length (filter (fun x => negb (snd x)) b).

  (** lines 63-73: the writes of one block, c0 and c1 running *)
  Fixpoint blockWrites (b : list (T * bool)) (c0 c1 : nat) : list (nat * T) :=
    match b with
    | [] => []
    | (x, fl) :: b' =>
      if fl then (c1, x) :: blockWrites b' c0 (S c1)
      else (c0, x) :: blockWrites b' (S c0) c1
    end.

  (** All writes of the second parallel loop, block after block; an execution
      performs them in some order. *)
  Definition splitWrites (bs : nat) (X : list (T * bool)) : list (nat * T) :=
    let B := blocks bs X in
    let '(Sums, m) := scan 0 (map countFalse B) in
    concat (map (fun i => let c0 := nth i Sums 0 in
                          let c1 := i * bs + (m - c0) in
                          blockWrites (nth i B []) c0 c1) (seq 0 (length B))).

  (** Result of an execution that performs the writes in the order [ws]. *)
  Definition split_two (bs : nat) (X : list (T * bool)) (ws : list (nat * T))
    : res (list (option T)) * nat :=
    (runWrites (length X) ws, snd (scan 0 (map countFalse (blocks bs X)))).
End SplitTwo.

Section SplitK.
  Variable T : Type.

  Definition countClass (x : nat) (b : list (T * nat)) : nat :=
    length (filter (fun e => snd e =? x) b).

  (** lines 83-95: one block; the inner loop over x with break finds the class
      Fl[j] if it is below k *)
  Fixpoint blockWritesK (k : nat) (b : list (T * nat)) (c : nat -> nat) : list (nat * (nat * T)) :=
    match b with
    | [] => []
    | (e, x) :: b' =>
      if x <? k then (x, (c x, e)) :: blockWritesK k b' (fun y => if y =? x then S (c y) else c y)
      else blockWritesK k b' c
    end.

  Definition splitWritesK (k bs : nat) (X : list (T * nat)) : list (nat * (nat * T)) :=
    let B := blocks bs X in
    let Sums x := fst (scan 0 (map (countClass x) B)) in
    concat (map (fun i => blockWritesK k (nth i B []) (fun x => nth i (Sums x) 0))
                (seq 0 (length B))).

  (** chunk[x] has m[x] cells; writes to different chunks are independent, so
      the final content of chunk x only depends on its own writes, in the order
      of the execution [ws]. *)
  Definition split_k_chunk (bs : nat) (X : list (T * nat)) (ws : list (nat * (nat * T))) (x : nat)
    : res (list (option T)) :=
    runWrites (snd (scan 0 (map (countClass x) (blocks bs X))))
              (map snd (filter (fun w => fst w =? x) ws)).
  Definition split_k (k bs : nat) (X : list (T * nat)) (ws : list (nat * (nat * T)))
    : list (res (list (option T))) := map (split_k_chunk bs X ws) (seq 0 k).
End SplitK.
