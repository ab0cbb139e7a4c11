(** The Bloom filter of include/batchKdtree/shared/bloom.h, with atomic
    buckets and no bit vector (lines 36-37).  Definitions only. *)
From Verif Require Import Base Sched.
Set Implicit Arguments.

Section Bloom.
  Variable A : Type.
  (** XXH64 of the bytes of the coordinates with seed [j] (line 59) *)
  Variable hash64 : A -> nat -> nat.
  (** [num_buckets], which is also [buckets_size] (104-110) *)
  Variable nb : nat.

  (** 40 *)
  Definition numArrays : nat := 4.
  (** 58-61; a remainder by zero is undefined *)
  Definition bhash (p : A) (j : nat) : res nat := if nb =? 0 then UB else Ok (hash64 p j mod nb).

  Definition buckets := list (list bool).
  (** 66-76: one atomic load *)
  Definition getB (a : buckets) (j idx : nat) : res bool :=
    match nth_error a j with
    | None => UB
    | Some row => match nth_error row idx with None => UB | Some v => Ok v end
    end.
  Definition setB (a : buckets) (j idx : nat) : buckets :=
    match nth_error a j with None => a | Some row => upd j (upd idx true row) a end.

  (** 135-151 [insert], one thread per point: array [j] is next; [bi_cas] is
      set between the load (79) and the compare-exchange (88). *)
  Record binsertion := mkBi { bi_pt : A; bi_j : nat; bi_cas : bool }.
  Definition bi_fin (l : binsertion) : bool := numArrays <=? bi_j l.
  Definition bi_next (l : binsertion) : binsertion := mkBi (bi_pt l) (S (bi_j l)) false.
  Definition bi_step (l : binsertion) (a : buckets) : res (binsertion * buckets) :=
    idx <- bhash (bi_pt l) (bi_j l) ;;
    v <- getB a (bi_j l) idx ;;
    if bi_cas l then Ok (bi_next l, if v then a else setB a (bi_j l) idx)
    else if v then Ok (bi_next l, a)
    else Ok (mkBi (bi_pt l) (bi_j l) true, a).

  Definition bloomInsert (sched : list nat) (points : list A) (a : buckets) : res buckets :=
    '(_, a') <- runT bi_step bi_fin sched (map (fun p => mkBi p 0 false) points) a ;; Ok a'.

  (** 126-133 [clear] *)
  Definition bloomClear (a : buckets) : buckets := repeat (repeat false nb) numArrays.
  (** 153-157 [build] *)
  Definition bloomBuild sched points a := bloomInsert sched points (bloomClear a).

  (** 159-165 *)
  Fixpoint mightFrom (a : buckets) (p : A) (js : list nat) : res bool :=
    match js with
    | [] => Ok true
    | j :: js' => idx <- bhash p j ;; v <- getB a j idx ;; if v then mightFrom a p js' else Ok false
    end.
  Definition mightContain a p := mightFrom a p (seq 0 numArrays).

  (** 167-170; [parlay::filter] keeps the order *)
  Fixpoint bloomFilter (a : buckets) (points : list A) : res (list A) :=
    match points with
    | [] => Ok []
    | p :: ps => v <- mightContain a p ;; r <- bloomFilter a ps ;; Ok (if v then p :: r else r)
    end.
End Bloom.
