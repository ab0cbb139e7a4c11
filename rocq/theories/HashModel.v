(** The concurrent hash table of the gift wrapping hull:
    convexHull3d/gift/sparse_table.h.  Definitions only.
    Keys are compared by [keqb]; [hash k] is [key_hash(k)].  A cell is a pair of
    key and value; a cell that was never written does not exist (every table is
    cleared).  size_t does not overflow. *)
From Verif Require Import Base.
Set Implicit Arguments.

(** Where a thread is in the loop of [insert], 164-180: before the first load of
    the key at h, before the compare-and-swap, before the store of the value,
    before the second load; or the value returned. *)
Inductive pc : Type :=
| PLoad (h : nat) | PCas (h : nat) | PStore (h : nat) | PCheck (h : nat) | PDone (b : bool).

Section Hash.
  Variables K V : Type.
  Variable keqb : K -> K -> bool.
  Variable ek : K.               (* empty_key *)
  Variable ev : V.
  Variable hash : K -> nat.
  Variable mask : nat.
  Notation table := (list (K * V)).

  (** 56-58 *)
  Definition hashToRange (h : nat) : nat := Nat.land h mask.
  Definition firstIndex (k : K) : nat := hashToRange (hash k).
  Definition incrementIndex (h : nat) : nat := hashToRange (h + 1).

  (** 52-54 [clearA], 131-135: a table of m cells *)
  Definition cleared (m : nat) : table := repeat (ek, ev) m.

  (** One atomic step of [insert(kv)] *)
  Definition step (kv : K * V) (p : pc) (tab : table) : res (table * pc) :=
    match p with
    | PLoad h =>      (* 168 *)
      match nth_error tab h with
      | None => UB
      | Some c => Ok (tab, if keqb (fst c) ek then PCas h else PCheck h)
      end
    | PCas h =>       (* 169 *)
      match nth_error tab h with
      | None => UB
      | Some c => if keqb (fst c) ek then Ok (upd h (fst kv, snd c) tab, PStore h) else Ok (tab, PCheck h)
      end
    | PStore h =>     (* 170-171 *)
      match nth_error tab h with
      | None => UB
      | Some c => Ok (upd h (fst c, snd kv) tab, PDone true)
      end
    | PCheck h =>     (* 174-177 *)
      match nth_error tab h with
      | None => UB
      | Some c => Ok (tab, if keqb (fst c) (fst kv) then PDone false else PLoad (incrementIndex h))
      end
    | PDone _ => Ok (tab, p)
    end.

  (** Threads that insert concurrently; a schedule is a list of thread numbers. *)
  Definition start (kvs : list (K * V)) : list (K * V * pc) := map (fun kv => (kv, PLoad (firstIndex (fst kv)))) kvs.
  Fixpoint run (sched : list nat) (c : table * list (K * V * pc)) : res (table * list (K * V * pc)) :=
    match sched with
    | [] => Ok c
    | i :: sched' =>
      match nth_error (snd c) i with
      | None => run sched' c
      | Some (kv, p) =>
        '(tab, p') <- step kv p (fst c) ;; run sched' (tab, upd i (kv, p') (snd c))
      end
    end.

  (** 203-217 [insert_seq] *)
  Fixpoint insertSeq (fuel : nat) (kv : K * V) (h : nat) (tab : table) : res (bool * table) :=
    match fuel with
    | 0 => Fuel
    | S fuel' =>
      match nth_error tab h with
      | None => UB
      | Some c =>
        if keqb (fst c) ek then Ok (true, upd h kv tab)
        else if keqb (fst c) (fst kv) then Ok (false, tab)
        else insertSeq fuel' kv (incrementIndex h) tab
      end
    end.

  (** 258-269 [contains], 271-282 [find] (the default is [None]); 154-162 [idx] *)
  Fixpoint findCell (fuel : nat) (k : K) (h : nat) (tab : table) : res (option V) :=
    match fuel with
    | 0 => Fuel
    | S fuel' =>
      match nth_error tab h with
      | None => UB
      | Some c =>
        if keqb (fst c) k then Ok (Some (snd c))
        else if keqb (fst c) ek then Ok None
        else findCell fuel' k (incrementIndex h) tab
      end
    end.
  Definition find (fuel : nat) (k : K) (tab : table) : res (option V) := findCell fuel k (firstIndex k) tab.
  Definition contains (fuel : nat) (k : K) (tab : table) : res bool :=
    r <- find fuel k tab ;; Ok (match r with Some _ => true | None => false end).
  Fixpoint idxFrom (fuel : nat) (k : K) (h : nat) (tab : table) : res nat :=
    match fuel with
    | 0 => Fuel
    | S fuel' =>
      match nth_error tab h with
      | None => UB
      | Some c => if keqb (fst c) k then Ok h else idxFrom fuel' k (incrementIndex h) tab
      end
    end.

  (** 293-297 [entries] *)
  Definition entries (tab : table) : table := filter (fun c => negb (keqb (fst c) ek)) tab.
End Hash.

(** 124-130: the size for [cap] = (size_t)(space_mult * _m) *)
Definition tableSize (cap : nat) : nat := 2 ^ Nat.log2_up (cap + 1).
(** 89-112 [resize]: the new size, and the insertions into the cleared table *)
Definition resized (m incoming : nat) : nat := 2 ^ Nat.log2_up (2 * (m + incoming)).
Definition resize {K V} (keqb : K -> K -> bool) (ek : K) (ev : V) (hash : K -> nat) (m incoming : nat)
    (sched : list nat) (tab : list (K * V)) : res (list (K * V) * list (K * V * pc)) :=
  if incoming <=? m then Ok (tab, [])
  else let m' := resized m incoming in
       run keqb ek (m' - 1) sched (cleared ek ev m', start hash (m' - 1) (entries keqb ek tab)).
