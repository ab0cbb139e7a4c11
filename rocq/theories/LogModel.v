(** The logarithmic forest of batch kd-trees, log-tree/logtree.h.  Definitions only. *)
From Coq Require Import ZArith.
From Verif Require Import Base Num KdModel RangeModel BatchModel BatchTree.
Set Implicit Arguments.

(** logtree.h 195: one tree to be rebuilt: whether it takes the buffer, its
    range of the inserted points, the trees it gathers, and its slot. *)
Record move := mkMove { mv_buf : bool; mv_s : nat; mv_e : nat; mv_trees : list nat; mv_new : nat }.

Section Plan.
  (** [B]: BUFFER_SIZE; [old], [new_]: the masks; bit [k] says slot [k] is in use. *)
  Variables B old new_ : nat.
  Variable useb : bool.
  Variable bsz : nat.    (* buffer_tree.size() *)

  (** 210-230: the slots below [j] to gather, and where the scan stops. *)
  Fixpoint gatherDown (j : nat) : list nat * nat :=
    match j with
    | 0 => ([], 0)
    | S j' =>
      if Nat.testbit new_ j' then
        if Nat.testbit old j' then gatherDown j' else ([], j)
      else if Nat.testbit old j' then let '(l, r) := gatherDown j' in (j' :: l, r)
      else gatherDown j'
    end.

  (** 201-262; the index [i] of the code is [i - 1] here, [fb] is [full_buffers],
      [pend] is [cur_points_end].  Subtractions of sizes must not wrap around. *)
  Fixpoint planLoop (fuel i : nat) (fb : Z) (pend : nat) (acc : list move) : res (Z * nat * list move) :=
    match fuel with
    | 0 => Fuel
    | S f =>
      match i with
      | 0 => Ok (fb, pend, acc)
      | S i' =>
        if Nat.testbit new_ i' && negb (Nat.testbit old i') then
          let '(g, j) := gatherDown i' in
          let gathered := list_sum (map (fun t => 2 ^ t * B) g) in
          if 2 ^ i' * B <? gathered then UB
          else
            let num := 2 ^ i' * B - gathered in
            let fb' := (fb - Z.of_nat (num / B))%Z in
            let ub := useb && (fb' =? 0)%Z in
            if ub && (num <? bsz) then UB
            else
              let num' := if ub then num - bsz else num in
              if pend <? num' then UB
              else planLoop f j fb' (pend - num') (acc ++ [mkMove ub (pend - num') pend g i'])
        else planLoop f i' fb pend acc
      end
    end.
End Plan.

Section Log.
  Variable N : Num.
  Variable dim : nat.
  Variable A : Type.
  Variable pt : A -> list (nT N).
  Variable dflt : A.
  (** build of the buffer tree (75) and of the static trees (80) *)
  Variables bbuild sbuild : btree N A -> list A -> res (btree N A).

  (** 91-97; [NUM_TREES] is the number of static trees. *)
  Record ltree := mkLt { lt_mask : nat; lt_buf : btree N A; lt_trees : list (btree N A) }.

  (** 119-143; [lg] is BUFFER_LOG2_SIZE.  The item arrays of the static trees
      are empty until they are built. *)
  Definition ltNew (num lg : nat) : ltree :=
    mkLt 0 (bnew N lg (repeat dflt (2 ^ lg))) (map (fun i => bnew N (i + lg) []) (seq 0 num)).

  (** 283-325, 490-502: move the elements of the given trees out, in order. *)
  Fixpoint gatherTrees (ks : list nat) (trees : list (btree N A)) : res (list A * list (btree N A)) :=
    match ks with
    | [] => Ok ([], trees)
    | k :: ks' =>
      match nth_error trees k with
      | None => UB
      | Some b =>
        '(els, b') <- moveElements dflt b ;;
        '(rest, trees') <- gatherTrees ks' (upd k b' trees) ;;
        Ok (els ++ rest, trees')
      end
    end.

  (** 272-363: one task: fill the buffer, or rebuild one tree. *)
  Definition runTask (points : list A) (rem : nat) (bufPts : list A)
      (x : btree N A * list (btree N A)) (t : option move) : res (btree N A * list (btree N A)) :=
    match t with
    | None => b' <- binsert dflt bbuild (fst x) (firstn rem points) ;; Ok (b', snd x)
    | Some m =>
      '(els, trees) <- gatherTrees (mv_trees m) (snd x) ;;
      let cur := els ++ slice (mv_s m) (mv_e m) points ++ (if mv_buf m then bufPts else []) in
      match nth_error trees (mv_new m) with
      | None => UB
      | Some b => b' <- sbuild b cur ;; Ok (fst x, upd (mv_new m) b' trees)
      end
    end.
  Fixpoint runTasks points rem bufPts x (ts : list (option move)) : res (btree N A * list (btree N A)) :=
    match ts with
    | [] => Ok x
    | t :: ts' => x' <- runTask points rem bufPts x t ;; runTasks points rem bufPts x' ts'
    end.

  (** 170-418 [insert].  [ord] is the order in which the tasks run (365-382). *)
  Variable B : nat.
  Definition insertPlan (t : ltree) (n : nat) : res (Z * nat * list move) * nat * nat :=
    let bsz := bt_cur (lt_buf t) in
    let useb := B <? n mod B + bsz in
    let fb := n / B + (if useb then 1 else 0) in
    let rem := if useb then n mod B + bsz - B else n mod B in
    (planLoop B (lt_mask t) (lt_mask t + fb) useb bsz (S (length (lt_trees t))) (length (lt_trees t))
       (Z.of_nat fb) n [], rem, lt_mask t + fb).

  Definition ltInsert (ord : list (option move) -> list (option move)) (t : ltree) (points : list A) : res ltree :=
    let '(pl, rem, mask') := insertPlan t (length points) in
    '(fbz, _, moves) <- pl ;;
    if negb (fbz =? 0)%Z then Throw
    else
      '(bufPts, buf) <- (if existsb mv_buf moves then moveElements dflt (lt_buf t) else Ok ([], lt_buf t)) ;;
      '(buf', trees') <- runTasks points rem bufPts (buf, lt_trees t) (ord (None :: map Some moves)) ;;
      Ok (mkLt mask' buf' trees').

  (** 420-515 [erase<true>] ([bulk_erase]) *)
  Variable part : (A -> bool) -> list A -> list A * list A.
  Variable lfirst : nat -> nat -> bool.

  Fixpoint eraseTrees (mask k : nat) (Q : list A) (trees : list (btree N A)) : res (list (btree N A)) :=
    match trees with
    | [] => Ok []
    | b :: rest =>
      b' <- (if Nat.testbit mask k then bbulkErase dim pt part lfirst b Q else Ok b) ;;
      rest' <- eraseTrees mask (S k) Q rest ;;
      Ok (b' :: rest')
    end.

  Definition depleted (trees : list (btree N A)) : list nat :=
    filter (fun k => match nth_error trees k with Some b => bt_cur b <=? 2 ^ k * B / 2 | None => false end)
           (seq 0 (length trees)).

  Definition ltErase ord (t : ltree) (Q : list A) : res ltree :=
    buf1 <- (if bt_cur (lt_buf t) =? 0 then Ok (lt_buf t) else bbulkErase dim pt part lfirst (lt_buf t) Q) ;;
    trees1 <- eraseTrees (lt_mask t) 0 Q (lt_trees t) ;;
    let ks := depleted trees1 in
    '(pts, trees2) <- gatherTrees ks trees1 ;;
    ltInsert ord (mkLt (fold_left Nat.clearbit ks (lt_mask t)) buf1 trees2) pts.

  (** 690-712 [contains], 714-757 [orthogonalQuery] (serial code) *)
  Fixpoint anyContains (q : A) (bs : list (btree N A)) : res bool :=
    match bs with
    | [] => Ok false
    | b :: bs' => r <- bcontains dim pt b q ;; if r then Ok true else anyContains q bs'
    end.
  Definition ltContains (t : ltree) (q : A) : res bool := anyContains q (lt_buf t :: lt_trees t).

  Fixpoint allOrth (qb : box N) (bs : list (btree N A)) : res (list A) :=
    match bs with
    | [] => Ok []
    | b :: bs' => r <- borth dim pt b qb ;; r' <- allOrth qb bs' ;; Ok (r ++ r')
    end.
  Definition ltOrth (t : ltree) (qb : box N) : res (list A) := allOrth qb (lt_buf t :: lt_trees t).

  (** 1218-1224 [size] *)
  Definition ltSize (t : ltree) : nat :=
    bt_cur (lt_buf t) +
    list_sum (map (fun kb => if Nat.testbit (lt_mask t) (fst kb) then bt_cur (snd kb) else 0)
                  (combine (seq 0 (length (lt_trees t))) (lt_trees t))).
End Log.
