(** Model of include/pargeo/parBuffer.h: per-worker append buffers and their
    collection. *)
From Verif Require Import Base Num KdModel SplitModel.
Set Implicit Arguments.

Section ParBuf.
  Variable T : Type.
  (** sizeof(T); incrementParent allocates [sizeof(T) * total * 2] bytes for an
      array of pointers (line 69), sizeof(T* ) = 8. *)
  Variable szT : nat.

  (** Lines 31-42.  [blks] are the blocks m_parent[0..m_parentUsed), each cell
      [None] until written; [pcap] is the number of pointer slots really
      allocated for m_parent; [psz] is the array m_parentSizes ([None] =
      uninitialised); [total] = m_parentTotal; [cur] = m_currentSize; [cnt] =
      m_count.  m_arr is the last block. *)
  Record pbuf := { blks : list (list (option T)); pcap : nat; psz : list (option nat);
                   total : nat; cur : nat; cnt : nat }.

  Definition used (b : pbuf) : nat := length (blks b).

  (** lines 44-57 *)
  Definition create (initSize : nat) : pbuf :=
    {| blks := [repeat None initSize]; pcap := 10; psz := Some initSize :: repeat None 10;
       total := 10; cur := initSize; cnt := 0 |}.

  (** assignment to an array element; outside the array is undefined *)
  Definition store {B} (i : nat) (x : B) (l : list B) : res (list B) :=
    if i <? length l then Ok (upd i x l) else UB.

  (** lines 88-90 *)
  Definition finalize (b : pbuf) : res pbuf :=
    s <- store (used b - 1) (Some (cnt b)) (psz b) ;;
    Ok {| blks := blks b; pcap := pcap b; psz := s; total := total b; cur := cur b; cnt := cnt b |}.

  (** lines 68-86: copies m_parentUsed pointers and sizes to larger arrays *)
  Definition incrementParent (b : pbuf) : res pbuf :=
    let cap' := szT * total b * 2 / 8 in
    if cap' <? used b then UB
    else if length (psz b) <? used b then UB
    else Ok {| blks := blks b; pcap := cap';
               psz := firstn (used b) (psz b) ++ repeat None (total b * 2 + 1 - used b);
               total := total b * 2; cur := cur b; cnt := cnt b |}.

  (** lines 92-113 *)
  Definition increment (b : pbuf) : res pbuf :=
    if cur b <? cnt b + 1 then
      b1 <- finalize b ;;
      b2 <- (if used b1 <? total b1 then Ok b1 else incrementParent b1) ;;
      if used b2 <? pcap b2 then
        Ok {| blks := blks b2 ++ [repeat None (cur b2 * 2)]; pcap := pcap b2; psz := psz b2;
              total := total b2; cur := cur b2 * 2; cnt := 1 |}
      else UB
    else Ok {| blks := blks b; pcap := pcap b; psz := psz b; total := total b;
               cur := cur b; cnt := cnt b + 1 |}.

  (** Usage in the library: [auto p = buf->increment(); *p = v;] — the returned
      address is cell m_count-1 of the last block. *)
  Definition push (b : pbuf) (v : T) : res pbuf :=
    b1 <- increment b ;;
    match nth_error (blks b1) (used b1 - 1) with
    | None => UB
    | Some blk =>
      blk' <- store (cnt b1 - 1) (Some v) blk ;;
      Ok {| blks := upd (used b1 - 1) blk' (blks b1); pcap := pcap b1; psz := psz b1;
            total := total b1; cur := cur b1; cnt := cnt b1 |}
    end.

  Fixpoint pushAll (b : pbuf) (vs : list T) : res pbuf :=
    match vs with
    | [] => Ok b
    | v :: vs' => b1 <- push b v ;; pushAll b1 vs'
    end.

  Fixpoint allSome {B} (l : list (option B)) : res (list B) :=
    match l with
    | [] => Ok []
    | None :: _ => UB
    | Some x :: l' => r <- allSome l' ;; Ok (x :: r)
    end.

  (** lines 59-67 *)
  Definition bsize (b : pbuf) : res nat :=
    l <- allSome (firstn (used b - 1) (psz b)) ;; Ok (list_sum l + cnt b).

  (** lines 146-155: the copy loops of one buffer; [off] is vecSizes[p].
      prefixSumSerial (lines 124-132) is [scan]; the total goes to the extra
      entry m_parentSizes[m_parentUsed]. *)
  Definition bufWrites (off : nat) (b : pbuf) : res (list (nat * T)) :=
    if length (psz b) <? used b + 1 then UB else
    sz <- allSome (firstn (used b) (psz b)) ;;
    let '(pre, tot) := scan 0 sz in
    let ps := pre ++ [tot] in
    cells <- allSome (map (fun i => 
        match allSome (firstn (nth (i + 1) ps 0 - nth i ps 0) (nth i (blks b) [])) with
        | Ok l => if length l =? (nth (i + 1) ps 0 - nth i ps 0)
                  then Some (combine (seq (off + nth i ps 0) (length l)) l) else None
        | _ => None
        end) (seq 0 (used b))) ;;
    Ok (concat cells).

  Fixpoint mapM {B C} (f : B -> res C) (l : list B) : res (list C) :=
    match l with
    | [] => Ok []
    | x :: l' => y <- f x ;; r <- mapM f l' ;; Ok (y :: r)
    end.

  (** lines 134-159 parBufCollect: the writes of the nested parallel loops ... *)
  Definition collectWrites (bufs : list pbuf) : res (nat * list (nat * T)) :=
    fb <- mapM finalize bufs ;;
    szs <- mapM bsize fb ;;
    let '(vec, tot) := scan 0 szs in
    ws <- mapM (fun p => bufWrites (fst p) (snd p)) (combine vec fb) ;;
    Ok (tot, concat ws).
  (** ... and the array after performing them in the order [ws]. *)
  Definition collect (tot : nat) (ws : list (nat * T)) : res (list (option T)) :=
    runWrites tot ws.
End ParBuf.
