(** Model of the Euclidean minimum spanning tree, src/euclideanMst/memoGfk:
    wspdFilter.h, mark.h and emst.cpp.  Items are indices into the input. *)
From Verif Require Import Base Num KdModel BccpModel WspdModel ParBufModel UfModel UfProofs KruskalModel.
Set Implicit Arguments.

Section Emst.
  Variable N : Num.
  Variable dim : nat.
  Variable pt : nat -> list (nT N).

  (** kd-tree nodes with the mutable field [id] (kdTree.h:199, 292-310);
      [None] is -1. *)
  Inductive itree :=
  | ILeaf (id : option nat) (its : list nat) (b : box N)
  | INode (id : option nat) (b : box N) (l r : itree).

  Fixpoint strip (t : itree) : tree N nat :=
    match t with ILeaf _ its b => Leaf its b | INode _ b l r => Node b (strip l) (strip r) end.
  (** kdTree.h:147, 172: the constructors call resetId *)
  Fixpoint fresh (t : tree N nat) : itree :=
    match t with Leaf its b => ILeaf None its b | Node b l r => INode None b (fresh l) (fresh r) end.
  Definition iid (t : itree) : option nat := match t with ILeaf i _ _ => i | INode i _ _ _ => i end.
  Definition ibox (t : itree) : box N := tbox (strip t).
  Definition iitems (t : itree) : list nat := items (strip t).
  Definition isize (t : itree) : nat := size (strip t).
  Fixpoint iheight (t : itree) : nat :=
    match t with ILeaf _ _ _ => 0 | INode _ _ l r => S (Nat.max (iheight l) (iheight r)) end.

  (** u->hasId() && u->getId() == v->getId() (wspdFilter.h:54, 105, 165, 229) *)
  Definition sameId (u v : itree) : bool :=
    match iid u, iid v with Some i, Some j => i =? j | _, _ => false end.

  Definition inode (u v : itree) : nT N := nodeDistance N dim (ibox u) (ibox v).
  Definition ifar (u v : itree) : nT N := nodeFarDistance N dim (ibox u) (ibox v).

  (** wspdImpl.h:88-114 and 207-241: the two recursive calls *)
  Definition ichildren (u v : itree) : option ((itree * itree) * (itree * itree)) :=
    match u, v with
    | ILeaf _ _ _, ILeaf _ _ _ => None
    | ILeaf _ _ _, INode _ _ vl vr => Some ((vl, u), (vr, u))
    | INode _ _ ul ur, ILeaf _ _ _ => Some ((ul, v), (ur, v))
    | INode _ bu ul ur, INode _ bv vl vr =>
      if nlt N (lMax N dim bv) (lMax N dim bu) then Some ((ul, v), (ur, v))
      else Some ((vl, u), (vr, u))
    end.

  (** the default separation constant s = 2 (wspdImpl.h:119, 247) *)
  Definition iws (u v : itree) : bool := geomWellSeparated N dim (ntwo N) (ibox u) (ibox v).

  (** *** rhoUpdateSerial / rhoUpdateParallel, wspdFilter.h:38-72 and 149-183.
      [beta] is a double holding a power of two in the code. *)
  Section Rho.
    Variable beta : nat.

    (** moveon without the test against rho, lines 54-55 and 165-166 *)
    Definition rhoMoveon (u v : itree) : bool := negb (sameId u v) && negb (isize u + isize v <=? beta).
    (** start, lines 60-66 and 171-177 *)
    Definition rhoStart (u : itree) : bool := beta <? isize u.

    (** Serial execution (wspdImpl.h:76-127) with the current rho as state.
        a >= b on doubles is b <= a. *)
    Fixpoint rhoFind (fuel : nat) (u v : itree) (rho : nT N) : res (nT N) :=
      match fuel with
      | 0 => Fuel
      | S f =>
        if negb (rhoMoveon u v && negb (nle N rho (inode u v))) then Ok rho
        else if iws u v then Ok (if nlt N (inode u v) rho then inode u v else rho)
        else match ichildren u v with
             | None => Throw
             | Some ((a, b), (c, d)) => rho1 <- rhoFind f a b rho ;; rhoFind f c d rho1
             end
      end.
    Fixpoint rhoCompute (t : itree) (rho : nT N) : res (nT N) :=
      match t with
      | ILeaf _ _ _ => Ok rho
      | INode _ _ l r =>
        if rhoStart t then
          r1 <- rhoCompute l rho ;; r2 <- rhoCompute r r1 ;; rhoFind (S (iheight l + iheight r)) l r r2
        else Ok rho
      end.

    (** Any execution, parallel or serial.  rho is only changed by write_min
        (C18), hence decreases: every value read by moveon is not below the
        final one, [fin].  [L] collects the pairs for which run was called. *)
    Variable fin : nT N.
    Inductive RFind : itree -> itree -> list (itree * itree) -> Prop :=
    | rf_cut u v : rhoMoveon u v = false -> RFind u v []
    | rf_far u v rho : rhoMoveon u v = true -> nlt N rho fin = false -> nle N rho (inode u v) = true -> RFind u v []
    | rf_run u v : rhoMoveon u v = true -> iws u v = true -> RFind u v [(u, v)]
    | rf_kids u v a b c d l1 l2 : rhoMoveon u v = true -> iws u v = false ->
        ichildren u v = Some ((a, b), (c, d)) -> RFind a b l1 -> RFind c d l2 -> RFind u v (l1 ++ l2).
    Inductive RCompute : itree -> list (itree * itree) -> Prop :=
    | rc_leaf i its b : RCompute (ILeaf i its b) []
    | rc_cut i b l r : rhoStart (INode i b l r) = false -> RCompute (INode i b l r) []
    | rc_node i b l r l1 l2 l3 : rhoStart (INode i b l r) = true ->
        RCompute l l1 -> RCompute r l2 -> RFind l r l3 -> RCompute (INode i b l r) (l1 ++ l2 ++ l3).
    (** [fin] is what the write_mins leave, starting from max() *)
    Definition rhoExec (t : itree) : Prop := exists L, RCompute t L /\
      (fin = nmax N \/ In fin (map (fun p => inode (fst p) (snd p)) L)) /\
      nlt N (nmax N) fin = false /\ forall p, In p L -> nlt N (inode (fst p) (snd p)) fin = false.
  End Rho.

  (** *** wspGetSerial / wspGetParallel, wspdFilter.h:74-124 and 185-246 *)
  Section Get.
    Variable srt : list (nT N * nat) -> list (nT N * nat).
    Variable beta : nat.
    Variables rhoLo rhoHi : nT N.

    (** lines 104-109 and 228-233 *)
    Definition getMoveon (u v : itree) : bool :=
      negb (sameId u v) && negb (nle N rhoHi (inode u v)) && negb (nlt N (ifar u v) rhoLo).
    (** lines 111-117 and 235-241 *)
    Definition getStart (u : itree) : bool := nle N rhoLo (diag N dim (ibox u)).

    (** The calls of run: wspdImpl.h:76-127 *)
    Fixpoint getFind (fuel : nat) (u v : itree) : res (list (itree * itree)) :=
      match fuel with
      | 0 => Fuel
      | S f =>
        if negb (getMoveon u v) then Ok []
        else if iws u v then Ok [(u, v)]
        else match ichildren u v with
             | None => Throw
             | Some ((a, b), (c, d)) => l1 <- getFind f a b ;; l2 <- getFind f c d ;; Ok (l1 ++ l2)
             end
      end.
    Fixpoint getCompute (t : itree) : res (list (itree * itree)) :=
      match t with
      | ILeaf _ _ _ => Ok []
      | INode _ _ l r =>
        if getStart t then
          o1 <- getCompute l ;; o2 <- getCompute r ;; o3 <- getFind (S (iheight l + iheight r)) l r ;; Ok (o1 ++ o2 ++ o3)
        else Ok []
      end.

    (** wspdImpl.h:194-261: the calls of run in the order in which they happen *)
    Variable cutoff : nat.
    Inductive GFind : itree -> itree -> list (itree * itree) -> Prop :=
    | gf_cut u v : getMoveon u v = false -> GFind u v []
    | gf_serial u v l : getMoveon u v = true -> isize u + isize v < cutoff ->
        getFind (S (iheight u + iheight v)) u v = Ok l -> GFind u v l
    | gf_run u v : getMoveon u v = true -> cutoff <= isize u + isize v -> iws u v = true -> GFind u v [(u, v)]
    | gf_par u v a b c d l1 l2 l : getMoveon u v = true -> cutoff <= isize u + isize v -> iws u v = false ->
        ichildren u v = Some ((a, b), (c, d)) -> GFind a b l1 -> GFind c d l2 -> shuffle l1 l2 l -> GFind u v l.
    Inductive GCompute : itree -> list (itree * itree) -> Prop :=
    | gc_serial t l : isize t < cutoff -> getCompute t = Ok l -> GCompute t l
    | gc_leaf i its b : cutoff <= isize (ILeaf i its b) -> GCompute (ILeaf i its b) []
    | gc_stop i b l r : cutoff <= isize (INode i b l r) -> getStart (INode i b l r) = false -> GCompute (INode i b l r) []
    | gc_node i b l r o1 o2 o12 o3 : cutoff <= isize (INode i b l r) -> getStart (INode i b l r) = true ->
        GCompute l o1 -> GCompute r o2 -> shuffle o1 o2 o12 -> GFind l r o3 -> GCompute (INode i b l r) (o12 ++ o3).

    (** run, lines 94-101 and 213-223: what is appended.  A closest pair that
        was not found has distance max() and null pointers. *)
    Definition getRun (p : itree * itree) : list (wedge N) :=
      let '(u, v) := p in
      let '(ab, d) := bichromaticClosestPair N dim nat pt srt (strip u) (strip v) in
      if (isize u + isize v <=? beta) && nle N rhoLo d && nlt N d rhoHi
      then match ab with Some (a, b) => [(a, b, d)] | None => [] end
      else [].

    (** filterWspdParallel, lines 248-274: the appended edges are spread over
        [length logs] buffers of n/procs cells of 24 bytes and collected. *)
    Definition gfkCollect (n procs : nat) (logs : list (list (wedge N)))
      (order : list (nat * wedge N) -> list (nat * wedge N)) : res (list (option (wedge N))) :=
      bufs <- mapM (pushAll 24 (create (wedge N) (n / procs))) logs ;;
      '(tot, w) <- collectWrites bufs ;;
      collect tot (order w).
    Definition getExec (n procs : nat) (t : itree) (out : res (list (option (wedge N)))) : Prop :=
      exists calls logs order, GCompute t calls /\ length logs = procs /\
        Permutation (concat logs) (flat_map getRun calls) /\ (forall w, Permutation (order w) w) /\
        out = gfkCollect n procs logs order.
  End Get.

  (** *** mark.h.  [rt i] is the value find(i) returns: C31 shows that
      concurrent finds return representatives and change none. *)
  Section Mark.
    Variable rt : nat -> nat.
    (** lines 8-19 markAll; the halves of the par_do touch disjoint nodes *)
    Fixpoint markAll (id : nat) (t : itree) : itree :=
      match t with
      | ILeaf _ its b => ILeaf (Some id) its b
      | INode i b l r =>
        if match i with Some j => j =? id | None => false end then INode (Some id) b l r
        else INode (Some id) b (markAll id l) (markAll id r)
      end.
    (** lines 21-58 mark *)
    Definition isId (i : nat) (o : option nat) : bool := match o with Some j => i =? j | None => false end.
    Fixpoint mark (t : itree) : itree :=
      let root := rt (hd 0 (iitems t)) in
      match t with
      | ILeaf (Some _) _ _ | INode (Some _) _ _ _ => markAll root t
      | ILeaf None its b =>
        ILeaf (if forallb (fun i => root =? rt i) (tl its) then Some root else None) its b
      | INode None b l r =>
        let l' := mark l in let r' := mark r in
        INode (if isId root (iid l') && isId root (iid r') then Some root else None) b l' r'
      end.
  End Mark.

  (** *** emst.cpp *)
  Record est := { eT : itree; eUF : eufT N; eBeta : nat; eLo : nT N }.

  (** unionFind.h:133-141 numEdge, getEdge *)
  Definition getEdge (n : nat) (U : eufT N) : list (wedge N) :=
    flat_map (fun x => match snd U x with Some e => [e] | None => [] end) (seq 0 n).
  Definition numEdge (n : nat) (U : eufT N) : nat := length (getEdge n U).

  Variable srt : list (nT N * nat) -> list (nT N * nat).
  Variable sort : list (iedge N) -> list (iedge N).
  Variables (n procs cutoff : nat).

  (** One iteration of the loop, emst.cpp:48-94.  The finds performed by mark
      may shorten paths of the union-find: any [P2] with the same
      representatives.  The stored outcome is that of batchKruskal or of the
      collection of the buffers when these do not return. *)
  Inductive round (s : est) : res est -> Prop :=
  | rd_empty rhoHi : rhoExec (eBeta s) rhoHi (eT s) ->
      getExec srt (eBeta s) (eLo s) rhoHi cutoff n procs (eT s) (Ok []) ->
      round s (Ok {| eT := eT s; eUF := eUF s; eBeta := 2 * eBeta s; eLo := rhoHi |})
  | rd_batch rhoHi out big small sched U rt P2 : rhoExec (eBeta s) rhoHi (eT s) ->
      getExec srt (eBeta s) (eLo s) rhoHi cutoff n procs (eT s) (Ok (map Some out)) -> out <> [] ->
      batchKruskal sort big small sched n out (eUF s) = Ok U ->
      (forall i, i < n -> rep (fst U) i (rt i)) -> forest n P2 ->
      (forall i r, i < n -> (rep P2 i r <-> rep (fst U) i r)) ->
      round s (Ok {| eT := mark rt (eT s); eUF := (P2, snd U); eBeta := 2 * eBeta s; eLo := rhoHi |})
  | rd_collect rhoHi o : rhoExec (eBeta s) rhoHi (eT s) ->
      getExec srt (eBeta s) (eLo s) rhoHi cutoff n procs (eT s) o ->
      (forall out, o <> Ok (map Some out)) -> round s (o' <- o ;; UB)
  | rd_kruskal rhoHi out big small sched o : rhoExec (eBeta s) rhoHi (eT s) ->
      getExec srt (eBeta s) (eLo s) rhoHi cutoff n procs (eT s) (Ok (map Some out)) -> out <> [] ->
      batchKruskal sort big small sched n out (eUF s) = o -> (forall U, o <> Ok U) ->
      round s (o' <- o ;; UB).

  (** The loop: [emstLoop k s o]: after [k] iterations the outcome is [o] *)
  Inductive emstLoop : nat -> est -> res (list (wedge N)) -> Prop :=
  | em_stop s : n - 1 <= numEdge n (eUF s) -> emstLoop 0 s (Ok (getEdge n (eUF s)))
  | em_round k s s' o : numEdge n (eUF s) < n - 1 -> round s (Ok s') -> emstLoop k s' o -> emstLoop (S k) s o
  | em_fail s o : numEdge n (eUF s) < n - 1 -> round s o -> (forall s', o <> Ok s') -> emstLoop 1 s (o' <- o ;; UB).

  (** emst.cpp:19-101; [lo0] is -0.1, beta starts at 2 *)
  Variable lo0 : nT N.
  Definition emst (parallel : bool) (workers threshold k : nat) (o : res (list (wedge N))) : Prop :=
    if n <? 2 then k = 0 /\ o = Throw
    else exists t, build N dim nat pt parallel workers threshold 1 (seq 0 n) = Ok t /\
      emstLoop k {| eT := fresh t; eUF := (fun _ => None, fun _ => None); eBeta := 2; eLo := lo0 |} o.
End Emst.
