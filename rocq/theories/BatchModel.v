(** Kd-trees of include/batchKdtree: nodes, splits, and the two builders.
    Models shared/kdnode.h, shared/utils.h, cache-oblivious/cokdtree.h and
    binary-heap-layout/bhlkdtree.h. *)
From Verif Require Import Base Num KdModel BatchSplit.
Set Implicit Arguments.

Definition slice {A} (s e : nat) (l : list A) : list A := firstn (e - s) (skipn s l).
Definition setSlice {A} (s e : nat) (m l : list A) : list A := firstn s l ++ m ++ skipn e l.

(** A kd-tree over the item array: nodes hold the range [s, e) of the items
    below them (kdnode.h 53 [subtree_items]); a leaf also has its number of
    live points (47), an inner node its split (49-50).  [B] is the bounding
    box (54), absent while the tree is being linked. *)
Inductive kt (T B : Type) : Type :=
| KLeaf (s e np : nat) (b : B)
| KNode (d : nat) (sv : T) (s e : nat) (b : B) (l r : kt T B).
Arguments KLeaf {T B} s e np b.
Arguments KNode {T B} d sv s e b l r.

Definition kBox {T B} (t : kt T B) : B :=
  match t with KLeaf _ _ _ b => b | KNode _ _ _ _ b _ _ => b end.
Definition kRange {T B} (t : kt T B) : nat * nat :=
  match t with KLeaf s e _ _ => (s, e) | KNode _ _ s e _ _ _ => (s, e) end.

Section Batch.
  Variable N : Num.
  Variable dim : nat.
  Variable A : Type.
  Variable pt : A -> list (nT N).

  (** shared/utils.h 82-90, 105-117: [std::nth_element] at [n/2] by the given
      coordinate ([nthel], constrained by its contract in the theorems), and
      the coordinate of the element placed there. *)
  Definition serialMedianPartition (nthel : nat -> nat -> list A -> list A)
      (d : nat) (its : list A) : res (list A * nT N) :=
    let m := length its / 2 in
    let its' := nthel d m its in
    match nth_error its' m with
    | Some x => Ok (its', coord (pt x) d)
    | None => UB
    end.

  (** shared/utils.h 54-62, 67-78, 94-103: sort by the coordinate, and half the
      sum of the two middle coordinates. *)
  Definition parallelMedianPartition (srt : nat -> list A -> list A)
      (d : nat) (its : list A) : res (list A * nT N) :=
    let m := length its / 2 in
    let its' := srt d its in
    match m, nth_error its' m with
    | S m', Some y =>
      match nth_error its' m' with
      | Some x => Ok (its', ndiv N (nadd N (coord (pt x) d) (coord (pt y) d)) (ntwo N))
      | None => UB
      end
    | _, _ => UB
    end.

  (** *** Node array: kdnode.h 84-110.  [cn_k] is the split dimension and value
      of an inner node and [None] for a leaf; [cn_l], [cn_r] are the child
      pointers, indices in the node array. *)
  Record cnode := mkCn { cn_s : nat; cn_e : nat; cn_k : option (nat * nT N);
                         cn_l : option nat; cn_r : option nat }.
  Definition nodes := nat -> option cnode.
  Definition nset (k : nat) (c : cnode) (ns : nodes) : nodes :=
    fun j => if j =? k then Some c else ns j.
  (** kdnode.h 178-179 *)
  Definition setLeft (k c : nat) (ns : nodes) : res nodes :=
    match ns k with
    | Some x => Ok (nset k (mkCn (cn_s x) (cn_e x) (cn_k x) (Some c) (cn_r x)) ns)
    | None => UB
    end.
  Definition setRight (k c : nat) (ns : nodes) : res nodes :=
    match ns k with
    | Some x => Ok (nset k (mkCn (cn_s x) (cn_e x) (cn_k x) (cn_l x) (Some c)) ns)
    | None => UB
    end.
  Definition link (i parent c : nat) (ns : nodes) : res nodes :=
    if Nat.even i then setLeft parent c ns else setRight parent c ns.

  Definition st : Type := list A * nodes.

  (** cokdtree.h 252-259 (and 80-90): one split of items [s, e), placed at [na]. *)
  Definition placeSplit (msplit : nat -> list A -> res (list A * nT N))
      (s e na sd : nat) (x : st) : res (nat * st) :=
    if e - s <=? 1 then UB
    else
      '(m, sv) <- msplit sd (slice s e (fst x)) ;;
      Ok (1, (setSlice s e m (fst x), nset na (mkCn s e (Some (sd, sv)) None None) (snd x))).

  (** cokdtree.h 262-271: a leaf over items [s, e), placed at [na]; the
      constructor (kdnode.h 101-110) reads the first item. *)
  Definition placeLeaf (s e na : nat) (x : st) : res (nat * st) :=
    if (e <=? s) || (length (fst x) <? e) then UB
    else Ok (1, (fst x, nset na (mkCn s e None None None) (snd x))).

  Section Co.
    Variable ls : nat.                       (* leaf_size *)
    Variables sp ci : list (list nat).       (* the global tables of utils.h *)
    Variable msplit : nat -> list A -> res (list A * nT N).

    (** cokdtree.h 309-342: the loop over the bottom subtrees.  The loop
        variables are the left endpoint and the running node array. *)
    Fixpoint coLoop (sub : nat -> nat -> nat -> st -> res (nat * st))
        (per rem t na0 : nat) (is_ : list nat) (le na : nat) (x : st) : res (nat * st) :=
      match is_ with
      | [] => Ok (na - na0, x)
      | i :: rest =>
        match nth_error (nth t ci []) (i / 2), nth_error (nth t sp []) i with
        | Some pi, Some spi =>
          ns <- link i (na0 + pi) na (snd x) ;;
          let re := le + per + (if spi <=? rem then 1 else 0) in
          '(c, x') <- sub le re na (fst x, ns) ;;
          coLoop sub per rem t na0 rest re (na + c) x'
        | _, _ => UB
        end
      end.

    (** cokdtree.h 230-366 [buildKdtRecursive], [buildKdtTop], [buildKdtBottom]
        (serial).  [na] is the node array pointer; returns the number of nodes
        used.  A level count of 0 would take the logarithm of 0. *)
    Fixpoint coBuild (fuel : nat) (top : bool) (s e na sd L : nat) (x : st) : res (nat * st) :=
      match fuel with
      | 0 => Fuel
      | S f =>
        if L =? 0 then UB
        else if L =? 1 then
          if top then placeSplit msplit s e na sd x else placeLeaf s e na x
        else
          let b := bottomNumLevels L in
          let t := L - b in
          '(c, x1) <- coBuild f true s e na sd t x ;;
          let nsub := 2 ^ t in
          coLoop (fun le re na' x' =>
                    coBuild f top le re na' ((sd + t) mod dim)
                      (if top then b else numLevels ls (re - le)) x')
                 ((e - s) / nsub) ((e - s) mod nsub) t na (seq 0 nsub) s (na + c) x1
      end.

    (** cokdtree.h 368-381 [buildKdt] on [n] items at the start of the array. *)
    Definition coBuildAll (n : nat) (x : st) : res (nat * st) :=
      let L := numLevels ls n in coBuild (S L) false 0 n 0 0 L x.

    (** cokdtree.h 62-228: the parallel build.  [ord] is the order in which the
        subtrees of one node are handled; [psplit] the parallel median split;
        [par] decides where the serial code takes over (utils.h 45-52). *)
    Variable psplit : nat -> list A -> res (list A * nT N).
    Variable par : nat -> bool.
    Variable ord : nat -> list nat.

    Fixpoint coLoopP (sub : nat -> nat -> nat -> st -> res (nat * st))
        (ends : list nat) (offs : nat -> nat) (s t na0 na1 : nat) (is_ : list nat)
        (x : st) : res st :=
      match is_ with
      | [] => Ok x
      | i :: rest =>
        match nth_error (nth t ci []) (i / 2), nth_error ends i, nth_error ends (S i) with
        | Some pi, Some le, Some re =>
          let cur := na1 + offs i in
          ns <- link i (na0 + pi) cur (snd x) ;;
          '(_, x') <- sub (s + le) (s + re) cur (fst x, ns) ;;
          coLoopP sub ends offs s t na0 na1 rest x'
        | _, _, _ => UB
        end
      end.

    Fixpoint coBuildP (fuel : nat) (top : bool) (s e na sd L : nat) (x : st) : res (nat * st) :=
      match fuel with
      | 0 => Fuel
      | S f =>
        if negb (par (e - s)) then coBuild fuel top s e na sd L x
        else if L =? 0 then UB
        else if top && (L =? 1) then placeSplit psplit s e na sd x
        else if L =? 1 then UB   (* 92: never reached because of the serial base case *)
        else
          let b := bottomNumLevels L in
          let t := L - b in
          '(_, x1) <- coBuildP f true s e na sd t x ;;
          let nsub := 2 ^ t in
          let ends := computeLeftEndpoints sp t (e - s) in
          let boff := computeBottomChildSizes sp t (e - s) in
          x2 <- coLoopP (fun le re na' x' =>
                    coBuildP f top le re na' ((sd + t) mod dim)
                      (if top then b else numLevels ls (re - le)) x')
                  ends (fun i => if top then i * numNodesTop b else nth i boff 0)
                  s t na (na + numNodesTop t) (ord nsub) x1 ;;
          Ok (0, x2)
      end.
  End Co.

  (** *** bhlkdtree.h 46-140 [buildKdtRecursive] (object median): node [k] has
      children [2k+1] and [2k+2]. *)
  Fixpoint bhlBuild (ls : nat) (msplit : nat -> list A -> res (list A * nT N))
      (fuel s e k sd : nat) (x : st) : res st :=
    match fuel with
    | 0 => Fuel
    | S f =>
      if e - s <=? ls then '(_, x') <- placeLeaf s e k x ;; Ok x'
      else
        '(_, x1) <- placeSplit msplit s e k sd x ;;
        let m := s + (e - s) / 2 in
        ns1 <- setLeft k (2 * k + 1) (snd x1) ;;
        x2 <- bhlBuild ls msplit f s m (2 * k + 1) ((sd + 1) mod dim) (fst x1, ns1) ;;
        ns2 <- setRight k (2 * k + 2) (snd x2) ;;
        bhlBuild ls msplit f m e (2 * k + 2) ((sd + 1) mod dim) (fst x2, ns2)
    end.

  (** *** Bounding boxes: kdnode.h 101-110 for leaves (the constructor) and
      181-198 for inner nodes ([recomputeBoundingBox] once the children are
      done, cokdtree.h 426 and bhlkdtree.h 139). *)
  Definition bboxUpd (b : box N) (x : A) : box N :=
    {| bmin := minCoords N dim (bmin b) (pt x); bmax := maxCoords N dim (bmax b) (pt x) |}.
  Definition leafBox (its : list A) : res (box N) :=
    match its with
    | [] => UB
    | x :: _ => Ok (fold_left bboxUpd its {| bmin := pt x; bmax := pt x |})
    end.
  Definition boxUnion (b1 b2 : box N) : box N :=
    {| bmin := minCoords N dim (bmin b1) (bmin b2); bmax := maxCoords N dim (bmax b1) (bmax b2) |}.
  Fixpoint withBox (its : list A) (t : kt (nT N) unit) : res (kt (nT N) (box N)) :=
    match t with
    | KLeaf s e np _ => b <- leafBox (slice s e its) ;; Ok (KLeaf s e np b)
    | KNode d sv s e _ l r =>
      l' <- withBox its l ;; r' <- withBox its r ;;
      Ok (KNode d sv s e (boxUnion (kBox l') (kBox r')) l' r')
    end.

  (** The node array [ns] holds the tree [t] at [r]; [al] lists its nodes. *)
  Fixpoint rep (ns : nodes) (r : nat) (t : kt (nT N) unit) (al : list nat) : Prop :=
    match t with
    | KLeaf s e np _ => al = [r] /\ np = e - s /\ ns r = Some (mkCn s e None None None)
    | KNode d sv s e _ l r' => exists pl pr al1 al2,
        al = r :: al1 ++ al2 /\
        ns r = Some (mkCn s e (Some (d, sv)) (Some pl) (Some pr)) /\
        rep ns pl l al1 /\ rep ns pr r' al2
    end.

  (** *** What a built tree has to satisfy. *)
  (** The split of items [s, s+n) at [n/2] by coordinate [d] and value [sv]: no
      left item is above and no right item below, and if no left item has the
      coordinate of a right one the left items are strictly below. *)
  Definition splitOk (its : list A) (s n d : nat) (sv : nT N) : Prop :=
    let L := slice s (s + n / 2) its in
    let R := slice (s + n / 2) (s + n) its in
    (forall x, In x L -> nlt N sv (coord (pt x) d) = false) /\
    (forall y, In y R -> nlt N (coord (pt y) d) sv = false) /\
    ((forall x y, In x L -> In y R -> nlt N (coord (pt x) d) (coord (pt y) d) = true \/
                                     nlt N (coord (pt y) d) (coord (pt x) d) = true) ->
     forall x, In x L -> nlt N (coord (pt x) d) sv = true).

  Fixpoint ktOk {B} (ls : nat) (its : list A) (s n sd : nat) (t : kt (nT N) B) : Prop :=
    match t with
    | KLeaf s' e' np _ => s' = s /\ e' = s + n /\ np = n /\ 1 <= n <= ls
    | KNode d sv s' e' _ l r =>
        s' = s /\ e' = s + n /\ d = sd /\ ls < n /\ splitOk its s n sd sv /\
        ktOk ls its s (n / 2) ((sd + 1) mod dim) l /\
        ktOk ls its (s + n / 2) (n - n / 2) ((sd + 1) mod dim) r
    end.

  (** Contract of a median split on the items satisfying [okI]. *)
  Definition msplit_ok (okI : A -> Prop) (msplit : nat -> list A -> res (list A * nT N)) : Prop :=
    forall d its, d < dim -> 2 <= length its -> (forall x, In x its -> okI x) ->
    exists its' sv, msplit d its = Ok (its', sv) /\ Permutation its its' /\
      splitOk its' 0 (length its) d sv.
End Batch.
Arguments mkCn {N} _ _ _ _ _.
