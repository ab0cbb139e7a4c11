(** Operations of the kd-trees of include/batchKdtree: shared/kdtree.h (base
    class), binary-heap-layout/bhlkdtree.h and cache-oblivious/cokdtree.h
    (build, insert, bulk erase).  Definitions only. *)
From Verif Require Import Base Num KdModel RangeModel BatchSplit BatchModel.
Set Implicit Arguments.

Section Tree.
  Variable N : Num.
  Variable dim : nat.
  Variable A : Type.
  Variable pt : A -> list (nT N).

  Notation tree := (kt (nT N) (box N)).

  (** shared/geometry.h 88-91 [operator==]: equal unless some coordinate
      difference has an absolute value above zero. *)
  Definition neqC (a b : nT N) : bool :=
    let x := nsub N a b in nlt N (nzero N) x || nlt N x (nzero N).
  Definition peq (p q : list (nT N)) : bool :=
    forallb (fun i => negb (neqC (coord p i) (coord q i))) (seq 0 dim).

  (** The items of [s, e) whose flag is set, in order: [parlay::pack_into] and
      the serial loop of kdtree.h 188-206. *)
  Definition packed (s e : nat) (its : list A) (pres : list bool) : list A :=
    map fst (filter snd (combine (slice s e its) (slice s e pres))).

  (** kdtree.h 220-226: walk down to a leaf. *)
  Fixpoint walk {B} (p : list (nT N)) (t : kt (nT N) B) : nat * nat :=
    match t with
    | KLeaf s e _ _ => (s, e)
    | KNode d sv _ _ _ l r => if nlt N (coord p d) sv then walk p l else walk p r
    end.

  (** kdtree.h 229-234 (also 258-266, 651-656): first live item of the leaf equal to [q]. *)
  Fixpoint leafScan (q : A) (its : list A) (pres : list bool) (is_ : list nat) : res (option nat) :=
    match is_ with
    | [] => Ok None
    | i :: rest =>
      match nth_error its i, nth_error pres i with
      | Some x, Some b => if b && peq (pt q) (pt x) then Ok (Some i) else leafScan q its pres rest
      | _, _ => UB
      end
    end.

  (** kdtree.h 647-657: each request removes one item. *)
  Fixpoint leafErase (its : list A) (s e : nat) (Q : list A) (pres : list bool) : res (nat * list bool) :=
    match Q with
    | [] => Ok (0, pres)
    | q :: Q' =>
      r <- leafScan q its pres (seq s (e - s)) ;;
      match r with
      | Some i => '(k, pres') <- leafErase its s e Q' (upd i false pres) ;; Ok (S k, pres')
      | None => leafErase its s e Q' pres
      end
    end.

  (** kdnode.h 200-214 [recomputeBoundingBoxLeaf]; unchanged if nothing is live. *)
  Definition relivedBox (old : box N) (live : list A) : box N :=
    match live with
    | [] => old
    | x :: l => fold_left (bboxUpd dim pt) l {| bmin := pt x; bmax := pt x |}
    end.

  (** kdtree.h 638-790 [bulk_erase_leaf], [bulk_erase_helper],
      [bulk_erase_helper_parallel].  [part] is the partition of the requests by
      coordinate (utils.h 122-160); [lfirst] tells which side runs first.
      Result: the node's own subtree after the call, the returned pointer, the
      number of removed items, the flags. *)
  Section Erase.
    Variable part : (A -> bool) -> list A -> list A * list A.
    Variable lfirst : nat -> nat -> bool.
    Variable its : list A.

    Definition eraseJoin (d : nat) (sv : nT N) (s e : nat) (b : box N)
        (li : tree) (lo : option tree) (ri : tree) (ro : option tree) : tree * option tree :=
      match lo, ro with
      | Some l', Some r' =>
        let t := KNode d sv s e (boxUnion dim (kBox l') (kBox r')) l' r' in (t, Some t)
      | None, None => (KNode d sv s e b li ri, None)
      | Some l', None => (KNode d sv s e b li ri, Some l')
      | None, Some r' => (KNode d sv s e b li ri, Some r')
      end.

    Fixpoint bulkErase (t : tree) (Q : list A) (pres : list bool)
        : res (tree * option tree * nat * list bool) :=
      match t with
      | KLeaf s e np b =>
        '(k, pres') <- leafErase its s e Q pres ;;
        let np' := np - k in
        if np' =? 0 then Ok (KLeaf s e np' b, None, k, pres')
        else
          let b' := if k =? 0 then b else relivedBox b (packed s e its pres') in
          Ok (KLeaf s e np' b', Some (KLeaf s e np' b'), k, pres')
      | KNode d sv s e b l r =>
        let (Ql, Qr) := part (fun q => nlt N (coord (pt q) d) sv) Q in
        if lfirst s e then
          '(li, lo, kl, pres1) <- bulkErase l Ql pres ;;
          '(ri, ro, kr, pres2) <- bulkErase r Qr pres1 ;;
          let '(t', o) := eraseJoin d sv s e b li lo ri ro in
          Ok (t', o, kl + kr, pres2)
        else
          '(ri, ro, kr, pres1) <- bulkErase r Qr pres ;;
          '(li, lo, kl, pres2) <- bulkErase l Ql pres1 ;;
          let '(t', o) := eraseJoin d sv s e b li lo ri ro in
          Ok (t', o, kl + kr, pres2)
      end.
  End Erase.

  (** kdnode.h 285-336 [orthogonalQuery] *)
  Fixpoint orthQ (its : list A) (pres : list bool) (t : tree) (qb : box N) : list A :=
    match boxCompare N dim qb (kBox t) with
    | BoxExclude => []
    | BoxInclude => let '(s, e) := kRange t in packed s e its pres
    | BoxOverlap =>
      match t with
      | KLeaf s e _ _ => filter (inQBox N dim A pt qb) (packed s e its pres)
      | KNode _ _ _ _ _ l r => orthQ its pres l qb ++ orthQ its pres r qb
      end
    end.

  (** *** The tree object: kdtree.h 105-113.  The root is absent before the
      first build. *)
  Record btree := mkBt {
    bt_root : option tree;
    bt_items : list A;
    bt_pres : list bool;
    bt_cur : nat;       (* cur_size *)
    bt_build : nat;     (* build_size *)
    bt_cap : nat;       (* max_size *)
  }.

  (** kdtree.h 130-154 (the node array has [2*max_size-1] entries), 165-183 *)
  Definition bnew (log2size : nat) (its : list A) : btree :=
    mkBt None its (repeat true (2 ^ log2size)) 0 0 (2 ^ log2size).
  Definition bclear (b : btree) : btree :=
    mkBt (bt_root b) (bt_items b) (repeat true (length (bt_pres b))) 0 0 (bt_cap b).
  (** kdtree.h 188-206; the callers pass a destination of [cur_size] items. *)
  Definition blive (b : btree) : list A := packed 0 (bt_build b) (bt_items b) (bt_pres b).
  (** Unfilled places hold a default-constructed point (geometry.h 36). *)
  Variable dflt : A.
  Definition moveElements (b : btree) : res (list A * btree) :=
    if bt_cur b <? length (blive b) then UB
    else Ok (blive b ++ repeat dflt (bt_cur b - length (blive b)), bclear b).

  (** kdtree.h 217-236 *)
  Definition bcontains (b : btree) (q : A) : res bool :=
    if bt_cur b =? 0 then Ok false
    else match bt_root b with
    | None => UB
    | Some t =>
      let '(s, e) := walk (pt q) t in
      r <- leafScan q (bt_items b) (bt_pres b) (seq s (e - s)) ;;
      Ok (match r with Some _ => true | None => false end)
    end.

  (** kdtree.h 271-277 *)
  Definition borth (b : btree) (qb : box N) : res (list A) :=
    if bt_cur b =? 0 then Ok []
    else match bt_root b with
    | None => UB
    | Some t => Ok (orthQ (bt_items b) (bt_pres b) t qb)
    end.

  (** kdtree.h 792-817 [bulk_erase] of the base class *)
  Definition bbulkErase part lfirst (b : btree) (Q : list A) : res btree :=
    if bt_cur b =? 0 then Ok b
    else match bt_root b with
    | None => UB
    | Some t =>
      '(t', _, k, pres') <- bulkErase part lfirst (bt_items b) t Q (bt_pres b) ;;
      Ok (mkBt (Some t') (bt_items b) pres' (bt_cur b - k) (bt_build b) (bt_cap b))
    end.

  (** A builder turns the items into the rearranged items and the tree over
      them; see [coBuilder] and [bhlBuilder] below. *)
  Variable bld : list A -> res (list A * tree).

  (** cokdtree.h 418-442 [build]: the items become the array.  More points than
      nodes in the array is an overflow. *)
  Definition cobuild (b : btree) (points : list A) : res btree :=
    let n := length points in
    if n =? 0 then Ok (mkBt (bt_root b) points (bt_pres b) 0 0 (bt_cap b))
    else if bt_cap b <? n then UB
    else
      '(its', t) <- bld points ;;
      Ok (mkBt (Some t) its' (bt_pres b) n n (bt_cap b)).

  (** bhlkdtree.h 186-196 [build_no_bloom]: the points are copied to the start
      of the array.  (For no points the code makes an empty leaf that is never
      visited; the model leaves the root.) *)
  Definition bhlbuild (b : btree) (points : list A) : res btree :=
    let n := length points in
    if n =? 0 then Ok (mkBt (bt_root b) (bt_items b) (bt_pres b) 0 0 (bt_cap b))
    else if (bt_cap b <? n) || (length (bt_items b) <? n) then UB
    else
      '(its', t) <- bld points ;;
      Ok (mkBt (Some t) (its' ++ skipn n (bt_items b)) (bt_pres b) n n (bt_cap b)).

  (** cokdtree.h 454-487 and bhlkdtree.h 222-266 [insert] *)
  Definition binsert (build : btree -> list A -> res btree) (b : btree) (points : list A) : res btree :=
    if length points =? 0 then Ok b
    else if bt_cur b =? 0 then build b points
    else
      '(gather, b1) <- moveElements b ;;
      build b1 (gather ++ points).

  (** cokdtree.h 489-515 and bhlkdtree.h 268-296 [bulk_erase<rebuild>] *)
  Definition bbulkEraseR (build : btree -> list A -> res btree) part lfirst (rebuild : bool)
      (b : btree) (Q : list A) : res btree :=
    b1 <- bbulkErase part lfirst b Q ;;
    if rebuild then '(els, b2) <- moveElements b1 ;; build b2 els else Ok b1.
End Tree.

(** *** The builders as functions: build the node array, read the tree at its
    root, and compute the bounding boxes. *)
Section Builders.
  Variable N : Num.
  Variable dim : nat.
  Variable A : Type.
  Variable pt : A -> list (nT N).

  Fixpoint readTree (fuel : nat) (ns : nodes N) (r : nat) : res (kt (nT N) unit) :=
    match fuel with
    | 0 => Fuel
    | S f =>
      match ns r with
      | None => UB
      | Some c =>
        match cn_k c, cn_l c, cn_r c with
        | None, None, None => Ok (KLeaf (cn_s c) (cn_e c) (cn_e c - cn_s c) tt)
        | Some (d, sv), Some pl, Some pr =>
          l <- readTree f ns pl ;; r' <- readTree f ns pr ;;
          Ok (KNode d sv (cn_s c) (cn_e c) tt l r')
        | _, _, _ => UB
        end
      end
    end.

  Definition finish (x : st N A) : res (list A * kt (nT N) (box N)) :=
    t <- readTree (2 * length (fst x)) (snd x) 0 ;;
    t' <- withBox N dim pt (fst x) t ;;
    Ok (fst x, t').

  (** cokdtree.h 372-385; [par = fun _ => false] is the serial build. *)
  Definition coBuilder (ls : nat) (sp ci : list (list nat)) msplit psplit par ord
      (points : list A) : res (list A * kt (nT N) (box N)) :=
    let n := length points in
    let L := numLevels ls n in
    '(_, x) <- coBuildP dim ls sp ci msplit psplit par ord (S L) false 0 n 0 0 L (points, fun _ => None) ;;
    finish x.

  (** bhlkdtree.h 146-149 *)
  Definition bhlBuilder (ls : nat) msplit (points : list A)
      : res (list A * kt (nT N) (box N)) :=
    let n := length points in
    x <- bhlBuild dim ls msplit (S n) 0 n 0 0 (points, fun _ => None) ;;
    finish x.
End Builders.
