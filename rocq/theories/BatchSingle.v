(** Single-point erasure of the batch kd-trees, shared/kdtree.h 247-269 and
    517-583.  Definitions only. *)
From Verif Require Import Base Num KdModel RangeModel BatchModel BatchTree.
Set Implicit Arguments.

Section Single.
  Variable N : Num.
  Variable dim : nat.
  Variable A : Type.
  Variable pt : A -> list (nT N).

  (** A tree whose child pointers may be null. *)
  Inductive ot : Type :=
  | OLeaf (s e np : nat)
  | ONode (d : nat) (sv : nT N) (l r : option ot).

  Fixpoint toOt {B} (t : kt (nT N) B) : ot :=
    match t with
    | KLeaf s e np _ => OLeaf s e np
    | KNode d sv _ _ _ l r => ONode d sv (Some (toOt l)) (Some (toOt r))
    end.

  (** kdtree.h 217-236 on such a tree; following a null pointer is undefined. *)
  Fixpoint owalk (p : list (nT N)) (t : ot) : res (nat * nat) :=
    match t with
    | OLeaf s e _ => Ok (s, e)
    | ONode d sv l r =>
      if nlt N (coord p d) sv
      then match l with Some t' => owalk p t' | None => UB end
      else match r with Some t' => owalk p t' | None => UB end
    end.

  (** kdtree.h 517-570, seen from the nodes on the path (bounding boxes left
      out): nothing to relink, the leaf just handled is empty, or the node just
      handled is the parent of an empty leaf whose sibling is given. *)
  Inductive cut := CNone | CEmpty | CSibling (sib : option ot).

  (** [found]: the leaf holds a live item equal to the point. *)
  Fixpoint oerase (p : list (nT N)) (t : ot) : res (ot * cut) :=
    match t with
    | OLeaf s e np => Ok (OLeaf s e (np - 1), if np - 1 =? 0 then CEmpty else CNone)
    | ONode d sv l r =>
      if nlt N (coord p d) sv then
        match l with
        | None => UB
        | Some t' =>
          '(t1, c) <- oerase p t' ;;
          match c with
          | CNone => Ok (ONode d sv (Some t1) r, CNone)
          | CEmpty => Ok (ONode d sv (Some t1) r, CSibling r)
          | CSibling s => Ok (ONode d sv s r, CNone)
          end
        end
      else
        match r with
        | None => UB
        | Some t' =>
          '(t1, c) <- oerase p t' ;;
          match c with
          | CNone => Ok (ONode d sv l (Some t1), CNone)
          | CEmpty => Ok (ONode d sv l (Some t1), CSibling l)
          | CSibling s => Ok (ONode d sv l s, CNone)
          end
        end
    end.

  (** At the root ([log_tree] false): the empty leaf is unlinked from the root,
      and an empty root leaf has no parent to be unlinked from. *)
  Definition unlinkRoot (p : list (nT N)) (t : ot) (c : cut) : res ot :=
    match c, t with
    | CNone, _ => Ok t
    | CEmpty, _ => UB
    | CSibling _, ONode d sv l r =>
      Ok (if nlt N (coord p d) sv then ONode d sv None r else ONode d sv l None)
    | CSibling _, OLeaf _ _ _ => UB
    end.

  Record obj := mkO { o_root : ot; o_items : list A; o_pres : list bool; o_cur : nat }.

  Definition ofind (b : obj) (q : A) : res (option nat) :=
    if o_cur b =? 0 then Ok None
    else
      '(s, e) <- owalk (pt q) (o_root b) ;;
      leafScan N dim pt q (o_items b) (o_pres b) (seq s (e - s)).
  Definition ocontains (b : obj) (q : A) : res bool :=
    r <- ofind b q ;; Ok (match r with Some _ => true | None => false end).

  (** kdtree.h 573-583 [erase<false>] *)
  Definition oeraseP (b : obj) (q : A) : res (obj * bool) :=
    r <- ofind b q ;;
    match r with
    | None => Ok (b, false)
    | Some i =>
      '(t1, c) <- oerase (pt q) (o_root b) ;;
      t2 <- unlinkRoot (pt q) t1 c ;;
      Ok (mkO t2 (o_items b) (upd i false (o_pres b)) (o_cur b - 1), true)
    end.

  (** A tree object built by the other functions. *)
  Definition toObj (b : btree N A) : option obj :=
    match bt_root b with
    | Some t => Some (mkO (toOt t) (bt_items b) (bt_pres b) (bt_cur b))
    | None => None
    end.
End Single.
