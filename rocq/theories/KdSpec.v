(** Specification vocabulary for kd-trees, independent of the construction
    code. *)
From Verif Require Import Base Num KdModel.

(** All nodes of a tree (the tree itself first). *)
Fixpoint subtrees {N : Num} {A} (t : tree N A) : list (tree N A) :=
  match t with
  | Leaf _ _ => [t]
  | Node _ l r => t :: subtrees l ++ subtrees r
  end.

(** Leaves in left-to-right order. *)
Fixpoint leaves {N : Num} {A} (t : tree N A) : list (list A) :=
  match t with
  | Leaf its _ => [its]
  | Node _ l r => leaves l ++ leaves r
  end.

(** [b] is the exact bounding box of [its]: contains every item and each face
    is attained. *)
Definition tight {N : Num} {A} (dim : nat) (pt : A -> list (nT N)) (b : box N) (its : list A)
  : Prop :=
  forall d, d < dim ->
    (forall x, In x its -> nle N (coord (bmin b) d) (coord (pt x) d) = true /\
                           nle N (coord (pt x) d) (coord (bmax b) d) = true) /\
    (exists x, In x its /\ coord (pt x) d = coord (bmin b) d) /\
    (exists x, In x its /\ coord (pt x) d = coord (bmax b) d).

(** Shape: internal nodes have two non-empty children, leaves are non-empty
    and hold at most [leafSize] items. *)
Fixpoint shape {N : Num} {A} (leafSize : nat) (t : tree N A) : Prop :=
  match t with
  | Leaf its _ => 1 <= length its <= leafSize
  | Node _ l r => leafSize < length (items l) + length (items r) /\
                  shape leafSize l /\ shape leafSize r
  end.

(** Weaker form of [tight]: containment only (what pruning needs). *)
Definition bounds {N : Num} {A} (dim : nat) (pt : A -> list (nT N)) (b : box N) (its : list A)
  : Prop :=
  forall d, d < dim -> forall x, In x its ->
    nle N (coord (bmin b) d) (coord (pt x) d) = true /\
    nle N (coord (pt x) d) (coord (bmax b) d) = true.

Definition boxes_ok {N : Num} {A} (dim : nat) (pt : A -> list (nT N)) (t : tree N A) : Prop :=
  forall s, In s (subtrees t) -> bounds dim pt (tbox s) (items s).

Lemma leaves_items {N : Num} {A} (t : tree N A) : concat (leaves t) = items t.
Proof.
  induction t as [its b|b l IHl r IHr]; simpl.
  - apply app_nil_r.
  - rewrite concat_app, IHl, IHr; auto.
Qed.

Lemma subtrees_self {N : Num} {A} (t : tree N A) : In t (subtrees t).
Proof. destruct t; simpl; auto. Qed.

Lemma subtrees_incl {N : Num} {A} (t s : tree N A) :
  In s (subtrees t) -> incl (items s) (items t).
Proof.
  revert s; induction t as [its b|b l IHl r IHr]; simpl; intros s H.
  - destruct H as [<-|[]]. apply incl_refl.
  - destruct H as [<-|H]; [apply incl_refl|].
    apply in_app_or in H as [H|H].
    + apply incl_appl; auto.
    + apply incl_appr; auto.
Qed.
