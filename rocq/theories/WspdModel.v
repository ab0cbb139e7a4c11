(** Model of include/kdTree/wspdImpl.h: well-separated pair decomposition. *)
From Verif Require Import Base Num KdModel BccpModel ParBufModel.

Section Wspd.
  Variable N : Num.
  Variable dim : nat.
  Variable A : Type.

  (** wspdImpl.h:35-56 geomWellSeparated(u,v,s) *)
  Definition wsSum (f : nat -> nT N) : nT N :=
    fold_left (fun acc d => nadd N acc (f d)) (seq 0 dim) (nzero N).
  Definition boxAvg (b : box N) (d : nat) : nT N :=
    ndiv N (nadd N (coord (bmax b) d) (coord (bmin b) d)) (ntwo N).
  Definition boxDiff (b : box N) (d : nat) : nT N := nsub N (coord (bmax b) d) (coord (bmin b) d).
  Definition circleDiam (b : box N) : nT N :=
    nsqrt N (wsSum (fun d => nmul N (boxDiff b d) (boxDiff b d))).
  Definition circleRadius (b1 b2 : box N) : nT N :=
    ndiv N (nmax2 N (circleDiam b1) (circleDiam b2)) (ntwo N).
  Definition geomWellSeparated (s : nT N) (b1 b2 : box N) : bool :=
    let cd := nsqrt N (wsSum (fun d =>
      let t := nsub N (boxAvg b1 d) (boxAvg b2 d) in nmul N t t)) in
    let circleDistance := nsub N (nsub N cd (ndiv N (circleDiam b1) (ntwo N)))
                                 (ndiv N (circleDiam b2) (ntwo N)) in
    nle N (nmul N s (circleRadius b1 b2)) circleDistance.

  (** [f->wellSeparated(u,v,s)] of the operation object *)
  Variable ws : tree N A -> tree N A -> bool.

  Notation pairs := (list (tree N A * tree N A)).

  (** Which pair of recursive calls findPair makes (wspdImpl.h:88-114):
      [None] is the exception "leaves not well separated". *)
  Definition children (u v : tree N A) : option ((tree N A * tree N A) * (tree N A * tree N A)) :=
    match u, v with
    | Leaf _ _, Leaf _ _ => None
    | Leaf _ _, Node _ vl vr => Some ((vl, u), (vr, u))
    | Node _ ul ur, Leaf _ _ => Some ((ul, v), (ur, v))
    | Node bu ul ur, Node bv vl vr =>
      if nlt N (lMax N dim bv) (lMax N dim bu) then Some ((ul, v), (ur, v))
      else Some ((vl, u), (vr, u))
    end.

  (** wspdImpl.h:76-116 findPairSerial; moveon is constantly true (line 68).
      [fuel] bounds the recursion depth. *)
  Fixpoint findPairSerial (fuel : nat) (u v : tree N A) : res pairs :=
    match fuel with
    | 0 => Fuel
    | S f =>
      if ws u v then Ok [(u, v)]
      else match children u v with
           | None => Throw
           | Some ((a, b), (c, d)) =>
             l1 <- findPairSerial f a b ;;
             l2 <- findPairSerial f c d ;;
             Ok (l1 ++ l2)
           end
    end.

  Fixpoint height (t : tree N A) : nat :=
    match t with Leaf _ _ => 0 | Node _ l r => S (Nat.max (height l) (height r)) end.
  Definition findPair (u v : tree N A) : res pairs := findPairSerial (S (height u + height v)) u v.

  (** wspdImpl.h:118-127 computeWspdSerial (start is constantly true, line 69) *)
  Fixpoint computeWspdSerial (t : tree N A) : res pairs :=
    match t with
    | Leaf _ _ => Ok []
    | Node _ l r =>
      o1 <- computeWspdSerial l ;;
      o2 <- computeWspdSerial r ;;
      o3 <- findPair l r ;;
      Ok (o1 ++ o2 ++ o3)
    end.

  (** *** Parallel version: the calls [f->run(u,v)] of one execution, in the
      order in which they happen. *)
  Inductive shuffle {X} : list X -> list X -> list X -> Prop :=
  | sh_nil : shuffle [] [] []
  | sh_l x a b c : shuffle a b c -> shuffle (x :: a) b (x :: c)
  | sh_r x a b c : shuffle a b c -> shuffle a (x :: b) (x :: c).

  (** the constant 2000 of wspdImpl.h:199 and 249 *)
  Variable cutoff : nat.

  (** wspdImpl.h:194-244 findPairParallel; par_do interleaves its branches *)
  Inductive PFind : tree N A -> tree N A -> pairs -> Prop :=
  | pf_serial u v l : size u + size v < cutoff -> findPair u v = Ok l -> PFind u v l
  | pf_run u v : cutoff <= size u + size v -> ws u v = true -> PFind u v [(u, v)]
  | pf_par u v a b c d l1 l2 l : cutoff <= size u + size v -> ws u v = false ->
      children u v = Some ((a, b), (c, d)) ->
      PFind a b l1 -> PFind c d l2 -> shuffle l1 l2 l -> PFind u v l.

  (** wspdImpl.h:246-261 computeWspdParallel: findPair runs after the join *)
  Inductive PCompute : tree N A -> pairs -> Prop :=
  | pc_serial t l : size t < cutoff -> computeWspdSerial t = Ok l -> PCompute t l
  | pc_leaf its b : cutoff <= size (Leaf its b) -> PCompute (Leaf its b) []
  | pc_node b l r o1 o2 o12 o3 : cutoff <= size (Node b l r) ->
      PCompute l o1 -> PCompute r o2 -> shuffle o1 o2 o12 -> PFind l r o3 ->
      PCompute (Node b l r) (o12 ++ o3).
End Wspd.

Arguments height {N A} t.
Arguments shuffle {X} _ _ _.

(** wspdImpl.h:129-144 wspdSerial *)
Definition wspdSerial (N : Num) (dim : nat) (A : Type) (s : nT N) (t : tree N A) :=
  computeWspdSerial N dim A (fun u v => geomWellSeparated N dim s (tbox u) (tbox v)) t.

(** wspdImpl.h:148-176 and 263-278 wellSeparatedPairDecomp on [procs] workers:
    worker w performs the calls [nth w logs []]; each buffer starts with
    size(tree)/procs cells; sizeof of a pair of pointers is 16.  The answer is
    the array after the collecting writes in the order [order]. *)
Definition wspdCollect (T : Type) (n procs : nat) (logs : list (list T))
  (order : list (nat * T) -> list (nat * T)) : res (list (option T)) :=
  bufs <- mapM (pushAll 16 (create T (n / procs))) logs ;;
  '(tot, w) <- collectWrites bufs ;;
  collect tot (order w).
