(** Property C45: how the construction splits a node. *)
From Coq Require Import Reals Floats.
From Verif Require Import Base Num FloatNum FloatLaws FloatMono DistLaws KdModel KdSpec KdBuild KdConstruct KdExtra KdSplit.

(** Every internal node of a tree built over finite doubles is split at the
    middle of its box in the first dimension of greatest (computed) extent:
    one child holds the items strictly below the middle, the other the rest;
    if one side would be empty the items are halved. *)
Theorem C45_split_rule :
  forall dim, 1 <= dim -> forall A (pt : A -> list float) parallel workers threshold leafSize P t,
  1 <= leafSize -> 0 < workers -> P <> [] ->
  (forall x, In x P -> forall d, d < dim -> PrimFloat.is_finite (nth d (pt x) 0%float) = true) ->
  build FNum dim A pt parallel workers threshold leafSize P = Ok t ->
  forall b l r, In (Node b l r) (subtrees t) ->
  exists k, k < dim /\
    (forall d, d < dim -> PrimFloat.leb (nth d (bmax b) 0 - nth d (bmin b) 0) (nth k (bmax b) 0 - nth k (bmin b) 0) = true)%float /\
    (forall d, d < k -> PrimFloat.ltb (nth d (bmax b) 0 - nth d (bmin b) 0) (nth k (bmax b) 0 - nth k (bmin b) 0) = true)%float /\
    let m := ((nth k (bmax b) 0 + nth k (bmin b) 0) / 2)%float in
    let lo l := forall x, In x l -> PrimFloat.ltb (nth k (pt x) 0%float) m = true in
    let hi l := forall x, In x l -> PrimFloat.leb m (nth k (pt x) 0%float) = true in
    (lo (items l) /\ hi (items r)) \/ (hi (items l) /\ lo (items r)) \/
    ((lo (items l ++ items r) \/ hi (items l ++ items r)) /\
     (length (items l) = length (items r) \/ length (items l) = S (length (items r)) \/
      S (length (items l)) = length (items r))).
Proof. exact split_double. Qed.
Print Assumptions C45_split_rule.

(** The same in exact arithmetic. *)
Theorem C45_split_rule_exact :
  forall dim, 1 <= dim -> forall A (pt : A -> list R) parallel workers threshold leafSize P t,
  1 <= leafSize -> 0 < workers -> P <> [] ->
  build RNum dim A pt parallel workers threshold leafSize P = Ok t ->
  forall b l r, In (Node b l r) (subtrees t) -> @ruleAt RNum dim A pt b (items l) (items r).
Proof. exact split_exact. Qed.
Print Assumptions C45_split_rule_exact.

Example C45_example : exists t b l r,
  build FNum 2 _ (fun x => x) false 1 2000 2 [[0;0];[9;1];[1;1];[8;2]]%float = Ok t /\
  t = Node b l r /\ items l = [[0;0];[1;1]]%float /\ length (items r) = 2.
Proof. do 4 eexists. split; [vm_compute; reflexivity|]. split; [reflexivity|]. split; reflexivity. Qed.
(** Identical points are halved. *)
Example C45_halved : exists t b l r,
  build FNum 1 _ (fun x => [fst x]) false 1 2000 1 [(3,0);(3,1);(3,2)]%float = Ok t /\
  t = Node b l r /\ length (items l) = 2 /\ length (items r) = 1.
Proof. do 4 eexists. split; [vm_compute; reflexivity|]. split; [reflexivity|]. split; reflexivity. Qed.
