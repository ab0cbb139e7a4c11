(** Properties C19-C21, C46, C47: the dynamic kd-tree. *)
From Coq Require Import Reals Floats.
From Verif Require Import Base Num FloatNum FloatLaws FloatMono DistLaws RadLaws KdModel KdSpec KdBuild KdSplit RGeom
  DynModel DynProofs DynKnn DynHist DynInst DynRace DynFinal.

(** C19: after any history of batch insertions and erasures, kNN returns the
    min(k, size) nearest live items in order of distance.  Doubles: "nearest"
    refers to the computed distances; finite coordinates, overflow and
    underflow of the distances included. *)
Theorem C19_knn_double :
  forall dim, (1 <= dim)%nat -> forall A (pt : A -> list float) thr, (2 <= thr)%nat -> forall part med popMax,
  part_ok part -> @med_ok FNum A ffin pt med -> @popMax_ok FNum A fok popMax ->
  forall its ops t0 t qp k, (2 <= length its)%nat -> @finite FNum ffin dim A pt its ->
  (forall o, In o ops -> @finiteOp FNum ffin dim A pt o) ->
  build FNum dim A pt thr part med its = Ok t0 -> runOps FNum dim A pt thr part med ops t0 = Ok t ->
  (forall d, (d < dim)%nat -> ffin (coord (N := FNum) qp d)) -> (1 <= k)%nat ->
  exists l rest, kNN FNum dim A pt popMax t qp k = Ok l /\ Permutation (l ++ rest) (iter t) /\
    length l = Nat.min k (length (iter t)) /\
    (forall y z, In y l -> In z rest -> (dist FNum dim qp (pt y) <=? dist FNum dim qp (pt z))%float = true) /\
    (forall i j y z, (i < j)%nat -> nth_error l i = Some y -> nth_error l j = Some z ->
       (dist FNum dim qp (pt y) <=? dist FNum dim qp (pt z))%float = true).
Proof. exact (@dyn_knn FNum fok ffin fnn frad F_distlaws F_radlaws). Qed.
Print Assumptions C19_knn_double.

Theorem C19_knn_exact :
  forall dim, (1 <= dim)%nat -> forall A (pt : A -> list R) thr, (2 <= thr)%nat -> forall part med popMax,
  part_ok part -> @med_ok RNum A (fun _ => True) pt med -> @popMax_ok RNum A (fun _ => True) popMax ->
  forall its ops t0 t qp k, (2 <= length its)%nat ->
  build RNum dim A pt thr part med its = Ok t0 -> runOps RNum dim A pt thr part med ops t0 = Ok t -> (1 <= k)%nat ->
  exists l rest, kNN RNum dim A pt popMax t qp k = Ok l /\ Permutation (l ++ rest) (iter t) /\
    length l = Nat.min k (length (iter t)) /\
    (forall y z, In y l -> In z rest -> (edist dim qp (pt y) <= edist dim qp (pt z))%R) /\
    (forall i j y z, (i < j)%nat -> nth_error l i = Some y -> nth_error l j = Some z ->
       (edist dim qp (pt y) <= edist dim qp (pt z))%R).
Proof. exact dyn_knn_exact. Qed.
Print Assumptions C19_knn_exact.

(** k = 0 reads the top of an empty queue. *)
Theorem C19_k0_refuted : exists t0,
  build FNum 2 _ (fun x => x) 16 partI (@medI FNum _ (fun x => x)) [[0;0];[1;5]]%float = Ok t0 /\
  kNN FNum 2 _ (fun x => x) (@popI FNum _) t0 [0;0]%float 0 = UB.
Proof. eexists. split; vm_compute; reflexivity. Qed.
Print Assumptions C19_k0_refuted.

Example C19_contracts : part_ok (@partI (list float)) /\ @med_ok FNum _ ffin (fun x => x) (@medI FNum _ (fun x => x)) /\
  @popMax_ok FNum (list float) fok (@popI FNum _).
Proof. exact (conj partI_ok (conj (medI_ok F_ordlaws_fin _) (popI_ok F_ordlaws))). Qed.
Definition dyn5 : list (list float) := [[0;0];[1;0];[0;2];[5;5];[6;5]]%float.
Example C19_example : exists t0 t,
  build FNum 2 _ (fun x => x) 2 partI (@medI FNum _ (fun x => x)) dyn5 = Ok t0 /\
  runOps FNum 2 _ (fun x => x) 2 partI (@medI FNum _ (fun x => x)) [Ins [[4;4]];Del [[5;5]];Ins [[9;9];[0.5;1]]]%float t0 = Ok t /\
  kNN FNum 2 _ (fun x => x) (@popI FNum _) t [3;3]%float 3 = Ok [[4;4];[0;2];[0.5;1]]%float.
Proof. do 2 eexists. do 2 (split; [vm_compute; reflexivity|]). vm_compute. reflexivity. Qed.

(** C20: construction and insertions, for all finite coordinates: they return,
    the content is the multiset union, and size() is its cardinality. *)
Theorem C20_insert :
  forall dim, (1 <= dim)%nat -> forall A (pt : A -> list float) thr, (2 <= thr)%nat -> forall part med,
  part_ok part -> @med_ok FNum A ffin pt med -> forall its bs t0, (2 <= length its)%nat ->
  @finite FNum ffin dim A pt its -> (forall xs, In xs bs -> @finite FNum ffin dim A pt xs) ->
  build FNum dim A pt thr part med its = Ok t0 ->
  exists t, runOps FNum dim A pt thr part med (map Ins bs) t0 = Ok t /\ Permutation (iter t) (concat bs ++ its) /\
    dsize t = Z.of_nat (length (concat bs ++ its)).
Proof. exact (@inserts_exact FNum fok ffin F_ordlaws ffin_fok). Qed.
Print Assumptions C20_insert.

Theorem C20_build :
  forall dim, (1 <= dim)%nat -> forall A (pt : A -> list float) thr, (2 <= thr)%nat -> forall part med,
  part_ok part -> @med_ok FNum A ffin pt med -> forall its, (2 <= length its)%nat ->
  @finite FNum ffin dim A pt its ->
  exists t0, build FNum dim A pt thr part med its = Ok t0 /\ Permutation (iter t0) its /\
    dsize t0 = Z.of_nat (length its).
Proof. exact (@build_total FNum fok ffin F_ordlaws ffin_fok). Qed.
Print Assumptions C20_build.

(** Fewer than two points throw. *)
Theorem C20_small_refuted : forall x : list float,
  build FNum 2 _ (fun x => x) 16 partI (@medI FNum _ (fun x => x)) [x] = Throw /\
  build FNum 2 _ (fun x => x) 16 partI (@medI FNum _ (fun x => x)) [] = Throw.
Proof. intros. split; reflexivity. Qed.
Print Assumptions C20_small_refuted.

(** Also after erasures, an insertion that returns loses and invents nothing. *)
Theorem C20_insert_step :
  forall dim, (1 <= dim)%nat -> forall A (pt : A -> list float) thr, (2 <= thr)%nat -> forall part med,
  part_ok part -> @med_ok FNum A ffin pt med -> forall its ops t0 t xs t', (2 <= length its)%nat ->
  @finite FNum ffin dim A pt its -> (forall o, In o ops -> @finiteOp FNum ffin dim A pt o) ->
  build FNum dim A pt thr part med its = Ok t0 -> runOps FNum dim A pt thr part med ops t0 = Ok t ->
  @finite FNum ffin dim A pt xs -> insert FNum dim A pt thr part med xs t = Ok t' ->
  Permutation (iter t') (xs ++ iter t).
Proof. exact (@step_insert FNum fok ffin F_ordlaws ffin_fok). Qed.
Print Assumptions C20_insert_step.

Example C20_example : exists t0 t,
  build FNum 2 _ (fun x => x) 3 partI (@medI FNum _ (fun x => x)) dyn5 = Ok t0 /\
  runOps FNum 2 _ (fun x => x) 3 partI (@medI FNum _ (fun x => x)) (map Ins [[[4;4];[4;4]];[[0;1];[0;3];[1;1]]])%float t0 = Ok t /\
  dsize t = 10%Z /\ iter t = [[0;0];[1;0];[0;1];[0;3];[0;2];[1;1];[4;4];[4;4];[5;5];[6;5]]%float.
Proof. do 2 eexists. do 3 (split; [vm_compute; reflexivity|]). vm_compute. reflexivity. Qed.

(** C21: erasure removes only items at a requested location, from any tree. *)
Theorem C21_erase_sound :
  forall dim A (pt : A -> list float) part, part_ok part -> forall (t : dtree FNum A) xs, exists gone,
  Permutation (iter t) (iter (fst (erase FNum dim A pt part xs t)) ++ gone) /\
  forall y, In y gone -> exists x, In x xs /\ samePlace FNum dim pt y x.
Proof. exact (@step_erase FNum). Qed.
Print Assumptions C21_erase_sound.

(** The content and the size after a history, when no two items ever share a
    coordinate, no batch asks twice for a location, and no batch asks for a
    location erased before.  The two refutations below show the latter
    conditions are needed. *)
Theorem C21_history_partial :
  forall dim, (1 <= dim)%nat -> forall A (pt : A -> list float) thr, (2 <= thr)%nat -> forall part med,
  part_ok part -> @med_ok FNum A ffin pt med -> forall its ops L D t0, (2 <= length its)%nat ->
  @finite FNum ffin dim A pt its -> @generic FNum dim A pt its ->
  @hist FNum ffin dim A pt its [] ops L D -> build FNum dim A pt thr part med its = Ok t0 ->
  exists t, runOps FNum dim A pt thr part med ops t0 = Ok t /\ Permutation (iter t) L /\
    dsize t = Z.of_nat (length L).
Proof.
  exact (fun dim Hd A pt thr Ht part med Hp Hm =>
    @history_exact FNum fok ffin F_ordlaws ffin_fok dim Hd A pt thr Ht part med Hp Hm F_mid).
Qed.
Print Assumptions C21_history_partial.

(** An erased point stays: distinct points, the split value ties. *)
Theorem C21_erase_ties_refuted : exists t0,
  build FNum 3 _ (fun x => x) 16 partI (@medI FNum _ (fun x => x)) [[0;0;1];[0;0;2]]%float = Ok t0 /\
  iter (fst (erase FNum 3 _ (fun x => x) partI [[0;0;1]]%float t0)) = [[0;0;1];[0;0;2]]%float.
Proof. eexists. split; vm_compute; reflexivity. Qed.
Print Assumptions C21_erase_ties_refuted.

(** Erasing, inserting and erasing a point again breaks the counter, and a
    later insertion writes past its buffer. *)
Theorem C21_counter_refuted : exists t0 t,
  build FNum 2 _ (fun x => x) 16 partI (@medI FNum _ (fun x => x)) [[0;0];[1;5]]%float = Ok t0 /\
  runOps FNum 2 _ (fun x => x) 16 partI (@medI FNum _ (fun x => x)) [Del [[0;0]];Ins [[0;0]];Del [[0;0]]]%float t0 = Ok t /\
  dsize t = 0%Z /\ iter t = [[1;5]]%float /\
  runOps FNum 2 _ (fun x => x) 16 partI (@medI FNum _ (fun x => x)) [Ins (repeat [0;0] 17)]%float t = UB.
Proof. do 2 eexists. do 4 (split; [vm_compute; reflexivity|]). vm_compute. reflexivity. Qed.
Print Assumptions C21_counter_refuted.

Example C21_example : exists t0 t,
  build FNum 2 _ (fun x => x) 2 partI (@medI FNum _ (fun x => x)) [[0;0];[1;5];[2;3];[4;1]]%float = Ok t0 /\
  runOps FNum 2 _ (fun x => x) 2 partI (@medI FNum _ (fun x => x)) [Del [[1;5];[7;7]];Ins [[3;2]];Del [[3;2];[0;0]]]%float t0 = Ok t /\
  iter t = [[4;1];[2;3]]%float /\ dsize t = 2%Z.
Proof. do 2 eexists. do 3 (split; [vm_compute; reflexivity|]). vm_compute. reflexivity. Qed.

(** C46: check() accepts every tree reached by a history. *)
Theorem C46_check :
  forall dim, (1 <= dim)%nat -> forall A (pt : A -> list float) thr, (2 <= thr)%nat -> forall part med,
  part_ok part -> @med_ok FNum A ffin pt med -> forall its ops t0 t, (2 <= length its)%nat ->
  @finite FNum ffin dim A pt its -> (forall o, In o ops -> @finiteOp FNum ffin dim A pt o) ->
  build FNum dim A pt thr part med its = Ok t0 -> runOps FNum dim A pt thr part med ops t0 = Ok t ->
  check FNum dim A pt t = true.
Proof. exact (@check_reached FNum fok ffin F_ordlaws ffin_fok). Qed.
Print Assumptions C46_check.

(** check() does reject: a box that misses an item. *)
Example C46_rejects : check FNum 2 _ (fun x => x) (DLeaf [([7;0]%float, true)] 1%Z (@Build_box FNum [0;0] [5;5])%float) = false.
Proof. vm_compute. reflexivity. Qed.

(** an inner node whose box misses that of its left child *)
Example C46_rejects_inner :
  let lf p := DLeaf [(p, true)] 1%Z (@Build_box FNum p p) in
  check FNum 2 _ (fun x => x) (DNode 2%Z 0 (3%float : nT FNum) (@Build_box FNum [0;0] [5;5])%float (lf [7;0]%float) (lf [5;5]%float)) = false.
Proof. vm_compute. reflexivity. Qed.

(** C47: the branches of a parallel insertion that both replace their child
    leave consistent siblings when run one after the other, in either order. *)
Theorem C47_sequential :
  forall l0 r0 l1 r1, NoDup [l0; r0; l1; r1] -> forall first : bool,
  exists s, parInsert (repeat first 6 ++ repeat (negb first) 6) l0 r0 l1 r1 = Ok s /\ consistent s l1 r1.
Proof. exact sequential_ok. Qed.
Print Assumptions C47_sequential.

(** Interleaved, they can write to a freed node, and they can finish with a
    child whose sibling pointer dangles. *)
Theorem C47_parallel_refuted :
  parInsert [true;true;true;true;true;false;true;false;false;false;false;false] 0 1 2 3 = UB /\
  exists s, parInsert [true;true;true;false;false;false;false;false;false;true;true;true] 0 1 2 3 = Ok s /\
    sib s 2 = 1 /\ In 1 (freed s).
Proof. split; [vm_compute; reflexivity|]. eexists. split; [reflexivity|]. vm_compute. auto. Qed.
Print Assumptions C47_parallel_refuted.
