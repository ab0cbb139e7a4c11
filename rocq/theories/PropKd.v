(** Properties C01-C07 and C17: the static kd-tree and its range searches. *)
From Coq Require Import Reals Floats.
From Verif Require Import Base Num FloatNum FloatLaws KdModel KdSpec KdBuild KdConstruct RGeom
  RangeModel RangeProofs SplitModel SplitProofs KdExtra.

(** Sample data: six planar points, two of them equal. *)
Definition sampleF : list (list float) := [[1;2];[3;0.5];[-1;4];[3;0.5];[2;2];[0;7]]%float.
Definition sampleR : list (list R) := [[1;2];[3;1/2];[-1;4];[3;1/2];[2;2];[0;7]]%R.

(** C01: building never throws, never uses an uninitialised dimension, and the
    items of the tree (read leaf by leaf) are a permutation of the input.  For
    every number type with the order laws on [ok] values. *)
Theorem C01_build_permutation :
  forall (N : Num) (ok : nT N -> Prop), OrdLaws N ok -> SpanLaw N ok ->
  forall dim A (pt : A -> list (nT N)) parallel workers threshold leafSize P,
  1 <= dim -> 1 <= leafSize -> 0 < workers -> P <> [] ->
  (forall x, In x P -> forall d, d < dim -> ok (coord (pt x) d)) ->
  exists t, build N dim A pt parallel workers threshold leafSize P = Ok t /\
    Permutation (items t) P /\ concat (leaves t) = items t.
Proof.
  exact (fun N ok OL SL dim A pt par w th ls P Hd HL HW HP Hok =>
    match @build_all N ok OL SL dim Hd A pt par w th ls P HL HW HP Hok with
    | ex_intro _ t (conj E (conj H1 _)) => ex_intro _ t (conj E (conj H1 (leaves_items t)))
    end).
Qed.
Print Assumptions C01_build_permutation.

(** The same for IEEE doubles: every finite input. *)
Theorem C01_build_permutation_double :
  forall dim A (pt : A -> list float) parallel workers threshold leafSize P,
  1 <= dim -> 1 <= leafSize -> 0 < workers -> P <> [] ->
  (forall x, In x P -> forall d, d < dim -> PrimFloat.is_finite (nth d (pt x) 0%float) = true) ->
  exists t, build FNum dim A pt parallel workers threshold leafSize P = Ok t /\
    Permutation (items t) P /\ concat (leaves t) = items t.
Proof. exact (C01_build_permutation FNum ffin F_ordlaws_fin F_span). Qed.
Print Assumptions C01_build_permutation_double.

(** Without any assumption on the numbers (NaN, infinities): a successful build
    still loses and duplicates nothing, and it neither throws nor runs
    forever. *)
Theorem C01_build_any_numbers :
  forall (N : Num) dim A (pt : A -> list (nT N)) parallel workers threshold leafSize P,
  1 <= leafSize -> 0 < workers -> P <> [] ->
  match build N dim A pt parallel workers threshold leafSize P with
  | Ok t => Permutation (items t) P /\ shape leafSize t
  | UB => True
  | Throw | Fuel => False
  end.
Proof. exact (fun N dim A pt par w th ls P => @build_struct N dim A pt par w th ls P). Qed.
Print Assumptions C01_build_any_numbers.

Example C01_example :
  exists t, build FNum 2 _ (fun x => x) false 1 2000 2 sampleF = Ok t /\
    leaves t = [[[1;2]];[[3;0.5];[3;0.5]];[[2;2]];[[-1;4];[0;7]]]%float.
Proof. eexists. split; vm_compute; reflexivity. Qed.
Example C01_example_parallel :
  exists t, build FNum 2 _ (fun x => x) true 3 2 1 sampleF = Ok t /\ length (leaves t) = 6.
Proof. eexists. split; vm_compute; reflexivity. Qed.

(** C02: every node's box is the exact bounding box of the node's items. *)
Theorem C02_boxes_tight :
  forall (N : Num) (ok : nT N -> Prop), OrdLaws N ok -> SpanLaw N ok ->
  forall dim A (pt : A -> list (nT N)) parallel workers threshold leafSize P t,
  1 <= dim -> 1 <= leafSize -> 0 < workers -> P <> [] ->
  (forall x, In x P -> forall d, d < dim -> ok (coord (pt x) d)) ->
  build N dim A pt parallel workers threshold leafSize P = Ok t ->
  forall s, In s (subtrees t) -> forall d, d < dim ->
    (forall x, In x (items s) -> nle N (coord (bmin (tbox s)) d) (coord (pt x) d) = true /\
                                 nle N (coord (pt x) d) (coord (bmax (tbox s)) d) = true) /\
    (exists x, In x (items s) /\ coord (pt x) d = coord (bmin (tbox s)) d) /\
    (exists x, In x (items s) /\ coord (pt x) d = coord (bmax (tbox s)) d).
Proof.
  exact (fun N ok OL SL dim A pt par w th ls P t Hd HL HW HP Hok E =>
    proj1 (proj2 (proj2 (proj2 (proj2 (@build_boxes N ok OL SL dim A pt par w th ls P t Hd HL HW HP Hok E)))))).
Qed.
Print Assumptions C02_boxes_tight.

(** Serial and block-parallel computation agree for all worker counts. *)
Theorem C02_box_independent_of_workers :
  forall A (pt : A -> list R) dim its w w', 0 < w -> 0 < w' -> its <> [] ->
  exists b b' b'', boundingBoxParallel RNum dim A pt w its = Ok b /\
    boundingBoxParallel RNum dim A pt w' its = Ok b' /\
    boundingBoxSerial RNum dim A pt its = Ok b'' /\
    forall d, d < dim ->
      coord (bmin b) d = coord (bmin b') d /\ coord (bmax b) d = coord (bmax b') d /\
      coord (bmin b) d = coord (bmin b'') d /\ coord (bmax b) d = coord (bmax b'') d.
Proof. exact bbox_workers. Qed.
Print Assumptions C02_box_independent_of_workers.

Example C02_example :
  boundingBoxParallel FNum 2 _ (fun x => x) 2 sampleF
  = Ok {| bmin := [-1;0.5]%float : list (nT FNum); bmax := [3;7]%float |}.
Proof. vm_compute. reflexivity. Qed.
(** Doubles without NaN satisfy the laws used above. *)
Example C02_doubles : OrdLaws FNum ffin /\ SpanLaw FNum ffin.
Proof. exact (conj F_ordlaws_fin F_span). Qed.

(** C03: shape, and distinct in-range node-pool slots: [slots t 0] are the
    offsets at which the nodes other than the root are written in the pool of
    2n-1 nodes. *)
Theorem C03_shape_and_pool :
  forall (N : Num) dim A (pt : A -> list (nT N)) parallel workers threshold leafSize P t,
  1 <= leafSize -> 0 < workers -> P <> [] ->
  build N dim A pt parallel workers threshold leafSize P = Ok t ->
  (forall s, In s (subtrees t) ->
     match s with
     | Leaf its _ => 1 <= length its <= leafSize
     | Node _ l r => 1 <= size l /\ 1 <= size r /\ size s = size l + size r /\ leafSize < size s
     end) /\
  NoDup (slots t 0) /\
  (forall o, In o (slots t 0) -> o < 2 * length P - 1) /\
  length (slots t 0) + 1 = length (subtrees t).
Proof. exact build_pool. Qed.
Print Assumptions C03_shape_and_pool.

(** With leafSize = 1 the leaves are the single points. *)
Theorem C03_singleton_leaves :
  forall (N : Num) dim A (pt : A -> list (nT N)) parallel workers threshold P t,
  0 < workers -> P <> [] ->
  build N dim A pt parallel workers threshold 1 P = Ok t ->
  leaves t = map (fun x => [x]) (items t) /\ length (subtrees t) = 2 * length P - 1.
Proof. exact build_singletons. Qed.
Print Assumptions C03_singleton_leaves.

Example C03_example : exists t,
  build FNum 2 _ (fun x => x) false 1 2000 2 sampleF = Ok t /\
  slots t 0 = [0; 1; 2; 3; 6; 7].
Proof. eexists. split; vm_compute; reflexivity. Qed.

(** C04: the radius search returns exactly the points within Euclidean distance
    [r] of [q], each as often as it occurs in the input (exact arithmetic). *)
Theorem C04_range_search_exact :
  forall dim A (pt : A -> list R) parallel workers threshold leafSize P t,
  1 <= dim -> 1 <= leafSize -> 0 < workers -> P <> [] ->
  build RNum dim A pt parallel workers threshold leafSize P = Ok t ->
  forall q r, Permutation (rangeSearch RNum dim A pt t q r)
                          (filter (fun x => Rleb (edist dim q (pt x)) r) P).
Proof. exact rangeSearch_correct. Qed.
Print Assumptions C04_range_search_exact.

Example C04_example : exists t,
  build RNum 2 _ (fun x => x) false 1 2000 1 sampleR = Ok t.
Proof.
  destruct (C01_build_permutation RNum (fun _ => True) R_ordlaws R_span 2 (list R) (fun x => x)
    false 1 2000 1 sampleR) as (t & E & _); auto; try discriminate. eauto.
Qed.
(** The same search executed on doubles. *)
Example C04_example_run : exists t,
  build FNum 2 _ (fun x => x) false 1 2000 1 sampleF = Ok t /\
  rangeSearch FNum 2 _ (fun x => x) t [2;1]%float 1.5%float = [[1;2];[3;0.5];[3;0.5];[2;2]]%float.
Proof. eexists. split; vm_compute; reflexivity. Qed.

(** C05: the callback is applied once to each item in the ball and to no other:
    the final callback state is that of folding it over those items. *)
Theorem C05_range_traverse_once :
  forall dim A (pt : A -> list R) parallel workers threshold leafSize P t,
  1 <= dim -> 1 <= leafSize -> 0 < workers -> P <> [] ->
  build RNum dim A pt parallel workers threshold leafSize P = Ok t ->
  forall S (f : S -> A -> S) s0 q r,
  exists l, Permutation l (filter (fun x => Rleb (edist dim q (pt x)) r) P) /\
    fold_left f (rangeTraverse RNum dim A pt t q r) s0 = fold_left f l s0.
Proof. exact rangeTraverse_fold. Qed.
Print Assumptions C05_range_traverse_once.

Example C05_example : exists t,
  build FNum 2 _ (fun x => x) false 1 2000 1 sampleF = Ok t /\
  fold_left (fun n _ => S n) (rangeTraverse FNum 2 _ (fun x => x) t [2;1]%float 1.5%float) 0 = 4.
Proof. eexists. split; vm_compute; reflexivity. Qed.

(** C06: the orthogonal search returns exactly the items in the closed box with
    the computed corners q-h and (q-h)+2h.  Holds for doubles too. *)
Theorem C06_orthogonal_search_exact :
  forall (N : Num) (ok : nT N -> Prop), OrdLaws N ok -> SpanLaw N ok ->
  forall dim A (pt : A -> list (nT N)) parallel workers threshold leafSize P t,
  1 <= dim -> 1 <= leafSize -> 0 < workers -> P <> [] ->
  (forall x, In x P -> forall d, d < dim -> ok (coord (pt x) d)) ->
  build N dim A pt parallel workers threshold leafSize P = Ok t ->
  forall q h,
    (forall d, d < dim -> ok (nsub N (coord q d) h) /\
                          ok (nadd N (nsub N (coord q d) h) (nmul N h (ntwo N)))) ->
    let inside x := forallb (fun d =>
        nle N (nsub N (coord q d) h) (coord (pt x) d) &&
        nle N (coord (pt x) d) (nadd N (nsub N (coord q d) h) (nmul N h (ntwo N)))) (seq 0 dim) in
    Permutation (orthogonalRangeSearch N dim A pt t q h) (filter inside P).
Proof. exact (fun N ok OL SL => @orthSearch_correct N ok OL SL). Qed.
Print Assumptions C06_orthogonal_search_exact.

Example C06_example : exists t,
  build FNum 2 _ (fun x => x) false 1 2000 2 sampleF = Ok t /\
  orthogonalRangeSearch FNum 2 _ (fun x => x) t [2;1]%float 1%float = [[1;2];[3;0.5];[3;0.5];[2;2]]%float.
Proof. eexists. split; vm_compute; reflexivity. Qed.

(** C07, the part that holds for every number type (doubles with rounding
    included): only points whose computed distance is at most r are returned.
    Missing for the full statement: completeness, which is false, see below. *)
Theorem C07_range_search_sound_partial :
  forall (N : Num) dim A (pt : A -> list (nT N)) (t : tree N A) q r x,
  In x (rangeSearch N dim A pt t q r) ->
  In x (items t) /\ (nle N (dist N dim (pt x) q) r = true \/ nle N (dist N dim q (pt x)) r = true).
Proof. exact (fun N dim A pt t q r x => @rangeSearch_sound N dim A pt t q r x). Qed.
Print Assumptions C07_range_search_sound_partial.

(** On doubles the search misses a point whose computed distance is equal to r:
    the corner (q-r)+2r is rounded below it. *)
Theorem C07_float_range_search_refuted :
  exists (P : list (list float)) t q r x,
    build FNum 2 _ (fun p => p) false 1 2000 1 P = Ok t /\
    In x P /\ PrimFloat.leb (dist FNum 2 q x) r = true /\
    ~ In x (rangeSearch FNum 2 _ (fun p => p) t q r).
Proof.
  exists [[100000000000000016; 0]; [0;0]]%float. eexists.
  exists [8;0]%float, 1e17%float, [100000000000000016; 0]%float.
  split; [vm_compute; reflexivity|]. split; [left; reflexivity|]. split; [vm_compute; reflexivity|].
  vm_compute. intros [H|[]]. inversion H as [H1].
  assert (E : PrimFloat.eqb 0%float 100000000000000016%float = true) by (rewrite H1; reflexivity).
  vm_compute in E. discriminate.
Qed.
Print Assumptions C07_float_range_search_refuted.

(** C17: the block-parallel two-way split, for every block size and every order
    in which the parallel writes happen, gives the elements with a false flag in
    order, then the others in order, and the number of the former. *)
Theorem C17_split_two_stable :
  forall T bs (X : list (T * bool)) ws, 1 <= bs -> Permutation ws (splitWrites bs X) ->
  split_two bs X ws
  = (Ok (map Some (map fst (filter (fun x => negb (snd x)) X) ++ map fst (filter snd X))),
     length (filter (fun x => negb (snd x)) X)).
Proof. exact split_two_stable. Qed.
Print Assumptions C17_split_two_stable.

(** k-way split: chunk x holds the elements of class x in order (elements whose
    class is k or more are dropped). *)
Theorem C17_split_k_stable :
  forall T k bs (X : list (T * nat)) ws, 1 <= bs -> Permutation ws (splitWritesK k bs X) ->
  split_k k bs X ws
  = map (fun x => Ok (map Some (map fst (filter (fun e => snd e =? x) X)))) (seq 0 k).
Proof. exact split_k_correct. Qed.
Print Assumptions C17_split_k_stable.

(** The split inside the parallel kd-tree build is this split. *)
Theorem C17_build_uses_split :
  forall A (fl : A -> bool) its bs ws, 1 <= bs ->
  Permutation ws (splitWrites bs (map (fun x => (x, fl x)) its)) ->
  split_two bs (map (fun x => (x, fl x)) its) ws
  = (Ok (map Some (fst (splitFlags A fl its))), snd (splitFlags A fl its)).
Proof. exact split_two_construct. Qed.
Print Assumptions C17_build_uses_split.

Example C17_example :
  let X := [(1,true);(2,false);(3,true);(4,false);(5,false)] in
  split_two 2 X (rev (splitWrites 2 X)) = (Ok (map Some [2;4;5;1;3]), 3).
Proof. vm_compute. reflexivity. Qed.
Example C17_example_k :
  let X := [(1,2);(2,0);(3,1);(4,2);(5,7)] in
  split_k 3 2 X (rev (splitWritesK 3 2 X)) = [Ok [Some 2]; Ok [Some 3]; Ok [Some 1; Some 4]].
Proof. vm_compute. reflexivity. Qed.
