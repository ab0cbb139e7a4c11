(** C25-C27, C57-C61: the kd-trees of include/batchKdtree. *)
From Coq Require Import Reals Floats NArith.
From Verif Require Import Base Num FloatNum FloatLaws KeySort KdModel KdSpec RangeModel RangeProofs BatchSplit BatchAddr BatchModel
  BatchTree BatchMedian BatchPack BatchErase BatchObj BatchInst BatchRun BatchSingle.
Set Implicit Arguments.

(** C25: with the tables of utils.h the sizes of the 2^d buckets are those of
    repeated halving (the right half takes the odd item), the left ends are
    their partial sums, and they differ by at most one and sum to n. *)
Theorem C25_leaf_sizes : forall d n, d <= maxLevels ->
  map (bucketSize split_points d n) (seq 0 (2 ^ d)) = halves d n /\
  (forall i, i <= 2 ^ d -> nth i (computeLeftEndpoints split_points d n) 0 = list_sum (firstn i (halves d n))) /\
  (forall i, i < 2 ^ d -> nth i (computeBottomChildSizes split_points d n) 0 =
     list_sum (map (fun m => 2 * m - 1) (firstn i (halves d n)))) /\
  list_sum (halves d n) = n /\
  (forall a b, In a (halves d n) -> In b (halves d n) -> a <= b + 1).
Proof.
  intros d n Hd. destruct split_points_good as [G L]. assert (Hl : d < length split_points) by lia.
  split; [|split; [|split; [|split]]].
  - rewrite halves_map. apply map_ext_in. intros i Hi. apply in_seq in Hi. apply bucketSize_bsz; auto. lia.
  - intros i Hi. apply leftEndpoints_spec; auto.
  - intros i Hi. apply bottomChildSizes_spec; auto.
  - apply halves_sum.
  - intros a b Ha Hb. rewrite halves_map in Ha, Hb.
    apply in_map_iff in Ha as (i & <- & Hi). apply in_map_iff in Hb as (j & <- & Hj).
    apply in_seq in Hi. apply in_seq in Hj.
    pose proof (@bsz_balanced n d i ltac:(lia)). pose proof (@bsz_balanced n d j ltac:(lia)). lia.
Qed.
Print Assumptions C25_leaf_sizes.

Example C25_example :
  map (bucketSize (initializeSplitPoints 3 []) 3 21) (seq 0 8) = [2; 3; 2; 3; 2; 3; 3; 3] /\
  computeLeftEndpoints (initializeSplitPoints 3 []) 3 21 = [0; 2; 5; 7; 10; 12; 15; 18; 21] /\
  halves 3 21 = [2; 3; 2; 3; 2; 3; 3; 3].
Proof. vm_compute. auto. Qed.

(** C57: the cache-oblivious build.  For every order in which the subtrees of
    the parallel build run, every place at which the serial code takes over,
    and any median splits meeting their contract, the call fills the node array
    within its bounds with a tree at address 0 over a permutation of the
    points, in which every node splits its range at the middle, no item left of
    a split is above and no item right of it below the split value, and the
    leaves hold between one and [ls] points. *)
Theorem C57_co_build : forall N (ok : nT N -> Prop) dim A (pt : A -> list (nT N)) ls msplit psplit par ord points,
  0 < dim -> 1 <= ls ->
  msplit_ok N dim pt (okItem N ok dim pt) msplit -> msplit_ok N dim pt (okItem N ok dim pt) psplit ->
  (forall n, par n = true -> ls < n) -> (forall n, Permutation (seq 0 n) (ord n)) ->
  points <> [] -> numLevels ls (length points) <= maxLevels -> (forall x, In x points -> okItem N ok dim pt x) ->
  let n := length points in
  let L := numLevels ls n in
  exists c its' ns' t al,
    coBuildP dim ls split_points child_indices msplit psplit par ord (S L) false 0 n 0 0 L
      (points, fun _ => None) = Ok (c, (its', ns')) /\
    Permutation points its' /\ rep ns' 0 t al /\ NoDup al /\ (forall k, In k al -> k < 2 * n - 1) /\
    (forall k, 2 * n - 1 <= k -> ns' k = None) /\ ktOk N dim pt ls its' 0 n 0 t.
Proof.
  intros N ok dim A pt ls msplit psplit par ord points Hd Hl H1 H2 H3 H4 H5 H6 H7.
  exact (@coNodes_ok N dim A pt ok Hd ls Hl msplit psplit H1 H2 par H3 ord H4 points H5 H6 H7).
Qed.
Print Assumptions C57_co_build.

(** The median splits of utils.h meet the contract: [nth_element] for any
    numbers, the sort and midpoint for reals. *)
Theorem C57_medians :
  (forall N (ok : nT N -> Prop) dim A (pt : A -> list (nT N)) nthel, nth_contract N ok dim pt nthel ->
     msplit_ok N dim pt (okItem N ok dim pt) (serialMedianPartition N pt nthel)) /\
  (forall dim A (pt : A -> list R) srt, sort_contract RNum (fun _ => True) dim pt srt ->
     msplit_ok RNum dim pt (okItem RNum (fun _ => True) dim pt) (parallelMedianPartition RNum pt srt)).
Proof.
  split.
  - intros N ok dim A pt nthel H. exact (serial_median_ok H).
  - intros dim A pt srt H. exact (parallel_median_ok H).
Qed.
Print Assumptions C57_medians.

(** With doubles the midpoint of two neighbouring values is the lower one, so
    the item left of the split is not below the split value. *)
Definition idp {K : Num} (p : list (nT K)) : list (nT K) := p.
Theorem C57_midpoint_double_refuted :
  let its := [[1%float]; [0x1.0000000000001p+0%float]] in
  let srt := fun d => sortBy FNum (fun x : list float => coord (N := FNum) x d) in
  exists its' sv, parallelMedianPartition FNum (@idp FNum) srt 0 its = Ok (its', sv) /\
    map (fun x => nlt FNum (coord (N := FNum) x 0) sv) its' = [false; false].
Proof. eexists. eexists. split; vm_compute; reflexivity. Qed.
Print Assumptions C57_midpoint_double_refuted.

(** Seven points, leaf size 1, small tables (the large ones are not evaluated). *)
Definition fnth (d m : nat) : list (list float) -> list (list float) := sortBy FNum (fun x => coord (N := FNum) x d).
Definition fser := serialMedianPartition FNum (@idp FNum) fnth.
Definition fpar := parallelMedianPartition FNum (@idp FNum) (fun d => fnth d 0).
Fixpoint ktSplits {T B} (t : kt T B) : list (nat * nat * option T) :=
  match t with
  | KLeaf s e _ _ => [(s, e, None)]
  | KNode _ sv s e _ l r => (s, e, Some sv) :: ktSplits l ++ ktSplits r
  end.
Definition demoPts : list (list float) :=
  [[5; 1]; [3; 7]; [9; 2]; [1; 8]; [7; 6]; [2; 5]; [8; 4]]%float.
Example C57_example :
  match coBuilder FNum 2 (@idp FNum) 1 (initializeSplitPoints 5 []) (initializeChildIndices 5 [[]]) fser fpar
          (fun n => 3 <? n) (fun n => rev (seq 0 n)) demoPts with
  | Ok (its', t) => (its', ktSplits t)
  | _ => ([], [])
  end = ([[2; 5]; [1; 8]; [3; 7]; [5; 1]; [9; 2]; [7; 6]; [8; 4]]%float,
   [(0, 7, Some 4%float); (0, 3, Some 7%float); (0, 1, None); (1, 3, Some 3%float); (1, 2, None); (2, 3, None);
    (3, 7, Some 3%float); (3, 5, Some 9%float); (3, 4, None); (4, 5, None); (5, 7, Some 8%float); (5, 6, None); (6, 7, None)]).
Proof. vm_compute. reflexivity. Qed.

(** C58: the heap-layout build, likewise; a tree for 2^j points has 2*2^j-1
    node places. *)
Theorem C58_bhl_build : forall N (ok : nT N -> Prop) dim A (pt : A -> list (nT N)) ls msplit j points,
  0 < dim -> 1 <= ls -> msplit_ok N dim pt (okItem N ok dim pt) msplit ->
  points <> [] -> length points <= 2 ^ j -> (forall x, In x points -> okItem N ok dim pt x) ->
  let n := length points in
  exists its' ns' t al,
    bhlBuild dim ls msplit (S n) 0 n 0 0 (points, fun _ => None) = Ok (its', ns') /\
    Permutation points its' /\ rep ns' 0 t al /\ NoDup al /\ (forall k, In k al -> k < 2 * 2 ^ j - 1) /\
    (forall k, 2 * 2 ^ j - 1 <= k -> ns' k = None) /\ ktOk N dim pt ls its' 0 n 0 t.
Proof.
  intros N ok dim A pt ls msplit j points Hd Hl H1 H2 H3 H4.
  exact (@bhlNodes_ok N dim A pt ok Hd ls Hl msplit H1 points j H2 H3 H4).
Qed.
Print Assumptions C58_bhl_build.

Example C58_example :
  match bhlBuild 2 2 fser 8 0 7 0 0 (demoPts, fun _ => None) with
  | Ok (its', ns) => (its', map (fun k => match ns k with Some c => Some (cn_s c, cn_e c) | None => None end) (seq 0 9))
  | _ => ([], [])
  end = ([[2; 5]; [3; 7]; [1; 8]; [5; 1]; [9; 2]; [8; 4]; [7; 6]]%float,
         [Some (0, 7); Some (0, 3); Some (3, 7); Some (0, 1); Some (1, 3); Some (3, 5); Some (5, 7); None; None]).
Proof. vm_compute. reflexivity. Qed.

(** The laws used below hold for reals and for finite doubles. *)
Theorem C59_numbers : (OrdLaws RNum (fun _ => True) /\ EqLaw RNum (fun _ => True)) /\ (OrdLaws FNum ffin /\ EqLaw FNum ffin).
Proof. exact (conj (conj R_ordlaws R_eqlaw) (conj F_ordlaws_fin F_eqlaw)). Qed.
Print Assumptions C59_numbers.

(** C59: range search, insertion and bulk erasure in every state reached by
    any sequence of insertions and bulk erasures. *)
Theorem C59_history : forall N (ok : nT N -> Prop) dim A (pt : A -> list (nT N)) dflt ls max full build b e,
  OrdLaws N ok -> EqLaw N ok -> 0 < dim -> 1 <= ls ->
  treeLayout ok dim pt ls max full build ->
  reach ok dim pt dflt build full (fun _ => True) max b e ->
  (forall qb, okbox ok dim qb -> borth dim pt b qb = Ok (filter (inQBox N dim A pt qb) (blive b))) /\
  bt_cur b = length (blive b) /\
  (forall points, points <> [] -> (forall x, In x points -> okItem N ok dim pt x) -> (e = true -> bt_cur b <> 0) ->
     length (blive b) + length points <= bt_cap b ->
     exists b', binsert dflt build b points = Ok b' /\
       reach ok dim pt dflt build full (fun _ => True) max b' false /\
       Permutation (blive b ++ points) (blive b')) /\
  (forall part lfirst rebuild Q, part_ok part -> (forall q, In q Q -> okItem N ok dim pt q) ->
     exists b', bbulkEraseR dim pt dflt build part lfirst rebuild b Q = Ok b' /\
       reach ok dim pt dflt build full (fun _ => True) max b' (if rebuild then false else if bt_cur b =? 0 then e else true) /\
       exists rem, Permutation (blive b) (rem ++ blive b') /\
         forall x, In x rem -> exists q, In q Q /\ peq N dim (pt q) (pt x) = true) /\
  (forall q, exists r, bcontains dim pt b q = Ok r /\
     (r = true -> exists x, In x (blive b) /\ peq N dim (pt q) (pt x) = true)).
Proof.
  intros N ok dim A pt dflt ls max full build b e OL EL Hd Hl HL R.
  exact (@run_general N ok dim A pt dflt build OL EL Hd max full (layout_spec OL Hd Hl HL) b e R).
Qed.
Print Assumptions C59_history.

(** C26: when no two stored points ever share a coordinate, [contains] answers
    exactly for the stored points, and a bulk erase removes exactly the
    requested ones. *)
Theorem C26_contains_tie_free : forall N (ok : nT N -> Prop) dim A (pt : A -> list (nT N)) dflt ls max full build b e,
  OrdLaws N ok -> EqLaw N ok -> 0 < dim -> 1 <= ls ->
  treeLayout ok dim pt ls max full build ->
  reach ok dim pt dflt build full (tieFree N dim pt) max b e ->
  (forall q, okItem N ok dim pt q -> exists r, bcontains dim pt b q = Ok r /\
     (r = true <-> exists x, In x (blive b) /\ peq N dim (pt q) (pt x) = true)) /\
  (forall part lfirst rebuild Q, part_ok part -> (forall q, In q Q -> okItem N ok dim pt q) ->
     exists b', bbulkEraseR dim pt dflt build part lfirst rebuild b Q = Ok b' /\
       Permutation (blive b') (filter (fun x => negb (existsb (fun q => peq N dim (pt q) (pt x)) Q)) (blive b))).
Proof.
  intros N ok dim A pt dflt ls max full build b e OL EL Hd Hl HL R.
  exact (@run_tieFree N ok dim A pt dflt build OL EL Hd max full (layout_spec OL Hd Hl HL) b e R).
Qed.
Print Assumptions C26_contains_tie_free.

(** Heap-layout trees of doubles, for the examples. *)
Definition fmaxP : list float := [nmax FNum; nmax FNum].
Definition bhlF (ls : nat) := @bhlbuild FNum (list float) (bhlBuilder FNum 2 (@idp FNum) ls fser).
Definition newF (j : nat) := bnew FNum j (repeat fmaxP (2 ^ j)).
Definition insF (ls : nat) := @binsert FNum (list float) fmaxP (bhlF ls).
Definition eraF (ls : nat) (rebuild : bool) :=
  @bbulkEraseR FNum 2 (list float) (@idp FNum) fmaxP (bhlF ls) (@partition (list float)) (fun _ _ => false) rebuild.
Definition hasF := @bcontains FNum 2 (list float) (@idp FNum).
Definition boxF (b : btree FNum (list float)) (lo hi : list float) :=
  @borth FNum 2 (list float) (@idp FNum) b (@Build_box FNum lo hi).

Example C26_example :
  (b <- insF 1 (newF 3) (firstn 5 demoPts) ;; b <- eraF 1 false b [[1; 8]; [6; 6]; [9; 2]]%float ;;
   b <- insF 1 b (skipn 5 demoPts) ;;
   r1 <- hasF b [3; 7]%float ;; r2 <- hasF b [9; 2]%float ;; r3 <- hasF b [8; 4]%float ;;
   r <- boxF b [2; 4]%float [7; 7]%float ;; Ok (blive b, [r1; r2; r3], r))
  = Ok ([[2; 5]; [3; 7]; [5; 1]; [7; 6]; [8; 4]]%float, [true; false; true], [[2; 5]; [3; 7]; [7; 6]]%float).
Proof. vm_compute. reflexivity. Qed.

(** Points with equal coordinates can be missed, and then not erased either. *)
Fixpoint column (n : nat) (y : float) : list (list float) :=
  match n with 0 => [] | S n' => [0; y]%float :: column n' (y + 1)%float end.
Theorem C26_ties_refuted :
  (b <- insF 1 (newF 1) [[0; 0]; [0; 1]]%float ;; r <- hasF b [0; 0]%float ;; Ok (blive b, r))
    = Ok ([[0; 0]; [0; 1]]%float, false) /\
  (b <- insF 16 (newF 5) (column 17 0%float) ;; r <- hasF b [0; 3]%float ;; 
   b' <- eraF 16 true b [[0; 3]]%float ;; Ok (length (blive b), existsb (fun x => peq FNum 2 [0; 3]%float x) (blive b), r, length (blive b')))
    = Ok (17, true, false, 17).
Proof. split; vm_compute; reflexivity. Qed.
Print Assumptions C26_ties_refuted.

(** C27: a bulk erase without rebuild that removes everything leaves the flags
    of the removed items, and [build_no_bloom] does not reset them: the next
    points are not found, and the insertion after that stores
    default-constructed points. *)
Theorem C27_emptied_buffer_refuted :
  (b <- insF 16 (newF 3) [[1; 1]; [2; 2]]%float ;; b <- eraF 16 false b [[1; 1]; [2; 2]]%float ;;
   b <- insF 16 b [[5; 5]; [6; 6]; [7; 7]]%float ;;
   r5 <- hasF b [5; 5]%float ;; r7 <- hasF b [7; 7]%float ;; all <- boxF b [0; 0]%float [9; 9]%float ;;
   b' <- insF 16 b [[8; 8]]%float ;;
   r5' <- hasF b' [5; 5]%float ;; rm <- hasF b' fmaxP ;;
   Ok (bt_cur b, r5, r7, all, blive b', r5', rm))
  = Ok (3, false, true, [[7; 7]]%float,
        [[7; 7]; fmaxP; fmaxP; [8; 8]]%float, false, true).
Proof. vm_compute. reflexivity. Qed.
Print Assumptions C27_emptied_buffer_refuted.

(** C60: erasing single points with [erase<false>]: emptying a leaf below the
    root leaves a null child that the next search follows; emptying the root
    leaf follows a null parent. *)
Definition singleF (b : btree FNum (list float)) (Q : list (list float)) (q : list float) : res bool :=
  match toObj b with
  | None => UB
  | Some o =>
    o' <- fold_left (fun r x => o <- r ;; '(o', _) <- oeraseP 2 (@idp FNum) o x ;; Ok o') Q (Ok o) ;;
    ocontains 2 (@idp FNum) o' q
  end.
Theorem C60_single_erase_refuted :
  (b <- insF 1 (newF 1) [[1; 1]; [2; 2]]%float ;; singleF b [[1; 1]]%float [1; 1]%float) = UB /\
  (b <- insF 1 (newF 0) [[1; 1]]%float ;; singleF b [[1; 1]]%float [2; 2]%float) = UB /\
  (* away from the root it works *)
  (b <- insF 1 (newF 3) demoPts ;; singleF b [[3; 7]]%float [3; 7]%float) = Ok false /\
  (b <- insF 1 (newF 3) demoPts ;; singleF b [[3; 7]]%float [1; 8]%float) = Ok true.
Proof. repeat split; vm_compute; reflexivity. Qed.
Print Assumptions C60_single_erase_refuted.
