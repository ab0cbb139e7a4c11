(** C22-C24: the logarithmic forest of batch kd-trees and the Bloom filter. *)
From Coq Require Import Reals Floats NArith.
From Verif Require Import Base Num FloatNum FloatLaws KeySort KdModel KdSpec RangeModel RangeProofs BatchSplit BatchAddr BatchModel
  BatchTree BatchMedian BatchPack BatchErase BatchObj BatchInst BatchRun PropBatch Sched
  LogModel LogPlan LogExec LogInsert LogErase BloomModel BloomProofs.
Set Implicit Arguments.

(** C22: in every state reached by insertions and bulk erasures, with the tasks
    of every insertion run in any order: an insertion adds exactly the batch or
    throws; every slot is empty or more than half full, and exactly full if
    nothing was ever erased; without erasures the insertion succeeds if the
    points fit below [2^num * B] and throws if they exceed it. *)
Theorem C22_insert : forall N (ok : nT N -> Prop) dim A (pt : A -> list (nT N)) dflt lsb lss smax bbuild sbuild num lg P f t,
  OrdLaws N ok -> EqLaw N ok -> 0 < dim -> 1 <= lsb -> 1 <= lss -> okItem N ok dim pt dflt ->
  let B := 2 ^ lg in
  (forall k, k < num -> 2 ^ k * B <= smax) ->
  treeLayout ok dim pt lsb B true bbuild -> treeLayout ok dim pt lss smax false sbuild ->
  forest ok dim pt B dflt bbuild sbuild P num lg f t ->
  (length (lt_trees t) = num /\ length (blive (lt_buf t)) <= B /\
   (forall k b, nth_error (lt_trees t) k = Some b ->
      bt_cur b = length (blive b) /\ bt_cur b <= 2 ^ k * B /\
      (bt_cur b = 0 \/ 2 ^ k * B < 2 * bt_cur b) /\
      (f = true -> bt_cur b = 0 \/ bt_cur b = 2 ^ k * B)) /\
   ltSize t = length (stored t)) /\
  (forall ord points, (forall l, Permutation l (ord l)) -> (forall x, In x points -> okItem N ok dim pt x) ->
     let r := ltInsert dflt bbuild sbuild B ord t points in
     (r = Throw \/ exists t', r = Ok t' /\ Permutation (stored t ++ points) (stored t')) /\
     (f = true -> length (stored t) + length points < 2 ^ num * B -> r <> Throw) /\
     (f = true -> 2 ^ num * B < length (stored t) + length points -> r = Throw)).
Proof.
  intros N ok dim A pt dflt lsb lss smax bbuild sbuild num lg P f t OL EL Hd Hb Hs Od B Hmax Lb Ls R.
  pose proof (layout_spec OL Hd Hb Lb) as SB. pose proof (layout_spec OL Hd Hs Ls) as SS.
  assert (HB : 0 < B) by (unfold B; pose proof (pow2_pos lg); lia).
  split.
  - exact (@forest_shape N ok OL EL dim Hd A pt B HB dflt bbuild sbuild smax SS SB num lg eq_refl Od Hmax P f t R).
  - intros ord points. exact (@forest_insert N ok OL EL dim Hd A pt B HB dflt bbuild sbuild smax SS SB num lg eq_refl Od Hmax P f t ord points R).
Qed.
Print Assumptions C22_insert.

(** C23: a bulk erase never runs out of slots and removes only requested
    points; if no two stored points ever share a coordinate it removes exactly
    the requested ones.  The state after it is again one of those of C22.
    Condition: the buffer is empty, or keeps a point. *)
Theorem C23_erase : forall N (ok : nT N -> Prop) dim A (pt : A -> list (nT N)) dflt lsb lss smax bbuild sbuild num lg P f t,
  OrdLaws N ok -> EqLaw N ok -> 0 < dim -> 1 <= lsb -> 1 <= lss -> okItem N ok dim pt dflt ->
  let B := 2 ^ lg in
  (forall k, k < num -> 2 ^ k * B <= smax) ->
  treeLayout ok dim pt lsb B true bbuild -> treeLayout ok dim pt lss smax false sbuild ->
  forest ok dim pt B dflt bbuild sbuild P num lg f t ->
  let asked := fun Q x => existsb (fun q => peq N dim (pt q) (pt x)) Q in
  forall ord part lfirst Q, (forall l, Permutation l (ord l)) -> part_ok part ->
    (forall q, In q Q -> okItem N ok dim pt q) ->
    (blive (lt_buf t) = [] \/ exists x, In x (blive (lt_buf t)) /\ asked Q x = false) ->
    exists t', ltErase dim pt dflt bbuild sbuild B part lfirst ord t Q = Ok t' /\
      forest ok dim pt B dflt bbuild sbuild P num lg false t' /\
      (exists rem, Permutation (stored t) (rem ++ stored t') /\ forall x, In x rem -> asked Q x = true) /\
      ((forall l, P l -> tieFree N dim pt l) ->
         Permutation (stored t') (filter (fun x => negb (asked Q x)) (stored t))).
Proof.
  intros N ok dim A pt dflt lsb lss smax bbuild sbuild num lg P f t OL EL Hd Hb Hs Od B Hmax Lb Ls R asked ord part lfirst Q.
  pose proof (layout_spec OL Hd Hb Lb) as SB. pose proof (layout_spec OL Hd Hs Ls) as SS.
  assert (HB : 0 < B) by (unfold B; pose proof (pow2_pos lg); lia).
  exact (@forest_erase N ok OL EL dim Hd A pt B HB dflt bbuild sbuild smax SS SB num lg eq_refl Od Hmax P f t ord part lfirst Q R).
Qed.
Print Assumptions C23_erase.

(** Range search returns exactly the stored points in the box; [contains]
    never reports a missing point, and if no two stored points ever share a
    coordinate it finds every stored one. *)
Theorem C23_queries : forall N (ok : nT N -> Prop) dim A (pt : A -> list (nT N)) dflt lsb lss smax bbuild sbuild num lg P f t,
  OrdLaws N ok -> EqLaw N ok -> 0 < dim -> 1 <= lsb -> 1 <= lss -> okItem N ok dim pt dflt ->
  let B := 2 ^ lg in
  (forall k, k < num -> 2 ^ k * B <= smax) ->
  treeLayout ok dim pt lsb B true bbuild -> treeLayout ok dim pt lss smax false sbuild ->
  forest ok dim pt B dflt bbuild sbuild P num lg f t ->
  (forall qb, okbox ok dim qb -> ltOrth dim pt t qb = Ok (filter (inQBox N dim A pt qb) (stored t))) /\
  (forall q, exists r, ltContains dim pt t q = Ok r /\
     (r = true -> exists x, In x (stored t) /\ peq N dim (pt q) (pt x) = true) /\
     ((forall l, P l -> tieFree N dim pt l) -> okItem N ok dim pt q ->
        (exists x, In x (stored t) /\ peq N dim (pt q) (pt x) = true) -> r = true)).
Proof.
  intros N ok dim A pt dflt lsb lss smax bbuild sbuild num lg P f t OL EL Hd Hb Hs Od B Hmax Lb Ls R.
  pose proof (layout_spec OL Hd Hb Lb) as SB. pose proof (layout_spec OL Hd Hs Ls) as SS.
  assert (HB : 0 < B) by (unfold B; pose proof (pow2_pos lg); lia).
  exact (@forest_queries N ok OL EL dim Hd A pt B HB dflt bbuild sbuild smax SS SB num lg eq_refl Od Hmax P f t R).
Qed.
Print Assumptions C23_queries.

(** A forest of doubles with buffer size 2, for the examples; the static trees
    use small tables. *)
Definition fco := @cobuild FNum (list float)
  (coBuilder FNum 2 (@idp FNum) 1 (initializeSplitPoints 5 []) (initializeChildIndices 5 [[]]) fser fpar
     (fun n => 3 <? n) (fun n => rev (seq 0 n))).
Definition ltF (num : nat) := ltNew FNum fmaxP num 1.
Definition ltInsF := ltInsert (N := FNum) fmaxP (bhlF 1) fco 2 (@rev (option move)).
Definition ltEraF := ltErase (N := FNum) 2 (@idp FNum) fmaxP (bhlF 1) fco 2 (@partition (list float)) (fun _ _ => false) (@rev (option move)).
Definition ltHasF := ltContains (N := FNum) 2 (@idp FNum).
Definition shapeOf (t : ltree FNum (list float)) := (lt_mask t, blive (lt_buf t), map (@blive FNum (list float)) (lt_trees t)).

(** Three insertions with carries, then an erasure that drains a slot. *)
Example C22_example :
  (t <- ltInsF (ltF 2) (firstn 3 demoPts) ;; t2 <- ltInsF t (firstn 2 (skipn 3 demoPts)) ;;
   t3 <- ltEraF t2 [[3; 7]; [9; 2]; [6; 6]]%float ;;
   r <- ltHasF t3 [7; 6]%float ;; r' <- ltHasF t3 [9; 2]%float ;;
   Ok (shapeOf t, shapeOf t2, shapeOf t3, r, r'))
  = Ok ((1, [[5; 1]]%float, [[[3; 7]; [9; 2]]; []]%float),
        (2, [[5; 1]]%float, [[]; [[3; 7]; [1; 8]; [9; 2]; [7; 6]]]%float),
        (1, [[5; 1]]%float, [[[1; 8]; [7; 6]]; []]%float), true, false) /\
  (t <- ltInsF (ltF 1) (firstn 3 demoPts) ;; ltInsF t (firstn 2 demoPts)) = Throw.
Proof. split; vm_compute; reflexivity. Qed.

(** Emptying the buffer makes the forest lose what is put in the buffer next. *)
Theorem C23_emptied_buffer_refuted :
  (t <- ltInsF (ltF 2) [[5; 1]]%float ;; t <- ltEraF t [[5; 1]]%float ;; t <- ltInsF t [[3; 7]]%float ;;
   r <- ltHasF t [3; 7]%float ;; Ok (ltSize t, stored t, r)) = Ok (1, [], false).
Proof. vm_compute. reflexivity. Qed.
Print Assumptions C23_emptied_buffer_refuted.

(** C24: for every hash function, every filter size above zero and every
    interleaving of the loads and compare-exchanges, an insertion never fails
    and can always be completed; after a build and a further insertion the
    answer for [q] is exactly whether in each of the four arrays some inserted
    point hashes to the bucket of [q]; so every inserted point is reported. *)
Theorem C24_no_false_negatives : forall A (hash64 : A -> nat -> nat) nb, 0 < nb ->
  (forall sched pts a, match bloomBuild hash64 nb sched pts a with Ok _ | Fuel => True | _ => False end /\
     exists sched' a', bloomBuild hash64 nb (sched ++ sched') pts a = Ok a') /\
  (forall sched sched' pts more a a1 a2, bloomBuild hash64 nb sched pts a = Ok a1 ->
     bloomInsert hash64 nb sched' more a1 = Ok a2 ->
     (forall q, exists r, mightContain hash64 nb a2 q = Ok r /\
        (r = true <-> forall j, j < 4 -> exists p, In p (pts ++ more) /\ hash64 p j mod nb = hash64 q j mod nb)) /\
     (forall q, In q (pts ++ more) -> mightContain hash64 nb a2 q = Ok true)).
Proof.
  intros A hash64 nb Hnb. split.
  - intros sched pts a. split; [|exact (@bloomInsert_finish A hash64 nb Hnb pts (bloomClear nb a) sched (clear_shape nb a))].
    pose proof (@bloomInsert_ok A hash64 nb Hnb pts (bloomClear nb a) sched (clear_shape nb a)) as H.
    unfold bloomBuild. destruct (bloomInsert _ _ _ _ _); auto.
  - intros sched sched' pts more a a1 a2 E1 E2. split.
    + intros q. exact (@bloom_answers A hash64 nb Hnb sched sched' pts more a a1 a2 q E1 E2).
    + intros q Hq. destruct (@bloom_answers A hash64 nb Hnb sched sched' pts more a a1 a2 q E1 E2) as (r & E & R).
      rewrite E. f_equal. apply R. intros j _. eauto.
Qed.
Print Assumptions C24_no_false_negatives.

(** The filter drops no request that hashes like an inserted point. *)
Theorem C24_filter : forall A (hash64 : A -> nat -> nat) nb, 0 < nb ->
  forall sched pts a a1 reqs, bloomBuild hash64 nb sched pts a = Ok a1 ->
  exists r, bloomFilter hash64 nb a1 reqs = Ok r /\ (forall q, In q r -> In q reqs) /\
    (forall q p, In q reqs -> In p pts -> (forall j, hash64 q j = hash64 p j) -> In q r).
Proof.
  intros A hash64 nb Hnb sched pts a a1 reqs E.
  pose proof (@bloomInsert_ok A hash64 nb Hnb pts (bloomClear nb a) sched (clear_shape nb a)) as H.
  unfold bloomBuild in E. rewrite E in H. destruct H as [S _].
  destruct (@bloomFilter_ok A hash64 nb Hnb a1 reqs S) as (r & Er & R). exists r. split; [exact Er|].
  split; [intros q Hq; apply R; auto|]. intros q p Hq Hp Hh. apply R. split; auto.
  assert (E2 : bloomInsert hash64 nb [] [] a1 = Ok a1) by reflexivity.
  destruct (@bloom_answers A hash64 nb Hnb sched [] pts [] a a1 a1 q E E2) as (v & Ev & V). rewrite Ev. f_equal. apply V.
  intros j _. exists p. rewrite app_nil_r, Hh. auto.
Qed.
Print Assumptions C24_filter.

(** Two threads that race for the same bucket. *)
Example C24_example :
  let h := fun p j => p * (j + 1) in
  (a <- bloomBuild h 5 [0; 1; 1; 0; 0; 0; 1; 1; 0; 0; 1; 1; 0; 0; 1; 1; 0; 0; 1; 1] [3; 8] [] ;;
   r3 <- mightContain h 5 a 3 ;; r8 <- mightContain h 5 a 8 ;; r4 <- mightContain h 5 a 4 ;; Ok (a, r3, r8, r4))
  = Ok ([[false; false; false; true; false]; [false; true; false; false; false];
         [false; false; false; false; true]; [false; false; true; false; false]], true, true, false).
Proof. vm_compute. reflexivity. Qed.

(** The hash is taken of the bytes, so an equal point may be dropped: zero and
    minus zero are equal coordinates with different bytes. *)
Theorem C24_signed_zero_refuted :
  let h := fun (p : list float) (j : nat) => match p with x :: _ => if (1 / x <? 0)%float then 1 else 0 | [] => 0 end in
  peq FNum 1 [0%float] [(-0)%float] = true /\
  exists a, bloomBuild h 2 (repeat 0 8) [[0%float]] [] = Ok a /\ mightContain h 2 a [(-0)%float] = Ok false.
Proof. split; [vm_compute; reflexivity|]. eexists. split; vm_compute; reflexivity. Qed.
Print Assumptions C24_signed_zero_refuted.
