(** C29, C30: z-order keys and sorting (include/mortonSort/mortonSortImpl.h). *)
From Coq Require Import Reals NArith Lia Floats.
From Verif Require Import Base Num FloatNum FloatLaws KdModel MortonModel MortonBits MortonSort.
Set Implicit Arguments.

(** Bit j of a key is bit j/3 of coordinate j mod 3. *)
Theorem C29_interleave :
  forall cells, (length cells <= 3)%nat -> Forall (fun x => (x <= 65535)%N) cells ->
  exists k, zkey cells = Ok k /\
  forall j, N.testbit k j = N.testbit (nth (N.to_nat (j mod 3)) cells 0%N) (j / 3).
Proof. exact zkey_bits. Qed.
Print Assumptions C29_interleave.

Theorem C29_throws :
  forall cells, Exists (fun x => (65535 < x)%N) cells -> zkey cells = Throw.
Proof. exact zkey_throws. Qed.
Print Assumptions C29_throws.

Theorem C29_injective :
  forall cs ds k, length cs = length ds -> (length cs <= 3)%nat ->
  Forall (fun x => (x <= 65535)%N) cs -> Forall (fun x => (x <= 65535)%N) ds ->
  zkey cs = Ok k -> zkey ds = Ok k -> cs = ds.
Proof. exact zkey_inj. Qed.
Print Assumptions C29_injective.

(** Comparing keys: highest bit level first, and within a level the last
    coordinate first. *)
Theorem C29_compare :
  forall cs ds a b, length cs = length ds -> (length cs <= 3)%nat ->
  Forall (fun x => (x <= 65535)%N) cs -> Forall (fun x => (x <= 65535)%N) ds ->
  zkey cs = Ok a -> zkey ds = Ok b ->
  ((a < b)%N <-> exists i c, (c < length cs)%nat /\
     N.testbit (nth c cs 0%N) i = false /\ N.testbit (nth c ds 0%N) i = true /\
     forall i' c', (c' < length cs)%nat -> (i < i')%N \/ (i' = i /\ (c < c')%nat) ->
       N.testbit (nth c' cs 0%N) i' = N.testbit (nth c' ds 0%N) i').
Proof. exact zkey_lt. Qed.
Print Assumptions C29_compare.

(** A cell below another in every coordinate has the smaller key. *)
Theorem C29_monotone :
  forall cs ds a b, Forall2 N.le cs ds -> (length cs <= 3)%nat ->
  Forall (fun x => (x <= 65535)%N) ds -> zkey cs = Ok a -> zkey ds = Ok b -> (a <= b)%N.
Proof. exact zkey_mono. Qed.
Print Assumptions C29_monotone.

Example C29_example :
  zkey [5; 3; 6]%N = Ok (1 + 2 * 1 + 0 + 8 * (0 + 2 * 1 + 4 * 1) + 64 * (1 + 0 + 4 * 1))%N /\
  zkey [65535; 65535; 65535]%N = Ok (2 ^ 48 - 1)%N /\ zkey [65536; 0]%N = Throw.
Proof. vm_compute. auto. Qed.

(** Any returned sequence, for any arithmetic: the input rearranged by
    non-decreasing key with respect to one origin and one cell size. *)
Theorem C30_sorted :
  forall K dim A pt toCell c101 cRange (srt : list (N * A) -> list (N * A)), zsort_ok srt ->
  forall omax omin P out, @zorderSort K dim A pt toCell c101 cRange srt omax omin P = Ok out ->
  Permutation out P /\ exists p0 P', P = p0 :: P' /\
  let pMin := fun i => minOf K pt p0 (omin i P) i in
  let bs := boxSize K c101 cRange (maxSpan K dim (fun i => nsub K (maxOf K pt p0 (omax i P) i) (pMin i))) in
  StronglySorted (fun x y => exists a b,
    zorder K dim pt toCell pMin bs x = Ok a /\ zorder K dim pt toCell pMin bs y = Ok b /\ (a <= b)%N) out.
Proof. exact zsort_result. Qed.
Print Assumptions C30_sorted.

(** The same in exact arithmetic with origin, cell size and order spelled out:
    the origin is the minimum corner, S the largest extent, and no point's cell
    is Morton-before the cell of an earlier point. *)
Theorem C30_order :
  forall dim A (pt : A -> list R) (srt : list (N * A) -> list (N * A)), zsort_ok srt ->
  forall omax omin P out, (1 <= dim <= 3)%nat ->
  (forall i l, Permutation (omax i l) l) -> (forall i l, Permutation (omin i l) l) ->
  @zorderSort RNum dim A pt toCellR (101/100)%R 65535%R srt omax omin P = Ok out ->
  Permutation out P /\ exists mn S,
  (forall i, (i < dim)%nat -> (exists z, In z P /\ mn i = @coord RNum (pt z) i) /\
                              forall z, In z P -> (mn i <= @coord RNum (pt z) i)%R) /\
  (exists i x y, (i < dim)%nat /\ In x P /\ In y P /\ S = (@coord RNum (pt x) i - @coord RNum (pt y) i)%R) /\
  (forall i x y, (i < dim)%nat -> In x P -> In y P -> (@coord RNum (pt x) i - @coord RNum (pt y) i <= S)%R) /\
  StronglySorted (fun x y => ~ mortonLess (cellOf dim pt mn S y) (cellOf dim pt mn S x)) out.
Proof. exact zsort_order_R. Qed.
Print Assumptions C30_order.

(** In exact arithmetic two different points suffice for a result ... *)
Theorem C30_total :
  forall dim A (pt : A -> list R) (srt : list (N * A) -> list (N * A)) omax omin P, (1 <= dim <= 3)%nat ->
  (forall i l, Permutation (omax i l) l) -> (forall i l, Permutation (omin i l) l) ->
  (exists x y i, In x P /\ In y P /\ (i < dim)%nat /\ @coord RNum (pt x) i <> @coord RNum (pt y) i) ->
  exists out, @zorderSort RNum dim A pt toCellR (101/100)%R 65535%R srt omax omin P = Ok out.
Proof. exact zsort_total_R. Qed.
Print Assumptions C30_total.

(** ... and in doubles finite coordinates with differences at most 2^1023, one
    of them at least 2^-1006: rounding never pushes a cell past 65535. *)
Theorem C30_total_doubles :
  forall dim A (pt : A -> list PrimFloat.float) (srt : list (N * A) -> list (N * A)) omax omin P, (1 <= dim <= 3)%nat ->
  (forall i l, Permutation (omax i l) l) -> (forall i l, Permutation (omin i l) l) ->
  (forall x i, In x P -> (i < dim)%nat -> ffin (@coord FNum (pt x) i)) ->
  (forall x y i, In x P -> In y P -> (i < dim)%nat ->
     PrimFloat.leb (@coord FNum (pt x) i - @coord FNum (pt y) i) 0x1p+1023%float = true) ->
  (exists x y i, In x P /\ In y P /\ (i < dim)%nat /\
     PrimFloat.leb 0x1p-1006%float (@coord FNum (pt x) i - @coord FNum (pt y) i) = true) ->
  exists out, @zorderSort FNum dim A pt toCellF f101 f65535 srt omax omin P = Ok out.
Proof. exact zsort_total_F. Qed.
Print Assumptions C30_total_doubles.

Definition zs (dim : nat) (P : list (list PrimFloat.float)) :=
  @zorderSort FNum dim _ (fun p => p) toCellF f101 f65535 (@nsort _) (fun _ l => l) (fun _ l => rev l) P.

(** Empty input, equal points and spans near the smallest double are undefined. *)
Theorem C30_empty_refuted : zs 2 [] = UB.
Proof. reflexivity. Qed.
Print Assumptions C30_empty_refuted.
Theorem C30_equal_points_refuted : zs 2 [[1;2];[1;2]]%float = UB.
Proof. vm_compute. reflexivity. Qed.
Print Assumptions C30_equal_points_refuted.
Theorem C30_tiny_span_refuted : zs 2 [[0;0];[0x1p-1074;0]]%float = UB.
Proof. vm_compute. reflexivity. Qed.
Print Assumptions C30_tiny_span_refuted.
Theorem C30_huge_span_refuted : zs 2 [[0x1p+1023;0];[-0x1p+1023;0]]%float = UB.
Proof. vm_compute. reflexivity. Qed.
Print Assumptions C30_huge_span_refuted.

Example C30_example :
  zs 2 [[9;9];[1;0];[0;9];[0;0];[8;1];[2;2]]%float = Ok [[0;0];[1;0];[2;2];[8;1];[0;9];[9;9]]%float /\
  zs 3 [[9;9;9];[1;0;0];[0;9;8];[0;0;9]]%float = Ok [[1;0;0];[0;0;9];[0;9;8];[9;9;9]]%float.
Proof. vm_compute. auto. Qed.
