(** Property C34: the Euclidean minimum spanning tree. *)
From Coq Require Import Reals Lra Sorted Permutation Floats.
From Verif Require Import Base Num FloatNum FloatLaws KdModel RGeom BccpModel BccpProofs BccpFinal Sched UfModel KruskalSpec Msf KruskalModel
  KruskalFinal KruskalInst BatchKruskal EmstModel EmstFinal EmstLive EmstInst EmstProp PropKruskal.

(** C34: for every execution of emst on n points of dimension at least one, with
    at most n workers: if it returns, the returned edges are a spanning tree of
    the n points, every weight is the Euclidean distance of the endpoints, and
    the total is minimal among all spanning trees of the complete graph; the
    loop makes less than 1 + log2 n iterations.  It never accesses memory out of
    bounds, and it throws only when n < 2 or n > 91 (the retry limit of the
    speculative loop, C32). *)
Theorem C34_emst :
  forall dim, 1 <= dim -> forall pt : nat -> list R,
  forall srt, @sort4_ok RNum (fun _ => True) srt -> forall sort, @sort_ok RNum (fun _ => True) sort ->
  forall n procs cutoff, 1 <= procs <= n ->
  (forall p q, p < n -> q < n -> (edist dim (pt p) (pt q) < Rfmax)%R) ->
  forall lo0 parallel workers threshold k o, (lo0 <= 0)%R -> 0 < workers ->
  @emst RNum dim pt srt sort n procs cutoff lo0 parallel workers threshold k o ->
  match o with
  | Ok T => spanningTree n (map fst T) /\ length T = n - 1 /\
      (forall a b w, In (a, b, w) T -> w = edist dim (pt a) (pt b)) /\
      (forall F, spanningTree n F ->
         (rtot (map snd T) <= treeLength (fun a b => edist dim (pt a) (pt b)) F)%R) /\
      1 <= k /\ 2 ^ (k - 1) < n
  | Throw => n < 2 \/ 91 < n
  | Fuel => True
  | UB => False
  end.
Proof. exact emst_correct. Qed.
Print Assumptions C34_emst.

(** Executions that return exist for all inputs of 2 to 91 points and any
    number of workers up to n. *)
Theorem C34_completes :
  forall dim, 1 <= dim -> forall pt : nat -> list R,
  forall srt, @sort4_ok RNum (fun _ => True) srt -> forall sort, @sort_ok RNum (fun _ => True) sort ->
  forall n procs cutoff, 1 <= procs <= n -> 2 <= n <= 91 ->
  (forall p q, p < n -> q < n -> (edist dim (pt p) (pt q) < Rfmax)%R) ->
  forall lo0 parallel workers threshold, (lo0 <= 0)%R -> 0 < workers ->
  exists k T, @emst RNum dim pt srt sort n procs cutoff lo0 parallel workers threshold k (Ok T).
Proof. exact emst_exists. Qed.
Print Assumptions C34_completes.

(** Six points in the plane as doubles, two of them equal; the code with two
    workers. *)
Definition emstPts : list (list float) := [[0;0];[1;0];[5;5];[5;6];[1;0];[9;1]]%float.
Definition emstPt (i : nat) : list float := nth i emstPts [].
Example C34_example : exists k (T : list (nat * nat * float)),
  @emst FNum 2 emstPt (ksort FNum) (@esort FNum) 6 2 7 (-0x1.999999999999ap-4)%float false 1 0 k (Ok T) /\
  T = [(2, 4, 0x1.99ccc999fff00p+2%float); (0, 4, 1%float); (2, 3, 1%float); (1, 4, 0%float); (5, 2, 0x1.6a09e667f3bcdp+2%float)] /\ k = 3.
Proof.
  do 2 eexists. split; [apply emstRun_spec with (f := 10) (big := bigR) (small := smallR)
    (sched := fun _ => (turns 6 60, turns 6 60)); [auto|vm_compute; reflexivity]|]. split; reflexivity.
Qed.

(** With more workers than points the buffers have no cells: two points and
    three workers write outside the buffer. *)
Theorem C34_more_workers_than_points_refuted :
  exists k, @emst FNum 2 emstPt (ksort FNum) (@esort FNum) 2 3 3 (-0x1.999999999999ap-4)%float false 1 0 k UB.
Proof.
  eexists. apply emstRun_spec with (f := 10) (big := bigR) (small := smallR)
    (sched := fun _ => (turns 6 60, turns 6 60)); [auto|vm_compute; reflexivity].
Qed.
Print Assumptions C34_more_workers_than_points_refuted.

(** The hypotheses on the points hold for any concrete input. *)
Example C34_instance : exists k T, @emst RNum 1 (fun i => [INR i]) (ksort RNum) (@esort RNum) 5 2 2000 (-1/10)%R true 4 3 k (Ok T).
Proof.
  apply C34_completes; try lia; try lra; [exact (ksort_ok RNum _)|exact (esort_ok R_ordlaws)|].
  intros p q Hp Hq. unfold edist. cbn [rsum nth]. rewrite Rplus_0_l, <- Rsqr_pow2, sqrt_Rsqr_abs.
  apply Rle_lt_trans with 10%R; [|apply IZR_lt; reflexivity].
  apply Rabs_le. pose proof (pos_INR p). pose proof (pos_INR q). apply lt_INR in Hp. apply lt_INR in Hq. simpl in Hp, Hq. lra.
Qed.
