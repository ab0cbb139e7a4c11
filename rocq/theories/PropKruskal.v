(** Properties C31-C33: union-find and speculative parallel Kruskal. *)
From Coq Require Import Reals Sorted Permutation Floats ZArith.
From Verif Require Import Base Num FloatNum FloatLaws FloatMono Sched UfModel UfProofs KruskalSpec SpecCommit Msf KruskalModel KruskalFinal KruskalInst.

(** C31: find returns the representative and changes none, whatever the shape
    of the tree. *)
Theorem C31_find : forall n P i, forest n P -> i < n -> exists fuel r P',
  (forall k, fuel <= k -> findSeq n k (FRoot i) P = Ok (r, P')) /\ rep P i r /\ forest n P' /\
  forall j s, j < n -> (rep P' j s <-> rep P j s).
Proof. exact find_correct. Qed.
Print Assumptions C31_find.

(** link of a root x under y merges the classes of x and y and nothing else. *)
Theorem C31_link : forall n P x y, forest n P -> x < n -> y < n -> P x = None -> ~ rep P y x ->
  exists P', link n x y P = Ok P' /\ forest n P' /\
  forall a b, a < n -> b < n -> (samerep P' a b <->
    samerep P a b \/ (samerep P a x /\ samerep P y b) \/ (samerep P a y /\ samerep P x b)).
Proof. exact link_correct. Qed.
Print Assumptions C31_link.

(** Any number of finds running concurrently, their loads and stores
    interleaved in any order: no access outside the array, each returns the
    representative of its argument, and no representative changes. *)
Theorem C31_concurrent_finds : forall n P, forest n P -> forall args, (forall i, In i args -> i < n) -> forall sched,
  match runT (fstep n) fdone sched (map FRoot args) P with
  | Ok (ls, P') => (exists rs, ls = map FRet rs /\ Forall2 (rep P) args rs) /\
                   forest n P' /\ forall i r, i < n -> (rep P' i r <-> rep P i r)
  | Fuel => True
  | _ => False
  end.
Proof. exact parFind_safe. Qed.
Print Assumptions C31_concurrent_finds.

(** union_roots stores ranks in roots, which is_root (== -1) does not accept:
    after union_roots(0,1) on two vertices, find(0) reads parents[-2]. *)
Theorem C31_union_roots_refuted : exists P, unionRoots 0 1 [-1; -1]%Z = Ok P /\ forall fuel, zfind fuel 0 P = UB.
Proof. exists [-2; 0]%Z. split; [reflexivity|]. intros fuel. reflexivity. Qed.
Print Assumptions C31_union_roots_refuted.

(** a chain 0 -> 1 -> 2 -> 3 -> 4 halves its path *)
Definition chain : parents := fun i => if i <? 4 then Some (S i) else None.
Example C31_example : exists P', findSeq 5 100 (FRoot 0) chain = Ok (4, P') /\
  map P' (seq 0 5) = [Some 2; Some 3; Some 4; Some 4; None] /\ rep chain 0 4.
Proof.
  eexists. split; [vm_compute; reflexivity|]. split; [vm_compute; reflexivity|].
  apply (@rep_step chain 0 1 4); auto. apply (@rep_step chain 1 2 4); auto. apply (@rep_step chain 2 3 4); auto.
  apply (@rep_step chain 3 4 4); auto. apply rep_root. auto.
Qed.
Example C31_example_concurrent : exists ls P', runT (fstep 5) fdone (turns 2 12) (map FRoot [0; 1]) chain = Ok (ls, P') /\
  ls = [FRet 4; FRet 4] /\ map P' (seq 0 5) = [Some 2; Some 3; Some 4; Some 4; None].
Proof. eexists. eexists. split; [vm_compute; reflexivity|]. split; reflexivity. Qed.

(** C32: the loop of kruskal and batchKruskal on a sorted edge list, started
    from a union-find that holds the connectivity of the edges [pre].  For every
    interleaving of the memory accesses in every round and every round size
    (big, small): no out of bounds access; when the loop returns, exactly the
    edges that sequential Kruskal selects are in the tree, each stored at one
    vertex of its own, and the union-find connects what all edges connect.  It
    may throw (maxTries) only with more than 4101 edges. *)
Theorem C32_loop : forall n pre es, inrange n (pre ++ es) -> forall big small sched P, forest n P ->
  (forall a b, a < n -> b < n -> (samerep P a b <-> conn pre a b)) ->
  match kruskalLoop n big small sched es P (fun _ => None) with
  | Ok s => (forall i, inST s i = true <-> selected pre es i) /\
      forest n (par s) /\
      (forall a b, a < n -> b < n -> (samerep (par s) a b <-> conn (pre ++ es) a b)) /\
      (forall i, selected pre es i <-> exists x, x < n /\ tag s x = Some i) /\
      (forall x y i, tag s x = Some i -> tag s y = Some i -> x = y) /\
      (forall x i, tag s x = Some i -> P x = None /\ par s x <> None) /\
      (forall x, x < n -> par s x = None -> P x = None)
  | Throw => 4101 < length es
  | Fuel => True
  | UB => False
  end.
Proof. exact kruskalLoop_correct. Qed.
Print Assumptions C32_loop.

(** The rounds can always be completed: the schedules quantified over include
    ones with which the loop returns. *)
Theorem C32_completes : forall n pre es, inrange n (pre ++ es) -> forall big small P, forest n P ->
  (forall a b, a < n -> b < n -> (samerep P a b <-> conn pre a b)) -> length es <= 4101 ->
  exists sched s, kruskalLoop n big small sched es P (fun _ => None) = Ok s.
Proof. exact kruskalLoop_live. Qed.
Print Assumptions C32_completes.

(** six edges, the two comparisons of speculativeFor.h:112-115 on k/s *)
Definition bigR (k s : nat) : bool := 2 * s <? 10 * k.
Definition smallR (k s : nat) : bool := 10 * k <? s.
Definition six : list (nat * nat) := [(0, 1); (1, 2); (2, 0); (3, 1); (4, 4); (4, 3)].
Example C32_example : exists s,
  kruskalLoop 5 bigR smallR (fun _ => (turns 4 40, turns 4 40)) six (fun _ => None) (fun _ => None) = Ok s /\
  map (inST s) (seq 0 6) = [true; true; false; true; false; true].
Proof. eexists. split; vm_compute; reflexivity. Qed.
(** the same result when the threads run in the opposite order *)
Example C32_example_order : exists s,
  kruskalLoop 5 bigR smallR (fun _ => (rev (turns 4 40), rev (turns 4 40))) six (fun _ => None) (fun _ => None) = Ok s /\
  map (inST s) (seq 0 6) = [true; true; false; true; false; true].
Proof. eexists. split; vm_compute; reflexivity. Qed.

(** C33: kruskal returns the indices of a spanning forest of the input edges of
    minimal total weight, in increasing order; the forest is determined by the
    weights (ties by index), not by the schedule. *)
Theorem C33_exact : forall sort, @sort_ok RNum (fun _ => True) sort -> forall n (E : list (wedge RNum)),
  @good RNum (fun _ => True) n E -> forall big small sched,
  match kruskal sort big small sched n E with
  | Ok ids => spanningForest E ids /\
      (forall F, spanningForest E F -> (total E (fun x => x) ids <= total E (fun x => x) F)%R /\ length ids = length F) /\
      (forall i, In i ids <-> picked [] E i) /\ StronglySorted lt ids
  | Throw => 4101 < length E
  | Fuel => True
  | UB => False
  end.
Proof. intros. apply (@kruskal_correct RNum (fun _ => True) R_ordlaws); auto. exact R_val. Qed.
Print Assumptions C33_exact.

(** Doubles: weights that are not NaN, summed as real numbers ([ev]). *)
Theorem C33_double : forall sort, @sort_ok FNum fok sort -> forall n (E : list (wedge FNum)),
  @good FNum fok n E -> forall big small sched,
  match kruskal sort big small sched n E with
  | Ok ids => spanningForest E ids /\
      (forall F, spanningForest E F -> (total E ev ids <= total E ev F)%R /\ length ids = length F) /\
      (forall i, In i ids <-> picked [] E i) /\ StronglySorted lt ids
  | Throw => 4101 < length E
  | Fuel => True
  | UB => False
  end.
Proof. intros. apply (@kruskal_correct FNum fok F_ordlaws); auto. exact F_val. Qed.
Print Assumptions C33_double.

(** ties, a loop, two components *)
Definition sevenW : list (wedge FNum) :=
  [(0, 1, 3%float); (1, 2, 1%float); (2, 0, 1%float); (3, 3, 0%float); (3, 4, 2%float); (4, 3, 2%float); (0, 2, 5%float)].
Example C33_sort : @sort_ok FNum fok (@esort FNum).
Proof. exact (esort_ok F_ordlaws). Qed.
Example C33_good : @good FNum fok 5 sevenW.
Proof. intros u v w H. simpl in H. repeat destruct H as [H|H]; try inversion H; subst; repeat split; try lia; reflexivity. Qed.
Example C33_example :
  kruskal (@esort FNum) bigR smallR (fun _ => (turns 4 40, turns 4 40)) 5 sevenW = Ok [1; 2; 4].
Proof. vm_compute. reflexivity. Qed.
