(** C97: find and tryLink running concurrently. *)
From Coq Require Import Permutation.
From Verif Require Import Base Sched UfModel UfProofs KruskalSpec SpecCommit UfLinkModel UfLinkProofs.
Set Implicit Arguments.

(** calls in range that link a vertex to a smaller one, unionFind.h 76-78 *)
Definition goodOp (n : nat) (o : op) : Prop := match o with OFind i => i < n | OLink u v => v < u /\ u < n end.
(** What a call may answer: find a vertex connected to its argument that was a
    root at the start; a failed link leaves a vertex that is no root. *)
Definition answered (n : nat) (P P' : parents) (o : op) (t : tstate) : Prop :=
  match o with
  | OFind i => exists r, t = TFind (FRet r) /\ r < n /\ samerep P' i r /\ P r = None
  | OLink u v => exists b, t = TRet u v b /\ P' u <> None
  end.

(** C97: whatever the interleaving no access is out of bounds; of the links of one
    root exactly one succeeds, of those of other vertices none; the parents stay
    acyclic and connect what they connected before and the successful links. *)
Theorem C97_links : forall n P ops, desc n P -> (forall o, In o ops -> goodOp n o) -> forall sched,
  match runT (tstep n) tdone sched (map start ops) P with
  | Ok (ls, P') => Forall2 (answered n P P') ops ls /\
      NoDup (map fst (links ls)) /\
      (forall u v, In (OLink u v) ops -> (In u (map fst (links ls)) <-> P u = None)) /\
      (forall u v, In (u, v) (links ls) -> In (OLink u v) ops) /\
      desc n P' /\ (forall i, i < n -> (P' i = None <-> P i = None /\ ~ In i (map fst (links ls)))) /\
      forall a b, a < n -> b < n -> (samerep P' a b <-> conn (edgesOf n P ++ links ls) a b)
  | Fuel => True
  | _ => False
  end.
Proof.
  intros n P ops D HO sched.
  pose proof (@runT_inv _ _ (tstep n) tdone (J n P ops) (fun ls s i l => @J_step n P ops HO ls s i l) sched _ _ (@J_start n P D ops)) as H.
  destruct (runT (tstep n) tdone sched (map start ops) P) as [[ls P']| | |]; auto.
  destruct H as ((D' & L & HN & ND & HR & HC & HT) & HF & _). rewrite forallb_forall in HF.
  assert (FA : Forall2 (answered n P P') ops ls).
  { clear - L HT HF. revert ls L HT HF. induction ops as [|o ops IH]; intros [|t ls] L HT HF; try discriminate; constructor.
    - pose proof (HT 0 o t eq_refl eq_refl) as H. pose proof (HF t (or_introl eq_refl)) as F.
      destruct o as [i|u v], t as [f|u' v'|u' v'|u' v' b]; cbn in H, F |- *; try contradiction; try discriminate.
      + destruct f; try discriminate. cbn in H. exists r. tauto.
      + destruct H as (-> & -> & H). exists b. auto.
    - apply IH; [cbn in L; lia|intros k; apply (HT (S k))|intros x Hx; apply HF; right; auto]. }
  assert (LI : forall u v, In (u, v) (links ls) -> In (OLink u v) ops).
  { clear - FA. intros u v. induction FA as [|o t ops ls A FA IH]; [intros []|]. unfold links. cbn [flat_map]. rewrite in_app_iff. intros [H|H]; [left|right; auto].
    destruct o as [i|u' v']; [destruct A as (r & -> & _); destruct H|]. destruct A as (b & -> & _). destruct b; [|destruct H].
    destruct H as [H|[]]. inversion H; auto. }
  split; [exact FA|]. split; [exact ND|]. split; [|split; [exact LI|split; [exact D'|split; [|exact HC]]]].
  - intros u v Hu. split; [apply HR|]. intros E. pose proof (HO _ Hu) as [G1 G2].
    assert (P' u <> None).
    { apply In_nth_error in Hu. destruct Hu as (k & Hk). assert (k < length ls) by (rewrite L; apply nth_error_Some; congruence).
      destruct (nth_error ls k) as [t|] eqn:Et; [|apply nth_error_None in Et; lia].
      pose proof (HT k _ t Hk Et) as X. pose proof (HF t (nth_error_In _ _ Et)) as F.
      destruct t; cbn in X, F; try contradiction; try discriminate. apply X. }
    apply HN in H; auto. destruct H as [H|H]; [congruence|auto].
  - intros i Hi. specialize (HN i Hi). destruct (P' i) as [p|] eqn:E1.
    + split; [discriminate|]. intros [E2 NI]. exfalso. destruct (proj1 HN) as [H|H]; [discriminate|congruence|auto].
    + split; auto. intros _. split.
      * destruct (P i) eqn:E2; auto. exfalso. apply (proj2 HN); auto. left. discriminate.
      * intros H. apply (proj2 HN); auto.
Qed.
Print Assumptions C97_links.

(** C97: the calls are wait-free: a link takes at most two steps and find(i) at
    most 3 i + 2, whatever the other calls do. *)
Definition steps (o : op) : nat := match o with OFind i => 3 * i + 2 | OLink _ _ => 2 end.
Lemma run_counts n P ops : (forall o, In o ops -> goodOp n o) -> forall sched ls Q, J n P ops ls Q ->
  (forall k t, nth_error ls k = Some t -> mt t <= count_occ Nat.eq_dec sched k) -> exists r, runT (tstep n) tdone sched ls Q = Ok r.
Proof.
  intros HO. assert (Z : forall t, mt t = 0 <-> tdone t = true).
  { intros [f| | |]; cbn; [destruct f; cbn|..]; split; intros; try discriminate; try lia; auto. }
  induction sched as [|i sc IH]; intros ls Q HJ HC; cbn [runT].
  - assert (F : forallb tdone ls = true).
    { apply forallb_forall. intros t Ht. apply In_nth_error in Ht. destruct Ht as (k & Hk). apply Z. specialize (HC k t Hk). cbn in HC. lia. }
    rewrite F. eauto.
  - destruct (nth_error ls i) as [l|] eqn:E.
    + pose proof (HC i l E) as Ci. cbn [count_occ] in Ci. destruct (Nat.eq_dec i i) as [_|]; [|congruence]. destruct (tdone l) eqn:F.
      * apply IH; auto. intros k t Hk. pose proof (HC k t Hk) as Ck. cbn [count_occ] in Ck. destruct (Nat.eq_dec i k) as [<-|]; auto.
        rewrite E in Hk. inversion Hk; subst. apply Z in F. lia.
      * destruct (@J_step n P ops HO ls Q i l HJ E F) as (l' & Q' & Es & HJ'). rewrite Es. cbn [bind]. apply IH; auto.
        intros k t Hk. destruct (Nat.eq_dec i k) as [<-|Ne].
        -- rewrite nth_error_upd_eq in Hk by (apply nth_error_Some; congruence). inversion Hk; subst.
           pose proof (@step_less n P ops HO ls Q i l _ _ HJ E F Es). lia.
        -- rewrite nth_error_upd_neq in Hk by auto. pose proof (HC k t Hk) as Ck. cbn [count_occ] in Ck. destruct (Nat.eq_dec i k); [congruence|auto].
    + apply IH; auto. intros k t Hk. pose proof (HC k t Hk) as Ck. cbn [count_occ] in Ck. destruct (Nat.eq_dec i k) as [<-|]; [congruence|auto].
Qed.
Theorem C97_finish : forall n P ops, desc n P -> (forall o, In o ops -> goodOp n o) -> forall sched,
  (forall k o, nth_error ops k = Some o -> steps o <= count_occ Nat.eq_dec sched k) ->
  exists r, runT (tstep n) tdone sched (map start ops) P = Ok r.
Proof.
  intros n P ops D HO sched HC. apply (run_counts HO sched (@J_start n P D ops)).
  intros k t Hk. rewrite nth_error_map in Hk. destruct (nth_error ops k) as [o|] eqn:E; [|discriminate].
  specialize (HC k o E). cbn in Hk. inversion Hk; subst. destruct o; exact HC.
Qed.
Print Assumptions C97_finish.

(** Two links of 3 race with one of 2 and with a find from 4. *)
Definition uf5 : parents := fun i => if i =? 4 then Some 3 else None.
Example C97_example : exists P',
  runT (tstep 5) tdone [0;1;1;0;2;3;3;3;2;3;3;3;3;3;3;3;3;3] (map start [OLink 3 1; OLink 3 2; OLink 2 0; OFind 4]) uf5
    = Ok ([TRet 3 1 false; TRet 3 2 true; TRet 2 0 true; TFind (FRet 0)], P') /\
  map P' (seq 0 5) = [None; None; Some 0; Some 0; Some 2].
Proof. eexists. split; [vm_compute; reflexivity|reflexivity]. Qed.

(** C97 refuted without the order: links of 0 to 1 and 1 to 0 both succeed, and
    find never returns. *)
Lemma no_root_loops : forall fuel f P, (forall i, i < 2 -> exists p, P i = Some p /\ p < 2) ->
  match f with FRoot i | FLoadP i => i < 2 | FTest i p | FLoadG i p => i < 2 /\ p < 2 | FStore i p g => i < 2 /\ p < 2 /\ g < 2 | FRet _ => False end ->
  findSeq 2 fuel f P = Fuel.
Proof.
  induction fuel as [|k IH]; intros f P H Hf; destruct f; try contradiction; auto; cbn [findSeq fstep].
  - rewrite load_in by auto. destruct (H i Hf) as (p & E & Hp). rewrite E. cbn [bind]. apply IH; auto.
  - rewrite load_in by auto. destruct (H i Hf) as (p & E & Hp). rewrite E. cbn [bind vid]. apply IH; auto.
  - destruct Hf as [Hi Hp]. rewrite load_in by auto. destruct (H p Hp) as (g & E & Hg). rewrite E. cbn [bind]. apply IH; auto.
  - destruct Hf as [Hi Hp]. rewrite load_in by auto. destruct (H p Hp) as (g & E & Hg). rewrite E. cbn [bind vid]. apply IH; auto.
  - destruct Hf as (Hi & Hp & Hg). rewrite load_in by auto. cbn [bind]. apply IH; auto.
    intros j Hj. destruct (Nat.eq_dec j i) as [->|Ne]; [rewrite fupd_eq; eauto|rewrite fupd_neq by auto; auto].
Qed.
Theorem C97_order_refuted : exists sched P', runT (tstep 2) tdone sched (map start [OLink 0 1; OLink 1 0]) (fun _ => None) = Ok ([TRet 0 1 true; TRet 1 0 true], P') /\
  forall fuel, findSeq 2 fuel (FRoot 0) P' = Fuel.
Proof.
  exists [0;0;1;1]. eexists. split; [vm_compute; reflexivity|]. intros fuel. apply no_root_loops; [|lia].
  intros i Hi. destruct i as [|[|i]]; [exists 1|exists 0|lia]; split; auto.
Qed.
Print Assumptions C97_order_refuted.
