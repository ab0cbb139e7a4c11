(** The statements of C34. *)
From Coq Require Import Reals Lra Sorted Permutation.
From Verif Require Import Base Num KdModel KdSpec KdConstruct RGeom KdExtra DistLaws BccpModel BccpProofs UfModel UfProofs KruskalSpec Msf KruskalModel
  KruskalFinal BatchKruskal EmstModel EmstCover EmstMark EmstProofs EmstFinal EmstLive.
Set Implicit Arguments.

Section EmstProp.
  Local Open Scope R_scope.
  Variable dim : nat.
  Hypothesis Hdim : (1 <= dim)%nat.
  Variable pt : nat -> list R.
  Notation D p q := (edist dim (pt p) (pt q)).
  Variable srt : list (R * nat) -> list (R * nat).
  Hypothesis Hsrt : @sort4_ok RNum (fun _ => True) srt.
  Variable sort : list (iedge RNum) -> list (iedge RNum).
  Hypothesis Hsort : @sort_ok RNum (fun _ => True) sort.
  Variables (n procs cutoff : nat).
  Hypothesis Hprocs : (1 <= procs <= n)%nat.

  Theorem emst_correct : (forall p q, (p < n)%nat -> (q < n)%nat -> D p q < Rfmax) ->
    forall lo0 parallel workers threshold k o, lo0 <= 0 -> (0 < workers)%nat ->
    @emst RNum dim pt srt sort n procs cutoff lo0 parallel workers threshold k o ->
    match o with
    | Ok T => spanningTree n (map fst T) /\ length T = (n - 1)%nat /\
        (forall a b w, In (a, b, w) T -> w = D a b) /\
        (forall F, spanningTree n F -> rtot (map snd T) <= treeLength (fun a b => D a b) F) /\
        (1 <= k)%nat /\ (2 ^ (k - 1) < n)%nat
    | Throw => (n < 2)%nat \/ (91 < n)%nat
    | Fuel => True
    | UB => False
    end.
  Proof.
    intros Hmax lo0 par w th k o H0 HW. unfold emst. destruct (n <? 2)%nat eqn:Q.
    { apply Nat.ltb_lt in Q. intros [_ ->]. auto. }
    apply Nat.ltb_ge in Q. intros (t & EB & HL).
    destruct (@build_nice dim Hdim pt n procs Hprocs Hmax par w th t HW EB) as [N0 I0].
    pose proof (@inv_start dim pt n t lo0 H0) as HI.
    pose proof (@loop_correct dim Hdim pt srt Hsrt sort Hsort n procs cutoff Hprocs Hmax t N0 I0 k _ o HI HL) as G.
    destruct o as [T| | |]; auto. destruct G as (A & B & C & E). cbn [eBeta] in E.
    split; [exact A|]. split; [rewrite <- (tree_size A); symmetry; apply map_length|]. split; auto. split; auto.
    assert (k <> 0)%nat.
    { intros ->. inversion HL as [s HN| |]; subst. cbn [eUF] in HN. unfold numEdge in HN.
      assert (Z : getEdge (N := RNum) n (fun _ => None, fun _ => None) = []).
      { unfold getEdge. generalize (seq 0 n). clear. induction l; simpl; auto. }
      rewrite Z in HN. simpl in HN. lia. }
    split; [lia|]. destruct E as [E|[E|E]]; [lia|subst; simpl; lia|].
    destruct k as [|[|k]]; [lia|simpl; lia|].
    replace (S (S k) - 2)%nat with k in E by lia. replace (S (S k) - 1)%nat with (S k) by lia. rewrite Nat.pow_succ_r'. lia.
  Qed.

  Theorem emst_exists : (2 <= n <= 91)%nat -> (forall p q, (p < n)%nat -> (q < n)%nat -> D p q < Rfmax) ->
    forall lo0 parallel workers threshold, lo0 <= 0 -> (0 < workers)%nat ->
    exists k T, @emst RNum dim pt srt sort n procs cutoff lo0 parallel workers threshold k (Ok T).
  Proof.
    intros Hn Hmax lo0 par w th H0 HW. unfold emst. destruct (n <? 2)%nat eqn:Q; [apply Nat.ltb_lt in Q; lia|].
    assert (HP : seq 0 n <> []) by (destruct n; [lia|discriminate]).
    destruct (@build_all RNum (fun _ => True) R_ordlaws R_span dim Hdim nat pt par w th 1 (seq 0 n) ltac:(lia) HW HP (fun _ _ _ _ => I)) as (t & EB & _).
    destruct (@build_nice dim Hdim pt n procs Hprocs Hmax par w th t HW EB) as [N0 I0].
    pose proof (@inv_start dim pt n t lo0 H0) as HI.
    destruct (@loop_exists dim Hdim pt srt Hsrt sort Hsort n procs cutoff Hprocs ltac:(lia) Hmax t N0 I0 6 _ HI) as (k & T & HT).
    { cbn [eBeta]. simpl. lia. }
    exists k, T, t. auto.
  Qed.
End EmstProp.
