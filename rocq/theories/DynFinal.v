(** Dynamic kd-tree: the statements over histories, for exact arithmetic and for
    doubles. *)
From Coq Require Import Reals Floats Sorted.
From Verif Require Import Base Num FloatNum FloatLaws DistLaws RadLaws KdModel KdSpec KdBuild KdSplit RGeom
  DynModel DynProofs DynKnn DynHist.
Set Implicit Arguments.

Lemma SSorted_nth_lt A (R : A -> A -> Prop) l : StronglySorted R l ->
  forall i j x y, i < j -> nth_error l i = Some x -> nth_error l j = Some y -> R x y.
Proof.
  induction 1 as [|a l HS IH HF]; intros i j x y Hij Hx Hy; [destruct i; discriminate|].
  destruct i as [|i], j as [|j]; simpl in *; try lia.
  - inversion Hx; subst. rewrite Forall_forall in HF. apply HF. eapply nth_error_In; eauto.
  - apply (IH i j); auto. lia.
Qed.

Section Gen.
  Variable N : Num.
  Variable ok fin nn rad : nT N -> Prop.
  Hypothesis DL : DistLaws N ok fin nn.
  Hypothesis RL : RadLaws N ok fin nn rad.

  Lemma dyn_knn dim (Hdim : 1 <= dim) A (pt : A -> list (nT N)) thr (Hthr : 2 <= thr) part med popMax
    (Hpart : part_ok part) (Hmed : med_ok fin pt med) (Hpop : popMax_ok ok popMax) its ops t0 t qp k :
    2 <= length its -> @finite N fin dim A pt its -> (forall o, In o ops -> @finiteOp N fin dim A pt o) ->
    build N dim A pt thr part med its = Ok t0 -> runOps N dim A pt thr part med ops t0 = Ok t ->
    (forall d, d < dim -> fin (coord qp d)) -> 1 <= k ->
    exists l rest, kNN N dim A pt popMax t qp k = Ok l /\ Permutation (l ++ rest) (iter t) /\
      length l = Nat.min k (length (iter t)) /\
      (forall y z, In y l -> In z rest -> nle N (dist N dim qp (pt y)) (dist N dim qp (pt z)) = true) /\
      (forall i j y z, i < j -> nth_error l i = Some y -> nth_error l j = Some z ->
         nle N (dist N dim qp (pt y)) (dist N dim qp (pt z)) = true).
  Proof.
    intros Hn HF HO HB HR Hq Hk.
    destruct (@built_boxed N ok fin (dl_ord DL) (dl_fin_ok DL) dim Hdim A pt thr Hthr part med Hpart Hmed its t0 Hn HF HB)
      as [B0 _].
    assert (Bt := @run_boxed N ok fin (dl_ord DL) (dl_fin_ok DL) dim Hdim A pt thr Hthr part med Hpart Hmed ops t0 t B0 HO HR).
    destruct (@kNN_spec N ok fin nn rad DL RL dim A pt popMax Hpop qp Hq k Hk t Bt) as (l & E & rest & P & Len & B & S).
    exists l, rest. repeat (split; auto). apply (SSorted_nth_lt S).
  Qed.
End Gen.

Lemma dyn_knn_exact dim (Hdim : 1 <= dim) A (pt : A -> list R) thr (Hthr : 2 <= thr) part med popMax
  (Hpart : part_ok part) (Hmed : @med_ok RNum A (fun _ => True) pt med)
  (Hpop : @popMax_ok RNum A (fun _ => True) popMax) its ops t0 t qp k :
  2 <= length its ->
  build RNum dim A pt thr part med its = Ok t0 -> runOps RNum dim A pt thr part med ops t0 = Ok t -> 1 <= k ->
  exists l rest, kNN RNum dim A pt popMax t qp k = Ok l /\ Permutation (l ++ rest) (iter t) /\
    length l = Nat.min k (length (iter t)) /\
    (forall y z, In y l -> In z rest -> (edist dim qp (pt y) <= edist dim qp (pt z))%R) /\
    (forall i j y z, i < j -> nth_error l i = Some y -> nth_error l j = Some z ->
       (edist dim qp (pt y) <= edist dim qp (pt z))%R).
Proof.
  intros Hn HB HR Hk.
  destruct (@dyn_knn RNum _ _ _ _ R_distlaws R_radlaws dim Hdim A pt thr Hthr part med popMax Hpart Hmed Hpop
              its ops t0 t qp k) as (l & rest & E & P & Len & B & S); auto.
  { intros x _ d _. exact I. }
  { intros [xs|xs] _; [intros x _ d _|]; exact I. }
  exists l, rest. repeat (split; auto).
  - intros y z Hy Hz. rewrite <- !dist_edist. apply Rleb_true. apply B; auto.
  - intros i j y z Hij Hy Hz. rewrite <- !dist_edist. apply Rleb_true. apply (S i j); auto.
Qed.
