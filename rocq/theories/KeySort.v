(** A concrete sort by key: the instance used to show that the contracts assumed
    of std/parlay sorting, selection and partition can be met. *)
From Coq Require Import Sorted.
From Verif Require Import Base Num.
Set Implicit Arguments.

Section KeySort.
  Variable N : Num.
  Variable A : Type.
  Variable key : A -> nT N.
  Fixpoint kinsert (x : A) (l : list A) : list A :=
    match l with
    | [] => [x]
    | y :: l' => if nlt N (key y) (key x) then y :: kinsert x l' else x :: l
    end.
  Definition sortBy (l : list A) : list A := fold_right kinsert [] l.

  Lemma kinsert_perm x l : Permutation (kinsert x l) (x :: l).
  Proof.
    induction l as [|y l IH]; simpl; auto. destruct (nlt N (key y) (key x)); auto.
    rewrite IH. apply perm_swap.
  Qed.
  Lemma sortBy_perm l : Permutation (sortBy l) l.
  Proof. induction l as [|x l IH]; simpl; auto. rewrite kinsert_perm, IH. auto. Qed.

  Variable ok : nT N -> Prop.
  Hypothesis OL : OrdLaws N ok.
  Notation le x y := (nle N (key x) (key y) = true).

  Lemma kinsert_sorted x l : ok (key x) -> (forall y, In y l -> ok (key y)) ->
    StronglySorted (fun x y => le x y) l -> StronglySorted (fun x y => le x y) (kinsert x l).
  Proof.
    intros Hx. induction l as [|y l IH]; intros Hl HS; simpl; [repeat constructor|].
    inversion HS as [|? ? S1 S2]; subst. rewrite Forall_forall in S2.
    assert (Hy : ok (key y)) by (apply Hl; simpl; auto).
    destruct (nlt N (key y) (key x)) eqn:E.
    - constructor; [apply IH; auto; intros; apply Hl; simpl; auto|].
      apply Forall_forall. intros z Hz. eapply Permutation_in in Hz; [|apply kinsert_perm].
      destruct Hz as [<-|Hz]; auto. apply (nlt_le OL); auto.
    - constructor; auto. apply Forall_forall.
      assert (Lxy : le x y) by (apply (nlt_false_le OL); auto).
      intros z [<-|Hz]; auto. apply (nle_trans OL) with (y := key y); auto. apply Hl; simpl; auto.
  Qed.
  Lemma sortBy_sorted l : (forall y, In y l -> ok (key y)) -> StronglySorted (fun x y => le x y) (sortBy l).
  Proof.
    induction l as [|x l IH]; intros Hl; simpl; [constructor|]. apply kinsert_sorted.
    - apply Hl; simpl; auto.
    - intros y Hy. apply Hl. right. eapply Permutation_in; [apply sortBy_perm|auto].
    - apply IH. intros; apply Hl; simpl; auto.
  Qed.
End KeySort.

Lemma SSorted_app A (R : A -> A -> Prop) l l' : StronglySorted R (l ++ l') ->
  StronglySorted R l /\ StronglySorted R l' /\ forall x y, In x l -> In y l' -> R x y.
Proof.
  induction l as [|a l IH]; simpl; intros H.
  - split; [constructor|]. split; auto. intros ? ? [].
  - inversion H as [|? ? H1 H2]; subst. apply IH in H1 as (H1 & H3 & H4). apply Forall_app in H2 as [H2 H2'].
    split; [constructor; auto|]. split; auto. intros x y [<-|Hx] Hy; auto. rewrite Forall_forall in H2'; auto.
Qed.
