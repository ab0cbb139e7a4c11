(** Concrete partition, median split and priority queue meeting the contracts
    of the dynamic kd-tree. *)
From Coq Require Import Sorted.
From Verif Require Import Base Num KeySort KdModel DynModel DynProofs DynKnn.
Set Implicit Arguments.

Definition partI {A} (f : A -> bool) (l : list A) : list A * list A := (filter f l, filter (fun x => negb (f x)) l).
Definition medI {N : Num} {A} (pt : A -> list (nT N)) (k : nat) (l : list A) : list A * list A :=
  let s := sortBy N (fun x => coord (pt x) k) l in (firstn (length l / 2) s, skipn (length l / 2) s).
Fixpoint popI {N : Num} {A} (x : nT N * A) (q : list (nT N * A)) : (nT N * A) * list (nT N * A) :=
  match q with
  | [] => (x, [])
  | y :: q' => let '(m, r) := popI y q' in if nlt N (fst m) (fst x) then (x, m :: r) else (m, x :: r)
  end.

Lemma partI_ok {A} : part_ok (@partI A).
Proof. intros f l. split; reflexivity. Qed.

Lemma medI_ok {N : Num} {A} (fin : nT N -> Prop) (FL : OrdLaws N fin) (pt : A -> list (nT N)) : med_ok fin pt (medI pt).
Proof.
  intros k l Hl HF. unfold medI. cbn [fst snd].
  set (s := sortBy N (fun x => coord (pt x) k) l).
  assert (P : Permutation s l) by apply sortBy_perm.
  assert (S := sortBy_sorted (fun x => coord (pt x) k) FL l HF). fold s in S.
  rewrite <- (firstn_skipn (length l / 2) s) in S. apply SSorted_app in S as (S1 & S2 & S3).
  assert (FS : forall x, In x s -> fin (coord (pt x) k)).
  { intros x Hx. apply HF. eapply Permutation_in; eauto. }
  assert (F1 : forall x, In x (firstn (length l / 2) s) -> fin (coord (pt x) k)).
  { intros x Hx. apply FS. rewrite <- (firstn_skipn (length l / 2) s). apply in_or_app; auto. }
  assert (F2 : forall x, In x (skipn (length l / 2) s) -> fin (coord (pt x) k)).
  { intros x Hx. apply FS. rewrite <- (firstn_skipn (length l / 2) s). apply in_or_app; auto. }
  split; [rewrite firstn_skipn; auto|]. split.
  - rewrite firstn_length, (Permutation_length P). pose proof (Nat.div_lt (length l) 2). lia.
  - intros h t E. rewrite E in *. split.
    + intros x Hx. apply (nle_false_lt FL); auto. { apply F2; simpl; auto. } apply S3; simpl; auto.
    + intros x Hx. apply (nle_false_lt FL); auto. { apply F2; simpl; auto. }
      destruct Hx as [<-|Hx]; [apply (nle_refl FL), F2; simpl; auto|].
      inversion S2 as [|? ? _ H2]; subst. rewrite Forall_forall in H2. auto.
Qed.

Lemma popI_ok {N : Num} {A} (ok : nT N -> Prop) (OL : OrdLaws N ok) : popMax_ok ok (@popI N A).
Proof.
  intros x q. revert x. induction q as [|y q IH]; intros x HO; cbn [popI].
  - split; auto.
  - destruct (IH y (fun e He => HO e (or_intror He))) as [P M].
    destruct (popI y q) as [m r]. cbn [fst snd] in *.
    assert (Hx : ok (fst x)) by (apply HO; simpl; auto).
    assert (Hm : forall e, In e (m :: r) -> ok (fst e)).
    { intros e He. apply HO. right. eapply Permutation_in; [exact P|auto]. }
    destruct (nlt N (fst m) (fst x)) eqn:E; cbn [fst snd].
    + split; [rewrite P; auto|]. assert (L : nle N (fst m) (fst x) = true).
      { apply (nlt_le OL); auto. apply Hm; simpl; auto. }
      intros e [<-|He]; auto. apply (nle_trans OL) with (y := fst m); auto; apply Hm; simpl; auto.
    + split; [rewrite perm_swap, P; auto|]. intros e [<-|He]; auto. apply (nlt_false_le OL); auto.
      apply Hm; simpl; auto.
Qed.
