(** Instances used by the Kruskal theorems: a sort meeting the contract, and the
    values of weights as reals. *)
From Coq Require Import Reals Lra Sorted Permutation Floats.
From Verif Require Import Base Num FloatNum FloatLaws FloatMono Sched UfModel UfProofs KruskalSpec SpecCommit Msf KruskalModel KruskalFinal.
Set Implicit Arguments.

Section Sort.
  Variable N : Num.
  Fixpoint einsert (x : iedge N) (l : list (iedge N)) : list (iedge N) :=
    match l with
    | [] => [x]
    | y :: l' => if edgeLess y x then y :: einsert x l' else x :: l
    end.
  Definition esort (l : list (iedge N)) : list (iedge N) := fold_right einsert [] l.
  Lemma einsert_perm x l : Permutation (einsert x l) (x :: l).
  Proof. induction l as [|y l IH]; simpl; auto. destruct (edgeLess y x); auto. rewrite IH. apply perm_swap. Qed.
  Lemma esort_perm l : Permutation (esort l) l.
  Proof. induction l as [|x l IH]; simpl; auto. rewrite einsert_perm, IH. auto. Qed.

  Variable ok : nT N -> Prop.
  Hypothesis OL : OrdLaws N ok.
  Lemma less_spec a b : ok (ew a) -> ok (ew b) -> (edgeLess a b = false <->
    nlt N (ew a) (ew b) = false /\ (nlt N (ew b) (ew a) = true \/ eid b <= eid a)).
  Proof.
    intros Ha Hb. unfold edgeLess. rewrite (ol_le OL _ _ Ha Hb), (ol_le OL _ _ Hb Ha).
    destruct (nlt N (ew a) (ew b)), (nlt N (ew b) (ew a)); simpl; rewrite ?Nat.ltb_ge; intuition discriminate.
  Qed.
  Lemma le_trans a b c : ok (ew a) -> ok (ew b) -> ok (ew c) ->
    edgeLess b a = false -> edgeLess c b = false -> edgeLess c a = false.
  Proof.
    intros Ha Hb Hc. rewrite !less_spec by auto. intros [A1 A2] [B1 B2].
    assert (Cab : nlt N (ew c) (ew a) = false).
    { destruct (nlt N (ew c) (ew a)) eqn:Q; auto. destruct (ol_cotrans OL (ew c) (ew b) (ew a) Hc Hb Ha Q); congruence. }
    split; auto. destruct (nlt N (ew a) (ew c)) eqn:Q; auto. right.
    destruct A2 as [A2|A2].
    { destruct (ol_cotrans OL (ew a) (ew c) (ew b) Ha Hc Hb A2); congruence. }
    destruct B2 as [B2|B2]; [|lia].
    destruct (ol_cotrans OL (ew b) (ew a) (ew c) Hb Ha Hc B2); congruence.
  Qed.
  Lemma less_asym a b : ok (ew a) -> ok (ew b) -> edgeLess a b = true -> edgeLess b a = false.
  Proof.
    intros Ha Hb. unfold edgeLess. rewrite (ol_le OL _ _ Ha Hb), (ol_le OL _ _ Hb Ha).
    destruct (nlt N (ew a) (ew b)) eqn:Q1, (nlt N (ew b) (ew a)) eqn:Q2; simpl; try discriminate; auto.
    - intros _. pose proof (ol_trans OL _ _ _ Ha Hb Ha Q1 Q2). rewrite (ol_irrefl OL) in H; auto.
    - rewrite Nat.ltb_lt, Nat.ltb_ge. lia.
  Qed.
  Lemma einsert_sorted x l : ok (ew x) -> (forall y, In y l -> ok (ew y)) ->
    StronglySorted (fun a b => edgeLess b a = false) l -> StronglySorted (fun a b => edgeLess b a = false) (einsert x l).
  Proof.
    intros Hx. induction l as [|y l IH]; intros Hl HS; simpl; [repeat constructor|].
    inversion HS as [|? ? S1 S2]; subst. rewrite Forall_forall in S2.
    assert (Hy : ok (ew y)) by (apply Hl; simpl; auto).
    destruct (edgeLess y x) eqn:E.
    - constructor; [apply IH; auto; intros; apply Hl; simpl; auto|].
      apply Forall_forall. intros z Hz. eapply Permutation_in in Hz; [|apply einsert_perm].
      destruct Hz as [<-|Hz]; auto. apply less_asym; auto.
    - constructor; auto. apply Forall_forall. intros z [<-|Hz]; auto.
      apply (@le_trans x y z); auto. apply Hl; simpl; auto.
  Qed.
  Lemma esort_ok : @sort_ok N ok esort.
  Proof.
    intros l. split; [apply esort_perm|]. induction l as [|x l IH]; simpl; [constructor|].
    apply einsert_sorted; [apply H; simpl; auto| |apply IH; intros; apply H; simpl; auto].
    intros y Hy. apply H. right. apply (Permutation_in _ (esort_perm l)); auto.
  Qed.
End Sort.

Lemma R_val a b : True -> True -> nlt RNum b a = false -> (a <= b)%R.
Proof. intros _ _. simpl. unfold Rltb. destruct (Rlt_dec b a); [discriminate|lra]. Qed.
Lemma F_val a b : fok a -> fok b -> nlt FNum b a = false -> (ev a <= ev b)%R.
Proof.
  intros Ha Hb H. apply fle_ev; auto. pose proof (ol_le F_ordlaws a b Ha Hb) as Q. simpl in *. rewrite Q, H. auto.
Qed.

(** Every round: each thread acts in turn. *)
Definition turns (k r : nat) : list nat := concat (repeat (seq 0 k) r).
