(** Outcomes of modelled C++ functions and general list lemmas. *)
From Coq Require Export List Arith Lia Bool Permutation ZArith Sorting.Sorted.
Export ListNotations.
Set Implicit Arguments.

(** Outcome of a modelled C++ function: a value, a thrown exception, undefined
    behaviour (out-of-bounds access, uninitialised read, null dereference), or
    exhausted recursion fuel (excluded by every theorem). *)
Inductive res (A : Type) : Type :=
| Ok (a : A)
| Throw
| UB
| Fuel.
Arguments Ok {A} a.
Arguments Throw {A}.
Arguments UB {A}.
Arguments Fuel {A}.

Definition bind {A B} (r : res A) (f : A -> res B) : res B :=
  match r with Ok a => f a | Throw => Throw | UB => UB | Fuel => Fuel end.

Notation "x <- e1 ;; e2" := (bind e1 (fun x => e2))
  (at level 61, e1 at next level, right associativity).
Notation "' p <- e1 ;; e2" := (bind e1 (fun x => match x with p => e2 end))
  (at level 61, p pattern, e1 at next level, right associativity).

Lemma bind_ok A B (r : res A) (f : A -> res B) b :
  bind r f = Ok b -> exists a, r = Ok a /\ f a = Ok b.
Proof. destruct r; simpl; try discriminate; eauto. Qed.

(** [upd i x l]: the array [l] after the assignment [l[i] = x]. *)
Fixpoint upd {A} (i : nat) (x : A) (l : list A) : list A :=
  match l, i with
  | [], _ => []
  | _ :: l', 0 => x :: l'
  | y :: l', S i' => y :: upd i' x l'
  end.

Lemma upd_length A i (x : A) l : length (upd i x l) = length l.
Proof. revert i; induction l as [|y l IH]; intros [|i]; simpl; auto. Qed.

Lemma nth_error_upd_eq A i (x : A) l :
  i < length l -> nth_error (upd i x l) i = Some x.
Proof.
  revert i; induction l as [|y l IH]; intros [|i]; simpl; intros H; try lia; auto.
  apply IH; lia.
Qed.

Lemma nth_error_upd_neq A i j (x : A) l :
  i <> j -> nth_error (upd i x l) j = nth_error l j.
Proof.
  revert i j; induction l as [|y l IH]; intros [|i] [|j]; simpl; intros H; try lia; auto.
Qed.

Lemma nth_upd_eq A i (x d : A) l : i < length l -> nth i (upd i x l) d = x.
Proof.
  revert i; induction l as [|y l IH]; intros [|i]; simpl; intros H; try lia; auto.
  apply IH; lia.
Qed.

Lemma nth_upd_neq A i j (x d : A) l : i <> j -> nth j (upd i x l) d = nth j l d.
Proof.
  revert i j; induction l as [|y l IH]; intros [|i] [|j]; simpl; intros H; try lia; auto.
Qed.

Lemma upd_out A i (x : A) l : length l <= i -> upd i x l = l.
Proof.
  revert i; induction l as [|y l IH]; intros [|i]; simpl; intros H; try lia; auto.
  rewrite IH; auto; lia.
Qed.

Lemma nth_seq0 n d k : k < n -> nth k (seq 0 n) d = k.
Proof. intros; rewrite seq_nth; lia. Qed.

Lemma nth_map_seq A (f : nat -> A) n k d :
  k < n -> nth k (map f (seq 0 n)) d = f k.
Proof.
  intros H.
  rewrite nth_indep with (d' := f 0) by (rewrite map_length, seq_length; lia).
  rewrite map_nth, seq_nth by lia. reflexivity.
Qed.

Lemma in_seq0 n k : In k (seq 0 n) <-> k < n.
Proof. rewrite in_seq; lia. Qed.

Lemma firstn_skipn_perm A n (l : list A) : Permutation (firstn n l ++ skipn n l) l.
Proof. rewrite firstn_skipn; reflexivity. Qed.

Lemma forallb_false A (f : A -> bool) l :
  forallb f l = false <-> exists x, In x l /\ f x = false.
Proof.
  induction l as [|a l IH]; simpl.
  - split; [discriminate | intros (x & [] & _)].
  - destruct (f a) eqn:E; simpl.
    + rewrite IH. split.
      * intros (x & H1 & H2); eauto.
      * intros (x & [->|H1] & H2); [congruence|eauto].
    + split; eauto.
Qed.

Lemma existsb_false A (f : A -> bool) l :
  existsb f l = false <-> forall x, In x l -> f x = false.
Proof.
  induction l as [|a l IH]; simpl.
  - split; [intros _ x [] | auto].
  - destruct (f a) eqn:E; simpl.
    + split; [discriminate|]. intros H. rewrite <- E; apply H; auto.
    + rewrite IH. split.
      * intros H x [<-|Hx]; auto.
      * intros H x Hx; auto.
Qed.

Lemma Permutation_filter A (f : A -> bool) l l' :
  Permutation l l' -> Permutation (filter f l) (filter f l').
Proof.
  induction 1; simpl; auto.
  - destruct (f x); auto.
  - destruct (f x), (f y); auto. apply perm_swap.
  - etransitivity; eauto.
Qed.

Lemma filter_all A (f : A -> bool) l :
  (forall x, In x l -> f x = true) -> filter f l = l.
Proof.
  induction l as [|a l IH]; simpl; intros H; auto.
  rewrite (H a) by auto. rewrite IH; auto.
Qed.

Lemma filter_none A (f : A -> bool) l :
  (forall x, In x l -> f x = false) -> filter f l = [].
Proof.
  induction l as [|a l IH]; simpl; intros H; auto.
  rewrite (H a) by auto. apply IH; auto.
Qed.

Lemma filter_perm_split A (f : A -> bool) l :
  Permutation (filter f l ++ filter (fun x => negb (f x)) l) l.
Proof.
  induction l as [|a l IH]; simpl; auto.
  destruct (f a); simpl.
  - constructor; auto.
  - etransitivity; [symmetry; apply Permutation_middle|]. constructor; auto.
Qed.

Lemma filter_length_le A (f : A -> bool) l : length (filter f l) <= length l.
Proof. induction l as [|a l IH]; simpl; auto. destruct (f a); simpl; lia. Qed.

Lemma NoDup_app_intro A (l l' : list A) :
  NoDup l -> NoDup l' -> (forall x, In x l -> In x l' -> False) -> NoDup (l ++ l').
Proof.
  induction 1 as [|a l Ha Hl IH]; simpl; intros H1 H2; auto.
  constructor.
  - rewrite in_app_iff. intros [H|H]; auto. eapply H2; eauto.
  - apply IH; auto. intros x Hx Hx'. eapply H2; eauto.
Qed.

Lemma NoDup_app_elim A (l l' : list A) :
  NoDup (l ++ l') -> NoDup l /\ NoDup l' /\ (forall x, In x l -> In x l' -> False).
Proof.
  induction l as [|a l IH]; simpl; intros H.
  - split; [constructor|]. split; auto.
  - inversion H as [|? ? H1 H2]; subst. destruct (IH H2) as (H3 & H4 & H5).
    rewrite in_app_iff in H1.
    split; [constructor; auto|]. split; auto.
    intros x [<-|Hx] Hx'; auto. eapply H5; eauto.
Qed.

Lemma nth_error_ext A (l l' : list A) :
  (forall i, nth_error l i = nth_error l' i) -> l = l'.
Proof.
  revert l'; induction l as [|a l IH]; intros [|b l'] H; auto.
  - specialize (H 0); discriminate.
  - specialize (H 0); discriminate.
  - pose proof (H 0) as H0. simpl in H0. inversion H0; subst. f_equal.
    apply IH. intros i. apply (H (S i)).
Qed.

Lemma firstn_S_nth A i (l : list A) d : i < length l ->
  firstn (S i) l = firstn i l ++ [nth i l d].
Proof.
  revert i; induction l as [|a l IH]; intros [|i]; simpl; intros; try lia; auto.
  f_equal. apply IH. lia.
Qed.

Lemma fold_left_ext' {A B} (f g : A -> B -> A) (l : list B) : (forall a b, f a b = g a b) ->
  forall a, fold_left f l a = fold_left g l a.
Proof. intros H. induction l as [|x l IH]; simpl; intros a; auto. rewrite H. apply IH. Qed.
