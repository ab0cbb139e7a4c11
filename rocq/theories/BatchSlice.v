(** Rearrangements of a range of an array. *)
From Verif Require Import Base BatchSplit BatchModel.
Set Implicit Arguments.

Lemma slice_length A s e (l : list A) : e <= length l -> length (slice s e l) = e - s.
Proof. intros H. unfold slice. rewrite firstn_length, skipn_length. lia. Qed.

Lemma nth_error_firstn A n (l : list A) k : k < n -> nth_error (firstn n l) k = nth_error l k.
Proof.
  revert n k; induction l as [|x l IH]; intros [|n] [|k] H; simpl; auto; try lia.
  apply IH; lia.
Qed.
Lemma nth_error_skipn A n (l : list A) k : nth_error (skipn n l) k = nth_error l (n + k).
Proof.
  revert n; induction l as [|x l IH]; intros [|n]; simpl; auto. destruct k; reflexivity.
Qed.

Lemma nth_error_slice A s e (l : list A) k : k < e - s -> nth_error (slice s e l) k = nth_error l (s + k).
Proof. intros H. unfold slice. rewrite nth_error_firstn by auto. apply nth_error_skipn. Qed.

Lemma nth_error_eq A (l l' : list A) : (forall k, nth_error l k = nth_error l' k) -> l = l'.
Proof.
  revert l'; induction l as [|x l IH]; intros [|y l'] H; auto.
  - specialize (H 0); discriminate.
  - specialize (H 0); discriminate.
  - f_equal; [specialize (H 0); simpl in H; congruence|].
    apply IH. intros k. apply (H (S k)).
Qed.

Lemma slice_eq A s e (l l' : list A) : length l = length l' ->
  (forall k, s <= k < e -> nth_error l k = nth_error l' k) -> slice s e l = slice s e l'.
Proof.
  intros Hl H. apply nth_error_eq. intros k.
  destruct (Nat.lt_ge_cases k (e - s)) as [Hk | Hk].
  - rewrite !nth_error_slice by auto. apply H; lia.
  - assert (N1 : nth_error (slice s e l) k = None).
    { apply nth_error_None. unfold slice. rewrite firstn_length. lia. }
    assert (N2 : nth_error (slice s e l') k = None).
    { apply nth_error_None. unfold slice. rewrite firstn_length. lia. }
    congruence.
Qed.

Lemma skipn_skipn A n m (l : list A) : skipn n (skipn m l) = skipn (m + n) l.
Proof.
  apply nth_error_eq. intros k. rewrite !nth_error_skipn. f_equal. lia.
Qed.

Lemma slice_split A s m e (l : list A) : s <= m <= e ->
  slice s e l = slice s m l ++ slice m e l.
Proof.
  intros H. unfold slice.
  replace (skipn m l) with (skipn (m - s) (skipn s l)).
  2:{ rewrite skipn_skipn. f_equal. lia. }
  generalize (skipn s l) as l'. intros l'.
  rewrite <- (firstn_skipn (m - s) (firstn (e - s) l')).
  rewrite firstn_firstn, skipn_firstn_comm. f_equal; f_equal; lia.
Qed.

Lemma slice_full A (l : list A) : slice 0 (length l) l = l.
Proof. unfold slice. rewrite Nat.sub_0_r. simpl. apply firstn_all. Qed.

Lemma slice_slice A s e a b (l : list A) : s + b <= e ->
  slice a b (slice s e l) = slice (s + a) (s + b) l.
Proof.
  intros H. unfold slice. rewrite skipn_firstn_comm, skipn_skipn, firstn_firstn.
  f_equal; lia.
Qed.

Lemma setSlice_length A s e (m l : list A) : s <= e -> e <= length l -> length m = e - s ->
  length (setSlice s e m l) = length l.
Proof.
  intros. unfold setSlice. rewrite !app_length, firstn_length, skipn_length. lia.
Qed.
Lemma setSlice_out A s e (m l : list A) k : s <= e -> e <= length l -> length m = e - s ->
  k < s \/ e <= k -> nth_error (setSlice s e m l) k = nth_error l k.
Proof.
  intros H1 H2 H3 H. unfold setSlice. destruct H as [H | H].
  - rewrite nth_error_app1 by (rewrite firstn_length; lia). apply nth_error_firstn; auto.
  - rewrite nth_error_app2 by (rewrite firstn_length; lia).
    rewrite firstn_length. rewrite nth_error_app2 by lia.
    rewrite nth_error_skipn. f_equal. lia.
Qed.
Lemma setSlice_slice A s e (m l : list A) : s <= e -> e <= length l -> length m = e - s ->
  slice s e (setSlice s e m l) = m.
Proof.
  intros H1 H2 H3. unfold slice, setSlice.
  rewrite skipn_app, firstn_length, skipn_firstn_comm.
  replace (s - s) with 0 by lia. replace (s - Nat.min s (length l)) with 0 by lia. simpl.
  rewrite firstn_app, <- H3, Nat.sub_diag, firstn_all. simpl. apply app_nil_r.
Qed.

(** [l'] is [l] with the items of [s, e) rearranged. *)
Definition sperm {A} (s e : nat) (l l' : list A) : Prop :=
  length l' = length l /\
  (forall k, k < s \/ e <= k -> nth_error l' k = nth_error l k) /\
  Permutation (slice s e l) (slice s e l').

Lemma sperm_refl A s e (l : list A) : sperm s e l l.
Proof. repeat split; auto. Qed.
Lemma sperm_trans A s e (l l' l'' : list A) : sperm s e l l' -> sperm s e l' l'' -> sperm s e l l''.
Proof.
  intros (A1 & A2 & A3) (B1 & B2 & B3). split; [congruence|]. split.
  - intros k Hk. rewrite B2, A2; auto.
  - eapply Permutation_trans; eauto.
Qed.
Lemma sperm_same A s e (l l' : list A) a b : sperm s e l l' -> b <= s \/ e <= a ->
  slice a b l' = slice a b l.
Proof.
  intros (A1 & A2 & A3) H. apply slice_eq; auto. intros k Hk. apply A2. lia.
Qed.
Lemma sperm_wider A s e (l l' : list A) a b : s <= e -> sperm s e l l' -> a <= s -> e <= b ->
  sperm a b l l'.
Proof.
  intros Hse (A1 & A2 & A3) Ha Hb. split; auto. split; [intros; apply A2; lia|].
  rewrite (@slice_split _ a s b l), (@slice_split _ a s b l') by lia.
  rewrite (@slice_split _ s e b l), (@slice_split _ s e b l') by lia.
  assert (E1 : slice a s l' = slice a s l) by (apply slice_eq; auto; intros; apply A2; lia).
  assert (E2 : slice e b l' = slice e b l) by (apply slice_eq; auto; intros; apply A2; lia).
  rewrite E1, E2. apply Permutation_app_head. apply Permutation_app_tail. auto.
Qed.
(** A rearrangement of a range does not change which items a larger or a
    disjoint range holds. *)
Lemma sperm_in A s e (l l' : list A) a b x : s <= e -> sperm s e l l' ->
  (a <= s /\ e <= b) \/ b <= s \/ e <= a ->
  In x (slice a b l') -> In x (slice a b l).
Proof.
  intros Hse H [[Ha Hb] | H2] Hx.
  - destruct (sperm_wider Hse H Ha Hb) as (_ & _ & P).
    apply (Permutation_in _ (Permutation_sym P) Hx).
  - rewrite (sperm_same H H2) in Hx. auto.
Qed.
Lemma sperm_perm A s e (l l' : list A) : s <= e -> e <= length l -> sperm s e l l' -> Permutation l l'.
Proof.
  intros Hse He H. destruct (@sperm_wider _ s e l l' 0 (length l) Hse H) as (E & _ & P); try lia.
  rewrite slice_full in P. rewrite <- E, slice_full in P. auto.
Qed.
Lemma sperm_set A s e (m l : list A) : s <= e -> e <= length l ->
  Permutation (slice s e l) m -> sperm s e l (setSlice s e m l).
Proof.
  intros H1 H2 P.
  assert (Hm : length m = e - s).
  { rewrite <- (Permutation_length P). apply slice_length; auto. }
  split; [apply setSlice_length; auto|]. split.
  - intros. apply setSlice_out; auto.
  - rewrite setSlice_slice; auto.
Qed.
