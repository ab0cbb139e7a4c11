(** The divide and conquer closest pair in exact arithmetic. *)
From Coq Require Import Reals Lra.
From Verif Require Import Base Num KdModel RGeom CpModel.
Set Implicit Arguments.

(** two entries of a list *)
Definition pairIn A (p q : A) (P : list A) : Prop := exists rest, Permutation P (p :: q :: rest).

Section Pairs.
  Variable A : Type.
  Implicit Types p q x : A.
  Implicit Types P L R : list A.

  Lemma pairIn_perm p q P P' : Permutation P P' -> pairIn p q P -> pairIn p q P'.
  Proof. intros H (r & Hr). exists r. rewrite <- H. auto. Qed.
  Lemma pairIn_sym p q P : pairIn p q P -> pairIn q p P.
  Proof. intros (r & Hr). exists r. rewrite Hr. constructor. Qed.
  Lemma pairIn_in p q P : pairIn p q P -> In p P /\ In q P.
  Proof. intros (r & Hr). split; apply (Permutation_in _ (Permutation_sym Hr)); simpl; auto. Qed.
  Lemma in_perm p P : In p P -> exists r, Permutation P (p :: r).
  Proof. intros H. apply in_split in H as (a & b & ->). exists (a ++ b). symmetry. apply Permutation_middle. Qed.
  Lemma pairIn_app_l p q P R : pairIn p q P -> pairIn p q (P ++ R).
  Proof. intros (r & Hr). exists (r ++ R). rewrite Hr. reflexivity. Qed.
  Lemma pairIn_app_r p q P R : pairIn p q R -> pairIn p q (P ++ R).
  Proof. intros H. eapply pairIn_perm; [apply Permutation_app_comm|]. apply pairIn_app_l; auto. Qed.
  Lemma pairIn_across p q P R : In p P -> In q R -> pairIn p q (P ++ R).
  Proof.
    intros Hp Hq. apply in_perm in Hp as (a & Ha). apply in_perm in Hq as (b & Hb). exists (a ++ b).
    rewrite Ha, Hb. simpl. constructor. symmetry. apply Permutation_middle.
  Qed.
  Lemma pairIn_cons p q x P : pairIn p q (x :: P) <-> (p = x /\ In q P) \/ (q = x /\ In p P) \/ pairIn p q P.
  Proof.
    split.
    - intros (r & Hr).
      assert (Hx : In x (p :: q :: r)) by (apply (Permutation_in _ Hr); simpl; auto).
      destruct Hx as [<-|[<-|Hx]].
      + left. split; auto. apply Permutation_cons_inv in Hr. apply (Permutation_in _ (Permutation_sym Hr)). simpl; auto.
      + right. left. split; auto. rewrite perm_swap in Hr. apply Permutation_cons_inv in Hr.
        apply (Permutation_in _ (Permutation_sym Hr)). simpl; auto.
      + right. right. apply in_perm in Hx as (r' & Hr'). exists r'. rewrite Hr' in Hr.
        apply Permutation_cons_inv with (a := x). rewrite Hr.
        change (x :: p :: q :: r') with (x :: [p; q] ++ r'). change (p :: q :: x :: r') with ([p; q] ++ x :: r').
        symmetry. apply Permutation_middle.
    - intros [[-> H]|[[-> H]|H]].
      + apply in_perm in H as (r & Hr). exists r. rewrite Hr. auto.
      + apply in_perm in H as (r & Hr). exists r. rewrite Hr. constructor.
      + change (x :: P) with ([x] ++ P). apply pairIn_app_r; auto.
  Qed.
  Lemma pairIn_app p q P R : pairIn p q (P ++ R) ->
    pairIn p q P \/ pairIn p q R \/ (In p P /\ In q R) \/ (In q P /\ In p R).
  Proof.
    induction P as [|x P IH]; simpl; auto. intros H. apply pairIn_cons in H as [[-> H]|[[-> H]|H]].
    - apply in_app_iff in H as [H|H]; [left|right; right; left; auto]. apply pairIn_cons. auto.
    - apply in_app_iff in H as [H|H]; [left|right; right; right; auto]. apply pairIn_cons. auto.
    - destruct (IH H) as [H1|[H1|[[H1 H2]|[H1 H2]]]]; auto 6.
      left. apply pairIn_cons. auto.
  Qed.
  Lemma pairIn_nil p q : ~ pairIn p q [].
  Proof. intros (r & Hr). apply Permutation_nil in Hr. discriminate. Qed.
  Lemma pairIn_nth d P i j : i < j < length P -> pairIn (nth i P d) (nth j P d) P.
  Proof.
    revert i j. induction P as [|x P IH]; intros i j H; simpl in H; [lia|]. apply pairIn_cons.
    destruct i as [|i]; destruct j as [|j]; try lia; simpl.
    - left. split; auto. apply nth_In. lia.
    - right. right. apply IH. lia.
  Qed.
  Lemma pairIn_idx d p q P : pairIn p q P -> exists i j, i < j < length P /\
    ((nth i P d = p /\ nth j P d = q) \/ (nth i P d = q /\ nth j P d = p)).
  Proof.
    induction P as [|x P IH]; intros H; [exfalso; eapply pairIn_nil; eauto|].
    apply pairIn_cons in H as [[-> H]|[[-> H]|H]].
    - apply In_nth with (d := d) in H as (j & Hj & <-). exists 0, (S j). simpl. split; [lia|auto].
    - apply In_nth with (d := d) in H as (j & Hj & <-). exists 0, (S j). simpl. split; [lia|auto].
    - destruct (IH H) as (i & j & Hij & H1). exists (S i), (S j). simpl. split; [lia|auto].
  Qed.
  Lemma pairIn_filter (f : A -> bool) p q P : pairIn p q P -> f p = true -> f q = true -> pairIn p q (filter f P).
  Proof.
    intros (r & Hr) Hp Hq. exists (filter f r). rewrite (Permutation_filter f Hr). simpl. rewrite Hp, Hq. auto.
  Qed.
  Lemma pairIn_filter_inv (f : A -> bool) p q P : pairIn p q (filter f P) -> pairIn p q P.
  Proof.
    intros H. eapply pairIn_perm; [apply (filter_perm_split f)|]. apply pairIn_app_l; auto.
  Qed.
End Pairs.

Local Open Scope R_scope.
Notation pt := (list (nT RNum)).

(** *** counting *)
Fixpoint bits (n : nat) : list (list bool) :=
  match n with O => [[]] | S n' => map (cons true) (bits n') ++ map (cons false) (bits n') end.
Lemma bits_len n : length (bits n) = (2 ^ n)%nat.
Proof. induction n; simpl; auto. rewrite app_length, !map_length, IHn. lia. Qed.
Lemma bits_in l : In l (bits (length l)).
Proof. induction l as [|[] l IH]; simpl; auto; apply in_app_iff; [left|right]; apply in_map; auto. Qed.
Lemma codes n (L : list (list bool)) : NoDup L -> (forall l, In l L -> length l = n) -> (length L <= 2 ^ n)%nat.
Proof.
  intros HN H. rewrite <- bits_len. apply NoDup_incl_length; auto. intros l Hl. rewrite <- (H l Hl). apply bits_in.
Qed.
Lemma NoDup_pairs X (f : X -> list bool) L : (forall a b, pairIn a b L -> f a <> f b) -> NoDup (map f L).
Proof.
  induction L as [|x L IH]; intros H; simpl; constructor.
  - intros Hx. apply in_map_iff in Hx as (y & E & Hy). apply (H x y); auto. apply pairIn_cons. auto.
  - apply IH. intros a b Hab. apply H. apply pairIn_cons. auto.
Qed.

Lemma app_inv_len X (a b c d : list X) : length a = length c -> a ++ b = c ++ d -> a = c /\ b = d.
Proof.
  revert c. induction a as [|x a IH]; intros [|y c] HL E; simpl in *; try discriminate; auto.
  injection E as -> E. destruct (IH c ltac:(lia) E) as [-> ->]. auto.
Qed.
Lemma map_eq_in X Y (f g : X -> Y) l : map f l = map g l -> forall x, In x l -> f x = g x.
Proof. induction l as [|y l IH]; simpl; [tauto|]. intros E x [->|H]; injection E; auto. Qed.
Lemma Rabs_mult_self x : Rabs x * Rabs x = x * x.
Proof. rewrite <- Rabs_mult. apply Rabs_right. nra. Qed.

Section Exact.
  Variable dim : nat.
  Notation D := (edist dim).

  Definition apart (d : R) (P : list pt) : Prop := forall p q, pairIn p q P -> d <= D p q.

  Lemma D_sym p q : D p q = D q p.
  Proof. rewrite <- !dist_edist. apply dist_sym. Qed.
  Lemma D_nonneg p q : 0 <= D p q.
  Proof. rewrite <- dist_edist. apply dist_nonneg. Qed.
  Lemma D_coord p q i : (i < dim)%nat -> Rabs (coord (N := RNum) p i - coord (N := RNum) q i) <= D p q.
  Proof. intros H. rewrite <- dist_edist. apply coord_le_dist; auto. Qed.
  Lemma D_sq p q : D p q * D p q = rsum (fun i => (coord (N := RNum) p i - coord (N := RNum) q i) * (coord (N := RNum) p i - coord (N := RNum) q i)) dim.
  Proof. rewrite <- dist_edist, dist_sqr, distSqr_sum. reflexivity. Qed.

  (** *** coloured points: bit i tells the side of the slab of dimension i *)
  Definition cpt := (pt * (nat -> bool))%type.
  Variables (m del : nat -> R).
  Definition half (i : nat) (a : cpt) : Prop :=
    if snd a i then m i <= coord (N := RNum) (fst a) i <= m i + del i else m i - del i <= coord (N := RNum) (fst a) i <= m i.
  Definition layers (k : nat) (C : list cpt) : Prop :=
    (forall a i, In a C -> (k < i < dim)%nat -> half i a) /\
    (forall a b i, pairIn a b C -> (k < i < dim)%nat -> snd a i = snd b i -> del i <= D (fst a) (fst b)).

  (** at most 2^(2 dim - 1) points in a box, if dim <= 4 *)
  Definition code (x w : R) (a : cpt) : list bool :=
    Rltb (x + w / 2) (coord (N := RNum) (fst a) 0) ::
    map (fun i => snd a (S i)) (seq 0 (dim - 1)) ++
    map (fun i => Rltb (if snd a (S i) then m (S i) + del (S i) / 2 else m (S i) - del (S i) / 2) (coord (N := RNum) (fst a) (S i))) (seq 0 (dim - 1)).

  Lemma packing C x w : (2 <= dim <= 4)%nat -> layers 0 C -> 0 <= w < del 1%nat -> (forall i, (1 <= i < dim)%nat -> 0 < del i) ->
    (forall a, In a C -> x <= coord (N := RNum) (fst a) 0 <= x + w) -> (length C <= 2 ^ (dim * 2 - 1))%nat.
  Proof.
    intros Hd [H1 H2] Hw Hp Hx. rewrite <- (map_length (code x w)). apply codes.
    2:{ intros l Hl. apply in_map_iff in Hl as (a & <- & _). unfold code. cbn [length]. rewrite app_length, !map_length, !seq_length. lia. }
    apply NoDup_pairs. intros a b Hab E. destruct (pairIn_in Hab) as [Ha Hb].
    unfold code in E. pose proof (f_equal (hd true) E) as E0. apply (f_equal (@tl bool)) in E. cbn [hd tl] in E0, E.
    apply app_inv_len in E as [E1 E2]; [|rewrite !map_length; auto].
    assert (Hcol : forall i, (1 <= i < dim)%nat -> snd a i = snd b i).
    { intros [|i] Hi; [lia|]. apply (map_eq_in _ _ _ E1). apply in_seq. lia. }
    assert (Hbit : forall i, (1 <= i < dim)%nat -> Rabs (coord (N := RNum) (fst a) i - coord (N := RNum) (fst b) i) <= del i / 2).
    { intros i Hi. pose proof (H1 a i Ha ltac:(lia)) as Ba. pose proof (H1 b i Hb ltac:(lia)) as Bb.
      destruct i as [|i]; [lia|]. pose proof (map_eq_in _ _ _ E2 i ltac:(apply in_seq; lia)) as Eb. cbn beta in Eb.
      unfold half in Ba, Bb. rewrite <- (Hcol (S i)) in Bb, Eb by lia. apply Rabs_le.
      destruct (snd a (S i)) eqn:Ec; destruct (Rltb_spec (m (S i) + del (S i) / 2) (coord (N := RNum) (fst a) (S i)));
        destruct (Rltb_spec (m (S i) - del (S i) / 2) (coord (N := RNum) (fst a) (S i)));
        destruct (Rltb_spec (m (S i) + del (S i) / 2) (coord (N := RNum) (fst b) (S i)));
        destruct (Rltb_spec (m (S i) - del (S i) / 2) (coord (N := RNum) (fst b) (S i))); try discriminate; lra. }
    assert (H0 : Rabs (coord (N := RNum) (fst a) 0 - coord (N := RNum) (fst b) 0) <= w / 2).
    { pose proof (Hx a Ha). pose proof (Hx b Hb). apply Rabs_le.
      destruct (Rltb_spec (x + w / 2) (coord (N := RNum) (fst a) 0)); destruct (Rltb_spec (x + w / 2) (coord (N := RNum) (fst b) 0)); try discriminate; lra. }
    set (d := D (fst a) (fst b)).
    assert (Hdel : forall i, (1 <= i < dim)%nat -> del i <= d) by (intros i Hi; apply H2; auto; lia).
    assert (S : d * d < INR dim * (d * d / 4)).
    { unfold d at 1 2. rewrite D_sq.
      assert (G : forall n, (1 <= n <= dim)%nat -> rsum (fun i => (coord (N := RNum) (fst a) i - coord (N := RNum) (fst b) i) * (coord (N := RNum) (fst a) i - coord (N := RNum) (fst b) i)) n < INR n * (d * d / 4)).
      { induction n as [|n IH]; intros Hn; [lia|]. destruct n as [|n].
        - clear IH. cbn [rsum INR]. rewrite Rplus_0_l. pose proof (Hdel 1%nat ltac:(lia)).
          apply Rle_lt_trans with (w / 2 * (w / 2)); [|nra].
          rewrite <- (Rabs_mult_self (coord (N := RNum) (fst a) 0 - coord (N := RNum) (fst b) 0)). pose proof (Rabs_pos (coord (N := RNum) (fst a) 0 - coord (N := RNum) (fst b) 0)). nra.
        - rewrite S_INR. cbn [rsum]. specialize (IH ltac:(lia)). cbn [rsum] in IH.
          pose proof (Hbit (S n) ltac:(lia)) as B. pose proof (Hdel (S n) ltac:(lia)). pose proof (Hp (S n) ltac:(lia)).
          assert ((coord (N := RNum) (fst a) (S n) - coord (N := RNum) (fst b) (S n)) * (coord (N := RNum) (fst a) (S n) - coord (N := RNum) (fst b) (S n)) <= d * d / 4).
          { rewrite <- Rabs_mult_self. pose proof (Rabs_pos (coord (N := RNum) (fst a) (S n) - coord (N := RNum) (fst b) (S n))). nra. }
          lra. }
      apply G. lia. }
    assert (INR dim <= 4). { replace 4 with (INR 4) by (simpl; lra). apply le_INR. lia. }
    assert (0 <= d * d) by nra. nra.
  Qed.
End Exact.
