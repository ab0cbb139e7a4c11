(** The prefix loops of prefixFor.h. *)
From Verif Require Import Base SebModel.
Set Implicit Arguments.

Section Prefix.
  Variable St : Type.
  Variable process : St -> nat -> res bool.
  Variable cleanUp : St -> nat -> res St.
  Notation visit := (visit process cleanUp).

  Lemma foldR_app X Y (f : Y -> X -> res Y) l1 l2 y : foldR f (l1 ++ l2) y = (y' <- foldR f l1 y ;; foldR f l2 y').
  Proof.
    revert y. induction l1 as [|x l1 IH]; intros y; cbn [app foldR bind]; auto.
    destruct (f y x); cbn [bind]; auto.
  Qed.

  Lemma mapR_ok X Y (f : X -> res Y) l ys : mapR f l = Ok ys -> Forall2 (fun x y => f x = Ok y) l ys.
  Proof.
    revert ys. induction l as [|x l IH]; intros ys; cbn [mapR].
    - intros E; inversion E; constructor.
    - intros E. apply bind_ok in E as (y & E1 & E). apply bind_ok in E as (r & E2 & E). inversion E; subst.
      constructor; auto.
  Qed.
  Lemma mapR_total X Y (f : X -> res Y) l : (forall x, In x l -> exists y, f x = Ok y) -> exists ys, mapR f l = Ok ys.
  Proof.
    induction l as [|x l IH]; intros H; cbn [mapR]; [eauto|].
    destruct (H x ltac:(simpl; auto)) as (y & ->). destruct IH as (ys & ->); [intros; apply H; simpl; auto|].
    cbn [bind]. eauto.
  Qed.

  (** Position of the first [true]. *)
  Fixpoint firstT (l : list bool) : option nat :=
    match l with [] => None | true :: _ => Some 0 | false :: l' => option_map S (firstT l') end.

  Lemma firstT_some l j : firstT l = Some j -> j < length l /\ nth j l false = true /\ forall j', j' < j -> nth j' l false = false.
  Proof.
    revert j. induction l as [|[] l IH]; intros j; simpl; [discriminate| |].
    - intros E; inversion E; subst. split; [lia|]. split; auto. intros; lia.
    - destruct (firstT l) as [k|]; simpl; [|discriminate]. intros E; inversion E; subst.
      destruct (IH k eq_refl) as (H1 & H2 & H3). split; [lia|]. split; auto. intros [|j'] Hj; auto. apply H3. lia.
  Qed.
  Lemma firstT_none l : firstT l = None -> total l = 0 /\ forall j, nth j l false = false.
  Proof.
    induction l as [|[] l IH]; simpl; [|discriminate|].
    - split; auto. intros [|]; auto.
    - destruct (firstT l); simpl; [discriminate|]. intros _. destruct IH as [H1 H2]; auto.
      split; auto. intros [|j]; auto.
  Qed.
  Lemma firstT_total l j : firstT l = Some j -> 0 < total l.
  Proof.
    revert j. induction l as [|[] l IH]; intros j; simpl; [discriminate| |]; unfold total; simpl; [lia|].
    destruct (firstT l) as [k|]; simpl; [|discriminate]. intros _. apply (IH k); auto.
  Qed.

  Lemma sums_nth a l j : j <= length l -> nth j (exSums a l ++ [a + total l]) 0 = a + total (firstn j l).
  Proof.
    revert a j. induction l as [|b l IH]; intros a j Hj; simpl in Hj.
    - assert (j = 0) by lia. subst. unfold total. simpl. lia.
    - destruct j as [|j]; cbn [exSums app nth firstn]; [unfold total; simpl; lia|].
      specialize (IH (a + (if b then 1 else 0)) j ltac:(lia)).
      replace (a + total (b :: l)) with (a + (if b then 1 else 0) + total l) by (unfold total; destruct b; simpl; lia).
      rewrite IH. unfold total. destruct b; simpl; lia.
  Qed.
  Lemma total_pre l j : j < length l -> (total (firstn j l) = 0 /\ total (firstn (S j) l) <> 0 <-> firstT l = Some j).
  Proof.
    revert j. induction l as [|b l IH]; intros j Hj; simpl in Hj; [lia|].
    destruct j as [|j]; [destruct b; unfold total; simpl; split; try tauto|].
    - intros _. split; auto.
    - destruct (firstT l); discriminate.
    - cbn [firstT]. destruct b.
      + unfold total. simpl. split; [lia|discriminate].
      + rewrite !firstn_cons. change (total (false :: firstn j l)) with (total (firstn j l)).
        change (total (false :: firstn (S j) l)) with (total (firstn (S j) l)). rewrite IH by lia.
        destruct (firstT l) as [k|]; simpl; split; try discriminate; intros E; inversion E; auto.
  Qed.
  Lemma filter_one (f : nat -> bool) a n j : a <= j < a + n -> f j = true ->
    (forall x, a <= x < a + n -> f x = true -> x = j) -> filter f (seq a n) = [j].
  Proof.
    revert a. induction n as [|n IH]; intros a Hj Hf H; [lia|]. simpl.
    destruct (Nat.eq_dec a j) as [->|Hne].
    - rewrite Hf. f_equal. apply filter_none. intros x Hx. apply in_seq in Hx.
      destruct (f x) eqn:E; auto. exfalso. specialize (H x ltac:(lia) E). lia.
    - destruct (f a) eqn:E; [exfalso; apply Hne; apply H; auto; lia|].
      apply IH; auto; [lia|]. intros; apply H; auto; lia.
  Qed.

  (** Exactly one iteration writes the conflict index: the first bad element. *)
  Lemma firstBad_spec l : firstBad l = match firstT l with Some j => [j] | None => [] end.
  Proof.
    unfold firstBad.
    assert (N : forall j, j < length l -> ((nth j (exSums 0 l ++ [total l]) 0 =? 0) &&
      negb (nth j (exSums 0 l ++ [total l]) 0 =? nth (1 + j) (exSums 0 l ++ [total l]) 0) = true <-> firstT l = Some j)).
    { intros j Hj. change (total l) with (0 + total l). rewrite !sums_nth by lia. rewrite <- total_pre by auto.
      rewrite andb_true_iff, negb_true_iff, Nat.eqb_eq, Nat.eqb_neq. cbn [plus]. split; lia. }
    destruct (firstT l) as [j|] eqn:E.
    - destruct (firstT_some _ E) as (H1 & _ & _). apply filter_one; [lia|apply N; auto|].
      intros x Hx Hf. apply N in Hf; [|lia]. inversion Hf; auto.
    - apply filter_none. intros x Hx. apply in_seq in Hx.
      match goal with |- ?b = false => destruct b eqn:Eb; auto end. apply N in Eb; [discriminate|lia].
  Qed.

  (** [J i s]: s is a state of the loop before element i. *)
  Variable n : nat.
  Variable J : nat -> St -> Prop.
  Hypothesis Hproc : forall i s j, J i s -> i <= j < n -> exists b, process s j = Ok b.
  Hypothesis Hskip : forall i s, J i s -> i < n -> process s i = Ok false -> J (S i) s.
  Hypothesis Hclean : forall i s, J i s -> i < n -> process s i = Ok true ->
    exists s', cleanUp s i = Ok s' /\ J (S i) s'.

  Lemma foldR_J m i s : i + m <= n -> J i s -> exists s', foldR visit (seq i m) s = Ok s' /\ J (i + m) s'.
  Proof.
    revert i s. induction m as [|m IH]; intros i s Hi Hs; cbn [seq foldR].
    - rewrite Nat.add_0_r. eauto.
    - destruct (Hproc Hs (j := i)) as (b & Eb); [lia|].
      assert (G : exists s1, visit s i = Ok s1 /\ J (S i) s1).
      { unfold SebModel.visit. rewrite Eb. cbn [bind]. destruct b; [apply Hclean; auto; lia|]. eexists; split; [reflexivity|]. apply Hskip; auto; lia. }
      destruct G as (s1 & -> & H1). cbn [bind]. destruct (IH (S i) s1 ltac:(lia) H1) as (s2 & E2 & H2).
      exists s2. split; auto. replace (i + S m) with (S i + m) by lia. auto.
  Qed.

  (** The extra contract of the parallel loop: a processed element is no longer in conflict. *)
  Hypothesis Hdone : forall i s s', J i s -> i < n -> process s i = Ok true -> cleanUp s i = Ok s' ->
    J i s' /\ process s' i = Ok false.

  Lemma skip_range s i k : J i s -> i + k <= n -> (forall j, i <= j < i + k -> process s j = Ok false) ->
    foldR visit (seq i k) s = Ok s /\ J (i + k) s.
  Proof.
    revert i. induction k as [|k IH]; intros i Hs Hk H; cbn [seq foldR].
    - rewrite Nat.add_0_r. auto.
    - unfold SebModel.visit at 1. rewrite H by lia. cbn [bind]. destruct (IH (S i)) as [E1 E2].
      + apply Hskip; auto; [lia|]. apply H. lia.
      + lia.
      + intros; apply H; lia.
      + split; auto. replace (i + S k) with (S i + k) by lia. auto.
  Qed.

  Variables PREFIX THRESH : nat.
  Variable order : list nat -> list nat.
  Hypothesis Hord : forall l, Permutation (order l) l.
  Hypothesis Hpre : 0 < PREFIX <= n.
  Hypothesis Hthr : 0 < THRESH.

  Lemma Forall2_nth2 X Y (Q : X -> Y -> Prop) l l' d d' : Forall2 Q l l' -> forall i, i < length l -> Q (nth i l d) (nth i l' d').
  Proof. induction 1; intros [|i] Hi; simpl in *; try lia; auto. apply IHForall2. lia. Qed.

  Definition bad (s : St) (i : nat) : nat := match process s i with Ok true => 1 | _ => 0 end.

  Lemma parLoop_serial fuel : forall i s, J i s -> i <= n -> 2 * (n - i) + bad s i < fuel ->
    parLoop process cleanUp fuel n PREFIX THRESH order i s = foldR visit (seq i (n - i)) s.
  Proof.
    induction fuel as [|fuel IH]; intros i s Hs Hi Hf; [lia|]. cbn [parLoop].
    destruct (Nat.ltb_spec i n) as [Hlt|Hge].
    2:{ replace (n - i) with 0 by lia. reflexivity. }
    set (prefix := if i =? 0 then PREFIX else Nat.min (i * 3) n).
    assert (Hp : i < prefix <= n).
    { unfold prefix. destruct (Nat.eqb_spec i 0) as [->|]; [auto|]. lia. }
    assert (Split : seq i (n - i) = seq i (prefix - i) ++ seq prefix (n - prefix)).
    { replace (n - i) with ((prefix - i) + (n - prefix)) by lia. rewrite seq_app. f_equal. f_equal. lia. }
    destruct (Nat.ltb_spec (prefix - i) THRESH) as [Ht|Ht].
    - rewrite Split, foldR_app. destruct (@foldR_J (prefix - i) i s ltac:(lia) Hs) as (s1 & E1 & H1). rewrite E1. cbn [bind].
      replace (i + (prefix - i)) with prefix in * by lia. apply IH; auto; [lia|].
      unfold bad. destruct (process s1 prefix) as [[]| | |]; lia.
    - destruct (@mapR_total _ _ (process s) (seq i (prefix - i))) as (flags & Ef).
      { intros j Hj. apply in_seq in Hj. apply (Hproc Hs). lia. }
      rewrite Ef. cbn [bind]. apply mapR_ok in Ef.
      assert (HL : length flags = prefix - i).
      { rewrite <- (seq_length (prefix - i) i). symmetry. clear - Ef. induction Ef; simpl; auto. }
      assert (HF : forall j, j < prefix - i -> process s (i + j) = Ok (nth j flags false)).
      { intros j Hj. pose proof (@Forall2_nth2 _ _ _ _ _ 0 false Ef j) as F. rewrite seq_length in F.
        rewrite seq_nth in F by auto. auto. }
      destruct (firstT flags) as [c|] eqn:E1.
      + pose proof (firstT_total _ E1) as H0. destruct (Nat.ltb_spec 0 (total flags)); [|lia].
        rewrite firstBad_spec, E1.
        assert (Eo : order [c] = [c]) by (apply Permutation_length_1_inv; symmetry; apply Hord).
        rewrite Eo. cbn [rev app].
        destruct (firstT_some _ E1) as (C1 & C2 & C3).
        destruct (@skip_range s i c Hs ltac:(lia)) as [S1 S2].
        { intros j Hj. replace j with (i + (j - i)) by lia. rewrite HF by lia. rewrite C3 by lia. auto. }
        assert (Pc : process s (i + c) = Ok true) by (rewrite HF by lia; rewrite C2; auto).
        destruct (Hclean S2 ltac:(lia) Pc) as (s1 & E2 & J1).
        destruct (Hdone S2 ltac:(lia) Pc E2) as [J1' D1].
        rewrite E2. cbn [bind]. rewrite IH; auto; [|lia|].
        * replace (n - i) with (c + (n - (i + c))) by lia. rewrite seq_app, foldR_app, S1. cbn [bind].
          replace (n - (i + c)) with (S (n - S (i + c))) by lia. cbn [seq foldR].
          unfold SebModel.visit at 1 3. rewrite D1, Pc. cbn [bind]. rewrite E2. cbn [bind]. reflexivity.
        * unfold bad at 1. rewrite D1.
          destruct c as [|c]; [|lia]. rewrite Nat.add_0_r in *. unfold bad in Hf. rewrite Pc in Hf. lia.
      + destruct (firstT_none _ E1) as [H0 H1]. rewrite H0. cbn [Nat.ltb Nat.leb].
        destruct (@skip_range s i (prefix - i) Hs ltac:(lia)) as [S1 S2].
        { intros j Hj. replace j with (i + (j - i)) by lia. rewrite HF by lia. rewrite H1. auto. }
        replace (i + (prefix - i)) with prefix in S2 by lia.
        rewrite IH; auto; [|lia|unfold bad; destruct (process s prefix) as [[]| | |]; lia].
        rewrite Split, foldR_app, S1. reflexivity.
  Qed.

  Theorem parallelPrefix_serial fuel s : J 0 s -> 2 * n + 1 < fuel ->
    parallelPrefix process cleanUp fuel n PREFIX THRESH order s = serialPrefix process cleanUp n s /\
    exists s', serialPrefix process cleanUp n s = Ok s' /\ J n s'.
  Proof.
    intros Hs Hf. split.
    - unfold parallelPrefix. destruct (n <? THRESH); auto. rewrite parLoop_serial; auto; [|lia|].
      + unfold serialPrefix. rewrite Nat.sub_0_r. auto.
      + unfold bad. destruct (process s 0) as [[]| | |]; lia.
    - unfold serialPrefix. apply (@foldR_J n 0 s); auto.
  Qed.
End Prefix.

(** The serial loop never looks at an element twice, the parallel one does: an
    element still in conflict after its clean-up makes it loop forever. *)
Lemma parLoop_diverges St (process : St -> nat -> res bool) (cleanUp : St -> nat -> res St) n PREFIX THRESH i :
  i < n -> THRESH <= (if i =? 0 then PREFIX else Nat.min (i * 3) n) - i ->
  0 < (if i =? 0 then PREFIX else Nat.min (i * 3) n) - i ->
  forall Q : St -> Prop,
  (forall s, Q s -> process s i = Ok true /\ (forall j, exists b, process s j = Ok b) /\
                    exists s', cleanUp s i = Ok s' /\ Q s') ->
  forall fuel s, Q s -> parLoop process cleanUp fuel n PREFIX THRESH (fun l => l) i s = Fuel.
Proof.
  intros Hi Ht Hp Q HQ. set (m := (if i =? 0 then PREFIX else Nat.min (i * 3) n) - i) in *.
  induction fuel as [|fuel IH]; intros s Hs; [reflexivity|]. cbn [parLoop].
  destruct (Nat.ltb_spec i n); [|lia]. fold m.
  destruct (Nat.ltb_spec m THRESH); [lia|].
  destruct (HQ s Hs) as (P1 & P2 & s' & P3 & P4).
  destruct (@mapR_total _ _ (process s) (seq i m)) as (flags & Ef); [intros; apply P2|]. rewrite Ef. cbn [bind].
  assert (F : exists fl, flags = true :: fl).
  { destruct m as [|m']; [lia|]. cbn [seq mapR] in Ef. rewrite P1 in Ef. cbn [bind] in Ef.
    apply bind_ok in Ef as (r & _ & E). inversion E. eauto. }
  destruct F as (fl & ->).
  assert (T : 0 <? total (true :: fl) = true) by reflexivity. rewrite T.
  rewrite firstBad_spec. cbn [firstT rev app]. rewrite Nat.add_0_r. rewrite P3. cbn [bind]. apply IH; auto.
Qed.
