(** Reservations: tokens after the writes and the checks, in any order. *)
From Coq Require Import List Bool Arith Lia Permutation.
From Verif Require Import Base Num Hull2dModel H2IncModel.
From Verif Require H3Model.
Set Implicit Arguments.

Lemma mapR_fun X Y (f : X -> res Y) (g : X -> Y) l : (forall x, In x l -> f x = Ok (g x)) -> mapR f l = Ok (map g l).
Proof. induction l as [|x l IH]; intros H; auto. cbn. rewrite (H x) by (left; auto). cbn. rewrite IH by (intros y Hy; apply H; right; auto). reflexivity. Qed.
Lemma foldR_app X Y (f : Y -> X -> res Y) l m y : H3Model.foldR f (l ++ m) y = bind (H3Model.foldR f l y) (H3Model.foldR f m).
Proof. revert y. induction l as [|x l IH]; intros y; auto. cbn. destruct (f y x); cbn; auto. Qed.

Definition live (h : heap) (f : nat) (x : fac) : Prop := nth_error h f = Some (Some x).
Lemma live_get h f x : live h f x -> getF h f = Ok x.
Proof. unfold live, getF. intros ->. reflexivity. Qed.
Lemma live_fun h f x y : live h f x -> live h f y -> x = y.
Proof. unfold live. congruence. Qed.
Lemma live_lt h f x : live h f x -> f < length h.
Proof. unfold live. intros E. apply nth_error_Some. congruence. Qed.

(** the heap with other tokens *)
Definition tk (h : heap) (t : nat -> option nat) : heap := map (fun f => option_map (fun x => withTok x (t f)) (nth f h None)) (seq 0 (length h)).
Lemma nth_tk h t f : nth_error (tk h t) f = match nth_error h f with Some o => Some (option_map (fun x => withTok x (t f)) o) | None => None end.
Proof.
  unfold tk. rewrite nth_error_map. destruct (nth_error h f) as [o|] eqn:E.
  - assert (L : f < length h) by (apply nth_error_Some; congruence). rewrite (nth_error_nth' (seq 0 (length h)) 0) by (rewrite seq_length; auto). rewrite seq_nth by auto. cbn.
    f_equal. f_equal. apply nth_error_nth. auto.
  - apply nth_error_None in E. replace (nth_error (seq 0 (length h)) f) with (@None nat); auto. symmetry. apply nth_error_None. rewrite seq_length. auto.
Qed.
Lemma nth_ext_err X (l m : list X) : (forall i, nth_error l i = nth_error m i) -> l = m.
Proof.
  revert m. induction l as [|x l IH]; intros [|y m] H; auto; try (specialize (H 0); discriminate).
  pose proof (H 0) as H0. cbn in H0. injection H0 as ->. f_equal. apply IH. intros i. exact (H (S i)).
Qed.
Lemma tk_ext h s t : (forall f, s f = t f) -> tk h s = tk h t.
Proof. intros H. unfold tk. apply map_ext. intros f. now rewrite H. Qed.
Lemma tk_none h : (forall f x, live h f x -> ftok x = None) -> tk h (fun _ => None) = h.
Proof.
  intros H. apply nth_ext_err. intros f. rewrite nth_tk. destruct (nth_error h f) as [[x|]|] eqn:E; auto. cbn. do 2 f_equal.
  pose proof (H f x E) as T. destruct x. cbn in *. subst. reflexivity.
Qed.
Definition setT (t : nat -> option nat) (f : nat) (o : option nat) (g : nat) : option nat := if f =? g then o else t g.
Lemma tk_upd h t f x o : live h f x -> upd f (Some (withTok (withTok x (t f)) o)) (tk h t) = tk h (setT t f o).
Proof.
  intros L. apply nth_ext_err. intros g. destruct (Nat.eq_dec f g) as [<-|N].
  - rewrite nth_error_upd_eq by (unfold tk; rewrite map_length, seq_length; apply (live_lt L)). rewrite nth_tk. rewrite L. cbn. unfold setT. rewrite Nat.eqb_refl. reflexivity.
  - rewrite nth_error_upd_neq by auto. rewrite !nth_tk. unfold setT. apply Nat.eqb_neq in N. rewrite N. reflexivity.
Qed.
Lemma tk_get h t f x : live h f x -> getF (tk h t) f = Ok (withTok x (t f)).
Proof. intros L. unfold getF. rewrite nth_tk, L. reflexivity. Qed.

Section Tok.
  Variable h : heap.
  Definition stepR (t : nat -> option nat) (w : nat * nat) : nat -> option nat :=
    if match t (snd w) with None => true | Some j => fst w <? j end then setT t (snd w) (Some (fst w)) else t.
  Lemma reserve_tk t w x : live h (snd w) x -> reserve (tk h t) w = Ok (tk h (stepR t w)).
  Proof.
    intros L. unfold reserve. rewrite (tk_get t L). cbn [bind ftok withTok]. unfold stepR. destruct (match t (snd w) with None => true | Some j => fst w <? j end); auto.
    f_equal. apply (tk_upd t (Some (fst w)) L).
  Qed.
  Lemma reserve_fold W : forall t, (forall w, In w W -> exists x, live h (snd w) x) -> H3Model.foldR reserve W (tk h t) = Ok (tk h (fold_left stepR W t)).
  Proof.
    induction W as [|w W IH]; intros t H; auto. cbn [H3Model.foldR fold_left]. destruct (H w (or_introl eq_refl)) as (x & L). rewrite (reserve_tk t w L). cbn. apply IH. intros; apply H; right; auto.
  Qed.
  (** the token is the least vertex that wrote *)
  Lemma min_tok W : forall t, (forall f m, fold_left stepR W t f = Some m -> (t f = Some m \/ In (m, f) W)) /\
    (forall f, fold_left stepR W t f = None -> t f = None /\ forall i, ~ In (i, f) W) /\
    (forall f m, fold_left stepR W t f = Some m -> (forall j, t f = Some j -> m <= j) /\ forall i, In (i, f) W -> m <= i).
  Proof.
    induction W as [|[i g] W IH]; intros t; cbn [fold_left].
    - split; [auto|]. split; [intros f H; split; auto|]. intros f m H. split; [intros j Hj; rewrite H in Hj; injection Hj as ->; auto|intros i []].
    - destruct (IH (stepR t (i, g))) as (A & B & C).
      assert (K : forall f, stepR t (i, g) f = t f /\ (f = g -> exists j, t f = Some j /\ j <= i) \/ f = g /\ stepR t (i, g) f = Some i /\ (forall j, t f = Some j -> i <= j)).
      { intros f. unfold stepR. cbn [fst snd]. destruct (t g) as [j|] eqn:T.
        - destruct (Nat.ltb_spec i j) as [L|L]; [unfold setT; destruct (Nat.eqb_spec g f) as [<-|N]|].
          + right. split; auto. split; auto. intros j' E. rewrite T in E. injection E as <-. lia.
          + left. split; auto. intros; congruence.
          + left. split; auto. intros ->. eauto.
        - unfold setT. destruct (Nat.eqb_spec g f) as [<-|N]; [right|left]; split; auto; [split; auto; intros j E; congruence|intros; congruence]. }
      split; [|split].
      + intros f m H. apply A in H. destruct H as [H|H]; [|right; right; auto]. destruct (K f) as [(E & _)|(-> & E & _)]; rewrite E in H; auto.
        injection H as <-. right. left. reflexivity.
      + intros f H. apply B in H. destruct H as (H & N). destruct (K f) as [(E & Z)|(-> & E & _)]; rewrite E in H; [|discriminate]. split; auto.
        intros j [X|X]; [|apply (N j); auto]. injection X as -> ->. destruct (Z eq_refl) as (y & Y & _). congruence.
      + intros f m H. apply C in H. destruct H as (H1 & H2). split.
        * intros j Hj. destruct (K f) as [(E & _)|(-> & E & Le)]; [apply H1; congruence|]. specialize (H1 i E). specialize (Le j Hj). lia.
        * intros j [X|X]; auto. injection X as -> ->. destruct (K f) as [(E & Z)|(_ & E & _)]; [|apply H1; auto].
          destruct (Z eq_refl) as (y & Y & Ly). rewrite <- E in Y. specialize (H1 y Y). lia.
  Qed.
  Definition mineT (t : nat -> option nat) (w : nat * nat) : bool := match t (snd w) with Some j => j =? fst w | None => false end.
  Definition stepC (tb : (nat -> option nat) * list nat) (w : nat * nat) : (nat -> option nat) * list nat :=
    if mineT (fst tb) w then (setT (fst tb) (snd w) None, snd tb) else (fst tb, fst w :: snd tb).
  Lemma check_tk t b w x : live h (snd w) x -> check (tk h t, b) w = Ok (tk h (fst (stepC (t, b) w)), snd (stepC (t, b) w)).
  Proof.
    intros L. unfold check. cbn [fst snd]. rewrite (tk_get t L). cbn [bind ftok withTok]. unfold stepC, mineT. cbn [fst snd].
    destruct (match t (snd w) with Some j => j =? fst w | None => false end); auto.
    do 2 f_equal. apply (tk_upd t None L).
  Qed.
  Lemma check_fold W : forall t b, (forall w, In w W -> exists x, live h (snd w) x) ->
    H3Model.foldR check W (tk h t, b) = Ok (tk h (fst (fold_left stepC W (t, b))), snd (fold_left stepC W (t, b))).
  Proof.
    induction W as [|w W IH]; intros t b H; auto. cbn [H3Model.foldR fold_left]. destruct (H w (or_introl eq_refl)) as (x & L). rewrite (check_tk t b w L). cbn [bind].
    rewrite IH by (intros; apply H; right; auto). destruct (stepC (t, b) w); reflexivity.
  Qed.
  Lemma mine_iff t w : mineT t w = true <-> t (snd w) = Some (fst w).
  Proof. unfold mineT. destruct (t (snd w)) as [j|]; [|split; discriminate]. rewrite Nat.eqb_eq. split; [intros ->; auto|intros E; injection E; auto]. Qed.
  Lemma check_res W : NoDup W -> forall t b,
    (forall f, fst (fold_left stepC W (t, b)) f = match t f with Some i => if existsb (fun w => (fst w =? i) && (snd w =? f)) W then None else Some i | None => None end) /\
    (forall i, In i (snd (fold_left stepC W (t, b))) <-> In i b \/ exists f, In (i, f) W /\ t f <> Some i).
  Proof.
    induction W as [|[j g] W IH]; intros ND t b; cbn [fold_left existsb fst snd].
    - split; [intros f; destruct (t f); auto|]. intros i. split; auto. intros [H|(f & [] & _)]; auto.
    - inversion ND as [|? ? NI ND']; subst. destruct (IH ND' (fst (stepC (t, b) (j, g))) (snd (stepC (t, b) (j, g)))) as (A & B). rewrite <- surjective_pairing in A, B.
      unfold stepC in *. cbn [fst snd] in *. destruct (mineT t (j, g)) eqn:M; cbn [fst snd] in *.
      + apply mine_iff in M. cbn [fst snd] in M. split.
        * intros f. rewrite A. unfold setT. destruct (Nat.eqb_spec g f) as [<-|N]; [rewrite M, Nat.eqb_refl; reflexivity|].
          destruct (t f) as [i|]; auto. replace (if j =? i then false else false) with false by (destruct (j =? i); auto).
          destruct (j =? i); reflexivity.
        * intros i. rewrite B. split; intros [H|(f & I & N)]; auto; right; exists f.
          -- split; [right; auto|]. unfold setT in N. destruct (Nat.eqb_spec g f) as [<-|Nf]; auto. rewrite M. intros E. injection E as ->. contradiction.
          -- destruct I as [E|I]; [injection E as -> ->; contradiction|]. split; auto. unfold setT. destruct (Nat.eqb_spec g f); [discriminate|auto].
      + assert (M' : t g <> Some j) by (intros E; rewrite (proj2 (mine_iff t (j, g)) E) in M; discriminate). split.
        * intros f. rewrite A. destruct (t f) as [i|] eqn:T; auto. destruct (Nat.eqb_spec j i) as [->|N]; auto. destruct (Nat.eqb_spec g f) as [->|N']; auto. contradiction.
        * intros i. rewrite B. cbn [In]. split.
          -- intros [[<-|H]|(f & I & N)]; auto; right; eauto.
          -- intros [H|(f & [E|I] & N)]; auto; [injection E as -> ->; auto|eauto].
  Qed.

  (** both phases: the heap is as before, and who did not fail has all its facets *)
  Theorem phases W W1 W2 : (forall f x, live h f x -> ftok x = None) -> (forall w, In w W -> exists x, live h (snd w) x) -> NoDup W -> Permutation W W1 -> Permutation W W2 ->
    exists t bad, H3Model.foldR reserve W1 h = Ok (tk h t) /\ H3Model.foldR check W2 (tk h t, []) = Ok (h, bad) /\
      (forall i, In i bad <-> exists f, In (i, f) W /\ t f <> Some i) /\
      (forall f m, t f = Some m -> In (m, f) W /\ forall i, In (i, f) W -> m <= i) /\ (forall i f, In (i, f) W -> exists m, t f = Some m).
  Proof.
    intros T0 L ND P1 P2. set (t := fold_left stepR W1 (fun _ => None)). destruct (@min_tok W1 (fun _ => None)) as (A & B & C). fold t in A, B, C.
    exists t, (snd (fold_left stepC W2 (t, []))).
    assert (ND2 : NoDup W2) by (eapply Permutation_NoDup; eauto).
    destruct (@check_res W2 ND2 t []) as (D & E).
    assert (I1 : forall w, In w W1 <-> In w W) by (intros w; split; apply Permutation_in; auto; apply Permutation_sym; auto).
    assert (I2 : forall w, In w W2 <-> In w W) by (intros w; split; apply Permutation_in; auto; apply Permutation_sym; auto).
    assert (A' : forall f m, t f = Some m -> In (m, f) W) by (intros f m H; apply A in H; destruct H as [H|H]; [discriminate|apply I1; auto]).
    split; [|split; [|split; [|split]]].
    - rewrite <- (tk_none T0) at 1. apply reserve_fold. intros w Hw. apply L, I1; auto.
    - rewrite check_fold by (intros w Hw; apply L, I2; auto). do 2 f_equal. etransitivity; [|apply (tk_none T0)]. apply tk_ext. intros f. rewrite D. destruct (t f) as [m|] eqn:Tf; auto.
      replace (existsb (fun w => (fst w =? m) && (snd w =? f)) W2) with true; auto. symmetry. apply existsb_exists. exists (m, f). split; [apply I2; auto|]. cbn. now rewrite !Nat.eqb_refl.
    - intros i. rewrite E. split; [intros [[]|(f & I & N)]|intros (f & I & N); right]; exists f; split; auto; apply I2; auto.
    - intros f m H. split; auto. intros i Hi. apply (proj2 (C f m H)). apply I1; auto.
    - intros i f I. destruct (t f) as [m|] eqn:Tf; eauto. exfalso. apply B in Tf. apply (proj2 Tf i). apply I1; auto.
  Qed.
End Tok.
