(** Number operations used by the C++ code, without laws, and instances. *)
From Verif Require Import Base.
From Coq Require Import Reals Lra Psatz.

(** Models [floatT] (double) and the operators the library applies to it.
    [nlt x y] is [x < y]; [nle x y] is [x <= y] (kept separate because of
    NaN); [x > y] is [nlt y x], [x >= y] is [nle y x]. *)
Record Num := {
  nT : Type;
  nlt : nT -> nT -> bool;
  nle : nT -> nT -> bool;
  nadd : nT -> nT -> nT;
  nsub : nT -> nT -> nT;
  nmul : nT -> nT -> nT;
  ndiv : nT -> nT -> nT;
  nsqrt : nT -> nT;
  nzero : nT;
  ntwo : nT;
  nneg1 : nT;
  nmax : nT;                    (* std::numeric_limits<floatT>::max() *)
}.

(** std::min(a,b) returns b if b<a, else a; std::max(a,b) returns b if a<b. *)
Definition nmin2 (N : Num) (a b : nT N) : nT N := if nlt N b a then b else a.
Definition nmax2 (N : Num) (a b : nT N) : nT N := if nlt N a b then b else a.

(** Order laws on the values satisfying [ok]: a strict weak order, [<=] its
    complement, and spans of ordered values exceed -1. *)
Record OrdLaws (N : Num) (ok : nT N -> Prop) : Prop := {
  ol_irrefl : forall x, ok x -> nlt N x x = false;
  ol_trans : forall x y z, ok x -> ok y -> ok z ->
      nlt N x y = true -> nlt N y z = true -> nlt N x z = true;
  ol_cotrans : forall x y z, ok x -> ok y -> ok z ->
      nlt N x z = true -> nlt N x y = true \/ nlt N y z = true;
  ol_le : forall x y, ok x -> ok y -> nle N x y = negb (nlt N y x);
}.

Arguments ol_irrefl {N ok} _ x _.
Arguments ol_trans {N ok} _ x y z _ _ _ _ _.
Arguments ol_cotrans {N ok} _ x y z _ _ _ _.
Arguments ol_le {N ok} _ x y _ _.

(** Only law needed for the widest-dimension search of the kd-tree build:
    the span of two values in order is greater than -1. *)
Definition SpanLaw (N : Num) (ok : nT N -> Prop) : Prop :=
  forall x y, ok x -> ok y -> nlt N y x = false ->
    nlt N (nneg1 N) (nsub N y x) = true.

(** Exact arithmetic. *)
Definition Rltb (x y : R) : bool := if Rlt_dec x y then true else false.
Definition Rleb (x y : R) : bool := if Rle_dec x y then true else false.

(** Largest finite double, 2^1024 - 2^971. *)
Definition Rfmax : R := IZR (2 ^ 1024 - 2 ^ 971).

Definition RNum : Num := {|
  nT := R; nlt := Rltb; nle := Rleb;
  nadd := Rplus; nsub := Rminus; nmul := Rmult; ndiv := Rdiv; nsqrt := sqrt;
  nzero := 0%R; ntwo := 2%R; nneg1 := (-1)%R; nmax := Rfmax |}.

Lemma Rltb_true x y : Rltb x y = true <-> (x < y)%R.
Proof. unfold Rltb; destruct (Rlt_dec x y); split; intros; try lra; auto; discriminate. Qed.
Lemma Rltb_false x y : Rltb x y = false <-> (y <= x)%R.
Proof. unfold Rltb; destruct (Rlt_dec x y); split; intros; try lra; auto; discriminate. Qed.
Lemma Rleb_true x y : Rleb x y = true <-> (x <= y)%R.
Proof. unfold Rleb; destruct (Rle_dec x y); split; intros; try lra; auto; discriminate. Qed.
Lemma Rleb_false x y : Rleb x y = false <-> (y < x)%R.
Proof. unfold Rleb; destruct (Rle_dec x y); split; intros; try lra; auto; discriminate. Qed.

Lemma Rltb_spec x y : reflect (x < y)%R (Rltb x y).
Proof. unfold Rltb; destruct (Rlt_dec x y); constructor; auto. Qed.
Lemma Rleb_spec x y : reflect (x <= y)%R (Rleb x y).
Proof. unfold Rleb; destruct (Rle_dec x y); constructor; auto. Qed.

Lemma R_ordlaws : OrdLaws RNum (fun _ => True).
Proof.
  constructor; simpl; intros.
  - apply Rltb_false; lra.
  - rewrite Rltb_true in *; lra.
  - rewrite !Rltb_true in *. destruct (Rlt_dec x y); [left|right]; auto; lra.
  - destruct (Rltb_spec y x), (Rleb_spec x y); simpl; auto; lra.
Qed.

Lemma R_span : SpanLaw RNum (fun _ => True).
Proof. intros x y _ _; simpl. rewrite Rltb_false, Rltb_true; lra. Qed.

Section Order.
  Variable N : Num.
  Variable ok : nT N -> Prop.
  Hypothesis OL : OrdLaws N ok.

  Lemma nle_refl x : ok x -> nle N x x = true.
  Proof. intros H. rewrite (ol_le OL), (ol_irrefl OL); auto. Qed.

  Lemma nle_trans x y z : ok x -> ok y -> ok z ->
    nle N x y = true -> nle N y z = true -> nle N x z = true.
  Proof.
    intros Hx Hy Hz. rewrite !(ol_le OL) by auto.
    rewrite !negb_true_iff. intros H1 H2.
    destruct (nlt N z x) eqn:E; auto.
    destruct (ol_cotrans OL z y x) as [H|H]; auto; congruence.
  Qed.

  Lemma nlt_le x y : ok x -> ok y -> nlt N x y = true -> nle N x y = true.
  Proof.
    intros Hx Hy H. rewrite (ol_le OL) by auto. rewrite negb_true_iff.
    destruct (nlt N y x) eqn:E; auto.
    rewrite <- (ol_irrefl OL x Hx). symmetry. eapply (ol_trans OL); eauto.
  Qed.

  Lemma nlt_le_trans x y z : ok x -> ok y -> ok z ->
    nlt N x y = true -> nle N y z = true -> nlt N x z = true.
  Proof.
    intros Hx Hy Hz H1 H2. rewrite (ol_le OL) in H2 by auto.
    rewrite negb_true_iff in H2.
    destruct (ol_cotrans OL x z y) as [H|H]; auto; congruence.
  Qed.

  Lemma nle_lt_trans x y z : ok x -> ok y -> ok z ->
    nle N x y = true -> nlt N y z = true -> nlt N x z = true.
  Proof.
    intros Hx Hy Hz H1 H2. rewrite (ol_le OL) in H1 by auto.
    rewrite negb_true_iff in H1.
    destruct (ol_cotrans OL y x z) as [H|H]; auto; congruence.
  Qed.

  Lemma nle_total x y : ok x -> ok y -> nle N x y = true \/ nle N y x = true.
  Proof.
    intros Hx Hy. destruct (nlt N y x) eqn:E.
    - right. apply nlt_le; auto.
    - left. rewrite (ol_le OL) by auto. rewrite E; auto.
  Qed.

  Lemma nlt_false_le x y : ok x -> ok y -> nlt N x y = false -> nle N y x = true.
  Proof. intros Hx Hy H. rewrite (ol_le OL) by auto. rewrite H; auto. Qed.

  Lemma nle_false_lt x y : ok x -> ok y -> nle N x y = true -> nlt N y x = false.
  Proof. intros Hx Hy H. rewrite (ol_le OL) in H by auto. now rewrite negb_true_iff in H. Qed.

  Lemma nmin2_ok x y : ok x -> ok y -> ok (nmin2 N x y).
  Proof. unfold nmin2; destruct (nlt N y x); auto. Qed.
  Lemma nmax2_ok x y : ok x -> ok y -> ok (nmax2 N x y).
  Proof. unfold nmax2; destruct (nlt N x y); auto. Qed.

  Lemma nmin2_le_l x y : ok x -> ok y -> nle N (nmin2 N x y) x = true.
  Proof.
    intros Hx Hy; unfold nmin2; destruct (nlt N y x) eqn:E.
    - apply nlt_le; auto. - apply nle_refl; auto.
  Qed.
  Lemma nmin2_le_r x y : ok x -> ok y -> nle N (nmin2 N x y) y = true.
  Proof.
    intros Hx Hy; unfold nmin2; destruct (nlt N y x) eqn:E.
    - apply nle_refl; auto. - apply nlt_false_le; auto.
  Qed.
  Lemma nmax2_le_l x y : ok x -> ok y -> nle N x (nmax2 N x y) = true.
  Proof.
    intros Hx Hy; unfold nmax2; destruct (nlt N x y) eqn:E.
    - apply nlt_le; auto. - apply nle_refl; auto.
  Qed.
  Lemma nmax2_le_r x y : ok x -> ok y -> nle N y (nmax2 N x y) = true.
  Proof.
    intros Hx Hy; unfold nmax2; destruct (nlt N x y) eqn:E.
    - apply nle_refl; auto. - apply nlt_false_le; auto.
  Qed.
  Lemma nmin2_or x y : nmin2 N x y = x \/ nmin2 N x y = y.
  Proof. unfold nmin2; destruct (nlt N y x); auto. Qed.
  Lemma nmax2_or x y : nmax2 N x y = x \/ nmax2 N x y = y.
  Proof. unfold nmax2; destruct (nlt N x y); auto. Qed.
End Order.
Arguments nle_refl {N ok} OL x.
Arguments nle_trans {N ok} OL x y z.
Arguments nlt_le {N ok} OL x y.
Arguments nlt_le_trans {N ok} OL x y z.
Arguments nle_lt_trans {N ok} OL x y z.
Arguments nle_total {N ok} OL x y.
Arguments nlt_false_le {N ok} OL x y.
Arguments nle_false_lt {N ok} OL x y.
Arguments nmin2_ok {N ok} x y.
Arguments nmax2_ok {N ok} x y.
Arguments nmin2_le_l {N ok} OL x y.
Arguments nmin2_le_r {N ok} OL x y.
Arguments nmax2_le_l {N ok} OL x y.
Arguments nmax2_le_r {N ok} OL x y.
Arguments nmin2_or {N} x y.
Arguments nmax2_or {N} x y.
