(** Geometry of one side of the outline: edges from a leftmost to a highest
    point, turning clockwise within a quadrant. *)
From Coq Require Import Reals Lra Psatz List Bool Sorted.
From Verif Require Import Base Num H2IncModel.
Set Implicit Arguments.
Open Scope R_scope.

Definition p2 : Type := (R * R)%type.
Definition cx (u v : p2) : R := fst u * snd v - snd u * fst v.
Definition vec (a b : p2) : p2 := (fst b - fst a, snd b - snd a).
Definition dir (e : p2 * p2) : p2 := vec (fst e) (snd e).
Definition ar (a b c : p2) : R := cx (vec a b) (vec a c).
Definition arE (e : p2 * p2) (c : p2) : R := ar (fst e) (snd e) c.
Lemma area_ar a b c : @area RNum a b c = ar a b c.
Proof. reflexivity. Qed.

Ltac cxs := unfold arE, ar, dir, cx, vec in *; cbn [fst snd] in *.
Definition quad (d : p2) : Prop := 0 <= fst d /\ 0 <= snd d /\ 0 < fst d + snd d.

Lemma le_of_mul k x : 0 < k -> k * x <= 0 -> x <= 0.
Proof. intros K H. apply Rnot_lt_le. intros X. pose proof (Rmult_lt_0_compat _ _ K X). lra. Qed.
Lemma lt_of_mul k x : 0 < k -> 0 < k * x -> 0 < x.
Proof. intros K H. apply Rnot_le_lt. intros X. pose proof (Rmult_le_compat_l k x 0 ltac:(lra) X). lra. Qed.

Lemma cw_tr u v w : quad u -> quad v -> quad w -> cx u v <= 0 -> cx v w <= 0 -> cx u w <= 0.
Proof.
  intros (U1 & U2 & U3) (V1 & V2 & V3) (W1 & W2 & W3) A B. apply (@le_of_mul (fst v + snd v)); auto. unfold cx in *.
  destruct u as [a b], v as [c d], w as [e f]; cbn [fst snd] in *.
  pose proof (Rmult_le_compat_l a _ _ U1 B). pose proof (Rmult_le_compat_l b _ _ U2 B). pose proof (Rmult_le_compat_l e _ _ W1 A). pose proof (Rmult_le_compat_l f _ _ W2 A). lra.
Qed.
(** three directions clockwise: the middle one is in the cone of the others *)
Lemma cone_split u w v : quad u -> quad w -> quad v -> cx u w <= 0 -> cx w v <= 0 ->
  exists k s t, 0 < k /\ 0 <= s /\ 0 <= t /\ 0 < s + t /\ forall m, k * cx w m = s * cx u m + t * cx v m.
Proof.
  intros U W V A B. pose proof (cw_tr U W V A B) as C.
  destruct (Req_dec (cx u v) 0) as [E|E].
  - exists (fst u + snd u), (fst w + snd w), 0. destruct U as (U1 & U2 & U3), W as (W1 & W2 & W3), V as (V1 & V2 & V3).
    repeat split; try lra. intros m.
    assert (Z : cx u w = 0).
    { apply Rle_antisym; auto. apply Ropp_le_cancel. rewrite Ropp_0. apply (@le_of_mul (fst v + snd v)); auto. unfold cx in *.
      destruct u as [a b], v as [c d], w as [e f]; cbn [fst snd] in *.
      assert (X : (c + d) * - (a * f - b * e) = (a + b) * (e * d - f * c) - (e + f) * (a * d - b * c)) by ring.
      rewrite X, E. pose proof (Rmult_le_compat_l (a + b) _ _ ltac:(lra) B). lra. }
    unfold cx in *. destruct u as [a b], w as [e f], m as [x y]; cbn [fst snd] in *.
    assert (X : (a + b) * (e * y - f * x) - (e + f) * (a * y - b * x) = - (a * f - b * e) * (x + y)) by ring. rewrite Z in X. lra.
  - exists (- cx u v), (- cx w v), (- cx u w). repeat split; try lra.
    + destruct (Req_dec (cx w v) 0) as [E1|E1]; [|lra]. destruct (Req_dec (cx u w) 0) as [E2|E2]; [|lra]. exfalso. apply E.
      apply Rle_antisym; auto. apply Ropp_le_cancel. rewrite Ropp_0. destruct U as (U1 & U2 & U3), W as (W1 & W2 & W3), V as (V1 & V2 & V3).
      apply (@le_of_mul (fst w + snd w)); auto. unfold cx in *.
      destruct u as [a b], v as [c d], w as [e f]; cbn [fst snd] in *.
      assert (X : (e + f) * - (a * d - b * c) = - (a + b) * (e * d - f * c) - (c + d) * (a * f - b * e)) by ring. rewrite X, E1, E2. lra.
    + intros m. unfold cx. ring.
Qed.
Lemma cone_pos u w v m : quad u -> quad w -> quad v -> cx u w <= 0 -> cx w v <= 0 -> 0 < cx u m -> 0 < cx v m -> 0 < cx w m.
Proof.
  intros U W V A B X Y. destruct (cone_split U W V A B) as (k & s & t & K & S & T & ST & E). apply (@lt_of_mul k); auto. rewrite E.
  pose proof (Rmult_le_pos _ _ S (Rlt_le _ _ X)). pose proof (Rmult_le_pos _ _ T (Rlt_le _ _ Y)).
  destruct (Req_dec s 0) as [E1|E1]; [assert (0 < t) by lra; pose proof (Rmult_lt_0_compat t _ ltac:(lra) Y); lra|].
  pose proof (Rmult_lt_0_compat s _ ltac:(lra) X). lra.
Qed.
Lemma cone_neg u w v m : quad u -> quad w -> quad v -> cx u w <= 0 -> cx w v <= 0 -> cx u m <= 0 -> cx v m <= 0 -> cx w m <= 0.
Proof.
  intros U W V A B X Y. destruct (cone_split U W V A B) as (k & s & t & K & S & T & ST & E). apply (@le_of_mul k); auto. rewrite E.
  pose proof (Rmult_le_compat_l s _ _ S X). pose proof (Rmult_le_compat_l t _ _ T Y). lra.
Qed.
(** a direction right of u and strictly left of v, where u is left of v *)
Lemma quad_between u v m : quad u -> quad v -> cx u v <= 0 -> cx u m <= 0 -> 0 < cx v m -> quad m.
Proof.
  intros U V A B C. assert (N : cx u v < 0).
  { destruct (Req_dec (cx u v) 0) as [E|E]; [|lra]. exfalso. destruct U as (U1 & U2 & U3), V as (V1 & V2 & V3). unfold cx in *.
    destruct u as [a b], v as [c d], m as [x y]; cbn [fst snd] in *.
    assert (X : (c + d) * (a * y - b * x) = (a + b) * (c * y - d * x) + (a * d - b * c) * (x + y)) by ring. rewrite E in X.
    pose proof (Rmult_lt_0_compat _ _ U3 C). pose proof (Rmult_le_compat_l (c + d) _ _ ltac:(lra) B). lra. }
  destruct U as (U1 & U2 & U3), V as (V1 & V2 & V3). set (k := - cx u v). assert (K : 0 < k) by (unfold k; lra).
  assert (X1 : k * fst m = cx v m * fst u + - cx u m * fst v) by (unfold k, cx; ring).
  assert (X2 : k * snd m = cx v m * snd u + - cx u m * snd v) by (unfold k, cx; ring).
  pose proof (Rmult_le_pos _ _ (Rlt_le _ _ C) U1). pose proof (Rmult_le_pos _ _ (Rlt_le _ _ C) U2).
  assert (B' : 0 <= - cx u m) by lra. pose proof (Rmult_le_pos _ _ B' V1). pose proof (Rmult_le_pos _ _ B' V2).
  assert (P : 0 < cx v m * (fst u + snd u)) by (apply Rmult_lt_0_compat; auto).
  repeat split.
  - apply Rnot_lt_le. intros Z. pose proof (Rmult_lt_compat_l k _ _ K Z). lra.
  - apply Rnot_lt_le. intros Z. pose proof (Rmult_lt_compat_l k _ _ K Z). lra.
  - apply (@lt_of_mul k); auto. lra.
Qed.
(** the same at the leftmost and at the highest point *)
Lemma quad_left d m : quad d -> 0 < cx d m -> 0 <= fst m -> quad m.
Proof.
  intros (D1 & D2 & D3) C X. unfold cx in C. pose proof (Rmult_le_pos _ _ D2 X). assert (Y : 0 < snd m).
  { apply Rnot_le_lt. intros Z. pose proof (Rmult_le_compat_l (fst d) _ _ D1 Z). lra. }
  repeat split; lra.
Qed.
Lemma quad_top d m : quad d -> cx d m < 0 -> 0 <= snd m -> quad m.
Proof.
  intros (D1 & D2 & D3) C X. unfold cx in C. pose proof (Rmult_le_pos _ _ D1 X). assert (Y : 0 < fst m).
  { apply Rnot_le_lt. intros Z. pose proof (Rmult_le_compat_l (snd d) _ _ D2 Z). lra. }
  repeat split; lra.
Qed.
Lemma left_in d m q : quad d -> 0 < cx d m -> 0 <= fst m -> cx d q <= 0 -> 0 <= fst q -> cx m q <= 0.
Proof.
  intros D C X A Y. destruct (quad_left D C X) as (M1 & M2 & M3). destruct D as (D1 & D2 & D3). unfold cx in *.
  assert (N : 0 < fst d). { destruct (Req_dec (fst d) 0) as [E|E]; [|lra]. rewrite E in *. pose proof (Rmult_le_pos _ _ D2 X). lra. }
  apply (@le_of_mul (fst d)); auto.
  pose proof (Rmult_le_compat_l (fst m) _ _ X A). pose proof (Rmult_le_pos _ _ Y (Rlt_le _ _ C)). lra.
Qed.
Lemma top_in d m q : quad d -> cx d m < 0 -> 0 <= snd m -> cx d q <= 0 -> snd q <= 0 -> cx m q <= 0.
Proof.
  intros D C X A Y. destruct (quad_top D C X) as (M1 & M2 & M3). destruct D as (D1 & D2 & D3). unfold cx in *.
  assert (N : 0 < snd d). { destruct (Req_dec (snd d) 0) as [E|E]; [|lra]. rewrite E in *. pose proof (Rmult_le_pos _ _ D1 X). lra. }
  apply (@le_of_mul (snd d)); auto.
  pose proof (Rmult_le_compat_l (snd m) _ _ X A). assert (Y' : 0 <= - snd q) by lra. assert (C' : 0 <= - (fst d * snd m - snd d * fst m)) by lra.
  pose proof (Rmult_le_pos _ _ Y' C'). lra.
Qed.

(** *** Chains *)
Fixpoint chain (A : p2) (l : list (p2 * p2)) (B : p2) : Prop :=
  match l with [] => A = B | e :: l' => fst e = A /\ chain (snd e) l' B end.
Lemma chain_app A l m B : chain A (l ++ m) B <-> exists C, chain A l C /\ chain C m B.
Proof.
  revert A. induction l as [|e l IH]; intros A; cbn.
  - split; [eauto|]. intros (C & -> & H). auto.
  - rewrite IH. split; [intros (E & C & H1 & H2); eauto|intros (C & (E & H1) & H2); eauto].
Qed.
Lemma chain_le u A l B : chain A l B -> (forall e, In e l -> cx u (dir e) <= 0) -> cx u (vec A B) <= 0.
Proof.
  revert A. induction l as [|e l IH]; intros A; cbn [chain]; [intros -> _; cxs; lra|].
  intros (<- & H) F. pose proof (IH _ H (fun x Hx => F x (or_intror Hx))) as X. pose proof (F e (or_introl eq_refl)) as Y. cxs. lra.
Qed.
Lemma chain_ge u A l B : chain A l B -> (forall e, In e l -> cx (dir e) u <= 0) -> 0 <= cx u (vec A B).
Proof.
  revert A. induction l as [|e l IH]; intros A; cbn [chain]; [intros -> _; cxs; lra|].
  intros (<- & H) F. pose proof (IH _ H (fun x Hx => F x (or_intror Hx))) as X. pose proof (F e (or_introl eq_refl)) as Y. cxs. lra.
Qed.

Definition cw (e f : p2 * p2) : Prop := cx (dir e) (dir f) <= 0.
Lemma SS_app X (r : X -> X -> Prop) l m : StronglySorted r (l ++ m) <-> StronglySorted r l /\ StronglySorted r m /\ forall x y, In x l -> In y m -> r x y.
Proof.
  induction l as [|a l IH]; cbn.
  - split; [intros H; split; [constructor|split; auto; intros x y []]|tauto].
  - split.
    + intros H. apply StronglySorted_inv in H. destruct H as (H & F). apply IH in H. destruct H as (H1 & H2 & H3). rewrite Forall_app in F. destruct F as (F1 & F2).
      split; [constructor; auto|split; auto]. intros x y [<-|Hx] Hy; auto. rewrite Forall_forall in F2. auto.
    + intros (H & H2 & H3). apply StronglySorted_inv in H. destruct H as (H1 & F). constructor.
      * apply IH. auto.
      * rewrite Forall_app. split; auto. apply Forall_forall. intros y Hy. auto.
Qed.

Definition side (A B : p2) (l : list (p2 * p2)) : Prop :=
  chain A l B /\ ((forall e, In e l -> quad (dir e)) /\ StronglySorted cw l \/ l = [(A, A)]).
Definition inner (l : list (p2 * p2)) (q : p2) : Prop := forall e, In e l -> arE e q <= 0.

(** if the outer two of three edges are seen, so is the middle one *)
Lemma side_contig A B l1 x l2 y l3 z l4 q : side A B (l1 ++ x :: l2 ++ y :: l3 ++ z :: l4) -> 0 < arE x q -> 0 < arE z q -> 0 < arE y q.
Proof.
  intros (C & [(Q & S)|E]) X Z.
  - apply chain_app in C. destruct C as (c1 & _ & C). cbn [chain] in C. destruct C as (E1 & C).
    apply chain_app in C. destruct C as (c2 & C2 & C). cbn [chain] in C. destruct C as (E2 & C).
    apply chain_app in C. destruct C as (c3 & C3 & C). cbn [chain] in C. destruct C as (E3 & C). subst c1 c2 c3.
    apply SS_app in S. destruct S as (_ & S & _). apply StronglySorted_inv in S. destruct S as (S & Fx). rewrite Forall_app in Fx. destruct Fx as (Fx2 & Fx).
    apply Forall_inv in Fx as Fxy. apply Forall_inv_tail in Fx. rewrite Forall_app in Fx. destruct Fx as (_ & Fx). apply Forall_inv in Fx as Fxz.
    apply SS_app in S. destruct S as (_ & S & _). apply StronglySorted_inv in S. destruct S as (S & Fy). rewrite Forall_app in Fy. destruct Fy as (Fy3 & Fy).
    apply Forall_inv in Fy as Fyz. apply SS_app in S. destruct S as (_ & _ & S3). rewrite Forall_forall in Fx2.
    assert (Hq : forall e, In e [x; y; z] -> quad (dir e)).
    { intros e He. apply Q. cbn in He. destruct He as [<-|[<-|[<-|[]]]]; repeat (rewrite in_app_iff; cbn [In]); tauto. }
    pose proof (@chain_le (dir x) _ _ _ C2 Fx2) as K1.
    pose proof (@chain_ge (dir z) _ _ _ C3 (fun e He => S3 e z He (or_introl eq_refl))) as K2.
    unfold cw in Fyz.
    assert (0 < cx (dir x) (vec (fst y) q)) by (cxs; lra).
    assert (0 < cx (dir z) (vec (fst y) q)) by (cxs; lra).
    unfold arE, ar. fold (dir y). apply (@cone_pos (dir x) (dir y) (dir z)); auto; apply Hq; cbn; auto.
  - destruct l1 as [|? [|]]; try discriminate. destruct l2; discriminate. 
Qed.

(** *** Insertion of a point *)
Section Ins.
  Variable A B : p2.
  Variable l1 v l2 : list (p2 * p2).
  Variable a e p : p2.
  Hypothesis C1 : chain A l1 a.
  Hypothesis Cv : chain a v e.
  Hypothesis C2 : chain e l2 B.
  Hypothesis Sd : side A B (l1 ++ v ++ l2).
  Hypothesis NE : v <> [].
  Hypothesis Vis : forall x, In x v -> 0 < arE x p.
  Hypothesis N1 : forall x, In x l1 -> arE x p <= 0.
  Hypothesis N2 : forall x, In x l2 -> arE x p <= 0.
  Hypothesis bA : fst A <= fst p.
  Hypothesis bB : snd p <= snd B.

  Notation P := (vec a p).
  Notation E := (vec p e).
  Lemma ins_good : (forall x, In x (l1 ++ v ++ l2) -> quad (dir x)) /\ StronglySorted cw (l1 ++ v ++ l2).
  Proof.
    destruct Sd as (_ & [H|H]); auto. exfalso. destruct v as [|x v']; [congruence|]. pose proof (Vis _ (or_introl eq_refl)) as X.
    destruct l1 as [|? [|]]; try discriminate. injection H as -> _. revert X. cxs. lra.
  Qed.
  Lemma ins_quad x : In x l1 \/ In x v \/ In x l2 -> quad (dir x).
  Proof. intros H. apply ins_good. rewrite !in_app_iff. auto. Qed.
  Lemma ins_12 x y : In x l1 -> In y v \/ In y l2 -> cw x y.
  Proof. intros X Y. destruct ins_good as (_ & S). apply SS_app in S. apply S; auto. apply in_app_iff; auto. Qed.
  Lemma ins_23 x y : In x v -> In y l2 -> cw x y.
  Proof. intros X Y. destruct ins_good as (_ & S). apply SS_app in S. destruct S as (_ & S & _). apply SS_app in S. apply S; auto. Qed.
  Lemma ins_first : exists v0 v', v = v0 :: v' /\ fst v0 = a /\ 0 < cx (dir v0) P.
  Proof.
    destruct v as [|v0 v'] eqn:Ev; [congruence|]. exists v0, v'. split; auto. destruct Cv as (E1 & _). split; auto. pose proof (Vis _ (or_introl eq_refl)) as X.
    subst a. exact X.
  Qed.
  Lemma ins_last : exists v' vl, v = v' ++ [vl] /\ snd vl = e /\ cx (dir vl) E < 0.
  Proof.
    destruct (exists_last NE) as (v' & vl & Ev). exists v', vl. split; auto. pose proof Cv as X. rewrite Ev in X. apply chain_app in X. destruct X as (c & _ & X & Y). cbn in Y. split; auto.
    assert (Z : 0 < arE vl p) by (apply Vis; rewrite Ev; apply in_app_iff; cbn; auto). subst e. cxs. lra.
  Qed.
  Lemma ins_prev : l1 = [] /\ A = a \/ exists l1' z, l1 = l1' ++ [z] /\ snd z = a /\ cx (dir z) P <= 0.
  Proof.
    destruct l1 as [|x l] eqn:E1; [left; auto|right]. destruct (@exists_last _ (x :: l) ltac:(discriminate)) as (l1' & z & Ez). exists l1', z. split; auto.
    pose proof C1 as X. rewrite Ez in X. apply chain_app in X. destruct X as (c & _ & X & Y). cbn in Y. split; auto.
    assert (Z : arE z p <= 0) by (apply N1; rewrite Ez; apply in_app_iff; cbn; auto). subst a. cxs. lra.
  Qed.
  Lemma ins_next : l2 = [] /\ e = B \/ exists y l', l2 = y :: l' /\ fst y = e /\ cx E (dir y) <= 0.
  Proof.
    destruct l2 as [|y l] eqn:E1; [left; auto|right]. exists y, l. split; auto. destruct C2 as (X & _). split; auto.
    pose proof (N2 _ (or_introl eq_refl)) as Z. subst e. cxs. lra.
  Qed.
  Lemma ins_P : quad P.
  Proof.
    destruct ins_first as (v0 & v' & Ev & E0 & V0). assert (I0 : In v0 v) by (rewrite Ev; cbn; auto).
    destruct ins_prev as [(_ & EA)|(l' & z & Ez & Sz & Z)].
    - apply (@quad_left (dir v0)); auto; [apply ins_quad; auto|]. rewrite <- EA. cbn. lra.
    - assert (Iz : In z l1) by (rewrite Ez; apply in_app_iff; cbn; auto). apply (@quad_between (dir z) (dir v0)); auto; [apply ins_quad; auto|apply ins_quad; auto|apply ins_12; auto].
  Qed.
  Lemma quad_between' u w m : quad u -> quad w -> cx u w <= 0 -> cx m w <= 0 -> cx u m < 0 -> quad m.
  Proof.
    intros U W A1 B1 D1. set (f := fun x : p2 => (snd x, fst x) : p2).
    assert (Qf : forall x, quad (f x) <-> quad x) by (intros x; unfold quad, f; cbn; split; intros (? & ? & ?); repeat split; lra).
    assert (Cf : forall x y, cx (f x) (f y) = cx y x) by (intros x y; unfold cx, f; cbn; ring).
    apply Qf. apply (@quad_between (f w) (f u)); rewrite ?Qf, ?Cf; auto. unfold cx in *. lra.
  Qed.
  Lemma ins_E : quad E.
  Proof.
    destruct ins_last as (v' & vl & Ev & E0 & V0). assert (I0 : In vl v) by (rewrite Ev; apply in_app_iff; cbn; auto).
    destruct ins_next as [(_ & EB)|(y & l' & Ey & Sy & Y)].
    - apply (@quad_top (dir vl)); auto; [apply ins_quad; auto|]. rewrite EB. cbn. lra.
    - assert (Iy : In y l2) by (rewrite Ey; cbn; auto). apply (@quad_between' (dir vl) (dir y)); auto; [apply ins_quad; auto|apply ins_quad; auto|apply ins_23; auto].
  Qed.
  Lemma vv x y v' v'' : v = v' ++ x :: v'' -> In y v'' -> cw x y.
  Proof.
    intros Ev Y. destruct ins_good as (_ & S). apply SS_app in S. destruct S as (_ & S & _). apply SS_app in S. destruct S as (S & _). rewrite Ev in S.
    apply SS_app in S. destruct S as (_ & S & _). apply StronglySorted_inv in S. destruct S as (_ & S). rewrite Forall_forall in S. auto.
  Qed.
  Lemma ins_P1 x : In x l1 -> cx (dir x) P <= 0.
  Proof.
    intros X. destruct ins_prev as [(E1 & _)|(l' & z & Ez & Sz & Z)]; [rewrite E1 in X; destruct X|].
    assert (Iz : In z l1) by (rewrite Ez; apply in_app_iff; cbn; auto).
    rewrite Ez in X. apply in_app_iff in X. destruct X as [X|[<-|[]]]; auto.
    assert (Ix : In x l1) by (rewrite Ez; apply in_app_iff; auto).
    apply (@cw_tr (dir x) (dir z)); auto; try apply ins_quad; auto; [apply ins_P|].
    destruct ins_good as (_ & S). apply SS_app in S. destruct S as (S & _). rewrite Ez in S. apply SS_app in S. apply S; cbn; auto.
  Qed.
  Lemma ins_Pv x : In x v -> cx P (dir x) <= 0.
  Proof.
    intros X. destruct ins_first as (v0 & v' & Ev & E0 & V0). assert (I0 : In v0 v) by (rewrite Ev; cbn; auto).
    assert (V0' : cx P (dir v0) <= 0) by (unfold cx in *; lra). pose proof X as X'. rewrite Ev in X'. destruct X' as [<-|X']; auto.
    apply (@cw_tr P (dir v0)); auto; try apply ins_quad; auto; [apply ins_P|]. apply (@vv v0 x [] v'); auto.
  Qed.
  Lemma ins_Ev x : In x v -> cx (dir x) E <= 0.
  Proof.
    intros X. destruct ins_last as (v' & vl & Ev & E0 & V0). assert (I0 : In vl v) by (rewrite Ev; apply in_app_iff; cbn; auto).
    pose proof X as X'. rewrite Ev in X'. apply in_app_iff in X'. destruct X' as [X'|[<-|[]]]; [|lra].
    apply (@cw_tr (dir x) (dir vl)); auto; try apply ins_quad; auto; [apply ins_E| |lra].
    apply in_split in X'. destruct X' as (w1 & w2 & Ew). apply (@vv x vl w1 (w2 ++ [vl])); [rewrite Ev, Ew, <- app_assoc; reflexivity|apply in_app_iff; cbn; auto].
  Qed.
  Lemma ins_E2 y : In y l2 -> cx E (dir y) <= 0.
  Proof.
    intros X. destruct ins_next as [(E1 & _)|(z & l' & Ez & Sz & Z)]; [rewrite E1 in X; destruct X|].
    assert (Iz : In z l2) by (rewrite Ez; cbn; auto). pose proof X as X'. rewrite Ez in X'. destruct X' as [<-|X']; auto.
    apply (@cw_tr E (dir z)); auto; try apply ins_quad; auto; [apply ins_E|].
    destruct ins_good as (_ & S). apply SS_app in S. destruct S as (_ & S & _). apply SS_app in S. destruct S as (_ & S & _). rewrite Ez in S.
    apply StronglySorted_inv in S. destruct S as (_ & S). rewrite Forall_forall in S. apply S; auto.
  Qed.
  Lemma ins_PE : cx P E <= 0.
  Proof.
    destruct ins_first as (v0 & v' & Ev & _). assert (I0 : In v0 v) by (rewrite Ev; cbn; auto).
    apply (@cw_tr P (dir v0)); [apply ins_P|apply ins_quad; auto|apply ins_E|apply ins_Pv; auto|apply ins_Ev; auto].
  Qed.

  Notation new := (l1 ++ (a, p) :: (p, e) :: l2).
  Theorem ins_side : side A B new.
  Proof.
    pose proof ins_P as QP. pose proof ins_E as QE. split; [|left; split].
    - apply chain_app. exists a. split; auto. cbn. auto.
    - intros x Hx. apply in_app_iff in Hx. destruct Hx as [Hx|[<-|[<-|Hx]]]; auto; apply ins_quad; auto.
    - destruct ins_good as (_ & S). apply SS_app in S. destruct S as (S1 & S & _). apply SS_app in S. destruct S as (_ & S2 & _).
      destruct ins_first as (v0 & v' & Ev & _). assert (I0 : In v0 v) by (rewrite Ev; cbn; auto).
      apply SS_app. split; auto. split.
      + constructor; [constructor; auto|].
        * apply Forall_forall. intros y Hy. apply ins_E2; auto.
        * constructor; [apply ins_PE|]. apply Forall_forall. intros y Hy. unfold cw.
          apply (@cw_tr P (dir v0)); auto; try apply ins_quad; auto; [apply ins_Pv; auto|apply ins_23; auto].
      + intros x y X [<-|[<-|Y]]; [apply ins_P1; auto| |apply ins_12; auto]. unfold cw.
        apply (@cw_tr (dir x) (dir v0)); auto; try apply ins_quad; auto; [apply ins_12; auto|apply ins_Ev; auto].
  Qed.
  (** what is inside stays inside *)
  Theorem ins_inner q : fst A <= fst q -> snd q <= snd B -> inner (l1 ++ v ++ l2) q -> inner new q.
  Proof.
    intros qA qB H.
    assert (H1 : forall x, In x l1 -> arE x q <= 0) by (intros x X; apply H; rewrite !in_app_iff; auto).
    assert (H2 : forall x, In x l2 -> arE x q <= 0) by (intros x X; apply H; rewrite !in_app_iff; auto).
    assert (Hv : forall x, In x v -> arE x q <= 0) by (intros x X; apply H; rewrite !in_app_iff; auto).
    destruct ins_first as (v0 & v' & Ev & E0 & V0). assert (I0 : In v0 v) by (rewrite Ev; cbn; auto).
    destruct ins_last as (w' & vl & Ew & El & Vl). assert (Il : In vl v) by (rewrite Ew; apply in_app_iff; cbn; auto).
    assert (K0 : cx (dir v0) (vec a q) <= 0) by (pose proof (Hv _ I0) as X; rewrite <- E0; exact X).
    assert (Kl : cx (dir vl) (vec e q) <= 0) by (pose proof (Hv _ Il) as X; rewrite <- El; cxs; lra).
    intros x X. apply in_app_iff in X. destruct X as [X|[<-|[<-|X]]]; auto.
    - change (cx P (vec a q) <= 0). destruct ins_prev as [(_ & EA)|(l' & z & Ez & Sz & Z)].
      + apply (@left_in (dir v0)); auto; [apply ins_quad; auto|rewrite <- EA; cbn; lra|rewrite <- EA; cbn; lra].
      + assert (Iz : In z l1) by (rewrite Ez; apply in_app_iff; cbn; auto).
        apply (@cone_neg (dir z) P (dir v0)); auto; try apply ins_quad; auto; [apply ins_P|apply ins_Pv; auto|].
        pose proof (H1 _ Iz) as X. rewrite <- Sz. cxs. lra.
    - assert (X : cx E (vec e q) <= 0); [|cxs; lra]. destruct ins_next as [(_ & EB)|(y & l' & Ey & Sy & Y)].
      + apply (@top_in (dir vl)); auto; [apply ins_quad; auto|rewrite EB; cbn; lra|rewrite EB; cbn; lra].
      + assert (Iy : In y l2) by (rewrite Ey; cbn; auto).
        apply (@cone_neg (dir vl) E (dir y)); auto; try apply ins_quad; auto; [apply ins_E|lra|].
        pose proof (H2 _ Iy) as X. rewrite <- Sy. exact X.
  Qed.
  Theorem ins_self : inner new p.
  Proof. intros x X. apply in_app_iff in X. destruct X as [X|[<-|[<-|X]]]; auto; cxs; lra. Qed.
  (** a point that saw a removed edge and sees neither new one is inside *)
  Theorem ins_hidden q r : In r v -> 0 < arE r q -> arE (a, p) q <= 0 -> arE (p, e) q <= 0 -> inner new q.
  Proof.
    intros R Rq Q1 Q2. apply in_split in R as Sp. destruct Sp as (w1 & w2 & Ev).
    pose proof Cv as X. rewrite Ev in X. apply chain_app in X. destruct X as (c & Cw1 & X & Cw2). subst c.
    assert (F1 : forall m, In m w1 -> cx (dir m) (dir r) <= 0).
    { intros m Hm. apply in_split in Hm. destruct Hm as (u1 & u2 & Eu). apply (@vv m r u1 (u2 ++ r :: w2)); [rewrite Ev, Eu, <- app_assoc; reflexivity|apply in_app_iff; cbn; auto]. }
    assert (F2 : forall m, In m w2 -> cx (dir r) (dir m) <= 0) by (intros m Hm; apply (@vv r m w1 w2); auto).
    pose proof (chain_ge _ _ _ Cw1 F1) as G1. pose proof (chain_le _ _ _ Cw2 F2) as G2.
    assert (Ra : 0 < cx (dir r) (vec a q)) by (cxs; lra). assert (Re : 0 < cx (dir r) (vec e q)) by (cxs; lra).
    assert (Pq : cx P (vec a q) <= 0) by exact Q1. assert (Eq : cx E (vec e q) <= 0) by (cxs; lra).
    intros x X. apply in_app_iff in X. destruct X as [X|[<-|[<-|X]]]; auto; apply Rnot_lt_le; intros Hx.
    - apply in_split in X as Sp. destruct Sp as (u1 & u2 & Eu). pose proof C1 as Cx. rewrite Eu in Cx. apply chain_app in Cx. destruct Cx as (c & _ & Ec & Cu2). subst c.
      assert (F3 : forall m, In m u2 -> cx (dir x) (dir m) <= 0).
      { destruct ins_good as (_ & S). apply SS_app in S. destruct S as (S & _). rewrite Eu in S. apply SS_app in S. destruct S as (_ & S & _).
        apply StronglySorted_inv in S. destruct S as (_ & S). rewrite Forall_forall in S. exact S. }
      pose proof (chain_le _ _ _ Cu2 F3) as G3. assert (Xa : 0 < cx (dir x) (vec a q)) by (cxs; lra).
      pose proof (@cone_pos (dir x) P (dir r) (vec a q)) as K. assert (0 < cx P (vec a q)); [|lra].
      apply K; auto; try apply ins_quad; auto; [apply ins_P|apply ins_P1; auto|apply ins_Pv; auto].
    - apply in_split in X as Sp. destruct Sp as (u1 & u2 & Eu). pose proof C2 as Cx. rewrite Eu in Cx. apply chain_app in Cx. destruct Cx as (c & Cu1 & Ec & _). subst c.
      assert (F3 : forall m, In m u1 -> cx (dir m) (dir x) <= 0).
      { intros m Hm. destruct ins_good as (_ & S). apply SS_app in S. destruct S as (_ & S & _). apply SS_app in S. destruct S as (_ & S & _). rewrite Eu in S.
        apply SS_app in S. apply S; cbn; auto. }
      pose proof (chain_ge _ _ _ Cu1 F3) as G3. assert (Xa : 0 < cx (dir x) (vec e q)) by (cxs; lra).
      pose proof (@cone_pos (dir r) E (dir x) (vec e q)) as K. assert (0 < cx E (vec e q)); [|lra].
      apply K; auto; try apply ins_quad; auto; [apply ins_E|apply ins_Ev; auto|apply ins_E2; auto].
  Qed.
End Ins.
