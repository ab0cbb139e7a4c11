(** The parallel quickhull: the whole program, and points on a curve. *)
From Coq Require Import Reals Lra Lia Psatz List Bool Permutation.
From Verif Require Import Base Num Hull2dModel H3Model H3Geom H3Surf H3Heap H3Link H3Place H3Loop H3Main H3Init H3Init2 H3Spec H3Final H3ParModel H3ParHeap H3ParRound.
Set Implicit Arguments.
Open Scope R_scope.

Lemma bind_ext A B (e : res A) (f g : A -> res B) : (forall x, f x = g x) -> bind e f = bind e g.
Proof. intros H. destruct e; cbn [bind]; auto. Qed.
Lemma bind_cong A B (e e' : res A) (f g : A -> res B) : e = e' -> f = g -> bind e f = bind e' g.
Proof. intros -> ->. auto. Qed.

Lemma bind_inv A B (e : res A) (f : A -> res B) y : bind e f = Ok y -> exists x, e = Ok x /\ f x = Ok y.
Proof. destruct e; cbn [bind]; try discriminate. eauto. Qed.

Section WholePar.
  Variable P : list p3.
  Variable eps : R.
  Hypothesis eps0 : 0 <= eps.
  Hypothesis GP : margin P (4 * eps).
  Hypothesis H4 : four_pts P.
  Variable mm : (p3 -> p3 -> bool) -> list p3 -> nat * nat.
  Variable mx : (p3 -> p3 -> bool) -> list p3 -> nat.
  Hypothesis Hmm : minmax3_ok mm.
  Hypothesis Hmx : maxel3_ok mx.
  Variable choose : nat -> fct3 -> nat.
  Hypothesis Hch : forall i f, see f <> [] -> (choose i f < length (see f))%nat.
  Variable addr : nat -> nat.
  Hypothesis Hadd : forall i j, addr i = addr j -> i = j.
  Variable qord : list (p3 * nat) -> list (p3 * nat).
  Hypothesis Hq : forall l, Permutation l (qord l).
  Variable shuf : nat -> forall X : Type, list X -> list X.
  Hypothesis Hs : forall t X l, Permutation l (@shuf t X l).

  Lemma init_same : @initPar RNum eps mm mx P = @init RNum eps mm mx P.
  Proof.
    unfold initPar, init, initWith. apply bind_ext. intros [[[c1 c2] c3] c4]. do 4 (apply bind_ext; intros ?). cbv zeta. do 4 (apply bind_ext; intros ?).
    apply bind_cong; [|reflexivity].
    apply splitTo_eq. intros k Hk. cbn [In] in Hk. destruct Hk as [<-|[<-|[<-|[<-|[]]]]]; eexists; (split; [reflexivity|]);
      unfold newFct; match goal with |- context [mkTri ?K ?e ?a ?b ?c] => destruct (mkTri K e a b c) as [[? ?] ?] end; reflexivity.
  Qed.
  Lemma init_cnt o s : @init RNum eps mm mx P = Ok (o, s) -> hn s = cnt (hh s).
  Proof.
    unfold init, initWith. intros E. apply bind_inv in E. destruct E as ([[[c1 c2] c3] c4] & _ & E).
    do 4 (apply bind_inv in E; destruct E as (? & _ & E)). cbv zeta in E. do 4 (apply bind_inv in E; destruct E as (? & _ & E)).
    apply bind_inv in E. destruct E as (h1 & E1 & E).
    match type of E1 with foldR ?f ?l ?hs = _ =>
      assert (S1 : shp h1 = shp hs) by (revert E1; apply foldR_inv with (I := fun g => shp g = shp hs); auto; intros v y y' _ Iy Ey; apply shp_place1 in Ey; congruence) end.
    apply bind_inv in E. destruct E as (h2 & E2 & E). apply bind_inv in E. destruct E as (h3 & E3 & E).
    apply bind_inv in E. destruct E as (h4 & E4 & E). apply bind_inv in E. destruct E as (h5 & E5 & E).
    apply shp_linkFacet in E2, E3, E4, E5. assert (Es : s = Hull h5 0 4) by congruence. subst s. cbn [hh hn]. unfold cnt.
    rewrite E5, E4, E3, E2, S1. reflexivity.
  Qed.

  Lemma computePar_ok np : (0 < np)%nat -> exists L, hull_facets P L /\
    @computePar RNum eps choose addr qord shuf mm mx np P = if (length L <? 64)%nat then UB else Ok L.
  Proof.
    intros N. unfold computePar. destruct (@init_ok P eps eps0 GP H4 mm mx Hmm Hmx) as (o & S0 & W & q1 & q2 & q3 & q4 & E & R0 & T & L0 & I1 & I2 & I3 & I4 & D & Z).
    pose proof (init_cnt E) as C0. rewrite init_same, E. cbn [bind].
    assert (G : margin (map (fun p => subR p o) P) eps) by (apply margin_sub; eapply margin_le; [|exact GP]; lra).
    destruct (@loopPar_ok _ eps eps0 G choose Hch addr Hadd qord Hq shuf Hs np (S (length P)) N S0 W (fun _ => None) R0) as (S1 & W1 & R1 & L1 & N1 & E1); auto; [lia|].
    assert (Z4 : forall L, aff L O3 = (aff L q1 + aff L q2 + aff L q3 + aff L q4) / 4).
    { intros [[[k0 k1] k2] k3].
      pose proof (Z (V3 0 0 0, V3 1 0 0, V3 0 1 0)) as Z3. pose proof (Z (V3 0 0 0, V3 0 1 0, V3 0 0 1)) as Z1. pose proof (Z (V3 0 0 0, V3 0 0 1, V3 1 0 0)) as Z2.
      cbn [ht] in Z1, Z2, Z3. unfold svol, O3 in Z1, Z2, Z3. cbn [vx vy vz] in Z1, Z2, Z3. unfold aff, O3. cbn [vx vy vz]. nra. }
    destruct (@getFacet_len P o eps eps0 G S1 W1 R1 N1 L1 q1 q2 q3 q4 I1 I2 I3 I4 D Z4) as (L & EL & HL & Len).
    exists L. split; auto. rewrite cnt_ids in Len.
    match goal with |- _ = if (?x <? 64)%nat then _ else _ => replace x with (cnt (hh S1)) by (symmetry; exact Len) end.
    match goal with |- bind ?x _ = _ => replace x with (if (cnt (hh S1) <? 64)%nat then UB else Ok S1) by (symmetry; exact E1) end.
    destruct (_ <? 64)%nat; auto.
  Qed.
End WholePar.

(** *** Facets are counted up to the order of their corners *)
Lemma pigeon C (codes : list C) (F : C -> tri3) : forall L, NoDup codes -> (forall c, In c codes -> exists u, In u L /\ sameFacet u (F c)) ->
  (forall c c', In c codes -> In c' codes -> sameFacet (F c) (F c') -> c = c') -> (length codes <= length L)%nat.
Proof.
  induction codes as [|c l IH]; intros L ND H I; [cbn; lia|]. inversion ND as [|? ? N1 N2]; subst.
  destruct (H c (or_introl eq_refl)) as (u & Hu & Su). apply in_split in Hu. destruct Hu as (L1 & L2 & ->).
  assert (X : (length l <= length (L1 ++ L2))%nat); [|rewrite app_length in *; cbn [length]; lia].
  apply IH; auto.
  - intros c' Hc. destruct (H c' (or_intror Hc)) as (v & Hv & Sv). apply in_app_or in Hv. destruct Hv as [Hv|[<-|Hv]]; [exists v|exfalso|exists v]; try (split; [apply in_or_app; auto|auto]).
    apply N1. replace c with c'; auto. apply I; [right; auto|left; auto|]. intros q. rewrite <- (Su q). symmetry. apply Sv.
  - intros c1 c2 A B. apply I; right; auto.
Qed.
Lemma facets_le P L L' : hull_facets P L -> hull_facets P L' -> (length L <= length L')%nat.
Proof.
  intros (A & B & C) (A' & B' & C'). rewrite <- (seq_length (length L) 0).
  apply pigeon with (F := fun i => nth i L (O3, O3, O3)); [apply seq_NoDup| |].
  - intros i Hi. apply in_seq in Hi. apply B', A, nth_In. lia.
  - intros i j Hi Hj S. apply in_seq in Hi, Hj. eapply C; eauto; apply nth_error_nth'; lia.
Qed.
Lemma facets_len P L L' : hull_facets P L -> hull_facets P L' -> length L = length L'.
Proof. intros H H'. apply Nat.le_antisymm; eapply facets_le; eauto. Qed.

(** *** Points of the curve (t, t^2, t^3) *)
Definition mom (i : nat) : p3 := V3 (INR i) (INR i * INR i) (INR i * INR i * INR i).
Definition moment (n : nat) : list p3 := map mom (seq 0 n).
Lemma mom_inj i j : mom i = mom j -> i = j.
Proof. intros E. injection E as E _ _. apply INR_eq; auto. Qed.
Lemma svol_mom a b c d : exists s, (s = 1 \/ s = -1) /\ svol (mom a) (mom b) (mom c) (mom d) =
  s * ((INR b - INR a) * (INR c - INR a) * (INR d - INR a) * (INR c - INR b) * (INR d - INR b) * (INR d - INR c)).
Proof. unfold svol, mom. cbn [vx vy vz]. (exists 1; split; [lra|ring]) || (exists (-1); split; [lra|ring]). Qed.
Lemma diff_Z a b : INR a - INR b = IZR (Z.of_nat a - Z.of_nat b).
Proof. rewrite minus_IZR, <- !INR_IZR_INZ. auto. Qed.
Lemma moment_in n q : In q (moment n) <-> exists i, q = mom i /\ (i < n)%nat.
Proof.
  unfold moment. rewrite in_map_iff. split.
  - intros (i & <- & Hi). apply in_seq in Hi. exists i. split; auto. lia.
  - intros (i & -> & L). exists i. split; auto. apply in_seq. lia.
Qed.
Lemma svol_Z a b c d : exists z : Z, svol (mom a) (mom b) (mom c) (mom d) = IZR z /\ (a <> b -> a <> c -> a <> d -> b <> c -> b <> d -> c <> d -> (z <> 0)%Z).
Proof.
  destruct (svol_mom a b c d) as (s & Hs & ->). rewrite !diff_Z, <- !mult_IZR.
  set (z := ((Z.of_nat b - Z.of_nat a) * (Z.of_nat c - Z.of_nat a) * (Z.of_nat d - Z.of_nat a) * (Z.of_nat c - Z.of_nat b) * (Z.of_nat d - Z.of_nat b) * (Z.of_nat d - Z.of_nat c))%Z).
  assert (Nz : a <> b -> a <> c -> a <> d -> b <> c -> b <> d -> c <> d -> (z <> 0)%Z).
  { intros. unfold z. repeat (apply Z.neq_mul_0; split); lia. }
  destruct Hs as [-> | ->]; [exists z|exists (- z)%Z]; (split; [rewrite ?opp_IZR; lra|intros]); [auto|].
  intros E. assert (z = 0)%Z by lia. apply Nz; auto.
Qed.
Lemma moment_margin n e : e < 1 -> margin (moment n) e.
Proof.
  intros He a b c d A B C D N1 N2 N3 N4 N5 N6. apply moment_in in A, B, C, D.
  destruct A as (i & -> & _), B as (j & -> & _), C as (k & -> & _), D as (l & -> & _).
  destruct (svol_Z i j k l) as (z & -> & Nz).
  assert (Hz : (z <> 0)%Z) by (apply Nz; intros ->; congruence).
  rewrite <- abs_IZR. apply Rlt_le_trans with 1; auto. apply IZR_le. lia.
Qed.
(** the facets through the first point and through the last *)
Definition mfac (n : nat) (c : bool * nat) : tri3 := if fst c then (mom 0, mom (snd c), mom (S (snd c))) else (mom (snd c), mom (S (snd c)), mom (n - 1)).
Definition mcodes (n : nat) : list (bool * nat) := map (pair true) (seq 1 (n - 2)) ++ map (pair false) (seq 0 (n - 2)).
Lemma sign_Z (x y : Z) : (y <> x)%Z -> (y <> x + 1)%Z -> (0 < (y - x) * (y - (x + 1)))%Z.
Proof. intros. nia. Qed.
Lemma mfac_hull n c : In c (mcodes n) -> HullFacet (moment n) (mfac n c).
Proof.
  intros Hc. assert (X : forall a b e, (a < n)%nat -> (b < n)%nat -> (e < n)%nat -> a <> b -> b <> e -> e <> a ->
    (forall d, (d < n)%nat -> d <> a -> d <> b -> d <> e -> 0 < (INR d - INR a) * (INR d - INR b) * (INR d - INR e)) \/
    (forall d, (d < n)%nat -> d <> a -> d <> b -> d <> e -> (INR d - INR a) * (INR d - INR b) * (INR d - INR e) < 0) ->
    HullFacet (moment n) (mom a, mom b, mom e)).
  { clear. intros a b e La Lb Le N1 N2 N3 H. cbn [HullFacet]. split; [apply moment_in; eauto|]. split; [apply moment_in; eauto|]. split; [apply moment_in; eauto|].
    split; [intros E; apply mom_inj in E; auto|]. split; [intros E; apply mom_inj in E; auto|]. split; [intros E; apply mom_inj in E; auto|].
    set (k := (INR b - INR a) * (INR e - INR a) * (INR e - INR b)).
    assert (K : k <> 0).
    { unfold k. rewrite !diff_Z, <- !mult_IZR. apply not_0_IZR. repeat (apply Z.neq_mul_0; split); lia. }
    assert (E : exists s, (s = 1 \/ s = -1) /\ forall d, svol (mom a) (mom b) (mom e) (mom d) = s * k * ((INR d - INR a) * (INR d - INR b) * (INR d - INR e))).
    { unfold k, svol, mom. cbn [vx vy vz]. (exists 1; split; [lra|intros; ring]) || (exists (-1); split; [lra|intros; ring]). }
    destruct E as (s & Hs & E). assert (K' : s * k < 0 \/ 0 < s * k).
    { destruct (Rtotal_order (s * k) 0) as [L|[Z|L]]; auto. exfalso. apply K. destruct Hs; subst; lra. }
    assert (Y : forall q, In q (moment n) -> ~ isCorner (mom a, mom b, mom e) q -> exists d, q = mom d /\ (d < n)%nat /\ d <> a /\ d <> b /\ d <> e).
    { intros q Hq Nq. apply moment_in in Hq. destruct Hq as (d & -> & L). exists d. cbn [isCorner] in Nq. repeat split; auto; intros ->; apply Nq; auto. }
    revert E K' H Y. generalize (s * k). clear. intros m E K' H Y.
    destruct K' as [K'|K'], H as [H|H]; [left|right|right|left]; intros q Hq Nq; destruct (Y q Hq Nq) as (d & -> & L & A & B & C);
      rewrite E; specialize (H d L A B C); nra. }
  unfold mcodes in Hc. apply in_app_or in Hc. destruct Hc as [Hc|Hc]; apply in_map_iff in Hc; destruct Hc as (i & <- & Hi); apply in_seq in Hi; unfold mfac; cbn [fst snd]; apply X; try lia.
  - left. intros d Ld A B C. rewrite !diff_Z, <- !mult_IZR. apply IZR_lt. pose proof (@sign_Z (Z.of_nat i) (Z.of_nat d)). nia.
  - right. intros d Ld A B C. rewrite !diff_Z, <- !mult_IZR. apply IZR_lt. pose proof (@sign_Z (Z.of_nat i) (Z.of_nat d)). nia.
Qed.
Lemma mfac_inj n c c' : (4 <= n)%nat -> In c (mcodes n) -> In c' (mcodes n) -> sameFacet (mfac n c) (mfac n c') -> c = c'.
Proof.
  intros Ln Hc Hc' S.
  assert (C : forall c, In c (mcodes n) -> if fst c then (1 <= snd c < n - 1)%nat else (snd c < n - 2)%nat).
  { clear. intros c Hc. unfold mcodes in Hc. apply in_app_or in Hc. destruct Hc as [Hc|Hc]; apply in_map_iff in Hc; destruct Hc as (i & <- & Hi); apply in_seq in Hi; cbn [fst snd]; lia. }
  apply C in Hc. apply C in Hc'. clear C. assert (M : forall k, isCorner (mfac n c) (mom k) <-> isCorner (mfac n c') (mom k)) by (intros; apply S). clear S.
  assert (E : forall i j, mom i = mom j <-> i = j) by (intros; split; [apply mom_inj|congruence]).
  destruct c as [[|] i], c' as [[|] j]; unfold mfac in M; cbn [fst snd isCorner] in *; setoid_rewrite E in M.
  - f_equal. pose proof (M i). pose proof (M (S i)). lia.
  - exfalso. pose proof (M 0%nat). pose proof (M (S j)). pose proof (M (n - 1)%nat). lia.
  - exfalso. pose proof (M 0%nat). pose proof (M (S i)). pose proof (M (n - 1)%nat). lia.
  - f_equal. pose proof (M i). pose proof (M (S i)). pose proof (M j). pose proof (M (S j)). lia.
Qed.
Lemma moment_facets n L : (4 <= n)%nat -> hull_facets (moment n) L -> (2 * n - 4 <= length L)%nat.
Proof.
  intros Ln (A & B & C). apply Nat.le_trans with (length (mcodes n)).
  - unfold mcodes. rewrite app_length, !map_length, !seq_length. lia.
  - apply pigeon with (F := mfac n).
    + unfold mcodes. apply NoDup_app_intro.
      * apply FinFun.Injective_map_NoDup; [intros x y E; congruence|apply seq_NoDup].
      * apply FinFun.Injective_map_NoDup; [intros x y E; congruence|apply seq_NoDup].
      * intros x Hx Hy. apply in_map_iff in Hx, Hy. destruct Hx as (i & <- & _), Hy as (j & E & _). discriminate.
    + intros c Hc. apply B, mfac_hull; auto.
    + intros c c' Hc Hc'. apply mfac_inj; auto.
Qed.
Lemma moment_four n : (4 <= n)%nat -> exists a b c d, incl [a; b; c; d] (moment n) /\ NoDup [a; b; c; d].
Proof.
  intros L. exists (mom 0), (mom 1), (mom 2), (mom 3). split.
  - intros q [<-|[<-|[<-|[<-|[]]]]]; apply moment_in; eexists; (split; [reflexivity|lia]).
  - repeat constructor; cbn [In]; intros H; repeat (destruct H as [H|H]; [apply mom_inj in H; discriminate|]); exact H.
Qed.
