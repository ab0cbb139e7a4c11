(** C69-C72: the parallel incremental Delaunay triangulation. *)
From Coq Require Import Reals Floats Lra Psatz ZArith.
From Verif Require Import Base Num FloatNum Sched DelModel DelSpec DelDrive DelTrig.
Set Implicit Arguments.

(** The premises: two or more points in general position together with the ring,
    any permutation, any search structure that returns one of its points, any
    order of the reservations, [fuel] at least the number of triangles. *)
Record delPre (cs sn : nat -> R) (P B : list pt) (knn : (nat -> pt) -> list nat -> nat -> res nat)
    (worder : nat -> list (nat * nat) -> list (nat * nat)) (ids : list nat) (fuel : nat) : Prop := {
  dp_dirs : ring10 cs sn;
  dp_two : 2 <= length P;
  dp_ring : ringOf cs sn P B;
  dp_gen : genPos (P ++ B) (length P);
  dp_ids : Permutation ids (seq 0 (length P));
  dp_knn : forall l v, l <> [] -> ~ In v l -> v < length P -> (forall c, In c l -> c <= length P) ->
    exists u, knn (fun i => nth (nth i ids i) (P ++ B) (0, 0)%R) l v = Ok u /\ In u l;
  dp_ord : forall r l, Permutation (worder r l) l;
  dp_fuel : 2 * length P + 10 <= fuel;
}.

Lemma del_main cs sn P B knn worder ids fuel : delPre cs sn P B knn worder ids fuel ->
  (forall sched, match @delaunay RNum cs sn knn worder sched ids fuel P with
                 | Ok (V, T) => V = P ++ B /\ outOk (length P) (P ++ B) T
                 | Fuel => True
                 | _ => False
                 end) /\
  (forall sched, exists sched' r, (forall k, exists e, sched' k = sched k ++ e) /\ @delaunay RNum cs sn knn worder sched' ids fuel P = Ok r).
Proof.
  intros H. pose proof (dp_dirs H) as RG. assert (NE : P <> []) by (intros ->; pose proof (dp_two H); cbn in *; lia).
  destruct (ringOf_ok cs sn NE) as (B' & EB & HB). pose proof (proj1 (HB B) (dp_ring H)) as <-. split; intros sched.
  - refine (@delaunay_all cs sn RG P (dp_two H) B EB (dp_gen H) ids (dp_ids H) knn _ worder (dp_ord H) fuel (dp_fuel H) sched).
    apply (dp_knn H).
  - refine (@delaunay_extend cs sn RG P (dp_two H) B EB (dp_gen H) ids (dp_ids H) knn _ worder (dp_ord H) fuel (dp_fuel H) sched).
    apply (dp_knn H).
Qed.

(** The directions of the code, multiples of 2*3.14159/10, are on the unit circle,
    in convex position, around the square of side 3/10. *)
Lemma code_directions : ring10 csR snR.
Proof. exact ring10_trig. Qed.

(** C69: no undefined behaviour and no abort under any interleaving; every
    partial schedule can be continued to the end; then there are 2n+8 triangles
    on the n points and the ring. *)
Theorem C69_delaunay_safe : forall cs sn P B knn worder ids fuel, delPre cs sn P B knn worder ids fuel ->
  (forall sched, match @delaunay RNum cs sn knn worder sched ids fuel P with
                 | Ok (V, T) => V = P ++ B /\ length T = 2 * length P + 8 /\
                     forall i j k, In (i, j, k) T -> i < length V /\ j < length V /\ k < length V
                 | Fuel => True
                 | _ => False
                 end) /\
  (forall sched, exists sched' r, (forall k, exists e, sched' k = sched k ++ e) /\
     @delaunay RNum cs sn knn worder sched' ids fuel P = Ok r) /\
  ring10 csR snR.
Proof.
  intros cs sn P B knn worder ids fuel H. destruct (del_main H) as (A & E). split; [|split; [auto|apply code_directions]].
  intros sched. specialize (A sched). destruct (@delaunay RNum cs sn knn worder sched ids fuel P) as [[V T]| | |]; auto.
  destruct A as (-> & O). split; auto. split; [apply (o_len O)|]. intros i j k I. apply (o_sound O) in I. apply I.
Qed.
Print Assumptions C69_delaunay_safe.

(** C70: every triangle is counterclockwise, and no point, of the input or of the
    ring, lies strictly inside its circumscribed circle. *)
Theorem C70_delaunay_empty_circles : forall cs sn P B knn worder ids fuel, delPre cs sn P B knn worder ids fuel ->
  forall sched V T, @delaunay RNum cs sn knn worder sched ids fuel P = Ok (V, T) ->
  V = P ++ B /\ forall t, In t T -> delTri V t.
Proof.
  intros cs sn P B knn worder ids fuel H sched V T E. destruct (del_main H) as (A & _). specialize (A sched). rewrite E in A.
  destruct A as (-> & O). split; auto. apply (o_sound O).
Qed.
Print Assumptions C70_delaunay_empty_circles.

(** C71: every counterclockwise triangle with an empty circumscribed circle is
    listed, once; so the set of triangles does not depend on the permutation,
    the search structure or the schedule. *)
Theorem C71_delaunay_complete : forall cs sn P B knn worder ids fuel, delPre cs sn P B knn worder ids fuel ->
  forall sched V T, @delaunay RNum cs sn knn worder sched ids fuel P = Ok (V, T) ->
  (forall t, delTri V t -> once t T) /\
  (forall knn' worder' ids' fuel' sched' V' T', delPre cs sn P B knn' worder' ids' fuel' ->
     @delaunay RNum cs sn knn' worder' sched' ids' fuel' P = Ok (V', T') ->
     length T' = length T /\ forall t, In t T' -> once t T).
Proof.
  intros cs sn P B knn worder ids fuel H sched V T E. destruct (del_main H) as (A & _). specialize (A sched). rewrite E in A.
  destruct A as (-> & O). split; [apply (o_comp O)|]. intros knn' worder' ids' fuel' sched' V' T' H' E'.
  destruct (del_main H') as (A' & _). specialize (A' sched'). rewrite E' in A'. destruct A' as (-> & O').
  split; [exact (eq_trans (o_len O') (eq_sym (o_len O)))|]. intros t I. apply (o_comp O). apply (o_sound O'). auto.
Qed.
Print Assumptions C71_delaunay_complete.

(** C72: the triangles fill the ring without overlapping edges: every point
    inside the ring is in a triangle, a directed edge belongs to one triangle,
    and its reverse to another one unless it joins consecutive ring points. *)
Theorem C72_delaunay_cover : forall cs sn P B knn worder ids fuel, delPre cs sn P B knn worder ids fuel ->
  forall sched V T, @delaunay RNum cs sn knn worder sched ids fuel P = Ok (V, T) ->
  (forall x, inRing V (length P) x -> exists t, In t T /\ inTri V t x) /\
  (forall i j t t' a b, nth_error T i = Some t -> nth_error T j = Some t' -> edge t a b -> edge t' a b -> i = j) /\
  (forall t a b, In t T -> edge t a b ->
     (length P <= a /\ b = next (length P) a) \/ exists t', In t' T /\ edge t' b a).
Proof.
  intros cs sn P B knn worder ids fuel H sched V T E. destruct (del_main H) as (A & _). specialize (A sched). rewrite E in A.
  destruct A as (-> & O). split; [apply (o_cover O)|]. split; [apply (o_edge O)|apply (o_opp O)].
Qed.
Print Assumptions C72_delaunay_cover.

(** *** Concrete cases.  Two points and a ring of ten points with integer
    coordinates; the premises hold (general position is decided over Z). *)
Definition zturn (a b c : Z * Z) : Z := ((fst b - fst a) * (snd c - snd a) - (snd b - snd a) * (fst c - fst a))%Z.
Definition zpow (a d : Z * Z) : Z := ((fst a - fst d) * (fst a - fst d) + (snd a - snd d) * (snd a - snd d))%Z.
(** The determinant of the circle test *)
Definition zinc (a b c d : Z * Z) : Z :=
  (zpow a d * zturn d b c - zpow b d * zturn d a c + zpow c d * zturn d a b)%Z.
Definition zP : list (Z * Z) := [(0, 0); (6, 8)]%Z.
Definition zR : list (Z * Z) := [(100, 0); (96, 28); (80, 60); (28, 96); (0, 100); (-28, 96); (-60, 80); (-80, 60); (-80, -60); (60, -80)]%Z.
Definition zB : list (Z * Z) := map (fun p => (9 + fst p, 12 + snd p)%Z) zR.
Definition zV := zP ++ zB.
Definition rp (p : Z * Z) : pt := (IZR (fst p), IZR (snd p)).
Definition exP : list pt := map rp zP.
Definition exB : list pt := map rp zB.
Definition exCs (i : nat) : R := (IZR (fst (nth i zR (0, 0)%Z)) / 100)%R.
Definition exSn (i : nat) : R := (IZR (snd (nth i zR (0, 0)%Z)) / 100)%R.
Definition exKnn (vp : nat -> pt) (l : list nat) (v : nat) : res nat := Ok (hd 0 l).

Lemma rp_turn a b c : turn (rp a) (rp b) (rp c) = IZR (zturn a b c).
Proof. unfold turn, zturn, rp. cbn [fst snd]. rewrite minus_IZR, !mult_IZR, !minus_IZR. reflexivity. Qed.
Lemma rp_inc a b c d : DelGeom.incirc (rp a) (rp b) (rp c) (rp d) = IZR (zinc a b c d).
Proof.
  unfold DelGeom.incirc, DelGeom.sqd, DelGeom.area2, zinc, zpow, zturn, rp. cbn [fst snd].
  rewrite plus_IZR, minus_IZR, !mult_IZR, !plus_IZR, !minus_IZR, !mult_IZR, !minus_IZR. ring.
Qed.
Lemma at_rp V i : i < length V -> at_ (map rp V) i = rp (nth i V (0, 0)%Z).
Proof. intros H. unfold at_. change (0, 0)%R with (rp (0, 0)%Z). apply (map_nth rp). Qed.

Definition z3 (V : list (Z * Z)) : bool :=
  forallb (fun k => forallb (fun j => forallb (fun i =>
    negb (zturn (nth i V (0, 0)%Z) (nth j V (0, 0)%Z) (nth k V (0, 0)%Z) =? 0)%Z) (seq 0 j)) (seq 0 k)) (seq 0 (length V)).
Definition z4 (V : list (Z * Z)) (n : nat) : bool :=
  forallb (fun l => forallb (fun k => forallb (fun j => forallb (fun i => (i =? l) || (j =? l) || (k =? l) ||
    negb (zinc (nth i V (0, 0)%Z) (nth j V (0, 0)%Z) (nth k V (0, 0)%Z) (nth l V (0, 0)%Z) =? 0)%Z) (seq 0 j)) (seq 0 k)) (seq 0 (length V))) (seq 0 n).

Lemma forallb_seq f n i : forallb f (seq 0 n) = true -> i < n -> f i = true.
Proof. intros H L. rewrite forallb_forall in H. apply H. apply in_seq. lia. Qed.

Lemma zinc_swap a b c d : zinc a b c d = (- zinc b a c d)%Z.
Proof. unfold zinc, zturn. ring. Qed.
Lemma zinc_swap23 a b c d : zinc a b c d = (- zinc a c b d)%Z.
Proof. unfold zinc, zturn. ring. Qed.
(** Three distinct indices in increasing order *)
Lemma sort3 (Q : nat -> nat -> nat -> Prop) : (forall i j k, Q i j k -> Q j i k) -> (forall i j k, Q i j k -> Q i k j) ->
  forall i j k, i <> j -> j <> k -> i <> k -> (forall i j k, i < j -> j < k -> Q i j k) -> Q i j k.
Proof.
  intros S1 S2 i j k N1 N2 N3 H.
  destruct (lt_dec i j), (lt_dec j k), (lt_dec i k); try lia.
  - apply H; lia.
  - apply S2. apply H; lia.
  - apply S2. apply S1. apply H; lia.
  - apply S1. apply H; lia.
  - apply S1. apply S2. apply H; lia.
  - apply S1. apply S2. apply S1. apply H; lia.
Qed.

Lemma zgen V n : z3 V = true -> z4 V n = true -> n <= length V -> genPos (map rp V) n.
Proof.
  intros H3 H4 Hn. assert (LV : length (map rp V) = length V) by apply map_length. split.
  - intros i j k Hi Hj Hk N1 N2 N3. rewrite LV in *. rewrite !at_rp by auto. rewrite rp_turn. apply not_0_IZR.
    revert Hi Hj Hk. set (Q := fun i j k => i < length V -> j < length V -> k < length V ->
      zturn (nth i V (0, 0)%Z) (nth j V (0, 0)%Z) (nth k V (0, 0)%Z) <> 0%Z). change (Q i j k). apply sort3; auto; unfold Q; clear - H3.
    + intros i j k H A B C. specialize (H B A C). unfold zturn in *. lia.
    + intros i j k H A B C. specialize (H A C B). unfold zturn in *. lia.
    + intros i j k L1 L2 A B C. unfold z3 in H3. pose proof (@forallb_seq _ _ _ H3 C) as H3'; clear H3; rename H3' into H3; cbv beta in H3. pose proof (@forallb_seq _ _ _ H3 L2) as H3'; clear H3; rename H3' into H3; cbv beta in H3. pose proof (@forallb_seq _ _ _ H3 L1) as H3'; clear H3; rename H3' into H3; cbv beta in H3.
      apply Bool.negb_true_iff, Z.eqb_neq in H3. auto.
  - intros i j k l Hi Hj Hk Hl ND CO. rewrite LV in *.
    assert (N : forall x y z w, x < length V -> y < length V -> z < length V -> w < n -> w <> x -> w <> y -> w <> z -> x <> y -> y <> z -> x <> z ->
       zinc (nth x V (0, 0)%Z) (nth y V (0, 0)%Z) (nth z V (0, 0)%Z) (nth w V (0, 0)%Z) <> 0%Z).
    { intros x y z w Hx Hy Hz Hw A1 A2 A3 A4 A5 A6. revert Hx Hy Hz A1 A2 A3. set (Q := fun x y z => x < length V -> y < length V -> z < length V ->
        w <> x -> w <> y -> w <> z -> zinc (nth x V (0, 0)%Z) (nth y V (0, 0)%Z) (nth z V (0, 0)%Z) (nth w V (0, 0)%Z) <> 0%Z).
      change (Q x y z). apply sort3; auto; unfold Q; clear - H4 Hw.
      - intros i j k H A B C D E F. specialize (H B A C E D F). rewrite zinc_swap. lia.
      - intros i j k H A B C D E F. specialize (H A C B D F E). rewrite zinc_swap23. lia.
      - intros i j k L1 L2 A B C D E F. unfold z4 in H4. pose proof (@forallb_seq _ _ _ H4 Hw) as H4'; clear H4; rename H4' into H4; cbv beta in H4. pose proof (@forallb_seq _ _ _ H4 C) as H4'; clear H4; rename H4' into H4; cbv beta in H4. pose proof (@forallb_seq _ _ _ H4 L2) as H4'; clear H4; rename H4' into H4; cbv beta in H4.
        pose proof (@forallb_seq _ _ _ H4 L1) as H4'; clear H4; rename H4' into H4; cbv beta in H4. rewrite !Bool.orb_true_iff in H4. destruct H4 as [[[H4|H4]|H4]|H4]; [apply Nat.eqb_eq in H4; lia..|].
        apply Bool.negb_true_iff, Z.eqb_neq in H4. auto. }
    assert (M : forall x y z w, x < length V -> y < length V -> z < length V -> w < n -> w <> x -> w <> y -> w <> z -> x <> y -> y <> z -> x <> z ->
       ~ cocircular (at_ (map rp V) x) (at_ (map rp V) y) (at_ (map rp V) z) (at_ (map rp V) w)).
    { intros x y z w Hx Hy Hz Hw A1 A2 A3 A4 A5 A6 (o & E1 & E2 & E3). apply (N x y z w); auto. apply eq_IZR. rewrite <- rp_inc.
      rewrite !at_rp in E1, E2, E3 by lia.
      rewrite (@DelEnd.circ_power _ _ _ _ o (DelGeom.sqd (rp (nth x V (0, 0)%Z)) o)); auto.
      - replace (DelGeom.sqd (rp (nth w V (0, 0)%Z)) o) with (DelGeom.sqd (rp (nth x V (0, 0)%Z)) o); [ring|].
        unfold dsq, DelGeom.sqd in *. lra.
      - unfold dsq, DelGeom.sqd in *. lra.
      - unfold dsq, DelGeom.sqd in *. lra. }
    destruct CO as (o & E1 & E2 & E3).
    inversion ND as [|? ? X1 ND1]; subst. inversion ND1 as [|? ? X2 ND2]; subst. inversion ND2 as [|? ? X3 ND3]; subst. cbn in X1, X2, X3.
    repeat split.
    + destruct (le_lt_dec n i); auto. exfalso. apply (M j k l i); auto; try (intros ->; tauto). exists o. repeat split; congruence.
    + destruct (le_lt_dec n j); auto. exfalso. apply (M i k l j); auto; try (intros ->; tauto). exists o. repeat split; congruence.
    + destruct (le_lt_dec n k); auto. exfalso. apply (M i j l k); auto; try (intros ->; tauto). exists o. repeat split; congruence.
    + destruct (le_lt_dec n l); auto. exfalso. apply (M i j k l); auto; try (intros ->; tauto). exists o. repeat split; congruence.
Qed.

Lemma ex_ring : ring10 exCs exSn.
Proof.
  constructor.
  - intros i Hi. do 10 (destruct i as [|i]; [unfold exCs, exSn; cbn [nth zR fst snd]; lra|]). lia.
  - intros i j k L1 L2 L3. assert (E : turn (exCs i, exSn i) (exCs j, exSn j) (exCs k, exSn k) =
      (IZR (zturn (nth i zR (0, 0)%Z) (nth j zR (0, 0)%Z) (nth k zR (0, 0)%Z)) / 10000)%R).
    { rewrite <- rp_turn. unfold turn, rp, exCs, exSn. cbn [fst snd]. field. }
    rewrite E. assert (C : forallb (fun k => forallb (fun j => forallb (fun i =>
      (0 <? zturn (nth i zR (0, 0)%Z) (nth j zR (0, 0)%Z) (nth k zR (0, 0)%Z))%Z) (seq 0 j)) (seq 0 k)) (seq 0 10) = true) by (vm_compute; reflexivity).
    pose proof (@forallb_seq _ _ _ C L3) as C1. cbv beta in C1. pose proof (@forallb_seq _ _ _ C1 L2) as C2. cbv beta in C2.
    pose proof (@forallb_seq _ _ _ C2 L1) as C3. cbv beta in C3. apply Z.ltb_lt, IZR_lt in C3. lra.
  - intros i v Hi Hx Hy. do 10 (destruct i as [|i]; [unfold exCs, exSn, turn; cbn -[Rplus Rminus Rmult Rdiv IZR]; lra|]). lia.
Qed.

Lemma ex_ringOf : ringOf exCs exSn exP exB.
Proof.
  exists 0%R, 0%R, 6%R, 8%R. unfold exP, zP, rp, least, greatest. cbn [map fst snd].
  do 4 (split; [split; [first [exists (0, 0)%R; split; [cbn; auto|reflexivity]|exists (6, 8)%R; split; [cbn; auto|reflexivity]]
                       |intros p [<-|[<-|[]]]; cbn [fst snd]; lra]|]).
  replace ((6 - 0) * (6 - 0) + (8 - 0) * (8 - 0))%R with (10 * 10)%R by lra. rewrite sqrt_square by lra.
  unfold exB, zB, zR, exCs, exSn. cbn [map seq nth fst snd zR]. unfold rp. cbn [fst snd Z.add Z.pos_sub Pos.add].
  repeat f_equal; cbn; lra.
Qed.

Lemma ex_pre : delPre exCs exSn exP exB exKnn (fun _ l => l) [1; 0] 14.
Proof.
  constructor.
  - exact ex_ring.
  - cbn. lia.
  - exact ex_ringOf.
  - change (exP ++ exB) with (map rp zV). apply zgen; [vm_compute; reflexivity|vm_compute; reflexivity|cbn; lia].
  - cbn. apply perm_swap.
  - intros l v H _ _ _. exists (hd 0 l). split; [reflexivity|]. destruct l; [congruence|left; reflexivity].
  - intros. apply Permutation_refl.
  - cbn. lia.
Qed.

Lemma zdel V i j k : (i < length V /\ j < length V /\ k < length V) -> (0 < zturn (nth i V (0, 0)) (nth j V (0, 0)) (nth k V (0, 0)))%Z ->
  forallb (fun l => zinc (nth i V (0, 0)%Z) (nth j V (0, 0)%Z) (nth k V (0, 0)%Z) (nth l V (0, 0)%Z) <=? 0)%Z (seq 0 (length V)) = true ->
  delTri (map rp V) (i, j, k).
Proof.
  intros (Hi & Hj & Hk) C F. unfold delTri. assert (LV : length (map rp V) = length V) by apply map_length. rewrite LV.
  rewrite !at_rp by auto. rewrite rp_turn. apply IZR_lt in C. split; auto. split; auto. intros l Hl. rewrite at_rp by auto. intros D.
  apply inDisc_iff in D; [|rewrite <- rp_turn in C; exact C]. rewrite rp_inc in D. apply lt_IZR in D.
  pose proof (@forallb_seq _ _ _ F Hl) as Q. cbv beta in Q. apply Z.leb_le in Q. lia.
Qed.

(** Every schedule of this instance can be continued to a run, which returns 12
    triangles and lists the triangle 1 0 11 once. *)
Example C69_C71_case : forall sched, exists sched' V T,
  (forall k, exists e, sched' k = sched k ++ e) /\
  @delaunay RNum exCs exSn exKnn (fun _ l => l) sched' [1; 0] 14 exP = Ok (V, T) /\
  length T = 12 /\ once (1, 0, 11) T.
Proof.
  intros sched. destruct (C69_delaunay_safe ex_pre) as (A & X & _). destruct (X sched) as (sched' & [V T] & Hs & E).
  exists sched', V, T. split; auto. split; auto. specialize (A sched'). rewrite E in A. destruct A as (-> & L & _). split; [exact L|].
  apply (C71_delaunay_complete ex_pre sched' E). change (exP ++ exB) with (map rp zV).
  apply zdel; [cbn; lia|reflexivity|reflexivity].
Qed.
(** Its triangles have empty circles, and (3, 3) lies in one of them. *)
Example C70_C72_case : forall sched V T, @delaunay RNum exCs exSn exKnn (fun _ l => l) sched [1; 0] 14 exP = Ok (V, T) ->
  (exists t, In t T /\ inTri V t (3, 3)%R) /\ forall t, In t T -> delTri V t.
Proof.
  intros sched V T E. destruct (C70_delaunay_empty_circles ex_pre sched E) as (-> & D). split; auto.
  apply (C72_delaunay_cover ex_pre sched E). change (exP ++ exB) with (map rp zV). change (3, 3)%R with (rp (3, 3)%Z).
  clear E D. intros a Ha. change (length exP) with 2 in *. change (2 + 10) with 12 in Ha.
  assert (Hb : next 2 a < length zV) by (unfold next; change (length zV) with 12; destruct (Nat.eqb_spec (a + 1) (2 + 10)); lia).
  rewrite !at_rp by (auto; change (length zV) with 12; lia). rewrite rp_turn. apply IZR_lt.
  assert (Q : a = 2 \/ a = 3 \/ a = 4 \/ a = 5 \/ a = 6 \/ a = 7 \/ a = 8 \/ a = 9 \/ a = 10 \/ a = 11) by lia.
  repeat (destruct Q as [->|Q]; [reflexivity|]). subst a. reflexivity.
Qed.

(** *** Runs in doubles, with the directions as doubles *)
Definition cosT : list float := [0x1.0000000000000p+0; 0x1.9e3784311c5cfp-1; 0x1.3c6f3731d2331p-2; -0x1.3c6e8dd4be48ep-2; -0x1.9e374fdb05fddp-1; -0x1.fffffffff8420p-1; -0x1.9e37b88726352p-1; -0x1.3c6fe08edc8bap-2; 0x1.3c6de477a0cccp-2; 0x1.9e371b84e317cp-1]%float.
Definition sinT : list float := [0; 0x1.2cf221df292cfp-1; 0x1.e6f0d632c0afdp-1; 0x1.e6f0f1b687d52p-1; 0x1.2cf269e803e5ap-1; 0x1.6428a6aa44cd0p-19; -0x1.2cf1d9d6455a5p-1; -0x1.e6f0baaeead07p-1; -0x1.e6f10d3a40407p-1; -0x1.2cf2b1f0d5842p-1]%float.

Definition fKnn (vp : nat -> pt2 FNum) (l : list nat) (v : nat) : res nat := Ok (hd 0 l).
Definition fSched : nat -> list nat := fun _ => concat (repeat (seq 0 3) 60).
Definition fRun (ids : list nat) (fuel : nat) (P : list (pt2 FNum)) : res (list (pt2 FNum) * list (nat * nat * nat)) :=
  @delaunay FNum (fun i => nth i cosT 0%float) (fun i => nth i sinT 0%float) fKnn (fun _ l => l) fSched ids fuel P.
Definition tris (r : res (list (pt2 FNum) * list (nat * nat * nat))) : list (nat * nat * nat) :=
  match r with Ok (_, T) => T | _ => [] end.

Example C69_float_run :
  tris (fRun [0; 2; 1; 3] 20 [(0, 0); (0, 1); (1, 0); (1, 1)]%float) =
  [(3, 6, 7); (10, 0, 9); (5, 3, 4); (11, 2, 0); (2, 1, 0); (4, 3, 2); (6, 3, 5); (2, 3, 1); (7, 1, 3); (8, 1, 7);
   (9, 1, 8); (0, 1, 9); (11, 0, 10); (12, 2, 11); (13, 2, 12); (4, 2, 13)].
Proof. vm_compute. reflexivity. Qed.

(** No points: P[0] is read. *)
Theorem C69_empty_refuted : forall N cs sn knn worder sched ids fuel, @delaunay N cs sn knn worder sched ids fuel [] = UB.
Proof. reflexivity. Qed.
Print Assumptions C69_empty_refuted.

(** A repeated point: some triangle has the same point at two corners, so it is
    not counterclockwise. *)
Theorem C70_duplicates_refuted : exists ids P V T i j k, fRun ids 20 P = Ok (V, T) /\ In (i, j, k) T /\
  Permutation ids (seq 0 (length P)) /\ nth_error V i = nth_error V j /\ nth_error V i = Some (0, 0)%float.
Proof.
  exists [0; 2; 1], [(0, 0); (2, 1); (0, 0)]%float. destruct (fRun [0; 2; 1] 20 [(0, 0); (2, 1); (0, 0)]%float) as [[V T]| | |] eqn:E;
    [|vm_compute in E; discriminate..].
  exists V, T, 0, 2, 3. split; auto. vm_compute in E. injection E as <- <-.
  split; [cbn; tauto|]. split; [cbn; apply perm_skip, perm_swap|]. split; reflexivity.
Qed.
Print Assumptions C70_duplicates_refuted.

(** The result is not the triangulation of P alone: a flat triangle of P with an
    empty circumscribed circle is missing when the circle reaches the ring. *)
Theorem C71_own_triangulation_refuted :
  delTri (map rp [(0, 0); (1024, 0); (2048, 1)]%Z) (0, 1, 2) /\
  exists V T, fRun [0; 2; 1] 20 [(0, 0); (1024, 0); (2048, 1)]%float = Ok (V, T) /\
    forall t, rotOf (0, 1, 2) t -> ~ In t T.
Proof.
  split; [apply zdel; [cbn; lia|reflexivity|reflexivity]|].
  destruct (fRun [0; 2; 1] 20 [(0, 0); (1024, 0); (2048, 1)]%float) as [[V T]| | |] eqn:E; [|vm_compute in E; discriminate..].
  exists V, T. split; auto. vm_compute in E. injection E as <- <-. intros t H I. cbn in I.
  destruct H as [->|[->| ->]]; intuition discriminate.
Qed.
Print Assumptions C71_own_triangulation_refuted.
