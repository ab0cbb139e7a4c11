(** C73-C75: the Delaunay graph, the Gabriel graph and the beta skeleton. *)
From Coq Require Import Floats ZArith Reals Lra Psatz.
From Verif Require Import Base Num FloatNum KdModel DelModel DelSpec DelDrive PropDel SgModel SgList SgSpec SgGeom SgProofs SgSkel.
Set Implicit Arguments.
Local Open Scope nat_scope.

Definition ordered (E : list sedge) : Prop := StronglySorted (fun a b => ltE a b = true) E.

(** A sort, for the examples *)
Fixpoint insK X (key : X -> sedge) (x : X) (l : list X) : list X :=
  match l with [] => [x] | y :: l' => if ltE (key y) (key x) then y :: insK key x l' else x :: y :: l' end.
Definition sortK X (key : X -> sedge) (l : list X) : list X := fold_right (insK key) [] l.
Lemma insK_ok X (key : X -> sedge) x l : sortedK key l -> sortedK key (insK key x l) /\ Permutation (insK key x l) (x :: l).
Proof.
  intros H. induction H as [|y l H IH F]; cbn [insK]; [split; [repeat constructor|auto]|].
  destruct IH as (I1 & I2). destruct (ltE (key y) (key x)) eqn:E.
  - split; [|rewrite I2; constructor]. constructor; auto. apply (Permutation_Forall (Permutation_sym I2)). constructor; auto.
    apply ltE_not. apply ltE_spec in E. lia.
  - split; auto. constructor; [constructor; auto|]. constructor; auto. rewrite Forall_forall in *. intros z Hz. specialize (F z Hz). rewrite ltE_not in *. lia.
Qed.
Lemma sortK_ok X (key : X -> sedge) : sortOk key (sortK key).
Proof.
  intros l. induction l as [|a l (I1 & I2)]; [split; [auto|constructor]|]. cbn [sortK fold_right] in *.
  destruct (@insK_ok X key a _ I2) as (J1 & J2). split; auto. etransitivity; [exact J2|]. constructor. exact I1.
Qed.

(** C73: with a readable cell after the edges and a writable one after the
    flags, delaunayGraph returns, in increasing order and once each, the pairs
    u < v of input points joined by a triangle with an empty circle. *)
Theorem C73_delaunay_graph_partial : forall cs sn P B knn worder ids fuel, delPre cs sn P B knn worder ids fuel ->
  forall M sort p spare, length P <= M -> sortOk (fun e => e) sort -> 1 <= spare ->
  forall sched r, @delaunay RNum cs sn knn worder sched ids fuel P = Ok r ->
  exists E, @delaunayGraph RNum M sort (Some p) spare P (@delaunay RNum cs sn knn worder sched ids fuel P) = Ok E /\
    ordered E /\ forall u v, In (u, v) E <-> delEdge (P ++ B) (length P) u v.
Proof.
  intros cs sn P B knn worder ids fuel H M sort p spare HM HS HP sched [V T] Ed. destruct (del_main H) as (A & _). specialize (A sched). unfold delaunayGraph. rewrite Ed in *. cbn [bind]. destruct A as (-> & O).
  destruct (ring_facts (dp_dirs H) (dp_two H) (dp_ring H) (dp_gen H)) as (_ & LV & _).
  destruct (@dgraph_ok (P ++ B) (length P) T O LV M HM sort HS p spare HP) as (E & EE & S1 & S2).
  change (@length (pt2 RNum) P) with (@length pt P). exists E. auto.
Qed.
Print Assumptions C73_delaunay_graph_partial.

(** As written the scan reads edges[3t+1] and writes flag[3t] in arrays of 3t+1
    and 3t cells: undefined on every triangulation. *)
Theorem C73_delaunay_graph_refuted : forall N M sort past spare P V T, (forall l, Permutation (sort l) l) -> past = None \/ spare = 0 ->
  @delaunayGraph N M sort past spare P (Ok (V, T)) = UB.
Proof. intros N M sort past spare P V T SO H. cbn [delaunayGraph bind]. apply dgraph_ub; auto. Qed.
Print Assumptions C73_delaunay_graph_refuted.

(** C74: with readable cells after the edges and after the points, gabrielGraph
    returns, in increasing order and once each, the pairs u < v with no other
    input point in the closed disc with diameter u v. *)
Theorem C74_gabriel_graph_partial : forall cs sn P B knn worder ids fuel, delPre cs sn P B knn worder ids fuel ->
  forall M sort p pastP, length P + 10 <= M -> sortOk fst sort -> (forall x, length P <= x < length P + 10 -> pastP x <> None) ->
  forall sched r, @delaunay RNum cs sn knn worder sched ids fuel P = Ok r ->
  exists E, @gabrielGraph RNum M sort (Some p) pastP P (@delaunay RNum cs sn knn worder sched ids fuel P) = Ok E /\
    ordered E /\ forall u v, In (u, v) E <-> gabriel P u v.
Proof.
  intros cs sn P B knn worder ids fuel H M sort p pastP HM HS HP sched [V T] Ed. destruct (del_main H) as (A & _). specialize (A sched). unfold gabrielGraph. rewrite Ed in *. cbn [bind]. destruct A as (-> & O).
  destruct (@ggraph_ok cs sn (dp_dirs H) P B (dp_two H) (dp_ring H) (dp_gen H) T O M HM sort HS p pastP HP) as (E & EE & S1 & S2). exists E. auto.
Qed.
Print Assumptions C74_gabriel_graph_partial.

(** As written it reads past the end of the edges. *)
Theorem C74_gabriel_graph_refuted : forall M sort pastP P V T, (forall l, Permutation (sort l) l) ->
  @gabrielGraph RNum M sort None pastP P (Ok (V, T)) = UB.
Proof. intros M sort pastP P V T SO. cbn [gabrielGraph bind]. apply ggraph_ub; auto. Qed.
Print Assumptions C74_gabriel_graph_refuted.

(** C75: with the repairs of C73 and with the item array of the tree kept alive,
    for beta at least 1, betaSkeleton returns the pairs u < v with no other input
    point in the lune, the intersection of the two closed discs of radius
    beta/2 |u v|.  Below 1 the discs have radius |u v| / (2 beta) and centres u
    and v, and only Delaunay edges are considered. *)
Theorem C75_beta_skeleton_partial : forall cs sn P B knn worder ids fuel, delPre cs sn P B knn worder ids fuel ->
  forall M sort p spare workers threshold, length P <= M -> sortOk (fun e => e) sort -> 1 <= spare -> 0 < workers ->
  forall beta sched r, (0 < beta)%R -> @delaunay RNum cs sn knn worder sched ids fuel P = Ok r ->
  exists E, @betaSkeleton RNum M sort (Some p) spare (fun x => x) true workers threshold beta P (@delaunay RNum cs sn knn worder sched ids fuel P) = Ok E /\
    ordered E /\
      ((1 <= beta)%R -> forall u v, In (u, v) E <-> skeletonEdge beta P u v) /\
      ((beta < 1)%R -> forall u v, In (u, v) E <-> delEdge (P ++ B) (length P) u v /\
         forall w, w < length P -> w <> u -> w <> v ->
           ~ ((sqrt (dsq (at_ P u) (at_ P w)) <= sqrt (dsq (at_ P u) (at_ P v)) / (2 * beta))%R /\
              (sqrt (dsq (at_ P v) (at_ P w)) <= sqrt (dsq (at_ P u) (at_ P v)) / (2 * beta))%R)).
Proof.
  intros cs sn P B knn worder ids fuel H M sort p spare workers threshold HM HS HP HW beta sched r HB Ed.
  destruct (C73_delaunay_graph_partial H p HM HS HP sched Ed) as (E & EG & SE & GE). unfold betaSkeleton.
  assert (B0 : (0 <= beta)%R) by lra. assert (LB : nlt RNum beta (nzero RNum) = false) by (apply Rltb_false; exact B0). rewrite LB.
  rewrite EG. cbn [bind].
  assert (NE : P <> []) by (intros ->; pose proof (dp_two H); cbn in *; lia).
  destruct (@skeleton_ok P workers threshold HW NE beta E B0 SE) as (E' & EE & S1 & S2); [intros u v I; apply GE in I; destruct I; lia|].
  exists E'. split; [exact EE|]. split; auto. split.
  - intros H1 u v. rewrite S2, GE. unfold keepEdge. destruct (Rlt_dec beta 1) as [Q|_]; [lra|]. split.
    + intros ((Huv & _) & K). split; [exact Huv|]. exact K.
    + intros (Huv & K). split; [split; [exact Huv|]|].
      * destruct (ring_facts (dp_dirs H) (dp_two H) (dp_ring H) (dp_gen H)) as (_ & _ & AtP & _).
        apply (gabriel_tri (dp_dirs H) (dp_two H) (dp_ring H) (dp_gen H)); [lia|lia|lia|]. intros w Hw N1 N2. rewrite !AtP by lia.
        destruct (Rlt_dec 0 (dotv (at_ P u) (at_ P v) (at_ P w))) as [|Q]; auto. exfalso. apply (K w Hw N1 N2). apply disc_lune; auto. lra.
      * exact K.
  - intros H1 u v. rewrite S2, GE. unfold keepEdge. destruct (Rlt_dec beta 1) as [_|Q]; [|lra]. reflexivity.
Qed.
Print Assumptions C75_beta_skeleton_partial.

(** A negative beta is an error before anything else happens. *)
Theorem C75_negative_throws : forall N M sort past spare narrow kept workers threshold beta P dr,
  nlt N beta (nzero N) = true -> @betaSkeleton N M sort past spare narrow kept workers threshold beta P dr = Throw.
Proof. intros N M sort past spare narrow kept workers threshold beta P dr H. unfold betaSkeleton. rewrite H. auto. Qed.
Print Assumptions C75_negative_throws.

(** As written the array of items that the tree points into is freed before the
    searches: undefined as soon as there is an edge. *)
Theorem C75_freed_items_refuted : forall P workers threshold beta E, 0 < workers -> P <> [] -> (1 <= beta)%R -> E <> [] ->
  (forall u v, In (u, v) E -> u < length P /\ v < length P) ->
  @skeleton RNum P (fun x => x) false workers threshold beta E = UB.
Proof. intros P workers threshold beta E HW NE HB NEE RE. apply skeleton_ub; auto. Qed.
Print Assumptions C75_freed_items_refuted.

(** Below 1 the region of the definition is the lens of the discs of radius
    |u v| / (2 beta) that have u and v on their boundary.  The code drops an edge
    whose lens is empty. *)
Definition inLens (beta : R) (a b x : pt) : Prop :=
  forall c, let r := (sqrt (dsq a b) / (2 * beta))%R in
    sqrt (dsq c a) = r -> sqrt (dsq c b) = r -> (sqrt (dsq c x) <= r)%R.
Definition lensP : list pt := [(0, 0); (2, 0); (1, 1)]%R.
Theorem C75_small_beta_refuted : exists P u v, u < v < length P /\
  (forall w, w < length P -> w <> u -> w <> v -> ~ inLens (1 / 2) (at_ P u) (at_ P v) (at_ P w)) /\
  exists E', @skeleton RNum P (fun x => x) true 1 2000 (1 / 2)%R [(u, v)] = Ok E' /\ ~ In (u, v) E'.
Proof.
  exists lensP, 0, 1. split; [cbn; lia|]. assert (D : sqrt (dsq (0, 0)%R (2, 0)%R) = 2%R).
  { unfold dsq. cbn [fst snd]. replace ((0 - 2) * (0 - 2) + (0 - 0) * (0 - 0))%R with (2 * 2)%R by ring. apply sqrt_square. lra. }
  split.
  - intros w Hw N1 N2 L. assert (w = 2) as -> by (cbn in Hw; lia). unfold at_, lensP in L. cbn [nth] in L. unfold inLens in L. rewrite D in L.
    replace (2 / (2 * (1 / 2)))%R with 2%R in L by field. cbv zeta in L. specialize (L (1, - sqrt 3)%R).
    assert (S3 : (sqrt 3 * sqrt 3 = 3)%R) by (apply sqrt_sqrt; lra). assert (P3 : (0 < sqrt 3)%R) by (apply sqrt_lt_R0; lra).
    assert (E1 : sqrt (dsq (1, - sqrt 3)%R (0, 0)%R) = 2%R).
    { unfold dsq. cbn [fst snd]. replace ((1 - 0) * (1 - 0) + (- sqrt 3 - 0) * (- sqrt 3 - 0))%R with (2 * 2)%R by (ring_simplify; rewrite <- Rsqr_pow2; unfold Rsqr; lra). apply sqrt_square. lra. }
    assert (E2 : sqrt (dsq (1, - sqrt 3)%R (2, 0)%R) = 2%R).
    { unfold dsq. cbn [fst snd]. replace ((1 - 2) * (1 - 2) + (- sqrt 3 - 0) * (- sqrt 3 - 0))%R with (2 * 2)%R by (ring_simplify; rewrite <- Rsqr_pow2; unfold Rsqr; lra). apply sqrt_square. lra. }
    specialize (L E1 E2).
    assert (E3 : (2 < sqrt (dsq (1, - sqrt 3) (1, 1)))%R); [|lra].
    rewrite <- (sqrt_square 2) by lra. apply sqrt_lt_1_alt. split; [lra|]. unfold dsq. cbn [fst snd].
    replace ((1 - 1) * (1 - 1) + (- sqrt 3 - 1) * (- sqrt 3 - 1))%R with (sqrt 3 * sqrt 3 + 2 * sqrt 3 + 1)%R by ring. lra.
  - destruct (@skeleton_ok lensP 1 2000 ltac:(lia) ltac:(discriminate) (1 / 2)%R [(0, 1)]) as (E' & EE & _ & S2); [lra|repeat constructor|intros u v [[= <- <-]|[]]; cbn; lia|].
    exists E'. split; auto. rewrite S2. intros (_ & K). unfold keepEdge in K. destruct (Rlt_dec (1 / 2) 1) as [_|Q]; [|lra].
    assert (K2 := K 2 ltac:(cbn; lia) ltac:(lia) ltac:(lia)). apply K2. unfold at_, lensP. cbn [nth]. rewrite D.
    assert (S2' : (sqrt (dsq (0, 0) (1, 1)) <= 2)%R).
    { apply Rle_trans with (sqrt (2 * 2)); [apply sqrt_le_1_alt; unfold dsq; cbn [fst snd]; lra|right; apply sqrt_square; lra]. }
    assert (S3' : (sqrt (dsq (2, 0) (1, 1)) <= 2)%R).
    { apply Rle_trans with (sqrt (2 * 2)); [apply sqrt_le_1_alt; unfold dsq; cbn [fst snd]; lra|right; apply sqrt_square; lra]. }
    split; lra.
Qed.
Print Assumptions C75_small_beta_refuted.

(** *** Concrete cases.  The points of [ex_pre]: the only edge is 0 1. *)
Example C73_C75_case : forall sched, exists sched',
  (forall k, exists e, sched' k = sched k ++ e) /\
  let dr := @delaunay RNum exCs exSn exKnn (fun _ l => l) sched' [1; 0] 14 exP in
  @delaunayGraph RNum 100 (sortK (fun e => e)) (Some (7, 7)) 1 exP dr = Ok [(0, 1)] /\
  @gabrielGraph RNum 100 (sortK fst) (Some ((7, 7), true)) (fun _ => Some (0, 0)%R) exP dr = Ok [(0, 1)] /\
  @betaSkeleton RNum 100 (sortK (fun e => e)) (Some (7, 7)) 1 (fun x => x) true 4 2000 2%R exP dr = Ok [(0, 1)].
Proof.
  intros sched. destruct (C69_delaunay_safe ex_pre) as (_ & X & _). destruct (X sched) as (sched' & r & Hs & E).
  exists sched'. split; auto. cbv zeta.
  assert (L2 : length exP = 2) by reflexivity.
  assert (Only : forall E0, ordered E0 -> (forall u v, In (u, v) E0 -> u < v < 2) -> In (0, 1) E0 -> E0 = [(0, 1)]).
  { intros E0 O R I. destruct E0 as [|[a b] E0]; [destruct I|]. pose proof (R a b (or_introl eq_refl)). assert (a = 0 /\ b = 1) as (-> & ->) by lia. f_equal.
    destruct E0 as [|[c d] E0]; auto. exfalso. pose proof (R c d (or_intror (or_introl eq_refl))). assert (c = 0 /\ d = 1) as (-> & ->) by lia.
    inversion O as [|? ? _ F]; subst. inversion F as [|? ? Q]; subst. discriminate. }
  destruct (C73_delaunay_graph_partial ex_pre (7, 7) (M := 100) (sort := sortK (fun e => e)) ltac:(rewrite L2; lia) (@sortK_ok _ _) (spare := 1) ltac:(lia) sched' E) as (E1 & G1 & O1 & S1).
  destruct (@C74_gabriel_graph_partial _ _ _ _ _ _ _ _ ex_pre 100 (sortK fst) ((7, 7), true) (fun _ => Some (0, 0)%R) ltac:(rewrite L2; lia) (@sortK_ok _ _) ltac:(discriminate) sched' _ E) as (E2 & G2 & O2 & S2).
  destruct (C75_beta_skeleton_partial ex_pre (7, 7) (M := 100) (sort := sortK (fun e => e)) 2000 ltac:(rewrite L2; lia) (@sortK_ok _ _) (spare := 1) ltac:(lia) (workers := 4) ltac:(lia) sched' (beta := 2%R) ltac:(lra) E)
    as (E3 & G3 & O3 & S3 & _). specialize (S3 ltac:(lra)).
  split; [|split].
  - refine (eq_trans G1 _). f_equal. apply Only; auto; [intros u v I; apply S1 in I; apply I|]. apply S1. split; [cbn; lia|]. exists 9.
    change (exP ++ exB) with (map rp zV). apply zdel; [cbn; lia|reflexivity|reflexivity].
  - refine (eq_trans G2 _). f_equal. apply Only; auto; [intros u v I; apply S2 in I; apply I|]. apply S2. split; [cbn; lia|]. rewrite L2. intros w Hw N1 N3. lia.
  - refine (eq_trans G3 _). f_equal. apply Only; auto; [intros u v I; apply S3 in I; apply I|]. apply S3. split; [cbn; lia|]. rewrite L2. intros w Hw N1 N3. lia.
Qed.

(** In doubles: five points *)
Definition fP5 : list (pt2 FNum) := [(0, 0); (4, 0); (1, 2); (5, 3); (2, 6)]%float.
Definition fD5 := fRun [0; 2; 1; 3; 4] 30 fP5.
Example C73_float_run : @delaunayGraph FNum 100 (sortK (fun e => e)) (Some (7, 7)) 1 fP5 fD5 =
  Ok [(0, 1); (0, 2); (0, 4); (1, 2); (1, 3); (2, 3); (2, 4); (3, 4)].
Proof. vm_compute. reflexivity. Qed.
Example C74_float_run : @gabrielGraph FNum 100 (sortK fst) (Some ((7, 7), true)) (fun _ => Some (0, 0)%float) fP5 fD5 =
  Ok [(0, 1); (0, 2); (1, 2); (1, 3); (2, 3); (2, 4); (3, 4)].
Proof. vm_compute. reflexivity. Qed.
Example C75_float_run : @betaSkeleton FNum 100 (sortK (fun e => e)) (Some (7, 7)) 1 (fun x => x) true 4 2000 2%float fP5 fD5 =
  Ok [(0, 2); (1, 2); (1, 3); (2, 4)].
Proof. vm_compute. reflexivity. Qed.
