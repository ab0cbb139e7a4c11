(** C85: the hull in space by the pseudo hull. *)
From Coq Require Import Floats Reals Lra Lia List Bool Permutation.
From Verif Require Import Base Num FloatNum KdModel KdSpec Sched H3Model H3Geom H3Surf H3Heap H3Loop H3Init H3Init2 H3Spec H3Final H3Inst H3ParModel H3ParHeap H3ParRound H3ParMain H3Sub H3PseudoModel H3Pseudo PropHull3d PropHull3dPar PropHull3dSub.
Set Implicit Arguments.
Open Scope R_scope.

(** C85: for distinct points in general position the pseudo hull ends within as
    many levels as there are points and keeps every extreme point, so the result
    is the hull of all points whenever the parallel quickhull that follows has
    at least the 64 facets it needs. *)
Theorem C85_pseudo_partial : forall eps mm mx choose addr qord shuf workers fuel P, minmax3_ok mm -> maxel3_ok mx ->
  choose_ok choose -> addr_ok addr -> order_ok qord shuf -> (0 < workers)%nat -> 0 <= eps -> general P (4 * eps) ->
  fourOf P -> NoDup P -> (length P < fuel)%nat ->
  let run := @pseudo RNum eps mm mx choose addr qord shuf fuel workers P in
  (exists R, @pseudoHull RNum eps mm mx fuel P = Ok R /\ incl R P /\ forall v, Extreme P v -> In v R) /\
  forall L, hull_facets P L ->
    ((64 <= length L)%nat -> exists L', run = Ok L' /\ hull_facets P L') /\ ((length L < 64)%nat -> run = UB).
Proof.
  intros eps mm mx choose addr qord shuf w fuel P Hm Hx Hc Ha Ho Hw E0 G F4 ND Lf run.
  assert (M : margin P (4 * eps)) by (apply general_margin; auto).
  destruct (@pseudo_ok eps E0 mm mx Hm Hx P M ND (fourOf_pts F4) fuel Lf) as (R & ER & IR & HR).
  split; [exists R; auto|]. intros L HL.
  assert (Er : run = @computePar RNum eps choose addr qord shuf mm mx w R).
  { unfold run, pseudo. etransitivity; [apply (f_equal (fun x => bind x _)); exact ER|]. reflexivity. }
  assert (F4P : four_pts P) by (apply fourOf_pts; auto).
  assert (S4 : four_pts R) by (apply (@sub_four P R (4 * eps)); auto; lra).
  assert (SH : forall L, hull_facets P L <-> hull_facets R L) by (intros L1; apply (@sub_hull P R (4 * eps)); auto; lra).
  assert (GR : general R (4 * eps)) by (apply margin_general; eapply margin_incl; eauto).
  destruct (@C79_parallel_partial eps mm mx choose addr qord shuf w R L) as (A & B); auto; [apply pts_four; auto|apply SH; auto|]. rewrite Er. split; auto.
  intros L64. destruct (A L64) as (L' & E' & H'). exists L'. split; auto. apply SH; auto.
Qed.
Print Assumptions C85_pseudo_partial.

(** Repeated points lose corners.  A facet that sees four copies of its own corner
    finds none of them above it, and [furthest] returns the point it starts with,
    whose coordinates are the largest double.  The same points once each keep all six
    corners. *)
Definition twice : list (v3 (nT FNum)) := six ++ V 0.25 0.25 0.25 :: repeat (V 0 0 4) 3.
Theorem C85_refuted :
  forallb (fun v => existsb (cornerF v) (brute3 FNum epsF twice)) six = true /\
  @pseudoHull FNum epsF minmaxI3 argmaxI 11 twice = Ok [V 3 0 (-1); V 2 0.125 2; V 0.5 (-2) 1.25].
Proof. split; vm_compute; reflexivity. Qed.
Print Assumptions C85_refuted.

(** *** Examples *)
Example pseudo_six : match @pseudoHull FNum epsF minmaxI3 argmaxI 8 (six ++ [V 0.25 0.25 0.25]) with
  | Ok Q => length Q = 6%nat /\ forallb (fun p => existsb (same3 p) Q) six = true
  | _ => False end.
Proof. vm_compute. split; reflexivity. Qed.
(** on the curve every point is kept and the hull is found *)
Example pseudo_curve : forall mm mx choose addr qord shuf w n, minmax3_ok mm -> maxel3_ok mx ->
  choose_ok choose -> addr_ok addr -> order_ok qord shuf -> (0 < w)%nat -> (1000 <= n)%nat ->
  exists L, @pseudo RNum (/ 100000) mm mx choose addr qord shuf (S n) w (moment n) = Ok L /\ hull_facets (moment n) L.
Proof.
  intros mm mx choose addr qord shuf w n Hm Hx Hc Ha Ho Hw Hn.
  assert (LP : length (moment n) = n) by (unfold moment; rewrite map_length, seq_length; auto).
  assert (E0 : 0 <= / 100000) by lra. assert (G : general (moment n) (4 * / 100000)) by (apply margin_general, moment_margin; lra).
  assert (F4 : fourOf (moment n)) by (apply moment_four; lia).
  destruct (@C85_pseudo_partial (/ 100000) mm mx choose addr qord shuf w (S n) (moment n)) as (_ & H); auto; [apply moment_NoDup|rewrite LP; lia|].
  destruct (@C61_quickhull (/ 100000) mm mx (moment n) Hm Hx E0 G F4) as [(o & S1 & L0 & _ & _ & H0) _].
  apply (H L0 H0). pose proof (@moment_facets n L0 ltac:(lia) H0). lia.
Qed.
