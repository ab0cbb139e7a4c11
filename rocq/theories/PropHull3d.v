(** C44, C61-C66: the serial hulls in space.  The facets of a hull and the
    extreme points are defined in H3Spec.v. *)
From Coq Require Import Reals Lra List Bool Permutation Floats.
From Verif Require Import Base Num FloatNum H3Model H3Geom H3Heap H3Loop H3Init H3Init2 H3Spec H3Final H3Brute H3Inst.
Set Implicit Arguments.
Open Scope R_scope.

(** no four distinct points are closer than [e] to being coplanar *)
Definition general (P : list (v3 R)) (e : R) : Prop := forall a b c d, In a P -> In b P -> In c P -> In d P ->
  NoDup [a; b; c; d] -> e < Rabs (svol a b c d).
Definition fourOf (P : list (v3 R)) : Prop := exists a b c d, incl [a; b; c; d] P /\ NoDup [a; b; c; d].

Lemma NoDup4 (a b c d : v3 R) : NoDup [a; b; c; d] <-> a <> b /\ a <> c /\ a <> d /\ b <> c /\ b <> d /\ c <> d.
Proof.
  split.
  - intros H. inversion H as [|? ? H1 H']; subst. inversion H' as [|? ? H2 H'']; subst. inversion H'' as [|? ? H3 H''']; subst.
    cbn in *. intuition congruence.
  - intros (A & B & C & D & F & G). repeat constructor; cbn; intuition congruence.
Qed.
Lemma general_margin P e : general P e <-> margin P e.
Proof.
  split.
  - intros G a b c d A B C D N1 N2 N3 N4 N5 N6. apply G; auto. apply NoDup4. repeat (split; [assumption|]). assumption.
  - intros G a b c d A B C D N. apply NoDup4 in N. destruct N as (N1 & N2 & N3 & N4 & N5 & N6). apply G; assumption.
Qed.
Lemma fourOf_pts P : fourOf P -> four_pts P.
Proof.
  intros (a & b & c & d & I & N). apply NoDup4 in N. exists a, b, c, d. unfold dist4, incl in *. cbn [In] in I. auto 12.
Qed.

(** C62: the brute-force hull returns the facets of the hull, each once. *)
Theorem C62_brute_force : forall eps P, 0 <= eps -> general P eps -> NoDup P -> hull_facets P (@brute3 RNum eps P).
Proof. intros eps P E G N. apply brute_ok; auto. apply general_margin; auto. Qed.
Print Assumptions C62_brute_force.

(** A repeated point yields a degenerate facet. *)
Theorem C62_duplicates_refuted : ~ (forall eps P, 0 <= eps -> general P eps -> hull_facets P (@brute3 RNum eps P)).
Proof.
  intros H. set (p := V3 0 0 0). set (q := V3 1 0 0).
  destruct (@brute_degenerate p q [] 0 (Rle_refl 0)) as (t & Ht & Nt). apply Nt.
  assert (G : general [p; p; q] 0).
  { intros a b c d A B C D N. apply NoDup4 in N. exfalso. destruct N as (N1 & N2 & N3 & N4 & N5 & N6). cbn in A, B, C, D.
    assert (X : forall z, p = z \/ p = z \/ q = z \/ False -> z = p \/ z = q) by (intros z [<-|[<-|[<-|[]]]]; auto).
    apply X in A, B, C, D. destruct A, B, C; subst; congruence. }
  apply (H 0 [p; p; q]); [lra|exact G|exact Ht].
Qed.
Print Assumptions C62_duplicates_refuted.

(** C61: the serial quickhull terminates without undefined behaviour and
    returns the facets of the hull, each once; below eleven points [compute] is
    the brute force and needs the points to be distinct. *)
Theorem C61_quickhull : forall eps mm mx P, minmax3_ok mm -> maxel3_ok mx -> 0 <= eps -> general P (4 * eps) -> fourOf P ->
  (exists o S L, @quickHull3 RNum eps mm mx P = Ok (o, S) /\ @getFacet RNum o S = Ok L /\ hull_facets P L) /\
  ((10 < length P)%nat \/ NoDup P -> exists L, @compute RNum eps mm mx P = Ok L /\ hull_facets P L).
Proof.
  intros eps mm mx P Hm Hx E G F. apply general_margin in G. apply fourOf_pts in F. split.
  - apply quick_facets; auto.
  - intros D. apply compute_facets; auto. intros L. destruct D as [D|D]; [apply Nat.nle_gt in D; contradiction|exact D].
Qed.
Print Assumptions C61_quickhull.

(** C63: the vertices returned are the extreme points. *)
Theorem C63_vertices : forall eps mm mx srt P, minmax3_ok mm -> maxel3_ok mx -> (forall lt l, Permutation l (srt lt l)) ->
  0 <= eps -> general P (4 * eps) -> fourOf P ->
  exists L, @computeVertex RNum eps mm mx srt P = Ok L /\ forall v, In v L <-> Extreme P v.
Proof.
  intros eps mm mx srt P Hm Hx Hs E G F. apply general_margin in G. apply fourOf_pts in F. apply compute_vertices; auto.
Qed.
Print Assumptions C63_vertices.

(** C64: each vertex is returned once when no two points have the same sum of
    coordinates, the key that getVertex sorts by. *)
Theorem C64_once_partial : forall eps mm mx srt P, minmax3_ok mm -> maxel3_ok mx -> sort3_ok srt -> (forall lt l, Permutation l (srt lt l)) ->
  0 <= eps -> general P (4 * eps) -> fourOf P ->
  (forall a b, In a P -> In b P -> vx a + vy a + vz a = vx b + vy b + vz b -> a = b) ->
  exists L, @computeVertex RNum eps mm mx srt P = Ok L /\ NoDup L.
Proof.
  intros eps mm mx srt P Hm Hx Hs Hp E G F I. apply general_margin in G. apply fourOf_pts in F.
  destruct (@vertices_once P eps mm mx Hm Hx E G srt Hs Hp F I) as (L & EL & ND & _). eauto.
Qed.
Print Assumptions C64_once_partial.

(** C66: the facets are listed counterclockwise seen from outside when the
    coordinate origin is strictly inside the hull. *)
Theorem C66_outward_partial : forall eps mm mx P L, minmax3_ok mm -> maxel3_ok mx -> 0 <= eps -> general P (4 * eps) -> fourOf P ->
  ((10 < length P)%nat \/ NoDup P) ->
  (forall x y z, HullFacet P (x, y, z) -> (forall q, In q P -> ~ isCorner (x, y, z) q -> svol x y z q < 0) -> svol x y z (V3 0 0 0) < 0) ->
  @compute RNum eps mm mx P = Ok L -> forall x y z, In (x, y, z) L -> forall q, In q P -> ~ isCorner (x, y, z) q -> svol x y z q < 0.
Proof.
  intros eps mm mx P L Hm Hx E G F D OI EL x y z Ht. destruct (@C61_quickhull eps mm mx P Hm Hx E G F) as [_ H].
  destruct (H D) as (L' & EL' & HL). rewrite EL in EL'. injection EL' as <-. pose proof (proj1 HL _ Ht) as Hf.
  assert (Eo : @outFacet RNum (x, y, z) = (x, y, z)).
  { destruct (@compute_out P eps mm mx L (x, y, z) EL Ht) as ([[a b] c] & Eu). rewrite Eu.
    pose proof (out_det (a, b, c)) as O. rewrite <- Eu in O |- *. unfold outFacet. rewrite det3_R. cbn [nlt RNum nzero].
    destruct (Rltb 0 (svol x y z O3)) eqn:B; auto. apply Rltb_true in B. cbn [ht] in O. unfold O3 in B. lra. }
  exact (eq_ind _ (fun t => outward P t) (@outFacet_dir P (x, y, z) OI Hf) _ Eo).
Qed.
Print Assumptions C66_outward_partial.

(** C44: in exact arithmetic and general position the brute-force hull of the
    translated points is the translated hull. *)
Definition shift (o p : v3 R) : v3 R := V3 (vx p + vx o) (vy p + vy o) (vz p + vz o).
Definition shiftF (o : v3 R) (t : v3 R * v3 R * v3 R) : v3 R * v3 R * v3 R := let '(a, b, c) := t in (shift o a, shift o b, shift o c).
Theorem C44_translation_partial : forall eps P o, 0 <= eps -> general P eps -> NoDup P ->
  (forall t, In t (@brute3 RNum eps (map (shift o) P)) -> exists u, In u (@brute3 RNum eps P) /\ sameFacet t (shiftF o u)) /\
  (forall u, In u (@brute3 RNum eps P) -> exists t, In t (@brute3 RNum eps (map (shift o) P)) /\ sameFacet t (shiftF o u)).
Proof.
  intros eps P o E G N. set (Q := map (shift o) P).
  assert (EP : P = map (fun p => sub3 RNum p o) Q).
  { unfold Q. rewrite map_map. rewrite <- (map_id P) at 1. apply map_ext. intros p. symmetry. apply (sub_add p o). }
  assert (GQ : general Q eps).
  { intros a b c d A B C D ND. unfold Q in *. apply in_map_iff in A, B, C, D.
    destruct A as (a' & <- & A), B as (b' & <- & B), C as (c' & <- & C), D as (d' & <- & D).
    rewrite (svol_add a' b' c' d' o : svol (shift o a') (shift o b') (shift o c') (shift o d') = _). apply G; auto.
    apply NoDup4 in ND. apply NoDup4. intuition congruence. }
  assert (NQ : NoDup Q).
  { unfold Q. apply FinFun.Injective_map_NoDup; auto. intros a b Eab. rewrite <- (sub_add a o), <- (sub_add b o).
    change (sub3 RNum (shift o a) o = sub3 RNum (shift o b) o). now rewrite Eab. }
  pose proof (@C62_brute_force eps P E G N) as (P1 & P2 & _). pose proof (@C62_brute_force eps Q E GQ NQ) as (Q1 & Q2 & _).
  assert (Hs : forall t, HullFacet P t <-> HullFacet Q (shiftF o t)).
  { intros t. rewrite EP. exact (@HullFacet_shift Q o t). }
  split.
  - intros t Ht. apply Q1 in Ht. destruct t as [[a b] c].
    assert (Et : (a, b, c) = shiftF o (sub3 RNum a o, sub3 RNum b o, sub3 RNum c o)).
    { unfold shiftF. f_equal; [f_equal|]; symmetry; apply (add_sub _ o). }
    rewrite Et in Ht. apply Hs in Ht. destruct (P2 _ Ht) as (u & Hu & Su). exists u. split; auto. rewrite Et.
    intros q. destruct u as [[x y] z]. cbn [shiftF isCorner]. cbn [sameFacet] in Su. pose proof (Su (sub3 RNum q o)) as K. cbn [isCorner] in K.
    assert (Eq : forall w, q = shift o w <-> sub3 RNum q o = w).
    { intros w. split; [intros ->; apply (sub_add w o)|intros <-; symmetry; apply (add_sub q o)]. }
    rewrite !Eq. symmetry. exact K.
  - intros u Hu. apply P1 in Hu. apply Hs in Hu. destruct (Q2 _ Hu) as (t & Ht & St). exists t. split; auto.
Qed.
Print Assumptions C44_translation_partial.

(** *** Doubles *)
Definition V (a b c : float) : v3 (nT FNum) := @V3 float a b c.
Definition epsF : float := 0x1.4f8b588e368f1p-17%float.
(** a square pyramid; the square at height [c] *)
Definition pyramid (c : float) : list (v3 (nT FNum)) := [V 0 0 c; V 1 0 c; V 0 1 c; V 1 1 c; V 0 0 (c + 1)].
(** around the origin the base is covered by triangles; one up it is missing *)
Theorem C44_refuted : (length (brute3 FNum epsF (pyramid (-0.5))) = 8 /\ length (brute3 FNum epsF (pyramid 1)) = 4)%nat.
Proof. split; vm_compute; reflexivity. Qed.
Print Assumptions C44_refuted.

Definition same3 (p q : v3 (nT FNum)) : bool := (vx p =? vx q)%float && (vy p =? vy q)%float && (vz p =? vz q)%float.
(** every vertex of the unit tetrahedron but one is returned more than once *)
Definition tetra : list (v3 (nT FNum)) := [V 1 0 0; V 0 1 0; V 0 0 1; V 0 0 0].
Theorem C64_refuted : match computeVertex FNum epsF minmaxI3 argmaxI sortI tetra with
  | Ok L => forallb (fun v => (1 <? length (filter (same3 v) L))%nat) [V 1 0 0; V 0 1 0; V 0 0 1] = true
  | _ => False end.
Proof. vm_compute. reflexivity. Qed.
Print Assumptions C64_refuted.

(** C65: the hull vertices are input points: in exact arithmetic. *)
Theorem C65_input_points_partial : forall eps mm mx srt P, minmax3_ok mm -> maxel3_ok mx -> (forall lt l, Permutation l (srt lt l)) ->
  0 <= eps -> general P (4 * eps) -> fourOf P ->
  exists L, @computeVertex RNum eps mm mx srt P = Ok L /\ incl L P.
Proof.
  intros eps mm mx srt P Hm Hx Hs E G F. destruct (@C63_vertices eps mm mx srt P Hm Hx Hs E G F) as (L & EL & HL).
  exists L. split; auto. intros v Hv. exact (proj1 (proj1 (HL v) Hv)).
Qed.
Print Assumptions C65_input_points_partial.
(** In doubles the vertices come back rounded: the points are moved by the
    centre of the first simplex and back. *)
Definition tetra2 : list (v3 (nT FNum)) :=
  [V 0x1.999999999999ap-4 0x1.999999999999ap-3 0x1.3333333333333p-2; V 0x1.199999999999ap0 0x1.6666666666666p-1 0x1.999999999999ap-3;
   V 0x1.999999999999ap-2 0x1.e666666666666p0 0x1.3333333333333p-2; V 0x1.3333333333333p-2 0x1.999999999999ap-2 0x1.b333333333333p0].
Theorem C65_refuted : match computeVertex FNum epsF minmaxI3 argmaxI sortI tetra2 with
  | Ok L => forallb (fun v => existsb (same3 v) tetra2) L = false
  | _ => False end.
Proof. vm_compute. reflexivity. Qed.
Print Assumptions C65_refuted.

(** C66: away from the origin some facets are listed the other way round. *)
Definition tetra3 : list (v3 (nT FNum)) := [V 10 10 10; V 11 10 10; V 10 11 10; V 10 10 11].
Theorem C66_refuted : exists t u, compute FNum epsF minmaxI3 argmaxI tetra3 = Ok (brute3 FNum epsF tetra3) /\
  In t (brute3 FNum epsF tetra3) /\ In u (brute3 FNum epsF tetra3) /\
  existsb (fun q => (@vol FNum t q <? 0)%float) tetra3 = true /\ existsb (fun q => (0 <? @vol FNum u q)%float) tetra3 = true.
Proof.
  exists (V 11 10 10, V 10 10 11, V 10 11 10), (V 10 10 10, V 10 11 10, V 11 10 10).
  split; [reflexivity|]. split; [vm_compute; auto 8|]. split; [vm_compute; auto 8|]. split; vm_compute; reflexivity.
Qed.
Print Assumptions C66_refuted.

(** *** Examples *)
(** the hypotheses of C61-C66 hold for five points *)
Definition five : list (v3 R) := [V3 4 0 0; V3 0 5 0; V3 0 0 6; V3 (-4) (-5) (-6); V3 1 1 1].
Lemma V3_neq x y z x' y' z' : x <> x' \/ y <> y' \/ z <> z' -> V3 x y z <> V3 x' y' z' :> v3 R.
Proof. intros H E. injection E as -> -> ->. tauto. Qed.
Lemma five_NoDup : NoDup five.
Proof.
  unfold five. repeat constructor; cbn [In]; intros H;
    repeat (destruct H as [H|H]; [revert H; apply V3_neq; lra|]); exact H.
Qed.
Example five_general : general five (4 * / 100000) /\ NoDup five /\ fourOf five.
Proof.
  split; [|split; [exact five_NoDup|]].
  - intros a b c d A B C D N. apply NoDup4 in N. destruct N as (N1 & N2 & N3 & N4 & N5 & N6). unfold five in *. cbn [In] in *.
    repeat (destruct A as [<-|A]); [..|destruct A];
    (repeat (destruct B as [<-|B]); [..|destruct B]); try (exfalso; now apply N1);
    (repeat (destruct C as [<-|C]); [..|destruct C]); try (exfalso; now (apply N2 || apply N4));
    (repeat (destruct D as [<-|D]); [..|destruct D]); try (exfalso; now (apply N3 || apply N5 || apply N6));
    clear; unfold svol; cbn [vx vy vz]; unfold Rabs; destruct Rcase_abs; lra.
  - exists (V3 4 0 0), (V3 0 5 0), (V3 0 0 6), (V3 (-4) (-5) (-6)). split.
    + intros x Hx. unfold five. cbn in *. tauto.
    + pose proof five_NoDup as N. unfold five in N. change [V3 4 0 0; V3 0 5 0; V3 0 0 6; V3 (-4) (-5) (-6); V3 1 1 1] with
        ([V3 4 0 0; V3 0 5 0; V3 0 0 6; V3 (-4) (-5) (-6)] ++ [V3 1 1 1]) in N. apply NoDup_remove_1 in N. exact N.
Qed.
Example five_sums : forall a b, In a five -> In b five -> vx a + vy a + vz a = vx b + vy b + vz b -> a = b.
Proof.
  unfold five. cbn [In]. intros a b A B H. repeat (destruct A as [<-|A]); [..|destruct A]; (repeat (destruct B as [<-|B]); [..|destruct B]);
    cbn [vx vy vz] in H; (reflexivity || (exfalso; lra)).
Qed.
Example five_origin : forall x y z, HullFacet five (x, y, z) ->
  (forall q, In q five -> ~ isCorner (x, y, z) q -> svol x y z q < 0) -> svol x y z (V3 0 0 0) < 0.
Proof.
  intros x y z _ H. set (p := V3 4 0 0) in *. set (q := V3 0 5 0) in *. set (r := V3 0 0 6) in *. set (s := V3 (-4) (-5) (-6)) in *.
  assert (E : svol x y z (V3 0 0 0) = (svol x y z p + svol x y z q + svol x y z r + svol x y z s) / 4).
  { destruct x as [x1 x2 x3], y as [y1 y2 y3], z as [z1 z2 z3]. unfold p, q, r, s, svol. cbn [vx vy vz]. lra. }
  assert (K : forall w, In w five -> svol x y z w < 0 \/ isCorner (x, y, z) w /\ svol x y z w = 0).
  { intros w Hw. cbn [isCorner]. assert (D : forall u, w = u \/ w <> u).
    { intros u. destruct w as [w1 w2 w3], u as [u1 u2 u3]. destruct (Req_EM_T w1 u1) as [->|N1]; [|right; congruence].
      destruct (Req_EM_T w2 u2) as [->|N2]; [|right; congruence]. destruct (Req_EM_T w3 u3) as [->|N3]; [left; auto|right; congruence]. }
    destruct (D x) as [->|Nx]; [right; split; auto; unfold svol; ring|]. destruct (D y) as [->|Ny]; [right; split; auto; unfold svol; ring|].
    destruct (D z) as [->|Nz]; [right; split; auto; unfold svol; ring|]. left. apply H; auto. cbn. tauto. }
  assert (Ip : In p five) by (cbn; tauto). assert (Iq : In q five) by (cbn; tauto). assert (Ir : In r five) by (cbn; tauto). assert (Is : In s five) by (cbn; tauto).
  destruct (K p Ip) as [Kp|[Cp Kp]], (K q Iq) as [Kq|[Cq Kq]], (K r Ir) as [Kr|[Cr Kr]], (K s Is) as [Ks|[Cs Ks]]; try lra. exfalso.
  assert (N : NoDup [p; q; r; s]).
  { pose proof five_NoDup as N. unfold five in N. change (NoDup ([p; q; r; s] ++ [V3 1 1 1])) in N. apply NoDup_remove_1 in N. exact N. }
  assert (I : incl [p; q; r; s] [x; y; z]).
  { intros w Hw. cbn [isCorner] in *. cbn [In]. destruct Hw as [<-|[<-|[<-|[<-|[]]]]]; match goal with H : ?p = x \/ ?p = y \/ ?p = z |- x = ?p \/ _ => destruct H as [H|[H|H]] end; auto. }
  pose proof (NoDup_incl_length N I) as Q. cbn in Q. do 3 apply le_S_n in Q. inversion Q.
Qed.

(** twelve points: eighteen facets, the same as the brute force finds *)
Definition dozen : list (v3 (nT FNum)) := [V 4 0 0; V (-5) 1 0; V 0 4 1; V 1 (-6) 0; V 0 1 5; V 1 0 (-7); V 3 3 2; V (-4) 2 3; V 2 (-3) 4; V 3 2 (-3);
  V 0.5 0.25 0.125; V (-2) (-3) (-3)].
Definition sameTri (t u : tri FNum) : bool := let '(a, b, c) := t in let '(x, y, z) := u in
  forallb (fun q => same3 q x || same3 q y || same3 q z) [a; b; c] && forallb (fun q => same3 q a || same3 q b || same3 q c) [x; y; z].
Example dozen_hull : match compute FNum epsF minmaxI3 argmaxI dozen with
  | Ok L => length L = 18%nat /\ forallb (fun t => existsb (sameTri t) L) (brute3 FNum epsF dozen) = true /\ length (brute3 FNum epsF dozen) = 18%nat
  | _ => False end.
Proof. vm_compute. auto. Qed.
(** at a thousandth of the size every point is within eps of the first simplex *)
Definition small : list (v3 (nT FNum)) := map (fun p => div3 FNum p 1024%float) dozen.
Theorem C61_scale_refuted : match compute FNum epsF minmaxI3 argmaxI small with Ok L => length L = 4%nat | _ => False end.
Proof. vm_compute. reflexivity. Qed.
Print Assumptions C61_scale_refuted.
