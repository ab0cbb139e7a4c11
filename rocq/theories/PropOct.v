(** C76-C78: the neighbour structure of the Delaunay triangulation. *)
From Coq Require Import Floats SpecFloat FloatAxioms Reals Lra Psatz ZArith NArith Sorted.
From Verif Require Import Base Num FloatNum DelModel DelSpec DelInit OctModel OctSpec OctProofs OctSearch PropDel.
Set Implicit Arguments.

(** The contracts of [parlay::sort] by key and of the binary search *)
Definition sortContract (sort : list (N * nat) -> list (N * nat)) : Prop :=
  forall l, Permutation (sort l) l /\ StronglySorted (fun a b => (fst a <= fst b)%N) (sort l).
Definition searchContract (bs : list (N * nat) -> (N * nat -> bool) -> nat) : Prop :=
  forall l f k, (forall i x, nth_error l i = Some x -> f x = (i <? k)) -> k <= length l -> bs l f = k.
(** The conversion to [unsigned int] returns a value (which may be any, also for
    numbers out of range). *)
Definition convTotal (toU : R -> res N) : Prop := forall x, exists u, toU x = Ok u /\ (u < 2 ^ 32)%N.

Inductive sub (t : otree RNum) : otree RNum -> Prop :=
| sub_refl : sub t t
| sub_l b n l r : sub t l -> sub t (ONode b n l r)
| sub_r b n l r : sub t r -> sub t (ONode b n l r).

Lemma sub_ok vp s t : sub s t -> otOk vp t -> otOk vp s.
Proof. induction 1; auto; intros (_ & _ & Hl & Hr); auto. Qed.
Lemma sub_leaf b its t : sub (OLeaf b its) t -> In its (oleaves t).
Proof. intros H. remember (OLeaf b its) as s. induction H; subst; cbn [oleaves]; [left; auto|apply in_app_iff; auto..]. Qed.

(** C76: from a nonempty sequence the build returns a tree over exactly these
    vertices, in the order of their keys; [flatten] writes each cell once; all
    boxes contain the points below; leaves have between 1 and 19 vertices or all
    keys equal; the depth is at most 64. *)
Theorem C76_octree_build : forall vp toU sort bs V, convTotal toU -> sortContract sort -> searchContract bs -> V <> [] ->
  exists t key, @octBuild RNum vp toU sort bs V = Ok t /\
    map fst (flatW t 0) = seq 0 (length V) /\ Permutation (map snd (flatW t 0)) V /\
    (forall b, @getBox RNum vp V = Ok b -> forall v, @keyOf RNum toU (vp v) (fst b) (delta b) = Ok (key v)) /\
    StronglySorted (fun u v => (key u <= key v)%N) (map snd (flatW t 0)) /\
    (forall s, sub s t -> osize s = length (flatW s 0) /\ forall u, In u (map snd (flatW s 0)) ->
       (fst (fst (obx s)) <= fst (vp u) <= fst (snd (obx s)))%R /\ (snd (fst (obx s)) <= snd (vp u) <= snd (snd (obx s)))%R) /\
    (forall b its, sub (OLeaf b its) t -> its <> [] /\ (length its < 20 \/ forall u v, In u its -> In v its -> key u = key v)) /\
    odepth t <= 64.
Proof.
  intros vp toU sort bs V HU HS HB NE.
  destruct (@octBuild_ok vp bs HB toU HU sort HS V NE) as (key & t & E & O & Pm & K & S & L & D). exists t, key.
  destruct (flat_ok vp t O 0) as (F1 & F2). pose proof (otOk_size vp t O) as SZ. rewrite F1, F2.
  split; auto. split; [rewrite SZ, (Permutation_length Pm); auto|]. split; auto. split; auto. split; auto. split; [|split; auto].
  - intros s Hs. pose proof (sub_ok vp Hs O) as Os. destruct (flat_ok vp s Os 0) as (_ & G). split.
    + rewrite <- (map_length snd), G. apply (otOk_size vp s Os).
    + intros u I. rewrite G in I. exact (otOk_box vp s Os u I).
  - intros b its Hs. apply L. eapply sub_leaf; eauto.
Qed.
Print Assumptions C76_octree_build.

(** C77: all-nearest-neighbours gives every vertex its k nearest other vertices,
    nearest first. *)
Theorem C77_all_nearest : forall vp toU sort bs V maxk k, convTotal toU -> sortContract sort -> searchContract bs -> NoDup V ->
  1 <= k -> k <= maxk -> k < length V -> (forall u v, In u V -> In v V -> (edist (vp u) (vp v) < Rfmax)%R) ->
  exists A, @allNearest RNum vp toU sort bs maxk k V = Ok A /\ Permutation (map fst A) V /\
    forall v r, In (v, r) A -> exists l, r = map Some l /\
      kNearestOf (fun u => edist (vp v) (vp u)) (filter (fun u => negb (u =? v)) V) k l.
Proof.
  intros vp toU sort bs V maxk k HU HS HB ND H1 H2 H3 FM. assert (NE : V <> []) by (intros ->; cbn in H3; lia).
  destruct (@octBuild_ok vp bs HB toU HU sort HS V NE) as (key & t & E & O & Pm & _). unfold allNearest. rewrite E. cbn [bind].
  destruct (flat_ok vp t O 0) as (_ & ->).
  assert (Q : forall v, In v V -> exists l, @kNearest RNum vp v maxk k t = Ok (map Some l) /\
    kNearestOf (fun u => edist (vp v) (vp u)) (filter (fun u => negb (u =? v)) V) k l).
  { intros v Iv. destruct (@search_ok vp v t k H1 O) as (l & El & Kl).
    - apply (Permutation_NoDup (Permutation_sym Pm) ND).
    - assert (LN : length (others v (oitems t)) + 1 = length (oitems t)).
      { assert (ND' : NoDup (oitems t)) by (apply (Permutation_NoDup (Permutation_sym Pm) ND)).
        assert (Iv' : In v (oitems t)) by (apply (Permutation_in _ (Permutation_sym Pm)); auto).
        clear - ND' Iv'. unfold others. induction ND' as [|x l Nx ND IH]; [destruct Iv'|]. cbn [filter length]. destruct (Nat.eqb_spec x v) as [->|Nv]; cbn [negb].
        - assert (Z : forall l, ~ In v l -> filter (fun o => negb (o =? v)) l = l).
          { clear. induction l as [|y l IH]; intros N; cbn [filter]; auto. destruct (Nat.eqb_spec y v); [exfalso; apply N; left; auto|]. cbn [negb]. rewrite IH; auto. intros I; apply N; right; auto. }
          rewrite Z by auto. lia.
        - destruct Iv' as [->|Iv']; [congruence|]. cbn [length]. specialize (IH Iv'). lia. }
      rewrite (Permutation_length Pm) in LN. lia.
    - intros x Ix. apply FM; auto. apply (Permutation_in _ Pm Ix).
    - exists l. unfold kNearest. destruct (Nat.ltb_spec maxk k); [lia|]. destruct (Nat.eqb_spec k 0); [lia|]. split.
      + f_equal. exact El.
      + assert (PF : Permutation (others v (oitems t)) (filter (fun u => negb (u =? v)) V)).
        { unfold others. clear - Pm. induction Pm; cbn [filter]; auto.
          - destruct (negb (x =? v)); auto.
          - destruct (negb (x =? v)), (negb (y =? v)); auto. apply perm_swap.
          - etransitivity; eauto. }
        destruct Kl as (K1 & K2 & K3 & K4 & K5). split; auto. split; auto. split; [intros u I; apply (Permutation_in _ PF); auto|]. split; auto.
        intros u w Iu Iw. apply K5; auto. apply (Permutation_in _ (Permutation_sym PF) Iw). }
  assert (G : forall L, (forall v, In v L -> In v V) -> exists A, mapR (fun v => r <- @kNearest RNum vp v maxk k t ;; Ok (v, r)) L = Ok A /\ map fst A = L /\
    forall v r, In (v, r) A -> exists l, r = map Some l /\ kNearestOf (fun u => edist (vp v) (vp u)) (filter (fun u => negb (u =? v)) V) k l).
  { induction L as [|v L IH]; intros HL; cbn [mapR].
    - exists []. split; auto. split; auto. intros v r [].
    - destruct (Q v (HL v (or_introl eq_refl))) as (l & -> & Kl). cbn [bind]. destruct IH as (A & -> & EA & HA); [intros; apply HL; right; auto|]. cbn [bind].
      eexists. split; [reflexivity|]. cbn [map fst]. split; [f_equal; auto|]. intros w r [Z|I]; [injection Z as <- <-; eauto|eauto]. }
  destruct (G (oitems t)) as (A & EA & FA & HA); [intros v I; apply (Permutation_in _ Pm I)|].
  exists A. split; [exact EA|]. rewrite FA. auto.
Qed.
Print Assumptions C77_all_nearest.

Lemma octNearest_ok vp toU sort bs l v : convTotal toU -> sortContract sort -> searchContract bs -> l <> [] -> ~ In v l ->
  (forall u, In u l -> (edist (vp v) (vp u) < Rfmax)%R) ->
  exists u, @octNearest RNum vp toU sort bs l v = Ok u /\ In u l /\ forall w, In w l -> (edist (vp v) (vp u) <= edist (vp v) (vp w))%R.
Proof.
  intros HU HS HB NE Nv FM. destruct (@octBuild_ok vp bs HB toU HU sort HS l NE) as (key & t & E & O & Pm & _). unfold octNearest. rewrite E. cbn [bind].
  assert (EO : others v (oitems t) = oitems t).
  { assert (N' : ~ In v (oitems t)) by (intros I; apply Nv; apply (Permutation_in _ Pm I)). revert N'. unfold others. generalize (oitems t). clear.
    induction l as [|y l IH]; intros N; cbn [filter]; auto. destruct (Nat.eqb_spec y v); [exfalso; apply N; left; auto|]. cbn [negb]. rewrite IH; auto. intros I; apply N; right; auto. }
  pose proof (@knn_inv vp v 1 t ltac:(lia) O [] _ (start_inv vp v 1)) as [A S F (rest & Er & G)]. cbn [app] in Er. rewrite EO in Er. unfold nearest.
  destruct (@knnRec RNum vp v t (startE RNum 1)) as [|e [|? ?]]; cbn in A; try lia.
  specialize (F e (or_introl eq_refl)). unfold somes in Er. cbn [flat_map app] in Er. rewrite app_nil_r in Er. cbn [eps0] in G. change (snd e) with (dd e) in G.
  destruct (fst e) as [u|].
  - exists u. split; auto. assert (Iu : In u (oitems t)) by (apply (Permutation_in _ (Permutation_sym Er)); left; auto).
    split; [apply (Permutation_in _ Pm Iu)|]. intros w Iw. apply (Permutation_in _ (Permutation_sym Pm)), (Permutation_in _ Er) in Iw.
    destruct F as (F1 & _). destruct Iw as [->|Iw]; [apply Rle_refl|]. specialize (G w Iw). rewrite F1 in G. exact G.
  - exfalso. destruct l as [|x l]; [congruence|]. assert (Ix : In x rest) by (apply (Permutation_in _ Er), (Permutation_in _ (Permutation_sym Pm)); left; auto).
    specialize (G x Ix). specialize (FM x (or_introl eq_refl)). rewrite F in G. unfold dq in G. lra.
Qed.

(** C78: for a vertex that is not stored, the structure returns a nearest stored
    vertex; so it satisfies the premise of C69-C72 about the point location
    structure. *)
Theorem C78_nearest_for_delaunay : forall toU sort bs, convTotal toU -> sortContract sort -> searchContract bs ->
  (forall vp l v, l <> [] -> ~ In v l -> (forall u, In u l -> (edist (vp v) (vp u) < Rfmax)%R) ->
     exists u, @octNearest RNum vp toU sort bs l v = Ok u /\ In u l /\
       forall w, In w l -> (edist (vp v) (vp u) <= edist (vp v) (vp w))%R) /\
  (forall cs sn P B knn worder ids fuel, delPre cs sn P B knn worder ids fuel ->
     (forall p p', In p P -> In p' (P ++ B) -> (edist p p' < Rfmax)%R) ->
     delPre cs sn P B (fun vp => @octNearest RNum vp toU sort bs) worder ids fuel).
Proof.
  intros toU sort bs HU HS HB. split; [intros; apply octNearest_ok; auto|].
  intros cs sn P B knn worder ids fuel H FM. destruct H as [H1 H2 H3 H4 H5 _ H7 H8]. constructor; auto.
  intros l v NE Nv Lv Hc. destruct (@octNearest_ok (fun i => nth (nth i ids i) (P ++ B) (0, 0)%R) toU sort bs l v) as (u & E & I & _); auto.
  - intros u I. specialize (Hc u I).
    assert (LI : length ids = length P) by (rewrite (Permutation_length H5), seq_length; auto).
    assert (IN : forall i, i < length P -> nth i ids i < length P).
    { intros i Li. assert (I2 : In (nth i ids i) ids) by (apply nth_In; lia). apply (Permutation_in _ H5) in I2. apply in_seq in I2. lia. }
    apply FM.
    + rewrite app_nth1 by auto. apply nth_In. auto.
    + destruct (le_lt_dec (length P) u) as [Q|Q].
      * assert (u = length P) by lia. subst u. rewrite (@nth_overflow nat ids) by lia. apply nth_In. rewrite app_length.
        destruct H3 as (a & b & c & d & _ & _ & _ & _ & EB). rewrite EB. rewrite map_length, seq_length. lia.
      * rewrite app_nth1 by auto. apply in_app_iff. left. apply nth_In. auto.
  - exists u. auto.
Qed.
Print Assumptions C78_nearest_for_delaunay.

(** *** Instances of the contracts *)
Fixpoint insT (x : N * nat) (l : list (N * nat)) : list (N * nat) :=
  match l with [] => [x] | y :: l' => if (fst x <=? fst y)%N then x :: l else y :: insT x l' end.
Definition sortI (l : list (N * nat)) : list (N * nat) := fold_right insT [] l.
Fixpoint bsI (l : list (N * nat)) (f : N * nat -> bool) : nat :=
  match l with x :: l' => if f x then S (bsI l' f) else 0 | [] => 0 end.

Lemma insT_perm x l : Permutation (insT x l) (x :: l).
Proof. induction l as [|y l IH]; cbn [insT]; auto. destruct (_ <=? _)%N; auto. rewrite IH. apply perm_swap. Qed.
Lemma sortI_ok : sortContract sortI.
Proof.
  intros l. induction l as [|x l (P & S)]; cbn [sortI fold_right]; [split; auto; constructor|]. fold (sortI l). split.
  - rewrite insT_perm. auto.
  - clear P. induction S as [|y l' S IH F]; cbn [insT]; [repeat constructor|]. destruct (N.leb_spec (fst x) (fst y)) as [Q|Q].
    + constructor; [constructor; auto|]. constructor; auto. rewrite Forall_forall in *. intros z I. specialize (F z I). cbv beta in *. lia.
    + constructor; auto. rewrite Forall_forall in *. intros z I. apply (Permutation_in _ (insT_perm _ _)) in I. destruct I as [<-|I]; [lia|auto].
Qed.
Lemma bsI_ok : searchContract bsI.
Proof.
  intros l f. induction l as [|x l IH]; intros k H L; cbn [bsI]; [cbn in L; lia|].
  pose proof (H 0 x eq_refl) as H0. destruct k as [|k]; cbn in H0; rewrite H0; auto. f_equal. apply IH; [|cbn in L; lia].
  intros i y E. rewrite (H (S i) y E). reflexivity.
Qed.

(** The conversion of the C++ standard, on [floor(x)]: undefined for NaN, infinity
    and values out of range. *)
Definition toUstd (x : float) : res N :=
  match Prim2SF x with
  | S754_zero _ => Ok 0%N
  | S754_finite false m e =>
    let v := (if (0 <=? e)%Z then Z.shiftl (Zpos m) e else Z.shiftr (Zpos m) (- e))%Z in
    if (v <? 2 ^ 32)%Z then Ok (Z.to_N v) else UB
  | _ => UB
  end.

(** *** Concrete cases: 25 points of a grid with the conversion above. *)
Definition gridF (i : nat) : pt2 FNum :=
  (nth (i mod 5) [0; 1; 2; 3; 4]%float 0%float, nth (i / 5) [0; 10; 20; 30; 40]%float 0%float).
Definition gridV : list nat := seq 0 25.
Example C76_float_run :
  match @octBuild FNum gridF toUstd sortI bsI gridV with
  | Ok t => map snd (flatW t 0) = [0; 1; 2; 3; 4; 5; 6; 7; 8; 9; 10; 11; 12; 13; 14; 15; 16; 17; 18; 19; 20; 21; 22; 23; 24] /\ odepth t = 1
  | _ => False
  end.
Proof. vm_compute. split; reflexivity. Qed.
Example C77_float_run :
  match @allNearest FNum gridF toUstd sortI bsI 4 3 gridV with
  | Ok A => nth 7 A (0, []) = (7, [Some 6; Some 8; Some 5]) /\ nth 24 A (0, []) = (24, [Some 23; Some 22; Some 21])
  | _ => False
  end.
Proof. vm_compute. split; reflexivity. Qed.
Example C78_float_run : @octNearest FNum gridF toUstd sortI bsI [2; 3; 20; 9; 11] 7 = Ok 9.
Proof. vm_compute. reflexivity. Qed.

(** A structure with only the vertex itself: NULL is dereferenced; too large k. *)
Example C78_self_only : @octNearest FNum gridF (fun _ => Ok 0%N) sortI bsI [7] 7 = UB.
Proof. vm_compute. reflexivity. Qed.
Example C77_k_too_large : @allNearest FNum gridF toUstd sortI bsI 4 5 gridV = Throw.
Proof. vm_compute. reflexivity. Qed.

(** Three vertices over the reals. *)
Example C78_case : forall toU, convTotal toU ->
  @octNearest RNum (fun i => (INR i, 0)%R) toU sortI bsI [0; 2; 9] 4 = Ok 2.
Proof.
  intros toU HU. destruct (C78_nearest_for_delaunay HU sortI_ok bsI_ok) as (H & _).
  assert (D : forall i j, edist (INR i, 0)%R (INR j, 0)%R = Rabs (INR i - INR j)).
  { intros i j. unfold edist. cbn [fst snd]. rewrite <- sqrt_Rsqr_abs. f_equal. unfold Rsqr. ring. }
  destruct (H (fun i => (INR i, 0)%R) [0; 2; 9] 4) as (u & E & I & M); [discriminate|cbn; lia| |].
  - intros u I. rewrite D. apply Rle_lt_trans with 10%R; [|unfold Rfmax; apply IZR_lt; reflexivity].
    destruct I as [<-|[<-|[<-|[]]]]; cbn; unfold Rabs; destruct (Rcase_abs _); lra.
  - refine (eq_trans E _). f_equal. specialize (M 2 ltac:(cbn; auto)). cbv beta in M. rewrite !D in M.
    destruct I as [<-|[<-|[<-|[]]]]; auto; exfalso; revert M; cbn; unfold Rabs; repeat destruct (Rcase_abs _); lra.
Qed.

(** *** The first structure of every triangulation has one vertex: the largest
    range is 0 and 0/0 is converted to [unsigned int]. *)
Definition finiteF (x : float) : Prop := exists s m e, Prim2SF x = S754_finite s m e \/ Prim2SF x = S754_zero s.

Lemma self_sub x : finiteF x -> PrimFloat.sub x x = 0%float.
Proof.
  intros (s & m & e & H). rewrite <- (SF2Prim_Prim2SF (x - x)%float), <- (SF2Prim_Prim2SF 0%float). f_equal. rewrite sub_spec.
  change (Prim2SF 0%float) with (S754_zero false). unfold SF64sub, SFsub. destruct H as [->| ->].
  - rewrite Z.sub_diag. reflexivity.
  - destruct s; reflexivity.
Qed.

Lemma self_pick x : nmin2 FNum x x = x /\ nmax2 FNum x x = x.
Proof. unfold nmin2, nmax2. destruct (nlt FNum x x); auto. Qed.

Lemma single_build vp sort bs v : finiteF (fst (vp v)) -> finiteF (snd (vp v)) -> @octBuild FNum vp toUstd sort bs [v] = UB.
Proof.
  intros F1 F2. unfold octBuild, tagPoints, getBox. cbn [map fold_left bind mapR]. destruct (vp v) as [x y].
  unfold minmax, minC, maxC. cbn [fst snd] in *. rewrite !(proj1 (self_pick _)), !(proj2 (self_pick _)). unfold delta, keyOf, psub. cbn [fst snd].
  assert (S1 : nsub FNum x x = 0%float) by exact (self_sub F1).
  assert (S2 : nsub FNum y y = 0%float) by exact (self_sub F2).
  rewrite S1, S2.
  assert (Z : toUstd (ndiv FNum (nmul FNum (maxval FNum) 0%float) (nmax2 FNum (nmax2 FNum (nzero FNum) 0%float) 0%float)) = UB) by (vm_compute; reflexivity).
  rewrite Z. reflexivity.
Qed.

(** With the conversion of the standard every run on one or more points is
    undefined, as soon as the first point of the ring is finite. *)
Theorem C78_first_structure_refuted : forall (cs sn : nat -> float) sort bs worder sched ids fuel (P : list (pt2 FNum)) B b0,
  P <> [] -> length ids = length P -> @boundaryPoints FNum cs sn P 10 = Ok B -> nth_error B 0 = Some b0 -> finiteF (fst b0) -> finiteF (snd b0) ->
  @delaunay FNum cs sn (fun vp => @octNearest FNum vp toUstd sort bs) worder sched ids fuel P = UB.
Proof.
  intros cs sn sort bs worder sched ids fuel P B b0 NE LI EB E0 F1 F2. unfold delaunay. rewrite EB. cbn [bind]. unfold triangulate.
  destruct (@init_fan (length P) 10 ltac:(lia)) as (m & -> & _). cbn [bind].
  assert (L : 1 <= length P) by (destruct P; [congruence|cbn; lia]).
  set (n := length P) in *. destruct n as [|n'] eqn:En; [lia|]. cbn [addPoints ldone length]. rewrite seq_length. cbn [Nat.ltb Nat.leb].
  unfold roundStep. cbn [ldone lremain lnext lcand length Nat.leb andb]. 
  assert (RS : roundSize (seq 0 (S n')) 0 = 1). { unfold roundSize, maxBlock. rewrite seq_length. cbn [Nat.div Nat.divmod fst]. lia. }
  unfold buffer. cbn [ldone lremain length]. rewrite RS. cbn [seq mapR Nat.ltb Nat.leb nth_error Nat.add bind].
  unfold locateTrial at 1. unfold octNearest at 1. rewrite single_build; [reflexivity|..].
  all: assert (V0 : nth (nth (S n') ids (S n')) (P ++ B) (nzero FNum, nzero FNum) = b0)
    by (rewrite (@nth_overflow nat ids) by lia; rewrite <- En; unfold n; rewrite app_nth2, Nat.sub_diag by lia; destruct B; [discriminate|injection E0 as ->; reflexivity]).
  all: rewrite V0; auto.
Qed.
Print Assumptions C78_first_structure_refuted.

(** The premises hold for four corners of a square. *)
Example C78_refuted_case : @delaunay FNum (fun i => nth i cosT 0%float) (fun i => nth i sinT 0%float)
  (fun vp => @octNearest FNum vp toUstd sortI bsI) (fun _ l => l) fSched [0; 2; 1; 3] 20 [(0, 0); (0, 1); (1, 0); (1, 1)]%float = UB.
Proof. vm_compute. reflexivity. Qed.
(** With a conversion that returns 0 for NaN the run ends. *)
Definition toU0 (x : float) : res N := match toUstd x with Ok u => Ok u | _ => Ok 0%N end.
Example C78_float_delaunay :
  length (tris (@delaunay FNum (fun i => nth i cosT 0%float) (fun i => nth i sinT 0%float)
    (fun vp => @octNearest FNum vp toU0 sortI bsI) (fun _ l => l) fSched [0; 2; 1; 3] 20 [(0, 0); (0, 1); (1, 0); (1, 1)]%float)) = 16.
Proof. vm_compute. reflexivity. Qed.
