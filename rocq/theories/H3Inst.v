(** Further facts about the 3D hulls, and instances of the contracts. *)
From Coq Require Import Reals Lra Lia Psatz List Bool Permutation Sorted.
From Verif Require Import Base Num Hull2dModel H3Model H3Geom H3Surf H3Heap H3Link H3Loop H3Main H3Init H3Init2 H3Spec H3Final H3Brute.
Set Implicit Arguments.
Open Scope R_scope.

(** *** The programs *)
Section Prog.
  Variable P : list p3.
  Variable eps : R.
  Variable mm : (p3 -> p3 -> bool) -> list p3 -> nat * nat.
  Variable mx : (p3 -> p3 -> bool) -> list p3 -> nat.
  Hypothesis Hmm : minmax3_ok mm.
  Hypothesis Hmx : maxel3_ok mx.
  Hypothesis eps0 : 0 <= eps.
  Hypothesis GP : margin P (4 * eps).

  Lemma quick_facets : four_pts P -> exists o S1 L, @quickHull3 RNum eps mm mx P = Ok (o, S1) /\ @getFacet RNum o S1 = Ok L /\ hull_facets P L.
  Proof.
    intros H4. destruct (@quick_ok P eps eps0 GP H4 mm mx Hmm Hmx) as (o & S1 & W & q1 & q2 & q3 & q4 & E & G & R1 & NS & LH & I1 & I2 & I3 & I4 & D & Z).
    destruct (@getFacet_ok P o eps eps0 G S1 W R1 NS LH q1 q2 q3 q4 I1 I2 I3 I4 D Z) as (L & EL & HL). eauto 7.
  Qed.
  Lemma four_of_NoDup : NoDup P -> (3 < length P)%nat -> four_pts P.
  Proof.
    intros ND L. destruct P as [|a [|b [|c [|d l]]]]; cbn in L; try lia. exists a, b, c, d.
    inversion ND as [|? ? Na ND1]; subst. inversion ND1 as [|? ? Nb ND2]; subst. inversion ND2 as [|? ? Nc ND3]; subst.
    cbn in *. unfold dist4. intuition.
  Qed.
  Lemma compute_facets : ((length P <= 10)%nat -> NoDup P) -> ((10 < length P)%nat -> four_pts P) ->
    exists L, @compute RNum eps mm mx P = Ok L /\ hull_facets P L.
  Proof.
    intros ND H4. unfold compute. change (nT RNum) with R. destruct (Nat.leb_spec (length P) 10) as [L|L].
    - eexists. split; [reflexivity|]. apply brute_ok; auto. eapply margin_le; [|exact GP]. lra.
    - destruct (quick_facets (H4 L)) as (o & S1 & F & E & EF & HF). change (nT RNum) with R. rewrite E. cbn [bind]. eauto.
  Qed.
  Lemma compute_vertices (srt : (p3 -> p3 -> bool) -> list p3 -> list p3) : (forall lt l, Permutation l (srt lt l)) -> four_pts P ->
    exists L, @computeVertex RNum eps mm mx srt P = Ok L /\ forall v, In v L <-> Extreme P v.
  Proof.
    intros Hs H4. unfold computeVertex. destruct (@quick_ok P eps eps0 GP H4 mm mx Hmm Hmx) as (o & S1 & W & q1 & q2 & q3 & q4 & E & G & R1 & NS & LH & I1 & I2 & I3 & I4 & D & Z).
    rewrite E. cbn [bind]. exact (@getVertex_ok P o eps eps0 G S1 W R1 NS LH q1 q2 q3 q4 I1 I2 I3 I4 D Z srt Hs).
  Qed.
End Prog.

(** *** Sorted by an injective key, [unique] leaves every point once *)
Definition sort3_ok (srt : (p3 -> p3 -> bool) -> list p3 -> list p3) : Prop :=
  forall (key : p3 -> R) l, Permutation l (srt (fun a b => Rltb (key a) (key b)) l) /\
    StronglySorted (fun a b => key a <= key b) (srt (fun a b => Rltb (key a) (key b)) l).
Lemma unique_NoDup (key : p3 -> R) l : StronglySorted (fun a b => key a <= key b) l -> (forall a b, In a l -> In b l -> key a = key b -> a = b) -> NoDup (@unique RNum l).
Proof.
  assert (X : forall l x, StronglySorted (fun a b => key a <= key b) (x :: l) -> (forall a b, In a (x :: l) -> In b (x :: l) -> key a = key b -> a = b) ->
     NoDup (x :: @uniqueFrom RNum x l)).
  { clear. induction l as [|y l IH]; intros x S I; [constructor; [intros []|constructor]|]. cbn [uniqueFrom].
    apply StronglySorted_inv in S. destruct S as [S F]. inversion F as [|? ? Fy F']; subst.
    destruct (eq3 RNum x y) eqn:E.
    - apply eq3_iff in E. subst y. apply IH; auto. intros a b A B. apply I; cbn in *; tauto.
    - apply eq3_false in E. assert (NDy : NoDup (y :: @uniqueFrom RNum y l)) by (apply IH; auto; intros a b A B; apply I; cbn in *; tauto).
      constructor; auto. intros [->|Hin]; [tauto|].
      assert (Hl : In x (y :: l)). { assert (Z : In x (@unique RNum (y :: l))) by (cbn [unique]; right; exact Hin). exact (proj1 (unique_in (y :: l) x) Z). }
      apply StronglySorted_inv in S. destruct S as [_ Fl]. destruct Hl as [->|Hl]; [tauto|].
      rewrite Forall_forall in Fl, F'. pose proof (Fl x Hl). apply E. apply I; cbn; auto. lra. }
  intros S I. destruct l as [|x l]; [constructor|]. apply X; auto.
Qed.
Lemma sum3_R p : sum3 RNum p = 0 + vx p + vy p + vz p. Proof. reflexivity. Qed.

Section Once.
  Variable P : list p3.
  Variable eps : R.
  Variable mm : (p3 -> p3 -> bool) -> list p3 -> nat * nat.
  Variable mx : (p3 -> p3 -> bool) -> list p3 -> nat.
  Hypothesis Hmm : minmax3_ok mm.
  Hypothesis Hmx : maxel3_ok mx.
  Hypothesis eps0 : 0 <= eps.
  Hypothesis GP : margin P (4 * eps).
  Lemma vertices_once srt : sort3_ok srt -> (forall lt l, Permutation l (srt lt l)) -> four_pts P ->
    (forall a b, In a P -> In b P -> vx a + vy a + vz a = vx b + vy b + vz b -> a = b) ->
    exists L, @computeVertex RNum eps mm mx srt P = Ok L /\ NoDup L /\ forall v, In v L <-> Extreme P v.
  Proof.
    intros Hs Hp H4 Inj. destruct (@compute_vertices P eps mm mx Hmm Hmx eps0 GP srt Hp H4) as (L & E & HL).
    exists L. split; auto. split; auto. pose proof E as E'. unfold computeVertex in E'.
    destruct (quickHull3 RNum eps mm mx P) as [[o S1]| | |]; try discriminate. cbn [bind] in E'. unfold getVertex in E'.
    destruct (dfsF _ _ _ _ _) as [out| | |]; try discriminate. cbn [bind] in E'. injection E' as E'. subst L.
    apply (@unique_NoDup (fun p => sum3 RNum p)).
    - exact (proj2 (Hs (fun p => sum3 RNum p) out)).
    - intros a b Ha Hb Ek. change (0 + @vx R a + @vy R a + @vz R a = 0 + @vx R b + @vy R b + @vz R b) in Ek. apply Inj; [| |lra].
      + destruct (proj1 (HL a)) as [X _]; auto. apply unique_in; exact Ha.
      + destruct (proj1 (HL b)) as [X _]; auto. apply unique_in; exact Hb.
  Qed.
End Once.

(** *** Orientation of the returned facets *)
Definition outward (P : list p3) (t : tri3) : Prop := forall q, In q P -> ~ isCorner t q -> ht t q < 0.
Definition origin_inside (P : list p3) : Prop := forall x y z, HullFacet P (x, y, z) ->
  (forall q, In q P -> ~ isCorner (x, y, z) q -> svol x y z q < 0) -> svol x y z (V3 0 0 0) < 0.

Lemma out_det t : ht (@outFacet RNum t) (V3 0 0 0) <= 0.
Proof.
  destruct t as [[a b] c]. unfold outFacet. rewrite det3_R. cbn [nlt RNum nzero]. destruct (Rltb 0 (svol a b c O3)) eqn:E; cbn [ht].
  - apply Rltb_true in E. rewrite svol_swap. unfold O3 in E. lra.
  - apply Rltb_false in E. exact E.
Qed.
Lemma outFacet_dir P t : origin_inside P -> HullFacet P t -> outward P (@outFacet RNum t).
Proof.
  intros OI H. apply HullFacet_out in H. pose proof (out_det t) as D. destruct (@outFacet RNum t) as [[x y] z].
  pose proof H as (A & B & C & N1 & N2 & N3 & [G|G]); [exact G|]. exfalso.
  assert (H' : HullFacet P (x, z, y)).
  { cbn [HullFacet]. split; [exact A|]. split; [exact C|]. split; [exact B|]. split; [auto|]. split; [auto|]. split; [auto|].
    left. intros q Hq Nq. rewrite svol_swap. assert (0 < svol x y z q); [|lra]. apply G; auto. cbn in *. tauto. }
  specialize (OI x z y H'). cbn [ht] in D. rewrite svol_swap in OI. assert (- svol x y z (V3 0 0 0) < 0); [|lra]. apply OI.
  intros q Hq Nq. rewrite svol_swap. assert (0 < svol x y z q); [|lra]. apply G; auto. cbn in *. tauto.
Qed.
(** the results are all results of [outFacet] *)
Lemma brute_out P eps t : In t (@brute3 RNum eps P) -> exists u, t = @outFacet RNum u.
Proof.
  unfold brute3. rewrite in_flat_map. intros (i & _ & H). apply in_flat_map in H. destruct H as (j & _ & H). apply in_flat_map in H. destruct H as (k & _ & H).
  destruct (_ && _); [|destruct H]. cbv zeta in H. destruct (bruteOn _ _ _ _ _ _); [|destruct H]. destruct H as [<-|[]]. eauto.
Qed.
Lemma dfs_acc X (g : nat -> fct3 -> X) (Pr : X -> Prop) fuel : (forall i f, Pr (g i f)) -> forall h S V acc L, (forall x, In x acc -> Pr x) ->
  @dfsFacet RNum (list X) (fun acc i f => acc ++ [g i f]) (fun _ => false) fuel h S V acc = Ok L -> forall x, In x L -> Pr x.
Proof.
  intros Hg. induction fuel as [|fuel IH]; intros h S V acc L Ha E x Hx; [discriminate|]. cbn [dfsFacet] in E.
  destruct S as [|[i|] S]; [inversion E; subst; auto| |discriminate]. destruct (existsb (Nat.eqb i) V); [eapply IH; eauto|].
  destruct (getF h (Some i)) as [f| | |]; try discriminate. cbn [bind] in E. eapply IH; [|exact E|exact Hx].
  intros y Hy. apply in_app_or in Hy. destruct Hy as [Hy|[<-|[]]]; auto.
Qed.
Lemma compute_out P eps mm mx L t : @compute RNum eps mm mx P = Ok L -> In t L -> exists u, t = @outFacet RNum u.
Proof.
  unfold compute. destruct (_ <=? _)%nat; [intros E; inversion E; subst; apply brute_out|].
  destruct (quickHull3 RNum eps mm mx P) as [[o S1]| | |]; try discriminate. cbn [bind]. intros E Ht. unfold getFacet, dfsF in E.
  refine (@dfs_acc _ _ (fun t => exists u, t = @outFacet RNum u) _ _ _ _ _ _ _ _ E t Ht); [intros i f; cbn beta; eauto|intros x []].
Qed.

(** *** Points given twice *)
Lemma brute_degenerate p q l eps : 0 <= eps -> exists t, In t (@brute3 RNum eps (p :: p :: q :: l)) /\ ~ HullFacet (p :: p :: q :: l) t.
Proof.
  intros E0. exists (@outFacet RNum (@mkTri RNum eps p p q)). split.
  - unfold brute3. cbn [length seq combine]. apply in_flat_map. exists (0%nat, p). split; [left; auto|]. apply in_flat_map. exists (1%nat, p). split; [right; left; auto|].
    apply in_flat_map. exists (2%nat, q). split; [right; right; left; auto|]. cbn [fst snd Nat.ltb Nat.leb andb]. cbv zeta.
    match goal with |- context [if ?b then _ else _] => assert (Eb : b = true); [|rewrite Eb; left; auto] end.
    unfold bruteOn. destruct (filter _ _) as [|l0 ls]; auto. apply forallb_forall. intros x _.
    assert (X : forall d, @sees RNum eps (@mkTri RNum eps p p q) d = false).
    { intros d. unfold sees. cbn [nlt RNum]. apply Rltb_false. rewrite vol_R. unfold mkTri. destruct (nlt _ _ _); cbn [ht]; rewrite ?svol_aab, ?svol_aba; lra. }
    rewrite !X. auto.
  - rewrite HullFacet_out. unfold mkTri. destruct (nlt _ _ _); intros (_ & _ & _ & A & B & C & _); tauto.
Qed.

(** *** Instances *)
Fixpoint argmaxF {X} (lt : X -> X -> bool) (l : list X) (i bi : nat) (bv : X) : nat :=
  match l with [] => bi | x :: l' => if lt bv x then argmaxF lt l' (S i) i x else argmaxF lt l' (S i) bi bv end.
Definition argmaxI {X} (lt : X -> X -> bool) (l : list X) : nat := match l with [] => 0%nat | x :: l' => argmaxF lt l' 1 0 x end.
Definition minmaxI3 {X} (lt : X -> X -> bool) (l : list X) : nat * nat := (argmaxI (fun a b => lt b a) l, argmaxI lt l).
Fixpoint insI {X} (lt : X -> X -> bool) (x : X) (l : list X) : list X :=
  match l with [] => [x] | y :: l' => if lt y x then y :: insI lt x l' else x :: y :: l' end.
Definition sortI {X} (lt : X -> X -> bool) (l : list X) : list X := fold_right (insI lt) [] l.

Lemma argmax_ok X (key : X -> R) (l : list X) : l <> [] ->
  exists b, nth_error l (argmaxI (fun i j => Rltb (key i) (key j)) l) = Some b /\ forall q, In q l -> key q <= key b.
Proof.
  assert (G : forall l pre bi bv, nth_error pre bi = Some bv -> (forall q, In q pre -> key q <= key bv) ->
    exists b, nth_error (pre ++ l) (argmaxF (fun i j => Rltb (key i) (key j)) l (length pre) bi bv) = Some b /\ forall q, In q (pre ++ l) -> key q <= key b).
  { clear. induction l as [|x l IH]; intros pre bi bv E H; cbn [argmaxF].
    - exists bv. rewrite app_nil_r. auto.
    - replace (pre ++ x :: l) with ((pre ++ [x]) ++ l) by (rewrite <- app_assoc; auto).
      destruct (Rltb (key bv) (key x)) eqn:L.
      + apply Rltb_true in L. specialize (IH (pre ++ [x]) (length pre) x). rewrite app_length in IH. cbn [length] in IH. rewrite Nat.add_1_r in IH. apply IH.
        * rewrite nth_error_app2, Nat.sub_diag; auto.
        * intros q Hq. apply in_app_or in Hq. destruct Hq as [Hq|[<-|[]]]; [|lra]. specialize (H q Hq). lra.
      + apply Rltb_false in L. specialize (IH (pre ++ [x]) bi bv). rewrite app_length in IH. cbn [length] in IH. rewrite Nat.add_1_r in IH. apply IH.
        * rewrite nth_error_app1; auto. apply nth_error_Some. congruence.
        * intros q Hq. apply in_app_or in Hq. destruct Hq as [Hq|[<-|[]]]; auto. }
  intros NE. destruct l as [|x l]; [congruence|]. apply (G l [x] 0%nat x); auto. intros q [<-|[]]. lra.
Qed.
Lemma maxelI_ok : maxel3_ok argmaxI. Proof. intros key P NE. apply argmax_ok; auto. Qed.
Lemma minmaxI_ok3 : minmax3_ok minmaxI3.
Proof.
  intros key P NE. destruct (@argmax_ok _ (fun p => - key p) P NE) as (a & Ea & Ha). destruct (@argmax_ok _ key P NE) as (b & Eb & Hb).
  exists a, b. unfold minmaxI3. cbn [fst snd]. split; [|split; auto].
  - rewrite <- Ea. f_equal. unfold argmaxI. destruct P as [|x P]; auto.
    enough (G : forall P i bi bv, argmaxF (fun a b : p3 => Rltb (key b) (key a)) P i bi bv = argmaxF (fun a b : p3 => Rltb (- key a) (- key b)) P i bi bv) by apply G.
    clear. induction P as [|y P IH]; intros i bi bv; auto. cbn [argmaxF].
    replace (Rltb (- key bv) (- key y)) with (Rltb (key y) (key bv)); [destruct (Rltb _ _); apply IH|].
    destruct (Rltb (key y) (key bv)) eqn:A, (Rltb (- key bv) (- key y)) eqn:B; auto; [apply Rltb_true in A; apply Rltb_false in B|apply Rltb_false in A; apply Rltb_true in B]; lra.
  - intros q Hq. specialize (Ha q Hq). specialize (Hb q Hq). cbn beta in Ha. lra.
Qed.
Lemma insI_perm X (lt : X -> X -> bool) x l : Permutation (x :: l) (insI lt x l).
Proof. induction l as [|y l IH]; auto. cbn [insI]. destruct (lt y x); auto. rewrite perm_swap. auto. Qed.
Lemma sortI_perm X (lt : X -> X -> bool) l : Permutation l (sortI lt l).
Proof. induction l as [|x l IH]; auto. cbn. etransitivity; [apply perm_skip, IH|apply insI_perm]. Qed.
Lemma sortI_ok : sort3_ok sortI.
Proof.
  intros key l. split; [apply sortI_perm|]. induction l as [|x l IH]; [constructor|]. cbn [sortI fold_right]. fold (sortI (fun a b => Rltb (key a) (key b)) l).
  revert IH. generalize (sortI (fun a b => Rltb (key a) (key b)) l) as s. clear. induction s as [|y s IH]; intros S; [constructor; auto; constructor|].
  cbn [insI]. apply StronglySorted_inv in S. destruct S as [S F]. destruct (Rltb (key y) (key x)) eqn:L.
  - apply Rltb_true in L. constructor; auto. rewrite Forall_forall in *. intros z Hz. apply (Permutation_in _ (Permutation_sym (insI_perm _ x s))) in Hz.
    destruct Hz as [<-|Hz]; auto. lra.
  - apply Rltb_false in L. constructor; [constructor; auto|]. rewrite Forall_forall in *. intros z [<-|Hz]; [lra|]. specialize (F z Hz). lra.
Qed.
