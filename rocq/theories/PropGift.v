(** C91: the gift wrapping hull. *)
From Coq Require Import ZArith Floats Reals Lra.
From Verif Require Import Base Num FloatNum H3Model HashModel HashProofs PropHash GiftModel GiftProofs.
Set Implicit Arguments.

(** *** Specification *)
(** Contract of min_element and max_element: a position *)
Definition positions K (minPos : list (v3 (nT K)) -> nat) (maxPos : (v3 (nT K) -> nT K) -> list (v3 (nT K)) -> nat) : Prop :=
  forall P, P <> [] -> minPos P < length P /\ forall f, maxPos f P < length P.
(** The directed edge from u to v belongs to the facet. *)
Definition hasEdge (f : nat * nat * nat) (u v : nat) : Prop :=
  let '(a, b, c) := f in (u = a /\ v = b) \/ (u = b /\ v = c) \/ (u = c /\ v = a).
(** The origin is below the facet on the three points. *)
Definition below K (P : list (v3 (nT K))) (a b c : nat) : Prop :=
  exists pa pb pc, nth_error P a = Some pa /\ nth_error P b = Some pb /\ nth_error P c = Some pc /\
    nlt K (nzero K) (det3 K pa pb pc) = true.

Section Proofs.
  Variable K : Num.
  Variable acosf : nT K -> nT K.
  Variable minPos : list (v3 (nT K)) -> nat.
  Variable maxPos : (v3 (nT K) -> nT K) -> list (v3 (nT K)) -> nat.
  Variable realloc : nat -> bool.
  Variable hash : edge -> nat.
  Variable P : list (v3 (nT K)).
  Notation wrapE := (wrapEdge K acosf maxPos realloc hash P).
  Notation wrapEs := (wrapEdges K acosf maxPos realloc hash P).
  Notation wrapL := (wrap K acosf maxPos realloc hash P).
  Notation good := (goodTab K hash P).

  Lemma getP_ok i : i < length P -> exists p, getP K P i = Ok p /\ nth_error P i = Some p.
  Proof.
    intros H. unfold getP. destruct (nth_error P i) as [p|] eqn:E; eauto. apply nth_error_None in E. lia.
  Qed.
  Lemma newFc_below a b c : below K P a b c -> newFc K P a b c = Ok (c, b, a).
  Proof. intros (pa & pb & pc & Ea & Eb & Ec & D). unfold newFc, getP. rewrite Ea, Eb, Ec. cbn [bind]. rewrite D. reflexivity. Qed.
  Lemma newFc_above a b c : a < length P -> b < length P -> c < length P -> ~ below K P a b c -> newFc K P a b c = Ok (a, b, c).
  Proof.
    intros Ha Hb Hc Hn. unfold newFc. destruct (getP_ok Ha) as (pa & -> & Ea), (getP_ok Hb) as (pb & -> & Eb), (getP_ok Hc) as (pc & -> & Ec).
    cbn [bind]. destruct (nlt K (nzero K) (det3 K pa pb pc)) eqn:E; auto. exfalso. apply Hn. exists pa, pb, pc. auto.
  Qed.

  Lemma edges_ne f : forall e, In e (edgesOf f) -> e <> noEdge.
  Proof. destruct f as [[a b] c]. cbn. intros e [<-|[<-|[<-|[]]]]; apply dir_ne. Qed.
  Lemma in_edges f u v : In (dir u v) (edgesOf f) <-> hasEdge f u v.
  Proof.
    destruct f as [[a b] c]. cbn. split.
    - intros [E|[E|[E|[]]]]; apply dir_inj in E as [<- <-]; auto.
    - intros [[-> ->]|[[-> ->]|[-> ->]]]; auto.
  Qed.
  Definition allEdges (H : list fc) : list edge := flat_map edgesOf H.

  (** The state without reallocation: the table holds the edges of the facets, and
      every facet is in the queue or its reversed edges are marked. *)
  Definition closed (s : gstate) (f : fc) (j : nat) : Prop :=
    let '(e1, e2, _) := turn j f in In (dir e1 e2) (allEdges (gH s)).
  Record Inv (s : gstate) (Q : list ptr) (cur : option nat) : Prop := {
    v_gen : gMoves s = 0;
    v_tab : exists es, good (gT s) es /\ forall e, In e es <-> In e (allEdges (gH s));
    v_ptr : forall i f, nth_error (gH s) i = Some f ->
              In (0, i) Q \/ cur = Some i \/ forall j, j < 3 -> closed s f j;
    v_q : forall q, In q Q -> fst q = 0 }.

  Hypothesis NoMove : forall n, realloc n = false.
  (** Every facet found by pivoting has the origin below. *)
  Definition consistent (H : list fc) : Prop :=
    forall f, In f H -> forall j e1 e2 e3 q, j < 3 -> turn j f = (e1, e2, e3) ->
      pivotOnFacet K acosf maxPos P e1 e2 e3 = Ok q -> below K P e1 q e2.

  Lemma closed_mono s s' f j : incl (allEdges (gH s)) (allEdges (gH s')) -> closed s f j -> closed s' f j.
  Proof. intros HI. unfold closed. destruct (turn j f) as [[e1 e2] e3]. apply HI. Qed.

  Lemma wrapE_ok s Q i f j s' Q' Hfin : Inv s Q (Some i) -> nth_error (gH s) i = Some f -> j < 3 ->
    wrapE (0, i) j s Q = Ok (s', Q') -> consistent Hfin -> In f Hfin ->
    Inv s' Q' (Some i) /\ closed s' f j /\ exists l, gH s' = gH s ++ l.
  Proof.
    intros [Vg (es & G & HE) Vp Vq] Hi Hj E HC Hf. unfold wrapEdge, deref in E. cbn [fst snd] in E.
    rewrite Vg, Hi in E. cbn [Nat.eqb bind] in E. destruct (turn j f) as [[e1 e2] e3] eqn:Et.
    destruct (processed K hash P (dir e1 e2) (gT s)) as [b| | |] eqn:Ep; try discriminate. cbn [bind] in E. destruct b.
    - injection E as <- <-. split; [constructor; eauto|]. split.
      + unfold closed. rewrite Et. apply HE. apply (processed_sound G (@dir_ne e1 e2) Ep).
      + exists []. rewrite app_nil_r. reflexivity.
    - destruct (pivotOnFacet K acosf maxPos P e1 e2 e3) as [q| | |] eqn:Eq; try discriminate. cbn [bind] in E.
      rewrite (newFc_below (HC f Hf j e1 e2 e3 q Hj Et Eq)) in E. cbn [bind] in E.
      unfold emplace in E. rewrite NoMove, Vg in E. cbn [gT gH gMoves] in E.
      destruct (marks K hash P (edgesOf (e2, q, e1)) (gT s)) as [tab| | |] eqn:Em; try discriminate. cbn [bind] in E.
      injection E as <- <-.
      assert (HI : incl (allEdges (gH s)) (allEdges (gH s ++ [(e2, q, e1)]))).
      { unfold allEdges. rewrite flat_map_app. apply incl_appl, incl_refl. }
      split; [|split].
      + constructor; cbn [gMoves gT gH].
        * reflexivity.
        * eexists. split; [apply (marks_sound _ G (edges_ne (e2, q, e1)) Em)|]. intros e. unfold allEdges.
          rewrite flat_map_app, !in_app_iff, <- in_rev, HE. unfold allEdges. cbn [flat_map]. rewrite app_nil_r. tauto.
        * intros i' f' H'. destruct (Nat.lt_ge_cases i' (length (gH s))) as [L|L].
          { rewrite nth_error_app1 in H' by auto. destruct (Vp i' f' H') as [H1|[H1|H1]]; auto.
            - left. apply in_app_iff. auto.
            - right. right. intros j' Hj'. apply (@closed_mono s); auto. }
          { left. apply in_app_iff. right. cbn. left. f_equal.
            assert (HL : nth_error (gH s ++ [(e2, q, e1)]) i' <> None) by (intros F; discriminate (eq_trans (eq_sym H') F)).
            apply nth_error_Some in HL. rewrite app_length in HL. cbn in HL. lia. }
        * intros x Hx. apply in_app_iff in Hx as [Hx|[<-|[]]]; auto.
      + unfold closed. rewrite Et. cbn [gH]. unfold allEdges. rewrite flat_map_app. apply in_app_iff. right. cbn. auto.
      + eexists. cbn [gH]. reflexivity.
  Qed.

  Lemma wrapEs_ok i f Hfin : consistent Hfin -> In f Hfin -> forall js s Q s' Q',
    Inv s Q (Some i) -> nth_error (gH s) i = Some f -> (forall j, In j js -> j < 3) ->
    wrapEs (0, i) js s Q = Ok (s', Q') ->
    Inv s' Q' (Some i) /\ (forall j, In j js -> closed s' f j) /\ exists l, gH s' = gH s ++ l.
  Proof.
    intros HC Hf. induction js as [|j js IH]; cbn [wrapEdges]; intros s Q s' Q' V Hi Hj E.
    - injection E as <- <-. split; auto. split; [intros j []|]. exists []. rewrite app_nil_r. reflexivity.
    - destruct (wrapE (0, i) j s Q) as [[s1 Q1]| | |] eqn:E1; try discriminate. cbn [bind] in E.
      destruct (@wrapE_ok s Q i f j s1 Q1 Hfin V Hi (Hj j (or_introl eq_refl)) E1 HC Hf) as (V1 & C1 & l1 & L1).
      assert (Hi1 : nth_error (gH s1) i = Some f).
      { rewrite L1, nth_error_app1; auto. apply nth_error_Some. congruence. }
      destruct (IH s1 Q1 s' Q' V1 Hi1) as (V2 & C2 & l2 & L2); [intros x Hx; apply Hj; cbn; auto|auto|].
      split; auto. split.
      + intros x [<-|Hx]; auto. apply (@closed_mono s1); auto. rewrite L2. unfold allEdges. rewrite flat_map_app.
        apply incl_appl, incl_refl.
      + exists (l1 ++ l2). rewrite L2, L1, app_assoc. reflexivity.
  Qed.

  Lemma wrapEs_grow p js : forall s Q s' Q', wrapEs p js s Q = Ok (s', Q') -> exists l, gH s' = gH s ++ l.
  Proof.
    induction js as [|j js IH]; cbn [wrapEdges]; intros s Q s' Q' E.
    - injection E as <- <-. exists []. rewrite app_nil_r. reflexivity.
    - destruct (wrapE p j s Q) as [[s1 Q1]| | |] eqn:E1; try discriminate. cbn [bind] in E.
      assert (H1 : exists l, gH s1 = gH s ++ l).
      { unfold wrapEdge in E1. apply bind_ok in E1 as (f & _ & E1). destruct (turn j f) as [[e1 e2] e3].
        apply bind_ok in E1 as (b & _ & E1). destruct b.
        - injection E1 as <- <-. exists []. rewrite app_nil_r. reflexivity.
        - apply bind_ok in E1 as (q & _ & E1). apply bind_ok in E1 as (f' & _ & E1).
          unfold emplace in E1. apply bind_ok in E1 as (tab & _ & E1). injection E1 as <- <-. cbn [gH]. eauto. }
      destruct H1 as (l1 & L1). destruct (IH _ _ _ _ E) as (l2 & L2). exists (l1 ++ l2). rewrite L2, L1, app_assoc. reflexivity.
  Qed.
  Lemma wrap_grow fuel : forall s Q s', wrapL fuel s Q = Ok s' -> exists l, gH s' = gH s ++ l.
  Proof.
    induction fuel as [|fuel IH]; intros s [|p Q] s' E; cbn [wrap] in E; try discriminate;
      try (injection E as <-; exists []; rewrite app_nil_r; reflexivity).
    apply bind_ok in E as ([s1 Q1] & E1 & E). destruct (wrapEs_grow _ _ _ _ E1) as (l1 & L1).
    destruct (IH _ _ _ E) as (l2 & L2). exists (l1 ++ l2). rewrite L2, L1, app_assoc. reflexivity.
  Qed.

  Lemma wrap_ok fuel : forall s Q s', Inv s Q None -> wrapL fuel s Q = Ok s' -> consistent (gH s') -> Inv s' [] None.
  Proof.
    induction fuel as [|fuel IH]; intros s [|[g i] Q] s' V E HC; cbn [wrap] in E; try discriminate;
      try (injection E as <-; exact V).
    apply bind_ok in E as ([s1 Q1] & E1 & E). apply (IH s1 Q1); auto.
    assert (g = 0) by (apply (v_q V (g, i)); cbn; auto). subst g.
    assert (Hd : exists f, nth_error (gH s) i = Some f).
    { cbn [wrapEdges] in E1. apply bind_ok in E1 as ([s2 Q2] & E2 & _). unfold wrapEdge in E2.
      apply bind_ok in E2 as (f & Ed & _). unfold deref in Ed. cbn [fst snd] in Ed. destruct (0 =? gMoves s); [|discriminate].
      destruct (nth_error (gH s) i) as [f'|]; [eauto|discriminate]. }
    destruct Hd as (f & Hi).
    assert (V' : Inv s Q (Some i)).
    { destruct V as [A1 A2 A3 A4]. constructor; auto.
      - intros i' f' H'. destruct (A3 i' f' H') as [[E'|H1]|[H1|H1]]; auto; [|discriminate].
        injection E' as ->. auto.
      - intros q Hq. apply A4. cbn. auto. }
    destruct (wrapEs_grow _ _ _ _ E1) as (l1 & L1). destruct (wrap_grow _ _ _ E) as (l2 & L2).
    assert (Hf : In f (gH s')).
    { rewrite L2, L1, !in_app_iff. left. left. eapply nth_error_In; eauto. }
    destruct (@wrapEs_ok i f (gH s') HC Hf [0; 1; 2] s Q s1 Q1 V' Hi) as (V1 & C1 & _); auto.
    { cbn. intros j Hj. lia. }
    destruct V1 as [A1 A2 A3 A4]. constructor; auto. intros i' f' H'. destruct (A3 i' f' H') as [H1|[H1|H1]]; auto.
    injection H1 as <-. right. right.
    assert (f' = f).
    { rewrite L1, nth_error_app1 in H'; [congruence|]. apply nth_error_Some. congruence. }
    subst f'. intros j Hj. apply C1. cbn. lia.
  Qed.
End Proofs.

(** *** C91 *)
(** If the sequence of facets is never moved and every facet found by pivoting has
    the origin below it, then the facets returned are watertight: the reverse of
    every edge of a facet is an edge of a facet. *)
Theorem C91_watertight_partial K acosf minPos maxPos realloc hash (P : list (v3 (nT K))) fuel H p1 p2 p3 :
  (forall n, realloc n = false) ->
  firstFacet K acosf minPos maxPos P = Ok (p1, p2, p3) -> below K P p1 p2 p3 ->
  giftFacets K acosf minPos maxPos realloc hash P fuel = Ok H ->
  consistent K acosf maxPos P H ->
  In (p3, p2, p1) H /\
  forall f u v, In f H -> hasEdge f u v -> exists f', In f' H /\ hasEdge f' v u.
Proof.
  intros NM E1 HB E HC. unfold giftFacets in E. rewrite E1 in E. cbn [bind] in E. rewrite (newFc_below HB) in E. cbn [bind] in E.
  apply bind_ok in E as (tab & Em & E). apply bind_ok in E as (s & Ew & E). injection E as <-.
  assert (G : goodTab K hash P tab (rev [dir p2 p1; dir p3 p2; dir p1 p3] ++ [])).
  { eapply marks_sound; [apply good_new| |exact Em]. cbn. intros e [<-|[<-|[<-|[]]]]; apply dir_ne. }
  assert (V : Inv K hash P (GS [(p3, p2, p1)] 0 tab) [(0, 0)] None).
  { constructor; cbn [gMoves gT gH]; auto.
    - eexists. split; [exact G|]. intros e. cbn. tauto.
    - intros [|i] f Hi; [left; cbn; auto|]. destruct i; discriminate.
    - intros q [<-|[]]. reflexivity. }
  pose proof (@wrap_ok K acosf minPos maxPos realloc hash P NM fuel _ _ _ V Ew HC) as [_ _ Vp _].
  destruct (@wrap_grow K acosf maxPos realloc hash P fuel _ _ _ Ew) as (l & L). cbn [gH] in L. split.
  - rewrite L. cbn. auto.
  - intros f u v Hf He. apply In_nth_error in Hf as [i Hi]. destruct (Vp i f Hi) as [[]|[D|C]]; [discriminate|].
    assert (Hr : In (dir v u) (allEdges (gH s))).
    { destruct f as [[a b] c]. pose proof (C 0 ltac:(lia)) as C0. pose proof (C 1 ltac:(lia)) as C1. pose proof (C 2 ltac:(lia)) as C2.
      cbn in C0, C1, C2, He. destruct He as [[-> ->]|[[-> ->]|[-> ->]]]; auto. }
    unfold allEdges in Hr. apply in_flat_map in Hr as (f' & Hf' & Hr). exists f'. split; auto. apply in_edges. auto.
Qed.
Print Assumptions C91_watertight_partial.

(** If the first facet does not have the origin below it, it is the whole result. *)
Theorem C91_one_facet_refuted K acosf minPos maxPos realloc hash (P : list (v3 (nT K))) fuel p1 p2 p3 :
  positions K minPos maxPos -> P <> [] -> firstFacet K acosf minPos maxPos P = Ok (p1, p2, p3) -> ~ below K P p1 p2 p3 ->
  giftFacets K acosf minPos maxPos realloc hash P (S fuel) = Ok [(p1, p2, p3)].
Proof.
  intros HP Hne E1 HB. destruct (HP P Hne) as [Hmin Hmax].
  assert (HB3 : p1 < length P /\ p2 < length P /\ p3 < length P).
  { unfold firstFacet in E1. apply bind_ok in E1 as (a & _ & E1). apply bind_ok in E1 as (b & _ & E1). injection E1 as <- <- <-.
    unfold pivotOnFacet0. auto. }
  destruct HB3 as (H1 & H2 & H3). unfold giftFacets. rewrite E1. cbn [bind]. rewrite (newFc_above H1 H2 H3 HB). cbn [bind].
  assert (HN : 4 <= 4 * length P) by (destruct P; [congruence|cbn; lia]). pose proof (@cells_big K P) as HB4.
  destruct (@marks_total K hash P [dir p2 p1; dir p3 p2; dir p1 p3] _ [] (@good_new K hash P)) as (tab & -> & G).
  { cbn. intros e [<-|[<-|[<-|[]]]]; apply dir_ne. }
  { cbn [length]. lia. }
  cbn [rev app] in G. cbn [bind wrap].
  assert (PR : forall e, In e [dir p1 p3; dir p3 p2; dir p2 p1] -> processed K hash P e tab = Ok true).
  { intros e He. destruct (@processed_total K hash P tab _ e G) as (b & E & Hb).
    - cbn in He. destruct He as [<-|[<-|[<-|[]]]]; apply dir_ne.
    - cbn [length]. lia.
    - rewrite E. f_equal. apply Hb. exact He. }
  assert (W : wrapEdges K acosf maxPos realloc hash P (0, 0) [0; 1; 2] (GS [(p1, p2, p3)] 0 tab) [] = Ok (GS [(p1, p2, p3)] 0 tab, [])).
  { cbn [wrapEdges]. unfold wrapEdge, deref. cbn [gMoves gH gT fst snd Nat.eqb nth_error bind turn].
    rewrite (PR (dir p2 p1)) by (cbn; auto). cbn [bind gMoves gH gT fst snd Nat.eqb nth_error turn].
    rewrite (PR (dir p3 p2)) by (cbn; auto). cbn [bind gMoves gH gT fst snd Nat.eqb nth_error turn].
    rewrite (PR (dir p1 p3)) by (cbn; auto). reflexivity. }
  match goal with |- context [wrapEdges ?a ?b ?c ?d ?e ?f ?g ?h ?i ?j] =>
    replace (wrapEdges a b c d e f g h i j) with (Ok (GS [(p1, p2, p3)] 0 tab, @nil ptr)) by (symmetry; exact W) end.
  cbn [bind]. destruct fuel; reflexivity.
Qed.
Print Assumptions C91_one_facet_refuted.

(** A tetrahedron whose leftmost corner is the origin: one facet of the four is
    returned, whatever acos, the hash function and the sequence do. *)
Definition tetra : list (v3 R) := [V3 0 0 0; V3 1 0 0; V3 1 1 0; V3 1 0 1]%R.
Theorem C91_tetrahedron_refuted acosf maxPos realloc hash minPos fuel :
  positions RNum minPos maxPos -> minPos tetra = 0 ->
  exists f, giftFacets RNum acosf minPos maxPos realloc hash tetra (S fuel) = Ok [f].
Proof.
  intros HP H0. destruct (HP tetra ltac:(discriminate)) as [_ Hmax].
  assert (E1 : exists p2 p3, firstFacet RNum acosf minPos maxPos tetra = Ok (0, p2, p3)).
  { unfold firstFacet. rewrite H0. cbn [getP tetra nth_error bind].
    match goal with |- context [getP RNum _ ?i] => destruct (@getP_ok RNum tetra i) as (b & Eb & _); [apply Hmax|] end.
    unfold tetra in Eb at 1. unfold tetra at 1. rewrite Eb. cbn [bind]. eauto. }
  destruct E1 as (p2 & p3 & E1). exists (0, p2, p3). apply C91_one_facet_refuted; auto; [discriminate|].
  intros (pa & pb & pc & Ea & _ & _ & D). cbn in Ea. injection Ea as <-. cbn in D. apply Rltb_true in D.
  lra.
Qed.
Print Assumptions C91_tetrahedron_refuted.
(** the leftmost corner has the smallest x coordinate *)
Example C91_tetrahedron_first : forall i p, nth_error tetra (S i) = Some p -> (0 < vx p)%R.
Proof. intros [|[|[|[|i]]]] p E; cbn in E; try discriminate; injection E as <-; cbn; lra. Qed.

(** If the second facet moves the sequence, the first is read after it was freed. *)
Theorem C91_dangling_refuted K acosf minPos maxPos realloc hash (P : list (v3 (nT K))) fuel p1 p2 p3 :
  positions K minPos maxPos -> P <> [] -> firstFacet K acosf minPos maxPos P = Ok (p1, p2, p3) -> below K P p1 p2 p3 ->
  p1 <> p2 -> p1 <> p3 -> p2 <> p3 -> realloc 1 = true ->
  giftFacets K acosf minPos maxPos realloc hash P (S fuel) = UB.
Proof.
  intros HP Hne E1 HB D12 D13 D23 HR. destruct (HP P Hne) as [Hmin Hmax].
  assert (HB3 : p1 < length P /\ p2 < length P /\ p3 < length P).
  { unfold firstFacet in E1. apply bind_ok in E1 as (a & _ & E1). apply bind_ok in E1 as (b & _ & E1). injection E1 as <- <- <-.
    unfold pivotOnFacet0. auto. }
  destruct HB3 as (H1 & H2 & H3). unfold giftFacets. rewrite E1. cbn [bind]. rewrite (newFc_below HB). cbn [bind].
  assert (HN : 12 <= 4 * length P) by lia. pose proof (@cells_big K P) as HB4.
  destruct (@marks_total K hash P [dir p2 p1; dir p3 p2; dir p1 p3] _ [] (@good_new K hash P)) as (tab & -> & G).
  { cbn. intros e [<-|[<-|[<-|[]]]]; apply dir_ne. }
  { cbn [length]. lia. }
  cbn [rev app] in G. cbn [bind wrap].
  destruct (@processed_total K hash P tab _ (dir p2 p3) G (@dir_ne _ _)) as (b & Eb & Hb); [cbn [length]; lia|].
  destruct b.
  { exfalso. destruct (proj1 Hb eq_refl) as [E|[E|[E|[]]]]; apply dir_inj in E as [? ?]; congruence. }
  cbn [wrapEdges]. unfold wrapEdge at 1. unfold deref at 1. cbn [gMoves gH gT fst snd Nat.eqb nth_error bind turn].
  rewrite Eb. cbn [bind]. unfold pivotOnFacet.
  destruct (@getP_ok K P _ H2) as (x2 & -> & _), (@getP_ok K P _ H3) as (x3 & -> & _), (@getP_ok K P _ H1) as (x1 & -> & _). cbn [bind].
  set (q := pivotOnFacet0 _ _ _ _ _ _ _). assert (Hq : q < length P) by apply Hmax.
  assert (HF : exists f', newFc K P p2 q p3 = Ok f').
  { unfold newFc. destruct (@getP_ok K P _ H2) as (y2 & -> & _), (@getP_ok K P _ Hq) as (y & -> & _), (@getP_ok K P _ H3) as (y3 & -> & _).
    cbn [bind]. eauto. }
  destruct HF as (f' & ->). cbn [bind]. unfold emplace. cbn [gH gMoves gT length]. rewrite HR.
  destruct (@marks_total K hash P (edgesOf f') _ _ G (edges_ne f')) as (tab2 & -> & _).
  { destruct f' as [[? ?] ?]. cbn [edgesOf length]. lia. }
  cbn [bind wrapEdges]. unfold wrapEdge, deref. cbn [fst gMoves Nat.eqb bind]. reflexivity.
Qed.
Print Assumptions C91_dangling_refuted.

(** The table is constructed for 4n edges, but n corners can have 6n-12 directed
    edges: with 100 corners there are 588 edges and 512 cells, and the marks of
    588 different edges do not all return. *)
Theorem C91_table_full_refuted K hash (P : list (v3 (nT K))) es :
  pairCells (4 * length P) < length es -> NoDup es -> (forall e, In e es -> e <> noEdge) ->
  forall tab, marks K hash P es (cleared noEdge tt (cells K P)) <> Ok tab.
Proof.
  intros HL ND HN tab E. pose proof (marks_sound es (@good_new K hash P) HN E) as G.
  pose proof (good_size G) as HS. destruct G as [_ HK].
  assert (HI : incl es (map fst (entries edgeEqb noEdge tab))).
  { intros e He. apply HK. rewrite app_nil_r. apply -> in_rev. exact He. }
  apply NoDup_incl_length in HI; auto. rewrite map_length in HI. unfold cells in HS. lia.
Qed.
Print Assumptions C91_table_full_refuted.
Example C91_cells : pairCells (4 * 100) <? 3 * (2 * 100 - 4) = true.
Proof. vm_compute. reflexivity. Qed.

(** A tetrahedron around the origin, in doubles.  Negation stands for acos: it orders
    the angles in the same way. *)
Definition negCos (x : PrimFloat.float) : PrimFloat.float :=
  if nle FNum x x then nsub FNum (nzero FNum) x else nneg1 FNum.
Definition minX (P : list (v3 (nT FNum))) : nat :=
  fst (fold_left (fun best ip => if nlt FNum (vx (snd ip)) (vx (snd best)) then ip else best)
         (combine (seq 0 (length P)) P) (0, nth 0 P (V3 (nzero FNum) (nzero FNum) (nzero FNum)))).
Definition maxBy (f : v3 (nT FNum) -> nT FNum) (P : list (v3 (nT FNum))) : nat :=
  fst (fold_left (fun best ip => if nlt FNum (f (snd best)) (f (snd ip)) then ip else best)
         (combine (seq 0 (length P)) P) (0, nth 0 P (V3 (nzero FNum) (nzero FNum) (nzero FNum)))).
Definition around : list (v3 (nT FNum)) :=
  [V3 0x0p0 0x0p0 0x1p1; V3 0x1p1 (-0x1p0) (-0x1p0); V3 (-0x1p1) (-0x1p0) (-0x1p0); V3 0x0p0 0x1p1 (-0x1p0)]%float.
Definition exEdgeHash (e : edge) : nat := Z.to_nat (fst e * 4 + snd e).
Example C91_example :
  giftFacets FNum negCos minX maxBy (fun _ => false) exEdgeHash around 10
  = Ok [(0, 1, 2); (0, 3, 1); (1, 3, 2); (2, 3, 0)].
Proof. vm_compute. reflexivity. Qed.
Example C91_moved_example : giftFacets FNum negCos minX maxBy (fun n => n =? 1) exEdgeHash around 10 = UB.
Proof. vm_compute. reflexivity. Qed.
(** The same tetrahedron, moved away from the origin by 5: one facet *)
Example C91_moved_away_refuted :
  giftFacets FNum negCos minX maxBy (fun _ => false) exEdgeHash
    (map (fun p => V3 (vx p) (nadd FNum (vy p) 0x1.4p2) (vz p)) around)%float 10 = Ok [(2, 1, 0)].
Proof. vm_compute. reflexivity. Qed.
