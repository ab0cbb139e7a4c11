(** C79-C80: the parallel quickhull in space. *)
From Coq Require Import ZArith Floats Reals Lra Lia List Bool Permutation.
From Verif Require Import Base Num FloatNum H3Model H3Geom H3Heap H3Loop H3Init H3Init2 H3Spec H3Final H3Inst H3ParModel H3ParHeap H3ParRound H3ParMain PropHull3d.
Set Implicit Arguments.
Open Scope R_scope.

(** The contracts: a position of the list of the facet, distinct addresses, and
    orders that leave nothing out. *)
Definition choose_ok (choose : nat -> fct RNum -> nat) : Prop := forall i f, see f <> [] -> (choose i f < length (see f))%nat.
Definition addr_ok (addr : nat -> nat) : Prop := forall i j, addr i = addr j -> i = j.
Definition order_ok (qord : list (v3 (nT RNum) * nat) -> list (v3 (nT RNum) * nat)) (shuf : nat -> forall X : Type, list X -> list X) : Prop :=
  (forall l, Permutation l (qord l)) /\ forall t X l, Permutation l (@shuf t X l).

(** C79: with any number of workers, any choice of apexes and any order of the
    parallel iterations, the parallel quickhull returns the facets of the hull,
    each once, when there are at least 64 of them; when there are fewer it reads
    through a null pointer. *)
Theorem C79_parallel_partial : forall eps mm mx choose addr qord shuf np P L, minmax3_ok mm -> maxel3_ok mx ->
  choose_ok choose -> addr_ok addr -> order_ok qord shuf -> (0 < np)%nat ->
  0 <= eps -> general P (4 * eps) -> fourOf P -> hull_facets P L ->
  ((64 <= length L)%nat -> exists L', @computePar RNum eps choose addr qord shuf mm mx np P = Ok L' /\ hull_facets P L') /\
  ((length L < 64)%nat -> @computePar RNum eps choose addr qord shuf mm mx np P = UB).
Proof.
  intros eps mm mx choose addr qord shuf np P L Hm Hx Hc Ha [Hq Hs] N E G F HL. apply general_margin in G. apply fourOf_pts in F.
  destruct (@computePar_ok P eps E G F mm mx Hm Hx choose Hc addr Ha qord Hq shuf Hs np N) as (L' & HL' & EL).
  rewrite (facets_len HL HL'). split; intros B.
  - exists L'. split; auto. etransitivity; [exact EL|]. apply Nat.ltb_ge in B. change (nT RNum) with R in *. now rewrite B.
  - etransitivity; [exact EL|]. apply Nat.ltb_lt in B. change (nT RNum) with R in *. now rewrite B.
Qed.
Print Assumptions C79_parallel_partial.

(** five points can have no 64 facets *)
Lemma five_few L : hull_facets five L -> (length L < 64)%nat.
Proof.
  intros (A & B & C). set (at5 := fun i => nth i five (V3 0 0 0)).
  set (idx := filter (fun c : nat * nat * nat => let '(i, j, k) := c in negb (i =? j)%nat && negb (j =? k)%nat && negb (k =? i)%nat)
                (list_prod (list_prod (seq 0 5) (seq 0 5)) (seq 0 5))).
  set (T := map (fun c : nat * nat * nat => let '(i, j, k) := c in (at5 i, at5 j, at5 k)) idx).
  assert (LT : length T = 60%nat) by (unfold T; rewrite map_length; reflexivity).
  apply Nat.le_lt_trans with (length T); [|lia]. apply NoDup_incl_length.
  - apply NoDup_nth_error. intros i j Hi E. destruct (nth_error L i) as [t|] eqn:Et; [|apply nth_error_None in Et; lia].
    eapply C; eauto. intros q. reflexivity.
  - intros [[x y] z] Ht. destruct (A _ Ht) as (Ix & Iy & Iz & N1 & N2 & N3 & _).
    assert (X : forall w, In w five -> exists i, (i < 5)%nat /\ at5 i = w).
    { intros w Hw. destruct (In_nth five w (V3 0 0 0) Hw) as (i & Li & E). exists i. split; auto. }
    destruct (X _ Ix) as (i & Li & <-), (X _ Iy) as (j & Lj & <-), (X _ Iz) as (k & Lk & <-).
    apply in_map_iff. exists (i, j, k). split; auto. unfold idx. apply filter_In. split.
    + apply in_prod; [apply in_prod|]; apply in_seq; lia.
    + destruct (Nat.eqb_spec i j); [subst; congruence|]. destruct (Nat.eqb_spec j k); [subst; congruence|].
      destruct (Nat.eqb_spec k i); [subst; congruence|]. reflexivity.
Qed.
(** For five points every run is undefined. *)
Theorem C79_refuted : forall mm mx choose addr qord shuf np, minmax3_ok mm -> maxel3_ok mx -> choose_ok choose -> addr_ok addr -> order_ok qord shuf -> (0 < np)%nat ->
  @computePar RNum (/ 100000) choose addr qord shuf mm mx np five = UB.
Proof.
  intros mm mx choose addr qord shuf np Hm Hx Hc Ha Ho N. destruct five_general as (G & ND & F).
  assert (E : 0 <= / 100000) by lra.
  destruct (@C61_quickhull (/ 100000) mm mx five Hm Hx E G F) as [_ H]. destruct (H (or_intror ND)) as (L & _ & HL).
  apply (@C79_parallel_partial (/ 100000) mm mx choose addr qord shuf np five L); auto. apply five_few; auto.
Qed.
Print Assumptions C79_refuted.

(** the points of a space curve: with 34 or more there are 64 facets *)
Example moment_parallel : forall mm mx choose addr qord shuf np n, minmax3_ok mm -> maxel3_ok mx -> choose_ok choose -> addr_ok addr -> order_ok qord shuf ->
  (0 < np)%nat -> (34 <= n)%nat -> exists L, @computePar RNum (/ 100000) choose addr qord shuf mm mx np (moment n) = Ok L /\ hull_facets (moment n) L.
Proof.
  intros mm mx choose addr qord shuf np n Hm Hx Hc Ha Ho N Ln.
  assert (E : 0 <= / 100000) by lra. assert (G : general (moment n) (4 * / 100000)) by (apply general_margin, moment_margin; lra).
  assert (F : fourOf (moment n)) by (apply moment_four; lia).
  destruct (@C61_quickhull (/ 100000) mm mx (moment n) Hm Hx E G F) as [_ H].
  destruct H as (L & _ & HL); [left; unfold moment; rewrite map_length, seq_length; lia|].
  apply (@C79_parallel_partial (/ 100000) mm mx choose addr qord shuf np (moment n) L); auto.
  apply Nat.le_trans with (2 * n - 4)%nat; [lia|]. apply moment_facets; auto. lia.
Qed.
(** in doubles: twelve points have eighteen facets *)
Definition firstF (i : nat) (f : fct FNum) : nat := 0.
Definition idq (l : list (v3 (nT FNum) * nat)) := l.
Definition revs (t : nat) (X : Type) (l : list X) := rev l.
Example dozen_parallel : @computePar FNum epsF firstF (fun i => i) idq revs minmaxI3 argmaxI 4 dozen = UB.
Proof. vm_compute. reflexivity. Qed.
(** thirty-six points of the curve, in doubles, have 68; the last two rounds are
    those of many apexes *)
Definition curveF : list (v3 (nT FNum)) := map (fun i => let t := (of_uint63 (Uint63.of_Z (Z.of_nat i)) - 17)%float in V t (t * t) (t * t * t)) (seq 0 36).
Example curve_parallel : match @computePar FNum epsF firstF (fun i => i) idq revs minmaxI3 argmaxI 2 curveF with Ok L => length L = 68%nat | _ => False end.
Proof. vm_compute. reflexivity. Qed.
(** the contracts can be met *)
Example contracts_par : choose_ok (fun _ _ => 0%nat) /\ addr_ok (fun i => i) /\ order_ok (@rev _) (fun _ X l => @rev X l).
Proof.
  split; [|split; [|split]].
  - intros i f NE. destruct (see f); [congruence|cbn; lia].
  - intros i j E. exact E.
  - intros l. apply Permutation_rev.
  - intros t X l. apply Permutation_rev.
Qed.

(** C80: reservations.  A facet beneath an apex, or next to one. *)
Section Reserve.
  Variable K : Num.
  Notation live h i f := (nth_error (h : heap K) i = Some (Some f)).
  Definition touches (h : heap K) (fs : list nat) (k : nat) : Prop :=
    In k fs \/ exists i f, In i fs /\ live h i f /\ (fab f = Some k \/ fbc f = Some k \/ fca f = Some k).
  (** all facets to be looked at exist *)
  Definition linked (h : heap K) (fs : list nat) : Prop := forall i, In i fs -> exists f a b c fa' fb' fc',
    live h i f /\ fab f = Some a /\ fbc f = Some b /\ fca f = Some c /\ live h a fa' /\ live h b fb' /\ live h c fc'.
  Definition starts (j : job K) : nat := snd (fst (fst j)).

  Lemma around_touch h k l : @around K h k = Ok l -> forall x, In x l <-> x = k \/ exists f, live h k f /\ (fab f = Some x \/ fbc f = Some x \/ fca f = Some x).
  Proof.
    unfold around. intros E. apply bind_inv in E. destruct E as (f & Ef & E).
    assert (Lf : live h k f) by (unfold getF in Ef; destruct (nth_error h k) as [[g|]|]; congruence).
    destruct (fab f) as [a|] eqn:Ea, (fbc f) as [b|] eqn:Eb, (fca f) as [c|] eqn:Ec; try discriminate.
    do 3 (apply bind_inv in E; destruct E as (? & _ & E)). injection E as <-. intros y. cbn [In]. split.
    - intros [<-|[<-|[<-|[<-|[]]]]]; auto; right; exists f; rewrite Ea, Eb, Ec; auto.
    - intros [->|(g & Eg & H)]; auto. rewrite Lf in Eg. injection Eg as <-. rewrite Ea, Eb, Ec in H. destruct H as [H|[H|H]]; injection H as ->; auto.
  Qed.
  Lemma mapR_inv X Y (f : X -> res Y) l : forall ys, mapR f l = Ok ys -> Forall2 (fun x y => f x = Ok y) l ys.
  Proof.
    induction l as [|x l IH]; intros ys E; [injection E as <-; constructor|]. cbn in E.
    apply bind_inv in E. destruct E as (y & Ey & E). apply bind_inv in E. destruct E as (ys' & Es & E). injection E as <-. constructor; auto.
  Qed.
  Lemma aroundAll_touch h fs l : @aroundAll K h fs = Ok l -> forall x, In x l <-> touches h fs x.
  Proof.
    unfold aroundAll. intros E. apply bind_inv in E. destruct E as (ls & Es & E). injection E as <-. apply mapR_inv in Es.
    intros x. rewrite in_concat. unfold touches. split.
    - intros (l & Hl & Hx). destruct (Forall2_in_r _ Es Hl) as (i & Hi & Ei). apply (around_touch _ _ Ei) in Hx.
      destruct Hx as [->|(f & Lf & H)]; [left; auto|right; exists i, f; auto].
    - intros [Hx|(i & f & Hi & Lf & H)].
      + destruct (Forall2_in_l _ Es Hx) as (l & Hl & El). exists l. split; auto. apply (around_touch _ _ El). auto.
      + destruct (Forall2_in_l _ Es Hi) as (l & Hl & El). exists l. split; auto. apply (around_touch _ _ El). right. eauto.
  Qed.
  Lemma aroundAll_linked h fs : linked h fs -> exists l, @aroundAll K h fs = Ok l.
  Proof.
    intros H. unfold aroundAll. destruct (@mapR_all _ _ (@around K h) (fun _ _ => True) fs) as (ls & E & _).
    - intros i Hi. destruct (H i Hi) as (f & a & b & c & ga & gb & gc & Lf & Ea & Eb & Ec & La & Lb & Lc). unfold around, getF.
      rewrite Lf. cbn [bind]. rewrite Ea, Eb, Ec, La, Lb, Lc. cbn [bind]. eauto.
    - rewrite E. cbn [bind]. eauto.
  Qed.
  Lemma confirm_true addr h rs j : @confirm K addr h rs j = Ok true -> forall k, touches h (snd j) k -> rs k = Some (addr (starts j)).
  Proof.
    destruct j as [[a fr] fs]. unfold confirm, starts. cbn [fst snd]. intros E k Hk. apply bind_inv in E. destruct E as (l & El & E). injection E as E.
    rewrite forallb_forall in E. apply (aroundAll_touch _ _ El) in Hk. specialize (E k Hk). unfold reserved in E. destruct (rs k); [|discriminate].
    apply Nat.eqb_eq in E. now subst.
  Qed.
  Lemma writes_job addr (js : list (job K)) k a : In (k, a) (flat_map (@writes K addr) js) -> exists j, In j js /\ In k (map fst (@writes K addr j)) /\ a = addr (starts j).
  Proof.
    rewrite in_flat_map. intros (j & Hj & H). exists j. split; auto. split; [apply in_map_iff; exists (k, a); auto|].
    destruct j as [[b fr] fs]. unfold writes, starts in *. cbn [fst snd] in *. apply in_map_iff in H. destruct H as (x & E & _). congruence.
  Qed.
  Lemma job_writes addr (js : list (job K)) j k : In j js -> In k (map fst (@writes K addr j)) -> In (k, addr (starts j)) (flat_map (@writes K addr) js).
  Proof.
    intros Hj H. apply in_flat_map. exists j. split; auto. destruct j as [[b fr] fs]. unfold writes, starts in *. cbn [fst snd] in *.
    rewrite map_map in H. cbn [fst] in H. apply in_map_iff in H. destruct H as (x & <- & Hx). apply in_map_iff. eauto.
  Qed.
  Lemma min_start addr (js : list (job K)) : js <> [] -> exists j, In j js /\ forall j', In j' js -> (addr (starts j) <= addr (starts j'))%nat.
  Proof.
    induction js as [|x js IH]; intros NE; [congruence|]. destruct js as [|y js].
    { exists x. split; [left; auto|]. intros j' [<-|[]]; auto. }
    destruct IH as (j & Hj & M); [discriminate|]. destruct (le_lt_dec (addr (starts x)) (addr (starts j))) as [L|L].
    - exists x. split; [left; auto|]. intros j' [<-|H]; auto. specialize (M _ H). lia.
    - exists j. split; [right; auto|]. intros j' [<-|H]; auto. lia.
  Qed.
End Reserve.

(** The writes of an apex [j] are to the facets [touches] says; whatever their
    order, the outcome is the same, two apexes confirmed have no facet in common,
    one of them is confirmed, and after the reset nothing is reserved. *)
Theorem C80_reservations : forall (K : Num) (h : heap K) addr (js : list (job K)) ws, addr_ok addr -> NoDup (map (@starts K) js) ->
  (forall j, In j js -> linked h (snd j) /\ forall k, In k (map fst (@writes K addr j)) <-> touches h (snd j) k) ->
  Permutation (flat_map (@writes K addr) js) ws ->
  let rs := fold_left wmin ws (fun _ => None) in
  (forall ws', Permutation ws ws' -> forall k, fold_left wmin ws' (fun _ => None) k = rs k) /\
  (forall j j' k, In j js -> In j' js -> @confirm K addr h rs j = Ok true -> @confirm K addr h rs j' = Ok true ->
     touches h (snd j) k -> touches h (snd j') k -> j = j') /\
  (js <> [] -> exists j, In j js /\ @confirm K addr h rs j = Ok true) /\
  exists rs', @resetAll K h rs js = Ok rs' /\ forall k, rs' k = None.
Proof.
  intros K h addr js ws Ha ND HJ HP rs.
  assert (FR : forall k a, rs k = Some a -> exists j, In j js /\ touches h (snd j) k /\ a = addr (starts j)).
  { intros k a E. apply wmin_from in E. destruct E as [E|E]; [discriminate|]. apply (Permutation_in _ (Permutation_sym HP)) in E.
    apply writes_job in E. destruct E as (j & Hj & Hk & ->). exists j. split; auto. split; auto. apply (HJ j Hj); auto. }
  assert (TO : forall j k, In j js -> touches h (snd j) k -> exists b, rs k = Some b /\ (b <= addr (starts j))%nat).
  { intros j k Hj Hk. apply wmin_le. right. apply (Permutation_in _ HP). apply job_writes; auto. apply (HJ j Hj); auto. }
  split; [|split; [|split]].
  - intros ws' HP' k. assert (X : forall ws1 ws2, Permutation ws1 ws2 -> forall a, fold_left wmin ws1 (fun _ => None) k = Some a ->
      exists b, fold_left wmin ws2 (fun _ => None) k = Some b /\ (b <= a)%nat).
    { intros ws1 ws2 P12 a E. apply wmin_from in E. destruct E as [E|E]; [discriminate|]. apply wmin_le. right. eapply Permutation_in; eauto. }
    unfold rs. destruct (fold_left wmin ws' _ k) as [a|] eqn:E'.
    + destruct (X _ _ (Permutation_sym HP') _ E') as (b & Eb & Lb). destruct (X _ _ HP' _ Eb) as (c & Ec & Lc). rewrite Eb. rewrite E' in Ec. injection Ec as <-. f_equal. lia.
    + destruct (fold_left wmin ws _ k) as [a|] eqn:E; auto. destruct (X _ _ HP' _ E) as (b & Eb & _). congruence.
  - intros j j' k Hj Hj' C C' T T'. pose proof (@confirm_true K addr h rs j C k T). pose proof (@confirm_true K addr h rs j' C' k T').
    assert (Es : starts j = starts j') by (apply Ha; congruence).
    apply In_nth_error in Hj, Hj'. destruct Hj as [i Hi], Hj' as [i' Hi']. assert (i = i'); [|congruence].
    apply (proj1 (NoDup_nth_error _) ND); [rewrite map_length; apply nth_error_Some; congruence|].
    rewrite !nth_error_map, Hi, Hi'. cbn. congruence.
  - intros NE. destruct (@min_start K addr js NE) as (j & Hj & M). exists j. split; auto.
    destruct (@aroundAll_linked K h (snd j) (proj1 (HJ j Hj))) as [l El].
    assert (A : forall k, In k l -> @reserved K addr rs (fst (fst j)) k = true).
    { intros k Hk. apply (aroundAll_touch _ _ El) in Hk. destruct (TO j k Hj Hk) as (b & Eb & Lb). unfold reserved. rewrite Eb.
      destruct (FR _ _ Eb) as (j' & Hj' & _ & ->). specialize (M _ Hj'). apply Nat.eqb_eq. unfold starts in *. lia. }
    destruct j as [[a fr] fs]. unfold confirm. cbn [fst snd] in *. rewrite El. cbn [bind]. f_equal. apply forallb_forall. exact A.
  - unfold resetAll. destruct (@mapR_all _ _ (fun j : job K => @aroundAll K h (snd j)) (fun j l => forall k, In k l <-> touches h (snd j) k) js) as (ls & El & F2).
    { intros j Hj. destruct (@aroundAll_linked K h (snd j) (proj1 (HJ j Hj))) as [l El]. exists l. split; auto. apply aroundAll_touch; auto. }
    match goal with |- context [bind ?x _] => replace x with (Ok ls) by (symmetry; exact El) end. cbn [bind].
    eexists. split; [reflexivity|]. intros k. cbn beta. destruct (existsb (Nat.eqb k) (concat ls)) eqn:E; auto. destruct (rs k) as [a|] eqn:Er; auto. exfalso.
    destruct (FR _ _ Er) as (j & Hj & T & _). destruct (Forall2_in_l _ F2 Hj) as (l & Hl & Hk).
    assert (existsb (Nat.eqb k) (concat ls) = true); [|congruence]. apply existsb_exists. exists k. split; [|apply Nat.eqb_refl].
    apply in_concat. exists l. split; auto. apply Hk; auto.
Qed.
Print Assumptions C80_reservations.

(** two apexes over a tetrahedron touch all its facets; the one whose facet has
    the smaller address is confirmed *)
Definition tet : heap FNum :=
  let f a b c x y z := Some (@Fct FNum a b c (Some x) (Some y) (Some z) []) in
  [f (V 0 0 0) (V 1 0 0) (V 0 1 0) 1 2 3; f (V 0 0 0) (V 1 0 0) (V 0 0 1) 0 2 3; f (V 1 0 0) (V 0 1 0) (V 0 0 1) 0 1 3; f (V 0 1 0) (V 0 0 0) (V 0 0 1) 0 1 2]%nat.
Definition toy (i : nat) (others : list nat) : job FNum :=
  (V 0 0 0, i, map (fun k => @Edge FNum (V 0 0 0) (V 0 0 0) (Some k) (Some i)) others, [i]).
Definition toys : list (job FNum) := [toy 0 [1; 2; 3]; toy 1 [0; 2; 3]]%nat.
Definition down (i : nat) : nat := (10 - i)%nat.
Example toys_reserve :
  (forall j, In j toys -> linked tet (snd j) /\ forall k, In k (map fst (@writes FNum down j)) <-> touches tet (snd j) k) /\
  map (@confirm FNum down tet (fold_left wmin (rev (flat_map (@writes FNum down) toys)) (fun _ => None))) toys = [Ok false; Ok true].
Proof.
  split; [|vm_compute; reflexivity]. intros j Hj.
  assert (X : linked tet [0; 1; 2; 3]%nat).
  { intros i [<-|[<-|[<-|[<-|[]]]]]; unfold tet; cbn [nth_error]; do 7 eexists; repeat (split; [reflexivity|]); reflexivity. }
  destruct Hj as [<-|[<-|[]]]; (split; [intros i [<-|[]]; apply X; cbn; auto|]); intros k.
  - change (In k [0; 1; 2; 3]%nat <-> touches tet [0]%nat k). unfold touches. cbn [In]. split.
    + intros [Z|H]; [auto|right]. exists 0%nat. eexists. split; [auto|]. split; [reflexivity|]. cbn. destruct H as [<-|[<-|[<-|[]]]]; auto.
    + intros [[Z|[]]|(i & f & [Z|[]] & Lf & H)]; auto. subst i. injection Lf as <-. cbn in H. destruct H as [H|[H|H]]; injection H as <-; auto.
  - change (In k [1; 0; 2; 3]%nat <-> touches tet [1]%nat k). unfold touches. cbn [In]. split.
    + intros [Z|H]; [auto|right]. exists 1%nat. eexists. split; [auto|]. split; [reflexivity|]. cbn. destruct H as [<-|[<-|[<-|[]]]]; auto.
    + intros [[Z|[]]|(i & f & [Z|[]] & Lf & H)]; auto. subst i. injection Lf as <-. cbn in H. destruct H as [H|[H|H]]; injection H as <-; auto.
Qed.
