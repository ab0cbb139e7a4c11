(** The brute-force planar hull agrees with quickHull in general position. *)
From Coq Require Import Reals Lra Psatz.
From Verif Require Import Base Num KdModel Hull2dModel Hull2dGeom Hull2dQuick Hull2dDc Hull2dSample.
Set Implicit Arguments.

Lemma NoDup_map_in X Y (f : X -> Y) l : (forall x y, In x l -> In y l -> f x = f y -> x = y) -> NoDup l -> NoDup (map f l).
Proof.
  induction l as [|x l IH]; intros H N; [constructor|]. inversion_clear N as [|? ? N1 N2]. cbn [map]. constructor.
  - intros G. apply in_map_iff in G as (y & E & Hy). apply N1. rewrite (H x y); simpl; auto.
  - apply IH; auto. intros; apply H; simpl; auto.
Qed.

(** *** walking round a cycle *)
Section Cycle.
  Variable F : list (nat * nat).
  Definition edge (a b : nat) : Prop := In (a, b) F \/ In (b, a) F.
  Variable Q : list nat.
  Notation m := (length Q).
  Notation v k := (nth (k mod m) Q 0).
  Hypothesis Hm : 3 <= m.
  Hypothesis HQ : NoDup Q.
  Hypothesis Hedge : forall k, edge (v k) (v (k + 1)).
  Hypothesis Hdeg : forall x a b c, edge x a -> edge x b -> edge x c -> a = b \/ b = c \/ a = c.
  Hypothesis Hin : forall a b, edge a b -> In a Q /\ In b Q /\ a <> b.

  Lemma edge_sym a b : edge a b -> edge b a. Proof. unfold edge; tauto. Qed.
  Lemma v_inj j k : v j = v k -> j mod m = k mod m.
  Proof. intros E. apply (proj1 (NoDup_nth Q 0) HQ); auto; apply Nat.mod_upper_bound; lia. Qed.
  Lemma v_step k : v k <> v (k + 1).
  Proof. intros E. pose proof (Hedge k) as H. apply Hin in H as (_ & _ & H). auto. Qed.
  Lemma mod2 k : k mod m <> (k + 2) mod m.
  Proof.
    intros E. pose proof (Nat.mod_upper_bound k m ltac:(lia)) as B.
    rewrite (Nat.add_mod k 2 m), (Nat.mod_small 2 m) in E by lia.
    destruct (Nat.lt_ge_cases (k mod m + 2) m) as [G|G].
    - rewrite (Nat.mod_small (k mod m + 2)) in E by lia. lia.
    - replace (k mod m + 2) with (k mod m + 2 - m + 1 * m) in E by lia. rewrite Nat.mod_add in E by lia.
      rewrite (Nat.mod_small (k mod m + 2 - m)) in E by lia. lia.
  Qed.

  Lemma connect_spec a b f : connect (a, b) f = true <-> ~ (f = (a, b) \/ f = (b, a)) /\ (b = fst f \/ b = snd f).
  Proof.
    destruct f as [c d]. unfold connect, sameFacet. cbn [fst snd].
    rewrite andb_true_iff, negb_true_iff, orb_true_iff, orb_false_iff, !andb_false_iff, !Nat.eqb_eq, !Nat.eqb_neq.
    split.
    - intros [[H1 H2] H3]. split; auto. intros [E|E]; injection E; intros; subst; tauto.
    - intros [H1 H2]. split; auto. split.
      + destruct (Nat.eq_dec a c), (Nat.eq_dec b d); auto. subst. tauto.
      + destruct (Nat.eq_dec b c), (Nat.eq_dec a d); auto. subst. tauto.
  Qed.

  Lemma next_ok k f : In f F -> connect (v k, v (k + 1)) f = true -> getConnect (v k, v (k + 1)) f = (v (k + 1), v (k + 2)).
  Proof.
    intros Hf Hc. apply connect_spec in Hc as [H1 H2]. destruct f as [c d]. cbn [fst snd] in H2.
    assert (S2 : v k <> v (k + 2)) by (intros E; apply v_inj in E; apply (@mod2 k E)).
    assert (E1 : edge (v (k + 1)) (v k)) by apply edge_sym, Hedge.
    assert (E2 : edge (v (k + 1)) (v (k + 2))) by (replace (k + 2) with (k + 1 + 1) by lia; apply Hedge).
    unfold getConnect. cbn [fst snd]. destruct (Nat.eqb_spec (v (k + 1)) c) as [E|E].
    - f_equal; [auto|]. assert (G : edge (v (k + 1)) d) by (left; rewrite E; auto).
      destruct (Hdeg G E1 E2) as [X|[X|X]]; auto; [|congruence]. exfalso. apply H1. right. congruence.
    - assert (d = v (k + 1)) as -> by (destruct H2; congruence). f_equal.
      assert (G : edge (v (k + 1)) c) by (right; auto).
      destruct (Hdeg G E1 E2) as [X|[X|X]]; auto; [|congruence]. exfalso. apply H1. left. congruence.
  Qed.
  Lemma next_ex k : find (connect (v k, v (k + 1))) F <> None.
  Proof.
    intros E. replace (v (k + 2)) with (v (k + 1 + 1)) in * by (do 2 f_equal; lia).
    assert (E2 : edge (v (k + 1)) (v (k + 2))) by (replace (k + 2) with (k + 1 + 1) by lia; apply Hedge).
    assert (S2 : v k <> v (k + 2)) by (intros X; apply v_inj in X; apply (@mod2 k X)).
    pose proof (v_step k) as S1.
    destruct E2 as [E2|E2]; apply (find_none _ _ E) in E2; apply not_true_iff_false in E2; apply E2, connect_spec; cbn [fst snd];
      (split; [intros [X|X]; injection X; intros; congruence|auto]).
  Qed.
  Lemma walk_ok steps : forall k H2, walk F steps (v k, v (k + 1)) H2 = Ok (H2 ++ map (fun j => v (k + 1 + j)) (seq 0 steps)).
  Proof.
    induction steps as [|s IH]; intros k H2; cbn [walk]; [rewrite app_nil_r; auto|].
    destruct (find (connect (v k, v (k + 1))) F) as [f|] eqn:E; [|destruct (next_ex k E)].
    apply find_some in E as [E1 E2]. rewrite (next_ok k f E1 E2). cbn [fst].
    replace (v (k + 2)) with (v (k + 1 + 1)) by (do 2 f_equal; lia). rewrite IH. rewrite <- app_assoc. do 2 f_equal.
    cbn [app seq map]. rewrite Nat.add_0_r. f_equal. rewrite <- seq_shift, map_map. apply map_ext. intros j. do 2 f_equal. lia.
  Qed.

  (** the edges out of Q are the cycle's *)
  Lemma edge_cyc a b : edge a b -> exists k, k < m /\ ((a = v k /\ b = v (k + 1)) \/ (b = v k /\ a = v (k + 1))).
  Proof.
    intros H. destruct (Hin H) as (Ha & _ & _). apply In_nth with (d := 0) in Ha as (k & Hk & E).
    assert (Ek : v k = a) by (rewrite Nat.mod_small; auto).
    pose proof (Hedge k) as G1. rewrite Ek in G1.
    pose proof (Hedge (k + m - 1)) as G2. replace (k + m - 1 + 1) with (k + 1 * m) in G2 by lia. rewrite Nat.mod_add in G2 by lia. rewrite Ek in G2.
    apply edge_sym in G2.
    assert (S : v (k + m - 1) <> v (k + 1)).
    { intros X. apply v_inj in X. apply (@mod2 (k + m - 1)). replace (k + m - 1 + 2) with (k + 1 + 1 * m) by lia. rewrite Nat.mod_add by lia. auto. }
    destruct (Hdeg H G1 G2) as [X|[X|X]]; [|congruence|].
    - exists k. split; auto.
    - exists ((k + m - 1) mod m). split; [apply Nat.mod_upper_bound; lia|]. right. rewrite Nat.mod_mod by lia. split; auto.
      rewrite Nat.add_mod_idemp_l by lia. replace (k + m - 1 + 1) with (k + 1 * m) by lia. rewrite Nat.mod_add by lia. auto.
  Qed.
  Hypothesis HF : NoDup F.
  Hypothesis Hord : forall a b, In (a, b) F -> a < b.
  Definition ord (p : nat * nat) : nat * nat := if fst p <? snd p then p else (snd p, fst p).
  Lemma F_length : length F = m.
  Proof.
    set (G := map (fun k => ord (v k, v (k + 1))) (seq 0 m)).
    enough (P : Permutation F G) by (rewrite (Permutation_length P); unfold G; rewrite map_length, seq_length; auto).
    apply NoDup_Permutation; auto.
    - unfold G. apply NoDup_map_in; [|apply seq_NoDup].
      intros j k Hj Hk E. apply in_seq in Hj, Hk.
      assert (C : (v j = v k /\ v (j + 1) = v (k + 1)) \/ (v j = v (k + 1) /\ v (j + 1) = v k)).
      { unfold ord in E. cbn [fst snd] in E. destruct (_ <? _), (_ <? _); injection E; auto. }
      destruct C as [[C _]|[C1 C2]]; [apply v_inj in C; rewrite !Nat.mod_small in C by lia; auto|].
      exfalso. apply v_inj in C1, C2. apply (@mod2 k). rewrite <- C2.
      rewrite (Nat.add_mod j 1), C1 by lia. rewrite Nat.add_mod_idemp_r by lia. rewrite Nat.add_mod_idemp_l by lia. f_equal. lia.
    - intros [a b]. unfold G. rewrite in_map_iff. split.
      + intros H. pose proof (Hord _ _ H). destruct (@edge_cyc a b (or_introl H)) as (k & Hk & [[X Y]|[X Y]]);
          exists k; (split; [|apply in_seq; lia]); unfold ord; cbn [fst snd]; rewrite <- X, <- Y.
        * destruct (Nat.ltb_spec a b); auto; lia.
        * destruct (Nat.ltb_spec b a); auto; lia.
      + intros (k & E & _). unfold ord in E. cbn [fst snd] in E.
        destruct (Hedge k) as [H|H]; pose proof (Hord _ _ H); destruct (Nat.ltb_spec (v k) (v (k + 1))); try lia; injection E as <- <-; auto.
  Qed.
End Cycle.

Section Brute.
  Local Open Scope R_scope.
  Notation pt := (list (nT RNum)).
  Variable P : list pt.
  Notation n := (length P).
  Notation q i := (nth i P (@nil R)).
  Definition general : Prop := forall i j l, (i < n)%nat -> (j < n)%nat -> (l < n)%nat -> i <> j -> j <> l -> i <> l ->
    orient (q i) (q j) (q l) <> 0.

  Lemma bruteFacets_in i j : In (i, j) (bruteFacets RNum P) <-> (i < j < n)%nat /\ onHull RNum P i j = true.
  Proof.
    unfold bruteFacets. rewrite in_flat_map. split.
    - intros (i' & Hi & H). apply in_map_iff in H as (j' & E & H). injection E as -> ->. apply filter_In in H as [H1 H2].
      apply in_seq in Hi, H1. split; auto. lia.
    - intros [H1 H2]. exists i. split; [apply in_seq; lia|]. apply in_map_iff. exists j. split; auto. apply filter_In.
      split; auto. apply in_seq. lia.
  Qed.
  Lemma bruteFacets_NoDup : NoDup (bruteFacets RNum P).
  Proof.
    unfold bruteFacets. enough (G : forall l, NoDup l -> NoDup (flat_map (fun i => map (fun j => (i, j)) (filter (onHull RNum P i) (seq (i + 1) (n - (i + 1))))) l)) by apply G, seq_NoDup.
    induction l as [|i l IH]; intros N; [constructor|]. inversion_clear N as [|? ? N1 N2]. cbn [flat_map].
    apply NoDup_app_intro; auto.
    - apply NoDup_map_in; [intros x y _ _ E; injection E; auto|]. apply NoDup_filter, seq_NoDup.
    - intros [a b] H1 H2. apply in_map_iff in H1 as (j & E & _). injection E as <- <-.
      apply in_flat_map in H2 as (i' & Hi & H2). apply in_map_iff in H2 as (? & E & _). injection E as -> _. auto.
  Qed.

  Definition oneSide (i j : nat) : Prop :=
    (forall l, (l < n)%nat -> l <> i -> l <> j -> 0 < orient (q i) (q j) (q l)) \/
    (forall l, (l < n)%nat -> l <> i -> l <> j -> orient (q i) (q j) (q l) <= 0).
  Lemma onHull_iff i j : onHull RNum P i j = true <-> oneSide i j.
  Proof.
    unfold onHull, oneSide. set (os := filter _ _).
    assert (Hos : forall l, In l os <-> (l < n)%nat /\ l <> i /\ l <> j).
    { intros l. unfold os. rewrite filter_In, in_seq, negb_true_iff, orb_false_iff, !Nat.eqb_neq. lia. }
    assert (S : forall l, nlt RNum (nzero RNum) (triArea RNum (nth i P []) (nth j P []) (nth l P [])) = true <-> 0 < orient (q i) (q j) (q l)).
    { intros l. apply Rltb_true. }
    destruct os as [|l0 ls].
    - split; auto. intros _. left. intros l H1 H2 H3. destruct (proj2 (Hos l)); auto.
    - rewrite forallb_forall. destruct (nlt RNum (nzero RNum) (triArea RNum (nth i P []) (nth j P []) (nth l0 P []))) eqn:E0; split.
      + intros H. left. intros l H1 H2 H3. apply S. specialize (H l (proj2 (Hos l) (conj H1 (conj H2 H3)))). apply eqb_prop in H. exact H.
      + intros [H|H].
        * intros l Hl. apply Hos in Hl as (H1 & H2 & H3). pose proof (proj2 (S l) (H l H1 H2 H3)) as X. cbn zeta. rewrite X. reflexivity.
        * apply S in E0. destruct (proj1 (Hos l0)) as (H1 & H2 & H3); [simpl; auto|]. specialize (H l0 H1 H2 H3). lra.
      + intros H. right. intros l H1 H2 H3. apply Rnot_lt_le. intros G. apply S in G.
        specialize (H l (proj2 (Hos l) (conj H1 (conj H2 H3)))). cbn zeta in H. rewrite G in H. discriminate.
      + intros [H|H].
        * destruct (proj1 (Hos l0)) as (H1 & H2 & H3); [simpl; auto|]. specialize (H l0 H1 H2 H3). apply S in H. congruence.
        * intros l Hl. apply Hos in Hl as (H1 & H2 & H3). specialize (H l H1 H2 H3). cbn zeta.
          destruct (nlt RNum (nzero RNum) (triArea RNum (nth i P []) (nth j P []) (nth l P []))) eqn:E; auto. apply S in E. lra.
  Qed.

  (** any facet has all the points on one side of it *)
  Lemma edge_side a b : edge (bruteFacets RNum P) a b -> (a < n)%nat /\ (b < n)%nat /\ a <> b /\
    ((forall l, (l < n)%nat -> 0 <= orient (q a) (q b) (q l)) \/ (forall l, (l < n)%nat -> orient (q a) (q b) (q l) <= 0)).
  Proof.
    assert (X : forall i j, oneSide i j -> (forall l, (l < n)%nat -> 0 <= orient (q i) (q j) (q l)) \/ (forall l, (l < n)%nat -> orient (q i) (q j) (q l) <= 0)).
    { intros i j [H|H]; [left|right]; intros l Hl; (destruct (Nat.eq_dec l i) as [->|]; [rewrite orient_aba; lra|]);
        (destruct (Nat.eq_dec l j) as [->|]; [rewrite orient_ab; lra|]); auto. left. auto. }
    intros [H|H]; apply bruteFacets_in in H as [H1 H2]; apply onHull_iff, X in H2; (split; [lia|split; [lia|split; [lia|]]]).
    - exact H2.
    - destruct H2 as [H2|H2]; [right|left]; intros l Hl; rewrite orient_swap; specialize (H2 l Hl); lra.
  Qed.

  (** whatever the input, consecutive positions of an answer are edges with all
      the points on one side *)
  Lemma walk_adj steps : forall prev H2 H, edge (bruteFacets RNum P) (fst prev) (snd prev) -> (exists l, H2 = l ++ [fst prev]) ->
    (forall a b, adj a b H2 -> edge (bruteFacets RNum P) a b) -> walk (bruteFacets RNum P) steps prev H2 = Ok H ->
    forall a b, adj a b H -> edge (bruteFacets RNum P) a b.
  Proof.
    induction steps as [|s IH]; intros prev H2 H He [l ->] HA E; cbn [walk] in E; [injection E as <-; auto|].
    destruct (find (connect prev) (bruteFacets RNum P)) as [f|] eqn:Ef; [|discriminate].
    apply find_some in Ef as [E1 E2].
    assert (N : fst (getConnect prev f) = snd prev).
    { destruct prev as [x y], f as [c d]. apply connect_spec in E2 as [_ E2]. unfold getConnect. cbn [fst snd] in *.
      destruct (Nat.eqb_spec y c); cbn [fst]; auto. destruct E2; congruence. }
    refine (IH _ _ H _ _ _ E).
    - destruct f as [c d]. unfold getConnect. cbn [fst snd] in *. destruct (_ =? _)%nat; cbn [fst snd]; [left|right]; auto.
    - exists (l ++ [fst prev]). auto.
    - intros a b Hab. rewrite N, <- app_assoc in Hab. cbn [app] in Hab. apply adj_app in Hab as [Hab|Hab]; auto.
      apply adj_cons in Hab as [(l' & X & ->)|Hab].
      + injection X as <- _. exact He.
      + destruct Hab as (l1 & l2 & X). destruct l1 as [|? [|? ?]]; discriminate.
  Qed.
  Theorem bruteHull_sides H : bruteHull RNum P = Ok H -> forall a b, adj a b H ->
    (a < n)%nat /\ (b < n)%nat /\ a <> b /\
    ((forall l, (l < n)%nat -> 0 <= orient (q a) (q b) (q l)) \/ (forall l, (l < n)%nat -> orient (q a) (q b) (q l) <= 0)).
  Proof.
    unfold bruteHull. intros E a b Hab. apply edge_side. destruct (bruteFacets RNum P) as [|f F] eqn:EF; [discriminate|]. rewrite <- EF in *.
    refine (@walk_adj _ _ _ H _ _ _ E a b Hab).
    - left. rewrite EF. simpl. destruct f; auto.
    - exists []. auto.
    - intros x y (l1 & l2 & X). destruct l1 as [|? [|? ?]]; discriminate.
  Qed.

  (** *** general position *)
  Hypothesis GP : general.
  Hypothesis H3 : (3 <= n)%nat.
  Lemma edge_strict a b : edge (bruteFacets RNum P) a b -> 
    (forall l, (l < n)%nat -> l <> a -> l <> b -> 0 < orient (q a) (q b) (q l)) \/
    (forall l, (l < n)%nat -> l <> a -> l <> b -> orient (q a) (q b) (q l) < 0).
  Proof.
    intros H. apply edge_side in H as (Ha & Hb & Hab & [S|S]); [left|right]; intros l Hl N1 N2;
      specialize (S l Hl); assert (G : orient (q a) (q b) (q l) <> 0) by (apply GP; auto); lra.
  Qed.
  Lemma edge_deg x a b c : edge (bruteFacets RNum P) x a -> edge (bruteFacets RNum P) x b -> edge (bruteFacets RNum P) x c -> a = b \/ b = c \/ a = c.
  Proof.
    intros Ea Eb Ec. destruct (Nat.eq_dec a b); auto. destruct (Nat.eq_dec b c); auto. destruct (Nat.eq_dec a c); auto. exfalso.
    pose proof (edge_side Ea) as (Hx & Ha & Na & _). pose proof (edge_side Eb) as (_ & Hb & Nb & _). pose proof (edge_side Ec) as (_ & Hc & Nc & _).
    pose proof (orient_swap (q x) (q a) (q b)) as W1. 
    assert (W : forall u w, orient (q x) (q u) (q w) = - orient (q x) (q w) (q u)) by (intros; unfold orient; ring).
    destruct (edge_strict Ea) as [Sa|Sa]; pose proof (Sa b Hb ltac:(auto) ltac:(auto)); pose proof (Sa c Hc ltac:(auto) ltac:(auto));
    destruct (edge_strict Eb) as [Sb|Sb]; pose proof (Sb a Ha ltac:(auto) ltac:(auto)); pose proof (Sb c Hc ltac:(auto) ltac:(auto));
    destruct (edge_strict Ec) as [Sc|Sc]; pose proof (Sc a Ha ltac:(auto) ltac:(auto)); pose proof (Sc b Hb ltac:(auto) ltac:(auto));
    pose proof (W a b); pose proof (W a c); pose proof (W b c); lra.
  Qed.

  Lemma gp_distinct i j : (i < n)%nat -> (j < n)%nat -> nth 0 (q i) 0 = nth 0 (q j) 0 -> nth 1 (q i) 0 = nth 1 (q j) 0 -> i = j.
  Proof.
    intros Hi Hj E0 E1. destruct (Nat.eq_dec i j) as [|Nij]; auto. exfalso.
    assert (exists l, (l < n)%nat /\ l <> i /\ l <> j) as (l & Hl & N1 & N2).
    { destruct i as [|[|i]], j as [|[|j]]; try congruence;
      first [exists 0%nat; lia|exists 1%nat; lia|exists 2%nat; lia]. }
    apply (@GP i j l); auto. unfold orient. change (nT RNum) with R in *. rewrite E0, E1. ring.
  Qed.

  Variable red : (cipairs RNum -> cipairs RNum -> cipairs RNum) -> cipairs RNum -> list (cipairs RNum) -> cipairs RNum.
  Hypothesis Hred : forall f id l, redOf f id l (red f id l).
  Variable minmax : (pt -> pt -> bool) -> list pt -> nat * nat.
  Hypothesis Hmm : minmax_ok RNum minmax.

  Lemma extreme_in Q a b : isHull P Q -> edge (bruteFacets RNum P) a b -> In a Q.
  Proof.
    intros (HQ & _ & HT) He. pose proof (edge_side He) as (Ha & Hb & Hab & _).
    destruct (in_dec Nat.eq_dec a Q) as [|Na]; auto. exfalso.
    destruct (HT (q a)) as (x & y & z & Hx & Hy & Hz & (u & v & w & Hu & Hv & Hw & S & Ex & Ey)); [apply nth_In; auto|].
    pose proof (HQ x Hx) as Bx. pose proof (HQ y Hy) as By. pose proof (HQ z Hz) as Bz.
    assert (O : u * orient (q a) (q b) (q x) + v * orient (q a) (q b) (q y) + w * orient (q a) (q b) (q z) = 0).
    { transitivity (orient (q a) (q b) (q a)); [|apply orient_aba]. unfold orient. change (nT RNum) with R in *. rewrite Ex, Ey. replace u with (1 - v - w) by lra. ring. }
    assert (K : forall t c, 0 <= t -> In c Q -> t * orient (q a) (q b) (q c) = 0 -> t * (nth 0 (q c) 0 - nth 0 (q b) 0) = 0 /\ t * (nth 1 (q c) 0 - nth 1 (q b) 0) = 0).
    { intros t c Ht Hc E. destruct (Nat.eq_dec c b) as [->|N]; [lra|].
      assert (orient (q a) (q b) (q c) <> 0) by (apply GP; auto; intros ->; auto).
      apply Rmult_integral in E as [->|E]; [lra|contradiction]. }
    assert (C : u * orient (q a) (q b) (q x) = 0 /\ v * orient (q a) (q b) (q y) = 0 /\ w * orient (q a) (q b) (q z) = 0).
    { pose proof (edge_side He) as (_ & _ & _ & [Sd|Sd]); pose proof (Sd x Bx); pose proof (Sd y By); pose proof (Sd z Bz).
      - assert (0 <= u * orient (q a) (q b) (q x)) by (apply Rmult_le_pos; auto). assert (0 <= v * orient (q a) (q b) (q y)) by (apply Rmult_le_pos; auto).
        assert (0 <= w * orient (q a) (q b) (q z)) by (apply Rmult_le_pos; auto). lra.
      - assert (0 <= u * - orient (q a) (q b) (q x)) by (apply Rmult_le_pos; lra). assert (0 <= v * - orient (q a) (q b) (q y)) by (apply Rmult_le_pos; lra).
        assert (0 <= w * - orient (q a) (q b) (q z)) by (apply Rmult_le_pos; lra). lra. }
    destruct C as (C1 & C2 & C3).
    destruct (K u x Hu Hx C1) as [X1 Y1]. destruct (K v y Hv Hy C2) as [X2 Y2]. destruct (K w z Hw Hz C3) as [X3 Y3].
    apply Hab. apply gp_distinct; auto; change (nT RNum) with R in *.
    - rewrite Ex. replace (nth 0 (q b) 0) with ((u + v + w) * nth 0 (q b) 0) by (rewrite S; ring). lra.
    - rewrite Ey. replace (nth 1 (q b) 0) with ((u + v + w) * nth 1 (q b) 0) by (rewrite S; ring). lra.
  Qed.

  Lemma hull_three Q : isHull P Q -> NoDup Q -> (3 <= length Q)%nat.
  Proof.
    intros (HQ & _ & HT) ND.
    assert (exists l, (l < n)%nat /\ ~ In l (firstn 2 Q)) as (l & Hl & Nl).
    { destruct (in_dec Nat.eq_dec 0%nat (firstn 2 Q)) as [I0|]; [|exists 0%nat; split; [lia|auto]].
      destruct (in_dec Nat.eq_dec 1%nat (firstn 2 Q)) as [I1|]; [|exists 1%nat; split; [lia|auto]].
      exists 2%nat. split; [lia|]. intros I2. destruct Q as [|x [|y Q]]; cbn in I0, I1, I2; lia. }
    destruct Q as [|x [|y [|z Q]]]; cbn [length firstn] in *; try lia; exfalso.
    - destruct (HT (q 0%nat)) as (? & _ & _ & [] & _). apply nth_In. lia.
    - destruct (HT (q l)) as (a & b & c & [<-|[]] & [<-|[]] & [<-|[]] & (u & v & w & _ & _ & _ & S & Ex & Ey)); [apply nth_In; auto|].
      apply Nl. left. apply gp_distinct; auto; [apply HQ; simpl; auto|change (nT RNum) with R in *; rewrite Ex|change (nT RNum) with R in *; rewrite Ey]; replace u with (1 - v - w) by lra; ring.
    - assert (N : x <> y) by (inversion ND as [|? ? X]; intros ->; apply X; simpl; auto).
      destruct (HT (q l)) as (a & b & c & Ha & Hb & Hc & (u & v & w & _ & _ & _ & S & Ex & Ey)); [apply nth_In; auto|].
      apply (@GP x y l); auto; try (apply HQ; simpl; auto); try (intros ->; apply Nl; simpl; auto).
      assert (E : orient (q x) (q y) (q l) = u * orient (q x) (q y) (q a) + v * orient (q x) (q y) (q b) + w * orient (q x) (q y) (q c)).
      { unfold orient. change (nT RNum) with R in *. rewrite Ex, Ey. replace u with (1 - v - w) by lra. ring. }
      assert (Z : forall c, In c [x; y] -> orient (q x) (q y) (q c) = 0) by (intros ? [<-|[<-|[]]]; [apply orient_aba|apply orient_ab]).
      rewrite E, !Z by auto. ring.
  Qed.

  Lemma hull_edges Q k : isHull P Q -> NoDup Q ->
    edge (bruteFacets RNum P) (nth (k mod length Q) Q 0%nat) (nth ((k + 1) mod length Q) Q 0%nat).
  Proof.
    intros HH ND. pose proof (hull_three HH ND) as H3Q. destruct HH as (HQ & HA & _).
    set (m := length Q) in *. pose proof (Nat.mod_upper_bound k m ltac:(lia)) as B. pose proof (Nat.mod_upper_bound (k + 1) m ltac:(lia)) as B'.
    pose proof (@cyc_adj _ Q 0%nat (k mod m) B) as A. fold m in A. rewrite Nat.add_mod_idemp_l in A by lia. pose proof (HA _ _ A) as S. clear A.
    set (a := nth (k mod m) Q 0%nat) in *. set (b := nth ((k + 1) mod m) Q 0%nat) in *.
    assert (Ba : (a < n)%nat) by (apply HQ, nth_In; auto). assert (Bb : (b < n)%nat) by (apply HQ, nth_In; auto).
    assert (N : a <> b).
    { intros E. apply (proj1 (NoDup_nth Q 0%nat) ND) in E; auto. rewrite (Nat.add_mod k 1 m), (Nat.mod_small 1 m) in E by lia.
      destruct (Nat.eq_dec (k mod m + 1) m) as [G|G]; [rewrite G, Nat.mod_same in E by lia; lia|].
      rewrite (Nat.mod_small (k mod m + 1)) in E by lia. lia. }
    assert (S' : forall l, (l < n)%nat -> l <> a -> l <> b -> orient (q a) (q b) (q l) < 0).
    { intros l Hl N1 N2. assert (orient (q a) (q b) (q l) <> 0) by (apply GP; auto). specialize (S (q l) ltac:(apply nth_In; auto)). 
      change (nT RNum) with R in *. lra. }
    destruct (Nat.lt_ge_cases a b).
    - left. apply bruteFacets_in. split; [lia|]. apply onHull_iff. right. intros. left. auto.
    - right. apply bruteFacets_in. split; [lia|]. apply onHull_iff. left. intros. rewrite orient_swap. pose proof (S' l ltac:(auto) ltac:(auto) ltac:(auto)). lra.
  Qed.

  (** the answer is the cycle of quickHull, read from some vertex in one of the
      two directions *)
  Theorem bruteHull_ok : exists Q, @quickHull RNum red minmax P = Ok Q /\ isHull P Q /\ NoDup Q /\
    exists C k, (C = Q \/ C = rev Q) /\ bruteHull RNum P = Ok (map (fun j => nth ((k + j) mod length Q) C 0%nat) (seq 0 (length Q))).
  Proof.
    destruct (@quickHull_ok red Hred minmax Hmm P) as (Q & EQ & HH & ND). { intros E. rewrite E in H3. cbn [length] in H3. lia. }
    assert (NQ : NoDup Q).
    { apply ND. exists (q 0%nat), (q 1%nat). split; [apply nth_In; lia|]. split; [apply nth_In; lia|].
      destruct (Req_dec (nth 0 (q 0%nat) 0) (nth 0 (q 1%nat) 0)) as [E|]; auto. right. intros E'.
      enough (0%nat = 1%nat) by discriminate. apply gp_distinct; auto; lia. }
    exists Q. split; [exact EQ|]. split; [exact HH|]. split; [exact NQ|].
    pose proof (hull_three HH NQ) as M3.
    assert (L : length (bruteFacets RNum P) = length Q).
    { apply (@F_length _ Q M3 NQ); auto.
      - intros k. apply hull_edges; auto.
      - exact edge_deg.
      - intros a b H. split; [apply (extreme_in HH H)|]. split; [apply (extreme_in HH (edge_sym H))|]. apply edge_side in H. tauto.
      - apply bruteFacets_NoDup.
      - intros a b H. apply bruteFacets_in in H. lia. }
    destruct (bruteFacets RNum P) as [|[a b] F] eqn:EF; [cbn in L; lia|].
    assert (EB : bruteHull RNum P = walk (bruteFacets RNum P) (length Q - 1) (a, b) [a]).
    { unfold bruteHull. rewrite EF. cbn [fst]. rewrite <- L. reflexivity. }
    assert (G : forall C, length C = length Q -> NoDup C -> (forall x, In x C <-> In x Q) ->
      (forall k, edge (bruteFacets RNum P) (nth (k mod length C) C 0%nat) (nth ((k + 1) mod length C) C 0%nat)) ->
      forall k, a = nth (k mod length C) C 0%nat -> b = nth ((k + 1) mod length C) C 0%nat ->
      bruteHull RNum P = Ok (map (fun j => nth ((k + j) mod length Q) C 0%nat) (seq 0 (length Q)))).
    { intros C LC NC IC EC k Ea Eb. rewrite EB, Ea, Eb. rewrite (@walk_ok _ C); [|lia|auto|auto|exact edge_deg|].
      - rewrite LC. f_equal. destruct (length Q) as [|m] eqn:Em; [lia|]. cbn [seq map]. rewrite Nat.add_0_r. cbn [app]. f_equal.
        replace (S m - 1)%nat with m by lia. rewrite <- seq_shift, map_map. apply map_ext. intros j. do 2 f_equal. lia.
      - intros x y H. rewrite !IC. split; [apply (extreme_in HH H)|]. split; [apply (extreme_in HH (edge_sym H))|]. apply edge_side in H. tauto. }
    assert (Eab : edge (bruteFacets RNum P) a b) by (left; rewrite EF; simpl; auto).
    destruct (@edge_cyc (bruteFacets RNum P) Q M3 NQ) with (a := a) (b := b) as (k & Hk & [[Xa Xb]|[Xb Xa]]); auto.
    - intros k. apply hull_edges; auto.
    - exact edge_deg.
    - intros x y H. split; [apply (extreme_in HH H)|]. split; [apply (extreme_in HH (edge_sym H))|]. apply edge_side in H. tauto.
    - exists Q, k. split; auto. apply G; auto; [tauto|]. intros j. apply hull_edges; auto.
    - (* the other direction *)
      assert (RV : forall i, nth (i mod length Q) (rev Q) 0%nat = nth ((length Q - 1 - i mod length Q) mod length Q) Q 0%nat).
      { intros i. pose proof (Nat.mod_upper_bound i (length Q) ltac:(lia)). rewrite rev_nth by lia. f_equal.
        rewrite (Nat.mod_small (length Q - 1 - i mod length Q)) by lia. lia. }
      assert (RS : forall i, exists j, nth (i mod length Q) (rev Q) 0%nat = nth ((j + 1) mod length Q) Q 0%nat /\
                                  nth ((i + 1) mod length Q) (rev Q) 0%nat = nth (j mod length Q) Q 0%nat).
      { intros i. rewrite !RV. pose proof (Nat.mod_upper_bound i (length Q) ltac:(lia)).
        destruct (Nat.eq_dec (i mod length Q + 1) (length Q)) as [E|E].
        - exists (length Q - 1)%nat. rewrite (Nat.add_mod i 1), (Nat.mod_small 1) by lia. rewrite E, Nat.mod_same by lia. split; f_equal.
          + replace (length Q - 1 + 1)%nat with (length Q) by lia. rewrite Nat.mod_same by lia. rewrite Nat.mod_small by lia. lia.
          + rewrite Nat.sub_0_r. auto.
        - exists (length Q - 1 - i mod length Q - 1)%nat. rewrite (Nat.add_mod i 1), (Nat.mod_small 1) by lia. rewrite (Nat.mod_small (i mod length Q + 1)) by lia.
          split; f_equal; f_equal; lia. }
      assert (K' : exists k', nth (k' mod length Q) (rev Q) 0%nat = a /\ nth ((k' + 1) mod length Q) (rev Q) 0%nat = b).
      { destruct (Nat.eq_dec (k + 1) (length Q)) as [E|E].
        - exists (length Q - 1)%nat. replace (length Q - 1 + 1)%nat with (length Q) by lia. rewrite E in Xa. rewrite Nat.mod_same in * by lia.
          rewrite (Nat.mod_small k) in Xb by lia. rewrite (Nat.mod_small (length Q - 1)) by lia. rewrite !rev_nth by lia. split; [rewrite Xa|rewrite Xb]; f_equal; lia.
        - exists (length Q - 2 - k)%nat. rewrite !Nat.mod_small by lia. rewrite Nat.mod_small in Xa, Xb by lia. rewrite !rev_nth by lia. split; [rewrite Xa|rewrite Xb]; f_equal; lia. }
      destruct K' as (k' & Ka & Kb).
      exists (rev Q), k'. split; auto. apply G.
      + apply rev_length.
      + apply NoDup_rev. auto.
      + intros x. symmetry. apply in_rev.
      + intros i. rewrite rev_length. destruct (RS i) as (j & -> & ->). apply edge_sym, hull_edges; auto.
      + rewrite rev_length. auto.
      + rewrite rev_length. auto.
  Qed.
End Brute.
