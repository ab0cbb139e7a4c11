(** batchKruskal: adding a batch of edges to a spanning forest. *)
From Coq Require Import Reals Lra Sorted Permutation.
From Verif Require Import Base Num Sched UfModel UfProofs KruskalSpec SpecCommit Msf KruskalModel KruskalFinal EmstModel.
Set Implicit Arguments.

Lemma acyclic_cons a b F : acyclic F -> ~ conn F a b -> acyclic ((a, b) :: F).
Proof.
  intros HF HN F1 x y F2 E Hc. destruct F1 as [|e F1]; simpl in *.
  - inversion E; subst. auto.
  - inversion E; subst. apply conn_cons in Hc.
    assert (M : forall u v, conn (F1 ++ F2) u v -> conn (F1 ++ (x, y) :: F2) u v).
    { intros u v. apply conn_mono. inc. }
    assert (Exy : conn (F1 ++ (x, y) :: F2) x y) by (apply conn_edge, in_app_iff; simpl; auto).
    destruct Hc as [Hc|[[H1 H2]|[H1 H2]]].
    + apply (HF F1 x y F2 eq_refl Hc).
    + apply HN. apply M in H1. apply M in H2. eauto using conn.
    + apply HN. apply M in H1. apply M in H2. eauto using conn.
Qed.

Lemma acyclic_nil : acyclic [].
Proof. intros F1 a b F2 E. destruct F1; discriminate. Qed.

(** A star: no more than n-1 edges in a forest, and n-1 edges span. *)
Definition star (n : nat) : list (nat * nat) := map (fun i => (0, S i)) (seq 0 (n - 1)).
Lemma star_len n : length (star n) = n - 1.
Proof. unfold star. rewrite map_length, seq_length. auto. Qed.
Lemma star_in n : inrange n (star n).
Proof. intros a b H. apply in_map_iff in H. destruct H as (i & E & H). inversion E; subst. apply in_seq in H. lia. Qed.
Lemma star_conn n a b : a < n -> b < n -> conn (star n) a b.
Proof.
  assert (G : forall c, c < n -> conn (star n) 0 c).
  { intros [|c] H; [constructor|]. apply conn_edge, in_map_iff. exists c. split; auto. apply in_seq. lia. }
  intros Ha Hb. eapply conn_trans; [apply conn_sym|]; apply G; auto.
Qed.
Lemma star_acyclic n : acyclic (star n).
Proof.
  intros F1 a b F2 E Hc.
  assert (Hab : In (a, b) (star n)) by (rewrite E; apply in_app_iff; simpl; auto).
  apply in_map_iff in Hab. destruct Hab as (i & Q & Hi). inversion Q; subst a b. clear Q.
  assert (ND : NoDup (star n)).
  { apply FinFun.Injective_map_NoDup; [|apply seq_NoDup]. intros x y Q. inversion Q; auto. }
  rewrite E in ND. apply NoDup_remove in ND. destruct ND as [_ ND].
  assert (G : forall u v, conn (F1 ++ F2) u v -> (u = S i <-> v = S i)).
  { apply conn_gen; try tauto.
    intros u v H. assert (H' : In (u, v) (star n)).
      { rewrite E. apply in_app_iff in H. apply in_app_iff. simpl. tauto. }
      apply in_map_iff in H'. destruct H' as (j & Q & Hj). inversion Q; subst u v.
      split; intros H0; [discriminate|]. inversion H0; subst j. contradiction. }
  apply G in Hc. destruct Hc as [_ Hc]. discriminate (Hc eq_refl).
Qed.

Lemma forest_size n F : inrange n F -> acyclic F -> length F <= n - 1.
Proof.
  intros HR HA. rewrite <- (star_len n). apply (@indep_le (star n) [] F); [exact HA|].
  intros a b H. destruct (HR a b H). simpl. apply star_conn; auto.
Qed.
Lemma forest_full n F : inrange n F -> acyclic F -> n - 1 <= length F -> forall a b, a < n -> b < n -> conn F a b.
Proof.
  intros HR HA HL a b Ha Hb. destruct (conn_dec F a b) as [H|H]; auto. exfalso.
  assert (Q : length ((a, b) :: F) <= n - 1).
  { apply forest_size; [|apply acyclic_cons; auto]. intros x y [E|E]; [inversion E; subst; auto|auto]. }
  simpl in Q. lia.
Qed.
Lemma span_full n F : (forall a b, a < n -> b < n -> conn F a b) -> n - 1 <= length F.
Proof.
  intros HC. rewrite <- (star_len n). apply (@indep_le F [] (star n)); [apply star_acyclic|].
  intros a b H. apply star_in in H. apply HC; tauto.
Qed.

Section Sel.
  Variables (pre es : list (nat * nat)) (C : list nat).
  Hypothesis HC : forall i, In i C <-> selected pre es i.

  Lemma sel_spans k : k <= length es -> forall a b, conn (pre ++ firstn k es) a b ->
    conn (pre ++ edgesOf es (filter (fun i => i <? k) C)) a b.
  Proof.
    induction k as [|k IH]; intros Hk a b Hc.
    - simpl in Hc. rewrite app_nil_r in Hc. eapply conn_mono; [|exact Hc]. apply incl_appl, incl_refl.
    - destruct (nth_error es k) as [[u v]|] eqn:E; [|apply nth_error_None in E; lia].
      rewrite (firstn_S _ _ E) in Hc.
      assert (Up : forall x y, conn (pre ++ edgesOf es (filter (fun i => i <? k) C)) x y ->
                               conn (pre ++ edgesOf es (filter (fun i => i <? S k) C)) x y).
      { intros x y. apply conn_mono. apply incl_app; [apply incl_appl, incl_refl|apply incl_appr].
        unfold edgesOf. intros e He. apply in_map_iff in He. destruct He as (i & <- & Hi). apply in_map_iff. exists i. split; auto.
        apply filter_In in Hi. apply filter_In. destruct Hi as [A B]. split; auto. apply Nat.ltb_lt in B. apply Nat.ltb_lt. lia. }
      revert Hc. apply conn_covered. intros x y Hxy. rewrite !in_app_iff in Hxy. destruct Hxy as [Hxy|[Hxy|[Hxy|[]]]].
      + apply conn_edge, in_app_iff; auto.
      + apply Up, IH; [lia|]. apply conn_edge, in_app_iff; auto.
      + inversion Hxy; subst x y. destruct (conn_dec (pre ++ firstn k es) u v) as [H|H].
        * apply Up, IH; auto; lia.
        * apply conn_edge, in_app_iff. right. unfold edgesOf. apply in_map_iff. exists k.
          split; [apply nth_error_nth; auto|]. apply filter_In. split; [apply HC; exists u, v; auto|apply Nat.ltb_lt; lia].
  Qed.

  Lemma sel_acyclic_all : acyclic pre -> NoDup C -> acyclic (pre ++ edgesOf es C).
  Proof.
    intros HA ND. assert (HC' : forall i, In i C -> selected pre es i) by (intros; apply HC; auto). clear HC.
    revert ND HC'. induction C as [|c l IH]; intros ND HC'; simpl; [rewrite app_nil_r; auto|].
    inversion ND as [|? ? N1 N2]; subst.
    destruct (HC' c (or_introl eq_refl)) as (u & v & E & Hn).
    apply (@acyclic_perm ((u, v) :: pre ++ edgesOf es l)).
    - rewrite (nth_error_nth _ _ _ E). apply Permutation_middle.
    - apply acyclic_cons; [apply IH; auto; intros; apply HC'; right; auto|].
      apply (@sel_acyclic pre es l c); auto.
      + intros k Hk. apply HC'. right; auto.
      + apply HC'. left; auto.
  Qed.
End Sel.

Section Batch.
  Variable N : Num.
  Variable ok : nT N -> Prop.
  Hypothesis OL : OrdLaws N ok.
  Variable sort : list (iedge N) -> list (iedge N).
  Hypothesis HS : @sort_ok N ok sort.
  Variable n : nat.
  Notation Ends l := (map (@ends3 N) l).

  (** a consistent union-find: it represents the components of its edges *)
  Record ufOk (U : eufT N) : Prop := {
    uf_forest : forest n (fst U);
    uf_conn : forall a b, a < n -> b < n -> (samerep (fst U) a b <-> conn (Ends (getEdge n U)) a b);
    uf_acyclic : acyclic (Ends (getEdge n U));
    uf_in : inrange n (Ends (getEdge n U));
    uf_link : forall x, x < n -> fst U x = None -> snd U x = None }.

  Lemma flat_map_split A B (f g h : A -> list B) l : (forall x, In x l -> f x = g x ++ h x) ->
    Permutation (flat_map f l) (flat_map g l ++ flat_map h l).
  Proof.
    induction l as [|a l IH]; intros H; simpl; auto.
    rewrite (H a (or_introl eq_refl)), (IH (fun x Hx => H x (or_intror Hx))).
    rewrite <- !app_assoc. apply Permutation_app_head. rewrite !app_assoc. apply Permutation_app_tail. apply Permutation_app_comm.
  Qed.

  Lemma flat_tag_nodup (tg : nat -> option nat) l : NoDup l ->
    (forall x y i, tg x = Some i -> tg y = Some i -> x = y) ->
    NoDup (flat_map (fun x => match tg x with Some p => [p] | None => [] end) l).
  Proof.
    intros ND HI. induction ND as [|a l Na ND IH]; simpl; [constructor|].
    destruct (tg a) as [p|] eqn:E; simpl; auto. constructor; auto.
    intros H. apply in_flat_map in H. destruct H as (y & Hy & H).
    destruct (tg y) as [q|] eqn:E2; [|destruct H]. destruct H as [->|[]]. apply Na. rewrite (HI a y p E E2). auto.
  Qed.

  Theorem batchKruskal_correct (U : eufT N) E big small sched : ufOk U -> @good N ok n E ->
    match batchKruskal sort big small sched n E U with
    | Ok U' => ufOk U' /\ exists New, Permutation (getEdge n U') (getEdge n U ++ New) /\ incl New E /\
        (forall a b w, In (a, b, w) E ->
          conn (Ends (getEdge n U ++ filter (fun e => negb (nlt N w (snd e))) New)) a b)
    | Throw => 4101 < length E
    | Fuel => True
    | UB => False
    end.
  Proof.
    intros HU HE. unfold batchKruskal. set (IW := sort (tagEdges E)). set (T := getEdge n U).
    assert (Hes : inrange n (Ends T ++ ends IW)).
    { intros a b H. apply in_app_iff in H. destruct H as [H|H]; [apply (uf_in HU); auto|apply (es_in HS HE _ _ H)]. }
    pose proof (@kruskalLoop_correct n (Ends T) (ends IW) Hes big small sched (fst U) (uf_forest HU) (uf_conn HU)) as G.
    destruct (kruskalLoop n big small sched (ends IW) (fst U) (fun _ => None)) as [s| | |]; cbn [bind]; auto;
      [|unfold IW in G; rewrite (es_len HS HE) in G; auto].
    destruct G as (_ & GF & GC & GT & GI & GT0 & GR0).
    set (es := ends IW) in *. set (Es := map (fun e => (eU e, eV e, ew e)) IW).
    set (C := flat_map (fun x => match tag s x with Some p => [p] | None => [] end) (seq 0 n)).
    assert (HC : forall i, In i C <-> selected (Ends T) es i).
    { intros i. rewrite GT. unfold C. rewrite in_flat_map. split.
      - intros (x & Hx & H). apply in_seq in Hx. destruct (tag s x) as [p|] eqn:Q; [|destruct H].
        destruct H as [->|[]]. exists x. split; auto. lia.
      - intros (x & Hx & Q). exists x. split; [apply in_seq; lia|]. rewrite Q. left; auto. }
    assert (ND : NoDup C) by (apply flat_tag_nodup; [apply seq_NoDup|auto]).
    assert (Clt : forall i, In i C -> i < length IW).
    { intros i Hi. apply HC in Hi. destruct Hi as (u & v & Q & _).
      assert (i < length es) by (apply nth_error_Some; congruence). unfold es, ends in H. rewrite map_length in H. auto. }
    set (dW := (0, 0, nzero N) : wedge N).
    set (New := map (fun p => nth p Es dW) C).
    assert (EN : Ends New = edgesOf es C).
    { unfold New, edgesOf. rewrite map_map. apply map_ext_in. intros p Hp. specialize (Clt p Hp).
      unfold Es, es, ends. change dW with ((fun e : iedge N => (eU e, eV e, ew e)) (dE N)). rewrite map_nth.
      change (0, 0) with ((fun e : iedge N => (eU e, eV e)) (dE N)). rewrite map_nth. reflexivity. }
    set (U' := (par s, fun x => match tag s x with Some p => nth_error Es p | None => snd U x end)).
    assert (HP : Permutation (getEdge n U') (T ++ New)).
    { unfold T, getEdge, New, C, U'.
      assert (Q : map (fun p => nth p Es dW) (flat_map (fun x => match tag s x with Some p => [p] | None => [] end) (seq 0 n))
        = flat_map (fun x => match tag s x with Some p => [nth p Es dW] | None => [] end) (seq 0 n)).
      { clear. induction (seq 0 n) as [|a l IH]; simpl; auto. rewrite map_app, IH. f_equal. destruct (tag s a); auto. }
      rewrite Q. apply flat_map_split. intros x Hx. apply in_seq in Hx. cbn [snd].
      destruct (tag s x) as [p|] eqn:Et.
      - destruct (GT0 x p Et) as [P0 _]. rewrite (uf_link HU) by (auto; lia). simpl.
        assert (Hp : In p C) by (apply in_flat_map; exists x; split; [apply in_seq; lia|rewrite Et; left; auto]).
        specialize (Clt p Hp). rewrite (nth_error_nth' Es dW) by (unfold Es; rewrite map_length; auto). auto.
      - rewrite app_nil_r. auto. }
    assert (PE : Permutation (Ends (getEdge n U')) (Ends T ++ edgesOf es C)).
    { rewrite <- EN, <- map_app. apply Permutation_map. auto. }
    assert (Sp : forall k a b, k <= length es -> conn (Ends T ++ firstn k es) a b ->
       conn (Ends T ++ edgesOf es (filter (fun i => i <? k) C)) a b) by (intros; apply sel_spans; auto).
    assert (CinEs : incl (edgesOf es C) es).
    { intros e He. apply in_map_iff in He. destruct He as (i & <- & Hi). apply nth_In.
      unfold es, ends. rewrite map_length. auto. }
    split; [constructor; unfold U'; cbn [fst snd]|].
    - exact GF.
    - intros a b Ha Hb. rewrite (GC a b Ha Hb). split; intros H.
      + apply (conn_perm (Permutation_sym PE)). rewrite <- (firstn_all es) in H. apply Sp in H; auto.
        eapply conn_mono; [|exact H]. apply incl_app; [apply incl_appl, incl_refl|apply incl_appr].
        apply incl_map. intros x Hx. apply filter_In in Hx. tauto.
      + apply (conn_perm PE) in H. eapply conn_mono; [|exact H].
        apply incl_app; [apply incl_appl, incl_refl|apply incl_appr; auto].
    - apply (acyclic_perm (Permutation_sym PE)). apply sel_acyclic_all; auto. apply (uf_acyclic HU).
    - intros a b H. apply (Permutation_in _ PE) in H. apply in_app_iff in H. apply Hes. apply in_app_iff.
      destruct H as [H|H]; auto.
    - intros x Hx Px. destruct (tag s x) as [p|] eqn:Et; [destruct (GT0 x p Et); congruence|].
      apply (uf_link HU); auto.
    - exists New. split; [exact HP|]. split.
      + intros e He. apply in_map_iff in He. destruct He as (p & <- & Hp). specialize (Clt p Hp).
        unfold Es. change dW with ((fun e : iedge N => (eU e, eV e, ew e)) (dE N)). rewrite map_nth.
        assert (H : In (nth p IW (dE N)) (tagEdges E)).
        { apply (Permutation_in _ (IW_perm HS HE)). apply nth_In; auto. }
        apply tag_in in H. destruct H as [_ H]. apply nth_error_In in H. auto.
      + intros a b w H. apply In_nth_error in H. destruct H as (i & Hi).
        assert (Him : i < length E) by (apply nth_error_Some; intros Q; discriminate (eq_trans (eq_sym Hi) Q)).
        destruct (@idAt_sur N ok sort HS n E HE i Him) as (k & Hk & Ek).
        assert (Hk' : k < length es) by (unfold es, IW; rewrite (es_len HS HE); auto).
        assert (Ee : nth k es (0, 0) = (a, b)).
        { unfold es, IW. rewrite (es_nth HS HE Hk). rewrite Ek. apply nth_error_nth. rewrite nth_error_map. refine (eq_trans (f_equal (option_map (@ends3 N)) Hi) _). auto. }
        assert (Hc : conn (Ends T ++ edgesOf es (filter (fun i => i <? S k) C)) a b).
        { apply Sp; [lia|]. apply conn_edge, in_app_iff. right.
          apply (@firstn_edge _ es k (S k) (a, b)); [lia|]. rewrite <- Ee. apply nth_error_nth'. auto. }
        eapply conn_mono; [|exact Hc]. rewrite map_app. apply incl_app; [apply incl_appl, incl_refl|apply incl_appr].
        intros e He. apply in_map_iff in He. destruct He as (p & <- & Hp). apply filter_In in Hp. destruct Hp as [Hp Lp].
        apply Nat.ltb_lt in Lp. specialize (Clt p Hp).
        apply in_map_iff. exists (nth p Es dW). split.
        * unfold Es, es, ends. change dW with ((fun e : iedge N => (eU e, eV e, ew e)) (dE N)). rewrite map_nth.
          change (0, 0) with ((fun e : iedge N => (eU e, eV e)) (dE N)). rewrite map_nth. reflexivity.
        * apply filter_In. split; [apply in_map_iff; eauto|]. apply negb_true_iff.
          unfold Es. change dW with ((fun e : iedge N => (eU e, eV e, ew e)) (dE N)). rewrite map_nth. cbn [snd].
          assert (Wk : w = ew (nth k IW (dE N))).
          { unfold IW. rewrite <- (wgt_at HS HE Hk). rewrite Ek. unfold wgt. refine (eq_sym (eq_trans (f_equal snd (nth_error_nth E i (0, 0, nzero N) Hi)) _)). auto. }
          assert (Ow : ok w) by (apply (HE a b w); apply nth_error_In in Hi; auto).
          destruct (Nat.eq_dec p k) as [->|D]; [rewrite <- Wk; apply (ol_irrefl OL); auto|].
          assert (Hpm : p < length E) by (rewrite <- (IW_len HS HE); auto).
          assert (Q : edgeLess (nth k IW (dE N)) (nth p IW (dE N)) = false).
          { apply (@SS_nth _ _ _ (dE N) (proj2 (HS _ (tag_ok HE)))); [lia|]. rewrite (IW_len HS HE). auto. }
          unfold edgeLess in Q. apply orb_false_iff in Q. destruct Q as [Q _]. rewrite Wk. exact Q.
  Qed.
End Batch.

(** Lists of reals: if every threshold has at least as many elements of X below
    it as of Y, the sum of X is at most that of Y. *)
Section Sum.
  Local Open Scope R_scope.
  Definition rtot (l : list R) : R := fold_right Rplus 0 l.
  Definition cle (r : R) (l : list R) : nat := length (filter (fun x => Rleb x r) l).

  Lemma rtot_perm l l' : Permutation l l' -> rtot l = rtot l'.
  Proof. induction 1; simpl; auto; try lra; congruence. Qed.
  Lemma cle_perm r l l' : Permutation l l' -> cle r l = cle r l'.
  Proof.
    unfold cle. induction 1 as [|x l l' H IH|x y l|l l' l'' H1 IH1 H2 IH2]; simpl; auto; try congruence.
    - destruct (Rleb x r); simpl; auto.
    - destruct (Rleb x r), (Rleb y r); simpl; auto.
  Qed.
  Lemma rmin_ex (l : list R) : l <> [] -> exists x l', Permutation l (x :: l') /\ forall y, In y l' -> x <= y.
  Proof.
    induction l as [|a l IH]; [congruence|]. intros _. destruct l as [|b l].
    - exists a, []. split; auto. intros y [].
    - destruct IH as (x & l' & HP & Hm); [discriminate|]. destruct (Rle_dec a x) as [L|L].
      + exists a, (b :: l). split; auto. intros y Hy. apply (Permutation_in _ HP) in Hy. destruct Hy as [<-|Hy]; auto.
        specialize (Hm y Hy). lra.
      + exists x, (a :: l'). split; [rewrite HP; apply perm_swap|]. intros y [<-|Hy]; auto. lra.
  Qed.
  Lemma cle_zero r l : (forall y, In y l -> r < y) -> cle r l = 0%nat.
  Proof.
    unfold cle. induction l as [|a l IH]; intros H; simpl; auto.
    destruct (Rleb a r) eqn:E; [apply Rleb_true in E; specialize (H a (or_introl eq_refl)); lra|].
    apply IH. intros; apply H; right; auto.
  Qed.
  Lemma dominate_sum : forall X Y, length X = length Y -> (forall r, (cle r Y <= cle r X)%nat) -> rtot X <= rtot Y.
  Proof.
    enough (G : forall k X Y, length X = k -> length Y = k -> (forall r, (cle r Y <= cle r X)%nat) -> rtot X <= rtot Y)
      by (intros X Y H; apply (G (length Y)); auto).
    induction k as [|k IH]; intros X Y HX HY HD.
    - destruct X, Y; try discriminate. simpl. lra.
    - destruct (@rmin_ex X) as (x & X' & PX & MX); [intros ->; discriminate|].
      destruct (@rmin_ex Y) as (y & Y' & PY & MY); [intros ->; discriminate|].
      rewrite (rtot_perm PX), (rtot_perm PY). simpl.
      assert (HD' : forall r, (cle r (y :: Y') <= cle r (x :: X'))%nat).
      { intros r. rewrite <- (cle_perm r PX), <- (cle_perm r PY). auto. }
      apply Permutation_length in PX. apply Permutation_length in PY. simpl in PX, PY.
      assert (Lxy : x <= y).
      { destruct (Rle_dec x y) as [L|L]; auto. exfalso. specialize (HD' y).
        rewrite (cle_zero (r := y) (x :: X')) in HD'.
        - unfold cle in HD'. simpl in HD'. destruct (Rleb y y) eqn:E; [simpl in HD'; lia|apply Rleb_false in E; lra].
        - intros z [<-|Hz]; [lra|]. specialize (MX z Hz). lra. }
      assert (rtot X' <= rtot Y').
      { apply IH; try lia. intros r. specialize (HD' r). destruct (Rlt_dec r y) as [L|L].
        - rewrite (cle_zero (r := r) Y'); [lia|]. intros z Hz. specialize (MY z Hz). lra.
        - unfold cle in *. simpl in HD'. destruct (Rleb y r) eqn:E1; [|apply Rleb_false in E1; lra].
          destruct (Rleb x r) eqn:E2; [|apply Rleb_false in E2; lra]. simpl in HD'. lia. }
      lra.
  Qed.
End Sum.
