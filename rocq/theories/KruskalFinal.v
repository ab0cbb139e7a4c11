(** Correctness of kruskal and batchKruskal. *)
From Coq Require Import Reals Lra Sorted Permutation.
From Verif Require Import Base Num Sched UfModel UfProofs KruskalSpec SpecReserve SpecCommit SpecLoop Msf KruskalModel.
Set Implicit Arguments.

(** ** The loop on the sorted edges *)
Section LoopFinal.
  Variables (n : nat) (pre es : list (nat * nat)).
  Hypothesis Hin : inrange n (pre ++ es).
  Variables (big small : nat -> nat -> bool).

  Theorem kruskalLoop_correct sched P : forest n P ->
    (forall a b, a < n -> b < n -> (samerep P a b <-> conn pre a b)) ->
    match kruskalLoop n big small sched es P (fun _ => None) with
    | Ok s => (forall i, inST s i = true <-> selected pre es i) /\
        forest n (par s) /\
        (forall a b, a < n -> b < n -> (samerep (par s) a b <-> conn (pre ++ es) a b)) /\
        (forall i, selected pre es i <-> exists x, x < n /\ tag s x = Some i) /\
        (forall x y i, tag s x = Some i -> tag s y = Some i -> x = y) /\
        (forall x i, tag s x = Some i -> P x = None /\ par s x <> None) /\
        (forall x, x < n -> par s x = None -> P x = None)
    | Throw => 4101 < length es
    | Fuel => True
    | UB => False
    end.
  Proof.
    intros HF HC. unfold kruskalLoop.
    pose proof (@speculative_for_spec n pre es Hin P big small sched 20 (100 + 200 * 20) (fun _ => None) (conj HF (conj HC (fun _ => eq_refl)))) as G.
    destruct (speculative_for _ _ _ _ _ _ _ _ _) as [s| | |]; auto.
    destruct G as (C & E' & HL).
    assert (Sel : forall i, In i C <-> selected pre es i).
    { intros i. split; [apply (li_sel HL)|]. intros H. apply (li_done HL); auto.
      destruct H as (u & v & H & _). apply nth_error_Some. congruence. }
    split; [intros i; rewrite <- (li_inST HL), Sel; reflexivity|].
    split; [apply (li_forest HL)|]. split.
    - intros a b Ha Hb. rewrite (li_conn HL) by auto. split; apply conn_covered; intros x y Hxy; apply in_app_iff in Hxy.
      + destruct Hxy as [Hxy|Hxy]; apply conn_edge; apply in_app_iff; auto. right.
        unfold edgesOf in Hxy. apply in_map_iff in Hxy. destruct Hxy as (i & <- & Hi).
        apply nth_In. apply (li_C HL _ Hi).
      + destruct Hxy as [Hxy|Hxy]; [apply conn_edge; apply in_app_iff; auto|].
        apply In_nth with (d := (0, 0)) in Hxy. destruct Hxy as (i & Hi & E).
        destruct (li_done HL Hi (fun q => q)) as [Q _]. unfold orig in Q. rewrite E in Q. exact Q.
    - split; [|split; [apply (li_taginj HL)|split; [apply (li_tag0 HL)|apply (li_root0 HL)]]]. intros i. rewrite <- Sel. split.
      + intros H. destruct (li_tagof HL _ H) as (x & Hx). exists x. split; auto. apply (li_tagC HL _ Hx).
      + intros (x & _ & Hx). apply (li_tagC HL _ Hx).
  Qed.

  Theorem kruskalLoop_live P : forest n P ->
    (forall a b, a < n -> b < n -> (samerep P a b <-> conn pre a b)) -> length es <= 4101 ->
    exists sched s, kruskalLoop n big small sched es P (fun _ => None) = Ok s.
  Proof.
    intros HF HC Hm. unfold kruskalLoop.
    apply (@speculative_for_live n pre es Hin P big small 20 (100 + 200 * 20) (fun _ => None) (conj HF (conj HC (fun _ => eq_refl)))).
    simpl. lia.
  Qed.
End LoopFinal.

Lemma forest_init n : forest n (fun _ => None).
Proof. intros i Hi. split; [discriminate|]. exists i. apply rep_root; auto. Qed.
Lemma samerep_init a b : samerep (fun _ => None) a b <-> conn [] a b.
Proof.
  rewrite conn_nil. split.
  - intros (r & A & B). inversion A; inversion B; subst; try discriminate; auto.
  - intros ->. exists b. split; apply rep_root; auto.
Qed.

(** ** find and link *)
Theorem find_correct n P i : forest n P -> i < n -> exists fuel r P',
  (forall k, fuel <= k -> findSeq n k (FRoot i) P = Ok (r, P')) /\ rep P i r /\ forest n P' /\
  forall j s, j < n -> (rep P' j s <-> rep P j s).
Proof.
  intros F Hi. destruct (@findSeq_spec n P F i Hi (FRoot i) P (@comp_refl n P) eq_refl) as (fuel & r & P' & H & C & Hr).
  exists fuel, r, P'. split; auto. split; auto. split; [apply (comp_forest F C)|].
  intros j s Hj. apply (comp_rep F s C Hj).
Qed.
Theorem link_correct n P x y : forest n P -> x < n -> y < n -> P x = None -> ~ rep P y x ->
  exists P', link n x y P = Ok P' /\ forest n P' /\
  forall a b, a < n -> b < n -> (samerep P' a b <->
    samerep P a b \/ (samerep P a x /\ samerep P y b) \/ (samerep P a y /\ samerep P x b)).
Proof.
  intros F Hx Hy Rx Ny. exists (fupd P x (Some y)). unfold link, load.
  destruct (Nat.ltb_spec x n); [|lia]. split; [reflexivity|].
  destruct (@fupd_rep n P x y F Hx Hy Rx Ny) as [F' HR]. split; auto.
  intros a b Ha Hb. destruct (proj2 (@F y Hy)) as (ry & Hry).
  assert (Dy : ry <> x) by (intros ->; auto). assert (Rxx : rep P x x) by (apply rep_root; auto).
  destruct (proj2 (@F a Ha)) as (ra & Hra). destruct (proj2 (@F b Hb)) as (rb & Hrb). unfold samerep. split.
  - intros (r & A & B). apply HR in A; auto. apply HR in B; auto.
    destruct A as [[A1 A2]|[A1 A2]], B as [[B1 B2]|[B1 B2]]; eauto.
    + right; right. split; [exists r; auto|exists x; auto].
    + right; left. split; [exists x; auto|exists r; auto].
  - intros [(r & A & B)|[[(r & A & A') (s & B & B')]|[(r & A & A') (s & B & B')]]].
    + destruct (Nat.eq_dec r x) as [->|D]; [exists ry|exists r]; split; apply HR; auto.
    + assert (r = x) by (apply (rep_det A' Rxx)). assert (s = ry) by (apply (rep_det B Hry)). subst.
      exists ry. split; apply HR; auto.
    + assert (s = x) by (apply (rep_det B Rxx)). assert (r = ry) by (apply (rep_det A' Hry)). subst.
      exists ry. split; apply HR; auto.
Qed.

Lemma acyclic_perm F G : Permutation F G -> acyclic F -> acyclic G.
Proof. intros H HF. apply (@acyclic_sub F G HF). exists []. rewrite app_nil_r. auto. Qed.
Lemma conn_perm F G a b : Permutation F G -> conn F a b -> conn G a b.
Proof. intros H. apply conn_mono. intros x. apply Permutation_in; auto. Qed.

Section Final.
  Variable N : Num.
  Variable ok : nT N -> Prop.
  Hypothesis OL : OrdLaws N ok.
  Notation wedge := (wedge N).

  Definition sort_ok (sort : list (iedge N) -> list (iedge N)) : Prop :=
    forall l, (forall e, In e l -> ok (ew e)) ->
      Permutation (sort l) l /\ StronglySorted (fun a b => edgeLess b a = false) (sort l).

  (** input edges *)
  Definition good (n : nat) (E : list wedge) : Prop := forall u v w, In (u, v, w) E -> u < n /\ v < n /\ ok w.
  Definition ends3 (e : wedge) : nat * nat := fst e.
  Definition sub (E : list wedge) (C : list nat) : list (nat * nat) := edgesOf (map ends3 E) C.
  (** the order in which edges are considered: by weight, ties by index *)
  Definition wgt (E : list wedge) (i : nat) : nT N := snd (nth i E (0, 0, nzero N)).
  Definition precedesb (E : list wedge) (j i : nat) : bool :=
    nlt N (wgt E j) (wgt E i) || (negb (nlt N (wgt E i) (wgt E j)) && (j <? i)).
  Definition earlier (E : list wedge) (i : nat) : list nat := filter (fun j => precedesb E j i) (seq 0 (length E)).
  (** edge i is not connected by [pre] and the edges considered before it *)
  Definition picked (pre : list (nat * nat)) (E : list wedge) (i : nat) : Prop :=
    i < length E /\ let '(u, v) := nth i (map ends3 E) (0, 0) in ~ conn (pre ++ sub E (earlier E i)) u v.

  Definition precedes (E : list wedge) (j i : nat) : Prop :=
    nlt N (wgt E j) (wgt E i) = true \/ (nlt N (wgt E i) (wgt E j) = false /\ j < i).
  Lemma precedesb_spec E j i : precedesb E j i = true <-> precedes E j i.
  Proof.
    unfold precedesb, precedes. rewrite orb_true_iff, andb_true_iff, negb_true_iff, Nat.ltb_lt. reflexivity.
  Qed.

  Section Sorted.
    Variable sort : list (iedge N) -> list (iedge N).
    Hypothesis HS : sort_ok sort.
    Variables (n : nat) (E : list wedge).
    Hypothesis HE : good n E.
    Notation m := (length E).
    Notation IW := (sort (tagEdges E)).
    Notation es := (ends IW).

    Lemma tag_in e : In e (tagEdges E) <-> eid e < m /\ nth_error E (eid e) = Some (eU e, eV e, ew e).
    Proof.
      unfold tagEdges. rewrite in_map_iff. split.
      - intros (i & <- & Hi). apply in_seq in Hi. destruct (nth i E (0, 0, nzero N)) as [[u v] w] eqn:Q. simpl.
        split; [lia|]. rewrite <- Q. apply nth_error_nth'. lia.
      - intros (Hlt & H). exists (eid e). split; [|apply in_seq; lia].
        rewrite (nth_error_nth E (eid e) (0, 0, nzero N) H). destruct e; reflexivity.
    Qed.
    Lemma tag_ids : map (@eid N) (tagEdges E) = seq 0 m.
    Proof.
      unfold tagEdges. rewrite map_map. rewrite <- (map_id (seq 0 m)) at 2. apply map_ext. intros i.
      destruct (nth i E (0, 0, nzero N)) as [[u v] w]; reflexivity.
    Qed.
    Lemma tag_ok e : In e (tagEdges E) -> ok (ew e).
    Proof. intros H. apply tag_in in H. destruct H as [_ H]. apply nth_error_In in H. apply (HE _ _ _ H). Qed.

    Lemma IW_perm : Permutation IW (tagEdges E).
    Proof. apply HS. apply tag_ok. Qed.
    Lemma IW_len : length IW = m.
    Proof. rewrite (Permutation_length IW_perm). unfold tagEdges. rewrite map_length, seq_length. auto. Qed.
    Lemma es_len : length es = m.
    Proof. unfold ends. rewrite map_length. apply IW_len. Qed.
    Lemma IW_ids : Permutation (map (@eid N) IW) (seq 0 m).
    Proof. rewrite <- tag_ids. apply Permutation_map, IW_perm. Qed.

    Definition dE : iedge N := {| eU := 0; eV := 0; eid := 0; ew := nzero N |}.
    Lemma idAt_eq p : idAt IW p = eid (nth p IW dE).
    Proof. unfold idAt. rewrite <- (map_nth (@eid N)). reflexivity. Qed.
    Lemma IW_at p : p < m -> In (nth p IW dE) (tagEdges E).
    Proof. intros H. apply (Permutation_in _ IW_perm). apply nth_In. rewrite IW_len. auto. Qed.
    Lemma idAt_lt p : p < m -> idAt IW p < m.
    Proof. intros H. rewrite idAt_eq. apply tag_in. apply IW_at; auto. Qed.
    Lemma idAt_inj p q : p < m -> q < m -> idAt IW p = idAt IW q -> p = q.
    Proof.
      intros Hp Hq H. assert (ND : NoDup (map (@eid N) IW)) by (apply (Permutation_NoDup (Permutation_sym IW_ids)), seq_NoDup).
      apply (proj1 (NoDup_nth (map (@eid N) IW) 0) ND); auto; rewrite map_length, IW_len; auto.
    Qed.
    Lemma idAt_sur i : i < m -> exists p, p < m /\ idAt IW p = i.
    Proof.
      intros Hi. assert (H : In i (map (@eid N) IW)) by (apply (Permutation_in _ (Permutation_sym IW_ids)), in_seq; lia).
      apply In_nth with (d := 0) in H. destruct H as (p & Hp & H). rewrite map_length, IW_len in Hp. eauto.
    Qed.
    Lemma es_nth p : p < m -> nth p es (0, 0) = nth (idAt IW p) (map ends3 E) (0, 0).
    Proof.
      intros Hp. unfold ends. pose proof (IW_at Hp) as H. apply tag_in in H. rewrite <- idAt_eq in H.
      change (0, 0) with ((fun e : iedge N => (eU e, eV e)) dE) at 1. rewrite map_nth.
      destruct H as [Hlt H]. symmetry. apply nth_error_nth. rewrite nth_error_map, H. reflexivity.
    Qed.
    Lemma wgt_at p : p < m -> wgt E (idAt IW p) = ew (nth p IW dE).
    Proof.
      intros Hp. pose proof (IW_at Hp) as H. apply tag_in in H. rewrite <- idAt_eq in H. destruct H as [_ H].
      unfold wgt. rewrite (nth_error_nth _ _ _ H). reflexivity.
    Qed.
    Lemma es_in : inrange n es.
    Proof.
      intros a b H. unfold ends in H. apply in_map_iff in H. destruct H as (e & Q & H). inversion Q; subst.
      apply (Permutation_in _ IW_perm) in H. apply tag_in in H. destruct H as [_ H]. apply nth_error_In in H.
      destruct (HE _ _ _ H) as (A & B & _). auto.
    Qed.
    Lemma wgt_ok i : i < m -> ok (wgt E i).
    Proof.
      intros H. unfold wgt. assert (Q := nth_In E (0, 0, nzero N) H). destruct (nth i E _) as [[u v] w]. apply (HE _ _ _ Q).
    Qed.

    (* positions follow the order *)
    Lemma SS_nth A (R : A -> A -> Prop) (l : list A) d : StronglySorted R l -> forall i j, i < j -> j < length l -> R (nth i l d) (nth j l d).
    Proof.
      induction 1 as [|a l H IH HF]; intros i j Hij Hj; simpl in *; [lia|].
      destruct j as [|j]; [lia|]. destruct i as [|i].
      - rewrite Forall_forall in HF. apply HF. apply nth_In. lia.
      - apply IH; lia.
    Qed.
    Lemma less_precedes p q : p < m -> q < m -> (edgeLess (nth p IW dE) (nth q IW dE) = true <-> precedes E (idAt IW p) (idAt IW q)).
    Proof.
      intros Hp Hq. unfold edgeLess, precedes. rewrite !wgt_at, <- !idAt_eq by auto.
      set (a := ew (nth p IW dE)). set (b := ew (nth q IW dE)).
      assert (Oa : ok a) by (subst a; rewrite <- wgt_at by auto; apply wgt_ok, idAt_lt; auto).
      assert (Ob : ok b) by (subst b; rewrite <- wgt_at by auto; apply wgt_ok, idAt_lt; auto).
      rewrite (ol_le OL a b Oa Ob), (ol_le OL b a Ob Oa).
      destruct (nlt N a b) eqn:Q1, (nlt N b a) eqn:Q2; simpl; rewrite ?Nat.ltb_lt; intuition (try discriminate).
    Qed.
    Lemma precedes_total i j : i < m -> j < m -> i <> j -> precedes E i j \/ precedes E j i.
    Proof.
      intros Hi Hj D. unfold precedes. destruct (nlt N (wgt E i) (wgt E j)) eqn:Q1; auto.
      destruct (nlt N (wgt E j) (wgt E i)) eqn:Q2; auto.
      assert (i < j \/ j < i) by lia. tauto.
    Qed.
    Lemma pos_precedes p q : p < m -> q < m -> (p < q <-> precedes E (idAt IW p) (idAt IW q)).
    Proof.
      intros Hp Hq. assert (HSo : StronglySorted (fun a b => edgeLess b a = false) IW) by (apply HS; apply tag_ok).
      assert (A : forall p q, p < m -> q < m -> p < q -> ~ precedes E (idAt IW q) (idAt IW p)).
      { intros p' q' Hp' Hq' L Q. apply (less_precedes Hq' Hp') in Q.
        assert (Z : edgeLess (nth q' IW dE) (nth p' IW dE) = false).
        { apply (@SS_nth _ _ IW dE HSo); auto. rewrite IW_len; auto. }
        congruence. }
      split.
      - intros L. destruct (@precedes_total (idAt IW p) (idAt IW q)) as [H|H]; auto using idAt_lt.
        + intros Q. apply idAt_inj in Q; auto. lia.
        + destruct (A p q Hp Hq L H).
      - intros H. destruct (lt_eq_lt_dec p q) as [[L|L]|L]; auto.
        + subst q. exfalso. unfold precedes in H. destruct H as [H|[_ H]]; [|lia].
          rewrite (ol_irrefl OL) in H; [discriminate|]. apply wgt_ok, idAt_lt; auto.
        + destruct (A q p Hq Hp L H).
    Qed.

    Lemma map_es : Permutation es (map ends3 E).
    Proof.
      unfold ends. rewrite (Permutation_map _ IW_perm). unfold tagEdges. rewrite map_map.
      rewrite <- (firstn_all (map ends3 E)). rewrite map_length.
      assert (G : forall (l : list wedge) k, k <= length l ->
        map (fun x => (eU (let '(u, v, w) := nth x l (0, 0, nzero N) in {| eU := u; eV := v; eid := x; ew := w |}),
                       eV (let '(u, v, w) := nth x l (0, 0, nzero N) in {| eU := u; eV := v; eid := x; ew := w |}))) (seq 0 k)
        = firstn k (map ends3 l)).
      { clear. intros l k. induction k as [|k IH]; intros Hk; auto.
        rewrite <- Nat.add_1_r, seq_app, map_app, IH by lia. simpl.
        rewrite Nat.add_1_r. destruct (nth_error (map ends3 l) k) as [e|] eqn:Q.
        - rewrite (firstn_S _ _ Q). f_equal. f_equal. rewrite nth_error_map in Q.
          destruct (nth_error l k) as [[[u v] w]|] eqn:Q2; simpl in Q; [|discriminate]. inversion Q; subst.
          rewrite (nth_error_nth _ _ _ Q2). reflexivity.
        - apply nth_error_None in Q. rewrite map_length in Q. lia. }
      rewrite G by auto. auto.
    Qed.

    (** selection in terms of the caller's edges *)
    Lemma earlier_es p : p < m -> forall e, In e (firstn p es) <-> In e (sub E (earlier E (idAt IW p))).
    Proof.
      intros Hp e. unfold sub, edgesOf. rewrite in_map_iff. split.
      - intros He. apply In_nth_error in He. destruct He as (q & Hq).
        assert (Lq : q < length (firstn p es)) by (apply nth_error_Some; congruence).
        rewrite firstn_length, es_len in Lq.
        assert (Hqe : nth q es (0, 0) = e).
        { apply nth_error_nth. rewrite <- (firstn_skipn p es), nth_error_app1; auto. rewrite firstn_length, es_len. lia. }
        exists (idAt IW q). split; [rewrite <- es_nth by lia; auto|]. unfold earlier. rewrite filter_In, in_seq.
        assert (L := @idAt_lt q ltac:(lia)). split; [lia|]. apply precedesb_spec. apply pos_precedes; lia.
      - intros (j & <- & Hj). unfold earlier in Hj. rewrite filter_In, in_seq in Hj. destruct Hj as [Hj Pj].
        apply precedesb_spec in Pj. destruct (@idAt_sur j ltac:(lia)) as (q & Hq & <-). apply (pos_precedes Hq Hp) in Pj.
        rewrite <- es_nth by auto. apply (@firstn_edge _ es q p); auto. apply nth_error_nth'. rewrite es_len; auto.
    Qed.
    Lemma selected_picked pre p : p < m -> (selected pre es p <-> picked pre E (idAt IW p)).
    Proof.
      intros Hp. unfold selected, picked. rewrite <- es_nth by auto.
      assert (Ep : nth_error es p = Some (nth p es (0, 0))) by (apply nth_error_nth'; rewrite es_len; auto).
      assert (M : forall u v, conn (pre ++ firstn p es) u v <-> conn (pre ++ sub E (earlier E (idAt IW p))) u v).
      { intros u v. split; apply conn_mono; intros e; rewrite !in_app_iff, (earlier_es Hp); auto. }
      destruct (nth p es (0, 0)) as [u v]. rewrite Ep, <- M. split.
      - intros (u' & v' & Q & NC). inversion Q; subst. split; auto. apply idAt_lt; auto.
      - intros [_ H]. exists u, v. auto.
    Qed.

    Section Run.
      Variables (big small : nat -> nat -> bool) (sched : nat -> list nat * list nat).

      Lemma kruskal_ids : match kruskal sort big small sched n E with
        | Ok ids => StronglySorted lt ids /\ forall i, In i ids <-> exists p, p < m /\ selected [] es p /\ idAt IW p = i
        | Throw => 4101 < m
        | Fuel => True
        | UB => False
        end.
      Proof.
        unfold kruskal.
        pose proof (@kruskalLoop_correct n [] es es_in big small sched (fun _ => None) (@forest_init n) (fun a b _ _ => samerep_init a b)) as G.
        destruct (kruskalLoop _ _ _ _ _ _ _) as [s| | |]; simpl; auto; [|rewrite es_len in G; auto].
        destruct G as (G1 & _). split.
        - assert (Z : forall f k z, StronglySorted lt (filter f (seq z k))).
          { clear. intros f k. induction k as [|k IH]; intros z; simpl; [constructor|]. destruct (f z); auto. constructor; auto.
            rewrite Forall_forall. intros x Hx. apply filter_In in Hx. destruct Hx as [Hx _]. apply in_seq in Hx. lia. }
          apply Z.
        - intros i. rewrite filter_In, in_seq, existsb_exists. split.
          + intros (_ & p & Hp & Q). apply in_seq in Hp. rewrite IW_len in Hp. apply andb_true_iff in Q. destruct Q as [Q1 Q2].
            apply Nat.eqb_eq in Q2. exists p. split; [lia|]. split; auto. apply G1; auto.
          + intros (p & Hp & Q & <-). split; [pose proof (idAt_lt Hp); lia|]. exists p. rewrite in_seq, IW_len, Nat.eqb_refl.
            split; [lia|]. rewrite (proj2 (G1 p) Q). auto.
      Qed.

      Variable val : nT N -> R.
      Hypothesis Hval : forall a b, ok a -> ok b -> nlt N b a = false -> (val a <= val b)%R.

      (** a spanning forest of the input edges, given by its indices *)
      Definition spanningForest (F : list nat) : Prop :=
        NoDup F /\ (forall i, In i F -> i < m) /\ acyclic (sub E F) /\
        forall a b, conn (sub E F) a b <-> conn (map ends3 E) a b.
      Definition total (F : list nat) : R := fold_right (fun i a => val (wgt E i) + a)%R 0%R F.

      Lemma sub_conn F a b : (forall i, In i F -> i < m) -> conn (sub E F) a b -> conn (map ends3 E) a b.
      Proof.
        intros HF. apply conn_mono. intros e He. unfold sub, edgesOf in He. apply in_map_iff in He. destruct He as (i & <- & Hi).
        apply nth_In. rewrite map_length. auto.
      Qed.

      Lemma sub_pos C : (forall p, In p C -> p < m) -> edgesOf es C = sub E (map (idAt IW) C).
      Proof.
        intros H. unfold sub, edgesOf. rewrite map_map. apply map_ext_in. intros p Hp. apply es_nth. auto.
      Qed.
      Lemma total_pos C : (forall p, In p C -> p < m) -> weight (fun p => val (ew (nth p IW dE))) C = total (map (idAt IW) C).
      Proof.
        induction C as [|p C IH]; intros H; simpl; auto. rewrite wgt_at by (apply H; left; auto).
        rewrite IH; auto. intros; apply H; right; auto.
      Qed.
      Lemma total_perm F G : Permutation F G -> total F = total G.
      Proof. induction 1; simpl; auto; try lra. Qed.
      Lemma sub_perm F G : Permutation F G -> Permutation (sub E F) (sub E G).
      Proof. intros H. apply Permutation_map; auto. Qed.

      Theorem kruskal_correct : match kruskal sort big small sched n E with
        | Ok ids => spanningForest ids /\ (forall F, spanningForest F -> (total ids <= total F)%R /\ length ids = length F) /\
            (forall i, In i ids <-> picked [] E i) /\ StronglySorted lt ids
        | Throw => 4101 < m
        | Fuel => True
        | UB => False
        end.
      Proof.
        pose proof kruskal_ids as G. destruct (kruskal sort big small sched n E) as [ids| | |]; auto.
        destruct G as [GS GI].
        assert (HP : Permutation ids (map (idAt IW) (sel es m))).
        { apply NoDup_Permutation; [apply SSorted_lt_nodup; auto| |].
          - assert (Z : forall l, NoDup l -> (forall p, In p l -> p < m) -> NoDup (map (idAt IW) l)).
            { induction l as [|p l IH]; intros ND H; simpl; constructor; inversion ND; subst.
              - intros Q. apply in_map_iff in Q. destruct Q as (q & Q & Hq). apply idAt_inj in Q; [congruence| |]; apply H; simpl; auto.
              - apply IH; auto. intros; apply H; simpl; auto. }
            apply Z; [apply NoDup_filter, seq_NoDup|]. intros p Hp. apply in_sel in Hp. tauto.
          - intros i. rewrite GI, in_map_iff. split.
            + intros (p & Hp & Q & <-). exists p. split; auto. apply in_sel; auto.
            + intros (p & <- & Q). apply in_sel in Q. exists p. tauto. }
        assert (Hlt : forall p, In p (sel es m) -> p < m) by (intros p Hp; apply in_sel in Hp; tauto).
        assert (HPs : Permutation (edgesOf es (sel es m)) (sub E ids)).
        { rewrite (sub_pos _ Hlt). apply Permutation_sym, sub_perm; auto. }
        assert (Span : forall a b, conn (edgesOf es (sel es m)) a b <-> conn es a b).
        { intros a b. rewrite <- es_len. rewrite (sel_span es (le_n _)). rewrite firstn_all. reflexivity. }
        split; [|split; [|split]]; auto.
        - split; [apply SSorted_lt_nodup; auto|]. split.
          { intros i Hi. apply GI in Hi. destruct Hi as (p & Hp & _ & <-). apply idAt_lt; auto. }
          split.
          + eapply acyclic_perm; [exact HPs|]. apply sel_forest; [apply NoDup_filter, seq_NoDup|]. intros i Hi. apply in_sel in Hi. tauto.
          + intros a b. split; intros H.
            * apply (conn_perm map_es). apply Span. apply (conn_perm (Permutation_sym HPs)). auto.
            * apply (conn_perm HPs). apply Span. apply (conn_perm (Permutation_sym map_es)). auto.
        - intros F (NF & HF & AF & SF).
          set (F' := filter (fun p => if in_dec Nat.eq_dec (idAt IW p) F then true else false) (seq 0 m)).
          assert (HF' : forall p, In p F' <-> p < m /\ In (idAt IW p) F).
          { intros p. unfold F'. rewrite filter_In, in_seq. destruct (in_dec Nat.eq_dec (idAt IW p) F); intuition (try discriminate; lia). }
          assert (NF' : NoDup F') by (apply NoDup_filter, seq_NoDup).
          assert (LF' : forall p, In p F' -> p < m) by (intros p Hp; apply HF' in Hp; tauto).
          assert (PF : Permutation F (map (idAt IW) F')).
          { apply NoDup_Permutation; auto.
            - assert (Z : forall l, NoDup l -> (forall p, In p l -> p < m) -> NoDup (map (idAt IW) l)).
              { induction l as [|p l IH]; intros ND H; simpl; constructor; inversion ND; subst.
                - intros Q. apply in_map_iff in Q. destruct Q as (q & Q & Hq). apply idAt_inj in Q; [congruence| |]; apply H; simpl; auto.
                - apply IH; auto. intros; apply H; simpl; auto. }
              apply Z; auto.
            - intros i. rewrite in_map_iff. split.
              + intros Hi. destruct (idAt_sur (HF _ Hi)) as (p & Hp & <-). exists p. split; auto. apply HF'; auto.
              + intros (p & <- & Hp). apply HF' in Hp. tauto. }
          assert (PFs : Permutation (sub E F) (edgesOf es F')) by (rewrite (sub_pos _ LF'); apply sub_perm; auto).
          assert (A1 : forall i, In i F' -> i < length es) by (intros i Hi; rewrite es_len; auto).
          assert (A2 : acyclic (edgesOf es F')) by (eapply acyclic_perm; eauto).
          assert (A3 : forall a b, conn es a b -> conn (edgesOf es F') a b).
          { intros a b H. apply (conn_perm PFs). apply SF. apply (conn_perm map_es); auto. }
          split.
          + rewrite (total_perm HP), (total_perm PF), <- (total_pos _ Hlt), <- (total_pos _ LF').
            rewrite <- es_len. apply sel_minimal; auto.
            intros i j Hij Hj. rewrite es_len in Hj. destruct (Nat.eq_dec i j) as [->|D]; [lra|].
            apply Hval.
            * rewrite <- wgt_at by lia. apply wgt_ok, idAt_lt; lia.
            * rewrite <- wgt_at by lia. apply wgt_ok, idAt_lt; lia.
            * assert (Q : edgeLess (nth j IW dE) (nth i IW dE) = false).
              { apply (@SS_nth _ _ IW dE (proj2 (HS _ tag_ok))); rewrite ?IW_len; lia. }
              unfold edgeLess in Q. apply orb_false_iff in Q. tauto.
          + rewrite (Permutation_length HP), (Permutation_length PF), !map_length. rewrite <- es_len. symmetry. apply span_size; auto.
        - intros i. rewrite GI. split.
          + intros (p & Hp & Q & <-). apply selected_picked; auto.
          + intros H. destruct (idAt_sur (proj1 H)) as (p & Hp & <-). exists p. split; auto. split; auto. apply selected_picked; auto.
      Qed.
    End Run.
  End Sorted.
End Final.
