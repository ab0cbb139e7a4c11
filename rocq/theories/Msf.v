(** Minimum spanning forests: exchange and the selected edges. *)
From Coq Require Import Reals Lra Psatz Permutation.
From Verif Require Import Base KruskalSpec.
Set Implicit Arguments.

(** ** Forests *)

(** no edge is connected by the others *)
Definition acyclic (F : list (nat * nat)) : Prop :=
  forall F1 a b F2, F = F1 ++ (a, b) :: F2 -> ~ conn (F1 ++ F2) a b.

Lemma conn_nil a b : conn [] a b <-> a = b.
Proof.
  split; [|intros ->; constructor].
  apply (@conn_gen (fun a b => a = b)); auto; try congruence. intros x y [].
Qed.
Lemma conn_dec X : forall a b, {conn X a b} + {~ conn X a b}.
Proof.
  induction X as [|[u v] X IH]; intros a b.
  - destruct (Nat.eq_dec a b); [left|right]; rewrite conn_nil; auto.
  - destruct (IH a b) as [H|H]; [left; apply conn_cons; auto|].
    destruct (IH a u), (IH v b); try (left; apply conn_cons; auto; fail);
      destruct (IH a v), (IH u b); try (left; apply conn_cons; auto; fail);
      right; rewrite conn_cons; tauto.
Qed.

Definition indep (X F : list (nat * nat)) : Prop :=
  forall F1 a b F2, F = F1 ++ (a, b) :: F2 -> ~ conn (X ++ F1 ++ F2) a b.

Ltac inc := let x := fresh "x" in let Hx := fresh "Hx" in intros x Hx;
  repeat (rewrite in_app_iff in Hx || (progress simpl in Hx)); repeat (rewrite in_app_iff || (progress simpl)); clear -Hx; tauto.

Lemma indep_dec X F : indep X F \/ exists F1 a b F2, F = F1 ++ (a, b) :: F2 /\ conn (X ++ F1 ++ F2) a b.
Proof.
  enough (G : forall G F, (forall F1 a b F2, F = F1 ++ (a, b) :: F2 -> ~ conn (X ++ G ++ F1 ++ F2) a b) \/
     exists F1 a b F2, F = F1 ++ (a, b) :: F2 /\ conn (X ++ G ++ F1 ++ F2) a b) by apply (G [] F).
  clear F. intros G F. revert G. induction F as [|[a b] F IH]; intros G.
  - left. intros F1 a b F2 H. destruct F1; discriminate.
  - destruct (conn_dec (X ++ G ++ F) a b) as [H|H]; [right; exists [], a, b, F; auto|].
    destruct (IH (G ++ [(a, b)])) as [H1|(F1 & c & d & F2 & -> & Hc)].
    + left. intros F1 c d F2 E. destruct F1 as [|e F1]; simpl in E; inversion E; subst; auto.
      intros Q. eapply H1; [reflexivity|]. eapply conn_mono; [|exact Q]. inc.
    + right. exists ((a, b) :: F1), c, d, F2. split; auto. eapply conn_mono; [|exact Hc]. inc.
Qed.

Lemma app_split A (F1 : list A) f F2 : forall G1 g G2, F1 ++ F2 = G1 ++ g :: G2 ->
  (exists H, F1 = G1 ++ g :: H /\ G2 = H ++ F2 /\ F1 ++ f :: F2 = G1 ++ g :: (H ++ f :: F2)) \/
  (exists H, F2 = H ++ g :: G2 /\ G1 = F1 ++ H /\ F1 ++ f :: F2 = (F1 ++ f :: H) ++ g :: G2).
Proof.
  induction F1 as [|x F1 IH]; intros G1 g G2 E; simpl in *.
  - right. exists G1. subst. auto.
  - destruct G1 as [|y G1]; simpl in E; inversion E; subst.
    + left. exists F1. auto.
    + destruct (IH G1 g G2 H1) as [(H & -> & -> & Q)|(H & -> & -> & Q)]; [left|right]; exists H; simpl; rewrite Q; auto.
Qed.

(** Independent edges inside the span of K are at most as many as K. *)
Lemma indep_le K : forall X F, indep X F -> (forall a b, In (a, b) F -> conn (X ++ K) a b) -> length F <= length K.
Proof.
  induction K as [|[p q] K IH]; intros X F HI HC.
  - destruct F as [|[a b] F]; auto. exfalso. apply (HI [] a b F eq_refl).
    assert (H : conn (X ++ []) a b) by (apply HC; left; auto). rewrite app_nil_r in H.
    eapply conn_mono; [|exact H]. inc.
  - destruct (indep_dec ((p, q) :: X) F) as [H|(F1 & a & b & F2 & -> & Hab)].
    + apply Nat.le_trans with (length K); [|simpl; lia]. apply (IH ((p, q) :: X)); auto.
      intros a b Hin. eapply conn_mono; [|apply HC; exact Hin]. inc.
    + rewrite app_length. simpl. rewrite Nat.add_succ_r, <- app_length. apply le_n_S.
      apply (IH ((p, q) :: X)).
      2: { intros c d Hin. eapply conn_mono; [|apply HC; rewrite in_app_iff in *; simpl; tauto]. inc. }
      intros G1 c d G2 E Hcd.
      (* the edge (c,d) without (p,q) *)
      assert (Hcd' : exists Y, incl Y (X ++ G1 ++ G2) /\ ~ conn Y c d /\ conn ((p, q) :: Y) c d).
      { exists (X ++ G1 ++ G2). split; [apply incl_refl|]. split; [|eapply conn_mono; [|exact Hcd]; inc].
        intros Q. destruct (app_split F1 (a, b) F2 G1 (c, d) G2 E) as [(H & -> & -> & E2)|(H & -> & -> & E2)];
          apply (HI _ _ _ _ E2); eapply conn_mono; [|exact Q| |exact Q]; inc. }
      destruct Hcd' as (Y & HY & N & Q). apply conn_cons in Q.
      assert (Pq : conn (X ++ F1 ++ F2) p q).
      { assert (M : forall x y, conn Y x y -> conn (X ++ F1 ++ F2) x y).
        { intros x y. apply conn_mono. intros z Hz. apply HY in Hz. rewrite E. rewrite !in_app_iff in *. simpl. tauto. }
        assert (Ecd : conn (X ++ F1 ++ F2) c d) by (apply conn_edge; rewrite E, !in_app_iff; simpl; tauto).
        destruct Q as [Q|[[Q1 Q2]|[Q1 Q2]]]; [contradiction| |]; apply M in Q1; apply M in Q2.
        - eapply conn_trans; [apply conn_sym, Q1|]. eapply conn_trans; [exact Ecd|apply conn_sym, Q2].
        - eapply conn_trans; [exact Q2|]. eapply conn_trans; [apply conn_sym, Ecd|exact Q1]. }
      apply (HI _ _ _ _ eq_refl). apply (@conn_covered ((p, q) :: X ++ F1 ++ F2)); auto.
      intros x y [Hxy|Hxy]; [inversion Hxy; subst; auto|apply conn_edge; auto].
Qed.

Lemma acyclic_sub F G : acyclic F -> (exists H, Permutation F (G ++ H)) -> acyclic G.
Proof.
  intros HF (H & HP) G1 a b G2 -> Hc.
  assert (Hin : In (a, b) F) by (apply (Permutation_in _ (Permutation_sym HP)); rewrite !in_app_iff; simpl; auto).
  apply in_split in Hin. destruct Hin as (F1 & F2 & ->). apply (HF F1 a b F2 eq_refl).
  assert (HP' : Permutation (F1 ++ F2) (G1 ++ G2 ++ H)).
  { apply (Permutation_app_inv F1 F2 G1 (G2 ++ H) (a, b)). rewrite HP, <- app_assoc. reflexivity. }
  eapply conn_mono; [|exact Hc]. intros x Hx. apply (Permutation_in _ (Permutation_sym HP')).
  rewrite !in_app_iff in *. tauto.
Qed.

(** ** The selected edges *)
Section Sel.
  Variable es : list (nat * nat).
  Notation m := (length es).

  Definition selb (i : nat) : bool :=
    match nth_error es i with Some (u, v) => if conn_dec (firstn i es) u v then false else true | None => false end.
  Lemma selb_spec i : selb i = true <-> selected [] es i.
  Proof.
    unfold selb, selected. destruct (nth_error es i) as [[u v]|] eqn:E.
    - destruct (conn_dec (firstn i es) u v) as [H|H]; split; try discriminate; eauto.
      intros (u' & v' & E' & N). inversion E'; subst. contradiction.
    - split; [discriminate|]. intros (u & v & E' & _). discriminate.
  Qed.

  Definition sel (k : nat) : list nat := filter selb (seq 0 k).
  Lemma in_sel k i : In i (sel k) <-> i < k /\ selected [] es i.
  Proof. unfold sel. rewrite filter_In, in_seq, selb_spec. intuition lia. Qed.

  Lemma firstn_S k e : nth_error es k = Some e -> firstn (S k) es = firstn k es ++ [e].
  Proof.
    revert k. induction es as [|x l IH]; intros [|k] H; simpl in *; try discriminate; [congruence|].
    f_equal. apply IH; auto.
  Qed.

  (** they span every prefix *)
  Lemma sel_span k : k <= m -> forall a b, conn (edgesOf es (sel k)) a b <-> conn (firstn k es) a b.
  Proof.
    induction k as [|k IH]; intros Hk a b; [reflexivity|].
    destruct (nth_error es k) as [[u v]|] eqn:E; [|apply nth_error_None in E; lia].
    assert (Es : sel (S k) = sel k ++ (if selb k then [k] else [])).
    { unfold sel. rewrite <- Nat.add_1_r, seq_app, filter_app. simpl. reflexivity. }
    rewrite Es, (firstn_S _ E). unfold edgesOf. rewrite map_app. fold (edgesOf es (sel k)).
    assert (IH' := IH ltac:(lia)). unfold selb. rewrite E.
    assert (Ek : nth k es (0, 0) = (u, v)) by (apply nth_error_nth; auto).
    destruct (conn_dec (firstn k es) u v) as [Q|Q]; simpl; [rewrite app_nil_r|rewrite Ek]; split; apply conn_covered; intros x y Hxy.
    - eapply conn_mono; [|apply (proj1 (IH' x y)); apply conn_edge; exact Hxy]. inc.
    - apply in_app_iff in Hxy. simpl in Hxy. apply IH'. destruct Hxy as [Hxy|[Hxy|[]]]; [apply conn_edge; auto|inversion Hxy; subst; auto].
    - apply in_app_iff in Hxy. destruct Hxy as [Hxy|Hxy]; [|apply conn_edge; apply in_app_iff; auto].
      eapply conn_mono; [|apply (proj1 (IH' x y)); apply conn_edge; exact Hxy]. inc.
    - apply in_app_iff in Hxy. destruct Hxy as [Hxy|Hxy]; [|apply conn_edge; apply in_app_iff; auto].
      eapply conn_mono; [|apply (proj2 (IH' x y)); apply conn_edge; exact Hxy]. inc.
  Qed.

  Lemma edgesOf_split C F1 a b F2 : edgesOf es C = F1 ++ (a, b) :: F2 ->
    exists C1 i C2, C = C1 ++ i :: C2 /\ edgesOf es C1 = F1 /\ nth i es (0, 0) = (a, b) /\ edgesOf es C2 = F2.
  Proof.
    revert F1; induction C as [|c C IH]; intros F1 H; [destruct F1; discriminate|].
    destruct F1 as [|f F1]; unfold edgesOf in H; simpl in H; inversion H.
    - exists [], c, C. auto.
    - destruct (IH F1 H2) as (C1 & i & C2 & -> & E1 & E2 & E3). exists (c :: C1), i, C2. subst. auto.
  Qed.

  Lemma sel_forest C : NoDup C -> (forall i, In i C -> selected [] es i) -> acyclic (edgesOf es C).
  Proof.
    intros ND HS F1 a b F2 H. destruct (@edgesOf_split C F1 a b F2 H) as (C1 & i & C2 & -> & <- & Ei & <-).
    apply NoDup_remove in ND. destruct ND as [_ N].
    assert (Hi : selected [] es i) by (apply HS; rewrite in_app_iff; simpl; auto).
    assert (Ee : nth_error es i = Some (a, b)).
    { destruct Hi as (u & v & E & _). rewrite E. f_equal. rewrite <- Ei. symmetry. apply nth_error_nth; auto. }
    unfold edgesOf. rewrite <- map_app. apply (@sel_acyclic [] es (C1 ++ C2) i a b); auto.
    intros k Hk. apply HS. rewrite in_app_iff in *. simpl. tauto.
  Qed.

  Definition below_k (k : nat) (C : list nat) : list nat := filter (fun i => i <? k) C.

  Lemma filter_perm A (f : A -> bool) l : Permutation l (filter f l ++ filter (fun x => negb (f x)) l).
  Proof.
    induction l as [|a l IH]; simpl; auto. destruct (f a); simpl; [constructor; auto|].
    rewrite IH at 1. apply Permutation_middle.
  Qed.

  (** the selection dominates every forest on every prefix *)
  Lemma dominate F k : NoDup F -> (forall i, In i F -> i < m) -> acyclic (edgesOf es F) -> k <= m ->
    length (below_k k F) <= length (sel k).
  Proof.
    intros ND HF HA Hk.
    replace (length (below_k k F)) with (length (edgesOf es (below_k k F))) by apply map_length.
    replace (length (sel k)) with (length (edgesOf es (sel k))) by apply map_length.
    apply (@indep_le _ []).
    - apply (@acyclic_sub (edgesOf es F)); auto.
      exists (edgesOf es (filter (fun i => negb (i <? k)) F)). unfold edgesOf. rewrite <- map_app. apply Permutation_map, filter_perm.
    - intros a b Hab. simpl. apply sel_span; auto. unfold edgesOf in Hab. apply in_map_iff in Hab.
      destruct Hab as (i & E & Hi). apply filter_In in Hi. destruct Hi as [Hi Hlt]. apply Nat.ltb_lt in Hlt.
      apply conn_edge. apply (@firstn_edge _ es i k); auto. rewrite <- E. apply nth_error_nth'. auto.
  Qed.

  (** spanning forests have as many edges *)
  Lemma span_size F : NoDup F -> (forall i, In i F -> i < m) -> acyclic (edgesOf es F) ->
    (forall a b, conn es a b -> conn (edgesOf es F) a b) -> length F = length (sel m).
  Proof.
    intros ND HF HA HS. apply Nat.le_antisymm.
    - replace F with (below_k m F) at 1; [apply dominate; auto|].
      unfold below_k. clear -HF. induction F as [|a F IH]; simpl; auto.
      destruct (Nat.ltb_spec a m) as [_|L]; [f_equal; apply IH; intros; apply HF; right; auto|].
      specialize (HF a (or_introl eq_refl)). lia.
    - replace (length F) with (length (edgesOf es F)) by apply map_length.
      replace (length (sel m)) with (length (edgesOf es (sel m))) by apply map_length.
      apply (@indep_le _ []).
      + apply sel_forest; [apply NoDup_filter, seq_NoDup|]. intros i Hi. apply in_sel in Hi. tauto.
      + intros a b Hab. simpl. apply HS. rewrite <- (firstn_all es). apply sel_span; auto. apply conn_edge; auto.
  Qed.

  (** ** Weights *)
  Local Open Scope R_scope.
  Variable w : nat -> R.
  Definition weight (C : list nat) : R := fold_right (fun i a => w i + a) 0 C.

  Lemma weight_perm C D : Permutation C D -> weight C = weight D.
  Proof. induction 1; simpl; auto; try lra; congruence. Qed.

  Definition part (f : nat -> bool) (k : nat) : list nat := filter f (seq 0 k).
  Lemma part_S f k : part f (S k) = part f k ++ (if f k then [k] else []).
  Proof. unfold part. rewrite <- Nat.add_1_r, seq_app, filter_app. simpl. reflexivity. Qed.
  Lemma weight_app C D : weight (C ++ D) = weight C + weight D.
  Proof. induction C; simpl; [lra|rewrite IHC; lra]. Qed.

  Lemma abel f g M : (forall i j, (i <= j)%nat -> (j < M)%nat -> w i <= w j) ->
    (forall k, (k <= M)%nat -> (length (part f k) <= length (part g k))%nat) ->
    forall k c, (k <= M)%nat -> (forall i, (i < k)%nat -> w i <= c) ->
    weight (part g k) - INR (length (part g k)) * c <= weight (part f k) - INR (length (part f k)) * c.
  Proof.
    intros HM HD. induction k as [|k IH]; intros c Hk Hc; [simpl; lra|].
    rewrite !part_S, !weight_app, !app_length, !plus_INR.
    assert (IH' := IH (w k) ltac:(lia) ltac:(intros; apply HM; lia)).
    assert (Hwk : w k <= c) by (apply Hc; lia).
    pose proof (HD (S k) Hk) as HL. rewrite !part_S, !app_length in HL. apply le_INR in HL. rewrite !plus_INR in HL.
    set (lg := INR (length (part g k))) in *. set (lf := INR (length (part f k))) in *.
    set (wg := weight (part g k)) in *. set (wf := weight (part f k)) in *.
    assert (Q : forall h : nat -> bool, weight (if h k then [k] else []) = INR (length (if h k then [k] else [])) * w k) by (intros h; destruct (h k); simpl; lra).
    rewrite (Q f), (Q g).
    set (df := INR (length (if f k then [k] else []))) in *. set (dg := INR (length (if g k then [k] else []))) in *.
    assert (0 <= ((lg + dg) - (lf + df)) * (c - w k)) by (apply Rmult_le_pos; lra).
    nra.
  Qed.

  Lemma below_part F k : NoDup F -> (k <= m)%nat -> Permutation (below_k k F) (part (fun i => if in_dec Nat.eq_dec i F then true else false) k).
  Proof.
    intros ND Hk. apply NoDup_Permutation; [apply NoDup_filter; auto|apply NoDup_filter, seq_NoDup|].
    intros i. unfold below_k, part. rewrite !filter_In, in_seq, Nat.ltb_lt. destruct (in_dec Nat.eq_dec i F); intuition (try discriminate; lia).
  Qed.

  Theorem sel_minimal F : (forall i j, (i <= j)%nat -> (j < m)%nat -> w i <= w j) ->
    NoDup F -> (forall i, In i F -> (i < m)%nat) -> acyclic (edgesOf es F) ->
    (forall a b, conn es a b -> conn (edgesOf es F) a b) -> weight (sel m) <= weight F.
  Proof.
    intros Hw ND HF HA HS. set (f := fun i => if in_dec Nat.eq_dec i F then true else false).
    assert (HFm : Permutation F (part f m)).
    { apply NoDup_Permutation; [auto|apply NoDup_filter, seq_NoDup|]. intros i. unfold part, f.
      rewrite filter_In, in_seq. destruct (in_dec Nat.eq_dec i F) as [Hi|Hi]; [|intuition discriminate].
      specialize (HF i Hi). intuition lia. }
    pose proof (@abel f selb m Hw) as G.
    assert (HD : forall k, (k <= m)%nat -> (length (part f k) <= length (part selb k))%nat).
    { intros k Hk. unfold f. rewrite <- (Permutation_length (below_part ND Hk)). apply dominate; auto. }
    rewrite (weight_perm HFm). change (sel m) with (part selb m).
    assert (HL : length (part f m) = length (part selb m)).
    { rewrite <- (Permutation_length HFm). apply span_size; auto. }
    destruct m as [|k] eqn:Em; [simpl; lra|].
    specialize (G HD (S k) (w k) ltac:(lia) ltac:(intros; apply Hw; lia)).
    rewrite HL in G. lra.
  Qed.
End Sel.
