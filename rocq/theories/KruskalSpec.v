(** Connectivity by a list of edges, and what Kruskal's algorithm selects. *)
From Verif Require Import Base.
Set Implicit Arguments.

Inductive conn (es : list (nat * nat)) : nat -> nat -> Prop :=
| conn_refl a : conn es a a
| conn_edge a b : In (a, b) es -> conn es a b
| conn_sym a b : conn es a b -> conn es b a
| conn_trans a b c : conn es a b -> conn es b c -> conn es a c.

(** Edge i of [es] is selected: earlier edges (and those in [pre]) do not
    connect its endpoints. *)
Definition selected (pre es : list (nat * nat)) (i : nat) : Prop :=
  exists u v, nth_error es i = Some (u, v) /\ ~ conn (pre ++ firstn i es) u v.

Definition edgesOf (es : list (nat * nat)) (C : list nat) : list (nat * nat) := map (fun i => nth i es (0, 0)) C.

Lemma conn_gen (Q : nat -> nat -> Prop) es : (forall a, Q a a) -> (forall a b, Q a b -> Q b a) ->
  (forall a b c, Q a b -> Q b c -> Q a c) -> (forall a b, In (a, b) es -> Q a b) ->
  forall a b, conn es a b -> Q a b.
Proof. intros Q1 Q2 Q3 Q4 a b. induction 1; eauto. Qed.

Lemma conn_mono es es' a b : incl es es' -> conn es a b -> conn es' a b.
Proof. intros HI. induction 1; eauto using conn. Qed.
Lemma conn_covered es es' a b : (forall x y, In (x, y) es -> conn es' x y) -> conn es a b -> conn es' a b.
Proof. intros HI. induction 1; eauto using conn. Qed.

Lemma conn_cons u v X a b : conn ((u, v) :: X) a b <->
  conn X a b \/ (conn X a u /\ conn X v b) \/ (conn X a v /\ conn X u b).
Proof.
  split.
  - revert a b. apply (@conn_gen (fun a b => conn X a b \/ (conn X a u /\ conn X v b) \/ (conn X a v /\ conn X u b))).
    + left; constructor.
    + intros a b [H|[[H1 H2]|[H1 H2]]]; [left|right; right|right; left]; try split; eauto using conn.
    + intros a b c [H|[[H1 H2]|[H1 H2]]] [G|[[G1 G2]|[G1 G2]]].
      * left; eauto using conn.
      * right; left; eauto using conn.
      * right; right; eauto using conn.
      * right; left; eauto using conn.
      * right; left; eauto using conn.
      * left; eauto using conn.
      * right; right; eauto using conn.
      * left; eauto using conn.
      * right; right; eauto using conn.
    + intros a b [E|H].
      * inversion E; subst. right; left. split; constructor.
      * left. apply conn_edge; auto.
  - assert (M : forall a b, conn X a b -> conn ((u, v) :: X) a b) by (intros; eapply conn_mono; eauto; apply incl_tl, incl_refl).
    assert (Ed : conn ((u, v) :: X) u v) by (apply conn_edge; left; auto).
    intros [H|[[H1 H2]|[H1 H2]]]; auto; apply M in H1; apply M in H2; eapply conn_trans; eauto; eapply conn_trans; eauto using conn.
Qed.

(** Edges stay inside the vertices. *)
Definition inrange (n : nat) (es : list (nat * nat)) : Prop := forall a b, In (a, b) es -> a < n /\ b < n.
Lemma conn_inrange n es a b : inrange n es -> conn es a b -> a < n -> b < n.
Proof.
  intros H HC. assert (G : a < n <-> b < n); [|tauto].
  induction HC as [|a b Hin|a b _ IH|a b c _ IH1 _ IH2]; try tauto. destruct (H a b Hin); tauto.
Qed.

Lemma nth_error_edgesOf es i u v : nth_error es i = Some (u, v) -> nth i es (0, 0) = (u, v).
Proof. intros H. apply nth_error_nth; auto. Qed.

Lemma max_in (C : list nat) : C <> [] -> exists j, In j C /\ forall k, In k C -> k <= j.
Proof.
  induction C as [|a C IH]; [congruence|]. intros _. destruct C as [|b C'].
  - exists a. split; [left; auto|]. intros k [->|[]]; auto.
  - destruct IH as (j & Hj & HM); [discriminate|].
    destruct (le_lt_dec a j) as [L|L].
    + exists j. split; [right; auto|]. intros k [<-|Hk]; auto.
    + exists a. split; [left; auto|]. intros k [<-|Hk]; auto. specialize (HM k Hk). lia.
Qed.

Lemma firstn_edge A (es : list A) k j e : k < j -> nth_error es k = Some e -> In e (firstn j es).
Proof.
  revert k j; induction es as [|x es IH]; intros k j Hkj Hk; [destruct k; discriminate|].
  destruct j as [|j]; [lia|]. destruct k as [|k]; simpl in *; [left; congruence|].
  right. apply (IH k); auto. lia.
Qed.

Section Acyclic.
  Variable pre es : list (nat * nat).

  Lemma edgesOf_before C i : (forall k, In k C -> k < i /\ exists e, nth_error es k = Some e) ->
    incl (edgesOf es C) (firstn i es).
  Proof.
    intros H e He. apply in_map_iff in He. destruct He as (k & <- & Hk).
    destruct (H k Hk) as [Hlt (e & Ee)]. rewrite (nth_error_nth _ _ _ Ee).
    eapply firstn_edge; eauto.
  Qed.

  Lemma sel_edge i : selected pre es i -> exists e, nth_error es i = Some e.
  Proof. intros (u & v & H & _); eauto. Qed.

  (** Selected edges close no cycle. *)
  Lemma sel_acyclic : forall C i u v, (forall k, In k C -> selected pre es k) -> selected pre es i ->
    ~ In i C -> nth_error es i = Some (u, v) -> ~ conn (pre ++ edgesOf es C) u v.
  Proof.
    enough (G : forall m C, length C <= m -> forall i u v, (forall k, In k C -> selected pre es k) -> selected pre es i ->
      ~ In i C -> nth_error es i = Some (u, v) -> ~ conn (pre ++ edgesOf es C) u v) by (intros C; apply (G (length C)); auto).
    induction m as [|m IH]; intros C Hm i u v HC Hi Hni Ei HcC.
    - destruct C; [|simpl in Hm; lia]. destruct Hi as (u' & v' & Ei' & Hc). rewrite Ei in Ei'; inversion Ei'; subst.
      apply Hc. eapply conn_mono; [|exact HcC]. simpl. rewrite app_nil_r. apply incl_appl, incl_refl.
    - destruct C as [|c C0].
      { destruct Hi as (u' & v' & Ei' & Hc). rewrite Ei in Ei'; inversion Ei'; subst.
        apply Hc. eapply conn_mono; [|exact HcC]. simpl. rewrite app_nil_r. apply incl_appl, incl_refl. }
      destruct (@max_in (c :: C0)) as (j & Hj & Hmax); [discriminate|].
      set (C := c :: C0) in *. set (C' := remove Nat.eq_dec j C).
      assert (Hlen : length C' <= m) by (pose proof (remove_length_lt Nat.eq_dec C j Hj); unfold C'; lia).
      assert (HC' : forall k, In k C' -> In k C /\ k < j).
      { intros k Hk. apply in_remove in Hk. destruct Hk as [Hk D]. split; auto. specialize (Hmax k Hk). lia. }
      destruct (HC j Hj) as (uj & vj & Ej & Hcj).
      destruct (le_lt_dec j i) as [L|L].
      { (* all of C is before i *)
        destruct Hi as (u' & v' & Ei' & Hc). rewrite Ei in Ei'; inversion Ei'; subst.
        apply Hc. eapply conn_mono; [|exact HcC]. apply incl_app; [apply incl_appl, incl_refl|apply incl_appr].
        apply edgesOf_before. intros k Hk. split; [|apply sel_edge, HC; auto].
        assert (k <> i) by (intros ->; auto). specialize (Hmax k Hk). lia. }
      assert (S : conn ((uj, vj) :: pre ++ edgesOf es C') u v).
      { eapply conn_mono; [|exact HcC]. intros e He. apply in_app_iff in He. destruct He as [He|He].
        - right. apply in_app_iff. auto.
        - apply in_map_iff in He. destruct He as (k & <- & Hk). destruct (Nat.eq_dec k j) as [->|D].
          + left. rewrite (nth_error_nth _ _ _ Ej). auto.
          + right. apply in_app_iff. right. apply in_map_iff. exists k. split; auto. apply in_in_remove; auto. }
      apply conn_cons in S.
      assert (NC : ~ conn (pre ++ edgesOf es C') u v).
      { apply (IH C' Hlen i); auto; intros; try (apply HC; apply HC'; auto). intros Q. apply Hni. apply HC'; auto. }
      assert (Bj : forall a b, conn (pre ++ edgesOf es C') a b -> conn (pre ++ firstn j es) a b).
      { intros a b. apply conn_mono. apply incl_app; [apply incl_appl, incl_refl|apply incl_appr].
        apply edgesOf_before. intros k Hk. destruct (HC' k Hk). split; auto. apply sel_edge, HC; auto. }
      assert (Bi : conn (pre ++ firstn j es) u v).
      { apply conn_edge. apply in_app_iff. right. eapply firstn_edge; eauto. }
      destruct S as [S|[[S1 S2]|[S1 S2]]]; [auto| |]; apply Hcj.
      + apply Bj in S1. apply Bj in S2. eauto using conn.
      + apply Bj in S1. apply Bj in S2. eauto using conn.
  Qed.
End Acyclic.
