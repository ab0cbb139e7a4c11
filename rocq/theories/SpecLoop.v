(** Rounds of speculative Kruskal and the whole loop. *)
From Verif Require Import Base Sched UfModel UfProofs KruskalSpec SpecReserve SpecCommit.
Set Implicit Arguments.

Definition orig (es : list (nat * nat)) (i : nat) : nat * nat := nth i es (0, 0).

Lemma F2_in_l A B (Q : A -> B -> Prop) la lb a : Forall2 Q la lb -> In a la -> exists b, In b lb /\ Q a b.
Proof.
  induction 1 as [|x y la lb H1 H2 IH]; intros H; [destruct H|].
  destruct H as [<-|H]; [exists y; simpl; auto|destruct (IH H) as (b & Hb & Qb); exists b; simpl; auto].
Qed.
Lemma F2_in_r A B (Q : A -> B -> Prop) la lb b : Forall2 Q la lb -> In b lb -> exists a, In a la /\ Q a b.
Proof.
  induction 1 as [|x y la lb H1 H2 IH]; intros H; [destruct H|].
  destruct H as [<-|H]; [exists x; simpl; auto|destruct (IH H) as (a & Ha & Qb); exists a; simpl; auto].
Qed.

Lemma SSorted_lt_nodup l : StronglySorted lt l -> NoDup l.
Proof.
  induction 1 as [|a l H IH HF]; constructor; auto. intros Hin. rewrite Forall_forall in HF. specialize (HF a Hin). lia.
Qed.
Lemma SSorted_map_filter A (f : A -> nat) (g : A -> bool) l :
  StronglySorted lt (map f l) -> StronglySorted lt (map f (filter g l)).
Proof.
  induction l as [|a l IH]; simpl; intros H; auto. inversion H as [|? ? H1 H2]; subst.
  destruct (g a); simpl; auto. constructor; auto.
  rewrite Forall_forall in *. intros x Hx. apply H2. apply in_map_iff in Hx. destruct Hx as (y & <- & Hy).
  apply in_map. apply filter_In in Hy. tauto.
Qed.
Lemma SSorted_app_seq l q k : StronglySorted lt l -> (forall x, In x l -> x < q) -> StronglySorted lt (l ++ seq q k).
Proof.
  induction 1 as [|a l H IH HF]; simpl; intros Hq.
  - clear. revert q; induction k as [|k IH]; intros q; simpl; constructor; auto.
    rewrite Forall_forall. intros x Hx. apply in_seq in Hx. lia.
  - constructor; auto. rewrite Forall_forall in *. intros x Hx. apply in_app_iff in Hx.
    destruct Hx as [Hx|Hx]; auto. apply in_seq in Hx. specialize (Hq a (or_introl eq_refl)). lia.
Qed.

Arguments F2_in_l {A B Q la lb a} _ _.
Arguments F2_in_r {A B Q la lb b} _ _.

Section Loop.
  Variable n : nat.
  Variable pre es : list (nat * nat).
  Hypothesis Hin : inrange n (pre ++ es).
  (** the parents before the loop *)
  Variable P0 : parents.
  Notation m := (length es).

  Lemma nth_edge i : i < m -> nth_error es i = Some (fst (orig es i), snd (orig es i)).
  Proof. intros H. rewrite (nth_error_nth' es (0, 0) H). unfold orig. destruct (nth i es (0, 0)); reflexivity. Qed.
  Lemma edge_in i : i < m -> fst (orig es i) < n /\ snd (orig es i) < n.
  Proof.
    intros H. apply nth_edge in H. apply nth_error_In in H. apply Hin. apply in_app_iff. auto.
  Qed.

  (** Invariant: [q] iterations have been started, those in [I0] are pending,
      those in [C] committed. *)
  Record LI (q : nat) (I0 : list nat) (C : list nat) (E : nat -> nat * nat) (s : ush) : Prop := {
    li_q : q <= m;
    li_sorted : StronglySorted lt I0;
    li_below : forall i, In i I0 -> i < q;
    li_inST : forall i, In i C <-> inST s i = true;
    li_sel : forall i, In i C -> selected pre es i;
    li_C : forall i, In i C -> i < q /\ ~ In i I0;
    li_forest : forest n (par s);
    li_conn : forall a b, a < n -> b < n -> (samerep (par s) a b <-> conn (pre ++ edgesOf es C) a b);
    li_done : forall i, i < q -> ~ In i I0 ->
      conn (pre ++ edgesOf es C) (fst (orig es i)) (snd (orig es i)) /\ (selected pre es i -> In i C);
    li_E : forall i, i < m -> fst (E i) < n /\ snd (E i) < n /\
      conn (pre ++ edgesOf es C) (fst (orig es i)) (fst (E i)) /\ conn (pre ++ edgesOf es C) (snd (orig es i)) (snd (E i));
    li_rsv : forall x, x < n -> par s x = None -> rsv s x = None;
    li_troot : forall x, par s x = None -> tag s x = None;
    li_tagC : forall x i, tag s x = Some i -> In i C /\ x < n;
    li_tagof : forall i, In i C -> exists x, tag s x = Some i;
    li_taginj : forall x y i, tag s x = Some i -> tag s y = Some i -> x = y;
    li_root0 : forall x, x < n -> par s x = None -> P0 x = None;
    li_tag0 : forall x i, tag s x = Some i -> P0 x = None /\ par s x <> None }.

  Lemma updE_in ls : forall E, NoDup (map fst ls) ->
    (forall i st, In (i, st) ls -> exists u v k, st = RDone u v k) ->
    forall i u v k, In (i, RDone u v k) ls -> fold_left updE ls E i = (u, v).
  Proof.
    induction ls as [|[j st] ls IH]; intros E ND HD i u v k Hi; [destruct Hi|].
    simpl in ND. inversion ND as [|? ? N1 N2]; subst. simpl. destruct Hi as [Hi|Hi].
    - inversion Hi; subst. clear IH Hi.
      assert (G : forall E0, E0 i = (u, v) -> fold_left updE ls E0 i = (u, v)).
      { clear -N1. induction ls as [|[j st] ls IH]; intros E0 H0; simpl; auto. simpl in N1.
        apply IH; [tauto|]. unfold updE. simpl. destruct st; auto. rewrite fupd_neq; auto. }
      apply G. unfold updE. simpl. apply fupd_eq.
    - apply IH with k; auto. intros i0 st0 H0. apply (HD i0 st0). right; auto.
  Qed.
  Lemma updE_out ls : forall E i, ~ In i (map fst ls) -> fold_left updE ls E i = E i.
  Proof.
    induction ls as [|[j st] ls IH]; intros E i Hi; simpl in *; auto.
    rewrite IH by tauto. unfold updE. simpl. destruct st; auto. rewrite fupd_neq; auto.
  Qed.

  (** One round processes the pending iterations and the next ones. *)
  Section Round.
    Variables (q q' : nat) (I0 : list nat) (C : list nat) (E : nat -> nat * nat) (s : ush).
    Arguments li_C {q I0 C E s} _ i _.
    Arguments li_done {q I0 C E s} _ i _ _.
    Arguments li_sel {q I0 C E s} _ i _.
    Arguments li_below {q I0 C E s} _ i _.
    Arguments li_tagof {q I0 C E s} _ i _.
    Arguments li_troot {q I0 C E s} _ x _.
    Arguments li_tagC {q I0 C E s} _ {x i} _.
    Arguments li_taginj {q I0 C E s} _ x y {i} _ _.
    Arguments li_rsv {q I0 C E s} _ {x} _ _.
    Arguments li_root0 {q I0 C E s} _ {x} _ _.
    Arguments li_tag0 {q I0 C E s} _ {x i} _.
    Hypothesis HL : LI q I0 C E s.
    Hypothesis Hq : q <= q'.
    Hypothesis Hq' : q' <= m.
    Notation I := (I0 ++ seq q (q' - q)).
    Notation X := (pre ++ edgesOf es C).

    Lemma I_lt i : In i I -> i < q'.
    Proof.
      intros H. apply in_app_iff in H. destruct H as [H|H]; [apply (li_below HL) in H; lia|apply in_seq in H; lia].
    Qed.
    Arguments I_lt i _ : clear implicits.
    Lemma I_sorted : StronglySorted lt I.
    Proof. apply SSorted_app_seq; [apply (li_sorted HL)|apply (li_below HL)]. Qed.
    Lemma I_not i : i < q' -> ~ In i I -> i < q /\ ~ In i I0.
    Proof.
      intros H N. rewrite in_app_iff, in_seq in N. split; [|tauto].
      destruct (le_lt_dec q i); auto. exfalso. apply N. right. lia.
    Qed.
    Arguments I_not i _ _ : clear implicits.
    Lemma I_notC i : In i I -> ~ In i C.
    Proof.
      intros H HC. destruct (li_C HL i HC) as [H1 H2]. apply in_app_iff in H. destruct H as [H|H]; auto.
      apply in_seq in H. lia.
    Qed.
    Arguments I_notC i _ _ : clear implicits.
    Lemma HE' : forall i, In i I -> fst (E i) < n /\ snd (E i) < n.
    Proof. intros i Hi. apply I_lt in Hi. destruct (li_E HL (i:=i)) as (A & B & _); [lia|auto]. Qed.

    (* a vertex and the root of its tree *)
    Lemma rep_conn a r : a < n -> rep (par s) a r -> conn X a r.
    Proof.
      intros Ha Hr. apply (li_conn HL); auto; [apply (rep_in (li_forest HL) Ha Hr)|].
      exists r. split; auto. apply rep_root. eapply rep_is_root; eauto.
    Qed.

    Variable ls1 : list (nat * rstate).
    Variable s1 : ush.
    Hypothesis HC1 : comp n (par s) (par s1).
    Hypothesis HS1 : inST s1 = inST s.
    Hypothesis HT1 : tag s1 = tag s.
    Hypothesis HF1 : Forall2 (fun i l => exists u v, l = (i, RDone u v (negb (u =? v))) /\ rep (par s) (fst (E i)) u /\
                 rep (par s) (snd (E i)) v /\ (u <> v -> ole (rsv s1 v) i /\ ole (rsv s1 u) i)) I ls1.
    Hypothesis HR1 : forall x j, rsv s1 x = Some j -> rsv s x = Some j \/ (In j I /\ claims s E j x).

    Notation T := (map startC ls1).

    Lemma ls1_ids : map fst ls1 = I.
    Proof.
      clear -HF1. induction HF1 as [|i l I' ls' (u & v & -> & _) HF IH]; simpl; auto. rewrite IH; auto.
    Qed.
    Lemma T_ids : map cid T = I.
    Proof.
      rewrite map_map. rewrite <- ls1_ids. apply map_ext_in. intros [i st] H. simpl.
      unfold cid, startC. simpl. destruct st; reflexivity.
    Qed.

    (* an iteration of the round with its roots *)
    Lemma T_elem i u v st : In (i, u, v, st) T -> In i I /\ rep (par s) (fst (E i)) u /\ rep (par s) (snd (E i)) v /\
      ((st = C0 /\ u <> v /\ ole (rsv s1 v) i /\ ole (rsv s1 u) i) \/ (st = CSkip /\ u = v)).
    Proof.
      intros H. apply in_map_iff in H. destruct H as ([i' st'] & HE & Hl).
      destruct (F2_in_r HF1 Hl) as (j & Hj & u' & v' & El & A & B & D). inversion El; subst. clear El.
      unfold startC in HE. simpl in HE. inversion HE; subst. split; auto. split; auto. split; auto.
      destruct (u =? v) eqn:Q; simpl; [right; apply Nat.eqb_eq in Q; auto|left].
      apply Nat.eqb_neq in Q. destruct (D Q). auto.
    Qed.
    Arguments T_elem i u v st _ : clear implicits.

    Lemma T_conn i u v st : In (i, u, v, st) T -> conn X (fst (orig es i)) u /\ conn X (snd (orig es i)) v.
    Proof.
      intros H. destruct (T_elem _ _ _ _ H) as (Hi & Ru & Rv & _). pose proof (I_lt i Hi) as Hlt.
      destruct (li_E HL (i:=i)) as (A & B & CA & CB); [lia|].
      split; eapply conn_trans; eauto using rep_conn.
    Qed.
    Arguments T_conn i u v st _ : clear implicits.
    Lemma T_of i : In i I -> exists u v st, In (i, u, v, st) T.
    Proof.
      rewrite <- T_ids. intros H. apply in_map_iff in H. destruct H as ([[[i' u] v] st] & E1 & H).
      unfold cid in E1. simpl in E1. subst. eauto.
    Qed.
    Arguments T_of i _ : clear implicits.

    Lemma root1 x : x < n -> (par s1 x = None <-> par s x = None).
    Proof. apply comp_root; auto. Qed.

    (* distinct roots are not connected *)
    Lemma roots_apart u v : u < n -> v < n -> par s u = None -> par s v = None -> conn X u v -> u = v.
    Proof.
      intros Hu Hv Ru Rv H. apply (li_conn HL) in H; auto. destruct H as (r & A & B).
      rewrite <- (rep_det A (rep_root _ u Ru)). apply (rep_det B (rep_root _ v Rv)).
    Qed.

    Lemma T_root i u v st : In (i, u, v, st) T -> u < n /\ v < n /\ par s u = None /\ par s v = None.
    Proof.
      intros H. destruct (T_elem _ _ _ _ H) as (Hi & Ru & Rv & _). destruct (HE' i Hi) as [A B].
      pose proof (li_forest HL) as F.
      repeat split; [apply (rep_in F A Ru)|apply (rep_in F B Rv)|eapply rep_is_root; eauto|eapply rep_is_root; eauto].
    Qed.
    Arguments T_root i u v st _ : clear implicits.

    Lemma owner_selected i u v : In (i, u, v, C0) T -> rsv s1 v = Some i \/ rsv s1 u = Some i -> selected pre es i.
    Proof.
      intros H Ho. destruct (T_elem _ _ _ _ H) as (Hi & Ru & Rv & [(_ & Duv & _ & _)|(Q & _)]); [|discriminate].
      destruct (T_root _ _ _ _ H) as (Hun & Hvn & Pu & Pv).
      assert (Hlt : i < q') by (apply I_lt; auto).
      destruct (T_conn _ _ _ _ H) as [Ca Cb].
      exists (fst (orig es i)), (snd (orig es i)). split; [apply nth_edge; lia|]. intros Hc.
      assert (Hx : exists x, (x = u \/ x = v) /\ rsv s1 x = Some i) by (destruct Ho; eauto).
      destruct Hx as (x & Hxuv & Rx).
      assert (Hxn : x < n) by (destruct Hxuv; subst; auto).
      assert (Px : par s x = None) by (destruct Hxuv; subst; auto).
      (* the class of x is closed under the edges before i *)
      assert (Cl : forall a b, conn (pre ++ firstn i es) a b -> (conn X a x <-> conn X b x)).
      { apply conn_gen; [tauto|intros; symmetry; auto|intros a b c A B; rewrite A; auto|].
        intros a b Hab.
        enough (G : conn X a b \/ (~ conn X a x /\ ~ conn X b x)).
        { destruct G as [G|G]; [|tauto]. split; intros; eauto using conn. }
        apply in_app_iff in Hab. destruct Hab as [Hab|Hab]; [left; apply conn_edge; apply in_app_iff; auto|].
        apply In_nth_error in Hab. destruct Hab as (j & Ej).
        assert (Hji : j < i) by (assert (Z := proj1 (nth_error_Some (firstn i es) j)); rewrite Ej in Z; specialize (Z ltac:(discriminate)); rewrite firstn_length in Z; lia).
        assert (Eab : orig es j = (a, b)).
        { unfold orig. rewrite <- (firstn_skipn i es). rewrite app_nth1 by (rewrite firstn_length; lia).
          apply nth_error_nth; auto. }
        destruct (in_dec Nat.eq_dec j I) as [HjI|NjI].
        2: { destruct (I_not j ltac:(lia) NjI) as [A B]. left. pose proof (proj1 (li_done HL j A B)) as G. rewrite Eab in G. exact G. }
        destruct (T_of j HjI) as (uj & vj & stj & Hj).
        destruct (T_conn _ _ _ _ Hj) as [Cja Cjb]. rewrite Eab in Cja, Cjb. simpl in Cja, Cjb.
        destruct (T_root _ _ _ _ Hj) as (Ujn & Vjn & Puj & Pvj).
        destruct (T_elem _ _ _ _ Hj) as (_ & _ & _ & [(_ & Dj & Ov & Ou)|(_ & <-)]); [|left; eauto using conn].
        right. split; intros Q.
        - assert (uj = x) by (apply roots_apart; auto; eauto using conn). subst uj.
          destruct Ou as (k & Ek & Hk). rewrite Rx in Ek. inversion Ek; subst. lia.
        - assert (vj = x) by (apply roots_apart; auto; eauto using conn). subst vj.
          destruct Ov as (k & Ek & Hk). rewrite Rx in Ek. inversion Ek; subst. lia. }
      specialize (Cl _ _ Hc).
      assert (Cl' : conn X u x <-> conn X v x).
      { split; intros Q.
        - assert (conn X (fst (orig es i)) x) by eauto using conn. apply Cl in H0. eauto using conn.
        - assert (conn X (snd (orig es i)) x) by eauto using conn. apply Cl in H0. eauto using conn. }
      destruct Hxuv as [->| ->]; apply Duv.
      - symmetry. apply roots_apart; auto. apply Cl'. constructor.
      - apply roots_apart; auto. apply Cl'. constructor.
    Qed.
    Arguments owner_selected i u v _ _ : clear implicits.

    Lemma conn1 a b : a < n -> b < n -> (samerep (par s1) a b <-> conn X a b).
    Proof.
      intros Ha Hb. rewrite <- (li_conn HL) by auto.
      split; intros (r & A & B); exists r; split; apply (comp_rep (li_forest HL) r HC1); auto.
    Qed.

    (* the hypotheses of the commit phase *)
    Lemma hyp_start : forall i u v st, In (i, u, v, st) T -> st = C0 \/ st = CSkip.
    Proof. intros i u v st H. destruct (T_elem _ _ _ _ H) as (_ & _ & _ & [(-> & _)|(-> & _)]); auto. Qed.
    Lemma hyp_id : NoDup (map cid T).
    Proof. rewrite T_ids. apply SSorted_lt_nodup, I_sorted. Qed.
    Lemma hyp_root : forall i u v, In (i, u, v, C0) T -> u <> v /\ u < n /\ v < n /\ par s1 u = None /\ par s1 v = None.
    Proof.
      intros i u v H. destruct (T_root _ _ _ _ H) as (A & B & C1 & C2).
      destruct (T_elem _ _ _ _ H) as (_ & _ & _ & [(_ & D & _)|(Q & _)]); [|discriminate].
      repeat split; auto; apply root1; auto.
    Qed.
    Lemma hyp_edge : forall i u v, In (i, u, v, C0) T -> ~ In i C /\ exists a b, nth_error es i = Some (a, b) /\
      conn X a u /\ conn X b v.
    Proof.
      intros i u v H. destruct (T_elem _ _ _ _ H) as (Hi & _). split; [apply I_notC; auto|].
      exists (fst (orig es i)), (snd (orig es i)). split; [apply nth_edge; apply I_lt in Hi; lia|].
      apply (T_conn _ _ _ _ H).
    Qed.

    Variable ls2 : list clocal.
    Variable s2 : ush.
    Hypothesis HC2 : cI n s1 T pre es C ls2 s2.
    Hypothesis HD2 : forall l, In l ls2 -> cdone l = true.
    Notation Ih := (map (fun l => fst (fst (fst l))) (filter kept ls2)).

    Lemma ls2_ids : map cid ls2 = I.
    Proof.
      rewrite <- T_ids. assert (H : map fst ls2 = map fst T) by apply HC2.
      assert (G : forall l : list clocal, map cid l = map (fun x => fst (fst x)) (map fst l)) by (intros l; rewrite map_map; reflexivity).
      rewrite !G, H. reflexivity.
    Qed.

    (* final states *)
    Lemma ls2_elem i u v st : In (i, u, v, st) ls2 -> In i I /\
      ((st = CDone true /\ In (i, u, v, C0) T /\ owns s1 i u v /\ wasReset s1 i u v (rsv s2)) \/
       (st = CDone false /\ In (i, u, v, C0) T /\ ~ owns s1 i u v) \/ (st = CSkip /\ In (i, u, v, CSkip) T)).
    Proof.
      intros H. pose proof (HD2 _ H) as D. destruct HC2 as (_ & Hinv & _). pose proof (Hinv _ H) as Hv.
      assert (HiI : In i I) by (rewrite <- ls2_ids; apply in_map_iff; exists (i, u, v, st); auto).
      split; auto. unfold cdone in D. simpl in D, Hv. destruct st as [| | | | | |[|]|]; try discriminate; intuition auto.
    Qed.
    Arguments ls2_elem i u v st _ : clear implicits.
    Lemma ls2_of i : In i I -> exists u v st, In (i, u, v, st) ls2.
    Proof.
      rewrite <- ls2_ids. intros H. apply in_map_iff in H. destruct H as ([[[i' u] v] st] & E1 & H).
      unfold cid in E1. simpl in E1. subst. eauto.
    Qed.
    Arguments ls2_of {i} _.
    Lemma in_Ih i : In i Ih <-> exists u v, In (i, u, v, CDone false) ls2.
    Proof.
      split.
      - intros H. apply in_map_iff in H. destruct H as ([[[i' u] v] st] & E1 & H). simpl in E1. subst.
        apply filter_In in H. destruct H as [H K]. unfold kept in K. simpl in K. destruct st as [| | | | | |[|]|]; try discriminate. eauto.
      - intros (u & v & H). apply in_map_iff. exists (i, u, v, CDone false). split; auto. apply filter_In. auto.
    Qed.

    Lemma Ih_length : In (hd 0 I) I -> length Ih < length I.
    Proof.
      intros Hh. destruct (ls2_of Hh) as (u & v & st & Hl).
      assert (N : kept (hd 0 I, u, v, st) = false).
      { destruct (ls2_elem _ _ _ _ Hl) as (_ & [(-> & _)|[(-> & HT & NO)|(-> & _)]]); auto.
        exfalso. apply NO. destruct (T_elem _ _ _ _ HT) as (_ & _ & _ & [(_ & _ & (j & Ej & Hj) & _)|(Q & _)]); [|discriminate].
        left. rewrite Ej. f_equal. destruct (HR1 _ Ej) as [Q|[HjI _]].
        - destruct (T_root _ _ _ _ HT) as (_ & Hvn & _ & Pv). rewrite (li_rsv HL Hvn Pv) in Q. discriminate.
        - assert (G : forall x, In x I -> hd 0 I <= x).
          { clear -HL. pose proof I_sorted as S. revert S. generalize I. intros l S x Hx. destruct l as [|a l]; [destruct Hx|].
            inversion S as [|? ? S1 S2]; subst. destruct Hx as [->|Hx]; auto. rewrite Forall_forall in S2. specialize (S2 x Hx). simpl. lia. }
          specialize (G j HjI). lia. }
      rewrite map_length, <- ls2_ids, map_length.
      clear -Hl N. revert Hl N. generalize (hd 0 I). intros h Hl N. clear -Hl N. induction ls2 as [|a l IH]; [destruct Hl|]. simpl. destruct Hl as [->|Hl].
      - rewrite N. assert (length (filter kept l) <= length l) by (clear; induction l as [|b l IH]; simpl; [auto|destruct (kept b); simpl; lia]). apply Nat.lt_succ_r. assumption.
      - specialize (IH Hl). destruct (kept a); simpl; [apply (proj1 (Nat.succ_lt_mono _ _)); exact IH|apply Nat.lt_lt_succ_r; exact IH].
    Qed.

    Lemma round_LI : exists C', LI q' Ih C' (fold_left updE ls1 E) s2.
    Proof.
      pose proof HC2 as (HT & Hinv & HR & (D & HD & HF & HC) & HP & HS & HG).
      assert (Linked : forall l, In l ls2 -> (linked l <-> snd l = CDone true)).
      { intros [[[i u] v] st] H. pose proof (HD2 _ H) as Q. unfold cdone, linked in *. simpl in *.
        destruct st as [| | | | | |[|]|]; try discriminate; split; try tauto; try discriminate; auto. }
      assert (InD : forall i, In i D <-> exists u v, In (i, u, v, CDone true) ls2).
      { intros i. rewrite HD. split.
        - intros (l & Hl & E1 & L). apply (proj1 (Linked l Hl)) in L. destruct l as [[[i' u] v] st]. unfold cid in E1. simpl in *. subst. eauto.
        - intros (u & v & H). exists (i, u, v, CDone true). split; auto. split; [reflexivity|exact Logic.I]. }
      assert (DI : forall i, In i D -> In i I).
      { intros i H. apply InD in H. destruct H as (u & v & H). apply (ls2_elem _ _ _ _ H). }
      assert (Uniq : forall l l', In l ls2 -> In l' ls2 -> cid l = cid l' -> l = l').
      { intros l l' A B E1. apply (@same_id T hyp_id ls2); auto. }
      assert (Mono : forall a b, conn X a b -> conn (pre ++ edgesOf es (D ++ C)) a b).
      { intros a b. apply conn_mono. apply incl_app; [apply incl_appl, incl_refl|apply incl_appr].
        unfold edgesOf. rewrite map_app. apply incl_appr, incl_refl. }
      exists (D ++ C). constructor.
      - exact Hq'.
      - apply (@SSorted_map_filter clocal cid kept ls2). rewrite ls2_ids. apply I_sorted.
      - intros i H. apply in_Ih in H. destruct H as (u & v & H). apply I_lt. apply (ls2_elem _ _ _ _ H).
      - intros i. rewrite HS, HS1, in_app_iff, <- (li_inST HL i), InD.
        assert (G : (exists l, In l ls2 /\ cid l = i /\ over l) <-> exists u v, In (i, u, v, CDone true) ls2).
        { split.
          - intros ([[[i' u] v] st] & Hl & E1 & O). unfold cid, over in *. simpl in *. subst. eauto.
          - intros (u & v & H). exists (i, u, v, CDone true). split; auto. split; reflexivity. }
        rewrite G. tauto.
      - intros i H. apply in_app_iff in H. destruct H as [H|H]; [|apply (li_sel HL); auto].
        apply InD in H. destruct H as (u & v & H). destruct (ls2_elem _ _ _ _ H) as (_ & [(_ & A & B & _)|[(Q & _)|(Q & _)]]); try discriminate.
        apply (owner_selected _ _ _ A B).
      - intros i H. apply in_app_iff in H. destruct H as [H|H].
        + split; [apply I_lt, DI; auto|]. intros Q. apply InD in H. apply in_Ih in Q.
          destruct H as (u & v & H). destruct Q as (u' & v' & Q). pose proof (Uniq _ _ H Q eq_refl). congruence.
        + destruct (li_C HL i H) as [A B]. split; [lia|]. intros Q. apply in_Ih in Q. destruct Q as (u & v & Q).
          destruct (ls2_elem _ _ _ _ Q) as (Hi & _). apply (I_notC i Hi H).
      - exact HF.
      - exact HC.
      - intros i Hi NI. destruct (in_dec Nat.eq_dec i I) as [HiI|NiI].
        + destruct (ls2_of HiI) as (u & v & st & Hl).
          destruct (ls2_elem _ _ _ _ Hl) as (_ & [(-> & A & B & _)|[(-> & A & B)|(-> & A)]]).
          * assert (HiD : In i D) by (apply InD; eauto). split; [|intros _; apply in_app_iff; auto].
            apply conn_edge. apply in_app_iff. right. unfold edgesOf. rewrite <- surjective_pairing.
            apply in_map_iff. exists i. split; [reflexivity|apply in_app_iff; auto].
          * exfalso. apply NI. apply in_Ih. eauto.
          * destruct (T_elem _ _ _ _ A) as (_ & _ & _ & [(Q & _)|(_ & <-)]); [discriminate|].
            destruct (T_conn _ _ _ _ A) as [Ca Cb].
            assert (Cab : conn X (fst (orig es i)) (snd (orig es i))) by eauto using conn.
            split; [auto|]. intros Hs. exfalso. assert (Him : i < m) by lia.
            apply (@sel_acyclic pre es C i _ _ (li_sel HL) Hs (I_notC i HiI) (nth_edge Him)); auto.
        + destruct (I_not i Hi NiI) as [A B]. destruct (li_done HL i A B) as [G1 G2]. split; auto.
          intros Q. apply in_app_iff. auto.
      - intros i Hi. destruct (in_dec Nat.eq_dec i I) as [HiI|NiI].
        + destruct (F2_in_l HF1 HiI) as (l & Hl & u & v & -> & Ru & Rv & _).
          assert (HiT : In (i, u, v, if negb (u =? v) then C0 else CSkip) T) by (apply in_map_iff; eexists; split; [|exact Hl]; reflexivity).
          destruct (T_root _ _ _ _ HiT) as (A & B & _). destruct (T_conn _ _ _ _ HiT) as [Ca Cb].
          rewrite (@updE_in ls1 E) with (u := u) (v := v) (k := negb (u =? v)); auto.
          * rewrite ls1_ids. apply SSorted_lt_nodup, I_sorted.
          * intros i0 st0 H0. destruct (F2_in_r HF1 H0) as (j & _ & u0 & v0 & E0 & _). inversion E0; subst. eauto.
        + rewrite updE_out by (rewrite ls1_ids; auto). destruct (li_E HL Hi) as (A & B & C1 & C2'). auto.
      - intros x Hx Px. apply HP in Px. destruct Px as [P1x NL].
        destruct (HR x) as [Hrx|[Q _]]; auto. rewrite Hrx.
        destruct (rsv s1 x) as [j|] eqn:Ej; auto. exfalso.
        pose proof (proj1 (root1 Hx) P1x) as P0x.
        destruct (HR1 _ Ej) as [Q|[HjI (u & v & Ru & Rv & Duv & Hxuv)]]; [rewrite (li_rsv HL Hx P0x) in Q; discriminate|].
        destruct (ls2_of HjI) as (u2 & v2 & st & Hl).
        destruct (F2_in_l HF1 HjI) as (l & Hl1 & u1 & v1 & -> & Ru1 & Rv1 & _).
        assert (u1 = u) by (apply (rep_det Ru1 Ru)). assert (v1 = v) by (apply (rep_det Rv1 Rv)). subst u1 v1.
        assert (HjT : In (j, u, v, C0) T).
        { apply in_map_iff. eexists. split; [|exact Hl1]. apply Nat.eqb_neq in Duv. unfold startC. simpl. rewrite Duv. reflexivity. }
        assert (Same : forall st', In (j, u2, v2, st') T -> u2 = u /\ v2 = v /\ st' = C0).
        { intros st' H'. pose proof (@same_id T hyp_id T _ _ eq_refl HjT H' eq_refl) as Q. inversion Q; auto. }
        destruct (ls2_elem _ _ _ _ Hl) as (_ & [(-> & A & B & W)|[(-> & A & B)|(-> & A)]]);
          destruct (Same _ A) as (-> & -> & Q); try discriminate; clear Q.
        * (* committed: x was linked away or reset *)
          destruct (oeqb (rsv s1 v) (Some j)) eqn:Ov.
          -- pose proof (proj1 (oeqb_eq _ _) Ov) as Ov'. destruct Hxuv as [-> | ->].
             ++ pose proof (W Ov' Ej). congruence.
             ++ apply NL. exists (j, u, v, CDone true). split; auto. split; [exact Logic.I|]. simpl. unfold xlink. rewrite Ov. auto.
          -- assert (Nv : rsv s1 v <> Some j) by (intros Q; apply (proj2 (oeqb_eq _ _)) in Q; congruence).
             destruct Hxuv as [-> | ->]; [|congruence].
             apply NL. exists (j, u, v, CDone true). split; auto. split; [exact Logic.I|]. simpl. unfold xlink. rewrite Ov. auto.
        * apply B. destruct Hxuv as [-> | ->]; [right|left]; auto.
      - intros x Px. apply HP in Px. destruct Px as [P1x NL].
        destruct (tag s2 x) as [i|] eqn:Et; auto. exfalso. apply HG in Et. destruct Et as [Et|(l & Hl & _ & O & Ex)].
        + rewrite HT1 in Et. destruct (li_tagC HL Et) as [_ Hxn].
          rewrite (li_troot HL _ (proj1 (root1 Hxn) P1x)) in Et. discriminate.
        + apply NL. exists l. split; auto. split; auto. apply (proj2 (Linked l Hl)). exact O.
      - intros x i Et. apply HG in Et. destruct Et as [Et|(l & Hl & E1 & O & Ex)].
        + rewrite HT1 in Et. destruct (li_tagC HL Et). split; auto. apply in_app_iff; auto.
        + split; [apply in_app_iff; left; apply HD; exists l; split; auto; split; auto; apply (proj2 (Linked l Hl)); exact O|].
          destruct l as [[[i' u] v] st]. unfold over in O. simpl in O. subst st.
          destruct (ls2_elem _ _ _ _ Hl) as (_ & [(_ & A & _)|[(Q & _)|(Q & _)]]); try discriminate.
          destruct (T_root _ _ _ _ A) as (U & V & _). rewrite <- Ex. unfold xof, xlink. destruct (oeqb _ _); auto.
      - intros i H. apply in_app_iff in H. destruct H as [H|H].
        + apply InD in H. destruct H as (u & v & H). exists (xof s1 (i, u, v, CDone true)). apply HG. right.
          exists (i, u, v, CDone true). split; auto. split; [reflexivity|]. split; reflexivity.
        + destruct (li_tagof HL i H) as (x & Hx). exists x. apply HG. left. rewrite HT1; auto.
      - assert (Z : forall x i l, tag s1 x = Some i -> In l ls2 -> cid l = i -> False).
        { intros x i l A B Q. rewrite HT1 in A. destruct (li_tagC HL A) as [A' _].
          apply (I_notC i); auto. rewrite <- ls2_ids. rewrite <- Q. apply in_map; auto. }
        intros x y i A B. apply HG in A. apply HG in B.
        destruct A as [A|(l & Hl & E1 & O & Ex)], B as [B|(l' & Hl' & E1' & O' & Ex')].
        + rewrite HT1 in A, B. apply (li_taginj HL _ _ A B).
        + destruct (Z _ _ _ A Hl' E1').
        + destruct (Z _ _ _ B Hl E1).
        + assert (l = l') by (apply Uniq; congruence). congruence.
      - intros x Hx Px. apply HP in Px. destruct Px as [P1x _]. apply (li_root0 HL Hx), root1; auto.
      - intros x i Et. pose proof Et as Et0. apply HG in Et. destruct Et as [Et|(l & Hl & E1 & O & Ex)].
        + rewrite HT1 in Et. destruct (li_tag0 HL Et) as [A B]. split; auto. intros Px. apply HP in Px. destruct Px as [P1x _].
          apply B, root1; auto. apply (li_tagC HL Et).
        + split; [|intros Px; apply HP in Px; destruct Px as [_ NL]; apply NL; exists l; split; auto; split; auto; apply (proj2 (Linked l Hl)); exact O].
          destruct l as [[[i' u] v] st]. unfold over in O. simpl in O. subst st.
          destruct (ls2_elem _ _ _ _ Hl) as (_ & [(_ & A & _)|[(Q & _)|(Q & _)]]); try discriminate.
          destruct (T_root _ _ _ _ A) as (U & V & Pu & Pv). rewrite <- Ex. unfold xof, xlink.
          destruct (oeqb _ _); apply (li_root0 HL); auto.
    Qed.
  End Round.

  Lemma commit_hyps q q' I0 C E s ls1 s1 : LI q I0 C E s -> q <= q' -> q' <= m -> comp n (par s) (par s1) -> tag s1 = tag s ->
    Forall2 (fun i l => exists u v, l = (i, RDone u v (negb (u =? v))) /\ rep (par s) (fst (E i)) u /\
      rep (par s) (snd (E i)) v /\ (u <> v -> ole (rsv s1 v) i /\ ole (rsv s1 u) i)) (I0 ++ seq q (q' - q)) ls1 ->
    forest n (par s1) /\
    (forall i u v st, In (i, u, v, st) (map startC ls1) -> st = C0 \/ st = CSkip) /\
    NoDup (map cid (map startC ls1)) /\
    (forall i u v, In (i, u, v, C0) (map startC ls1) -> u <> v /\ u < n /\ v < n /\ par s1 u = None /\ par s1 v = None) /\
    (forall a b, a < n -> b < n -> (samerep (par s1) a b <-> conn (pre ++ edgesOf es C) a b)) /\
    (forall i u v, In (i, u, v, C0) (map startC ls1) -> ~ In i C /\ exists a b, nth_error es i = Some (a, b) /\
      conn (pre ++ edgesOf es C) a u /\ conn (pre ++ edgesOf es C) b v) /\
    (forall i u v, In (i, u, v, C0) (map startC ls1) -> (rsv s1 v = Some i \/ rsv s1 u = Some i) -> selected pre es i) /\
    (forall x, par s1 x = None -> tag s1 x = None).
  Proof.
    intros HL Hq Hq' HC1 HT1 HF1. repeat apply conj.
    - eapply comp_forest; eauto. apply (li_forest HL).
    - eapply hyp_start; eauto.
    - eapply hyp_id; eauto.
    - eapply hyp_root; eauto.
    - eapply conn1; eauto.
    - eapply hyp_edge; eauto.
    - eapply owner_selected; eauto.
    - intros x Px. rewrite HT1. destruct (tag s x) as [i|] eqn:Et; auto.
      destruct (li_tagC HL _ Et) as [_ Hx]. rewrite (li_troot HL x (proj1 (comp_root HC1 Hx) Px)) in Et. discriminate.
  Qed.

  Lemma round_spec q q' I0 C E s sr sc : LI q I0 C E s -> q <= q' -> q' <= m ->
    match round n sr sc (I0 ++ seq q (q' - q)) E s with
    | Ok (Ih, E', s') => (exists C', LI q' Ih C' E' s') /\ (I0 ++ seq q (q' - q) <> [] -> length Ih < length (I0 ++ seq q (q' - q)))
    | Fuel => True
    | _ => False
    end.
  Proof.
    intros HL Hq Hq'. unfold round.
    pose proof (@reserve_phase n s (li_forest HL) (I0 ++ seq q (q' - q)) E (HE' HL Hq Hq') sr) as R.
    destruct (runT (rstep n) rdone sr _ s) as [[ls1 s1]| | |] eqn:Er; simpl; auto.
    destruct R as (HC1 & HS1 & HT1 & HF1 & HR1).
    pose proof (@commit_hyps q q' I0 C E s ls1 s1 HL Hq Hq' HC1 HT1 HF1) as (A1 & A2 & A3 & A4 & A5 & A6 & A7 & A8).
    pose proof (@commit_phase n s1 A1 (map startC ls1) A2 A3 A4 pre es C A5 (li_sel HL) A6 A7 A8 sc) as K.
    destruct (runT (cstep n) cdone sc _ s1) as [[ls2 s2]| | |]; simpl; auto.
    destruct K as (HC2 & HD2). split.
    - eapply round_LI; eauto.
    - intros N. eapply Ih_length; eauto. destruct (I0 ++ seq q (q' - q)); [congruence|left; reflexivity].
  Qed.

  Lemma round_live q q' I0 C E s : LI q I0 C E s -> q <= q' -> q' <= m ->
    exists sr sc r, round n sr sc (I0 ++ seq q (q' - q)) E s = Ok r.
  Proof.
    intros HL Hq Hq'.
    destruct (@reserve_live n s (li_forest HL) (I0 ++ seq q (q' - q)) E (HE' HL Hq Hq') []) as (sr & [ls1 s1] & Er). simpl in Er.
    pose proof (@reserve_phase n s (li_forest HL) (I0 ++ seq q (q' - q)) E (HE' HL Hq Hq') sr) as R. rewrite Er in R.
    destruct R as (HC1 & HS1 & HT1 & HF1 & HR1).
    pose proof (@commit_hyps q q' I0 C E s ls1 s1 HL Hq Hq' HC1 HT1 HF1) as (A1 & A2 & A3 & A4 & A5 & A6 & A7 & A8).
    destruct (@commit_live n s1 A1 (map startC ls1) A2 A3 A4 pre es C A5 (li_sel HL) A6 A7 A8 []) as (sc & [ls2 s2] & Ec). simpl in Ec.
    unfold round. exists sr, sc. rewrite Er. simpl. rewrite Ec. simpl. eauto.
  Qed.

  Lemma map_seq_nth (l : list nat) (f : nat -> nat) : forall k, (forall j, j < length l -> f (k + j) = nth j l 0) ->
    map f (seq k (length l)) = l.
  Proof.
    induction l as [|a l IH]; intros k H; simpl; auto. f_equal.
    - specialize (H 0). rewrite Nat.add_0_r in H. apply H. simpl; lia.
    - apply IH. intros j Hj. specialize (H (S j)). rewrite Nat.add_succ_r in H. apply H. simpl; lia.
  Qed.
  Lemma I_list (l : list nat) d size : length l <= size ->
    map (fun j => if j <? length l then nth j l 0 else d + j) (seq 0 size) = l ++ seq (d + length l) (size - length l).
  Proof.
    intros H. replace size with (length l + (size - length l)) at 1 by lia. rewrite seq_app, map_app. f_equal.
    - apply map_seq_nth. intros j Hj. simpl. destruct (Nat.ltb_spec j (length l)); [auto|lia].
    - generalize (size - length l). intros k. simpl.
      assert (G : forall z, length l <= z -> map (fun j => if j <? length l then nth j l 0 else d + j) (seq z k) = seq (d + z) k).
      { induction k as [|k IH]; intros z Hz; simpl; auto. f_equal.
        - destruct (Nat.ltb_spec z (length l)); [lia|auto].
        - rewrite <- Nat.add_succ_r. apply IH. lia. }
      apply G; auto.
  Qed.

  Variable big small : nat -> nat -> bool.

  Lemma roundSize_bounds maxSize cur k size : 2 <= maxSize -> 1 <= cur -> cur <= maxSize -> k <= cur ->
    let c := roundSize big small maxSize cur k size in 1 <= c /\ c <= maxSize /\ k <= c.
  Proof.
    intros A B D F. unfold roundSize.
    assert (cur / 2 <= cur) by (apply Nat.div_le_upper_bound; lia).
    assert (maxSize / 64 + 1 <= maxSize) by (assert (maxSize / 64 < maxSize) by (apply Nat.div_lt; lia); lia).
    destruct (big k size); [lia|]. destruct (small k size); lia.
  Qed.

  Lemma specLoop_spec sched maxSize : 2 <= maxSize -> forall tries done I0 cur C E s,
    LI (done + length I0) I0 C E s -> 1 <= cur -> cur <= maxSize -> length I0 <= cur ->
    match specLoop n big small sched tries maxSize m done I0 cur E s with
    | Ok s' => exists C' E', LI m [] C' E' s'
    | Throw => tries < m - done
    | Fuel => True
    | UB => False
    end.
  Proof.
    intros HM. induction tries as [|t IH]; intros done I0 cur C E s HL H1 H2 H3; simpl.
    - destruct (Nat.leb_spec m done) as [L|L]; [|lia]. pose proof (li_q HL).
      destruct I0; simpl in *; [|lia]. replace (done + 0) with m in HL by lia. eauto.
    - destruct (Nat.leb_spec m done) as [L|L].
      { pose proof (li_q HL). destruct I0; simpl in *; [|lia]. replace (done + 0) with m in HL by lia. eauto. }
      set (size := Nat.min cur (m - done)). pose proof (li_q HL) as Hq.
      assert (Hs : length I0 <= size) by lia. assert (Hs1 : 1 <= size) by lia.
      destruct (Nat.ltb_spec maxSize size); [lia|]. rewrite I_list by auto.
      pose proof (@round_spec (done + length I0) (done + size) I0 C E s (fst (sched t)) (snd (sched t)) HL ltac:(lia) ltac:(lia)) as R.
      replace (done + size - (done + length I0)) with (size - length I0) in R by lia.
      destruct (round n _ _ _ E s) as [[[Ih E'] s']| | |]; simpl; [|destruct R|destruct R|auto].
      destruct R as ((C' & HL') & Hlt). rewrite app_length, seq_length in Hlt.
      assert (Hk : length Ih < size).
      { assert (length Ih < length I0 + (size - length I0)); [|lia]. apply Hlt. intros Q.
        apply (f_equal (@length nat)) in Q. rewrite app_length, seq_length in Q. simpl in Q. lia. }
      destruct (@roundSize_bounds maxSize cur (length Ih) size HM H1 H2 ltac:(lia)) as (A & B & D).
      specialize (IH (done + (size - length Ih)) Ih (roundSize big small maxSize cur (length Ih) size) C' E' s').
      replace (done + (size - length Ih) + length Ih) with (done + size) in IH by lia. specialize (IH HL' A B D).
      destruct (specLoop _ _ _ _ _ _ _ _ _ _ _ _); auto. lia.
  Qed.

  Lemma specLoop_ext sched sched' maxSize e : forall tries done I0 cur E s, (forall t, t < tries -> sched t = sched' t) ->
    specLoop n big small sched tries maxSize e done I0 cur E s = specLoop n big small sched' tries maxSize e done I0 cur E s.
  Proof.
    induction tries as [|t IH]; intros done I0 cur E s H; simpl; auto.
    destruct (e <=? done); auto. destruct (maxSize <? _); auto. rewrite <- (H t) by lia.
    destruct (round n _ _ _ E s) as [[[Ih E'] s']| | |]; simpl; auto.
  Qed.

  (** Every round can be completed. *)
  Lemma specLoop_live maxSize : 2 <= maxSize -> forall tries done I0 cur C E s,
    LI (done + length I0) I0 C E s -> 1 <= cur -> cur <= maxSize -> length I0 <= cur -> m - done <= tries ->
    exists sched s', specLoop n big small sched tries maxSize m done I0 cur E s = Ok s'.
  Proof.
    intros HM. induction tries as [|t IH]; intros done I0 cur C E s HL H1 H2 H3 H4.
    - exists (fun _ => ([], [])). simpl. destruct (Nat.leb_spec m done); [eauto|lia].
    - destruct (Nat.leb_spec m done) as [L|L].
      { exists (fun _ => ([], [])). simpl. destruct (Nat.leb_spec m done); [eauto|lia]. }
      set (size := Nat.min cur (m - done)). pose proof (li_q HL) as Hq.
      assert (Hs : length I0 <= size) by lia. assert (Hs1 : 1 <= size) by lia.
      destruct (@round_live (done + length I0) (done + size) I0 C E s HL ltac:(lia) ltac:(lia)) as (sr & sc & [[Ih E'] s'] & Er).
      pose proof (@round_spec (done + length I0) (done + size) I0 C E s sr sc HL ltac:(lia) ltac:(lia)) as R.
      rewrite Er in R. replace (done + size - (done + length I0)) with (size - length I0) in R, Er by lia.
      destruct R as ((C' & HL') & Hlt). rewrite app_length, seq_length in Hlt.
      assert (Hk : length Ih < size).
      { assert (length Ih < length I0 + (size - length I0)); [|lia]. apply Hlt. intros Q.
        apply (f_equal (@length nat)) in Q. rewrite app_length, seq_length in Q. simpl in Q. lia. }
      destruct (@roundSize_bounds maxSize cur (length Ih) size HM H1 H2 ltac:(lia)) as (A & B & D).
      specialize (IH (done + (size - length Ih)) Ih (roundSize big small maxSize cur (length Ih) size) C' E' s').
      replace (done + (size - length Ih) + length Ih) with (done + size) in IH by lia.
      destruct (IH HL' A B D ltac:(lia)) as (sched & s'' & Hs'').
      exists (fun j => if j =? t then (sr, sc) else sched j), s''. simpl.
      destruct (Nat.leb_spec m done); [lia|]. fold size. destruct (Nat.ltb_spec maxSize size); [lia|].
      rewrite I_list by auto. rewrite Nat.eqb_refl. simpl. rewrite Er. simpl. rewrite <- Hs''. apply specLoop_ext.
      intros j Hj. destruct (Nat.eqb_spec j t); [lia|auto].
  Qed.

  (** The initial state. *)
  Definition before (P : parents) (tg : nat -> option nat) : Prop :=
    forest n P /\ (forall a b, a < n -> b < n -> (samerep P a b <-> conn pre a b)) /\ (forall x, tg x = None).

  Lemma LI_start tg : before P0 tg ->
    LI 0 [] [] (fun i => nth i es (0, 0)) {| par := P0; rsv := fun _ => None; inST := fun _ => false; tag := tg |}.
  Proof.
    intros (HF & HC & HT). constructor; simpl; try tauto; try lia; auto.
    - constructor.
    - intros a b. rewrite app_nil_r. auto.
    - intros i Hi. destruct (edge_in Hi) as [A B]. unfold orig in *. repeat split; auto; constructor.
    - intros x i Q. rewrite HT in Q. discriminate.
    - intros x y i Q. rewrite HT in Q. discriminate.
    - intros x i Q. rewrite HT in Q. discriminate.
  Qed.

  Lemma speculative_for_spec sched g tries tg : before P0 tg ->
    match speculative_for n big small sched g tries m (fun i => nth i es (0, 0))
            {| par := P0; rsv := fun _ => None; inST := fun _ => false; tag := tg |} with
    | Ok s' => exists C' E', LI m [] C' E' s'
    | Throw => S tries < m
    | Fuel => True
    | UB => False
    end.
  Proof.
    intros HB. unfold speculative_for. set (mx := Nat.max 4 (m / g + 1)).
    assert (H4 : 4 <= mx) by (subst mx; lia).
    assert (A : 1 <= mx / 4) by (apply Nat.div_le_lower_bound; lia).
    assert (B : mx / 4 <= mx) by (apply Nat.div_le_upper_bound; lia).
    pose proof (@specLoop_spec sched mx ltac:(lia) (S tries) 0 [] (mx / 4) [] _ _ (LI_start HB) A B ltac:(simpl; lia)) as G.
    destruct (specLoop _ _ _ _ _ _ _ _ _ _ _ _); auto. lia.
  Qed.

  Lemma speculative_for_live g tries tg : before P0 tg -> m <= S tries ->
    exists sched s', speculative_for n big small sched g tries m (fun i => nth i es (0, 0))
            {| par := P0; rsv := fun _ => None; inST := fun _ => false; tag := tg |} = Ok s'.
  Proof.
    intros HB Hm. unfold speculative_for. set (mx := Nat.max 4 (m / g + 1)).
    assert (H4 : 4 <= mx) by (subst mx; lia).
    assert (A : 1 <= mx / 4) by (apply Nat.div_le_lower_bound; lia).
    assert (B : mx / 4 <= mx) by (apply Nat.div_le_upper_bound; lia).
    apply (@specLoop_live mx ltac:(lia) (S tries) 0 [] (mx / 4) [] _ _ (LI_start HB) A B); simpl; lia.
  Qed.
End Loop.
