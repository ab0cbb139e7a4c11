(** The reserve phase of a round of speculative Kruskal. *)
From Verif Require Import Base Sched UfModel UfProofs.
Set Implicit Arguments.

Section Reserve.
  Variable n : nat.
  Variable s0 : ush.
  Notation P0 := (par s0).
  Hypothesis F0 : forest n P0.
  Variable I : list nat.
  Variable E : nat -> nat * nat.
  Hypothesis HE : forall i, In i I -> fst (E i) < n /\ snd (E i) < n.

  (** Edge j runs between two trees, one of which has the root x. *)
  Definition claims (j x : nat) : Prop :=
    exists u v, rep P0 (fst (E j)) u /\ rep P0 (snd (E j)) v /\ u <> v /\ (x = u \/ x = v).

  Definition ole (o : option nat) (i : nat) : Prop := exists j, o = Some j /\ j <= i.

  Definition rinv (i : nat) (l : nat * rstate) (R : nat -> option nat) : Prop :=
    fst l = i /\
    match snd l with
    | RU f v => finv n P0 (fst (E i)) f /\ v = snd (E i)
    | RV u f => rep P0 (fst (E i)) u /\ finv n P0 (snd (E i)) f
    | RLoad second u v =>
      rep P0 (fst (E i)) u /\ rep P0 (snd (E i)) v /\ u <> v /\ (second = true -> ole (R v) i)
    | RCas second u v c =>
      rep P0 (fst (E i)) u /\ rep P0 (snd (E i)) v /\ u <> v /\ (second = true -> ole (R v) i) /\ below i c = true
    | RDone u v keep =>
      rep P0 (fst (E i)) u /\ rep P0 (snd (E i)) v /\ keep = negb (u =? v) /\
      (keep = true -> ole (R v) i /\ ole (R u) i)
    end.

  Definition rI (ls : list (nat * rstate)) (s : ush) : Prop :=
    comp n P0 (par s) /\ length ls = length I /\
    (forall k i l, nth_error I k = Some i -> nth_error ls k = Some l -> rinv i l (rsv s)) /\
    (forall x j, rsv s x = Some j -> rsv s0 x = Some j \/ (In j I /\ claims j x)) /\
    inST s = inST s0 /\ tag s = tag s0.

  Lemma ole_upd (R : nat -> option nat) x i y j : below i (R x) = true -> ole (R y) j ->
    ole (fupd R x (Some i) y) j.
  Proof.
    intros B (k & Ek & Hk). destruct (Nat.eq_dec y x) as [->|D].
    - rewrite fupd_eq. rewrite Ek in B. simpl in B. apply Nat.ltb_lt in B. exists i. split; auto. lia.
    - rewrite fupd_neq by auto. exists k. auto.
  Qed.
  Lemma rinv_upd i l (R : nat -> option nat) x j : below j (R x) = true -> rinv i l R -> rinv i l (fupd R x (Some j)).
  Proof.
    intros B (H1 & H2). split; auto. destruct (snd l); simpl in *; intuition auto using ole_upd.
  Qed.

  Lemma oeqb_eq a b : oeqb a b = true <-> a = b.
  Proof.
    destruct a as [x|], b as [y|]; simpl; split; try discriminate; auto.
    - intros H; apply Nat.eqb_eq in H; congruence.
    - intros H; inversion H. apply Nat.eqb_refl.
  Qed.

  (** The thread that acts gets the invariant; the others keep it. *)
  Lemma rI_upd ls s s' k l' :
    rI ls s -> k < length I -> comp n P0 (par s') ->
    (forall i, nth_error I k = Some i -> rinv i l' (rsv s')) ->
    (forall i l, rinv i l (rsv s) -> rinv i l (rsv s')) ->
    (forall x j, rsv s' x = Some j -> rsv s0 x = Some j \/ (In j I /\ claims j x)) ->
    inST s' = inST s -> tag s' = tag s -> rI (upd k l' ls) s'.
  Proof.
    intros (C & Hl & HI & HR & H1 & H2) Hk C' Hn Ho HR' E1 E2.
    split; auto. split; [rewrite upd_length; auto|]. split; [|split; [auto|split; congruence]].
    intros k' i l Ei El. destruct (Nat.eq_dec k k') as [<-|D].
    - rewrite nth_error_upd_eq in El by lia. inversion El; subst. auto.
    - rewrite nth_error_upd_neq in El by auto. apply Ho. eapply HI; eauto.
  Qed.

  Lemma r_step ls s k l : rI ls s -> nth_error ls k = Some l -> rdone l = false ->
    exists l' s', rstep n l s = Ok (l', s') /\ rI (upd k l' ls) s'.
  Proof.
    intros HI Hk D. pose proof HI as (C & Hl & Hinv & HR & HS & HT).
    assert (Hkl : k < length I) by (rewrite <- Hl; apply nth_error_Some; congruence).
    destruct (nth_error I k) as [i|] eqn:Ei; [|apply nth_error_None in Ei; lia].
    assert (HiI : In i I) by (eapply nth_error_In; eauto).
    destruct (HE i HiI) as [Hu Hv].
    pose proof (Hinv k i l Ei Hk) as Hin. destruct l as [i' st]. destruct Hin as [Hi Hst]. simpl in Hi. subst i'.
    assert (KK : forall i1, Some i = Some i1 -> i = i1) by (intros; congruence).
    destruct st as [f v|u f|sec u v|sec u v c|u v kp]; simpl in Hst, D.
    - (* RU *)
      destruct Hst as [Hf ->]. destruct (fdone f) eqn:Df.
      + destruct f; try discriminate. simpl. do 2 eexists. split; [reflexivity|].
        apply (@rI_upd ls s _ k _ HI); auto. rewrite Ei. intros i1 H; apply KK in H; subst i1. split; auto. simpl. auto.
      + destruct (@fstep_inv n P0 F0 (fst (E i)) f (par s) Hu C Hf) as (f' & P' & Ef & C' & Hf').
        exists (i, RU f' (snd (E i))), (setPar s P'). split.
        * destruct f; try discriminate; simpl rstep; simpl in Ef; rewrite Ef; reflexivity.
        * apply (@rI_upd ls s _ k _ HI); auto. rewrite Ei. intros i1 H; apply KK in H; subst i1. split; auto. simpl. auto.
    - (* RV *)
      destruct Hst as [Hr Hf]. destruct (fdone f) eqn:Df.
      + destruct f; try discriminate. simpl in Hf. simpl. do 2 eexists. split; [reflexivity|].
        apply (@rI_upd ls s _ k _ HI); auto. rewrite Ei. intros i1 H; apply KK in H; subst i1. split; auto.
        destruct (u =? r) eqn:Eu; simpl.
        * repeat split; auto; [rewrite Eu; auto| |]; intros; congruence.
        * apply Nat.eqb_neq in Eu. repeat split; auto. discriminate.
      + destruct (@fstep_inv n P0 F0 (snd (E i)) f (par s) Hv C Hf) as (f' & P' & Ef & C' & Hf').
        exists (i, RV u f'), (setPar s P'). split.
        * destruct f; try discriminate; simpl rstep; simpl in Ef; rewrite Ef; reflexivity.
        * apply (@rI_upd ls s _ k _ HI); auto. rewrite Ei. intros i1 H; apply KK in H; subst i1. split; auto. simpl. auto.
    - (* RLoad *)
      destruct Hst as (Ru & Rv & Duv & Hsec).
      assert (Hx : (if sec then u else v) < n)
        by (destruct sec; [apply (rep_in F0 Hu Ru)|apply (rep_in F0 Hv Rv)]).
      simpl. rewrite (load_in (rsv s) Hx). simpl. do 2 eexists. split; [reflexivity|].
      apply (@rI_upd ls s _ k _ HI); auto. rewrite Ei. intros i1 H; apply KK in H; subst i1. split; auto. simpl.
      destruct (below i (rsv s (if sec then u else v))) eqn:B; simpl; [repeat split; auto|].
      assert (O : ole (rsv s (if sec then u else v)) i).
      { destruct (rsv s (if sec then u else v)) as [j|]; simpl in B; [|discriminate].
        apply Nat.ltb_ge in B. exists j; auto. }
      destruct sec; simpl.
      * repeat split; auto. apply Nat.eqb_neq in Duv. rewrite Duv. auto.
      * repeat split; auto.
    - (* RCas *)
      destruct Hst as (Ru & Rv & Duv & Hsec & B).
      assert (Hx : (if sec then u else v) < n)
        by (destruct sec; [apply (rep_in F0 Hu Ru)|apply (rep_in F0 Hv Rv)]).
      simpl. rewrite (load_in (rsv s) Hx). simpl.
      destruct (oeqb (rsv s (if sec then u else v)) c) eqn:Q.
      + apply oeqb_eq in Q. subst c. do 2 eexists. split; [reflexivity|].
        assert (O : ole (fupd (rsv s) (if sec then u else v) (Some i) (if sec then u else v)) i)
          by (rewrite fupd_eq; exists i; auto).
        apply (@rI_upd ls s _ k _ HI); auto.
        * rewrite Ei. intros i1 H; apply KK in H; subst i1. split; auto.
          destruct sec; simpl; repeat split; auto.
          -- apply Nat.eqb_neq in Duv. rewrite Duv. auto.
          -- apply ole_upd; auto.
        * intros i1 l1. simpl. apply rinv_upd; auto.
        * intros x j Hj. simpl in Hj. destruct (Nat.eq_dec x (if sec then u else v)) as [Q|Dx].
          -- rewrite Q, fupd_eq in Hj. inversion Hj; subst j. right. split; auto.
             exists u, v. repeat split; auto. destruct sec; auto.
          -- rewrite fupd_neq in Hj by auto. auto.
      + do 2 eexists. split; [reflexivity|].
        apply (@rI_upd ls s _ k _ HI); auto. rewrite Ei. intros i1 H; apply KK in H; subst i1. split; auto. simpl. auto.
    - discriminate.
  Qed.

  Lemma rI_start : (forall i, In i I -> True) -> rI (map (startR E) I) s0.
  Proof.
    intros _. split; [apply comp_refl|]. split; [apply map_length|]. split; [|auto].
    intros k i l Ei El. rewrite nth_error_map, Ei in El. simpl in El. inversion El; subst.
    split; auto. simpl. auto.
  Qed.

  (** After the phase: what the theorem on a round needs. *)
  Lemma reserve_phase sched :
    match runT (rstep n) rdone sched (map (startR E) I) s0 with
    | Ok (ls, s) =>
      comp n P0 (par s) /\ inST s = inST s0 /\ tag s = tag s0 /\
      Forall2 (fun i l => exists u v, l = (i, RDone u v (negb (u =? v))) /\ rep P0 (fst (E i)) u /\
                 rep P0 (snd (E i)) v /\ (u <> v -> ole (rsv s v) i /\ ole (rsv s u) i)) I ls /\
      (forall x j, rsv s x = Some j -> rsv s0 x = Some j \/ (In j I /\ claims j x))
    | Fuel => True
    | _ => False
    end.
  Proof.
    pose proof (runT_inv (rstep n) rdone rI r_step sched _ _ (rI_start (fun _ _ => Logic.I))) as H.
    destruct (runT (rstep n) rdone sched (map (startR E) I) s0) as [[ls s]| | |]; auto.
    destruct H as ((C & Hl & Hinv & HR & HS & HT) & Hfin & _).
    repeat (split; auto). rewrite forallb_forall in Hfin. clear -Hl Hinv Hfin.
    revert Hl Hinv Hfin. generalize (rsv s) as R. intros R. revert ls.
    induction I as [|i I' IH]; intros [|l ls] Hl Hinv Hfin; try discriminate; constructor.
    - destruct (Hinv 0 i l eq_refl eq_refl) as [H1 H2].
      specialize (Hfin l (or_introl eq_refl)). destruct l as [i' st]. simpl in H1. subst i'.
      destruct st; try discriminate. simpl in H2. destruct H2 as (H2 & H3 & -> & H4).
      exists u, v. repeat split; auto; intros; apply H4; apply negb_true_iff, Nat.eqb_neq; auto.
    - apply IH; auto; [intros k; apply (Hinv (S k))|intros x Hx; apply Hfin; right; auto].
  Qed.

  (** No schedule gets stuck. *)
  Definition W := 2 * length I + 4.
  Definition casLeft (R : nat -> option nat) (x : nat) (c : option nat) : nat := if oeqb (R x) c then 1 else 3.
  Inductive rleft (R : nat -> option nat) : rstate -> nat -> Prop :=
  | rl_u f v k kv : fleft P0 f k -> fleft P0 (FRoot v) kv -> rleft R (RU f v) (k + kv + 2 * W + 8)
  | rl_v u f k : fleft P0 f k -> rleft R (RV u f) (k + 2 * W + 7)
  | rl_load sec u v : rleft R (RLoad sec u v) ((if sec then 0 else W + 4) + W + 2)
  | rl_cas sec u v c : rleft R (RCas sec u v c) ((if sec then 0 else W + 4) + W + casLeft R (if sec then u else v) c)
  | rl_done u v k : rleft R (RDone u v k) 0.

  Definition rM (ls : list (nat * rstate)) (s : ush) (k : nat) : Prop :=
    exists ks, Forall2 (fun l k => rleft (rsv s) (snd l) k) ls ks /\ k = list_sum ks.

  Lemma F2_nth A B (Q : A -> B -> Prop) la lb k a : Forall2 Q la lb -> nth_error la k = Some a ->
    exists b, nth_error lb k = Some b /\ Q a b.
  Proof.
    intros H; revert k; induction H as [|x y la lb H1 H2 IH]; intros [|k] Hk; simpl in *; try discriminate.
    - inversion Hk; subst; eauto.
    - apply IH; auto.
  Qed.
  Lemma F2_upd A B (Q : A -> B -> Prop) la lb k a b : Forall2 Q la lb -> Q a b -> Forall2 Q (upd k a la) (upd k b lb).
  Proof.
    intros H Hab; revert k; induction H as [|x y la lb H1 H2 IH]; intros [|k]; simpl; constructor; auto.
  Qed.
  Lemma sum_upd k b b' l : nth_error l k = Some b -> list_sum (upd k b' l) + b = list_sum l + b'.
  Proof.
    revert k; induction l as [|x l IH]; intros [|k] H; simpl in *; try discriminate.
    - inversion H; subst. lia.
    - specialize (IH k H). lia.
  Qed.

  Lemma rM_local ls s k l l' s' m : rM ls s m -> nth_error ls k = Some l -> rsv s' = rsv s ->
    (forall kk, rleft (rsv s) (snd l) kk -> exists kk', rleft (rsv s) (snd l') kk' /\ kk' < kk) ->
    exists m', rM (upd k l' ls) s' m' /\ m' < m.
  Proof.
    intros (ks & HF & ->) Hk Er Hl. destruct (F2_nth _ HF Hk) as (b & Hb & Qb).
    destruct (Hl b Qb) as (b' & Qb' & Hlt). exists (list_sum (upd k b' ks)). split.
    - exists (upd k b' ks). split; auto. rewrite Er. apply F2_upd; auto.
    - pose proof (sum_upd k b' ks Hb). lia.
  Qed.

  (* a successful swap makes the others' expectations stale *)
  Lemma rleft_stale R R' st k : rleft R st k -> exists k', rleft R' st k' /\ k' <= k + 2.
  Proof.
    destruct 1; eexists; (split; [econstructor; eauto|]); try lia.
    unfold casLeft. destruct (oeqb _ _), (oeqb _ _); lia.
  Qed.
  Lemma stale_sum R R' ls ks : Forall2 (fun l k => rleft R (snd l) k) ls ks ->
    exists ks', Forall2 (fun (l : nat * rstate) k => rleft R' (snd l) k) ls ks' /\ list_sum ks' <= list_sum ks + 2 * length ls.
  Proof.
    induction 1 as [|l k ls ks H HF (ks' & IH & Hs)]; [exists []; auto|].
    destruct (rleft_stale R' H) as (k' & Hk' & Hle). exists (k' :: ks'). split; [constructor; auto|]. simpl. lia.
  Qed.

  Lemma r_measure ls s k l l' s' m : rI ls s -> nth_error ls k = Some l -> rdone l = false ->
    rstep n l s = Ok (l', s') -> rM ls s m -> exists m', rM (upd k l' ls) s' m' /\ m' < m.
  Proof.
    intros HI Hk D Est HM. pose proof HI as (C & Hl & Hinv & HR & HS & HT).
    assert (Hkl : k < length I) by (rewrite <- Hl; apply nth_error_Some; congruence).
    destruct (nth_error I k) as [i|] eqn:Ei; [|apply nth_error_None in Ei; lia].
    assert (HiI : In i I) by (eapply nth_error_In; eauto).
    destruct (HE i HiI) as [Hu Hv].
    pose proof (Hinv k i l Ei Hk) as Hin. destruct l as [i' st]. destruct Hin as [Hi Hst]. simpl in Hi. subst i'.
    destruct st as [f v|u f|sec u v|sec u v c|u v kp]; simpl in Hst, D.
    - destruct Hst as [Hf ->]. destruct (fdone f) eqn:Df.
      + destruct f; try discriminate. simpl in Est. inversion Est; subst.
        eapply rM_local; [exact HM|exact Hk|reflexivity|]. simpl. intros kk Hkk. inversion Hkk; subst. eexists. split; [constructor; eauto|lia].
      + destruct (@fstep_inv n P0 F0 (fst (E i)) f (par s) Hu C Hf) as (f' & P' & Ef & C' & Hf').
        assert (Est' : rstep n (i, RU f (snd (E i))) s = Ok ((i, RU f' (snd (E i))), setPar s P'))
          by (destruct f; try discriminate; simpl rstep; simpl in Ef; rewrite Ef; reflexivity).
        rewrite Est' in Est. inversion Est; subst.
        eapply rM_local; [exact HM|exact Hk|reflexivity|]. simpl. intros kk Hkk. inversion Hkk as [? ? k1 k2 L1 L2| | | |]; subst.
        destruct (@fstep_left n P0 _ f (par s) f' P' k1 Hu C Hf Df Ef L1) as (k1' & L1' & Hlt).
        eexists. split; [constructor; eauto|lia].
    - destruct Hst as [Hr Hf]. destruct (fdone f) eqn:Df.
      + destruct f; try discriminate. simpl in Est. inversion Est; subst.
        eapply rM_local; [exact HM|exact Hk|reflexivity|]. simpl. intros kk Hkk. inversion Hkk; subst.
        destruct (u =? r); eexists; (split; [constructor|]); simpl; lia.
      + destruct (@fstep_inv n P0 F0 (snd (E i)) f (par s) Hv C Hf) as (f' & P' & Ef & C' & Hf').
        assert (Est' : rstep n (i, RV u f) s = Ok ((i, RV u f'), setPar s P'))
          by (destruct f; try discriminate; simpl rstep; simpl in Ef; rewrite Ef; reflexivity).
        rewrite Est' in Est. inversion Est; subst.
        eapply rM_local; [exact HM|exact Hk|reflexivity|]. simpl. intros kk Hkk. inversion Hkk as [|? ? k1 L1| | |]; subst.
        destruct (@fstep_left n P0 _ f (par s) f' P' k1 Hv C Hf Df Ef L1) as (k1' & L1' & Hlt).
        eexists. split; [constructor; eauto|lia].
    - destruct Hst as (Ru & Rv & Duv & Hsec).
      assert (Hx : (if sec then u else v) < n)
        by (destruct sec; [apply (rep_in F0 Hu Ru)|apply (rep_in F0 Hv Rv)]).
      simpl in Est. rewrite (load_in (rsv s) Hx) in Est. simpl in Est. inversion Est; subst.
      eapply rM_local; [exact HM|exact Hk|reflexivity|]. simpl. intros kk Hkk. inversion Hkk; subst.
      destruct (below i (rsv s' (if sec then u else v))) eqn:B.
      + eexists. split; [constructor|]. unfold casLeft.
        assert (Q : oeqb (rsv s' (if sec then u else v)) (rsv s' (if sec then u else v)) = true) by (apply oeqb_eq; auto).
        rewrite Q. lia.
      + destruct sec; simpl; eexists; (split; [constructor|]); unfold W; lia.
    - destruct Hst as (Ru & Rv & Duv & Hsec & B).
      assert (Hx : (if sec then u else v) < n)
        by (destruct sec; [apply (rep_in F0 Hu Ru)|apply (rep_in F0 Hv Rv)]).
      simpl in Est. rewrite (load_in (rsv s) Hx) in Est. simpl in Est.
      destruct (oeqb (rsv s (if sec then u else v)) c) eqn:Q.
      + inversion Est; subst. destruct HM as (ks & HF & ->).
        destruct (F2_nth _ HF Hk) as (b & Hb & Qb). simpl in Qb. inversion Qb; subst.
        set (R' := fupd (rsv s) (if sec then u else v) (Some i)).
        assert (G : exists b', rleft R' (rnext sec u v) b' /\
                    b' + W < (if sec then 0 else W + 4) + W + casLeft (rsv s) (if sec then u else v) c).
        { unfold casLeft. rewrite Q. destruct sec; simpl; eexists; (split; [constructor|]); unfold W; lia. }
        destruct G as (b' & Gb & Glt).
        destruct (stale_sum R' HF) as (ks' & HF' & Hs).
        destruct (F2_nth _ HF' Hk) as (b2 & Hb2 & Qb2).
        exists (list_sum (upd k b' ks')). split.
        * exists (upd k b' ks'). split; auto. simpl. apply F2_upd; auto.
        * pose proof (sum_upd k b' ks' Hb2) as S2.
          (* compare entry by entry: the acting thread drops by more than all others gain *)
          assert (S3 : b2 >= (if sec then 0 else W + 4) + W) by (simpl in Qb2; inversion Qb2; subst; unfold casLeft; destruct (oeqb _ _); lia).
          unfold casLeft in Glt. rewrite Q in Glt. unfold W in *. rewrite Hl in Hs. lia.
      + inversion Est; subst. eapply rM_local; [exact HM|exact Hk|reflexivity|]. simpl. intros kk Hkk. inversion Hkk; subst.
        eexists. split; [constructor|]. unfold casLeft. rewrite Q. lia.
    - discriminate.
  Qed.

  Lemma F2_ex A B (Q : A -> B -> Prop) la : (forall a, In a la -> exists b, Q a b) -> exists lb, Forall2 Q la lb.
  Proof.
    induction la as [|a la IH]; intros H; [exists []; auto|].
    destruct (H a (or_introl eq_refl)) as (b & Hb). destruct IH as (lb & HF); [intros; apply H; right; auto|].
    exists (b :: lb). auto.
  Qed.

  Lemma rM_ex ls s : rI ls s -> exists k, rM ls s k.
  Proof.
    intros (C & Hl & Hinv & _).
    enough (H : exists ks, Forall2 (fun l k => rleft (rsv s) (snd l) k) ls ks)
      by (destruct H as (ks & H); exists (list_sum ks), ks; auto).
    apply F2_ex. intros l Hin. apply In_nth_error in Hin. destruct Hin as (k & Hk).
    assert (Hkl : k < length I) by (rewrite <- Hl; apply nth_error_Some; congruence).
    destruct (nth_error I k) as [i|] eqn:Ei; [|apply nth_error_None in Ei; lia].
    destruct (HE i (nth_error_In _ _ Ei)) as [Hu Hv].
    destruct (Hinv k i l Ei Hk) as [_ H]. destruct (snd l) as [f v|u f|sec u v|sec u v c|u v kp].
    - destruct H as [Hf ->]. destruct (@fleft_ex n P0 F0 _ f Hu Hf) as (k1 & H1).
      destruct (@fleft_ex n P0 F0 _ (FRoot (snd (E i))) Hv eq_refl) as (k2 & H2).
      eexists. econstructor; eauto.
    - destruct H as [_ Hf]. destruct (@fleft_ex n P0 F0 _ f Hv Hf) as (k1 & H1). eexists. econstructor; eauto.
    - eexists; constructor.
    - eexists; constructor.
    - eexists; constructor.
  Qed.

  Lemma reserve_live sched : exists sched' r,
    runT (rstep n) rdone (sched ++ sched') (map (startR E) I) s0 = Ok r.
  Proof. apply (runT_extend (rstep n) rdone rI r_step rM rM_ex r_measure). apply rI_start. auto. Qed.
End Reserve.
