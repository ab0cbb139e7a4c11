(** The main loop of the Delaunay triangulation: boundary, rounds, output. *)
From Coq Require Import Reals Lra.
From Verif Require Import Base Num Sched DelModel DelGeom DelTopo DelFlip DelCav DelTree DelRound.
Set Implicit Arguments.

(** *** Lists *)
Lemma mapR_ok A B (f : A -> res B) (g : A -> B) l : (forall x, In x l -> f x = Ok (g x)) -> mapR f l = Ok (map g l).
Proof.
  induction l as [|x l IH]; intros H; cbn; auto. rewrite (H x) by (left; auto). cbn. rewrite IH; [reflexivity|]. intros y Hy. apply H. right. auto.
Qed.
Lemma mapR_ex A B (f : A -> res B) (Q : A -> B -> Prop) l : (forall x, In x l -> exists y, f x = Ok y /\ Q x y) ->
  exists ys, mapR f l = Ok ys /\ Forall2 Q l ys.
Proof.
  induction l as [|x l IH]; intros H; cbn; [eauto|].
  destruct (H x) as (y & E & Hy); [left; auto|]. destruct IH as (ys & E' & Hl); [intros; apply H; right; auto|].
  rewrite E. cbn. rewrite E'. cbn. eauto.
Qed.
Lemma packF_map A B (f : B -> A) (g : B -> bool) l : packF (map f l) (map g l) = map f (filter g l).
Proof. induction l as [|x l IH]; cbn; auto. destruct (g x); cbn; rewrite IH; auto. Qed.
Lemma filter_split A (g : A -> bool) l : Permutation (filter (fun x => negb (g x)) l ++ filter g l) l.
Proof.
  induction l as [|x l IH]; cbn; auto. destruct (g x); cbn; [|constructor; auto].
  rewrite <- Permutation_middle. constructor. auto.
Qed.
Lemma map_nth_seq A (l : list A) d : map (fun j => nth j l d) (seq 0 (length l)) = l.
Proof.
  induction l as [|x l IH]; cbn; auto. f_equal. rewrite <- seq_shift, map_map. auto.
Qed.

(** *** The reservations *)
Lemma wm_from ws R u x : fold_left writeMax ws R u = Some x -> R u = Some x \/ In (u, x) ws.
Proof.
  revert R. induction ws as [|[v y] ws IH]; intros R H; cbn [fold_left] in H; auto.
  apply IH in H. destruct H as [H|H]; [|right; right; auto].
  unfold writeMax, fset in H. destruct (R v) as [z|] eqn:E; [destruct (z <? y)|]; auto;
    (destruct (Nat.eqb_spec u v) as [Q|]; [|auto]; subst u; right; left; congruence).
Qed.
Lemma wm_mono ws : forall R u x, R u = Some x -> exists y, fold_left writeMax ws R u = Some y /\ x <= y.
Proof.
  induction ws as [|[v z] ws IH]; intros R u x H; cbn [fold_left]; [eauto|].
  assert (Q : exists y, writeMax R (v, z) u = Some y /\ x <= y).
  { unfold writeMax, fset. destruct (R v) as [w|] eqn:E; [destruct (Nat.ltb_spec w z)|];
      [destruct (Nat.eqb_spec u v) as [->|]| |destruct (Nat.eqb_spec u v) as [->|]]; eauto; rewrite E in H; try discriminate.
    injection H as ->. exists z. split; auto. lia. }
  destruct Q as (y & E & L). destruct (IH _ _ _ E) as (y' & E' & L'). exists y'. split; auto. lia.
Qed.
Lemma wm_max ws : forall R u x, In (u, x) ws -> exists y, fold_left writeMax ws R u = Some y /\ x <= y.
Proof.
  induction ws as [|[v z] ws IH]; intros R u x H; [destruct H|]. cbn [fold_left]. destruct H as [H|H]; [|apply IH; auto].
  injection H as -> ->. assert (Q : exists y, writeMax R (u, x) u = Some y /\ x <= y).
  { unfold writeMax, fset. destruct (R u) as [w|] eqn:E; [destruct (Nat.ltb_spec w x)|]; rewrite ?Nat.eqb_refl; eauto. }
  destruct Q as (y & E & L). destruct (wm_mono ws _ _ E) as (y' & E' & L'). exists y'. split; auto. lia.
Qed.
Lemma res_in vid trs u x : In (u, x) (resWrites vid trs) <-> exists tr, In tr trs /\ In u (tu tr) /\ vid (tv tr) = x.
Proof.
  unfold resWrites. rewrite in_flat_map. split.
  - intros (tr & H & Q). apply in_map_iff in Q. destruct Q as (v & E & Hv). injection E as <- <-. eauto.
  - intros (tr & H & Hu & <-). exists tr. split; auto. apply in_map_iff. eauto.
Qed.

Section Main.
  Variables n nb : nat.
  Variable vp : nat -> P2.
  Hypothesis GP : genpos n nb vp.
  Notation bnd := (bnd n nb).
  Notation good := (good n nb vp).

  Lemma good_ext m i1 i2 : (forall v, i1 v <-> i2 v) -> good m i1 -> good m i2.
  Proof.
    intros H G. destruct G as [[W D1 D2 D3] G2 G3 G4 G5 G6]. constructor; auto.
    - constructor; auto.
      + intros t a b E. rewrite <- H. eauto.
      + intros t a b c v T. rewrite <- H. eauto.
    - intros v. rewrite <- H. auto.
    - intros v. rewrite <- H. auto.
    - intros v. rewrite <- H. auto.
    - intros X HX. destruct (G6 X HX) as [A|(v & Q1 & Q2 & Q3)]; auto. right. exists v. rewrite <- H. auto.
  Qed.

  Variable vid : nat -> nat.
  Hypothesis Hvid : forall u v, u < n -> v < n -> vid u = vid v -> u = v.
  Variable knn : list nat -> nat -> res nat.
  Hypothesis Hknn : forall l v, l <> [] -> ~ In v l -> v < n -> (forall c, In c l -> c <= n) -> exists u, knn l v = Ok u /\ In u l.
  Variable worder : nat -> list (nat * nat) -> list (nat * nat).
  Hypothesis Hwo : forall r l, Permutation (worder r l) l.
  Let vs := seq 0 n.
  Let vs_len : length vs = n.
  Proof. apply seq_length. Qed.
  Notation rs := (roundSize vs).

  Record LI (st : lstate) : Prop := {
    l_good : good (lm st) (fun v => In v (ldone st));
    l_cap : cap (lm st) = 2 * n + (nb - 2);
    l_R : forall u, lR st u = None;
    l_perm : Permutation (ldone st ++ lremain st) (seq 0 (length (ldone st) + length (lremain st)));
    l_le : length (ldone st) + length (lremain st) <= n;
    l_rs : length (lremain st) <= rs (length (ldone st));
    l_next : 1 <= lnext st;
    l_cand : lcand st <> [];
    l_cand' : forall c, In c (lcand st) -> In c (ldone st) \/ c = n;
  }.

  Lemma buffer_ok st : LI st -> exists buf, buffer vs st = Ok buf /\ Permutation (ldone st ++ buf) (seq 0 (length (ldone st) + rs (length (ldone st)))) /\
    length buf = rs (length (ldone st)).
  Proof.
    intros L. set (nd := length (ldone st)) in *. set (nr := length (lremain st)).
    assert (Hr : rs nd <= n - nd) by (unfold roundSize; rewrite vs_len; lia).
    pose proof (l_rs L) as H1. pose proof (l_le L) as H2. fold nd nr in H1, H2.
    exists (map (fun j => if j <? nr then nth j (lremain st) 0 else j + nd) (seq 0 (rs nd))).
    split; [|split; [|rewrite map_length; apply seq_length]].
    - unfold buffer. fold nd nr. apply mapR_ok. intros j Hj. apply in_seq in Hj.
      destruct (Nat.ltb_spec j nr) as [Q|Q].
      + rewrite (nth_error_nth' (lremain st) 0) by auto. reflexivity.
      + assert (E : nth_error vs (j + nd) = Some (j + nd)).
        { unfold vs. rewrite (nth_error_nth' (seq 0 n) 0) by (rewrite seq_length; lia). rewrite seq_nth by lia. reflexivity. }
        rewrite E. reflexivity.
    - replace (rs nd) with (nr + (rs nd - nr)) at 1 by lia. rewrite seq_app, map_app.
      assert (E1 : map (fun j => if j <? nr then nth j (lremain st) 0 else j + nd) (seq 0 nr) = lremain st).
      { transitivity (map (fun j => nth j (lremain st) 0) (seq 0 nr)); [|apply map_nth_seq]. apply map_ext_in. intros j Hj. apply in_seq in Hj.
        destruct (Nat.ltb_spec j nr); [auto|lia]. }
      assert (E2 : map (fun j => if j <? nr then nth j (lremain st) 0 else j + nd) (seq (0 + nr) (rs nd - nr)) = seq (nd + nr) (rs nd - nr)).
      { generalize (rs nd - nr). intros k. cbn [Nat.add].
        assert (G : forall s, nr <= s -> map (fun j => if j <? nr then nth j (lremain st) 0 else j + nd) (seq s k) = seq (nd + s) k).
        { induction k as [|k IH]; intros s Hs; cbn [seq map]; auto. destruct (Nat.ltb_spec s nr); [lia|]. f_equal; [lia|].
          rewrite IH by lia. f_equal. lia. }
        apply G. auto. }
      rewrite E1, E2, app_assoc. rewrite (l_perm L). fold nd nr.
      replace (nd + rs nd) with ((nd + nr) + (rs nd - nr)) by lia. rewrite (seq_app (nd + nr) (rs nd - nr)). reflexivity.
  Qed.

  Lemma locate_ok st fuel cand v : LI st -> cap (lm st) < fuel -> cand <> [] -> (forall c, In c cand -> In c (ldone st) \/ c = n) ->
    v < n -> ~ In v (ldone st) ->
    exists tr, @locateTrial RNum vp knn fuel (lm st) cand v = Ok tr /\ tv tr = v /\
      exists F0, trOk n nb vp (lm st) (fun v => In v (ldone st)) tr F0.
  Proof.
    intros L Hf NE Hc Hv Nv. pose proof (l_good L) as G. unfold locateTrial.
    pose proof (nb3 GP) as B3.
    destruct (Hknn (l := cand) (v := v)) as (u & Eu & Iu); auto.
    { intros I. destruct (Hc _ I) as [Q|Q]; [auto|lia]. }
    { intros c I. destruct (Hc _ I) as [Q|Q]; [|lia]. assert (Q' : In c (ldone st ++ lremain st)) by (apply in_app_iff; auto).
      apply (Permutation_in _ (l_perm L)) in Q'. apply in_seq in Q'. pose proof (l_le L). lia. }
    rewrite Eu. cbn [bind].
    destruct (g_vt G (v := u)) as (t & Et & A).
    { destruct (Hc u) as [Q|Q]; auto. right. unfold DelCav.bnd. lia. }
    rewrite Et.
    destruct (@find_ok n nb vp GP (lm st) _ (g_del G) v Hv Nv fuel t 0 A) as (t0 & o0 & Ef & Ho & A0 & I0); [lia|lia|].
    rewrite Ef. cbn [bind]. destruct fuel as [|fuel]; [lia|].
    destruct (@cavity_ok n nb vp GP (lm st) _ (g_del G) v Hv Nv fuel t0 o0) as (r & tr0 & tr1 & tr2 & Er & Ec & CO); auto; [lia|].
    rewrite Ec. cbn [bind]. eexists. split; [reflexivity|]. split; [reflexivity|].
    exists (front0 r o0 tr0 tr1 tr2). constructor; cbn; auto. exists r, o0, tr0, tr1, tr2. auto.
  Qed.

  Section Fuel.
    Variable fuel : nat.
    Hypothesis Hfuel : 2 * n + nb <= fuel.
    Definition cand' (st : lstate) : list nat :=
      if (lnext st <=? length (ldone st)) && (length (ldone st) <=? n / 10) then ldone st else lcand st.

    Lemma round_pre st : LI st -> length (ldone st) < n ->
      exists trs, buffer vs st = Ok (map tv trs) /\ mapR (@locateTrial RNum vp knn fuel (lm st) (cand' st)) (map tv trs) = Ok trs /\
        trs <> [] /\ length trs = rs (length (ldone st)) /\
        Permutation (ldone st ++ map tv trs) (seq 0 (length (ldone st) + rs (length (ldone st)))) /\
        (forall tr, In tr trs -> exists F0, trOk n nb vp (lm st) (fun v => In v (ldone st)) tr F0).
    Proof.
      intros L Hn. destruct (buffer_ok L) as (buf & Eb & Pb & Lb). set (nd := length (ldone st)) in *.
      pose proof (nb3 GP) as B3.
      assert (Hr : 1 <= rs nd <= n - nd) by (unfold roundSize, maxBlock; rewrite vs_len; split; [|lia]; repeat apply Nat.min_glb; lia).
      assert (NE : cand' st <> [] /\ forall c, In c (cand' st) -> In c (ldone st) \/ c = n).
      { unfold cand'. fold nd. destruct ((lnext st <=? nd) && (nd <=? n / 10)) eqn:E.
        - split; auto. apply andb_true_iff in E. destruct E as (E & _). apply Nat.leb_le in E. pose proof (l_next L).
          unfold nd in E. intros Q. rewrite Q in E. cbn in E. lia.
        - split; [apply (l_cand L)|apply (l_cand' L)]. }
      destruct NE as (NE & Hc).
      assert (Hb : forall v, In v buf -> v < n /\ ~ In v (ldone st)).
      { intros v Hv. split.
        - assert (I : In v (ldone st ++ buf)) by (apply in_app_iff; auto). apply (Permutation_in v Pb) in I. apply in_seq in I. lia.
        - intros I. assert (ND : NoDup (ldone st ++ buf)) by (apply (Permutation_NoDup (Permutation_sym Pb)); apply seq_NoDup).
          clear - ND I Hv. induction (ldone st) as [|y l IH]; [destruct I|]. cbn in ND. inversion ND; subst. destruct I as [->|I]; auto.
          apply H1. apply in_app_iff. auto. }
      destruct (@mapR_ex nat trial (@locateTrial RNum vp knn fuel (lm st) (cand' st))
                  (fun v tr => tv tr = v /\ exists F0, trOk n nb vp (lm st) (fun v => In v (ldone st)) tr F0) buf) as (trs & Et & F).
      { intros v Hv. destruct (Hb v Hv) as (Q1 & Q2). destruct (@locate_ok st fuel (cand' st) v) as (tr & E & Ev & K); eauto.
        rewrite (l_cap L). lia. }
      assert (EB : map tv trs = buf).
      { clear - F. induction F as [|x y l l' (E & _) _ IH]; cbn; congruence. }
      exists trs. rewrite EB. split; auto. split; auto. split; [|split; [|split; auto]].
      - intros ->. cbn in EB. subst buf. cbn [length] in Lb. lia.
      - rewrite <- Lb, <- EB, map_length. auto.
      - intros tr Htr. clear - F Htr. induction F as [|x y l l' (_ & K) _ IH]; [destruct Htr|]. destruct Htr as [->|Htr]; auto.
    Qed.

    Definition nextState (st : lstate) (ls : list thr) (m : mesh) (R : nat -> option nat) : lstate :=
      let nd := length (ldone st) in
      let rebuild := (lnext st <=? nd) && (nd <=? n / 10) in
      mkL m R (ldone st ++ map (fun l : thr => tv (fst l)) (filter (fun l : thr => negb (flagOf l)) ls)) (map (fun l : thr => tv (fst l)) (filter flagOf ls))
          (if rebuild then lnext st * 10 else lnext st) (cand' st) (S (lround st)).

    Lemma next_LI st trs R0 ls m R : LI st -> length (ldone st) < n -> trs <> [] -> length trs = rs (length (ldone st)) ->
      Permutation (ldone st ++ map tv trs) (seq 0 (length (ldone st) + rs (length (ldone st)))) ->
      (forall tr, In tr trs -> exists F0, trOk n nb vp (lm st) (fun v => In v (ldone st)) tr F0) ->
      (forall u x, R0 u = Some x -> exists tr, In tr trs /\ In u (tu tr) /\ vid (tv tr) = x) ->
      (forall tr u, In tr trs -> In u (tu tr) -> exists x, R0 u = Some x /\ vid (tv tr) <= x) ->
      RI n nb vp (lm st) (fun v => In v (ldone st)) vid trs R0 ls (m, R) -> forallb pcFin ls = true ->
      LI (nextState st ls m R) /\ length (ldone st) < length (ldone (nextState st ls m R)).
    Proof.
      intros L Hn NE Lt Pb Htr R1 R2 I Fin. set (nd := length (ldone st)) in *.
      assert (Tn : forall tr, In tr trs -> tv tr < n) by (intros tr H; destruct (Htr _ H) as (F0 & K); apply (t_n K)).
      assert (Hv : forall tr tr', In tr trs -> In tr' trs -> vid (tv tr) = vid (tv tr') -> tv tr = tv tr') by (intros; apply Hvid; auto).
      pose proof (end_good GP (l_good L) Htr Hv I Fin) as G.
      pose proof (end_progress R1 R2 I Fin NE) as Pr.
      pose proof (end_R I Fin) as HR.
      assert (Em : map (fun l : thr => tv (fst l)) ls = map tv trs) by (rewrite <- (i_map I), map_map; reflexivity).
      assert (Hr : rs nd <= n - nd) by (unfold roundSize; rewrite vs_len; lia).
      assert (Pf : Permutation (map (fun l : thr => tv (fst l)) (filter (fun l : thr => negb (flagOf l)) ls) ++ map (fun l : thr => tv (fst l)) (filter flagOf ls)) (map tv trs)).
      { rewrite <- Em, <- map_app. apply Permutation_map. apply filter_split. }
      set (d1 := map (fun l : thr => tv (fst l)) (filter (fun l : thr => negb (flagOf l)) ls)) in *.
      set (r1 := map (fun l : thr => tv (fst l)) (filter flagOf ls)) in *.
      assert (Ld : length d1 + length r1 = rs nd).
      { rewrite <- app_length. rewrite (Permutation_length Pf), map_length. auto. }
      assert (Pd : 1 <= length d1).
      { destruct Pr as (l & Hl & Hf). assert (In (tv (fst l)) d1). { apply in_map_iff. exists l. split; auto. apply filter_In. rewrite Hf. auto. }
        destruct d1; [destruct H|]. cbn. lia. }
      split; [|cbn; fold d1; rewrite app_length; fold nd; lia].
      unfold nextState. fold nd d1 r1. constructor; cbn [lm lR ldone lremain lnext lcand lround].
      - apply good_ext with (ins' (fun v => In v (ldone st)) ls); auto. intros v. unfold ins'. rewrite in_app_iff.
        enough (In v d1 <-> exists l, In l ls /\ flagOf l = false /\ tv (fst l) = v) by tauto.
        unfold d1. rewrite in_map_iff. split.
        + intros (l & E & H). apply filter_In in H. destruct H as (H & Q). apply negb_true_iff in Q. eauto.
        + intros (l & H & Q & E). exists l. split; auto. apply filter_In. rewrite Q. auto.
      - rewrite <- (l_cap L). apply (i_cap I).
      - auto.
      - rewrite app_length. fold nd. replace (nd + length d1 + length r1) with (nd + rs nd) by lia. rewrite <- app_assoc. rewrite Pf. auto.
      - rewrite app_length. fold nd. lia.
      - rewrite app_length. fold nd. unfold roundSize in *. rewrite vs_len in *. set (mb := maxBlock vs) in *.
        assert (nd / 50 <= (nd + length d1) / 50) by (apply Nat.div_le_mono; lia). repeat apply Nat.min_glb; lia.
      - pose proof (l_next L). destruct ((lnext st <=? nd) && (nd <=? n / 10)); lia.
      - unfold cand'. fold nd. destruct ((lnext st <=? nd) && (nd <=? n / 10)) eqn:E; [|apply (l_cand L)].
        apply andb_true_iff in E. destruct E as (E & _). apply Nat.leb_le in E. pose proof (l_next L).
        unfold nd in E. intros Q. rewrite Q in E. cbn in E. lia.
      - unfold cand'. fold nd. intros c Hc. rewrite in_app_iff. destruct ((lnext st <=? nd) && (nd <=? n / 10)); auto.
        destruct (l_cand' L c Hc); auto.
    Qed.

    Lemma R0_facts st trs : LI st ->
      let R0 := fold_left writeMax (worder (lround st) (resWrites vid trs)) (lR st) in
      (forall u x, R0 u = Some x -> exists tr, In tr trs /\ In u (tu tr) /\ vid (tv tr) = x) /\
      (forall tr u, In tr trs -> In u (tu tr) -> exists x, R0 u = Some x /\ vid (tv tr) <= x).
    Proof.
      intros L R0. split.
      - intros u x E. apply wm_from in E. destruct E as [E|E]; [rewrite (l_R L) in E; discriminate|].
        apply (Permutation_in _ (Hwo _ _)) in E. apply res_in in E. auto.
      - intros tr u H Hu. apply wm_max. apply (Permutation_in _ (Permutation_sym (Hwo _ _))). apply res_in. eauto.
    Qed.

    Lemma round_eq sched st trs : buffer vs st = Ok (map tv trs) ->
      mapR (@locateTrial RNum vp knn fuel (lm st) (cand' st)) (map tv trs) = Ok trs ->
      @roundStep RNum vp vid knn worder sched vs fuel st =
      match runT (insStep vid) pcFin (sched (lround st)) (start trs)
              (lm st, fold_left writeMax (worder (lround st) (resWrites vid trs)) (lR st)) with
      | Ok (ls, (m, R)) => Ok (mkL m R (ldone st ++ packF (map tv trs) (map negb (map flagOf ls))) (packF (map tv trs) (map flagOf ls))
          (if (lnext st <=? length (ldone st)) && (length (ldone st) <=? n / 10) then lnext st * 10 else lnext st) (cand' st) (S (lround st)))
      | Throw => Throw | UB => UB | Fuel => Fuel
      end.
    Proof.
      intros E1 E2. unfold roundStep. rewrite E1. cbn [bind]. rewrite vs_len. unfold cand' in E2. rewrite E2. cbn [bind].
      fold (start trs). destruct (runT _ _ _ _ _) as [[ls [m R]]| | |]; reflexivity.
    Qed.

    Lemma trs_nd st trs : Permutation (ldone st ++ map tv trs) (seq 0 (length (ldone st) + rs (length (ldone st)))) -> NoDup (map tv trs).
    Proof.
      intros P. assert (ND : NoDup (ldone st ++ map tv trs)) by (apply (Permutation_NoDup (Permutation_sym P)); apply seq_NoDup).
      clear - ND. induction (ldone st) as [|y l IH]; auto. inversion ND; auto.
    Qed.

    Lemma pack_eq trs (ls : list thr) : map fst ls = trs ->
      packF (map tv trs) (map negb (map flagOf ls)) = map (fun l : thr => tv (fst l)) (filter (fun l : thr => negb (flagOf l)) ls) /\
      packF (map tv trs) (map flagOf ls) = map (fun l : thr => tv (fst l)) (filter flagOf ls).
    Proof. intros <-. rewrite !map_map. split; apply packF_map. Qed.

    Lemma round_ok sched st : LI st -> length (ldone st) < n ->
      match @roundStep RNum vp vid knn worder sched vs fuel st with
      | Ok st' => LI st' /\ length (ldone st) < length (ldone st') /\ lround st' = S (lround st)
      | Fuel => True
      | _ => False
      end.
    Proof.
      intros L Hn. destruct (round_pre L Hn) as (trs & E1 & E2 & NE & Lt & Pb & Htr). rewrite (@round_eq sched st trs E1 E2).
      destruct (R0_facts trs L) as (R1 & R2). set (R0 := fold_left _ _ _) in *.
      assert (Hv : forall tr tr', In tr trs -> In tr' trs -> vid (tv tr) = vid (tv tr') -> tv tr = tv tr').
      { intros tr tr' H H'. destruct (Htr _ H) as (F & K), (Htr _ H') as (F' & K'). apply Hvid; [apply (t_n K)|apply (t_n K')]. }
      pose proof (@runT_inv _ _ (insStep vid) pcFin (RI n nb vp (lm st) (fun v => In v (ldone st)) vid trs R0)
                    (fun ls s i l => @step_ok n nb vp GP _ _ (l_good L) vid trs (trs_nd _ _ Pb) Hv R0 ls s i l)
                    (sched (lround st)) (start trs) (lm st, R0) (@init_RI n nb vp _ _ (l_good L) vid trs Htr R0 R1)) as RT.
      destruct (runT _ _ _ _ _) as [[ls [m R]]| | |]; auto. destruct RT as (I & Fin & _).
      destruct (next_LI L Hn NE Lt Pb Htr R1 R2 I Fin) as (L' & Hlt).
      destruct (pack_eq _ (i_map I)) as (P1 & P2). rewrite P1, P2. split; [exact L'|]. split; [exact Hlt|reflexivity].
    Qed.

    (** Every schedule of a round can be continued until all threads return. *)
    Lemma round_extend sched st : LI st -> length (ldone st) < n ->
      exists e st', forall sched', sched' (lround st) = sched (lround st) ++ e ->
        @roundStep RNum vp vid knn worder sched' vs fuel st = Ok st' /\
        LI st' /\ length (ldone st) < length (ldone st') /\ lround st' = S (lround st).
    Proof.
      intros L Hn. destruct (round_pre L Hn) as (trs & E1 & E2 & NE & Lt & Pb & Htr).
      destruct (R0_facts trs L) as (R1 & R2). set (R0 := fold_left _ _ _) in *.
      assert (Hv : forall tr tr', In tr trs -> In tr' trs -> vid (tv tr) = vid (tv tr') -> tv tr = tv tr').
      { intros tr tr' H H'. destruct (Htr _ H) as (F & K), (Htr _ H') as (F' & K'). apply Hvid; [apply (t_n K)|apply (t_n K')]. }
      set (I0 := RI n nb vp (lm st) (fun v => In v (ldone st)) vid trs R0).
      destruct (@runT_extend _ _ (insStep vid) pcFin I0
                  (fun ls s i l => @step_ok n nb vp GP _ _ (l_good L) vid trs (trs_nd _ _ Pb) Hv R0 ls s i l)
                  meas) with (sched := sched (lround st)) (ls := start trs) (s := (lm st, R0)) as (e & r & Er).
      { intros ls s _. eexists. reflexivity. }
      { intros ls s i l l' s' k I. apply (@meas_step n nb vp _ _ _ _ _ _ _ _ _ _ _ _ I). }
      { apply (@init_RI n nb vp _ _ (l_good L) vid trs Htr R0 R1). }
      exists e.
      pose proof (fun sc (Q : sc (lround st) = sched (lround st) ++ e) => @round_eq sc st trs E1 E2) as RE.
      pose proof (round_ok (fun _ => sched (lround st) ++ e) L Hn) as RO. rewrite (@round_eq _ st trs E1 E2) in RO. fold R0 in RO. cbv beta in RO.
      rewrite Er in RO. destruct r as [ls [m R]]. eexists. intros sched' Q. rewrite (RE _ Q). fold R0. rewrite Q, Er. split; [reflexivity|]. exact RO.
    Qed.

    Lemma add_ok sched k : forall st, LI st -> n <= k + length (ldone st) ->
      match @addPoints RNum vp vid knn worder sched vs fuel k st with
      | Ok st' => LI st' /\ length (ldone st') = n
      | Fuel => True
      | _ => False
      end.
    Proof.
      induction k as [|k IH]; intros st L Hk; cbn [addPoints]; rewrite vs_len; pose proof (l_le L);
        destruct (Nat.ltb_spec (length (ldone st)) n) as [Q|Q]; auto; try (split; auto; lia).
      pose proof (round_ok sched L Q) as RO. destruct (roundStep _ _ _ _ _ _ _ _) as [st'| | |]; auto. cbn [bind].
      destruct RO as (L' & Hlt & _). apply IH; auto. lia.
    Qed.

    Lemma add_ext sched sched' k : forall st, (forall r, lround st <= r -> sched r = sched' r) ->
      (forall st', match @roundStep RNum vp vid knn worder sched' vs fuel st' with Ok st2 => lround st2 = S (lround st') | _ => True end) ->
      @addPoints RNum vp vid knn worder sched vs fuel k st = @addPoints RNum vp vid knn worder sched' vs fuel k st.
    Proof.
      induction k as [|k IH]; intros st H HR; cbn [addPoints]; destruct (length (ldone st) <? length vs); auto.
      assert (E : @roundStep RNum vp vid knn worder sched vs fuel st = @roundStep RNum vp vid knn worder sched' vs fuel st).
      { unfold roundStep. rewrite (H (lround st)) by auto. reflexivity. }
      rewrite E. pose proof (HR st) as HR'. destruct (@roundStep RNum vp vid knn worder sched' vs fuel st) as [st'| | |]; cbn [bind]; auto.
      apply IH; auto. intros r Hr. apply H. lia.
    Qed.
    Lemma round_round sched st : match @roundStep RNum vp vid knn worder sched vs fuel st with Ok st2 => lround st2 = S (lround st) | _ => True end.
    Proof.
      unfold roundStep. destruct (buffer vs st); cbn [bind]; auto. destruct (mapR _ a) as [trs| | |]; cbn [bind]; auto.
      destruct (runT _ _ _ _ _) as [[ls [m R]]| | |]; cbn; auto.
    Qed.

    Lemma add_extend sched k : forall st, LI st -> n <= k + length (ldone st) ->
      exists sched' st', (forall r, exists e, sched' r = sched r ++ e) /\
        @addPoints RNum vp vid knn worder sched' vs fuel k st = Ok st' /\ LI st' /\ length (ldone st') = n.
    Proof.
      induction k as [|k IH]; intros st L Hk; pose proof (l_le L).
      { exists sched, st. split; [intros r; exists []; symmetry; apply app_nil_r|]. cbn [addPoints]. rewrite vs_len.
        destruct (Nat.ltb_spec (length (ldone st)) n); [lia|]. split; auto. split; auto. lia. }
      destruct (le_lt_dec n (length (ldone st))) as [Q|Q].
      { exists sched, st. split; [intros r; exists []; symmetry; apply app_nil_r|]. cbn [addPoints]. rewrite vs_len.
        destruct (Nat.ltb_spec (length (ldone st)) n); [lia|]. split; auto. split; auto. lia. }
      destruct (round_extend sched L Q) as (e & st1 & HR).
      destruct (HR (fun _ => sched (lround st) ++ e) eq_refl) as (_ & L1 & Hlt & Er).
      destruct (IH st1 L1) as (sc & st2 & Hsc & E2 & L2 & Hd); [lia|].
      exists (fun r => if r =? lround st then sched r ++ e else sc r), st2. split; [|split; auto].
      - intros r. destruct (r =? lround st); eauto.
      - cbn [addPoints]. rewrite vs_len. destruct (Nat.ltb_spec (length (ldone st)) n); [|lia].
        destruct (HR (fun r => if r =? lround st then sched r ++ e else sc r)) as (E1 & _); [rewrite Nat.eqb_refl; auto|].
        rewrite E1. cbn [bind]. rewrite <- E2. apply add_ext; [|intros st'; apply round_round].
        intros r Hr. destruct (Nat.eqb_spec r (lround st)); auto. lia.
    Qed.
  End Fuel.
End Main.
