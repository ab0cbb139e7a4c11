(** An executable instance of emst: everything on one worker.  Used for the
    examples; each returned outcome is an outcome of the model. *)
From Coq Require Import Permutation.
From Verif Require Import Base Num KdModel BccpModel WspdModel WspdProofs ParBufModel Sched UfModel UfProofs KruskalModel EmstModel.
Set Implicit Arguments.

Section Run.
  Variable N : Num.
  Variable dim : nat.
  Variable pt : nat -> list (nT N).
  Notation IT := (itree N).
  Notation inode := (@inode N dim).

  (** rhoFind recording the pairs, with a check of the values of rho read *)
  Section Rho.
    Variables (beta : nat) (fin : nT N).
    Fixpoint rhoFindL (fuel : nat) (u v : IT) (rho : nT N) : option (nT N * list (IT * IT)) :=
      match fuel with
      | 0 => None
      | S f =>
        if negb (rhoMoveon beta u v) then Some (rho, [])
        else if nle N rho (inode u v) then if nlt N rho fin then None else Some (rho, [])
        else if iws dim u v then Some (if nlt N (inode u v) rho then inode u v else rho, [(u, v)])
        else match ichildren dim u v with
             | None => None
             | Some ((a, b), (c, d)) =>
               match rhoFindL f a b rho with
               | None => None
               | Some (r1, l1) => match rhoFindL f c d r1 with None => None | Some (r2, l2) => Some (r2, l1 ++ l2) end
               end
             end
      end.
    Fixpoint rhoComputeL (t : IT) (rho : nT N) : option (nT N * list (IT * IT)) :=
      match t with
      | ILeaf _ _ _ => Some (rho, [])
      | INode _ _ l r =>
        if rhoStart beta t then
          match rhoComputeL l rho with
          | None => None
          | Some (r1, l1) =>
            match rhoComputeL r r1 with
            | None => None
            | Some (r2, l2) => match rhoFindL (S (iheight l + iheight r)) l r r2 with None => None | Some (r3, l3) => Some (r3, l1 ++ l2 ++ l3) end
            end
          end
        else Some (rho, [])
      end.
    Notation wt := (fun p : IT * IT => inode (fst p) (snd p)).
    Lemma rhoFindL_spec f : forall u v rho r L, rhoFindL f u v rho = Some (r, L) ->
      RFind dim beta fin u v L /\ (r = rho \/ In r (map wt L)) /\ rhoFind dim beta f u v rho = Ok r.
    Proof.
      induction f as [|f IH]; intros u v rho r L E; [discriminate|]. cbn [rhoFindL rhoFind] in *.
      destruct (rhoMoveon beta u v) eqn:M; cbn [negb andb] in *; [|inversion E; subst; split; [apply rf_cut; auto|auto]].
      destruct (nle N rho (inode u v)) eqn:Q; cbn [negb].
      { destruct (nlt N rho fin) eqn:Z; [discriminate|]. inversion E; subst. split; [apply rf_far with r; auto|auto]. }
      destruct (iws dim u v) eqn:W.
      { inversion E; subst. split; [apply rf_run; auto|]. split; auto. destruct (nlt N (inode u v) rho); auto. right; left; auto. }
      destruct (ichildren dim u v) as [[[a b] [c d]]|] eqn:C; [|discriminate].
      destruct (rhoFindL f a b rho) as [[r1 l1]|] eqn:E1; [|discriminate]. destruct (IH _ _ _ _ _ E1) as (A1 & B1 & C1).
      destruct (rhoFindL f c d r1) as [[r2 l2]|] eqn:E2; [|discriminate]. destruct (IH _ _ _ _ _ E2) as (A2 & B2 & C2).
      inversion E; subst. rewrite C1. cbn [bind]. split; [eapply rf_kids; eauto|]. split; auto.
      rewrite map_app, in_app_iff. destruct B2 as [->|B2]; auto. destruct B1; auto.
    Qed.
    Lemma rhoComputeL_spec t : forall rho r L, rhoComputeL t rho = Some (r, L) ->
      RCompute dim beta fin t L /\ (r = rho \/ In r (map wt L)) /\ rhoCompute dim beta t rho = Ok r.
    Proof.
      induction t as [i its b|i b l IHl r0 IHr]; intros rho r L E; cbn [rhoComputeL rhoCompute] in *.
      { inversion E; subst. split; [constructor|auto]. }
      destruct (rhoStart beta (INode i b l r0)) eqn:St; [|inversion E; subst; split; [apply rc_cut; auto|auto]].
      destruct (rhoComputeL l rho) as [[r1 l1]|] eqn:E1; [|discriminate]. destruct (IHl _ _ _ E1) as (A1 & B1 & C1).
      destruct (rhoComputeL r0 r1) as [[r2 l2]|] eqn:E2; [|discriminate]. destruct (IHr _ _ _ E2) as (A2 & B2 & C2).
      destruct (rhoFindL (S (iheight l + iheight r0)) l r0 r2) as [[r3 l3]|] eqn:E3; [|discriminate].
      destruct (@rhoFindL_spec _ _ _ _ _ _ E3) as (A3 & B3 & C3).
      inversion E; subst. rewrite C1. cbn [bind]. rewrite C2. cbn [bind]. split; [apply rc_node; auto|]. split; auto.
      rewrite !map_app, !in_app_iff. destruct B3 as [->|B3]; auto. destruct B2 as [->|B2]; auto. destruct B1; auto.
    Qed.
  End Rho.

  (** the value of rho after the serial traversal, when all checks succeed *)
  Definition rhoRun (beta : nat) (t : IT) : option (nT N) :=
    match rhoCompute dim beta t (nmax N) with
    | Ok fin =>
      match rhoComputeL beta fin t (nmax N) with
      | Some (_, L) =>
        if negb (nlt N (nmax N) fin) && forallb (fun p => negb (nlt N (inode (fst p) (snd p)) fin)) L then Some fin else None
      | None => None
      end
    | _ => None
    end.
  Lemma rhoRun_spec beta t fin : rhoRun beta t = Some fin -> rhoExec dim beta fin t.
  Proof.
    unfold rhoRun. destruct (rhoCompute dim beta t (nmax N)) as [f| | |] eqn:E; try discriminate.
    destruct (rhoComputeL beta f t (nmax N)) as [[r L]|] eqn:EL; [|discriminate].
    destruct (negb _ && _) eqn:Q; [|discriminate]. intros H. inversion H; subst f.
    destruct (@rhoComputeL_spec _ _ _ _ _ _ EL) as (A & B & C). rewrite C in E. inversion E; subst r.
    apply andb_true_iff in Q. destruct Q as [Q1 Q2]. apply negb_true_iff in Q1. rewrite forallb_forall in Q2.
    exists L. split; auto. split; auto. split; auto. intros p Hp. apply negb_true_iff, Q2; auto.
  Qed.

  Variable srt : list (nT N * nat) -> list (nT N * nat).
  Variable sort : list (iedge N) -> list (iedge N).
  Variables (n procs : nat).
  Variables (big small : nat -> nat -> bool) (sched : nat -> list nat * list nat).

  Fixpoint unSome A (l : list (option A)) : option (list A) :=
    match l with
    | [] => Some []
    | Some x :: r => match unSome r with Some r' => Some (x :: r') | None => None end
    | None :: _ => None
    end.
  Lemma unSome_spec A (l : list (option A)) : forall r, unSome l = Some r -> l = map Some r.
  Proof.
    induction l as [|[x|] l IH]; simpl; intros r H; try discriminate; [inversion H; auto|].
    destruct (unSome l) as [r'|]; [|discriminate]. inversion H; subst. simpl. f_equal; auto.
  Qed.

  (** the root of [i], with bounds checks *)
  Fixpoint rootOf (fuel : nat) (P : parents) (i : nat) : option nat :=
    match fuel with
    | 0 => None
    | S f => match P i with None => Some i | Some p => if p <? n then rootOf f P p else None end
    end.
  Lemma rootOf_rep f P : forall i r, rootOf f P i = Some r -> rep P i r.
  Proof.
    induction f as [|f IH]; simpl; intros i r H; [discriminate|]. destruct (P i) as [p|] eqn:E; [|inversion H; subst; constructor; auto].
    destruct (p <? n); [|discriminate]. eapply rep_step; eauto.
  Qed.
  Lemma rootOf_lt f P i r p : rootOf f P i = Some r -> P i = Some p -> p < n.
  Proof.
    destruct f; cbn [rootOf]; [discriminate|]. intros H E. rewrite E in H. destruct (p <? n) eqn:Q; [|discriminate].
    apply Nat.ltb_lt; auto.
  Qed.
  Lemma rootOf_forest P : forallb (fun i => match rootOf n P i with Some _ => true | None => false end) (seq 0 n) = true -> forest n P.
  Proof.
    intros H i Hi. rewrite forallb_forall in H. specialize (H i ltac:(apply in_seq; lia)).
    destruct (rootOf n P i) as [r|] eqn:E; [|discriminate]. split.
    - intros p Ep. apply (rootOf_lt _ _ _ E Ep).
    - exists r. apply (rootOf_rep _ _ _ E).
  Qed.

  Definition getRunAll (s : est N) (hi : nT N) : option (res (list (option (wedge N)))) :=
    match getCompute dim (eLo s) hi (eT s) with
    | Ok calls => Some (gfkCollect n procs (flat_map (getRun dim pt srt (eBeta s) (eLo s) hi) calls :: repeat [] (procs - 1)) (fun w => w))
    | _ => None
    end.
  Lemma getRunAll_spec s hi o : 1 <= procs -> isize (eT s) <= n -> getRunAll s hi = Some o ->
    getExec dim pt srt (eBeta s) (eLo s) hi (S n) n procs (eT s) o.
  Proof.
    intros Hp Hs. unfold getRunAll. destruct (getCompute dim (eLo s) hi (eT s)) as [calls| | |] eqn:E; try discriminate.
    intros H. inversion H; subst. exists calls. eexists. exists (fun w => w). split; [apply gc_serial; auto; lia|].
    split; [|split; [|split; [reflexivity|reflexivity]]].
    - simpl. rewrite repeat_length. lia.
    - cbn [concat]. replace (concat (repeat [] (procs - 1))) with (@nil (wedge N)); [rewrite app_nil_r; auto|].
      clear. induction (procs - 1); simpl; auto.
  Qed.

  (** one iteration; None when a check fails *)
  Definition roundRun (s : est N) : option (res (est N)) :=
    if isize (eT s) <=? n then
      match rhoRun (eBeta s) (eT s) with
      | None => None
      | Some hi =>
        match getRunAll s hi with
        | None => None
        | Some (Ok []) => Some (Ok {| eT := eT s; eUF := eUF s; eBeta := 2 * eBeta s; eLo := hi |})
        | Some (Ok l) =>
          match unSome l with
          | None => None
          | Some out =>
            match batchKruskal sort big small sched n out (eUF s) with
            | Ok U =>
              if forallb (fun i => match rootOf n (fst U) i with Some _ => true | None => false end) (seq 0 n)
              then let rts := map (fun i => match rootOf n (fst U) i with Some r => r | None => 0 end) (seq 0 n) in
                Some (Ok {| eT := mark (fun i => nth i rts 0) (eT s); eUF := (fst U, snd U); eBeta := 2 * eBeta s; eLo := hi |})
              else None
            | _ => None
            end
          end
        | Some UB => Some UB
        | Some _ => None
        end
      end
    else None.
  Lemma roundRun_spec s o : 1 <= procs -> roundRun s = Some o -> round dim pt srt sort n procs (S n) s o.
  Proof.
    intros Hp. unfold roundRun. destruct (isize (eT s) <=? n) eqn:Sz; [|discriminate]. apply Nat.leb_le in Sz.
    destruct (rhoRun (eBeta s) (eT s)) as [hi|] eqn:ER; [|discriminate]. apply rhoRun_spec in ER.
    destruct (getRunAll s hi) as [g|] eqn:EG; [|discriminate]. apply getRunAll_spec in EG; auto.
    destruct g as [[|e l]| | |]; try discriminate.
    - intros H. inversion H; subst. apply rd_empty; auto.
    - destruct (unSome (e :: l)) as [out|] eqn:EU; [|discriminate]. apply unSome_spec in EU. rewrite EU in EG.
      destruct (batchKruskal sort big small sched n out (eUF s)) as [U| | |] eqn:EB; try discriminate.
      destruct (forallb _ (seq 0 n)) eqn:EF; [|discriminate]. intros H. inversion H; subst. clear H.
      eapply rd_batch; eauto.
      + intros ->. discriminate.
      + intros i Hi. rewrite forallb_forall in EF. specialize (EF i ltac:(apply in_seq; lia)).
        destruct (rootOf n (fst U) i) as [r|] eqn:Er; [|discriminate].
        rewrite (nth_indep _ 0 (match rootOf n (fst U) n with Some r => r | None => 0 end)) by (rewrite map_length, seq_length; auto).
        rewrite (map_nth (fun i => match rootOf n (fst U) i with Some r => r | None => 0 end)). rewrite seq_nth by auto. simpl. rewrite Er. apply (rootOf_rep _ _ _ Er).
      + apply rootOf_forest. auto.
      + tauto.
    - intros H. inversion H; subst. refine (@rd_collect N dim pt srt sort n procs (S n) s hi UB ER EG _). discriminate.
  Qed.

  Fixpoint loopRun (fuel : nat) (s : est N) : option (nat * res (list (wedge N))) :=
    match fuel with
    | 0 => None
    | S f =>
      if n - 1 <=? numEdge n (eUF s) then Some (0, Ok (getEdge n (eUF s)))
      else match roundRun s with
           | None => None
           | Some (Ok s') => match loopRun f s' with Some (k, o) => Some (S k, o) | None => None end
           | Some UB => Some (1, UB)
           | Some _ => None
           end
    end.
  Lemma loopRun_spec f : 1 <= procs -> forall s k o, loopRun f s = Some (k, o) -> emstLoop dim pt srt sort n procs (S n) k s o.
  Proof.
    intros Hp. induction f as [|f IH]; intros s k o H; [discriminate|]. cbn [loopRun] in H.
    destruct (n - 1 <=? numEdge n (eUF s)) eqn:Q.
    { apply Nat.leb_le in Q. inversion H; subst. apply em_stop; auto. }
    apply Nat.leb_gt in Q. destruct (roundRun s) as [r|] eqn:ER; [|discriminate]. apply roundRun_spec in ER; auto.
    destruct r as [s'| | |]; try discriminate.
    - destruct (loopRun f s') as [[k' o']|] eqn:EL; [|discriminate]. inversion H; subst. eapply em_round; eauto.
    - inversion H; subst. refine (@em_fail N dim pt srt sort n procs (S n) s UB Q ER _). discriminate.
  Qed.
  Definition emstRun (lo0 : nT N) (fuel : nat) : option (nat * res (list (wedge N))) :=
    if n <? 2 then Some (0, Throw)
    else match build N dim nat pt false 1 0 1 (seq 0 n) with
         | Ok t => loopRun fuel {| eT := fresh t; eUF := (fun _ => None, fun _ => None); eBeta := 2; eLo := lo0 |}
         | _ => None
         end.
  Lemma emstRun_spec lo0 f k o : 1 <= procs -> emstRun lo0 f = Some (k, o) -> emst dim pt srt sort n procs (S n) lo0 false 1 0 k o.
  Proof.
    intros Hp. unfold emstRun, emst. destruct (n <? 2); [intros H; inversion H; auto|].
    destruct (build N dim nat pt false 1 0 1 (seq 0 n)) as [t| | |]; try discriminate.
    intros H. exists t. split; auto. eapply loopRun_spec; eauto.
  Qed.
End Run.
