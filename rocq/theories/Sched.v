(** Threads with local states acting on a shared state under an arbitrary
    schedule. *)
From Verif Require Import Base.
Set Implicit Arguments.

Section Sched.
  Variable L S : Type.
  (** one atomic action of a thread, and whether the thread has returned *)
  Variable step : L -> S -> res (L * S).
  Variable fin : L -> bool.

  (** [sched] lists the thread that acts next (returned threads are skipped).
      [Fuel]: the schedule ends before all threads have returned. *)
  Fixpoint runT (sched : list nat) (ls : list L) (s : S) : res (list L * S) :=
    match sched with
    | [] => if forallb fin ls then Ok (ls, s) else Fuel
    | i :: sc =>
      match nth_error ls i with
      | None => runT sc ls s
      | Some l => if fin l then runT sc ls s
                  else '(l', s') <- step l s ;; runT sc (upd i l' ls) s'
      end
    end.

  Section Inv.
    Variable I : list L -> S -> Prop.
    Hypothesis HI : forall ls s i l, I ls s -> nth_error ls i = Some l -> fin l = false ->
      exists l' s', step l s = Ok (l', s') /\ I (upd i l' ls) s'.

    Lemma runT_inv sched : forall ls s, I ls s ->
      match runT sched ls s with
      | Ok (ls', s') => I ls' s' /\ forallb fin ls' = true /\ length ls' = length ls
      | Fuel => True
      | _ => False
      end.
    Proof.
      induction sched as [|i sc IH]; intros ls s H; simpl.
      - destruct (forallb fin ls) eqn:E; auto.
      - destruct (nth_error ls i) as [l|] eqn:E; [|apply IH; auto].
        destruct (fin l) eqn:F; [apply IH; auto|].
        destruct (HI i H E F) as (l' & s' & -> & H'). simpl. specialize (IH _ _ H').
        destruct (runT sc (upd i l' ls) s') as [[ls' s'']| | |]; auto.
        rewrite upd_length in IH. exact IH.
    Qed.

    (** No schedule gets stuck when a measure decreases with every action. *)
    Variable M : list L -> S -> nat -> Prop.
    Hypothesis Mex : forall ls s, I ls s -> exists k, M ls s k.
    Hypothesis HM : forall ls s i l l' s' k, I ls s -> nth_error ls i = Some l -> fin l = false ->
      step l s = Ok (l', s') -> M ls s k -> exists k', M (upd i l' ls) s' k' /\ k' < k.

    Lemma runT_finish : forall ls s, I ls s -> exists sched r, runT sched ls s = Ok r.
    Proof.
      enough (H : forall k ls s, M ls s k -> I ls s -> exists sched r, runT sched ls s = Ok r).
      { intros ls s H0. destruct (Mex H0) as (k & Hk). eauto. }
      induction k as [k IH] using lt_wf_ind. intros ls s Hk H.
      destruct (forallb fin ls) eqn:E; [exists []; simpl; rewrite E; eauto|].
      apply forallb_false in E. destruct E as (l & Hl & F).
      apply In_nth_error in Hl. destruct Hl as (i & Hi).
      destruct (HI i H Hi F) as (l' & s' & E & H'). destruct (HM i H Hi F E Hk) as (k' & Hk' & Hlt).
      destruct (IH k' Hlt (upd i l' ls) s') as (sc & r & Hr); auto.
      exists (i :: sc), r. simpl. rewrite Hi, F, E. exact Hr.
    Qed.

    Lemma runT_extend sched : forall ls s, I ls s -> exists sched' r, runT (sched ++ sched') ls s = Ok r.
    Proof.
      induction sched as [|i sc IH]; intros ls s H; simpl; [apply runT_finish; auto|].
      destruct (nth_error ls i) as [l|] eqn:E; [|apply IH; auto].
      destruct (fin l) eqn:F; [apply IH; auto|].
      destruct (HI i H E F) as (l' & s' & -> & H'). simpl. apply IH; auto.
    Qed.
  End Inv.
End Sched.
