(** Orthant scan: what it pushes and what it misses, for every number type. *)
From Verif Require Import Base Num KdModel SebModel SebPrefix.
Set Implicit Arguments.

Section Scan.
  Variable K : Num.
  Variable dim : nat.
  Variable eps : nT K.
  Notation num := (nT K).
  Notation point := (list (nT K)).
  Notation slot := (slot K).
  Notation rd := (rd K).
  Notation fresh := (freshDist K dim).

  Lemma quadrant_lt (p c : point) : quadrant K dim p c < 2 ^ dim.
  Proof.
    unfold quadrant.
    assert (H : forall n a x, x < 2 ^ a ->
      fold_left (fun index i => if nlt K (coord c i) (coord p i) then index + 2 ^ i else index) (seq a n) x < 2 ^ (a + n)).
    { induction n as [|n IH]; intros a x Hx; cbn [seq fold_left]; [rewrite Nat.add_0_r; auto|].
      replace (a + S n) with (S a + n) by lia. apply IH. cbn [Nat.pow]. destruct (nlt K _ _); lia. }
    apply (H dim 0 0). cbn. lia.
  Qed.

  Variables (c : point) (r : num) (A : list point).
  Definition far (i : nat) : num := dist K dim (nth i A []) c.
  Definition out (i : nat) : Prop := nlt K (nadd K r eps) (far i) = true.
  Definition orth (i : nat) : nat := quadrant K dim c (nth i A []).

  (** what the comparisons with the initial entries need *)
  Definition radLaw : Prop := forall d, nlt K (nadd K r eps) d = true ->
    nlt K (nadd K (nneg1 K) eps) d = true /\ nlt K (nneg1 K) d = true.

  (** tables after looking at the points of Q *)
  Definition tab (Q : nat -> Prop) (t : list slot) : Prop :=
    length t = 2 ^ dim /\
    (forall o d j, nth_error t o = Some (d, Some j) -> Q j /\ out j /\ d = far j) /\
    (forall o d, nth_error t o = Some (d, None) -> d = nneg1 K).
  Definition hit (t : list slot) (o : nat) : Prop := exists d j, nth_error t o = Some (d, Some j).

  Lemma upd_cases T (l : list T) o x o' y : nth_error (upd o x l) o' = Some y -> (o' = o /\ y = x) \/ (o' <> o /\ nth_error l o' = Some y).
  Proof.
    intros H. destruct (Nat.eq_dec o o') as [->|Hne].
    - destruct (Nat.lt_ge_cases o' (length l)).
      + rewrite nth_error_upd_eq in H by auto. inversion H; auto.
      + assert (nth_error (upd o' x l) o' = None) by (apply nth_error_None; rewrite upd_length; auto). congruence.
    - rewrite nth_error_upd_neq in H by auto. right. auto.
  Qed.

  Lemma rd_nth i : i < length A -> rd A i = Ok (nth i A []).
  Proof. intros H. unfold SebModel.rd. rewrite (nth_error_nth' A [] H). reflexivity. Qed.

  Lemma scanPoint_spec Q t i : i < length A -> tab Q t ->
    exists t', @scanPoint K dim eps c r A t i = Ok t' /\ tab (fun j => Q j \/ j = i) t' /\
      (forall o, hit t o -> hit t' o) /\ (radLaw -> out i -> hit t' (orth i)).
  Proof.
    intros Hi (T1 & T2 & T3). unfold scanPoint. rewrite rd_nth by auto. cbn [bind]. fold (far i).
    destruct (nlt K (nadd K r eps) (far i)) eqn:E.
    - change (quadrant K dim c (nth i A [])) with (orth i).
      assert (Ho : orth i < length t) by (rewrite T1; apply quadrant_lt).
      destruct (nth_error t (orth i)) as [[dm om]|] eqn:En; [|apply nth_error_None in En; lia].
      destruct (nlt K (nadd K dm eps) (far i)) eqn:E2.
      + eexists; split; [reflexivity|]. split; [split|split].
        * rewrite upd_length. auto.
        * split.
          -- intros o d j H. apply upd_cases in H as [[-> H]|[_ H]]; [inversion H; subst; repeat split; auto|].
             destruct (T2 _ _ _ H) as (H1 & H2 & H3). auto.
          -- intros o d H. apply upd_cases in H as [[-> H]|[_ H]]; [inversion H|eauto].
        * intros o (d & j & H). destruct (Nat.eq_dec (orth i) o) as [<-|Hne].
          -- exists (far i), i. apply nth_error_upd_eq; auto.
          -- exists d, j. rewrite nth_error_upd_neq; auto.
        * intros _ _. exists (far i), i. apply nth_error_upd_eq; auto.
      + exists t. split; auto. split; [split; [auto|split; auto]|split; auto].
        * intros o d j H. destruct (T2 _ _ _ H) as (H1 & H2 & H3). auto.
        * intros L O. destruct om as [j|]; [exists dm, j; auto|]. apply T3 in En. subst dm.
          destruct (L _ O). congruence.
    - exists t. split; auto. split; [split; [auto|split; auto]|split; auto].
      + intros o d j H. destruct (T2 _ _ _ H) as (H1 & H2 & H3). auto.
      + intros _ O. unfold out in O. congruence.
  Qed.

  Lemma scan_fold l : forall Q t, (forall i, In i l -> i < length A) -> tab Q t ->
    exists t', foldR (@scanPoint K dim eps c r A) l t = Ok t' /\ tab (fun j => Q j \/ In j l) t' /\
      (forall o, hit t o -> hit t' o) /\ (radLaw -> forall i, In i l -> out i -> hit t' (orth i)).
  Proof.
    induction l as [|i l IH]; intros Q t Hl HT; cbn [foldR].
    - exists t. split; auto. split; [|split; auto; intros _ ? []].
      destruct HT as (T1 & T2 & T3). split; auto. split; auto. intros o d j H. destruct (T2 _ _ _ H) as (H1 & H2 & H3). auto.
    - destruct (@scanPoint_spec Q t i) as (t1 & -> & H1 & H2 & H3); [apply Hl; simpl; auto|auto|]. cbn [bind].
      destruct (IH _ t1 ltac:(intros; apply Hl; simpl; auto) H1) as (t2 & E & G1 & G2 & G3). exists t2. split; auto.
      split; [|split; auto].
      + destruct G1 as (T1 & T2 & T3). split; auto. split; auto. intros o d j H. destruct (T2 _ _ _ H) as (K1 & K2 & K3).
        split; auto. cbn [In]. destruct K1 as [[K1|K1]|K1]; auto.
      + intros L j [<-|Hj] O; auto.
  Qed.

  Lemma fresh_tab Q : tab Q (map (fun d => (d, None)) fresh).
  Proof.
    unfold freshDist. split; [rewrite map_length, repeat_length; auto|]. split.
    - intros o d j H. apply nth_error_In, in_map_iff in H as (x & H & _). inversion H.
    - intros o d H. apply nth_error_In, in_map_iff in H as (x & H & Hx). inversion H; subst. apply repeat_spec in Hx. auto.
  Qed.

  Lemma scanRange_spec s e : e <= length A -> exists t, scanRange K dim eps c r A s e fresh = Ok t /\
    tab (fun j => s <= j < e) t /\ (radLaw -> forall i, s <= i < e -> out i -> hit t (orth i)).
  Proof.
    intros He. unfold scanRange.
    destruct (@scan_fold (seq s (e - s)) (fun _ => False) (map (fun d => (d, None)) fresh)) as (t & E & H1 & _ & H2).
    - intros i Hi. apply in_seq in Hi. lia.
    - apply fresh_tab.
    - exists t. split; auto. split.
      + destruct H1 as (T1 & T2 & T3). split; auto. split; auto. intros o d j H. destruct (T2 _ _ _ H) as (K1 & K2 & K3). split; auto.
        destruct K1 as [[]|K1]. apply in_seq in K1. lia.
      + intros L i Hi O. apply H2; auto. apply in_seq. lia.
  Qed.

  Lemma merge_nth (g t : list slot) o : length g = length t -> nth_error (@mergeSlots K g t) o =
    match nth_error g o, nth_error t o with
    | Some (dg, ig), Some (dt, it) => Some (match it with None => (dg, ig) | Some i => if nlt K dg dt then (dt, Some i) else (dg, ig) end)
    | _, _ => None
    end.
  Proof.
    revert t o. induction g as [|[dg ig] g IH]; intros [|[dt it] t] o HL; cbn [length] in HL; try lia.
    - destruct o; reflexivity.
    - destruct o; cbn [mergeSlots nth_error]; auto.
  Qed.
  Lemma merge_len (g t : list slot) : length (@mergeSlots K g t) = length g.
  Proof. revert t. induction g as [|[dg ig] g IH]; intros [|[dt it] t]; cbn; auto. Qed.

  Lemma merge_spec Q1 Q2 g t : tab Q1 g -> tab Q2 t -> tab (fun j => Q1 j \/ Q2 j) (@mergeSlots K g t) /\
    (forall o, hit g o -> hit (@mergeSlots K g t) o) /\ (radLaw -> forall o, hit t o -> hit (@mergeSlots K g t) o).
  Proof.
    intros (G1 & G2 & G3) (T1 & T2 & T3). assert (HL : length g = length t) by congruence.
    split; [split; [rewrite merge_len; auto|split]|split].
    - intros o d j. rewrite merge_nth by auto. destruct (nth_error g o) as [[dg ig]|] eqn:Eg; [|discriminate].
      destruct (nth_error t o) as [[dt it]|] eqn:Et; [|discriminate]. intros H. inversion H as [H']; clear H.
      destruct it as [i|].
      + destruct (nlt K dg dt).
        * inversion H'; subst. destruct (T2 _ _ _ Et) as (K1 & K2 & K3). auto.
        * inversion H'; subst. destruct (G2 _ _ _ Eg) as (K1 & K2 & K3). auto.
      + inversion H'; subst. destruct (G2 _ _ _ Eg) as (K1 & K2 & K3). auto.
    - intros o d. rewrite merge_nth by auto. destruct (nth_error g o) as [[dg ig]|] eqn:Eg; [|discriminate].
      destruct (nth_error t o) as [[dt it]|] eqn:Et; [|discriminate]. intros H. inversion H as [H']; clear H.
      destruct it as [i|]; [destruct (nlt K dg dt)|]; inversion H'; subst; eauto.
    - intros o (d & j & H). unfold hit. rewrite merge_nth by auto. rewrite H.
      destruct (nth_error t o) as [[dt it]|] eqn:Et.
      + destruct it as [i|]; [destruct (nlt K d dt)|]; eauto.
      + apply nth_error_None in Et. assert (o < length g) by (apply nth_error_Some; congruence). lia.
    - intros L o (d & j & H). unfold hit. rewrite merge_nth by auto. rewrite H.
      destruct (nth_error g o) as [[dg ig]|] eqn:Eg.
      + destruct (nlt K dg d) eqn:E; [eauto|]. destruct ig as [i|]; [eauto|]. apply G3 in Eg. subst dg.
        destruct (T2 _ _ _ H) as (_ & O & ->). destruct (L _ O). congruence.
      + apply nth_error_None in Eg. assert (o < length t) by (apply nth_error_Some; congruence). lia.
  Qed.

  Lemma merge_fold ts Q : forall g, tab Q g -> Forall (tab Q) ts ->
    tab Q (fold_left (@mergeSlots K) ts g) /\ (forall o, hit g o -> hit (fold_left (@mergeSlots K) ts g) o) /\
    (radLaw -> forall t o, In t ts -> hit t o -> hit (fold_left (@mergeSlots K) ts g) o).
  Proof.
    induction ts as [|t ts IH]; intros g Hg Ht; cbn [fold_left].
    - split; auto. split; auto. intros _ ? ? [].
    - apply Forall_cons_iff in Ht as [Ht1 Ht2]. destruct (merge_spec Hg Ht1) as (M1 & M2 & M3).
      assert (M1' : tab Q (@mergeSlots K g t)).
      { destruct M1 as (T1 & T2 & T3). split; auto. split; auto. intros o d j H. destruct (T2 _ _ _ H) as (K1 & K2 & K3). split; auto. tauto. }
      destruct (IH _ M1' Ht2) as (I1 & I2 & I3). split; auto. split; auto.
      intros L t' o [<-|Hin] Hh; eauto.
  Qed.

  Lemma outs_spec l : (forall j, In (Some j) l -> j < length A) -> exists new, outs K A l = Ok new /\
    (forall p, In p new -> exists j, In (Some j) l /\ p = nth j A []) /\ (new = [] -> forall j, ~ In (Some j) l).
  Proof.
    induction l as [|[i|] l IH]; intros H; cbn [outs].
    - exists []. split; auto. split; [intros ? []|]. intros _ j [].
    - rewrite rd_nth by (apply H; simpl; auto). cbn [bind]. destruct IH as (new & -> & I1 & I2); [intros; apply H; simpl; auto|]. cbn [bind].
      eexists; split; [reflexivity|]. split; [|discriminate]. intros p [<-|Hp]; [exists i; simpl; auto|].
      destruct (I1 p Hp) as (j & Hj & ->). exists j. simpl; auto.
    - destruct IH as (new & -> & I1 & I2); [intros; apply H; simpl; auto|]. exists new. split; auto. split.
      + intros p Hp. destruct (I1 p Hp) as (j & Hj & ->). exists j. simpl; auto.
      + intros E j [Hj|Hj]; [discriminate|]. apply (I2 E j Hj).
  Qed.

  Lemma outs_tab Q t : tab Q t -> (forall j, Q j -> j < length A) -> exists new, outs K A (map snd t) = Ok new /\
    (forall p, In p new -> exists j, Q j /\ out j /\ p = nth j A []) /\ (new = [] -> forall o, ~ hit t o).
  Proof.
    intros (T1 & T2 & T3) HQ.
    assert (In1 : forall j, In (Some j) (map snd t) -> Q j /\ out j).
    { intros j H. apply in_map_iff in H as ([d o'] & E & H). cbn in E. subst o'. apply In_nth_error in H as (o & H). destruct (T2 _ _ _ H) as (K1 & K2 & _). auto. }
    destruct (@outs_spec (map snd t)) as (new & E & H1 & H2); [intros j Hj; apply HQ, In1; auto|]. exists new. split; auto. split.
    - intros p Hp. destruct (H1 p Hp) as (j & Hj & ->). destruct (In1 j Hj). eauto.
    - intros En o (d & j & H). apply (H2 En j). apply in_map_iff. exists (d, Some j). split; auto. eapply nth_error_In; eauto.
  Qed.

  Theorem ortScan_spec workers n : n <= length A -> exists new, ortScan K dim eps workers c r A n fresh = Ok new /\
    (forall p, In p new -> exists j, j < n /\ out j /\ p = nth j A []) /\
    (radLaw -> new = [] -> forall i, i < n -> ~ out i).
  Proof.
    intros Hn. unfold ortScan. destruct (n <? 2000).
    - destruct (@scanRange_spec 0 n Hn) as (t & -> & H1 & H2). cbn [bind].
      destruct (outs_tab H1) as (new & -> & O1 & O2); [intros; lia|]. exists new. split; auto. split.
      + intros p Hp. destruct (O1 p Hp) as (j & Hj & O & ->). exists j. split; [lia|auto].
      + intros L E i Hi O. apply (O2 E (orth i)). apply H2; auto. lia.
    - set (P := Nat.max 96 workers). set (bs := (n + P - 1) / P).
      assert (HP : 0 < P) by (unfold P; lia).
      destruct (@mapR_total _ _ (fun p => scanRange K dim eps c r A (p * bs) (Nat.min ((p + 1) * bs) n) fresh) (seq 0 P)) as (ts & E).
      { intros p _. destruct (@scanRange_spec (p * bs) (Nat.min ((p + 1) * bs) n)) as (t & Et & _); [lia|eauto]. }
      rewrite E. cbn [bind]. apply mapR_ok in E.
      assert (HT : Forall (tab (fun j => j < n)) ts).
      { apply Forall_forall. intros t Ht. clear -E Ht Hn. induction E as [|p t0 ps ts' Hp E IH]; [inversion Ht|].
        destruct Ht as [<-|Ht]; auto. destruct (@scanRange_spec (p * bs) (Nat.min ((p + 1) * bs) n)) as (t1 & Et & T & _); [lia|].
        rewrite Hp in Et. inversion Et; subst. destruct T as (T1 & T2 & T3). split; auto. split; auto.
        intros o d j H. destruct (T2 _ _ _ H) as (K1 & K2 & K3). split; auto. lia. }
      destruct (merge_fold (fresh_tab (fun j => j < n)) HT) as (M1 & _ & M3).
      destruct (outs_tab M1) as (new & -> & O1 & O2); [intros; lia|]. exists new. split; auto. split.
      + intros p Hp. destruct (O1 p Hp) as (j & Hj & O & ->). exists j. auto.
      + intros L En i Hi O. apply (O2 En (orth i)).
        assert (Hb : 0 < bs). { unfold bs. apply Nat.div_str_pos. lia. }
        assert (Hc : n <= P * bs). { unfold bs. pose proof (Nat.div_mod (n + P - 1) P ltac:(lia)). pose proof (Nat.mod_upper_bound (n + P - 1) P ltac:(lia)). lia. }
        set (p := i / bs). pose proof (Nat.div_mod i bs ltac:(lia)) as Hd. fold p in Hd.
        pose proof (Nat.mod_upper_bound i bs ltac:(lia)).
        assert (Hp : p < P). { unfold p. apply Nat.div_lt_upper_bound; [lia|]. rewrite Nat.mul_comm. lia. }
        assert (Ht : exists t, In t ts /\ scanRange K dim eps c r A (p * bs) (Nat.min ((p + 1) * bs) n) fresh = Ok t).
        { assert (Hin : In p (seq 0 P)) by (apply in_seq; lia). clear -E Hin. revert Hin.
          induction E as [|p0 t0 ps ts' Hp E IH]; intros Hin; [inversion Hin|]. destruct Hin as [<-|Hin]; [exists t0; simpl; auto|].
          destruct (IH Hin) as (t & H1 & H2). exists t. simpl; auto. }
        destruct Ht as (t & Hin & Et). apply (M3 L t); auto.
        destruct (@scanRange_spec (p * bs) (Nat.min ((p + 1) * bs) n)) as (t1 & Et1 & _ & H1); [lia|].
        rewrite Et in Et1. inversion Et1; subst. apply H1; auto. nia.
  Qed.
End Scan.

(** *** the loop *)
Section Loop.
  Variable K : Num.
  Variable dim : nat.
  Variable one eps : nT K.
  Notation point := (list (nT K)).
  Variable solve : list point -> res (ball K).
  Variable workers : nat.

  Definition clear (A : list point) (B : ball K) : Prop :=
    forall p, In p A -> nlt K (nadd K (bR B) eps) (dist K dim p (center dim B)) = false.

  Variable good : ball K -> Prop.
  Hypothesis Hsolve : forall S B, solve S = Ok B -> good B.
  Hypothesis Hlaw : forall B, good B -> radLaw K eps (bR B).

  Theorem scanLoop_clear fuel : forall A B B', good B -> @scanLoop K dim eps solve workers fuel A B = Ok B' -> clear A B'.
  Proof.
    induction fuel as [|fuel IH]; intros A B B' HB; cbn [scanLoop]; [discriminate|].
    destruct (@ortScan_spec K dim eps (center dim B) (bR B) A workers (length A) (le_n _)) as (new & -> & _ & Hnew). cbn [bind].
    destruct new as [|x new].
    - intros E; inversion E; subst B'. intros p Hp. apply In_nth with (d := []) in Hp as (i & Hi & <-).
      specialize (Hnew (Hlaw HB) eq_refl i Hi). unfold out, far in Hnew. destruct (nlt K _ _); congruence.
    - intros E. apply bind_ok in E as (B1 & E1 & E). refine (IH A B1 B' _ E). exact (Hsolve E1).
  Qed.
  Theorem scanCompute_clear fuel A B : @scanCompute K dim eps solve workers fuel A = Ok B -> clear A B.
  Proof.
    unfold scanCompute. intros E. apply bind_ok in E as (S & _ & E). apply bind_ok in E as (B0 & E0 & E).
    eapply scanLoop_clear; eauto.
  Qed.
  Theorem sampleLoop_good fuel : forall A step sc B B', good B -> @sampleLoop K dim eps solve workers fuel A step sc B = Ok B' -> good B'.
  Proof.
    induction fuel as [|fuel IH]; intros A step sc B B' HB; cbn [sampleLoop]; [discriminate|].
    destruct (sc <? length A); [|intros E; inversion E; subst; auto].
    intros E. apply bind_ok in E as (S & _ & E). apply bind_ok in E as (new & _ & E). destruct new as [|x new].
    - inversion E; subst; auto.
    - apply bind_ok in E as (B1 & E1 & E). eapply IH; [|exact E]. eauto.
  Qed.
  Theorem samplingCompute_clear fuel A B : @samplingCompute K dim eps solve workers fuel A = Ok B -> clear A B.
  Proof.
    unfold samplingCompute. intros E. apply bind_ok in E as (S & _ & E). apply bind_ok in E as (B0 & E0 & E).
    apply bind_ok in E as (B1 & E1 & E). eapply scanLoop_clear; [|exact E]. eapply sampleLoop_good; [|exact E1]. eauto.
  Qed.
End Loop.

(** *** every ball comes from the constructor *)
Section Made.
  Variable K : Num.
  Variable dim : nat.
  Variable one eps : nT K.
  Notation point := (list (nT K)).
  Variable maxElement : (nat -> nT K) -> nat -> nat -> nat.
  Variables mtf piv : bool.
  Variables cutoff PREFIX THRESH : nat.
  Variable order : list nat -> list nat.
  Variable pfuel : nat.

  Definition made (B : ball K) : Prop := exists PP, ballNew K dim one PP = Ok B.

  Lemma support_made A R B : support2Ball K dim one A R = Ok B -> made B.
  Proof.
    unfold support2Ball. destruct R as [|x [|y R]]; intros E.
    - apply bind_ok in E as (p & _ & E). apply bind_ok in E as (q & _ & E). eexists; eauto.
    - apply bind_ok in E as (p & _ & E). eexists; eauto.
    - eexists; eauto.
  Qed.

  Section Keep.
    Variable Q : state K -> Prop.
    Variable process : state K -> nat -> res bool.
    Variable cleanUp : state K -> nat -> res (state K).
    Hypothesis HQ : forall s i s', Q s -> cleanUp s i = Ok s' -> Q s'.
    Lemma foldR_keep l : forall s s', Q s -> foldR (visit process cleanUp) l s = Ok s' -> Q s'.
    Proof.
      induction l as [|i l IH]; intros s s' Hs; cbn [foldR]; [intros E; inversion E; subst; auto|].
      intros E. apply bind_ok in E as (s1 & E1 & E). eapply IH; [|exact E]. unfold visit in E1.
      apply bind_ok in E1 as (b & _ & E1). destruct b; [eauto|inversion E1; subst; auto].
    Qed.
    Lemma parLoop_keep n fuel : forall i s s', Q s -> parLoop process cleanUp fuel n PREFIX THRESH order i s = Ok s' -> Q s'.
    Proof.
      induction fuel as [|fuel IH]; intros i s s' Hs; cbn [parLoop]; [discriminate|].
      destruct (i <? n); [|intros E; inversion E; subst; auto].
      destruct (_ <? THRESH).
      - intros E. apply bind_ok in E as (s1 & E1 & E). eapply IH; [|exact E]. eapply foldR_keep; eauto.
      - intros E. apply bind_ok in E as (fl & _ & E). destruct (0 <? total fl); [|eapply IH; eauto].
        destruct (rev _) as [|x ?]; [discriminate|]. apply bind_ok in E as (s1 & E1 & E). eapply IH; [|exact E]. eauto.
    Qed.
  End Keep.

  Lemma conflict_made n pivot rec R s i s' : (forall A i R s', rec A i R = Ok s' -> made (snd s')) ->
    conflict dim mtf piv n pivot rec R s i = Ok s' -> made (snd s').
  Proof.
    intros Hrec. destruct s as [A B]. unfold conflict. intros E. apply bind_ok in E as (A1 & _ & E). apply bind_ok in E as (p & _ & E).
    destruct (_ && _); [discriminate|]. apply bind_ok in E as ([A2 B2] & E1 & E). inversion E; subst. apply Hrec in E1. exact E1.
  Qed.

  Lemma welzlSerial_made k : forall A n R s, welzlSerial K dim one eps mtf piv k A n R = Ok s -> made (snd s).
  Proof.
    induction k as [|k IH]; intros A n R s; cbn [welzlSerial]; [discriminate|].
    intros E. apply bind_ok in E as (B & E1 & E). apply support_made in E1. destruct (_ =? _); [inversion E; subst; auto|].
    unfold serialPrefix in E. refine (@foldR_keep (fun s => made (snd s)) _ _ _ _ _ _ _ E); [|exact E1].
    intros s0 i s1 _ Hc. eapply conflict_made; [|exact Hc]. intros; eauto.
  Qed.
  Lemma welzlParallel_made k : forall A n R s,
    welzlParallel K dim one eps maxElement mtf piv cutoff PREFIX THRESH order pfuel k A n R = Ok s -> made (snd s).
  Proof.
    induction k as [|k IH]; intros A n R s; cbn [welzlParallel]; [discriminate|].
    destruct (n <? cutoff); [apply welzlSerial_made|].
    intros E. apply bind_ok in E as (B & E1 & E). apply support_made in E1. destruct (_ =? _); [inversion E; subst; auto|].
    unfold parallelPrefix, serialPrefix in E.
    assert (HC : forall s i s', made (snd s) ->
      conflict dim mtf piv n (fun A B s => findPivotPar dim maxElement A n B s)
        (welzlParallel K dim one eps maxElement mtf piv cutoff PREFIX THRESH order pfuel k) R s i = Ok s' -> made (snd s')).
    { intros s0 i s1 _ Hc. eapply conflict_made; [|exact Hc]. intros; eauto. }
    destruct (n <? THRESH).
    - exact (@foldR_keep (fun s => made (snd s)) _ _ HC _ (_, _) _ E1 E).
    - exact (@parLoop_keep (fun s => made (snd s)) _ _ HC _ _ _ (_, _) _ E1 E).
  Qed.
  Lemma welzlCompute_made P B : welzlCompute K dim one eps maxElement mtf piv cutoff PREFIX THRESH order pfuel P = Ok B -> made B.
  Proof. unfold welzlCompute. intros E. apply bind_ok in E as (s & E1 & E). inversion E; subst. eapply welzlParallel_made; eauto. Qed.

  (** radii are square roots, or half square roots *)
  Lemma made_radius B : made B -> (exists x, bR B = nsqrt K x) \/ exists x, bR B = ndiv K (nsqrt K x) (ntwo K).
  Proof.
    intros (PP & E). unfold ballNew in E. destruct (_ <? _); [discriminate|]. destruct (_ <=? 1); [discriminate|].
    apply bind_ok in E as (b & Eb & E). inversion E; subst; cbn [bR]. clear E.
    destruct (_ =? 2).
    - inversion Eb; subst. right. unfold twoPoint; cbn [iR]. unfold dist. eauto.
    - left. revert Eb. generalize (skipn 3 (map (fun p : point => vsub K dim p (vquot K dim (fold_left (vadd K dim) PP (vzero K dim)) (nof K one (length PP)))) PP)).
      set (b0 := threePoint K dim one _). assert (H0 : exists x, iR b0 = nsqrt K x) by (unfold b0, threePoint, recompute; cbn [iR snd]; eauto).
      clearbody b0. intros l. revert b0 H0. induction l as [|q l IH]; intros b0 H0; cbn [foldR]; [intros E; inversion E; subst; auto|].
      intros E. apply bind_ok in E as (b1 & E1 & E). eapply IH; [|exact E]. unfold grow in E1. destruct (_ <? _); [discriminate|].
      destruct (_ =? 3); inversion E1; subst; unfold threePoint, recompute; cbn [iR snd]; eauto.
  Qed.
End Made.
