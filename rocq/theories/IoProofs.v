(** Point files: the bytes written under any interleaving, and what is read back. *)
From Coq Require Import Ascii String.
From Verif Require Import Base Sched IoModel.
Set Implicit Arguments.
Open Scope list_scope.
Open Scope nat_scope.

Lemma ceq_spec a b : reflect (a = b) (ceq a b).
Proof. apply Ascii.eqb_spec. Qed.

(** * Independent writers *)
Lemma upd_upd_comm A i j (x y : A) l : i <> j -> upd i x (upd j y l) = upd j y (upd i x l).
Proof.
  revert i j. induction l as [|z l IH]; intros [|i] [|j] H; cbn; auto; try lia. f_equal. apply IH. lia.
Qed.

Fixpoint ap (ws : list wr) (b : text) : text :=
  match ws with [] => b | w :: ws' => ap ws' (upd (fst w) (snd w) b) end.
Lemma ap_length ws : forall b, length (ap ws b) = length b.
Proof. induction ws as [|w ws IH]; intros b; cbn; auto. rewrite IH, upd_length. auto. Qed.
Lemma ap_app u v b : ap (u ++ v) b = ap v (ap u b).
Proof. revert b. induction u as [|w u IH]; intros b; cbn; auto. Qed.
Lemma ap_swap w ws b : (forall w', In w' ws -> fst w' <> fst w) ->
  ap ws (upd (fst w) (snd w) b) = upd (fst w) (snd w) (ap ws b).
Proof.
  revert b. induction ws as [|w' ws IH]; intros b H; cbn; auto.
  rewrite (@upd_upd_comm _ (fst w') (fst w)) by (apply H; left; auto).
  apply IH. intros; apply H; right; auto.
Qed.
Lemma puts_ap ws b : (forall w, In w ws -> fst w < length b) -> puts ws b = Ok (ap ws b).
Proof.
  revert b. induction ws as [|w ws IH]; intros b H; cbn; auto. unfold put.
  destruct (Nat.ltb_spec (fst w) (length b)) as [|H']; cbn [bind].
  - apply IH. intros w' Hw. rewrite upd_length. apply H. right; auto.
  - exfalso. specialize (H w (or_introl eq_refl)). lia.
Qed.

Definition indep (ls : list (list wr)) : Prop :=
  forall i j u v w w', i <> j -> nth_error ls i = Some u -> nth_error ls j = Some v -> In w u -> In w' v -> fst w <> fst w'.

Record wInv (n : nat) (goal : text) (ls : list (list wr)) (b : text) : Prop := {
  wi_len : length b = n;
  wi_goal : ap (concat ls) b = goal;
  wi_indep : indep ls;
  wi_in : forall l w, In l ls -> In w l -> fst w < n }.

Lemma nth_error_split_at A (l : list A) i x : nth_error l i = Some x -> exists l1 l2, l = l1 ++ x :: l2 /\ length l1 = i.
Proof. intros. apply nth_error_split. auto. Qed.
Lemma upd_at A (l1 l2 : list A) x y : upd (length l1) y (l1 ++ x :: l2) = l1 ++ y :: l2.
Proof. induction l1; cbn; auto. f_equal; auto. Qed.

Lemma wInv_step n goal ls b i l : wInv n goal ls b -> nth_error ls i = Some l -> w_fin l = false ->
  exists l' b', w_step l b = Ok (l', b') /\ wInv n goal (upd i l' ls) b'.
Proof.
  intros [I1 I2 I3 I4] E F. destruct l as [|w l]; [discriminate|]. cbn [w_step]. unfold put.
  assert (Hw : fst w < n) by (eapply I4; [eapply nth_error_In; eauto|left; auto]).
  destruct (Nat.ltb_spec (fst w) (length b)) as [_|]; [|lia]. cbn [bind]. do 2 eexists. split; [reflexivity|].
  destruct (nth_error_split_at _ _ E) as (l1 & l2 & -> & Hl). subst i. rewrite upd_at.
  constructor.
  - rewrite upd_length. auto.
  - rewrite <- I2. rewrite !concat_app. cbn [concat]. rewrite !ap_app. cbn [ap].
    rewrite ap_swap; auto. intros w' Hw' Eq. apply in_concat in Hw' as (u & Hu & Hwu).
    apply In_nth_error in Hu as (j & Hj). assert (j < length l1) by (apply nth_error_Some; congruence).
    refine (I3 (length l1) j (w :: l) u w w' _ E _ (or_introl eq_refl) Hwu (eq_sym Eq)); [lia|].
    rewrite nth_error_app1 by auto. auto.
  - intros i j u v x y Hij Hu Hv Hx Hy.
    assert (K : forall k z, nth_error (l1 ++ l :: l2) k = Some z -> exists z', nth_error (l1 ++ (w :: l) :: l2) k = Some z' /\ incl z z').
    { intros k z Hk. destruct (lt_eq_lt_dec k (length l1)) as [[H|H]|H].
      - rewrite nth_error_app1 in Hk by auto. exists z. rewrite nth_error_app1 by auto. split; auto. apply incl_refl.
      - subst k. rewrite nth_error_app2, Nat.sub_diag in Hk by auto. injection Hk as <-. exists (w :: l).
        rewrite nth_error_app2, Nat.sub_diag by auto. split; auto. apply incl_tl, incl_refl.
      - rewrite nth_error_app2 in Hk by lia. exists z. rewrite nth_error_app2 by lia.
        destruct (k - length l1) eqn:Ek; [lia|]. cbn in *. split; auto. apply incl_refl. }
    destruct (K _ _ Hu) as (u' & Hu' & Iu). destruct (K _ _ Hv) as (v' & Hv' & Iv).
    exact (I3 i j u' v' x y Hij Hu' Hv' (Iu _ Hx) (Iv _ Hy)).
  - intros l' w' Hl' Hw'. rewrite in_app_iff in Hl'. destruct Hl' as [Hl'|[<-|Hl']].
    + apply (I4 l' w'); auto. apply in_or_app; auto.
    + apply (I4 (w :: l) w'); [apply in_or_app; right; left; auto|right; auto].
    + apply (I4 l' w'); auto. apply in_or_app; right; right; auto.
Qed.

Lemma all_fin_ap ls b : forallb w_fin ls = true -> ap (concat ls) b = b.
Proof.
  induction ls as [|l ls IH]; cbn; auto. intros H. apply andb_true_iff in H as [H1 H2].
  destruct l; [|discriminate]. cbn. auto.
Qed.

Lemma writers_ok sched ls b : indep ls -> (forall l w, In l ls -> In w l -> fst w < length b) ->
  runT w_step w_fin sched ls b = Fuel \/ exists ls', runT w_step w_fin sched ls b = Ok (ls', ap (concat ls) b).
Proof.
  intros H1 H2. assert (I : wInv (length b) (ap (concat ls) b) ls b) by (constructor; auto).
  pose proof (@runT_inv _ _ w_step w_fin (wInv (length b) (ap (concat ls) b)) (@wInv_step _ _) sched ls b I) as H.
  destruct (runT w_step w_fin sched ls b) as [[ls' b']| | |] eqn:E; try contradiction; auto.
  right. exists ls'. destruct H as ([_ HG _ _] & HF & _). rewrite (all_fin_ap _ _ HF) in HG. subst b'. auto.
Qed.

Lemma total_upd (ls : list (list wr)) : forall i w l, nth_error ls i = Some (w :: l) ->
  length (concat (upd i l ls)) < length (concat ls).
Proof.
  induction ls as [|x ls IH]; intros [|i] w l E; cbn in E; try discriminate.
  - injection E as ->. cbn. lia.
  - cbn. rewrite !app_length. specialize (IH _ _ _ E). lia.
Qed.

Lemma writers_finish sched ls b : indep ls -> (forall l w, In l ls -> In w l -> fst w < length b) ->
  exists sched' ls', runT w_step w_fin (sched ++ sched') ls b = Ok (ls', ap (concat ls) b).
Proof.
  intros H1 H2. assert (I : wInv (length b) (ap (concat ls) b) ls b) by (constructor; auto).
  assert (HM : forall ls0 s0 i l l' s' k, wInv (length b) (ap (concat ls) b) ls0 s0 -> nth_error ls0 i = Some l -> w_fin l = false ->
    w_step l s0 = Ok (l', s') -> k = length (concat ls0) -> exists k', k' = length (concat (upd i l' ls0)) /\ k' < k).
  { intros ls0 s0 i l l' s' k Hi El Fl Es Hk. subst k. eexists. split; [reflexivity|].
    destruct l as [|w l0]; [discriminate|]. cbn in Es. unfold put in Es. destruct (fst w <? length s0); [|discriminate].
    cbn in Es. injection Es as <- _. eapply total_upd; eauto. }
  pose (M := fun (ls : list (list wr)) (_ : text) (k : nat) => k = length (concat ls)).
  assert (Mex : forall ls0 s0, wInv (length b) (ap (concat ls) b) ls0 s0 -> exists k, M ls0 s0 k) by (intros; eexists; reflexivity).
  destruct (@runT_extend _ _ w_step w_fin _ (@wInv_step (length b) (ap (concat ls) b)) M Mex HM sched ls b I) as (sc & [ls' b'] & E).
  exists sc, ls'. destruct (@writers_ok (sched ++ sc) ls b H1 H2) as [E'|(l2 & E')]; congruence.
Qed.

(** * What the fields of a point look like in the buffer *)
Definition okField (s : text) : Prop := s <> [] /\ length s <= fieldW /\ forall c, In c s -> is_space c = false.
Definition zeros (k : nat) : text := repeat NUL k.

Lemma nul_space : is_space NUL = true. Proof. reflexivity. Qed.
Lemma nl_space : is_space NL = true. Proof. reflexivity. Qed.
Lemma sp_space : is_space SP = true. Proof. reflexivity. Qed.

Lemma sprintfW_cons p c s : sprintfW p (c :: s) = (p, c) :: sprintfW (S p) s.
Proof. reflexivity. Qed.
Lemma sprintfW_fst p s w : In w (sprintfW p s) -> p <= fst w <= p + length s.
Proof.
  revert p. induction s as [|c s IH]; intros p.
  - cbn. intros [<-|[]]. cbn. lia.
  - rewrite sprintfW_cons. intros [<-|H]; cbn [length fst]; [lia|]. apply IH in H. lia.
Qed.

Lemma app_cons A (l : list A) x m : l ++ x :: m = (l ++ [x]) ++ m.
Proof. rewrite <- app_assoc. auto. Qed.

Lemma ap_sprintf s : forall pre k post, length s < k ->
  ap (sprintfW (length pre) s) (pre ++ zeros k ++ post) = pre ++ s ++ zeros (k - length s) ++ post.
Proof.
  induction s as [|c s IH]; intros pre k post H.
  - cbn. destruct k as [|k]; [cbn in H; lia|]. cbn. rewrite upd_at. auto.
  - rewrite sprintfW_cons. cbn [ap fst snd]. destruct k as [|k]; [cbn in H; lia|]. cbn [zeros repeat app].
    rewrite upd_at, app_cons. replace (S (length pre)) with (length (pre ++ [c])) by (rewrite app_length; cbn; lia).
    fold (zeros k). rewrite IH by (cbn in H; lia). rewrite <- app_assoc. cbn. auto.
Qed.

(** a field padded to its width *)
Definition pad (s : text) : text := s ++ zeros (fieldW - length s).
Lemma pad_length s : length s <= fieldW -> length (pad s) = fieldW.
Proof. intros. unfold pad, zeros. rewrite app_length, repeat_length. lia. Qed.

Fixpoint block (fields : list text) : text :=
  match fields with [] => [] | [f] => pad f | f :: rest => pad f ++ SP :: block rest end.

Lemma block_length fields : (forall f, In f fields -> length f <= fieldW) -> length (block fields) = ptLen fields.
Proof.
  induction fields as [|f fields IH]; intros H; auto. destruct fields as [|g fields].
  - cbn [block]. rewrite pad_length by (apply H; left; auto). reflexivity.
  - change (block (f :: g :: fields)) with (pad f ++ SP :: block (g :: fields)).
    rewrite app_length, pad_length by (apply H; left; auto). cbn [length].
    rewrite IH by (intros; apply H; right; auto). unfold ptLen. cbn [length]. lia.
Qed.

Lemma ptLen_step (f g : text) fields : ptLen (f :: g :: fields) = fieldW + 1 + ptLen (g :: fields).
Proof. unfold ptLen. cbn [length]. lia. Qed.

Lemma ptW_fst fields : forall p, (forall f, In f fields -> length f <= fieldW) ->
  forall w, In w (ptW p fields) -> p <= fst w <= p + ptLen fields.
Proof.
  induction fields as [|f fields IH]; intros p H w Hw; [destruct Hw|].
  destruct fields as [|g fields].
  - cbn [ptW] in Hw. apply sprintfW_fst in Hw. specialize (H f (or_introl eq_refl)). unfold ptLen. cbn [length]. lia.
  - change (ptW p (f :: g :: fields)) with (sprintfW p f ++ [(p + fieldW, SP)] ++ ptW (p + fieldW + 1) (g :: fields)) in Hw.
    rewrite ptLen_step. apply in_app_or in Hw as [Hw|[<-|Hw]].
    + apply sprintfW_fst in Hw. specialize (H f (or_introl eq_refl)). lia.
    + cbn [fst]. lia.
    + apply IH in Hw; [lia|intros; apply H; right; auto].
Qed.

Lemma ap_ptW fields : forall pre post, fields <> [] -> (forall f, In f fields -> length f <= fieldW) ->
  ap (ptW (length pre) fields) (pre ++ zeros (ptLen fields + 1) ++ post) = pre ++ block fields ++ NUL :: post.
Proof.
  induction fields as [|f fields IH]; intros pre post Hne H; [congruence|].
  assert (Hf : length f <= fieldW) by (apply H; left; auto).
  destruct fields as [|g fields].
  - cbn [ptW block]. change (ptLen [f] + 1) with (fieldW + 1). rewrite ap_sprintf by lia.
    unfold pad. rewrite <- app_assoc. do 2 f_equal.
    replace (fieldW + 1 - length f) with ((fieldW - length f) + 1) by lia. unfold zeros.
    rewrite repeat_app, <- app_assoc. auto.
  - change (ptW (length pre) (f :: g :: fields)) with
      (sprintfW (length pre) f ++ [(length pre + fieldW, SP)] ++ ptW (length pre + fieldW + 1) (g :: fields)).
    rewrite ptLen_step. replace (fieldW + 1 + ptLen (g :: fields) + 1) with ((fieldW + 1) + (ptLen (g :: fields) + 1)) by lia.
    unfold zeros at 1. rewrite repeat_app. fold (zeros (fieldW + 1)). fold (zeros (ptLen (g :: fields) + 1)).
    rewrite <- app_assoc, !ap_app, ap_sprintf by lia. cbn [ap fst snd].
    replace (f ++ zeros (fieldW + 1 - length f) ++ zeros (ptLen (g :: fields) + 1) ++ post)
      with (pad f ++ NUL :: zeros (ptLen (g :: fields) + 1) ++ post).
    2:{ unfold pad. rewrite <- app_assoc. f_equal. replace (fieldW + 1 - length f) with ((fieldW - length f) + 1) by lia.
        unfold zeros. rewrite (repeat_app NUL (fieldW - length f) 1), <- app_assoc. auto. }
    rewrite app_assoc.
    replace (length pre + fieldW) with (length (pre ++ pad f)) by (rewrite app_length, pad_length; auto).
    rewrite upd_at. replace (length (pre ++ pad f) + 1) with (length ((pre ++ pad f) ++ [SP])) by (rewrite !app_length; cbn; lia).
    rewrite (app_cons (pre ++ pad f) SP (zeros (ptLen (g :: fields) + 1) ++ post)), IH; [|discriminate|intros; apply H; right; auto].
    change (block (f :: g :: fields)) with (pad f ++ SP :: block (g :: fields)).
    rewrite <- !app_assoc. cbn [app]. auto.
Qed.

(** * A sequence of points *)
Definition okPt (fields : list text) : Prop := fields <> [] /\ forall f, In f fields -> okField f.
Lemma okPt_len fields : okPt fields -> forall f, In f fields -> length f <= fieldW.
Proof. intros [_ H] f Hf. apply H in Hf as (_ & ? & _). auto. Qed.

Lemma firstn_snoc A (l : list A) i d : i < length l -> firstn (S i) l = firstn i l ++ [nth i l d].
Proof. revert i. induction l as [|x l IH]; intros [|i] H; cbn in *; try lia; auto. f_equal. apply IH. lia. Qed.

Lemma offs_S A i : i < length A -> offs A (S i) = offs A i + ptLen (nth i A []) + 1.
Proof.
  intros H. unfold offs. rewrite (firstn_snoc A []) by auto. rewrite map_app, list_sum_app. cbn [map list_sum fold_right]. lia.
Qed.
Lemma offs_mono A i j : i <= j -> offs A i <= offs A j.
Proof.
  intros H. induction H as [|j H IH]; auto. etransitivity; eauto.
  destruct (le_lt_dec (length A) j).
  - unfold offs. rewrite !firstn_all2 by lia. auto.
  - rewrite offs_S by auto. lia.
Qed.

Lemma loopW_fst A i w : i < length A -> okPt (nth i A []) -> In w (loopW A i) -> offs A i <= fst w < offs A (S i).
Proof.
  intros Hi Hok Hw. unfold loopW in Hw. rewrite offs_S in * by auto. apply in_app_or in Hw as [Hw|[<-|[]]].
  - apply ptW_fst in Hw; [lia|apply okPt_len; auto].
  - cbn. lia.
Qed.

Lemma loops_indep A : (forall i, i < length A -> okPt (nth i A [])) -> indep (map (loopW A) (seq 0 (length A - 1))).
Proof.
  intros H i j u v w w' Hij Hu Hv Hw Hw'.
  assert (K : forall k l, nth_error (map (loopW A) (seq 0 (length A - 1))) k = Some l -> k < length A - 1 /\ l = loopW A k).
  { intros k l Hk. assert (k < length (map (loopW A) (seq 0 (length A - 1)))) by (apply nth_error_Some; congruence).
    rewrite map_length, seq_length in H0. split; auto.
    rewrite nth_error_map in Hk. rewrite (nth_error_nth' _ 0) in Hk by (rewrite seq_length; auto).
    rewrite seq_nth in Hk by auto. cbn in Hk. congruence. }
  apply K in Hu as [Hi ->]. apply K in Hv as [Hj ->].
  apply loopW_fst in Hw; [|lia|apply H; lia]. apply loopW_fst in Hw'; [|lia|apply H; lia].
  destruct (lt_eq_lt_dec i j) as [[L|]|L]; [|lia|].
  - pose proof (@offs_mono A (S i) j ltac:(lia)). lia.
  - pose proof (@offs_mono A (S j) i ltac:(lia)). lia.
Qed.

Definition rows (A : list (list text)) : text := concat (map (fun a => block a ++ [NL]) A).
Lemma rows_length A : (forall a, In a A -> okPt a) -> length (rows A) = list_sum (map (fun a => ptLen a + 1) A).
Proof.
  induction A as [|a A IH]; intros H; auto. unfold rows in *. cbn [map concat]. change (list_sum (ptLen a + 1 :: map (fun a => ptLen a + 1) A)) with (ptLen a + 1 + list_sum (map (fun a => ptLen a + 1) A)). rewrite !app_length, block_length.
  - cbn [length]. rewrite IH by (intros; apply H; right; auto). lia.
  - apply okPt_len, H. left; auto.
Qed.

Lemma ap_rows A : (forall a, In a A -> okPt a) -> forall k post, k <= length A ->
  ap (concat (map (loopW A) (seq 0 k))) (zeros (offs A k) ++ post) = rows (firstn k A) ++ post.
Proof.
  intros H k. induction k as [|k IH]; intros post Hk; auto.
  rewrite seq_S, map_app, concat_app, ap_app. cbn [plus map concat]. rewrite app_nil_r, offs_S by lia.
  assert (Ha : In (nth k A []) A) by (apply nth_In; lia). pose proof (H _ Ha) as Hok.
  replace (offs A k + ptLen (nth k A []) + 1) with (offs A k + (ptLen (nth k A []) + 1)) by lia.
  unfold zeros. rewrite repeat_app, <- app_assoc. fold (zeros (offs A k)). fold (zeros (ptLen (nth k A []) + 1)).
  rewrite IH by lia. unfold loopW. rewrite ap_app.
  assert (Hl : length (rows (firstn k A)) = offs A k).
  { rewrite rows_length; auto. intros a Hin. apply H. rewrite <- (firstn_skipn k A). apply in_or_app; auto. }
  rewrite <- Hl. rewrite ap_ptW; [|apply Hok|apply okPt_len; auto]. cbn [ap fst snd].
  rewrite offs_S by lia. rewrite app_assoc.
  replace (offs A k + ptLen (nth k A []) + 1 - 1) with (length (rows (firstn k A) ++ block (nth k A []))).
  2:{ rewrite app_length, block_length by (apply okPt_len; auto). lia. }
  rewrite upd_at. rewrite (firstn_snoc A [] ) by lia. unfold rows at 2. rewrite map_app, concat_app. cbn.
  unfold rows. rewrite <- !app_assoc. cbn. auto.
Qed.

(** the text of a point: fields separated by single spaces *)
Fixpoint joined (fields : list text) : text :=
  match fields with [] => [] | [f] => f | f :: rest => f ++ SP :: joined rest end.
Definition line (fields : list text) : text := joined fields ++ [NL].

Notation live := (fun c => negb (ceq c NUL)).
Lemma live_field f : okField f -> filter live (pad f) = f.
Proof.
  intros (_ & _ & H). unfold pad. rewrite filter_app. rewrite (filter_all _ f), (filter_none _ (zeros _)), app_nil_r; auto.
  - intros c Hc. apply repeat_spec in Hc. subst c. reflexivity.
  - intros c Hc. apply H in Hc. destruct (ceq_spec c NUL) as [->|]; [rewrite nul_space in Hc; discriminate|reflexivity].
Qed.
Lemma live_block fields : okPt fields -> filter live (block fields) = joined fields.
Proof.
  intros [Hne H]. clear Hne. induction fields as [|f fields IH]; [reflexivity|]. destruct fields as [|g fields].
  - cbn [block joined]. apply live_field, H. left; reflexivity.
  - change (block (f :: g :: fields)) with (pad f ++ SP :: block (g :: fields)).
    change (joined (f :: g :: fields)) with (f ++ SP :: joined (g :: fields)).
    rewrite filter_app, live_field by (apply H; left; auto). f_equal. cbn [filter]. change (negb (ceq SP NUL)) with true. cbv iota.
    f_equal. apply IH. intros; apply H; right; auto.
Qed.
Lemma live_rows A : (forall a, In a A -> okPt a) -> filter live (rows A) = concat (map line A).
Proof.
  induction A as [|a A IH]; intros H; auto. unfold rows in *. cbn [map concat]. rewrite !filter_app, live_block by (apply H; left; auto).
  cbn [filter]. change (negb (ceq NL NUL)) with true. cbv iota. rewrite IH by (intros; apply H; right; auto). unfold line. auto.
Qed.

Lemma removelast_snoc A (l : list A) x : removelast (l ++ [x]) = l.
Proof. rewrite removelast_app by discriminate. cbn. apply app_nil_r. Qed.

Lemma seqToString_ok sched A : A <> [] -> (forall a, In a A -> okPt a) ->
  (seqToString sched A = Fuel \/ seqToString sched A = Ok (concat (map line A) ++ [NUL])) /\
  exists sched', seqToString (sched ++ sched') A = Ok (concat (map line A) ++ [NUL]).
Proof.
  intros Hne H. set (n := length A). assert (Hn : 0 < n) by (destruct A; [congruence|cbn in n; lia]).
  assert (Hnth : forall i, i < length A -> okPt (nth i A [])) by (intros; apply H, nth_In; auto).
  pose proof (loops_indep A Hnth) as HI. fold n in HI.
  assert (Hin : forall l w, In l (map (loopW A) (seq 0 (n - 1))) -> In w l -> fst w < length (repeat NUL (offs A n + 1))).
  { intros l w Hl Hw. apply in_map_iff in Hl as (i & <- & Hi). apply in_seq in Hi. apply loopW_fst in Hw; [|lia|apply Hnth; lia].
    rewrite repeat_length. pose proof (@offs_mono A (S i) n ltac:(lia)). lia. }
  assert (Eo : offs A n = offs A (n - 1) + ptLen (nth (n - 1) A []) + 1).
  { replace n with (S (n - 1)) at 1 by lia. apply offs_S. lia. }
  assert (Hlast : okPt (nth (n - 1) A [])) by (apply Hnth; lia).
  (* the buffer after the loop *)
  assert (E1 : ap (concat (map (loopW A) (seq 0 (n - 1)))) (repeat NUL (offs A n + 1)) =
               rows (firstn (n - 1) A) ++ zeros (ptLen (nth (n - 1) A []) + 1) ++ [NUL]).
  { rewrite <- (@ap_rows A H (n - 1)) by lia. f_equal. rewrite Eo. unfold zeros.
    change [NUL] with (repeat NUL 1). rewrite <- !repeat_app. f_equal. lia. }
  assert (Hl : length (rows (firstn (n - 1) A)) = offs A (n - 1)).
  { rewrite rows_length; auto. intros a Ha. apply H. rewrite <- (firstn_skipn (n - 1) A). apply in_or_app; auto. }
  assert (E2 : puts (ptW (offs A (n - 1)) (nth (n - 1) A []) ++ [(offs A n - 1, NL); (offs A n, NL)])
                 (rows (firstn (n - 1) A) ++ zeros (ptLen (nth (n - 1) A []) + 1) ++ [NUL]) = Ok (rows A ++ [NL])).
  { rewrite puts_ap.
    - f_equal. rewrite ap_app, <- Hl, ap_ptW by (apply Hlast || (apply okPt_len; auto)). cbn [ap fst snd].
      rewrite app_assoc. replace (offs A n - 1) with (length (rows (firstn (n - 1) A) ++ block (nth (n - 1) A []))).
      2:{ rewrite app_length, block_length by (apply okPt_len; auto). lia. }
      rewrite upd_at, app_cons.
      replace (offs A n) with (length ((rows (firstn (n - 1) A) ++ block (nth (n - 1) A [])) ++ [NL])).
      2:{ rewrite !app_length, block_length by (apply okPt_len; auto). cbn. lia. }
      rewrite upd_at. f_equal.
      rewrite <- (firstn_all A) at 3. fold n. replace n with (S (n - 1)) at 3 by lia. rewrite (firstn_snoc A []) by lia.
      unfold rows. rewrite map_app, concat_app. cbn. rewrite <- !app_assoc, app_nil_r. auto.
    - intros w Hw. rewrite !app_length, Hl. unfold zeros. rewrite repeat_length. cbn.
      apply in_app_or in Hw as [Hw|[<-|[<-|[]]]]; cbn; [|lia|lia].
      apply ptW_fst in Hw; [lia|apply okPt_len; auto]. }
  assert (E3 : filter live (rows A ++ [NL]) = concat (map line A) ++ [NL]).
  { rewrite filter_app, live_rows by auto. auto. }
  assert (FIN : forall sc ls', runT w_step w_fin sc (map (loopW A) (seq 0 (n - 1))) (repeat NUL (offs A n + 1))
             = Ok (ls', ap (concat (map (loopW A) (seq 0 (n - 1)))) (repeat NUL (offs A n + 1))) ->
           seqToString sc A = Ok (concat (map line A) ++ [NUL])).
  { intros sc ls' E. unfold seqToString. fold n. destruct (Nat.eqb_spec n 0); [lia|]. rewrite E. cbn [bind]. rewrite E1, E2. cbn [bind].
    rewrite E3, removelast_snoc. rewrite app_length. cbn [length]. rewrite Nat.add_1_r. auto. }
  split.
  - destruct (@writers_ok sched _ _ HI Hin) as [E|(ls' & E)].
    + left. unfold seqToString. fold n. destruct (Nat.eqb_spec n 0); [lia|]. rewrite E. reflexivity.
    + right. eauto.
  - destruct (@writers_finish sched _ _ HI Hin) as (sc & ls' & E). exists sc. eauto.
Qed.

(** * The file *)
Lemma skipn_add A (l : list A) i k : skipn (i + k) l = skipn k (skipn i l).
Proof. revert i. induction l as [|x l IH]; intros [|i]; cbn; auto. destruct k; auto. Qed.

Lemma writeLoop_ok bsize scheds A : 0 < bsize -> (forall a, In a A -> okPt a) ->
  forall fuel offset, length A - offset < fuel ->
  writeLoop fuel bsize offset scheds A = Fuel \/ writeLoop fuel bsize offset scheds A = Ok (concat (map line (skipn offset A))).
Proof.
  intros Hb H. induction fuel as [|f IH]; intros offset Hf; [lia|]. cbn [writeLoop].
  destruct (Nat.ltb_spec offset (length A)) as [L|L].
  2:{ right. rewrite skipn_all2 by auto. reflexivity. }
  set (part := firstn (Nat.min (offset + bsize) (length A) - offset) (skipn offset A)).
  assert (Ep : part ++ skipn (offset + bsize) A = skipn offset A).
  { unfold part. destruct (Nat.min_spec (offset + bsize) (length A)) as [[L2 ->]|[L2 ->]].
    - replace (offset + bsize - offset) with bsize by lia. rewrite skipn_add. apply firstn_skipn.
    - rewrite (@skipn_all2 _ (offset + bsize) A) by lia. rewrite app_nil_r. apply firstn_all2. rewrite skipn_length. lia. }
  assert (Hne : part <> []).
  { intros E. rewrite E in Ep. cbn in Ep. assert (length (skipn (offset + bsize) A) = length (skipn offset A)) by congruence.
    rewrite !skipn_length in H0. lia. }
  assert (Hok : forall a, In a part -> okPt a).
  { intros a Ha. apply H. rewrite <- (firstn_skipn offset A), <- Ep. apply in_or_app; right. apply in_or_app; auto. }
  destruct (@seqToString_ok (scheds offset) part Hne Hok) as [[->| ->] _]; [left; reflexivity|]. cbn [bind].
  destruct (IH (offset + bsize)) as [->| ->]; [lia|left; reflexivity|]. cbn [bind]. right.
  rewrite removelast_snoc, <- Ep, map_app, concat_app. auto.
Qed.

Lemma writeLoop_ext bsize s1 s2 A : forall fuel offset, 0 < bsize -> (forall o, offset <= o -> s1 o = s2 o) ->
  writeLoop fuel bsize offset s1 A = writeLoop fuel bsize offset s2 A.
Proof.
  induction fuel as [|f IH]; intros offset Hb H; [reflexivity|]. cbn [writeLoop]. rewrite (H offset) by auto.
  rewrite (IH (offset + bsize)); [reflexivity|auto|intros; apply H; lia].
Qed.

Lemma writeLoop_finish bsize scheds A : 0 < bsize -> (forall a, In a A -> okPt a) ->
  forall fuel offset, length A - offset < fuel ->
  exists more, writeLoop fuel bsize offset (fun o => scheds o ++ more o) A = Ok (concat (map line (skipn offset A))).
Proof.
  intros Hb H. induction fuel as [|f IH]; intros offset Hf; [lia|]. cbn [writeLoop].
  destruct (Nat.ltb_spec offset (length A)) as [L|L].
  2:{ exists (fun _ => []). rewrite skipn_all2 by auto. reflexivity. }
  destruct (IH (offset + bsize)) as (more & Em); [lia|].
  set (part := firstn (Nat.min (offset + bsize) (length A) - offset) (skipn offset A)).
  assert (Ep : part ++ skipn (offset + bsize) A = skipn offset A).
  { unfold part. destruct (Nat.min_spec (offset + bsize) (length A)) as [[L2 ->]|[L2 ->]].
    - replace (offset + bsize - offset) with bsize by lia. rewrite skipn_add. apply firstn_skipn.
    - rewrite (@skipn_all2 _ (offset + bsize) A) by lia. rewrite app_nil_r. apply firstn_all2. rewrite skipn_length. lia. }
  assert (Hne : part <> []).
  { intros E. rewrite E in Ep. cbn in Ep. assert (length (skipn (offset + bsize) A) = length (skipn offset A)) by congruence.
    rewrite !skipn_length in H0. lia. }
  assert (Hok : forall a, In a part -> okPt a).
  { intros a Ha. apply H. rewrite <- (firstn_skipn offset A), <- Ep. apply in_or_app; right. apply in_or_app; auto. }
  destruct (@seqToString_ok (scheds offset) part Hne Hok) as [_ (sc & Es)].
  exists (fun o => if o =? offset then sc else more o). rewrite Nat.eqb_refl, Es. cbn [bind].
  rewrite (@writeLoop_ext bsize _ (fun o => scheds o ++ more o)), Em; auto.
  - cbn [bind]. rewrite removelast_snoc, <- Ep, map_app, concat_app. auto.
  - intros o Ho. destruct (Nat.eqb_spec o offset); [lia|auto].
Qed.

Definition headed (header : text) (body : text) : text := (if length header =? 0 then [] else header ++ [NL]) ++ body.

Lemma writeFile_ok bsize scheds header A : 0 < bsize -> A <> [] -> (forall a, In a A -> okPt a) ->
  (writeSeqToFile bsize scheds header A = Fuel \/
   writeSeqToFile bsize scheds header A = Ok (headed header (concat (map line A)))) /\
  exists more, writeSeqToFile bsize (fun o => scheds o ++ more o) header A = Ok (headed header (concat (map line A))).
Proof.
  intros Hb Hne H. unfold writeSeqToFile. assert (E : length A =? 0 = false) by (apply Nat.eqb_neq; destruct A; [congruence|discriminate]).
  rewrite E. split.
  - destruct (@writeLoop_ok bsize scheds A Hb H (S (length A)) 0) as [->| ->]; auto. lia.
  - destruct (@writeLoop_finish bsize scheds A Hb H (S (length A)) 0) as (more & Em); [lia|]. exists more. rewrite Em. reflexivity.
Qed.

(** * Reading *)
(** A text made of words, each followed by one separator. *)
Definition sepText (ws : list (text * ascii)) : text := concat (map (fun w => fst w ++ [snd w]) ws).
Definition okWord (w : text * ascii) : Prop :=
  fst w <> [] /\ (forall c, In c (fst w) -> is_space c = false) /\ is_space (snd w) = true.

Lemma zeroed_word s : (forall c, In c s -> is_space c = false) -> zeroed s = s.
Proof.
  intros H. unfold zeroed. rewrite <- (map_id s) at 2. apply map_ext_in. intros c Hc. rewrite H by auto. auto.
Qed.
Lemma zeroed_sep ws : (forall w, In w ws -> okWord w) -> zeroed (sepText ws) = sepText (map (fun w => (fst w, NUL)) ws).
Proof.
  induction ws as [|[w c] ws IH]; intros H; auto. destruct (H _ (or_introl eq_refl)) as (_ & H2 & H3).
  unfold sepText in *. cbn [map concat fst snd] in *. unfold zeroed in *. rewrite !map_app.
  fold (zeroed w). rewrite zeroed_word by auto. cbn [map]. rewrite H3. rewrite IH by (intros; apply H; right; auto). auto.
Qed.

Definition starts (ws : list (text * ascii)) (p : nat) : list nat :=
  (fix go p ws := match ws with [] => [] | w :: ws' => p :: go (p + length (fst w) + 1) ws' end) p ws.

(** the same scan, with the previous character carried along *)
Fixpoint scanFrom (prev : ascii) (i : nat) (s : text) : list nat :=
  match s with
  | [] => []
  | c :: s' => (if negb (ceq c NUL) && ceq prev NUL then [i] else []) ++ scanFrom c (S i) s'
  end.

Lemma wordStart_scan pre s : s <> [] ->
  filter (wordStart (pre ++ s)) (seq (length pre) (length s)) = scanFrom (last pre NUL) (length pre) s.
Proof.
  intros Hne. clear Hne. revert pre. induction s as [|c s IH]; intros pre; auto. cbn [length seq filter scanFrom].
  assert (Ew : wordStart (pre ++ c :: s) (length pre) = negb (ceq c NUL) && ceq (last pre NUL) NUL).
  { unfold wordStart. destruct (Nat.eqb_spec (length pre) 0) as [E|E].
    - destruct pre; [|discriminate]. cbn. rewrite andb_true_r. auto.
    - rewrite app_nth2, Nat.sub_diag by auto. cbn [nth]. f_equal. f_equal.
      rewrite app_nth1 by lia. destruct (@exists_last _ pre) as (p & x & ->); [destruct pre; cbn in *; congruence|].
      rewrite last_last, app_length. cbn. replace (length p + 1 - 1) with (length p) by lia. rewrite app_nth2, Nat.sub_diag by auto. auto. }
  rewrite Ew. replace (pre ++ c :: s) with ((pre ++ [c]) ++ s) by (rewrite <- app_assoc; auto).
  specialize (IH (pre ++ [c])). rewrite app_length, last_last in IH. cbn [length] in IH. rewrite Nat.add_1_r in IH. rewrite IH.
  destruct (negb (ceq c NUL) && ceq (last pre NUL) NUL); auto.
Qed.

Lemma scan_word w : forall prev i rest, prev <> NUL -> (forall c, In c w -> c <> NUL) ->
  scanFrom prev i (w ++ NUL :: rest) = scanFrom NUL (i + length w + 1) rest.
Proof.
  induction w as [|c w IH]; intros prev i rest Hp Hw.
  - cbn. do 2 f_equal. lia.
  - cbn [app scanFrom length]. destruct (ceq_spec prev NUL); [congruence|]. rewrite andb_false_r. cbn [app].
    rewrite IH; [f_equal; lia|apply Hw; left; auto|intros; apply Hw; right; auto].
Qed.

Lemma space_nul c : is_space c = false -> c <> NUL.
Proof. intros H ->. rewrite nul_space in H. discriminate. Qed.

Lemma scan_sep ws : (forall w, In w ws -> okWord w) -> forall i,
  scanFrom NUL i (sepText (map (fun w => (fst w, NUL)) ws)) = starts ws i.
Proof.
  induction ws as [|[w c] ws IH]; intros H i; auto. destruct (H _ (or_introl eq_refl)) as (H1 & H2 & _). cbn [fst] in *.
  unfold sepText. cbn [map concat fst snd starts]. rewrite <- app_assoc. destruct w as [|x w]; [congruence|].
  cbn [app scanFrom]. destruct (ceq_spec x NUL) as [E|E]; [exfalso; apply (@space_nul x); auto; apply H2; left; auto|].
  cbn [negb andb]. destruct (ceq_spec NUL NUL); [|congruence]. cbn [app]. f_equal.
  rewrite scan_word; auto; [|intros y Hy; apply space_nul, H2; right; auto].
  fold (sepText (map (fun w => (fst w, NUL)) ws)). rewrite IH by (intros; apply H; right; auto).
  unfold starts. cbn [length]. f_equal. lia.
Qed.

Lemma cstrOf_word w rest : (forall c, In c w -> is_space c = false) -> cstrOf (w ++ NUL :: rest) = Ok w.
Proof.
  induction w as [|c w IH]; intros H; [reflexivity|]. cbn [app cstrOf]. destruct (ceq_spec c NUL) as [E|E].
  - exfalso. apply (@space_nul c); auto. apply H. left; auto.
  - rewrite IH by (intros; apply H; right; auto). auto.
Qed.

Lemma skipn_app_len A (l1 l2 : list A) : skipn (length l1) (l1 ++ l2) = l2.
Proof. rewrite skipn_app, skipn_all, Nat.sub_diag. auto. Qed.

Lemma sepText_cons w ws : sepText (w :: ws) = fst w ++ snd w :: sepText ws.
Proof. unfold sepText. cbn [map concat]. rewrite <- app_assoc. reflexivity. Qed.

Lemma words_read ws : (forall w, In w ws -> okWord w) -> forall pre,
  mapM (cstr (pre ++ sepText (map (fun w => (fst w, NUL)) ws))) (starts ws (length pre)) = Ok (map fst ws).
Proof.
  induction ws as [|[w c] ws IH]; intros H pre; [reflexivity|]. destruct (H _ (or_introl eq_refl)) as (H1 & H2 & _). cbn [fst] in *.
  cbn [starts mapM map fst]. unfold cstr at 1. rewrite sepText_cons. cbn [fst snd]. rewrite skipn_app_len.
  rewrite cstrOf_word by auto. cbn [bind].
  replace (pre ++ w ++ NUL :: sepText (map (fun w0 => (fst w0, NUL)) ws))
    with ((pre ++ w ++ [NUL]) ++ sepText (map (fun w0 => (fst w0, NUL)) ws)) by (rewrite <- !app_assoc; reflexivity).
  replace (length pre + length w + 1) with (length (pre ++ w ++ [NUL])) by (rewrite !app_length; cbn [length]; lia).
  fold (starts ws (length (pre ++ w ++ [NUL]))).
  rewrite IH by (intros; apply H; right; auto). reflexivity.
Qed.

Lemma stringToWords_ok ws : (forall w, In w ws -> okWord w) ->
  stringToWords (sepText ws) = (sepText (map (fun w => (fst w, NUL)) ws), starts ws 0) /\
  mapM (cstr (sepText (map (fun w => (fst w, NUL)) ws))) (starts ws 0) = Ok (map fst ws).
Proof.
  intros H. split; [|apply (words_read ws H [])]. unfold stringToWords. rewrite zeroed_sep by auto. f_equal.
  rewrite <- scan_sep by auto. set (s := sepText _). destruct s as [|x s'] eqn:E; [reflexivity|].
  apply (@wordStart_scan [] (x :: s')). discriminate.
Qed.

(** The text of a sequence as words followed by separators. *)
Fixpoint ptWords (fields : list text) : list (text * ascii) :=
  match fields with [] => [] | [f] => [(f, NL)] | f :: rest => (f, SP) :: ptWords rest end.
Lemma ptWords_line fields : fields <> [] -> sepText (ptWords fields) = line fields.
Proof.
  induction fields as [|f fields IH]; intros Hne; [congruence|]. destruct fields as [|g fields].
  - cbn. rewrite app_nil_r. auto.
  - change (ptWords (f :: g :: fields)) with ((f, SP) :: ptWords (g :: fields)). unfold sepText in *. cbn [map concat fst snd].
    rewrite IH by discriminate. unfold line. change (joined (f :: g :: fields)) with (f ++ SP :: joined (g :: fields)).
    rewrite <- !app_assoc. auto.
Qed.
Lemma ptWords_fst fields : map fst (ptWords fields) = fields.
Proof.
  induction fields as [|f fields IH]; auto. destruct fields as [|g fields]; auto.
  change (ptWords (f :: g :: fields)) with ((f, SP) :: ptWords (g :: fields)). cbn [map fst]. f_equal. auto.
Qed.
Lemma ptWords_ok fields w : okPt fields -> In w (ptWords fields) -> okWord w.
Proof.
  intros [_ H]. induction fields as [|f fields IH]; [intros []|].
  assert (Hf : forall c, is_space c = true -> okWord (f, c)).
  { intros c Hc. destruct (H f (or_introl eq_refl)) as (H1 & _ & H3). repeat split; auto. }
  destruct fields as [|g fields].
  - intros [<-|[]]. apply Hf. reflexivity.
  - intros [<-|Hw]; [apply Hf; reflexivity|]. apply IH; auto. intros; apply H; right; auto.
Qed.
Lemma sepText_app u v : sepText (u ++ v) = sepText u ++ sepText v.
Proof. unfold sepText. rewrite map_app, concat_app. auto. Qed.

Definition fileWords (A : list (list text)) : list (text * ascii) := concat (map ptWords A).
Lemma fileWords_text A : (forall a, In a A -> okPt a) -> sepText (fileWords A) = concat (map line A).
Proof.
  induction A as [|a A IH]; intros H; auto. unfold fileWords in *. cbn [map concat]. rewrite sepText_app.
  rewrite ptWords_line by (apply H; left; auto). rewrite IH by (intros; apply H; right; auto). auto.
Qed.
Lemma fileWords_fst A : map fst (fileWords A) = concat A.
Proof. induction A as [|a A IH]; auto. unfold fileWords in *. cbn. rewrite map_app, ptWords_fst, IH. auto. Qed.
Lemma fileWords_ok A w : (forall a, In a A -> okPt a) -> In w (fileWords A) -> okWord w.
Proof.
  intros H Hw. apply in_concat in Hw as (l & Hl & Hw). apply in_map_iff in Hl as (a & <- & Ha). eapply ptWords_ok; eauto.
Qed.

(** Every word list is recovered from the text. *)
Lemma file_words A : (forall a, In a A -> okPt a) ->
  let '(s, W) := stringToWords (concat (map line A)) in mapM (cstr s) W = Ok (concat A).
Proof.
  intros H. rewrite <- fileWords_text by auto. destruct (@stringToWords_ok (fileWords A) (fun w => @fileWords_ok A w H)) as [-> E].
  rewrite E, fileWords_fst. auto.
Qed.

(** * Points *)
Lemma mapM_comp A B C (f : A -> res B) (g : B -> C) l r : mapM f l = Ok r -> mapM (fun x => y <- f x ;; Ok (g y)) l = Ok (map g r).
Proof.
  revert r. induction l as [|x l IH]; intros r E; cbn in *; [injection E as <-; auto|].
  destruct (f x) as [y| | |]; try discriminate. cbn in *. destruct (mapM f l) as [r'| | |]; try discriminate.
  cbn in E. injection E as <-. rewrite (IH r') by auto. auto.
Qed.
Lemma mapM_length A B (f : A -> res B) l r : mapM f l = Ok r -> length r = length l.
Proof.
  revert r. induction l as [|x l IH]; intros r E; cbn in *; [injection E as <-; auto|].
  destruct (f x) as [y| | |]; try discriminate. cbn in *. destruct (mapM f l) as [r'| | |]; try discriminate.
  cbn in E. injection E as <-. cbn. f_equal. auto.
Qed.

Lemma chunks_concat A (d : nat) (ls : list (list A)) : (forall l, In l ls -> length l = d) ->
  map (fun i => firstn d (skipn (d * i) (concat ls))) (seq 0 (length ls)) = ls.
Proof.
  intros H. induction ls as [|l ls IH]; auto. cbn [length seq map concat].
  assert (Hl : length l = d) by (apply H; left; auto). f_equal.
  - rewrite Nat.mul_0_r. cbn [skipn]. rewrite <- Hl, firstn_app, firstn_all, Nat.sub_diag. cbn. apply app_nil_r.
  - rewrite <- seq_shift, map_map. rewrite <- IH at 2 by (intros; apply H; right; auto). apply map_ext. intros i.
    replace (d * S i) with (length l + d * i) by lia. rewrite skipn_add, skipn_app_len. auto.
Qed.
Lemma concat_length_d A (d : nat) (ls : list (list A)) : (forall l, In l ls -> length l = d) -> length (concat ls) = d * length ls.
Proof.
  induction ls as [|l ls IH]; intros H; cbn; [lia|]. rewrite app_length, IH by (intros; apply H; right; auto).
  rewrite (H l) by (left; auto). lia.
Qed.

Section Points.
  Variable T : Type.
  Variable atof : text -> T.

  Lemma parse_ok d s W A : 0 < d -> mapM (cstr s) W = Ok (concat A) -> (forall a, In a A -> length a = d) ->
    parsePoints atof d s W = Ok (map (map atof) A).
  Proof.
    intros Hd E Hlen. unfold parsePoints. pose proof (mapM_length _ _ E) as L. rewrite (concat_length_d A Hlen) in L.
    assert (En : length W / d = length A) by (rewrite <- L, Nat.mul_comm, Nat.div_mul; lia).
    rewrite En, firstn_all2 by lia.
    rewrite (mapM_comp _ atof _ E). cbn [bind]. f_equal. rewrite concat_map.
    rewrite <- (map_length (map atof) A). apply chunks_concat.
    intros l Hl. apply in_map_iff in Hl as (a & <- & Ha). rewrite map_length. auto.
  Qed.

  Definition numeric (s : text) : Prop := forall c, In c s -> is_number c = true.
  Lemma numeric_header s : numeric s -> isGenericHeader s = false.
  Proof. intros H. apply existsb_false. intros c Hc. rewrite (H c) by auto. auto. Qed.

  Lemma readPoints_ok d A : 0 < d -> A <> [] -> (forall a, In a A -> okPt a /\ length a = d) ->
    (forall s, hd_error (concat A) = Some s -> numeric s) ->
    readPoints atof d (concat (map line A)) = Ok (map (map atof) A).
  Proof.
    intros Hd Hne H Hn. pose proof (@file_words A (fun a Ha => proj1 (H a Ha))) as E. unfold readPoints.
    destruct (stringToWords (concat (map line A))) as [s W]. destruct W as [|w0 W].
    - cbn in E. injection E as E. exfalso. destruct A as [|a A]; [congruence|]. destruct (H a (or_introl eq_refl)) as [[Ha _] _].
      destruct a; [congruence|discriminate].
    - assert (E0 := E). cbn [mapM] in E0. destruct (cstr s w0) as [h| | |] eqn:Eh; try discriminate. cbn [bind] in *.
      destruct (mapM (cstr s) W) as [r| | |]; try discriminate. cbn in E0. injection E0 as E0.
      rewrite numeric_header by (apply Hn; rewrite <- E0; auto).
      apply parse_ok; auto. intros a Ha. apply H; auto.
  Qed.

  (** with a header word *)
  Lemma readPoints_header d hdr A : 0 < d -> (forall a, In a A -> okPt a /\ length a = d) ->
    hdr <> [] -> (forall c, In c hdr -> is_space c = false) -> isGenericHeader hdr = true ->
    readPoints atof d (hdr ++ [NL] ++ concat (map line A)) = Ok (map (map atof) A).
  Proof.
    intros Hd H H1 H2 H3. rewrite <- fileWords_text by (intros; apply H; auto).
    replace (hdr ++ [NL] ++ sepText (fileWords A)) with (sepText ((hdr, NL) :: fileWords A)).
    2:{ unfold sepText. cbn [map concat fst snd]. rewrite <- app_assoc. auto. }
    assert (Hok : forall w, In w ((hdr, NL) :: fileWords A) -> okWord w).
    { intros w [<-|Hw]; [repeat split; auto|]. eapply fileWords_ok; [|eauto]. intros; apply H; auto. }
    unfold readPoints. destruct (stringToWords_ok _ Hok) as [-> E].
    assert (ES : exists W, starts ((hdr, NL) :: fileWords A) 0 = 0 :: W) by (eexists; reflexivity).
    destruct ES as (W & ES). rewrite ES in *. set (s := sepText _) in *. cbn [mapM map fst] in E.
    destruct (cstr s 0) as [h| | |]; try discriminate E. cbn [bind] in *.
    destruct (mapM (cstr s) W) as [r| | |] eqn:EW; try discriminate E.
    cbn [bind] in E. injection E as -> Er. rewrite H3. apply parse_ok; auto; [|intros; apply H; auto].
    rewrite EW, Er, fileWords_fst. auto.
  Qed.
End Points.

(** * The dimension from the first line *)
Lemma getline_nl l rest : (forall c, In c l -> c <> NL) -> getline (l ++ NL :: rest) = (l, rest).
Proof.
  induction l as [|c l IH]; intros H; [reflexivity|]. cbn [app getline]. destruct (ceq_spec c NL) as [E|_].
  - exfalso. apply (H c); auto. left; auto.
  - rewrite IH; auto. intros; apply H; right; auto.
Qed.

Lemma joined_in fields c : In c (joined fields) -> c = SP \/ exists f, In f fields /\ In c f.
Proof.
  induction fields as [|f fields IH]; [intros []|]. destruct fields as [|g fields].
  - cbn. eauto.
  - change (joined (f :: g :: fields)) with (f ++ SP :: joined (g :: fields)). intros H. apply in_app_or in H as [H|[<-|H]]; eauto.
    + right. exists f. split; [left|]; auto.
    + apply IH in H as [->|(h & Hh & Hc)]; auto. right. exists h. split; [right|]; auto.
Qed.

Lemma delim_space c : is_space c = false -> is_delim c = false.
Proof. unfold is_space. intros H. apply orb_false_iff in H as [H _]. apply orb_false_iff in H. tauto. Qed.

Lemma joined_delims fields : okPt fields -> length (filter is_delim (joined fields)) + 1 = length fields.
Proof.
  intros [Hne H]. induction fields as [|f fields IH]; [congruence|].
  assert (Ef : filter is_delim f = []).
  { apply filter_none. intros c Hc. apply delim_space. destruct (H f (or_introl eq_refl)) as (_ & _ & K). auto. }
  destruct fields as [|g fields].
  - cbn [joined]. rewrite Ef. auto.
  - change (joined (f :: g :: fields)) with (f ++ SP :: joined (g :: fields)). rewrite filter_app, Ef. cbn [app filter].
    change (is_delim SP) with true. cbv iota. cbn [length] in *. rewrite <- IH; [reflexivity|discriminate|intros; apply H; right; auto].
Qed.

Lemma joined_last fields : okPt fields -> exists l c, joined fields = l ++ [c] /\ is_space c = false.
Proof.
  intros [Hne H]. induction fields as [|f fields IH]; [congruence|]. destruct fields as [|g fields].
  - cbn [joined]. destruct (H f (or_introl eq_refl)) as (K1 & _ & K3). destruct (exists_last K1) as (l & c & ->).
    exists l, c. split; auto. apply K3. apply in_or_app. right; left; auto.
  - change (joined (f :: g :: fields)) with (f ++ SP :: joined (g :: fields)).
    destruct IH as (l & c & -> & Hc); [discriminate|intros; apply H; right; auto|].
    exists (f ++ SP :: l), c. split; auto. rewrite <- app_assoc. auto.
Qed.

Lemma countEntry_joined fields : okPt fields -> countEntry (joined fields) = Ok (length fields).
Proof.
  intros Hok. unfold countEntry. cbn [popBack]. destruct (joined_last Hok) as (l & c & E & Hc).
  rewrite E at 1. rewrite rev_app_distr. cbn [rev app].
  assert (K : is_delim c || is_space c || is_newline c = false).
  { unfold is_space in Hc. apply orb_false_iff in Hc as [Hc H0]. apply orb_false_iff in Hc as [H1 H2].
    unfold is_space. rewrite H1, H2, H0. auto. }
  rewrite K. cbn [bind]. rewrite joined_delims by auto. auto.
Qed.

Lemma joined_no_nl fields : okPt fields -> forall c, In c (joined fields) -> c <> NL.
Proof.
  intros Hok c Hc ->. apply joined_in in Hc as [E|(f & Hf & Hc)]; [discriminate|].
  destruct Hok as [_ Hok]. destruct (Hok f Hf) as (_ & _ & K). apply K in Hc. rewrite nl_space in Hc. discriminate.
Qed.

Lemma readHeader_plain A a : okPt a -> (forall s, In s a -> numeric s) ->
  readHeader (concat (map line (a :: A))) = Ok (length a).
Proof.
  intros Ha Hn. unfold readHeader. cbn [map concat]. unfold line at 1. rewrite <- app_assoc. cbn [app].
  rewrite getline_nl by (apply joined_no_nl; auto).
  assert (E : isGenericHeader (joined a) = false).
  { apply existsb_false. intros c Hc. apply joined_in in Hc as [->|(f & Hf & Hc)]; [reflexivity|]. rewrite (Hn f Hf c Hc). auto. }
  rewrite E. apply countEntry_joined; auto.
Qed.

Lemma readHeader_headed hdr A a : okPt a -> (forall c, In c hdr -> is_space c = false) -> isGenericHeader hdr = true ->
  readHeader (hdr ++ [NL] ++ concat (map line (a :: A))) = Ok (length a).
Proof.
  intros Ha Hs Hh. unfold readHeader. cbn [app]. rewrite getline_nl.
  2:{ intros c Hc ->. apply Hs in Hc. rewrite nl_space in Hc. discriminate. }
  rewrite Hh. cbn [map concat]. unfold line at 1. rewrite <- app_assoc. cbn [app].
  rewrite getline_nl by (apply joined_no_nl; auto). cbn [fst]. apply countEntry_joined; auto.
Qed.

(** * [%.11le] *)
Lemma digitsN_length k m : length (digitsN k m) = k.
Proof. revert m. induction k as [|k IH]; intros m; cbn; auto. rewrite app_length, IH. cbn. lia. Qed.
Lemma fmtLe_length neg ds e : length ds = 12 ->
  length (fmtLe neg ds e) = 17 + (if neg then 1 else 0) + (if Z.abs_nat e <? 100 then 0 else 1).
Proof.
  intros H. unfold fmtLe, fmtExp. destruct ds as [|d ds]; [discriminate|]. cbn [map length] in *.
  rewrite !app_length. cbn [length]. rewrite !app_length, map_length.
  destruct neg, (e <? 0)%Z, (Z.abs_nat e <? 100); cbn [length txt list_ascii_of_string]; rewrite digitsN_length; lia.
Qed.

Lemma digit_number d : d < 10 -> is_number (digit d) = true.
Proof. intros H. do 10 (destruct d as [|d]; [reflexivity|]). lia. Qed.
Lemma digitsN_number k m : numeric (digitsN k m).
Proof.
  revert m. induction k as [|k IH]; intros m c; [intros []|]. cbn [digitsN]. intros H. apply in_app_or in H as [H|[<-|[]]].
  - eapply IH; eauto.
  - apply digit_number, Nat.mod_upper_bound. lia.
Qed.
Lemma numeric_app u v : numeric u -> numeric v -> numeric (u ++ v).
Proof. intros H1 H2 c Hc. apply in_app_or in Hc as [|]; auto. Qed.
Lemma fmtLe_number neg ds e : (forall d, In d ds -> d < 10) -> numeric (fmtLe neg ds e).
Proof.
  intros H. unfold fmtLe, fmtExp. cbv zeta. repeat apply numeric_app.
  - destruct neg; intros c Hc; [destruct Hc as [<-|[]]; reflexivity|destruct Hc].
  - destruct ds as [|d ds]; [intros c []|]. cbn [map]. intros c Hc. destruct Hc as [<-|Hc]; [apply digit_number, H; left; auto|].
    cbn [app txt list_ascii_of_string] in Hc. destruct Hc as [<-|Hc]; [reflexivity|].
    apply in_map_iff in Hc as (x & <- & Hx). apply digit_number, H. right; auto.
  - intros c [<-|[]]. reflexivity.
  - destruct (e <? 0)%Z; intros c [<-|[]]; reflexivity.
  - destruct (Z.abs_nat e <? 100); apply digitsN_number.
Qed.
Lemma number_space c : is_number c = true -> is_space c = false.
Proof.
  unfold is_number, oneOf. intros H. apply existsb_exists in H as (x & Hx & E). destruct (ceq_spec c x); [subst|discriminate].
  cbn [txt list_ascii_of_string In] in Hx. repeat (destruct Hx as [<-|Hx]; [reflexivity|]). destruct Hx.
Qed.
Lemma fmtLe_okField neg ds e : length ds = 12 -> (forall d, In d ds -> d < 10) ->
  (neg = false \/ Z.abs_nat e < 100) -> okField (fmtLe neg ds e).
Proof.
  intros H1 H2 H3. pose proof (@fmtLe_length neg ds e H1) as L. split; [|split].
  - intros E. rewrite E in L. cbn in L. lia.
  - rewrite L. unfold fieldW. destruct H3 as [->|H3].
    + destruct (Z.abs_nat e <? 100); lia.
    + apply Nat.ltb_lt in H3. rewrite H3. destruct neg; lia.
  - intros c Hc. apply number_space. eapply fmtLe_number; eauto.
Qed.
