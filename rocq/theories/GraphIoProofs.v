(** Graph files: the bytes written under any interleaving. *)
From Coq Require Import Ascii String NArith.
From Verif Require Import Base Sched IoModel IoProofs GraphIoModel GraphIoSpec.
Set Implicit Arguments.
Open Scope list_scope.
Open Scope nat_scope.

Definition okCell (c : cell) : Prop :=
  length (fst (fst c)) <= snd (fst c) /\ (forall x, In x (fst (fst c)) -> x <> NUL) /\ snd c <> NUL.
Definition cblock (cs : list cell) : text :=
  concat (map (fun c : cell => fst (fst c) ++ zeros (snd (fst c) - length (fst (fst c))) ++ [snd c]) cs).
Definition ctext (cs : list cell) : text := concat (map (fun c : cell => fst (fst c) ++ [snd c]) cs).

Lemma cblock_cons c cs : cblock (c :: cs) = fst (fst c) ++ zeros (snd (fst c) - length (fst (fst c))) ++ [snd c] ++ cblock cs.
Proof. unfold cblock. cbn [map concat]. rewrite <- !app_assoc. reflexivity. Qed.
Lemma cellsLen_cons c cs : cellsLen (c :: cs) = cellLen c + cellsLen cs.
Proof. reflexivity. Qed.
Lemma cblock_length cs : (forall c, In c cs -> okCell c) -> length (cblock cs) = cellsLen cs.
Proof.
  induction cs as [|c cs IH]; intros H; auto. rewrite cblock_cons, cellsLen_cons, !app_length, IH by (intros; apply H; right; auto).
  destruct (H c (or_introl eq_refl)) as (L & _). unfold zeros, cellLen. rewrite repeat_length. cbn [length]. lia.
Qed.

Lemma ap_cells cs : (forall c, In c cs -> okCell c) -> forall pre post,
  ap (cellsW (length pre) cs) (pre ++ zeros (cellsLen cs) ++ post) = pre ++ cblock cs ++ post.
Proof.
  induction cs as [|c cs IH]; intros H pre post; [reflexivity|].
  destruct c as [[s w] sep]. pose proof (H (s, w, sep) (or_introl eq_refl)) as (L & _). cbn [fst snd] in L.
  cbn [cellsW cellW]. rewrite cellsLen_cons, cblock_cons. cbn [fst snd]. unfold cellLen. cbn [fst snd].
  unfold zeros at 1. rewrite repeat_app. fold (zeros (w + 1)). fold (zeros (cellsLen cs)).
  rewrite <- !app_assoc, !ap_app, ap_sprintf by lia. cbn [ap fst snd].
  replace (s ++ zeros (w + 1 - length s) ++ zeros (cellsLen cs) ++ post)
    with ((s ++ zeros (w - length s)) ++ NUL :: zeros (cellsLen cs) ++ post).
  2:{ rewrite <- app_assoc. f_equal. replace (w + 1 - length s) with ((w - length s) + 1) by lia.
      unfold zeros. rewrite (repeat_app NUL (w - length s) 1), <- app_assoc. auto. }
  rewrite app_assoc.
  assert (E : length (pre ++ s ++ zeros (w - length s)) = length pre + w).
  { rewrite !app_length. unfold zeros. rewrite repeat_length. lia. }
  rewrite <- E, upd_at, app_cons.
  replace (length pre + (w + 1)) with (length ((pre ++ s ++ zeros (w - length s)) ++ [sep])).
  2:{ rewrite app_length, E. cbn. lia. }
  rewrite IH by (intros; apply H; right; auto). rewrite <- !app_assoc. reflexivity.
Qed.
Lemma cellsW_fst cs : (forall c, In c cs -> okCell c) -> forall p w, In w (cellsW p cs) -> p <= fst w < p + cellsLen cs.
Proof.
  induction cs as [|c cs IH]; intros H p w Hw; [destruct Hw|]. destruct c as [[s k] sep].
  pose proof (H (s, k, sep) (or_introl eq_refl)) as (L & _). cbn [fst snd] in L.
  cbn [cellsW cellW] in Hw. rewrite cellsLen_cons. unfold cellLen in *. cbn [fst snd] in *. rewrite <- app_assoc in Hw.
  apply in_app_or in Hw as [Hw|[<-|Hw]].
  - apply sprintfW_fst in Hw. lia.
  - cbn. lia.
  - apply IH in Hw; [lia|intros; apply H; right; auto].
Qed.

Section Threads.
  Variable T : list (list cell).
  Hypothesis HT : forall t c, In t T -> In c t -> okCell c.

  Lemma toff_S i : i < length T -> toff T (S i) = toff T i + cellsLen (nth i T []).
  Proof.
    intros H. unfold toff. rewrite (firstn_snoc T []) by auto. rewrite map_app, list_sum_app. cbn [map list_sum fold_right]. lia.
  Qed.
  Lemma toff_mono i j : i <= j -> toff T i <= toff T j.
  Proof.
    intros H. induction H as [|j H IH]; auto. etransitivity; eauto. destruct (le_lt_dec (length T) j).
    - unfold toff. rewrite !firstn_all2 by lia. auto.
    - rewrite toff_S by auto. lia.
  Qed.
  Lemma nthT i : i < length T -> forall c, In c (nth i T []) -> okCell c.
  Proof. intros H c. apply HT. apply nth_In. auto. Qed.
  Lemma threadW_fst i w : i < length T -> In w (threadW T i) -> toff T i <= fst w < toff T (S i).
  Proof. intros Hi Hw. rewrite toff_S by auto. apply (@cellsW_fst (nth i T []) (nthT Hi)). exact Hw. Qed.
  Lemma threads_indep : indep (map (threadW T) (seq 0 (length T - 1))).
  Proof.
    intros i j u v w w' Hij Hu Hv Hw Hw'.
    assert (K : forall k l, nth_error (map (threadW T) (seq 0 (length T - 1))) k = Some l -> k < length T - 1 /\ l = threadW T k).
    { intros k l Hk. assert (HL : k < length (map (threadW T) (seq 0 (length T - 1)))) by (apply nth_error_Some; congruence).
      rewrite map_length, seq_length in HL. split; auto.
      rewrite nth_error_map in Hk. rewrite (nth_error_nth' _ 0) in Hk by (rewrite seq_length; auto).
      rewrite seq_nth in Hk by auto. cbn in Hk. congruence. }
    apply K in Hu as [Hi ->]. apply K in Hv as [Hj ->].
    apply threadW_fst in Hw; [|lia]. apply threadW_fst in Hw'; [|lia].
    destruct (lt_eq_lt_dec i j) as [[L|]|L]; [|lia|].
    - pose proof (@toff_mono (S i) j ltac:(lia)). lia.
    - pose proof (@toff_mono (S j) i ltac:(lia)). lia.
  Qed.
  Definition tblock (l : list (list cell)) : text := concat (map cblock l).
  Lemma tblock_length k : k <= length T -> length (tblock (firstn k T)) = toff T k.
  Proof.
    induction k as [|k IH]; intros H; auto. rewrite toff_S by lia. rewrite (firstn_snoc T []) by lia.
    unfold tblock. rewrite map_app, concat_app, app_length. fold (tblock (firstn k T)). rewrite IH by lia. cbn.
    rewrite app_nil_r, cblock_length; auto. apply nthT. lia.
  Qed.
  Lemma ap_threads k post : k <= length T ->
    ap (concat (map (threadW T) (seq 0 k))) (zeros (toff T k) ++ post) = tblock (firstn k T) ++ post.
  Proof.
    revert post. induction k as [|k IH]; intros post Hk; auto.
    rewrite seq_S, map_app, concat_app, ap_app. cbn [plus map concat]. rewrite app_nil_r, toff_S by lia.
    unfold zeros. rewrite repeat_app, <- app_assoc. fold (zeros (toff T k)). fold (zeros (cellsLen (nth k T []))).
    rewrite IH by lia. unfold threadW. rewrite <- (@tblock_length k) by lia. rewrite ap_cells by (apply nthT; lia).
    rewrite (firstn_snoc T []) by lia. unfold tblock. rewrite map_app, concat_app. cbn. rewrite app_nil_r, <- app_assoc. reflexivity.
  Qed.
  Lemma live_cblock cs : (forall c, In c cs -> okCell c) -> filter live (cblock cs) = ctext cs.
  Proof.
    induction cs as [|c cs IH]; intros H; auto. rewrite cblock_cons, !filter_app, IH by (intros; apply H; right; auto).
    destruct (H c (or_introl eq_refl)) as (_ & H1 & H2).
    rewrite (filter_all _ (fst (fst c))), (filter_none _ (zeros _)).
    - cbn [filter]. destruct (ceq_spec (snd c) NUL) as [E|_]; [congruence|]. cbn [negb app]. unfold ctext. cbn [map concat].
      rewrite <- app_assoc. reflexivity.
    - intros x Hx. apply repeat_spec in Hx. subst x. reflexivity.
    - intros x Hx. apply H1 in Hx. destruct (ceq_spec x NUL); [congruence|reflexivity].
  Qed.
  Lemma live_tblock : filter live (tblock T) = concat (map ctext T).
  Proof.
    assert (W : forall l, (forall t, In t l -> In t T) -> filter live (tblock l) = concat (map ctext l)).
    { induction l as [|t l IH]; intros H; auto. unfold tblock in *. cbn [map concat]. rewrite filter_app, live_cblock, IH; auto.
      - intros; apply H; right; auto.
      - intros c Hc. apply (HT t); auto. apply H. left. auto. }
    apply W. auto.
  Qed.

  Lemma threadsToString_ok sched : T <> [] ->
    (threadsToString sched T = Fuel \/ threadsToString sched T = Ok (concat (map ctext T) ++ [NUL])) /\
    exists sched', threadsToString (sched ++ sched') T = Ok (concat (map ctext T) ++ [NUL]).
  Proof.
    intros Hne. set (n := length T). assert (Hn : 0 < n).
    { unfold n. destruct T as [|t T']; [congruence|cbn; lia]. }
    pose proof threads_indep as HI. fold n in HI.
    assert (Hin : forall l w, In l (map (threadW T) (seq 0 (n - 1))) -> In w l -> fst w < length (repeat NUL (toff T n + 1))).
    { intros l w Hl Hw. apply in_map_iff in Hl as (i & <- & Hi). apply in_seq in Hi. apply threadW_fst in Hw; [|lia].
      rewrite repeat_length. pose proof (@toff_mono (S i) n ltac:(lia)). lia. }
    assert (Eo : toff T n = toff T (n - 1) + cellsLen (nth (n - 1) T [])).
    { replace n with (S (n - 1)) at 1 by lia. apply toff_S. lia. }
    assert (E1 : ap (concat (map (threadW T) (seq 0 (n - 1)))) (repeat NUL (toff T n + 1)) =
                 tblock (firstn (n - 1) T) ++ zeros (cellsLen (nth (n - 1) T [])) ++ [NUL]).
    { rewrite <- (@ap_threads (n - 1)) by lia. f_equal. rewrite Eo. unfold zeros.
      change [NUL] with (repeat NUL 1). rewrite <- !repeat_app. f_equal. lia. }
    assert (Hl : length (tblock (firstn (n - 1) T)) = toff T (n - 1)) by (apply tblock_length; lia).
    assert (E2 : puts (threadW T (n - 1) ++ [(toff T n, NL)])
                   (tblock (firstn (n - 1) T) ++ zeros (cellsLen (nth (n - 1) T [])) ++ [NUL]) = Ok (tblock T ++ [NL])).
    { assert (Et : tblock T = tblock (firstn (n - 1) T) ++ cblock (nth (n - 1) T [])).
      { rewrite <- (firstn_all T) at 1. fold n. replace n with (S (n - 1)) at 1 by lia. rewrite (firstn_snoc T []) by lia.
        unfold tblock. rewrite map_app, concat_app. cbn. rewrite app_nil_r. reflexivity. }
      rewrite puts_ap.
      - f_equal. rewrite ap_app. unfold threadW. rewrite <- Hl. rewrite ap_cells by (apply nthT; lia). cbn [ap fst snd].
        rewrite app_assoc, <- Et. replace (toff T n) with (length (tblock T)).
        2:{ rewrite <- (firstn_all T) at 1. apply tblock_length. auto. }
        apply upd_at.
      - intros w Hw. rewrite !app_length, Hl. unfold zeros. rewrite repeat_length. cbn [length].
        apply in_app_or in Hw as [Hw|[<-|[]]]; [|cbn; lia].
        apply threadW_fst in Hw; [|lia]. replace (S (n - 1)) with n in Hw by lia. lia. }
    assert (E3 : filter live (tblock T ++ [NL]) = concat (map ctext T) ++ [NL]) by (rewrite filter_app, live_tblock; auto).
    assert (FIN : forall sc ls', runT w_step w_fin sc (map (threadW T) (seq 0 (n - 1))) (repeat NUL (toff T n + 1))
               = Ok (ls', ap (concat (map (threadW T) (seq 0 (n - 1)))) (repeat NUL (toff T n + 1))) ->
             threadsToString sc T = Ok (concat (map ctext T) ++ [NUL])).
    { intros sc ls' E. unfold threadsToString. fold n. destruct (Nat.eqb_spec n 0); [lia|]. rewrite E. cbn [bind]. rewrite E1, E2. cbn [bind].
      rewrite E3, removelast_snoc. rewrite app_length. cbn [length]. rewrite Nat.add_1_r. auto. }
    split.
    - destruct (@writers_ok sched _ _ HI Hin) as [E|(ls' & E)].
      + left. unfold threadsToString. fold n. destruct (Nat.eqb_spec n 0); [lia|]. rewrite E. reflexivity.
      + right. eauto.
    - destruct (@writers_finish sched _ _ HI Hin) as (sc & ls' & E). exists sc. eauto.
  Qed.
End Threads.

(** *** The parts *)
Section Parts.
  Variable E : Type.
  Variable toStr : list nat -> list E -> res text.
  Variable lineOf : E -> text.
  Variable good : E -> Prop.
  Hypothesis HS : forall sched A, A <> [] -> (forall a, In a A -> good a) ->
    (toStr sched A = Fuel \/ toStr sched A = Ok (concat (map lineOf A) ++ [NUL])) /\
    exists sched', toStr (sched ++ sched') A = Ok (concat (map lineOf A) ++ [NUL]).
  Variable A : list E.
  Hypothesis HA : forall a, In a A -> good a.
  Variable bsize : nat.
  Hypothesis Hb : 0 < bsize.

  Lemma part_split offset : offset < length A ->
    let part := firstn (Nat.min (offset + bsize) (length A) - offset) (skipn offset A) in
    part ++ skipn (offset + bsize) A = skipn offset A /\ part <> [] /\ forall a, In a part -> good a.
  Proof.
    intros L part. assert (Ep : part ++ skipn (offset + bsize) A = skipn offset A).
    { unfold part. destruct (Nat.min_spec (offset + bsize) (length A)) as [[L2 ->]|[L2 ->]].
      - replace (offset + bsize - offset) with bsize by lia. rewrite skipn_add. apply firstn_skipn.
      - rewrite (@skipn_all2 _ (offset + bsize) A) by lia. rewrite app_nil_r. apply firstn_all2. rewrite skipn_length. lia. }
    split; auto. split.
    - intros F. rewrite F in Ep. cbn in Ep. assert (HL : length (skipn (offset + bsize) A) = length (skipn offset A)) by congruence.
      rewrite !skipn_length in HL. lia.
    - intros a Ha. apply HA. rewrite <- (firstn_skipn offset A), <- Ep. apply in_or_app; right. apply in_or_app; auto.
  Qed.
  Lemma parts_ok scheds fuel : forall offset, length A - offset < fuel ->
    writePartsG toStr fuel bsize offset scheds A = Fuel \/
    writePartsG toStr fuel bsize offset scheds A = Ok (concat (map lineOf (skipn offset A))).
  Proof.
    induction fuel as [|f IH]; intros offset Hf; [lia|]. cbn [writePartsG].
    destruct (Nat.ltb_spec offset (length A)) as [L|L].
    2:{ right. rewrite skipn_all2 by auto. reflexivity. }
    destruct (part_split L) as (Ep & Hne & Hok). set (part := firstn _ (skipn offset A)) in *.
    destruct (@HS (scheds offset) part Hne Hok) as [[->| ->] _]; [left; reflexivity|]. cbn [bind].
    destruct (IH (offset + bsize)) as [->| ->]; [lia|left; reflexivity|]. cbn [bind]. right.
    rewrite removelast_snoc, <- Ep, map_app, concat_app. auto.
  Qed.
  Lemma parts_ext s1 s2 : forall fuel offset, (forall o, offset <= o -> s1 o = s2 o) ->
    writePartsG toStr fuel bsize offset s1 A = writePartsG toStr fuel bsize offset s2 A.
  Proof.
    induction fuel as [|f IH]; intros offset H; [reflexivity|]. cbn [writePartsG]. rewrite (H offset) by auto.
    rewrite (IH (offset + bsize)); [reflexivity|intros; apply H; lia].
  Qed.
  Lemma parts_finish scheds fuel : forall offset, length A - offset < fuel ->
    exists more, writePartsG toStr fuel bsize offset (fun o => scheds o ++ more o) A = Ok (concat (map lineOf (skipn offset A))).
  Proof.
    induction fuel as [|f IH]; intros offset Hf; [lia|]. cbn [writePartsG].
    destruct (Nat.ltb_spec offset (length A)) as [L|L].
    2:{ exists (fun _ => []). rewrite skipn_all2 by auto. reflexivity. }
    destruct (IH (offset + bsize)) as (more & Em); [lia|].
    destruct (part_split L) as (Ep & Hne & Hok). set (part := firstn _ (skipn offset A)) in *.
    destruct (@HS (scheds offset) part Hne Hok) as [_ (sc & Es)].
    exists (fun o => if o =? offset then sc else more o). rewrite Nat.eqb_refl, Es. cbn [bind].
    rewrite (@parts_ext _ (fun o => scheds o ++ more o)), Em.
    - cbn [bind]. rewrite removelast_snoc, <- Ep, map_app, concat_app. auto.
    - intros o Ho. destruct (Nat.eqb_spec o offset); [lia|auto].
  Qed.
  Lemma fileG_ok scheds : A <> [] ->
    (writeFileG toStr bsize scheds A = Fuel \/ writeFileG toStr bsize scheds A = Ok (concat (map lineOf A))) /\
    exists more, writeFileG toStr bsize (fun o => scheds o ++ more o) A = Ok (concat (map lineOf A)).
  Proof.
    intros Hne. unfold writeFileG. assert (Ez : length A =? 0 = false).
    { apply Nat.eqb_neq. intros F. apply length_zero_iff_nil in F. auto. }
    rewrite Ez. split.
    - destruct (@parts_ok scheds (S (length A)) 0) as [->| ->]; auto. lia.
    - apply (@parts_finish scheds (S (length A)) 0). lia.
  Qed.
End Parts.

(** *** Decimal numbers *)
Lemma digit_code d : d < 10 -> nat_of_ascii (digit d) = 48 + d.
Proof. intros H. do 10 (destruct d as [|d]; [reflexivity|]). lia. Qed.
Lemma luF_length fuel : forall n, length (luF fuel n) <= fuel.
Proof.
  induction fuel as [|f IH]; intros n; cbn; auto. destruct (n <? 10)%N; [cbn; lia|]. rewrite app_length. cbn. specialize (IH (n / 10)%N). lia.
Qed.
Lemma luF_digit fuel : forall n c, In c (luF fuel n) -> exists d, d < 10 /\ c = digit d.
Proof.
  induction fuel as [|f IH]; intros n c; cbn; [tauto|]. destruct (N.ltb_spec n 10) as [L|L].
  - intros [<-|[]]. exists (N.to_nat n). split; auto. lia.
  - intros H. apply in_app_or in H as [H|[<-|[]]]; eauto. exists (N.to_nat (n mod 10)). split; auto.
    pose proof (N.mod_lt n 10 ltac:(lia)). lia.
Qed.
Lemma luF_value fuel : forall n, (n < 10 ^ N.of_nat fuel)%N -> value (luF fuel n) = n.
Proof.
  induction fuel as [|f IH]; intros n H.
  - cbn in *. lia.
  - cbn [luF]. destruct (N.ltb_spec n 10) as [L|L].
    + unfold value. cbn [fold_left]. rewrite digit_code by lia. replace (48 + N.to_nat n - 48) with (N.to_nat n) by lia. rewrite N2Nat.id. reflexivity.
    + unfold value. rewrite fold_left_app. fold (value (luF f (n / 10))). rewrite IH.
      * cbn [fold_left]. pose proof (N.mod_lt n 10 ltac:(lia)) as Hm. rewrite digit_code by lia.
        pose proof (N.div_mod n 10 ltac:(lia)) as Hd.
        rewrite (Nat.add_comm 48), Nat.add_sub, N2Nat.id. lia.
      * rewrite Nat2N.inj_succ, N.pow_succ_r' in H. apply N.div_lt_upper_bound; [lia|exact H].
Qed.

Lemma luF_nonempty fuel n : 0 < fuel -> luF fuel n <> [].
Proof. destruct fuel as [|f]; [lia|]. intros _. cbn. destruct (n <? 10)%N; [discriminate|]. intros F. apply app_eq_nil in F as []. discriminate. Qed.
Lemma digit_zero d : d < 10 -> digit d = "0"%char -> d = 0.
Proof. intros H. do 10 (destruct d as [|d]; [reflexivity || discriminate|]). lia. Qed.
Lemma luF_lead fuel : forall n, (n < 10 ^ N.of_nat fuel)%N -> hd "0"%char (luF fuel n) = "0"%char -> n = 0%N.
Proof.
  induction fuel as [|f IH]; intros n H E.
  - cbn in H. lia.
  - cbn [luF] in E. destruct (N.ltb_spec n 10) as [L|L].
    + cbn [hd] in E. apply digit_zero in E; lia.
    + assert (Hd : (n / 10 < 10 ^ N.of_nat f)%N).
      { rewrite Nat2N.inj_succ, N.pow_succ_r' in H. apply N.div_lt_upper_bound; [lia|exact H]. }
      assert (H1 : (1 <= n / 10)%N) by (apply N.div_le_lower_bound; lia).
      specialize (IH (n / 10)%N Hd). destruct f as [|f].
      * cbn in Hd. rewrite N.lt_1_r in Hd. rewrite Hd in H1. lia.
      * pose proof (@luF_nonempty (S f) (n / 10)%N ltac:(lia)) as Hne.
        destruct (luF (S f) (n / 10)%N) as [|c l] eqn:El; [congruence|]. cbn [hd app] in *. rewrite (IH E) in H1. lia.
Qed.
Lemma luText_decimal n : word64 n -> decimal n (luText n).
Proof.
  intros H. assert (H20 : (n < 10 ^ N.of_nat 20)%N).
  { unfold word64 in H. eapply N.lt_trans; [exact H|]. reflexivity. }
  split; [|split; [|split]].
  - apply luF_nonempty. lia.
  - intros c Hc. apply luF_digit in Hc as (d & Hd & ->). unfold isDigit. rewrite digit_code by auto. lia.
  - apply luF_value. auto.
  - intros E. apply luF_lead in E; auto. subst n. reflexivity.
Qed.
Lemma luText_length n : length (luText n) <= 20.
Proof. apply luF_length. Qed.
Lemma luText_nonzero n c : In c (luText n) -> c <> NUL.
Proof.
  intros H F. apply luF_digit in H as (d & Hd & E). rewrite F in E. apply (f_equal nat_of_ascii) in E. rewrite digit_code in E by auto. cbn in E. lia.
Qed.
Lemma okCell_lu n sep : sep <> NUL -> okCell (luText n, luW, sep).
Proof.
  intros H. split; [|split]; cbn [fst snd]; auto.
  - pose proof (luText_length n). unfold luW. lia.
  - apply luText_nonzero.
Qed.

(** *** Edges *)
Definition eLine (e : N * N) : text := luText (fst e) ++ [SP] ++ luText (snd e) ++ [NL].
Definition wLine (e : wghEdge) : text := luText (fst (fst e)) ++ [SP] ++ luText (snd (fst e)) ++ [SP] ++ snd e ++ [NL].
Lemma map_concat_flat {A B C} (f : A -> list B) (g : B -> list C) l :
  concat (map g (flat_map f l)) = concat (map (fun a => concat (map g (f a))) l).
Proof. induction l as [|a l IH]; auto. cbn [flat_map map concat]. rewrite map_app, concat_app, IH. reflexivity. Qed.
Lemma edgeString_ok sched es : es <> [] ->
  (edgeSeqToString sched es = Fuel \/ edgeSeqToString sched es = Ok (concat (map eLine es) ++ [NUL])) /\
  exists sched', edgeSeqToString (sched ++ sched') es = Ok (concat (map eLine es) ++ [NUL]).
Proof.
  intros Hne. assert (E : concat (map eLine es) = concat (map ctext (flat_map edgeThreads es))).
  { rewrite map_concat_flat. f_equal. apply map_ext. intros [u v]. unfold eLine, ctext, edgeThreads. cbn [map concat fst snd]. rewrite !app_nil_r, <- !app_assoc. reflexivity. }
  rewrite E. apply threadsToString_ok.
  - intros t c Ht Hc. apply in_flat_map in Ht as ([u v] & _ & Ht). unfold edgeThreads in Ht.
    destruct Ht as [<-|[<-|[]]]; destruct Hc as [<-|[]]; apply okCell_lu; discriminate.
  - destruct es as [|[u v] es]; [congruence|]. discriminate.
Qed.
Definition okWgh (w : text) : Prop := length w <= 18 /\ forall c, In c w -> c <> NUL.
Lemma wghString_ok sched es : es <> [] -> (forall e, In e es -> okWgh (snd e)) ->
  (wghEdgeSeqToString sched es = Fuel \/ wghEdgeSeqToString sched es = Ok (concat (map wLine es) ++ [NUL])) /\
  exists sched', wghEdgeSeqToString (sched ++ sched') es = Ok (concat (map wLine es) ++ [NUL]).
Proof.
  intros Hne Hw. assert (E : concat (map wLine es) = concat (map ctext (flat_map wghThreads es))).
  { rewrite map_concat_flat. f_equal. apply map_ext. intros [[u v] w]. unfold wLine, ctext, wghThreads. cbn [map concat fst snd]. rewrite !app_nil_r, <- !app_assoc. reflexivity. }
  rewrite E. apply threadsToString_ok.
  - intros t c Ht Hc. apply in_flat_map in Ht as ([[u v] w] & He & Ht). unfold wghThreads in Ht. destruct (Hw _ He) as (L & N). cbn [snd] in *.
    destruct Ht as [<-|[]]; destruct Hc as [<-|[<-|[<-|[]]]]; try (apply okCell_lu; discriminate).
    split; [|split]; cbn [fst snd]; auto. discriminate.
  - destruct es as [|[[u v] w] es]; [congruence|]. discriminate.
Qed.

(** *** The lines determine the edges *)
Lemma split_sep (c : ascii) s1 : forall s2 r1 r2, ~ In c s1 -> ~ In c s2 -> s1 ++ c :: r1 = s2 ++ c :: r2 -> s1 = s2 /\ r1 = r2.
Proof.
  induction s1 as [|a s1 IH]; intros [|b s2] r1 r2 H1 H2 E; cbn in *.
  - split; congruence.
  - injection E as -> _. tauto.
  - injection E as -> _. tauto.
  - injection E as -> E. destruct (IH s2 r1 r2) as [-> ->]; auto.
Qed.
Lemma decimal_not s n c : decimal n s -> (nat_of_ascii c < 48)%nat -> ~ In c s.
Proof. intros (_ & H & _) L F. apply H in F. unfold isDigit in F. lia. Qed.
