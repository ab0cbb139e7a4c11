(** The append buffers lose nothing and stay in bounds. *)
From Verif Require Import Base Num KdModel SplitModel SplitProofs ParBufModel.
Set Implicit Arguments.

Section PB.
  Variable T : Type.
  Variable szT : nat.
  Hypothesis Hsz : 8 <= szT.

  (** [b] holds exactly the values [vs] in order. *)
  Definition holds (b : pbuf T) (vs : list T) : Prop :=
    exists (full : list (list T)) (last : list T),
      blks b = map (map Some) full ++ [map Some last ++ repeat None (cur b - length last)] /\
      vs = concat full ++ last /\ length last = cnt b /\ cnt b <= cur b /\ 1 <= cur b /\
      firstn (length full) (psz b) = map (fun l => Some (length l)) full /\
      length (psz b) = total b + 1 /\ length full + 1 <= total b /\ total b <= pcap b.

  Lemma create_holds n : 1 <= n -> holds (create T n) [].
  Proof.
    intros Hn. exists [], []. unfold create; simpl. rewrite Nat.sub_0_r. repeat split; auto; lia.
  Qed.

  Lemma upd_firstn B i (x : B) l n : n <= i -> firstn n (upd i x l) = firstn n l.
  Proof.
    revert i n; induction l as [|a l IH]; intros [|i] [|n] H; simpl; auto; try lia.
    rewrite IH; auto; lia.
  Qed.
  Lemma firstn_upd_S B i (x : B) l : i < length l -> firstn (S i) (upd i x l) = firstn i l ++ [x].
  Proof.
    intros H. rewrite (@firstn_S_nth _ i _ x) by (rewrite upd_length; auto).
    rewrite upd_firstn by auto. rewrite nth_upd_eq; auto.
  Qed.

  Lemma upd_app_last B (l : list B) x y : upd (length l) y (l ++ [x]) = l ++ [y].
  Proof. induction l; simpl; auto. rewrite IHl; auto. Qed.

  Lemma upd_mid (l : list T) k v : 1 <= k ->
    upd (length l) (Some v) (map Some l ++ repeat None k) = map Some (l ++ [v]) ++ repeat None (k - 1).
  Proof.
    intros Hk. rewrite map_app. simpl.
    induction l as [|a l IH]; simpl.
    - destruct k; simpl; [lia|]. rewrite Nat.sub_0_r. auto.
    - rewrite IH. auto.
  Qed.

  Lemma push_holds b vs v : holds b vs -> exists b', push szT b v = Ok b' /\ holds b' (vs ++ [v]).
  Proof.
    intros (full & last & Hb & Hvs & Hl & Hc & Hcur & Hp & Hlen & Hu & Hcap).
    assert (HU : used b = length full + 1).
    { unfold used. rewrite Hb, app_length, map_length. simpl. lia. }
    unfold push, increment.
    destruct (Nat.ltb_spec (cur b) (cnt b + 1)) as [Hfull|Hroom].
    - (* block full *)
      assert (Ec : cnt b = cur b) by lia.
      unfold finalize, store. rewrite HU. replace (length full + 1 - 1) with (length full) by lia.
      rewrite Hlen. destruct (Nat.ltb_spec (length full) (total b + 1)); [|lia]. cbn [bind].
      set (b1 := {| blks := blks b; pcap := pcap b; psz := upd (length full) (Some (cnt b)) (psz b);
                    total := total b; cur := cur b; cnt := cnt b |}).
      assert (HU1 : used b1 = length full + 1) by exact HU.
      assert (P1 : firstn (length full + 1) (psz b1) = map (fun l => Some (length l)) (full ++ [last])).
      { replace (length full + 1) with (S (length full)) by lia. unfold b1; cbn [psz].
        rewrite firstn_upd_S by lia. rewrite Hp, map_app. simpl. rewrite Hl. auto. }
      (* the state after making room in the parent arrays *)
      assert (G : exists b2, (if used b1 <? total b1 then Ok b1 else incrementParent szT b1) = Ok b2 /\
        blks b2 = blks b /\ cur b2 = cur b /\
        firstn (length full + 1) (psz b2) = map (fun l => Some (length l)) (full ++ [last]) /\
        length (psz b2) = total b2 + 1 /\ length full + 2 <= total b2 /\ total b2 <= pcap b2).
      { rewrite HU1. unfold b1 at 1. cbn [total].
        destruct (Nat.ltb_spec (length full + 1) (total b)).
        - exists b1. split; auto. repeat split; auto.
          + unfold b1; cbn [psz total]. rewrite upd_length; auto.
          + unfold b1; cbn [total]. lia.
        - assert (Et : total b = length full + 1) by lia.
          unfold incrementParent. rewrite HU1. unfold b1 at 1 2; cbn [total psz].
          assert (Hcap2 : total b * 2 <= szT * total b * 2 / 8).
          { apply Nat.div_le_lower_bound; nia. }
          destruct (Nat.ltb_spec (szT * total b * 2 / 8) (length full + 1)); [lia|].
          rewrite upd_length, Hlen.
          destruct (Nat.ltb_spec (total b + 1) (length full + 1)); [lia|].
          eexists. split; [reflexivity|]. cbn [blks cur psz total pcap].
          rewrite P1. repeat split; auto.
          + rewrite firstn_app, map_length, app_length. simpl.
            replace (length full + 1 - (length full + 1)) with 0 by lia. simpl. rewrite app_nil_r.
            apply firstn_all2. rewrite map_length, app_length; simpl; lia.
          + rewrite app_length, map_length, repeat_length, app_length. unfold b1; cbn [total]. simpl. lia.
          + unfold b1; cbn [total]. lia. }
      destruct G as (b2 & E2 & B2 & C2 & P2 & L2 & T2 & Q2). rewrite E2. cbn [bind].
      assert (HU2 : used b2 = length full + 1) by (unfold used; rewrite B2; exact HU).
      rewrite HU2. destruct (Nat.ltb_spec (length full + 1) (pcap b2)); [|lia]. cbn [bind].
      unfold used; cbn [blks cnt]. rewrite app_length. cbn [length].
      fold (used b2). rewrite HU2. replace (length full + 1 + 1 - 1) with (length full + 1) by lia.
      assert (LB : length (blks b2) = length full + 1) by exact HU2.
      rewrite nth_error_app2 by lia. rewrite LB, Nat.sub_diag. cbn [nth_error].
      unfold store. rewrite repeat_length, C2.
      destruct (Nat.ltb_spec (1 - 1) (cur b * 2)); [|lia]. cbn [bind].
      eexists. split; [reflexivity|].
      exists (full ++ [last]), [v]. cbn [blks cur cnt psz total pcap].
      rewrite <- LB at 1. rewrite upd_app_last.
      replace (1 - 1) with 0 by lia.
      assert (ER : upd 0 (Some v) (repeat None (cur b * 2)) = Some v :: repeat None (cur b * 2 - 1)).
      { destruct (cur b * 2) as [|m] eqn:Em; [lia|]. simpl. rewrite Nat.sub_0_r. auto. }
      rewrite ER, B2, Hb. repeat split; auto; try lia.
      + rewrite map_app. simpl. replace (cur b - length last) with 0 by lia. simpl. rewrite app_nil_r. auto.
      + rewrite concat_app, Hvs. simpl. rewrite app_nil_r, ?app_assoc. auto.
      + rewrite app_length. simpl. auto.
      + rewrite app_length. simpl. lia.
    - (* room in the current block *)
      cbn [bind]. unfold used; cbn [blks cnt]. fold (used b). rewrite HU.
      replace (length full + 1 - 1) with (length full) by lia.
      rewrite Hb, nth_error_app2 by (rewrite map_length; lia). rewrite map_length, Nat.sub_diag.
      cbn [nth_error]. unfold store. rewrite app_length, map_length, repeat_length.
      replace (cnt b + 1 - 1) with (length last) by lia.
      destruct (Nat.ltb_spec (length last) (length last + (cur b - length last))); [|lia]. cbn [bind].
      eexists. split; [reflexivity|]. exists full, (last ++ [v]). cbn [blks cur cnt psz total pcap].
      rewrite upd_mid by lia. repeat split; auto; try lia.
      + replace (length full) with (length (map (map Some) full)) by (apply map_length).
        rewrite upd_app_last. rewrite app_length. simpl.
        replace (cur b - (length last + 1)) with (cur b - length last - 1) by lia. auto.
      + rewrite Hvs, ?app_assoc. auto.
      + rewrite app_length; simpl; lia.
  Qed.

  Lemma pushAll_holds vs : forall b us, holds b us ->
    exists b', pushAll szT b vs = Ok b' /\ holds b' (us ++ vs).
  Proof.
    induction vs as [|v vs IH]; intros b us H; simpl.
    - exists b. rewrite app_nil_r. auto.
    - destruct (push_holds v H) as (b1 & E1 & H1). rewrite E1. cbn [bind].
      destruct (IH _ _ H1) as (b2 & E2 & H2). exists b2. split; auto.
      rewrite <- app_assoc in H2. auto.
  Qed.

  Lemma allSome_map B (l : list B) : allSome (map Some l) = Ok l.
  Proof. induction l; simpl; auto. rewrite IHl. auto. Qed.

  (** After finalize, a buffer's writes are its values at consecutive places. *)
  Lemma finalize_holds b vs : holds b vs ->
    exists b', finalize b = Ok b' /\ bsize b' = Ok (length vs) /\
      forall off, bufWrites off b' = Ok (combine (seq off (length vs)) vs).
  Proof.
    intros (full & last & Hb & Hvs & Hl & Hc & Hcur & Hp & Hlen & Hu & Hcap).
    assert (HU : used b = length full + 1).
    { unfold used. rewrite Hb, app_length, map_length. simpl. lia. }
    unfold finalize, store. rewrite HU. replace (length full + 1 - 1) with (length full) by lia.
    rewrite Hlen. destruct (Nat.ltb_spec (length full) (total b + 1)); [|lia]. cbn [bind].
    eexists. split; [reflexivity|].
    set (b1 := {| blks := blks b; pcap := pcap b; psz := upd (length full) (Some (cnt b)) (psz b);
                  total := total b; cur := cur b; cnt := cnt b |}).
    assert (HU1 : used b1 = length full + 1) by exact HU.
    assert (P1 : firstn (length full + 1) (psz b1) = map Some (map (@length T) (full ++ [last]))).
    { replace (length full + 1) with (S (length full)) by lia. unfold b1; cbn [psz].
      rewrite firstn_upd_S by lia. rewrite Hp, map_map, map_app. simpl. rewrite Hl. auto. }
    assert (Vlen : length vs = list_sum (map (@length T) full) + length last).
    { rewrite Hvs, app_length. f_equal. clear. induction full; simpl; auto. rewrite app_length; lia. }
    split.
    - unfold bsize. rewrite HU1. replace (length full + 1 - 1) with (length full) by lia.
      unfold b1; cbn [psz cnt]. rewrite upd_firstn by auto. rewrite Hp.
      rewrite <- (map_map (@length T) Some), allSome_map. cbn [bind]. f_equal. lia.
    - intros off. unfold bufWrites. rewrite HU1.
      unfold b1 at 1; cbn [psz]. rewrite upd_length, Hlen.
      destruct (Nat.ltb_spec (total b + 1) (length full + 1 + 1)); [lia|].
      rewrite P1, allSome_map. cbn [bind].
      pose proof (scan_spec (map (@length T) (full ++ [last])) 0) as (S1 & S2 & S3).
      destruct (scan 0 (map (@length T) (full ++ [last]))) as [pre tot]. cbn [fst snd] in *.
      rewrite map_length, app_length in S2, S3. cbn [length] in S2, S3.
      set (L := full ++ [last]) in *.
      assert (LL : length L = length full + 1) by (unfold L; rewrite app_length; auto).
      assert (PS : forall i, i <= length L -> nth i (pre ++ [tot]) 0 = list_sum (firstn i (map (@length T) L))).
      { intros i Hi. destruct (Nat.lt_ge_cases i (length full + 1)) as [Hlt|Hge].
        - rewrite app_nth1 by lia. rewrite S3 by lia. auto.
        - assert (i = length full + 1) by lia. subst i.
          rewrite app_nth2 by lia. rewrite S2, Nat.sub_diag. cbn [nth]. rewrite S1. simpl.
          rewrite firstn_all2; auto. rewrite map_length. lia. }
      assert (CB : forall i, i < length L ->
        firstn (length (nth i L [])) (nth i (blks b1) []) = map Some (nth i L [])).
      { intros i Hi. unfold b1; cbn [blks]. rewrite Hb. unfold L in *.
        destruct (Nat.lt_ge_cases i (length full)) as [Hlt|Hge].
        - rewrite (app_nth1 full) by auto. rewrite app_nth1 by (rewrite map_length; auto).
          change (@nil (option T)) with (map (@Some T) []). rewrite map_nth.
          apply firstn_all2. rewrite map_length. auto.
        - assert (i = length full) by lia. subst i.
          rewrite (app_nth2 full), Nat.sub_diag by auto. cbn [nth].
          rewrite app_nth2, map_length, Nat.sub_diag by (rewrite map_length; auto). cbn [nth].
          rewrite firstn_app, map_length, Nat.sub_diag. simpl. rewrite app_nil_r.
          apply firstn_all2. rewrite map_length. auto. }
      assert (E : map (fun i => 
          match allSome (firstn (nth (i + 1) (pre ++ [tot]) 0 - nth i (pre ++ [tot]) 0) (nth i (blks b1) [])) with
          | Ok l => if length l =? (nth (i + 1) (pre ++ [tot]) 0 - nth i (pre ++ [tot]) 0)
                    then Some (combine (seq (off + nth i (pre ++ [tot]) 0) (length l)) l) else None
          | _ => None
          end) (seq 0 (length full + 1))
        = map Some (map (fun i => combine (seq (off + list_sum (firstn i (map (@length T) L)))
             (length (nth i L []))) (nth i L [])) (seq 0 (length full + 1)))).
      { rewrite map_map. apply map_ext_in. intros i Hi. apply in_seq0 in Hi.
        rewrite !PS by lia. replace (i + 1) with (S i) by lia.
        assert (EN : nth i (map (@length T) L) 0 = length (nth i L []))
          by (change 0 with (length (@nil T)); apply map_nth).
        assert (D : list_sum (firstn (S i) (map (@length T) L)) - list_sum (firstn i (map (@length T) L))
                    = length (nth i L [])).
        { rewrite (@firstn_S_nth _ i (map (@length T) L) 0) by (rewrite map_length; lia).
          rewrite list_sum_app, EN. simpl. lia. }
        rewrite D.
        rewrite CB by lia. rewrite allSome_map, Nat.eqb_refl. auto. }
      rewrite E, allSome_map. cbn [bind]. f_equal.
      rewrite <- LL.
      assert (G : forall n, n <= length L ->
        concat (map (fun i => combine (seq (off + list_sum (firstn i (map (@length T) L)))
             (length (nth i L []))) (nth i L [])) (seq 0 n))
        = combine (seq off (length (concat (firstn n L)))) (concat (firstn n L))).
      { induction n as [|n IH]; intros Hn; [reflexivity|].
        rewrite seq_S, map_app, concat_app, IH by lia.
        rewrite (@firstn_S_nth _ n L []) by lia. rewrite concat_app.
        cbn [map concat Nat.add]. rewrite !app_nil_r, combine_seq_app.
        f_equal. f_equal. f_equal. f_equal. rewrite firstn_map. clear.
        induction (firstn n L); simpl; auto. rewrite app_length; lia. }
      rewrite G by auto. rewrite firstn_all.
      assert (EV : concat L = vs). { unfold L. rewrite concat_app, Hvs. simpl. rewrite app_nil_r. auto. }
      rewrite EV. auto.
  Qed.

  (** Collecting buffers that hold [vss]. *)
  Lemma collect_writes bufs vss : Forall2 holds bufs vss ->
    collectWrites bufs = Ok (length (concat vss), combine (seq 0 (length (concat vss))) (concat vss)).
  Proof.
    intros HF. unfold collectWrites.
    assert (G : exists fb, mapM (@finalize T) bufs = Ok fb /\ mapM (@bsize T) fb = Ok (map (@length T) vss) /\
      forall off, let vec := fst (scan off (map (@length T) vss)) in
        exists ws, mapM (fun p => bufWrites (fst p) (snd p)) (combine vec fb) = Ok ws /\
          concat ws = combine (seq off (length (concat vss))) (concat vss)).
    { induction HF as [|b vs bufs vss Hb HF IH].
      - exists []. simpl. split; auto. split; auto. intros off. exists []. auto.
      - destruct (finalize_holds Hb) as (b' & E1 & E2 & E3). destruct IH as (fb & F1 & F2 & F3).
        exists (b' :: fb). simpl. rewrite E1, F1. cbn [bind]. split; auto. split.
        + simpl. rewrite E2, F2. auto.
        + intros off. destruct (F3 (off + length vs)) as (ws & W1 & W2).
          destruct (scan (off + length vs) (map (@length T) vss)) as [p t]. cbn [fst] in *.
          simpl. rewrite E3. cbn [bind]. simpl in W1. rewrite W1. cbn [bind].
          eexists. split; [reflexivity|]. simpl. rewrite W2, combine_seq_app. auto. }
    destruct G as (fb & F1 & F2 & F3). rewrite F1. cbn [bind]. rewrite F2. cbn [bind].
    destruct (F3 0) as (ws & W1 & W2).
    pose proof (scan_spec (map (@length T) vss) 0) as (S1 & _).
    destruct (scan 0 (map (@length T) vss)) as [vec tot]. cbn [fst snd] in *.
    rewrite W1. cbn [bind]. rewrite W2. rewrite S1. simpl. 
    assert (EL : list_sum (map (@length T) vss) = length (concat vss)).
    { clear. induction vss; simpl; auto. rewrite app_length; lia. }
    rewrite EL. auto.
  Qed.

  (** Full statement: buffers created with positive sizes, any values pushed,
      any order of the copy writes. *)
  Lemma parbuf_correct (inits : list nat) (vss : list (list T)) :
    length inits = length vss -> (forall n, In n inits -> 1 <= n) ->
    exists bufs tot ws,
      mapM (fun p => pushAll szT (create T (fst p)) (snd p)) (combine inits vss) = Ok bufs /\
      collectWrites bufs = Ok (tot, ws) /\
      forall ws', Permutation ws' ws -> collect tot ws' = Ok (map Some (concat vss)).
  Proof.
    intros HL HI.
    assert (G : exists bufs, mapM (fun p => pushAll szT (create T (fst p)) (snd p)) (combine inits vss) = Ok bufs /\
                Forall2 holds bufs vss).
    { revert vss HL. induction inits as [|n inits IH]; intros [|vs vss] HL; simpl in *; try lia.
      - exists []. auto.
      - destruct (@pushAll_holds vs (create T n) []) as (b & E & Hb).
        { apply create_holds. apply HI; auto. }
        destruct (IH ltac:(auto) vss ltac:(lia)) as (bufs & E' & HF).
        rewrite E. cbn [bind]. rewrite E'. cbn [bind]. exists (b :: bufs). split; auto. }
    destruct G as (bufs & E & HF). exists bufs. do 2 eexists. split; eauto.
    split; [apply collect_writes; eauto|]. intros ws' HP. unfold collect.
    apply runWrites_target. auto.
  Qed.
End PB.

(** A buffer created with size 0 (the code passes n/workers) writes outside its
    block at the first append. *)
Lemma push_init0 T szT (v : T) : push szT (create T 0) v = UB.
Proof. reflexivity. Qed.
