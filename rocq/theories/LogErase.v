(** Bulk erasure from the logarithmic forest, its queries, and histories. *)
From Coq Require Import ZArith.
From Verif Require Import Base Num KdModel KdSpec RangeModel RangeProofs BatchModel BatchSlice BatchTree BatchMedian BatchPack BatchErase BatchObj BatchRun
  LogModel LogPlan LogExec LogInsert.
Set Implicit Arguments.

Section ClearBits.
  Lemma clearbit_sum m k : m = Nat.clearbit m k + bitv (Nat.testbit m k) k.
  Proof.
    rewrite Nat.clearbit_spec'. unfold bitv. destruct (Nat.testbit m k) eqn:E.
    - assert (L : Nat.ldiff (2 ^ k) m = 0).
      { apply Nat.bits_inj. intros j. rewrite Nat.ldiff_spec, Nat.bits_0, Nat.pow2_bits_eqb.
        destruct (Nat.eqb_spec k j) as [<-|]; [rewrite E|]; reflexivity. }
      rewrite <- (Nat.sub_nocarry_ldiff m (2 ^ k)) by exact L.
      assert (2 ^ k <= m); [|lia].
      apply Nat.ldiff_le in L. exact L.
    - rewrite Nat.add_0_r. apply Nat.bits_inj. intros j. rewrite Nat.ldiff_spec, Nat.pow2_bits_eqb.
      destruct (Nat.eqb_spec k j) as [<-|]; [rewrite E; reflexivity|]. rewrite andb_true_r. reflexivity.
  Qed.
  Lemma clearbits_sum ks : NoDup ks -> forall m,
    m = fold_left Nat.clearbit ks m + list_sum (map (fun k => bitv (Nat.testbit m k) k) ks).
  Proof.
    induction 1 as [|k ks NI ND IH]; intros m; cbn [fold_left map list_sum fold_right]; [lia|].
    change (fold_right Nat.add 0) with list_sum. rewrite (clearbit_sum m k) at 1. rewrite (IH (Nat.clearbit m k)) at 1.
    rewrite (map_ext_in (fun j => bitv (Nat.testbit (Nat.clearbit m k) j) j) (fun j => bitv (Nat.testbit m j) j)); [lia|].
    intros j Hj. rewrite Nat.clearbit_neq by (intros ->; contradiction). reflexivity.
  Qed.
  Lemma clearbits_bit ks : forall m j,
    Nat.testbit (fold_left Nat.clearbit ks m) j = Nat.testbit m j && negb (existsb (Nat.eqb j) ks).
  Proof.
    induction ks as [|k ks IH]; intros m j; cbn; [rewrite andb_true_r; auto|].
    rewrite IH, Nat.clearbit_eqb, negb_orb, <- andb_assoc, (Nat.eqb_sym k j). reflexivity.
  Qed.
End ClearBits.

Section Erase.
  Variable N : Num.
  Variable ok : nT N -> Prop.
  Hypothesis OL : OrdLaws N ok.
  Hypothesis EL : EqLaw N ok.
  Variable dim : nat.
  Hypothesis Hdim : 0 < dim.
  Variable A : Type.
  Variable pt : A -> list (nT N).
  Notation okI := (okItem N ok dim pt).
  Notation tOk := (treeOk ok dim pt).
  Notation lt := (ltree N A).
  Variable B : nat.
  Hypothesis HB : 0 < B.

  (** Is [x] one of the requests? *)
  Definition wanted (Q : list A) (x : A) : bool := existsb (fun q => peq N dim (pt q) (pt x)) Q.

  Section Phase1.
  Variable part : (A -> bool) -> list A -> list A * list A.
  Hypothesis Hpart : part_ok part.
  Variable lfirst : nat -> nat -> bool.
  Variable Q : list A.
  Record erased (b b1 : btree N A) : Prop := {
    er_ok : tOk b1; er_cap : bt_cap b1 = bt_cap b; er_items : bt_items b1 = bt_items b;
    er_rem : exists rem, Permutation (blive b) (rem ++ blive b1) /\
       forall x, In x rem -> wanted Q x = true;
    er_sep : treeSep pt b -> (forall q, In q Q -> okI q) -> treeSep pt b1;
    er_filter : treeSep pt b -> tieFree N dim pt (blive b) -> (forall q, In q Q -> okI q) ->
       Permutation (blive b1) (filter (fun x => negb (wanted Q x)) (blive b)) }.

  Lemma erased_refl b : tOk b -> blive b = [] -> erased b b.
  Proof.
    intros T E. constructor; auto.
    - exists []. split; [auto|intros x []].
    - intros _ _ _. rewrite E. reflexivity.
  Qed.

  Lemma bbulkErase_erased b : tOk b -> exists b1, bbulkErase dim pt part lfirst b Q = Ok b1 /\ erased b b1.
  Proof.
    intros T. destruct (@bbulkErase_ok N ok OL dim A pt EL part Hpart lfirst b Q T) as (b1 & E & B2 & B3 & B4 & (rem & B5 & B6) & B7).
    exists b1. split; auto. constructor; auto.
    - exists rem. split; auto. intros x Hx. apply existsb_exists. apply B6. auto.
    - intros S HQ. apply B7; auto.
    - intros S TF HQ. apply (@erase_filter N ok dim A pt OL EL Hdim b b1 Q rem); auto. apply B7; auto.
  Qed.

  Lemma eraseTrees_ok mask : forall T k, (forall j b, nth_error T j = Some b -> tOk b) ->
    (forall j b, nth_error T j = Some b -> Nat.testbit mask (k + j) = false -> blive b = []) ->
    exists T1, eraseTrees dim pt part lfirst mask k Q T = Ok T1 /\ Forall2 erased T T1 /\
      (forall j b, nth_error T j = Some b -> Nat.testbit mask (k + j) = false -> nth_error T1 j = Some b).
  Proof.
    induction T as [|b T IH]; intros k H1 H2.
    - exists []. cbn. split; [auto|]. split; [auto|intros [|j] b; discriminate].
    - cbn [eraseTrees]. destruct (IH (S k)) as (T1 & E & F & K).
      { intros j b' Hj. apply (H1 (S j) b' Hj). }
      { intros j b' Hj Hb. apply (H2 (S j) b' Hj). rewrite Nat.add_succ_r. auto. }
      pose proof (H1 0 b eq_refl) as Tb. destruct (Nat.testbit mask k) eqn:Eb.
      + destruct (bbulkErase_erased Tb) as (b1 & -> & Er). cbn [bind]. rewrite E. cbn [bind].
        exists (b1 :: T1). split; auto. split; [constructor; auto|].
        intros [|j] b' Hj Hb; [rewrite Nat.add_0_r in Hb; congruence|]. apply K; auto. replace (S k + j) with (k + S j) by lia. auto.
      + cbn [bind]. rewrite E. cbn [bind]. exists (b :: T1). split; auto. split.
        * constructor; auto. apply erased_refl; auto. apply (H2 0 b eq_refl). rewrite Nat.add_0_r. auto.
        * intros [|j] b' Hj Hb; [auto|]. apply K; auto. replace (S k + j) with (k + S j) by lia. auto.
  Qed.

  Lemma Forall2_len X Y (R : X -> Y -> Prop) l l' : Forall2 R l l' -> length l = length l'.
  Proof. induction 1; cbn; auto. Qed.
  Lemma Forall2_nth X Y (R : X -> Y -> Prop) l l' : Forall2 R l l' -> forall k y, nth_error l' k = Some y ->
    exists x, nth_error l k = Some x /\ R x y.
  Proof.
    induction 1 as [|x y l l' H F IH]; intros [|k] z E; try discriminate; cbn in *.
    - injection E as <-. eauto. - apply IH; auto.
  Qed.

  Lemma erased_all T T1 : Forall2 erased T T1 ->
    (exists rem, Permutation (flat_map (@blive N A) T) (rem ++ flat_map (@blive N A) T1) /\
       forall x, In x rem -> wanted Q x = true) /\
    ((forall k b, nth_error T k = Some b -> treeSep pt b) -> tieFree N dim pt (flat_map (@blive N A) T) ->
       (forall q, In q Q -> okI q) ->
       Permutation (flat_map (@blive N A) T1) (filter (fun x => negb (wanted Q x)) (flat_map (@blive N A) T))).
  Proof.
    induction 1 as [|b b1 T T1 E F [(rem & P & R) G]]; cbn [flat_map].
    - split; [exists []; split; [auto|intros x []]|auto].
    - split.
      + destruct (er_rem E) as (rem0 & P0 & R0). exists (rem0 ++ rem). split.
        * rewrite P0, P, <- !app_assoc. apply Permutation_app_head. apply Permutation_app_swap_app.
        * intros x Hx. apply in_app_iff in Hx as [Hx | Hx]; auto.
      + intros S TF HQ. rewrite filter_app. apply Permutation_app.
        * apply (er_filter E); auto; [apply (S 0 b eq_refl)|]. intros d Hd. specialize (TF d Hd). apply FOP_app in TF. tauto.
        * apply G; auto; [|eapply tieFree_sub; eauto]. intros k b' Hk. apply (S (Datatypes.S k) b' Hk).
  Qed.
  End Phase1.

  Variable dflt : A.

  (** Gathering takes the points of the gathered slots out. *)
  Lemma gather_stored (T T' : list (btree N A)) ks : NoDup ks -> length T' = length T ->
    (forall k, ~ In k ks -> nth_error T' k = nth_error T k) ->
    (forall k, In k ks -> exists b, nth_error T k = Some b /\ nth_error T' k = Some (bclear b)) ->
    Permutation (flat_map (@blive N A) T) (flat_map (@blive N A) T' ++ flat_map (liveAt T) ks).
  Proof.
    intros ND L H1 H2. rewrite (flat_map_seq (@blive N A) T'), (flat_map_seq (@blive N A) T). rewrite L.
    change (fun k => match nth_error T' k with Some x => blive x | None => [] end) with (liveAt T').
    change (fun k => match nth_error T k with Some x => blive x | None => [] end) with (liveAt T).
    destruct (@seq_front ks (length T) ND) as (rest & P & HR).
    { intros k Hk. apply nth_error_Some. destruct (H2 k Hk) as (b & E & _). congruence. }
    rewrite (Permutation_flat_map (liveAt T') P), (Permutation_flat_map (liveAt T) P), !flat_map_app.
    rewrite (flat_map_ext_in (liveAt T') (liveAt T) rest).
    2:{ intros k Hk. unfold liveAt. rewrite H1; auto. apply HR. auto. }
    rewrite (flat_map_ext_in (liveAt T') (fun _ => []) ks).
    - replace (flat_map (fun _ : nat => []) ks) with (@nil A) by (clear; induction ks; cbn; auto).
      cbn [app]. apply Permutation_app_comm.
    - intros k Hk. destruct (H2 k Hk) as (b & _ & E). unfold liveAt. rewrite E. reflexivity.
  Qed.

  Variables bbuild sbuild : btree N A -> list A -> res (btree N A).
  Variable smax : nat.
  Hypothesis Hsb : buildSpec ok dim pt smax sbuild (pre false).
  Hypothesis Hbb : buildSpec ok dim pt B bbuild (pre true).

  (** The buffer is empty already, or some point of it stays. *)
  Definition bufferStays (t : lt) (Q : list A) : Prop :=
    blive (lt_buf t) = [] \/ exists x, In x (blive (lt_buf t)) /\ wanted Q x = false.

  Lemma carried_le n D bsz : 2 * n <= B * D -> bsz <= B -> carried B n bsz <= D.
  Proof.
    intros H1 H2. unfold carried. pose proof (Nat.div_mod n B). pose proof (Nat.mod_upper_bound n B).
    set (q := n / B) in *. assert (2 * q <= D) by nia.
    destruct (Nat.ltb_spec B (n mod B + bsz)); [|lia]. destruct D as [|D]; [|lia].
    assert (n = 0) by lia. assert (n mod B = 0) by (subst n; apply Nat.mod_0_l; lia). lia.
  Qed.

  Theorem ltErase_ok ord part lfirst t Q : (forall l, Permutation l (ord l)) -> part_ok part ->
    ltInv ok dim pt B smax t -> bufferStays t Q ->
    exists t', ltErase dim pt dflt bbuild sbuild B part lfirst ord t Q = Ok t' /\ ltInv ok dim pt B smax t' /\
      length (lt_trees t') = length (lt_trees t) /\
      (exists rem, Permutation (stored t) (rem ++ stored t') /\ forall x, In x rem -> wanted Q x = true) /\
      (ltSep pt t -> tieFree N dim pt (stored t) -> (forall q, In q Q -> okI q) ->
         ltSep pt t' /\ Permutation (stored t') (filter (fun x => negb (wanted Q x)) (stored t))).
  Proof.
    intros Hord Hpart I HS. unfold ltErase.
    (* the buffer *)
    assert (EB : exists buf1, (if bt_cur (lt_buf t) =? 0 then Ok (lt_buf t)
                else bbulkErase dim pt part lfirst (lt_buf t) Q) = Ok buf1 /\ erased Q (lt_buf t) buf1 /\ fresh buf1).
    { destruct (Nat.eqb_spec (bt_cur (lt_buf t)) 0) as [E | E].
      - exists (lt_buf t). split; auto. split; [|apply I]. apply erased_refl; [apply I|].
        rewrite (to_cur (li_buf I)) in E. destruct (blive (lt_buf t)); [auto|discriminate].
      - destruct (@bbulkErase_erased part Hpart lfirst Q (lt_buf t) (li_buf I)) as (b1 & E1 & Er). exists b1.
        split; auto. split; auto. intros E0. exfalso.
        destruct HS as [HS | (x & Hx & Hw)]; [rewrite (to_cur (li_buf I)), HS in E; cbn in E; congruence|].
        destruct (er_rem Er) as (rem & P & R). rewrite (to_cur (er_ok Er)) in E0.
        destruct (blive b1); [|discriminate]. rewrite app_nil_r in P. apply (Permutation_in _ P) in Hx.
        rewrite (R x Hx) in Hw. discriminate. }
    destruct EB as (buf1 & -> & ErB & FB). cbn [bind].
    (* the static trees *)
    set (T := lt_trees t) in *. set (mask := lt_mask t) in *.
    assert (SL : forall k b, nth_error T k = Some b -> slotOk ok dim pt B k (Nat.testbit mask k) b) by (intros; apply (li_slots I); auto).
    assert (EMP : forall k b, nth_error T k = Some b -> Nat.testbit mask k = false -> blive b = []).
    { intros k b E Hb. pose proof (so_cur (SL k b E)) as C. rewrite Hb, (to_cur (so_ok (SL k b E))) in C.
      destruct (blive b); [auto|discriminate]. }
    destruct (@eraseTrees_ok part Hpart lfirst Q mask T 0) as (T1 & -> & F2 & K1).
    { intros j b E. apply (so_ok (SL j b E)). } { exact EMP. }
    cbn [bind]. cbn [Nat.add] in K1.
    pose proof (Forall2_len F2) as L1.
    assert (N1 : forall k b1, nth_error T1 k = Some b1 -> exists b, nth_error T k = Some b /\ erased Q b b1) by (intros; eapply Forall2_nth; eauto).
    set (ks := depleted B T1) in *.
    assert (KS : forall k, In k ks <-> exists b1, nth_error T1 k = Some b1 /\ bt_cur b1 <= 2 ^ k * B / 2).
    { intros k. unfold ks, depleted. rewrite filter_In, in_seq. split.
      - intros [H1 H2]. destruct (nth_error T1 k) as [b1|]; [|discriminate]. exists b1. split; auto. apply Nat.leb_le. auto.
      - intros (b1 & E & H). rewrite E. split; [|apply Nat.leb_le; auto].
        assert (k < length T1) by (apply nth_error_Some; congruence). lia. }
    assert (NDK : NoDup ks) by (apply NoDup_filter, seq_NoDup).
    destruct (@gatherTrees_ok N ok dim A pt dflt ks T1 NDK) as (T2 & -> & L2 & G1 & G2).
    { intros k Hk. apply KS in Hk as (b1 & E & _). exists b1. split; auto. destruct (N1 k b1 E) as (b & _ & Er). apply Er. }
    cbn [bind]. set (pts := flat_map (liveAt T1) ks). set (mask2 := fold_left Nat.clearbit ks mask).
    set (mid := mkLt mask2 buf1 T2).
    pose proof (clearbits_sum NDK mask) as CS. fold mask2 in CS. set (Dm := list_sum (map (fun k => bitv (Nat.testbit mask k) k) ks)) in *.
    pose proof (li_mask I) as Hm. fold T mask in Hm.
    assert (B2 : forall k, Nat.testbit mask2 k = Nat.testbit mask k && negb (existsb (Nat.eqb k) ks)) by (intros; apply clearbits_bit).
    assert (EX : forall k, existsb (Nat.eqb k) ks = true <-> In k ks).
    { intros k. rewrite existsb_exists. split; [intros (y & Hy & E); apply Nat.eqb_eq in E; subst; auto|].
      intros H. exists k. split; auto. apply Nat.eqb_refl. }
    (* the invariant before re-insertion *)
    assert (IM : ltInv ok dim pt B smax mid).
    { constructor; cbn [lt_buf lt_mask lt_trees mid].
      - apply ErB. - exact FB. - rewrite (er_cap ErB). apply I.
      - apply (@pre_items N A true (lt_buf t)); [symmetry; apply (er_items ErB)|apply I].
      - rewrite L2, <- L1. lia.
      - intros k b E. rewrite B2. destruct (existsb (Nat.eqb k) ks) eqn:X.
        + apply EX in X. pose proof X as X'. apply KS in X' as (b1 & E1 & _). pose proof (G2 k b1 X E1) as E2.
          assert (b = bclear b1) by congruence. subst b. destruct (N1 k b1 E1) as (b0 & E0 & Er).
          rewrite andb_false_r. pose proof (SL k b0 E0) as S0. constructor.
          * apply treeOk_clear. apply Er. * apply bclear_fresh. apply (to_pres (er_ok Er)).
          * cbn. rewrite (er_cap Er). apply S0. * reflexivity.
        + assert (NK : ~ In k ks) by (rewrite <- EX; congruence). rewrite (G1 k NK) in E.
          destruct (N1 k b E) as (b0 & E0 & Er). pose proof (SL k b0 E0) as S0.
          assert (Hc : 2 ^ k * B / 2 < bt_cur b).
          { destruct (le_lt_dec (bt_cur b) (2 ^ k * B / 2)); auto. exfalso. apply NK. apply KS. eauto. }
          cbn [negb]. rewrite andb_true_r.
          destruct (Nat.testbit mask k) eqn:Mk.
          2:{ exfalso. pose proof (K1 k b0 E0 Mk) as E'. assert (b = b0) by congruence. subst b0.
              rewrite (to_cur (er_ok Er)), (EMP k b E0 Mk) in Hc. cbn in Hc. lia. }
          constructor; [apply Er|intros G; lia|rewrite (er_cap Er); apply S0|].
          pose proof (Nat.div_mod (2 ^ k * B) 2). pose proof (Nat.mod_upper_bound (2 ^ k * B) 2). lia.
      - intros k Hk. apply (li_max I). fold T. rewrite L2, <- L1 in Hk. exact Hk. }
    assert (OKP : forall x, In x pts -> okI x).
    { intros x Hx. apply in_flat_map in Hx as (k & Hk & Hx). apply KS in Hk as (b1 & E & _).
      unfold liveAt in Hx. rewrite E in Hx. destruct (N1 k b1 E) as (b & _ & Er). apply (@blive_okI N ok dim A pt b1 x (er_ok Er) Hx). }
    assert (HALF : 2 * length pts <= B * Dm).
    { unfold pts, Dm. assert (KS' : forall k, In k ks -> 2 * length (liveAt T1 k) <= B * bitv (Nat.testbit mask k) k).
      { intros k Hk. apply KS in Hk as (b1 & E & H). unfold liveAt. rewrite E. destruct (N1 k b1 E) as (b & E0 & Er).
        rewrite (to_cur (er_ok Er)) in H. unfold bitv. destruct (Nat.testbit mask k) eqn:Mk.
        - pose proof (Nat.div_mod (2 ^ k * B) 2). nia.
        - pose proof (K1 k b E0 Mk) as E'. assert (b1 = b) by congruence. subst b1. rewrite (EMP k b E0 Mk). cbn. lia. }
      clear -KS'. induction ks as [|k l IH]; [cbn; lia|]. cbn [flat_map map list_sum fold_right]. rewrite app_length.
      change (fold_right Nat.add 0) with list_sum. specialize (IH (fun j Hj => KS' j (or_intror Hj))). specialize (KS' k (or_introl eq_refl)). lia. }
    assert (BS : length (blive buf1) <= B).
    { rewrite <- (li_cap I), <- (er_cap ErB). apply (live_le_cap Hdim (er_ok ErB)). }
    destruct (@ltInsert_ok N ok dim A pt dflt bbuild sbuild B HB Hdim smax Hsb Hbb ord mid pts Hord IM OKP)
      as (t' & E & I' & L' & M' & P' & _ & S').
    { cbn [lt_mask lt_buf lt_trees mid]. pose proof (@carried_le (length pts) Dm (length (blive buf1)) HALF BS).
      rewrite L2, <- L1. lia. }
    exists t'. split; auto. split; auto. split; [rewrite L'; cbn; rewrite L2, <- L1; reflexivity|].
    assert (GS : Permutation (flat_map (@blive N A) T1) (flat_map (@blive N A) T2 ++ pts)).
    { apply gather_stored; auto. intros k Hk. pose proof Hk as Hk'. apply KS in Hk' as (b1 & E1 & _). exists b1. split; auto. }
    assert (SM : Permutation (blive buf1 ++ flat_map (@blive N A) T1) (stored t')).
    { rewrite <- P'. unfold stored. cbn [lt_buf lt_trees mid]. rewrite <- app_assoc. apply Permutation_app_head. exact GS. }
    destruct (erased_all lfirst F2) as [(rem2 & P2 & R2) FA]. destruct (er_rem ErB) as (rem1 & P1 & R1).
    split.
    - exists (rem1 ++ rem2). split.
      + rewrite <- SM. unfold stored. fold T. rewrite P1, P2, <- !app_assoc. apply Permutation_app_head.
        apply Permutation_app_swap_app.
      + intros x Hx. apply in_app_iff in Hx as [Hx | Hx]; auto.
    - intros [SB ST] TF HQ. fold T in ST.
      assert (TFB : tieFree N dim pt (blive (lt_buf t))) by (intros d Hd; specialize (TF d Hd); apply FOP_app in TF; tauto).
      assert (TFT : tieFree N dim pt (flat_map (@blive N A) T)) by (eapply tieFree_sub; exact TF).
      split.
      + apply S'.
        * split; cbn [lt_buf lt_trees mid]; [apply (er_sep ErB); auto|]. intros k b E2.
          destruct (existsb (Nat.eqb k) ks) eqn:X.
          -- apply EX in X. pose proof X as X'. apply KS in X' as (b1 & E1 & _). pose proof (G2 k b1 X E1) as E3.
             assert (b = bclear b1) by congruence. subst b. intros G. cbn in G. congruence.
          -- rewrite G1 in E2 by (rewrite <- EX; congruence). destruct (N1 k b E2) as (b0 & E0 & Er).
             apply (er_sep Er); auto. apply (ST k b0 E0).
        * eapply tieFree_sub with (l := rem1 ++ rem2). eapply tieFree_perm; [|exact TF].
          rewrite P', <- SM. unfold stored. fold T. rewrite P1, P2, <- !app_assoc. apply Permutation_app_head.
          apply Permutation_app_swap_app.
      + rewrite <- SM. unfold stored. fold T. rewrite filter_app. apply Permutation_app.
        * apply (er_filter ErB); auto.
        * apply FA; auto.
  Qed.

  (** *** Queries *)
  Theorem ltOrth_ok t qb : ltInv ok dim pt B smax t -> okbox ok dim qb ->
    ltOrth dim pt t qb = Ok (filter (inQBox N dim A pt qb) (stored t)).
  Proof.
    intros I Hq. unfold ltOrth, stored. cbn [allOrth]. rewrite (borth_ok OL (li_buf I) Hq). cbn [bind].
    assert (G : forall T, (forall b, In b T -> tOk b) ->
      allOrth dim pt qb T = Ok (filter (inQBox N dim A pt qb) (flat_map (@blive N A) T))).
    { induction T as [|b T IH]; intros H; auto. cbn [allOrth flat_map].
      rewrite (borth_ok OL (H b (or_introl eq_refl)) Hq). cbn [bind]. rewrite IH by (intros b' Hb; apply H; right; auto).
      cbn [bind]. rewrite filter_app. reflexivity. }
    rewrite G.
    - cbn [bind]. rewrite filter_app. reflexivity.
    - intros b Hb. apply In_nth_error in Hb as (k & E). apply (so_ok (li_slots I k E)).
  Qed.

  Theorem ltContains_ok t q : ltInv ok dim pt B smax t -> exists r, ltContains dim pt t q = Ok r /\
    (r = true -> exists x, In x (stored t) /\ peq N dim (pt q) (pt x) = true) /\
    (ltSep pt t -> okI q -> (exists x, In x (stored t) /\ peq N dim (pt q) (pt x) = true) -> r = true).
  Proof.
    intros I. unfold ltContains, stored.
    assert (G : forall bs, (forall b, In b bs -> tOk b) -> exists r, anyContains dim pt q bs = Ok r /\
      (r = true -> exists x, In x (flat_map (@blive N A) bs) /\ peq N dim (pt q) (pt x) = true) /\
      ((forall b, In b bs -> treeSep pt b) -> okI q ->
         (exists x, In x (flat_map (@blive N A) bs) /\ peq N dim (pt q) (pt x) = true) -> r = true)).
    { induction bs as [|b bs IH]; intros H.
      - exists false. split; auto. split; [discriminate|]. intros _ _ (x & [] & _).
      - cbn [anyContains]. destruct (bcontains_run EL q (H b (or_introl eq_refl))) as (r & E & R1 & R2). rewrite E. cbn [bind].
        destruct (IH (fun b' Hb => H b' (or_intror Hb))) as (r' & E' & R1' & R2').
        destruct r.
        + exists true. split; auto. split; auto. intros _. destruct (R1 eq_refl) as (x & Hx & He). exists x.
          split; auto. cbn. apply in_or_app. auto.
        + exists r'. split; auto. split.
          * intros Hr. destruct (R1' Hr) as (x & Hx & He). exists x. split; auto. cbn. apply in_or_app. auto.
          * intros S Oq (x & Hx & He). cbn in Hx. apply in_app_iff in Hx as [Hx | Hx].
            -- rewrite (R2 eq_refl (S b (or_introl eq_refl)) Oq x Hx) in He. discriminate.
            -- apply R2'; eauto. intros b' Hb. apply S. right. auto. }
    destruct (G (lt_buf t :: lt_trees t)) as (r & E & R1 & R2).
    { intros b [<- | Hb]; [apply I|]. apply In_nth_error in Hb as (k & E). apply (so_ok (li_slots I k E)). }
    exists r. split; auto. split; auto. intros [S1 S2] Oq H. apply R2; auto.
    intros b [<- | Hb]; auto. apply In_nth_error in Hb as (k & E'). apply (S2 k b E').
  Qed.

  Theorem ltSize_ok t : ltInv ok dim pt B smax t -> ltSize t = length (stored t).
  Proof.
    intros I. unfold ltSize, stored. rewrite app_length, (to_cur (li_buf I)). f_equal.
    assert (G : forall T k0, (forall k b, nth_error T k = Some b -> tOk b /\
        (Nat.testbit (lt_mask t) (k0 + k) = false -> blive b = [])) ->
      list_sum (map (fun kb => if Nat.testbit (lt_mask t) (fst kb) then bt_cur (snd kb) else 0)
        (combine (seq k0 (length T)) T)) = length (flat_map (@blive N A) T)).
    { induction T as [|b T IH]; intros k0 H; auto. cbn [length seq combine map list_sum fold_right fst snd flat_map].
      rewrite app_length. change (fold_right Nat.add 0) with list_sum. rewrite IH.
      - destruct (H 0 b eq_refl) as [Tb Eb]. rewrite Nat.add_0_r in Eb.
        destruct (Nat.testbit (lt_mask t) k0); [rewrite (to_cur Tb); auto|]. rewrite Eb; auto.
      - intros k b' E. destruct (H (S k) b' E) as [H1 H2]. split; auto. intros H3. apply H2. rewrite Nat.add_succ_r. exact H3. }
    apply G. intros k b E. pose proof (li_slots I k E) as S. split; [apply S|]. cbn. intros Hb.
    pose proof (so_cur S) as C. rewrite Hb, (to_cur (so_ok S)) in C. destruct (blive b); [auto|discriminate].
  Qed.

  (** *** A new forest *)
  Theorem ltNew_ok num lg : B = 2 ^ lg -> okI dflt -> (forall k, k < num -> 2 ^ k * B <= smax) ->
    ltInv ok dim pt B smax (ltNew N dflt num lg) /\ ltFull B (ltNew N dflt num lg) /\
    ltSep pt (ltNew N dflt num lg) /\ stored (ltNew N dflt num lg) = [].
  Proof.
    intros EB Od Hmax.
    assert (NT : forall k b, nth_error (lt_trees (ltNew N dflt num lg)) k = Some b -> b = bnew N (k + lg) []).
    { intros k b E. cbn in E. rewrite nth_error_map in E. destruct (nth_error (seq 0 num) k) as [j|] eqn:Ej; [|discriminate].
      pose proof Ej as Ej'. assert (k < num) by (rewrite <- (seq_length num 0); apply nth_error_Some; congruence).
      apply (nth_error_nth _ _ 0) in Ej'. rewrite seq_nth in Ej' by auto. cbn in *. congruence. }
    assert (LN : length (lt_trees (ltNew N dflt num lg)) = num) by (cbn; rewrite map_length, seq_length; auto).
    assert (TB : forall j its, length its <= 2 ^ j -> (forall x, In x its -> okI x) ->
      tOk (bnew N j its) /\ fresh (bnew N j its) /\ blive (bnew N j its) = []) by (intros; apply bnew_ok; auto).
    destruct (TB lg (repeat dflt (2 ^ lg))) as (T1 & T2 & T3).
    { rewrite repeat_length. auto. } { intros x Hx. apply repeat_spec in Hx. subst x. auto. }
    split; [|split; [|split]].
    - constructor; auto.
      + intros _. cbn. rewrite repeat_length. lia.
      + cbn [lt_mask]. rewrite LN. pose proof (pow2_pos num). cbn. lia.
      + intros k b E. apply NT in E. subst b. destruct (TB (k + lg) []) as (S1 & S2 & _).
        { cbn. lia. } { intros x []. }
        constructor; auto; cbn; [rewrite EB, Nat.pow_add_r; auto|]. rewrite Nat.bits_0. reflexivity.
      + rewrite LN. exact Hmax.
    - intros k b _ Hb. cbn in Hb. rewrite Nat.bits_0 in Hb. discriminate.
    - split; [intros G; cbn in G; congruence|]. intros k b E G. apply NT in E. subst b. cbn in G. congruence.
    - unfold stored, ltNew. cbn [lt_buf lt_trees]. rewrite T3. cbn [app].
      clear. induction (seq 0 num) as [|k l IH]; cbn [map flat_map]; [reflexivity|exact IH].
  Qed.

  (** *** Histories.  The flag says that nothing was erased. *)
  Inductive forest (P : list A -> Prop) (num lg : nat) : bool -> lt -> Prop :=
  | f_new : forest P num lg true (ltNew N dflt num lg)
  | f_insert f t ord points t' : forest P num lg f t -> (forall l, Permutation l (ord l)) ->
      (forall x, In x points -> okI x) -> P (stored t ++ points) ->
      ltInsert dflt bbuild sbuild B ord t points = Ok t' -> forest P num lg f t'
  | f_erase f t ord part lfirst Q t' : forest P num lg f t -> (forall l, Permutation l (ord l)) -> part_ok part ->
      (forall q, In q Q -> okI q) -> bufferStays t Q ->
      ltErase dim pt dflt bbuild sbuild B part lfirst ord t Q = Ok t' -> forest P num lg false t'.

  Theorem forest_inv P num lg f t : B = 2 ^ lg -> okI dflt -> (forall k, k < num -> 2 ^ k * B <= smax) ->
    forest P num lg f t ->
    ltInv ok dim pt B smax t /\ length (lt_trees t) = num /\ (f = true -> ltFull B t) /\
    ((forall l, P l -> tieFree N dim pt l) -> ltSep pt t /\ tieFree N dim pt (stored t)).
  Proof.
    intros EB Od Hmax. induction 1 as [| f t ord points t' R (I & L & F & S) Hord Hpts HP E
                                       | f t ord part lfirst Q t' R (I & L & F & S) Hord Hpart HQ HS E].
    - destruct (@ltNew_ok num lg EB Od Hmax) as (I & F & S & E). split; auto.
      split; [cbn; rewrite map_length, seq_length; auto|]. split; auto. intros _. split; auto. rewrite E. intros d Hd. constructor.
    - destruct (le_lt_dec (2 ^ length (lt_trees t)) (lt_mask t + carried B (length points) (length (blive (lt_buf t))))) as [C | C].
      { rewrite (ltInsert_throw dflt bbuild sbuild HB Hdim ord points I C) in E. discriminate. }
      destruct (@ltInsert_ok N ok dim A pt dflt bbuild sbuild B HB Hdim smax Hsb Hbb ord t points Hord I Hpts C)
        as (t1 & E1 & I' & L' & M' & P' & F' & S'). rewrite E in E1. injection E1 as <-.
      split; auto. split; [congruence|]. split; auto. intros HT. destruct (S HT) as [S1 S2]. split; [apply S'; auto|].
      eapply tieFree_perm; [exact P'|]. auto.
    - destruct (@ltErase_ok ord part lfirst t Q Hord Hpart I HS) as (t1 & E1 & I' & L' & (rem & P' & _) & S').
      rewrite E in E1. injection E1 as <-. split; auto. split; [congruence|]. split; [discriminate|].
      intros HT. destruct (S HT) as [S1 S2]. split; [apply S'; auto|].
      eapply tieFree_sub. eapply tieFree_perm; [exact P'|]. auto.
  Qed.

  Lemma bits_total m num : list_sum (map (fun k => bitv (Nat.testbit m k) k) (seq 0 num)) = m mod 2 ^ num.
  Proof.
    induction num as [|num IH]; [symmetry; apply Nat.mod_1_r|].
    rewrite seq_S, map_app, list_sum_app, IH, mod_S. cbn [map list_sum fold_right Nat.add]. lia.
  Qed.

  Lemma full_stored t : ltInv ok dim pt B smax t -> ltFull B t ->
    length (stored t) = lt_mask t * B + length (blive (lt_buf t)).
  Proof.
    intros I F. unfold stored. rewrite app_length, Nat.add_comm. f_equal.
    rewrite <- (Nat.mod_small (lt_mask t) (2 ^ length (lt_trees t))) by apply (li_mask I). rewrite <- bits_total.
    rewrite (flat_map_seq (@blive N A)). set (T := lt_trees t) in *.
    assert (G : forall ks, (forall k, In k ks -> k < length T) ->
      length (flat_map (fun k => match nth_error T k with Some x => blive x | None => [] end) ks) =
      list_sum (map (fun k => bitv (Nat.testbit (lt_mask t) k) k) ks) * B).
    { induction ks as [|k ks IH]; intros H; auto. cbn [flat_map map list_sum fold_right]. rewrite app_length, IH by (intros j Hj; apply H; right; auto).
      change (fold_right Nat.add 0) with list_sum. rewrite Nat.mul_add_distr_r. f_equal.
      destruct (nth_error T k) as [b|] eqn:E.
      - pose proof (li_slots I k E) as S. rewrite <- (to_cur (so_ok S)). unfold bitv. pose proof (so_cur S) as C.
        destruct (Nat.testbit (lt_mask t) k) eqn:M; [apply (F k b E M)|]. rewrite C. reflexivity.
      - apply nth_error_None in E. specialize (H k (or_introl eq_refl)). lia. }
    apply G. intros k Hk. apply in_seq in Hk. lia.
  Qed.

  (** *** Every operation in every reachable state *)
  Section Reached.
    Variables num lg : nat.
    Hypothesis EB : B = 2 ^ lg.
    Hypothesis Od : okI dflt.
    Hypothesis Hmax : forall k, k < num -> 2 ^ k * B <= smax.

    Theorem forest_shape P f t : forest P num lg f t ->
      length (lt_trees t) = num /\ length (blive (lt_buf t)) <= B /\
      (forall k b, nth_error (lt_trees t) k = Some b ->
         bt_cur b = length (blive b) /\ bt_cur b <= 2 ^ k * B /\
         (bt_cur b = 0 \/ 2 ^ k * B < 2 * bt_cur b) /\
         (f = true -> bt_cur b = 0 \/ bt_cur b = 2 ^ k * B)) /\
      ltSize t = length (stored t).
    Proof.
      intros R. destruct (@forest_inv P num lg f t EB Od Hmax R) as (I & L & F & _).
      split; auto. split; [rewrite <- (li_cap I); apply (live_le_cap Hdim (li_buf I))|].
      split; [|apply (ltSize_ok I)].
      intros k b E. pose proof (li_slots I k E) as S. pose proof (so_cur S) as C.
      split; [apply (to_cur (so_ok S))|]. split; [rewrite (to_cur (so_ok S)), <- (so_cap S); apply (live_le_cap Hdim (so_ok S))|].
      destruct (Nat.testbit (lt_mask t) k) eqn:M; [|auto]. split; auto. intros Hf. right. apply (F Hf k b E M).
    Qed.

    Theorem forest_insert P f t ord points : forest P num lg f t -> (forall l, Permutation l (ord l)) ->
      (forall x, In x points -> okI x) ->
      let r := ltInsert dflt bbuild sbuild B ord t points in
      (r = Throw \/ exists t', r = Ok t' /\ Permutation (stored t ++ points) (stored t')) /\
      (f = true -> length (stored t) + length points < 2 ^ num * B -> r <> Throw) /\
      (f = true -> 2 ^ num * B < length (stored t) + length points -> r = Throw).
    Proof.
      intros R Hord Hpts r. destruct (@forest_inv P num lg f t EB Od Hmax R) as (I & L & F & _).
      assert (BS : length (blive (lt_buf t)) <= B) by (rewrite <- (li_cap I); apply (live_le_cap Hdim (li_buf I))).
      pose proof (carried_bounds HB Hdim (length points) BS) as [C1 C2].
      set (c := carried B (length points) (length (blive (lt_buf t)))) in *.
      destruct (le_lt_dec (2 ^ length (lt_trees t)) (lt_mask t + c)) as [C | C].
      - pose proof (ltInsert_throw dflt bbuild sbuild HB Hdim ord points I C) as E. fold r in E.
        split; auto. split; auto. intros Hf Hlt. exfalso. rewrite (full_stored I (F Hf)) in Hlt. rewrite L in C. nia.
      - destruct (@ltInsert_ok N ok dim A pt dflt bbuild sbuild B HB Hdim smax Hsb Hbb ord t points Hord I Hpts C)
          as (t1 & E1 & _ & _ & _ & P' & _). fold r in E1. split; [right; eauto|]. rewrite E1. split; [discriminate|].
        intros Hf Hlt. exfalso. rewrite (full_stored I (F Hf)) in Hlt. rewrite L in C. nia.
    Qed.

    Theorem forest_erase P f t ord part lfirst Q : forest P num lg f t -> (forall l, Permutation l (ord l)) ->
      part_ok part -> (forall q, In q Q -> okI q) -> bufferStays t Q ->
      exists t', ltErase dim pt dflt bbuild sbuild B part lfirst ord t Q = Ok t' /\ forest P num lg false t' /\
        (exists rem, Permutation (stored t) (rem ++ stored t') /\ forall x, In x rem -> wanted Q x = true) /\
        ((forall l, P l -> tieFree N dim pt l) ->
           Permutation (stored t') (filter (fun x => negb (wanted Q x)) (stored t))).
    Proof.
      intros R Hord Hpart HQ HS. destruct (@forest_inv P num lg f t EB Od Hmax R) as (I & L & F & S).
      destruct (@ltErase_ok ord part lfirst t Q Hord Hpart I HS) as (t1 & E1 & I' & L' & RM & S').
      exists t1. split; auto. split; [eapply f_erase; eauto|]. split; auto.
      intros HT. destruct (S HT) as [S1 S2]. apply S'; auto.
    Qed.

    Theorem forest_queries P f t : forest P num lg f t ->
      (forall qb, okbox ok dim qb -> ltOrth dim pt t qb = Ok (filter (inQBox N dim A pt qb) (stored t))) /\
      (forall q, exists r, ltContains dim pt t q = Ok r /\
         (r = true -> exists x, In x (stored t) /\ peq N dim (pt q) (pt x) = true) /\
         ((forall l, P l -> tieFree N dim pt l) -> okI q ->
            (exists x, In x (stored t) /\ peq N dim (pt q) (pt x) = true) -> r = true)).
    Proof.
      intros R. destruct (@forest_inv P num lg f t EB Od Hmax R) as (I & L & F & S). split.
      - intros qb Hq. apply (ltOrth_ok I Hq).
      - intros q. destruct (ltContains_ok q I) as (r & E & R1 & R2). exists r. split; auto. split; auto.
        intros HT. apply R2. apply (S HT).
    Qed.
  End Reached.
End Erase.
