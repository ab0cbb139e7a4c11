(** The plan of an insertion into the logarithmic forest: which slots are
    gathered, which are filled, and with which points. *)
From Coq Require Import ZArith.
From Verif Require Import Base BatchModel BatchSlice LogModel.
Set Implicit Arguments.

Section Bits.
  Definition bitv (b : bool) (k : nat) : nat := if b then 2 ^ k else 0.

  Lemma mod_S m k : m mod 2 ^ S k = m mod 2 ^ k + bitv (Nat.testbit m k) k.
  Proof.
    rewrite Nat.pow_succ_r', (Nat.mul_comm 2), Nat.mod_mul_r; try (apply Nat.pow_nonzero; lia); try lia.
    f_equal. rewrite Nat.testbit_eqb. unfold bitv.
    pose proof (Nat.mod_upper_bound (m / 2 ^ k) 2). destruct (Nat.eqb_spec ((m / 2 ^ k) mod 2) 1); lia.
  Qed.
  Lemma mod_lt m k : m mod 2 ^ k < 2 ^ k.
  Proof. apply Nat.mod_upper_bound. apply Nat.pow_nonzero. lia. Qed.
  Lemma pow2_pos k : 1 <= 2 ^ k.
  Proof. pose proof (Nat.pow_nonzero 2 k). lia. Qed.
End Bits.

Definition feet (m : move) : list nat := mv_new m :: mv_trees m.

Section Plan.
  Variables B old new_ : nat.
  Hypothesis HB : 0 < B.
  Variable useb : bool.
  Variable bsz : nat.
  Hypothesis Hbsz : bsz <= B.

  Notation o t := (Nat.testbit old t).
  Notation n t := (Nat.testbit new_ t).
  Local Open Scope Z_scope.
  Definition D (k : nat) : Z := Z.of_nat (new_ mod 2 ^ k) - Z.of_nat (old mod 2 ^ k).

  Lemma D_S k : D (S k) = D k + Z.of_nat (bitv (n k) k) - Z.of_nat (bitv (o k) k).
  Proof. unfold D. rewrite !mod_S. lia. Qed.
  Lemma D_bound k : - Z.of_nat (2 ^ k) < D k < Z.of_nat (2 ^ k).
  Proof. unfold D. pose proof (mod_lt new_ k). pose proof (mod_lt old k). lia. Qed.
  Lemma D_0 : D 0 = 0.
  Proof. unfold D. change (2 ^ 0)%nat with 1%nat. rewrite !Nat.mod_1_r. reflexivity. Qed.

  Lemma gatherDown_ok j : forall g r, gatherDown old new_ j = (g, r) ->
    (r <= j)%nat /\
    (forall t, In t g -> (r <= t < j)%nat /\ o t = true /\ n t = false) /\ NoDup g /\
    (forall t, (r <= t < j)%nat -> o t = true -> n t = true \/ In t g) /\
    (forall t, (r <= t < j)%nat -> n t = true -> o t = true) /\
    (r = 0%nat \/ exists r', r = S r' /\ n r' = true /\ o r' = false) /\
    D j = D r - Z.of_nat (list_sum (map (fun t => 2 ^ t)%nat g)).
  Proof.
    induction j as [|j IH]; intros g r E; cbn in E.
    - injection E as <- <-. split; [lia|]. split; [intros t []|]. split; [constructor|].
      split; [intros; lia|]. split; [intros; lia|]. split; [left; auto|cbn; lia].
    - destruct (n j) eqn:Nj, (o j) eqn:Oj.
      + destruct (IH g r E) as (H1 & H2 & H3 & H4 & H5 & H6 & H7).
        split; [lia|]. split; [intros t Ht; destruct (H2 t Ht) as (A1 & A2 & A3); repeat split; auto; lia|].
        split; auto. split; [|split; [|split; auto]].
        * intros t Ht Ot. destruct (Nat.eq_dec t j) as [->|]; auto. apply H4; auto. lia.
        * intros t Ht Nt. destruct (Nat.eq_dec t j) as [->|]; auto. apply H5; auto. lia.
        * rewrite D_S, Nj, Oj, H7. lia.
      + injection E as <- <-. split; [lia|]. split; [intros t []|]. split; [constructor|].
        split; [intros; lia|]. split; [intros; lia|]. split; [right; exists j; auto|cbn; lia].
      + destruct (gatherDown old new_ j) as [l r'] eqn:G. injection E as <- <-.
        destruct (IH l r' eq_refl) as (H1 & H2 & H3 & H4 & H5 & H6 & H7).
        split; [lia|]. split; [|split; [|split; [|split; [|split; auto]]]].
        * intros t [<- | Ht]; [repeat split; auto; lia|]. destruct (H2 t Ht) as (A1 & A2 & A3); repeat split; auto; lia.
        * constructor; auto. intros Hj. apply H2 in Hj. lia.
        * intros t Ht Ot. destruct (Nat.eq_dec t j) as [->|]; [right; left; auto|].
          destruct (H4 t) as [|]; auto; [lia|]. right. right. auto.
        * intros t Ht Nt. destruct (Nat.eq_dec t j) as [->|]; [congruence|]. apply H5; auto. lia.
        * rewrite D_S, Nj, Oj, H7. cbn [map list_sum fold_right bitv]. change (fold_right Nat.add 0%nat) with list_sum. lia.
      + destruct (IH g r E) as (H1 & H2 & H3 & H4 & H5 & H6 & H7).
        split; [lia|]. split; [intros t Ht; destruct (H2 t Ht) as (A1 & A2 & A3); repeat split; auto; lia|].
        split; auto. split; [|split; [|split; auto]].
        * intros t Ht Ot. destruct (Nat.eq_dec t j) as [->|]; [congruence|]. apply H4; auto. lia.
        * intros t Ht Nt. destruct (Nat.eq_dec t j) as [->|]; [congruence|]. apply H5; auto. lia.
        * rewrite D_S, Nj, Oj, H7. cbn. lia.
  Qed.

  Lemma gatherDown_sum j : forall g r, gatherDown old new_ j = (g, r) ->
    (list_sum (map (fun t => 2 ^ t) g) + 2 ^ r <= 2 ^ j)%nat.
  Proof.
    induction j as [|j IH]; intros g r E; cbn [gatherDown] in E.
    - injection E as <- <-. cbn. lia.
    - pose proof (Nat.pow_succ_r' 2 j). destruct (n j) eqn:Nj, (o j) eqn:Oj.
      + specialize (IH g r E). lia.
      + injection E as <- <-. cbn [map list_sum fold_right]. lia.
      + destruct (gatherDown old new_ j) as [l r']. injection E as <- <-. specialize (IH l r' eq_refl).
        cbn [map list_sum fold_right]. change (fold_right Nat.add 0%nat) with list_sum. lia.
      + specialize (IH g r E). lia.
  Qed.

  Lemma D_pos_10 r : n r = true -> o r = false -> 0 < D (S r).
  Proof. intros H1 H2. rewrite D_S, H1, H2. cbn [bitv]. pose proof (D_bound r). lia. Qed.

  Lemma sum_scale g : list_sum (map (fun t => 2 ^ t * B)%nat g) = (list_sum (map (fun t => 2 ^ t) g) * B)%nat.
  Proof. induction g as [|x g IH]; cbn; auto. change (fold_right Nat.add 0%nat) with list_sum in *. rewrite IH. lia. Qed.

  (** What the list of moves made from slot [i] down satisfies. *)
  Record movesOk (i : nat) (pend rem : nat) (ub : bool) (ms : list move) : Prop := {
    mo_lt : forall m t, In m ms -> In t (feet m) -> (t < i)%nat;
    mo_nodup : NoDup (flat_map feet ms);
    mo_new : forall m, In m ms -> n (mv_new m) = true /\ o (mv_new m) = false;
    mo_trees : forall m t, In m ms -> In t (mv_trees m) -> o t = true /\ n t = false;
    mo_all_new : forall t, (t < i)%nat -> n t = true -> o t = true \/ In t (map mv_new ms);
    mo_all_old : forall t, (t < i)%nat -> o t = true -> n t = true \/ In t (flat_map mv_trees ms);
    mo_size : forall m, In m ms -> (mv_s m <= mv_e m)%nat /\
      (mv_e m - mv_s m + (if mv_buf m then bsz else 0) + list_sum (map (fun t => 2 ^ t * B) (mv_trees m)) = 2 ^ mv_new m * B)%nat;
    mo_pos : forall m, In m ms -> (list_sum (map (fun t => 2 ^ t * B) (mv_trees m)) < 2 ^ mv_new m * B)%nat;
    mo_end : forall m, In m ms -> (mv_e m <= pend)%nat;
    mo_buf : length (filter mv_buf ms) = (if ub then 1 else 0)%nat;
    mo_chain : exists l, l = map (fun m => (mv_s m, mv_e m)) ms /\
      forall A (pts : list A), Permutation (slice rem pend pts) (flat_map (fun p => slice (fst p) (snd p) pts) l) /\
        (rem <= pend)%nat
  }.

  Definition owes (fb : Z) : nat := if useb && (0 <? fb) then bsz else 0%nat.

  Theorem planLoop_exact rem : forall fuel i fb pend acc, (i < fuel)%nat -> fb = D i -> 0 <= fb ->
    Z.of_nat pend + Z.of_nat (owes fb) = fb * Z.of_nat B + Z.of_nat rem ->
    exists ms, planLoop B old new_ useb bsz fuel i fb pend acc = Ok (0, rem, acc ++ ms) /\
      movesOk i pend rem (useb && (0 <? fb)) ms.
  Proof.
    induction fuel as [|f IH]; intros i fb pend acc Hf Hfb H0 Hp; [lia|].
    destruct i as [|i].
    - rewrite D_0 in Hfb. subst fb. unfold owes in *. cbn in *. rewrite andb_false_r in *. exists [].
      rewrite app_nil_r. replace pend with rem by lia. split; auto.
      constructor; cbn; try (intros; contradiction || lia); auto; [constructor|].
      exists []. split; auto. intros A pts. unfold slice. rewrite Nat.sub_diag. cbn. auto.
    - cbn [planLoop]. destruct (n i) eqn:Ni, (o i) eqn:Oi; cbn [andb negb].
      + destruct (IH i fb pend acc) as (ms & E & M); auto; [lia|rewrite D_S, Ni, Oi in Hfb; lia|].
        exists ms. split; auto. destruct M as [M1 M2 M3 M4 M5 M6 M7 Mp Me M8 M9]. constructor; auto.
        * intros m t Hm Ht. specialize (M1 m t Hm Ht). lia.
        * intros t Ht Nt. destruct (Nat.eq_dec t i) as [->|]; auto. apply M5; auto. lia.
        * intros t Ht Ot. destruct (Nat.eq_dec t i) as [->|]; auto. apply M6; auto. lia.
      + destruct (gatherDown old new_ i) as [g r] eqn:G.
        destruct (gatherDown_ok i G) as (H1 & H2 & H3 & H4 & H5 & H6 & H7).
        rewrite sum_scale. set (sg := list_sum (map (fun t => 2 ^ t)%nat g)) in *.
        pose proof (D_bound i) as DB. pose proof (D_bound r) as DR.
        rewrite D_S, Ni, Oi in Hfb. cbn [bitv] in Hfb.
        assert (Dr : 0 <= D r /\ (D r = 0 -> r = 0%nat)).
        { destruct H6 as [-> | (r' & -> & A1 & A2)]; [rewrite D_0; lia|]. pose proof (D_pos_10 r' A1 A2). lia. }
        assert (Hsg : (sg < 2 ^ i)%nat)
          by (pose proof (gatherDown_sum i G) as Q; fold sg in Q; pose proof (pow2_pos r); lia).
        assert (HsgB : (sg * B + B <= 2 ^ i * B)%nat) by nia.
        destruct (Nat.ltb_spec (2 ^ i * B) (sg * B)) as [C|_]; [lia|].
        replace (2 ^ i * B - sg * B)%nat with ((2 ^ i - sg) * B)%nat by nia.
        rewrite Nat.div_mul by lia.
        set (k := (2 ^ i - sg)%nat) in *. assert (Hk : (1 <= k)%nat) by lia.
        assert (HkB : (B <= k * B)%nat) by nia.
        assert (Hfb' : fb - Z.of_nat k = D r) by lia.
        assert (Hpos : 0 < fb) by lia.
        unfold owes in Hp. rewrite (proj2 (Z.ltb_lt _ _) Hpos), andb_true_r in Hp.
        assert (Hbs : (k * B <? bsz)%nat = false) by (apply Nat.ltb_ge; lia). rewrite Hbs, andb_false_r.
        set (ub := useb && (fb - Z.of_nat k =? 0)) in *.
        set (num' := (if ub then k * B - bsz else k * B)%nat).
        assert (Hmul : (fb - Z.of_nat k) * Z.of_nat B = fb * Z.of_nat B - Z.of_nat (k * B)) by nia.
        assert (Hge : (pend >= num')%nat /\
          Z.of_nat (pend - num') + Z.of_nat (owes (fb - Z.of_nat k)) = (fb - Z.of_nat k) * Z.of_nat B + Z.of_nat rem).
        { unfold num', ub, owes. rewrite Hmul. destruct useb; cbn [andb].
          - destruct (Z.eqb_spec (fb - Z.of_nat k) 0) as [Z0 | Z0].
            + rewrite Z0. cbn. assert (fb * Z.of_nat B = Z.of_nat (k * B)) by nia. lia.
            + rewrite (proj2 (Z.ltb_lt 0 (fb - Z.of_nat k))) by lia.
              assert (Z.of_nat B <= (fb - Z.of_nat k) * Z.of_nat B) by nia. lia.
          - assert (0 <= (fb - Z.of_nat k) * Z.of_nat B) by nia. lia. }
        destruct Hge as [Hge Hp'].
        destruct (Nat.ltb_spec pend num') as [C|_]; [lia|].
        destruct (IH r (fb - Z.of_nat k) (pend - num')%nat (acc ++ [mkMove ub (pend - num') pend g i])) as (ms & E & M);
          auto; [lia|lia|].
        exists (mkMove ub (pend - num') pend g i :: ms). rewrite E, <- app_assoc. split; auto.
        destruct M as [M1 M2 M3 M4 M5 M6 M7 Mp Me M8 M9].
        assert (Hg : ~ In i g) by (intros Hi; apply H2 in Hi; lia).
        assert (Hin : forall t, In t (flat_map feet ms) -> (t < r)%nat).
        { intros t Ht. apply in_flat_map in Ht as (m & Hm & Ht). eauto. }
        constructor.
        * intros m t [<- | Hm] Ht; [|specialize (M1 m t Hm Ht); lia].
          destruct Ht as [<- | Ht]; cbn; [lia|]. apply H2 in Ht. lia.
        * cbn [flat_map feet]. apply NoDup_app_intro; auto.
          -- constructor; auto.
          -- intros x [<- | Hx] Hy; apply Hin in Hy; cbn in *; [lia|]. apply H2 in Hx. lia.
        * intros m [<- | Hm]; cbn; auto.
        * intros m t [<- | Hm] Ht; [|eauto]. cbn in Ht. apply H2 in Ht. tauto.
        * intros t Ht Nt. destruct (Nat.eq_dec t i) as [->|]; [right; left; reflexivity|].
          destruct (le_lt_dec r t); [left; apply H5; auto; lia|].
          destruct (M5 t) as [|]; auto. right. right. auto.
        * intros t Ht Ot. destruct (Nat.eq_dec t i) as [->|]; [congruence|].
          cbn [flat_map mv_trees]. rewrite in_app_iff.
          destruct (le_lt_dec r t); [destruct (H4 t) as [|]; auto; lia|].
          destruct (M6 t) as [|]; auto.
        * intros m [<- | Hm]; auto. cbn [mv_s mv_e mv_buf mv_trees mv_new]. split; [lia|]. rewrite sum_scale. fold sg.
          unfold num'. unfold ub in *. destruct (useb && (fb - Z.of_nat k =? 0)); nia.
        * intros m [<- | Hm]; auto. cbn [mv_trees mv_new]. rewrite sum_scale. fold sg. lia.
        * intros m [<- | Hm]; cbn [mv_e]; auto. specialize (Me m Hm). lia.
        * cbn [filter mv_buf]. destruct useb; cbn [andb] in *.
          -- rewrite (proj2 (Z.ltb_lt _ _) Hpos). unfold ub.
             destruct (Z.eqb_spec (fb - Z.of_nat k) 0) as [Z0 | Z0].
             ++ rewrite Z0 in M8. cbn [length]. rewrite M8. reflexivity.
             ++ rewrite M8. rewrite (proj2 (Z.ltb_lt 0 (fb - Z.of_nat k))) by lia. reflexivity.
          -- unfold ub. exact M8.
        * destruct M9 as (l & El & HM). eexists. split; [reflexivity|]. intros A pts.
          destruct (HM A pts) as [P L]. split; [|lia]. rewrite (@slice_split A rem (pend - num') pend pts) by lia.
          cbn [map flat_map fst snd mv_s mv_e]. rewrite <- El. rewrite Permutation_app_comm. apply Permutation_app_head. exact P.
      + exfalso. rewrite D_S, Ni, Oi in Hfb. cbn [bitv] in Hfb. pose proof (D_bound i). lia.
      + destruct (IH i fb pend acc) as (ms & E & M); auto; [lia|rewrite D_S, Ni, Oi in Hfb; cbn in Hfb; lia|].
        exists ms. split; auto. destruct M as [M1 M2 M3 M4 M5 M6 M7 Mp Me M8 M9]. constructor; auto.
        * intros m t Hm Ht. specialize (M1 m t Hm Ht). lia.
        * intros t Ht Nt. destruct (Nat.eq_dec t i) as [->|]; [congruence|]. apply M5; auto. lia.
        * intros t Ht Ot. destruct (Nat.eq_dec t i) as [->|]; [congruence|]. apply M6; auto. lia.
  Qed.

  (** When the sum does not fit, something is left over. *)
  Theorem planLoop_over rem : forall fuel i fb pend acc, (i < fuel)%nat -> D i + Z.of_nat (2 ^ i) <= fb ->
    Z.of_nat pend + Z.of_nat (if useb then bsz else 0%nat) = fb * Z.of_nat B + Z.of_nat rem ->
    exists fb' pend' ms, planLoop B old new_ useb bsz fuel i fb pend acc = Ok (fb', pend', ms) /\ 0 < fb'.
  Proof.
    induction fuel as [|f IH]; intros i fb pend acc Hf Hfb Hp; [lia|].
    destruct i as [|i].
    - rewrite D_0 in Hfb. cbn in Hfb. cbn. eexists _, _, _. split; [reflexivity|]. lia.
    - cbn [planLoop]. rewrite D_S, Nat.pow_succ_r' in Hfb. destruct (n i) eqn:Ni, (o i) eqn:Oi; cbn [andb negb bitv] in *.
      + apply IH; auto; lia.
      + destruct (gatherDown old new_ i) as [g r] eqn:G.
        destruct (gatherDown_ok i G) as (H1 & H2 & H3 & H4 & H5 & H6 & H7).
        rewrite sum_scale. set (sg := list_sum (map (fun t => 2 ^ t)%nat g)) in *.
        pose proof (D_bound i) as DB. pose proof (D_bound r) as DR.
        assert (Dr : 0 <= D r /\ (D r = 0 -> r = 0%nat)).
        { destruct H6 as [-> | (r' & -> & A1 & A2)]; [rewrite D_0; lia|]. pose proof (D_pos_10 r' A1 A2). lia. }
        assert (Hsg : (sg < 2 ^ i)%nat)
          by (pose proof (gatherDown_sum i G) as Q; fold sg in Q; pose proof (pow2_pos r); lia).
        assert (HsgB : (sg * B + B <= 2 ^ i * B)%nat) by nia.
        destruct (Nat.ltb_spec (2 ^ i * B) (sg * B)) as [C|_]; [lia|].
        replace (2 ^ i * B - sg * B)%nat with ((2 ^ i - sg) * B)%nat by nia.
        rewrite Nat.div_mul by lia.
        set (k := (2 ^ i - sg)%nat) in *.
        assert (Hr : (2 ^ r <= 2 ^ i)%nat) by (apply Nat.pow_le_mono_r; lia).
        assert (Hfb' : D r + Z.of_nat (2 ^ r) <= fb - Z.of_nat k) by lia.
        assert (Hnz : (fb - Z.of_nat k =? 0) = false) by (apply Z.eqb_neq; pose proof (pow2_pos r); lia).
        rewrite Hnz, andb_false_r. cbn [andb].
        assert (Hmul : (fb - Z.of_nat k) * Z.of_nat B = fb * Z.of_nat B - Z.of_nat (k * B)) by nia.
        assert (Z.of_nat B <= (fb - Z.of_nat k) * Z.of_nat B) by (pose proof (pow2_pos r); nia).
        assert (Hge : (k * B <= pend)%nat) by (destruct useb; lia).
        destruct (Nat.ltb_spec pend (k * B)) as [C|_]; [lia|].
        apply IH; auto; [lia|]. rewrite Hmul. lia.
      + apply IH; auto; lia.
      + apply IH; auto; lia.
  Qed.
End Plan.
