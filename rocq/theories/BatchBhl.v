(** The heap-layout build: correct, within an array of [2 * 2^j - 1] nodes. *)
From Verif Require Import Base Num KdModel KdSplit BatchSplit BatchAddr BatchModel BatchSlice BatchLoop BatchCo BatchBuild.
Set Implicit Arguments.

(** [x] is a descendant of [k] at depth at most [j] in the heap numbering. *)
Definition desc (j k x : nat) : Prop :=
  exists d, d <= j /\ (k + 1) * 2 ^ d <= x + 1 /\ x + 1 < (k + 2) * 2 ^ d.

Lemma desc_self j k : desc j k k.
Proof. exists 0. simpl. lia. Qed.
Lemma desc_left j k x : desc j (2 * k + 1) x -> desc (S j) k x.
Proof. intros (d & H1 & H2 & H3). exists (S d). rewrite Nat.pow_succ_r'. split; [lia|]. nia. Qed.
Lemma desc_right j k x : desc j (2 * k + 2) x -> desc (S j) k x.
Proof. intros (d & H1 & H2 & H3). exists (S d). rewrite Nat.pow_succ_r'. split; [lia|]. nia. Qed.
Lemma desc_ne_l j k : ~ desc j (2 * k + 1) k.
Proof. intros (d & _ & H & _). pose proof (pow2_pos d). nia. Qed.
Lemma desc_ne_r j k : ~ desc j (2 * k + 2) k.
Proof. intros (d & _ & H & _). pose proof (pow2_pos d). nia. Qed.
Lemma desc_disj j k x : desc j (2 * k + 1) x -> desc j (2 * k + 2) x -> False.
Proof.
  intros (d & _ & H1 & H2) (d' & _ & H3 & H4).
  destruct (Nat.le_gt_cases d d') as [H | H].
  - assert (2 ^ d <= 2 ^ d') by (apply Nat.pow_le_mono_r; lia). nia.
  - assert (2 ^ S d' <= 2 ^ d) by (apply Nat.pow_le_mono_r; lia).
    rewrite Nat.pow_succ_r' in H0. nia.
Qed.
Lemma desc_root j x : desc j 0 x -> x < 2 * 2 ^ j - 1.
Proof.
  intros (d & H1 & H2 & H3). assert (2 ^ d <= 2 ^ j) by (apply Nat.pow_le_mono_r; lia). lia.
Qed.

Section Bhl.
  Variable N : Num.
  Variable dim : nat.
  Variable A : Type.
  Variable pt : A -> list (nT N).
  Variable okI : A -> Prop.
  Notation nodes := (nodes N).
  Notation ktOk := (ktOk N dim pt).
  Hypothesis Hdim : 0 < dim.
  Variable ls : nat.
  Hypothesis Hls : 1 <= ls.
  Variable msplit : nat -> list A -> res (list A * nT N).
  Hypothesis Hms : msplit_ok N dim pt okI msplit.

  Definition bhlOk (its : list A) (ns : nodes) (j k sd s n : nat) : Prop :=
    exists tr al, rep ns k tr al /\ NoDup al /\ (forall x, In x al -> desc j k x) /\
      ktOk ls its s n sd tr.

  Lemma bhl_ok j : forall f s e k sd its ns, j < f -> s < e -> e - s <= 2 ^ j -> e <= length its ->
    sd < dim -> (forall x, In x its -> okI x) ->
    exists its' ns', bhlBuild dim ls msplit f s e k sd (its, ns) = Ok (its', ns') /\
      sperm s e its its' /\ (forall x, ~ desc j k x -> ns' x = ns x) /\
      bhlOk its' ns' j k sd s (e - s).
  Proof.
    induction j as [|j IH]; intros f s e k sd its ns Hf Hse Hn He Hsd Hok;
      (destruct f as [|f]; [lia|]); cbn [bhlBuild].
    - simpl in Hn. destruct (Nat.leb_spec (e - s) ls) as [Hl | Hl]; [|lia].
      destruct (@placeLeaf_ok N dim A pt Hdim ls Hls s e k sd its ns) as (ns' & P1 & P2 & P3); auto.
      rewrite P1. cbn [bind]. exists its, ns'. split; [reflexivity|]. split; [apply sperm_refl|]. split.
      + intros x Hx. apply P2. destruct (Nat.eq_dec x k) as [-> | ]; [|lia]. destruct Hx. apply desc_self.
      + destruct P3 as (tr & al & Q1 & Q2 & Q3 & Q4). exists tr, al. split; auto. split; auto. split; auto.
        intros x Hx. apply Q3 in Hx. replace x with k by lia. apply desc_self.
    - rewrite Nat.pow_succ_r' in Hn. destruct (Nat.leb_spec (e - s) ls) as [Hl | Hl].
      + destruct (@placeLeaf_ok N dim A pt Hdim ls Hls s e k sd its ns) as (ns' & P1 & P2 & P3); auto.
        rewrite P1. cbn [bind]. exists its, ns'. split; [reflexivity|]. split; [apply sperm_refl|]. split.
        * intros x Hx. apply P2. destruct (Nat.eq_dec x k) as [-> | ]; [|lia]. destruct Hx. apply desc_self.
        * destruct P3 as (tr & al & Q1 & Q2 & Q3 & Q4). exists tr, al. split; auto. split; auto. split; auto.
          intros x Hx. apply Q3 in Hx. replace x with k by lia. apply desc_self.
      + destruct (@placeSplit_ok N dim A pt okI Hdim ls Hls msplit s e k sd its ns Hms) as (its1 & ns1 & E1 & S1 & F1 & sv & K1 & SO); auto; [lia|].
        rewrite E1. cbn [bind fst snd]. set (n := e - s) in *. set (m := s + n / 2).
        assert (Hh : 2 * (n / 2) <= n) by (apply Nat.mul_div_le; lia).
        assert (Hh2 : n < 2 * (n / 2) + 2) by (pose proof (Nat.mod_upper_bound n 2); pose proof (Nat.div_mod n 2); lia).
        assert (Hl1 : length its1 = length its) by (destruct S1; auto).
        assert (Hok1 : forall x, In x its1 -> okI x) by (eapply okI_sperm; [ |exact He|exact S1|]; auto; lia).
        assert (Hsd' : (sd + 1) mod dim < dim) by (apply Nat.mod_upper_bound; lia).
        unfold setLeft at 1. rewrite K1. cbn [bind].
        match goal with |- context [bhlBuild dim ls msplit f s m (2 * k + 1) _ (its1, ?x)] => set (nsA := x) end.
        destruct (IH f s m (2 * k + 1) ((sd + 1) mod dim) its1 nsA) as (its2 & ns2 & E2 & S2 & F2 & tl & al1 & L1 & L2 & L3 & L4);
          auto; try (unfold m; lia).
        rewrite E2. cbn [bind fst snd].
        assert (Hl2 : length its2 = length its1) by (destruct S2; auto).
        assert (Hok2 : forall x, In x its2 -> okI x).
        { eapply okI_sperm; [ | |exact S2|]; auto; unfold m; lia. }
        assert (K2 : ns2 k = Some (mkCn s e (Some (sd, sv)) (Some (2 * k + 1)) None)).
        { rewrite F2 by apply desc_ne_l. unfold nsA, nset. rewrite Nat.eqb_refl. reflexivity. }
        unfold setRight at 1. rewrite K2. cbn [bind].
        match goal with |- context [bhlBuild dim ls msplit f m e (2 * k + 2) _ (its2, ?x)] => set (nsB := x) end.
        destruct (IH f m e (2 * k + 2) ((sd + 1) mod dim) its2 nsB) as (its3 & ns3 & E3 & S3 & F3 & tr & al2 & R1 & R2 & R3 & R4);
          auto; try (unfold m; lia).
        replace (e - m) with (n - n / 2) in R4 by (unfold m; lia).
        replace (m - s) with (n / 2) in L4 by (unfold m; lia).
        exists its3, ns3. split; [exact E3|].
        assert (W2 : sperm s e its1 its2) by (eapply sperm_wider; [|exact S2| |]; unfold m; lia).
        assert (W3 : sperm s e its2 its3) by (eapply sperm_wider; [|exact S3| |]; unfold m; lia).
        split; [eapply sperm_trans; [exact S1|]; eapply sperm_trans; eauto|].
        assert (K3 : ns3 k = Some (mkCn s e (Some (sd, sv)) (Some (2 * k + 1)) (Some (2 * k + 2)))).
        { rewrite F3 by apply desc_ne_r. unfold nsB, nset. rewrite Nat.eqb_refl. reflexivity. }
        assert (FB : forall x, x <> k -> nsB x = ns2 x).
        { intros x Hx. unfold nsB, nset. destruct (Nat.eqb_spec x k); [lia|reflexivity]. }
        assert (FA : forall x, x <> k -> nsA x = ns x).
        { intros x Hx. unfold nsA, nset. destruct (Nat.eqb_spec x k); [lia|]. apply F1. lia. }
        split.
        { intros x Hx. assert (Hxk : x <> k) by (intros ->; apply Hx, desc_self).
          rewrite F3 by (intros G; apply Hx, desc_right; auto).
          rewrite FB by auto. rewrite F2 by (intros G; apply Hx, desc_left; auto). apply FA; auto. }
        exists (KNode sd sv s e tt tl tr), (k :: al1 ++ al2).
        split; [|split; [|split]].
        { cbn [rep]. exists (2 * k + 1), (2 * k + 2), al1, al2. split; auto. split; auto. split; auto.
          eapply rep_frame; [exact L1|]. intros x Hx. apply L3 in Hx.
          rewrite F3 by (intros G; eapply desc_disj; eauto). apply FB.
          intros ->. eapply desc_ne_l; eauto. }
        { constructor.
          - intros Hin. apply in_app_iff in Hin. destruct Hin as [Hin | Hin].
            + eapply desc_ne_l; apply L3; eauto.
            + eapply desc_ne_r; apply R3; eauto.
          - apply NoDup_app_intro; auto. intros x G1 G2. eapply desc_disj; eauto. }
        { intros x [<- | Hx]; [apply desc_self|]. apply in_app_iff in Hx.
          destruct Hx as [Hx | Hx]; [apply desc_left; auto|apply desc_right; auto]. }
        { cbn [BatchModel.ktOk]. split; auto. split; [unfold n; lia|]. split; auto. split; auto.
          split; [|split].
          - assert (P1 : Permutation (slice s m its1) (slice s m its3)).
            { eapply Permutation_trans; [apply S2|]. rewrite (sperm_same S3) by lia. auto. }
            assert (P2 : Permutation (slice m e its1) (slice m e its3)).
            { rewrite <- (@sperm_same _ s m its1 its2 m e S2) by lia. apply S3. }
            eapply splitOk_perm; [exact P1| |exact SO].
            replace (s + n) with e by (unfold n; lia). exact P2.
          - eapply ktOk_frame; [exact Hdim| | |exact L4]; [destruct S3; auto|].
            intros x Hx. destruct S3 as (_ & S3 & _). apply S3. unfold m. lia.
          - exact R4. }
  Qed.
End Bhl.
