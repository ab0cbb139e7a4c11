(** The first outline, and what the last one says. *)
From Coq Require Import Reals Lra List Bool Arith Lia Permutation.
From Verif Require Import Base Num Hull2dModel Hull2dQuick H2IncModel H2IncGeom H2IncSide H2IncTok H2IncSeg H2IncInv H2IncStep H2IncRun.
From Verif Require H3Model.
Set Implicit Arguments.
Open Scope R_scope.

Definition minmax2_ok (mm : (p2 -> p2 -> bool) -> list p2 -> nat * nat) : Prop :=
  forall lt P, swo lt -> P <> [] -> (fst (mm lt P) < length P)%nat /\ (snd (mm lt P) < length P)%nat /\
    forall p, In p P -> lt p (nth (fst (mm lt P)) P (0, 0)) = false /\ lt (nth (snd (mm lt P)) P (0, 0)) p = false.

(** *** What an outline is *)
Definition rightOf (a b q : R * R) : Prop := (fst b - fst a) * (snd q - snd a) - (snd b - snd a) * (fst q - fst a) <= 0.
Definition follows (L : list (R * R)) (a b : R * R) : Prop := exists l1 l2, L ++ firstn 1 L = l1 ++ a :: b :: l2.
Definition extremal (P : list (R * R)) (v : R * R) : Prop := In v P /\ exists a b, forall w, In w P -> w <> v -> a * fst w + b * snd w < a * fst v + b * snd v.
Definition outline (P L : list (R * R)) : Prop :=
  L <> [] /\ incl L P /\ (forall a b q, follows L a b -> In q P -> rightOf a b q) /\ forall v, extremal P v -> In v L.

Lemma xLt_swo : swo (@xLt RNum).
Proof.
  unfold swo, xLt, eqn. cbn [nlt nle RNum]. split; [|split].
  - intros x. rewrite (proj2 (Rltb_false _ _)) by lra. rewrite (proj2 (Rltb_false (snd x) (snd x))) by lra. rewrite andb_false_r. auto.
  - intros x y z A B. apply orb_true_iff in A. apply orb_true_iff in B. apply orb_true_iff. rewrite !andb_true_iff, !Rltb_true, !Rleb_true in *. destruct A as [A|[[A A'] A2]], B as [B|[[B B'] B2]]; [left|left|left|right]; lra.
  - intros x y z A. apply orb_true_iff in A. rewrite !orb_true_iff, !andb_true_iff, !Rltb_true, !Rleb_true in *. destruct (Rtotal_order (fst x) (fst y)) as [L|[L|L]], (Rtotal_order (fst y) (fst z)) as [M|[M|M]]; auto; try (exfalso; lra).
    destruct A as [A|[_ A]]; [exfalso; lra|]. destruct (Rlt_dec (snd x) (snd y)); [left; right|right; right]; repeat split; lra.
Qed.
Definition swp (p : p2) : p2 := (snd p, fst p).
Lemma yLt_swo : swo (@yLt RNum).
Proof. destruct xLt_swo as (A & B & C). split; [|split]; [intros x; apply (A (swp x))|intros x y z; apply (B (swp x) (swp y) (swp z))|intros x y z; apply (C (swp x) (swp y) (swp z))]. Qed.
Lemma xLt_false a b : @xLt RNum a b = false -> fst b <= fst a.
Proof. unfold xLt. intros H. apply orb_false_iff in H. destruct H as (H & _). cbn [nlt RNum] in H. apply Rltb_false in H. auto. Qed.
Lemma yLt_false a b : @yLt RNum a b = false -> snd b <= snd a.
Proof. apply (@xLt_false (swp a) (swp b)). Qed.

Lemma in_seeing j (l : list (option nat)) q : In q (seeing j l) <-> nth_error l q = Some (Some j).
Proof.
  unfold seeing. rewrite in_map_iff.
  assert (X : forall s (l : list (option nat)) a o, In (a, o) (combine (seq s (length l)) l) <-> (s <= a)%nat /\ nth_error l (a - s) = Some o).
  { clear. intros s l. revert s. induction l as [|c l IH]; intros s a o; cbn; [destruct (a - s)%nat; split; [tauto|intros (_ & H); discriminate|tauto|intros (_ & H); discriminate]|]. rewrite IH. split.
    - intros [H|(L & H)]; [injection H as -> ->; rewrite Nat.sub_diag; auto|]. split; [lia|]. replace (a - s)%nat with (S (a - S s)) by lia. auto.
    - intros (L & H). destruct (a - s)%nat as [|d] eqn:E; cbn in H; [injection H as ->; left; f_equal; lia|]. right. split; [lia|]. replace (a - S s)%nat with d by lia. auto. }
  split.
  - intros ((a & o) & E & H). cbn in E. subst a. apply filter_In in H. destruct H as (H & C). apply X in H. rewrite Nat.sub_0_r in H. destruct H as (_ & H). cbn in C. destruct o as [c|]; [|discriminate]. apply Nat.eqb_eq in C. subst. auto.
  - intros H. exists (q, Some j). split; auto. apply filter_In. split; [apply X; rewrite Nat.sub_0_r; split; [lia|auto]|]. cbn. apply Nat.eqb_refl.
Qed.

Section Main.
  Variable V : list p2.
  Variable eps : R.
  Hypothesis eps0 : 0 <= eps.
  Hypothesis sep : forall a b c, In a V -> In b V -> In c V -> 0 < ar a b c -> eps < ar a b c.
  Hypothesis V0 : V <> [].
  Variable mm : (p2 -> p2 -> bool) -> list p2 -> nat * nat.
  Hypothesis Hmm : minmax2_ok mm.
  Notation pnt := (pnt V). Notation edge := (edge V). Notation edges := (edges V).

  Definition xmn := fst (mm (@xLt RNum) V). Definition xmx := snd (mm (@xLt RNum) V).
  Definition ymn := fst (mm (@yLt RNum) V). Definition ymx := snd (mm (@yLt RNum) V).
  Definition cid (k : nat) : nat := match k with 1 => ymx | 2 => xmx | 3 => ymn | _ => xmn end%nat.
  Definition cor (k : nat) : p2 := pnt (cid k).
  Lemma cid_lt k : (cid k < length V)%nat.
  Proof. destruct (Hmm xLt_swo V0) as (A & B & _). destruct (Hmm yLt_swo V0) as (C & D & _). destruct k as [|[|[|[|k]]]]; auto. Qed.
  Lemma cor_in k : In (cor k) V.
  Proof. apply pnt_in, cid_lt. Qed.
  Lemma ends_ok q : In q V -> fst (cor 0) <= fst q /\ fst q <= fst (cor 2) /\ snd (cor 3) <= snd q /\ snd q <= snd (cor 1).
  Proof.
    intros I. destruct (Hmm xLt_swo V0) as (_ & _ & X). destruct (X q I) as (X1 & X2). destruct (Hmm yLt_swo V0) as (_ & _ & Y). destruct (Y q I) as (Y1 & Y2).
    apply xLt_false in X1. apply xLt_false in X2. apply yLt_false in Y1. apply yLt_false in Y2. auto.
  Qed.
  Lemma box k q : (k < 4)%nat -> In q V -> boxK k (cor k) (cor (S k)) q.
  Proof.
    intros K I. destruct (@ends_ok _ I) as (A & B & C & D). unfold boxK. destruct k as [|[|[|[|k]]]]; cbn [rk]; unfold rot; cbn [fst snd]; [| | | |lia]; change (cor 4) with (cor 0); lra.
  Qed.
  Lemma only_one q : In q V -> forall j k, (j < k)%nat -> (k < 4)%nat -> 0 < ar (cor j) (cor (S j)) q -> 0 < ar (cor k) (cor (S k)) q -> False.
  Proof.
    intros I j k JK K Sj Sk. assert (Bx : forall c d, (c < 4)%nat -> boxK c (cor c) (cor (S c)) (cor d)) by (intros c d C; apply box; auto; apply cor_in).
    assert (J : (j < 4)%nat) by lia.
    destruct (@edge_seeK _ _ _ _ (@box _ _ J I) (Bx j j J) (Bx j (S j) J) Sj) as (E1 & E2). destruct (@edge_seeK _ _ _ _ (@box _ _ K I) (Bx k k K) (Bx k (S k) K) Sk) as (F1 & F2).
    destruct (@ends_ok _ I) as (q1 & q2 & q3 & q4). destruct (@ends_ok _ (cor_in 0)) as (a1 & a2 & a3 & a4). destruct (@ends_ok _ (cor_in 1)) as (b1 & b2 & b3 & b4). destruct (@ends_ok _ (cor_in 2)) as (c1 & c2 & c3 & c4). destruct (@ends_ok _ (cor_in 3)) as (d1 & d2 & d3 & d4).
    destruct j as [|[|[|j]]]; destruct k as [|[|[|[|k]]]]; try lia; change (cor 4) with (cor 0) in *; cbn [rk] in *; unfold rot in *; cbn [fst snd] in *; try lra.
    - apply (@opposite (cor 0) (cor 1) (cor 2) (cor 3) q); auto.
    - rewrite <- (rk_ar 1) in Sj, Sk. apply (@opposite (rk 1 (cor 1)) (rk 1 (cor 2)) (rk 1 (cor 3)) (rk 1 (cor 0)) (rk 1 q)); auto; cbn [rk]; unfold rot; cbn [fst snd]; lra.
  Qed.
  Lemma excl q : In q V -> forall j k, (j < 4)%nat -> (k < 4)%nat -> j <> k -> 0 < ar (cor j) (cor (S j)) q -> ar (cor k) (cor (S k)) q <= 0.
  Proof.
    intros I j k J K N Sj. apply Rnot_lt_le. intros Sk. destruct (le_lt_dec j k); [apply (@only_one q I j k); auto; lia|apply (@only_one q I k j); auto].
  Qed.

  Definition first4 : list fac := [Fac xmn ymx 3 1 [] None; Fac ymx xmx 0 2 [] None; Fac xmx ymn 1 3 [] None; Fac ymn xmn 2 0 [] None].
  Definition sees1 (q : nat) (i : nat) : bool := Rltb 0 (ar (cor i) (cor (S i)) (pnt q)).
  Definition fseen (q : nat) : option nat := if sees1 q 0 then Some 0%nat else if sees1 q 1 then Some 1%nat else if sees1 q 2 then Some 2%nat else if sees1 q 3 then Some 3%nat else None.
  Lemma vis4 i x q : nth_error first4 i = Some x -> (q < length V)%nat -> @visibleFrom RNum eps V x (pnt q) = Ok (sees1 q i).
  Proof.
    intros E L. assert (X : wf V x /\ edge x = (cor i, cor (S i))).
    { unfold first4 in E. destruct i as [|[|[|[|i]]]]; cbn in E; [injection E as <-..|]; [| | | |destruct i; discriminate]; (split; [split; [apply (cid_lt 0) || apply (cid_lt 1) || apply (cid_lt 2) || apply (cid_lt 3)|apply (cid_lt 0) || apply (cid_lt 1) || apply (cid_lt 2) || apply (cid_lt 3)]|reflexivity]). }
    destruct X as (W & Ed). rewrite (visibleFrom_ok eps (pnt q) W). f_equal. unfold sees1. pose proof (pnt_in V L) as Pq.
    assert (Ar : arE (edge x) (pnt q) = ar (cor i) (cor (S i)) (pnt q)) by (rewrite Ed; reflexivity).
    destruct (vis V eps x (pnt q)) eqn:Vx; symmetry; [apply Rltb_true; rewrite <- Ar; apply (vis_true eps0 sep (pnt q) W Pq); auto|apply Rltb_false; rewrite <- Ar; apply (vis_false eps0 sep (pnt q) W Pq); auto].
  Qed.
  Lemma firstSeen_ok q : (q < length V)%nat -> @firstSeen RNum eps V first4 (pnt q) 0 = Ok (fseen q).
  Proof.
    intros L. unfold fseen. unfold first4. cbn [firstSeen].
    rewrite (@vis4 0%nat _ q eq_refl L). cbn [bind]. destruct (sees1 q 0); auto. rewrite (@vis4 1%nat _ q eq_refl L). cbn [bind]. destruct (sees1 q 1); auto.
    rewrite (@vis4 2%nat _ q eq_refl L). cbn [bind]. destruct (sees1 q 2); auto. rewrite (@vis4 3%nat _ q eq_refl L). cbn [bind]. destruct (sees1 q 3); auto.
  Qed.
  Definition see0 : list (option nat) := map fseen (seq 0 (length V)).
  Lemma see0_nth q o : nth_error see0 q = Some o <-> (q < length V)%nat /\ o = fseen q.
  Proof.
    unfold see0. destruct (le_lt_dec (length V) q) as [L|L].
    - rewrite (proj2 (nth_error_None _ _)) by (rewrite map_length, seq_length; auto). split; [discriminate|intros (X & _); lia].
    - rewrite nth_error_map, (nth_error_nth' _ 0%nat) by (rewrite seq_length; auto). rewrite seq_nth by auto. cbn. split; [intros E; injection E; auto|intros (_ & ->); auto].
  Qed.
  Definition h0 : heap := [Some (Fac xmn ymx 3 1 (seeing 0 see0) None); Some (Fac ymx xmx 0 2 (seeing 1 see0) None); Some (Fac xmx ymn 1 3 (seeing 2 see0) None); Some (Fac ymn xmn 2 0 (seeing 3 see0) None)].
  Lemma init_eq : @init RNum eps V mm = Ok (St h0 see0 0).
  Proof.
    unfold init. pose proof (surjective_pairing (mm (@xLt RNum) V)) as Ex. pose proof (surjective_pairing (mm (@yLt RNum) V)) as Ey. fold xmn xmx in Ex. fold ymn ymx in Ey.
    replace (mm (xLt RNum) V) with (xmn, xmx) by (symmetry; exact Ex). replace (mm (yLt RNum) V) with (ymn, ymx) by (symmetry; exact Ey). fold first4.
    assert (E : mapR (fun p => @firstSeen RNum eps V first4 p 0) V = Ok see0).
    { assert (EV : V = map pnt (seq 0 (length V))).
      { clear. unfold H2IncSeg.pnt. induction V as [|x l IH]; auto. cbn [length seq map nth]. f_equal. rewrite <- seq_shift, map_map. exact IH. }
      transitivity (mapR (fun p => @firstSeen RNum eps V first4 p 0) (map pnt (seq 0 (length V)))); [f_equal; exact EV|].
      assert (G : forall l, (forall q, In q l -> (q < length V)%nat) -> mapR (fun p => @firstSeen RNum eps V first4 p 0) (map pnt l) = Ok (map fseen l)).
      { induction l as [|q l IH]; intros H; auto. cbn [map mapR]. rewrite (@firstSeen_ok q) by (apply H; left; auto). cbn [bind]. rewrite IH by (intros r Hr; apply H; right; auto). reflexivity. }
      apply G. intros q Hq. apply in_seq in Hq. lia. }
    etransitivity; [apply (f_equal (fun r => bind r _)); exact E|]. reflexivity.
  Qed.
  Definition T0 (k : nat) : list nat := [k].
  Lemma h0_live f : (f < 4)%nat -> exists x, live h0 f x /\ edge x = (cor f, cor (S f)) /\ fsee x = seeing f see0 /\ ftok x = None /\ wf V x.
  Proof.
    intros L. destruct f as [|[|[|[|f]]]]; [| | | |lia]; eexists; (split; [reflexivity|]); (split; [reflexivity|]); (split; [reflexivity|]); (split; [reflexivity|]); split; cbn [fp1 fp2]; apply (cid_lt 0) || apply (cid_lt 1) || apply (cid_lt 2) || apply (cid_lt 3).
  Qed.
  Lemma edges0 k : (k < 4)%nat -> edges h0 (T0 k) = [(cor k, cor (S k))].
  Proof. intros K. destruct (h0_live K) as (x & L & E & _). unfold T0, edges. cbn [map]. rewrite (facAt_live L), E. auto. Qed.
  Lemma init_inv : Inv V cor h0 see0 T0.
  Proof.
    constructor.
    - unfold see0. rewrite map_length, seq_length. auto.
    - cbn. repeat split; do 2 eexists; (split; [reflexivity|]); (split; [reflexivity|]); auto.
    - cbn. repeat (constructor; [cbn; lia|]). constructor.
    - intros f Hf. assert (F : (f < 4)%nat) by (cbn in Hf; lia). destruct (h0_live F) as (x & L & _ & Es & _ & W). exists x. split; auto. split; auto. rewrite Es. intros q. apply in_seeing.
    - intros f x L. pose proof (live_lt L) as F. cbn in F. destruct (h0_live F) as (y & Ly & _ & _ & Et & _). rewrite (live_fun L Ly). auto.
    - intros k K. split; [discriminate|]. rewrite edges0 by auto. apply first_side; apply box; auto; apply cor_in.
    - intros q f Sq. apply see0_nth in Sq. destruct Sq as (Lq & Eq). pose proof (pnt_in V Lq) as Pq.
      assert (F : (f < 4)%nat /\ 0 < ar (cor f) (cor (S f)) (pnt q)).
      { unfold fseen in Eq. destruct (sees1 q 0) eqn:S0; [injection Eq as ->; split; [lia|apply Rltb_true; auto]|]. destruct (sees1 q 1) eqn:S1; [injection Eq as ->; split; [lia|apply Rltb_true; auto]|].
        destruct (sees1 q 2) eqn:S2; [injection Eq as ->; split; [lia|apply Rltb_true; auto]|]. destruct (sees1 q 3) eqn:S3; [injection Eq as ->; split; [lia|apply Rltb_true; auto]|discriminate]. }
      destruct F as (F & Sf). destruct (h0_live F) as (x & L & Ed & Es & _ & W). exists f, x. split; auto. split; [left; auto|]. split; auto. split; [rewrite Es; apply in_seeing, see0_nth; auto|]. split; [rewrite Ed; exact Sf|].
      intros j J N e He. rewrite edges0 in He by auto. destruct He as [<-|[]]. apply (@excl _ Pq f j); auto.
    - intros q Sq k K e He. rewrite edges0 in He by auto. destruct He as [<-|[]]. apply see0_nth in Sq. destruct Sq as (_ & Eq). unfold fseen in Eq.
      destruct (sees1 q 0) eqn:S0; [discriminate|]. destruct (sees1 q 1) eqn:S1; [discriminate|]. destruct (sees1 q 2) eqn:S2; [discriminate|]. destruct (sees1 q 3) eqn:S3; [discriminate|].
      destruct k as [|[|[|[|k]]]]; [| | | |lia]; apply Rltb_false; auto.
  Qed.

  Variable shuf : nat -> forall X, list X -> list X.
  Hypothesis shuf_ok : forall k X (l : list X), Permutation l (shuf k l).
  Lemma hull_ok fuel workers numProc : (length V <= fuel)%nat -> (0 < workers)%nat ->
    exists s T, @hull RNum eps V shuf mm fuel workers numProc = Ok s /\ Inv V cor (sh s) (ssee s) T /\ In (sH s) (ring T) /\ forall q, (q < length V)%nat -> nth_error (ssee s) q = Some None.
  Proof.
    intros F W. unfold hull. rewrite init_eq. cbn [bind].
    apply (@loop_ok V eps eps0 sep cor box shuf shuf_ok fuel 0 _ (St h0 see0 0) T0).
    - apply init_inv.
    - cbn. auto.
    - destruct (Nat.eqb_spec numProc 0); lia.
    - apply NoDup_filter, seq_NoDup.
    - intros i. rewrite filter_In. split; [tauto|]. intros A. split; auto. apply alive_some in A. destruct A as (f & A). cbn [ssee] in A. apply see0_nth in A. apply in_seq. split; [apply Nat.le_0_l|apply A].
    - eapply Nat.le_trans; [apply filter_length_le|]. rewrite seq_length. exact F.
  Qed.

  Lemma corners_ok s T : Inv V cor (sh s) (ssee s) T -> In (sH s) (ring T) -> (forall q, (q < length V)%nat -> nth_error (ssee s) q = Some None) ->
    exists L, corners s = Ok L /\ (forall i, In i L -> (i < length V)%nat) /\ outline V (map pnt L).
  Proof.
    intros I Hs Done. set (h := sh s) in *. apply in_split in Hs. destruct Hs as (r1 & r2 & Er).
    set (l := r2 ++ r1). set (R' := sH s :: l).
    assert (Cy : cyc h R'). { unfold R', l. change (sH s :: r2 ++ r1) with ((sH s :: r2) ++ r1). apply cyc_rot. rewrite <- Er. apply (v_cyc I). }
    assert (Rin : forall f, In f R' <-> In f (ring T)) by (intros f; unfold R', l; rewrite Er; cbn [In]; rewrite !in_app_iff; cbn [In]; tauto).
    assert (ND : NoDup R'). { eapply Permutation_NoDup; [|apply (v_nd I)]. rewrite Er. apply Permutation_sym. unfold R', l. apply (Permutation_trans (Permutation_app_comm (sH s :: r2) r1)). auto. }
    assert (Lv : forall f, In f R' -> live h f (facAt h f) /\ wf V (facAt h f)). { intros f Hf. apply Rin in Hf. destruct (v_fac I f Hf) as (x & L & W & _). rewrite (facAt_live L). auto. }
    assert (Inn : forall f q, In f R' -> In q V -> arE (edge (facAt h f)) q <= 0).
    { intros f q Hf Hq. apply Rin, in_ring in Hf. destruct Hf as (k & K & Hf). apply (In_nth _ _ (0, 0)) in Hq. destruct Hq as (n & Ln & <-). apply (v_none I _ (Done n Ln) K). unfold edges. apply in_map_iff. eauto. }
    assert (Ew : walk (length h) h (sH s) (sH s) = Ok R').
    { unfold cyc, R' in Cy. cbn [firstn app] in Cy. apply walk_ok.
      - change (sH s :: l ++ [sH s]) with ((sH s :: l) ++ [sH s]) in Cy. apply path_left in Cy. exact Cy.
      - intros f Hf ->. apply NoDup_cons_iff in ND. apply (proj1 ND). auto.
      - destruct l as [|c l'] eqn:El using rev_ind.
        + cbn [app last] in *. rewrite path_cons in Cy. destruct Cy as ((x & y & Lx & _ & E & _) & _). eauto.
        + rewrite last_last. rewrite <- app_assoc in Cy. change (sH s :: l' ++ [c] ++ [sH s]) with ((sH s :: l') ++ c :: [sH s]) in Cy. apply path_right in Cy. rewrite path_cons in Cy. destruct Cy as ((x & y & Lx & _ & E & _) & _). eauto.
      - assert (X : (length R' <= length (seq 0 (length h)))%nat) by (apply NoDup_incl_length; auto; intros f Hf; apply in_seq; split; [lia|apply (live_lt (proj1 (Lv f Hf)))]). rewrite seq_length in X. unfold R' in X. cbn in X. lia. }
    set (c := fun f => fp1 (facAt h f)).
    exists (map c R'). split; [|split].
    - unfold corners. fold h. rewrite Ew. cbn [bind]. apply mapR_fun. intros f Hf. rewrite (live_get (proj1 (Lv f Hf))). reflexivity.
    - intros i Hi. apply in_map_iff in Hi. destruct Hi as (f & <- & Hf). apply (Lv f Hf).
    - assert (Cin : forall f, In f R' -> In (pnt (c f)) (map pnt (map c R'))) by (intros f Hf; apply in_map, in_map; auto).
      split; [discriminate|]. split; [|split].
      + intros p Hp. apply in_map_iff in Hp. destruct Hp as (i & <- & Hi). apply in_map_iff in Hi. destruct Hi as (f & <- & Hf). apply pnt_in. apply (Lv f Hf).
      + intros a b q (l1 & l2 & E) Hq. rewrite map_map in E. rewrite firstn_map, <- map_app in E. apply map_eq_app in E. destruct E as (m1 & m2 & E & _ & E2). apply map_eq_cons in E2. destruct E2 as (f & m3 & -> & <- & E2). apply map_eq_cons in E2. destruct E2 as (g & m4 & -> & <- & _).
        unfold cyc in Cy. rewrite E in Cy. apply path_right in Cy. rewrite path_cons in Cy. destruct Cy as ((x & y & Lx & Ly & _ & _ & Ep) & _).
        assert (Hf : In f R'). { assert (X : In f (m1 ++ f :: g :: m4)) by (apply in_app_iff; cbn; auto). rewrite <- E in X. apply in_app_iff in X. destruct X as [X|X]; auto. cbn in X. destruct X as [<-|[]]. left; auto. }
        pose proof (Inn f q Hf Hq) as X. rewrite (facAt_live Lx) in X. unfold c. rewrite (facAt_live Lx), (facAt_live Ly), <- Ep. exact X.
      + intros v (Hv & a & b & Ex).
        assert (Cc : forall k, In (cor k) (map pnt (map c R'))).
        { assert (X : forall k, (k < 4)%nat -> In (cor k) (map pnt (map c R'))).
          { intros k K. destruct (v_side I K) as (NE & Sd). apply sideK_chain in Sd. destruct (T k) as [|f t] eqn:Et; [congruence|]. cbn [edges map chain] in Sd. destruct Sd as (Sd & _). rewrite <- Sd. apply (Cin f). apply Rin, in_ring. exists k. rewrite Et. cbn. auto. }
          intros k. destruct k as [|[|[|[|k]]]]; [apply X; lia..|]. apply (X 0%nat). lia. }
        assert (TopIn : a <> 0 \/ b <> 0 -> In v (map pnt (map c R'))).
        { intros D. destruct (direction D) as (k & g & K & Qg & Dir). destruct (v_side I K) as (_ & Sd). destruct (@box _ _ K Hv) as (B1 & B2).
          assert (Iv : inner (map (rE k) (edges h (T k))) (rk k v)). { apply inner_rk. intros e He. apply in_map_iff in He. destruct He as (f & <- & Hf). apply Inn; auto. apply Rin, in_ring. eauto. }
          destruct (@side_top _ _ _ g (rk k v) Sd Qg B1 B2 Iv) as (top & Ht & Le).
          assert (X : exists p, top = rk k p /\ In p (map pnt (map c R'))).
          { destruct Ht as [->|(e & He & <-)]; [exists (cor (S k)); auto|]. apply in_map_iff in He. destruct He as (e' & <- & He). apply in_map_iff in He. destruct He as (f & <- & Hf). exists (pnt (c f)). split; [reflexivity|]. apply Cin, Rin, in_ring. eauto. }
          destruct X as (p & -> & Hp). rewrite Dir in Le. assert (Hw : In p V). { apply in_map_iff in Hp. destruct Hp as (i & <- & Hi). apply in_map_iff in Hi. destruct Hi as (f & <- & Hf). apply pnt_in. apply (Lv f Hf). }
          destruct (Req_dec (fst p) (fst v)) as [E1|E1]; [destruct (Req_dec (snd p) (snd v)) as [E2|E2]|].
          - replace v with p; auto. destruct p, v; cbn in *; congruence.
          - exfalso. assert (Y : a * fst p + b * snd p < a * fst v + b * snd v) by (apply Ex; auto; intros ->; auto). lra.
          - exfalso. assert (Y : a * fst p + b * snd p < a * fst v + b * snd v) by (apply Ex; auto; intros ->; auto). lra. }
        destruct (Req_dec a 0) as [Ea|Ea]; [destruct (Req_dec b 0) as [Eb|Eb]|].
        * assert (X : forall w, In w V -> w = v). { intros w Hw. destruct (Req_dec (fst w) (fst v)) as [E1|E1]; [destruct (Req_dec (snd w) (snd v)) as [E2|E2]|].
            - destruct w, v; cbn in *; congruence.
            - exfalso. assert (Y : a * fst w + b * snd w < a * fst v + b * snd v) by (apply Ex; auto; intros ->; auto). rewrite Ea, Eb in Y. lra.
            - exfalso. assert (Y : a * fst w + b * snd w < a * fst v + b * snd v) by (apply Ex; auto; intros ->; auto). rewrite Ea, Eb in Y. lra. }
          rewrite <- (X (pnt (c (sH s)))); [apply Cin; left; auto|]. apply pnt_in, (Lv (sH s)). left; auto.
        * apply TopIn; auto.
        * apply TopIn; auto.
  Qed.
End Main.
