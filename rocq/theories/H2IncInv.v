(** The outline in four sides: what holds between insertions, and one insertion. *)
From Coq Require Import Reals Lra List Bool Arith Lia Permutation.
From Verif Require Import Base Num Hull2dModel H2IncModel H2IncGeom H2IncSide H2IncTok H2IncSeg.
Set Implicit Arguments.

Lemma split_prefix X (b : X -> bool) (l : list X) : exists l1 l2, l = l1 ++ l2 /\ (forall x, In x l1 -> b x = true) /\ (l2 = [] \/ exists y l', l2 = y :: l' /\ b y = false).
Proof.
  induction l as [|x l (l1 & l2 & E & H1 & H2)]; [exists [], []; cbn; repeat split; auto; intros x []|].
  destruct (b x) eqn:Bx; [exists (x :: l1), l2|exists [], (x :: l)].
  - rewrite E. split; auto. split; auto. intros y [<-|Y]; auto.
  - split; auto. split; [intros y []|]. right. eauto.
Qed.
Lemma contig_split X (b : X -> bool) (l : list X) :
  (forall l1 x l2 y l3 z l4, l = l1 ++ x :: l2 ++ y :: l3 ++ z :: l4 -> b x = true -> b z = true -> b y = true) ->
  (exists x, In x l /\ b x = true) ->
  exists l1 v l2, l = l1 ++ v ++ l2 /\ v <> [] /\ (forall x, In x v -> b x = true) /\ (forall x, In x l1 -> b x = false) /\ (forall x, In x l2 -> b x = false).
Proof.
  induction l as [|x l IH]; intros C (y & Y & By); [destruct Y|]. destruct (b x) eqn:Bx.
  - destruct (split_prefix b l) as (v & r & E & Hv & Hr). exists [], (x :: v), r. split; [rewrite E; auto|]. split; [discriminate|]. split; [intros z [<-|Z]; auto|]. split; [intros z []|].
    destruct Hr as [->|(w & r' & -> & Bw)]; [intros z []|]. intros z [<-|Z]; auto. destruct (b z) eqn:Bz; auto. exfalso. apply in_split in Z. destruct Z as (m1 & m2 & ->).
    rewrite (C [] x v w m1 z m2) in Bw; auto; [discriminate|]. rewrite E. reflexivity.
  - destruct Y as [<-|Y]; [congruence|]. destruct IH as (l1 & v & l2 & E & NE & Hv & H1 & H2); eauto.
    + intros l1 u l2 w l3 z l4 E. apply (C (x :: l1) u l2 w l3 z l4). rewrite E. reflexivity.
    + exists (x :: l1), v, l2. split; [rewrite E; auto|]. split; auto. split; auto. split; auto. intros z [<-|Z]; auto.
Qed.
Lemma nth_del vs : forall (h : heap) g, nth_error (fold_left (fun h f => upd f None h) vs h) g = if existsb (Nat.eqb g) vs then match nth_error h g with Some _ => Some None | None => None end else nth_error h g.
Proof.
  induction vs as [|f vs IH]; intros h g; auto. cbn [fold_left existsb]. rewrite IH. destruct (Nat.eqb_spec g f) as [->|N].
  - cbn [orb]. destruct (nth_error h f) as [o|] eqn:E.
    + rewrite nth_error_upd_eq by (apply nth_error_Some; congruence). destruct (existsb (Nat.eqb f) vs); auto.
    + assert (E' : nth_error (upd f None h) f = None) by (apply nth_error_None; rewrite upd_length; apply nth_error_None; auto). rewrite E'. destruct (existsb (Nat.eqb f) vs); auto.
  - cbn [orb]. rewrite nth_error_upd_neq by auto. reflexivity.
Qed.
Lemma existsb_nat g vs : existsb (Nat.eqb g) vs = true <-> In g vs.
Proof. rewrite existsb_exists. split; [intros (x & I & E); apply Nat.eqb_eq in E; subst; auto|intros I; exists g; rewrite Nat.eqb_refl; auto]. Qed.
Lemma nth_see (c : nat -> nat) (g : nat -> option nat) Q : forall (l : list (option nat)) q, (q < length l)%nat ->
  nth_error (fold_left (fun l x => upd (fst x) (g (snd x)) l) (map (fun q => (q, c q)) Q) l) q = if existsb (Nat.eqb q) Q then Some (g (c q)) else nth_error l q.
Proof.
  induction Q as [|a Q IH]; intros l q L; auto. cbn [map fold_left existsb fst snd]. rewrite IH by (rewrite upd_length; auto). destruct (Nat.eqb_spec q a) as [->|N].
  - cbn [orb]. rewrite nth_error_upd_eq by auto. destruct (existsb (Nat.eqb a) Q); auto.
  - cbn [orb]. rewrite nth_error_upd_neq by auto. reflexivity.
Qed.
Lemma see_len (c : nat -> nat) (g : nat -> option nat) Q : forall (l : list (option nat)), length (fold_left (fun l x => upd (fst x) (g (snd x)) l) (map (fun q => (q, c q)) Q) l) = length l.
Proof. induction Q as [|a Q IH]; intros l; auto. cbn [map fold_left fst snd]. rewrite IH, upd_length. auto. Qed.
Lemma in_chunk (c : nat -> nat) Q k q : In q (chunk k (map (fun q => (q, c q)) Q)) <-> In q Q /\ c q = k.
Proof.
  unfold chunk. rewrite in_map_iff. split.
  - intros ((a & b) & E & H). cbn in E. subst a. apply filter_In in H. destruct H as (H & K). apply in_map_iff in H. destruct H as (r & E & H). injection E as -> <-. cbn in K. apply Nat.eqb_eq in K. auto.
  - intros (H & E). exists (q, c q). split; auto. apply filter_In. split; [apply in_map_iff; eauto|]. cbn. apply Nat.eqb_eq. auto.
Qed.
Lemma ends X (l : list X) : (2 <= length l)%nat -> exists e m z, l = e :: m ++ [z].
Proof.
  destruct l as [|e [|b l]]; cbn; try lia. intros _. destruct (@exists_last _ (b :: l) ltac:(discriminate)) as (m & z & E). exists e, m, z. rewrite <- E. reflexivity.
Qed.

Open Scope R_scope.
Section Inv.
  Variable V : list p2.
  Variable eps : R.
  Hypothesis eps0 : 0 <= eps.
  Hypothesis sep : forall a b c, In a V -> In b V -> In c V -> 0 < ar a b c -> eps < ar a b c.
  Variable cor : nat -> p2.
  Hypothesis box : forall k q, (k < 4)%nat -> In q V -> boxK k (cor k) (cor (S k)) q.
  Notation pnt := (pnt V). Notation edge := (edge V). Notation wf := (wf V). Notation vis := (vis V eps). Notation seg := (seg V eps).

  Definition facAt (h : heap) (f : nat) : fac := match nth_error h f with Some (Some x) => x | _ => Fac 0 0 0 0 [] None end.
  Lemma facAt_live h f x : live h f x -> facAt h f = x.
  Proof. unfold live, facAt. intros ->. auto. Qed.
  Definition edges (h : heap) (l : list nat) : list (p2 * p2) := map (fun f => edge (facAt h f)) l.
  Definition ring (T : nat -> list nat) : list nat := T 0%nat ++ T 1%nat ++ T 2%nat ++ T 3%nat.
  Definition setS (T : nat -> list nat) (k : nat) (l : list nat) (j : nat) : list nat := if (j =? k)%nat then l else T j.
  Lemma ring_split T k : (k < 4)%nat -> exists u w, (forall l, ring (setS T k l) = u ++ l ++ w) /\ ring T = u ++ T k ++ w /\
    (forall f, In f (w ++ u) <-> exists j, (j < 4)%nat /\ j <> k /\ In f (T j)) /\ ((forall j, (j < 4)%nat -> T j <> []) -> (2 <= length (w ++ u))%nat).
  Proof.
    intros K. assert (Ex : forall f, (exists j, (j < 4)%nat /\ j <> k /\ In f (T j)) <-> (0 <> k /\ In f (T 0) \/ 1 <> k /\ In f (T 1) \/ 2 <> k /\ In f (T 2) \/ 3 <> k /\ In f (T 3))%nat).
    { intros f. split.
      - intros (j & J & N & H). destruct j as [|[|[|[|j]]]]; auto; lia.
      - intros [(N & H)|[(N & H)|[(N & H)|(N & H)]]]; [exists 0%nat|exists 1%nat|exists 2%nat|exists 3%nat]; repeat split; auto; lia. }
    assert (Ln : (forall j, (j < 4)%nat -> T j <> []) -> forall j, (j < 4)%nat -> (1 <= length (T j))%nat).
    { intros H j J. specialize (H j J). destruct (T j); [congruence|cbn; lia]. }
    destruct k as [|[|[|[|k]]]]; [| | | |lia].
    - exists [], (T 1 ++ T 2 ++ T 3)%nat. split; [intros l; reflexivity|]. split; [reflexivity|]. split; [intros f; rewrite Ex, !in_app_iff; cbn [In]; intuition lia|].
      intros H. pose proof (Ln H 1%nat ltac:(lia)). pose proof (Ln H 2%nat ltac:(lia)). rewrite !app_length. lia.
    - exists (T 0)%nat, (T 2 ++ T 3)%nat. split; [intros l; reflexivity|]. split; [reflexivity|]. split; [intros f; rewrite Ex, !in_app_iff; intuition lia|].
      intros H. pose proof (Ln H 3%nat ltac:(lia)). pose proof (Ln H 2%nat ltac:(lia)). rewrite !app_length. lia.
    - exists (T 0 ++ T 1)%nat, (T 3)%nat. split; [intros l; unfold ring; rewrite <- app_assoc; reflexivity|]. split; [unfold ring; rewrite <- app_assoc; reflexivity|]. split; [intros f; rewrite Ex, !in_app_iff; intuition lia|].
      intros H. pose proof (Ln H 3%nat ltac:(lia)). pose proof (Ln H 1%nat ltac:(lia)). rewrite !app_length. lia.
    - exists (T 0 ++ T 1 ++ T 2)%nat, []. split; [intros l; unfold ring; rewrite app_nil_r, <- !app_assoc; reflexivity|]. split; [unfold ring; rewrite app_nil_r, <- !app_assoc; reflexivity|]. split; [intros f; rewrite Ex; cbn [app]; rewrite !in_app_iff; intuition lia|].
      intros H. pose proof (Ln H 2%nat ltac:(lia)). pose proof (Ln H 1%nat ltac:(lia)). cbn [app]. rewrite !app_length. lia.
  Qed.

  Record Inv (h : heap) (see : list (option nat)) (T : nat -> list nat) : Prop := mkInv {
    v_len : length see = length V;
    v_cyc : cyc h (ring T);
    v_nd : NoDup (ring T);
    v_fac : forall f, In f (ring T) -> exists x, live h f x /\ wf x /\ forall q, In q (fsee x) -> nth_error see q = Some (Some f);
    v_tok : forall f x, live h f x -> ftok x = None;
    v_side : forall k, (k < 4)%nat -> T k <> [] /\ sideK k (cor k) (cor (S k)) (edges h (T k));
    v_see : forall q f, nth_error see q = Some (Some f) -> exists k x, (k < 4)%nat /\ In f (T k) /\ live h f x /\ In q (fsee x) /\ 0 < arE (edge x) (pnt q) /\
      forall j, (j < 4)%nat -> j <> k -> inner (edges h (T j)) (pnt q);
    v_none : forall q, nth_error see q = Some None -> forall k, (k < 4)%nat -> inner (edges h (T k)) (pnt q) }.
  Lemma in_ring T f : In f (ring T) <-> exists k, (k < 4)%nat /\ In f (T k).
  Proof.
    unfold ring. rewrite !in_app_iff. split.
    - intros [H|[H|[H|H]]]; [exists 0%nat|exists 1%nat|exists 2%nat|exists 3%nat]; split; auto; lia.
    - intros ([|[|[|[|k]]]] & K & H); auto; lia.
  Qed.
  Lemma see_lt h see T q o : Inv h see T -> nth_error see q = Some o -> (q < length V)%nat.
  Proof. intros I E. rewrite <- (v_len I). apply nth_error_Some. congruence. Qed.
  Lemma inv_nt h see T : Inv h see T -> forall f, In f (ring T) -> exists x, live h f x /\ wf x.
  Proof. intros I f Hf. destruct (v_fac I f Hf) as (x & L & W & _). eauto. Qed.

  (** the facets a point sees in the outline *)
  Record dec (h : heap) (T : nat -> list nat) (p : p2) (k : nat) (l1 v l2 u w : list nat) (e z : nat) (m : list nat) : Prop := mkDec {
    d_k : (k < 4)%nat;
    d_T : T k = l1 ++ v ++ l2;
    d_set : forall l, ring (setS T k l) = u ++ l ++ w;
    d_ring : ring T = u ++ (l1 ++ v ++ l2) ++ w;
    d_out : forall f, In f (w ++ u) <-> exists j, (j < 4)%nat /\ j <> k /\ In f (T j);
    d_rest : l2 ++ (w ++ u) ++ l1 = e :: m ++ [z];
    d_vis : forall f, In f v -> 0 < arE (edge (facAt h f)) p;
    d_not : forall f, In f (l2 ++ (w ++ u) ++ l1) -> arE (edge (facAt h f)) p <= 0;
    d_seg : seg h p z v e;
    d_cyc : cyc h (v ++ e :: m ++ [z]);
    d_nd : NoDup (v ++ e :: m ++ [z]) }.
  Lemma inv_dec h see T i f : Inv h see T -> nth_error see i = Some (Some f) -> exists k l1 v l2 u w e z m, dec h T (pnt i) k l1 v l2 u w e z m /\ In f v.
  Proof.
    intros I Sf. pose proof (@see_lt h see T i _ I Sf) as Li. pose proof (pnt_in V Li) as Pi. destruct (v_see I _ Sf) as (k & x & K & Hf & Lx & _ & Vx & Oth).
    destruct (v_side I K) as (NE & Sd). destruct (ring_split T K) as (u & w & R1 & R2 & R3 & R4).
    destruct (@contig_split _ (fun g => Rltb 0 (arE (edge (facAt h g)) (pnt i))) (T k)) as (l1 & v & l2 & E & Nv & Hv & H1 & H2).
    - intros m1 a m2 b m3 c m4 E A B. apply Rltb_true in A. apply Rltb_true in B. apply Rltb_true. unfold edges in Sd. rewrite E, !map_app in Sd. cbn [map] in Sd. rewrite !map_app in Sd. cbn [map] in Sd. rewrite map_app in Sd. cbn [map] in Sd.
      exact (@sideK_contig _ _ _ _ _ _ _ _ _ _ (pnt i) Sd A B).
    - exists f. split; auto. apply Rltb_true. rewrite (facAt_live Lx). auto.
    - assert (Ln : (2 <= length (l2 ++ (w ++ u) ++ l1))%nat) by (rewrite !app_length in *; assert (2 <= length w + length u)%nat by (apply R4; intros j J; apply (v_side I J)); lia).
      destruct (ends _ Ln) as (e & m & z & Er). exists k, l1, v, l2, u, w, e, z, m.
      assert (Hvis : forall g, In g v -> 0 < arE (edge (facAt h g)) (pnt i)) by (intros g Hg; apply Rltb_true, Hv, Hg).
      assert (Hnot : forall g, In g (l2 ++ (w ++ u) ++ l1) -> arE (edge (facAt h g)) (pnt i) <= 0).
      { intros g Hg. apply in_app_iff in Hg. destruct Hg as [Hg|Hg]; [apply Rltb_false, H2, Hg|]. apply in_app_iff in Hg. destruct Hg as [Hg|Hg]; [|apply Rltb_false, H1, Hg].
        apply R3 in Hg. destruct Hg as (j & J & N & Hg). apply (Oth j J N). unfold edges. apply in_map_iff. eauto. }
      rewrite E in R2.
      assert (Rr : v ++ e :: m ++ [z] = (v ++ l2 ++ w) ++ (u ++ l1)) by (rewrite <- Er, <- !app_assoc; reflexivity).
      assert (Rr2 : ring T = (u ++ l1) ++ (v ++ l2 ++ w)) by (rewrite R2, <- !app_assoc; reflexivity).
      assert (Cy : cyc h (v ++ e :: m ++ [z])) by (rewrite Rr; apply cyc_rot; rewrite <- Rr2; apply (v_cyc I)).
      assert (ND : NoDup (v ++ e :: m ++ [z])).
      { eapply Permutation_NoDup; [|apply (v_nd I)]. rewrite Rr2, Rr. apply Permutation_app_comm. }
      assert (Inr : forall g, In g (v ++ e :: m ++ [z]) -> exists y, live h g y /\ wf y).
      { intros g Hg. apply (inv_nt I). rewrite Rr2. rewrite Rr in Hg. apply in_app_iff in Hg. apply in_app_iff. tauto. }
      assert (Fv : f <> f \/ In f v).
      { right. rewrite E in Hf. apply in_app_iff in Hf. destruct Hf as [Hf|Hf]; [apply H1 in Hf; rewrite (facAt_live Lx), (proj2 (Rltb_true _ _) Vx) in Hf; discriminate|].
        apply in_app_iff in Hf. destruct Hf as [Hf|Hf]; auto. apply H2 in Hf; rewrite (facAt_live Lx), (proj2 (Rltb_true _ _) Vx) in Hf; discriminate. }
      split; [|destruct Fv; [congruence|auto]]. constructor; auto.
      assert (Vi : forall g y, live h g y -> In g (v ++ e :: m ++ [z]) -> wf y) by (intros g y Ly Hg; destruct (Inr g Hg) as (y' & Ly' & W); rewrite (live_fun Ly Ly'); auto).
      destruct v as [|s v']; [congruence|].
      assert (Ez : In z (e :: m ++ [z])) by (right; apply in_app_iff; cbn; auto). assert (Ee : In e (e :: m ++ [z])) by (left; auto).
      assert (Nz : e <> z). { intros ->. apply NoDup_app_elim in ND. destruct ND as (_ & ND & _). apply NoDup_cons_iff in ND. apply (proj1 ND). apply in_app_iff. cbn; auto. }
      assert (Pz : path h (z :: s :: v' ++ [e]) /\ forall y, live h e y -> fnext y = hd z m).
      { unfold cyc in Cy. cbn [app firstn] in Cy.
        replace (s :: (v' ++ e :: m ++ [z]) ++ [s]) with ((s :: v' ++ [e]) ++ (m ++ [z; s])) in Cy by (cbn [app]; rewrite <- !app_assoc; cbn [app]; rewrite <- app_assoc; reflexivity).
        pose proof (path_left _ _ _ Cy) as C1. pose proof (path_right _ _ _ Cy) as C2. apply path_right in C2. rewrite path_cons in C2. destruct C2 as (C2 & _). split; [rewrite path_cons; auto|].
        intros y Ly. replace ((s :: v' ++ [e]) ++ m ++ [z; s]) with ((s :: v') ++ (e :: m ++ [z; s])) in Cy by (cbn [app]; rewrite <- app_assoc; reflexivity).
        apply path_right in Cy. destruct m as [|b m]; cbn [app hd] in *; rewrite path_cons in Cy; destruct Cy as ((y1 & y2 & L1 & L2 & F1 & _) & _); rewrite (live_fun Ly L1); auto. }
      destruct Pz as (Pz & Ne). constructor; auto.
      + change ((s :: v') ++ e :: m ++ [z]) with ((s :: v') ++ (e :: m) ++ [z]) in ND. rewrite app_assoc in ND. apply NoDup_remove in ND. destruct ND as (ND & N). rewrite app_nil_r in *.
        change ((s :: v') ++ e :: m) with ((s :: v') ++ [e] ++ m) in ND. rewrite app_assoc in ND. constructor.
        * intros X. apply N. apply in_app_iff. cbn [In]. apply in_app_iff in X. destruct X as [X|[X|[]]]; auto.
        * clear - ND. revert ND. generalize ((s :: v') ++ [e]). intros l. induction l as [|a l IH]; cbn; [constructor|]. intros H. apply NoDup_cons_iff in H. destruct H as (H & H2). constructor; auto. intros X. apply H. apply in_app_iff; auto.
      + intros g y Hg Ly. assert (W : wf y) by (apply (Vi g); auto; apply in_app_iff; auto). split; auto. apply (vis_true eps0 sep); auto. rewrite <- (facAt_live Ly). auto.
      + intros y Ly. assert (W : wf y) by (apply (Vi z); auto; apply in_app_iff; auto). split; auto. apply (vis_false eps0 sep); auto. rewrite <- (facAt_live Ly). apply Hnot. rewrite Er; auto.
      + intros y Ly. assert (W : wf y) by (apply (Vi e); auto; apply in_app_iff; auto). split; auto. split; [apply (vis_false eps0 sep); auto; rewrite <- (facAt_live Ly); apply Hnot; rewrite Er; auto|].
        rewrite (Ne y Ly). intros X. apply NoDup_app_elim in ND. destruct ND as (_ & ND2 & ND3). apply in_app_iff in X. destruct X as [X|[X|[]]].
        * apply (ND3 (hd z m)); auto. right. destruct m; cbn; auto.
        * apply NoDup_cons_iff in ND2. apply (proj1 ND2). rewrite X. destruct m; cbn; auto.
  Qed.
End Inv.
