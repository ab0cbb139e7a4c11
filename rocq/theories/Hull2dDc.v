(** The divide and conquer planar hull. *)
From Coq Require Import Reals Lra.
From Verif Require Import Base Num KdModel Hull2dModel Hull2dGeom Hull2dQuick.
Set Implicit Arguments.

Lemma shrink_ok n : forall np np' b, shrink n np = Ok (np', b) -> 0 < np' <= np /\ b = n / np' /\ 10 <= b /\ np' * b <= n.
Proof.
  induction np as [|np IH]; intros np' b E; cbn [shrink] in E; [discriminate|].
  destruct (Nat.ltb_spec (n / S np) 10).
  - apply IH in E as (? & ? & ? & ?). repeat split; auto; lia.
  - assert (np' = S np /\ b = n / S np) as [-> ->] by (split; congruence).
    repeat split; auto; try lia. apply Nat.mul_div_le. lia.
Qed.
Lemma shrink_some n np : 10 <= n -> 0 < np -> exists np' b, shrink n np = Ok (np', b).
Proof.
  intros Hn. induction np as [|np IH]; intros H; [lia|]. cbn [shrink]. destruct (Nat.ltb_spec (n / S np) 10); eauto.
  apply IH. destruct np; [|lia]. rewrite Nat.div_1_r in H0. lia.
Qed.
Lemma shrink_ub n np : n < 10 -> shrink n np = UB.
Proof.
  intros Hn. induction np as [|np IH]; cbn [shrink]; auto. destruct (Nat.ltb_spec (n / S np) 10); auto.
  pose proof (Nat.div_le_upper_bound n (S np) n). lia.
Qed.

Lemma slice_nth X (P : list X) s e i d : i < e - s -> e <= length P -> nth i (slice s e P) d = nth (s + i) P d.
Proof.
  intros Hi He. unfold slice. rewrite <- (firstn_skipn s P) at 2. rewrite app_nth2 by (rewrite firstn_length; lia).
  rewrite firstn_length, Nat.min_l by lia. replace (s + i - s) with i by lia.
  rewrite <- (firstn_skipn (e - s) (skipn s P)) at 2. rewrite app_nth1; auto. rewrite firstn_length, skipn_length. lia.
Qed.
Lemma slice_length X (P : list X) s e : e <= length P -> length (slice s e P) = e - s.
Proof. intros H. unfold slice. rewrite firstn_length, skipn_length. lia. Qed.

Section Dc.
  Local Open Scope R_scope.
  Variable red : (cipairs RNum -> cipairs RNum -> cipairs RNum) -> cipairs RNum -> list (cipairs RNum) -> cipairs RNum.
  Hypothesis Hred : forall f id l, redOf f id l (red f id l).
  Variable minmax : (pt -> pt -> bool) -> list pt -> nat * nat.
  Hypothesis Hmm : minmax_ok RNum minmax.

  (** linear functional *)
  Definition lin (a b : R) (p : list R) : R := a * nth 0 p 0 + b * nth 1 p 0.
  Lemma lin_triangle a b x y z p : inTriangle x y z p -> lin a b p <= lin a b x \/ lin a b p <= lin a b y \/ lin a b p <= lin a b z.
  Proof.
    intros (u & v & w & Hu & Hv & Hw & S & Ex & Ey).
    assert (E : lin a b p = u * lin a b x + v * lin a b y + w * lin a b z) by (unfold lin; rewrite Ex, Ey; ring).
    destruct (Rle_dec (lin a b p) (lin a b x)); auto. destruct (Rle_dec (lin a b p) (lin a b y)); auto.
    right. right. apply Rnot_lt_le. intros G. apply Rnot_le_lt in n, n0.
    assert (lin a b p = u * lin a b p + v * lin a b p + w * lin a b p) by (rewrite <- !Rmult_plus_distr_r, S; ring).
    assert (C : 0 < u \/ 0 < v \/ 0 < w) by lra. set (L := lin a b p) in *. clearbody L.
    assert (0 <= u * (L - lin a b x)) by nra. assert (0 <= v * (L - lin a b y)) by nra. assert (0 <= w * (L - lin a b z)) by nra.
    destruct C as [C|[C|C]]; nra.
  Qed.
  Lemma orient_triangle c d x y z p : inTriangle x y z p -> orient c d x <= 0 -> orient c d y <= 0 -> orient c d z <= 0 -> orient c d p <= 0.
  Proof.
    intros (u & v & w & Hu & Hv & Hw & S & Ex & Ey) H1 H2 H3.
    assert (E : orient c d p = u * orient c d x + v * orient c d y + w * orient c d z).
    { unfold orient. rewrite Ex, Ey. replace u with (1 - v - w) by lra. ring. }
    rewrite E. nra.
  Qed.

  (** [H], positions in [P], is a hull of the points [Q] *)
  Definition encloses (P Q : list pt) (H : list nat) : Prop :=
    (forall i, In i H -> (i < length P)%nat /\ In (nth i P []) Q) /\
    (forall a b, adj a b (H ++ [hd 0%nat H]) -> forall p, In p Q -> orient (nth a P []) (nth b P []) p <= 0) /\
    (forall a b p, In p Q -> exists i, In i H /\ lin a b p <= lin a b (nth i P [])).

  Lemma hull_encloses P H : isHull P H -> encloses P P H.
  Proof.
    intros (H1 & H2 & H3). split; [intros i Hi; split; auto; apply nth_In; auto|]. split; auto.
    intros a b p Hp. destruct (H3 p Hp) as (x & y & z & Hx & Hy & Hz & T).
    destruct (lin_triangle a b T) as [G|[G|G]]; eauto.
  Qed.

  Lemma adj_map A B (f : A -> B) l : forall a b, adj a b (map f l) -> exists a' b', a = f a' /\ b = f b' /\ adj a' b' l.
  Proof.
    intros a b (l1 & l2 & E). apply map_eq_app in E as (m1 & m2 & -> & <- & E).
    destruct m2 as [|x [|y m2]]; try discriminate. cbn in E. injection E as <- <- <-.
    exists x, y. split; auto. split; auto. exists m1, m2. auto.
  Qed.

  Lemma mapR_ok_all X Y (f : X -> res Y) l : (forall x, In x l -> exists y, f x = Ok y) ->
    exists ys, mapR f l = Ok ys /\ (forall y, In y ys -> exists x, In x l /\ f x = Ok y) /\ (forall x y, In x l -> f x = Ok y -> In y ys).
  Proof.
    induction l as [|x l IH]; intros H; cbn [mapR].
    - exists []. split; auto. split; [intros ? []|intros ? ? []].
    - destruct (H x) as [y Ey]; [simpl; auto|]. rewrite Ey. cbn [bind].
      destruct IH as (ys & -> & H1 & H2); [intros; apply H; simpl; auto|]. cbn [bind]. exists (y :: ys). split; auto. split.
      + intros z [<-|Hz]; [exists x; simpl; auto|]. destruct (H1 z Hz) as (x' & ? & ?). exists x'. simpl; auto.
      + intros x' z [<-|Hx'] E; [left; congruence|right; eauto].
  Qed.

  Theorem divideConquer_ok workers numProc P :
    (10 <= length P)%nat -> (0 < (if (numProc =? 0)%nat then workers else numProc))%nat ->
    exists np blk H, shrink (length P) ((if (numProc =? 0)%nat then workers else numProc) * 8) = Ok (np, blk) /\
      @divideConquer RNum red minmax workers numProc P = Ok H /\ encloses P (firstn (np * blk) P) H.
  Proof.
    intros Hn Hw. unfold divideConquer. set (np0 := (if (numProc =? 0)%nat then workers else numProc)) in *. clearbody np0.
    destruct (@shrink_some (length P) (np0 * 8) Hn ltac:(lia)) as (np & blk & E). rewrite E.
    pose proof (shrink_ok _ _ E) as (Hnp & Hblk & H10 & Hle). clear Hblk. exists np, blk. cbn [bind].
    destruct (@mapR_ok_all nat (list nat) (fun i =>
        h <- @quickHull RNum red minmax (slice (i * blk) (Nat.min (length P) ((i + 1) * blk)) P) ;; Ok (map (fun j => (i * blk + j)%nat) h)) (seq 0 np)) as (sub & -> & S1 & S2).
    { intros i Hi. apply in_seq in Hi. cbn zeta.
      destruct (@quickHull_ok red Hred minmax Hmm (slice (i * blk) (Nat.min (length P) ((i + 1) * blk)) P)) as (h & -> & _).
      - intros G. apply (f_equal (@length _)) in G. rewrite slice_length in G by lia. cbn [length] in G. nia.
      - cbn [bind]. eauto. }
    cbn [bind]. set (U := concat sub).
    (* each block *)
    assert (Blk : forall i, (i < np)%nat -> exists h, isHull (slice (i * blk) ((i + 1) * blk) P) h /\ In (map (fun j => (i * blk + j)%nat) h) sub).
    { intros i Hi. destruct (@quickHull_ok red Hred minmax Hmm (slice (i * blk) ((i + 1) * blk) P)) as (h & Eh & Hh & _).
      - intros G. apply (f_equal (@length _)) in G. rewrite slice_length in G by nia. cbn [length] in G. nia.
      - exists h. split; auto. apply (S2 i); [apply in_seq; lia|]. cbn zeta. rewrite Nat.min_r by nia. rewrite Eh. reflexivity. }
    assert (UB' : forall u, In u U -> (u < np * blk)%nat).
    { intros u Hu. apply in_concat in Hu as (l & Hl & Hu). apply S1 in Hl as (i & Hi & El). apply in_seq in Hi. cbn zeta in El. rewrite Nat.min_r in El by nia.
      destruct (@quickHull_ok red Hred minmax Hmm (slice (i * blk) ((i + 1) * blk) P)) as (h & Eh & (Hb & _) & _).
      { intros G. apply (f_equal (@length _)) in G. rewrite slice_length in G by nia. cbn [length] in G. nia. }
      rewrite Eh in El. cbn [bind] in El. assert (l = map (fun j => (i * blk + j)%nat) h) by congruence. subst l.
      apply in_map_iff in Hu as (j & <- & Hj). apply Hb in Hj. rewrite slice_length in Hj by nia. nia. }
    rewrite (@mapR_map _ _ (at_ P) (fun u => nth u P []) U).
    2:{ intros u Hu. apply at_nth. specialize (UB' u Hu). lia. }
    cbn [bind]. set (Q2 := map (fun u => nth u P []) U).
    assert (L2 : length Q2 = length U) by apply map_length.
    assert (N2 : forall j, (j < length U)%nat -> nth j Q2 [] = nth (nth j U 0%nat) P []).
    { intros j Hj. unfold Q2. rewrite nth_indep with (d' := nth 0 P []) by (rewrite map_length; auto). exact (map_nth (fun u => nth u P []) U 0%nat j). }
    (* every point of the blocks is in a triangle of points of Q2 *)
    assert (Cov : forall p, In p (firstn (np * blk) P) -> exists x y z, In x Q2 /\ In y Q2 /\ In z Q2 /\ inTriangle x y z p).
    { intros p Hp. apply In_nth with (d := []) in Hp as (t & Ht & <-). rewrite firstn_length, Nat.min_l in Ht by lia.
      assert (Et : nth t (firstn (np * blk) P) [] = nth t P []).
      { rewrite <- (firstn_skipn (np * blk) P) at 2. rewrite app_nth1; auto. rewrite firstn_length. lia. }
      rewrite Et. set (i := (t / blk)%nat). assert (Hb0 : blk <> 0%nat) by lia. pose proof (Nat.div_mod t blk Hb0) as Dm. fold i in Dm.
      pose proof (Nat.mod_upper_bound t blk Hb0) as Mu.
      assert (Hi : (i < np)%nat) by (unfold i; apply Nat.div_lt_upper_bound; auto; lia).
      destruct (Blk i Hi) as (h & (Hb & _ & Hc) & Hin).
      assert (Es : forall j, (j < blk)%nat -> nth j (slice (i * blk) ((i + 1) * blk) P) [] = nth (i * blk + j) P []) by (intros; apply slice_nth; nia).
      destruct (Hc (nth t P [])) as (a & b & c & Ha & Hb' & Hc' & T).
      { replace t with (i * blk + t mod blk)%nat by nia. rewrite <- Es by auto. apply nth_In. rewrite slice_length by nia. nia. }
      assert (Q : forall a, In a h -> In (nth a (slice (i * blk) ((i + 1) * blk) P) []) Q2).
      { intros x Hx. pose proof (Hb x Hx) as Lx. rewrite slice_length in Lx by nia. rewrite Es by nia.
        unfold Q2. apply (in_map (fun u => nth u P [])). unfold U. apply in_concat. eexists. split; [exact Hin|].
        apply (in_map (fun j => (i * blk + j)%nat)); auto. }
      eexists _, _, _. split; [apply Q; exact Ha|]. split; [apply Q; exact Hb'|]. split; [apply Q; exact Hc'|exact T]. }
    assert (Hne : Q2 <> []).
    { destruct (Cov (nth 0 P [])) as (x & _ & _ & Hx & _); [|intros G; rewrite G in Hx; destruct Hx].
      destruct P as [|p P']; [cbn in Hn; lia|]. destruct (np * blk)%nat eqn:Eb; [nia|]. cbn. auto. }
    destruct (@quickHull_ok red Hred minmax Hmm Q2 Hne) as (H2 & -> & (B2 & A2 & C2) & _). cbn [bind].
    rewrite (@mapR_map _ _ (at_ U) (fun j => nth j U 0%nat) H2).
    2:{ intros j Hj. apply at_nth. rewrite <- L2. auto. }
    exists (map (fun j => nth j U 0%nat) H2). split; auto. split; auto. split; [|split].
    - intros i Hi. apply in_map_iff in Hi as (j & <- & Hj). apply B2 in Hj. rewrite L2 in Hj.
      assert (Hu : In (nth j U 0%nat) U) by (apply nth_In; auto). apply UB' in Hu. split; [lia|].
      set (t := nth j U 0%nat) in *. replace (nth t P []) with (nth t (firstn (np * blk) P) []).
      + apply nth_In. rewrite firstn_length. lia.
      + rewrite <- (firstn_skipn (np * blk) P) at 2. rewrite app_nth1; auto. rewrite firstn_length. lia.
    - intros a b Hab p Hp.
      assert (Hne2 : H2 <> []).
      { destruct (Cov p Hp) as (x & _ & _ & Hx & _). destruct (C2 x Hx) as (c & _ & _ & Hc & _). intros ->. destruct Hc. }
      assert (Eh : map (fun j => nth j U 0%nat) H2 ++ [hd 0%nat (map (fun j => nth j U 0%nat) H2)] = map (fun j => nth j U 0%nat) (H2 ++ [hd 0%nat H2])).
      { rewrite map_app. destruct H2; [congruence|]. reflexivity. }
      rewrite Eh in Hab. apply adj_map in Hab as (a' & b' & -> & -> & Hab).
      assert (In a' H2 /\ In b' H2) as [Ia Ib].
      { assert (Hx : forall x, In x (H2 ++ [hd 0%nat H2]) -> In x H2).
        { intros x Hx. apply in_app_iff in Hx as [Hx|[<-|[]]]; auto. destruct H2; [congruence|]. left; auto. }
        destruct Hab as (l1 & l2 & El). rewrite El in Hx. split; apply Hx; apply in_app_iff; simpl; auto. }
      rewrite <- !N2 by (rewrite <- L2; apply B2; auto).
      destruct (Cov p Hp) as (x & y & z & Hx & Hy & Hz & T). apply (orient_triangle T); apply A2; auto.
    - intros a b p Hp. destruct (Cov p Hp) as (x & y & z & Hx & Hy & Hz & T).
      assert (W : forall w, In w Q2 -> lin a b p <= lin a b w -> exists i, In i (map (fun j => nth j U 0%nat) H2) /\ lin a b p <= lin a b (nth i P [])).
      { intros w Hw' Hle'. destruct (C2 w Hw') as (i & j & k & Hi & Hj & Hk & T').
        assert (V : forall i, In i H2 -> lin a b w <= lin a b (nth i Q2 []) -> exists i, In i (map (fun j => nth j U 0%nat) H2) /\ lin a b p <= lin a b (nth i P [])).
        { intros v Hv G. exists (nth v U 0%nat). split; [apply (in_map (fun j => nth j U 0%nat)); auto|].
          rewrite <- N2 by (rewrite <- L2; apply B2; auto). lra. }
        destruct (lin_triangle a b T') as [G|[G|G]]; eauto. }
      destruct (lin_triangle a b T) as [G|[G|G]]; eauto.
  Qed.

  Theorem divideConquer_few workers numProc (P : list pt) : (length P < 10)%nat -> @divideConquer RNum red minmax workers numProc P = UB.
  Proof. intros H. unfold divideConquer. rewrite shrink_ub; auto. Qed.
End Dc.
