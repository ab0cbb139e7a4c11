(** C86: the planar hull by parallel incremental insertion. *)
From Coq Require Import Floats Reals Lra Lia List Bool Permutation ZArith.
From Verif Require Import Base Num FloatNum Hull2dModel Hull2dQuick H3Inst H2IncModel H2IncGeom H2IncSide H2IncTok H2IncSeg H2IncInv H2IncStep H2IncRun H2IncMain.
Set Implicit Arguments.
Open Scope R_scope.

(** the contracts have an instance *)
Lemma argmax_swo X (lt : X -> X -> bool) (d : X) l : (forall x, lt x x = false) -> (forall x y z, lt x y = true -> lt y z = true -> lt x z = true) -> l <> [] ->
  (argmaxI lt l < length l)%nat /\ forall q, In q l -> lt (nth (argmaxI lt l) l d) q = false.
Proof.
  intros I Tr. assert (G : forall l pre bi bv, nth_error pre bi = Some bv -> (forall q, In q pre -> lt bv q = false) ->
    exists b, nth_error (pre ++ l) (argmaxF lt l (length pre) bi bv) = Some b /\ forall q, In q (pre ++ l) -> lt b q = false).
  { clear l. induction l as [|x l IH]; intros pre bi bv E H; cbn [argmaxF]; [exists bv; rewrite app_nil_r; auto|].
    replace (pre ++ x :: l) with ((pre ++ [x]) ++ l) by (rewrite <- app_assoc; auto). destruct (lt bv x) eqn:L.
    - specialize (IH (pre ++ [x]) (length pre) x). rewrite app_length, Nat.add_1_r in IH. apply IH; [rewrite nth_error_app2, Nat.sub_diag; auto|].
      intros q Hq. apply in_app_or in Hq. destruct Hq as [Hq|[<-|[]]]; auto. destruct (lt x q) eqn:E2; auto. rewrite <- (H q Hq). symmetry. eapply Tr; eauto.
    - specialize (IH (pre ++ [x]) bi bv). rewrite app_length, Nat.add_1_r in IH. apply IH; [rewrite nth_error_app1; auto; apply nth_error_Some; congruence|].
      intros q Hq. apply in_app_or in Hq. destruct Hq as [Hq|[<-|[]]]; auto. }
  intros NE. destruct l as [|x l]; [congruence|]. destruct (G l [x] 0%nat x) as (b & E & H); auto; [intros q [<-|[]]; auto|]. change (argmaxF lt l (length [x]) 0 x) with (argmaxI lt (x :: l)) in E. cbn [app] in *.
  split; [apply nth_error_Some; congruence|]. rewrite (nth_error_nth _ _ d E). auto.
Qed.
Lemma C86_minmax_exists : minmax2_ok minmaxI3.
Proof.
  intros lt P (I & Tr & _) NE. unfold minmaxI3. cbn [fst snd]. destruct (@argmax_swo _ lt (0, 0) P I Tr NE) as (A & B). destruct (@argmax_swo _ (fun a b => lt b a) (0, 0) P I) as (C & D); [intros x y z H1 H2; eapply Tr; eauto|auto|].
  split; auto.
Qed.

Definition area2 (a b c : R * R) : R := (fst b - fst a) * (snd c - snd a) - (snd b - snd a) * (fst c - fst a).
(** no three of the points make a left turn of doubled area at most eps *)
Definition wide (eps : R) (P : list (R * R)) : Prop := forall a b c, In a P -> In b P -> In c P -> 0 < area2 a b c -> eps < area2 a b c.

(** C86: for every order of the reservations, of the checks and of the insertions the
    loop ends and leaves a clockwise outline of the points. *)
Theorem C86_outline : forall eps mm (shuf : nat -> forall X, list X -> list X) fuel workers numProc P,
  minmax2_ok mm -> (forall k X (l : list X), Permutation l (shuf k X l)) -> 0 <= eps -> wide eps P -> P <> [] ->
  (length P <= fuel)%nat -> (0 < workers)%nat ->
  exists s L, @hull RNum eps P shuf mm fuel workers numProc = Ok s /\ corners s = Ok L /\
    (forall i, In i L -> (i < length P)%nat) /\ outline P (map (fun i => nth i P (0, 0)) L).
Proof.
  intros eps mm shuf fuel w np P Hm Hs E0 G NE F W.
  destruct (@hull_ok P eps E0 G NE mm Hm shuf Hs fuel w np F W) as (s & T & E & I & H & D).
  destruct (@corners_ok P NE mm Hm s T I H D) as (L & EL & LL & O). exists s, L. auto.
Qed.
Print Assumptions C86_outline.

(** What is returned is empty all the same. *)
Theorem C86_refuted : forall eps mm (shuf : nat -> forall X, list X -> list X) fuel workers numProc P,
  minmax2_ok mm -> (forall k X (l : list X), Permutation l (shuf k X l)) -> 0 <= eps -> wide eps P -> P <> [] ->
  (length P <= fuel)%nat -> (0 < workers)%nat ->
  @compute RNum eps P shuf mm fuel workers numProc = Ok [] /\ ~ outline P (map (fun i => nth i P (0, 0)) []).
Proof.
  intros eps mm shuf fuel w np P Hm Hs E0 G NE F W. split; [|intros (N & _); apply N; reflexivity].
  destruct (@C86_outline eps mm shuf fuel w np P Hm Hs E0 G NE F W) as (s & L & E & _). unfold compute. rewrite E. reflexivity.
Qed.
Print Assumptions C86_refuted.

Definition epsI : float := 0x1.4f8b588e368f1p-17.
Definition shape : list (float * float) := [(1, 1); (4, 0); (2, 3); (0, 0); (5, 4); (0, 5); (3, 3); (4.5, 1); (3, 5.5); (1, 5.4); (4, 5)]%float.
Definition tiny : list (float * float) := map (fun p => (fst p * 0x1p-12, snd p * 0x1p-12)%float) shape.
Definition run (P : list (float * float)) (shuf : nat -> forall X, list X -> list X) (w : nat) : res (list nat) :=
  s <- @hull FNum epsI P shuf minmaxI3 (length P) w 0 ;; corners s.
Definition keep : nat -> forall X, list X -> list X := fun _ _ l => l.
Definition revA : nat -> forall X, list X -> list X := fun _ X l => rev l.

(** The margin is needed: the same shape 4096 times smaller loses corners.  At 0.0012
    by 0.0013 all areas are below eps. *)
Theorem C86_scale_refuted : run shape keep 1 = Ok [8; 10; 4; 7; 1; 3; 3; 5; 9]%nat /\ run tiny keep 1 = Ok [3; 8; 4; 3]%nat.
Proof. split; vm_compute; reflexivity. Qed.
Print Assumptions C86_scale_refuted.

(** *** Examples *)
Example shape_orders : run shape keep 3 = Ok [8; 10; 4; 7; 1; 3; 3; 5; 9]%nat /\ run shape revA 1 = Ok [8; 10; 4; 7; 1; 3; 3; 5; 9]%nat.
Proof. split; vm_compute; reflexivity. Qed.

(** points with integer coordinates are wide for every eps below one *)
Definition ofZ (p : Z * Z) : R * R := (IZR (fst p), IZR (snd p)).
Lemma grid_wide eps (G : list (Z * Z)) : eps < 1 -> wide eps (map ofZ G).
Proof.
  intros E a b c A B C H. apply in_map_iff in A. destruct A as (a' & <- & _). apply in_map_iff in B. destruct B as (b' & <- & _). apply in_map_iff in C. destruct C as (c' & <- & _).
  unfold area2, ofZ in *. cbn [fst snd] in *. rewrite <- !minus_IZR, <- !mult_IZR, <- minus_IZR in *. apply lt_IZR in H. assert (1 <= IZR ((fst b' - fst a') * (snd c' - snd a') - (snd b' - snd a') * (fst c' - fst a'))) by (apply IZR_le; lia). lra.
Qed.
Example grid_outline : forall mm (shuf : nat -> forall X, list X -> list X) workers (G : list (Z * Z)), minmax2_ok mm -> (forall k X (l : list X), Permutation l (shuf k X l)) -> G <> [] -> (0 < workers)%nat ->
  exists s L, @hull RNum (/ 100000) (map ofZ G) shuf mm (length G) workers 0 = Ok s /\ corners s = Ok L /\ outline (map ofZ G) (map (fun i => nth i (map ofZ G) (0, 0)) L).
Proof.
  intros mm shuf w G Hm Hs NE W. destruct (@C86_outline (/ 100000) mm shuf (length G) w 0 (map ofZ G)) as (s & L & E & EL & _ & O); auto; [lra|apply grid_wide; lra|destruct G; [congruence|discriminate]|rewrite map_length; lia|]. eauto.
Qed.
(** an outline of a square with its middle has the four corners and not the middle *)
Example square_outline : forall L, outline [(0, 0); (2, 0); (1, 1); (0, 2); (2, 2)] L -> In (0, 0) L /\ In (2, 0) L /\ In (0, 2) L /\ In (2, 2) L /\ ~ In (1, 1) L.
Proof.
  intros L (NE & Inc & Rt & Ex).
  assert (X : forall v, extremal [(0, 0); (2, 0); (1, 1); (0, 2); (2, 2)] v -> In v L) by exact Ex.
  assert (E1 : In (0, 0) L). { apply X. split; [cbn; auto|]. exists (-1), (-1). intros w [<-|[<-|[<-|[<-|[<-|[]]]]]] N; cbn; lra || congruence. }
  split; auto. split; [|split; [|split]].
  - apply X. split; [cbn; auto|]. exists 1, (-1). intros w [<-|[<-|[<-|[<-|[<-|[]]]]]] N; cbn; lra || congruence.
  - apply X. split; [cbn; auto 6|]. exists (-1), 1. intros w [<-|[<-|[<-|[<-|[<-|[]]]]]] N; cbn; lra || congruence.
  - apply X. split; [cbn; auto 7|]. exists 1, 1. intros w [<-|[<-|[<-|[<-|[<-|[]]]]]] N; cbn; lra || congruence.
  - intros M.
    assert (Y : forall l, (exists y, In y l /\ y <> (1, 1)) -> exists l1 b l2, (1, 1) :: l = l1 ++ (1, 1) :: b :: l2 /\ b <> (1, 1)).
    { induction l as [|x l IH]; intros (y & H & N); [destruct H|].
      assert (Dx : x = (1, 1) \/ x <> (1, 1)). { destruct x as [u v]. destruct (Req_dec u 1); [destruct (Req_dec v 1); [left; congruence|]|]; right; congruence. }
      destruct Dx as [->|Dx]; [|exists [], x, l; auto]. destruct H as [<-|H]; [congruence|]. destruct IH as (l1 & b & l2 & E & Nb); [eauto|]. exists ((1, 1) :: l1), b, l2. rewrite E. auto. }
    assert (Bad : forall b, In b [(0, 0); (2, 0); (1, 1); (0, 2); (2, 2)] -> b <> (1, 1) -> exists q, In q [(0, 0); (2, 0); (1, 1); (0, 2); (2, 2)] /\ ~ rightOf (1, 1) b q).
    { intros b [<-|[<-|[<-|[<-|[<-|[]]]]]] N; [exists (2, 0)|exists (2, 2)|congruence|exists (0, 0)|exists (0, 2)]; (split; [cbn; auto 7|]); unfold rightOf; cbn; lra. }
    assert (Z : exists l1 b l2, L ++ firstn 1 L = l1 ++ (1, 1) :: b :: l2 /\ b <> (1, 1)).
    { apply in_split in M. destruct M as (m1 & m2 & EL). assert (Dx : (exists y, In y (m2 ++ firstn 1 L) /\ y <> (1, 1)) \/ forall y, In y (m2 ++ firstn 1 L) -> y = (1, 1)).
      { generalize (m2 ++ firstn 1 L). induction l as [|[u v] l [(y & H & N)|H]]; [right; intros y []|left; exists y; cbn; auto|].
        destruct (Req_dec u 1) as [Eu|Nu]; [destruct (Req_dec v 1) as [Ev|Nv]|]; [right; intros y [<-|Hy]; [congruence|auto]| |]; left; exists (u, v); (split; [left; auto|congruence]). }
      destruct Dx as [Dx|Dx].
      - destruct (Y _ Dx) as (l1 & b & l2 & E & N). exists (m1 ++ l1), b, l2. split; auto. rewrite EL at 1. rewrite <- !app_assoc. cbn [app]. f_equal. exact E.
      - destruct L as [|x L']; [destruct E1|]. assert (x = (1, 1)) by (apply Dx; apply in_app_iff; cbn; auto). subst x. destruct E1 as [E1|E1]; [injection E1; intros; exfalso; lra|].
        destruct (Y (L' ++ [(1, 1)])) as (l1 & b & l2 & E & N); [exists (0, 0); split; [apply in_app_iff; auto|intros H; injection H; intros; lra]|]. exists l1, b, l2. auto. }
    destruct Z as (l1 & b & l2 & E & N). assert (Hb : In b [(0, 0); (2, 0); (1, 1); (0, 2); (2, 2)]).
    { apply Inc. assert (W : In b (L ++ firstn 1 L)) by (rewrite E; apply in_app_iff; cbn; auto). apply in_app_iff in W. destruct W as [W|W]; auto. destruct L; [destruct W|]. destruct W as [<-|[]]. left; auto. }
    destruct (Bad b Hb N) as (q & Hq & NR). apply NR. apply Rt; auto. exists l1, l2. auto.
Qed.
