(** C81-C84: the hulls in space by sampling and by divide and conquer. *)
From Coq Require Import Floats Reals Lra Lia List Bool Permutation.
From Verif Require Import Base Num FloatNum KdModel KdSpec Sched H3Model H3Geom H3Surf H3Heap H3Loop H3Init H3Init2 H3Spec H3Final H3Inst H3ParModel H3ParHeap H3ParRound H3ParMain H3SubModel H3Sub H3SubDc H3SubFilter H3SubMain PropHull3d PropHull3dPar.
Set Implicit Arguments.
Open Scope R_scope.

(** How far a point is on the other side of a facet than the coordinate origin;
    the filter takes this side for the outside. *)
Definition side (t : tri3) (p : v3 R) : R := let '(a, b, c) := t in if Rlt_dec 0 (svol a b c (V3 0 0 0)) then - svol a b c p else svol a b c p.
Definition seen (t : tri3) (p : v3 R) : Prop := 0 <= side t p \/ isCorner t p.
Definition pnt (P : list (v3 R)) (i : nat) : v3 R := nth i P (V3 0 0 0).

Lemma side_out t p : ht (@outFacet RNum t) p = side t p.
Proof.
  destruct t as [[a b] c]. unfold outFacet, side. rewrite det3_R. cbn [nlt RNum nzero]. unfold O3. unfold Rltb.
  destruct (Rlt_dec 0 (svol a b c (V3 0 0 0))); cbn [ht]; auto. apply svol_swap.
Qed.
Lemma seen_out t p : Cand (@outFacet RNum t) p <-> seen t p.
Proof.
  unfold Cand, seen. rewrite side_out. assert (X : isCorner (@outFacet RNum t) p <-> isCorner t p) by apply outFacet_corner.
  destruct (@outFacet RNum t) as [[a b] c]. cbn [isCorner] in X. tauto.
Qed.

(** C81: in every interleaving the filter returns only points that some facet
    sees, and of two points of a leaf that come one after the other among those
    a facet sees it keeps one. *)
Theorem C81_filter_partial : forall sched workers P F, (0 < workers)%nat -> P <> [] -> F <> [] ->
  exists T, @kdTree RNum workers P = Ok T /\ Permutation (concat (leaves T)) (seq 0 (length P)) /\
    (exists sched' R, @filter2 RNum (sched ++ sched') workers P F = Ok R) /\
    match @filter2 RNum sched workers P F with
    | Ok R => (forall p, In p R -> In p P /\ exists t, In t F /\ seen t p) /\
        forall t leaf j, In t F -> In leaf (leaves T) -> In j leaf -> 0 < side t (pnt P j) ->
          forall a i m k b, leaf = a ++ i :: m ++ k :: b -> seen t (pnt P i) -> seen t (pnt P k) -> (forall x, In x m -> ~ seen t (pnt P x)) ->
          In (pnt P i) R \/ In (pnt P k) R
    | Fuel => True
    | _ => False
    end.
Proof.
  intros sched w P F Hw NE NF. destruct (@filter2_ok P sched w F Hw NE NF) as (T & ET & Pm & Fin & H). exists T. split; auto. split; auto. split; auto.
  destruct (@filter2 RNum sched w P F) as [R| | |]; auto. destruct H as (A & B). split.
  - intros p Hp. destruct (A p Hp) as (Ip & t & Ht & C). split; auto. exists t. split; auto. apply seen_out; auto.
  - intros t leaf j Ht Hl Hj Pos a i m k b E Si Sk Sm.
    assert (Cs : forall x, @cand RNum P (@outFacet RNum t) x = true <-> seen t (pnt P x)).
    { intros x. rewrite cand_iff. apply seen_out. }
    apply (B t leaf j Ht Hl Hj) with (a := filter (@cand RNum P (@outFacet RNum t)) a) (b := filter (@cand RNum P (@outFacet RNum t)) b).
    + rewrite side_out. exact Pos.
    + rewrite E, filter_app. cbn [filter]. rewrite (proj2 (Cs i) Si). rewrite filter_app. cbn [filter]. rewrite (proj2 (Cs k) Sk).
      replace (filter (@cand RNum P (@outFacet RNum t)) m) with (@nil nat); [reflexivity|]. clear - Sm Cs. induction m as [|x m IH]; [reflexivity|]. cbn [filter].
      destruct (@cand RNum P (@outFacet RNum t) x) eqn:Ec; [exfalso; apply (Sm x); [left; auto|apply Cs; auto]|]. apply IH. intros y Hy. apply Sm. right; auto.
Qed.
Print Assumptions C81_filter_partial.

(** It loses points.  A flag that is already set leaves true in the variable of
    the comparison, and the next flag is then not set.  The points are a
    tetrahedron around the origin and two points outside it, all six on their
    hull; the sample is the tetrahedron; one facet after the other. *)
Definition six : list (v3 (nT FNum)) := [V 2 0.125 2; V 0.5 (-2) 1.25; V 3 0 (-1); V (-2) 3 (-1); V (-2) (-3) (-1); V 0 0 4].
Definition turns : list nat := flat_map (fun i => repeat i 9) (seq 0 4).
Definition cornerF (v : v3 (nT FNum)) (t : tri FNum) : bool := let '(a, b, c) := t in same3 v a || same3 v b || same3 v c.
Theorem C81_refuted :
  forallb (fun v => existsb (cornerF v) (brute3 FNum epsF six)) six = true /\
  (F <- @compute FNum epsF minmaxI3 argmaxI (skipn 2 six) ;; @filter2 FNum turns 1 six F) = Ok [V 2 0.125 2; V 3 0 (-1); V (-2) 3 (-1); V 0 0 4].
Proof. split; vm_compute; reflexivity. Qed.
Print Assumptions C81_refuted.

Lemma pts_four P : four_pts P -> fourOf P.
Proof.
  intros (a & b & c & d & A & B & C & D & N1 & N2 & N3 & N4 & N5 & N6). exists a, b, c, d. split.
  - intros x [<-|[<-|[<-|[<-|[]]]]]; auto.
  - repeat constructor; cbn [In]; intros X; repeat (destruct X as [X|X]; [congruence|]); exact X.
Qed.
Lemma margin_general P e : margin P e -> general P e.
Proof. apply general_margin. Qed.

(** C82: with any sample of four points, once the filter has run the sampling
    hull is the quickhull of the points kept.  It is the hull of all points just
    when no extreme point was lost. *)
Theorem C82_sampling_partial : forall eps mm mx choose addr qord shuf sched workers take P Sm, minmax3_ok mm -> maxel3_ok mx ->
  choose_ok choose -> addr_ok addr -> order_ok qord shuf -> (0 < workers)%nat -> 0 <= eps -> general P (4 * eps) ->
  (1000 <= length P)%nat -> take P = Ok Sm -> incl Sm P -> fourOf Sm -> ((10 < length Sm)%nat \/ NoDup Sm) ->
  let run := @samplingHull RNum eps mm choose addr qord shuf mx sched workers take P in
  exists F, @compute RNum eps mm mx Sm = Ok F /\ hull_facets Sm F /\
    match @filter2 RNum sched workers P F with
    | Ok R => incl R P /\
        ((forall v, Extreme P v -> In v R) -> forall L, hull_facets P L ->
           ((64 <= length L)%nat -> exists L', run = Ok L' /\ hull_facets P L') /\ ((length L < 64)%nat -> run = UB)) /\
        ((exists v, Extreme P v /\ ~ In v R) -> fourOf R -> forall L', run = Ok L' -> ~ hull_facets P L')
    | Fuel => run = Fuel
    | _ => False
    end.
Proof.
  intros eps mm mx choose addr qord shuf sched w take P Sm Hm Hx Hc Ha Ho Hw E0 G Ln ES IS F4 DS run.
  assert (M : margin P (4 * eps)) by (apply general_margin; auto).
  assert (GS : general Sm (4 * eps)) by (apply margin_general; eapply margin_incl; eauto).
  destruct (@C61_quickhull eps mm mx Sm Hm Hx E0 GS F4) as [_ H]. destruct (H DS) as (F & EF & HF). exists F. split; auto. split; auto.
  assert (NP : P <> []) by (intros ->; cbn in Ln; lia).
  assert (F4P : four_pts P). { destruct (fourOf_pts F4) as (a & b & c & d & A & B & C & D & N). exists a, b, c, d. repeat (split; [apply IS; auto|]); auto. }
  assert (NF : F <> []).
  { destruct (@extreme_four Sm (4 * eps)) as (v & _ & _ & _ & Ev & _); [lra|apply general_margin; auto|apply fourOf_pts; auto|].
    destruct (@extreme_facet Sm eps v E0) as (t & Ht & _); auto; [apply general_margin; auto|apply fourOf_pts; auto|].
    destruct (proj1 (proj2 HF) t Ht) as (u & Hu & _). intros ->. exact Hu. }
  assert (ER : run = (R <- @filter2 RNum sched w P F ;; @computePar RNum eps choose addr qord shuf mm mx w R)).
  { unfold run, samplingHull. destruct (Nat.ltb_spec (@length (v3 (nT RNum)) P) 1000) as [L|L].
    - exfalso. apply (Nat.lt_irrefl 1000). eapply Nat.le_lt_trans; [exact Ln|exact L].
    - etransitivity; [apply (f_equal (fun x => bind x _)); exact ES|]. cbn [bind]. etransitivity; [apply (f_equal (fun x => bind x _)); exact EF|]. reflexivity. }
  destruct (@C81_filter_partial sched w P F Hw NP NF) as (T & _ & _ & _ & HR).
  destruct (@filter2 RNum sched w P F) as [R| | |]; auto. destruct HR as (HR & _).
  assert (IR : incl R P) by (intros p Hp; apply HR; auto).
  assert (GR : general R (4 * eps)) by (apply margin_general; eapply margin_incl; eauto). cbn [bind] in ER.
  split; auto. split.
  - intros Hv L HL. assert (S4 : four_pts R) by (apply (@sub_four P R (4 * eps)); auto; lra).
    assert (SH : forall L, hull_facets P L <-> hull_facets R L) by (intros L1; apply (@sub_hull P R (4 * eps)); auto; lra).
    destruct (@C79_parallel_partial eps mm mx choose addr qord shuf w R L) as (A & B); auto; [apply pts_four; auto|apply SH; auto|]. rewrite ER. split; auto.
    intros L64. destruct (A L64) as (L' & E' & H'). exists L'. split; auto. apply SH; auto.
  - intros (v & Ev & Nv) R4 L' EL'. rewrite ER in EL'.
    destruct (@C61_quickhull eps mm mx R Hm Hx E0 GR R4) as [(o & S1 & L0 & _ & _ & H0) _].
    destruct (@C79_parallel_partial eps mm mx choose addr qord shuf w R L0) as (A & B); auto.
    destruct (le_lt_dec 64 (length L0)) as [L64|L64]; [|rewrite (B L64) in EL'; discriminate].
    destruct (A L64) as (L1 & E1 & H1). rewrite EL' in E1. injection E1 as <-.
    eapply (@lost_extreme P R (4 * eps) v); eauto; [lra|]. apply (@extreme_facet P eps); auto.
Qed.
Print Assumptions C82_sampling_partial.

(** C83: the sample by random projections.  It reads one past the last point
    when a hash value is a multiple of the number of points. *)
Theorem C83_projection_partial : forall hash mm P m0, minmax3_ok mm -> P <> [] ->
  let m := Nat.max 2 (m0 / 2) in let run := @randomProjection RNum hash mm P m0 in
  ((forall i, (i < m)%nat -> hash i mod length P <> 0)%nat -> exists Sm, run = Ok Sm /\ length Sm = (2 * m)%nat /\ incl Sm P) /\
  ((exists i, (i < m /\ hash i mod length P = 0)%nat) -> run = UB).
Proof.
  intros hash mm P m0 Hm NP m run. split.
  - intros H. apply (@projection_ok hash P NP mm Hm m0). auto.
  - intros (i & Hi & Ei). eapply (@projection_ub hash P NP mm Hm m0); eauto.
Qed.
Print Assumptions C83_projection_partial.
(** Whatever the hash, there is a set of points for which this happens; a set as
    large as the first hash value, when that is not zero. *)
Theorem C83_refuted : forall hash mm m0, minmax3_ok mm -> exists P, P <> [] /\ @randomProjection RNum hash mm P m0 = UB /\
  (hash 0 <> 0 -> length P = hash 0)%nat.
Proof.
  intros hash mm m0 Hm. set (n := if (hash 0 =? 0)%nat then 1%nat else hash 0%nat).
  assert (Hn : (hash 0 mod n = 0 /\ n <> 0)%nat).
  { unfold n. destruct (Nat.eqb_spec (hash 0%nat) 0) as [E|E]; [rewrite E; split; auto|]. split; auto. apply Nat.mod_same; auto. }
  exists (repeat (V3 0 0 0) n). assert (NE : repeat (V3 0 0 0) n <> []) by (destruct n; [lia|discriminate]). split; auto. split.
  - apply (@C83_projection_partial hash mm (repeat (V3 0 0 0) n) m0 Hm NE). exists 0%nat. split; [lia|]. rewrite repeat_length. apply Hn.
  - intros N. rewrite repeat_length. unfold n. apply Nat.eqb_neq in N. now rewrite N.
Qed.
Print Assumptions C83_refuted.

(** C84: divide and conquer.  The blocks: eight for every worker, or one for every
    ten points; what is left over is in no block. *)
Definition blocks (n w : nat) : nat := Nat.min (8 * w) (n / 10).
Definition inBlocks (n w : nat) : nat := (n - n mod blocks n w)%nat.
Lemma inBlocks_eq n w : (10 <= n -> 0 < w -> inBlocks n w = covered n w)%nat.
Proof.
  intros Hn Hw. unfold inBlocks, covered, blocks. replace (8 * w)%nat with (w * 8)%nat by lia. set (k := Nat.min (w * 8) (n / 10)).
  assert (T : (1 <= n / 10)%nat) by (apply Nat.div_le_lower_bound; lia). pose proof (Nat.div_mod n k ltac:(lia)). lia.
Qed.
Lemma inBlocks_le n w : (10 <= n -> 0 < w -> 9 * (n / 10) <= inBlocks n w)%nat.
Proof.
  intros Hn Hw. unfold inBlocks, blocks. assert (T : (1 <= n / 10)%nat) by (apply Nat.div_le_lower_bound; lia).
  pose proof (Nat.mod_upper_bound n (Nat.min (8 * w) (n / 10)) ltac:(lia)). pose proof (Nat.mul_div_le n 10 ltac:(lia)). lia.
Qed.
Theorem C84_divide_partial : forall eps mm mx srt choose addr qord shuf hash workers numProc size P, minmax3_ok mm -> maxel3_ok mx ->
  (forall lt l, Permutation l (srt lt l)) -> choose_ok choose -> addr_ok addr -> order_ok qord shuf -> (0 < workers)%nat -> 0 <= eps -> general P (4 * eps) ->
  NoDup P -> (1000 <= length P)%nat -> fourOf (map (fun i => pnt P (hash i mod length P)) (seq 0 size)) ->
  exists fw, @few RNum eps hash mm mx srt P size = Ok fw /\
    let w := if (numProc =? 0)%nat then workers else numProc in
    let n := if (fw : bool) then inBlocks (length P) w else length P in
    let run := @divideConquer RNum eps hash mm choose addr qord shuf mx srt workers numProc size P in
    forall L, hull_facets (firstn n P) L ->
      ((64 <= length L)%nat -> exists L', run = Ok L' /\ hull_facets (firstn n P) L') /\ ((length L < 64)%nat -> run = UB).
Proof.
  intros eps mm mx srt choose addr qord shuf hash workers numProc size P Hm Hx Hs Hc Ha Ho Hw E0 G ND Ln F4.
  assert (M : margin P (4 * eps)) by (apply general_margin; auto).
  assert (NP : P <> []) by (intros ->; cbn in Ln; lia).
  set (Sm := map (fun i => pnt P (hash i mod length P)) (seq 0 size)) in *.
  assert (ES : @randomSample RNum hash P size = Ok Sm) by (apply sample_ok; auto).
  assert (IS : incl Sm P).
  { intros p Hp. apply in_map_iff in Hp. destruct Hp as (i & <- & _). apply nth_In. apply Nat.mod_upper_bound. destruct P; [congruence|discriminate]. }
  destruct (@C63_vertices eps mm mx srt Sm Hm Hx Hs E0) as (V & EV & _); auto; [apply margin_general; eapply margin_incl; eauto|].
  exists (5 * length V <? 4 * size)%nat. split.
  { unfold few. etransitivity; [apply (f_equal (fun x => bind x _)); exact ES|]. cbn [bind]. etransitivity; [apply (f_equal (fun x => bind x _)); exact EV|]. reflexivity. }
  set (fw := (5 * length V <? 4 * size)%nat). intros w n run L HL.
  assert (w0 : (0 < w)%nat) by (unfold w; destruct (Nat.eqb_spec numProc 0); lia).
  destruct (@concurrent_ok eps mm mx srt Hm Hx Hs E0 P M ND w) as (Q & EQ & IQ & HQ); [lia|auto|].
  rewrite <- inBlocks_eq in IQ, HQ by lia.
  assert (ER : run = @computePar RNum eps choose addr qord shuf mm mx workers (if fw then Q else P)).
  { unfold run, divideConquer. destruct (Nat.ltb_spec (@length (v3 (nT RNum)) P) 1000) as [L1|L1].
    - exfalso. apply (Nat.lt_irrefl 1000). eapply Nat.le_lt_trans; [exact Ln|exact L1].
    - etransitivity; [apply (f_equal (fun x => bind x _))|].
      + unfold few. etransitivity; [apply (f_equal (fun x => bind x _)); exact ES|]. cbn [bind]. etransitivity; [apply (f_equal (fun x => bind x _)); exact EV|]. reflexivity.
      + cbn [bind]. fold fw. destruct fw; auto. etransitivity; [apply (f_equal (fun x => bind x _)); exact EQ|]. reflexivity. }
  rewrite ER. unfold n in *. destruct fw.
  - set (P' := firstn (inBlocks (length P) w) P) in *.
    assert (I' : incl P' P) by (intros x Hp; unfold P' in Hp; rewrite <- (firstn_skipn (inBlocks (length P) w) P); apply in_or_app; auto).
    assert (M' : margin P' (4 * eps)) by (eapply margin_incl; eauto).
    assert (H4 : four_pts P').
    { apply (@four_of_NoDup P' eps); auto.
      - rewrite <- (firstn_skipn (inBlocks (length P) w) P) in ND. apply NoDup_app_elim in ND. apply ND.
      - unfold P'. rewrite firstn_length. pose proof (@inBlocks_le (length P) w ltac:(lia) w0).
        assert (100 <= length P / 10)%nat by (apply Nat.div_le_lower_bound; lia). lia. }
    assert (S4 : four_pts Q) by (apply (@sub_four P' Q (4 * eps)); auto; lra).
    assert (SH : forall L, hull_facets P' L <-> hull_facets Q L) by (intros L1; apply (@sub_hull P' Q (4 * eps)); auto; lra).
    destruct (@C79_parallel_partial eps mm mx choose addr qord shuf workers Q L) as (A & B); auto; [|apply pts_four; auto|apply SH; auto|].
    + apply margin_general. eapply margin_incl; [|exact M']. auto.
    + split; auto. intros L64. destruct (A L64) as (L' & E' & H'). exists L'. split; auto. apply SH; auto.
  - rewrite firstn_all in *. apply C79_parallel_partial; auto. destruct F4 as (a & b & c & d & I4 & N4). exists a, b, c, d. split; auto. intros x Hx4. apply IS, I4, Hx4.
Qed.
Print Assumptions C84_divide_partial.
(** The points left over are lost.  With any number of workers, points of the
    curve, one more than fill the blocks, and a hash that repeats four points:
    the last point is a corner of the hull and of no facet returned. *)
Lemma moment_prefix n : firstn n (moment (S n)) = moment n.
Proof.
  unfold moment. rewrite seq_S, map_app, firstn_app, map_length, seq_length, Nat.sub_diag. cbn [firstn]. rewrite app_nil_r.
  apply firstn_all2. rewrite map_length, seq_length. auto.
Qed.
Lemma moment_nth n i : (i < n)%nat -> pnt (moment n) i = mom i.
Proof.
  intros H. unfold pnt, moment. rewrite (nth_indep _ _ (mom 0)) by (rewrite map_length, seq_length; auto). rewrite map_nth, seq_nth; auto.
Qed.
Lemma moment_NoDup n : NoDup (moment n).
Proof.
  unfold moment. generalize (seq_NoDup n 0). induction (seq 0 n) as [|i l IH]; cbn; [constructor|]. intros H. inversion H; subst. constructor; auto.
  intros X. apply in_map_iff in X. destruct X as (j & E & Hj). apply mom_inj in E. congruence.
Qed.
Lemma mom_sum i j : vx (mom i) + vy (mom i) + vz (mom i) = vx (mom j) + vy (mom j) + vz (mom j) -> mom i = mom j.
Proof.
  unfold mom. cbn [vx vy vz]. intros E. replace i with j; auto. apply INR_eq. pose proof (pos_INR i) as I. pose proof (pos_INR j) as J.
  set (a := INR i) in *. set (b := INR j) in *. assert (X : (b - a) * (1 + (a + b) + (a * a + a * b + b * b)) = 0) by lra.
  apply Rmult_integral in X. destruct X as [X|X]; [lra|]. pose proof (Rmult_le_pos _ _ I J). pose proof (Rmult_le_pos _ _ I I). pose proof (Rmult_le_pos _ _ J J). lra.
Qed.
Definition four (i : nat) : nat := (i mod 4)%nat.
Lemma moment_last n : (4 <= n)%nat -> exists t, HullFacet (moment n) t /\ isCorner t (mom (n - 1)).
Proof.
  intros H. exists (mfac n (false, 0%nat)). split; [apply mfac_hull|cbn; auto]. unfold mcodes. apply in_or_app. right. apply in_map. apply in_seq. lia.
Qed.
Theorem C84_refuted : forall mm mx srt choose addr qord shuf w k, minmax3_ok mm -> maxel3_ok mx -> sort3_ok srt ->
  (forall lt l, Permutation l (srt lt l)) -> choose_ok choose -> addr_ok addr -> order_ok qord shuf -> (0 < w)%nat -> (10 <= k)%nat -> (1000 <= 8 * w * k)%nat ->
  let P := moment (S (8 * w * k)) in general P (4 * / 100000) /\ NoDup P /\
  exists L, @divideConquer RNum (/ 100000) four mm choose addr qord shuf mx srt w 0 10 P = Ok L /\ ~ hull_facets P L.
Proof.
  intros mm mx srt choose addr qord shuf w k Hm Hx Hs Hp Hc Ha Ho Hw Hk L1000 P. set (n := (8 * w * k)%nat) in *.
  assert (G : general P (4 * / 100000)) by (apply margin_general, moment_margin; lra).
  assert (ND : NoDup P) by apply moment_NoDup. split; auto. split; auto.
  assert (LP : length P = S n) by (unfold P, moment; rewrite map_length, seq_length; auto).
  assert (E0 : 0 <= / 100000) by lra.
  assert (ES : map (fun i => pnt P (four i mod length P)) (seq 0 10) = map mom [0; 1; 2; 3; 0; 1; 2; 3; 0; 1]%nat).
  { rewrite LP. change [0; 1; 2; 3; 0; 1; 2; 3; 0; 1]%nat with (map four (seq 0 10)). rewrite map_map. apply map_ext. intros i.
    pose proof (Nat.mod_upper_bound i 4 ltac:(lia)). unfold four. rewrite Nat.mod_small by lia. apply moment_nth. lia. }
  assert (IS : incl (map mom [0; 1; 2; 3; 0; 1; 2; 3; 0; 1]%nat) (moment 4)).
  { intros x Hx4. apply in_map_iff in Hx4. destruct Hx4 as (i & <- & Hi). apply moment_in. exists i. split; auto. cbn in Hi. lia. }
  assert (F4 : fourOf (map mom [0; 1; 2; 3; 0; 1; 2; 3; 0; 1]%nat)).
  { destruct (@moment_four 4) as (a & b & c & d & I4 & N4); [lia|]. exists a, b, c, d. split; auto. intros x Hx4. apply I4, moment_in in Hx4.
    destruct Hx4 as (i & -> & Li). apply in_map. cbn. lia. }
  destruct (@C84_divide_partial (/ 100000) mm mx srt choose addr qord shuf four w 0 10 P) as (fw & Ef & H); auto; try lia; [rewrite ES; auto|].
  assert (Efw : fw = true).
  { destruct (@C64_once_partial (/ 100000) mm mx srt (map mom [0; 1; 2; 3; 0; 1; 2; 3; 0; 1]%nat)) as (V & EV & NV); auto.
    - apply margin_general. eapply margin_incl; [exact IS|]. apply moment_margin; lra.
    - intros a b A B. apply IS, moment_in in A. apply IS, moment_in in B. destruct A as (i & -> & _), B as (j & -> & _). apply mom_sum.
    - destruct (@C65_input_points_partial (/ 100000) mm mx srt (map mom [0; 1; 2; 3; 0; 1; 2; 3; 0; 1]%nat)) as (V' & EV' & IV); auto.
      { apply margin_general. eapply margin_incl; [exact IS|]. apply moment_margin; lra. }
      rewrite EV in EV'. injection EV' as <-.
      assert (LV : (length V <= 4)%nat).
      { change 4%nat with (length (moment 4)). apply NoDup_incl_length; auto. intros x Hx4. apply IS, IV, Hx4. }
      assert (Ef' : @few RNum (/ 100000) four mm mx srt P 10 = Ok (5 * length V <? 4 * 10)%nat).
      { unfold few. etransitivity; [apply (f_equal (fun x => bind x _)); apply sample_ok; intros X; rewrite X in LP; discriminate|]. cbn [bind].
        etransitivity; [apply (f_equal (fun x => bind x _)); etransitivity; [|exact EV]; apply f_equal; exact ES|]. reflexivity. }
      rewrite Ef in Ef'. injection Ef' as ->. apply Nat.ltb_lt. change (nT RNum) with R in *. lia. }
  subst fw. cbv zeta in H. change (0 =? 0)%nat with true in H. cbv iota in H.
  assert (EB : inBlocks (length P) w = n).
  { rewrite LP. unfold inBlocks, blocks. assert (8 * w <= S n / 10)%nat by (apply Nat.div_le_lower_bound; [lia|]; unfold n; nia).
    rewrite Nat.min_l by auto. replace (S n) with (1 + k * (8 * w))%nat by (unfold n; lia). rewrite Nat.mod_add by lia. rewrite Nat.mod_small by lia. unfold n; lia. }
  rewrite EB in H. unfold P in H. rewrite moment_prefix in H.
  destruct (@C61_quickhull (/ 100000) mm mx (moment n) Hm Hx E0) as [(o & S1 & L0 & _ & _ & H0) _]; [apply margin_general, moment_margin; lra|apply moment_four; lia|].
  destruct (H L0 H0) as (A & _). destruct A as (L & EL & HL); [pose proof (@moment_facets n L0 ltac:(lia) H0); lia|].
  exists L. split; auto. intros (_ & B & _). destruct (@moment_last (S n)) as (t & Ht & Ct); [lia|]. destruct (B t Ht) as (u & Hu & S). apply S in Ct.
  apply (proj1 HL) in Hu. destruct u as [[x y] z]. destruct Hu as (X & Y & Z & _). replace (Datatypes.S n - 1)%nat with n in Ct by lia.
  assert (N : ~ In (mom n) (moment n)) by (intros N; apply moment_in in N; destruct N as (i & E & Li); apply mom_inj in E; lia).
  apply N. destruct Ct as [->|[->| ->]]; auto.
Qed.
Print Assumptions C84_refuted.

(** *** Examples *)
(** C81: one facet of the tetrahedron alone keeps everything it sees, a point
    outside it first *)
Example filter_one : @filter2 FNum (repeat 0%nat 9) 1 six [(V 3 0 (-1), V (-2) (-3) (-1), V 0 0 4)] =
  Ok [V 2 0.125 2; V 0.5 (-2) 1.25; V 3 0 (-1); V (-2) (-3) (-1); V 0 0 4].
Proof. vm_compute. reflexivity. Qed.
(** a schedule that is too short does not finish *)
Example filter_short : @filter2 FNum (repeat 0%nat 3) 1 six [(V 3 0 (-1), V (-2) (-3) (-1), V 0 0 4)] = Fuel.
Proof. vm_compute. reflexivity. Qed.
(** C82: the first eleven of at least 1000 points of the curve are a sample *)
Definition first11 (P : list (v3 (nT RNum))) : res (list (v3 (nT RNum))) := Ok (firstn 11 P).
Example sampling_curve : forall n, (1000 <= n)%nat -> general (moment n) (4 * / 100000) /\ exists Sm, first11 (moment n) = Ok Sm /\ incl Sm (moment n) /\ fourOf Sm /\ (10 < length Sm)%nat.
Proof.
  intros n Hn. split; [apply margin_general, moment_margin; lra|]. exists (moment 11). split; [|split; [|split]].
  - unfold first11. f_equal. assert (X : forall k m, firstn k (moment (k + m)) = moment k).
    { intros k m. unfold moment. rewrite seq_app, map_app, firstn_app, map_length, seq_length, Nat.sub_diag. cbn [firstn]. rewrite app_nil_r.
      apply firstn_all2. rewrite map_length, seq_length. auto. }
    replace n with (11 + (n - 11))%nat by lia. apply X.
  - intros x Hx. apply moment_in in Hx. destruct Hx as (i & -> & Hi). apply moment_in. exists i. split; auto. lia.
  - apply moment_four. lia.
  - unfold moment. rewrite map_length, seq_length. lia.
Qed.
(** C83: two projections of six points, the second on a line through one point
    only, where the quotients are NaN; and a hash value of zero *)
Example projection_six : @randomProjection FNum (fun i => i + 2)%nat minmaxI3 six 4 = Ok [V 3 0 (-1); V (-2) (-3) (-1); V (-2) 3 (-1); V (-2) 3 (-1)].
Proof. vm_compute. reflexivity. Qed.
Example projection_zero : @randomProjection FNum (fun i => i * 6)%nat minmaxI3 six 4 = UB.
Proof. vm_compute. reflexivity. Qed.
(** C84: when the blocks take up all points of the curve its hull is returned,
    whatever the hash, provided that it hits four points *)
Example divide_curve : forall mm mx srt choose addr qord shuf hash w size n, minmax3_ok mm -> maxel3_ok mx ->
  (forall lt l, Permutation l (srt lt l)) -> choose_ok choose -> addr_ok addr -> order_ok qord shuf -> (0 < w)%nat -> (1000 <= n)%nat -> (n mod blocks n w = 0)%nat ->
  fourOf (map (fun i => pnt (moment n) (hash i mod length (moment n))) (seq 0 size)) ->
  exists L, @divideConquer RNum (/ 100000) hash mm choose addr qord shuf mx srt w 0 size (moment n) = Ok L /\ hull_facets (moment n) L.
Proof.
  intros mm mx srt choose addr qord shuf hash w size n Hm Hx Hp Hc Ha Ho Hw Hn Hb F4.
  assert (LP : length (moment n) = n) by (unfold moment; rewrite map_length, seq_length; auto).
  assert (E0 : 0 <= / 100000) by lra. assert (G : general (moment n) (4 * / 100000)) by (apply margin_general, moment_margin; lra).
  destruct (@C84_divide_partial (/ 100000) mm mx srt choose addr qord shuf hash w 0 size (moment n)) as (fw & _ & H); auto; [apply moment_NoDup|lia|].
  cbv zeta in H. change (0 =? 0)%nat with true in H. cbv iota in H.
  assert (X : (if fw then inBlocks (length (moment n)) w else length (moment n)) = length (moment n)) by (destruct fw; auto; rewrite LP; unfold inBlocks; lia).
  rewrite X, firstn_all in H.
  destruct (@C61_quickhull (/ 100000) mm mx (moment n) Hm Hx E0 G) as [(o & S1 & L0 & _ & _ & H0) _]; [apply moment_four; lia|].
  apply (H L0 H0). pose proof (@moment_facets n L0 ltac:(lia) H0). lia.
Qed.
(** twenty-five points of the curve in doubles: two blocks of twelve, the last
    point lost *)
Example blocks_25 : match @concurrentHull FNum epsF minmaxI3 argmaxI sortI (firstn 25 curveF) 1 with
  | Ok Q => forallb (fun p => existsb (same3 p) Q) (firstn 24 curveF) = true /\ existsb (same3 (nth 24 curveF (V 0 0 0))) Q = false
  | _ => False end.
Proof. vm_compute. split; reflexivity. Qed.
