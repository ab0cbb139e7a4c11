(** The sampling hull: the filter as a whole, the samples. *)
From Coq Require Import Reals Lra Lia List Bool Permutation.
From Verif Require Import Base Num KdModel KdSpec KdBuild Sched H3Model H3Geom H3Surf H3Heap H3Loop H3Init H3Init2 H3Spec H3Final H3Inst H3ParModel H3ParHeap H3ParRound H3ParMain H3SubModel H3Sub H3SubDc H3SubFilter PropKd.
Set Implicit Arguments.
Open Scope nat_scope.

(** every extreme point is the corner of a facet *)
Lemma extreme_facet P e v : (0 <= e)%R -> margin P (4 * e) -> four_pts P -> Extreme P v -> exists t, HullFacet P t /\ isCorner t v.
Proof.
  intros E0 G H4 Ev.
  destruct (@quick_ok P e E0 G H4 minmaxI3 argmaxI minmaxI_ok3 maxelI_ok) as (o & S1 & W & q1 & q2 & q3 & q4 & E & GQ & R1 & NS & LH & I1 & I2 & I3 & I4 & D & Z).
  pose proof (@corners_extreme P o e E0 GQ S1 W R1 NS LH q1 q2 q3 q4 I1 I2 I3 I4 D Z v) as (C & _).
  destruct (C Ev) as (i & f & L & Cf). exists (shiftT o (corners f)). split; [|apply shiftT_corner; exact Cf].
  apply HullFacet_shift. eapply live_facet; eauto.
Qed.

(** ** The filter *)
Section Filter.
  Variable P : list p3.
  Notation tree := (tree RNum nat).
  Lemma coord_co (p : p3) : coord (co RNum p) 0 = vx p /\ coord (co RNum p) 1 = vy p /\ coord (co RNum p) 2 = vz p.
  Proof. repeat split. Qed.
  Lemma kdTree_ok w : 0 < w -> P <> [] -> exists T, @kdTree RNum w P = Ok T /\ Permutation (items T) (seq 0 (length P)) /\ boxesR P T /\ concat (leaves T) = items T.
  Proof.
    intros Hw NE. unfold kdTree. set (pt := fun i => co RNum (nth i P (V3 (nzero RNum) (nzero RNum) (nzero RNum)))).
    assert (NS : seq 0 (length P) <> []) by (destruct P; [congruence|discriminate]).
    destruct (@C01_build_permutation RNum _ R_ordlaws R_span 3 nat pt true w 2000 128 (seq 0 (length P))) as (T & E & Pm & Lv); auto; try lia.
    exists T. split; [exact E|]. split; auto. split; auto. intros s i Hs Hi.
    assert (B : forall d, d < 3 -> nle RNum (coord (bmin (tbox s)) d) (coord (pt i) d) = true /\ nle RNum (coord (pt i) d) (coord (bmax (tbox s)) d) = true).
    { intros d Hd. destruct (@C02_boxes_tight RNum _ R_ordlaws R_span 3 nat pt true w 2000 128 (seq 0 (length P)) T) with (s := s) (d := d) as (X & _); auto; try lia. }
    unfold inBox. change (ptOf P i) with (nth i P (V3 (nzero RNum) (nzero RNum) (nzero RNum))).
    destruct (B 0 ltac:(lia)) as (A1 & A2), (B 1 ltac:(lia)) as (B1 & B2), (B 2 ltac:(lia)) as (C1 & C2).
    cbn [nle RNum] in *. rewrite Rleb_true in *. unfold pt, co, coord in *. cbn [nth] in *. repeat split; assumption.
  Qed.

  Lemma pack_in fl p : length fl = length P -> In p (@pack RNum P fl) <-> exists i, nth_error P i = Some p /\ flagOn fl i.
  Proof.
    intros L. unfold pack, flagOn. revert fl L. induction P as [|q Q IH]; intros [|b fl] L; try discriminate.
    - cbn. split; [intros []|]. intros ([|i] & H & _); discriminate.
    - cbn in L. injection L as L. specialize (IH fl L). cbn [combine filter]. split.
      + destruct b; cbn [snd map fst].
        * intros [<-|H]; [exists 0; auto|]. apply IH in H. destruct H as (i & A & B). exists (S i). auto.
        * intros H. apply IH in H. destruct H as (i & A & B). exists (S i). auto.
      + intros ([|i] & A & B); cbn in A, B.
        * injection A as ->. injection B as ->. cbn. auto.
        * assert (H : In p (map fst (filter snd (combine Q fl)))) by (apply IH; eauto). destruct b; cbn; auto.
  Qed.

  Lemma filter2_ok sched w F : 0 < w -> P <> [] -> F <> [] ->
    exists T, @kdTree RNum w P = Ok T /\ Permutation (concat (leaves T)) (seq 0 (length P)) /\
      (exists sched' R, @filter2 RNum (sched ++ sched') w P F = Ok R) /\
      match @filter2 RNum sched w P F with
      | Ok R => (forall p, In p R -> In p P /\ exists t, In t F /\ Cand (@outFacet RNum t) p) /\
          forall t leaf j, In t F -> In leaf (leaves T) -> In j leaf -> (0 < ht (@outFacet RNum t) (ptOf P j))%R ->
            forall a i k b, filter (@cand RNum P (@outFacet RNum t)) leaf = a ++ i :: k :: b -> In (ptOf P i) R \/ In (ptOf P k) R
      | Fuel => True
      | _ => False
      end.
  Proof.
    intros Hw NE NF. destruct (kdTree_ok Hw NE) as (T & ET & Pm & BX & Lv). exists T. split; auto. split; [rewrite Lv; auto|].
    set (vss := map (fun t => @visits RNum P (@outFacet RNum t) T) F).
    assert (ST : map (fun t => (false, @visits RNum P (@outFacet RNum t) T)) F = start vss) by (unfold start, vss; rewrite map_map; reflexivity).
    assert (Bd : forall vs v i, In vs vss -> In v vs -> In i v -> i < length P).
    { intros vs v i Hvs Hv Hi. apply in_map_iff in Hvs. destruct Hvs as (t & <- & Ht).
      destruct (@visits_sound P (@outFacet RNum t) T BX v i Hv Hi) as (Ii & _). apply (Permutation_in _ Pm), in_seq in Ii. lia. }
    assert (EF : (length F =? 0) = false) by (destruct F; [congruence|reflexivity]).
    assert (Run : forall sc, @filter2 RNum sc w P F = ('(_, fl) <- runT fstep ffin sc (start vss) (repeat false (length P)) ;; Ok (@pack RNum P fl))).
    { intros sc. unfold filter2. rewrite ET. cbn [bind]. rewrite EF, ST. reflexivity. }
    split.
    { destruct (@flags_finish vss (length P) Bd sched) as (sched' & [ls fl] & E). exists sched', (@pack RNum P fl). rewrite Run, E. reflexivity. }
    rewrite Run. pose proof (@flags_run vss (length P) Bd sched) as H.
    destruct (runT fstep ffin sched (start vss) (repeat false (length P))) as [[ls fl]| | |]; auto. cbn [bind].
    destruct H as (L & S & O).
    assert (PT : forall i, i < length P -> nth_error P i = Some (ptOf P i)) by (intros i Hi; apply nth_error_nth'; auto).
    split.
    - intros p Hp. apply pack_in in Hp; auto. destruct Hp as (i & Ei & Fi). split; [eapply nth_error_In; eauto|].
      destruct (S i Fi) as (vs & v & Hvs & Hv & Hi). apply in_map_iff in Hvs. destruct Hvs as (t & <- & Ht).
      destruct (@visits_sound P (@outFacet RNum t) T BX v i Hv Hi) as (_ & C). exists t. split; auto.
      assert (Eq : ptOf P i = p) by (apply nth_error_nth; exact Ei). now rewrite <- Eq.
    - intros t leaf j Ht Hl Hj Pos a i k b E.
      assert (LF : exists bx, In (Leaf leaf bx) (subtrees T)).
      { clear - Hl. induction T as [its bx|bx l IHl r IHr]; cbn in *.
        - destruct Hl as [<-|[]]. eauto.
        - apply in_app_or in Hl. destruct Hl as [H|H]; [destruct (IHl H) as (c & Hc)|destruct (IHr H) as (c & Hc)]; exists c; right; apply in_or_app; auto. }
      destruct LF as (bx & LF). destruct (@visits_leaf P (@outFacet RNum t) T BX leaf bx j LF Hj Pos) as (v & x & y & Hv & Ev).
      destruct (O (@visits RNum P (@outFacet RNum t) T) v) as (_ & O2); auto; [unfold vss; apply in_map_iff; eauto|].
      assert (Ik : forall z, In z (filter (@cand RNum P (@outFacet RNum t)) leaf) -> z < length P).
      { intros z Hz. apply filter_In in Hz. destruct Hz as (Hz & _). assert (In z (items T)) by (apply (subtrees_incl _ _ LF); exact Hz).
        apply (Permutation_in _ Pm), in_seq in H. lia. }
      destruct (O2 (x ++ a) i k (b ++ y)) as [Fi|Fk].
      + rewrite Ev, E. rewrite <- !app_assoc. reflexivity.
      + left. apply pack_in; auto. exists i. split; auto. apply PT, Ik. rewrite E. apply in_or_app; right; left; auto.
      + right. apply pack_in; auto. exists k. split; auto. apply PT, Ik. rewrite E. apply in_or_app; right; right; left; auto.
  Qed.
End Filter.

(** ** The samples *)
Section Sample.
  Variable hash : nat -> nat.
  Variable P : list p3.
  Hypothesis NE : P <> [].
  Lemma len0 : length P <> 0. Proof. destruct P; [congruence|discriminate]. Qed.
  Lemma hashed_ok i : @hashed RNum hash P i = Ok (hash i mod length P).
  Proof. unfold hashed. change (nT RNum) with R. destruct (Nat.eqb_spec (length P) 0) as [E|E]; [apply len0 in E; destruct E|reflexivity]. Qed.
  Lemma at_ok i : i < length P -> @at_ RNum P i = Ok (ptOf P i).
  Proof. intros H. unfold at_. change (nT RNum) with R. rewrite (nth_error_nth' P (V3 0 0 0)%R H). reflexivity. Qed.
  Lemma sample_ok m : @randomSample RNum hash P m = Ok (map (fun i => ptOf P (hash i mod length P)) (seq 0 m)).
  Proof.
    unfold randomSample. apply mapR_ok. intros i _. rewrite hashed_ok. cbn [bind]. apply at_ok, Nat.mod_upper_bound, len0.
  Qed.

  Variable mm : (p3 -> p3 -> bool) -> list p3 -> nat * nat.
  Hypothesis Hmm : minmax3_ok mm.
  Lemma project_ok m i : 0 < m -> hash i mod length P <> 0 -> exists l, @project RNum hash mm P m i = Ok l /\ length l = 2 /\ incl l P.
  Proof.
    intros Hm Hi. unfold project. rewrite hashed_ok. cbn [bind]. set (ii := hash i mod length P) in *.
    assert (Li : ii < length P) by (apply Nat.mod_upper_bound, len0). rewrite at_ok by auto. cbn [bind]. change (@length (v3 (nT RNum)) P) with (@length p3 P). rewrite at_ok by lia. cbn [bind].
    set (a := ptOf P ii). set (ab := sub3 RNum (ptOf P (length P - ii)) a). cbv zeta. cbn [nlt RNum]. set (C := slice ii (Nat.min (ii + m * 2) (length P)) P).
    assert (NC : C <> []). { intros E. apply (f_equal (@length _)) in E. unfold C in E. rewrite slice_len in E by lia. cbn in E. lia. }
    destruct (Hmm (fun p => ndiv RNum (dot3 RNum (sub3 RNum p a) ab) (dot3 RNum ab ab)) NC) as (p & q & Ep & Eq & _).
    destruct (mm (fun i0 j : p3 => Rltb (ndiv RNum (dot3 RNum (sub3 RNum i0 a) ab) (dot3 RNum ab ab)) (ndiv RNum (dot3 RNum (sub3 RNum j a) ab) (dot3 RNum ab ab))) C) as [l h] eqn:EM.
    cbn [fst snd] in Ep, Eq. exists [p; q]. split; [|split; auto].
    - match goal with |- (let '(l, h) := ?x in _) = _ => replace x with (l, h) by (symmetry; exact EM) end.
      assert (A1 : forall i z, nth_error C i = Some z -> @at_ RNum C i = Ok z).
      { intros i0 z Ez. unfold at_. match goal with |- match ?x with _ => _ end = _ => replace x with (Some z) by (symmetry; exact Ez) end. reflexivity. }
      etransitivity; [apply (f_equal (fun x => bind x _)); exact (A1 _ _ Ep)|]. cbn [bind].
      etransitivity; [apply (f_equal (fun x => bind x _)); exact (A1 _ _ Eq)|]. reflexivity.
    - intros z [<-|[<-|[]]]; eapply in_slice; eapply nth_error_In; eauto.
  Qed.
  Lemma project_ub m i : hash i mod length P = 0 -> @project RNum hash mm P m i = UB.
  Proof.
    intros Hi. unfold project. rewrite hashed_ok, Hi. cbn [bind]. pose proof len0. rewrite at_ok by lia. cbn [bind].
    unfold at_ at 1. change (nT RNum) with R. rewrite Nat.sub_0_r. destruct (nth_error P (length P)) eqn:E; [|reflexivity].
    exfalso. assert (length P < length P) by (apply nth_error_Some; congruence). lia.
  Qed.
  Lemma mapR_ub {X Y} (f : X -> res Y) l x : In x l -> f x = UB -> (forall y, In y l -> f y = UB \/ exists z, f y = Ok z) -> mapR f l = UB.
  Proof.
    induction l as [|y l IH]; intros Hx Ex H; [destruct Hx|]. cbn [mapR].
    change ((fix go (l : list X) : res (list Y) := match l with [] => Ok [] | x :: l' => y <- f x;; ys <- go l';; Ok (y :: ys) end) l) with (mapR f l).
    destruct (H y (or_introl eq_refl)) as [E|(z & E)]; rewrite E; cbn [bind]; auto.
    destruct Hx as [<-|Hx]; [congruence|]. rewrite IH; auto. intros w Hw. apply H. right; auto.
  Qed.
  Lemma projection_ub m0 i : i < Nat.max 2 (m0 / 2) -> hash i mod length P = 0 -> @randomProjection RNum hash mm P m0 = UB.
  Proof.
    intros Hi Ei. unfold randomProjection. set (m := Nat.max 2 (m0 / 2)) in *. cbv zeta.
    rewrite (@mapR_ub _ _ (@project RNum hash mm P m) (seq 0 m) i); [reflexivity|apply in_seq; lia|apply project_ub; auto|].
    intros j _. destruct (Nat.eq_dec (hash j mod length P) 0) as [E|E]; [left; apply project_ub; auto|].
    right. destruct (@project_ok m j) as (l & El & _); [lia|auto|]. eauto.
  Qed.
  Lemma projection_ok m0 : (forall i, i < Nat.max 2 (m0 / 2) -> hash i mod length P <> 0) ->
    exists S, @randomProjection RNum hash mm P m0 = Ok S /\ length S = 2 * Nat.max 2 (m0 / 2) /\ incl S P.
  Proof.
    intros H. unfold randomProjection. set (m := Nat.max 2 (m0 / 2)) in *. cbv zeta.
    destruct (@mapR_all _ _ (@project RNum hash mm P m) (fun _ l => length l = 2 /\ incl l P) (seq 0 m)) as (ls & E & F2).
    { intros i Hi. apply in_seq in Hi. destruct (@project_ok m i) as (l & El & A & B); [lia|apply H; lia|]. eauto. }
    exists (concat ls). rewrite E. cbn [bind]. split; auto. rewrite <- (seq_length m 0). clear - F2. induction F2 as [|x l xs ls (A & B) F IH].
    - split; auto. intros z [].
    - destruct IH as (I1 & I2). cbn [concat length]. rewrite app_length, A. split; [lia|]. apply incl_app; auto.
  Qed.
End Sample.
