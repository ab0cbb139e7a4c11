(** quickHull under any arithmetic without NaN areas: it terminates and returns
    positions of the input; instance for doubles. *)
From Coq Require Import Reals ZArith Floats SpecFloat FloatAxioms Lia.
From Verif Require Import Base Num FloatNum FloatLaws KdModel Hull2dModel Hull2dGeom Hull2dQuick.
Set Implicit Arguments.

Section Gen.
  Variable K : Num.
  Variable ok : nT K -> Prop.
  Hypothesis OL : OrdLaws K ok.
  Hypothesis ok0 : ok (nzero K).
  Notation point := (list (nT K)).
  Variable red : (cipairs K -> cipairs K -> cipairs K) -> cipairs K -> list (cipairs K) -> cipairs K.
  Hypothesis Hred : forall f id l, redOf f id l (red f id l).
  Variable minmax : (point -> point -> bool) -> list point -> nat * nat.
  Variable P : list point.
  Notation n := (length P).
  Notation q i := (nth i P []).
  Hypothesis Hok : forall a b c, In a P -> In b P -> In c P -> ok (triArea K a b c).
  Hypothesis Habb : forall a b, In a P -> In b P -> nlt K (nzero K) (triArea K a b b) = false.
  Hypothesis Haba : forall a b, In a P -> In b P -> nlt K (nzero K) (triArea K a b a) = false.
  Hypothesis Hmm : fst (minmax (pntless K) P) < n /\ snd (minmax (pntless K) P) < n.

  Lemma filter_map_fst X (h : X -> bool) (g : nat -> nat * X) (G : forall j, fst (g j) = j) Idxs :
    map fst (filter (fun x => h (snd x)) (map g Idxs)) = filter (fun j => h (snd (g j))) Idxs.
  Proof. induction Idxs as [|j I IH]; auto. cbn [map filter]. destruct (h _); cbn [map]; [rewrite G; f_equal|]; auto. Qed.

  Lemma helper_total fuel : forall Idxs l mid r, l < n -> r < n -> (forall i, In i Idxs -> i < n) ->
    (Idxs <> [] -> In mid Idxs) -> length Idxs < fuel ->
    exists H, @quickHullHelper K red fuel P Idxs l mid r = Ok H /\ incl H Idxs.
  Proof.
    induction fuel as [|fuel IH]; intros Idxs l mid r Hl Hr HI Hmid Hf; [lia|]. cbn [quickHullHelper].
    destruct (Nat.leb_spec (length Idxs) 1) as [Hs|Hs]; [exists Idxs; split; [auto|apply incl_refl]|].
    assert (HmI : In mid Idxs) by (apply Hmid; intros E; rewrite E in Hs; cbn in Hs; lia).
    pose proof (HI mid HmI) as Hm.
    rewrite (at_nth P [] Hl), (at_nth P [] Hm), (at_nth P [] Hr). cbn [bind].
    set (g := fun j => (j, (triArea K (q l) (q mid) (q j), triArea K (q mid) (q r) (q j)))).
    rewrite (@mapR_map _ _ _ g Idxs).
    2:{ intros j Hj. rewrite (at_nth P [] (HI j Hj)). reflexivity. }
    cbn [bind]. rewrite map_map.
    set (lst := map (fun x => ((triArea K (q l) (q mid) (q x), x), (triArea K (q mid) (q r) (q x), x))) Idxs).
    assert (NI : forall i, i < n -> In (q i) P) by (intros; apply nth_In; auto).
    destruct (@red_max K ok OL ok0 lst _ (Hred (pairMax (K := K)) (cid K) lst)) as (Ro & Rm & Rf & Rs).
    { intros x Hx. apply in_map_iff in Hx as (j & <- & Hj). split; apply Hok; auto. }
    change (map (fun x => ((fst (snd (g x)), fst (g x)), (snd (snd (g x)), fst (g x)))) Idxs) with lst.
    set (prs := red (pairMax (K := K)) (cid K) lst) in *.
    rewrite (@filter_map_fst _ (fun y => nlt K (nzero K) (fst y)) g) by reflexivity.
    rewrite (@filter_map_fst _ (fun y => nlt K (nzero K) (snd y)) g) by reflexivity.
    set (left := filter _ Idxs). set (right := filter _ Idxs).
    assert (Len : forall f, f mid = false -> length (filter f Idxs) < length Idxs).
    { intros f Hf'. clear - HmI Hf'. induction Idxs as [|x Idxs IH]; [destruct HmI|]. cbn [filter length].
      pose proof (filter_length_le f Idxs). destruct HmI as [->|H'].
      - rewrite Hf'. lia.
      - specialize (IH H'). destruct (f x); cbn [length]; lia. }
    assert (Hlst : forall x, In x Idxs -> In ((triArea K (q l) (q mid) (q x), x), (triArea K (q mid) (q r) (q x), x)) lst)
      by (intros x Hx; apply in_map_iff; eauto).
    destruct (IH left l (snd (fst prs)) mid) as (HL & -> & IL); auto.
    { intros i Hi. apply filter_In in Hi as [Hi _]. auto. }
    { intros Hne. assert (Hx : exists x, In x left) by (destruct left; [congruence|eexists; left; eauto]).
      destruct Hx as (x & Hx). apply filter_In in Hx as [Hx G]. cbn [g snd fst] in G.
      destruct (Rm _ (Hlst x Hx)) as [M _]. cbn [fst snd] in M.
      destruct Rf as [E|(z & Hz & E)].
      - rewrite E in M. cbn [cid fst] in M. congruence.
      - apply in_map_iff in Hz as (j & <- & Hj). rewrite E in M |- *. cbn [fst snd] in M |- *. apply filter_In. split; auto. cbn [g snd fst].
        destruct (nlt K (nzero K) (triArea K (q l) (q mid) (q j))) eqn:Ej; auto.
        destruct (ol_cotrans OL (nzero K) (triArea K (q l) (q mid) (q j)) (triArea K (q l) (q mid) (q x))) as [C|C]; auto; try (apply Hok; auto); congruence. }
    { apply Nat.lt_le_trans with (length Idxs); [|lia]. apply Len. cbn [g snd fst]. apply Habb; auto. }
    cbn [bind]. destruct (IH right mid (snd (snd prs)) r) as (HR & -> & IR); auto.
    { intros i Hi. apply filter_In in Hi as [Hi _]. auto. }
    { intros Hne. assert (Hx : exists x, In x right) by (destruct right; [congruence|eexists; left; eauto]).
      destruct Hx as (x & Hx). apply filter_In in Hx as [Hx G]. cbn [g snd fst] in G.
      destruct (Rm _ (Hlst x Hx)) as [_ M]. cbn [fst snd] in M.
      destruct Rs as [E|(z & Hz & E)].
      - rewrite E in M. cbn [cid fst snd] in M. congruence.
      - apply in_map_iff in Hz as (j & <- & Hj). rewrite E in M |- *. cbn [fst snd] in M |- *. apply filter_In. split; auto. cbn [g snd fst].
        destruct (nlt K (nzero K) (triArea K (q mid) (q r) (q j))) eqn:Ej; auto.
        destruct (ol_cotrans OL (nzero K) (triArea K (q mid) (q r) (q j)) (triArea K (q mid) (q r) (q x))) as [C|C]; auto; try (apply Hok; auto); congruence. }
    { apply Nat.lt_le_trans with (length Idxs); [|lia]. apply Len. cbn [g snd fst]. apply Haba; auto. }
    cbn [bind]. eexists. split; [reflexivity|]. intros x Hx. apply in_app_or in Hx as [Hx|[<-|Hx]]; auto.
    - apply IL, filter_In in Hx. tauto.
    - apply IR, filter_In in Hx. tauto.
  Qed.

  Theorem quickHull_total : exists H, @quickHull K red minmax P = Ok H /\ forall i, In i H -> i < n.
  Proof.
    unfold quickHull. cbn zeta. destruct Hmm as [Hmn Hmx].
    set (mn := fst (minmax (pntless K) P)) in *. set (mx := snd (minmax (pntless K) P)) in *.
    set (g := fun i => (i, triArea K (q mn) (q mx) (q i))).
    rewrite (@mapR_map _ _ _ g (seq 0 n)).
    2:{ intros j Hj. apply in_seq in Hj. rewrite (at_nth P [] Hmn), (at_nth P [] Hmx). cbn [bind]. rewrite (@at_nth _ P j []) by lia. reflexivity. }
    cbn [bind]. rewrite map_map.
    set (lst := map (fun x => ((triArea K (q mn) (q mx) (q x), x), (triArea K (q mn) (q mx) (q x), x))) (seq 0 n)).
    change (map (fun x => ((snd (g x), fst (g x)), (snd (g x), fst (g x)))) (seq 0 n)) with lst.
    assert (NI : forall i, In i (seq 0 n) -> In (q i) P) by (intros i Hi; apply in_seq in Hi; apply nth_In; lia).
    assert (NI' : forall i, i < n -> In (q i) P) by (intros i Hi; apply nth_In; lia).
    destruct (@red_minmax K ok OL ok0 lst _ (Hred (pairMinMax (K := K)) (cid K) lst)) as (Ro & Rm & Rf & Rs).
    { intros x Hx. apply in_map_iff in Hx as (j & <- & Hj). split; apply Hok; auto. }
    set (prs := red (pairMinMax (K := K)) (cid K) lst) in *.
    rewrite (@filter_map_fst _ (fun y => nlt K (nzero K) y) g) by reflexivity.
    rewrite (@filter_map_fst _ (fun y => nlt K y (nzero K)) g) by reflexivity.
    set (upper := filter _ (seq 0 n)). set (lower := filter _ (seq 0 n)).
    assert (Hlst : forall x, In x (seq 0 n) -> In ((triArea K (q mn) (q mx) (q x), x), (triArea K (q mn) (q mx) (q x), x)) lst)
      by (intros x Hx; apply in_map_iff; eauto).
    destruct (@helper_total (S n) upper mn (snd (snd prs)) mx) as (HU & -> & IU); auto.
    { intros i Hi. apply filter_In in Hi as [Hi _]. apply in_seq in Hi. lia. }
    { intros Hne. assert (Hx : exists x, In x upper) by (destruct upper; [congruence|eexists; left; eauto]).
      destruct Hx as (x & Hx). apply filter_In in Hx as [Hx G]. cbn [g snd fst] in G.
      destruct (Rm _ (Hlst x Hx)) as [_ M]. cbn [fst snd] in M.
      destruct Rs as [E|(z & Hz & E)].
      - rewrite E in M. cbn [cid fst snd] in M. congruence.
      - apply in_map_iff in Hz as (j & <- & Hj). rewrite E in M |- *. cbn [fst snd] in M |- *. apply filter_In. split; auto. cbn [g snd fst].
        destruct (nlt K (nzero K) (triArea K (q mn) (q mx) (q j))) eqn:Ej; auto.
        destruct (ol_cotrans OL (nzero K) (triArea K (q mn) (q mx) (q j)) (triArea K (q mn) (q mx) (q x))) as [C|C]; auto; try (apply Hok; auto); congruence. }
    { apply Nat.lt_succ_r. transitivity (length (seq 0 n)); [apply filter_length_le|rewrite seq_length; auto]. }
    cbn [bind]. destruct (@helper_total (S n) lower mx (snd (fst prs)) mn) as (HL & -> & IL); auto.
    { intros i Hi. apply filter_In in Hi as [Hi _]. apply in_seq in Hi. lia. }
    { intros Hne. assert (Hx : exists x, In x lower) by (destruct lower; [congruence|eexists; left; eauto]).
      destruct Hx as (x & Hx). apply filter_In in Hx as [Hx G]. cbn [g snd fst] in G.
      destruct (Rm _ (Hlst x Hx)) as [M _]. cbn [fst snd] in M.
      destruct Rf as [E|(z & Hz & E)].
      - rewrite E in M. cbn [cid fst snd] in M. congruence.
      - apply in_map_iff in Hz as (j & <- & Hj). rewrite E in M |- *. cbn [fst snd] in M |- *. apply filter_In. split; auto. cbn [g snd fst].
        destruct (nlt K (triArea K (q mn) (q mx) (q j)) (nzero K)) eqn:Ej; auto.
        destruct (ol_cotrans OL (triArea K (q mn) (q mx) (q x)) (triArea K (q mn) (q mx) (q j)) (nzero K)) as [C|C]; auto; try (apply Hok; auto); congruence. }
    { apply Nat.lt_succ_r. transitivity (length (seq 0 n)); [apply filter_length_le|rewrite seq_length; auto]. }
    cbn [bind]. eexists. split; [reflexivity|].
    intros i [<-|Hi]; auto. apply in_app_or in Hi as [Hi|[<-|Hi]]; auto.
    - apply IU, filter_In in Hi as [Hi _]. apply in_seq in Hi. lia.
    - apply IL, filter_In in Hi as [Hi _]. apply in_seq in Hi. lia.
  Qed.
End Gen.

(** doubles *)
Lemma SFmul_comm p e x y : SFmul p e x y = SFmul p e y x.
Proof. destruct x as [| | |], y as [| | |]; cbn; auto; rewrite ?(xorb_comm s s0); auto. rewrite Pos.mul_comm, Z.add_comm. reflexivity. Qed.
Lemma fmul_comm x y : (x * y)%float = (y * x)%float.
Proof. apply Prim2SF_inj. rewrite !mul_spec. apply SFmul_comm. Qed.
Definition znan (x : spec_float) : bool := match x with S754_nan | S754_zero _ => true | _ => false end.
Lemma SFsub_self p e x : znan (SFsub p e x x) = true.
Proof.
  destruct x as [s|s| |s m ex]; cbn; auto; try (destruct s; cbn; auto; fail).
  unfold binary_normalize. rewrite Z.sub_diag. reflexivity.
Qed.
Lemma SFmul_znan p e x y : znan y = true -> znan (SFmul p e x y) = true.
Proof. destruct x, y; cbn; auto; discriminate. Qed.
Lemma SFsub_znan p e x y : znan x = true -> znan y = true -> znan (SFsub p e x y) = true.
Proof. destruct x as [[|]| | |], y as [[|]| | |]; cbn; auto; discriminate. Qed.
Lemma znan_pos x : znan (Prim2SF x) = true -> PrimFloat.ltb 0 x = false.
Proof. rewrite ltb_spec. change (Prim2SF 0) with (S754_zero false). destruct (Prim2SF x); cbn; auto; discriminate. Qed.

Lemma F_abb (a b : list float) : PrimFloat.ltb 0 (triArea FNum a b b) = false.
Proof.
  apply znan_pos. unfold triArea. cbn [nsub nmul FNum]. rewrite (fmul_comm (@coord FNum b 1 - @coord FNum a 1)), sub_spec. apply SFsub_self.
Qed.
Lemma F_aba (a b : list float) : PrimFloat.ltb 0 (triArea FNum a b a) = false.
Proof.
  apply znan_pos. unfold triArea. cbn [nsub nmul FNum]. rewrite sub_spec, !mul_spec.
  apply SFsub_znan; apply SFmul_znan; rewrite sub_spec; apply SFsub_self.
Qed.
