(** The whole quickhull loop, and its result. *)
From Coq Require Import Reals Lra Lia Psatz List Bool Permutation.
From Verif Require Import Base Num Hull2dModel H3Model H3Geom H3Surf H3Heap H3Edge H3Front H3Link H3Place H3Round H3Loop.
Set Implicit Arguments.
Open Scope R_scope.

Lemma furth_gen A (m : A -> R) e l : l <> [] -> (forall v, In v l -> e < m v) ->
  exists v, snd (fold_left (fun (a : R * option A) v => if Rltb (fst a) (m v) then (m v, Some v) else a) l (e, None)) = Some v /\ In v l.
Proof.
  assert (X : forall l0 l (a : R * option A), (forall v, In v l -> In v l0) -> (exists v, snd a = Some v /\ In v l0) ->
    exists v, snd (fold_left (fun (a : R * option A) v => if Rltb (fst a) (m v) then (m v, Some v) else a) l a) = Some v /\ In v l0).
  { intros l0 l1. induction l1 as [|w l1 IH]; intros a Hl Ha; auto.
    cbn [fold_left]. apply IH; [intros; apply Hl; right; auto|]. destruct (Rltb (fst a) (m w)); auto. exists w. split; auto. apply Hl; left; auto. }
  destruct l as [|v l]; intros NE H; [congruence|]. cbn [fold_left fst].
  replace (Rltb e (m v)) with true by (symmetry; apply Rltb_true; apply H; left; auto).
  apply X; [intros; right; auto|]. exists v. split; auto. left; auto.
Qed.
Lemma furthest_ok eps (f : fct3) : see f <> [] -> (forall q k, In (q, k) (see f) -> eps < ht (corners f) q) ->
  exists v, @furthest RNum eps f = Some v /\ In v (see f).
Proof.
  intros NE HA. apply (@furth_gen _ (fun v : p3 * nat => @vol RNum (corners f) (fst v)) eps (see f) NE).
  intros [q k] Hin. rewrite vol_R. eapply HA; eauto.
Qed.

Section Main.
  Variable Q : list p3.
  Variable eps : R.
  Hypothesis eps0 : 0 <= eps.
  Hypothesis GP : margin Q eps.
  Notation RInv := (RInv Q eps).

  Lemma facetWalk_ok h W S0 : SInv h W -> hh S0 = h -> (exists f, lv h (hH S0) f) ->
    exists k, facetWalk S0 = Ok k /\ exists f, lv h k f.
  Proof.
    intros SI Eh [f Lf]. unfold facetWalk. rewrite Eh, (getF_lv Lf). cbn [bind].
    match goal with |- context [dfsF ?g ?st h ?s ?a] => destruct (@dfsF_ok h W SI _ g st a s) as (L & E & ND & LL & _) end; [eauto|].
    rewrite E. cbn [bind]. eexists. split; [reflexivity|]. unfold run.
    assert (X : forall L (a : nat * nat), (forall i, In i L -> exists f, lv h i f) -> (exists f, lv h (snd a) f) ->
      exists f, lv h (snd (fold_left (act h (fun (a : nat * nat) i (g : fct3) => if (fst a <? length (see g))%nat then (length (see g), i) else a)) L a)) f).
    { clear. induction L as [|i L IH]; intros a HL Ha; auto. cbn [fold_left]. apply IH; [intros; apply HL; right; auto|].
      unfold act. destruct (HL i (or_introl eq_refl)) as [g Lg]. rewrite Lg. destruct (_ <? _)%nat; auto. cbn. eauto. }
    apply X; auto. cbn. eauto.
  Qed.

  Lemma furthestApex_ok h W S0 k : RInv h W -> hh S0 = h -> (exists f, lv h k f) ->
    (@furthestApex RNum eps S0 k = Ok None /\ forall i f, lv h i f -> see f = []) \/
    exists p i f, @furthestApex RNum eps S0 k = Ok (Some (p, i)) /\ lv h i f /\ In (p, i) (see f).
  Proof.
    intros R Eh Lk. unfold furthestApex. rewrite Eh.
    set (g := fun (a : option (v3 (nT RNum) * nat)) (_ : nat) (g : fct3) => if (length (see g) =? 0)%nat then a else @furthest RNum eps g).
    set (st := fun a : option (v3 (nT RNum) * nat) => match a with Some _ => true | None => false end).
    destruct (@dfsF_ok h W (ri_S R) _ g st None k Lk) as (L & E & ND & LL & _ & C). rewrite E.
    assert (F : forall i f, lv h i f -> see f <> [] -> exists p, @furthest RNum eps f = Some (p, i) /\ In (p, i) (see f)).
    { intros i f L' NE. destruct (@furthest_ok eps f NE) as ([p j] & E' & Hin); [intros q j Hq; eapply (ri_see R); eauto|].
      destruct (@ri_see _ _ _ _ R _ _ _ _ L' Hin) as (-> & _). eauto. }
    assert (X : forall L, (forall i, In i L -> exists f, lv h i f) -> forall p i, run h g None L = Some (p, i) -> exists f, lv h i f /\ In (p, i) (see f)).
    { clear - F. unfold run. intros L. induction L as [|j L IH] using rev_ind; intros HL p i Er; [discriminate|].
      rewrite fold_left_app in Er. cbn [fold_left] in Er. destruct (HL j) as [f Lf]; [apply in_or_app; right; left; auto|].
      unfold act at 1 in Er. rewrite Lf in Er. unfold g at 1 in Er. destruct (Nat.eqb_spec (length (see f)) 0) as [Z|Z].
      - apply IH; auto. intros; apply HL; apply in_or_app; auto.
      - destruct (F j f Lf) as (p' & E' & Hin); [intros E0; rewrite E0 in Z; auto|]. rewrite E' in Er. inversion Er; subst. eauto. }
    destruct (run h g None L) as [[p i]|] eqn:Er.
    - right. destruct (X L LL p i Er) as (f & Lf & Hin). eauto 6.
    - left. split; auto. destruct C as [C|[C1 C2]]; [discriminate|]. intros i f Lf.
      destruct (see f) as [|v l] eqn:Es; auto. exfalso.
      assert (Hi : In i L) by (apply C2; eauto). apply in_split in Hi. destruct Hi as (L1 & L2 & ->).
      specialize (C1 (L1 ++ [i]) L2). rewrite <- app_assoc in C1. specialize (C1 eq_refl ltac:(destruct L1; discriminate)).
      unfold run in C1. rewrite fold_left_app in C1. cbn [fold_left] in C1. unfold act at 1 in C1. rewrite Lf in C1. unfold g at 1 in C1.
      rewrite Es in C1. cbn [length Nat.eqb] in C1. destruct (F i f Lf) as (p & E' & _); [congruence|]. rewrite E' in C1. discriminate.
  Qed.

  Lemma loop_ok n : forall S0 W, RInv (hh S0) W -> (tot (hh S0) < n)%nat -> (exists f, lv (hh S0) (hH S0) f) ->
    exists S1 W1, @quickLoop RNum eps n S0 = Ok S1 /\ RInv (hh S1) W1 /\ (exists f, lv (hh S1) (hH S1) f) /\
      forall i f, lv (hh S1) i f -> see f = [].
  Proof.
    induction n as [|n IH]; intros S0 W R T LH; [lia|]. cbn [quickLoop].
    assert (Wk : exists k, (if (hn S0 <? 512)%nat then facetWalk S0 else Ok (hH S0)) = Ok k /\ exists f, lv (hh S0) k f).
    { destruct (hn S0 <? 512)%nat; [|eauto]. eapply facetWalk_ok; eauto. apply R. }
    destruct Wk as (k & Ew & Lk). destruct (@furthestApex_ok (hh S0) W S0 k R eq_refl Lk) as [[Ea Hno]|(p & i & f & Ea & Lf & Hin)].
    - unfold round. rewrite Ew. cbn [bind]. rewrite Ea. cbn [bind]. exists S0, W. auto.
    - destruct (@body_ok Q eps eps0 GP (hh S0) W i f p S0 k R Lf Hin eq_refl Ew Ea) as (h4 & n' & Er & R4 & T4 & L4).
      rewrite Er. cbn [bind]. eapply IH; eauto; cbn [hh hH]. lia.
  Qed.

  (** what the invariant says at the end *)
  Lemma end_ok h W : RInv h W -> (forall i f, lv h i f -> see f = []) ->
    forall i f q, lv h i f -> In q Q -> ~ corner (corners f) q -> ht (corners f) q < - eps.
  Proof.
    intros R NS i f q L Hq Nc. eapply (@off Q eps GP); eauto; [apply R|apply R|].
    destruct (ri_cov R q Hq) as [(j & g & k & Lj & Hin)|C]; [|eauto]. rewrite (NS _ _ Lj) in Hin. destruct Hin.
  Qed.
End Main.
