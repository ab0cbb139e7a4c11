(** The parallel quickhull: the rounds of many apexes and the loop. *)
From Coq Require Import Reals Lra Lia Psatz List Bool Permutation.
From Verif Require Import Base Num Hull2dModel H3Model H3Geom H3Surf H3Heap H3Edge H3Front H3Link H3Place H3Round H3Loop H3Main H3ParModel H3ParHeap.
Set Implicit Arguments.

Lemma mapR_all {X Y} (f : X -> res Y) (P : X -> Y -> Prop) l : (forall x, In x l -> exists y, f x = Ok y /\ P x y) ->
  exists ys, mapR f l = Ok ys /\ Forall2 P l ys.
Proof.
  induction l as [|x l IH]; intros H; [exists []; auto|]. destruct (H x (or_introl eq_refl)) as (y & E & Py).
  destruct IH as (ys & Es & F); [intros; apply H; right; auto|]. exists (y :: ys). split; [|auto]. cbn. rewrite E. cbn [bind].
  change ((fix go (l : list X) : res (list Y) := match l with [] => Ok [] | x :: l' => y <- f x;; ys <- go l';; Ok (y :: ys) end) l) with (mapR f l).
  rewrite Es. auto.
Qed.
Lemma Forall2_in_l {X Y} (P : X -> Y -> Prop) l l' x : Forall2 P l l' -> In x l -> exists y, In y l' /\ P x y.
Proof. induction 1; intros []; [subst; eexists; split; [left; reflexivity|auto]|]. destruct (IHForall2 H1) as (y0 & A & B). exists y0. split; [right|]; auto. Qed.
Lemma Forall2_in_r X Y (P : X -> Y -> Prop) l l' y : Forall2 P l l' -> In y l' -> exists x, In x l /\ P x y.
Proof. induction 1; intros []; [subst; eexists; split; [left; reflexivity|auto]|]. destruct (IHForall2 H1) as (z0 & A & B). exists z0. split; [right|]; auto. Qed.
Lemma Forall2_map X Y Z (P : X -> Y -> Prop) (f : X -> Z) (g : Y -> Z) l l' : (forall x y, P x y -> g y = f x) -> Forall2 P l l' -> map g l' = map f l.
Proof. intros H. induction 1; auto. cbn. f_equal; auto. Qed.

Section Sort.
  Variable addr : nat -> nat.
  Hypothesis Hadd : forall i j, addr i = addr j -> i = j.
  Lemma insU_in k l x : In x (insU addr k l) <-> x = k \/ In x l.
  Proof.
    induction l as [|j l IH]; cbn [insU In]; [intuition|].
    destruct (Nat.ltb_spec (addr k) (addr j)) as [|G1]; [cbn [In]; intuition|].
    destruct (Nat.ltb_spec (addr j) (addr k)) as [|G2]; [cbn [In]; rewrite IH; intuition|].
    assert (j = k) by (apply Hadd; lia). subst. cbn [In]. intuition.
  Qed.
  Lemma sortU_in l x : In x (sortU addr l) <-> In x l.
  Proof. induction l as [|k l IH]; [reflexivity|]. cbn [sortU fold_right]. fold (sortU addr l). rewrite insU_in, IH. cbn. intuition. Qed.
  Inductive asc : list nat -> Prop := asc0 : asc [] | asc1 k l : (forall j, In j l -> (addr k < addr j)%nat) -> asc l -> asc (k :: l).
  Lemma asc_insU k l : asc l -> asc (insU addr k l).
  Proof.
    induction 1 as [|j l H A IH]; [constructor; [intros j []|constructor]|]. cbn [insU].
    destruct (Nat.ltb_spec (addr k) (addr j)) as [L|G1].
    - constructor; [|constructor; auto]. intros i [<-|Hi]; auto. specialize (H _ Hi). lia.
    - destruct (Nat.ltb_spec (addr j) (addr k)) as [L|G2]; [|constructor; auto]. constructor; auto.
      intros i Hi. apply insU_in in Hi. destruct Hi as [->|Hi]; auto.
  Qed.
  Lemma asc_nd l : asc l -> NoDup l.
  Proof. induction 1 as [|k l H A IH]; constructor; auto. intros Hk. apply H in Hk. lia. Qed.
  Lemma sortU_nd l : NoDup (sortU addr l).
  Proof. apply asc_nd. induction l as [|k l IH]; [constructor|]. cbn [sortU fold_right]. apply asc_insU, IH. Qed.
End Sort.

(** *** Reservations *)
Lemma wmin_from ws : forall rs k a, fold_left wmin ws rs k = Some a -> rs k = Some a \/ In (k, a) ws.
Proof.
  induction ws as [|[j b] ws IH]; intros rs k a E; auto. cbn [fold_left] in E. apply IH in E. destruct E as [E|E]; [|right; right; auto].
  unfold wmin in E. cbn [fst snd] in E. destruct (Nat.eqb_spec k j) as [->|]; auto. injection E as E.
  destruct (rs j) as [c|] eqn:Ej; [|subst b; right; left; auto].
  destruct (Nat.min_spec c b) as [[_ M]|[_ M]]; rewrite M in E; subst a; [left; auto|right; left; auto].
Qed.
Lemma wmin_le ws : forall rs k a, rs k = Some a \/ In (k, a) ws -> exists b, fold_left wmin ws rs k = Some b /\ (b <= a)%nat.
Proof.
  induction ws as [|[j c] ws IH]; intros rs k a H; cbn [fold_left].
  - destruct H as [H|[]]. eauto.
  - assert (X : (exists b, wmin rs (j, c) k = Some b /\ (b <= a)%nat) \/ In (k, a) ws).
    { destruct H as [H|[H|H]]; auto; left; unfold wmin; cbn [fst snd].
      - rewrite H. destruct (k =? j)%nat; eauto. eexists. split; eauto. lia.
      - injection H as -> ->. rewrite Nat.eqb_refl. destruct (rs k); eauto. eexists. split; eauto. lia. }
    destruct X as [(b & E & L)|X]; [|apply (IH _ _ _ (or_intror X))]. destruct (IH _ _ _ (or_introl E)) as (b' & E' & L'). exists b'. split; auto. lia.
Qed.

Section ParLoop.
  Variable Q : list p3.
  Variable eps : R.
  Hypothesis eps0 : (0 <= eps)%R.
  Hypothesis GP : margin Q eps.
  Notation RInv := (RInv Q eps).
  Variable choose : nat -> fct3 -> nat.
  Hypothesis Hch : forall i f, see f <> [] -> (choose i f < length (see f))%nat.
  Variable addr : nat -> nat.
  Hypothesis Hadd : forall i j, addr i = addr j -> i = j.
  Variable qord : list (p3 * nat) -> list (p3 * nat).
  Hypothesis Hq : forall l, Permutation l (qord l).
  Variable shuf : nat -> forall X : Type, list X -> list X.
  Hypothesis Hs : forall t X l, Permutation l (@shuf t X l).

  Notation job3 := (p3 * nat * list edge3 * list nat)%type.
  Definition apx (j : job3) : p3 * nat := fst (fst j).
  Definition jfr (j : job3) : list edge3 := snd (fst j).
  Definition Rg (j : job3) (k : nat) : Prop := In k (snd j) \/ exists e, In e (jfr j) /\ eff e = Some k.
  Definition okJob (h : heap3) (j : job3) : Prop := exists s, lv h (snd (apx j)) s /\ In (apx j) (see s) /\
    @computeFrontier RNum eps h (apx j) = Ok (jfr j, snd j).

  Lemma Rg_in j k : Rg j k <-> In k (snd j ++ effs (jfr j)).
  Proof.
    unfold Rg, effs. rewrite in_app_iff, in_flat_map. split; (intros [H|(e & He & H)]; [left; auto|right; exists e; split; auto]).
    - rewrite H. left; auto.
    - destruct (eff e); [destruct H as [->|[]]; auto|destruct H].
  Qed.

  Lemma apexIn_ok h W i k f : RInv h W -> lv h k f -> see f <> [] -> exists a, @apexIn RNum choose i f = Ok a /\ In a (see f) /\ snd a = k.
  Proof.
    intros R L NE. unfold apexIn, at_. specialize (Hch i f NE). destruct (nth_error (see f) (choose i f)) as [a|] eqn:E.
    2: { apply nth_error_None in E. lia. }
    exists a. apply nth_error_In in E. split; auto. split; auto. destruct a as [q j]. destruct (@ri_see _ _ _ _ R _ _ _ _ L E) as (-> & _). auto.
  Qed.

  Lemma conflicts_in h v : In v (@conflicts RNum qord h) <-> exists k f, lv h k f /\ In v (see f).
  Proof.
    unfold conflicts. set (l := flat_map _ h). transitivity (In v l).
    { split; apply Permutation_in; [apply Permutation_sym|]; apply Hq. }
    unfold l. rewrite in_flat_map. split.
    - intros ([f|] & Ho & Hv); [|destruct Hv]. apply In_nth_error in Ho. destruct Ho as [k Hk]. exists k, f. auto.
    - intros (k & f & L & Hv). exists (Some f). split; auto. eapply nth_error_In; eauto.
  Qed.

  Lemma apexes_ok h W n : RInv h W -> (0 < n)%nat -> @conflicts RNum qord h <> [] ->
    exists aps, @apexes RNum choose addr qord n h = Ok aps /\ aps <> [] /\ NoDup (map snd aps) /\
      forall a, In a aps -> exists s, lv h (snd a) s /\ In a (see s).
  Proof.
    intros R n0 NE. unfold apexes. cbv zeta. set (F := sortU addr _).
    assert (HF : forall k, In k F -> exists f, lv h k f /\ see f <> []).
    { intros k Hk. unfold F in Hk. apply sortU_in in Hk; auto. apply in_map_iff in Hk. destruct Hk as ([q j] & <- & Hv).
      assert (Hc : In (q, j) (@conflicts RNum qord h)) by (rewrite <- (firstn_skipn n); apply in_or_app; auto).
      apply conflicts_in in Hc. destruct Hc as (i & f & L & Hin). destruct (@ri_see _ _ _ _ R _ _ _ _ L Hin) as (-> & _). exists f.
      split; auto. intros E. rewrite E in Hin. destruct Hin. }
    destruct (@mapR_all _ _ (fun x => f <- getF h (Some (snd x)) ;; @apexIn RNum choose (fst x) f)
      (fun x a => snd a = snd x /\ exists s, lv h (snd a) s /\ In a (see s)) (combine (seq 0 (length F)) F)) as (aps & E & F2).
    { intros [i k] Hx. cbn [fst snd]. apply in_combine_r in Hx. destruct (HF k Hx) as (f & L & Ne). rewrite (getF_lv L). cbn [bind].
      destruct (@apexIn_ok h W i k f R L Ne) as (a & Ea & Ha & Ek). exists a. split; auto. split; auto. exists f. rewrite Ek. auto. }
    exists aps. split; [exact E|].
    assert (Em : map snd aps = F).
    { etransitivity; [eapply Forall2_map with (f := @snd nat nat); [|exact F2]; intros x y H; exact (proj1 H)|].
      clear. generalize 0%nat. induction F as [|k F IH]; intros s; auto. cbn [length seq combine map]. now rewrite IH. }
    split; [|split].
    - intros ->. cbn in Em. destruct (@conflicts RNum qord h) as [|v l] eqn:Ec; [auto|]. destruct n as [|n]; [lia|].
      assert (In (snd v) F) by (unfold F; apply sortU_in; auto; cbn; auto). rewrite <- Em in H. destruct H.
    - rewrite Em. apply sortU_nd; auto.
    - intros a Ha. destruct (Forall2_in_r _ F2 Ha) as (x & _ & _ & X). exact X.
  Qed.

  Lemma job_facts h W j : RInv h W -> okJob h j -> consecutive (jfr j) = true /\ exists h4,
      @grow RNum eps (@redistributePar RNum eps) h (fst (apx j)) (jfr j) (snd j) = Ok h4 /\
      RInv h4 (fun q => W q \/ q = fst (apx j)) /\ (tot h4 < tot h)%nat /\ (exists f, lv h4 (length h) f) /\
      (forall e, In e (jfr j) -> bndE h eps (fst (apx j)) e) /\ (forall u v, bnd h eps (fst (apx j)) u v -> exists e, In e (jfr j) /\ key e = (u, v)) /\
      (forall k, In k (snd j) <-> vis h eps (fst (apx j)) k) /\ In (snd (apx j)) (snd j) /\
      (forall k f, (k < length h)%nat -> ~ Rg j k -> (lv h4 k f <-> lv h k f)) /\
      (cnt h4 + length (snd j) = cnt h + length (jfr j))%nat.
  Proof.
    destruct j as [[[p i] fr] fs]. unfold okJob, apx, jfr, Rg. cbn [fst snd]. intros R (s & L & Hin & E).
    destruct (@grow_ok Q eps eps0 GP (@redistributePar RNum eps) h W i s p) as (fr' & fs' & h4 & E' & C & G & R4 & T & LV & B1 & B2 & ND & V & Fr); auto.
    { apply redist_eq. }
    assert (Ep : fr' = fr /\ fs' = fs) by (rewrite E' in E; split; congruence). destruct Ep as [-> ->].
    split; auto. exists h4. split; [exact G|]. split; [exact R4|]. split; auto. split; auto. split; auto. split; auto. split; auto. split.
    { apply V. exists s. split; auto. unfold visible, sees. cbn [nlt RNum]. apply Rltb_true. rewrite vol_R. eapply (ri_see R); eauto. }
    split.
    - intros k f Lk NR. apply Fr; auto. intros e He Ee. apply NR. right. eauto.
    - eapply shp_grow; [|exact G]. intros. eapply shp_redistPar; eauto.
  Qed.

  Lemma around_ok h W k : SInv h W -> (exists f, lv h k f) -> exists l, @around RNum h k = Ok l /\ forall x, In x l <-> x = k \/ adjH h k x.
  Proof.
    intros SI [f L]. unfold around. rewrite (getF_lv L). cbn [bind].
    assert (FA : frot f (fa f) (fb f) (fc f) (fab f)) by (unfold frot; tauto).
    assert (FB : frot f (fb f) (fc f) (fa f) (fbc f)) by (unfold frot; tauto).
    assert (FC : frot f (fc f) (fa f) (fb f) (fca f)) by (unfold frot; tauto).
    destruct (si_link SI L FA) as (a & ga & _ & Ea & La & _). destruct (si_link SI L FB) as (b & gb & _ & Eb & Lb & _). destruct (si_link SI L FC) as (c & gc & _ & Ec & Lc & _).
    rewrite Ea, Eb, Ec, (getF_lv La), (getF_lv Lb), (getF_lv Lc). cbn [bind]. eexists. split; [reflexivity|].
    intros x. cbn [In]. split.
    - intros [<-|[<-|[<-|[<-|[]]]]]; auto; right; exists f; rewrite Ea, Eb, Ec; auto.
    - intros [->|(g & Lg & H)]; auto. rewrite <- (lv_fun L Lg) in H. rewrite Ea, Eb, Ec in H. destruct H as [H|[H|H]]; injection H as ->; auto.
  Qed.
  Lemma aroundAll_ok h W j : RInv h W -> okJob h j -> exists l, @aroundAll RNum h (snd j) = Ok l /\ forall x, In x l <-> Rg j x.
  Proof.
    intros R J. destruct (job_facts R J) as (_ & h4 & _ & _ & _ & _ & B1 & B2 & V & _). pose proof (ri_S R) as SI.
    unfold aroundAll. destruct (@mapR_all _ _ (@around RNum h) (fun k l => forall x, In x l <-> x = k \/ adjH h k x) (snd j)) as (ls & E & F2).
    { intros k Hk. apply V in Hk. destruct Hk as (f & L & _). eapply around_ok; eauto. }
    rewrite E. cbn [bind]. eexists. split; [reflexivity|]. intros x. rewrite in_concat. split.
    - intros (l & Hl & Hx). destruct (Forall2_in_r _ F2 Hl) as (k & Hk & Hkl). apply Hkl in Hx. destruct Hx as [->|A]; [left; auto|].
      apply V in Hk. destruct (vis_dec h eps (fst (apx j)) x) as [Vx|Nx]; [left; apply V; auto|right].
      pose proof Hk as (f & L & _). destruct (adjH_inv L A) as (u & v & w & Fx).
      destruct (B2 u v) as (e & He & Ke); [exists w, k, x; split; [exists f; auto|auto]|]. exists e. split; auto.
      destruct (B1 e He) as (i' & j' & w' & _ & Ef & D & _). unfold key in Ke. injection Ke as Eu Ev. rewrite Eu, Ev in D.
      destruct (@drt_fun h W SI u v w k x w' i' j') as (_ & _ & ->); auto. exists f; auto.
    - intros [Hx|(e & He & Ef)].
      + destruct (Forall2_in_l _ F2 Hx) as (l & Hl & Hkl). exists l. split; auto. apply Hkl. auto.
      + destruct (B1 e He) as (i' & j' & w' & _ & Ef' & (f & L & Fx) & Vi & _). rewrite Ef in Ef'. injection Ef' as <-.
        apply V in Vi. destruct (Forall2_in_l _ F2 Vi) as (l & Hl & Hkl). exists l. split; auto. apply Hkl. right. eapply adjH_frot; eauto.
  Qed.

  (** the apexes that hold all their facets *)
  Definition holds (rs : resv) (j : job3) : Prop := forall k, Rg j k -> rs k = Some (addr (snd (apx j))).
  Lemma checkAll_ok h W rs js : RInv h W -> (forall j, In j js -> okJob h j) ->
    exists good, @checkAll RNum addr rs h js = Ok (h, good) /\ (forall j, In j good <-> In j js /\ holds rs j) /\
      (NoDup (map (fun j => snd (apx j)) js) -> NoDup (map (fun j => snd (apx j)) good)).
  Proof.
    intros R. induction js as [|j js IH]; intros HJ.
    { exists []. split; auto. split; [intros j; cbn; tauto|auto]. }
    destruct IH as (good & E & HG & ND); [intros; apply HJ; right; auto|]. cbn [checkAll].
    assert (J : okJob h j) by (apply HJ; left; auto). destruct (job_facts R J) as (Cn & _). destruct (aroundAll_ok R J) as (l & El & Hl).
    assert (Ec : @check RNum addr rs h j = Ok (h, forallb (@reserved RNum addr rs (apx j)) l)).
    { destruct j as [[a fr] fs]. unfold check, confirm. cbn [snd] in El. rewrite El. cbn [bind].
      unfold jfr in Cn. cbn [fst snd] in Cn. rewrite Cn. reflexivity. }
    match goal with |- context [bind ?x _] => replace x with (Ok (h, forallb (@reserved RNum addr rs (apx j)) l)) by (symmetry; exact Ec) end. cbn [bind].
    match goal with |- context [bind ?x _] => replace x with (Ok (h, good)) by (symmetry; exact E) end. cbn [bind].
    assert (Hh : forallb (@reserved RNum addr rs (apx j)) l = true <-> holds rs j).
    { rewrite forallb_forall. unfold holds, reserved. split; intros H k Hk.
      - apply Hl in Hk. specialize (H k Hk). destruct (rs k) as [x|]; [|discriminate]. apply Nat.eqb_eq in H. now subst.
      - apply Hl in Hk. rewrite (H k Hk). apply Nat.eqb_refl. }
    eexists. split; [reflexivity|]. destruct (forallb _ l) eqn:Eb.
    - split.
      + intros j'. cbn [In]. rewrite HG. split; [intros [->|[A B]]; [split; auto; apply Hh; auto|auto]|intros [[->|A] B]; auto].
      + cbn [map]. intros N. inversion N; subst. constructor; auto. intros Hin. apply H1. apply in_map_iff in Hin. destruct Hin as (j' & Ej & Hj). apply in_map_iff. exists j'. split; auto. apply HG; auto.
    - split.
      + intros j'. cbn [In]. rewrite HG. split; [intros [A B]; auto|]. intros [[->|A] B]; auto. apply Hh in B. discriminate.
      + cbn [map]. intros N. inversion N; subst. auto.
  Qed.

  (** iterations with disjoint facets, in any order *)
  Lemma process_all good : forall s W, RInv (hh s) W -> (exists f, lv (hh s) (hH s) f) -> hn s = cnt (hh s) ->
    NoDup (map (fun j => snd (apx j)) good) ->
    (forall j j', In j good -> In j' good -> snd (apx j) <> snd (apx j') -> forall k, Rg j k -> Rg j' k -> False) ->
    (forall j, In j good -> okJob (hh s) j) ->
    exists s' W', foldR (@process RNum eps) good s = Ok s' /\ RInv (hh s') W' /\ (exists f, lv (hh s') (hH s') f) /\ hn s' = cnt (hh s') /\
      (good <> [] -> (tot (hh s') < tot (hh s))%nat) /\ (tot (hh s') <= tot (hh s))%nat.
  Proof.
    induction good as [|j good IH]; intros s W R LH Hn ND DJ OK.
    { exists s, W. cbn. repeat (split; auto). intros []; auto. }
    destruct (@job_facts (hh s) W j R (OK _ (or_introl eq_refl))) as (_ & h4 & G & R4 & T4 & L4 & B1 & B2 & V & St & Fr & Cn).
    cbn [foldR]. set (s4 := Hull h4 (length (hh s)) (hn s + length (jfr j) - length (snd j))).
    assert (Ep : @process RNum eps s j = Ok s4).
    { unfold process. destruct j as [[a fr] fs]. unfold apx, jfr in *. cbn [fst snd] in *.
      match goal with |- bind ?x _ = _ => replace x with (@Ok heap3 h4) by (symmetry; exact G) end. reflexivity. }
    match goal with |- context [bind ?x _] => replace x with (@Ok (hull RNum) s4) by (symmetry; exact Ep) end. cbn [bind].
    cbn [map] in ND. inversion ND as [|? ? N1 N2]; subst.
    destruct (IH s4 _ R4) as (s' & W' & E & R' & LH' & Hn' & T1 & T2); auto.
    - unfold s4. cbn [hn hh]. lia.
    - intros j1 j2 H1 H2. apply DJ; right; auto.
    - intros j' Hj'. destruct (OK j' (or_intror Hj')) as (s0 & L0 & Hin & Ef).
      assert (Ne : snd (apx j) <> snd (apx j')).
      { intros E. apply N1. rewrite E. apply in_map_iff. eauto. }
      assert (DJ' : forall k, Rg j' k -> ~ Rg j k).
      { intros k A B. apply (DJ j j' (or_introl eq_refl) (or_intror Hj') Ne k B A). }
      destruct (@job_facts (hh s) W j' R (OK _ (or_intror Hj'))) as (_ & _ & _ & _ & _ & _ & B1' & _ & V' & St' & _).
      assert (Lt : forall k, Rg j' k -> (k < length (hh s))%nat).
      { intros k [Hk|(e & He & Ee)].
        - apply V' in Hk. destruct Hk as (f & L & _). eapply lv_len; eauto.
        - destruct (B1' e He) as (i1 & j1 & w1 & _ & Ee' & D1 & _). rewrite Ee in Ee'. injection Ee' as <-.
          destruct D1 as (f & L & Fx). destruct (si_link (ri_S R) L Fx) as (k' & g & _ & Ek & Lg & _). injection Ek as <-. eapply lv_len; eauto. }
      assert (Sm : forall k f, Rg j' k -> (lv h4 k f <-> lv (hh s) k f)) by (intros k f Hk; apply Fr; auto).
      exists s0. unfold s4. cbn [hh]. split; [apply Sm; auto; left; auto|]. split; auto.
      destruct j' as [[[p i] fr] fs]. unfold apx, jfr in *. cbn [fst snd] in *.
      eapply frontier_same with (Rg := Rg (p, i, fr, fs)); eauto.
      + destruct L4 as [f L4]. apply lv_len in L4. lia.
      + left; auto.
      + intros k Hk. left; auto.
      + intros e k He Ee. right. exists e. auto.
    - exists s', W'. split; auto. split; auto. split; auto. split; auto. unfold s4 in T2. cbn [hh] in T2. split; [intros _|]; lia.
  Qed.

  Lemma holds_disjoint rs j j' k : holds rs j -> holds rs j' -> snd (apx j) <> snd (apx j') -> Rg j k -> Rg j' k -> False.
  Proof. intros H H' N A B. apply N, Hadd. specialize (H k A). specialize (H' k B). congruence. Qed.
  Lemma min_job (js : list job3) : js <> [] -> exists j, In j js /\ forall j', In j' js -> (addr (snd (apx j)) <= addr (snd (apx j')))%nat.
  Proof.
    induction js as [|x js IH]; intros NE; [congruence|]. destruct js as [|y js].
    { exists x. split; [left; auto|]. intros j' [<-|[]]; auto. }
    destruct IH as (j & Hj & M); [discriminate|]. destruct (le_lt_dec (addr (snd (apx x))) (addr (snd (apx j)))) as [L|L].
    - exists x. split; [left; auto|]. intros j' [<-|H]; auto. specialize (M _ H). lia.
    - exists j. split; [right; auto|]. intros j' [<-|H]; auto. lia.
  Qed.
  Lemma writes_in (js : list job3) k a : In (k, a) (flat_map (@writes RNum addr) js) <-> exists j, In j js /\ Rg j k /\ a = addr (snd (apx j)).
  Proof.
    rewrite in_flat_map. assert (X : forall j : job3, In (k, a) (@writes RNum addr j) <-> Rg j k /\ a = addr (snd (apx j))).
    { intros j. rewrite Rg_in. destruct j as [[[p i] fr] fs]. unfold writes, apx, jfr. cbn [fst snd]. rewrite in_map_iff. split.
      - intros (x & E & H). injection E as -> <-. auto.
      - intros [H ->]. eauto. }
    split; intros (j & Hj & H); exists j; split; auto; apply X; auto.
  Qed.

  Lemma roundPar_ok t n s W rs : RInv (hh s) W -> (exists f, lv (hh s) (hH s) f) -> hn s = cnt (hh s) -> (0 < n)%nat -> (forall k, rs k = None) ->
    (@roundPar RNum eps choose addr qord shuf t n s rs = Ok None /\ forall i f, lv (hh s) i f -> see f = []) \/
    exists s' W' rs', @roundPar RNum eps choose addr qord shuf t n s rs = Ok (Some (s', rs')) /\ RInv (hh s') W' /\ (exists f, lv (hh s') (hH s') f) /\
      hn s' = cnt (hh s') /\ (tot (hh s') < tot (hh s))%nat /\ forall k, rs' k = None.
  Proof.
    intros R LH Hn n0 Hrs. unfold roundPar. destruct (Nat.eqb_spec (length (@conflicts RNum qord (hh s))) 0) as [Z|NZ].
    { left. split; auto. intros i f L. destruct (see f) as [|v l] eqn:Es; auto. exfalso.
      assert (Hv : In v (@conflicts RNum qord (hh s))) by (apply conflicts_in; exists i, f; rewrite Es; split; [auto|left; auto]).
      destruct (@conflicts RNum qord (hh s)); [destruct Hv|discriminate]. }
    right. destruct (@apexes_ok (hh s) W n R n0) as (aps & Ea & NE & ND & HA); [intros E; apply NZ; rewrite E; auto|].
    match goal with |- context [bind ?x _] => replace x with (Ok aps) by (symmetry; exact Ea) end. cbn [bind].
    destruct (Nat.eqb_spec (length aps) 0) as [Z|_]; [destruct aps; [congruence|discriminate]|].
    destruct (@mapR_all _ _ (@frontierOf RNum eps (hh s)) (fun a j => apx j = a /\ okJob (hh s) j) aps) as (js & Ej & F2).
    { intros [p i] Ha. destruct (HA _ Ha) as (s0 & L0 & Hin). cbn [snd] in L0.
      destruct (@grow_ok Q eps eps0 GP (@redistributePar RNum eps) (hh s) W i s0 p) as (fr & fs & h4 & E' & _); auto; [apply redist_eq|].
      exists ((p, i), fr, fs). split.
      - unfold frontierOf. match goal with |- bind ?x _ = _ => replace x with (Ok (fr, fs)) by (symmetry; exact E') end. reflexivity.
      - split; [reflexivity|]. exists s0. split; auto. }
    match goal with |- context [bind ?x _] => replace x with (Ok js) by (symmetry; exact Ej) end. cbn [bind].
    assert (NDj : NoDup (map (fun j => snd (apx j)) js)).
    { replace (map (fun j => snd (apx j)) js) with (map snd aps); auto. symmetry. eapply Forall2_map; [|exact F2]. intros x y H. exact (f_equal snd (proj1 H)). }
    assert (OKj : forall j, In j js -> okJob (hh s) j) by (intros j Hj; destruct (Forall2_in_r _ F2 Hj) as (x & _ & _ & X); auto).
    assert (NEj : js <> []) by (intros ->; inversion F2; subst; auto).
    cbv zeta. set (ws := shuf t _). set (rs1 := fold_left wmin ws rs).
    assert (W1 : forall k a, In (k, a) ws <-> exists j, In j js /\ Rg j k /\ a = addr (snd (apx j))).
    { intros k a. rewrite <- writes_in. unfold ws. split; apply Permutation_in; [apply Permutation_sym|]; apply Hs. }
    assert (FR : forall k a, rs1 k = Some a -> exists j, In j js /\ Rg j k /\ a = addr (snd (apx j))).
    { intros k a E. apply wmin_from in E. destruct E as [E|E]; [rewrite Hrs in E; discriminate|]. apply W1; auto. }
    destruct (@checkAll_ok (hh s) W rs1 js R OKj) as (good & Ec & HG & NG).
    match goal with |- context [bind ?x _] => replace x with (Ok (hh s, good)) by (symmetry; exact Ec) end. cbn [bind].
    destruct (@mapR_all _ _ (fun j : job3 => @aroundAll RNum (hh s) (snd j)) (fun j l => forall x, In x l <-> Rg j x) js) as (ls & El & Fl).
    { intros j Hj. eapply aroundAll_ok; eauto. }
    unfold resetAll. match goal with |- context [bind (bind ?x _)] => replace x with (Ok ls) by (symmetry; exact El) end. cbn [bind].
    assert (GN : good <> []).
    { destruct (min_job NEj) as (j & Hj & M). assert (In j good); [|intros ->; auto]. apply HG. split; auto. intros k Hk.
      destruct (@wmin_le ws rs k (addr (snd (apx j)))) as (b & Eb & Lb); [right; apply W1; eauto|]. fold rs1 in Eb. rewrite Eb. f_equal.
      destruct (FR _ _ Eb) as (j' & Hj' & _ & ->). specialize (M _ Hj'). lia. }
    assert (PG : forall j, In j (shuf t good) <-> In j good) by (intros j; split; apply Permutation_in; [apply Permutation_sym|]; apply Hs).
    destruct (@process_all (shuf t good) (Hull (hh s) (hH s) (hn s)) W) as (s' & W' & Ep & R' & LH' & Hn' & T' & _); auto.
    - eapply Permutation_NoDup; [apply Permutation_map, Hs|]. auto.
    - intros j j' Hj Hj' N k A B. apply PG, HG in Hj. apply PG, HG in Hj'. eapply (@holds_disjoint rs1 j j'); eauto; tauto.
    - intros j Hj. apply PG, HG in Hj. apply OKj. tauto.
    - match goal with |- context [bind ?x _] => replace x with (Ok s') by (symmetry; exact Ep) end. cbn [bind].
      exists s', W'. eexists. split; [reflexivity|]. split; auto. split; auto. split; auto. split.
      + apply T'. intros E. apply GN. destruct good as [|g l]; auto. assert (X : In g (shuf t (g :: l))) by (apply PG; left; auto). rewrite E in X. destruct X.
      + intros k. destruct (existsb (Nat.eqb k) (concat ls)) eqn:Ek; auto. destruct (rs1 k) as [a|] eqn:Er; auto. exfalso.
        destruct (FR _ _ Er) as (j & Hj & Hk & _). destruct (Forall2_in_l _ Fl Hj) as (l & Hl & HR).
        assert (existsb (Nat.eqb k) (concat ls) = true); [|congruence]. apply existsb_exists. exists k. split; [|apply Nat.eqb_refl].
        apply in_concat. exists l. split; auto. apply HR; auto.
  Qed.

  (** *** The rounds of one apex *)
  Lemma facetWalk_max h W S0 : SInv h W -> hh S0 = h -> (exists f, lv h (hH S0) f) ->
    exists k f, facetWalk S0 = Ok k /\ lv h k f /\ forall i g, lv h i g -> (length (see g) <= length (see f))%nat.
  Proof.
    intros SI Eh [f Lf]. unfold facetWalk. rewrite Eh, (getF_lv Lf). cbn [bind].
    match goal with |- context [dfsF ?g ?st h ?s ?a] => destruct (@dfsF_ok h W SI _ g st a s) as (L & E & ND & LL & _ & C) end; [eauto|].
    assert (CL : forall i, In i L <-> exists f, lv h i f) by (destruct C as [C|[_ C]]; [discriminate|exact C]). clear C.
    rewrite E. cbn [bind]. unfold run.
    set (st := act h (fun (a : nat * nat) i (g : fct3) => if (fst a <? length (see g))%nat then (length (see g), i) else a)).
    assert (X : forall L (a : nat * nat), (forall i, In i L -> exists f, lv h i f) -> (exists f, lv h (snd a) f /\ fst a = length (see f)) ->
      let b := fold_left st L a in (exists f, lv h (snd b) f /\ fst b = length (see f)) /\ (fst a <= fst b)%nat /\
        forall i g, In i L -> lv h i g -> (length (see g) <= fst b)%nat).
    { clear. induction L as [|i L IH]; intros a HL Ha; cbn [fold_left]; [split; [auto|split; [lia|intros i g []]]|].
      destruct (HL i (or_introl eq_refl)) as [g Lg].
      destruct (IH (st a i)) as (A & B & C); [intros; apply HL; right; auto| |].
      - unfold st, act. rewrite Lg. destruct (_ <? _)%nat; auto. cbn. eauto.
      - assert (D : (fst a <= fst (st a i))%nat /\ (length (see g) <= fst (st a i))%nat).
        { unfold st, act. rewrite Lg. destruct (Nat.ltb_spec (fst a) (length (see g))); cbn [fst]; lia. }
        split; auto. split; [lia|]. intros j g' [<-|Hj] L'; [rewrite <- (lv_fun Lg L'); lia|eauto]. }
    destruct (X L (length (see f), hH S0) LL) as ((g & Lg & Eg) & _ & M); [cbn; eauto|].
    exists (snd (fold_left st L (length (see f), hH S0))), g. split; [reflexivity|]. split; auto.
    intros i g' L'. rewrite <- Eg. eapply M; eauto. apply CL. eauto.
  Qed.
  Lemma apexPar_ok h W k f : RInv h W -> lv h k f ->
    (see f = [] /\ @apexPar RNum choose h k = UB) \/ exists a, @apexPar RNum choose h k = Ok (Some a) /\ In a (see f) /\ snd a = k.
  Proof.
    intros R L. unfold apexPar. replace (3 * length h + 2)%nat with (S (3 * length h + 1)) by lia. cbn [dfsStop existsb]. rewrite (getF_lv L). cbn [bind].
    destruct (Nat.eqb_spec (length (see f)) 0) as [Z|NZ].
    - left. split; [destruct (see f); auto; discriminate|reflexivity].
    - right. destruct (@apexIn_ok h W 0 k f R L) as (a & E & H); [intros E; rewrite E in NZ; auto|].
      match goal with |- context [bind (bind ?x _)] => replace x with (Ok a) by (symmetry; exact E) end. cbn [bind]. eauto.
  Qed.
  Lemma roundOne_ok s W : RInv (hh s) W -> (exists f, lv (hh s) (hH s) f) -> hn s = cnt (hh s) -> (hn s < 64)%nat ->
    (@roundOne RNum eps choose s = UB /\ forall i f, lv (hh s) i f -> see f = []) \/
    exists s' W', @roundOne RNum eps choose s = Ok (Some s') /\ RInv (hh s') W' /\ (exists f, lv (hh s') (hH s') f) /\
      hn s' = cnt (hh s') /\ (tot (hh s') < tot (hh s))%nat.
  Proof.
    intros R LH Hn Lt. unfold roundOne. replace (hn s <? 512)%nat with true by (symmetry; apply Nat.ltb_lt; lia).
    destruct (@facetWalk_max (hh s) W s (ri_S R) eq_refl LH) as (k & f & Ew & Lk & M). rewrite Ew. cbn [bind].
    destruct (@apexPar_ok (hh s) W k f R Lk) as [[Es Ea]|([p i] & Ea & Hin & Ek)].
    - left. split; [match goal with |- bind ?x _ = _ => replace x with (@UB (option (p3 * nat))) by (symmetry; exact Ea) end; reflexivity|].
      intros i g Lg. specialize (M i g Lg). rewrite Es in M. destruct (see g); auto. cbn in M. lia.
    - right. cbn [snd] in Ek. subst i.
      match goal with |- context [bind ?x _] => replace x with (Ok (Some (p, k))) by (symmetry; exact Ea) end. cbn [bind].
      destruct (@grow_ok Q eps eps0 GP (@redistributePar RNum eps) (hh s) W k f p) as (fr & fs & h4 & E' & _); auto; [apply redist_eq|].
      assert (J : okJob (hh s) ((p, k), fr, fs)) by (exists f; auto).
      destruct (job_facts R J) as (Cn & _). unfold jfr in Cn. cbn [fst snd] in Cn.
      match goal with |- context [bind ?x _] => replace x with (Ok (fr, fs)) by (symmetry; exact E') end. cbn [bind]. rewrite Cn. cbn [negb].
      destruct (@process_all [((p, k), fr, fs)] s W R LH Hn) as (s' & W' & Ep & R' & LH' & Hn' & T' & _).
      { constructor; [intros []|constructor]. }
      { intros j j' [<-|[]] [<-|[]] N. congruence. }
      { intros j [<-|[]]; auto. }
      cbn [foldR] in Ep. destruct (@process RNum eps s _) as [s1| | |] eqn:E1 in Ep; cbn [bind] in Ep; try discriminate. injection Ep as ->.
      match goal with |- context [bind ?x _] => replace x with (Ok s') by (symmetry; exact E1) end. cbn [bind].
      exists s', W'. split; auto. split; auto. split; auto. split; auto. apply T'. discriminate.
  Qed.

  Lemma loopPar_ok np n : (0 < np)%nat -> forall s W rs, RInv (hh s) W -> (tot (hh s) < n)%nat -> (exists f, lv (hh s) (hH s) f) -> hn s = cnt (hh s) ->
    (forall k, rs k = None) ->
    exists s1 W1, RInv (hh s1) W1 /\ (exists f, lv (hh s1) (hH s1) f) /\ (forall i f, lv (hh s1) i f -> see f = []) /\
      @loopPar RNum eps choose addr qord shuf n np s rs = if (cnt (hh s1) <? 64)%nat then UB else Ok s1.
  Proof.
    intros P0. induction n as [|n IH]; intros s W rs R T LH Hn Hrs; [lia|]. cbn [loopPar]. destruct (Nat.ltb_spec (hn s) 64) as [Lt|Ge].
    - destruct (@roundOne_ok s W R LH Hn Lt) as [[E NS]|(s' & W' & E & R' & LH' & Hn' & T')].
      + exists s, W. split; auto. split; auto. split; auto.
        match goal with |- bind ?x _ = _ => replace x with (@UB (option (hull RNum))) by (symmetry; exact E) end. cbn [bind].
        rewrite <- Hn. apply Nat.ltb_lt in Lt. now rewrite Lt.
      + destruct (IH s' W' rs R') as (s1 & W1 & A & B & C & D); auto; [lia|]. exists s1, W1. split; auto. split; auto. split; auto.
        match goal with |- bind ?x _ = _ => replace x with (Ok (Some s')) by (symmetry; exact E) end. cbn [bind]. exact D.
    - destruct (@roundPar_ok n (np * 8) s W rs R LH Hn) as [[E NS]|(s' & W' & rs' & E & R' & LH' & Hn' & T' & Hrs')]; auto; [lia| |].
      + exists s, W. split; auto. split; auto. split; auto.
        match goal with |- bind ?x _ = _ => replace x with (@Ok (option (hull RNum * resv)) None) by (symmetry; exact E) end. cbn [bind].
        rewrite <- Hn. apply Nat.ltb_ge in Ge. now rewrite Ge.
      + destruct (IH s' W' rs' R') as (s1 & W1 & A & B & C & D); auto; [lia|]. exists s1, W1. split; auto. split; auto. split; auto.
        match goal with |- bind ?x _ = _ => replace x with (Ok (Some (s', rs'))) by (symmetry; exact E) end. cbn [bind]. exact D.
  Qed.
End ParLoop.
