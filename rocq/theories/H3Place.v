(** Moving the points of the removed facets to the new ones, and removing. *)
From Coq Require Import Reals Lra Lia Psatz List Bool Permutation.
From Verif Require Import Base Num Hull2dModel H3Model H3Geom H3Surf H3Heap H3Edge H3Front H3Link.
Set Implicit Arguments.
Open Scope R_scope.

Definition szO (o : option fct3) : nat := match o with Some f => length (see f) | None => 0%nat end.
Definition tot (h : heap3) : nat := list_sum (map szO h).
Lemma tot_upd h k o o' : nth_error h k = Some o -> (tot (upd k o' h) + szO o = tot h + szO o')%nat.
Proof.
  unfold tot. revert k. induction h as [|x h IH]; intros [|k] H; cbn [nth_error] in H; try discriminate; cbn [upd map list_sum fold_right].
  - inversion H; subst. lia.
  - specialize (IH k H). unfold list_sum in IH. lia.
Qed.
Lemma tot_ext (h h' : heap3) : length h = length h' -> (forall k o o', nth_error h k = Some o -> nth_error h' k = Some o' -> szO o = szO o') -> tot h = tot h'.
Proof.
  unfold tot. revert h'. induction h as [|x h IH]; intros [|x' h'] L H; try discriminate; auto. cbn [map list_sum fold_right].
  rewrite (H 0%nat x x') by auto. f_equal. apply IH; [cbn in L; lia|]. intros k o o'. apply (H (S k)).
Qed.
Lemma tot_app h h' : tot (h ++ h') = (tot h + tot h')%nat.
Proof. unfold tot. now rewrite map_app, list_sum_app. Qed.

(** same facets and links *)
Record SS (h h' : heap3) : Prop := {
  ss_len : length h' = length h;
  ss_ex : forall k f, lv h k f -> exists s, lv h' k (setSee f s);
  ss_inv : forall k f', lv h' k f' -> exists f, lv h k f;
}.
Lemma setSee_id (f : fct3) : setSee f (see f) = f. Proof. destruct f; auto. Qed.
Lemma SS_refl h : SS h h.
Proof. split; auto; eauto. intros k f L. exists (see f). now rewrite setSee_id. Qed.
Lemma SS_upd h h' k f s : SS h h' -> lv h' k f -> SS h (upd k (Some (setSee f s)) h').
Proof.
  intros [A B C] L. split.
  - rewrite upd_length. auto.
  - intros j g Lj. destruct (B j g Lj) as [s' Ls]. destruct (Nat.eq_dec k j) as [<-|Ne].
    + exists s. rewrite (lv_fun L Ls). apply lv_upd_eq. eapply lv_len; eauto.
    + exists s'. apply lv_upd_neq; auto.
  - intros j f' Lj. destruct (Nat.eq_dec k j) as [<-|Ne]; [eapply C; eauto|]. apply lv_upd_neq in Lj; auto. eapply C; eauto.
Qed.

Section Place.
  Variable eps : R.
  Variable h2 : heap3.
  Variable n0 : nat.
  Variable nep : p3 -> bool.
  Variable news : list nat.
  Hypothesis Hnews : forall k, In k news <-> (n0 <= k < length h2)%nat.
  Hypothesis Lnews : forall k, In k news -> exists f, lv h2 k f /\ see f = [].
  Notation keepR := (@keep RNum eps).
  (** points known to be kept by no facet *)
  Hypothesis Hnep : forall k f v, In k news -> lv h2 k f -> nep v = false -> keepR f v = false.

  Lemma place1_ok h' v : SS h2 h' -> exists h'', @place1 RNum eps news h' v = Ok h'' /\
    ((h'' = h' /\ forall k f, In k news -> lv h' k f -> keepR f v = false) \/
     exists k f, In k news /\ lv h' k f /\ keepR f v = true /\ h'' = upd k (Some (setSee f (see f ++ [(v, k)]))) h').
  Proof.
    intros SSh. unfold place1. assert (X : forall k, In k news -> exists f, lv h' k f).
    { intros k Hk. destruct (Lnews _ Hk) as (f & L & _). destruct (ss_ex SSh L) as [s Ls]. eauto. }
    revert X. generalize news as l. induction l as [|k l IH]; intros X.
    - exists h'. split; auto. left. split; auto. intros k f [].
    - destruct (X k (or_introl eq_refl)) as [f Lf]. rewrite (getF_lv Lf). cbn [bind]. destruct (keepR f v) eqn:E.
      + eexists. split; [reflexivity|]. right. exists k, f. repeat (split; auto). left; auto.
      + destruct IH as (h'' & E' & C); [intros; apply X; right; auto|]. exists h''. split; auto.
        destruct C as [[-> C]|(j & g & Hj & C)].
        * left. split; auto. intros j g [<-|Hj] Lj; eauto. now rewrite (lv_fun Lj Lf).
        * right. exists j, g. split; auto. right; auto.
  Qed.

  Record J (h' : heap3) (done : list p3) : Prop := {
    j_ss : SS h2 h';
    j_old : forall k f f', (k < n0)%nat -> lv h2 k f -> lv h' k f' -> see f' = see f;
    j_new : forall k f' q k', (n0 <= k)%nat -> lv h' k f' -> In (q, k') (see f') -> k' = k /\ keepR f' q = true /\ In q done;
    j_cov : forall q, In q done -> (exists k f', (n0 <= k)%nat /\ lv h' k f' /\ In (q, k) (see f')) \/
       forall k f', In k news -> lv h' k f' -> keepR f' q = false;
    j_tot : (tot h' <= tot h2 + length (filter nep done))%nat;
  }.
  Lemma J_start : J h2 [].
  Proof.
    split; auto using SS_refl.
    - intros k f f' _ L L'. now rewrite (lv_fun L L').
    - intros k f' q k' Hk L Hin. destruct (@Lnews k) as (f & Lf & E); [apply Hnews; split; auto; eapply lv_len; eauto|].
      rewrite (lv_fun L Lf), E in Hin. destruct Hin.
    - intros q [].
    - lia.
  Qed.
  Lemma keep_setSee (f : fct3) s q : keepR (setSee f s) q = keepR f q. Proof. reflexivity. Qed.
  Lemma J_step h' done v : J h' done -> exists h'', @place1 RNum eps news h' v = Ok h'' /\ J h'' (done ++ [v]).
  Proof.
    intros Jh. destruct (place1_ok v (j_ss Jh)) as (h'' & E & C). exists h''. split; auto.
    assert (FL : (length (filter nep (done ++ [v])) = length (filter nep done) + (if nep v then 1 else 0))%nat).
    { rewrite filter_app, app_length. cbn [filter]. destruct (nep v); auto. }
    destruct C as [[-> C]|(k & f & Hk & Lk & Kv & ->)].
    - split; try apply Jh.
      + intros k f' q k' Hk L Hin. destruct (@j_new _ _ Jh k f' q k' Hk L Hin) as (A & B & D). repeat split; auto. apply in_or_app; auto.
      + intros q Hq. apply in_app_or in Hq. destruct Hq as [Hq|[<-|[]]]; [apply (j_cov Jh); auto|]. right. auto.
      + pose proof (j_tot Jh). rewrite FL. lia.
    - assert (Nk : (n0 <= k)%nat) by (apply Hnews in Hk; lia).
      assert (Lu : forall j g, lv (upd k (Some (setSee f (see f ++ [(v, k)]))) h') j g ->
        (j = k /\ g = setSee f (see f ++ [(v, k)])) \/ (j <> k /\ lv h' j g)).
      { intros j g Lj. destruct (Nat.eq_dec k j) as [<-|Ne]; [left|right; split; auto; apply lv_upd_neq in Lj; auto].
        split; auto. eapply lv_fun; eauto. apply lv_upd_eq. eapply lv_len; eauto. }
      split.
      + apply SS_upd; auto. apply Jh.
      + intros j g g' Hj Lg Lg'. destruct (Lu _ _ Lg') as [[-> _]|[_ L]]; [lia|]. eapply (j_old Jh); eauto.
      + intros j g q k' Hj Lg Hin. destruct (Lu _ _ Lg) as [[-> ->]|[_ L]].
        * cbn [setSee see] in Hin. rewrite keep_setSee. apply in_app_or in Hin. destruct Hin as [Hin|[Hin|[]]].
          -- destruct (@j_new _ _ Jh k f q k' Hj Lk Hin) as (A & B & D). repeat split; auto. apply in_or_app; auto.
          -- inversion Hin; subst. repeat split; auto. apply in_or_app; right; left; auto.
        * destruct (@j_new _ _ Jh j g q k' Hj L Hin) as (A & B & D). repeat split; auto. apply in_or_app; auto.
      + intros q Hq. apply in_app_or in Hq. destruct Hq as [Hq|[<-|[]]].
        * destruct (j_cov Jh _ Hq) as [(j & g & Hj & Lj & Hin)|C].
          -- left. destruct (Nat.eq_dec k j) as [<-|Ne].
             ++ exists k. eexists. split; auto. split; [apply lv_upd_eq; eapply lv_len; eauto|]. cbn [setSee see]. rewrite (lv_fun Lk Lj). apply in_or_app; auto.
             ++ exists j, g. split; auto. split; auto. apply lv_upd_neq; auto.
          -- right. intros j g Hj Lg. destruct (Lu _ _ Lg) as [[-> ->]|[_ L]]; [rewrite keep_setSee|]; eauto.
        * left. exists k. eexists. split; auto. split; [apply lv_upd_eq; eapply lv_len; eauto|]. cbn [setSee see]. apply in_or_app; right; left; auto.
      + pose proof (j_tot Jh) as T. pose proof (@tot_upd h' k (Some f) (Some (setSee f (see f ++ [(v, k)]))) Lk) as U.
        cbn [szO setSee see] in U. rewrite app_length in U. cbn [length] in U. rewrite FL.
        assert (nep v = true); [|rewrite H; lia].
        destruct (nep v) eqn:Ev; auto. exfalso. destruct (Lnews _ Hk) as (g & Lg & _).
        destruct (ss_ex (j_ss Jh) Lg) as [s Ls]. rewrite (lv_fun Lk Ls), keep_setSee in Kv. rewrite (@Hnep k g v Hk Lg Ev) in Kv. discriminate.
  Qed.
  Lemma J_list vs : forall h' done, J h' done -> exists h'', foldR (@place1 RNum eps news) vs h' = Ok h'' /\ J h'' (done ++ vs).
  Proof.
    induction vs as [|v vs IH]; intros h' done Jh; [exists h'; rewrite app_nil_r; auto|]. cbn [foldR].
    destruct (J_step v Jh) as (h3 & E & J3). rewrite E. cbn [bind]. destruct (IH _ _ J3) as (h4 & E4 & J4).
    exists h4. rewrite <- app_assoc in J4. auto.
  Qed.
  Definition seeOf (i : nat) : list p3 := match nth_error h2 i with Some (Some f) => map fst (see f) | _ => [] end.
  Lemma J_all fs : (forall i, In i fs -> (i < n0)%nat /\ exists f, lv h2 i f) -> forall h' done, J h' done ->
    exists h'', foldR (fun h i => f <- getF h (Some i) ;; foldR (@place1 RNum eps news) (map fst (see f)) h) fs h' = Ok h'' /\ J h'' (done ++ flat_map seeOf fs).
  Proof.
    induction fs as [|i fs IH]; intros HF h' done Jh; [exists h'; cbn; rewrite app_nil_r; auto|]. cbn [foldR flat_map].
    destruct (HF i (or_introl eq_refl)) as (Li & f & Lf). destruct (ss_ex (j_ss Jh) Lf) as [s Ls].
    rewrite (getF_lv Ls). cbn [bind]. rewrite (@j_old _ _ Jh i f _ Li Lf Ls).
    destruct (J_list (map fst (see f)) Jh) as (h3 & E & J3). rewrite E. cbn [bind].
    destruct (IH (fun j Hj => HF j (or_intror Hj)) _ _ J3) as (h4 & E4 & J4). exists h4. split; auto.
    rewrite <- app_assoc in J4. unfold seeOf at 1. rewrite Lf. auto.
  Qed.
  Lemma redistribute_ok fs : (forall i, In i fs -> (i < n0)%nat /\ exists f, lv h2 i f) ->
    exists h3, @redistribute RNum eps h2 fs news = Ok h3 /\ J h3 (flat_map seeOf fs).
  Proof. intros HF. exact (J_all _ HF J_start). Qed.
End Place.

(** deletion *)
Definition szAt (h : heap3) (i : nat) : nat := match nth_error h i with Some o => szO o | None => 0%nat end.
Lemma delete_ok fs : forall h, NoDup fs -> (forall i, In i fs -> exists f, lv h i f) ->
  exists h', foldR (fun h i => f <- getF h (Some i) ;; Ok (upd i None h)) fs h = Ok h' /\ length h' = length h /\
    (forall k f, lv h' k f <-> (~ In k fs /\ lv h k f)) /\ (tot h' + list_sum (map (szAt h) fs) = tot h)%nat.
Proof.
  induction fs as [|i fs IH]; intros h ND HF.
  - exists h. split; auto. split; auto. split; [cbn; tauto|]. cbn. lia.
  - cbn [foldR]. destruct (HF i (or_introl eq_refl)) as [f Lf]. rewrite (getF_lv Lf). cbn [bind].
    inversion ND as [|? ? Ni ND']; subst.
    assert (LN : forall k g, lv (upd i None h) k g <-> (k <> i /\ lv h k g)).
    { intros k g. destruct (Nat.eq_dec i k) as [<-|Ne]; [|rewrite lv_upd_neq by auto; intuition].
      split; [|tauto]. unfold lv. rewrite nth_error_upd_eq by (eapply lv_len; eauto). discriminate. }
    destruct (IH (upd i None h) ND') as (h' & E & Ln & L & T).
    { intros k Hk. destruct (HF k (or_intror Hk)) as [g Lg]. exists g. apply LN. split; auto. intros ->; tauto. }
    exists h'. split; auto. split; [now rewrite upd_length in Ln|]. split.
    + intros k g. rewrite L, LN. cbn [In]. intuition congruence.
    + pose proof (@tot_upd h i (Some f) None Lf) as U. cbn [szO] in U. cbn [map list_sum fold_right].
      assert (S1 : szAt h i = length (see f)) by (unfold szAt; rewrite Lf; auto). rewrite S1.
      assert (S2 : map (szAt (upd i None h)) fs = map (szAt h) fs).
      { apply map_ext_in. intros k Hk. unfold szAt. rewrite nth_error_upd_neq; auto. intros ->; tauto. }
      rewrite S2 in T. unfold list_sum in *. lia.
Qed.
