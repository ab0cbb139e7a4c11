(** The parallel quickhull: points are moved as by the serial one, a frontier
    depends on its own facets only, and the facets are counted. *)
From Coq Require Import Reals Lra Lia Psatz List Bool Permutation.
From Verif Require Import Base Num Hull2dModel H3Model H3Geom H3Surf H3Heap H3Edge H3Front H3Link H3Place H3Round H3Loop H3ParModel.
Set Implicit Arguments.

Lemma nth_ext_eq {A} (l l' : list A) : (forall k, nth_error l k = nth_error l' k) -> l = l'.
Proof.
  revert l'. induction l as [|x l IH]; intros [|y l'] H; auto; try (specialize (H 0%nat); discriminate).
  pose proof (H 0%nat) as H0. cbn in H0. injection H0 as ->. f_equal. apply IH. intros k. exact (H (S k)).
Qed.

Section Split.
  Variable eps : R.
  Notation keepR := (@keep RNum eps).
  Definition keepsAt (h : heap3) (v : p3) (k : nat) : bool := match nth_error h k with Some (Some f) => keepR f v | _ => false end.
  Definition fk (h : heap3) (l : list nat) (v : p3) : option nat := find (keepsAt h v) l.
  Definition isk (o : option nat) (k : nat) : bool := match o with Some j => (j =? k)%nat | None => false end.

  Lemma firstKeep_fk h l v : (forall k, In k l -> exists f, lv h k f) -> @firstKeep RNum eps h l v = Ok (fk h l v).
  Proof.
    induction l as [|k l IH]; intros HL; auto. cbn [firstKeep]. destruct (HL k (or_introl eq_refl)) as [f Lf].
    rewrite (getF_lv Lf). cbn [bind]. unfold fk. cbn [find]. unfold keepsAt at 1. rewrite Lf. destruct (keepR f v); auto.
    apply IH. intros; apply HL; right; auto.
  Qed.
  Lemma place1_fk h l v : (forall k, In k l -> exists f, lv h k f) ->
    @place1 RNum eps l h v = match fk h l v with
      | None => Ok h
      | Some k => match nth_error h k with Some (Some f) => Ok (upd k (Some (setSee f (see f ++ [(v, k)]))) h) | _ => UB end end.
  Proof.
    unfold place1. induction l as [|k l IH]; intros HL; auto. destruct (HL k (or_introl eq_refl)) as [f Lf].
    rewrite (getF_lv Lf). cbn [bind]. unfold fk. cbn [find]. unfold keepsAt at 1. rewrite Lf. destruct (keepR f v).
    - rewrite Lf. auto.
    - apply IH. intros; apply HL; right; auto.
  Qed.

  Section News.
    Variable h2 : heap3.
    Variable news : list nat.
    Hypothesis Hn : forall k, In k news -> exists f, lv h2 k f /\ see f = [].
    Definition mine (done : list p3) (k : nat) : list (p3 * nat) := map (fun v => (v, k)) (filter (fun v => isk (fk h2 news v) k) done).
    Definition chr (done : list p3) (k : nat) : option (option fct3) :=
      match nth_error h2 k with
      | Some (Some f) => Some (Some (if existsb (Nat.eqb k) news then setSee f (mine done k) else f))
      | o => o
      end.
    Lemma exb k l : existsb (Nat.eqb k) l = true <-> In k l.
    Proof. rewrite existsb_exists. split; [intros (x & H & E); apply Nat.eqb_eq in E; subst; auto|intros H; exists k; split; auto; apply Nat.eqb_refl]. Qed.

    Lemma chr_nil k : chr [] k = nth_error h2 k.
    Proof.
      unfold chr. destruct (nth_error h2 k) as [[f|]|] eqn:E; auto. destruct (existsb _ news) eqn:B; auto.
      apply exb in B. destruct (Hn _ B) as (g & Lg & Eg). unfold lv in Lg. rewrite Lg in E. injection E as <-.
      unfold mine. cbn [filter map]. do 2 f_equal. transitivity (setSee g (see g)); [rewrite Eg; reflexivity|apply setSee_id].
    Qed.
    Lemma fk_chr h' done v : (forall k, nth_error h' k = chr done k) -> fk h' news v = fk h2 news v.
    Proof.
      intros H. unfold fk. assert (X : forall k, keepsAt h' v k = keepsAt h2 v k).
      { intros k. unfold keepsAt. rewrite H. unfold chr. destruct (nth_error h2 k) as [[f|]|]; auto. destruct (existsb _ _); auto. }
      clear - X. induction news as [|k l IH]; auto. cbn [find]. rewrite X. destruct (keepsAt h2 v k); auto.
    Qed.
    Lemma fk_in v k : fk h2 news v = Some k -> In k news.
    Proof. intros E. apply find_some in E. tauto. Qed.

    Lemma serial_step h' done v : (forall k, nth_error h' k = chr done k) ->
      exists h'', @place1 RNum eps news h' v = Ok h'' /\ forall k, nth_error h'' k = chr (done ++ [v]) k.
    Proof.
      intros H. rewrite place1_fk.
      2: { intros k Hk. destruct (Hn _ Hk) as (f & Lf & _). unfold lv in *. setoid_rewrite H. unfold chr. rewrite Lf. eauto. }
      rewrite (fk_chr h' done v H).
      assert (Hm : forall j, fk h2 news v <> Some j -> mine (done ++ [v]) j = mine done j).
      { intros j Nj. unfold mine. rewrite filter_app. cbn [filter]. unfold isk at 2.
        destruct (fk h2 news v) as [i|]; [destruct (Nat.eqb_spec i j); [subst; congruence|]|]; now rewrite app_nil_r. }
      destruct (fk h2 news v) as [k|] eqn:Ek.
      - pose proof (fk_in _ Ek) as Hk. destruct (Hn _ Hk) as (f & Lf & _). unfold lv in Lf. rewrite H. unfold chr at 1. rewrite Lf.
        rewrite (proj2 (exb k news) Hk). eexists. split; [reflexivity|]. intros j.
        assert (Lk : (k < length h')%nat) by (apply nth_error_Some; rewrite H; unfold chr; rewrite Lf; discriminate).
        destruct (Nat.eq_dec k j) as [<-|Ne].
        + rewrite nth_error_upd_eq by auto. unfold chr. rewrite Lf, (proj2 (exb k news) Hk). do 2 f_equal. cbn [setSee see].
          unfold mine. rewrite filter_app, map_app. cbn [filter]. rewrite Ek. cbn [isk]. rewrite Nat.eqb_refl. reflexivity.
        + rewrite nth_error_upd_neq by auto. rewrite H. unfold chr. rewrite Hm by congruence. auto.
      - exists h'. split; auto. intros j. rewrite H. unfold chr. rewrite Hm by discriminate. auto.
    Qed.
    Lemma serial_list buf : forall h' done, (forall k, nth_error h' k = chr done k) ->
      exists h'', foldR (@place1 RNum eps news) buf h' = Ok h'' /\ forall k, nth_error h'' k = chr (done ++ buf) k.
    Proof.
      induction buf as [|v buf IH]; intros h' done H; [exists h'; rewrite app_nil_r; auto|]. cbn [foldR].
      destruct (serial_step h' done v H) as (h1 & E & H1). rewrite E. cbn [bind]. destruct (IH _ _ H1) as (h3 & E3 & H3).
      exists h3. split; auto. now rewrite <- app_assoc in H3.
    Qed.

    Lemma par_fold (X : nat -> list (p3 * nat)) l : forall h', (forall k, In k l -> exists f, lv h' k f) ->
      exists h'', foldR (fun (h : heap3) k => f <- getF h (Some k) ;; Ok (upd k (Some (@setSee RNum f (X k))) h)) l h' = Ok h'' /\
        forall k, nth_error h'' k = match nth_error h' k with
          | Some (Some f) => Some (Some (if existsb (Nat.eqb k) l then setSee f (X k) else f)) | o => o end.
    Proof.
      induction l as [|j l IH]; intros h' HL.
      - exists h'. split; auto. intros k. cbn. destruct (nth_error h' k) as [[f|]|]; auto.
      - cbn [foldR]. destruct (HL j (or_introl eq_refl)) as [f Lf]. rewrite (getF_lv Lf). cbn [bind].
        destruct (IH (upd j (Some (setSee f (X j))) h')) as (h'' & E & H).
        { intros k Hk. destruct (Nat.eq_dec j k) as [<-|Ne]; [eexists; apply lv_upd_eq; eapply lv_len; eauto|].
          destruct (HL k (or_intror Hk)) as [g Lg]. exists g. apply lv_upd_neq; auto. }
        exists h''. split; auto. intros k. rewrite H. cbn [existsb]. destruct (Nat.eq_dec j k) as [<-|Ne].
        + rewrite nth_error_upd_eq by (eapply lv_len; eauto). unfold lv in Lf. rewrite Lf, Nat.eqb_refl. cbn [Datatypes.orb].
          destruct (existsb _ l); reflexivity.
        + rewrite nth_error_upd_neq by auto. destruct (nth_error h' k) as [[g|]|]; auto.
          replace (k =? j)%nat with false by (symmetry; apply Nat.eqb_neq; auto). reflexivity.
    Qed.
    Lemma mapR_ok {X Y} (f : X -> res Y) (g : X -> Y) l : (forall x, In x l -> f x = Ok (g x)) -> mapR f l = Ok (map g l).
    Proof. induction l as [|x l IH]; intros H; auto. cbn. rewrite H by (left; auto). cbn [bind]. rewrite IH by (intros; apply H; right; auto). auto. Qed.

    Lemma splitTo_eq buf : @splitTo RNum eps h2 buf news = foldR (@place1 RNum eps news) buf h2.
    Proof.
      assert (HL : forall k, In k news -> exists f, lv h2 k f) by (intros k Hk; destruct (Hn _ Hk) as (f & Lf & _); eauto).
      unfold splitTo. rewrite (@mapR_ok _ _ _ (fun v => (v, fk h2 news v))) by (intros v _; rewrite firstKeep_fk by auto; auto). cbn [bind].
      match goal with |- foldR (fun h k => f <- getF h (Some k) ;; Ok (upd k (Some (setSee f (@?X k))) h)) _ _ = _ =>
        destruct (@par_fold X news h2 HL) as (h3 & E3 & H3) end.
      etransitivity; [exact E3|]. destruct (serial_list buf h2 [] (fun k => eq_sym (chr_nil k))) as (h4 & E4 & H4). etransitivity; [|symmetry; exact E4]. f_equal.
      apply nth_ext_eq. intros k. rewrite H3, H4. unfold chr. cbn [app].
      destruct (nth_error h2 k) as [[f|]|]; auto. do 2 f_equal. destruct (existsb _ news); auto. f_equal.
      unfold mine. clear. induction buf as [|v l IH]; auto. cbn [map filter]. unfold flagged at 1, isk at 1. cbn [snd].
      destruct (fk h2 news v) as [j|]; [destruct (j =? k)%nat|]; cbn [map fst]; rewrite ?IH; auto.
    Qed.
  End News.

  Lemma redist_eq : redis_ok eps (@redistributePar RNum eps).
  Proof.
    intros h2 fs n0 m L2 Hn Hf. unfold redistributePar, redistribute.
    assert (Eb : mapR (fun i => f <- getF h2 (Some i) ;; Ok (map fst (see f))) fs = Ok (map (seeOf h2) fs)).
    { apply mapR_ok. intros i Hi. destruct (Hf i Hi) as (_ & f & Lf). rewrite (getF_lv Lf). cbn [bind]. unfold seeOf. now rewrite Lf. }
    rewrite Eb. cbn [bind]. rewrite splitTo_eq by auto. clear Eb.
    assert (X : forall fs, (forall i, In i fs -> (i < n0)%nat /\ exists f, lv h2 i f) -> forall h' done, (forall k, nth_error h' k = chr h2 (seq n0 m) done k) ->
      foldR (@place1 RNum eps (seq n0 m)) (concat (map (seeOf h2) fs)) h' =
      foldR (fun h i => f <- getF h (Some i) ;; foldR (@place1 RNum eps (seq n0 m)) (map fst (see f)) h) fs h').
    { clear fs Hf. induction fs as [|i fs IH]; intros Hf h' done H; auto. cbn [map concat foldR]. rewrite foldR_app.
      destruct (Hf i (or_introl eq_refl)) as (Li & f & Lf). unfold lv in Lf.
      assert (Lf' : lv h' i f).
      { unfold lv. rewrite H. unfold chr. rewrite Lf. replace (existsb (Nat.eqb i) (seq n0 m)) with false; auto.
        symmetry. apply not_true_is_false. rewrite exb, in_seq. lia. }
      rewrite (getF_lv Lf'). cbn [bind]. unfold seeOf at 1. rewrite Lf.
      destruct (@serial_list h2 (seq n0 m) Hn (map fst (see f)) h' done H) as (h3 & E3 & H3). rewrite E3. cbn [bind].
      match goal with |- bind ?x _ = _ => replace x with (@Ok heap3 h3) by (symmetry; exact E3) end. cbn [bind].
      eapply IH; eauto. intros; apply Hf; right; auto. }
    apply X with (done := []); auto. intros k. symmetry. apply chr_nil. auto.
  Qed.
End Split.

(** *** The frontier of an apex reads the facets it finds, no others *)
Section Frame.
  Variable eps : R.
  Variable h h' : heap3.
  Variable p : p3.
  Variable Rg : nat -> Prop.
  Hypothesis Same : forall k f, Rg k -> (lv h' k f <-> lv h k f).

  Lemma getF_inv (g : heap3) o f : getF g o = Ok f -> exists k, o = Some k /\ lv g k f.
  Proof. unfold getF, lv. destruct o as [k|]; [|discriminate]. intros E. exists k. destruct (nth_error g k) as [[x|]|]; try discriminate. split; congruence. Qed.
  Lemma getF_same o f : getF h o = Ok f -> (forall k, o = Some k -> Rg k) -> getF h' o = Ok f.
  Proof. intros E H. apply getF_inv in E. destruct E as (k & -> & L). apply getF_lv, Same; auto. Qed.

  Lemma fDoE_grow e fr fs fr' fs' : @fDoE RNum eps h p e fr fs = Ok (fr', fs') -> incl fr fr' /\ incl fs fs'.
  Proof.
    unfold fDoE. destruct (getF h (eff e)) as [ff| | |]; cbn [bind]; try discriminate.
    destruct (efb e) as [b|].
    - destruct (getF h (Some b)) as [fb0| | |]; cbn [bind]; try discriminate. intros E. injection E as <- <-.
      split; [destruct (_ && _)|destruct (_ && _)]; intros x Hx; auto; apply in_or_app; auto.
    - intros E. injection E as <- <-. split; [intros x Hx; auto|]. destruct (_ && _); intros x Hx; auto; apply in_or_app; auto.
  Qed.
  Lemma dfsEdge_grow fuel : forall S V fr fs fr1 fs1, @dfsEdge RNum eps fuel h p S V fr fs = Ok (fr1, fs1) -> incl fr fr1 /\ incl fs fs1.
  Proof.
    induction fuel as [|fuel IH]; intros S V fr fs fr1 fs1 E; [discriminate|]. cbn [dfsEdge] in E. destruct S as [|e S].
    { injection E as <- <-. split; apply incl_refl. }
    destruct (existsb (edgeEq e) V); [eauto|].
    destruct (@fVisit RNum eps h p e) as [v| | |]; cbn [bind] in E; try discriminate. destruct v; [|eauto].
    destruct (@fDoE RNum eps h p e fr fs) as [[fr' fs']| | |] eqn:ED; cbn [bind] in E; try discriminate.
    destruct (getF h (eff e)) as [f| | |]; cbn [bind] in E; try discriminate.
    apply IH in E. apply fDoE_grow in ED. destruct E, ED. split; eapply incl_tran; eauto.
  Qed.

  Lemma add_in k fs : In k (if negb (existsb (Nat.eqb k) fs) then fs ++ [k] else fs).
  Proof. destruct (existsb (Nat.eqb k) fs) eqn:B; cbn [negb]; [apply exb; auto|apply in_or_app; right; left; auto]. Qed.
  Lemma fDoE_cases e fr fs fr' fs' k : @fVisit RNum eps h p e = Ok true -> @fDoE RNum eps h p e fr fs = Ok (fr', fs') -> eff e = Some k ->
    In k fs' \/ In e fr'.
  Proof.
    unfold fVisit, fDoE. intros Ev ED Ek. destruct (getF h (eff e)) as [f| | |]; cbn [bind] in ED; try discriminate. rewrite Ek in ED.
    destruct (efb e) as [b|].
    - destruct (getF h (Some b)) as [g| | |]; cbn [bind] in ED, Ev; try discriminate. assert (Vg : @visible RNum eps g p = true) by congruence.
      rewrite Vg in ED. destruct (@visible RNum eps f p); cbn [negb Datatypes.orb andb] in ED.
      + left. match type of ED with Ok (_, ?y) = _ => replace fs' with y by congruence end. apply add_in.
      + right. match type of ED with Ok (?y, _) = _ => replace fr' with y by congruence end. apply in_or_app; right; left; auto.
    - left. match type of ED with Ok (_, ?y) = _ => replace fs' with y by congruence end. rewrite orb_true_r. apply add_in.
  Qed.

  Lemma dfsEdge_same fuel : forall fuel' S V fr fs fr1 fs1, @dfsEdge RNum eps fuel h p S V fr fs = Ok (fr1, fs1) ->
    (forall e k, In e S -> efb e = Some k -> Rg k) -> (forall k, In k fs1 -> Rg k) -> (forall e k, In e fr1 -> eff e = Some k -> Rg k) ->
    (fuel <= fuel')%nat -> @dfsEdge RNum eps fuel' h' p S V fr fs = Ok (fr1, fs1).
  Proof.
    induction fuel as [|fuel IH]; intros fuel' S V fr fs fr1 fs1 E HS Hs Hf Le; [discriminate|].
    destruct fuel' as [|fuel']; [lia|]. cbn [dfsEdge] in *. destruct S as [|e S]; auto.
    assert (HS' : forall e k, In e S -> efb e = Some k -> Rg k) by (intros; eapply HS; eauto; right; auto).
    destruct (existsb (edgeEq e) V); [apply IH; auto; lia|].
    assert (EV : forall v, @fVisit RNum eps h p e = Ok v -> @fVisit RNum eps h' p e = Ok v).
    { unfold fVisit. intros v. destruct (efb e) as [b|] eqn:Eb; auto. destruct (getF h (Some b)) as [g| | |] eqn:Eg; cbn [bind]; try discriminate.
      rewrite (@getF_same _ _ Eg); auto. intros k Ek. injection Ek as <-. eapply HS; [left; reflexivity|auto]. }
    destruct (@fVisit RNum eps h p e) as [v| | |] eqn:Ev; cbn [bind] in E; try discriminate. rewrite (EV v eq_refl). cbn [bind].
    destruct v; [|apply IH; auto; lia].
    destruct (@fDoE RNum eps h p e fr fs) as [[fr' fs']| | |] eqn:ED; cbn [bind] in E; try discriminate.
    destruct (getF h (eff e)) as [f| | |] eqn:Ef; cbn [bind] in E; try discriminate.
    pose proof (dfsEdge_grow _ _ _ _ _ E) as [G1 G2].
    assert (Re : forall k, eff e = Some k -> Rg k).
    { intros k Ek. destruct (@fDoE_cases e fr fs fr' fs' k Ev ED Ek) as [Hk|Hk]; [apply Hs, G2, Hk|eapply Hf; eauto]. }
    assert (ED' : @fDoE RNum eps h' p e fr fs = Ok (fr', fs')).
    { rewrite <- ED. unfold fDoE. rewrite Ef, (@getF_same _ _ Ef Re). cbn [bind]. destruct (efb e) as [b|] eqn:Eb; auto.
      unfold fVisit in Ev. rewrite Eb in Ev. destruct (getF h (Some b)) as [g| | |] eqn:Eg; cbn [bind] in Ev; try discriminate.
      rewrite (@getF_same _ _ Eg); auto. intros k Ek. injection Ek as <-. eapply HS; [left; reflexivity|auto]. }
    rewrite ED'. cbn [bind]. rewrite (@getF_same _ _ Ef Re). cbn [bind]. apply IH; auto; [|lia].
    intros e' k He Ek. apply in_app_or in He. destruct He as [He|He]; [|eauto]. apply Re. rewrite <- Ek.
    unfold pushEdges in He. destruct (eq3 _ _ _); [|destruct (eq3 _ _ _); [|destruct (eq3 _ _ _)]]; cbn [In] in He;
      repeat (destruct He as [<-|He]; [reflexivity|]); destruct He.
  Qed.

  Lemma frontier_same start fr fs : @computeFrontier RNum eps h (p, start) = Ok (fr, fs) -> (length h <= length h')%nat -> Rg start ->
    (forall k, In k fs -> Rg k) -> (forall e k, In e fr -> eff e = Some k -> Rg k) -> @computeFrontier RNum eps h' (p, start) = Ok (fr, fs).
  Proof.
    unfold computeFrontier. cbn [fst snd]. intros E Le Rs Hs Hf. destruct (getF h (Some start)) as [s| | |] eqn:Es; cbn [bind] in E; try discriminate.
    rewrite (@getF_same _ _ Es) by (intros k Ek; injection Ek as <-; auto). cbn [bind].
    eapply dfsEdge_same; eauto; [|lia]. intros e k [<-|[]] Ek. discriminate.
  Qed.
End Frame.

(** *** Counting the facets *)
Definition shp (h : heap3) : list bool := map (fun o => match o with Some _ => true | None => false end) h.
Definition cnt (h : heap3) : nat := length (filter (fun b => b) (shp h)).
Lemma shp_upd h k f g : lv h k f -> shp (upd k (Some g) h) = shp h.
Proof.
  unfold lv, shp. revert k. induction h as [|x h IH]; intros [|k] H; cbn [nth_error] in H; try discriminate; cbn [upd map].
  - injection H as ->. auto.
  - f_equal. auto.
Qed.
Lemma shp_linkEdge h f1 f2 u v h' : linkEdge h f1 f2 u v = Ok h' -> shp h' = shp h.
Proof.
  unfold linkEdge. destruct (getF h (Some f2)) as [f| | |] eqn:E; cbn [bind]; try discriminate. apply getF_inv in E. destruct E as (k & Ek & L). injection Ek as <-.
  repeat match goal with |- context [if ?c then _ else _] => destruct c end; intros X; inversion X; eapply shp_upd; eauto.
Qed.
Lemma shp_linkSide set (u v : fct3 -> p3) h f F h' : linkSide set u v h f F = Ok h' -> shp h' = shp h.
Proof.
  unfold linkSide. destruct (getF h (Some f)) as [x| | |] eqn:E; cbn [bind]; try discriminate. apply getF_inv in E. destruct E as (k & Ek & L). injection Ek as <-.
  destruct (findFacet _ _ _ _) as [g| | |]; cbn [bind]; try discriminate. intros X. apply shp_linkEdge in X. rewrite X. eapply shp_upd; eauto.
Qed.
Lemma shp_linkFacet h f F h' : linkFacet h f F = Ok h' -> shp h' = shp h.
Proof.
  unfold linkFacet. intros E.
  match type of E with bind ?x _ = _ => destruct x as [h1| | |] eqn:E1; cbn [bind] in E; try discriminate end.
  match type of E with bind ?x _ = _ => destruct x as [h2| | |] eqn:E2; cbn [bind] in E; try discriminate end.
  apply shp_linkSide in E1, E2, E. congruence.
Qed.
Lemma foldR_inv {X Y} (f : Y -> X -> res Y) (I : Y -> Prop) l : (forall x y y', In x l -> I y -> f y x = Ok y' -> I y') ->
  forall y y', I y -> foldR f l y = Ok y' -> I y'.
Proof.
  induction l as [|x l IH]; intros H y y' Iy E; [injection E as <-; auto|]. cbn [foldR] in E.
  destruct (f y x) as [y1| | |] eqn:E1; cbn [bind] in E; try discriminate. apply (IH (fun x0 y0 y2 Hx => H x0 y0 y2 (or_intror Hx)) y1); auto.
  eapply H; eauto. left; auto.
Qed.
Lemma shp_place1 eps news h v h' : @place1 RNum eps news h v = Ok h' -> shp h' = shp h.
Proof.
  unfold place1. induction news as [|k l IH]; intros E; [injection E as <-; auto|].
  destruct (getF h (Some k)) as [f| | |] eqn:Ef; cbn [bind] in E; try discriminate. destruct (@keep RNum eps f v); auto.
  injection E as <-. apply getF_inv in Ef. destruct Ef as (j & Ej & L). injection Ej as <-. eapply shp_upd; eauto.
Qed.
Lemma shp_redistribute eps h fs news h' : @redistribute RNum eps h fs news = Ok h' -> shp h' = shp h.
Proof.
  unfold redistribute. apply foldR_inv with (I := fun g => shp g = shp h); auto. intros i g g' _ Ig E.
  destruct (getF g (Some i)) as [f| | |]; cbn [bind] in E; try discriminate.
  revert E. apply foldR_inv with (I := fun g => shp g = shp h); auto. intros v y y' _ Iy E. apply shp_place1 in E. congruence.
Qed.
Lemma cnt_del fs : forall h h', foldR (fun (h : heap3) i => f <- getF h (Some i) ;; Ok (upd i None h)) fs h = Ok h' -> (cnt h' + length fs = cnt h)%nat.
Proof.
  induction fs as [|i fs IH]; intros h h' E; [injection E as <-; cbn; lia|]. cbn [foldR] in E.
  destruct (getF h (Some i)) as [f| | |] eqn:Ef; cbn [bind] in E; try discriminate. apply IH in E.
  apply getF_inv in Ef. destruct Ef as (j & Ej & L). injection Ej as <-.
  assert (C : S (cnt (upd i None h)) = cnt h); [|cbn [length]; lia].
  clear - L. unfold cnt, shp, lv in *. revert i L. induction h as [|x h IH]; intros [|i] L; cbn [nth_error] in L; try discriminate; cbn [upd map filter].
  - injection L as ->. auto.
  - destruct x; cbn [length]; rewrite ?(IH i L); auto.
Qed.
Lemma shp_grow eps redis h p fr fs h4 : (forall h fs news h', redis h fs news = Ok h' -> shp h' = shp h) ->
  @grow RNum eps redis h p fr fs = Ok h4 -> (cnt h4 + length fs = cnt h + length fr)%nat.
Proof.
  intros Hr. unfold grow. cbv zeta. destruct (foldR _ (seq 0 (length fr)) _) as [h2| | |] eqn:E2; cbn [bind]; try discriminate.
  destruct (_ =? 0)%nat; try discriminate. destruct (redis h2 fs _) as [h3| | |] eqn:E3; cbn [bind]; try discriminate.
  intros E4. apply cnt_del in E4. rewrite E4. unfold cnt. rewrite (Hr _ _ _ _ E3).
  assert (S2 : shp h2 = shp (h ++ map (fun e => Some (newFct RNum eps (ea e) (eb e) p)) fr)).
  { revert E2. match goal with |- foldR _ _ ?hs = _ -> _ => apply foldR_inv with (I := fun g => shp g = shp hs); auto end.
    intros i g g' _ Ig E. destruct (nth_error fr i); try discriminate. apply shp_linkFacet in E. congruence. }
  rewrite S2. unfold shp. rewrite map_app, filter_app, app_length. f_equal. rewrite map_map.
  clear. induction fr as [|e l IH]; auto. cbn [map filter length]. auto.
Qed.
Lemma shp_split eps h buf news h' : @splitTo RNum eps h buf news = Ok h' -> shp h' = shp h.
Proof.
  unfold splitTo. destruct (mapR _ buf) as [fl| | |]; cbn [bind]; try discriminate.
  apply foldR_inv with (I := fun g => shp g = shp h); auto. intros k g g' _ Ig E.
  destruct (getF g (Some k)) as [f| | |] eqn:Ef; cbn [bind] in E; try discriminate. apply getF_inv in Ef. destruct Ef as (j & Ej & L). injection Ej as <-.
  assert (Eg : g' = upd k (Some (setSee f (map (fun x => (fst x, k)) (filter (@flagged RNum k) fl)))) g) by congruence.
  rewrite Eg, (shp_upd _ L). auto.
Qed.
Lemma shp_redistPar eps h fs news h' : @redistributePar RNum eps h fs news = Ok h' -> shp h' = shp h.
Proof. unfold redistributePar. destruct (mapR _ fs) as [bufs| | |]; cbn [bind]; try discriminate. apply shp_split. Qed.
Lemma cnt_ids h : length (ids h) = cnt h.
Proof.
  unfold ids, cnt, shp. assert (X : forall l k, (forall i, nth_error l i = nth_error h (k + i)) ->
    length (filter (liveB h) (seq k (length l))) = length (filter (fun b => b) (map (fun o : option fct3 => match o with Some _ => true | None => false end) l))).
  { induction l as [|x l IH]; intros k H; auto. cbn [length seq filter map]. pose proof (H 0%nat) as H0. rewrite Nat.add_0_r in H0. cbn in H0.
    unfold liveB at 1. rewrite <- H0. assert (HS : forall i, nth_error l i = nth_error h (S k + i)) by (intros i; specialize (H (S i)); rewrite <- plus_n_Sm in H; exact H).
    specialize (IH _ HS). destruct x; cbn [length]; auto. }
  apply X. auto.
Qed.
