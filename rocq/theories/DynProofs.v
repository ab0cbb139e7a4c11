(** Structure of the dynamic kd-tree: construction, insertion, erasure. *)
From Verif Require Import Base Num KdModel KdSpec KdBuild KdSplit DynModel.
Set Implicit Arguments.

(** ** Contracts of the library calls *)
Definition part_ok {A} (part : (A -> bool) -> list A -> list A * list A) : Prop :=
  forall f l, Permutation (fst (part f l)) (filter f l) /\
              Permutation (snd (part f l)) (filter (fun x => negb (f x)) l).
Definition med_ok {N : Num} {A} (fin : nT N -> Prop) (pt : A -> list (nT N))
    (med : nat -> list A -> list A * list A) : Prop :=
  forall k l, 2 <= length l -> (forall x, In x l -> fin (coord (pt x) k)) ->
    Permutation (fst (med k l) ++ snd (med k l)) l /\
    length (fst (med k l)) = length l / 2 /\
    forall h t, snd (med k l) = h :: t ->
      (forall x, In x (fst (med k l)) -> nlt N (coord (pt h) k) (coord (pt x) k) = false) /\
      (forall x, In x (snd (med k l)) -> nlt N (coord (pt x) k) (coord (pt h) k) = false).

Section Dyn.
  Variable N : Num.
  Variable ok fin : nT N -> Prop.
  Hypothesis OL : OrdLaws N ok.
  Hypothesis fin_ok : forall x, fin x -> ok x.
  Lemma FL : OrdLaws N fin.
  Proof.
    constructor; intros.
    - apply (ol_irrefl OL); auto.
    - eapply (ol_trans OL x y z); auto.
    - apply (ol_cotrans OL x y z); auto.
    - apply (ol_le OL); auto.
  Qed.
  Variable dim : nat.
  Hypothesis Hdim : 1 <= dim.
  Variable A : Type.
  Variable pt : A -> list (nT N).
  Variable thr : nat.
  Hypothesis Hthr : 2 <= thr.
  Variable part : (A -> bool) -> list A -> list A * list A.
  Variable med : nat -> list A -> list A * list A.
  Hypothesis Hpart : part_ok part.
  Hypothesis Hmed : med_ok fin pt med.

  Notation le x y := (nle N x y = true).
  Notation tr := (dtree N A).

  Definition finIt (x : A) : Prop := forall d, d < dim -> fin (coord (pt x) d).
  Definition inB (b : box N) (x : A) : Prop :=
    forall d, d < dim -> le (coord (bmin b) d) (coord (pt x) d) /\ le (coord (pt x) d) (coord (bmax b) d).
  Definition binv (b : box N) : Prop :=
    forall d, d < dim -> fin (coord (bmin b) d) /\ fin (coord (bmax b) d) /\ le (coord (bmin b) d) (coord (bmax b) d).
  Definition bsub (b' b : box N) : Prop :=
    forall d, d < dim -> le (coord (bmin b) d) (coord (bmin b') d) /\ le (coord (bmax b') d) (coord (bmax b) d).

  Lemma bsub_refl b : binv b -> bsub b b.
  Proof. intros H d Hd. destruct (H d Hd) as (H1 & H2 & _). split; apply (nle_refl FL); auto. Qed.
  Lemma bsub_trans b1 b2 b3 : binv b1 -> binv b2 -> binv b3 -> bsub b1 b2 -> bsub b2 b3 -> bsub b1 b3.
  Proof.
    intros I1 I2 I3 H1 H2 d Hd. destruct (I1 d Hd) as (? & ? & _), (I2 d Hd) as (? & ? & _), (I3 d Hd) as (? & ? & _).
    destruct (H1 d Hd), (H2 d Hd). split.
    - apply (nle_trans FL) with (y := coord (bmin b2) d); auto.
    - apply (nle_trans FL) with (y := coord (bmax b2) d); auto.
  Qed.
  Lemma inB_sub b b' x : binv b -> binv b' -> finIt x -> inB b x -> bsub b b' -> inB b' x.
  Proof.
    intros I1 I2 F H S d Hd. destruct (I1 d Hd) as (? & ? & _), (I2 d Hd) as (? & ? & _), (H d Hd), (S d Hd).
    specialize (F d Hd). split.
    - apply (nle_trans FL) with (y := coord (bmin b) d); auto.
    - apply (nle_trans FL) with (y := coord (bmax b) d); auto.
  Qed.

  Lemma bupdate_spec b x : binv b -> finIt x ->
    binv (bupdate N dim A pt b x) /\ bsub b (bupdate N dim A pt b x) /\ inB (bupdate N dim A pt b x) x.
  Proof.
    intros Hb Hx. unfold bupdate, binv, bsub, inB. cbn [bmin bmax].
    assert (K : forall d, d < dim ->
      coord (minCoords N dim (pt x) (bmin b)) d = nmin2 N (coord (pt x) d) (coord (bmin b) d) /\
      coord (maxCoords N dim (pt x) (bmax b)) d = nmax2 N (coord (pt x) d) (coord (bmax b) d)).
    { intros d Hd. split; [apply coord_minCoords|apply coord_maxCoords]; auto. }
    split; [|split]; intros d Hd; destruct (K d Hd) as [-> ->]; destruct (Hb d Hd) as (H1 & H2 & H3);
      specialize (Hx d Hd).
    - split; [apply nmin2_ok; auto|]. split; [apply nmax2_ok; auto|].
      apply (nle_trans FL) with (y := coord (pt x) d); auto.
      + apply nmin2_ok; auto.
      + apply nmax2_ok; auto.
      + apply (nmin2_le_l FL); auto.
      + apply (nmax2_le_l FL); auto.
    - split; [apply (nmin2_le_r FL)|apply (nmax2_le_r FL)]; auto.
    - split; [apply (nmin2_le_l FL)|apply (nmax2_le_l FL)]; auto.
  Qed.

  Lemma bupdate_least b B x : inB B x -> bsub b B -> bsub (bupdate N dim A pt b x) B.
  Proof.
    intros Hx Hb d Hd. unfold bupdate. cbn [bmin bmax].
    rewrite coord_minCoords, coord_maxCoords by auto. destruct (Hx d Hd), (Hb d Hd).
    destruct (nmin2_or (coord (pt x) d) (coord (bmin b) d)) as [-> | ->];
    destruct (nmax2_or (coord (pt x) d) (coord (bmax b) d)) as [-> | ->]; auto.
  Qed.

  Lemma bfold_spec xs : forall b, binv b -> (forall x, In x xs -> finIt x) ->
    let B := fold_left (bupdate N dim A pt) xs b in
    binv B /\ bsub b B /\ (forall x, In x xs -> inB B x).
  Proof.
    induction xs as [|x xs IH]; intros b Hb Hx; cbv zeta; cbn [fold_left].
    - split; auto. split; [apply bsub_refl; auto|intros x []].
    - destruct (@bupdate_spec b x Hb (Hx x (or_introl eq_refl))) as (U1 & U2 & U3).
      destruct (IH _ U1 (fun y Hy => Hx y (or_intror Hy))) as (V1 & V2 & V3).
      split; auto. split; [eapply bsub_trans; [| |exact V1|exact U2|exact V2]; auto|].
      intros y [<-|Hy]; auto. eapply inB_sub; [exact U1|exact V1| |exact U3|exact V2]. apply Hx; simpl; auto.
  Qed.

  Lemma bfold_least xs B : (forall x, In x xs -> inB B x) -> forall b, bsub b B ->
    bsub (fold_left (bupdate N dim A pt) xs b) B.
  Proof.
    intros Hx. induction xs as [|x xs IH]; intros b Hb; cbn [fold_left]; auto.
    apply IH; [intros; apply Hx; simpl; auto|]. apply bupdate_least; auto. apply Hx; simpl; auto.
  Qed.

  Lemma bboxOf_spec its : its <> [] -> (forall x, In x its -> finIt x) ->
    exists b, bboxOf N dim A pt its = Ok b /\ binv b /\ (forall x, In x its -> inB b x) /\
      forall B, (forall x, In x its -> inB B x) -> bsub b B.
  Proof.
    intros Hne HF. destruct its as [|x its]; [congruence|]. unfold bboxOf.
    assert (Hb : binv {| bmin := pt x; bmax := pt x |}).
    { intros d Hd. cbn [bmin bmax]. assert (F : fin (coord (pt x) d)) by (apply HF; simpl; auto).
      split; auto. split; auto. apply (nle_refl FL); auto. }
    destruct (@bfold_spec (x :: its) _ Hb HF) as (H1 & _ & H3).
    eexists. split; [reflexivity|]. split; auto. split; auto.
    intros B HB. apply bfold_least; auto. intros d Hd. cbn [bmin bmax]. apply HB; simpl; auto.
  Qed.

  (** ** Invariant *)
  Fixpoint entries (t : tr) : list (A * bool) :=
    match t with DLeaf data _ _ => data | DNode _ _ _ _ l r => entries l ++ entries r end.

  Fixpoint dinv (t : tr) : Prop :=
    match t with
    | DLeaf data n b => n = Z.of_nat (length (map fst (filter snd data))) /\ binv b /\
        forall e, In e data -> finIt (fst e) /\ inB b (fst e)
    | DNode n k s b l r => n = (dsize l + dsize r)%Z /\ binv b /\ bsub (dbox l) b /\ bsub (dbox r) b /\
        k < dim /\ dinv l /\ dinv r
    end.

  Lemma dinv_binv t : dinv t -> binv (dbox t).
  Proof. destruct t; simpl; tauto. Qed.

  Lemma dinv_entries t : dinv t -> forall e, In e (entries t) -> finIt (fst e) /\ inB (dbox t) (fst e).
  Proof.
    induction t as [data n b|n k s b l IHl r IHr]; cbn [dinv entries dbox].
    - tauto.
    - intros (_ & Hb & S1 & S2 & _ & Il & Ir) e He.
      assert (E : (finIt (fst e) /\ inB (dbox l) (fst e)) \/ (finIt (fst e) /\ inB (dbox r) (fst e))).
      { apply in_app_or in He as [He|He]; auto. }
      destruct E as [[F I]|[F I]]; split; auto.
      + eapply inB_sub; [apply dinv_binv; exact Il|exact Hb|exact F|exact I|exact S1].
      + eapply inB_sub; [apply dinv_binv; exact Ir|exact Hb|exact F|exact I|exact S2].
  Qed.

  Lemma iter_entries t : iter t = map fst (filter snd (entries t)).
  Proof.
    induction t as [data n b|n k s b l IHl r IHr]; cbn [iter entries]; auto.
    rewrite IHl, IHr, filter_app, map_app. auto.
  Qed.
  Lemma iter_In t x : In x (iter t) -> In (x, true) (entries t).
  Proof.
    rewrite iter_entries, in_map_iff. intros ([y f] & <- & H). apply filter_In in H as [H1 H2].
    simpl in *. subst. auto.
  Qed.
  Lemma dinv_iter t x : dinv t -> In x (iter t) -> finIt x /\ inB (dbox t) x.
  Proof. intros H Hx. apply iter_In in Hx. apply (@dinv_entries t H _ Hx). Qed.

  Lemma dinv_size t : dinv t -> dsize t = Z.of_nat (length (iter t)).
  Proof.
    induction t as [data n b|n k s b l IHl r IHr]; cbn [dinv iter dsize]; [tauto|].
    intros (-> & _ & _ & _ & _ & Il & Ir). rewrite app_length, IHl, IHr by auto. lia.
  Qed.

  (** As many live items as entries: all flags are set. *)
  Lemma all_true t (l : list A) : Permutation (iter t) l -> Permutation (map fst (entries t)) l ->
    forall e, In e (entries t) -> snd e = true.
  Proof.
    intros P Pe. assert (EQ : length (iter t) = length (map fst (entries t))).
    { rewrite (Permutation_length P), (Permutation_length Pe). auto. }
    rewrite iter_entries, !map_length in EQ. revert EQ. generalize (entries t).
    intros l0; induction l0 as [|a l0 IH]; simpl; intros E x []; subst; auto.
    - destruct (snd x) eqn:Q; auto. pose proof (filter_length_le snd l0). lia.
    - destruct (snd a); simpl in E; [apply IH; auto; lia|].
      pose proof (filter_length_le snd l0). lia.
  Qed.

  (** All flags set: fresh trees. *)
  Lemma filter_true_map (l : list A) : map fst (filter snd (map (fun x => (x, true)) l)) = l.
  Proof. induction l; simpl; auto. f_equal; auto. Qed.
  Lemma map_fst_true (l : list A) : map fst (map (fun x => (x, true)) l) = l.
  Proof. rewrite map_map. apply map_id. Qed.

  (** What a construction over [its] delivers. *)
  Definition built (its : list A) (r : res tr) : Prop :=
    exists t, r = Ok t /\ dinv t /\ Permutation (iter t) its /\ Permutation (map fst (entries t)) its /\
      forall B, (forall x, In x its -> inB B x) -> bsub (dbox t) B.

  Lemma mkLeaf_built its : its <> [] -> (forall x, In x its -> finIt x) ->
    built its (mkLeaf N dim A pt its).
  Proof.
    intros Hne HF. destruct (bboxOf_spec Hne HF) as (b & E & Hb & Hin & Hl).
    unfold mkLeaf. rewrite E. cbn [bind]. eexists. split; [reflexivity|].
    cbn [dinv iter entries dbox]. rewrite filter_true_map, map_fst_true.
    split; [|split; [|split]]; auto. split; auto. split; auto.
    intros e He. apply in_map_iff in He as (x & <- & Hx). split; auto.
  Qed.

  Lemma part_perm f l : Permutation (fst (part f l) ++ snd (part f l)) l.
  Proof.
    destruct (Hpart f l) as [H1 H2]. rewrite H1, H2. apply filter_perm_split.
  Qed.

  (** ** Split *)
  Lemma chooseSplit_spec k b its : k < dim -> 2 <= length its -> (forall x, In x its -> finIt x) ->
    exists k' split l r, chooseSplit N dim A pt part med k b its = Ok (k', split, l, r) /\
      k' < dim /\ Permutation (l ++ r) its /\ 1 <= length l /\ 1 <= length r /\
      ((forall x, In x l -> nlt N (coord (pt x) k') split = true) /\
       (forall x, In x r -> nlt N (coord (pt x) k') split = false) \/
       (exists h t, r = h :: t /\ split = coord (pt h) k' /\
         (forall x, In x l -> nlt N split (coord (pt x) k') = false) /\
         (forall x, In x r -> nlt N (coord (pt x) k') split = false))).
  Proof.
    intros Hk Hn HF. unfold chooseSplit. set (split := ndiv N _ _).
    destruct (Hpart (goesLeft N A pt k split) its) as [P1 P2].
    pose proof (part_perm (goesLeft N A pt k split) its) as PP.
    destruct (part (goesLeft N A pt k split) its) as [l r]. cbn [fst snd] in *.
    pose proof (Permutation_length PP) as PL. rewrite app_length in PL.
    destruct (Nat.eqb_spec (length l) 0) as [E0|E0]; [|destruct (Nat.eqb_spec (length l) (length its)) as [E1|E1]];
      cbn [orb].
    3:{ exists k, split, l, r. split; auto. split; auto. split; auto. split; [lia|]. split; [lia|].
        left. split; intros x Hx.
        - eapply Permutation_in in Hx; [|exact P1]. apply filter_In in Hx as [_ Hx]. exact Hx.
        - eapply Permutation_in in Hx; [|exact P2]. apply filter_In in Hx as [_ Hx].
          apply negb_true_iff in Hx. exact Hx. }
    all: set (k' := (k + 1) mod dim);
      assert (Hk' : k' < dim) by (apply Nat.mod_upper_bound; lia);
      assert (HL : 2 <= length (l ++ r)) by (rewrite app_length; lia);
      assert (HFk : forall x, In x (l ++ r) -> fin (coord (pt x) k')) by
        (intros x Hx; apply HF; auto; eapply Permutation_in; [exact PP|exact Hx]);
      destruct (@Hmed k' (l ++ r) HL HFk) as (M1 & M2 & M3);
      destruct (med k' (l ++ r)) as [l' r']; cbn [fst snd] in *;
      pose proof (Permutation_length M1) as ML; rewrite !app_length in ML;
      rewrite app_length in M2, HL;
      assert (0 < (length l + length r) / 2 < length l + length r) by
        (split; [apply Nat.div_str_pos; lia|apply Nat.div_lt; lia]);
      (destruct r' as [|h t]; [simpl in ML; lia|]);
      destruct (M3 h t eq_refl) as [M4 M5];
      exists k', (coord (pt h) k'), l', (h :: t); split; auto; split; auto;
      (split; [rewrite M1; auto|]); (split; [lia|]); (split; [simpl; lia|]); right; exists h, t; auto.
  Qed.

  Lemma mkNode_built : forall fuel k its, k < dim -> 2 <= length its -> length its < fuel ->
    (forall x, In x its -> finIt x) -> built its (mkNode N dim A pt thr part med fuel k its).
  Proof.
    induction fuel as [|f IH]; intros k its Hk Hn Hf HF; [lia|]. cbn [mkNode].
    destruct (Nat.ltb_spec (length its) 2); [lia|].
    assert (Hne : its <> []) by (destruct its; simpl in *; [lia|congruence]).
    destruct (bboxOf_spec Hne HF) as (b & -> & Hb & Hin & Hl). cbn [bind].
    destruct (@chooseSplit_spec k b its Hk Hn HF) as (k' & split & l & r & -> & Hk' & HP & L1 & L2 & _). cbn [bind].
    pose proof (Permutation_length HP) as PL. rewrite app_length in PL.
    assert (Fl : forall x, In x l -> In x its).
    { intros x Hx. eapply Permutation_in; [exact HP|apply in_or_app; auto]. }
    assert (Fr : forall x, In x r -> In x its).
    { intros x Hx. eapply Permutation_in; [exact HP|apply in_or_app; auto]. }
    assert (C : forall c, (forall x, In x c -> In x its) -> 1 <= length c < length its ->
      built c (if length c <? thr then mkLeaf N dim A pt c
               else mkNode N dim A pt thr part med f ((k' + 1) mod dim) c)).
    { intros c Fc Lc. destruct (Nat.ltb_spec (length c) thr).
      - apply mkLeaf_built; auto. destruct c; simpl in *; [lia|congruence].
      - apply IH; auto; [apply Nat.mod_upper_bound; lia|lia|lia]. }
    destruct (C l Fl ltac:(lia)) as (tl & -> & Il & Pl & El & Sl). cbn [bind].
    destruct (C r Fr ltac:(lia)) as (tr & -> & Ir & Pr & Er & Sr). cbn [bind].
    eexists. split; [reflexivity|]. cbn [dinv iter entries dbox].
    rewrite map_app, Pl, Pr, El, Er.
    split; [|split; [|split]]; auto. split; [|repeat split; auto].
    - rewrite (dinv_size _ Il), (dinv_size _ Ir), (Permutation_length Pl), (Permutation_length Pr). lia.
    - apply Hb; auto.
    - apply Hb; auto.
    - apply Hb; auto.
    - apply Sl; auto.
    - apply Sl; auto.
    - apply Sr; auto.
    - apply Sr; auto.
  Qed.

  Lemma build_built its : 2 <= length its -> (forall x, In x its -> finIt x) ->
    built its (build N dim A pt thr part med its).
  Proof. intros. apply mkNode_built; auto; lia. Qed.

  (** ** Insertion *)
  Lemma leafInsert_spec xs data n b : dinv (DLeaf data n b) -> (forall x, In x xs -> finIt x) ->
    exists t', leafInsert N dim A pt thr part med xs data n b = Ok t' /\ dinv t' /\
      Permutation (iter t') (xs ++ map fst (filter snd data)) /\
      (forall e, In e (entries t') -> In (fst e) xs \/ In e data) /\
      (forall B, binv B -> bsub b B -> (forall x, In x xs -> inB B x) -> bsub (dbox t') B).
  Proof.
    intros (Hn & Hb & Hd) HF. unfold leafInsert.
    set (live := map fst (filter snd data)) in *.
    assert (HL : forall x, In x live -> finIt x /\ inB b x).
    { intros x Hx. apply in_map_iff in Hx as (e & <- & He). apply filter_In in He as [He _]. auto. }
    destruct (Z.leb_spec (Z.of_nat thr) (Z.of_nat (length xs) + n)) as [Hbig|Hsmall].
    - destruct (Z.eqb_spec n (Z.of_nat (length live))) as [_|]; [|congruence].
      assert (L : 2 <= length (xs ++ live)) by (rewrite app_length; lia).
      destruct (@mkNode_built (S (length (xs ++ live))) 0 (xs ++ live)) as (t & E & I & P & Pe & S); auto; try lia.
      { intros x Hx. apply in_app_or in Hx as [Hx|Hx]; auto. apply HL; auto. }
      exists t. split; auto. split; auto. split; auto. split.
      + intros e He.
        assert (He' : In (fst e) (xs ++ live)) by (eapply Permutation_in; [exact Pe|apply in_map; auto]).
        apply in_app_or in He' as [He'|He']; auto. right.
        (* the flag of a fresh entry is true *)
        assert (snd e = true).
        { eapply all_true; eauto. }
        apply in_map_iff in He' as ([y f] & Ey & Hy). apply filter_In in Hy as [Hy1 Hy2]. simpl in *.
        destruct e as [z g]; simpl in *; subst. auto.
      + intros B HB Hs Hx. apply S. intros x Hi. apply in_app_or in Hi as [Hi|Hi]; auto.
        destruct (HL x Hi). eapply inB_sub; [exact Hb|exact HB| | |exact Hs]; auto.
    - destruct (@bfold_spec xs b Hb HF) as (B1 & B2 & B3).
      eexists. split; [reflexivity|]. cbn [dinv iter entries dbox].
      rewrite filter_app, map_app, filter_true_map. fold live.
      split; [|split; [|split]].
      + split; [rewrite app_length; lia|]. split; auto. intros e He.
        apply in_app_or in He as [He|He].
        * destruct (Hd e He) as [F I]. split; auto. eapply inB_sub; [exact Hb|exact B1| | |exact B2]; auto.
        * apply in_map_iff in He as (x & <- & Hx). split; auto.
      + apply Permutation_app_comm.
      + intros e He. apply in_app_or in He as [He|He]; auto.
        apply in_map_iff in He as (x & <- & Hx). auto.
      + intros B HB Hs Hx. apply bfold_least; auto.
  Qed.

  Lemma insert_spec t : forall xs, dinv t -> (forall x, In x xs -> finIt x) ->
    exists t', insert N dim A pt thr part med xs t = Ok t' /\ dinv t' /\
      Permutation (iter t') (xs ++ iter t) /\
      (forall e, In e (entries t') -> In (fst e) xs \/ In e (entries t)) /\
      (forall B, binv B -> bsub (dbox t) B -> (forall x, In x xs -> inB B x) -> bsub (dbox t') B).
  Proof.
    induction t as [data n b|n k s b l IHl r IHr]; intros xs HI HF; cbn [insert].
    - apply leafInsert_spec; auto.
    - destruct HI as (Hn & Hb & S1 & S2 & Hk & Il & Ir).
      pose proof (part_perm (goesLeft N A pt k s) xs) as PP.
      destruct (part (goesLeft N A pt k s) xs) as [xl xr]. cbn [fst snd] in PP.
      assert (Fl : forall x, In x xl -> In x xs).
      { intros x Hx. eapply Permutation_in; [exact PP|apply in_or_app; auto]. }
      assert (Fr : forall x, In x xr -> In x xs).
      { intros x Hx. eapply Permutation_in; [exact PP|apply in_or_app; auto]. }
      destruct (IHl xl Il) as (l' & -> & Il' & Pl & El & Sl); auto. cbn [bind].
      destruct (IHr xr Ir) as (r' & -> & Ir' & Pr & Er & Sr); auto. cbn [bind].
      destruct (@bfold_spec xs b Hb HF) as (B1 & B2 & B3).
      set (B := fold_left (bupdate N dim A pt) xs b) in *.
      eexists. split; [reflexivity|]. cbn [dinv iter entries dbox]. fold B.
      assert (PP2 : Permutation (iter l' ++ iter r') (xs ++ iter l ++ iter r)).
      { rewrite Pl, Pr, <- PP, <- !app_assoc. apply Permutation_app_head.
        rewrite !app_assoc. apply Permutation_app_tail. apply Permutation_app_comm. }
      split; [|split; [|split]]; auto.
      + split.
        { rewrite Hn, (dinv_size _ Il), (dinv_size _ Ir), (dinv_size _ Il'), (dinv_size _ Ir').
          apply Permutation_length in PP2. rewrite !app_length in PP2. lia. }
        split; auto. split; [|split; [|split]]; auto.
        * apply Sl; auto. eapply bsub_trans; [| |exact B1|exact S1|exact B2]; auto. apply dinv_binv; auto.
        * apply Sr; auto. eapply bsub_trans; [| |exact B1|exact S2|exact B2]; auto. apply dinv_binv; auto.
      + intros e He. rewrite in_app_iff. apply in_app_or in He as [He|He].
        * apply El in He as [He|He]; auto.
        * apply Er in He as [He|He]; auto.
      + intros B' HB Hs Hx. apply bfold_least; auto.
  Qed.

  (** ** Boxes alone, whatever the counters say *)
  Fixpoint boxed (t : tr) : Prop :=
    match t with
    | DLeaf data _ b => binv b /\ forall e, In e data -> finIt (fst e) /\ inB b (fst e)
    | DNode _ k _ b l r => binv b /\ bsub (dbox l) b /\ bsub (dbox r) b /\ k < dim /\ boxed l /\ boxed r
    end.
  Fixpoint counts (t : tr) : Prop :=
    match t with
    | DLeaf data n _ => n = Z.of_nat (length (map fst (filter snd data)))
    | DNode n _ _ _ l r => n = (dsize l + dsize r)%Z /\ counts l /\ counts r
    end.
  Lemma dinv_iff t : dinv t <-> boxed t /\ counts t.
  Proof. induction t; cbn [dinv boxed counts]; tauto. Qed.
  Lemma boxed_binv t : boxed t -> binv (dbox t).
  Proof. destruct t; simpl; tauto. Qed.

  Lemma boxed_entries t : boxed t -> forall e, In e (entries t) -> finIt (fst e) /\ inB (dbox t) (fst e).
  Proof.
    induction t as [data n b|n k s b l IHl r IHr]; cbn [boxed entries dbox].
    - tauto.
    - intros (Hb & S1 & S2 & _ & Il & Ir) e He.
      assert (E : (finIt (fst e) /\ inB (dbox l) (fst e)) \/ (finIt (fst e) /\ inB (dbox r) (fst e))).
      { apply in_app_or in He as [He|He]; auto. }
      destruct E as [[F I]|[F I]]; split; auto.
      + eapply inB_sub; [apply boxed_binv; exact Il|exact Hb|exact F|exact I|exact S1].
      + eapply inB_sub; [apply boxed_binv; exact Ir|exact Hb|exact F|exact I|exact S2].
  Qed.
  Lemma boxed_iter t x : boxed t -> In x (iter t) -> finIt x /\ inB (dbox t) x.
  Proof. intros H Hx. apply iter_In in Hx. apply (@boxed_entries t H _ Hx). Qed.

  (** Whenever an insertion returns, nothing is lost and nothing appears. *)
  Lemma insert_boxed t : forall xs t', boxed t -> (forall x, In x xs -> finIt x) ->
    insert N dim A pt thr part med xs t = Ok t' -> boxed t' /\
      Permutation (iter t') (xs ++ iter t) /\
      (forall B, binv B -> bsub (dbox t) B -> (forall x, In x xs -> inB B x) -> bsub (dbox t') B).
  Proof.
    induction t as [data n b|n k s b l IHl r IHr]; intros xs t' HI HF; cbn [insert].
    - unfold leafInsert. set (live := map fst (filter snd data)) in *. destruct HI as [Hb Hd].
      assert (HL : forall x, In x live -> finIt x /\ inB b x).
      { intros x Hx. apply in_map_iff in Hx as (e & <- & He). apply filter_In in He as [He _]. auto. }
      destruct (Z.leb_spec (Z.of_nat thr) (Z.of_nat (length xs) + n)) as [Hbig|Hsmall].
      + destruct (Z.eqb_spec n (Z.of_nat (length live))) as [En|]; [|discriminate]. intros E.
        assert (L : 2 <= length (xs ++ live)) by (rewrite app_length; lia).
        destruct (@mkNode_built (S (length (xs ++ live))) 0 (xs ++ live)) as (t & E' & I & P & Pe & S); auto; try lia.
        { intros x Hx. apply in_app_or in Hx as [Hx|Hx]; auto. apply HL; auto. }
        rewrite E in E'. inversion E'; subst t'. apply dinv_iff in I as [I _].
        split; auto. split; auto.
        intros B HB Hs Hx. apply S. intros x Hi. apply in_app_or in Hi as [Hi|Hi]; auto.
        destruct (HL x Hi). eapply inB_sub; [exact Hb|exact HB| | |exact Hs]; auto.
      + intros E. inversion E; subst t'; clear E.
        destruct (@bfold_spec xs b Hb HF) as (B1 & B2 & B3). cbn [boxed iter dbox].
        rewrite filter_app, map_app, filter_true_map. fold live.
        split; [|split].
        * split; auto. intros e He. apply in_app_or in He as [He|He].
          -- destruct (Hd e He) as [F I]. split; auto. eapply inB_sub; [exact Hb|exact B1| | |exact B2]; auto.
          -- apply in_map_iff in He as (x & <- & Hx). split; auto.
        * apply Permutation_app_comm.
        * intros B HB Hs Hx. apply bfold_least; auto.
    - destruct HI as (Hb & S1 & S2 & Hk & Il & Ir).
      pose proof (part_perm (goesLeft N A pt k s) xs) as PP.
      destruct (part (goesLeft N A pt k s) xs) as [xl xr]. cbn [fst snd] in PP.
      assert (Fl : forall x, In x xl -> In x xs).
      { intros x Hx. eapply Permutation_in; [exact PP|apply in_or_app; auto]. }
      assert (Fr : forall x, In x xr -> In x xs).
      { intros x Hx. eapply Permutation_in; [exact PP|apply in_or_app; auto]. }
      destruct (insert N dim A pt thr part med xl l) as [l'| | |] eqn:El; try discriminate. cbn [bind].
      destruct (insert N dim A pt thr part med xr r) as [r'| | |] eqn:Er; try discriminate. cbn [bind].
      intros E. inversion E; subst t'; clear E.
      destruct (IHl xl l' Il) as (Il' & Pl & Sl); auto.
      destruct (IHr xr r' Ir) as (Ir' & Pr & Sr); auto.
      destruct (@bfold_spec xs b Hb HF) as (B1 & B2 & B3).
      set (B := fold_left (bupdate N dim A pt) xs b) in *. cbn [boxed iter dbox].
      split; [|split].
      + split; auto. split; [|split; [|split]]; auto.
        * apply Sl; auto. eapply bsub_trans; [| |exact B1|exact S1|exact B2]; auto. apply boxed_binv; auto.
        * apply Sr; auto. eapply bsub_trans; [| |exact B1|exact S2|exact B2]; auto. apply boxed_binv; auto.
      + rewrite Pl, Pr, <- PP, <- !app_assoc. apply Permutation_app_head.
        rewrite !app_assoc. apply Permutation_app_tail. apply Permutation_app_comm.
      + intros B' HB Hs Hx. apply bfold_least; auto.
  Qed.

  (** ** Erasure *)
  Notation same := (sameCoords N dim A pt).
  Definition hit (xs : list A) (x : A) : bool := existsb (fun y => same x y) xs.

  Lemma hit_perm xs ys x : Permutation xs ys -> hit xs x = hit ys x.
  Proof.
    intros HP. unfold hit. destruct (existsb (fun y => same x y) xs) eqn:E; symmetry.
    - apply existsb_exists in E as (y & Hy & E). apply existsb_exists. exists y. split; auto.
      eapply Permutation_in; eauto.
    - destruct (existsb (fun y => same x y) ys) eqn:E2; auto.
      apply existsb_exists in E2 as (y & Hy & E2). rewrite <- E. symmetry. apply existsb_exists.
      exists y. split; auto. eapply Permutation_in; [symmetry|]; eauto.
  Qed.

  (** The tree after an erasure: same entries, flags can only be cleared, and
      only for items equal to a requested one. *)
  Definition cleared (xs : list A) (e e' : A * bool) : Prop :=
    fst e' = fst e /\ (snd e' = snd e \/ (snd e' = false /\ hit xs (fst e) = true)).

  Lemma cleared_refl xs (l : list (A * bool)) : Forall2 (cleared xs) l l.
  Proof. induction l; constructor; auto. split; auto. Qed.
  Lemma cleared_incl xs ys (l l' : list (A * bool)) : (forall x, In x xs -> In x ys) ->
    Forall2 (cleared xs) l l' -> Forall2 (cleared ys) l l'.
  Proof.
    intros H F. induction F as [|e e' l l' [H1 H2] F IH]; constructor; auto. split; auto.
    destruct H2 as [H2|[H2 H3]]; auto. right. split; auto. apply existsb_exists in H3 as (y & Hy & E).
    apply existsb_exists. exists y. auto.
  Qed.

  Lemma erase_cleared t : forall xs, Forall2 (cleared xs) (entries t) (entries (fst (erase N dim A pt part xs t))).
  Proof.
    induction t as [data n b|n k s b l IHl r IHr]; intros xs; cbn [erase].
    - destruct (Nat.eqb_spec (length xs) 0); [apply cleared_refl|]. cbn [fst entries].
      clear. induction data as [|[x f] data IH]; simpl; constructor; auto. split; auto. simpl.
      fold (hit xs x). destruct (hit xs x) eqn:E; [|left; destruct f; auto].
      right. split; auto. rewrite andb_false_r. auto.
    - destruct (Nat.eqb_spec (length xs) 0); [apply cleared_refl|].
      pose proof (part_perm (goesLeft N A pt k s) xs) as PP.
      destruct (part (goesLeft N A pt k s) xs) as [xl xr]. cbn [fst snd] in PP.
      specialize (IHl xl). specialize (IHr xr).
      destruct (erase N dim A pt part xl l) as [l' el], (erase N dim A pt part xr r) as [r' er]. cbn [fst entries] in *.
      apply Forall2_app; (eapply cleared_incl; [|eassumption]); intros x Hx; (eapply Permutation_in; [exact PP|]);
        apply in_or_app; auto.
  Qed.

  (** Splits are strict on the left: what routing by [< split] needs. *)
  Fixpoint strict (t : tr) : Prop :=
    match t with
    | DLeaf _ _ _ => True
    | DNode _ k s _ l r =>
      (forall e, In e (entries l) -> nlt N (coord (pt (fst e)) k) s = true) /\
      (forall e, In e (entries r) -> nlt N (coord (pt (fst e)) k) s = false) /\
      ok s /\ k < dim /\ strict l /\ strict r
    end.

  Lemma same_side x y k s : ok s -> finIt x -> finIt y -> k < dim -> same x y = true ->
    goesLeft N A pt k s x = goesLeft N A pt k s y.
  Proof.
    intros Fs Fx Fy Hk H. unfold sameCoords in H. rewrite forallb_forall in H.
    specialize (H k ltac:(apply in_seq0; auto)). apply andb_true_iff in H as [H1 H2].
    specialize (Fx k Hk). specialize (Fy k Hk).
    unfold goesLeft. destruct (nlt N (coord (pt x) k) s) eqn:E1, (nlt N (coord (pt y) k) s) eqn:E2; auto.
    - rewrite (nle_lt_trans OL) with (y := coord (pt x) k) in E2; auto.
    - rewrite (nle_lt_trans OL) with (y := coord (pt y) k) in E1; auto.
  Qed.

  Definition finEnt (t : tr) : Prop := forall e, In e (entries t) -> finIt (fst e).

  Definition mark (xs : list A) (e : A * bool) : A * bool := (fst e, snd e && negb (hit xs (fst e))).

  Lemma mark_nil e : mark [] e = e.
  Proof. destruct e as [x f]. unfold mark. simpl. rewrite andb_true_r. auto. Qed.

  Lemma erase_exact t : forall xs, strict t -> finEnt t -> (forall x, In x xs -> finIt x) ->
    entries (fst (erase N dim A pt part xs t)) = map (mark xs) (entries t).
  Proof.
    induction t as [data n b|n k s b l IHl r IHr]; intros xs HS HE HF; cbn [erase].
    - destruct (Nat.eqb_spec (length xs) 0) as [E|E]; [|reflexivity].
      destruct xs; [|discriminate]. cbn [fst]. rewrite <- map_id at 1. apply map_ext. intros e. symmetry. apply mark_nil.
    - destruct (Nat.eqb_spec (length xs) 0) as [E|E].
      { destruct xs; [|discriminate]. cbn [fst]. rewrite <- map_id at 1. apply map_ext. intros e. symmetry. apply mark_nil. }
      destruct HS as (S1 & S2 & Fs & Hk & Sl & Sr).
      pose proof (part_perm (goesLeft N A pt k s) xs) as PP.
      destruct (Hpart (goesLeft N A pt k s) xs) as [P1 P2].
      destruct (part (goesLeft N A pt k s) xs) as [xl xr]. cbn [fst snd] in PP, P1, P2.
      assert (Fl : forall x, In x xl -> In x xs /\ goesLeft N A pt k s x = true).
      { intros x Hx. eapply Permutation_in in Hx; [|exact P1]. apply filter_In in Hx. auto. }
      assert (Fr : forall x, In x xr -> In x xs /\ goesLeft N A pt k s x = false).
      { intros x Hx. eapply Permutation_in in Hx; [|exact P2]. apply filter_In in Hx as [Hx E2].
        apply negb_true_iff in E2. auto. }
      assert (El : finEnt l) by (intros e He; apply HE; cbn [entries]; apply in_or_app; auto).
      assert (Er : finEnt r) by (intros e He; apply HE; cbn [entries]; apply in_or_app; auto).
      specialize (IHl xl Sl El (fun x Hx => HF x (proj1 (Fl x Hx)))).
      specialize (IHr xr Sr Er (fun x Hx => HF x (proj1 (Fr x Hx)))).
      destruct (erase N dim A pt part xl l) as [l' el], (erase N dim A pt part xr r) as [r' er]. cbn [fst entries] in *.
      rewrite map_app, IHl, IHr. f_equal; apply map_ext_in; intros e He; unfold mark; f_equal; f_equal; f_equal.
      + rewrite (hit_perm _ (Permutation_sym PP)). unfold hit. rewrite existsb_app.
        destruct (existsb (fun y => same (fst e) y) xr) eqn:E3; [|rewrite orb_false_r; auto].
        apply existsb_exists in E3 as (y & Hy & E3). destruct (Fr y Hy) as [Hy1 Hy2].
        rewrite <- (same_side Fs (El e He) (HF y Hy1) Hk E3) in Hy2. unfold goesLeft in Hy2.
        rewrite (S1 e He) in Hy2. discriminate.
      + rewrite (hit_perm _ (Permutation_sym PP)). unfold hit. rewrite existsb_app.
        destruct (existsb (fun y => same (fst e) y) xl) eqn:E3; [|auto].
        apply existsb_exists in E3 as (y & Hy & E3). destruct (Fl y Hy) as [Hy1 Hy2].
        rewrite <- (same_side Fs (Er e He) (HF y Hy1) Hk E3) in Hy2. unfold goesLeft in Hy2.
        rewrite (S2 e He) in Hy2. discriminate.
  Qed.

  Lemma erase_box xs t : dbox (fst (erase N dim A pt part xs t)) = dbox t.
  Proof.
    destruct t; cbn [erase]; destruct (Nat.eqb_spec (length xs) 0); auto.
    destruct (part _ xs) as [xl xr]. destruct (erase N dim A pt part xl t1), (erase N dim A pt part xr t2). auto.
  Qed.

  Lemma cleared_In xs (l l' : list (A * bool)) : Forall2 (cleared xs) l l' ->
    forall e', In e' l' -> exists e, In e l /\ fst e = fst e'.
  Proof.
    induction 1 as [|e e' l l' [H1 _] F IH]; [intros ? []|]. intros x [<-|Hx].
    - exists e. simpl. auto.
    - destruct (IH x Hx) as (y & Hy & E). exists y. simpl. auto.
  Qed.

  Lemma erase_boxed t : forall xs, boxed t -> boxed (fst (erase N dim A pt part xs t)).
  Proof.
    induction t as [data n b|n k s b l IHl r IHr]; intros xs HB; cbn [erase];
      destruct (Nat.eqb_spec (length xs) 0); auto.
    - cbn [fst boxed] in *. destruct HB as [Hb Hd]. split; auto. intros e He.
      apply in_map_iff in He as ([x f] & <- & Hx). apply (Hd _ Hx).
    - destruct HB as (Hb & S1 & S2 & Hk & Il & Ir).
      destruct (part (goesLeft N A pt k s) xs) as [xl xr].
      pose proof (erase_box xl l) as Bl. pose proof (erase_box xr r) as Br.
      specialize (IHl xl Il). specialize (IHr xr Ir).
      destruct (erase N dim A pt part xl l) as [l' el], (erase N dim A pt part xr r) as [r' er].
      cbn [fst boxed] in *. rewrite Bl, Br. auto 10.
  Qed.

  Lemma erase_strict t : forall xs, strict t -> strict (fst (erase N dim A pt part xs t)).
  Proof.
    induction t as [data n b|n k s b l IHl r IHr]; intros xs HS; cbn [erase];
      destruct (Nat.eqb_spec (length xs) 0); auto.
    destruct HS as (S1 & S2 & Os & Hk & Sl & Sr).
    destruct (part (goesLeft N A pt k s) xs) as [xl xr].
    pose proof (erase_cleared l xl) as Cl. pose proof (erase_cleared r xr) as Cr.
    specialize (IHl xl Sl). specialize (IHr xr Sr).
    destruct (erase N dim A pt part xl l) as [l' el], (erase N dim A pt part xr r) as [r' er].
    cbn [fst strict] in *. split; [|split; auto].
    - intros e He. destruct (cleared_In Cl _ He) as (e0 & He0 & E). rewrite <- E. auto.
    - intros e He. destruct (cleared_In Cr _ He) as (e0 & He0 & E). rewrite <- E. auto.
  Qed.

  (** Every item that disappears equals a requested one. *)
  Lemma cleared_iter xs (l l' : list (A * bool)) : Forall2 (cleared xs) l l' ->
    exists gone, Permutation (map fst (filter snd l)) (map fst (filter snd l') ++ gone) /\
      forall x, In x gone -> hit xs x = true.
  Proof.
    induction 1 as [|[x f] [x' f'] l l' [H1 H2] F (gone & P & G)]; [exists []; split; auto; intros ? []|].
    simpl in H1, H2. subst x'. cbn [filter snd].
    destruct H2 as [->|[-> Hh]].
    - exists gone. split; auto. destruct f; auto. cbn [map fst app]. rewrite P. auto.
    - destruct f; [|exists gone; auto]. exists (x :: gone). split.
      + cbn [map fst]. rewrite P. apply Permutation_middle.
      + intros y [<-|Hy]; auto.
  Qed.
  Lemma erase_sound t xs : exists gone,
    Permutation (iter t) (iter (fst (erase N dim A pt part xs t)) ++ gone) /\
    forall x, In x gone -> hit xs x = true.
  Proof. rewrite !iter_entries. apply cleared_iter, erase_cleared. Qed.

  (** ** Counters *)
  Definition countSame (xs : list A) (x : A) : nat := length (filter (fun y => same x y) xs).

  Lemma list_sum_cons a l : list_sum (a :: l) = a + list_sum l.
  Proof. reflexivity. Qed.
  Lemma double_count (data : list (A * bool)) xs :
    list_sum (map (fun x => length (filter (fun e => same (fst e) x) data)) xs) =
    list_sum (map (fun e => countSame xs (fst e)) data).
  Proof.
    induction data as [|e data IH].
    - simpl. induction xs; simpl; auto.
    - cbn [map]. rewrite !list_sum_cons. rewrite <- IH. unfold countSame.
      clear IH. induction xs as [|x xs IHx]; auto.
      cbn [map filter] in *. rewrite !list_sum_cons in *.
      destruct (same (fst e) x); cbn [length]; lia.
  Qed.

  Lemma same_sym x y : same x y = same y x.
  Proof.
    unfold sameCoords. induction (seq 0 dim) as [|i l IH]; simpl; auto. rewrite IH. f_equal. apply andb_comm.
  Qed.
  Lemma same_refl x : finIt x -> same x x = true.
  Proof.
    intros F. apply forallb_forall. intros i Hi. apply in_seq0 in Hi.
    rewrite (nle_refl FL); auto.
  Qed.
  Lemma same_trans x y z : finIt x -> finIt y -> finIt z -> same x y = true -> same y z = true -> same x z = true.
  Proof.
    unfold sameCoords. rewrite !forallb_forall. intros Fx Fy Fz H1 H2 i Hi. specialize (H1 i Hi). specialize (H2 i Hi).
    apply in_seq0 in Hi. apply andb_true_iff in H1 as [? ?], H2 as [? ?]. apply andb_true_iff. split.
    - apply (nle_trans FL) with (y := coord (pt y) i); auto.
    - apply (nle_trans FL) with (y := coord (pt y) i); auto.
  Qed.

  (** requests pairwise at different locations *)
  Definition differ (x y : A) : Prop := same x y = false.

  Lemma countSame_hit xs x : finIt x -> (forall y, In y xs -> finIt y) -> ForallOrdPairs differ xs ->
    countSame xs x = if hit xs x then 1 else 0.
  Proof.
    intros Fx. unfold countSame, hit. induction xs as [|y xs IH]; intros HF HD; simpl; auto.
    inversion HD as [|? ? H1 H2]; subst.
    destruct (same x y) eqn:E; cbn [orb length].
    - f_equal. assert (K : filter (fun y0 => same x y0) xs = []); [|rewrite K; auto].
      apply filter_none. intros z Hz. rewrite Forall_forall in H1. specialize (H1 z Hz). unfold differ in H1.
      destruct (same x z) eqn:E2; auto. rewrite <- H1. symmetry. apply same_trans with (y := x); auto.
      + apply HF; simpl; auto.
      + apply HF; simpl; auto.
      + rewrite same_sym; auto.
    - apply IH; auto. intros; apply HF; simpl; auto.
  Qed.

  Lemma leaf_counts data xs : (forall e, In e data -> finIt (fst e)) -> (forall y, In y xs -> finIt y) ->
    ForallOrdPairs differ xs -> (forall e, In e data -> snd e = false -> hit xs (fst e) = false) ->
    length (filter snd data) = length (filter snd (map (mark xs) data)) +
      list_sum (map (fun e => countSame xs (fst e)) data).
  Proof.
    intros Fd Fx HD. induction data as [|[x f] data IH]; intros Hdead; auto.
    cbn [map filter mark fst snd]. rewrite !list_sum_cons.
    assert (IH' := IH (fun e He => Fd e (or_intror He)) (fun e He => Hdead e (or_intror He))).
    rewrite (@countSame_hit xs x (Fd (x, f) (or_introl eq_refl)) Fx HD).
    specialize (Hdead (x, f) (or_introl eq_refl)). simpl in Hdead.
    destruct f; [|rewrite Hdead by auto; simpl; lia].
    destruct (hit xs x); simpl; lia.
  Qed.

  Lemma FOP_perm (R : A -> A -> Prop) l l' : (forall x y, R x y -> R y x) -> Permutation l l' ->
    ForallOrdPairs R l -> ForallOrdPairs R l'.
  Proof.
    intros HS P. induction P; intros F; auto.
    - inversion F; subst. constructor; auto. eapply Permutation_Forall; eauto.
    - inversion F as [|? ? H1 H2]; subst. inversion H2 as [|? ? H3 H4]; subst. inversion H1; subst.
      constructor; [constructor; auto|]. constructor; auto.
  Qed.
  Lemma FOP_app (R : A -> A -> Prop) l l' : ForallOrdPairs R (l ++ l') <->
    ForallOrdPairs R l /\ ForallOrdPairs R l' /\ forall x y, In x l -> In y l' -> R x y.
  Proof.
    induction l as [|a l IH]; simpl.
    - split; [intros; repeat split; auto; [constructor|intros ? ? []]|tauto].
    - split.
      + intros F. inversion F as [|? ? H1 H2]; subst. apply IH in H2 as (H2 & H3 & H4).
        apply Forall_app in H1 as [H1 H1']. split; [constructor; auto|]. split; auto.
        intros x y [<-|Hx] Hy; auto. rewrite Forall_forall in H1'; auto.
      + intros (H1 & H2 & H3). inversion H1; subst. constructor; [|apply IH; auto].
        apply Forall_app. split; auto. apply Forall_forall. intros; auto.
  Qed.
  Lemma differ_sym x y : differ x y -> differ y x.
  Proof. unfold differ. rewrite same_sym. auto. Qed.

  Lemma erase_counts t : forall xs, boxed t -> counts t -> (forall y, In y xs -> finIt y) ->
    ForallOrdPairs differ xs -> (forall e, In e (entries t) -> snd e = false -> hit xs (fst e) = false) ->
    counts (fst (erase N dim A pt part xs t)) /\
    dsize (fst (erase N dim A pt part xs t)) = (dsize t - snd (erase N dim A pt part xs t))%Z.
  Proof.
    induction t as [data n b|n k s b l IHl r IHr]; intros xs HB HC HF HD Hdead; cbn [erase];
      (destruct (Nat.eqb_spec (length xs) 0); [split; auto; cbn [fst snd]; lia|]).
    - cbn [leafErase fst snd counts dsize] in *. split; auto.
      unfold leafErase. cbn [fst snd]. rewrite double_count, HC, !map_length.
      rewrite (@leaf_counts data xs); auto; [|intros e He; apply (proj2 HB e He)].
      change (map (fun e : A * bool => (fst e, snd e && negb (existsb (fun x => same (fst e) x) xs))) data)
        with (map (mark xs) data). lia.
    - destruct HB as (Hb & S1 & S2 & Hk & Bl & Br). destruct HC as (Hn & Cl & Cr).
      pose proof (part_perm (goesLeft N A pt k s) xs) as PP.
      destruct (part (goesLeft N A pt k s) xs) as [xl xr]. cbn [fst snd] in PP.
      assert (HD' := FOP_perm differ_sym (Permutation_sym PP) HD). apply FOP_app in HD' as (Dl & Dr & _).
      assert (Fl : forall x, In x xl -> In x xs).
      { intros x Hx. eapply Permutation_in; [exact PP|apply in_or_app; auto]. }
      assert (Fr : forall x, In x xr -> In x xs).
      { intros x Hx. eapply Permutation_in; [exact PP|apply in_or_app; auto]. }
      assert (Sub : forall ys, (forall x, In x ys -> In x xs) -> forall z, hit xs z = false -> hit ys z = false).
      { intros ys Hs z Hz. destruct (hit ys z) eqn:E; auto. apply existsb_exists in E as (y & Hy & E).
        rewrite <- Hz. symmetry. apply existsb_exists. exists y. auto. }
      destruct (IHl xl Bl Cl) as [Cl' Sl]; auto.
      { intros e He Hf. apply Sub; auto. apply Hdead; auto. cbn [entries]. apply in_or_app; auto. }
      destruct (IHr xr Br Cr) as [Cr' Sr]; auto.
      { intros e He Hf. apply Sub; auto. apply Hdead; auto. cbn [entries]. apply in_or_app; auto. }
      destruct (erase N dim A pt part xl l) as [l' el], (erase N dim A pt part xr r) as [r' er].
      cbn [fst snd counts dsize] in *. split; auto. split; auto. lia.
  Qed.

  (** ** Strict splits *)
  Hypothesis Hmid : MidLaw N ok fin.
  Definition apart (x y : A) : Prop := forall d, d < dim ->
    nlt N (coord (pt x) d) (coord (pt y) d) = true \/ nlt N (coord (pt y) d) (coord (pt x) d) = true.
  Lemma apart_sym x y : apart x y -> apart y x.
  Proof. intros H d Hd. destruct (H d Hd); auto. Qed.
  Lemma apart_differ x y : finIt x -> finIt y -> apart x y -> differ x y.
  Proof.
    intros Fx Fy H. unfold differ, sameCoords. destruct (forallb _ _) eqn:E; auto. rewrite forallb_forall in E.
    specialize (E 0 ltac:(apply in_seq0; lia)). apply andb_true_iff in E as [E1 E2].
    specialize (Fx 0 Hdim). specialize (Fy 0 Hdim).
    rewrite (ol_le FL) in E1, E2 by auto. destruct (H 0 Hdim) as [L|L]; rewrite L in *; discriminate.
  Qed.

  Lemma fresh_strict : forall fuel k its, k < dim -> 2 <= length its -> length its < fuel ->
    (forall x, In x its -> finIt x) -> ForallOrdPairs apart its ->
    forall t, mkNode N dim A pt thr part med fuel k its = Ok t -> strict t.
  Proof.
    induction fuel as [|f IH]; intros k its Hk Hn Hf HF HA t; [lia|]. cbn [mkNode].
    destruct (Nat.ltb_spec (length its) 2); [lia|].
    assert (Hne : its <> []) by (destruct its; simpl in *; [lia|congruence]).
    destruct (bboxOf_spec Hne HF) as (b & Eb & Hb & Hin & Hl). rewrite Eb. cbn [bind].
    destruct (@chooseSplit_spec k b its Hk Hn HF) as (k' & split & l & r & EC & Hk' & HP & L1 & L2 & HS). rewrite EC. cbn [bind].
    pose proof (Permutation_length HP) as PL. rewrite app_length in PL.
    assert (Fl : forall x, In x l -> In x its).
    { intros x Hx. eapply Permutation_in; [exact HP|apply in_or_app; auto]. }
    assert (Fr : forall x, In x r -> In x its).
    { intros x Hx. eapply Permutation_in; [exact HP|apply in_or_app; auto]. }
    assert (HA' := FOP_perm apart_sym (Permutation_sym HP) HA). apply FOP_app in HA' as (Al & Ar & Alr).
    assert (C : forall c u, (forall x, In x c -> In x its) -> 1 <= length c < length its -> ForallOrdPairs apart c ->
      (if length c <? thr then mkLeaf N dim A pt c
               else mkNode N dim A pt thr part med f ((k' + 1) mod dim) c) = Ok u ->
      strict u /\ forall e, In e (entries u) -> In (fst e) c).
    { intros c u Fc Lc Ac. assert (Kd : (k' + 1) mod dim < dim) by (apply Nat.mod_upper_bound; lia).
      destruct (Nat.ltb_spec (length c) thr).
      - unfold mkLeaf. destruct (bboxOf N dim A pt c); try discriminate. cbn [bind]. intros E; inversion E; subst.
        split; simpl; auto. intros e He. apply in_map_iff in He as (x & <- & Hx). auto.
      - intros E. split; [eapply IH; [| | | | |exact E]; auto; lia|].
        destruct (@mkNode_built f ((k' + 1) mod dim) c) as (t1 & E1 & _ & _ & Pe & _); auto; try lia.
        rewrite E in E1. inversion E1; subst t1. intros e He. eapply Permutation_in; [exact Pe|apply in_map; auto]. }
    destruct (if length l <? thr then _ else _) as [tl| | |] eqn:El; try discriminate. cbn [bind].
    destruct (if length r <? thr then _ else _) as [tr| | |] eqn:Er; try discriminate. cbn [bind].
    intros E; inversion E; subst t; clear E.
    destruct (C l tl Fl ltac:(lia) Al El) as [Sl El']. destruct (C r tr Fr ltac:(lia) Ar Er) as [Sr Er'].
    cbn [strict].
    assert (Hs : ok split /\ (forall x, In x l -> nlt N (coord (pt x) k') split = true) /\
      forall x, In x r -> nlt N (coord (pt x) k') split = false).
    { destruct HS as [[S1 S2]|(h & t & -> & -> & S1 & S2)].
      - split; auto.
        assert (SE : split = ndiv N (nadd N (coord (bmax b) k) (coord (bmin b) k)) (ntwo N) \/
          exists h, In h r /\ split = coord (pt h) k').
        { unfold chooseSplit in EC. destruct (part _ its) as [pl pr].
          destruct ((length pl =? 0) || _).
          - destruct (med _ _) as [ml [|h mr]]; [discriminate|]. inversion EC; subst. right. exists h. simpl; auto.
          - inversion EC; subst. auto. }
        destruct SE as [->|(h & Hh & ->)]; [apply Hmid; apply Hb; auto|apply fin_ok, HF; auto].
      - split; [apply fin_ok, HF; auto; apply Fr; simpl; auto|]. split; auto.
        intros x Hx. specialize (S1 x Hx). destruct (Alr x h Hx (or_introl eq_refl) k' Hk') as [L|L]; auto.
        rewrite L in S1. discriminate. }
    destruct Hs as (H1 & H2 & H3). auto 10.
  Qed.

  Lemma insert_strict t : forall xs t', boxed t -> strict t -> (forall x, In x xs -> finIt x) ->
    ForallOrdPairs apart (xs ++ map fst (entries t)) ->
    insert N dim A pt thr part med xs t = Ok t' ->
    strict t' /\ (forall e, In e (entries t') -> In (fst e) xs \/ In e (entries t)).
  Proof.
    induction t as [data n b|n k s b l IHl r IHr]; intros xs t' HB HS HF HA; cbn [insert].
    - unfold leafInsert. set (live := map fst (filter snd data)) in *.
      destruct (Z.leb_spec (Z.of_nat thr) (Z.of_nat (length xs) + n)) as [Hbig|Hsmall].
      + destruct (Z.eqb_spec n (Z.of_nat (length live))) as [En|]; [|discriminate]. intros E.
        assert (L : 2 <= length (xs ++ live)) by (rewrite app_length; lia).
        assert (FX : forall x, In x (xs ++ live) -> finIt x).
        { intros x Hx. apply in_app_or in Hx as [Hx|Hx]; auto.
          apply in_map_iff in Hx as (e & <- & He). apply filter_In in He as [He _]. apply (proj2 HB e He). }
        assert (AX : ForallOrdPairs apart (xs ++ live)).
        { cbn [entries] in HA. apply FOP_app in HA as (H1 & H2 & H3). apply FOP_app. split; auto. split.
          - clear - H2. unfold live. induction data as [|[x f] data IH]; simpl; [constructor|].
            inversion H2 as [|? ? G1 G2]; subst. destruct f; auto. simpl. constructor; auto.
            apply Forall_forall. intros y Hy. rewrite Forall_forall in G1. apply G1.
            apply in_map_iff in Hy as (e & <- & He). apply filter_In in He as [He _]. apply in_map; auto.
          - intros x y Hx Hy. apply H3; auto. apply in_map_iff in Hy as (e & <- & He).
            apply filter_In in He as [He _]. apply in_map; auto. }
        split; [eapply fresh_strict; [| | | | |exact E]; auto; lia|].
        destruct (@mkNode_built (S (length (xs ++ live))) 0 (xs ++ live)) as (t1 & E1 & _ & P & Pe & _); auto; try lia.
        rewrite E in E1. inversion E1; subst t1. intros e He.
        assert (He' : In (fst e) (xs ++ live)) by (eapply Permutation_in; [exact Pe|apply in_map; auto]).
        apply in_app_or in He' as [He'|He']; auto. right.
        assert (snd e = true) by (eapply all_true; eauto).
        apply in_map_iff in He' as ([y f] & Ey & Hy). apply filter_In in Hy as [Hy1 Hy2]. simpl in *.
        destruct e as [z g]; simpl in *; subst. auto.
      + intros E. inversion E; subst. cbn [entries strict]. split; auto. intros e He.
        apply in_app_or in He as [He|He]; auto. apply in_map_iff in He as (x & <- & Hx). auto.
    - destruct HB as (Hb & B1 & B2 & Hk & Bl & Br). destruct HS as (S1 & S2 & Os & _ & Sl & Sr).
      destruct (Hpart (goesLeft N A pt k s) xs) as [P1 P2].
      pose proof (part_perm (goesLeft N A pt k s) xs) as PP.
      destruct (part (goesLeft N A pt k s) xs) as [xl xr]. cbn [fst snd] in PP, P1, P2.
      assert (Fl : forall x, In x xl -> In x xs /\ goesLeft N A pt k s x = true).
      { intros x Hx. eapply Permutation_in in Hx; [|exact P1]. apply filter_In in Hx. auto. }
      assert (Fr : forall x, In x xr -> In x xs /\ goesLeft N A pt k s x = false).
      { intros x Hx. eapply Permutation_in in Hx; [|exact P2]. apply filter_In in Hx as [Hx E2].
        apply negb_true_iff in E2. auto. }
      assert (HA2 : ForallOrdPairs apart ((xl ++ map fst (entries l)) ++ (xr ++ map fst (entries r)))).
      { eapply FOP_perm; [exact apart_sym| |exact HA]. cbn [entries]. rewrite map_app, <- PP.
        rewrite <- !app_assoc. apply Permutation_app_head. rewrite !app_assoc. apply Permutation_app_tail.
        apply Permutation_app_comm. }
      apply FOP_app in HA2 as (Al & Ar & _).
      destruct (insert N dim A pt thr part med xl l) as [l'| | |] eqn:El; try discriminate. cbn [bind].
      destruct (insert N dim A pt thr part med xr r) as [r'| | |] eqn:Er; try discriminate. cbn [bind].
      intros E. inversion E; subst t'; clear E.
      destruct (IHl xl l' Bl Sl) as [Sl' Il]; auto. { intros; apply HF, Fl; auto. }
      destruct (IHr xr r' Br Sr) as [Sr' Ir]; auto. { intros; apply HF, Fr; auto. }
      cbn [strict entries]. split.
      + split; [|split; [|auto]].
        * intros e He. apply Il in He as [He|He]; auto. apply Fl in He as [_ He]. exact He.
        * intros e He. apply Ir in He as [He|He]; auto. apply Fr in He as [_ He]. exact He.
      + intros e He. rewrite in_app_iff. apply in_app_or in He as [He|He].
        * apply Il in He as [He|He]; auto. left. apply Fl; auto.
        * apply Ir in He as [He|He]; auto. left. apply Fr; auto.
  Qed.
End Dyn.
